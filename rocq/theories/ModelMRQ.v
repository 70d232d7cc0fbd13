(** * Model of pymultifracs/multiresquantity.py *)
From Coq Require Import Reals List ZArith Bool String.
From Verif Require Import XReal PyBase ModelUtils.
Import ListNotations.
Open Scope R_scope.

(** The three formalism names of wavelet.py:18-27 and
    multiresquantity.py:103-106 *)
Inductive formalism : Set := WaveletCoef | WaveletLeader | WaveletPLeader.

(** multiresquantity.py:103-106: the strings accepted by [__post_init__] *)
Definition formalism_of_string (s : string) : res formalism :=
  if String.eqb s "wavelet coef" then Ok WaveletCoef
  else if String.eqb s "wavelet leader" then Ok WaveletLeader
  else if String.eqb s "wavelet p-leader" then Ok WaveletPLeader
  else Err ValueError.

(** multiresquantity.py:66-99 [MultiResolutionQuantity]: [values] and [nj] are
    dicts keyed by the scale; an entry of [values] is an array of shape
    (n, nrep) (a list of nrep columns), an entry of [nj] an array of shape
    (nrep,). *)
Record mrq := mkMRQ {
  mq_formalism : formalism;
  mq_gamint : R;
  mq_values : dict arr;
  mq_nj : dict (list nat)
}.

(** the constructor (dataclass fields, both dicts empty) *)
Definition new_mrq (f : formalism) (g : R) : mrq := mkMRQ f g [] [].

(** [MultiResolutionQuantity(formalism, gamint)] with the test of :101-106 *)
Definition MultiResolutionQuantity (name : string) (g : R) : res mrq :=
  f <- formalism_of_string name ;; Ok (new_mrq f g).

(** multiresquantity.py:108-111 [add_values] *)
Definition add_values (m : mrq) (coeffs : arr) (j : Z) : mrq :=
  mkMRQ (mq_formalism m) (mq_gamint m)
        (dict_set (mq_values m) j coeffs)                 (* :110 *)
        (dict_set (mq_nj m) j (map count_valid coeffs)).  (* :111 *)

(** multiresquantity.py:113-118 [__getattr__('nrep')]: number of columns of the
    first stored array, AttributeError when nothing is stored *)
Definition mq_nrep (m : mrq) : res nat :=
  match mq_values m with
  | [] => Err AttributeError
  | (_, a) :: _ => Ok (List.length a)
  end.

(** the generated [__repr__] (and [__eq__] with another object) of the dataclass reads the fields formalism, gamint, nj, nrep,
    values in this order (:14-17, :97-99); nrep is computed by [__getattr__].  The text itself is not modelled. *)
Definition mq_repr (m : mrq) : res unit := _ <- mq_nrep m ;; Ok tt.

(** multiresquantity.py:19-23 [get_nj] *)
Definition get_nj (nj : dict (list nat)) : list (list nat) := dict_vals nj.

(** multiresquantity.py:25-33 [get_nj_interv]: KeyError on a missing scale *)
Definition get_nj_interv (nj : dict (list nat)) (j1 j2 : Z)
  : res (list (list nat)) :=
  mapM (dict_getitem nj) (zrange j1 (j2 + 1)).

(** multiresquantity.py:35-63 [from_dict]: keep the entries whose key is a
    parameter of the constructor, then call it with keyword arguments.
    [params] lists the constructor's parameters (none of the classes of the
    library has a default value for one of them); a missing one is a
    TypeError. The dict has string keys; later bindings of a key do not occur
    (a dict has unique keys). *)
Definition sdict (V : Type) := list (string * V).
Fixpoint sdict_get {V} (d : sdict V) (k : string) : option V :=
  match d with
  | [] => None
  | (k', v) :: d' => if String.eqb k k' then Some v else sdict_get d' k
  end.
Definition call_kwargs {V A} (params : list string)
  (ctor : (string -> option V) -> res A) (kw : sdict V) : res A :=
  if forallb (fun k => existsb (String.eqb k) params) (map fst kw)
  then if forallb (fun p => existsb (String.eqb p) (map fst kw)) params
       then ctor (sdict_get kw)
       else Err TypeError          (* missing required argument *)
  else Err TypeError.              (* unexpected keyword argument *)
Definition from_dict {V A} (params : list string)
  (ctor : (string -> option V) -> res A) (d : sdict V) : res A :=
  call_kwargs params ctor
    (filter (fun kv => existsb (String.eqb (fst kv)) params) d).

(** ** Scale-range regression shared by the estimators

    The five estimators contain the same lines (structurefunction.py:109-123,
    cumulants.py:132-153, mfspectrum.py:124-141, estimation.py:30-40):
    [x] is the range j1..j2 repeated for every realisation, the weights are
    [nj] on that range or ones, and the regression is done column by column on
    a slice of the values. *)

(** [np.tile(np.arange(j1, j2+1)[:, None], (1, nrep))], one column *)
Definition scale_support (j1 j2 : Z) : col :=
  map (fun j => Fin (IZR j)) (zrange j1 (j2 + 1)).

(** The weights, one column per realisation.  Weighted: column r of
    [get_nj_interv(j1, j2)].  Unweighted: [np.ones((len(x), nrep))]. *)
Definition reg_weights (weighted : bool) (nj : dict (list nat)) (nrep : nat)
  (j1 j2 : Z) : res arr :=
  if weighted then
    rows <- get_nj_interv nj j1 j2 ;;
    Ok (map (fun r => map (fun row => Fin (INR (nth r row 0%nat))) rows)
            (seq 0 nrep))
  else Ok (repeat (repeat (Fin 1) (List.length (scale_support j1 j2))) nrep).

(** One call [linear_regression(x, y, nj)] on arrays with [nrep] columns, where
    y is the slice [ind_j1 : ind_j2+1] = [j1-1 : j2] along the scale axis of
    [vals] (one column per realisation).  When the range is empty and the
    regression is weighted, [get_nj_interv] returns an array of shape (0,)
    (not (0, nrep)), and the result cannot be broadcast back to shape (nrep,):
    ValueError. *)
Definition regress_cols (weighted : bool) (j1 j2 : Z) (W vals : arr)
  : res (list (xr * xr * xr)) :=
  if weighted && (j2 <? j1)%Z then Err ValueError
  else mapM (fun wv => linear_regression (scale_support j1 j2)
                         (py_slice (j1 - 1) j2 (snd wv)) (fst wv))
            (combine W vals).
