(** * Model of pymultifracs/structurefunction.py *)
From Coq Require Import Reals List ZArith Bool String.
From Verif Require Import XReal PyBase ModelUtils ModelMRQ.
Import ListNotations.
Open Scope R_scope.

(** The argument [q]: a python list or a numpy array of exponents.  The
    distinction matters in [self.q == 2] (structurefunction.py:126). *)
Inductive qarg : Set := QList (l : list pynum) | QArr (l : list R).

(** iteration over [q] *)
Definition q_items (q : qarg) : list pynum :=
  match q with QList l => l | QArr l => map PyFloat l end.

Record structure := mkSF {
  sf_formalism : formalism;
  sf_gamint : R;
  sf_nrep : nat;
  sf_j : list Z;
  sf_q : qarg;
  sf_j1 : Z;
  sf_j2 : Z;
  sf_weighted : bool;
  sf_nj : dict (list nat);          (* inherited field, never assigned: {} *)
  sf_logvalues : list arr;          (* [q][realisation][scale] *)
  sf_zeta : list (list xr);         (* [q][realisation] *)
  sf_intercept : list (list xr);    (* [q][realisation] *)
  sf_H : list xr                    (* [realisation] *)
}.

(** structurefunction.py:92-96: S(j, q) for one column of values[j] *)
Definition sf_moment (c : col) (q : pynum) : xr :=
  nanmean (fast_power (map xabs c) q).

(** The column of realisation r at every stored scale.  Simplification: all
    stored arrays have the same number of columns (as add_values is used by
    the library); a missing column would be a broadcasting error. *)
Definition cols_of (m : mrq) (r : nat) : list col :=
  map (fun kv => nth r (snd kv) []) (mq_values m).

(** structurefunction.py:86-100 [_compute]: log2 S(j, q) *)
Definition sf_compute (m : mrq) (nrep : nat) (q : qarg) : list arr :=
  map (fun e =>
         map (fun r => map (fun c => xlog2 (sf_moment c e)) (cols_of m r))
             (seq 0 nrep))
      (q_items q).

(** [self.zeta[self.q == 2][0]] (structurefunction.py:126): with an array the
    row of the first q equal to 2; with a list [self.q == 2] is the scalar
    False and the selection is empty.  IndexError when nothing is selected. *)
Fixpoint select_q2 (qs : list R) (rows : list (list xr)) : res (list xr) :=
  match qs, rows with
  | q :: qs', z :: rows' => if Req_EM_T q 2 then Ok z else select_q2 qs' rows'
  | _, _ => Err IndexError
  end.
Definition get_q2 (q : qarg) (rows : list (list xr)) : res (list xr) :=
  match q with QArr qs => select_q2 qs rows | QList _ => Err IndexError end.

(** structurefunction.py:75-126 [StructureFunction(mrq, q, j1, j2, weighted)] *)
Definition StructureFunction (m : mrq) (q : qarg) (j1 j2 : Z) (weighted : bool)
  : res structure :=
  nrep <- mq_nrep m ;;                                             (* :79 *)
  let logvalues := sf_compute m nrep q in                          (* :82 *)
  W <- reg_weights weighted (mq_nj m) nrep j1 j2 ;;                (* :109-115 *)
  fits <- mapM (regress_cols weighted j1 j2 W) logvalues ;;        (* :119-123 *)
  let zeta := map (map (fun t => fst (fst t))) fits in
  let intercept := map (map (fun t => snd (fst t))) fits in
  z2 <- get_q2 q zeta ;;                                           (* :126 *)
  let H := map (fun z => xsub (xdiv z (Fin 2)) (Fin (mq_gamint m))) z2 in
  Ok (mkSF (mq_formalism m) (mq_gamint m) nrep (dict_keys (mq_values m))
           q j1 j2 weighted [] logvalues zeta intercept H).

(** structurefunction.py:128-134 [get_intercept] *)
Definition get_intercept (s : structure) : option (list xr) :=
  match get_q2 (sf_q s) (sf_intercept s) with
  | Ok r => Some r
  | Err _ => None
  end.

(** The instance attributes of a StructureFunction: the dataclass fields
    (multiresquantity.py:14-17, structurefunction.py:65-73) and the ones
    assigned in [__post_init__], [_compute], [_compute_zeta]
    (structurefunction.py:77-84, 100, 106-107).  [_compute] keeps its table
    [values] local. *)
Definition sf_attributes : list string :=
  ["formalism"; "gamint"; "nj"; "nrep"; "q"; "j1"; "j2"; "weighted"; "j";
   "logvalues"; "zeta"; "H"; "intercept"]%string.

(** Reading [s.values]: the table of moments if there is such an attribute *)
Definition sf_attr_values (s : structure) : res (list arr) :=
  if existsb (String.eqb "values") sf_attributes
  then Ok (map (map (map (fun v => match v with Fin a => Fin (Rpower 2 a)
                                           | NInf => Fin 0 | w => w end)))
               (sf_logvalues s))
  else Err AttributeError.
