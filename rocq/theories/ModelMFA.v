(** * Model of pymultifracs/mfa.py *)
From Coq Require Import Reals List ZArith Bool String.
From Verif Require Import XReal PyBase ModelUtils ModelMRQ ModelStructure ModelCumulants ModelSpectrum ModelEstimation ModelWavelet.
Import ListNotations.
Open Scope R_scope.

(** ** The constructors called through [from_dict] *)

(** the values found in the parameter dicts of mfa.py:77-88, :101-104, :157-168 *)
Inductive pyval :=
| VMrq (m : option mrq)      (* wt_leaders may be None *)
| VQ (q : qarg)
| VNat (n : nat)
| VInt (z : Z)
| VBool (b : bool).

(** structurefunction.py:64-68: the parameters of the generated [__init__]
    (fields with init=False are not parameters) *)
Definition SF_params : list string := ["mrq"; "q"; "j1"; "j2"; "weighted"]%string.
(** [StructureFunction] called with keyword arguments; with mrq=None the first
    statement of [__post_init__] reads None.formalism: AttributeError.  Values
    of other types than the documented ones are outside the model (TypeError). *)
Definition SF_ctor (kw : string -> option pyval) : res structure :=
  match kw "mrq"%string, kw "q"%string, kw "j1"%string, kw "j2"%string, kw "weighted"%string with
  | Some (VMrq (Some m)), Some (VQ q), Some (VInt j1), Some (VInt j2), Some (VBool w) =>
      StructureFunction m q j1 j2 w
  | Some (VMrq None), _, _, _, _ => Err AttributeError
  | _, _, _, _, _ => Err TypeError
  end.

(** cumulants.py:71-75 *)
Definition CUM_params : list string := ["mrq"; "n_cumul"; "j1"; "j2"; "weighted"]%string.
Definition CUM_ctor (kw : string -> option pyval) : res cumulants :=
  match kw "mrq"%string, kw "n_cumul"%string, kw "j1"%string, kw "j2"%string, kw "weighted"%string with
  | Some (VMrq (Some m)), Some (VNat n), Some (VInt j1), Some (VInt j2), Some (VBool w) =>
      Cumulants m n j1 j2 w
  | Some (VMrq None), _, _, _, _ => Err AttributeError
  | _, _, _, _, _ => Err TypeError
  end.

(** mfspectrum.py:74-79 *)
Definition MFS_params : list string := ["mrq"; "j1"; "j2"; "weighted"; "q"]%string.
Definition MFS_ctor (kw : string -> option pyval) : res spectrum :=
  match kw "mrq"%string, kw "j1"%string, kw "j2"%string, kw "weighted"%string, kw "q"%string with
  | Some (VMrq (Some m)), Some (VInt j1), Some (VInt j2), Some (VBool w), Some (VQ q) =>
      MultifractalSpectrum m j1 j2 w q
  | Some (VMrq None), _, _, _, _ => Err AttributeError
  | _, _, _, _, _ => Err TypeError
  end.

(** ** The functions *)

(** MFractalVar (mfa.py:27-38): unfilled fields are None *)
Record mfvar := mkVar {
  v_structure : option structure;
  v_cumulants : option cumulants;
  v_spectrum : option spectrum;
  v_hmin : option (list xr)
}.
(** MFractalData (mfa.py:16-26) *)
Record mfdata := mkData { d_dwt : mfvar; d_lwt : option mfvar }.

(** mfa.py:71-72 [if q is None: q = [2]] *)
Definition default_q (q : option qarg) : qarg :=
  match q with None => QList [PyInt 2] | Some q => q end.
(** mfa.py:74-75 [if isinstance(q, list): q = np.array(q)] *)
Definition to_array (q : qarg) : qarg :=
  match q with QList l => QArr (map num_val l) | a => a end.

(** mfa.py:77-88: {'mrq': m, 'q': q, 'n_cumul': ..., 'j1': ..., 'j2': ..., 'weighted': ...} *)
Definition mfa_params (m : option mrq) (q : qarg) (n_cumul : nat) (j1 j2 : Z) (weighted : bool)
  : sdict pyval :=
  [("mrq", VMrq m); ("q", VQ q); ("n_cumul", VNat n_cumul); ("j1", VInt j1);
   ("j2", VInt j2); ("weighted", VBool weighted)]%string.

(** mfa.py:90-97 and :106-113: the four estimators on one quantity *)
Definition mf_var (m : mrq) (j2_eff j1 : Z) (weighted : bool) (n_cumul : nat) (q : qarg) : res mfvar :=
  let d := mfa_params (Some m) q n_cumul j1 j2_eff weighted in
  s <- from_dict SF_params SF_ctor d ;;
  c <- from_dict CUM_params CUM_ctor d ;;
  sp <- from_dict MFS_params MFS_ctor d ;;
  h <- estimate_hmin m j1 j2_eff weighted true ;;
  Ok (mkVar (Some s) (Some c) (Some sp) (Some (hm_hmin h))).

(** mfa.py:41-119 [mf_analysis] *)
Definition mf_analysis (coefs : mrq) (leaders : option mrq) (j2_eff j1 : Z) (weighted : bool)
  (n_cumul : nat) (q : option qarg) : res mfdata :=
  let q := to_array (default_q q) in                                  (* :71-75 *)
  dwt <- mf_var coefs j2_eff j1 weighted n_cumul q ;;                 (* :85-97 *)
  match leaders with
  | Some l => lwt <- mf_var l j2_eff j1 weighted n_cumul q ;;         (* :99-113 *)
              Ok (mkData dwt (Some lwt))
  | None => Ok (mkData dwt None)                                      (* :115-117 *)
  end.

(** mfa.py:122-171 [minimal_mf_analysis]: no conversion of a list q, and no test
    for missing leaders *)
Definition minimal_mf_analysis (coefs : mrq) (leaders : option mrq) (j2_eff j1 : Z) (weighted : bool)
  (n_cumul : nat) (q : option qarg) : res mfdata :=
  let q := default_q q in                                             (* :154-155 *)
  s <- from_dict SF_params SF_ctor (mfa_params (Some coefs) q n_cumul j1 j2_eff weighted) ;;
  c <- from_dict CUM_params CUM_ctor (mfa_params leaders q n_cumul j1 j2_eff weighted) ;;
  Ok (mkData (mkVar (Some s) None None None) (Some (mkVar None (Some c) None None))).

(** mfa.py:174-237 [mf_analysis_full] *)
Definition mf_analysis_full (signal : arr) (j1 : Z) (j2 : option R) (norm gamint : R) (weighted : bool)
  (w : wavelet) (p_exp : pexp) (q : option qarg) (n_cumul : nat) (minimal : bool)
  : res (mfdata * list warning) :=
  '(t, ws) <- wavelet_analysis signal p_exp w j1 j2 gamint norm weighted ;;   (* :222-225 *)
  let fn := if minimal then minimal_mf_analysis else mf_analysis in           (* :227 *)
  d <- fn (wt_coefs t) (wt_leaders t) (j2_eff t) j1 weighted n_cumul q ;;     (* :229-235 *)
  Ok (d, ws).
