(** * Model of the multifractal spectrum in rounded arithmetic (mfspectrum.py)

    Same conventions and simplifications as ModelRoundedEst. *)
From Coq Require Import Reals List ZArith Bool.
From Verif Require Import XReal PyBase ModelUtils ModelMRQ ModelStructure ModelSpectrum ModelRoundedEst.
Import ListNotations.
Open Scope R_scope.

Section Machine.
Variable F : arith.

(** np.nansum: the zeros added for NaN change no sum *)
Definition nansum_f (l : col) : xr := sum_x F (valid l).
(** utils.py:141-145 [fixednansum] *)
Definition fixednansum_f (l : col) : xr := if forallb isnan l then NaN else nansum_f l.

(** mfspectrum.py:108-112: R_j for one column *)
Definition spec_R_f (c : col) (q : pynum) : col :=
  let temp := fast_power_f F (map xabs c) q in
  let s := nansum_f temp in
  map (fun t => div_x F t s) temp.
(** mfspectrum.py:113 *)
Definition spec_V_f (c : col) (q : pynum) : xr :=
  fixednansum_f (map2 (mul_x F) (spec_R_f c q) (map (log2_x F) (map xabs c))).
(** mfspectrum.py:114-115 *)
Definition spec_U_f (n : nat) (c : col) (q : pynum) : xr :=
  add_x F (log2_x F (Fin (INR n)))
        (fixednansum_f (map (fun t => mul_x F t (log2_x F t)) (spec_R_f c q))).

(** mfspectrum.py:85-144 [MultifractalSpectrum(mrq, j1, j2, weighted, q)] *)
Definition MultifractalSpectrum_f (m : mrq) (j1 j2 : Z) (weighted : bool) (q : qarg) : res spectrum :=
  nrep <- mq_nrep m ;;
  CN <- mapM (cols_nj m) (seq 0 nrep) ;;
  let U := map (fun e => map (fun cn => map (fun p => spec_U_f (snd p) (fst p) e) cn) CN) (q_items q) in
  let V := map (fun e => map (fun cn => map (fun p => spec_V_f (fst p) e) cn) CN) (q_items q) in
  W <- reg_weights weighted (mq_nj m) nrep j1 j2 ;;
  fitsU <- mapM (regress_cols_f F weighted j1 j2 W) U ;;
  fitsV <- mapM (regress_cols_f F weighted j1 j2 W) V ;;
  Ok (mkMFS (mq_formalism m) (mq_nj m) nrep (dict_keys (mq_values m)) q j1 j2 weighted U V
            (map (map (fun t => add_x F (Fin 1) (fst (fst t)))) fitsU)
            (map (map (fun t => fst (fst t))) fitsV)).
End Machine.
