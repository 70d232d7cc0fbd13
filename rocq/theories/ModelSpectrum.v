(** * Model of pymultifracs/mfspectrum.py *)
From Coq Require Import Reals List ZArith Bool.
From Verif Require Import XReal PyBase ModelUtils ModelMRQ ModelStructure.
Import ListNotations.
Open Scope R_scope.

Record spectrum := mkMFS {
  ms_formalism : formalism;
  ms_nj : dict (list nat);
  ms_nrep : nat;
  ms_j : list Z;
  ms_q : qarg;
  ms_j1 : Z;
  ms_j2 : Z;
  ms_weighted : bool;
  ms_U : list arr;             (* [q][realisation][scale] *)
  ms_V : list arr;             (* [q][realisation][scale] *)
  ms_Dq : list (list xr);      (* [q][realisation] *)
  ms_hq : list (list xr)       (* [q][realisation] *)
}.

(** mfspectrum.py:108-112: R_j for one column *)
Definition spec_R (c : col) (q : pynum) : col :=
  let temp := fast_power (map xabs c) q in
  let s := nansum temp in
  map (fun t => xdiv t s) temp.

(** mfspectrum.py:113 *)
Definition spec_V (c : col) (q : pynum) : xr :=
  fixednansum (map2 xmul (spec_R c q) (map xlog2 (map xabs c))).

(** mfspectrum.py:114-115; [n] is mrq.nj[j] for this column *)
Definition spec_U (n : nat) (c : col) (q : pynum) : xr :=
  xadd (xlog2 (Fin (INR n)))
       (fixednansum (map (fun t => xmul t (xlog2 t)) (spec_R c q))).

(** (values[j][:, r], nj[j][r]) for every stored scale; [mrq.nj[j]] is a
    KeyError when missing (:104) *)
Definition cols_nj (m : mrq) (r : nat) : res (list (col * nat)) :=
  mapM (fun kv => n <- dict_getitem (mq_nj m) (fst kv) ;;
                  Ok (nth r (snd kv) [], nth r n 0%nat)) (mq_values m).

(** mfspectrum.py:85-144 [MultifractalSpectrum(mrq, j1, j2, weighted, q)] *)
Definition MultifractalSpectrum (m : mrq) (j1 j2 : Z) (weighted : bool) (q : qarg)
  : res spectrum :=
  nrep <- mq_nrep m ;;                                              (* :89 *)
  CN <- mapM (cols_nj m) (seq 0 nrep) ;;                            (* :103-105 *)
  let U := map (fun e => map (fun cn => map (fun p => spec_U (snd p) (fst p) e) cn) CN)
               (q_items q) in
  let V := map (fun e => map (fun cn => map (fun p => spec_V (fst p) e) cn) CN)
               (q_items q) in
  W <- reg_weights weighted (mq_nj m) nrep j1 j2 ;;                 (* :124-131 *)
  fitsU <- mapM (regress_cols weighted j1 j2 W) U ;;                (* :137 *)
  fitsV <- mapM (regress_cols weighted j1 j2 W) V ;;                (* :138 *)
  Ok (mkMFS (mq_formalism m) (mq_nj m) nrep (dict_keys (mq_values m)) q j1 j2
            weighted U V
            (map (map (fun t => xadd (Fin 1) (fst (fst t)))) fitsU) (* :140 *)
            (map (map (fun t => fst (fst t))) fitsV)).              (* :141 *)
