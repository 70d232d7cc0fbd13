(** * Model of pymultifracs/estimation.py *)
From Coq Require Import Reals List ZArith Bool.
From Verif Require Import XReal PyBase ModelUtils ModelMRQ ModelStructure.
Import ListNotations.
Open Scope R_scope.

(** result of [estimate_hmin]: per realisation; [hm_warned] records whether the
    warning of estimation.py:44-45 was issued *)
Record hmin_result := mkHmin {
  hm_hmin : list xr;
  hm_intercept : list xr;
  hm_y : arr;                 (* log2 sup, one column per realisation *)
  hm_warned : bool
}.

(** [0 in hmin] (estimation.py:44) *)
Definition zero_in (l : list xr) : bool :=
  existsb (fun v => match v with
                    | Fin a => if Req_EM_T a 0 then true else false
                    | _ => false end) l.

(** estimation.py:25-26: [np.nanmax(np.abs(values[j]), axis=0)] for realisation r.
    A zero-row array makes nanmax raise ValueError. *)
Definition sup_col (a : arr) (r : nat) : res xr :=
  match nth r a [] with
  | [] => Err ValueError
  | c => Ok (nanmax (map xabs c))
  end.

(** estimation.py:16-50 [estimate_hmin(wt_coefs, j1, j2_eff, weighted, warn)].
    [values[1]] gives the number of realisations (KeyError when scale 1 is
    missing); [np.zeros] rejects a negative number of scales (ValueError). *)
Definition estimate_hmin (m : mrq) (j1 j2_eff : Z) (weighted warn : bool)
  : res hmin_result :=
  a1 <- dict_getitem (mq_values m) 1 ;;                               (* :22 *)
  let nrep := List.length a1 in
  if (j2_eff - j1 + 1 <? 0)%Z then Err ValueError                     (* :22 *)
  else
    rows <- mapM (fun j => a <- dict_getitem (mq_values m) j ;;       (* :24-27 *)
                           mapM (sup_col a) (seq 0 nrep))
                 (zrange j1 (j2_eff + 1)) ;;
    let y := map (fun r => map (fun row => xlog2 (nth r row NaN)) rows)
                 (seq 0 nrep) in                                      (* :33 *)
    W <- reg_weights weighted (mq_nj m) nrep j1 j2_eff ;;             (* :34-38 *)
    if weighted && (j2_eff <? j1)%Z then
      (* nj has shape (0,): the result is an empty array when nrep = 1, a
         broadcasting error otherwise *)
      if Nat.eqb nrep 1 then Ok (mkHmin [] [] y false) else Err ValueError
    else
      fits <- mapM (fun wv => linear_regression (scale_support j1 j2_eff)
                                (snd wv) (fst wv)) (combine W y) ;;   (* :40 *)
      let hmin := map (fun t => fst (fst t)) fits in
      Ok (mkHmin hmin (map (fun t => snd (fst t)) fits) y
                 (zero_in hmin && warn)).                             (* :44-45 *)

(** estimation.py:81-96 [compute_hurst]: builds the structure function for
    q = 2, then reads its attribute [values] *)
Definition compute_hurst (m : mrq) (j1 j2 : Z) (weighted : bool)
  : res (list xr * structure * list arr) :=
  s <- StructureFunction m (QArr [2]) j1 j2 weighted ;;               (* :86-90 *)
  v <- sf_attr_values s ;;                                            (* :92 *)
  match sf_zeta s with
  | z0 :: _ => Ok (map (fun z => xdiv z (Fin 2)) z0, s,
                   map (map (map xlog2)) v)                           (* :94-96 *)
  | [] => Err IndexError
  end.

(** estimation.py:53-55 [plot_hmin], up to the unpacking of the pair returned
    by [estimate_hmin] (return_y is False) into three variables *)
Definition plot_hmin (m : mrq) (j1 j2_eff : Z) (weighted warn : bool) : res unit :=
  h <- estimate_hmin m j1 j2_eff weighted warn ;;
  Err ValueError.      (* not enough values to unpack (expected 3, got 2) *)
