(** * Model of the estimators in rounded arithmetic

    ModelUtils, ModelStructure, ModelCumulants and ModelEstimation compute with exact real numbers.  Here the same code (utils.py,
    structurefunction.py, cumulants.py, estimation.py) is run on a machine that rounds: every addition, product, quotient, power and
    logarithm may be inexact, and the sums of np.sum and np.nanmean may be accumulated in any order.  NaN and infinities arise and
    propagate as in the exact model; only the results that are numbers are rounded.
    Simplifications: no overflow; the integers of the regression (counts, scales, V_0, V_1, V_2, the numerators of the weights and their
    common denominator) and the binomial coefficients are below 2^53, hence computed exactly, as numpy does with int64 or with
    float64 holding integers. *)
From Coq Require Import Reals List ZArith Bool.
From Verif Require Import XReal PyBase ModelUtils ModelMRQ ModelStructure ModelCumulants ModelEstimation.
Import ListNotations.
Open Scope R_scope.

Record arith := mkArith {
  f_add : R -> R -> R;
  f_mul : R -> R -> R;
  f_div : R -> R -> R;
  f_sum : list R -> R;            (* np.sum along an axis *)
  f_log2 : R -> R;                (* np.log2 *)
  f_ln : R -> R;                  (* np.log *)
  f_pow : R -> pynum -> R;        (* np.power, np.sqrt, or the loop of products of utils.py:51-58 *)
  f_log2e : R                     (* np.log2(np.exp(1)) *)
}.

Section Machine.
Variable F : arith.

(** an operation: special values as in the exact model, numbers rounded *)
Definition lift1 (f : R -> R) (exact : xr -> xr) (x : xr) : xr :=
  match x, exact x with Fin a, Fin _ => Fin (f a) | _, z => z end.
Definition lift2 (f : R -> R -> R) (exact : xr -> xr -> xr) (x y : xr) : xr :=
  match x, y, exact x y with Fin a, Fin b, Fin _ => Fin (f a b) | _, _, z => z end.
Definition add_x := lift2 (f_add F) xadd.
Definition sub_x := lift2 (fun a b => f_add F a (- b)) xsub.
Definition mul_x := lift2 (f_mul F) xmul.
Definition div_x := lift2 (f_div F) xdiv.
Definition log2_x := lift1 (f_log2 F) xlog2.
Definition ln_x := lift1 (f_ln F) xln.

(** the entries, when all are numbers *)
Fixpoint all_fin (l : list xr) : option (list R) :=
  match l with
  | [] => Some []
  | Fin a :: l' => match all_fin l' with Some o => Some (a :: o) | None => None end
  | _ => None
  end.
(** np.sum *)
Definition sum_x (l : list xr) : xr :=
  match all_fin l with
  | Some [] => Fin 0
  | Some o => Fin (f_sum F o)
  | None => xsum l
  end.
(** np.nanmean: the sum of the non-NaN entries divided by their number.  np.nanmean adds a zero for every NaN, which changes no sum. *)
Definition nanmean_f (l : list xr) : xr := div_x (sum_x (valid l)) (Fin (INR (count_valid l))).

(** utils.py:26-60 [fast_power]: the array itself for exponent 1, a product for exponent 2 *)
Definition fast_power_f (a : col) (e : pynum) : col :=
  if Req_EM_T (num_val e) 1 then a
  else if Req_EM_T (num_val e) 2 then map (fun x => mul_x x x) a
  else map (fun x => lift1 (fun t => f_pow F t e) (fun z => hd NaN (fast_power [z] e)) x) a.

(** utils.py:100-101: [weights * y] with the broadcasting of numpy *)
Definition bcast_mul_f (w y : col) : res col :=
  if Nat.eqb (length w) (length y) then Ok (map2 mul_x w y)
  else match y with
       | [y0] => Ok (map (fun a => mul_x a y0) w)
       | _ => match w with
              | [w0] => Ok (map (fun a => mul_x w0 a) y)
              | _ => Err ValueError
              end
       end.

(** utils.py:70-108 [linear_regression] *)
Definition linear_regression_f (x y nj : col) : res (xr * xr * xr) :=
  if negb (Nat.eqb (length nj) (length x)) then Err AssertionError
  else
    let V_0 := xsum nj in
    let V_1 := xsum (map2 xmul nj x) in
    let V_2 := xsum (map2 (fun n t => xmul n (xmul t t)) nj x) in
    let den := xsub (xmul V_0 V_2) (xmul V_1 V_1) in
    let weights_slope := map2 (fun n t => div_x (xmul n (xsub (xmul V_0 t) V_1)) den) nj x in
    let weights_intercept := map2 (fun n t => div_x (xmul n (xsub V_2 (xmul V_1 t))) den) nj x in
    wa <- bcast_mul_f weights_slope y ;;
    wb <- bcast_mul_f weights_intercept y ;;
    let var_a := sum_x (map2 (fun n w => mul_x (mul_x (div_x (Fin 1) n) w) w) nj weights_slope) in
    Ok (sum_x wa, sum_x wb, var_a).

(** ModelMRQ.regress_cols *)
Definition regress_cols_f (weighted : bool) (j1 j2 : Z) (W vals : arr) : res (list (xr * xr * xr)) :=
  if weighted && (j2 <? j1)%Z then Err ValueError
  else mapM (fun wv => linear_regression_f (scale_support j1 j2) (py_slice (j1 - 1) j2 (snd wv)) (fst wv)) (combine W vals).

(** structurefunction.py:86-100 [_compute] *)
Definition sf_moment_f (c : col) (q : pynum) : xr := nanmean_f (fast_power_f (map xabs c) q).
Definition sf_compute_f (m : mrq) (nrep : nat) (q : qarg) : list arr :=
  map (fun e => map (fun r => map (fun c => log2_x (sf_moment_f c e)) (cols_of m r)) (seq 0 nrep)) (q_items q).

(** structurefunction.py:75-126 [StructureFunction(mrq, q, j1, j2, weighted)] *)
Definition StructureFunction_f (m : mrq) (q : qarg) (j1 j2 : Z) (weighted : bool) : res structure :=
  nrep <- mq_nrep m ;;
  let logvalues := sf_compute_f m nrep q in
  W <- reg_weights weighted (mq_nj m) nrep j1 j2 ;;
  fits <- mapM (regress_cols_f weighted j1 j2 W) logvalues ;;
  let zeta := map (map (fun t => fst (fst t))) fits in
  let intercept := map (map (fun t => snd (fst t))) fits in
  z2 <- get_q2 q zeta ;;
  let H := map (fun z => sub_x (div_x z (Fin 2)) (Fin (mq_gamint m))) z2 in
  Ok (mkSF (mq_formalism m) (mq_gamint m) nrep (dict_keys (mq_values m)) q j1 j2 weighted [] logvalues zeta intercept H).

(** cumulants.py:101-118 *)
Definition log_moment_f (c : col) (m : nat) : xr := nanmean_f (fast_power_f (map ln_x (map xabs c)) (PyFloat (INR m))).
Definition cum_aux_f (mom : nat -> xr) (prev : list xr) (m : nat) : xr :=
  fold_left (fun aux n => add_x aux (mul_x (mul_x (Fin (C (m - 1) (n - 1))) (nth (n - 1) prev NaN)) (mom (m - n)%nat)))
            (seq 1 (m - 1)) (Fin 0).
Definition cum_step_f (mom : nat -> xr) (prev : list xr) (m : nat) : xr :=
  if Nat.eqb m 1 then mom m else sub_x (mom m) (cum_aux_f mom prev m).
Fixpoint cum_list_f (mom : nat -> xr) (n : nat) : list xr :=
  match n with
  | O => []
  | S k => let prev := cum_list_f mom k in prev ++ [cum_step_f mom prev (S k)]
  end.
Definition cum_value_f (n_cumul : nat) (c : col) (m : nat) : xr := nth (m - 1) (cum_list_f (log_moment_f c) n_cumul) NaN.
Definition cum_compute_f (m : mrq) (nrep n_cumul : nat) : list arr :=
  map (fun k => map (fun r => map (fun c => cum_value_f n_cumul c k) (cols_of m r)) (seq 0 nrep)) (seq 1 n_cumul).

(** cumulants.py:82-153 [Cumulants(mrq, n_cumul, j1, j2, weighted)] *)
Definition Cumulants_f (m : mrq) (n_cumul : nat) (j1 j2 : Z) (weighted : bool) : res cumulants :=
  nrep <- mq_nrep m ;;
  let values := cum_compute_f m nrep n_cumul in
  W <- reg_weights weighted (mq_nj m) nrep j1 j2 ;;
  fits <- mapM (regress_cols_f weighted j1 j2 W) values ;;
  let slope := map (map (fun t => fst (fst t))) fits in
  let intercept := map (map (fun t => snd (fst t))) fits in
  let var := map (map snd) fits in
  Ok (mkCum (mq_formalism m) (mq_nj m) nrep (dict_keys (mq_values m)) (seq 1 n_cumul) j1 j2 weighted values
            (map (map (fun s => mul_x s (Fin (f_log2e F)))) slope)
            (map (map (fun v => mul_x (Fin (f_mul F (f_log2e F) (f_log2e F))) v)) var) slope intercept).

(** estimation.py:16-50 [estimate_hmin]; np.abs and np.nanmax are exact *)
Definition estimate_hmin_f (m : mrq) (j1 j2_eff : Z) (weighted warn : bool) : res hmin_result :=
  a1 <- dict_getitem (mq_values m) 1 ;;
  let nrep := List.length a1 in
  if (j2_eff - j1 + 1 <? 0)%Z then Err ValueError
  else
    rows <- mapM (fun j => a <- dict_getitem (mq_values m) j ;; mapM (sup_col a) (seq 0 nrep)) (zrange j1 (j2_eff + 1)) ;;
    let y := map (fun r => map (fun row => log2_x (nth r row NaN)) rows) (seq 0 nrep) in
    W <- reg_weights weighted (mq_nj m) nrep j1 j2_eff ;;
    if weighted && (j2_eff <? j1)%Z then
      if Nat.eqb nrep 1 then Ok (mkHmin [] [] y false) else Err ValueError
    else
      fits <- mapM (fun wv => linear_regression_f (scale_support j1 j2_eff) (snd wv) (fst wv)) (combine W y) ;;
      let hmin := map (fun t => fst (fst t)) fits in
      Ok (mkHmin hmin (map (fun t => snd (fst t)) fits) y (zero_in hmin && warn)).
End Machine.
