(** * Properties C28, C29, C32, C33: structure functions *)
From Coq Require Import Reals List ZArith Bool Lra Lia.
From Verif Require Import XReal PyBase ModelUtils ModelMRQ ModelStructure ModelCumulants ModelSpectrum ModelEstimation Spec SpecMRQ LXReal LReg LUtils LBase LPattern LEst LMoment LCum LEntropy.
Import ListNotations.
Open Scope R_scope.

(** reading the closed forms *)
Lemma at2_map {X} (F : X -> nat -> xr) l nrep i r x0 : (i < length l)%nat -> (r < nrep)%nat ->
  at2 (map (fun x => map (F x) (seq 0 nrep)) l) i r = F (nth i l x0) r.
Proof.
  intros Hi Hr. unfold at2. rewrite (nth_map_lt _ _ _ x0) by trivial.
  rewrite (nth_map_lt _ _ _ 0%nat) by (now rewrite seq_length). now rewrite seq_nth.
Qed.
Lemma at3_map {X} (F : X -> nat -> Z -> xr) l nrep g i r j x0 : (i < length l)%nat -> (r < nrep)%nat -> In j (one_to g) ->
  at3 (map (fun x => map (fun r => map (F x r) (one_to g)) (seq 0 nrep)) l) i r j = F (nth i l x0) r j.
Proof.
  intros Hi Hr Hj. apply one_to_In in Hj. unfold at3. rewrite (nth_map_lt _ _ _ x0) by trivial.
  rewrite (nth_map_lt _ _ _ 0%nat) by (now rewrite seq_length). rewrite seq_nth by trivial. cbn [Nat.add].
  rewrite (nth_map_lt _ _ _ 0%Z) by (unfold one_to; rewrite map_length, seq_length; lia).
  unfold one_to. rewrite (nth_map_lt _ _ _ 0%nat) by (rewrite seq_length; lia). rewrite seq_nth by lia. f_equal. lia.
Qed.
Lemma nth_PyFloat i qs : (i < length qs)%nat -> nth i (map PyFloat qs) (PyFloat 0) = PyFloat (nth i qs 0).
Proof. intros H. now rewrite (nth_map_lt _ _ _ 0). Qed.

(** the rows of a successful StructureFunction *)
Lemma SF_rows m g nrep qs j1 j2 wd s :
  regular m g nrep -> (1 <= j1)%Z -> (j1 <= j2)%Z -> (j2 <= Z.of_nat g)%Z ->
  StructureFunction m (QArr qs) j1 j2 wd = Ok s ->
  forall i r, (i < length qs)%nat -> (r < nrep)%nat ->
    (forall j, In j (scales m) -> at3 (sf_logvalues s) i r j = logS m (PyFloat (nth i qs 0)) r j) /\
    at2 (sf_zeta s) i r = fslope wd m j1 j2 r (logS m (PyFloat (nth i qs 0)) r) /\
    at2 (sf_intercept s) i r = ficept wd m j1 j2 r (logS m (PyFloat (nth i qs 0)) r).
Proof.
  intros HR H1 H2 H3 E i r Hi Hr. rewrite (SF_eq m g nrep HR) in E by trivial.
  destruct (has_two qs); [|discriminate]. injection E as <-. cbn [sf_logvalues sf_zeta sf_intercept].
  assert (Hi' : (i < length (map PyFloat qs))%nat) by (now rewrite map_length).
  split; [|split].
  - intros j Hj. rewrite (proj1 (proj2 HR)) in Hj.
    rewrite (at3_map (fun q r => logS m q r) (map PyFloat qs) nrep g i r j (PyFloat 0)) by trivial. now rewrite nth_PyFloat.
  - rewrite (at2_map (fun q r => fslope wd m j1 j2 r (logS m q r)) (map PyFloat qs) nrep i r (PyFloat 0)) by trivial. now rewrite nth_PyFloat.
  - rewrite (at2_map (fun q r => ficept wd m j1 j2 r (logS m q r)) (map PyFloat qs) nrep i r (PyFloat 0)) by trivial. now rewrite nth_PyFloat.
Qed.
Lemma logS_eq m q r j : usable m j r -> q_defined q (numbers m j r) -> 0 < abs_moment q (numbers m j r) ->
  logS m (PyFloat q) r j = Fin (log2R (abs_moment q (numbers m j r))).
Proof.
  intros [U1 U2] Q P. unfold logS. rewrite sf_moment_eq by trivial. cbn [num_val]. now apply xlog2_pos.
Qed.
Lemma range_in m g nrep j j1 j2 : regular m g nrep -> (1 <= j1)%Z -> (j2 <= Z.of_nat g)%Z -> (j1 <= j <= j2)%Z -> In j (scales m).
Proof. intros HR A B H. rewrite (proj1 (proj2 HR)). apply one_to_In. lia. Qed.

(** ** C28: log2 of moments, and their least-squares line *)
Theorem C28_log_moments :
  forall m g nrep qs j1 j2 wd s,
  regular m g nrep -> (1 <= j1)%Z -> (j1 <= j2)%Z -> (j2 <= Z.of_nat g)%Z ->
  StructureFunction m (QArr qs) j1 j2 wd = Ok s ->
  sf_nrep s = nrep /\ sf_j s = scales m /\
  length (sf_logvalues s) = length qs /\ length (sf_zeta s) = length qs /\
  forall i r j, (i < length qs)%nat -> (r < nrep)%nat -> In j (scales m) ->
    usable m j r -> q_defined (nth i qs 0) (numbers m j r) ->
    0 < abs_moment (nth i qs 0) (numbers m j r) ->
    at3 (sf_logvalues s) i r j
    = Fin (ln (mean (map (qpow (nth i qs 0)) (numbers m j r))) / ln 2).
Proof.
  intros m g nrep qs j1 j2 wd s HR H1 H2 H3 E.
  assert (E' := E). rewrite (SF_eq m g nrep HR) in E' by trivial.
  destruct (has_two qs); [|discriminate]. injection E' as <-.
  split; [reflexivity|]. split; [symmetry; apply (proj1 (proj2 HR))|].
  split; [cbn; now rewrite !map_length|]. split; [cbn; now rewrite !map_length|].
  intros i r j Hi Hr Hj U Q P.
  destruct (SF_rows m g nrep qs j1 j2 wd _ HR H1 H2 H3 E i r Hi Hr) as (A & _). rewrite A by trivial. now apply logS_eq.
Qed.
Print Assumptions C28_log_moments.

Theorem C28_zeta_best_line :
  forall m g nrep qs j1 j2 wd s,
  regular m g nrep -> (1 <= j1)%Z -> (j1 < j2)%Z -> (j2 <= Z.of_nat g)%Z ->
  StructureFunction m (QArr qs) j1 j2 wd = Ok s ->
  forall i r (y : Z -> R), (i < length qs)%nat -> (r < nrep)%nat ->
    (forall j, (j1 <= j <= j2)%Z -> (0 < count m j r)%nat /\ at3 (sf_logvalues s) i r j = Fin (y j)) ->
    exists a b, at2 (sf_zeta s) i r = Fin a /\ at2 (sf_intercept s) i r = Fin b /\
      is_best_line (fit_points wd m j1 j2 r y) a b.
Proof.
  intros m g nrep qs j1 j2 wd s HR H1 H2 H3 E i r y Hi Hr Hy.
  destruct (SF_rows m g nrep qs j1 j2 wd s HR H1 ltac:(lia) H3 E i r Hi Hr) as (A & B & D).
  assert (W : well_posed (fit_points wd m j1 j2 r y)) by (apply fit_well_posed; trivial; intros; now apply Hy).
  destruct (fit_finite wd m j1 j2 r y W) as [F G].
  exists (LReg.slope (fit_points wd m j1 j2 r y)), (LReg.icept (fit_points wd m j1 j2 r y)).
  assert (X : forall j, (j1 <= j <= j2)%Z -> logS m (PyFloat (nth i qs 0)) r j = Fin (y j)).
  { intros j Hj. rewrite <- A by (eapply range_in; eassumption). now apply Hy. }
  split; [rewrite B, <- F; now apply fslope_ext|]. split; [rewrite D, <- G; now apply ficept_ext|]. now apply best_line.
Qed.
Print Assumptions C28_zeta_best_line.

(** ** C29: zeta(0) = 0 *)
Lemma moment_0 c : (0 < count_valid c)%nat -> sf_moment c (PyFloat 0) = Fin 1.
Proof.
  intros H. unfold sf_moment. rewrite fast_power_map, map_map.
  assert (E : forall x, fp1 (PyFloat 0) (xabs x) = if isnan x then NaN else Fin 1).
  { intros x. unfold fp1, fast_power. cbn [num_val].
    destruct (Req_EM_T 0 1); [lra|]. destruct (Req_EM_T 0 2); [lra|]. destruct (Req_EM_T 0 (1/2)); [lra|].
    destruct (Req_EM_T 0 0); [|lra]. destruct x; simpl; trivial.
    - destruct (Rlt_dec 0 (Rabs r)); [rewrite Rpower_O by trivial; reflexivity|].
      destruct (Req_EM_T (Rabs r) 0); [destruct (Req_EM_T 0 0); [reflexivity|lra]|]. assert (P := Rabs_pos r). lra.
    - destruct (Req_EM_T 0 0); [reflexivity|lra].
    - destruct (Req_EM_T 0 0); [reflexivity|lra]. }
  rewrite (map_ext _ _ E).
  assert (V : valid (map (fun x => if isnan x then NaN else Fin 1) c) = fin (repeat 1 (count_valid c))).
  { clear H. unfold count_valid, valid. induction c as [|x c IH]; simpl; trivial. unfold notnan in *.
    destruct (isnan x); simpl; [exact IH|]. now rewrite IH. }
  unfold nanmean, nansum, count_valid at 1. rewrite V, xsum_fin, fin_length, repeat_length.
  assert (Hn : 0 < INR (count_valid c)) by (now apply lt_0_INR).
  rewrite xdiv_Fin by lra. f_equal.
  assert (S : forall n, Rsum (repeat 1 n) = INR n).
  { induction n; [reflexivity|]. rewrite S_INR. simpl repeat. unfold Rsum in *. simpl. rewrite IHn. ring. }
  rewrite S. field. lra.
Qed.
Theorem C29_zeta_zero :
  forall m g nrep qs j1 j2 wd s,
  regular m g nrep -> counted m -> (1 <= j1)%Z -> (j1 <= j2)%Z -> (j2 <= Z.of_nat g)%Z ->
  StructureFunction m (QArr qs) j1 j2 wd = Ok s ->
  forall i r, (i < length qs)%nat -> (r < nrep)%nat -> nth i qs 0 = 0 ->
    (forall j, In j (scales m) -> (0 < count m j r)%nat -> at3 (sf_logvalues s) i r j = Fin 0) /\
    ((j1 < j2)%Z -> (forall j, (j1 <= j <= j2)%Z -> (0 < count m j r)%nat) ->
       at2 (sf_zeta s) i r = Fin 0 /\ at2 (sf_intercept s) i r = Fin 0).
Proof.
  intros m g nrep qs j1 j2 wd s HR HC H1 H2 H3 E i r Hi Hr Hq.
  destruct (SF_rows m g nrep qs j1 j2 wd s HR H1 H2 H3 E i r Hi Hr) as (A & B & D). rewrite Hq in *.
  assert (L : forall j, In j (scales m) -> (0 < count m j r)%nat -> logS m (PyFloat 0) r j = Fin 0).
  { intros j Hj Hc. unfold logS. rewrite moment_0.
    - rewrite xlog2_pos by lra. now rewrite log2R_1.
    - destruct (dict_get_Some (mq_values m) j Hj) as [a Ha]. unfold count, column in *. rewrite Ha. rewrite (HC j a Ha) in Hc.
      change 0%nat with (count_valid []) in Hc at 2. now rewrite map_nth in Hc. }
  split.
  - intros j Hj Hc. rewrite A by trivial. now apply L.
  - intros Hlt Hc. rewrite B, D.
    destruct (fit_exact wd m j1 j2 r 0 0 Hlt Hc) as [F G].
    assert (X : forall j, (j1 <= j <= j2)%Z -> logS m (PyFloat 0) r j = Fin (0 * IZR j + 0)).
    { intros j Hj. rewrite L; [f_equal; ring| |now apply Hc]. eapply range_in; eassumption. }
    split; [rewrite <- F; now apply fslope_ext|rewrite <- G; now apply ficept_ext].
Qed.
Print Assumptions C29_zeta_zero.

(** ** C32: H *)
Theorem C32_H_value :
  forall m g nrep qs j1 j2 wd,
  regular m g nrep -> (1 <= j1)%Z -> (j1 <= j2)%Z -> (j2 <= Z.of_nat g)%Z -> In 2 qs ->
  exists s, StructureFunction m (QArr qs) j1 j2 wd = Ok s /\
    length (sf_H s) = nrep /\
    forall i r z, (i < length qs)%nat -> (r < nrep)%nat -> nth i qs 0 = 2 ->
      at2 (sf_zeta s) i r = Fin z ->
      nth r (sf_H s) NaN = Fin (z / 2 - mq_gamint m).
Proof.
  intros m g nrep qs j1 j2 wd HR H1 H2 H3 I2.
  assert (E := SF_eq m g nrep HR qs j1 j2 wd H1 H2 H3). apply has_two_In in I2. rewrite I2 in E.
  eexists. split; [exact E|]. split; [cbn; now rewrite map_length, seq_length|].
  intros i r z Hi Hr Hq Hz.
  destruct (SF_rows m g nrep qs j1 j2 wd _ HR H1 H2 H3 E i r Hi Hr) as (_ & B & _). rewrite B, Hq in Hz.
  cbn [sf_H]. rewrite (nth_map_lt _ _ _ 0%nat) by (now rewrite seq_length). rewrite seq_nth by trivial. cbn [Nat.add].
  rewrite Hz. rewrite xdiv_Fin by lra. reflexivity.
Qed.
Print Assumptions C32_H_value.

(** the accessor of the intercept at q = 2: the intercepts of the order 2 of a returned structure function, for every
    realisation; None when the stored orders do not contain 2 or are a python list (a user may replace them) *)
Theorem C32_get_intercept :
  forall m g nrep qs j1 j2 wd s,
  regular m g nrep -> (1 <= j1)%Z -> (j1 <= j2)%Z -> (j2 <= Z.of_nat g)%Z ->
  StructureFunction m (QArr qs) j1 j2 wd = Ok s ->
  exists v, get_intercept s = Some v /\ length v = nrep /\
    forall i r, (i < length qs)%nat -> (r < nrep)%nat -> nth i qs 0 = 2 -> nth r v NaN = at2 (sf_intercept s) i r.
Proof.
  intros m g nrep qs j1 j2 wd s HR H1 H2 H3 E.
  assert (E' := E). rewrite (SF_eq m g nrep HR) in E' by trivial.
  destruct (has_two qs) eqn:T; [|discriminate]. injection E' as <-.
  eexists. split.
  - unfold get_intercept. cbn [sf_q sf_intercept get_q2]. rewrite select_map, T. reflexivity.
  - split; [now rewrite map_length, seq_length|]. intros i r Hi Hr Hq.
    destruct (SF_rows m g nrep qs j1 j2 wd _ HR H1 H2 H3 E i r Hi Hr) as (_ & _ & D). rewrite D, Hq.
    rewrite (nth_map_lt _ _ _ 0%nat) by (now rewrite seq_length). rewrite seq_nth by trivial. reflexivity.
Qed.
Print Assumptions C32_get_intercept.

(** REFUTED: without 2 among the moments the constructor raises IndexError
    instead of setting H to None; the same happens for every python list *)
Theorem C32_no_two_refuted :
  forall m g nrep q j1 j2 wd,
  regular m g nrep -> (1 <= j1)%Z -> (j1 <= j2)%Z -> (j2 <= Z.of_nat g)%Z ->
  (match q with QArr qs => ~ In 2 qs | QList _ => True end) ->
  StructureFunction m q j1 j2 wd = Err IndexError.
Proof.
  intros m g nrep q j1 j2 wd HR H1 H2 H3 N. destruct q as [l|qs].
  - now apply (SF_list m g nrep HR).
  - rewrite (SF_eq m g nrep HR) by trivial. destruct (has_two qs) eqn:E; [|reflexivity].
    apply has_two_In in E. contradiction.
Qed.
Print Assumptions C32_no_two_refuted.

(** ** C33: log-convexity and increasing power means *)
Lemma log2_exp x : log2R (exp x) = x / ln 2.
Proof. unfold log2R. now rewrite ln_exp. Qed.
Lemma log_convex q1 q2 t l : l <> [] -> 0 <= t <= 1 -> q_defined q1 l -> q_defined q2 l ->
  0 < abs_moment q1 l -> 0 < abs_moment q2 l -> 0 < abs_moment (t * q1 + (1 - t) * q2) l ->
  log2R (abs_moment (t * q1 + (1 - t) * q2) l) <= t * log2R (abs_moment q1 l) + (1 - t) * log2R (abs_moment q2 l).
Proof.
  intros Hne Ht D1 D2 P1 P2 P. assert (L2 := ln2_pos).
  destruct (Req_dec t 0) as [->|T0]; [replace (0 * q1 + (1 - 0) * q2) with q2 by ring; lra|].
  destruct (Req_dec t 1) as [->|T1]; [replace (1 * q1 + (1 - 1) * q2) with q1 by ring; lra|].
  assert (K := holder q1 q2 t l Hne ltac:(lra) D1 D2 P1 P2). apply log2R_le in K; trivial. rewrite log2_exp in K.
  eapply Rle_trans; [exact K|]. right. unfold log2R. field. lra.
Qed.
(** ... of the returned values: qs[k] lies between qs[i1] and qs[i2] *)
Theorem C33_log_convex :
  forall m g nrep qs j1 j2 wd s,
  regular m g nrep -> (1 <= j1)%Z -> (j1 <= j2)%Z -> (j2 <= Z.of_nat g)%Z ->
  StructureFunction m (QArr qs) j1 j2 wd = Ok s ->
  forall i1 i2 k r j t x1 x2 x, (i1 < length qs)%nat -> (i2 < length qs)%nat -> (k < length qs)%nat ->
    (r < nrep)%nat -> In j (scales m) -> usable m j r ->
    0 <= t <= 1 -> nth k qs 0 = t * nth i1 qs 0 + (1 - t) * nth i2 qs 0 ->
    q_defined (nth i1 qs 0) (numbers m j r) -> q_defined (nth i2 qs 0) (numbers m j r) ->
    at3 (sf_logvalues s) i1 r j = Fin x1 -> at3 (sf_logvalues s) i2 r j = Fin x2 ->
    at3 (sf_logvalues s) k r j = Fin x ->
    x <= t * x1 + (1 - t) * x2.
Proof.
  intros m g nrep qs j1 j2 wd s HR H1 H2 H3 E i1 i2 k r j t x1 x2 x I1 I2 Ik Hr Hj [U1 U2] Ht Hq D1 D2 X1 X2 X.
  destruct (SF_rows m g nrep qs j1 j2 wd s HR H1 H2 H3 E i1 r I1 Hr) as (A1 & _).
  destruct (SF_rows m g nrep qs j1 j2 wd s HR H1 H2 H3 E i2 r I2 Hr) as (A2 & _).
  destruct (SF_rows m g nrep qs j1 j2 wd s HR H1 H2 H3 E k r Ik Hr) as (Ak & _).
  rewrite A1 in X1 by trivial. rewrite A2 in X2 by trivial. rewrite Ak, Hq in X by trivial.
  assert (Dk : q_defined (t * nth i1 qs 0 + (1 - t) * nth i2 qs 0) (numbers m j r)).
  { destruct D1 as [D1|]; [|now right]. destruct D2 as [D2|]; [|now right]. left.
    assert (0 <= t * nth i1 qs 0) by (apply Rmult_le_pos; lra).
    assert (0 <= (1 - t) * nth i2 qs 0) by (apply Rmult_le_pos; lra). lra. }
  unfold logS in X, X1, X2. rewrite sf_moment_eq in X, X1, X2 by trivial. cbn [num_val] in *.
  change (reals (column m j r)) with (numbers m j r) in *.
  assert (Inv : forall a b, xlog2 (Fin a) = Fin b -> 0 < a /\ b = log2R a).
  { intros a b Hab. unfold xlog2 in Hab. destruct (Rlt_dec 0 a); [injection Hab as <-; auto|]. destruct (Req_EM_T a 0); discriminate. }
  apply Inv in X as [P ->]. apply Inv in X1 as [P1 ->]. apply Inv in X2 as [P2 ->].
  now apply log_convex.
Qed.
Print Assumptions C33_log_convex.

Theorem C33_power_means :
  forall m g nrep qs j1 j2 wd s,
  regular m g nrep -> (1 <= j1)%Z -> (j1 <= j2)%Z -> (j2 <= Z.of_nat g)%Z ->
  StructureFunction m (QArr qs) j1 j2 wd = Ok s ->
  forall i k r j x y, (i < length qs)%nat -> (k < length qs)%nat ->
    (r < nrep)%nat -> In j (scales m) -> usable m j r ->
    0 < nth i qs 0 <= nth k qs 0 ->
    at3 (sf_logvalues s) i r j = Fin x -> at3 (sf_logvalues s) k r j = Fin y ->
    x / nth i qs 0 <= y / nth k qs 0.
Proof.
  intros m g nrep qs j1 j2 wd s HR H1 H2 H3 E i k r j x y Ii Ik Hr Hj [U1 U2] Hq X Y.
  destruct (SF_rows m g nrep qs j1 j2 wd s HR H1 H2 H3 E i r Ii Hr) as (Ai & _).
  destruct (SF_rows m g nrep qs j1 j2 wd s HR H1 H2 H3 E k r Ik Hr) as (Ak & _).
  rewrite Ai in X by trivial. rewrite Ak in Y by trivial.
  set (a := nth i qs 0) in *. set (b := nth k qs 0) in *. set (l := numbers m j r) in *.
  unfold logS in X, Y. rewrite sf_moment_eq in X, Y by (trivial; left; cbn; lra). cbn [num_val] in *.
  change (reals (column m j r)) with l in *.
  assert (Inv : forall u v, xlog2 (Fin u) = Fin v -> 0 < u /\ v = log2R u).
  { intros u v Hab. unfold xlog2 in Hab. destruct (Rlt_dec 0 u); [injection Hab as <-; auto|]. destruct (Req_EM_T u 0); discriminate. }
  apply Inv in X as [P ->]. apply Inv in Y as [P2 ->].
  assert (M0 : abs_moment 0 l = 1).
  { unfold abs_moment. rewrite (mean_ext _ (fun _ => 1)); [now apply mean_const|]. intros. unfold qpow. destruct (Req_EM_T 0 0); [reflexivity|lra]. }
  assert (K := log_convex b 0 (a / b) l U2). 
  replace (a / b * b + (1 - a / b) * 0) with a in K by (field; lra). rewrite M0, log2R_1 in K.
  assert (T : 0 <= a / b <= 1).
  { split; [left; apply Rdiv_lt_0_compat; lra|]. apply Rmult_le_reg_r with b; [lra|]. unfold Rdiv. rewrite Rmult_assoc, Rinv_l by lra. lra. }
  specialize (K T ltac:(left; lra) ltac:(left; lra) P2 ltac:(lra) P).
  apply Rmult_le_reg_r with a; [lra|]. unfold Rdiv at 1. rewrite Rmult_assoc, Rinv_l by lra.
  eapply Rle_trans; [rewrite Rmult_1_r; exact K|]. right. field. lra.
Qed.
Print Assumptions C33_power_means.
