(** * C60 (log-volatility, mrw), C71-C74 *)
From Coq Require Import Reals List ZArith Bool Lia Lra String.
From Verif Require Import XReal PyBase ModelSimul Spec SpecSimul LXReal LBase LDft LSimul LCirc LFgn LFgnCov LNoise LMrw LBivariate PropsSimul.
Import ListNotations.
Open Scope R_scope.
Local Notation length := List.length.

(** the log-volatility process: for every integral scale 0 < L <= N dt, no failure, no warning and exactly the covariance
    lam^2 log+(L / (dt (lag + 1))), which is non-negative, non-increasing and zero from lag floor(L / dt) on *)
Theorem C60_log_volatility W (P : expectation W) N R L lam dt (z0 : W -> option noise) (drawn : W -> noise) :
  (2 <= N)%nat -> 0 < L -> 0 < dt -> L / dt <= INR N -> white_complex P R (2 * N - 2) (fun w => nz (pick (z0 w) (drawn w))) ->
  exists X, (forall w, gaussian_w N L lam dt "cme" (z0 w) (drawn w) = Ok (X w, false)) /\
    has_covariance P R N X (fun a b => lam ^ 2 * log_plus (L / dt / (Rabs (INR a - INR b) + 1))).
Proof.
  intros HN HL Hd HLN HZ. destruct (rho_w_eq N L dt HL Hd HLN) as [rho [E1 [E2 E3]]].
  set (cov := map (fun r => lam ^ 2 * ln r) rho).
  assert (Lc : List.length cov = N) by (unfold cov; now rewrite map_length).
  assert (Nc : forall k, (k < N)%nat -> nth k cov 0 = lam ^ 2 * log_plus (L / dt / (INR k + 1))).
  { intros k Hk. unfold cov. rewrite (nth_indep _ 0 (lam ^ 2 * ln 0)) by (rewrite map_length; lia). rewrite (map_nth (fun r => lam ^ 2 * ln r)). now rewrite E3. }
  assert (x0 : 0 < L / dt) by (now apply Rdiv_lt_0_compat). assert (l2 := pow2_ge_0 lam).
  destruct (C62_convex_exact W P cov N R _ HN Lc HZ) as [X [A B]].
  - intros k Hk. rewrite Nc by trivial. apply Rmult_le_pos; [trivial|apply log_plus_nonneg].
  - intros k Hk. rewrite !Nc by lia. apply Rmult_le_compat_l; [trivial|]. assert (Pk := pos_INR k). rewrite plus_INR. cbn [INR].
    apply log_plus_mono; [apply Rdiv_lt_0_compat; lra|]. unfold Rdiv. apply Rmult_le_compat_l; [apply Rlt_le, x0|]. apply Rinv_le_contravar; lra.
  - intros k Hk. rewrite !Nc by lia. assert (K := log_plus_convex (L / dt) k x0). replace (S (S k)) with (k + 2)%nat in K by lia. replace (S k) with (k + 1)%nat in K by lia. nra.
  - exists X. split.
    + intros w. unfold gaussian_w. rewrite E1. cbn [bind String.eqb Ascii.eqb Bool.eqb andb]. apply A.
    + destruct B as [B1 [B2 B3]]. refine (conj B1 (conj B2 _)). intros r r' a b Hr Hr' Ha Hb. destruct (B3 r r' a b Hr Hr' Ha Hb) as [I1 C1].
      split; [exact I1|]. rewrite C1. destruct (Nat.eq_dec r r'); [|reflexivity]. unfold stationary. rewrite Nc by lia. do 3 f_equal.
      destruct (Nat.le_ge_cases a b) as [Le|Le]; apply le_INR in Le as Le2.
      * rewrite Nat.max_r, Nat.min_l, minus_INR by trivial. rewrite Rabs_left1; lra.
      * rewrite Nat.max_l, Nat.min_r, minus_INR by trivial. rewrite Rabs_pos_eq; lra.
Qed.
(** a lag at or beyond the integral scale has zero covariance, a lag below a non-negative one *)
Theorem C60_log_volatility_support x k : 0 < x -> 0 <= log_plus (x / (INR k + 1)) /\ (x <= INR k + 1 -> log_plus (x / (INR k + 1)) = 0) /\
  (forall l, (k <= l)%nat -> log_plus (x / (INR l + 1)) <= log_plus (x / (INR k + 1))).
Proof.
  intros Hx. assert (Pk := pos_INR k). split; [apply log_plus_nonneg|]. split.
  - intros H. unfold log_plus. destruct (Rle_dec 1 (x / (INR k + 1))) as [L|]; [|reflexivity].
    replace (x / (INR k + 1)) with 1; [apply ln_1|]. apply Rle_antisym; [exact L|]. apply Rmult_le_reg_r with (INR k + 1); [lra|]. unfold Rdiv. rewrite Rmult_assoc, Rinv_l by lra. lra.
  - intros l Hl. apply le_INR in Hl. apply log_plus_mono; [apply Rdiv_lt_0_compat; lra|]. unfold Rdiv. apply Rmult_le_compat_l; [lra|]. apply Rinv_le_contravar; lra.
Qed.

(** ** mrw *)
(** cumulated sums of finite numbers *)
Lemma xcumsum_fin_from acc c : xcumsum_from (Fin acc) (map Fin c) = map Fin (cumsum_from acc c).
Proof. revert acc. induction c as [|x c IH]; intros acc; [reflexivity|]. cbn [map xcumsum_from xadd cumsum_from]. now rewrite IH. Qed.
Lemma xcumsum_fin c : xcumsum (map Fin c) = map Fin (cumsum c).
Proof. apply xcumsum_fin_from. Qed.
Lemma centre_w_fin r lam L w : 0 < L -> centre_w r lam L w = map Fin (map (fun v => v - Rsum w / INR (List.length w) - r * lam ^ 2 * ln L) w).
Proof.
  intros HL. unfold centre_w. rewrite map_map. apply map_ext. intros v. unfold xln. destruct (Rlt_dec 0 L); [|lra]. reflexivity.
Qed.
Lemma map2_exp (e w : list R) : map2 (fun a b => xmul (Fin a) (xexp b)) e (map Fin w) = map Fin (map2 (fun a b => a * exp b) e w).
Proof. revert w. induction e as [|x e IH]; intros [|y w]; try reflexivity. cbn [map]. rewrite !map2_cons. cbn [map xmul xexp]. f_equal. apply IH. Qed.

Lemma map2_diag {A B C D} (f : B -> C -> D) (g : A -> B) (h : A -> C) l : map2 f (map g l) (map h l) = map (fun x => f (g x) (h x)) l.
Proof. induction l as [|x l IH]; [reflexivity|]. cbn [map]. rewrite map2_cons. now rewrite IH. Qed.

(** the centred log-volatility of one realisation *)
Definition centred (lam L : R) (w : list R) : list R := map (fun v => v - mean w - 1 / 2 * lam ^ 2 * ln L) w.
(** its time average is exactly - lam^2 / 2 log L *)
Theorem C73_mean_volatility lam L w : (1 <= List.length w)%nat -> mean (centred lam L w) = - (lam ^ 2 / 2) * ln L.
Proof.
  intros Hw. assert (n0 : INR (List.length w) <> 0) by (apply not_0_INR; lia). unfold mean at 1, centred. rewrite map_length.
  assert (K : forall c (l : list R), Rsum (map (fun v => v - c) l) = Rsum l - INR (List.length l) * c).
  { intros c l. induction l as [|x l IH]; [cbn; ring|]. cbn [map]. change (x - c + Rsum (map (fun v => v - c) l) = x + Rsum l - INR (S (List.length l)) * c). rewrite IH, S_INR. ring. }
  rewrite (map_ext _ (fun v => v - (mean w + 1 / 2 * lam ^ 2 * ln L))) by (intros; ring). rewrite K. unfold mean. field. exact n0.
Qed.
(** mrw is the cumulated sum of fractional Gaussian noise (step 1/N) multiplied by exp of the centred log-volatility; all values are finite *)
Theorem C73_mrw_values sh N H lam L sigma z0e z0w drawn_w drawn_e w e ww we :
  shape_N sh = N -> (2 <= N)%nat -> 0 <= H <= 1 -> 0 < L -> L <= INR N ->
  shaped (shape_R sh) (2 * N - 2) (nz (pick z0w drawn_w)) -> shaped (shape_R sh) (2 * N - 2) (nz drawn_e) ->
  gaussian_w N L lam 1 "cme" z0w drawn_w = Ok (w, ww) -> fgn (SPair N (shape_R sh)) H sigma None "cme" z0e drawn_e = Ok (Arr2 e, we) ->
  mrw sh H (Some lam) L sigma "cme" z0e z0w drawn_w drawn_e =
    Ok (presented sh (map2 (fun ec wc => map Fin (cumsum (map2 (fun a b => a * exp b) ec (centred lam L wc)))) e w)) /\
  shaped (shape_R sh) N w /\ shaped (shape_R sh) N e.
Proof.
  intros EN HN HH HL HLN Sw Se Gw Fe.
  destruct (rho_w_eq N L 1 HL Rlt_0_1 ltac:(unfold Rdiv; rewrite Rinv_1, Rmult_1_r; exact HLN)) as [rho [E1 [E2 _]]].
  assert (Sw2 : shaped (shape_R sh) (2 * (N - 1)) (nz (pick z0w drawn_w))) by (replace (2 * (N - 1))%nat with (2 * N - 2)%nat by lia; exact Sw).
  assert (Se2 : shaped (shape_R sh) (2 * (N - 1)) (nz drawn_e)) by (replace (2 * (N - 1))%nat with (2 * N - 2)%nat by lia; exact Se).
  assert (ShW : shaped (shape_R sh) N w).
  { unfold gaussian_w in Gw. rewrite E1 in Gw. cbn [bind String.eqb Ascii.eqb Bool.eqb andb] in Gw.
    rewrite (cme_eq _ N HN) with (R := shape_R sh) in Gw by (trivial; now rewrite map_length). injection Gw as <- _. apply array_shaped. }
  assert (Hst : sampling_step None N (/ INR N)) by (right; auto).
  assert (Fc : fgn_cols (SPair N (shape_R sh)) H sigma None "cme" z0e drawn_e = Ok (e, we)).
  { unfold fgn in Fe. destruct (fgn_cols (SPair N (shape_R sh)) H sigma None "cme" z0e drawn_e) as [[x y]|]; cbn [bind out] in Fe; [|discriminate]. injection Fe as -> ->. reflexivity. }
  assert (ShE : shaped (shape_R sh) N e).
  { unfold fgn_cols in Fc. rewrite H_test in Fc by lra. cbn [shape_N] in Fc. rewrite (proj1 (step_ok None N (/ INR N) ltac:(lia) Hst)) in Fc. cbn [bind String.eqb Ascii.eqb Bool.eqb andb] in Fc.
    rewrite (cme_eq _ N HN (fgn_cov_length _ _ _ _)) with (R := shape_R sh) in Fc by trivial. injection Fc as <- _. apply array_shaped. }
  refine (conj _ (conj ShW ShE)).
  unfold mrw. rewrite H_test by lra. rewrite EN. destruct (Rlt_dec (INR N) L); [lra|]. rewrite Gw. cbn [bind]. rewrite Fc. cbn [bind].
  assert (Q : map2 (fun ec wc => xcumsum (map2 (fun a b => xmul (Fin a) (xexp b)) ec wc)) e (map (centre_w (1 / 2) lam L) w)
              = map2 (fun ec wc => map Fin (cumsum (map2 (fun a b => a * exp b) ec (centred lam L wc)))) e w).
  { clear -HL. revert w. induction e as [|x e IH]; intros [|y w]; try reflexivity. cbn [map]. rewrite !map2_cons. f_equal; [|apply IH].
    rewrite centre_w_fin by trivial. rewrite map2_exp, xcumsum_fin. reflexivity. }
  rewrite Q. f_equal. apply presented_out with (N := N); [trivial|].
  destruct ShW as [W1 W2], ShE as [F1 F2]. split; [rewrite map2_length; lia|].
  apply Forall_forall. intros c Hc. clear -Hc F2 W2. revert w W2 Hc. induction e as [|x e IH]; intros [|y w] W2 Hc; try contradiction.
  rewrite map2_cons in Hc. inversion F2; subst. inversion W2; subst. destruct Hc as [<-|Hc]; [|now apply (IH H2 w)].
  rewrite map_length, cumsum_length, map2_length. unfold centred. rewrite map_length. lia.
Qed.
(** without intermittency mrw is fractional Brownian motion, from the same draws *)
Theorem C73_lam0_is_fbm sh N H L sigma z0e z0w drawn_w drawn_e :
  shape_N sh = N -> (2 <= N)%nat -> 0 <= H <= 1 -> 0 < L -> L <= INR N ->
  shaped (shape_R sh) (2 * N - 2) (nz (pick z0w drawn_w)) -> shaped (shape_R sh) (2 * N - 2) (nz drawn_e) ->
  exists B warned, fbm sh H sigma None "cme" z0e drawn_e = Ok (presented sh B, warned) /\
    mrw sh H (Some 0) L sigma "cme" z0e z0w drawn_w drawn_e = Ok (presented sh (map (map Fin) B)).
Proof.
  intros EN HN HH HL HLN Sw Se.
  assert (Hst : sampling_step None N (/ INR N)) by (right; auto).
  assert (Se2 : shaped (shape_R sh) (2 * (N - 1)) (nz drawn_e)) by (replace (2 * (N - 1))%nat with (2 * N - 2)%nat by lia; exact Se).
  assert (Sw2 : shaped (shape_R sh) (2 * (N - 1)) (nz (pick z0w drawn_w))) by (replace (2 * (N - 1))%nat with (2 * N - 2)%nat by lia; exact Sw).
  assert (G := cme_eq (fgn_cov N H sigma (/ INR N)) N HN (fgn_cov_length _ _ _ _) (shape_R sh) (nz drawn_e) Se2).
  set (X := map (fun r => map (cme_val (fgn_cov N H sigma (/ INR N)) N (nz drawn_e) r) (seq 0 N)) (seq 0 (shape_R sh))) in G.
  assert (Sh : shaped (shape_R sh) N X) by apply array_shaped.
  destruct (fgn_cme_eq sh H sigma None z0e drawn_e N _ _ _ EN HN Hst (proj1 HH) (proj2 HH) G Sh) as [_ [_ F2]].
  destruct (fgn_cme_eq (SPair N (shape_R sh)) H sigma None z0e drawn_e N _ _ _ eq_refl HN Hst (proj1 HH) (proj2 HH) G Sh) as [_ [F3 _]].
  exists (map cumsum X), (cme_warned (fgn_cov N H sigma (/ INR N)) N). split; [exact F2|].
  destruct (rho_w_eq N L 1 HL Rlt_0_1 ltac:(unfold Rdiv; rewrite Rinv_1, Rmult_1_r; exact HLN)) as [rho [E1 [E2 _]]].
  set (cov := map (fun r => 0 ^ 2 * ln r) rho). assert (Lc : List.length cov = N) by (unfold cov; now rewrite map_length).
  assert (C0 : forall k, nth k cov 0 = 0).
  { intros k. destruct (nth_in_or_default k cov 0) as [I|E]; [|exact E]. unfold cov in I. apply in_map_iff in I as [x [Ex _]]. unfold cov. rewrite <- Ex. ring. }
  assert (Gw : gaussian_w N L 0 1 "cme" z0w drawn_w = Ok (map (fun r => map (cme_val cov N (nz (pick z0w drawn_w)) r) (seq 0 N)) (seq 0 (shape_R sh)), cme_warned cov N)).
  { unfold gaussian_w. rewrite E1. cbn [bind String.eqb Ascii.eqb Bool.eqb andb]. apply cme_eq; trivial. }
  assert (Wz : forall r a, cme_val cov N (nz (pick z0w drawn_w)) r a = 0).
  { intros r a. unfold cme_val. apply sumn_zero. intros i _.
    assert (E0 : forall k, eig (N - 1) (fun i => nth i cov 0) k = 0).
    { intros k. unfold eig. apply sumn_zero. intros m _. unfold emb. rewrite !C0. destruct (Nat.leb m (N - 1)); ring. }
    unfold cme_coef. rewrite !E0, !Rmult_0_r, !Rabs_R0. replace ((0 + 0) / 2) with 0 by field. replace ((0 - 0) / 2) with 0 by field. rewrite sqrt_0.
    destruct (Nat.ltb i (2 * (N - 1))); ring. }
  cbn [presented] in F3. rewrite (proj1 (C73_mrw_values sh N H 0 L sigma z0e z0w drawn_w drawn_e _ _ _ _ EN HN HH HL HLN Sw Se Gw F3)).
  f_equal. f_equal. unfold X. rewrite !map_map. rewrite map2_diag. apply map_ext. intros r. f_equal. f_equal.
  assert (Z : centred 0 L (map (cme_val cov N (nz (pick z0w drawn_w)) r) (seq 0 N)) = map (fun _ => 0) (seq 0 N)).
  { unfold centred. rewrite map_map. apply map_ext. intros a. rewrite Wz. unfold mean.
    assert (Z0 : Rsum (map (cme_val cov N (nz (pick z0w drawn_w)) r) (seq 0 N)) = 0) by (apply sumn_zero; intros; apply Wz). rewrite Z0. unfold Rdiv. ring. }
  rewrite Z. clear. generalize (seq 0 N). intros l. induction l as [|x l IH]; [reflexivity|]. cbn [map]. rewrite map2_cons, IH, exp_0, Rmult_1_r. reflexivity.
Qed.
