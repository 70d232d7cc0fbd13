(** * The covariance of fractional Gaussian noise embeds exactly *)
From Coq Require Import Reals List ZArith Bool Lia Lra.
From Verif Require Import XReal PyBase ModelSimul Spec SpecSimul LXReal LBase LDft LSimul LCirc.
Import ListNotations.
Open Scope R_scope.
Local Notation length := List.length.

Lemma powR_rpow x e : 0 <= x -> 0 < e -> powR x e = rpow x e.
Proof.
  intros H He. unfold powR, xpow, rpow. destruct (Rlt_dec 0 x) as [L|L]; [reflexivity|].
  destruct (Req_EM_T x 0) as [Z|Z]; [|lra]. destruct (Req_EM_T e 0) as [Z2|_]; [lra|]. destruct (Rlt_dec 0 e) as [_|Z2]; [reflexivity|lra].
Qed.
Lemma powR_pos x e : 0 < x -> powR x e = Rpower x e.
Proof. intros H. unfold powR, xpow. destruct (Rlt_dec 0 x); [reflexivity|lra]. Qed.
Lemma powR_exp0 x : 0 <= x -> powR x 0 = 1.
Proof.
  intros H. unfold powR, xpow. destruct (Rlt_dec 0 x) as [L|L]; [unfold Rpower; rewrite Rmult_0_l; apply exp_0|].
  destruct (Req_EM_T x 0) as [Z|Z]; [|lra]. destruct (Req_EM_T 0 0) as [_|Z2]; [reflexivity|lra].
Qed.
Lemma powR_one e : powR 1 e = 1.
Proof. rewrite powR_pos by lra. unfold Rpower. rewrite ln_1, Rmult_0_r. apply exp_0. Qed.
Lemma rpow_pos x e : 0 < x -> rpow x e = Rpower x e.
Proof. intros H. unfold rpow. destruct (Rlt_dec 0 x); [reflexivity|lra]. Qed.
Lemma rpow_0 e : rpow 0 e = 0.
Proof. unfold rpow. destruct (Rlt_dec 0 0); [lra|reflexivity]. Qed.
Lemma rpow_1 e : rpow 1 e = 1.
Proof. rewrite rpow_pos by lra. unfold Rpower. rewrite ln_1, Rmult_0_r. apply exp_0. Qed.
Lemma rpow_nonneg x e : 0 <= rpow x e.
Proof. unfold rpow. destruct (Rlt_dec 0 x); [left; apply exp_pos|lra]. Qed.

Lemma difn_ext_pos k f g x : (forall y, 0 < y -> f y = g y) -> 0 < x -> difn k f x = difn k g x.
Proof. revert x. induction k as [|k IH]; intros x H Hx; [now apply H|]. cbn [difn]. unfold dif. rewrite !IH; trivial. lra. Qed.
Lemma rpow_dif k s a x : 0 <= s * ff a k -> 0 < x -> 0 <= s * difn k (fun x => rpow x a) x.
Proof.
  intros H Hx. rewrite (difn_ext_pos k _ (fun x => Rpower x a)) by (trivial; intros; now apply rpow_pos). now apply power_dif.
Qed.
Lemma nonneg_at_0c (f : R -> R) : continuity_pt f 0 -> (forall t, 0 < t -> t <= 1 -> 0 <= f t) -> 0 <= f 0.
Proof.
  intros Cn H. destruct (Rle_lt_dec 0 (f 0)) as [|N]; [trivial|exfalso].
  destruct (Cn (- f 0) ltac:(lra)) as [e [He Q]]. cbn in Q. unfold R_dist, D_x, no_cond in Q.
  assert (M1 := Rmin_l (e / 2) 1). assert (M2 := Rmin_r (e / 2) 1).
  assert (M0 : 0 < Rmin (e / 2) 1) by (apply Rmin_glb_lt; lra).
  specialize (Q (Rmin (e / 2) 1)). assert (P : Rabs (f (Rmin (e / 2) 1) - f 0) < - f 0).
  { apply Q. split; [split; [trivial|lra]|]. rewrite Rminus_0_r, Rabs_pos_eq; lra. }
  specialize (H (Rmin (e / 2) 1) M0 M2). apply Rabs_def2 in P. lra.
Qed.
Lemma cont_shift w j a : 0 < j -> continuity_pt (fun t => w * Rpower (t + j) a) 0.
Proof.
  intros Hj. apply (continuity_pt_scal (fun t => Rpower (t + j) a)). apply derivable_continuous_pt.
  exists (a * Rpower (0 + j) (a - 1) * 1).
  apply (derivable_pt_lim_comp (fun t => t + j) (fun x => Rpower x a)).
  - assert (K := derivable_pt_lim_plus id (fct_cte j) 0 1 0 (derivable_pt_lim_id 0) (derivable_pt_lim_const j 0)). rewrite Rplus_0_r in K. exact K.
  - apply derivable_pt_lim_power. lra.
Qed.
Lemma rpow_small a t : 1 <= a -> 0 < t -> t <= 1 -> rpow t a <= t.
Proof.
  intros Ha H0 H1. rewrite rpow_pos by trivial. rewrite <- (exp_ln t H0) at 2. unfold Rpower.
  assert (L : ln t <= 0). { rewrite <- ln_1. destruct H1 as [H1|H1]; [left; now apply ln_increasing|rewrite H1; lra]. }
  assert (K : a * ln t <= ln t) by nra. destruct K as [K|K]; [left; now apply exp_increasing|rewrite K; lra].
Qed.
Lemma cont_id0 : continuity_pt (fun t => t) 0.
Proof. apply derivable_continuous_pt. exists 1. apply derivable_pt_lim_id. Qed.

Section Powers.
Variable a : R.
Let g (m : nat) : R := rpow (INR m) a.
Lemma g_S_pos m : g (S m) = Rpower (INR m + 1) a.
Proof. unfold g. rewrite S_INR. apply rpow_pos. assert (H := pos_INR m). lra. Qed.
Lemma g_mono m : 0 <= a -> g m <= g (S m).
Proof.
  intros Ha. destruct m as [|m].
  - unfold g. cbn [INR]. rewrite rpow_0. apply rpow_nonneg.
  - rewrite !g_S_pos, S_INR. apply Rle_Rpower_l; [trivial|]. assert (H := pos_INR m). lra.
Qed.
(** second differences *)
Lemma two_pow : 1 <= a -> 2 <= Rpower 2 a.
Proof. intros H. rewrite <- (Rpower_1 2) at 1 by lra. apply Rle_Rpower; lra. Qed.
Lemma two_pow_le1 : a <= 1 -> Rpower 2 a <= 2.
Proof. intros H. rewrite <- (Rpower_1 2) at 2 by lra. apply Rle_Rpower; lra. Qed.
Lemma two_pow_le2 : a <= 2 -> Rpower 2 a <= 4.
Proof. intros H. replace 4 with (Rpower 2 2) by (replace 2 with (INR 2) at 2 by (cbn; ring); rewrite Rpower_pow by lra; ring). apply Rle_Rpower; lra. Qed.
Lemma g_0 : g 0 = 0. Proof. apply rpow_0. Qed.
Lemma g_1 : g 1 = 1. Proof. apply rpow_1. Qed.
Lemma g_2 : g 2 = Rpower 2 a. Proof. rewrite g_S_pos. f_equal; cbn; try ring. Qed.
Lemma g_3 : g 3 = Rpower 3 a. Proof. rewrite g_S_pos. f_equal; cbn; try ring. Qed.
Lemma d2_eq m : difn 2 (fun x => rpow x a) (INR m) = g (m + 2) - 2 * g (m + 1) + g m.
Proof. cbn [difn]. unfold dif, g. rewrite !plus_INR. cbn [INR]. replace (INR m + (1 + 1)) with (INR m + 1 + 1) by ring. ring. Qed.
Lemma d3_eq m : difn 3 (fun x => rpow x a) (INR m) = g (m + 3) - 3 * g (m + 2) + 3 * g (m + 1) - g m.
Proof.
  cbn [difn]. unfold dif, g. rewrite !plus_INR. cbn [INR]. replace (INR m + (1 + 1 + 1)) with (INR m + 1 + 1 + 1) by ring.
  replace (INR m + (1 + 1)) with (INR m + 1 + 1) by ring. ring.
Qed.
Lemma d4_eq m : difn 4 (fun x => rpow x a) (INR m) = g (m + 4) - 4 * g (m + 3) + 6 * g (m + 2) - 4 * g (m + 1) + g m.
Proof.
  cbn [difn]. unfold dif, g. rewrite !plus_INR. cbn [INR]. replace (INR m + (1 + 1 + 1 + 1)) with (INR m + 1 + 1 + 1 + 1) by ring.
  replace (INR m + (1 + 1 + 1)) with (INR m + 1 + 1 + 1) by ring. replace (INR m + (1 + 1)) with (INR m + 1 + 1) by ring. ring.
Qed.
Lemma g_convex m : 1 <= a -> 0 <= g (m + 2) - 2 * g (m + 1) + g m.
Proof.
  intros Ha. destruct m as [|m].
  - cbn [Nat.add]. rewrite g_0, g_1, g_2. assert (K := two_pow Ha). lra.
  - rewrite <- d2_eq. assert (K := rpow_dif 2 1 a (INR (S m))). rewrite !Rmult_1_l in K. apply K; [|apply lt_0_INR; lia].
    cbn [ff INR]. nra.
Qed.
Lemma g_concave m : 0 <= a -> a <= 1 -> g (m + 2) - 2 * g (m + 1) + g m <= 0.
Proof.
  intros Ha H1. destruct m as [|m].
  - cbn [Nat.add]. rewrite g_0, g_1, g_2. assert (K := two_pow_le1 H1). lra.
  - rewrite <- d2_eq. assert (K := rpow_dif 2 (-1) a (INR (S m))).
    assert (0 <= -1 * difn 2 (fun x => rpow x a) (INR (S m))); [|lra]. apply K; [|apply lt_0_INR; lia]. cbn [ff INR]. nra.
Qed.
Lemma g_third m : 1 <= a -> a <= 2 -> g (m + 3) - 3 * g (m + 2) + 3 * g (m + 1) - g m <= 0.
Proof.
  intros Ha H1. assert (Sg : 0 <= -1 * ff a 3). { cbn [ff INR]. assert (0 <= a * (a - 1)) by nra. nra. }
  destruct m as [|m].
  - assert (K : 0 <= (fun t => (-1) * Rpower (t + 3) a + 3 * Rpower (t + 2) a + (-3) * Rpower (t + 1) a + t) 0).
    { apply (nonneg_at_0c (fun t => (-1) * Rpower (t + 3) a + 3 * Rpower (t + 2) a + (-3) * Rpower (t + 1) a + t)).
      - apply (continuity_pt_plus (fun t => -1 * Rpower (t + 3) a + 3 * Rpower (t + 2) a + -3 * Rpower (t + 1) a) (fun t => t)); [|apply cont_id0].
        apply (continuity_pt_plus (fun t => -1 * Rpower (t + 3) a + 3 * Rpower (t + 2) a) (fun t => -3 * Rpower (t + 1) a)); [|apply cont_shift; lra].
        apply (continuity_pt_plus (fun t => -1 * Rpower (t + 3) a) (fun t => 3 * Rpower (t + 2) a)); apply cont_shift; lra.
      - intros t H0 Ht. assert (Q := rpow_dif 3 (-1) a t Sg H0). cbn [difn] in Q. unfold dif in Q.
        assert (Q2 := rpow_small a t Ha H0 Ht).
        replace (t + 1 + 1 + 1) with (t + 3) in Q by ring. replace (t + 1 + 1) with (t + 2) in Q by ring.
        rewrite !(rpow_pos (t + _)) in Q by lra. lra. }
    cbv beta in K. rewrite !Rplus_0_l in K. cbn [Nat.add]. rewrite g_0, g_1, g_2, g_3.
    replace (Rpower 1 a) with 1 in K by (unfold Rpower; now rewrite ln_1, Rmult_0_r, exp_0). lra.
  - rewrite <- d3_eq. assert (K := rpow_dif 3 (-1) a (INR (S m)) Sg ltac:(apply lt_0_INR; lia)). lra.
Qed.
Lemma g_fourth m : 1 <= a -> a <= 2 -> 0 <= g (m + 4) - 4 * g (m + 3) + 6 * g (m + 2) - 4 * g (m + 1) + g m.
Proof.
  intros Ha H1. assert (Sg : 0 <= 1 * ff a 4).
  { cbn [ff INR]. replace (1 * (1 * (a - 0) * (a - 1) * (a - (1 + 1)) * (a - (1 + 1 + 1)))) with ((a * (a - 1)) * ((2 - a) * (3 - a))) by ring. apply Rmult_le_pos; nra. }
  destruct m as [|m].
  - assert (K : 0 <= (fun t => 1 * Rpower (t + 4) a + (-4) * Rpower (t + 3) a + 6 * Rpower (t + 2) a + (-4) * Rpower (t + 1) a + t) 0).
    { apply (nonneg_at_0c (fun t => 1 * Rpower (t + 4) a + (-4) * Rpower (t + 3) a + 6 * Rpower (t + 2) a + (-4) * Rpower (t + 1) a + t)).
      - apply (continuity_pt_plus (fun t => 1 * Rpower (t + 4) a + -4 * Rpower (t + 3) a + 6 * Rpower (t + 2) a + -4 * Rpower (t + 1) a) (fun t => t)); [|apply cont_id0].
        apply (continuity_pt_plus (fun t => 1 * Rpower (t + 4) a + -4 * Rpower (t + 3) a + 6 * Rpower (t + 2) a) (fun t => -4 * Rpower (t + 1) a)); [|apply cont_shift; lra].
        apply (continuity_pt_plus (fun t => 1 * Rpower (t + 4) a + -4 * Rpower (t + 3) a) (fun t => 6 * Rpower (t + 2) a)); [|apply cont_shift; lra].
        apply (continuity_pt_plus (fun t => 1 * Rpower (t + 4) a) (fun t => -4 * Rpower (t + 3) a)); apply cont_shift; lra.
      - intros t H0 Ht. assert (Q := rpow_dif 4 1 a t Sg H0). cbn [difn] in Q. unfold dif in Q.
        assert (Q2 := rpow_small a t Ha H0 Ht).
        replace (t + 1 + 1 + 1 + 1) with (t + 4) in Q by ring. replace (t + 1 + 1 + 1) with (t + 3) in Q by ring. replace (t + 1 + 1) with (t + 2) in Q by ring.
        rewrite !(rpow_pos (t + _)) in Q by lra. lra. }
    cbv beta in K. rewrite !Rplus_0_l in K. cbn [Nat.add].
    replace (g 4) with (Rpower 4 a) by (rewrite g_S_pos; f_equal; cbn; try ring). rewrite g_0, g_1, g_2, g_3.
    replace (Rpower 1 a) with 1 in K by (unfold Rpower; now rewrite ln_1, Rmult_0_r, exp_0). lra.
  - rewrite <- d4_eq. assert (K := rpow_dif 4 1 a (INR (S m)) Sg ltac:(apply lt_0_INR; lia)). lra.
Qed.
(** 3^a - 4 2^a + 7 >= 0 on [1, 2] *)
Lemma exp_deriv b w c : derivable_pt_lim (fun x => w * Rpower b x) c (w * (ln b * Rpower b c)).
Proof.
  apply (derivable_pt_lim_scal (fun x => Rpower b x)). unfold Rpower.
  replace (ln b * exp (c * ln b)) with (exp (c * ln b) * ln b) by ring.
  apply (derivable_pt_lim_comp (fun x => x * ln b) exp); [|apply derivable_pt_lim_exp].
  assert (K := derivable_pt_lim_mult id (fct_cte (ln b)) c 1 0 (derivable_pt_lim_id c) (derivable_pt_lim_const (ln b) c)).
  unfold fct_cte, id in K. replace (1 * ln b + c * 0) with (ln b) in K by ring. exact K.
Qed.
Lemma three_two : 1 <= a -> a <= 2 -> 0 <= Rpower 3 a - 4 * Rpower 2 a + 7.
Proof.
  intros Ha H2. destruct H2 as [H2|H2].
  2:{ rewrite H2. replace 2 with (INR 2) at 1 3 by (cbn; ring). rewrite !Rpower_pow by lra. cbn. lra. }
  destruct (MVT_cor2 (fun x => 1 * Rpower 3 x + (-4) * Rpower 2 x) (fun x => 1 * (ln 3 * Rpower 3 x) + (-4) * (ln 2 * Rpower 2 x)) a 2 H2) as [c [E1 E2]].
  { intros c _. apply (derivable_pt_lim_plus (fun x => 1 * Rpower 3 x) (fun x => -4 * Rpower 2 x)); apply exp_deriv. }
  assert (N : 1 * (ln 3 * Rpower 3 c) + -4 * (ln 2 * Rpower 2 c) <= 0).
  { assert (L2 : 0 < ln 2) by (rewrite <- ln_1; apply ln_increasing; lra).
    assert (L3 : ln 2 < ln 3) by (apply ln_increasing; lra).
    assert (R1 : Rpower 3 c <= 9 / 4 * Rpower 2 c).
    { unfold Rpower. replace (c * ln 3) with (c * (ln 3 - ln 2) + c * ln 2) by ring. rewrite exp_plus. apply Rmult_le_compat_r; [left; apply exp_pos|].
      replace (9 / 4) with (exp (2 * (ln 3 - ln 2))).
      - left. apply exp_increasing. apply Rmult_lt_compat_r; lra.
      - replace (2 * (ln 3 - ln 2)) with (ln (9 / 4)); [apply exp_ln; lra|]. unfold Rdiv. rewrite ln_mult, ln_Rinv by lra.
        replace 9 with (3 * 3) by ring. replace 4 with (2 * 2) by ring. rewrite !ln_mult by lra. ring. }
    assert (R2 : 9 * ln 3 < 16 * ln 2).
    { replace 9 with (INR 9) by (cbn; ring). replace 16 with (INR 16) by (cbn; ring). rewrite <- !ln_pow by lra. apply ln_increasing; lra. }
    assert (R3 : 0 < Rpower 2 c) by apply exp_pos. nra. }
  assert (V : 1 * Rpower 3 2 + -4 * Rpower 2 2 = -7).
  { replace 2 with (INR 2) at 1 3 by (cbn; ring). rewrite !Rpower_pow by lra. cbn. lra. }
  rewrite V in E1. nra.
Qed.

(** the correlation of unit fractional Gaussian noise *)
Definition fcor (m : nat) : R := match m with O => 1 | S m' => (g (S m + 0) + g m' - 2 * g (m' + 1)) / 2 end.
Lemma fcor_S m : fcor (S m) = (g (m + 2) - 2 * g (m + 1) + g m) / 2.
Proof. unfold fcor. replace (S (S m) + 0)%nat with (m + 2)%nat by lia. field. Qed.
Lemma fcor_convex n : (1 <= n)%nat -> 1 <= a -> a <= 2 -> convex_seq n fcor.
Proof.
  intros Hn H1 H2. refine (conj _ (conj _ _)).
  - destruct n as [|n]; [lia|]. rewrite fcor_S. assert (K := g_convex n H1). lra.
  - destruct n as [|[|n]]; [lia| |].
    + cbn [Nat.sub]. rewrite fcor_S. cbn [Nat.add fcor]. rewrite g_0, g_1, g_2. assert (K := two_pow_le2 H2). lra.
    + replace (S (S n) - 1)%nat with (S n) by lia. rewrite !fcor_S. assert (K := g_third n H1 H2).
      replace (S n + 2)%nat with (n + 3)%nat by lia. replace (S n + 1)%nat with (n + 2)%nat by lia. replace (S n) with (n + 1)%nat by lia. lra.
  - intros [|m] Hm.
    + rewrite !fcor_S. cbn [Nat.add fcor]. rewrite g_0, g_1, g_2, g_3. assert (K := three_two H1 H2). lra.
    + rewrite !fcor_S. assert (K := g_fourth m H1 H2).
      replace (S (S m) + 2)%nat with (m + 4)%nat by lia. replace (S (S m) + 1)%nat with (m + 3)%nat by lia.
      replace (S m + 2)%nat with (m + 3)%nat by lia. replace (S m + 1)%nat with (m + 2)%nat by lia.
      replace (S (S m)) with (m + 2)%nat by lia. replace (S m) with (m + 1)%nat by lia. lra.
Qed.
Lemma fcor_sum n : sumn n (fun m => fcor (S m)) = (g (n + 1) - g n - 1) / 2.
Proof.
  induction n.
  - rewrite sumn_0. cbn [Nat.add]. rewrite g_0, g_1. lra.
  - rewrite sumn_S, IHn, fcor_S. replace (S n + 1)%nat with (n + 2)%nat by lia. replace (S n) with (n + 1)%nat by lia. lra.
Qed.
Theorem fcor_eig n k : (1 <= n)%nat -> 0 < a -> a <= 2 -> 0 <= eig n fcor k.
Proof.
  intros Hn H0 H2. destruct (Rle_lt_dec 1 a) as [H1|H1].
  - apply convex_eig; [trivial|]. now apply fcor_convex.
  - apply negative_eig; [trivial| |].
    + intros [|m] L1 L2; [lia|]. rewrite fcor_S. assert (K := g_concave m ltac:(lra) ltac:(lra)). lra.
    + rewrite fcor_sum. destruct n as [|n]; [lia|]. replace (S n - 1)%nat with n by lia. rewrite fcor_S. cbn [fcor].
      assert (K1 := g_mono n ltac:(lra)). assert (K2 := g_mono (S n) ltac:(lra)).
      replace (S (S n)) with (n + 2)%nat in K2 by lia. replace (S n) with (n + 1)%nat in * by lia. lra.
Qed.
End Powers.
