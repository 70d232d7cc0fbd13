(** * C122: the wavelet analysis of a multifractal random walk measures its intermittency *)
From Coq Require Import Reals List ZArith Bool Lra Lia String.
From Verif Require Import XReal PyBase ModelUtils ModelMRQ ModelStructure ModelWavelet ModelSimul Spec SpecMRQ SpecSimul LXReal LUtils LBase LFilter LTransform LPattern LWave LPoly LCone LWaveEst LDft LSimul LEst LNoise
  PropsWavelet PropsMissing PropsWhite PropsWhitePower PropsWhiteCase PropsMrwStat PropsMrwScale PropsMrwScale4 PropsMrwHaar PropsMrwHaar2.
Import ListNotations.
Open Scope R_scope.
Local Notation length := List.length.
Local Notation entry := SpecMRQ.entry.

(** ** Specification *)
(** expectation of the mean of |d(j, .)|^q over the coefficients of scale j, and the flatness: 3 for Gaussian coefficients *)
Definition coef_moment {W} (P : expectation W) (T : W -> wtransform) (q : R) (r j : nat) : R := E P (fun o => abs_moment q (numbers (wt_coefs (T o)) (Z.of_nat j) r)).
Definition flatness {W} (P : expectation W) (T : W -> wtransform) (r j : nat) : R := coef_moment P T 4 r j / coef_moment P T 2 r j ^ 2.
(** of increment b *)
Definition inc_flatness {W} (P : expectation W) (X : W -> list (list R)) (r b : nat) : R := inc_moment P X 4 r b / inc_moment P X 2 r b ^ 2.
(** a transform of every draw, with the Haar wavelet, whose scale j holds coefficients that no border reaches *)
Definition haar_run {W} (X : W -> list (list R)) (p : pexp) (j1 : Z) (j2 : option R) (gam norm : R) (weighted : bool) (T : W -> wtransform) (ws : W -> list warning) : Prop :=
  norm <> 0 /\ p_ok p /\ forall o, wavelet_analysis (map fin (X o)) p haar1 j1 j2 gam norm weighted = Ok (T o, ws o).
Definition full_scale {W} (T : W -> wtransform) (N j : nat) : Prop := (1 <= j)%nat /\ (1 <= inner_count N 2 j)%nat /\ forall o, In (Z.of_nat j) (scales (wt_coefs (T o))).

Section Haar.
Context {W : Type} (P : expectation W) (sh : shape_arg) (N : nat) (lam L sigma : R) (z0e z0w : W -> option noise) (drawn_w drawn_e : W -> noise) (X : W -> list (list R)).
Hypothesis HR : mrw_run P sh N (1 / 2) lam L sigma z0e z0w drawn_w drawn_e X.
Variables (p : pexp) (j1 : Z) (j2 : option R) (gam norm : R) (weighted : bool) (T : W -> wtransform) (ws : W -> list warning).
Hypothesis HT : haar_run X p j1 j2 gam norm weighted T ws.
Let K j := factor norm gam j * (/ sqrt 2) ^ j.
Let Q j := sumn (2 ^ j) (fun t => tri (2 ^ (j - 1)) t ^ 2).
Lemma X_shape o : length (X o) = shape_R sh /\ Forall (fun s => length s = N) (X o).
Proof. destruct HR as (_ & _ & _ & _ & _ & [_ S]). rewrite <- (proj1 HR). apply S. Qed.
Lemma moment2 r j b : (r < shape_R sh)%nat -> (b < N)%nat -> full_scale T N j ->
  let A := K j ^ 2 * (inc_moment P X 2 r b * Q j) in let e := exp (4 * corr lam L N) in
  integrable P (fun o => abs_moment 2 (numbers (wt_coefs (T o)) (Z.of_nat j) r)) /\ A / e <= coef_moment P T 2 r j <= A * e.
Proof.
  intros Hr Hb (Hj & HC & HI) A e. destruct HT as (Hn & Hp & HTT).
  destruct (average_between P X N (shape_R sh) haar1 p j1 j2 gam norm weighted T ws X_shape good_haar1 Hn Hp HTT (fun x => x * x) j r (A / e) (A * e) ltac:(cbv beta; ring) Hj HI Hr HC) as [I B].
  - intros k IN. destruct (haar_value X N (shape_R sh) p j1 j2 gam norm weighted T ws X_shape Hn Hp HTT j r k Hj HI Hr IN) as [Hk V].
    destruct (wsum2 P sh N lam L sigma z0e z0w drawn_w drawn_e X HR (tri (2 ^ (j - 1))) r (2 ^ j * k) (2 ^ j) Hr Hk) as [I2 _].
    assert (B2 := wsum2_bounds P sh N lam L sigma z0e z0w drawn_w drawn_e X HR (tri (2 ^ (j - 1))) r (2 ^ j * k) (2 ^ j) b Hr Hk Hb). cbv zeta in B2. fold (Q j) e in B2.
    assert (G : forall o, K j ^ 2 * wsum (tri (2 ^ (j - 1))) (nth r (X o) []) (2 ^ j * k) (2 ^ j) ^ 2 = number (entry (wt_coefs (T o)) (Z.of_nat j) r k) * number (entry (wt_coefs (T o)) (Z.of_nat j) r k)) by (intros o; rewrite V; fold (K j); ring).
    split; [exact (int_ext W P _ _ G (int_scal W P (K j ^ 2) _ I2))|]. rewrite <- (E_ext W P _ _ G), (E_scal W P (K j ^ 2) _ I2).
    unfold A. assert (k0 := pow2_ge_0 (K j)). unfold Rdiv in *. rewrite !(Rmult_assoc (K j ^ 2)). split; apply Rmult_le_compat_l; trivial; apply B2.
  - assert (G : forall o, mean (map (fun x => x * x) (numbers (wt_coefs (T o)) (Z.of_nat j) r)) = abs_moment 2 (numbers (wt_coefs (T o)) (Z.of_nat j) r)) by (intros; now rewrite abs_moment_2).
    split; [exact (int_ext W P _ _ G I)|]. unfold coef_moment. rewrite <- (E_ext W P _ _ G). exact B.
Qed.
Lemma pow2_half j : (1 <= j)%nat -> INR (2 ^ j) = 2 * INR (2 ^ (j - 1)).
Proof. intros Hj. replace j with (S (j - 1)) at 1 by lia. cbn [Nat.pow]. rewrite mult_INR. reflexivity. Qed.
Lemma pow2_pos j : 0 < INR (2 ^ j).
Proof. apply lt_0_INR, Nat.neq_0_lt_0, Nat.pow_nonzero. lia. Qed.
Lemma Q_bounds j : (1 <= j)%nat -> INR (2 ^ j) ^ 3 / 16 <= Q j <= INR (2 ^ j) ^ 3 / 8.
Proof.
  intros Hj. unfold Q. assert (E2 : (2 ^ j = 2 * 2 ^ (j - 1))%nat) by (replace j with (S (j - 1)) at 1 by lia; reflexivity). rewrite (pow2_half j Hj). assert (B := tri_squares (2 ^ (j - 1))). rewrite <- E2 in B. set (h := INR (2 ^ (j - 1))) in *. simpl pow in *. lra.
Qed.
Lemma moment4 r j b : (r < shape_R sh)%nat -> (b < N)%nat -> full_scale T N j -> 4 * lam ^ 2 < 1 -> INR (2 ^ j) <= L ->
  let A := K j ^ 4 * (inc_moment P X 4 r b * (Q j ^ 2 * Rpower (INR (2 ^ j)) (- (4 * lam ^ 2)))) in let e := exp (16 * corr lam L N) in
  integrable P (fun o => abs_moment 4 (numbers (wt_coefs (T o)) (Z.of_nat j) r)) /\ A / e <= coef_moment P T 4 r j <= A * (8 / (1 - 4 * lam ^ 2)) * e.
Proof.
  intros Hr Hb (Hj & HC & HI) Hlam HL A e. destruct HT as (Hn & Hp & HTT). set (C := 8 / (1 - 4 * lam ^ 2)).
  assert (V0 : 0 <= inc_moment P X 4 r b). { rewrite (inc4 P sh N lam L sigma z0e z0w drawn_w drawn_e X HR r b Hr Hb). apply Rmult_le_pos; [apply pow2_ge_0|]. apply Rmult_le_pos; [lra|left; apply exp_pos]. }
  destruct (average_between P X N (shape_R sh) haar1 p j1 j2 gam norm weighted T ws X_shape good_haar1 Hn Hp HTT (fun x => x ^ 4) j r (A / e) (A * C * e) ltac:(cbv beta; ring) Hj HI Hr HC) as [I B].
  - intros k IN. destruct (haar_value X N (shape_R sh) p j1 j2 gam norm weighted T ws X_shape Hn Hp HTT j r k Hj HI Hr IN) as [Hk V].
    assert (l1 : (1 <= 2 ^ j)%nat) by (apply Nat.neq_0_lt_0, Nat.pow_nonzero; lia).
    destruct (wsum4 P sh N lam L sigma z0e z0w drawn_w drawn_e X HR (tri (2 ^ (j - 1))) r (2 ^ j * k) (2 ^ j) Hr Hk) as [I4 _].
    assert (B4 := wsum4_bounds P sh N lam L sigma z0e z0w drawn_w drawn_e X HR (tri (2 ^ (j - 1))) (INR (2 ^ (j - 1)) ^ 2) r (2 ^ j * k) (2 ^ j) b Hlam Hr l1 HL Hk Hb). cbv zeta in B4. fold (Q j) e in B4.
    destruct B4 as [B41 B42]. { intros i _. destruct (tri_range (2 ^ (j - 1)) i). apply pow_incr. lra. }
    assert (G : forall o, K j ^ 4 * wsum (tri (2 ^ (j - 1))) (nth r (X o) []) (2 ^ j * k) (2 ^ j) ^ 4 = number (entry (wt_coefs (T o)) (Z.of_nat j) r k) ^ 4) by (intros o; rewrite V; fold (K j); ring).
    split; [exact (int_ext W P _ _ G (int_scal W P (K j ^ 4) _ I4))|]. rewrite <- (E_ext W P _ _ G), (E_scal W P (K j ^ 4) _ I4).
    assert (k0 : 0 <= K j ^ 4) by (replace (K j ^ 4) with ((K j ^ 2) ^ 2) by ring; apply pow2_ge_0). split.
    + unfold A, Rdiv. rewrite (Rmult_assoc (K j ^ 4)). apply Rmult_le_compat_l; trivial.
    + unfold A. rewrite !(Rmult_assoc (K j ^ 4)). apply Rmult_le_compat_l; [trivial|]. eapply Rle_trans; [exact B42|]. apply Rmult_le_compat_r; [left; apply exp_pos|]. rewrite (Rmult_assoc (inc_moment P X 4 r b)). apply Rmult_le_compat_l; [trivial|].
      destruct (Q_bounds j Hj) as [Q1 _]. rewrite (pow2_half j Hj) in Q1. assert (l0 := pow2_pos j). set (s := 4 * lam ^ 2) in *. assert (h0 := pow2_pos (j - 1)).
      replace (Rpower (INR (2 ^ j)) (1 - s)) with (INR (2 ^ j) * Rpower (INR (2 ^ j)) (- s)) by (unfold Rminus; rewrite Rpower_plus, Rpower_1 by trivial; reflexivity). rewrite (pow2_half j Hj) at 1. set (h := INR (2 ^ (j - 1))) in *. set (u := Rpower (INR (2 ^ j)) (- s)). assert (u0 : 0 < u) by apply exp_pos.
      assert (q0 : 0 <= Q j) by (unfold Q; apply sumn_nonneg; intros; apply pow2_ge_0). assert (i0 : 0 < / (1 - s)) by (apply Rinv_0_lt_compat; lra).
      replace (Q j * h ^ 2 * (2 / (1 - s)) * (2 * h * u)) with ((8 / (1 - s) * u * Q j) * (h ^ 3 / 2)) by (field; lra). replace (Q j ^ 2 * u * C) with ((8 / (1 - s) * u * Q j) * Q j) by (unfold C; ring).
      apply Rmult_le_compat_l; [|simpl pow in *; lra]. apply Rmult_le_pos; [|trivial]. apply Rmult_le_pos; [|lra]. unfold Rdiv. lra.
  - assert (G : forall o, mean (map (fun x => x ^ 4) (numbers (wt_coefs (T o)) (Z.of_nat j) r)) = abs_moment 4 (numbers (wt_coefs (T o)) (Z.of_nat j) r)) by (intros; now rewrite abs_moment_4).
    split; [exact (int_ext W P _ _ G I)|]. unfold coef_moment. rewrite <- (E_ext W P _ _ G). exact B.
Qed.
Lemma K2 j : K j ^ 2 = Rpower (INR (2 ^ j)) (- 2 / norm + 2 * gam).
Proof.
  unfold K. rewrite Rpow_mult_distr, sqrt2_pow. unfold factor. rewrite <- Rpower_pow by apply exp_pos. change (INR 2) with 2. rewrite Rpower_mult, pow_INR. change (INR 2) with 2.
  rewrite <- (Rpower_pow j 2) by lra. rewrite Rpower_mult, <- Rpower_Ropp, <- Rpower_plus. f_equal. destruct HT as (Hn & _). field. exact Hn.
Qed.
Lemma Q_K j : (1 <= j)%nat -> Rpower (INR (2 ^ j)) (1 + 2 * (1 - 1 / norm + gam)) / 16 <= K j ^ 2 * Q j <= Rpower (INR (2 ^ j)) (1 + 2 * (1 - 1 / norm + gam)) / 8.
Proof.
  intros Hj. destruct (Q_bounds j Hj) as [A B]. rewrite K2. assert (l0 := pow2_pos j). destruct HT as (Hn & _).
  replace (1 + 2 * (1 - 1 / norm + gam)) with ((- 2 / norm + 2 * gam) + INR 3) by (cbn [INR]; field; exact Hn). rewrite Rpower_plus, (Rpower_pow 3) by trivial. assert (k0 : 0 < Rpower (INR (2 ^ j)) (- 2 / norm + 2 * gam)) by apply exp_pos.
  unfold Rdiv in *. rewrite !(Rmult_assoc (Rpower _ (- 2 * / norm + 2 * gam))). split; apply Rmult_le_compat_l; lra.
Qed.
(** the flatness of the coefficients at scale j, relative to the one of the increments: 2^(-4 lam^2 j) within constants *)
Lemma flat_bounds r j b : sigma <> 0 -> (r < shape_R sh)%nat -> (b < N)%nat -> full_scale T N j -> 4 * lam ^ 2 < 1 -> INR (2 ^ j) <= L ->
  let F := inc_flatness P X r b * Rpower (INR (2 ^ j)) (- (4 * lam ^ 2)) in let e := exp (24 * corr lam L N) in
  0 < F /\ F / e <= flatness P T r j <= F * (8 / (1 - 4 * lam ^ 2)) * e.
Proof.
  intros Hs Hr Hb HF Hlam HL F e. assert (Hj := proj1 HF).
  destruct (moment2 r j b Hr Hb HF) as [_ B2]. destruct (moment4 r j b Hr Hb HF Hlam HL) as [_ B4]. cbv zeta in *.
  assert (V2 : 0 < inc_moment P X 2 r b). { rewrite (inc2_eq P sh N lam L sigma z0e z0w drawn_w drawn_e X HR r b Hr Hb). apply Rmult_lt_0_compat; [|apply exp_pos]. unfold nominal. apply Rmult_lt_0_compat; [rewrite <- Rsqr_pow2; now apply Rsqr_pos_lt|apply exp_pos]. }
  assert (V4 : 0 < inc_moment P X 4 r b). { rewrite (inc4 P sh N lam L sigma z0e z0w drawn_w drawn_e X HR r b Hr Hb). apply Rmult_lt_0_compat; [|apply Rmult_lt_0_compat; [lra|apply exp_pos]]. apply pow_lt. unfold nominal. apply Rmult_lt_0_compat; [rewrite <- Rsqr_pow2; now apply Rsqr_pos_lt|apply exp_pos]. }
  assert (KQ : 0 < K j ^ 2 * Q j). { destruct (Q_K j Hj) as [A _]. assert (0 < Rpower (INR (2 ^ j)) (1 + 2 * (1 - 1 / norm + gam))) by apply exp_pos. lra. }
  set (v2 := inc_moment P X 2 r b) in *. set (v4 := inc_moment P X 4 r b) in *. unfold flatness. set (m2 := coef_moment P T 2 r j) in *. set (m4 := coef_moment P T 4 r j) in *. set (u := Rpower (INR (2 ^ j)) (- (4 * lam ^ 2))) in *. assert (u0 : 0 < u) by apply exp_pos.
  set (kq := K j ^ 2 * Q j) in *. replace (K j ^ 2 * (v2 * Q j)) with (v2 * kq) in B2 by (unfold kq; ring). replace (K j ^ 4 * (v4 * (Q j ^ 2 * u))) with (v4 * u * kq ^ 2) in B4 by (unfold kq; ring).
  set (cc := corr lam L N) in *. assert (c4 : 0 < exp (4 * cc)) by apply exp_pos. assert (c16 : 0 < exp (16 * cc)) by apply exp_pos.
  assert (A2 : 0 < v2 * kq) by (now apply Rmult_lt_0_compat). set (a := v2 * kq) in *.
  assert (L2 : 0 < a / exp (4 * cc)) by (now apply Rdiv_lt_0_compat). assert (m20 : 0 < m2) by lra.
  assert (S2 : (a / exp (4 * cc)) ^ 2 <= m2 ^ 2 <= (a * exp (4 * cc)) ^ 2) by (split; apply pow_incr; lra).
  assert (Fe : F = v4 * u * kq ^ 2 / a ^ 2) by (unfold F, inc_flatness, a; fold v2 v4; field; split; apply Rgt_not_eq; assumption).
  assert (F0 : 0 < F) by (rewrite Fe; apply Rdiv_lt_0_compat; [apply Rmult_lt_0_compat; [now apply Rmult_lt_0_compat|now apply pow_lt]|now apply pow_lt]).
  assert (M4 : v4 * u * kq ^ 2 = F * a ^ 2) by (rewrite Fe; field; lra). rewrite M4 in B4. clearbody F. clear Fe M4.
  assert (Ee : e = exp (16 * cc) * exp (4 * cc) ^ 2) by (unfold e; replace (24 * cc) with (16 * cc + (4 * cc + 4 * cc)) by ring; rewrite !exp_plus; ring).
  assert (C0 : 0 < 8 / (1 - 4 * lam ^ 2)) by (apply Rdiv_lt_0_compat; lra). set (C := 8 / (1 - 4 * lam ^ 2)) in *. clearbody C. set (x := exp (4 * cc)) in *. set (z := exp (16 * cc)) in *. assert (a20 : 0 < a ^ 2) by (now apply pow_lt). assert (m220 : 0 < m2 ^ 2) by (now apply pow_lt).
  split; [trivial|]. rewrite Ee. split.
  - apply Rmult_le_reg_r with (m2 ^ 2); [trivial|]. unfold Rdiv at 2. rewrite Rmult_assoc, Rinv_l, Rmult_1_r by lra.
    apply Rle_trans with (F / (z * x ^ 2) * (a * x) ^ 2); [apply Rmult_le_compat_l; [left; apply Rdiv_lt_0_compat; [trivial|apply Rmult_lt_0_compat; [trivial|now apply pow_lt]]|apply S2]|].
    replace (F / (z * x ^ 2) * (a * x) ^ 2) with (F * a ^ 2 / z) by (field; lra). apply B4.
  - apply Rmult_le_reg_r with (m2 ^ 2); [trivial|]. unfold Rdiv at 1. rewrite Rmult_assoc, Rinv_l, Rmult_1_r by lra.
    apply Rle_trans with (F * C * (z * x ^ 2) * (a / x) ^ 2); [|apply Rmult_le_compat_l; [left; assert (x2 : 0 < x ^ 2) by (now apply pow_lt); apply Rmult_lt_0_compat; [now apply Rmult_lt_0_compat|now apply Rmult_lt_0_compat]|apply S2]].
    replace (F * C * (z * x ^ 2) * (a / x) ^ 2) with (F * a ^ 2 * C * z) by (field; lra). apply B4.
Qed.
End Haar.

(** ** Theorems *)
Lemma ln_pow2 j : ln (INR (2 ^ j)) = INR j * ln 2.
Proof. rewrite pow_INR. change (INR 2) with 2. rewrite <- Rpower_pow by lra. unfold Rpower. apply ln_exp. Qed.
Lemma ln3 x y z : 0 < x -> 0 < y -> 0 < z -> ln (x * y * z) = ln x + ln y + ln z.
Proof. intros a b c. rewrite ln_mult; [|now apply Rmult_lt_0_compat|trivial]. now rewrite ln_mult. Qed.
Lemma scales_law e j : Rpower (INR (2 ^ j)) e = Rpower 2 (INR j * e).
Proof. unfold Rpower. rewrite ln_pow2. f_equal. ring. Qed.
Section Final.
Context {W : Type} (P : expectation W) (sh : shape_arg) (N : nat) (c1 c2 L sigma : R) (z0e z0w : W -> option noise) (drawn_w drawn_e : W -> noise) (X : W -> list (list R)).
Variables (p : pexp) (j1 : Z) (j2 : option R) (gam norm : R) (weighted : bool) (T : W -> wtransform) (ws : W -> list warning).
Hypothesis EC : c1 + c2 = 1 / 2.
Hypothesis Hc : - (1 / 4) < c2 <= 0.
Hypothesis RUN : cumul_run P sh N c1 c2 L sigma z0e z0w drawn_w drawn_e X.
Hypothesis HN : 64 * L * ln L <= INR N.
Hypothesis HT : haar_run X p j1 j2 gam norm weighted T ws.
Let lam := sqrt (- c2).
Lemma lam_sq : lam ^ 2 = - c2.
Proof. unfold lam. rewrite <- Rsqr_pow2. apply Rsqr_sqrt. lra. Qed.
Lemma as_mrw : mrw_run P sh N (1 / 2) lam L sigma z0e z0w drawn_w drawn_e X.
Proof. assert (Q := cumul_is_mrw P sh N c1 c2 L sigma z0e z0w drawn_w drawn_e X ltac:(lra) RUN). rewrite EC in Q. exact Q. Qed.
Lemma corr_range : 0 <= corr lam L N /\ 16 * corr lam L N <= - c2.
Proof.
  destruct as_mrw as (_ & N2 & _ & [L1 _] & _). split; [apply corr_nonneg; trivial; lia|]. assert (Q := corr_small lam L N L1 ltac:(lia) HN). rewrite lam_sq in Q. lra.
Qed.
(** mean square of the coefficients: the power law of exponent zeta(2) (and the rescaling of the scales) *)
Theorem C122_energy r j b : (r < shape_R sh)%nat -> (b < N)%nat -> full_scale T N j ->
  let law := Rpower 2 (INR j * (scaling_exponent c1 c2 2 + 2 * (1 - 1 / norm + gam))) in
  exp c2 / 16 * law * inc_moment P X 2 r b <= coef_moment P T 2 r j <= exp (- c2) / 8 * law * inc_moment P X 2 r b.
Proof.
  intros Hr Hb HF law. destruct (moment2 P sh N lam L sigma z0e z0w drawn_w drawn_e X as_mrw p j1 j2 gam norm weighted T ws HT r j b Hr Hb HF) as [_ B]. cbv zeta in B.
  assert (QK := Q_K X p j1 j2 gam norm weighted T ws HT j (proj1 HF)). assert (Z2 : scaling_exponent c1 c2 2 = 1) by (unfold scaling_exponent; replace (c1 * 2 + c2 * 2 ^ 2 / 2) with (2 * (c1 + c2)) by field; rewrite EC; field).
  rewrite scales_law in QK. replace (1 + 2 * (1 - 1 / norm + gam)) with (scaling_exponent c1 c2 2 + 2 * (1 - 1 / norm + gam)) in QK by (rewrite Z2; ring). fold law in QK. set (kk := (factor norm gam j * (/ sqrt 2) ^ j) ^ 2) in *. set (q := sumn (2 ^ j) _) in *. assert (V2 : 0 <= inc_moment P X 2 r b).
  { rewrite (inc2_eq P sh N lam L sigma z0e z0w drawn_w drawn_e X as_mrw r b Hr Hb). apply Rmult_le_pos; [apply nominal_nonneg|left; apply exp_pos]. }
  set (v := inc_moment P X 2 r b) in *. set (m := coef_moment P T 2 r j) in *. destruct corr_range as [C0 C1]. assert (l0 : 0 < law) by apply exp_pos. replace (kk * (v * q)) with (v * (kk * q)) in B by ring. set (kq := kk * q) in *.
  assert (e1 : exp c2 <= / exp (4 * corr lam L N)) by (rewrite <- exp_Ropp; apply exp_le; lra). assert (e2 : exp (4 * corr lam L N) <= exp (- c2)) by (apply exp_le; lra).
  assert (x1 : 0 < exp c2) by apply exp_pos. assert (x2 : 0 < exp (4 * corr lam L N)) by apply exp_pos. assert (D : 0 <= v * kq) by (apply Rmult_le_pos; lra). split.
  - eapply Rle_trans; [|apply B]. unfold Rdiv at 2. apply Rle_trans with (v * kq * exp c2); [|now apply Rmult_le_compat_l]. replace (exp c2 / 16 * law * v) with (v * (law / 16) * exp c2) by field. apply Rmult_le_compat_r; [lra|]. apply Rmult_le_compat_l; lra.
  - eapply Rle_trans; [apply B|]. apply Rle_trans with (v * kq * exp (- c2)); [now apply Rmult_le_compat_l|]. replace (exp (- c2) / 8 * law * v) with (v * (law / 8) * exp (- c2)) by field. apply Rmult_le_compat_r; [left; apply exp_pos|]. apply Rmult_le_compat_l; lra.
Qed.
(** flatness of the coefficients: the power law of exponent zeta(4) - 2 zeta(2) = 4 c2 *)
Theorem C122_flatness r j b : sigma <> 0 -> (r < shape_R sh)%nat -> (b < N)%nat -> full_scale T N j -> 2 ^ j <= L ->
  let law := Rpower 2 (INR j * (scaling_exponent c1 c2 4 - 2 * scaling_exponent c1 c2 2)) in
  exp (2 * c2) * law * inc_flatness P X r b <= flatness P T r j <= 8 / (1 + 4 * c2) * exp (- 2 * c2) * law * inc_flatness P X r b /\ 0 < law * inc_flatness P X r b.
Proof.
  intros Hs Hr Hb HF HL law. assert (HL' : INR (2 ^ j) <= L) by (rewrite pow_INR; exact HL). assert (Hlam : 4 * lam ^ 2 < 1) by (rewrite lam_sq; lra).
  destruct (flat_bounds P sh N lam L sigma z0e z0w drawn_w drawn_e X as_mrw p j1 j2 gam norm weighted T ws HT r j b Hs Hr Hb HF Hlam HL') as [F0 B]. cbv zeta in F0, B. rewrite scales_law in F0, B.
  replace (- (4 * lam ^ 2)) with (scaling_exponent c1 c2 4 - 2 * scaling_exponent c1 c2 2) in F0, B by (rewrite lam_sq; unfold scaling_exponent; field). fold law in F0, B. replace (1 - 4 * lam ^ 2) with (1 + 4 * c2) in B by (rewrite lam_sq; ring).
  set (f := flatness P T r j) in *. set (fi := inc_flatness P X r b) in *. rewrite (Rmult_comm fi) in F0, B. destruct corr_range as [C0 C1]. set (e := exp (24 * corr lam L N)) in *.
  assert (e1 : exp (2 * c2) <= / e) by (unfold e; rewrite <- exp_Ropp; apply exp_le; lra). assert (e2 : e <= exp (- 2 * c2)) by (apply exp_le; lra). assert (D0 : 0 < 8 / (1 + 4 * c2)) by (apply Rdiv_lt_0_compat; lra). set (D := 8 / (1 + 4 * c2)) in *. clearbody D.
  set (F := law * fi) in *. split; [|trivial]. split.
  - eapply Rle_trans; [|apply B]. replace (exp (2 * c2) * law * fi) with (F * exp (2 * c2)) by (unfold F; ring). unfold Rdiv. apply Rmult_le_compat_l; lra.
  - eapply Rle_trans; [apply B|]. replace (D * exp (- 2 * c2) * law * fi) with (F * D * exp (- 2 * c2)) by (unfold F; ring). apply Rmult_le_compat_l; [|trivial]. apply Rmult_le_pos; lra.
Qed.
(** so the decrease of the flatness between two scales gives c2 within C / (number of octaves between them) *)
Theorem C122_intermittency r j j' : sigma <> 0 -> (r < shape_R sh)%nat -> full_scale T N j -> full_scale T N j' -> (j < j')%nat -> 2 ^ j' <= L ->
  Rabs ((log2R (flatness P T r j') - log2R (flatness P T r j)) / (4 * (INR j' - INR j)) - c2) <= (log2R (8 / (1 + 4 * c2)) - 4 * c2 / ln 2) / 4 / (INR j' - INR j).
Proof.
  intros Hs Hr HF HF' Hj HL. assert (HL1 : 2 ^ j <= L). { eapply Rle_trans; [|exact HL]. apply Rle_pow; [lra|lia]. }
  assert (N2 : (0 < N)%nat) by (destruct as_mrw as (_ & Q & _); lia).
  destruct (C122_flatness r j 0%nat Hs Hr N2 HF HL1) as [B Z]. destruct (C122_flatness r j' 0%nat Hs Hr N2 HF' HL) as [B' Z']. cbv zeta in *.
  replace (scaling_exponent c1 c2 4 - 2 * scaling_exponent c1 c2 2) with (4 * c2) in * by (unfold scaling_exponent; field). set (fi := inc_flatness P X r 0) in *. assert (D0 : 0 < 8 / (1 + 4 * c2)) by (apply Rdiv_lt_0_compat; lra). set (D := 8 / (1 + 4 * c2)) in *. clearbody D.
  assert (G : forall i f, exp (2 * c2) * Rpower 2 (INR i * (4 * c2)) * fi <= f <= D * exp (- 2 * c2) * Rpower 2 (INR i * (4 * c2)) * fi -> 0 < Rpower 2 (INR i * (4 * c2)) * fi ->
     ln fi + INR i * (4 * c2) * ln 2 + 2 * c2 <= ln f <= ln fi + INR i * (4 * c2) * ln 2 + (ln D - 2 * c2)).
  { intros i f [A1 A2] A0. assert (fi0 : 0 < fi). { assert (p0 : 0 < Rpower 2 (INR i * (4 * c2))) by apply exp_pos. apply Rmult_lt_reg_l with (Rpower 2 (INR i * (4 * c2))); [trivial|]. now rewrite Rmult_0_r. }
    assert (p0 : 0 < Rpower 2 (INR i * (4 * c2))) by apply exp_pos. assert (e0 : 0 < exp (2 * c2)) by apply exp_pos. assert (e1 : 0 < exp (- 2 * c2)) by apply exp_pos.
    assert (Y1 : ln (exp (2 * c2) * Rpower 2 (INR i * (4 * c2)) * fi) = ln fi + INR i * (4 * c2) * ln 2 + 2 * c2) by (rewrite (ln3 _ _ _ e0 p0 fi0); unfold Rpower; rewrite !ln_exp; ring).
    assert (Y2 : ln (D * exp (- 2 * c2) * Rpower 2 (INR i * (4 * c2)) * fi) = ln fi + INR i * (4 * c2) * ln 2 + (ln D - 2 * c2)) by (rewrite (ln3 _ _ _ (Rmult_lt_0_compat _ _ D0 e1) p0 fi0), (ln_mult _ _ D0 e1); unfold Rpower; rewrite !ln_exp; ring).
    rewrite <- Y1, <- Y2. assert (W0 : 0 < exp (2 * c2) * Rpower 2 (INR i * (4 * c2)) * fi) by (apply Rmult_lt_0_compat; [apply Rmult_lt_0_compat|]; trivial). assert (LE : forall x z, 0 < x -> x <= z -> ln x <= ln z) by (intros x z x0 [xz| ->]; [left; now apply ln_increasing|right; reflexivity]). split; apply LE; trivial; lra. }
  assert (A := G j _ B Z). assert (A' := G j' _ B' Z'). clear G B B' Z Z'. set (lf := ln (flatness P T r j)) in *. set (lf' := ln (flatness P T r j')) in *.
  assert (l2 : 0 < ln 2) by (assert (K := ln_lt_2); lra). apply lt_INR in Hj. set (d := INR j' - INR j) in *. assert (d0 : 0 < d) by (unfold d; lra). unfold log2R. fold lf lf'.
  replace ((lf' / ln 2 - lf / ln 2) / (4 * d) - c2) with ((lf' - lf - 4 * c2 * d * ln 2) / (ln 2 * (4 * d))) by (field; lra). replace ((ln D / ln 2 - 4 * c2 / ln 2) / 4 / d) with ((ln D - 4 * c2) / (ln 2 * (4 * d))) by (field; lra).
  assert (p0 : 0 < ln 2 * (4 * d)) by (apply Rmult_lt_0_compat; lra). unfold Rdiv. rewrite Rabs_mult, (Rabs_pos_eq (/ _)) by (left; now apply Rinv_0_lt_compat). apply Rmult_le_compat_r; [left; now apply Rinv_0_lt_compat|].
  replace (4 * c2 * d * ln 2) with (INR j' * (4 * c2) * ln 2 - INR j * (4 * c2) * ln 2) by (unfold d; ring). apply Rabs_le. lra.
Qed.
End Final.
Print Assumptions C122_energy.
Print Assumptions C122_flatness.
Print Assumptions C122_intermittency.
