(** * C128: regressions over a range of scales find the log-cumulants of a multifractal random walk *)
From Coq Require Import Reals List ZArith Bool Lra Lia String.
From Verif Require Import XReal PyBase ModelUtils ModelMRQ ModelStructure ModelWavelet ModelSimul Spec SpecMRQ SpecSimul LXReal LUtils LBase LFilter LTransform LPattern LWave LPoly LCone LWaveEst LDft LSimul LWick LEst LNoise PropsMrw PropsConsist
  PropsWavelet PropsMissing PropsWhite PropsWhitePower PropsWhiteCase PropsMrwStat PropsMrwScale PropsMrwScale4 PropsMrwHaar PropsMrwHaar2 PropsMrwIntermit PropsMrwIntermitCase PropsTolerance.
Import ListNotations.
Open Scope R_scope.
Local Notation length := List.length.

Lemma log_between lo hi s fi f j : 0 < lo -> 0 < hi -> 0 < fi -> lo * Rpower 2 (INR j * s) * fi <= f <= hi * Rpower 2 (INR j * s) * fi ->
  Rabs (log2R f - (s * INR j + (log2R fi + (log2R lo + log2R hi) / 2))) <= (log2R hi - log2R lo) / 2.
Proof.
  intros Hl Hh Hf [A B]. assert (l2 := ln2_half). assert (p0 : 0 < Rpower 2 (INR j * s)) by apply exp_pos.
  assert (M : forall x, 0 < x -> log2R (x * Rpower 2 (INR j * s) * fi) = log2R x + INR j * s + log2R fi).
  { intros x Hx. unfold log2R. rewrite ln3 by trivial. unfold Rpower. rewrite ln_exp. field. lra. }
  assert (LE : forall x z, 0 < x -> x <= z -> log2R x <= log2R z).
  { intros x z Hx [Q|Q]; [|rewrite Q; lra]. unfold log2R, Rdiv. apply Rmult_le_compat_r; [left; apply Rinv_0_lt_compat; lra|]. left. now apply ln_increasing. }
  assert (a0 : 0 < lo * Rpower 2 (INR j * s) * fi) by (apply Rmult_lt_0_compat; [apply Rmult_lt_0_compat|]; trivial).
  assert (A' := LE _ _ a0 A). assert (B' := LE _ _ (Rlt_le_trans _ _ _ a0 A) B). rewrite M in A', B' by trivial. apply Rabs_le. lra.
Qed.

Section Regress.
Context {W : Type} (P : expectation W) (sh : shape_arg) (N : nat) (c1 c2 L sigma : R) (z0e z0w : W -> option noise) (drawn_w drawn_e : W -> noise) (X : W -> list (list R)).
Variables (p : pexp) (j1 : Z) (j2 : option R) (gam norm : R) (weighted : bool) (T : W -> wtransform) (ws : W -> list warning).
Hypothesis EC : c1 + c2 = 1 / 2.
Hypothesis Hc : - (1 / 4) < c2 <= 0.
Hypothesis RUN : cumul_run P sh N c1 c2 L sigma z0e z0w drawn_w drawn_e X.
Hypothesis HN : 64 * L * ln L <= INR N.
Hypothesis HT : haar_run X p j1 j2 gam norm weighted T ws.
Hypothesis Hs : sigma <> 0.
Variable r : nat.
Hypothesis Hr : (r < shape_R sh)%nat.
(** n >= 2 consecutive scales, below the integral scale, with coefficients no border reaches; any weight *)
Variables (ja n : nat) (w : R).
Hypothesis Hn : (2 <= n)%nat.
Hypothesis Hw : 0 < w.
Hypothesis HF : forall j, (ja <= j < ja + n)%nat -> full_scale T N j.
Let js := seq ja n.
Lemma two_N : (0 < N)%nat.
Proof. destruct RUN as (_ & Q & _). lia. Qed.
Lemma ln_exp_log x : log2R (exp x) = x / ln 2.
Proof. unfold log2R. now rewrite ln_exp. Qed.

(** the regression of log2 flatness on the scale has the slope 4 c2, within a constant divided by the spread of the scales *)
Theorem C128_intermittency : (forall j, (ja <= j < ja + n)%nat -> 2 ^ j <= L) ->
  exists a b var, linear_regression (fin (map INR js)) (fin (map (fun j => log2R (flatness P T r j)) js)) (fin (repeat w n)) = Ok (Fin a, Fin b, var) /\
    Rabs (a / 4 - c2) <= (log2R (8 / (1 + 4 * c2)) - 4 * c2 / ln 2) / 8 * sqrt (12 / (INR n ^ 2 - 1)).
Proof.
  intros HL. set (D := 8 / (1 + 4 * c2)). assert (D0 : 0 < D) by (apply Rdiv_lt_0_compat; lra). assert (l2 := ln2_half).
  set (fi := inc_flatness P X r 0). set (lo := exp (2 * c2)). set (hi := D * exp (- 2 * c2)).
  assert (lo0 : 0 < lo) by apply exp_pos. assert (hi0 : 0 < hi) by (apply Rmult_lt_0_compat; [trivial|apply exp_pos]).
  assert (LHI : log2R hi = log2R D - 2 * c2 / ln 2). { unfold log2R, hi. rewrite ln_mult, ln_exp; [field; lra|trivial|apply exp_pos]. }
  assert (LLO : log2R lo = 2 * c2 / ln 2) by apply ln_exp_log.
  destruct (C127_scales w ja n (fun j => log2R (flatness P T r j)) (4 * c2) (log2R fi + (log2R lo + log2R hi) / 2) ((log2R hi - log2R lo) / 2) Hw Hn) as (a & b & var & E & B).
  - intros j Hj. destruct (C122_flatness P sh N c1 c2 L sigma z0e z0w drawn_w drawn_e X p j1 j2 gam norm weighted T ws EC Hc RUN HN HT r j 0%nat Hs Hr two_N (HF j Hj) (HL j Hj)) as [B Z]. cbv zeta in B, Z. fold fi in B, Z.
    replace (scaling_exponent c1 c2 4 - 2 * scaling_exponent c1 c2 2) with (4 * c2) in * by (unfold scaling_exponent; field). fold D lo in B.
    assert (fi0 : 0 < fi). { assert (p0 : 0 < Rpower 2 (INR j * (4 * c2))) by apply exp_pos. apply Rmult_lt_reg_l with (Rpower 2 (INR j * (4 * c2))); [trivial|]. now rewrite Rmult_0_r. }
    now apply log_between.
  - exists a, b, var. split; [exact E|]. rewrite LHI, LLO in B. replace (a / 4 - c2) with ((a - 4 * c2) * / 4) by field. rewrite Rabs_mult, (Rabs_pos_eq (/ 4)) by lra.
    apply Rle_trans with ((log2R D - 2 * c2 / ln 2 - 2 * c2 / ln 2) / 2 * sqrt (12 / (INR n ^ 2 - 1)) * / 4); [apply Rmult_le_compat_r; lra|]. right. field. lra.
Qed.
(** the regression of the log2 of the mean square: the slope zeta(2) = 2 c1 + 2 c2, plus what the normalisation adds *)
Theorem C128_energy :
  exists a b var, linear_regression (fin (map INR js)) (fin (map (fun j => log2R (coef_moment P T 2 r j)) js)) (fin (repeat w n)) = Ok (Fin a, Fin b, var) /\
    Rabs (a - (scaling_exponent c1 c2 2 + 2 * (1 - 1 / norm + gam))) <= (1 - 2 * c2 / ln 2) / 2 * sqrt (12 / (INR n ^ 2 - 1)).
Proof.
  assert (l2 := ln2_half). set (v := inc_moment P X 2 r 0). set (lo := exp c2 / 16). set (hi := exp (- c2) / 8). set (s := scaling_exponent c1 c2 2 + 2 * (1 - 1 / norm + gam)).
  assert (lo0 : 0 < lo) by (apply Rdiv_lt_0_compat; [apply exp_pos|lra]). assert (hi0 : 0 < hi) by (apply Rdiv_lt_0_compat; [apply exp_pos|lra]).
  assert (LP : forall k, ln (2 ^ k) = INR k * ln 2) by (intros k; rewrite <- Rpower_pow by lra; unfold Rpower; apply ln_exp).
  assert (LHI : log2R hi = - c2 / ln 2 - 3). { unfold log2R, hi, Rdiv at 2. rewrite ln_mult, ln_exp, ln_Rinv; [|lra|apply exp_pos|lra]. replace 8 with (2 ^ 3) by ring. rewrite LP. simpl INR. field. lra. }
  assert (LLO : log2R lo = c2 / ln 2 - 4). { unfold log2R, lo, Rdiv at 2. rewrite ln_mult, ln_exp, ln_Rinv; [|lra|apply exp_pos|lra]. replace 16 with (2 ^ 4) by ring. rewrite LP. simpl INR. field. lra. }
  assert (v0 : 0 < v).
  { unfold v. rewrite (inc2_eq P sh N (sqrt (- c2)) L sigma z0e z0w drawn_w drawn_e X (as_mrw P sh N c1 c2 L sigma z0e z0w drawn_w drawn_e X EC Hc RUN) r 0 Hr two_N).
    apply Rmult_lt_0_compat; [|apply exp_pos]. unfold nominal. apply Rmult_lt_0_compat; [|apply exp_pos]. nra. }
  destruct (C127_scales w ja n (fun j => log2R (coef_moment P T 2 r j)) s (log2R v + (log2R lo + log2R hi) / 2) ((log2R hi - log2R lo) / 2) Hw Hn) as (a & b & var & E & B).
  - intros j Hj. assert (B := C122_energy P sh N c1 c2 L sigma z0e z0w drawn_w drawn_e X p j1 j2 gam norm weighted T ws EC Hc RUN HN HT r j 0%nat Hr two_N (HF j Hj)). cbv zeta in B. fold s v lo hi in B. now apply log_between.
  - exists a, b, var. split; [exact E|]. rewrite LHI, LLO in B. eapply Rle_trans; [exact B|]. right. field. lra.
Qed.
End Regress.
(** with enough scales, both are as precise as wanted *)
Theorem C128_consistent c1 c2 eps : c1 + c2 = 1 / 2 -> - (1 / 4) < c2 <= 0 -> 0 < eps -> exists n0 : nat,
  forall W (P : expectation W) sh N L sigma z0e z0w (drawn_w drawn_e : W -> noise) X p j1 j2 gam norm weighted T ws r ja n w,
  cumul_run P sh N c1 c2 L sigma z0e z0w drawn_w drawn_e X -> 64 * L * ln L <= INR N -> haar_run X p j1 j2 gam norm weighted T ws ->
  sigma <> 0 -> (r < shape_R sh)%nat -> (n0 <= n)%nat -> 0 < w ->
  (forall j, (ja <= j < ja + n)%nat -> full_scale T N j /\ 2 ^ j <= L) ->
  exists a4 b4 v4 a2 b2 v2,
    linear_regression (fin (map INR (seq ja n))) (fin (map (fun j => log2R (flatness P T r j)) (seq ja n))) (fin (repeat w n)) = Ok (Fin a4, Fin b4, v4) /\
    linear_regression (fin (map INR (seq ja n))) (fin (map (fun j => log2R (coef_moment P T 2 r j)) (seq ja n))) (fin (repeat w n)) = Ok (Fin a2, Fin b2, v2) /\
    let c2_found := a4 / 4 in let c1_found := (a2 - 2 * (1 - 1 / norm + gam)) / 2 - c2_found in
    Rabs (c2_found - c2) <= eps /\ Rabs (c1_found - c1) <= eps.
Proof.
  intros EC Hc He. set (C := (log2R (8 / (1 + 4 * c2)) - 4 * c2 / ln 2) / 8). set (C' := (1 - 2 * c2 / ln 2) / 2). set (M := Rabs C + Rabs C').
  assert (l2 := ln2_half). assert (M0 : 0 <= M) by (unfold M; assert (A := Rabs_pos C); assert (A' := Rabs_pos C'); lra).
  (* n large enough: M * sqrt (12 / (n^2 - 1)) <= eps / 2 *)
  destruct (archimed (8 * M / eps)) as [A _]. set (n0 := (2 + Z.to_nat (up (8 * M / eps)))%nat). exists n0.
  intros W P sh N L sigma z0e z0w dw de X p j1 j2 gam norm weighted T ws r ja n w RUN HN HT Hs Hr Hn Hw HFL.
  assert (n2 : (2 <= n)%nat) by (unfold n0 in Hn; lia). assert (n2R : 2 <= INR n) by (apply le_INR in n2; exact n2).
  assert (Q0 : 0 <= 8 * M / eps) by (apply Rle_mult_inv_pos; lra).
  assert (NB : 8 * M / eps <= INR n).
  { assert (U0 : (0 <= up (8 * M / eps))%Z) by (apply le_IZR; lra). assert (U1 : (Z.to_nat (up (8 * M / eps)) <= n)%nat) by (unfold n0 in Hn; lia).
    apply le_INR in U1. rewrite (INR_IZR_INZ (Z.to_nat _)), Z2Nat.id in U1 by exact U0. lra. }
  assert (SQ : sqrt (12 / (INR n ^ 2 - 1)) <= 4 / INR n).
  { rewrite <- (sqrt_Rsqr (4 / INR n)) by (apply Rle_mult_inv_pos; lra). apply sqrt_le_1_alt. unfold Rsqr.
    replace (4 / INR n * (4 / INR n)) with (16 / INR n ^ 2) by (field; lra). assert (n4 : 4 <= INR n ^ 2) by nra. apply Rmult_le_reg_r with ((INR n ^ 2 - 1) * INR n ^ 2); [apply Rmult_lt_0_compat; lra|].
    set (u := INR n ^ 2) in *. replace (12 / (u - 1) * ((u - 1) * u)) with (12 * u) by (field; lra). replace (16 / u * ((u - 1) * u)) with (16 * (u - 1)) by (field; lra). lra. }
  assert (BE : M * sqrt (12 / (INR n ^ 2 - 1)) <= eps / 2).
  { apply Rle_trans with (M * (4 / INR n)); [now apply Rmult_le_compat_l|]. apply Rmult_le_reg_r with (INR n); [lra|]. replace (M * (4 / INR n) * INR n) with (4 * M) by (field; lra).
    replace (4 * M) with (eps / 2 * (8 * M / eps)) by (field; lra). apply Rmult_le_compat_l; lra. }
  assert (S0 := sqrt_pos (12 / (INR n ^ 2 - 1))). set (q := sqrt (12 / (INR n ^ 2 - 1))) in *.
  destruct (C128_intermittency P sh N c1 c2 L sigma z0e z0w dw de X p j1 j2 gam norm weighted T ws EC Hc RUN HN HT Hs r Hr ja n w n2 Hw (fun j Hj => proj1 (HFL j Hj)) (fun j Hj => proj2 (HFL j Hj))) as (a4 & b4 & v4 & E4 & B4).
  destruct (C128_energy P sh N c1 c2 L sigma z0e z0w dw de X p j1 j2 gam norm weighted T ws EC Hc RUN HN HT Hs r Hr ja n w n2 Hw (fun j Hj => proj1 (HFL j Hj))) as (a2 & b2 & v2 & E2 & B2).
  exists a4, b4, v4, a2, b2, v2. split; [exact E4|]. split; [exact E2|]. cbv zeta. fold q in B4, B2. fold C in B4. fold C' in B2.
  assert (X1 : C * q <= Rabs C * q) by (apply Rmult_le_compat_r; [trivial|apply Rle_abs]). assert (X2 : C' * q <= Rabs C' * q) by (apply Rmult_le_compat_r; [trivial|apply Rle_abs]).
  assert (P1 : 0 <= Rabs C * q) by (apply Rmult_le_pos; [apply Rabs_pos|trivial]). assert (P2 : 0 <= Rabs C' * q) by (apply Rmult_le_pos; [apply Rabs_pos|trivial]).
  unfold M in BE. rewrite Rmult_plus_distr_r in BE. split; [lra|].
  replace ((a2 - 2 * (1 - 1 / norm + gam)) / 2 - a4 / 4 - c1) with ((a2 - (scaling_exponent c1 c2 2 + 2 * (1 - 1 / norm + gam))) * / 2 + - (a4 / 4 - c2)) by (unfold scaling_exponent; field; unfold haar_run in HT; tauto).
  eapply Rle_trans; [apply Rabs_triang|]. rewrite Rabs_Ropp, Rabs_mult, (Rabs_pos_eq (/ 2)) by lra. lra.
Qed.
(** c1 = 5/8, c2 = -1/8: the regression over the scales 1..126 gives c2 within 1/50 *)
Theorem C128_case : exists N W (P : expectation W) (drawn_w drawn_e : W -> noise) X T ws a b var, positive P /\
  cumul_run P (SInt N) N (5 / 8) (- (1 / 8)) (2 ^ 126) 3 (fun _ => None) (fun _ => None) drawn_w drawn_e X /\ haar_run X PNone 1 None 0 1 true T ws /\
  linear_regression (fin (map INR (seq 1 126))) (fin (map (fun j => log2R (flatness P T 0 j)) (seq 1 126))) (fin (repeat 1 126)) = Ok (Fin a, Fin b, var) /\
  Rabs (a / 4 - - (1 / 8)) <= 1 / 50.
Proof.
  assert (L1 : 1 <= 2 ^ 126) by (apply pow_R1_Rle; lra).
  destruct (C122_run_exists (5 / 8) (- (1 / 8)) (2 ^ 126) 3 126 ltac:(lra) ltac:(lra) L1) as (N & W & P & dw & de & X & T & ws & HP & RUN & HN & HT & HF).
  destruct (C128_intermittency P (SInt N) N (5 / 8) (- (1 / 8)) (2 ^ 126) 3 _ _ dw de X PNone 1 None 0 1 true T ws ltac:(lra) ltac:(lra) RUN HN HT ltac:(lra) 0%nat ltac:(cbn; lia) 1%nat 126%nat 1 ltac:(lia) ltac:(lra)) as (a & b & var & E & B).
  - intros j Hj. apply HF. lia.
  - intros j Hj. apply Rle_pow; [lra|lia].
  - exists N, W, P, dw, de, X, T, ws, a, b, var. split; [exact HP|]. split; [exact RUN|]. split; [exact HT|]. split; [exact E|].
    assert (I126 : INR 126 = 126) by (rewrite INR_IZR_INZ; change (Z.of_nat 126) with 126%Z; lra). rewrite I126 in B. clear I126. eapply Rle_trans; [exact B|].
    replace (8 / (1 + 4 * - (1 / 8))) with (2 ^ 4) by field. unfold log2R. replace (ln (2 ^ 4)) with (4 * ln 2) by (replace (2 ^ 4) with (2 * 2 * (2 * 2)) by ring; rewrite !ln_mult by lra; ring).
    assert (l2 := ln2_half). replace ((4 * ln 2 / ln 2 - 4 * - (1 / 8) / ln 2) / 8) with (1 / 2 + / 16 * / ln 2) by (field; lra).
    assert (/ ln 2 <= 2). { replace 2 with (/ (1 / 2)) at 2 by field. apply Rinv_le_contravar; lra. } assert (0 < / ln 2) by (apply Rinv_0_lt_compat; lra).
    assert (SQ : sqrt (12 / (126 ^ 2 - 1)) <= 32 / 1000). { rewrite <- (sqrt_Rsqr (32 / 1000)) by lra. apply sqrt_le_1_alt. unfold Rsqr. lra. }
    assert (S0 := sqrt_pos (12 / (126 ^ 2 - 1))). nra.
Qed.
Print Assumptions C128_intermittency.
Print Assumptions C128_energy.
Print Assumptions C128_consistent.
Print Assumptions C128_case.
