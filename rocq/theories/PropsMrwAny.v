(** * C129: to second order, every wavelet sees a multifractal random walk as Brownian motion *)
From Coq Require Import Reals List ZArith Bool Lra Lia String.
From Verif Require Import XReal PyBase ModelUtils ModelMRQ ModelStructure ModelWavelet ModelSimul Spec SpecMRQ SpecSimul LXReal LUtils LBase LFilter LTransform LPattern LWave LPoly LCone LWaveEst LDft LSimul LWick LEst LNoise PropsMrw PropsConsist
  PropsWavelet PropsMissing PropsSlope PropsSimul PropsWhite PropsWhitePower PropsWhiteCase PropsWhiteFbm PropsDecorr PropsFluct PropsConsistCase PropsMrwStat PropsMrwScale PropsMrwScale4 PropsMrwCase PropsMrwScaleCase PropsMrwHaar PropsMrwHaar2 PropsMrwIntermit PropsMrwIntermitCase PropsGaussFlat LTaps LPosVar PropsPosVar LRepr PropsTolerance.
Import ListNotations.
Open Scope R_scope.
Local Notation length := List.length.
Local Notation entry := SpecMRQ.entry.

(** mean square of the coefficients of Brownian motion (variance 1 per sample) at scale j, with the rescaling of the transform *)
Definition brownian_power (w : wavelet) (norm gam : R) (j : nat) : R := factor norm gam j ^ 2 * high_cov w (unit_fbm (1 / 2)) j 0.

Section Any.
Context {W : Type} (P : expectation W) (sh : shape_arg) (N : nat) (lam L sigma : R) (z0e z0w : W -> option noise) (drawn_w drawn_e : W -> noise) (X : W -> list (list R)).
Hypothesis HR : mrw_run P sh N (1 / 2) lam L sigma z0e z0w drawn_w drawn_e X.
Variables (w : wavelet) (p : pexp) (j1 : Z) (j2 : option R) (gam norm : R) (weighted : bool) (T : W -> wtransform) (ws : W -> list warning).
Hypothesis Hw : good_wavelet w.
Hypothesis Hi : ignores_constants w.
Hypothesis HT : run_of X w p j1 j2 gam norm weighted T ws.
Lemma run_shape o : length (X o) = shape_R sh /\ Forall (fun s => length s = N) (X o).
Proof. destruct HR as (_ & _ & _ & _ & _ & [_ S]). rewrite <- (proj1 HR). apply S. Qed.
Lemma power_bounds r j b : (r < shape_R sh)%nat -> (b < N)%nat -> scale_held T w N j ->
  let A := inc_moment P X 2 r b * brownian_power w norm gam j in let e := exp (4 * corr lam L N) in
  integrable P (fun o => abs_moment 2 (numbers (wt_coefs (T o)) (Z.of_nat j) r)) /\ A / e <= coef_moment P T 2 r j <= A * e.
Proof.
  intros Hr Hb (Hj & HC & HI) A e. destruct HT as (Hn & Hp & HTT). destruct HR as (EN & N2 & _).
  assert (Hlen : length (dec_lo w) = length (dec_hi w)) by apply Hw. assert (L1 : (1 <= length (dec_lo w))%nat) by (destruct Hw; lia). assert (NL : length (neg_hi w) = length (dec_lo w)) by (now rewrite neg_hi_length, Hlen).
  destruct (average_between P X N (shape_R sh) w p j1 j2 gam norm weighted T ws run_shape Hw Hn Hp HTT (fun x => x * x) j r (A / e) (A * e) ltac:(cbv beta; ring) Hj HI Hr HC) as [I B].
  - intros k IN. assert (V := coef_value X N (shape_R sh) w p j1 j2 gam norm weighted T ws run_shape Hw Hn Hp HTT j r k Hj HI Hr IN).
    assert (IN0 := IN). rewrite <- Hlen in IN. replace j with (S (j - 1)) in IN by lia. set (c := rout (dec_lo w) (neg_hi w) (j - 1) k). set (N' := (N - 1)%nat). assert (EN' : N = S N') by (unfold N'; lia). rewrite EN' in IN.
    assert (BC : balanced (S N') c).
    { unfold balanced, c. rewrite (rout_total (S N') (dec_lo w) L1) by exact IN. assert (Z0 : sumn (length (dec_lo w)) (fun m => nth m (neg_hi w) 0) = 0); [|rewrite Z0; ring].
      rewrite Hlen. rewrite <- Ropp_0, <- Hi, <- sumn_opp. apply sumn_ext. intros m Hm. unfold neg_hi. rewrite (nth_map_lt _ _ _ 0) by trivial. ring. }
    set (s := fun a => sumn (S a) c).
    assert (VS : forall o, number (entry (wt_coefs (T o)) (Z.of_nat j) r k) = - factor norm gam j * wsum s (nth r (X o) []) 0 N').
    { intros o. rewrite V. cbn [number]. assert (Ls : length (nth r (X o) []) = S N') by (rewrite <- EN'; destruct (run_shape o) as [A1 A2]; rewrite Forall_forall in A2; apply A2, nth_In; lia).
      assert (O : outr (fun o => nth r (X o) []) (dec_lo w) (neg_hi w) (j - 1) k o = sumn (S N') (fun i => c i * nth i (nth r (X o) []) 0)).
      { unfold outr, lowr. exact (out_rout (S N') (dec_lo w) L1 (nth r (X o) []) (neg_hi w) (j - 1) k Ls IN). }
      rewrite O, balanced_wsum by exact BC. unfold s. ring. }
    assert (QF : sumn N' (fun i => s i ^ 2) = high_cov w (unit_fbm (1 / 2)) j 0).
    { unfold s. rewrite <- brownian_form by exact BC. change (form (S N') c (unit_fbm (1 / 2))) with (bil (S N') c c (unit_fbm (1 / 2))). unfold c.
      rewrite (out_bil (S N') (dec_lo w) L1 (unit_fbm (1 / 2)) (neg_hi w) (neg_hi w) (j - 1) k k (lcov (unit_fbm (1 / 2)) (dec_lo w) (j - 1)) NL NL IN IN (fun i i' H H' => low_bil (S N') (dec_lo w) L1 (unit_fbm (1 / 2)) (j - 1) i i' H H')).
      rewrite Z.sub_diag, filtered_neg. unfold high_cov. apply filtered_ext. intros z. apply lcov_eq. }
    assert (Hk : (0 + N' < N)%nat) by lia.
    destruct (wsum2 P sh N lam L sigma z0e z0w drawn_w drawn_e X HR s r 0 N' Hr Hk) as [I2 _].
    assert (B2 := wsum2_bounds P sh N lam L sigma z0e z0w drawn_w drawn_e X HR s r 0 N' b Hr Hk Hb). cbv zeta in B2. rewrite QF in B2. fold e in B2. set (f := factor norm gam j) in *.
    assert (G : forall o, f ^ 2 * wsum s (nth r (X o) []) 0 N' ^ 2 = number (entry (wt_coefs (T o)) (Z.of_nat j) r k) * number (entry (wt_coefs (T o)) (Z.of_nat j) r k)) by (intros o; rewrite VS; ring).
    split; [exact (int_ext W P _ _ G (int_scal W P (f ^ 2) _ I2))|]. rewrite <- (E_ext W P _ _ G), (E_scal W P (f ^ 2) _ I2).
    unfold A, brownian_power. fold f. assert (k0 := pow2_ge_0 f). set (v := inc_moment P X 2 r b) in *. set (h := high_cov w (unit_fbm (1 / 2)) j 0) in *.
    replace (v * (f ^ 2 * h) / e) with (f ^ 2 * (v * h / e)) by (unfold Rdiv; ring). replace (v * (f ^ 2 * h) * e) with (f ^ 2 * (v * h * e)) by ring. split; apply Rmult_le_compat_l; trivial; apply B2.
  - assert (G : forall o, mean (map (fun x => x * x) (numbers (wt_coefs (T o)) (Z.of_nat j) r)) = abs_moment 2 (numbers (wt_coefs (T o)) (Z.of_nat j) r)) by (intros; now rewrite abs_moment_2).
    split; [exact (int_ext W P _ _ G I)|]. unfold coef_moment. rewrite <- (E_ext W P _ _ G). exact B.
Qed.
End Any.

(** ** Theorems *)
Lemma brownian_power_pos w norm gam j : proper w -> vanishing_moments (dec_hi w) 1 -> 0 < brownian_power w norm gam j.
Proof.
  intros (Hw & Hl & Hh) HM. unfold brownian_power. apply Rmult_lt_0_compat; [apply pow_lt; unfold factor; apply exp_pos|]. apply (fbm_variance_positive (1 / 2) w j 1); trivial; lra || lia.
Qed.
(** mrw_cumul with c1 + c2 = 1/2: for every wavelet that ignores constants the mean square of the coefficients is the one of Brownian motion, within exp(|c2| / 4) *)
Theorem C129_energy {W} (P : expectation W) sh N c1 c2 L sigma z0e z0w (drawn_w drawn_e : W -> noise) X w p j1 j2 gam norm weighted T ws r j b :
  c1 + c2 = 1 / 2 -> c2 <= 0 -> cumul_run P sh N c1 c2 L sigma z0e z0w drawn_w drawn_e X -> 64 * L * ln L <= INR N ->
  proper w -> vanishing_moments (dec_hi w) 1 -> run_of X w p j1 j2 gam norm weighted T ws -> (r < shape_R sh)%nat -> (b < N)%nat -> scale_held T w N j ->
  exp (c2 / 4) * (inc_moment P X 2 r b * brownian_power w norm gam j) <= coef_moment P T 2 r j <= exp (- c2 / 4) * (inc_moment P X 2 r b * brownian_power w norm gam j) /\
  0 < brownian_power w norm gam j.
Proof.
  intros EC Hc RUN HN Hw HM HT Hr Hb HF. assert (MR := cumul_is_mrw P sh N c1 c2 L sigma z0e z0w drawn_w drawn_e X Hc RUN). rewrite EC in MR.
  assert (BP := brownian_power_pos w norm gam j Hw HM). split; [|exact BP].
  destruct (power_bounds P sh N (sqrt (- c2)) L sigma z0e z0w drawn_w drawn_e X MR w p j1 j2 gam norm weighted T ws (proj1 Hw) (vanish_ignores w 1 ltac:(lia) HM) HT r j b Hr Hb HF) as [_ B]. cbv zeta in B.
  assert (MR' := MR). destruct MR' as (EN & N2 & _ & [L1 _] & _). assert (Q := corr_small (sqrt (- c2)) L N L1 ltac:(lia) HN). replace (sqrt (- c2) ^ 2) with (- c2) in Q by (rewrite <- Rsqr_pow2; symmetry; apply Rsqr_sqrt; lra).
  assert (V0 : 0 <= inc_moment P X 2 r b).
  { rewrite (inc2_eq P sh N (sqrt (- c2)) L sigma z0e z0w drawn_w drawn_e X MR r b Hr Hb). apply Rmult_le_pos; [apply nominal_nonneg|left; apply exp_pos]. }
  set (A := inc_moment P X 2 r b * brownian_power w norm gam j) in *. set (e := exp (4 * corr (sqrt (- c2)) L N)) in *.
  assert (A0 : 0 <= A) by (apply Rmult_le_pos; lra).
  assert (e1 : e <= exp (- c2 / 4)) by (apply exp_le; lra). assert (e2 : exp (c2 / 4) <= / e) by (unfold e; rewrite <- exp_Ropp; apply exp_le; lra).
  split.
  - eapply Rle_trans; [|apply B]. unfold Rdiv. rewrite Rmult_comm. now apply Rmult_le_compat_l.
  - eapply Rle_trans; [apply B|]. rewrite (Rmult_comm A). now apply Rmult_le_compat_r.
Qed.
Print Assumptions C129_energy.
(** the increments of the walk have a positive variance *)
Lemma inc_pos {W} (P : expectation W) sh N c1 c2 L sigma z0e z0w (drawn_w drawn_e : W -> noise) X r b : c1 + c2 = 1 / 2 -> c2 <= 0 -> cumul_run P sh N c1 c2 L sigma z0e z0w drawn_w drawn_e X ->
  sigma <> 0 -> (r < shape_R sh)%nat -> (b < N)%nat -> 0 < inc_moment P X 2 r b.
Proof.
  intros EC Hc RUN Hs Hr Hb. assert (MR := cumul_is_mrw P sh N c1 c2 L sigma z0e z0w drawn_w drawn_e X Hc RUN). rewrite EC in MR.
  rewrite (inc2_eq P sh N (sqrt (- c2)) L sigma z0e z0w drawn_w drawn_e X MR r b Hr Hb). apply Rmult_lt_0_compat; [|apply exp_pos]. unfold nominal. apply Rmult_lt_0_compat; [nra|apply exp_pos].
Qed.
(** simulated Brownian motion, fbm of exponent 1/2, analysed in the same way has the same mean squares up to one factor for all scales, within exp(|c2| / 4) *)
Theorem C129_brownian {W W'} (P : expectation W) (P' : expectation W') sh N c1 c2 L sigma z0e z0w (drawn_w drawn_e : W -> noise) X sh' sigma' dt d z0 (drawn' : W' -> noise) :
  c1 + c2 = 1 / 2 -> c2 <= 0 -> cumul_run P sh N c1 c2 L sigma z0e z0w drawn_w drawn_e X -> 64 * L * ln L <= INR N -> sigma <> 0 ->
  shape_N sh' = N -> sampling_step dt N d -> sigma' <> 0 -> gaussian_complex P' (shape_R sh') (2 * N - 2) (fun o => nz (drawn' o)) ->
  exists B, (forall o, fbm sh' (1 / 2) sigma' dt "cme" z0 (drawn' o) = Ok (presented sh' (B o), false)) /\
  forall r, (r < shape_R sh)%nat -> exists ratio, 0 < ratio /\
  forall w p j1 j2 gam norm weighted T ws T' ws' r', proper w -> vanishing_moments (dec_hi w) 1 -> (r' < shape_R sh')%nat ->
    run_of X w p j1 j2 gam norm weighted T ws -> run_of B w p j1 j2 gam norm weighted T' ws' ->
  forall j, scale_held T w N j -> scale_held T' w N j ->
    exp (c2 / 4) * (ratio * coef_moment P' T' 2 r' j) <= coef_moment P T 2 r j <= exp (- c2 / 4) * (ratio * coef_moment P' T' 2 r' j) /\ 0 < coef_moment P' T' 2 r' j.
Proof.
  intros EC Hc RUN HN Hs EN Hd Hs' HG. assert (N2 : (2 <= N)%nat) by (destruct RUN as (_ & Q & _); exact Q).
  destruct (C124_fbm P' sh' N (1 / 2) sigma' dt d z0 drawn' EN N2 Hd ltac:(lra) HG) as (B & EB & _ & K). exists B. split; [exact EB|].
  intros r Hr. assert (I0 := inc_pos P sh N c1 c2 L sigma z0e z0w drawn_w drawn_e X r 0 EC Hc RUN Hs Hr ltac:(lia)).
  assert (S0 : 0 < sigma' ^ 2 * Rpower d (2 * (1 / 2))) by (apply Rmult_lt_0_compat; [nra|apply exp_pos]). set (v := sigma' ^ 2 * Rpower d (2 * (1 / 2))) in *.
  exists (inc_moment P X 2 r 0 / v). split; [now apply Rdiv_lt_0_compat|].
  intros w p j1 j2 gam norm weighted T ws T' ws' r' Hw HM Hr' HT HT' j HF HF'.
  destruct (C129_energy P sh N c1 c2 L sigma z0e z0w drawn_w drawn_e X w p j1 j2 gam norm weighted T ws r j 0 EC Hc RUN HN Hw HM HT Hr ltac:(lia) HF) as [E1 BP].
  destruct (K w p j1 j2 gam norm weighted T' ws' (proj1 Hw) (vanish_ignores w 1 ltac:(lia) HM) HT' r' j Hr' HF') as [E2 _].
  replace (factor norm gam j ^ 2 * v * high_cov w (unit_fbm (1 / 2)) j 0) with (v * brownian_power w norm gam j) in E2 by (unfold brownian_power; ring).
  rewrite E2. replace (inc_moment P X 2 r 0 / v * (v * brownian_power w norm gam j)) with (inc_moment P X 2 r 0 * brownian_power w norm gam j) by (field; lra).
  split; [exact E1|]. now apply Rmult_lt_0_compat.
Qed.
Print Assumptions C129_brownian.
(** so the regressions of the log2 of the mean squares over n scales give slopes that differ by |c2| / (4 ln 2) sqrt(12 / (n^2 - 1)) at most *)
Theorem C129_slope {W W'} (P : expectation W) (P' : expectation W') sh N c1 c2 L sigma z0e z0w (drawn_w drawn_e : W -> noise) X sh' sigma' dt d z0 (drawn' : W' -> noise) :
  c1 + c2 = 1 / 2 -> c2 <= 0 -> cumul_run P sh N c1 c2 L sigma z0e z0w drawn_w drawn_e X -> 64 * L * ln L <= INR N -> sigma <> 0 ->
  shape_N sh' = N -> sampling_step dt N d -> sigma' <> 0 -> gaussian_complex P' (shape_R sh') (2 * N - 2) (fun o => nz (drawn' o)) ->
  exists B, (forall o, fbm sh' (1 / 2) sigma' dt "cme" z0 (drawn' o) = Ok (presented sh' (B o), false)) /\
  forall w p j1 j2 gam norm weighted T ws T' ws' r r', proper w -> vanishing_moments (dec_hi w) 1 -> (r < shape_R sh)%nat -> (r' < shape_R sh')%nat ->
    run_of X w p j1 j2 gam norm weighted T ws -> run_of B w p j1 j2 gam norm weighted T' ws' ->
  forall ja n c, (2 <= n)%nat -> 0 < c -> (forall j, (ja <= j < ja + n)%nat -> scale_held T w N j /\ scale_held T' w N j) ->
  exists a b var a' b' var',
    linear_regression (fin (map INR (seq ja n))) (fin (map (fun j => log2R (coef_moment P T 2 r j)) (seq ja n))) (fin (repeat c n)) = Ok (Fin a, Fin b, var) /\
    linear_regression (fin (map INR (seq ja n))) (fin (map (fun j => log2R (coef_moment P' T' 2 r' j)) (seq ja n))) (fin (repeat c n)) = Ok (Fin a', Fin b', var') /\
    Rabs (a - a') <= - c2 / (4 * ln 2) * sqrt (12 / (INR n ^ 2 - 1)).
Proof.
  intros EC Hc RUN HN Hs EN Hd Hs' HG. destruct (C129_brownian P P' sh N c1 c2 L sigma z0e z0w drawn_w drawn_e X sh' sigma' dt d z0 drawn' EC Hc RUN HN Hs EN Hd Hs' HG) as (B & EB & K).
  exists B. split; [exact EB|]. intros w p j1 j2 gam norm weighted T ws T' ws' r r' Hw HM Hr Hr' HT HT' ja n c Hn Hcc HF. destruct (K r Hr) as (ratio & R0 & KK). assert (l2 := ln2_half).
  apply (C127_scales_perturbation c ja n (fun j => log2R (coef_moment P T 2 r j)) (fun j => log2R (coef_moment P' T' 2 r' j)) (log2R ratio) (- c2 / (4 * ln 2)) Hcc Hn).
  intros j Hj. destruct (HF j Hj) as [F1 F2]. destruct (KK w p j1 j2 gam norm weighted T ws T' ws' r' Hw HM Hr' HT HT' j F1 F2) as [[B1 B2] M0].
  set (m := coef_moment P T 2 r j) in *. set (m' := coef_moment P' T' 2 r' j) in *. assert (a0 : 0 < ratio * m') by (now apply Rmult_lt_0_compat).
  assert (LN : forall e, ln (exp e * (ratio * m')) = e + ln ratio + ln m') by (intros e; rewrite !ln_mult, ln_exp; trivial; [ring|apply exp_pos]).
  assert (q0 : 0 < exp (c2 / 4) * (ratio * m')) by (apply Rmult_lt_0_compat; [apply exp_pos|trivial]). assert (m0 : 0 < m) by lra.
  assert (LE : forall x z, 0 < x -> x <= z -> ln x <= ln z) by (intros x z Hx [Q|Q]; [left; now apply ln_increasing|rewrite Q; lra]).
  assert (G1 := LE _ _ q0 B1). assert (G2 := LE _ _ m0 B2). rewrite LN in G1, G2. unfold log2R.
  replace (ln m / ln 2 - ln m' / ln 2 - ln ratio / ln 2) with ((ln m - ln m' - ln ratio) * / ln 2) by (field; lra). replace (- c2 / (4 * ln 2)) with (- c2 / 4 * / ln 2) by (field; lra).
  assert (i0 : 0 < / ln 2) by (apply Rinv_0_lt_compat; lra). rewrite Rabs_mult, (Rabs_pos_eq (/ ln 2)) by lra. apply Rmult_le_compat_r; [lra|]. apply Rabs_le. lra.
Qed.
Print Assumptions C129_slope.
(** Daubechies' wavelet db2 on a walk with c1 = 5/8, c2 = -1/8: the first scale holds the bounds *)
Theorem C129_case : exists N W (P : expectation W) (drawn_w drawn_e : W -> noise) X T ws, positive P /\
  cumul_run P (SInt N) N (5 / 8) (- (1 / 8)) (2 ^ 9) 3 (fun _ => None) (fun _ => None) drawn_w drawn_e X /\ run_of X db2 PNone 1 None 0 1 true T ws /\ scale_held T db2 N 1 /\
  let v := inc_moment P X 2 0 0 * brownian_power db2 1 0 1 in 0 < v /\ 9 / 10 * v <= coef_moment P T 2 0 1 <= 11 / 10 * v.
Proof.
  destruct (C122_run_exists (5 / 8) (- (1 / 8)) (2 ^ 9) 3 9 ltac:(lra) ltac:(lra) ltac:(apply pow_R1_Rle; lra)) as (N & W & P & dw & de & X & T0 & ws0 & HP & RUN & HN & HT & HF).
  assert (SH : forall o, length (X o) = 1%nat /\ Forall (fun s => length s = N) (X o)). { assert (S0 := RUN). destruct S0 as (_ & _ & _ & _ & _ & _ & S0). intros o. exact (S0 o). }
  assert (GW : good_wavelet db2) by apply proper_db2. assert (N2 : (2 <= N)%nat) by (assert (S0 := RUN); destruct S0 as (_ & Q & _); exact Q).
  assert (TT : forall o, wavelet_analysis (map fin (X o)) PNone db2 1 None 0 1 true = Ok (transform_of (X o) db2 1 None 0 1 true, warnings_of (X o) db2 1 None 0 1 true)).
  { intros o. destruct (SH o) as [S1 S2]. apply (transform_ok (X o) N); [intros Q; rewrite Q in S1; discriminate|lia|exact S2|exact GW|lra]. }
  assert (B9 := HF 9%nat ltac:(lia)). destruct B9 as (_ & B9 & _). unfold inner_count in B9.
  assert (NB : (1024 <= N)%nat).
  { assert (LN : 512 * ln (2 ^ 9) >= 512). { assert (K := ln_lt_2). replace (2 ^ 9) with (2 * 2 * (2 * 2) * (2 * 2 * (2 * 2)) * 2) by ring. rewrite !ln_mult by lra. lra. }
    apply INR_le. replace (INR 1024) with 1024 by (rewrite INR_IZR_INZ; reflexivity). replace (64 * 2 ^ 9 * ln (2 ^ 9)) with (64 * (512 * ln (2 ^ 9))) in HN by (simpl; lra). lra. }
  clear B9. exists N, W, P, dw, de, X, (fun o => transform_of (X o) db2 1 None 0 1 true), (fun o => warnings_of (X o) db2 1 None 0 1 true).
  assert (RO : run_of X db2 PNone 1 None 0 1 true (fun o => transform_of (X o) db2 1 None 0 1 true) (fun o => warnings_of (X o) db2 1 None 0 1 true)) by (split; [lra|split; [exact Logic.I|exact TT]]).
  assert (IC : (3 <= inner_count N (length (dec_hi db2)) 1)%nat).
  { unfold inner_count. change (length (dec_hi db2)) with 4%nat. change (2 ^ (1 - 1))%nat with 1%nat. rewrite Nat.div_1_r. assert (Q : (1021 / 2 <= (N + 1 - 4) / 2)%nat) by (apply Nat.div_le_mono; lia). change (1021 / 2)%nat with 510%nat in Q. try (change ((4 - 1) / 2)%nat with 1%nat). lia. }
  assert (SH1 : scale_held (fun o => transform_of (X o) db2 1 None 0 1 true) db2 N 1).
  { split; [lia|]. split; [lia|]. intros o. destruct (SH o) as [S1 S2]. apply (C99_scales (X o) N db2 1 None 0 1 true _ _ ltac:(intros Q; rewrite Q in S1; discriminate) ltac:(lia) S2 GW ltac:(lra) (TT o)). split; [lia|exact IC]. }
  split; [exact HP|]. split; [exact RUN|]. split; [exact RO|]. split; [exact SH1|].
  assert (VM : vanishing_moments (dec_hi db2) 1) by (intros i Hi; apply vanish_db2; lia).
  destruct (C129_energy P (SInt N) N (5 / 8) (- (1 / 8)) (2 ^ 9) 3 _ _ dw de X db2 PNone 1 None 0 1 true _ _ 0%nat 1%nat 0%nat ltac:(lra) ltac:(lra) RUN HN proper_db2 VM RO ltac:(cbn; lia) ltac:(lia) SH1) as [E1 BP].
  assert (I0 := inc_pos P (SInt N) N (5 / 8) (- (1 / 8)) (2 ^ 9) 3 _ _ dw de X 0%nat 0%nat ltac:(lra) ltac:(lra) RUN ltac:(lra) ltac:(cbn; lia) ltac:(lia)).
  cbv zeta. set (v := inc_moment P X 2 0 0 * brownian_power db2 1 0 1) in *. assert (v0 : 0 < v) by (now apply Rmult_lt_0_compat). split; [exact v0|].
  assert (e1 : 1 + - (1 / 8) / 4 <= exp (- (1 / 8) / 4)) by apply exp_ineq1_le.
  assert (e2 : exp (- - (1 / 8) / 4) <= 32 / 31). { replace (- - (1 / 8) / 4) with (- (- (1 / 8) / 4)) by field. rewrite exp_Ropp. replace (32 / 31) with (/ (1 + - (1 / 8) / 4)) by field. apply Rinv_le_contravar; lra. }
  nra.
Qed.
Print Assumptions C129_case.
