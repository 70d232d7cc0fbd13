(** * C119: the wavelet spectrum of simulated fractional noise converges; comparison with the Fourier spectrum *)
From Coq Require Import Reals List ZArith Bool Lra Lia String FunctionalExtensionality Classical_Prop.
From Verif Require Import XReal PyBase ModelUtils ModelMRQ ModelStructure ModelWavelet ModelPSD ModelSimul ModelWelch Spec SpecMRQ SpecSimul LXReal LUtils LBase LFilter LTransform LPattern LWave LPoly LCone LMoment LWaveEst LDft LSimul LEst LPSD LWelch
  PropsEstimators PropsPSD PropsWavelet PropsMissing PropsSlope PropsWhite PropsWhitePower PropsWhiteCase PropsSimul PropsDecorr LWick PropsFluct PropsConsist PropsConsistGen PropsConsistCase PropsBeta PropsWelch LPowerSum PropsConsistRate PropsWelchConsist.
Import ListNotations.
Open Scope R_scope.
Local Notation length := List.length.
Local Notation entry := SpecMRQ.entry.

(** the value of the wavelet spectrum at scale j, for realisation r *)
Definition wavelet_value (V : psd) (j r : nat) : xr := match psd_psd V with PSD1 _ => NaN | PSD2 _ rows => nth r (nth (j - 1) rows []) NaN end.

(** it is the mean square of the numbers among the coefficients of the scale *)
Lemma value_power db nm w S N nrep fs j2 t ws j r : db nm = Some w -> good_wavelet w -> length S = nrep -> Forall (fun s => length s = N) S -> (r < nrep)%nat ->
  wavelet_analysis (map fin S) PNone w 1 j2 (1/2) 1 false = Ok (t, ws) -> (1 <= j)%nat -> In (Z.of_nat j) (scales (wt_coefs t)) ->
  exists V, wavelet_estimation db (map fin S) fs nm j2 = Ok V /\ wavelet_value V j r = Fin (mean_sq (wt_coefs t) (Z.of_nat j) r).
Proof.
  intros Hdb Hw HR HN Hr HT Hj HI.
  assert (NI : Forall no_inf (map fin S)) by (apply Forall_map, Forall_forall; intros s _; apply no_inf_fin).
  assert (EX : exists V, wavelet_estimation db (map fin S) fs nm j2 = Ok V) by (unfold wavelet_estimation; rewrite Hdb, HT; cbn [bind]; eexists; reflexivity).
  destruct EX as [V EV]. exists V. split; [exact EV|]. destruct (we_inv db (map fin S) fs nm j2 w V Hdb Hw EV) as (ws' & EW & EQ). cbv zeta in EW, EQ.
  rewrite HT in EW. injection EW as Et _. assert (SC : scales (wt_coefs t) = one_to (ccount (map fin S) PNone w (1/2) 1)) by (rewrite Et; apply PropsWavelet.scales_mrq).
  rewrite SC in HI. apply one_to_In in HI. assert (G1 : (1 <= ccount (map fin S) PNone w (1/2) 1)%nat) by lia.
  assert (H := we_holds (map fin S) w NI G1). unfold wavelet_value. rewrite EQ. cbn [psd_psd]. rewrite Et.
  change (mq_values (wt_coefs (the_wt (map fin S) PNone w j2 (1 / 2) 1 []))) with (mq_values (mrq_of WaveletCoef (1/2) (Cf (map fin S) w (1/2) 1) (ccount (map fin S) PNone w (1/2) 1))).
  assert (HL : length (map mean_square (dict_vals (mq_values (mrq_of WaveletCoef (1/2) (Cf (map fin S) w (1/2) 1) (ccount (map fin S) PNone w (1/2) 1))))) = ccount (map fin S) PNone w (1/2) 1).
  { unfold mrq_of. cbn [mq_values]. unfold table, dict_vals. now rewrite !map_length, seq_length. }
  destruct H as [_ [(y & _ & H)|[_ H]]]; [discriminate|]. injection H as _ H. set (rows := map mean_square _) in *. destruct rows as [|r0 rows0] eqn:ER; [cbn in HL; lia|]. rewrite H.
  rewrite (nth_map_lt _ _ _ 0%nat) by (rewrite seq_length; lia). rewrite seq_nth by lia.
  rewrite (nth_map_lt _ _ _ []) by (rewrite !map_length, seq_length; lia). rewrite (nth_map_lt _ _ _ 0%nat) by (rewrite seq_length, map_length; lia). rewrite seq_nth by (rewrite ?map_length; lia).
  rewrite (nth_map_lt _ _ _ 0%Z) by (unfold one_to; rewrite map_length, seq_length; lia). cbn [Nat.add].
  unfold one_to. rewrite (nth_map_lt _ _ _ 0%nat) by (rewrite seq_length; lia). rewrite seq_nth by lia. replace (1 + (j - 1))%nat with j by lia. reflexivity.
Qed.

(** ** C119 *)
(** simulate fgn and estimate its wavelet spectrum: but for a probability at most K / N, the first J values of the spectrum of a realisation are within [tol] (in units of sigma^2 dt^(2H)) of the
    covariance of the noise seen through the wavelet; K depends neither on N, nor on sigma, nor on the steps *)
Theorem C119_fgn_wavelet :
  forall H w M (J : nat) tol, 0 < H < 1 -> good_wavelet w -> vanishing_moments (dec_hi w) M -> (1 <= M)%nat -> 0 < tol ->
  exists K, forall W (P : expectation W) sh N sigma dt d z0 (drawn : W -> noise) db nm fs j2 r,
  shape_N sh = N -> (2 <= N)%nat -> sampling_step dt N d -> sigma <> 0 -> gaussian_complex P (shape_R sh) (2 * N - 2) (fun w => nz (drawn w)) -> (r < shape_R sh)%nat -> db nm = Some w ->
  let unit := sigma ^ 2 * Rpower d (2 * H) in
  prob_at_most P (fun o => ~ exists X V,
      fgn sh H sigma dt "cme" z0 (drawn o) = Ok (presented sh X, false) /\ shaped (shape_R sh) N X /\ wavelet_estimation db (map fin X) fs nm j2 = Ok V /\
      forall j, (1 <= j <= J)%nat -> exists v, wavelet_value V j r = Fin v /\ Rabs (v - high_cov w (unit_fgn H) j 0 * unit) <= tol * unit) (K / INR N).
Proof.
  intros H w M J tol HH Hw HM M1 Ht. assert (n1 : 1 <> 0) by lra. set (L := length (dec_hi w)). assert (L1 : (1 <= L)%nat) by (unfold L; destruct Hw as [A _]; clear - A; lia).
  set (js := seq 1 J). assert (IL : forall j, In j js <-> (1 <= j <= J)%nat) by (intros j; unfold js; rewrite in_seq; lia).
  (* one constant for all the scales *)
  assert (HB : exists C, 0 <= C /\ forall j, In j js -> forall W (P : expectation W) sh N sigma dt d z0 (drawn : W -> noise) p j1 j2 weighted,
    shape_N sh = N -> (2 <= N)%nat -> sampling_step dt N d -> gaussian_complex P (shape_R sh) (2 * N - 2) (fun w => nz (drawn w)) -> p_ok p ->
    exists X, (forall o, fgn sh H sigma dt "cme" z0 (drawn o) = Ok (presented sh (X o), false)) /\ (forall o, shaped (shape_R sh) N (X o)) /\
    forall (T : W -> wtransform) (ws : W -> list warning), (forall o, wavelet_analysis (map fin (X o)) p w j1 j2 (1/2) 1 weighted = Ok (T o, ws o)) ->
    forall r, (r < shape_R sh)%nat -> (forall o, In (Z.of_nat j) (scales (wt_coefs (T o)))) -> (1 <= inner_count N L j)%nat ->
    let power o := abs_moment 2 (numbers (wt_coefs (T o)) (Z.of_nat j) r) in
    E P power = factor 1 (1/2) j ^ 2 * (sigma ^ 2 * Rpower d (2 * H)) * high_cov w (unit_fgn H) j 0 /\
    integrable P (fun o => (power o - E P power) ^ 2) /\
    E P (fun o => (power o - E P power) ^ 2) <= C * (sigma ^ 2 * Rpower d (2 * H)) ^ 2 / INR (inner_count N L j)).
  { apply (list_bound (fun j C => forall W (P : expectation W) sh N sigma dt d z0 (drawn : W -> noise) p j1 j2 weighted,
    shape_N sh = N -> (2 <= N)%nat -> sampling_step dt N d -> gaussian_complex P (shape_R sh) (2 * N - 2) (fun w => nz (drawn w)) -> p_ok p ->
    exists X, (forall o, fgn sh H sigma dt "cme" z0 (drawn o) = Ok (presented sh (X o), false)) /\ (forall o, shaped (shape_R sh) N (X o)) /\
    forall (T : W -> wtransform) (ws : W -> list warning), (forall o, wavelet_analysis (map fin (X o)) p w j1 j2 (1/2) 1 weighted = Ok (T o, ws o)) ->
    forall r, (r < shape_R sh)%nat -> (forall o, In (Z.of_nat j) (scales (wt_coefs (T o)))) -> (1 <= inner_count N L j)%nat ->
    let power o := abs_moment 2 (numbers (wt_coefs (T o)) (Z.of_nat j) r) in
    E P power = factor 1 (1/2) j ^ 2 * (sigma ^ 2 * Rpower d (2 * H)) * high_cov w (unit_fgn H) j 0 /\
    integrable P (fun o => (power o - E P power) ^ 2) /\
    E P (fun o => (power o - E P power) ^ 2) <= C * (sigma ^ 2 * Rpower d (2 * H)) ^ 2 / INR (inner_count N L j)) js).
    - intros j C C' HC Q W P sh N sigma dt d z0 drawn p j1 j2 wd EN HN Hd HG Hp. destruct (Q W P sh N sigma dt d z0 drawn p j1 j2 wd EN HN Hd HG Hp) as (X & EX & HS & F). exists X. split; [exact EX|]. split; [exact HS|].
      intros T ws HT r Hr HI HCt. destruct (F T ws HT r Hr HI HCt) as (F1 & F2 & F3). split; [exact F1|]. split; [exact F2|]. eapply Rle_trans; [exact F3|]. unfold Rdiv.
      apply Rmult_le_compat_r; [left; apply Rinv_0_lt_compat, lt_0_INR; lia|]. apply Rmult_le_compat_r; [apply pow2_ge_0|exact HC].
    - intros j Hj. apply IL in Hj. destruct (C112_fluctuation_fgn H w M j (1/2) 1 ltac:(lra) Hw HM M1 ltac:(lia) n1) as [C HC]. exists C.
      intros W P sh N sigma dt d z0 drawn p j1 j2 wd EN HN Hd HG Hp. destruct (HC W P sh N sigma dt d z0 drawn p j1 j2 wd EN HN Hd HG Hp) as (X & EX & HS & F). exists X. split; [exact EX|]. split; [exact HS|].
      intros T ws HT r Hr HI HCt. destruct (F T ws HT r Hr HI HCt) as (_ & F1 & F2 & F3). split; [exact F1|]. split; [exact F2|exact F3]. }
  destruct HB as (C & C0 & HB). set (K1 := Rsum (map (fun j => C * (2 ^ j * (INR L + 3)) / tol ^ 2) js)). set (K2 := 2 ^ (J + 1) * (INR L + 3) * 2).
  exists (Rmax K1 K2). intros W P sh N sigma dt d z0 drawn db nm fs j2 r EN HN Hd Hs HG Hr Hdb unit.
  assert (d0 := proj2 (step_ok dt N d ltac:(lia) Hd)). assert (NP : 0 < INR N) by (apply lt_0_INR; lia).
  assert (U0 : 0 < unit) by (apply Rmult_lt_0_compat; [rewrite <- Rsqr_pow2; now apply Rsqr_pos_lt|apply exp_pos]).
  destruct (le_lt_dec (2 ^ J * (2 * 3 + 2 * L + 2)) N) as [BN|BN].
  - destruct (fgn_stationary P sh N H sigma dt d z0 drawn EN ltac:(lia) Hd ltac:(lra) (proj1 HG)) as (X & EX & HS & _).
    assert (NE : forall o, X o <> []) by (intros o Z; destruct (HS o) as [LL _]; rewrite Z in LL; cbn in LL; lia).
    assert (TE := fun o => transform_ok (X o) N w 1 j2 (1/2) 1 false (NE o) ltac:(lia) (proj2 (HS o)) Hw n1).
    assert (C3 : forall j, (1 <= j <= J)%nat -> (3 <= inner_count N L j)%nat).
    { intros j Hj. apply (inner_count_big 3 L j L1 ltac:(lia) N). eapply Nat.le_trans; [|exact BN]. apply Nat.mul_le_mono_r. apply Nat.pow_le_mono_r; lia. }
    assert (SC : forall j, (1 <= j <= J)%nat -> forall o, In (Z.of_nat j) (scales (wt_coefs (transform_of (X o) w 1 j2 (1/2) 1 false)))).
    { intros j Hj o. apply (C99_scales (X o) N w 1 j2 (1/2) 1 false _ _ (NE o) ltac:(lia) (proj2 (HS o)) Hw n1 (TE o)). split; [lia|now apply C3]. }
    set (A j o := tol * unit <= Rabs (abs_moment 2 (numbers (wt_coefs (transform_of (X o) w 1 j2 (1/2) 1 false)) (Z.of_nat j) r) - high_cov w (unit_fgn H) j 0 * unit)).
    eapply prob_weaken; [| |apply (prob_list P A (fun j => (C * (2 ^ j * (INR L + 3)) / tol ^ 2) / INR N) js)].
    + intros o NO. destruct (Exists_dec (fun j => A j o) js) as [Q|Q]; [intros j; unfold A; apply Rle_dec|now apply Exists_exists in Q|]. exfalso. apply NO.
      assert (EV : exists V, wavelet_estimation db (map fin (X o)) fs nm j2 = Ok V) by (unfold wavelet_estimation; rewrite Hdb, (TE o); cbn [bind]; eexists; reflexivity).
      destruct EV as [V EV]. exists (X o), V. split; [apply EX|]. split; [apply HS|]. split; [exact EV|]. intros j Hj.
      destruct (value_power db nm w (X o) N (shape_R sh) fs j2 _ _ j r Hdb Hw (proj1 (HS o)) (proj2 (HS o)) Hr (TE o) ltac:(lia) (SC j Hj o)) as (V' & EV' & VV). rewrite EV in EV'. injection EV' as <-.
      eexists. split; [exact VV|]. rewrite <- power_mean_sq. left. apply Rnot_le_lt. intros Y. apply Q. apply Exists_exists. exists j. split; [now apply IL|exact Y].
    + rewrite (Rsum_map_ext _ (fun j => / INR N * (C * (2 ^ j * (INR L + 3)) / tol ^ 2))) by (intros; unfold Rdiv; ring). rewrite Rsum_map_scal. fold K1. unfold Rdiv. rewrite (Rmult_comm (Rmax _ _)).
      apply Rmult_le_compat_l; [left; now apply Rinv_0_lt_compat|apply Rmax_l].
    + intros j Hjl. apply IL in Hjl. destruct (HB j (proj2 (IL j) Hjl) W P sh N sigma dt d z0 drawn PNone 1%Z j2 false EN HN Hd HG Logic.I) as (X' & EX' & HS' & F).
      assert (XX : forall o, X' o = X o). { intros o. apply (presented_inj sh N); [apply HS'|apply HS|]. assert (Y := EX o). rewrite EX' in Y. congruence. }
      destruct (F (fun o => transform_of (X o) w 1 j2 (1/2) 1 false) (fun o => warnings_of (X o) w 1 j2 (1/2) 1 false) (fun o => eq_ind_r (fun x => wavelet_analysis (map fin x) PNone w 1 j2 (1/2) 1 false = _) (TE o) (XX o)) r Hr (SC j Hjl) ltac:(specialize (C3 j Hjl); lia)) as (F1 & F2 & F3).
      assert (FA : factor 1 (1/2) j = 1) by (unfold factor; replace (INR j * (1 / 2 - 1 / 1 + 1 / 2)) with 0 by field; now rewrite Rpower_O by lra).
      rewrite FA in F1. fold unit in F1, F3. replace (1 ^ 2 * unit * high_cov w (unit_fgn H) j 0) with (high_cov w (unit_fgn H) j 0 * unit) in F1 by ring. rewrite F1 in F2, F3. unfold A.
      assert (CH := chebyshev P (fun o => abs_moment 2 (numbers (wt_coefs (transform_of (X o) w 1 j2 (1/2) 1 false)) (Z.of_nat j) r)) (high_cov w (unit_fgn H) j 0 * unit) _ (tol * unit) ltac:(now apply Rmult_lt_0_compat) F2 F3).
      eapply prob_weaken; [|  |exact CH]; [intros o Q; exact Q|].
      assert (c0 : 0 < INR (inner_count N L j)) by (apply lt_0_INR; specialize (C3 j Hjl); lia).
      assert (RT := inner_count_rate L j N L1 ltac:(lia) ltac:(specialize (C3 j Hjl); lia)).
      replace (C * unit ^ 2 / INR (inner_count N L j) / (tol * unit) ^ 2) with (C / tol ^ 2 * / INR (inner_count N L j)) by (field; lra).
      replace (C * (2 ^ j * (INR L + 3)) / tol ^ 2 / INR N) with (C / tol ^ 2 * ((2 ^ j * (INR L + 3)) / INR N)) by (field; lra).
      apply Rmult_le_compat_l; [apply Rmult_le_pos; [exact C0|left; apply Rinv_0_lt_compat, pow_lt, Ht]|].
      apply Rmult_le_reg_r with (INR (inner_count N L j) * INR N); [now apply Rmult_lt_0_compat|].
      replace (/ INR (inner_count N L j) * (INR (inner_count N L j) * INR N)) with (INR N) by (field; lra).
      replace (2 ^ j * (INR L + 3) / INR N * (INR (inner_count N L j) * INR N)) with (2 ^ j * (INR L + 3) * INR (inner_count N L j)) by (field; lra). exact RT.
  - apply prob_one. assert (M2 := Rmax_r K1 K2). apply Rmult_le_reg_r with (INR N); [trivial|]. unfold Rdiv. rewrite Rmult_assoc, Rinv_l, Rmult_1_r, Rmult_1_l by lra. eapply Rle_trans; [|exact M2].
    apply lt_INR in BN. rewrite mult_INR, pow_INR in BN. replace (INR (2 * 3 + 2 * L + 2)) with (8 + 2 * INR L) in BN by (rewrite !plus_INR, !mult_INR; cbn [INR]; ring). change (INR 2) with 2 in BN.
    unfold K2. rewrite pow_add. change (2 ^ 1) with (2 * 1). assert (0 < 2 ^ J) by (apply pow_lt; lra). assert (0 <= INR L) by apply pos_INR. nra.
Qed.
Print Assumptions C119_fgn_wavelet.

(** the same for fbm and a wavelet with at least two vanishing moments (n_moments = 2 is the default): but for a probability at most K / N, the first J values of the spectrum of a realisation are within [tol] (in units of sigma^2 dt^(2H)) of the
    covariance of the increments of the motion seen through the wavelet; K depends neither on N, nor on sigma, nor on the steps *)
Theorem C119_fbm_wavelet :
  forall H w M (J : nat) tol, 0 < H < 1 -> good_wavelet w -> vanishing_moments (dec_hi w) M -> (2 <= M)%nat -> 0 < tol ->
  exists K, forall W (P : expectation W) sh N sigma dt d z0 (drawn : W -> noise) db nm fs j2 r,
  shape_N sh = N -> (2 <= N)%nat -> sampling_step dt N d -> sigma <> 0 -> gaussian_complex P (shape_R sh) (2 * N - 2) (fun w => nz (drawn w)) -> (r < shape_R sh)%nat -> db nm = Some w ->
  let unit := sigma ^ 2 * Rpower d (2 * H) in
  prob_at_most P (fun o => ~ exists X V,
      fbm sh H sigma dt "cme" z0 (drawn o) = Ok (presented sh X, false) /\ shaped (shape_R sh) N X /\ wavelet_estimation db (map fin X) fs nm j2 = Ok V /\
      forall j, (1 <= j <= J)%nat -> exists v, wavelet_value V j r = Fin v /\ Rabs (v - high_cov w (unit_fbm H) j 0 * unit) <= tol * unit) (K / INR N).
Proof.
  intros H w M J tol HH Hw HM M1 Ht. assert (n1 : 1 <> 0) by lra. set (L := length (dec_hi w)). assert (L1 : (1 <= L)%nat) by (unfold L; destruct Hw as [A _]; clear - A; lia).
  set (js := seq 1 J). assert (IL : forall j, In j js <-> (1 <= j <= J)%nat) by (intros j; unfold js; rewrite in_seq; lia).
  (* one constant for all the scales *)
  assert (HB : exists C, 0 <= C /\ forall j, In j js -> forall W (P : expectation W) sh N sigma dt d z0 (drawn : W -> noise) p j1 j2 weighted,
    shape_N sh = N -> (2 <= N)%nat -> sampling_step dt N d -> gaussian_complex P (shape_R sh) (2 * N - 2) (fun w => nz (drawn w)) -> p_ok p ->
    exists X, (forall o, fbm sh H sigma dt "cme" z0 (drawn o) = Ok (presented sh (X o), false)) /\ (forall o, shaped (shape_R sh) N (X o)) /\
    forall (T : W -> wtransform) (ws : W -> list warning), (forall o, wavelet_analysis (map fin (X o)) p w j1 j2 (1/2) 1 weighted = Ok (T o, ws o)) ->
    forall r, (r < shape_R sh)%nat -> (forall o, In (Z.of_nat j) (scales (wt_coefs (T o)))) -> (1 <= inner_count N L j)%nat ->
    let power o := abs_moment 2 (numbers (wt_coefs (T o)) (Z.of_nat j) r) in
    E P power = factor 1 (1/2) j ^ 2 * (sigma ^ 2 * Rpower d (2 * H)) * high_cov w (unit_fbm H) j 0 /\
    integrable P (fun o => (power o - E P power) ^ 2) /\
    E P (fun o => (power o - E P power) ^ 2) <= C * (sigma ^ 2 * Rpower d (2 * H)) ^ 2 / INR (inner_count N L j)).
  { apply (list_bound (fun j C => forall W (P : expectation W) sh N sigma dt d z0 (drawn : W -> noise) p j1 j2 weighted,
    shape_N sh = N -> (2 <= N)%nat -> sampling_step dt N d -> gaussian_complex P (shape_R sh) (2 * N - 2) (fun w => nz (drawn w)) -> p_ok p ->
    exists X, (forall o, fbm sh H sigma dt "cme" z0 (drawn o) = Ok (presented sh (X o), false)) /\ (forall o, shaped (shape_R sh) N (X o)) /\
    forall (T : W -> wtransform) (ws : W -> list warning), (forall o, wavelet_analysis (map fin (X o)) p w j1 j2 (1/2) 1 weighted = Ok (T o, ws o)) ->
    forall r, (r < shape_R sh)%nat -> (forall o, In (Z.of_nat j) (scales (wt_coefs (T o)))) -> (1 <= inner_count N L j)%nat ->
    let power o := abs_moment 2 (numbers (wt_coefs (T o)) (Z.of_nat j) r) in
    E P power = factor 1 (1/2) j ^ 2 * (sigma ^ 2 * Rpower d (2 * H)) * high_cov w (unit_fbm H) j 0 /\
    integrable P (fun o => (power o - E P power) ^ 2) /\
    E P (fun o => (power o - E P power) ^ 2) <= C * (sigma ^ 2 * Rpower d (2 * H)) ^ 2 / INR (inner_count N L j)) js).
    - intros j C C' HC Q W P sh N sigma dt d z0 drawn p j1 j2 wd EN HN Hd HG Hp. destruct (Q W P sh N sigma dt d z0 drawn p j1 j2 wd EN HN Hd HG Hp) as (X & EX & HS & F). exists X. split; [exact EX|]. split; [exact HS|].
      intros T ws HT r Hr HI HCt. destruct (F T ws HT r Hr HI HCt) as (F1 & F2 & F3). split; [exact F1|]. split; [exact F2|]. eapply Rle_trans; [exact F3|]. unfold Rdiv.
      apply Rmult_le_compat_r; [left; apply Rinv_0_lt_compat, lt_0_INR; lia|]. apply Rmult_le_compat_r; [apply pow2_ge_0|exact HC].
    - intros j Hj. apply IL in Hj. destruct (C112_fluctuation_fbm H w M j (1/2) 1 ltac:(lra) Hw HM M1 ltac:(lia) n1) as [C HC]. exists C.
      intros W P sh N sigma dt d z0 drawn p j1 j2 wd EN HN Hd HG Hp. destruct (HC W P sh N sigma dt d z0 drawn p j1 j2 wd EN HN Hd HG Hp) as (X & EX & HS & F). exists X. split; [exact EX|]. split; [exact HS|].
      intros T ws HT r Hr HI HCt. destruct (F T ws HT r Hr HI HCt) as (_ & F1 & F2 & F3). split; [exact F1|]. split; [exact F2|exact F3]. }
  destruct HB as (C & C0 & HB). set (K1 := Rsum (map (fun j => C * (2 ^ j * (INR L + 3)) / tol ^ 2) js)). set (K2 := 2 ^ (J + 1) * (INR L + 3) * 2).
  exists (Rmax K1 K2). intros W P sh N sigma dt d z0 drawn db nm fs j2 r EN HN Hd Hs HG Hr Hdb unit.
  assert (d0 := proj2 (step_ok dt N d ltac:(lia) Hd)). assert (NP : 0 < INR N) by (apply lt_0_INR; lia).
  assert (U0 : 0 < unit) by (apply Rmult_lt_0_compat; [rewrite <- Rsqr_pow2; now apply Rsqr_pos_lt|apply exp_pos]).
  destruct (le_lt_dec (2 ^ J * (2 * 3 + 2 * L + 2)) N) as [BN|BN].
  - destruct (fbm_facts P sh N H sigma dt d z0 drawn EN ltac:(lia) Hd ltac:(lra) (proj1 HG)) as (X & EX & HS & _ & _).
    assert (NE : forall o, X o <> []) by (intros o Z; destruct (HS o) as [LL _]; rewrite Z in LL; cbn in LL; lia).
    assert (TE := fun o => transform_ok (X o) N w 1 j2 (1/2) 1 false (NE o) ltac:(lia) (proj2 (HS o)) Hw n1).
    assert (C3 : forall j, (1 <= j <= J)%nat -> (3 <= inner_count N L j)%nat).
    { intros j Hj. apply (inner_count_big 3 L j L1 ltac:(lia) N). eapply Nat.le_trans; [|exact BN]. apply Nat.mul_le_mono_r. apply Nat.pow_le_mono_r; lia. }
    assert (SC : forall j, (1 <= j <= J)%nat -> forall o, In (Z.of_nat j) (scales (wt_coefs (transform_of (X o) w 1 j2 (1/2) 1 false)))).
    { intros j Hj o. apply (C99_scales (X o) N w 1 j2 (1/2) 1 false _ _ (NE o) ltac:(lia) (proj2 (HS o)) Hw n1 (TE o)). split; [lia|now apply C3]. }
    set (A j o := tol * unit <= Rabs (abs_moment 2 (numbers (wt_coefs (transform_of (X o) w 1 j2 (1/2) 1 false)) (Z.of_nat j) r) - high_cov w (unit_fbm H) j 0 * unit)).
    eapply prob_weaken; [| |apply (prob_list P A (fun j => (C * (2 ^ j * (INR L + 3)) / tol ^ 2) / INR N) js)].
    + intros o NO. destruct (Exists_dec (fun j => A j o) js) as [Q|Q]; [intros j; unfold A; apply Rle_dec|now apply Exists_exists in Q|]. exfalso. apply NO.
      assert (EV : exists V, wavelet_estimation db (map fin (X o)) fs nm j2 = Ok V) by (unfold wavelet_estimation; rewrite Hdb, (TE o); cbn [bind]; eexists; reflexivity).
      destruct EV as [V EV]. exists (X o), V. split; [apply EX|]. split; [apply HS|]. split; [exact EV|]. intros j Hj.
      destruct (value_power db nm w (X o) N (shape_R sh) fs j2 _ _ j r Hdb Hw (proj1 (HS o)) (proj2 (HS o)) Hr (TE o) ltac:(lia) (SC j Hj o)) as (V' & EV' & VV). rewrite EV in EV'. injection EV' as <-.
      eexists. split; [exact VV|]. rewrite <- power_mean_sq. left. apply Rnot_le_lt. intros Y. apply Q. apply Exists_exists. exists j. split; [now apply IL|exact Y].
    + rewrite (Rsum_map_ext _ (fun j => / INR N * (C * (2 ^ j * (INR L + 3)) / tol ^ 2))) by (intros; unfold Rdiv; ring). rewrite Rsum_map_scal. fold K1. unfold Rdiv. rewrite (Rmult_comm (Rmax _ _)).
      apply Rmult_le_compat_l; [left; now apply Rinv_0_lt_compat|apply Rmax_l].
    + intros j Hjl. apply IL in Hjl. destruct (HB j (proj2 (IL j) Hjl) W P sh N sigma dt d z0 drawn PNone 1%Z j2 false EN HN Hd HG Logic.I) as (X' & EX' & HS' & F).
      assert (XX : forall o, X' o = X o). { intros o. apply (presented_inj sh N); [apply HS'|apply HS|]. assert (Y := EX o). rewrite EX' in Y. congruence. }
      destruct (F (fun o => transform_of (X o) w 1 j2 (1/2) 1 false) (fun o => warnings_of (X o) w 1 j2 (1/2) 1 false) (fun o => eq_ind_r (fun x => wavelet_analysis (map fin x) PNone w 1 j2 (1/2) 1 false = _) (TE o) (XX o)) r Hr (SC j Hjl) ltac:(specialize (C3 j Hjl); lia)) as (F1 & F2 & F3).
      assert (FA : factor 1 (1/2) j = 1) by (unfold factor; replace (INR j * (1 / 2 - 1 / 1 + 1 / 2)) with 0 by field; now rewrite Rpower_O by lra).
      rewrite FA in F1. fold unit in F1, F3. replace (1 ^ 2 * unit * high_cov w (unit_fbm H) j 0) with (high_cov w (unit_fbm H) j 0 * unit) in F1 by ring. rewrite F1 in F2, F3. unfold A.
      assert (CH := chebyshev P (fun o => abs_moment 2 (numbers (wt_coefs (transform_of (X o) w 1 j2 (1/2) 1 false)) (Z.of_nat j) r)) (high_cov w (unit_fbm H) j 0 * unit) _ (tol * unit) ltac:(now apply Rmult_lt_0_compat) F2 F3).
      eapply prob_weaken; [|  |exact CH]; [intros o Q; exact Q|].
      assert (c0 : 0 < INR (inner_count N L j)) by (apply lt_0_INR; specialize (C3 j Hjl); lia).
      assert (RT := inner_count_rate L j N L1 ltac:(lia) ltac:(specialize (C3 j Hjl); lia)).
      replace (C * unit ^ 2 / INR (inner_count N L j) / (tol * unit) ^ 2) with (C / tol ^ 2 * / INR (inner_count N L j)) by (field; lra).
      replace (C * (2 ^ j * (INR L + 3)) / tol ^ 2 / INR N) with (C / tol ^ 2 * ((2 ^ j * (INR L + 3)) / INR N)) by (field; lra).
      apply Rmult_le_compat_l; [apply Rmult_le_pos; [exact C0|left; apply Rinv_0_lt_compat, pow_lt, Ht]|].
      apply Rmult_le_reg_r with (INR (inner_count N L j) * INR N); [now apply Rmult_lt_0_compat|].
      replace (/ INR (inner_count N L j) * (INR (inner_count N L j) * INR N)) with (INR N) by (field; lra).
      replace (2 ^ j * (INR L + 3) / INR N * (INR (inner_count N L j) * INR N)) with (2 ^ j * (INR L + 3) * INR (inner_count N L j)) by (field; lra). exact RT.
  - apply prob_one. assert (M2 := Rmax_r K1 K2). apply Rmult_le_reg_r with (INR N); [trivial|]. unfold Rdiv. rewrite Rmult_assoc, Rinv_l, Rmult_1_r, Rmult_1_l by lra. eapply Rle_trans; [|exact M2].
    apply lt_INR in BN. rewrite mult_INR, pow_INR in BN. replace (INR (2 * 3 + 2 * L + 2)) with (8 + 2 * INR L) in BN by (rewrite !plus_INR, !mult_INR; cbn [INR]; ring). change (INR 2) with 2 in BN.
    unfold K2. rewrite pow_add. change (2 ^ 1) with (2 * 1). assert (0 < 2 ^ J) by (apply pow_lt; lra). assert (0 <= INR L) by apply pos_INR. nra.
Qed.
Print Assumptions C119_fbm_wavelet.

(** white noise and an orthonormal wavelet: the wavelet spectrum is flat, at sigma^2 dt *)
Theorem C119_white_flat :
  forall w M (J : nat) tol, good_wavelet w -> vanishing_moments (dec_hi w) M -> (1 <= M)%nat -> orthonormal w -> 0 < tol ->
  exists K, forall W (P : expectation W) sh N sigma dt d z0 (drawn : W -> noise) db nm fs j2 r,
  shape_N sh = N -> (2 <= N)%nat -> sampling_step dt N d -> sigma <> 0 -> gaussian_complex P (shape_R sh) (2 * N - 2) (fun w => nz (drawn w)) -> (r < shape_R sh)%nat -> db nm = Some w ->
  prob_at_most P (fun o => ~ exists X V,
      fgn sh (1 / 2) sigma dt "cme" z0 (drawn o) = Ok (presented sh X, false) /\ shaped (shape_R sh) N X /\ wavelet_estimation db (map fin X) fs nm j2 = Ok V /\
      forall j, (1 <= j <= J)%nat -> exists v, wavelet_value V j r = Fin v /\ Rabs (v - sigma ^ 2 * d) <= tol * (sigma ^ 2 * d)) (K / INR N).
Proof.
  intros w M J tol Hw HM M1 HO Ht. destruct (C119_fgn_wavelet (1 / 2) w M J tol ltac:(lra) Hw HM M1 Ht) as [K HK]. exists K.
  intros W P sh N sigma dt d z0 drawn db nm fs j2 r EN HN Hd Hs HG Hr Hdb. assert (d0 := proj2 (step_ok dt N d ltac:(lia) Hd)).
  eapply prob_weaken; [|apply Rle_refl|apply (HK W P sh N sigma dt d z0 drawn db nm fs j2 r EN HN Hd Hs HG Hr Hdb)].
  intros o NO (X & V & E1 & E2 & E3 & E4). apply NO. exists X, V. split; [exact E1|]. split; [exact E2|]. split; [exact E3|]. intros j Hj. destruct (E4 j Hj) as (v & V1 & V2). exists v. split; [exact V1|].
  rewrite (high_cov_ext' w _ (flat 1) j 0 unit_fgn_half), high_cov_flat in V2 by exact HO. change (flat 1 0) with 1 in V2.
  replace (Rpower d (2 * (1 / 2))) with d in V2 by (replace (2 * (1 / 2)) with 1 by lra; now rewrite Rpower_1). rewrite Rmult_1_l in V2. exact V2.
Qed.
Print Assumptions C119_white_flat.

(** REFUTED: the two spectra of one recording do not agree. On simulated white noise their ratio, at every frequency but 0 and the Nyquist one and at every scale up to J, is 4 / pi as closely as wanted *)
Theorem C119_ratio_refuted :
  forall w M (J : nat) n_fft seg_size tol, good_wavelet w -> vanishing_moments (dec_hi w) M -> (1 <= M)%nat -> orthonormal w -> (1 <= asked_seg n_fft seg_size)%nat -> 0 < tol ->
  exists K, forall W (P : expectation W) sh N sigma dt d z0 (drawn : W -> noise) db nm fs j2 r,
  shape_N sh = N -> (2 <= N)%nat -> sampling_step dt N d -> sigma <> 0 -> gaussian_complex P (shape_R sh) (2 * N - 2) (fun w => nz (drawn w)) -> (r < shape_R sh)%nat -> db nm = Some w ->
  prob_at_most P (fun o => ~ exists X Q V,
      fgn sh (1 / 2) sigma dt "cme" z0 (drawn o) = Ok (presented sh X, false) /\ shaped (shape_R sh) N X /\
      welch (fin (nth r X [])) fs n_fft seg_size = Ok Q /\ wavelet_estimation db (map fin X) fs nm j2 = Ok V /\
      forall k j, (1 <= k)%nat -> (2 * k < asked_nfft n_fft seg_size)%nat -> (1 <= j <= J)%nat ->
        exists fourier wavelet, spectrum_at Q k = Fin fourier /\ wavelet_value V j r = Fin wavelet /\ 0 < wavelet /\ Rabs (fourier / wavelet - 4 / PI) <= tol) (K / INR N).
Proof.
  intros w M J n_fft seg_size tol Hw HM M1 HO S1 Ht. set (del := Rmin (1 / 2) (tol / 6)).
  assert (D0 : 0 < del) by (apply Rmin_pos; lra). assert (D1 : del <= 1 / 2) by apply Rmin_l. assert (D2 : del <= tol / 6) by apply Rmin_r.
  destruct (C119_white_flat w M J del Hw HM M1 HO D0) as [K HK]. destruct (C117_white_flat n_fft seg_size del S1 D0) as [K' HK']. cbv zeta in HK'. exists (K + K').
  intros W P sh N sigma dt d z0 drawn db nm fs j2 r EN HN Hd Hs HG Hr Hdb. assert (d0 := proj2 (step_ok dt N d ltac:(lia) Hd)). assert (NP : 0 < INR N) by (apply lt_0_INR; lia).
  assert (U0 : 0 < sigma ^ 2 * d) by (apply Rmult_lt_0_compat; [rewrite <- Rsqr_pow2; now apply Rsqr_pos_lt|exact d0]). set (u := sigma ^ 2 * d) in *.
  eapply prob_weaken; [| |apply prob_union; [apply (HK W P sh N sigma dt d z0 drawn db nm fs j2 r EN HN Hd Hs HG Hr Hdb)|apply (HK' W P sh N sigma dt d z0 drawn fs r EN HN Hd Hs HG Hr)]]; [|unfold Rdiv; rewrite Rmult_plus_distr_r; apply Rle_refl].
  intros o NO. apply NNPP. intros NE. apply NO. apply not_or_and in NE as [N1 N2]. apply NNPP in N1, N2. destruct N1 as (X & V & E1 & E2 & E3 & E4). destruct N2 as (X' & Q & E1' & E2' & E3' & E4').
  assert (X' = X) as ->. { apply (presented_inj sh N); trivial. rewrite E1 in E1'. congruence. }
  exists X, Q, V. split; [exact E1|]. split; [exact E2|]. split; [exact E3'|]. split; [exact E3|]. intros k j Hk1 Hk2 Hj.
  destruct (E4 j Hj) as (v & V1 & V2). destruct (E4' k) as (f & F1 & F2); [apply Nat.div_le_lower_bound; lia|].
  destruct (Nat.eqb_spec k 0) as [|_]; [lia|]. destruct (Nat.eqb_spec (2 * k) (asked_nfft n_fft seg_size)) as [|_]; [lia|]. cbn [orb] in F2. fold u in V2, F2.
  exists f, v. split; [exact F1|]. split; [exact V1|].
  assert (PP : 8 / 3 <= PI) by (destruct (PI_ineq 0) as [X0 _]; unfold tg_alt, PI_tg in X0; cbn in X0; lra).
  assert (Q4 : 0 < 4 / PI <= 3 / 2). { split; [apply Rdiv_lt_0_compat; lra|]. apply Rmult_le_reg_r with PI; [lra|]. unfold Rdiv at 1. rewrite Rmult_assoc, Rinv_l by lra. lra. }
  set (c := 4 / PI) in *. clearbody c. assert (VL := Rle_abs (- (v - u))). rewrite Rabs_Ropp in VL. assert (V0 : u / 2 <= v) by nra. split; [lra|].
  replace (f / v - c) with ((f - c * u - c * (v - u)) / v) by (field; lra). unfold Rdiv. rewrite Rabs_mult, (Rabs_pos_eq (/ v)) by (left; apply Rinv_0_lt_compat; lra).
  apply Rmult_le_reg_r with v; [lra|]. rewrite Rmult_assoc, Rinv_l, Rmult_1_r by lra.
  assert (T := Rabs_triang (f - c * u) (- (c * (v - u)))). rewrite Rabs_Ropp, Rabs_mult, (Rabs_pos_eq c) in T by lra. replace (f - c * u + - (c * (v - u))) with (f - c * u - c * (v - u)) in T by ring.
  assert (A := Rabs_pos (v - u)). eapply Rle_trans; [exact T|]. assert (del * u <= tol / 6 * u) by (apply Rmult_le_compat_r; lra). nra.
Qed.
Print Assumptions C119_ratio_refuted.

(** Non-vacuity: all long enough simulations of white noise have draws for which the ratio of the two spectra is 4 / pi as closely as wanted (Haar wavelet, segments of 8 samples) *)
Theorem C119_case tol (J : nat) : 0 < tol -> exists N0, forall N, (N0 <= N)%nat -> exists (drawn : noise) X Q V,
  fgn (SInt N) (1 / 2) 3 None "cme" None drawn = Ok (presented (SInt N) X, false) /\ shaped 1 N X /\ welch (fin (nth 0 X [])) 64 8 (Some 8%Z) = Ok Q /\
  wavelet_estimation (fun n => if Nat.eqb n 1 then Some haar1 else None) (map fin X) 64 1 None = Ok V /\
  forall k j, (1 <= k <= 3)%nat -> (1 <= j <= J)%nat -> exists fourier wavelet, spectrum_at Q k = Fin fourier /\ wavelet_value V j 0 = Fin wavelet /\ 0 < wavelet /\ Rabs (fourier / wavelet - 4 / PI) <= tol.
Proof.
  intros Ht. destruct (C119_ratio_refuted haar1 1 J 8 (Some 8%Z) tol good_haar1 vanish_haar1 (le_n 1) haar1_orthonormal ltac:(vm_compute; lia) Ht) as [K HK].
  assert (AR : exists N0, Rmax 2 K < INR N0). { destruct (archimed (Rmax 2 K)) as [A _]. assert (M := Rmax_l 2 K). exists (Z.to_nat (up (Rmax 2 K))). rewrite INR_IZR_INZ, Z2Nat.id; [lra|]. apply le_IZR. lra. }
  destruct AR as [N0 HN0]. exists N0. intros N HN. apply NNPP. intros HA. apply le_INR in HN. assert (M1 := Rmax_l 2 K). assert (M2 := Rmax_r 2 K).
  assert (N2 : (2 <= N)%nat) by (apply INR_le; cbn [INR]; lra).
  destruct (C112_noise_exists 1 (2 * N - 2)) as (W & P & drawn & HP & HG).
  assert (Q := HK W P (SInt N) N 3 None (/ INR N) None drawn (fun n => if Nat.eqb n 1 then Some haar1 else None) 1%nat 64 None 0%nat eq_refl N2 (or_intror (conj (or_introl eq_refl) eq_refl)) ltac:(lra) HG (le_n 1) eq_refl).
  apply (not_everywhere P _ _ HP Q).
  - apply Rmult_lt_reg_r with (INR N); [lra|]. unfold Rdiv. rewrite Rmult_assoc, Rinv_l by lra. lra.
  - intros o (X & QQ & V & E1 & E2 & E3 & E4 & E5). apply HA. exists (drawn o), X, QQ, V. split; [exact E1|]. split; [exact E2|]. split; [exact E3|]. split; [exact E4|].
    intros k j Hk Hj. apply E5; [lia| |exact Hj]. change (asked_nfft 8 (Some 8%Z)) with 8%nat. lia.
Qed.
Print Assumptions C119_case.
