(** * C111: fractional Gaussian noise analysed with the Haar wavelet: exact power laws *)
From Coq Require Import Reals List ZArith Bool Lra Lia String.
From Verif Require Import XReal PyBase ModelUtils ModelMRQ ModelStructure ModelWavelet ModelSimul ModelPSD Spec SpecMRQ SpecSimul LXReal LUtils LBase LFilter LTransform LPattern LWave LPoly LCone LWaveEst LDft LSimul LEst LReg
  PropsRegression PropsWavelet PropsMissing PropsSlope PropsWhite PropsWhitePower PropsWhiteCase PropsSimul PropsWhiteFbm PropsRounded LTaps PropsDecorr.
Import ListNotations.
Open Scope R_scope.
Local Notation length := List.length.
Local Notation entry := SpecMRQ.entry.

(** ** Specification *)
(** variance of the coefficients of scale j before the rescaling of the scales: sigma^2 d^(2H) (4 - 4^H) / 2 at the finest scale, multiplied by 2^(2H - 1) from one scale to the next *)
Definition haar_variance (H sigma d : R) (j : nat) : R := sigma ^ 2 / 2 * Rpower d (2 * H) * (4 - Rpower 4 H) * Rpower 2 ((INR j - 1) * (2 * H - 1)).

(** ** Differences of a function through the Haar filters *)
Definition dd (phi : R -> R) (h x : R) : R := phi (x + h) - 2 * phi x + phi (x - h).
Lemma haar_lo_filtered r d : filtered (dec_lo haar1) (dec_lo haar1) r d = / 2 * (2 * r (2 * d)%Z + r (2 * d - 1)%Z + r (2 * d + 1)%Z).
Proof.
  unfold filtered. cbn [haar1 dec_lo length]. rewrite !sumn_S, !sumn_0. cbn [nth]. rewrite half.
  replace (2 * d - Z.of_nat 0 + Z.of_nat 0)%Z with (2 * d)%Z by lia. replace (2 * d - Z.of_nat 1 + Z.of_nat 1)%Z with (2 * d)%Z by lia.
  replace (2 * d - Z.of_nat 0 + Z.of_nat 1)%Z with (2 * d + 1)%Z by lia. replace (2 * d - Z.of_nat 1 + Z.of_nat 0)%Z with (2 * d - 1)%Z by lia. ring.
Qed.
Lemma haar_hi_filtered r d : filtered (dec_hi haar1) (dec_hi haar1) r d = / 2 * (2 * r (2 * d)%Z - r (2 * d - 1)%Z - r (2 * d + 1)%Z).
Proof.
  unfold filtered. cbn [haar1 dec_hi length]. rewrite !sumn_S, !sumn_0. cbn [nth].
  replace (- / sqrt 2 * - / sqrt 2) with (/ 2) by (rewrite <- half; ring). replace (- / sqrt 2 * / sqrt 2) with (- / 2) by (rewrite <- half; ring).
  replace (/ sqrt 2 * - / sqrt 2) with (- / 2) by (rewrite <- half; ring). rewrite half.
  replace (2 * d - Z.of_nat 0 + Z.of_nat 0)%Z with (2 * d)%Z by lia. replace (2 * d - Z.of_nat 1 + Z.of_nat 1)%Z with (2 * d)%Z by lia.
  replace (2 * d - Z.of_nat 0 + Z.of_nat 1)%Z with (2 * d + 1)%Z by lia. replace (2 * d - Z.of_nat 1 + Z.of_nat 0)%Z with (2 * d - 1)%Z by lia. ring.
Qed.
Lemma haar_low phi j : forall z, low_cov haar1 (fun z => dd phi 1 (IZR z)) j z = / 2 ^ j * dd phi (2 ^ j) (2 ^ j * IZR z).
Proof.
  induction j as [|j IH]; intros z; [cbn [low_cov pow]; rewrite Rinv_1, !Rmult_1_l; reflexivity|].
  cbn [low_cov]. rewrite haar_lo_filtered, !IH. assert (P : 2 ^ j <> 0) by (apply pow_nonzero; lra). cbn [pow]. unfold dd. rewrite !minus_IZR, !plus_IZR, !mult_IZR. set (h := 2 ^ j) in *.
  replace (h * (2 * IZR z) + h) with (2 * h * IZR z + h) by ring. replace (h * (2 * IZR z)) with (2 * h * IZR z) by ring.
  replace (h * (2 * IZR z - 1) + h) with (2 * h * IZR z) by ring. replace (h * (2 * IZR z - 1)) with (2 * h * IZR z - h) by ring. replace (2 * h * IZR z - h - h) with (2 * h * IZR z - 2 * h) by ring.
  replace (h * (2 * IZR z + 1) + h) with (2 * h * IZR z + 2 * h) by ring. replace (h * (2 * IZR z + 1)) with (2 * h * IZR z + h) by ring. replace (2 * h * IZR z + h - h) with (2 * h * IZR z) by ring.
  rewrite Rinv_mult. ring.
Qed.
(** fourth difference of step h *)
Definition d4 (phi : R -> R) (h x : R) : R := phi (x + 2 * h) - 4 * phi (x + h) + 6 * phi x - 4 * phi (x - h) + phi (x - 2 * h).
Lemma haar_high phi j z : (1 <= j)%nat -> high_cov haar1 (fun z => dd phi 1 (IZR z)) j z = - (/ 2 ^ j * d4 phi (2 ^ (j - 1)) (2 ^ j * IZR z)).
Proof.
  intros Hj. unfold high_cov. rewrite haar_hi_filtered, !haar_low. replace (2 ^ j) with (2 * 2 ^ (j - 1)) by (change (2 * 2 ^ (j - 1)) with (2 ^ S (j - 1)); f_equal; lia).
  assert (P : 2 ^ (j - 1) <> 0) by (apply pow_nonzero; lra). unfold dd, d4. rewrite !minus_IZR, !plus_IZR, !mult_IZR. set (h := 2 ^ (j - 1)) in *.
  replace (h * (2 * IZR z) + h) with (2 * h * IZR z + h) by ring. replace (h * (2 * IZR z)) with (2 * h * IZR z) by ring.
  replace (h * (2 * IZR z - 1) + h) with (2 * h * IZR z) by ring. replace (h * (2 * IZR z - 1)) with (2 * h * IZR z - h) by ring. replace (2 * h * IZR z - h - h) with (2 * h * IZR z - 2 * h) by ring.
  replace (h * (2 * IZR z + 1) + h) with (2 * h * IZR z + 2 * h) by ring. replace (h * (2 * IZR z + 1)) with (2 * h * IZR z + h) by ring. replace (2 * h * IZR z + h - h) with (2 * h * IZR z) by ring.
  rewrite Rinv_mult. ring.
Qed.
Lemma ev_dd phi x : ev [(1, 1); (-2, 0); (1, -1)] phi x = dd phi 1 x.
Proof. unfold ev, dd, Rsum. cbn [map fold_right fst snd]. rewrite Rplus_0_r. replace (x + -1) with (x - 1) by ring. ring. Qed.
Lemma high_cov_ext w v v' j z : (forall z, v z = v' z) -> high_cov w v j z = high_cov w v' j z.
Proof. intros H. unfold high_cov. apply filtered_ext. generalize (j - 1)%nat. intros i. induction i as [|i IH]; intros y; cbn [low_cov]; [apply H|]. now apply filtered_ext. Qed.
Lemma haar_var H sigma d j : 0 < d -> (1 <= j)%nat ->
  high_cov haar1 (fun z => ev [(1, 1); (-2, 0); (1, -1)] (fun t => sigma ^ 2 / 2 * rpow (Rabs (d * t)) (2 * H)) (IZR z)) j 0 = haar_variance H sigma d j.
Proof.
  intros Hd Hj. rewrite (high_cov_ext _ _ (fun z => dd (fun t => sigma ^ 2 / 2 * rpow (Rabs (d * t)) (2 * H)) 1 (IZR z))) by (intros; apply ev_dd).
  rewrite haar_high by trivial. unfold d4. replace (2 ^ j * 0) with 0 by ring. rewrite !Rplus_0_l, !Rminus_0_l, Rmult_0_r, Rabs_R0.
  assert (P : 0 < 2 ^ (j - 1)) by (apply pow_lt; lra). set (h := 2 ^ (j - 1)) in *.
  replace (d * - (2 * h)) with (- (d * (2 * h))) by ring. replace (d * - h) with (- (d * h)) by ring. rewrite !Rabs_Ropp.
  rewrite !rpow_dt by (trivial; lra). unfold rpow. destruct (Rlt_dec 0 0); [lra|].
  assert (E2 : Rpower (2 * h) (2 * H) = Rpower 4 H * Rpower h (2 * H)).
  { rewrite <- Rpower_mult_distr by lra. f_equal. replace 4 with (Rpower 2 2) by (replace (Rpower 2 2) with (Rpower 2 (INR 2)) by reflexivity; rewrite Rpower_pow by lra; ring). now rewrite Rpower_mult. }
  rewrite E2. unfold haar_variance.
  assert (EH : Rpower 2 ((INR j - 1) * (2 * H - 1)) = Rpower h (2 * H) * (2 / 2 ^ j)).
  { unfold h. rewrite <- (Rpower_pow (j - 1)), Rpower_mult, minus_INR by (lra || lia). change (INR 1) with 1.
    replace ((INR j - 1) * (2 * H - 1)) with ((INR j - 1) * (2 * H) + 1 + - INR j) by ring. rewrite !Rpower_plus, Rpower_Ropp, Rpower_1, Rpower_pow by lra. field. apply pow_nonzero. lra. }
  rewrite EH. field. apply pow_nonzero. lra.
Qed.
Lemma haar_variance_pos H sigma d j : 0 < H < 1 -> sigma <> 0 -> 0 < haar_variance H sigma d j.
Proof.
  intros HH Hs. unfold haar_variance. assert (0 < sigma ^ 2) by (rewrite <- Rsqr_pow2; now apply Rsqr_pos_lt).
  assert (Rpower 4 H < 4). { rewrite <- (Rpower_1 4) at 2 by lra. apply Rpower_lt; lra. }
  apply Rmult_lt_0_compat; [|apply exp_pos]. apply Rmult_lt_0_compat; [|lra]. apply Rmult_lt_0_compat; [lra|apply exp_pos].
Qed.

Lemma wp_positive (n x y : list R) : length x = length n -> length y = length n -> Forall (fun a => 0 < a) n -> (exists a b, In a x /\ In b x /\ a <> b) -> well_posed (points n x y).
Proof.
  intros Lx Ly Pn (a & b & Ha & Hb & ne).
  assert (G : forall n x y : list R, length x = length n -> length y = length n -> Forall (fun a => 0 < a) n ->
     Forall (fun p => 0 < pw p) (points n x y) /\ forall a, In a x -> exists p, In p (points n x y) /\ px p = a).
  { clear. induction n as [|w n IH]; intros [|s x] [|t y] Lx Ly Pn; cbn [length] in *; try lia; [split; [constructor|intros a []]|].
    inversion Pn; subst. destruct (IH x y ltac:(lia) ltac:(lia) H2) as [A B]. cbn [points]. split; [now constructor|].
    intros a [<-|Ha]; [exists (w, s, t); split; [now left|reflexivity]|]. destruct (B a Ha) as (p & Hp & E). exists p. split; [now right|trivial]. }
  destruct (G n x y Lx Ly Pn) as [A B]. split; [eapply Forall_impl; [|exact A]; intros; cbn beta in *; lra|].
  destruct (B a Ha) as (p & Hp & Ep). destruct (B b Hb) as (q & Hq & Eq). rewrite Forall_forall in A. exists p, q. repeat split; auto. congruence.
Qed.
Section Fgn.
Context {W : Type} (P : expectation W).
Variables (sh : shape_arg) (N : nat) (H sigma : R) (dt : option R) (d : R) (z0 : option noise) (drawn : W -> noise).
Hypothesis EN : shape_N sh = N.
Hypothesis HN : (2 <= N)%nat.
Hypothesis Hd : sampling_step dt N d.
Hypothesis HH : 0 < H <= 1.
Hypothesis HZ : white_complex P (shape_R sh) (2 * N - 2) (fun w => nz (drawn w)).

(** the mean square coefficient is an exact power law of the scale, at all scales *)
Theorem C111_power p j1 j2 gam norm weighted : norm <> 0 -> p_ok p ->
  exists X, (forall o, fgn sh H sigma dt "cme" z0 (drawn o) = Ok (presented sh (X o), false)) /\
  forall (T : W -> wtransform) (ws : W -> list warning), (forall o, wavelet_analysis (map fin (X o)) p haar1 j1 j2 gam norm weighted = Ok (T o, ws o)) ->
  forall r j, (r < shape_R sh)%nat -> (1 <= j)%nat -> (forall o, In (Z.of_nat j) (scales (wt_coefs (T o)))) ->
  (forall k k', inner N 2 j k -> inner N 2 j k' ->
   let c k o := number (entry (wt_coefs (T o)) (Z.of_nat j) r k) in
   let phi t := sigma ^ 2 / 2 * rpow (Rabs (d * t)) (2 * H) in
   E P (c k) = 0 /\
   Cov P (c k) (c k') = - (factor norm gam j ^ 2 * (/ 2 ^ j * d4 phi (2 ^ (j - 1)) (2 ^ j * (INR k - INR k')))) /\
   Cov P (c k) (c k) = factor norm gam j ^ 2 * haar_variance H sigma d j) /\
  ((1 <= inner_count N 2 j)%nat ->
   E P (fun o => abs_moment 2 (numbers (wt_coefs (T o)) (Z.of_nat j) r)) = factor norm gam j ^ 2 * haar_variance H sigma d j).
Proof using EN HN Hd HH HZ.
  intros Hn Hp. assert (d0 := proj2 (step_ok dt N d ltac:(lia) Hd)).
  destruct (fgn_stationary P sh N H sigma dt d z0 drawn EN HN Hd HH HZ) as (X & EX & HS & HX). exists X. split; [exact EX|].
  intros T ws HT r j Hr Hj HI. split.
  - intros k k' IN IN' c phi.
    destruct (C108_stationary P X N (shape_R sh) haar1 p j1 j2 gam norm weighted T ws r _ HS good_haar1 Hn Hp HT Hr (HX r Hr) j k k' Hj HI IN IN') as (_ & _ & E0 & _ & E1).
    destruct (C108_stationary P X N (shape_R sh) haar1 p j1 j2 gam norm weighted T ws r _ HS good_haar1 Hn Hp HT Hr (HX r Hr) j k k Hj HI IN IN) as (_ & _ & _ & _ & E2).
    split; [exact E0|]. split.
    + unfold c. rewrite E1. rewrite (high_cov_ext _ _ (fun z => dd phi 1 (IZR z))) by (intros; apply ev_dd). rewrite haar_high by trivial. rewrite minus_IZR, <- !INR_IZR_INZ. ring.
    + unfold c. rewrite E2, Z.sub_diag, haar_var by trivial. reflexivity.
  - intros IC. destruct (C108_power P X N (shape_R sh) haar1 p j1 j2 gam norm weighted T ws r _ HS good_haar1 Hn Hp HT Hr (HX r Hr) j Hj HI IC) as [_ ->]. now rewrite haar_var.
Qed.

(** so a weighted least-squares fit of the log2 of these expectations over any scales has slope 2H - 2/norm + 2 gamint exactly *)
Theorem C111_exponent p j1 j2 gam norm weighted : norm <> 0 -> p_ok p -> H < 1 -> sigma <> 0 ->
  exists X, (forall o, fgn sh H sigma dt "cme" z0 (drawn o) = Ok (presented sh (X o), false)) /\
  forall (T : W -> wtransform) (ws : W -> list warning), (forall o, wavelet_analysis (map fin (X o)) p haar1 j1 j2 gam norm weighted = Ok (T o, ws o)) ->
  forall r (js : list nat) (n : list R), (r < shape_R sh)%nat ->
  (forall j, In j js -> (1 <= j)%nat /\ (1 <= inner_count N 2 j)%nat /\ forall o, In (Z.of_nat j) (scales (wt_coefs (T o)))) ->
  length n = length js -> Forall (fun a => 0 < a) n -> (exists a b, In a js /\ In b js /\ a <> b) ->
  exists b var, linear_regression (fin (map INR js)) (fin (map (fun j => log2R (E P (fun o => abs_moment 2 (numbers (wt_coefs (T o)) (Z.of_nat j) r)))) js)) (fin n)
    = Ok (Fin (2 * H - 2 / norm + 2 * gam), Fin b, var).
Proof using EN HN Hd HH HZ.
  intros Hn Hp H1 Hs. destruct (C111_power p j1 j2 gam norm weighted Hn Hp) as (X & EX & HX). exists X. split; [exact EX|].
  intros T ws HT r js n Hr Hjs Ln Pn ND.
  set (b := log2R (sigma ^ 2 / 2 * Rpower d (2 * H) * (4 - Rpower 4 H)) - (2 * H - 1)).
  assert (EQ : map (fun j => log2R (E P (fun o => abs_moment 2 (numbers (wt_coefs (T o)) (Z.of_nat j) r)))) js = map (fun s => (2 * H - 2 / norm + 2 * gam) * s + b) (map INR js)).
  { rewrite map_map. apply map_ext_in. intros j Hj. destruct (Hjs j Hj) as (J1 & IC & HI). destruct (HX T ws HT r j Hr J1 HI) as [_ Q]. rewrite (Q IC). clear Q.
    assert (A0 : 0 < sigma ^ 2 / 2 * Rpower d (2 * H) * (4 - Rpower 4 H)).
    { assert (0 < sigma ^ 2) by (rewrite <- Rsqr_pow2; now apply Rsqr_pos_lt). assert (Rpower 4 H < 4) by (rewrite <- (Rpower_1 4) at 2 by lra; apply Rpower_lt; lra).
      apply Rmult_lt_0_compat; [|lra]. apply Rmult_lt_0_compat; [lra|apply exp_pos]. }
    unfold haar_variance, factor, b. set (A := sigma ^ 2 / 2 * Rpower d (2 * H) * (4 - Rpower 4 H)) in *.
    assert (L2 : ln 2 <> 0) by (assert (K := ln_lt_2); lra). unfold log2R.
    rewrite <- Rpower_pow by apply exp_pos. rewrite Rpower_mult. rewrite !ln_mult; try apply exp_pos; trivial; [|apply Rmult_lt_0_compat; [trivial|apply exp_pos]].
    unfold Rpower. rewrite !ln_exp. change (INR 2) with 2. field. split; [trivial|]. exact Hn. }
  rewrite EQ. exists b. apply PropsRegression.C02_exact_on_lines; [now rewrite map_length|].
  apply wp_positive; [now rewrite map_length|now rewrite !map_length|trivial|].
  destruct ND as (u & v & Hu & Hv & ne). exists (INR u), (INR v). split; [now apply in_map|]. split; [now apply in_map|]. intros C. apply ne. now apply INR_eq.
Qed.

(** the wavelet spectrum with n_moments = 1: its expectation is an exact power law f^(1 - 2H) of the frequencies it is reported at *)
Theorem C111_psd db fs j2 : db 1%nat = Some haar1 -> 0 < fs ->
  exists X, (forall o, fgn sh H sigma dt "cme" z0 (drawn o) = Ok (presented sh (X o), false)) /\
  forall Q : W -> psd, (forall o, wavelet_estimation db (map fin (X o)) fs 1 j2 = Ok (Q o)) ->
  forall r i, (r < shape_R sh)%nat -> (forall o, (i < length (psd_freq (Q o)))%nat) -> (1 <= inner_count N 2 (i + 1))%nat ->
  let value o := match psd_psd (Q o) with PSD1 v => NaN | PSD2 _ rows => nth r (nth i rows []) NaN end in
  (forall o, value o = Fin (number (value o))) /\
  forall o, E P (fun o => number (value o)) = sigma ^ 2 / 2 * Rpower d (2 * H) * (4 - Rpower 4 H) * Rpower (3 / 8 * fs) (2 * H - 1) * Rpower (nth i (psd_freq (Q o)) 0) (1 - 2 * H).
Proof using EN HN Hd HH HZ.
  intros Hdb Hfs. assert (d0 := proj2 (step_ok dt N d ltac:(lia) Hd)).
  destruct (fgn_stationary P sh N H sigma dt d z0 drawn EN HN Hd HH HZ) as (X & EX & HS & HX). exists X. split; [exact EX|].
  intros Q HQ r i Hr Hi IC value.
  destruct (C108_psd P X N (shape_R sh) db 1 haar1 fs j2 Q r _ HS Hdb good_haar1 HQ Hr (HX r Hr) i Hi IC) as (V & EV & _).
  split; [exact V|]. intros o. unfold value. etransitivity; [exact EV|]. rewrite haar_var by (trivial; lia). unfold haar_variance.
  destruct (we_inv db (map fin (X o)) fs 1 j2 haar1 (Q o) Hdb good_haar1 (HQ o)) as (ws & _ & EQ).
  assert (LQ := Hi o). rewrite EQ in LQ |- *. cbn [psd_freq] in *. rewrite map_length in LQ. rewrite (nth_map_lt _ _ _ 0%Z) by trivial.
  unfold one_to in LQ |- *. rewrite map_length, seq_length in LQ. rewrite (nth_map_lt _ _ _ 0%nat) by (now rewrite seq_length). rewrite seq_nth by trivial.
  assert (PI1 : 0 < 2 ^ i) by (apply pow_lt; lra).
  assert (EF : scale2freq (IZR (Z.of_nat (1 + i))) fs = 3 / 8 * fs * / 2 ^ i).
  { unfold scale2freq. rewrite <- INR_IZR_INZ, Rpower_Ropp, Rpower_pow by lra. cbn [Nat.add pow]. field. lra. }
  rewrite EF. rewrite <- (Rpower_mult_distr (3 / 8 * fs)) by (try apply Rinv_0_lt_compat; lra).
  assert (E1 : Rpower (3 / 8 * fs) (2 * H - 1) * Rpower (3 / 8 * fs) (1 - 2 * H) = 1) by (rewrite <- Rpower_plus; replace (2 * H - 1 + (1 - 2 * H)) with 0 by ring; apply Rpower_O; lra).
  replace (Rpower 2 ((INR (i + 1) - 1) * (2 * H - 1))) with (Rpower (/ 2 ^ i) (1 - 2 * H)).
  - set (u := Rpower (3 / 8 * fs) (2 * H - 1)) in *. set (v := Rpower (3 / 8 * fs) (1 - 2 * H)) in *. set (t := Rpower (/ 2 ^ i) (1 - 2 * H)).
    set (K := sigma ^ 2 / 2 * Rpower d (2 * H) * (4 - Rpower 4 H)). replace (K * u * (v * t)) with (K * (u * v) * t) by ring. rewrite E1. ring.
  - rewrite plus_INR. change (INR 1) with 1. unfold Rpower. rewrite ln_Rinv by trivial. rewrite ln_pow by lra. f_equal. ring.
Qed.
End Fgn.
Print Assumptions C111_power.
Print Assumptions C111_exponent.
Print Assumptions C111_psd.
