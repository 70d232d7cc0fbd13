(** * C110: wavelet coefficients of fractional Brownian motion and noise are almost uncorrelated: their covariance decays with the lag, the faster the more vanishing moments *)
From Coq Require Import Reals List ZArith Bool Lra Lia String.
From Verif Require Import XReal PyBase ModelUtils ModelMRQ ModelStructure ModelWavelet ModelSimul Spec SpecMRQ SpecSimul LXReal LUtils LBase LFilter LTransform LPattern LWave LPoly LCone LWaveEst LDft LSimul LEst
  PropsWavelet PropsMissing PropsSlope PropsWhite PropsWhitePower PropsSimul PropsWhiteFbm PropsRounded LTaps.
Import ListNotations.
Open Scope R_scope.
Local Notation length := List.length.
Local Notation entry := SpecMRQ.entry.

(** ** Specification *)
(** width, in samples, of what a coefficient of scale j sees beyond 2^j: two coefficients whose positions differ by more than this in samples see disjoint parts of the signal *)
Definition spread (w : wavelet) (j : nat) : R := (2 ^ j - 1) * (INR (length (dec_hi w)) - 1).
(** distance in samples between the coefficients k and k' of scale j *)
Definition lag (j k k' : nat) : R := 2 ^ j * Rabs (INR k - INR k').
(** amplification by the filters up to scale j *)
Definition gain (w : wavelet) (j : nat) : R := norm1 (dec_hi w) ^ 2 * norm1 (dec_lo w) ^ (2 * (j - 1)).

(** ** The filters as combinations of translates *)
Lemma filtered_taps f g b phi c d : filtered f g (fun z => ev b phi (c * IZR z)) d = ev (conv g c (conv f (- c) b)) phi (2 * c * IZR d).
Proof.
  rewrite ev_conv. unfold filtered. rewrite sumn_swap. apply sumn_ext. intros m' _. rewrite ev_conv, <- sumn_scal. apply sumn_ext. intros m _.
  rewrite plus_IZR, minus_IZR, mult_IZR, <- !INR_IZR_INZ. replace (2 * c * IZR d + c * INR m' + - c * INR m) with (c * (2 * IZR d - INR m + INR m')) by ring. ring.
Qed.
Fixpoint ltaps (lo : list R) (b : taps) (j : nat) : taps :=
  match j with O => b | S j' => conv lo (2 ^ j') (conv lo (- 2 ^ j') (ltaps lo b j')) end.
Lemma low_cov_taps w b phi j : forall z, low_cov w (fun z => ev b phi (IZR z)) j z = ev (ltaps (dec_lo w) b j) phi (2 ^ j * IZR z).
Proof.
  induction j as [|j IH]; intros z; [cbn [low_cov ltaps pow]; now rewrite Rmult_1_l|]. cbn [low_cov ltaps].
  rewrite (filtered_ext _ _ _ (fun z => ev (ltaps (dec_lo w) b j) phi (2 ^ j * IZR z))) by exact IH. rewrite filtered_taps. f_equal.
Qed.
Definition htaps (w : wavelet) (b : taps) (j : nat) : taps := conv (dec_hi w) (2 ^ (j - 1)) (conv (dec_hi w) (- 2 ^ (j - 1)) (ltaps (dec_lo w) b (j - 1))).
Lemma high_cov_taps w b phi j z : (1 <= j)%nat -> high_cov w (fun z => ev b phi (IZR z)) j z = ev (htaps w b j) phi (2 ^ j * IZR z).
Proof.
  intros Hj. unfold high_cov. rewrite (filtered_ext _ _ _ (fun z => ev (ltaps (dec_lo w) b (j - 1)) phi (2 ^ (j - 1) * IZR z))) by (intros; apply low_cov_taps).
  rewrite filtered_taps. unfold htaps. f_equal. replace (2 ^ j) with (2 ^ S (j - 1)) by (f_equal; lia). cbn [pow]. ring.
Qed.
Lemma ltaps_norm lo b j : tnorm (ltaps lo b j) = norm1 lo ^ (2 * j) * tnorm b.
Proof.
  induction j as [|j IH]; [cbn [ltaps]; change (2 * 0)%nat with 0%nat; cbn [pow]; ring|]. cbn [ltaps]. rewrite !tnorm_conv, IH.
  replace (2 * S j)%nat with (S (S (2 * j))) by lia. cbn [pow]. ring.
Qed.
Lemma htaps_norm w b j : tnorm (htaps w b j) = gain w j * tnorm b.
Proof. unfold htaps, gain. rewrite !tnorm_conv, ltaps_norm. ring. Qed.
Lemma between_sym rho f g c b : 0 <= c -> length f = length g -> between (- rho) rho b ->
  between (- (rho + c * (INR (length f) - 1))) (rho + c * (INR (length f) - 1)) (conv g c (conv f (- c) b)).
Proof.
  intros Hc E B. assert (K := between_conv_neg f c b _ _ Hc B). assert (K2 := between_conv_pos g c _ _ _ Hc K). rewrite <- E in K2.
  intros p Hp. specialize (K2 p Hp). lra.
Qed.
Lemma ltaps_between lo b rho j : between (- rho) rho b -> let r := rho + (2 ^ j - 1) * (INR (length lo) - 1) in between (- r) r (ltaps lo b j).
Proof.
  intros B. induction j as [|j IH]; cbn zeta in *; [cbn [pow ltaps]; intros p Hp; specialize (B p Hp); lra|]. cbn [ltaps].
  assert (K := between_sym _ lo lo (2 ^ j) _ ltac:(apply pow_le; lra) eq_refl IH). intros p Hp. specialize (K p Hp). cbn [pow]. lra.
Qed.
Lemma htaps_between w b rho j : (1 <= j)%nat -> length (dec_lo w) = length (dec_hi w) -> between (- rho) rho b -> between (- (rho + spread w j)) (rho + spread w j) (htaps w b j).
Proof.
  intros Hj E B. assert (K := between_sym _ (dec_hi w) (dec_hi w) (2 ^ (j - 1)) _ ltac:(apply pow_le; lra) eq_refl (ltaps_between (dec_lo w) b rho (j - 1) B)).
  intros p Hp. specialize (K p Hp). unfold spread. replace (2 ^ j) with (2 ^ S (j - 1)) by (f_equal; lia). cbn [pow]. rewrite E in K. lra.
Qed.
Lemma htaps_ann w b M n j : vanishing_moments (dec_hi w) M -> ann b n -> ann (htaps w b j) (2 * M + n).
Proof.
  intros V A. unfold htaps. replace (2 * M + n)%nat with (M + (M + n))%nat by lia. apply ann_conv; [exact V|]. apply ann_conv; [exact V|].
  clear V. revert A. generalize (j - 1)%nat. intros i A. induction i as [|i IH]; [exact A|]. cbn [ltaps].
  assert (V0 : vanishing_moments (dec_lo w) 0) by (intros a Ha; lia). apply (ann_conv _ _ _ 0 n V0). now apply (ann_conv _ _ _ 0 n V0).
Qed.
Lemma high_power w b n0 M rho K al phi v j z : (1 <= j)%nat -> good_wavelet w -> vanishing_moments (dec_hi w) M -> ann b n0 -> between (- rho) rho b -> 0 <= rho ->
  0 <= al <= 2 -> (2 <= 2 * M + n0)%nat -> (forall t, 0 < t -> phi t = K * Rpower t al) -> (forall z, v z = ev b phi (IZR z)) ->
  rho + spread w j < 2 ^ j * IZR z ->
  Rabs (high_cov w v j z) <= Rabs K * (2 / INR (2 * M + n0) * (gain w j * tnorm b) * (rho + spread w j) ^ (2 * M + n0) * Rpower (2 ^ j * IZR z - (rho + spread w j)) (al - INR (2 * M + n0))).
Proof.
  intros Hj Hw V A B R0 Hal Hn HP HV HL. assert (E : length (dec_lo w) = length (dec_hi w)) by apply Hw.
  assert (SP : 0 <= spread w j).
  { unfold spread. apply Rmult_le_pos; [assert (1 <= 2 ^ j) by (apply pow_R1_Rle; lra); lra|]. assert (1 <= INR (length (dec_hi w))); [|lra]. apply (le_INR 1). destruct Hw. lia. }
  assert (HB := htaps_between w b rho j Hj E B). assert (HA := htaps_ann w b M n0 j V A).
  replace (high_cov w v j z) with (high_cov w (fun z => ev b phi (IZR z)) j z).
  - rewrite high_cov_taps by trivial. rewrite (ev_ext _ _ (fun t => K * Rpower t al)), ev_scal, Rabs_mult.
    + apply Rmult_le_compat_l; [apply Rabs_pos|]. rewrite <- htaps_norm. apply power_bound; trivial. lra.
    + intros p Hp. apply HP. specialize (HB p Hp). lra.
  - unfold high_cov. apply filtered_ext. generalize (j - 1)%nat. intros i. induction i as [|i IH]; intros y; cbn [low_cov]; [now rewrite HV|]. now apply filtered_ext.
Qed.
Lemma Cov_sym {W} (P : expectation W) f g : Cov P f g = Cov P g f.
Proof. unfold Cov. rewrite (E_ext W P _ (fun w => g w * f w)) by (intros; ring). ring. Qed.
Lemma lag_Z j k k' : (k' <= k)%nat -> 2 ^ j * IZR (Z.of_nat k - Z.of_nat k') = lag j k k'.
Proof. intros H. unfold lag. rewrite minus_IZR, <- !INR_IZR_INZ. apply le_INR in H. rewrite Rabs_pos_eq by lra. reflexivity. Qed.
Lemma lag_sym j k k' : lag j k k' = lag j k' k.
Proof. unfold lag. now rewrite Rabs_minus_sym. Qed.
Lemma vanish_ignores w M : (1 <= M)%nat -> vanishing_moments (dec_hi w) M -> ignores_constants w.
Proof. intros HM V. unfold ignores_constants. etransitivity; [|exact (V 0%nat ltac:(lia))]. unfold sumn. f_equal. apply map_ext. intros m. cbn [pow]. ring. Qed.
Lemma rpow_dt d t e : 0 < d -> 0 < t -> rpow (Rabs (d * t)) e = Rpower d e * Rpower t e.
Proof.
  intros Hd Ht. assert (0 < d * t) by (now apply Rmult_lt_0_compat). rewrite Rabs_pos_eq by lra. unfold rpow. destruct (Rlt_dec 0 (d * t)); [|lra].
  rewrite ln_mult by trivial. unfold Rpower. rewrite <- exp_plus. f_equal. ring.
Qed.

(** fbm(H, sigma) analysed with a wavelet of M vanishing moments: beyond the spread of the wavelet, the covariance of two coefficients of the same scale decays like lag^(2H - 2M) *)
Theorem C110_fbm :
  forall {W} (P : expectation W) sh N (H sigma : R) dt d z0 (drawn : W -> noise) w M p j1 j2 gam norm weighted,
  shape_N sh = N -> (2 <= N)%nat -> sampling_step dt N d -> 0 < H <= 1 -> white_complex P (shape_R sh) (2 * N - 2) (fun w => nz (drawn w)) ->
  good_wavelet w -> vanishing_moments (dec_hi w) M -> (1 <= M)%nat -> norm <> 0 -> p_ok p ->
  exists B, (forall o, fbm sh H sigma dt "cme" z0 (drawn o) = Ok (presented sh (B o), false)) /\
  forall (T : W -> wtransform) (ws : W -> list warning), (forall o, wavelet_analysis (map fin (B o)) p w j1 j2 gam norm weighted = Ok (T o, ws o)) ->
  forall r j, (r < shape_R sh)%nat -> (1 <= j)%nat -> (forall o, In (Z.of_nat j) (scales (wt_coefs (T o)))) ->
  forall k k', inner N (length (dec_hi w)) j k -> inner N (length (dec_hi w)) j k' -> spread w j < lag j k k' ->
  let c k o := number (entry (wt_coefs (T o)) (Z.of_nat j) r k) in
  Rabs (Cov P (c k) (c k')) <= factor norm gam j ^ 2 *
    (sigma ^ 2 * Rpower d (2 * H) / INR (2 * M) * gain w j * spread w j ^ (2 * M) * Rpower (lag j k k' - spread w j) (2 * H - INR (2 * M))).
Proof.
  intros W P sh N H sigma dt d z0 drawn w M p j1 j2 gam norm wd EN HN Hd HH HZ Hw HM M1 Hn Hp.
  assert (d0 := proj2 (step_ok dt N d ltac:(lia) Hd)).
  destruct (C108_fbm P sh N H sigma dt d z0 drawn w p j1 j2 gam norm wd EN HN Hd HH HZ Hw (vanish_ignores w M M1 HM) Hn Hp) as (B & EB & HB).
  exists B. split; [exact EB|]. intros T ws HT r j Hr Hj HI. destruct (HB T ws HT r j Hr Hj HI) as [Q _]. clear HB.
  set (v := fun z => - (sigma ^ 2 / 2 * rpow (Rabs (d * IZR z)) (2 * H))) in Q.
  assert (G : forall k k', (k' <= k)%nat -> inner N (length (dec_hi w)) j k -> inner N (length (dec_hi w)) j k' -> spread w j < lag j k k' ->
    Rabs (Cov P (fun o => number (entry (wt_coefs (T o)) (Z.of_nat j) r k)) (fun o => number (entry (wt_coefs (T o)) (Z.of_nat j) r k'))) <= factor norm gam j ^ 2 *
    (sigma ^ 2 * Rpower d (2 * H) / INR (2 * M) * gain w j * spread w j ^ (2 * M) * Rpower (lag j k k' - spread w j) (2 * H - INR (2 * M)))).
  { intros k k' Hk IN IN' HL. destruct (Q k k' IN IN') as [_ ->]. rewrite Rabs_mult, (Rabs_pos_eq (factor _ _ _ ^ 2)) by (apply pow2_ge_0).
    apply Rmult_le_compat_l; [apply pow2_ge_0|].
    assert (PD : 0 < Rpower d (2 * H)) by apply exp_pos. assert (S2 : 0 <= sigma ^ 2) by apply pow2_ge_0.
    eapply Rle_trans; [apply (high_power w [(1, 0)] 0 M 0 (- (sigma ^ 2 / 2 * Rpower d (2 * H))) (2 * H) (fun t => - (sigma ^ 2 / 2 * rpow (Rabs (d * t)) (2 * H))))|]; trivial.
    - apply ann_0.
    - intros q [<-|[]]. cbn [snd]. lra.
    - lra.
    - lra.
    - lia.
    - intros t Ht. rewrite rpow_dt by trivial. ring.
    - intros z. unfold ev, Rsum. cbn [map fold_right fst snd]. rewrite !Rplus_0_r. unfold v. ring.
    - rewrite lag_Z by trivial. lra.
    - rewrite lag_Z, Nat.add_0_r by trivial. rewrite Rabs_Ropp, Rabs_pos_eq by (apply Rmult_le_pos; lra).
      unfold tnorm, Rsum. cbn [map fold_right fst]. rewrite Rabs_R1, Rplus_0_l. right. field. apply not_0_INR. lia. }
  intros k k' IN IN' HL c. destruct (le_dec k' k) as [Hk|Hk]; [now apply G|]. rewrite Cov_sym, lag_sym. rewrite lag_sym in HL. apply G; trivial. lia.
Qed.
Print Assumptions C110_fbm.

(** fractional Gaussian noise is stationary: its covariance is a second difference of a power *)
Lemma fgn_stationary {W} (P : expectation W) sh N (H sigma : R) dt d z0 (drawn : W -> noise) :
  shape_N sh = N -> (2 <= N)%nat -> sampling_step dt N d -> 0 < H <= 1 -> white_complex P (shape_R sh) (2 * N - 2) (fun w => nz (drawn w)) ->
  exists X, (forall o, fgn sh H sigma dt "cme" z0 (drawn o) = Ok (presented sh (X o), false)) /\
  (forall o, length (X o) = shape_R sh /\ Forall (fun s => length s = N) (X o)) /\
  forall r, (r < shape_R sh)%nat -> stationary_signal P N (fun o => nth r (X o) []) (fun z => ev [(1, 1); (-2, 0); (1, -1)] (fun t => sigma ^ 2 / 2 * rpow (Rabs (d * t)) (2 * H)) (IZR z)).
Proof.
  intros EN HN Hd HH HZ. assert (d0 := proj2 (step_ok dt N d ltac:(lia) Hd)).
  destruct (C61_fgn W P sh N H sigma dt d z0 drawn EN HN Hd HH HZ) as (X & EX & (X1 & X2 & X3)).
  assert (HS : forall o, length (X o) = shape_R sh /\ Forall (fun s => length s = N) (X o)) by exact X1.
  exists X. split; [exact EX|]. split; [exact HS|]. intros r Hr.
  split; [intros o; destruct (HS o) as [U V]; rewrite Forall_forall in V; apply V, nth_In; lia|]. split.
  - intros i Hi. exact (X2 r i Hr Hi).
  - intros i k Hi Hk. destruct (X3 r r i k Hr Hr Hi Hk) as [U V]. split; [exact U|]. unfold Cov in V. rewrite (proj2 (X2 r i Hr Hi)) in V.
    destruct (Nat.eq_dec r r) as [_|]; [|congruence]. unfold SpecSimul.entry in V. rewrite Rmult_0_l, Rminus_0_r in V. rewrite V.
    unfold fgn_covariance, fbm_covariance, ev, Rsum. cbn [map fold_right fst snd]. rewrite minus_IZR, <- !INR_IZR_INZ.
    replace (d * (INR i + 1) - d * (INR k + 1)) with (d * (INR i - INR k + 0)) by ring. replace (d * INR i - d * (INR k + 1)) with (d * (INR i - INR k + -1)) by ring.
    replace (d * (INR i + 1) - d * INR k) with (d * (INR i - INR k + 1)) by ring. replace (d * INR i - d * INR k) with (d * (INR i - INR k + 0)) by ring. field.
Qed.
(** fgn(H, sigma): one more factor lag^(-2) *)
Theorem C110_fgn :
  forall {W} (P : expectation W) sh N (H sigma : R) dt d z0 (drawn : W -> noise) w M p j1 j2 gam norm weighted,
  shape_N sh = N -> (2 <= N)%nat -> sampling_step dt N d -> 0 < H <= 1 -> white_complex P (shape_R sh) (2 * N - 2) (fun w => nz (drawn w)) ->
  good_wavelet w -> vanishing_moments (dec_hi w) M -> norm <> 0 -> p_ok p ->
  exists X, (forall o, fgn sh H sigma dt "cme" z0 (drawn o) = Ok (presented sh (X o), false)) /\
  forall (T : W -> wtransform) (ws : W -> list warning), (forall o, wavelet_analysis (map fin (X o)) p w j1 j2 gam norm weighted = Ok (T o, ws o)) ->
  forall r j, (r < shape_R sh)%nat -> (1 <= j)%nat -> (forall o, In (Z.of_nat j) (scales (wt_coefs (T o)))) ->
  forall k k', inner N (length (dec_hi w)) j k -> inner N (length (dec_hi w)) j k' -> spread w j + 1 < lag j k k' ->
  let c k o := number (entry (wt_coefs (T o)) (Z.of_nat j) r k) in
  E P (c k) = 0 /\
  Rabs (Cov P (c k) (c k')) <= factor norm gam j ^ 2 *
    (2 * sigma ^ 2 * Rpower d (2 * H) / INR (M + 1) * gain w j * (spread w j + 1) ^ (2 * M + 2) * Rpower (lag j k k' - (spread w j + 1)) (2 * H - 2 - INR (2 * M))).
Proof.
  intros W P sh N H sigma dt d z0 drawn w M p j1 j2 gam norm wd EN HN Hd HH HZ Hw HM Hn Hp.
  assert (d0 := proj2 (step_ok dt N d ltac:(lia) Hd)).
  destruct (fgn_stationary P sh N H sigma dt d z0 drawn EN HN Hd HH HZ) as (X & EX & HS & HX').
  exists X. split; [exact EX|]. intros T ws HT r j Hr Hj HI. assert (HX := HX' r Hr).
  set (phi := fun t => sigma ^ 2 / 2 * rpow (Rabs (d * t)) (2 * H)) in *. set (b := [(1, 1); (-2, 0); (1, -1)] : taps). fold b in HX.
  assert (G : forall k k', (k' <= k)%nat -> inner N (length (dec_hi w)) j k -> inner N (length (dec_hi w)) j k' -> spread w j + 1 < lag j k k' ->
    Rabs (Cov P (fun o => number (entry (wt_coefs (T o)) (Z.of_nat j) r k)) (fun o => number (entry (wt_coefs (T o)) (Z.of_nat j) r k'))) <= factor norm gam j ^ 2 *
    (2 * sigma ^ 2 * Rpower d (2 * H) / INR (M + 1) * gain w j * (spread w j + 1) ^ (2 * M + 2) * Rpower (lag j k k' - (spread w j + 1)) (2 * H - 2 - INR (2 * M)))).
  { intros k k' Hk IN IN' HL. destruct (C108_stationary P X N (shape_R sh) w p j1 j2 gam norm wd T ws r _ HS Hw Hn Hp HT Hr HX j k k' Hj HI IN IN') as (_ & _ & _ & _ & ->).
    rewrite Rabs_mult, (Rabs_pos_eq (factor _ _ _ ^ 2)) by (apply pow2_ge_0). apply Rmult_le_compat_l; [apply pow2_ge_0|].
    assert (PD : 0 < Rpower d (2 * H)) by apply exp_pos. assert (S2 : 0 <= sigma ^ 2) by apply pow2_ge_0.
    eapply Rle_trans; [apply (high_power w b 2 M 1 (sigma ^ 2 / 2 * Rpower d (2 * H)) (2 * H) phi)|]; trivial.
    - intros [|[|i]] x Hi; [| |lia]; unfold ev, b, Rsum; cbn [map fold_right fst snd pow]; ring.
    - intros q [<-|[<-|[<-|[]]]]; cbn [snd]; lra.
    - lra.
    - lra.
    - lia.
    - intros t Ht. unfold phi. rewrite rpow_dt by trivial. ring.
    - rewrite lag_Z by trivial. lra.
    - rewrite lag_Z by trivial. rewrite Rabs_pos_eq by (apply Rmult_le_pos; lra). replace (1 + spread w j) with (spread w j + 1) by ring.
      replace (INR (2 * M + 2)) with (2 * INR (M + 1)) by (rewrite !plus_INR, mult_INR; cbn [INR]; ring). replace (2 * H - 2 * INR (M + 1)) with (2 * H - 2 - INR (2 * M)) by (rewrite plus_INR, mult_INR; cbn [INR]; ring).
      unfold tnorm, b, Rsum. cbn [map fold_right fst]. rewrite Rabs_R1. replace (Rabs (-2)) with 2 by (rewrite Rabs_left; lra). right. field. apply not_0_INR. lia. }
  intros k k' IN IN' HL c. split.
  - destruct (C108_stationary P X N (shape_R sh) w p j1 j2 gam norm wd T ws r _ HS Hw Hn Hp HT Hr HX j k k' Hj HI IN IN') as (_ & _ & E0 & _). exact E0.
  - destruct (le_dec k' k) as [Hk|Hk]; [now apply G|]. rewrite Cov_sym, lag_sym. rewrite lag_sym in HL. apply G; trivial. lia.
Qed.
Print Assumptions C110_fgn.
