(** * C116: the rate at which the spectral exponent of simulated fractional Brownian motion settles *)
From Coq Require Import Reals List ZArith Bool Lra Lia String Classical_Prop FunctionalExtensionality.
From Verif Require Import XReal PyBase ModelUtils ModelMRQ ModelStructure ModelWavelet ModelPSD ModelSimul Spec SpecMRQ SpecSimul LXReal LUtils LBase LFilter LTransform LPattern LWave LPoly LCone LMoment LWaveEst LDft LSimul LEst LReg
  PropsEstimators PropsWavelet PropsMissing PropsMono PropsPSD PropsSlope PropsWhite PropsWhitePower PropsWhiteCase PropsSimul LWick PropsFluct PropsConsist PropsConsistGen PropsConsistCase PropsBeta LPowerSum PropsConsistRate.
Import ListNotations.
Open Scope R_scope.
Local Notation length := List.length.
Local Notation entry := SpecMRQ.entry.

(** [fractal_analysis] on simulated fbm gives -(2 H + 1) within [eps], but for a probability at most K N^(-al) per realisation: 1 / N up to H = 3/4 (any smaller exponent at H = 3/4), N^(4 H - 4) beyond *)
Theorem C116_fbm_rate :
  forall H eps, 0 < H < 1 -> 0 < eps ->
  exists j0, forall al (j1 j2 : nat), (j0 <= j1 < j2)%nat -> 0 < al <= 1 -> al <= 4 - 4 * H -> (H = 3 / 4 -> al < 1) ->
  exists K, forall W (P : expectation W) sh N sigma dt d z0 (drawn : W -> noise) db nm fs lo hi name b,
  shape_N sh = N -> (2 <= N)%nat -> (1 <= shape_R sh)%nat -> sampling_step dt N d -> sigma <> 0 -> gaussian_complex P (shape_R sh) (2 * N - 2) (fun w => nz (drawn w)) ->
  db nm = Some haar1 -> 0 < fs -> base_of name b ->
  (forall j : Z, (1 <= j)%Z -> (lo <= scale2freq (IZR j) fs <= hi <-> (Z.of_nat j1 <= j <= Z.of_nat j2)%Z)) ->
  prob_at_most P (fun o => ~ exists B fr,
      fbm sh H sigma dt "cme" z0 (drawn o) = Ok (presented sh B, false) /\ shaped (shape_R sh) N B /\
      fractal_analysis db (map fin B) fs nm (lo, hi) name = Ok fr /\ Rabs (fr_beta fr - (- (2 * H + 1))) <= eps)
    (INR (shape_R sh) * (K * Rpower (INR N) (- al))).
Proof.
  intros H eps HH He. assert (n1 : 1 <> 0) by lra. destruct (C112_fbm_rate H 1 (eps / 2) HH n1 ltac:(lra)) as [j0 HJ]. exists (j0 + 1)%nat. intros al j1 j2 Hj Hal Ha H3.
  destruct (HJ (1/2) al j1 j2 ltac:(lia) Hal Ha H3) as [K HK]. exists (Rmax K (Rpower (2 ^ (j2 + 2)) al)).
  intros W P sh N sigma dt d z0 drawn db nm fs lo hi name b EN HN HR Hd Hs HG Hdb Hfs HB HBd. assert (NP : 0 < INR N) by (apply lt_0_INR; lia).
  assert (R1 : 1 <= INR (shape_R sh)) by (change 1 with (INR 1); now apply le_INR).
  assert (PP : 0 < Rpower (INR N) (- al)) by apply exp_pos. assert (M1 := Rmax_l K (Rpower (2 ^ (j2 + 2)) al)). assert (M2 := Rmax_r K (Rpower (2 ^ (j2 + 2)) al)).
  destruct (le_lt_dec 3 (inner_count N 2 j2)) as [C3|C3].
  - destruct (fbm_facts P sh N H sigma dt d z0 drawn EN ltac:(lia) Hd ltac:(lra) (proj1 HG)) as (B & EB & HS & _ & _).
    assert (NE : forall o, B o <> []) by (intros o Z; destruct (HS o) as [L _]; rewrite Z in L; cbn in L; lia).
    assert (TE := fun o => transform_ok (B o) N haar1 1 None (1/2) 1 false (NE o) ltac:(lia) (proj2 (HS o)) good_haar1 n1).
    assert (SC : forall o, In (Z.of_nat j2) (scales (wt_coefs (transform_of (B o) haar1 1 None (1/2) 1 false)))).
    { intros o. apply (C99_scales (B o) N haar1 1 None (1/2) 1 false _ _ (NE o) ltac:(lia) (proj2 (HS o)) good_haar1 n1 (TE o)). split; [lia|exact C3]. }
    assert (Hj' : (1 <= j1 < j2)%nat) by lia.
    eapply prob_weaken; [| |apply (beta_prob db nm haar1 fs lo hi name b j1 j2 Hdb good_haar1 Hfs HB Hj' HBd P B (shape_R sh) N _ _ (H + 1 - 1 / 1) eps (K * Rpower (INR N) (- al)) HR ltac:(lia) HS TE SC)].
    + intros o NO (fr & F & Q). apply NO. exists (B o), fr. split; [apply EB|]. split; [apply HS|]. split; [exact F|]. replace (- (2 * H + 1)) with (- (2 * (H + 1 - 1 / 1) + 1)) by field. exact Q.
    + apply Rmult_le_compat_l; [lra|]. apply Rmult_le_compat_r; [lra|exact M1].
    + intros r Hr. eapply prob_weaken; [|apply Rle_refl|apply (HK W P sh N sigma dt d z0 drawn 1%Z None false r [2] false EN ltac:(lia) Hd Hs HG Hr (or_introl eq_refl))].
      intros o NO (B' & t & ws & s & h & E1 & E0 & E2 & E3 & E4 & E5). apply NO.
      assert (B' = B o) as ->. { apply (presented_inj sh N); trivial. specialize (EB o). rewrite E1 in EB. congruence. }
      rewrite TE in E2. injection E2 as <- <-. now exists s, h.
  - apply prob_one. assert (Q := haar_scale N j2 ltac:(lia) C3).
    assert (1 <= Rmax K (Rpower (2 ^ (j2 + 2)) al) * Rpower (INR N) (- al)).
    { apply Rle_trans with (Rpower (INR N) al * Rpower (INR N) (- al)).
      - rewrite <- Rpower_plus. replace (al + - al) with 0 by ring. rewrite Rpower_O by trivial. lra.
      - apply Rmult_le_compat_r; [lra|]. apply Rle_trans with (2 := M2). apply Rle_Rpower_l; [lra|]. split; [trivial|]. lra. }
    nra.
Qed.
Print Assumptions C116_fbm_rate.

(** Non-vacuity: two realisations of fbm with H = 7/8, at the rate N^(-1/2): all long enough simulations have draws that give the exponent -11/4 within the tolerance *)
Theorem C116_case_rate eps : 0 < eps -> exists j0, forall j1 j2 : nat, (j0 <= j1 < j2)%nat -> exists N0, forall N, (N0 <= N)%nat -> exists (drawn : noise) X fr,
  fbm (SPair N 2) (7 / 8) 1 None "cme" None drawn = Ok (presented (SPair N 2) X, false) /\ shaped 2 N X /\
  fractal_analysis (fun n => if Nat.eqb n 1 then Some haar1 else None) (map fin X) 64 1 (scale2freq (INR j2) 64, scale2freq (INR j1) 64) "log2" = Ok fr /\ Rabs (fr_beta fr - (- (11 / 4))) <= eps.
Proof.
  intros He. destruct (C116_fbm_rate (7 / 8) eps ltac:(lra) He) as [j0 HJ]. exists (j0 + 1)%nat. intros j1 j2 Hj.
  destruct (HJ (1 / 2) j1 j2 ltac:(lia) ltac:(lra) ltac:(lra) ltac:(lra)) as [K HK].
  assert (AR : exists n, Rmax 2 K < INR n). { destruct (archimed (Rmax 2 K)) as [A _]. assert (M := Rmax_l 2 K). exists (Z.to_nat (up (Rmax 2 K))). rewrite INR_IZR_INZ, Z2Nat.id; [lra|]. apply le_IZR. lra. }
  destruct AR as [n Hn]. assert (M1 := Rmax_l 2 K). assert (M2 := Rmax_r 2 K). exists (9 * n * n)%nat. intros N HN. apply NNPP. intros HA.
  assert (n2 : (2 <= n)%nat) by (apply INR_le; cbn [INR]; lra). assert (N2 : (2 <= N)%nat) by nia.
  destruct (C112_noise_exists 2 (2 * N - 2)) as (W & P & drawn & HP & HG).
  assert (MON : forall x y : R, scale2freq x 64 <= scale2freq y 64 <-> y <= x).
  { intros x y. unfold scale2freq. split; intros X.
    - apply Rnot_lt_le. intros L. assert (Rpower 2 (- y) < Rpower 2 (- x)) by (apply Rpower_lt; lra). lra.
    - assert (Rpower 2 (- x) <= Rpower 2 (- y)) by (apply Rle_Rpower; lra). lra. }
  assert (BD : forall j : Z, (1 <= j)%Z -> (scale2freq (INR j2) 64 <= scale2freq (IZR j) 64 <= scale2freq (INR j1) 64 <-> (Z.of_nat j1 <= j <= Z.of_nat j2)%Z)).
  { intros j _. rewrite !MON, !INR_IZR_INZ. split; intros [A B]; split; try (now apply le_IZR); now apply IZR_le. }
  assert (Q := HK W P (SPair N 2) N 1 None (/ INR N) None drawn (fun n => if Nat.eqb n 1 then Some haar1 else None) 1%nat 64 _ _ "log2"%string 2 eq_refl N2 (le_S _ _ (le_n 1)) (or_intror (conj (or_introl eq_refl) eq_refl)) ltac:(lra) HG eq_refl ltac:(lra) (or_introl (conj eq_refl eq_refl)) BD).
  apply (not_everywhere P _ _ HP Q).
  - change (INR (shape_R (SPair N 2))) with 2. apply le_INR in HN. rewrite !mult_INR in HN. replace (INR 9) with 9 in HN by (cbn; ring).
    assert (X : Rpower (INR N) (- (1 / 2)) <= / (3 * INR n)).
    { rewrite Rpower_Ropp. apply Rinv_le_contravar; [nra|]. replace (1 / 2) with (/ 2) by field. rewrite Rpower_sqrt by (apply lt_0_INR; lia).
      rewrite <- (sqrt_square (3 * INR n)) by lra. apply sqrt_le_1_alt. nra. }
    assert (X0 : 0 < Rpower (INR N) (- (1 / 2))) by apply exp_pos. assert (X1 : 0 < / (3 * INR n)) by (apply Rinv_0_lt_compat; nra).
    apply Rle_lt_trans with (2 * (INR n * / (3 * INR n))); [nra|]. rewrite Rinv_mult by lra. replace (INR n * (/ 3 * / INR n)) with (/ 3) by (field; lra). lra.
  - intros o (X & fr & E1 & E2 & E3 & E4). apply HA. exists (drawn o), X, fr. split; [exact E1|]. split; [exact E2|]. split; [exact E3|]. replace (- (11 / 4)) with (- (2 * (7 / 8) + 1)) by field. exact E4.
Qed.
Print Assumptions C116_case_rate.
