(** * C116: the spectral exponent that fractal_analysis gives for simulated fractional noise and fractional Brownian motion *)
From Coq Require Import Reals List ZArith Bool Lra Lia String Classical_Prop FunctionalExtensionality.
From Verif Require Import XReal PyBase ModelUtils ModelMRQ ModelStructure ModelWavelet ModelPSD ModelSimul Spec SpecMRQ SpecSimul LXReal LUtils LBase LFilter LTransform LPattern LWave LPoly LCone LMoment LWaveEst LDft LSimul LEst LReg
  PropsEstimators PropsWavelet PropsMissing PropsMono PropsPSD PropsSlope PropsWhite PropsWhitePower PropsWhiteCase PropsSimul LWick PropsFluct PropsConsist PropsConsistGen PropsConsistCase.
Import ListNotations.
Open Scope R_scope.
Local Notation length := List.length.
Local Notation entry := SpecMRQ.entry.

(** ** A finite exponent only comes from positive mean powers *)
Lemma xsum_finite l s : xsum l = Fin s -> forall x, In x l -> exists a, x = Fin a.
Proof.
  revert s. induction l as [|y l IH]; intros s H x; [intros []|]. change (xsum (y :: l)) with (xadd y (xsum l)) in H.
  destruct y as [a| | |], (xsum l) as [u| | |] eqn:E; cbn [xadd] in H; try discriminate. intros [<-|I]; [now exists a|]. exact (IH u eq_refl x I).
Qed.
Lemma slope_finite wd m j1 j2 r y s : (j1 <= j2)%Z -> fslope wd m j1 j2 r y = Fin s -> forall j, (j1 <= j <= j2)%Z -> exists a, y j = Fin a.
Proof.
  intros Hj E j Hjj. destruct (fit_linear wd m j1 j2 r Hj) as [Z|(u & v & _ & _ & _ & _ & L)].
  - destruct (Z y) as [X _]. rewrite X in E. discriminate.
  - destruct (L y) as [X _]. rewrite X in E. assert (I : In (xmul (Fin (u j)) (y j)) (map (fun j => xmul (Fin (u j)) (y j)) (zrange j1 (j2 + 1)))) by (apply in_map_iff; exists j; split; [reflexivity|apply zrange_In; lia]).
    destruct (xsum_finite _ _ E _ I) as [a A]. destruct (y j) as [c| | |]; [now exists c| | |]; cbn in A; try discriminate; unfold scale_inf in A; destruct (Req_EM_T (u j) 0), (Rlt_dec 0 (u j)); discriminate.
Qed.

(** the structure function of a signal without infinite sample, read back into the mean power at the scales of the fit *)
Lemma finite_positive A w t ws (j1 j2 : Z) qs wd s r h : good_wavelet w -> Forall no_inf A ->
  wavelet_analysis A PNone w 1 None (1/2) 1 false = Ok (t, ws) -> (1 <= j1 <= j2)%Z -> In j2 (scales (wt_coefs t)) -> In 2 qs -> (r < length A)%nat ->
  StructureFunction (wt_coefs t) (QArr qs) j1 j2 wd = Ok s -> nth r (sf_H s) NaN = Fin h ->
  forall j, (j1 <= j <= j2)%Z -> 0 < mean_sq (wt_coefs t) j r.
Proof.
  intros Hw HA HT Hj I2 H2 Hr ES EH j Hjj.
  destruct (wa_inv A PNone w 1 None (1/2) 1 false t ws Hw R1_neq_R0 Logic.I HT) as (eta & _ & ET & _ & _ & _ & NA).
  assert (SC : scales (wt_coefs t) = one_to (ccount A PNone w (1/2) 1)) by (rewrite ET; apply PropsWavelet.scales_mrq).
  set (g := ccount A PNone w (1/2) 1) in *. rewrite SC in I2. apply one_to_In in I2.
  assert (HR : regular (wt_coefs t) g (length A)). { rewrite ET. cbn [the_wt wt_coefs]. apply coefs_regular. fold g. lia. }
  rewrite (SF_eq (wt_coefs t) g (length A) HR) in ES by lia. apply has_two_In in H2. rewrite H2 in ES. injection ES as <-. cbn [sf_H] in EH.
  rewrite nth_seq_map in EH by trivial.
  assert (EF : exists u, fslope wd (wt_coefs t) j1 j2 r (logS (wt_coefs t) (PyFloat 2) r) = Fin u).
  { destruct (fslope wd (wt_coefs t) j1 j2 r (logS (wt_coefs t) (PyFloat 2) r)) as [u| | |]; [now exists u| | |]; exfalso; cbn in EH; repeat (match type of EH with context [Rlt_dec ?a ?b] => destruct (Rlt_dec a b) | context [Req_EM_T ?a ?b] => destruct (Req_EM_T a b) end; cbn in EH); discriminate. }
  destruct EF as [u EF]. assert (J12 : (j1 <= j2)%Z) by lia. destruct (slope_finite _ _ _ _ _ _ _ J12 EF j Hjj) as [a EA].
  unfold logS in EA. rewrite sf2_sq in EA.
  destruct (we_usable A w HA (Z.to_nat j) r (1/2) PNone) as [U1 U2]; [unfold g, ccount in I2; lia|trivial|].
  assert (EC : column (wt_coefs t) j r = nth r (Cf A w (1/2) 1 (Z.to_nat j)) []).
  { rewrite ET. cbn [the_wt wt_coefs]. rewrite <- (Z2Nat.id j) at 1 by lia. unfold mrq_of. apply table_column. unfold g in I2. lia. }
  rewrite EC, nanmean_sq in EA by trivial. unfold mean_sq, numbers. rewrite EC. exact (logged_pos "log2" xlog2 _ _ eq_refl EA).
Qed.
(** fractal_analysis returns, and its exponent is -(2 h + 1) with h the exponent read from the unweighted structure function of the first realisation *)
Lemma beta_read db nm A w fs lo hi name b t ws (j1 j2 : nat) s : db nm = Some w -> good_wavelet w -> Forall no_inf A -> 0 < fs -> base_of name b ->
  (1 <= j1 < j2)%nat -> (forall j : Z, (1 <= j)%Z -> (lo <= scale2freq (IZR j) fs <= hi <-> (Z.of_nat j1 <= j <= Z.of_nat j2)%Z)) ->
  wavelet_analysis A PNone w 1 None (1/2) 1 false = Ok (t, ws) -> In (Z.of_nat j2) (scales (wt_coefs t)) ->
  StructureFunction (wt_coefs t) (QArr [2]) (Z.of_nat j1) (Z.of_nat j2) false = Ok s -> (forall r, (r < length A)%nat -> exists h, nth r (sf_H s) NaN = Fin h) ->
  exists fr h, fractal_analysis db A fs nm (lo, hi) name = Ok fr /\ nth 0 (sf_H s) NaN = Fin h /\ fr_beta fr = - (2 * h + 1).
Proof.
  intros Hdb Hw HA Hfs HB Hj HBd HT I2 ES HH.
  destruct (wa_inv A PNone w 1 None (1/2) 1 false t ws Hw R1_neq_R0 Logic.I HT) as (eta & _ & ET & _ & _ & _ & NA).
  assert (SC : scales (wt_coefs t) = one_to (ccount A PNone w (1/2) 1)) by (rewrite ET; apply PropsWavelet.scales_mrq).
  assert (I1 : In (Z.of_nat j1) (scales (wt_coefs t))) by (rewrite SC in *; apply one_to_In in I2; apply one_to_In; lia).
  assert (K := proj2 (C53_returns db A fs nm w lo hi name b t ws Hdb Hw HA Hfs HB HT)). cbv zeta in K. destruct K as [fr F].
  - split; [exists (Z.of_nat j1); split; [exact I1|apply HBd; lia]|]. intros j r Ij Bj Hr. destruct (HH r Hr) as [h EH].
    assert (J1 : (1 <= j)%Z) by (rewrite SC in Ij; apply one_to_In in Ij; lia).
    apply (finite_positive A w t ws (Z.of_nat j1) (Z.of_nat j2) [2] false s r h); trivial; [lia|now left|now apply HBd].
  - destruct (C53_beta_is_hurst db A fs nm w lo hi name PNone 1 None (1/2) false t ws (Z.of_nat j1) (Z.of_nat j2) fr [2] Hdb Hw HA Logic.I HT I1 I2 ltac:(lia) HBd ltac:(now left) F) as (s' & h & S' & EH & E).
    rewrite ES in S'. injection S' as <-. now exists fr, h.
Qed.

(** ** From the columns to the exponent: some column fails, or the whole analysis succeeds *)
Lemma Rsum_const {T} c (l : list T) : Rsum (map (fun _ => c) l) = INR (length l) * c.
Proof. induction l as [|x l IH]; [unfold Rsum; cbn; ring|]. cbn [map length]. change (Rsum (?a :: ?m)) with (a + Rsum m). rewrite IH, S_INR. ring. Qed.
Section Columns.
Variables (db : nat -> option wavelet) (nm : nat) (w : wavelet) (fs lo hi : R) (name : string) (b : R) (j1 j2 : nat).
Hypothesis Hdb : db nm = Some w.
Hypothesis Hw : good_wavelet w.
Hypothesis Hfs : 0 < fs.
Hypothesis HB : base_of name b.
Hypothesis Hj : (1 <= j1 < j2)%nat.
Hypothesis HBd : forall j : Z, (1 <= j)%Z -> (lo <= scale2freq (IZR j) fs <= hi <-> (Z.of_nat j1 <= j <= Z.of_nat j2)%Z).
Lemma beta_prob {W} (P : expectation W) (X : W -> list (list R)) R N T ws h0 eps q : (1 <= R)%nat -> (1 <= N)%nat -> (forall o, shaped R N (X o)) ->
  (forall o, wavelet_analysis (map fin (X o)) PNone w 1 None (1/2) 1 false = Ok (T o, ws o)) -> (forall o, In (Z.of_nat j2) (scales (wt_coefs (T o)))) ->
  (forall r, (r < R)%nat -> prob_at_most P (fun o => ~ exists s h, StructureFunction (wt_coefs (T o)) (QArr [2]) (Z.of_nat j1) (Z.of_nat j2) false = Ok s /\ nth r (sf_H s) NaN = Fin h /\ Rabs (h - h0) <= eps / 2) q) ->
  prob_at_most P (fun o => ~ exists fr, fractal_analysis db (map fin (X o)) fs nm (lo, hi) name = Ok fr /\ Rabs (fr_beta fr - (- (2 * h0 + 1))) <= eps) (INR R * q).
Proof using All.
  intros HR HN HS HT I2 HP.
  assert (Q := prob_list P (fun r o => ~ exists s h, StructureFunction (wt_coefs (T o)) (QArr [2]) (Z.of_nat j1) (Z.of_nat j2) false = Ok s /\ nth r (sf_H s) NaN = Fin h /\ Rabs (h - h0) <= eps / 2) (fun _ => q) (seq 0 R)).
  rewrite Rsum_const, seq_length in Q.
  eapply prob_weaken; [|apply Rle_refl|apply Q; intros r Hr; apply in_seq in Hr; apply HP; lia].
  intros o NO. apply NNPP. intros NE. apply NO. clear NO.
  assert (G : forall r, (r < R)%nat -> exists s h, StructureFunction (wt_coefs (T o)) (QArr [2]) (Z.of_nat j1) (Z.of_nat j2) false = Ok s /\ nth r (sf_H s) NaN = Fin h /\ Rabs (h - h0) <= eps / 2).
  { intros r Hr. apply NNPP. intros Z. apply NE. exists r. split; [apply in_seq; lia|exact Z]. }
  destruct (G 0%nat ltac:(lia)) as (s & h & ES & EH & EB). destruct (HS o) as [L _].
  destruct (beta_read db nm (map fin (X o)) w fs lo hi name b (T o) (ws o) j1 j2 s Hdb Hw) as (fr & h' & F & EH' & EF); trivial.
  - apply Forall_forall. intros c Hc. apply in_map_iff in Hc as (x & <- & _). apply no_inf_fin.
  - intros r Hr. rewrite map_length, L in Hr. destruct (G r Hr) as (s' & h' & ES' & EH' & _). rewrite ES in ES'. injection ES' as <-. now exists h'.
  - exists fr. split; [exact F|]. rewrite EH in EH'. injection EH' as <-. rewrite EF. replace (- (2 * h + 1) - - (2 * h0 + 1)) with (- (2 * (h - h0))) by ring. rewrite Rabs_Ropp, Rabs_mult, (Rabs_pos_eq 2) by lra. lra.
Qed.
End Columns.

(** ** Fractional Gaussian noise *)
(** simulate, analyse the spectrum: over the frequencies of the scales j1..j2, the probability that fractal_analysis raises or gives an exponent further than eps from 1 - 2 H
    is at most K / N for each realisation analysed; K depends neither on the length, nor on sigma, nor on the sampling step, nor on the frequencies, nor on the base of the logarithm *)
Theorem C116_fgn_beta :
  forall H eps (j1 j2 : nat), 0 < H < 1 -> 0 < eps -> (1 <= j1 < j2)%nat ->
  exists K, forall W (P : expectation W) sh N sigma dt d z0 (drawn : W -> noise) db nm fs lo hi name b,
  shape_N sh = N -> (2 <= N)%nat -> (1 <= shape_R sh)%nat -> sampling_step dt N d -> sigma <> 0 -> gaussian_complex P (shape_R sh) (2 * N - 2) (fun w => nz (drawn w)) ->
  db nm = Some haar1 -> 0 < fs -> base_of name b ->
  (forall j : Z, (1 <= j)%Z -> (lo <= scale2freq (IZR j) fs <= hi <-> (Z.of_nat j1 <= j <= Z.of_nat j2)%Z)) ->
  prob_at_most P (fun o => ~ exists X fr,
      fgn sh H sigma dt "cme" z0 (drawn o) = Ok (presented sh X, false) /\ shaped (shape_R sh) N X /\
      fractal_analysis db (map fin X) fs nm (lo, hi) name = Ok fr /\ Rabs (fr_beta fr - (1 - 2 * H)) <= eps)
    (INR (shape_R sh) * (K / INR N)).
Proof.
  intros H eps j1 j2 HH He Hj. assert (n1 : 1 <> 0) by lra. destruct (C112_fgn_estimate H (1/2) 1 (eps / 2) j1 j2 HH n1 ltac:(lra) Hj) as [K HK].
  exists (Rmax K (2 ^ (j2 + 2))). intros W P sh N sigma dt d z0 drawn db nm fs lo hi name b EN HN HR Hd Hs HG Hdb Hfs HB HBd. assert (NP : 0 < INR N) by (apply lt_0_INR; lia).
  assert (R1 : 1 <= INR (shape_R sh)) by (change 1 with (INR 1); now apply le_INR).
  destruct (le_lt_dec 3 (inner_count N 2 j2)) as [C3|C3].
  - destruct (HK W P sh N sigma dt d z0 drawn PNone 1%Z None false EN HN Hd Hs HG Logic.I) as (X & EX & HS & Q).
    assert (NE : forall o, X o <> []) by (intros o Z; destruct (HS o) as [L _]; rewrite Z in L; cbn in L; lia).
    assert (TE := fun o => transform_ok (X o) N haar1 1 None (1/2) 1 false (NE o) ltac:(lia) (proj2 (HS o)) good_haar1 n1).
    assert (SC : forall o, In (Z.of_nat j2) (scales (wt_coefs (transform_of (X o) haar1 1 None (1/2) 1 false)))).
    { intros o. apply (C99_scales (X o) N haar1 1 None (1/2) 1 false _ _ (NE o) ltac:(lia) (proj2 (HS o)) good_haar1 n1 (TE o)). split; [lia|exact C3]. }
    eapply prob_weaken; [| |apply (beta_prob db nm haar1 fs lo hi name b j1 j2 Hdb good_haar1 Hfs HB Hj HBd P X (shape_R sh) N _ _ (H - 1 / 1) eps (K / INR N) HR ltac:(lia) HS TE SC)].
    + intros o NO (fr & F & B). apply NO. exists (X o), fr. split; [apply EX|]. split; [apply HS|]. split; [exact F|]. replace (1 - 2 * H) with (- (2 * (H - 1 / 1) + 1)) by field. exact B.
    + apply Rmult_le_compat_l; [lra|]. unfold Rdiv. apply Rmult_le_compat_r; [left; now apply Rinv_0_lt_compat|apply Rmax_l].
    + intros r Hr. apply (Q _ _ TE SC); [lia|trivial|now left].
  - apply prob_one. assert (B := haar_scale N j2 ltac:(lia) C3). assert (M := Rmax_r K (2 ^ (j2 + 2))).
    assert (1 <= Rmax K (2 ^ (j2 + 2)) / INR N). { apply Rmult_le_reg_r with (INR N); [trivial|]. unfold Rdiv. rewrite Rmult_assoc, Rinv_l by lra. lra. } nra.
Qed.
Print Assumptions C116_fgn_beta.

(** the documentation of the spectrum reads C |f|^(-beta): for fgn that makes beta = 2 H - 1. Long simulations do not give it: with H = 3/4 the probability of an exponent within 1/2 of
    2 H - 1 = 1/2 is at most K / N per realisation *)
Theorem C116_documented_refuted :
  exists K, forall W (P : expectation W) sh N sigma dt d z0 (drawn : W -> noise) db nm fs lo hi name b,
  shape_N sh = N -> (2 <= N)%nat -> (1 <= shape_R sh)%nat -> sampling_step dt N d -> sigma <> 0 -> gaussian_complex P (shape_R sh) (2 * N - 2) (fun w => nz (drawn w)) ->
  db nm = Some haar1 -> 0 < fs -> base_of name b ->
  (forall j : Z, (1 <= j)%Z -> (lo <= scale2freq (IZR j) fs <= hi <-> (1 <= j <= 3)%Z)) ->
  prob_at_most P (fun o => exists X fr,
      fgn sh (3 / 4) sigma dt "cme" z0 (drawn o) = Ok (presented sh X, false) /\ shaped (shape_R sh) N X /\
      fractal_analysis db (map fin X) fs nm (lo, hi) name = Ok fr /\ Rabs (fr_beta fr - 1 / 2) <= 1 / 2)
    (INR (shape_R sh) * (K / INR N)).
Proof.
  destruct (C116_fgn_beta (3 / 4) (1 / 4) 1 3 ltac:(lra) ltac:(lra) ltac:(lia)) as [K HK]. exists K.
  intros W P sh N sigma dt d z0 drawn db nm fs lo hi name b EN HN HR Hd Hs HG Hdb Hfs HB HBd.
  eapply prob_weaken; [|apply Rle_refl|apply (HK W P sh N sigma dt d z0 drawn db nm fs lo hi name b EN HN HR Hd Hs HG Hdb Hfs HB HBd)].
  intros o (X & fr & EX & SX & F & B) (X' & fr' & EX' & SX' & F' & B').
  assert (X = X') as <-. { apply (presented_inj sh N); trivial. rewrite EX in EX'. congruence. }
  rewrite F in F'. injection F' as <-. assert (Z1 := Rle_abs (- (fr_beta fr - 1 / 2))). rewrite Rabs_Ropp in Z1. assert (Z2 := Rle_abs (fr_beta fr - (1 - 2 * (3 / 4)))). lra.
Qed.
Print Assumptions C116_documented_refuted.

(** ** Fractional Brownian motion *)
Theorem C116_fbm_beta :
  forall H eps, 0 < H < 1 -> 0 < eps ->
  exists j0, forall q (j1 j2 : nat), 0 < q -> (j0 <= j1 < j2)%nat ->
  exists N0, forall W (P : expectation W) sh N sigma dt d z0 (drawn : W -> noise) db nm fs lo hi name b,
  shape_N sh = N -> (N0 <= N)%nat -> (1 <= shape_R sh)%nat -> sampling_step dt N d -> sigma <> 0 -> gaussian_complex P (shape_R sh) (2 * N - 2) (fun w => nz (drawn w)) ->
  db nm = Some haar1 -> 0 < fs -> base_of name b ->
  (forall j : Z, (1 <= j)%Z -> (lo <= scale2freq (IZR j) fs <= hi <-> (Z.of_nat j1 <= j <= Z.of_nat j2)%Z)) ->
  prob_at_most P (fun o => ~ exists B fr,
      fbm sh H sigma dt "cme" z0 (drawn o) = Ok (presented sh B, false) /\ shaped (shape_R sh) N B /\
      fractal_analysis db (map fin B) fs nm (lo, hi) name = Ok fr /\ Rabs (fr_beta fr - (- (2 * H + 1))) <= eps)
    (INR (shape_R sh) * q).
Proof.
  intros H eps HH He. assert (n1 : 1 <> 0) by lra. destruct (C112_fbm_consistent H 1 (eps / 2) HH n1 ltac:(lra)) as [j0 HJ]. exists (j0 + 1)%nat. intros q j1 j2 Hq Hj.
  destruct (HJ (1/2) q j1 j2 Hq ltac:(lia)) as [N0 HK]. exists (N0 + 2 + 2 ^ (j2 - 1) * (2 * 3 + 2 * 2 + 2))%nat.
  intros W P sh N sigma dt d z0 drawn db nm fs lo hi name b EN HN HR Hd Hs HG Hdb Hfs HB HBd.
  assert (C3 : (3 <= inner_count N 2 j2)%nat) by (apply (inner_count_big 3 2 j2); lia).
  destruct (fbm_facts P sh N H sigma dt d z0 drawn EN ltac:(lia) Hd ltac:(lra) (proj1 HG)) as (B & EB & HS & _ & _).
  assert (NE : forall o, B o <> []) by (intros o Z; destruct (HS o) as [L _]; rewrite Z in L; cbn in L; lia).
  assert (TE := fun o => transform_ok (B o) N haar1 1 None (1/2) 1 false (NE o) ltac:(lia) (proj2 (HS o)) good_haar1 n1).
  assert (SC : forall o, In (Z.of_nat j2) (scales (wt_coefs (transform_of (B o) haar1 1 None (1/2) 1 false)))).
  { intros o. apply (C99_scales (B o) N haar1 1 None (1/2) 1 false _ _ (NE o) ltac:(lia) (proj2 (HS o)) good_haar1 n1 (TE o)). split; [lia|exact C3]. }
  assert (Hj' : (1 <= j1 < j2)%nat) by lia.
  eapply prob_weaken; [|apply Rle_refl|apply (beta_prob db nm haar1 fs lo hi name b j1 j2 Hdb good_haar1 Hfs HB Hj' HBd P B (shape_R sh) N _ _ (H + 1 - 1 / 1) eps q HR ltac:(lia) HS TE SC)].
  - intros o NO (fr & F & Q). apply NO. exists (B o), fr. split; [apply EB|]. split; [apply HS|]. split; [exact F|]. replace (- (2 * H + 1)) with (- (2 * (H + 1 - 1 / 1) + 1)) by field. exact Q.
  - intros r Hr. eapply prob_weaken; [|apply Rle_refl|apply (HK W P sh N sigma dt d z0 drawn 1%Z None false r [2] false EN ltac:(lia) Hd Hs HG Hr (or_introl eq_refl))].
    intros o NO (B' & t & ws & s & h & E1 & E0 & E2 & E3 & E4 & E5). apply NO.
    assert (B' = B o) as ->. { apply (presented_inj sh N); trivial. specialize (EB o). rewrite E1 in EB. congruence. }
    rewrite TE in E2. injection E2 as <- <-. now exists s, h.
Qed.
Print Assumptions C116_fbm_beta.

(** ** Non-vacuity: one realisation of fgn with H = 3/4, sampled at 64 Hz, analysed between 6 and 24 Hz (the frequencies 24, 12 and 6 of the scales 1, 2 and 3) *)
Theorem C116_case eps : 0 < eps -> exists N0, forall N, (N0 <= N)%nat -> exists (drawn : noise) X fr,
  fgn (SInt N) (3 / 4) 1 None "cme" None drawn = Ok (presented (SInt N) X, false) /\ shaped 1 N X /\
  fractal_analysis (fun n => if Nat.eqb n 1 then Some haar1 else None) (map fin X) 64 1 (6, 24) "log2" = Ok fr /\ Rabs (fr_beta fr - (- (1 / 2))) <= eps.
Proof.
  intros He. destruct (C116_fgn_beta (3 / 4) eps 1 3 ltac:(lra) He ltac:(lia)) as [K HK].
  assert (AR : exists N0, Rmax 2 K < INR N0). { destruct (archimed (Rmax 2 K)) as [A _]. assert (M := Rmax_l 2 K). exists (Z.to_nat (up (Rmax 2 K))). rewrite INR_IZR_INZ, Z2Nat.id; [lra|]. apply le_IZR. lra. }
  destruct AR as [N0 HN0]. exists N0. intros N HN. apply NNPP. intros HA. apply le_INR in HN. assert (M1 := Rmax_l 2 K). assert (M2 := Rmax_r 2 K).
  assert (N2 : (2 <= N)%nat) by (apply INR_le; cbn [INR]; lra).
  destruct (C112_noise_exists 1 (2 * N - 2)) as (W & P & drawn & HP & HG).
  assert (BD : forall j : Z, (1 <= j)%Z -> (6 <= scale2freq (IZR j) 64 <= 24 <-> (Z.of_nat 1 <= j <= Z.of_nat 3)%Z)).
  { intros j Hj. unfold scale2freq. replace (Rpower 2 (- IZR j)) with (/ 2 ^ Z.to_nat j) by (rewrite Rpower_Ropp, <- Rpower_pow by lra; f_equal; f_equal; rewrite INR_IZR_INZ, Z2Nat.id by lia; reflexivity).
    set (n := Z.to_nat j). assert (En : j = Z.of_nat n) by (unfold n; lia). rewrite En in *. clearbody n. clear En j. split.
    - intros [A _]. split; [lia|]. destruct (le_lt_dec n 3) as [L|L]; [lia|exfalso].
      assert (Q : 2 ^ 4 <= 2 ^ n) by (apply Rle_pow; [lra|lia]). assert (Q0 : 0 < 2 ^ n) by (apply pow_lt; lra).
      assert (Q1 : / 2 ^ n <= / 2 ^ 4) by (apply Rinv_le_contravar; [lra|trivial]). lra.
    - intros [A B]. assert (n = 1 \/ n = 2 \/ n = 3)%nat as ON by lia; destruct ON as [N1|N23]; [rewrite N1; lra|]; destruct N23 as [N1|N1]; rewrite N1; lra. }
  assert (Q := HK W P (SInt N) N 1 None (/ INR N) None drawn (fun n => if Nat.eqb n 1 then Some haar1 else None) 1%nat 64 6 24 "log2"%string 2 eq_refl N2 (le_n 1) (or_intror (conj (or_introl eq_refl) eq_refl)) ltac:(lra) HG eq_refl ltac:(lra) (or_introl (conj eq_refl eq_refl)) BD).
  apply (not_everywhere P _ _ HP Q).
  - cbn [shape_R INR]. rewrite Rmult_1_l. apply Rmult_lt_reg_r with (INR N); [lra|]. unfold Rdiv. rewrite Rmult_assoc, Rinv_l by lra. lra.
  - intros o (X & fr & E1 & E2 & E3 & E4). apply HA. exists (drawn o), X, fr. split; [exact E1|]. split; [exact E2|]. split; [exact E3|]. replace (- (1 / 2)) with (1 - 2 * (3 / 4)) by field. exact E4.
Qed.
Print Assumptions C116_case.
