(** * C112, continued: rates of convergence *)
From Coq Require Import Reals List ZArith Bool Lra Lia String FunctionalExtensionality Classical_Prop.
From Verif Require Import XReal PyBase ModelUtils ModelMRQ ModelStructure ModelWavelet ModelSimul Spec SpecMRQ SpecSimul LXReal LUtils LBase LFilter LTransform LPattern LWave LPoly LCone LMoment LWaveEst LDft LSimul LEst LReg
  PropsEstimators PropsWavelet PropsMissing PropsSlope PropsWhite PropsWhitePower PropsWhiteCase PropsSimul PropsWhiteFbm PropsRounded LTaps PropsDecorr PropsShortRange LPowerSum PropsHaarFgn PropsHaarFbm LWick PropsFluct PropsConsist PropsConsistGen PropsConsistCase.
Import ListNotations.
Open Scope R_scope.
Local Notation length := List.length.
Local Notation entry := SpecMRQ.entry.

(** ** Covariances that decrease like a power *)
Definition decays (w : wavelet) (v : Z -> R) (j : nat) (s : R) : Prop :=
  exists A L0, 0 <= A /\ forall z, high_cov w v j z ^ 2 <= decay A s L0 (Z.to_nat (Z.abs z)).
Section Decay.
Variables (w : wavelet) (b : taps) (n0 M : nat) (rho K al : R) (phi : R -> R) (v : Z -> R) (j : nat) (s : R).
Hypothesis Hj : (1 <= j)%nat.
Hypothesis Hw : good_wavelet w.
Hypothesis V : vanishing_moments (dec_hi w) M.
Hypothesis HA : ann b n0.
Hypothesis HB : between (- rho) rho b.
Hypothesis Hrho : 0 <= rho <= 1.
Hypothesis Hal : 0 <= al < 2.
Hypothesis Hn : (2 <= 2 * M + n0)%nat.
Hypothesis HP : forall t, 0 < t -> phi t = K * Rpower t al.
Hypothesis HV : forall z, v z = ev b phi (IZR z).
Hypothesis Heven : forall z, v (- z)%Z = v z.
Hypothesis Hbd : forall X, exists A, forall t, Rabs t <= X -> Rabs (phi t) <= A.
Hypothesis Hs : s <= 2 * (INR (2 * M + n0) - al).
Lemma decay_cov : decays w v j s.
Proof using All.
  set (L := length (dec_hi w)). assert (L1 : 1 <= INR L) by (apply (le_INR 1); unfold L; destruct Hw as [A _]; clear - A; lia).
  assert (J1 : 1 <= 2 ^ j) by (apply pow_R1_Rle; lra).
  assert (SP : 0 <= spread w j /\ rho + spread w j <= 2 ^ j * INR L) by (unfold spread; fold L; split; [apply Rmult_le_pos; lra|nra]). destruct SP as [SP SL].
  set (n := (2 * M + n0)%nat) in *. assert (N2 : 2 <= INR n) by (apply (le_INR 2); exact Hn).
  set (B := Rabs K * (2 / INR n * (gain w j * tnorm b) * (rho + spread w j) ^ n)).
  assert (Bp : 0 <= B).
  { unfold B. assert (T := tnorm_nonneg b). assert (G := gain_nonneg w j).
    apply Rmult_le_pos; [apply Rabs_pos|]. apply Rmult_le_pos; [|apply pow_le; lra]. apply Rmult_le_pos; [|now apply Rmult_le_pos].
    apply Rmult_le_pos; [lra|]. left; apply Rinv_0_lt_compat; lra. }
  destruct (Hbd (2 ^ j * INR L + 2 ^ j * INR L)) as [A0 HA0].
  assert (A0p : 0 <= A0). { eapply Rle_trans; [apply (Rabs_pos (phi 0))|]. apply HA0. rewrite Rabs_R0. nra. }
  set (A := tnorm (htaps w b j) * A0). assert (Ap : 0 <= A) by (apply Rmult_le_pos; [apply tnorm_nonneg|trivial]).
  exists (A ^ 2 + B ^ 2), L. assert (AA := pow2_ge_0 A). assert (BB := pow2_ge_0 B). split; [lra|].
  assert (PT0 : forall i, high_cov w v j (Z.of_nat i) ^ 2 <= decay (A ^ 2 + B ^ 2) s L i).
  { intros i. unfold decay. destruct (le_dec i L) as [I|I].
    - apply Rle_trans with (A ^ 2); [|lra]. rewrite <- pow2_abs. apply pow_incr. split; [apply Rabs_pos|]. replace (high_cov w v j (Z.of_nat i)) with (high_cov w (fun z => ev b phi (IZR z)) j (Z.of_nat i)) by (apply high_cov_ext'; intros z; now rewrite HV).
      rewrite high_cov_taps by trivial. apply ev_le; [trivial|]. intros p Hp. apply HA0.
      assert (E : length (dec_lo w) = length (dec_hi w)) by apply Hw. assert (Q := htaps_between w b rho j Hj E HB p Hp).
      rewrite <- INR_IZR_INZ. assert (INR i <= INR L) by (now apply le_INR). assert (I0 := pos_INR i).
      eapply Rle_trans; [apply Rabs_triang|]. rewrite (Rabs_pos_eq (2 ^ j * INR i)) by nra.
      assert (Rabs (snd p) <= rho + spread w j) by (apply Rabs_le; lra). nra.
    - assert (LI : 1 <= INR (i - L)) by (apply (le_INR 1); lia). assert (EI : INR (i - L) = INR i - INR L) by (apply minus_INR; lia).
      assert (U : INR (i - L) <= 2 ^ j * IZR (Z.of_nat i) - (rho + spread w j)) by (rewrite <- INR_IZR_INZ; nra).
      apply Rle_trans with (B ^ 2 * Rpower (INR (i - L)) (- s)); [|apply Rmult_le_compat_r; [left; apply exp_pos|lra]].
      apply Rle_trans with ((B * Rpower (INR (i - L)) (al - INR n)) ^ 2).
      + rewrite <- pow2_abs. apply pow_incr. split; [apply Rabs_pos|].
        eapply Rle_trans; [apply (high_power w b n0 M rho K al phi v j (Z.of_nat i)); trivial; try lra; try lia|]. fold n.
        apply Rle_trans with (B * Rpower (2 ^ j * IZR (Z.of_nat i) - (rho + spread w j)) (al - INR n)); [right; unfold B; ring|].
        apply Rmult_le_compat_l; [exact Bp|]. apply Rpower_antitone; lra.
      + rewrite Rpow_mult_distr. apply Rmult_le_compat_l; [exact BB|]. replace (Rpower (INR (i - L)) (al - INR n) ^ 2) with (Rpower (INR (i - L)) (2 * (al - INR n))).
        * apply Rle_Rpower; lra.
        * replace (2 * (al - INR n)) with ((al - INR n) + (al - INR n)) by ring. rewrite Rpower_plus. ring. }
  intros z. destruct (Z_le_gt_dec 0 z) as [Z0|Z0].
  - replace (Z.to_nat (Z.abs z)) with (Z.to_nat z) by lia. rewrite <- (Z2Nat.id z) at 1 by trivial. apply PT0.
  - rewrite <- high_cov_even by trivial. replace (- z)%Z with (Z.of_nat (Z.to_nat (Z.abs z))) by lia. apply PT0.
Qed.
End Decay.
Lemma unit_fbm_decays H w M j s : 0 < H < 1 -> good_wavelet w -> vanishing_moments (dec_hi w) M -> (1 <= M)%nat -> (1 <= j)%nat -> s <= 4 * INR M - 4 * H -> decays w (unit_fbm H) j s.
Proof.
  intros HH Hw HM M1 Hj Hs. apply (decay_cov w [(1, 0)] 0 M 0 (- (1 / 2)) (2 * H) (fun t => - (1 / 2 * rpow (Rabs t) (2 * H))) (unit_fbm H) j); trivial.
  - apply ann_0.
  - intros q [<-|[]]. cbn [snd]. lra.
  - lra.
  - lra.
  - lia.
  - intros t Ht. rewrite Rabs_pos_eq by lra. unfold rpow. destruct (Rlt_dec 0 t); [unfold Rpower; ring|lra].
  - intros z. unfold ev, Rsum. cbn [map fold_right fst snd]. rewrite !Rplus_0_r. unfold unit_fbm. ring.
  - intros z. unfold unit_fbm. now rewrite opp_IZR, Rabs_Ropp.
  - intros X. destruct (rpow_bounded 1 (2 * H) (1 / 2) X) as [A HA]; try lra. exists A. intros t Ht. specialize (HA t Ht). rewrite Rmult_1_l in HA. now rewrite Rabs_Ropp.
  - rewrite Nat.add_0_r, mult_INR. change (INR 2) with 2. lra.
Qed.
Lemma unit_fgn_decays H w M j s : 0 < H < 1 -> good_wavelet w -> vanishing_moments (dec_hi w) M -> (1 <= j)%nat -> s <= 4 * INR M + 4 - 4 * H -> decays w (unit_fgn H) j s.
Proof.
  intros HH Hw HM Hj Hs. apply (decay_cov w second 2 M 1 (1 / 2) (2 * H) (fun t => 1 / 2 * rpow (Rabs t) (2 * H)) (unit_fgn H) j); trivial.
  - intros [|[|i]] x Hi; [| |lia]; unfold ev, second, Rsum; cbn [map fold_right fst snd pow]; ring.
  - intros q [<-|[<-|[<-|[]]]]; cbn [snd]; lra.
  - lra.
  - lra.
  - lia.
  - intros t Ht. rewrite Rabs_pos_eq by lra. unfold rpow. destruct (Rlt_dec 0 t); [reflexivity|lra].
  - intros z. unfold unit_fgn, ev, second, Rsum. cbn [map fold_right fst snd]. rewrite opp_IZR.
    replace (- IZR z + 1) with (- (IZR z + -1)) by ring. replace (- IZR z + 0) with (- (IZR z + 0)) by ring. replace (- IZR z + -1) with (- (IZR z + 1)) by ring. rewrite !Rabs_Ropp. ring.
  - intros X. destruct (rpow_bounded 1 (2 * H) (1 / 2) X) as [A HA]; try lra. exists A. intros t Ht. specialize (HA t Ht). now rewrite Rmult_1_l in HA.
  - rewrite plus_INR, mult_INR. change (INR 2) with 2. lra.
Qed.

(** ** The number of coefficients is a fixed part of the length *)
Lemma inner_count_rate L j N : (1 <= L)%nat -> (1 <= j)%nat -> (1 <= inner_count N L j)%nat -> INR N <= 2 ^ j * (INR L + 3) * INR (inner_count N L j).
Proof.
  intros HL Hj H1. set (c := inner_count N L j) in *.
  assert (Q : (N < 2 ^ (j - 1) * (2 * (c + 1) + 2 * L + 2))%nat).
  { destruct (le_lt_dec (2 ^ (j - 1) * (2 * (c + 1) + 2 * L + 2)) N) as [G|G]; [|exact G]. exfalso. assert (X := inner_count_big (c + 1) L j HL Hj N G). fold c in X. lia. }
  replace (2 ^ (j - 1) * (2 * (c + 1) + 2 * L + 2))%nat with (2 ^ j * (c + L + 2))%nat in Q by (destruct j as [|j]; [lia|]; cbn [Nat.sub Nat.pow]; rewrite Nat.sub_0_r; ring).
  clearbody c. assert (Q2 : (N <= 2 ^ j * ((L + 3) * c))%nat). { assert (c + L + 2 <= (L + 3) * c)%nat by nia. assert (2 ^ j * (c + L + 2) <= 2 ^ j * ((L + 3) * c))%nat by (now apply Nat.mul_le_mono_l). lia. }
  apply le_INR in Q2. rewrite !mult_INR, plus_INR, pow_INR in Q2. change (INR 2) with 2 in Q2. replace (INR 3) with 3 in Q2 by (cbn; ring). lra.
Qed.

(** ** The rate, for any process whose coefficients have such covariances *)
Section Process.
Variables (w : wavelet) (v : Z -> R) (gam norm a b eps tol s al : R) (j1 j2 : nat).
Hypothesis Hw : good_wavelet w.
Hypothesis Hn : norm <> 0.
Hypothesis Ht : 0 < tol.
Hypothesis Hj : (1 <= j1 < j2)%nat.
Hypothesis Hs : 0 < s.
Hypothesis Hal : 0 < al <= 1.
Hypothesis HC : s = al /\ al < 1 \/ 1 < s /\ al = 1.
Hypothesis HF : forall j, (j1 <= j <= j2)%nat -> decays w v j s.
Hypothesis HL : forall j, (j1 <= j <= j2)%nat -> 0 < high_cov w v j 0 /\ Rabs (log2R (high_cov w v j 0) - (a * INR j + b)) <= eps.
Let L := length (dec_hi w).
Let js := seq j1 (Datatypes.S (j2 - j1)).
Lemma rate : exists K, forall W (P : expectation W) I (idx : I -> Prop) (z : I -> W -> R) (S : W -> list (list R)) N nrep amp ja jb weighted r qs wd,
  (1 <= N)%nat -> white P idx z -> gaussian4 P idx z -> 0 < amp -> (forall o, length (S o) = nrep /\ Forall (fun s => length s = N) (S o)) -> (r < nrep)%nat -> In 2 qs ->
  (forall i, (i < N)%nat -> combination idx z (fun o => nth i (nth r (S o) []) 0)) ->
  (forall (T : W -> wtransform) (ws : W -> list warning), (forall o, wavelet_analysis (map fin (S o)) PNone w ja jb gam norm weighted = Ok (T o, ws o)) ->
     forall j, (1 <= j)%nat -> (forall o, In (Z.of_nat j) (scales (wt_coefs (T o)))) -> forall k k', inner N L j k -> inner N L j k' ->
     E P (fun o => number (entry (wt_coefs (T o)) (Z.of_nat j) r k) * number (entry (wt_coefs (T o)) (Z.of_nat j) r k')) = factor norm gam j ^ 2 * (amp * high_cov w v j (Z.of_nat k - Z.of_nat k'))) ->
  prob_at_most P (fun o => ~ exists t ws s h,
      wavelet_analysis (map fin (S o)) PNone w ja jb gam norm weighted = Ok (t, ws) /\
      StructureFunction (wt_coefs t) (QArr qs) (Z.of_nat j1) (Z.of_nat j2) wd = Ok s /\
      nth r (sf_H s) NaN = Fin h /\ Rabs (h - ((a + 1) / 2 - 1 / norm)) <= eps + tol) (K * Rpower (INR N) (- al)).
Proof using All.
  assert (IL : forall j, In j js <-> (j1 <= j <= j2)%nat) by (intros j; unfold js; rewrite in_seq; lia).
  assert (L1 : (1 <= L)%nat) by (unfold L; destruct Hw as [A _]; clear - A; lia).
  assert (L2 : 0 < ln 2) by (assert (K := ln_lt_2); lra).
  set (delta := Rmin (1 / 2) (tol * ln 2 / 2)).
  assert (Hd0 : 0 < delta). { apply Rmin_pos; [lra|]. apply Rmult_lt_0_compat; [|lra]. apply Rmult_lt_0_compat; lra. }
  assert (Hd1 : delta <= 1 / 2) by apply Rmin_l. assert (Hd2 : 2 * delta / ln 2 <= tol).
  { assert (Q : delta <= tol * ln 2 / 2) by apply Rmin_r. apply Rmult_le_reg_r with (ln 2); [trivial|]. unfold Rdiv at 1. rewrite Rmult_assoc, Rinv_l by lra. lra. }
  destruct (power_sum s al Hs Hal HC) as (K1 & K10 & HK1).
  (* one constant for all the scales: a bound of the sum of the squared covariances *)
  assert (HB : exists C0, 0 <= C0 /\ forall j, In j js -> forall N k l, (1 <= N)%nat -> NoDup l -> (forall k', In k' l -> (apart k k' < N)%nat) ->
    Rsum (map (fun k' => high_cov w v j (Z.of_nat k - Z.of_nat k') ^ 2) l) <= C0 * Rpower (INR N) (1 - al)).
  { apply (list_bound (fun j C0 => forall N k l, (1 <= N)%nat -> NoDup l -> (forall k', In k' l -> (apart k k' < N)%nat) ->
      Rsum (map (fun k' => high_cov w v j (Z.of_nat k - Z.of_nat k') ^ 2) l) <= C0 * Rpower (INR N) (1 - al)) js).
    - intros j C C' HCC H N k l H1 ND HK. eapply Rle_trans; [exact (H N k l H1 ND HK)|]. apply Rmult_le_compat_r; [left; apply exp_pos|exact HCC].
    - intros j Hjl. apply IL in Hjl. destruct (HF j Hjl) as (A & L0 & A0 & HA). exists (2 * (INR (Datatypes.S L0) * A + A * K1)). intros N k l H1 ND HK.
      eapply Rle_trans; [apply (tsum_le _ (fun k' => decay A s L0 (apart k k'))); intros k' _; apply HA|]. rewrite Rmult_assoc.
      apply (apart_list (decay A s L0) N); trivial; [intros i; now apply decay_nonneg|]. apply decay_sum; trivial; lra. }
  destruct HB as (C0 & C00 & HB).
  set (kj := fun j => 2 * C0 * (2 ^ j * (INR L + 3)) / (delta * high_cov w v j 0) ^ 2).
  set (K2 := 2 ^ j2 * (INR L + 3) * 2). assert (LP : 0 <= INR L) by apply pos_INR. assert (J2 : 1 <= 2 ^ j2) by (apply pow_R1_Rle; lra). assert (K20 : 1 <= K2) by (unfold K2; nra).
  exists (Rmax (Rpower K2 al) (Rsum (map kj js))). intros W P I idx z S N nrep amp ja jb wd0 r qs wd N1 Hwh Hga amp0 HS Hr H2 Hlin HM2.
  assert (NP : 1 <= INR N) by (now apply (le_INR 1)). assert (PN : 0 < Rpower (INR N) (- al)) by apply exp_pos.
  assert (X1 := Rmax_l (Rpower K2 al) (Rsum (map kj js))). assert (X2 := Rmax_r (Rpower K2 al) (Rsum (map kj js))).
  destruct (le_lt_dec 3 (inner_count N L j2)) as [C3|C3].
  2:{ apply prob_one. apply Rle_trans with (Rpower K2 al * Rpower (INR N) (- al)); [|apply Rmult_le_compat_r; lra].
      assert (NK : INR N <= K2).
      { destruct (le_lt_dec 1 (inner_count N L j2)) as [c1|c1].
        - assert (Q := inner_count_rate L j2 N L1 ltac:(lia) c1). assert (c2 : INR (inner_count N L j2) <= 2) by (change 2 with (INR 2); apply le_INR; lia). unfold K2. eapply Rle_trans; [exact Q|]. apply Rmult_le_compat_l; [|exact c2]. apply Rmult_le_pos; lra.
        - assert (G : (N < 2 ^ (j2 - 1) * (2 * 1 + 2 * L + 2))%nat) by (destruct (le_lt_dec (2 ^ (j2 - 1) * (2 * 1 + 2 * L + 2)) N) as [G|G]; [exfalso; assert (X := inner_count_big 1 L j2 L1 ltac:(lia) N G); lia|exact G]).
          replace (2 ^ (j2 - 1) * (2 * 1 + 2 * L + 2))%nat with (2 ^ j2 * (L + 2))%nat in G by (clear - Hj; destruct j2 as [|j]; [lia|]; cbn [Nat.sub Nat.pow]; rewrite Nat.sub_0_r; ring).
          apply lt_INR in G. rewrite mult_INR, plus_INR, pow_INR in G. change (INR 2) with 2 in G. unfold K2. nra. }
      apply Rle_trans with (Rpower (INR N) al * Rpower (INR N) (- al)).
      - rewrite <- Rpower_plus. replace (al + - al) with 0 by ring. rewrite Rpower_O by lra. lra.
      - apply Rmult_le_compat_r; [lra|]. apply Rle_Rpower_l; lra. }
  assert (CJ : forall j, (j1 <= j <= j2)%nat -> (3 <= inner_count N L j)%nat) by (intros j Hjj; assert (Q := inner_count_decr N L j j2 ltac:(lia)); lia).
  assert (NE : forall o, S o <> []) by (intros o Z; destruct (HS o) as [A _]; rewrite Z in A; cbn in A; lia).
  set (T o := transform_of (S o) w ja jb gam norm wd0). set (ws o := warnings_of (S o) w ja jb gam norm wd0).
  assert (TE : forall o, wavelet_analysis (map fin (S o)) PNone w ja jb gam norm wd0 = Ok (T o, ws o)) by (intros o; exact (transform_ok (S o) N w ja jb gam norm wd0 (NE o) N1 (proj2 (HS o)) Hw Hn)).
  assert (SC : forall o j, (j1 <= j <= j2)%nat -> In (Z.of_nat j) (scales (wt_coefs (T o)))).
  { intros o j Hjj. apply (C99_scales (S o) N w ja jb gam norm wd0 _ _ (NE o) N1 (proj2 (HS o)) Hw Hn (TE o)). split; [lia|]. specialize (CJ j Hjj). unfold L in CJ. lia. }
  specialize (HM2 T ws TE). set (f j := factor norm gam j ^ 2). assert (F0 : forall j, 0 < f j) by (intros j; apply pow_lt, exp_pos).
  set (mu j := f j * amp * high_cov w v j 0).
  assert (MU0 : forall j, (j1 <= j <= j2)%nat -> 0 < mu j) by (intros j Hjj; destruct (HL j Hjj) as [V0 _]; unfold mu; apply Rmult_lt_0_compat; [apply Rmult_lt_0_compat; [apply F0|trivial]|trivial]).
  eapply prob_weaken; [| |apply (estimate_prob P S N nrep w PNone ja jb gam norm wd0 T ws r j1 j2 qs wd (a + 1 - 2 / norm + 2 * gam) (log2R amp + b) eps tol delta mu (fun j => 2 * ((f j * amp) ^ 2 * (C0 * Rpower (INR N) (1 - al))) / INR (inner_count N L j)))]; trivial.
  - intros o NO (st & h & E1 & E2 & E3). apply NO. exists (T o), (ws o), st, h. split; [apply TE|]. split; [exact E1|]. split; [exact E2|]. replace ((a + 1) / 2 - 1 / norm) with ((a + 1 - 2 / norm + 2 * gam) / 2 - gam) by (field; trivial). lra.
  - fold js. apply Rle_trans with (Rsum (map kj js) * Rpower (INR N) (- al)); [|apply Rmult_le_compat_r; lra]. rewrite (Rmult_comm (Rsum (map kj js))), <- Rsum_scal_map. apply tsum_le. intros j Hjl. apply IL in Hjl.
    assert (CR := inner_count_rate L j N L1 ltac:(lia) ltac:(specialize (CJ j Hjl); lia)). destruct (HL j Hjl) as [V0 _]. assert (Fj := F0 j).
    assert (CP : 0 < INR (inner_count N L j)) by (apply lt_0_INR; specialize (CJ j Hjl); lia). set (cnt := INR (inner_count N L j)) in *.
    rewrite Rpower_minus_one by lra. unfold kj, mu. set (h := high_cov w v j 0) in *. set (pw := Rpower (INR N) (- al)) in *. set (fj := f j) in *.
    replace (2 * ((fj * amp) ^ 2 * (C0 * (INR N * pw))) / cnt / (delta * (fj * amp * h)) ^ 2) with (2 * C0 * pw / (delta * h) ^ 2 * (INR N / cnt)) by (field; repeat split; lra).
    replace (pw * (2 * C0 * (2 ^ j * (INR L + 3)) / (delta * h) ^ 2)) with (2 * C0 * pw / (delta * h) ^ 2 * (2 ^ j * (INR L + 3))) by (unfold Rdiv; ring).
    apply Rmult_le_compat_l.
    + apply Rmult_le_pos; [apply Rmult_le_pos; lra|]. left. apply Rinv_0_lt_compat, pow_lt. now apply Rmult_lt_0_compat.
    + apply Rmult_le_reg_r with cnt; [trivial|]. unfold Rdiv. rewrite Rmult_assoc, Rinv_l by lra. lra.
  - exact Logic.I.
  - intros o. apply SC. lia.
  - now split.
  - intros j Hjj power. fold L. split; [specialize (CJ j Hjj); lia|]. split; [now apply MU0|]. destruct (HL j Hjj) as [V0 VL]. split.
    + eapply Rle_trans; [|exact VL]. right. f_equal.
      assert (EL : ln (mu j) = 2 * (INR j * (1 / 2 - 1 / norm + gam) * ln 2) + ln amp + ln (high_cov w v j 0)).
      { unfold mu. rewrite ln_mult by (trivial; apply Rmult_lt_0_compat; trivial). rewrite ln_mult by trivial. f_equal. f_equal. unfold f, factor. rewrite ln_pow by apply exp_pos. unfold Rpower. rewrite ln_exp. reflexivity. }
      unfold log2R. rewrite EL. field. repeat split; trivial; lra.
    + assert (J1 : (1 <= j)%nat) by lia. set (cnt := inner_count N L j). assert (CN : (3 <= cnt)%nat) by (apply CJ; trivial). assert (cnt0 : 0 < INR cnt) by (apply lt_0_INR; lia).
      assert (HI : forall o, In (Z.of_nat j) (scales (wt_coefs (T o)))) by (intros o; now apply SC). specialize (HM2 j J1 HI).
      assert (B := mean_fluct2 P idx z S N nrep w PNone ja jb gam norm wd0 T ws r j HS Hw Hn Logic.I TE Hr J1 HI Hlin Hwh Hga ltac:(fold L cnt; lia) ((f j * amp) ^ 2 * (C0 * Rpower (INR N) (1 - al)))).
      cbv beta zeta in B. destruct B as (B1 & B2 & B3).
      { fold L. intros k IN. set (lst := filter (innerb N L j) (seq 0 (N / 2 ^ j))).
        rewrite (Rsum_map_ext _ (fun k' => (f j * amp) ^ 2 * high_cov w v j (Z.of_nat k - Z.of_nat k') ^ 2)).
        - rewrite Rsum_scal_map. apply Rmult_le_compat_l; [apply pow2_ge_0|]. apply HB; trivial; [now apply IL|apply NoDup_filter, seq_NoDup|].
          intros k' Hk'. apply filter_In in Hk' as [_ Hk']. unfold innerb in Hk'. destruct (inner_dec N L j k') as [IN'|]; [|discriminate].
          assert (BD : forall i, inner N L j i -> (i < N)%nat). { intros i [_ Hi]. assert (D : (N / 2 ^ (j - 1) <= N)%nat) by (apply Nat.div_le_upper_bound; [apply Nat.pow_nonzero; lia|]; assert (2 ^ (j - 1) <> 0)%nat by (apply Nat.pow_nonzero; lia); nia). lia. }
          apply BD in IN, IN'. unfold apart. lia.
        - intros k' Hk'. apply filter_In in Hk' as [_ Hk']. unfold innerb in Hk'. destruct (inner_dec N L j k') as [IN'|]; [|discriminate]. rewrite (HM2 k k' IN IN'). unfold f. ring. }
      assert (G : forall o, mean_sq (wt_coefs (T o)) (Z.of_nat j) r = power o) by (intros o; unfold power; now rewrite power_mean_sq).
      assert (EM : E P (fun o => mean_sq (wt_coefs (T o)) (Z.of_nat j) r) = mu j).
      { destruct (mean_power P S N nrep w PNone ja jb gam norm wd0 T ws HS Hw Hn Logic.I TE j r (mu j) J1 HI Hr ltac:(fold L cnt; lia)) as [_ Q]; [|exact Q].
        intros k IN. split; [|fold L in IN; rewrite (HM2 k k IN IN), Z.sub_diag; unfold mu, f; ring].
        apply (comb_int2 idx z P Hwh); apply (coef_comb P idx z S N nrep w PNone ja jb gam norm wd0 T ws r j HS Hw Hn Logic.I TE Hr J1 HI Hlin). }
      rewrite EM in B2, B3. split; [apply (int_ext W P _ _ (fun o => f_equal (fun y => (y - mu j) ^ 2) (G o)) B2)|].
      rewrite <- (E_ext W P _ _ (fun o => f_equal (fun y => (y - mu j) ^ 2) (G o))). exact B3.
Qed.
End Process.

(** ** C112: rates, for any wavelet *)
(** fgn and a wavelet with a vanishing moment: the probability of missing by more than eps + tol is at most K / N, whatever H *)
Theorem C112_fgn_line_rate :
  forall H w M gam norm a b eps tol (j1 j2 : nat), 0 < H < 1 -> good_wavelet w -> vanishing_moments (dec_hi w) M -> (1 <= M)%nat -> norm <> 0 -> 0 < tol -> (1 <= j1 < j2)%nat ->
  (forall j, (j1 <= j <= j2)%nat -> 0 < high_cov w (unit_fgn H) j 0 /\ Rabs (log2R (high_cov w (unit_fgn H) j 0) - (a * INR j + b)) <= eps) ->
  exists K, forall W (P : expectation W) sh N sigma dt d z0 (drawn : W -> noise) ja jb weighted r qs wd,
  shape_N sh = N -> (2 <= N)%nat -> sampling_step dt N d -> sigma <> 0 -> gaussian_complex P (shape_R sh) (2 * N - 2) (fun w => nz (drawn w)) -> (r < shape_R sh)%nat -> In 2 qs ->
  prob_at_most P (fun o => ~ exists X t ws s h,
      fgn sh H sigma dt "cme" z0 (drawn o) = Ok (presented sh X, false) /\ shaped (shape_R sh) N X /\
      wavelet_analysis (map fin X) PNone w ja jb gam norm weighted = Ok (t, ws) /\
      StructureFunction (wt_coefs t) (QArr qs) (Z.of_nat j1) (Z.of_nat j2) wd = Ok s /\
      nth r (sf_H s) NaN = Fin h /\ Rabs (h - ((a + 1) / 2 - 1 / norm)) <= eps + tol) (K / INR N).
Proof.
  intros H w M gam norm a b eps tol j1 j2 HH Hw HM M1 Hn Ht Hj HL. assert (MR : 1 <= INR M) by (now apply (le_INR 1)).
  destruct (rate w (unit_fgn H) gam norm a b eps tol 2 1 j1 j2 Hw Hn Ht Hj ltac:(lra) ltac:(lra) ltac:(right; lra) (fun j Hjj => unit_fgn_decays H w M j 2 HH Hw HM ltac:(lia) ltac:(lra)) HL) as [K HK].
  exists K. intros W P sh N sigma dt d z0 drawn ja jb wd0 r qs wd EN HN Hd Hs [HZ HG] Hr H2.
  assert (d0 := proj2 (step_ok dt N d ltac:(lia) Hd)). assert (NP : 0 < INR N) by (apply lt_0_INR; lia).
  assert (a0 : 0 < sigma ^ 2 * Rpower d (2 * H)) by (apply Rmult_lt_0_compat; [rewrite <- Rsqr_pow2; now apply Rsqr_pos_lt|apply exp_pos]).
  destruct (fgn_stationary P sh N H sigma dt d z0 drawn EN ltac:(lia) Hd ltac:(lra) HZ) as (X & EX & HS & HX).
  eapply prob_weaken; [| |apply (HK W P _ _ _ X N (shape_R sh) (sigma ^ 2 * Rpower d (2 * H)) ja jb wd0 r qs wd ltac:(lia) (proj2 HZ) HG a0 HS Hr H2)].
  - intros o NO (t & ws & s & h & Q). apply NO. exists (X o), t, ws, s, h. split; [apply EX|]. split; [apply HS|exact Q].
  - rewrite Rpower_Ropp, Rpower_1 by trivial. apply Rle_refl.
  - intros i Hi. exact (fgn_linear sh N H sigma dt d z0 drawn X EN ltac:(lia) Hd ltac:(lra) (proj1 HZ) EX HS r i Hr Hi).
  - intros T ws HT j J1 HI k k' IN IN'. destruct (moments_2 P X N (shape_R sh) w PNone ja jb gam norm wd0 T ws HS Hw Hn Logic.I HT r _ j k k' (HX r Hr) J1 HI Hr IN IN') as [_ ->]. f_equal.
    rewrite <- high_cov_scal. apply high_cov_ext'. intros y. now apply fgn_scale.
Qed.
Print Assumptions C112_fgn_line_rate.
(** fbm and a wavelet with M vanishing moments: at most K N^(-al), for every al up to 1 and up to 4 M - 4 H: 1 / N as soon as M >= 2, or H < 3/4 *)
Theorem C112_fbm_line_rate :
  forall H w M gam norm a b eps tol al (j1 j2 : nat), 0 < H < 1 -> good_wavelet w -> vanishing_moments (dec_hi w) M -> (1 <= M)%nat -> norm <> 0 -> 0 < tol -> (1 <= j1 < j2)%nat ->
  0 < al <= 1 -> al <= 4 * INR M - 4 * H -> (M = 1%nat -> H = 3 / 4 -> al < 1) ->
  (forall j, (j1 <= j <= j2)%nat -> 0 < high_cov w (unit_fbm H) j 0 /\ Rabs (log2R (high_cov w (unit_fbm H) j 0) - (a * INR j + b)) <= eps) ->
  exists K, forall W (P : expectation W) sh N sigma dt d z0 (drawn : W -> noise) ja jb weighted r qs wd,
  shape_N sh = N -> (2 <= N)%nat -> sampling_step dt N d -> sigma <> 0 -> gaussian_complex P (shape_R sh) (2 * N - 2) (fun w => nz (drawn w)) -> (r < shape_R sh)%nat -> In 2 qs ->
  prob_at_most P (fun o => ~ exists B t ws s h,
      fbm sh H sigma dt "cme" z0 (drawn o) = Ok (presented sh B, false) /\ shaped (shape_R sh) N B /\
      wavelet_analysis (map fin B) PNone w ja jb gam norm weighted = Ok (t, ws) /\
      StructureFunction (wt_coefs t) (QArr qs) (Z.of_nat j1) (Z.of_nat j2) wd = Ok s /\
      nth r (sf_H s) NaN = Fin h /\ Rabs (h - ((a + 1) / 2 - 1 / norm)) <= eps + tol) (K * Rpower (INR N) (- al)).
Proof.
  intros H w M gam norm a b eps tol al j1 j2 HH Hw HM M1 Hn Ht Hj Hal Ha H3 HL. assert (MR : 1 <= INR M) by (now apply (le_INR 1)).
  assert (XS : exists s, 0 < s /\ s <= 4 * INR M - 4 * H /\ (s = al /\ al < 1 \/ 1 < s /\ al = 1)).
  { destruct (Rlt_le_dec al 1) as [A1|A1]; [exists al; split; [lra|]; split; [lra|left; split; [reflexivity|exact A1]]|]. exists (4 * INR M - 4 * H). split; [lra|]. split; [lra|]. right. split; [|lra].
    destruct (Nat.eq_dec M 1) as [E1|N1].
    - rewrite E1 in *. change (INR 1) with 1 in *. destruct (Req_dec H (3 / 4)) as [E|E]; [specialize (H3 eq_refl E); lra|lra].
    - assert (2 <= INR M) by (apply (le_INR 2); lia). lra. }
  destruct XS as (s & S0 & S1 & SC).
  destruct (rate w (unit_fbm H) gam norm a b eps tol s al j1 j2 Hw Hn Ht Hj S0 Hal SC (fun j Hjj => unit_fbm_decays H w M j s HH Hw HM M1 ltac:(lia) S1) HL) as [K HK].
  exists K. intros W P sh N sigma dt d z0 drawn ja jb wd0 r qs wd EN HN Hd Hs [HZ HG] Hr H2.
  assert (d0 := proj2 (step_ok dt N d ltac:(lia) Hd)).
  assert (a0 : 0 < sigma ^ 2 * Rpower d (2 * H)) by (apply Rmult_lt_0_compat; [rewrite <- Rsqr_pow2; now apply Rsqr_pos_lt|apply exp_pos]).
  destruct (fbm_facts P sh N H sigma dt d z0 drawn EN ltac:(lia) Hd ltac:(lra) HZ) as (B & EB & HS & HX & Lin).
  eapply prob_weaken; [|apply Rle_refl|apply (HK W P _ _ _ B N (shape_R sh) (sigma ^ 2 * Rpower d (2 * H)) ja jb wd0 r qs wd ltac:(lia) (proj2 HZ) HG a0 HS Hr H2)].
  - intros o NO (t & ws & s' & h & Q). apply NO. exists (B o), t, ws, s', h. split; [apply EB|]. split; [apply HS|exact Q].
  - intros i Hi. exact (Lin r i Hr Hi).
  - intros T ws HT j J1 HI k k' IN IN'.
    destruct (C108_increments P B N (shape_R sh) w PNone ja jb gam norm wd0 T ws r _ _ HS Hw (vanish_ignores w M ltac:(lia) HM) Hn Logic.I HT Hr (HX r Hr) j J1 HI) as [Q1 _].
    destruct (Q1 k k' IN IN') as (_ & _ & E0 & _ & EC). unfold Cov in EC. rewrite E0 in EC.
    rewrite (high_cov_ext' w _ (fun y => sigma ^ 2 * Rpower d (2 * H) * unit_fbm H y)), high_cov_scal in EC by (intros y; now apply fbm_scale). lra.
Qed.
Print Assumptions C112_fbm_line_rate.
(** fbm and the Haar wavelet *)
Theorem C112_fbm_rate :
  forall H norm eps, 0 < H < 1 -> norm <> 0 -> 0 < eps ->
  exists j0, forall gam al (j1 j2 : nat), (j0 <= j1 < j2)%nat -> 0 < al <= 1 -> al <= 4 - 4 * H -> (H = 3 / 4 -> al < 1) ->
  exists K, forall W (P : expectation W) sh N sigma dt d z0 (drawn : W -> noise) ja jb weighted r qs wd,
  shape_N sh = N -> (2 <= N)%nat -> sampling_step dt N d -> sigma <> 0 -> gaussian_complex P (shape_R sh) (2 * N - 2) (fun w => nz (drawn w)) -> (r < shape_R sh)%nat -> In 2 qs ->
  prob_at_most P (fun o => ~ exists B t ws s h,
      fbm sh H sigma dt "cme" z0 (drawn o) = Ok (presented sh B, false) /\ shaped (shape_R sh) N B /\
      wavelet_analysis (map fin B) PNone haar1 ja jb gam norm weighted = Ok (t, ws) /\
      StructureFunction (wt_coefs t) (QArr qs) (Z.of_nat j1) (Z.of_nat j2) wd = Ok s /\
      nth r (sf_H s) NaN = Fin h /\ Rabs (h - (H + 1 - 1 / norm)) <= eps) (K * Rpower (INR N) (- al)).
Proof.
  intros H norm eps HH Hn He. destruct (var_line H 1 1 ltac:(lra) ltac:(lra) ltac:(lra) (eps / 2) ltac:(lra)) as [j0 HV]. exists (j0 + 1)%nat. intros gam al j1 j2 Hj Hal Ha H3.
  match type of HV with forall j, _ -> _ /\ Rabs (_ - (_ + ?b)) <= _ => destruct (C112_fbm_line_rate H haar1 1 gam norm (2 * H + 1) b (eps / 2) (eps / 2) al j1 j2 HH good_haar1 vanish_haar1 (le_n 1) Hn ltac:(lra) ltac:(lia) Hal ltac:(change (INR 1) with 1; lra) (fun _ => H3)) as [K HK] end.
  - intros j Hjj. destruct (HV j ltac:(lia)) as [A B].
    assert (X : forall z, high_cov haar1 (fun z => - (1 ^ 2 / 2 * rpow (Rabs (1 * IZR z)) (2 * H))) j z = high_cov haar1 (unit_fbm H) j z).
    { intros z. apply high_cov_ext'. intros y. unfold unit_fbm. rewrite Rmult_1_l. field. }
    rewrite X in A, B. split; [exact A|exact B].
  - exists K. intros W P sh N sigma dt d z0 drawn ja jb wd0 r qs wd EN HN Hd Hs HG Hr H2.
    eapply prob_weaken; [|apply Rle_refl|apply (HK W P sh N sigma dt d z0 drawn ja jb wd0 r qs wd EN HN Hd Hs HG Hr H2)].
    intros o NO (B & t & ws & s & h & E1 & ES & E2 & E3 & E4 & E5). apply NO. exists B, t, ws, s, h. split; [exact E1|]. split; [exact ES|]. split; [exact E2|]. split; [exact E3|]. split; [exact E4|].
    replace (H + 1 - 1 / norm) with ((2 * H + 1 + 1) / 2 - 1 / norm) by (field; trivial). lra.
Qed.
Print Assumptions C112_fbm_rate.

(** Non-vacuity: fbm with H = 1/4 at the rate 1 / N, with H = 7/8 at the rate N^(-1/2): all long enough simulations have draws that give the exponent within the tolerance *)
Theorem C112_case_rate H al eps : (H = 1 / 4 /\ al = 1 \/ H = 7 / 8 /\ al = 1 / 2) -> 0 < eps -> exists j0, forall j1 j2 : nat, (j0 <= j1 < j2)%nat -> exists N0, forall N, (N0 <= N)%nat ->
  exists (drawn : noise) X t ws s h,
      fbm (SPair N 2) H 3 (Some (1 / 10)) "cme" None drawn = Ok (presented (SPair N 2) X, false) /\
      wavelet_analysis (map fin X) PNone haar1 1 None 0 1 true = Ok (t, ws) /\
      StructureFunction (wt_coefs t) (QArr [1; 2]) (Z.of_nat j1) (Z.of_nat j2) false = Ok s /\
      nth 1 (sf_H s) NaN = Fin h /\ Rabs (h - H) <= eps.
Proof.
  intros HC He. assert (HH : 0 < H < 1) by lra. destruct (C112_fbm_rate H 1 eps HH ltac:(lra) He) as [j0 HJ]. exists j0. intros j1 j2 Hj.
  destruct (HJ 0 al j1 j2 Hj ltac:(lra) ltac:(lra) ltac:(lra)) as [K HK]. assert (A0 : 0 < al) by lra.
  set (X0 := Rmax 2 (Rpower (Rmax K 1 + 1) (/ al))). destruct (archimed X0) as [AR _]. assert (M1 := Rmax_l 2 (Rpower (Rmax K 1 + 1) (/ al))). assert (M2 := Rmax_r 2 (Rpower (Rmax K 1 + 1) (/ al))). fold X0 in M1, M2.
  exists (Z.to_nat (up X0)). intros N HN. apply NNPP. intros HA. apply le_INR in HN. rewrite INR_IZR_INZ, Z2Nat.id in HN by (apply le_IZR; lra).
  assert (N2 : (2 <= N)%nat) by (apply INR_le; cbn [INR]; lra). assert (K1 := Rmax_l K 1). assert (K2 := Rmax_r K 1).
  destruct (C112_noise_exists 2 (2 * N - 2)) as (W & P & drawn & HP & HG).
  assert (St : sampling_step (Some (1 / 10)) N (1 / 10)) by (left; split; [reflexivity|lra]).
  assert (Q := HK W P (SPair N 2) N 3 (Some (1 / 10)) (1 / 10) None drawn 1%Z None true 1%nat [1; 2] false eq_refl N2 St ltac:(lra) HG (le_n 2) (or_intror (or_introl eq_refl))).
  apply (not_everywhere P _ _ HP Q).
  - assert (BG : Rmax K 1 + 1 <= Rpower (INR N) al).
    { replace (Rmax K 1 + 1) with (Rpower (Rpower (Rmax K 1 + 1) (/ al)) al) by (rewrite Rpower_mult, Rinv_l, Rpower_1 by lra; reflexivity). apply Rle_Rpower_l; [lra|]. split; [apply exp_pos|lra]. }
    rewrite Rpower_Ropp. apply Rmult_lt_reg_r with (Rpower (INR N) al); [lra|]. rewrite Rmult_assoc, Rinv_l by lra. lra.
  - intros o (X & t & ws & s & h & E1 & _ & E2 & E3 & E4 & E5). apply HA. exists (drawn o), X, t, ws, s, h. repeat split; trivial. replace H with (H + 1 - 1 / 1) at 1 by field. exact E5.
Qed.
Print Assumptions C112_case_rate.
