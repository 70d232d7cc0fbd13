(** * C112, continued: consistency for any wavelet *)
From Coq Require Import Reals List ZArith Bool Lra Lia String FunctionalExtensionality.
From Verif Require Import XReal PyBase ModelUtils ModelMRQ ModelStructure ModelWavelet ModelSimul Spec SpecMRQ SpecSimul LXReal LUtils LBase LFilter LTransform LPattern LWave LPoly LCone LMoment LWaveEst LDft LSimul LEst LReg
  PropsEstimators PropsWavelet PropsMissing PropsSlope PropsWhite PropsWhitePower PropsWhiteCase PropsSimul PropsWhiteFbm PropsRounded LTaps PropsDecorr PropsShortRange PropsHaarFgn PropsHaarFbm LWick PropsFluct PropsConsist.
Import ListNotations.
Open Scope R_scope.
Local Notation length := List.length.
Local Notation entry := SpecMRQ.entry.

(** ** Covariances that vanish at infinity *)
Definition fades (w : wavelet) (v : Z -> R) (j : nat) : Prop :=
  forall eta, 0 < eta -> exists A L0, 0 <= A /\ forall z, high_cov w v j z ^ 2 <= if le_dec (Z.to_nat (Z.abs z)) L0 then A else eta.
Section Fade.
Variables (w : wavelet) (b : taps) (n0 M : nat) (rho K al : R) (phi : R -> R) (v : Z -> R) (j : nat).
Hypothesis Hj : (1 <= j)%nat.
Hypothesis Hw : good_wavelet w.
Hypothesis V : vanishing_moments (dec_hi w) M.
Hypothesis HA : ann b n0.
Hypothesis HB : between (- rho) rho b.
Hypothesis Hrho : 0 <= rho <= 1.
Hypothesis Hal : 0 <= al < 2.
Hypothesis Hn : (2 <= 2 * M + n0)%nat.
Hypothesis HP : forall t, 0 < t -> phi t = K * Rpower t al.
Hypothesis HV : forall z, v z = ev b phi (IZR z).
Hypothesis Heven : forall z, v (- z)%Z = v z.
Hypothesis Hbd : forall X, exists A, forall t, Rabs t <= X -> Rabs (phi t) <= A.
Lemma fade : fades w v j.
Proof using All.
  set (L := length (dec_hi w)). assert (L1 : 1 <= INR L) by (apply (le_INR 1); unfold L; destruct Hw as [A _]; clear - A; lia).
  assert (J1 : 1 <= 2 ^ j) by (apply pow_R1_Rle; lra).
  assert (SP : 0 <= spread w j /\ rho + spread w j <= 2 ^ j * INR L) by (unfold spread; fold L; split; [apply Rmult_le_pos; lra|nra]). destruct SP as [SP SL].
  set (n := (2 * M + n0)%nat) in *. assert (N2 : 2 <= INR n) by (apply (le_INR 2); exact Hn).
  set (B := Rabs K * (2 / INR n * (gain w j * tnorm b) * (rho + spread w j) ^ n)).
  assert (Bp : 0 <= B).
  { unfold B. assert (T := tnorm_nonneg b). assert (G := gain_nonneg w j).
    apply Rmult_le_pos; [apply Rabs_pos|]. apply Rmult_le_pos; [|apply pow_le; lra]. apply Rmult_le_pos; [|now apply Rmult_le_pos].
    apply Rmult_le_pos; [lra|]. left; apply Rinv_0_lt_compat; lra. }
  intros eta He.
  (* distance beyond which the bound is small *)
  set (e := INR n - al). assert (e0 : 0 < e) by (unfold e; lra).
  set (th := sqrt eta / (B + 1)). assert (th0 : 0 < th) by (apply Rdiv_lt_0_compat; [now apply sqrt_lt_R0|lra]).
  set (X0 := Rmax 1 (Rpower th (- / e))).
  assert (FAR : forall u, X0 <= u -> (B * Rpower u (al - INR n)) ^ 2 <= eta).
  { intros u Hu. assert (M1 := Rmax_l 1 (Rpower th (- / e))). assert (M2 := Rmax_r 1 (Rpower th (- / e))). fold X0 in M1, M2.
    assert (Q : Rpower u (al - INR n) <= th).
    { replace (al - INR n) with (- e) by (unfold e; ring). eapply Rle_trans; [apply (Rpower_antitone (Rpower th (- / e)) u); [split; [apply exp_pos|lra]|lra]|].
      rewrite Rpower_mult. replace (- / e * - e) with 1 by (field; lra). rewrite Rpower_1 by trivial. lra. }
    assert (0 < Rpower u (al - INR n)) by apply exp_pos. replace eta with ((sqrt eta) ^ 2) by (rewrite <- Rsqr_pow2; apply Rsqr_sqrt; lra).
    apply pow_incr. split; [apply Rmult_le_pos; lra|]. apply Rle_trans with (B * th); [now apply Rmult_le_compat_l|]. unfold th.
    replace (B * (sqrt eta / (B + 1))) with (sqrt eta * (B / (B + 1))) by (field; lra). rewrite <- (Rmult_1_r (sqrt eta)) at 2. apply Rmult_le_compat_l; [apply sqrt_pos|].
    apply Rmult_le_reg_r with (B + 1); [lra|]. unfold Rdiv. rewrite Rmult_assoc, Rinv_l by lra. lra. }
  destruct (archimed (INR L + X0)) as [AR _]. set (L0 := Z.to_nat (up (INR L + X0))).
  assert (M1 := Rmax_l 1 (Rpower th (- / e))). fold X0 in M1.
  assert (L0b : INR L + X0 < INR L0). { rewrite (INR_IZR_INZ L0). unfold L0. rewrite Z2Nat.id; [lra|apply le_IZR; lra]. }
  destruct (Hbd (2 ^ j * INR L0 + 2 ^ j * INR L)) as [A0 HA0].
  assert (A0p : 0 <= A0). { eapply Rle_trans; [apply (Rabs_pos (phi 0))|]. apply HA0. rewrite Rabs_R0. nra. }
  set (A := tnorm (htaps w b j) * A0). assert (Ap : 0 <= A) by (apply Rmult_le_pos; [apply tnorm_nonneg|trivial]).
  exists (A ^ 2), L0. split; [apply pow2_ge_0|].
  assert (PT0 : forall i, high_cov w v j (Z.of_nat i) ^ 2 <= if le_dec i L0 then A ^ 2 else eta).
  { intros i. destruct (le_dec i L0) as [I|I].
    - rewrite <- pow2_abs. apply pow_incr. split; [apply Rabs_pos|]. replace (high_cov w v j (Z.of_nat i)) with (high_cov w (fun z => ev b phi (IZR z)) j (Z.of_nat i)) by (apply high_cov_ext'; intros z; now rewrite HV).
      rewrite high_cov_taps by trivial. apply ev_le; [trivial|]. intros p Hp. apply HA0.
      assert (E : length (dec_lo w) = length (dec_hi w)) by apply Hw. assert (Q := htaps_between w b rho j Hj E HB p Hp).
      rewrite <- INR_IZR_INZ. assert (INR i <= INR L0) by (now apply le_INR). assert (I0 := pos_INR i).
      eapply Rle_trans; [apply Rabs_triang|]. rewrite (Rabs_pos_eq (2 ^ j * INR i)) by nra.
      assert (Rabs (snd p) <= rho + spread w j) by (apply Rabs_le; lra). nra.
    - assert (LI : INR L0 <= INR i) by (apply le_INR; lia).
      assert (U : X0 <= 2 ^ j * IZR (Z.of_nat i) - (rho + spread w j)) by (rewrite <- INR_IZR_INZ; nra).
      eapply Rle_trans; [|apply (FAR _ U)]. rewrite <- pow2_abs. apply pow_incr. split; [apply Rabs_pos|].
      eapply Rle_trans; [apply (high_power w b n0 M rho K al phi v j (Z.of_nat i)); trivial; try lra; try lia|]. fold n. unfold B. right. ring. }
  intros z. destruct (Z_le_gt_dec 0 z) as [Z0|Z0].
  - replace (Z.to_nat (Z.abs z)) with (Z.to_nat z) by lia. rewrite <- (Z2Nat.id z) at 1 by trivial. apply PT0.
  - rewrite <- high_cov_even by trivial. replace (- z)%Z with (Z.of_nat (Z.to_nat (Z.abs z))) by lia. apply PT0.
Qed.
End Fade.
Lemma fades_sum w v j A L0 eta : 0 <= A -> 0 <= eta -> (forall z, high_cov w v j z ^ 2 <= if le_dec (Z.to_nat (Z.abs z)) L0 then A else eta) ->
  forall k l, NoDup l -> Rsum (map (fun k' => high_cov w v j (Z.of_nat k - Z.of_nat k') ^ 2) l) <= 2 * (INR (S L0) * A) + INR (length l) * eta.
Proof.
  intros A0 E0 H k l ND. assert (Q := apart_sum (tent A 0 L0) (INR (S L0) * A)).
  assert (T0 : forall i, 0 <= tent A 0 L0 i) by (intros i; unfold tent; destruct (le_dec i L0); unfold Rdiv; lra).
  specialize (Q T0 (fun n => ltac:(assert (K := tent_sum A 0 L0 n A0 (Rle_refl 0)); lra)) k l ND).
  apply Rle_trans with (Rsum (map (fun k' => tent A 0 L0 (apart k k') + eta) l)).
  - apply tsum_le. intros k' _. eapply Rle_trans; [apply H|]. unfold tent, apart. destruct (le_dec _ L0); unfold Rdiv; lra.
  - assert (X : Rsum (map (fun k' => tent A 0 L0 (apart k k') + eta) l) = Rsum (map (fun k' => tent A 0 L0 (apart k k')) l) + INR (length l) * eta).
    { clear. induction l as [|a l IH]; [unfold Rsum; cbn; ring|]. cbn [map length]. change (Rsum (?a :: ?m)) with (a + Rsum m). rewrite IH, S_INR. ring. }
    lra.
Qed.
Lemma unit_fbm_fades H w M j : 0 < H < 1 -> good_wavelet w -> vanishing_moments (dec_hi w) M -> (1 <= M)%nat -> (1 <= j)%nat -> fades w (unit_fbm H) j.
Proof.
  intros HH Hw HM M1 Hj. apply (fade w [(1, 0)] 0 M 0 (- (1 / 2)) (2 * H) (fun t => - (1 / 2 * rpow (Rabs t) (2 * H))) (unit_fbm H) j); trivial.
  - apply ann_0.
  - intros q [<-|[]]. cbn [snd]. lra.
  - lra.
  - lra.
  - lia.
  - intros t Ht. rewrite Rabs_pos_eq by lra. unfold rpow. destruct (Rlt_dec 0 t); [unfold Rpower; ring|lra].
  - intros z. unfold ev, Rsum. cbn [map fold_right fst snd]. rewrite !Rplus_0_r. unfold unit_fbm. ring.
  - intros z. unfold unit_fbm. now rewrite opp_IZR, Rabs_Ropp.
  - intros X. destruct (rpow_bounded 1 (2 * H) (1 / 2) X) as [A HA]; try lra. exists A. intros t Ht. specialize (HA t Ht). rewrite Rmult_1_l in HA. now rewrite Rabs_Ropp.
Qed.
Lemma unit_fgn_fades H w M j : 0 < H < 1 -> good_wavelet w -> vanishing_moments (dec_hi w) M -> (1 <= j)%nat -> fades w (unit_fgn H) j.
Proof.
  intros HH Hw HM Hj. apply (fade w second 2 M 1 (1 / 2) (2 * H) (fun t => 1 / 2 * rpow (Rabs t) (2 * H)) (unit_fgn H) j); trivial.
  - intros [|[|i]] x Hi; [| |lia]; unfold ev, second, Rsum; cbn [map fold_right fst snd pow]; ring.
  - intros q [<-|[<-|[<-|[]]]]; cbn [snd]; lra.
  - lra.
  - lra.
  - lia.
  - intros t Ht. rewrite Rabs_pos_eq by lra. unfold rpow. destruct (Rlt_dec 0 t); [reflexivity|lra].
  - intros z. unfold unit_fgn, ev, second, Rsum. cbn [map fold_right fst snd]. rewrite opp_IZR.
    replace (- IZR z + 1) with (- (IZR z + -1)) by ring. replace (- IZR z + 0) with (- (IZR z + 0)) by ring. replace (- IZR z + -1) with (- (IZR z + 1)) by ring. rewrite !Rabs_Ropp. ring.
  - intros X. destruct (rpow_bounded 1 (2 * H) (1 / 2) X) as [A HA]; try lra. exists A. intros t Ht. specialize (HA t Ht). now rewrite Rmult_1_l in HA.
Qed.

(** ** The number of coefficients grows *)
Lemma inner_count_big c L j : (1 <= L)%nat -> (1 <= j)%nat -> forall N, (2 ^ (j - 1) * (2 * c + 2 * L + 2) <= N)%nat -> (c <= inner_count N L j)%nat.
Proof.
  intros HL Hj N HN. unfold inner_count. assert (P0 : (2 ^ (j - 1) <> 0)%nat) by (apply Nat.pow_nonzero; lia).
  assert (Q : (2 * c + 2 * L + 2 <= N / 2 ^ (j - 1))%nat) by (apply Nat.div_le_lower_bound; trivial). set (q := (N / 2 ^ (j - 1))%nat) in *. clearbody q.
  assert (D1 := Nat.div_mod (q + 1 - L) 2 ltac:(lia)). assert (U1 := Nat.mod_upper_bound (q + 1 - L) 2 ltac:(lia)).
  assert (D2 := Nat.div_mod (L - 1) 2 ltac:(lia)). assert (U2 := Nat.mod_upper_bound (L - 1) 2 ltac:(lia)). lia.
Qed.

(** ** Consistency, for any process whose coefficients have such covariances *)
Section Process.
Variables (w : wavelet) (v : Z -> R) (gam norm a b eps tol q : R) (j1 j2 : nat).
Hypothesis Hw : good_wavelet w.
Hypothesis Hn : norm <> 0.
Hypothesis Ht : 0 < tol.
Hypothesis Hq : 0 < q.
Hypothesis Hj : (1 <= j1 < j2)%nat.
Hypothesis HF : forall j, (j1 <= j <= j2)%nat -> fades w v j.
Hypothesis HL : forall j, (j1 <= j <= j2)%nat -> 0 < high_cov w v j 0 /\ Rabs (log2R (high_cov w v j 0) - (a * INR j + b)) <= eps.
Let L := length (dec_hi w).
Let js := seq j1 (Datatypes.S (j2 - j1)).
Lemma consistent : exists N0, forall W (P : expectation W) I (idx : I -> Prop) (z : I -> W -> R) (S : W -> list (list R)) N nrep amp ja jb weighted r qs wd,
  (N0 <= N)%nat -> white P idx z -> gaussian4 P idx z -> 0 < amp -> (forall o, length (S o) = nrep /\ Forall (fun s => length s = N) (S o)) -> (r < nrep)%nat -> In 2 qs ->
  (forall i, (i < N)%nat -> combination idx z (fun o => nth i (nth r (S o) []) 0)) ->
  (forall (T : W -> wtransform) (ws : W -> list warning), (forall o, wavelet_analysis (map fin (S o)) PNone w ja jb gam norm weighted = Ok (T o, ws o)) ->
     forall j, (1 <= j)%nat -> (forall o, In (Z.of_nat j) (scales (wt_coefs (T o)))) -> forall k k', inner N L j k -> inner N L j k' ->
     E P (fun o => number (entry (wt_coefs (T o)) (Z.of_nat j) r k) * number (entry (wt_coefs (T o)) (Z.of_nat j) r k')) = factor norm gam j ^ 2 * (amp * high_cov w v j (Z.of_nat k - Z.of_nat k'))) ->
  prob_at_most P (fun o => ~ exists t ws s h,
      wavelet_analysis (map fin (S o)) PNone w ja jb gam norm weighted = Ok (t, ws) /\
      StructureFunction (wt_coefs t) (QArr qs) (Z.of_nat j1) (Z.of_nat j2) wd = Ok s /\
      nth r (sf_H s) NaN = Fin h /\ Rabs (h - ((a + 1) / 2 - 1 / norm)) <= eps + tol) q.
Proof using All.
  assert (IL : forall j, In j js <-> (j1 <= j <= j2)%nat) by (intros j; unfold js; rewrite in_seq; lia).
  assert (L1 : (1 <= L)%nat) by (unfold L; destruct Hw as [A _]; clear - A; lia).
  assert (L2 : 0 < ln 2) by (assert (K := ln_lt_2); lra).
  set (delta := Rmin (1 / 2) (tol * ln 2 / 2)).
  assert (Hd0 : 0 < delta). { apply Rmin_pos; [lra|]. apply Rmult_lt_0_compat; [|lra]. apply Rmult_lt_0_compat; lra. }
  assert (Hd1 : delta <= 1 / 2) by apply Rmin_l. assert (Hd2 : 2 * delta / ln 2 <= tol).
  { assert (Q : delta <= tol * ln 2 / 2) by apply Rmin_r. apply Rmult_le_reg_r with (ln 2); [trivial|]. unfold Rdiv at 1. rewrite Rmult_assoc, Rinv_l by lra. lra. }
  (* relative variance allowed at each scale *)
  set (m := INR (Datatypes.S (j2 - j1))). assert (m0 : 0 < m) by (apply lt_0_INR; lia).
  set (kap := q / m * delta ^ 2). assert (k0 : 0 < kap) by (apply Rmult_lt_0_compat; [now apply Rdiv_lt_0_compat|now apply pow_lt]).
  assert (HB : exists C0, 0 <= C0 /\ forall j, In j js -> forall cnt, C0 <= cnt -> exists A L0 eta, 0 <= A /\ 0 <= eta /\ (forall z, high_cov w v j z ^ 2 <= if le_dec (Z.to_nat (Z.abs z)) L0 then A else eta) /\
    2 * (2 * (INR (Datatypes.S L0) * A) + cnt * eta) <= cnt * (kap * high_cov w v j 0 ^ 2)).
  { apply (list_bound (fun j C0 => forall cnt, C0 <= cnt -> exists A L0 eta, 0 <= A /\ 0 <= eta /\ (forall z, high_cov w v j z ^ 2 <= if le_dec (Z.to_nat (Z.abs z)) L0 then A else eta) /\
      2 * (2 * (INR (Datatypes.S L0) * A) + cnt * eta) <= cnt * (kap * high_cov w v j 0 ^ 2)) js).
    - intros j C C' HC H cnt Hcnt. apply H. lra.
    - intros j Hjl. apply IL in Hjl. destruct (HL j Hjl) as [V0 _]. set (t := kap * high_cov w v j 0 ^ 2). assert (t0 : 0 < t) by (apply Rmult_lt_0_compat; [trivial|now apply pow_lt]).
      destruct (HF j Hjl (t / 4) ltac:(lra)) as (A & L0 & A0 & HA). exists (8 * (INR (Datatypes.S L0) * A) / t). intros cnt Hc. exists A, L0, (t / 4). split; [trivial|]. split; [lra|]. split; [exact HA|].
      assert (8 * (INR (Datatypes.S L0) * A) <= cnt * t). { apply Rmult_le_compat_r with (r := t) in Hc; [|lra]. unfold Rdiv in Hc. rewrite Rmult_assoc, Rinv_l in Hc by lra. lra. }
      lra. }
  destruct HB as (C0 & _ & HC). destruct (archimed (Rmax 3 C0)) as [AR _]. set (c := Z.to_nat (up (Rmax 3 C0))). assert (X1 := Rmax_l 3 C0). assert (X2 := Rmax_r 3 C0).
  assert (Cc : Rmax 3 C0 < INR c) by (unfold c; rewrite INR_IZR_INZ, Z2Nat.id; [lra|apply le_IZR; lra]).
  assert (C3 : (3 <= c)%nat) by (apply INR_le; cbn [INR]; lra).
  exists (2 ^ (j2 - 1) * (2 * c + 2 * L + 2))%nat. intros W P I idx z S N nrep amp ja jb wd0 r qs wd HN Hwh Hga amp0 HS Hr H2 Hlin HM2.
  assert (CJ : forall j, (j1 <= j <= j2)%nat -> (c <= inner_count N L j)%nat) by (intros j Hjj; assert (Q := inner_count_decr N L j j2 ltac:(lia)); assert (Q' := inner_count_big c L j2 L1 ltac:(lia) N HN); lia).
  assert (N1 : (1 <= N)%nat). { assert (2 ^ (j2 - 1) <> 0)%nat by (apply Nat.pow_nonzero; lia). clear - HN H. nia. }
  assert (NE : forall o, S o <> []) by (intros o Z; destruct (HS o) as [A _]; rewrite Z in A; cbn in A; lia).
  set (T o := transform_of (S o) w ja jb gam norm wd0). set (ws o := warnings_of (S o) w ja jb gam norm wd0).
  assert (TE : forall o, wavelet_analysis (map fin (S o)) PNone w ja jb gam norm wd0 = Ok (T o, ws o)) by (intros o; exact (transform_ok (S o) N w ja jb gam norm wd0 (NE o) N1 (proj2 (HS o)) Hw Hn)).
  assert (SC : forall o j, (j1 <= j <= j2)%nat -> In (Z.of_nat j) (scales (wt_coefs (T o)))).
  { intros o j Hjj. apply (C99_scales (S o) N w ja jb gam norm wd0 _ _ (NE o) N1 (proj2 (HS o)) Hw Hn (TE o)). split; [lia|]. specialize (CJ j Hjj). unfold L in CJ. lia. }
  specialize (HM2 T ws TE). set (f j := factor norm gam j ^ 2). assert (F0 : forall j, 0 < f j) by (intros j; apply pow_lt, exp_pos).
  set (mu j := f j * amp * high_cov w v j 0).
  assert (MU0 : forall j, (j1 <= j <= j2)%nat -> 0 < mu j) by (intros j Hjj; destruct (HL j Hjj) as [V0 _]; unfold mu; apply Rmult_lt_0_compat; [apply Rmult_lt_0_compat; [apply F0|trivial]|trivial]).
  eapply prob_weaken; [| |apply (estimate_prob P S N nrep w PNone ja jb gam norm wd0 T ws r j1 j2 qs wd (a + 1 - 2 / norm + 2 * gam) (log2R amp + b) eps tol delta mu (fun j => kap * mu j ^ 2))]; trivial.
  - intros o NO (s & h & E1 & E2 & E3). apply NO. exists (T o), (ws o), s, h. split; [apply TE|]. split; [exact E1|]. split; [exact E2|]. replace ((a + 1) / 2 - 1 / norm) with ((a + 1 - 2 / norm + 2 * gam) / 2 - gam) by (field; trivial). lra.
  - fold js. rewrite (Rsum_map_ext _ (fun _ => q / m)).
    + assert (X : forall l : list nat, Rsum (map (fun _ => q / m) l) = INR (length l) * (q / m)). { clear. induction l as [|x l IH]; [unfold Rsum; cbn; ring|]. cbn [map length]. change (Rsum (?a :: ?m)) with (a + Rsum m). rewrite IH, S_INR. ring. }
      rewrite X. unfold js. rewrite seq_length. fold m. right. field. lra.
    + intros j Hjl. apply IL in Hjl. specialize (MU0 j Hjl). unfold kap. field. repeat split; lra.
  - exact Logic.I.
  - intros o. apply SC. lia.
  - now split.
  - intros j Hjj power. fold L. split; [specialize (CJ j Hjj); lia|]. split; [now apply MU0|]. destruct (HL j Hjj) as [V0 VL]. split.
    + eapply Rle_trans; [|exact VL]. right. f_equal.
      assert (EL : ln (mu j) = 2 * (INR j * (1 / 2 - 1 / norm + gam) * ln 2) + ln amp + ln (high_cov w v j 0)).
      { unfold mu. rewrite ln_mult by (trivial; apply Rmult_lt_0_compat; trivial). rewrite ln_mult by trivial. f_equal. f_equal. unfold f, factor. rewrite ln_pow by apply exp_pos. unfold Rpower. rewrite ln_exp. reflexivity. }
      unfold log2R. rewrite EL. field. repeat split; trivial; lra.
    + assert (J1 : (1 <= j)%nat) by lia. set (cnt := inner_count N L j). assert (CN : (c <= cnt)%nat) by (apply CJ; trivial). assert (CR : Rmax 3 C0 < INR cnt) by (apply le_INR in CN; lra). assert (cnt0 : 0 < INR cnt) by lra.
      assert (HI : forall o, In (Z.of_nat j) (scales (wt_coefs (T o)))) by (intros o; now apply SC). specialize (HM2 j J1 HI).
      destruct (HC j (proj2 (IL j) Hjj) (INR cnt) ltac:(lra)) as (A & L0 & eta & A0 & E0 & HA & HE).
      assert (B := mean_fluct2 P idx z S N nrep w PNone ja jb gam norm wd0 T ws r j HS Hw Hn Logic.I TE Hr J1 HI Hlin Hwh Hga ltac:(fold L cnt; lia) ((f j * amp) ^ 2 * (2 * (INR (Datatypes.S L0) * A) + INR cnt * eta))).
      cbv beta zeta in B. destruct B as (B1 & B2 & B3).
      { fold L. intros k IN. set (lst := filter (innerb N L j) (seq 0 (N / 2 ^ j))).
        rewrite (Rsum_map_ext _ (fun k' => (f j * amp) ^ 2 * high_cov w v j (Z.of_nat k - Z.of_nat k') ^ 2)).
        - rewrite Rsum_scal_map. apply Rmult_le_compat_l; [apply pow2_ge_0|]. unfold cnt. rewrite <- (inner_total N L j L1 J1). fold lst. apply fades_sum; trivial. apply NoDup_filter, seq_NoDup.
        - intros k' Hk'. apply filter_In in Hk' as [_ Hk']. unfold innerb in Hk'. destruct (inner_dec N L j k') as [IN'|]; [|discriminate]. rewrite (HM2 k k' IN IN'). unfold f. ring. }
      assert (G : forall o, mean_sq (wt_coefs (T o)) (Z.of_nat j) r = power o) by (intros o; unfold power; now rewrite power_mean_sq).
      assert (EM : E P (fun o => mean_sq (wt_coefs (T o)) (Z.of_nat j) r) = mu j).
      { destruct (mean_power P S N nrep w PNone ja jb gam norm wd0 T ws HS Hw Hn Logic.I TE j r (mu j) J1 HI Hr ltac:(fold L cnt; lia)) as [_ Q]; [|exact Q].
        intros k IN. split; [|fold L in IN; rewrite (HM2 k k IN IN), Z.sub_diag; unfold mu, f; ring].
        apply (comb_int2 idx z P Hwh); apply (coef_comb P idx z S N nrep w PNone ja jb gam norm wd0 T ws r j HS Hw Hn Logic.I TE Hr J1 HI Hlin). }
      rewrite EM in B2, B3. split; [apply (int_ext W P _ _ (fun o => f_equal (fun y => (y - mu j) ^ 2) (G o)) B2)|].
      rewrite <- (E_ext W P _ _ (fun o => f_equal (fun y => (y - mu j) ^ 2) (G o))). eapply Rle_trans; [exact B3|]. fold L cnt.
      apply Rmult_le_reg_r with (INR cnt); [trivial|]. unfold Rdiv at 1. rewrite Rmult_assoc, Rinv_l, Rmult_1_r by lra. unfold mu.
      replace (kap * (f j * amp * high_cov w v j 0) ^ 2 * INR cnt) with ((f j * amp) ^ 2 * (INR cnt * (kap * high_cov w v j 0 ^ 2))) by ring.
      replace (2 * ((f j * amp) ^ 2 * (2 * (INR (Datatypes.S L0) * A) + INR cnt * eta))) with ((f j * amp) ^ 2 * (2 * (2 * (INR (Datatypes.S L0) * A) + INR cnt * eta))) by ring.
      apply Rmult_le_compat_l; [apply pow2_ge_0|exact HE].
Qed.
End Process.

(** ** C112: any wavelet *)
(** if the ideal log-variances are within eps of a line of slope a over the scaling range, the estimate gets within eps + tol of the exponent that line stands for, with probability as
    close to one as wanted, for all long enough simulations *)
Theorem C112_fgn_line :
  forall H w M gam norm a b eps tol q (j1 j2 : nat), 0 < H < 1 -> good_wavelet w -> vanishing_moments (dec_hi w) M -> norm <> 0 -> 0 < tol -> 0 < q -> (1 <= j1 < j2)%nat ->
  (forall j, (j1 <= j <= j2)%nat -> 0 < high_cov w (unit_fgn H) j 0 /\ Rabs (log2R (high_cov w (unit_fgn H) j 0) - (a * INR j + b)) <= eps) ->
  exists N0, forall W (P : expectation W) sh N sigma dt d z0 (drawn : W -> noise) ja jb weighted r qs wd,
  shape_N sh = N -> (N0 <= N)%nat -> sampling_step dt N d -> sigma <> 0 -> gaussian_complex P (shape_R sh) (2 * N - 2) (fun w => nz (drawn w)) -> (r < shape_R sh)%nat -> In 2 qs ->
  prob_at_most P (fun o => ~ exists X t ws s h,
      fgn sh H sigma dt "cme" z0 (drawn o) = Ok (presented sh X, false) /\ shaped (shape_R sh) N X /\
      wavelet_analysis (map fin X) PNone w ja jb gam norm weighted = Ok (t, ws) /\
      StructureFunction (wt_coefs t) (QArr qs) (Z.of_nat j1) (Z.of_nat j2) wd = Ok s /\
      nth r (sf_H s) NaN = Fin h /\ Rabs (h - ((a + 1) / 2 - 1 / norm)) <= eps + tol) q.
Proof.
  intros H w M gam norm a b eps tol q j1 j2 HH Hw HM Hn Ht Hq Hj HL.
  destruct (consistent w (unit_fgn H) gam norm a b eps tol q j1 j2 Hw Hn Ht Hq Hj (fun j Hjj => unit_fgn_fades H w M j HH Hw HM ltac:(lia)) HL) as [N0 HN0].
  exists (N0 + 2)%nat. intros W P sh N sigma dt d z0 drawn ja jb wd0 r qs wd EN HN Hd Hs [HZ HG] Hr H2.
  assert (d0 := proj2 (step_ok dt N d ltac:(lia) Hd)).
  assert (a0 : 0 < sigma ^ 2 * Rpower d (2 * H)) by (apply Rmult_lt_0_compat; [rewrite <- Rsqr_pow2; now apply Rsqr_pos_lt|apply exp_pos]).
  destruct (fgn_stationary P sh N H sigma dt d z0 drawn EN ltac:(lia) Hd ltac:(lra) HZ) as (X & EX & HS & HX).
  eapply prob_weaken; [|apply Rle_refl|apply (HN0 W P _ _ _ X N (shape_R sh) (sigma ^ 2 * Rpower d (2 * H)) ja jb wd0 r qs wd ltac:(lia) (proj2 HZ) HG a0 HS Hr H2)].
  - intros o NO (t & ws & s & h & K). apply NO. exists (X o), t, ws, s, h. split; [apply EX|]. split; [apply HS|exact K].
  - intros i Hi. exact (fgn_linear sh N H sigma dt d z0 drawn X EN ltac:(lia) Hd ltac:(lra) (proj1 HZ) EX HS r i Hr Hi).
  - intros T ws HT j J1 HI k k' IN IN'. destruct (moments_2 P X N (shape_R sh) w PNone ja jb gam norm wd0 T ws HS Hw Hn Logic.I HT r _ j k k' (HX r Hr) J1 HI Hr IN IN') as [_ ->]. f_equal.
    rewrite <- high_cov_scal. apply high_cov_ext'. intros y. now apply fgn_scale.
Qed.
Print Assumptions C112_fgn_line.
Theorem C112_fbm_line :
  forall H w M gam norm a b eps tol q (j1 j2 : nat), 0 < H < 1 -> good_wavelet w -> vanishing_moments (dec_hi w) M -> (1 <= M)%nat -> norm <> 0 -> 0 < tol -> 0 < q -> (1 <= j1 < j2)%nat ->
  (forall j, (j1 <= j <= j2)%nat -> 0 < high_cov w (unit_fbm H) j 0 /\ Rabs (log2R (high_cov w (unit_fbm H) j 0) - (a * INR j + b)) <= eps) ->
  exists N0, forall W (P : expectation W) sh N sigma dt d z0 (drawn : W -> noise) ja jb weighted r qs wd,
  shape_N sh = N -> (N0 <= N)%nat -> sampling_step dt N d -> sigma <> 0 -> gaussian_complex P (shape_R sh) (2 * N - 2) (fun w => nz (drawn w)) -> (r < shape_R sh)%nat -> In 2 qs ->
  prob_at_most P (fun o => ~ exists B t ws s h,
      fbm sh H sigma dt "cme" z0 (drawn o) = Ok (presented sh B, false) /\ shaped (shape_R sh) N B /\
      wavelet_analysis (map fin B) PNone w ja jb gam norm weighted = Ok (t, ws) /\
      StructureFunction (wt_coefs t) (QArr qs) (Z.of_nat j1) (Z.of_nat j2) wd = Ok s /\
      nth r (sf_H s) NaN = Fin h /\ Rabs (h - ((a + 1) / 2 - 1 / norm)) <= eps + tol) q.
Proof.
  intros H w M gam norm a b eps tol q j1 j2 HH Hw HM M1 Hn Ht Hq Hj HL.
  destruct (consistent w (unit_fbm H) gam norm a b eps tol q j1 j2 Hw Hn Ht Hq Hj (fun j Hjj => unit_fbm_fades H w M j HH Hw HM M1 ltac:(lia)) HL) as [N0 HN0].
  exists (N0 + 2)%nat. intros W P sh N sigma dt d z0 drawn ja jb wd0 r qs wd EN HN Hd Hs [HZ HG] Hr H2.
  assert (d0 := proj2 (step_ok dt N d ltac:(lia) Hd)).
  assert (a0 : 0 < sigma ^ 2 * Rpower d (2 * H)) by (apply Rmult_lt_0_compat; [rewrite <- Rsqr_pow2; now apply Rsqr_pos_lt|apply exp_pos]).
  destruct (fbm_facts P sh N H sigma dt d z0 drawn EN ltac:(lia) Hd ltac:(lra) HZ) as (B & EB & HS & HX & Lin).
  eapply prob_weaken; [|apply Rle_refl|apply (HN0 W P _ _ _ B N (shape_R sh) (sigma ^ 2 * Rpower d (2 * H)) ja jb wd0 r qs wd ltac:(lia) (proj2 HZ) HG a0 HS Hr H2)].
  - intros o NO (t & ws & s & h & K). apply NO. exists (B o), t, ws, s, h. split; [apply EB|]. split; [apply HS|exact K].
  - intros i Hi. exact (Lin r i Hr Hi).
  - intros T ws HT j J1 HI k k' IN IN'.
    destruct (C108_increments P B N (shape_R sh) w PNone ja jb gam norm wd0 T ws r _ _ HS Hw (vanish_ignores w M ltac:(lia) HM) Hn Logic.I HT Hr (HX r Hr) j J1 HI) as [Q1 _].
    destruct (Q1 k k' IN IN') as (_ & _ & E0 & _ & EC). unfold Cov in EC. rewrite E0 in EC.
    rewrite (high_cov_ext' w _ (fun y => sigma ^ 2 * Rpower d (2 * H) * unit_fbm H y)), high_cov_scal in EC by (intros y; now apply fbm_scale). lra.
Qed.
Print Assumptions C112_fbm_line.

(** fbm and the Haar wavelet: above some scale, the estimate converges to H + 1 - 1/norm within any tolerance *)
Theorem C112_fbm_consistent :
  forall H norm eps, 0 < H < 1 -> norm <> 0 -> 0 < eps ->
  exists j0, forall gam q (j1 j2 : nat), 0 < q -> (j0 <= j1 < j2)%nat ->
  exists N0, forall W (P : expectation W) sh N sigma dt d z0 (drawn : W -> noise) ja jb weighted r qs wd,
  shape_N sh = N -> (N0 <= N)%nat -> sampling_step dt N d -> sigma <> 0 -> gaussian_complex P (shape_R sh) (2 * N - 2) (fun w => nz (drawn w)) -> (r < shape_R sh)%nat -> In 2 qs ->
  prob_at_most P (fun o => ~ exists B t ws s h,
      fbm sh H sigma dt "cme" z0 (drawn o) = Ok (presented sh B, false) /\ shaped (shape_R sh) N B /\
      wavelet_analysis (map fin B) PNone haar1 ja jb gam norm weighted = Ok (t, ws) /\
      StructureFunction (wt_coefs t) (QArr qs) (Z.of_nat j1) (Z.of_nat j2) wd = Ok s /\
      nth r (sf_H s) NaN = Fin h /\ Rabs (h - (H + 1 - 1 / norm)) <= eps) q.
Proof.
  intros H norm eps HH Hn He. destruct (var_line H 1 1 ltac:(lra) ltac:(lra) ltac:(lra) (eps / 2) ltac:(lra)) as [j0 HV]. exists (j0 + 1)%nat. intros gam q j1 j2 Hq Hj.
  match type of HV with forall j, _ -> _ /\ Rabs (_ - (_ + ?b)) <= _ => destruct (C112_fbm_line H haar1 1 gam norm (2 * H + 1) b (eps / 2) (eps / 2) q j1 j2 HH good_haar1 vanish_haar1 (le_n 1) Hn ltac:(lra) Hq ltac:(lia)) as [N0 HN0] end.
  - intros j Hjj. destruct (HV j ltac:(lia)) as [A B].
    assert (X : forall z, high_cov haar1 (fun z => - (1 ^ 2 / 2 * rpow (Rabs (1 * IZR z)) (2 * H))) j z = high_cov haar1 (unit_fbm H) j z).
    { intros z. apply high_cov_ext'. intros y. unfold unit_fbm. rewrite Rmult_1_l. field. }
    rewrite X in A, B. split; [exact A|exact B].
  - exists N0. intros W P sh N sigma dt d z0 drawn ja jb wd0 r qs wd EN HN Hd Hs HG Hr H2.
    eapply prob_weaken; [|apply Rle_refl|apply (HN0 W P sh N sigma dt d z0 drawn ja jb wd0 r qs wd EN HN Hd Hs HG Hr H2)].
    intros o NO (B & t & ws & s & h & E1 & ES & E2 & E3 & E4 & E5). apply NO. exists B, t, ws, s, h. split; [exact E1|]. split; [exact ES|]. split; [exact E2|]. split; [exact E3|]. split; [exact E4|].
    replace (H + 1 - 1 / norm) with ((2 * H + 1 + 1) / 2 - 1 / norm) by (field; trivial). lra.
Qed.
Print Assumptions C112_fbm_consistent.
