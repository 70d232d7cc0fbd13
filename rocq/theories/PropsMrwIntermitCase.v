(** * C122: consistency, and runs that meet the hypotheses *)
From Coq Require Import Reals List ZArith Bool Lra Lia String.
From Verif Require Import XReal PyBase ModelUtils ModelMRQ ModelStructure ModelWavelet ModelSimul Spec SpecMRQ SpecSimul LXReal LUtils LBase LFilter LTransform LPattern LWave LPoly LCone LWaveEst LDft LSimul LWick LEst LNoise PropsMrw
  PropsWavelet PropsMissing PropsWhite PropsWhitePower PropsWhiteCase PropsConsist PropsMrwStat PropsMrwScale PropsMrwScale4 PropsMrwCase PropsMrwScaleCase PropsMrwHaar PropsMrwHaar2 PropsMrwIntermit.
Import ListNotations.
Open Scope R_scope.
Local Notation length := List.length.
Local Notation entry := SpecMRQ.entry.

(** the slope of the flatness between two scales far enough from each other is 4 c2, as close as wanted *)
Theorem C122_consistent c1 c2 eps : c1 + c2 = 1 / 2 -> - (1 / 4) < c2 <= 0 -> 0 < eps -> exists D : nat,
  forall W (P : expectation W) sh N L sigma z0e z0w (drawn_w drawn_e : W -> noise) X p j1 j2 gam norm weighted T ws r j j',
  cumul_run P sh N c1 c2 L sigma z0e z0w drawn_w drawn_e X -> 64 * L * ln L <= INR N -> haar_run X p j1 j2 gam norm weighted T ws ->
  sigma <> 0 -> (r < shape_R sh)%nat -> full_scale T N j -> full_scale T N j' -> (j + D < j')%nat -> 2 ^ j' <= L ->
  Rabs ((log2R (flatness P T r j') - log2R (flatness P T r j)) / (4 * (INR j' - INR j)) - c2) <= eps.
Proof.
  intros EC Hc He. set (C := (log2R (8 / (1 + 4 * c2)) - 4 * c2 / ln 2) / 4). destruct (archimed (C / eps)) as [A _]. exists (Z.to_nat (up (C / eps))).
  intros W P sh N L sigma z0e z0w dw de X p j1 j2 gam norm weighted T ws r j j' RUN HN HT Hs Hr HF HF' Hj HL.
  eapply Rle_trans; [apply (C122_intermittency P sh N c1 c2 L sigma z0e z0w dw de X p j1 j2 gam norm weighted T ws EC Hc RUN HN HT r j j' Hs Hr HF HF' ltac:(lia) HL)|]. fold C.
  assert (G : IZR (up (C / eps)) <= INR j' - INR j).
  { apply Rle_trans with (INR (Z.to_nat (up (C / eps)))); [rewrite INR_IZR_INZ; apply IZR_le; lia|]. apply lt_INR in Hj. rewrite plus_INR in Hj. lra. }
  assert (d0 : 0 < INR j' - INR j) by (assert (Q : (j < j')%nat) by lia; apply lt_INR in Q; lra).
  apply Rmult_le_reg_r with (INR j' - INR j); [trivial|]. unfold Rdiv at 1. rewrite Rmult_assoc, Rinv_l, Rmult_1_r by lra.
  assert (CE : C = C / eps * eps) by (field; lra). rewrite CE, (Rmult_comm eps). apply Rmult_le_compat_r; lra.
Qed.
(** for all parameters, any number of scales: a positive expectation, enough samples and a run with its transforms *)
Theorem C122_run_exists c1 c2 L sigma jmax : c1 + c2 = 1 / 2 -> c2 <= 0 -> 1 <= L ->
  exists N W (P : expectation W) (drawn_w drawn_e : W -> noise) X T ws, positive P /\
  cumul_run P (SInt N) N c1 c2 L sigma (fun _ => None) (fun _ => None) drawn_w drawn_e X /\ 64 * L * ln L <= INR N /\
  haar_run X PNone 1 None 0 1 true T ws /\ forall j, (1 <= j <= jmax)%nat -> full_scale T N j.
Proof.
  intros EC Hc HL. assert (ln0 : 0 <= ln L). { rewrite <- ln_1. destruct (Rle_lt_or_eq_dec 1 L HL) as [Q|Q]; [left; apply ln_increasing; lra|rewrite <- Q; right; reflexivity]. }
  assert (AR : exists N, (2 <= N)%nat /\ L <= INR N /\ 64 * L * ln L <= INR N /\ 2 ^ (jmax + 2) < INR N).
  { destruct (archimed (L + 64 * L * ln L + INR 2 + 2 ^ (jmax + 2))) as [A _]. assert (P0 := pos_INR 2). assert (Q0 : 0 <= 64 * L * ln L) by (apply Rmult_le_pos; [lra|trivial]). assert (T0 : 0 < 2 ^ (jmax + 2)) by (apply pow_lt; lra). set (z := up _) in *. exists (Z.to_nat z).
    assert (E : INR (Z.to_nat z) = IZR z) by (rewrite INR_IZR_INZ, Z2Nat.id; [reflexivity|apply le_IZR; lra]). split; [apply INR_le; lra|]. repeat split; lra. }
  destruct AR as (N & N1 & N2 & N3 & N4). exists N.
  destruct (C121_run_exists (SInt N) c1 c2 L sigma) as (W & P & dw & de & X & HP & RUN); [exact N1|exact Hc|lra|cbn [shape_N]; lra|]. cbn [shape_N] in RUN.
  assert (SH : forall o, length (X o) = 1%nat /\ Forall (fun s => length s = N) (X o)). { destruct RUN as (_ & _ & _ & _ & _ & _ & S0). intros o. exact (S0 o). }
  assert (TT : forall o, wavelet_analysis (map fin (X o)) PNone haar1 1 None 0 1 true = Ok (transform_of (X o) haar1 1 None 0 1 true, warnings_of (X o) haar1 1 None 0 1 true)).
  { intros o. destruct (SH o) as [S1 S2]. apply (transform_ok (X o) N); [intros Q; rewrite Q in S1; discriminate|lia|exact S2|exact good_haar1|lra]. }
  exists W, P, dw, de, X, (fun o => transform_of (X o) haar1 1 None 0 1 true), (fun o => warnings_of (X o) haar1 1 None 0 1 true).
  split; [exact HP|]. split; [exact RUN|]. split; [exact N3|]. split; [split; [lra|split; [exact Logic.I|exact TT]]|]. intros j [J1 J2].
  assert (IC : (3 <= inner_count N 2 j)%nat). { destruct (Nat.lt_ge_cases (inner_count N 2 j) 3) as [Q|Q]; [|exact Q]. exfalso. assert (B := haar_scale N j J1 Q). assert (2 ^ (j + 2) <= 2 ^ (jmax + 2)) by (apply Rle_pow; [lra|lia]). lra. }
  split; [trivial|]. split; [lia|]. intros o. destruct (SH o) as [S1 S2]. apply (C99_scales (X o) N haar1 1 None 0 1 true _ _ ltac:(intros Q; rewrite Q in S1; discriminate) ltac:(lia) S2 good_haar1 ltac:(lra) (TT o)). split; trivial.
Qed.
Lemma ln2_half : 1 / 2 < ln 2.
Proof. assert (K := ln_lt_2). lra. Qed.
(** c1 = 5/8, c2 = -1/8, integral scale 2^126: from the flatness at the scales 1 and 126, c2 within 1/100 *)
Theorem C122_case : exists N W (P : expectation W) (drawn_w drawn_e : W -> noise) X T ws, positive P /\
  cumul_run P (SInt N) N (5 / 8) (- (1 / 8)) (2 ^ 126) 3 (fun _ => None) (fun _ => None) drawn_w drawn_e X /\ haar_run X PNone 1 None 0 1 true T ws /\
  Rabs ((log2R (flatness P T 0 126) - log2R (flatness P T 0 1)) / 500 - - (1 / 8)) <= 1 / 100.
Proof.
  assert (L1 : 1 <= 2 ^ 126) by (apply pow_R1_Rle; lra).
  destruct (C122_run_exists (5 / 8) (- (1 / 8)) (2 ^ 126) 3 126 ltac:(lra) ltac:(lra) L1) as (N & W & P & dw & de & X & T & ws & HP & RUN & HN & HT & HF).
  exists N, W, P, dw, de, X, T, ws. split; [exact HP|]. split; [exact RUN|]. split; [exact HT|].
  assert (Q := C122_intermittency P (SInt N) N (5 / 8) (- (1 / 8)) (2 ^ 126) 3 _ _ dw de X PNone 1 None 0 1 true T ws ltac:(lra) ltac:(lra) RUN HN HT 0%nat 1%nat 126%nat ltac:(lra) ltac:(cbn; lia) (HF 1%nat ltac:(lia)) (HF 126%nat ltac:(lia)) ltac:(lia) ltac:(lra)).
  assert (I125 : INR 126 - INR 1 = 125) by (rewrite !INR_IZR_INZ; change (Z.of_nat 126) with 126%Z; change (Z.of_nat 1) with 1%Z; lra). rewrite I125 in Q. clear I125. replace (4 * 125) with 500 in Q by ring.
  eapply Rle_trans; [exact Q|]. replace (8 / (1 + 4 * - (1 / 8))) with (2 ^ 4) by field. unfold log2R. replace (ln (2 ^ 4)) with (4 * ln 2) by (replace (2 ^ 4) with (2 * 2 * (2 * 2)) by ring; rewrite !ln_mult by lra; ring).
  assert (l2 := ln2_half). replace ((4 * ln 2 / ln 2 - 4 * - (1 / 8) / ln 2) / 4 / 125) with (1 / 125 + / 1000 * / ln 2) by (field; lra).
  assert (/ ln 2 <= 2). { replace 2 with (/ (1 / 2)) at 2 by field. apply Rinv_le_contravar; lra. } lra.
Qed.
Print Assumptions C122_consistent.
Print Assumptions C122_case.
