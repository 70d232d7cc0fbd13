(** * C113: wavelet coherence of simulated signals *)
From Coq Require Import Reals List ZArith Bool Lra Lia String Classical_Prop.
From Verif Require Import XReal PyBase ModelUtils ModelMRQ ModelStructure ModelWavelet ModelBivariate ModelSimul Spec SpecMRQ SpecBi SpecSimul LXReal LUtils LBase LFilter LTransform LPattern LWave LPoly LCone LMoment LWaveEst LDft LSimul LNoise LEst LReg LBivariate
  PropsEstimators PropsWavelet PropsBivariate PropsBiPipeline PropsMissing PropsSlope PropsWhite PropsWhitePower PropsWhiteCase PropsSimul PropsWhiteFbm LTaps PropsDecorr PropsShortRange PropsHaarFgn PropsHaarFbm LWick LThree PropsFluct PropsConsist PropsConsistGen PropsConsistCase LCoherence.
Import ListNotations.
Open Scope R_scope.
Local Notation length := List.length.
Local Notation entry := SpecMRQ.entry.

(** ** The coherence of two mixtures *)
Section Coherent.
Variables (w : wavelet) (v : Z -> R) (gam norm al1 be1 al2 be2 eps q : R) (j1 j2 : nat).
Hypothesis Hw : good_wavelet w.
Hypothesis Hi : ignores_constants w.
Hypothesis Hn : norm <> 0.
Hypothesis He : 0 < eps.
Hypothesis Hq : 0 < q.
Hypothesis Hj : (1 <= j1 <= j2)%nat.
Hypothesis HF : forall j, (j1 <= j <= j2)%nat -> fades w v j.
Hypothesis HL : forall j, (j1 <= j <= j2)%nat -> 0 < high_cov w v j 0.
Hypothesis H1 : 0 < al1 ^ 2 + be1 ^ 2.
Hypothesis H2 : 0 < al2 ^ 2 + be2 ^ 2.
Let L := length (dec_hi w).
Let js := seq j1 (Datatypes.S (j2 - j1)).
Let s1 := al1 ^ 2 + be1 ^ 2.
Let s2 := al2 ^ 2 + be2 ^ 2.
Let s3 := (al1 + al2) ^ 2 + (be1 + be2) ^ 2.
Let pr := al1 * al2 + be1 * be2.
Lemma coherent : exists N0, forall W (P : expectation W) I (idx : I -> Prop) (z : I -> W -> R) (x y : W -> list R) N A amp ja jb weighted qa qb wd,
  (N0 <= N)%nat -> white P idx z -> gaussian4 P idx z -> 0 < amp -> (forall o, length (x o) = N) -> (forall o, length (y o) = N) ->
  (forall i, (i < N)%nat -> combination idx z (fun o => nth i (x o) 0)) -> (forall i, (i < N)%nat -> combination idx z (fun o => nth i (y o) 0)) ->
  (forall i k, (i < N)%nat -> (k < N)%nat -> E P (fun o => nth i (x o) 0 * nth k (x o) 0) = A i + A k + amp * v (Z.of_nat i - Z.of_nat k)%Z) ->
  (forall i k, (i < N)%nat -> (k < N)%nat -> E P (fun o => nth i (y o) 0 * nth k (y o) 0) = A i + A k + amp * v (Z.of_nat i - Z.of_nat k)%Z) ->
  (forall i k, (i < N)%nat -> (k < N)%nat -> E P (fun o => nth i (x o) 0 * nth k (y o) 0) = 0) ->
  NoDup qa -> NoDup qb -> incl [0; 1; 2] qa -> incl [0; 1; 2] qb ->
  prob_at_most P (fun o => ~ exists t1 t2 ws1 ws2 st,
      wavelet_analysis [fin (mixed al1 be1 (x o) (y o))] PNone w ja jb gam norm weighted = Ok (t1, ws1) /\
      wavelet_analysis [fin (mixed al2 be2 (x o) (y o))] PNone w ja jb gam norm weighted = Ok (t2, ws2) /\
      BiStructureFunction (wt_coefs t1) (wt_coefs t2) (Z.of_nat j1) (Z.of_nat j2) (Some (QArr qa)) (Some (QArr qb)) wd = Ok st /\
      forall j, (j1 <= j <= j2)%nat -> exists c, b1 (bs_coherence st) (Z.of_nat j) = Fin c /\ Rabs (c - (al1 * al2 + be1 * be2) / sqrt ((al1 ^ 2 + be1 ^ 2) * (al2 ^ 2 + be2 ^ 2))) <= eps) q.
Proof using All.
  assert (IL : forall j, In j js <-> (j1 <= j <= j2)%nat) by (intros j; unfold js; rewrite in_seq; clear - Hj; lia).
  assert (L1 : (1 <= L)%nat) by (unfold L; destruct Hw as [A _]; clear - A; lia).
  assert (P2 : pr ^ 2 <= s1 * s2). { unfold pr, s1, s2. assert (K := pow2_ge_0 (al1 * be2 - al2 * be1)). nra. }
  set (m := INR (Datatypes.S (j2 - j1))). assert (m0 : 0 < m) by (apply lt_0_INR; lia).
  set (q' := q / m / 3). assert (q0 : 0 < q') by (unfold q'; assert (0 < q / m) by (now apply Rdiv_lt_0_compat); lra).
  destruct (list_bound (fun j C0 => exists delta, 0 < delta /\
      (forall x y z, Rabs (x - s1 * high_cov w v j 0) < delta -> Rabs (y - s2 * high_cov w v j 0) < delta -> Rabs (z - pr * high_cov w v j 0) <= 2 * delta -> 0 < x * y /\ Rabs (z / sqrt (x * y) - pr / sqrt (s1 * s2)) <= eps) /\
      concentrated w v j s1 delta q' C0 /\ concentrated w v j s2 delta q' C0 /\ concentrated w v j s3 delta q' C0) js) as (C0 & _ & HC).
  { intros j C C' CC (delta & D0 & D1 & D2 & D3 & D4). exists delta. split; [exact D0|]. split; [exact D1|]. split; [|split]; now apply (concentrated_mono w v j _ delta q' C C'). }
  { intros j Hjl. apply IL in Hjl. assert (V0 := HL j Hjl). set (hc := high_cov w v j 0) in *.
    destruct (rho_near (s1 * hc) (s2 * hc) (pr * hc) eps) as (delta & D0 & D1); trivial; try (now apply Rmult_lt_0_compat).
    { replace ((pr * hc) ^ 2) with (hc ^ 2 * pr ^ 2) by ring. replace (s1 * hc * (s2 * hc)) with (hc ^ 2 * (s1 * s2)) by ring. apply Rmult_le_compat_l; [apply pow2_ge_0|trivial]. }
    assert (J1 : (1 <= j)%nat) by (clear - Hj Hjl; lia).
    destruct (concentrate w v j s1 delta q' Hw J1 (HF j Hjl) D0 q0) as [C1 K1]. destruct (concentrate w v j s2 delta q' Hw J1 (HF j Hjl) D0 q0) as [C2 K2]. destruct (concentrate w v j s3 delta q' Hw J1 (HF j Hjl) D0 q0) as [C3 K3].
    exists (Rmax C1 (Rmax C2 C3)), delta. split; [trivial|]. assert (M1 := Rmax_l C1 (Rmax C2 C3)). assert (M2 := Rmax_r C1 (Rmax C2 C3)). assert (M3 := Rmax_l C2 C3). assert (M4 := Rmax_r C2 C3).
    split; [|split; [apply (concentrated_mono w v j s1 delta q' C1); [lra|exact K1]|split; [apply (concentrated_mono w v j s2 delta q' C2); [lra|exact K2]|apply (concentrated_mono w v j s3 delta q' C3); [lra|exact K3]]]].
    assert (SQ : pr * hc / sqrt (s1 * hc * (s2 * hc)) = pr / sqrt (s1 * s2)).
    { replace (s1 * hc * (s2 * hc)) with (hc ^ 2 * (s1 * s2)) by ring. assert (S0 : 0 < s1 * s2) by (now apply Rmult_lt_0_compat). assert (G0 := sqrt_lt_R0 _ S0). rewrite sqrt_mult by (try apply pow2_ge_0; lra). rewrite sqrt_pow2 by lra. field. lra. }
    rewrite SQ in D1. exact D1. }
  destruct (archimed (Rmax 3 C0)) as [AR _]. set (c := Z.to_nat (up (Rmax 3 C0))). assert (X1 := Rmax_l 3 C0). assert (X2 := Rmax_r 3 C0).
  assert (Cc : Rmax 3 C0 < INR c) by (unfold c; rewrite INR_IZR_INZ, Z2Nat.id; [lra|apply le_IZR; lra]).
  assert (C3 : (3 <= c)%nat) by (apply INR_le; cbn [INR]; lra).
  exists (2 ^ (j2 - 1) * (2 * c + 2 * L + 2))%nat. intros W P I idx z x y N A amp ja jb wd0 qa qb wd HN Hwh Hga amp0 Lx Ly Cx Cy Exx Eyy Exy Da Db Ia Ib.
  assert (CJ : forall j, (j1 <= j <= j2)%nat -> (c <= inner_count N L j)%nat) by (intros j Hjj; assert (Q := inner_count_decr N L j j2 ltac:(lia)); assert (Q' := inner_count_big c L j2 L1 ltac:(lia) N HN); lia).
  assert (N1 : (1 <= N)%nat). { assert (2 ^ (j2 - 1) <> 0)%nat by (apply Nat.pow_nonzero; lia). clear - HN H. nia. }
  set (sg al be o := [mixed al be (x o) (y o)]).
  assert (HS : forall al be o, length (sg al be o) = 1%nat /\ Forall (fun s => length s = N) (sg al be o)) by (intros al be o; split; [reflexivity|apply F1; now apply mixed_length]).
  set (T al be o := transform_of (sg al be o) w ja jb gam norm wd0). set (ws al be o := warnings_of (sg al be o) w ja jb gam norm wd0).
  assert (TE : forall al be o, wavelet_analysis (map fin (sg al be o)) PNone w ja jb gam norm wd0 = Ok (T al be o, ws al be o)) by (intros al be o; refine (transform_ok (sg al be o) N w ja jb gam norm wd0 _ N1 (proj2 (HS al be o)) Hw Hn); discriminate).
  assert (SC : forall al be o j, (j1 <= j <= j2)%nat -> In (Z.of_nat j) (scales (wt_coefs (T al be o)))).
  { intros al be o j Hjj. apply (C99_scales (sg al be o) N w ja jb gam norm wd0 _ _ ltac:(discriminate) N1 (proj2 (HS al be o)) Hw Hn (TE al be o)). split; [lia|]. specialize (CJ j Hjj). unfold L in CJ. lia. }
  (* concentration at every scale *)
  assert (CO : forall al be j delta, (j1 <= j <= j2)%nat -> concentrated w v j (al ^ 2 + be ^ 2) delta q' C0 ->
    prob_at_most P (fun o => factor norm gam j ^ 2 * amp * delta <= Rabs (mean_sq (wt_coefs (T al be o)) (Z.of_nat j) 0 - factor norm gam j ^ 2 * amp * ((al ^ 2 + be ^ 2) * high_cov w v j 0))) q').
  { intros al be j delta Hjj K. assert (J1 : (1 <= j)%nat) by (clear - Hj Hjj; lia).
    apply (K W P I idx z (sg al be) N 1%nat ja jb gam norm wd0 (T al be) (ws al be) 0%nat amp); trivial; try (apply HS); try (apply TE).
    - lia.
    - intros o. now apply SC.
    - intros i Hii. apply (mixed_comb idx z x y N Lx Ly Cx Cy al be i Hii).
    - intros k k' IN IN'.
      destruct (C108_increments P (sg al be) N 1 w PNone ja jb gam norm wd0 (T al be) (ws al be) 0 _ _ (HS al be) Hw Hi Hn Logic.I (TE al be) ltac:(lia)
        (mixed_increments P idx z x y N A v amp Hwh Lx Ly Cx Cy Exx Eyy Exy al be) j J1 (fun o => SC al be o j Hjj)) as [Q1 _].
      destruct (Q1 k k' IN IN') as (_ & _ & E0 & _ & EC). unfold Cov in EC. rewrite E0 in EC. rewrite (high_cov_scal w (al ^ 2 + be ^ 2) (fun d => amp * v d)), (high_cov_scal w amp v) in EC. lra.
    - fold L. specialize (CJ j Hjj). lia.
    - fold L. specialize (CJ j Hjj). apply le_INR in CJ. lra. }
  set (bad delta al be j o := factor norm gam j ^ 2 * amp * delta <= Rabs (mean_sq (wt_coefs (T al be o)) (Z.of_nat j) 0 - factor norm gam j ^ 2 * amp * ((al ^ 2 + be ^ 2) * high_cov w v j 0))).
  set (Bad j o := ~ (0 < mean_sq (wt_coefs (T al1 be1 o)) (Z.of_nat j) 0 * mean_sq (wt_coefs (T al2 be2 o)) (Z.of_nat j) 0 /\
     Rabs ((mean_sq (wt_coefs (T (al1 + al2) (be1 + be2) o)) (Z.of_nat j) 0 - mean_sq (wt_coefs (T al1 be1 o)) (Z.of_nat j) 0 - mean_sq (wt_coefs (T al2 be2 o)) (Z.of_nat j) 0) / 2 /
       sqrt (mean_sq (wt_coefs (T al1 be1 o)) (Z.of_nat j) 0 * mean_sq (wt_coefs (T al2 be2 o)) (Z.of_nat j) 0) - pr / sqrt (s1 * s2)) <= eps)).
  assert (PB : forall j, In j js -> prob_at_most P (Bad j) (q / m)).
  { intros j Hjl. destruct (HC j Hjl) as (delta & D0 & D1 & K1 & K2 & K3). apply IL in Hjl.
    eapply prob_weaken; [| |apply (prob_union P _ _ _ _ (CO al1 be1 j delta Hjl K1) (prob_union P _ _ _ _ (CO al2 be2 j delta Hjl K2) (CO (al1 + al2) (be1 + be2) j delta Hjl K3)))]; [|unfold q'; right; field; lra].
    intros o NB. set (f := factor norm gam j ^ 2 * amp). assert (f0 : 0 < f) by (apply Rmult_lt_0_compat; [apply pow_lt, exp_pos|trivial]).
    fold f. set (mx := mean_sq (wt_coefs (T al1 be1 o)) (Z.of_nat j) 0) in *. set (my := mean_sq (wt_coefs (T al2 be2 o)) (Z.of_nat j) 0) in *. set (mz := mean_sq (wt_coefs (T (al1 + al2) (be1 + be2) o)) (Z.of_nat j) 0) in *.
    set (hc := high_cov w v j 0) in *. fold s1 s2 s3.
    destruct (Rle_lt_dec (f * delta) (Rabs (mx - f * (s1 * hc)))) as [B1|B1]; [now left|]. destruct (Rle_lt_dec (f * delta) (Rabs (my - f * (s2 * hc)))) as [B2|B2]; [now right; left|].
    destruct (Rle_lt_dec (f * delta) (Rabs (mz - f * (s3 * hc)))) as [B3|B3]; [now right; right|]. exfalso. apply NB. fold mx my mz.
    assert (DV : forall u s, Rabs (u - f * (s * hc)) < f * delta -> Rabs (u / f - s * hc) < delta).
    { intros u s U. replace (u / f - s * hc) with ((u - f * (s * hc)) * / f) by (field; lra). assert (I0 : 0 < / f) by (now apply Rinv_0_lt_compat). rewrite Rabs_mult, (Rabs_pos_eq (/ f)) by lra.
      apply Rmult_lt_reg_r with f; [trivial|]. rewrite Rmult_assoc, Rinv_l by lra. lra. }
    apply DV in B1. apply DV in B2. apply DV in B3.
    destruct (D1 (mx / f) (my / f) ((mz / f - mx / f - my / f) / 2) B1 B2) as [G1 G2].
    { apply Rabs_def2 in B1 as [U1 U2]. apply Rabs_def2 in B2 as [V1 V2]. apply Rabs_def2 in B3 as [W1 W2]. assert (S3 : s3 * hc = s1 * hc + s2 * hc + 2 * (pr * hc)) by (unfold s1, s2, s3, pr; ring). apply Rabs_le. split; lra. }
    assert (G0 : 0 < mx * my). { replace (mx * my) with (f ^ 2 * (mx / f * (my / f))) by (field; lra). apply Rmult_lt_0_compat; [now apply pow_lt|trivial]. }
    split; [trivial|]. replace ((mz - mx - my) / 2 / sqrt (mx * my)) with ((mz / f - mx / f - my / f) / 2 / sqrt (mx / f * (my / f))); [trivial|].
    assert (R0 := sqrt_lt_R0 _ G1). replace (mx * my) with (f ^ 2 * (mx / f * (my / f))) at 1 by (field; lra). rewrite (sqrt_mult (f ^ 2)) by (try apply pow2_ge_0; lra). rewrite (sqrt_pow2 f) by lra. field. lra. }
  eapply prob_weaken; [| |apply (prob_list P Bad (fun _ => q / m) js PB)].
  - intros o NO. 
    assert (DEC : forall l, (exists j, In j l /\ Bad j o) \/ forall j, In j l -> ~ Bad j o).
    { induction l as [|a l IH]; [right; intros ? []|]. destruct IH as [(j & I1 & I2)|IH]; [left; exists j; split; [now right|trivial]|].
      set (mx := mean_sq (wt_coefs (T al1 be1 o)) (Z.of_nat a) 0). set (my := mean_sq (wt_coefs (T al2 be2 o)) (Z.of_nat a) 0). set (mz := mean_sq (wt_coefs (T (al1 + al2) (be1 + be2) o)) (Z.of_nat a) 0).
      destruct (Rlt_dec 0 (mx * my)) as [G|G]; [|left; exists a; split; [now left|]; intros [K _]; now apply G].
      destruct (Rle_dec (Rabs ((mz - mx - my) / 2 / sqrt (mx * my) - pr / sqrt (s1 * s2))) eps) as [G'|G']; [|left; exists a; split; [now left|]; intros [_ K]; now apply G'].
      right. intros j [<-|Hjl]; [|auto]. intros NB. apply NB. split; [exact G|exact G']. }
    destruct (DEC js) as [B|B]; [exact B|]. exfalso. apply NO.
    exists (T al1 be1 o), (T al2 be2 o), (ws al1 be1 o), (ws al2 be2 o).
    assert (ES : mixed (al1 + al2) (be1 + be2) (x o) (y o) = map2 (fun a b => 1 * a + 1 * b) (mixed al1 be1 (x o) (y o)) (mixed al2 be2 (x o) (y o))).
    { apply (nth_ext _ _ 0 0).
      - rewrite map2_length, !(mixed_length x y N Lx Ly). symmetry. apply Nat.min_id.
      - intros n Hnn. rewrite (mixed_length x y N Lx Ly) in Hnn. rewrite (nth_map2 _ _ _ _ 0 0) by (now rewrite (mixed_length x y N Lx Ly)). rewrite !(mixed_nth x y N Lx Ly) by trivial. ring. }
    destruct (coherence_exists (mixed al1 be1 (x o) (y o)) (mixed al2 be2 (x o) (y o)) (mixed (al1 + al2) (be1 + be2) (x o) (y o)) N w ja jb gam norm wd0 (T al1 be1 o) (T al2 be2 o) (T (al1 + al2) (be1 + be2) o)
      (ws al1 be1 o) (ws al2 be2 o) (ws (al1 + al2) (be1 + be2) o) (mixed_length x y N Lx Ly al1 be1 o) (mixed_length x y N Lx Ly al2 be2 o) N1 ES Hw Hn (TE al1 be1 o) (TE al2 be2 o) (TE _ _ o) qa qb j1 j2 wd Hj) as (st & E1 & E2); trivial; [apply SC; lia|].
    exists st. split; [apply (TE al1 be1 o)|]. split; [apply (TE al2 be2 o)|]. split; [exact E1|]. intros j Hjj. eexists.
    assert (NB := B j (proj2 (IL j) Hjj)). unfold Bad in NB. set (mx := mean_sq (wt_coefs (T al1 be1 o)) (Z.of_nat j) 0) in *. set (my := mean_sq (wt_coefs (T al2 be2 o)) (Z.of_nat j) 0) in *. set (mz := mean_sq (wt_coefs (T (al1 + al2) (be1 + be2) o)) (Z.of_nat j) 0) in *.
    destruct (Rlt_dec 0 (mx * my)) as [G|G]; [|exfalso; apply NB; intros [K _]; now apply G].
    destruct (Rle_dec (Rabs ((mz - mx - my) / 2 / sqrt (mx * my) - pr / sqrt (s1 * s2))) eps) as [G'|G']; [|exfalso; apply NB; intros [_ K]; now apply G'].
    split; [apply (E2 j Hjj ltac:(specialize (CJ j Hjj); fold L; lia) G)|exact G'].
  - assert (X : forall l : list nat, Rsum (map (fun _ => q / m) l) = INR (length l) * (q / m)). { clear. induction l as [|x l IH]; [unfold Rsum; cbn; ring|]. cbn [map length]. change (Rsum (?a :: ?m)) with (a + Rsum m). rewrite IH, S_INR. ring. }
    rewrite X. unfold js. rewrite seq_length. fold m. right. field. lra.
Qed.
End Coherent.

(** ** C113: the coherence of two mixtures of independent simulated signals converges to their correlation *)
(** correlation of the mixtures al1 x + be1 y and al2 x + be2 y of two uncorrelated signals of the same variance *)
Definition correlation (al1 be1 al2 be2 : R) : R := (al1 * al2 + be1 * be2) / sqrt ((al1 ^ 2 + be1 ^ 2) * (al2 ^ 2 + be2 ^ 2)).
Theorem C113_fgn :
  forall H w M gam norm al1 be1 al2 be2 eps q (j1 j2 : nat), 0 < H < 1 -> good_wavelet w -> vanishing_moments (dec_hi w) M -> (1 <= M)%nat -> norm <> 0 -> 0 < eps -> 0 < q -> (1 <= j1 <= j2)%nat ->
  0 < al1 ^ 2 + be1 ^ 2 -> 0 < al2 ^ 2 + be2 ^ 2 -> (forall j, (j1 <= j <= j2)%nat -> 0 < high_cov w (unit_fgn H) j 0) ->
  exists N0, forall W (P : expectation W) sh N sigma dt d z0 (drawn : W -> noise) ja jb weighted r1 r2 qa qb wd,
  shape_N sh = N -> (N0 <= N)%nat -> sampling_step dt N d -> sigma <> 0 -> gaussian_complex P (shape_R sh) (2 * N - 2) (fun w => nz (drawn w)) ->
  (r1 < shape_R sh)%nat -> (r2 < shape_R sh)%nat -> r1 <> r2 -> NoDup qa -> NoDup qb -> incl [0; 1; 2] qa -> incl [0; 1; 2] qb ->
  prob_at_most P (fun o => ~ exists X t1 t2 ws1 ws2 s,
      fgn sh H sigma dt "cme" z0 (drawn o) = Ok (presented sh X, false) /\
      wavelet_analysis [fin (mixed al1 be1 (nth r1 X []) (nth r2 X []))] PNone w ja jb gam norm weighted = Ok (t1, ws1) /\
      wavelet_analysis [fin (mixed al2 be2 (nth r1 X []) (nth r2 X []))] PNone w ja jb gam norm weighted = Ok (t2, ws2) /\
      BiStructureFunction (wt_coefs t1) (wt_coefs t2) (Z.of_nat j1) (Z.of_nat j2) (Some (QArr qa)) (Some (QArr qb)) wd = Ok s /\
      forall j, (j1 <= j <= j2)%nat -> exists c, b1 (bs_coherence s) (Z.of_nat j) = Fin c /\ Rabs (c - correlation al1 be1 al2 be2) <= eps) q.
Proof.
  intros H w M gam norm al1 be1 al2 be2 eps q j1 j2 HH Hw HM M1 Hn He Hq Hj H1 H2 HL.
  destruct (coherent w (unit_fgn H) gam norm al1 be1 al2 be2 eps q j1 j2 Hw (vanish_ignores w M ltac:(lia) HM) Hn He Hq Hj (fun j Hjj => unit_fgn_fades H w M j HH Hw HM ltac:(lia)) HL H1 H2) as [N0 HN0].
  exists (N0 + 2)%nat. intros W P sh N sigma dt d z0 drawn ja jb wd0 r1 r2 qa qb wd EN HN Hd Hs [HZ HG] Hr1 Hr2 Hr Da Db Ia Ib.
  assert (d0 := proj2 (step_ok dt N d ltac:(lia) Hd)).
  assert (a0 : 0 < sigma ^ 2 * Rpower d (2 * H)) by (apply Rmult_lt_0_compat; [rewrite <- Rsqr_pow2; now apply Rsqr_pos_lt|apply exp_pos]).
  destruct (fgn_stationary P sh N H sigma dt d z0 drawn EN ltac:(lia) Hd ltac:(lra) HZ) as (X & EX & HS & HX).
  destruct (C61_fgn W P sh N H sigma dt d z0 drawn EN ltac:(lia) Hd ltac:(lra) HZ) as (X' & EX' & (Y1 & Y2 & Y3)).
  assert (XX : forall o, X' o = X o). { intros o. apply (presented_inj sh N _ _ (Y1 o) (HS o)). assert (Q := EX o). rewrite EX' in Q. now injection Q. }
  assert (Lin := fgn_linear sh N H sigma dt d z0 drawn X EN ltac:(lia) Hd ltac:(lra) (proj1 HZ) EX HS).
  assert (LN : forall r, (r < shape_R sh)%nat -> forall o, length (nth r (X o) []) = N) by (intros r Hrr o; apply (HX r Hrr)).
  assert (AU : forall r, (r < shape_R sh)%nat -> forall i k, (i < N)%nat -> (k < N)%nat ->
    E P (fun o => nth i (nth r (X o) []) 0 * nth k (nth r (X o) []) 0) = 0 + 0 + sigma ^ 2 * Rpower d (2 * H) * unit_fgn H (Z.of_nat i - Z.of_nat k)).
  { intros r Hrr i k Hi Hk. destruct (HX r Hrr) as (_ & _ & Q). rewrite (proj2 (Q i k Hi Hk)). rewrite <- fgn_scale by trivial. unfold second. ring. }
  eapply prob_weaken; [|apply Rle_refl|apply (HN0 W P _ (cidx (shape_R sh) (2 * N - 2)) (cvar (fun o => nz (drawn o))) (fun o => nth r1 (X o) []) (fun o => nth r2 (X o) []) N (fun _ => 0) (sigma ^ 2 * Rpower d (2 * H)) ja jb wd0 qa qb wd ltac:(lia) (proj2 HZ) HG a0 (LN r1 Hr1) (LN r2 Hr2))]; auto.
  - intros o NO (t1 & t2 & ws1 & ws2 & s & K). apply NO. exists (X o), t1, t2, ws1, ws2, s. split; [apply EX|exact K].
  - intros i k Hi Hk. destruct (Y3 r1 r2 i k Hr1 Hr2 Hi Hk) as [_ V]. unfold Cov in V. rewrite (proj2 (Y2 r1 i Hr1 Hi)), Rmult_0_l, Rminus_0_r in V. destruct (Nat.eq_dec r1 r2) as [|_]; [contradiction|].
    etransitivity; [|exact V]. apply E_ext. intros o. unfold SpecSimul.entry. now rewrite XX.
Qed.
Print Assumptions C113_fgn.
(** the same for fbm *)
Theorem C113_fbm :
  forall H w M gam norm al1 be1 al2 be2 eps q (j1 j2 : nat), 0 < H < 1 -> good_wavelet w -> vanishing_moments (dec_hi w) M -> (1 <= M)%nat -> norm <> 0 -> 0 < eps -> 0 < q -> (1 <= j1 <= j2)%nat ->
  0 < al1 ^ 2 + be1 ^ 2 -> 0 < al2 ^ 2 + be2 ^ 2 -> (forall j, (j1 <= j <= j2)%nat -> 0 < high_cov w (unit_fbm H) j 0) ->
  exists N0, forall W (P : expectation W) sh N sigma dt d z0 (drawn : W -> noise) ja jb weighted r1 r2 qa qb wd,
  shape_N sh = N -> (N0 <= N)%nat -> sampling_step dt N d -> sigma <> 0 -> gaussian_complex P (shape_R sh) (2 * N - 2) (fun w => nz (drawn w)) ->
  (r1 < shape_R sh)%nat -> (r2 < shape_R sh)%nat -> r1 <> r2 -> NoDup qa -> NoDup qb -> incl [0; 1; 2] qa -> incl [0; 1; 2] qb ->
  prob_at_most P (fun o => ~ exists B t1 t2 ws1 ws2 s,
      fbm sh H sigma dt "cme" z0 (drawn o) = Ok (presented sh B, false) /\
      wavelet_analysis [fin (mixed al1 be1 (nth r1 B []) (nth r2 B []))] PNone w ja jb gam norm weighted = Ok (t1, ws1) /\
      wavelet_analysis [fin (mixed al2 be2 (nth r1 B []) (nth r2 B []))] PNone w ja jb gam norm weighted = Ok (t2, ws2) /\
      BiStructureFunction (wt_coefs t1) (wt_coefs t2) (Z.of_nat j1) (Z.of_nat j2) (Some (QArr qa)) (Some (QArr qb)) wd = Ok s /\
      forall j, (j1 <= j <= j2)%nat -> exists c, b1 (bs_coherence s) (Z.of_nat j) = Fin c /\ Rabs (c - correlation al1 be1 al2 be2) <= eps) q.
Proof.
  intros H w M gam norm al1 be1 al2 be2 eps q j1 j2 HH Hw HM M1 Hn He Hq Hj H1 H2 HL.
  destruct (coherent w (unit_fbm H) gam norm al1 be1 al2 be2 eps q j1 j2 Hw (vanish_ignores w M ltac:(lia) HM) Hn He Hq Hj (fun j Hjj => unit_fbm_fades H w M j HH Hw HM M1 ltac:(lia)) HL H1 H2) as [N0 HN0].
  exists (N0 + 2)%nat. intros W P sh N sigma dt d z0 drawn ja jb wd0 r1 r2 qa qb wd EN HN Hd Hs [HZ HG] Hr1 Hr2 Hr Da Db Ia Ib.
  assert (d0 := proj2 (step_ok dt N d ltac:(lia) Hd)).
  assert (a0 : 0 < sigma ^ 2 * Rpower d (2 * H)) by (apply Rmult_lt_0_compat; [rewrite <- Rsqr_pow2; now apply Rsqr_pos_lt|apply exp_pos]).
  destruct (fbm_facts P sh N H sigma dt d z0 drawn EN ltac:(lia) Hd ltac:(lra) HZ) as (X & EX & HS & HX & Lin).
  destruct (C61_fbm W P sh N H sigma dt d z0 drawn EN ltac:(lia) Hd ltac:(lra) HZ) as (X' & EX' & (Y1 & Y2 & Y3)).
  assert (XX : forall o, X' o = X o). { intros o. apply (presented_inj sh N _ _ (Y1 o) (HS o)). assert (Q := EX o). rewrite EX' in Q. now injection Q. }
  assert (LN : forall r, (r < shape_R sh)%nat -> forall o, length (nth r (X o) []) = N) by (intros r Hrr o; apply (HX r Hrr)).
  set (A i := sigma ^ 2 / 2 * rpow (d * (INR i + 1)) (2 * H)).
  assert (AU : forall r, (r < shape_R sh)%nat -> forall i k, (i < N)%nat -> (k < N)%nat ->
    E P (fun o => nth i (nth r (X o) []) 0 * nth k (nth r (X o) []) 0) = A i + A k + sigma ^ 2 * Rpower d (2 * H) * unit_fbm H (Z.of_nat i - Z.of_nat k)).
  { intros r Hrr i k Hi Hk. destruct (HX r Hrr) as (_ & _ & Q). rewrite (proj2 (Q i k Hi Hk)). rewrite <- fbm_scale by trivial. reflexivity. }
  eapply prob_weaken; [|apply Rle_refl|apply (HN0 W P _ (cidx (shape_R sh) (2 * N - 2)) (cvar (fun o => nz (drawn o))) (fun o => nth r1 (X o) []) (fun o => nth r2 (X o) []) N A (sigma ^ 2 * Rpower d (2 * H)) ja jb wd0 qa qb wd ltac:(lia) (proj2 HZ) HG a0 (LN r1 Hr1) (LN r2 Hr2))]; auto.
  - intros o NO (t1 & t2 & ws1 & ws2 & s & K). apply NO. exists (X o), t1, t2, ws1, ws2, s. split; [apply EX|exact K].
  - intros i k Hi Hk. destruct (Y3 r1 r2 i k Hr1 Hr2 Hi Hk) as [_ V]. unfold Cov in V. rewrite (proj2 (Y2 r1 i Hr1 Hi)), Rmult_0_l, Rminus_0_r in V. destruct (Nat.eq_dec r1 r2) as [|_]; [contradiction|].
    etransitivity; [|exact V]. apply E_ext. intros o. unfold SpecSimul.entry. now rewrite XX.
Qed.
Print Assumptions C113_fbm.

(** ** The Haar wavelet: no condition on the scales for fgn *)
Theorem C113_fgn_haar :
  forall H gam norm al1 be1 al2 be2 eps q (j1 j2 : nat), 0 < H < 1 -> norm <> 0 -> 0 < eps -> 0 < q -> (1 <= j1 <= j2)%nat -> 0 < al1 ^ 2 + be1 ^ 2 -> 0 < al2 ^ 2 + be2 ^ 2 ->
  exists N0, forall W (P : expectation W) sh N sigma dt d z0 (drawn : W -> noise) ja jb weighted r1 r2 qa qb wd,
  shape_N sh = N -> (N0 <= N)%nat -> sampling_step dt N d -> sigma <> 0 -> gaussian_complex P (shape_R sh) (2 * N - 2) (fun w => nz (drawn w)) ->
  (r1 < shape_R sh)%nat -> (r2 < shape_R sh)%nat -> r1 <> r2 -> NoDup qa -> NoDup qb -> incl [0; 1; 2] qa -> incl [0; 1; 2] qb ->
  prob_at_most P (fun o => ~ exists X t1 t2 ws1 ws2 s,
      fgn sh H sigma dt "cme" z0 (drawn o) = Ok (presented sh X, false) /\
      wavelet_analysis [fin (mixed al1 be1 (nth r1 X []) (nth r2 X []))] PNone haar1 ja jb gam norm weighted = Ok (t1, ws1) /\
      wavelet_analysis [fin (mixed al2 be2 (nth r1 X []) (nth r2 X []))] PNone haar1 ja jb gam norm weighted = Ok (t2, ws2) /\
      BiStructureFunction (wt_coefs t1) (wt_coefs t2) (Z.of_nat j1) (Z.of_nat j2) (Some (QArr qa)) (Some (QArr qb)) wd = Ok s /\
      forall j, (j1 <= j <= j2)%nat -> exists c, b1 (bs_coherence s) (Z.of_nat j) = Fin c /\ Rabs (c - correlation al1 be1 al2 be2) <= eps) q.
Proof.
  intros H gam norm al1 be1 al2 be2 eps q j1 j2 HH Hn He Hq Hj H1 H2. apply (C113_fgn H haar1 1); trivial; [exact good_haar1|exact vanish_haar1|].
  intros j Hjj. assert (K := haar_unit_eq H 1 1 j Rlt_0_1 ltac:(lia)). assert (V := haar_variance_pos H 1 1 j HH ltac:(lra)). rewrite <- K in V.
  assert (R1 : Rpower 1 (2 * H) = 1) by (unfold Rpower; rewrite ln_1, Rmult_0_r; apply exp_0). rewrite R1 in V. lra.
Qed.
Print Assumptions C113_fgn_haar.
(** fbm: above some scale *)
Theorem C113_fbm_haar :
  forall H, 0 < H < 1 -> exists j0, forall gam norm al1 be1 al2 be2 eps q (j1 j2 : nat), norm <> 0 -> 0 < eps -> 0 < q -> (j0 <= j1 <= j2)%nat -> 0 < al1 ^ 2 + be1 ^ 2 -> 0 < al2 ^ 2 + be2 ^ 2 ->
  exists N0, forall W (P : expectation W) sh N sigma dt d z0 (drawn : W -> noise) ja jb weighted r1 r2 qa qb wd,
  shape_N sh = N -> (N0 <= N)%nat -> sampling_step dt N d -> sigma <> 0 -> gaussian_complex P (shape_R sh) (2 * N - 2) (fun w => nz (drawn w)) ->
  (r1 < shape_R sh)%nat -> (r2 < shape_R sh)%nat -> r1 <> r2 -> NoDup qa -> NoDup qb -> incl [0; 1; 2] qa -> incl [0; 1; 2] qb ->
  prob_at_most P (fun o => ~ exists B t1 t2 ws1 ws2 s,
      fbm sh H sigma dt "cme" z0 (drawn o) = Ok (presented sh B, false) /\
      wavelet_analysis [fin (mixed al1 be1 (nth r1 B []) (nth r2 B []))] PNone haar1 ja jb gam norm weighted = Ok (t1, ws1) /\
      wavelet_analysis [fin (mixed al2 be2 (nth r1 B []) (nth r2 B []))] PNone haar1 ja jb gam norm weighted = Ok (t2, ws2) /\
      BiStructureFunction (wt_coefs t1) (wt_coefs t2) (Z.of_nat j1) (Z.of_nat j2) (Some (QArr qa)) (Some (QArr qb)) wd = Ok s /\
      forall j, (j1 <= j <= j2)%nat -> exists c, b1 (bs_coherence s) (Z.of_nat j) = Fin c /\ Rabs (c - correlation al1 be1 al2 be2) <= eps) q.
Proof.
  intros H HH. destruct (var_line H 1 1 ltac:(lra) ltac:(lra) ltac:(lra) 1 ltac:(lra)) as [j0 HV]. exists (j0 + 1)%nat.
  intros gam norm al1 be1 al2 be2 eps q j1 j2 Hn He Hq Hj H1 H2. apply (C113_fbm H haar1 1); trivial; [exact good_haar1|exact vanish_haar1|lia|].
  intros j Hjj. destruct (HV j ltac:(lia)) as [A _].
  assert (X : forall z, high_cov haar1 (fun z => - (1 ^ 2 / 2 * rpow (Rabs (1 * IZR z)) (2 * H))) j z = high_cov haar1 (unit_fbm H) j z).
  { intros z. apply high_cov_ext'. intros y. unfold unit_fbm. rewrite Rmult_1_l. field. }
  now rewrite X in A.
Qed.
Print Assumptions C113_fbm_haar.

(** ** The two extremes: independent signals have coherence tending to 0, proportional ones to the sign of the ratio *)
Lemma correlation_independent : correlation 1 0 0 1 = 0.
Proof. unfold correlation. field_simplify_eq; [ring|]. replace ((1 ^ 2 + 0 ^ 2) * (0 ^ 2 + 1 ^ 2)) with 1 by ring. rewrite sqrt_1. lra. Qed.
Lemma correlation_self al be : 0 < al ^ 2 + be ^ 2 -> correlation al be al be = 1.
Proof. intros H. unfold correlation. rewrite sqrt_square by lra. field. nra. Qed.
Lemma correlation_bound al1 be1 al2 be2 : 0 < al1 ^ 2 + be1 ^ 2 -> 0 < al2 ^ 2 + be2 ^ 2 -> -1 <= correlation al1 be1 al2 be2 <= 1.
Proof.
  intros H1 H2. unfold correlation. set (s := sqrt _). assert (S2 : 0 < (al1 ^ 2 + be1 ^ 2) * (al2 ^ 2 + be2 ^ 2)) by (now apply Rmult_lt_0_compat).
  assert (S0 : 0 < s) by (now apply sqrt_lt_R0). assert (SS : s * s = (al1 ^ 2 + be1 ^ 2) * (al2 ^ 2 + be2 ^ 2)) by (apply sqrt_sqrt; lra).
  set (p := al1 * al2 + be1 * be2). assert (PS : p * p <= s * s) by (rewrite SS; unfold p; assert (K := pow2_ge_0 (al1 * be2 - al2 * be1)); nra).
  split; apply Rmult_le_reg_r with s; trivial; unfold Rdiv; rewrite ?Rmult_assoc, ?Rinv_l by lra; nra.
Qed.

(** ** The hypotheses are met: for all long enough simulations there are draws for which the coherence of two independent realisations is small at scales 1 to 3,
    and that of x and (3 x + 4 y) / 5 near 3/5 *)
Theorem C113_case eps : 0 < eps -> exists N0, forall N, (N0 <= N)%nat ->
  (exists drawn X t1 t2 ws1 ws2 s,
      fgn (SPair N 2) (3 / 4) 1 None "cme" None drawn = Ok (presented (SPair N 2) X, false) /\
      wavelet_analysis [fin (mixed 1 0 (nth 0 X []) (nth 1 X []))] PNone haar1 1 None 0 1 true = Ok (t1, ws1) /\
      wavelet_analysis [fin (mixed 0 1 (nth 0 X []) (nth 1 X []))] PNone haar1 1 None 0 1 true = Ok (t2, ws2) /\
      BiStructureFunction (wt_coefs t1) (wt_coefs t2) 1 3 (Some (QArr [0; 1; 2])) (Some (QArr [0; 1; 2])) true = Ok s /\
      forall j, (1 <= j <= 3)%nat -> exists c, b1 (bs_coherence s) (Z.of_nat j) = Fin c /\ Rabs (c - 0) <= eps) /\
  (exists drawn X t1 t2 ws1 ws2 s,
      fgn (SPair N 2) (3 / 4) 1 None "cme" None drawn = Ok (presented (SPair N 2) X, false) /\
      wavelet_analysis [fin (mixed 1 0 (nth 0 X []) (nth 1 X []))] PNone haar1 1 None 0 1 true = Ok (t1, ws1) /\
      wavelet_analysis [fin (mixed 3 4 (nth 0 X []) (nth 1 X []))] PNone haar1 1 None 0 1 true = Ok (t2, ws2) /\
      BiStructureFunction (wt_coefs t1) (wt_coefs t2) 1 3 (Some (QArr [0; 1; 2])) (Some (QArr [0; 1; 2])) true = Ok s /\
      forall j, (1 <= j <= 3)%nat -> exists c, b1 (bs_coherence s) (Z.of_nat j) = Fin c /\ Rabs (c - 3 / 5) <= eps).
Proof.
  intros He.
  destruct (C113_fgn_haar (3 / 4) 0 1 1 0 0 1 eps (1 / 2) 1 3 ltac:(lra) ltac:(lra) He ltac:(lra) ltac:(lia) ltac:(lra) ltac:(lra)) as [Na HA].
  destruct (C113_fgn_haar (3 / 4) 0 1 1 0 3 4 eps (1 / 2) 1 3 ltac:(lra) ltac:(lra) He ltac:(lra) ltac:(lia) ltac:(lra) ltac:(lra)) as [Nb HB].
  assert (ND : NoDup [0; 1; 2]). { repeat constructor; cbn; lra. }
  assert (C35 : correlation 1 0 3 4 = 3 / 5). { unfold correlation. replace ((1 ^ 2 + 0 ^ 2) * (3 ^ 2 + 4 ^ 2)) with (5 * 5) by ring. rewrite sqrt_square by lra. field. }
  exists (Na + Nb)%nat. intros N HN. destruct (C112_noise_exists 2 (2 * N - 2)) as (W & P & drawn & HP & HG).
  assert (QA := HA W P (SPair N 2) N 1 None (/ INR N) None drawn 1%Z None true 0%nat 1%nat [0; 1; 2] [0; 1; 2] true eq_refl ltac:(lia) (or_intror (conj (or_introl eq_refl) eq_refl)) ltac:(lra) HG ltac:(cbn; lia) ltac:(cbn; lia) ltac:(lia) ND ND (incl_refl _) (incl_refl _)).
  assert (QB := HB W P (SPair N 2) N 1 None (/ INR N) None drawn 1%Z None true 0%nat 1%nat [0; 1; 2] [0; 1; 2] true eq_refl ltac:(lia) (or_intror (conj (or_introl eq_refl) eq_refl)) ltac:(lra) HG ltac:(cbn; lia) ltac:(cbn; lia) ltac:(lia) ND ND (incl_refl _) (incl_refl _)).
  rewrite correlation_independent in QA. rewrite C35 in QB. split; apply NNPP; intros K.
  - apply (not_everywhere P _ _ HP QA); [lra|]. intros o (X & t1 & t2 & ws1 & ws2 & s & Q). apply K. exists (drawn o), X, t1, t2, ws1, ws2, s. exact Q.
  - apply (not_everywhere P _ _ HP QB); [lra|]. intros o (X & t1 & t2 & ws1 & ws2 & s & Q). apply K. exists (drawn o), X, t1, t2, ws1, ws2, s. exact Q.
Qed.
Print Assumptions C113_case.
