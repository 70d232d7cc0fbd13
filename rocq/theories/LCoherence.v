(** * Lemmas for C113: sample correlations, concentration of the mean power, mixtures *)
From Coq Require Import Reals List ZArith Bool Lra Lia String.
From Verif Require Import XReal PyBase ModelUtils ModelMRQ ModelStructure ModelWavelet ModelBivariate ModelSimul Spec SpecMRQ SpecBi SpecSimul LXReal LUtils LBase LFilter LTransform LPattern LWave LPoly LCone LMoment LWaveEst LDft LSimul LEst LReg LBivariate
  PropsEstimators PropsWavelet PropsBivariate PropsBiPipeline PropsMissing PropsSlope PropsWhite PropsWhitePower PropsSimul PropsWhiteFbm LTaps PropsDecorr PropsShortRange LWick PropsFluct PropsConsist PropsConsistGen.
Import ListNotations.
Open Scope R_scope.
Local Notation length := List.length.
Local Notation entry := SpecMRQ.entry.

(** ** Correlations depend continuously on the moments *)
Lemma rho_near s1 s2 p eps : 0 < s1 -> 0 < s2 -> p ^ 2 <= s1 * s2 -> 0 < eps ->
  exists delta, 0 < delta /\ forall x y z, Rabs (x - s1) < delta -> Rabs (y - s2) < delta -> Rabs (z - p) <= 2 * delta -> 0 < x * y /\ Rabs (z / sqrt (x * y) - p / sqrt (s1 * s2)) <= eps.
Proof.
  intros H1 H2 Hp He. set (g0 := sqrt (s1 * s2)). assert (S0 : 0 < s1 * s2) by (now apply Rmult_lt_0_compat). assert (G0 : 0 < g0) by (now apply sqrt_lt_R0).
  assert (GG : g0 * g0 = s1 * s2) by (apply sqrt_sqrt; lra).
  assert (PG : Rabs p <= g0). { apply Rsqr_incr_0; [|apply Rabs_pos|lra]. rewrite <- Rsqr_abs. unfold Rsqr. rewrite GG. lra. }
  set (K := 4 / g0 + 4 * (s1 + s2) / g0 ^ 2). assert (G2 : 0 < g0 ^ 2) by (now apply pow_lt).
  assert (K0 : 0 < K) by (unfold K; apply Rplus_lt_0_compat; apply Rdiv_lt_0_compat; lra).
  set (delta := Rmin (Rmin (s1 / 2) (s2 / 2)) (eps / K)). assert (D0 : 0 < delta) by (apply Rmin_pos; [apply Rmin_pos; lra|now apply Rdiv_lt_0_compat]).
  assert (D1 : delta <= s1 / 2) by (eapply Rle_trans; [apply Rmin_l|apply Rmin_l]). assert (D2 : delta <= s2 / 2) by (eapply Rle_trans; [apply Rmin_l|apply Rmin_r]).
  assert (D3 : delta * K <= eps). { assert (Q : delta <= eps / K) by apply Rmin_r. apply Rmult_le_compat_r with (r := K) in Q; [|lra]. unfold Rdiv in Q. rewrite Rmult_assoc, Rinv_l in Q by lra. lra. }
  clearbody delta. exists delta. split; [exact D0|]. intros x y z Hx Hy Hz. apply Rabs_def2 in Hx as [X1 X2]. apply Rabs_def2 in Hy as [Y1 Y2].
  assert (XY : s1 * s2 / 4 <= x * y) by nra. split; [nra|]. assert (XY0 : 0 < x * y) by nra. set (g := sqrt (x * y)). assert (GP : 0 < g) by (now apply sqrt_lt_R0). assert (Gg : g * g = x * y) by (apply sqrt_sqrt; lra).
  assert (GH : g0 / 2 <= g). { apply Rsqr_incr_0; [unfold Rsqr; lra|lra|lra]. }
  assert (DX : Rabs (x * y - s1 * s2) <= 2 * delta * (s1 + s2)) by (apply Rabs_le; split; nra).
  assert (DG : Rabs (g0 - g) * g0 <= 2 * delta * (s1 + s2)).
  { apply Rle_trans with (Rabs (x * y - s1 * s2)); [|trivial]. replace (x * y - s1 * s2) with (- ((g0 - g) * (g0 + g))) by (rewrite <- Gg, <- GG; ring). rewrite Rabs_Ropp, Rabs_mult.
    apply Rmult_le_compat_l; [apply Rabs_pos|]. rewrite Rabs_pos_eq by lra. lra. }
  replace (z / g - p / g0) with ((z - p) * / g + p * ((g0 - g) * / (g * g0))) by (field; lra).
  assert (I1 : / g <= 2 / g0). { apply Rmult_le_reg_r with (g * g0); [now apply Rmult_lt_0_compat|]. replace (/ g * (g * g0)) with g0 by (field; lra). replace (2 / g0 * (g * g0)) with (2 * g) by (field; lra). lra. }
  assert (I0 : 0 < / g) by (now apply Rinv_0_lt_compat).
  eapply Rle_trans; [apply Rabs_triang|]. rewrite !Rabs_mult. rewrite (Rabs_pos_eq (/ g)) by lra.
  assert (J0 : 0 < / (g * g0)) by (apply Rinv_0_lt_compat; now apply Rmult_lt_0_compat). rewrite (Rabs_pos_eq (/ (g * g0))) by lra.
  assert (T1 : Rabs (z - p) * / g <= 2 * delta * (2 / g0)) by (apply Rmult_le_compat; [apply Rabs_pos|lra|trivial|trivial]).
  assert (T2 : Rabs p * (Rabs (g0 - g) * / (g * g0)) <= 4 * delta * (s1 + s2) / g0 ^ 2).
  { apply Rle_trans with (g0 * (Rabs (g0 - g) * / (g * g0))); [apply Rmult_le_compat_r; [apply Rmult_le_pos; [apply Rabs_pos|lra]|trivial]|].
    replace (g0 * (Rabs (g0 - g) * / (g * g0))) with (Rabs (g0 - g) * g0 * (/ g * / g0)) by (field; lra).
    apply Rle_trans with (2 * delta * (s1 + s2) * (2 / g0 * / g0)).
    - apply Rmult_le_compat; [apply Rmult_le_pos; [apply Rabs_pos|lra]| |trivial|]. { left. apply Rmult_lt_0_compat; [trivial|now apply Rinv_0_lt_compat]. }
      apply Rmult_le_compat_r; [left; now apply Rinv_0_lt_compat|trivial].
    - right. field. lra. }
  apply Rle_trans with (delta * K); [|trivial]. apply Rle_trans with (2 * delta * (2 / g0) + 4 * delta * (s1 + s2) / g0 ^ 2); [lra|]. right. unfold K. field. lra.
Qed.

(** ** Adding signals adds the pairs *)
Lemma joint_sum c1 : forall c2 c3, length c1 = length c2 -> length c3 = length c2 -> no_inf c1 -> no_inf c2 -> no_inf c3 ->
  (forall k, (nth k c3 NaN = NaN <-> nth k c1 NaN = NaN) /\ (nth k c3 NaN = NaN <-> nth k c2 NaN = NaN) /\
     forall d1 d2, nth k c1 NaN = Fin d1 -> nth k c2 NaN = Fin d2 -> nth k c3 NaN = Fin (1 * d1 + 1 * d2)) ->
  reals c3 = map (fun p => fst p + snd p) (joint c1 c2) /\ map isnan c1 = map isnan c2.
Proof.
  induction c1 as [|x c1 IH]; intros [|y c2] [|z c3] L1 L2 N1 N2 N3 H; try discriminate; [split; reflexivity|].
  injection L1 as L1. injection L2 as L2. inversion N1 as [|? ? A1 B1]; inversion N2 as [|? ? A2 B2]; inversion N3 as [|? ? A3 B3]; subst.
  destruct (IH c2 c3 L1 L2 B1 B2 B3 (fun k => H (S k))) as [F G]. destruct (H 0%nat) as (U & V & X). cbn [nth] in U, V, X.
  destruct A1 as [->|[a ->]]; destruct A2 as [->|[b ->]]; destruct A3 as [->|[c ->]]; try (exfalso; (destruct (proj1 U eq_refl) || destruct (proj1 V eq_refl) || destruct (proj2 U eq_refl) || destruct (proj2 V eq_refl)); discriminate);
    try (discriminate (proj2 U eq_refl)); try (discriminate (proj2 V eq_refl)); try (discriminate (proj1 U eq_refl)); try (discriminate (proj1 V eq_refl)).
  - cbn [reals joint map isnan]. now rewrite G.
  - cbn [reals joint map isnan fst snd]. rewrite G, F. specialize (X a b eq_refl eq_refl). injection X as ->. split; [f_equal; ring|reflexivity].
Qed.
Lemma sum_square_pairs (l : list (R * R)) : Rsum (map (fun p => (fst p + snd p) * (fst p + snd p)) l) = Rsum (map (fun p => fst p ^ 2) l) + Rsum (map (fun p => snd p ^ 2) l) + 2 * Rsum (map (fun p => fst p * snd p) l).
Proof. induction l as [|p l IH]; [unfold Rsum; cbn; ring|]. cbn [map]. change (Rsum (?a :: ?m)) with (a + Rsum m). rewrite IH. ring. Qed.
Lemma rsum_sq (l : list R) : Rsum (map (fun x => x * x) l) = Rsum (map (fun x => x ^ 2) l).
Proof. apply Rsum_map_ext. intros. ring. Qed.

(** ** Two analyses and that of the sum *)
Section Pair.
Variables (u v s : list R) (N : nat) (w : wavelet) (ja : Z) (jb : option R) (gam norm : R) (weighted : bool) (t1 t2 t3 : wtransform) (ws1 ws2 ws3 : list warning).
Hypothesis Lu : length u = N.
Hypothesis Lv : length v = N.
Hypothesis N1 : (1 <= N)%nat.
Hypothesis Es : s = map2 (fun x y => 1 * x + 1 * y) u v.
Hypothesis Hw : good_wavelet w.
Hypothesis Hn : norm <> 0.
Hypothesis T1 : wavelet_analysis (map fin [u]) PNone w ja jb gam norm weighted = Ok (t1, ws1).
Hypothesis T2 : wavelet_analysis (map fin [v]) PNone w ja jb gam norm weighted = Ok (t2, ws2).
Hypothesis T3 : wavelet_analysis (map fin [s]) PNone w ja jb gam norm weighted = Ok (t3, ws3).
Let L := length (dec_hi w).
Lemma Ls : length s = N. Proof using Es Lu Lv. rewrite Es, map2_length, Lu, Lv. apply Nat.min_id. Qed.
Lemma F1 x : length x = N -> Forall (fun s : list R => length s = N) [x]. Proof using. intros H. constructor; [trivial|constructor]. Qed.
Lemma coherence_exists qa qb j1 j2 wd : (1 <= j1 <= j2)%nat -> In (Z.of_nat j2) (scales (wt_coefs t1)) -> NoDup qa -> NoDup qb -> incl [0; 1; 2] qa -> incl [0; 1; 2] qb ->
  exists st, BiStructureFunction (wt_coefs t1) (wt_coefs t2) (Z.of_nat j1) (Z.of_nat j2) (Some (QArr qa)) (Some (QArr qb)) wd = Ok st /\
  forall j, (j1 <= j <= j2)%nat -> (1 <= inner_count N L j)%nat -> let x := mean_sq (wt_coefs t1) (Z.of_nat j) 0 in let y := mean_sq (wt_coefs t2) (Z.of_nat j) 0 in let z := mean_sq (wt_coefs t3) (Z.of_nat j) 0 in
    0 < x * y -> b1 (bs_coherence st) (Z.of_nat j) = Fin ((z - x - y) / 2 / sqrt (x * y)).
Proof using All.
  intros Hj Hi Da Db Ia Ib. assert (Q1 := T1). assert (Q2 := T2). apply wa_inv in Q1 as (e1 & _ & E1 & _); trivial; [|exact Logic.I]. apply wa_inv in Q2 as (e2 & _ & E2 & _); trivial; [|exact Logic.I].
  assert (EC : ccount (map fin [u]) PNone w gam norm = ccount (map fin [v]) PNone w gam norm) by (now rewrite !(fin_ccount _ _ _ _ N) by (try exact Logic.I; trivial; try discriminate; now apply F1)).
  assert (PC : forall i, (1 <= i)%nat -> map pat (Cf (map fin [u]) w gam norm i) = map pat (Cf (map fin [v]) w gam norm i)) by (intros i Hi'; now rewrite !(fin_Cf_pats _ _ _ _ N) by (trivial; now apply F1)).
  set (g := ccount (map fin [u]) PNone w gam norm) in *.
  assert (M1 : wt_coefs t1 = mrq_of WaveletCoef gam (Cf (map fin [u]) w gam norm) g) by (rewrite E1; reflexivity).
  assert (M2 : wt_coefs t2 = mrq_of WaveletCoef gam (Cf (map fin [v]) w gam norm) g) by (rewrite E2, EC; reflexivity).
  assert (SC : scales (wt_coefs t1) = one_to g) by (rewrite M1; apply scales_mrq).
  assert (G1 : (Z.of_nat j2 <= Z.of_nat g)%Z) by (rewrite SC in Hi; apply one_to_In in Hi; lia).
  assert (R1 : regular (wt_coefs t1) g 1) by (rewrite M1; apply (table_regular WaveletCoef); [lia|intros; apply Cf_length]).
  assert (R2 : regular (wt_coefs t2) g 1) by (rewrite M2; apply (table_regular WaveletCoef); [lia|intros; apply Cf_length]).
  assert (C1 : counted (wt_coefs t1)) by (rewrite M1; apply table_counted; reflexivity).
  assert (C2 : counted (wt_coefs t2)) by (rewrite M2; apply table_counted; reflexivity).
  assert (HA : forall j, In j (scales (wt_coefs t1)) -> aligned (wt_coefs t1) (wt_coefs t2) j /\ same_nans (wt_coefs t1) (wt_coefs t2) j /\ count (wt_coefs t1) j 0 = count (wt_coefs t2) j 0).
  { intros j Hj'. rewrite SC in Hj'. rewrite M1, M2. apply tables_aligned; trivial; try (intros i; apply Cf_no_inf). intros i Hi'. apply PC, Hi'. }
  assert (K := C55_needed_moments (wt_coefs t1) (wt_coefs t2) g (Some (QArr qa)) (Some (QArr qb)) (Z.of_nat j1) (Z.of_nat j2) wd R1 R2 C1 C2 ltac:(lia) ltac:(lia) ltac:(lia) ltac:(now rewrite M1, M2) ltac:(now rewrite M1, M2)
    (fun j Hj => conj (proj2 (proj2 (HA j Hj))) (proj1 (proj1 (HA j Hj)))) Da Db).
  destruct K as [_ K]. destruct K as [st ES]; [auto|]. exists st. split; [exact ES|]. intros j Hjj Hc x y z XY.
  destruct (C55_coherence (wt_coefs t1) (wt_coefs t2) g qa qb (Z.of_nat j1) (Z.of_nat j2) wd st R1 R2 ltac:(lia) ltac:(lia) ltac:(lia) (fun j Hj => proj1 (HA j Hj)) ES) as [_ KC].
  assert (IJ : In (Z.of_nat j) (scales (wt_coefs t1))) by (rewrite SC; apply one_to_In; lia).
  specialize (KC _ IJ). cbv zeta in KC. destruct KC as [_ KC].
  destruct (HA _ IJ) as ((LA & NI1 & NI2) & SN & _).
  (* the sum *)
  assert (CS : [s] = combine_signals 1 1 [u] [v]) by (rewrite Es; reflexivity).
  assert (T3' := T3). rewrite CS in T3'.
  destruct (C16_linear [u] [v] N 1 1 w PNone ja jb gam norm weighted t1 t2 t3 ws1 ws2 ws3 (F1 u Lu) (F1 v Lv) eq_refl Hw Hn Logic.I T1 T2 T3') as (S3 & _ & _ & EN).
  assert (IJ3 : In (Z.of_nat j) (scales (wt_coefs t3))) by (now rewrite S3).
  assert (IJ2 : In (Z.of_nat j) (scales (wt_coefs t2))) by (rewrite (proj1 (proj2 R2)); apply one_to_In; lia).
  assert (US : forall t k, entry (wt_coefs t) (Z.of_nat j) 0 k = nth k (column (wt_coefs t) (Z.of_nat j) 0) NaN).
  { intros t k. unfold entry, column. destruct (dict_get _ _); [reflexivity|]. now destruct k. }
  destruct (column_facts (fun _ : unit => [u]) N 1 w PNone ja jb gam norm weighted (fun _ => t1) (fun _ => ws1) (fun _ => conj eq_refl (F1 u Lu)) Hw Hn Logic.I (fun _ => T1) j 0 tt ltac:(lia) IJ ltac:(lia)) as (A1 & A2 & A3 & _).
  destruct (column_facts (fun _ : unit => [v]) N 1 w PNone ja jb gam norm weighted (fun _ => t2) (fun _ => ws2) (fun _ => conj eq_refl (F1 v Lv)) Hw Hn Logic.I (fun _ => T2) j 0 tt ltac:(lia) IJ2 ltac:(lia)) as (B1 & B2 & B3 & _).
  destruct (column_facts (fun _ : unit => [s]) N 1 w PNone ja jb gam norm weighted (fun _ => t3) (fun _ => ws3) (fun _ => conj eq_refl (F1 s Ls)) Hw Hn Logic.I (fun _ => T3) j 0 tt ltac:(lia) IJ3 ltac:(lia)) as (D1 & D2 & D3 & _).
  fold L in A3, B3, D3.
  destruct (joint_sum (column (wt_coefs t1) (Z.of_nat j) 0) (column (wt_coefs t2) (Z.of_nat j) 0) (column (wt_coefs t3) (Z.of_nat j) 0) LA ltac:(now rewrite B2, D2) A1 B1 D1) as [F3 SN'].
  { intros k. specialize (EN (Z.of_nat j) 0%nat k). now rewrite !US in EN. }
  destruct (joint_fst _ _ SN NI1 NI2) as [J1 J2]. fold (pairs (wt_coefs t1) (wt_coefs t2) (Z.of_nat j)) in J1, J2, F3. set (l := pairs (wt_coefs t1) (wt_coefs t2) (Z.of_nat j)) in *.
  set (cnt := INR (inner_count N L j)). assert (c0 : 0 < cnt) by (apply lt_0_INR; lia).
  assert (XX : Rsum (map (fun p => fst p ^ 2) l) = cnt * x). { unfold x, mean_sq, mean, numbers. rewrite map_length, A3, <- J1, !map_map. fold cnt. replace (map (fun x : R * R => fst x * fst x) l) with (map (fun p : R * R => fst p ^ 2) l) by (apply map_ext; intros; ring). field. lra. }
  assert (YY : Rsum (map (fun p => snd p ^ 2) l) = cnt * y). { unfold y, mean_sq, mean, numbers. rewrite map_length, B3, <- J2, !map_map. fold cnt. replace (map (fun x : R * R => snd x * snd x) l) with (map (fun p : R * R => snd p ^ 2) l) by (apply map_ext; intros; ring). field. lra. }
  assert (ZZ : Rsum (map (fun p => (fst p + snd p) * (fst p + snd p)) l) = cnt * z). { unfold z, mean_sq, mean, numbers. rewrite map_length, D3, F3, !map_map. fold cnt. field. lra. }
  rewrite sum_square_pairs in ZZ. rewrite XX, YY in *. destruct KC as [-> _]; [replace (cnt * x * (cnt * y)) with (cnt ^ 2 * (x * y)) by ring; apply Rmult_lt_0_compat; [now apply pow_lt|trivial]|].
  f_equal. replace (Rsum (map (fun p => fst p * snd p) l)) with (cnt * ((z - x - y) / 2)) by lra. replace (cnt * x * (cnt * y)) with (cnt ^ 2 * (x * y)) by ring.
  assert (S0 : 0 < sqrt (x * y)) by (now apply sqrt_lt_R0). rewrite sqrt_mult by (try apply pow2_ge_0; lra). rewrite sqrt_pow2 by lra. field. lra.
Qed.
End Pair.

(** ** Concentration of the mean power *)
Definition concentrated (w : wavelet) (v : Z -> R) (j : nat) (s delta q C0 : R) : Prop :=
  forall W (P : expectation W) I (idx : I -> Prop) (z : I -> W -> R) (S : W -> list (list R)) N nrep ja jb gam norm weighted (T : W -> wtransform) (ws : W -> list warning) r amp,
  (forall o, length (S o) = nrep /\ Forall (fun s => length s = N) (S o)) -> norm <> 0 -> (forall o, wavelet_analysis (map fin (S o)) PNone w ja jb gam norm weighted = Ok (T o, ws o)) ->
  (r < nrep)%nat -> (forall o, In (Z.of_nat j) (scales (wt_coefs (T o)))) -> (forall i, (i < N)%nat -> combination idx z (fun o => nth i (nth r (S o) []) 0)) -> white P idx z -> gaussian4 P idx z -> 0 < amp ->
  (forall k k', inner N (length (dec_hi w)) j k -> inner N (length (dec_hi w)) j k' ->
     E P (fun o => number (entry (wt_coefs (T o)) (Z.of_nat j) r k) * number (entry (wt_coefs (T o)) (Z.of_nat j) r k')) = factor norm gam j ^ 2 * (s * (amp * high_cov w v j (Z.of_nat k - Z.of_nat k')))) ->
  (1 <= inner_count N (length (dec_hi w)) j)%nat -> C0 <= INR (inner_count N (length (dec_hi w)) j) ->
  let f := factor norm gam j ^ 2 * amp in
  prob_at_most P (fun o => f * delta <= Rabs (mean_sq (wt_coefs (T o)) (Z.of_nat j) r - f * (s * high_cov w v j 0))) q.
Lemma concentrated_mono w v j s delta q C C' : C <= C' -> concentrated w v j s delta q C -> concentrated w v j s delta q C'.
Proof. intros HC H W P I idx z S N nrep ja jb gam norm wd T ws r amp H1 H2 H3 H4 H5 H6 H7 H8 H9 H10 H11 H12. apply (H W P I idx z S N nrep ja jb gam norm wd T ws r amp); trivial. lra. Qed.
Lemma concentrate w v j s delta q : good_wavelet w -> (1 <= j)%nat -> fades w v j -> 0 < delta -> 0 < q -> exists C0, concentrated w v j s delta q C0.
Proof.
  intros Hw J1 HF Hd Hq. set (t := q * delta ^ 2 / (s ^ 2 + 1)). assert (s2 := pow2_ge_0 s). assert (d2 : 0 < delta ^ 2) by (now apply pow_lt).
  assert (t0 : 0 < t) by (apply Rdiv_lt_0_compat; [now apply Rmult_lt_0_compat|lra]).
  assert (TS : s ^ 2 * t <= q * delta ^ 2). { unfold t. replace (s ^ 2 * (q * delta ^ 2 / (s ^ 2 + 1))) with (q * delta ^ 2 * (s ^ 2 / (s ^ 2 + 1))) by (field; lra). rewrite <- (Rmult_1_r (q * delta ^ 2)) at 2. apply Rmult_le_compat_l; [left; now apply Rmult_lt_0_compat|].
    apply Rmult_le_reg_r with (s ^ 2 + 1); [lra|]. unfold Rdiv. rewrite Rmult_assoc, Rinv_l by lra. lra. }
  destruct (HF (t / 4) ltac:(lra)) as (A & L0 & A0 & HA). exists (8 * (INR (Datatypes.S L0) * A) / t).
  intros W P I idx z S N nrep ja jb gam norm wd T ws r amp HS Hn HT Hr HI Hlin Hwh Hga amp0 HM2 C1 HC f.
  set (L := length (dec_hi w)) in *. set (cnt := inner_count N L j) in *. assert (cnt0 : 0 < INR cnt) by (apply lt_0_INR; lia).
  assert (L1 : (1 <= L)%nat) by (unfold L; destruct Hw as [K _]; clear - K; lia).
  assert (f0 : 0 < f) by (apply Rmult_lt_0_compat; [apply pow_lt, exp_pos|trivial]).
  assert (HE : 2 * (2 * (INR (Datatypes.S L0) * A) + INR cnt * (t / 4)) <= INR cnt * t).
  { assert (8 * (INR (Datatypes.S L0) * A) <= INR cnt * t). { apply Rmult_le_compat_r with (r := t) in HC; [|lra]. unfold Rdiv in HC. rewrite Rmult_assoc, Rinv_l in HC by lra. lra. } lra. }
  assert (B := mean_fluct2 P idx z S N nrep w PNone ja jb gam norm wd T ws r j HS Hw Hn Logic.I HT Hr J1 HI Hlin Hwh Hga C1 ((f * s) ^ 2 * (2 * (INR (Datatypes.S L0) * A) + INR cnt * (t / 4)))).
  cbv beta zeta in B. destruct B as (B1 & B2 & B3).
  { fold L. intros k IN. set (lst := filter (innerb N L j) (seq 0 (N / 2 ^ j))).
    rewrite (Rsum_map_ext _ (fun k' => (f * s) ^ 2 * high_cov w v j (Z.of_nat k - Z.of_nat k') ^ 2)).
    - rewrite Rsum_scal_map. apply Rmult_le_compat_l; [apply pow2_ge_0|]. unfold cnt. rewrite <- (inner_total N L j L1 J1). fold lst. apply fades_sum; trivial; [lra|]. apply NoDup_filter, seq_NoDup.
    - intros k' Hk'. apply filter_In in Hk' as [_ Hk']. unfold innerb in Hk'. destruct (inner_dec N L j k') as [IN'|]; [|discriminate]. rewrite (HM2 k k' IN IN'). unfold f. ring. }
  set (mu := f * (s * high_cov w v j 0)).
  assert (EM : E P (fun o => mean_sq (wt_coefs (T o)) (Z.of_nat j) r) = mu).
  { destruct (mean_power P S N nrep w PNone ja jb gam norm wd T ws HS Hw Hn Logic.I HT j r mu J1 HI Hr C1) as [_ Q]; [|exact Q].
    intros k IN. split; [|fold L in IN; rewrite (HM2 k k IN IN), Z.sub_diag; unfold mu, f; ring].
    apply (comb_int2 idx z P Hwh); apply (coef_comb P idx z S N nrep w PNone ja jb gam norm wd T ws r j HS Hw Hn Logic.I HT Hr J1 HI Hlin). }
  rewrite EM in B2, B3. eapply prob_weaken; [|apply Rle_refl|eapply prob_weaken; [intros o Ho; exact Ho| |apply (chebyshev P (fun o => mean_sq (wt_coefs (T o)) (Z.of_nat j) r) mu (f ^ 2 * (q * delta ^ 2)) (f * delta))]].
  - intros o Ho. exact Ho.
  - right. field. split; lra.
  - now apply Rmult_lt_0_compat.
  - exact B2.
  - eapply Rle_trans; [exact B3|]. fold L cnt. apply Rmult_le_reg_r with (INR cnt); [trivial|]. unfold Rdiv at 1. rewrite Rmult_assoc, Rinv_l, Rmult_1_r by lra.
    replace (2 * ((f * s) ^ 2 * (2 * (INR (Datatypes.S L0) * A) + INR cnt * (t / 4)))) with ((f * s) ^ 2 * (2 * (2 * (INR (Datatypes.S L0) * A) + INR cnt * (t / 4)))) by ring.
    apply Rle_trans with ((f * s) ^ 2 * (INR cnt * t)); [apply Rmult_le_compat_l; [apply pow2_ge_0|exact HE]|].
    replace ((f * s) ^ 2 * (INR cnt * t)) with (f ^ 2 * INR cnt * (s ^ 2 * t)) by ring. replace (f ^ 2 * (q * delta ^ 2) * INR cnt) with (f ^ 2 * INR cnt * (q * delta ^ 2)) by ring.
    apply Rmult_le_compat_l; [apply Rmult_le_pos; [apply pow2_ge_0|lra]|exact TS].
Qed.

(** ** Mixtures of two uncorrelated realisations *)
Definition mixed (al be : R) (x y : list R) : list R := map2 (fun a b => al * a + be * b) x y.
Section Mix.
Context {W I : Type} (P : expectation W) (idx : I -> Prop) (z : I -> W -> R).
Variables (x y : W -> list R) (N : nat) (A : nat -> R) (v : Z -> R) (amp : R).
Hypothesis Hwh : white P idx z.
Hypothesis Hx : forall o, length (x o) = N.
Hypothesis Hy : forall o, length (y o) = N.
Hypothesis Cx : forall i, (i < N)%nat -> combination idx z (fun o => nth i (x o) 0).
Hypothesis Cy : forall i, (i < N)%nat -> combination idx z (fun o => nth i (y o) 0).
Hypothesis Exx : forall i k, (i < N)%nat -> (k < N)%nat -> E P (fun o => nth i (x o) 0 * nth k (x o) 0) = A i + A k + amp * v (Z.of_nat i - Z.of_nat k)%Z.
Hypothesis Eyy : forall i k, (i < N)%nat -> (k < N)%nat -> E P (fun o => nth i (y o) 0 * nth k (y o) 0) = A i + A k + amp * v (Z.of_nat i - Z.of_nat k)%Z.
Hypothesis Exy : forall i k, (i < N)%nat -> (k < N)%nat -> E P (fun o => nth i (x o) 0 * nth k (y o) 0) = 0.
Lemma mixed_length al be o : length (mixed al be (x o) (y o)) = N.
Proof using Hx Hy. unfold mixed. rewrite map2_length, Hx, Hy. apply Nat.min_id. Qed.
Lemma mixed_nth al be i o : (i < N)%nat -> nth i (mixed al be (x o) (y o)) 0 = al * nth i (x o) 0 + be * nth i (y o) 0.
Proof using Hx Hy. intros Hi. unfold mixed. rewrite (nth_map2 _ _ _ _ 0 0) by (rewrite ?Hx, ?Hy; trivial). reflexivity. Qed.
Lemma mixed_comb al be i : (i < N)%nat -> combination idx z (fun o => nth i (mixed al be (x o) (y o)) 0).
Proof using Hx Hy Cx Cy.
  intros Hi. apply (comb_ext idx z (fun o => al * nth i (x o) 0 + be * nth i (y o) 0)); [intros o; now rewrite mixed_nth|].
  apply (comb_plus idx z (fun o => al * nth i (x o) 0) (fun o => be * nth i (y o) 0)); apply (comb_scal idx z); auto.
Qed.
Lemma mixed_increments al be : stationary_increments P N (fun o => mixed al be (x o) (y o)) (fun i => (al ^ 2 + be ^ 2) * A i) (fun d => (al ^ 2 + be ^ 2) * (amp * v d)).
Proof using All.
  split; [apply mixed_length|]. split; [intros i Hi; exact (comb_int idx z P Hwh _ (mixed_comb al be i Hi))|].
  intros i k Hi Hk. split; [apply (comb_int2 idx z P Hwh _ _ (mixed_comb al be i Hi) (mixed_comb al be k Hk))|].
  set (xi o := nth i (x o) 0) in *. set (xk o := nth k (x o) 0). set (yi o := nth i (y o) 0). set (yk o := nth k (y o) 0).
  assert (I1 := comb_int2 idx z P Hwh _ _ (Cx i Hi) (Cx k Hk)). assert (I2 := comb_int2 idx z P Hwh _ _ (Cy i Hi) (Cy k Hk)).
  assert (I3 := comb_int2 idx z P Hwh _ _ (Cx i Hi) (Cy k Hk)). assert (I4 := comb_int2 idx z P Hwh _ _ (Cx k Hk) (Cy i Hi)).
  assert (K : forall o, (al ^ 2 * (xi o * xk o) + be ^ 2 * (yi o * yk o)) + (al * be * (xi o * yk o) + al * be * (xk o * yi o)) = nth i (mixed al be (x o) (y o)) 0 * nth k (mixed al be (x o) (y o)) 0).
  { intros o. rewrite !mixed_nth by trivial. unfold xi, xk, yi, yk. ring. }
  rewrite <- (E_ext W P _ _ K).
  assert (J1 := int_scal W P (al ^ 2) (fun o => xi o * xk o) I1). assert (J2 := int_scal W P (be ^ 2) (fun o => yi o * yk o) I2).
  assert (J3 := int_scal W P (al * be) (fun o => xi o * yk o) I3). assert (J4 := int_scal W P (al * be) (fun o => xk o * yi o) I4).
  assert (J12 := int_plus W P _ _ J1 J2). assert (J34 := int_plus W P _ _ J3 J4).
  rewrite (E_plus W P _ _ J12 J34), (E_plus W P _ _ J1 J2), (E_plus W P _ _ J3 J4).
  rewrite (E_scal W P (al ^ 2) (fun o => xi o * xk o) I1), (E_scal W P (be ^ 2) (fun o => yi o * yk o) I2), (E_scal W P (al * be) (fun o => xi o * yk o) I3), (E_scal W P (al * be) (fun o => xk o * yi o) I4).
  unfold xi, xk, yi, yk. rewrite Exx, Eyy, !Exy by trivial. ring.
Qed.
End Mix.
