(** * C125: the structure function of simulated Gaussian signals finds them monofractal *)
From Coq Require Import Reals List ZArith Bool Lra Lia String Classical_Prop.
From Verif Require Import XReal PyBase ModelUtils ModelMRQ ModelStructure ModelWavelet ModelSimul Spec SpecMRQ SpecSimul LXReal LUtils LBase LFilter LTransform LPattern LWave LPoly LCone LMoment LWaveEst LDft LSimul LEst LReg LNoise
  PropsEstimators PropsWavelet PropsMissing PropsSlope PropsWhite PropsWhitePower PropsWhiteCase PropsSimul PropsWhiteFbm PropsRounded LTaps PropsDecorr PropsShortRange PropsHaarFgn PropsHaarFbm PropsStable LWick PropsFluct PropsConsist PropsConsistGen PropsMrwHaar2 LWick8.
Import ListNotations.
Open Scope R_scope.
Local Notation length := List.length.
Local Notation entry := SpecMRQ.entry.

(** ** Fluctuations of the mean fourth power of the coefficients of a scale *)
Section Fluct.
Context {W I : Type} (P : expectation W) (idx : I -> Prop) (z : I -> W -> R).
Variables (S : W -> list (list R)) (n nrep : nat) (w : wavelet) (p : pexp) (j1 : Z) (j2 : option R) (gam norm : R) (weighted : bool) (T : W -> wtransform) (ws : W -> list warning) (r j : nat).
Hypothesis HS : forall o, length (S o) = nrep /\ Forall (fun s => length s = n) (S o).
Hypothesis Hw : good_wavelet w.
Hypothesis Hn : norm <> 0.
Hypothesis Hp : p_ok p.
Hypothesis HT : forall o, wavelet_analysis (map fin (S o)) p w j1 j2 gam norm weighted = Ok (T o, ws o).
Hypothesis Hr : (r < nrep)%nat.
Hypothesis Hj : (1 <= j)%nat.
Hypothesis HI : forall o, In (Z.of_nat j) (scales (wt_coefs (T o))).
Hypothesis HX : forall i, (i < n)%nat -> combination idx z (fun o => nth i (nth r (S o) []) 0).
Let L := length (dec_hi w).
Let c k o := number (entry (wt_coefs (T o)) (Z.of_nat j) r k).
Hypothesis Hwhite : white P idx z.
Hypothesis Hgauss : gaussian8 P idx z.
Hypothesis H1 : (1 <= inner_count n L j)%nat.
Let M o := abs_moment 4 (numbers (wt_coefs (T o)) (Z.of_nat j) r).
Lemma c_comb k : combination idx z (c k).
Proof using All. exact (coef_comb P idx z S n nrep w p j1 j2 gam norm weighted T ws r j HS Hw Hn Hp HT Hr Hj HI HX k). Qed.
Lemma c_zero k o : ~ inner n L j k -> c k o = 0.
Proof using All. exact (not_inner_zero P idx z S n nrep w p j1 j2 gam norm weighted T ws r j HS Hw Hn Hp HT Hr Hj HI HX k o). Qed.
Lemma M_value o : / INR (inner_count n L j) * sumn (n / 2 ^ j) (fun k => c k o ^ 4) = M o.
Proof using All.
  set (F := fun x : R => x ^ 4). assert (F0 : F 0 = 0) by (unfold F; ring).
  destruct (column_facts S n nrep w p j1 j2 gam norm weighted T ws HS Hw Hn Hp HT j r o Hj (HI o) Hr) as (A1 & A2 & A3 & A4). unfold M. rewrite abs_moment_4. change (fun x : R => x ^ 4) with F. unfold mean, numbers.
  rewrite map_length, A3, reals_sum_map, A2 by trivial. unfold Rdiv. rewrite Rmult_comm. f_equal. apply sumn_ext. intros k Hk. unfold c, SpecMRQ.entry, column. change (?x ^ 4) with (F x). destruct (dict_get _ _); [reflexivity|]. now destruct k.
Qed.
(** the mean, when every coefficient has the variance v, and the fluctuations *)
Lemma mean_fluct4 v D : (forall k, inner n L j k -> E P (fun o => c k o * c k o) = v) ->
  (forall k, inner n L j k -> Rsum (map (fun k' => 72 * (v * v) * E P (fun o => c k o * c k' o) ^ 2 + 24 * E P (fun o => c k o * c k' o) ^ 4) (filter (innerb n L j) (seq 0 (n / 2 ^ j)))) <= D) ->
  integrable P M /\ E P M = 3 * v ^ 2 /\ integrable P (fun o => (M o - E P M) ^ 2) /\ E P (fun o => (M o - E P M) ^ 2) <= D / INR (inner_count n L j).
Proof using All.
  intros HV HD. set (K := (n / 2 ^ j)%nat) in *. set (cnt := INR (inner_count n L j)). assert (c0 : 0 < cnt) by (apply lt_0_INR; lia).
  assert (V : forall o, / cnt * sumn K (fun k => c k o ^ 4) = M o) by (intros o; apply M_value).
  assert (I4 : forall k, integrable P (fun o => c k o ^ 4) /\ E P (fun o => c k o ^ 4) = 3 * E P (fun o => c k o * c k o) ^ 2) by (intros k; apply (comb_pow4' idx z P Hgauss), c_comb).
  assert (Z2 : forall k l, ~ inner n L j k \/ ~ inner n L j l -> E P (fun o => c k o * c l o) = 0).
  { intros k l NK. rewrite (E_ext W P _ (fun _ => 0)); [apply E_zero|]. intros o. destruct NK as [NK|NK]; rewrite (c_zero _ o NK); ring. }
  destruct (sum4_var idx z P Hwhite Hgauss K c (fun k _ => c_comb k)) as [A B]. set (s := sumn K (fun k => E P (fun o => c k o ^ 4))) in *.
  assert (IM : integrable P M). { apply (int_ext W P _ _ V). apply (int_scal W P (/ cnt) (fun o => sumn K (fun k => c k o ^ 4))). apply (int_sumn P K (fun k o => c k o ^ 4)). intros; apply I4. }
  assert (EM : E P M = / cnt * s).
  { rewrite <- (E_ext W P _ _ V). rewrite (E_scal W P (/ cnt) (fun o => sumn K (fun k => c k o ^ 4))) by (apply (int_sumn P K (fun k o => c k o ^ 4)); intros; apply I4).
    f_equal. apply (E_sumn P K (fun k o => c k o ^ 4)). intros; apply I4. }
  assert (Es : s = cnt * (3 * v ^ 2)).
  { unfold s, cnt. rewrite <- inner_total by (trivial; destruct Hw; unfold L; lia). fold K. rewrite <- sumn_indicator. apply sumn_ext. intros k Hk. rewrite (proj2 (I4 k)). unfold innerb. destruct (inner_dec n L j k) as [IN|IN]; [now rewrite HV|]. rewrite Z2 by (now left). ring. }
  assert (G : forall o, / cnt ^ 2 * (sumn K (fun k => c k o ^ 4) - s) ^ 2 = (M o - E P M) ^ 2) by (intros o; rewrite <- V, EM; field; lra).
  split; [exact IM|]. split; [rewrite EM, Es; field; lra|]. split; [apply (int_ext W P _ _ G); now apply (int_scal W P (/ cnt ^ 2) (fun o => (sumn K (fun k => c k o ^ 4) - s) ^ 2))|].
  rewrite <- (E_ext W P _ _ G). rewrite (E_scal W P (/ cnt ^ 2) (fun o => (sumn K (fun k => c k o ^ 4) - s) ^ 2) A). rewrite B.
  assert (Q : sumn K (fun k => sumn K (fun l => 72 * (E P (fun o => c k o * c k o) * E P (fun o => c l o * c l o)) * E P (fun o => c k o * c l o) ^ 2 + 24 * E P (fun o => c k o * c l o) ^ 4)) <= cnt * D).
  { unfold cnt. rewrite <- inner_total by (trivial; destruct Hw; unfold L; lia). fold K. rewrite <- sumn_indicator. apply sumn_le. intros k Hk. unfold innerb at 1. destruct (inner_dec n L j k) as [IN|IN].
    - eapply Rle_trans; [|apply (HD k IN)]. right. unfold sumn.
      rewrite (Rsum_map_ext _ (fun l => 72 * (v * v) * E P (fun o => c k o * c l o) ^ 2 + 24 * E P (fun o => c k o * c l o) ^ 4)).
      + apply filter_sum. intros l Hl. unfold innerb in Hl. destruct (inner_dec n L j l) as [|NL]; [discriminate|]. rewrite Z2 by (now right). ring.
      + intros l _. destruct (inner_dec n L j l) as [IL|NL]; [now rewrite !HV|]. rewrite !(Z2 k l) by (now right). ring.
    - rewrite (sumn_ext K _ (fun _ => 0)); [rewrite sumn_const; lra|]. intros l _. rewrite !(Z2 k l) by (now left). ring. }
  apply Rle_trans with (/ cnt ^ 2 * (cnt * D)); [apply Rmult_le_compat_l; [left; apply Rinv_0_lt_compat, pow_lt; trivial|exact Q]|]. right. field. lra.
Qed.
End Fluct.

(** ** The exponents read from a transform whose mean powers are close to those of Gaussian coefficients *)
Section Read.
Variables (S : list (list R)) (n : nat) (w : wavelet) (p : pexp) (ja : Z) (jb : option R) (gam norm : R) (weighted : bool) (t : wtransform) (ws : list warning).
Hypothesis HS : Forall (fun s => length s = n) S.
Hypothesis Hw : good_wavelet w.
Hypothesis Hn : norm <> 0.
Hypothesis Hp : p_ok p.
Hypothesis HT : wavelet_analysis (map fin S) p w ja jb gam norm weighted = Ok (t, ws).
Let lm q j r := log2R (abs_moment q (numbers (wt_coefs t) (Z.of_nat j) r)).
Lemma mono_near qs i2 i4 (j1 j2 : nat) wd r b eps : nth_error qs i2 = Some 2 -> nth_error qs i4 = Some 4 -> (1 <= j1 < j2)%nat -> In (Z.of_nat j2) (scales (wt_coefs t)) -> (r < length S)%nat ->
  (forall j, (j1 <= j <= j2)%nat -> (1 <= inner_count n (length (dec_hi w)) j)%nat /\
     0 < abs_moment 2 (numbers (wt_coefs t) (Z.of_nat j) r) /\ 0 < abs_moment 4 (numbers (wt_coefs t) (Z.of_nat j) r) /\ Rabs (lm 4 j r - 2 * lm 2 j r - b) <= eps) ->
  exists s z2 z4, StructureFunction (wt_coefs t) (QArr qs) (Z.of_nat j1) (Z.of_nat j2) wd = Ok s /\ at2 (sf_zeta s) i2 r = Fin z2 /\ at2 (sf_zeta s) i4 r = Fin z4 /\ Rabs (z4 - 2 * z2) <= 2 * eps.
Proof using All.
  intros Q2 Q4 Hj I2 Hr HV. assert (CN := C99_count S n w p ja jb gam norm weighted t ws HS Hw Hn Hp HT).
  assert (CF := fun j => column_facts (fun _ : unit => S) n (length S) w p ja jb gam norm weighted (fun _ => t) (fun _ => ws) (fun _ => Logic.conj eq_refl HS) Hw Hn Hp (fun _ => HT) j r tt).
  assert (E := HT). apply wa_inv in E as (eta & _ & ET & _ & _ & _ & NA); trivial.
  assert (SC : scales (wt_coefs t) = one_to (ccount (map fin S) p w gam norm)) by (rewrite ET; apply PropsWavelet.scales_mrq).
  set (g := ccount (map fin S) p w gam norm) in *. rewrite SC in I2. apply one_to_In in I2.
  assert (HR : regular (wt_coefs t) g (length S)). { rewrite ET. cbn [the_wt wt_coefs]. rewrite <- (map_length fin S). apply coefs_regular. fold g. lia. }
  assert (IN : forall j, (j1 <= j <= j2)%nat -> In (Z.of_nat j) (scales (wt_coefs t))) by (intros j Hjj; rewrite SC; apply one_to_In; lia).
  unfold lm in HV. set (m := wt_coefs t) in *. set (y := fun (q : R) (j : Z) => log2R (abs_moment q (numbers m j r))).
  assert (LS : forall q, q = 2 \/ q = 4 -> forall j, (Z.of_nat j1 <= j <= Z.of_nat j2)%Z -> logS m (PyFloat q) r j = Fin (y q j)).
  { intros q Hq j Hjj. rewrite <- (Z2Nat.id j) by lia. set (i := Z.to_nat j). assert (Hi : (j1 <= i <= j2)%nat) by lia. destruct (HV i Hi) as (C1 & V2 & V4 & _). destruct (CF i ltac:(lia) (IN i Hi) Hr) as (NI & _ & LR & _).
    apply logS_eq; [split; [exact NI|]|left; destruct Hq; lra|destruct Hq as [->| ->]; trivial]. unfold numbers. intros X. fold m in LR. rewrite X in LR. cbn in LR. lia. }
  assert (WP : forall y, well_posed (fit_points wd m (Z.of_nat j1) (Z.of_nat j2) r y)).
  { intros y'. apply fit_well_posed; [lia|]. intros j Hjj. rewrite <- (Z2Nat.id j) by lia. rewrite (CN (Z.to_nat j) r) by (trivial; apply IN; lia). destruct (HV (Z.to_nat j) ltac:(lia)) as [C1 _]. lia. }
  assert (FS := fun q => proj1 (fit_finite wd m (Z.of_nat j1) (Z.of_nat j2) r (y q) (WP (y q)))).
  assert (ES := SF_eq m g (length S) HR qs (Z.of_nat j1) (Z.of_nat j2) wd ltac:(lia) ltac:(lia) ltac:(lia)). assert (H2 : has_two qs = true) by (apply has_two_In; now apply nth_error_In in Q2). rewrite H2 in ES.
  eexists. exists (slope (fit_points wd m (Z.of_nat j1) (Z.of_nat j2) r (y 2))), (slope (fit_points wd m (Z.of_nat j1) (Z.of_nat j2) r (y 4))). split; [exact ES|].
  assert (ROW := fun q i (Qi : nth_error qs i = Some q) => proj1 (proj2 (SF_rows m g (length S) qs (Z.of_nat j1) (Z.of_nat j2) wd _ HR ltac:(lia) ltac:(lia) ltac:(lia) ES i r ltac:(apply nth_error_Some; congruence) Hr))).
  assert (NQ : forall q i, nth_error qs i = Some q -> nth i qs 0 = q) by (intros q i Qi; now apply nth_error_nth).
  split; [rewrite (ROW 2 i2 Q2), (NQ 2 i2 Q2), (fslope_ext wd m _ _ r _ (fun j => Fin (y 2 j)) (LS 2 (or_introl eq_refl))); apply FS|].
  split; [rewrite (ROW 4 i4 Q4), (NQ 4 i4 Q4), (fslope_ext wd m _ _ r _ (fun j => Fin (y 4 j)) (LS 4 (or_intror eq_refl))); apply FS|].
  assert (DN : forall y, D (fit_points wd m (Z.of_nat j1) (Z.of_nat j2) r y) <> 0) by (intros y'; assert (Q := D_pos _ (WP y')); lra).
  match goal with |- Rabs (?a4 - 2 * ?a2) <= _ => replace (a4 - 2 * a2) with (a4 - a2 - a2) by ring end.
  rewrite slope_sub by apply DN. rewrite slope_sub by apply DN. set (u := fun j => y 4 j - y 2 j - y 2 j). set (pts := fit_points wd m (Z.of_nat j1) (Z.of_nat j2) r u).
  replace (slope pts) with (slope pts - 0) by ring. apply slope_near; [apply WP|]. intros a c Ha Hc. unfold pts, fit_points in Ha, Hc. apply in_map_iff in Ha as (i & <- & Hi). apply in_map_iff in Hc as (k & <- & Hk). apply zrange_In in Hi, Hk. cbn [px py fst snd].
  assert (Q : forall l : Z, (Z.of_nat j1 <= l <= Z.of_nat j2)%Z -> Rabs (u l - b) <= eps).
  { intros l Hl. destruct (HV (Z.to_nat l) ltac:(lia)) as (_ & _ & _ & Q). rewrite Z2Nat.id in Q by lia. replace (u l - b) with (y 4 l - 2 * y 2 l - b) by (unfold u; ring). exact Q. }
  assert (A := Q i ltac:(lia)). assert (B := Q k ltac:(lia)).
  destruct (Z.eq_dec i k) as [->|nik]. { replace (u k - u k - 0 * (IZR k - IZR k)) with 0 by ring. rewrite Rminus_diag_eq by reflexivity. rewrite !Rabs_R0. lra. }
  assert (E0 : 0 <= eps) by (assert (K := Rabs_pos (u i - b)); lra).
  assert (D1 : 1 <= Rabs (IZR i - IZR k)). { rewrite <- minus_IZR, <- abs_IZR. apply IZR_le. lia. }
  replace (u i - u k - 0 * (IZR i - IZR k)) with ((u i - b) + - (u k - b)) by ring.
  eapply Rle_trans; [apply Rabs_triang|]. rewrite Rabs_Ropp. nra.
Qed.
End Read.

(** ** Probability that the exponents are far from proportional *)
Lemma mono_prob {W} (P : expectation W) (S : W -> list (list R)) (n nrep : nat) w p ja jb gam norm weighted (T : W -> wtransform) (ws : W -> list warning) r (j1 j2 : nat) qs i2 i4 wd eps delta (mu v2 v4 : nat -> R) :
  (forall o, length (S o) = nrep /\ Forall (fun s => length s = n) (S o)) -> good_wavelet w -> norm <> 0 -> p_ok p ->
  (forall o, wavelet_analysis (map fin (S o)) p w ja jb gam norm weighted = Ok (T o, ws o)) ->
  nth_error qs i2 = Some 2 -> nth_error qs i4 = Some 4 -> (1 <= j1 < j2)%nat -> (forall o, In (Z.of_nat j2) (scales (wt_coefs (T o)))) -> (r < nrep)%nat -> 0 < delta <= 1 / 2 -> 12 * delta / ln 2 <= eps ->
  (forall j, (j1 <= j <= j2)%nat -> let power q o := abs_moment q (numbers (wt_coefs (T o)) (Z.of_nat j) r) in
     (1 <= inner_count n (length (dec_hi w)) j)%nat /\ 0 < mu j /\
     integrable P (fun o => (power 2 o - mu j) ^ 2) /\ E P (fun o => (power 2 o - mu j) ^ 2) <= v2 j /\
     integrable P (fun o => (power 4 o - 3 * mu j ^ 2) ^ 2) /\ E P (fun o => (power 4 o - 3 * mu j ^ 2) ^ 2) <= v4 j) ->
  prob_at_most P (fun o => ~ exists s z2 z4, StructureFunction (wt_coefs (T o)) (QArr qs) (Z.of_nat j1) (Z.of_nat j2) wd = Ok s /\ at2 (sf_zeta s) i2 r = Fin z2 /\ at2 (sf_zeta s) i4 r = Fin z4 /\ Rabs (z4 - 2 * z2) <= eps)
    (Rsum (map (fun j => v2 j / (delta * mu j) ^ 2 + v4 j / (delta * (3 * mu j ^ 2)) ^ 2) (seq j1 (Datatypes.S (j2 - j1))))).
Proof.
  intros HS Hw Hn Hp HT Q2 Q4 Hj I2 Hr Hd He HV. set (l := seq j1 (Datatypes.S (j2 - j1))).
  assert (IL : forall j, In j l <-> (j1 <= j <= j2)%nat) by (intros j; unfold l; rewrite in_seq; lia).
  set (pw q j o := abs_moment q (numbers (wt_coefs (T o)) (Z.of_nat j) r)).
  set (A j o := delta * mu j <= Rabs (pw 2 j o - mu j) \/ delta * (3 * mu j ^ 2) <= Rabs (pw 4 j o - 3 * mu j ^ 2)).
  eapply prob_weaken; [|apply Rle_refl|apply (prob_list P A)].
  - intros o NO. destruct (classic (exists j, In j l /\ A j o)) as [X|X]; [exact X|].
    exfalso. apply NO. assert (L2 : 0 < ln 2) by (assert (K := ln_lt_2); lra).
    destruct (mono_near (S o) n w p ja jb gam norm weighted (T o) (ws o) (proj2 (HS o)) Hw Hn Hp (HT o) qs i2 i4 j1 j2 wd r (log2R 3) (6 * delta / ln 2)) as (s & z2 & z4 & R1 & R2 & R3 & R4); trivial; [rewrite (proj1 (HS o)); trivial| |].
    + intros j Hjj. destruct (HV j Hjj) as (C1 & M0 & _). split; [exact C1|]. assert (M4 : 0 < 3 * mu j ^ 2) by (apply Rmult_lt_0_compat; [lra|now apply pow_lt]).
      assert (NA : ~ A j o) by (intros Y; apply X; exists j; split; [now apply IL|exact Y]).
      assert (N2 : Rabs (pw 2 j o - mu j) < delta * mu j) by (apply Rnot_le_lt; intros Y; apply NA; now left).
      assert (N4 : Rabs (pw 4 j o - 3 * mu j ^ 2) < delta * (3 * mu j ^ 2)) by (apply Rnot_le_lt; intros Y; apply NA; now right).
      destruct (ln_near _ _ delta M0 Hd N2) as [V2 L2']. destruct (ln_near _ _ delta M4 Hd N4) as [V4 L4'].
      split; [exact V2|]. split; [exact V4|]. fold (pw 2 j o). fold (pw 4 j o). unfold log2R. rewrite ln_mult, ln_pow in L4' by (try lra; now apply pow_lt). change (INR 2) with 2 in L4'.
      replace (ln (pw 4 j o) / ln 2 - 2 * (ln (pw 2 j o) / ln 2) - ln 3 / ln 2) with (((ln (pw 4 j o) - (ln 3 + 2 * ln (mu j))) + - (2 * (ln (pw 2 j o) - ln (mu j)))) * / ln 2) by (field; lra).
      rewrite Rabs_mult, (Rabs_pos_eq (/ ln 2)) by (left; now apply Rinv_0_lt_compat). unfold Rdiv. apply Rmult_le_compat_r; [left; now apply Rinv_0_lt_compat|].
      eapply Rle_trans; [apply Rabs_triang|]. rewrite Rabs_Ropp, Rabs_mult, (Rabs_pos_eq 2) by lra. lra.
    + exists s, z2, z4. split; [exact R1|]. split; [exact R2|]. split; [exact R3|]. eapply Rle_trans; [exact R4|]. eapply Rle_trans; [|exact He]. right. field. lra.
  - intros j Hjl. apply IL in Hjl. destruct (HV j Hjl) as (_ & M0 & I & B & I4 & B4). assert (M4 : 0 < 3 * mu j ^ 2) by (apply Rmult_lt_0_compat; [lra|now apply pow_lt]). apply prob_union.
    + apply (chebyshev P (pw 2 j)); trivial. apply Rmult_lt_0_compat; lra.
    + apply (chebyshev P (pw 4 j)); trivial. apply Rmult_lt_0_compat; lra.
Qed.

(** ** Every wavelet: all long enough simulations *)
Section Process.
Variables (w : wavelet) (v : Z -> R) (gam norm tol q : R) (j1 j2 : nat).
Hypothesis Hw : good_wavelet w.
Hypothesis Hn : norm <> 0.
Hypothesis Ht : 0 < tol.
Hypothesis Hq : 0 < q.
Hypothesis Hj : (1 <= j1 < j2)%nat.
Hypothesis HF : forall j, (j1 <= j <= j2)%nat -> fades w v j.
Hypothesis HL : forall j, (j1 <= j <= j2)%nat -> 0 < high_cov w v j 0.
Let L := length (dec_hi w).
Let js := seq j1 (Datatypes.S (j2 - j1)).
Lemma mono : exists N0, forall W (P : expectation W) I (idx : I -> Prop) (z : I -> W -> R) (S : W -> list (list R)) N nrep amp ja jb weighted r qs i2 i4 wd,
  (N0 <= N)%nat -> white P idx z -> gaussian8 P idx z -> 0 < amp -> (forall o, length (S o) = nrep /\ Forall (fun s => length s = N) (S o)) -> (r < nrep)%nat -> nth_error qs i2 = Some 2 -> nth_error qs i4 = Some 4 ->
  (forall i, (i < N)%nat -> combination idx z (fun o => nth i (nth r (S o) []) 0)) ->
  (forall (T : W -> wtransform) (ws : W -> list warning), (forall o, wavelet_analysis (map fin (S o)) PNone w ja jb gam norm weighted = Ok (T o, ws o)) ->
     forall j, (1 <= j)%nat -> (forall o, In (Z.of_nat j) (scales (wt_coefs (T o)))) -> forall k k', inner N L j k -> inner N L j k' ->
     E P (fun o => number (entry (wt_coefs (T o)) (Z.of_nat j) r k) * number (entry (wt_coefs (T o)) (Z.of_nat j) r k')) = factor norm gam j ^ 2 * (amp * high_cov w v j (Z.of_nat k - Z.of_nat k'))) ->
  prob_at_most P (fun o => ~ exists t ws s z2 z4,
      wavelet_analysis (map fin (S o)) PNone w ja jb gam norm weighted = Ok (t, ws) /\
      StructureFunction (wt_coefs t) (QArr qs) (Z.of_nat j1) (Z.of_nat j2) wd = Ok s /\
      at2 (sf_zeta s) i2 r = Fin z2 /\ at2 (sf_zeta s) i4 r = Fin z4 /\ Rabs (z4 - 2 * z2) <= tol) q.
Proof using All.
  assert (IL : forall j, In j js <-> (j1 <= j <= j2)%nat) by (intros j; unfold js; rewrite in_seq; lia).
  assert (L1 : (1 <= L)%nat) by (unfold L; destruct Hw as [A _]; clear - A; lia).
  assert (L2 : 0 < ln 2) by (assert (K := ln_lt_2); lra).
  set (delta := Rmin (1 / 2) (tol * ln 2 / 12)).
  assert (Hd0 : 0 < delta). { apply Rmin_pos; [lra|]. apply Rmult_lt_0_compat; [|lra]. apply Rmult_lt_0_compat; lra. }
  assert (Hd1 : delta <= 1 / 2) by apply Rmin_l. assert (Hd2 : 12 * delta / ln 2 <= tol).
  { assert (Q : delta <= tol * ln 2 / 12) by apply Rmin_r. apply Rmult_le_reg_r with (ln 2); [trivial|]. unfold Rdiv at 1. rewrite Rmult_assoc, Rinv_l by lra. lra. }
  (* relative variance allowed at each scale and for each of the two orders *)
  set (m := INR (Datatypes.S (j2 - j1))). assert (m0 : 0 < m) by (apply lt_0_INR; lia).
  set (kap := q / m / 2 * delta ^ 2). assert (k0 : 0 < kap) by (apply Rmult_lt_0_compat; [unfold Rdiv; apply Rmult_lt_0_compat; [now apply Rdiv_lt_0_compat|lra]|now apply pow_lt]).
  (* bound of the covariances, and sums of their squares *)
  assert (HB : exists C0, 0 <= C0 /\ forall j, In j js -> forall cnt, C0 <= cnt -> exists B A L0 eta, 0 <= B /\ 0 <= A /\ 0 <= eta /\ (forall z, high_cov w v j z ^ 2 <= B) /\ (forall z, high_cov w v j z ^ 2 <= if le_dec (Z.to_nat (Z.abs z)) L0 then A else eta) /\
    2 * (2 * (INR (Datatypes.S L0) * A) + cnt * eta) <= cnt * (kap * high_cov w v j 0 ^ 2) /\
    (72 * high_cov w v j 0 ^ 2 + 24 * B) * (2 * (INR (Datatypes.S L0) * A) + cnt * eta) <= cnt * (kap * (3 * high_cov w v j 0 ^ 2) ^ 2)).
  { apply (list_bound (fun j C0 => forall cnt, C0 <= cnt -> exists B A L0 eta, 0 <= B /\ 0 <= A /\ 0 <= eta /\ (forall z, high_cov w v j z ^ 2 <= B) /\ (forall z, high_cov w v j z ^ 2 <= if le_dec (Z.to_nat (Z.abs z)) L0 then A else eta) /\
      2 * (2 * (INR (Datatypes.S L0) * A) + cnt * eta) <= cnt * (kap * high_cov w v j 0 ^ 2) /\
      (72 * high_cov w v j 0 ^ 2 + 24 * B) * (2 * (INR (Datatypes.S L0) * A) + cnt * eta) <= cnt * (kap * (3 * high_cov w v j 0 ^ 2) ^ 2)) js).
    - intros j C C' HC H cnt Hcnt. apply H. lra.
    - intros j Hjl. apply IL in Hjl. assert (V0 := HL j Hjl). set (h := high_cov w v j 0) in *. assert (h0 : 0 < h ^ 2) by (now apply pow_lt).
      destruct (HF j Hjl 1 ltac:(lra)) as (A1 & L01 & A10 & HA1). set (B := Rmax A1 1). assert (B1 : 1 <= B) by apply Rmax_r. assert (HB : forall z, high_cov w v j z ^ 2 <= B).
      { intros z. eapply Rle_trans; [apply HA1|]. destruct (le_dec _ _); [apply Rmax_l|apply Rmax_r]. }
      set (g := 72 * h ^ 2 + 24 * B). assert (g0 : 0 < g) by (unfold g; lra).
      set (t := Rmin (kap * h ^ 2 / 2) (kap * (3 * h ^ 2) ^ 2 / g)). assert (t0 : 0 < t).
      { apply Rmin_pos; [apply Rdiv_lt_0_compat; [now apply Rmult_lt_0_compat|lra]|apply Rdiv_lt_0_compat; [apply Rmult_lt_0_compat; [trivial|apply pow_lt; lra]|trivial]]. }
      assert (t2 : 2 * t <= kap * h ^ 2) by (assert (Q : t <= kap * h ^ 2 / 2) by apply Rmin_l; lra).
      assert (t4 : g * t <= kap * (3 * h ^ 2) ^ 2). { assert (Q : t <= kap * (3 * h ^ 2) ^ 2 / g) by apply Rmin_r. apply Rmult_le_compat_l with (r := g) in Q; [|lra]. eapply Rle_trans; [exact Q|]. right. field. lra. }
      destruct (HF j Hjl (t / 2) ltac:(lra)) as (A & L0 & A0 & HA). exists (2 * (2 * (INR (Datatypes.S L0) * A)) / t). intros cnt Hc.
      assert (n0 : 0 <= INR (Datatypes.S L0) * A) by (apply Rmult_le_pos; [apply pos_INR|trivial]).
      assert (U : 2 * (INR (Datatypes.S L0) * A) + cnt * (t / 2) <= cnt * t). { apply Rmult_le_compat_r with (r := t) in Hc; [|lra]. unfold Rdiv in Hc at 1. rewrite Rmult_assoc, Rinv_l in Hc by lra. lra. }
      assert (cnt0 : 0 <= cnt). { eapply Rle_trans; [|exact Hc]. unfold Rdiv. apply Rmult_le_pos; [lra|left; now apply Rinv_0_lt_compat]. }
      exists B, A, L0, (t / 2). split; [lra|]. split; [trivial|]. split; [lra|]. split; [exact HB|]. split; [exact HA|]. fold g. split.
      + apply Rle_trans with (cnt * (2 * t)); [lra|now apply Rmult_le_compat_l].
      + apply Rle_trans with (cnt * (g * t)); [|now apply Rmult_le_compat_l]. apply Rle_trans with (g * (cnt * t)); [apply Rmult_le_compat_l; lra|right; ring]. }
  destruct HB as (C0 & _ & HC). destruct (archimed (Rmax 3 C0)) as [AR _]. set (c := Z.to_nat (up (Rmax 3 C0))). assert (X1 := Rmax_l 3 C0). assert (X2 := Rmax_r 3 C0).
  assert (Cc : Rmax 3 C0 < INR c) by (unfold c; rewrite INR_IZR_INZ, Z2Nat.id; [lra|apply le_IZR; lra]).
  assert (C3 : (3 <= c)%nat) by (apply INR_le; cbn [INR]; lra).
  exists (2 ^ (j2 - 1) * (2 * c + 2 * L + 2))%nat. intros W P I idx z S N nrep amp ja jb wd0 r qs i2 i4 wd HN Hwh Hga amp0 HS Hr Q2 Q4 Hlin HM2.
  assert (CJ : forall j, (j1 <= j <= j2)%nat -> (c <= inner_count N L j)%nat) by (intros j Hjj; assert (Q := inner_count_decr N L j j2 ltac:(lia)); assert (Q' := inner_count_big c L j2 L1 ltac:(lia) N HN); lia).
  assert (N1 : (1 <= N)%nat). { assert (2 ^ (j2 - 1) <> 0)%nat by (apply Nat.pow_nonzero; lia). clear - HN H. nia. }
  assert (NE : forall o, S o <> []) by (intros o Z; destruct (HS o) as [A _]; rewrite Z in A; cbn in A; lia).
  set (T o := transform_of (S o) w ja jb gam norm wd0). set (ws o := warnings_of (S o) w ja jb gam norm wd0).
  assert (TE : forall o, wavelet_analysis (map fin (S o)) PNone w ja jb gam norm wd0 = Ok (T o, ws o)) by (intros o; exact (transform_ok (S o) N w ja jb gam norm wd0 (NE o) N1 (proj2 (HS o)) Hw Hn)).
  assert (SC : forall o j, (j1 <= j <= j2)%nat -> In (Z.of_nat j) (scales (wt_coefs (T o)))).
  { intros o j Hjj. apply (C99_scales (S o) N w ja jb gam norm wd0 _ _ (NE o) N1 (proj2 (HS o)) Hw Hn (TE o)). split; [lia|]. specialize (CJ j Hjj). unfold L in CJ. lia. }
  specialize (HM2 T ws TE). set (f j := factor norm gam j ^ 2). assert (F0 : forall j, 0 < f j) by (intros j; apply pow_lt, exp_pos).
  set (mu j := f j * amp * high_cov w v j 0).
  assert (MU0 : forall j, (j1 <= j <= j2)%nat -> 0 < mu j) by (intros j Hjj; assert (V0 := HL j Hjj); unfold mu; apply Rmult_lt_0_compat; [apply Rmult_lt_0_compat; [apply F0|trivial]|trivial]).
  eapply prob_weaken; [| |apply (mono_prob P S N nrep w PNone ja jb gam norm wd0 T ws r j1 j2 qs i2 i4 wd tol delta mu (fun j => kap * mu j ^ 2) (fun j => kap * (3 * mu j ^ 2) ^ 2))]; trivial.
  - intros o NO (s & z2 & z4 & E1 & E2). apply NO. exists (T o), (ws o), s, z2, z4. split; [apply TE|]. split; [exact E1|exact E2].
  - fold js. rewrite (Rsum_map_ext _ (fun _ => q / m)).
    + assert (X : forall l : list nat, Rsum (map (fun _ => q / m) l) = INR (length l) * (q / m)). { clear. induction l as [|x l IH]; [unfold Rsum; cbn; ring|]. cbn [map length]. change (Rsum (?a :: ?m)) with (a + Rsum m). rewrite IH, S_INR. ring. }
      rewrite X. unfold js. rewrite seq_length. fold m. right. field. lra.
    + intros j Hjl. apply IL in Hjl. specialize (MU0 j Hjl). unfold kap. field. repeat split; lra.
  - exact Logic.I.
  - intros o. apply SC. lia.
  - now split.
  - intros j Hjj power. fold L. split; [specialize (CJ j Hjj); lia|]. split; [now apply MU0|]. assert (V0 := HL j Hjj).
    assert (J1 : (1 <= j)%nat) by lia. set (cnt := inner_count N L j). assert (CN : (c <= cnt)%nat) by (apply CJ; trivial). assert (CR : Rmax 3 C0 < INR cnt) by (apply le_INR in CN; lra). assert (cnt0 : 0 < INR cnt) by lra.
    assert (HI : forall o, In (Z.of_nat j) (scales (wt_coefs (T o)))) by (intros o; now apply SC). specialize (HM2 j J1 HI).
    destruct (HC j (proj2 (IL j) Hjj) (INR cnt) ltac:(lra)) as (B & A & L0 & eta & B0 & A0 & E0 & HBz & HA & HE2 & HE4). set (Sg := 2 * (INR (Datatypes.S L0) * A) + INR cnt * eta) in *.
    assert (SS : forall k, inner N L j k -> Rsum (map (fun k' => (f j * amp) ^ 2 * high_cov w v j (Z.of_nat k - Z.of_nat k') ^ 2) (filter (innerb N L j) (seq 0 (N / 2 ^ j)))) <= (f j * amp) ^ 2 * Sg).
    { intros k IN. set (lst := filter (innerb N L j) (seq 0 (N / 2 ^ j))). rewrite Rsum_scal_map. apply Rmult_le_compat_l; [apply pow2_ge_0|]. unfold Sg, cnt. rewrite <- (inner_total N L j L1 J1). fold lst. apply fades_sum; trivial. apply NoDup_filter, seq_NoDup. }
    assert (CC : forall k k', inner N L j k -> In k' (filter (innerb N L j) (seq 0 (N / 2 ^ j))) -> E P (fun o => number (entry (wt_coefs (T o)) (Z.of_nat j) r k) * number (entry (wt_coefs (T o)) (Z.of_nat j) r k')) = f j * amp * high_cov w v j (Z.of_nat k - Z.of_nat k')).
    { intros k k' IN Hk'. apply filter_In in Hk' as [_ Hk']. unfold innerb in Hk'. destruct (inner_dec N L j k') as [IN'|]; [|discriminate]. rewrite (HM2 k k' IN IN'). unfold f. ring. }
    assert (VK : forall k, inner N L j k -> E P (fun o => number (entry (wt_coefs (T o)) (Z.of_nat j) r k) * number (entry (wt_coefs (T o)) (Z.of_nat j) r k)) = mu j) by (intros k IN; rewrite (HM2 k k IN IN), Z.sub_diag; unfold mu, f; ring).
    assert (G : forall o, mean_sq (wt_coefs (T o)) (Z.of_nat j) r = power 2 o) by (intros o; unfold power; now rewrite power_mean_sq).
    assert (B2 := mean_fluct2 P idx z S N nrep w PNone ja jb gam norm wd0 T ws r j HS Hw Hn Logic.I TE Hr J1 HI Hlin Hwh (proj1 Hga) ltac:(fold L cnt; lia) ((f j * amp) ^ 2 * Sg)).
    cbv beta zeta in B2. destruct B2 as (B21 & B22 & B23).
    { fold L. intros k IN. rewrite (Rsum_map_ext _ (fun k' => (f j * amp) ^ 2 * high_cov w v j (Z.of_nat k - Z.of_nat k') ^ 2)); [now apply SS|]. intros k' Hk'. rewrite (CC k k' IN Hk'). ring. }
    assert (EM : E P (fun o => mean_sq (wt_coefs (T o)) (Z.of_nat j) r) = mu j).
    { destruct (mean_power P S N nrep w PNone ja jb gam norm wd0 T ws HS Hw Hn Logic.I TE j r (mu j) J1 HI Hr ltac:(fold L cnt; lia)) as [_ Q]; [|exact Q].
      intros k IN. split; [|now apply VK].
      apply (comb_int2 idx z P Hwh); apply (coef_comb P idx z S N nrep w PNone ja jb gam norm wd0 T ws r j HS Hw Hn Logic.I TE Hr J1 HI Hlin). }
    rewrite EM in B22, B23. fold L cnt in B23.
    split; [apply (int_ext W P _ _ (fun o => f_equal (fun y => (y - mu j) ^ 2) (G o)) B22)|]. split.
    { rewrite <- (E_ext W P _ _ (fun o => f_equal (fun y => (y - mu j) ^ 2) (G o))). eapply Rle_trans; [exact B23|].
      apply Rmult_le_reg_r with (INR cnt); [trivial|]. unfold Rdiv at 1. rewrite Rmult_assoc, Rinv_l, Rmult_1_r by lra. unfold mu.
      replace (kap * (f j * amp * high_cov w v j 0) ^ 2 * INR cnt) with ((f j * amp) ^ 2 * (INR cnt * (kap * high_cov w v j 0 ^ 2))) by ring.
      replace (2 * ((f j * amp) ^ 2 * Sg)) with ((f j * amp) ^ 2 * (2 * Sg)) by ring. apply Rmult_le_compat_l; [apply pow2_ge_0|exact HE2]. }
    set (g := 72 * high_cov w v j 0 ^ 2 + 24 * B) in *.
    destruct (mean_fluct4 P idx z S N nrep w PNone ja jb gam norm wd0 T ws r j HS Hw Hn Logic.I TE Hr J1 HI Hlin Hwh Hga ltac:(fold L cnt; lia) (mu j) ((f j * amp) ^ 2 * g * ((f j * amp) ^ 2 * Sg)) VK) as (B41 & B42 & B43 & B44).
    { fold L. intros k IN. eapply Rle_trans; [|apply Rmult_le_compat_l; [|apply (SS k IN)]].
      - rewrite <- Rsum_scal_map. apply tsum_le. intros k' Hk'. rewrite (CC k k' IN Hk'). assert (Z2 := HBz (Z.of_nat k - Z.of_nat k')%Z). set (h := high_cov w v j (Z.of_nat k - Z.of_nat k')) in *. unfold mu, g.
        replace (72 * (f j * amp * high_cov w v j 0 * (f j * amp * high_cov w v j 0)) * (f j * amp * h) ^ 2 + 24 * (f j * amp * h) ^ 4) with ((f j * amp) ^ 2 * ((f j * amp) ^ 2 * h ^ 2) * (72 * high_cov w v j 0 ^ 2 + 24 * h ^ 2)) by ring.
        replace ((f j * amp) ^ 2 * (72 * high_cov w v j 0 ^ 2 + 24 * B) * ((f j * amp) ^ 2 * h ^ 2)) with ((f j * amp) ^ 2 * ((f j * amp) ^ 2 * h ^ 2) * (72 * high_cov w v j 0 ^ 2 + 24 * B)) by ring.
        apply Rmult_le_compat_l; [|lra]. apply Rmult_le_pos; [apply pow2_ge_0|]. apply Rmult_le_pos; apply pow2_ge_0.
      - apply Rmult_le_pos; [apply pow2_ge_0|]. unfold g. assert (Q := pow2_ge_0 (high_cov w v j 0)). lra. }
    rewrite B42 in B43, B44. fold L cnt in B44. split; [exact B43|]. eapply Rle_trans; [exact B44|].
    apply Rmult_le_reg_r with (INR cnt); [trivial|]. unfold Rdiv. rewrite Rmult_assoc, Rinv_l, Rmult_1_r by lra. unfold mu.
    replace (kap * (3 * (f j * amp * high_cov w v j 0) ^ 2) ^ 2 * INR cnt) with ((f j * amp) ^ 4 * (INR cnt * (kap * (3 * high_cov w v j 0 ^ 2) ^ 2))) by ring.
    replace ((f j * amp) ^ 2 * g * ((f j * amp) ^ 2 * Sg)) with ((f j * amp) ^ 4 * (g * Sg)) by ring. apply Rmult_le_compat_l; [|exact HE4]. replace ((f j * amp) ^ 4) with (((f j * amp) ^ 2) ^ 2) by ring. apply pow2_ge_0.
Qed.
End Process.

(** ** C125 *)
Theorem C125_fgn :
  forall H w M gam norm tol q (j1 j2 : nat), 0 < H < 1 -> good_wavelet w -> vanishing_moments (dec_hi w) M -> norm <> 0 -> 0 < tol -> 0 < q -> (1 <= j1 < j2)%nat ->
  (forall j, (j1 <= j <= j2)%nat -> 0 < high_cov w (unit_fgn H) j 0) ->
  exists N0, forall W (P : expectation W) sh N sigma dt d z0 (drawn : W -> noise) ja jb weighted r qs i2 i4 wd,
  shape_N sh = N -> (N0 <= N)%nat -> sampling_step dt N d -> sigma <> 0 -> gaussian_complex8 P (shape_R sh) (2 * N - 2) (fun w => nz (drawn w)) -> (r < shape_R sh)%nat -> nth_error qs i2 = Some 2 -> nth_error qs i4 = Some 4 ->
  prob_at_most P (fun o => ~ exists X t ws s z2 z4,
      fgn sh H sigma dt "cme" z0 (drawn o) = Ok (presented sh X, false) /\ shaped (shape_R sh) N X /\
      wavelet_analysis (map fin X) PNone w ja jb gam norm weighted = Ok (t, ws) /\
      StructureFunction (wt_coefs t) (QArr qs) (Z.of_nat j1) (Z.of_nat j2) wd = Ok s /\
      at2 (sf_zeta s) i2 r = Fin z2 /\ at2 (sf_zeta s) i4 r = Fin z4 /\ Rabs (z4 - 2 * z2) <= tol) q.
Proof.
  intros H w M gam norm tol q j1 j2 HH Hw HM Hn Ht Hq Hj HL.
  destruct (mono w (unit_fgn H) gam norm tol q j1 j2 Hw Hn Ht Hq Hj (fun j Hjj => unit_fgn_fades H w M j HH Hw HM ltac:(lia)) HL) as [N0 HN0].
  exists (N0 + 2)%nat. intros W P sh N sigma dt d z0 drawn ja jb wd0 r qs i2 i4 wd EN HN Hd Hs [HZ HG] Hr Q2 Q4.
  assert (d0 := proj2 (step_ok dt N d ltac:(lia) Hd)).
  assert (a0 : 0 < sigma ^ 2 * Rpower d (2 * H)) by (apply Rmult_lt_0_compat; [rewrite <- Rsqr_pow2; now apply Rsqr_pos_lt|apply exp_pos]).
  destruct (fgn_stationary P sh N H sigma dt d z0 drawn EN ltac:(lia) Hd ltac:(lra) HZ) as (X & EX & HS & HX).
  eapply prob_weaken; [|apply Rle_refl|apply (HN0 W P _ _ _ X N (shape_R sh) (sigma ^ 2 * Rpower d (2 * H)) ja jb wd0 r qs i2 i4 wd ltac:(lia) (proj2 HZ) HG a0 HS Hr Q2 Q4)].
  - intros o NO (t & ws & s & z2 & z4 & K). apply NO. exists (X o), t, ws, s, z2, z4. split; [apply EX|]. split; [apply HS|exact K].
  - intros i Hi. exact (fgn_linear sh N H sigma dt d z0 drawn X EN ltac:(lia) Hd ltac:(lra) (proj1 HZ) EX HS r i Hr Hi).
  - intros T ws HT j J1 HI k k' IN IN'. destruct (moments_2 P X N (shape_R sh) w PNone ja jb gam norm wd0 T ws HS Hw Hn Logic.I HT r _ j k k' (HX r Hr) J1 HI Hr IN IN') as [_ ->]. f_equal.
    rewrite <- high_cov_scal. apply high_cov_ext'. intros y. now apply fgn_scale.
Qed.
Print Assumptions C125_fgn.
Theorem C125_fbm :
  forall H w M gam norm tol q (j1 j2 : nat), 0 < H < 1 -> good_wavelet w -> vanishing_moments (dec_hi w) M -> (1 <= M)%nat -> norm <> 0 -> 0 < tol -> 0 < q -> (1 <= j1 < j2)%nat ->
  (forall j, (j1 <= j <= j2)%nat -> 0 < high_cov w (unit_fbm H) j 0) ->
  exists N0, forall W (P : expectation W) sh N sigma dt d z0 (drawn : W -> noise) ja jb weighted r qs i2 i4 wd,
  shape_N sh = N -> (N0 <= N)%nat -> sampling_step dt N d -> sigma <> 0 -> gaussian_complex8 P (shape_R sh) (2 * N - 2) (fun w => nz (drawn w)) -> (r < shape_R sh)%nat -> nth_error qs i2 = Some 2 -> nth_error qs i4 = Some 4 ->
  prob_at_most P (fun o => ~ exists B t ws s z2 z4,
      fbm sh H sigma dt "cme" z0 (drawn o) = Ok (presented sh B, false) /\ shaped (shape_R sh) N B /\
      wavelet_analysis (map fin B) PNone w ja jb gam norm weighted = Ok (t, ws) /\
      StructureFunction (wt_coefs t) (QArr qs) (Z.of_nat j1) (Z.of_nat j2) wd = Ok s /\
      at2 (sf_zeta s) i2 r = Fin z2 /\ at2 (sf_zeta s) i4 r = Fin z4 /\ Rabs (z4 - 2 * z2) <= tol) q.
Proof.
  intros H w M gam norm tol q j1 j2 HH Hw HM M1 Hn Ht Hq Hj HL.
  destruct (mono w (unit_fbm H) gam norm tol q j1 j2 Hw Hn Ht Hq Hj (fun j Hjj => unit_fbm_fades H w M j HH Hw HM M1 ltac:(lia)) HL) as [N0 HN0].
  exists (N0 + 2)%nat. intros W P sh N sigma dt d z0 drawn ja jb wd0 r qs i2 i4 wd EN HN Hd Hs [HZ HG] Hr Q2 Q4.
  assert (d0 := proj2 (step_ok dt N d ltac:(lia) Hd)).
  assert (a0 : 0 < sigma ^ 2 * Rpower d (2 * H)) by (apply Rmult_lt_0_compat; [rewrite <- Rsqr_pow2; now apply Rsqr_pos_lt|apply exp_pos]).
  destruct (fbm_facts P sh N H sigma dt d z0 drawn EN ltac:(lia) Hd ltac:(lra) HZ) as (B & EB & HS & HX & Lin).
  eapply prob_weaken; [|apply Rle_refl|apply (HN0 W P _ _ _ B N (shape_R sh) (sigma ^ 2 * Rpower d (2 * H)) ja jb wd0 r qs i2 i4 wd ltac:(lia) (proj2 HZ) HG a0 HS Hr Q2 Q4)].
  - intros o NO (t & ws & s & z2 & z4 & K). apply NO. exists (B o), t, ws, s, z2, z4. split; [apply EB|]. split; [apply HS|exact K].
  - intros i Hi. exact (Lin r i Hr Hi).
  - intros T ws HT j J1 HI k k' IN IN'.
    destruct (C108_increments P B N (shape_R sh) w PNone ja jb gam norm wd0 T ws r _ _ HS Hw (vanish_ignores w M ltac:(lia) HM) Hn Logic.I HT Hr (HX r Hr) j J1 HI) as [Q1 _].
    destruct (Q1 k k' IN IN') as (_ & _ & E0 & _ & EC). unfold Cov in EC. rewrite E0 in EC.
    rewrite (high_cov_ext' w _ (fun y => sigma ^ 2 * Rpower d (2 * H) * unit_fbm H y)), high_cov_scal in EC by (intros y; now apply fbm_scale). lra.
Qed.
Print Assumptions C125_fbm.
