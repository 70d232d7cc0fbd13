(** * C94 with C92: what rounding errors of the transform do to the estimates *)
From Coq Require Import Reals List ZArith Bool Lra Lia Psatz.
From Verif Require Import XReal PyBase ModelUtils ModelMRQ ModelStructure ModelCumulants ModelSpectrum ModelEstimation ModelWavelet ModelRounded
  Spec SpecMRQ LXReal LReg LUtils LBase LTransform LPattern LWave LWaveEst LEst PropsEstimators PropsWavelet PropsLeaders PropsMono PropsInvariance PropsFinite PropsStable.
From Verif Require PropsRounded.
Import ListNotations.
Open Scope R_scope.
Local Notation length := List.length.

Lemma dict_same {V W : Type} (f : V -> W) (d d' : list (Z * V)) : dict_keys d' = dict_keys d -> map f (dict_vals d') = map f (dict_vals d) ->
  forall j, match dict_get d' j, dict_get d j with Some a', Some a => f a' = f a | None, None => True | _, _ => False end.
Proof.
  revert d'. induction d as [|[k a] d IH]; intros [|[k' a'] d'] K F j; try discriminate; [exact I|].
  unfold dict_keys, dict_vals in *. cbn in *. injection K as -> K. injection F as Fa F. destruct (j =? k)%Z; [exact Fa|]. now apply IH.
Qed.
Lemma pat_length a a' : nan_pattern a' = nan_pattern a -> length a' = length a.
Proof. intros H. apply (f_equal (@List.length _)) in H. unfold nan_pattern in H. now rewrite !map_length in H. Qed.
Lemma pat_counts a a' : nan_pattern a' = nan_pattern a -> map count_valid a' = map count_valid a.
Proof.
  revert a'. induction a as [|c a IH]; intros [|c' a'] H; try discriminate; [reflexivity|]. cbn in *. injection H as Hc H.
  f_equal; [now apply count_valid_pat|now apply IH].
Qed.
Lemma pat_nth a a' r : nan_pattern a' = nan_pattern a -> map isnan (nth r a' []) = map isnan (nth r a []).
Proof.
  intros H. unfold nan_pattern in H. assert (E := f_equal (fun l => nth r l (map isnan [])) H). cbn beta in E. now rewrite !map_nth in E.
Qed.
Section Close.
Variables (err : nat -> R) (m m' : mrq) (g nrep : nat).
Hypotheses (HC : PropsRounded.computed_within err m m') (HR : regular m g nrep).
Lemma cw_regular : regular m' g nrep.
Proof using HC HR.
  destruct HC as (S & N & P & _). destruct HR as (G & S1 & N1 & L). split; trivial. split; [congruence|]. split; [congruence|].
  intros j a' Ha. assert (D0 := dict_same nan_pattern (mq_values m) (mq_values m') S P j). rewrite Ha in D0.
  destruct (dict_get (mq_values m) j) as [a|] eqn:Ea; [|contradiction]. rewrite <- (L j a Ea). now apply pat_length.
Qed.
Lemma cw_counted : counted m -> counted m'.
Proof using HC.
  destruct HC as (S & N & P & _). intros C j a' Ha. assert (D0 := dict_same nan_pattern (mq_values m) (mq_values m') S P j). rewrite Ha in D0.
  destruct (dict_get (mq_values m) j) as [a|] eqn:Ea; [|contradiction]. rewrite N, (C j a Ea). f_equal. symmetry. now apply pat_counts.
Qed.
(** an absolute error err(j) is a relative one where the values are large enough *)
Lemma cw_close d j1 j2 r : 0 <= d ->
  (forall j, (j1 <= j <= j2)%Z -> no_inf (column m j r)) ->
  (forall j x, (j1 <= j <= j2)%Z -> In x (numbers m j r) -> err (Z.to_nat j) <= (1 - Rpower 2 (- d)) * Rabs x) ->
  close_quantities d m m' j1 j2 r.
Proof using HC.
  intros Hd NI HB j Hj. destruct HC as (S & N & P & E).
  assert (D0 := dict_same nan_pattern (mq_values m) (mq_values m') S P j).
  assert (PN : map isnan (column m' j r) = map isnan (column m j r)).
  { unfold column. destruct (dict_get (mq_values m') j), (dict_get (mq_values m) j); try contradiction; [now apply pat_nth|reflexivity]. }
  assert (L : length (column m' j r) = length (column m j r)) by (apply (f_equal (@List.length _)) in PN; now rewrite !map_length in PN).
  assert (K : forall k, (k < length (column m j r))%nat -> within d (nth k (column m j r) NaN) (nth k (column m' j r) NaN)).
  { intros k Hk. assert (Ni := NI j Hj). unfold no_inf in Ni. rewrite Forall_forall in Ni.
    destruct (Ni _ (nth_In _ NaN Hk)) as [X|[x X]].
    - left. split; trivial. assert (Q := f_equal (fun l => nth k l (isnan NaN)) PN). cbn beta in Q. rewrite !map_nth, X in Q.
      destruct (nth k (column m' j r) NaN); try discriminate. reflexivity.
    - right. assert (EX : entry m j r k = Fin x) by (now rewrite entry_column).
      destruct (E j r k x EX) as (y & EY & B). rewrite entry_column in EY. exists x, y. split; trivial. split; trivial.
      assert (IX : In x (numbers m j r)) by (apply In_reals; rewrite <- X; now apply nth_In).
      specialize (HB j x Hj IX). set (p := Rpower 2 (- d)) in *.
      assert (Pp : 0 < p) by apply Rpower_pos. assert (E2 : Rpower 2 d = / p) by (unfold p; rewrite Rpower_Ropp, Rinv_inv; reflexivity).
      assert (p1 : p <= 1) by (unfold p; rewrite <- (Rpower_O 2) by lra; apply Rle_Rpower; lra).
      assert (T1 : Rabs y <= Rabs x + Rabs (y - x)) by (replace y with (x + (y - x)) at 1 by ring; apply Rabs_triang).
      assert (T2 : Rabs x <= Rabs y + Rabs (y - x)) by (replace x with (y + - (y - x)) at 1 by ring; eapply Rle_trans; [apply Rabs_triang|rewrite Rabs_Ropp; lra]).
      assert (X0 := Rabs_pos x). rewrite E2. split; apply Rmult_le_reg_l with p; trivial; rewrite <- Rmult_assoc, Rinv_r, Rmult_1_l by lra; nra. }
  revert L K. generalize (column m j r) (column m' j r). clear.
  intros l. induction l as [|a l IH]; intros [|b l'] L K; try discriminate; constructor; [exact (K 0%nat ltac:(simpl; lia))|].
  apply IH; [now injection L|]. intros k Hk. exact (K (S k) ltac:(simpl; lia)).
Qed.
End Close.

(** The estimates from the leaders of any machine with rounding errors u, v, eta
    compared with those from the exact leaders: if at the scales of the fit the
    error bound of C92 is at most the fraction 1 - 2^-d of every exact leader *)
Theorem C94_floating_point :
  forall M u v eta X w signal j1w j2w gam norm wt0 t ws l,
  0 <= u -> 0 <= v -> 0 <= eta -> 0 <= X -> PropsRounded.accurate u v eta M -> good_wavelet w -> norm <> 0 ->
  PropsRounded.samples_within X signal ->
  wavelet_analysis signal PInfty w j1w j2w gam norm wt0 = Ok (t, ws) -> wt_leaders t = Some l ->
  exists t' l', wavelet_analysis_f M signal true w j2w gam norm = Ok (t', ws) /\ wt_leaders t' = Some l' /\
  forall d j1 j2 wd r, 0 <= d -> (1 <= j1 < j2)%Z -> In j2 (SpecMRQ.scales l) -> (r < length signal)%nat ->
  (forall j x, (j1 <= j <= j2)%Z -> In x (numbers l j r) ->
     PropsRounded.lead_bound u v eta X w norm gam (Z.to_nat j) <= (1 - Rpower 2 (- d)) * Rabs x) ->
  let sd := spread wd l j1 j2 r in
  (forall warn warn' h h', estimate_hmin l j1 j2 wd warn = Ok h -> estimate_hmin l' j1 j2 wd warn' = Ok h' ->
     moves_at_most (d / sd) (nth r (hm_hmin h) NaN) (nth r (hm_hmin h') NaN)) /\
  (forall qs s s', StructureFunction l (QArr qs) j1 j2 wd = Ok s -> StructureFunction l' (QArr qs) j1 j2 wd = Ok s' ->
     forall i, (i < length qs)%nat -> moves_at_most (Rabs (nth i qs 0) * d / sd) (at2 (sf_zeta s) i r) (at2 (sf_zeta s') i r)) /\
  (forall n c c', (1 <= n)%nat -> Cumulants l n j1 j2 wd = Ok c -> Cumulants l' n j1 j2 wd = Ok c' ->
     moves_at_most (d / sd) (at2 (cu_log_cumulants c) 0 r) (at2 (cu_log_cumulants c') 0 r)).
Proof.
  intros M u v eta X w signal j1w j2w gam norm wt0 t ws l U V E0 X0 HM Hw Hn HS H El.
  assert (K := PropsRounded.C92_rounded_transform M u v eta X w signal true j1w j2w gam norm wt0 U V E0 X0 HM Hw HS). cbn iota in K.
  rewrite H in K. destruct K as (t' & E' & J & _ & L). rewrite El in L. destruct (wt_leaders t') as [l'|] eqn:El'; [|contradiction].
  exists t', l'. split; [exact E'|]. split; [exact El'|]. intros d j1 j2 wd r Hd Hj Hs Hr HB. cbn zeta.
  assert (HA : Forall no_inf signal).
  { rewrite Forall_forall. intros c Hc. apply Forall_forall. intros x Hx. destruct (HS c x Hc Hx) as [->|(a & -> & _)]; [now left|right; eauto]. }
  set (g := gcount signal PInfty w gam norm).
  assert (R : regular l g (length signal) /\ counted l /\ (j2 <= Z.of_nat g)%Z /\ forall j, no_inf (column l j r)).
  { apply wa_inv in H as (? & _ & -> & _); [|trivial|trivial|exact I]. cbn [the_wt wt_leaders] in El. apply Some_inj in El. subst l. fold g in Hs |- *.
    apply PropsWavelet.in_scales in Hs as (i & -> & Hi). split; [apply table_regular; [lia|intros; apply Ld_length]|].
    split; [apply table_counted; reflexivity|]. split; [lia|]. intros j. apply no_inf_column. now apply leads_no_inf. }
  destruct R as (HR & HC & H3 & NI).
  assert (HR' := cw_regular _ l l' g _ L HR). assert (HC' := cw_counted _ l l' L HC).
  assert (HQ : close_quantities d l l' j1 j2 r) by (apply (cw_close _ l l' L); trivial; intros; apply NI).
  split; [|split].
  - intros warn warn' h h' Eh Eh'. apply (C94_hmin l l' g (length signal) j1 j2 wd warn warn' d h h' r); trivial; lia.
  - intros qs s s' Es Es' i Hi.
    destruct (SF_rows l g (length signal) qs j1 j2 wd s HR ltac:(lia) ltac:(lia) H3 Es i r Hi Hr) as (_ & -> & _).
    destruct (SF_rows l' g (length signal) qs j1 j2 wd s' HR' ltac:(lia) ltac:(lia) H3 Es' i r Hi Hr) as (_ & -> & _).
    apply (st_zeta l l' g (length signal) j1 j2 wd d r HR HR' HC HC' ltac:(lia) ltac:(lia) H3 HQ (PyFloat (nth i qs 0))).
  - intros n c c' Hn1 Ec Ec'. apply (C94_log_cumulants l l' g (length signal) n j1 j2 wd d c c' r); trivial; lia.
Qed.
Print Assumptions C94_floating_point.

(** A concrete case: the ramp 0, ..., 23 with Haar filters in binary64.  The
    hypotheses hold with d = 10^-11, so hmin fitted on the stored leaders is
    within 2 10^-11 of the one fitted on the exact leaders *)
From Verif Require Import PropsBinary64.
Lemma ramp_coefs j : (1 <= j <= 2)%nat ->
  exists n, column (mrq_of WaveletCoef 0 (Cf [fin ramp] haar 0 1) 2) (Z.of_nat j) 0 = repeat (Fin (Rpower 2 (3 / 2 * INR j - 2))) n ++ [NaN].
Proof.
  intros Hj. unfold mrq_of. rewrite table_column by lia. rewrite Cf_nth_lt by (simpl; lia). cbn [nth].
  unfold coef. rewrite rescale_eq.
  assert (V : Rpower 2 (3 / 2 * INR j - 2) = Rpower 2 (0 * INR j + INR j * (1/2 - 1/1)) * Rpower 2 (2 * INR j - 2)).
  { rewrite <- Rpower_plus. f_equal. field. }
  rewrite V. rewrite <- INR_IZR_INZ. assert (j = 1%nat \/ j = 2%nat) as [->| ->] by lia.
  - exists 11%nat. rewrite ramp_d1, map_app. cbn [map xmul]. f_equal. cbn [repeat map xmul].
    replace (2 * INR 1 - 2) with 0 by (simpl; ring). rewrite Rpower_O by lra. reflexivity.
  - exists 5%nat. rewrite ramp_d2, map_app. cbn [map xmul]. f_equal. cbn [repeat map xmul].
    replace (2 * INR 2 - 2) with (INR 2) by (simpl; ring). rewrite Rpower_pow by lra.
    replace (2 ^ 2) with 4 by (simpl; ring). reflexivity.
Qed.
Lemma ramp_leads t ws l j x : wavelet_analysis [fin ramp] PInfty haar 1 None 0 1 true = Ok (t, ws) -> wt_leaders t = Some l ->
  In j (SpecMRQ.scales l) -> In x (numbers l j 0) -> / 2 <= Rabs x.
Proof.
  intros E El Hj Hx. unfold numbers in Hx. apply In_reals in Hx. apply (In_nth _ _ NaN) in Hx as (k & Hk & Ex).
  assert (HA : Forall no_inf [fin ramp]) by (constructor; [apply no_inf_fin|constructor]).
  destruct (C21_leader_sup [fin ramp] haar 1 None 0 1 true t ws l HA good_haar R1_neq_R0 E El j 0%nat k Hj ltac:(simpl; lia)) as [_ V].
  destruct (V Hk) as [_ V']. rewrite entry_column, Ex in V'. destruct (proj1 (V' x) eq_refl) as [I _]. clear V V'.
  apply in_map_iff in I as (a & <- & Ha). rewrite Rabs_Rabsolu. apply In_reals in Ha.
  apply wa_inv in E as (eta & _ & -> & _); [|exact good_haar|exact R1_neq_R0|exact I].
  destruct (haar_count 0 PInfty I eq_refl) as (G & K & _). cbn [the_wt wt_coefs wt_leaders] in *. apply Some_inj in El. subst l. rewrite G in Hj.
  apply PropsWavelet.in_scales in Hj as (i & -> & Hi). unfold cone_coefs in Ha. apply in_map_iff in Ha as ([j' k'] & Ea & Hin).
  rewrite Nat2Z.id in Hin. apply cone_In in Hin. cbn [fst snd] in Ea. rewrite K, entry_column in Ea.
  destruct (ramp_coefs j' ltac:(lia)) as [n En]. rewrite En in Ea.
  assert (Q : a = Rpower 2 (3 / 2 * INR j' - 2)).
  { destruct (Nat.lt_ge_cases k' n) as [L|L].
    - rewrite app_nth1 in Ea by (now rewrite repeat_length). rewrite (nth_indep _ NaN (Fin (Rpower 2 (3 / 2 * INR j' - 2)))), nth_repeat in Ea by (now rewrite repeat_length). now injection Ea.
    - rewrite app_nth2 in Ea by (now rewrite repeat_length). destruct (k' - length (repeat (Fin (Rpower 2 (3 / 2 * INR j' - 2))) n))%nat as [|[|]]; discriminate. }
  subst a. rewrite Rabs_pos_eq by (left; apply Rpower_pos).
  replace (/ 2) with (Rpower 2 (- (1))) by (rewrite Rpower_Ropp, Rpower_1 by lra; reflexivity). apply Rle_Rpower; [lra|].
  assert (1 <= INR j') by (change 1 with (INR 1); apply le_INR; lia). lra.
Qed.
Lemma ramp_bound1 : PropsRounded.coef_bound u64 u64 eta64 23 haar 1 0 1 <= / 10 ^ 12.
Proof.
  assert (E : eta64 <= / 2 ^ 53). { unfold eta64. apply Rinv_le_contravar; [apply pow_lt; lra|]. apply Rle_pow; [lra|]. apply Nat.leb_le. reflexivity. }
  assert (E0 := eta64_nonneg). unfold PropsRounded.coef_bound, PropsRounded.coef_err, PropsRounded.detail_err, PropsRounded.underflow. change (1 - 1)%nat with 0%nat. cbn [PropsRounded.approx_err]. unfold PropsRounded.underflow, PropsRounded.growth.
  assert (N1 : PropsRounded.norm1 (dec_hi haar) = 2) by (unfold PropsRounded.norm1, Rsum; cbn; rewrite Rabs_R1, (Rabs_left (-1)) by lra; lra).
  assert (N2 : PropsRounded.norm1 (dec_lo haar) = 2) by (unfold PropsRounded.norm1, Rsum; cbn; rewrite Rabs_R1; lra).
  rewrite N1, N2. change (length (dec_hi haar)) with 2%nat.
  assert (F1 : 0 < Rpower 2 (INR 1 * (1 / 2 - 1 / 1)) <= 1).
  { split; [apply Rpower_pos|]. apply Rle_trans with (Rpower 2 0); [|rewrite Rpower_O; lra]. apply Rle_Rpower; [lra|]. change (INR 1) with 1. lra. }
  set (f := Rpower 2 (INR 1 * (1 / 2 - 1 / 1))) in *. clearbody f.
  replace (Rpower 2 (0 * INR 1)) with 1 by (rewrite Rmult_0_l, Rpower_O by lra; reflexivity).
  replace (INR 2) with 2 by (cbn; lra). unfold u64. generalize dependent eta64. intros eta E E0.
  replace (2 ^ 53) with 9007199254740992 in * by (cbn; lra). replace (10 ^ 12) with 1000000000000 by (cbn; lra). cbn [pow].
  rewrite Rmult_1_r. match goal with |- f * ?B + _ <= _ => assert (K : f * B <= 1 * B) by (apply Rmult_le_compat_r; [lra|apply F1]) end. lra.
Qed.
Lemma one_minus_pow d : 0 < d <= 1 -> d / 4 <= 1 - Rpower 2 (- d).
Proof.
  intros D.
  assert (L2 : / 2 <= ln 2).
  { rewrite <- (ln_exp (/ 2)). left. apply ln_increasing; [apply exp_pos|].
    assert (Q : exp (/ 2) * exp (/ 2) = exp 1) by (rewrite <- exp_plus; f_equal; field).
    assert (Q3 := exp_le_3). assert (Q0 := exp_pos (/ 2)). nra. }
  assert (L3 : ln 2 <= 1).
  { replace 1 with (ln (exp 1)) by apply ln_exp. left. apply ln_increasing; [lra|]. assert (Q := exp_ineq1 1 ltac:(lra)). lra. }
  assert (Y : 0 < d * ln 2) by (apply Rmult_lt_0_compat; lra).
  unfold Rpower. replace (- d * ln 2) with (- (d * ln 2)) by ring. rewrite exp_Ropp. set (y := d * ln 2) in *.
  assert (Q := exp_ineq1 y ltac:(lra)). assert (Q2 : / exp y <= / (1 + y)) by (apply Rinv_le_contravar; lra).
  assert (Yl : d / 2 <= y) by (unfold y; nra). assert (Yu : y <= 1) by (unfold y; nra).
  assert (Q3 : / (1 + y) <= 1 - y / 2).
  { apply (Rmult_le_reg_l (1 + y)); [lra|]. rewrite Rinv_r by lra. nra. }
  lra.
Qed.
Example float_case : exists t' l' ws l, wavelet_analysis_f binary64 [fin ramp] true haar None 0 1 = Ok (t', ws) /\ wt_leaders t' = Some l' /\
  (exists t, wavelet_analysis [fin ramp] PInfty haar 1 None 0 1 true = Ok (t, ws) /\ wt_leaders t = Some l) /\
  forall h h', estimate_hmin l 1 2 false true = Ok h -> estimate_hmin l' 1 2 false true = Ok h' ->
    moves_at_most (2 / 10 ^ 11) (nth 0 (hm_hmin h) NaN) (nth 0 (hm_hmin h') NaN).
Proof.
  assert (N : [ramp] <> []) by discriminate. assert (H : Forall (fun s => length s = 24%nat) [ramp]) by (repeat constructor).
  destruct (wavelet_case [ramp] N H) as (t & l & ws & E & H1 & H2 & H3 & H4 & H5). cbn [map] in E.
  destruct (C94_floating_point binary64 u64 u64 eta64 23 haar [fin ramp] 1 None 0 1 true t ws l u64_nonneg u64_nonneg eta64_nonneg ltac:(lra) accurate64
     good_haar R1_neq_R0 ramp_within E H2) as (t' & l' & E' & El' & K).
  exists t', l', ws, l. split; [exact E'|]. split; [exact El'|]. split; [exists t; auto|].
  assert (P : 0 < 10 ^ 11) by (apply pow_lt; lra).
  destruct (K (/ 10 ^ 11) 1%Z 2%Z false 0%nat) as (Kh & _).
  - left. now apply Rinv_0_lt_compat.
  - lia.
  - rewrite H3. right. now left.
  - simpl; lia.
  - intros j x Hj Hx.
    assert (B : PropsRounded.lead_bound u64 u64 eta64 23 haar 1 0 (Z.to_nat j) <= / 10 ^ 12).
    { assert (j = 1 \/ j = 2)%Z as [-> | ->] by lia; unfold PropsRounded.lead_bound; cbn [Z.to_nat Pos.to_nat Pos.iter_op Nat.add PropsRounded.lead_err];
        change (PropsRounded.coef_err ?a ?b ?c (length (dec_hi haar)) ?e ?f ?g ?h ?i ?k) with (PropsRounded.coef_bound a b c g haar h i k);
        assert (0 <= / 10 ^ 12) by (left; apply Rinv_0_lt_compat, pow_lt; lra); assert (R1 := ramp_bound1); assert (R2 := ramp_bound);
        repeat apply Rmax_lub; trivial. }
    assert (X : / 2 <= Rabs x).
    { apply (ramp_leads t ws l j); trivial. rewrite H3. assert (j = 1 \/ j = 2)%Z as [-> | ->] by lia; [now left|right; now left]. }
    set (d := / 10 ^ 11) in *. assert (Dp : 0 < d) by (now apply Rinv_0_lt_compat).
    assert (D1 : d <= 1) by (unfold d; rewrite <- Rinv_1; apply Rinv_le_contravar; [lra|]; cbn; lra).
    assert (D2 : / 10 ^ 12 = d / 10) by (unfold d; cbn; field).
    assert (Z1 := one_minus_pow d ltac:(lra)). rewrite D2 in B.
    assert (Z2 : d / 4 * / 2 <= (1 - Rpower 2 (- d)) * Rabs x) by (apply Rmult_le_compat; lra). lra.
  - intros h h' E1 E2. specialize (Kh true true h h' E1 E2). rewrite C94_spread_unweighted in Kh by lia.
    replace ((IZR (2 - 1 + 1) ^ 2 - 1) / 12) with (/ 2 * / 2) in Kh by (cbn; field). rewrite sqrt_square in Kh by lra.
    replace (/ 10 ^ 11 / / 2) with (2 / 10 ^ 11) in Kh by (field; lra). exact Kh.
Qed.
