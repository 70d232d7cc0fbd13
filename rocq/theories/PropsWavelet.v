(** * Properties C13-C20: the wavelet transform *)
From Coq Require Import Reals List ZArith Bool Lra Lia.
From Verif Require Import XReal PyBase ModelUtils ModelMRQ ModelStructure ModelWavelet Spec SpecMRQ LXReal LUtils LBase LFilter LTransform LPattern LWave LPoly.
From Verif Require PropsUtils.
Import ListNotations.
Open Scope R_scope.

(** ** C13: one filtering step *)
Theorem C13_filtering_step : forall (s hi lo : list R) (pad : xr),
  (1 <= length hi)%nat -> length lo = length hi ->
  let n := length s in
  let L := length hi in
  let d := fst (filtering (fin s) hi lo) in
  let a := snd (filtering (fin s) hi lo) in
  (* sizes *)
  length d = (n / 2)%nat /\ length a = (n / 2)%nat /\
  (* what is assumed outside of the signal does not matter *)
  filtering_pad pad (fin s) hi lo = filtering (fin s) hi lo /\
  (* output k sits at position i = 2k+1 of the signal *)
  forall k i, (k < n / 2)%nat -> i = (2 * k + 1)%nat ->
    (* NaN next to the two ends, and only there *)
    ((i < L - 1 \/ n - 1 - i < L - 1)%nat <-> nth k d NaN = NaN) /\
    ((i < L - 1 \/ n - 1 - i < L - 1)%nat <-> nth k a NaN = NaN) /\
    (* elsewhere an inner product with samples of the signal *)
    (~ (i < L - 1 \/ n - 1 - i < L - 1)%nat ->
       (forall m, (m < L)%nat -> (m <= i + (L - 1) / 2 /\ i + (L - 1) / 2 - m < n)%nat) /\
       nth k d NaN = Fin (Rsum (map (fun m => nth m hi 0 * nth (i + (L - 1) / 2 - m) s 0) (seq 0 L))) /\
       nth k a NaN = Fin (Rsum (map (fun m => nth m lo 0 * nth (i + (L - 1) / 2 - m) s 0) (seq 0 L)))).
Proof.
  intros s hi lo pad H1 H2 n L d a.
  assert (Ef : forall pd, filtering_pad pd (fin s) hi lo = (fstep hi (fin s), fstep lo (fin s)))
    by (intros; now apply filtering_fstep).
  assert (Ed : d = fstep hi (fin s)) by (unfold d, filtering; now rewrite Ef).
  assert (Ea : a = fstep lo (fin s)) by (unfold a, filtering; now rewrite Ef).
  rewrite Ed, Ea. rewrite !fstep_length, fin_length.
  split; [reflexivity|]. split; [reflexivity|].
  split; [unfold filtering; now rewrite !Ef|].
  intros k i Hk ->.
  assert (Hn : (2 * k + 1 < n)%nat).
  { assert (2 * (n / 2) <= n)%nat by (apply Nat.mul_div_le; lia). lia. }
  assert (Hc : ((L - 1) / 2 <= L - 1)%nat) by (apply Nat.div_le_upper_bound; lia).
  assert (G : forall h, length h = L ->
    ((2 * k + 1 < L - 1 \/ n - 1 - (2 * k + 1) < L - 1)%nat -> nth k (fstep h (fin s)) NaN = NaN) /\
    (~ (2 * k + 1 < L - 1 \/ n - 1 - (2 * k + 1) < L - 1)%nat ->
      nth k (fstep h (fin s)) NaN
      = Fin (Rsum (map (fun m => nth m h 0 * nth (2 * k + 1 + (L - 1) / 2 - m) s 0) (seq 0 L))))).
  { intros h Hh. rewrite fstep_nth by (now rewrite fin_length). rewrite fin_length, Hh. fold n.
    unfold kept. destruct (Nat.leb_spec (L - 1) (2 * k + 1)); destruct (Nat.leb_spec (2 * k + 1 + L) n);
      cbn [andb]; split; intros Hb; trivial; try lia.
    unfold csum. rewrite Hh. rewrite <- xsum_map_Fin. f_equal. apply map_ext_in. intros m Hm.
    apply in_seq in Hm. unfold fin. rewrite (nth_map_lt _ _ _ 0); [reflexivity|].
    fold n. generalize dependent ((L - 1) / 2)%nat. intros. lia. }
  destruct (G hi eq_refl) as [G1 G2]. destruct (G lo H2) as [G3 G4].
  assert (Dec : (2 * k + 1 < L - 1 \/ n - 1 - (2 * k + 1) < L - 1)%nat \/
                ~ (2 * k + 1 < L - 1 \/ n - 1 - (2 * k + 1) < L - 1)%nat) by lia.
  split; [|split].
  - split; [exact G1|]. intros E. destruct Dec as [|B]; trivial. rewrite (G2 B) in E. discriminate.
  - split; [exact G3|]. intros E. destruct Dec as [|B]; trivial. rewrite (G4 B) in E. discriminate.
  - intros B. split; [|split]; auto. intros m Hm. generalize dependent ((L - 1) / 2)%nat. intros. lia.
Qed.
Print Assumptions C13_filtering_step.

(** db1-like filters of length 2 on four samples: three borders, one inner product *)
Example C13_case :
  fst (filtering (fin [1; 2; 4; 8]) [1; -1] [1; 1]) = [Fin (2 - 1); NaN] .
Proof.
  unfold filtering. rewrite filtering_fstep by (simpl; lia). cbn [fst].
  unfold fstep, csum, fin. cbn [map length].
  change (4 / 2)%nat with 2%nat. change ((2 - 1) / 2)%nat with 0%nat.
  cbn. f_equal. f_equal. lra.
Qed.

(** ** helper lemmas on the closed form *)
Lemma coef_nil hi lo norm gam j : coef hi lo norm gam j [] = [].
Proof.
  unfold coef, detail. assert (E : approx_at lo (j - 1) [] = []).
  { induction (j - 1)%nat; simpl; trivial. rewrite IHn. reflexivity. }
  rewrite E. reflexivity.
Qed.
Lemma Cf_nth A w gam norm j r :
  nth r (Cf A w gam norm j) [] = coef (neg_hi w) (dec_lo w) norm gam j (nth r A []).
Proof.
  unfold Cf, coef_arr. rewrite <- (coef_nil (neg_hi w) (dec_lo w) norm gam j) at 1. apply map_nth.
Qed.
Lemma entry_coef A w gam norm g j r k : (1 <= j <= g)%nat ->
  entry (mrq_of WaveletCoef gam (Cf A w gam norm) g) (Z.of_nat j) r k
  = nth k (coef (neg_hi w) (dec_lo w) norm gam j (nth r A [])) NaN.
Proof. intros. unfold entry. cbn [mrq_of mq_values]. rewrite table_get by trivial. now rewrite Cf_nth. Qed.
Lemma scales_mrq f gam T g : scales (mrq_of f gam T g) = map Z.of_nat (seq 1 g).
Proof. apply table_keys. Qed.
Lemma in_scales f gam T g j : In j (scales (mrq_of f gam T g)) -> exists i, j = Z.of_nat i /\ (1 <= i <= g)%nat.
Proof.
  rewrite scales_mrq. intros H. apply in_map_iff in H as (i & <- & H). apply in_seq in H. exists i. split; [trivial|lia].
Qed.
Lemma entry_out m j r k : ~ In j (scales m) -> entry m j r k = NaN.
Proof.
  intros H. unfold entry. destruct (dict_get (mq_values m) j) eqn:E; trivial.
  exfalso. apply H. eapply dict_get_In; eassumption.
Qed.

(** ** C14: the NaN pattern depends only on the length *)
Theorem C14_nan_structure :
  forall (S S' : list (list R)) (n : nat) (w w' : wavelet) (p p' : pexp) (j1 j1' : Z)
         (j2 : option R) (gam gam' norm norm' : R) (weighted weighted' : bool) t t' ws ws',
  Forall (fun s => length s = n) S -> Forall (fun s => length s = n) S' ->
  length S = length S' ->
  good_wavelet w -> good_wavelet w' -> length (dec_hi w) = length (dec_hi w') ->
  norm <> 0 -> norm' <> 0 -> pos_pexp p -> pos_pexp p' -> (p = PNone <-> p' = PNone) ->
  wavelet_analysis (map fin S) p w j1 j2 gam norm weighted = Ok (t, ws) ->
  wavelet_analysis (map fin S') p' w' j1' j2 gam' norm' weighted' = Ok (t', ws') ->
  j2_eff t = j2_eff t' /\ ws = ws' /\
  scales (wt_coefs t) = scales (wt_coefs t') /\
  mq_nj (wt_coefs t) = mq_nj (wt_coefs t') /\
  map nan_pattern (dict_vals (mq_values (wt_coefs t)))
  = map nan_pattern (dict_vals (mq_values (wt_coefs t'))) /\
  match wt_leaders t, wt_leaders t' with
  | None, None => p = PNone
  | Some l, Some l' =>
      scales l = scales l' /\ mq_nj l = mq_nj l' /\
      (p = PInfty -> p' = PInfty ->
       map nan_pattern (dict_vals (mq_values l)) = map nan_pattern (dict_vals (mq_values l')))
  | _, _ => False
  end.
Proof.
  intros S S' n w w' p p' j1 j1' j2 gam gam' norm norm' wd wd' t t' ws ws'
         HS HS' Hl Hw Hw' HL Hn Hn' Hp Hp' Hpp H H'.
  apply wa_inv in H as (eta & _ & -> & -> & _ & _ & N1); trivial; [|now apply pos_p_ok].
  apply wa_inv in H' as (eta' & _ & -> & -> & _ & _ & N2); trivial; [|now apply pos_p_ok].
  assert (NS : S <> []) by (intros ->; apply N1; reflexivity).
  assert (NS' : S' <> []) by (intros ->; apply N2; reflexivity).
  assert (Hh : has_leaders p = has_leaders p').
  { destruct p, p'; simpl; trivial; destruct Hpp as [Q1 Q2];
      try (specialize (Q1 eq_refl)); try (specialize (Q2 eq_refl)); discriminate. }
  assert (Eg : gcount (map fin S) p w gam norm = gcount (map fin S') p' w' gam' norm').
  { rewrite (fin_gcount w gam norm S n p), (fin_gcount w' gam' norm' S' n p') by trivial. now rewrite Hh, HL. }
  assert (Ec : ccount (map fin S) p w gam norm = ccount (map fin S') p' w' gam' norm').
  { rewrite (fin_ccount w gam norm S n p), (fin_ccount w' gam' norm' S' n p') by trivial. now rewrite Hh, HL. }
  assert (En : nlev (map fin S) w = nlev (map fin S') w').
  { rewrite (fin_nlev w S n), (fin_nlev w' S' n) by trivial. now rewrite HL. }
  assert (PC : forall j, (1 <= j)%nat -> map pat (Cf (map fin S) w gam norm j) = map pat (Cf (map fin S') w' gam' norm' j)).
  { intros j Hj. rewrite (fin_Cf_pats w gam norm S n), (fin_Cf_pats w' gam' norm' S' n) by trivial. now rewrite HL, Hl. }
  assert (PL : forall j, map pat (Ld (map fin S) p w gam norm j) = map pat (Ld (map fin S') p' w' gam' norm' j)).
  { intros j. rewrite (fin_Ld_pats w gam norm S n), (fin_Ld_pats w' gam' norm' S' n) by trivial. now rewrite HL, Hl. }
  assert (CV : forall B B' : arr, map pat B = map pat B' -> map count_valid B = map count_valid B').
  { induction B as [|c B IH]; intros [|c' B']; simpl; try discriminate; trivial.
    intros [= E E']. rewrite (count_valid_pat c c') by trivial. f_equal. now apply IH. }
  assert (TP : forall (T T' : nat -> arr) g, (forall j, (1 <= j)%nat -> map pat (T j) = map pat (T' j)) ->
    map nan_pattern (dict_vals (table T g)) = map nan_pattern (dict_vals (table T' g))).
  { intros T T' g E. unfold dict_vals, table. rewrite !map_map. apply map_ext_in. intros j Hj. apply in_seq in Hj. apply E. lia. }
  unfold the_wt; cbn [j2_eff wt_coefs wt_leaders mrq_of mq_nj mq_values]. rewrite !scales_mrq.
  split; [unfold jeff; now rewrite Eg, En|].
  split; [unfold level_warns; now rewrite En|].
  split; [now rewrite Ec|].
  split; [rewrite Ec; apply njtable_ext; intros j Hj; apply CV, PC; lia|].
  split; [rewrite Ec; now apply TP|].
  assert (NJ : njtable (Ld (map fin S) p w gam norm) (gcount (map fin S) p w gam norm)
             = njtable (Ld (map fin S') p' w' gam' norm') (gcount (map fin S') p' w' gam' norm')).
  { rewrite Eg. apply njtable_ext. intros j Hj. apply CV, PL. }
  assert (SK : forall f f' ga ga' (T T' : nat -> arr) nj nj',
    scales (mkMRQ f ga (table T (gcount (map fin S) p w gam norm)) nj)
    = scales (mkMRQ f' ga' (table T' (gcount (map fin S') p' w' gam' norm')) nj')).
  { intros. unfold scales. cbn [mq_values]. rewrite !table_keys. now rewrite Eg. }
  destruct p, p'; try discriminate Hh; trivial; (split; [apply SK|split; [exact NJ|]]); intros Q Q'; try discriminate.
  cbn [mq_values mrq_of]. rewrite Eg. apply TP. intros; apply PL.
Qed.
Print Assumptions C14_nan_structure.

(** for wavelet coefficients and leaders a signal of at least one sample is
    always analysed without error *)
Theorem C14_returns : forall (S : list (list R)) (n : nat) w p j1 j2 gam norm weighted,
  S <> [] -> (1 <= n)%nat -> Forall (fun s => length s = n) S ->
  good_wavelet w -> norm <> 0 -> p = PNone \/ p = PInfty ->
  exists t ws, wavelet_analysis (map fin S) p w j1 j2 gam norm weighted = Ok (t, ws).
Proof.
  intros S n w p j1 j2 gam norm wd NS Hn HS Hw Hno Hp.
  rewrite wa_eq by (trivial; destruct Hp as [-> | ->]; exact I).
  unfold wa_closed. rewrite (fin_sig_len S n) by trivial.
  unfold decomposition_level, floor_log2.
  assert (P : 0 < INR n) by (apply lt_0_INR; lia).
  assert (Q : 0 < INR (length (dec_hi w)) + 1) by (assert (R := pos_INR (length (dec_hi w))); lra).
  destruct (Rle_dec (INR n / (INR (length (dec_hi w)) + 1)) 0) as [B|_].
  { exfalso. assert (0 < INR n / (INR (length (dec_hi w)) + 1)) by (apply Rdiv_lt_0_compat; trivial). lra. }
  destruct (Rle_dec (INR n) 0) as [B|_]; [lra|].
  cbn [bind]. destruct Hp as [-> | ->]; cbn [eta_of bind]; eauto.
Qed.
Print Assumptions C14_returns.

(** ** C15: locality *)
Theorem C15_locality :
  forall (A B : arr) (w : wavelet) (p : pexp) (j1 : Z) (j2 : option R) (gam norm : R) (weighted : bool)
         t t' ws ws',
  good_wavelet w -> norm <> 0 -> p_ok p ->
  wavelet_analysis A p w j1 j2 gam norm weighted = Ok (t, ws) ->
  wavelet_analysis B p w j1 j2 gam norm weighted = Ok (t', ws') ->
  forall (j : Z) (r k : nat),
  In j (scales (wt_coefs t)) -> In j (scales (wt_coefs t')) ->
  length (nth r A []) = length (nth r B []) ->
  let L := Z.of_nat (length (dec_hi w)) in
  let c := ((L - 1) / 2)%Z in
  (forall i : nat,
     (2 ^ j * Z.of_nat k + (2 ^ j - 1) * (c + 2 - L) <= Z.of_nat i
      <= 2 ^ j * Z.of_nat k + (2 ^ j - 1) * (c + 1))%Z ->
     nth i (nth r A []) NaN = nth i (nth r B []) NaN) ->
  entry (wt_coefs t) j r k = entry (wt_coefs t') j r k.
Proof.
  intros A B w p j1 j2 gam norm wd t t' ws ws' Hw Hn Hp H H' j r k I I' Hl L c HW.
  apply wa_inv in H as (eta & _ & -> & _); trivial.
  apply wa_inv in H' as (eta' & _ & -> & _); trivial.
  cbn [the_wt wt_coefs] in *.
  apply in_scales in I as (i & -> & Hi). apply in_scales in I' as (i' & Ei & Hi').
  apply Nat2Z.inj in Ei. subst i'.
  rewrite !entry_coef by trivial. unfold coef. rewrite !rescale_eq.
  set (f := xmul _).
  assert (F : f NaN = NaN) by reflexivity.
  rewrite <- F, !map_nth. f_equal.
  destruct Hw as [Hw1 Hw2].
  apply detail_local; rewrite ?neg_hi_length; trivial; lia.
Qed.
Print Assumptions C15_locality.

(** ** C16: linearity *)
(** the combination of two signals of the same shape *)
Definition combine_signals (al be : R) (S S' : list (list R)) : list (list R) :=
  map2 (map2 (fun x y => al * x + be * y)) S S'.

Lemma fin_comb al be s s' : fin (map2 (fun x y => al * x + be * y) s s') = comb al be (fin s) (fin s').
Proof. unfold fin, comb. rewrite map_map2, map2_map. apply map2_ext. reflexivity. Qed.
Lemma nth_fin S r : nth r (map fin S) [] = fin (nth r S []).
Proof. change (@nil xr) with (fin []) at 1. apply map_nth. Qed.

Theorem C16_linear :
  forall (S S' : list (list R)) (n : nat) (al be : R) (w : wavelet) (p : pexp) (j1 : Z)
         (j2 : option R) (gam norm : R) (weighted : bool) t1 t2 t ws1 ws2 ws,
  Forall (fun s => length s = n) S -> Forall (fun s => length s = n) S' -> length S = length S' ->
  good_wavelet w -> norm <> 0 -> pos_pexp p ->
  wavelet_analysis (map fin S) p w j1 j2 gam norm weighted = Ok (t1, ws1) ->
  wavelet_analysis (map fin S') p w j1 j2 gam norm weighted = Ok (t2, ws2) ->
  wavelet_analysis (map fin (combine_signals al be S S')) p w j1 j2 gam norm weighted = Ok (t, ws) ->
  scales (wt_coefs t) = scales (wt_coefs t1) /\ j2_eff t = j2_eff t1 /\
  mq_nj (wt_coefs t) = mq_nj (wt_coefs t1) /\
  forall j r k,
    (entry (wt_coefs t) j r k = NaN <-> entry (wt_coefs t1) j r k = NaN) /\
    (entry (wt_coefs t) j r k = NaN <-> entry (wt_coefs t2) j r k = NaN) /\
    forall d1 d2, entry (wt_coefs t1) j r k = Fin d1 -> entry (wt_coefs t2) j r k = Fin d2 ->
      entry (wt_coefs t) j r k = Fin (al * d1 + be * d2).
Proof.
  intros S S' n al be w p j1 j2 gam norm wd t1 t2 t ws1 ws2 ws HS HS' Hl Hw Hn Hp H1 H2 H.
  assert (HC : Forall (fun s => length s = n) (combine_signals al be S S')).
  { unfold combine_signals. clear -HS HS'. revert S' HS'. induction HS as [|s S E HS IH]; intros S' HS'.
    - constructor.
    - destruct HS' as [|s' S' E' HS']; [constructor|]. rewrite map2_cons. constructor.
      + rewrite map2_length. lia.
      + now apply IH. }
  assert (LC : length (combine_signals al be S S') = length S)
    by (unfold combine_signals; rewrite map2_length; lia).
  destruct (C14_nan_structure _ _ n w w p p j1 j1 j2 gam gam norm norm wd wd t t1 ws ws1 HC HS LC
             Hw Hw eq_refl Hn Hn Hp Hp ltac:(tauto) H H1) as (Ej & _ & Es & Enj & _ & _).
  destruct (C14_nan_structure _ _ n w w p p j1 j1 j2 gam gam norm norm wd wd t t2 ws ws2 HC HS' ltac:(lia)
             Hw Hw eq_refl Hn Hn Hp Hp ltac:(tauto) H H2) as (Ej' & _ & Es' & Enj' & _ & _).
  split; [exact Es|]. split; [exact Ej|]. split; [exact Enj|].
  intros j r k.
  apply wa_inv in H as (eta & _ & -> & _); trivial; [|now apply pos_p_ok].
  apply wa_inv in H1 as (eta1 & _ & -> & _); trivial; [|now apply pos_p_ok].
  apply wa_inv in H2 as (eta2 & _ & -> & _); trivial; [|now apply pos_p_ok].
  cbn [the_wt wt_coefs] in *. rewrite !scales_mrq in Es, Es'.
  destruct (in_dec Z.eq_dec j (map Z.of_nat (seq 1 (ccount (map fin S) p w gam norm)))) as [I|I].
  2:{ rewrite !entry_out; rewrite ?scales_mrq, <- ?Es', ?Es; trivial.
      repeat split; trivial; intros; discriminate. }
  assert (Cnt : forall g g', map Z.of_nat (seq 1 g) = map Z.of_nat (seq 1 g') -> g = g').
  { intros g g' E. apply (f_equal (@length _)) in E. now rewrite !map_length, !seq_length in E. }
  apply Cnt in Es. apply Cnt in Es'.
  apply in_map_iff in I as (i & <- & I). apply in_seq in I.
  rewrite !entry_coef by lia. rewrite !nth_fin.
  destruct (Nat.lt_ge_cases r (length S)) as [Hr|Hr].
  2:{ rewrite (nth_overflow (combine_signals _ _ _ _)), (nth_overflow S), (nth_overflow S') by lia.
      change (fin []) with (@nil xr). rewrite coef_nil.
      destruct k; simpl; repeat split; trivial; intros; discriminate. }
  assert (L1 : length (nth r S []) = n) by (rewrite Forall_forall in HS; apply HS, nth_In; trivial).
  assert (L2 : length (nth r S' []) = n) by (rewrite Forall_forall in HS'; apply HS', nth_In; lia).
  assert (EC : nth r (combine_signals al be S S') [] = map2 (fun x y => al * x + be * y) (nth r S []) (nth r S' [])).
  { unfold combine_signals. apply nth_map2; lia. }
  rewrite EC, fin_comb, coef_comb by (rewrite !fin_length; congruence).
  assert (LL : length (coef (neg_hi w) (dec_lo w) norm gam i (fin (nth r S [])))
             = length (coef (neg_hi w) (dec_lo w) norm gam i (fin (nth r S' [])))).
  { rewrite !coef_length, !fin_length by lia. congruence. }
  rewrite comb_nth by trivial.
  assert (PP : isnan (nth k (coef (neg_hi w) (dec_lo w) norm gam i (fin (nth r S []))) NaN)
             = isnan (nth k (coef (neg_hi w) (dec_lo w) norm gam i (fin (nth r S' []))) NaN)).
  { apply pat_nth. rewrite !coef_pat. apply detail_pat; try apply no_inf_fin; trivial.
    rewrite !pat_fin. congruence. }
  assert (NI : forall s, no_inf (coef (neg_hi w) (dec_lo w) norm gam i (fin s)))
    by (intros; apply coef_no_inf, no_inf_fin).
  destruct (no_inf_nth _ k (NI (nth r S []))) as [E1|[d1 E1]]; rewrite E1 in *;
  destruct (no_inf_nth _ k (NI (nth r S' []))) as [E2|[d2 E2]]; rewrite E2 in *; try discriminate PP;
    unfold lin; simpl; repeat split; trivial; intros; try discriminate; congruence.
Qed.
Print Assumptions C16_linear.

(** ** C17: blindness to polynomial trends *)
Theorem C17_trend_invariant :
  forall (S : list (list R)) (n : nat) (trend : list R) (w : wavelet) (M : nat) (p : pexp) (j1 : Z)
         (j2 : option R) (gam norm : R) (weighted : bool),
  Forall (fun s => length s = n) S ->
  good_wavelet w -> norm <> 0 -> p_ok p ->
  vanishing_moments (dec_hi w) M -> (length trend <= M)%nat ->
  wavelet_analysis (map fin (map (add_trend trend) S)) p w j1 j2 gam norm weighted
  = wavelet_analysis (map fin S) p w j1 j2 gam norm weighted.
Proof.
  intros S n trend w M p j1 j2 gam norm wd HS Hw Hn Hp V HM.
  rewrite !wa_eq by trivial.
  set (hi := neg_hi w). set (lo := dec_lo w).
  assert (LH : length lo = length hi) by (destruct Hw; unfold lo, hi; rewrite neg_hi_length; lia).
  assert (D : forall j s, (1 <= j)%nat -> detail hi lo j (fin (add_trend trend s)) = detail hi lo j (fin s)).
  { intros. apply (detail_trend hi lo j M trend); trivial. now apply vanishing_neg. }
  assert (Cc : forall j s, (1 <= j)%nat -> coef hi lo norm gam j (fin (add_trend trend s)) = coef hi lo norm gam j (fin s)).
  { intros. unfold coef. now rewrite D. }
  assert (LS : sig_len (map fin (map (add_trend trend) S)) = sig_len (map fin S)).
  { destruct S; simpl; trivial. unfold add_trend. now rewrite !fin_length, map_length, seq_length. }
  assert (NL : nlev (map fin (map (add_trend trend) S)) w = nlev (map fin S) w) by (unfold nlev; now rewrite LS).
  assert (EC : forall j, (1 <= j)%nat -> Cf (map fin (map (add_trend trend) S)) w gam norm j = Cf (map fin S) w gam norm j).
  { intros j Hj. unfold Cf, coef_arr. rewrite !map_map. apply map_ext. intros s. now apply Cc. }
  assert (SVE : forall f q j s, sv f q (cf hi lo norm gam (fin (add_trend trend s))) j = sv f q (cf hi lo norm gam (fin s)) j).
  { intros f q j s. induction j as [|[|j] IH]; trivial.
    - cbn [sv]. unfold cf. now rewrite Cc.
    - cbn [sv] in *. rewrite IH. unfold cf at 1 3. now rewrite (Cc (Datatypes.S (Datatypes.S j))) by lia. }
  assert (LE : forall f q j s, lead_of hi lo norm gam f q j (fin (add_trend trend s)) = lead_of hi lo norm gam f q j (fin s)).
  { intros. unfold lead_of, lead, raw_lead. now rewrite SVE. }
  assert (EL : forall j, Ld (map fin (map (add_trend trend) S)) p w gam norm j = Ld (map fin S) p w gam norm j).
  { intros j. unfold Ld, lead_arr. rewrite !map_map. apply map_ext. intros s. apply LE. }
  assert (OC : forall j, (1 <= j)%nat -> okc hi lo (map fin (map (add_trend trend) S)) j = okc hi lo (map fin S) j).
  { intros j Hj. unfold okc. clear -D Hj. induction S; cbn [map forallb]; trivial. now rewrite IHS, D. }
  assert (OL : forall f q j, okl hi lo norm gam (map fin (map (add_trend trend) S)) f q j = okl hi lo norm gam (map fin S) f q j).
  { intros f q j. unfold okl. clear -LE. induction S; cbn [map forallb]; trivial. now rewrite IHS, LE. }
  assert (EG : gcount (map fin (map (add_trend trend) S)) p w gam norm = gcount (map fin S) p w gam norm).
  { unfold gcount. rewrite NL. fold hi lo. destruct p; apply run_ext; intros j Hj; unfold okb; rewrite ?OC, ?OL by lia; reflexivity. }
  assert (ECC : ccount (map fin (map (add_trend trend) S)) p w gam norm = ccount (map fin S) p w gam norm).
  { unfold ccount. rewrite NL, EG. fold hi lo. rewrite OC by lia. reflexivity. }
  assert (EJ : jeff (map fin (map (add_trend trend) S)) p w gam norm j2 = jeff (map fin S) p w gam norm j2).
  { unfold jeff. now rewrite NL, EG. }
  assert (EM : forall g, mrq_of WaveletCoef gam (Cf (map fin (map (add_trend trend) S)) w gam norm) g
             = mrq_of WaveletCoef gam (Cf (map fin S) w gam norm) g).
  { intros g. unfold mrq_of. f_equal; [apply table_ext|apply njtable_ext]; intros j Hj; rewrite EC by lia; reflexivity. }
  unfold wa_closed. rewrite LS. destruct (decomposition_level _ _); [|reflexivity]. cbn [bind].
  assert (EE : eta_of (map fin (map (add_trend trend) S)) p w j1 j2 gam norm wd = eta_of (map fin S) p w j1 j2 gam norm wd).
  { unfold eta_of. destruct p; trivial. now rewrite EM, ECC, EJ. }
  rewrite EE. clear EE. destruct (eta_of _ _ _ _ _ _ _ _) as [eta|]; [|reflexivity]. cbn [bind].
  assert (ET : the_wt (map fin (map (add_trend trend) S)) p w j2 gam norm eta = the_wt (map fin S) p w j2 gam norm eta).
  { unfold the_wt. rewrite EM, ECC, EJ, EG. f_equal. destruct p; trivial; f_equal.
    - unfold mrq_of. f_equal; [apply table_ext|apply njtable_ext]; intros j Hj; now rewrite EL.
    - f_equal; [apply table_ext|apply njtable_ext]; intros j Hj; now rewrite EL. }
  rewrite ET. unfold level_warns. rewrite NL. reflexivity.
Qed.
Print Assumptions C17_trend_invariant.

(** polynomial signals (constants when M = 1) have zero coefficients *)
Theorem C17_polynomial_zero :
  forall (c : list R) (n : nat) (w : wavelet) (M : nat) (p : pexp) (j1 : Z)
         (j2 : option R) (gam norm : R) (weighted : bool) t ws,
  good_wavelet w -> norm <> 0 -> p_ok p ->
  vanishing_moments (dec_hi w) M -> (length c <= M)%nat ->
  wavelet_analysis [fin (map (fun i => poly c (INR i)) (seq 0 n))] p w j1 j2 gam norm weighted = Ok (t, ws) ->
  forall j r k, entry (wt_coefs t) j r k = NaN \/ entry (wt_coefs t) j r k = Fin 0.
Proof.
  intros c n w M p j1 j2 gam norm wd t ws Hw Hn Hp V HM H j r k.
  apply wa_inv in H as (eta & _ & -> & _); trivial. cbn [the_wt wt_coefs].
  set (g := ccount _ _ _ _ _).
  destruct (in_dec Z.eq_dec j (map Z.of_nat (seq 1 g))) as [I|I].
  2:{ left. apply entry_out. now rewrite scales_mrq. }
  apply in_map_iff in I as (i & <- & I). apply in_seq in I. rewrite entry_coef by lia.
  destruct r as [|r]; [|left; simpl; destruct r; rewrite coef_nil; destruct k; reflexivity].
  cbn [nth]. unfold coef. rewrite rescale_eq.
  set (f := xmul _). assert (F : f NaN = NaN) by reflexivity. rewrite <- F at 1 3. rewrite !map_nth.
  destruct (detail_vanish (neg_hi w) (dec_lo w) i M c (fin (map (fun i => poly c (INR i)) (seq 0 n)))
              (vanishing_neg _ _ V) HM (poly_fin_case c n) k) as [->| ->]; [now left|].
  right. unfold f. simpl. f_equal. lra.
Qed.
Print Assumptions C17_polynomial_zero.

(** db2 high-pass filter up to normalisation: two vanishing moments *)
Example C17_case : vanishing_moments [1 - sqrt 3; -(3 - sqrt 3); 3 + sqrt 3; -(1 + sqrt 3)] 2.
Proof. intros [|[|i]] Hi; [| |lia]; simpl; lra. Qed.
Example C17_case_constant : vanishing_moments [1; -1] 1.
Proof. intros [|i] Hi; [|lia]. simpl. lra. Qed.

(** ** C18: gamint and normalization only rescale *)
Theorem C18_rescale :
  forall (A : arr) (w : wavelet) (j1 j1' : Z) (j2 : option R) (gam norm : R) (weighted weighted' : bool)
         t t' ws ws',
  good_wavelet w -> norm <> 0 ->
  wavelet_analysis A PNone w j1 j2 gam norm weighted = Ok (t, ws) ->
  wavelet_analysis A PNone w j1' j2 0 2 weighted' = Ok (t', ws') ->
  scales (wt_coefs t) = scales (wt_coefs t') /\ mq_nj (wt_coefs t) = mq_nj (wt_coefs t') /\
  j2_eff t = j2_eff t' /\ mq_gamint (wt_coefs t) = gam /\
  forall j r k,
    entry (wt_coefs t) j r k
    = xmul (Fin (Rpower 2 (IZR j * (1 / 2 - 1 / norm + gam)))) (entry (wt_coefs t') j r k).
Proof.
  intros A w j1 j1' j2 gam norm wd wd' t t' ws ws' Hw Hn H H'.
  apply wa_inv in H as (eta & _ & -> & _); trivial; [|exact I].
  apply wa_inv in H' as (eta' & _ & -> & _); trivial; try exact I; try (apply Rgt_not_eq; lra).
  assert (Eg : gcount A PNone w gam norm = gcount A PNone w 0 2) by reflexivity.
  assert (CR : forall j c, coef (neg_hi w) (dec_lo w) norm gam j c
     = map (xmul (Fin (Rpower 2 (IZR (Z.of_nat j) * (1 / 2 - 1 / norm + gam)))))
           (coef (neg_hi w) (dec_lo w) 2 0 j c)).
  { intros j c. unfold coef. rewrite !rescale_eq, map_map. apply map_ext. intros v.
    rewrite xmul_Fin_assoc, <- Rpower_plus. do 3 f_equal. lra. }
  unfold the_wt; cbn [wt_coefs j2_eff mq_nj mrq_of]. unfold ccount. rewrite !scales_mrq, Eg.
  split; [reflexivity|]. split; [|split; [|split]].
  - apply njtable_ext. intros j Hj. unfold Cf, coef_arr. rewrite !map_map. apply map_ext. intros c.
    rewrite (CR j c). apply valid_map_notnan. intros. apply xmul_isnan, Rpower_neq0.
  - unfold jeff. now rewrite Eg.
  - reflexivity.
  - intros j r k.
    destruct (in_dec Z.eq_dec j (map Z.of_nat (seq 1 (gcount A PNone w 0 2)))) as [I|I].
    2:{ rewrite !entry_out by (now rewrite scales_mrq). reflexivity. }
    apply in_map_iff in I as (i & <- & I). apply in_seq in I. rewrite !entry_coef by lia.
    rewrite CR. set (f := xmul _). change NaN with (f NaN) at 1. apply map_nth.
Qed.
Print Assumptions C18_rescale.

Theorem C18_normalization_is_gamint :
  forall (A : arr) (w : wavelet) (p : pexp) (j1 j1' : Z) (j2 : option R) (gam norm norm' : R) (weighted weighted' : bool)
         t t' ws ws',
  good_wavelet w -> norm <> 0 -> norm' <> 0 -> p_ok p ->
  wavelet_analysis A p w j1 j2 gam norm' weighted = Ok (t, ws) ->
  wavelet_analysis A p w j1' j2 (gam + (1 / norm - 1 / norm')) norm weighted' = Ok (t', ws') ->
  mq_values (wt_coefs t) = mq_values (wt_coefs t') /\ mq_nj (wt_coefs t) = mq_nj (wt_coefs t') /\
  j2_eff t = j2_eff t' /\
  (p = PInfty -> option_map mq_values (wt_leaders t) = option_map mq_values (wt_leaders t')).
Proof.
  intros A w p j1 j1' j2 gam norm norm' wd wd' t t' ws ws' Hw Hn Hn' Hp H H'.
  apply wa_inv in H as (eta & _ & -> & _); trivial.
  apply wa_inv in H' as (eta' & _ & -> & _); trivial.
  set (gam' := gam + (1 / norm - 1 / norm')).
  assert (CR : forall j c, coef (neg_hi w) (dec_lo w) norm' gam j c = coef (neg_hi w) (dec_lo w) norm gam' j c).
  { intros j c. unfold coef. rewrite !rescale_eq. apply map_ext. intros v. do 3 f_equal. unfold gam'. lra. }
  assert (EC : forall j, Cf A w gam norm' j = Cf A w gam' norm j).
  { intros j. unfold Cf, coef_arr. apply map_ext. intros. apply CR. }
  assert (SVE : forall f q j c, sv f q (cf (neg_hi w) (dec_lo w) norm' gam c) j = sv f q (cf (neg_hi w) (dec_lo w) norm gam' c) j).
  { intros f q j c. induction j as [|[|j] IH]; trivial.
    - cbn [sv]. unfold cf. now rewrite CR.
    - cbn [sv] in *. rewrite IH. unfold cf at 1 3. now rewrite CR. }
  assert (LE : forall f q j c, lead_of (neg_hi w) (dec_lo w) norm' gam f q j c = lead_of (neg_hi w) (dec_lo w) norm gam' f q j c).
  { intros. unfold lead_of, lead, raw_lead. now rewrite SVE. }
  assert (EL : forall j, Ld A p w gam norm' j = Ld A p w gam' norm j).
  { intros j. unfold Ld, lead_arr. apply map_ext. intros. apply LE. }
  assert (OL : forall f q j, okl (neg_hi w) (dec_lo w) norm' gam A f q j = okl (neg_hi w) (dec_lo w) norm gam' A f q j).
  { intros f q j. unfold okl. clear -LE. induction A; cbn [map forallb]; trivial. now rewrite IHA, LE. }
  assert (EG : gcount A p w gam norm' = gcount A p w gam' norm).
  { unfold gcount. destruct p; apply run_ext; intros j Hj; unfold okb; rewrite ?OL by lia; reflexivity. }
  assert (ECC : ccount A p w gam norm' = ccount A p w gam' norm).
  { unfold ccount. now rewrite EG. }
  unfold the_wt. cbn [wt_coefs j2_eff mq_values mq_nj mrq_of wt_leaders].
  rewrite ECC. split; [now apply table_ext|]. split; [apply njtable_ext; intros; now rewrite EC|].
  split; [unfold jeff; now rewrite EG|].
  intros ->. cbn [option_map mq_values mrq_of]. rewrite EG. f_equal. now apply table_ext.
Qed.
Print Assumptions C18_normalization_is_gamint.

(** ** C19: shape of the result *)
(** the scales 1, 2, ..., n *)
Theorem C19_shape :
  forall (A : arr) (w : wavelet) (p : pexp) (j1 : Z) (j2 : option R) (gam norm : R) (weighted : bool) t ws,
  good_wavelet w -> norm <> 0 -> p_ok p ->
  wavelet_analysis A p w j1 j2 gam norm weighted = Ok (t, ws) ->
  exists level nc,
    decomposition_level (match A with c :: _ => length c | [] => 0%nat end) (length (dec_hi w)) = Ok level /\
    (* coefficients *)
    scales (wt_coefs t) = one_to nc /\ dict_keys (mq_nj (wt_coefs t)) = one_to nc /\
    (forall j v, dict_get (mq_values (wt_coefs t)) j = Some v ->
       length v = length A /\ Forall (fun c => (3 <= count_valid c)%nat) v /\
       forall r, length (nth r v []) = (length (nth r A []) / 2 ^ Z.to_nat j)%nat) /\
    (* leaders *)
    match wt_leaders t with
    | None => p = PNone
    | Some l => p <> PNone /\
        exists nl, scales l = one_to nl /\ dict_keys (mq_nj l) = one_to nl /\
          (nl <= nc <= nl + 1)%nat /\ (j2_eff t <= Z.of_nat nl)%Z /\
          (forall j row, dict_get (mq_nj l) j = Some row ->
             length row = length A /\ Forall (fun n => (3 <= n)%nat) row)
    end /\
    (* effective range *)
    (j2_eff t <= Z.of_nat nc)%Z /\ 
    (match j2 with Some j => 0 <= j -> (IZR (j2_eff t) <= j)%R | None => True end) /\
    (match j2 with Some j => 0 <= j -> (j2_eff t <= level)%Z | None => (j2_eff t <= level)%Z end).
Proof.
  intros A w p j1 j2 gam norm wd t ws Hw Hn Hp H.
  apply wa_inv in H as (eta & He & -> & _ & _ & Hl & HA); trivial.
  exists (nlev A w), (ccount A p w gam norm). unfold the_wt.
  cbn [wt_coefs wt_leaders j2_eff mq_nj mrq_of].
  assert (G := gcount_le A p w gam norm).
  assert (CG : (gcount A p w gam norm <= ccount A p w gam norm <= gcount A p w gam norm + 1)%nat).
  { unfold ccount. destruct p; [lia| |]; destruct (_ && _); lia. }
  assert (Og : forall j, (1 <= j <= gcount A p w gam norm)%nat ->
     okc (neg_hi w) (dec_lo w) A j = true /\
     (p <> PNone -> okl (neg_hi w) (dec_lo w) norm gam A (check_formalism p) p j = true)).
  { intros j Hj. destruct p.
    - split; [|congruence]. apply (run_ok _ (Z.to_nat (nlev A w)) 0). exact (conj (proj1 Hj) (proj2 Hj)).
    - assert (Q : okb (neg_hi w) (dec_lo w) norm gam A (check_formalism PInfty) PInfty j = true)
          by (apply (run_ok _ (Z.to_nat (nlev A w)) 0); exact (conj (proj1 Hj) (proj2 Hj))).
      apply andb_prop in Q as [Q Q']. auto.
    - assert (Q : okb (neg_hi w) (dec_lo w) norm gam A (check_formalism (PNum p)) (PNum p) j = true)
          by (apply (run_ok _ (Z.to_nat (nlev A w)) 0); exact (conj (proj1 Hj) (proj2 Hj))).
      apply andb_prop in Q as [Q Q']. auto. }
  assert (Olc : forall j, (1 <= j <= ccount A p w gam norm)%nat -> okc (neg_hi w) (dec_lo w) A j = true).
  { intros j Hj. destruct (Nat.le_gt_cases j (gcount A p w gam norm)) as [C|C]; [apply Og; lia|].
    unfold ccount in Hj. destruct p; [lia| |];
      destruct (_ && okc _ _ _ _) eqn:Q; try lia; apply andb_prop in Q as [_ Q];
      match type of Q with okc _ _ _ ?x = _ => replace j with x by lia end; trivial. }
  assert (JE : match j2 with Some j => 0 <= j -> IZR (jeff A p w gam norm j2) <= j | None => True end /\
               ((jeff A p w gam norm j2) <= Z.of_nat (gcount A p w gam norm))%Z /\
               match j2 with Some j => 0 <= j -> (jeff A p w gam norm j2 <= nlev A w)%Z | None => (jeff A p w gam norm j2 <= nlev A w)%Z end).
  { assert (LC : (level_cut (gcount A p w gam norm) (Z.to_nat (nlev A w)) (nlev A w) <= Z.of_nat (gcount A p w gam norm))%Z /\
                 (level_cut (gcount A p w gam norm) (Z.to_nat (nlev A w)) (nlev A w) <= nlev A w)%Z).
    { unfold level_cut. destruct (Nat.ltb_spec (gcount A p w gam norm) (Z.to_nat (nlev A w))); lia. }
    unfold jeff, effective_j2. destruct j2 as [x|]; [|tauto].
    set (lc := level_cut _ _ _) in *.
    destruct (Rlt_dec x (IZR lc)) as [Lt|Ge].
    - unfold truncR. destruct (Rle_dec 0 x) as [P|P].
      + assert (F : IZR (Int_part x) <= x) by (apply floor_spec; lia).
        assert (F' : (Int_part x <= lc)%Z).
        { apply le_IZR. lra. }
        repeat split; trivial; try lia.
      + split; [intros; lra|]. split; [|intros; lra].
        assert (F : (0 <= Int_part (- x))%Z) by (apply floor_spec; simpl; lra). lia.
    - repeat split; intros; try lra; lia. }
  destruct JE as (JE1 & JE2 & JE3).
  split; [exact Hl|].
  split; [apply scales_mrq|].
  split; [apply njtable_keys|].
  split.
  { cbn [mq_values mrq_of]. intros j v Hv. apply table_get_inv in Hv as (i & -> & Hi & ->).
    split; [unfold Cf, coef_arr; apply map_length|]. split.
    - specialize (Olc i Hi). unfold okc in Olc. rewrite forallb_forall in Olc.
      unfold Cf, coef_arr. rewrite Forall_map, Forall_forall. intros c Hc.
      specialize (Olc c Hc). apply Nat.leb_le in Olc. unfold coef. now rewrite count_valid_rescale.
    - intros r. rewrite Cf_nth, Nat2Z.id. apply coef_length. lia. }
  assert (LN : forall j row, dict_get (njtable (Ld A p w gam norm) (gcount A p w gam norm)) j = Some row -> p <> PNone ->
     length row = length A /\ Forall (fun n => (3 <= n)%nat) row).
  { intros j row Hr Np. assert (I := dict_get_In _ _ _ Hr). rewrite njtable_keys in I.
    apply in_map_iff in I as (i & <- & Hi). apply in_seq in Hi.
    rewrite njtable_get in Hr by lia. injection Hr as <-.
    split; [unfold Ld, lead_arr; now rewrite !map_length|].
    destruct (Og i ltac:(lia)) as [_ Ol]. specialize (Ol Np). unfold okl in Ol. rewrite forallb_forall in Ol.
    rewrite Forall_map. unfold Ld, lead_arr. rewrite Forall_map, Forall_forall. intros c Hc.
    specialize (Ol c Hc). now apply Nat.leb_le in Ol. }
  split.
  { destruct p.
    - reflexivity.
    - split; [discriminate|]. exists (gcount A PInfty w gam norm).
      split; [apply scales_mrq|]. split; [apply njtable_keys|]. split; [lia|]. split; [lia|].
      intros j row Hr. apply (LN j row Hr). discriminate.
    - split; [discriminate|]. exists (gcount A (PNum p) w gam norm).
      split; [apply table_keys|]. split; [apply njtable_keys|]. split; [lia|]. split; [lia|].
      intros j row Hr. apply (LN j row Hr). discriminate. }
  split; [lia|]. split; trivial.
Qed.
Print Assumptions C19_shape.

(** every scale range inside 1..j2_eff can be regressed on: all weights exist *)
Theorem C19_scales_available :
  forall (A : arr) (w : wavelet) (p : pexp) (j1 : Z) (j2 : option R) (gam norm : R) (weighted : bool) t ws,
  good_wavelet w -> norm <> 0 -> p_ok p ->
  wavelet_analysis A p w j1 j2 gam norm weighted = Ok (t, ws) ->
  forall a b, (1 <= a)%Z -> (b <= j2_eff t)%Z ->
    (exists rows, get_nj_interv (mq_nj (wt_coefs t)) a b = Ok rows) /\
    (forall l, wt_leaders t = Some l -> exists rows, get_nj_interv (mq_nj l) a b = Ok rows) /\
    (forall j, (a <= j <= b)%Z -> In j (scales (wt_coefs t)) /\
        forall l, wt_leaders t = Some l -> In j (scales l)).
Proof.
  intros A w p j1 j2 gam norm wd t ws Hw Hn Hp H a b Ha Hb.
  destruct (C19_shape _ _ _ _ _ _ _ _ _ _ Hw Hn Hp H) as (level & nc & _ & Sc & Nc & _ & HL & Jc & _).
  assert (In1 : forall n j, In j (one_to n) <-> (1 <= j <= Z.of_nat n)%Z).
  { intros n j. unfold one_to. rewrite in_map_iff. setoid_rewrite in_seq. split.
    - intros (i & <- & Hi). lia.
    - intros Hj. exists (Z.to_nat j). lia. }
  assert (GN : forall (d : dict (list nat)) n, dict_keys d = one_to n -> (b <= Z.of_nat n)%Z ->
     exists rows, get_nj_interv d a b = Ok rows).
  { intros d n Ek Hn'. unfold get_nj_interv.
    assert (Q : forall js, (forall j, In j js -> In j (dict_keys d)) -> exists rows, mapM (dict_getitem d) js = Ok rows).
    { induction js as [|j js IH]; intros Hj; [eexists; reflexivity|]. simpl.
      unfold dict_getitem at 1.
      assert (X : exists v, dict_get d j = Some v).
      { assert (K := Hj j (or_introl eq_refl)). clear -K. unfold dict_keys in K.
        induction d as [|[k v] d IH]; simpl in *; [tauto|]. destruct (Z.eqb_spec j k); [eauto|].
        destruct K; [congruence|auto]. }
      destruct X as [v ->]. cbn [bind]. destruct IH as [rows ->]; [intros; apply Hj; now right|]. eexists; reflexivity. }
    apply Q. intros j Hj. apply zrange_In in Hj. rewrite Ek. apply In1. lia. }
  split; [apply (GN _ nc); trivial; lia|].
  split.
  - intros l El. rewrite El in HL. destruct HL as (_ & nl & _ & Kl & _ & Jl & _). apply (GN _ nl); trivial. lia.
  - intros j Hj. split; [rewrite Sc; apply In1; lia|].
    intros l El. rewrite El in HL. destruct HL as (_ & nl & Sl & _ & _ & Jl & _). rewrite Sl. apply In1. lia.
Qed.
Print Assumptions C19_scales_available.

(** ** C20: coefficients do not depend on the formalism *)
Theorem C20_coefs_formalism :
  forall (A : arr) (w : wavelet) (p p' : pexp) (j1 j1' : Z) (j2 j2' : option R) (gam norm : R)
         (weighted weighted' : bool) t t' ws ws',
  good_wavelet w -> norm <> 0 -> p_ok p -> p_ok p' ->
  wavelet_analysis A p w j1 j2 gam norm weighted = Ok (t, ws) ->
  wavelet_analysis A p' w j1' j2' gam norm weighted' = Ok (t', ws') ->
  forall j, In j (scales (wt_coefs t)) -> In j (scales (wt_coefs t')) ->
    dict_get (mq_values (wt_coefs t)) j = dict_get (mq_values (wt_coefs t')) j /\
    dict_get (mq_nj (wt_coefs t)) j = dict_get (mq_nj (wt_coefs t')) j.
Proof.
  intros A w p p' j1 j1' j2 j2' gam norm wd wd' t t' ws ws' Hw Hn Hp Hp' H H' j I I'.
  apply wa_inv in H as (eta & _ & -> & _); trivial.
  apply wa_inv in H' as (eta' & _ & -> & _); trivial.
  cbn [the_wt wt_coefs] in *.
  apply in_scales in I as (i & -> & Hi). apply in_scales in I' as (i' & Ei & Hi').
  apply Nat2Z.inj in Ei. subst i'. cbn [mq_values mq_nj mrq_of].
  rewrite !table_get, !njtable_get by trivial. auto.
Qed.
Print Assumptions C20_coefs_formalism.

(** ** A concrete family meeting all hypotheses above: Haar filters on 24
    samples, any number of realisations, both formalisms *)
Definition haar : wavelet := mkWavelet [-1; 1] [1; 1].
Lemma good_haar : good_wavelet haar.
Proof. split; simpl; lia. Qed.
Lemma level_24_2 : decomposition_level 24 2 = Ok 3%Z.
Proof.
  destruct (PropsUtils.C12_largest_level 24 2) as (m & E & Hm); [lia|]. rewrite E. f_equal.
  assert (A : (3 <= m)%Z) by (apply Hm; simpl; lra).
  assert (B : ~ (4 <= m)%Z) by (rewrite Hm; simpl; lra). lia.
Qed.
Example wavelet_case : forall S : list (list R), S <> [] -> Forall (fun s => length s = 24%nat) S ->
  exists t l ws, wavelet_analysis (map fin S) PInfty haar 1 None 0 1 true = Ok (t, ws) /\
    scales (wt_coefs t) = [1; 2]%Z /\ wt_leaders t = Some l /\ scales l = [1; 2]%Z /\ j2_eff t = 2%Z /\
    dict_get (mq_nj (wt_coefs t)) 2 = Some (repeat 5%nat (length S)).
Proof.
  intros S N H.
  destruct (C14_returns S 24 haar PInfty 1 None 0 1 true N ltac:(lia) H good_haar R1_neq_R0 ltac:(auto)) as (t & ws & E).
  exists t. assert (E' := E).
  apply wa_inv in E' as (eta & _ & -> & _); [|exact good_haar|exact R1_neq_R0|exact I].
  unfold the_wt; cbn [wt_coefs wt_leaders j2_eff]. eexists. exists ws. split; [exact E|].
  assert (G : gcount (map fin S) PInfty haar 0 1 = 2%nat).
  { rewrite (fin_gcount haar 0 1 S 24 PInfty good_haar N H I). unfold gcount_b, lev_b.
    change (length (dec_hi haar)) with 2%nat. rewrite level_24_2. vm_compute. reflexivity. }
  assert (C : ccount (map fin S) PInfty haar 0 1 = 2%nat).
  { rewrite (fin_ccount haar 0 1 S 24 PInfty good_haar N H I). unfold ccount_b, gcount_b, lev_b.
    change (length (dec_hi haar)) with 2%nat. rewrite level_24_2. vm_compute. reflexivity. }
  rewrite scales_mrq, C. split; [reflexivity|]. split; [reflexivity|]. rewrite scales_mrq, G. split; [reflexivity|].
  split.
  - unfold jeff. rewrite (fin_nlev haar S 24 N H). unfold lev_b. change (length (dec_hi haar)) with 2%nat.
    rewrite level_24_2, G. reflexivity.
  - cbn [mrq_of mq_nj]. change 2%Z with (Z.of_nat 2). rewrite njtable_get by lia. f_equal.
    rewrite (counts_of_pats _ _ _ (fin_Cf_pats haar 0 1 S 24 good_haar H 2 ltac:(lia))).
    vm_compute. reflexivity.
Qed.
