(** * C108, continued: mean power at every scale, the wavelet spectrum, signals with stationary increments *)
From Coq Require Import Reals List ZArith Bool Lra Lia.
From Verif Require Import XReal PyBase ModelUtils ModelMRQ ModelStructure ModelWavelet ModelPSD Spec SpecMRQ SpecSimul LXReal LUtils LBase LFilter LTransform LPattern LWave LPoly LCone LWaveEst LDft LSimul LEst LPSD
  PropsPSD PropsWavelet PropsMissing PropsSlope PropsWhite.
Import ListNotations.
Open Scope R_scope.
Local Notation length := List.length.

(** products of samples have the means a i + a k + v (i - k): the increments are stationary (fractional Brownian motion:
    a i = i^(2H) / 2, v d = - |d|^(2H) / 2) *)
Definition stationary_increments {W} (P : expectation W) (n : nat) (x : W -> list R) (a : nat -> R) (v : Z -> R) : Prop :=
  (forall w, length (x w) = n) /\
  (forall i, (i < n)%nat -> integrable P (fun w => nth i (x w) 0) /\ E P (fun w => nth i (x w) 0) = 0) /\
  (forall i k, (i < n)%nat -> (k < n)%nat -> integrable P (fun w => nth i (x w) 0 * nth k (x w) 0) /\
     E P (fun w => nth i (x w) 0 * nth k (x w) 0) = a i + a k + v (Z.of_nat i - Z.of_nat k)%Z).
(** the high-pass filter ignores constants *)
Definition ignores_constants (w : wavelet) : Prop := sumn (length (dec_hi w)) (fun m => nth m (dec_hi w) 0) = 0.

(** ** Mean power *)
Lemma reals_sumn c : no_inf c -> Rsum (map (fun x => x * x) (reals c)) = sumn (length c) (fun k => number (nth k c NaN) * number (nth k c NaN)).
Proof.
  induction c as [|x c IH]; intros N; [reflexivity|]. inversion N; subst. cbn [length]. rewrite sumn_S_first.
  change (sumn (length c) (fun i => number (nth (S i) (x :: c) NaN) * number (nth (S i) (x :: c) NaN))) with (sumn (length c) (fun k => number (nth k c NaN) * number (nth k c NaN))). rewrite <- (IH H2).
  destruct H1 as [-> | [a ->]]; cbn [reals map nth number]; [lra|]. change (Rsum (?a :: ?l)) with (a + Rsum l). ring.
Qed.
Lemma sumn_indicator N (b : nat -> bool) v : sumn N (fun k => if b k then v else 0) = INR (length (filter b (seq 0 N))) * v.
Proof.
  unfold sumn. induction (seq 0 N) as [|k l IH]; [cbn; unfold Rsum; cbn; ring|]. cbn [map filter]. change (Rsum (?a :: ?l)) with (a + Rsum l). rewrite IH.
  destruct (b k); cbn [length]; rewrite ?S_INR; ring.
Qed.
Lemma abs_moment_2 l : abs_moment 2 l = mean (map (fun x => x * x) l).
Proof.
  unfold abs_moment. f_equal. apply map_ext. intros a. unfold qpow, abs_pow. destruct (Req_EM_T 2 0); [lra|]. destruct (Req_EM_T a 0) as [->|ne]; [ring|].
  assert (X := Rabs_pos_lt a ne). replace (2 * ln (Rabs a)) with (ln (Rabs a) + ln (Rabs a)) by ring. rewrite exp_plus, exp_ln by trivial.
  unfold Rabs. destruct (Rcase_abs a); ring.
Qed.

Section Power.
Context {W : Type} (P : expectation W).
Variables (S : W -> list (list R)) (n nrep : nat) (w : wavelet) (p : pexp) (j1 : Z) (j2 : option R) (gam norm : R) (weighted : bool) (T : W -> wtransform) (ws : W -> list warning).
Hypothesis HS : forall o, length (S o) = nrep /\ Forall (fun s => length s = n) (S o).
Hypothesis Hw : good_wavelet w.
Hypothesis Hn : norm <> 0.
Hypothesis Hp : p_ok p.
Hypothesis HT : forall o, wavelet_analysis (map fin (S o)) p w j1 j2 gam norm weighted = Ok (T o, ws o).
Lemma column_facts j r o : (1 <= j)%nat -> In (Z.of_nat j) (scales (wt_coefs (T o))) -> (r < nrep)%nat ->
  let c := column (wt_coefs (T o)) (Z.of_nat j) r in
  no_inf c /\ length c = (n / 2 ^ j)%nat /\ length (reals c) = inner_count n (length (dec_hi w)) j /\
  forall k, ~ inner n (length (dec_hi w)) j k -> nth k c NaN = NaN.
Proof using HS Hw Hn Hp HT.
  intros Hj I Hr c.
  assert (Ls : length (nth r (S o) []) = n) by (destruct (HS o) as [A B]; rewrite Forall_forall in B; apply B, nth_In; lia).
  assert (NI : Forall no_inf (map fin (S o))) by (apply Forall_map, Forall_forall; intros s _; apply no_inf_fin).
  assert (Hr' : (r < length (map fin (S o)))%nat) by (rewrite map_length; destruct (HS o); lia).
  assert (CN := C99_count (S o) n w p j1 j2 gam norm weighted (T o) (ws o) (proj2 (HS o)) Hw Hn Hp (HT o) j r I ltac:(destruct (HS o); lia)).
  assert (US : forall k, entry (wt_coefs (T o)) (Z.of_nat j) r k = nth k c NaN).
  { intros k. unfold entry, c, column. destruct (dict_get _ _); [reflexivity|]. now destruct k. }
  assert (C99 := C99_usable (map fin (S o)) w p j1 j2 gam norm weighted (T o) (ws o) NI Hw Hn Hp (HT o) j r).
  assert (E := HT o). apply wa_inv in E as (eta & _ & ET & _); trivial. rewrite ET in *. cbn [the_wt wt_coefs] in *.
  assert (I' := I). apply in_scales in I' as (i & Ei & Hi). apply Nat2Z.inj in Ei. subst i.
  assert (EC : c = coef (neg_hi w) (dec_lo w) norm gam j (fin (nth r (S o) []))).
  { unfold c, column. rewrite ET. cbn [the_wt wt_coefs]. unfold mrq_of. cbn [mq_values]. rewrite table_get by trivial. rewrite Cf_nth_lt by trivial. now rewrite nth_fin. }
  assert (NC : no_inf c) by (rewrite EC; apply coef_no_inf, no_inf_fin).
  split; [exact NC|]. split; [rewrite EC, coef_length, fin_length, Ls by trivial; reflexivity|]. split.
  - rewrite <- CN. unfold mrq_of. rewrite table_count by exact Hi. rewrite Cf_nth_lt by trivial. rewrite nth_fin, <- EC. now rewrite count_valid_reals.
  - intros k NK. rewrite <- US. apply (C99 k I Hr'). left. now rewrite nth_fin, fin_length, Ls.
Qed.
(** mean power: if the square of every inner coefficient has the mean v, so has the average over the scale *)
Lemma mean_power j r v : (1 <= j)%nat -> (forall o, In (Z.of_nat j) (scales (wt_coefs (T o)))) -> (r < nrep)%nat -> (1 <= inner_count n (length (dec_hi w)) j)%nat ->
  (forall k, inner n (length (dec_hi w)) j k ->
     integrable P (fun o => number (entry (wt_coefs (T o)) (Z.of_nat j) r k) * number (entry (wt_coefs (T o)) (Z.of_nat j) r k)) /\
     E P (fun o => number (entry (wt_coefs (T o)) (Z.of_nat j) r k) * number (entry (wt_coefs (T o)) (Z.of_nat j) r k)) = v) ->
  integrable P (fun o => mean_sq (wt_coefs (T o)) (Z.of_nat j) r) /\ E P (fun o => mean_sq (wt_coefs (T o)) (Z.of_nat j) r) = v.
Proof using HS Hw Hn Hp HT.
  intros Hj HI Hr HC H. set (L := length (dec_hi w)) in *. set (e k o := number (entry (wt_coefs (T o)) (Z.of_nat j) r k)) in *.
  assert (V : forall o, / INR (inner_count n L j) * sumn (n / 2 ^ j) (fun k => e k o * e k o) = mean_sq (wt_coefs (T o)) (Z.of_nat j) r).
  { intros o. destruct (column_facts j r o Hj (HI o) Hr) as (A1 & A2 & A3 & A4). unfold mean_sq, mean, numbers. rewrite map_length, A3, reals_sumn, A2 by trivial.
    unfold Rdiv. rewrite Rmult_comm. f_equal. apply sumn_ext. intros k Hk. unfold e, entry, column. destruct (dict_get _ _); [reflexivity|]. now destruct k. }
  assert (Z : forall k, integrable P (fun o => e k o * e k o) /\ E P (fun o => e k o * e k o) = if innerb n L j k then v else 0).
  { intros k. unfold innerb. destruct (inner_dec n L j k) as [IN|IN]; [now apply H|].
    assert (G : forall o : W, 0 = e k o * e k o).
    { intros o. destruct (column_facts j r o Hj (HI o) Hr) as (_ & _ & _ & A4). specialize (A4 k IN). unfold e, entry. unfold column in A4. destruct (dict_get _ _); [|cbn; ring]. rewrite A4. cbn. ring. }
    split; [apply (int_ext W P _ _ G), int_zero|]. rewrite <- (E_ext W P _ _ G). apply E_zero. }
  assert (IS : integrable P (fun o => sumn (n / 2 ^ j) (fun k => e k o * e k o))) by (apply (int_sumn P _ (fun k o => e k o * e k o)); intros k _; apply Z).
  split; [now apply (int_ext W P _ _ V), int_scal|]. rewrite <- (E_ext W P _ _ V), E_scal by trivial.
  rewrite (E_sumn P (n / 2 ^ j) (fun k o => e k o * e k o)) by (intros k _; apply Z). rewrite (sumn_ext _ _ (fun k => if innerb n L j k then v else 0)) by (intros k _; apply Z).
  rewrite sumn_indicator, inner_total by (trivial; destruct Hw; unfold L; lia). field. apply not_0_INR. lia.
Qed.
End Power.

(** the mean power of the coefficients of a stationary signal at scale j is the variance of one coefficient: 2^S(j, 2) is unbiased *)
Theorem C108_power :
  forall {W} (P : expectation W) (S : W -> list (list R)) (n nrep : nat) w p j1 j2 gam norm weighted (T : W -> wtransform) (ws : W -> list warning) r cov,
  (forall o, length (S o) = nrep /\ Forall (fun s => length s = n) (S o)) -> good_wavelet w -> norm <> 0 -> p_ok p ->
  (forall o, wavelet_analysis (map fin (S o)) p w j1 j2 gam norm weighted = Ok (T o, ws o)) ->
  (r < nrep)%nat -> stationary_signal P n (fun o => nth r (S o) []) cov ->
  forall j, (1 <= j)%nat -> (forall o, In (Z.of_nat j) (scales (wt_coefs (T o)))) -> (1 <= inner_count n (length (dec_hi w)) j)%nat ->
  integrable P (fun o => abs_moment 2 (numbers (wt_coefs (T o)) (Z.of_nat j) r)) /\
  E P (fun o => abs_moment 2 (numbers (wt_coefs (T o)) (Z.of_nat j) r)) = factor norm gam j ^ 2 * high_cov w cov j 0.
Proof.
  intros W P S n nrep w p j1 j2 gam norm wd T ws r cov HS Hw Hn Hp HT Hr HX j Hj HI HC.
  assert (G : forall o, mean_sq (wt_coefs (T o)) (Z.of_nat j) r = abs_moment 2 (numbers (wt_coefs (T o)) (Z.of_nat j) r)) by (intros o; now rewrite abs_moment_2).
  destruct (mean_power P S n nrep w p j1 j2 gam norm wd T ws HS Hw Hn Hp HT j r (factor norm gam j ^ 2 * high_cov w cov j 0) Hj HI Hr HC) as [A B].
  { intros k IN. destruct (moments_2 P S n nrep w p j1 j2 gam norm wd T ws HS Hw Hn Hp HT r cov j k k HX Hj HI Hr IN IN) as [A B]. split; [exact A|]. rewrite B. now rewrite Z.sub_diag. }
  split; [now apply (int_ext W P _ _ G)|]. now rewrite <- (E_ext W P _ _ G).
Qed.
Print Assumptions C108_power.

(** ** The wavelet spectrum *)
(** the wavelet PSD of white noise analysed with an orthonormal wavelet is flat: at every frequency its mean is the variance of the samples;
    for a stationary signal it is the covariance filtered by the wavelet at that scale *)
Theorem C108_psd :
  forall {W} (P : expectation W) (S : W -> list (list R)) (n nrep : nat) db N w fs j2 (Q : W -> psd) r cov,
  (forall o, length (S o) = nrep /\ Forall (fun s => length s = n) (S o)) -> db N = Some w -> good_wavelet w ->
  (forall o, wavelet_estimation db (map fin (S o)) fs N j2 = Ok (Q o)) ->
  (r < nrep)%nat -> stationary_signal P n (fun o => nth r (S o) []) cov ->
  forall i, (forall o, (i < length (psd_freq (Q o)))%nat) -> (1 <= inner_count n (length (dec_hi w)) (i + 1))%nat ->
  let value o := match psd_psd (Q o) with PSD1 v => NaN | PSD2 _ rows => nth r (nth i rows []) NaN end in
  (forall o, value o = Fin (number (value o))) /\
  E P (fun o => number (value o)) = high_cov w cov (i + 1) 0 /\
  (forall s2, orthonormal w -> cov = flat s2 -> E P (fun o => number (value o)) = s2).
Proof.
  intros W P S n nrep db N w fs j2 Q r cov HS Hdb Hw HQ Hr HX i Hi HC value.
  assert (NI : forall o, Forall no_inf (map fin (S o))) by (intros o; apply Forall_map, Forall_forall; intros s _; apply no_inf_fin).
  set (T := fun o => the_wt (map fin (S o)) PNone w j2 (1/2) 1 []).
  assert (HT : forall o, exists ws, wavelet_analysis (map fin (S o)) PNone w 1 j2 (1/2) 1 false = Ok (T o, ws) /\
     (forall k, (k < length (psd_freq (Q o)))%nat -> In (Z.of_nat (k + 1)) (scales (wt_coefs (T o)))) /\
     value o = Fin (mean_sq (wt_coefs (T o)) (Z.of_nat (i + 1)) r)).
  { intros o. destruct (we_inv db (map fin (S o)) fs N j2 w (Q o) Hdb Hw (HQ o)) as (ws & EW & EQ). exists ws. split; [exact EW|].
    assert (LQ : length (psd_freq (Q o)) = ccount (map fin (S o)) PNone w (1/2) 1).
    { rewrite EQ. cbn [psd_freq]. unfold one_to. rewrite !map_length. apply seq_length. }
    assert (SC : scales (wt_coefs (T o)) = one_to (ccount (map fin (S o)) PNone w (1/2) 1)) by apply scales_mrq.
    split; [intros k Hk; rewrite SC; unfold one_to; apply in_map, in_seq; lia|].
    assert (G1 : (1 <= ccount (map fin (S o)) PNone w (1/2) 1)%nat) by (specialize (Hi o); lia).
    assert (H := we_holds (map fin (S o)) w (NI o) G1).
    unfold value. rewrite EQ. cbn [psd_psd].
    change (mq_values (wt_coefs (the_wt (map fin (S o)) PNone w j2 (1 / 2) 1 []))) with (mq_values (mrq_of WaveletCoef (1/2) (Cf (map fin (S o)) w (1/2) 1) (ccount (map fin (S o)) PNone w (1/2) 1))).
    assert (HL : length (map mean_square (dict_vals (mq_values (mrq_of WaveletCoef (1/2) (Cf (map fin (S o)) w (1/2) 1) (ccount (map fin (S o)) PNone w (1/2) 1))))) = ccount (map fin (S o)) PNone w (1/2) 1).
    { unfold mrq_of. cbn [mq_values]. unfold table, dict_vals. now rewrite !map_length, seq_length. }
    destruct H as [_ [(y & _ & H)|[_ H]]]; [discriminate|]. injection H as _ H. set (rows := map mean_square _) in *. destruct rows as [|r0 rows0] eqn:ER; [cbn in HL; lia|]. rewrite H.
    specialize (Hi o). rewrite LQ in Hi.
    rewrite (nth_map_lt _ _ _ 0%nat) by (now rewrite seq_length). rewrite seq_nth by trivial.
    assert (LS : length (map fin (S o)) = nrep) by (rewrite map_length; apply HS).
    rewrite (nth_map_lt _ _ _ []) by (rewrite !map_length, seq_length; destruct (HS o); lia). rewrite (nth_map_lt _ _ _ 0%nat) by (rewrite seq_length, map_length; destruct (HS o); lia). rewrite seq_nth by (rewrite ?map_length; destruct (HS o); lia).
    rewrite (nth_map_lt _ _ _ 0%Z) by (unfold one_to; now rewrite map_length, seq_length). cbn [Nat.add].
    unfold one_to. rewrite (nth_map_lt _ _ _ 0%nat) by (now rewrite seq_length). rewrite seq_nth by trivial. replace (1 + i)%nat with (i + 1)%nat by lia. reflexivity. }
  assert (HT' : forall o, wavelet_analysis (map fin (S o)) PNone w 1 j2 (1/2) 1 false = Ok (T o, level_warns (map fin (S o)) w j2)).
  { intros o. destruct (HT o) as (ws & A & _). assert (B := A). apply wa_inv in B as (eta & _ & _ & -> & _); trivial; solve [exact R1_neq_R0 | exact Logic.I]. }
  assert (SC : forall o, In (Z.of_nat (i + 1)) (scales (wt_coefs (T o)))) by (intros o; destruct (HT o) as (_ & _ & A & _); apply A, Hi).
  assert (V : forall o, value o = Fin (mean_sq (wt_coefs (T o)) (Z.of_nat (i + 1)) r)) by (intros o; destruct (HT o) as (ws & _ & _ & VV); exact VV).
  split; [intros o; now rewrite V|].
  assert (EV : E P (fun o => number (value o)) = high_cov w cov (i + 1) 0).
  { rewrite (E_ext W P _ (fun o => mean_sq (wt_coefs (T o)) (Z.of_nat (i + 1)) r)) by (intros o; now rewrite V).
    apply (mean_power P S n nrep w PNone 1 j2 (1/2) 1 false T _ HS Hw R1_neq_R0 Logic.I HT' (i + 1) r); trivial; [lia|].
    intros k IN. destruct (moments_2 P S n nrep w PNone 1 j2 (1/2) 1 false T _ HS Hw R1_neq_R0 Logic.I HT' r cov (i + 1) k k HX ltac:(lia) SC Hr IN IN) as [A B]. split; [exact A|].
    rewrite B, Z.sub_diag. unfold factor. replace (INR (i + 1) * (1 / 2 - 1 / 1 + 1 / 2)) with 0 by field. rewrite Rpower_O by lra. ring. }
  split; [exact EV|]. intros s2 HO ->. rewrite EV, high_cov_flat by trivial. reflexivity.
Qed.
Print Assumptions C108_psd.
