(** * Property C45: realisations do not influence each other *)
From Coq Require Import Reals List ZArith Bool Lra Lia String.
From Verif Require Import XReal PyBase ModelUtils ModelMRQ ModelStructure ModelCumulants ModelSpectrum ModelEstimation ModelWavelet Spec SpecMRQ LXReal LReg LUtils LBase LFilter LTransform LPattern LWave LEst LMoment LCum LEntropy LWaveEst PropsEstimators PropsCumulants PropsSpectrum PropsMono.
From Verif Require PropsWavelet PropsLeaders.
Import ListNotations.
Open Scope R_scope.
Local Notation length := List.length.

(** ** Specification: [m1] holds a single realisation, equal to realisation r of
    [m] at every scale of [m] (it may hold more scales) *)
Definition same_realisation (m : mrq) (r : nat) (m1 : mrq) : Prop :=
  forall j, In j (scales m) -> In j (scales m1) /\ column m1 j 0 = column m j r /\ count m1 j 0 = count m j r.

Lemma same_tables r fm gam0 (T N T1 N1 : nat -> arr) g g1 : (g <= g1)%nat ->
  (forall j, (1 <= j <= g)%nat -> nth 0 (T1 j) [] = nth r (T j) []) ->
  (forall j, (1 <= j <= g)%nat -> nth 0 (N1 j) [] = nth r (N j) []) ->
  same_realisation (mkMRQ fm gam0 (table T g) (njtable N g)) r (mkMRQ fm gam0 (table T1 g1) (njtable N1 g1)).
Proof.
  intros G H1 H2 j Hj. unfold scales in *. cbn [mq_values] in *. rewrite table_keys in *.
  apply in_map_iff in Hj as (i & <- & Hi). apply in_seq in Hi. split.
  - apply in_map. apply in_seq. lia.
  - rewrite !table_column, !table_count by lia. rewrite H1, H2 by lia. auto.
Qed.
Section One.
Variables (A : arr) (w : wavelet) (gam norm : R) (p : pexp) (n r : nat).
Hypothesis HL : Forall (fun c => length c = n) A.
Hypothesis Hr : (r < length A)%nat.
Let c := nth r A [].
Lemma c_in : In c A. Proof. now apply nth_In. Qed.
Lemma one_sig_len : sig_len [c] = sig_len A.
Proof.
  assert (I := c_in). unfold sig_len. rewrite Forall_forall in HL. destruct A as [|a B]; [simpl in Hr; lia|].
  cbn [hd]. transitivity n; [|symmetry]; apply HL; [exact I|now left].
Qed.
Lemma one_nlev : nlev [c] w = nlev A w.
Proof. unfold nlev. now rewrite one_sig_len. Qed.
Lemma one_okc j : okc (neg_hi w) (dec_lo w) A j = true -> okc (neg_hi w) (dec_lo w) [c] j = true.
Proof.
  unfold okc. rewrite !forallb_forall. intros H x [<-|[]]. apply H. apply c_in.
Qed.
Lemma one_okl f j : okl (neg_hi w) (dec_lo w) norm gam A f p j = true -> okl (neg_hi w) (dec_lo w) norm gam [c] f p j = true.
Proof.
  unfold okl. rewrite !forallb_forall. intros H x [<-|[]]. apply H. apply c_in.
Qed.
Lemma run_mono ok ok' k s : (forall j, ok j = true -> ok' j = true) -> (run ok k s <= run ok' k s)%nat.
Proof.
  intros H. revert s. induction k; intros s; simpl; [lia|]. destruct (ok (S s)) eqn:E; [|lia]. rewrite H by trivial.
  specialize (IHk (S s)). lia.
Qed.
Lemma one_gcount : (gcount A p w gam norm <= gcount [c] p w gam norm)%nat.
Proof.
  assert (O := one_okc). assert (Q := one_okl).
  unfold gcount. rewrite one_nlev. destruct p; apply run_mono; intros j; trivial; [apply O| |];
  unfold okb; intros H; apply andb_prop in H as [H1 H2]; rewrite O, Q by trivial; reflexivity.
Qed.
Lemma one_ccount : (ccount A p w gam norm <= ccount [c] p w gam norm)%nat.
Proof.
  assert (G := one_gcount). assert (O := one_okc). unfold ccount. rewrite one_nlev. destruct p; trivial.
  all: match goal with G : (?x <= ?y)%nat |- _ => destruct (Nat.eq_dec x y) as [E|E] end;
    [rewrite <- E; destruct (Nat.ltb _ _) eqn:L; cbn [andb]; [|lia];
     destruct (okc (neg_hi w) (dec_lo w) A _) eqn:K; [rewrite O by trivial; lia|lia]
    |destruct (andb _ _), (andb _ _); lia].
Qed.
Lemma one_Cf j : nth 0 (Cf [c] w gam norm j) [] = nth r (Cf A w gam norm j) [].
Proof. rewrite !Cf_nth_lt by (trivial; simpl; lia). reflexivity. Qed.
Lemma one_Ld j : nth 0 (Ld [c] p w gam norm j) [] = nth r (Ld A p w gam norm j) [].
Proof. rewrite !Ld_nth by (trivial; simpl; lia). reflexivity. Qed.
End One.

(** ** C45: transforms *)
Theorem C45_transform :
  forall (A : arr) (w : wavelet) (p : pexp) (j1 : Z) (j2 : option R) (gam norm : R) (weighted : bool) n r t ws t1 ws1,
  Forall (fun c => length c = n) A -> good_wavelet w -> norm <> 0 -> p_ok p -> (r < length A)%nat ->
  wavelet_analysis A p w j1 j2 gam norm weighted = Ok (t, ws) ->
  wavelet_analysis [nth r A []] p w j1 j2 gam norm weighted = Ok (t1, ws1) ->
  ws1 = ws /\
  same_realisation (wt_coefs t) r (wt_coefs t1) /\
  match p with
  | PNone => wt_leaders t = None /\ wt_leaders t1 = None
  | PInfty => exists l l1, wt_leaders t = Some l /\ wt_leaders t1 = Some l1 /\ same_realisation l r l1
  | PNum _ => (1 <= j1 <= j2_eff t)%Z -> j2_eff t1 = j2_eff t ->
      (exists eta e1, eta_p t = Some eta /\ eta_p t1 = Some [e1] /\ nth r eta NaN = e1) /\
      exists l l1, wt_leaders t = Some l /\ wt_leaders t1 = Some l1 /\ same_realisation l r l1
  end.
Proof.
  intros A w p j1 j2 gam norm wd n r t ws t1 ws1 HL Hw Hn Hp Hr H H1.
  apply wa_inv in H as (eta & Ee & -> & -> & _ & _ & _); trivial.
  apply wa_inv in H1 as (eta1 & Ee1 & -> & -> & _ & _ & _); trivial.
  assert (GC := one_gcount A w gam norm p n r HL Hr). assert (CC := one_ccount A w gam norm p n r HL Hr).
  assert (SC : same_realisation (wt_coefs (the_wt A p w j2 gam norm eta)) r (wt_coefs (the_wt [nth r A []] p w j2 gam norm eta1))).
  { apply same_tables; trivial; intros; eapply one_Cf; eassumption. }
  split; [unfold level_warns; now rewrite (one_nlev A w n r HL Hr)|]. split; [exact SC|].
  destruct p as [| |e].
  - auto.
  - eexists; eexists. split; [reflexivity|]. split; [reflexivity|].
    apply same_tables; trivial; intros; eapply one_Ld; eassumption.
  - cbn [the_wt j2_eff eta_p wt_leaders]. intros HJ EJ.
    assert (Eq : nth r eta NaN = nth 0 eta1 NaN /\ length eta1 = 1%nat /\ length eta = length A).
    { rewrite eta_of_eq in Ee by trivial. rewrite eta_of_eq in Ee1 by (rewrite EJ; exact HJ).
      destruct (Req_EM_T (num_val e) 2); [|discriminate]. injection Ee as <-. injection Ee1 as <-.
      split; [|split; [reflexivity|now rewrite map_length, seq_length]]. rewrite nth_seq_map by trivial. cbn [length seq map nth]. rewrite EJ.
      assert (J := jeff_le A (PNum e) w gam norm j2). assert (K := gcount_le_ccount A (PNum e) w gam norm).
      cbn [the_wt wt_coefs] in SC.
      assert (IN : forall j, (j1 <= j <= jeff A (PNum e) w gam norm j2)%Z ->
        In j (scales (mrq_of WaveletCoef gam (Cf A w gam norm) (ccount A (PNum e) w gam norm)))).
      { intros j Hj. unfold mrq_of, scales. cbn [mq_values]. rewrite table_keys. apply (one_to_In (ccount A (PNum e) w gam norm) j). lia. }
      unfold fslope.
      rewrite (fit3_weights wd _ (mrq_of WaveletCoef gam (Cf [nth r A []] w gam norm) (ccount [nth r A []] (PNum e) w gam norm)) _ _ r 0).
      - f_equal. f_equal. apply fit3_ext. intros j Hj. unfold logS. destruct (SC j (IN j Hj)) as (_ & -> & _). reflexivity.
      - intros j Hj. destruct (SC j (IN j Hj)) as (_ & _ & ->). reflexivity. }
    destruct Eq as (Eq & L1 & L). destruct eta1 as [|e1 [|]]; try discriminate. cbn [nth] in Eq.
    split; [exists eta, e1; auto|]. eexists; eexists. split; [reflexivity|]. split; [reflexivity|].
    apply same_tables; trivial; [|intros; eapply one_Ld; eassumption].
    intros j Hj. unfold corr_arr.
    rewrite (nth_map2 _ _ _ r [] NaN) by (rewrite ?Ld_length; lia).
    rewrite (nth_map2 _ _ _ 0 [] NaN) by (rewrite ?Ld_length; simpl; lia).
    rewrite (one_Ld A w gam norm (PNum e) r Hr). cbn [nth]. now rewrite Eq.
Qed.
Print Assumptions C45_transform.

(** ** C45: estimates *)
Theorem C45_structure_functions :
  forall m m1 g g1 nrep r qs j1 j2 wd s s1,
  regular m g nrep -> regular m1 g1 1 -> same_realisation m r m1 -> (r < nrep)%nat ->
  (1 <= j1)%Z -> (j1 <= j2)%Z -> (j2 <= Z.of_nat g)%Z -> mq_gamint m1 = mq_gamint m ->
  StructureFunction m (QArr qs) j1 j2 wd = Ok s -> StructureFunction m1 (QArr qs) j1 j2 wd = Ok s1 ->
  (forall i, (i < length qs)%nat ->
    at2 (sf_zeta s1) i 0 = at2 (sf_zeta s) i r /\ at2 (sf_intercept s1) i 0 = at2 (sf_intercept s) i r /\
    forall j, In j (scales m) -> at3 (sf_logvalues s1) i 0 j = at3 (sf_logvalues s) i r j) /\
  nth 0 (sf_H s1) NaN = nth r (sf_H s) NaN.
Proof.
  intros m m1 g g1 nrep r qs j1 j2 wd s s1 HR HR1 HS Hr H1 H2 H3 HG E E1.
  assert (Hg : (j2 <= Z.of_nat g1)%Z).
  { destruct (HS j2) as (I & _); [eapply range_in; try eassumption; lia|]. rewrite (proj1 (proj2 HR1)) in I. apply one_to_In in I. lia. }
  assert (W : forall y, fit3 wd m1 j1 j2 0 y = fit3 wd m j1 j2 r y).
  { intros y. apply fit3_weights. intros j Hj. destruct (HS j) as (_ & _ & ->); [eapply range_in; eassumption|]. reflexivity. }
  assert (L : forall q j, In j (scales m) -> logS m1 q 0 j = logS m q r j).
  { intros q j Hj. unfold logS. destruct (HS j Hj) as (_ & -> & _). reflexivity. }
  assert (LF : forall q, fit3 wd m1 j1 j2 0 (logS m1 q 0) = fit3 wd m j1 j2 r (logS m q r)).
  { intros q. rewrite W. apply fit3_ext. intros j Hj. apply L. eapply range_in; eassumption. }
  split.
  - intros i Hi. destruct (SF_rows m g nrep qs j1 j2 wd s HR H1 H2 H3 E i r Hi Hr) as (A & B & D).
    destruct (SF_rows m1 g1 1 qs j1 j2 wd s1 HR1 H1 H2 Hg E1 i 0 Hi ltac:(lia)) as (A' & B' & D').
    rewrite B, B', D, D'. unfold fslope, ficept. rewrite LF. split; [reflexivity|]. split; [reflexivity|].
    intros j Hj. rewrite A by trivial. destruct (HS j Hj) as (I & _). rewrite A' by trivial. now apply L.
  - rewrite (SF_eq m g nrep HR) in E by trivial. rewrite (SF_eq m1 g1 1 HR1) in E1 by trivial.
    destruct (has_two qs); [|discriminate]. injection E as <-. injection E1 as <-. cbn [sf_H].
    rewrite !nth_seq_map by (trivial; lia). unfold fslope. now rewrite LF, HG.
Qed.
Print Assumptions C45_structure_functions.

Theorem C45_cumulants :
  forall m m1 g g1 nrep r n j1 j2 wd c c1,
  regular m g nrep -> regular m1 g1 1 -> same_realisation m r m1 -> (r < nrep)%nat ->
  (1 <= j1)%Z -> (j1 <= j2)%Z -> (j2 <= Z.of_nat g)%Z ->
  Cumulants m n j1 j2 wd = Ok c -> Cumulants m1 n j1 j2 wd = Ok c1 ->
  forall k, (1 <= k <= n)%nat ->
    at2 (cu_log_cumulants c1) (k - 1) 0 = at2 (cu_log_cumulants c) (k - 1) r /\
    forall j, In j (scales m) -> at3 (cu_values c1) (k - 1) 0 j = at3 (cu_values c) (k - 1) r j.
Proof.
  intros m m1 g g1 nrep r n j1 j2 wd c c1 HR HR1 HS Hr H1 H2 H3 E E1 k Hk.
  assert (Hg : (j2 <= Z.of_nat g1)%Z).
  { destruct (HS j2) as (I & _); [eapply range_in; try eassumption; lia|]. rewrite (proj1 (proj2 HR1)) in I. apply one_to_In in I. lia. }
  assert (L : forall j, In j (scales m) -> Cval m1 n k 0 j = Cval m n k r j).
  { intros j Hj. unfold Cval. destruct (HS j Hj) as (_ & -> & _). reflexivity. }
  destruct (CUM_rows m g nrep n j1 j2 wd c HR H1 H2 H3 E k r Hk Hr) as (A & _ & _ & B).
  destruct (CUM_rows m1 g1 1 n j1 j2 wd c1 HR1 H1 H2 Hg E1 k 0 Hk ltac:(lia)) as (A' & _ & _ & B').
  split.
  - rewrite B, B'. f_equal. unfold fslope. rewrite (fit3_weights wd m1 m j1 j2 0 r).
    + f_equal. f_equal. apply fit3_ext. intros j Hj. apply L. eapply range_in; eassumption.
    + intros j Hj. destruct (HS j) as (_ & _ & ->); [eapply range_in; eassumption|]. reflexivity.
  - intros j Hj. rewrite A by trivial. destruct (HS j Hj) as (I & _). rewrite A' by trivial. now apply L.
Qed.
Print Assumptions C45_cumulants.

Theorem C45_spectrum :
  forall m m1 g g1 nrep r q j1 j2 wd s s1,
  regular m g nrep -> regular m1 g1 1 -> same_realisation m r m1 -> (r < nrep)%nat ->
  (1 <= j1)%Z -> (j1 <= j2)%Z -> (j2 <= Z.of_nat g)%Z ->
  MultifractalSpectrum m j1 j2 wd q = Ok s -> MultifractalSpectrum m1 j1 j2 wd q = Ok s1 ->
  forall i, (i < length (q_items q))%nat ->
    at2 (ms_Dq s1) i 0 = at2 (ms_Dq s) i r /\ at2 (ms_hq s1) i 0 = at2 (ms_hq s) i r.
Proof.
  intros m m1 g g1 nrep r q j1 j2 wd s s1 HR HR1 HS Hr H1 H2 H3 E E1 i Hi.
  assert (Hg : (j2 <= Z.of_nat g1)%Z).
  { destruct (HS j2) as (I & _); [eapply range_in; try eassumption; lia|]. rewrite (proj1 (proj2 HR1)) in I. apply one_to_In in I. lia. }
  assert (W : forall y, fit3 wd m1 j1 j2 0 y = fit3 wd m j1 j2 r y).
  { intros y. apply fit3_weights. intros j Hj. destruct (HS j) as (_ & _ & ->); [eapply range_in; eassumption|]. reflexivity. }
  destruct (MFS_rows m g nrep q j1 j2 wd s HR H1 H2 H3 E i r Hi Hr) as (_ & A & B).
  destruct (MFS_rows m1 g1 1 q j1 j2 wd s1 HR1 H1 H2 Hg E1 i 0 Hi ltac:(lia)) as (_ & A' & B').
  rewrite A, B, A', B'. unfold fslope. rewrite !W.
  split; [f_equal|]; f_equal; f_equal; apply fit3_ext; intros j Hj.
  - unfold Uval. destruct (HS j) as (_ & -> & ->); [eapply range_in; eassumption|]. reflexivity.
  - unfold Vval. destruct (HS j) as (_ & -> & _); [eapply range_in; eassumption|]. reflexivity.
Qed.
Print Assumptions C45_spectrum.

Theorem C45_hmin :
  forall m m1 g g1 nrep r j1 j2 wd warn h h1,
  regular m g nrep -> regular m1 g1 1 -> same_realisation m r m1 -> (r < nrep)%nat ->
  (1 <= j1)%Z -> (j1 <= j2)%Z -> (j2 <= Z.of_nat g)%Z ->
  estimate_hmin m j1 j2 wd warn = Ok h -> estimate_hmin m1 j1 j2 wd warn = Ok h1 ->
  nth 0 (hm_hmin h1) NaN = nth r (hm_hmin h) NaN.
Proof.
  intros m m1 g g1 nrep r j1 j2 wd warn h h1 HR HR1 HS Hr H1 H2 H3 E E1.
  assert (Hg : (j2 <= Z.of_nat g1)%Z).
  { destruct (HS j2) as (I & _); [eapply range_in; try eassumption; lia|]. rewrite (proj1 (proj2 HR1)) in I. apply one_to_In in I. lia. }
  rewrite (HMIN_rows m g nrep j1 j2 wd warn h HR H1 H2 H3 E), (HMIN_rows m1 g1 1 j1 j2 wd warn h1 HR1 H1 H2 Hg E1).
  cbn [hm_hmin]. rewrite !nth_seq_map by (trivial; lia). unfold fslope. rewrite (fit3_weights wd m1 m j1 j2 0 r).
  - f_equal. f_equal. apply fit3_ext. intros j Hj. unfold lsup. destruct (HS j) as (_ & -> & _); [eapply range_in; eassumption|]. reflexivity.
  - intros j Hj. destruct (HS j) as (_ & _ & ->); [eapply range_in; eassumption|]. reflexivity.
Qed.
Print Assumptions C45_hmin.

(** Non-vacuity: any two signals of 24 samples, haar, p = inf *)
Example C45_case : forall s0 s1 : list R, length s0 = 24%nat -> length s1 = 24%nat ->
  exists t ws t1 ws1,
    wavelet_analysis [fin s0; fin s1] PInfty PropsWavelet.haar 1 None 0 1 true = Ok (t, ws) /\
    wavelet_analysis [fin s1] PInfty PropsWavelet.haar 1 None 0 1 true = Ok (t1, ws1) /\
    scales (wt_coefs t) = [1; 2]%Z /\ same_realisation (wt_coefs t) 1 (wt_coefs t1).
Proof.
  intros s0 s1 L0 L1.
  destruct (PropsWavelet.wavelet_case [s0; s1]) as (t & l & ws & E & Sc & _); [discriminate|auto|].
  destruct (PropsWavelet.wavelet_case [s1]) as (t1 & l1 & ws1 & E1 & _); [discriminate|auto|].
  exists t, ws, t1, ws1. split; [exact E|]. split; [exact E1|]. split; [exact Sc|].
  eapply (C45_transform [fin s0; fin s1] PropsWavelet.haar PInfty 1 None 0 1 true 24 1); try exact E; try exact E1.
  - constructor; [now rewrite fin_length|]. constructor; [now rewrite fin_length|constructor].
  - exact PropsWavelet.good_haar.
  - exact R1_neq_R0.
  - exact I.
  - simpl. lia.
Qed.
