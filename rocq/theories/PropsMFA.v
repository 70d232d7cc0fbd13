(** * Properties C43, C44, C66: assembling the estimators *)
From Coq Require Import Reals List ZArith Bool Lra Lia String.
From Verif Require Import XReal PyBase ModelUtils ModelMRQ ModelStructure ModelCumulants ModelSpectrum ModelEstimation ModelWavelet ModelMFA Spec SpecMRQ LXReal LReg LUtils LBase LFilter LTransform LPattern LWave LEst LWaveEst PropsWavelet PropsMono.
Import ListNotations.
Open Scope R_scope.
Local Notation length := List.length.

(** ** C66: from_dict *)
(** the constructor only looks at its own parameters *)
Definition reads_only {V A} (params : list string) (ctor : (string -> option V) -> res A) : Prop :=
  forall f g, (forall k, In k params -> f k = g k) -> ctor f = ctor g.
(** d has a value for k *)
Definition has_key {V} (d : sdict V) (k : string) : Prop := exists v, sdict_get d k = Some v.

Lemma existsb_eqb k l : existsb (String.eqb k) l = true <-> In k l.
Proof.
  rewrite existsb_exists. split.
  - intros (x & Hx & E). apply String.eqb_eq in E. now subst.
  - intros H. exists k. split; [exact H|apply String.eqb_refl].
Qed.
Lemma sdict_get_key {V} (d : sdict V) k : has_key d k <-> In k (map fst d).
Proof.
  unfold has_key. induction d as [|[a v] d IH]; simpl.
  - split; [intros [v E]; discriminate|tauto].
  - destruct (String.eqb_spec k a) as [->|N].
    + split; [auto|intros _; eauto].
    + rewrite IH. split; [auto|intros [E|E]; [congruence|exact E]].
Qed.
Lemma sdict_get_filter {V} (d : sdict V) params k : In k params ->
  sdict_get (filter (fun kv => existsb (String.eqb (fst kv)) params) d) k = sdict_get d k.
Proof.
  intros Hk. induction d as [|[a v] d IH]; [reflexivity|]. cbn [filter fst sdict_get].
  destruct (existsb (String.eqb a) params) eqn:E; cbn [sdict_get].
  - destruct (String.eqb k a); [reflexivity|exact IH].
  - destruct (String.eqb_spec k a) as [->|]; [|exact IH]. apply existsb_eqb in Hk. congruence.
Qed.
Lemma filter_keys {V} (d : sdict V) params k :
  In k (map fst (filter (fun kv => existsb (String.eqb (fst kv)) params) d)) <-> In k (map fst d) /\ In k params.
Proof.
  rewrite !in_map_iff. split.
  - intros ([a v] & <- & H). apply filter_In in H as [H E]. apply existsb_eqb in E. split; [exists (a, v); auto|exact E].
  - intros [([a v] & <- & H) Hp]. exists (a, v). split; [reflexivity|]. apply filter_In. split; [exact H|]. now apply existsb_eqb.
Qed.
Theorem C66_from_dict :
  forall (V A : Type) (params : list string) (ctor : (string -> option V) -> res A) (d : sdict V),
  reads_only params ctor ->
  ((forall k, In k params -> has_key d k) -> from_dict params ctor d = ctor (sdict_get d)) /\
  (forall k, In k params -> ~ has_key d k -> from_dict params ctor d = Err TypeError) /\
  (* entries under other keys never matter *)
  (forall d' : sdict V, (forall k, In k params -> sdict_get d' k = sdict_get d k) ->
     from_dict params ctor d' = from_dict params ctor d).
Proof.
  intros V A params ctor d HC.
  assert (U : forall d : sdict V, forallb (fun k => existsb (String.eqb k) params)
     (map fst (filter (fun kv => existsb (String.eqb (fst kv)) params) d)) = true).
  { intros d0. apply forallb_forall. intros k Hk. apply filter_keys in Hk. now apply existsb_eqb. }
  assert (P : forall d : sdict V, (forall k, In k params -> has_key d k) -> from_dict params ctor d = ctor (sdict_get d)).
  { intros d0 H. unfold from_dict, call_kwargs. rewrite U.
    replace (forallb _ params) with true.
    - apply HC. intros k Hk. now apply sdict_get_filter.
    - symmetry. apply forallb_forall. intros k Hk. apply existsb_eqb. apply filter_keys. split; [|exact Hk]. apply sdict_get_key. auto. }
  assert (Q : forall (d : sdict V) k, In k params -> ~ has_key d k -> from_dict params ctor d = Err TypeError).
  { intros d0 k Hk N. unfold from_dict, call_kwargs. rewrite U.
    replace (forallb _ params) with false; [reflexivity|]. symmetry. destruct (forallb _ params) eqn:E; [|reflexivity].
    rewrite forallb_forall in E. specialize (E k Hk). apply existsb_eqb, filter_keys in E. exfalso. apply N, sdict_get_key. tauto. }
  split; [apply P|]. split; [apply Q|]. intros d' H.
  destruct (forallb (fun k => existsb (String.eqb k) (map fst d)) params) eqn:E.
  - rewrite forallb_forall in E.
    assert (K : forall k, In k params -> has_key d k) by (intros k Hk; apply sdict_get_key, existsb_eqb; auto).
    rewrite (P d K), (P d').
    + apply HC. exact H.
    + intros k Hk. unfold has_key. rewrite H by trivial. now apply K.
  - assert (X : exists k, In k params /\ ~ has_key d k).
    { clear -E. induction params as [|k params IH]; [discriminate|]. cbn [forallb] in E.
      destruct (existsb (String.eqb k) (map fst d)) eqn:F.
      - destruct (IH E) as (k' & Hk & N). exists k'. split; [now right|exact N].
      - exists k. split; [now left|]. intros H. apply sdict_get_key, existsb_eqb in H. congruence. }
    destruct X as (k & Hk & N). rewrite (Q d k Hk N), (Q d' k Hk); [reflexivity|].
    unfold has_key. now rewrite H.
Qed.
Print Assumptions C66_from_dict.

(** the three classes used through from_dict *)
Theorem C66_classes :
  reads_only SF_params SF_ctor /\ reads_only CUM_params CUM_ctor /\ reads_only MFS_params MFS_ctor /\
  forall m q n j1 j2 wd,
    let d := mfa_params (Some m) q n j1 j2 wd in
    from_dict SF_params SF_ctor d = StructureFunction m q j1 j2 wd /\
    from_dict CUM_params CUM_ctor d = Cumulants m n j1 j2 wd /\
    from_dict MFS_params MFS_ctor d = MultifractalSpectrum m j1 j2 wd q.
Proof.
  split; [|split; [|split]].
  1-3: intros f g H; unfold SF_ctor, CUM_ctor, MFS_ctor; rewrite !H by (simpl; tauto); reflexivity.
  intros. repeat split; reflexivity.
Qed.
Print Assumptions C66_classes.

(** ** C43: mf_analysis is the four estimators side by side *)
(** v holds what the four estimators return on m *)
Definition estimates (m : mrq) (qs : list R) (n : nat) (j1 j2 : Z) (wd : bool) (v : mfvar) : Prop :=
  exists s c sp h,
    StructureFunction m (QArr qs) j1 j2 wd = Ok s /\ Cumulants m n j1 j2 wd = Ok c /\
    MultifractalSpectrum m j1 j2 wd (QArr qs) = Ok sp /\ estimate_hmin m j1 j2 wd true = Ok h /\
    v = mkVar (Some s) (Some c) (Some sp) (Some (hm_hmin h)).
Lemma mf_var_eq m j2 j1 wd n qs v : mf_var m j2 j1 wd n (QArr qs) = Ok v <-> estimates m qs n j1 j2 wd v.
Proof.
  unfold mf_var, estimates. destruct (proj2 (proj2 (proj2 C66_classes)) m (QArr qs) n j1 j2 wd) as (-> & -> & ->).
  split.
  - destruct (StructureFunction m (QArr qs) j1 j2 wd) as [s|]; [|discriminate].
    destruct (Cumulants m n j1 j2 wd) as [c|]; [|discriminate].
    destruct (MultifractalSpectrum m j1 j2 wd (QArr qs)) as [sp|]; [|discriminate].
    destruct (estimate_hmin m j1 j2 wd true) as [h|]; [|discriminate]. cbn [bind]. intros E. injection E as <-.
    exists s, c, sp, h. repeat split; reflexivity.
  - intros (s & c & sp & h & -> & -> & -> & -> & ->). reflexivity.
Qed.
Theorem C43_assembles :
  forall coefs leaders j2 j1 wd n qs d,
  mf_analysis coefs leaders j2 j1 wd n (Some (QArr qs)) = Ok d <->
  (estimates coefs qs n j1 j2 wd (d_dwt d) /\
   match leaders, d_lwt d with
   | None, None => True
   | Some l, Some v => estimates l qs n j1 j2 wd v
   | _, _ => False
   end).
Proof.
  intros coefs leaders j2 j1 wd n qs d. unfold mf_analysis. cbn [default_q to_array].
  destruct (mf_var coefs j2 j1 wd n (QArr qs)) as [v|e] eqn:E; cbn [bind].
  - destruct leaders as [l|].
    + destruct (mf_var l j2 j1 wd n (QArr qs)) as [u|e] eqn:F; cbn [bind].
      * split.
        -- intros X. injection X as <-. cbn. split; now apply mf_var_eq.
        -- intros [X Y]. destruct d as [dw [lw|]]; cbn in *; [|contradiction].
           apply mf_var_eq in X, Y. f_equal. f_equal; [congruence|f_equal; congruence].
      * split; [discriminate|]. intros [_ Y]. destruct (d_lwt d); [|contradiction]. apply mf_var_eq in Y. congruence.
    + split.
      * intros X. injection X as <-. cbn. split; [now apply mf_var_eq|exact I].
      * intros [X Y]. destruct d as [dw [lw|]]; cbn in *; [contradiction|]. apply mf_var_eq in X. f_equal. f_equal. congruence.
  - split; [discriminate|]. intros [X _]. apply mf_var_eq in X. congruence.
Qed.
Print Assumptions C43_assembles.

(** q=None is q=[2]; a python list is converted to the array of its values *)
Theorem C43_q_forms :
  forall coefs leaders j2 j1 wd n,
  mf_analysis coefs leaders j2 j1 wd n None = mf_analysis coefs leaders j2 j1 wd n (Some (QArr [2])) /\
  forall l, mf_analysis coefs leaders j2 j1 wd n (Some (QList l))
            = mf_analysis coefs leaders j2 j1 wd n (Some (QArr (map num_val l))).
Proof. intros. split; reflexivity. Qed.
Print Assumptions C43_q_forms.

(** regular quantities with something at every scale of the range are analysed
    successfully as soon as 2 is among the moments *)
Lemma estimates_exist m g nrep qs n j1 j2 wd : regular m g nrep -> (1 <= j1)%Z -> (j1 <= j2)%Z -> (j2 <= Z.of_nat g)%Z -> In 2 qs ->
  (forall j r, (j1 <= j <= j2)%Z -> (r < nrep)%nat -> column m j r <> []) ->
  exists v, estimates m qs n j1 j2 wd v.
Proof.
  intros HR H1 H2 H3 I2 Hne. apply has_two_In in I2.
  assert (E := SF_eq m g nrep HR qs j1 j2 wd H1 H2 H3). rewrite I2 in E.
  eexists. do 4 eexists. split; [exact E|]. split; [exact (CUM_eq m g nrep HR n j1 j2 wd H1 H2 H3)|].
  split; [exact (MFS_eq m g nrep HR (QArr qs) j1 j2 wd H1 H2 H3)|].
  split; [exact (HMIN_eq m g nrep HR j1 j2 wd true H1 H2 H3 Hne)|]. reflexivity.
Qed.
Theorem C43_succeeds :
  forall coefs g nrep leaders j1 j2 wd n qs,
  regular coefs g nrep -> (1 <= j1)%Z -> (j1 <= j2)%Z -> (j2 <= Z.of_nat g)%Z -> In 2 qs ->
  (forall j r, (j1 <= j <= j2)%Z -> (r < nrep)%nat -> column coefs j r <> []) ->
  (forall l, leaders = Some l -> exists g' nrep', regular l g' nrep' /\ (j2 <= Z.of_nat g')%Z /\
     forall j r, (j1 <= j <= j2)%Z -> (r < nrep')%nat -> column l j r <> []) ->
  exists d, mf_analysis coefs leaders j2 j1 wd n (Some (QArr qs)) = Ok d.
Proof.
  intros coefs g nrep leaders j1 j2 wd n qs HR H1 H2 H3 I2 Hne HL.
  destruct (estimates_exist coefs g nrep qs n j1 j2 wd HR H1 H2 H3 I2 Hne) as [v Hv].
  destruct leaders as [l|].
  - destruct (HL l eq_refl) as (g' & nrep' & HR' & H3' & Hne').
    destruct (estimates_exist l g' nrep' qs n j1 j2 wd HR' H1 H2 H3' I2 Hne') as [u Hu].
    exists (mkData v (Some u)). apply C43_assembles. cbn. auto.
  - exists (mkData v None). apply C43_assembles. cbn. auto.
Qed.
Print Assumptions C43_succeeds.

(** ... and the whole pipeline on every signal of finite samples, with the
    coefficients or the leaders, as soon as the scale range is not empty *)
Theorem C43_pipeline :
  forall (S : list (list R)) (len : nat) w p j1 j2 gam norm wd qs n t ws,
  S <> [] -> Forall (fun s => length s = len) S -> good_wavelet w -> norm <> 0 -> p = PNone \/ p = PInfty ->
  wavelet_analysis (map fin S) p w j1 j2 gam norm wd = Ok (t, ws) -> (1 <= j1 <= j2_eff t)%Z -> In 2 qs ->
  exists d, mf_analysis_full (map fin S) j1 j2 norm gam wd w p (Some (QArr qs)) n false = Ok (d, ws) /\
    estimates (wt_coefs t) qs n j1 (j2_eff t) wd (d_dwt d) /\
    (d_lwt d = None <-> p = PNone) /\
    forall l, wt_leaders t = Some l -> exists v, d_lwt d = Some v /\ estimates l qs n j1 (j2_eff t) wd v.
Proof.
  intros S len w p j1 j2 gam norm wd qs n t ws NS HS Hw Hn Hp H Hj I2.
  unfold mf_analysis_full. rewrite H. cbn [bind].
  assert (Hp' : p_ok p) by (destruct Hp as [-> | ->]; exact I).
  apply wa_inv in H as (eta & _ & -> & _); trivial. cbn [the_wt wt_coefs wt_leaders j2_eff] in *.
  assert (J := jeff_le (map fin S) p w gam norm j2). assert (G := gcount_le_ccount (map fin S) p w gam norm).
  set (A := map fin S) in *. set (g := gcount A p w gam norm) in *. set (c := ccount A p w gam norm) in *.
  set (jj := jeff A p w gam norm j2) in *.
  assert (NE : forall j r, (j1 <= j <= jj)%Z -> (r < length A)%nat ->
     column (mrq_of WaveletCoef gam (Cf A w gam norm) c) j r <> []).
  { intros j r Hjj Hr E. replace j with (Z.of_nat (Z.to_nat j)) in E by lia.
    unfold mrq_of in E. rewrite table_column in E by lia.
    assert (K := gcount_ok_c A p w gam norm (Z.to_nat j) r ltac:(fold g; lia) Hr). rewrite E in K. unfold count_valid in K. simpl in K. lia. }
  assert (HR := coefs_regular A p w gam norm). fold c in HR. specialize (HR ltac:(lia)).
  destruct (estimates_exist _ c (length A) qs n j1 jj wd HR ltac:(lia) ltac:(lia) ltac:(lia) I2 NE) as [v Hv].
  destruct Hp as [-> | ->].
  - exists (mkData v None). split.
    + assert (E : mf_analysis (mrq_of WaveletCoef gam (Cf A w gam norm) c) None jj j1 wd n (Some (QArr qs)) = Ok (mkData v None)).
      { apply C43_assembles. cbn. auto. }
      rewrite E. reflexivity.
    + cbn. split; [exact Hv|]. split; [tauto|]. discriminate.
  - set (l := mrq_of WaveletLeader gam (Ld A PInfty w gam norm) g).
    assert (HRl : regular l g (length A)) by (apply table_regular; [lia|intros; apply Ld_length]).
    assert (NEl : forall j r, (j1 <= j <= jj)%Z -> (r < length A)%nat -> column l j r <> []).
    { intros j r Hjj Hr E. replace j with (Z.of_nat (Z.to_nat j)) in E by lia.
      unfold l, mrq_of in E. rewrite table_column in E by lia.
      assert (K := gcount_ok_l A PInfty w gam norm (Z.to_nat j) r eq_refl ltac:(fold g; lia) Hr). rewrite E in K. unfold count_valid in K. simpl in K. lia. }
    destruct (estimates_exist l g (length A) qs n j1 jj wd HRl ltac:(lia) ltac:(lia) ltac:(lia) I2 NEl) as [u Hu].
    exists (mkData v (Some u)). split.
    + assert (E : mf_analysis (mrq_of WaveletCoef gam (Cf A w gam norm) c) (Some l) jj j1 wd n (Some (QArr qs)) = Ok (mkData v (Some u))).
      { apply C43_assembles. cbn. auto. }
      rewrite E. reflexivity.
    + cbn. split; [exact Hv|]. split; [split; discriminate|]. intros l' El. apply Some_inj in El. subst l'. eauto.
Qed.
Print Assumptions C43_pipeline.

(** ** C44: the minimal analysis *)
Theorem C44_projection_partial :
  forall coefs l j2 j1 wd n qs d,
  mf_analysis coefs (Some l) j2 j1 wd n (Some (QArr qs)) = Ok d ->
  exists d' v, minimal_mf_analysis coefs (Some l) j2 j1 wd n (Some (QArr qs)) = Ok d' /\
    d_lwt d = Some v /\
    d_dwt d' = mkVar (v_structure (d_dwt d)) None None None /\
    d_lwt d' = Some (mkVar None (v_cumulants v) None None).
Proof.
  intros coefs l j2 j1 wd n qs d H. apply C43_assembles in H as [(s & c & sp & h & E1 & E2 & E3 & E4 & Ed) H].
  destruct (d_lwt d) as [v|]; [|contradiction]. destruct H as (s' & c' & sp' & h' & F1 & F2 & F3 & F4 & Ev).
  exists (mkData (mkVar (Some s) None None None) (Some (mkVar None (Some c') None None))), v.
  split; [|rewrite Ed, Ev; cbn; auto].
  unfold minimal_mf_analysis. cbn [default_q].
  destruct (proj2 (proj2 (proj2 C66_classes)) coefs (QArr qs) n j1 j2 wd) as (-> & _ & _).
  destruct (proj2 (proj2 (proj2 C66_classes)) l (QArr qs) n j1 j2 wd) as (_ & -> & _). rewrite E1, F2. reflexivity.
Qed.
Print Assumptions C44_projection_partial.

Lemma SF_list_fails m l j1 j2 wd s : StructureFunction m (QList l) j1 j2 wd <> Ok s.
Proof.
  unfold StructureFunction. destruct (mq_nrep m); [|discriminate]. cbn [bind].
  destruct (reg_weights _ _ _ _ _); [|discriminate]. cbn [bind]. destruct (mapM _ _); discriminate.
Qed.
(** REFUTED: for q = None or a python list, or without leaders, the minimal
    analysis never returns, although mf_analysis does; on regular coefficients
    it raises IndexError (None, list) resp. AttributeError (no leaders) *)
Theorem C44_minimal_refuted :
  (forall coefs leaders j2 j1 wd n d,
     minimal_mf_analysis coefs leaders j2 j1 wd n None <> Ok d /\
     (forall l, minimal_mf_analysis coefs leaders j2 j1 wd n (Some (QList l)) <> Ok d) /\
     (forall q, minimal_mf_analysis coefs None j2 j1 wd n q <> Ok d)) /\
  (forall coefs g nrep leaders j2 j1 wd n,
     regular coefs g nrep -> (1 <= j1)%Z -> (j1 <= j2)%Z -> (j2 <= Z.of_nat g)%Z ->
     minimal_mf_analysis coefs leaders j2 j1 wd n None = Err IndexError /\
     (forall l, minimal_mf_analysis coefs leaders j2 j1 wd n (Some (QList l)) = Err IndexError) /\
     (forall qs, In 2 qs -> minimal_mf_analysis coefs None j2 j1 wd n (Some (QArr qs)) = Err AttributeError)) /\
  (* in particular the one-call interface with its default q, or without leaders *)
  (forall signal j1 j2 norm gam wd w p n r,
     mf_analysis_full signal j1 j2 norm gam wd w p None n true <> Ok r) /\
  (forall signal j1 j2 norm gam wd w q n r,
     mf_analysis_full signal j1 j2 norm gam wd w PNone q n true <> Ok r).
Proof.
  assert (SFD : forall m q n j1 j2 wd, from_dict SF_params SF_ctor (mfa_params (Some m) q n j1 j2 wd) = StructureFunction m q j1 j2 wd) by reflexivity.
  assert (CN : forall q n j1 j2 wd, from_dict CUM_params CUM_ctor (mfa_params None q n j1 j2 wd) = Err AttributeError) by reflexivity.
  assert (L : forall coefs leaders j2 j1 wd n d l, minimal_mf_analysis coefs leaders j2 j1 wd n (Some (QList l)) <> Ok d).
  { intros coefs leaders j2 j1 wd n d l. unfold minimal_mf_analysis. cbn [default_q]. rewrite SFD.
    destruct (StructureFunction coefs (QList l) j1 j2 wd) as [s|] eqn:E; [|discriminate]. now apply SF_list_fails in E. }
  assert (NL : forall coefs j2 j1 wd n q d, minimal_mf_analysis coefs None j2 j1 wd n q <> Ok d).
  { intros coefs j2 j1 wd n q d. unfold minimal_mf_analysis. rewrite SFD, CN.
    destruct (StructureFunction coefs (default_q q) j1 j2 wd); discriminate. }
  assert (N : forall coefs leaders j2 j1 wd n d, minimal_mf_analysis coefs leaders j2 j1 wd n None <> Ok d).
  { intros coefs leaders j2 j1 wd n d. apply (L coefs leaders j2 j1 wd n d [PyInt 2]). }
  split; [|split; [|split]].
  - intros. split; [apply N|]. split; [intros; apply L|intros; apply NL].
  - intros coefs g nrep leaders j2 j1 wd n HR H1 H2 H3. unfold minimal_mf_analysis. cbn [default_q]. split; [|split].
    + rewrite SFD, (SF_list coefs g nrep HR) by trivial. reflexivity.
    + intros l. rewrite SFD, (SF_list coefs g nrep HR) by trivial. reflexivity.
    + intros qs I2. rewrite SFD, CN. apply has_two_In in I2. rewrite (SF_eq coefs g nrep HR) by trivial. rewrite I2. reflexivity.
  - intros signal j1 j2 norm gam wd w p n r. unfold mf_analysis_full.
    destruct (wavelet_analysis signal p w j1 j2 gam norm wd) as [[t ws]|]; [|discriminate]. cbn [bind].
    destruct (minimal_mf_analysis _ _ _ _ _ _ None) eqn:E; [|discriminate]. now apply N in E.
  - intros signal j1 j2 norm gam wd w q n r. unfold mf_analysis_full.
    destruct (wavelet_analysis signal PNone w j1 j2 gam norm wd) as [[t ws]|] eqn:Ew; [|discriminate]. cbn [bind].
    assert (El : wt_leaders t = None).
    { unfold wavelet_analysis in Ew. destruct (decomposition_level_warn _ _ _) as [[ml wn]|]; [|discriminate]. cbn [bind] in Ew.
      unfold wavelet_coef_analysis in Ew. destruct (coef_loop _ _ _ _ _ _ _ _ _) as [[m l]|]; [|discriminate]. cbn [bind] in Ew.
      injection Ew as <- _. reflexivity. }
    rewrite El. destruct (minimal_mf_analysis _ None _ _ _ _ q) eqn:E; [|discriminate]. now apply NL in E.
Qed.
Print Assumptions C44_minimal_refuted.

(** concrete case: [demo] (PropsMono.v) used as coefficients and as leaders, on
    the scales 1..3 *)
Example C43_case : exists d, mf_analysis demo (Some demo) 3 1 true 3 (Some (QArr [0; 2])) = Ok d.
Proof.
  assert (NE : forall j r, (1 <= j <= 3)%Z -> (r < 2)%nat -> column demo j r <> []).
  { intros j r Hj Hr E. destruct (demo_usable j r Hj Hr) as ([_ U] & _). unfold numbers in U. rewrite E in U. now apply U. }
  apply (C43_succeeds demo 3 2); try lia; [apply demo_regular|simpl; auto|exact NE|].
  intros l El. apply Some_inj in El. subst l. exists 3%nat, 2%nat. split; [apply demo_regular|]. split; [lia|exact NE].
Qed.
Example C66_case : exists d : sdict pyval,
  (forall k, In k SF_params -> has_key d k) /\ has_key d "n_cumul" /\ ~ In "n_cumul"%string SF_params.
Proof.
  exists (mfa_params (Some demo) (QArr [2]) 3 1 3 true). split; [|split].
  - intros k Hk. apply sdict_get_key. simpl in *. tauto.
  - apply sdict_get_key. simpl. tauto.
  - simpl. intuition discriminate.
Qed.
