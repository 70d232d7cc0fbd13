(** * Property C95: [Signal] objects whose data, sampling frequency or log are reassigned *)
From Coq Require Import Reals List ZArith Bool Lra Lia String.
From Verif Require Import XReal PyBase ModelUtils ModelMRQ ModelStructure ModelCumulants ModelSpectrum ModelEstimation
  ModelWavelet ModelMFA ModelPSD ModelSignal ModelAssign Spec LXReal LUtils LBase LFilter LWave LSignal PropsWavelet PropsLeaders PropsSignal.
Import ListNotations.
Open Scope R_scope.
Local Notation length := List.length.

(** ** Vocabulary: the last value assigned in a history, starting from the constructor's *)
Fixpoint last_data (d : col) (h : list action) : col :=
  match h with [] => d | SetData d' :: h' => last_data d' h' | _ :: h' => last_data d h' end.
Fixpoint last_fs (f : R) (h : list action) : R :=
  match h with [] => f | SetFs f' :: h' => last_fs f' h' | _ :: h' => last_fs f h' end.
Fixpoint last_log (l : string) (h : list action) : string :=
  match h with [] => l | SetLog l' :: h' => last_log l' h' | _ :: h' => last_log l h' end.
(** the parameters used by the calls of a history *)
Definition welch_of (a : action) : list welch_param_t := match a with Call o => welch_used o | _ => [] end.
Definition wavelet_of (a : action) : list wavelet_param := match a with Call o => wavelet_used o | _ => [] end.

Section Acts.
Variable pywt : string -> option wavelet.
Variable num : col -> welch_args -> Z -> list xr.

Lemma acts_app s h k : acts pywt num s (h ++ k) = acts pywt num (acts pywt num s h) k.
Proof. unfold acts. apply fold_left_app. Qed.
Lemma acts_preserves (P : signal -> Prop) (h : list action) :
  (forall a, In a h -> forall s, P s -> P (act pywt num s a)) -> forall s, P s -> P (acts pywt num s h).
Proof.
  induction h as [|a h IH]; intros H s Hs; [exact Hs|]. cbn [acts fold_left]. apply IH.
  - intros b Hb. apply H. now right.
  - apply H; [now left|exact Hs].
Qed.

(** the fields the library never assigns *)
Definition owned (d : col) (f : R) (l : string) (s : signal) : Prop :=
  s_data s = Some d /\ s_fs s = f /\ s_log s = l /\ s_wt_psd_param s = None.
Lemma owned_psd d f l s p : owned d f l s -> owned d f l (fst (estimate_wavelet_psd pywt s p)).
Proof.
  intros H. unfold estimate_wavelet_psd. destruct (match s_wt_psd s with None => true | Some _ => _ end); [|exact H].
  destruct (f_wavelet_psd _ _ _ _); exact H.
Qed.
Lemma owned_welch d f l s p : owned d f l s -> owned d f l (fst (estimate_welch_psd num s p)).
Proof.
  intros H. unfold estimate_welch_psd. destruct (match s_welch_psd s with None => true | Some _ => _ end); [|exact H].
  destruct (f_welch _ _ _ _); exact H.
Qed.
Lemma owned_wavelet d f l s p : owned d f l s -> owned d f l (fst (m_wavelet_analysis pywt s p)).
Proof.
  intros H. unfold m_wavelet_analysis. destruct (match s_wt_param s with None => true | Some _ => _ end); [|exact H].
  destruct (f_wavelet _ _ _); exact H.
Qed.
Lemma owned_step d f l s o : owned d f l s -> owned d f l (step pywt num s o).
Proof.
  apply (step_preserves pywt num (owned d f l) o).
  - intros _ s' p. apply owned_psd.
  - intros s' p _. apply owned_welch.
  - intros s' p _. apply owned_wavelet.
  - intros s' v H. exact H.
  - intros s' v H. exact H.
  - intros s' v H. exact H.
Qed.
Lemma owned_acts h : forall d f l s, owned d f l s -> owned (last_data d h) (last_fs f h) (last_log l h) (acts pywt num s h).
Proof.
  induction h as [|[o|d'|f'|l'] h IH]; intros d f l s H; cbn [last_data last_fs last_log acts fold_left]; [exact H| | | |].
  - apply IH. cbn [act]. now apply owned_step.
  - apply IH. destruct H as (A & B & C & D). repeat split; assumption.
  - apply IH. destruct H as (A & B & C & D). repeat split; assumption.
  - apply IH. destruct H as (A & B & C & D). repeat split; assumption.
Qed.
Lemma owned_fresh d f l : owned d f l (fresh d f l).
Proof. repeat split. Qed.

Lemma psd_of_owned d f l s p : owned d f l s ->
  snd (estimate_wavelet_psd pywt s p) = returned (wavelet_estimation (db pywt) [d] f (pp_moments p) (pp_j2 p)).
Proof.
  intros (A & B & C & D). unfold estimate_wavelet_psd. rewrite D.
  replace (match s_wt_psd s with None => true | Some _ => true end) with true by (destruct (s_wt_psd s); reflexivity).
  cbn [s_data s_fs set_wt_param]. rewrite A, B. cbn [f_wavelet_psd]. destruct (wavelet_estimation _ _ _ _ _); reflexivity.
Qed.
Lemma fractal_of_owned d f l s n band : owned d f l s ->
  snd (m_fractal_analysis pywt s n band) = returned (fractal_analysis (db pywt) [d] f n band l).
Proof.
  intros I. unfold m_fractal_analysis, fractal_analysis. set (s1 := set_fractal_param s _).
  assert (I1 : owned d f l s1) by exact I.
  assert (O := psd_of_owned d f l s1 (mkPP n None) I1).
  assert (I2 := owned_psd d f l s1 (mkPP n None) I1). cbn [pp_moments pp_j2] in O.
  assert (V : forall r, snd (estimate_wavelet_psd pywt s1 (mkPP n None)) = Ok (Some r) -> s_wt_psd (fst (estimate_wavelet_psd pywt s1 (mkPP n None))) = Some r).
  { intros r. unfold estimate_wavelet_psd. destruct (match s_wt_psd s1 with None => true | Some _ => _ end).
    - destruct (f_wavelet_psd _ _ _ _); cbn; congruence.
    - cbn. congruence. }
  destruct (estimate_wavelet_psd pywt s1 (mkPP n None)) as [s2 r]. cbn [fst snd] in *. subst r.
  destruct (wavelet_estimation (db pywt) [d] f n None) as [P|e]; [|reflexivity]. cbn [returned bindS bind] in *.
  rewrite (V P eq_refl). destruct I2 as (_ & _ & L & _). rewrite L.
  destruct (estimate_beta (psd_freq P) (psd_psd P) band l); reflexivity.
Qed.
End Acts.

(** ** C95 *)
(** What is always current: the wavelet PSD and the fractal analysis use the last assigned data, fs and log *)
Theorem C95_psd_current : forall pywt num data fs log (h : list action) n_moments,
  let s := acts pywt num (fresh data fs log) h in
  let d := last_data data h in let f := last_fs fs h in let l := last_log log h in
  (forall j2, snd (estimate_wavelet_psd pywt s (mkPP n_moments j2)) = returned (wavelet_estimation (db pywt) [d] f n_moments j2)) /\
  (forall band, snd (m_fractal_analysis pywt s n_moments band) = returned (fractal_analysis (db pywt) [d] f n_moments band l)).
Proof.
  intros pywt num data fs log h n. cbv zeta. assert (I := owned_acts pywt num h data fs log _ (owned_fresh data fs log)). split.
  - intros j2. now rewrite (psd_of_owned pywt _ _ _ _ (mkPP n j2) I).
  - intros band. now apply fractal_of_owned.
Qed.
Print Assumptions C95_psd_current.

(** The two caches: current for parameters that were not used before *)
Theorem C95_new_parameters : forall pywt num data fs log (h : list action),
  let s := acts pywt num (fresh data fs log) h in
  let d := last_data data h in let f := last_fs fs h in
  (forall n_fft seg, ~ In (mkWelchP n_fft seg) (flat_map welch_of h) ->
     snd (estimate_welch_psd num s (mkWelchP n_fft seg)) = returned (welch_estimation num d f n_fft seg)) /\
  (forall p, (forall q, In q (flat_map wavelet_of h) -> ~ same_settings q p) ->
     snd (m_wavelet_analysis pywt s p) = returned (f_wavelet pywt (Some d) p)).
Proof.
  intros pywt num data fs log h. cbv zeta. assert (I := owned_acts pywt num h data fs log _ (owned_fresh data fs log)).
  set (s := acts pywt num (fresh data fs log) h) in *. destruct I as (A & B & _). split.
  - intros n_fft seg N. set (p := mkWelchP n_fft seg) in *.
    assert (U : s_welch_param s <> Some p).
    { unfold s. apply (acts_preserves pywt num (fun s => s_welch_param s <> Some p)); [|discriminate].
      intros [o|d'|f'|l'] Ho s0 H0; try exact H0. cbn [act].
      revert s0 H0. apply (step_preserves pywt num (fun s => s_welch_param s <> Some p) o); try (intros s' v H; exact H).
      - intros _ s' v H. unfold estimate_wavelet_psd. destruct (match s_wt_psd s' with None => true | Some _ => _ end); [|exact H].
        destruct (f_wavelet_psd _ _ _ _); exact H.
      - intros s' v Hv H. unfold estimate_welch_psd. destruct (match s_welch_psd s' with None => true | Some _ => _ end); [|exact H].
        assert (NV : v <> p). { intros ->. apply N. apply in_flat_map. exists (Call o). auto. }
        destruct (f_welch _ _ _ _); intros X; apply NV; exact (f_equal (fun o => match o with Some a => a | None => v end) X).
      - intros s' v _ H. unfold m_wavelet_analysis. destruct (match s_wt_param s' with None => true | Some _ => _ end); [|exact H].
        destruct (f_wavelet _ _ _); exact H. }
    unfold estimate_welch_psd.
    replace (match s_welch_psd s with None => true | Some _ => match s_welch_param s with None => true | Some o => negb (we_eqb o p) end end) with true.
    + cbn [s_data s_fs set_welch_param]. rewrite A, B. cbn [f_welch]. destruct (welch_estimation _ _ _ _ _); reflexivity.
    + destruct (s_welch_psd s); [|reflexivity]. destruct (s_welch_param s) as [o|]; [|reflexivity].
      symmetry. apply negb_true_iff. destruct (we_eqb o p) eqn:E; [|reflexivity]. apply we_eqb_eq in E. subst. now elim U.
  - intros p N.
    assert (U : must_compute s p = true).
    { unfold s. apply (acts_preserves pywt num (fun s => must_compute s p = true)); [|reflexivity].
      intros [o|d'|f'|l'] Ho s0 H0; try exact H0. cbn [act].
      revert s0 H0. apply (step_preserves pywt num (fun s => must_compute s p = true) o); try (intros s' v H; exact H).
      - intros _ s' v H. unfold estimate_wavelet_psd. destruct (match s_wt_psd s' with None => true | Some _ => _ end); [|exact H].
        destruct (f_wavelet_psd _ _ _ _); reflexivity.
      - intros s' v Hv H. unfold estimate_welch_psd. destruct (match s_welch_psd s' with None => true | Some _ => _ end); [|exact H].
        destruct (f_welch _ _ _ _); exact H.
      - intros s' v Hv H. assert (NV : wp_eqb v p = false).
        { destruct (wp_eqb v p) eqn:E; [|reflexivity]. exfalso. apply wp_eqb_same in E. apply (N v); [|exact E]. apply in_flat_map. exists (Call o). auto. }
        destruct (must_compute s' v) eqn:M.
        + unfold m_wavelet_analysis. unfold must_compute in M. rewrite M. destruct (f_wavelet _ _ _); (change (negb (wp_eqb v p) = true); now rewrite NV).
        + rewrite wavelet_skip by trivial. exact H. }
    rewrite (wavelet_compute pywt s p _ A U). destruct (f_wavelet pywt _ p); reflexivity.
Qed.
Print Assumptions C95_new_parameters.

(** assignments only *)
Definition assigns (h : list action) : Prop := forall a, In a h -> match a with Call _ => False | _ => True end.
Lemma assigns_keep pywt num h s : assigns h ->
  s_welch_psd (acts pywt num s h) = s_welch_psd s /\ s_welch_param (acts pywt num s h) = s_welch_param s /\
  s_wt_transform (acts pywt num s h) = s_wt_transform s /\ s_wt_param (acts pywt num s h) = s_wt_param s.
Proof.
  revert s. induction h as [|a h IH]; intros s H; [auto|]. cbn [acts fold_left]. fold (acts pywt num (act pywt num s a) h).
  destruct (IH (act pywt num s a)) as (E1 & E2 & E3 & E4); [intros b Hb; apply H; now right|].
  rewrite E1, E2, E3, E4. assert (K := H a (or_introl eq_refl)). destruct a; [contradiction|..]; auto.
Qed.

(** REFUTED for the caches: in every history, whatever is assigned after an estimation, the same call returns the estimate
    of the old data and sampling frequency; so do hmin and hurst *)
Theorem C95_stale_refuted : forall pywt num data fs log (h k : list action), assigns k ->
  let s := acts pywt num (fresh data fs log) h in
  (forall n_fft seg r, snd (estimate_welch_psd num s (mkWelchP n_fft seg)) = Ok (Some r) ->
     let s' := acts pywt num s (Call (OWelchPsd (mkWelchP n_fft seg)) :: k) in
     snd (estimate_welch_psd num s' (mkWelchP n_fft seg)) = Ok (Some r)) /\
  (forall p t, snd (m_wavelet_analysis pywt s p) = Ok (Some t) ->
     let s' := acts pywt num s (Call (OWavelet p) :: k) in
     snd (m_wavelet_analysis pywt s' p) = Ok (Some t) /\
     snd (m_hmin s') = estimate_hmin (wt_coefs t) (wp_j1 p) (j2_eff t) (wp_weighted p) true).
Proof.
  intros pywt num data fs log h k Hk. cbv zeta. set (s := acts pywt num (fresh data fs log) h). split.
  - intros n_fft seg r H. set (p := mkWelchP n_fft seg) in *. cbn [acts fold_left act step].
    fold (acts pywt num (fst (estimate_welch_psd num s p)) k). destruct (assigns_keep pywt num k (fst (estimate_welch_psd num s p)) Hk) as (E1 & E2 & _).
    assert (K : s_welch_psd (fst (estimate_welch_psd num s p)) = Some r /\ s_welch_param (fst (estimate_welch_psd num s p)) = Some p).
    { revert H. unfold estimate_welch_psd. destruct (s_welch_psd s) as [x|] eqn:W.
      - destruct (s_welch_param s) as [o|] eqn:O.
        + destruct (we_eqb o p) eqn:E; cbn [negb].
          * apply we_eqb_eq in E. subst o. cbn [fst snd]. intros H. split; congruence.
          * destruct (f_welch _ _ _ _); cbn; [|discriminate]. intros H. split; congruence.
        + destruct (f_welch _ _ _ _); cbn; [|discriminate]. intros H. split; congruence.
      - destruct (f_welch _ _ _ _); cbn; [|discriminate]. intros H. split; congruence. }
    destruct K as [K1 K2]. rewrite K1 in E1. rewrite K2 in E2. set (s' := acts pywt num _ k) in *. clearbody s'. unfold estimate_welch_psd. rewrite E1, E2.
    rewrite (proj2 (we_eqb_eq _ _) eq_refl). cbn [negb snd]. reflexivity.
  - intros p t H. cbn [acts fold_left act step]. fold (acts pywt num (fst (m_wavelet_analysis pywt s p)) k).
    destruct (assigns_keep pywt num k (fst (m_wavelet_analysis pywt s p)) Hk) as (_ & _ & E1 & E2).
    assert (K : s_wt_transform (fst (m_wavelet_analysis pywt s p)) = Some t /\
       exists o, s_wt_param (fst (m_wavelet_analysis pywt s p)) = Some (PWav o) /\ wp_eqb o p = true).
    { revert H. unfold m_wavelet_analysis. destruct (s_wt_param s) as [[o|o]|] eqn:O.
      - destruct (wp_eqb o p) eqn:E; cbn [negb].
        + cbn [fst snd]. intros H. split; [congruence|]. exists o. auto.
        + destruct (f_wavelet _ _ _); cbn; [|discriminate]. intros H. split; [congruence|]. exists p. now rewrite wp_eqb_refl.
      - destruct (f_wavelet _ _ _); cbn; [|discriminate]. intros H. split; [congruence|]. exists p. now rewrite wp_eqb_refl.
      - destruct (f_wavelet _ _ _); cbn; [|discriminate]. intros H. split; [congruence|]. exists p. now rewrite wp_eqb_refl. }
    destruct K as (K1 & o & K2 & K3). rewrite K1 in E1. rewrite K2 in E2. set (s' := acts pywt num _ k) in *. clearbody s'. split; [unfold m_wavelet_analysis; rewrite E2, K3; cbn [negb snd]; now rewrite E1|].
    unfold m_hmin. rewrite E1, E2. apply wp_eqb_same in K3 as (J & _ & _ & _ & W & _). cbn [snd]. now rewrite J, W.
Qed.
Print Assumptions C95_stale_refuted.

(** the stale results are wrong: assigning another sampling frequency, the Welch frequencies stay those of the old one,
    for every non-empty signal; assigning another signal, the wavelet transform is that of the old one *)
Example C95_welch_case num x data log f f' : f <> f' ->
  let p := mkWelchP 8 (Some 1%Z) in
  exists r r', snd (estimate_welch_psd num (acts only_haar num (fresh (x :: data) f log) [Call (OWelchPsd p); SetFs f']) p) = Ok (Some r) /\
    welch_estimation num (x :: data) f' 8 (Some 1%Z) = Ok r' /\ psd_freq r <> psd_freq r'.
Proof.
  intros N p. destruct (C47_case num x data f) as [[r H] _]. destruct (C47_case num x data f') as [[r' H'] _]. exists r, r'.
  split; [|split; [exact H'|]].
  - refine (proj1 (C95_stale_refuted only_haar num (x :: data) f log [] [SetFs f'] _) 8%Z (Some 1%Z) r _).
    + intros a [<-|[]]. trivial.
    + cbn [acts fold_left]. unfold estimate_welch_psd. cbn [s_welch_psd fresh s_data s_fs set_welch_param f_welch we_nfft we_seg]. now rewrite H.
  - unfold welch_estimation in H, H'. cbn [welch_seg welch_nfft] in H, H'. change (8 <? 1)%Z with false in *. cbn iota in *.
    change (8 / 2 + 1 <? 0)%Z with false in *. cbn iota in *. destruct (scipy_welch _ _ _); [|discriminate]. cbn [bind] in *.
    injection H as <-. injection H' as <-. cbn [psd_freq]. change (Z.to_nat (8 / 2 + 1)) with 5%nat. intros E.
    apply (f_equal (fun l => nth 4 l 0)) in E. cbn [linspace map nth seq] in E.
    match type of E with f * ?a = f' * ?a => assert (Z : a <> 0) by (cbn; lra); apply N; exact (Rmult_eq_reg_r a f f' E Z) end.
Qed.
Example C95_wavelet_case num (s : list R) y fs log : length s = 24%nat ->
  let p := usual "haar" in
  exists t t', snd (m_wavelet_analysis only_haar (acts only_haar num (fresh (fin s) fs log) [Call (OWavelet p); SetData (fin [y])]) p) = Ok (Some t) /\
    f_wavelet only_haar (Some (fin [y])) p = Ok t' /\ SpecMRQ.scales (wt_coefs t) = [1; 2]%Z /\ ~ In 1%Z (SpecMRQ.scales (wt_coefs t')).
Proof.
  intros L p. destruct (wavelet_case [s]) as (t & l & ws & E & S1 & _); [discriminate|now constructor|]. cbn [map] in E.
  destruct (C14_returns [[y]] 1 haar PInfty 1 None 0 1 true) as (t' & ws' & E'); try discriminate; auto.
  { exact good_haar. }
  cbn [map] in E'. assert (F : f_wavelet only_haar (Some (fin s)) p = Ok t).
  { unfold f_wavelet. change (only_haar (wp_name p)) with (Some haar). cbn iota. change (bind (wavelet_analysis [fin s] PInfty haar 1 None 0 1 true) (fun tw => let (t, _) := tw in Ok t) = Ok t). now rewrite E. }
  assert (F' : f_wavelet only_haar (Some (fin [y])) p = Ok t').
  { unfold f_wavelet. change (only_haar (wp_name p)) with (Some haar). cbn iota. change (bind (wavelet_analysis [fin [y]] PInfty haar 1 None 0 1 true) (fun tw => let (t, _) := tw in Ok t) = Ok t'). now rewrite E'. }
  exists t, t'. split; [|split; [exact F'|split; [exact S1|]]].
  - refine (proj1 (proj2 (C95_stale_refuted only_haar num (fin s) fs log [] [SetData (fin [y])] _) p t _)).
    + intros a [<-|[]]. trivial.
    + change (snd (m_wavelet_analysis only_haar (fresh (fin s) fs log) p) = Ok (Some t)). assert (W := wavelet_compute only_haar (fresh (fin s) fs log) p (fin s) eq_refl eq_refl). rewrite W. clear W. unfold col in *. rewrite F. reflexivity.
  - intros Hin. destruct (C19_shape [fin [y]] haar PInfty 1 None 0 1 true t' ws' good_haar R1_neq_R0 I E') as (_ & nc & _ & Sc & _ & V & _).
    destruct (LEst.dict_get_Some (mq_values (wt_coefs t')) 1%Z Hin) as [v G].
    destruct (V 1%Z v G) as (Lv & Fv & Len). cbn [length] in Lv. destruct v as [|c [|]]; try discriminate Lv.
      specialize (Len 0%nat). apply Forall_inv in Fv. cbn [nth] in Len. destruct c as [|? ?]; [cbn in Fv; lia|]. discriminate Len.
Qed.

(** The stored results are attributes of their own: no assignment of [data], [fs] or [log] changes or clears any of them,
    so a difference of spectra taken afterwards is still that of the spectra stored before *)
Theorem C95_stored_kept : forall pywt num s (k : list action), assigns k ->
  let s' := acts pywt num s k in
  s_wt_psd s' = s_wt_psd s /\ s_wt_psd_param s' = s_wt_psd_param s /\ s_welch_psd s' = s_welch_psd s /\ s_welch_param s' = s_welch_param s /\
  s_fractal s' = s_fractal s /\ s_fractal_param s' = s_fractal_param s /\ s_wt_transform s' = s_wt_transform s /\ s_wt_param s' = s_wt_param s /\
  s_multi_fractal s' = s_multi_fractal s /\ s_mf_param s' = s_mf_param s /\
  s_fs s' = last_fs (s_fs s) k /\ s_log s' = last_log (s_log s) k /\
  (forall o log r, psd_difference s o log = Ok r ->
     exists r', psd_difference s' o log = Ok r' /\ s_wt_psd r' = s_wt_psd r /\ s_fs r' = last_fs (s_fs s) k /\ s_log r' = last_log (s_log s) k).
Proof.
  intros pywt num s k Hk. cbv zeta.
  assert (A : s_wt_psd (acts pywt num s k) = s_wt_psd s /\ s_wt_psd_param (acts pywt num s k) = s_wt_psd_param s /\
    s_welch_psd (acts pywt num s k) = s_welch_psd s /\ s_welch_param (acts pywt num s k) = s_welch_param s /\
    s_fractal (acts pywt num s k) = s_fractal s /\ s_fractal_param (acts pywt num s k) = s_fractal_param s /\
    s_wt_transform (acts pywt num s k) = s_wt_transform s /\ s_wt_param (acts pywt num s k) = s_wt_param s /\
    s_multi_fractal (acts pywt num s k) = s_multi_fractal s /\ s_mf_param (acts pywt num s k) = s_mf_param s /\
    s_fs (acts pywt num s k) = last_fs (s_fs s) k /\ s_log (acts pywt num s k) = last_log (s_log s) k).
  { revert s. induction k as [|a k IH]; intros s; [repeat split|]. cbn [acts fold_left]. fold (acts pywt num (act pywt num s a) k).
    assert (K := Hk a (or_introl eq_refl)). specialize (IH (fun b Hb => Hk b (or_intror Hb)) (act pywt num s a)).
    destruct a; [contradiction|exact IH..]. }
  destruct A as (A1 & A2 & A3 & A4 & A5 & A6 & A7 & A8 & A9 & A10 & A11 & A12).
  repeat (split; [assumption|]). intros o log r. unfold psd_difference. rewrite A1, A2, A11, A12.
  destruct (s_wt_psd s) as [p1|]; [|intros X; discriminate X]. destruct (s_wt_psd o) as [p2|]; [|intros X; discriminate X]. cbv zeta.
  match goal with |- bind ?e _ = _ -> _ => destruct e as [x|]; [|intros X; discriminate X] end. cbn [bind].
  intros H. injection H as <-. eexists. split; [reflexivity|]. cbn. auto.
Qed.
Print Assumptions C95_stored_kept.
Example C95_stored_case num data log f f' : 
  s_wt_psd (acts only_haar num (set_wt_psd (fresh data f log) (Some (mkPSD [1] (PSD1 [Fin 2])))) [SetFs f'; SetData []]) = Some (mkPSD [1] (PSD1 [Fin 2])).
Proof. apply (C95_stored_kept only_haar num (set_wt_psd (fresh data f log) _) [SetFs f'; SetData []]). intros a [<-|[<-|[]]]; exact I. Qed.
