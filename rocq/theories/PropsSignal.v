(** * Properties C46-C51, C67, C68: the class [Signal] over all histories of method calls *)
From Coq Require Import Reals List ZArith Bool Lra Lia String.
From Verif Require Import XReal PyBase ModelUtils ModelMRQ ModelStructure ModelCumulants ModelSpectrum ModelEstimation
  ModelWavelet ModelMFA ModelPSD ModelSignal Spec LXReal LUtils LBase LFilter LWave LSignal PropsWavelet PropsLeaders.
Import ListNotations.
Open Scope R_scope.
Local Notation length := List.length.

(** ** Vocabulary of the statements *)
(** the same outcome, a returned value being the (non-None) attribute *)
Definition returned {A} (m : res A) : res (option A) := match m with Ok a => Ok (Some a) | Err e => Err e end.
(** the Welch parameters, the wavelet parameters a call uses; whether it asks for the wavelet PSD *)
Definition welch_used (o : op) : list welch_param_t :=
  match o with OWelchPsd w | OPlotPsd w _ | OPlotFractal _ _ w => [w] | _ => [] end.
Definition wavelet_used (o : op) : list wavelet_param :=
  match o with OWavelet p | OMfFull p _ _ _ => [p] | _ => [] end.
Definition asks_psd (o : op) : bool :=
  match o with OWaveletPsd _ | OPlotPsd _ _ | OPlotFractal _ _ _ | OFractal _ _ => true | _ => false end.

Section History.
Variable pywt : string -> option wavelet.
Variable num : col -> welch_args -> Z -> list xr.

Lemma known_false : known mf_params mf_call_keys = false.
Proof. reflexivity. Qed.

(** a property of the object kept by the primitive assignments is kept by every call *)
Lemma step_preserves (P : signal -> Prop) (o : op) :
  (asks_psd o = true -> forall s p, P s -> P (fst (estimate_wavelet_psd pywt s p))) ->
  (forall s p, In p (welch_used o) -> P s -> P (fst (estimate_welch_psd num s p))) ->
  (forall s p, In p (wavelet_used o) -> P s -> P (fst (m_wavelet_analysis pywt s p))) ->
  (forall s v, P s -> P (set_fractal_param s v)) -> (forall s v, P s -> P (set_fractal s v)) ->
  (forall s v, P s -> P (set_mf_param s v)) ->
  forall s, P s -> P (step pywt num s o).
Proof.
  intros HP HW HA HF HF' HM.
  assert (MF : forall s q n sv, P s -> P (fst (m_mf_analysis s q n sv))).
  { intros s q n sv Hs. unfold m_mf_analysis. destruct (s_wt_transform s); [|exact Hs]. destruct (s_wt_param s); [|exact Hs].
    destruct (match s_multi_fractal s with None => Ok true | Some _ => _ end) as [[|]|e]; try exact Hs.
    destruct a; [|now apply HM]. rewrite known_false. now apply HM. }
  assert (FR : asks_psd o = true -> forall s n b, P s -> P (fst (m_fractal_analysis pywt s n b))).
  { intros Ho s n b Hs. unfold m_fractal_analysis. set (s1 := set_fractal_param s _).
    assert (H1 : P s1) by now apply HF. assert (K := HP Ho s1 (mkPP n None) H1).
    destruct (estimate_wavelet_psd pywt s1 (mkPP n None)) as [s2 [r|e]]; [|exact K]. cbn [bindS fst] in *.
    destruct (s_wt_psd s2); [|exact K]. destruct (estimate_beta _ _ _ _); [|exact K]. now apply HF'. }
  intros s Hs. destruct o; cbn [step asks_psd welch_used wavelet_used] in *.
  - now apply HP.
  - apply HW; [now left|exact Hs].
  - unfold m_plot_psd. assert (K := HP eq_refl s p Hs). destruct (estimate_wavelet_psd pywt s p) as [s1 [r|e]]; [|exact K].
    cbn [bindS fst] in *. assert (K' := HW s1 w (or_introl eq_refl) K).
    destruct (estimate_welch_psd num s1 w) as [s2 [r'|e]]; exact K'.
  - unfold m_plot_fractal. assert (K := HP eq_refl s (mkPP n None) Hs).
    destruct (estimate_wavelet_psd pywt s (mkPP n None)) as [s1 [r|e]]; [|exact K].
    cbn [bindS fst] in *. assert (K' := HW s1 w (or_introl eq_refl) K).
    destruct (estimate_welch_psd num s1 w) as [s2 [r'|e]]; [|exact K']. cbn [bindS fst] in *.
    assert (K2 := FR eq_refl s2 n band K'). destruct (m_fractal_analysis pywt s2 n band) as [s3 [r2|e]]; [|exact K2].
    cbn [bindS fst] in *. destruct (s_fractal s3); exact K2.
  - now apply FR.
  - apply HA; [now left|exact Hs].
  - now apply MF.
  - unfold m_mf_analysis_full. assert (K := HA s p (or_introl eq_refl) Hs).
    destruct (m_wavelet_analysis pywt s p) as [s1 [r|e]]; [|exact K]. cbn [bindS fst] in *. now apply MF.
  - unfold m_hurst. destruct (s_wt_transform s), (s_wt_param s) as [[?|?]|]; exact Hs.
  - unfold m_hmin. destruct (s_wt_transform s), (s_wt_param s) as [[?|?]|]; exact Hs.
Qed.
Lemma run_preserves (P : signal -> Prop) (h : list op) :
  (forall o, In o h -> forall s, P s -> P (step pywt num s o)) -> forall s, P s -> P (run pywt num s h).
Proof.
  induction h as [|o h IH]; intros H s Hs; [exact Hs|]. cbn [run fold_left]. apply IH.
  - intros o' Ho. apply H. now right.
  - apply H; [now left|exact Hs].
Qed.
Lemma run_app s h k : run pywt num s (h ++ k) = run pywt num (run pywt num s h) k.
Proof. unfold run. apply fold_left_app. Qed.

Variables (data : col) (fs : R) (log : string).

(** what every reachable object satisfies *)
Definition inv (s : signal) : Prop :=
  s_data s = Some data /\ s_fs s = fs /\ s_log s = log /\ s_wt_psd_param s = None /\ s_multi_fractal s = None /\
  (forall p r, s_welch_param s = Some p -> f_welch num (Some data) fs p = Ok r -> s_welch_psd s = Some r) /\
  (forall p t, s_wt_param s = Some (PWav p) -> f_wavelet pywt (Some data) p = Ok t -> s_wt_transform s = Some t).
Lemma inv_wavelet_psd s p : inv s -> inv (fst (estimate_wavelet_psd pywt s p)).
Proof.
  intros (A & B & C & D & M & E & F). unfold estimate_wavelet_psd.
  destruct (match s_wt_psd s with None => true | Some _ => _ end); [|now repeat split].
  destruct (f_wavelet_psd _ _ _ _); (refine (conj A (conj B (conj C (conj D (conj M (conj E _))))))); intros ? ? X; discriminate X.
Qed.
Lemma inv_welch s p : inv s -> inv (fst (estimate_welch_psd num s p)).
Proof.
  intros (A & B & C & D & M & E & F). unfold estimate_welch_psd.
  destruct (match s_welch_psd s with None => true | Some _ => _ end); [|now repeat split].
  cbn [s_data s_fs set_welch_param]. rewrite A, B.
  destruct (f_welch _ _ _ _) eqn:W; (refine (conj A (conj B (conj C (conj D (conj M (conj _ F)))))));
    intros p' r X Y; injection X as <-; cbn [s_welch_psd set_welch_psd fst]; congruence.
Qed.
Lemma inv_wavelet s p : inv s -> inv (fst (m_wavelet_analysis pywt s p)).
Proof.
  intros (A & B & C & D & M & E & F). unfold m_wavelet_analysis.
  destruct (match s_wt_param s with None => true | Some _ => _ end); [|now repeat split].
  cbn [s_data s_fs set_wt_param]. rewrite A.
  destruct (f_wavelet _ _ _) eqn:W; (refine (conj A (conj B (conj C (conj D (conj M (conj E _)))))));
    intros p' r X Y; injection X as <-; cbn [s_wt_transform set_wt_transform fst]; congruence.
Qed.
Lemma inv_step o s : inv s -> inv (step pywt num s o).
Proof.
  apply step_preserves.
  - intros _ s' p. apply inv_wavelet_psd.
  - intros s' p _. apply inv_welch.
  - intros s' p _. apply inv_wavelet.
  - intros s' v H. exact H.
  - intros s' v H. exact H.
  - intros s' v H. exact H.
Qed.
Lemma inv_fresh : inv (fresh data fs log).
Proof. repeat split; trivial; intros ? ? X; discriminate X. Qed.
Lemma inv_run h : inv (run pywt num (fresh data fs log) h).
Proof. apply run_preserves; [|exact inv_fresh]. intros o _. apply inv_step. Qed.

Lemma wavelet_psd_outcome s p : inv s ->
  snd (estimate_wavelet_psd pywt s p) = returned (wavelet_estimation (db pywt) [data] fs (pp_moments p) (pp_j2 p)).
Proof.
  intros (A & B & C & D & _). unfold estimate_wavelet_psd. rewrite D.
  replace (match s_wt_psd s with None => true | Some _ => true end) with true by (destruct (s_wt_psd s); reflexivity).
  cbn [s_data s_fs set_wt_param]. rewrite A, B. cbn [f_wavelet_psd]. destruct (wavelet_estimation _ _ _ _ _); reflexivity.
Qed.
End History.

(** ** C46 *)
Theorem C46_wavelet_psd_never_stale : forall pywt num data fs log (h : list op) n_moments j2,
  snd (estimate_wavelet_psd pywt (run pywt num (fresh data fs log) h) (mkPP n_moments j2))
  = returned (wavelet_estimation (db pywt) [data] fs n_moments j2).
Proof. intros. rewrite (wavelet_psd_outcome pywt num data fs log); [reflexivity|apply inv_run]. Qed.
Print Assumptions C46_wavelet_psd_never_stale.

(** ** C47 *)
(** Parameters for which the estimation succeeds: every history returns that estimate *)
Theorem C47_welch_psd_partial : forall pywt num data fs log (h : list op) n_fft seg,
  let call := snd (estimate_welch_psd num (run pywt num (fresh data fs log) h) (mkWelchP n_fft seg)) in
  let estimate := welch_estimation num data fs n_fft seg in
  (forall r, estimate = Ok r -> call = Ok (Some r)) /\
  (* the first call with these parameters: also exceptions *)
  (~ In (mkWelchP n_fft seg) (flat_map welch_used h) -> call = returned estimate).
Proof.
  intros pywt num data fs log h n_fft seg. cbv zeta. set (p := mkWelchP n_fft seg).
  assert (I := inv_run pywt num data fs log h). set (s := run _ _ _ h) in *.
  change (welch_estimation num data fs n_fft seg) with (f_welch num (Some data) fs p).
  assert (Go : (match s_welch_psd s with None => true | Some _ => match s_welch_param s with None => true | Some o => negb (we_eqb o p) end end) = true ->
     snd (estimate_welch_psd num s p) = returned (f_welch num (Some data) fs p)).
  { intros E. unfold estimate_welch_psd. rewrite E. destruct I as (A & B & _). cbn [s_data s_fs set_welch_param]. rewrite A, B.
    destruct (f_welch num (Some data) fs p); reflexivity. }
  split.
  - intros r Hr. destruct (match s_welch_psd s with None => true | Some _ => _ end) eqn:E.
    + rewrite (Go eq_refl), Hr. reflexivity.
    + unfold estimate_welch_psd. rewrite E. cbn [snd]. f_equal. destruct (s_welch_psd s) eqn:W; [|discriminate].
      destruct (s_welch_param s) as [o|] eqn:O; [|discriminate]. apply negb_false_iff, we_eqb_eq in E. subst o.
      destruct I as (_ & _ & _ & _ & _ & J & _). specialize (J p r O Hr). congruence.
  - intros N. apply Go.
    assert (U : s_welch_param s <> Some p).
    { clear Go I. unfold s. apply (run_preserves pywt num (fun s => s_welch_param s <> Some p)); [|discriminate].
      intros o Ho. apply (step_preserves pywt num (fun s => s_welch_param s <> Some p) o); try (intros s' v H; exact H).
      - intros _ s' v H. unfold estimate_wavelet_psd. destruct (match s_wt_psd s' with None => true | Some _ => _ end); [|exact H].
        destruct (f_wavelet_psd _ _ _ _); exact H.
      - intros s' v Hv H. unfold estimate_welch_psd. destruct (match s_welch_psd s' with None => true | Some _ => _ end); [|exact H].
        assert (NV : v <> p). { intros ->. apply N. apply in_flat_map. exists o. auto. }
        destruct (f_welch _ _ _ _); intros X; apply NV; exact (f_equal (fun o => match o with Some a => a | None => v end) X).
      - intros s' v _ H. unfold m_wavelet_analysis. destruct (match s_wt_param s' with None => true | Some _ => _ end); [|exact H].
        destruct (f_wavelet _ _ _); exact H. }
    destruct (s_welch_psd s); [|reflexivity]. destruct (s_welch_param s) as [o|]; [|reflexivity].
    apply negb_true_iff. destruct (we_eqb o p) eqn:E; [|reflexivity]. apply we_eqb_eq in E. subst. now elim U.
Qed.
Print Assumptions C47_welch_psd_partial.

(** REFUTED in general: after a failed call, repeating it silently returns the estimate for the previous parameters *)
Theorem C47_stale_refuted : forall pywt num data fs log (h : list op) n1 seg1 n2 seg2 r1 e,
  welch_estimation num data fs n1 seg1 = Ok r1 ->
  welch_estimation num data fs n2 seg2 = Err e ->
  let s := run pywt num (fresh data fs log) (h ++ [OWelchPsd (mkWelchP n1 seg1); OWelchPsd (mkWelchP n2 seg2)]) in
  snd (estimate_welch_psd num s (mkWelchP n2 seg2)) = Ok (Some r1).
Proof.
  intros pywt num data fs log h n1 seg1 n2 seg2 r1 e H1 H2. cbv zeta.
  change [OWelchPsd (mkWelchP n1 seg1); OWelchPsd (mkWelchP n2 seg2)] with ([OWelchPsd (mkWelchP n1 seg1)] ++ [OWelchPsd (mkWelchP n2 seg2)]).
  rewrite app_assoc, run_app. set (h1 := h ++ _).
  assert (I := inv_run pywt num data fs log h1).
  assert (S1 : s_welch_psd (run pywt num (fresh data fs log) h1) = Some r1).
  { unfold h1. rewrite run_app. assert (J := inv_run pywt num data fs log h).
    assert (K := proj1 (C47_welch_psd_partial pywt num data fs log h n1 seg1) r1 H1). cbv zeta in K.
    cbn [run fold_left step]. fold (run pywt num (fresh data fs log) h).
    set (s0 := run pywt num (fresh data fs log) h) in *. unfold estimate_welch_psd in *.
    destruct (match s_welch_psd s0 with None => true | Some _ => _ end); [|cbn in *; congruence].
    destruct (f_welch _ _ _ _); cbn in *; congruence. }
  assert (N1 : (n1, seg1) <> (n2, seg2)) by (intros E; injection E as <- <-; congruence).
  assert (P1 : s_welch_param (run pywt num (fresh data fs log) h1) = Some (mkWelchP n1 seg1)).
  { unfold h1. rewrite run_app. cbn [run fold_left step]. fold (run pywt num (fresh data fs log) h).
    set (s0 := run pywt num (fresh data fs log) h). unfold estimate_welch_psd.
    destruct (s_welch_psd s0) eqn:W.
    - destruct (s_welch_param s0) as [o|] eqn:O.
      + destruct (we_eqb o _) eqn:E; cbn [negb].
        * apply we_eqb_eq in E. subst o. exact O.
        * destruct (f_welch _ _ _ _); reflexivity.
      + destruct (f_welch _ _ _ _); reflexivity.
    - destruct (f_welch _ _ _ _); reflexivity. }
  set (s := run pywt num (fresh data fs log) h1) in *. destruct I as (A & B & _).
  cbn [run fold_left step].
  assert (E : fst (estimate_welch_psd num s (mkWelchP n2 seg2)) = set_welch_param s (Some (mkWelchP n2 seg2))).
  { unfold estimate_welch_psd. rewrite S1, P1.
    destruct (we_eqb _ _) eqn:Q. { apply we_eqb_eq in Q. injection Q as -> ->. now elim N1. }
    cbn [negb s_data s_fs set_welch_param]. rewrite A, B. cbn [f_welch we_nfft we_seg]. rewrite H2. reflexivity. }
  rewrite E. unfold estimate_welch_psd. cbn [s_welch_psd s_welch_param set_welch_param]. rewrite S1.
  rewrite (proj2 (we_eqb_eq _ _) eq_refl). cbn [negb snd s_welch_psd set_welch_param]. rewrite ?S1. reflexivity.
Qed.
Print Assumptions C47_stale_refuted.

(** both hypotheses are met by every non-empty signal: seg_size = 1 succeeds, seg_size = 0 raises ValueError *)
Example C47_case num x data fs :
  (exists r, welch_estimation num (x :: data) fs 8 (Some 1%Z) = Ok r) /\
  welch_estimation num (x :: data) fs 8 (Some 0%Z) = Err ValueError.
Proof.
  split; [|reflexivity].
  unfold welch_estimation, scipy_welch. cbn [welch_seg welch_nfft]. cbn [nperseg nfft noverlap].
  change (8 <? 1)%Z with false. cbn iota. change ((8 / 2 + 1 <? 0)%Z) with false. change (1 <? 1)%Z with false. cbn iota.
  replace (Z.min 1 (Z.of_nat (length (x :: data)))) with 1%Z by (cbn [length]; lia).
  change (8 <? 1)%Z with false. cbn iota.
  assert (T : truncR (1/2) = 0%Z).
  { unfold truncR. destruct (Rle_dec 0 (1/2)); [|lra]. unfold Int_part. assert (K : up (1/2) = 1%Z). { symmetry. apply tech_up; simpl; lra. } now rewrite K. }
  rewrite T. change (1 <=? 0)%Z with false. cbn. eauto.
Qed.

(** ** C48 *)
(** equal parameters in Python: the p_exp are compared as numbers *)
Definition same_p (a b : pexp) : Prop :=
  match a, b with PNum x, PNum y => num_val x = num_val y | x, y => x = y end.
Definition same_settings (a b : wavelet_param) : Prop :=
  wp_j1 a = wp_j1 b /\ wp_j2 a = wp_j2 b /\ wp_norm a = wp_norm b /\ wp_gamint a = wp_gamint b /\
  wp_weighted a = wp_weighted b /\ wp_name a = wp_name b /\ same_p (wp_p a) (wp_p b).
Lemma wp_eqb_same a b : wp_eqb a b = true <-> same_settings a b.
Proof.
  unfold wp_eqb, same_settings. rewrite !andb_true_iff, Z.eqb_eq, optR_eqb_eq, !Reqb_eq, String.eqb_eq.
  assert (P : pexp_eqb (wp_p a) (wp_p b) = true <-> same_p (wp_p a) (wp_p b)).
  { destruct (wp_p a), (wp_p b); cbn; try rewrite Reqb_eq; try (split; congruence). }
  rewrite P. assert (B : Bool.eqb (wp_weighted a) (wp_weighted b) = true <-> wp_weighted a = wp_weighted b) by apply eqb_true_iff.
  rewrite B. tauto.
Qed.

Definition must_compute (s : signal) (p : wavelet_param) : bool :=
  match s_wt_param s with None => true | Some (PWav o) => negb (wp_eqb o p) | Some (PPsd _) => true end.
Lemma wavelet_compute pywt s p data : s_data s = Some data -> must_compute s p = true ->
  m_wavelet_analysis pywt s p =
  match f_wavelet pywt (Some data) p with
  | Ok t => (set_wt_transform (set_wt_param s (Some (PWav p))) (Some t), Ok (Some t))
  | Err e => (set_wt_param s (Some (PWav p)), Err e)
  end.
Proof.
  intros D M. unfold m_wavelet_analysis. unfold must_compute in M. rewrite M.
  change (s_data (set_wt_param s (Some (PWav p)))) with (s_data s). rewrite D. destruct (f_wavelet _ _ _); reflexivity.
Qed.
Lemma wavelet_skip pywt s p : must_compute s p = false -> m_wavelet_analysis pywt s p = (s, Ok (s_wt_transform s)).
Proof. intros M. unfold m_wavelet_analysis. unfold must_compute in M. now rewrite M. Qed.
Lemma compute_after pywt s p : must_compute (fst (m_wavelet_analysis pywt s p)) p = false.
Proof.
  destruct (must_compute s p) eqn:M.
  - unfold m_wavelet_analysis. unfold must_compute in M. rewrite M. destruct (f_wavelet _ _ _); cbn; now rewrite wp_eqb_refl.
  - now rewrite wavelet_skip.
Qed.

(** Parameters that succeed give the transform of the data in every history; the first use of parameters behaves as
    the function, exceptions included; the same call repeated does not look at the library: nothing is recomputed *)
Theorem C48_wavelet_cache_partial : forall pywt num data fs log (h : list op) p,
  let s := run pywt num (fresh data fs log) h in
  let transform := f_wavelet pywt (Some data) p in
  (forall t, transform = Ok t -> snd (m_wavelet_analysis pywt s p) = Ok (Some t)) /\
  ((forall q, In q (flat_map wavelet_used h) -> ~ same_settings q p) -> snd (m_wavelet_analysis pywt s p) = returned transform) /\
  (forall t, transform = Ok t -> let s' := fst (m_wavelet_analysis pywt s p) in
     forall any_library q, same_settings p q -> m_wavelet_analysis any_library s' q = (s', Ok (Some t))).
Proof.
  intros pywt num data fs log h p. cbv zeta.
  assert (I := inv_run pywt num data fs log h). set (s := run _ _ _ h) in *.
  assert (D : s_data s = Some data) by apply I.
  assert (A : forall t, f_wavelet pywt (Some data) p = Ok t -> snd (m_wavelet_analysis pywt s p) = Ok (Some t)).
  { intros t Ht. destruct (must_compute s p) eqn:M.
    - rewrite (wavelet_compute pywt s p data D M), Ht. reflexivity.
    - rewrite wavelet_skip by trivial. cbn [snd]. f_equal. unfold must_compute in M.
      destruct (s_wt_param s) as [[o|o]|] eqn:O; try discriminate. apply negb_false_iff in M.
      destruct I as (_ & _ & _ & _ & _ & _ & F). apply (F o t O). now rewrite (f_wavelet_eqb pywt _ o p M). }
  split; [exact A|]. split.
  - intros N.
    assert (U : must_compute s p = true).
    { clear A I. unfold s. apply (run_preserves pywt num (fun s => must_compute s p = true)); [|reflexivity].
      intros o Ho. apply (step_preserves pywt num (fun s => must_compute s p = true) o); try (intros s' v H; exact H).
      - intros _ s' v H. unfold estimate_wavelet_psd. destruct (match s_wt_psd s' with None => true | Some _ => _ end); [|exact H].
        destruct (f_wavelet_psd _ _ _ _); reflexivity.
      - intros s' v Hv H. unfold estimate_welch_psd. destruct (match s_welch_psd s' with None => true | Some _ => _ end); [|exact H].
        destruct (f_welch _ _ _ _); exact H.
      - intros s' v Hv H. assert (NV : wp_eqb v p = false).
        { destruct (wp_eqb v p) eqn:E; [|reflexivity]. exfalso. apply wp_eqb_same in E. apply (N v); [|exact E]. apply in_flat_map. eauto. }
        destruct (must_compute s' v) eqn:M.
        + unfold m_wavelet_analysis. unfold must_compute in M. rewrite M. destruct (f_wavelet _ _ _); (change (negb (wp_eqb v p) = true); now rewrite NV).
        + rewrite wavelet_skip by trivial. exact H. }
    rewrite (wavelet_compute pywt s p data D U). destruct (f_wavelet pywt (Some data) p); reflexivity.
  - intros t Ht lib q Hq. specialize (A t Ht). apply wp_eqb_same in Hq.
    set (s' := fst (m_wavelet_analysis pywt s p)).
    assert (K : must_compute s' q = false /\ s_wt_transform s' = Some t).
    { unfold s'. destruct (must_compute s p) eqn:M.
      - rewrite (wavelet_compute pywt s p data D M), Ht. split; [|reflexivity]. change (negb (wp_eqb p q) = false). now rewrite Hq.
      - rewrite wavelet_skip in * by trivial. cbn [fst snd] in *. split; [|congruence].
        unfold must_compute in *. destruct (s_wt_param s) as [[o|o]|]; try discriminate. apply negb_false_iff in M. apply negb_false_iff.
        apply wp_eqb_same. apply wp_eqb_same in M, Hq. destruct M as (?&?&?&?&?&?&M), Hq as (?&?&?&?&?&?&Hq).
        repeat split; try congruence. unfold same_p in *. destruct (wp_p o), (wp_p p), (wp_p q); congruence. }
    rewrite wavelet_skip by apply K. now rewrite (proj2 K).
Qed.
Print Assumptions C48_wavelet_cache_partial.

(** REFUTED in general: a call that raised, repeated, returns the stored transform (of other parameters, or None)
    without an exception *)
Theorem C48_stale_refuted : forall pywt num data fs log (h : list op) p e,
  f_wavelet pywt (Some data) p = Err e ->
  (* first use of p after an analysis with p1 *)
  (forall p1 t1, f_wavelet pywt (Some data) p1 = Ok t1 ->
   let s := run pywt num (fresh data fs log) (h ++ [OWavelet p1; OWavelet p]) in
   snd (m_wavelet_analysis pywt s p) = Ok (Some t1)) /\
  (* on a fresh object *)
  snd (m_wavelet_analysis pywt (run pywt num (fresh data fs log) [OWavelet p]) p) = Ok None.
Proof.
  intros pywt num data fs log h p e He. split.
  - intros p1 t1 H1. cbv zeta.
    change [OWavelet p1; OWavelet p] with ([OWavelet p1] ++ [OWavelet p]). rewrite app_assoc, run_app.
    assert (I := inv_run pywt num data fs log (h ++ [OWavelet p1])). rewrite (run_app _ _ _ h [_]) in *.
    assert (I0 := inv_run pywt num data fs log h).
    destruct (C48_wavelet_cache_partial pywt num data fs log h p1) as (A & _). cbv zeta in A. specialize (A t1 H1).
    set (s0 := run pywt num (fresh data fs log) h) in *. cbn [run fold_left step] in *.
    set (s1 := fst (m_wavelet_analysis pywt s0 p1)) in *.
    assert (T : s_wt_transform s1 = Some t1).
    { unfold s1. destruct (must_compute s0 p1) eqn:M.
      - rewrite (wavelet_compute pywt s0 p1 data (proj1 I0) M), H1. reflexivity.
      - rewrite wavelet_skip in * by trivial. cbn in *. congruence. }
    assert (M : must_compute s1 p = true).
    { destruct (must_compute s1 p) eqn:M; [reflexivity|]. exfalso. assert (M' := compute_after pywt s0 p1). fold s1 in M'.
      unfold must_compute in *. destruct (s_wt_param s1) as [[o|o]|]; try discriminate. apply negb_false_iff in M, M'.
      apply (f_wavelet_eqb pywt (Some data)) in M, M'. congruence. }
    assert (C := compute_after pywt s1 p). rewrite wavelet_skip by exact C. cbn [snd].
    rewrite (wavelet_compute pywt s1 p data (proj1 I) M), He. cbn. now rewrite T.
  - cbn [run fold_left step]. assert (C := compute_after pywt (fresh data fs log) p). rewrite wavelet_skip by exact C.
    rewrite (wavelet_compute pywt (fresh data fs log) p data eq_refl eq_refl), He. reflexivity.
Qed.
Print Assumptions C48_stale_refuted.

(** ** C49 *)
Lemma psd_keeps s v pywt : s_wt_transform (fst (estimate_wavelet_psd pywt s v)) = s_wt_transform s.
Proof.
  unfold estimate_wavelet_psd. destruct (match s_wt_psd s with None => true | Some _ => _ end); [|reflexivity].
  destruct (f_wavelet_psd _ _ _ _); reflexivity.
Qed.
Lemma welch_keeps s v num : s_wt_transform (fst (estimate_welch_psd num s v)) = s_wt_transform s /\
  s_wt_param (fst (estimate_welch_psd num s v)) = s_wt_param s.
Proof.
  unfold estimate_welch_psd. destruct (match s_welch_psd s with None => true | Some _ => _ end); [|split; reflexivity].
  destruct (f_welch _ _ _ _); split; reflexivity.
Qed.

Theorem C49_last_analysis_partial : forall pywt num data fs log (h1 h2 : list op) p t,
  f_wavelet pywt (Some data) p = Ok t ->
  (forall o, In o h2 -> wavelet_used o = [] /\ asks_psd o = false) ->
  let s := run pywt num (fresh data fs log) (h1 ++ OWavelet p :: h2) in
  snd (m_hmin s) = estimate_hmin (wt_coefs t) (wp_j1 p) (j2_eff t) (wp_weighted p) true /\
  snd (m_hurst s) = compute_hurst (wt_coefs t) (wp_j1 p) (j2_eff t) (wp_weighted p).
Proof.
  intros pywt num data fs log h1 h2 p t Ht Hh. cbv zeta. change (OWavelet p :: h2) with ([OWavelet p] ++ h2). rewrite app_assoc, run_app.
  set (P := fun s => s_wt_transform s = Some t /\ exists o, s_wt_param s = Some (PWav o) /\ wp_j1 o = wp_j1 p /\ wp_weighted o = wp_weighted p).
  assert (K : P (run pywt num (run pywt num (fresh data fs log) (h1 ++ [OWavelet p])) h2)).
  { apply (run_preserves pywt num P).
    - intros o Ho. destruct (Hh o Ho) as [W A]. apply step_preserves; try (intros s' v H; exact H).
      + rewrite A. discriminate.
      + intros s' v _ H. destruct (welch_keeps s' v num) as [E1 E2]. unfold P. now rewrite E1, E2.
      + rewrite W. intros s' v [].
    - rewrite run_app. cbn [run fold_left step].
      destruct (C48_wavelet_cache_partial pywt num data fs log h1 p) as (A & _). cbv zeta in A. specialize (A t Ht).
      assert (I0 := inv_run pywt num data fs log h1).
      change (fold_left (step pywt num) h1 (fresh data fs log)) with (run pywt num (fresh data fs log) h1).
      set (s0 := run pywt num (fresh data fs log) h1) in *. destruct (must_compute s0 p) eqn:M.
      + rewrite (wavelet_compute pywt s0 p data (proj1 I0) M), Ht. split; [reflexivity|]. exists p. auto.
      + rewrite wavelet_skip in * by trivial. cbn in *. split; [congruence|].
        unfold must_compute in M. destruct (s_wt_param s0) as [[o|o]|]; try discriminate. apply negb_false_iff, wp_eqb_same in M.
        exists o. destruct M as (? & _ & _ & _ & ? & _). auto. }
  destruct K as (K1 & o & K2 & K3 & K4). unfold m_hmin, m_hurst. rewrite K1, K2, K3, K4. auto.
Qed.
Print Assumptions C49_last_analysis_partial.

(** REFUTED in general: any call asking for the wavelet PSD (also plotting and fractal_analysis) makes hmin, hurst and
    mf_analysis fail until the next wavelet analysis; a failed analysis mixes its own j1 and weighted with the old transform *)
Theorem C49_overwritten_refuted : forall pywt num data fs log,
  (forall h1 o h2, asks_psd o = true -> (forall o', In o' h2 -> wavelet_used o' = []) ->
   let s := run pywt num (fresh data fs log) (h1 ++ o :: h2) in
   snd (m_hmin s) = Err AttributeError /\ snd (m_hurst s) = Err AttributeError /\
   forall q n save, snd (m_mf_analysis s q n save) = Err AttributeError) /\
  (forall h p1 t1 p2 e, f_wavelet pywt (Some data) p1 = Ok t1 -> f_wavelet pywt (Some data) p2 = Err e ->
   let s := run pywt num (fresh data fs log) (h ++ [OWavelet p1; OWavelet p2]) in
   snd (m_hmin s) = estimate_hmin (wt_coefs t1) (wp_j1 p2) (j2_eff t1) (wp_weighted p2) true).
Proof.
  intros pywt num data fs log. split.
  - intros h1 o h2 Ho Hh. cbv zeta. change (o :: h2) with ([o] ++ h2). rewrite app_assoc, run_app.
    set (P := fun s => s_multi_fractal s = None /\ exists v, s_wt_param s = Some (PPsd v)).
    assert (PW : forall s v, P s -> P (fst (estimate_welch_psd num s v))).
    { intros s v [M [x H]]. destruct (welch_keeps s v num) as [_ E]. split; [|exists x; congruence].
      unfold estimate_welch_psd. destruct (match s_welch_psd s with None => true | Some _ => _ end); [|exact M].
      destruct (f_welch _ _ _ _); exact M. }
    assert (PP : forall s v, P s -> P (fst (estimate_wavelet_psd pywt s v))).
    { intros s v [M [x H]]. unfold estimate_wavelet_psd. destruct (match s_wt_psd s with None => true | Some _ => _ end); [|split; eauto].
      destruct (f_wavelet_psd _ _ _ _); (split; [exact M|exists v; reflexivity]). }
    assert (P0 : forall s v, inv pywt num data fs log s -> P (fst (estimate_wavelet_psd pywt s v))).
    { intros s v (_ & _ & _ & D & M & _). unfold estimate_wavelet_psd. rewrite D.
      replace (match s_wt_psd s with None => true | Some _ => true end) with true by (destruct (s_wt_psd s); reflexivity).
      destruct (f_wavelet_psd _ _ _ _); (split; [exact M|exists v; reflexivity]). }
    assert (PF : forall s n b, inv pywt num data fs log s \/ P s -> P (fst (m_fractal_analysis pywt s n b))).
    { intros s n b Hs. unfold m_fractal_analysis. set (s1 := set_fractal_param s _).
      assert (K : P (fst (estimate_wavelet_psd pywt s1 (mkPP n None)))) by (destruct Hs as [Hs|Hs]; [apply P0|apply PP]; exact Hs).
      destruct (estimate_wavelet_psd pywt s1 (mkPP n None)) as [s2 [r|e]]; [|exact K]. cbn [bindS fst] in *.
      destruct (s_wt_psd s2); [|exact K]. destruct (estimate_beta _ _ _ _); exact K. }
    assert (K : P (run pywt num (run pywt num (fresh data fs log) (h1 ++ [o])) h2)).
    { apply (run_preserves pywt num P).
      - intros o' Ho'. apply step_preserves; try (intros s' v H; exact H).
        + intros _. exact PP.
        + intros s' v _. apply PW.
        + rewrite (Hh o' Ho'). intros s' v [].
      - rewrite run_app. assert (I := inv_run pywt num data fs log h1). cbn [run fold_left].
        change (fold_left (step pywt num) h1 (fresh data fs log)) with (run pywt num (fresh data fs log) h1).
        set (s := run pywt num (fresh data fs log) h1) in *.
        destruct o; try discriminate Ho; cbn [step].
        + now apply P0.
        + unfold m_plot_psd. assert (K := P0 s p I). destruct (estimate_wavelet_psd pywt s p) as [s1 [r|e]]; [|exact K].
          cbn [bindS fst] in *. assert (K' := PW s1 w K). destruct (estimate_welch_psd num s1 w) as [s2 [r'|e]]; exact K'.
        + unfold m_plot_fractal. assert (K := P0 s (mkPP n None) I).
          destruct (estimate_wavelet_psd pywt s (mkPP n None)) as [s1 [r|e]]; [|exact K].
          cbn [bindS fst] in *. assert (K' := PW s1 w K).
          destruct (estimate_welch_psd num s1 w) as [s2 [r'|e]]; [|exact K']. cbn [bindS fst] in *.
          assert (K2 := PF s2 n band (or_intror K')). destruct (m_fractal_analysis pywt s2 n band) as [s3 [r2|e]]; [|exact K2].
          cbn [bindS fst] in *. destruct (s_fractal s3); exact K2.
        + apply PF. now left. }
    destruct K as (M & v & V). unfold m_hmin, m_hurst, m_mf_analysis. rewrite V, M.
    destruct (s_wt_transform _); auto.
  - intros h p1 t1 p2 e H1 H2. cbv zeta.
    change [OWavelet p1; OWavelet p2] with ([OWavelet p1] ++ [OWavelet p2]). rewrite app_assoc, run_app.
    assert (I := inv_run pywt num data fs log (h ++ [OWavelet p1])). rewrite (run_app _ _ _ h [_]) in *.
    assert (I0 := inv_run pywt num data fs log h).
    destruct (C48_wavelet_cache_partial pywt num data fs log h p1) as (A & _). cbv zeta in A. specialize (A t1 H1).
    set (s0 := run pywt num (fresh data fs log) h) in *. cbn [run fold_left step] in *.
    set (s1 := fst (m_wavelet_analysis pywt s0 p1)) in *.
    assert (T : s_wt_transform s1 = Some t1).
    { unfold s1. destruct (must_compute s0 p1) eqn:M.
      - rewrite (wavelet_compute pywt s0 p1 data (proj1 I0) M), H1. reflexivity.
      - rewrite wavelet_skip in * by trivial. cbn in *. congruence. }
    assert (M : must_compute s1 p2 = true).
    { destruct (must_compute s1 p2) eqn:M; [reflexivity|]. exfalso. assert (M' := compute_after pywt s0 p1). fold s1 in M'.
      unfold must_compute in *. destruct (s_wt_param s1) as [[o|o]|]; try discriminate. apply negb_false_iff in M, M'.
      apply (f_wavelet_eqb pywt (Some data)) in M, M'. congruence. }
    rewrite (wavelet_compute pywt s1 p2 data (proj1 I) M), H2. unfold m_hmin. cbn. now rewrite T.
Qed.
Print Assumptions C49_overwritten_refuted.

(** a library that knows one wavelet; every non-empty signal has an analysis that succeeds and one that raises *)
Definition only_haar (name : string) : option wavelet := if String.eqb name "haar" then Some haar else None.
Definition usual (name : string) : wavelet_param := mkWP 1 None 1 0 true name PInfty.
Example C48_case (x : R) (l : list R) :
  (exists t, f_wavelet only_haar (Some (fin (x :: l))) (usual "haar") = Ok t) /\
  f_wavelet only_haar (Some (fin (x :: l))) (usual "no such wavelet") = Err ValueError.
Proof.
  split; [|reflexivity]. unfold f_wavelet. cbn [wp_name usual only_haar String.eqb wp_p wp_j1 wp_j2 wp_gamint wp_norm wp_weighted].
  change (only_haar "haar") with (Some haar). cbn iota.
  destruct (C14_returns [x :: l] (S (length l)) haar PInfty 1 None 0 1 true) as (t & ws & E); try discriminate; auto.
  - lia.
  - exact good_haar.
  - change [fin (x :: l)] with (map fin [x :: l]). rewrite E. cbn. eauto.
Qed.

(** ** C50 *)
(** REFUTED: [Signal.mf_analysis] (hence [mf_analysis_full]) raises in every state; right after a successful
    wavelet analysis it is a TypeError *)
Theorem C50_mf_analysis_refuted : forall pywt num,
  (forall s q n save, exists e, snd (m_mf_analysis s q n save) = Err e) /\
  (forall s p q n save, exists e, snd (m_mf_analysis_full pywt s p q n save) = Err e) /\
  (forall data fs log h p t, f_wavelet pywt (Some data) p = Ok t ->
   let s := run pywt num (fresh data fs log) h in
   (forall q n save, snd (m_mf_analysis (step pywt num s (OWavelet p)) q n save) = Err TypeError) /\
   (forall q n save, snd (m_mf_analysis_full pywt s p q n save) = Err TypeError)).
Proof.
  intros pywt num.
  assert (A : forall s q n save, exists e, snd (m_mf_analysis s q n save) = Err e).
  { intros s q n save. unfold m_mf_analysis. destruct (s_wt_transform s); [|eexists; reflexivity].
    destruct (s_wt_param s); [|eexists; reflexivity].
    destruct (match s_multi_fractal s with None => Ok true | Some _ => _ end) as [[|]|e]; try (eexists; reflexivity).
    destruct a; [|eexists; reflexivity]. rewrite known_false. eexists; reflexivity. }
  split; [exact A|]. split.
  - intros s p q n save. unfold m_mf_analysis_full. destruct (m_wavelet_analysis pywt s p) as [s1 [r|e]]; cbn [bindS]; [apply A|eexists; reflexivity].
  - intros data fs log h p t Ht. cbv zeta.
    destruct (C48_wavelet_cache_partial pywt num data fs log h p) as (B & _). cbv zeta in B. specialize (B t Ht).
    assert (I := inv_run pywt num data fs log h). set (s := run _ _ _ h) in *.
    assert (I1 := inv_wavelet pywt num data fs log s p I).
    assert (C := compute_after pywt s p).
    assert (K : exists o, s_wt_transform (fst (m_wavelet_analysis pywt s p)) = Some t /\ s_wt_param (fst (m_wavelet_analysis pywt s p)) = Some (PWav o)).
    { unfold must_compute in C. destruct (s_wt_param (fst (m_wavelet_analysis pywt s p))) as [[o|o]|] eqn:O; try discriminate.
      exists o. split; [|reflexivity]. destruct I1 as (_ & _ & _ & _ & _ & _ & F). apply (F o t O).
      apply negb_false_iff in C. now rewrite (f_wavelet_eqb pywt _ o p C). }
    destruct K as (o & K1 & K2). assert (M : s_multi_fractal (fst (m_wavelet_analysis pywt s p)) = None) by apply I1.
    assert (G : forall q n save, snd (m_mf_analysis (fst (m_wavelet_analysis pywt s p)) q n save) = Err TypeError).
    { intros q n save. unfold m_mf_analysis. rewrite K1, K2, M, known_false. reflexivity. }
    split; [exact G|]. intros q n save. unfold m_mf_analysis_full. destruct (m_wavelet_analysis pywt s p) as [s1 [r|e]]; [|discriminate B].
    cbn [bindS]. apply G.
Qed.
Print Assumptions C50_mf_analysis_refuted.

(** what the failing call leaves behind: on a signal that was analysed with wavelets the requested parameters are stored
    (with the list [2] as default orders of mf_analysis_full), no result is, and nothing else changes *)
Theorem C50_stored_parameters : forall pywt num data fs log h p t, f_wavelet pywt (Some data) p = Ok t ->
  let s := step pywt num (run pywt num (fresh data fs log) h) (OWavelet p) in
  (forall q n save, fst (m_mf_analysis s q n save) = set_mf_param s (Some (mkMP q n))) /\
  (forall q n save, fst (m_mf_analysis_full pywt (run pywt num (fresh data fs log) h) p q n save)
     = set_mf_param s (Some (mkMP (match q with None => QList [PyInt 2] | Some q => q end) n))) /\
  s_multi_fractal s = None.
Proof.
  intros pywt num data fs log h p t Ht. cbv zeta.
  destruct (C48_wavelet_cache_partial pywt num data fs log h p) as (B & _). cbv zeta in B. specialize (B t Ht).
  assert (I := inv_run pywt num data fs log h). set (s := run _ _ _ h) in *.
  assert (I1 := inv_wavelet pywt num data fs log s p I).
  assert (C := compute_after pywt s p).
  assert (K : exists o, s_wt_transform (fst (m_wavelet_analysis pywt s p)) = Some t /\ s_wt_param (fst (m_wavelet_analysis pywt s p)) = Some (PWav o)).
  { unfold must_compute in C. destruct (s_wt_param (fst (m_wavelet_analysis pywt s p))) as [[o|o]|] eqn:O; try discriminate.
    exists o. split; [|reflexivity]. destruct I1 as (_ & _ & _ & _ & _ & _ & F). apply (F o t O).
    apply negb_false_iff in C. now rewrite (f_wavelet_eqb pywt _ o p C). }
  destruct K as (o & K1 & K2). assert (M : s_multi_fractal (fst (m_wavelet_analysis pywt s p)) = None) by apply I1.
  assert (G : forall q n save, fst (m_mf_analysis (fst (m_wavelet_analysis pywt s p)) q n save)
            = set_mf_param (fst (m_wavelet_analysis pywt s p)) (Some (mkMP q n))).
  { intros q n save. unfold m_mf_analysis. rewrite K1, K2, M, known_false. reflexivity. }
  split; [exact G|]. split; [|exact M]. intros q n save. unfold m_mf_analysis_full.
  change (step pywt num s (OWavelet p)) with (fst (m_wavelet_analysis pywt s p)).
  destruct (m_wavelet_analysis pywt s p) as [s1 [r|e]]; [|discriminate B]. cbn [bindS fst] in *. apply G.
Qed.
Print Assumptions C50_stored_parameters.

(** ** C51 *)
Theorem C51_fractal_coherent : forall pywt num data fs log (h : list op) n band,
  snd (m_fractal_analysis pywt (run pywt num (fresh data fs log) h) n band)
  = returned (fractal_analysis (db pywt) [data] fs n band log).
Proof.
  intros pywt num data fs log h n band. assert (I := inv_run pywt num data fs log h). set (s := run _ _ _ h) in *.
  unfold m_fractal_analysis, fractal_analysis. set (s1 := set_fractal_param s _).
  assert (I1 : inv pywt num data fs log s1) by exact I.
  assert (O := wavelet_psd_outcome pywt num data fs log s1 (mkPP n None) I1).
  assert (I2 := inv_wavelet_psd pywt num data fs log s1 (mkPP n None) I1). cbn [pp_moments pp_j2] in O.
  assert (V : forall r, snd (estimate_wavelet_psd pywt s1 (mkPP n None)) = Ok (Some r) -> s_wt_psd (fst (estimate_wavelet_psd pywt s1 (mkPP n None))) = Some r).
  { intros r. unfold estimate_wavelet_psd. destruct (match s_wt_psd s1 with None => true | Some _ => _ end).
    - destruct (f_wavelet_psd _ _ _ _); cbn; congruence.
    - cbn. congruence. }
  destruct (estimate_wavelet_psd pywt s1 (mkPP n None)) as [s2 r]. cbn [fst snd] in *. subst r.
  destruct (wavelet_estimation (db pywt) [data] fs n None) as [P|e]; [|reflexivity]. cbn [returned bindS bind] in *.
  rewrite (V P eq_refl). destruct I2 as (_ & _ & L & _). rewrite L.
  destruct (estimate_beta (psd_freq P) (psd_psd P) band log); reflexivity.
Qed.
Print Assumptions C51_fractal_coherent.

(** as long as no wavelet analysis has succeeded, the guarded calls raise AttributeError and leave the object as it was *)
Theorem C51_guarded : forall pywt num data fs log (h : list op),
  (forall p, In p (flat_map wavelet_used h) -> exists e, f_wavelet pywt (Some data) p = Err e) ->
  let s := run pywt num (fresh data fs log) h in
  m_hurst s = (s, Err AttributeError) /\ m_hmin s = (s, Err AttributeError) /\
  forall q n save, m_mf_analysis s q n save = (s, Err AttributeError).
Proof.
  intros pywt num data fs log h Hh. cbv zeta.
  set (P := fun s => s_data s = Some data /\ s_wt_transform s = None).
  assert (K : P (run pywt num (fresh data fs log) h)).
  { apply (run_preserves pywt num P); [|split; reflexivity].
    intros o Ho. apply step_preserves; try (intros s' v H; exact H).
    - intros _ s' v [D T]. split; [|now rewrite psd_keeps]. unfold estimate_wavelet_psd.
      destruct (match s_wt_psd s' with None => true | Some _ => _ end); [|exact D]. destruct (f_wavelet_psd _ _ _ _); exact D.
    - intros s' v _ [D T]. split; [|rewrite (proj1 (welch_keeps s' v num)); exact T]. unfold estimate_welch_psd.
      destruct (match s_welch_psd s' with None => true | Some _ => _ end); [|exact D]. destruct (f_welch _ _ _ _); exact D.
    - intros s' v Hv [D T]. destruct (Hh v) as [e E]; [apply in_flat_map; eauto|].
      destruct (must_compute s' v) eqn:M.
      + rewrite (wavelet_compute pywt s' v data D M), E. split; [exact D|exact T].
      + rewrite wavelet_skip by trivial. split; [exact D|exact T]. }
  destruct K as [_ T]. unfold m_hurst, m_hmin, m_mf_analysis. rewrite T. auto.
Qed.
Print Assumptions C51_guarded.

(** ** C67 *)
Lemma estimation_2d dbf data fs n j2 P : wavelet_estimation dbf data fs n j2 = Ok P ->
  (exists k rows, psd_psd P = PSD2 k rows) \/ psd_freq P = [].
Proof.
  unfold wavelet_estimation. destruct (dbf n); [|discriminate]. destruct (wavelet_analysis _ _ _ _ _ _ _ _) as [[t ws]|e]; [|discriminate].
  cbn [bind]. destruct (map mean_square _) as [|r rows]; intros E; injection E as <-; cbn; [right|left]; eauto.
Qed.
Lemma beta_not_scalar freq k rows band log f : estimate_beta freq (PSD2 k rows) band log = Ok f -> fr_scalar f = false.
Proof.
  unfold estimate_beta. destruct (negb _); [discriminate|]. destruct (log_psd _ _ _) as [[lf lp]|e] eqn:L; [|discriminate]. cbn [bind].
  destruct (regressor_fit lf lp) as [fits|e] eqn:R; [|discriminate]. cbn [bind]. destruct fits; [discriminate|].
  intros E. injection E as <-. cbn [fr_scalar]. destruct lf; [|discriminate R].
  unfold log_psd in L. cbn [select_psd] in L. destruct (existsb _ _).
  - destruct (Nat.eqb k 1); [|discriminate]. destruct (log_function log); [|discriminate]. injection L. intros _ L'. discriminate L'.
  - destruct (log_function log); [|discriminate]. cbn [map_psd] in L. injection L as _ <-. reflexivity.
Qed.
Lemma beta_empty p band log : exists e, estimate_beta [] p band log = Err e.
Proof.
  unfold estimate_beta. cbn [map]. destruct (negb _); [eexists; reflexivity|]. cbn [select].
  unfold log_psd. cbn [existsb]. destruct (log_function log); [|eexists; reflexivity]. cbn [bind map]. eexists. reflexivity.
Qed.
Lemma no_scalar_slope dbf data fs n j2 P band log f : wavelet_estimation dbf data fs n j2 = Ok P ->
  estimate_beta (psd_freq P) (psd_psd P) band log = Ok f -> fr_scalar f = false.
Proof.
  intros HP HB. destruct (estimation_2d _ _ _ _ _ _ HP) as [(k & rows & E)|E]; rewrite E in HB.
  - now apply (beta_not_scalar _ _ _ _ _ _ HB).
  - destruct (beta_empty (psd_psd P) band log) as [e X]. congruence.
Qed.
(** REFUTED: neither plot_fractal draws anything.  When the slope exists the exception is a TypeError *)
Theorem C67_plot_fractal_refuted : forall pywt num,
  (forall data fs log band n n_fft seg,
     (exists e, plot_fractal num (db pywt) data fs log band n n_fft seg = Err e) /\
     forall w f, welch_estimation num data fs n_fft seg = Ok w -> fractal_analysis (db pywt) [data] fs n band log = Ok f ->
       plot_fractal num (db pywt) data fs log band n n_fft seg = Err TypeError) /\
  (forall data fs log h n band w, exists e, snd (m_plot_fractal pywt num (run pywt num (fresh data fs log) h) n band w) = Err e).
Proof.
  intros pywt num. split.
  - intros data fs log band n n_fft seg. unfold plot_fractal, fractal_analysis.
    destruct (welch_estimation num data fs n_fft seg) as [W|e]; cbn [bind]; [|split; [eexists; reflexivity|discriminate]].
    destruct (wavelet_estimation (db pywt) [data] fs n None) as [P|e] eqn:HP; cbn [bind]; [|split; [eexists; reflexivity|discriminate]].
    destruct (estimate_beta (psd_freq P) (psd_psd P) band log) as [f|e] eqn:HB; cbn [bind]; [|split; [eexists; reflexivity|discriminate]].
    unfold format_2f. rewrite (no_scalar_slope _ _ _ _ _ _ _ _ _ HP HB). split; [eexists; reflexivity|reflexivity].
  - intros data fs log h n band w. unfold m_plot_fractal.
    assert (I := inv_run pywt num data fs log h). set (s := run _ _ _ h) in *.
    assert (I1 := inv_wavelet_psd pywt num data fs log s (mkPP n None) I).
    destruct (estimate_wavelet_psd pywt s (mkPP n None)) as [s1 [r|e]]; cbn [bindS]; [|eexists; reflexivity].
    assert (I2 := inv_welch pywt num data fs log s1 w I1). destruct (estimate_welch_psd num s1 w) as [s2 [r'|e]]; cbn [bindS]; [|eexists; reflexivity].
    cbn [fst] in I2. unfold m_fractal_analysis. set (s3 := set_fractal_param s2 _).
    assert (I3 : inv pywt num data fs log s3) by exact I2.
    assert (O := wavelet_psd_outcome pywt num data fs log s3 (mkPP n None) I3). cbn [pp_moments pp_j2] in O.
    assert (V : forall r, snd (estimate_wavelet_psd pywt s3 (mkPP n None)) = Ok (Some r) -> s_wt_psd (fst (estimate_wavelet_psd pywt s3 (mkPP n None))) = Some r).
    { intros r0. unfold estimate_wavelet_psd. destruct (match s_wt_psd s3 with None => true | Some _ => _ end).
      - destruct (f_wavelet_psd _ _ _ _); cbn; congruence.
      - cbn. congruence. }
    destruct (estimate_wavelet_psd pywt s3 (mkPP n None)) as [s4 r4]. cbn [fst snd] in *. subst r4.
    destruct (wavelet_estimation (db pywt) [data] fs n None) as [P|e] eqn:HP; [|eexists; reflexivity]. cbn [returned bindS] in *.
    rewrite (V P eq_refl). destruct (estimate_beta (psd_freq P) (psd_psd P) band (s_log s4)) as [f|e] eqn:HB; [|eexists; reflexivity].
    cbn [bindS s_fractal set_fractal]. unfold format_2f. rewrite (no_scalar_slope _ _ _ _ _ _ _ _ _ HP HB). eexists; reflexivity.
Qed.
Print Assumptions C67_plot_fractal_refuted.
