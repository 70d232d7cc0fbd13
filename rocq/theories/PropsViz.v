(** * C85-C87: MultifractalSpectrum.plot, plot_psd, plot_multiscale *)
From Coq Require Import Reals List ZArith Bool Lra Lia String Permutation.
From Verif Require Import XReal PyBase ModelUtils ModelMRQ ModelStructure ModelCumulants ModelSpectrum ModelEstimation ModelWavelet ModelPSD ModelPlot
  ModelSignal ModelViz Spec SpecMRQ LXReal LBase LEst LTransform LBivariate LSignal PropsSlope PropsSignal PropsMono PropsPlotBi.
Import ListNotations.
Open Scope R_scope.
Local Notation length := List.length.

(** ** C85 *)
(** the points of a curve *)
Definition pts (l : line) : list (xr * xr) := combine (ln_x l) (ln_y l).
(** a point is inside the limits of the axes *)
Definition visible (p : xr * xr) : Prop :=
  match p with
  | (Fin x, Fin y) => fst mfs_xlim <= x <= snd mfs_xlim /\ fst mfs_ylim <= y <= snd mfs_ylim
  | _ => False
  end.
Lemma combine_map2 {A B D} (f : A -> B) (g : D -> B) la lb d d' : length la = length lb ->
  combine (map f la) (map g lb) = map (fun i => (f (nth i la d), g (nth i lb d'))) (seq 0 (length la)).
Proof.
  revert lb. induction la as [|a la IH]; intros [|b lb] H; try discriminate; [reflexivity|]. cbn [map combine length seq nth]. injection H as H. rewrite IH by trivial.
  f_equal. rewrite <- seq_shift, map_map. reflexivity.
Qed.

(** select *)
Lemma select_map {X Y} (f : X -> Y) m l : select m (map f l) = map f (select m l).
Proof. revert l. induction m as [|b m IH]; intros [|x l]; try reflexivity; destruct b; cbn [map select]; try reflexivity; now rewrite IH. Qed.
Lemma select_snd {X} (t : R -> bool) f (l : list X) : length l = length f -> select (map t f) l = map snd (filter (fun p => t (fst p)) (combine f l)).
Proof.
  revert l. induction f as [|a f IH]; intros [|x l] H; try reflexivity; try discriminate. injection H as H. cbn [map select combine filter fst].
  destruct (t a); cbn [map snd]; now rewrite IH.
Qed.
Lemma select_fst {X} (t : R -> bool) f (l : list X) : length l = length f -> select (map t f) f = map fst (filter (fun p => t (fst p)) (combine f l)).
Proof.
  revert l. induction f as [|a f IH]; intros [|x l] H; try reflexivity; try discriminate. injection H as H. cbn [map select combine filter fst].
  destruct (t a); cbn [map fst]; now rewrite (IH l).
Qed.
Lemma select_same {X Y} m (l : list X) (l' : list Y) : length l = length l' -> length (select m l) = length (select m l').
Proof. revert l l'. induction m as [|b m IH]; intros [|x l] [|y l'] H; try reflexivity; try discriminate; destruct b; cbn [select length]; try reflexivity; injection H as H; auto. Qed.
Lemma psd_len_select m p : psd_len (select_psd m p) = length (select m (match p with PSD1 v => map (fun _ => tt) v | PSD2 _ r => map (fun _ => tt) r end)).
Proof. destruct p; cbn [select_psd psd_len]; rewrite select_map, map_length; reflexivity. Qed.
Lemma columns_select m p : psd_columns (select_psd m p) = map (select m) (psd_columns p).
Proof.
  destruct p as [v|n rows]; cbn [select_psd psd_columns]; [reflexivity|]. rewrite map_map. apply map_ext. intros r. now rewrite select_map.
Qed.
Lemma columns_map g p : g NaN = NaN -> psd_columns (map_psd g p) = map (map g) (psd_columns p).
Proof.
  intros G. destruct p as [v|n rows]; cbn [map_psd psd_columns]; [reflexivity|]. rewrite map_map. apply map_ext. intros r. rewrite !map_map. apply map_ext. intros row.
  rewrite <- G at 1. apply map_nth.
Qed.
Lemma columns_len p c : In c (psd_columns p) -> length c = psd_len p.
Proof. destruct p as [v|n rows]; cbn [psd_columns psd_len In]; [intros [->|[]]; reflexivity|]. intros H. apply in_map_iff in H as (r & <- & _). apply map_length. Qed.
Lemma log_function_ok lg : (lg = "log2"%string \/ lg = "log"%string) ->
  exists g, log_function lg = Some g /\ g NaN = NaN /\ g = (if String.eqb lg "log2" then xlog2 else xln).
Proof. intros [-> | ->]; cbn; eexists; split; reflexivity || (split; reflexivity). Qed.

Lemma filter_true {X} (t : X -> bool) l : forallb t l = true -> filter t l = l.
Proof. induction l as [|x l IH]; [reflexivity|]. cbn [forallb filter]. intros H. apply andb_true_iff in H as [-> H]. now rewrite IH. Qed.
Lemma existsb_zero f : existsb (fun f => if Req_EM_T f 0 then true else false) f = false -> forallb (fun f => if Req_EM_T f 0 then false else true) f = true.
Proof. induction f as [|a f IH]; [reflexivity|]. cbn [existsb forallb]. destruct (Req_EM_T a 0); [discriminate|]. exact IH. Qed.
Lemma select_true {X} (t : R -> bool) f (l : list X) : forallb t f = true -> length l = length f -> select (map t f) l = l.
Proof.
  revert l. induction f as [|a f IH]; intros [|x l] T H; try reflexivity; try discriminate. cbn [forallb] in T. apply andb_true_iff in T as [T1 T2]. cbn [map select]. rewrite T1. injection H as H. now rewrite IH.
Qed.
Definition below (lowpass : option R) (f : R) : bool := match lowpass with None => true | Some c => if Rlt_dec f c then true else false end.

(** one spectrum *)
Lemma one_spectrum {S} freq p lg lowpass (st : S) g : log_function lg = Some g -> g NaN = NaN -> psd_len p = length freq ->
  ('(freq, p) <- mask_psd (map (below lowpass) freq) freq p ;;
   '(x, y) <- log_psd_any freq p lg ;; Ok (map (fun c => (mkLine x c None, st)) (psd_columns y)))
  = Ok (map (fun c => (log_curve g lowpass (freq, c), st)) (psd_columns p)).
Proof.
  intros Hg Gn L. unfold mask_psd at 1. rewrite L, Nat.eqb_refl. cbn [bind].
  set (f1 := select (map (below lowpass) freq) freq). set (p1 := select_psd (map (below lowpass) freq) p).
  assert (L1 : psd_len p1 = length f1).
  { unfold p1, f1. rewrite psd_len_select. apply select_same. destruct p; rewrite map_length; exact L. }
  assert (Q : (if existsb (fun f => if Req_EM_T f 0 then true else false) f1
      then mask_psd (map (fun f => if Req_EM_T f 0 then false else true) f1) f1 p1 else Ok (f1, p1)) =
      Ok (select (map (fun f => if Req_EM_T f 0 then false else true) f1) f1, select_psd (map (fun f => if Req_EM_T f 0 then false else true) f1) p1)).
  { destruct (existsb _ f1) eqn:E; [unfold mask_psd; now rewrite L1, Nat.eqb_refl|]. apply existsb_zero in E. do 2 f_equal.
    - now rewrite select_true.
    - unfold select_psd. destruct p1; cbn [psd_len] in L1; now rewrite select_true. }
  unfold log_psd_any. rewrite Q. cbn [bind]. rewrite Hg. cbn [bind]. f_equal.
  rewrite columns_map by trivial. rewrite columns_select. unfold p1. rewrite columns_select. rewrite !map_map. apply map_ext_in. intros c Hc. f_equal.
  apply columns_len in Hc. rewrite L in Hc. unfold log_curve. cbn [fst snd].
  set (K := combine freq c). set (nz := fun f => if Req_EM_T f 0 then false else true).
  assert (F1 : f1 = map fst (filter (fun q => below lowpass (fst q)) K)) by (now apply select_fst).
  assert (C1 : select (map (below lowpass) freq) c = map snd (filter (fun q => below lowpass (fst q)) K)) by (now apply select_snd).
  rewrite C1, F1. set (K1 := filter _ K).
  assert (LK : length (map snd K1) = length (map fst K1)) by (now rewrite !map_length).
  rewrite (select_fst nz (map fst K1) (map snd K1) LK), (select_snd nz (map fst K1) (map snd K1) LK), combine_split_map. unfold K1. rewrite filter_filter.
  change (fun x : R * xr => nz (fst x) && below lowpass (fst x)) with (shown_point lowpass).
  rewrite !map_map. reflexivity.
Qed.
(** all the spectra: one curve per spectrum and realisation, in the style of its spectrum *)
Lemma log_plot_any_eq {S} psds (styles : list S) lg lowpass : (lg = "log2"%string \/ lg = "log"%string) ->
  Forall (fun fp => psd_len (snd fp) = length (fst fp)) psds ->
  log_plot_any psds styles lg lowpass =
    Ok (flat_map (fun q => map (fun c => (log_curve (if String.eqb lg "log2" then xlog2 else xln) lowpass (fst (fst q), c), snd q)) (psd_columns (snd (fst q)))) (combine psds styles)).
Proof.
  intros Hl F. destruct (log_function_ok lg Hl) as (g & Hg & Gn & ->). unfold log_plot_any.
  rewrite (mapM_map_ok _ (fun q => map (fun c => (log_curve (if String.eqb lg "log2" then xlog2 else xln) lowpass (fst (fst q), c), snd q)) (psd_columns (snd (fst q))))).
  - cbn [bind]. now rewrite flat_map_concat_map.
  - intros [[f p] st] I. cbn [fst snd]. apply one_spectrum; trivial. apply in_combine_l in I. rewrite Forall_forall in F. now apply F in I.
Qed.
Lemma log_plot_any_bad {S} psds (styles : list S) lg lowpass : log_function lg = None -> psds <> [] -> styles <> [] ->
  Forall (fun fp => psd_len (snd fp) = length (fst fp)) psds -> log_plot_any psds styles lg lowpass = Err KeyError.
Proof.
  intros Hl N N' F. destruct psds as [|[f p] psds]; [congruence|]. destruct styles as [|st styles]; [congruence|]. apply Forall_inv in F. cbn [fst snd] in F.
  unfold log_plot_any. cbn [combine mapM]. unfold mask_psd at 1. rewrite F, Nat.eqb_refl. cbn [bind]. unfold log_psd_any.
  set (f1 := select _ f). set (p1 := select_psd _ p).
  assert (L1 : psd_len p1 = length f1).
  { unfold p1, f1. rewrite psd_len_select. apply select_same. destruct p; rewrite map_length; exact F. }
  destruct (existsb _ f1); [unfold mask_psd; rewrite L1, Nat.eqb_refl|]; cbn [bind]; now rewrite Hl.
Qed.

Lemma Forall2_len {A B} (P : A -> B -> Prop) l l' : Forall2 P l l' -> length l = length l'.
Proof. induction 1; [reflexivity|]. cbn [length]. congruence. Qed.
Lemma MFS_len m j1 j2 wd q sp : MultifractalSpectrum m j1 j2 wd q = Ok sp -> length (ms_hq sp) = length (q_items q) /\ length (ms_Dq sp) = length (q_items q).
Proof.
  unfold MultifractalSpectrum. intros E. destruct (mq_nrep m) as [nrep|]; [|discriminate]. cbn [bind] in E.
  destruct (mapM (cols_nj m) _) as [CN|]; [|discriminate]. cbn [bind] in E. destruct (reg_weights _ _ _ _ _) as [W|]; [|discriminate]. cbn [bind] in E.
  destruct (mapM _ _) as [fu|] eqn:FU in E; [|discriminate]. cbn [bind] in E. destruct (mapM _ _) as [fv|] eqn:FV in E; [|discriminate]. cbn [bind] in E. injection E as <-.
  cbn [ms_hq ms_Dq]. apply mapM_Ok in FU, FV. apply Forall2_len in FU, FV. rewrite map_length in FU, FV. rewrite !map_length. now rewrite <- FU, <- FV.
Qed.
(** the plot shows, for every realisation, exactly the points (h(q), D(q)) in the order of the q *)
Theorem C85_spectrum_plot : forall m j1 j2 wd q sp, MultifractalSpectrum m j1 j2 wd q = Ok sp ->
  length (mfs_plot sp) = ms_nrep sp /\
  forall r, (r < ms_nrep sp)%nat ->
    pts (nth r (mfs_plot sp) (mkLine [] [] None)) = map (fun i => (at2 (ms_hq sp) i r, at2 (ms_Dq sp) i r)) (seq 0 (length (q_items q))).
Proof.
  intros m j1 j2 wd q sp E. destruct (MFS_len _ _ _ _ _ _ E) as [L1 L2]. unfold mfs_plot. split; [now rewrite map_length, seq_length|]. intros r Hr.
  match goal with |- pts (nth r (map ?h _) ?d) = _ => rewrite (nth_indep _ d (h 0%nat)) by (now rewrite map_length, seq_length); rewrite (map_nth h) end.
  rewrite seq_nth by trivial. unfold pts. cbn [ln_x ln_y]. rewrite (combine_map2 _ _ _ _ [] []) by congruence. rewrite L1. reflexivity.
Qed.
Print Assumptions C85_spectrum_plot.
(** REFUTED that the whole spectrum is shown: the axes are fixed.  The spectrum of monofractal data with exponent h is the point (h, 1) for every q,
    inside the axes exactly when 0 <= h <= 3/2 *)
Theorem C85_window_refuted : forall m g nrep qs j1 j2 wd sp, regular m g nrep -> counted m -> (1 <= j1)%Z -> (j1 < j2)%Z -> (j2 <= Z.of_nat g)%Z ->
  MultifractalSpectrum m j1 j2 wd (QArr qs) = Ok sp ->
  forall r c h, (r < nrep)%nat -> monofractal m j1 j2 r c h ->
    pts (nth r (mfs_plot sp) (mkLine [] [] None)) = repeat (Fin h, Fin 1) (length qs) /\
    (visible (Fin h, Fin 1) <-> 0 <= h <= 3 / 2) /\
    forall x y, visible (Fin x, Fin y) <-> (0 <= x <= 3 / 2 /\ 0 <= y <= 21 / 20).
Proof.
  intros m g nrep qs j1 j2 wd sp HR HC H1 H2 H3 Es r c h Hr HM. split.
  2:{ split; [|intros x y; unfold visible, mfs_xlim, mfs_ylim; cbn [fst snd]; lra].  unfold visible, mfs_xlim, mfs_ylim. cbn [fst snd]. lra. }
  assert (Nr : ms_nrep sp = nrep).
  { assert (E := MFS_eq m g nrep HR (QArr qs) j1 j2 wd H1 ltac:(lia) H3). rewrite Es in E. injection E as ->. reflexivity. }
  destruct (C85_spectrum_plot _ _ _ _ _ _ Es) as [_ P]. rewrite P by lia.
  assert (Hcnt := mono_count m j1 j2 r c h HM g nrep HR HC H1 H3).
  assert (FE : forall y a b, (forall j, (j1 <= j <= j2)%Z -> y j = Fin (a * IZR j + b)) -> fslope wd m j1 j2 r y = Fin a).
  { intros y a b Hy. destruct (fit_exact wd m j1 j2 r a b H2 Hcnt) as [F G]. rewrite <- F; now apply fslope_ext. }
  assert (Lq : length (q_items (QArr qs)) = length qs) by (cbn; apply map_length). rewrite Lq.
  transitivity (map (fun _ : nat => (Fin h, Fin 1)) (seq 0 (length qs))).
  - apply map_ext_in. intros i Hi. apply in_seq in Hi. assert (Hi' : (i < length (q_items (QArr qs)))%nat) by (rewrite Lq; lia).
    destruct (PropsSpectrum.MFS_rows m g nrep _ j1 j2 wd sp HR H1 ltac:(lia) H3 Es i r Hi' Hr) as (_ & D & V).
    cbn [q_items] in V, D. rewrite PropsEstimators.nth_PyFloat in V, D by lia. rewrite V, D. f_equal.
    + apply (FE _ _ (ln c / ln 2)). intros j Hj. exact (mono_Vval m j1 j2 r c h HM _ j Hj).
    + rewrite (FE _ 0 0). { cbn. f_equal. ring. } intros j Hj. apply (mono_Uval m j1 j2 r c h HM); trivial. eapply PropsEstimators.range_in; eassumption.
  - clear. generalize 0%nat. induction (length qs) as [|n IH]; intros k; [reflexivity|]. cbn [seq map repeat]. now rewrite IH.
Qed.
Print Assumptions C85_window_refuted.
(** data with exponent 2: nothing is shown *)
Definition steep : mrq := add_values (add_values (new_mrq WaveletCoef 0) [[Fin 4; Fin (-4)]] 1) [[Fin 16]] 2.
Example C85_case : forall wd, exists sp, MultifractalSpectrum steep 1 2 wd (QArr [-1; 0; 2]) = Ok sp /\
  regular steep 2 1 /\ counted steep /\ monofractal steep 1 2 0 1 2 /\
  pts (nth 0 (mfs_plot sp) (mkLine [] [] None)) = [(Fin 2, Fin 1); (Fin 2, Fin 1); (Fin 2, Fin 1)] /\ ~ visible (Fin 2, Fin 1).
Proof.
  intros wd.
  assert (HR : regular steep 2 1).
  { split; [lia|]. split; [reflexivity|]. split; [reflexivity|]. intros j a E. cbn in E. repeat (destruct (_ =? _)%Z in E; [injection E as <-; reflexivity|]). discriminate. }
  assert (HC : counted steep).
  { intros j a E. cbn in *. repeat (destruct (_ =? _)%Z; [injection E as <-; reflexivity|]). discriminate. }
  assert (HM : monofractal steep 1 2 0 1 2).
  { assert (P : forall n : nat, Rpower 2 (INR n) = 2 ^ n) by (intros; apply Rpower_pow; lra).
    split; [lra|]. intros j Hj. assert (J : j = 1%Z \/ j = 2%Z) by lia. split.
    - split; destruct J as [-> | ->]; cbn; try (repeat (constructor; [right; eexists; reflexivity|])); try discriminate; constructor.
    - intros a Ha. destruct J as [-> | ->]; cbn in Ha; rewrite Rmult_1_l.
      + replace (1 * 2) with (INR 2) by (cbn; lra). rewrite P. destruct Ha as [<-|[<-|[]]]; [rewrite Rabs_right|rewrite Rabs_left]; lra.
      + replace (2 * 2) with (INR 4) by (cbn; lra). rewrite P. destruct Ha as [<-|[]]. rewrite Rabs_right; lra. }
  eexists. split; [apply (MFS_eq steep 2 1 HR); lia|]. split; [exact HR|]. split; [exact HC|]. split; [exact HM|].
  edestruct (C85_window_refuted steep 2 1 [-1; 0; 2] 1 2 wd) as [A B]; [exact HR|exact HC|lia|lia|lia|apply (MFS_eq steep 2 1 HR); lia| |exact HM|]; [lia|].
  split; [exact A|]. intros V. apply B in V. lra.
Qed.

(** ** C86: plot_psd *)
(** the Fourier and the wavelet spectrum, each with all its non-zero frequencies; [log] must be known *)
Theorem C86_plot_psd :
  forall num db (x : list R) fs n_fft seg_size n_moments w lg,
  x <> [] -> (0 <= n_fft)%Z -> db n_moments = Some w -> good_wavelet w ->
  let seg := match seg_size with Some s => s | None => n_fft end in
  (1 <= seg)%Z -> (seg / 2 < Z.of_nat (length x))%Z ->
  (* scipy returns one value per frequency *)
  (forall a s, length (num (fin x) a s) = Z.to_nat (nfft a / 2 + 1)) ->
  exists P Q, welch_estimation num (fin x) fs n_fft seg_size = Ok P /\ wavelet_estimation db [fin x] fs n_moments None = Ok Q /\
  ((lg = "log2"%string \/ lg = "log"%string) -> let g := if String.eqb lg "log2" then xlog2 else xln in
   plot_psd num db (fin x) fs n_fft seg_size n_moments lg =
     Ok (map (fun c => (log_curve g None (psd_freq P, c), 0%nat)) (psd_columns (psd_psd P)) ++
         map (fun c => (log_curve g None (psd_freq Q, c), 1%nat)) (psd_columns (psd_psd Q))) /\
   length (psd_columns (psd_psd P)) = 1%nat /\ length (psd_columns (psd_psd Q)) = 1%nat) /\
  (lg <> "log2"%string -> lg <> "log"%string -> plot_psd num db (fin x) fs n_fft seg_size n_moments lg = Err KeyError).
Proof.
  intros num db x fs n_fft seg_size n w lg Nx Hn Hdb Hw seg Hs1 Hs2 Hnum.
  assert (Nf : fin x <> []) by (destruct x; [congruence|discriminate]).
  assert (Lf : length (fin x) = length x) by (unfold fin; apply map_length).
  destruct (C54_welch num (fin x) fs n_fft seg_size Nf Hn) as [X Y]. fold seg in X, Y. rewrite Lf in X. destruct (proj1 X (conj Hs1 Hs2)) as [P EP]. destruct (Y P EP) as (PP & _ & LP & _).
  destruct (C54_wavelet_returns db [x] (length x) fs n None) as [_ Z]; [discriminate|destruct x; [congruence|cbn [length]; lia]|constructor; trivial|intros w' E; congruence|].
  destruct (Z (ex_intro _ w Hdb)) as [Q EQ]. cbn [map] in EQ.
  exists P, Q. split; [exact EP|]. split; [exact EQ|].
  assert (LQ : psd_len (psd_psd Q) = length (psd_freq Q) /\ length (psd_columns (psd_psd Q)) = 1%nat).
  { clear - EQ. unfold wavelet_estimation in EQ. destruct (db n) as [v|]; [|discriminate]. destruct (wavelet_analysis _ _ _ _ _ _ _ _) as [[t ws]|]; [|discriminate]. cbn [bind] in EQ.
    injection EQ as <-. cbn [psd_freq psd_psd]. unfold wavelet_freq. rewrite map_length, seq_length. destruct (map mean_square _) eqn:E; cbn [psd_len psd_columns length map seq]; auto. }
  assert (LP' : psd_len (psd_psd P) = length (psd_freq P) /\ length (psd_columns (psd_psd P)) = 1%nat).
  { rewrite PP. cbn [psd_len psd_columns length]. split; [|reflexivity]. rewrite map_length, Hnum, LP. reflexivity. }
  assert (F : Forall (fun fp : list R * psd_array => psd_len (snd fp) = length (fst fp)) [(psd_freq P, psd_psd P); (psd_freq Q, psd_psd Q)]).
  { constructor; [apply LP'|]. constructor; [apply LQ|constructor]. }
  split.
  - intros Hl g. split; [|split; [apply LP'|apply LQ]]. unfold plot_psd. rewrite EP. cbn [bind]. match goal with |- context [wavelet_estimation ?a ?b ?c ?d ?e] => replace (wavelet_estimation a b c d e) with (@Ok psd Q) by (symmetry; exact EQ) end. cbn [bind]. rewrite log_plot_any_eq by trivial. cbn [combine flat_map fst snd]. now rewrite app_nil_r.
  - intros N1 N2. unfold plot_psd. rewrite EP. cbn [bind]. match goal with |- context [wavelet_estimation ?a ?b ?c ?d ?e] => replace (wavelet_estimation a b c d e) with (@Ok psd Q) by (symmetry; exact EQ) end. cbn [bind]. apply log_plot_any_bad; trivial; try discriminate. unfold log_function.
    destruct (String.eqb_spec lg "log2"); [congruence|]. destruct (String.eqb_spec lg "log"); [congruence|reflexivity].
Qed.
Print Assumptions C86_plot_psd.

(** Signal.plot_psd after any history of calls: the same figure as plot_psd whenever both estimations succeed; the object is left as by the two estimations *)
Theorem C86_signal_plot_psd : forall pywt num data fs lg (h : list op) n_fft seg n_moments j2 a b,
  welch_estimation num data fs n_fft seg = Ok a -> wavelet_estimation (db pywt) [data] fs n_moments j2 = Ok b ->
  let s := ModelSignal.run pywt num (fresh data fs lg) h in
  snd (signal_plot_psd pywt num s (mkWelchP n_fft seg) (mkPP n_moments j2)) =
    log_plot_any [(psd_freq a, psd_psd a); (psd_freq b, psd_psd b)] [0%nat; 1%nat] lg None /\
  fst (signal_plot_psd pywt num s (mkWelchP n_fft seg) (mkPP n_moments j2)) = step pywt num s (OPlotPsd (mkWelchP n_fft seg) (mkPP n_moments j2)) /\
  (j2 = None -> snd (signal_plot_psd pywt num s (mkWelchP n_fft seg) (mkPP n_moments j2)) = plot_psd num (db pywt) data fs n_fft seg n_moments lg).
Proof.
  intros pywt num data fs lg h n_fft seg n j2 a b Ea Eb s.
  set (W := mkWelchP n_fft seg). set (P := mkPP n j2).
  assert (O1 := C46_wavelet_psd_never_stale pywt num data fs lg h n j2). rewrite Eb in O1. cbn [returned] in O1. fold s in O1. fold P in O1.
  assert (O2 := C47_welch_psd_partial pywt num data fs lg (h ++ [OWaveletPsd P]) n_fft seg). cbv zeta in O2. rewrite PropsSignal.run_app in O2. fold s in O2. cbn [ModelSignal.run fold_left step] in O2.
  destruct O2 as [O2 _]. specialize (O2 a Ea). fold W in O2.
  assert (I1 := inv_run pywt num data fs lg (h ++ [OWaveletPsd P])). rewrite PropsSignal.run_app in I1. fold s in I1. cbn [ModelSignal.run fold_left step] in I1.
  assert (I2 := inv_welch pywt num data fs lg _ W I1).
  assert (V1 : s_wt_psd (fst (estimate_wavelet_psd pywt s P)) = Some b).
  { clear - O1. unfold estimate_wavelet_psd in *. destruct (match s_wt_psd s with None => true | Some _ => _ end).
    - destruct (f_wavelet_psd _ _ _ _); cbn in *; congruence.
    - cbn in *. congruence. }
  assert (K : signal_plot_psd pywt num s W P = (fst (estimate_welch_psd num (fst (estimate_wavelet_psd pywt s P)) W), log_plot_any [(psd_freq a, psd_psd a); (psd_freq b, psd_psd b)] [0%nat; 1%nat] lg None)
     /\ fst (m_plot_psd pywt num s W P) = fst (estimate_welch_psd num (fst (estimate_wavelet_psd pywt s P)) W)).
  { unfold signal_plot_psd, m_plot_psd. destruct (estimate_wavelet_psd pywt s P) as [s1 r1]. cbn [fst snd] in *. subst r1. cbn [bindS].
    assert (V2 : s_welch_psd (fst (estimate_welch_psd num s1 W)) = Some a /\ s_wt_psd (fst (estimate_welch_psd num s1 W)) = Some b).
    { clear - O2 V1. unfold estimate_welch_psd in *. destruct (match s_welch_psd s1 with None => true | Some _ => _ end).
      - destruct (f_welch _ _ _ _); cbn in *; split; congruence.
      - cbn in *. split; congruence. }
    destruct (estimate_welch_psd num s1 W) as [s2 r2]. cbn [fst snd] in *. subst r2. cbn [bindS]. destruct V2 as [-> ->]. destruct I2 as (_ & _ & -> & _). split; reflexivity. }
  destruct K as [K1 K2]. rewrite K1. cbn [fst snd step]. split; [reflexivity|]. split; [now rewrite K2|]. intros ->. unfold plot_psd. rewrite Ea. cbn [bind]. rewrite Eb. reflexivity.
Qed.
Print Assumptions C86_signal_plot_psd.
Example C86_case : forall x : list R, length x = 24%nat ->
  exists fig, plot_psd (fun _ a _ => repeat (Fin 1) (Z.to_nat (nfft a / 2 + 1))) (fun _ => Some PropsWavelet.haar) (fin x) 1 8 None 2 "log2" = Ok fig /\ length fig = 2%nat.
Proof.
  intros x Hx.
  destruct (C86_plot_psd (fun _ a _ => repeat (Fin 1) (Z.to_nat (nfft a / 2 + 1))) (fun _ => Some PropsWavelet.haar) x 1 8 None 2 PropsWavelet.haar "log2") as (P & Q & _ & _ & E & _).
  - intros ->. discriminate.
  - lia.
  - reflexivity.
  - exact PropsWavelet.good_haar.
  - lia.
  - rewrite Hx. cbn. lia.
  - intros a s. apply repeat_length.
  - destruct (E (or_introl eq_refl)) as (F & L1 & L2). eexists. split; [exact F|]. rewrite app_length, !map_length, L1, L2. reflexivity.
Qed.

(** ** C87: plot_multiscale *)
(** a frame with a value for every subject and every segment, indexed in order; the frequencies of a segment are the same for all subjects *)
Definition full_frame (subs G : list string) (grid : string -> list R) (v : string -> string -> list R) (slope : string -> string -> list R) : list msrow :=
  map (fun sg => mkRow (fst sg) (snd sg) (grid (snd sg)) (fin (v (fst sg) (snd sg))) (slope (fst sg) (snd sg))) (list_prod subs G).
(** the mean over the subjects, frequency by frequency *)
Definition subject_mean (subs : list string) (grid : string -> list R) (v : string -> string -> list R) (g : string) : list R :=
  map (fun i => mean (map (fun s => nth i (v s g) 0) subs)) (seq 0 (length (grid g))).
(** what has to be drawn: thin curves for the subjects, thick ones for the means *)
Definition expected_curves {S} (subs segs : list string) grid v (col cola : string -> S) : list (line * (S * nat)) :=
  flat_map (fun g => map (fun s => (log_curve xlog2 (Some 50) (grid g, fin (v s g)), (col g, 1%nat))) subs) segs ++
  map (fun g => (log_curve xlog2 (Some 50) (grid g, fin (subject_mean subs grid v g)), (cola g, 2%nat))) segs.

Section Two.
Variables (subs segs : list string).
Definition two {X} (f : string -> string -> X) (h : string -> X) : list X := flat_map (fun g => map (fun s => f s g) subs) segs ++ map h segs.
Lemma combine_app' {A B} (a a' : list A) (b b' : list B) : length a = length b -> combine (a ++ a') (b ++ b') = combine a b ++ combine a' b'.
Proof. revert b. induction a as [|x a IH]; intros [|y b] H; try discriminate; [reflexivity|]. cbn [app combine]. injection H as H. now rewrite IH. Qed.
Lemma combine_maps {A B D} (f : D -> A) (g : D -> B) l : combine (map f l) (map g l) = map (fun x => (f x, g x)) l.
Proof. induction l as [|x l IH]; [reflexivity|]. cbn [map combine]. now rewrite IH. Qed.
Lemma grid_len {X} (f : string -> string -> X) l : length (flat_map (fun g => map (fun s => f s g) subs) l) = (length l * length subs)%nat.
Proof. induction l as [|g l IH]; [reflexivity|]. cbn [flat_map length]. rewrite app_length, map_length, IH. lia. Qed.
Lemma two_combine {X Y} (f : string -> string -> X) h (f' : string -> string -> Y) h' :
  combine (two f h) (two f' h') = two (fun s g => (f s g, f' s g)) (fun g => (h g, h' g)).
Proof.
  unfold two. rewrite combine_app' by (now rewrite !grid_len). rewrite combine_maps. f_equal.
  induction segs as [|g l IH]; [reflexivity|]. cbn [flat_map]. rewrite combine_app' by (now rewrite !map_length). now rewrite combine_maps, IH.
Qed.
Lemma two_map {X Y} (k : X -> Y) f h : map k (two f h) = two (fun s g => k (f s g)) (fun g => k (h g)).
Proof.
  unfold two. rewrite map_app, map_map. f_equal. induction segs as [|g l IH]; [reflexivity|]. cbn [flat_map]. rewrite map_app, map_map. now rewrite IH.
Qed.
Lemma flat_single {X Y} (k : X -> Y) l : flat_map (fun x => [k x]) l = map k l.
Proof. induction l as [|x l IH]; [reflexivity|]. cbn [flat_map map app]. now rewrite IH. Qed.
End Two.
Lemma repeat_map {A} (c : A) (l : list string) : repeat c (length l) = map (fun _ => c) l.
Proof. induction l as [|x l IH]; [reflexivity|]. cbn [length repeat map]. now rewrite IH. Qed.
Lemma repeat_app_mul {A} (c : A) (l subs : list string) : repeat c (length l * length subs) = flat_map (fun _ => map (fun _ => c) subs) l.
Proof. induction l as [|x l IH]; [reflexivity|]. cbn [length flat_map Nat.mul]. rewrite repeat_app, repeat_map, IH. reflexivity. Qed.

Section Frame.
Variables (subs G : list string) (grid : string -> list R) (v : string -> string -> list R) (slope : string -> string -> list R).
Hypothesis HS : NoDup subs.
Hypothesis HG : NoDup G.
Hypothesis NS : subs <> [].
Let rows := full_frame subs G grid v slope.
Lemma uniq_same s G' l seen : existsb (String.eqb s) seen = true -> uniq seen (map (fun _ : string => s) G' ++ l) = uniq seen l.
Proof. intros H. induction G' as [|g G' IH]; [reflexivity|]. cbn [map app uniq]. now rewrite H. Qed.
Lemma uniq_perm seen l : NoDup l -> (forall x, In x l -> existsb (String.eqb x) seen = false) -> G <> [] ->
  uniq seen (map fst (list_prod l G)) = l.
Proof.
  intros N. revert seen. induction N as [|s l Hs N IH]; intros seen H NG; [reflexivity|].
  cbn [list_prod]. rewrite map_app, map_map. cbn [fst]. destruct G as [|g G'] eqn:EG; [congruence|]. cbn [map app uniq].
  rewrite (H s) by (now left). f_equal. rewrite uniq_same by (cbn [existsb]; now rewrite String.eqb_refl). apply IH; [|discriminate].
  intros x Hx. cbn [existsb]. rewrite (H x) by (now right). destruct (String.eqb_spec x s); [subst; contradiction|reflexivity].
Qed.
Lemma frame_subjects : G <> [] -> subjects rows = subs.
Proof.
  intros NG. unfold subjects, rows, full_frame. rewrite map_map. cbn [mr_subj]. apply uniq_perm; trivial.
Qed.
Lemma frame_rows g : In g G -> rows_of rows g = map (fun s => mkRow s g (grid g) (fin (v s g)) (slope s g)) subs.
Proof.
  intros Ig. unfold rows_of, rows, full_frame.
  assert (One : forall s, filter (fun r => String.eqb (mr_seg r) g) (map (fun x => mkRow s x (grid x) (fin (v s x)) (slope s x)) G) = [mkRow s g (grid g) (fin (v s g)) (slope s g)]).
  { intros s. clear NS HS rows. revert Ig. induction HG as [|a G' Ha N IH]; intros Ig; [contradiction|]. cbn [map filter mr_seg]. destruct (String.eqb_spec a g) as [->|D].
    - f_equal. clear - Ha. induction G' as [|b G' IH]; [reflexivity|]. cbn [map filter mr_seg]. destruct (String.eqb_spec b g) as [->|D]; [exfalso; apply Ha; now left|]. apply IH. intros X. apply Ha. now right.
    - apply IH; [exact N|]. destruct Ig as [->|Ig]; [congruence|exact Ig]. }
  clear HS NS. clearbody rows. induction subs as [|s l IH]; [reflexivity|]. cbn [list_prod]. rewrite !map_app, map_map. cbn [fst snd].
  assert (FA : forall (A : Type) (f : A -> bool) (a b : list A), filter f (a ++ b) = filter f a ++ filter f b).
  { intros A f a b. induction a as [|x a IHa]; [reflexivity|]. cbn [app filter]. destruct (f x); cbn [app]; now rewrite IHa. }
  rewrite FA, One. cbn [app map]. f_equal. exact IH.
Qed.
End Frame.
Lemma list_max_const (x : R) (l : list string) : l <> [] -> list_max (map (fun _ => x) l) = Ok x.
Proof.
  intros N. destruct (list_max_spec (map (fun _ => x) l)) as (m & E & I & _); [intros X; apply map_eq_nil in X; contradiction|]. apply in_map_iff in I as (_ & <- & _). exact E.
Qed.
Lemma list_min_const (x : R) (l : list string) : l <> [] -> list_min (map (fun _ => x) l) = Ok x.
Proof.
  intros N. destruct (list_min_spec (map (fun _ => x) l)) as (m & E & I & _); [intros X; apply map_eq_nil in X; contradiction|]. apply in_map_iff in I as (_ & <- & _). exact E.
Qed.
Lemma mapM_maps {A B} (f : A -> res B) (h : A -> B) l : (forall a, In a l -> f a = Ok (h a)) -> mapM f l = Ok (map h l).
Proof. apply mapM_map_ok. Qed.

(** for such a frame the figure shows every subject in the colour of the segment and the mean over the subjects in the colour of the average;
    the dashed lines are at the ends of the slope of the first row *)
Theorem C87_plot_multiscale : forall {S} subs G segs grid v slope (seg2color : string -> option S) col cola x0 sl,
  NoDup subs -> NoDup G -> subs <> [] -> G <> [] -> Permutation segs G ->
  (forall g, In g G -> grid g <> [] /\ forall s, In s subs -> length (v s g) = length (grid g)) ->
  (forall g, In g G -> seg2color g = Some (col g) /\ seg2color (g ++ "_avg")%string = Some (cola g)) ->
  slope (hd ""%string subs) (hd ""%string G) = x0 :: sl ->
  plot_multiscale (full_frame subs G grid v slope) seg2color segs =
    Ok (expected_curves subs segs grid v col cola, (x0, last (x0 :: sl) x0)).
Proof.
  intros S subs G segs grid v slope s2c col cola x0 sl NS NG ES EG Pm Hgrid Hcol Hsl. unfold plot_multiscale. cbv zeta.
  set (rows := full_frame subs G grid v slope).
  assert (InG : forall g, In g segs -> In g G) by (intros g; apply Permutation_in, Pm).
  assert (RO : forall g, In g segs -> rows_of rows g = map (fun s => mkRow s g (grid g) (fin (v s g)) (slope s g)) subs) by (intros g Ig; apply frame_rows; auto).
  assert (SU : subjects rows = subs) by (now apply frame_subjects).
  assert (Bd : forall g, exists b, In g segs -> band_of rows g = Ok b /\ forall f, In f (grid g) -> fst b <= f <= snd b).
  { intros g. destruct (in_dec string_dec g segs) as [Ig|Ng]; [|exists (0, 0); contradiction]. destruct (Hgrid g (InG g Ig)) as [N0 _].
    destruct (list_max_spec (grid g) N0) as (hi & Eh & _ & Hh). destruct (list_min_spec (grid g) N0) as (lo & El & _ & Hl). exists (lo, hi). intros _. split; [|intros f Hf; cbn; split; auto].
    unfold band_of. rewrite RO by trivial. rewrite (mapM_map_ok _ (fun _ => hi)). 2:{ intros a Ia. apply in_map_iff in Ia as (s & <- & _). exact Eh. }
    rewrite map_map. cbn [bind]. rewrite list_min_const by trivial. cbn [bind]. rewrite (mapM_map_ok _ (fun _ => lo)). 2:{ intros a Ia. apply in_map_iff in Ia as (s & <- & _). exact El. }
    rewrite map_map. cbn [bind]. rewrite list_max_const by trivial. reflexivity. }
  assert (Bf : exists band, forall g, In g segs -> band_of rows g = Ok (band g) /\ forall f, In f (grid g) -> fst (band g) <= f <= snd (band g)).
  { clear - Bd. induction segs as [|g0 l IH]; [exists (fun _ => (0, 0)); contradiction|]. destruct IH as [b Hb]; [intros g; destruct (Bd g) as [b Hb]; exists b; intros I; apply Hb; now right|].
    destruct (Bd g0) as [b0 H0]. exists (fun g => if string_dec g g0 then b0 else b g). intros g Ig. destruct (string_dec g g0) as [->|D]; [apply H0; now left|]. apply Hb. destruct Ig as [->|Ig]; [congruence|exact Ig]. }
  destruct Bf as [band Hb].
  rewrite (mapM_map_ok _ band) by (intros g Ig; now apply Hb). cbn [bind].
  assert (MT : forall g f, In g segs -> In f (grid g) -> (if Rle_dec f (snd (band g)) then if Rle_dec (fst (band g)) f then true else false else false) = true).
  { intros g f Ig If. destruct (Hb g Ig) as [_ Hf]. destruct (Hf f If). destruct (Rle_dec f (snd (band g))); [|contradiction]. destruct (Rle_dec (fst (band g)) f); [reflexivity|contradiction]. }
  assert (MTb : forall g, In g segs -> forallb (fun f => if Rle_dec f (snd (band g)) then if Rle_dec (fst (band g)) f then true else false else false) (grid g) = true).
  { intros g Ig. apply forallb_forall. intros f If. now apply MT. }
  assert (CB : combine segs (map band segs) = map (fun x => (x, band x)) segs).
  { clear. induction segs as [|g l IH]; [reflexivity|]. cbn [map combine]. now rewrite IH. }
  rewrite !CB.
  assert (AV : mapM (fun sb => average rows (fst sb) (snd sb)) (map (fun x => (x, band x)) segs) = Ok (map (fun g => fin (subject_mean subs grid v g)) segs)).
  { rewrite (mapM_map_ok _ (fun sb => fin (subject_mean subs grid v (fst sb)))); [now rewrite map_map|]. intros sb Is. apply in_map_iff in Is as (g & <- & Ig). cbn [fst snd].
    unfold average. rewrite RO by trivial. destruct (Hgrid g (InG g Ig)) as [_ Hl].
    rewrite (mapM_map_ok _ (fun r => fin (v (mr_subj r) g))).
    2:{ intros r Ir. apply in_map_iff in Ir as (s & <- & Is). unfold trim. cbn [mr_scale mr_freq mr_subj]. unfold fin. rewrite map_length, Hl, Nat.eqb_refl by trivial. f_equal.
        unfold in_band_mask. apply select_true; [now apply MTb|]. now rewrite map_length, Hl. }
    cbn [bind]. rewrite map_map. cbn [mr_subj]. rewrite map_length, SU, Nat.eqb_refl. unfold stack_mean. destruct subs as [|s0 subs'] eqn:ESub; [congruence|]. cbn [map].
    assert (L0 : length (fin (v s0 g)) = length (grid g)) by (unfold fin; rewrite map_length; apply Hl; now left).
    assert (FB : forallb (fun b => Nat.eqb (length b) (length (fin (v s0 g)))) (fin (v s0 g) :: map (fun s => fin (v s g)) subs') = true).
    { apply forallb_forall. intros c Ic. apply Nat.eqb_eq. rewrite L0. destruct Ic as [<-|Ic]; [exact L0|]. apply in_map_iff in Ic as (s & <- & Is). unfold fin. rewrite map_length. apply Hl. now right. }
    rewrite FB. f_equal. rewrite L0. unfold subject_mean. match goal with |- _ = fin ?l => change (fin l) with (map Fin l) end. rewrite map_map. apply map_ext_in. intros i Hi. apply in_seq in Hi.
    assert (Nth : forall s, In s (s0 :: subs') -> nth i (fin (v s g)) NaN = Fin (nth i (v s g) 0)).
    { intros s Is. unfold fin. rewrite (nth_indep _ NaN (Fin 0)) by (rewrite map_length, Hl by trivial; lia). now rewrite map_nth. }
    change (fin (v s0 g) :: map (fun s => fin (v s g)) subs') with (map (fun s => fin (v s g)) (s0 :: subs')). rewrite map_map, map_length.
    change (nth i (fin (v s0 g)) NaN :: map (fun s => nth i (fin (v s g)) NaN) subs') with (map (fun s => nth i (fin (v s g)) NaN) (s0 :: subs')).
    rewrite (map_ext_in (fun s => nth i (fin (v s g)) NaN) (fun s => Fin (nth i (v s g) 0)) (s0 :: subs') Nth). rewrite xsum_map_Fin. unfold mean. rewrite map_length.
    assert (PN : INR (length (s0 :: subs')) <> 0) by (apply not_0_INR; discriminate). now rewrite xdiv_Fin. }
  rewrite AV. cbn [bind].
  assert (FV : mapM (fun sb => freq_avg rows (fst sb) (snd sb)) (map (fun x => (x, band x)) segs) = Ok (map grid segs)).
  { rewrite (mapM_map_ok _ (fun sb => grid (fst sb))); [now rewrite map_map|]. intros sb Is. apply in_map_iff in Is as (g & <- & Ig). cbn [fst snd].
    unfold freq_avg. rewrite SU. rewrite RO by trivial. destruct subs as [|s0 subs'] eqn:ESub; [congruence|]. cbn [map filter mr_subj]. rewrite String.eqb_refl. cbn [mr_freq]. f_equal.
    apply select_true; [now apply MTb|reflexivity]. }
  rewrite FV. cbn [bind].
  rewrite (mapM_map_ok _ col) by (intros g Ig; unfold get_color; now rewrite (proj1 (Hcol g (InG g Ig)))). cbn [bind].
  rewrite (mapM_map_ok _ cola) by (intros g Ig; unfold get_color; now rewrite (proj2 (Hcol g (InG g Ig)))). cbn [bind].
  rewrite SU.
  assert (FM : forall X (f : msrow -> X) (f' : string -> string -> X), (forall s g, f (mkRow s g (grid g) (fin (v s g)) (slope s g)) = f' s g) ->
     flat_map (fun g => map f (rows_of rows g)) segs = flat_map (fun g => map (fun s => f' s g) subs) segs).
  { intros X f f' Hf. rewrite !flat_map_concat_map. f_equal. apply map_ext_in. intros g Ig. rewrite RO by trivial. rewrite map_map. apply map_ext. intros s. apply Hf. }
  rewrite (FM _ mr_scale (fun s g => fin (v s g))) by reflexivity. rewrite (FM _ mr_freq (fun s g => grid g)) by reflexivity.
  rewrite repeat_app_mul, repeat_map.
  assert (CC : flat_map (fun c => repeat c (length subs)) (map col segs) = flat_map (fun g => map (fun _ => col g) subs) segs).
  { rewrite !flat_map_concat_map, map_map. f_equal. apply map_ext. intros g. apply repeat_map. }
  rewrite CC.
  change (flat_map (fun g => map (fun s => fin (v s g)) subs) segs ++ map (fun g => fin (subject_mean subs grid v g)) segs)
    with (two subs segs (fun s g => fin (v s g)) (fun g => fin (subject_mean subs grid v g))).
  change (flat_map (fun g => map (fun _ => grid g) subs) segs ++ map grid segs) with (two subs segs (fun _ g => grid g) grid).
  change (flat_map (fun g => map (fun _ => col g) subs) segs ++ map cola segs) with (two subs segs (fun _ g => col g) cola).
  change (flat_map (fun _ => map (fun _ => 1%nat) subs) segs ++ map (fun _ => 2%nat) segs) with (two subs segs (fun _ _ => 1%nat) (fun _ => 2%nat)).
  rewrite two_map, !two_combine.
  rewrite log_plot_any_eq.
  2:{ now left. }
  2:{ apply Forall_forall. intros fp I. unfold two in I. apply in_app_or in I as [I|I].
      - apply in_flat_map in I as (g & Ig & I). apply in_map_iff in I as (s & <- & Is). cbn [fst snd psd_len]. unfold fin. rewrite map_length. now apply (Hgrid g (InG g Ig)).
      - apply in_map_iff in I as (g & <- & Ig). cbn [fst snd psd_len]. unfold fin, subject_mean. now rewrite !map_length, seq_length. }
  rewrite two_combine. cbn [bind].
  match goal with |- context [flat_map ?F (two subs segs ?f ?k)] =>
    assert (Fig : flat_map F (two subs segs f k) = expected_curves subs segs grid v col cola) end.
  { unfold two. rewrite flat_map_app. unfold expected_curves. f_equal.
    - clear. induction segs as [|g l IH]; [reflexivity|]. cbn [flat_map]. rewrite flat_map_app, <- IH. f_equal.
      clear. induction subs as [|s l IH]; [reflexivity|]. cbn [map flat_map app fst snd psd_columns]. now rewrite IH.
    - clear. induction segs as [|g l IH]; [reflexivity|]. cbn [map flat_map app fst snd psd_columns]. now rewrite IH. }
  rewrite Fig.
  destruct subs as [|s0 subs']; [congruence|]. destruct G as [|g0 G']; [congruence|]. cbn [hd] in Hsl. unfold rows, full_frame. cbn [list_prod map app mr_slope fst snd]. rewrite Hsl. reflexivity.
Qed.
Print Assumptions C87_plot_multiscale.
(** the order in which Python enumerates the set of segments only changes the order of drawing *)
Theorem C87_order_irrelevant : forall {S} subs G segs segs' grid v slope (seg2color : string -> option S) col cola x0 sl,
  NoDup subs -> NoDup G -> subs <> [] -> G <> [] -> Permutation segs G -> Permutation segs' G ->
  (forall g, In g G -> grid g <> [] /\ forall s, In s subs -> length (v s g) = length (grid g)) ->
  (forall g, In g G -> seg2color g = Some (col g) /\ seg2color (g ++ "_avg")%string = Some (cola g)) ->
  slope (hd ""%string subs) (hd ""%string G) = x0 :: sl ->
  exists f f' l, plot_multiscale (full_frame subs G grid v slope) seg2color segs = Ok (f, l) /\
    plot_multiscale (full_frame subs G grid v slope) seg2color segs' = Ok (f', l) /\ Permutation f f'.
Proof.
  intros S subs G segs segs' grid v slope s2c col cola x0 sl NS NG ES EG Pm Pm' Hg Hc Hs.
  do 3 eexists. split; [now apply (C87_plot_multiscale subs G segs grid v slope s2c col cola x0 sl)|]. split; [now apply (C87_plot_multiscale subs G segs' grid v slope s2c col cola x0 sl)|].
  assert (P : Permutation segs segs') by (now rewrite Pm, Pm'). unfold expected_curves. apply Permutation_app.
  - now apply Permutation_flat_map.
  - now apply Permutation_map.
Qed.
Print Assumptions C87_order_irrelevant.
Example C87_case : exists fig, plot_multiscale
    (full_frame ["a"; "b"]%string ["rest"; "task"]%string (fun g => if String.eqb g "rest" then [1; 2; 4] else [0; 3]) (fun s g => if String.eqb g "rest" then [5; 6; 7] else [1; 2]) (fun _ _ => [1; 8]))
    (fun k => Some k) ["task"; "rest"]%string = Ok (fig, (1, 8)) /\ length fig = 6%nat.
Proof.
  eexists. split.
  - refine (C87_plot_multiscale ["a"; "b"]%string ["rest"; "task"]%string ["task"; "rest"]%string _ _ _ _ (fun g => g) (fun g => (g ++ "_avg")%string) 1 [8] _ _ _ _ _ _ _ _); try discriminate.
    + repeat constructor; cbn; intuition discriminate.
    + repeat constructor; cbn; intuition discriminate.
    + apply perm_swap.
    + intros g [<-|[<-|[]]]; cbn; (split; [discriminate|intros; reflexivity]).
    + intros g _. split; reflexivity.
    + reflexivity.
  - reflexivity.
Qed.

(** REFUTED for subjects with different frequency grids: the average is taken by index.  Two subjects with values at 1, 2, 4 and at 1, 3, 4:
    the point drawn at frequency 2 is the mean of the first at 2 and of the second at 3.  If the numbers of frequencies in the common band differ,
    or if a subject lacks a segment, nothing is drawn. *)
Lemma max124 a b d : a < b -> b < d -> list_max [a; b; d] = Ok d.
Proof. intros. cbn. now rewrite !Rmax_right by (rewrite ?Rmax_right; lra). Qed.
Lemma min124 a b d : a < b -> b < d -> list_min [a; b; d] = Ok a.
Proof. intros. cbn. now rewrite (Rmin_left a b), Rmin_left by lra. Qed.
Lemma mask3 a b d : a < b -> b < d -> in_band_mask (a, d) [a; b; d] = [true; true; true].
Proof.
  intros. unfold in_band_mask. cbn [map fst snd]. destruct (Rle_dec a d); [|lra]. destruct (Rle_dec a a); [|lra]. destruct (Rle_dec b d); [|lra]. destruct (Rle_dec a b); [|lra]. destruct (Rle_dec d d); [|lra]. reflexivity.
Qed.
Theorem C87_grids_refuted : forall u1 u2 u3 w1 w2 w3 : R,
  (exists fig l, plot_multiscale [mkRow "a" "s" [1; 2; 4] (fin [u1; u2; u3]) [0]; mkRow "b" "s" [1; 3; 4] (fin [w1; w2; w3]) [0]] (fun k => Some k) ["s"%string] = Ok (fig, l) /\
     In (log_curve xlog2 (Some 50) ([1; 2; 4], fin [(u1 + w1) / 2; (u2 + w2) / 2; (u3 + w3) / 2]), ("s_avg"%string, 2%nat)) fig) /\
  plot_multiscale [mkRow "a" "s" [1; 2; 4] (fin [u1; u2; u3]) [0]; mkRow "b" "s" [1; 4] (fin [w1; w3]) [0]] (fun k => Some k) ["s"%string] = Err ValueError /\
  plot_multiscale [mkRow "a" "s" [1; 2; 4] (fin [u1; u2; u3]) [0]; mkRow "a" "t" [1; 2; 4] (fin [w1; w2; w3]) [0]; mkRow "b" "s" [1; 2; 4] (fin [u1; u2; u3]) [0]] (fun k => Some k) ["s"; "t"]%string = Err ValueError.
Proof.
  intros u1 u2 u3 w1 w2 w3.
  assert (A1 := max124 1 2 4 ltac:(lra) ltac:(lra)). assert (A2 := max124 1 3 4 ltac:(lra) ltac:(lra)). assert (A3 := min124 1 2 4 ltac:(lra) ltac:(lra)). assert (A4 := min124 1 3 4 ltac:(lra) ltac:(lra)).
  assert (A5 : list_max [1; 4] = Ok 4) by (cbn; now rewrite Rmax_right by lra). assert (A6 : list_min [1; 4] = Ok 1) by (cbn; now rewrite Rmin_left by lra).
  assert (A7 : list_min [4; 4] = Ok 4) by (cbn; now rewrite Rmin_left by lra). assert (A8 : list_max [1; 1] = Ok 1) by (cbn; now rewrite Rmax_left by lra).
  assert (M1 := mask3 1 2 4 ltac:(lra) ltac:(lra)). assert (M2 := mask3 1 3 4 ltac:(lra) ltac:(lra)).
  assert (M3 : in_band_mask (1, 4) [1; 4] = [true; true]).
  { unfold in_band_mask. cbn [map fst snd]. destruct (Rle_dec 1 4); [|lra]. destruct (Rle_dec 1 1); [|lra]. destruct (Rle_dec 4 4); [|lra]. destruct (Rle_dec 1 4); [|lra]. reflexivity. }
  split; [|split].
  - unfold plot_multiscale. cbv zeta.
    set (rows := [mkRow "a" "s" [1; 2; 4] (fin [u1; u2; u3]) [0]; mkRow "b" "s" [1; 3; 4] (fin [w1; w2; w3]) [0]]).
    assert (RO : rows_of rows "s" = rows) by reflexivity. assert (SU : subjects rows = ["a"; "b"]%string) by reflexivity.
    cbn [mapM]. unfold band_of. rewrite RO. cbn [rows mapM mr_freq]. rewrite A1, A2, A3, A4. cbn [bind]. rewrite A7. cbn [bind]. rewrite A8. cbn [bind combine mapM fst snd].
    unfold average. rewrite RO, SU. cbn [rows mapM]. unfold trim. cbn [mr_scale mr_freq fin map length Nat.eqb]. rewrite M1, M2. cbn [bind select length Nat.eqb stack_mean forallb andb].
    unfold freq_avg. rewrite RO, SU. cbn [rows filter mr_subj String.eqb Ascii.eqb Bool.eqb mr_freq]. rewrite M1. cbn [bind select].
    unfold get_color. cbn [bind]. rewrite log_plot_any_eq.
    2:{ now left. }
    2:{ cbn [flat_map]. rewrite RO. repeat (constructor; [reflexivity|]). constructor. }
    cbn [bind]. do 2 eexists. split; [reflexivity|]. cbn [flat_map]. rewrite RO. cbn. right. right. left. f_equal.
    destruct (Req_EM_T (1 + 1) 0); [lra|]. do 2 f_equal. unfold fin. cbn [map]. repeat f_equal; lra.
  - unfold plot_multiscale. cbv zeta.
    set (rows := [mkRow "a" "s" [1; 2; 4] (fin [u1; u2; u3]) [0]; mkRow "b" "s" [1; 4] (fin [w1; w3]) [0]]).
    assert (RO : rows_of rows "s" = rows) by reflexivity. assert (SU : subjects rows = ["a"; "b"]%string) by reflexivity.
    cbn [mapM]. unfold band_of. rewrite RO. cbn [rows mapM mr_freq]. rewrite A1, A3, A5, A6. cbn [bind]. rewrite A7. cbn [bind]. rewrite A8. cbn [bind combine mapM fst snd].
    unfold average. rewrite RO, SU. cbn [rows mapM]. unfold trim. cbn [mr_scale mr_freq fin map length Nat.eqb]. rewrite M1, M3. reflexivity.
  - unfold plot_multiscale. cbv zeta.
    set (rows := [mkRow "a" "s" [1; 2; 4] (fin [u1; u2; u3]) [0]; mkRow "a" "t" [1; 2; 4] (fin [w1; w2; w3]) [0]; mkRow "b" "s" [1; 2; 4] (fin [u1; u2; u3]) [0]]).
    assert (RO : rows_of rows "s" = [mkRow "a" "s" [1; 2; 4] (fin [u1; u2; u3]) [0]; mkRow "b" "s" [1; 2; 4] (fin [u1; u2; u3]) [0]]) by reflexivity.
    assert (RT : rows_of rows "t" = [mkRow "a" "t" [1; 2; 4] (fin [w1; w2; w3]) [0]]) by reflexivity. assert (SU : subjects rows = ["a"; "b"]%string) by reflexivity.
    cbn [mapM]. unfold band_of. rewrite RO, RT. cbn [mapM mr_freq]. rewrite A1, A3. cbn [bind]. rewrite A7. cbn [bind]. rewrite A8. cbn [bind list_min list_max fold_left combine mapM fst snd].
    unfold average. rewrite RO, RT, SU. cbn [mapM]. unfold trim. cbn [mr_scale mr_freq fin map length Nat.eqb]. rewrite M1. reflexivity.
Qed.
Print Assumptions C87_grids_refuted.
