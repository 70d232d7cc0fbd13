(** * Properties C52-C54: power spectral density and its exponent *)
From Coq Require Import Reals List ZArith Bool Lra Lia String.
From Verif Require Import XReal PyBase ModelUtils ModelMRQ ModelStructure ModelWavelet ModelPSD Spec SpecMRQ LXReal LReg LUtils LBase LEst LMoment LCum LEntropy LPSD.
Import ListNotations.
Local Notation length := List.length.
Open Scope R_scope.

(** ** Vocabulary *)
(** logarithm in base b, and the base the user asks for *)
Definition logb (b x : R) : R := ln x / ln b.
Definition base_of (name : string) (b : R) : Prop :=
  (name = "log2"%string /\ b = 2) \/ (name = "log"%string /\ b = exp 1).
(** the indices of the frequencies lo <= f <= hi, in order *)
Definition band_index (lo hi : R) (freq : list R) : list nat :=
  filter (fun k => if Rle_dec lo (nth k freq 0) then if Rle_dec (nth k freq 0) hi then true else false else false)
         (seq 0 (length freq)).
(** in-band points (log f, log S(f)) *)
Definition band_points (lo hi b : R) (freq S : list R) : list point :=
  map (fun k => (1, logb b (nth k freq 0), logb b (nth k S 0))) (band_index lo hi freq).
(** the array p holds the real spectra Y (one per realisation) on n frequencies *)
Definition holds (n : nat) (Y : list (list R)) (p : psd_array) : Prop :=
  Forall (fun y => length y = n) Y /\
  ((exists y, Y = [y] /\ p = PSD1 (fin y)) \/
   (Y <> [] /\ p = PSD2 (length Y) (map (fun k => map (fun y => Fin (nth k y 0)) Y) (seq 0 n)))).

(** ** Lemmas *)
Lemma base_pos name b : base_of name b -> 0 < ln b.
Proof.
  intros [[_ ->]|[_ ->]]; [|rewrite ln_exp; lra]. rewrite <- ln_1. apply ln_increasing; lra.
Qed.
Lemma base_log name b : base_of name b -> exists g, log_function name = Some g /\ forall x, 0 < x -> g (Fin x) = Fin (logb b x).
Proof.
  intros [[-> ->]|[-> ->]].
  - exists xlog2. split; [reflexivity|]. intros x Hx. rewrite xlog2_pos by trivial. reflexivity.
  - exists xln. split; [reflexivity|]. intros x Hx. unfold xln. destruct (Rlt_dec 0 x); [|lra]. unfold logb. rewrite ln_exp. f_equal. field.
Qed.
Lemma list_nth_seq (l : list R) : l = map (fun k => nth k l 0) (seq 0 (length l)).
Proof.
  induction l as [|a l IH]; [reflexivity|]. cbn [length seq map nth]. f_equal. rewrite <- seq_shift, map_map. exact IH.
Qed.
Lemma mask_seq lo hi freq : map (in_band lo hi) freq = map (fun k => in_band lo hi (nth k freq 0)) (seq 0 (length freq)).
Proof. rewrite (list_nth_seq freq) at 1. now rewrite map_map. Qed.
Lemma select_band {B} lo hi freq (f : nat -> B) :
  select (map (in_band lo hi) freq) (map f (seq 0 (length freq))) = map f (band_index lo hi freq).
Proof. rewrite mask_seq. apply select_map_filter. Qed.
Lemma band_index_spec lo hi freq k : In k (band_index lo hi freq) <-> (k < length freq)%nat /\ lo <= nth k freq 0 <= hi.
Proof.
  unfold band_index. rewrite filter_In, in_seq. change (fun k0 => if Rle_dec lo (nth k0 freq 0) then _ else false) with (fun k0 => in_band lo hi (nth k0 freq 0)).
  cbn beta. rewrite <- (in_band_spec lo hi (nth k freq 0)). unfold in_band. split; intros [A B]; split; trivial; lia.
Qed.

Section Fit.
Variables (lo hi b : R) (name : string) (freq : list R).
Hypothesis HB : base_of name b.
Let K := band_index lo hi freq.
Hypothesis Hf : forall k, In k K -> 0 < nth k freq 0.

Lemma fit_core g x y : (forall x, 0 < x -> g (Fin x) = Fin (logb b x)) -> x = map (fun k => logb b (nth k freq 0)) K ->
  (forall k, In k K -> 0 < nth k y 0) ->
  match all_finite (map (fun k => g (Fin (nth k y 0))) K) with None => Err ValueError | Some v => Ok (ols x v) end
  = Ok (ols (map (fun k => logb b (nth k freq 0)) K) (map (fun k => logb b (nth k y 0)) K)).
Proof.
  intros G -> P. replace (map (fun k => g (Fin (nth k y 0))) K) with (fin (map (fun k => logb b (nth k y 0)) K)).
  - now rewrite all_finite_fin.
  - unfold fin. rewrite map_map. apply map_ext_in. intros k Hk. symmetry. apply G. auto.
Qed.

Definition line (y : list R) : R * R := ols (map (fun k => logb b (nth k freq 0)) K) (map (fun k => logb b (nth k y 0)) K).

Lemma mapM_nth {B} (F : list R -> B) (h : nat -> res B) (Y : list (list R)) :
  (forall i, (i < length Y)%nat -> h i = Ok (F (nth i Y []))) -> mapM h (seq 0 (length Y)) = Ok (map F Y).
Proof.
  revert h. induction Y as [|y Y IH]; intros h H; [reflexivity|]. cbn [length seq mapM]. rewrite (H 0%nat) by (simpl; lia). cbn [bind nth].
  rewrite <- seq_shift.
  assert (E : mapM h (map S (seq 0 (length Y))) = mapM (fun i => h (S i)) (seq 0 (length Y))).
  { generalize (seq 0 (length Y)). intros l. induction l as [|i l IHl]; [reflexivity|]. cbn [map mapM]. now rewrite IHl. }
  rewrite E, IH; [reflexivity|]. intros i Hi. rewrite H by (simpl; lia). reflexivity.
Qed.

Lemma beta_eq Y p : holds (length freq) Y p -> K <> [] -> (forall y k, In y Y -> In k K -> 0 < nth k y 0) ->
  estimate_beta freq p (lo, hi) name =
  Ok (mkFractal (fst (line (nth 0 Y []))) (map (fun y => snd (line y)) Y) (fin (map (fun k => logb b (nth k freq 0)) K))
        (match p with PSD1 _ => true | PSD2 _ _ => false end)).
Proof.
  intros [HL HY] HK P. destruct (base_log name b HB) as (g & Eg & G).
  unfold estimate_beta. cbn [fst snd].
  assert (Ef : select (map (in_band lo hi) freq) freq = map (fun k => nth k freq 0) K).
  { rewrite (list_nth_seq freq) at 2. apply select_band. }
  assert (EL : psd_len p = length freq).
  { destruct HY as [(y & -> & ->)|(_ & ->)]; cbn [psd_len].
    - inversion HL. unfold fin. rewrite map_length. assumption.
    - now rewrite map_length, seq_length. }
  rewrite EL, Nat.eqb_refl. cbn [negb]. rewrite Ef.
  assert (Z : existsb (fun f => if Req_EM_T f 0 then true else false) (map (fun k => nth k freq 0) K) = false).
  { destruct (existsb _ _) eqn:E; [|reflexivity]. apply existsb_exists in E. destruct E as (f & If & E).
    apply in_map_iff in If. destruct If as (k & <- & Ik). specialize (Hf k Ik). destruct (Req_EM_T (nth k freq 0) 0); [lra|discriminate]. }
  unfold log_psd. rewrite Z, Eg. cbn [bind].
  assert (Fx : map (fun f => g (Fin f)) (map (fun k => nth k freq 0) K) = fin (map (fun k => logb b (nth k freq 0)) K)).
  { unfold fin. rewrite !map_map. apply map_ext_in. intros k Hk. apply G. now apply Hf. }
  rewrite Fx. cbn [regressor_fit]. 
  assert (M : forall (T : Type) (u v : T), match fin (map (fun k => logb b (nth k freq 0)) K) with [] => u | _ :: _ => v end = v).
  { intros. destruct K; [contradiction|reflexivity]. }
  rewrite M, all_finite_fin.
  destruct HY as [(y & -> & ->)|(HN & ->)]; cbn [select_psd map_psd].
  - inversion HL; subst. unfold fin at 1. rewrite (list_nth_seq y) at 1. rewrite map_map, H1, select_band, map_map. fold K.
    rewrite (fit_core g _ y G eq_refl) by (intros; apply P; simpl; auto). cbn [bind nth map]. reflexivity.
  - rewrite select_band. fold K. rewrite map_map.
    replace (Nat.eqb (length Y) 0) with false by (destruct Y; [contradiction|reflexivity]).
    rewrite (mapM_nth line).
    + cbn [bind]. destruct Y as [|y0 Y]; [contradiction|]. cbn [map nth]. rewrite map_map. reflexivity.
    + intros i Hi.
      replace (map (fun row => nth i row NaN) (map (fun x => map g (map (fun y => Fin (nth x y 0)) Y)) K))
        with (map (fun k => g (Fin (nth k (nth i Y []) 0))) K).
      * rewrite (fit_core g _ (nth i Y []) G eq_refl); [reflexivity|]. intros k Hk. apply P; trivial. now apply nth_In.
      * rewrite map_map. apply map_ext. intros k. rewrite map_map. 
        rewrite (nth_indep _ NaN (g (Fin (nth k [] 0)))) by (now rewrite map_length).
        now rewrite (map_nth (fun y => g (Fin (nth k y 0)))).
Qed.
Lemma line_best y : (exists k k', In k K /\ In k' K /\ nth k freq 0 <> nth k' freq 0) ->
  is_best_line (band_points lo hi b freq y) (fst (line y)) (snd (line y)).
Proof.
  intros (k & k' & Ik & Ik' & N).
  set (l := map (fun k => (logb b (nth k freq 0), logb b (nth k y 0))) K).
  assert (E : band_points lo hi b freq y = upoints l) by (unfold band_points, upoints, l; rewrite map_map; reflexivity).
  assert (E1 : map fst l = map (fun k => logb b (nth k freq 0)) K) by (unfold l; now rewrite map_map).
  assert (E2 : map snd l = map (fun k => logb b (nth k y 0)) K) by (unfold l; now rewrite map_map).
  rewrite E. unfold line. rewrite <- E1, <- E2. apply ols_best.
  exists (logb b (nth k freq 0), logb b (nth k y 0)), (logb b (nth k' freq 0), logb b (nth k' y 0)).
  split; [|split].
  - unfold l. apply in_map_iff. exists k. auto.
  - unfold l. apply in_map_iff. exists k'. auto.
  - cbn [fst]. unfold logb. intros X. apply N. apply ln_inv; [now apply Hf|now apply Hf|].
    assert (B := base_pos name b HB). apply (f_equal (fun t => t * ln b)) in X. field_simplify in X; lra.
Qed.
End Fit.

(** ** C52 *)
(** every fit: the returned values are the least-squares line of log S against log f over
    the band; [beta] is the slope of the first realisation *)
Theorem C52_least_squares :
  forall freq Y p lo hi b name,
  holds (length freq) Y p -> base_of name b ->
  (forall k, In k (band_index lo hi freq) -> 0 < nth k freq 0 /\ forall y, In y Y -> 0 < nth k y 0) ->
  (exists k k', In k (band_index lo hi freq) /\ In k' (band_index lo hi freq) /\ nth k freq 0 <> nth k' freq 0) ->
  exists r, estimate_beta freq p (lo, hi) name = Ok r /\
    fr_freq r = fin (map (fun k => logb b (nth k freq 0)) (band_index lo hi freq)) /\
    length (fr_log_C r) = length Y /\
    is_best_line (band_points lo hi b freq (nth 0 Y [])) (fr_beta r) (nth 0 (fr_log_C r) 0) /\
    forall i, (i < length Y)%nat -> exists a, is_best_line (band_points lo hi b freq (nth i Y [])) a (nth i (fr_log_C r) 0).
Proof.
  intros freq Y p lo hi b name HY HB HP H2.
  assert (HK : band_index lo hi freq <> []) by (destruct H2 as (k & _ & Ik & _); intros X; rewrite X in Ik; contradiction).
  assert (HN : Y <> []) by (destruct HY as [_ [(y & -> & _)|(N & _)]]; [discriminate|assumption]).
  eexists. split; [apply (beta_eq lo hi b name freq HB (fun k Hk => proj1 (HP k Hk)) Y p HY HK); intros; now apply HP|].
  cbn [fr_freq fr_log_C fr_beta]. split; [reflexivity|]. split; [apply map_length|].
  assert (Q : forall i, (i < length Y)%nat -> is_best_line (band_points lo hi b freq (nth i Y [])) (fst (line lo hi b freq (nth i Y [])))
      (nth i (map (fun y => snd (line lo hi b freq y)) Y) 0)).
  { intros i Hi. rewrite (nth_indep _ 0 (snd (line lo hi b freq []))) by (now rewrite map_length).
    rewrite (map_nth (fun y => snd (line lo hi b freq y))). apply (line_best lo hi b name freq HB (fun k Hk => proj1 (HP k Hk)) _ H2). }
  split.
  - apply Q. destruct Y; [contradiction|simpl; lia].
  - intros i Hi. eexists. apply Q; trivial.
Qed.
Print Assumptions C52_least_squares.

(** [psd] is the power law S(f) = C f^(-beta), in one or several identical-exponent realisations
    (amplitudes Cs) *)
Definition power_law (freq : list R) (beta : R) (Cs : list R) : list (list R) :=
  map (fun C => map (fun f => C * Rpower f (- beta)) freq) Cs.

Lemma logb_power b C f e : 0 < C -> 0 < f -> ln b <> 0 -> logb b (C * Rpower f e) = e * logb b f + logb b C.
Proof.
  intros HC Hf Hb. unfold logb. rewrite ln_mult by (trivial; unfold Rpower; apply exp_pos). unfold Rpower. rewrite ln_exp. field. assumption.
Qed.

(** the slope -beta and log C are recovered exactly: what is returned as [beta] is MINUS the
    exponent of the documented model PSD(f) = C |f|^-beta *)
Theorem C52_power_law :
  forall freq beta Cs p lo hi b name,
  holds (length freq) (power_law freq beta Cs) p -> base_of name b -> Forall (fun C => 0 < C) Cs ->
  (forall k, In k (band_index lo hi freq) -> 0 < nth k freq 0) ->
  (exists k k', In k (band_index lo hi freq) /\ In k' (band_index lo hi freq) /\ nth k freq 0 <> nth k' freq 0) ->
  exists r, estimate_beta freq p (lo, hi) name = Ok r /\
    fr_beta r = - beta /\ fr_log_C r = map (logb b) Cs.
Proof.
  intros freq beta Cs p lo hi b name HY HB HC HF H2.
  assert (Lb := base_pos name b HB). rewrite Forall_forall in HC.
  assert (HK : band_index lo hi freq <> []) by (destruct H2 as (k & _ & Ik & _); intros X; rewrite X in Ik; contradiction).
  assert (NK : forall C k, In k (band_index lo hi freq) -> nth k (map (fun f => C * Rpower f (- beta)) freq) 0 = C * Rpower (nth k freq 0) (- beta)).
  { intros C k Hk. apply band_index_spec in Hk. apply (nth_map_lt (fun f => C * Rpower f (- beta)) freq k 0). lia. }
  eexists. split.
  { apply (beta_eq lo hi b name freq HB HF _ p HY HK). intros y k Hy Hk. unfold power_law in Hy. apply in_map_iff in Hy.
    destruct Hy as (C & <- & IC). rewrite NK by trivial. apply Rmult_lt_0_compat; [auto|unfold Rpower; apply exp_pos]. }
  assert (L : forall C, In C Cs -> line lo hi b freq (map (fun f => C * Rpower f (- beta)) freq) = (- beta, logb b C)).
  { intros C IC. unfold line.
    replace (map (fun k => logb b (nth k (map (fun f => C * Rpower f (- beta)) freq) 0)) (band_index lo hi freq))
      with (map (fun t => - beta * t + logb b C) (map (fun k => logb b (nth k freq 0)) (band_index lo hi freq))).
    - apply ols_exact. destruct H2 as (k & k' & Ik & Ik' & N). exists (logb b (nth k freq 0)), (logb b (nth k' freq 0)).
      repeat split; try (apply in_map_iff; eexists; split; [reflexivity|assumption]).
      intros X. apply N. apply ln_inv; auto. unfold logb in X. apply (f_equal (fun t => t * ln b)) in X. field_simplify in X; lra.
    - rewrite map_map. apply map_ext_in. intros k Hk. rewrite NK, logb_power by (auto; lra). reflexivity. }
  cbn [fr_beta fr_log_C].
  assert (HN : Cs <> []) by (intros ->; destruct HY as [_ [(y & X & _)|(X & _)]]; [discriminate|contradiction]).
  split.
  - destruct Cs as [|C0 Cs]; [contradiction|]. unfold power_law. cbn [map nth]. rewrite L by (simpl; auto). reflexivity.
  - unfold power_law. rewrite map_map. apply map_ext_in. intros C IC. now rewrite L.
Qed.
Print Assumptions C52_power_law.

(** hence the documented exponent is never returned, unless it is 0 *)
Theorem C52_documented_sign_refuted :
  forall freq beta Cs p lo hi b name r,
  holds (length freq) (power_law freq beta Cs) p -> base_of name b -> Forall (fun C => 0 < C) Cs ->
  (forall k, In k (band_index lo hi freq) -> 0 < nth k freq 0) ->
  (exists k k', In k (band_index lo hi freq) /\ In k' (band_index lo hi freq) /\ nth k freq 0 <> nth k' freq 0) ->
  estimate_beta freq p (lo, hi) name = Ok r -> beta <> 0 -> fr_beta r <> beta.
Proof.
  intros freq beta Cs p lo hi b name r HY HB HC HF H2 E NZ.
  destruct (C52_power_law freq beta Cs p lo hi b name HY HB HC HF H2) as (r' & E' & B & _). rewrite E in E'. injection E' as <-. lra.
Qed.
Print Assumptions C52_documented_sign_refuted.

(** a band that holds one frequency only (repeated or not) does not determine a slope: 0 is returned as the exponent,
    whatever the spectrum, and log C is the mean of the logarithms of the spectrum in the band *)
Lemma ols_flat (x y : list R) a : (forall t, In t x -> t = a) -> x <> [] -> length x = length y ->
  ols x y = (0, fold_right Rplus 0 y / INR (length y)).
Proof.
  intros H Hne L. unfold ols. assert (Hn : 0 < INR (length x)) by (apply lt_0_INR; destruct x; [contradiction|cbn; lia]).
  assert (E : fold_right Rplus 0 x = INR (length x) * a).
  { clear - H. induction x as [|t x IH]; [cbn; ring|]. cbn [fold_right]. rewrite IH by (intros; apply H; now right).
    rewrite (H t) by (now left). cbn [length]. rewrite S_INR. ring. }
  rewrite E. replace (INR (length x) * a / INR (length x)) with a by (field; lra).
  assert (Z : fold_right Rplus 0 (map (fun b => (b - a) * (b - a)) x) = 0).
  { clear - H. induction x as [|t x IH]; [reflexivity|]. cbn [map fold_right]. rewrite IH by (intros; apply H; now right).
    rewrite (H t) by (now left). ring. }
  rewrite Z. destruct (Req_EM_T 0 0); [|lra]. f_equal. rewrite L. ring.
Qed.
Theorem C52_one_frequency :
  forall freq Y p lo hi b name f0,
  holds (length freq) Y p -> base_of name b -> 0 < f0 -> band_index lo hi freq <> [] ->
  (forall k, In k (band_index lo hi freq) -> nth k freq 0 = f0 /\ forall y, In y Y -> 0 < nth k y 0) ->
  exists r, estimate_beta freq p (lo, hi) name = Ok r /\ fr_beta r = 0 /\
    fr_log_C r = map (fun y => mean (map (fun k => logb b (nth k y 0)) (band_index lo hi freq))) Y.
Proof.
  intros freq Y p lo hi b name f0 HY HB Hf0 HK HP.
  assert (HF : forall k, In k (band_index lo hi freq) -> 0 < nth k freq 0) by (intros k Hk; destruct (HP k Hk) as [-> _]; trivial).
  eexists. split; [apply (beta_eq lo hi b name freq HB HF Y p HY HK); intros; now apply HP|].
  assert (L : forall y, line lo hi b freq y = (0, mean (map (fun k => logb b (nth k y 0)) (band_index lo hi freq)))).
  { intros y. unfold line. rewrite (ols_flat _ _ (logb b f0)); [reflexivity| | |now rewrite !map_length].
    - intros t Ht. apply in_map_iff in Ht as (k & <- & Hk). now destruct (HP k Hk) as [-> _].
    - destruct (band_index lo hi freq); [contradiction|discriminate]. }
  cbn [fr_beta fr_log_C]. split; [now rewrite L|]. apply map_ext. intros y. now rewrite L.
Qed.
Print Assumptions C52_one_frequency.

(** inputs without a result: null frequency in the band (although the code means to drop it),
    empty band, a value that is not a positive number *)
Lemma all_finite_in l x : In x l -> (forall r, x <> Fin r) -> all_finite l = None.
Proof.
  intros I N. destruct (all_finite l) as [r|] eqn:E; [|reflexivity]. apply all_finite_inv in E. subst l. unfold fin in I.
  apply in_map_iff in I. destruct I as (a & <- & _). exfalso. now apply (N a).
Qed.
Lemma select_In {A} (mask : list bool) (l : list A) d k : nth k mask false = true -> (k < length l)%nat -> In (nth k l d) (select mask l).
Proof.
  revert l k. induction mask as [|m mask IH]; intros l k E Hk; [destruct k; discriminate|].
  destruct l as [|a l]; [simpl in Hk; lia|]. destruct k as [|k].
  - cbn [nth] in E. subst m. simpl. auto.
  - cbn [nth] in E |- *. simpl in Hk. destruct m; cbn [select]; [right|]; apply IH; trivial; lia.
Qed.
Lemma log_function_finite name g : log_function name = Some g -> forall x, (forall r, 0 < r -> x <> Fin r) -> forall r, g x <> Fin r.
Proof.
  unfold log_function. destruct (String.eqb name "log2"), (String.eqb name "log"); intros E; try discriminate E; injection E as <-;
  intros x H r; unfold xlog2, xln; destruct x as [a| | |]; try discriminate; destruct (Rlt_dec 0 a) as [P|P];
  try (now apply H in P); try (exfalso; exact (H a P eq_refl)); destruct (Req_EM_T a 0); discriminate.
Qed.
Lemma mapM_some {A B} (f : A -> res B) l r x : mapM f l = Ok r -> In x l -> exists y, f x = Ok y.
Proof.
  revert r. induction l as [|a l IH]; intros r E Hx; [destruct Hx|]. cbn in E. destruct (f a) as [y|] eqn:Ef; [|discriminate]. cbn in E.
  destruct (mapM f l) as [t|] eqn:Em; [|discriminate]. destruct Hx as [<-|Hx]; [eauto|]. now apply (IH t).
Qed.
Lemma log_function_nan name g : log_function name = Some g -> g = xlog2 \/ g = xln.
Proof. unfold log_function. destruct (String.eqb name "log2"); [intros E; injection E as <-; auto|]. destruct (String.eqb name "log"); [intros E; injection E as <-; auto|discriminate]. Qed.
Theorem C52_no_result :
  forall freq p lo hi name,
  (* a null frequency in the band *)
  ((exists k, (k < length freq)%nat /\ nth k freq 0 = 0 /\ lo <= 0 <= hi) ->
   forall r, estimate_beta freq p (lo, hi) name <> Ok r) /\
  (* nothing in the band *)
  ((forall f, In f freq -> ~ (lo <= f <= hi)) -> forall r, estimate_beta freq p (lo, hi) name <> Ok r) /\
  (* a spectrum value in the band that is not a positive number *)
  (forall v k, p = PSD1 v -> (k < length freq)%nat -> lo <= nth k freq 0 <= hi ->
     (forall x, 0 < x -> nth k v NaN <> Fin x) -> forall r, estimate_beta freq p (lo, hi) name <> Ok r).
Proof.
  intros freq p lo hi name. unfold estimate_beta. cbn [fst snd]. split; [|split].
  - intros (k & Hk & Z & B) r. destruct (negb _); [discriminate|]. unfold log_psd.
    assert (X : existsb (fun f => if Req_EM_T f 0 then true else false) (select (map (in_band lo hi) freq) freq) = true).
    { apply existsb_exists. exists 0. split; [|destruct (Req_EM_T 0 0); [reflexivity|lra]].
      rewrite <- Z. apply select_In; trivial. rewrite (nth_map_lt _ _ _ 0) by trivial. rewrite Z. now apply in_band_spec. }
    rewrite X. destruct (select_psd _ p); cbn [bind]; [discriminate|]. destruct (Nat.eqb nrep 1); cbn [bind]; [|discriminate].
    destruct (log_function name); cbn [bind]; discriminate.
  - intros H r. destruct (negb _); [discriminate|].
    assert (X : select (map (in_band lo hi) freq) freq = []).
    { rewrite select_filter. destruct (filter (in_band lo hi) freq) as [|f l] eqn:E; [reflexivity|].
      assert (I : In f (filter (in_band lo hi) freq)) by (rewrite E; simpl; auto). apply filter_In in I. destruct I as [I1 I2].
      apply in_band_spec in I2. exfalso. now apply (H f). }
    rewrite X. unfold log_psd. cbn [existsb]. destruct (log_function name); cbn [bind map regressor_fit]; discriminate.
  - intros v k -> Hk B N r. cbn [psd_len select_psd]. destruct (Nat.eqb_spec (length v) (length freq)) as [L|L]; cbn [negb]; [|discriminate].
    unfold log_psd. destruct (existsb _ _); cbn [bind]; [discriminate|]. destruct (log_function name) as [g|] eqn:G; cbn [bind]; [|discriminate].
    cbn [regressor_fit map_psd]. destruct (map (fun f => g (Fin f)) _); cbn [bind]; [discriminate|].
    destruct (all_finite _); cbn [bind]; [|discriminate].
    rewrite (all_finite_in _ (g (nth k v NaN))); [cbn [bind]; discriminate| |].
    + apply in_map. apply select_In; [|lia]. rewrite (nth_map_lt _ _ _ 0) by trivial. now apply in_band_spec.
    + apply (log_function_finite name g G). exact N.
Qed.
Print Assumptions C52_no_result.
(** the same for several realisations: a value in the band that is not a positive number, in any realisation, prevents every
    result; without any realisation the regression is refused *)
Theorem C52_no_result_rows :
  forall freq nrep rows lo hi name,
  (forall k r, (r < nrep)%nat -> (k < length freq)%nat -> lo <= nth k freq 0 <= hi ->
     (forall x, 0 < x -> nth r (nth k rows []) NaN <> Fin x) -> forall t, estimate_beta freq (PSD2 nrep rows) (lo, hi) name <> Ok t) /\
  (forall b, nrep = 0%nat -> length rows = length freq -> base_of name b -> (exists f, In f freq /\ lo <= f <= hi) ->
     (forall f, In f freq -> lo <= f <= hi -> 0 < f) -> estimate_beta freq (PSD2 nrep rows) (lo, hi) name = Err ValueError).
Proof.
  intros freq nrep rows lo hi name. unfold estimate_beta. cbn [fst snd psd_len select_psd]. split.
  - intros k r Hr Hk B N t. destruct (Nat.eqb_spec (length rows) (length freq)) as [L|L]; cbn [negb]; [|discriminate].
    unfold log_psd. destruct (existsb _ _); cbn [bind].
    { destruct (Nat.eqb nrep 1); cbn [bind]; [|discriminate]. destruct (log_function name); cbn [bind regressor_fit]; discriminate. }
    destruct (log_function name) as [g|] eqn:G; cbn [bind]; [|discriminate].
    cbn [regressor_fit map_psd]. destruct (map (fun f => g (Fin f)) _); cbn [bind]; [discriminate|].
    destruct (all_finite _) as [xs0|]; cbn [bind]; [|discriminate]. destruct (Nat.eqb nrep 0); cbn [bind]; [discriminate|].
    intros E. match type of E with bind (mapM ?f ?l) _ = _ => destruct (mapM f l) as [fits|] eqn:M; [|discriminate]; assert (K := mapM_some f l fits r M) end.
    destruct K as [y K]; [apply in_seq; lia|]. cbv beta in K. rewrite (all_finite_in _ (g (nth r (nth k rows []) NaN))) in K; [discriminate| |].
    + apply in_map_iff. exists (map g (nth k rows [])). split.
      * destruct (Nat.lt_ge_cases r (length (nth k rows []))) as [Lr|Lr]; [now rewrite (nth_map_lt _ _ _ NaN)|].
        rewrite !nth_overflow by (rewrite ?map_length; trivial).
        destruct (log_function_nan name g G) as [-> | ->]; reflexivity.
      * apply (in_map (map g)). apply select_In; [|lia]. rewrite (nth_map_lt _ _ _ 0) by trivial. now apply in_band_spec.
    + apply (log_function_finite name g G). exact N.
  - intros b -> L HB (f & If & Bf) HP. rewrite L, Nat.eqb_refl. cbn [negb].
    destruct (base_log name b HB) as (g & G & GP). rewrite select_filter.
    assert (FP : forall v, In v (filter (in_band lo hi) freq) -> 0 < v).
    { intros v Hv. apply filter_In in Hv as [H1 H2]. apply in_band_spec in H2. now apply HP. }
    unfold log_psd. destruct (existsb _ (filter _ _)) eqn:X.
    { apply existsb_exists in X as (v & Hv & E). destruct (Req_EM_T v 0); [|discriminate]. specialize (FP v Hv). lra. }
    rewrite G. cbn [bind regressor_fit map_psd].
    rewrite (map_ext_in (fun f => g (Fin f)) (fun f => Fin (logb b f))) by (intros v Hv; apply GP, FP, Hv).
    rewrite <- (map_map (logb b) Fin). change (map Fin ?l) with (fin l). rewrite all_finite_fin.
    destruct (filter (in_band lo hi) freq) as [|f0 l0] eqn:E; [|reflexivity].
    exfalso. assert (I0 : In f (filter (in_band lo hi) freq)) by (apply filter_In; split; [trivial|now apply in_band_spec]). rewrite E in I0. destruct I0.
Qed.
Print Assumptions C52_no_result_rows.
