(** * Property C68: [Signal.psd_difference] *)
From Coq Require Import Reals List ZArith Bool Lra Lia String Sorted Permutation.
From Verif Require Import XReal PyBase ModelUtils ModelMRQ ModelStructure ModelCumulants ModelSpectrum ModelEstimation
  ModelWavelet ModelMFA ModelPSD ModelSignal Spec LXReal LUtils LBase LFilter LWave LSignal PropsSignal.
Import ListNotations.
Open Scope R_scope.
Local Notation length := List.length.

Lemma index_of_nth f l i : index_of f l = Some i -> nth_error l i = Some f.
Proof.
  revert i. induction l as [|a l IH]; intros i; [discriminate|]. cbn [index_of]. destruct (Req_EM_T a f) as [->|N].
  - intros E. injection E as <-. reflexivity.
  - destruct (index_of f l) as [k|]; [|discriminate]. intros E. injection E as <-. cbn. now apply IH.
Qed.
Lemma index_of_In f l : In f l -> exists i, index_of f l = Some i.
Proof.
  induction l as [|a l IH]; [contradiction|]. cbn [index_of]. destruct (Req_EM_T a f) as [->|N]; [eauto|].
  intros [E|H]; [congruence|]. destruct (IH H) as [i ->]. cbn. eauto.
Qed.
Lemma nth_error_unique (l : list R) i k x : NoDup l -> nth_error l i = Some x -> nth_error l k = Some x -> i = k.
Proof.
  intros N A B. rewrite NoDup_nth_error in N. apply N; [|congruence]. apply nth_error_Some. congruence.
Qed.
Lemma sorted_strict l : StronglySorted Rle l -> NoDup l -> StronglySorted Rlt l.
Proof.
  induction 1 as [|a l S IH F]; intros N; constructor; inversion N; subst; auto.
  rewrite Forall_forall in *. intros x Hx. destruct (F x Hx) as [L|E]; [exact L|]. subst. contradiction.
Qed.
Lemma insertR_perm x l : Permutation (x :: l) (insertR x l).
Proof.
  induction l as [|y l IH]; cbn; [auto|]. destruct (Rle_dec x y); [auto|].
  rewrite perm_swap. now constructor.
Qed.
Lemma sortR_perm l : Permutation l (sortR l).
Proof. induction l as [|x l IH]; cbn; [auto|]. rewrite IH at 1. apply insertR_perm. Qed.

Section Inter.
Variables a b : list R.
Let pick (f : R) := match index_of f a, index_of f b with Some i, Some k => [(f, i, k)] | _, _ => [] end.
Lemma pick_In f t : In t (pick f) -> fst (fst t) = f /\ nth_error a (snd (fst t)) = Some f /\ nth_error b (snd t) = Some f.
Proof.
  unfold pick. destruct (index_of f a) as [i|] eqn:A; [|intros []]. destruct (index_of f b) as [k|] eqn:B; [|intros []].
  intros [<-|[]]. cbn. repeat split; now apply index_of_nth.
Qed.
Lemma inter_spec t : In t (intersect a b) ->
  nth_error a (snd (fst t)) = Some (fst (fst t)) /\ nth_error b (snd t) = Some (fst (fst t)).
Proof.
  intros H. apply in_flat_map in H as (f & _ & H). destruct (pick_In f t H) as (-> & A & B). auto.
Qed.
Lemma inter_In x : In x (map (fun t => fst (fst t)) (intersect a b)) <-> In x a /\ In x b.
Proof.
  rewrite in_map_iff. split.
  - intros (t & <- & H). apply inter_spec in H as [A B]. split; eapply nth_error_In; eassumption.
  - intros [A B]. destruct (index_of_In x a A) as [i Ei], (index_of_In x b B) as [k Ek].
    exists (x, i, k). split; [reflexivity|]. apply in_flat_map. exists x. split; [now apply sortR_In|]. rewrite Ei, Ek. now left.
Qed.
Lemma inter_sorted : NoDup a -> StronglySorted Rlt (map (fun t => fst (fst t)) (intersect a b)).
Proof.
  intros N. assert (S : StronglySorted Rlt (sortR a)).
  { apply sorted_strict; [apply sortR_sorted|]. eapply Permutation_NoDup; [apply sortR_perm|exact N]. }
  unfold intersect. fold pick. induction S as [|f l S IH F]; [constructor|]. cbn [flat_map]. rewrite map_app.
  assert (G : Forall (Rlt f) (map (fun t : R * nat * nat => fst (fst t)) (flat_map pick l))).
  { rewrite Forall_forall in *. intros x Hx. apply in_map_iff in Hx as (t & <- & Ht). apply in_flat_map in Ht as (g & Hg & Ht).
    destruct (pick_In g t Ht) as (-> & _). auto. }
  unfold pick at 1. destruct (index_of f a); [|exact IH]. destruct (index_of f b); [|exact IH]. cbn. now constructor.
Qed.
End Inter.

Lemma map2_map {A B C D} (f : B -> C -> D) (g : A -> B) (h : A -> C) l : map2 f (map g l) (map h l) = map (fun x => f (g x) (h x)) l.
Proof. unfold map2. induction l as [|x l IH]; trivial. cbn. now rewrite IH. Qed.

(** the rows of the two spectra at a common frequency *)
Definition common_rows (f f' : list R) (rows rows' : list (list xr)) (x : R) (u v : list xr) : Prop :=
  exists i k, nth_error f i = Some x /\ nth_error f' k = Some x /\ u = nth i rows [] /\ v = nth k rows' [].

Theorem C68_difference : forall s o f f' rows rows',
  s_wt_psd s = Some (mkPSD f (PSD2 1 rows)) -> s_wt_psd o = Some (mkPSD f' (PSD2 1 rows')) ->
  NoDup f -> NoDup f' ->
  exists d g diff,
    psd_difference s o None = Ok d /\ s_wt_psd d = Some (mkPSD g (PSD2 1 diff)) /\ s_fs d = s_fs s /\ s_log d = s_log s /\
    (* the common frequencies in increasing order *)
    StronglySorted Rlt g /\ (forall x, In x g <-> In x f /\ In x f') /\ length diff = length g /\
    (* and the difference of the two spectra there *)
    (forall m x u v, nth_error g m = Some x -> common_rows f f' rows rows' x u v -> nth m diff [] = map2 xsub u v).
Proof.
  intros s o f f' rows rows' Hs Ho N N'. unfold psd_difference. rewrite Hs, Ho. cbn [psd_freq psd_psd psd_rows bind].
  rewrite map2_map. set (c := intersect f f').
  do 3 eexists. split; [reflexivity|]. split; [reflexivity|]. split; [reflexivity|]. split; [reflexivity|].
  split; [now apply inter_sorted|]. split; [apply inter_In|]. split; [now rewrite !map_length|].
  intros m x u v Hx (i & k & Hi & Hk & -> & ->). rewrite nth_error_map in Hx. destruct (nth_error c m) as [t|] eqn:T; [|discriminate].
  injection Hx as Hx. subst x. destruct (inter_spec f f' t (nth_error_In _ _ T)) as [A B].
  rewrite (nth_error_unique f i (snd (fst t)) _ N Hi A), (nth_error_unique f' k (snd t) _ N' Hk B).
  apply nth_error_nth. rewrite nth_error_map, T. reflexivity.
Qed.
Print Assumptions C68_difference.

(** with a pair (logarithm, inverse): the inverse is applied to the difference of the logarithms, shifted so
    that its smallest value is 1/10 *)
Lemma fold_xmin l a : exists m, fold_left xmin (map Fin l) (Fin a) = Fin m /\ In m (a :: l) /\ forall x, In x (a :: l) -> m <= x.
Proof.
  revert a. induction l as [|b l IH]; intros a.
  - exists a. cbn. repeat split; auto. intros x [->|[]]. apply Rle_refl.
  - cbn [map fold_left xmin]. destruct (IH (Rmin a b)) as (m & E & I & L). exists m. split; [exact E|]. split.
    + destruct I as [<-|I]; [|right; now right]. unfold Rmin. destruct (Rle_dec a b); [now left|right; now left].
    + intros x [<-|[<-|Hx]].
      * apply Rle_trans with (Rmin a b); [apply L; now left|apply Rmin_l].
      * apply Rle_trans with (Rmin a b); [apply L; now left|apply Rmin_r].
      * apply L. now right.
Qed.
Lemma concat_fin (D : list (list R)) : List.concat (map (map Fin) D) = map Fin (List.concat D).
Proof. induction D as [|r D IH]; cbn; trivial. now rewrite IH, map_app. Qed.

Theorem C68_log_difference : forall s o f f' rows rows' g ginv,
  s_wt_psd s = Some (mkPSD f (PSD2 1 rows)) -> s_wt_psd o = Some (mkPSD f' (PSD2 1 rows')) ->
  NoDup f -> NoDup f' ->
  forall d0 G (L : list (list R)), L <> [] -> Forall (fun r => r <> []) L ->
  (* L: the differences of the logarithms, row by row, as given by the plain difference of the logged spectra *)
  psd_difference (set_wt_psd s (Some (mkPSD f (PSD2 1 (map (map g) rows))))) (set_wt_psd o (Some (mkPSD f' (PSD2 1 (map (map g) rows'))))) None = Ok d0 ->
  s_wt_psd d0 = Some (mkPSD G (PSD2 1 (map (map Fin) L))) ->
  exists d m, psd_difference s o (Some (g, ginv)) = Ok d /\
    s_wt_psd d = Some (mkPSD G (PSD2 1 (map (map (fun v => ginv (Fin (v - m + 1/10)))) L))) /\
    In m (List.concat L) /\ forall v, In v (List.concat L) -> m <= v.
Proof.
  intros s o f f' rows rows' g ginv Hs Ho N N' d0 G L NL FL H0 HG.
  unfold psd_difference in H0. cbn [s_wt_psd set_wt_psd psd_freq psd_psd psd_rows bind] in H0. injection H0 as <-. cbn [s_wt_psd] in HG.
  injection HG as <- HL.
  unfold psd_difference. rewrite Hs, Ho. cbn [psd_freq psd_psd psd_rows bind].
  set (c := intersect f f') in *.
  assert (E : forall (r : list (list xr)) i, nth i (map (map g) r) [] = map g (nth i r [])).
  { intros r i. change (@nil xr) with (map g []) at 1. apply map_nth. }
  assert (X : map2 (map2 xsub) (map (map g) (map (fun t : R * nat * nat => nth (snd (fst t)) rows []) c))
                (map (map g) (map (fun t : R * nat * nat => nth (snd t) rows' []) c)) = map (map Fin) L).
  { rewrite <- HL, !map_map, !map2_map. apply map_ext. intros t. now rewrite !E. }
  rewrite X. unfold array_min. rewrite concat_fin.
  destruct (List.concat L) as [|x l] eqn:C.
  { destruct L as [|r L]; [contradiction|]. inversion FL; subst. destruct r; [contradiction|discriminate C]. }
  cbn [map]. destruct (fold_xmin l x) as (m & M & I & B). rewrite M. cbn [bind].
  eexists. exists m. split; [reflexivity|]. split; [|auto]. cbn [s_wt_psd]. do 3 f_equal.
  rewrite map_map. apply map_ext. intros r. rewrite map_map. apply map_ext. intros v. reflexivity.
Qed.
Print Assumptions C68_log_difference.

(** the frequencies of a wavelet spectrum never repeat *)
Lemma wavelet_freq_NoDup fs n : fs <> 0 -> NoDup (wavelet_freq fs n).
Proof.
  intros H. unfold wavelet_freq. apply FinFun.Injective_map_NoDup; [|apply seq_NoDup].
  intros i k E. assert (P : 0 < 2) by lra. 
  assert (A := pow_lt 2 (i + 1) P). assert (B := pow_lt 2 (k + 1) P).
  assert (E' : 2 ^ (i + 1) = 2 ^ (k + 1)).
  { apply (Rmult_eq_reg_l (3 / 4 * fs / 2 ^ (i + 1))).
    - rewrite E at 2. field. lra.
    - apply Rmult_integral_contrapositive_currified; [lra|]. apply Rinv_neq_0_compat. lra. }
  destruct (Nat.lt_trichotomy i k) as [L|[L|L]]; trivial; exfalso.
  - assert (X := Rlt_pow 2 (i+1) (k+1) ltac:(lra) ltac:(lia)). lra.
  - assert (X := Rlt_pow 2 (k+1) (i+1) ltac:(lra) ltac:(lia)). lra.
Qed.

(** REFUTED: the returned Signal cannot be used for any further estimation, not even for the slope of the difference *)
Theorem C68_result_unusable_refuted : forall pywt num s o log d, psd_difference s o log = Ok d -> s_wt_psd_param s = None ->
  (forall p, exists e, snd (estimate_wavelet_psd pywt d p) = Err e) /\
  (forall n band, exists e, snd (m_fractal_analysis pywt d n band) = Err e) /\
  (forall p, exists e, snd (estimate_welch_psd num d p) = Err e) /\
  (forall p, exists e, snd (m_wavelet_analysis pywt d p) = Err e).
Proof.
  intros pywt num s o log d E W. unfold psd_difference in E. destruct (s_wt_psd s); [|discriminate]. destruct (s_wt_psd o); [|discriminate].
  destruct (match log with None => _ | Some _ => _ end) as [diff|e]; [|discriminate]. cbn [bind] in E. injection E as <-. rewrite W.
  split; [intros q; eexists; reflexivity|]. split; [intros n band; eexists; reflexivity|]. split; intros q; eexists; reflexivity.
Qed.
Print Assumptions C68_result_unusable_refuted.

(** two spectra on grids sharing one frequency *)
Example C68_case :
  let s := set_wt_psd (fresh [] 2 "log2") (Some (mkPSD [3/4; 3/8] (PSD2 1 [[Fin 5]; [Fin 7]]))) in
  let o := set_wt_psd (fresh [] 1 "log2") (Some (mkPSD [3/8; 3/16] (PSD2 1 [[Fin 3]; [Fin 9]]))) in
  exists d, psd_difference s o None = Ok d /\ exists g, s_wt_psd d = Some (mkPSD g (PSD2 1 [map2 xsub [Fin 7] [Fin 3]])).
Proof.
  cbv zeta. set (s := set_wt_psd _ _). set (o := set_wt_psd (fresh [] 1 _) _).
  destruct (C68_difference s o [3/4; 3/8] [3/8; 3/16] _ _ eq_refl eq_refl) as (d & g & diff & A & B & _ & _ & S & I & L & V).
  - repeat constructor; cbn; intros H; repeat destruct H as [H|H]; lra.
  - repeat constructor; cbn; intros H; repeat destruct H as [H|H]; lra.
  - exists d. split; [exact A|]. exists g. rewrite B. do 3 f_equal.
    assert (G : g = [3/8]).
    { assert (X : In (3/8) g) by (apply I; cbn; auto). assert (N := sorted_lt_NoDup _ S).
      assert (U : forall x, In x g -> x = 3/8). { intros x Hx. apply I in Hx as [[H|[H|[]]] [K|[K|[]]]]; lra. }
      destruct g as [|a [|b g]].
      - destruct X.
      - f_equal. apply U. now left.
      - exfalso. inversion N; subst. apply H1. rewrite (U a), (U b); cbn; auto. }
    subst g. destruct diff as [|r [|]]; try discriminate L. f_equal.
    apply (V 0%nat (3/8) [Fin 7] [Fin 3]); [reflexivity|]. exists 1%nat, 0%nat. repeat split.
Qed.
