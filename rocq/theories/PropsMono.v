(** * Properties C40, C41, C42: exact monofractals, hmin, compute_hurst *)
From Coq Require Import Reals List ZArith Bool Lra Lia String.
From Verif Require Import XReal PyBase ModelUtils ModelMRQ ModelStructure ModelCumulants ModelSpectrum ModelEstimation Spec SpecMRQ LXReal LReg LUtils LBase LPattern LEst LMoment LCum LEntropy PropsEstimators PropsCumulants PropsSpectrum.
Import ListNotations.
Open Scope R_scope.

(** ** estimate_hmin *)
Lemma mapM_in {A B} (f : A -> res B) l r x : mapM f l = Ok r -> In x l -> exists y, f x = Ok y.
Proof.
  revert r. induction l as [|a l IH]; intros r E Hx; [contradiction|]. cbn [mapM] in E.
  destruct (f a) as [b|] eqn:Ef; [|discriminate]. cbn [bind] in E.
  destruct (mapM f l) as [bs|] eqn:El; [|discriminate].
  destruct Hx as [<-|Hx]; [eauto|]. eapply IH; trivial.
Qed.
Lemma hmin_nonempty m g nrep j1 j2 wd warn h : regular m g nrep -> (1 <= j1)%Z -> (j1 <= j2)%Z -> (j2 <= Z.of_nat g)%Z ->
  estimate_hmin m j1 j2 wd warn = Ok h ->
  forall j r, (j1 <= j <= j2)%Z -> (r < nrep)%nat -> column m j r <> [].
Proof.
  intros (G & S & K & L) H1 H2 H3 E j r Hj Hr. unfold estimate_hmin in E.
  destruct (dict_get_Some (mq_values m) 1) as [a1 Ha1].
  { change (In 1%Z (scales m)). rewrite S. apply one_to_In. lia. }
  unfold dict_getitem at 1 in E. rewrite Ha1 in E. cbn [bind] in E. rewrite (L _ _ Ha1) in E.
  destruct (Z.ltb_spec (j2 - j1 + 1) 0); [lia|].
  match type of E with bind ?x _ = _ => destruct x as [rows|] eqn:Er; [|discriminate] end.
  destruct (mapM_in _ _ _ j Er) as [y Hy]; [apply zrange_In; lia|].
  destruct (dict_get_Some (mq_values m) j) as [a Ha].
  { change (In j (scales m)). rewrite S. apply one_to_In. lia. }
  unfold dict_getitem in Hy. rewrite Ha in Hy. cbn [bind] in Hy.
  destruct (mapM_in _ _ _ r Hy) as [z Hz]; [apply in_seq; lia|].
  unfold column. rewrite Ha. unfold sup_col in Hz. destruct (nth r a []); [discriminate|]. congruence.
Qed.
Lemma HMIN_rows m g nrep j1 j2 wd warn h : regular m g nrep -> (1 <= j1)%Z -> (j1 <= j2)%Z -> (j2 <= Z.of_nat g)%Z ->
  estimate_hmin m j1 j2 wd warn = Ok h ->
  h = mkHmin (map (fun r => fslope wd m j1 j2 r (lsup m r)) (seq 0 nrep))
         (map (fun r => ficept wd m j1 j2 r (lsup m r)) (seq 0 nrep))
         (map (fun r => map (lsup m r) (zrange j1 (j2 + 1))) (seq 0 nrep))
         (zero_in (map (fun r => fslope wd m j1 j2 r (lsup m r)) (seq 0 nrep)) && warn).
Proof.
  intros HR H1 H2 H3 E. assert (N := hmin_nonempty m g nrep j1 j2 wd warn h HR H1 H2 H3 E).
  rewrite (HMIN_eq m g nrep HR) in E by trivial. now injection E as <-.
Qed.
Lemma nth_seq_map {A} (F : nat -> A) nrep r d : (r < nrep)%nat -> nth r (map F (seq 0 nrep)) d = F r.
Proof. intros. rewrite (nth_map_lt _ _ _ 0%nat) by (now rewrite seq_length). now rewrite seq_nth. Qed.
Lemma lsup_eq m j r : usable m j r -> exists x, is_max x (map Rabs (numbers m j r)) /\
  (0 < x -> lsup m r j = Fin (ln x / ln 2)).
Proof.
  intros [U1 U2]. unfold lsup.
  destruct (map_no_inf xabs Rabs (column m j r)) as [A B]; [trivial|reflexivity|reflexivity|].
  destruct (nanmax_spec _ A) as [[E _]|(x & E & M)].
  - rewrite B in E. unfold numbers in U2. destruct (reals (column m j r)); [congruence|discriminate].
  - exists x. rewrite B in M. split; [exact M|]. intros P. rewrite E. now apply xlog2_pos.
Qed.

(** ** C40: exact monofractals *)
(** every number stored for realisation r at the scales j1..j2 has the modulus
    c 2^(j h) *)
Definition monofractal (m : mrq) (j1 j2 : Z) (r : nat) (c h : R) : Prop :=
  0 < c /\ forall j, (j1 <= j <= j2)%Z -> usable m j r /\
    forall a, In a (numbers m j r) -> Rabs a = c * Rpower 2 (IZR j * h).

Section Mono.
Variables (m : mrq) (j1 j2 : Z) (r : nat) (c h : R).
Hypothesis HM : monofractal m j1 j2 r c h.
Let A (j : Z) := c * Rpower 2 (IZR j * h).
Lemma A_pos j : 0 < A j.
Proof. apply Rmult_lt_0_compat; [apply HM|apply exp_pos]. Qed.
Lemma ln_A j : ln (A j) = ln c + IZR j * h * ln 2.
Proof. unfold A. rewrite ln_mult; [|apply HM|apply exp_pos]. unfold Rpower. now rewrite ln_exp. Qed.
Lemma mono_usable j : (j1 <= j <= j2)%Z -> usable m j r.
Proof. intros Hj. now apply HM. Qed.
Lemma mono_abs j a : (j1 <= j <= j2)%Z -> In a (numbers m j r) -> Rabs a = A j.
Proof. intros Hj. now apply HM. Qed.
Lemma mono_nz j : (j1 <= j <= j2)%Z -> no_zero m j r.
Proof.
  intros Hj. apply Forall_forall. intros a Ha ->. assert (E := mono_abs j 0 Hj Ha). rewrite Rabs_R0 in E. assert (P := A_pos j). lra.
Qed.
Lemma mono_ex j : (j1 <= j <= j2)%Z -> Exists (fun a => a <> 0) (numbers m j r).
Proof.
  intros Hj. assert (Z := mono_nz j Hj). assert (U := mono_usable j Hj). destruct U as [_ U]. unfold no_zero in Z. destruct (numbers m j r); [congruence|].
  inversion Z; subst. now left.
Qed.
Lemma mono_sd q j : (j1 <= j <= j2)%Z -> spectrum_defined q m j r.
Proof. intros Hj. split; [now apply mono_usable|]. split; [right; now apply mono_nz|now apply mono_ex]. Qed.
Lemma mono_logS q j : (j1 <= j <= j2)%Z -> logS m (PyFloat q) r j = Fin (q * h * IZR j + q * (ln c / ln 2)).
Proof.
  intros Hj. assert (U := mono_usable j Hj). assert (L2 := ln2_pos).
  assert (E : abs_moment q (numbers m j r) = Rpower (A j) q).
  { apply moment_const; [apply U|apply A_pos|]. intros a Ha. now apply mono_abs. }
  rewrite logS_eq; [|exact U|right; now apply mono_nz|rewrite E; apply exp_pos].
  f_equal. rewrite E. unfold log2R, Rpower at 1. rewrite ln_exp, ln_A. field. lra.
Qed.
Lemma mono_Cval n k j : (1 <= k <= n)%nat -> (j1 <= j <= j2)%Z ->
  Cval m n k r j = Fin ((if Nat.eqb k 1 then h * ln 2 else 0) * IZR j + (if Nat.eqb k 1 then ln c else 0)).
Proof.
  intros Hk Hj. rewrite Cval_eq; [|exact Hk|now apply mono_usable|now apply mono_nz].
  rewrite (kappa_const (logs m j r) (ln (A j))).
  - f_equal. destruct k as [|[|k]]; [lia| |]; cbn [Nat.eqb]; [rewrite ln_A; ring|ring].
  - apply logs_nonempty. now apply mono_usable.
  - intros t Ht. unfold logs in Ht. apply in_map_iff in Ht as (a & <- & Ha). f_equal. now apply mono_abs.
  - lia.
Qed.
Lemma mono_Vval e j : (j1 <= j <= j2)%Z -> Vval m e r j = Fin (h * IZR j + ln c / ln 2).
Proof.
  intros Hj. assert (S := mono_sd (num_val e) j Hj). assert (L2 := ln2_pos).
  rewrite Vval_eq by exact S. f_equal.
  assert (B := Vr_bounds (num_val e) (numbers m j r) (ln (A j) / ln 2) (ln (A j) / ln 2) (sd_s _ _ _ _ S)).
  assert (B' : ln (A j) / ln 2 <= Vr (num_val e) (numbers m j r) <= ln (A j) / ln 2).
  { apply B. intros a Ha _. rewrite (mono_abs j a Hj Ha). unfold log2R. lra. }
  replace (h * IZR j + ln c / ln 2) with (ln (A j) / ln 2) by (rewrite ln_A; field; lra). lra.
Qed.
Lemma mono_Uval q j : counted m -> In j (scales m) -> (j1 <= j <= j2)%Z -> Uval m (PyFloat q) r j = Fin (0 * IZR j + 0).
Proof.
  intros HC Ij Hj. assert (S := mono_sd q j Hj). rewrite Uval_eq by trivial. f_equal. cbn [num_val].
  rewrite legendre by (now apply sd_s).
  assert (V := mono_Vval (PyFloat q) j Hj). rewrite Vval_eq in V by exact S. cbn [num_val] in V. injection V as V.
  assert (L := mono_logS q j Hj). assert (U := mono_usable j Hj).
  rewrite logS_eq in L; [|exact U|right; now apply mono_nz|].
  - injection L as L. rewrite V, L. ring.
  - apply abs_moment_pos; [apply U|right; now apply mono_ex].
Qed.
Lemma mono_lsup j : (j1 <= j <= j2)%Z -> lsup m r j = Fin (h * IZR j + ln c / ln 2).
Proof.
  intros Hj. destruct (lsup_eq m j r (mono_usable j Hj)) as (x & [Mx _] & L). assert (L2 := ln2_pos).
  apply in_map_iff in Mx as (a & <- & Ha). rewrite (mono_abs j a Hj Ha) in L. rewrite L by apply A_pos.
  f_equal. rewrite ln_A. field. lra.
Qed.
Lemma mono_count g nrep : regular m g nrep -> counted m -> (1 <= j1)%Z -> (j2 <= Z.of_nat g)%Z ->
  forall j, (j1 <= j <= j2)%Z -> (0 < count m j r)%nat.
Proof.
  intros HR HC H1 H3 j Hj. rewrite count_numbers; [|exact HC|eapply range_in; eassumption|now apply mono_usable].
  destruct (mono_usable j Hj) as [_ U]. destruct (numbers m j r); [congruence|simpl; lia].
Qed.
End Mono.

Theorem C40_monofractal :
  forall m g nrep qs n j1 j2 wd warn sf cu sp hm,
  regular m g nrep -> counted m -> (1 <= j1)%Z -> (j1 < j2)%Z -> (j2 <= Z.of_nat g)%Z ->
  StructureFunction m (QArr qs) j1 j2 wd = Ok sf ->
  Cumulants m n j1 j2 wd = Ok cu ->
  MultifractalSpectrum m j1 j2 wd (QArr qs) = Ok sp ->
  estimate_hmin m j1 j2 wd warn = Ok hm ->
  forall r c h, (r < nrep)%nat -> monofractal m j1 j2 r c h ->
    (forall i, (i < List.length qs)%nat ->
       at2 (sf_zeta sf) i r = Fin (nth i qs 0 * h) /\
       at2 (ms_hq sp) i r = Fin h /\ at2 (ms_Dq sp) i r = Fin 1) /\
    nth r (sf_H sf) NaN = Fin (h - mq_gamint m) /\
    (forall k, (1 <= k <= n)%nat -> at2 (cu_log_cumulants cu) (k - 1) r = Fin (if Nat.eqb k 1 then h else 0)) /\
    nth r (hm_hmin hm) NaN = Fin h /\
    nth r (hm_intercept hm) NaN = Fin (ln c / ln 2).
Proof.
  intros m g nrep qs n j1 j2 wd warn sf cu sp hm HR HC H1 H2 H3 Ef Ec Es Eh r c h Hr HM.
  assert (Hcnt := mono_count m j1 j2 r c h HM g nrep HR HC H1 H3).
  assert (L2 := ln2_pos). assert (H2' : (j1 <= j2)%Z) by lia.
  assert (FE : forall y a b, (forall j, (j1 <= j <= j2)%Z -> y j = Fin (a * IZR j + b)) ->
     fslope wd m j1 j2 r y = Fin a /\ ficept wd m j1 j2 r y = Fin b).
  { intros y a b Hy. destruct (fit_exact wd m j1 j2 r a b H2 Hcnt) as [F G].
    split; [rewrite <- F; now apply fslope_ext|rewrite <- G; now apply ficept_ext]. }
  assert (HZ : forall q, fslope wd m j1 j2 r (logS m (PyFloat q) r) = Fin (q * h)).
  { intros q. apply (FE _ _ (q * (ln c / ln 2))). intros j Hj. exact (mono_logS m j1 j2 r c h HM q j Hj). }
  split; [|split; [|split]].
  - intros i Hi.
    destruct (SF_rows m g nrep qs j1 j2 wd sf HR H1 H2' H3 Ef i r Hi Hr) as (_ & Z & _).
    assert (Hi' : (i < List.length (q_items (QArr qs)))%nat) by (cbn; now rewrite map_length).
    destruct (MFS_rows m g nrep _ j1 j2 wd sp HR H1 H2' H3 Es i r Hi' Hr) as (_ & D & V).
    cbn [q_items] in *. rewrite nth_PyFloat in * by trivial. rewrite Z, V, D. split; [apply HZ|]. split.
    + apply (FE _ _ (ln c / ln 2)). intros j Hj. exact (mono_Vval m j1 j2 r c h HM (PyFloat (nth i qs 0)) j Hj).
    + destruct (FE (Uval m (PyFloat (nth i qs 0)) r) 0 0) as [F _].
      * intros j Hj. apply (mono_Uval m j1 j2 r c h HM); trivial. eapply range_in; eassumption.
      * rewrite F. cbn. f_equal. ring.
  - assert (E := SF_eq m g nrep HR qs j1 j2 wd H1 H2' H3). rewrite Ef in E.
    destruct (has_two qs); [|discriminate]. injection E as ->. cbn [sf_H].
    rewrite nth_seq_map by trivial. rewrite HZ, xdiv_Fin by lra. cbn. f_equal. lra.
  - intros k Hk. destruct (CUM_rows m g nrep n j1 j2 wd cu HR H1 H2' H3 Ec k r Hk Hr) as (_ & _ & _ & K). rewrite K.
    destruct (FE (Cval m n k r) _ _ (fun j Hj => mono_Cval m j1 j2 r c h HM n k j Hk Hj)) as [F _].
    rewrite F. cbn [xmul]. f_equal. unfold log2_e. rewrite log2_exp. destruct (Nat.eqb k 1); field; lra.
  - apply (HMIN_rows m g nrep) in Eh; trivial. rewrite Eh. cbn [hm_hmin hm_intercept].
    rewrite !nth_seq_map by trivial. apply FE. intros j Hj. exact (mono_lsup m j1 j2 r c h HM j Hj).
Qed.
Print Assumptions C40_monofractal.

(** ** C41: hmin *)
Theorem C41_hmin_best_line :
  forall m g nrep j1 j2 wd warn,
  regular m g nrep -> (1 <= j1)%Z -> (j1 < j2)%Z -> (j2 <= Z.of_nat g)%Z ->
  (forall j r, (j1 <= j <= j2)%Z -> (r < nrep)%nat -> usable m j r /\ (0 < count m j r)%nat) ->
  exists h, estimate_hmin m j1 j2 wd warn = Ok h /\
    List.length (hm_hmin h) = nrep /\
    forall r (x : Z -> R), (r < nrep)%nat ->
      (forall j, (j1 <= j <= j2)%Z -> 0 < x j /\ is_max (x j) (map Rabs (numbers m j r))) ->
      exists a b, nth r (hm_hmin h) NaN = Fin a /\ nth r (hm_intercept h) NaN = Fin b /\
        is_best_line (fit_points wd m j1 j2 r (fun j => ln (x j) / ln 2)) a b.
Proof.
  intros m g nrep j1 j2 wd warn HR H1 H2 H3 HU. assert (H2' : (j1 <= j2)%Z) by lia.
  rewrite (HMIN_eq m g nrep HR j1 j2 wd warn H1 H2' H3).
  2:{ intros j r Hj Hr E. destruct (HU j r Hj Hr) as [[_ U] _]. unfold numbers in U. rewrite E in U. now apply U. }
  eexists. split; [reflexivity|]. cbn [hm_hmin hm_intercept]. split; [now rewrite map_length, seq_length|].
  intros r x Hr Hx.
  assert (W : well_posed (fit_points wd m j1 j2 r (fun j => ln (x j) / ln 2))) by (apply fit_well_posed; trivial; intros; now apply HU).
  destruct (fit_finite wd m j1 j2 r _ W) as [F G].
  exists (LReg.slope (fit_points wd m j1 j2 r (fun j => ln (x j) / ln 2))), (LReg.icept (fit_points wd m j1 j2 r (fun j => ln (x j) / ln 2))).
  assert (X : forall j, (j1 <= j <= j2)%Z -> lsup m r j = Fin (ln (x j) / ln 2)).
  { intros j Hj. destruct (HU j r Hj Hr) as [U _]. destruct (lsup_eq m j r U) as (y & [My1 My2] & L). destruct (Hx j Hj) as [P [Mx1 Mx2]].
    assert (y = x j) by (apply Rle_antisym; auto). subst y. now apply L. }
  rewrite !nth_seq_map by trivial. split; [rewrite <- F; now apply fslope_ext|]. split; [rewrite <- G; now apply ficept_ext|]. now apply best_line.
Qed.
Print Assumptions C41_hmin_best_line.

Lemma zero_in_spec l : zero_in l = true <-> In (Fin 0) l.
Proof.
  unfold zero_in. rewrite existsb_exists. split.
  - intros (v & Hv & E). destruct v; try discriminate. destruct (Req_EM_T r 0); [now subst|discriminate].
  - intros H. exists (Fin 0). split; trivial. destruct (Req_EM_T 0 0); [reflexivity|lra].
Qed.
(** REFUTED: the warning "h_min < 0" is issued exactly when some estimate is
    exactly zero (and warn is set); in particular an estimate that is negative
    for every realisation never warns *)
Theorem C41_warning_refuted :
  forall m g nrep j1 j2 wd warn h,
  regular m g nrep -> (1 <= j1)%Z -> (j1 <= j2)%Z -> (j2 <= Z.of_nat g)%Z ->
  estimate_hmin m j1 j2 wd warn = Ok h ->
  (hm_warned h = true <-> warn = true /\ In (Fin 0) (hm_hmin h)) /\
  ((forall v, In v (hm_hmin h) -> exists a, v = Fin a /\ a < 0) -> hm_warned h = false).
Proof.
  intros m g nrep j1 j2 wd warn h HR H1 H2 H3 E. apply (HMIN_rows m g nrep) in E; trivial. rewrite E. cbn [hm_warned hm_hmin].
  split.
  - rewrite andb_true_iff, zero_in_spec. tauto.
  - intros N. destruct (zero_in _) eqn:Z; [|reflexivity]. apply zero_in_spec in Z. destruct (N _ Z) as (a & Ea & Ha). injection Ea as <-. lra.
Qed.
Print Assumptions C41_warning_refuted.

(** ** C42: compute_hurst *)
(** REFUTED: compute_hurst never returns; on every regular quantity it fails
    with AttributeError after having built the structure function, and
    plot_hmin never returns either *)
Theorem C42_compute_hurst_refuted :
  (forall m j1 j2 wd t, compute_hurst m j1 j2 wd <> Ok t) /\
  (forall m g nrep j1 j2 wd, regular m g nrep -> (1 <= j1)%Z -> (j1 <= j2)%Z -> (j2 <= Z.of_nat g)%Z ->
     (exists s, StructureFunction m (QArr [2]) j1 j2 wd = Ok s) /\
     compute_hurst m j1 j2 wd = Err AttributeError) /\
  (forall m j1 j2 wd warn t, plot_hmin m j1 j2 wd warn <> Ok t).
Proof.
  split; [|split].
  - intros m j1 j2 wd t. unfold compute_hurst. destruct (StructureFunction m (QArr [2]) j1 j2 wd); [|discriminate].
    cbn [bind]. unfold sf_attr_values. vm_compute (existsb _ _). discriminate.
  - intros m g nrep j1 j2 wd HR H1 H2 H3.
    assert (T : In 2 [2]) by now left. apply has_two_In in T.
    assert (E := SF_eq m g nrep HR [2] j1 j2 wd H1 H2 H3). rewrite T in E. split; [eexists; exact E|].
    unfold compute_hurst. rewrite E. cbn [bind]. unfold sf_attr_values. vm_compute (existsb _ _). reflexivity.
  - intros m j1 j2 wd warn t. unfold plot_hmin. destruct (estimate_hmin m j1 j2 wd warn); discriminate.
Qed.
Print Assumptions C42_compute_hurst_refuted.

(** ** A concrete quantity meeting the hypotheses of C28-C42 *)
(** three scales, two realisations, some NaN; realisation 0 is monofractal with
    h = 1, c = 1, realisation 1 is not *)
Definition demo : mrq :=
  add_values (add_values (add_values (new_mrq WaveletCoef 0)
    [[Fin 2; NaN; Fin (-2)]; [Fin 1; Fin 2; Fin 3]] 1)
    [[Fin 4; Fin 4]; [Fin 5; NaN]] 2)
    [[Fin (-8)]; [Fin 7]] 3.
Lemma demo_scale j : (1 <= j <= 3)%Z -> j = 1%Z \/ j = 2%Z \/ j = 3%Z.
Proof. lia. Qed.
Example demo_regular : regular demo 3 2.
Proof.
  split; [lia|]. split; [reflexivity|]. split; [reflexivity|]. intros j a E.
  cbn in E. repeat (destruct (_ =? _)%Z in E; [injection E as <-; reflexivity|]). discriminate.
Qed.
Example demo_counted : counted demo.
Proof.
  intros j a E. cbn in *.
  repeat (destruct (_ =? _)%Z; [injection E as <-; reflexivity|]). discriminate.
Qed.
Example demo_usable j r : (1 <= j <= 3)%Z -> (r < 2)%nat -> usable demo j r /\ no_zero demo j r /\ (0 < count demo j r)%nat.
Proof.
  intros Hj Hr. destruct (demo_scale j Hj) as [-> | [-> | ->]]; (destruct r as [|[|]]; [| |lia]);
  (split; [split; [cbn; repeat (constructor; [first [left; reflexivity|right; eexists; reflexivity]|]); constructor|cbn; discriminate]|];
   split; [repeat (constructor; [lra|]); constructor|cbn; lia]).
Qed.
Example demo_monofractal : monofractal demo 1 3 0 1 1.
Proof.
  assert (P : forall n : nat, Rpower 2 (INR n) = 2 ^ n) by (intros; apply Rpower_pow; lra).
  split; [lra|]. intros j Hj. split; [apply (demo_usable j 0 Hj); lia|]. intros a Ha.
  destruct (demo_scale j Hj) as [-> | [-> | ->]]; cbn in Ha; rewrite Rmult_1_l, Rmult_1_r.
  - replace (IZR 1) with (INR 1) by reflexivity. rewrite P. destruct Ha as [<-|[<-|[]]]; [rewrite Rabs_right|rewrite Rabs_left]; lra.
  - replace (IZR 2) with (INR 2) by (cbn; lra). rewrite P. destruct Ha as [<-|[<-|[]]]; rewrite Rabs_right; lra.
  - replace (IZR 3) with (INR 3) by (cbn; lra). rewrite P. destruct Ha as [<-|[]]; rewrite Rabs_left; lra.
Qed.
Example demo_spectrum_defined q j r : (1 <= j <= 3)%Z -> (r < 2)%nat -> spectrum_defined q demo j r.
Proof.
  intros Hj Hr. destruct (demo_usable j r Hj Hr) as (U & Z & _). split; [exact U|]. split; [now right|].
  destruct U as [_ U]. unfold no_zero in Z. destruct (numbers demo j r); [congruence|]. inversion Z; subst. now left.
Qed.
(** all four estimators succeed on it, on the scales 1..3, weighted or not, with
    q = -1, 0, 2 and three cumulants; the values of realisation 0 *)
Example demo_estimators wd : exists sf cu sp hm,
  StructureFunction demo (QArr [-1; 0; 2]) 1 3 wd = Ok sf /\
  Cumulants demo 3 1 3 wd = Ok cu /\
  MultifractalSpectrum demo 1 3 wd (QArr [-1; 0; 2]) = Ok sp /\
  estimate_hmin demo 1 3 wd true = Ok hm /\
  at2 (sf_zeta sf) 2 0 = Fin (2 * 1) /\ at2 (cu_log_cumulants cu) 0 0 = Fin 1 /\
  at2 (cu_log_cumulants cu) 1 0 = Fin 0 /\ at2 (ms_Dq sp) 0 0 = Fin 1 /\ nth 0 (hm_hmin hm) NaN = Fin 1.
Proof.
  assert (HR := demo_regular).
  assert (T : has_two [-1; 0; 2] = true) by (apply has_two_In; simpl; auto).
  assert (Ef := SF_eq demo 3 2 HR [-1; 0; 2] 1 3 wd ltac:(lia) ltac:(lia) ltac:(lia)). rewrite T in Ef.
  assert (Ec := CUM_eq demo 3 2 HR 3 1 3 wd ltac:(lia) ltac:(lia) ltac:(lia)).
  assert (Es := MFS_eq demo 3 2 HR (QArr [-1; 0; 2]) 1 3 wd ltac:(lia) ltac:(lia) ltac:(lia)).
  assert (Eh := HMIN_eq demo 3 2 HR 1 3 wd true ltac:(lia) ltac:(lia) ltac:(lia)).
  match type of Eh with ?P -> _ => assert (HP : P) end.
  { intros j r Hj Hr E. destruct (demo_usable j r Hj Hr) as ([_ U] & _). unfold numbers in U. rewrite E in U. now apply U. }
  specialize (Eh HP).
  assert (K := C40_monofractal demo 3 2 [-1; 0; 2] 3 1 3 wd true _ _ _ _ HR demo_counted
     ltac:(lia) ltac:(lia) ltac:(lia) Ef Ec Es Eh 0%nat 1 1 ltac:(lia) demo_monofractal).
  destruct K as (K1 & _ & K2 & K3 & _).
  do 4 eexists. split; [exact Ef|]. split; [exact Ec|]. split; [exact Es|]. split; [exact Eh|].
  split; [exact (proj1 (K1 2%nat ltac:(simpl; lia)))|].
  split; [exact (K2 1%nat ltac:(lia))|]. split; [exact (K2 2%nat ltac:(lia))|].
  split; [exact (proj2 (proj2 (K1 0%nat ltac:(simpl; lia))))|exact K3].
Qed.
