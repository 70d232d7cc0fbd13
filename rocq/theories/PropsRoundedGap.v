(** * C96: a scale without any value, in floating point *)
From Coq Require Import Reals List ZArith Bool Lra Lia.
From Verif Require Import XReal PyBase ModelUtils ModelMRQ ModelStructure ModelCumulants ModelSpectrum ModelEstimation ModelRoundedEst ModelRoundedSpec
  Spec SpecMRQ LXReal LReg LUtils LBase LEst LMoment LCum LEntropy LScale LBivariate PropsEstimators PropsCumulants PropsSpectrum PropsMono PropsInvariance PropsFinite PropsStable PropsRoundedEst PropsRoundedSpec.
Import ListNotations.
Open Scope R_scope.
Local Notation length := List.length.

(** all entries of realisation r at scale j are missing *)
Definition missing_scale (m : mrq) (j : Z) (r : nat) : Prop := Forall (fun x => x = NaN) (column m j r).

Section Gap.
Variable F : arith.
Lemma sum_x_NaN l : In NaN l -> sum_x F l = NaN.
Proof.
  intros H. unfold sum_x. assert (A : all_fin l = None).
  { induction l as [|a l IH]; [easy|]. cbn. destruct H as [->|H]; [reflexivity|]. destruct a; trivial. now rewrite IH. }
  rewrite A. now apply xsum_NaN.
Qed.
Lemma mul_x_NaN x : mul_x F x NaN = NaN.
Proof. unfold mul_x, lift2. now destruct x. Qed.
Lemma add_x_NaN x : add_x F x NaN = NaN.
Proof. unfold add_x, lift2. now destruct x. Qed.
Lemma in_mul_NaN w : forall y, length w = length y -> In NaN y -> In NaN (map2 (mul_x F) w y).
Proof.
  unfold map2. induction w as [|a w IH]; intros [|b y] L H; cbn in *; try easy. destruct H as [->|H]; [left; now rewrite mul_x_NaN|right; apply IH; [lia|trivial]].
Qed.
Lemma fslope_f_gap wd m j1 j2 r (y : Z -> xr) j : (j1 <= j <= j2)%Z -> y j = NaN -> fslope_f F wd m j1 j2 r y = NaN.
Proof.
  intros Hj Hy. unfold fslope_f. assert (H := fit3_f_ok F wd m j1 j2 r y). destruct (fit3_f F wd m j1 j2 r y) as [[a b] c]. cbn [fst].
  unfold linear_regression_f in H. destruct (negb _); [discriminate|]. cbv zeta in H. unfold bcast_mul_f in H. set (Y := map y _) in *.
  assert (IN : In NaN Y) by (unfold Y; rewrite <- Hy; apply in_map, zrange_In; lia).
  set (w1 := map2 _ (wts wd m j1 j2 r) (scale_support j1 j2)) in H. set (w2 := map2 (fun n t => div_x F (xmul n (xsub (xsum (map2 _ _ _)) _)) _) (wts wd m j1 j2 r) (scale_support j1 j2)) in H.
  assert (L : length (wts wd m j1 j2 r) = length Y /\ length (scale_support j1 j2) = length Y) by (unfold Y, wts, scale_support; now rewrite !map_length).
  assert (L1 : length w1 = length Y) by (unfold w1; rewrite map2_length; lia). assert (L2 : length w2 = length Y) by (unfold w2; rewrite map2_length; lia).
  rewrite L1, L2, Nat.eqb_refl in H. cbn [bind] in H. injection H as <- _ _. apply sum_x_NaN, in_mul_NaN; trivial.
Qed.
Lemma all_nan_fixed l : Forall (fun x => x = NaN) l -> fixednansum_f F l = NaN.
Proof. intros H. unfold fixednansum_f. assert (A : forallb isnan l = true) by (induction H as [|x l -> _ IH]; cbn; trivial). now rewrite A. Qed.
Lemma spec_R_gap c q : Forall (fun x => x = NaN) c -> Forall (fun x => x = NaN) (spec_R_f F c q).
Proof.
  intros H. unfold spec_R_f. assert (A : Forall (fun x => x = NaN) (fast_power_f F (map xabs c) q)).
  { assert (B : Forall (fun x => x = NaN) (map xabs c)) by (apply Forall_map; eapply Forall_impl; [|exact H]; intros x ->; reflexivity). clear H.
    induction B as [|x c' -> _ IH]; [unfold fast_power_f; destruct (Req_EM_T _ 1); [constructor|]; destruct (Req_EM_T _ 2); constructor|].
    assert (E := fpw_NaN F q). unfold fpw_x in E. unfold fast_power_f in *. destruct (Req_EM_T _ 1); [now constructor|]. destruct (Req_EM_T _ 2); cbn [map]; constructor; trivial. }
  apply Forall_map. eapply Forall_impl; [|exact A]. intros x ->. reflexivity.
Qed.
Lemma spec_V_gap c q : Forall (fun x => x = NaN) c -> spec_V_f F c q = NaN.
Proof.
  intros H. unfold spec_V_f. apply all_nan_fixed. apply (spec_R_gap c q) in H. unfold map2. apply Forall_map, Forall_forall. intros [x y] I. apply in_combine_l in I.
  rewrite Forall_forall in H. rewrite (H x I). cbn. unfold mul_x, lift2. reflexivity.
Qed.
Lemma spec_U_gap n c q : Forall (fun x => x = NaN) c -> spec_U_f F n c q = NaN.
Proof.
  intros H. unfold spec_U_f. rewrite all_nan_fixed; [apply add_x_NaN|]. apply (spec_R_gap c q) in H. apply Forall_map. eapply Forall_impl; [|exact H]. intros x ->. reflexivity.
Qed.
End Gap.

(** entry (i, r) of a table that has one *)
Definition reported (t : list (list xr)) (i r : nat) (x : xr) : Prop := nth_error t i <> None /\ nth_error (nth i t []) r = Some x.
Lemma reported_map {A} (f : A -> nat -> xr) l nrep i r d x : (i < length l)%nat -> (r < nrep)%nat -> f (nth i l d) r = x ->
  reported (map (fun e => map (f e) (seq 0 nrep)) l) i r x.
Proof.
  intros Hi Hr E. split; [apply nth_error_Some; now rewrite map_length|]. rewrite (nth_map_lt _ _ _ d) by trivial.
  rewrite (nth_error_nth' _ NaN) by (now rewrite map_length, seq_length). rewrite (nth_map_lt _ _ _ 0%nat) by (now rewrite seq_length). rewrite seq_nth by trivial. cbn [Nat.add]. now rewrite E.
Qed.

(** when a scale of the range has no value left for realisation r, every h(q) and D(q) of that realisation is reported as NaN,
    in any arithmetic (and not as a number obtained by reading the empty scale as a zero) *)
Theorem C96_spectrum_missing :
  forall F m g nrep q j1 j2 wd, regular m g nrep -> (1 <= j1)%Z -> (j1 <= j2)%Z -> (j2 <= Z.of_nat g)%Z ->
  exists s, MultifractalSpectrum_f F m j1 j2 wd q = Ok s /\
  forall r j i, (r < nrep)%nat -> (j1 <= j <= j2)%Z -> missing_scale m j r -> (i < length (q_items q))%nat ->
  reported (ms_hq s) i r NaN /\ reported (ms_Dq s) i r NaN.
Proof.
  intros F m g nrep q j1 j2 wd HR H1 H2 H3. destruct (MFS_f_eq F m g nrep HR q j1 j2 wd H1 H2 H3) as (s & E & ED & EH). exists s. split; [exact E|].
  intros r j i Hr Hj HM Hi. rewrite ED, EH.
  split.
  - apply (reported_map (fun e r => fslope_f F wd m j1 j2 r (Vval_f F m e r))) with (d := PyFloat 0); trivial.
    apply (fslope_f_gap F wd m j1 j2 r _ j Hj). now apply spec_V_gap.
  - apply (reported_map (fun e r => add_x F (Fin 1) (fslope_f F wd m j1 j2 r (Uval_f F m e r)))) with (d := PyFloat 0); trivial.
    rewrite (fslope_f_gap F wd m j1 j2 r _ j Hj); [apply add_x_NaN|]. now apply spec_U_gap.
Qed.
Print Assumptions C96_spectrum_missing.

(** ** The other estimates *)
Section Others.
Variable F : arith.
Lemma all_nan_map (f : xr -> xr) c : f NaN = NaN -> Forall (fun x => x = NaN) c -> Forall (fun x => x = NaN) (map f c).
Proof. intros Hf H. apply Forall_map. eapply Forall_impl; [|exact H]. now intros x ->. Qed.
Lemma fast_power_gap c q : Forall (fun x => x = NaN) c -> Forall (fun x => x = NaN) (fast_power_f F c q).
Proof.
  intros B. induction B as [|x c' -> _ IH]; [unfold fast_power_f; destruct (Req_EM_T _ 1); [constructor|]; destruct (Req_EM_T _ 2); constructor|].
  assert (E := fpw_NaN F q). unfold fpw_x in E. unfold fast_power_f in *. destruct (Req_EM_T _ 1); [now constructor|]. destruct (Req_EM_T _ 2); cbn [map]; constructor; trivial.
Qed.
Lemma nanmean_gap c : Forall (fun x => x = NaN) c -> nanmean_f F c = NaN.
Proof.
  intros H. assert (V : valid c = []) by (induction H as [|x c -> _ IH]; trivial).
  unfold nanmean_f, count_valid. rewrite V. cbn. unfold div_x, lift2, xdiv. destruct (Req_EM_T 0 0); [|congruence]. destruct (Req_EM_T 0 0); [reflexivity|congruence].
Qed.
Lemma sf_gap c q : Forall (fun x => x = NaN) c -> log2_x F (sf_moment_f F c q) = NaN.
Proof. intros H. unfold sf_moment_f. rewrite nanmean_gap; [reflexivity|]. apply fast_power_gap, all_nan_map; trivial. Qed.
Lemma mom_gap c k : Forall (fun x => x = NaN) c -> log_moment_f F c k = NaN.
Proof. intros H. unfold log_moment_f. apply nanmean_gap, fast_power_gap, all_nan_map; [reflexivity|]. now apply all_nan_map. Qed.
Lemma cum_gap n c k : Forall (fun x => x = NaN) c -> cum_value_f F n c k = NaN.
Proof.
  intros H. unfold cum_value_f. assert (A : Forall (fun x => x = NaN) (cum_list_f F (log_moment_f F c) n)).
  { induction n as [|n IH]; [constructor|]. cbn [cum_list_f]. apply Forall_app. split; [exact IH|]. constructor; [|constructor]. unfold cum_step_f. rewrite (mom_gap c (S n) H). destruct (Nat.eqb _ 1); reflexivity. }
  rewrite Forall_forall in A. destruct (nth_in_or_default (k - 1) (cum_list_f F (log_moment_f F c) n) NaN) as [I|I]; [now apply A|exact I].
Qed.
Lemma sup_gap c : Forall (fun x => x = NaN) c -> log2_x F (nanmax (map xabs c)) = NaN.
Proof.
  intros H. assert (A : Forall (fun x => x = NaN) (map xabs c)) by (now apply all_nan_map).
  assert (V : nanmax (map xabs c) = NaN) by (induction A as [|x l -> _ IH]; cbn; trivial; unfold nanmax in IH; now rewrite IH). now rewrite V.
Qed.
End Others.

(** likewise the scaling exponents, the log-cumulants and the minimal exponent of that realisation are NaN *)
Theorem C96_missing :
  forall F m g nrep qs n j1 j2 wd warn s c h, regular m g nrep -> (1 <= j1)%Z -> (j1 <= j2)%Z -> (j2 <= Z.of_nat g)%Z ->
  (forall j r, (j1 <= j <= j2)%Z -> (r < nrep)%nat -> column m j r <> []) ->
  StructureFunction_f F m (QArr qs) j1 j2 wd = Ok s -> Cumulants_f F m n j1 j2 wd = Ok c -> estimate_hmin_f F m j1 j2 wd warn = Ok h ->
  forall r j, (r < nrep)%nat -> (j1 <= j <= j2)%Z -> missing_scale m j r ->
  (forall i, (i < length qs)%nat -> reported (sf_zeta s) i r NaN) /\
  (forall k, (k < n)%nat -> reported (cu_log_cumulants c) k r NaN) /\
  nth_error (hm_hmin h) r = Some NaN.
Proof.
  intros F m g nrep qs n j1 j2 wd warn s c h HR H1 H2 H3 HN ES EC EH r j Hr Hj HM.
  rewrite (SF_f_eq F m g nrep HR qs j1 j2 wd H1 H2 H3) in ES. 
  destruct (CUM_f_eq F m g nrep HR n j1 j2 wd H1 H2 H3) as (c' & EC' & QC & _). rewrite EC in EC'. injection EC' as <-.
  destruct (HMIN_f_eq F m g nrep HR j1 j2 wd warn H1 H2 H3 HN) as (h' & EH' & QH & _). rewrite EH in EH'. injection EH' as <-.
  split; [|split].
  - intros i Hi. assert (Z : sf_zeta s = map (fun q => map (fun r => fslope_f F wd m j1 j2 r (logS_f F m q r)) (seq 0 nrep)) (map PyFloat qs)).
    { destruct (has_two qs); [injection ES as <-; reflexivity|discriminate]. }
    rewrite Z. apply (reported_map (fun q r => fslope_f F wd m j1 j2 r (logS_f F m q r))) with (d := PyFloat 0); rewrite ?map_length; trivial.
    apply (fslope_f_gap F wd m j1 j2 r _ j Hj). now apply sf_gap.
  - intros k Hk. rewrite QC. apply (reported_map (fun k r => mul_x F (fslope_f F wd m j1 j2 r (Cval_f F m n k r)) (Fin (f_log2e F)))) with (d := 0%nat); rewrite ?seq_length; trivial.
    rewrite (fslope_f_gap F wd m j1 j2 r _ j Hj); [reflexivity|]. now apply cum_gap.
  - rewrite QH. rewrite (nth_error_nth' _ (Fin 0)) by (now rewrite map_length, seq_length). f_equal. rewrite (nth_map_lt _ _ _ 0%nat) by (now rewrite seq_length). rewrite seq_nth by trivial. apply (fslope_f_gap F wd m j1 j2 r _ j Hj). now apply sup_gap.
Qed.
Print Assumptions C96_missing.

(** a concrete case: the second of three scales has no value left for the second realisation *)
Definition gap_demo : mrq :=
  add_values (add_values (add_values (new_mrq WaveletCoef 0) [[Fin 2; NaN; Fin (-2)]; [Fin 1; Fin 2; Fin 3]] 1) [[Fin 4; Fin 4]; [NaN; NaN]] 2) [[Fin (-8)]; [Fin 7]] 3.
Example C96_missing_case : regular gap_demo 3 2 /\ missing_scale gap_demo 2 1 /\ ~ missing_scale gap_demo 2 0 /\
  (forall j r, (1 <= j <= 3)%Z -> (r < 2)%nat -> column gap_demo j r <> []).
Proof.
  split; [|split; [|split]].
  - split; [lia|]. split; [reflexivity|]. split; [reflexivity|]. intros j a E. cbn in E. repeat (destruct (_ =? _)%Z in E; [injection E as <-; reflexivity|]). discriminate.
  - repeat constructor.
  - intros H. inversion H. discriminate.
  - intros j r Hj Hr. destruct (demo_scale j Hj) as [->|[->| ->]]; destruct r as [|[|r]]; try lia; discriminate.
Qed.
