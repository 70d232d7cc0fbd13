(** * C96, C92: the models in rounded arithmetic are the exact models when nothing is rounded

    The error bounds of C92 and C96 are about the models ModelRounded, ModelRoundedEst and ModelRoundedSpec.  Here these are
    tied to the exact models: run on a machine without rounding they return the same result, or raise the same exception, on every input. *)
From Coq Require Import Reals List ZArith Bool Lra Lia FunctionalExtensionality.
From Verif Require Import XReal PyBase ModelUtils ModelMRQ ModelStructure ModelCumulants ModelEstimation ModelSpectrum ModelWavelet ModelRounded ModelRoundedEst ModelRoundedSpec Spec LXReal LUtils.
Import ListNotations.
Open Scope R_scope.

(** ** Specification: arithmetic without rounding *)
Definition exact_arith (F : arith) : Prop :=
  (forall a b, f_add F a b = a + b) /\ (forall a b, f_mul F a b = a * b) /\ (forall a b, b <> 0 -> f_div F a b = a / b) /\
  (forall l, f_sum F l = Rsum l) /\ (forall a, 0 < a -> f_log2 F a = log2R a) /\ (forall a, 0 < a -> f_ln F a = ln a) /\
  (forall a e b, fast_power [Fin a] e = [Fin b] -> f_pow F a e = b) /\ f_log2e F = log2R (exp 1).

Section Exact.
Variable F : arith.
Hypothesis HF : exact_arith F.
Lemma add_exact : add_x F = xadd.
Proof using HF.
  apply functional_extensionality; intros x; apply functional_extensionality; intros y. unfold add_x, lift2.
  destruct x, y; try reflexivity. cbn. now rewrite (proj1 HF).
Qed.
Lemma sub_exact : sub_x F = xsub.
Proof using HF.
  apply functional_extensionality; intros x; apply functional_extensionality; intros y. unfold sub_x, lift2.
  destruct x, y; try reflexivity. cbn. now rewrite (proj1 HF).
Qed.
Lemma mul_exact : mul_x F = xmul.
Proof using HF.
  apply functional_extensionality; intros x; apply functional_extensionality; intros y. unfold mul_x, lift2.
  destruct x, y; try reflexivity. cbn. now rewrite (proj1 (proj2 HF)).
Qed.
Lemma div_exact : div_x F = xdiv.
Proof using HF.
  apply functional_extensionality; intros x; apply functional_extensionality; intros y. unfold div_x, lift2. destruct HF as (_ & _ & HD & _).
  destruct x, y; try reflexivity. unfold xdiv. destruct (Req_EM_T _ 0) as [E|E]; [destruct (Req_EM_T _ 0); [reflexivity|destruct (Rlt_dec _ _); reflexivity]|]. now rewrite HD.
Qed.
Lemma log2_exact : log2_x F = xlog2.
Proof using HF.
  apply functional_extensionality; intros x. unfold log2_x, lift1. destruct HF as (_ & _ & _ & _ & HL & _). destruct x; try reflexivity. unfold xlog2.
  destruct (Rlt_dec 0 _) as [P|P]; [now rewrite HL|]. destruct (Req_EM_T _ 0); reflexivity.
Qed.
Lemma ln_exact : ln_x F = xln.
Proof using HF.
  apply functional_extensionality; intros x. unfold ln_x, lift1. destruct HF as (_ & _ & _ & _ & _ & HL & _). destruct x; try reflexivity. unfold xln.
  destruct (Rlt_dec 0 _) as [P|P]; [now rewrite HL|]. destruct (Req_EM_T _ 0); reflexivity.
Qed.
Lemma all_fin_sum l o : all_fin l = Some o -> xsum l = Fin (Rsum o).
Proof.
  revert o. induction l as [|x l IH]; intros o H; cbn [all_fin] in H; [injection H as <-; reflexivity|].
  destruct x; try discriminate. destruct (all_fin l) as [o'|]; [|discriminate]. injection H as <-. unfold xsum in *. cbn [fold_right]. rewrite (IH o' eq_refl). reflexivity.
Qed.
Lemma sum_exact : sum_x F = xsum.
Proof using HF.
  apply functional_extensionality; intros l. unfold sum_x. destruct (all_fin l) as [o|] eqn:E; [|reflexivity]. apply all_fin_sum in E. rewrite E.
  destruct o as [|a o]; [reflexivity|]. destruct HF as (_ & _ & _ & HS & _). now rewrite HS.
Qed.
Lemma nanmean_exact : nanmean_f F = nanmean.
Proof using HF. apply functional_extensionality; intros l. unfold nanmean_f, nanmean. rewrite div_exact, sum_exact. reflexivity. Qed.
Lemma fast_power_map e : exists g, forall a, fast_power a e = map g a.
Proof.
  unfold fast_power. destruct (Req_EM_T _ 1); [exists (fun x => x); intros; symmetry; apply map_id|]. destruct (Req_EM_T _ 2); [eexists; reflexivity|].
  destruct (Req_EM_T _ (1 / 2)); [eexists; reflexivity|]. destruct (Req_EM_T _ 0); [eexists; reflexivity|]. destruct (Req_EM_T _ (-1)); [eexists; reflexivity|].
  destruct e; [destruct (_ && _)%bool|]; eexists; reflexivity.
Qed.
Lemma fast_power_exact : fast_power_f F = fast_power.
Proof using HF.
  apply functional_extensionality; intros a; apply functional_extensionality; intros e. unfold fast_power_f.
  destruct (Req_EM_T (num_val e) 1) as [E1|E1]; [unfold fast_power; destruct (Req_EM_T _ 1); [reflexivity|contradiction]|].
  destruct (Req_EM_T (num_val e) 2) as [E2|E2].
  { unfold fast_power. destruct (Req_EM_T _ 1); [contradiction|]. destruct (Req_EM_T _ 2); [|contradiction]. now rewrite mul_exact. }
  destruct (fast_power_map e) as (g & Hg). rewrite Hg. apply map_ext. intros x. unfold lift1. cbv beta.
  destruct HF as (_ & _ & _ & _ & _ & _ & HP & _). destruct x; rewrite Hg; cbn [map hd]; try reflexivity. destruct (g _) eqn:G; try reflexivity. f_equal. apply HP. rewrite Hg. cbn [map]. now rewrite G.
Qed.
Lemma bcast_exact : bcast_mul_f F = bcast_mul.
Proof using HF. apply functional_extensionality; intros w; apply functional_extensionality; intros y. unfold bcast_mul_f, bcast_mul. rewrite mul_exact. reflexivity. Qed.

(** every input: any lengths, missing values and infinities included *)
Theorem C96_exact_regression x y n : linear_regression_f F x y n = linear_regression x y n.
Proof using HF. unfold linear_regression_f, linear_regression. rewrite bcast_exact, div_exact, mul_exact, sum_exact. reflexivity. Qed.
Lemma regression_exact : linear_regression_f F = linear_regression.
Proof using HF. do 3 (apply functional_extensionality; intros ?). apply C96_exact_regression. Qed.
Lemma cols_exact : regress_cols_f F = regress_cols.
Proof using HF. do 5 (apply functional_extensionality; intros ?). unfold regress_cols_f, regress_cols. rewrite regression_exact. reflexivity. Qed.

Theorem C96_exact_structure m q j1 j2 weighted : StructureFunction_f F m q j1 j2 weighted = StructureFunction m q j1 j2 weighted.
Proof using HF.
  assert (E : sf_compute_f F = sf_compute).
  { do 3 (apply functional_extensionality; intros ?). unfold sf_compute_f, sf_compute, sf_moment_f, sf_moment. rewrite log2_exact, nanmean_exact, fast_power_exact. reflexivity. }
  unfold StructureFunction_f, StructureFunction. rewrite E, cols_exact, sub_exact, div_exact. reflexivity.
Qed.
Theorem C96_exact_cumulants m n_cumul j1 j2 weighted : Cumulants_f F m n_cumul j1 j2 weighted = Cumulants m n_cumul j1 j2 weighted.
Proof using HF.
  assert (E1 : log_moment_f F = log_moment).
  { do 2 (apply functional_extensionality; intros ?). unfold log_moment_f, log_moment. rewrite nanmean_exact, fast_power_exact, ln_exact. reflexivity. }
  assert (E2 : cum_aux_f F = cum_aux).
  { do 3 (apply functional_extensionality; intros ?). unfold cum_aux_f, cum_aux. rewrite add_exact, mul_exact. reflexivity. }
  assert (E3 : cum_list_f F = cum_list).
  { apply functional_extensionality; intros mom; apply functional_extensionality; intros n. induction n as [|n IH]; [reflexivity|]. cbn [cum_list_f cum_list]. rewrite IH.
    unfold cum_step_f, cum_step. rewrite sub_exact, E2. reflexivity. }
  assert (E : cum_compute_f F = cum_compute).
  { do 3 (apply functional_extensionality; intros ?). unfold cum_compute_f, cum_compute, cum_value_f, cum_value. rewrite E1, E3. reflexivity. }
  destruct HF as (_ & HM & _ & _ & _ & _ & _ & HE). unfold Cumulants_f, Cumulants. rewrite E, cols_exact, mul_exact, HM, HE. reflexivity.
Qed.
Theorem C96_exact_hmin m j1 j2_eff weighted warn : estimate_hmin_f F m j1 j2_eff weighted warn = estimate_hmin m j1 j2_eff weighted warn.
Proof using HF. unfold estimate_hmin_f, estimate_hmin. rewrite log2_exact, regression_exact. reflexivity. Qed.
Theorem C96_exact_spectrum m j1 j2 weighted q : MultifractalSpectrum_f F m j1 j2 weighted q = MultifractalSpectrum m j1 j2 weighted q.
Proof using HF.
  assert (E0 : nansum_f F = nansum) by (apply functional_extensionality; intros; unfold nansum_f, nansum; now rewrite sum_exact).
  assert (E1 : fixednansum_f F = fixednansum) by (apply functional_extensionality; intros; unfold fixednansum_f, fixednansum; now rewrite E0).
  assert (ER : spec_R_f F = spec_R).
  { do 2 (apply functional_extensionality; intros ?). unfold spec_R_f, spec_R. rewrite E0, div_exact, fast_power_exact. reflexivity. }
  assert (EV : spec_V_f F = spec_V).
  { do 2 (apply functional_extensionality; intros ?). unfold spec_V_f, spec_V. rewrite E1, ER, mul_exact, log2_exact. reflexivity. }
  assert (EU : spec_U_f F = spec_U).
  { do 3 (apply functional_extensionality; intros ?). unfold spec_U_f, spec_U. rewrite E1, ER, add_exact, mul_exact, log2_exact. reflexivity. }
  unfold MultifractalSpectrum_f, MultifractalSpectrum. rewrite EU, EV, cols_exact, add_exact. reflexivity.
Qed.
End Exact.
Print Assumptions C96_exact_structure.
Print Assumptions C96_exact_spectrum.

(** such an arithmetic exists *)
Example C96_exact_case : exact_arith (mkArith Rplus Rmult Rdiv Rsum log2R ln (fun a e => match fast_power [Fin a] e with [Fin b] => b | _ => 0 end) (log2R (exp 1))).
Proof. repeat split; intros; cbn; trivial. now rewrite H. Qed.

(** ** The transform *)
Definition exact_machine (M : machine) : Prop :=
  (forall a b, m_mul M a b = a * b) /\ (forall b s r i l, m_dot M b s r i l = Rsum (map (fun p => fst p * snd p) l)) /\
  (forall norm s, m_norm M norm s = Rpower 2 (IZR s * (1 / 2 - 1 / norm))) /\ (forall gam s, m_int M gam s = Rpower 2 (gam * IZR s)).
(** samples are numbers or missing *)
Definition no_infinity (c : col) : Prop := Forall (fun x => x <> PInf /\ x <> NInf) c.

Section ExactT.
Variable M : machine.
Hypothesis HM : exact_machine M.
Lemma dot_exact (l : list (R * xr)) : Forall (fun p => snd p <> PInf /\ snd p <> NInf) l ->
  dot_x (fun o => Rsum (map (fun p => fst p * snd p) o)) l = xsum (map (fun p => xmul (Fin (fst p)) (snd p)) l).
Proof.
  intros H. unfold dot_x. induction H as [|[h x] l [N1 N2] Hl IH]; [reflexivity|]. cbn [operands map fst snd] in *. unfold xsum in *. cbn [fold_right].
  rewrite <- IH. destruct x; try contradiction; [|reflexivity]. destruct (operands l); reflexivity.
Qed.
Lemma xsum_ni l : no_infinity l -> xsum l <> PInf /\ xsum l <> NInf.
Proof. unfold xsum. induction 1 as [|x l [A B] Hl IH]; cbn; [split; discriminate|]. destruct x; try contradiction; destruct (fold_right _ _ l); try (now destruct IH); split; discriminate. Qed.
Lemma get_pad_ni a i : no_infinity a -> get_pad (Fin 0) a i <> PInf /\ get_pad (Fin 0) a i <> NInf.
Proof.
  intros H. unfold get_pad. destruct (i <? 0)%Z; [split; discriminate|]. unfold no_infinity in H. rewrite Forall_forall in H.
  destruct (nth_in_or_default (Z.to_nat i) a (Fin 0)) as [K|K]; [now apply H|rewrite K; split; discriminate].
Qed.
Lemma conv_exact (d : nat -> list (R * R) -> R) a h : no_infinity a -> (forall i l, d i l = Rsum (map (fun p => fst p * snd p) l)) -> conv_same_f d a h = conv_same (Fin 0) a h /\ no_infinity (conv_same (Fin 0) a h).
Proof.
  intros Ha Hd. unfold conv_same_f, conv_same. split.
  - apply map_ext. intros i. unfold dot_x. replace (d i) with (fun o : list (R * R) => Rsum (map (fun p => fst p * snd p) o)) by (apply functional_extensionality; intros; now rewrite Hd).
    etransitivity; [apply dot_exact|rewrite map_map; reflexivity]. apply Forall_forall. intros p Hp. apply in_map_iff in Hp as (k & <- & _). cbn [snd]. now apply get_pad_ni.
  - apply Forall_forall. intros x Hx. apply in_map_iff in Hx as (i & <- & _). apply xsum_ni. apply Forall_forall. intros y Hy. apply in_map_iff in Hy as (k & <- & _).
    destruct (get_pad_ni a (Z.of_nat i + (Z.of_nat (length h) - 1) / 2 - Z.of_nat k) Ha) as [A B]. destruct (get_pad _ _ _); try contradiction; cbn; split; discriminate.
Qed.
Lemma border_ni n f c : no_infinity c -> no_infinity (nan_border n f c).
Proof.
  intros H. unfold nan_border. generalize (seq 0 (length c)). induction H as [|x c Hx Hc IH]; intros [|i l]; cbn [map2]; try constructor; [|apply IH].
  destruct (_ || _)%bool; [split; discriminate|exact Hx].
Qed.
Lemma sub_ni n c : no_infinity c -> no_infinity (subsample n c).
Proof.
  intros H. unfold subsample. apply Forall_forall. intros x Hx. apply in_map_iff in Hx as (i & E & Hi). subst x.
  unfold no_infinity in H. rewrite Forall_forall in H. match goal with |- nth ?i ?c ?d <> _ /\ _ => destruct (nth_in_or_default i c d) as [K|K]; [now apply H|rewrite K; split; discriminate] end.
Qed.
Lemma filt_exact (d : bool -> nat -> list (R * R) -> R) c hi lo : no_infinity c -> (forall b i l, d b i l = Rsum (map (fun p => fst p * snd p) l)) ->
  filtering_f d c hi lo = filtering c hi lo /\ no_infinity (fst (filtering c hi lo)) /\ no_infinity (snd (filtering c hi lo)).
Proof.
  intros Hc Hd. destruct (conv_exact (d true) c hi Hc (Hd true)) as [A1 A2]. destruct (conv_exact (d false) c lo Hc (Hd false)) as [B1 B2].
  unfold filtering_f, filtering, filtering_pad. rewrite A1, B1. cbn [fst snd]. split; [reflexivity|]. split; now apply sub_ni, border_ni.
Qed.
Lemma filt_arr_exact s a hi lo : Forall no_infinity a -> filtering_arr_f (fun b => m_dot M b s) a hi lo = filtering_arr a hi lo /\
  Forall no_infinity (fst (filtering_arr a hi lo)) /\ Forall no_infinity (snd (filtering_arr a hi lo)).
Proof using HM.
  intros Ha. destruct HM as (_ & HD & _). unfold filtering_arr_f, filtering_arr. cbn [fst snd]. split; [|split].
  - assert (G : forall (h : col * col -> col) k, map2 (fun r c => h (filtering_f (fun b => m_dot M b s r) c hi lo)) (seq k (length a)) a = map (fun c => h (filtering c hi lo)) a).
    { intros h. induction Ha as [|c a Hc Ha IH]; intros k; [reflexivity|]. transitivity (h (filtering_f (fun b => m_dot M b s k) c hi lo) :: map (fun c => h (filtering c hi lo)) a); [rewrite <- (IH (S k)); reflexivity|].
      cbn [map]. f_equal. f_equal. apply filt_exact; trivial. }
    f_equal; apply G.
  - apply Forall_map. eapply Forall_impl; [|exact Ha]. intros c Hc. now apply (filt_exact (fun _ _ l => Rsum (map (fun p => fst p * snd p) l))).
  - apply Forall_map. eapply Forall_impl; [|exact Ha]. intros c Hc. now apply (filt_exact (fun _ _ l => Rsum (map (fun p => fst p * snd p) l))).
Qed.
Lemma rescale_exact norm gam s a : Forall no_infinity a -> map (rescale_f M norm gam s) a = map (rescale norm gam s) a.
Proof using HM.
  destruct HM as (HMu & _ & HN & HI). intros Ha. apply map_ext_in. intros c Hc. rewrite Forall_forall in Ha. specialize (Ha c Hc). unfold no_infinity in Ha. rewrite Forall_forall in Ha.
  unfold rescale_f, rescale. rewrite !map_map. apply map_ext_in. intros x Hx. destruct (Ha x Hx) as [A B]. rewrite HN, HI. destruct x; try contradiction; cbn; [|reflexivity]. now rewrite !HMu.
Qed.
Lemma coef_exact hi lo norm gam n : forall s ml a m, Forall no_infinity a -> coef_loop_f M hi lo norm gam n s ml a m = coef_loop hi lo norm gam n s ml a m.
Proof using HM.
  induction n as [|n IH]; intros s ml a m Ha; [reflexivity|]. cbn [coef_loop_f coef_loop]. destruct (filt_arr_exact s a hi lo Ha) as (E & N1 & N2). rewrite E.
  destruct (Req_EM_T norm 0); [reflexivity|]. rewrite rescale_exact by trivial. destruct (min_count _); cbn [bind]; [|reflexivity]. destruct (Nat.ltb _ 3); [reflexivity|]. now apply IH.
Qed.
Lemma leader_exact hi lo norm gam n : forall s ml a sv mc mq, Forall no_infinity a -> leader_loop_f M hi lo norm gam n s ml a sv mc mq = leader_loop hi lo norm gam WaveletLeader PInfty n s ml a sv mc mq.
Proof using HM.
  induction n as [|n IH]; intros s ml a sv mc mq Ha; [reflexivity|]. cbn [leader_loop_f leader_loop]. destruct (filt_arr_exact s a hi lo Ha) as (E & N1 & N2). rewrite E.
  destruct (Req_EM_T norm 0); [reflexivity|]. rewrite rescale_exact by trivial. destruct (min_count _); cbn [bind]; [|reflexivity]. destruct (Nat.ltb _ 3); [reflexivity|].
  destruct (compute_leaders_arr _ _ _ _ _) as [[l sv']|]; cbn [bind]; [|reflexivity]. destruct (min_count l); cbn [bind]; [|reflexivity]. destruct (Nat.ltb _ 3); [reflexivity|]. now apply IH.
Qed.
(** every signal of numbers and missing values: same scales, values, warnings and exceptions *)
Theorem C92_exact_machine signal (leaders : bool) w j1 j2 gam norm weighted : Forall no_infinity signal ->
  wavelet_analysis_f M signal leaders w j2 gam norm = wavelet_analysis signal (if leaders then PInfty else PNone) w j1 j2 gam norm weighted.
Proof using HM.
  intros Ha. unfold wavelet_analysis_f, wavelet_analysis. destruct (decomposition_level_warn _ _ _) as [[ml ws]|]; cbn [bind]; [|destruct leaders; reflexivity].
  destruct leaders; cbn [check_formalism].
  - rewrite leader_exact by trivial. reflexivity.
  - unfold wavelet_coef_analysis. rewrite coef_exact by trivial. destruct (coef_loop _ _ _ _ _ _ _ _ _) as [[m l]|]; reflexivity.
Qed.
End ExactT.
Print Assumptions C92_exact_machine.

Example C92_exact_machine_case : exact_machine (mkMachine Rplus Rmult (fun a b c => a * b + c) (fun _ _ _ _ l => Rsum (map (fun p => fst p * snd p) l))
  (fun norm s => Rpower 2 (IZR s * (1 / 2 - 1 / norm))) (fun gam s => Rpower 2 (gam * IZR s))) /\ Forall no_infinity [[Fin 1; NaN; Fin (-2)]].
Proof. split; [repeat split|]. repeat constructor; discriminate. Qed.
