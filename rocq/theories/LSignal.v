(** * Lemmas on [Signal]: what every method can change, and the powers of equal numbers *)
From Coq Require Import Reals List ZArith Bool Lra Lia String.
From Verif Require Import XReal PyBase ModelUtils ModelMRQ ModelStructure ModelWavelet ModelMFA ModelEstimation ModelPSD ModelSignal Spec
  LXReal LUtils LBase LScale.
Import ListNotations.
Open Scope R_scope.
Local Notation length := List.length.

(** ** the powers with an int and with the equal float are the same *)
Lemma Int_part_IZR z : Int_part (IZR z) = z.
Proof.
  unfold Int_part. assert (H : up (IZR z) = (z + 1)%Z).
  { symmetry. apply tech_up; rewrite plus_IZR; lra. }
  rewrite H. lia.
Qed.
Lemma is_power_neg_nat a n v : a < 0 -> is_power a (- INR n) v -> v = Fin (/ a ^ n).
Proof.
  intros Ha H. remember (- INR n) as e eqn:E in H. destruct H; subst; try lra.
  - destruct (INR_minus_inv _ _ (eq_sym E)) as [-> ->]. f_equal. simpl. field.
  - assert (n0 = n) by (apply INR_eq; lra). now subst.
  - exfalso. apply (H0 (- Z.of_nat n)%Z). rewrite opp_IZR, <- INR_IZR_INZ. reflexivity.
Qed.
Lemma is_power_nonint a e v : a < 0 -> (forall z, e <> IZR z) -> is_power a e v -> v = NaN.
Proof.
  intros Ha Hn H. destruct H; try lra; trivial; exfalso.
  - apply (Hn (Z.of_nat n)). apply INR_IZR_INZ.
  - apply (Hn (- Z.of_nat n)%Z). rewrite opp_IZR, <- INR_IZR_INZ. reflexivity.
Qed.
Lemma is_power_fun a e v w : is_power a e v -> is_power a e w -> v = w.
Proof.
  intros Hv Hw. destruct (Rtotal_order a 0) as [N|[->|P]].
  - destruct Hv; try lra.
    + symmetry. now apply is_power_nat.
    + symmetry. now apply is_power_neg_nat.
    + symmetry. now apply (is_power_nonint a e).
  - destruct (Rtotal_order e 0) as [N|[->|P]].
    + rewrite (is_power_0neg _ _ Hv N). symmetry. now apply (is_power_0neg e).
    + rewrite (is_power_e0 _ _ Hv). symmetry. now apply (is_power_e0 0).
    + rewrite (is_power_0 _ _ Hv P). symmetry. now apply (is_power_0 e).
  - rewrite (is_power_pos _ _ _ P Hv). symmetry. now apply is_power_pos.
Qed.
Lemma scale_inf_1 i : scale_inf 1 i = i.
Proof. unfold scale_inf. destruct (Req_EM_T 1 0); [lra|]. destruct (Rlt_dec 0 1); [trivial|lra]. Qed.
Lemma mul_loop_pow z x : (0 < z <= 10)%Z -> mul_loop (Z.to_nat z) (Fin 1) x = xpow x (IZR z).
Proof.
  intros Hz. assert (Pz : 0 < IZR z) by (apply IZR_lt; lia).
  destruct x as [a| | |].
  - rewrite mul_loop_Fin. apply (is_power_fun a (IZR z)); [|apply xpow_spec].
    replace z with (Z.of_nat (Z.to_nat z)) at 1 by lia. rewrite <- INR_IZR_INZ, Rmult_1_l. constructor.
  - assert (E : forall n, mul_loop n PInf PInf = PInf) by (induction n; trivial; cbn [mul_loop xmul]; exact IHn).
    destruct (Z.to_nat z) eqn:F; [lia|]. cbn [mul_loop xmul]. rewrite scale_inf_1, E.
    unfold xpow. destruct (Req_EM_T (IZR z) 0); [lra|]. destruct (Rlt_dec 0 (IZR z)); [reflexivity|lra].
  - unfold xpow. destruct (Req_EM_T (IZR z) 0); [lra|]. destruct (Rlt_dec 0 (IZR z)); [|lra].
    unfold is_intR. rewrite Int_part_IZR. destruct (Req_EM_T (IZR z) (IZR z)); [|congruence]. cbn [andb].
    assert (C : (z = 1 \/ z = 2 \/ z = 3 \/ z = 4 \/ z = 5 \/ z = 6 \/ z = 7 \/ z = 8 \/ z = 9 \/ z = 10)%Z) by lia.
    clear - C. repeat (destruct C as [C|C]; [subst z; vm_compute Z.to_nat; cbn [mul_loop xmul]; rewrite scale_inf_1; reflexivity|]).
    subst z; vm_compute Z.to_nat; cbn [mul_loop xmul]; rewrite scale_inf_1; reflexivity.
  - unfold xpow. destruct (Req_EM_T (IZR z) 0); [lra|]. destruct (Z.to_nat z) eqn:F; [lia|]. cbn [mul_loop xmul]. apply mul_loop_NaN.
Qed.
Lemma fp1_val e e' x : num_val e = num_val e' -> fp1 e x = fp1 e' x.
Proof.
  intros H. unfold fp1, fast_power. rewrite <- H.
  destruct (Req_EM_T _ 1); [reflexivity|]. destruct (Req_EM_T _ 2); [reflexivity|].
  destruct (Req_EM_T _ (1/2)); [reflexivity|]. destruct (Req_EM_T _ 0); [reflexivity|].
  destruct (Req_EM_T _ (-1)); [reflexivity|].
  assert (G : forall e0, num_val e0 = num_val e ->
    hd NaN match e0 with
    | PyInt z => if ((0 <? z) && (z <=? 10))%Z then map (fun x0 => mul_loop (Z.to_nat z) (Fin 1) x0) [x]
                 else map (fun x0 => xpow x0 (num_val e)) [x]
    | PyFloat _ => map (fun x0 => xpow x0 (num_val e)) [x] end = xpow x (num_val e)).
  { intros [z|r] E; [|reflexivity]. destruct (_ && _)%bool eqn:B; [|reflexivity]. cbn [map hd].
    apply andb_prop in B as [B1 B2]. apply Z.ltb_lt in B1. apply Z.leb_le in B2.
    rewrite mul_loop_pow by lia. cbn [num_val] in E. now rewrite E. }
  transitivity (xpow x (num_val e)); [exact (G e eq_refl)|symmetry; exact (G e' (eq_sym H))].
Qed.
Lemma fast_power_val e e' c : num_val e = num_val e' -> fast_power c e = fast_power c e'.
Proof. intros H. rewrite !fast_power_map. apply map_ext. intros x. now apply fp1_val. Qed.

(** the transform does not look at the type of the number p_exp *)
Lemma bind_ext {A B} (m : res A) (k k' : A -> res B) : (forall a, k a = k' a) -> bind m k = bind m k'.
Proof. intros H. destruct m; simpl; trivial. Qed.
Lemma mapM_ext {A B} (f g : A -> res B) l : (forall a, f a = g a) -> mapM f l = mapM g l.
Proof. intros H. induction l as [|a l IH]; trivial. cbn [mapM]. now rewrite H, IH. Qed.
Lemma compute_leaders_val e e' d sv s f : num_val e = num_val e' ->
  compute_leaders d sv s f (PNum e) = compute_leaders d sv s f (PNum e').
Proof.
  intros H. unfold compute_leaders. destruct f; trivial. rewrite (fast_power_val e e') by trivial. apply bind_ext. intros a.
  apply bind_ext. intros b. apply bind_ext. intros c. now rewrite H.
Qed.
Lemma leader_loop_val e e' hi lo norm gam f n : num_val e = num_val e' -> forall s ml a sv mc m,
  leader_loop hi lo norm gam f (PNum e) n s ml a sv mc m = leader_loop hi lo norm gam f (PNum e') n s ml a sv mc m.
Proof.
  intros H. induction n as [|n IH]; intros; trivial. cbn [leader_loop].
  destruct (Req_EM_T norm 0); trivial. apply bind_ext. intros c. destruct (Nat.ltb c 3); trivial.
  replace (compute_leaders_arr (map (rescale norm gam s) (fst (filtering_arr a hi lo))) sv s f (PNum e))
    with (compute_leaders_arr (map (rescale norm gam s) (fst (filtering_arr a hi lo))) sv s f (PNum e')).
  - apply bind_ext. intros [l sv']. apply bind_ext. intros c'. destruct (Nat.ltb c' 3); trivial.
  - unfold compute_leaders_arr. f_equal. apply mapM_ext. intros ds. symmetry. now apply compute_leaders_val.
Qed.
Lemma wavelet_analysis_val e e' A w j1 j2 g n b : num_val e = num_val e' ->
  wavelet_analysis A (PNum e) w j1 j2 g n b = wavelet_analysis A (PNum e') w j1 j2 g n b.
Proof.
  intros H. unfold wavelet_analysis. apply bind_ext. intros [ml ws].
  change (check_formalism (PNum e')) with (check_formalism (PNum e)).
  rewrite (leader_loop_val e e') by trivial. apply bind_ext. intros [[mc m] ml']. now rewrite H.
Qed.

(** ** Python's equality of parameter tuples *)
Lemma Reqb_eq a b : Reqb a b = true <-> a = b.
Proof. unfold Reqb. destruct (Req_EM_T a b); split; congruence. Qed.
Lemma optR_eqb_eq a b : optR_eqb a b = true <-> a = b.
Proof.
  destruct a, b; simpl; try (split; congruence). rewrite Reqb_eq. split; [intros ->; trivial|congruence].
Qed.
Lemma optZ_eqb_eq a b : optZ_eqb a b = true <-> a = b.
Proof.
  destruct a, b; simpl; try (split; congruence). rewrite Z.eqb_eq. split; [intros ->; trivial|congruence].
Qed.
Lemma we_eqb_eq a b : we_eqb a b = true <-> a = b.
Proof.
  destruct a, b. unfold we_eqb. simpl. rewrite andb_true_iff, Z.eqb_eq, optZ_eqb_eq.
  split; [intros [-> ->]; trivial|intros E; injection E; auto].
Qed.
Lemma pp_eqb_refl a : pp_eqb a a = true.
Proof. unfold pp_eqb. rewrite Nat.eqb_refl. apply optR_eqb_eq. trivial. Qed.
Lemma pexp_eqb_refl a : pexp_eqb a a = true.
Proof. destruct a; trivial. simpl. now apply Reqb_eq. Qed.
Lemma wp_eqb_refl a : wp_eqb a a = true.
Proof.
  unfold wp_eqb. rewrite Z.eqb_refl, eqb_reflx, String.eqb_refl, pexp_eqb_refl.
  replace (optR_eqb (wp_j2 a) (wp_j2 a)) with true by (symmetry; now apply optR_eqb_eq).
  replace (Reqb (wp_norm a) (wp_norm a)) with true by (symmetry; now apply Reqb_eq).
  replace (Reqb (wp_gamint a) (wp_gamint a)) with true by (symmetry; now apply Reqb_eq). reflexivity.
Qed.
Section Lib.
Variable pywt : string -> option wavelet.
Variable num : col -> welch_args -> Z -> list xr.
Lemma f_wavelet_eqb d a b : wp_eqb a b = true -> f_wavelet pywt d a = f_wavelet pywt d b.
Proof.
  unfold wp_eqb. rewrite !andb_true_iff. intros [[[[[[E1 E2] E3] E4] E5] E6] E7].
  apply Z.eqb_eq in E1. apply optR_eqb_eq in E2. apply Reqb_eq in E3, E4. apply eqb_prop in E5. apply String.eqb_eq in E6.
  unfold f_wavelet. rewrite E1, E2, E3, E4, E5, E6. destruct d; trivial. destruct (pywt _); trivial.
  destruct (wp_p a) as [| |e], (wp_p b) as [| |e']; try discriminate; trivial.
  cbn [pexp_eqb] in E7. apply Reqb_eq in E7. now rewrite (wavelet_analysis_val e e').
Qed.
End Lib.
