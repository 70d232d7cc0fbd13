(** * Finite combinations of translates: Taylor's inequality on an interval, filters, powers (used for C110) *)
From Coq Require Import Reals List ZArith Bool Lra Lia.
From Verif Require Import XReal PyBase Spec LXReal LUtils LBase LReg LEst LCgf LEntropy LDft PropsShape PropsTaylor PropsRounded.
Import ListNotations.
Open Scope R_scope.
Local Notation length := List.length.

(** ** Taylor's inequality on an interval *)
Lemma taylor_loc_pos n : forall (F : nat -> R -> R) q M, 0 <= q -> (forall k t, 0 <= t <= q -> derivable_pt_lim (F k) t (F (S k) t)) -> (forall t, 0 <= t <= q -> Rabs (F n t) <= M) ->
  Rabs (F 0%nat q - Rsum (map (fun k => F k 0 * q ^ k / INR (fact k)) (seq 0 n))) <= M * q ^ n / INR (fact n).
Proof.
  induction n as [|n IH]; intros F q M Hq HD HM.
  - unfold Rsum. cbn [seq map fold_right fact pow]. change (INR 1) with 1. rewrite Rminus_0_r. assert (K := HM q ltac:(lra)). lra.
  - set (P := fun t => Rsum (map (fun k => F k 0 * t ^ k / INR (fact k)) (seq 0 (S n)))).
    set (P' := fun t => Rsum (map (fun k => F (S k) 0 * t ^ k / INR (fact k)) (seq 0 n))).
    assert (DP : forall t, derivable_pt_lim P t (P' t)).
    { intros t. unfold P, P'. apply deriv_ext with (f := fun t => F 0%nat 0 + Rsum (map (fun k => F (S k) 0 * t ^ S k / INR (fact (S k))) (seq 0 n))).
      - intros u. cbn [seq]. rewrite <- seq_shift, map_cons, map_map. unfold Rsum. cbn [fold_right pow fact]. change (INR 1) with 1. field.
      - rewrite <- (Rplus_0_l (Rsum _)). apply (derivable_pt_lim_plus (fun _ => F 0%nat 0)); [apply derivable_pt_lim_const|].
        apply (deriv_sum (fun k t => F (S k) 0 * t ^ S k / INR (fact (S k))) (fun k t => F (S k) 0 * t ^ k / INR (fact k))). intros k _.
        apply deriv_ext with (f := fun t => F (S k) 0 * (t ^ S k / INR (fact (S k)))); [intros; unfold Rdiv; ring|].
        replace (F (S k) 0 * t ^ k / INR (fact k)) with (F (S k) 0 * (t ^ k / INR (fact k))) by (unfold Rdiv; ring). apply deriv_scal, pow_fact_deriv. }
    assert (P0 : P 0 = F 0%nat 0).
    { unfold P. cbn [seq]. rewrite <- seq_shift, map_cons, map_map. unfold Rsum. cbn [fold_right].
      change (F 0%nat 0 * 0 ^ 0 / INR (fact 0) + Rsum (map (fun k => F (S k) 0 * 0 ^ S k / INR (fact (S k))) (seq 0 n)) = F 0%nat 0).
      rewrite (Rsum_map_ext _ (fun _ => 0)) by (intros k _; rewrite pow_i by lia; unfold Rdiv; ring). rewrite Rsum_map_zero by reflexivity. cbn [pow fact]. change (INR 1) with 1. field. }
    assert (B : forall t, 0 <= t <= q -> Rabs (F 1%nat t - P' t) <= M * t ^ n / INR (fact n)).
    { intros t Ht. apply (IH (fun k => F (S k)) t M); [lra|intros k u Hu; apply HD; lra|]. intros u Hu. apply HM. lra. }
    set (E := fun t => M * (t ^ S n / INR (fact (S n)))).
    assert (DE : forall t, derivable_pt_lim E t (M * (t ^ n / INR (fact n)))) by (intros t; apply deriv_scal, pow_fact_deriv).
    assert (E0 : E 0 = 0) by (unfold E; rewrite pow_i by lia; unfold Rdiv; ring).
    destruct (Rle_lt_or_eq_dec _ _ Hq) as [L|Eq].
    + assert (U : forall sg, (sg = 1 \/ sg = -1) -> 0 <= E q + sg * (F 0%nat q - P q)).
      { intros sg Hsg. set (G := fun t => E t + sg * (F 0%nat t - P t)).
        assert (DG : forall t, 0 <= t <= q -> derivable_pt_lim G t (M * (t ^ n / INR (fact n)) + sg * (F 1%nat t - P' t))).
        { intros t Ht. apply (derivable_pt_lim_plus E (fun t => sg * (F 0%nat t - P t))); [apply DE|]. apply deriv_scal. apply (derivable_pt_lim_minus (F 0%nat) P); [now apply HD|apply DP]. }
        destruct (MVT_cor2 G _ 0 q L DG) as (c & Ec & Hc). assert (Bc := B c ltac:(lra)).
        assert (0 <= (M * (c ^ n / INR (fact n)) + sg * (F 1%nat c - P' c)) * (q - 0)).
        { apply Rmult_le_pos; [|lra]. replace (M * (c ^ n / INR (fact n))) with (M * c ^ n / INR (fact n)) by (unfold Rdiv; ring). destruct Hsg as [-> | ->]; revert Bc; unfold Rabs; destruct (Rcase_abs _); lra. }
        assert (G0 : G 0 = 0) by (unfold G; rewrite E0, P0; ring). change (0 <= G q). lra. }
      assert (U1 := U 1 (or_introl eq_refl)). assert (U2 := U (-1) (or_intror eq_refl)).
      fold (P q). replace (M * q ^ S n / INR (fact (S n))) with (E q) by (unfold E, Rdiv; ring). apply Rabs_le. lra.
    + fold (P q). rewrite <- Eq. rewrite P0, Rminus_diag_eq by reflexivity. rewrite Rabs_R0, pow_i by lia. unfold Rdiv. lra.
Qed.
Lemma taylor_loc n (F : nat -> R -> R) q M : (forall k t, Rabs t <= Rabs q -> derivable_pt_lim (F k) t (F (S k) t)) -> (forall t, Rabs t <= Rabs q -> Rabs (F n t) <= M) ->
  Rabs (F 0%nat q - Rsum (map (fun k => F k 0 * q ^ k / INR (fact k)) (seq 0 n))) <= M * Rabs q ^ n / INR (fact n).
Proof.
  intros HD HM. destruct (Rle_dec 0 q) as [P|N].
  - rewrite (Rabs_pos_eq q P). apply taylor_loc_pos; [trivial| |].
    + intros k t Ht. apply HD. rewrite !Rabs_pos_eq; lra.
    + intros t Ht. apply HM. rewrite !Rabs_pos_eq; lra.
  - assert (AQ : Rabs q = - q) by (apply Rabs_left; lra). rewrite AQ in *.
    assert (HD' : forall k t, 0 <= t <= - q -> derivable_pt_lim (fun t => (-1) ^ k * F k (- t)) t ((-1) ^ S k * F (S k) (- t))).
    { intros k t Ht. replace ((-1) ^ S k * F (S k) (- t)) with ((-1) ^ k * (F (S k) (- t) * -1)) by (simpl; ring). apply deriv_scal.
      refine (derivable_pt_lim_comp (fun t => - t) (F k) t (-1) (F (S k) (- t)) (derivable_pt_lim_opp id t 1 (derivable_pt_lim_id t)) (HD k (- t) _)).
      rewrite Rabs_Ropp, Rabs_pos_eq; lra. }
    assert (K := taylor_loc_pos n (fun k t => (-1) ^ k * F k (- t)) (- q) M ltac:(lra) HD').
    cbn beta in K. replace (F 0%nat q) with ((-1) ^ 0 * F 0%nat (- - q)) by (rewrite Ropp_involutive; simpl; ring).
    rewrite (Rsum_map_ext (fun k => F k 0 * q ^ k / INR (fact k)) (fun k => (-1) ^ k * F k (- 0) * (- q) ^ k / INR (fact k))).
    + apply K. intros t Ht. rewrite Rabs_mult, <- RPow_abs, Rabs_left by lra. replace (- -1) with 1 by ring. rewrite pow1, Rmult_1_l. apply HM. rewrite Rabs_Ropp, Rabs_pos_eq; lra.
    + intros k _. rewrite Ropp_0. replace ((- q) ^ k) with ((-1) ^ k * q ^ k) by (rewrite <- Rpow_mult_distr; f_equal; ring).
      assert (S1 : (-1) ^ k * (-1) ^ k = 1) by (rewrite <- Rpow_mult_distr; replace (-1 * -1) with 1 by ring; apply pow1).
      replace ((-1) ^ k * F k 0 * ((-1) ^ k * q ^ k)) with ((-1) ^ k * (-1) ^ k * (F k 0 * q ^ k)) by ring. rewrite S1. unfold Rdiv. ring.
Qed.

(** ** Combinations of translates: pairs (weight, shift) *)
Definition taps := list (R * R).
Definition ev (b : taps) (phi : R -> R) (x : R) : R := Rsum (map (fun p => fst p * phi (x + snd p)) b).
Definition tnorm (b : taps) : R := Rsum (map (fun p => Rabs (fst p)) b).
Definition between (lo hi : R) (b : taps) : Prop := forall p, In p b -> lo <= snd p <= hi.
(** polynomials of degree less than n are sent to 0 *)
Definition ann (b : taps) (n : nat) : Prop := forall i x, (i < n)%nat -> ev b (fun t => t ^ i) x = 0.
Definition conv (f : list R) (c : R) (b : taps) : taps :=
  concat (map (fun m => map (fun p => (nth m f 0 * fst p, snd p + c * INR m)) b) (seq 0 (length f))).
Lemma Rsum_concat {A} (g : A -> R) l : Rsum (map g (concat l)) = Rsum (map (fun x => Rsum (map g x)) l).
Proof. induction l as [|x l IH]; [reflexivity|]. cbn [concat map]. rewrite map_app, Rsum_app, IH. reflexivity. Qed.
Lemma Rsum_scal_map {A} c (g : A -> R) l : Rsum (map (fun x => c * g x) l) = c * Rsum (map g l).
Proof. unfold Rsum. induction l as [|x l IH]; cbn [map fold_right]; [ring|]. rewrite IH. ring. Qed.
Lemma Rsum_abs_le {A} (g : A -> R) l : Rabs (Rsum (map g l)) <= Rsum (map (fun x => Rabs (g x)) l).
Proof. unfold Rsum. induction l as [|x l IH]; cbn [map fold_right]; [rewrite Rabs_R0; lra|]. eapply Rle_trans; [apply Rabs_triang|]. lra. Qed.
Lemma tsum_le {A} (f g : A -> R) l : (forall x, In x l -> f x <= g x) -> Rsum (map f l) <= Rsum (map g l).
Proof. intros H. unfold Rsum. induction l as [|x l IH]; cbn [map fold_right]; [lra|]. assert (f x <= g x) by (apply H; now left). assert (K := IH (fun y Hy => H y (or_intror Hy))). lra. Qed.
Lemma ev_conv f c b phi x : ev (conv f c b) phi x = sumn (length f) (fun m => nth m f 0 * ev b phi (x + c * INR m)).
Proof.
  unfold ev at 1, conv. rewrite Rsum_concat, map_map. unfold sumn. apply Rsum_map_ext. intros m _. rewrite map_map. unfold ev. rewrite <- Rsum_scal_map.
  apply Rsum_map_ext. intros p _. cbn [fst snd]. replace (x + (snd p + c * INR m)) with (x + c * INR m + snd p) by ring. ring.
Qed.
Lemma norm1_sumn f : norm1 f = sumn (length f) (fun m => Rabs (nth m f 0)).
Proof.
  unfold norm1, sumn. f_equal. apply nth_ext with (d := 0) (d' := 0); [now rewrite !map_length, seq_length|]. intros i Hi. rewrite map_length in Hi.
  rewrite (nth_map_lt _ _ _ 0) by trivial. rewrite (nth_map_lt _ _ _ 0%nat) by (now rewrite seq_length). now rewrite seq_nth.
Qed.
Lemma tnorm_conv f c b : tnorm (conv f c b) = norm1 f * tnorm b.
Proof.
  unfold tnorm, conv. rewrite Rsum_concat, map_map, norm1_sumn. rewrite <- sumn_scal_r. unfold sumn. apply Rsum_map_ext. intros m _. rewrite map_map, <- Rsum_scal_map.
  apply Rsum_map_ext. intros p _. cbn [fst]. apply Rabs_mult.
Qed.
Lemma tnorm_nonneg b : 0 <= tnorm b.
Proof. unfold tnorm, Rsum. induction b as [|p b IH]; cbn [map fold_right]; [lra|]. assert (K := Rabs_pos (fst p)). lra. Qed.
Lemma conv_In f c b q : In q (conv f c b) -> exists m p, (m < length f)%nat /\ In p b /\ snd q = snd p + c * INR m.
Proof.
  unfold conv. intros H. apply in_concat in H as (l & Hl & Hq). apply in_map_iff in Hl as (m & <- & Hm). apply in_seq in Hm. apply in_map_iff in Hq as (p & <- & Hp).
  exists m, p. cbn [snd]. repeat split; trivial; lia.
Qed.
Lemma INR_pred m n : (m < n)%nat -> 0 <= INR m <= INR n - 1.
Proof. intros H. split; [apply pos_INR|]. replace (INR n - 1) with (INR (n - 1)) by (rewrite minus_INR by lia; reflexivity). apply le_INR. lia. Qed.
Lemma between_conv_pos f c b lo hi : 0 <= c -> between lo hi b -> between lo (hi + c * (INR (length f) - 1)) (conv f c b).
Proof.
  intros Hc B q Hq. apply conv_In in Hq as (m & p & Hm & Hp & ->). assert (K := B p Hp). destruct (INR_pred _ _ Hm) as [K1 K2].
  assert (0 <= c * INR m) by (now apply Rmult_le_pos). assert (c * INR m <= c * (INR (length f) - 1)) by (now apply Rmult_le_compat_l). lra.
Qed.
Lemma between_conv_neg f c b lo hi : 0 <= c -> between lo hi b -> between (lo - c * (INR (length f) - 1)) hi (conv f (- c) b).
Proof.
  intros Hc B q Hq. apply conv_In in Hq as (m & p & Hm & Hp & ->). assert (K := B p Hp). destruct (INR_pred _ _ Hm) as [K1 K2].
  assert (0 <= c * INR m) by (now apply Rmult_le_pos). assert (c * INR m <= c * (INR (length f) - 1)) by (now apply Rmult_le_compat_l). lra.
Qed.
(** the binomial expansion of a combination of translates *)
Lemma ev_binomial b i x y : ev b (fun t => t ^ i) (x + y) = sum_f_R0 (fun l => Binomial.C i l * y ^ l * ev b (fun t => t ^ (i - l)) x) i.
Proof.
  unfold ev. induction b as [|p b IH]; cbn [map Rsum fold_right].
  - unfold Rsum. cbn [fold_right]. symmetry. apply sum_eq_R0. intros l _. ring.
  - unfold Rsum in *. cbn [fold_right]. rewrite IH. replace (x + y + snd p) with (y + (x + snd p)) by ring. rewrite (binomial y (x + snd p) i). rewrite scal_sum, <- sum_plus. apply sum_eq. intros l _. ring.
Qed.
Lemma sum_sumn f n : sum_f_R0 f n = sumn (S n) f.
Proof. induction n as [|n IH]; [cbn [sum_f_R0]; rewrite sumn_S, sumn_0; ring|]. cbn [sum_f_R0]. rewrite IH. now rewrite (sumn_S (S n)). Qed.
Lemma ann_conv f c b M n : vanishing_moments f M -> ann b n -> ann (conv f c b) (M + n).
Proof.
  intros V A i x Hi. rewrite ev_conv.
  rewrite (sumn_ext _ _ (fun m => sumn (S i) (fun l => nth m f 0 * INR m ^ l * (Binomial.C i l * c ^ l * ev b (fun t => t ^ (i - l)) x)))).
  - rewrite sumn_swap. apply sumn_zero. intros l Hl. rewrite sumn_scal_r. destruct (lt_dec l M) as [L|L].
    + assert (E : sumn (length f) (fun m => nth m f 0 * INR m ^ l) = 0); [|rewrite E; ring]. etransitivity; [|exact (V l L)]. unfold sumn. apply Rsum_map_ext. intros m _. ring.
    + rewrite (A (i - l)%nat x) by lia. ring.
  - intros m _. rewrite ev_binomial, sum_sumn, <- sumn_scal. apply sumn_ext. intros l _. rewrite Rpow_mult_distr. ring.
Qed.
Lemma ann_0 b : ann b 0. Proof. intros i x H. lia. Qed.
Lemma ev_scal b c phi x : ev b (fun t => c * phi t) x = c * ev b phi x.
Proof. unfold ev. rewrite <- Rsum_scal_map. apply Rsum_map_ext. intros; ring. Qed.
Lemma ev_ext b phi psi x : (forall p, In p b -> phi (x + snd p) = psi (x + snd p)) -> ev b phi x = ev b psi x.
Proof. intros H. unfold ev. apply Rsum_map_ext. intros p Hp. now rewrite H. Qed.

(** a combination of translates that ignores polynomials of degree < n, applied to a smooth function, is controlled by its n-th derivative *)
Lemma ev_bound b n (F : nat -> R -> R) x rho M : ann b n -> between (- rho) rho b -> 0 <= M ->
  (forall k t, Rabs t <= rho -> derivable_pt_lim (F k) (x + t) (F (S k) (x + t))) -> (forall t, Rabs t <= rho -> Rabs (F n (x + t)) <= M) ->
  Rabs (ev b (F 0%nat) x) <= tnorm b * (M * rho ^ n / INR (fact n)).
Proof.
  intros A B M0 HD HM.
  set (T := fun t => Rsum (map (fun k => F k x * t ^ k / INR (fact k)) (seq 0 n))).
  assert (Z : Rsum (map (fun p => fst p * T (snd p)) b) = 0).
  { rewrite (Rsum_map_ext _ (fun p => sumn n (fun k => (F k x / INR (fact k)) * (fst p * (snd p) ^ k)))).
    - assert (SW : forall (l : taps) (g : nat -> R * R -> R), Rsum (map (fun p => sumn n (fun k => g k p)) l) = sumn n (fun k => Rsum (map (g k) l))).
      { intros l g. induction l as [|p l IH]; [cbn; symmetry; now apply sumn_zero|]. unfold Rsum in *. cbn [map fold_right]. rewrite IH, <- sumn_plus. reflexivity. }
      rewrite (SW b (fun k p => (F k x / INR (fact k)) * (fst p * (snd p) ^ k))). apply sumn_zero. intros k Hk. rewrite Rsum_scal_map.
      assert (E := A k 0 Hk). unfold ev in E. rewrite (Rsum_map_ext _ (fun p => fst p * snd p ^ k)) in E by (intros p _; now rewrite Rplus_0_l). rewrite E. ring.
    - intros p _. unfold T, sumn. rewrite <- Rsum_scal_map. apply Rsum_map_ext. intros k _. unfold Rdiv. ring. }
  assert (E : ev b (F 0%nat) x = Rsum (map (fun p => fst p * (F 0%nat (x + snd p) - T (snd p))) b)).
  { unfold ev. rewrite <- (Rminus_0_r (Rsum (map (fun p => fst p * F 0%nat (x + snd p)) b))), <- Z. clear. unfold Rsum. induction b as [|p b IH]; cbn [map fold_right]; [ring|]. rewrite <- IH. ring. }
  rewrite E. eapply Rle_trans; [apply Rsum_abs_le|]. unfold tnorm. rewrite Rmult_comm, <- Rsum_scal_map.
  apply tsum_le. intros p Hp. rewrite Rabs_mult, Rmult_comm. apply Rmult_le_compat_r; [apply Rabs_pos|].
  assert (S1 : Rabs (snd p) <= rho) by (apply Rabs_le, B; trivial).
  assert (K := taylor_loc n (fun k t => F k (x + t)) (snd p) M). cbn beta in K. rewrite Rplus_0_r in K. eapply Rle_trans; [apply K|].
  - intros k t Ht. replace (F (S k) (x + t)) with (F (S k) (x + t) * 1) by ring.
    apply (derivable_pt_lim_comp (fun t => x + t) (F k)); [|apply HD; lra].
    replace 1 with (0 + 1) by ring. apply (derivable_pt_lim_plus (fun _ => x) id); [apply derivable_pt_lim_const|apply derivable_pt_lim_id].
  - intros t Ht. apply HM. lra.
  - unfold Rdiv. apply Rmult_le_compat_r; [left; apply Rinv_0_lt_compat, INR_fact_lt_0|]. apply Rmult_le_compat_l; [trivial|]. apply pow_incr. split; [apply Rabs_pos|trivial].
Qed.

(** ** Powers *)
(** alpha (alpha - 1) ... (alpha - n + 1) *)
Fixpoint ff (al : R) (n : nat) : R := match n with O => 1 | S n' => ff al n' * (al - INR n') end.
Lemma ff_bound al n : 0 <= al <= 2 -> Rabs (ff al (S n)) <= 2 * INR (fact n).
Proof.
  intros H. induction n as [|n IH].
  - cbn [ff fact]. change (INR 0) with 0. change (INR 1) with 1. rewrite Rabs_mult, Rabs_R1, Rabs_pos_eq; lra.
  - change (ff al (S (S n))) with (ff al (S n) * (al - INR (S n))). rewrite Rabs_mult, fact_simpl, mult_INR.
    assert (K : Rabs (al - INR (S n)) <= INR (S n)). { assert (1 <= INR (S n)) by (apply (le_INR 1); lia). apply Rabs_le. lra. }
    replace (2 * (INR (S n) * INR (fact n))) with (2 * INR (fact n) * INR (S n)) by ring. apply Rmult_le_compat; trivial; apply Rabs_pos.
Qed.
Lemma power_deriv al k t : 0 < t -> derivable_pt_lim (fun t => ff al k * Rpower t (al - INR k)) t (ff al (S k) * Rpower t (al - INR (S k))).
Proof.
  intros H. replace (ff al (S k) * Rpower t (al - INR (S k))) with (ff al k * ((al - INR k) * Rpower t (al - INR k - 1))).
  - apply deriv_scal. now apply derivable_pt_lim_power.
  - cbn [ff]. rewrite S_INR. replace (al - (INR k + 1)) with (al - INR k - 1) by ring. ring.
Qed.
Lemma Rpower_antitone a b e : 0 < a <= b -> e <= 0 -> Rpower b e <= Rpower a e.
Proof.
  intros [H0 H] He. unfold Rpower. assert (ln a <= ln b) by (destruct H as [H| ->]; [left; now apply ln_increasing|right; trivial]).
  assert (e * ln b <= e * ln a) by nra. destruct H2 as [L| ->]; [left; now apply exp_increasing|lra].
Qed.
(** the decay of a combination of translates of a power *)
Lemma power_bound b n al x rho : (2 <= n)%nat -> 0 <= al <= 2 -> ann b n -> between (- rho) rho b -> 0 <= rho < x ->
  Rabs (ev b (fun t => Rpower t al) x) <= 2 / INR n * tnorm b * rho ^ n * Rpower (x - rho) (al - INR n).
Proof.
  intros Hn Hal A B Hr. set (F := fun k t => ff al k * Rpower t (al - INR k)).
  rewrite (ev_ext b _ (F 0%nat)) by (intros p _; unfold F; cbn [ff]; change (INR 0) with 0; rewrite Rminus_0_r; ring).
  destruct n as [|n]; [lia|]. assert (N0 : 0 < INR (S n)) by (apply lt_0_INR; lia). assert (N2 : 2 <= INR (S n)) by (apply (le_INR 2); lia).
  assert (FP := INR_fact_lt_0 n). assert (PP := exp_pos ((al - INR (S n)) * ln (x - rho))). fold (Rpower (x - rho) (al - INR (S n))) in PP.
  eapply Rle_trans; [apply (ev_bound b (S n) F x rho (2 * INR (fact n) * Rpower (x - rho) (al - INR (S n))) A B)|].
  - apply Rmult_le_pos; lra.
  - intros k t Ht. apply power_deriv. revert Ht; unfold Rabs; destruct (Rcase_abs t); lra.
  - intros t Ht. unfold F. rewrite Rabs_mult. apply Rmult_le_compat; try apply Rabs_pos; [now apply ff_bound|]. rewrite Rabs_pos_eq by (left; apply exp_pos).
    apply Rpower_antitone; [|lra]. revert Ht; unfold Rabs; destruct (Rcase_abs t); lra.
  - right. rewrite fact_simpl, mult_INR. field. lra.
Qed.
