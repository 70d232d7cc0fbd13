(** * Algebra of the moment-cumulant recursion *)
From Coq Require Import Reals List ZArith Bool Lra Lia.
From Verif Require Import XReal PyBase ModelUtils ModelMRQ ModelStructure ModelCumulants Spec SpecMRQ LXReal LReg LUtils LBase LEst LMoment.
Import ListNotations.
Open Scope R_scope.

(** ** sequences under binomial convolution (products of exponential series) *)
Definition shift (f : nat -> R) : nat -> R := fun k => f (S k).
Fixpoint conv (f g : nat -> R) (n : nat) : R :=
  match n with
  | O => f 0%nat * g 0%nat
  | S n' => conv (shift f) g n' + conv f (shift g) n'
  end.
Lemma conv_ext n : forall f f' g g', (forall k, (k <= n)%nat -> f k = f' k) -> (forall k, (k <= n)%nat -> g k = g' k) ->
  conv f g n = conv f' g' n.
Proof.
  induction n; intros f f' g g' Hf Hg; simpl.
  - rewrite Hf, Hg by lia. reflexivity.
  - f_equal; apply IHn; intros; unfold shift; try apply Hf; try apply Hg; lia.
Qed.
Lemma conv_plus_l n : forall f g h, conv (fun k => f k + g k) h n = conv f h n + conv g h n.
Proof.
  induction n; intros; simpl; [ring|].
  change (shift (fun k => f k + g k)) with (fun k => shift f k + shift g k). rewrite !IHn. ring.
Qed.
Lemma conv_plus_r n : forall f g h, conv h (fun k => f k + g k) n = conv h f n + conv h g n.
Proof.
  induction n; intros; simpl; [ring|].
  change (shift (fun k => f k + g k)) with (fun k => shift f k + shift g k). rewrite !IHn. ring.
Qed.
Lemma conv_scal_l n : forall c f h, conv (fun k => c * f k) h n = c * conv f h n.
Proof.
  induction n; intros; simpl; [ring|].
  change (shift (fun k => c * f k)) with (fun k => c * shift f k). rewrite !IHn. ring.
Qed.
Lemma conv_scal_r n : forall c f h, conv h (fun k => c * f k) n = c * conv h f n.
Proof.
  induction n; intros; simpl; [ring|].
  change (shift (fun k => c * f k)) with (fun k => c * shift f k). rewrite !IHn. ring.
Qed.
Lemma conv_comm n : forall f g, conv f g n = conv g f n.
Proof. induction n; intros; simpl; [ring|]. rewrite !(IHn _ (shift _)), (IHn (shift f)). rewrite (IHn g). ring. Qed.
Lemma conv_assoc n : forall f g h, conv (conv f g) h n = conv f (conv g h) n.
Proof.
  induction n; intros; simpl; [ring|].
  change (shift (conv f g)) with (fun k => conv (shift f) g k + conv f (shift g) k).
  change (shift (conv g h)) with (fun k => conv (shift g) h k + conv g (shift h) k).
  rewrite conv_plus_l, conv_plus_r, !IHn. ring.
Qed.
(** multiplying the k-th terms by s^k *)
Lemma conv_pow n : forall s f g, conv (fun k => s ^ k * f k) (fun k => s ^ k * g k) n = s ^ n * conv f g n.
Proof.
  induction n; intros; simpl; [ring|].
  assert (A : forall h, shift (fun k => s ^ k * h k) = fun k => s * (s ^ k * shift h k)).
  { intros h. unfold shift. apply FunctionalExtensionality.functional_extensionality. intros k. simpl. ring. }
  rewrite !A, conv_scal_l, conv_scal_r, !IHn. ring.
Qed.

(** the convolution as a binomial sum *)
Lemma Rsum_seq_S (F : nat -> R) n : Rsum (map F (seq 0 (S n))) = F 0%nat + Rsum (map (fun k => F (S k)) (seq 0 n)).
Proof. simpl. f_equal. now rewrite <- seq_shift, map_map. Qed.
Lemma Rsum_seq_last (F : nat -> R) n : Rsum (map F (seq 0 (S n))) = Rsum (map F (seq 0 n)) + F n.
Proof. rewrite seq_S, map_app, Rsum_app. simpl. ring. Qed.
Lemma C_0 n : C n 0 = 1.
Proof. unfold C. rewrite Nat.sub_0_r. simpl. field. apply INR_fact_neq_0. Qed.
Lemma C_n n : C n n = 1.
Proof. unfold C. rewrite Nat.sub_diag. simpl. field. apply INR_fact_neq_0. Qed.
Lemma conv_binom n : forall f g, conv f g n = Rsum (map (fun k => C n k * f k * g (n - k)%nat) (seq 0 (S n))).
Proof.
  induction n; intros f g; [simpl; rewrite C_0; ring|].
  cbn [conv]. rewrite (IHn (shift f)), (IHn f).
  set (a := fun k => C n k * f (S k) * g (n - k)%nat).
  transitivity (Rsum (map a (seq 0 (S n))) + Rsum (map (fun k => C n k * f k * g (S n - k)%nat) (seq 0 (S n)))).
  { f_equal; apply Rsum_map_ext; intros k Hk; apply in_seq in Hk; unfold a, shift; trivial.
    replace (S n - k)%nat with (S (n - k)) by lia. reflexivity. }
  rewrite (Rsum_seq_last a), (Rsum_seq_S (fun k => C n k * f k * g (S n - k)%nat)).
  rewrite (Rsum_seq_S (fun k => C (S n) k * f k * g (S n - k)%nat)).
  rewrite (Rsum_seq_last (fun k => C (S n) (S k) * f (S k) * g (S n - S k)%nat)).
  rewrite !C_0, !C_n. replace (S n - S n)%nat with 0%nat by lia. unfold a at 2. rewrite C_n.
  replace (n - n)%nat with 0%nat by lia.
  enough (E : Rsum (map a (seq 0 n)) + Rsum (map (fun k => C n (S k) * f (S k) * g (S n - S k)%nat) (seq 0 n))
     = Rsum (map (fun k => C (S n) (S k) * f (S k) * g (S n - S k)%nat) (seq 0 n))) by lra.
  rewrite <- Rsum_map_plus. apply Rsum_map_ext. intros k Hk. apply in_seq in Hk. unfold a.
  replace (S n - S k)%nat with (n - k)%nat by lia.
  rewrite <- (pascal n k) by lia. ring.
Qed.

(** ** the moment-cumulant relation *)
Definition relation (mu K : nat -> R) (N : nat) : Prop :=
  forall m, (m < N)%nat -> mu (S m) = conv (shift K) mu m.
Lemma relation_unique mu K K' N : mu 0%nat = 1 -> relation mu K N -> relation mu K' N ->
  forall m, (1 <= m <= N)%nat -> K m = K' m.
Proof.
  intros M0 HK HK' m. induction m as [m IH] using lt_wf_ind. intros Hm. destruct m as [|m]; [lia|].
  assert (E := HK m ltac:(lia)). rewrite (HK' m) in E by lia.
  rewrite !conv_binom, !Rsum_seq_last in E. rewrite !C_n, !Nat.sub_diag, M0 in E. unfold shift in E.
  rewrite (Rsum_map_ext (fun k => C m k * K (S k) * mu (m - k)%nat) (fun k => C m k * K' (S k) * mu (m - k)%nat)) in E; [lra|].
  intros k Hk. apply in_seq in Hk. rewrite (IH (S k)); trivial; lia.
Qed.
(** shifting the variable by a *)
Lemma relation_shift mu K N a : relation mu K N ->
  relation (conv (fun k => a ^ k) mu) (fun k => match k with 1%nat => K 1%nat + a | _ => K k end) N.
Proof.
  intros H m Hm. cbn [conv].
  assert (E1 : conv (shift (fun k => a ^ k)) mu m = a * conv (fun k => a ^ k) mu m).
  { change (shift (fun k => a ^ k)) with (fun k => a * a ^ k). apply conv_scal_l. }
  assert (E2 : conv (fun k => a ^ k) (shift mu) m = conv (shift K) (conv (fun k => a ^ k) mu) m).
  { transitivity (conv (fun k => a ^ k) (conv (shift K) mu) m).
    - apply conv_ext; trivial. intros k Hk. apply H. lia.
    - rewrite <- !conv_assoc. apply conv_ext; trivial. intros. apply conv_comm. }
  rewrite E1, E2. set (g := conv (fun k => a ^ k) mu).
  transitivity (conv (fun k => match k with O => a | _ => 0 end + shift K k) g m).
  - rewrite conv_plus_l. f_equal.
    rewrite conv_binom. change (seq 0 (S m)) with (0%nat :: seq 1 m). cbn [map]. cbn [Rsum fold_right].
    change (fold_right Rplus 0 ?l) with (Rsum l). rewrite C_0, Nat.sub_0_r.
    rewrite Rsum_map_zero; [ring|]. intros k Hk. apply in_seq in Hk. destruct k; [lia|]. ring.
  - apply conv_ext; trivial. intros k _. unfold shift. destruct k; ring.
Qed.
Lemma relation_scale mu K N s : relation mu K N -> relation (fun k => s ^ k * mu k) (fun k => s ^ k * K k) N.
Proof.
  intros H m Hm. rewrite H by trivial.
  transitivity (conv (fun k => s * (s ^ k * shift K k)) (fun k => s ^ k * mu k) m).
  - rewrite conv_scal_l, conv_pow. simpl. ring.
  - apply conv_ext; trivial. intros k _. unfold shift. simpl. ring.
Qed.

(** ** empirical moments *)
Definition mu (x : list R) (k : nat) : R := mean (map (fun t => t ^ k) x).
Lemma mu_0 x : x <> [] -> mu x 0 = 1.
Proof. intros H. unfold mu. simpl. now apply mean_const. Qed.
Lemma mean_plus {A} (f g : A -> R) l : mean (map (fun a => f a + g a) l) = mean (map f l) + mean (map g l).
Proof. unfold mean. rewrite !map_length, Rsum_map_plus. unfold Rdiv. ring. Qed.
Lemma mean_scal {A} c (f : A -> R) l : mean (map (fun a => c * f a) l) = c * mean (map f l).
Proof. unfold mean. rewrite !map_length, Rsum_map_scal. unfold Rdiv. ring. Qed.
Lemma mean_Rsum {A B} (f : A -> B -> R) l m : mean (map (fun a => Rsum (map (f a) m)) l) = Rsum (map (fun b => mean (map (fun a => f a b) l)) m).
Proof.
  unfold mean. rewrite map_length. rewrite Rsum_swap. unfold Rdiv. rewrite Rmult_comm, <- Rsum_map_scal.
  apply Rsum_map_ext. intros b _. rewrite map_length. ring.
Qed.
Lemma pow_plus_binom a t n : (a + t) ^ n = conv (fun k => a ^ k) (fun k => t ^ k) n.
Proof.
  induction n; simpl; [ring|]. 
  change (shift (fun k => a ^ k)) with (fun k => a * a ^ k). change (shift (fun k => t ^ k)) with (fun k => t * t ^ k).
  rewrite (conv_scal_l n a (fun k => a ^ k)), (conv_scal_r n t (fun k => t ^ k)), <- IHn. ring.
Qed.
Lemma mu_shift x a n : mu (map (fun t => a + t) x) n = conv (fun k => a ^ k) (mu x) n.
Proof.
  unfold mu. rewrite map_map. rewrite (mean_ext _ (fun t => conv (fun k => a ^ k) (fun k => t ^ k) n)) by (intros; apply pow_plus_binom).
  rewrite (mean_ext _ (fun t => Rsum (map (fun k => C n k * a ^ k * t ^ (n - k)%nat) (seq 0 (S n))))) by (intros; apply conv_binom).
  rewrite mean_Rsum, conv_binom. apply Rsum_map_ext. intros k _. now rewrite mean_scal.
Qed.
Lemma mu_scale x s n : mu (map (fun t => s * t) x) n = s ^ n * mu x n.
Proof.
  unfold mu. rewrite map_map, <- mean_scal. apply mean_ext. intros. now rewrite Rpow_mult_distr.
Qed.

(** ** the loop computes the solution *)
Fixpoint kap (mu : nat -> R) (n : nat) : list R :=
  match n with
  | O => []
  | S k => let prev := kap mu k in
      prev ++ [mu (S k) - Rsum (map (fun i => C k i * nth i prev 0 * mu (k - i)%nat) (seq 0 k))]
  end.
Definition kappa (mu : nat -> R) (m : nat) : R := nth (m - 1) (kap mu m) 0.
Lemma kap_length mu n : length (kap mu n) = n.
Proof. induction n; simpl; trivial. rewrite app_length, IHn. simpl. lia. Qed.
Lemma kap_nth mu n i : (i < n)%nat -> nth i (kap mu n) 0 = kappa mu (S i).
Proof.
  unfold kappa. rewrite Nat.sub_succ, Nat.sub_0_r. induction n; intros H; [lia|].
  destruct (Nat.eq_dec i n) as [->|]; [reflexivity|].
  cbn [kap]. rewrite app_nth1 by (rewrite kap_length; lia). apply IHn. lia.
Qed.
Lemma kap_relation mu N : mu 0%nat = 1 -> relation mu (kappa mu) N.
Proof.
  intros M0 m _. rewrite conv_binom, Rsum_seq_last, C_n, Nat.sub_diag, M0. unfold shift.
  unfold kappa at 2. rewrite Nat.sub_succ, Nat.sub_0_r. cbn [kap]. rewrite app_nth2 by (rewrite kap_length; lia).
  rewrite kap_length, Nat.sub_diag. cbn [nth].
  rewrite (Rsum_map_ext (fun i => C m i * nth i (kap mu m) 0 * mu (m - i)%nat) (fun k => C m k * kappa mu (S k) * mu (m - k)%nat)).
  - ring.
  - intros k Hk. apply in_seq in Hk. rewrite kap_nth by lia. reflexivity.
Qed.

Lemma cum_aux_eq (mom : nat -> xr) (mu0 : nat -> R) (prev : list R) k :
  (forall i, (1 <= i <= k)%nat -> mom i = Fin (mu0 i)) -> length prev = k ->
  cum_aux mom (fin prev) (S k) = Fin (Rsum (map (fun i => C k i * nth i prev 0 * mu0 (k - i)%nat) (seq 0 k))).
Proof.
  intros Hm Hl. unfold cum_aux. rewrite Nat.sub_succ, Nat.sub_0_r.
  rewrite <- seq_shift. 
  assert (G : forall l acc, (forall i, In i l -> (i < k)%nat) ->
    fold_left (fun aux n => xadd aux (xmul (xmul (Fin (C k (n - 1))) (nth (n - 1) (fin prev) NaN)) (mom (S k - n)%nat)))
      (map S l) (Fin acc) = Fin (acc + Rsum (map (fun i => C k i * nth i prev 0 * mu0 (k - i)%nat) l))).
  { induction l as [|i l IH]; intros acc Hi; simpl; [f_equal; ring|].
    assert (i < k)%nat by (apply Hi; now left).
    rewrite Nat.sub_0_r. unfold fin. rewrite (nth_map_lt _ _ _ 0) by lia.
    rewrite Hm by lia. simpl. change (map Fin prev) with (fin prev). rewrite IH by (intros; apply Hi; now right). f_equal.
    change (fold_right Rplus 0 ?l) with (Rsum l). ring. }
  rewrite G by (intros i Hi; apply in_seq in Hi; lia). f_equal. ring.
Qed.
Lemma cum_list_eq (mom : nat -> xr) (mu0 : nat -> R) n :
  (forall i, (1 <= i <= n)%nat -> mom i = Fin (mu0 i)) -> cum_list mom n = fin (kap mu0 n).
Proof.
  induction n; intros H; [reflexivity|]. cbn [cum_list kap]. rewrite IHn by (intros; apply H; lia).
  unfold fin at 3. rewrite map_app. cbn [map]. fold (fin (kap mu0 n)). f_equal. f_equal.
  unfold cum_step. destruct (Nat.eqb_spec (S n) 1) as [E|E].
  - injection E as ->. rewrite H by lia. cbn. f_equal. ring.
  - rewrite (cum_aux_eq mom mu0); [|intros; apply H; lia|apply kap_length]. rewrite H by lia. cbn. f_equal.
Qed.
Lemma cum_value_eq c n k (mu0 : nat -> R) : (1 <= k <= n)%nat ->
  (forall i, (1 <= i <= n)%nat -> log_moment c i = Fin (mu0 i)) ->
  cum_value n c k = Fin (kappa mu0 k).
Proof.
  intros Hk H. unfold cum_value. rewrite (cum_list_eq _ mu0) by trivial. unfold fin.
  rewrite (nth_map_lt _ _ _ 0) by (rewrite kap_length; lia). f_equal. rewrite kap_nth by lia. f_equal. lia.
Qed.

(** the logarithms of the moduli of the usable entries *)
Definition lnabs (c : col) : list R := map (fun a => ln (Rabs a)) (reals c).
Lemma log_moment_eq c m : no_inf c -> reals c <> [] -> Forall (fun a => a <> 0) (reals c) ->
  log_moment c m = Fin (mu (lnabs c) m).
Proof.
  intros N Hne Hz. unfold log_moment, mu, lnabs. rewrite fast_power_map, !map_map.
  destruct (map_no_inf (fun x => fp1 (PyFloat (INR m)) (xln (xabs x))) (fun a => ln (Rabs a) ^ m) c) as [A B]; trivial.
  - cbn. apply fp1_NaN.
  - intros a Ha. rewrite Forall_forall in Hz. cbn [xabs]. rewrite xln_pos by (apply Rabs_pos_lt; auto). apply fp1_nat.
  - rewrite nanmean_reals; trivial.
    + now rewrite B.
    + rewrite B. destruct (reals c); [congruence|discriminate].
Qed.

(** low orders *)
Lemma kappa_1 mu0 : kappa mu0 1 = mu0 1%nat.
Proof. unfold kappa. cbn. ring. Qed.
Lemma C_vals : C 1 0 = 1 /\ C 2 0 = 1 /\ C 2 1 = 2 /\ C 3 0 = 1 /\ C 3 1 = 3 /\ C 3 2 = 3.
Proof. unfold C. simpl. repeat split; field. Qed.
Lemma kappa_2 mu0 : kappa mu0 2 = mu0 2%nat - mu0 1%nat ^ 2.
Proof. unfold kappa. destruct C_vals as (A & B & D0 & E & F & G). cbn [kap Nat.sub seq map nth app Rsum fold_right]. rewrite A. ring. Qed.
Lemma kappa_3 mu0 : kappa mu0 3 = mu0 3%nat - 3 * mu0 1%nat * mu0 2%nat + 2 * mu0 1%nat ^ 3.
Proof. unfold kappa. destruct C_vals as (A & B & D0 & E & F & G). cbn [kap Nat.sub seq map nth app Rsum fold_right]. rewrite A, B, D0. ring. Qed.
Lemma kappa_4 mu0 : kappa mu0 4 = mu0 4%nat - 4 * mu0 1%nat * mu0 3%nat - 3 * mu0 2%nat ^ 2 + 12 * mu0 1%nat ^ 2 * mu0 2%nat - 6 * mu0 1%nat ^ 4.
Proof. unfold kappa. destruct C_vals as (A & B & D0 & E & F & G). cbn [kap Nat.sub seq map nth app Rsum fold_right]. rewrite A, B, D0, E, F, G. ring. Qed.

(** shift and homogeneity of the solution *)
Lemma kappa_shift x a m : x <> [] -> (1 <= m)%nat ->
  kappa (mu (map (fun t => a + t) x)) m = kappa (mu x) m + match m with 1%nat => a | _ => 0 end.
Proof.
  intros Hx Hm. assert (M0 := mu_0 x Hx).
  assert (M1 : mu (map (fun t => a + t) x) 0 = 1) by (apply mu_0; destruct x; [congruence|discriminate]).
  assert (R1 := kap_relation _ m M1).
  assert (R2 : relation (mu (map (fun t => a + t) x)) (fun k => match k with 1%nat => kappa (mu x) 1 + a | _ => kappa (mu x) k end) m).
  { intros i Hi. rewrite mu_shift. rewrite (relation_shift (mu x) (kappa (mu x)) m a (kap_relation _ _ M0) i Hi).
    apply conv_ext; trivial. intros. now rewrite mu_shift. }
  rewrite (relation_unique _ _ _ m M1 R1 R2 m) by lia. destruct m as [|[|]]; [lia| |]; ring.
Qed.
Lemma kappa_scale x s m : x <> [] -> (1 <= m)%nat ->
  kappa (mu (map (fun t => s * t) x)) m = s ^ m * kappa (mu x) m.
Proof.
  intros Hx Hm. assert (M0 := mu_0 x Hx).
  assert (M1 : mu (map (fun t => s * t) x) 0 = 1) by (apply mu_0; destruct x; [congruence|discriminate]).
  assert (R1 := kap_relation _ m M1).
  assert (R2 : relation (mu (map (fun t => s * t) x)) (fun k => s ^ k * kappa (mu x) k) m).
  { intros i Hi. rewrite mu_scale. rewrite (relation_scale (mu x) (kappa (mu x)) m s (kap_relation _ _ M0) i Hi).
    apply conv_ext; trivial. intros. now rewrite mu_scale. }
  exact (relation_unique _ _ _ m M1 R1 R2 m ltac:(lia)).
Qed.
Lemma kappa_ext mu0 mu1 m : (forall i, (1 <= i <= m)%nat -> mu0 i = mu1 i) -> kappa mu0 m = kappa mu1 m.
Proof.
  unfold kappa. intros H. enough (E : forall n, (n <= m)%nat -> kap mu0 n = kap mu1 n) by (now rewrite E).
  induction n; intros Hn; [reflexivity|]. cbn [kap]. rewrite IHn by lia. f_equal. f_equal. rewrite H by lia. f_equal.
  apply Rsum_map_ext. intros k Hk. apply in_seq in Hk. rewrite (H (n - k)%nat) by lia. reflexivity.
Qed.
(** constant data: only the first cumulant *)
Lemma kappa_const x a m : x <> [] -> (forall t, In t x -> t = a) -> (1 <= m)%nat ->
  kappa (mu x) m = match m with 1%nat => a | _ => 0 end.
Proof.
  intros Hx H Hm.
  assert (E : x = map (fun t => a + t) (map (fun t => 0 * t) x)).
  { rewrite map_map. rewrite <- (map_id x) at 1. apply map_ext_in. intros t Ht. rewrite (H t Ht). ring. }
  rewrite E, kappa_shift by (first [exact Hm|destruct x; [congruence|discriminate]]).
  rewrite kappa_scale by trivial. rewrite pow_ne_zero by lia. destruct m as [|[|]]; ring.
Qed.
