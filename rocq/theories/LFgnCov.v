(** * fgn and fbm through the circulant embedding *)
From Coq Require Import Reals List ZArith Bool Lia Lra String.
From Verif Require Import XReal PyBase ModelSimul Spec SpecSimul LXReal LBase LDft LSimul LCirc LFgn LBivariate.
Import ListNotations.
Open Scope R_scope.
Local Notation length := List.length.

Lemma eig_scal n s c k : eig n (fun m => s * c m) k = s * eig n c k.
Proof.
  unfold eig. rewrite <- sumn_scal. apply sumn_ext. intros m _. unfold emb. destruct (Nat.leb m n); ring.
Qed.
Lemma eig_ext n c c' k : (1 <= n)%nat -> (forall m, (m <= n)%nat -> c m = c' m) -> eig n c k = eig n c' k.
Proof.
  intros Hn H. unfold eig. apply sumn_ext. intros m Hm. f_equal. unfold emb. destruct (Nat.leb_spec m n); apply H; lia.
Qed.
Lemma eig_circulant cov k : (2 <= length cov)%nat -> circulant_eigenvalue cov k = eig (length cov - 1) (fun i => nth i cov 0) k.
Proof.
  intros H. unfold circulant_eigenvalue, eig. replace (2 * length cov - 2)%nat with (2 * (length cov - 1))%nat by lia.
  rewrite <- sumn_Rsum. apply sumn_ext. intros m Hm. unfold ang. rewrite <- INR_IZR_INZ. f_equal. unfold emb.
  destruct (Nat.leb_spec m (length cov - 1)); f_equal; lia.
Qed.
Lemma nth_map_seq (f : nat -> R) n i : (i < n)%nat -> nth i (map f (seq 0 n)) 0 = f i.
Proof.
  intros H. rewrite (nth_indep _ 0 (f 0%nat)) by (now rewrite map_length, seq_length). now rewrite map_nth, seq_nth.
Qed.
Lemma fgn_cov_length N H s d : length (fgn_cov N H s d) = N.
Proof. unfold fgn_cov. now rewrite map_length, seq_length. Qed.
(** the covariance built by the code *)
Lemma fgn_cov_nth N H s d m : 0 < H -> 0 < d -> (m < N)%nat ->
  nth m (fgn_cov N H s d) 0 = (rpow d (2 * H) * s ^ 2) * fcor (2 * H) m.
Proof.
  intros H0 Hd Hm. unfold fgn_cov. rewrite nth_map_seq by trivial. rewrite !powR_rpow by (try apply Rabs_pos; lra).
  replace (rpow d (2 * H) * s ^ 2 / 2 * (rpow (Rabs (INR m + 1)) (2 * H) + rpow (Rabs (INR m - 1)) (2 * H) - 2 * rpow (Rabs (INR m)) (2 * H)))
    with (rpow d (2 * H) * s ^ 2 * ((rpow (Rabs (INR m + 1)) (2 * H) + rpow (Rabs (INR m - 1)) (2 * H) - 2 * rpow (Rabs (INR m)) (2 * H)) / 2)) by field.
  f_equal. assert (P := pos_INR m). rewrite (Rabs_pos_eq (INR m + 1)), (Rabs_pos_eq (INR m)) by lra. destruct m as [|m].
  - cbn [INR fcor]. rewrite rpow_0, Rplus_0_l. replace (0 - 1) with (- (1)) by ring. rewrite Rabs_Ropp, Rabs_R1, rpow_1. field.
  - rewrite fcor_S. assert (P2 := pos_INR m). rewrite S_INR. replace (INR m + 1 - 1) with (INR m) by ring. rewrite Rabs_pos_eq by trivial.
    rewrite !plus_INR. cbn [INR]. replace (INR m + (1 + 1)) with (INR m + 1 + 1) by ring. field.
Qed.
Lemma fgn_cov_eig N H s d k : (2 <= N)%nat -> 0 < H -> H <= 1 -> 0 < d ->
  eig (N - 1) (fun i => nth i (fgn_cov N H s d) 0) k = (rpow d (2 * H) * s ^ 2) * eig (N - 1) (fcor (2 * H)) k.
Proof.
  intros HN H0 H1 Hd. rewrite <- eig_scal. apply eig_ext; [lia|]. intros m Hm. apply fgn_cov_nth; trivial. lia.
Qed.
Lemma fgn_cov_eig_nonneg N H s d k : (2 <= N)%nat -> 0 < H -> H <= 1 -> 0 < d ->
  0 <= eig (N - 1) (fun i => nth i (fgn_cov N H s d) 0) k.
Proof.
  intros. rewrite fgn_cov_eig by trivial. apply Rmult_le_pos; [apply Rmult_le_pos; [apply rpow_nonneg|apply pow2_ge_0]|].
  apply fcor_eig; [lia|lra|lra].
Qed.
Lemma rpow_mult d x e : 0 < d -> 0 <= x -> rpow (d * x) e = rpow d e * rpow x e.
Proof.
  intros Hd Hx. destruct Hx as [Hx|<-]; [|rewrite Rmult_0_r, !rpow_0; ring].
  rewrite !rpow_pos by (try apply Rmult_lt_0_compat; trivial). symmetry. now apply Rpower_mult_distr.
Qed.
(** the two ways of writing the correlation of the increments *)
Lemma rpow_abs_nat (i j : nat) e : rpow (Rabs (INR i - INR j)) e = rpow (INR (Nat.max i j - Nat.min i j)) e.
Proof.
  f_equal. destruct (Nat.le_ge_cases i j) as [L|L].
  - rewrite Nat.max_r, Nat.min_l by trivial. rewrite minus_INR by trivial. rewrite Rabs_left1; [ring|]. apply le_INR in L. lra.
  - rewrite Nat.max_l, Nat.min_r by trivial. rewrite minus_INR by trivial. rewrite Rabs_pos_eq; [ring|]. apply le_INR in L. lra.
Qed.
Lemma fgn_covariance_fcor H s d a b : 0 < H -> 0 < d ->
  fgn_covariance H s d a b = (rpow d (2 * H) * s ^ 2) * fcor (2 * H) (Nat.max a b - Nat.min a b).
Proof.
  intros H0 Hd. unfold fgn_covariance, fbm_covariance.
  assert (A : forall x y, Rabs (d * x - d * y) = d * Rabs (x - y)).
  { intros x y. rewrite <- Rmult_minus_distr_l, Rabs_mult, (Rabs_pos_eq d); lra. }
  rewrite !A. assert (Pa := pos_INR a). assert (Pb := pos_INR b).
  rewrite !rpow_mult by (trivial; try apply Rabs_pos; lra).
  replace (INR a + 1 - (INR b + 1)) with (INR a - INR b) by ring.
  replace (INR a - (INR b + 1)) with (INR a - INR (S b)) by (rewrite S_INR; ring).
  replace (INR a + 1 - INR b) with (INR (S a) - INR b) by (rewrite S_INR; ring).
  rewrite !rpow_abs_nat.
  set (D := rpow d (2 * H)). destruct (Nat.le_ge_cases a b) as [L|L].
  - rewrite (Nat.max_r a b), (Nat.min_l a b), (Nat.max_r a (S b)), (Nat.min_l a (S b)) by lia.
    destruct (Nat.eq_dec a b) as [e|e].
    + subst b. rewrite Nat.max_l, Nat.min_r by lia. rewrite Nat.sub_diag. replace (S a - a)%nat with 1%nat by lia.
      cbn [INR fcor]. rewrite rpow_0, rpow_1. field.
    + rewrite (Nat.max_r (S a) b), (Nat.min_l (S a) b) by lia. set (m := (b - a - 1)%nat).
      replace (b - a)%nat with (S m) by (unfold m; lia). replace (S b - a)%nat with (m + 2)%nat by (unfold m; lia). replace (b - S a)%nat with m by (unfold m; lia).
      rewrite fcor_S. replace (m + 1)%nat with (S m) by lia. field.
  - rewrite (Nat.max_l a b), (Nat.min_r a b), (Nat.max_l (S a) b), (Nat.min_r (S a) b) by lia.
    destruct (Nat.eq_dec a b) as [e|e].
    + subst b. rewrite Nat.max_r, Nat.min_l by lia. rewrite Nat.sub_diag. replace (S a - a)%nat with 1%nat by lia.
      cbn [INR fcor]. rewrite rpow_0, rpow_1. field.
    + rewrite (Nat.max_l a (S b)), (Nat.min_r a (S b)) by lia. set (m := (a - b - 1)%nat).
      replace (a - b)%nat with (S m) by (unfold m; lia). replace (S a - b)%nat with (m + 2)%nat by (unfold m; lia). replace (a - S b)%nat with m by (unfold m; lia).
      rewrite fcor_S. replace (m + 1)%nat with (S m) by lia. field.
Qed.
Lemma fgn_cov_stationary N H s d a b : 0 < H -> 0 < d -> (a < N)%nat -> (b < N)%nat ->
  stationary (fgn_cov N H s d) a b = fgn_covariance H s d a b.
Proof. intros H0 Hd Ha Hb. unfold stationary. rewrite fgn_cov_nth, fgn_covariance_fcor by (trivial; lia). reflexivity. Qed.

(** covariance of partial sums *)
Lemma fbm_telescope H s d k l : sumn k (fun a => sumn l (fun b => fgn_covariance H s d a b)) =
  fbm_covariance H s (d * INR k) (d * INR l) - fbm_covariance H s (d * INR 0) (d * INR l) - fbm_covariance H s (d * INR k) (d * INR 0) + fbm_covariance H s (d * INR 0) (d * INR 0).
Proof.
  assert (I : forall a l, sumn l (fun b => fgn_covariance H s d a b) =
     (fbm_covariance H s (d * (INR a + 1)) (d * INR l) - fbm_covariance H s (d * INR a) (d * INR l))
     - (fbm_covariance H s (d * (INR a + 1)) (d * INR 0) - fbm_covariance H s (d * INR a) (d * INR 0))).
  { intros a l'. induction l' as [|l' IH]; [rewrite sumn_0; ring|]. rewrite sumn_S, IH. unfold fgn_covariance. rewrite S_INR. ring. }
  induction k as [|k IH]; [rewrite sumn_0; ring|]. rewrite sumn_S, IH, I, S_INR. ring.
Qed.
Lemma fbm_cov_0_l H s t : 0 <= t -> fbm_covariance H s 0 t = 0.
Proof. intros Ht. unfold fbm_covariance. rewrite rpow_0. replace (0 - t) with (- t) by ring. rewrite Rabs_Ropp, Rabs_pos_eq by trivial. field. Qed.
Lemma fbm_cov_0_r H s t : 0 <= t -> fbm_covariance H s t 0 = 0.
Proof. intros Ht. unfold fbm_covariance. rewrite rpow_0, Rminus_0_r, Rabs_pos_eq by trivial. field. Qed.
Lemma fbm_sum H s d k l : 0 < d -> sumn k (fun a => sumn l (fun b => fgn_covariance H s d a b)) = fbm_covariance H s (d * INR k) (d * INR l).
Proof.
  intros Hd. rewrite fbm_telescope. cbn [INR]. rewrite Rmult_0_r.
  assert (0 <= d * INR l) by (apply Rmult_le_pos; [lra|apply pos_INR]). assert (0 <= d * INR k) by (apply Rmult_le_pos; [lra|apply pos_INR]).
  rewrite fbm_cov_0_l, fbm_cov_0_r, (fbm_cov_0_l H s 0) by (trivial; lra). ring.
Qed.

(** cumulated sums *)
Lemma cumsum_from_nth acc c k : (k < length c)%nat -> nth k (cumsum_from acc c) 0 = acc + sumn (S k) (fun i => nth i c 0).
Proof.
  revert acc k. induction c as [|x c IH]; intros acc k H; [cbn in H; lia|]. cbn [cumsum_from]. destruct k as [|k].
  - cbn [nth]. rewrite sumn_S, sumn_0. cbn [nth]. ring.
  - cbn [nth]. rewrite IH by (cbn in H; lia). rewrite (sumn_S_first (S k)). cbn [nth]. ring.
Qed.
Lemma cumsum_nth c k : (k < length c)%nat -> nth k (cumsum c) 0 = sumn (S k) (fun i => nth i c 0).
Proof. intros H. unfold cumsum. rewrite cumsum_from_nth by trivial. ring. Qed.
Lemma cumsum_length c : length (cumsum c) = length c.
Proof. unfold cumsum. generalize 0. induction c as [|x c IH]; intros acc; [reflexivity|]. cbn [cumsum_from length]. now rewrite IH. Qed.

(** covariance of sums of entries *)
Section SumCov.
Context {W : Type} (P : expectation W) (R N : nat) (X : W -> list (list Rdefinitions.R)) (c : nat -> nat -> Rdefinitions.R).
Hypothesis HX : has_covariance P R N X c.
Lemma cumsum_covariance : has_covariance P R N (fun w => map cumsum (X w)) (fun k l => sumn (S k) (fun a => sumn (S l) (fun b => c a b))).
Proof.
  destruct HX as [Sh [Mn Cv]].
  assert (En : forall r k w, (r < R)%nat -> (k < N)%nat -> entry 0 (map cumsum (X w)) r k = sumn (S k) (fun i => 1 * entry 0 (X w) r i)).
  { intros r k w Hr Hk. destruct (Sh w) as [L F]. unfold entry.
    assert (Lr : length (nth r (X w) []) = N). { rewrite Forall_forall in F. apply F, nth_In. now rewrite L. }
    change (@nil Rdefinitions.R) with (cumsum []). rewrite map_nth. rewrite cumsum_nth by (cbn [cumsum cumsum_from]; now rewrite Lr).
    apply sumn_ext. intros. cbn [cumsum cumsum_from]. ring. }
  refine (conj _ (conj _ _)).
  - intros w. destruct (Sh w) as [L F]. split; [now rewrite map_length|]. apply Forall_forall. intros x Hx. apply in_map_iff in Hx as [y [<- Hy]].
    rewrite cumsum_length. rewrite Forall_forall in F. auto.
  - intros r k Hr Hk. destruct (lin_mean P (S k) (fun _ => 1) (fun i w => entry 0 (X w) r i)) as [I0 E0].
    { intros i Hi. apply Mn; [trivial|lia]. }
    split; [apply (int_ext W P _ _ (fun w => eq_sym (En r k w Hr Hk)) I0)|]. etransitivity; [|exact E0]. apply E_ext. intros w. now rewrite En.
  - intros r r' k l Hr Hr' Hk Hl.
    assert (Z0 : forall r a, (r < R)%nat -> (a < N)%nat -> E P (fun w => entry 0 (X w) r a) = 0) by (intros; now apply Mn).
    assert (Cv2 : forall a b, (a < N)%nat -> (b < N)%nat -> E P (fun w => entry 0 (X w) r a * entry 0 (X w) r' b) = if Nat.eq_dec r r' then c a b else 0).
    { intros a b Ha Hb. rewrite <- (proj2 (Cv r r' a b Hr Hr' Ha Hb)). unfold Cov. rewrite !Z0 by trivial. ring. }
    set (m := Nat.max (S k) (S l)).
    set (u := fun i => if Nat.ltb i (S k) then 1 else 0). set (v := fun i => if Nat.ltb i (S l) then 1 else 0).
    assert (Cut : forall j n f, (j <= n)%nat -> sumn n (fun i => (if Nat.ltb i j then 1 else 0) * f i) = sumn j (fun i => 1 * f i)).
    { intros j n f Hj. replace n with (j + (n - j))%nat by lia. rewrite sumn_app.
      rewrite (sumn_zero (n - j)). 2:{ intros i _. destruct (Nat.ltb_spec (j + i) j); [lia|ring]. }
      rewrite Rplus_0_r. apply sumn_ext. intros i Hi. destruct (Nat.ltb_spec i j); [reflexivity|lia]. }
    assert (Hm : (m <= N)%nat) by (unfold m; lia).
    destruct (lin_prod P m u v (fun i w => entry 0 (X w) r i) (fun i w => entry 0 (X w) r' i) (fun a b => if Nat.eq_dec r r' then c a b else 0)) as [IP EP].
    { intros i j Hi Hj. split; [apply Cv; lia|apply Cv2; lia]. }
    split.
    { apply (int_ext W P (fun w => sumn m (fun i => u i * entry 0 (X w) r i) * sumn m (fun i => v i * entry 0 (X w) r' i))); [|exact IP].
      intros w. rewrite !En by trivial. unfold u, v. rewrite !Cut by (unfold m; lia). reflexivity. }
    unfold Cov. destruct (lin_mean P (S k) (fun _ => 1) (fun i w => entry 0 (X w) r i)) as [_ E0].
    { intros i Hi. apply Mn; [trivial|lia]. }
    rewrite (E_ext W P (fun w => entry 0 (map cumsum (X w)) r k) _ (fun w => En r k w Hr Hk)), E0, Rmult_0_l, Rminus_0_r.
    etransitivity; [|etransitivity; [exact EP|]].
    + apply E_ext. intros w. rewrite !En by trivial. unfold u, v. rewrite !Cut by (unfold m; lia). reflexivity.
    + destruct (Nat.eq_dec r r') as [e|e].
      * transitivity (sumn m (fun i => u i * sumn m (fun j => v j * c i j))).
        { apply sumn_ext. intros i _. rewrite <- sumn_scal. apply sumn_ext. intros; ring. }
        unfold u, v. rewrite Cut by (unfold m; lia). apply sumn_ext. intros i _. rewrite Rmult_1_l, Cut by (unfold m; lia). apply sumn_ext. intros; ring.
      * apply sumn_zero. intros i _. apply sumn_zero. intros j _. ring.
Qed.
End SumCov.
