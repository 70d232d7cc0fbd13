(** * Covariances whose circulant embedding is non-negative definite *)
From Coq Require Import Reals List ZArith Bool Lia Lra.
From Verif Require Import XReal PyBase ModelSimul Spec SpecSimul LXReal LBase LDft LSimul.
Import ListNotations.
Open Scope R_scope.
Local Notation length := List.length.

(** ** the eigenvalues as cosine sums *)
Lemma eig_cos n c k : (1 <= n)%nat ->
  eig n c k = c 0%nat + 2 * sumn (n - 1) (fun m => c (S m) * cos (ang (2 * n) (Z.of_nat (S m)) k)) + c n * cos (ang (2 * n) (Z.of_nat n) k).
Proof.
  intros Hn. unfold eig. replace (2 * n)%nat with (S (n - 1) + (1 + (n - 1)))%nat at 1 by lia.
  rewrite sumn_app, sumn_S_first, sumn_app.
  assert (A0 : cos (ang (2 * n) (Z.of_nat 0) k) = 1).
  { unfold ang. cbn [Z.of_nat]. rewrite Rmult_0_r. unfold Rdiv. rewrite Rmult_0_l. apply cos_0. }
  rewrite A0. replace (sumn 1 _) with (c n * cos (ang (2 * n) (Z.of_nat n) k)).
  2:{ rewrite sumn_S, sumn_0. replace (S (n - 1) + 0)%nat with n by lia. unfold emb. rewrite Nat.leb_refl. ring. }
  replace (sumn (n - 1) (fun i => emb n c (S (n - 1) + (1 + i)) * cos (ang (2 * n) (Z.of_nat (S (n - 1) + (1 + i))) k)))
    with (sumn (n - 1) (fun m => c (S m) * cos (ang (2 * n) (Z.of_nat (S m)) k))).
  2:{ rewrite sumn_rev. apply sumn_ext. intros i Hi. replace (S (n - 1) + (1 + i))%nat with (2 * n - (S (n - 1 - 1 - i)))%nat by lia.
      destruct (ang_reflect (2 * n) (S (n - 1 - 1 - i)) k) as [-> _]; [lia|lia|]. f_equal.
      unfold emb. destruct (Nat.leb_spec (2 * n - S (n - 1 - 1 - i)) n); [lia|]. f_equal. lia. }
  rewrite (sumn_ext (n - 1) (fun i => emb n c (S i) * cos (ang (2 * n) (Z.of_nat (S i)) k)) (fun m => c (S m) * cos (ang (2 * n) (Z.of_nat (S m)) k))).
  2:{ intros i Hi. unfold emb. destruct (Nat.leb_spec (S i) n); [reflexivity|lia]. }
  unfold emb. cbn [Nat.leb]. ring.
Qed.

(** ** Fejer kernels *)
Section Fejer.
Variable th : R.
Definition dd (m : nat) : R := match m with O => 1 | S _ => 2 * cos (INR m * th) end.
Definition Dk (m : nat) : R := sumn m dd.
Definition Fk (m : nat) : R := sumn m (fun j => Dk (S j)).
Lemma Fk_square m : Fk m = sumn m (fun s => cos (INR s * th)) ^ 2 + sumn m (fun s => sin (INR s * th)) ^ 2.
Proof.
  induction m as [|m IH]; [unfold Fk; rewrite !sumn_0; ring|].
  unfold Fk in *. rewrite !sumn_S, IH. clear IH.
  assert (K : Dk (S m) = 2 * (sumn m (fun s => cos (INR s * th)) * cos (INR m * th) + sumn m (fun s => sin (INR s * th)) * sin (INR m * th)) + 1).
  { rewrite <- !sumn_scal_r, <- sumn_plus.
    rewrite (sumn_ext m _ (fun s => cos (INR (m - s) * th))).
    2:{ intros s Hs. rewrite minus_INR by lia. replace ((INR m - INR s) * th) with (INR m * th - INR s * th) by ring. rewrite cos_minus. ring. }
    rewrite sumn_rev. unfold Dk. rewrite sumn_S_first. cbn [dd]. rewrite <- sumn_scal. rewrite Rplus_comm. f_equal.
    apply sumn_ext. intros i Hi. replace (m - (m - 1 - i))%nat with (S i) by lia. reflexivity. }
  rewrite K. assert (S1 := sin2_cos2 (INR m * th)). unfold Rsqr in S1. nra.
Qed.
Lemma Fk_nonneg m : 0 <= Fk m.
Proof. rewrite Fk_square. assert (A := pow2_ge_0 (sumn m (fun s => cos (INR s * th)))). assert (B := pow2_ge_0 (sumn m (fun s => sin (INR s * th)))). lra. Qed.
Lemma abel n (c e : nat -> R) : sumn n (fun m => c m * e m) = c n * sumn n e + sumn n (fun m => (c m - c (S m)) * sumn (S m) e).
Proof. induction n; [rewrite !sumn_0; ring|]. rewrite !sumn_S, IHn. rewrite ?sumn_S. ring. Qed.
Lemma abel2 n (c : nat -> R) : (1 <= n)%nat -> sumn n (fun m => c m * dd m) =
  c n * Dk n + (c (n - 1)%nat - c n) * Fk n + sumn (n - 1) (fun m => (c m - 2 * c (S m) + c (S (S m))) * Fk (S m)).
Proof.
  intros Hn. rewrite abel. fold (Dk n). rewrite Rplus_assoc. f_equal.
  replace n with (S (n - 1)) at 1 by lia. rewrite sumn_S.
  rewrite (abel (n - 1) (fun m => c m - c (S m)) (fun m => sumn (S m) dd)).
  replace (S (n - 1)) with n by lia. replace (sumn (n - 1) (fun m => sumn (S m) dd)) with (Fk n - Dk n).
  2:{ unfold Fk. replace n with (S (n - 1)) at 1 2 by lia. rewrite sumn_S. unfold Dk. ring. }
  rewrite (sumn_ext (n - 1) _ (fun m => (c m - 2 * c (S m) + c (S (S m))) * Fk (S m))).
  2:{ intros m _. change (sumn (S m) (fun j => sumn (S j) dd)) with (Fk (S m)). ring. }
  fold (Dk n). ring.
Qed.
End Fejer.

(** non-negative, non-increasing, convex sequences *)
Definition convex_seq (n : nat) (c : nat -> R) : Prop :=
  0 <= c n /\ c n <= c (n - 1)%nat /\ forall m, (m + 2 <= n)%nat -> 0 <= c m - 2 * c (S m) + c (S (S m)).
Lemma ang_mul n m k : ang n (Z.of_nat m) k = INR m * (2 * PI * INR k / INR n).
Proof. unfold ang. rewrite <- INR_IZR_INZ. unfold Rdiv. ring. Qed.
Lemma dd_sum n c k : (1 <= n)%nat ->
  eig n c k = sumn n (fun m => c m * dd (2 * PI * INR k / INR (2 * n)) m) + c n * cos (ang (2 * n) (Z.of_nat n) k).
Proof.
  intros Hn. rewrite eig_cos by trivial. f_equal. replace (sumn n) with (sumn (S (n - 1))) by (f_equal; lia). rewrite sumn_S_first. cbn [dd].
  rewrite <- sumn_scal, Rmult_1_r. f_equal. apply sumn_ext. intros m Hm. rewrite ang_mul. ring.
Qed.
Theorem convex_eig n c k : (1 <= n)%nat -> convex_seq n c -> 0 <= eig n c k.
Proof.
  intros Hn [H0 [H1 H2]]. rewrite dd_sum by trivial. set (th := 2 * PI * INR k / INR (2 * n)).
  rewrite abel2 by trivial.
  assert (G : 0 <= Dk th n + cos (ang (2 * n) (Z.of_nat n) k)).
  { assert (Q := dd_sum n (fun _ => 1) k Hn). fold th in Q. cbv beta in Q.
    rewrite (sumn_ext n (fun m => 1 * dd th m) (dd th)), Rmult_1_l in Q by (intros; ring). unfold Dk. rewrite <- Q.
    unfold eig. rewrite (sumn_ext (2 * n) _ (fun m => cos (ang (2 * n) (Z.of_nat k) m))).
    2:{ intros m _. unfold emb. destruct (Nat.leb m n); rewrite Rmult_1_l; now rewrite ang_sym. }
    destruct (orthogonality (2 * n) (Z.of_nat k)) as [-> _]; [lia|]. destruct (Z.eq_dec _ 0); [apply pos_INR|lra]. }
  assert (G1 := Fk_nonneg th n). assert (G2 : 0 <= sumn (n - 1) (fun m => (c m - 2 * c (S m) + c (S (S m))) * Fk th (S m))).
  { apply sumn_nonneg. intros m Hm. apply Rmult_le_pos; [apply H2; lia|apply Fk_nonneg]. }
  assert (0 <= c n * (Dk th n + cos (ang (2 * n) (Z.of_nat n) k))) by (now apply Rmult_le_pos).
  assert (0 <= (c (n - 1)%nat - c n) * Fk th n) by (apply Rmult_le_pos; lra). lra.
Qed.
(** non-positive correlations whose absolute sum does not exceed the variance *)
Theorem negative_eig n c k : (1 <= n)%nat -> (forall m, (1 <= m)%nat -> (m <= n)%nat -> c m <= 0) ->
  0 <= c 0%nat + 2 * sumn (n - 1) (fun m => c (S m)) + c n -> 0 <= eig n c k.
Proof.
  intros Hn H1 H2. rewrite eig_cos by trivial.
  assert (A : forall m x, (1 <= m)%nat -> (m <= n)%nat -> c m <= c m * cos x).
  { intros m x L1 L2. assert (B := COS_bound x). specialize (H1 m L1 L2). nra. }
  assert (B : sumn (n - 1) (fun m => c (S m)) <= sumn (n - 1) (fun m => c (S m) * cos (ang (2 * n) (Z.of_nat (S m)) k))).
  { apply sumn_le. intros i Hi. apply A; lia. }
  assert (D := A n (ang (2 * n) (Z.of_nat n) k) Hn (le_n n)). lra.
Qed.

(** ** differences of powers *)
Section Diff.
Definition dif (f : R -> R) (x : R) : R := f (x + 1) - f x.
Fixpoint difn (k : nat) (f : R -> R) : R -> R := match k with O => f | S k' => dif (difn k' f) end.
Lemma difn_deriv k f f' : (forall x, 0 < x -> derivable_pt_lim f x (f' x)) -> forall x, 0 < x -> derivable_pt_lim (difn k f) x (difn k f' x).
Proof.
  induction k as [|k IH]; intros H x Hx; [now apply H|]. cbn [difn]. unfold dif.
  apply derivable_pt_lim_minus with (f1 := fun x => difn k f (x + 1)) (f2 := difn k f); [|now apply IH].
  assert (Q := derivable_pt_lim_comp (fun y => y + 1) (difn k f) x 1 (difn k f' (x + 1))). rewrite Rmult_1_r in Q. apply Q.
  - assert (K := derivable_pt_lim_plus id (fct_cte 1) x 1 0 (derivable_pt_lim_id x) (derivable_pt_lim_const 1 x)). rewrite Rplus_0_r in K. exact K.
  - apply IH; [exact H|lra].
Qed.
Lemma difn_nonneg k (F : nat -> R -> R) : (forall i x, 0 < x -> derivable_pt_lim (F i) x (F (S i) x)) ->
  (forall x, 0 < x -> 0 <= F k x) -> forall x, 0 < x -> 0 <= difn k (F 0%nat) x.
Proof.
  revert F. induction k as [|k IH]; intros F D H x Hx; [now apply H|]. cbn [difn]. unfold dif.
  destruct (MVT_cor2 (difn k (F 0%nat)) (difn k (F 1%nat)) x (x + 1) ltac:(lra)) as [y [E1 E2]].
  { intros y Hy. apply difn_deriv; [intros; now apply D|lra]. }
  rewrite E1. apply Rmult_le_pos; [|lra]. apply (IH (fun i => F (S i))); [intros; now apply D|trivial|lra].
Qed.
(** falling factorial and the derivatives of a power *)
Fixpoint ff (a : R) (k : nat) : R := match k with O => 1 | S k' => ff a k' * (a - INR k') end.
Lemma power_derivs s a i x : 0 < x -> derivable_pt_lim (fun x => s * ff a i * Rpower x (a - INR i)) x (s * ff a (S i) * Rpower x (a - INR (S i))).
Proof.
  intros Hx. cbn [ff]. replace (s * (ff a i * (a - INR i)) * Rpower x (a - INR (S i))) with ((s * ff a i) * ((a - INR i) * Rpower x (a - INR i - 1))).
  2:{ rewrite S_INR. replace (a - INR i - 1) with (a - (INR i + 1)) by ring. ring. }
  apply (derivable_pt_lim_scal (fun x => Rpower x (a - INR i))). now apply derivable_pt_lim_power.
Qed.
Lemma difn_ext k f g x : (forall x, f x = g x) -> difn k f x = difn k g x.
Proof. revert x. induction k as [|k IH]; intros x H; [apply H|]. cbn [difn]. unfold dif. now rewrite !IH. Qed.
Lemma difn_scal k s f x : difn k (fun x => s * f x) x = s * difn k f x.
Proof. revert x. induction k as [|k IH]; intros x; [reflexivity|]. cbn [difn]. unfold dif. rewrite !IH. ring. Qed.
Lemma power_dif k s a x : 0 <= s * ff a k -> 0 < x -> 0 <= s * difn k (fun x => Rpower x a) x.
Proof.
  intros H Hx. rewrite <- difn_scal.
  rewrite (difn_ext k _ (fun x => s * ff a 0 * Rpower x (a - INR 0))).
  2:{ intros y. cbn [ff INR]. now rewrite Rminus_0_r, Rmult_1_r. }
  apply (difn_nonneg k (fun i x => s * ff a i * Rpower x (a - INR i))); [intros i y; apply power_derivs| |trivial].
  intros y Hy. apply Rmult_le_pos; [trivial|]. left. apply exp_pos.
Qed.
End Diff.
(** the limit at 0 *)
Lemma nonneg_at_0 (f : R -> R) l : derivable_pt_lim f 0 l -> (forall t, 0 < t -> t <= 1 -> 0 <= f t) -> 0 <= f 0.
Proof.
  intros D H. destruct (Rle_lt_dec 0 (f 0)) as [|N]; [trivial|exfalso].
  assert (Cn : continuity_pt f 0) by (apply derivable_continuous_pt; exists l; exact D).
  destruct (Cn (- f 0) ltac:(lra)) as [e [He Q]]. cbn in Q. unfold R_dist, D_x, no_cond in Q.
  assert (M1 := Rmin_l (e / 2) 1). assert (M2 := Rmin_r (e / 2) 1).
  assert (M0 : 0 < Rmin (e / 2) 1) by (apply Rmin_glb_lt; lra).
  specialize (Q (Rmin (e / 2) 1)). assert (P : Rabs (f (Rmin (e / 2) 1) - f 0) < - f 0).
  { apply Q. split; [split; [trivial|lra]|]. rewrite Rminus_0_r, Rabs_pos_eq; lra. }
  specialize (H (Rmin (e / 2) 1) M0 M2). apply Rabs_def2 in P. lra.
Qed.
