(** * Discrete Fourier sums *)
From Coq Require Import Reals List ZArith Bool Lia Lra.
From Verif Require Import XReal PyBase ModelSimul Spec LXReal.
Import ListNotations.
Open Scope R_scope.

Definition sumn (n : nat) (f : nat -> R) : R := Rsum (map f (seq 0 n)).
Lemma sumn_0 f : sumn 0 f = 0. Proof. reflexivity. Qed.
Lemma sumn_S n f : sumn (S n) f = sumn n f + f n.
Proof. unfold sumn. rewrite seq_S, map_app, Rsum_app. f_equal. cbn. ring. Qed.
Lemma sumn_ext n f g : (forall i, (i < n)%nat -> f i = g i) -> sumn n f = sumn n g.
Proof. intros H. apply Rsum_map_ext. intros i Hi. apply in_seq in Hi. apply H. lia. Qed.
Lemma sumn_plus n f g : sumn n (fun i => f i + g i) = sumn n f + sumn n g.
Proof. apply Rsum_map_plus. Qed.
Lemma sumn_scal n c f : sumn n (fun i => c * f i) = c * sumn n f.
Proof. induction n; [rewrite !sumn_0; ring|]. rewrite !sumn_S, IHn. ring. Qed.
Lemma sumn_scal_r n c f : sumn n (fun i => f i * c) = sumn n f * c.
Proof. induction n; [rewrite !sumn_0; ring|]. rewrite !sumn_S, IHn. ring. Qed.
Lemma sumn_minus n f g : sumn n (fun i => f i - g i) = sumn n f - sumn n g.
Proof. induction n; [rewrite !sumn_0; ring|]. rewrite !sumn_S, IHn. ring. Qed.
Lemma sumn_opp n f : sumn n (fun i => - f i) = - sumn n f.
Proof. induction n; [rewrite !sumn_0; ring|]. rewrite !sumn_S, IHn. ring. Qed.
Lemma sumn_const n c : sumn n (fun _ => c) = INR n * c.
Proof. induction n; [rewrite sumn_0; cbn; ring|]. rewrite sumn_S, IHn, S_INR. ring. Qed.
Lemma sumn_zero n f : (forall i, (i < n)%nat -> f i = 0) -> sumn n f = 0.
Proof. intros H. rewrite (sumn_ext n f (fun _ => 0) H), sumn_const. ring. Qed.
Lemma sumn_swap n m f : sumn n (fun i => sumn m (fun j => f i j)) = sumn m (fun j => sumn n (fun i => f i j)).
Proof.
  induction n; [rewrite sumn_0; symmetry; now apply sumn_zero|]. rewrite sumn_S, IHn, <- sumn_plus.
  apply sumn_ext. intros. now rewrite sumn_S.
Qed.
Lemma sumn_le n f g : (forall i, (i < n)%nat -> f i <= g i) -> sumn n f <= sumn n g.
Proof. intros H. induction n; [rewrite !sumn_0; lra|]. rewrite !sumn_S. apply Rplus_le_compat; auto. Qed.
Lemma sumn_nonneg n f : (forall i, (i < n)%nat -> 0 <= f i) -> 0 <= sumn n f.
Proof. intros H. replace 0 with (sumn n (fun _ => 0)) by (rewrite sumn_const; ring). now apply sumn_le. Qed.
Lemma sumn_app n m f : sumn (n + m) f = sumn n f + sumn m (fun i => f (n + i)%nat).
Proof. induction m; [rewrite Nat.add_0_r, sumn_0; ring|]. rewrite Nat.add_succ_r, !sumn_S, IHm. ring. Qed.
Lemma sumn_S_first n f : sumn (S n) f = f 0%nat + sumn n (fun i => f (S i)).
Proof. induction n; [rewrite sumn_S, !sumn_0; ring|]. rewrite sumn_S, IHn, (sumn_S n (fun i => f (S i))). ring. Qed.
(** a single non-zero term *)
Lemma sumn_single n f a : (a < n)%nat -> (forall i, (i < n)%nat -> i <> a -> f i = 0) -> sumn n f = f a.
Proof.
  induction n; [lia|]. intros Ha H. rewrite sumn_S. destruct (Nat.eq_dec a n) as [->|E].
  - rewrite sumn_zero; [ring|]. intros i Hi. apply H; lia.
  - rewrite IHn by (try lia; intros; apply H; lia). rewrite (H n) by lia. ring.
Qed.
Lemma sumn_rev n f : sumn n f = sumn n (fun i => f (n - 1 - i)%nat).
Proof.
  induction n; [reflexivity|]. rewrite sumn_S, sumn_S_first, IHn. rewrite Rplus_comm. f_equal; [f_equal; lia|].
  apply sumn_ext. intros i Hi. f_equal. lia.
Qed.
Lemma sumn_Rsum n f : sumn n f = fold_right Rplus 0 (map f (seq 0 n)). Proof. reflexivity. Qed.

(** ** periodicity *)
Lemma trig_period (z : Z) x : cos (x + 2 * IZR z * PI) = cos x /\ sin (x + 2 * IZR z * PI) = sin x.
Proof.
  assert (P : forall n x, cos (x + 2 * IZR (Z.of_nat n) * PI) = cos x /\ sin (x + 2 * IZR (Z.of_nat n) * PI) = sin x).
  { intros n y. rewrite <- INR_IZR_INZ. split; [apply cos_period|apply sin_period]. }
  destruct (Z_le_gt_dec 0 z) as [H|H].
  - rewrite <- (Z2Nat.id z) by trivial. apply P.
  - destruct (P (Z.to_nat (- z)) (x + 2 * IZR z * PI)) as [A B]. rewrite Z2Nat.id, opp_IZR in A, B by lia.
    replace (x + 2 * IZR z * PI + 2 * - IZR z * PI) with x in A, B by ring. now rewrite <- A, <- B.
Qed.
Lemma trig_2pi (z : Z) : cos (2 * IZR z * PI) = 1 /\ sin (2 * IZR z * PI) = 0.
Proof. destruct (trig_period z 0) as [A B]. rewrite Rplus_0_l, cos_0 in A. rewrite Rplus_0_l, sin_0 in B. auto. Qed.

(** ** orthogonality of the roots of unity *)
Definition ang (n : nat) (d : Z) (k : nat) : R := 2 * PI * INR k * IZR d / INR n.
Section Ortho.
Variables (n : nat) (d : Z).
Hypothesis Hn : (1 <= n)%nat.
Let th := 2 * PI * IZR d / INR n.
Lemma INR_n0 : INR n <> 0. Proof. apply not_0_INR. lia. Qed.
Lemma ang_th k : ang n d k = INR k * th.
Proof. unfold ang, th. field. apply INR_n0. Qed.
Lemma dirichlet m : 2 * sin (th / 2) * sumn m (fun k => cos (INR k * th)) = sin ((INR m - 1 / 2) * th) + sin (th / 2) /\
  2 * sin (th / 2) * sumn m (fun k => sin (INR k * th)) = cos (th / 2) - cos ((INR m - 1 / 2) * th).
Proof.
  induction m as [|m [A B]].
  - rewrite !sumn_0. replace ((INR 0 - 1 / 2) * th) with (- (th / 2)) by (cbn; field). rewrite sin_neg, cos_neg. split; ring.
  - rewrite !sumn_S, !Rmult_plus_distr_l, A, B, S_INR.
    replace ((INR m + 1 - 1 / 2) * th) with (INR m * th + th / 2) by field.
    replace ((INR m - 1 / 2) * th) with (INR m * th - th / 2) by field.
    rewrite sin_plus, sin_minus, cos_plus, cos_minus. split; ring.
Qed.
Lemma ortho_zero : sin (th / 2) <> 0 -> sumn n (fun k => cos (ang n d k)) = 0 /\ sumn n (fun k => sin (ang n d k)) = 0.
Proof.
  intros H. destruct (dirichlet n) as [A B].
  assert (E : (INR n - 1 / 2) * th = - (th / 2) + 2 * IZR d * PI) by (unfold th; field; apply INR_n0).
  rewrite E in A, B. destruct (trig_period d (- (th / 2))) as [Pc Ps]. rewrite Ps, sin_neg in A. rewrite Pc, cos_neg in B.
  rewrite (sumn_ext n (fun k => cos (ang n d k)) (fun k => cos (INR k * th))) by (intros; now rewrite ang_th).
  rewrite (sumn_ext n (fun k => sin (ang n d k)) (fun k => sin (INR k * th))) by (intros; now rewrite ang_th).
  split.
  - assert (K : 2 * sin (th / 2) * sumn n (fun k => cos (INR k * th)) = 0) by lra. apply Rmult_integral in K as [|]; trivial. lra.
  - assert (K : 2 * sin (th / 2) * sumn n (fun k => sin (INR k * th)) = 0) by lra. apply Rmult_integral in K as [|]; trivial. lra.
Qed.
Lemma ortho_full q : (d = q * Z.of_nat n)%Z -> sumn n (fun k => cos (ang n d k)) = INR n /\ sumn n (fun k => sin (ang n d k)) = 0.
Proof.
  intros E. assert (T : forall k, ang n d k = 2 * IZR (Z.of_nat k * q) * PI).
  { intros k. unfold ang. rewrite E, !mult_IZR, <- !INR_IZR_INZ. field. apply INR_n0. }
  split.
  - rewrite (sumn_ext n _ (fun _ => 1)); [rewrite sumn_const; ring|]. intros k _. rewrite T. apply trig_2pi.
  - apply sumn_zero. intros k _. rewrite T. apply trig_2pi.
Qed.
Lemma ortho_cases : (exists q, (d = q * Z.of_nat n)%Z) \/ sin (th / 2) <> 0.
Proof.
  destruct (Req_EM_T (sin (th / 2)) 0) as [E|E]; [left|now right]. apply sin_eq_0_0 in E as [q E]. exists q.
  apply eq_IZR. rewrite mult_IZR, <- INR_IZR_INZ. assert (P := PI_neq0). unfold th in E.
  assert (E2 : IZR d / INR n = IZR q).
  { apply Rmult_eq_reg_r with PI; [|exact P]. rewrite <- E. field. apply INR_n0. }
  rewrite <- E2. field. apply INR_n0.
Qed.
End Ortho.

Theorem orthogonality n (d : Z) : (1 <= n)%nat ->
  sumn n (fun k => cos (ang n d k)) = (if Z.eq_dec (d mod Z.of_nat n) 0 then INR n else 0) /\ sumn n (fun k => sin (ang n d k)) = 0.
Proof.
  intros Hn. destruct (Z.eq_dec (d mod Z.of_nat n) 0) as [E|E].
  - apply (ortho_full n d Hn (d / Z.of_nat n)). rewrite Z.mul_comm. apply Z_div_exact_full_2; lia.
  - destruct (ortho_cases n d Hn) as [[q K]|K]; [|now apply ortho_zero]. exfalso. apply E. rewrite K. apply Z_mod_mult.
Qed.

Lemma ang_neg n d k : ang n (- d) k = - ang n d k.
Proof. unfold ang. rewrite opp_IZR. unfold Rdiv. ring. Qed.
Lemma ang_plus n a b k : ang n (a + b) k = ang n a k + ang n b k.
Proof. unfold ang. rewrite plus_IZR. unfold Rdiv. ring. Qed.
Lemma ang_minus n a b k : ang n (a - b) k = ang n a k - ang n b k.
Proof. unfold ang. rewrite minus_IZR. unfold Rdiv. ring. Qed.
Lemma ang_sym n (i k : nat) : ang n (Z.of_nat i) k = ang n (Z.of_nat k) i.
Proof. unfold ang. rewrite <- !INR_IZR_INZ. unfold Rdiv. ring. Qed.
Lemma ang_period n a k : (1 <= n)%nat -> cos (ang n (a + Z.of_nat n) k) = cos (ang n a k) /\ sin (ang n (a + Z.of_nat n) k) = sin (ang n a k).
Proof.
  intros Hn. assert (E : ang n (a + Z.of_nat n) k = ang n a k + 2 * IZR (Z.of_nat k) * PI).
  { unfold ang. rewrite plus_IZR, <- !INR_IZR_INZ. field. apply not_0_INR. lia. }
  rewrite E. apply trig_period.
Qed.

(** inversion *)
Lemma dft_inversion n (c : nat -> R) a : (a < n)%nat ->
  sumn n (fun k => sumn n (fun j => c j * cos (ang n (Z.of_nat j) k)) * cos (ang n (Z.of_nat a) k)
                 + sumn n (fun j => c j * sin (ang n (Z.of_nat j) k)) * sin (ang n (Z.of_nat a) k)) = INR n * c a.
Proof.
  intros Ha.
  rewrite (sumn_ext n _ (fun k => sumn n (fun j => c j * cos (ang n (Z.of_nat j - Z.of_nat a) k)))).
  2:{ intros k _. rewrite <- !sumn_scal_r, <- sumn_plus. apply sumn_ext. intros j _. rewrite ang_minus, cos_minus. ring. }
  rewrite sumn_swap.
  rewrite (sumn_ext n _ (fun j => c j * sumn n (fun k => cos (ang n (Z.of_nat j - Z.of_nat a) k)))) by (intros; apply sumn_scal).
  rewrite (sumn_single n _ a Ha).
  2:{ intros j Hj Nj. destruct (orthogonality n (Z.of_nat j - Z.of_nat a) ltac:(lia)) as [-> _].
      destruct (Z.eq_dec _ 0) as [E|]; [|ring]. exfalso. apply Nj. apply Z.mod_divide in E as [q E]; [|lia].
      assert (Q : (q = 0)%Z) by (destruct (Z_le_gt_dec q (-1)); [nia|destruct (Z_le_gt_dec q 0); [lia|nia]]). subst q. lia. }
  destruct (orthogonality n (Z.of_nat a - Z.of_nat a) ltac:(lia)) as [-> _]. rewrite Z.sub_diag, Z.mod_0_l by lia.
  destruct (Z.eq_dec 0 0); [ring|congruence].
Qed.

(** ** the model's transforms *)
Lemma csum_map {A} (f : A -> C) l : csum (map f l) = (Rsum (map (fun a => fst (f a)) l), Rsum (map (fun a => snd (f a)) l)).
Proof. induction l as [|a l IH]; [reflexivity|]. cbn [map csum fold_right]. fold (csum (map f l)). rewrite IH. reflexivity. Qed.
Lemma dft_at_eq sg x k : dft_at sg x k =
  (sumn (List.length x) (fun m => fst (nth m x (0, 0)) * cos (ang (List.length x) (Z.of_nat m) k) - sg * snd (nth m x (0, 0)) * sin (ang (List.length x) (Z.of_nat m) k)),
   sumn (List.length x) (fun m => sg * fst (nth m x (0, 0)) * sin (ang (List.length x) (Z.of_nat m) k) + snd (nth m x (0, 0)) * cos (ang (List.length x) (Z.of_nat m) k)))
  \/ sg <> 1 /\ sg <> -1.
Proof.
  destruct (Req_EM_T sg 1) as [->|N1]; [left|destruct (Req_EM_T sg (-1)) as [->|N2]; [left|right; auto]]; unfold dft_at; rewrite csum_map;
  f_equal; apply Rsum_map_ext; intros m _; unfold cmul, cis; cbn [fst snd];
  replace (2 * PI * INR k * INR m / INR (List.length x)) with (ang (List.length x) (Z.of_nat m) k) by (unfold ang; now rewrite <- INR_IZR_INZ).
  - rewrite Rmult_1_l. ring.
  - rewrite Rmult_1_l. ring.
  - replace (-1 * ang (List.length x) (Z.of_nat m) k) with (- ang (List.length x) (Z.of_nat m) k) by ring. rewrite cos_neg, sin_neg. ring.
  - replace (-1 * ang (List.length x) (Z.of_nat m) k) with (- ang (List.length x) (Z.of_nat m) k) by ring. rewrite cos_neg, sin_neg. ring.
Qed.
Lemma fft_eq x : (1 <= List.length x)%nat -> fft x = Ok (map (fun k =>
  (sumn (List.length x) (fun m => fst (nth m x (0, 0)) * cos (ang (List.length x) (Z.of_nat m) k) + snd (nth m x (0, 0)) * sin (ang (List.length x) (Z.of_nat m) k)),
   sumn (List.length x) (fun m => - fst (nth m x (0, 0)) * sin (ang (List.length x) (Z.of_nat m) k) + snd (nth m x (0, 0)) * cos (ang (List.length x) (Z.of_nat m) k))))
  (seq 0 (List.length x))).
Proof.
  intros H. unfold fft. destruct x as [|c x']; [cbn in H; lia|]. f_equal. apply map_ext. intros k.
  destruct (dft_at_eq (-1) (c :: x') k) as [E|[_ E]]; [|lra]. etransitivity; [exact E|]. f_equal; apply sumn_ext; intros; ring.
Qed.
Lemma ifft_eq x : (1 <= List.length x)%nat -> ifft x = Ok (map (fun k =>
  (/ INR (List.length x) * sumn (List.length x) (fun m => fst (nth m x (0, 0)) * cos (ang (List.length x) (Z.of_nat m) k) - snd (nth m x (0, 0)) * sin (ang (List.length x) (Z.of_nat m) k)),
   / INR (List.length x) * sumn (List.length x) (fun m => fst (nth m x (0, 0)) * sin (ang (List.length x) (Z.of_nat m) k) + snd (nth m x (0, 0)) * cos (ang (List.length x) (Z.of_nat m) k))))
  (seq 0 (List.length x))).
Proof.
  intros H. unfold ifft. destruct x as [|c x']; [cbn in H; lia|]. f_equal. apply map_ext. intros k.
  destruct (dft_at_eq 1 (c :: x') k) as [E|[E _]]; [|lra].
  etransitivity; [apply (f_equal (cscal (/ INR (List.length (c :: x')))) E)|]. unfold cscal. cbn [fst snd].
  f_equal; f_equal; apply sumn_ext; intros; ring.
Qed.
