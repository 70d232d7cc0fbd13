(** * Covariance of the log-volatility of mrw2D *)
From Coq Require Import Reals List ZArith Bool Lia Lra.
From Verif Require Import XReal PyBase ModelSimul ModelPlot Model2D Spec SpecSimul LXReal LDft LSimul LNoise LDft2 Spec2D LFract.
Import ListNotations.
Open Scope R_scope.

(** ** linear combinations of white noise *)
Lemma NoDup_prod {A B} (l : list A) (m : list B) : NoDup l -> NoDup m -> NoDup (list_prod l m).
Proof.
  intros Hl Hm. induction Hl as [|a l Ha Hl IH]; [constructor|]. cbn [list_prod].
  assert (X : forall u v : list (A * B), NoDup u -> NoDup v -> (forall x, In x u -> ~ In x v) -> NoDup (u ++ v)).
  { induction 1 as [|x u Hx Hu IHu]; intros Hv D; [exact Hv|]. cbn. constructor; [|apply IHu; trivial; intros; apply D; now right].
    rewrite in_app_iff. intros [i|i]; [contradiction|]. apply (D x); [now left|trivial]. }
  apply X; trivial.
  - clear - Hm. induction Hm as [|b m Hb Hm IH]; [constructor|]. cbn. constructor; trivial. intros i. apply in_map_iff in i as [b' [e i]]. now injection e as ->.
  - intros [x y] i j. apply in_map_iff in i as [b [e i]]. injection e as <- <-. apply in_prod_iff in j as [j _]. contradiction.
Qed.
Section ListLin.
Context {W I : Type} (P : expectation W) (idx : I -> Prop) (z : I -> W -> R).
Hypothesis HW : white P idx z.
Definition lin (l : list I) (a : I -> R) (w : W) : R := Rsum (map (fun i => a i * z i w) l).
Lemma lin_ok l a : Forall idx l -> integrable P (lin l a) /\ E P (lin l a) = 0.
Proof.
  induction 1 as [|i l Hi _ [I1 I2]].
  - split; [apply (int_ext W P (fun _ => 0)); [reflexivity|apply int_zero]|]. rewrite (E_ext W P _ (fun _ => 0)) by reflexivity. apply E_zero.
  - destruct HW as [H1 _]. destruct (H1 i Hi) as [A B].
    assert (X : forall w, a i * z i w + lin l a w = lin (i :: l) a w) by reflexivity.
    split; [apply (int_ext W P _ _ X); apply int_plus; [now apply int_scal|trivial]|].
    rewrite <- (E_ext W P _ _ X). rewrite E_plus; [|now apply int_scal|trivial]. rewrite E_scal, B, I2 by trivial. ring.
Qed.
(** one variable against a combination *)
Lemma one_lin i l b : idx i -> Forall idx l -> NoDup l ->
  integrable P (fun w => z i w * lin l b w) /\ (In i l -> E P (fun w => z i w * lin l b w) = b i) /\ (~ In i l -> E P (fun w => z i w * lin l b w) = 0).
Proof.
  intros Hi F D. induction D as [|j l Nj D IH].
  - split; [|split; [intros []|intros _]].
    + apply (int_ext W P (fun _ => 0)); [intros; unfold lin; cbn; ring|apply int_zero].
    + rewrite (E_ext W P _ (fun _ => 0)) by (intros; unfold lin; cbn; ring). apply E_zero.
  - inversion F as [|? ? Hj F']; subst. destruct (IH F') as [I1 [I2 I3]]. destruct HW as [_ H2]. destruct (H2 i j Hi Hj) as [A [B1 B2]].
    assert (X : forall w, b j * (z i w * z j w) + z i w * lin l b w = z i w * lin (j :: l) b w) by (intros; unfold lin; cbn [map Rsum fold_right]; change (fold_right Rplus 0) with Rsum; ring).
    assert (J : integrable P (fun w => b j * (z i w * z j w))) by (apply (int_scal W P (b j) (fun w => z i w * z j w)); trivial).
    assert (EE : E P (fun w => z i w * lin (j :: l) b w) = b j * E P (fun w => z i w * z j w) + E P (fun w => z i w * lin l b w)).
    { rewrite <- (E_ext W P _ _ X). rewrite E_plus by trivial. f_equal. now apply (E_scal W P (b j) (fun w => z i w * z j w)). }
    split; [apply (int_ext W P _ _ X); now apply int_plus|]. rewrite EE. split.
    + intros [->|Hin].
      * rewrite B1, I3 by trivial. ring.
      * assert (i <> j) by (intros ->; contradiction). rewrite B2, I2 by trivial. ring.
    + intros Ni. rewrite B2, I3; [ring|intros h; apply Ni; now right|intros ->; apply Ni; now left].
Qed.
Lemma lin_lin l a b : Forall idx l -> NoDup l ->
  integrable P (fun w => lin l a w * lin l b w) /\ E P (fun w => lin l a w * lin l b w) = Rsum (map (fun i => a i * b i) l).
Proof.
  intros F D.
  assert (G : forall m, Forall idx m -> (forall i, In i m -> In i l) -> integrable P (fun w => lin m a w * lin l b w) /\ E P (fun w => lin m a w * lin l b w) = Rsum (map (fun i => a i * b i) m)).
  { induction 1 as [|i m Hi Fm IH]; intros Sub.
    - split; [apply (int_ext W P (fun _ => 0)); [intros; unfold lin; cbn; ring|apply int_zero]|]. rewrite (E_ext W P _ (fun _ => 0)) by (intros; unfold lin; cbn; ring). apply E_zero.
    - destruct IH as [I1 I2]; [intros; apply Sub; now right|]. destruct (one_lin i l b Hi F D) as [J1 [J2 _]].
      assert (X : forall w, a i * (z i w * lin l b w) + lin m a w * lin l b w = lin (i :: m) a w * lin l b w).
      { intros w. unfold lin at 4. cbn [map Rsum fold_right]. change (fold_right Rplus 0 (map (fun i0 => a i0 * z i0 w) m)) with (lin m a w). ring. }
      assert (J : integrable P (fun w => a i * (z i w * lin l b w))) by (apply (int_scal W P (a i) (fun w => z i w * lin l b w)); trivial).
      split; [apply (int_ext W P _ _ X); now apply int_plus|]. rewrite <- (E_ext W P _ _ X), E_plus by trivial.
      rewrite (E_scal W P (a i) (fun w => z i w * lin l b w)) by trivial. rewrite J2, I2 by (apply Sub; now left). reflexivity. }
  apply G; trivial.
Qed.
Lemma lin_Cov l a b : Forall idx l -> NoDup l -> Cov P (lin l a) (lin l b) = Rsum (map (fun i => a i * b i) l).
Proof. intros F D. unfold Cov. rewrite (proj2 (lin_lin l a b F D)), (proj2 (lin_ok l a F)), (proj2 (lin_ok l b F)). ring. Qed.
End ListLin.

(** ** squared moduli *)
Definition norm2 (z : C) : R := fst z * fst z + snd z * snd z.
Lemma norm2_mul x y : norm2 (cmul x y) = norm2 x * norm2 y. Proof. unfold norm2. cbn. ring. Qed.
Lemma norm2_conj x : cmul x (conj x) = toC (norm2 x). Proof. apply C_eq; unfold norm2; cbn; ring. Qed.
Lemma norm2_W N z : norm2 (W N z) = 1.
Proof. unfold norm2, W, cis. cbn [fst snd]. pose proof (sin2_cos2 (2 * PI * IZR z / INR N)) as H. unfold Rsqr in H. lra. Qed.
Lemma csqrt_norm2 z : norm2 (csqrt z) = sqrt (norm2 z).
Proof.
  destruct z as [x y]. unfold csqrt, norm2. cbn [fst snd]. set (r := sqrt (x ^ 2 + y ^ 2)).
  assert (Hr : Rabs x <= r). { rewrite <- sqrt_Rsqr_abs. apply sqrt_le_1_alt. unfold Rsqr. pose proof (pow2_ge_0 y). cbn in *. lra. }
  pose proof (Rle_abs x) as X1. pose proof (Rle_abs (- x)) as X2. rewrite Rabs_Ropp in X2.
  assert (A : 0 <= (r + x) / 2) by lra. assert (B : 0 <= (r - x) / 2) by lra.
  replace (x * x + y * y) with (x ^ 2 + y ^ 2) by ring. fold r. pose proof (sqrt_sqrt _ A). pose proof (sqrt_sqrt _ B).
  destruct (Rle_dec 0 y); nra.
Qed.

(** ** sums over lists of indices *)
Lemma Rsum_pairs {A B} (f : A * B -> R) (l : list A) (m : list B) : Rsum (map f (list_prod l m)) = Rsum (map (fun i => Rsum (map (fun j => f (i, j)) m)) l).
Proof. induction l as [|i l IH]; [reflexivity|]. cbn [list_prod map]. rewrite map_app, map_map, Rsum_app, IH. reflexivity. Qed.
Definition indices (N nr : nat) : list (nat * nat * nat * bool) := list_prod (list_prod (list_prod (seq 0 N) (seq 0 N)) (seq 0 nr)) [false; true].
Lemma indices_nodup N nr : NoDup (indices N nr).
Proof. unfold indices. repeat apply NoDup_prod; try apply seq_NoDup. repeat constructor; cbn; intuition congruence. Qed.
Lemma indices_sum N nr (f : nat -> nat -> nat -> bool -> R) :
  Rsum (map (fun i => let '(k1, k2, r, im) := i in f k1 k2 r im) (indices N nr)) = sum2 N (fun k1 k2 => sumn nr (fun r => f k1 k2 r false + f k1 k2 r true)).
Proof.
  unfold indices. rewrite Rsum_pairs, Rsum_pairs, Rsum_pairs. unfold sum2, sumn. apply Rsum_map_ext. intros k1 _. apply Rsum_map_ext. intros k2 _. apply Rsum_map_ext. intros r _.
  cbn [map Rsum fold_right]. ring.
Qed.

Section Even.
Variable N : nat.
Hypothesis HN : (1 <= N)%nat.
Hypothesis Ev : Nat.even N = true.
Lemma INRN : INR N <> 0. Proof. apply not_0_INR. lia. Qed.
Lemma sumn_shifted f : sumn N (fun m => f (shifted N m)) = sumn N f.
Proof.
  destruct (half N HN Ev) as [h [E [H1 H2]]]. pose proof (shifted_cases N HN Ev) as SC. 
  transitivity (sumn (h + h) (fun m => f (shifted N m))); [f_equal; lia|]. transitivity (sumn (h + h) f); [|f_equal; lia]. rewrite !sumn_app. rewrite Rplus_comm. f_equal; apply sumn_ext; intros i Hi; f_equal.
  - destruct (SC (h + i)%nat ltac:(lia)) as [[L ->]|[L ->]]; lia.
  - destruct (SC i ltac:(lia)) as [[L ->]|[L ->]]; lia.
Qed.
Lemma csumn_shifted f : csumn N (fun m => f (shifted N m)) = csumn N f.
Proof. unfold csumn. f_equal; [apply (sumn_shifted (fun i => fst (f i)))|apply (sumn_shifted (fun i => snd (f i)))]. Qed.
Lemma csum2_shifted f : csum2 N N (fun m1 m2 => f (shifted N m1) (shifted N m2)) = csum2 N N f.
Proof. unfold csum2. rewrite <- (csumn_shifted (fun i => csumn N (f i))). apply csumn_ext. intros i _. apply csumn_shifted. Qed.
(** an even real array has real coefficients *)
Lemma even_sine g k1 k2 : (forall a b, (a < N)%nat -> (b < N)%nat -> g ((N - a) mod N)%nat ((N - b) mod N)%nat = g a b) -> sine_coef N g k1 k2 = 0.
Proof.
  intros Sy. assert (X : snd (fft2 N N (fun a b => toC (g a b)) k1 k2) = 0).
  { apply conj_real. rewrite fft2_eq by trivial. rewrite csum2_conj.
    rewrite <- (csum2_reflect N N (fun a b => cmul (toC (g a b)) (w2 N (- Z.of_nat k1) (- Z.of_nat k2) a b))) by trivial. apply csum2_ext. intros a b Ha Hb.
    rewrite conj_mul, conj_toC, Sy by trivial. f_equal. rewrite (w2_neg_sym N k1 k2 ((N - a) mod N)%nat). rewrite <- (w2_conj N (Z.of_nat ((N - a) mod N))). rewrite w2_reflect by (trivial; lia). rewrite (w2_neg_sym N k1 k2 a). reflexivity. }
  rewrite fft2_coefs in X by trivial. cbn [snd] in X. lra.
Qed.
Lemma parseval x : csum2 N N (fun k1 k2 => toC (norm2 (fft2 N N x k1 k2))) = cmul (toC (INR N * INR N)) (csum2 N N (fun a b => toC (norm2 (x a b)))).
Proof.
  rewrite (csum2_ext N N _ (fun k1 k2 => csum2 N N (fun a b => cmul (conj (x a b)) (cmul (fft2 N N x k1 k2) (w2 N (Z.of_nat k1) (Z.of_nat k2) a b))))).
  - rewrite csum2_swap, <- csum2_mul. apply csum2_ext. intros a b Ha Hb. rewrite csum2_mul.
    pose proof (ifft2_fft2 N HN x a b Ha Hb) as I. rewrite ifft2_eq in I by trivial. rewrite <- norm2_conj. rewrite <- I at 2.
    set (S := csum2 N N _). replace (cmul (toC (INR N * INR N)) (cmul (cmul (toC (/ (INR N * INR N))) S) (conj (x a b)))) with (cmul (cmul (toC (/ (INR N * INR N))) (toC (INR N * INR N))) (cmul (conj (x a b)) S)) by ring.
    rewrite inv_N2 by trivial. ring.
  - intros k1 k2 _ _. rewrite <- norm2_conj. rewrite (fft2_eq N HN x k1 k2) at 2. rewrite csum2_conj, <- csum2_mul. apply csum2_ext. intros a b _ _. rewrite conj_mul, w2_conj, !Z.opp_involutive. ring.
Qed.

Variables lam L : R.
Let g := log_covariance N lam L.
Let lambda := log_spectrum N lam L.
Lemma ln_max t : ln (Rmax t 1) = log_plus t.
Proof. unfold log_plus, Rmax. destruct (Rle_dec t 1), (Rle_dec 1 t); try reflexivity; try (rewrite ln_1; try reflexivity); try lra. replace t with 1 by lra. now rewrite ln_1. Qed.
Lemma corr_shifted m1 m2 : (m1 < N)%nat -> (m2 < N)%nat -> corr2d N lam L (shifted N m1) (shifted N m2) = g m1 m2.
Proof. intros H1 H2. unfold corr2d, g, log_covariance. now rewrite radius_shifted, ln_max. Qed.
Lemma g_even a b : (a < N)%nat -> (b < N)%nat -> g ((N - a) mod N)%nat ((N - b) mod N)%nat = g a b.
Proof. intros Ha Hb. unfold g, log_covariance. now rewrite freq_norm2_neg. Qed.
Lemma fft2_g k1 k2 : fft2 N N (fun a b => toC (g a b)) k1 k2 = toC (lambda k1 k2).
Proof. rewrite fft2_coefs by trivial. rewrite even_sine by apply g_even. unfold toC, lambda, log_spectrum. f_equal. ring. Qed.
Lemma shifted_Z m : (Z.of_nat (shifted N m) mod Z.of_nat N = (Z.of_nat m + Z.of_nat (N / 2)) mod Z.of_nat N)%Z.
Proof. unfold shifted. rewrite Nat2Z.inj_mod, Nat2Z.inj_add. now rewrite Z.mod_mod by lia. Qed.
Lemma w2_shifted p q m1 m2 : w2 N p q (shifted N m1) (shifted N m2) = cmul (W N ((p + q) * Z.of_nat (N / 2))) (w2 N p q m1 m2).
Proof.
  unfold w2. rewrite <- W_add. apply W_eqm; trivial. replace ((p + q) * Z.of_nat (N / 2) + (p * Z.of_nat m1 + q * Z.of_nat m2))%Z with (p * (Z.of_nat m1 + Z.of_nat (N / 2)) + q * (Z.of_nat m2 + Z.of_nat (N / 2)))%Z by ring.
  rewrite (Z.add_mod (p * Z.of_nat _)), (Z.mul_mod p), (Z.mul_mod q), !shifted_Z by lia. now rewrite <- !Z.mul_mod, <- Z.add_mod by lia.
Qed.
Lemma Lh_eq k1 k2 : fft2 N N (fun i j => toC (corr2d N lam L i j)) k1 k2 = cmul (W N ((- Z.of_nat k1 + - Z.of_nat k2) * Z.of_nat (N / 2))) (toC (lambda k1 k2)).
Proof.
  rewrite <- fft2_g, !fft2_eq by trivial. rewrite <- (csum2_shifted (fun a b => cmul (toC (corr2d N lam L a b)) (w2 N (- Z.of_nat k1) (- Z.of_nat k2) a b))). rewrite <- csum2_mul. apply csum2_ext.
  intros a b Ha Hb. rewrite corr_shifted, w2_shifted by trivial. ring.
Qed.
Definition root (k1 k2 : nat) : C := csqrt (fft2 N N (fun i j => toC (corr2d N lam L i j)) k1 k2).
Lemma root_norm2 k1 k2 : norm2 (root k1 k2) = Rabs (lambda k1 k2).
Proof.
  unfold root. rewrite csqrt_norm2, Lh_eq, norm2_mul, norm2_W. unfold norm2. cbn [toC fst snd]. replace (1 * (lambda k1 k2 * lambda k1 k2 + 0 * 0)) with (Rsqr (lambda k1 k2)) by (unfold Rsqr; ring). apply sqrt_Rsqr_abs.
Qed.
Definition coef (a b k1 k2 : nat) : C := cmul (toC (/ (INR N * INR N))) (cmul (root k1 k2) (w2 N (Z.of_nat k1) (Z.of_nat k2) a b)).
Lemma log_vol_eq z a b : log_vol2d N lam L z a b = sum2 N (fun k1 k2 => fst (coef a b k1 k2) * fst (z k1 k2) + - snd (coef a b k1 k2) * snd (z k1 k2)).
Proof.
  unfold log_vol2d. rewrite ifft2_eq by trivial. rewrite <- csum2_mul. unfold csum2, csumn, sum2. cbn [fst]. apply sumn_ext. intros k1 _. apply sumn_ext. intros k2 _. fold (root k1 k2).
  unfold coef. replace (cmul (toC (/ (INR N * INR N))) (cmul (cmul (z k1 k2) (root k1 k2)) (w2 N (Z.of_nat k1) (Z.of_nat k2) a b))) with (cmul (cmul (toC (/ (INR N * INR N))) (cmul (root k1 k2) (w2 N (Z.of_nat k1) (Z.of_nat k2) a b))) (z k1 k2)) by ring.
  set (c := cmul (toC (/ (INR N * INR N))) (cmul (root k1 k2) (w2 N (Z.of_nat k1) (Z.of_nat k2) a b))). cbn [cmul fst]. ring.
Qed.
Lemma w2_phase k1 k2 a b : w2 N (Z.of_nat k1) (Z.of_nat k2) a b = cis (phase N k1 k2 a b).
Proof. unfold w2, W, phase. rewrite plus_IZR, !mult_IZR, <- !INR_IZR_INZ. reflexivity. Qed.
Lemma coef_prod a b c d k1 k2 : fst (coef a b k1 k2) * fst (coef c d k1 k2) + - snd (coef a b k1 k2) * - snd (coef c d k1 k2) =
  / INR N ^ 4 * (Rabs (lambda k1 k2) * cos (phase N k1 k2 a b - phase N k1 k2 c d)).
Proof.
  transitivity (fst (cmul (coef a b k1 k2) (conj (coef c d k1 k2)))); [cbn [cmul conj fst snd]; ring|].
  unfold coef. rewrite !conj_mul, conj_toC. set (u := toC (/ (INR N * INR N))).
  replace (cmul (cmul u (cmul (root k1 k2) (w2 N (Z.of_nat k1) (Z.of_nat k2) a b))) (cmul u (cmul (conj (root k1 k2)) (conj (w2 N (Z.of_nat k1) (Z.of_nat k2) c d)))))
    with (cmul (cmul u u) (cmul (cmul (root k1 k2) (conj (root k1 k2))) (cmul (w2 N (Z.of_nat k1) (Z.of_nat k2) a b) (conj (w2 N (Z.of_nat k1) (Z.of_nat k2) c d))))) by ring.
  rewrite norm2_conj, root_norm2, !w2_phase, conj_cis, <- cis_add. unfold u. rewrite <- toC_mul. unfold Rminus, cis. cbn [cmul toC fst snd]. field. apply INRN.
Qed.
(** the covariance *)
Definition cov2 (a b c d : nat) : R := / INR N ^ 4 * grid_sum N (fun k1 k2 => Rabs (lambda k1 k2) * cos (phase N k1 k2 a b - phase N k1 k2 c d)).
Section Noise.
Context {W : Type} (P : expectation W) (nr : nat) (z : W -> nat -> nat -> nat -> C).
Hypothesis HZ : white_field P N nr z.
Let omega (w : W) (a b r : nat) : R := log_vol2d N lam L (fun i j => z w i j r) a b.
Let nz := (fun (i : nat * nat * nat * bool) (w : W) => let '(k1, k2, r, im) := i in if im then snd (z w k1 k2 r) else fst (z w k1 k2 r)).
Let co (r0 a b : nat) := (fun i : nat * nat * nat * bool => let '(k1, k2, r, im) := i in if Nat.eq_dec r r0 then if im : bool then - snd (coef a b k1 k2) else fst (coef a b k1 k2) else 0).
Lemma omega_lin a b r0 w : (r0 < nr)%nat -> lin nz (indices N nr) (co r0 a b) w = omega w a b r0.
Proof.
  intros Hr. unfold lin. rewrite (Rsum_map_ext _ (fun i => let '(k1, k2, r, im) := i in (co r0 a b (k1, k2, r, im) * nz (k1, k2, r, im) w))) by (intros [[[? ?] ?] ?] _; reflexivity).
  rewrite (indices_sum N nr (fun k1 k2 r im => co r0 a b (k1, k2, r, im) * nz (k1, k2, r, im) w)). unfold omega. rewrite log_vol_eq. apply sum2_ext. intros k1 k2 _ _.
  rewrite (sumn_single nr _ r0 Hr).
  - unfold co, nz. destruct (Nat.eq_dec r0 r0); [reflexivity|congruence].
  - intros r _ Ne. unfold co. destruct (Nat.eq_dec r r0); [congruence|ring].
Qed.
Lemma indices_ok : Forall (fun i : nat * nat * nat * bool => let '(k1, k2, r, _) := i in (k1 < N)%nat /\ (k2 < N)%nat /\ (r < nr)%nat) (indices N nr).
Proof. apply Forall_forall. intros [[[k1 k2] r] im] H. unfold indices in H. repeat (apply in_prod_iff in H as [H ?]). repeat match goal with h : In _ (seq _ _) |- _ => apply in_seq in h end. lia. Qed.
Lemma omega_mean a b r : (r < nr)%nat -> integrable P (fun w => omega w a b r) /\ E P (fun w => omega w a b r) = 0.
Proof.
  intros Hr. destruct (lin_ok P _ nz HZ (indices N nr) (co r a b) indices_ok) as [A B]. split.
  - apply (int_ext W P (lin nz (indices N nr) (co r a b))); [|trivial]. intros w. now apply omega_lin.
  - rewrite <- B. apply E_ext. intros w. symmetry. now apply omega_lin.
Qed.
Lemma omega_cov a b r c d s : (r < nr)%nat -> (s < nr)%nat -> integrable P (fun w => omega w a b r * omega w c d s) /\ Cov P (fun w => omega w a b r) (fun w => omega w c d s) = if Nat.eq_dec r s then cov2 a b c d else 0.
Proof.
  intros Hr Hs. assert (X : forall w, lin nz (indices N nr) (co r a b) w * lin nz (indices N nr) (co s c d) w = omega w a b r * omega w c d s) by (intros w; now rewrite !omega_lin).
  destruct (lin_lin P _ nz HZ (indices N nr) (co r a b) (co s c d) indices_ok (indices_nodup N nr)) as [A B]. split; [exact (int_ext W P _ _ X A)|].
  unfold Cov. rewrite (proj2 (omega_mean a b r Hr)), (proj2 (omega_mean c d s Hs)), Rmult_0_l, Rminus_0_r. rewrite <- (E_ext W P _ _ X), B.
  rewrite (Rsum_map_ext _ (fun i => let '(k1, k2, q, im) := i in (co r a b (k1, k2, q, im) * co s c d (k1, k2, q, im)))) by (intros [[[? ?] ?] ?] _; reflexivity).
  rewrite (indices_sum N nr (fun k1 k2 q im => co r a b (k1, k2, q, im) * co s c d (k1, k2, q, im))). destruct (Nat.eq_dec r s) as [<-|Ne].
  - unfold cov2. rewrite grid_sum_eq. unfold sum2. rewrite <- sumn_scal. apply sumn_ext. intros k1 _. rewrite <- sumn_scal. apply sumn_ext. intros k2 _. rewrite <- coef_prod. rewrite (sumn_single nr _ r Hr).
    + unfold co. destruct (Nat.eq_dec r r); [reflexivity|congruence].
    + intros q _ Nq. unfold co. destruct (Nat.eq_dec q r); [congruence|ring].
  - unfold sum2. apply sumn_zero. intros k1 _. apply sumn_zero. intros k2 _. apply sumn_zero. intros q _. unfold co. destruct (Nat.eq_dec q r), (Nat.eq_dec q s); try congruence; ring.
Qed.
End Noise.

(** with a non-negative spectrum *)
Definition lag (a c : nat) : nat := ((a + (N - c)) mod N)%nat.
Lemma lag_phase k1 k2 a b c d : (c <= N)%nat -> (d <= N)%nat -> cos (phase N k1 k2 a b - phase N k1 k2 c d) = fst (w2 N (Z.of_nat k1) (Z.of_nat k2) (lag a c) (lag b d)).
Proof.
  intros Hc Hd. transitivity (fst (cmul (w2 N (Z.of_nat k1) (Z.of_nat k2) a b) (conj (w2 N (Z.of_nat k1) (Z.of_nat k2) c d)))); [rewrite !w2_phase, conj_cis, <- cis_add; reflexivity|]. f_equal.
  rewrite w2_conj. unfold w2. rewrite <- W_add. apply W_eqm; trivial.
  replace (Z.of_nat k1 * Z.of_nat a + Z.of_nat k2 * Z.of_nat b + (- Z.of_nat k1 * Z.of_nat c + - Z.of_nat k2 * Z.of_nat d))%Z with (Z.of_nat k1 * (Z.of_nat a - Z.of_nat c) + Z.of_nat k2 * (Z.of_nat b - Z.of_nat d))%Z by ring.
  assert (X : forall a c, (c <= N)%nat -> ((Z.of_nat a - Z.of_nat c) mod Z.of_nat N = Z.of_nat (lag a c) mod Z.of_nat N)%Z).
  { intros a' c' H. unfold lag. rewrite Nat2Z.inj_mod, Nat2Z.inj_add, Nat2Z.inj_sub by trivial. rewrite Z.mod_mod by lia. rewrite <- (Z.mod_add (Z.of_nat a' - Z.of_nat c') 1) by lia. f_equal. ring. }
  rewrite (Z.add_mod (Z.of_nat k1 * (Z.of_nat a - Z.of_nat c))), (Z.mul_mod (Z.of_nat k1)), (Z.mul_mod (Z.of_nat k2)), !X by (trivial; lia). now rewrite <- !Z.mul_mod, <- Z.add_mod by lia.
Qed.
Lemma spectrum_inversion a b : (a < N)%nat -> (b < N)%nat -> sum2 N (fun k1 k2 => lambda k1 k2 * fst (w2 N (Z.of_nat k1) (Z.of_nat k2) a b)) = INR N ^ 2 * g a b.
Proof.
  intros Ha Hb. pose proof (ifft2_fft2 N HN (fun a b => toC (g a b)) a b Ha Hb) as I. rewrite ifft2_eq in I by trivial. apply (f_equal fst) in I. cbn [toC fst] in I. rewrite <- I.
  rewrite (csum2_ext N N _ (fun k1 k2 => cmul (toC (lambda k1 k2)) (w2 N (Z.of_nat k1) (Z.of_nat k2) a b))) by (intros; now rewrite fft2_g).
  set (S := csum2 N N _). replace (fst (cmul (toC (/ (INR N * INR N))) S)) with (/ (INR N * INR N) * fst S) by (clearbody S; cbn [toC cmul fst snd]; ring).
  replace (INR N ^ 2 * (/ (INR N * INR N) * fst S)) with (fst S) by (field; apply INRN). unfold S, csum2, csumn, sum2. cbn [fst]. apply sumn_ext. intros k1 _. apply sumn_ext. intros k2 _. cbn [toC cmul fst snd]. ring.
Qed.
Lemma cov2_exact a b c d : (a < N)%nat -> (b < N)%nat -> (c < N)%nat -> (d < N)%nat -> (forall k1 k2, (k1 < N)%nat -> (k2 < N)%nat -> 0 <= lambda k1 k2) ->
  cov2 a b c d = g (lag a c) (lag b d) / INR N ^ 2.
Proof.
  intros Ha Hb Hc Hd Pos. unfold cov2. rewrite grid_sum_eq. rewrite (sum2_ext N _ (fun k1 k2 => lambda k1 k2 * fst (w2 N (Z.of_nat k1) (Z.of_nat k2) (lag a c) (lag b d)))).
  - rewrite spectrum_inversion by (apply Nat.mod_upper_bound; lia). field. apply INRN.
  - intros k1 k2 H1 H2. rewrite lag_phase by lia. now rewrite Rabs_pos_eq by auto.
Qed.
(** a bound without hypotheses *)
Lemma log_plus_le x y : x <= y -> log_plus x <= log_plus y.
Proof.
  intros H. unfold log_plus. destruct (Rle_dec 1 x), (Rle_dec 1 y); try lra.
  - destruct (Req_dec x y) as [->|]; [lra|]. left. apply ln_increasing; lra.
  - rewrite <- ln_1. destruct (Req_dec 1 y) as [<-|]; [lra|]. left. apply ln_increasing; lra.
Qed.
Lemma log_plus_nonneg x : 0 <= log_plus x.
Proof. unfold log_plus. destruct (Rle_dec 1 x); [|lra]. rewrite <- ln_1. destruct (Req_dec 1 x) as [<-|]; [lra|]. left. apply ln_increasing; lra. Qed.
Lemma log_plus_neg x : x < 1 -> log_plus x = 0. Proof. intros H. unfold log_plus. destruct (Rle_dec 1 x); [lra|reflexivity]. Qed.
Definition top : R := lam ^ 2 * log_plus L.
Lemma g_bound a b : 0 <= g a b <= top.
Proof.
  unfold g, log_covariance, top. pose proof (pow2_ge_0 lam). set (s := sqrt (freq_norm2 N a b)). assert (S : 0 <= s) by apply sqrt_pos. split; [apply Rmult_le_pos; [trivial|apply log_plus_nonneg]|].
  apply Rmult_le_compat_l; [trivial|]. destruct (Rle_dec 0 L) as [PL|NL].
  - apply log_plus_le. apply (Rmult_le_reg_r (1 + s)); [lra|]. replace (L / (1 + s) * (1 + s)) with L by (field; lra). nra.
  - rewrite (log_plus_neg (L / (1 + s))); [apply log_plus_nonneg|]. assert (0 < / (1 + s)) by (apply Rinv_0_lt_compat; lra). unfold Rdiv. nra.
Qed.
Lemma sum2_const c : sum2 N (fun _ _ => c) = INR N ^ 2 * c.
Proof. unfold sum2. rewrite (sumn_ext N _ (fun _ => INR N * c)) by (intros; apply sumn_const). rewrite sumn_const. ring. Qed.
Lemma sum2_le f h : (forall a b, (a < N)%nat -> (b < N)%nat -> f a b <= h a b) -> sum2 N f <= sum2 N h.
Proof. intros H. apply sumn_le. intros. apply sumn_le. auto. Qed.
Lemma sum2_scal c f : sum2 N (fun a b => c * f a b) = c * sum2 N f.
Proof. unfold sum2. rewrite <- sumn_scal. apply sumn_ext. intros. apply sumn_scal. Qed.
Lemma sum2_plus f h : sum2 N (fun a b => f a b + h a b) = sum2 N f + sum2 N h.
Proof. unfold sum2. rewrite <- sumn_plus. apply sumn_ext. intros. apply sumn_plus. Qed.
Lemma spectrum_parseval : sum2 N (fun k1 k2 => lambda k1 k2 ^ 2) = INR N ^ 2 * sum2 N (fun a b => g a b ^ 2).
Proof.
  pose proof (parseval (fun a b => toC (g a b))) as H. rewrite (csum2_ext N N _ (fun k1 k2 => toC (lambda k1 k2 ^ 2))) in H.
  2:{ intros. rewrite fft2_g. f_equal. unfold norm2. cbn [toC fst snd]. ring. }
  rewrite (csum2_ext N N (fun a b => toC (norm2 _)) (fun a b => toC (g a b ^ 2))) in H by (intros; f_equal; unfold norm2; cbn [toC fst snd]; ring).
  apply (f_equal fst) in H. unfold csum2, csumn in H. cbn [toC cmul fst snd] in H. unfold sum2. rewrite H. ring.
Qed.
Lemma abs_split t x : 0 < t -> Rabs x <= / 2 * t + / (2 * t) * x ^ 2.
Proof.
  intros Ht. apply (Rmult_le_reg_l (2 * t)); [lra|]. replace (2 * t * (/ 2 * t + / (2 * t) * x ^ 2)) with (t ^ 2 + x ^ 2) by (field; lra).
  assert (Q := pow2_ge_0 (t - Rabs x)). assert (Rabs x ^ 2 = x ^ 2) by apply pow2_abs. nra.
Qed.
Lemma cov2_bound a b : cov2 a b a b <= top / INR N.
Proof.
  pose proof (lt_0_INR N ltac:(lia)) as PN.
  unfold cov2. rewrite grid_sum_eq. rewrite (sum2_ext N _ (fun k1 k2 => Rabs (lambda k1 k2))).
  2:{ intros. rewrite Rminus_eq_0, cos_0. ring. }
  assert (T : 0 <= top) by (destruct (g_bound 0 0); lra).
  assert (B : sum2 N (fun k1 k2 => Rabs (lambda k1 k2)) <= INR N ^ 3 * top).
  { destruct T as [T|T].
    - set (t := INR N * top). assert (0 < t) by (unfold t; nra).
      apply Rle_trans with (sum2 N (fun k1 k2 => / 2 * t + / (2 * t) * lambda k1 k2 ^ 2)); [apply sum2_le; intros; now apply abs_split|].
      rewrite sum2_plus, sum2_const, sum2_scal, spectrum_parseval.
      assert (Q : sum2 N (fun a b => g a b ^ 2) <= INR N ^ 2 * top ^ 2). { rewrite <- sum2_const. apply sum2_le. intros u v _ _. destruct (g_bound u v). apply pow_incr. lra. }
      assert (/ (2 * t) * (INR N ^ 2 * sum2 N (fun a b => g a b ^ 2)) <= / (2 * t) * (INR N ^ 2 * (INR N ^ 2 * top ^ 2))).
      { apply Rmult_le_compat_l; [left; apply Rinv_0_lt_compat; lra|]. apply Rmult_le_compat_l; [apply pow2_ge_0|trivial]. }
      replace (/ (2 * t) * (INR N ^ 2 * (INR N ^ 2 * top ^ 2))) with (/ 2 * (INR N ^ 3 * top)) in H0 by (unfold t; field; lra).
      replace (INR N ^ 2 * (/ 2 * t)) with (/ 2 * (INR N ^ 3 * top)) by (unfold t; field). lra.
    - assert (G0 : forall a b, g a b = 0) by (intros u v; destruct (g_bound u v); lra).
      rewrite (sum2_ext N _ (fun _ _ => 0)); [rewrite sum2_const; rewrite <- T; lra|]. intros k1 k2 _ _. unfold lambda, log_spectrum, cosine_coef. rewrite grid_sum_eq. fold g.
      rewrite (sum2_ext N _ (fun _ _ => 0)) by (intros; rewrite G0; ring). rewrite sum2_const, Rmult_0_r. apply Rabs_R0. }
  apply Rle_trans with (/ INR N ^ 4 * (INR N ^ 3 * top)).
  - apply Rmult_le_compat_l; [|trivial]. left. apply Rinv_0_lt_compat. now apply pow_lt.
  - right. field. lra.
Qed.
End Even.
