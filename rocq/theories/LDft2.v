(** * Complex sums and the two-dimensional discrete Fourier transform *)
From Coq Require Import Reals List ZArith Bool Lia Lra.
From Verif Require Import XReal PyBase ModelSimul Model2D Spec LXReal LDft.
Import ListNotations.
Open Scope R_scope.

(** ** the ring of complex numbers *)
Definition copp (x : C) : C := (- fst x, - snd x).
Definition csub (x y : C) : C := (fst x - fst y, snd x - snd y).
Definition conj (x : C) : C := (fst x, - snd x).
Definition c0 : C := (0, 0).
Definition c1 : C := (1, 0).
Lemma C_eq (x y : C) : fst x = fst y -> snd x = snd y -> x = y.
Proof. destruct x, y. cbn. now intros -> ->. Qed.
Lemma C_ring : ring_theory c0 c1 cadd cmul csub copp (@eq C).
Proof. constructor; intros; apply C_eq; cbn; ring. Qed.
Add Ring Cring : C_ring.
Lemma cscal_mul a x : cscal a x = cmul (toC a) x.
Proof. apply C_eq; cbn; ring. Qed.
Lemma toC_mul a b : toC (a * b) = cmul (toC a) (toC b). Proof. apply C_eq; cbn; ring. Qed.
Lemma toC_add a b : toC (a + b) = cadd (toC a) (toC b). Proof. apply C_eq; cbn; ring. Qed.
Lemma toC_1 : toC 1 = c1. Proof. reflexivity. Qed.
Lemma conj_mul x y : conj (cmul x y) = cmul (conj x) (conj y). Proof. apply C_eq; cbn; ring. Qed.
Lemma conj_add x y : conj (cadd x y) = cadd (conj x) (conj y). Proof. apply C_eq; cbn; ring. Qed.
Lemma conj_toC a : conj (toC a) = toC a. Proof. apply C_eq; cbn; ring. Qed.
Lemma conj_conj x : conj (conj x) = x. Proof. apply C_eq; cbn; ring. Qed.
Lemma conj_real x : conj x = x -> snd x = 0. Proof. intros H. apply (f_equal snd) in H. cbn in H. lra. Qed.

(** ** sums *)
Definition csumn (n : nat) (f : nat -> C) : C := (sumn n (fun i => fst (f i)), sumn n (fun i => snd (f i))).
Lemma csumn_S n f : csumn (S n) f = cadd (csumn n f) (f n).
Proof. unfold csumn. rewrite !sumn_S. apply C_eq; cbn; reflexivity. Qed.
Lemma csumn_ext n f g : (forall i, (i < n)%nat -> f i = g i) -> csumn n f = csumn n g.
Proof. intros H. unfold csumn. f_equal; apply sumn_ext; intros i Hi; now rewrite H. Qed.
Lemma csumn_plus n f g : csumn n (fun i => cadd (f i) (g i)) = cadd (csumn n f) (csumn n g).
Proof. unfold csumn. apply C_eq; cbn; apply sumn_plus. Qed.
Lemma csumn_0 f : csumn 0 f = c0. Proof. reflexivity. Qed.
Lemma csumn_mul n c f : csumn n (fun i => cmul c (f i)) = cmul c (csumn n f).
Proof. induction n; [rewrite !csumn_0; ring|]. rewrite !csumn_S, IHn. ring. Qed.
Lemma csumn_mul_r n c f : csumn n (fun i => cmul (f i) c) = cmul (csumn n f) c.
Proof. induction n; [rewrite !csumn_0; ring|]. rewrite !csumn_S, IHn. ring. Qed.
Lemma csumn_zero n f : (forall i, (i < n)%nat -> f i = c0) -> csumn n f = c0.
Proof. intros H. induction n; [reflexivity|]. rewrite csumn_S, IHn, H by (intros; auto with arith). ring. Qed.
Lemma csumn_swap n m f : csumn n (fun i => csumn m (fun j => f i j)) = csumn m (fun j => csumn n (fun i => f i j)).
Proof. unfold csumn. cbn [fst snd]. f_equal; apply sumn_swap. Qed.
Lemma csumn_single n f a : (a < n)%nat -> (forall i, (i < n)%nat -> i <> a -> f i = c0) -> csumn n f = f a.
Proof. intros Ha H. unfold csumn. apply C_eq; cbn [fst snd]; [rewrite (sumn_single n (fun i => fst (f i)) a Ha)|rewrite (sumn_single n (fun i => snd (f i)) a Ha)]; trivial; intros i Hi Ne; now rewrite H. Qed.
Lemma csumn_conj n f : conj (csumn n f) = csumn n (fun i => conj (f i)).
Proof. unfold csumn. apply C_eq; cbn; [reflexivity|]. symmetry. apply sumn_opp. Qed.
Definition csum2 (n m : nat) (f : nat -> nat -> C) : C := csumn n (fun i => csumn m (f i)).
Lemma csum2_ext n m f g : (forall i j, (i < n)%nat -> (j < m)%nat -> f i j = g i j) -> csum2 n m f = csum2 n m g.
Proof. intros H. apply csumn_ext. intros i Hi. apply csumn_ext. auto. Qed.
Lemma csum2_plus n m f g : csum2 n m (fun i j => cadd (f i j) (g i j)) = cadd (csum2 n m f) (csum2 n m g).
Proof. unfold csum2. rewrite <- csumn_plus. apply csumn_ext. intros. apply csumn_plus. Qed.
Lemma csum2_mul n m c f : csum2 n m (fun i j => cmul c (f i j)) = cmul c (csum2 n m f).
Proof. unfold csum2. rewrite <- csumn_mul. apply csumn_ext. intros. apply csumn_mul. Qed.
Lemma csum2_mul_r n m c f : csum2 n m (fun i j => cmul (f i j) c) = cmul (csum2 n m f) c.
Proof. unfold csum2. rewrite <- csumn_mul_r. apply csumn_ext. intros. apply csumn_mul_r. Qed.
Lemma csum2_conj n m f : conj (csum2 n m f) = csum2 n m (fun i j => conj (f i j)).
Proof. unfold csum2. rewrite csumn_conj. apply csumn_ext. intros. apply csumn_conj. Qed.
Lemma csum2_swap n m p q f : csum2 n m (fun i j => csum2 p q (fun k l => f i j k l)) = csum2 p q (fun k l => csum2 n m (fun i j => f i j k l)).
Proof.
  unfold csum2. rewrite (csumn_ext n _ (fun i => csumn p (fun k => csumn m (fun j => csumn q (fun l => f i j k l))))) by (intros; apply csumn_swap).
  rewrite csumn_swap. apply csumn_ext. intros k Hk.
  rewrite (csumn_ext n _ (fun i => csumn q (fun l => csumn m (fun j => f i j k l)))) by (intros; apply csumn_swap). apply csumn_swap.
Qed.
Lemma csum2_prod n m f g : csum2 n m (fun i j => cmul (f i) (g j)) = cmul (csumn n f) (csumn m g).
Proof. unfold csum2. rewrite (csumn_ext n _ (fun i => cmul (f i) (csumn m g))) by (intros; apply csumn_mul). apply csumn_mul_r. Qed.
Lemma csum2_single n m f a b : (a < n)%nat -> (b < m)%nat -> (forall i j, (i < n)%nat -> (j < m)%nat -> (i, j) <> (a, b) -> f i j = c0) -> csum2 n m f = f a b.
Proof.
  intros Ha Hb H. unfold csum2. rewrite (csumn_single n _ a Ha).
  - apply csumn_single; trivial. intros j Hj Ne. apply H; trivial. congruence.
  - intros i Hi Ne. apply csumn_zero. intros j Hj. apply H; trivial. congruence.
Qed.
(** sums over a reflected index *)
Lemma sumn_reflect n f : (1 <= n)%nat -> sumn n (fun k => f ((n - k) mod n)%nat) = sumn n f.
Proof.
  intros Hn. destruct n as [|n]; [lia|]. rewrite !sumn_S_first. f_equal.
  - f_equal. rewrite Nat.sub_0_r. apply Nat.mod_same. lia.
  - rewrite (sumn_rev n (fun i => f (S i))). apply sumn_ext. intros i Hi. f_equal. rewrite Nat.mod_small by lia. lia.
Qed.
Lemma csumn_reflect n f : (1 <= n)%nat -> csumn n (fun k => f ((n - k) mod n)%nat) = csumn n f.
Proof. intros Hn. unfold csumn. f_equal; [apply (sumn_reflect n (fun i => fst (f i)))|apply (sumn_reflect n (fun i => snd (f i)))]; trivial. Qed.
Lemma csum2_reflect n m f : (1 <= n)%nat -> (1 <= m)%nat -> csum2 n m (fun k l => f ((n - k) mod n)%nat ((m - l) mod m)%nat) = csum2 n m f.
Proof.
  intros Hn Hm. unfold csum2. rewrite <- (csumn_reflect n (fun i => csumn m (f i))) by trivial. apply csumn_ext. intros k _.
  apply (csumn_reflect m (f ((n - k) mod n)%nat)). trivial.
Qed.

(** ** roots of unity *)
Definition W (N : nat) (z : Z) : C := cis (2 * PI * IZR z / INR N).
Lemma cis_add a b : cis (a + b) = cmul (cis a) (cis b).
Proof. unfold cis. apply C_eq; cbn [fst snd cmul]; [apply cos_plus|rewrite sin_plus; ring]. Qed.
Lemma conj_cis a : conj (cis a) = cis (- a).
Proof. unfold cis, conj. cbn [fst snd]. now rewrite cos_neg, sin_neg. Qed.
Section Unity.
Variable N : nat.
Hypothesis HN : (1 <= N)%nat.
Lemma INR_N : INR N <> 0. Proof. apply not_0_INR. lia. Qed.
Lemma W_add a b : W N (a + b) = cmul (W N a) (W N b).
Proof using. unfold W. rewrite <- cis_add. f_equal. rewrite plus_IZR. unfold Rdiv. ring. Qed.
Lemma W_conj a : conj (W N a) = W N (- a).
Proof using. unfold W. rewrite conj_cis. f_equal. rewrite opp_IZR. unfold Rdiv. ring. Qed.
Lemma W_mult q : W N (q * Z.of_nat N) = c1.
Proof.
  unfold W, cis. rewrite mult_IZR, <- INR_IZR_INZ. replace (2 * PI * (IZR q * INR N) / INR N) with (2 * IZR q * PI) by (field; apply INR_N).
  destruct (trig_2pi q) as [-> ->]. reflexivity.
Qed.
Lemma W_period a q : W N (a + q * Z.of_nat N) = W N a.
Proof. rewrite W_add, W_mult. ring. Qed.
Lemma W_mod a : W N (a mod Z.of_nat N) = W N a.
Proof. rewrite (Z_div_mod_eq_full a (Z.of_nat N)) at 2. rewrite Z.add_comm, Z.mul_comm. now rewrite W_period. Qed.
Lemma W_ortho z : csumn N (fun k => W N (Z.of_nat k * z)) = if Z.eq_dec (z mod Z.of_nat N) 0 then toC (INR N) else c0.
Proof.
  destruct (orthogonality N z HN) as [A B].
  assert (E : forall k, 2 * PI * IZR (Z.of_nat k * z) / INR N = ang N z k) by (intros k; unfold ang; rewrite mult_IZR, <- INR_IZR_INZ; unfold Rdiv; ring).
  unfold csumn, W, cis. cbn [fst snd].
  rewrite (sumn_ext N _ (fun k => cos (ang N z k))) by (intros; now rewrite E). rewrite (sumn_ext N (fun i => sin _) (fun k => sin (ang N z k))) by (intros; now rewrite E).
  rewrite A, B. destruct (Z.eq_dec _ 0); reflexivity.
Qed.
(** two indices below N with the same class are equal *)
Lemma mod_eq_small (a b : nat) : (a < N)%nat -> (b < N)%nat -> ((Z.of_nat a - Z.of_nat b) mod Z.of_nat N = 0)%Z -> a = b.
Proof. intros Ha Hb E. apply Z.mod_divide in E as [q E]; [|lia]. assert (q = 0)%Z by nia. lia. Qed.
Definition w2 (k1 k2 : Z) (a b : nat) : C := W N (k1 * Z.of_nat a + k2 * Z.of_nat b).
Lemma w2_ortho (p q : Z) : csum2 N N (fun a b => w2 p q a b) =
  if Z.eq_dec (p mod Z.of_nat N) 0 then (if Z.eq_dec (q mod Z.of_nat N) 0 then toC (INR N * INR N) else c0) else c0.
Proof.
  unfold w2. rewrite (csum2_ext N N _ (fun a b => cmul (W N (Z.of_nat a * p)) (W N (Z.of_nat b * q)))) by (intros; rewrite <- W_add; f_equal; ring).
  rewrite csum2_prod, !W_ortho. destruct (Z.eq_dec (p mod Z.of_nat N) 0), (Z.eq_dec (q mod Z.of_nat N) 0); try ring. now rewrite toC_mul.
Qed.

(** ** the transforms *)
Lemma csum_prod (f : nat * nat -> C) (l m : list nat) : csum (map f (list_prod l m)) = csum (map (fun i => csum (map (fun j => f (i, j)) m)) l).
Proof using.
  induction l as [|i l IH]; [reflexivity|]. cbn [list_prod map]. rewrite map_app, map_map.
  assert (A : forall u v : list C, csum (u ++ v) = cadd (csum u) (csum v)).
  { induction u as [|x u IHu]; intros v; cbn [app]; [change (csum []) with c0; ring|]. change (cadd x (csum (u ++ v)) = cadd (cadd x (csum u)) (csum v)). rewrite IHu. ring. }
  rewrite A, IH. reflexivity.
Qed.
Lemma csum_seq f n : csum (map f (seq 0 n)) = csumn n f.
Proof using. rewrite csum_map. reflexivity. Qed.
Lemma fft2_eq x k1 k2 : fft2 N N x k1 k2 = csum2 N N (fun a b => cmul (x a b) (w2 (- Z.of_nat k1) (- Z.of_nat k2) a b)).
Proof.
  unfold fft2, dft2. rewrite csum_prod, csum_seq. apply csumn_ext. intros a _. rewrite csum_seq. apply csumn_ext. intros b _. cbn [fst snd]. f_equal. unfold w2, W. f_equal.
  rewrite !INR_IZR_INZ, !Nat2Z.inj_mul, plus_IZR, !mult_IZR, !opp_IZR, <- !INR_IZR_INZ. field. apply INR_N.
Qed.
Lemma ifft2_eq x a b : ifft2 N N x a b = cmul (toC (/ (INR N * INR N))) (csum2 N N (fun k1 k2 => cmul (x k1 k2) (w2 (Z.of_nat k1) (Z.of_nat k2) a b))).
Proof.
  unfold ifft2. rewrite cscal_mul. f_equal. unfold dft2. rewrite csum_prod, csum_seq. apply csumn_ext. intros k1 _. rewrite csum_seq. apply csumn_ext. intros k2 _. cbn [fst snd]. f_equal. unfold w2, W. f_equal.
  rewrite !INR_IZR_INZ, !Nat2Z.inj_mul, plus_IZR, !mult_IZR, <- !INR_IZR_INZ. field. apply INR_N.
Qed.
Lemma w2_mul p q p' q' a b : cmul (w2 p q a b) (w2 p' q' a b) = w2 (p + p') (q + q') a b.
Proof using. unfold w2. rewrite <- W_add. f_equal. ring. Qed.
Lemma w2_sym (k1 k2 a b : nat) : w2 (Z.of_nat k1) (Z.of_nat k2) a b = w2 (Z.of_nat a) (Z.of_nat b) k1 k2.
Proof using. unfold w2. f_equal. ring. Qed.
Lemma w2_conj p q a b : conj (w2 p q a b) = w2 (- p) (- q) a b.
Proof using. unfold w2. rewrite W_conj. f_equal. ring. Qed.
Lemma w2_neg_sym (k1 k2 a b : nat) : w2 (- Z.of_nat k1) (- Z.of_nat k2) a b = w2 (- Z.of_nat a) (- Z.of_nat b) k1 k2.
Proof using. unfold w2. f_equal. ring. Qed.
Lemma inv_N2 : cmul (toC (/ (INR N * INR N))) (toC (INR N * INR N)) = c1.
Proof. rewrite <- toC_mul, <- toC_1. f_equal. field. apply INR_N. Qed.
(** fft2 of the inverse transform *)
Lemma fft2_ifft2 x k1 k2 : (k1 < N)%nat -> (k2 < N)%nat -> fft2 N N (ifft2 N N x) k1 k2 = x k1 k2.
Proof.
  intros H1 H2. rewrite fft2_eq.
  rewrite (csum2_ext N N _ (fun a b => cmul (toC (/ (INR N * INR N))) (csum2 N N (fun l1 l2 => cmul (x l1 l2) (w2 (Z.of_nat l1 - Z.of_nat k1) (Z.of_nat l2 - Z.of_nat k2) a b))))).
  2:{ intros a b _ _. rewrite ifft2_eq. rewrite <- !csum2_mul, <- csum2_mul_r. apply csum2_ext. intros l1 l2 _ _. rewrite <- (w2_mul (Z.of_nat l1) (Z.of_nat l2) (- Z.of_nat k1) (- Z.of_nat k2)). ring. }
  rewrite csum2_mul, csum2_swap.
  rewrite (csum2_single N N _ k1 k2 H1 H2).
  - rewrite csum2_mul, !Z.sub_diag, w2_ortho, Z.mod_0_l by lia. destruct (Z.eq_dec 0 0); [|congruence].
    replace (cmul (toC (/ (INR N * INR N))) (cmul (x k1 k2) (toC (INR N * INR N)))) with (cmul (x k1 k2) (cmul (toC (/ (INR N * INR N))) (toC (INR N * INR N)))) by ring.
    rewrite inv_N2. ring.
  - intros l1 l2 L1 L2 Ne. rewrite csum2_mul, w2_ortho.
    destruct (Z.eq_dec _ 0) as [E1|]; [|ring]. destruct (Z.eq_dec _ 0) as [E2|]; [|ring]. exfalso. apply Ne. f_equal; now apply mod_eq_small.
Qed.
Lemma ifft2_fft2 x a b : (a < N)%nat -> (b < N)%nat -> ifft2 N N (fft2 N N x) a b = x a b.
Proof.
  intros H1 H2. rewrite ifft2_eq.
  rewrite (csum2_ext N N _ (fun k1 k2 => csum2 N N (fun l1 l2 => cmul (x l1 l2) (w2 (Z.of_nat a - Z.of_nat l1) (Z.of_nat b - Z.of_nat l2) k1 k2)))).
  2:{ intros k1 k2 _ _. rewrite fft2_eq, <- csum2_mul_r. apply csum2_ext. intros l1 l2 _ _. rewrite w2_neg_sym, w2_sym. unfold Z.sub. rewrite <- (w2_mul (Z.of_nat a) (Z.of_nat b)). ring. }
  rewrite csum2_swap. rewrite (csum2_single N N _ a b H1 H2).
  - rewrite csum2_mul, !Z.sub_diag, w2_ortho, Z.mod_0_l by lia. destruct (Z.eq_dec 0 0); [|congruence].
    replace (cmul (toC (/ (INR N * INR N))) (cmul (x a b) (toC (INR N * INR N)))) with (cmul (x a b) (cmul (toC (/ (INR N * INR N))) (toC (INR N * INR N)))) by ring.
    rewrite inv_N2. ring.
  - intros l1 l2 L1 L2 Ne. rewrite csum2_mul, w2_ortho.
    destruct (Z.eq_dec _ 0) as [E1|]; [|ring]. destruct (Z.eq_dec _ 0) as [E2|]; [|ring]. exfalso. apply Ne. f_equal; symmetry; now apply mod_eq_small.
Qed.
End Unity.
