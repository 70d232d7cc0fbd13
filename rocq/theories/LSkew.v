(** * The convolution theorem, and the skewness convolution *)
From Coq Require Import Reals List ZArith Bool Lia Lra.
From Verif Require Import XReal PyBase ModelSimul Spec LXReal LDft LSimul.
Import ListNotations.
Open Scope R_scope.

Definition Are (n : nat) (a : nat -> R) (k : nat) : R := sumn n (fun m => a m * cos (ang n (Z.of_nat m) k)).
Definition Aim (n : nat) (a : nat -> R) (k : nat) : R := sumn n (fun m => - a m * sin (ang n (Z.of_nat m) k)).
Lemma fft_real (x : list R) : (1 <= List.length x)%nat ->
  fft (map toC x) = Ok (map (fun k => (Are (List.length x) (fun m => nth m x 0) k, Aim (List.length x) (fun m => nth m x 0) k)) (seq 0 (List.length x))).
Proof.
  intros H. rewrite fft_eq by now rewrite map_length. rewrite map_length. f_equal. apply map_ext. intros k.
  assert (N : forall m, nth m (map toC x) (0, 0) = toC (nth m x 0)) by (intros m; change (0, 0) with (toC 0); apply map_nth).
  unfold Are, Aim. f_equal; apply sumn_ext; intros m _; rewrite N; unfold toC; cbn [fst snd]; ring.
Qed.

Lemma conv_sum n (a b : nat -> R) (t : nat) : (1 <= n)%nat ->
  sumn n (fun k => (Are n a k * Are n b k - Aim n a k * Aim n b k) * cos (ang n (Z.of_nat k) t)
                 - (Are n a k * Aim n b k + Aim n a k * Are n b k) * sin (ang n (Z.of_nat k) t)) =
  INR n * sumn n (fun m => sumn n (fun l => a m * b l * if Z.eq_dec ((Z.of_nat m + Z.of_nat l - Z.of_nat t) mod Z.of_nat n) 0 then 1 else 0)).
Proof.
  intros Hn.
  rewrite (sumn_ext n _ (fun k => sumn n (fun m => sumn n (fun l => a m * b l * cos (ang n (Z.of_nat m + Z.of_nat l - Z.of_nat t) k))))).
  2:{ intros k _. unfold Are, Aim. set (ct := cos (ang n (Z.of_nat k) t)). set (st := sin (ang n (Z.of_nat k) t)).
      set (B := sumn n (fun m => b m * cos (ang n (Z.of_nat m) k))). set (B' := sumn n (fun m => - b m * sin (ang n (Z.of_nat m) k))).
      rewrite <- !sumn_scal_r, <- sumn_minus, <- sumn_plus, <- !sumn_scal_r, <- sumn_minus. apply sumn_ext. intros m _.
      set (cm := cos (ang n (Z.of_nat m) k)). set (sm := sin (ang n (Z.of_nat m) k)).
      rewrite (sumn_ext n (fun l => a m * b l * _) (fun l => a m * (cm * ct + sm * st) * (b l * cos (ang n (Z.of_nat l) k)) + a m * (sm * ct - cm * st) * (- b l * sin (ang n (Z.of_nat l) k)))).
      - rewrite sumn_plus, !sumn_scal. fold B B'. ring.
      - intros l _. rewrite ang_minus, ang_plus, cos_minus, cos_plus, sin_plus. rewrite (ang_sym n t k). fold ct st cm sm. ring. }
  rewrite sumn_swap. rewrite <- sumn_scal. apply sumn_ext. intros m _. rewrite sumn_swap. rewrite <- sumn_scal. apply sumn_ext. intros l _.
  rewrite sumn_scal. rewrite (proj1 (orthogonality n _ Hn)). destruct (Z.eq_dec _ 0); ring.
Qed.

(** the real part of ifft (fft a * fft b): the circular convolution *)
Lemma circular_convolution (a b : list R) : (1 <= List.length a)%nat -> List.length a = List.length b ->
  (fk <- fft (map toC a) ;; fe <- fft (map toC b) ;; p <- bcast_cmul fk fe ;; y <- ifft p ;; Ok (map fst y)) =
  Ok (map (fun t => sumn (List.length a) (fun m => sumn (List.length a) (fun l => nth m a 0 * nth l b 0 *
        if Z.eq_dec ((Z.of_nat m + Z.of_nat l - Z.of_nat t) mod Z.of_nat (List.length a)) 0 then 1 else 0))) (seq 0 (List.length a))).
Proof.
  intros H1 H2. rewrite !fft_real by lia. cbn [bind]. rewrite <- H2. set (n := List.length a) in *.
  unfold bcast_cmul. rewrite !map_length, !seq_length, Nat.eqb_refl. cbn [bind]. rewrite map2_map.
  set (p := map2 _ (seq 0 n) (seq 0 n)).
  assert (Lp : List.length p = n) by (unfold p; rewrite map2_length, seq_length; lia).
  assert (Np : forall k, (k < n)%nat -> nth k p (0, 0) = cmul (Are n (fun m => nth m a 0) k, Aim n (fun m => nth m a 0) k) (Are n (fun m => nth m b 0) k, Aim n (fun m => nth m b 0) k)).
  { intros k Hk. unfold p. rewrite (nth_map2 _ _ _ _ 0%nat 0%nat) by (rewrite seq_length; trivial).
    rewrite !seq_nth by trivial. reflexivity. }
  rewrite ifft_eq by lia. rewrite Lp. cbn [bind]. rewrite map_map. cbn [fst]. f_equal. apply map_ext_in. intros t Ht. apply in_seq in Ht.
  rewrite (sumn_ext n _ (fun k => (Are n (fun m => nth m a 0) k * Are n (fun m => nth m b 0) k - Aim n (fun m => nth m a 0) k * Aim n (fun m => nth m b 0) k) * cos (ang n (Z.of_nat k) t)
                 - (Are n (fun m => nth m a 0) k * Aim n (fun m => nth m b 0) k + Aim n (fun m => nth m a 0) k * Are n (fun m => nth m b 0) k) * sin (ang n (Z.of_nat k) t))).
  - rewrite conv_sum by trivial. field. apply not_0_INR. lia.
  - intros k Hk. rewrite Np by trivial. unfold cmul. cbn [fst snd]. ring.
Qed.
