(** * Specification vocabulary for the random generators

    Nothing here refers to the model of the code. *)
From Coq Require Import Reals List ZArith Bool Lra Lia.
Import ListNotations.
Open Scope R_scope.

(** An expectation on a sample space: a linear functional on a space of integrable random variables, 1 on the constant 1.
    Any probability space gives one (with the integral) and so does any finite average. *)
Record expectation (W : Type) := mkE {
  integrable : (W -> R) -> Prop;
  E : (W -> R) -> R;
  int_ext : forall f g, (forall w, f w = g w) -> integrable f -> integrable g;
  E_ext : forall f g, (forall w, f w = g w) -> E f = E g;
  int_one : integrable (fun _ => 1);
  E_one : E (fun _ => 1) = 1;
  int_plus : forall f g, integrable f -> integrable g -> integrable (fun w => f w + g w);
  E_plus : forall f g, integrable f -> integrable g -> E (fun w => f w + g w) = E f + E g;
  int_scal : forall c f, integrable f -> integrable (fun w => c * f w);
  E_scal : forall c f, integrable f -> E (fun w => c * f w) = c * E f
}.
Arguments integrable {W} _ _.
Arguments E {W} _ _.
(** covariance of two random variables *)
Definition Cov {W} (P : expectation W) (x y : W -> R) : R := E P (fun w => x w * y w) - E P x * E P y.

(** white noise: centred variables of variance one, mutually uncorrelated; [idx] tells which indices exist *)
Definition white {W I} (P : expectation W) (idx : I -> Prop) (z : I -> W -> R) : Prop :=
  (forall i, idx i -> integrable P (z i) /\ E P (z i) = 0) /\
  (forall i j, idx i -> idx j -> integrable P (fun w => z i w * z j w) /\
     (i = j -> E P (fun w => z i w * z j w) = 1) /\ (i <> j -> E P (fun w => z i w * z j w) = 0)).

(** R columns of n rows, as random arrays *)
Definition shaped {A} (R n : nat) (z : list (list A)) : Prop := List.length z = R /\ Forall (fun c => List.length c = n) z.
Definition entry {A} (d : A) (z : list (list A)) (r k : nat) : A := nth k (nth r z []) d.
(** real white noise of shape (n, R) *)
Definition white_real {W} (P : expectation W) (R n : nat) (z : W -> list (list Rdefinitions.R)) : Prop :=
  (forall w, shaped R n (z w)) /\
  white P (fun i : nat * nat => (fst i < R)%nat /\ (snd i < n)%nat) (fun i w => entry 0 (z w) (fst i) (snd i)).
(** complex white noise of shape (n, R): the real and the imaginary parts are all uncorrelated *)
Definition white_complex {W} (P : expectation W) (R n : nat) (z : W -> list (list (Rdefinitions.R * Rdefinitions.R))) : Prop :=
  (forall w, shaped R n (z w)) /\
  white P (fun i : nat * nat * bool => (fst (fst i) < R)%nat /\ (snd (fst i) < n)%nat)
    (fun i w => let c := entry (0, 0) (z w) (fst (fst i)) (snd (fst i)) in if snd i then snd c else fst c).

(** [x] is a random array of shape (n, R) whose entries are centred and whose columns are mutually uncorrelated realisations of
    a process with covariance [c] *)
Definition has_covariance {W} (P : expectation W) (R n : nat) (x : W -> list (list Rdefinitions.R)) (c : nat -> nat -> Rdefinitions.R) : Prop :=
  (forall w, shaped R n (x w)) /\
  (forall r a, (r < R)%nat -> (a < n)%nat -> integrable P (fun w => entry 0 (x w) r a) /\ E P (fun w => entry 0 (x w) r a) = 0) /\
  (forall r r' a b, (r < R)%nat -> (r' < R)%nat -> (a < n)%nat -> (b < n)%nat ->
     integrable P (fun w => entry 0 (x w) r a * entry 0 (x w) r' b) /\
     Cov P (fun w => entry 0 (x w) r a) (fun w => entry 0 (x w) r' b) = if Nat.eq_dec r r' then c a b else 0).
(** the stationary covariance with autocovariance sequence [g] *)
Definition stationary (g : list R) (a b : nat) : R := nth (Nat.max a b - Nat.min a b) g 0.
(** t^p for t >= 0 and p > 0 *)
Definition rpow (t p : R) : R := if Rlt_dec 0 t then exp (p * ln t) else 0.
(** covariance of fractional Brownian motion at times s and t *)
Definition fbm_covariance (H sigma : R) (s t : R) : R :=
  sigma ^ 2 / 2 * (rpow s (2 * H) + rpow t (2 * H) - rpow (Rabs (s - t)) (2 * H)).
(** eigenvalue number k of the circulant matrix of size 2 N - 2 built on a covariance sequence of N terms: the first row is
    cov[0], ..., cov[N-1], cov[N-2], ..., cov[1] *)
Definition circulant_eigenvalue (cov : list R) (k : nat) : R :=
  let M := (2 * List.length cov - 2)%nat in
  fold_right Rplus 0 (map (fun m => nth (Nat.min m (M - m)) cov 0 * cos (2 * PI * INR k * INR m / INR M)) (seq 0 M)).
(** increments of fractional Brownian motion at lag k, step d *)
Definition fgn_covariance (H sigma d : R) (a b : nat) : R :=
  fbm_covariance H sigma (d * (INR a + 1)) (d * (INR b + 1)) - fbm_covariance H sigma (d * INR a) (d * (INR b + 1))
  - fbm_covariance H sigma (d * (INR a + 1)) (d * INR b) + fbm_covariance H sigma (d * INR a) (d * INR b).
(** a symmetric matrix (n x n, as a function of the indices) is positive definite *)
Definition positive_definite (n : nat) (A : nat -> nat -> R) : Prop :=
  forall x : nat -> R, (exists i, (i < n)%nat /\ x i <> 0) ->
    0 < fold_right Rplus 0 (map (fun i => fold_right Rplus 0 (map (fun j => x i * A i j * x j) (seq 0 n))) (seq 0 n)).
(** the positive part of the logarithm *)
Definition log_plus (x : R) : R := if Rle_dec 1 x then ln x else 0.
(** the power-law kernel of the skewed multifractal random walk *)
Definition skew_kernel (K0 alpha beta dt : R) (tau : nat) : R := K0 / Rpower (INR tau) alpha / Rpower dt beta.
(** the causal convolution: sum of K(tau) e[t - tau] for 1 <= tau <= n *)
Definition causal_sum (K : nat -> R) (n : nat) (e : list R) (t : nat) : R :=
  fold_right Rplus 0 (map (fun tau => K tau * nth (t - tau) e 0) (seq 1 n)).
