(** * Specification vocabulary for the two-dimensional generators

    Nothing here refers to the model of the code. *)
From Coq Require Import Reals List ZArith Bool.
From Verif Require SpecSimul.
Import ListNotations.
Open Scope R_scope.

(** the sum of an N x N array *)
Definition grid_sum (N : nat) (f : nat -> nat -> R) : R :=
  fold_right Rplus 0 (map (fun p => f (fst p) (snd p)) (list_prod (seq 0 N) (seq 0 N))).
(** the phase of the plane wave of frequency (k1, k2) at the point (a, b) of an N x N torus *)
Definition phase (N k1 k2 a b : nat) : R := 2 * PI * (INR k1 * INR a + INR k2 * INR b) / INR N.
(** the discrete Fourier coefficients of a real array *)
Definition cosine_coef (N : nat) (x : nat -> nat -> R) (k1 k2 : nat) : R := grid_sum N (fun a b => x a b * cos (phase N k1 k2 a b)).
Definition sine_coef (N : nat) (x : nat -> nat -> R) (k1 k2 : nat) : R := grid_sum N (fun a b => x a b * sin (phase N k1 k2 a b)).
(** the representative of the frequency k between -N/2 and N/2 - 1 *)
Definition centred (N k : nat) : Z := if Nat.ltb (2 * k) N then Z.of_nat k else (Z.of_nat k - Z.of_nat N)%Z.
(** the squared norm of the frequency (k1, k2) *)
Definition freq_norm2 (N k1 k2 : nat) : R := IZR (centred N k1) ^ 2 + IZR (centred N k2) ^ 2.
(** fractional integration of order alpha: |k|^(-alpha), and 1 at the frequency 0 *)
Definition fract_gain (N : nat) (alpha : R) (k1 k2 : nat) : R :=
  if andb (Nat.eqb k1 0) (Nat.eqb k2 0) then 1 else Rpower (freq_norm2 N k1 k2) (- alpha / 2).
(** the entries of a complex array of shape (N, N, R) are white noise: real and imaginary parts are all uncorrelated *)
Definition white_field {W} (P : SpecSimul.expectation W) (N nr : nat) (z : W -> nat -> nat -> nat -> R * R) : Prop :=
  SpecSimul.white P (fun i : nat * nat * nat * bool => let '(k1, k2, r, _) := i in (k1 < N)%nat /\ (k2 < N)%nat /\ (r < nr)%nat)
    (fun i w => let '(k1, k2, r, im) := i in if im then snd (z w k1 k2 r) else fst (z w k1 k2 r)).
(** the covariance of the log-volatility of a multifractal random walk at lag (k1, k2) of the torus *)
Definition log_covariance (N : nat) (lam L : R) (k1 k2 : nat) : R := lam ^ 2 * SpecSimul.log_plus (L / (1 + sqrt (freq_norm2 N k1 k2))).
(** its Fourier coefficients *)
Definition log_spectrum (N : nat) (lam L : R) (k1 k2 : nat) : R := cosine_coef N (log_covariance N lam L) k1 k2.
(** a size rounded up to an even number: n if it is even, n + 1 otherwise *)
Definition even_size (n : nat) : nat := if Nat.even n then n else S n.
