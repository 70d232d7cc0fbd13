(** * Specification vocabulary for pairs of quantities *)
From Coq Require Import Reals List ZArith Bool.
From Verif Require Import XReal PyBase ModelMRQ Spec SpecMRQ.
Import ListNotations.
Open Scope R_scope.

(** the positions at which both columns hold a number, as pairs *)
Fixpoint joint (c1 c2 : list xr) : list (R * R) :=
  match c1, c2 with
  | Fin a :: c1', Fin b :: c2' => (a, b) :: joint c1' c2'
  | _ :: c1', _ :: c2' => joint c1' c2'
  | _, _ => []
  end.
(** the jointly usable values of two single-realisation quantities at scale j *)
Definition pairs (m1 m2 : mrq) (j : Z) : list (R * R) := joint (column m1 j 0) (column m2 j 0).
(** arrays of the same length, with numbers and NaN only *)
Definition aligned (m1 m2 : mrq) (j : Z) : Prop :=
  length (column m1 j 0) = length (column m2 j 0) /\ no_inf (column m1 j 0) /\ no_inf (column m2 j 0).
(** the NaN are at the same positions *)
Definition same_nans (m1 m2 : mrq) (j : Z) : Prop := map isnan (column m1 j 0) = map isnan (column m2 j 0).
(** mean of f(x) g(y) over pairs *)
Definition pmean (f g : R -> R) (l : list (R * R)) : R := mean (map (fun p => f (fst p) * g (snd p)) l).
(** covariance of a sample of pairs *)
Definition cov (l : list (R * R)) : R :=
  pmean (fun x => x - mean (map fst l)) (fun y => y - mean (map snd l)) l.
(** the pairs of logarithms of moduli *)
Definition log_pairs (l : list (R * R)) : list (R * R) := map (fun p => (ln (Rabs (fst p)), ln (Rabs (snd p)))) l.
Definition pairs_nonzero (l : list (R * R)) : Prop := Forall (fun p => fst p <> 0 /\ snd p <> 0) l.

(** reading tables indexed by two orders, and by two orders and the scale *)
Definition b2 (t : list (list xr)) (a k : nat) : xr := nth k (nth a t []) NaN.
Definition b3 (t : list (list (list xr))) (a k : nat) (j : Z) : xr := nth (Z.to_nat (j - 1)) (nth k (nth a t []) []) NaN.
(** reading an array over scales *)
Definition b1 (t : list xr) (j : Z) : xr := nth (Z.to_nat (j - 1)) t NaN.

(** joint moment of orders p, q of the absolute values; the orders can be applied to all the values *)
Definition jmoment (p q : R) (l : list (R * R)) : R := pmean (qpow p) (qpow q) l.
Definition pairs_defined (p q : R) (l : list (R * R)) : Prop :=
  Forall (fun v => (0 <= p \/ fst v <> 0) /\ (0 <= q \/ snd v <> 0)) l.
