(** * Specification vocabulary for multi-resolution quantities

    How a user reads a [MultiResolutionQuantity] through its public fields
    [values] and [nj], and what a regular quantity is. *)
From Coq Require Import Reals List ZArith Bool.
From Verif Require Import XReal PyBase ModelMRQ Spec.
Import ListNotations.
Open Scope R_scope.

(** the scales stored in [values] *)
Definition scales (m : mrq) : list Z := dict_keys (mq_values m).
(** 1, 2, ..., n *)
Definition one_to (n : nat) : list Z := map Z.of_nat (seq 1 n).
(** [values[j][:, r]] (empty when absent) *)
Definition column (m : mrq) (j : Z) (r : nat) : col :=
  match dict_get (mq_values m) j with Some a => nth r a [] | None => [] end.
(** [values[j][k, r]] (NaN when absent) *)
Definition entry (m : mrq) (j : Z) (r k : nat) : xr :=
  match dict_get (mq_values m) j with
  | Some v => nth k (nth r v []) NaN
  | None => NaN
  end.
(** [nj[j][r]] *)
Definition count (m : mrq) (j : Z) (r : nat) : nat :=
  match dict_get (mq_nj m) j with Some a => nth r a 0%nat | None => 0%nat end.
(** which entries of an array are NaN *)
Definition nan_pattern (a : arr) : list (list bool) := map (map isnan) a.

(** A regular quantity: scales 1..g (g >= 1), [nj] stored for the same scales,
    [nrep] realisations everywhere *)
Definition regular (m : mrq) (g nrep : nat) : Prop :=
  (1 <= g)%nat /\ scales m = one_to g /\ dict_keys (mq_nj m) = one_to g /\
  (forall j a, dict_get (mq_values m) j = Some a -> length a = nrep).
(** ... whose [nj] counts the usable (non-NaN) entries *)
Definition counted (m : mrq) : Prop :=
  forall j a, dict_get (mq_values m) j = Some a ->
    dict_get (mq_nj m) j = Some (map count_valid a).

(** regression weight of scale j: nj or 1 *)
Definition weight (weighted : bool) (m : mrq) (j : Z) (r : nat) : R :=
  if weighted then INR (count m j r) else 1.
(** The data points of the fit of ordinates y(j) over the scales j1..j2 *)
Definition fit_points (weighted : bool) (m : mrq) (j1 j2 : Z) (r : nat) (y : Z -> R)
  : list point :=
  map (fun j => (weight weighted m j r, IZR j, y j)) (zrange j1 (j2 + 1)).

(** the values stored for realisation r at scale j, without the NaN *)
Definition numbers (m : mrq) (j : Z) (r : nat) : list R := reals (column m j r).
(** scale j of realisation r holds numbers and NaN only, at least one number *)
Definition usable (m : mrq) (j : Z) (r : nat) : Prop :=
  no_inf (column m j r) /\ numbers m j r <> [].
(** reading result arrays of shape (n, nrep) and (n, nscales, nrep): row i (the
    i-th moment order or cumulant), realisation r, scale j *)
Definition at2 (t : list (list xr)) (i r : nat) : xr := nth r (nth i t []) NaN.
Definition at3 (t : list arr) (i r : nat) (j : Z) : xr :=
  nth (Z.to_nat (j - 1)) (nth r (nth i t []) []) NaN.
