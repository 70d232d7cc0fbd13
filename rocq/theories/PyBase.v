(** * Python and numpy scaffolding: exceptions, dicts, ranges, slices *)
From Coq Require Import Reals List ZArith Bool Lia.
From Verif Require Import XReal.
Import ListNotations.

(** The exception classes the modelled code can raise *)
Inductive err : Set :=
| ValueError | IndexError | KeyError | TypeError | AttributeError
| UnboundLocalError | ZeroDivisionError | OverflowError | AssertionError
| LinAlgError.

(** Outcome of a call: a value or an exception *)
Inductive res (A : Type) : Type :=
| Ok (a : A)
| Err (e : err).
Arguments Ok {A} _.
Arguments Err {A} _.

Definition bind {A B} (m : res A) (k : A -> res B) : res B :=
  match m with Ok a => k a | Err e => Err e end.

Notation "x <- m ;; k" := (bind m (fun x => k))
  (at level 61, m at next level, right associativity).
Notation "' p <- m ;; k" := (bind m (fun x => match x with p => k end))
  (at level 61, p pattern, m at next level, right associativity).

Definition is_ok {A} (m : res A) : bool :=
  match m with Ok _ => true | Err _ => false end.

(** a loop whose body may raise *)
Fixpoint mapM {A B} (f : A -> res B) (l : list A) : res (list B) :=
  match l with
  | [] => Ok []
  | a :: l' => b <- f a ;; bs <- mapM f l' ;; Ok (b :: bs)
  end.

(** Insertion-ordered dict with integer keys *)
Definition dict (V : Type) := list (Z * V).

Fixpoint dict_get {V} (d : dict V) (k : Z) : option V :=
  match d with
  | [] => None
  | (k', v) :: d' => if Z.eqb k k' then Some v else dict_get d' k
  end.

(** [d[k]] : KeyError when missing *)
Definition dict_getitem {V} (d : dict V) (k : Z) : res V :=
  match dict_get d k with Some v => Ok v | None => Err KeyError end.

(** [d[k] = v]: overwrite in place, or append *)
Fixpoint dict_set {V} (d : dict V) (k : Z) (v : V) : dict V :=
  match d with
  | [] => [(k, v)]
  | (k', v') :: d' =>
      if Z.eqb k k' then (k', v) :: d' else (k', v') :: dict_set d' k v
  end.

Definition dict_keys {V} (d : dict V) : list Z := map fst d.
Definition dict_vals {V} (d : dict V) : list V := map snd d.

(** [range(a, b)] *)
Definition zrange (a b : Z) : list Z :=
  map (fun i => (a + Z.of_nat i)%Z) (seq 0 (Z.to_nat (b - a))).

(** Python's normalisation of a slice bound for a sequence of length n *)
Definition norm_index (i : Z) (n : nat) : nat :=
  if (i <? 0)%Z then Z.to_nat (Z.max 0 (i + Z.of_nat n))
  else Nat.min (Z.to_nat i) n.

(** [l[a:b]] *)
Definition py_slice {A} (a b : Z) (l : list A) : list A :=
  let lo := norm_index a (length l) in
  let hi := norm_index b (length l) in
  firstn (hi - lo) (skipn lo l).

(** numpy multiplication of two 1-D arrays with broadcasting of length-1 axes *)
Definition bcast_mul (w y : col) : res col :=
  if Nat.eqb (length w) (length y) then Ok (map2 xmul w y)
  else match y with
       | [y0] => Ok (map (fun a => xmul a y0) w)
       | _ => match w with
              | [w0] => Ok (map (fun a => xmul w0 a) y)
              | _ => Err ValueError
              end
       end.

(** A Python number: [PyInt] for instances of [int]; [PyFloat] for everything
    else numpy accepts (float, np.float64, np.int64) *)
Inductive pynum : Set := PyInt (z : Z) | PyFloat (r : R).
Definition num_val (e : pynum) : R :=
  match e with PyInt z => IZR z | PyFloat r => r end.

(** [int(x)] on a finite float: truncation towards zero *)
Definition truncR (r : R) : Z :=
  if Rle_dec 0 r then Int_part r else (- Int_part (- r))%Z.

(** [np.ceil] on a finite float, as an integer *)
Definition ceilR (r : R) : Z := (- Int_part (- r))%Z.
(** [np.floor] on a finite float, as an integer *)
Definition floorR (r : R) : Z := Int_part r.
