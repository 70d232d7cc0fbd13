(** * Specification vocabulary

    Textbook notions used in the statements of the property theorems.  Nothing
    here refers to the model of the code. *)
From Coq Require Import Reals List ZArith Bool.
From Verif Require Import XReal.
Import ListNotations.
Open Scope R_scope.

(** a list of finite numbers as a float array *)
Definition fin (l : list R) : list xr := map Fin l.

(** sum and arithmetic mean of real numbers *)
Definition Rsum (l : list R) : R := fold_right Rplus 0 l.
Definition mean (l : list R) : R := Rsum l / INR (length l).

(** A data set for a weighted fit: (weight, abscissa, ordinate) *)
Definition point := (R * R * R)%type.
Definition pw (p : point) : R := fst (fst p).
Definition px (p : point) : R := snd (fst p).
Definition py (p : point) : R := snd p.

(** weighted squared error of the line y = a x + b *)
Definition wsse (pts : list point) (a b : R) : R :=
  Rsum (map (fun p => pw p * (py p - (a * px p + b)) ^ 2) pts).

(** (a, b) is the strict minimiser of the weighted squared error *)
Definition is_best_line (pts : list point) (a b : R) : Prop :=
  forall a' b', (a', b') <> (a, b) -> wsse pts a b < wsse pts a' b'.

(** The same three lists as points *)
Fixpoint points (n x y : list R) : list point :=
  match n, x, y with
  | w :: n', s :: x', t :: y' => (w, s, t) :: points n' x' y'
  | _, _, _ => []
  end.

(** at least two different abscissae carry a positive weight, none a negative one *)
Definition well_posed (pts : list point) : Prop :=
  Forall (fun p => 0 <= pw p) pts /\
  exists p q, In p pts /\ In q pts /\ 0 < pw p /\ 0 < pw q /\ px p <> px q.

(** The finite entries of a column (the non-NaN ones when nothing is infinite) *)
Fixpoint reals (c : list xr) : list R :=
  match c with
  | [] => []
  | Fin a :: c' => a :: reals c'
  | _ :: c' => reals c'
  end.

(** a column without infinities: its entries are numbers or NaN *)
Definition no_inf (c : list xr) : Prop :=
  Forall (fun v => v = NaN \/ exists a, v = Fin a) c.

(** [is_power a e v]: v is the value of a**e for a real number a, in the
    conventions of IEEE/numpy *)
Inductive is_power : R -> R -> xr -> Prop :=
| pow_positive a e : 0 < a -> is_power a e (Fin (exp (e * ln a)))
| pow_natural a (n : nat) : is_power a (INR n) (Fin (a ^ n))
| pow_minus_natural a (n : nat) : a <> 0 -> is_power a (- INR n) (Fin (/ a ^ n))
| pow_zero_pos e : 0 < e -> is_power 0 e (Fin 0)
| pow_zero_neg e : e < 0 -> is_power 0 e PInf
| pow_negative_nonint a e :
    a < 0 -> (forall z : Z, e <> IZR z) -> is_power a e NaN.

(** largest element of a list of reals *)
Definition is_max (m : R) (l : list R) : Prop :=
  In m l /\ forall v, In v l -> v <= m.

(** the polynomial c_0 + c_1 x + c_2 x^2 + ... *)
Definition poly (c : list R) (x : R) : R := fold_right (fun a acc => a + x * acc) 0 c.
(** a signal plus the samples P(0), P(1), ... of a polynomial *)
Definition add_trend (c s : list R) : list R :=
  map (fun i => nth i s 0 + poly c (INR i)) (seq 0 (length s)).
(** the first M moments of a filter vanish *)
Definition vanishing_moments (h : list R) (M : nat) : Prop :=
  forall i, (i < M)%nat ->
    Rsum (map (fun m => INR m ^ i * nth m h 0) (seq 0 (length h))) = 0.

(** The time-scale cone under the positions k, k+1, k+2 of scale j: all pairs
    (j', k') of a scale 1 <= j' <= j and a position whose dyadic interval lies
    under one of these three, i.e. k <= k' / 2^(j-j') < k + 3 *)
Definition cone (j k : nat) : list (nat * nat) :=
  flat_map (fun j' => map (pair j') (seq (k * 2 ^ (j - j')) (3 * 2 ^ (j - j')))) (seq 1 j).

(** |a|^e for e > 0, with 0^e = 0 *)
Definition abs_pow (a e : R) : R := if Req_EM_T a 0 then 0 else exp (e * ln (Rabs a)).
(** |a|^q for any q, with 0^0 = 1 and 0^q = 0 for q > 0 (q < 0 needs a <> 0) *)
Definition qpow (q a : R) : R := if Req_EM_T q 0 then 1 else abs_pow a q.
(** q can be applied to all the values: q >= 0, or no value is zero *)
Definition q_defined (q : R) (l : list R) : Prop := 0 <= q \/ Forall (fun a => a <> 0) l.
(** moment of order q of the absolute values *)
Definition abs_moment (q : R) (l : list R) : R := mean (map (qpow q) l).
