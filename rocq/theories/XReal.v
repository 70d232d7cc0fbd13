(** * Extended reals: the numbers of the model

    numpy's float64 is modelled by real numbers extended with the two
    infinities and NaN.  The rules for NaN and the infinities are those of IEEE
    754 / numpy; finite arithmetic is exact (no rounding, no overflow, no
    signed zero: a zero divisor counts as +0.0, which is what every zero
    divisor of the modelled code is, being a sum of non-negative terms or a
    difference [a - a]).  These are the only simplifications of this file.  *)
From Coq Require Import Reals List ZArith Bool.
Import ListNotations.
Open Scope R_scope.

Inductive xr : Set := Fin (r : R) | PInf | NInf | NaN.

(** [np.isnan] on a scalar *)
Definition isnan (x : xr) : bool := match x with NaN => true | _ => false end.

(** float addition, [x + y] *)
Definition xadd (x y : xr) : xr :=
  match x, y with
  | NaN, _ => NaN
  | _, NaN => NaN
  | Fin a, Fin b => Fin (a + b)
  | PInf, NInf => NaN
  | NInf, PInf => NaN
  | PInf, _ => PInf
  | _, PInf => PInf
  | NInf, _ => NInf
  | _, NInf => NInf
  end.

(** unary minus *)
Definition xopp (x : xr) : xr :=
  match x with Fin a => Fin (- a) | PInf => NInf | NInf => PInf | NaN => NaN end.

Definition xsub (x y : xr) : xr := xadd x (xopp y).

(** finite times infinity: [0 * inf] is NaN, otherwise the signs multiply *)
Definition scale_inf (a : R) (i : xr) : xr :=
  if Req_EM_T a 0 then NaN else if Rlt_dec 0 a then i else xopp i.

(** float multiplication *)
Definition xmul (x y : xr) : xr :=
  match x, y with
  | NaN, _ => NaN
  | _, NaN => NaN
  | Fin a, Fin b => Fin (a * b)
  | Fin a, i => scale_inf a i
  | i, Fin b => scale_inf b i
  | PInf, i => i
  | NInf, i => xopp i
  end.

(** float division; a zero divisor is +0.0 *)
Definition xdiv (x y : xr) : xr :=
  match x, y with
  | NaN, _ => NaN
  | _, NaN => NaN
  | Fin a, Fin b =>
      if Req_EM_T b 0 then
        (if Req_EM_T a 0 then NaN else if Rlt_dec 0 a then PInf else NInf)
      else Fin (a / b)
  | Fin _, _ => Fin 0
  | i, Fin b => if Rlt_dec b 0 then xopp i else i
  | _, _ => NaN
  end.

(** [np.abs] *)
Definition xabs (x : xr) : xr :=
  match x with Fin a => Fin (Rabs a) | NInf => PInf | y => y end.

(** [np.sqrt] *)
Definition xsqrt (x : xr) : xr :=
  match x with
  | Fin a => if Rle_dec 0 a then Fin (sqrt a) else NaN
  | PInf => PInf
  | _ => NaN
  end.

(** base-2 logarithm of a positive real *)
Definition log2R (r : R) : R := ln r / ln 2.

(** [np.log]: log 0 = -inf, log of a negative number = NaN *)
Definition xln (x : xr) : xr :=
  match x with
  | Fin a => if Rlt_dec 0 a then Fin (ln a)
             else if Req_EM_T a 0 then NInf else NaN
  | PInf => PInf
  | _ => NaN
  end.

(** [np.log2] *)
Definition xlog2 (x : xr) : xr :=
  match x with
  | Fin a => if Rlt_dec 0 a then Fin (log2R a)
             else if Req_EM_T a 0 then NInf else NaN
  | PInf => PInf
  | _ => NaN
  end.

(** Is the real an integer?  [Int_part] is the floor. *)
Definition is_intR (e : R) : bool :=
  if Req_EM_T (IZR (Int_part e)) e then true else false.

(** [np.power(x, e)] / [x ** e] with a finite exponent.  [nan ** 0 = 1]. *)
Definition xpow (x : xr) (e : R) : xr :=
  match x with
  | NaN => if Req_EM_T e 0 then Fin 1 else NaN
  | PInf => if Req_EM_T e 0 then Fin 1
            else if Rlt_dec 0 e then PInf else Fin 0
  | NInf => if Req_EM_T e 0 then Fin 1
            else if Rlt_dec 0 e then
              (if is_intR e && Z.odd (Int_part e) then NInf else PInf)
            else Fin 0
  | Fin a =>
      if Rlt_dec 0 a then Fin (Rpower a e)
      else if Req_EM_T a 0 then
        (if Req_EM_T e 0 then Fin 1
         else if Rlt_dec 0 e then Fin 0 else PInf)
      else if is_intR e then Fin (powerRZ a (Int_part e)) else NaN
  end.

(** [x <= y] and [x < y] (false as soon as one side is NaN) *)
Definition xleb (x y : xr) : bool :=
  match x, y with
  | NaN, _ => false
  | _, NaN => false
  | NInf, _ => true
  | _, PInf => true
  | Fin a, Fin b => if Rle_dec a b then true else false
  | _, _ => false
  end.

Definition xltb (x y : xr) : bool :=
  match x, y with
  | NaN, _ => false
  | _, NaN => false
  | Fin a, Fin b => if Rlt_dec a b then true else false
  | NInf, NInf => false
  | NInf, _ => true
  | PInf, _ => false
  | Fin _, PInf => true
  | Fin _, NInf => false
  end.

(** [np.fmax]: maximum that ignores a NaN operand *)
Definition xfmax (x y : xr) : xr :=
  match x, y with
  | NaN, y => y
  | x, NaN => x
  | Fin a, Fin b => Fin (Rmax a b)
  | PInf, _ => PInf
  | _, PInf => PInf
  | NInf, y => y
  | x, NInf => x
  end.

(** [np.minimum]: minimum that propagates NaN *)
Definition xmin (x y : xr) : xr :=
  match x, y with
  | NaN, _ => NaN
  | _, NaN => NaN
  | Fin a, Fin b => Fin (Rmin a b)
  | NInf, _ => NInf
  | _, NInf => NInf
  | PInf, y => y
  | x, PInf => x
  end.

(** ** Columns and reductions along axis 0 *)

(** a column: the entries of a 2-D array for one realisation *)
Definition col := list xr.
(** a 2-D array of shape (n, nrep): the list of its [nrep] columns *)
Definition arr := list col.

(** [np.sum] *)
Definition xsum (l : col) : xr := fold_right xadd (Fin 0) l.

Definition notnan (x : xr) : bool := negb (isnan x).

(** the entries that are not NaN *)
Definition valid (l : col) : col := filter notnan l.

(** [(~np.isnan(l)).sum()] *)
Definition count_valid (l : col) : nat := length (valid l).

(** [np.nansum]: NaN counts as 0 *)
Definition nansum (l : col) : xr := xsum (valid l).

(** [np.nanmean]: NaN (0/0) if nothing is left *)
Definition nanmean (l : col) : xr :=
  xdiv (nansum l) (Fin (INR (count_valid l))).

(** [np.nanmax] on a non-empty axis: NaN if everything is NaN *)
Definition nanmax (l : col) : xr := fold_right xfmax NaN l.

(** elementwise binary operation on arrays of equal length *)
Definition map2 {A B C} (f : A -> B -> C) (l : list A) (m : list B) : list C :=
  map (fun p => f (fst p) (snd p)) (combine l m).
