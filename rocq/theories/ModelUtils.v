(** * Model of pymultifracs/utils.py *)
From Coq Require Import Reals List ZArith Bool.
From Verif Require Import XReal PyBase.
Import ListNotations.
Open Scope R_scope.

(** utils.py:13-14 [scale2freq].  [2 ** -scale] with a float scale.
    Simplification: finite real arguments (a numpy *integer array* of scales
    would raise in [2 ** -scale]; the function is only called on floats and
    python ints). *)
Definition scale2freq (scale sfreq : R) : R :=
  (3 / 4) * sfreq * Rpower 2 (- scale).

(** utils.py:17-18 [freq2scale] *)
Definition freq2scale (freq sfreq : R) : R :=
  - 2 - log2R (freq / (3 * sfreq)).

(** utils.py:21-23 [fband2scale].  Positive frequencies assumed by the
    caller ([log2] of a non-positive number is NaN and [int(nan)] raises). *)
Definition fband2scale (fband : R * R) (sfreq : R) : Z * Z :=
  (ceilR (freq2scale (snd fband) sfreq), floorR (freq2scale (fst fband) sfreq)).

(** the loop of utils.py:53-58: [array_out = ones; array_out *= array] n times *)
Fixpoint mul_loop (n : nat) (acc x : xr) : xr :=
  match n with
  | O => acc
  | S n' => mul_loop n' (xmul acc x) x
  end.

(** utils.py:26-60 [fast_power], on one column *)
Definition fast_power (a : col) (e : pynum) : col :=
  let v := num_val e in
  if Req_EM_T v 1 then a                                    (* :31-32 *)
  else if Req_EM_T v 2 then map (fun x => xmul x x) a       (* :34-36 *)
  else if Req_EM_T v (1/2) then map xsqrt a                 (* :38-39 *)
  else if Req_EM_T v 0 then                                 (* :41-46 *)
    map (fun x => if isnan x then NaN else xpow x v) a
  else if Req_EM_T v (-1) then map (fun x => xpow x v) a    (* :48-49 *)
  else match e with                                         (* :51-58 *)
       | PyInt z =>
           if ((0 <? z) && (z <=? 10))%Z
           then map (fun x => mul_loop (Z.to_nat z) (Fin 1) x) a
           else map (fun x => xpow x v) a
       | PyFloat _ => map (fun x => xpow x v) a             (* :60 *)
       end.

(** utils.py:70-108 [linear_regression], for one column (one realisation).
    Returns (a, b, var_a); the flag [return_variance] only selects whether
    var_a is handed out.  [y] may broadcast against the weights as numpy does. *)
Definition linear_regression (x y nj : col) : res (xr * xr * xr) :=
  if negb (Nat.eqb (length nj) (length x)) then Err AssertionError  (* :91 *)
  else
    let V_0 := xsum nj in                                           (* :93 *)
    let V_1 := xsum (map2 xmul nj x) in                             (* :94 *)
    let V_2 := xsum (map2 (fun n t => xmul n (xmul t t)) nj x) in   (* :95 *)
    let den := xsub (xmul V_0 V_2) (xmul V_1 V_1) in
    let weights_slope :=                                            (* :97 *)
      map2 (fun n t => xdiv (xmul n (xsub (xmul V_0 t) V_1)) den) nj x in
    let weights_intercept :=                                        (* :98 *)
      map2 (fun n t => xdiv (xmul n (xsub V_2 (xmul V_1 t))) den) nj x in
    wa <- bcast_mul weights_slope y ;;                              (* :100 *)
    wb <- bcast_mul weights_intercept y ;;                          (* :101 *)
    let var_a :=                                                    (* :103 *)
      xsum (map2 (fun n w => xmul (xmul (xdiv (Fin 1) n) w) w)
                 nj weights_slope) in
    Ok (xsum wa, xsum wb, var_a).

(** [np.linspace(a, b, n)] for n >= 1: n points from a to b *)
Definition linspace (a b : R) (n : nat) : list R :=
  map (fun i => match n with
                | 1%nat => a
                | _ => a + INR i * ((b - a) / INR (n - 1))
                end) (seq 0 n).

Definition log10R (r : R) : R := ln r / ln 10.

(** [np.logspace(a, b, n)] = 10 ** linspace(a, b, n) *)
Definition logspace (a b : R) (n : nat) : list R :=
  map (fun t => Rpower 10 t) (linspace a b n).

(** [np.sort] on reals (insertion sort: the result of any sorting) *)
Fixpoint insertR (x : R) (l : list R) : list R :=
  match l with
  | [] => [x]
  | y :: l' => if Rle_dec x y then x :: l else y :: insertR x l'
  end.
Definition sortR (l : list R) : list R := fold_right insertR [] l.

(** [np.unique]: sort, then drop repeated neighbours *)
Fixpoint dedupR (l : list R) : list R :=
  match l with
  | [] => []
  | x :: l' =>
      match dedupR l' with
      | [] => [x]
      | y :: t => if Req_EM_T x y then y :: t else x :: y :: t
      end
  end.
Definition uniqueR (l : list R) : list R := dedupR (sortR l).

(** utils.py:111-138 [build_q_log] with n >= 0 *)
Definition build_q_log (q_min q_max : R) (n : nat) : res (list R) :=
  if Rle_dec q_min 0 then Err ValueError                           (* :131-132 *)
  else if Rle_dec q_max 0 then Err ValueError
  else
    let q := logspace (log10R q_min) (log10R q_max) n in           (* :134 *)
    let q := q ++ [0; 1; 2] in                                     (* :135 *)
    Ok (uniqueR (sortR (q ++ map Ropp q))).                        (* :136 *)

(** utils.py:141-145 [fixednansum], on one slice of the reduced axis *)
Definition fixednansum (a : col) : xr :=
  if forallb isnan a then NaN else nansum a.

(** utils.py:148-152 [fixednanmax] (non-empty axis) *)
Definition fixednanmax (a : col) : xr := nanmax a.
