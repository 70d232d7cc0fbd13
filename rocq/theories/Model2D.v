(** * Model of pymultifracs/simul/mrw.py:213-291: mrw2D, fract_int_2d

    An array of shape (n, m, R) is its three dimensions and its entries, a function of the indices (only indices below the dimensions
    matter).  Random draws are arguments. *)
From Coq Require Import Reals List ZArith Bool.
From Verif Require Import XReal PyBase ModelSimul ModelPlot.
Import ListNotations.
Open Scope R_scope.

(** a 2-D array of complex numbers, by its entries *)
Definition field := nat -> nat -> C.
(** the sum at frequencies (k1, k2) over an N x M array; [sg] is -1 for fft2, 1 for ifft2 *)
Definition dft2 (sg : R) (N M : nat) (x : field) : field := fun k1 k2 =>
  csum (map (fun p => cmul (x (fst p) (snd p)) (cis (sg * (2 * PI * (INR (k1 * fst p) / INR N + INR (k2 * snd p) / INR M)))))
            (list_prod (seq 0 N) (seq 0 M))).
(** [np.fft.fft2], [np.fft.ifft2] of a non-empty array *)
Definition fft2 (N M : nat) (x : field) : field := dft2 (-1) N M x.
Definition ifft2 (N M : nat) (x : field) : field := fun a b => cscal (/ (INR N * INR M)) (dft2 1 N M x a b).
(** [np.fft.fftshift], [np.fft.ifftshift] over both axes: np.roll by n // 2 and by -(n // 2) *)
Definition fftshift (N M : nat) (x : field) : field := fun i j => x ((i + (N - N / 2)) mod N)%nat ((j + (M - M / 2)) mod M)%nat.
Definition ifftshift (N M : nat) (x : field) : field := fun i j => x ((i + N / 2) mod N)%nat ((j + M / 2) mod M)%nat.

(** arrays of real numbers with 2 or 3 axes *)
Inductive nd3 := A2 (n m : nat) (x : nat -> nat -> R) | A3 (n m r : nat) (x : nat -> nat -> nat -> R).

(** mrw.py:281-283: the distances d, from k = np.arange(-N/2, N/2) *)
Definition wavenumber (N i : nat) : R := INR i - INR N / 2.
Definition radius (N i j : nat) : R := sqrt (wavenumber N i ^ 2 + wavenumber N j ^ 2).
(** mrw.py:284-286: the filter; np.min of an empty array is a ValueError *)
Definition fract_filter (N : nat) (alpha : R) : res (nat -> nat -> R) :=
  mini <- list_min (filter (fun d => if Req_EM_T d 0 then false else true)
                           (map (fun p => radius N (fst p) (snd p)) (list_prod (seq 0 N) (seq 0 N)))) ;;
  Ok (fun i j => let d := radius N i j in / powR (if Req_EM_T d 0 then mini else d) alpha).
(** mrw.py:288-290 on one N x M realisation *)
Definition fract_apply (N M : nat) (filt : nat -> nat -> R) (x : nat -> nat -> R) : nat -> nat -> R :=
  let yhat := fftshift N M (fft2 N M (fun i j => toC (x i j))) in                          (* :288 *)
  let yhat := fun i j => cscal (filt i j) (yhat i j) in                                    (* :289 *)
  fun a b => fst (ifft2 N M (ifftshift N M yhat) a b).                                     (* :290 *)
(** mrw.py:274-291 [fract_int_2d(x, alpha)].  yhat has the shape of x and is multiplied in place by an (N, N, 1) array: for N = 1 the
    single entry is broadcast; otherwise a 2-D x, and a second axis which is not N, raise ValueError.  (fft2 of an array without
    entries is a ValueError too.) *)
Definition fract_int_2d (x : nd3) (alpha : R) : res nd3 :=
  match x with
  | A2 n _ _ => _ <- fract_filter n alpha ;; Err ValueError
  | A3 n m r f =>
      filt <- fract_filter n alpha ;;
      if Nat.eqb n m then Ok (A3 n n r (fun a b k => fract_apply n n filt (fun i j => f i j k) a b))
      else if Nat.eqb n 1 && negb (Nat.eqb m 0) then Ok (A3 1 m r (fun a b k => fract_apply 1 m (fun _ _ => filt 0%nat 0%nat) (fun i j => f i j k) a b))
      else Err ValueError
  end.

(** mrw.py:255-258: the correlations of the log-volatility *)
Definition corr2d (N : nat) (lam L : R) (i j : nat) : R := lam ^ 2 * ln (Rmax (L / (1 + radius N i j)) 1).
(** mrw.py:260-263: the log-volatility of one realisation, from its complex noise *)
Definition log_vol2d (N : nat) (lam L : R) (z : field) : nat -> nat -> R :=
  let Lh := fft2 N N (fun i j => toC (corr2d N lam L i j)) in
  fun a b => fst (ifft2 N N (fun i j => cmul (z i j) (csqrt (Lh i j))) a b).
(** mrw.py:213-271 [mrw2D(shape, H, lam, L, sigma)].  z1 and x0 are the draws.  The size is rounded up to an even number; fft2 of an empty
    array is a ValueError *)
Definition mrw2D (sh : shape_arg) (H lam L sigma : R) (z1 : nat -> nat -> nat -> C) (x0 : nat -> nat -> nat -> R) : res (nd3 * nd3) :=
  let N := (2 * ((shape_N sh + 1) / 2))%nat in                                             (* :251 *)
  if Nat.eqb N 0 then Err ValueError                                                       (* :260 *)
  else
    let X := A3 N N (shape_R sh) (fun a b r => x0 a b r * exp (log_vol2d N lam L (fun i j => z1 i j r) a b)) in   (* :263-266 *)
    BX <- fract_int_2d X (H + 1) ;;                                                        (* :269 *)
    Ok (BX, X).
