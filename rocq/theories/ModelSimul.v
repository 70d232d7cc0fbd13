(** * Model of pymultifracs/simul/: fbm.py, pzutils.py, mrw.py

    Arrays of shape (n, R) are lists of R columns.  Numbers are real (complex numbers are pairs of reals): no rounding.
    Random draws are arguments: the arrays [np.random.randn] returns. *)
From Coq Require Import Reals List ZArith Bool String.
From Verif Require Import XReal PyBase.
Import ListNotations.
Open Scope R_scope.
Local Notation length := List.length.

(** ** Complex numbers and numpy.fft *)
Definition C : Type := (R * R)%type.
Definition cadd (x y : C) : C := (fst x + fst y, snd x + snd y).
Definition cmul (x y : C) : C := (fst x * fst y - snd x * snd y, fst x * snd y + snd x * fst y).
Definition cscal (a : R) (x : C) : C := (a * fst x, a * snd x).
Definition cis (t : R) : C := (cos t, sin t).
Definition csum (l : list C) : C := fold_right cadd (0, 0) l.
Definition toC (a : R) : C := (a, 0).
(** np.sqrt of a complex number: principal branch (a zero imaginary part counts as +0.0) *)
Definition csqrt (z : C) : C :=
  let '(x, y) := z in
  let r := sqrt (x ^ 2 + y ^ 2) in
  (sqrt ((r + x) / 2), (if Rle_dec 0 y then 1 else -1) * sqrt ((r - x) / 2)).

(** the sum at frequency k; [sg] is -1 for fft, 1 for ifft *)
Definition dft_at (sg : R) (x : list C) (k : nat) : C :=
  csum (map (fun m => cmul (nth m x (0, 0)) (cis (sg * (2 * PI * INR k * INR m / INR (length x))))) (seq 0 (length x))).
(** [np.fft.fft] of one column: ValueError for no data *)
Definition fft (x : list C) : res (list C) :=
  match x with [] => Err ValueError | _ => Ok (map (dft_at (-1) x) (seq 0 (length x))) end.
(** [np.fft.ifft] *)
Definition ifft (x : list C) : res (list C) :=
  match x with [] => Err ValueError | _ => Ok (map (fun k => cscal (/ INR (length x)) (dft_at 1 x k)) (seq 0 (length x))) end.
(** product of two columns, with broadcasting of length-1 axes *)
Definition bcast_cmul (x y : list C) : res (list C) :=
  if Nat.eqb (length x) (length y) then Ok (map2 cmul x y)
  else match x, y with
       | [a], _ => Ok (map (cmul a) y)
       | _, [b] => Ok (map (fun a => cmul a b) x)
       | _, _ => Err ValueError
       end.

(** Python's and numpy's [a ** e] where it is a real number (a > 0, or a = 0 <= e, 0 ** 0 = 1) *)
Definition powR (a e : R) : R := match xpow (Fin a) e with Fin v => v | _ => 0 end.

(** results: 0-d, 1-d or 2-d (columns) *)
Inductive nd (A : Type) : Type := Arr0 (a : A) | Arr1 (c : list A) | Arr2 (cols : list (list A)).
Arguments Arr0 {A} _.
Arguments Arr1 {A} _.
Arguments Arr2 {A} _.
(** [x.squeeze()] of an array of shape (n, 1); for n = 1 and a given noise of several columns numpy also removes the first
    axis, which is not modelled *)
Definition squeeze {A} (cols : list (list A)) : nd A :=
  match cols with
  | [[a]] => Arr0 a
  | [c] => Arr1 c
  | _ => Arr2 cols
  end.
(** the [shape] argument: N or (N, R) *)
Inductive shape_arg := SInt (N : nat) | SPair (N R : nat).
Definition shape_N (s : shape_arg) : nat := match s with SInt n => n | SPair n _ => n end.
Definition shape_R (s : shape_arg) : nat := match s with SInt _ => 1%nat | SPair _ r => r end.
(** [fgn.squeeze() if do_squeeze else fgn] (fbm.py:74, mrw.py:72) *)
Definition out {A} (s : shape_arg) (cols : list (list A)) : nd A :=
  match s with SInt _ => squeeze cols | SPair _ _ => Arr2 cols end.

(** noise arrays: the complex ones used by cme and the real ones used by chol *)
Record noise := mkNoise { nz : list (list C); nx : list (list R) }.
(** [z if z is not None else randn(...)]; [drawn] are the arrays randn returns *)
Definition pick (z0 : option noise) (drawn : noise) : noise := match z0 with Some z => z | None => drawn end.

(** ** pzutils.py *)
(** :19 [np.concatenate((cov, np.flip(cov[1:-1])))] *)
Definition embed (cov : list R) : list R := cov ++ rev (removelast (tl cov)).

(** :12-36 [gaussian_cme(cov, N, R, z)] with z the noise given or drawn: the array and whether the warning was issued.
    Simplification: with N = 1 the code divides by 0; the drawn noise then has no row and the transform of no data
    raises ValueError; a given z is not modelled in this case (ValueError as well) *)
Definition gaussian_cme (cov : list R) (N : nat) (z : list (list C)) : res (list (list R) * bool) :=
  L <- fft (map toC (embed cov)) ;;                                                   (* :19-20 *)
  let warned := existsb (fun l => if Rlt_dec (fst l) 0 then true else false) L in     (* :21-23 *)
  let m := (2 * N - 2)%nat in
  if Nat.eqb m 0 then Err ValueError
  else
    let s := map (fun l => csqrt (cscal (/ INR m) l)) L in
    x <- mapM (fun c => p <- bcast_cmul c s ;; fft p) z ;;                            (* :31 *)
    Ok (map (fun c => firstn N (map fst c)) x, warned).                               (* :34 *)

(** matrices as functions of row and column *)
Definition mat := nat -> nat -> R.
(** [scipy.linalg.toeplitz(c)] *)
Definition toeplitz (c : list R) : mat := fun i j => nth (Nat.max i j - Nat.min i j) c 0.
(** [scipy.linalg.cholesky(a)] of a symmetric n x n matrix: the UPPER factor U (a = U^T U), computed row by row;
    LinAlgError when a pivot is not positive *)
Fixpoint cholesky (n : nat) (a : mat) : res mat :=
  match n with
  | O => Ok (fun _ _ => 0)
  | S n' =>
      if Rle_dec (a 0%nat 0%nat) 0 then Err LinAlgError
      else
        let d := sqrt (a 0%nat 0%nat) in
        u <- cholesky n' (fun i j => a (S i) (S j) - (a 0%nat (S i) / d) * (a 0%nat (S j) / d)) ;;
        Ok (fun i j => match i, j with
                       | O, O => d
                       | O, S j' => a 0%nat (S j') / d
                       | S _, O => 0
                       | S i', S j' => u i' j'
                       end)
  end.
(** [m @ z] for one column; ValueError when the sizes do not match *)
Definition matvec (n : nat) (m : mat) (z : list R) : res (list R) :=
  if Nat.eqb (length z) n
  then Ok (map (fun i => fold_right Rplus 0 (map (fun k => m i k * nth k z 0) (seq 0 n))) (seq 0 n))
  else Err ValueError.

(** :39-56 [gaussian_chol(cov, N, R, z)] with z the noise given or drawn *)
Definition gaussian_chol (cov : list R) (z : list (list R)) : res (list (list R)) :=
  u <- cholesky (length cov) (toeplitz cov) ;;
  mapM (matvec (length cov) u) z.

(** ** fbm.py *)
(** :47-49, the covariance r *)
Definition fgn_cov (N : nat) (H sigma dt : R) : list R :=
  map (fun n => powR dt (2 * H) * sigma ^ 2 / 2
                * (powR (Rabs (INR n + 1)) (2 * H) + powR (Rabs (INR n - 1)) (2 * H) - 2 * powR (Rabs (INR n)) (2 * H)))
      (seq 0 N).

(** :43-44 [if not dt: dt = 1 / N].  A negative dt (complex powers) is not modelled *)
Definition fgn_dt (dt : option R) (N : nat) : res R :=
  match dt with
  | Some d => if Req_EM_T d 0 then (if Nat.eqb N 0 then Err ZeroDivisionError else Ok (1 / INR N)) else Ok d
  | None => if Nat.eqb N 0 then Err ZeroDivisionError else Ok (1 / INR N)
  end.

(** :11-74 [fgn(shape, H, sigma, dt, method, z0)]: the columns, before the squeezing, and the warning flag.  With
    'cme' the argument z0 is not passed on (:68) *)
Definition fgn_cols (sh : shape_arg) (H sigma : R) (dt : option R) (method : string) (z0 : option noise) (drawn : noise)
  : res (list (list R) * bool) :=
  if negb (if Rle_dec 0 H then if Rle_dec H 1 then true else false else false) then Err ValueError    (* :40 *)
  else
    d <- fgn_dt dt (shape_N sh) ;;
    let r := fgn_cov (shape_N sh) H sigma d in
    if String.eqb method "cme" then gaussian_cme r (shape_N sh) (nz drawn)
    else if String.eqb method "chol" then x <- gaussian_chol r (nx (pick z0 drawn)) ;; Ok (x, false)
    else Err ValueError.
Definition fgn (sh : shape_arg) (H sigma : R) (dt : option R) (method : string) (z0 : option noise) (drawn : noise)
  : res (nd R * bool) :=
  '(x, w) <- fgn_cols sh H sigma dt method z0 drawn ;; Ok (out sh x, w).

(** [np.cumsum(x, axis=0)] of one column *)
Fixpoint cumsum_from (acc : R) (c : list R) : list R :=
  match c with [] => [] | a :: c' => (acc + a) :: cumsum_from (acc + a) c' end.
Definition cumsum (c : list R) : list R := cumsum_from 0 c.
Definition nd_cumsum (x : nd R) : nd R :=
  match x with Arr0 a => Arr1 [a] | Arr1 c => Arr1 (cumsum c) | Arr2 l => Arr2 (map cumsum l) end.
(** :77-78 [fbm] *)
Definition fbm (sh : shape_arg) (H sigma : R) (dt : option R) (method : string) (z0 : option noise) (drawn : noise)
  : res (nd R * bool) :=
  '(x, w) <- fgn sh H sigma dt method z0 drawn ;; Ok (nd_cumsum x, w).

(** ** mrw.py *)
(** :167-170: [rho = np.ones(N); rho[:kmax] = L / (k + 1) / dt], kmax = int(L / dt): an assignment of kmax values, which
    must be the length of the slice *)
Definition rho_w (N : nat) (L dt : R) : res (list R) :=
  if Req_EM_T dt 0 then Err ZeroDivisionError
  else
    let kmax := truncR (L / dt) in
    let k := Z.to_nat kmax in                      (* length of np.arange(kmax) *)
    let len := norm_index kmax N in                (* length of rho[:kmax] *)
    if Nat.eqb k len || Nat.eqb k 1
    then Ok (map (fun i => if Nat.ltb i len then L / (INR (if Nat.eqb k 1 then 0 else i) + 1) / dt else 1) (seq 0 N))
    else Err ValueError.

(** :163-177 [gaussian_w(N, R, L, lam, dt, method, z0)]; with another method the name w is not bound *)
Definition gaussian_w (N : nat) (L lam dt : R) (method : string) (z0 : option noise) (drawn : noise)
  : res (list (list R) * bool) :=
  rho <- rho_w N L dt ;;
  let cov := map (fun r => lam ^ 2 * ln r) rho in
  if String.eqb method "cme" then gaussian_cme cov N (nz (pick z0 drawn))
  else if String.eqb method "chol" then x <- gaussian_chol cov (nx (pick z0 drawn)) ;; Ok (x, false)
  else Err UnboundLocalError.

(** np.exp *)
Definition xexp (x : xr) : xr := match x with Fin a => Fin (exp a) | PInf => PInf | NInf => Fin 0 | NaN => NaN end.
Fixpoint xcumsum_from (acc : xr) (c : list xr) : list xr :=
  match c with [] => [] | a :: c' => xadd acc a :: xcumsum_from (xadd acc a) c' end.
Definition xcumsum (c : list xr) : list xr := xcumsum_from (Fin 0) c.

(** :63-64, :136-137: [w - np.mean(w, axis=0) - r * lam**2 * np.log(x)], one column *)
Definition centre_w (r lam x : R) (w : list R) : list xr :=
  let mu := fold_right Rplus 0 w / INR (length w) in
  map (fun v => xsub (Fin (v - mu)) (xmul (Fin (r * lam ^ 2)) (xln (Fin x)))) w.

(** :16-72 [mrw(shape, H, lam, L, sigma, method, z0)] with z0 = (z0e, z0w).  lam = None stands for NaN (see mrw_cumul):
    the covariance of w is then NaN, which scipy's cholesky rejects, and with 'cme' every sample is NaN *)
Definition mrw (sh : shape_arg) (H : R) (lam : option R) (L sigma : R) (method : string)
  (z0e z0w : option noise) (drawn_w drawn_e : noise) : res (nd xr) :=
  let N := shape_N sh in
  if negb (if Rle_dec 0 H then if Rle_dec H 1 then true else false else false) then Err ValueError    (* :53 *)
  else if Rlt_dec (INR N) L then Err ValueError                                                         (* :56 *)
  else
    '(w, _) <- match lam with                                                                           (* :60 *)
               | Some l => gaussian_w N L l 1 method z0w drawn_w
               | None => if String.eqb method "chol" then (_ <- rho_w N L 1 ;; Err ValueError)
                         else gaussian_w N L 0 1 method z0w drawn_w
               end ;;
    let w' := match lam with
              | Some l => map (centre_w (1 / 2) l L) w                                                  (* :63-64 *)
              | None => map (map (fun _ => NaN)) w
              end in
    '(e, _) <- fgn_cols (SPair N (shape_R sh)) H sigma None method z0e drawn_e ;;                       (* :67 *)
    Ok (out sh (map2 (fun ec wc => xcumsum (map2 (fun a b => xmul (Fin a) (xexp b)) ec wc)) e w')).     (* :70-72 *)

(** :75-108 [mrw_cumul(shape, c1, c2, L, ...)]: [np.sqrt(-c2)] is NaN for c2 > 0 *)
Definition mrw_cumul (sh : shape_arg) (c1 c2 L sigma : R) (method : string)
  (z0e z0w : option noise) (drawn_w drawn_e : noise) : res (nd xr) :=
  mrw sh (c1 + c2) (if Rle_dec 0 (- c2) then Some (sqrt (- c2)) else None) L sigma method z0e z0w drawn_w drawn_e.

(** :180-193 [skewness_convolution(e, K0, alpha, beta, dt)].  [e] has at least one column; dt > 0 *)
Definition kbar (N : nat) (K0 alpha beta dt : R) : list R :=
  map (fun t => if Nat.eqb t 0 then 0 else if Nat.leb t N then K0 / powR (INR t) alpha / powR dt beta else 0) (seq 0 (2 * N)).
Definition skew_col (N : nat) (K0 alpha beta dt : R) (c : list R) : res (list R) :=
  fk <- fft (map toC (kbar N K0 alpha beta dt)) ;;
  fe <- fft (map toC c) ;;
  p <- bcast_cmul fk fe ;;
  y <- ifft p ;;
  Ok (skipn N (map fst y)).
Definition skewness_convolution (e : list (list R)) (K0 alpha beta dt : R) : res (list (list R)) :=
  mapM (skew_col (length (hd [] e) / 2) K0 alpha beta dt) e.

(** :196-213 [skewness_convolution_dumb], one column: the two loops *)
Definition dumb_col (K0 alpha beta dt : R) (c : list R) : list R :=
  map (fun k => fold_left (fun acc i => acc + K0 / powR (INR (k - i)) alpha / powR dt beta * nth i c 0) (seq 0 k) 0)
      (seq 0 (length c)).
Definition skewness_convolution_dumb (e : list (list R)) (K0 alpha beta dt : R) : list (list R) :=
  map (dumb_col K0 alpha beta dt) e.

(** :111-160 [skewed_mrw(shape, H, lam, L, K0, alpha, sigma, dt, beta, do_mirror)]: the pair (smrw, smrw_mirror) *)
Definition xbcast_sub (x y : list xr) : res (list xr) :=
  if Nat.eqb (length x) (length y) then Ok (map2 xsub x y)
  else match x, y with
       | [a], _ => Ok (map (xsub a) y)
       | _, [b] => Ok (map (fun a => xsub a b) x)
       | _, _ => Err ValueError
       end.
Definition skewed_half (sign : R) (N : nat) (w : list (list xr)) (e : list (list R)) (K0 alpha beta dt : R) : res (list (list xr)) :=
  past <- skewness_convolution (map (map (Rmult sign)) e) K0 alpha beta dt ;;
  mapM (fun t =>
    wt <- xbcast_sub (fst (fst t)) (map Fin (snd t)) ;;                                   (* :144, :154 *)
    p <- bcast_mul (map Fin (map (Rmult sign) (skipn N (snd (fst t))))) (map xexp wt) ;;  (* :147, :155 *)
    Ok (xcumsum p)) (combine (combine w e) past).
Definition skewed_mrw (sh : shape_arg) (H lam L K0 alpha sigma dt beta : R) (do_mirror : bool) (drawn_w drawn_e : noise)
  : res (nd xr * option (nd xr)) :=
  let N := shape_N sh in
  if negb (if Rle_dec 0 H then if Rle_dec H 1 then true else false else false) then Err ValueError    (* :126 *)
  else if Req_EM_T dt 0 then Err ZeroDivisionError                                                     (* :129 *)
  else if Rlt_dec (INR N) (L / dt) then Err ValueError                                                 (* :129 *)
  else
    '(w, _) <- gaussian_w N L lam dt "cme" None drawn_w ;;                                             (* :133 *)
    let w' := map (centre_w 1 lam (L / dt)) w in                                                       (* :136-137 *)
    '(e, _) <- fgn_cols (SPair (2 * N + 1) (shape_R sh)) H sigma (Some dt) "cme" None drawn_e ;;       (* :140 *)
    s <- skewed_half 1 N w' e K0 alpha beta dt ;;                                                      (* :143-150 *)
    if do_mirror
    then m <- skewed_half (-1) N w' e K0 alpha beta dt ;; Ok (out sh s, Some (out sh m))               (* :153-158 *)
    else Ok (out sh s, None).
