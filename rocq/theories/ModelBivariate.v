(** * Model of pymultifracs/bivariate/ *)
From Coq Require Import Reals List ZArith Bool String Ascii.
From Verif Require Import XReal PyBase ModelUtils ModelMRQ ModelStructure ModelCumulants ModelWavelet ModelMFA.
Import ListNotations.
Local Notation length := List.length.
Open Scope R_scope.

(** [bool(v == w)] for two arrays of counts: defined for one element, False for none (or for shapes that do not
    broadcast), ValueError for several *)
Definition counts_eq (v w : list nat) : res bool :=
  match v, w with
  | [a], [b] => Ok (Nat.eqb a b)
  | [], _ => Ok false
  | _, [] => Ok false
  | [_], _ => Err ValueError
  | _, [_] => Err ValueError
  | _, _ => if Nat.eqb (length v) (length w) then Err ValueError else Ok false
  end.
(** the loop of dict comparison over the entries of the first dict *)
Fixpoint nj_loop (a b : dict (list nat)) : res bool :=
  match a with
  | [] => Ok true
  | (k, v) :: a' =>
      match dict_get b k with
      | None => Ok false
      | Some w => t <- counts_eq v w ;; if t then nj_loop a' b else Ok false
      end
  end.
(** [mrq1.nj == mrq2.nj] (bivariate_cumulants.py:40, bivariate_structurefunction.py:43): same number of entries, and
    every entry of the first equal to the one of the second.  The two quantities hold different array objects (for
    identical objects Python skips the comparison). *)
Definition nj_equal (a b : dict (list nat)) : res bool :=
  if Nat.eqb (length a) (length b) then nj_loop a b else Ok false.

Definition formalism_eqb (a b : formalism) : bool :=
  match a, b with
  | WaveletCoef, WaveletCoef | WaveletLeader, WaveletLeader | WaveletPLeader, WaveletPLeader => true
  | _, _ => false
  end.
Definition assert_ (b : bool) : res unit := if b then Ok tt else Err AssertionError.

(** all the entries of an array (the means are over the whole array) *)
Definition flat (a : arr) : col := List.concat a.

(** the two arrays stored at scale j *)
Definition both (m1 m2 : mrq) (j : Z) : res (col * col) :=
  a <- dict_getitem (mq_values m1) j ;; b <- dict_getitem (mq_values m2) j ;; Ok (flat a, flat b).

(** np.nanmean(f * g) *)
Definition mean_prod (f g : col) : res xr := p <- bcast_mul f g ;; Ok (nanmean p).

(** the regressions of bivariate_cumulants.py:109-132 and bivariate_structurefunction.py:78-97, for one cell:
    (slope, intercept) *)
Definition bi_fit (weighted : bool) (nj : dict (list nat)) (j1 j2 : Z) (v : col) : res (xr * xr) :=
  W <- reg_weights weighted nj 1 j1 j2 ;;
  l <- regress_cols weighted j1 j2 W [v] ;;
  match l with t :: _ => Ok (fst t) | [] => Err ValueError end.

(** ** bivariate_cumulants.py *)
Record bicumulants := mkBiCum {
  bc_formalism : formalism;
  bc_nj : dict (list nat);
  bc_j : list Z;
  bc_n_cumul : nat;
  bc_values : list (list col);        (* [m1][m2][scale], m1, m2 = 0 .. n_cumul *)
  bc_log_cumulants : list (list xr);  (* [m1][m2] *)
  bc_slope : list (list xr);
  bc_intercept : list (list xr);
  bc_RHO : option (list xr);          (* [scale] *)
  bc_rho : option xr }.

(** :59-70: the moments at one scale, for the logarithms x, y of the absolute values.  m1, m2 are np.int64.
    Simplification: the product is formed by bcast_mul, whose error is raised once for the scale *)
Definition bi_moment (x y : col) (m1 m2 : nat) : xr :=
  match mean_prod (fast_power x (PyFloat (INR m1))) (fast_power y (PyFloat (INR m2))) with
  | Ok v => v
  | Err _ => NaN
  end.

(** :72-102: [self.values[m1, m2, ind_j]].  The entries of a row or column through the origin follow the recursion of
    Cumulants (cumulants.py:104-118), the array is zero where nothing is assigned *)
Definition bi_value (mom : nat -> nat -> xr) (m1 m2 : nat) : xr :=
  let v0 k := nth (k - 1) (cum_list (fun i => mom 0%nat i) k) NaN in
  let v1 k := nth (k - 1) (cum_list (fun i => mom i 0%nat) k) NaN in
  match m1, m2 with
  | 1%nat, 1%nat => xsub (mom 1%nat 1%nat) (xmul (v1 1%nat) (v0 1%nat))        (* :72-78 *)
  | O, O => Fin 0
  | O, k => v0 k                                                              (* :80-92 *)
  | k, O => v1 k                                                              (* :80-102 *)
  | _, _ => Fin 0
  end.

(** :57-63 for one scale; the shapes are checked once *)
Definition bi_scale (m1 m2 : mrq) (j : Z) : res (nat -> nat -> xr) :=
  '(a, b) <- both m1 m2 j ;;
  let x := map xln (map xabs a) in
  let y := map xln (map xabs b) in
  _ <- bcast_mul x y ;;
  Ok (bi_value (bi_moment x y)).

(** :134-141 [_compute_rho].  C11, C02, C20 are selections of rows, empty when the order was not computed *)
Definition bi_rho (f : formalism) (n : nat) (values : list (list col)) (lc : list (list xr)) : res (option (list xr) * option xr) :=
  match f with
  | WaveletCoef => Ok (None, None)
  | _ =>
      if Nat.ltb n 2 then Err IndexError
      else
        let V a b := nth b (nth a values []) [] in
        let c a b := nth b (nth a lc []) NaN in
        let den := map (fun v => xabs (xsqrt v)) (map2 xmul (V 0 2)%nat (V 2 0)%nat) in
        Ok (Some (map2 xdiv (V 1 1)%nat den),
            Some (xdiv (xopp (c 1 1)%nat) (xabs (xsqrt (xmul (c 0 2)%nat (c 2 0)%nat)))))
  end.

(** :33-48 [BiCumulants(mrq1, mrq2, n_cumul, j1, j2, weighted)] *)
Definition BiCumulants (m1 m2 : mrq) (n_cumul : nat) (j1 j2 : Z) (weighted : bool) : res bicumulants :=
  _ <- assert_ (formalism_eqb (mq_formalism m1) (mq_formalism m2)) ;;      (* :37 *)
  e <- nj_equal (mq_nj m1) (mq_nj m2) ;;
  _ <- assert_ e ;;                                                        (* :40 *)
  let js := dict_keys (mq_values m1) in                                    (* :42 *)
  let orders := seq 0 (n_cumul + 1) in                                     (* :44 *)
  tables <- mapM (bi_scale m1 m2) js ;;                                    (* :46, :50-102 *)
  let values := map (fun a => map (fun b => map (fun t => t a b) tables) orders) orders in
  fits <- mapM (fun row => mapM (bi_fit weighted (mq_nj m1) j1 j2) row) values ;;   (* :47 *)
  let slope := map (map fst) fits in
  let lc := map (map (fun s => xmul s (Fin log2_e))) slope in              (* :130 *)
  '(RHO, rho) <- bi_rho (mq_formalism m1) n_cumul values lc ;;             (* :48 *)
  Ok (mkBiCum (mq_formalism m1) (mq_nj m1) js n_cumul values lc slope (map (map snd) fits) RHO rho).

(** :199-209 [__getattr__] for c<a><b> and C<a><b> with one-digit orders: the rows selected by two masks.  An order
    above n_cumul selects nothing *)
Definition bc_c (b : bicumulants) (a k : nat) : list xr :=
  if Nat.leb a (bc_n_cumul b) && Nat.leb k (bc_n_cumul b) then [nth k (nth a (bc_log_cumulants b) []) NaN] else [].
Definition bc_C (b : bicumulants) (a k : nat) : list col :=
  if Nat.leb a (bc_n_cumul b) && Nat.leb k (bc_n_cumul b) then [nth k (nth a (bc_values b) []) []] else [].

(** :199-209 [__getattr__] on an ASCII name (Python calls it for names that are not attributes of the object) *)
Inductive bi_attr :=
| BLog (rows : list xr)              (* selection of log_cumulants *)
| BVal (rows : list col).            (* selection of values *)
Definition bc_getattr (b : bicumulants) (name : string) : res bi_attr :=
  match name with
  | String k (String u (String v EmptyString)) =>
      if Ascii.eqb k "c"%char && (is_digit u && is_digit v) then Ok (BLog (bc_c b (digit_val u) (digit_val v)))       (* :201-203 *)
      else if Ascii.eqb k "C"%char && (is_digit u && is_digit v) then Ok (BVal (bc_C b (digit_val u) (digit_val v)))  (* :205-207 *)
      else Err AttributeError                                                                                  (* :209 *)
  | EmptyString => Err IndexError                                                                              (* name[0] *)
  | _ => Err AttributeError
  end.

(** :211-229 [compute_legendre]: the entry (h1, h2) of L.  The additions are written in one order.  With n_cumul < 2
    the cumulants are empty arrays and nothing can be added to a row of L: ValueError *)
Definition legendre_entry (c10 c01 c20 c02 c11 : xr) (h1 h2 : R) : xr :=
  let b := xsub (xmul c20 c02) (xmul c11 c11) in                              (* :215 *)
  let u := xdiv (xsub (Fin h1) c10) b in
  let v := xdiv (xsub (Fin h2) c01) b in
  let half x := xdiv (xmul x b) (Fin 2) in
  xsub (xadd (xadd (Fin 1) (xmul (half c02) (xmul u u)))                      (* :220 *)
             (xmul (half c20) (xmul v v)))                                    (* :221 *)
       (xmul (xmul (xmul c11 b) u) v).                                        (* :225-227 *)
Definition compute_legendre (b : bicumulants) (lo hi : R) (resolution : nat) : res (list R * list (list xr)) :=
  let h := linspace lo hi resolution in
  match bc_c b 1 0, bc_c b 0 1, bc_c b 2 0, bc_c b 0 2, bc_c b 1 1 with
  | [c10], [c01], [c20], [c02], [c11] =>
      Ok (h, map (fun h1 => map (legendre_entry c10 c01 c20 c02 c11 h1) h) h)
  | _, _, _, _, _ => match resolution with O => Ok (h, []) | _ => Err ValueError end
  end.

(** ** bivariate_structurefunction.py *)
Record bistructure := mkBiSF {
  bs_formalism : formalism;
  bs_gamint : R;
  bs_nj : dict (list nat);
  bs_j : list Z;
  bs_logvalues : list (list col);     (* [q1][q2][scale] *)
  bs_zeta : list (list xr);           (* [q1][q2] *)
  bs_intercept : list (list xr);
  bs_coherence : list xr              (* [scale] *) }.

(** positions of the entries equal to v *)
Definition positions (v : R) (q : list R) : list nat :=
  filter (fun i => if Req_EM_T (nth i q 0) v then true else false) (seq 0 (length q)).
(** [table[q1 == a, q2 == b]]: the two lists of positions broadcast together *)
Definition select2 {A} (d : A) (q1 q2 : list R) (a b : R) (table : list (list A)) : res (list A) :=
  let at_ i k := nth k (nth i table []) d in
  match positions a q1, positions b q2 with
  | [i], l => Ok (map (fun k => at_ i k) l)
  | l, [k] => Ok (map (fun i => at_ i k) l)
  | l, l' => if Nat.eqb (length l) (length l') then Ok (map2 at_ l l') else Err IndexError
  end.
Definition first_row {A} (l : list A) : res A := match l with a :: _ => Ok a | [] => Err IndexError end.
(** product of arrays of shapes (k, n) and (k', n), then its first row (:69-70): the rows broadcast *)
Definition first_product (a b : list col) : res col :=
  if Nat.eqb (length a) (length b) || Nat.eqb (length a) 1 || Nat.eqb (length b) 1
  then x <- first_row a ;; y <- first_row b ;; Ok (map2 xmul x y)
  else Err ValueError.

(** :68-70; with a list [self.q1 == 1] is the scalar False and selects nothing *)
Definition bi_coherence (q1 q2 : qarg) (values : list (list col)) : res col :=
  match q1, q2 with
  | QArr a, QArr b =>
      r11 <- select2 [] a b 1 1 values ;;
      v11 <- first_row r11 ;;
      v20 <- select2 [] a b 2 0 values ;;
      v02 <- select2 [] a b 0 2 values ;;
      d <- first_product v20 v02 ;;
      Ok (map2 (fun n t => xdiv n (xsqrt t)) v11 d)
  | _, _ => Err IndexError
  end.

(** :33-97 [BiStructureFunction(mrq1, mrq2, j1, j2, q1, q2, weighted)] *)
Definition BiStructureFunction (m1 m2 : mrq) (j1 j2 : Z) (q1 q2 : option qarg) (weighted : bool) : res bistructure :=
  _ <- assert_ (formalism_eqb (mq_formalism m1) (mq_formalism m2)) ;;               (* :37 *)
  _ <- assert_ (if Req_EM_T (mq_gamint m1) (mq_gamint m2) then true else false) ;;  (* :40 *)
  e <- nj_equal (mq_nj m1) (mq_nj m2) ;;
  _ <- assert_ e ;;                                                                 (* :43 *)
  let js := dict_keys (mq_values m1) in                                             (* :45 *)
  match q1, q2 with
  | Some q1, Some q2 =>
      let table f := mapM (fun a => mapM (fun b => mapM (fun j =>
                       '(x, y) <- both m1 m2 j ;; mean_prod (fast_power (map f x) a) (fast_power (map f y) b)) js)
                       (q_items q2)) (q_items q1) in
      values <- table (fun x => x) ;;                                               (* :59-61 *)
      abs_values <- table xabs ;;                                                   (* :64-66 *)
      coh <- bi_coherence q1 q2 values ;;                                           (* :68-70 *)
      let lv := map (map (map xlog2)) abs_values in                                 (* :72 *)
      fits <- mapM (fun row => mapM (bi_fit weighted (mq_nj m1) j1 j2) row) lv ;;   (* :74-97 *)
      Ok (mkBiSF (mq_formalism m1) (mq_gamint m1) (mq_nj m1) js lv
                 (map (map fst) fits) (map (map snd) fits) coh)
  | _, _ => Err TypeError                                                           (* len(None), :52 *)
  end.

(** ** bimfa.py *)
Record bimf := mkBiMF { bm_structure : bistructure; bm_cumulants : bicumulants }.

(** bimfa.py:11-41 [bivariate_analysis].  The name [lwt] is only bound when both transforms have leaders *)
Definition bi_formalism (a b : mrq) (j1 j2 : Z) (weighted : bool) (n_cumul : nat) (q1 q2 : option qarg) : res bimf :=
  c <- BiCumulants a b n_cumul j1 j2 weighted ;;                          (* :26, :36 *)
  s <- BiStructureFunction a b j1 j2 q1 q2 weighted ;;                    (* :27, :37 *)
  Ok (mkBiMF s c).
Definition bivariate_analysis (W1 W2 : wtransform) (j1 : Z) (weighted : bool) (n_cumul : nat) (q1 q2 : option qarg)
  : res (bimf * option bimf) :=
  let j2 := Z.min (j2_eff W1) (j2_eff W2) in                              (* :13 *)
  dwt <- bi_formalism (wt_coefs W1) (wt_coefs W2) j1 j2 weighted n_cumul q1 q2 ;;
  match wt_leaders W1, wt_leaders W2 with
  | Some l1, Some l2 =>
      lwt <- bi_formalism l1 l2 j1 j2 weighted n_cumul q1 q2 ;; Ok (dwt, Some lwt)
  | _, _ => Err UnboundLocalError                                         (* :41 *)
  end.

(** bimfa.py:44-61 [bivariate_analysis_full] *)
Definition bivariate_analysis_full (s1 s2 : arr) (w : wavelet) (j1 : Z) (j2 : option R) (norm gamint : R) (weighted : bool)
  (p : pexp) (q1 q2 : option qarg) (n_cumul : nat) : res (bimf * option bimf) :=
  '(W1, _) <- wavelet_analysis s1 p w j1 j2 gamint norm weighted ;;
  '(W2, _) <- wavelet_analysis s2 p w j1 j2 gamint norm weighted ;;
  bivariate_analysis W1 W2 j1 weighted n_cumul q1 q2.
