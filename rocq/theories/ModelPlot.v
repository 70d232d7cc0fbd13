(** * Model of the plotting methods: what is drawn, and where

    cumulants.py:168-233, structurefunction.py:136-210, bivariate_cumulants.py:143-197, :231-311,
    bivariate_structurefunction.py:99-137, psd.py:25-74, :99-173.

    A figure is the list of its panels (position in the grid, curves).  Colours, fonts, titles and files are not modelled.
    Calls of matplotlib are assumed to follow its documentation for the grids, and not to fail. *)
From Coq Require Import Reals List ZArith Bool String.
From Verif Require Import XReal PyBase ModelUtils ModelMRQ ModelStructure ModelCumulants ModelBivariate ModelPSD.
Import ListNotations.
Open Scope R_scope.
Local Notation length := List.length.

(** a curve and the number printed in its label, if any *)
Record line := mkLine { ln_x : list xr; ln_y : list xr; ln_label : option xr }.
Definition panel : Type := ((nat * nat) * list line)%type.
Definition figure : Type := list panel.

(** [plt.subplots(a, b, squeeze=False)]: a x b empty panels; ValueError unless both are positive *)
Definition subplots (a b : nat) : res figure :=
  if Nat.eqb a 0 || Nat.eqb b 0 then Err ValueError
  else Ok (map (fun p => (p, [])) (list_prod (seq 0 a) (seq 0 b))).
Definition pos_eqb (p q : nat * nat) : bool := Nat.eqb (fst p) (fst q) && Nat.eqb (snd p) (snd q).
(** [ax.plot(...)] on the panel at p *)
Definition draw (p : nat * nat) (l : line) (f : figure) : figure :=
  map (fun q => if pos_eqb (fst q) p then (fst q, snd q ++ [l]) else q) f.
(** [fig.delaxes(...)] of the panel at p *)
Definition delaxes (p : nat * nat) (f : figure) : figure := filter (fun q => negb (pos_eqb (fst q) p)) f.
(** [axes[i % nrow][i // nrow]] in an a x b grid: IndexError outside *)
Definition panel_at (nrow a b i : nat) : res (nat * nat) :=
  if Nat.eqb nrow 0 then Err ZeroDivisionError
  else if Nat.ltb (i mod nrow) a && Nat.ltb (i / nrow) b then Ok ((i mod nrow)%nat, (i / nrow)%nat) else Err IndexError.
Fixpoint foldM {A B} (f : A -> B -> res A) (l : list B) (a : A) : res A :=
  match l with [] => Ok a | b :: l' => a' <- f a b ;; foldM f l' a' end.

(** int(np.ceil(n / k)) for k > 0 *)
Definition ceil_div (n k : nat) : nat := ((n + k - 1) / k)%nat.
(** cumulants.py:176-184, structurefunction.py:142-151: the dimensions of the grid *)
Definition grid_dims (n nrow : nat) : res (nat * nat) :=
  if Nat.ltb 1 n then (if Nat.eqb nrow 0 then Err ZeroDivisionError else Ok (nrow, ceil_div n nrow)) else Ok (1%nat, 1%nat).

Definition scales (j : list Z) : list xr := map (fun z => Fin (IZR z)) j.
(** [slope*x0 + intercept] at j1 and j2 *)
Definition two_points (j1 j2 : Z) (slope icpt : xr) : list xr * list xr :=
  ([Fin (IZR j1); Fin (IZR j2)], [xadd (xmul slope (Fin (IZR j1))) icpt; xadd (xmul slope (Fin (IZR j2))) icpt]).
Definition reg_line (j1 j2 : Z) (slope icpt lab : xr) : line :=
  let '(x, y) := two_points j1 j2 slope icpt in mkLine x y (Some lab).

(** cumulants.py:227-228, structurefunction.py:190-191: the panels from index k on are removed *)
Definition remove_from (nrow a b k : nat) (f : figure) : res figure :=
  foldM (fun f i => p <- panel_at nrow a b i ;; Ok (delaxes p f)) (seq k (a * b - k)) f.

(** ** cumulants.py:168-233 [Cumulants.plot(fignum, nrow, filename)] *)
Definition cum_plot (c : cumulants) (nrow : nat) : res figure :=
  let n := length (cu_m c) in
  let nrow := Nat.min nrow n in                                                            (* :176 *)
  '(a, b) <- grid_dims n nrow ;;                                                           (* :178-184 *)
  f <- subplots a b ;;                                                                     (* :186-189 *)
  f <- foldM (fun f i =>
         p <- panel_at nrow a b i ;;                                                       (* :197 *)
         if Nat.eqb (cu_nrep c) 1
         then Ok (draw p (reg_line (cu_j1 c) (cu_j2 c) (hd NaN (nth i (cu_slope c) [])) (hd NaN (nth i (cu_intercept c) []))
                                   (hd NaN (nth i (cu_log_cumulants c) [])))               (* :206-219 *)
                 (draw p (mkLine (scales (cu_j c)) (hd [] (nth i (cu_values c) [])) None) f))   (* :201 *)
         else Ok f) (seq 0 n) f ;;                                                         (* :222 *)
  match n with
  | O => Err UnboundLocalError                                                             (* ind_m, :227 *)
  | _ => remove_from nrow a b n f
  end.

(** ** structurefunction.py:136-194 [StructureFunction.plot(figlabel, nrow, filename, ignore_q0)] *)
Definition is_q0 (q : pynum) : bool := if Req_EM_T (num_val q) 0 then true else false.
Definition sf_plot (s : structure) (nrow : nat) (ignore_q0 : bool) : res figure :=
  let qs := q_items (sf_q s) in
  let n := length qs in
  let nrow := Nat.min nrow n in                                                            (* :142 *)
  let nq := if existsb is_q0 qs && ignore_q0 then (n - 1)%nat else n in                    (* :143 *)
  '(a, b) <- grid_dims nq nrow ;;                                                          (* :145-151 *)
  f <- subplots a b ;;                                                                     (* :153-157 *)
  f <- foldM (fun f i =>
         if is_q0 (nth i qs (PyInt 1)) && ignore_q0 then Ok f                              (* :165-166 *)
         else
           p <- panel_at nrow a b i ;;                                                     (* :170 *)
           match nth i (sf_logvalues s) [], nth i (sf_zeta s) [], nth i (sf_intercept s) [] with
           | [v], [z], [c] =>
               Ok (draw p (reg_line (sf_j1 s) (sf_j2 s) z c z)                             (* :176-188 *)
                     (draw p (mkLine (scales (sf_j s)) v None) f))                         (* :171 *)
           | _, _, _ => Err TypeError       (* '%.5f' % slope for several realisations, :183 *)
           end) (seq 0 n) f ;;
  match n with
  | O => Err UnboundLocalError                                                             (* ind_q, :190 *)
  | _ => remove_from nrow a b n f
  end.

(** structurefunction.py:196-210 [plot_scaling]: one curve; ax.plot draws one line per realisation *)
Definition sf_plot_scaling (s : structure) : res (list line) :=
  _ <- assert_ (Nat.ltb 1 (length (q_items (sf_q s)))) ;;
  Ok (map (fun r => mkLine (map (fun q => Fin (num_val q)) (q_items (sf_q s))) (map (fun z => nth r z NaN) (sf_zeta s)) None)
          (seq 0 (sf_nrep s))).

(** ** Bivariate plots *)
(** [j_support * slope + intercept] over j1..j2 *)
Definition bi_line (j1 j2 : Z) (slope icpt lab : xr) : line :=
  let js := zrange j1 (j2 + 1) in
  mkLine (scales js) (map (fun j => xadd (xmul (Fin (IZR j)) slope) icpt) js) (Some lab).
(** bivariate_cumulants.py:143-197 [BiCumulants.plot()]: the figure of the marginal cumulants and the curves of the second figure.
    [plt.subplots(n, 2)] squeezes: for n = 1 the array of panels has one dimension and ax[i, 0] is an IndexError *)
Definition bc_entry (t : list (list xr)) (a b : nat) : xr := nth b (nth a t []) NaN.
Definition bc_curve (b : bicumulants) (j1 j2 : Z) (a k : nat) (lab : xr) : list line :=
  [mkLine (scales (bc_j b)) (nth k (nth a (bc_values b) []) []) None;
   bi_line j1 j2 (bc_entry (bc_slope b) a k) (bc_entry (bc_intercept b) a k) lab].
Definition bc_plot (b : bicumulants) (j1 j2 : Z) : res (figure * list line) :=
  match bc_n_cumul b with
  | O => Err ValueError
  | 1%nat => Err IndexError
  | n =>
      Ok (flat_map (fun i => [((i, 0%nat), bc_curve b j1 j2 (S i) 0 (bc_entry (bc_log_cumulants b) (S i) 0));
                              ((i, 1%nat), bc_curve b j1 j2 0 (S i) (bc_entry (bc_log_cumulants b) 0 (S i)))]) (seq 0 n),
          bc_curve b j1 j2 1 1 (bc_entry (bc_slope b) 1 1))                                (* :189: the slope *)
  end.

(** bivariate_structurefunction.py:99-137 [BiStructureFunction.plot()]; a 1 x 1 grid is a single panel, which cannot be indexed *)
Definition bs_plot (s : bistructure) (q1 q2 : list pynum) (j1 j2 : Z) : res figure :=
  let n1 := length q1 in let n2 := length q2 in
  if Nat.eqb n1 0 || Nat.eqb n2 0 then Err ValueError
  else if Nat.eqb n1 1 && Nat.eqb n2 1 then Err TypeError
  else if Nat.eqb n1 1 || Nat.eqb n2 1 then Err IndexError
  else
    Ok (map (fun p => (p, [mkLine (scales (bs_j s)) (nth (snd p) (nth (fst p) (bs_logvalues s) []) []) None;
                           bi_line j1 j2 (bc_entry (bs_zeta s) (fst p) (snd p)) (bc_entry (bs_intercept s) (fst p) (snd p))
                                   (bc_entry (bs_zeta s) (fst p) (snd p))]))
            (list_prod (seq 0 n1) (seq 0 n2))).

(** bivariate_cumulants.py:231-262, :274-302 [plot_legendre], [plot_legendre_pv]: the supports h_x, h_y and the surface passed to the
    drawing functions, with X, Y = np.meshgrid(h_x, h_y): the entry (i, j) of the surface is drawn at x = h_x[j], y = h_y[i].  Restricted to a finite surface (see legendre_surface) *)
Definition Rge0 (x : R) : bool := if Rle_dec 0 x then true else false.
Definition col_max (L : list (list R)) (j : nat) : bool := existsb (fun row => Rge0 (nth j row (-1))) L.      (* L.max(axis=0)[j] >= 0 *)
Definition row_max (L : list (list R)) (i : nat) : bool := existsb Rge0 (nth i L []).                          (* L.max(axis=1)[i] >= 0 *)
Definition sel (m : nat -> bool) (h : list R) : list R := map snd (filter (fun p => m (fst p)) (combine (seq 0 (length h)) h)).
Definition sel_rows {A} (m : nat -> bool) (l : list A) : list A := map snd (filter (fun p => m (fst p)) (combine (seq 0 (length l)) l)).
(** the numbers of a surface, if all are finite *)
Definition finites (l : list xr) : option (list R) :=
  fold_right (fun x acc => match x, acc with Fin a, Some t => Some (a :: t) | _, _ => None end) (Some []) l.
Definition finite_rows (l : list (list xr)) : option (list (list R)) :=
  fold_right (fun x acc => match finites x, acc with Some a, Some t => Some (a :: t) | _, _ => None end) (Some []) l.
(** min and max of a non-empty list; ValueError for an empty one *)
Definition list_min (l : list R) : res R := match l with [] => Err ValueError | a :: t => Ok (fold_left Rmin t a) end.
Definition list_max (l : list R) : res R := match l with [] => Err ValueError | a :: t => Ok (fold_left Rmax t a) end.
Inductive surface := Surface (hx hy : list R) (L : list (list R)).
Definition legendre_surface (b : bicumulants) (h_support : R * R) (resolution : nat) : option (res surface) :=
  match compute_legendre b 0 (3 / 2) 200 with                                              (* :234: not h_support *)
  | Err e => Some (Err e)
  | Ok (h, L) =>
      match finite_rows L with
      | None => None
      | Some L =>
          let hx := sel (col_max L) h in let hy := sel (row_max L) h in                     (* :237-238 *)
          match list_min (hx ++ hy), list_max (hx ++ hy) with
          | Ok lo, Ok hi =>                                                                 (* :240-241 *)
              match compute_legendre b lo hi resolution with                                (* :243 *)
              | Err e => Some (Err e)
              | Ok (h', L') =>
                  match finite_rows L' with
                  | None => None
                  | Some L' =>
                      let hx' := sel (col_max L') h' in let hy' := sel (row_max L') h' in   (* :250-251 *)
                      let L1 := map (sel (col_max L')) L' in                                (* :253 *)
                      match hx' with
                      | [] => Some (Err ValueError)                                         (* L.max over an empty axis, :250, :254 *)
                      | _ => Some (Ok (Surface hx' hy' (sel_rows (row_max L1) L1)))         (* :254 *)
                      end
                  end
              end
          | Err e, _ => Some (Err e)
          | _, Err e => Some (Err e)
          end
      end
  end.

(** ** psd.py *)
(** :81-96 [_log_psd] on 1-D arrays of the same length *)
Definition log_psd1 (freq : list R) (psd : list xr) (log : string) : res (list xr * list xr) :=
  let keep := filter (fun fp => if Req_EM_T (fst fp) 0 then false else true) (combine freq psd) in   (* :88-90 *)
  match log_function log with
  | None => Err KeyError                                                                   (* :93 *)
  | Some g => Ok (map (fun fp => g (Fin (fst fp))) keep, map (fun fp => g (snd fp)) keep)  (* :94 *)
  end.
(** an argument that may be None: the number of styles available (color, fmt, linewidth) *)
Definition n_style (o : option nat) (n : nat) : nat := match o with Some k => k | None => n end.
(** :99-173 [log_plot]: the curves drawn.  [color], [fmt], [linewidth] are given by their lengths; lowpass None is np.inf; each PSD is a
    pair of 1-D arrays of the same length; the slopes are given as drawn; xticks is None *)
Definition log_plot (psds : list (list R * list xr)) (color fmt lw : option nat) (slopes : list line) (log : string)
  (lowpass : option R) : res (list line) :=
  let n := length psds in
  let k := Nat.min (n_style fmt n) (Nat.min (n_style color n) (n_style lw n)) in
  curves <- mapM (fun fp =>
      let keep := filter (fun q => match lowpass with None => true | Some c => if Rlt_dec (fst q) c then true else false end)
                         (combine (fst fp) (snd fp)) in                                    (* :146-147 *)
      '(x, y) <- log_psd1 (map fst keep) (map snd keep) log ;;                             (* :148 *)
      Ok (mkLine x y None)) (firstn k psds) ;;                                             (* :143-150 *)
  Ok (curves ++ firstn (n_style color n) slopes).                                          (* :159-165 *)
