(** * Properties C01-C04: linear_regression *)
From Coq Require Import Reals List ZArith Bool Lra Lia Permutation.
From Verif Require Import XReal PyBase ModelUtils Spec LXReal LReg.
Import ListNotations.
Open Scope R_scope.

(** ** C01: the returned line is the unique weighted least-squares line *)
Theorem C01_least_squares : forall n x y : list R,
  length x = length n -> length y = length n -> well_posed (points n x y) ->
  exists a b var,
    linear_regression (fin x) (fin y) (fin n) = Ok (Fin a, Fin b, var) /\
    forall a' b', (a', b') <> (a, b) ->
      wsse (points n x y) a b < wsse (points n x y) a' b'.
Proof.
  intros n x y Hx Hy W.
  destruct (points_maps n x y Hx Hy) as (E1 & E2 & E3).
  set (pts := points n x y) in *. assert (HD := D_pos pts W).
  destruct (lr_points pts) as [v Hv]; [lra|].
  rewrite E1, E2, E3 in Hv.
  exists (slope pts), (icept pts), v. split; [trivial|].
  exact (best_line pts W).
Qed.
Print Assumptions C01_least_squares.

(** the hypotheses hold for weights 4, 2, 1 at scales 1, 2, 3 *)
Example C01_case : well_posed (points [4; 2; 1] [1; 2; 3] [5; 0; -1]).
Proof.
  split.
  - repeat constructor; unfold pw; simpl; lra.
  - exists (4, 1, 5), (1, 3, -1). simpl. unfold pw, px; simpl.
    repeat split; try lra; auto.
Qed.

(** ** C02: affine equivariance *)
Theorem C02_affine_equivariance : forall n x y : list R,
  length x = length n -> length y = length n -> well_posed (points n x y) ->
  exists a b var,
    linear_regression (fin x) (fin y) (fin n) = Ok (Fin a, Fin b, var) /\
    forall alpha beta gamma,
      linear_regression (fin x)
        (fin (map (fun st => alpha * snd st + beta * fst st + gamma) (combine x y))) (fin n)
      = Ok (Fin (alpha * a + beta), Fin (alpha * b + gamma), var).
Proof.
  intros n x y Hx Hy W.
  destruct (points_maps n x y Hx Hy) as (E1 & E2 & E3).
  set (pts := points n x y) in *. assert (HD := D_pos pts W). assert (HD0 : D pts <> 0) by lra.
  destruct (lr_general_all pts HD0) as [v Hv]. rewrite E1, E2 in Hv.
  assert (Lp : length pts = length n) by (rewrite <- E1, map_length; reflexivity).
  exists (slope pts), (icept pts), v. split.
  - rewrite Hv by (rewrite fin_length; lia).
    rewrite <- E3, fin_map, !map2_map, !map2_diag. simpl.
    rewrite !xsum_map_Fin, sum_wsl_y, sum_wic_y by trivial. reflexivity.
  - intros alpha beta gamma.
    rewrite Hv by (rewrite fin_length, map_length, combine_length; lia).
    assert (Ey : fin (map (fun st => alpha * snd st + beta * fst st + gamma) (combine x y))
                 = map (fun p => Fin (alpha * py p + beta * px p + gamma)) pts).
    { rewrite fin_map. rewrite <- E2, <- E3. clear.
      induction pts; simpl; [reflexivity|]. f_equal. assumption. }
    rewrite Ey, !map2_map, !map2_diag. simpl. rewrite !xsum_map_Fin. do 3 f_equal.
    + f_equal. rewrite (Rsum_map_ext _ (fun p => alpha * (wsl pts p * py p) + (beta * (wsl pts p * px p) + gamma * wsl pts p))) by (intros; ring).
      rewrite !Rsum_map_plus, !Rsum_map_scal, sum_wsl_y, sum_wsl_x, sum_wsl by trivial. ring.
    + f_equal. rewrite (Rsum_map_ext _ (fun p => alpha * (wic pts p * py p) + (beta * (wic pts p * px p) + gamma * wic pts p))) by (intros; ring).
      rewrite !Rsum_map_plus, !Rsum_map_scal, sum_wic_y, sum_wic_x, sum_wic by trivial. ring.
Qed.
Print Assumptions C02_affine_equivariance.

(** data on a line give back that line *)
Theorem C02_exact_on_lines : forall (n x : list R) (a b : R),
  length x = length n ->
  well_posed (points n x (map (fun s => a * s + b) x)) ->
  exists var,
    linear_regression (fin x) (fin (map (fun s => a * s + b) x)) (fin n)
    = Ok (Fin a, Fin b, var).
Proof.
  intros n x a b Hx W.
  assert (Hy : length (map (fun s => a * s + b) x) = length n) by (now rewrite map_length).
  destruct (points_maps n x _ Hx Hy) as (E1 & E2 & E3).
  set (pts := points n x _) in *. assert (HD := D_pos pts W). assert (HD0 : D pts <> 0) by lra.
  destruct (lr_general_all pts HD0) as [v Hv]. rewrite E1, E2 in Hv.
  exists v. rewrite Hv.
  2:{ rewrite fin_length, map_length. rewrite <- E2, map_length. reflexivity. }
  rewrite <- E2 at 1 2. rewrite map_map, fin_map, !map2_map, !map2_diag. simpl.
  rewrite !xsum_map_Fin. do 3 f_equal.
  - f_equal. rewrite (Rsum_map_ext _ (fun p => a * (wsl pts p * px p) + b * wsl pts p)) by (intros; ring).
    rewrite !Rsum_map_plus, !Rsum_map_scal, sum_wsl_x, sum_wsl by trivial. ring.
  - f_equal. rewrite (Rsum_map_ext _ (fun p => a * (wic pts p * px p) + b * wic pts p)) by (intros; ring).
    rewrite !Rsum_map_plus, !Rsum_map_scal, sum_wic_x, sum_wic by trivial. ring.
Qed.
Print Assumptions C02_exact_on_lines.

(** ** C03: invariances and variance *)

(** scales listed in another order: same result, for arbitrary floats (NaN and
    infinities included) *)
Theorem C03_order_invariance : forall data data' : list (xr * xr * xr),
  Permutation data data' ->
  linear_regression (map (fun d => snd (fst d)) data) (map snd data) (map (fun d => fst (fst d)) data)
  = linear_regression (map (fun d => snd (fst d)) data') (map snd data') (map (fun d => fst (fst d)) data').
Proof.
  intros l l' P. unfold linear_regression.
  rewrite !map_length, !Nat.eqb_refl. cbn [negb].
  rewrite !map2_map, !map2_diag.
  rewrite (xsum_perm _ _ (Permutation_map (fun d => fst (fst d)) P)).
  rewrite (xsum_perm _ _ (Permutation_map (fun a => xmul (fst (fst a)) (snd (fst a))) P)).
  rewrite (xsum_perm _ _ (Permutation_map (fun a => xmul (fst (fst a)) (xmul (snd (fst a)) (snd (fst a)))) P)).
  unfold bcast_mul. rewrite !map_length, !Nat.eqb_refl. cbn [bind].
  rewrite !map2_map, !map2_diag.
  do 2 f_equal; [f_equal|]; apply xsum_perm, Permutation_map, P.
Qed.
Print Assumptions C03_order_invariance.

(** all weights multiplied by the same non-zero constant: same line *)
Theorem C03_weight_scale_invariance : forall (n x y : list R) (c : R),
  length x = length n -> length y = length n -> well_posed (points n x y) -> c <> 0 ->
  exists a b var var',
    linear_regression (fin x) (fin y) (fin n) = Ok (Fin a, Fin b, var) /\
    linear_regression (fin x) (fin y) (fin (map (Rmult c) n)) = Ok (Fin a, Fin b, var').
Proof.
  intros n x y c Hx Hy W Hc.
  destruct (points_maps n x y Hx Hy) as (E1 & E2 & E3).
  set (pts := points n x y) in *. assert (HD := D_pos pts W). assert (HD0 : D pts <> 0) by lra.
  set (pts' := map (fun p : point => (c * pw p, px p, py p)) pts).
  assert (A0 : S0 pts' = c * S0 pts).
  { unfold S0, pts'. rewrite map_map. unfold pw at 1; simpl. rewrite Rsum_map_scal. reflexivity. }
  assert (A1 : S1 pts' = c * S1 pts).
  { unfold S1, pts'. rewrite map_map, <- Rsum_map_scal. apply Rsum_map_ext. intros; unfold pw, px; simpl; ring. }
  assert (A2 : S2 pts' = c * S2 pts).
  { unfold S2, pts'. rewrite map_map, <- Rsum_map_scal. apply Rsum_map_ext. intros; unfold pw, px; simpl; ring. }
  assert (B0 : T0 pts' = c * T0 pts).
  { unfold T0, pts'. rewrite map_map, <- Rsum_map_scal. apply Rsum_map_ext. intros; unfold pw, px, py; simpl; ring. }
  assert (B1 : T1 pts' = c * T1 pts).
  { unfold T1, pts'. rewrite map_map, <- Rsum_map_scal. apply Rsum_map_ext. intros; unfold pw, px, py; simpl; ring. }
  assert (AD : D pts' = c * c * D pts) by (unfold D; rewrite A0, A1, A2; ring).
  assert (HD' : D pts' <> 0).
  { rewrite AD. apply Rmult_integral_contrapositive; split; [|trivial].
    apply Rmult_integral_contrapositive; split; trivial. }
  destruct (lr_points pts HD0) as [v Hv]. destruct (lr_points pts' HD') as [v' Hv'].
  exists (slope pts), (icept pts), v, v'. split.
  - rewrite <- Hv, E1, E2, E3. reflexivity.
  - replace (slope pts) with (slope pts').
    2:{ unfold slope. rewrite AD, A0, A1, B0, B1. field. split; trivial. }
    replace (icept pts) with (icept pts').
    2:{ unfold icept. rewrite AD, A2, A1, B0, B1. field. split; trivial. }
    rewrite <- Hv'. unfold pts'. rewrite !map_map. unfold px at 1, py at 1, pw at 1. simpl.
    rewrite <- E1, <- E2, <- E3, !map_map. reflexivity.
Qed.
Print Assumptions C03_weight_scale_invariance.

(** shifting the abscissae by t keeps the slope, moves the intercept by - a t *)
Theorem C03_abscissa_shift : forall (n x y : list R) (t : R),
  length x = length n -> length y = length n -> well_posed (points n x y) ->
  exists a b var var',
    linear_regression (fin x) (fin y) (fin n) = Ok (Fin a, Fin b, var) /\
    linear_regression (fin (map (fun s => s + t) x)) (fin y) (fin n)
    = Ok (Fin a, Fin (b - a * t), var').
Proof.
  intros n x y t Hx Hy W.
  destruct (points_maps n x y Hx Hy) as (E1 & E2 & E3).
  set (pts := points n x y) in *. assert (HD := D_pos pts W). assert (HD0 : D pts <> 0) by lra.
  set (pts' := map (fun p : point => (pw p, px p + t, py p)) pts).
  assert (A0 : S0 pts' = S0 pts).
  { unfold S0, pts'. rewrite map_map. reflexivity. }
  assert (A1 : S1 pts' = S1 pts + t * S0 pts).
  { unfold S1, S0, pts'. rewrite map_map, <- Rsum_map_scal, <- Rsum_map_plus. apply Rsum_map_ext. intros; unfold pw, px; simpl; ring. }
  assert (A2 : S2 pts' = S2 pts + (2 * t * S1 pts + t * t * S0 pts)).
  { unfold S2, S1, S0, pts'. rewrite map_map, <- !Rsum_map_scal, <- !Rsum_map_plus. apply Rsum_map_ext. intros; unfold pw, px; simpl; ring. }
  assert (B0 : T0 pts' = T0 pts).
  { unfold T0, pts'. rewrite map_map. reflexivity. }
  assert (B1 : T1 pts' = T1 pts + t * T0 pts).
  { unfold T1, T0, pts'. rewrite map_map, <- Rsum_map_scal, <- Rsum_map_plus. apply Rsum_map_ext. intros; unfold pw, px, py; simpl; ring. }
  assert (AD : D pts' = D pts) by (unfold D; rewrite A0, A1, A2; ring).
  assert (HD' : D pts' <> 0) by (rewrite AD; trivial).
  destruct (lr_points pts HD0) as [v Hv]. destruct (lr_points pts' HD') as [v' Hv'].
  exists (slope pts), (icept pts), v, v'. split.
  - rewrite <- Hv, E1, E2, E3. reflexivity.
  - replace (icept pts - slope pts * t) with (icept pts').
    2:{ unfold icept, slope. rewrite AD, A2, A1, B0, B1. field. trivial. }
    replace (slope pts) with (slope pts').
    2:{ unfold slope. rewrite AD, A0, A1, B0, B1. field. trivial. }
    rewrite <- Hv'. unfold pts'. rewrite !map_map. unfold px at 1, py at 1, pw at 1. simpl.
    rewrite <- E1, <- E2, <- E3, !map_map. reflexivity.
Qed.
Print Assumptions C03_abscissa_shift.

(** the returned variance is 1 over the weighted scatter of the abscissae around
    their weighted mean (weights being inverse variances of the ordinates) *)
Theorem C03_slope_variance : forall n x y : list R,
  length x = length n -> length y = length n -> well_posed (points n x y) ->
  Forall (fun w => 0 < w) n ->
  let pts := points n x y in
  let W := Rsum (map pw pts) in
  let xbar := Rsum (map (fun p => pw p * px p) pts) / W in
  let scatter := Rsum (map (fun p => pw p * (px p - xbar) ^ 2) pts) in
  exists a b,
    linear_regression (fin x) (fin y) (fin n) = Ok (Fin a, Fin b, Fin (1 / scatter)) /\
    0 < scatter.
Proof.
  intros n x y Hx Hy W Hw pts W0 xbar scatter.
  destruct (points_maps n x y Hx Hy) as (E1 & E2 & E3).
  fold pts in W, E1, E2, E3. assert (HD := D_pos pts W). assert (HD0 : D pts <> 0) by lra.
  assert (HS0 : 0 < S0 pts).
  { unfold S0. destruct W as (H & p & q & Hp & _ & Wp & _). rewrite Forall_forall in H.
    apply Rsum_map_pos; eauto. }
  assert (Es : scatter = D pts / S0 pts).
  { unfold scatter, xbar, W0. fold (S0 pts). fold (S1 pts).
    generalize (eq_refl (S1 pts / S0 pts)). generalize (S1 pts / S0 pts) at 1 3. intros m Em.
    transitivity (Rsum (map (fun p => pw p * (px p * px p) + ((- 2 * m) * (pw p * px p) + m^2 * pw p)) pts)).
    { apply Rsum_map_ext. intros. ring. }
    rewrite !Rsum_map_plus, !Rsum_map_scal. fold (S0 pts). fold (S1 pts). fold (S2 pts).
    change (Rsum (map pw pts)) with (S0 pts).
    rewrite Em. unfold D. field. lra. }
  exists (slope pts), (icept pts). split.
  - rewrite <- E1, <- E2, <- E3. rewrite lr_points_var by (trivial;
      rewrite <- Forall_map with (f := pw) (P := fun w => 0 < w); rewrite E1; trivial).
    do 3 f_equal. rewrite Es. field. split; lra.
  - rewrite Es. apply Rdiv_lt_0_compat; trivial.
Qed.
Print Assumptions C03_slope_variance.

(** ** C04: degenerate ranges at the level of the regression *)

(** all abscissae equal (in particular a single scale): NaN whatever the data *)
Theorem C04_equal_abscissae_nan : forall (n x : list R) (y : list xr) (x0 : R),
  n <> [] -> length x = length n -> length y = length n ->
  (forall s, In s x -> s = x0) ->
  exists var, linear_regression (fin x) y (fin n) = Ok (NaN, NaN, var).
Proof.
  intros n x y x0 Hn Hx Hy Hs.
  assert (L0 : length (map (fun _ => 0) n) = length n) by apply map_length.
  destruct (points_maps n x (map (fun _ => 0) n) Hx L0) as (E1 & E2 & E3).
  set (pts := points n x _) in *.
  destruct (degenerate_weights pts x0) as [HD HW].
  { intros p Hp. apply Hs. rewrite <- E2. now apply in_map. }
  destruct (lr_D0 pts y) as [v Hv]; trivial.
  - intros E. apply Hn. rewrite <- E1, E. reflexivity.
  - rewrite Hy, <- E1, map_length. reflexivity.
  - exists v. rewrite <- Hv, E1, E2. reflexivity.
Qed.
Print Assumptions C04_equal_abscissae_nan.

Example C04_case : forall s, In s [3; 3] -> s = 3.
Proof. simpl; intros s [<-|[<-|[]]]; reflexivity. Qed.

(** a fit over no scale at all returns finite zeros, not NaN *)
Theorem C04_empty_fit_refuted :
  linear_regression [] [] [] = Ok (Fin 0, Fin 0, Fin 0).
Proof. exact lr_empty. Qed.
Print Assumptions C04_empty_fit_refuted.
