(** * C127: fits within a tolerance: data that stay close to a line give its slope *)
From Coq Require Import Reals List ZArith Bool Lra Lia.
From Verif Require Import XReal PyBase ModelUtils Spec LXReal LBase LReg LTaps LBivariate PropsRegression.
Import ListNotations.
Open Scope R_scope.
Local Notation length := List.length.

(** ** Specification: weighted mean and variance of the abscissae *)
Definition total_weight (pts : list point) : R := Rsum (map pw pts).
Definition x_mean (pts : list point) : R := Rsum (map (fun p => pw p * px p) pts) / total_weight pts.
Definition x_variance (pts : list point) : R := Rsum (map (fun p => pw p * (px p - x_mean pts) ^ 2) pts) / total_weight pts.

(** ** Proofs *)
Lemma centred_sum (f : point -> R) pts : Forall (fun p => 0 <= pw p) pts -> Rsum (map (fun p => pw p * f p) pts) = Rsum (map (fun p => sqrt (pw p) * (sqrt (pw p) * f p)) pts).
Proof.
  intros H. apply Rsum_map_ext. intros p Hp. rewrite Forall_forall in H. rewrite <- (sqrt_sqrt (pw p)) at 1 by now apply H. ring.
Qed.
Lemma S0_positive pts : well_posed pts -> 0 < S0 pts.
Proof.
  intros W. assert (HD := D_pos pts W). destruct W as [W _]. assert (0 <= S0 pts).
  { unfold S0. rewrite <- (Rsum_map_scal 0 (fun _ => 0) pts) at 1 || idtac. apply Rle_trans with (Rsum (map (fun _ : point => 0) pts)).
    - right. clear. induction pts; simpl; lra.
    - apply tsum_le. rewrite Forall_forall in W. exact W. }
  destruct (Rle_lt_or_eq_dec 0 (S0 pts) H) as [Q|Q]; [exact Q|]. exfalso. unfold D in HD. rewrite <- Q in HD. nra.
Qed.
Lemma variance_eq pts : S0 pts <> 0 -> x_variance pts = D pts / S0 pts ^ 2.
Proof.
  intros H. unfold x_variance, x_mean, total_weight. fold (S1 pts) (S0 pts). set (mu := S1 pts / S0 pts).
  rewrite (Rsum_map_ext _ (fun p => pw p * (px p * px p) + (- 2 * mu * (pw p * px p) + mu * mu * pw p))) by (intros; ring).
  rewrite !Rsum_map_plus, !Rsum_map_scal. fold (S2 pts) (S1 pts) (S0 pts). unfold mu, D. field. trivial.
Qed.
Lemma slope_close pts alpha beta delta : well_posed pts -> (forall p, In p pts -> Rabs (py p - (alpha * px p + beta)) <= delta) ->
  Rabs (slope pts - alpha) <= delta / sqrt (x_variance pts).
Proof.
  intros W Hy. assert (HD := D_pos pts W). assert (H0 := S0_positive pts W). assert (WW := proj1 W). rewrite (variance_eq pts) by lra.
  set (mu := S1 pts / S0 pts).
  assert (Eq : slope pts - alpha = S0 pts / D pts * Rsum (map (fun p => pw p * ((px p - mu) * (py p - (alpha * px p + beta)))) pts)).
  { rewrite (Rsum_map_ext (fun p => pw p * ((px p - mu) * (py p - (alpha * px p + beta)))) (fun p => pw p * px p * py p + (- mu * (pw p * py p) + (- alpha * (pw p * (px p * px p)) + ((alpha * mu - beta) * (pw p * px p) + mu * beta * pw p))))) by (intros; ring).
    rewrite !Rsum_map_plus, !Rsum_map_scal. fold (S2 pts) (S1 pts) (S0 pts) (T0 pts) (T1 pts). unfold slope, mu. unfold D in *. field. lra. }
  set (e := fun p : point => py p - (alpha * px p + beta)) in *.
  assert (C := cauchy (fun p => sqrt (pw p) * (px p - mu)) (fun p => sqrt (pw p) * e p) pts). rewrite Forall_forall in WW.
  rewrite (Rsum_map_ext (fun p => sqrt (pw p) * (px p - mu) * (sqrt (pw p) * e p)) (fun p => pw p * ((px p - mu) * e p))) in C by (intros p Hp; rewrite <- (sqrt_sqrt (pw p)) at 3 by (now apply WW); ring).
  rewrite (Rsum_map_ext (fun p => (sqrt (pw p) * (px p - mu)) ^ 2) (fun p => pw p * (px p * px p) + (- 2 * mu * (pw p * px p) + mu * mu * pw p))) in C.
  2:{ intros p Hp. replace ((sqrt (pw p) * (px p - mu)) ^ 2) with (sqrt (pw p) * sqrt (pw p) * (px p - mu) ^ 2) by ring. rewrite sqrt_sqrt by now apply WW. ring. }
  rewrite !Rsum_map_plus, !Rsum_map_scal in C. fold (S2 pts) (S1 pts) (S0 pts) in C.
  replace (S2 pts + (- 2 * mu * S1 pts + mu * mu * S0 pts)) with (D pts / S0 pts) in C by (unfold mu, D; field; lra).
  assert (B : Rsum (map (fun p => (sqrt (pw p) * e p) ^ 2) pts) <= delta * delta * S0 pts).
  { unfold S0. rewrite <- Rsum_map_scal. apply tsum_le. intros p Hp. replace ((sqrt (pw p) * e p) ^ 2) with (sqrt (pw p) * sqrt (pw p) * (e p * e p)) by ring. rewrite sqrt_sqrt by now apply WW.
    rewrite (Rmult_comm (delta * delta)). apply Rmult_le_compat_l; [now apply WW|]. assert (K := Hy p Hp). fold (e p) in K. assert (A := Rabs_pos (e p)).
    replace (e p * e p) with (Rabs (e p) * Rabs (e p)) by (rewrite <- Rabs_mult; apply Rabs_pos_eq; nra). nra. }
  assert (d0 : 0 <= delta). { destruct W as [_ (p & _ & Hp & _)]. assert (K := Hy p Hp). assert (A := Rabs_pos (py p - (alpha * px p + beta))). lra. }
  set (T := Rsum (map (fun p => pw p * ((px p - mu) * e p)) pts)) in *.
  assert (T2 : T ^ 2 <= D pts * (delta * delta)).
  { eapply Rle_trans; [exact C|]. replace (D pts * (delta * delta)) with (D pts / S0 pts * (delta * delta * S0 pts)) by (field; lra). apply Rmult_le_compat_l; [|exact B]. left. now apply Rdiv_lt_0_compat. }
  assert (Q := sqrt_lt_R0 _ HD). assert (QQ := sqrt_sqrt (D pts) ltac:(lra)). set (s := sqrt (D pts)) in *.
  assert (T1 : Rabs T <= s * delta). { apply Rsqr_incr_0_var; [|nra]. rewrite <- Rsqr_abs. unfold Rsqr. nra. }
  assert (ES : sqrt (D pts / S0 pts ^ 2) = s / S0 pts). { rewrite sqrt_div_alt by nra. unfold s. f_equal. replace (S0 pts ^ 2) with (S0 pts * S0 pts) by ring. apply sqrt_square. lra. }
  rewrite Eq, ES, Rabs_mult, (Rabs_pos_eq (S0 pts / D pts)) by (left; now apply Rdiv_lt_0_compat).
  apply Rle_trans with (S0 pts / D pts * (s * delta)); [apply Rmult_le_compat_l; [left; now apply Rdiv_lt_0_compat|exact T1]|]. rewrite <- QQ. right. field. lra.
Qed.

(** ** C127: a weighted regression of data within delta of the line alpha x + beta *)
Theorem C127_tolerance (n x y : list R) alpha beta delta : length x = length n -> length y = length n -> well_posed (points n x y) ->
  (forall p, In p (points n x y) -> Rabs (py p - (alpha * px p + beta)) <= delta) ->
  exists a b var, linear_regression (fin x) (fin y) (fin n) = Ok (Fin a, Fin b, var) /\ 0 < x_variance (points n x y) /\
    Rabs (a - alpha) <= delta / sqrt (x_variance (points n x y)).
Proof.
  intros Hx Hy W H. destruct (points_maps n x y Hx Hy) as (E1 & E2 & E3). set (pts := points n x y) in *. assert (HD := D_pos pts W).
  destruct (lr_points pts) as [v Hv]; [lra|]. rewrite E1, E2, E3 in Hv. exists (slope pts), (icept pts), v. split; [trivial|]. split; [|now apply slope_close with beta].
  assert (H0 := S0_positive pts W). rewrite variance_eq by lra. apply Rdiv_lt_0_compat; [trivial|]. nra.
Qed.
(** the tolerance of the intercept: at most the slope's error carried to the mean abscissa, plus delta *)
Theorem C127_intercept (n x y : list R) alpha beta delta : length x = length n -> length y = length n -> well_posed (points n x y) ->
  (forall p, In p (points n x y) -> Rabs (py p - (alpha * px p + beta)) <= delta) ->
  exists a b var, linear_regression (fin x) (fin y) (fin n) = Ok (Fin a, Fin b, var) /\
    Rabs (b - beta) <= delta * (1 + Rabs (x_mean (points n x y)) / sqrt (x_variance (points n x y))).
Proof.
  intros Hx Hy W H. destruct (C127_tolerance n x y alpha beta delta Hx Hy W H) as (a' & b' & var' & EQ & V0 & B).
  destruct (points_maps n x y Hx Hy) as (E1 & E2 & E3). set (pts := points n x y) in *. assert (HD := D_pos pts W). assert (H0 := S0_positive pts W).
  destruct (lr_points pts) as [v Hv]; [lra|]. rewrite E1, E2, E3 in Hv. exists (slope pts), (icept pts), v. split; [trivial|]. rewrite Hv in EQ. injection EQ as Ea Eb _. rewrite <- Ea in B.
  assert (N1 := normal_1 pts ltac:(lra)). assert (WW := proj1 W). rewrite Forall_forall in WW.
  assert (F : icept pts - beta = Rsum (map (fun p => pw p * (py p - (alpha * px p + beta))) pts) / S0 pts - (slope pts - alpha) * x_mean pts).
  { rewrite (Rsum_map_ext _ (fun p => pw p * py p + (- alpha * (pw p * px p) + - beta * pw p))) by (intros; ring). rewrite !Rsum_map_plus, !Rsum_map_scal. fold (T0 pts) (S1 pts) (S0 pts).
    unfold x_mean, total_weight. fold (S1 pts) (S0 pts). apply Rmult_eq_reg_r with (S0 pts); [|lra]. rewrite <- N1. field. lra. }
  rewrite F. eapply Rle_trans; [apply Rabs_triang|]. rewrite Rabs_Ropp, Rabs_mult, Rmult_plus_distr_l, Rmult_1_r. apply Rplus_le_compat.
  - unfold Rdiv. rewrite Rabs_mult, Rabs_inv, (Rabs_pos_eq (S0 pts)) by lra. apply Rmult_le_reg_r with (S0 pts); [trivial|]. rewrite Rmult_assoc, Rinv_l, Rmult_1_r by lra.
    eapply Rle_trans; [apply Rsum_abs_le|]. unfold S0. rewrite <- Rsum_map_scal. apply tsum_le. intros p Hp. rewrite Rabs_mult, (Rabs_pos_eq (pw p)) by now apply WW. rewrite (Rmult_comm delta). apply Rmult_le_compat_l; [now apply WW|now apply H].
  - replace (delta * (Rabs (x_mean pts) / sqrt (x_variance pts))) with (delta / sqrt (x_variance pts) * Rabs (x_mean pts)) by (unfold Rdiv; ring). apply Rmult_le_compat_r; [apply Rabs_pos|exact B].
Qed.
(** two sets of ordinates that stay within delta of each other, up to a shift, have slopes within delta / (standard deviation of the abscissae) *)
Lemma points_diff : forall n x y z : list R, length x = length n -> length y = length n -> length z = length n ->
  let d := map (fun t => fst t - snd t) (combine y z) in
  map pw (points n x d) = map pw (points n x y) /\ map px (points n x d) = map px (points n x y) /\ map pw (points n x z) = map pw (points n x y) /\ map px (points n x z) = map px (points n x y) /\
  T0 (points n x d) = T0 (points n x y) - T0 (points n x z) /\ T1 (points n x d) = T1 (points n x y) - T1 (points n x z).
Proof.
  induction n as [|a n IH]; intros [|b x] [|c y] [|d z] Hx Hy Hz; try discriminate; cbn [points map combine fst snd].
  - unfold T0, T1. cbn. repeat split; lra.
  - destruct (IH x y z ltac:(now injection Hx) ltac:(now injection Hy) ltac:(now injection Hz)) as (A1 & A2 & A3 & A4 & A5 & A6). cbv zeta in *.
    assert (U0 : forall p l, T0 (p :: l) = pw p * py p + T0 l) by reflexivity. assert (U1 : forall p l, T1 (p :: l) = pw p * px p * py p + T1 l) by reflexivity.
    rewrite A1, A2, A3, A4, !U0, !U1, A5, A6. unfold pw, px, py. cbn [fst snd]. repeat split; ring.
Qed.
Theorem C127_perturbation (n x y z : list R) shift delta : length x = length n -> length y = length n -> length z = length n -> well_posed (points n x y) ->
  (forall t, In t (combine y z) -> Rabs (fst t - snd t - shift) <= delta) ->
  exists a b var a' b' var', linear_regression (fin x) (fin y) (fin n) = Ok (Fin a, Fin b, var) /\ linear_regression (fin x) (fin z) (fin n) = Ok (Fin a', Fin b', var') /\
    Rabs (a - a') <= delta / sqrt (x_variance (points n x y)).
Proof.
  intros Hx Hy Hz W H. destruct (points_diff n x y z Hx Hy Hz) as (A1 & A2 & A3 & A4 & A5 & A6). cbv zeta in *. set (d := map (fun t => fst t - snd t) (combine y z)) in *.
  assert (Ld : length d = length n) by (unfold d; rewrite map_length, combine_length; lia).
  assert (Wd : well_posed (points n x d)) by (now apply (well_posed_ext (points n x y))). assert (Wz : well_posed (points n x z)) by (now apply (well_posed_ext (points n x y))).
  assert (HD := D_pos _ W).
  destruct (points_maps n x y Hx Hy) as (E1 & E2 & E3). destruct (lr_points (points n x y)) as [v Hv]; [lra|]. rewrite E1, E2, E3 in Hv.
  destruct (points_maps n x z Hx Hz) as (F1 & F2 & F3). assert (HDz := D_pos _ Wz). destruct (lr_points (points n x z)) as [v' Hv']; [lra|]. rewrite F1, F2, F3 in Hv'.
  exists (slope (points n x y)), (icept (points n x y)), v, (slope (points n x z)), (icept (points n x z)), v'. split; [exact Hv|]. split; [exact Hv'|].
  destruct (D_ext _ _ A1 A2) as (Z0 & Z1 & Z2). destruct (D_ext _ _ A3 A4) as (Z0' & Z1' & Z2').
  assert (D1 : D (points n x d) = D (points n x y)) by (unfold D; now rewrite Z0, Z1, Z2). assert (D2 : D (points n x z) = D (points n x y)) by (unfold D; now rewrite Z0', Z1', Z2').
  assert (SD : slope (points n x d) - 0 = slope (points n x y) - slope (points n x z)).
  { unfold slope. rewrite D1, D2, Z0, Z0', Z1, Z1', A5, A6. field. lra. }
  assert (XV : x_variance (points n x d) = x_variance (points n x y)).
  { assert (G := S0_positive _ Wd). assert (G' := S0_positive _ W). rewrite !variance_eq by lra. now rewrite D1, Z0. }
  rewrite <- SD, <- XV. apply slope_close with shift; [exact Wd|]. intros p Hp.
  assert (Y : In (py p) d). { destruct (points_maps n x d Hx Ld) as (_ & _ & E). assert (J : In (Fin (py p)) (fin d)) by (rewrite <- E; unfold fin; now apply in_map, in_map). unfold fin in J. apply in_map_iff in J as (u & J1 & J2). injection J1 as ->. exact J2. }
  unfold d in Y. apply in_map_iff in Y as (t & <- & Ht). rewrite Rmult_0_l, Rplus_0_l. now apply H.
Qed.
(** equal weights at n consecutive scales: the variance of the abscissae is (n^2 - 1) / 12 *)
Lemma uniform_sums c j0 n (y : nat -> R) : let pts := map (fun j => (c, INR j, y j)) (seq j0 n) in
  S0 pts = c * INR n /\ S1 pts = c * (INR n * INR j0 + INR n * (INR n - 1) / 2) /\
  S2 pts = c * (INR n * INR j0 ^ 2 + INR j0 * (INR n * (INR n - 1)) + INR n * (INR n - 1) * (2 * INR n - 1) / 6).
Proof.
  assert (SN : forall (f : R -> R) m, Rsum (map f (map INR (seq j0 (S m)))) = Rsum (map f (map INR (seq j0 m))) + f (INR j0 + INR m)).
  { intros f m. rewrite seq_S, !map_app. cbn [map]. rewrite plus_INR. generalize (map f (map INR (seq j0 m))). clear. induction l as [|a l IH]; simpl in *; [lra|]. rewrite IH. lra. }
  cbv zeta. unfold S0, S1, S2. rewrite !map_map. unfold pw, px. cbn [fst snd].
  assert (G0 : Rsum (map (fun x : R => c) (map INR (seq j0 n))) = c * INR n). { induction n as [|n IH]; [simpl; lra|]. rewrite SN, IH, S_INR. ring. }
  assert (G1 : Rsum (map (fun x : R => c * x) (map INR (seq j0 n))) = c * (INR n * INR j0 + INR n * (INR n - 1) / 2)). { clear G0. induction n as [|n IH]; [simpl; lra|]. rewrite SN, IH, S_INR. field. }
  assert (G2 : Rsum (map (fun x : R => c * (x * x)) (map INR (seq j0 n))) = c * (INR n * INR j0 ^ 2 + INR j0 * (INR n * (INR n - 1)) + INR n * (INR n - 1) * (2 * INR n - 1) / 6)). { clear G0 G1. induction n as [|n IH]; [simpl; lra|]. rewrite SN, IH, S_INR. field. }
  rewrite map_map in G0, G1, G2. auto.
Qed.
Lemma uniform_points c j0 n (y : nat -> R) : points (repeat c n) (map INR (seq j0 n)) (map y (seq j0 n)) = map (fun j => (c, INR j, y j)) (seq j0 n).
Proof. revert j0. induction n as [|n IH]; intros j0; [reflexivity|]. cbn. now rewrite IH. Qed.
Lemma uniform_facts c j0 n (y : nat -> R) : 0 < c -> (2 <= n)%nat -> let pts := points (repeat c n) (map INR (seq j0 n)) (map y (seq j0 n)) in well_posed pts /\ x_variance pts = (INR n ^ 2 - 1) / 12.
Proof.
  intros Hc Hn. cbv zeta. assert (UP := uniform_points c j0 n y). assert (n2 : 2 <= INR n) by (apply le_INR in Hn; exact Hn).
  assert (WP : well_posed (points (repeat c n) (map INR (seq j0 n)) (map y (seq j0 n)))).
  { rewrite UP. split.
    - apply Forall_forall. intros p Hp. apply in_map_iff in Hp as (j & <- & _). unfold pw. cbn. lra.
    - exists (c, INR j0, y j0), (c, INR (S j0), y (S j0)). unfold pw, px. cbn [fst snd].
      split; [apply in_map_iff; exists j0; split; [reflexivity|apply in_seq; lia]|]. split; [apply in_map_iff; exists (S j0); split; [reflexivity|apply in_seq; lia]|]. split; [trivial|]. split; [trivial|]. rewrite S_INR. lra. }
  split; [exact WP|]. assert (Z := S0_positive _ WP). rewrite variance_eq by lra. rewrite UP in *. destruct (uniform_sums c j0 n y) as (U0 & U1 & U2). unfold D. rewrite U0, U1, U2. field. split; lra.
Qed.
Theorem C127_scales c j0 n (y : nat -> R) alpha beta delta : 0 < c -> (2 <= n)%nat -> (forall j, (j0 <= j < j0 + n)%nat -> Rabs (y j - (alpha * INR j + beta)) <= delta) ->
  exists a b var, linear_regression (fin (map INR (seq j0 n))) (fin (map y (seq j0 n))) (fin (repeat c n)) = Ok (Fin a, Fin b, var) /\
    Rabs (a - alpha) <= delta * sqrt (12 / (INR n ^ 2 - 1)).
Proof.
  intros Hc Hn H. assert (UP := uniform_points c j0 n y).
  assert (n2 : 2 <= INR n) by (apply le_INR in Hn; exact Hn).
  assert (WP : well_posed (points (repeat c n) (map INR (seq j0 n)) (map y (seq j0 n)))).
  { rewrite UP. split.
    - apply Forall_forall. intros p Hp. apply in_map_iff in Hp as (j & <- & _). unfold pw. cbn. lra.
    - exists (c, INR j0, y j0), (c, INR (S j0), y (S j0)). unfold pw, px. cbn [fst snd].
      split; [apply in_map_iff; exists j0; split; [reflexivity|apply in_seq; lia]|]. split; [apply in_map_iff; exists (S j0); split; [reflexivity|apply in_seq; lia]|]. split; [trivial|]. split; [trivial|]. rewrite S_INR. lra. }
  destruct (C127_tolerance (repeat c n) (map INR (seq j0 n)) (map y (seq j0 n)) alpha beta delta) as (a & b & var & EQ & V0 & B).
  - now rewrite map_length, seq_length, repeat_length.
  - now rewrite map_length, seq_length, repeat_length.
  - exact WP.
  - rewrite UP. intros p Hp. apply in_map_iff in Hp as (j & <- & Hj). apply in_seq in Hj. unfold py, px. cbn [fst snd]. now apply H.
  - exists a, b, var. split; [exact EQ|]. eapply Rle_trans; [exact B|]. right.
    assert (XV : x_variance (points (repeat c n) (map INR (seq j0 n)) (map y (seq j0 n))) = (INR n ^ 2 - 1) / 12).
    { assert (Z := S0_positive _ WP). rewrite variance_eq by lra. rewrite UP in *. destruct (uniform_sums c j0 n y) as (U0 & U1 & U2). unfold D. rewrite U0, U1, U2. field. split; lra. }
    rewrite XV. unfold Rdiv at 1. f_equal. replace (12 / (INR n ^ 2 - 1)) with (/ ((INR n ^ 2 - 1) / 12)) by (field; nra). rewrite sqrt_inv. reflexivity.
Qed.
Theorem C127_scales_perturbation c j0 n (y z : nat -> R) shift delta : 0 < c -> (2 <= n)%nat -> (forall j, (j0 <= j < j0 + n)%nat -> Rabs (y j - z j - shift) <= delta) ->
  exists a b var a' b' var', linear_regression (fin (map INR (seq j0 n))) (fin (map y (seq j0 n))) (fin (repeat c n)) = Ok (Fin a, Fin b, var) /\
    linear_regression (fin (map INR (seq j0 n))) (fin (map z (seq j0 n))) (fin (repeat c n)) = Ok (Fin a', Fin b', var') /\
    Rabs (a - a') <= delta * sqrt (12 / (INR n ^ 2 - 1)).
Proof.
  intros Hc Hn H. destruct (uniform_facts c j0 n y Hc Hn) as [WP XV].
  destruct (C127_perturbation (repeat c n) (map INR (seq j0 n)) (map y (seq j0 n)) (map z (seq j0 n)) shift delta) as (a & b & var & a' & b' & var' & E & E' & B);
    try (now rewrite map_length, seq_length, repeat_length); [exact WP| |].
  - intros t Ht. assert (C : combine (map y (seq j0 n)) (map z (seq j0 n)) = map (fun j => (y j, z j)) (seq j0 n)) by (generalize (seq j0 n); induction l as [|u l IH]; cbn; [reflexivity|now rewrite IH]).
    rewrite C in Ht. apply in_map_iff in Ht as (j & <- & Hj). apply in_seq in Hj. cbn [fst snd]. now apply H.
  - exists a, b, var, a', b', var'. split; [exact E|]. split; [exact E'|]. eapply Rle_trans; [exact B|]. right. rewrite XV. unfold Rdiv at 1. f_equal. apply le_INR in Hn. change (INR 2) with 2 in Hn.
    replace (12 / (INR n ^ 2 - 1)) with (/ ((INR n ^ 2 - 1) / 12)) by (field; nra). rewrite sqrt_inv. reflexivity.
Qed.
(** Three scales with ordinates within 1/10 of the line 2 j + 1: the slope is within 1/10 sqrt(3/2) of 2 *)
Example C127_case : exists a b var, linear_regression (fin [1; 2; 3]) (fin [31 / 10; 49 / 10; 71 / 10]) (fin [5; 5; 5]) = Ok (Fin a, Fin b, var) /\ Rabs (a - 2) <= 1 / 10 * sqrt (12 / 8).
Proof.
  destruct (C127_scales 5 1 3 (fun j => 2 * INR j + 1 + (if Nat.eqb j 2 then - (1 / 10) else 1 / 10)) 2 1 (1 / 10)) as (a & b & var & E & B); [lra|lia| |].
  - intros j Hj. assert (j = 1 \/ j = 2 \/ j = 3)%nat as [-> | [-> | ->]] by lia; simpl; apply Rabs_le; lra.
  - exists a, b, var. split; [|replace (12 / 8) with (12 / (INR 3 ^ 2 - 1)) by (simpl; field; lra); exact B].
    rewrite <- E. f_equal; unfold fin; simpl; repeat (f_equal; try lra).
Qed.
Print Assumptions C127_tolerance.
Print Assumptions C127_intercept.
Print Assumptions C127_scales.
Print Assumptions C127_perturbation.
Print Assumptions C127_scales_perturbation.
Print Assumptions C127_case.
