(** * Linear regression: lemmas *)
From Coq Require Import Reals List ZArith Bool Lra Lia Permutation.
From Verif Require Import XReal PyBase ModelUtils Spec LXReal.
Import ListNotations.
Open Scope R_scope.

Definition S0 (pts : list point) := Rsum (map pw pts).
Definition S1 (pts : list point) := Rsum (map (fun p => pw p * px p) pts).
Definition S2 (pts : list point) := Rsum (map (fun p => pw p * (px p * px p)) pts).
Definition T0 (pts : list point) := Rsum (map (fun p => pw p * py p) pts).
Definition T1 (pts : list point) := Rsum (map (fun p => pw p * px p * py p) pts).
Definition D (pts : list point) := S0 pts * S2 pts - S1 pts * S1 pts.
Definition slope (pts : list point) := (S0 pts * T1 pts - S1 pts * T0 pts) / D pts.
Definition icept (pts : list point) := (S2 pts * T0 pts - S1 pts * T1 pts) / D pts.

(** Lagrange identity *)
Lemma sum_quad pts a b c :
  Rsum (map (fun p => pw p * px p * px p * a - 2 * (pw p * px p) * b + pw p * c) pts)
  = S2 pts * a - 2 * S1 pts * b + S0 pts * c.
Proof. unfold S0, S1, S2. induction pts as [|q l IH]; simpl; [lra|]. rewrite IH. ring. Qed.

Lemma sum_quad_in pts p :
  Rsum (map (fun q => pw p * pw q * (px p - px q) ^ 2) pts)
     = pw p * px p * px p * S0 pts - 2 * (pw p * px p) * S1 pts + pw p * S2 pts.
Proof. unfold S0, S1, S2. induction pts as [|q l IH]; simpl; [lra|]. simpl in IH. rewrite IH. ring. Qed.

Lemma lagrange pts :
  2 * D pts = Rsum (map (fun p => Rsum (map (fun q => pw p * pw q * (px p - px q) ^ 2) pts)) pts).
Proof.
  rewrite (Rsum_map_ext _ _ pts (fun p _ => sum_quad_in pts p)).
  rewrite sum_quad. unfold D. ring.
Qed.

Lemma D_nonneg pts : Forall (fun p => 0 <= pw p) pts -> 0 <= D pts.
Proof.
  intros H. rewrite Forall_forall in H.
  enough (0 <= 2 * D pts) by lra. rewrite lagrange.
  apply Rsum_map_nonneg. intros p Hp. apply Rsum_map_nonneg. intros q Hq.
  apply Rmult_le_pos; [apply Rmult_le_pos; auto | apply pow2_ge_0].
Qed.

Lemma D_pos pts : well_posed pts -> 0 < D pts.
Proof.
  intros (H & p & q & Hp & Hq & Wp & Wq & Hx). rewrite Forall_forall in H.
  enough (0 < 2 * D pts) by lra. rewrite lagrange.
  apply Rsum_map_pos.
  - intros p' Hp'. apply Rsum_map_nonneg. intros q' Hq'.
    apply Rmult_le_pos; [apply Rmult_le_pos; auto | apply pow2_ge_0].
  - exists p. split; [trivial|]. apply Rsum_map_pos.
    + intros q' Hq'. apply Rmult_le_pos; [apply Rmult_le_pos; auto | apply pow2_ge_0].
    + exists q. split; [trivial|].
      apply Rmult_lt_0_compat; [apply Rmult_lt_0_compat; auto|].
      assert (px p - px q <> 0) by lra.
      replace ((px p - px q) ^ 2) with (Rsqr (px p - px q)) by (unfold Rsqr; ring).
      now apply Rsqr_pos_lt.
Qed.

(** normal equations *)
Lemma normal_1 pts : D pts <> 0 -> slope pts * S1 pts + icept pts * S0 pts = T0 pts.
Proof. intros. unfold slope, icept. apply (Rmult_eq_reg_r (D pts)); [|trivial].
  unfold D in *. field. trivial. Qed.
Lemma normal_2 pts : D pts <> 0 -> slope pts * S2 pts + icept pts * S1 pts = T1 pts.
Proof. intros. unfold slope, icept. apply (Rmult_eq_reg_r (D pts)); [|trivial].
  unfold D in *. field. trivial. Qed.

Lemma wsse_expand pts a b :
  wsse pts a b = Rsum (map (fun p => pw p * (py p * py p)) pts)
    - 2 * a * T1 pts - 2 * b * T0 pts + a * a * S2 pts + 2 * a * b * S1 pts + b * b * S0 pts.
Proof.
  unfold wsse, S0, S1, S2, T0, T1. induction pts as [|p l IH]; simpl; [lra|].
  simpl in IH. rewrite IH. ring.
Qed.

Lemma wsse_diff pts a b :
  D pts <> 0 ->
  wsse pts a b - wsse pts (slope pts) (icept pts)
  = Rsum (map (fun p => pw p * ((a - slope pts) * px p + (b - icept pts)) ^ 2) pts).
Proof.
  intros HD. rewrite !wsse_expand.
  rewrite <- (normal_1 pts HD), <- (normal_2 pts HD).
  generalize (slope pts) (icept pts). intros s i.
  replace (Rsum (map (fun p => pw p * ((a - s) * px p + (b - i)) ^ 2) pts))
    with ((a-s)*(a-s)*S2 pts + 2*(a-s)*(b-i)*S1 pts + (b-i)*(b-i)*S0 pts).
  - ring.
  - clear HD. unfold S0, S1, S2. induction pts as [|p l IH]; simpl; [lra|].
    simpl in IH. rewrite <- IH. ring.
Qed.

Lemma best_line pts : well_posed pts -> is_best_line pts (slope pts) (icept pts).
Proof.
  intros W a' b' Hne. assert (HD := D_pos pts W).
  enough (0 < wsse pts a' b' - wsse pts (slope pts) (icept pts)) by lra.
  rewrite wsse_diff by lra.
  destruct W as (H & p & q & Hp & Hq & Wp & Wq & Hx). rewrite Forall_forall in H.
  set (s := slope pts) in *. set (i := icept pts) in *.
  apply Rsum_map_pos.
  - intros r Hr. apply Rmult_le_pos; [auto | apply pow2_ge_0].
  - assert (Hn : (a' - s) * px p + (b' - i) <> 0 \/ (a' - s) * px q + (b' - i) <> 0).
    { destruct (Req_dec ((a' - s) * px p + (b' - i)) 0) as [E1|]; [|auto].
      destruct (Req_dec ((a' - s) * px q + (b' - i)) 0) as [E2|]; [|auto].
      exfalso. apply Hne.
      assert ((a' - s) * (px p - px q) = 0) by lra.
      apply Rmult_integral in H0. destruct H0; [|lra].
      assert (b' = i) by (rewrite H0 in E1; lra). f_equal; lra. }
    destruct Hn as [Hn|Hn]; [exists p | exists q]; (split; [trivial|]);
      apply Rmult_lt_0_compat; trivial;
      (match goal with |- 0 < ?e ^ 2 => replace (e ^ 2) with (Rsqr e) by (unfold Rsqr; ring) end);
      now apply Rsqr_pos_lt.
Qed.

(** uniqueness: any best line is (slope, icept) *)
Lemma best_line_unique pts a b a' b' :
  is_best_line pts a b -> is_best_line pts a' b' -> a = a' /\ b = b'.
Proof.
  intros H H'.
  destruct (Req_dec a a') as [E|E]; destruct (Req_dec b b') as [F|F]; auto; exfalso;
    (assert (L1 := H a' b'); assert (L2 := H' a b));
    (assert (wsse pts a b < wsse pts a' b') by (apply L1; congruence));
    (assert (wsse pts a' b' < wsse pts a b) by (apply L2; congruence)); lra.
Qed.

(** ** The code computes these formulas *)

Lemma points_maps n x y :
  length x = length n -> length y = length n ->
  map pw (points n x y) = n /\ map px (points n x y) = x /\ map py (points n x y) = y.
Proof.
  revert x y; induction n as [|w n IH]; intros [|s x] [|t y]; simpl; intros; try lia; auto.
  destruct (IH x y) as (A & B & C); try lia. simpl. now rewrite A, B, C.
Qed.
Lemma points_of_maps pts : points (map pw pts) (map px pts) (map py pts) = pts.
Proof. induction pts as [|[[? ?] ?] l IH]; simpl; [reflexivity|]. now rewrite IH. Qed.

Lemma map2_map_pts {C} (f : R -> R -> C) (pts : list point) g h :
  map2 f (map g pts) (map h pts) = map (fun p => f (g p) (h p)) pts.
Proof. rewrite map2_map, map2_diag. reflexivity. Qed.

(** the slope and intercept weights of the fit *)
Definition wsl (pts : list point) (p : point) : R := pw p * (S0 pts * px p - S1 pts) / D pts.
Definition wic (pts : list point) (p : point) : R := pw p * (S2 pts - S1 pts * px p) / D pts.

Definition fits (pts : list point) : list xr := map (fun p => Fin (px p)) pts.

Lemma fin_map {A} (f : A -> R) l : fin (map f l) = map (fun a => Fin (f a)) l.
Proof. unfold fin. now rewrite map_map. Qed.

Lemma V0_eq pts : xsum (fin (map pw pts)) = Fin (S0 pts).
Proof. apply xsum_fin. Qed.
Lemma V1_eq pts : xsum (map2 xmul (fin (map pw pts)) (fin (map px pts))) = Fin (S1 pts).
Proof.
  rewrite !fin_map. rewrite map2_map, map2_diag. simpl. apply xsum_map_Fin.
Qed.
Lemma V2_eq pts : xsum (map2 (fun n t => xmul n (xmul t t)) (fin (map pw pts)) (fin (map px pts))) = Fin (S2 pts).
Proof.
  rewrite !fin_map. rewrite map2_map, map2_diag. simpl. apply xsum_map_Fin.
Qed.

(** general form: finite weights and abscissae, arbitrary ordinates *)
Lemma lr_general_all (pts : list point) :
  D pts <> 0 ->
  exists v, forall y, length y = length pts -> linear_regression (fin (map px pts)) y (fin (map pw pts))
    = Ok (xsum (map2 xmul (map (fun p => Fin (wsl pts p)) pts) y),
          xsum (map2 xmul (map (fun p => Fin (wic pts p)) pts) y), v).
Proof.
  intros HD. unfold linear_regression.
  rewrite !fin_length, !map_length, Nat.eqb_refl. cbn [negb].
  rewrite V0_eq, V1_eq, V2_eq.
  change (xsub (xmul (Fin (S0 pts)) (Fin (S2 pts))) (xmul (Fin (S1 pts)) (Fin (S1 pts))))
    with (Fin (D pts)).
  set (ws := map2 _ (fin (map pw pts)) (fin (map px pts))).
  set (wi := map2 (fun n t => xdiv (xmul n (xsub (Fin (S2 pts)) (xmul (Fin (S1 pts)) t))) (Fin (D pts))) _ _).
  assert (Ews : ws = map (fun p => Fin (wsl pts p)) pts).
  { unfold ws. rewrite !fin_map, map2_map, map2_diag. apply map_ext. intros p.
    unfold xsub. simpl. destruct (Req_EM_T (D pts) 0); [contradiction|]. reflexivity. }
  assert (Ewi : wi = map (fun p => Fin (wic pts p)) pts).
  { unfold wi. rewrite !fin_map, map2_map, map2_diag. apply map_ext. intros p.
    unfold xsub. simpl. destruct (Req_EM_T (D pts) 0); [contradiction|]. reflexivity. }
  rewrite Ews, Ewi. eexists. intros y Hl.
  unfold bcast_mul. rewrite !map_length, Hl, Nat.eqb_refl. cbn [bind]. reflexivity.
Qed.

Lemma lr_general (pts : list point) (y : col) :
  length y = length pts -> D pts <> 0 ->
  exists v, linear_regression (fin (map px pts)) y (fin (map pw pts))
    = Ok (xsum (map2 xmul (map (fun p => Fin (wsl pts p)) pts) y),
          xsum (map2 xmul (map (fun p => Fin (wic pts p)) pts) y), v).
Proof. intros Hl HD. destruct (lr_general_all pts HD) as [v H]. eauto. Qed.

Lemma sum_wsl pts : D pts <> 0 -> Rsum (map (wsl pts) pts) = 0.
Proof.
  intros. unfold wsl.
  rewrite (Rsum_map_ext _ (fun p => (S0 pts / D pts) * (pw p * px p) + (- S1 pts / D pts) * pw p)).
  2:{ intros. field. trivial. }
  rewrite Rsum_map_plus, !Rsum_map_scal. change (Rsum (map pw pts)) with (S0 pts).
  change (Rsum (map (fun p => pw p * px p) pts)) with (S1 pts). field. trivial.
Qed.
Lemma sum_wsl_x pts : D pts <> 0 -> Rsum (map (fun p => wsl pts p * px p) pts) = 1.
Proof.
  intros. unfold wsl.
  rewrite (Rsum_map_ext _ (fun p => (S0 pts / D pts) * (pw p * (px p * px p)) + (- S1 pts / D pts) * (pw p * px p))).
  2:{ intros. field. trivial. }
  rewrite Rsum_map_plus, !Rsum_map_scal. fold (S2 pts) (S1 pts).
  change (Rsum (map (fun p => pw p * px p) pts)) with (S1 pts).
  change (Rsum (map (fun p => pw p * (px p * px p)) pts)) with (S2 pts).
  unfold D in *. field. trivial.
Qed.
Lemma sum_wic pts : D pts <> 0 -> Rsum (map (wic pts) pts) = 1.
Proof.
  intros. unfold wic.
  rewrite (Rsum_map_ext _ (fun p => (S2 pts / D pts) * pw p + (- S1 pts / D pts) * (pw p * px p))).
  2:{ intros. field. trivial. }
  rewrite Rsum_map_plus, !Rsum_map_scal. change (Rsum (map pw pts)) with (S0 pts).
  change (Rsum (map (fun p => pw p * px p) pts)) with (S1 pts). unfold D in *. field. trivial.
Qed.
Lemma sum_wic_x pts : D pts <> 0 -> Rsum (map (fun p => wic pts p * px p) pts) = 0.
Proof.
  intros. unfold wic.
  rewrite (Rsum_map_ext _ (fun p => (S2 pts / D pts) * (pw p * px p) + (- S1 pts / D pts) * (pw p * (px p * px p)))).
  2:{ intros. field. trivial. }
  rewrite Rsum_map_plus, !Rsum_map_scal.
  change (Rsum (map (fun p => pw p * px p) pts)) with (S1 pts).
  change (Rsum (map (fun p => pw p * (px p * px p)) pts)) with (S2 pts). field. trivial.
Qed.

Lemma sum_wsl_y pts : D pts <> 0 -> Rsum (map (fun p => wsl pts p * py p) pts) = slope pts.
Proof.
  intros. unfold wsl.
  rewrite (Rsum_map_ext _ (fun p => (S0 pts / D pts) * (pw p * px p * py p) + (- S1 pts / D pts) * (pw p * py p))).
  2:{ intros. field. trivial. }
  rewrite Rsum_map_plus, !Rsum_map_scal.
  unfold slope, T1, T0. field. trivial.
Qed.
Lemma sum_wic_y pts : D pts <> 0 -> Rsum (map (fun p => wic pts p * py p) pts) = icept pts.
Proof.
  intros. unfold wic.
  rewrite (Rsum_map_ext _ (fun p => (S2 pts / D pts) * (pw p * py p) + (- S1 pts / D pts) * (pw p * px p * py p))).
  2:{ intros. field. trivial. }
  rewrite Rsum_map_plus, !Rsum_map_scal.
  unfold icept, T1, T0. field. trivial.
Qed.

Lemma lr_points pts :
  D pts <> 0 ->
  exists v, linear_regression (fin (map px pts)) (fin (map py pts)) (fin (map pw pts))
    = Ok (Fin (slope pts), Fin (icept pts), v).
Proof.
  intros HD. destruct (lr_general pts (fin (map py pts))) as [v Hv];
    [now rewrite fin_length, map_length | trivial |].
  exists v. rewrite Hv. rewrite fin_map, !map2_map, !map2_diag. simpl.
  rewrite !xsum_map_Fin, sum_wsl_y, sum_wic_y by trivial. reflexivity.
Qed.

(** the variance *)
Lemma lr_points_var pts :
  D pts <> 0 -> Forall (fun p => 0 < pw p) pts ->
  linear_regression (fin (map px pts)) (fin (map py pts)) (fin (map pw pts))
    = Ok (Fin (slope pts), Fin (icept pts), Fin (S0 pts / D pts)).
Proof.
  intros HD Hw. destruct (lr_points pts HD) as [v Hv]. rewrite Hv. do 2 f_equal.
  revert Hv. unfold linear_regression.
  rewrite !fin_length, !map_length, Nat.eqb_refl. cbn [negb].
  rewrite V0_eq, V1_eq, V2_eq.
  change (xsub (xmul (Fin (S0 pts)) (Fin (S2 pts))) (xmul (Fin (S1 pts)) (Fin (S1 pts))))
    with (Fin (D pts)).
  set (ws := map2 (fun n t => xdiv (xmul n (xsub (xmul (Fin (S0 pts)) t) (Fin (S1 pts)))) (Fin (D pts))) _ _).
  assert (Ews : ws = map (fun p => Fin (wsl pts p)) pts).
  { unfold ws. rewrite !fin_map, map2_map, map2_diag. apply map_ext. intros p.
    unfold xsub. simpl. destruct (Req_EM_T (D pts) 0); [contradiction|]. reflexivity. }
  destruct (bcast_mul ws _); [|discriminate]. cbn [bind].
  destruct (bcast_mul _ _); [|discriminate]. cbn [bind].
  intros [= _ _ <-]. rewrite Ews, fin_map, map2_map, map2_diag.
  rewrite Forall_forall in Hw.
  rewrite (map_ext_in _ (fun p => Fin (1 / pw p * wsl pts p * wsl pts p))).
  2:{ intros p Hp. specialize (Hw p Hp). destruct (Req_EM_T (pw p) 0); [lra|]. reflexivity. }
  rewrite xsum_map_Fin. f_equal.
  rewrite (Rsum_map_ext _ (fun p => (S0 pts / D pts) * (wsl pts p * px p) + (- S1 pts / D pts) * wsl pts p)).
  2:{ intros p Hp. specialize (Hw p Hp). unfold wsl. field. split; [trivial|lra]. }
  rewrite Rsum_map_plus, !Rsum_map_scal, sum_wsl_x, sum_wsl by trivial. field. trivial.
Qed.

(** degenerate: all abscissae equal *)
Lemma degenerate_weights pts x0 :
  (forall p, In p pts -> px p = x0) -> D pts = 0 /\
  (forall p, In p pts -> pw p * (S0 pts * px p - S1 pts) = 0
                      /\ pw p * (S2 pts - S1 pts * px p) = 0).
Proof.
  intros H.
  assert (E1 : S1 pts = S0 pts * x0).
  { unfold S1, S0. rewrite <- Rsum_map_mult_r. apply Rsum_map_ext. intros. rewrite H by trivial. ring. }
  assert (E2 : S2 pts = S0 pts * x0 * x0).
  { unfold S2, S0. rewrite Rmult_assoc, <- Rsum_map_mult_r. apply Rsum_map_ext. intros. rewrite H by trivial. ring. }
  split. { unfold D. rewrite E1, E2. ring. }
  intros p Hp. rewrite (H p Hp), E1, E2. split; ring.
Qed.

(** zero determinant with non-negative weights: numerators vanish as well *)
Lemma D0_weights pts :
  Forall (fun p => 0 <= pw p) pts -> D pts = 0 ->
  forall p, In p pts -> pw p * (S0 pts * px p - S1 pts) = 0
                      /\ pw p * (S2 pts - S1 pts * px p) = 0.
Proof.
  intros H HD p Hp.
  assert (H' := H). rewrite Forall_forall in H'.
  assert (Z : forall a b, In a pts -> In b pts -> pw a * pw b * (px a - px b) ^ 2 = 0).
  { intros a b Ha Hb.
    assert (P : 0 <= pw a * pw b * (px a - px b) ^ 2).
    { apply Rmult_le_pos; [apply Rmult_le_pos; auto | apply pow2_ge_0]. }
    destruct (Rle_lt_or_eq_dec _ _ P) as [L|E]; [|auto].
    - exfalso. assert (0 < 2 * D pts); [|lra]. rewrite lagrange. apply Rsum_map_pos.
      + intros c Hc. apply Rsum_map_nonneg. intros d Hd.
        apply Rmult_le_pos; [apply Rmult_le_pos; auto | apply pow2_ge_0].
      + exists a. split; trivial. apply Rsum_map_pos; [|eauto].
        intros d Hd. apply Rmult_le_pos; [apply Rmult_le_pos; auto | apply pow2_ge_0]. }
  assert (Z' : forall b, In b pts -> pw p * pw b * (px p - px b) = 0).
  { intros b Hb. specialize (Z p b Hp Hb).
    apply Rmult_integral in Z as [Z|Z]; [rewrite Z; ring|].
    simpl in Z. rewrite Rmult_1_r in Z.
    apply Rmult_integral in Z as [Z|Z]; rewrite Z; ring. }
  split.
  - transitivity (Rsum (map (fun b => pw p * pw b * (px p - px b)) pts)).
    + unfold S0, S1. clear -p. induction pts as [|b l IH]; simpl; [ring|]. rewrite <- IH. ring.
    + apply Rsum_map_zero. auto.
  - transitivity (Rsum (map (fun b => (- px b) * (pw p * pw b * (px p - px b))) pts)).
    + unfold S2, S1. clear -p. induction pts as [|b l IH]; simpl; [ring|]. rewrite <- IH. ring.
    + apply Rsum_map_zero. intros. rewrite Z' by trivial. ring.
Qed.

Lemma lr_D0 pts y :
  pts <> [] -> length y = length pts -> D pts = 0 ->
  (forall p, In p pts -> pw p * (S0 pts * px p - S1 pts) = 0
                      /\ pw p * (S2 pts - S1 pts * px p) = 0) ->
  exists v, linear_regression (fin (map px pts)) y (fin (map pw pts)) = Ok (NaN, NaN, v).
Proof.
  intros Hne Hl HD H. unfold linear_regression.
  rewrite !fin_length, !map_length, Nat.eqb_refl. cbn [negb].
  rewrite V0_eq, V1_eq, V2_eq.
  change (xsub (xmul (Fin (S0 pts)) (Fin (S2 pts))) (xmul (Fin (S1 pts)) (Fin (S1 pts))))
    with (Fin (D pts)).
  set (ws := map2 _ (fin (map pw pts)) (fin (map px pts))).
  set (wi := map2 (fun n t => xdiv (xmul n (xsub (Fin (S2 pts)) (xmul (Fin (S1 pts)) t))) (Fin (D pts))) _ _).
  assert (Ews : ws = map (fun p => NaN) pts).
  { unfold ws. rewrite !fin_map, map2_map, map2_diag. apply map_ext_in. intros p Hp.
    unfold xsub. simpl. destruct (Req_EM_T (D pts) 0); [|contradiction].
    destruct (H p Hp) as [E _].
    destruct (Req_EM_T _ 0) as [|N]; [reflexivity|]. exfalso. apply N. rewrite <- E. ring. }
  assert (Ewi : wi = map (fun p => NaN) pts).
  { unfold wi. rewrite !fin_map, map2_map, map2_diag. apply map_ext_in. intros p Hp.
    unfold xsub. simpl. destruct (Req_EM_T (D pts) 0); [|contradiction].
    destruct (H p Hp) as [_ E].
    destruct (Req_EM_T _ 0) as [|N]; [reflexivity|]. exfalso. apply N. rewrite <- E. ring. }
  rewrite Ews, Ewi. unfold bcast_mul. rewrite !map_length, Hl, Nat.eqb_refl. cbn [bind].
  assert (E : xsum (map2 xmul (map (fun _ => NaN) pts) y) = NaN).
  { apply xsum_NaN. destruct pts; [congruence|]. destruct y; [discriminate|]. left. reflexivity. }
  rewrite E. eexists. reflexivity.
Qed.

Lemma lr_empty : linear_regression [] [] [] = Ok (Fin 0, Fin 0, Fin 0).
Proof. reflexivity. Qed.

Lemma map2_xmul_add (pts : list point) (f : point -> R) (y z : col) :
  length y = length pts -> length z = length pts ->
  xsum (map2 xmul (map (fun p => Fin (f p)) pts) (map2 xadd y z))
  = xadd (xsum (map2 xmul (map (fun p => Fin (f p)) pts) y))
         (xsum (map2 xmul (map (fun p => Fin (f p)) pts) z)).
Proof.
  revert y z. induction pts as [|p l IH]; intros [|a y] [|b z] Hy Hz; try discriminate.
  - simpl. f_equal; lra.
  - cbn [map]. rewrite !map2_cons. cbn [xsum fold_right]. fold xsum.
    change (fold_right xadd (Fin 0)) with xsum.
    rewrite xmul_Fin_distr, (IH y z) by (simpl in *; lia).
    rewrite <- !xadd_assoc. f_equal. rewrite !xadd_assoc. f_equal. apply xadd_comm.
Qed.

Lemma map2_xmul_scale (pts : list point) (f : point -> R) c (y : col) :
  length y = length pts ->
  xsum (map2 xmul (map (fun p => Fin (f p)) pts) (map (xmul (Fin c)) y))
  = xmul (Fin c) (xsum (map2 xmul (map (fun p => Fin (f p)) pts) y)).
Proof.
  intros. rewrite <- xsum_scale by auto. f_equal.
  rewrite map2_map_r, map_map2, !map2_map_l. apply map2_ext. intros p a _.
  rewrite !xmul_Fin_assoc. f_equal. f_equal. ring.
Qed.

(** with ordinates given separately *)
Definition set_y (pts : list point) (y : list R) : list point :=
  map2 (fun p t => (pw p, px p, t)) pts y.
Lemma set_y_pw pts y : length y = length pts -> map pw (set_y pts y) = map pw pts.
Proof. revert y; induction pts; intros [|t y]; intros H; try discriminate; auto.
  unfold set_y in *. rewrite ?map2_cons. cbn [map]. rewrite IHpts by (simpl in H; lia). reflexivity. Qed.
Lemma set_y_px pts y : length y = length pts -> map px (set_y pts y) = map px pts.
Proof. revert y; induction pts; intros [|t y]; intros H; try discriminate; auto.
  unfold set_y in *. rewrite ?map2_cons. cbn [map]. rewrite IHpts by (simpl in H; lia). reflexivity. Qed.
Lemma set_y_py pts y : length y = length pts -> map py (set_y pts y) = y.
Proof. revert y; induction pts; intros [|t y]; intros H; try discriminate; auto.
  unfold set_y in *. rewrite ?map2_cons. cbn [map]. rewrite IHpts by (simpl in H; lia). reflexivity. Qed.

Lemma D_ext pts pts' : map pw pts = map pw pts' -> map px pts = map px pts' ->
  S0 pts = S0 pts' /\ S1 pts = S1 pts' /\ S2 pts = S2 pts'.
Proof.
  revert pts'. unfold S0, S1, S2. induction pts as [|p l IH]; intros [|q m]; simpl; intros A B;
    try discriminate; auto.
  injection A as A1 A2. injection B as B1 B2.
  destruct (IH m A2 B2) as (E0 & E1 & E2). rewrite E0, E1, E2, A1, B1. auto.
Qed.

Lemma well_posed_ext pts pts' : map pw pts = map pw pts' -> map px pts = map px pts' ->
  well_posed pts -> well_posed pts'.
Proof.
  intros A B (H & p & q & Hp & Hq & W1 & W2 & W3).
  assert (E : map (fun p => (pw p, px p)) pts = map (fun p => (pw p, px p)) pts').
  { clear -A B. revert pts' A B. induction pts as [|p l IH]; intros [|q m]; simpl; intros A B;
      try discriminate; auto.
    injection A as A1 A2. injection B as B1 B2. rewrite (IH m A2 B2), A1, B1. reflexivity. }
  assert (F : forall p, In p pts -> exists p', In p' pts' /\ pw p' = pw p /\ px p' = px p).
  { intros r Hr. apply (in_map (fun p => (pw p, px p))) in Hr. rewrite E in Hr.
    apply in_map_iff in Hr as (r' & Er & Hr'). injection Er as E1 E2. exists r'. auto. }
  split.
  - rewrite <- Forall_map with (f := pw) (P := fun w => 0 <= w).
    rewrite <- A. rewrite Forall_map. exact H.
  - destruct (F p Hp) as (p' & I1 & I2 & I3). destruct (F q Hq) as (q' & J1 & J2 & J3).
    exists p', q'. rewrite I2, J2, I3, J3. auto.
Qed.
