(** * C88: the fitted exponents are unbiased with the reported variance, and optimal *)
From Coq Require Import Reals List ZArith Bool Lra Lia.
From Verif Require Import XReal PyBase ModelUtils Spec SpecSimul LXReal LBase LReg LDft LSimul.
Import ListNotations.
Open Scope R_scope.
Local Notation length := List.length.

(** the ordinates [y] are random; their means lie on the line a x + b; they are uncorrelated and the variance of y[i] is
    s2 / n[i] (an average of n[i] terms of variance s2) *)
Definition noisy_line {W} (P : expectation W) (n x : list R) (y : W -> list R) (a b s2 : R) : Prop :=
  (forall w, length (y w) = length n) /\
  (forall i, (i < length n)%nat -> integrable P (fun w => nth i (y w) 0) /\ E P (fun w => nth i (y w) 0) = a * nth i x 0 + b) /\
  (forall i j, (i < length n)%nat -> (j < length n)%nat -> integrable P (fun w => nth i (y w) 0 * nth j (y w) 0) /\
     Cov P (fun w => nth i (y w) 0) (fun w => nth j (y w) 0) = if Nat.eq_dec i j then s2 / nth i n 0 else 0).
(** at least two points with distinct abscissae *)
Definition two_abscissae (x : list R) : Prop := exists s t, In s x /\ In t x /\ s <> t.
(** the linear estimator with coefficients u *)
Definition combination (u y : list R) : R := Rsum (map (fun p => fst p * snd p) (combine u y)).
(** it is unbiased for the slope, whatever the line *)
Definition unbiased_slope (u x : list R) : Prop := forall a b, combination u (map (fun s => a * s + b) x) = a.

Lemma Rsum_points (g : R -> R -> R -> R) : forall n x y, length x = length n -> length y = length n ->
  Rsum (map (fun p => g (pw p) (px p) (py p)) (points n x y)) = sumn (length n) (fun i => g (nth i n 0) (nth i x 0) (nth i y 0)).
Proof.
  induction n as [|w n IH]; intros [|s x] [|t y] Hx Hy; try discriminate; [reflexivity|].
  injection Hx as Hx. injection Hy as Hy. cbn [length]. rewrite sumn_S_first. cbn [points map Rsum nth pw px py fst snd].
  change (Rsum (?a :: ?l)) with (a + Rsum l). rewrite <- (IH x y Hx Hy). reflexivity.
Qed.
Lemma combination_sumn : forall u y, length y = length u -> combination u y = sumn (length u) (fun i => nth i u 0 * nth i y 0).
Proof.
  unfold combination. induction u as [|a u IH]; intros [|t y] H; try discriminate; [reflexivity|]. injection H as H.
  cbn [combine map length fst snd nth]. rewrite sumn_S_first. change (Rsum (?a :: ?l)) with (a + Rsum l). now rewrite (IH y H).
Qed.

Lemma sumn_null N f : (forall i, (i < N)%nat -> 0 <= f i) -> sumn N f = 0 -> forall i, (i < N)%nat -> f i = 0.
Proof.
  induction N as [|N IH]; intros H Z i Hi; [lia|]. rewrite sumn_S in Z.
  assert (A : 0 <= sumn N f) by (apply sumn_nonneg; intros; apply H; lia). assert (B := H N ltac:(lia)).
  destruct (Nat.eq_dec i N) as [->|ne]; [lra|]. apply IH; [intros; apply H; lia|lra|lia].
Qed.

Section Fit.
Variables (n x : list R).
Hypothesis Hx : length x = length n.
Hypothesis Hn : Forall (fun w => 0 < w) n.
Hypothesis H2 : two_abscissae x.
Let N := length n.
Let ni i := nth i n 0.
Let xi i := nth i x 0.
Let Q0 := sumn N ni.
Let Q1 := sumn N (fun i => ni i * xi i).
Let Q2 := sumn N (fun i => ni i * (xi i * xi i)).
Let Dt := Q0 * Q2 - Q1 * Q1.
Let ws i := ni i * (Q0 * xi i - Q1) / Dt.
Let wi i := ni i * (Q2 - Q1 * xi i) / Dt.

Lemma wp y : length y = length n -> well_posed (points n x y).
Proof using Hx Hn H2.
  intros Hy. destruct (points_maps n x y Hx Hy) as (E1 & E2 & E3). split.
  - rewrite <- E1 in Hn. rewrite Forall_map in Hn. revert Hn. apply Forall_impl. intros; lra.
  - destruct H2 as (s & t & Hs & Ht & ne). rewrite <- E2 in Hs, Ht. apply in_map_iff in Hs as (p & Ep & Hp). apply in_map_iff in Ht as (q & Eq & Hq).
    assert (A : forall r, In r (points n x y) -> 0 < pw r).
    { intros r Hr. rewrite <- E1 in Hn. rewrite Forall_map, Forall_forall in Hn. now apply Hn. }
    exists p, q. repeat split; auto. congruence.
Qed.
Lemma Q0_eq y : length y = length n -> S0 (points n x y) = Q0.
Proof using Hx. intros Hy. unfold S0. apply (Rsum_points (fun w _ _ => w) n x y Hx Hy). Qed.
Lemma Q1_eq y : length y = length n -> S1 (points n x y) = Q1.
Proof using Hx. intros Hy. unfold S1. apply (Rsum_points (fun w s _ => w * s) n x y Hx Hy). Qed.
Lemma Q2_eq y : length y = length n -> S2 (points n x y) = Q2.
Proof using Hx. intros Hy. unfold S2. apply (Rsum_points (fun w s _ => w * (s * s)) n x y Hx Hy). Qed.
Lemma D_eq y : length y = length n -> D (points n x y) = Dt.
Proof using Hx. intros Hy. unfold D. now rewrite Q0_eq, Q1_eq, Q2_eq. Qed.
Lemma Dt_pos : 0 < Dt.
Proof using Hx Hn H2. rewrite <- (D_eq n eq_refl). apply D_pos, wp. reflexivity. Qed.
Lemma fit_eq y : length y = length n ->
  linear_regression (fin x) (fin y) (fin n) = Ok (Fin (sumn N (fun i => ws i * nth i y 0)), Fin (sumn N (fun i => wi i * nth i y 0)), Fin (Q0 / Dt)).
Proof using Hx Hn H2.
  intros Hy. destruct (points_maps n x y Hx Hy) as (E1 & E2 & E3). assert (W := wp y Hy). assert (HD := D_pos _ W).
  assert (V : linear_regression (fin (map px (points n x y))) (fin (map py (points n x y))) (fin (map pw (points n x y)))
    = Ok (Fin (slope (points n x y)), Fin (icept (points n x y)), Fin (S0 (points n x y) / D (points n x y)))).
  { apply lr_points_var; [lra|]. rewrite <- E1 in Hn. now rewrite Forall_map in Hn. }
  rewrite E1, E2, E3 in V. rewrite V.
  rewrite <- sum_wsl_y, <- sum_wic_y by lra. unfold wsl, wic. rewrite Q0_eq, Q1_eq, Q2_eq, D_eq by trivial.
    rewrite (Rsum_points (fun w s t => w * (Q0 * s - Q1) / Dt * t) n x y Hx Hy), (Rsum_points (fun w s t => w * (Q2 - Q1 * s) / Dt * t) n x y Hx Hy). reflexivity.
Qed.
Lemma ni_pos i : (i < N)%nat -> 0 < ni i.
Proof using Hn. intros Hi. unfold ni. rewrite Forall_forall in Hn. apply Hn. now apply nth_In. Qed.
Lemma s_ws : sumn N ws = 0.
Proof using Hx Hn H2.
  assert (P := Dt_pos). rewrite (sumn_ext N ws (fun i => (Q0 / Dt) * (ni i * xi i) + (- Q1 / Dt) * ni i)).
  - rewrite sumn_plus, !sumn_scal. fold Q0 Q1. field. lra.
  - intros i _. unfold ws. field. lra.
Qed.
Lemma s_wsx : sumn N (fun i => ws i * xi i) = 1.
Proof using Hx Hn H2.
  assert (P := Dt_pos). rewrite (sumn_ext N _ (fun i => (Q0 / Dt) * (ni i * (xi i * xi i)) + (- Q1 / Dt) * (ni i * xi i))).
  - rewrite sumn_plus, !sumn_scal. fold Q2 Q1. unfold Dt in *. field. lra.
  - intros i _. unfold ws. field. lra.
Qed.
Lemma s_wi : sumn N wi = 1.
Proof using Hx Hn H2.
  assert (P := Dt_pos). rewrite (sumn_ext N wi (fun i => (Q2 / Dt) * ni i + (- Q1 / Dt) * (ni i * xi i))).
  - rewrite sumn_plus, !sumn_scal. fold Q0 Q1. unfold Dt in *. field. lra.
  - intros i _. unfold wi. field. lra.
Qed.
Lemma s_wix : sumn N (fun i => wi i * xi i) = 0.
Proof using Hx Hn H2.
  assert (P := Dt_pos). rewrite (sumn_ext N _ (fun i => (Q2 / Dt) * (ni i * xi i) + (- Q1 / Dt) * (ni i * (xi i * xi i)))).
  - rewrite sumn_plus, !sumn_scal. fold Q2 Q1. field. lra.
  - intros i _. unfold wi. field. lra.
Qed.
(** the variance form of an unbiased combination *)
Lemma var_gap u : sumn N u = 0 -> sumn N (fun i => u i * xi i) = 1 ->
  sumn N (fun i => u i * u i / ni i) = Q0 / Dt + sumn N (fun i => (u i - ws i) ^ 2 / ni i).
Proof using Hx Hn H2.
  intros U0 U1. assert (P := Dt_pos).
  assert (A : forall v, sumn N v = 0 -> sumn N (fun i => v i * xi i) = 1 -> sumn N (fun i => v i * ws i / ni i) = Q0 / Dt).
  { intros v V0 V1. rewrite (sumn_ext N _ (fun i => (Q0 / Dt) * (v i * xi i) + (- Q1 / Dt) * v i)).
    - rewrite sumn_plus, !sumn_scal, V0, V1. field. lra.
    - intros i Hi. assert (G := ni_pos i Hi). unfold ws. field. split; lra. }
  rewrite (sumn_ext N (fun i => (u i - ws i) ^ 2 / ni i) (fun i => u i * u i / ni i + ((-2) * (u i * ws i / ni i) + ws i * ws i / ni i))).
  - rewrite !sumn_plus, sumn_scal, (A u U0 U1), (A ws s_ws s_wsx). ring.
  - intros i Hi. assert (G := ni_pos i Hi). field. lra.
Qed.

Context {W : Type} (P : expectation W) (y : W -> list R) (a b s2 : R).
Hypothesis Hs : 0 <= s2.
Hypothesis Hy : noisy_line P n x y a b s2.
Lemma comb_mean c : integrable P (fun w => sumn N (fun i => c i * nth i (y w) 0)) /\
  E P (fun w => sumn N (fun i => c i * nth i (y w) 0)) = a * sumn N (fun i => c i * xi i) + b * sumn N c.
Proof using Hy.
  destruct Hy as (_ & M & _). split.
  - apply (int_sumn P N (fun i w => c i * nth i (y w) 0)). intros i Hi. apply int_scal. now apply M.
  - rewrite (E_sumn P N (fun i w => c i * nth i (y w) 0)). 2:{ intros i Hi. apply int_scal. now apply M. }
    rewrite <- !sumn_scal, <- sumn_plus. apply sumn_ext. intros i Hi. destruct (M i Hi) as [A B].
    rewrite (E_scal W P (c i) (fun w => nth i (y w) 0) A), B. unfold xi. ring.
Qed.
Lemma comb_var c : integrable P (fun w => sumn N (fun i => c i * nth i (y w) 0) * sumn N (fun i => c i * nth i (y w) 0)) /\
  Cov P (fun w => sumn N (fun i => c i * nth i (y w) 0)) (fun w => sumn N (fun i => c i * nth i (y w) 0)) = s2 * sumn N (fun i => c i * c i / ni i).
Proof using Hy Hn.
  destruct Hy as (_ & M & C).
  destruct (lin_prod P N c c (fun i w => nth i (y w) 0) (fun i w => nth i (y w) 0)
     (fun i j => (if Nat.eq_dec i j then s2 / nth i n 0 else 0) + (a * xi i + b) * (a * xi j + b))) as [I1 I2].
  { intros i j Hi Hj. destruct (C i j Hi Hj) as [A B]. split; [trivial|]. rewrite <- B. unfold Cov.
    rewrite (proj2 (M i Hi)), (proj2 (M j Hj)). unfold xi. ring. }
  split; [exact I1|]. unfold Cov. rewrite I2, (proj2 (comb_mean c)).
  rewrite <- sumn_scal.
  rewrite (sumn_ext N _ (fun i => s2 * (c i * c i / ni i) + (c i * (a * xi i + b)) * (a * sumn N (fun j => c j * xi j) + b * sumn N c))).
  - rewrite sumn_plus, sumn_scal_r.
    rewrite (sumn_ext N (fun i => c i * (a * xi i + b)) (fun i => a * (c i * xi i) + b * c i)) by (intros; ring).
    rewrite sumn_plus, !sumn_scal. ring.
  - intros i Hi. rewrite (sumn_ext N _ (fun j => c i * c j * (if Nat.eq_dec i j then s2 / nth i n 0 else 0) + (c i * (a * xi i + b)) * (a * (c j * xi j) + b * c j))) by (intros; ring).
    rewrite sumn_plus, sumn_scal, sumn_plus, !sumn_scal. f_equal.
    rewrite (sumn_single N _ i Hi).
    + destruct (Nat.eq_dec i i); [|congruence]. assert (G := ni_pos i Hi). unfold ni in *. field. lra.
    + intros j _ ne. destruct (Nat.eq_dec i j); [congruence|ring].
Qed.
End Fit.

(** ** C88 *)
(** the fitted slope and intercept are unbiased and the variance of the slope is s2 times the reported one *)
Theorem C88_unbiased : forall {W} (P : expectation W) (n x : list R) (y : W -> list R) (a b s2 : R),
  length x = length n -> Forall (fun w => 0 < w) n -> two_abscissae x -> noisy_line P n x y a b s2 ->
  exists (A B : W -> R) (v : R),
    (forall w, linear_regression (fin x) (fin (y w)) (fin n) = Ok (Fin (A w), Fin (B w), Fin v)) /\
    integrable P A /\ E P A = a /\ integrable P B /\ E P B = b /\
    integrable P (fun w => A w * A w) /\ Cov P A A = s2 * v /\ 0 < v.
Proof.
  intros W P n x y a b s2 Hx Hn H2 Hy. assert (D0 := Dt_pos n x Hx Hn H2). assert (Hl := proj1 Hy).
  set (N := length n) in *. set (q0 := sumn N (fun i => nth i n 0)) in *. set (q1 := sumn N (fun i => nth i n 0 * nth i x 0)) in *.
  set (q2 := sumn N (fun i => nth i n 0 * (nth i x 0 * nth i x 0))) in *. set (d := q0 * q2 - q1 * q1) in *.
  pose (ws := fun i => nth i n 0 * (q0 * nth i x 0 - q1) / d). pose (wi := fun i => nth i n 0 * (q2 - q1 * nth i x 0) / d).
  assert (F1 : sumn N ws = 0) by exact (s_ws n x Hx Hn H2).
  assert (F2 : sumn N (fun i => ws i * nth i x 0) = 1) by exact (s_wsx n x Hx Hn H2).
  assert (F5 : sumn N (fun i => ws i * ws i / nth i n 0) = q0 / d).
  { transitivity (q0 / d + sumn N (fun i => (ws i - ws i) ^ 2 / nth i n 0)); [exact (var_gap n x Hx Hn H2 ws F1 F2)|].
    rewrite (sumn_zero N (fun i => (ws i - ws i) ^ 2 / nth i n 0)); [ring|]. intros i _. unfold Rdiv. ring. }
  assert (F3 : sumn N wi = 1) by exact (s_wi n x Hx Hn H2).
  assert (F4 : sumn N (fun i => wi i * nth i x 0) = 0) by exact (s_wix n x Hx Hn H2).
  exists (fun w => sumn N (fun i => ws i * nth i (y w) 0)), (fun w => sumn N (fun i => wi i * nth i (y w) 0)), (q0 / d).
  split; [intros w; apply (fit_eq n x Hx Hn H2 (y w) (Hl w))|].
  destruct (comb_mean n x P y a b s2 Hy ws) as [A1 A2]. destruct (comb_mean n x P y a b s2 Hy wi) as [B1 B2].
  destruct (comb_var n x Hn P y a b s2 Hy ws) as [C1 C2].
  split; [exact A1|]. split. { etransitivity; [exact A2|]. fold N. rewrite F1, F2. ring. }
  split; [exact B1|]. split. { etransitivity; [exact B2|]. fold N. rewrite F3, F4. ring. }
  split; [exact C1|]. split.
  - etransitivity; [exact C2|]. f_equal. exact F5.
  - apply Rdiv_lt_0_compat; [|exact D0]. destruct H2 as (s & _ & Hs & _). unfold q0, N. destruct n as [|w n']; [destruct x; [destruct Hs|discriminate]|].
    cbn [length]. rewrite sumn_S_first. inversion_clear Hn. cbn [nth]. apply Rplus_lt_le_0_compat; [trivial|]. apply sumn_nonneg. intros i Hi. rewrite Forall_forall in H0.
    left. apply H0, nth_In, Hi.
Qed.
Print Assumptions C88_unbiased.

(** no other unbiased linear estimator of the slope does better, and none as well *)
Theorem C88_best : forall {W} (P : expectation W) (n x : list R) (y : W -> list R) (a b s2 : R) (u : list R),
  length x = length n -> Forall (fun w => 0 < w) n -> two_abscissae x -> 0 < s2 -> noisy_line P n x y a b s2 ->
  length u = length n -> unbiased_slope u x ->
  exists (A : W -> R),
    (forall w, exists B v, linear_regression (fin x) (fin (y w)) (fin n) = Ok (Fin (A w), B, v)) /\
    Cov P A A <= Cov P (fun w => combination u (y w)) (fun w => combination u (y w)) /\
    (Cov P A A = Cov P (fun w => combination u (y w)) (fun w => combination u (y w)) -> forall w, combination u (y w) = A w).
Proof.
  intros W P n x y a b s2 u Hx Hn H2 Hs Hy Hu U. assert (D0 := Dt_pos n x Hx Hn H2). assert (Hl := proj1 Hy).
  set (N := length n) in *. set (q0 := sumn N (fun i => nth i n 0)) in *. set (q1 := sumn N (fun i => nth i n 0 * nth i x 0)) in *.
  set (q2 := sumn N (fun i => nth i n 0 * (nth i x 0 * nth i x 0))) in *. set (d := q0 * q2 - q1 * q1) in *.
  pose (ws := fun i => nth i n 0 * (q0 * nth i x 0 - q1) / d).
  assert (F1 : sumn N ws = 0) by exact (s_ws n x Hx Hn H2).
  assert (F2 : sumn N (fun i => ws i * nth i x 0) = 1) by exact (s_wsx n x Hx Hn H2).
  assert (F5 : sumn N (fun i => ws i * ws i / nth i n 0) = q0 / d).
  { transitivity (q0 / d + sumn N (fun i => (ws i - ws i) ^ 2 / nth i n 0)); [exact (var_gap n x Hx Hn H2 ws F1 F2)|].
    rewrite (sumn_zero N (fun i => (ws i - ws i) ^ 2 / nth i n 0)); [ring|]. intros i _. unfold Rdiv. ring. }
  exists (fun w => sumn N (fun i => ws i * nth i (y w) 0)).
  split; [intros w; eexists; eexists; apply (fit_eq n x Hx Hn H2 (y w) (Hl w))|].
  assert (EU : forall w, combination u (y w) = sumn N (fun i => nth i u 0 * nth i (y w) 0)).
  { intros w. rewrite combination_sumn by (rewrite Hl; congruence). now rewrite Hu. }
  assert (EC : Cov P (fun w => combination u (y w)) (fun w => combination u (y w)) = s2 * sumn N (fun i => nth i u 0 * nth i u 0 / nth i n 0)).
  { etransitivity; [|exact (proj2 (comb_var n x Hn P y a b s2 Hy (fun i => nth i u 0)))]. unfold Cov. rewrite (E_ext W P _ _ EU). f_equal.
    apply E_ext. intros w. now rewrite EU. }
  assert (UL : forall a b, sumn N (fun i => nth i u 0 * (a * nth i x 0 + b)) = a).
  { intros a' b'. etransitivity; [|exact (U a' b')]. rewrite combination_sumn by (rewrite map_length; congruence). rewrite Hu. apply sumn_ext. intros i Hi.
    f_equal. rewrite (nth_indep (map (fun s => a' * s + b') x) 0 (a' * 0 + b')) by (rewrite map_length, Hx; exact Hi). symmetry. apply (map_nth (fun s => a' * s + b')). }
  assert (U0 : sumn N (fun i => nth i u 0) = 0). { etransitivity; [|exact (UL 0 1)]. apply sumn_ext. intros; ring. }
  assert (U1 : sumn N (fun i => nth i u 0 * nth i x 0) = 1). { etransitivity; [|exact (UL 1 0)]. apply sumn_ext. intros; ring. }
  assert (G : sumn N (fun i => nth i u 0 * nth i u 0 / nth i n 0) = q0 / d + sumn N (fun i => (nth i u 0 - nth i n 0 * (q0 * nth i x 0 - q1) / d) ^ 2 / nth i n 0)) by exact (var_gap n x Hx Hn H2 (fun i => nth i u 0) U0 U1).
  assert (EA : Cov P (fun w => sumn N (fun i => ws i * nth i (y w) 0)) (fun w => sumn N (fun i => ws i * nth i (y w) 0)) = s2 * (q0 / d)).
  { etransitivity; [exact (proj2 (comb_var n x Hn P y a b s2 Hy ws))|]. f_equal. exact F5. }
  set (gap := sumn N (fun i => (nth i u 0 - nth i n 0 * (q0 * nth i x 0 - q1) / d) ^ 2 / nth i n 0)) in *.
  assert (T : forall i, (i < N)%nat -> 0 <= (nth i u 0 - nth i n 0 * (q0 * nth i x 0 - q1) / d) ^ 2 / nth i n 0).
  { intros i Hi. apply Rmult_le_pos; [apply pow2_ge_0|]. left. apply Rinv_0_lt_compat. apply (ni_pos n Hn i Hi). }
  assert (G0 : 0 <= gap) by (apply sumn_nonneg; exact T).
  rewrite EC, EA, G. split.
  - apply Rmult_le_compat_l; lra.
  - intros Q w. assert (Z : gap = 0). { apply Rmult_eq_reg_l in Q; lra. }
    rewrite EU. apply sumn_ext. intros i Hi. f_equal. unfold ws.
    assert (K := sumn_null N _ T Z i Hi). cbv beta in K. assert (G1 := ni_pos n Hn i Hi). cbv beta in G1.
    apply Rmult_integral in K. destruct K as [K|K]; [|apply Rinv_neq_0_compat in K; [destruct K|lra]].
    apply Rplus_eq_reg_r with (- (nth i n 0 * (q0 * nth i x 0 - q1) / d)). rewrite Rplus_opp_r.
    destruct (Req_dec (nth i u 0 + - (nth i n 0 * (q0 * nth i x 0 - q1) / d)) 0) as [e|e]; [exact e|]. exfalso. revert K. apply pow_nonzero, e.
Qed.
Print Assumptions C88_best.

(** a concrete case: two fair coins e0, e1 (values -1, 1) and their product perturb the line 3 x + 1 at x = 1, 2, 3 with weights 4, 1, 1 *)
Definition coins : expectation (bool * bool).
Proof.
  refine (mkE _ (fun _ => True) (fun f => (f (true, true) + f (true, false) + f (false, true) + f (false, false)) / 4) _ _ _ _ _ _ _ _); auto.
  - intros f g H. now rewrite !H.
  - lra.
  - intros. lra.
  - intros. lra.
Defined.
Definition coin (b : bool) : R := if b then 1 else -1.
Example C88_case : length [1; 2; 3] = length [4; 1; 1] /\ Forall (fun w => 0 < w) [4; 1; 1] /\ two_abscissae [1; 2; 3] /\
  noisy_line coins [4; 1; 1] [1; 2; 3] (fun w => [4 + coin (fst w) / 2; 7 + coin (snd w); 10 + coin (fst w) * coin (snd w)]) 3 1 1 /\
  unbiased_slope [-1; 1; 0] [1; 2; 3] /\ unbiased_slope [-1/2; 0; 1/2] [1; 2; 3].
Proof.
  split; [reflexivity|]. split; [repeat constructor; lra|]. split; [exists 1, 2; cbn; repeat split; auto; lra|]. split; [|split].
  - split; [reflexivity|]. split.
    + intros [|[|[|i]]] Hi; cbn in Hi; try lia; (split; [exact Logic.I|]); cbn; unfold coin; field.
    + intros [|[|[|i]]] [|[|[|j]]] Hi Hj; cbn in Hi, Hj; try lia; (split; [exact Logic.I|]); cbn; unfold coin, Cov; cbn; field.
  - intros a b. unfold combination. cbn. ring.
  - intros a b. unfold combination. cbn. field.
Qed.
