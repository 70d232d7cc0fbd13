(** * C121: runs exist, concrete cases *)
From Coq Require Import Reals List ZArith Bool Lra Lia String.
From Verif Require Import XReal PyBase ModelSimul Spec SpecSimul LXReal LBase LDft LSimul LWick PropsMrw PropsMrwStat PropsMrwCase PropsMrwScale PropsMrwScale4.
Import ListNotations.
Open Scope R_scope.
Local Notation length := List.length.

(** for all parameters there is a genuine (positive) expectation with a run of mrw_cumul *)
Theorem C121_run_exists sh c1 c2 L sigma : (2 <= shape_N sh)%nat -> c2 <= 0 -> 0 < c1 + c2 <= 1 -> 1 <= L <= INR (shape_N sh) ->
  exists W (P : expectation W) (drawn_w drawn_e : W -> noise) X, positive P /\ cumul_run P sh (shape_N sh) c1 c2 L sigma (fun _ => None) (fun _ => None) drawn_w drawn_e X.
Proof.
  intros HN Hc HH HL. destruct (C120_noise_exists (shape_R sh) (2 * shape_N sh - 2)) as (W & P & dw & de & HP & HG).
  destruct (C120_increments W P sh (shape_N sh) (c1 + c2) (sqrt (- c2)) L sigma (fun _ => None) (fun _ => None) dw de eq_refl HN HH ltac:(lra) ltac:(lra) HG) as (X & EX & SX & _).
  exists W, P, dw, de, X. split; [trivial|]. refine (conj eq_refl (conj HN (conj HH (conj HL (conj HG (conj _ SX)))))). intros w. unfold mrw_cumul. destruct (Rle_dec 0 (- c2)) as [_|n]; [apply EX|lra].
Qed.
Lemma ln4_lt2 : ln 4 < 2.
Proof. rewrite <- (ln_exp 2). apply ln_increasing; [lra|]. replace 2 with (1 + 1) by ring. rewrite exp_plus. assert (K := exp_ineq1 1 ltac:(lra)). assert (0 < exp 1) by apply exp_pos. nra. Qed.
(** c1 = 5/8, c2 = -1/8, integral scale 4, 512 samples: the fourth moment of the displacement over 4 samples is at least exp (-1/8) 4^(3/2) times the one of an increment, and at most 4 exp (1/8) 4^(3/2) times *)
Theorem C121_case : exists W (P : expectation W) (drawn_w drawn_e : W -> noise) X, positive P /\
  cumul_run P (SInt 512) 512 (5 / 8) (- (1 / 8)) 4 3 (fun _ => None) (fun _ => None) drawn_w drawn_e X /\
  exp (- (1 / 8)) * Rpower 4 (3 / 2) * inc_moment P X 4 0 7 <= moment P X 4 0 100 4 <= 4 * exp (1 / 8) * Rpower 4 (3 / 2) * inc_moment P X 4 0 7 /\
  exp (- (1 / 8)) * 4 * inc_moment P X 2 0 7 <= moment P X 2 0 100 4 <= exp (1 / 8) * 4 * inc_moment P X 2 0 7.
Proof.
  assert (I512 : INR 512 = 512) by (now rewrite INR_IZR_INZ). assert (I4 : INR 4 = 4) by (now rewrite INR_IZR_INZ).
  destruct (C121_run_exists (SInt 512) (5 / 8) (- (1 / 8)) 4 3) as (W & P & dw & de & X & HP & RUN); [cbn; lia|lra|lra|cbn [shape_N]; lra|]. cbn [shape_N] in RUN.
  exists W, P, dw, de, X. split; [trivial|]. split; [trivial|].
  assert (L4 := ln4_lt2). destruct (C121_cumulants W P (SInt 512) 512 (5 / 8) (- (1 / 8)) 4 3 _ _ dw de X ltac:(lra) ltac:(lra) RUN ltac:(lra) 0%nat 100%nat 4%nat 7%nat ltac:(cbn; lia) ltac:(lia) ltac:(lra) ltac:(lia) ltac:(lia)) as [A B].
  rewrite I4 in A, B. replace (scaling_exponent (5 / 8) (- (1 / 8)) 2) with 1 in A by (unfold scaling_exponent; field). rewrite Rpower_1 in A by lra. replace (scaling_exponent (5 / 8) (- (1 / 8)) 4) with (3 / 2) in B by (unfold scaling_exponent; field).
  replace (- - (1 / 8)) with (1 / 8) in A, B by ring. split; [|exact A]. replace (4 * exp (1 / 8)) with (2 * exp (1 / 8) / (1 + 4 * - (1 / 8))) by field. exact B.
Qed.
(** c1 = 3/4 + 1/8, c2 = -1/8 (H = 3/4): some run does not follow the law it was asked for: between 1 and l samples the second moment does not grow by l^(3/2), up to a factor 1000 either way *)
Theorem C121_refuted_case : exists W (P : expectation W) sh N L (drawn_w drawn_e : W -> noise) X l, positive P /\
  cumul_run P sh N (7 / 8) (- (1 / 8)) L 1 (fun _ => None) (fun _ => None) drawn_w drawn_e X /\ INR l <= L /\
  ~ (1 / 1000 * Rpower (INR l) (3 / 2) * inc_moment P X 2 0 0 <= moment P X 2 0 0 l <= 1000 * Rpower (INR l) (3 / 2) * inc_moment P X 2 0 0).
Proof.
  destruct (C121_cumulants_refuted (7 / 8) (- (1 / 8)) (1 / 1000) 1000 ltac:(lra) ltac:(lra) ltac:(lra) ltac:(lra) ltac:(lra)) as (l0 & L0 & K).
  set (L := Rmax (Rmax 1 L0) (INR l0)). assert (M1 := Rmax_l (Rmax 1 L0) (INR l0)). assert (M2 := Rmax_r (Rmax 1 L0) (INR l0)). assert (M3 := Rmax_l 1 L0). assert (M4 := Rmax_r 1 L0). fold L in M1, M2.
  assert (ln0 : 0 <= ln L). { rewrite <- ln_1. destruct (Rle_lt_or_eq_dec 1 L ltac:(lra)) as [Q|Q]; [left; apply ln_increasing; lra|rewrite <- Q; right; reflexivity]. }
  assert (AR : exists N, (l0 + 2 <= N)%nat /\ L <= INR N /\ 64 * L * ln L <= INR N).
  { destruct (archimed (L + 64 * L * ln L + INR (l0 + 2))) as [A _]. assert (P0 := pos_INR (l0 + 2)). assert (0 <= 64 * L * ln L) by (apply Rmult_le_pos; [lra|trivial]). exists (Z.to_nat (up (L + 64 * L * ln L + INR (l0 + 2)))).
    assert (E : INR (Z.to_nat (up (L + 64 * L * ln L + INR (l0 + 2)))) = IZR (up (L + 64 * L * ln L + INR (l0 + 2)))) by (rewrite INR_IZR_INZ, Z2Nat.id; [reflexivity|apply le_IZR; lra]).
    split; [apply INR_le; lra|]. split; lra. }
  destruct AR as (N & N1 & N2 & N3).
  destruct (C121_run_exists (SInt N) (7 / 8) (- (1 / 8)) L 1) as (W & P & dw & de & X & HP & RUN); [cbn; lia|lra|lra|cbn [shape_N]; lra|]. cbn [shape_N] in RUN.
  exists W, P, (SInt N), N, L, dw, de, X, l0. split; [trivial|]. split; [trivial|]. split; [trivial|].
  assert (Q := K W P (SInt N) N L 1 _ _ dw de X RUN ltac:(lra) N3 ltac:(lra) 0%nat 0%nat l0 0%nat ltac:(cbn; lia) (le_n l0) ltac:(lia) ltac:(lia)).
  replace (scaling_exponent (7 / 8) (- (1 / 8)) 2) with (3 / 2) in Q by (unfold scaling_exponent; field). exact Q.
Qed.
Print Assumptions C121_refuted_case.
