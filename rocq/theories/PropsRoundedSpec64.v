(** * C96, continued: a concrete case of the bounds on the computed spectrum, in binary64 *)
From Coq Require Import Reals List ZArith Bool Lra Lia Psatz.
From Verif Require Import XReal PyBase ModelUtils ModelMRQ ModelStructure ModelCumulants ModelSpectrum ModelEstimation
  Spec SpecMRQ LXReal LReg LUtils LBase LEst LMoment LCum LEntropy PropsEstimators PropsMono PropsFinite PropsStable PropsStableFloat.
From Verif Require Import ModelRoundedEst PropsRoundedEst PropsRoundedEst64 ModelRoundedSpec PropsRoundedSpec.
Import ListNotations.
Open Scope R_scope.

Lemma eta64_tiny : eta64 <= / 72057594037927936.
Proof.
  replace 72057594037927936 with (2 ^ 56) by (cbn [pow]; lra). unfold PropsBinary64.eta64.
  apply Rinv_le_contravar; [apply pow_lt; lra|]. apply Rle_pow; [lra|]. apply Nat.leb_le. reflexivity.
Qed.
(** h(-1) and D(-1) of the quantity of three scales 2,.,-2 / 4, 4 / -8 are computed to 13 digits *)
Example C96_spectrum_case : exists sp sp',
  MultifractalSpectrum demo 1 3 false (QArr [-1; 0; 2]) = Ok sp /\ MultifractalSpectrum_f arith64 demo 1 3 false (QArr [-1; 0; 2]) = Ok sp' /\
  (exists x y, at2 (ms_hq sp) 0 0 = Fin x /\ at2 (ms_hq sp') 0 0 = Fin y /\ Rabs (y - x) <= / 10 ^ 13) /\
  (exists y, at2 (ms_Dq sp') 0 0 = Fin y /\ Rabs (y - 1) <= / 10 ^ 13).
Proof.
  destruct (demo_estimators false) as (sf & cu & sp & hm & Es & Ec & Ep & Eh & V1 & V2 & _ & V4 & V3).
  assert (U := u64_small). assert (T := eta64_small). fold eps in U, T. assert (EE : eps = / 9000000000000000) by reflexivity.
  assert (TT := eta64_tiny).
  assert (SD : spread false demo 1 3 0 = sqrt (2 / 3)) by apply demo_close.
  assert (LG : log2R 2 = 1 /\ log2R 4 = 2 /\ log2R 8 = 3).
  { assert (X1 := log2_pow 1). assert (X2 := log2_pow 2). assert (X3 := log2_pow 3).
    replace (2 ^ 1) with 2 in X1 by (cbn; lra). replace (2 ^ 2) with 4 in X2 by (cbn; lra). replace (2 ^ 3) with 8 in X3 by (cbn; lra).
    rewrite X1, X2, X3. cbn. repeat split; lra. }
  destruct LG as (L2 & L4 & L8).
  destruct (C96_spectrum arith64 u64 u64 eta64 demo 3 2 _ 1 3 false sp (proj1 U) (Rle_refl _) (proj1 T) accurate_arith64 demo_regular demo_counted
    ltac:(lia) ltac:(lia) ltac:(lia) Ep) as (sp' & Ep' & Ks).
  exists sp, sp'. do 2 (split; [assumption|]).
  replace (/ 10 ^ 13) with (900 * eps) in * by (rewrite EE; field).
  assert (N1 : numbers demo 1 0 = [2; -2]) by reflexivity. assert (N2 : numbers demo 2 0 = [4; 4]) by reflexivity. assert (N3 : numbers demo 3 0 = [-8]) by reflexivity.
  assert (A2 : Rabs 2 = 2) by (apply Rabs_pos_eq; lra). assert (Am2 : Rabs (-2) = 2) by (rewrite Rabs_left; lra).
  assert (A4 : Rabs 4 = 4) by (apply Rabs_pos_eq; lra). assert (Am8 : Rabs (-8) = 8) by (rewrite Rabs_left; lra).
  assert (RP : forall x, 0 < x -> Rpower x (-1) = / x) by (intros x Hx; replace (-1) with (- (1)) by lra; rewrite Rpower_Ropp, Rpower_1; trivial).
  set (t := 21 / 10 * eps).
  destruct (Ks 0%nat 0%nat t 3 1 2%nat ltac:(lia) ltac:(cbn; lia)) as [(a & b & A & B & _ & K) (a' & b' & A' & B' & _ & K')].
  { intros j Hj. split; [apply demo_usable; [exact Hj|lia]|]. cbn [nth].
    assert (H1 : Rpower 2 (- (1)) = / 2) by (replace (- (1)) with (-1) by lra; apply RP; lra). rewrite H1.
    assert (G2 : (1 + u64) ^ 2 <= 1 + t). { apply Rle_trans with ((1 + eps) ^ 2); [apply pow_incr; lra|]. unfold t. rewrite EE. cbn [pow]. lra. }
    assert (TV : 0 <= t <= / 100 /\ u64 <= t) by (unfold t; rewrite EE in *; lra).
    assert (ET : eta64 <= t * / 8) by (unfold t; rewrite EE in *; lra).
    destruct (demo_scale j Hj) as [-> | [-> | ->]]; rewrite ?N1, ?N2, ?N3; (split; [repeat constructor; lra|]); cbn [length]; (split; [lia|]); (split; [split; [apply TV|split; [apply TV|split; [exact G2|]]]|]);
      intros x Hx; cbn [In] in Hx; repeat destruct Hx as [<-|Hx]; try contradiction; unfold share, Rsum; cbn [map fold_right]; rewrite ?A2, ?Am2, ?A4, ?Am8, ?RP by lra; rewrite ?L2, ?L4, ?L8, ?(Rabs_pos_eq _) by lra; lra. }
  assert (FS : forall p, 0 <= size p <= 8 -> 0 <= error p <= 100 * eps -> error (k_fit u64 eta64 3 (sqrt (2 / 3)) p) <= 400 * eps /\ 0 <= size (k_fit u64 eta64 3 (sqrt (2 / 3)) p) <= 10).
  { intros p P1 P2. destruct (fit_small p P1 P2) as [Q1 Q2]. split; [lra|exact Q1]. }
  change (Z.to_nat (3 - 1 + 1)) with 3%nat in K, K'. rewrite SD in K, K'.
  split.
  - exists a, b. split; [exact A|]. split; [exact B|]. eapply Rle_trans; [exact K|].
    destruct (FS (k_V t 3)) as [Q _]; [| |lra]; unfold k_V, k_wmean, wmean_term; cbn [size error fst snd]; unfold t; rewrite ?EE; lra.
  - rewrite V4 in A'. injection A' as <-. exists b'. split; [exact B'|]. eapply Rle_trans; [exact K'|].
    assert (W : 0 <= error (k_wmean t (1, t * (1 + 24 * t) + 25 * t)) <= 85 * eps).
    { unfold k_wmean, wmean_term; cbn [size error fst snd]. unfold t; rewrite EE; lra. }
    assert (KU : 0 <= size (k_U t u64 u64 eta64 2 1) <= 8 /\ 0 <= error (k_U t u64 u64 eta64 2 1) <= 100 * eps).
    { unfold k_U, k_add, k_log. cbn [size error fst snd]. set (w := error (k_wmean t (1, t * (1 + 24 * t) + 25 * t))) in *.
      change (size (k_wmean t (1, t * (1 + 24 * t) + 25 * t))) with 1. clearbody w.
      change (INR 2) with (1 + 1). replace (1 + 1) with 2 by ring. rewrite L2.
      assert (X : 0 <= u64 * (1 + 1 + (u64 * 1 + eta64) + w) <= eps * 3) by (split; [apply Rmult_le_pos|apply Rmult_le_compat]; rewrite ?EE in *; lra).
      split; lra. }
    destruct KU as [Z1 Z2]. destruct (FS _ Z1 Z2) as [Q1 Q2].
    unfold k_add at 1. unfold k_exact. cbn [size error fst snd]. unfold size, error in *.
    set (s := fst (k_fit u64 eta64 3 (sqrt (2 / 3)) (k_U t u64 u64 eta64 2 1))) in *. set (e := snd (k_fit u64 eta64 3 (sqrt (2 / 3)) (k_U t u64 u64 eta64 2 1))) in *. clearbody s e.
    assert (X : u64 * (12 + 400 * eps) <= eps * 13). { apply Rmult_le_compat; rewrite ?EE in *; lra. }
    assert (Y : u64 * (Rabs 1 + s + 0 + e) <= u64 * (12 + 400 * eps)). { apply Rmult_le_compat_l; [lra|]. rewrite Rabs_R1. lra. }
    lra.
Qed.
Print Assumptions C96_spectrum_case.
