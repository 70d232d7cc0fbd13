(** * C96, continued: IEEE 754 binary64 is such a machine *)
From Coq Require Import Reals List ZArith Bool Lra Lia Psatz Permutation.
From Verif Require Import XReal PyBase ModelUtils ModelMRQ ModelStructure ModelCumulants ModelSpectrum ModelEstimation
  Spec SpecMRQ LXReal LReg LUtils LBase LEst LMoment LCum LEntropy PropsEstimators PropsMono PropsFinite PropsStable PropsStableFloat.
From Verif Require PropsBinary64.
From Verif Require Import ModelRoundedEst PropsRoundedEst.
Import ListNotations.
Open Scope R_scope.
Notation rnd64 := PropsBinary64.rnd64.
Notation u64 := PropsBinary64.u64.
Notation eta64 := PropsBinary64.eta64.

(** np.sum from left to right; every operation, logarithm and power rounded to nearest *)
Fixpoint sum_from (acc : R) (l : list R) : R := match l with [] => acc | a :: l' => sum_from (rnd64 (acc + a)) l' end.
Definition sum_left (l : list R) : R := match l with [] => 0 | a :: l' => sum_from a l' end.
Definition arith64 : arith :=
  mkArith (fun a b => rnd64 (a + b)) (fun a b => rnd64 (a * b)) (fun a b => rnd64 (a / b)) sum_left
    (fun a => rnd64 (log2R a)) (fun a => rnd64 (ln a))
    (fun a e => match fp1 e (Fin a) with Fin w => rnd64 w | _ => 0 end) (rnd64 log2_e).

Lemma is_power_unique a e x y : is_power a e x -> is_power a e y -> y = x.
Proof.
  intros P Q. destruct P as [a e Ha|a n|a n Ha|e He|e He|a e Ha He].
  - now apply is_power_pos.
  - now apply is_power_nat.
  - destruct n as [|n].
    { cbn [INR] in Q. rewrite Ropp_0 in Q. apply is_power_e0 in Q. subst. cbn. f_equal. lra. }
    remember (- INR (S n)) as e eqn:E. destruct Q as [b e Hb|b k|b k Hb|e He|e He|b e Hb He]; subst.
    + rewrite <- Rpower_pow, <- Rpower_Ropp by trivial. reflexivity.
    + assert (X := pos_INR k). assert (Y := pos_INR n). rewrite S_INR in E. lra.
    + apply Ropp_eq_compat in E. rewrite !Ropp_involutive in E. apply INR_eq in E. now subst.
    + congruence.
    + congruence.
    + exfalso. apply (He (- Z.of_nat (S n))%Z). rewrite opp_IZR, <- INR_IZR_INZ. reflexivity.
  - now apply (is_power_0 e).
  - remember 0 as z eqn:Ez in Q. destruct Q as [b e Hb|b k|b k Hb|e He'|e He'|b e Hb He']; subst; try lra; try reflexivity.
    assert (X := pos_INR k). lra.
  - destruct Q as [b e Hb|b k|b k Hb|e He'|e He'|b e Hb He']; try lra; try reflexivity.
    + exfalso. apply (He (Z.of_nat k)). apply INR_IZR_INZ.
    + exfalso. apply (He (- Z.of_nat k)%Z). rewrite opp_IZR, <- INR_IZR_INZ. reflexivity.
Qed.
Lemma sum_left_to l : l <> [] -> sum_to arith64 l (sum_left l).
Proof.
  revert l. assert (G : forall l done acc, sum_to arith64 done acc -> sum_to arith64 (done ++ l) (sum_from acc l)).
  { induction l as [|a l IH]; intros done acc H; cbn [sum_from]; [now rewrite app_nil_r|].
    change (done ++ a :: l) with (done ++ [a] ++ l). rewrite app_assoc. apply IH.
    apply (sum_add arith64 _ done [a] acc a); [reflexivity|exact H|constructor]. }
  intros [|a l]; [congruence|]. intros _. apply (G l [a]). constructor.
Qed.
Lemma accurate_arith64 : accurate_arith u64 u64 eta64 arith64.
Proof.
  repeat split; cbn [arith64 f_add f_mul f_div f_sum f_log2 f_ln f_pow f_log2e]; intros; try apply PropsBinary64.rnd64_err.
  - now apply sum_left_to.
  - rewrite (is_power_unique _ _ _ _ H (fp1_Fin e a)). apply PropsBinary64.rnd64_err.
Qed.

(** a concrete case: for the quantity of three scales 2,.,-2 / 4, 4 / -8 (monofractal, exponent 1), hmin, zeta(2), H and c_1 are computed to 13 digits *)
Lemma u64_small : 0 <= u64 <= / 9000000000000000.
Proof. split; [apply PropsBinary64.u64_nonneg|]. unfold PropsBinary64.u64. apply Rinv_le_contravar; [lra|]. cbn [pow]. lra. Qed.
Lemma eta64_small : 0 <= eta64 <= / 9000000000000000.
Proof.
  split; [apply PropsBinary64.eta64_nonneg|]. apply Rle_trans with u64; [|apply u64_small].
  apply Rinv_le_contravar; [apply pow_lt; lra|]. apply Rle_pow; [lra|]. apply Nat.leb_le. reflexivity.
Qed.

Definition eps : R := / 9000000000000000.
Lemma pow_small n : (n <= 4)%nat -> 1 <= (1 + u64) ^ n <= 1 + 5 * eps.
Proof.
  intros Hn. assert (U := u64_small). fold eps in U. split; [apply pow_R1_Rle; lra|].
  apply Rle_trans with ((1 + eps) ^ 4).
  - apply Rle_trans with ((1 + u64) ^ 4); [apply Rle_pow; [lra|trivial]|]. apply pow_incr. lra.
  - unfold eps. cbn [pow]. lra.
Qed.
Lemma sd_demo x : 0 <= x -> 0 <= x / sqrt (2 / 3) <= x * 5 / 4.
Proof.
  intros Hx. assert (S : 4 / 5 <= sqrt (2 / 3)). { rewrite <- (sqrt_square (4 / 5)) by lra. apply sqrt_le_1; lra. }
  split; [apply Rle_mult_inv_pos; lra|]. apply (Rmult_le_reg_r (sqrt (2 / 3))); [lra|]. unfold Rdiv at 1. rewrite Rmult_assoc, Rinv_l, Rmult_1_r by lra.
  assert (x * 5 / 4 * (4 / 5) <= x * 5 / 4 * sqrt (2 / 3)) by (apply Rmult_le_compat_l; lra). lra.
Qed.
Lemma fit_small p : 0 <= size p <= 8 -> 0 <= error p <= 100 * eps ->
  let q := k_fit u64 eta64 3 (sqrt (2 / 3)) p in 0 <= size q <= 10 /\ 0 <= error q <= 2 * error p + 200 * eps.
Proof.
  intros S E q. assert (T := eta64_small). fold eps in T. assert (EE : 100 * eps <= / 10000) by (unfold eps; lra).
  cbn [q k_fit size error fst snd]. destruct p as [s e]. cbn [size error fst snd] in *. split.
  - assert (K := sd_demo s ltac:(lra)). lra.
  - assert (G := pow_small (3 + 1) ltac:(lia)). assert (G3 := pow_small 3 ltac:(lia)).
    assert (A : 0 <= ((1 + u64) ^ (3 + 1) - 1) * (s + e) <= 5 * eps * 9).
    { split; [apply Rmult_le_pos; lra|]. apply Rmult_le_compat; lra. }
    assert (K := sd_demo (e + ((1 + u64) ^ (3 + 1) - 1) * (s + e)) ltac:(lra)).
    set (g3 := (1 + u64) ^ 3) in *. clearbody g3.
    assert (I3 : INR 3 = 3) by (cbn; lra). rewrite I3.
    assert (B : 0 <= 3 * (s + e + 2) * g3 * eta64 <= 3 * 11 * 2 * eps).
    { split; [repeat apply Rmult_le_pos; lra|]. apply Rmult_le_compat; [repeat apply Rmult_le_pos; lra|lra| |lra].
      apply Rmult_le_compat; lra. }
    lra.
Qed.
Lemma ln2_half : / 2 <= ln 2.
Proof.
  rewrite <- (ln_exp (/ 2)). left. apply ln_increasing; [apply exp_pos|].
  assert (Q : exp (/ 2) * exp (/ 2) = exp 1) by (rewrite <- exp_plus; f_equal; field).
  assert (Q3 := exp_le_3). assert (Q0 := exp_pos (/ 2)). nra.
Qed.
Lemma log2_pow n : log2R (2 ^ n) = INR n.
Proof. unfold log2R. rewrite <- Rpower_pow, ln_Rpower by lra. field. assert (L := ln2_pos). lra. Qed.
Example C96_case : exists hm hm' sf sf' cu cu',
  estimate_hmin demo 1 3 false true = Ok hm /\ estimate_hmin_f arith64 demo 1 3 false true = Ok hm' /\
  StructureFunction demo (QArr [-1; 0; 2]) 1 3 false = Ok sf /\ StructureFunction_f arith64 demo (QArr [-1; 0; 2]) 1 3 false = Ok sf' /\
  Cumulants demo 3 1 3 false = Ok cu /\ Cumulants_f arith64 demo 3 1 3 false = Ok cu' /\
  (exists y, nth 0 (hm_hmin hm') NaN = Fin y /\ Rabs (y - 1) <= / 10 ^ 13) /\
  (exists y, at2 (sf_zeta sf') 2 0 = Fin y /\ Rabs (y - 2) <= / 10 ^ 13) /\
  (exists y, at2 (cu_log_cumulants cu') 0 0 = Fin y /\ Rabs (y - 1) <= / 10 ^ 13).
Proof.
  destruct (demo_estimators false) as (sf & cu & sp & hm & Es & Ec & Ep & Eh & V1 & V2 & _ & _ & V3).
  assert (U := u64_small). assert (T := eta64_small). fold eps in U, T. assert (EE : eps = / 9000000000000000) by reflexivity.
  assert (SD : spread false demo 1 3 0 = sqrt (2 / 3)) by apply demo_close.
  assert (LN1 : ln 2 <= 1). { rewrite <- (ln_exp 1). left. apply ln_increasing; [lra|]. assert (Q := exp_ineq1 1 ltac:(lra)). lra. }
  assert (LN2 : / 2 <= ln 2) by apply ln2_half.
  assert (NI : forall j, (1 <= j <= 3)%Z -> no_inf (column demo j 0)) by (intros j Hj; apply (demo_usable j 0 Hj); lia).
  assert (LG : log2R 2 = 1 /\ log2R 4 = 2 /\ log2R 8 = 3 /\ log2R 16 = 4 /\ log2R 64 = 6).
  { assert (X1 := log2_pow 1). assert (X2 := log2_pow 2). assert (X3 := log2_pow 3). assert (X4 := log2_pow 4). assert (X6 := log2_pow 6).
    replace (2 ^ 1) with 2 in X1 by (cbn; lra). replace (2 ^ 2) with 4 in X2 by (cbn; lra). replace (2 ^ 3) with 8 in X3 by (cbn; lra).
    replace (2 ^ 4) with 16 in X4 by (cbn; lra). replace (2 ^ 6) with 64 in X6 by (cbn; lra). rewrite X1, X2, X3, X4, X6. cbn. repeat split; lra. }
  destruct LG as (L2 & L4 & L8 & L16 & L64).
  destruct (C96_hmin arith64 u64 u64 eta64 demo 3 2 1 3 false true hm (proj1 U) (Rle_refl _) (proj1 T) accurate_arith64 demo_regular demo_counted
    ltac:(lia) ltac:(lia) ltac:(lia) Eh) as (hm' & Eh' & Kh).
  destruct (C96_exponents arith64 u64 u64 eta64 demo 3 2 _ 1 3 false sf (proj1 U) (Rle_refl _) (proj1 T) accurate_arith64 demo_regular demo_counted
    ltac:(lia) ltac:(lia) ltac:(lia) Es) as (sf' & Es' & Ks).
  destruct (C96_log_cumulants arith64 u64 u64 eta64 demo 3 2 _ 1 3 false cu (proj1 U) (Rle_refl _) (proj1 T) accurate_arith64 demo_regular demo_counted
    ltac:(lia) ltac:(lia) ltac:(lia) Ec) as (cu' & Ec' & Kc).
  exists hm, hm', sf, sf', cu, cu'. do 6 (split; [assumption|]).
  replace (/ 10 ^ 13) with (900 * eps) in * by (rewrite EE; field).
  assert (N1 : numbers demo 1 0 = [2; -2]) by reflexivity. assert (N2 : numbers demo 2 0 = [4; 4]) by reflexivity. assert (N3 : numbers demo 3 0 = [-8]) by reflexivity.
  assert (A2 : Rabs 2 = 2) by (apply Rabs_pos_eq; lra). assert (Am2 : Rabs (-2) = 2) by (rewrite Rabs_left; lra).
  assert (A4 : Rabs 4 = 4) by (apply Rabs_pos_eq; lra). assert (Am8 : Rabs (-8) = 8) by (rewrite Rabs_left; lra).
  split; [|split].
  - specialize (Kh 0%nat 3 ltac:(lia)). destruct Kh as (a & b & A & B & _ & K); [rewrite V3; now exists 1| |].
    { intros j Hj. split; [now apply NI|]. intros x [Hx _].
      destruct (demo_scale j Hj) as [-> | [-> | ->]]; [rewrite N1 in Hx|rewrite N2 in Hx|rewrite N3 in Hx]; cbn [map In] in Hx; rewrite ?A2, ?Am2, ?A4, ?Am8 in Hx;
        repeat destruct Hx as [<-|Hx]; try contradiction; rewrite ?L2, ?L4, ?L8, Rabs_pos_eq; lra. }
    rewrite V3 in A. injection A as <-. exists b. split; [exact B|]. eapply Rle_trans; [exact K|]. rewrite SD.
    destruct (fit_small (k_log u64 eta64 3)) as [_ Q]; cbn [k_log size error fst snd]; try (rewrite EE in *; lra).
    cbn [k_log size error fst snd] in Q. rewrite EE in *. change (Z.to_nat (3 - 1 + 1)) with 3%nat. lra.
  - specialize (Ks 0%nat 2%nat 6 (24 * eps) 2%nat ltac:(lia) ltac:(cbn; lia)). destruct Ks as ((a & b & A & B & _ & K) & _); [rewrite V1; now exists (2 * 1)|rewrite EE; lra| |].
    { intros j Hj. split; [now apply NI|].
      assert (S1 : abs_moment 2 [2; -2] = 4 /\ abs_moment 2 [4; 4] = 16 /\ abs_moment 2 [-8] = 64).
      { assert (QP : forall a, a <> 0 -> qpow 2 a = Rabs a * Rabs a).
        { intros a Ha. unfold qpow, abs_pow. destruct (Req_EM_T 2 0); [lra|]. destruct (Req_EM_T a 0); [contradiction|]. assert (X := Rabs_pos_lt a Ha).
          replace (2 * ln (Rabs a)) with (ln (Rabs a) + ln (Rabs a)) by ring. rewrite exp_plus, exp_ln by trivial. reflexivity. }
        unfold abs_moment, mean, Rsum. cbn [map fold_right length INR]. rewrite !QP, A2, Am2, A4, Am8 by lra. repeat split; lra. }
      destruct S1 as (S1 & S2 & S3). cbn [nth].
      assert (Q : forall S, 4 <= S -> mom_rel u64 u64 2 * S + mom_abs u64 eta64 2 <= (1 - Rpower 2 (- (24 * eps))) * S).
      { intros S HS. assert (Z := one_minus_pow (24 * eps) ltac:(rewrite EE; lra)).
        assert (G := pow_small 3 ltac:(lia)). assert (G2 := pow_small 2 ltac:(lia)). unfold mom_rel, mom_abs.
        replace ((1 + u64) ^ 2 * (1 + u64) - 1) with ((1 + u64) ^ 3 - 1) by ring.
        assert (((1 + u64) ^ 3 - 1) * S <= 5 * eps * S) by (apply Rmult_le_compat_r; lra).
        assert (3 * (1 + u64) ^ 2 * eta64 <= 4 * eps) by (apply Rmult_le_compat; rewrite ?EE in *; lra).
        assert (24 * eps / 4 * S <= (1 - Rpower 2 (- (24 * eps))) * S) by (apply Rmult_le_compat_r; lra).
        assert (eps * 4 <= eps * S) by (apply Rmult_le_compat_l; rewrite ?EE in *; lra). lra. }
      destruct (demo_scale j Hj) as [-> | [-> | ->]]; rewrite ?N1, ?N2, ?N3; cbn [length]; (split; [lia|]); rewrite ?S1, ?S2, ?S3, ?L4, ?L16, ?L64;
        (split; [apply Q; lra|rewrite Rabs_pos_eq; lra]). }
    rewrite V1 in A. injection A as <-. exists b. split; [exact B|]. replace 2 with (2 * 1) by ring. eapply Rle_trans; [exact K|]. rewrite SD.
    change (Z.to_nat (3 - 1 + 1)) with 3%nat. assert (0 <= u64 * (6 + 24 * eps) <= eps * 7) by (split; [apply Rmult_le_pos|apply Rmult_le_compat]; rewrite ?EE in *; lra).
    destruct (fit_small (k_log2 u64 eta64 6 (24 * eps))) as [_ Q]; cbn [k_log2 size error fst snd]; try (rewrite EE in *; lra).
    cbn [k_log2 size error fst snd] in Q. rewrite EE in *. lra.
  - specialize (Kc 0%nat 1%nat 3 2%nat ltac:(lia) ltac:(lia)). cbn [Nat.sub] in Kc. destruct Kc as (a & b & A & B & _ & K); [rewrite V2; now exists 1| |].
    { intros j Hj. split; [now apply NI|].
      assert (LL : forall x, 0 < x -> 0 <= log2R x <= 3 -> Rabs (ln x) <= 3).
      { intros x Hx HL. unfold log2R in HL. assert (P2 := ln2_pos). assert (HE : ln x = ln x / ln 2 * ln 2) by (field; lra). rewrite HE.
        set (y := ln x / ln 2) in *. rewrite Rabs_pos_eq by (apply Rmult_le_pos; lra). replace 3 with (3 * 1) by ring. apply Rmult_le_compat; lra. }
      destruct (demo_scale j Hj) as [-> | [-> | ->]]; rewrite ?N1, ?N2, ?N3; cbn [length]; (split; [lia|]); intros x Hx; cbn [In] in Hx;
        repeat destruct Hx as [<-|Hx]; try contradiction; rewrite ?A2, ?Am2, ?A4, ?Am8; apply LL; rewrite ?L2, ?L4, ?L8; lra. }
    rewrite V2 in A. injection A as <-. exists b. split; [exact B|]. eapply Rle_trans; [exact K|]. rewrite SD.
    change (Z.to_nat (3 - 1 + 1)) with 3%nat.
    assert (KC : 0 <= size (k_cum u64 u64 eta64 2 3 1) <= 8 /\ 0 <= error (k_cum u64 u64 eta64 2 3 1) <= 50 * eps).
    { unfold k_cum. cbn [k_list Nat.sub app nth]. unfold k_step. cbn [Nat.eqb]. unfold k_mom, k_mean, k_pow, k_log. cbn [size error fst snd]. rewrite !pow_1.
      assert (G := pow_small 2 ltac:(lia)). set (g := (1 + u64) ^ 2) in *. clearbody g. set (e := u64 * 3 + eta64).
      assert (X1 : 0 <= e <= 4 * eps) by (unfold e; lra).
      assert (X2 : 0 <= u64 * (3 + e) <= eps * 4) by (split; [apply Rmult_le_pos|apply Rmult_le_compat]; rewrite ?EE in *; lra).
      set (t := 3 + e - 3 + u64 * (3 + e) + eta64). assert (X3 : 0 <= t <= 9 * eps) by (unfold t; lra).
      assert (X4 : 0 <= (g - 1) * (3 + t) <= 5 * eps * 4) by (split; [apply Rmult_le_pos|apply Rmult_le_compat]; rewrite ?EE in *; lra).
      assert (X5 : 0 <= 2 * g * eta64 <= 4 * eps) by (split; [apply Rmult_le_pos|apply Rmult_le_compat]; rewrite ?EE in *; lra).
      split; lra. }
    destruct KC as [C1 C2]. destruct (fit_small _ C1) as [Q1 Q2]; [rewrite EE in *; lra|]. set (q := k_fit u64 eta64 3 (sqrt (2 / 3)) (k_cum u64 u64 eta64 2 3 1)) in *.
    assert (E2 : 1 <= log2_e <= 2) by (assert (X := log2e_ln2); split; nra).
    unfold k_mul, k_log2e. cbn [size error fst snd]. fold (size q) (error q).
    set (sq := size q) in *. set (eq := error q) in *. clearbody sq eq. clear q. set (l := log2_e) in *. clearbody l.
    assert (X1 : 0 <= u64 * l + eta64 <= 3 * eps). { assert (0 <= u64 * l <= eps * 2) by (split; [apply Rmult_le_pos|apply Rmult_le_compat]; lra). lra. }
    set (el := u64 * l + eta64) in *. clearbody el.
    assert (X2 : sq * el <= 10 * (3 * eps)) by (apply Rmult_le_compat; lra).
    assert (X3 : eq * l <= 300 * eps * 2) by (apply Rmult_le_compat; lra).
    assert (X4 : eq * el <= 300 * eps * 1) by (apply Rmult_le_compat; rewrite ?EE in *; lra).
    assert (X5 : u64 * ((sq + eq) * (l + el)) <= eps * (11 * 3)).
    { apply Rmult_le_compat; [lra|apply Rmult_le_pos; lra|lra|]. apply Rmult_le_compat; rewrite ?EE in *; lra. }
    assert (X6 : eq * el <= 1 * (3 * eps)) by (apply Rmult_le_compat; rewrite ?EE in *; lra).
    lra.
Qed.
