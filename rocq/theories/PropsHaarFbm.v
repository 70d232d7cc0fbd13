(** * C111, continued: fractional Brownian motion analysed with the Haar wavelet: the power law 2H at coarse scales, with explicit bounds at every scale *)
From Coq Require Import Reals List ZArith Bool Lra Lia String.
From Verif Require Import XReal PyBase ModelUtils ModelMRQ ModelStructure ModelWavelet ModelSimul ModelPSD Spec SpecMRQ SpecSimul LXReal LUtils LBase LFilter LTransform LPattern LWave LPoly LCone LWaveEst LDft LSimul LEst LReg
  PropsRegression PropsWavelet PropsMissing PropsSlope PropsWhite PropsWhitePower PropsWhiteCase PropsSimul PropsWhiteFbm PropsRounded LTaps PropsDecorr PropsHaarFgn.
Import ListNotations.
Open Scope R_scope.
Local Notation length := List.length.
Local Notation entry := SpecMRQ.entry.

(** ** A fit is close to a slope when all pairs of points are *)
Lemma pairs_in pts p : Rsum (map (fun q => pw p * pw q * (px p - px q) * (py p - py q)) pts)
  = pw p * px p * py p * S0 pts - pw p * py p * S1 pts - pw p * px p * T0 pts + pw p * T1 pts.
Proof. unfold S0, S1, T0, T1. induction pts as [|q l IH]; simpl; [lra|]. simpl in IH. rewrite IH. ring. Qed.
Lemma pairs_out pts a b c e : Rsum (map (fun p => pw p * px p * py p * a - pw p * py p * b - pw p * px p * c + pw p * e) pts) = T1 pts * a - T0 pts * b - S1 pts * c + S0 pts * e.
Proof. unfold S0, S1, T0, T1. induction pts as [|q l IH]; simpl; [lra|]. rewrite IH. ring. Qed.
Lemma pairs_slope pts : 2 * (S0 pts * T1 pts - S1 pts * T0 pts) = Rsum (map (fun p => Rsum (map (fun q => pw p * pw q * (px p - px q) * (py p - py q)) pts)) pts).
Proof. rewrite (Rsum_map_ext _ _ pts (fun p _ => pairs_in pts p)). rewrite pairs_out. ring. Qed.
Lemma slope_near pts a eta : well_posed pts -> (forall p q, In p pts -> In q pts -> Rabs (py p - py q - a * (px p - px q)) <= eta * Rabs (px p - px q)) -> Rabs (slope pts - a) <= eta.
Proof.
  intros W H. assert (HD := D_pos pts W). destruct W as [W _]. rewrite Forall_forall in W.
  assert (E : slope pts - a = (S0 pts * T1 pts - S1 pts * T0 pts - a * D pts) / D pts) by (unfold slope; field; lra).
  rewrite E. unfold Rdiv. rewrite Rabs_mult, Rabs_inv, (Rabs_pos_eq (D pts)) by lra. apply Rmult_le_reg_r with (D pts); [trivial|]. rewrite Rmult_assoc, Rinv_l, Rmult_1_r by lra.
  enough (Rabs (2 * (S0 pts * T1 pts - S1 pts * T0 pts) - a * (2 * D pts)) <= eta * (2 * D pts)).
  { replace (2 * (S0 pts * T1 pts - S1 pts * T0 pts) - a * (2 * D pts)) with (2 * (S0 pts * T1 pts - S1 pts * T0 pts - a * D pts)) in H0 by ring. rewrite Rabs_mult, (Rabs_pos_eq 2) in H0 by lra. lra. }
  rewrite pairs_slope, lagrange.
  replace (Rsum (map (fun p => Rsum (map (fun q => pw p * pw q * (px p - px q) * (py p - py q)) pts)) pts) - a * Rsum (map (fun p => Rsum (map (fun q => pw p * pw q * (px p - px q) ^ 2) pts)) pts))
    with (Rsum (map (fun p => Rsum (map (fun q => pw p * pw q * ((px p - px q) * (py p - py q - a * (px p - px q)))) pts)) pts)).
  - rewrite <- Rsum_scal_map. eapply Rle_trans; [apply Rsum_abs_le|]. apply tsum_le. intros p Hp. rewrite <- Rsum_scal_map. eapply Rle_trans; [apply Rsum_abs_le|]. apply tsum_le. intros q Hq.
    assert (K := H p q Hp Hq). assert (Wp := W p Hp). assert (Wq := W q Hq). assert (0 <= pw p * pw q) by (now apply Rmult_le_pos).
    rewrite Rabs_mult, (Rabs_pos_eq (pw p * pw q)) by trivial. replace (eta * (pw p * pw q * (px p - px q) ^ 2)) with (pw p * pw q * (eta * (px p - px q) ^ 2)) by ring.
    apply Rmult_le_compat_l; [trivial|]. rewrite Rabs_mult. rewrite <- (pow2_abs (px p - px q)). assert (A := Rabs_pos (px p - px q)).
    replace (eta * Rabs (px p - px q) ^ 2) with (Rabs (px p - px q) * (eta * Rabs (px p - px q))) by ring. now apply Rmult_le_compat_l.
  - assert (L2 : forall (l : list point) (f g : point -> R), Rsum (map (fun p => f p - a * g p) l) = Rsum (map f l) - a * Rsum (map g l)).
    { intros l f g. unfold Rsum. induction l as [|x l IH]; cbn [map fold_right]; [ring|]. rewrite IH. ring. }
    rewrite <- L2. apply Rsum_map_ext. intros p _. rewrite <- L2. apply Rsum_map_ext. intros q _. ring.
Qed.

(** ** Sums of powers *)
Lemma rpow_0 e : rpow 0 e = 0.
Proof. unfold rpow. destruct (Rlt_dec 0 0); [lra|reflexivity]. Qed.
Lemma rpow_pos' t e : 0 < t -> rpow t e = Rpower t e.
Proof. intros H. unfold rpow. destruct (Rlt_dec 0 t); [reflexivity|lra]. Qed.
Lemma power_step b x y : 0 <= b -> 0 < x < y -> (b + 1) * Rpower x b * (y - x) <= Rpower y (b + 1) - Rpower x (b + 1) <= (b + 1) * Rpower y b * (y - x).
Proof.
  intros Hb [X0 XY]. destruct (MVT_cor2 (fun t => Rpower t (b + 1)) (fun t => (b + 1) * Rpower t (b + 1 - 1)) x y XY) as (c & E & Hc).
  { intros c Hc. apply derivable_pt_lim_power. lra. }
  cbv beta in E. rewrite E. replace (b + 1 - 1) with b by ring. assert (M1 : Rpower x b <= Rpower c b) by (apply Rle_Rpower_l; lra). assert (M2 : Rpower c b <= Rpower y b) by (apply Rle_Rpower_l; lra).
  split; apply Rmult_le_compat_r; try lra; apply Rmult_le_compat_l; lra.
Qed.
Definition psum (b : R) (m : nat) : R := sumn (S m) (fun i => rpow (INR i) b).
Lemma psum_bounds b m : 0 <= b -> rpow (INR m) (b + 1) <= (b + 1) * psum b m <= Rpower (INR m + 1) (b + 1).
Proof.
  intros Hb. unfold psum. induction m as [|m IH].
  - rewrite sumn_S, sumn_0. change (INR 0) with 0. rewrite !rpow_0. replace (0 + 1) with 1 by ring. unfold Rpower. rewrite ln_1, Rmult_0_r, exp_0. lra.
  - rewrite (sumn_S (S m)). assert (P := pos_INR m). rewrite (rpow_pos' (INR (S m))) by (rewrite S_INR; lra). rewrite (rpow_pos' (INR (S m)) b) by (rewrite S_INR; lra).
    rewrite Rmult_plus_distr_l. destruct IH as [A B]. rewrite S_INR in *.
    assert (U := power_step b (INR m + 1) (INR m + 1 + 1) Hb ltac:(lra)). replace (INR m + 1 + 1 - (INR m + 1)) with 1 in U by ring. split; [|lra].
    destruct (Rlt_dec 0 (INR m)) as [M0|M0].
    + assert (L := power_step b (INR m) (INR m + 1) Hb ltac:(lra)). replace (INR m + 1 - INR m) with 1 in L by ring. rewrite rpow_pos' in A by trivial. lra.
    + assert (INR m = 0) as Z by lra. rewrite Z in *. rewrite rpow_0 in A. rewrite Rplus_0_l. unfold Rpower. rewrite ln_1, !Rmult_0_r, exp_0. lra.
Qed.
(** sum of |a - b|^al over a, b < n *)
Definition pairsum (al : R) (n : nat) : R := sumn n (fun a => sumn n (fun b => rpow (Rabs (INR a - INR b)) al)).
Lemma pairsum_S al n : pairsum al (S n) = pairsum al n + 2 * psum al n.
Proof.
  unfold pairsum, psum. rewrite (sumn_S n). rewrite (sumn_ext n (fun a => sumn (S n) _) (fun a => sumn n (fun b => rpow (Rabs (INR a - INR b)) al) + rpow (Rabs (INR a - INR n)) al)) by (intros a _; apply sumn_S).
  rewrite sumn_plus. assert (E1 : sumn (S n) (fun b => rpow (Rabs (INR n - INR b)) al) = sumn (S n) (fun i => rpow (INR i) al)).
  { rewrite sumn_rev. apply sumn_ext. intros i Hi. replace (S n - 1 - i)%nat with (n - i)%nat by lia. rewrite minus_INR by lia. replace (INR n - (INR n - INR i)) with (INR i) by ring. rewrite Rabs_pos_eq by apply pos_INR. reflexivity. }
  assert (E2 : sumn n (fun a => rpow (Rabs (INR a - INR n)) al) = sumn (S n) (fun i => rpow (INR i) al)).
  { rewrite <- E1, (sumn_S n). rewrite Rminus_diag_eq by reflexivity. rewrite Rabs_R0, rpow_0, Rplus_0_r. apply sumn_ext. intros. now rewrite Rabs_minus_sym. }
  rewrite E1, E2. ring.
Qed.
Lemma pairsum_psum al n : pairsum al n = 2 * sumn n (fun m => psum al m).
Proof. induction n as [|n IH]; [unfold pairsum; rewrite !sumn_0; ring|]. rewrite pairsum_S, IH, sumn_S. ring. Qed.
Lemma pairsum_bounds al n : 0 <= al -> (2 <= n)%nat ->
  2 / ((al + 1) * (al + 2)) * Rpower (INR n - 1) (al + 2) <= pairsum al n <= 2 / ((al + 1) * (al + 2)) * Rpower (INR n + 1) (al + 2).
Proof.
  intros Hal Hn. rewrite pairsum_psum.
  assert (L : sumn n (fun m => rpow (INR m) (al + 1)) <= (al + 1) * sumn n (fun m => psum al m)).
  { rewrite <- sumn_scal. apply sumn_le. intros m _. apply psum_bounds; trivial. }
  assert (U : (al + 1) * sumn n (fun m => psum al m) <= sumn n (fun m => Rpower (INR m + 1) (al + 1))).
  { rewrite <- sumn_scal. apply sumn_le. intros m _. apply psum_bounds; trivial. }
  assert (L' : Rpower (INR n - 1) (al + 2) <= (al + 2) * sumn n (fun m => rpow (INR m) (al + 1))).
  { destruct (psum_bounds (al + 1) (n - 1) ltac:(lra)) as [A _]. unfold psum in A. replace (S (n - 1)) with n in A by lia. replace (al + 1 + 1) with (al + 2) in A by ring.
    rewrite minus_INR in A by lia. change (INR 1) with 1 in A. rewrite rpow_pos' in A; [trivial|]. assert (2 <= INR n) by (apply (le_INR 2); lia). lra. }
  assert (U' : (al + 2) * sumn n (fun m => Rpower (INR m + 1) (al + 1)) <= Rpower (INR n + 1) (al + 2)).
  { destruct (psum_bounds (al + 1) n ltac:(lra)) as [_ A]. unfold psum in A. rewrite sumn_S_first in A. change (INR 0) with 0 in A. rewrite rpow_0, Rplus_0_l in A. replace (al + 1 + 1) with (al + 2) in A by ring.
    rewrite (sumn_ext n _ (fun m => rpow (INR (S m)) (al + 1))); [exact A|]. intros m _. assert (P := pos_INR m). rewrite rpow_pos' by (rewrite S_INR; lra). now rewrite S_INR. }
  set (s := sumn n (fun m => psum al m)) in *.
  assert (P : 0 < (al + 1) * (al + 2)) by nra.
  split.
  - apply Rmult_le_reg_l with ((al + 1) * (al + 2)); [trivial|]. replace ((al + 1) * (al + 2) * (2 / ((al + 1) * (al + 2)) * Rpower (INR n - 1) (al + 2))) with (2 * Rpower (INR n - 1) (al + 2)) by (field; lra).
    assert ((al + 2) * sumn n (fun m => rpow (INR m) (al + 1)) <= (al + 2) * ((al + 1) * s)) by (apply Rmult_le_compat_l; lra). nra.
  - apply Rmult_le_reg_l with ((al + 1) * (al + 2)); [trivial|]. replace ((al + 1) * (al + 2) * (2 / ((al + 1) * (al + 2)) * Rpower (INR n + 1) (al + 2))) with (2 * Rpower (INR n + 1) (al + 2)) by (field; lra).
    assert ((al + 2) * ((al + 1) * s) <= (al + 2) * sumn n (fun m => Rpower (INR m + 1) (al + 1))) by (apply Rmult_le_compat_l; lra). nra.
Qed.

(** ** The Haar filters as block sums *)
Definition blocks (v : Z -> R) (n : nat) (x : Z) : R := sumn n (fun a => sumn n (fun b => v (x + Z.of_nat a - Z.of_nat b)%Z)).
Lemma blocks_double v n x : blocks v (n + n) x = 2 * blocks v n x + blocks v n (x + Z.of_nat n) + blocks v n (x - Z.of_nat n).
Proof.
  unfold blocks. rewrite sumn_app.
  rewrite (sumn_ext n (fun a => sumn (n + n) _) (fun a => sumn n (fun b => v (x + Z.of_nat a - Z.of_nat b)%Z) + sumn n (fun b => v (x - Z.of_nat n + Z.of_nat a - Z.of_nat b)%Z))).
  - rewrite (sumn_ext n (fun i => sumn (n + n) _) (fun a => sumn n (fun b => v (x + Z.of_nat n + Z.of_nat a - Z.of_nat b)%Z) + sumn n (fun b => v (x + Z.of_nat a - Z.of_nat b)%Z))).
    + rewrite !sumn_plus. ring.
    + intros a _. rewrite sumn_app. f_equal; apply sumn_ext; intros b _; f_equal; lia.
  - intros a _. rewrite sumn_app. f_equal; apply sumn_ext; intros b _; f_equal; lia.
Qed.
Lemma haar_low_blocks v j : forall z, low_cov haar1 v j z = / 2 ^ j * blocks v (2 ^ j) (Z.of_nat (2 ^ j) * z).
Proof.
  induction j as [|j IH]; intros z.
  - cbn [low_cov]. unfold blocks. change (2 ^ 0)%nat with 1%nat. rewrite !sumn_S, !sumn_0. cbn [pow]. rewrite Rinv_1, Rmult_1_l, !Rplus_0_l. f_equal. lia.
  - cbn [low_cov]. rewrite haar_lo_filtered, !IH. replace (2 ^ S j)%nat with (2 ^ j + 2 ^ j)%nat by (cbn [Nat.pow]; lia). rewrite blocks_double.
    set (n := (2 ^ j)%nat). replace (Z.of_nat (n + n) * z)%Z with (Z.of_nat n * (2 * z))%Z by lia. replace (Z.of_nat n * (2 * z) + Z.of_nat n)%Z with (Z.of_nat n * (2 * z + 1))%Z by lia.
    replace (Z.of_nat n * (2 * z) - Z.of_nat n)%Z with (Z.of_nat n * (2 * z - 1))%Z by lia. cbn [pow]. rewrite Rinv_mult. ring.
Qed.
Lemma haar_high_0 v j : (1 <= j)%nat -> high_cov haar1 v j 0 = / 2 ^ j * (4 * blocks v (2 ^ (j - 1)) 0 - blocks v (2 ^ j) 0).
Proof.
  intros Hj. unfold high_cov. rewrite haar_hi_filtered, !haar_low_blocks. replace (2 ^ j)%nat with (2 ^ (j - 1) + 2 ^ (j - 1))%nat by (replace j with (S (j - 1)) at 3 by lia; cbn [Nat.pow]; lia).
  rewrite blocks_double. set (n := (2 ^ (j - 1))%nat). replace (Z.of_nat n * (2 * 0))%Z with 0%Z by lia. replace (Z.of_nat n * (2 * 0 + 1))%Z with (0 + Z.of_nat n)%Z by lia. replace (Z.of_nat n * (2 * 0 - 1))%Z with (0 - Z.of_nat n)%Z by lia.
  replace (2 ^ j) with (2 * 2 ^ (j - 1)) by (change (2 * 2 ^ (j - 1)) with (2 ^ S (j - 1)); f_equal; lia). rewrite Rinv_mult. ring.
Qed.
Lemma blocks_power H sigma d n : 0 < d -> blocks (fun z => - (sigma ^ 2 / 2 * rpow (Rabs (d * IZR z)) (2 * H))) n 0 = - (sigma ^ 2 / 2 * Rpower d (2 * H) * pairsum (2 * H) n).
Proof.
  intros Hd. unfold blocks, pairsum. replace (- (sigma ^ 2 / 2 * Rpower d (2 * H) * sumn n (fun a => sumn n (fun b => rpow (Rabs (INR a - INR b)) (2 * H)))))
    with ((- (sigma ^ 2 / 2 * Rpower d (2 * H))) * sumn n (fun a => sumn n (fun b => rpow (Rabs (INR a - INR b)) (2 * H)))) by ring.
  rewrite <- sumn_scal. apply sumn_ext. intros a _. rewrite <- sumn_scal. apply sumn_ext. intros b _. rewrite Z.add_0_l, minus_IZR, <- !INR_IZR_INZ.
  assert (E : rpow (Rabs (d * (INR a - INR b))) (2 * H) = Rpower d (2 * H) * rpow (Rabs (INR a - INR b)) (2 * H)); [|rewrite E; ring].
  rewrite Rabs_mult, (Rabs_pos_eq d) by lra. destruct (Rlt_dec 0 (Rabs (INR a - INR b))) as [P|P].
  - rewrite rpow_pos' by (now apply Rmult_lt_0_compat). rewrite rpow_pos' by trivial. symmetry. now apply Rpower_mult_distr.
  - assert (Z : Rabs (INR a - INR b) = 0) by (assert (K := Rabs_pos (INR a - INR b)); lra). rewrite Z, Rmult_0_r, !rpow_0. ring.
Qed.

(** ** Variance of the coefficients *)
Section Var.
Variables (H sigma d : R).
Hypothesis HH : 0 < H <= 1.
Hypothesis Hs : sigma <> 0.
Hypothesis Hd : 0 < d.
Let v (z : Z) : R := - (sigma ^ 2 / 2 * rpow (Rabs (d * IZR z)) (2 * H)).
Let e := 2 * H + 2.
Let cst := 2 / ((2 * H + 1) * (2 * H + 2)).
Let K0 := sigma ^ 2 / 2 * Rpower d (2 * H).
Lemma K0_pos : 0 < K0.
Proof using Hs. unfold K0. assert (0 < sigma ^ 2) by (rewrite <- Rsqr_pow2; now apply Rsqr_pos_lt). apply Rmult_lt_0_compat; [lra|apply exp_pos]. Qed.
Lemma cst_pos : 0 < cst.
Proof using HH. unfold cst. apply Rmult_lt_0_compat; [lra|]. apply Rinv_0_lt_compat. nra. Qed.
Lemma pow_INR2 j : INR (2 ^ j) = 2 ^ j.
Proof. rewrite pow_INR. reflexivity. Qed.
Lemma var_pairs j : (1 <= j)%nat -> high_cov haar1 v j 0 = / 2 ^ j * (K0 * (pairsum (2 * H) (2 ^ j) - 4 * pairsum (2 * H) (2 ^ (j - 1)))).
Proof using Hd. intros Hj. unfold v. rewrite haar_high_0 by trivial. rewrite !blocks_power by trivial. unfold K0. ring. Qed.
Lemma pow2_ge j : (1 <= j)%nat -> (2 <= 2 ^ j)%nat.
Proof. intros Hj. change 2%nat with (2 ^ 1)%nat at 1. apply Nat.pow_le_mono_r; lia. Qed.
Lemma var_bounds j : (2 <= j)%nat ->
  / 2 ^ j * (K0 * (cst * (Rpower (2 ^ j - 1) e - 4 * Rpower (2 ^ (j - 1) + 1) e))) <= high_cov haar1 v j 0
  <= / 2 ^ j * (K0 * (cst * (Rpower (2 ^ j + 1) e - 4 * Rpower (2 ^ (j - 1) - 1) e))).
Proof using HH Hs Hd.
  intros Hj. rewrite var_pairs by lia. assert (P := K0_pos). assert (I : 0 < / 2 ^ j) by (apply Rinv_0_lt_compat, pow_lt; lra).
  assert (A := pairsum_bounds (2 * H) (2 ^ j) ltac:(lra) (pow2_ge j ltac:(lia))). assert (B := pairsum_bounds (2 * H) (2 ^ (j - 1)) ltac:(lra) (pow2_ge (j - 1) ltac:(lia))).
  rewrite !pow_INR2 in A, B. fold cst e in A, B.
  split; (apply Rmult_le_compat_l; [lra|]; apply Rmult_le_compat_l; [lra|]; lra).
Qed.
Definition g1 (x : R) : R := cst * (Rpower (2 + -1 * x) e - 4 * Rpower (1 + 1 * x) e).
Definition g2 (x : R) : R := cst * (Rpower (2 + 1 * x) e - 4 * Rpower (1 + -1 * x) e).
Lemma var_squeeze j : (2 <= j)%nat -> let n := 2 ^ (j - 1) in exists u, high_cov haar1 v j 0 = / 2 ^ j * K0 * Rpower n e * u /\ g1 (/ n) <= u <= g2 (/ n).
Proof using HH Hs Hd.
  intros Hj n. assert (N2 : 2 <= n). { unfold n. replace 2 with (2 ^ 1) at 1 by ring. apply Rle_pow; [lra|lia]. }
  assert (P := K0_pos). assert (PN : 0 < Rpower n e) by apply exp_pos. assert (PJ : 0 < 2 ^ j) by (apply pow_lt; lra).
  exists (high_cov haar1 v j 0 / (/ 2 ^ j * K0 * Rpower n e)). split; [field; repeat split; lra|].
  assert (I : 0 < / 2 ^ j) by (now apply Rinv_0_lt_compat).
  assert (Q : 0 < / 2 ^ j * K0 * Rpower n e) by (apply Rmult_lt_0_compat; [now apply Rmult_lt_0_compat|trivial]).
  assert (IN : / n * n = 1) by (apply Rinv_l; lra). assert (0 < / n <= / 2) by (split; [apply Rinv_0_lt_compat; lra|apply Rinv_le_contravar; lra]).
  assert (E2 : 2 ^ j = 2 * n) by (unfold n; change (2 * 2 ^ (j - 1)) with (2 ^ S (j - 1)); f_equal; lia).
  assert (F : forall c s, 0 < c + s * / n -> Rpower (c + s * / n) e * Rpower n e = Rpower (c * n + s) e).
  { intros c s Hc. rewrite Rpower_mult_distr by lra. f_equal. rewrite Rmult_plus_distr_r, Rmult_assoc, IN. ring. }
  destruct (var_bounds j Hj) as [A B]. fold n in A, B.
  split.
  - apply Rmult_le_reg_r with (/ 2 ^ j * K0 * Rpower n e); [trivial|]. unfold Rdiv. rewrite (Rmult_assoc (high_cov haar1 v j 0)), Rinv_l, Rmult_1_r by lra.
    eapply Rle_trans; [|exact A]. right. unfold g1. rewrite E2. replace (2 * n - 1) with (2 * n + -1) by ring. replace (n + 1) with (1 * n + 1) by ring. rewrite <- !F by lra. ring.
  - apply Rmult_le_reg_r with (/ 2 ^ j * K0 * Rpower n e); [trivial|]. unfold Rdiv. rewrite (Rmult_assoc (high_cov haar1 v j 0)), Rinv_l, Rmult_1_r by lra.
    eapply Rle_trans; [exact B|]. right. unfold g2. rewrite E2. replace (n - 1) with (1 * n + -1) by ring. rewrite <- !F by lra. ring.
Qed.
Definition uinf : R := cst * (Rpower 2 e - 4).
Lemma uinf_pos : 0 < uinf.
Proof using HH.
  unfold uinf. apply Rmult_lt_0_compat; [apply cst_pos|]. replace 4 with (Rpower 2 2) by (replace (Rpower 2 2) with (Rpower 2 (INR 2)) by reflexivity; rewrite Rpower_pow by lra; ring).
  assert (Rpower 2 2 < Rpower 2 e) by (apply Rpower_lt; unfold e; lra). lra.
Qed.
Lemma cont_pow c s x0 : 0 < c + s * x0 -> continuity_pt (fun x => Rpower (c + s * x) e) x0.
Proof.
  intros Hc. apply (continuity_pt_comp (fun x => c + s * x) (fun t => Rpower t e)); [reg|].
  apply derivable_continuous_pt. exists (e * Rpower (c + s * x0) (e - 1)). now apply derivable_pt_lim_power.
Qed.
Lemma near (f : R -> R) eps : continuity_pt f 0 -> 0 < eps -> exists a, 0 < a /\ forall x, 0 < x < a -> Rabs (f x - f 0) < eps.
Proof.
  intros C He. destruct (C eps He) as (a & Ha & Q). exists a. split; [exact Ha|]. intros x Hx. apply (Q x). split; [split; [exact I|lra]|].
  cbn. unfold R_dist. rewrite Rminus_0_r, Rabs_pos_eq; lra.
Qed.
Lemma g1_cont : continuity_pt g1 0 /\ g1 0 = uinf.
Proof.
  split.
  - apply (continuity_pt_scal (fun x => Rpower (2 + -1 * x) e - 4 * Rpower (1 + 1 * x) e) cst). apply (continuity_pt_minus (fun x => Rpower (2 + -1 * x) e) (fun x => 4 * Rpower (1 + 1 * x) e)); [apply cont_pow; lra|].
    apply (continuity_pt_scal (fun x => Rpower (1 + 1 * x) e) 4). apply cont_pow; lra.
  - unfold g1, uinf. rewrite !Rmult_0_r, !Rplus_0_r. rewrite (rpower_1_base e) || idtac. unfold Rpower at 2. rewrite ln_1, Rmult_0_r, exp_0. ring.
Qed.
Lemma g2_cont : continuity_pt g2 0 /\ g2 0 = uinf.
Proof.
  split.
  - apply (continuity_pt_scal (fun x => Rpower (2 + 1 * x) e - 4 * Rpower (1 + -1 * x) e) cst). apply (continuity_pt_minus (fun x => Rpower (2 + 1 * x) e) (fun x => 4 * Rpower (1 + -1 * x) e)); [apply cont_pow; lra|].
    apply (continuity_pt_scal (fun x => Rpower (1 + -1 * x) e) 4). apply cont_pow; lra.
  - unfold g2, uinf. rewrite !Rmult_0_r, !Rplus_0_r. unfold Rpower at 2. rewrite ln_1, Rmult_0_r, exp_0. ring.
Qed.
(** the logarithm of the variance is asymptotically a line of slope 2H + 1 *)
Lemma var_line eps : 0 < eps -> exists j0, forall j, (j0 <= j)%nat ->
  0 < high_cov haar1 v j 0 /\ Rabs (log2R (high_cov haar1 v j 0) - ((2 * H + 1) * INR j + (log2R (K0 * uinf) - e))) <= eps.
Proof using HH Hs Hd.
  intros He. assert (UP := uinf_pos). assert (KP := K0_pos). assert (L2 : 0 < ln 2) by (assert (K := ln_lt_2); lra).
  (* ln is continuous at uinf *)
  assert (LC : exists a, 0 < a /\ forall u, Rabs (u - uinf) < a -> 0 < u /\ Rabs (log2R u - log2R uinf) <= eps).
  { assert (C : continuity_pt ln uinf) by (apply derivable_continuous_pt; exists (/ uinf); now apply derivable_pt_lim_ln).
    destruct (C (eps * ln 2) ltac:(now apply Rmult_lt_0_compat)) as (a & Ha & Q). exists (Rmin a uinf). split; [now apply Rmin_pos|]. intros u Hu.
    assert (M1 := Rmin_l a uinf). assert (M2 := Rmin_r a uinf). assert (U0 : 0 < u) by (revert Hu; unfold Rabs; destruct (Rcase_abs _); lra). split; [trivial|].
    destruct (Req_dec u uinf) as [->|ne]; [rewrite Rminus_diag_eq, Rabs_R0 by reflexivity; lra|].
    assert (K := Q u (conj (conj I (not_eq_sym ne)) (Rlt_le_trans _ _ _ Hu M1))). change (Rabs (ln u - ln uinf) < eps * ln 2) in K.
    unfold log2R. replace (ln u / ln 2 - ln uinf / ln 2) with ((ln u - ln uinf) * / ln 2) by (field; lra). rewrite Rabs_mult, (Rabs_pos_eq (/ ln 2)) by (left; now apply Rinv_0_lt_compat).
    apply Rmult_le_reg_r with (ln 2); [trivial|]. rewrite Rmult_assoc, Rinv_l by lra. lra. }
  destruct LC as (a & Ha & LC). destruct g1_cont as [C1 G1]. destruct g2_cont as [C2 G2].
  destruct (near g1 a C1 Ha) as (a1 & A1 & N1). destruct (near g2 a C2 Ha) as (a2 & A2 & N2). rewrite G1 in N1. rewrite G2 in N2.
  assert (AM : 0 < Rmin a1 a2) by (now apply Rmin_pos).
  destruct (pow_lt_1_zero (/ 2) ltac:(rewrite Rabs_pos_eq; lra) (Rmin a1 a2) AM) as (m & Hm).
  exists (m + 2)%nat. intros j Hj. destruct (var_squeeze j ltac:(lia)) as (u & EV & Bu). set (n := 2 ^ (j - 1)) in *.
  assert (NP : 0 < n) by (apply pow_lt; lra).
  assert (XN : 0 < / n < Rmin a1 a2). { split; [now apply Rinv_0_lt_compat|]. specialize (Hm (j - 1)%nat ltac:(lia)). rewrite pow_inv in Hm. fold n in Hm. rewrite Rabs_pos_eq in Hm by (left; now apply Rinv_0_lt_compat). exact Hm. }
  assert (M1 := Rmin_l a1 a2). assert (M2 := Rmin_r a1 a2). assert (Q1 := N1 (/ n) ltac:(lra)). assert (Q2 := N2 (/ n) ltac:(lra)).
  assert (QU : Rabs (u - uinf) < a). { apply Rabs_def1; [apply Rabs_def2 in Q2; lra|apply Rabs_def2 in Q1; lra]. }
  destruct (LC u QU) as [U0 LU]. assert (PJ : 0 < 2 ^ j) by (apply pow_lt; lra). assert (PN : 0 < Rpower n e) by apply exp_pos.
  rewrite EV. assert (I2 : 0 < / 2 ^ j) by (now apply Rinv_0_lt_compat). assert (P1 : 0 < / 2 ^ j * K0) by (now apply Rmult_lt_0_compat). assert (P2 : 0 < / 2 ^ j * K0 * Rpower n e) by (now apply Rmult_lt_0_compat).
  split; [now apply Rmult_lt_0_compat|].
  replace (log2R (/ 2 ^ j * K0 * Rpower n e * u) - ((2 * H + 1) * INR j + (log2R (K0 * uinf) - e))) with (log2R u - log2R uinf); [exact LU|].
  unfold log2R. rewrite !ln_mult by trivial. rewrite ln_Rinv, ln_pow by lra. unfold Rpower at 1. rewrite ln_exp. unfold n. rewrite ln_pow, minus_INR by (lra || lia). change (INR 1) with 1. unfold e. field. lra.
Qed.
End Var.

(** ** The theorems *)
Lemma points_of (f : nat -> R) : forall n js p, In p (points n (map INR js) (map f js)) -> exists j, In j js /\ px p = INR j /\ py p = f j.
Proof.
  induction n as [|w n IH]; intros [|j js] p Hp; cbn [map points] in Hp; try (now destruct Hp).
  destruct Hp as [<-|Hp]; [exists j; split; [now left|now split]|]. destruct (IH js p Hp) as (i & Hi & Q). exists i. split; [now right|trivial].
Qed.
(** a fit over integer scales of values within eps/2 of a line of slope a has a slope within eps of a *)
Lemma fit_near (f : nat -> R) a b eps js n : (forall j, In j js -> Rabs (f j - (a * INR j + b)) <= eps / 2) ->
  length n = length js -> Forall (fun w => 0 < w) n -> (exists i j, In i js /\ In j js /\ i <> j) ->
  exists a' b' var, linear_regression (fin (map INR js)) (fin (map f js)) (fin n) = Ok (Fin a', Fin b', var) /\ Rabs (a' - a) <= eps.
Proof.
  intros Hf Ln Pn (u & v & Hu & Hv & ne).
  assert (WP : well_posed (points n (map INR js) (map f js))).
  { apply wp_positive; [now rewrite map_length|now rewrite map_length|trivial|]. exists (INR u), (INR v). split; [now apply in_map|]. split; [now apply in_map|]. intros C. now apply ne, INR_eq. }
  destruct (points_maps n (map INR js) (map f js)) as (E1 & E2 & E3); [now rewrite map_length|now rewrite map_length|].
  set (pts := points n (map INR js) (map f js)) in *. assert (HD := D_pos pts WP). destruct (lr_points pts) as [va Hva]; [lra|]. rewrite E1, E2, E3 in Hva.
  exists (slope pts), (icept pts), va. split; [exact Hva|]. apply slope_near; [trivial|]. intros p q Hp Hq.
  destruct (points_of f n js p Hp) as (i & Hi & Xi & Yi). destruct (points_of f n js q Hq) as (k & Hk & Xk & Yk). rewrite Xi, Yi, Xk, Yk.
  assert (A := Hf i Hi). assert (B := Hf k Hk).
  destruct (Nat.eq_dec i k) as [->|nik]. { replace (f k - f k - a * (INR k - INR k)) with 0 by ring. rewrite Rminus_diag_eq by reflexivity. rewrite !Rabs_R0. lra. }
  assert (E0 : 0 <= eps) by (assert (K := Rabs_pos (f i - (a * INR i + b))); lra).
  assert (D1 : 1 <= Rabs (INR i - INR k)).
  { destruct (Nat.lt_total i k) as [l|[l|l]]; [|lia|].
    - assert (K := le_INR (Datatypes.S i) k ltac:(lia)). rewrite S_INR in K. rewrite Rabs_left; lra.
    - assert (K := le_INR (Datatypes.S k) i ltac:(lia)). rewrite S_INR in K. rewrite Rabs_right; lra. }
  replace (f i - f k - a * (INR i - INR k)) with ((f i - (a * INR i + b)) + - (f k - (a * INR k + b))) by ring.
  eapply Rle_trans; [apply Rabs_triang|]. rewrite Rabs_Ropp. nra.
Qed.

(** explicit bounds of the mean square coefficient of scale j >= 2; the leading term of both is 2^(j (2H + 1)) up to a constant *)
Theorem C111_fbm_bounds :
  forall {W} (P : expectation W) sh N (H sigma : R) dt d z0 (drawn : W -> noise) p j1 j2 gam norm weighted,
  shape_N sh = N -> (2 <= N)%nat -> sampling_step dt N d -> 0 < H <= 1 -> sigma <> 0 -> white_complex P (shape_R sh) (2 * N - 2) (fun w => nz (drawn w)) ->
  norm <> 0 -> p_ok p ->
  exists B, (forall o, fbm sh H sigma dt "cme" z0 (drawn o) = Ok (presented sh (B o), false)) /\
  forall (T : W -> wtransform) (ws : W -> list warning), (forall o, wavelet_analysis (map fin (B o)) p haar1 j1 j2 gam norm weighted = Ok (T o, ws o)) ->
  forall r j, (r < shape_R sh)%nat -> (2 <= j)%nat -> (1 <= inner_count N 2 j)%nat -> (forall o, In (Z.of_nat j) (scales (wt_coefs (T o)))) ->
  let c := factor norm gam j ^ 2 * (sigma ^ 2 * Rpower d (2 * H) / ((2 * H + 1) * (2 * H + 2) * 2 ^ j)) in
  c * (Rpower (2 ^ j - 1) (2 * H + 2) - 4 * Rpower (2 ^ (j - 1) + 1) (2 * H + 2))
  <= E P (fun o => abs_moment 2 (numbers (wt_coefs (T o)) (Z.of_nat j) r))
  <= c * (Rpower (2 ^ j + 1) (2 * H + 2) - 4 * Rpower (2 ^ (j - 1) - 1) (2 * H + 2)).
Proof.
  intros W P sh N H sigma dt d z0 drawn p j1 j2 gam norm wd EN HN Hd HH Hs HZ Hn Hp. assert (d0 := proj2 (step_ok dt N d ltac:(lia) Hd)).
  destruct (C108_fbm P sh N H sigma dt d z0 drawn haar1 p j1 j2 gam norm wd EN HN Hd HH HZ good_haar1 haar1_ignores Hn Hp) as (B & EB & HB). exists B. split; [exact EB|].
  intros T ws HT r j Hr Hj IC HI c. destruct (HB T ws HT r j Hr ltac:(lia) HI) as [_ Q]. rewrite (Q IC). clear Q.
  assert (V := var_bounds H sigma d HH Hs d0 j Hj). assert (F : 0 <= factor norm gam j ^ 2) by apply pow2_ge_0.
  assert (PJ : 2 ^ j <> 0) by (apply pow_nonzero; lra). destruct V as [V1 V2]. apply (Rmult_le_compat_l _ _ _ F) in V1. apply (Rmult_le_compat_l _ _ _ F) in V2.
  split; [eapply Rle_trans; [|exact V1]|eapply Rle_trans; [exact V2|]]; right; unfold c; field; repeat split; lra || trivial.
Qed.
Print Assumptions C111_fbm_bounds.

(** the exponent is 2H + 2 - 2/norm + 2 gamint at coarse scales: a fit over scales above some j0, which depends on the parameters and the tolerance only, finds it within the tolerance *)
Theorem C111_fbm_exponent :
  forall H sigma d gam norm eps : R, 0 < H <= 1 -> sigma <> 0 -> 0 < d -> norm <> 0 -> 0 < eps ->
  exists j0, forall W (P : expectation W) sh N dt z0 (drawn : W -> noise) p j1 j2 weighted,
  shape_N sh = N -> (2 <= N)%nat -> sampling_step dt N d -> white_complex P (shape_R sh) (2 * N - 2) (fun w => nz (drawn w)) -> p_ok p ->
  exists B, (forall o, fbm sh H sigma dt "cme" z0 (drawn o) = Ok (presented sh (B o), false)) /\
  forall (T : W -> wtransform) (ws : W -> list warning), (forall o, wavelet_analysis (map fin (B o)) p haar1 j1 j2 gam norm weighted = Ok (T o, ws o)) ->
  forall r (js : list nat) (n : list R), (r < shape_R sh)%nat ->
  (forall j, In j js -> (1 <= j)%nat /\ (j0 <= j)%nat /\ (1 <= inner_count N 2 j)%nat /\ forall o, In (Z.of_nat j) (scales (wt_coefs (T o)))) ->
  length n = length js -> Forall (fun a => 0 < a) n -> (exists a b, In a js /\ In b js /\ a <> b) ->
  exists a b var, linear_regression (fin (map INR js)) (fin (map (fun j => log2R (E P (fun o => abs_moment 2 (numbers (wt_coefs (T o)) (Z.of_nat j) r)))) js)) (fin n)
    = Ok (Fin a, Fin b, var) /\ Rabs (a - (2 * H + 2 - 2 / norm + 2 * gam)) <= eps.
Proof.
  intros H sigma d gam norm eps HH Hs d0 Hn He. destruct (var_line H sigma d HH Hs d0 (eps / 2) ltac:(lra)) as (j0 & HV). exists j0.
  intros W P sh N dt z0 drawn p j1 j2 wd EN HN Hd HZ Hp.
  destruct (C108_fbm P sh N H sigma dt d z0 drawn haar1 p j1 j2 gam norm wd EN HN Hd HH HZ good_haar1 haar1_ignores Hn Hp) as (B & EB & HB). exists B. split; [exact EB|].
  intros T ws HT r js n Hr Hjs Ln Pn ND. set (v := fun z => - (sigma ^ 2 / 2 * rpow (Rabs (d * IZR z)) (2 * H))) in *.
  match type of HV with forall j, _ -> _ /\ Rabs (_ - (_ + ?b)) <= _ => apply (fit_near _ _ b eps js n); trivial end.
  intros j Hj. destruct (Hjs j Hj) as (J1 & J0 & IC & HI). destruct (HB T ws HT r j Hr J1 HI) as [_ Q]. specialize (Q IC). change (length (dec_hi haar1)) with 2%nat in *.
  rewrite Q. clear Q. fold v. destruct (HV j J0) as [V0 VL]. eapply Rle_trans; [|exact VL]. right. f_equal.
  assert (L2 : ln 2 <> 0) by (assert (K := ln_lt_2); lra). unfold log2R. rewrite ln_mult by (try apply pow_lt; try apply exp_pos; trivial). unfold factor. rewrite <- Rpower_pow by apply exp_pos. rewrite Rpower_mult.
  unfold Rpower at 1. rewrite ln_exp. change (INR 2) with 2. field. now split.
Qed.
Print Assumptions C111_fbm_exponent.
