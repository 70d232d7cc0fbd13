(** * C96, continued: the intercepts, the variance of the log-cumulants and the warning of estimate_hmin in floating point. *)
From Coq Require Import Reals List ZArith Bool Lra Lia Psatz Permutation.
From Verif Require Import XReal PyBase ModelUtils ModelMRQ ModelStructure ModelCumulants ModelSpectrum ModelEstimation
  Spec SpecMRQ LXReal LReg LUtils LBase LEst LMoment LCum LEntropy LScale LBivariate PropsEstimators PropsCumulants PropsSpectrum PropsMono PropsInvariance PropsFinite PropsStable ModelRoundedEst PropsRoundedEst.
Import ListNotations.
Open Scope R_scope.

(** ** Specification *)
Section Bounds.
Variables (u v eta : R).
(** a combination of k numbers with coefficients whose moduli add up to at most A, the coefficients being quotients of exact integers *)
Definition k_comb (k : nat) (A : R) (p : known) : known :=
  (size p * A,
   (error p + ((1 + u) ^ (k + 1) - 1) * (size p + error p)) * A + INR k * (size p + error p + 2) * (1 + u) ^ k * eta).
(** the intercept: coefficients of total modulus at most 1 + j2 / sd *)
Definition k_icept (k : nat) (j2 : Z) (sd : R) (p : known) : known := k_comb k (1 + IZR j2 / sd) p.
(** a quotient of two exact integers, of modulus at most B *)
Definition k_quot (B : R) : known := (B, u * B + eta).
(** the sum of k numbers *)
Definition k_sum (k : nat) (p : known) : known :=
  (INR k * size p, INR k * (error p + ((1 + u) ^ k - 1) * (size p + error p) + (1 + u) ^ k * eta)).
(** the sum of the k terms (1 / n_j) w_j w_j *)
Definition k_var (k : nat) (sd : R) : known :=
  k_sum k (k_mul u eta (k_mul u eta (k_quot 1) (k_quot (1 / sd))) (k_quot (1 / sd))).
End Bounds.

Section Comb.
Variables (F : arith) (u v eta : R).
Hypotheses (U0 : 0 <= u) (E0 : 0 <= eta) (HF : accurate_arith u v eta F).

Lemma ap_quot B a b : b <> 0 -> Rabs (a / b) <= B -> approx (k_quot u eta B) (a / b) (f_div F a b).
Proof using U0 HF.
  intros Hb HB. split; cbn; trivial. destruct HF as (_ & _ & Hd & _). eapply Rle_trans; [now apply Hd|]. apply Rplus_le_compat_r, Rmult_le_compat_l; trivial.
Qed.
Lemma ap_sum k p (x x' : Z -> R) js : js <> [] -> length js = k -> (forall j, In j js -> approx p (x j) (x' j)) ->
  approx (k_sum u eta k p) (Rsum (map x js)) (f_sum F (map x' js)).
Proof using U0 E0 HF.
  intros NE LK HA. assert (PP : 0 <= size p /\ 0 <= error p) by (destruct js as [|j l]; [congruence|]; apply (approx_nonneg p (x j) (x' j)), HA; now left). destruct PP as [PS PE].
  assert (K1 : (1 <= k)%nat) by (destruct js; [congruence|cbn in LK; lia]).
  assert (S1 : Rsum (map (fun j => Rabs (x j)) js) <= INR k * size p) by (rewrite <- LK; apply Rsum_le_const; intros j Hj; now apply HA).
  assert (S2 : Rsum (map (fun j => Rabs (x' j)) js) <= INR k * (size p + error p)) by (rewrite <- LK; apply Rsum_le_const; intros j Hj; apply (size_computed p (x j)), HA, Hj).
  assert (S3 : Rabs (Rsum (map x' js) - Rsum (map x js)) <= INR k * error p).
  { replace (Rsum (map x' js) - Rsum (map x js)) with (Rsum (map (fun j => x' j - x j) js)).
    - eapply Rle_trans; [apply absum|]. rewrite map_map, <- LK. apply Rsum_le_const. intros j Hj. now apply HA.
    - rewrite (Rsum_map_ext (fun j => x' j - x j) (fun j => x' j + - 1 * x j)) by (intros; ring). rewrite Rsum_map_plus, Rsum_map_scal. ring. }
  split; cbn [k_sum size error fst snd]; fold (size p) (error p).
  - eapply Rle_trans; [apply absum|]. rewrite map_map. exact S1.
  - assert (SS := f_sum_err F u v eta U0 E0 HF (map x' js)). rewrite map_map, map_length, LK in SS.
    assert (NEt : map x' js <> []) by (destruct js; [congruence|discriminate]). specialize (SS NEt).
    eapply Rle_trans; [apply (tri _ (Rsum (map x' js)))|].
    assert (G : (1 + u) ^ (k - 1) <= (1 + u) ^ k) by (apply g_mono; [exact U0|lia]). assert (G1 := g_ge1 u U0 (k - 1)).
    assert (I1 : INR (k - 1) <= INR k) by (apply le_INR; lia). assert (I0 := pos_INR (k - 1)).
    set (g := (1 + u) ^ (k - 1)) in *. set (h := (1 + u) ^ k) in *. set (i := INR k) in *.
    assert (X0 : 0 <= Rsum (map (fun j => Rabs (x' j)) js)) by (apply Rsum_map_nonneg; intros; apply Rabs_pos).
    assert (X1 : (g - 1) * Rsum (map (fun j => Rabs (x' j)) js) <= (h - 1) * (i * (size p + error p))) by (apply Rmult_le_compat; lra).
    assert (X2 : INR (k - 1) * g * eta <= i * h * eta) by (apply Rmult_le_compat_r; [lra|]; apply Rmult_le_compat; lra).
    lra.
Qed.
Lemma ap_comb k A p num den (y y' : Z -> R) js : js <> [] -> length js = k -> den <> 0 -> Rsum (map (fun j => Rabs (num j / den)) js) <= A ->
  (forall j, In j js -> approx p (y j) (y' j)) ->
  approx (k_comb u eta k A p) (Rsum (map (fun j => num j / den * y j) js)) (f_sum F (map (fun j => f_mul F (f_div F (num j) den) (y' j)) js)).
Proof using U0 E0 HF.
  intros NE LK HD HA HY. set (w := fun j => num j / den) in *.
  assert (PP : 0 <= size p /\ 0 <= error p) by (destruct js as [|j l]; [congruence|]; apply (approx_nonneg p (y j) (y' j)), HY; now left). destruct PP as [PS PE].
  set (B := size p + error p). assert (B0 : 0 <= B) by (unfold B; lra).
  assert (K1 : (1 <= k)%nat) by (destruct js; [congruence|cbn in LK; lia]).
  split; cbn [k_comb size error fst snd]; fold (size p) (error p); fold B.
  { eapply Rle_trans; [apply absum|]. rewrite map_map. eapply Rle_trans; [|apply Rmult_le_compat_l; [exact PS|exact HA]].
    rewrite <- Rsum_map_scal. apply Rsum_map_le. intros j Hj. rewrite Rabs_mult, Rmult_comm. fold (w j). apply Rmult_le_compat_r; [apply Rabs_pos|now apply HY]. }
  set (a := Rsum (map (fun j => Rabs (num j / den)) js)) in *. change (Rsum (map (fun j => Rabs (w j)) js) <= A) in HA. set (a' := Rsum (map (fun j => Rabs (w j)) js)) in *.
  assert (A0 : 0 <= a') by (apply Rsum_map_nonneg; intros; apply Rabs_pos).
  set (w' := fun j => f_div F (num j) den). set (t := fun j => f_mul F (w' j) (y' j)).
  destruct HF as (_ & Hm & Hd & _).
  assert (W1 : forall j, Rabs (w' j - w j) <= u * Rabs (w j) + eta) by (intros j; now apply Hd).
  assert (W2 : forall j, Rabs (w' j) <= (1 + u) * Rabs (w j) + eta).
  { intros j. replace (w' j) with (w j + (w' j - w j)) by ring. eapply Rle_trans; [apply Rabs_triang|]. assert (Q := W1 j). lra. }
  assert (Y1 : forall j, In j js -> Rabs (y' j) <= B) by (intros j H; apply (size_computed p (y j)), HY, H).
  assert (T1 : forall j, In j js -> Rabs (t j - w j * y' j) <= B * (((1 + u) ^ 2 - 1) * Rabs (w j) + (1 + u) * eta) + eta).
  { intros j H. specialize (Y1 j H). assert (Q := Hm (w' j) (y' j)). eapply Rle_trans; [apply (tri _ (w' j * y' j))|].
    replace (w' j * y' j - w j * y' j) with ((w' j - w j) * y' j) by ring. rewrite Rabs_mult in Q. rewrite (Rabs_mult (w' j - w j)).
    assert (X1 : Rabs (w' j) * Rabs (y' j) <= ((1 + u) * Rabs (w j) + eta) * B) by (apply Rmult_le_compat; trivial; apply Rabs_pos).
    assert (X2 : Rabs (w' j - w j) * Rabs (y' j) <= (u * Rabs (w j) + eta) * B) by (apply Rmult_le_compat; trivial; apply Rabs_pos).
    assert (X3 : u * (Rabs (w' j) * Rabs (y' j)) <= u * (((1 + u) * Rabs (w j) + eta) * B)) by (apply Rmult_le_compat_l; lra).
    eapply Rle_trans; [apply Rplus_le_compat; [exact Q|exact X2]|]. eapply Rle_trans; [apply Rplus_le_compat_r, Rplus_le_compat_r, X3|]. apply Req_le. ring. }
  assert (T2 : forall j, In j js -> Rabs (t j) <= B * ((1 + u) ^ 2 * Rabs (w j) + (1 + u) * eta) + eta).
  { intros j H. replace (t j) with ((t j - w j * y' j) + w j * y' j) by ring. eapply Rle_trans; [apply Rabs_triang|].
    assert (Q := T1 j H). rewrite Rabs_mult. assert (Rabs (w j) * Rabs (y' j) <= Rabs (w j) * B) by (apply Rmult_le_compat_l; [apply Rabs_pos|now apply Y1]). lra. }
  assert (S1' : Rsum (map (fun j => Rabs (t j - w j * y' j)) js) <= B * (((1 + u) ^ 2 - 1) * a' + INR k * ((1 + u) * eta)) + INR k * eta).
  { eapply Rle_trans; [apply Rsum_map_le; intros j H; apply (T1 j H)|].
    rewrite (Rsum_map_ext _ (fun j => B * ((1 + u) ^ 2 - 1) * Rabs (w j) + (B * ((1 + u) * eta) + eta))) by (intros; ring).
    rewrite Rsum_map_plus, Rsum_map_scal, Rsum_const, LK. fold a'. apply Req_le. ring. }
  assert (S2' : Rsum (map (fun j => Rabs (t j)) js) <= B * ((1 + u) ^ 2 * a' + INR k * ((1 + u) * eta)) + INR k * eta).
  { eapply Rle_trans; [apply Rsum_map_le; intros j H; apply (T2 j H)|].
    rewrite (Rsum_map_ext _ (fun j => B * (1 + u) ^ 2 * Rabs (w j) + (B * ((1 + u) * eta) + eta))) by (intros; ring).
    rewrite Rsum_map_plus, Rsum_map_scal, Rsum_const, LK. fold a'. apply Req_le. ring. }
  assert (SS := f_sum_err F u v eta U0 E0 HF (map t js)). rewrite map_map, map_length, LK in SS.
  assert (NEt : map t js <> []) by (destruct js; [congruence|discriminate]). specialize (SS NEt).
  set (g := (1 + u) ^ (k - 1)) in *. assert (G1 : 1 <= g) by (now apply g_ge1).
  change (map (fun j => f_mul F (f_div F (num j) den) (y' j)) js) with (map t js). set (s := f_sum F (map t js)) in *.
  change (map (fun j => num j / den * y j) js) with (map (fun j => w j * y j) js).
  assert (Z1 : Rabs (Rsum (map t js) - Rsum (map (fun j => w j * y' j) js)) <= B * (((1 + u) ^ 2 - 1) * a' + INR k * ((1 + u) * eta)) + INR k * eta).
  { eapply Rle_trans; [|exact S1']. replace (Rsum (map t js) - Rsum (map (fun j => w j * y' j) js)) with (Rsum (map (fun j => t j - w j * y' j) js)).
    - eapply Rle_trans; [apply absum|]. now rewrite map_map; apply Rle_refl.
    - rewrite (Rsum_map_ext (fun j => t j - w j * y' j) (fun j => t j + - 1 * (w j * y' j))) by (intros; ring). rewrite Rsum_map_plus, Rsum_map_scal. ring. }
  assert (Z2 : Rabs (Rsum (map (fun j => w j * y' j) js) - Rsum (map (fun j => w j * y j) js)) <= error p * A).
  { replace (Rsum (map (fun j => w j * y' j) js) - Rsum (map (fun j => w j * y j) js)) with (Rsum (map (fun j => w j * (y' j - y j)) js)).
    - eapply Rle_trans; [apply absum|]. rewrite map_map. eapply Rle_trans; [|apply Rmult_le_compat_l; [exact PE|exact HA]].
      unfold a'. rewrite <- Rsum_map_scal. apply Rsum_map_le. intros j Hj. rewrite Rabs_mult, Rmult_comm. apply Rmult_le_compat_r; [apply Rabs_pos|now apply HY].
    - rewrite (Rsum_map_ext (fun j => w j * (y' j - y j)) (fun j => w j * y' j + - 1 * (w j * y j))) by (intros; ring).
      rewrite Rsum_map_plus, Rsum_map_scal. ring. }
  eapply Rle_trans; [apply (tri _ (Rsum (map (fun j => w j * y' j) js)))|]. eapply Rle_trans; [apply Rplus_le_compat; [apply (tri _ (Rsum (map t js)))|exact Z2]|].
  set (i := INR k) in *. assert (I1 : INR (k - 1) <= i) by (apply le_INR; lia). assert (I0 := pos_INR (k - 1)).
  assert (IP : 0 <= i) by apply pos_INR.
  set (b := B * ((1 + u) ^ 2 * a' + i * ((1 + u) * eta)) + i * eta) in *.
  assert (SS' : Rabs (s - Rsum (map t js)) <= (g - 1) * b + i * (g * eta)).
  { eapply Rle_trans; [exact SS|]. apply Rplus_le_compat; [apply Rmult_le_compat_l; lra|]. rewrite Rmult_assoc.
    apply Rmult_le_compat_r; [apply Rmult_le_pos; lra|trivial]. }
  assert (G2 : (1 + u) ^ (k + 1) = (1 + u) ^ 2 * g) by (unfold g; rewrite <- pow_add; f_equal; lia).
  assert (G3 : (1 + u) ^ k = (1 + u) * g) by (unfold g; change ((1 + u) * (1 + u) ^ (k - 1)) with ((1 + u) ^ S (k - 1)); f_equal; lia).
  rewrite G2, G3.
  assert (X : Rabs (s - Rsum (map t js)) + Rabs (Rsum (map t js) - Rsum (map (fun j => w j * y' j) js)) <=
     ((1 + u) ^ 2 * g - 1) * B * a' + i * (B + 2) * ((1 + u) * g) * eta).
  { eapply Rle_trans; [apply Rplus_le_compat; [exact SS'|exact Z1]|]. unfold b.
    replace ((g - 1) * (B * ((1 + u) ^ 2 * a' + i * ((1 + u) * eta)) + i * eta) + i * (g * eta) + (B * (((1 + u) ^ 2 - 1) * a' + i * ((1 + u) * eta)) + i * eta))
      with (((1 + u) ^ 2 * g - 1) * B * a' + i * B * ((1 + u) * g) * eta + 2 * (i * (g * eta))) by ring.
    assert (0 <= u * (i * (g * eta))) by (repeat apply Rmult_le_pos; lra).
    replace (i * (B + 2) * ((1 + u) * g) * eta) with (i * B * ((1 + u) * g) * eta + 2 * (i * (g * eta)) + 2 * (u * (i * (g * eta)))) by ring. lra. }
  assert (Q : ((1 + u) ^ 2 * g - 1) * B * a' <= ((1 + u) ^ 2 * g - 1) * B * A).
  { apply Rmult_le_compat_l; [apply Rmult_le_pos; trivial|lra]. assert (1 <= (1 + u) ^ 2) by now apply g_ge1.
    assert (1 * 1 <= (1 + u) ^ 2 * g) by (apply Rmult_le_compat; lra). lra. }
  rewrite Rmult_plus_distr_r. lra.
Qed.
End Comb.

(** ** The three results of the fit *)
Section Fit.
Variables (F : arith) (u v eta : R).
Hypotheses (U0 : 0 <= u) (E0 : 0 <= eta) (HF : accurate_arith u v eta F).
Variables (wd : bool) (m : mrq) (j1 j2 : Z) (r : nat).
Let js := zrange j1 (j2 + 1).
Let P := fpts wd m j1 j2 r.
Let nums (j : Z) : R := weight wd m j r * (S0 P * IZR j - S1 P).
Let numi (j : Z) : R := weight wd m j r * (S2 P - S1 P * IZR j).

Lemma fit3_f_value y : (j1 <= j2)%Z -> D P <> 0 -> (forall j, (j1 <= j <= j2)%Z -> weight wd m j r <> 0) ->
  snd (fst (fit3_f F wd m j1 j2 r (fun j => Fin (y j)))) = Fin (f_sum F (map (fun j => f_mul F (f_div F (numi j) (D P)) (y j)) js)) /\
  snd (fit3_f F wd m j1 j2 r (fun j => Fin (y j))) =
    Fin (f_sum F (map (fun j => f_mul F (f_mul F (f_div F 1 (weight wd m j r)) (f_div F (nums j) (D P))) (f_div F (nums j) (D P))) js)).
Proof.
  intros Hj HD HW. unfold fit3_f, linear_regression_f. rewrite (wts_fin wd m j1 j2 r (fun _ => 0)), (supp_fin wd m j1 j2 r (fun _ => 0)).
  change (fit_points wd m j1 j2 r (fun _ => 0)) with P. rewrite !fin_length, !map_length, Nat.eqb_refl. cbn [negb].
  rewrite V0_eq, V1_eq, V2_eq. change (xsub (xmul (Fin (S0 P)) (Fin (S2 P))) (xmul (Fin (S1 P)) (Fin (S1 P)))) with (Fin (D P)).
  assert (M : forall g : point -> xr, map g P = map (fun j => g (weight wd m j r, IZR j, 0)) js) by (intros g; unfold P, fpts, fit_points; now rewrite map_map).
  assert (E : map2 (fun n t => div_x F (xmul n (xsub (xmul (Fin (S0 P)) t) (Fin (S1 P)))) (Fin (D P))) (fin (map pw P)) (fin (map px P))
    = map (fun j => Fin (f_div F (nums j) (D P))) js).
  { rewrite !fin_map, map2_map, map2_diag, M. apply map_ext. intros j.
    cbn [pw px fst snd]. unfold div_x, lift2, xsub. cbn [xmul xopp xadd]. unfold xdiv. destruct (Req_EM_T (D P) 0); [contradiction|]. unfold nums. reflexivity. }
  assert (E' : map2 (fun n t => div_x F (xmul n (xsub (Fin (S2 P)) (xmul (Fin (S1 P)) t))) (Fin (D P))) (fin (map pw P)) (fin (map px P))
    = map (fun j => Fin (f_div F (numi j) (D P))) js).
  { rewrite !fin_map, map2_map, map2_diag, M. apply map_ext. intros j.
    cbn [pw px fst snd]. unfold div_x, lift2, xsub. cbn [xmul xopp xadd]. unfold xdiv. destruct (Req_EM_T (D P) 0); [contradiction|]. unfold numi. reflexivity. }
  rewrite E, E'. unfold bcast_mul_f. rewrite !map_length. fold js. rewrite Nat.eqb_refl. cbn [bind fst snd].
  assert (NE : js <> []) by (intros K; apply (f_equal (@length _)) in K; unfold js in K; rewrite zrange_length in K; cbn in K; lia).
  split.
  - rewrite map2_map, map2_diag. change (map (fun a => mul_x F (Fin (f_div F (numi a) (D P))) (Fin (y a))) js) with (map (fun j => Fin (f_mul F (f_div F (numi j) (D P)) (y j))) js).
    rewrite <- fin_map. unfold sum_x. rewrite all_fin_fin. destruct js; [congruence|reflexivity].
  - rewrite fin_map. rewrite M, map2_map, map2_diag. cbn [pw fst snd].
    rewrite (map_ext_in _ (fun j => Fin (f_mul F (f_mul F (f_div F 1 (weight wd m j r)) (f_div F (nums j) (D P))) (f_div F (nums j) (D P))))).
    + rewrite <- fin_map. unfold sum_x. rewrite all_fin_fin. destruct js; [congruence|reflexivity].
    + intros j Hjs. assert (W := HW j). unfold js in Hjs. apply zrange_In in Hjs. specialize (W ltac:(lia)).
      unfold div_x at 1. unfold lift2 at 1. unfold xdiv. destruct (Req_EM_T (weight wd m j r) 0); [contradiction|]. reflexivity.
Qed.
Lemma icept_wgt y : D P <> 0 -> icept (fit_points wd m j1 j2 r y) = Rsum (map (fun j => numi j / D P * y j) js).
Proof.
  intros HD. rewrite <- sum_wic_y.
  2:{ replace (D (fit_points wd m j1 j2 r y)) with (D P); trivial. unfold D, P, fpts. now rewrite !fp_S0, !fp_S1, !fp_S2. }
  unfold wic, numi. unfold D, P, fpts. rewrite !fp_S0, !fp_S1, !fp_S2. unfold fit_points. rewrite map_map. reflexivity.
Qed.
(** the intercept is the weighted mean of the data minus the slope times the mean scale *)
Lemma icept_bound y e : (1 <= j1)%Z -> well_posed P -> (forall j, (j1 <= j <= j2)%Z -> Rabs (y j) <= e) ->
  Rabs (icept (fit_points wd m j1 j2 r y)) <= e * (1 + IZR j2 / spread wd m j1 j2 r).
Proof.
  intros H1 W HY. assert (W' := wposed_ext wd m j1 j2 r _ y W). assert (HD := D_pos _ W'). assert (HS := PropsStable.S0_pos wd m j1 j2 r y W').
  destruct (spread_eq wd m j1 j2 r y W') as [Sp _]. assert (B := slope_bound wd m j1 j2 r y e W' HY). set (sd := spread wd m j1 j2 r) in *.
  assert (N := normal_1 (fit_points wd m j1 j2 r y) ltac:(lra)).
  assert (WP : forall j, (j1 <= j <= j2)%Z -> 0 <= weight wd m j r).
  { intros j Hj. destruct W as [F0 _]. rewrite Forall_forall in F0. assert (Q := F0 (weight wd m j r, IZR j, 0)). cbn in Q. apply Q. unfold P, fpts, fit_points. apply in_map_iff. exists j. split; trivial. apply zrange_In. lia. }
  assert (Hj : (j1 <= j2)%Z).
  { destruct W as [_ (q & ? & Hq & _)]. unfold P, fpts, fit_points in Hq. apply in_map_iff in Hq as (j & _ & Hq). apply zrange_In in Hq. lia. }
  assert (e0 : 0 <= e) by (assert (Q := HY j1 ltac:(lia)); assert (Q' := Rabs_pos (y j1)); lra).
  set (s := slope (fit_points wd m j1 j2 r y)) in *. set (i := icept (fit_points wd m j1 j2 r y)) in *.
  rewrite fp_S0, fp_S1, fp_T0 in N. rewrite fp_S0 in HS. fold js in N, HS.
  set (s0 := Rsum (map (fun j => weight wd m j r) js)) in *.
  assert (T : Rabs (Rsum (map (fun j => weight wd m j r * y j) js)) <= s0 * e).
  { eapply Rle_trans; [apply absum|]. rewrite map_map. unfold s0. rewrite Rmult_comm, <- Rsum_map_scal. apply Rsum_map_le. intros j Hjs. unfold js in Hjs. apply zrange_In in Hjs.
    rewrite Rabs_mult, (Rabs_pos_eq (weight wd m j r)) by (apply WP; lia). rewrite Rmult_comm. apply Rmult_le_compat_r; [apply WP; lia|apply HY; lia]. }
  assert (X : 0 <= Rsum (map (fun j => weight wd m j r * IZR j) js) <= s0 * IZR j2).
  { split.
    - apply Rsum_map_nonneg. intros j Hjs. unfold js in Hjs. apply zrange_In in Hjs. apply Rmult_le_pos; [apply WP; lia|apply IZR_le; lia].
    - unfold s0. rewrite Rmult_comm, <- Rsum_map_scal. apply Rsum_map_le. intros j Hjs. unfold js in Hjs. apply zrange_In in Hjs. rewrite (Rmult_comm (IZR j2)).
      apply Rmult_le_compat_l; [apply WP; lia|apply IZR_le; lia]. }
  set (s1 := Rsum (map (fun j => weight wd m j r * IZR j) js)) in *. set (t0 := Rsum (map (fun j => weight wd m j r * y j) js)) in *.
  assert (Ei : i * s0 = t0 - s * s1) by lra.
  assert (Q : Rabs (s * s1) <= e / sd * (s0 * IZR j2)).
  { rewrite Rabs_mult, (Rabs_pos_eq s1) by lra. apply Rmult_le_compat; try lra. apply Rabs_pos. }
  apply (Rmult_le_reg_r s0); trivial. replace (Rabs i * s0) with (Rabs (i * s0)) by (rewrite Rabs_mult, (Rabs_pos_eq s0); lra). rewrite Ei.
  eapply Rle_trans; [apply Rabs_triang|]. rewrite Rabs_Ropp.
  replace (e * (1 + IZR j2 / sd) * s0) with (s0 * e + e / sd * (s0 * IZR j2)) by (field; lra). lra.
Qed.
Lemma icept_norm : (1 <= j1)%Z -> well_posed P -> Rsum (map (fun j => Rabs (numi j / D P)) js) <= 1 + IZR j2 / spread wd m j1 j2 r.
Proof.
  intros H1 W. assert (HD := D_pos _ W). set (c := fun j => numi j / D P).
  set (y := fun j => if Rle_dec 0 (c j) then 1 else -1).
  assert (E : icept (fit_points wd m j1 j2 r y) = Rsum (map (fun j => Rabs (numi j / D P)) js)).
  { rewrite icept_wgt by lra. apply Rsum_map_ext. intros j _. fold (c j). unfold y. destruct (Rle_dec 0 (c j)); [rewrite Rabs_pos_eq by trivial|rewrite Rabs_left by lra]; ring. }
  assert (B := icept_bound y 1 H1 W). rewrite E in B. rewrite Rabs_pos_eq, Rmult_1_l in B by (apply Rsum_map_nonneg; intros; apply Rabs_pos). apply B.
  intros j _. unfold y. destruct (Rle_dec 0 (c j)); [rewrite Rabs_R1|rewrite Rabs_left by lra]; lra.
Qed.

Lemma ap_icept p (y y' : Z -> R) : (1 <= j1)%Z -> well_posed P -> (forall j, (j1 <= j <= j2)%Z -> approx p (y j) (y' j)) ->
  (forall j, (j1 <= j <= j2)%Z -> weight wd m j r <> 0) ->
  computed (k_icept u eta (nscales j1 j2) j2 (spread wd m j1 j2 r) p) (ficept wd m j1 j2 r (fun j => Fin (y j))) (snd (fst (fit3_f F wd m j1 j2 r (fun j => Fin (y' j))))).
Proof using U0 E0 HF.
  intros H1 W HY HW. assert (HD := D_pos _ W).
  assert (Hj : (j1 <= j2)%Z).
  { destruct W as [_ (q & ? & Hq & _)]. unfold P, fpts, fit_points in Hq. apply in_map_iff in Hq as (j & _ & Hq). apply zrange_In in Hq. lia. }
  destruct (fit_finite wd m j1 j2 r y (wposed_ext wd m j1 j2 r _ y W)) as [_ E1].
  destruct (fit3_f_value y' Hj ltac:(lra) HW) as [E2 _]. rewrite E1, E2. eexists; eexists. split; [reflexivity|]. split; [reflexivity|].
  rewrite icept_wgt by lra. apply (ap_comb F u v eta U0 E0 HF); trivial.
  - intros K; apply (f_equal (@length _)) in K; unfold js in K; rewrite zrange_length in K; cbn in K; lia.
  - unfold js, nscales. now rewrite zrange_length.
  - lra.
  - now apply icept_norm.
  - intros j Hjs. apply HY. unfold js in Hjs. apply zrange_In in Hjs. lia.
Qed.
(** the variance: its exact value is the sum of w_j^2 / n_j *)
Lemma ap_var y y' : well_posed P -> (forall j, (j1 <= j <= j2)%Z -> 1 <= weight wd m j r) ->
  computed (k_var u eta (nscales j1 j2) (spread wd m j1 j2 r)) (snd (fit3 wd m j1 j2 r (fun j => Fin (y j)))) (snd (fit3_f F wd m j1 j2 r (fun j => Fin (y' j)))).
Proof using U0 E0 HF.
  intros W HW. assert (HD := D_pos _ W). assert (W' := wposed_ext wd m j1 j2 r _ y W).
  assert (Hj : (j1 <= j2)%Z).
  { destruct W as [_ (q & ? & Hq & _)]. unfold P, fpts, fit_points in Hq. apply in_map_iff in Hq as (j & _ & Hq). apply zrange_In in Hq. lia. }
  destruct (fit3_f_value y' Hj ltac:(lra) (fun j H => Rgt_not_eq _ _ (Rlt_le_trans _ _ _ Rlt_0_1 (HW j H)))) as [_ E2]. rewrite E2.
  assert (E1 : snd (fit3 wd m j1 j2 r (fun j => Fin (y j))) = Fin (Rsum (map (fun j => 1 / weight wd m j r * wgt wd m j1 j2 r j * wgt wd m j1 j2 r j) js))).
  { assert (LV := lr_points_var (fit_points wd m j1 j2 r y)). assert (HD' := D_pos _ W'). specialize (LV ltac:(lra)).
    assert (FP : Forall (fun p => 0 < pw p) (fit_points wd m j1 j2 r y)).
    { apply Forall_forall. intros q Hq. unfold fit_points in Hq. apply in_map_iff in Hq as (j & <- & Hq). apply zrange_In in Hq. cbn. assert (Q := HW j ltac:(lia)). lra. }
    specialize (LV FP).
    unfold fit3. rewrite (wts_fin wd m j1 j2 r y), (supp_fin wd m j1 j2 r y).
    assert (Ey : map (fun j => Fin (y j)) (zrange j1 (j2 + 1)) = fin (map py (fit_points wd m j1 j2 r y))) by (unfold fit_points, fin; rewrite !map_map; reflexivity).
    rewrite Ey, LV. cbn [snd]. f_equal. replace (D (fit_points wd m j1 j2 r y)) with (D P) by (unfold D, P, fpts; now rewrite !fp_S0, !fp_S1, !fp_S2).
    assert (E0' : S0 (fit_points wd m j1 j2 r y) = S0 P) by (unfold P, fpts; now rewrite !fp_S0). rewrite E0'.
    rewrite (Rsum_map_ext _ (fun j => S0 P / D P * (wgt wd m j1 j2 r j * IZR j) + - S1 P / D P * (wgt wd m j1 j2 r j * 1))).
    2:{ intros j Hjs. apply zrange_In in Hjs. assert (Q := HW j ltac:(lia)). unfold wgt. fold P. field. split; lra. }
    rewrite Rsum_map_plus, !Rsum_map_scal. unfold js. rewrite <- (slope_wgt wd m j1 j2 r IZR), <- (slope_wgt wd m j1 j2 r (fun _ => 1)) by (fold P; lra).
    unfold slope. replace (D (fit_points wd m j1 j2 r IZR)) with (D P) by (unfold D, P, fpts; now rewrite !fp_S0, !fp_S1, !fp_S2).
    replace (D (fit_points wd m j1 j2 r (fun _ => 1))) with (D P) by (unfold D, P, fpts; now rewrite !fp_S0, !fp_S1, !fp_S2).
    rewrite !fp_S0, !fp_S1, !fp_T0, !fp_T1. unfold P, fpts in HD |- *. unfold D in HD |- *. rewrite !fp_S0, !fp_S1, !fp_S2 in *. fold js in HD |- *.
    rewrite (Rsum_map_ext (fun j => weight wd m j r * 1) (fun j => weight wd m j r)) by (intros; ring).
    rewrite (Rsum_map_ext (fun j => weight wd m j r * IZR j * 1) (fun j => weight wd m j r * IZR j)) by (intros; ring).
    rewrite (Rsum_map_ext (fun j => weight wd m j r * IZR j * IZR j) (fun j => weight wd m j r * (IZR j * IZR j))) by (intros; ring).
    field. lra. }
  rewrite E1. eexists; eexists. split; [reflexivity|]. split; [reflexivity|].
  assert (NE : js <> []) by (intros K; apply (f_equal (@length _)) in K; unfold js in K; rewrite zrange_length in K; cbn in K; lia).
  apply (ap_sum F u v eta U0 E0 HF); trivial; [unfold js, nscales; now rewrite zrange_length|].
  intros j Hjs. assert (Hj' := Hjs). unfold js in Hj'. apply zrange_In in Hj'. assert (Q := HW j ltac:(lia)).
  assert (WB : Rabs (nums j / D P) <= 1 / spread wd m j1 j2 r).
  { eapply Rle_trans; [|apply (wgt_norm wd m j1 j2 r W)]. change (nums j / D P) with (wgt wd m j1 j2 r j). fold js.
    clear - Hjs. induction js as [|a l IH]; [contradiction|]. unfold Rsum in *. cbn [map fold_right].
    assert (N : 0 <= fold_right Rplus 0 (map (fun j => Rabs (wgt wd m j1 j2 r j)) l)) by (apply Rsum_map_nonneg; intros; apply Rabs_pos).
    destruct Hjs as [->|Hjs]; [lra|]. specialize (IH Hjs). assert (N2 := Rabs_pos (wgt wd m j1 j2 r a)). lra. }
  assert (AW : approx (k_quot u eta (1 / spread wd m j1 j2 r)) (wgt wd m j1 j2 r j) (f_div F (nums j) (D P))) by (apply (ap_quot F u v eta U0 HF); [lra|exact WB]).
  apply (ap_mul F u v eta U0 HF); [|exact AW]. apply (ap_mul F u v eta U0 HF); [|exact AW]. apply (ap_quot F u v eta U0 HF); [lra|].
  unfold Rdiv. rewrite Rmult_1_l, Rabs_pos_eq by (left; apply Rinv_0_lt_compat; lra). rewrite <- Rinv_1. apply Rinv_le_contravar; lra.
Qed.
End Fit.

Section Lift.
Variables (F : arith) (u v eta : R) (m : mrq) (g nrep : nat) (j1 j2 : Z) (wd : bool).
Hypotheses (U0 : 0 <= u) (E0 : 0 <= eta) (HF : accurate_arith u v eta F)
  (HR : regular m g nrep) (HC : counted m) (H1 : (1 <= j1)%Z) (H2 : (j1 < j2)%Z) (H3 : (j2 <= Z.of_nat g)%Z).

Lemma weight_ge1 r : (forall j, (j1 <= j <= j2)%Z -> no_inf (column m j r) /\ numbers m j r <> []) -> forall j, (j1 <= j <= j2)%Z -> 1 <= weight wd m j r.
Proof using HR HC H1 H3.
  intros HN j Hj. destruct (HN j Hj) as [N NE]. unfold weight. destruct wd; [|lra]. rewrite count_numbers; trivial.
  - destruct (numbers m j r); [congruence|]. apply (le_INR 1). cbn. lia.
  - destruct HR as (_ & -> & _). apply one_to_In. lia.
  - split; trivial.
Qed.
Lemma wp r : (forall j, (j1 <= j <= j2)%Z -> no_inf (column m j r) /\ numbers m j r <> []) -> well_posed (fpts wd m j1 j2 r).
Proof using HR HC H1 H2 H3.
  intros HN. unfold fpts. apply fit_well_posed; [lia|]. intros j Hj. destruct (HN j Hj) as [N NE]. rewrite count_numbers; trivial.
  - destruct (numbers m j r); [congruence|cbn; lia].
  - destruct HR as (_ & -> & _). apply one_to_In. lia.
  - split; trivial.
Qed.
Lemma fit3_f_ext r y y' : (forall j, (j1 <= j <= j2)%Z -> y j = y' j) -> fit3_f F wd m j1 j2 r y = fit3_f F wd m j1 j2 r y'.
Proof. intros H. unfold fit3_f. rewrite (map_ext_in y y'); trivial. intros j Hj. apply zrange_In in Hj. apply H. lia. Qed.
Lemma rest_computed p r (Y Y' : Z -> xr) :
  (forall j, (j1 <= j <= j2)%Z -> no_inf (column m j r) /\ numbers m j r <> []) ->
  (forall j, (j1 <= j <= j2)%Z -> computed p (Y j) (Y' j)) ->
  computed (k_icept u eta (Z.to_nat (j2 - j1 + 1)) j2 (spread wd m j1 j2 r) p) (ficept wd m j1 j2 r Y) (snd (fst (fit3_f F wd m j1 j2 r Y'))) /\
  computed (k_var u eta (Z.to_nat (j2 - j1 + 1)) (spread wd m j1 j2 r)) (snd (fit3 wd m j1 j2 r Y)) (snd (fit3_f F wd m j1 j2 r Y')).
Proof using U0 E0 HF HR HC H1 H2 H3.
  intros HN HY. set (val := fun x : xr => match x with Fin a => a | _ => 0 end).
  replace (Z.to_nat (j2 - j1 + 1)) with (nscales j1 j2) by (unfold nscales; f_equal; lia).
  rewrite (ficept_ext wd m j1 j2 r Y (fun j => Fin (val (Y j)))) by (intros j Hj; destruct (HY j Hj) as (a & b & -> & _); reflexivity).
  rewrite (fit3_ext wd m j1 j2 r Y (fun j => Fin (val (Y j)))) by (intros j Hj; destruct (HY j Hj) as (a & b & -> & _); reflexivity).
  rewrite (fit3_f_ext r Y' (fun j => Fin (val (Y' j)))) by (intros j Hj; destruct (HY j Hj) as (a & b & _ & -> & _); reflexivity).
  assert (WP := wp r HN). assert (W1 := weight_ge1 r HN). split.
  - apply (ap_icept F u v eta U0 E0 HF); trivial.
    + intros j Hj. destruct (HY j Hj) as (a & b & -> & -> & A). exact A.
    + intros j Hj. specialize (W1 j Hj). lra.
  - apply (ap_var F u v eta U0 E0 HF); trivial.
Qed.
End Lift.

(** ** C96 *)
(** estimate_hmin: intercepts and warning.  The warning is issued exactly when the computed hmin of some realisation is 0. *)
Theorem C96_hmin_rest :
  forall F u v eta m g nrep j1 j2 wd warn h,
  0 <= u -> u <= v -> 0 <= eta -> accurate_arith u v eta F ->
  regular m g nrep -> counted m -> (1 <= j1)%Z -> (j1 < j2)%Z -> (j2 <= Z.of_nat g)%Z ->
  estimate_hmin m j1 j2 wd warn = Ok h ->
  exists h', estimate_hmin_f F m j1 j2 wd warn = Ok h' /\
  (hm_warned h' = true <-> warn = true /\ exists r, (r < nrep)%nat /\ nth r (hm_hmin h') NaN = Fin 0) /\
  forall r Y, (r < nrep)%nat -> is_number (nth r (hm_hmin h) NaN) ->
  (forall j, (j1 <= j <= j2)%Z -> no_inf (column m j r) /\
     forall x, is_max x (map Rabs (numbers m j r)) -> Rabs (log2R x) <= Y) ->
  computed (k_icept u eta (Z.to_nat (j2 - j1 + 1)) j2 (spread wd m j1 j2 r) (k_log v eta Y)) (nth r (hm_intercept h) NaN) (nth r (hm_intercept h') NaN).
Proof.
  intros F u v eta m g nrep j1 j2 wd warn h U0 UV E0 HF HR HC H1 H2 H3 E.
  assert (NE := hmin_nonempty m g nrep j1 j2 wd warn h HR H1 ltac:(lia) H3 E).
  destruct (HMIN_f_eq F m g nrep HR j1 j2 wd warn H1 ltac:(lia) H3 NE) as (h' & E' & Eh & Ei & Ew). exists h'. split; [exact E'|]. split.
  { rewrite Ew. rewrite andb_true_iff. assert (L : length (hm_hmin h') = nrep) by (now rewrite Eh, map_length, seq_length). split.
    - intros [Z W]. split; [exact W|]. unfold zero_in in Z. apply existsb_exists in Z as (x & Hx & Zx). apply (In_nth _ _ NaN) in Hx as (r & Hr & Er). rewrite L in Hr.
      exists r. split; [exact Hr|]. rewrite Er. destruct x as [a| | |]; try discriminate. destruct (Req_EM_T a 0); [now subst|discriminate].
    - intros [W (r & Hr & Er)]. split; [|exact W]. unfold zero_in. apply existsb_exists. exists (Fin 0). split; [rewrite <- Er; apply nth_In; now rewrite L|].
      destruct (Req_EM_T 0 0); [reflexivity|congruence]. }
  intros r Y Hr HNum HY. rewrite Ei. apply (HMIN_rows m g nrep) in E; trivial; [|lia]. rewrite E in *. cbn [hm_hmin hm_intercept] in *. rewrite !nth_seq_map in * by trivial.
  assert (X : forall j, (j1 <= j <= j2)%Z -> Exists (fun a => a <> 0) (numbers m j r)).
  { intros j Hj. apply sup_fin; [now apply HY|]. exact (fslope_fin_inv wd m j1 j2 r (lsup m r) HNum j Hj). }
  apply (rest_computed F u v eta m g nrep); trivial.
  - intros j Hj. split; [now apply HY|]. intros Z. assert (Q := X j Hj). rewrite Z in Q. inversion Q.
  - intros j Hj. apply (lsup_f_value F u v eta U0 UV E0 HF); [now apply HY|now apply X|]. apply (HY j Hj).
Qed.
Print Assumptions C96_hmin_rest.

(** intercepts of the structure functions *)
Theorem C96_structure_intercepts :
  forall F u v eta m g nrep qs j1 j2 wd s,
  0 <= u -> u <= v -> 0 <= eta -> accurate_arith u v eta F ->
  regular m g nrep -> counted m -> (1 <= j1)%Z -> (j1 < j2)%Z -> (j2 <= Z.of_nat g)%Z ->
  StructureFunction m (QArr qs) j1 j2 wd = Ok s ->
  exists s', StructureFunction_f F m (QArr qs) j1 j2 wd = Ok s' /\
  forall r i Y d N, (r < nrep)%nat -> (i < length qs)%nat -> is_number (at2 (sf_zeta s) i r) -> 0 <= d ->
  (forall j, (j1 <= j <= j2)%Z -> no_inf (column m j r) /\ (length (numbers m j r) <= N)%nat /\
     let S := abs_moment (nth i qs 0) (numbers m j r) in
     mom_rel u v N * S + mom_abs u eta N <= (1 - Rpower 2 (- d)) * S /\ Rabs (log2R S) <= Y) ->
  computed (k_icept u eta (Z.to_nat (j2 - j1 + 1)) j2 (spread wd m j1 j2 r) (k_log2 v eta Y d)) (at2 (sf_intercept s) i r) (at2 (sf_intercept s') i r).
Proof.
  intros F u v eta m g nrep qs j1 j2 wd s U0 UV E0 HF HR HC H1 H2 H3 E.
  rewrite (SF_f_eq F m g nrep HR) by (trivial; lia). assert (E2 := E). rewrite (SF_eq m g nrep HR) in E2 by (trivial; lia).
  destruct (has_two qs) eqn:H2q; [|discriminate]. eexists. split; [reflexivity|].
  intros r i Y d N Hr Hi HNum Hd HY. set (e := PyFloat (nth i qs 0)).
  destruct (SF_rows m g nrep qs j1 j2 wd s HR H1 ltac:(lia) H3 E i r Hi Hr) as (_ & Ez & Ei). fold e in Ez, Ei.
  assert (X : forall j, (j1 <= j <= j2)%Z -> determined (num_val e) (numbers m j r)).
  { intros j Hj. apply logS_fin; [now apply HY|]. rewrite Ez in HNum. exact (fslope_fin_inv wd m j1 j2 r (logS m e r) HNum j Hj). }
  rewrite Ei. cbn [sf_intercept].
  rewrite (at2_map (fun q r => snd (fst (fit3_f F wd m j1 j2 r (logS_f F m q r)))) (map PyFloat qs) nrep i r (PyFloat 0)) by (trivial; now rewrite map_length).
  rewrite nth_PyFloat by trivial. fold e. apply (rest_computed F u v eta m g nrep); trivial.
  - intros j Hj. split; [now apply HY|]. apply (X j Hj).
  - intros j Hj. destruct (HY j Hj) as (A & B & C0). apply (logS_f_value F u v eta U0 UV E0 HF _ e N); trivial. now apply X.
Qed.
Print Assumptions C96_structure_intercepts.

(** intercepts and variances of the log-cumulants *)
Theorem C96_cumulants_rest :
  forall F u v eta m g nrep n j1 j2 wd c,
  0 <= u -> u <= v -> 0 <= eta -> accurate_arith u v eta F ->
  regular m g nrep -> counted m -> (1 <= j1)%Z -> (j1 < j2)%Z -> (j2 <= Z.of_nat g)%Z ->
  Cumulants m n j1 j2 wd = Ok c ->
  exists c', Cumulants_f F m n j1 j2 wd = Ok c' /\
  forall r k B N, (r < nrep)%nat -> (1 <= k <= n)%nat -> is_number (at2 (cu_log_cumulants c) (k - 1) r) ->
  (forall j, (j1 <= j <= j2)%Z -> no_inf (column m j r) /\ (length (numbers m j r) <= N)%nat /\
     forall a, In a (numbers m j r) -> Rabs (ln (Rabs a)) <= B) ->
  computed (k_icept u eta (Z.to_nat (j2 - j1 + 1)) j2 (spread wd m j1 j2 r) (k_cum u v eta N B k))
    (at2 (cu_intercept c) (k - 1) r) (at2 (cu_intercept c') (k - 1) r) /\
  computed (k_mul u eta (k_mul u eta (k_log2e v eta) (k_log2e v eta)) (k_var u eta (Z.to_nat (j2 - j1 + 1)) (spread wd m j1 j2 r)))
    (at2 (cu_var_log_cumulants c) (k - 1) r) (at2 (cu_var_log_cumulants c') (k - 1) r).
Proof.
  intros F u v eta m g nrep n j1 j2 wd c U0 UV E0 HF HR HC H1 H2 H3 E.
  destruct (CUM_f_eq F m g nrep HR n j1 j2 wd H1 ltac:(lia) H3) as (c' & E' & _ & Ei & Ev). exists c'. split; [exact E'|].
  intros r k B N Hr Hk HNum HY. rewrite Ei, Ev.
  destruct (CUM_rows m g nrep n j1 j2 wd c HR H1 ltac:(lia) H3 E k r Hk Hr) as (_ & _ & Ec & Ez). rewrite Ez in HNum. rewrite Ec.
  assert (Ew : at2 (cu_var_log_cumulants c) (k - 1) r = xmul (Fin (log2_e * log2_e)) (snd (fit3 wd m j1 j2 r (Cval m n k r)))).
  { rewrite (CUM_eq m g nrep HR) in E by (trivial; lia). 
    apply (f_equal (fun o => match o with Ok c => at2 (cu_var_log_cumulants c) (k - 1) r | Err _ => NaN end)) in E. cbv beta iota in E. rewrite <- E. clear E. cbn [cu_var_log_cumulants].
    rewrite (at2_map (fun k r => xmul (Fin (log2_e * log2_e)) (snd (fit3 wd m j1 j2 r (Cval m n k r)))) (seq 1 n) nrep (k - 1) r 0%nat) by (trivial; rewrite seq_length; lia).
    rewrite seq_nth by lia. replace (1 + (k - 1))%nat with k by lia. reflexivity. }
  rewrite Ew.
  rewrite (at2_map (fun k r => snd (fst (fit3_f F wd m j1 j2 r (Cval_f F m n k r)))) (seq 1 n) nrep (k - 1) r 0%nat) by (trivial; rewrite seq_length; lia).
  rewrite (at2_map (fun k r => mul_x F (Fin (f_mul F (f_log2e F) (f_log2e F))) (snd (fit3_f F wd m j1 j2 r (Cval_f F m n k r)))) (seq 1 n) nrep (k - 1) r 0%nat) by (trivial; rewrite seq_length; lia).
  rewrite seq_nth by lia. replace (1 + (k - 1))%nat with k by lia.
  assert (X : forall j, (j1 <= j <= j2)%Z -> numbers m j r <> [] /\ Forall (fun a => a <> 0) (numbers m j r)).
  { intros j Hj. apply (cum_fin (column m j r) n k); [now apply HY|trivial|]. apply (fslope_fin_inv wd m j1 j2 r (Cval m n k r)); trivial.
    destruct HNum as [w Hw]. destruct (fslope wd m j1 j2 r (Cval m n k r)) as [a| | |]; [now exists a| | |]; cbn in Hw; unfold scale_inf in Hw; repeat destruct (Req_EM_T _ _) in Hw; repeat destruct (Rlt_dec _ _) in Hw; discriminate. }
  destruct (rest_computed F u v eta m g nrep j1 j2 wd U0 E0 HF HR HC H1 H2 H3 (k_cum u v eta N B k) r (Cval m n k r) (Cval_f F m n k r)) as [K1 K2].
  { intros j Hj. split; [now apply HY|]. apply (X j Hj). }
  { intros j Hj. destruct (HY j Hj) as (A & A2 & A3). destruct (X j Hj) as [X1 X2]. now apply (cum_f_value F u v eta U0 UV E0 HF). }
  split; [exact K1|].
  assert (KL : approx (k_log2e v eta) log2_e (f_log2e F)).
  { assert (L := ln2_pos). assert (LE := log2e_ln2). assert (Pe : 0 < log2_e) by (destruct (Rle_dec log2_e 0); [nra|lra]).
    destruct HF as (_ & _ & _ & _ & _ & _ & _ & K). rewrite (Rabs_pos_eq log2_e) in K by lra. split; cbn; [rewrite Rabs_pos_eq by lra; lra|exact K]. }
  apply (co_mul F u v eta); trivial. eexists; eexists. split; [reflexivity|]. split; [reflexivity|]. now apply (ap_mul F u v eta U0 HF).
Qed.
Print Assumptions C96_cumulants_rest.
