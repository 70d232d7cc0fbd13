(** * C106: when the estimated scaling function is concave and the estimated spectrum stays below 1 *)
From Coq Require Import Reals List ZArith Bool Lra Lia.
From Verif Require Import XReal PyBase ModelUtils ModelMRQ ModelStructure ModelCumulants ModelSpectrum ModelEstimation ModelWavelet Spec SpecMRQ
  LXReal LReg LUtils LBase LEst LMoment LCum LEntropy LCgf LTransform LPattern LWave LWaveEst PropsEstimators PropsCumulants PropsSpectrum PropsMono PropsWavelet PropsLeaders PropsCgf.
Import ListNotations.
Open Scope R_scope.
Local Notation length := List.length.

(** ** Specification *)
(** average of f over the values l weighted by |value|^q *)
Definition tilted_mean (q : R) (f : R -> R) (l : list R) : R :=
  Rsum (map (fun a => Rpower (Rabs a) q * f a) l) / Rsum (map (fun a => Rpower (Rabs a) q) l).
(** the corresponding variance of log2|value| *)
Definition tilted_var (q : R) (l : list R) : R :=
  tilted_mean q (fun a => (ln (Rabs a) / ln 2 - tilted_mean q (fun b => ln (Rabs b) / ln 2) l) ^ 2) l.
(** realisation r has finite non-zero values at the scales of the fit *)
Definition fit_ready (m : mrq) (j1 j2 : Z) (r : nat) : Prop :=
  forall j, (j1 <= j <= j2)%Z -> usable m j r /\ no_zero m j r /\ (0 < count m j r)%nat.
(** for the orders between lo and hi the log-magnitudes spread less (more) as the scale grows *)
Definition narrowing (m : mrq) (j1 j2 : Z) (r : nat) (lo hi : R) : Prop :=
  forall q j j', lo <= q <= hi -> (j1 <= j)%Z -> (j <= j')%Z -> (j' <= j2)%Z -> tilted_var q (numbers m j' r) <= tilted_var q (numbers m j r).
Definition widening (m : mrq) (j1 j2 : Z) (r : nat) (lo hi : R) : Prop :=
  forall q j j', lo <= q <= hi -> (j1 <= j)%Z -> (j <= j')%Z -> (j' <= j2)%Z -> tilted_var q (numbers m j r) <= tilted_var q (numbers m j' r).

(** ** Regression of an ordered series *)
Lemma cheb (l : list point) : Forall (fun p => 0 <= pw p) l -> (forall p q, In p l -> In q l -> (px p - px q) * (py p - py q) <= 0) ->
  S0 l * T1 l - S1 l * T0 l <= 0.
Proof.
  intros W. induction W as [|p l Hp W IH]; intros H; [unfold S0, S1, T0, T1, Rsum; cbn; lra|].
  assert (K := IH (fun a b Ha Hb => H a b (or_intror Ha) (or_intror Hb))).
  assert (Q : T1 l + S0 l * (px p * py p) - px p * T0 l - py p * S1 l <= 0).
  { assert (E : T1 l + S0 l * (px p * py p) - px p * T0 l - py p * S1 l = Rsum (map (fun q => pw q * ((px q - px p) * (py q - py p))) l)).
    { unfold T1, S0, T0, S1. clear. induction l as [|q l IH]; [unfold Rsum; cbn; ring|]. unfold Rsum in *. cbn [map fold_right]. rewrite <- (Rplus_comm (fold_right _ _ _)), <- IH. ring. }
    rewrite E. clear - W H. assert (G : forall l', incl l' l -> Rsum (map (fun q => pw q * ((px q - px p) * (py q - py p))) l') <= 0).
    { induction l' as [|q l' IH]; intros I; [unfold Rsum; cbn; lra|]. unfold Rsum in *. cbn [map fold_right].
      assert (I1 : In q l) by (apply I; now left). assert (K1 := H q p (or_intror I1) (or_introl eq_refl)). rewrite Forall_forall in W. assert (W1 := W q I1).
      assert (I2 : incl l' l) by (intros x Hx; apply I; now right). specialize (IH I2). assert (pw q * ((px q - px p) * (py q - py p)) <= 0) by nra. lra. }
    apply G, incl_refl. }
  unfold S0, S1, T0, T1, Rsum in *. cbn [map fold_right].
  set (s0 := fold_right Rplus 0 (map pw l)) in *. set (s1 := fold_right Rplus 0 (map (fun p => pw p * px p) l)) in *.
  set (t0 := fold_right Rplus 0 (map (fun p => pw p * py p) l)) in *. set (t1 := fold_right Rplus 0 (map (fun p => pw p * px p * py p) l)) in *.
  assert (pw p * (t1 + s0 * (px p * py p) - px p * t0 - py p * s1) <= 0) by nra.
  replace ((pw p + s0) * (pw p * px p * py p + t1) - (pw p * px p + s1) * (pw p * py p + t0))
    with ((s0 * t1 - s1 * t0) + pw p * (t1 + s0 * (px p * py p) - px p * t0 - py p * s1)) by ring. lra.
Qed.
Lemma fit_points_opp wd m j1 j2 r y : slope (fit_points wd m j1 j2 r (fun j => - y j)) = - slope (fit_points wd m j1 j2 r y).
Proof.
  unfold slope. assert (E : D (fit_points wd m j1 j2 r (fun j => - y j)) = D (fit_points wd m j1 j2 r y)).
  { destruct (D_ext (fit_points wd m j1 j2 r (fun j => - y j)) (fit_points wd m j1 j2 r y)) as (E0 & E1 & E2); [unfold fit_points; now rewrite !map_map|unfold fit_points; now rewrite !map_map|].
    unfold D. now rewrite E0, E1, E2. }
  rewrite E. unfold S0, S1, T0, T1, fit_points. rewrite !map_map. cbn [pw px py fst snd].
  rewrite (Rsum_map_ext (fun j => weight wd m j r * IZR j * - y j) (fun j => -1 * (weight wd m j r * IZR j * y j))) by (intros; ring).
  rewrite (Rsum_map_ext (fun j => weight wd m j r * - y j) (fun j => -1 * (weight wd m j r * y j))) by (intros; ring).
  rewrite !Rsum_map_scal. unfold Rdiv. ring.
Qed.
Lemma slope_antitone wd m j1 j2 r y : (forall j j', (j1 <= j)%Z -> (j <= j')%Z -> (j' <= j2)%Z -> y j' <= y j) ->
  slope (fit_points wd m j1 j2 r y) <= 0.
Proof.
  intros H. assert (W : Forall (fun p => 0 <= pw p) (fit_points wd m j1 j2 r y)).
  { unfold fit_points. rewrite Forall_map, Forall_forall. intros j _. apply weight_nonneg. }
  assert (K := cheb _ W). assert (HD := D_nonneg _ W). unfold slope.
  assert (N : S0 (fit_points wd m j1 j2 r y) * T1 (fit_points wd m j1 j2 r y) - S1 (fit_points wd m j1 j2 r y) * T0 (fit_points wd m j1 j2 r y) <= 0).
  { apply K. intros p q Hp Hq. unfold fit_points in Hp, Hq. apply in_map_iff in Hp as (j & <- & Hj). apply in_map_iff in Hq as (j' & <- & Hj').
    apply zrange_In in Hj. apply zrange_In in Hj'. cbn [px py fst snd]. destruct (Z.le_ge_cases j j') as [L|L].
    - assert (Y := H j j' ltac:(lia) L ltac:(lia)). apply IZR_le in L. nra.
    - assert (Y := H j' j ltac:(lia) L ltac:(lia)). apply IZR_le in L. nra. }
  destruct (Req_dec (D (fit_points wd m j1 j2 r y)) 0) as [->|ND]; [unfold Rdiv; rewrite Rinv_0; lra|].
  assert (0 < / D (fit_points wd m j1 j2 r y)) by (apply Rinv_0_lt_compat; lra). unfold Rdiv. nra.
Qed.

(** ** The second derivative *)
Lemma tilted_em q l (f : R -> R) (g : R -> R) : l <> [] -> Forall (fun a => a <> 0) l -> (forall a, a <> 0 -> f a = g (ln (Rabs a))) ->
  tilted_mean q f l = mean (map (fun t => g t * exp (q * t)) (map (fun a => ln (Rabs a)) l)) / em (map (fun a => ln (Rabs a)) l) 0 q.
Proof.
  intros Hne H Hf. assert (Hn : 0 < INR (length l)) by (apply lt_0_INR; destruct l; [contradiction|simpl; lia]).
  assert (P := em_pos (map (fun a => ln (Rabs a)) l) q ltac:(destruct l; [contradiction|discriminate])). revert P.
  rewrite Forall_forall in H. unfold tilted_mean, em, mean. rewrite !map_map, !map_length.
  rewrite (Rsum_map_ext (fun x => ln (Rabs x) ^ 0 * exp (q * ln (Rabs x))) (fun a => Rpower (Rabs a) q)) by (intros; unfold Rpower; simpl; ring).
  rewrite (Rsum_map_ext (fun a => Rpower (Rabs a) q * f a) (fun x => g (ln (Rabs x)) * exp (q * ln (Rabs x)))) by (intros a Ha; rewrite Hf by auto; unfold Rpower; ring).
  intros P. assert (P2 : Rsum (map (fun a => Rpower (Rabs a) q) l) <> 0). { intros E. rewrite E in P. unfold Rdiv in P. lra. }
  field. split; trivial. lra.
Qed.
Lemma tilted_var_em q l : l <> [] -> Forall (fun a => a <> 0) l -> cgf (map (fun a => ln (Rabs a)) l) 2 q = ln 2 ^ 2 * tilted_var q l.
Proof.
  intros Hne H. assert (L2 := ln2_pos). set (x := map (fun a => ln (Rabs a)) l). assert (Hx : x <> []) by (unfold x; destruct l; [contradiction|discriminate]).
  assert (P := em_pos x q Hx). unfold tilted_var. set (mu0 := tilted_mean q (fun b => ln (Rabs b) / ln 2) l).
  assert (Em : mu0 = em x 1 q / em x 0 q / ln 2).
  { unfold mu0. rewrite (tilted_em q l _ (fun t => t / ln 2) Hne H) by reflexivity. fold x.
    replace (mean (map (fun t => t / ln 2 * exp (q * t)) x)) with (em x 1 q / ln 2); [field; split; lra|].
    unfold em, mean. rewrite !map_length, (Rsum_map_ext (fun t => t / ln 2 * exp (q * t)) (fun t => / ln 2 * (t ^ 1 * exp (q * t)))) by (intros; field; lra).
    rewrite Rsum_map_scal. unfold Rdiv. ring. }
  rewrite (tilted_em q l _ (fun t => (t / ln 2 - mu0) ^ 2) Hne H) by reflexivity. fold x. cbn [cgf]. rewrite kappa_2.
  replace (mean (map (fun t => (t / ln 2 - mu0) ^ 2 * exp (q * t)) x)) with (em x 2 q / ln 2 ^ 2 - 2 * mu0 / ln 2 * em x 1 q + mu0 ^ 2 * em x 0 q).
  - rewrite Em. field. split; lra.
  - unfold em, mean. rewrite !map_length.
    rewrite (Rsum_map_ext (fun t => (t / ln 2 - mu0) ^ 2 * exp (q * t))
      (fun t => / ln 2 ^ 2 * (t ^ 2 * exp (q * t)) + (- (2 * mu0 / ln 2) * (t ^ 1 * exp (q * t)) + mu0 ^ 2 * (t ^ 0 * exp (q * t))))) by (intros; field; lra).
    rewrite !Rsum_map_plus, !Rsum_map_scal. field. split; [lra|].
    apply not_0_INR. intros E0. apply length_zero_iff_nil in E0. contradiction.
Qed.

(** ** The curvature of the scaling function *)
Theorem C106_curvature :
  forall m g nrep j1 j2 wd, regular m g nrep -> counted m -> (1 <= j1)%Z -> (j1 < j2)%Z -> (j2 <= Z.of_nat g)%Z ->
  forall r, (r < nrep)%nat -> fit_ready m j1 j2 r ->
  exists Z0 Z1 Z2 : R -> R,
    (forall q, derivable_pt_lim Z0 q (Z1 q)) /\ (forall q, derivable_pt_lim Z1 q (Z2 q)) /\ Z0 0 = 0 /\
    (* the second derivative is ln 2 times the slope across scales of the tilted variance *)
    (forall q, exists b, is_best_line (fit_points wd m j1 j2 r (fun j => tilted_var q (numbers m j r))) (Z2 q / ln 2) b) /\
    (forall qs s i, StructureFunction m (QArr qs) j1 j2 wd = Ok s -> (i < length qs)%nat -> at2 (sf_zeta s) i r = Fin (Z0 (nth i qs 0))) /\
    (forall qs s i, MultifractalSpectrum m j1 j2 wd (QArr qs) = Ok s -> (i < length qs)%nat ->
       at2 (ms_hq s) i r = Fin (Z1 (nth i qs 0)) /\ at2 (ms_Dq s) i r = Fin (1 + nth i qs 0 * Z1 (nth i qs 0) - Z0 (nth i qs 0))) /\
    (forall n c, Cumulants m n j1 j2 wd = Ok c -> (2 <= n)%nat -> at2 (cu_log_cumulants c) 1 r = Fin (Z2 0)).
Proof.
  intros m g nrep j1 j2 wd HR HC H1 H2 H3 r Hr HU. assert (H2' : (j1 <= j2)%Z) by lia. assert (L2 := ln2_pos).
  assert (WP : forall y, well_posed (fit_points wd m j1 j2 r y)) by (intros; apply fit_well_posed; trivial; intros j Hj; now apply HU).
  destruct (fit_weights wd m j1 j2 r H2) as [u Hu]; [intros; now apply HU|].
  assert (Sl : forall y, slope (fit_points wd m j1 j2 r y) = Rsum (map (fun j => u j * y j) (zrange j1 (j2 + 1)))).
  { intros y. destruct (fit_finite wd m j1 j2 r y (WP y)) as [E _]. rewrite (Hu (fun j => Fin (y j)) y) in E by reflexivity. now injection E. }
  set (W := fun (k : nat) q => Rsum (map (fun j => u j / ln 2 * cgf (logs m j r) k q) (zrange j1 (j2 + 1)))).
  assert (HS : forall qs s i, StructureFunction m (QArr qs) j1 j2 wd = Ok s -> (i < length qs)%nat ->
       at2 (sf_zeta s) i r = Fin (W 0%nat (nth i qs 0))).
  { intros qs s i E Hi. destruct (SF_rows m g nrep qs j1 j2 wd s HR H1 H2' H3 E i r Hi Hr) as (_ & -> & _).
    rewrite (Hu _ (fun j => cgf (logs m j r) 0 (nth i qs 0) / ln 2)).
    + f_equal. apply Rsum_map_ext. intros j _. field. lra.
    + intros j Hj. destruct (HU j Hj) as ([U1 U2] & Z & _). unfold no_zero in Z.
      assert (E0 := moment_em (nth i qs 0) _ Z). fold (logs m j r) in E0.
      rewrite logS_eq; [|split; trivial|now right|rewrite E0; apply em_pos, logs_nonempty; split; trivial].
      rewrite E0. reflexivity. }
  assert (SD : forall q j, (j1 <= j <= j2)%Z -> spectrum_defined q m j r).
  { intros q j Hj. destruct (HU j Hj) as ([U1 U2] & Z & _). unfold no_zero in Z. split; [split; trivial|]. split; [now right|].
    destruct (numbers m j r) as [|a l]; [contradiction|]. inversion Z. now left. }
  assert (HM : forall qs s i, MultifractalSpectrum m j1 j2 wd (QArr qs) = Ok s -> (i < length qs)%nat ->
       at2 (ms_hq s) i r = Fin (W 1%nat (nth i qs 0))).
  { intros qs s i E Hi. assert (Hi' : (i < length (q_items (QArr qs)))%nat) by (cbn; now rewrite map_length).
    destruct (MFS_rows m g nrep _ j1 j2 wd s HR H1 H2' H3 E i r Hi' Hr) as (_ & _ & ->).
    cbn [q_items]. rewrite nth_PyFloat by trivial. set (q := nth i qs 0).
    rewrite (Hu _ (fun j => cgf (logs m j r) 1 q / ln 2)).
    + f_equal. apply Rsum_map_ext. intros j _. field. lra.
    + intros j Hj. destruct (HU j Hj) as ([U1 U2] & Z & _). unfold no_zero in Z. rewrite Vval_eq by now apply SD.
      cbn [num_val]. rewrite V_em by trivial. reflexivity. }
  assert (DW : forall k q, derivable_pt_lim (W k) q (W (S k) q)).
  { intros k q. apply (deriv_sum (fun j q => u j / ln 2 * cgf (logs m j r) k q) (fun j q => u j / ln 2 * cgf (logs m j r) (S k) q)).
    intros j Hj. apply zrange_In in Hj. apply (derivable_pt_lim_scal (cgf (logs m j r) k)). apply cgf_deriv. apply logs_nonempty, HU. lia. }
  exists (W 0%nat), (W 1%nat), (W 2%nat). split; [apply DW|]. split; [apply DW|]. split; [|split; [|split; [exact HS|split]]].
  - unfold W. rewrite (Rsum_map_ext _ (fun _ => 0)); [apply Rsum_map_zero; reflexivity|]. intros j Hj. apply zrange_In in Hj.
    assert (N : logs m j r <> []) by (apply logs_nonempty, HU; lia). cbn [cgf]. rewrite em_0, (mu_0 _ N), ln_1. ring.
  - intros q. set (y := fun j => tilted_var q (numbers m j r)). exists (icept (fit_points wd m j1 j2 r y)).
    replace (W 2%nat q / ln 2) with (slope (fit_points wd m j1 j2 r y)); [apply best_line, WP|]. rewrite Sl. unfold W, Rdiv. rewrite (Rmult_comm _ (/ ln 2)), <- Rsum_map_scal.
    apply Rsum_map_ext. intros j Hj. apply zrange_In in Hj. destruct (HU j ltac:(lia)) as ([U1 U2] & Z & _). unfold no_zero in Z.
    unfold logs. rewrite tilted_var_em by trivial. unfold y. field. lra.
  - intros qs s i E Hi. split; [now apply HM|]. set (qs' := qs ++ [2]).
    assert (I2 : has_two qs' = true) by (apply has_two_In; unfold qs'; apply in_or_app; right; now left).
    assert (Ef := SF_eq m g nrep HR qs' j1 j2 wd H1 H2' H3). rewrite I2 in Ef. assert (Es := MFS_eq m g nrep HR (QArr qs') j1 j2 wd H1 H2' H3).
    assert (Hi1 : (i < length qs')%nat) by (unfold qs'; rewrite app_length; simpl; lia). assert (En : nth i qs' 0 = nth i qs 0) by (unfold qs'; now apply app_nth1).
    match type of Ef with _ = Ok ?x => set (sf := x) in Ef end. match type of Es with _ = Ok ?x => set (s' := x) in Es end.
    destruct (C39_legendre m g nrep qs' j1 j2 wd sf s' HR HC H1 H2' H3 Ef Es i r Hi1 Hr) as [_ L]; [intros; now apply SD|].
    rewrite (HS qs' sf i Ef Hi1), (HM qs' s' i Es Hi1), En in L. cbn [xmul xadd xsub xopp] in L.
    assert (Hi' : (i < length (q_items (QArr qs)))%nat) by (cbn; now rewrite map_length).
    assert (Hi1' : (i < length (q_items (QArr qs')))%nat) by (cbn; now rewrite map_length).
    destruct (MFS_rows m g nrep _ j1 j2 wd s HR H1 H2' H3 E i r Hi' Hr) as (_ & K1 & _).
    destruct (MFS_rows m g nrep _ j1 j2 wd s' HR H1 H2' H3 Es i r Hi1' Hr) as (_ & K2 & _).
    cbn [q_items] in K1, K2. rewrite nth_PyFloat in K1, K2 by trivial. rewrite En, <- K1 in K2. rewrite <- K2. exact L.
  - intros n c E Hn. destruct (CUM_rows m g nrep n j1 j2 wd c HR H1 H2' H3 E 2%nat r ltac:(lia) Hr) as (_ & _ & _ & L). change (2 - 1)%nat with 1%nat in L. rewrite L.
    rewrite (Hu _ (fun j => kappa (mu (logs m j r)) 2)) by (intros j Hj; destruct (HU j Hj) as (U & Z & _); apply Cval_eq; [lia|trivial|trivial]).
    cbn [xmul]. f_equal. rewrite Rmult_comm, <- Rsum_map_scal. apply Rsum_map_ext. intros j Hj. apply zrange_In in Hj.
    rewrite cgf_at_0 by (try lia; apply logs_nonempty, HU; lia). unfold log2_e, log2R. rewrite ln_exp. field. lra.
Qed.
Print Assumptions C106_curvature.


(** ** From the sign of the second derivative to the shape *)
Section Shape.
Variables (F0 F1 F2 : R -> R) (lo hi : R).
Hypothesis HD0 : forall q, derivable_pt_lim F0 q (F1 q).
Hypothesis HD1 : forall q, derivable_pt_lim F1 q (F2 q).
Hypothesis HZ : F0 0 = 0.
Section Weak.
Hypothesis H2 : forall q, lo <= q <= hi -> 0 <= F2 q.
Lemma sh_mono a b : lo <= a -> a <= b -> b <= hi -> F1 a <= F1 b.
Proof using HD1 H2.
  intros La Lab Lb. destruct (Rle_lt_or_eq_dec _ _ Lab) as [L|E]; [|subst; lra].
  destruct (MVT_cor2 F1 F2 a b L) as (c & Ec & Hc); [intros; apply HD1|]. assert (K := H2 c ltac:(lra)). assert (0 <= F2 c * (b - a)) by (apply Rmult_le_pos; lra). lra.
Qed.
Lemma sh_convex a b c : lo <= a -> a <= b -> b <= c -> c <= hi -> F0 b * (c - a) <= F0 a * (c - b) + F0 c * (b - a).
Proof using HD0 HD1 H2.
  intros La Lab Lbc Lc. destruct (Rle_lt_or_eq_dec _ _ Lab) as [L1|E]; [|subst; lra]. destruct (Rle_lt_or_eq_dec _ _ Lbc) as [L2|E]; [|subst; lra].
  destruct (MVT_cor2 F0 F1 a b L1) as (x & Ex & Hx); [intros; apply HD0|]. destruct (MVT_cor2 F0 F1 b c L2) as (y & Ey & Hy); [intros; apply HD0|].
  assert (M := sh_mono x y ltac:(lra) ltac:(lra) ltac:(lra)).
  assert (0 <= (c - b) * (b - a) * (F1 y - F1 x)) by (apply Rmult_le_pos; [apply Rmult_le_pos|]; lra).
  replace (F0 b) with (F0 a + F1 x * (b - a)) in * by lra. replace (F0 c) with (F0 a + F1 x * (b - a) + F1 y * (c - b)) by lra. lra.
Qed.
Lemma sh_D_up a b : 0 <= a -> lo <= a -> a <= b -> b <= hi -> a * F1 a - F0 a <= b * F1 b - F0 b.
Proof using HD0 HD1 H2.
  intros Ha La Lab Lb. destruct (Rle_lt_or_eq_dec _ _ Lab) as [L|E]; [|subst; lra].
  destruct (MVT_cor2 F0 F1 a b L) as (x & Ex & Hx); [intros; apply HD0|].
  assert (M1 := sh_mono a x ltac:(lra) ltac:(lra) ltac:(lra)). assert (M2 := sh_mono x b ltac:(lra) ltac:(lra) ltac:(lra)).
  assert (0 <= b * (F1 b - F1 x)) by (apply Rmult_le_pos; lra). assert (0 <= a * (F1 x - F1 a)) by (apply Rmult_le_pos; lra). lra.
Qed.
Lemma sh_D_down a b : b <= 0 -> lo <= a -> a <= b -> b <= hi -> b * F1 b - F0 b <= a * F1 a - F0 a.
Proof using HD0 HD1 H2.
  intros Hb La Lab Lb. destruct (Rle_lt_or_eq_dec _ _ Lab) as [L|E]; [|subst; lra].
  destruct (MVT_cor2 F0 F1 a b L) as (x & Ex & Hx); [intros; apply HD0|].
  assert (M1 := sh_mono a x ltac:(lra) ltac:(lra) ltac:(lra)). assert (M2 := sh_mono x b ltac:(lra) ltac:(lra) ltac:(lra)).
  assert (0 <= - b * (F1 b - F1 x)) by (apply Rmult_le_pos; lra). assert (0 <= - a * (F1 x - F1 a)) by (apply Rmult_le_pos; lra). lra.
Qed.
Lemma sh_D_pos a : lo <= 0 <= hi -> lo <= a <= hi -> 0 <= a * F1 a - F0 a.
Proof using HD0 HD1 H2 HZ.
  intros H Ha. destruct (Rle_dec 0 a) as [P|N].
  - assert (K := sh_D_up 0 a ltac:(lra) ltac:(lra) P ltac:(lra)). lra.
  - assert (K := sh_D_down a 0 ltac:(lra) ltac:(lra) ltac:(lra) ltac:(lra)). lra.
Qed.
End Weak.
Section Strict.
Hypothesis H2 : forall q, 0 < F2 q.
Lemma sh_strict a b : a < b -> F1 a < F1 b.
Proof using HD1 H2.
  intros L. destruct (MVT_cor2 F1 F2 a b L) as (c & Ec & Hc); [intros; apply HD1|]. assert (K := H2 c). assert (0 < F2 c * (b - a)) by (apply Rmult_lt_0_compat; lra). lra.
Qed.
Lemma sh_two : 2 * F0 1 < F0 2 /\ 0 < F1 1 - F0 1.
Proof using HD0 HD1 H2 HZ.
  destruct (MVT_cor2 F0 F1 0 1 ltac:(lra)) as (x & Ex & Hx); [intros; apply HD0|]. destruct (MVT_cor2 F0 F1 1 2 ltac:(lra)) as (y & Ey & Hy); [intros; apply HD0|].
  assert (M := sh_strict x y ltac:(lra)). assert (M' := sh_strict x 1 ltac:(lra)). lra.
Qed.
End Strict.
End Shape.

Lemma deriv_scal c f q d : derivable_pt_lim f q d -> derivable_pt_lim (fun x => c * f x) q (c * d).
Proof. apply derivable_pt_lim_scal. Qed.
(** the estimates, with a sign sg that is 1 or -1 *)
Lemma shape (sg : R) m g nrep j1 j2 wd lo hi : regular m g nrep -> counted m -> (1 <= j1)%Z -> (j1 < j2)%Z -> (j2 <= Z.of_nat g)%Z ->
  forall r, (r < nrep)%nat -> fit_ready m j1 j2 r ->
  (forall q, lo <= q <= hi -> 0 <= sg * slope (fit_points wd m j1 j2 r (fun j => tilted_var q (numbers m j r)))) ->
    (forall qs s a b c, StructureFunction m (QArr qs) j1 j2 wd = Ok s -> (a < length qs)%nat -> (b < length qs)%nat -> (c < length qs)%nat ->
       lo <= nth a qs 0 -> nth a qs 0 <= nth b qs 0 -> nth b qs 0 <= nth c qs 0 -> nth c qs 0 <= hi ->
       exists za zb zc, at2 (sf_zeta s) a r = Fin za /\ at2 (sf_zeta s) b r = Fin zb /\ at2 (sf_zeta s) c r = Fin zc /\
         0 <= sg * (za * (nth c qs 0 - nth b qs 0) + zc * (nth b qs 0 - nth a qs 0) - zb * (nth c qs 0 - nth a qs 0))) /\
    (forall qs s a b, MultifractalSpectrum m j1 j2 wd (QArr qs) = Ok s -> (a < length qs)%nat -> (b < length qs)%nat ->
       lo <= nth a qs 0 -> nth a qs 0 <= nth b qs 0 -> nth b qs 0 <= hi ->
       exists ha hb Da Db, at2 (ms_hq s) a r = Fin ha /\ at2 (ms_hq s) b r = Fin hb /\ at2 (ms_Dq s) a r = Fin Da /\ at2 (ms_Dq s) b r = Fin Db /\
         0 <= sg * (hb - ha) /\ (0 <= nth a qs 0 -> 0 <= sg * (Db - Da)) /\ (nth b qs 0 <= 0 -> 0 <= sg * (Da - Db)) /\ (lo <= 0 <= hi -> 0 <= sg * (Da - 1))) /\
    (forall n c, Cumulants m n j1 j2 wd = Ok c -> (2 <= n)%nat -> lo <= 0 <= hi -> exists c2, at2 (cu_log_cumulants c) 1 r = Fin c2 /\ 0 <= sg * c2).
Proof.
  intros HR HC H1 H2 H3 r Hr HU HN. destruct (C106_curvature m g nrep j1 j2 wd HR HC H1 H2 H3 r Hr HU) as (Z0 & Z1 & Z2 & D0 & D1 & E0 & B & HS & HM & HCu).
  assert (L2 := ln2_pos).
  assert (P : forall q, lo <= q <= hi -> 0 <= sg * Z2 q).
  { intros q Hq. destruct (B q) as [b Hb]. specialize (HN q Hq). set (y := fun j => tilted_var q (numbers m j r)) in *.
    assert (WP : well_posed (fit_points wd m j1 j2 r y)) by (apply fit_well_posed; trivial; intros j Hj; now apply HU).
    destruct (best_line_unique _ _ _ _ _ Hb (best_line _ WP)) as [E _]. rewrite <- E in HN.
    replace (sg * Z2 q) with (sg * (Z2 q / ln 2) * ln 2) by (field; lra). apply Rmult_le_pos; lra. }
  assert (D0' : forall q, derivable_pt_lim (fun x => sg * Z0 x) q (sg * Z1 q)) by (intros; now apply deriv_scal).
  assert (D1' : forall q, derivable_pt_lim (fun x => sg * Z1 x) q (sg * Z2 q)) by (intros; now apply deriv_scal).
  assert (E0' : sg * Z0 0 = 0) by (rewrite E0; ring).
  split; [|split].
  - intros qs s a b c Es Ha Hb Hc La Lab Lbc Lc. exists (Z0 (nth a qs 0)), (Z0 (nth b qs 0)), (Z0 (nth c qs 0)). split; [now apply HS|]. split; [now apply HS|]. split; [now apply HS|].
    assert (K := sh_convex _ _ _ lo hi D0' D1' P _ _ _ La Lab Lbc Lc). cbn beta in K. lra.
  - intros qs s a b Es Ha Hb La Lab Lb. destruct (HM qs s a Es Ha) as [Va Wa]. destruct (HM qs s b Es Hb) as [Vb Wb].
    eexists _, _, _, _. split; [exact Va|]. split; [exact Vb|]. split; [exact Wa|]. split; [exact Wb|].
    assert (K1 := sh_mono _ _ lo hi D1' P _ _ La Lab Lb). cbn beta in K1. split; [lra|]. split; [|split].
    + intros A0. assert (K := sh_D_up _ _ _ lo hi D0' D1' P _ _ A0 La Lab Lb). cbn beta in K. lra.
    + intros A0. assert (K := sh_D_down _ _ _ lo hi D0' D1' P _ _ A0 La Lab Lb). cbn beta in K. lra.
    + intros A0. assert (K := sh_D_pos _ _ _ lo hi D0' D1' E0' P (nth a qs 0) A0 ltac:(lra)). cbn beta in K. lra.
  - intros n c Ec Hn H0. exists (Z2 0). split; [now apply (HCu n)|]. now apply P.
Qed.

(** When the log-magnitudes spread less at coarser scales, zeta is concave, h non-increasing, the spectrum stays below 1, rises before q = 0 and falls after it, and c2 <= 0 *)
Theorem C106_narrowing :
  forall m g nrep j1 j2 wd lo hi, regular m g nrep -> counted m -> (1 <= j1)%Z -> (j1 < j2)%Z -> (j2 <= Z.of_nat g)%Z ->
  forall r, (r < nrep)%nat -> fit_ready m j1 j2 r -> narrowing m j1 j2 r lo hi ->
    (forall qs s a b c, StructureFunction m (QArr qs) j1 j2 wd = Ok s -> (a < length qs)%nat -> (b < length qs)%nat -> (c < length qs)%nat ->
       lo <= nth a qs 0 -> nth a qs 0 <= nth b qs 0 -> nth b qs 0 <= nth c qs 0 -> nth c qs 0 <= hi ->
       exists za zb zc, at2 (sf_zeta s) a r = Fin za /\ at2 (sf_zeta s) b r = Fin zb /\ at2 (sf_zeta s) c r = Fin zc /\
         za * (nth c qs 0 - nth b qs 0) + zc * (nth b qs 0 - nth a qs 0) <= zb * (nth c qs 0 - nth a qs 0)) /\
    (forall qs s a b, MultifractalSpectrum m j1 j2 wd (QArr qs) = Ok s -> (a < length qs)%nat -> (b < length qs)%nat ->
       lo <= nth a qs 0 -> nth a qs 0 <= nth b qs 0 -> nth b qs 0 <= hi ->
       exists ha hb Da Db, at2 (ms_hq s) a r = Fin ha /\ at2 (ms_hq s) b r = Fin hb /\ at2 (ms_Dq s) a r = Fin Da /\ at2 (ms_Dq s) b r = Fin Db /\
         hb <= ha /\ (0 <= nth a qs 0 -> Db <= Da) /\ (nth b qs 0 <= 0 -> Da <= Db) /\ (lo <= 0 <= hi -> Da <= 1)) /\
    (forall n c, Cumulants m n j1 j2 wd = Ok c -> (2 <= n)%nat -> lo <= 0 <= hi -> exists c2, at2 (cu_log_cumulants c) 1 r = Fin c2 /\ c2 <= 0).
Proof.
  intros m g nrep j1 j2 wd lo hi HR HC H1 H2 H3 r Hr HU HN.
  destruct (shape (-1) m g nrep j1 j2 wd lo hi HR HC H1 H2 H3 r Hr HU) as (A & B & C).
  { intros q Hq. enough (slope (fit_points wd m j1 j2 r (fun j => tilted_var q (numbers m j r))) <= 0) by lra. apply slope_antitone. intros j j' La Lb Lc. now apply HN. }
  split; [|split].
  - intros qs s a b c Es Ha Hb Hc La Lab Lbc Lc. destruct (A qs s a b c Es Ha Hb Hc La Lab Lbc Lc) as (za & zb & zc & Ea & Eb & Ec & K).
    exists za, zb, zc. split; [trivial|]. split; [trivial|]. split; [trivial|]. lra.
  - intros qs s a b Es Ha Hb La Lab Lb. destruct (B qs s a b Es Ha Hb La Lab Lb) as (ha & hb & Da & Db & E1 & E2 & E3 & E4 & K1 & K2 & K3 & K4).
    exists ha, hb, Da, Db. split; [trivial|]. split; [trivial|]. split; [trivial|]. split; [trivial|]. split; [lra|]. split; [intros X; specialize (K2 X); lra|]. split; [intros X; specialize (K3 X); lra|intros X; specialize (K4 X); lra].
  - intros n c Ec Hn H0. destruct (C n c Ec Hn H0) as (c2 & E & K). exists c2. split; trivial. lra.
Qed.
Print Assumptions C106_narrowing.

(** When they spread more at coarser scales, every one of these facts is reversed: zeta is convex, the spectrum lies above 1 and c2 >= 0 *)
Theorem C106_widening :
  forall m g nrep j1 j2 wd lo hi, regular m g nrep -> counted m -> (1 <= j1)%Z -> (j1 < j2)%Z -> (j2 <= Z.of_nat g)%Z ->
  forall r, (r < nrep)%nat -> fit_ready m j1 j2 r -> widening m j1 j2 r lo hi ->
    (forall qs s a b c, StructureFunction m (QArr qs) j1 j2 wd = Ok s -> (a < length qs)%nat -> (b < length qs)%nat -> (c < length qs)%nat ->
       lo <= nth a qs 0 -> nth a qs 0 <= nth b qs 0 -> nth b qs 0 <= nth c qs 0 -> nth c qs 0 <= hi ->
       exists za zb zc, at2 (sf_zeta s) a r = Fin za /\ at2 (sf_zeta s) b r = Fin zb /\ at2 (sf_zeta s) c r = Fin zc /\
         zb * (nth c qs 0 - nth a qs 0) <= za * (nth c qs 0 - nth b qs 0) + zc * (nth b qs 0 - nth a qs 0)) /\
    (forall qs s a b, MultifractalSpectrum m j1 j2 wd (QArr qs) = Ok s -> (a < length qs)%nat -> (b < length qs)%nat ->
       lo <= nth a qs 0 -> nth a qs 0 <= nth b qs 0 -> nth b qs 0 <= hi ->
       exists ha hb Da Db, at2 (ms_hq s) a r = Fin ha /\ at2 (ms_hq s) b r = Fin hb /\ at2 (ms_Dq s) a r = Fin Da /\ at2 (ms_Dq s) b r = Fin Db /\
         ha <= hb /\ (0 <= nth a qs 0 -> Da <= Db) /\ (nth b qs 0 <= 0 -> Db <= Da) /\ (lo <= 0 <= hi -> 1 <= Da)) /\
    (forall n c, Cumulants m n j1 j2 wd = Ok c -> (2 <= n)%nat -> lo <= 0 <= hi -> exists c2, at2 (cu_log_cumulants c) 1 r = Fin c2 /\ 0 <= c2).
Proof.
  intros m g nrep j1 j2 wd lo hi HR HC H1 H2 H3 r Hr HU HN.
  destruct (shape 1 m g nrep j1 j2 wd lo hi HR HC H1 H2 H3 r Hr HU) as (A & B & C).
  { intros q Hq. enough (slope (fit_points wd m j1 j2 r (fun j => - tilted_var q (numbers m j r))) <= 0) as K by (rewrite fit_points_opp in K; lra).
    apply slope_antitone. intros j j' La Lb Lc. assert (K := HN q j j' Hq La Lb Lc). lra. }
  split; [|split].
  - intros qs s a b c Es Ha Hb Hc La Lab Lbc Lc. destruct (A qs s a b c Es Ha Hb Hc La Lab Lbc Lc) as (za & zb & zc & Ea & Eb & Ec & K).
    exists za, zb, zc. split; [trivial|]. split; [trivial|]. split; [trivial|]. lra.
  - intros qs s a b Es Ha Hb La Lab Lb. destruct (B qs s a b Es Ha Hb La Lab Lb) as (ha & hb & Da & Db & E1 & E2 & E3 & E4 & K1 & K2 & K3 & K4).
    exists ha, hb, Da, Db. split; [trivial|]. split; [trivial|]. split; [trivial|]. split; [trivial|]. split; [lra|]. split; [intros X; specialize (K2 X); lra|]. split; [intros X; specialize (K3 X); lra|intros X; specialize (K4 X); lra].
  - intros n c Ec Hn H0. destruct (C n c Ec Hn H0) as (c2 & E & K). exists c2. split; trivial. lra.
Qed.
Print Assumptions C106_widening.

(** ** Sign of the tilted variance *)
Lemma tw_pos q l : l <> [] -> 0 < Rsum (map (fun a => Rpower (Rabs a) q) l).
Proof.
  intros H. destruct l as [|a l]; [contradiction|]. clear H. unfold Rsum. cbn [map fold_right]. assert (P := Rpower_pos (Rabs a) q).
  enough (0 <= fold_right Rplus 0 (map (fun b => Rpower (Rabs b) q) l)) by lra. clear P. induction l as [|b l IH]; cbn; [lra|]. assert (P := Rpower_pos (Rabs b) q). lra.
Qed.
Lemma tilted_mean_const q c f l : l <> [] -> (forall a, In a l -> f a = c) -> tilted_mean q f l = c.
Proof.
  intros Hne H. assert (P := tw_pos q l Hne). unfold tilted_mean. rewrite (Rsum_map_ext _ (fun a => c * Rpower (Rabs a) q)) by (intros a Ha; rewrite H by trivial; ring).
  rewrite Rsum_map_scal. field. lra.
Qed.
Lemma tilted_mean_nonneg q f l : (forall a, In a l -> 0 <= f a) -> l <> [] -> 0 <= tilted_mean q f l.
Proof.
  intros H Hne. assert (P := tw_pos q l Hne). unfold tilted_mean, Rdiv. apply Rmult_le_pos; [|left; now apply Rinv_0_lt_compat].
  clear P Hne. unfold Rsum. induction l as [|a l IH]; cbn [map fold_right]; [lra|].
  assert (0 <= Rpower (Rabs a) q * f a) by (apply Rmult_le_pos; [left; apply Rpower_pos|apply H; now left]).
  specialize (IH (fun b Hb => H b (or_intror Hb))). lra.
Qed.
Lemma tilted_mean_pos q f l : (forall a, In a l -> 0 <= f a) -> (exists a, In a l /\ 0 < f a) -> 0 < tilted_mean q f l.
Proof.
  intros H (a & Ha & Pa). assert (Hne : l <> []) by (intros ->; contradiction). assert (P := tw_pos q l Hne). unfold tilted_mean, Rdiv.
  apply Rmult_lt_0_compat; [|now apply Rinv_0_lt_compat]. clear P Hne. unfold Rsum.
  assert (G : forall l', incl l' l -> 0 <= fold_right Rplus 0 (map (fun a => Rpower (Rabs a) q * f a) l')).
  { induction l' as [|b l' IH]; intros I; cbn [map fold_right]; [lra|].
    assert (0 <= Rpower (Rabs b) q * f b) by (apply Rmult_le_pos; [left; apply Rpower_pos|apply H, I; now left]).
    assert (I' : incl l' l) by (intros x Hx; apply I; now right). specialize (IH I'). lra. }
  apply in_split in Ha as (l1 & l2 & E). rewrite E, map_app, fold_right_app. cbn [map fold_right].
  assert (Q : forall x y, fold_right Rplus x y = x + fold_right Rplus 0 y) by (intros x; induction y as [|z y IH]; cbn; [lra|rewrite IH; lra]).
  rewrite Q. assert (G1 := G l1 ltac:(intros x Hx; rewrite E; apply in_or_app; now left)). assert (G2 := G l2 ltac:(intros x Hx; rewrite E; apply in_or_app; right; now right)).
  assert (0 < Rpower (Rabs a) q * f a) by (apply Rmult_lt_0_compat; [apply Rpower_pos|trivial]). lra.
Qed.
Lemma tilted_var_nonneg q l : l <> [] -> 0 <= tilted_var q l.
Proof. intros H. apply tilted_mean_nonneg; trivial. intros a _. apply pow2_ge_0. Qed.
Lemma tilted_var_const q c l : l <> [] -> (forall a, In a l -> Rabs a = c) -> tilted_var q l = 0.
Proof.
  intros Hne H. unfold tilted_var. apply tilted_mean_const; trivial. intros a Ha. rewrite (H a Ha).
  rewrite (tilted_mean_const q (ln c / ln 2)) by (trivial; intros b Hb; now rewrite (H b Hb)). ring.
Qed.
Lemma tilted_var_pos q l a b : In a l -> In b l -> 0 < Rabs a -> Rabs a < Rabs b -> 0 < tilted_var q l.
Proof.
  intros Ha Hb Pa Lab. assert (L2 := ln2_pos). unfold tilted_var. set (mu0 := tilted_mean q (fun b0 => ln (Rabs b0) / ln 2) l). clearbody mu0. apply tilted_mean_pos; [intros; apply pow2_ge_0|].
  assert (L : ln (Rabs a) / ln 2 < ln (Rabs b) / ln 2). { apply Rmult_lt_compat_r; [now apply Rinv_0_lt_compat|]. now apply ln_increasing. }
  destruct (Req_dec (ln (Rabs a) / ln 2) mu0) as [E|N].
  - exists b. split; trivial. rewrite <- Rsqr_pow2; apply Rsqr_pos_lt. intros F. rewrite <- E in F. lra.
  - exists a. split; trivial. rewrite <- Rsqr_pow2; apply Rsqr_pos_lt. intros E. apply N. lra.
Qed.
(** over two scales the slope is the increment *)
Lemma slope_two wd m r y : (forall j, (1 <= j <= 2)%Z -> (0 < count m j r)%nat) -> slope (fit_points wd m 1 2 r y) = y 2%Z - y 1%Z.
Proof.
  intros Hc. assert (W : well_posed (fit_points wd m 1 2 r y)) by (apply fit_well_posed; trivial; lia).
  destruct (fit_finite wd m 1 2 r y W) as [E _]. destruct (fit_exact wd m 1 2 r (y 2%Z - y 1%Z) (2 * y 1%Z - y 2%Z) ltac:(lia) Hc) as [E' _].
  rewrite (fslope_ext wd m 1 2 r _ (fun j => Fin (y j))) in E'.
  - rewrite E in E'. now injection E'.
  - intros j Hj. assert (j = 1 \/ j = 2)%Z as [-> | ->] by lia; f_equal; lra.
Qed.

(** ** Two recordings of 24 samples analysed with Haar filters.
    bump: the differences of consecutive samples are 1 at scale 1 and 4, 2, 2, 2, 2 at scale 2.
    dip: they are 2, 1, 1, ..., 1 at scale 1 and 4 at scale 2. *)
Definition bump : list R := [0; 1; 2; 3; 3; 4; 4; 5; 5; 6; 6; 7; 7; 8; 8; 9; 9; 10; 10; 11; 11; 12; 12; 13].
Definition dip : list R := (-1) :: 1 :: flat_map (fun k => [2 * IZR k - / 2; 2 * IZR k + / 2]) (zrange 1 12).
Lemma bump_d1 : detail (neg_hi haar) (dec_lo haar) 1 (fin bump) = repeat (Fin 1) 11 ++ [NaN].
Proof. cbv -[Rplus Rmult Ropp IZR]. repeat (apply f_equal2; [apply f_equal; ring|]). reflexivity. Qed.
Lemma bump_d2 : detail (neg_hi haar) (dec_lo haar) 2 (fin bump) = Fin 4 :: repeat (Fin 2) 4 ++ [NaN].
Proof. cbv -[Rplus Rmult Ropp IZR]. repeat (apply f_equal2; [apply f_equal; ring|]). reflexivity. Qed.
Lemma dip_d1 : detail (neg_hi haar) (dec_lo haar) 1 (fin dip) = Fin 2 :: repeat (Fin 1) 10 ++ [NaN].
Proof. cbv -[Rplus Rmult Ropp IZR Rinv Rminus]. repeat (apply f_equal2; [apply f_equal; field|]). reflexivity. Qed.
Lemma dip_d2 : detail (neg_hi haar) (dec_lo haar) 2 (fin dip) = repeat (Fin 4) 5 ++ [NaN].
Proof. cbv -[Rplus Rmult Ropp IZR Rinv Rminus]. repeat (apply f_equal2; [apply f_equal; field|]). reflexivity. Qed.
Lemma count24 x : length x = 24%nat -> gcount [fin x] PInfty haar 0 1 = 2%nat /\ ccount [fin x] PInfty haar 0 1 = 2%nat.
Proof.
  intros Hx. assert (N : [x] <> []) by discriminate. assert (H : Forall (fun s => length s = 24%nat) [x]) by (repeat constructor; trivial). change [fin x] with (map fin [x]). split.
  - rewrite (fin_gcount haar 0 1 [x] 24 PInfty good_haar N H I). unfold gcount_b, lev_b. change (length (dec_hi haar)) with 2%nat. rewrite level_24_2. vm_compute. reflexivity.
  - rewrite (fin_ccount haar 0 1 [x] 24 PInfty good_haar N H I). unfold ccount_b, gcount_b, lev_b. change (length (dec_hi haar)) with 2%nat. rewrite level_24_2. vm_compute. reflexivity.
Qed.
Lemma coefs24 x t ws j : length x = 24%nat -> wavelet_analysis [fin x] PInfty haar 1 None 0 1 true = Ok (t, ws) -> (1 <= j <= 2)%nat ->
  column (wt_coefs t) (Z.of_nat j) 0 = map (xmul (Fin (Rpower 2 (- (INR j / 2))))) (detail (neg_hi haar) (dec_lo haar) j (fin x)).
Proof.
  intros Hx E Hj. destruct (count24 x Hx) as [_ K]. apply wa_inv in E as (eta & _ & -> & _); [|exact good_haar|exact R1_neq_R0|exact I].
  cbn [the_wt wt_coefs]. rewrite K. unfold mrq_of. rewrite table_column by lia. rewrite Cf_nth_lt by (simpl; lia). cbn [nth].
  unfold coef. rewrite rescale_eq. replace (0 * IZR (Z.of_nat j) + IZR (Z.of_nat j) * (1 / 2 - 1 / 1)) with (- (INR j / 2)) by (rewrite INR_IZR_INZ; field).
  reflexivity.
Qed.
Lemma scale1 : 0 < Rpower 2 (- (INR 1 / 2)) < 1.
Proof. split; [apply Rpower_pos|]. apply Rlt_le_trans with (Rpower 2 0); [apply Rpower_lt; simpl; lra|rewrite Rpower_O; lra]. Qed.
Lemma scale2 : Rpower 2 (- (INR 2 / 2)) = / 2.
Proof. replace (- (INR 2 / 2)) with (- (1)) by (simpl; lra). rewrite Rpower_Ropp, Rpower_1 by lra. reflexivity. Qed.
(** the leaders, entry by entry *)
Lemma leads24 x t ws l j (c : col) : length x = 24%nat -> wavelet_analysis [fin x] PInfty haar 1 None 0 1 true = Ok (t, ws) -> wt_leaders t = Some l -> In j (scales l) ->
  length c = (length (column (wt_coefs t) j 0) - 2)%nat ->
  (forall k, (k < length c)%nat -> exists v, nth k c NaN = Fin v /\ is_max v (map Rabs (reals (cone_coefs (wt_coefs t) 0 j k)))) ->
  column l j 0 = c.
Proof.
  intros Hx E El Hj Hc H. assert (HA : Forall no_inf [fin x]) by (constructor; [apply no_inf_fin|constructor]).
  assert (V := C21_leader_sup [fin x] haar 1 None 0 1 true t ws l HA good_haar R1_neq_R0 E El j 0%nat). 
  assert (L : length (column l j 0) = length c) by (rewrite Hc; apply (V 0%nat Hj); simpl; lia).
  apply (nth_ext _ _ NaN NaN L). intros k Hk. destruct (H k ltac:(lia)) as (v & -> & Hv).
  destruct (V k Hj ltac:(simpl; lia)) as [_ V']. destruct (V' Hk) as [_ V'']. rewrite <- entry_column. now apply V''.
Qed.
Ltac max_tac := split; [cbn; rewrite ?Rabs_pos_eq by lra; repeat (first [left; lra|right]) | intros v Hv; cbn in Hv; rewrite ?Rabs_pos_eq in Hv by lra; repeat (destruct Hv as [<-|Hv]; [lra|]); contradiction].
Ltac cone_tac := unfold cone_coefs; match goal with |- context [cone ?a ?b] => let c := eval vm_compute in (cone a b) in change (cone a b) with c end;
  cbn [map fst snd]; rewrite !entry_column; change (Z.of_nat 1) with 1%Z; change (Z.of_nat 2) with 2%Z.
Lemma bump_leads t ws l : wavelet_analysis [fin bump] PInfty haar 1 None 0 1 true = Ok (t, ws) -> wt_leaders t = Some l -> scales l = [1; 2]%Z ->
  column l 1 0 = repeat (Fin (Rpower 2 (- (INR 1 / 2)))) 10 /\ column l 2 0 = [Fin 2; Fin 1; Fin 1; Fin 1].
Proof.
  intros E El Es. assert (C1 := coefs24 bump t ws 1 eq_refl E ltac:(lia)). assert (C2 := coefs24 bump t ws 2 eq_refl E ltac:(lia)).
  change (Z.of_nat 1) with 1%Z in C1. change (Z.of_nat 2) with 2%Z in C2. rewrite bump_d1 in C1. rewrite bump_d2, scale2 in C2. assert (F := scale1).
  set (f := Rpower 2 (- (INR 1 / 2))) in *. clearbody f. cbn [repeat app map xmul] in C1, C2.
  replace (/ 2 * 4) with 2 in C2 by lra. replace (/ 2 * 2) with 1 in C2 by lra. rewrite Rmult_1_r in C1.
  split.
  - apply (leads24 bump t ws l 1 _ eq_refl E El); [rewrite Es; now left|now rewrite C1|]. intros k Hk. cbn [length repeat] in Hk.
    do 10 (destruct k as [|k]; [exists f; split; [reflexivity|]; cone_tac; rewrite ?C1; cbn [nth reals]; max_tac|]). lia.
  - apply (leads24 bump t ws l 2 _ eq_refl E El); [rewrite Es; right; now left|now rewrite C2|]. intros k Hk. cbn [length repeat] in Hk.
    do 4 (destruct k as [|k]; [eexists; split; [reflexivity|]; cone_tac; rewrite ?C1, ?C2; cbn [nth reals]; max_tac|]). lia.
Qed.
Lemma dip_leads t ws l : wavelet_analysis [fin dip] PInfty haar 1 None 0 1 true = Ok (t, ws) -> wt_leaders t = Some l -> scales l = [1; 2]%Z ->
  column l 1 0 = Fin (Rpower 2 (- (INR 1 / 2)) * 2) :: repeat (Fin (Rpower 2 (- (INR 1 / 2)))) 9 /\ column l 2 0 = repeat (Fin 2) 4.
Proof.
  intros E El Es. assert (C1 := coefs24 dip t ws 1 eq_refl E ltac:(lia)). assert (C2 := coefs24 dip t ws 2 eq_refl E ltac:(lia)).
  change (Z.of_nat 1) with 1%Z in C1. change (Z.of_nat 2) with 2%Z in C2. rewrite dip_d1 in C1. rewrite dip_d2, scale2 in C2. assert (F := scale1).
  set (f := Rpower 2 (- (INR 1 / 2))) in *. clearbody f. cbn [repeat app map xmul] in C1, C2.
  replace (/ 2 * 4) with 2 in C2 by lra. rewrite Rmult_1_r in C1.
  split.
  - apply (leads24 dip t ws l 1 _ eq_refl E El); [rewrite Es; now left|now rewrite C1|]. intros k Hk. cbn [length repeat] in Hk.
    do 10 (destruct k as [|k]; [eexists; split; [reflexivity|]; cone_tac; rewrite ?C1; cbn [nth reals]; max_tac|]). lia.
  - apply (leads24 dip t ws l 2 _ eq_refl E El); [rewrite Es; right; now left|now rewrite C2|]. intros k Hk. cbn [length repeat] in Hk.
    do 4 (destruct k as [|k]; [eexists; split; [reflexivity|]; cone_tac; rewrite ?C1, ?C2; cbn [nth reals]; max_tac|]). lia.
Qed.

Lemma l24 x : length x = 24%nat -> exists t ws l, wavelet_analysis [fin x] PInfty haar 1 None 0 1 true = Ok (t, ws) /\ wt_leaders t = Some l /\ scales l = [1; 2]%Z /\
  regular l 2 1 /\ counted l.
Proof.
  intros Hx. destruct (wavelet_case [x] ltac:(discriminate) ltac:(repeat constructor; trivial)) as (t & l & ws & E & _ & El & Es & _). cbn [map] in E.
  exists t, ws, l. split; [exact E|]. split; [exact El|]. split; [exact Es|].
  apply wa_inv in E as (? & _ & -> & _); [|exact good_haar|exact R1_neq_R0|exact I]. cbn [the_wt wt_leaders] in El. apply Some_inj in El. subst l.
  destruct (count24 x Hx) as [G _]. rewrite G. split; [apply table_regular; [lia|intros; apply Ld_length]|apply table_counted; reflexivity].
Qed.
Lemma ready l : regular l 2 1 -> counted l -> (forall j, (1 <= j <= 2)%Z -> exists c, column l j 0 = fin c /\ c <> [] /\ Forall (fun a => a <> 0) c) -> fit_ready l 1 2 0.
Proof.
  intros HR HC H j Hj. destruct (H j Hj) as (c & Ec & N & Z). assert (En : numbers l j 0 = c) by (unfold numbers; rewrite Ec; apply reals_fin).
  assert (U : usable l j 0) by (split; [rewrite Ec; apply no_inf_fin|now rewrite En]). split; [exact U|]. split; [unfold no_zero; now rewrite En|].
  rewrite (count_numbers l j 0 HC) by (trivial; apply (range_in l 2 1 j 1 2 HR); lia). rewrite En. destruct c; [contradiction|simpl; lia].
Qed.
(** The expected shape does not hold of every recording: for the leaders of bump, zeta is strictly convex, h increases, the spectrum exceeds 1 and c2 > 0, weighted or not *)
Theorem C106_shape_refuted :
  exists x t ws l, length x = 24%nat /\ wavelet_analysis [fin x] PInfty haar 1 None 0 1 true = Ok (t, ws) /\ wt_leaders t = Some l /\ scales l = [1; 2]%Z /\
  (forall j, In j (scales l) -> Forall (fun v => exists a, v = Fin a /\ 0 < a) (column l j 0)) /\
  forall wd,
    (exists s z1 z2, StructureFunction l (QArr [1; 2]) 1 2 wd = Ok s /\ at2 (sf_zeta s) 0 0 = Fin z1 /\ at2 (sf_zeta s) 1 0 = Fin z2 /\ 2 * z1 < z2) /\
    (exists s h0 h1 D1, MultifractalSpectrum l 1 2 wd (QArr [0; 1]) = Ok s /\ at2 (ms_hq s) 0 0 = Fin h0 /\ at2 (ms_hq s) 1 0 = Fin h1 /\ at2 (ms_Dq s) 1 0 = Fin D1 /\ h0 < h1 /\ 1 < D1) /\
    (exists c c2, Cumulants l 2 1 2 wd = Ok c /\ at2 (cu_log_cumulants c) 1 0 = Fin c2 /\ 0 < c2).
Proof.
  destruct (l24 bump eq_refl) as (t & ws & l & E & El & Es & HR & HC). destruct (bump_leads t ws l E El Es) as [C1 C2]. assert (F := scale1).
  exists bump, t, ws, l. split; [reflexivity|]. split; [exact E|]. split; [exact El|]. split; [exact Es|]. split.
  { rewrite Es. intros j [<-|[<-|[]]]; rewrite ?C1, ?C2; [apply Forall_forall; intros v Hv; apply repeat_spec in Hv; subst v; eexists; split; [reflexivity|apply F]|].
    repeat constructor; eexists; (split; [reflexivity|lra]). }
  assert (Rd : fit_ready l 1 2 0).
  { apply ready; trivial. intros j Hj. assert (j = 1 \/ j = 2)%Z as [-> | ->] by lia.
    - exists (repeat (Rpower 2 (- (INR 1 / 2))) 10). split; [rewrite C1; reflexivity|]. split; [discriminate|]. apply Forall_forall. intros v Hv. apply repeat_spec in Hv. subst v. lra.
    - exists [2; 1; 1; 1]. split; [rewrite C2; reflexivity|]. split; [discriminate|]. repeat constructor; lra. }
  intros wd. destruct (C106_curvature l 2 1 1 2 wd HR HC ltac:(lia) ltac:(lia) ltac:(lia) 0%nat ltac:(lia) Rd) as (Z0 & Z1 & Z2 & D0 & D1 & E0 & B & HS & HM & HCu).
  assert (L2 := ln2_pos).
  assert (P : forall q, 0 < Z2 q).
  { intros q. destruct (B q) as [b Hb]. set (y := fun j => tilted_var q (numbers l j 0)) in *.
    assert (WP : well_posed (fit_points wd l 1 2 0 y)) by (apply fit_well_posed; [lia|]; intros j Hj; now apply Rd).
    destruct (best_line_unique _ _ _ _ _ Hb (best_line _ WP)) as [Eq _]. rewrite slope_two in Eq by (intros j Hj; now apply Rd).
    assert (Y1 : y 1%Z = 0). { apply (tilted_var_const q (Rpower 2 (- (INR 1 / 2)))); unfold numbers; rewrite C1; [discriminate|]. intros a Ha. apply In_reals in Ha. apply repeat_spec in Ha. injection Ha as ->. apply Rabs_pos_eq. lra. }
    assert (Y2 : 0 < y 2%Z). { apply (tilted_var_pos q _ 1 2); unfold numbers; rewrite ?C2; cbn; auto; rewrite ?Rabs_pos_eq by lra; lra. }
    replace (Z2 q) with ((y 2%Z - y 1%Z) * ln 2) by (rewrite <- Eq; field; lra). apply Rmult_lt_0_compat; lra. }
  destruct (sh_two _ _ _ D0 D1 E0 P) as [K1 K2]. assert (K3 := sh_strict _ _ D1 P 0 1 ltac:(lra)).
  split; [|split].
  - assert (Ef := SF_eq l 2 1 HR [1; 2] 1 2 wd ltac:(lia) ltac:(lia) ltac:(lia)). replace (has_two [1; 2]) with true in Ef by (symmetry; apply has_two_In; right; now left).
    match type of Ef with _ = Ok ?x => set (sf := x) in Ef; clearbody sf end. exists sf, (Z0 1), (Z0 2). split; [exact Ef|]. split; [apply (HS [1; 2] sf 0%nat Ef); simpl; lia|]. split; [apply (HS [1; 2] sf 1%nat Ef); simpl; lia|exact K1].
  - assert (Ef := MFS_eq l 2 1 HR (QArr [0; 1]) 1 2 wd ltac:(lia) ltac:(lia) ltac:(lia)).
    match type of Ef with _ = Ok ?x => set (sf := x) in Ef; clearbody sf end. exists sf, (Z1 0), (Z1 1), (1 + 1 * Z1 1 - Z0 1). split; [exact Ef|].
    destruct (HM [0; 1] sf 0%nat Ef ltac:(simpl; lia)) as [V0 _]. destruct (HM [0; 1] sf 1%nat Ef ltac:(simpl; lia)) as [V1 W1].
    split; [exact V0|]. split; [exact V1|]. split; [exact W1|]. split; [exact K3|]. lra.
  - destruct (Cumulants l 2 1 2 wd) as [c|e] eqn:Ec; [|rewrite (CUM_eq l 2 1 HR) in Ec by lia; discriminate].
    exists c, (Z2 0). split; [reflexivity|]. split; [apply (HCu 2%nat); trivial|apply P].
Qed.
Print Assumptions C106_shape_refuted.

(** the hypotheses of C106_narrowing are met by the leaders of dip, those of C106_widening by the leaders of bump, for all orders *)
Example narrowing_case : exists t ws l, wavelet_analysis [fin dip] PInfty haar 1 None 0 1 true = Ok (t, ws) /\ wt_leaders t = Some l /\
  regular l 2 1 /\ counted l /\ fit_ready l 1 2 0 /\ (forall lo hi, narrowing l 1 2 0 lo hi) /\ (forall q, tilted_var q (numbers l 2 0) < tilted_var q (numbers l 1 0)).
Proof.
  destruct (l24 dip eq_refl) as (t & ws & l & E & El & Es & HR & HC). destruct (dip_leads t ws l E El Es) as [C1 C2]. assert (F := scale1).
  assert (Y2 : forall q, tilted_var q (numbers l 2 0) = 0).
  { intros q. apply (tilted_var_const q 2); unfold numbers; rewrite C2; [discriminate|]. intros a Ha. apply In_reals in Ha. apply repeat_spec in Ha. injection Ha as ->. apply Rabs_pos_eq. lra. }
  assert (Y1 : forall q, 0 < tilted_var q (numbers l 1 0)).
  { intros q. set (f := Rpower 2 (- (INR 1 / 2))) in *. apply (tilted_var_pos q _ f (f * 2)); unfold numbers; rewrite ?C1; cbn; auto; rewrite ?Rabs_pos_eq by lra; lra. }
  exists t, ws, l. split; [exact E|]. split; [exact El|]. split; [exact HR|]. split; [exact HC|]. split; [|split].
  - apply ready; trivial. intros j Hj. assert (j = 1 \/ j = 2)%Z as [-> | ->] by lia.
    + exists (Rpower 2 (- (INR 1 / 2)) * 2 :: repeat (Rpower 2 (- (INR 1 / 2))) 9). split; [rewrite C1; reflexivity|]. split; [discriminate|]. constructor; [lra|]. apply Forall_forall. intros v Hv. apply repeat_spec in Hv. subst v. lra.
    + exists (repeat 2 4). split; [rewrite C2; reflexivity|]. split; [discriminate|]. apply Forall_forall. intros v Hv. apply repeat_spec in Hv. subst v. lra.
  - intros lo hi q j j' _ A1 A2 A3. assert ((j = 1 /\ j' = 1) \/ (j = 1 /\ j' = 2) \/ (j = 2 /\ j' = 2))%Z as [[-> ->]|[[-> ->]|[-> ->]]] by lia; [lra| |lra]. rewrite Y2. left. apply Y1.
  - intros q. rewrite Y2. apply Y1.
Qed.
Example widening_case : exists t ws l, wavelet_analysis [fin bump] PInfty haar 1 None 0 1 true = Ok (t, ws) /\ wt_leaders t = Some l /\
  regular l 2 1 /\ counted l /\ fit_ready l 1 2 0 /\ (forall lo hi, widening l 1 2 0 lo hi).
Proof.
  destruct (l24 bump eq_refl) as (t & ws & l & E & El & Es & HR & HC). destruct (bump_leads t ws l E El Es) as [C1 C2]. assert (F := scale1).
  exists t, ws, l. split; [exact E|]. split; [exact El|]. split; [exact HR|]. split; [exact HC|]. split.
  - apply ready; trivial. intros j Hj. assert (j = 1 \/ j = 2)%Z as [-> | ->] by lia.
    + exists (repeat (Rpower 2 (- (INR 1 / 2))) 10). split; [rewrite C1; reflexivity|]. split; [discriminate|]. apply Forall_forall. intros v Hv. apply repeat_spec in Hv. subst v. lra.
    + exists [2; 1; 1; 1]. split; [rewrite C2; reflexivity|]. split; [discriminate|]. repeat constructor; lra.
  - intros lo hi q j j' _ A1 A2 A3. assert ((j = 1 /\ j' = 1) \/ (j = 1 /\ j' = 2) \/ (j = 2 /\ j' = 2))%Z as [[-> ->]|[[-> ->]|[-> ->]]] by lia; [lra| |lra].
    rewrite (tilted_var_const q (Rpower 2 (- (INR 1 / 2)))); unfold numbers; rewrite ?C1; [|discriminate|].
    + apply tilted_var_nonneg. rewrite C2. discriminate.
    + intros a Ha. apply In_reals in Ha. apply repeat_spec in Ha. injection Ha as ->. apply Rabs_pos_eq. lra.
Qed.
