(** * Property C101: the multifractal correlation of a quantity with itself, or with a power of itself *)
From Coq Require Import Reals List ZArith Bool Lia Lra.
From Verif Require Import XReal PyBase ModelUtils ModelMRQ ModelStructure ModelCumulants ModelWavelet ModelMFA ModelBivariate
  Spec SpecMRQ SpecBi LXReal LReg LUtils LBase LEst LMoment LCum LBivariate PropsEstimators PropsCumulants PropsBivariate PropsBiStructure.
Import ListNotations.
Open Scope R_scope.

(** at scale j the moduli of the second quantity are A times the power e of those of the first, none of which is 0 *)
Definition power_related (m1 m2 : mrq) (j : Z) (A e : R) : Prop :=
  0 < A /\ Forall (fun p => fst p <> 0 /\ Rabs (snd p) = A * Rpower (Rabs (fst p)) e) (pairs m1 m2 j).

Lemma related_nonzero m1 m2 j A e : power_related m1 m2 j A e -> pairs_nonzero (pairs m1 m2 j).
Proof.
  intros [HA H]. unfold pairs_nonzero. eapply Forall_impl; [|exact H]. intros [a b] [N E]; cbn in *. split; trivial.
  intros ->. rewrite Rabs_R0 in E. assert (P := Rmult_lt_0_compat _ _ HA (exp_pos (e * ln (Rabs a)))). unfold Rpower in E. lra.
Qed.
Lemma related_logs m1 m2 j A e : power_related m1 m2 j A e ->
  forall p, In p (log_pairs (pairs m1 m2 j)) -> snd p = ln A + e * fst p.
Proof.
  intros [HA H] p Hp. unfold log_pairs in Hp. apply in_map_iff in Hp as ([a b] & <- & Hp). rewrite Forall_forall in H.
  destruct (H _ Hp) as [N E]. cbn [fst snd] in *. rewrite E. unfold Rpower. rewrite ln_mult by (trivial; apply exp_pos). now rewrite ln_exp.
Qed.
Lemma mean_affine (l : list (R * R)) c e : l <> [] -> (forall p, In p l -> snd p = c + e * fst p) ->
  mean (map snd l) = c + e * mean (map fst l).
Proof.
  intros Hne H. unfold mean. rewrite !map_length. assert (Hn := INR_len_pos l Hne).
  assert (S : Rsum (map snd l) = c * INR (length l) + e * Rsum (map fst l)).
  { clear Hne Hn. induction l as [|p l IH]; [cbn; ring|].
    change (map snd (p :: l)) with (snd p :: map snd l). change (map fst (p :: l)) with (fst p :: map fst l).
    change (Rsum (snd p :: map snd l)) with (snd p + Rsum (map snd l)). change (Rsum (fst p :: map fst l)) with (fst p + Rsum (map fst l)).
    rewrite IH by (intros; apply H; now right). rewrite (H p) by (now left). cbn [length]. rewrite S_INR. ring. }
  rewrite S. field. lra.
Qed.
Lemma cov_affine (l : list (R * R)) c e : l <> [] -> (forall p, In p l -> snd p = c + e * fst p) ->
  cov l = e * central 2 (map fst l) /\ central 2 (map snd l) = e ^ 2 * central 2 (map fst l).
Proof.
  intros Hne H. assert (M := mean_affine l c e Hne H). unfold cov, pmean, central. rewrite M. set (m := mean (map fst l)).
  rewrite !map_map. split.
  - rewrite <- mean_scal. unfold mean. rewrite !map_length. f_equal. apply Rsum_map_ext. intros p Hp. rewrite (H p Hp). ring.
  - rewrite <- mean_scal. unfold mean. rewrite !map_length. f_equal. apply Rsum_map_ext. intros p Hp. rewrite (H p Hp). ring.
Qed.
Lemma central2_nonneg x : 0 <= central 2 x.
Proof.
  unfold central, mean. apply Rmult_le_pos.
  - generalize (Rsum x / INR (length x)). intros m. induction x as [|a x IH]; [cbn; lra|].
    change (0 <= (a - m) ^ 2 + Rsum (map (fun t => (t - m) ^ 2) x)). assert (P := pow2_ge_0 (a - m)). assert (Q := Rplus_le_le_0_compat _ _ P IH). exact Q.
  - destruct x as [|a x]; [cbn; rewrite Rinv_0; lra|]. left. apply Rinv_0_lt_compat. rewrite map_length. apply lt_0_INR. cbn. lia.
Qed.

(** the ratio of the definition *)
Lemma sign_ratio e v : e * v <> 0 -> e * v / Rabs (e * v) = (if Rlt_dec 0 (e * v) then 1 else -1).
Proof.
  generalize (e * v). intros t H. destruct (Rlt_dec 0 t); [rewrite Rabs_pos_eq by lra|rewrite Rabs_left by lra]; field; lra.
Qed.
Lemma xratio u e v : u = e * v \/ u = - (e * v) ->
  (e * v = 0 -> xdiv (Fin u) (xabs (xsqrt (Fin (e ^ 2 * v * v)))) = NaN) /\
  (e * v <> 0 -> xdiv (Fin u) (xabs (xsqrt (Fin (e ^ 2 * v * v)))) = Fin (u / Rabs (e * v))).
Proof.
  intros U. replace (e ^ 2 * v * v) with (Rsqr (e * v)) by (unfold Rsqr; ring).
  assert (X : xabs (xsqrt (Fin (Rsqr (e * v)))) = Fin (Rabs (e * v))).
  { unfold xsqrt. destruct (Rle_dec 0 (Rsqr (e * v))) as [_|N]; [|exfalso; apply N, Rle_0_sqr]. rewrite sqrt_Rsqr_abs. cbn. now rewrite Rabs_Rabsolu. }
  rewrite X. split.
  - intros Z. assert (u = 0) by (destruct U; lra). subst u. rewrite Z, Rabs_R0. unfold xdiv. destruct (Req_EM_T 0 0); [|lra]. destruct (Req_EM_T 0 0); [reflexivity|lra].
  - intros N. apply xdiv_Fin. now apply Rabs_no_R0.
Qed.

Lemma related_values m1 m2 e j A : aligned m1 m2 j -> pairs m1 m2 j <> [] -> power_related m1 m2 j A e ->
  exists v, 0 <= v /\ v = central 2 (map fst (log_pairs (pairs m1 m2 j))) /\
    Bval m1 m2 2 0 j = Fin v /\ Bval m1 m2 1 1 j = Fin (e * v) /\ Bval m1 m2 0 2 j = Fin (e ^ 2 * v).
Proof.
  intros HA Hne HP. assert (Hz := related_nonzero _ _ _ _ _ HP). assert (HG := related_logs _ _ _ _ _ HP).
  assert (Hl : log_pairs (pairs m1 m2 j) <> []) by (now apply l_ne).
  rewrite (Bval_11 m1 m2 j HA Hne Hz), (Bval_left m1 m2 j HA Hne Hz) by lia. rewrite (Bval_right m1 m2 j HA Hne Hz) by lia.
  set (l := log_pairs (pairs m1 m2 j)) in *.
  assert (M : forall f : R * R -> R, map f l <> []) by (intros f; destruct l; [congruence|discriminate]).
  rewrite !var_kappa by apply M. change (mean (map (fun t => (t - mean (map fst l)) ^ 2) (map fst l))) with (central 2 (map fst l)).
  change (mean (map (fun t => (t - mean (map snd l)) ^ 2) (map snd l))) with (central 2 (map snd l)).
  destruct (cov_affine l (ln A) e Hl HG) as [-> ->].
  exists (central 2 (map fst l)). split; [apply central2_nonneg|]. auto.
Qed.

(** at one scale: the cumulants are proportional to the variance of the logarithms of the first quantity, and the
    correlation is the sign of the exponent (NaN when there is nothing to correlate) *)
Theorem C101_one_scale :
  forall m1 m2 g n j1 j2 wd b e,
  regular m1 g 1 -> regular m2 g 1 -> (1 <= j1)%Z -> (j1 <= j2)%Z -> (j2 <= Z.of_nat g)%Z ->
  (forall j, In j (scales m1) -> length (column m1 j 0) = length (column m2 j 0)) ->
  BiCumulants m1 m2 n j1 j2 wd = Ok b -> (2 <= n)%nat -> mq_formalism m1 <> WaveletCoef ->
  exists RHO, bc_RHO b = Some RHO /\
  forall j A, In j (scales m1) -> aligned m1 m2 j -> pairs m1 m2 j <> [] -> power_related m1 m2 j A e ->
    let v := central 2 (map fst (log_pairs (pairs m1 m2 j))) in
    b3 (bc_values b) 2 0 j = Fin v /\ b3 (bc_values b) 1 1 j = Fin (e * v) /\ b3 (bc_values b) 0 2 j = Fin (e ^ 2 * v) /\
    b1 RHO j = (if Req_EM_T (e * v) 0 then NaN else Fin (if Rlt_dec 0 e then 1 else -1)).
Proof.
  intros m1 m2 g n j1 j2 wd b e R1 R2 H1 H2 H3 HL E Hn NW.
  destruct (BC_rows m1 m2 g n j1 j2 wd b R1 R2 H1 H2 H3 HL E) as (_ & _ & _ & V & _ & HW).
  destruct (HW NW) as (_ & HR & _). eexists. split; [exact HR|].
  intros j A Hj HA Hne HP v0. assert (S1 : scales m1 = one_to g) by apply R1.
  destruct (related_values m1 m2 e j A HA Hne HP) as (v & Pv & Ev & B20 & B11 & B02). fold v0 in Ev. subst v.
  rewrite (proj1 (V 2%nat 0%nat ltac:(lia) ltac:(lia))), (proj1 (V 1%nat 1%nat ltac:(lia) ltac:(lia))), (proj1 (V 0%nat 2%nat ltac:(lia) ltac:(lia))) by trivial.
  split; [exact B20|]. split; [exact B11|]. split; [exact B02|].
  rewrite S1 in Hj. rewrite (b1_map (fun j => xdiv _ _)) by trivial. rewrite B20, B11, B02. cbn [xmul].
  destruct (xratio (e * v0) e v0 (or_introl eq_refl)) as [X Y].
  destruct (Req_EM_T (e * v0) 0) as [Z|Z]; [now apply X|]. rewrite (Y Z). f_equal. rewrite sign_ratio by trivial.
  assert (0 < v0) by (destruct Pv as [|Q]; [trivial|exfalso; apply Z; rewrite <- Q; ring]).
  destruct (Rlt_dec 0 (e * v0)) as [P|P], (Rlt_dec 0 e) as [Q|Q]; trivial; exfalso.
  - assert (e <> 0) by (intros ->; lra). assert (0 < (- e) * v0) by (apply Rmult_lt_0_compat; lra). lra.
  - apply P. now apply Rmult_lt_0_compat.
Qed.
Print Assumptions C101_one_scale.

(** over the scales: c11 = e c20 and c02 = e^2 c20, and the correlation rho_mf is MINUS the sign of e c20 *)
Theorem C101_rho :
  forall m1 m2 g n j1 j2 wd b e,
  regular m1 g 1 -> regular m2 g 1 -> (1 <= j1)%Z -> (j1 <= j2)%Z -> (j2 <= Z.of_nat g)%Z ->
  (forall j, In j (scales m1) -> length (column m1 j 0) = length (column m2 j 0)) ->
  BiCumulants m1 m2 n j1 j2 wd = Ok b -> (2 <= n)%nat -> mq_formalism m1 <> WaveletCoef ->
  (forall j, (j1 <= j <= j2)%Z -> aligned m1 m2 j /\ pairs m1 m2 j <> [] /\ exists A, power_related m1 m2 j A e) ->
  forall c, b2 (bc_log_cumulants b) 2 0 = Fin c ->
    b2 (bc_log_cumulants b) 1 1 = Fin (e * c) /\ b2 (bc_log_cumulants b) 0 2 = Fin (e ^ 2 * c) /\
    bc_rho b = Some (if Req_EM_T (e * c) 0 then NaN else Fin (if Rlt_dec 0 (e * c) then -1 else 1)).
Proof.
  intros m1 m2 g n j1 j2 wd b e R1 R2 H1 H2 H3 HL E Hn NW HP c Ec.
  destruct (BC_rows m1 m2 g n j1 j2 wd b R1 R2 H1 H2 H3 HL E) as (_ & _ & _ & V & _ & HW).
  destruct (HW NW) as (_ & _ & HR).
  destruct (V 2%nat 0%nat ltac:(lia) ltac:(lia)) as (_ & _ & _ & L20).
  destruct (V 1%nat 1%nat ltac:(lia) ltac:(lia)) as (_ & _ & _ & L11).
  destruct (V 0%nat 2%nat ltac:(lia) ltac:(lia)) as (_ & _ & _ & L02).
  assert (B : forall j, (j1 <= j <= j2)%Z -> Bval m1 m2 1 1 j = xmul (Fin e) (Bval m1 m2 2 0 j) /\ Bval m1 m2 0 2 j = xmul (Fin (e ^ 2)) (Bval m1 m2 2 0 j)).
  { intros j Hj. destruct (HP j Hj) as (HA & Hne & A & P). destruct (related_values m1 m2 e j A HA Hne P) as (v & _ & _ & -> & -> & ->). auto. }
  rewrite (fslope_ext wd m1 j1 j2 0 _ (fun j => xmul (Fin e) (Bval m1 m2 2 0 j))) in L11 by (intros; now apply B).
  rewrite (fslope_ext wd m1 j1 j2 0 _ (fun j => xmul (Fin (e ^ 2)) (Bval m1 m2 2 0 j))) in L02 by (intros; now apply B).
  rewrite (proj1 (fit_scale wd m1 j1 j2 0 (Bval m1 m2 2 0) _ H2)) in L11.
  rewrite (proj1 (fit_scale wd m1 j1 j2 0 (Bval m1 m2 2 0) _ H2)) in L02.
  rewrite L20 in Ec. destruct (fslope wd m1 j1 j2 0 (Bval m1 m2 2 0)) as [s| | |] eqn:Es;
    try (cbn [xmul] in Ec; try discriminate; unfold scale_inf in Ec; repeat (destruct (Req_EM_T _ _) in Ec || destruct (Rlt_dec _ _) in Ec; try discriminate); fail).
  cbn [xmul] in *. injection Ec as Ec.
  assert (C11 : b2 (bc_log_cumulants b) 1 1 = Fin (e * c)) by (rewrite L11; f_equal; rewrite <- Ec; ring).
  assert (C02 : b2 (bc_log_cumulants b) 0 2 = Fin (e ^ 2 * c)) by (rewrite L02; f_equal; rewrite <- Ec; ring).
  split; [exact C11|]. split; [exact C02|]. rewrite HR, C11, C02, L20. cbn [xmul xopp]. f_equal.
  replace (s * log2_e) with c by trivial.
  destruct (xratio (- (e * c)) e c (or_intror eq_refl)) as [X Y].
  destruct (Req_EM_T (e * c) 0) as [Z|Z]; [now apply X|]. rewrite (Y Z). f_equal.
  replace (- (e * c) / Rabs (e * c)) with (- (e * c / Rabs (e * c))) by (unfold Rdiv; ring). rewrite sign_ratio by trivial.
  destruct (Rlt_dec 0 (e * c)); ring.
Qed.
Print Assumptions C101_rho.

(** a quantity with itself *)
Lemma self_pairs c p : In p (joint c c) -> fst p = snd p.
Proof. induction c as [|v c IH]; [intros []|]. destruct v; cbn [joint]; auto. intros [<-|K]; auto. Qed.
Lemma self_related m j : no_inf (column m j 0) -> no_zero m j 0 -> power_related m m j 1 1.
Proof.
  intros HI HZ. destruct (joint_fst (column m j 0) (column m j 0) eq_refl HI HI) as [F _]. fold (pairs m m j) in F.
  split; [lra|]. apply Forall_forall. intros p Hp. assert (N : fst p <> 0).
  { unfold no_zero in HZ. rewrite Forall_forall in HZ. apply HZ. unfold numbers. rewrite <- F. now apply in_map. }
  split; [exact N|]. rewrite <- (self_pairs _ _ Hp), Rpower_1 by (now apply Rabs_pos_lt). ring.
Qed.
(** REFUTED: rho_mf of a quantity with itself is 1 when its second log-cumulant is negative, but it is NaN when it is 0
    and -1 when it is positive *)
Theorem C101_self_refuted :
  forall m g n j1 j2 wd b,
  regular m g 1 -> (1 <= j1)%Z -> (j1 <= j2)%Z -> (j2 <= Z.of_nat g)%Z ->
  BiCumulants m m n j1 j2 wd = Ok b -> (2 <= n)%nat -> mq_formalism m <> WaveletCoef ->
  (forall j, (j1 <= j <= j2)%Z -> usable m j 0 /\ no_zero m j 0) ->
  forall c, b2 (bc_log_cumulants b) 2 0 = Fin c ->
    (c < 0 -> bc_rho b = Some (Fin 1)) /\ (c = 0 -> bc_rho b = Some NaN) /\ (0 < c -> bc_rho b = Some (Fin (-1))).
Proof.
  intros m g n j1 j2 wd b HR H1 H2 H3 E Hn NW HU c Ec.
  destruct (C101_rho m m g n j1 j2 wd b 1 HR HR H1 H2 H3 ltac:(reflexivity) E Hn NW) with (c := c) as (_ & _ & K); trivial.
  - intros j Hj. destruct (HU j Hj) as [[U1 U2] Z]. split; [repeat split; trivial|]. split.
    + intros X. apply U2. destruct (joint_fst (column m j 0) (column m j 0) eq_refl U1 U1) as [F _]. fold (pairs m m j) in F.
      unfold numbers. rewrite <- F, X. reflexivity.
    + exists 1. now apply self_related.
  - rewrite K. destruct (Req_EM_T (1 * c) 0), (Rlt_dec 0 (1 * c)); repeat split; intros; trivial; exfalso; lra.
Qed.
Print Assumptions C101_self_refuted.

(** ** Joint structure functions of related quantities *)
Lemma qpow_pos q a : a <> 0 -> qpow q a = Rpower (Rabs a) q.
Proof.
  intros N. assert (P := Rabs_pos_lt a N). unfold qpow, abs_pow. destruct (Req_EM_T q 0) as [->|]; [now rewrite Rpower_O|].
  destruct (Req_EM_T a 0); [contradiction|reflexivity].
Qed.
Lemma related_moment m1 m2 j A e p q : power_related m1 m2 j A e ->
  jmoment p q (pairs m1 m2 j) = Rpower A q * abs_moment (p + e * q) (map fst (pairs m1 m2 j)).
Proof.
  intros [HA H]. unfold jmoment, pmean, abs_moment. rewrite map_map. rewrite <- mean_scal. unfold mean. rewrite !map_length. f_equal.
  apply Rsum_map_ext. intros [a b] Hp. rewrite Forall_forall in H. destruct (H _ Hp) as [N Eb]. cbn [fst snd] in *.
  assert (Nb : b <> 0).
  { intros ->. rewrite Rabs_R0 in Eb. assert (P := Rmult_lt_0_compat _ _ HA (exp_pos (e * ln (Rabs a)))). unfold Rpower in Eb. lra. }
  rewrite !qpow_pos by trivial. rewrite Eb. unfold Rpower. rewrite ln_mult by (trivial; apply exp_pos). rewrite ln_exp, <- !exp_plus. f_equal. ring.
Qed.
Lemma abs_moment_pos q l : l <> [] -> Forall (fun a => a <> 0) l -> 0 < abs_moment q l.
Proof.
  intros Hne H. unfold abs_moment, mean. rewrite map_length. apply Rdiv_lt_0_compat.
  - destruct l as [|a l]; [contradiction|]. apply Rsum_map_pos; [intros; unfold qpow, abs_pow; repeat destruct (Req_EM_T _ _); try lra; left; apply exp_pos|].
    exists a. inversion H. split; [now left|]. rewrite qpow_pos by trivial. apply exp_pos.
  - apply lt_0_INR. destruct l; [contradiction|cbn; lia].
Qed.
(** when the moduli of the second quantity are a0 2^(h j) times the power e of those of the first, every joint exponent is
    an exponent of the first one alone: zeta(q1, q2) = zeta(q1 + e q2) + h q2 *)
Theorem C101_joint_exponents :
  forall m1 m2 g qa qb qs j1 j2 wd s s1 a0 h e,
  regular m1 g 1 -> regular m2 g 1 -> (1 <= j1)%Z -> (j1 <= j2)%Z -> (j2 <= Z.of_nat g)%Z -> 0 < a0 ->
  (forall j, In j (scales m1) -> length (column m1 j 0) = length (column m2 j 0)) ->
  (forall j, (j1 <= j <= j2)%Z -> usable m1 j 0 /\ no_inf (column m2 j 0) /\ same_nans m1 m2 j /\
     power_related m1 m2 j (a0 * Rpower 2 (h * IZR j)) e) ->
  BiStructureFunction m1 m2 j1 j2 (Some (QArr qa)) (Some (QArr qb)) wd = Ok s ->
  StructureFunction m1 (QArr qs) j1 j2 wd = Ok s1 ->
  forall i k t, (i < length qa)%nat -> (k < length qb)%nat -> (t < length qs)%nat ->
    nth t qs 0 = nth i qa 0 + e * nth k qb 0 ->
    b2 (bs_zeta s) i k = xadd (at2 (sf_zeta s1) t 0) (Fin (h * nth k qb 0)) /\
    b2 (bs_intercept s) i k = xadd (at2 (sf_intercept s1) t 0) (Fin (nth k qb 0 * (ln a0 / ln 2))).
Proof.
  intros m1 m2 g qa qb qs j1 j2 wd s s1 a0 h e R1 R2 H1 H2 H3 Ha HL HP E E1 i k t Hi Hk Ht Hq.
  destruct (BS_rows m1 m2 g qa qb j1 j2 wd s R1 R2 H1 H2 H3 HL E) as (_ & _ & _ & _ & _ & V & _).
  destruct (V i k Hi Hk) as (_ & -> & ->).
  destruct (SF_rows m1 g 1 qs j1 j2 wd s1 R1 H1 H2 H3 E1 t 0%nat Ht ltac:(lia)) as (_ & -> & ->). rewrite Hq.
  set (p := nth i qa 0). set (q := nth k qb 0).
  assert (L2 := ln2_pos).
  assert (X : forall j, (j1 <= j <= j2)%Z -> logSval m1 m2 (PyFloat p) (PyFloat q) j
     = xadd (logS m1 (PyFloat (p + e * q)) 0 j) (Fin (h * q * IZR j + q * (ln a0 / ln 2)))).
  { intros j Hj. destruct (HP j Hj) as ([U1 U2] & N2 & S & P).
    destruct (joint_fst (column m1 j 0) (column m2 j 0) S U1 N2) as [F _]. fold (pairs m1 m2 j) in F.
    assert (Hne : pairs m1 m2 j <> []) by (intros X; rewrite X in F; apply U2; unfold numbers; now rewrite <- F).
    assert (A : aligned m1 m2 j) by (repeat split; trivial; apply HL; eapply (range_in m1); eassumption).
    assert (Z := related_nonzero _ _ _ _ _ P). unfold pairs_nonzero in Z. rewrite Forall_forall in Z.
    assert (Z1 : Forall (fun a => a <> 0) (numbers m1 j 0)).
    { unfold numbers. rewrite <- F. apply Forall_forall. intros a Hin. apply in_map_iff in Hin as (v & <- & Hv). now apply Z. }
    assert (D : pairs_defined p q (pairs m1 m2 j)) by (apply Forall_forall; intros v Hv; destruct (Z v Hv); auto).
    assert (J := related_moment m1 m2 j _ e p q P). rewrite F in J. fold (numbers m1 j 0) in J.
    assert (P1 : 0 < abs_moment (p + e * q) (numbers m1 j 0)) by (now apply abs_moment_pos).
    assert (P0 : 0 < Rpower (a0 * Rpower 2 (h * IZR j)) q) by apply exp_pos.
    assert (PJ : 0 < jmoment p q (pairs m1 m2 j)) by (rewrite J; now apply Rmult_lt_0_compat).
    rewrite logSval_eq by trivial. rewrite (logS_eq m1 (p + e * q) 0 j (conj U1 U2) (or_intror Z1) P1). cbn [xadd]. f_equal. rewrite J.
    unfold log2R. rewrite ln_mult by trivial. unfold Rpower at 1. rewrite ln_exp.
    rewrite ln_mult by (trivial; apply exp_pos). unfold Rpower. rewrite ln_exp. field. lra. }
  rewrite (fslope_ext wd m1 j1 j2 0 _ _ X), (ficept_ext wd m1 j1 j2 0 _ _ X).
  exact (fit_add_line wd m1 j1 j2 0 (logS m1 (PyFloat (p + e * q)) 0) (h * q) (q * (ln a0 / ln 2)) H2).
Qed.
Print Assumptions C101_joint_exponents.

(** the self pair: zeta(q1, q2) = zeta(q1 + q2) *)
Theorem C101_self_exponents :
  forall m g qa qb qs j1 j2 wd s s1,
  regular m g 1 -> (1 <= j1)%Z -> (j1 <= j2)%Z -> (j2 <= Z.of_nat g)%Z ->
  (forall j, (j1 <= j <= j2)%Z -> usable m j 0 /\ no_zero m j 0) ->
  BiStructureFunction m m j1 j2 (Some (QArr qa)) (Some (QArr qb)) wd = Ok s ->
  StructureFunction m (QArr qs) j1 j2 wd = Ok s1 ->
  forall i k t, (i < length qa)%nat -> (k < length qb)%nat -> (t < length qs)%nat ->
    nth t qs 0 = nth i qa 0 + nth k qb 0 ->
    b2 (bs_zeta s) i k = at2 (sf_zeta s1) t 0 /\ b2 (bs_intercept s) i k = at2 (sf_intercept s1) t 0.
Proof.
  intros m g qa qb qs j1 j2 wd s s1 HR H1 H2 H3 HU E E1 i k t Hi Hk Ht Hq.
  assert (Z : forall v, xadd v (Fin 0) = v) by (intros [v| | |]; cbn; trivial; f_equal; ring).
  destruct (C101_joint_exponents m m g qa qb qs j1 j2 wd s s1 1 0 1 HR HR H1 H2 H3 Rlt_0_1 ltac:(reflexivity)) with (i := i) (k := k) (t := t) as [A B]; trivial.
  - intros j Hj. destruct (HU j Hj) as [[U1 U2] Z0]. split; [split; trivial|]. split; trivial. split; [reflexivity|].
    replace (1 * Rpower 2 (0 * IZR j)) with 1; [now apply self_related|]. rewrite Rmult_0_l. rewrite Rpower_O by lra. ring.
  - rewrite Hq. ring.
  - rewrite A, B, ln_1. replace (0 * nth k qb 0) with 0 by ring. replace (nth k qb 0 * (0 / ln 2)) with 0 by (field; apply Rgt_not_eq, ln2_pos).
    rewrite !Z. auto.
Qed.
Print Assumptions C101_self_exponents.

(** ** Concrete quantities *)
Definition pair_demo (x y : R) : mrq :=
  add_values (add_values (new_mrq WaveletLeader 0) [[Fin x; Fin 1; NaN]] 1) [[Fin y; Fin 1]] 2.
Lemma pair_demo_facts x y : 0 < x -> 0 < y ->
  regular (pair_demo x y) 2 1 /\ counted (pair_demo x y) /\
  (forall j, (1 <= j <= 2)%Z -> usable (pair_demo x y) j 0 /\ no_zero (pair_demo x y) j 0) /\
  pairs (pair_demo x y) (pair_demo x y) 1 = [(x, x); (1, 1)] /\ pairs (pair_demo x y) (pair_demo x y) 2 = [(y, y); (1, 1)].
Proof.
  intros Hx Hy. split; [|split; [|split; [|split; reflexivity]]].
  - split; [lia|]. split; [reflexivity|]. split; [reflexivity|]. intros j a H.
    cbn in H. destruct (j =? 1)%Z; [injection H as <-; reflexivity|]. destruct (j =? 2)%Z; [injection H as <-; reflexivity|discriminate].
  - intros j a H. cbn in *. destruct (j =? 1)%Z; [injection H as <-; reflexivity|]. destruct (j =? 2)%Z; [injection H as <-; reflexivity|discriminate].
  - intros j Hj. assert (D : j = 1%Z \/ j = 2%Z) by lia. destruct D as [-> | ->]; (split; [split|]);
      try (repeat (constructor; [discriminate + eauto|]); constructor); try discriminate;
      unfold no_zero; cbn; repeat constructor; lra.
Qed.
(** rho_mf of a quantity with itself: 1 for second cumulants that decrease with the scale, -1 for increasing ones *)
Lemma self_c20 x y wd b : 0 < x -> 0 < y -> BiCumulants (pair_demo x y) (pair_demo x y) 2 1 2 wd = Ok b ->
  b2 (bc_log_cumulants b) 2 0 = Fin ((ln y ^ 2 / 4 - ln x ^ 2 / 4) * log2_e).
Proof.
  intros Hx Hy E. destruct (pair_demo_facts x y Hx Hy) as (HR & HC & HU & P1 & P2). set (m := pair_demo x y) in *.
  destruct (BC_rows m m 2 2 1 2 wd b HR HR ltac:(lia) ltac:(lia) ltac:(lia) ltac:(reflexivity) E) as (_ & _ & _ & V & _).
  destruct (V 2%nat 0%nat ltac:(lia) ltac:(lia)) as (_ & _ & _ & ->).
  assert (CV : forall z, 0 < z -> central 2 (map fst (log_pairs [(z, z); (1, 1)])) = ln z ^ 2 / 4).
  { intros z Hz. unfold log_pairs. cbn [map fst snd]. rewrite Rabs_R1, ln_1, (Rabs_pos_eq z) by lra.
    unfold central, mean, Rsum. cbn. field. }
  assert (B : forall j, (1 <= j <= 2)%Z -> Bval m m 2 0 j = Fin ((ln y ^ 2 / 4 - ln x ^ 2 / 4) * IZR j + (2 * (ln x ^ 2 / 4) - ln y ^ 2 / 4))).
  { intros j Hj. destruct (HU j Hj) as [[U1 U2] U3].
    assert (HP := self_related m j U1 U3).
    assert (Hne : pairs m m j <> []) by (assert (D : j = 1%Z \/ j = 2%Z) by lia; destruct D as [-> | ->]; [rewrite P1|rewrite P2]; discriminate).
    destruct (related_values m m 1 j 1 (conj eq_refl (conj U1 U1)) Hne HP) as (v & _ & Ev & -> & _). rewrite Ev. f_equal.
    assert (D : j = 1%Z \/ j = 2%Z) by lia. destruct D as [-> | ->]; [rewrite P1|rewrite P2]; rewrite CV by trivial; field. }
  rewrite (fslope_ext wd m 1 2 0 _ _ B).
  destruct (fit_exact wd m 1 2 0 (ln y ^ 2 / 4 - ln x ^ 2 / 4) (2 * (ln x ^ 2 / 4) - ln y ^ 2 / 4) ltac:(lia)) as [-> _]; [|reflexivity].
  intros j Hj. assert (D : j = 1%Z \/ j = 2%Z) by lia. destruct D as [-> | ->]; cbn; lia.
Qed.
Theorem C101_witness_refuted : forall wd,
  (exists b, BiCumulants (pair_demo (exp 1) 1) (pair_demo (exp 1) 1) 2 1 2 wd = Ok b /\ bc_rho b = Some (Fin 1)) /\
  (exists b, BiCumulants (pair_demo 1 (exp 1)) (pair_demo 1 (exp 1)) 2 1 2 wd = Ok b /\ bc_rho b = Some (Fin (-1))).
Proof.
  intros wd.
  assert (G : forall x y, 0 < x -> 0 < y -> exists b, BiCumulants (pair_demo x y) (pair_demo x y) 2 1 2 wd = Ok b).
  { intros x y Hx Hy. destruct (pair_demo_facts x y Hx Hy) as (HR & HC & _).
    destruct (C56_returns _ _ 2 2 1 2 wd HR HR HC HC ltac:(lia) ltac:(lia) ltac:(lia) ltac:(reflexivity) ltac:(right; lia)) as [[_ X] _].
    apply X. split; reflexivity. }
  assert (P := exp_pos 1). assert (L0 : 0 < log2_e) by (unfold log2_e, log2R; rewrite ln_exp; apply Rdiv_lt_0_compat; [lra|apply ln2_pos]).
  split.
  - destruct (G (exp 1) 1 P Rlt_0_1) as [b E]. exists b. split; [exact E|].
    destruct (pair_demo_facts (exp 1) 1 P Rlt_0_1) as (HR & HC & HU & _).
    destruct (C101_self_refuted _ 2 2 1 2 wd b HR ltac:(lia) ltac:(lia) ltac:(lia) E ltac:(lia) ltac:(discriminate) HU _ (self_c20 _ _ wd b P Rlt_0_1 E)) as (K & _).
    apply K. rewrite ln_1, ln_exp. lra.
  - destruct (G 1 (exp 1) Rlt_0_1 P) as [b E]. exists b. split; [exact E|].
    destruct (pair_demo_facts 1 (exp 1) Rlt_0_1 P) as (HR & HC & HU & _).
    destruct (C101_self_refuted _ 2 2 1 2 wd b HR ltac:(lia) ltac:(lia) ltac:(lia) E ltac:(lia) ltac:(discriminate) HU _ (self_c20 _ _ wd b Rlt_0_1 P E)) as (_ & _ & K).
    apply K. rewrite ln_1, ln_exp. lra.
Qed.
Print Assumptions C101_witness_refuted.
