(** * Properties C55-C59, C69, C70: bivariate analysis *)
From Coq Require Import Reals List ZArith Bool Lra Lia.
From Verif Require Import XReal PyBase ModelUtils ModelMRQ ModelStructure ModelCumulants ModelWavelet ModelMFA ModelBivariate
  Spec SpecMRQ SpecBi LXReal LReg LUtils LBase LEst LMoment LCum LEntropy LBivariate PropsEstimators PropsCumulants.
Import ListNotations.
Open Scope R_scope.

(** ** C55: coherence *)
Theorem C55_coherence :
  forall m1 m2 g q1 q2 j1 j2 wd s,
  regular m1 g 1 -> regular m2 g 1 -> (1 <= j1)%Z -> (j1 <= j2)%Z -> (j2 <= Z.of_nat g)%Z ->
  (forall j, In j (scales m1) -> aligned m1 m2 j) ->
  BiStructureFunction m1 m2 j1 j2 (Some (QArr q1)) (Some (QArr q2)) wd = Ok s ->
  length (bs_coherence s) = g /\
  forall j, In j (scales m1) ->
    let l := pairs m1 m2 j in
    let exy := Rsum (map (fun p => fst p * snd p) l) in
    let exx := Rsum (map (fun p => fst p ^ 2) l) in
    let eyy := Rsum (map (fun p => snd p ^ 2) l) in
    (exx * eyy = 0 -> b1 (bs_coherence s) j = NaN) /\
    (0 < exx * eyy -> b1 (bs_coherence s) j = Fin (exy / sqrt (exx * eyy)) /\ -1 <= exy / sqrt (exx * eyy) <= 1).
Proof.
  intros m1 m2 g q1 q2 j1 j2 wd s R1 R2 H1 H2 H3 HA E.
  assert (S1 : scales m1 = one_to g) by apply R1. rewrite S1 in *.
  destruct (BS_ok_inv _ _ _ _ _ _ _ _ E) as (HF & HG & HN & _).
  rewrite (BS_eq m1 m2 g) in E; trivial. 2:{ intros j Hj. now apply HA. }
  destruct (bi_coherence _ _ _) as [coh|] eqn:EC; [|discriminate]. apply coherence_eq in EC. cbn [bind] in E. injection E as <-.
  cbn [bs_coherence]. rewrite EC. cbv zeta. split.
  { rewrite map_length. unfold one_to. now rewrite map_length, seq_length. }
  intros j Hj. rewrite (b1_map (fun j => xdiv _ _)) by trivial.
  assert (A := HA j Hj).
  assert (K := fun a b => Sval_signed m1 m2 j a b A).
  assert (K11 := K 1%nat 1%nat). assert (K20 := K 2%nat 0%nat). assert (K02 := K 0%nat 2%nat). clear K.
  replace (INR 2) with 2 in * by (cbn; ring). change (INR 1) with 1 in *. change (INR 0) with 0 in *.
  rewrite K11, K20, K02. clear K11 K20 K02.
  destruct (pairs m1 m2 j) as [|p0 l0] eqn:El.
  { cbn [map Rsum fold_right]. split; [reflexivity|intros; lra]. }
  rewrite <- El. assert (Hne : pairs m1 m2 j <> []) by (rewrite El; discriminate).
  clear El p0 l0. set (l := pairs m1 m2 j) in *. clearbody l.
  assert (Hn := INR_len_pos l Hne).
  cbn [xmul].
  assert (C := cauchy_mean (fun p : R * R => fst p) (fun p => snd p) l Hne).
  assert (M1 : pmean (fun x => x ^ 1) (fun y => y ^ 1) l = Rsum (map (fun p => fst p * snd p) l) / INR (length l)).
  { unfold pmean, mean. rewrite map_length. f_equal. apply Rsum_map_ext. intros. ring. }
  assert (M2 : pmean (fun x => x ^ 2) (fun y => y ^ 0) l = Rsum (map (fun p => fst p ^ 2) l) / INR (length l)).
  { unfold pmean, mean. rewrite map_length. f_equal. apply Rsum_map_ext. intros. ring. }
  assert (M3 : pmean (fun x => x ^ 0) (fun y => y ^ 2) l = Rsum (map (fun p => snd p ^ 2) l) / INR (length l)).
  { unfold pmean, mean. rewrite map_length. f_equal. apply Rsum_map_ext. intros. ring. }
  unfold mean in C. rewrite !map_length in C. rewrite M1, M2, M3.
  set (exy := Rsum (map (fun p => fst p * snd p) l)) in *. set (exx := Rsum (map (fun p => fst p ^ 2) l)) in *.
  set (eyy := Rsum (map (fun p => snd p ^ 2) l)) in *. set (n := INR (length l)) in *.
  assert (Pd : exx / n * (eyy / n) = exx * eyy * / n ^ 2) by (field; lra).
  assert (Pn : 0 < / n ^ 2) by (apply Rinv_0_lt_compat, pow_lt; trivial).
  destruct (xdiv_ratio _ _ C) as [[D X]|(D & X & B)]; rewrite X.
  - split; [reflexivity|]. intros P. rewrite Pd in D. assert (0 < exx * eyy * / n ^ 2) by (now apply Rmult_lt_0_compat). lra.
  - split; [intros Z; rewrite Pd, Z in D; lra|]. intros P.
    assert (Q : exy / n / sqrt (exx / n * (eyy / n)) = exy / sqrt (exx * eyy)).
    { rewrite Pd. rewrite sqrt_mult by lra. rewrite <- pow_inv. rewrite sqrt_pow2 by (left; now apply Rinv_0_lt_compat).
      assert (0 < sqrt (exx * eyy)) by (now apply sqrt_lt_R0). field. lra. }
    rewrite <- Q. split; [reflexivity|]. revert B. unfold Rabs. destruct (Rcase_abs _); lra.
Qed.
Print Assumptions C55_coherence.

(** the same quantity twice: coherence 1 wherever some coefficient is not zero *)
Theorem C55_self :
  forall m g q1 q2 j1 j2 wd s,
  regular m g 1 -> (1 <= j1)%Z -> (j1 <= j2)%Z -> (j2 <= Z.of_nat g)%Z ->
  BiStructureFunction m m j1 j2 (Some (QArr q1)) (Some (QArr q2)) wd = Ok s ->
  (forall j, In j (scales m) -> no_inf (column m j 0)) ->
  forall j, In j (scales m) -> (exists x, In x (numbers m j 0) /\ x <> 0) -> b1 (bs_coherence s) j = Fin 1.
Proof.
  intros m g q1 q2 j1 j2 wd s HR H1 H2 H3 E HI j Hj (x & Ix & Nx).
  assert (HA : forall j, In j (scales m) -> aligned m m j) by (intros; repeat split; auto).
  destruct (C55_coherence m m g q1 q2 j1 j2 wd s HR HR H1 H2 H3 HA E) as [_ K].
  destruct (K j Hj) as [_ K2]. clear K.
  destruct (joint_fst (column m j 0) (column m j 0) eq_refl (HI j Hj) (HI j Hj)) as [F G].
  assert (D : forall p, In p (pairs m m j) -> fst p = snd p).
  { unfold pairs. clear. induction (column m j 0) as [|v c IH]; [intros p []|]. intros p. destruct v; cbn [joint]; auto. intros [<-|I]; auto. }
  assert (EX : Rsum (map (fun p => fst p * snd p) (pairs m m j)) = Rsum (map (fun p => fst p ^ 2) (pairs m m j))).
  { apply Rsum_map_ext. intros p Hp. rewrite <- (D p Hp). ring. }
  assert (EY : Rsum (map (fun p => snd p ^ 2) (pairs m m j)) = Rsum (map (fun p => fst p ^ 2) (pairs m m j))).
  { apply Rsum_map_ext. intros p Hp. now rewrite <- (D p Hp). }
  rewrite EX, EY in K2. set (e := Rsum (map (fun p => fst p ^ 2) (pairs m m j))) in *.
  assert (P : 0 < e).
  { apply Rsum_map_pos; [intros; apply pow2_ge_0|]. unfold numbers in Ix. rewrite <- F in Ix. apply in_map_iff in Ix as (p & <- & Ip).
    exists p. split; trivial. replace (fst p ^ 2) with (Rsqr (fst p)) by (unfold Rsqr; ring). now apply Rsqr_pos_lt. }
  destruct K2 as [K2 _]; [now apply Rmult_lt_0_compat|]. rewrite K2. f_equal.
  rewrite sqrt_square by lra. field. lra.
Qed.
Print Assumptions C55_self.

(** which moments are needed: q1 and q2 must be arrays that both contain 0, 1 and 2 *)
Theorem C55_needed_moments :
  forall m1 m2 g q1 q2 j1 j2 wd,
  regular m1 g 1 -> regular m2 g 1 -> counted m1 -> counted m2 -> (1 <= j1)%Z -> (j1 <= j2)%Z -> (j2 <= Z.of_nat g)%Z ->
  mq_formalism m1 = mq_formalism m2 -> mq_gamint m1 = mq_gamint m2 ->
  (forall j, In j (scales m1) -> count m1 j 0 = count m2 j 0 /\ length (column m1 j 0) = length (column m2 j 0)) ->
  match q1, q2 with
  | None, _ | _, None => BiStructureFunction m1 m2 j1 j2 q1 q2 wd = Err TypeError
  | Some (QArr a), Some (QArr b) =>
      NoDup a -> NoDup b ->
      (~ (incl [0; 1; 2] a /\ incl [0; 1; 2] b) -> BiStructureFunction m1 m2 j1 j2 q1 q2 wd = Err IndexError) /\
      (incl [0; 1; 2] a /\ incl [0; 1; 2] b -> exists s, BiStructureFunction m1 m2 j1 j2 q1 q2 wd = Ok s)
  | _, _ => BiStructureFunction m1 m2 j1 j2 q1 q2 wd = Err IndexError
  end.
Proof.
  intros m1 m2 g q1 q2 j1 j2 wd R1 R2 C1 C2 H1 H2 H3 HF HG HC.
  assert (S1 : scales m1 = one_to g) by apply R1. rewrite S1 in *.
  assert (HN : nj_equal (mq_nj m1) (mq_nj m2) = Ok true).
  { rewrite (nj_equal_ok m1 m2 g) by trivial. f_equal. apply forallb_forall. intros j Hj. apply Nat.eqb_eq. now apply HC. }
  assert (HL : forall j, In j (one_to g) -> length (column m1 j 0) = length (column m2 j 0)) by (intros; now apply HC).
  assert (NT : forall q1 q2, q1 = None \/ q2 = None -> BiStructureFunction m1 m2 j1 j2 q1 q2 wd = Err TypeError).
  { intros u v Huv. unfold BiStructureFunction. rewrite (proj2 (formalism_eqb_eq _ _) HF). cbn [assert_ bind].
    destruct (Req_EM_T _ _) as [_|]; [|contradiction]. cbn [assert_ bind]. rewrite HN. cbn [assert_ bind].
    destruct u, v; trivial. destruct Huv; discriminate. }
  destruct q1 as [q1|]; [|apply NT; auto]. destruct q2 as [q2|]; [|destruct q1; apply NT; auto].
  assert (BE := BS_eq m1 m2 g q1 q2 j1 j2 wd R1 R2 H1 H2 H3 HF HG HN HL).
  destruct q1 as [q1|a]; [rewrite BE; reflexivity|]. destruct q2 as [q2|b]; [rewrite BE; reflexivity|].
  intros Na Nb. rewrite BE.
  assert (I3 : forall q : list R, incl [0; 1; 2] q <-> In 0 q /\ In 1 q /\ In 2 q).
  { intros q. unfold incl. cbn. split; [intros H; repeat split; apply H; auto|].
    intros (A & B & C) x [<-|[<-|[<-|[]]]]; trivial. }
  rewrite !I3.
  destruct (coherence_cases a b (Stable (fun x => x) m1 m2 g (QArr a) (QArr b)) Na Nb) as [(A & B & C & D & E & F & c & ->)|(X & ->)]; cbn [bind].
  - split; [intros N; exfalso; apply N; repeat split; trivial|]. intros _. eexists. reflexivity.
  - split; [reflexivity|]. intros ((A & B & C) & D & E & F). exfalso. apply X. repeat split; trivial.
Qed.
Print Assumptions C55_needed_moments.

(** ** C56: cumulants of two quantities *)
(** when BiCumulants returns *)
Theorem C56_returns :
  forall m1 m2 g n j1 j2 wd,
  regular m1 g 1 -> regular m2 g 1 -> counted m1 -> counted m2 -> (1 <= j1)%Z -> (j1 <= j2)%Z -> (j2 <= Z.of_nat g)%Z ->
  (forall j, In j (scales m1) -> length (column m1 j 0) = length (column m2 j 0)) ->
  (mq_formalism m1 = WaveletCoef \/ (2 <= n)%nat) ->
  ((exists b, BiCumulants m1 m2 n j1 j2 wd = Ok b) <->
   mq_formalism m1 = mq_formalism m2 /\ forall j, In j (scales m1) -> count m1 j 0 = count m2 j 0) /\
  (~ (mq_formalism m1 = mq_formalism m2 /\ forall j, In j (scales m1) -> count m1 j 0 = count m2 j 0) ->
   BiCumulants m1 m2 n j1 j2 wd = Err AssertionError).
Proof.
  intros m1 m2 g n j1 j2 wd R1 R2 C1 C2 H1 H2 H3 HL Hn.
  assert (S1 : scales m1 = one_to g) by apply R1. rewrite S1 in *.
  assert (HN := nj_equal_ok m1 m2 g R1 R2 C1 C2).
  assert (D : (forallb (fun j => Nat.eqb (count m1 j 0) (count m2 j 0)) (one_to g) = true <-> forall j, In j (one_to g) -> count m1 j 0 = count m2 j 0)).
  { rewrite forallb_forall. split; intros H j Hj; [apply Nat.eqb_eq|apply Nat.eqb_eq]; auto. }
  split; [split|].
  - intros [b E]. destruct (BC_ok_inv _ _ _ _ _ _ _ E) as [HF E']. split; trivial. rewrite HN in E'. apply D. congruence.
  - intros [HF HC]. rewrite (BC_eq m1 m2 g) by (trivial; rewrite HN; f_equal; now apply D). cbv zeta.
    unfold bi_rho. destruct (mq_formalism m1); [eexists; reflexivity| |];
    (destruct (Nat.ltb_spec n 2); [destruct Hn; [discriminate|lia]|eexists; reflexivity]).
  - intros N. unfold BiCumulants. destruct (formalism_eqb _ _) eqn:EF; [|reflexivity]. cbn [assert_ bind]. rewrite HN. cbn [bind].
    destruct (forallb _ _) eqn:EB; [|reflexivity]. exfalso. apply N. split; [now apply formalism_eqb_eq|now apply D].
Qed.
Print Assumptions C56_returns.

(** several realisations cannot be compared; leaders need n_cumul >= 2 *)
Theorem C56_limits :
  (forall m1 m2 g nrep n j1 j2 wd,
     regular m1 g nrep -> regular m2 g nrep -> counted m1 -> counted m2 -> (2 <= nrep)%nat ->
     mq_formalism m1 = mq_formalism m2 ->
     BiCumulants m1 m2 n j1 j2 wd = Err ValueError) /\
  (forall m1 m2 g n j1 j2 wd,
     regular m1 g 1 -> regular m2 g 1 -> (1 <= j1)%Z -> (j1 <= j2)%Z -> (j2 <= Z.of_nat g)%Z ->
     (forall j, In j (scales m1) -> length (column m1 j 0) = length (column m2 j 0)) ->
     mq_formalism m1 <> WaveletCoef -> (n < 2)%nat ->
     forall b, BiCumulants m1 m2 n j1 j2 wd <> Ok b).
Proof.
  split.
  - intros m1 m2 g nrep n j1 j2 wd R1 R2 C1 C2 Hn HF. unfold BiCumulants. rewrite (proj2 (formalism_eqb_eq _ _) HF). cbn [assert_ bind].
    destruct R1 as (G1 & S1 & K1 & L1). destruct R2 as (G2 & S2 & K2 & L2). unfold nj_equal.
    assert (E : length (mq_nj m1) = length (mq_nj m2)).
    { apply (f_equal (@length _)) in K1, K2. unfold dict_keys in *. rewrite map_length in K1, K2. congruence. }
    rewrite E, Nat.eqb_refl.
    assert (H1 : In 1%Z (scales m1)) by (rewrite S1; apply one_to_In; lia).
    assert (H2 : In 1%Z (scales m2)) by (rewrite S2; apply one_to_In; lia).
    destruct (dict_get_Some _ _ H1) as [v1 V1]. destruct (dict_get_Some _ _ H2) as [v2 V2].
    assert (Z1 := L1 _ _ V1). assert (Z2 := L2 _ _ V2). apply C1 in V1. apply C2 in V2.
    destruct (mq_nj m1) as [|[k w] d] eqn:EJ; [discriminate|].
    assert (k = 1%Z). { unfold dict_keys in K1. cbn in K1. unfold one_to in K1. destruct g; [lia|]. cbn in K1. congruence. } subst k.
    cbn [dict_get] in V1. rewrite Z.eqb_refl in V1. injection V1 as ->.
    cbn [nj_loop]. rewrite V2.
    assert (P1 : length (map count_valid v1) = nrep) by (now rewrite map_length).
    assert (P2 : length (map count_valid v2) = nrep) by (now rewrite map_length).
    revert P1 P2. generalize (map count_valid v1), (map count_valid v2). intros u w P1 P2.
    destruct u as [|a [|a' u]]; cbn [length] in P1; try lia. destruct w as [|b [|b' w]]; cbn [length] in P2; try lia.
    unfold counts_eq. cbn [length]. replace (length w) with (length u) by lia. rewrite Nat.eqb_refl. reflexivity.
  - intros m1 m2 g n j1 j2 wd R1 R2 H1 H2 H3 HL HW Hn b E.
    assert (S1 : scales m1 = one_to g) by apply R1. rewrite S1 in *.
    destruct (BC_ok_inv _ _ _ _ _ _ _ E) as [HF HN]. rewrite (BC_eq m1 m2 g) in E by trivial. cbv zeta in E. unfold bi_rho in E.
    replace (Nat.ltb n 2) with true in E by (symmetry; now apply Nat.ltb_lt).
    destruct (mq_formalism m1); [congruence|discriminate|discriminate].
Qed.
Print Assumptions C56_limits.

Lemma BC_rows m1 m2 g n j1 j2 wd b :
  regular m1 g 1 -> regular m2 g 1 -> (1 <= j1)%Z -> (j1 <= j2)%Z -> (j2 <= Z.of_nat g)%Z ->
  (forall j, In j (scales m1) -> length (column m1 j 0) = length (column m2 j 0)) ->
  BiCumulants m1 m2 n j1 j2 wd = Ok b ->
  bc_j b = one_to g /\ bc_formalism b = mq_formalism m1 /\ bc_n_cumul b = n /\
  (forall u v, (u <= n)%nat -> (v <= n)%nat ->
    (forall j, In j (scales m1) -> b3 (bc_values b) u v j = Bval m1 m2 u v j) /\
    b2 (bc_slope b) u v = fslope wd m1 j1 j2 0 (Bval m1 m2 u v) /\
    b2 (bc_intercept b) u v = ficept wd m1 j1 j2 0 (Bval m1 m2 u v) /\
    b2 (bc_log_cumulants b) u v = xmul (fslope wd m1 j1 j2 0 (Bval m1 m2 u v)) (Fin log2_e)) /\
  (mq_formalism m1 = WaveletCoef -> bc_RHO b = None /\ bc_rho b = None) /\
  (mq_formalism m1 <> WaveletCoef -> (2 <= n)%nat /\
     bc_RHO b = Some (map (fun j => xdiv (Bval m1 m2 1 1 j) (xabs (xsqrt (xmul (Bval m1 m2 0 2 j) (Bval m1 m2 2 0 j))))) (one_to g)) /\
     bc_rho b = Some (xdiv (xopp (b2 (bc_log_cumulants b) 1 1))
                           (xabs (xsqrt (xmul (b2 (bc_log_cumulants b) 0 2) (b2 (bc_log_cumulants b) 2 0)))))).
Proof.
  intros R1 R2 H1 H2 H3 HL E. assert (S1 : scales m1 = one_to g) by apply R1. rewrite S1 in *.
  destruct (BC_ok_inv _ _ _ _ _ _ _ E) as [HF HN]. rewrite (BC_eq m1 m2 g) in E by trivial. cbv zeta in E.
  destruct (bi_rho _ _ _ _) as [[RHO rho]|] eqn:ER; [|discriminate]. cbn [bind] in E. injection E as <-.
  cbn [bc_j bc_values bc_log_cumulants bc_slope bc_intercept bc_RHO bc_rho bc_formalism bc_n_cumul].
  split; [reflexivity|]. split; [reflexivity|]. split; [reflexivity|]. split; [|split].
  - intros u v Hu Hv. split; [|split; [|split]].
    + intros j Hj. now apply (b3_map (fun a b => Bval m1 m2 a b)).
    + now apply (b2_map (fun a b => fslope wd m1 j1 j2 0 (Bval m1 m2 a b))).
    + now apply (b2_map (fun a b => ficept wd m1 j1 j2 0 (Bval m1 m2 a b))).
    + now apply (b2_map (fun a b => xmul (fslope wd m1 j1 j2 0 (Bval m1 m2 a b)) (Fin log2_e))).
  - intros HW. unfold bi_rho in ER. rewrite HW in ER. injection ER as <- <-. auto.
  - intros HW. unfold bi_rho in ER. destruct (Nat.ltb_spec n 2) as [L|L]; [destruct (mq_formalism m1); [congruence|discriminate|discriminate]|].
    split; trivial.
    destruct (mq_formalism m1); [congruence| |]; injection ER as <- <-;
    rewrite !nth2_map by lia; (split; [|reflexivity]); rewrite (map2_map xmul), map2_diag, map_map, map2_map, map2_diag; reflexivity.
Qed.

(** the values: univariate moment-cumulant relations for the jointly usable logarithms, the covariance, and 0 elsewhere *)
Theorem C56_values :
  forall m1 m2 g n j1 j2 wd b,
  regular m1 g 1 -> regular m2 g 1 -> (1 <= j1)%Z -> (j1 <= j2)%Z -> (j2 <= Z.of_nat g)%Z ->
  (forall j, In j (scales m1) -> length (column m1 j 0) = length (column m2 j 0)) ->
  BiCumulants m1 m2 n j1 j2 wd = Ok b ->
  bc_j b = scales m1 /\
  forall j, In j (scales m1) -> aligned m1 m2 j -> pairs m1 m2 j <> [] -> pairs_nonzero (pairs m1 m2 j) ->
    let l := log_pairs (pairs m1 m2 j) in
    (exists K1 K2 : nat -> R, forall k, (1 <= k <= n)%nat ->
       b3 (bc_values b) k 0 j = Fin (K1 k) /\
       moment k (map fst l) = Rsum (map (fun i => Binomial.C (k - 1) (i - 1) * K1 i * moment (k - i) (map fst l)) (seq 1 k)) /\
       b3 (bc_values b) 0 k j = Fin (K2 k) /\
       moment k (map snd l) = Rsum (map (fun i => Binomial.C (k - 1) (i - 1) * K2 i * moment (k - i) (map snd l)) (seq 1 k))) /\
    ((1 <= n)%nat -> b3 (bc_values b) 1 1 j = Fin (cov l)).
Proof.
  intros m1 m2 g n j1 j2 wd b R1 R2 H1 H2 H3 HL E.
  destruct (BC_rows m1 m2 g n j1 j2 wd b R1 R2 H1 H2 H3 HL E) as (EJ & _ & _ & V & _).
  split; [rewrite EJ; symmetry; apply R1|].
  intros j Hj A Hne Hz l.
  assert (Hl : l <> []) by (now apply l_ne).
  assert (RE : forall x : list R, x <> [] -> forall k, (1 <= k)%nat ->
     moment k x = Rsum (map (fun i => Binomial.C (k - 1) (i - 1) * kappa (mu x) i * moment (k - i) x) (seq 1 k))).
  { intros x Hx k Hk. change moment with (fun k x => mu x k). cbn beta.
    assert (RL := kap_relation (mu x) k (mu_0 _ Hx) (k - 1)%nat ltac:(lia)).
    replace (S (k - 1)) with k in RL by lia. rewrite RL at 1. rewrite conv_binom.
    replace (S (k - 1)) with k by lia. rewrite <- seq_shift, map_map. apply Rsum_map_ext. intros i Hi. apply in_seq in Hi.
    unfold shift. rewrite Nat.sub_succ, Nat.sub_0_r. f_equal. f_equal. lia. }
  assert (M : forall f : R * R -> R, map f l <> []) by (intros f; destruct l; [congruence|discriminate]).
  split.
  - exists (kappa (mu (map fst l))), (kappa (mu (map snd l))). intros k Hk.
    destruct (V k 0%nat ltac:(lia) ltac:(lia)) as (V1 & _). destruct (V 0%nat k ltac:(lia) ltac:(lia)) as (V2 & _).
    rewrite V1, V2 by trivial. split; [apply Bval_left; trivial; lia|]. split; [apply RE; trivial; lia|].
    split; [apply Bval_right; trivial; lia|]. apply RE; trivial; lia.
  - intros Hn. destruct (V 1%nat 1%nat Hn Hn) as (V1 & _). rewrite V1 by trivial. now apply Bval_11.
Qed.
Print Assumptions C56_values.

(** |RHO_MF| <= 1 *)
Lemma var_kappa x : x <> [] -> kappa (mu x) 2 = mean (map (fun t => (t - mean x) ^ 2) x).
Proof.
  intros H. rewrite kappa_2.
  change (mean (map (fun t => (t - mean x) ^ 2) x)) with (central 2 x). rewrite central_expand by trivial.
  rewrite !conv_succ. cbn [conv]. unfold shift. rewrite (mu_0 x H). simpl. ring.
Qed.
Theorem C56_RHO :
  forall m1 m2 g n j1 j2 wd b,
  regular m1 g 1 -> regular m2 g 1 -> (1 <= j1)%Z -> (j1 <= j2)%Z -> (j2 <= Z.of_nat g)%Z ->
  (forall j, In j (scales m1) -> length (column m1 j 0) = length (column m2 j 0)) ->
  BiCumulants m1 m2 n j1 j2 wd = Ok b ->
  (mq_formalism m1 = WaveletCoef -> bc_RHO b = None /\ bc_rho b = None) /\
  (mq_formalism m1 <> WaveletCoef -> exists RHO, bc_RHO b = Some RHO /\ length RHO = g /\
    forall j, In j (scales m1) -> aligned m1 m2 j -> pairs m1 m2 j <> [] -> pairs_nonzero (pairs m1 m2 j) ->
      let l := log_pairs (pairs m1 m2 j) in
      let v := central 2 (map fst l) * central 2 (map snd l) in
      (v = 0 -> b1 RHO j = NaN) /\
      (v <> 0 -> b1 RHO j = Fin (cov l / sqrt v) /\ -1 <= cov l / sqrt v <= 1)).
Proof.
  intros m1 m2 g n j1 j2 wd b R1 R2 H1 H2 H3 HL E.
  destruct (BC_rows m1 m2 g n j1 j2 wd b R1 R2 H1 H2 H3 HL E) as (EJ & _ & _ & _ & HW & HL').
  split; [exact HW|]. intros NW. destruct (HL' NW) as (Hn & HR & _).
  eexists. split; [exact HR|]. split; [rewrite map_length; unfold one_to; now rewrite map_length, seq_length|].
  assert (S1 : scales m1 = one_to g) by apply R1. rewrite S1.
  intros j Hj A Hne Hz l v. rewrite (b1_map (fun j => xdiv _ _)) by trivial.
  rewrite (Bval_11 m1 m2 j A Hne Hz), (Bval_left m1 m2 j A Hne Hz) by lia. rewrite (Bval_right m1 m2 j A Hne Hz) by lia. fold l.
  assert (Hl : l <> []) by (now apply l_ne).
  assert (M : forall f : R * R -> R, map f l <> []) by (intros f; destruct l; [congruence|discriminate]).
  rewrite !var_kappa by apply M. change (mean (map (fun t => (t - mean (map fst l)) ^ 2) (map fst l))) with (central 2 (map fst l)).
  change (mean (map (fun t => (t - mean (map snd l)) ^ 2) (map snd l))) with (central 2 (map snd l)).
  cbn [xmul]. rewrite (Rmult_comm (central 2 (map snd l))). fold v.
  assert (C : cov l ^ 2 <= v).
  { unfold cov, pmean, v, central. rewrite !map_map. apply (cauchy_mean (fun p => fst p - mean (map fst l)) (fun p => snd p - mean (map snd l)) l Hl). }
  destruct (xdiv_ratio _ _ C) as [[D X]|(D & X & B)].
  - assert (XA : xabs (xsqrt (Fin v)) = xsqrt (Fin v)).
    { rewrite D. unfold xsqrt. destruct (Rle_dec 0 0); [|lra]. rewrite sqrt_0. cbn. now rewrite Rabs_R0. }
    rewrite XA, X. split; [reflexivity|]. intros; contradiction.
  - assert (XA : xabs (xsqrt (Fin v)) = xsqrt (Fin v)).
    { unfold xsqrt. destruct (Rle_dec 0 v); [|lra]. cbn. rewrite Rabs_pos_eq; [reflexivity|apply sqrt_pos]. }
    rewrite XA, X. split; [intros; lra|]. intros _. split; [reflexivity|]. revert B. unfold Rabs. destruct (Rcase_abs _); lra.
Qed.
Print Assumptions C56_RHO.

(** the orders (k, 0) and (0, k) are the univariate cumulants when the NaN agree *)
Theorem C56_marginals :
  forall m1 m2 g n j1 j2 wd b c1 c2,
  regular m1 g 1 -> regular m2 g 1 -> (1 <= j1)%Z -> (j1 <= j2)%Z -> (j2 <= Z.of_nat g)%Z ->
  (forall j, In j (scales m1) -> same_nans m1 m2 j) ->
  BiCumulants m1 m2 n j1 j2 wd = Ok b -> Cumulants m1 n j1 j2 wd = Ok c1 -> Cumulants m2 n j1 j2 wd = Ok c2 ->
  forall k, (1 <= k <= n)%nat ->
    (forall j, In j (scales m1) ->
       b3 (bc_values b) k 0 j = at3 (cu_values c1) (k - 1) 0 j /\ b3 (bc_values b) 0 k j = at3 (cu_values c2) (k - 1) 0 j) /\
    b2 (bc_log_cumulants b) k 0 = at2 (cu_log_cumulants c1) (k - 1) 0 /\
    b2 (bc_log_cumulants b) 0 k = at2 (cu_log_cumulants c2) (k - 1) 0 /\
    b2 (bc_intercept b) k 0 = at2 (cu_intercept c1) (k - 1) 0 /\
    b2 (bc_intercept b) 0 k = at2 (cu_intercept c2) (k - 1) 0.
Proof.
  intros m1 m2 g n j1 j2 wd b c1 c2 R1 R2 H1 H2 H3 HS E E1 E2 k Hk.
  assert (S1 : scales m1 = one_to g) by apply R1. assert (S2 : scales m2 = one_to g) by apply R2.
  assert (HL : forall j, In j (scales m1) -> length (column m1 j 0) = length (column m2 j 0)).
  { intros j Hj. apply HS in Hj. apply (f_equal (@length _)) in Hj. now rewrite !map_length in Hj. }
  destruct (BC_ok_inv _ _ _ _ _ _ _ E) as [HF HN]. assert (HC := nj_equal_counts m1 m2 HN).
  assert (KJ : dict_keys (mq_nj m1) = one_to g) by apply R1. rewrite KJ in HC.
  destruct (BC_rows m1 m2 g n j1 j2 wd b R1 R2 H1 H2 H3 HL E) as (_ & _ & _ & V & _).
  destruct (V k 0%nat ltac:(lia) ltac:(lia)) as (Va & _ & Vi & Vl). destruct (V 0%nat k ltac:(lia) ltac:(lia)) as (Wa & _ & Wi & Wl).
  destruct (CUM_rows m1 g 1 n j1 j2 wd c1 R1 H1 H2 H3 E1 k 0%nat Hk ltac:(lia)) as (A1 & _ & I1 & L1).
  destruct (CUM_rows m2 g 1 n j1 j2 wd c2 R2 H1 H2 H3 E2 k 0%nat Hk ltac:(lia)) as (A2 & _ & I2 & L2).
  rewrite S1 in *. rewrite S2 in *.
  assert (J : forall j, (j1 <= j <= j2)%Z -> In j (one_to g)) by (intros; apply one_to_In; lia).
  assert (F3 : fit3 wd m1 j1 j2 0 (Bval m1 m2 0 k) = fit3 wd m2 j1 j2 0 (Cval m2 n k 0)).
  { rewrite (fit3_weights wd m1 m2 j1 j2 0 0) by (intros; now apply HC, J). apply fit3_ext. intros j Hj. apply Bval_right_uni; auto. }
  assert (G3 : fit3 wd m1 j1 j2 0 (Bval m1 m2 k 0) = fit3 wd m1 j1 j2 0 (Cval m1 n k 0)).
  { apply fit3_ext. intros j Hj. apply Bval_left_uni; auto. }
  split.
  - intros j Hj. rewrite Va, Wa, A1, A2 by trivial. split; [apply Bval_left_uni|apply Bval_right_uni]; auto.
  - rewrite Vl, Wl, Vi, Wi, L1, L2, I1, I2. unfold fslope, ficept. rewrite F3, G3. auto.
Qed.
Print Assumptions C56_marginals.

(** exchanging the two quantities transposes the tables and keeps the correlations *)
Theorem C56_swap :
  forall m1 m2 g n j1 j2 wd b,
  regular m1 g 1 -> regular m2 g 1 -> counted m1 -> counted m2 -> (1 <= j1)%Z -> (j1 <= j2)%Z -> (j2 <= Z.of_nat g)%Z ->
  (forall j, In j (scales m1) -> length (column m1 j 0) = length (column m2 j 0)) ->
  BiCumulants m1 m2 n j1 j2 wd = Ok b ->
  exists b', BiCumulants m2 m1 n j1 j2 wd = Ok b' /\
    (forall u v, (u <= n)%nat -> (v <= n)%nat ->
       (forall j, In j (scales m1) -> b3 (bc_values b') v u j = b3 (bc_values b) u v j) /\
       b2 (bc_slope b') v u = b2 (bc_slope b) u v /\ b2 (bc_intercept b') v u = b2 (bc_intercept b) u v /\
       b2 (bc_log_cumulants b') v u = b2 (bc_log_cumulants b) u v) /\
    bc_RHO b' = bc_RHO b /\ bc_rho b' = bc_rho b.
Proof.
  intros m1 m2 g n j1 j2 wd b R1 R2 C1 C2 H1 H2 H3 HL E.
  assert (S1 : scales m1 = one_to g) by apply R1. assert (S2 : scales m2 = one_to g) by apply R2.
  destruct (BC_ok_inv _ _ _ _ _ _ _ E) as [HF HN]. assert (HC := nj_equal_counts m1 m2 HN).
  assert (KJ : dict_keys (mq_nj m1) = one_to g) by apply R1. rewrite KJ in HC.
  assert (HN' := nj_equal_sym m1 m2 g R1 R2 C1 C2 HN).
  assert (HL' : forall j, In j (scales m2) -> length (column m2 j 0) = length (column m1 j 0)).
  { intros j Hj. symmetry. apply HL. now rewrite S1, <- S2. }
  destruct (BC_rows m1 m2 g n j1 j2 wd b R1 R2 H1 H2 H3 HL E) as (_ & _ & _ & V & W1 & W2).
  assert (EX : exists b', BiCumulants m2 m1 n j1 j2 wd = Ok b').
  { apply (C56_returns m2 m1 g n j1 j2 wd); trivial.
    - destruct (mq_formalism m1) eqn:F1; [left; congruence| |]; right; apply W2; discriminate.
    - split; [congruence|]. intros j Hj. symmetry. apply HC. now rewrite <- S2. }
  destruct EX as [b' E']. exists b'. split; trivial.
  destruct (BC_rows m2 m1 g n j1 j2 wd b' R2 R1 H1 H2 H3 HL' E') as (_ & _ & _ & V' & W1' & W2').
  rewrite S1 in *. rewrite S2 in *.
  assert (J : forall j, (j1 <= j <= j2)%Z -> In j (one_to g)) by (intros; apply one_to_In; lia).
  assert (SW : forall u v j, In j (one_to g) -> Bval m2 m1 v u j = Bval m1 m2 u v j) by (intros; apply Bval_swap; auto).
  assert (F3 : forall u v, fit3 wd m2 j1 j2 0 (Bval m2 m1 v u) = fit3 wd m1 j1 j2 0 (Bval m1 m2 u v)).
  { intros u v. rewrite (fit3_weights wd m2 m1 j1 j2 0 0) by (intros; symmetry; now apply HC, J). apply fit3_ext. intros j Hj. apply SW. auto. }
  assert (T : forall u v, (u <= n)%nat -> (v <= n)%nat ->
       (forall j, In j (one_to g) -> b3 (bc_values b') v u j = b3 (bc_values b) u v j) /\
       b2 (bc_slope b') v u = b2 (bc_slope b) u v /\ b2 (bc_intercept b') v u = b2 (bc_intercept b) u v /\
       b2 (bc_log_cumulants b') v u = b2 (bc_log_cumulants b) u v).
  { intros u v Hu Hv. destruct (V u v Hu Hv) as (Va & Vs & Vi & Vl). destruct (V' v u Hv Hu) as (Va' & Vs' & Vi' & Vl').
    split; [intros j Hj; rewrite Va, Va' by trivial; now apply SW|].
    rewrite Vs, Vs', Vi, Vi', Vl, Vl'. unfold fslope, ficept. rewrite F3. auto. }
  split; [exact T|].
  assert (D : mq_formalism m1 = WaveletCoef \/ mq_formalism m1 <> WaveletCoef) by (destruct (mq_formalism m1); [left|right|right]; congruence).
  destruct D as [HW|HW].
  - destruct (W1 HW) as [-> ->]. rewrite HF in HW. destruct (W1' HW) as [-> ->]. auto.
  - destruct (W2 HW) as (Hn & -> & ->). rewrite HF in HW. destruct (W2' HW) as (_ & -> & ->).
    destruct (T 1%nat 1%nat ltac:(lia) ltac:(lia)) as (_ & _ & _ & ->).
    destruct (T 0%nat 2%nat ltac:(lia) ltac:(lia)) as (_ & _ & _ & ->).
    destruct (T 2%nat 0%nat ltac:(lia) ltac:(lia)) as (_ & _ & _ & ->).
    split; f_equal.
    + apply map_ext_in. intros j Hj. rewrite (SW 1%nat 1%nat j Hj), (SW 0%nat 2%nat j Hj), (SW 2%nat 0%nat j Hj). f_equal. f_equal. f_equal. apply xmul_comm.
    + f_equal. f_equal. f_equal. apply xmul_comm.
Qed.
Print Assumptions C56_swap.

(** ** C57: the cross-cumulants other than (1, 1) *)
(** REFUTED: all of them are 0, whatever the data *)
Theorem C57_cross_cumulants_refuted :
  forall m1 m2 g n j1 j2 wd b,
  regular m1 g 1 -> regular m2 g 1 -> (1 <= j1)%Z -> (j1 <= j2)%Z -> (j2 <= Z.of_nat g)%Z ->
  (forall j, In j (scales m1) -> length (column m1 j 0) = length (column m2 j 0)) ->
  BiCumulants m1 m2 n j1 j2 wd = Ok b ->
  forall u v, (1 <= u <= n)%nat -> (1 <= v <= n)%nat -> (u, v) <> (1, 1)%nat ->
    (forall j, In j (scales m1) -> b3 (bc_values b) u v j = Fin 0) /\
    ((j1 < j2)%Z -> (forall j, (j1 <= j <= j2)%Z -> (0 < count m1 j 0)%nat) ->
       b2 (bc_log_cumulants b) u v = Fin 0).
Proof.
  intros m1 m2 g n j1 j2 wd b R1 R2 H1 H2 H3 HL E u v Hu Hv N.
  destruct (BC_rows m1 m2 g n j1 j2 wd b R1 R2 H1 H2 H3 HL E) as (_ & _ & _ & V & _).
  destruct (V u v ltac:(lia) ltac:(lia)) as (Va & _ & _ & Vl). split.
  - intros j Hj. rewrite Va by trivial. apply Bval_other; trivial; lia.
  - intros Hlt Hc. rewrite Vl. destruct (fit_exact wd m1 j1 j2 0 0 0 Hlt Hc) as [F _].
    rewrite (fslope_ext wd m1 j1 j2 0 (Bval m1 m2 u v) (fun j => Fin (0 * IZR j + 0))), F.
    + cbn [xmul]. f_equal. ring.
    + intros j Hj. rewrite Bval_other by (trivial; lia). f_equal. ring.
Qed.
Print Assumptions C57_cross_cumulants_refuted.

(** a concrete pair (equal quantities, samples with logarithms 1, 0, 0) whose joint cumulant of order (2, 1) is 2/27 *)
Definition bi_demo (f : formalism) (gam x : R) : mrq :=
  add_values (add_values (new_mrq f gam) [[Fin x; Fin 1; Fin 1; NaN]] 1) [[Fin x; Fin 1; Fin 1]] 2.
Lemma bi_demo_regular f gam x : regular (bi_demo f gam x) 2 1.
Proof.
  split; [lia|]. split; [reflexivity|]. split; [reflexivity|]. intros j a H.
  cbn in H. destruct (j =? 1)%Z; [injection H as <-; reflexivity|]. destruct (j =? 2)%Z; [injection H as <-; reflexivity|discriminate].
Qed.
Lemma bi_demo_counted f gam x : counted (bi_demo f gam x).
Proof.
  intros j a H. cbn in *. destruct (j =? 1)%Z; [injection H as <-; reflexivity|]. destruct (j =? 2)%Z; [injection H as <-; reflexivity|discriminate].
Qed.
Lemma bi_demo_scale f gam x j : In j (scales (bi_demo f gam x)) -> j = 1%Z \/ j = 2%Z.
Proof. intros [H|[H|[]]]; auto. Qed.
Lemma bi_demo_aligned f gam x y j : In j (scales (bi_demo f gam x)) -> aligned (bi_demo f gam x) (bi_demo f gam y) j /\
  same_nans (bi_demo f gam x) (bi_demo f gam y) j /\
  count (bi_demo f gam x) j 0 = count (bi_demo f gam y) j 0 /\
  pairs (bi_demo f gam x) (bi_demo f gam y) j = [(x, y); (1, 1); (1, 1)].
Proof.
  intros H. apply bi_demo_scale in H as [-> | ->];
    (split; [split; [reflexivity|]; split; repeat (constructor; [discriminate + eauto|]); constructor|]; split; [reflexivity|]; split; reflexivity).
Qed.
(** the joint cumulant of order (2, 1) of a sample: the third central cross-moment *)
Definition central21 (l : list (R * R)) : R :=
  pmean (fun x => (x - mean (map fst l)) ^ 2) (fun y => y - mean (map snd l)) l.
Theorem C57_witness_refuted :
  exists m1 m2 b, BiCumulants m1 m2 3 1 2 true = Ok b /\
    b3 (bc_values b) 2 1 1 = Fin 0 /\ central21 (log_pairs (pairs m1 m2 1)) = 2 / 27.
Proof.
  set (m := bi_demo WaveletLeader 0 (exp 1)). exists m, m.
  assert (HR := bi_demo_regular WaveletLeader 0 (exp 1)). assert (HC := bi_demo_counted WaveletLeader 0 (exp 1)). fold m in HR, HC.
  destruct (C56_returns m m 2 3 1 2 true HR HR HC HC ltac:(lia) ltac:(lia) ltac:(lia) ltac:(reflexivity) ltac:(right; lia)) as [[_ X] _].
  destruct X as [b E]; [auto|]. exists b. split; [exact E|].
  destruct (C57_cross_cumulants_refuted m m 2 3 1 2 true b HR HR ltac:(lia) ltac:(lia) ltac:(lia) ltac:(reflexivity) E 2%nat 1%nat ltac:(lia) ltac:(lia) ltac:(discriminate)) as [V _].
  split; [apply V; left; reflexivity|].
  change (pairs m m 1) with [(exp 1, exp 1); (1, 1); (1, 1)]. unfold log_pairs. cbn [map fst snd].
  rewrite (Rabs_pos_eq (exp 1)) by (left; apply exp_pos). rewrite ln_exp, Rabs_R1, ln_1.
  unfold central21, pmean, mean, Rsum. cbn. field.
Qed.
Print Assumptions C57_witness_refuted.
(** the hypotheses of C55 and C56 are met by concrete quantities with finite correlation *)
Example C56_example : exists b RHO, BiCumulants (bi_demo WaveletLeader 0 (exp 1)) (bi_demo WaveletLeader 0 (exp (-1))) 2 1 2 true = Ok b /\
  bc_RHO b = Some RHO /\ b1 RHO 1 = Fin (-1) /\ b1 RHO 2 = Fin (-1) /\ b3 (bc_values b) 1 1 1 = Fin (- 2 / 9).
Proof.
  set (m := bi_demo WaveletLeader 0 (exp 1)). set (m' := bi_demo WaveletLeader 0 (exp (-1))).
  assert (HR := bi_demo_regular WaveletLeader 0 (exp 1)). assert (HC := bi_demo_counted WaveletLeader 0 (exp 1)). fold m in HR, HC.
  assert (HR' := bi_demo_regular WaveletLeader 0 (exp (-1))). assert (HC' := bi_demo_counted WaveletLeader 0 (exp (-1))). fold m' in HR', HC'.
  assert (HA := bi_demo_aligned WaveletLeader 0 (exp 1) (exp (-1))). fold m m' in HA.
  assert (HL : forall j, In j (scales m) -> length (column m j 0) = length (column m' j 0)) by (intros j Hj; apply HA, Hj).
  destruct (C56_returns m m' 2 2 1 2 true HR HR' HC HC' ltac:(lia) ltac:(lia) ltac:(lia) HL ltac:(right; lia)) as [[_ X] _].
  destruct X as [b E]; [split; [reflexivity|intros j Hj; apply HA, Hj]|]. exists b.
  destruct (C56_RHO m m' 2 2 1 2 true b HR HR' ltac:(lia) ltac:(lia) ltac:(lia) HL E) as [_ K].
  destruct K as (RHO & ER & _ & K); [discriminate|]. exists RHO. split; [exact E|]. split; [exact ER|].
  destruct (C56_values m m' 2 2 1 2 true b HR HR' ltac:(lia) ltac:(lia) ltac:(lia) HL E) as [_ KV].
  assert (LP : log_pairs [(exp 1, exp (-1)); (1, 1); (1, 1)] = [(1, -1); (0, 0); (0, 0)]).
  { unfold log_pairs. cbn [map fst snd]. rewrite !(Rabs_pos_eq (exp _)) by (left; apply exp_pos). now rewrite !ln_exp, Rabs_R1, ln_1. }
  assert (NZ : pairs_nonzero [(exp 1, exp (-1)); (1, 1); (1, 1)]).
  { assert (A := exp_pos 1). assert (B := exp_pos (-1)). repeat constructor; cbn; lra. }
  assert (CV : cov [(1, -1); (0, 0); (0, 0)] = - 2 / 9) by (unfold cov, pmean, mean, Rsum; cbn; field).
  assert (C1 : central 2 (map fst [(1, -1); (0, 0); (0, 0)]) = 2 / 9) by (unfold central, mean, Rsum; cbn; field).
  assert (C2 : central 2 (map snd [(1, -1); (0, 0); (0, 0)]) = 2 / 9) by (unfold central, mean, Rsum; cbn; field).
  assert (SQ : sqrt (2 / 9 * (2 / 9)) = 2 / 9) by (apply sqrt_square; lra).
  assert (V : forall j, In j (scales m) -> b1 RHO j = Fin (-1)).
  { intros j Hj. destruct (HA j Hj) as (A & _ & _ & P). rewrite <- P in NZ. destruct (K j Hj A ltac:(rewrite P; discriminate) NZ) as [_ K2].
    rewrite P, LP, CV, C1, C2, SQ in K2. destruct K2 as [-> _]; [lra|]. f_equal. field. }
  split; [apply V; left; reflexivity|]. split; [apply V; right; left; reflexivity|].
  destruct (HA 1%Z ltac:(left; reflexivity)) as (A & _ & _ & P). rewrite <- P in NZ.
  destruct (KV 1%Z ltac:(left; reflexivity) A ltac:(rewrite P; discriminate) NZ) as [_ KV2].
  rewrite P, LP, CV in KV2. apply KV2. lia.
Qed.

(** ** C58: bivariate_analysis *)
(** REFUTED: without the leaders of both transforms nothing is returned *)
Theorem C58_no_leaders_refuted :
  forall W1 W2 j1 wd n q1 q2,
  wt_leaders W1 = None \/ wt_leaders W2 = None ->
  (forall r, bivariate_analysis W1 W2 j1 wd n q1 q2 <> Ok r) /\
  (forall d, bi_formalism (wt_coefs W1) (wt_coefs W2) j1 (Z.min (j2_eff W1) (j2_eff W2)) wd n q1 q2 = Ok d ->
     bivariate_analysis W1 W2 j1 wd n q1 q2 = Err UnboundLocalError).
Proof.
  intros W1 W2 j1 wd n q1 q2 H. unfold bivariate_analysis.
  destruct (bi_formalism _ _ _ _ _ _ _ _) as [d|e]; cbn [bind].
  - assert (E : match wt_leaders W1, wt_leaders W2 with
      | Some l1, Some l2 => lwt <- bi_formalism l1 l2 j1 (Z.min (j2_eff W1) (j2_eff W2)) wd n q1 q2 ;; Ok (d, Some lwt)
      | _, _ => Err UnboundLocalError end = Err UnboundLocalError).
    { destruct H as [-> | ->]; [reflexivity|]. destruct (wt_leaders W1); reflexivity. }
    rewrite E. split; [discriminate|reflexivity].
  - split; discriminate.
Qed.
Print Assumptions C58_no_leaders_refuted.

(** the results for the coefficients and for the leaders of two transforms *)
Definition bi_results (a b : mrq) (q1 q2 : list R) (n : nat) (j1 j2 : Z) (wd : bool) (r : bimf) : Prop :=
  BiCumulants a b n j1 j2 wd = Ok (bm_cumulants r) /\
  BiStructureFunction a b j1 j2 (Some (QArr q1)) (Some (QArr q2)) wd = Ok (bm_structure r).
Theorem C58_with_leaders :
  forall W1 W2 l1 l2 j1 wd n q1 q2 d o,
  wt_leaders W1 = Some l1 -> wt_leaders W2 = Some l2 ->
  (bivariate_analysis W1 W2 j1 wd n (Some (QArr q1)) (Some (QArr q2)) = Ok (d, o) <->
   bi_results (wt_coefs W1) (wt_coefs W2) q1 q2 n j1 (Z.min (j2_eff W1) (j2_eff W2)) wd d /\
   exists l, o = Some l /\ bi_results l1 l2 q1 q2 n j1 (Z.min (j2_eff W1) (j2_eff W2)) wd l).
Proof.
  intros W1 W2 l1 l2 j1 wd n q1 q2 d o E1 E2. unfold bivariate_analysis. rewrite E1, E2.
  set (j2 := Z.min (j2_eff W1) (j2_eff W2)).
  assert (B : forall a b r, bi_formalism a b j1 j2 wd n (Some (QArr q1)) (Some (QArr q2)) = Ok r <-> bi_results a b q1 q2 n j1 j2 wd r).
  { intros a b [s c]. unfold bi_formalism, bi_results. cbn [bm_cumulants bm_structure].
    destruct (BiCumulants _ _ _ _ _ _) as [c'|]; cbn [bind]; [|split; [discriminate|intros [? _]; discriminate]].
    destruct (BiStructureFunction _ _ _ _ _ _ _) as [s'|]; cbn [bind]; [|split; [discriminate|intros [_ ?]; discriminate]].
    split; [intros H; injection H as -> ->; auto|]. intros [H1 H2]. injection H1 as ->. injection H2 as ->. reflexivity. }
  rewrite <- !B.
  destruct (bi_formalism (wt_coefs W1) (wt_coefs W2) _ _ _ _ _ _) as [d'|]; cbn [bind]; [|split; [discriminate|intros [? _]; discriminate]].
  split.
  - destruct (bi_formalism l1 l2 _ _ _ _ _ _) as [l'|] eqn:EL; cbn [bind]; [|discriminate]. intros H. injection H as -> <-.
    split; [reflexivity|]. exists l'. split; [reflexivity|]. now apply B.
  - intros [H (l & -> & HL)]. injection H as ->. apply B in HL. rewrite HL. reflexivity.
Qed.
Print Assumptions C58_with_leaders.
