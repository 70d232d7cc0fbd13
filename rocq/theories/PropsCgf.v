(** * Property C102: the log-cumulants are the derivatives of the scaling function at 0, and h(q) its derivative at q *)
From Coq Require Import Reals List ZArith Bool Lra Lia.
From Verif Require Import XReal PyBase ModelUtils ModelMRQ ModelStructure ModelCumulants ModelSpectrum ModelEstimation Spec SpecMRQ
  LXReal LReg LUtils LBase LEst LMoment LCum LEntropy LCgf PropsEstimators PropsCumulants PropsSpectrum PropsMono.
Import ListNotations.
Open Scope R_scope.

Lemma qpow_exp q a : a <> 0 -> qpow q a = exp (q * ln (Rabs a)).
Proof.
  intros N. unfold qpow, abs_pow. destruct (Req_EM_T q 0) as [->|]; [now rewrite Rmult_0_l, exp_0|].
  destruct (Req_EM_T a 0); [contradiction|reflexivity].
Qed.
Lemma moment_em q l : Forall (fun a => a <> 0) l -> abs_moment q l = em (map (fun a => ln (Rabs a)) l) 0 q.
Proof.
  intros H. unfold abs_moment, em. rewrite map_map. apply mean_ext. intros a Ha. rewrite Forall_forall in H.
  rewrite qpow_exp by auto. simpl. ring.
Qed.
Lemma V_em q l : l <> [] -> Forall (fun a => a <> 0) l -> Vr q l = cgf (map (fun a => ln (Rabs a)) l) 1 q / ln 2.
Proof.
  intros Hne H. unfold Vr. rewrite nz_id by trivial. cbn [cgf]. rewrite kappa_1.
  set (x := map (fun a => ln (Rabs a)) l). assert (Hx : x <> []) by (unfold x; destruct l; [contradiction|discriminate]).
  assert (P := em_pos x q Hx). assert (L2 := ln2_pos).
  assert (Q : qsum q l = INR (length l) * em x 0 q).
  { unfold qsum. assert (E := moment_em q l H). fold x in E. rewrite <- E. unfold abs_moment, mean. rewrite map_length. field.
    apply not_0_INR. destruct l; [contradiction|discriminate]. }
  assert (Hn : 0 < INR (length l)) by (apply lt_0_INR; destruct l; [contradiction|simpl; lia]).
  rewrite (Rsum_map_ext _ (fun a => / (INR (length l) * em x 0 q * ln 2) * (ln (Rabs a) ^ 1 * exp (q * ln (Rabs a))))).
  - rewrite (Rsum_map_scal (/ (INR (length l) * em x 0 q * ln 2)) (fun a => ln (Rabs a) ^ 1 * exp (q * ln (Rabs a)))).
    replace (em x 1 q) with (Rsum (map (fun a => ln (Rabs a) ^ 1 * exp (q * ln (Rabs a))) l) / INR (length l)).
    + field. repeat split; lra.
    + unfold em, mean, x. now rewrite !map_map, !map_length.
  - intros a Ha. rewrite Forall_forall in H. unfold prob. rewrite Q, qpow_exp by auto. unfold log2R. field. repeat split; lra.
Qed.

(** the regression of finite values as a fixed linear combination *)
Lemma fit_weights wd m j1 j2 r : (j1 < j2)%Z -> (forall j, (j1 <= j <= j2)%Z -> (0 < count m j r)%nat) ->
  exists u : Z -> R, forall y (v : Z -> R), (forall j, (j1 <= j <= j2)%Z -> y j = Fin (v j)) ->
    fslope wd m j1 j2 r y = Fin (Rsum (map (fun j => u j * v j) (zrange j1 (j2 + 1)))).
Proof.
  intros Hj Hc. destruct (fit_linear wd m j1 j2 r ltac:(lia)) as [N|(u & v0 & _ & _ & _ & _ & L)].
  - exfalso. destruct (fit_exact wd m j1 j2 r 0 0 Hj Hc) as [F _]. destruct (N (fun j => Fin (0 * IZR j + 0))) as [N' _]. congruence.
  - exists u. intros y v Hy. rewrite (proj1 (L y)).
    rewrite (map_ext_in (fun j => xmul (Fin (u j)) (y j)) (fun j => Fin (u j * v j))).
    + rewrite <- (map_map (fun j => u j * v j) Fin). change (map Fin ?l) with (fin l). apply xsum_fin.
    + intros j Hin. apply zrange_In in Hin. rewrite Hy by lia. reflexivity.
Qed.

(** the scaling function q -> zeta(q) of a realisation is the restriction to the requested orders of one smooth function Z;
    the log-cumulant of order k is its k-th derivative at 0; the exponent h(q) is its first derivative at q and D(q) its
    Legendre transform *)
Theorem C102_derivatives :
  forall m g nrep j1 j2 wd,
  regular m g nrep -> (1 <= j1)%Z -> (j1 < j2)%Z -> (j2 <= Z.of_nat g)%Z ->
  forall r, (r < nrep)%nat ->
  (forall j, (j1 <= j <= j2)%Z -> usable m j r /\ no_zero m j r /\ (0 < count m j r)%nat) ->
  exists Z : nat -> R -> R,
    (forall k q, derivable_pt_lim (Z k) q (Z (S k) q)) /\
    (forall qs s i, StructureFunction m (QArr qs) j1 j2 wd = Ok s -> (i < length qs)%nat ->
       at2 (sf_zeta s) i r = Fin (Z 0%nat (nth i qs 0))) /\
    (forall n c k, Cumulants m n j1 j2 wd = Ok c -> (1 <= k <= n)%nat ->
       at2 (cu_log_cumulants c) (k - 1) r = Fin (Z k 0)) /\
    (forall qs s i, MultifractalSpectrum m j1 j2 wd (QArr qs) = Ok s -> (i < length qs)%nat ->
       at2 (ms_hq s) i r = Fin (Z 1%nat (nth i qs 0))) /\
    (forall qs sf s i, counted m -> StructureFunction m (QArr qs) j1 j2 wd = Ok sf -> MultifractalSpectrum m j1 j2 wd (QArr qs) = Ok s ->
       (i < length qs)%nat -> at2 (ms_Dq s) i r = Fin (1 + nth i qs 0 * Z 1%nat (nth i qs 0) - Z 0%nat (nth i qs 0))).
Proof.
  intros m g nrep j1 j2 wd HR H1 H2 H3 r Hr HU. assert (H2' : (j1 <= j2)%Z) by lia. assert (L2 := ln2_pos).
  destruct (fit_weights wd m j1 j2 r H2) as [u Hu]; [intros; now apply HU|].
  set (W := fun (k : nat) q => Rsum (map (fun j => u j / ln 2 * cgf (logs m j r) k q) (zrange j1 (j2 + 1)))).
  assert (HS : forall qs s i, StructureFunction m (QArr qs) j1 j2 wd = Ok s -> (i < length qs)%nat ->
       at2 (sf_zeta s) i r = Fin (W 0%nat (nth i qs 0))).
  2: assert (HM : forall qs s i, MultifractalSpectrum m j1 j2 wd (QArr qs) = Ok s -> (i < length qs)%nat ->
       at2 (ms_hq s) i r = Fin (W 1%nat (nth i qs 0))).
  3: exists W; split; [|split; [exact HS|split; [|split; [exact HM|]]]].
  - intros qs s i E Hi. destruct (SF_rows m g nrep qs j1 j2 wd s HR H1 H2' H3 E i r Hi Hr) as (_ & -> & _).
    rewrite (Hu _ (fun j => cgf (logs m j r) 0 (nth i qs 0) / ln 2)).
    + f_equal. apply Rsum_map_ext. intros j _. field. lra.
    + intros j Hj. destruct (HU j Hj) as ([U1 U2] & Z & _). unfold no_zero in Z.
      assert (E0 := moment_em (nth i qs 0) _ Z). fold (logs m j r) in E0.
      rewrite logS_eq; [|split; trivial|now right|rewrite E0; apply em_pos, logs_nonempty; split; trivial].
      rewrite E0. reflexivity.
  - intros qs s i E Hi. assert (Hi' : (i < List.length (q_items (QArr qs)))%nat) by (cbn; now rewrite map_length).
    destruct (MFS_rows m g nrep _ j1 j2 wd s HR H1 H2' H3 E i r Hi' Hr) as (_ & _ & ->).
    cbn [q_items]. rewrite nth_PyFloat by trivial. set (q := nth i qs 0).
    rewrite (Hu _ (fun j => cgf (logs m j r) 1 q / ln 2)).
    + f_equal. apply Rsum_map_ext. intros j _. field. lra.
    + intros j Hj. destruct (HU j Hj) as ([U1 U2] & Z & _). unfold no_zero in Z. rewrite Vval_eq.
      * cbn [num_val]. rewrite V_em by trivial. reflexivity.
      * split; [split; trivial|]. split; [now right|]. destruct (numbers m j r) as [|a l]; [contradiction|]. inversion Z. now left.
  - intros k q. apply (deriv_sum (fun j q => u j / ln 2 * cgf (logs m j r) k q) (fun j q => u j / ln 2 * cgf (logs m j r) (S k) q)).
    intros j Hj. apply zrange_In in Hj. apply (derivable_pt_lim_scal (cgf (logs m j r) k)). apply cgf_deriv.
    apply logs_nonempty, HU. lia.
  - intros n c k E Hk. destruct (CUM_rows m g nrep n j1 j2 wd c HR H1 H2' H3 E k r Hk Hr) as (_ & _ & _ & ->).
    rewrite (Hu _ (fun j => kappa (mu (logs m j r)) k)) by (intros j Hj; destruct (HU j Hj) as (U & Z & _); now apply Cval_eq).
    cbn [xmul]. f_equal. rewrite Rmult_comm, <- Rsum_map_scal. apply Rsum_map_ext. intros j Hj. apply zrange_In in Hj.
    rewrite cgf_at_0 by (try lia; apply logs_nonempty, HU; lia). unfold log2_e, log2R. rewrite ln_exp. field. lra.
  - intros qs sf s i HC Ef Es Hi.
    destruct (C39_legendre m g nrep qs j1 j2 wd sf s HR HC H1 H2' H3 Ef Es i r Hi Hr) as [_ L].
    { intros j Hj. destruct (HU j Hj) as ([U1 U2] & Z & _). unfold no_zero in Z. split; [split; trivial|]. split; [now right|].
      destruct (numbers m j r) as [|a l]; [contradiction|]. inversion Z. now left. }
    rewrite L, (HS qs sf i Ef Hi), (HM qs s i Es Hi). cbn [xmul xadd xsub xopp]. reflexivity.
Qed.
(** the three scales, two realisations of [demo] (with missing values and a random second realisation) meet the hypotheses *)
Example C102_case wd : exists sf cu sp (Z : nat -> R -> R),
  StructureFunction demo (QArr [-1; 0; 2]) 1 3 wd = Ok sf /\ Cumulants demo 3 1 3 wd = Ok cu /\
  MultifractalSpectrum demo 1 3 wd (QArr [-1; 0; 2]) = Ok sp /\
  (forall k q, derivable_pt_lim (Z k) q (Z (S k) q)) /\
  at2 (sf_zeta sf) 2 1 = Fin (Z 0%nat 2) /\ at2 (cu_log_cumulants cu) 2 1 = Fin (Z 3%nat 0) /\
  at2 (ms_hq sp) 0 1 = Fin (Z 1%nat (-1)).
Proof.
  destruct (demo_estimators wd) as (sf & cu & sp & hm & Ef & Ec & Es & _).
  destruct (C102_derivatives demo 3 2 1 3 wd demo_regular ltac:(lia) ltac:(lia) ltac:(lia) 1%nat ltac:(lia)
              ltac:(intros; apply demo_usable; trivial; lia)) as (Z & A & B & C & D & _).
  exists sf, cu, sp, Z. split; [exact Ef|]. split; [exact Ec|]. split; [exact Es|]. split; [exact A|].
  split; [exact (B _ sf 2%nat Ef ltac:(simpl; lia))|]. split; [exact (C 3%nat cu 3%nat Ec ltac:(lia))|exact (D _ sp 0%nat Es ltac:(simpl; lia))].
Qed.
Print Assumptions C102_derivatives.
