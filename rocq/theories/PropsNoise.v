(** * C105: how noise in the samples reaches coefficients, leaders and estimates *)
From Coq Require Import Reals List ZArith Bool Lra Lia.
From Verif Require Import XReal PyBase ModelUtils ModelMRQ ModelStructure ModelCumulants ModelSpectrum ModelEstimation ModelWavelet ModelRounded
  Spec SpecMRQ LXReal LReg LUtils LBase LFilter LTransform LPattern LWave LWaveEst LEst PropsEstimators PropsWavelet PropsLeaders PropsMono PropsInvariance PropsFinite
  PropsStable PropsRounded PropsStableFloat PropsCumulants LCum.
Import ListNotations.
Open Scope R_scope.
Local Notation length := List.length.

(** ** Specification *)
(** the recordings [s] and [s'] have the same shape and missing samples, and every sample of s' is within e of that of s *)
Definition sample_off (e : R) (x y : xr) : Prop := (x = NaN /\ y = NaN) \/ exists a b, x = Fin a /\ y = Fin b /\ Rabs (b - a) <= e.
Definition noisy (e : R) (s s' : arr) : Prop := Forall2 (Forall2 (sample_off e)) s s'.
(** the gain of scale j: 1-norms of the filters met on the way down, and the factors of [normalization] and [gamint] *)
Definition gain (w : wavelet) (norm gam : R) (j : nat) : R :=
  Rpower 2 (INR j * (1 / 2 - 1 / norm)) * Rpower 2 (gam * INR j) * (norm1 (dec_hi w) * norm1 (dec_lo w) ^ (j - 1)).
(** leaders gather scales 1..j *)
Fixpoint lead_gain (w : wavelet) (norm gam : R) (j : nat) : R :=
  match j with O => 0 | S j' => Rmax (lead_gain w norm gam j') (gain w norm gam j) end.

(** ** Exact filtering of two close signals *)
Lemma x_conv e B a a' h : 0 <= e -> 0 <= B -> nearc e B a a' -> nearc (norm1 h * e) (norm1 h * B) (conv_same (Fin 0) a h) (conv_same (Fin 0) a' h).
Proof.
  intros He HB H. unfold conv_same. rewrite <- (nearc_length _ _ _ _ H). apply Forall2_maps. intros i _.
  set (pos := fun k : nat => (Z.of_nat i + (Z.of_nat (length h) - 1) / 2 - Z.of_nat k)%Z).
  set (x := map (fun k => get_pad (Fin 0) a (pos k)) (seq 0 (length h))). set (y := map (fun k => get_pad (Fin 0) a' (pos k)) (seq 0 (length h))).
  assert (Nxy : nearc e B x y) by (apply Forall2_maps; intros; now apply near_get_pad).
  assert (Lx : length x = length h) by (unfold x; now rewrite map_length, seq_length).
  assert (Ly : length y = length h) by (unfold y; now rewrite map_length, seq_length).
  assert (Ex : forall b, map (fun k => xmul (Fin (nth k h 0)) (get_pad (Fin 0) b (pos k))) (seq 0 (length h))
     = map2 (fun a b => xmul (Fin a) b) h (map (fun k => get_pad (Fin 0) b (pos k)) (seq 0 (length h)))).
  { intros b. transitivity (map2 (fun a b => xmul (Fin a) b) (map (fun k => nth k h 0) (seq 0 (length h))) (map (fun k => get_pad (Fin 0) b (pos k)) (seq 0 (length h))));
      [now rewrite map2_maps|now rewrite map_nth_seq]. }
  change (near (norm1 h * e) (norm1 h * B) (xsum (map (fun k => xmul (Fin (nth k h 0)) (get_pad (Fin 0) a (pos k))) (seq 0 (length h))))
     (xsum (map (fun k => xmul (Fin (nth k h 0)) (get_pad (Fin 0) a' (pos k))) (seq 0 (length h))))).
  rewrite !Ex. fold x y. clearbody x y. clear - Nxy He Lx Ly.
  assert (S : forall (hh : list R) (z : list xr), length z = length hh ->
     (operands (combine hh z) = None /\ (xsum (map2 (fun a b => xmul (Fin a) b) hh z) = NaN \/ Exists (fun t => t = PInf \/ t = NInf) z)) \/
     exists o, operands (combine hh z) = Some o /\ xsum (map2 (fun a b => xmul (Fin a) b) hh z) = Fin (dotR o)).
  { induction hh as [|p hh IH]; intros [|t z] L; try discriminate; [right; exists []; split; reflexivity|]. injection L as L. rewrite map2_cons. cbn [combine operands].
    change (xsum (xmul (Fin p) t :: map2 (fun a1 b0 => xmul (Fin a1) b0) hh z)) with (xadd (xmul (Fin p) t) (xsum (map2 (fun a1 b0 => xmul (Fin a1) b0) hh z))).
    destruct t as [t| | |].
    - destruct (IH z L) as [[-> [->|X]]|(o & -> & ->)]; [left; split; [reflexivity|left; reflexivity]|left; split; [reflexivity|right; now right]|].
      right. exists ((p, t) :: o). split; reflexivity.
    - left. split; [reflexivity|right; left; auto].
    - left. split; [reflexivity|right; left; auto].
    - left. split; [reflexivity|left; reflexivity]. }
  destruct (operands_near e B h x y Lx Nxy) as [(N1 & N2 & ->)|(xs & ys & E1 & E2 & -> & L1 & L2 & F)].
  - destruct (S h y Ly) as [[_ [->|X]]|(o & Eo & _)]; [now left| |congruence].
    exfalso. apply Exists_exists in X as (t & Ht & Q). apply nearc_no_inf in Nxy as [_ K]. unfold no_inf in K. rewrite Forall_forall in K. destruct (K t Ht) as [->|[r ->]]; destruct Q; discriminate.
  - destruct (S h y Ly) as [[N _]|(o & Eo & ->)]; [congruence|]. rewrite E2 in Eo. injection Eo as <-.
    destruct (combine_dots e B h xs ys He L1 F) as (I1 & _ & I3). right. exists (dotR (combine h xs)), (dotR (combine h ys)). auto.
Qed.
Lemma x_filtering_arr e B a a' hi lo : 0 <= e -> 0 <= B -> neara e B a a' ->
  neara (norm1 hi * e) (norm1 hi * B) (fst (filtering_arr a hi lo)) (fst (filtering_arr a' hi lo)) /\
  neara (norm1 lo * e) (norm1 lo * B) (snd (filtering_arr a hi lo)) (snd (filtering_arr a' hi lo)).
Proof.
  intros He HB H. unfold filtering_arr. cbn [fst snd].
  split; (apply (Forall2_map2 (nearc e B)); [exact H|]); intros x y K; unfold filtering, filtering_pad; cbn [fst snd]; rewrite <- (nearc_length _ _ _ _ K);
    apply near_subsample, near_border, x_conv; trivial.
Qed.
Lemma x_rescale norm gam s e B c c' : nearc e B c c' ->
  let f := Rpower 2 (IZR s * (1 / 2 - 1 / norm)) * Rpower 2 (gam * IZR s) in nearc (f * e) (f * B) (rescale norm gam s c) (rescale norm gam s c').
Proof.
  intros H f. unfold rescale. rewrite !map_map. apply (Forall2_map2 (near e B)); trivial. intros x y [[-> ->]|(a & b & -> & -> & H1 & H2)]; [now left|].
  right. cbn [xmul]. eexists _, _. split; [reflexivity|]. split; [reflexivity|]. unfold f.
  set (f1 := Rpower 2 (IZR s * _)). set (f2 := Rpower 2 (gam * _)). assert (P1 : 0 < f1) by apply Rpower_pos. assert (P2 : 0 < f2) by apply Rpower_pos.
  assert (P : 0 < f1 * f2) by now apply Rmult_lt_0_compat. split.
  - replace (b * f1 * f2 - a * f1 * f2) with (f1 * f2 * (b - a)) by ring. rewrite Rabs_mult, (Rabs_pos_eq (f1 * f2)) by lra. apply Rmult_le_compat_l; lra.
  - rewrite Rmult_assoc, Rabs_mult, (Rabs_pos_eq (f1 * f2)) by lra. rewrite Rmult_comm. apply Rmult_le_compat_l; lra.
Qed.

(** ** The loops *)
Section Run.
Variables (hi lo : list R) (norm gam e X : R).
Hypothesis He : 0 <= e.
Hypothesis HX : 0 <= X.
Let ae (j : nat) := norm1 lo ^ j * e.
Let ab (j : nat) := norm1 lo ^ j * X.
Let ce (j : nat) := Rpower 2 (INR j * (1 / 2 - 1 / norm)) * Rpower 2 (gam * INR j) * (norm1 hi * norm1 lo ^ (j - 1)) * e.
Let le := fix le (j : nat) : R := match j with O => 0 | S j' => Rmax (le j') (ce j) end.
Lemma x_ae j : 0 <= ae j.
Proof using He. apply Rmult_le_pos; trivial. apply pow_le, norm1_nonneg. Qed.
Lemma x_ab j : 0 <= ab j.
Proof using HX. apply Rmult_le_pos; trivial. apply pow_le, norm1_nonneg. Qed.
Lemma x_scale j a a' : (1 <= j)%nat -> neara (ae (j - 1)) (ab (j - 1)) a a' ->
  let s := Z.of_nat j in let da := filtering_arr a hi lo in let da' := filtering_arr a' hi lo in
  (exists B, neara (ce j) B (map (rescale norm gam s) (fst da)) (map (rescale norm gam s) (fst da'))) /\ neara (ae j) (ab j) (snd da) (snd da').
Proof using He HX.
  intros Hj H s da da'. destruct (x_filtering_arr _ _ a a' hi lo (x_ae (j - 1)) (x_ab (j - 1)) H) as [N1 N2]. split.
  - eexists. apply (Forall2_map2 (nearc (norm1 hi * ae (j - 1)) (norm1 hi * ab (j - 1)))); [exact N1|]. intros c c' K.
    eapply nearc_weaken; [|apply Rle_refl|exact (x_rescale norm gam s _ _ c c' K)]. apply Req_le. unfold ce, ae, s. rewrite <- INR_IZR_INZ. ring.
  - replace (ae j) with (norm1 lo * ae (j - 1)); [replace (ab j) with (norm1 lo * ab (j - 1)); [exact N2|]|];
      unfold ae, ab; replace j with (S (j - 1)) at 2 by lia; cbn [pow]; ring.
Qed.
Lemma x_coef_sim n j ml a a' m m' : (1 <= j)%nat -> neara (ae (j - 1)) (ab (j - 1)) a a' -> mrel ce m m' ->
  sim (fun p q => mrel ce (fst p) (fst q) /\ snd p = snd q) (coef_loop hi lo norm gam n (Z.of_nat j) ml a m) (coef_loop hi lo norm gam n (Z.of_nat j) ml a' m').
Proof using He HX.
  revert j a a' m m'. induction n as [|n IH]; intros j a a' m m' Hj Ha Hm; [cbn; auto|]. cbn [coef_loop].
  destruct (Req_EM_T norm 0); [reflexivity|]. destruct (x_scale j a a' Hj Ha) as ((B & N1) & N2). cbv zeta in N1, N2.
  rewrite <- (near_min_count _ _ _ _ N1). destruct (min_count _) as [c|err]; [|reflexivity]. cbn [bind].
  destruct (Nat.ltb c 3); [cbn; auto|]. replace (Z.of_nat j + 1)%Z with (Z.of_nat (S j)) by lia. apply IH; [lia| |].
  - replace (S j - 1)%nat with j by lia. exact N2.
  - eapply mrel_add; [exact Hm|]. rewrite Nat2Z.id. exact N1.
Qed.
Lemma x_le_mono j : le (j - 1) <= le j.
Proof using. destruct j as [|j]; [cbn; lra|]. rewrite Nat.sub_succ, Nat.sub_0_r. apply Rmax_l. Qed.
Lemma x_le_ce j : (1 <= j)%nat -> ce j <= le j.
Proof using. intros Hj. destruct j as [|j]; [inversion Hj|]. apply Rmax_r. Qed.
Lemma x_leader_sim n j ml a a' sv sv' mc mc' q q' : (1 <= j)%nat -> neara (ae (j - 1)) (ab (j - 1)) a a' ->
  (exists B, nearoa (le (j - 1)) B sv sv') -> mrel ce mc mc' -> mrel le q q' ->
  sim (fun p q => mrel ce (fst (fst p)) (fst (fst q)) /\ mrel le (snd (fst p)) (snd (fst q)) /\ snd p = snd q)
    (leader_loop hi lo norm gam WaveletLeader PInfty n (Z.of_nat j) ml a sv mc q) (leader_loop hi lo norm gam WaveletLeader PInfty n (Z.of_nat j) ml a' sv' mc' q').
Proof using He HX.
  revert j a a' sv sv' mc mc' q q'. induction n as [|n IH]; intros j a a' sv sv' mc mc' q q' Hj Ha [Bs Hs] Hm Hq; [cbn; auto|]. cbn [leader_loop].
  destruct (Req_EM_T norm 0); [reflexivity|]. destruct (x_scale j a a' Hj Ha) as ((B & N1) & N2). cbv zeta in N1, N2.
  rewrite <- (near_min_count _ _ _ _ N1). destruct (min_count _) as [c|err]; [|reflexivity]. cbn [bind].
  destruct (Nat.ltb c 3); [cbn; auto|].
  set (D := map (rescale norm gam (Z.of_nat j)) (fst (filtering_arr a hi lo))) in *. set (D' := map (rescale norm gam (Z.of_nat j)) (fst (filtering_arr a' hi lo))) in *.
  assert (W1 : neara (le j) (Rmax B Bs) D D') by (eapply neara_weaken; [|apply Rmax_l|exact N1]; now apply x_le_ce).
  assert (W2 : nearoa (le j) (Rmax B Bs) sv sv') by (eapply nearoa_weaken; [apply x_le_mono|apply Rmax_r|exact Hs]).
  assert (HL := near_leaders_arr _ _ _ _ _ _ (Z.of_nat j) W1 W2).
  eapply sim_bind; [exact HL|]. intros [l s] [l' s'] [K1 K2]. cbn [fst snd] in K1, K2.
  rewrite <- (near_min_count _ _ _ _ K1). destruct (min_count _) as [c'|err]; [|reflexivity]. cbn [bind].
  assert (MC : mrel ce (add_values mc D (Z.of_nat j)) (add_values mc' D' (Z.of_nat j))) by (eapply mrel_add; [exact Hm|]; rewrite Nat2Z.id; exact N1).
  destruct (Nat.ltb c' 3); [cbn; auto|].
  replace (Z.of_nat j + 1)%Z with (Z.of_nat (S j)) by lia. apply IH; [lia| | |exact MC|].
  - replace (S j - 1)%nat with j by lia. exact N2.
  - exists (Rmax B Bs). replace (S j - 1)%nat with j by lia. exact K2.
  - eapply mrel_add; [exact Hq|]. rewrite Nat2Z.id. exact K1.
Qed.
End Run.

Lemma noisy_near e s s' : 0 <= e -> noisy e s s' -> exists X, 0 <= X /\ neara e X s s'.
Proof.
  intros He H. induction H as [|c c' s s' Hc F (X & X0 & IH)]; [exists 0; split; [lra|constructor]|].
  assert (K : exists Y, 0 <= Y /\ nearc e Y c c').
  { induction Hc as [|x y c c' Hx _ (Y & Y0 & IHc)]; [exists 0; split; [lra|constructor]|].
    destruct Hx as [[-> ->]|(a & b & -> & -> & Hab)].
    - exists Y. split; trivial. constructor; [now left|exact IHc].
    - exists (Rmax Y (Rabs a)). split; [eapply Rle_trans; [exact Y0|apply Rmax_l]|]. constructor.
      + right. exists a, b. repeat split; trivial. apply Rmax_r.
      + eapply nearc_weaken; [apply Rle_refl|apply Rmax_l|exact IHc]. }
  destruct K as (Y & Y0 & K). exists (Rmax X Y). split; [eapply Rle_trans; [exact X0|apply Rmax_l]|]. constructor.
  - eapply nearc_weaken; [apply Rle_refl|apply Rmax_r|exact K].
  - eapply neara_weaken; [apply Rle_refl|apply Rmax_l|exact IH].
Qed.
Lemma noisy_len e s s' : noisy e s s' -> match s with c :: _ => length c | [] => 0%nat end = match s' with c :: _ => length c | [] => 0%nat end.
Proof. intros H. destruct H as [|c c' s s' Hc _]; [reflexivity|]. exact (Forall2_len _ _ _ Hc). Qed.
Lemma mrel_ext (f g : nat -> R) m m' : (forall j, f j = g j) -> mrel f m m' -> mrel g m m'.
Proof.
  intros E (H1 & H2 & H3 & H4). repeat split; trivial. eapply Forall2_impl; [|exact H4]. intros p q [Hp (B & N)]. split; trivial. exists B. now rewrite <- E.
Qed.

(** ** C105 *)
Definition noise_close (e : R) (w : wavelet) (norm gam : R) (t t' : wtransform) : Prop :=
  j2_eff t' = j2_eff t /\
  computed_within (fun j => gain w norm gam j * e) (wt_coefs t) (wt_coefs t') /\
  match wt_leaders t, wt_leaders t' with
  | Some l, Some l' => computed_within (fun j => lead_gain w norm gam j * e) l l'
  | None, None => True
  | _, _ => False
  end.
Theorem C105_transform :
  forall e w s s' (leaders : bool) j1 j2 gam norm weighted, 0 <= e -> noisy e s s' ->
  let p := if leaders then PInfty else PNone in
  match wavelet_analysis s p w j1 j2 gam norm weighted with
  | Ok (t, ws) => exists t', wavelet_analysis s' p w j1 j2 gam norm weighted = Ok (t', ws) /\ noise_close e w norm gam t t'
  | Err err => wavelet_analysis s' p w j1 j2 gam norm weighted = Err err
  end.
Proof.
  intros e w s s' leaders j1 j2 gam norm weighted He HN. cbv zeta. destruct (noisy_near e s s' He HN) as (X & X0 & N0). assert (Len := noisy_len e s s' HN).
  unfold wavelet_analysis. rewrite <- Len. set (hi := map (fun t => -1 * t) (dec_hi w)). set (lo := dec_lo w).
  destruct (decomposition_level_warn _ _ _) as [[ml ws]|err]; [|reflexivity]. cbn [bind].
  assert (NA : neara (norm1 lo ^ (1 - 1)%nat * e) (norm1 lo ^ (1 - 1)%nat * X) s s') by (cbn; rewrite !Rmult_1_l; exact N0).
  assert (M0 : forall (err : nat -> R) f, mrel err (new_mrq f gam) (new_mrq f gam)) by (intros; repeat split; constructor).
  assert (HH : norm1 hi = norm1 (dec_hi w)) by apply norm1_neg.
  assert (C1 : forall m m', mrel (fun j => Rpower 2 (INR j * (1 / 2 - 1 / norm)) * Rpower 2 (gam * INR j) * (norm1 hi * norm1 lo ^ (j - 1)) * e) m m' ->
    computed_within (fun j => gain w norm gam j * e) m m').
  { intros m m' K. apply mrel_within. eapply mrel_ext; [|exact K]. intros j. unfold gain. rewrite HH. reflexivity. }
  destruct leaders.
  - assert (K := x_leader_sim hi lo norm gam e X He X0 (Z.to_nat ml) 1 ml s s' None None _ _ _ _ (le_n 1) NA (ex_intro _ 0 I) (M0 _ WaveletCoef) (M0 _ WaveletLeader)).
    cbn [check_formalism]. change (Z.of_nat 1) with 1%Z in K.
    destruct (leader_loop _ _ _ _ _ _ _ _ _ s _ _ _) as [[[mc q] m2]|er], (leader_loop _ _ _ _ _ _ _ _ _ s' _ _ _) as [[[mc' q'] m2']|er']; cbn [sim] in K; try contradiction; [|subst; reflexivity].
    cbn [bind fst snd] in *. destruct K as (K1 & K2 & ->). eexists. split; [reflexivity|]. unfold noise_close. cbn [j2_eff wt_coefs wt_leaders].
    split; [reflexivity|]. split; [now apply C1|]. apply mrel_within. eapply mrel_ext; [|exact K2]. intros j.
    induction j as [|j IH]; [cbn; ring|]. cbn [lead_gain]. rewrite (Rmult_comm (Rmax _ _)), <- RmaxRmult by trivial. rewrite !(Rmult_comm e), <- IH. unfold gain. rewrite <- HH. reflexivity.
  - assert (K := x_coef_sim hi lo norm gam e X He X0 (Z.to_nat ml) 1 ml s s' _ _ (le_n 1) NA (M0 _ WaveletCoef)).
    change (Z.of_nat 1) with 1%Z in K. unfold wavelet_coef_analysis.
    destruct (coef_loop _ _ _ _ _ _ _ s _) as [[mc m2]|er], (coef_loop _ _ _ _ _ _ _ s' _) as [[mc' m2']|er']; cbn [sim] in K; try contradiction; [|subst; reflexivity].
    cbn [bind fst snd] in *. destruct K as (K1 & ->). eexists. split; [reflexivity|]. unfold noise_close. cbn [j2_eff wt_coefs wt_leaders].
    split; [reflexivity|]. split; [now apply C1|exact I].
Qed.
Print Assumptions C105_transform.

(** the estimates: where the noise reaching a leader is at most the fraction 1 - 2^-d of it, the estimates move by at most d / spread *)
Theorem C105_estimates :
  forall e w s s' j1w j2w gam norm wt0 t ws l, 0 <= e -> noisy e s s' -> good_wavelet w -> norm <> 0 ->
  wavelet_analysis s PInfty w j1w j2w gam norm wt0 = Ok (t, ws) -> wt_leaders t = Some l ->
  exists t' l', wavelet_analysis s' PInfty w j1w j2w gam norm wt0 = Ok (t', ws) /\ wt_leaders t' = Some l' /\
  forall d j1 j2 wd r, 0 <= d -> (1 <= j1 < j2)%Z -> In j2 (SpecMRQ.scales l) -> (r < length s)%nat ->
  (forall j x, (j1 <= j <= j2)%Z -> In x (numbers l j r) -> lead_gain w norm gam (Z.to_nat j) * e <= (1 - Rpower 2 (- d)) * Rabs x) ->
  let sd := spread wd l j1 j2 r in
  (forall warn warn' h h', estimate_hmin l j1 j2 wd warn = Ok h -> estimate_hmin l' j1 j2 wd warn' = Ok h' ->
     moves_at_most (d / sd) (nth r (hm_hmin h) NaN) (nth r (hm_hmin h') NaN)) /\
  (forall qs f f', StructureFunction l (QArr qs) j1 j2 wd = Ok f -> StructureFunction l' (QArr qs) j1 j2 wd = Ok f' ->
     (forall i, (i < length qs)%nat -> moves_at_most (Rabs (nth i qs 0) * d / sd) (at2 (sf_zeta f) i r) (at2 (sf_zeta f') i r)) /\
     moves_at_most (d / sd) (nth r (sf_H f) NaN) (nth r (sf_H f') NaN)) /\
  (forall n c c', Cumulants l n j1 j2 wd = Ok c -> Cumulants l' n j1 j2 wd = Ok c' ->
     ((1 <= n)%nat -> moves_at_most (d / sd) (at2 (cu_log_cumulants c) 0 r) (at2 (cu_log_cumulants c') 0 r)) /\
     ((2 <= n)%nat -> forall S, (forall j, (j1 <= j <= j2)%Z -> sqrt (central 2 (logs l j r)) <= S) ->
       moves_at_most (d * (2 * S + d * ln 2) / sd) (at2 (cu_log_cumulants c) 1 r) (at2 (cu_log_cumulants c') 1 r))).
Proof.
  intros e w s s' j1w j2w gam norm wt0 t ws l He HN Hw Hn H El.
  assert (K := C105_transform e w s s' true j1w j2w gam norm wt0 He HN). cbn iota zeta in K.
  rewrite H in K. destruct K as (t' & E' & J & _ & L). rewrite El in L. destruct (wt_leaders t') as [l'|] eqn:El'; [|contradiction].
  exists t', l'. split; [exact E'|]. split; [exact El'|]. intros d j1 j2 wd r Hd Hj Hs Hr HB. cbn zeta.
  assert (Q : forall a a', noisy e a a' -> Forall no_inf a).
  { intros a a' F. induction F as [|c c' a a' Hc F IH]; constructor; trivial. clear - Hc.
    induction Hc as [|x y c c' Hx F IH]; constructor; trivial. destruct Hx as [[-> _]|(u & _ & -> & _)]; [now left|right; eauto]. }
  assert (HA := Q _ _ HN).
  assert (HA' : Forall no_inf s').
  { clear - HN. induction HN as [|c c' a a' Hc F IH]; constructor; trivial. clear - Hc.
    induction Hc as [|x y c c' Hx F IH]; constructor; trivial. destruct Hx as [[_ ->]|(_ & u & _ & -> & _)]; [now left|right; eauto]. }
  set (g := gcount s PInfty w gam norm).
  assert (R : regular l g (length s) /\ counted l /\ (j2 <= Z.of_nat g)%Z /\ mq_gamint l = gam /\ forall j, no_inf (column l j r)).
  { apply wa_inv in H as (? & _ & -> & _); [|trivial|trivial|exact I]. cbn [the_wt wt_leaders] in El. apply Some_inj in El. subst l. fold g in Hs |- *.
    apply PropsWavelet.in_scales in Hs as (i & -> & Hi). split; [apply table_regular; [lia|intros; apply Ld_length]|].
    split; [apply table_counted; reflexivity|]. split; [lia|]. split; [reflexivity|]. intros j. apply no_inf_column. now apply leads_no_inf. }
  assert (G' : mq_gamint l' = gam).
  { apply wa_inv in E' as (? & _ & -> & _); [|trivial|trivial|exact I]. cbn [the_wt wt_leaders] in El'. apply Some_inj in El'. subst l'. reflexivity. }
  destruct R as (HR & HC & H3 & G & NI).
  assert (HR' := cw_regular _ l l' g _ L HR). assert (HC' := cw_counted _ l l' L HC).
  assert (HQ : close_quantities d l l' j1 j2 r) by (apply (cw_close _ l l' L); trivial; intros; apply NI).
  split; [|split].
  - intros warn warn' h h' Eh Eh'. apply (C94_hmin l l' g (length s) j1 j2 wd warn warn' d h h' r); trivial; lia.
  - intros qs f f' Es Es'. apply (C94_exponents l l' g (length s) qs j1 j2 wd d f f' r); trivial; try lia. congruence.
  - intros n c c' Ec Ec'. apply (C94_log_cumulants l l' g (length s) n j1 j2 wd d c c' r); trivial; lia.
Qed.
Print Assumptions C105_estimates.

(** at the finest scale the bound is the best possible one: whatever the recording and the coefficient, some noise of size e moves it by gain * e *)
Definition sgn (x : R) : R := if Rlt_dec x 0 then -1 else if Rlt_dec 0 x then 1 else 0.
Lemma sgn_abs x : x * sgn x = Rabs x.
Proof. unfold sgn. destruct (Rlt_dec x 0); [rewrite Rabs_left by trivial; ring|]. destruct (Rlt_dec 0 x); [rewrite Rabs_right by lra; ring|]. replace x with 0 by lra. rewrite Rabs_R0. ring. Qed.
Lemma sgn_le x : Rabs (sgn x) <= 1.
Proof. unfold sgn. destruct (Rlt_dec x 0); [|destruct (Rlt_dec 0 x)]; unfold Rabs; destruct (Rcase_abs _); lra. Qed.
Lemma csum_seq h (f : nat -> R) n i : kept n (length h) i = true ->
  csum h (fin (map f (seq 0 n))) i = Fin (Rsum (map (fun m => nth m h 0 * f (i + (length h - 1) / 2 - m)%nat) (seq 0 (length h)))).
Proof.
  intros K. unfold kept in K. apply andb_true_iff in K as [K1 K2]. apply Nat.leb_le in K1. apply Nat.leb_le in K2.
  unfold csum. rewrite <- xsum_fin. unfold fin. rewrite !map_map. f_equal. apply map_ext_in. intros m Hm. apply in_seq in Hm.
  assert (D : ((length h - 1) / 2 <= length h - 1)%nat) by (apply Nat.div_le_upper_bound; lia).
  rewrite (nth_map_lt _ _ _ 0%nat) by (rewrite seq_length; lia). rewrite seq_nth by lia. reflexivity.
Qed.
Theorem C105_scale1_sharp :
  forall e w s j1 j2 gam norm weighted t ws k x, 0 <= e -> good_wavelet w -> norm <> 0 ->
  wavelet_analysis [fin s] PNone w j1 j2 gam norm weighted = Ok (t, ws) -> entry (wt_coefs t) 1 0 k = Fin x ->
  exists s', noisy e [fin s] [fin s'] /\ exists t' y,
    wavelet_analysis [fin s'] PNone w j1 j2 gam norm weighted = Ok (t', ws) /\ entry (wt_coefs t') 1 0 k = Fin y /\ y - x = gain w norm gam 1 * e.
Proof.
  intros e w s j1 j2 gam norm weighted t ws k x He Hw Hn H Ex. set (n := length s). set (h := neg_hi w). set (i := (2 * k + 1)%nat). set (c := ((length h - 1) / 2)%nat).
  set (f := fun p : nat => nth p s 0). set (f' := fun p : nat => nth p s 0 + e * sgn (nth (i + c - p) h 0)).
  assert (Es : s = map f (seq 0 n)) by (symmetry; apply map_nth_seq).
  exists (map f' (seq 0 n)).
  assert (NN : noisy e [fin s] [fin (map f' (seq 0 n))]).
  { constructor; [|constructor]. rewrite Es at 1. unfold fin. rewrite !map_map. apply Forall2_maps. intros p _. right. exists (f p), (f' p). split; [reflexivity|]. split; [reflexivity|].
    unfold f', f. replace (nth p s 0 + e * sgn (nth (i + c - p) h 0) - nth p s 0) with (e * sgn (nth (i + c - p) h 0)) by ring.
    rewrite Rabs_mult, (Rabs_pos_eq e) by trivial. assert (Q := sgn_le (nth (i + c - p) h 0)). nra. }
  split; [exact NN|].
  assert (K := C105_transform e w _ _ false j1 j2 gam norm weighted He NN). cbn iota zeta in K. rewrite H in K. destruct K as (t' & H' & _ & (_ & _ & _ & CW) & _).
  destruct (CW _ _ _ _ Ex) as (y & Ey & _). exists t', y. split; [exact H'|]. split; [exact Ey|].
  apply wa_inv in H as (eta & _ & -> & _); [|trivial|trivial|exact I]. apply wa_inv in H' as (eta' & _ & -> & _); [|trivial|trivial|exact I]. cbn [the_wt wt_coefs] in Ex, Ey.
  assert (P : forall A z, entry (mrq_of WaveletCoef gam (Cf A w gam norm) (ccount A PNone w gam norm)) 1 0 k = Fin z ->
     nth k (coef h (dec_lo w) norm gam 1 (nth 0 A [])) NaN = Fin z).
  { intros A z E. destruct (Nat.lt_ge_cases 0 (ccount A PNone w gam norm)) as [L|L].
    - change 1%Z with (Z.of_nat 1) in E. rewrite entry_coef in E by lia. exact E.
    - exfalso. rewrite entry_out in E; [discriminate|]. rewrite scales_mrq. replace (ccount A PNone w gam norm) with 0%nat by lia. intros []. }
  apply P in Ex. apply P in Ey. cbn [nth] in Ex, Ey. unfold coef, detail in Ex, Ey. change (1 - 1)%nat with 0%nat in Ex, Ey. cbn [approx_at] in Ex, Ey.
  rewrite rescale_eq in Ex, Ey. set (ff := Rpower 2 _) in Ex, Ey.
  assert (Lf : forall g : nat -> R, length (fin (map g (seq 0 n))) = n) by (intros; unfold fin; now rewrite !map_length, seq_length).
  rewrite Es in Ex.
  assert (V : forall g z, nth k (map (xmul (Fin ff)) (fstep h (fin (map g (seq 0 n))))) NaN = Fin z ->
     z = ff * Rsum (map (fun m => nth m h 0 * g (i + c - m)%nat) (seq 0 (length h))) /\ kept n (length h) i = true).
  { intros g z E. destruct (Nat.lt_ge_cases k (n / 2)) as [L|L].
    - rewrite (nth_map_lt _ _ _ NaN) in E by (rewrite fstep_length, Lf; trivial). rewrite fstep_nth in E by (rewrite Lf; trivial). rewrite Lf in E. fold i in E.
      destruct (kept n (length h) i) eqn:Kp; [|discriminate]. rewrite csum_seq in E by trivial. cbn [xmul] in E. injection E as <-. auto.
    - rewrite nth_overflow in E by (rewrite map_length, fstep_length, Lf; trivial). discriminate. }
  destruct (V f x Ex) as [-> Kp]. destruct (V f' y Ey) as [-> _].
  unfold kept in Kp. apply andb_true_iff in Kp as [K1 K2]. apply Nat.leb_le in K1. apply Nat.leb_le in K2.
  assert (Q : Rsum (map (fun m => nth m h 0 * f' (i + c - m)%nat) (seq 0 (length h))) = Rsum (map (fun m => nth m h 0 * f (i + c - m)%nat) (seq 0 (length h))) + e * norm1 h).
  { rewrite (Rsum_map_ext _ (fun m => nth m h 0 * f (i + c - m)%nat + e * Rabs (nth m h 0))).
    - rewrite Rsum_map_plus, Rsum_map_scal. unfold norm1. now rewrite <- (map_map (fun m => nth m h 0) Rabs), map_nth_seq.
    - intros m Hm. apply in_seq in Hm. unfold f', f. replace (i + c - (i + c - m))%nat with m by lia. rewrite <- sgn_abs. ring. }
  rewrite Q. unfold gain. rewrite <- (norm1_neg (dec_hi w)). change (map (fun t => -1 * t) (dec_hi w)) with h. change (1 - 1)%nat with 0%nat. cbn [pow INR].
  unfold ff. rewrite <- Rpower_plus. replace (gam * IZR (Z.of_nat 1) + IZR (Z.of_nat 1) * (1 / 2 - 1 / norm)) with (1 * (1 / 2 - 1 / norm) + gam * 1) by (cbn; ring). ring.
Qed.
Print Assumptions C105_scale1_sharp.

(** a concrete case: the ramp 0, ..., 23, Haar filters, noise of size 1/1000: hmin fitted over scales 1..2 moves by at most 1/25 *)
Lemma haar_norms : norm1 (dec_hi haar) = 2 /\ norm1 (dec_lo haar) = 2.
Proof. unfold norm1, Rsum. cbn. rewrite Rabs_R1, (Rabs_left (-1)) by lra. lra. Qed.
Lemma haar_gain j : (1 <= j <= 2)%nat -> 0 <= gain haar 1 0 j <= 2.
Proof.
  intros Hj. unfold gain. destruct haar_norms as [-> ->]. rewrite Rmult_0_l, Rpower_O, Rmult_1_r by lra.
  assert (F : 0 < Rpower 2 (INR j * (1 / 2 - 1 / 1)) /\ (j = 1%nat -> Rpower 2 (INR j * (1 / 2 - 1 / 1)) <= 1) /\ (j = 2%nat -> Rpower 2 (INR j * (1 / 2 - 1 / 1)) = / 2)).
  { split; [apply Rpower_pos|]. split; intros ->; cbn [INR].
    - apply Rle_trans with (Rpower 2 0); [apply Rle_Rpower; lra|rewrite Rpower_O; lra].
    - replace ((1 + 1) * (1 / 2 - 1 / 1)) with (- (1)) by field. rewrite Rpower_Ropp, Rpower_1 by lra. reflexivity. }
  destruct F as (F0 & F1 & F2). assert (j = 1 \/ j = 2)%nat as [->| ->] by lia; cbn [Nat.sub pow].
  - specialize (F1 eq_refl). lra.
  - rewrite F2 by reflexivity. lra.
Qed.
Example noise_case : forall s', noisy (/ 1000) [fin ramp] s' -> exists t t' ws l l',
  wavelet_analysis [fin ramp] PInfty haar 1 None 0 1 true = Ok (t, ws) /\ wt_leaders t = Some l /\
  wavelet_analysis s' PInfty haar 1 None 0 1 true = Ok (t', ws) /\ wt_leaders t' = Some l' /\
  forall h h', estimate_hmin l 1 2 false true = Ok h -> estimate_hmin l' 1 2 false true = Ok h' ->
    moves_at_most (/ 25) (nth 0 (hm_hmin h) NaN) (nth 0 (hm_hmin h') NaN).
Proof.
  intros s' HN. assert (N : [ramp] <> []) by discriminate. assert (H : Forall (fun s => length s = 24%nat) [ramp]) by (repeat constructor).
  destruct (wavelet_case [ramp] N H) as (t & l & ws & E & H1 & H2 & H3 & H4 & H5). cbn [map] in E.
  destruct (C105_estimates (/ 1000) haar _ s' 1 None 0 1 true t ws l ltac:(lra) HN good_haar R1_neq_R0 E H2) as (t' & l' & E' & El' & K).
  exists t, t', ws, l, l'. split; [exact E|]. split; [exact H2|]. split; [exact E'|]. split; [exact El'|].
  destruct (K (/ 50) 1%Z 2%Z false 0%nat) as (Kh & _); [lra|lia|rewrite H3; right; now left|simpl; lia| |].
  - intros j x Hj Hx.
    assert (B : lead_gain haar 1 0 (Z.to_nat j) <= 2).
    { assert (G1 := haar_gain 1 ltac:(lia)). assert (G2 := haar_gain 2 ltac:(lia)).
      assert (j = 1 \/ j = 2)%Z as [-> | ->] by lia; [change (Z.to_nat 1) with 1%nat|change (Z.to_nat 2) with 2%nat]; cbn [lead_gain]; repeat apply Rmax_lub; lra. }
    assert (X : / 2 <= Rabs x).
    { apply (ramp_leads t ws l j); trivial. rewrite H3. assert (j = 1 \/ j = 2)%Z as [-> | ->] by lia; [now left|right; now left]. }
    assert (Z1 := one_minus_pow (/ 50) ltac:(lra)).
    assert (Z2 : / 50 / 4 * / 2 <= (1 - Rpower 2 (- / 50)) * Rabs x) by (apply Rmult_le_compat; lra). lra.
  - intros h h' E1 E2. specialize (Kh true true h h' E1 E2). rewrite C94_spread_unweighted in Kh by lia.
    replace ((IZR (2 - 1 + 1) ^ 2 - 1) / 12) with (/ 2 * / 2) in Kh by (cbn; field). rewrite sqrt_square in Kh by lra.
    replace (/ 50 / / 2) with (/ 25) in Kh by field. exact Kh.
Qed.
