(** * C110, continued: the coefficients of fractional Brownian motion and noise have short memory *)
From Coq Require Import Reals List ZArith Bool Lra Lia String.
From Verif Require Import XReal PyBase ModelUtils ModelMRQ ModelStructure ModelWavelet ModelSimul Spec SpecMRQ SpecSimul LXReal LUtils LBase LFilter LTransform LPattern LWave LPoly LCone LWaveEst LDft LSimul LEst
  PropsWavelet PropsMissing PropsSlope PropsWhite PropsWhitePower PropsSimul PropsWhiteFbm PropsRounded LTaps PropsDecorr.
Import ListNotations.
Open Scope R_scope.
Local Notation length := List.length.
Local Notation entry := SpecMRQ.entry.

(** ** Summing a function of the distance *)
Lemma inv_squares m : sumn (S m) (fun i => / (INR i + 1) ^ 2) <= 2 - / (INR m + 1).
Proof.
  induction m as [|m IH]; [rewrite sumn_S, sumn_0; change (INR 0) with 0; lra|]. rewrite sumn_S.
  assert (P := pos_INR m). assert (K : / (INR (S m) + 1) ^ 2 <= / (INR m + 1) - / (INR (S m) + 1)); [|lra]. rewrite S_INR.
  replace (/ (INR m + 1) - / (INR m + 1 + 1)) with (/ ((INR m + 1) * (INR m + 1 + 1))) by (field; lra). apply Rinv_le_contravar; [nra|]. nra.
Qed.
Lemma inv_squares_2 m : sumn m (fun i => / (INR i + 1) ^ 2) <= 2.
Proof. destruct m as [|m]; [rewrite sumn_0; lra|]. assert (K := inv_squares m). assert (P := pos_INR m). assert (0 < / (INR m + 1)) by (apply Rinv_0_lt_compat; lra). lra. Qed.
Lemma NoDup_sum_le (F : nat -> R) n : (forall i, 0 <= F i) -> forall l, NoDup l -> (forall i, In i l -> (i < n)%nat) -> Rsum (map F l) <= sumn n F.
Proof.
  intros HF. induction n as [|n IH]; intros l ND H.
  - destruct l as [|a l]; [unfold sumn, Rsum; cbn [seq map fold_right]; lra|]. exfalso. specialize (H a (or_introl eq_refl)). lia.
  - rewrite sumn_S. destruct (in_dec Nat.eq_dec n l) as [I|I].
    + apply in_split in I as (l1 & l2 & ->). assert (ND' := NoDup_remove _ _ _ ND). destruct ND' as [ND' NI].
      rewrite map_app, Rsum_app. cbn [map]. change (Rsum (F n :: map F l2)) with (F n + Rsum (map F l2)).
      assert (K := IH (l1 ++ l2) ND'). rewrite map_app, Rsum_app in K. assert (forall i, In i (l1 ++ l2) -> (i < n)%nat); [|specialize (K H0); lra].
      intros i Hi. assert (i <> n) by congruence. assert (i < S n)%nat; [|lia]. apply H. apply in_app_iff in Hi. apply in_app_iff. cbn [In]. tauto.
    + assert (K := IH l ND). assert (forall i, In i l -> (i < n)%nat); [|specialize (K H0); assert (Q := HF n); lra].
      intros i Hi. assert (i <> n) by congruence. specialize (H i Hi). lia.
Qed.
(** distance between two positions *)
Definition apart (k k' : nat) : nat := Z.to_nat (Z.abs (Z.of_nat k - Z.of_nat k')).
Lemma apart_sum (g : nat -> R) C : (forall i, 0 <= g i) -> (forall n, sumn n g <= C) -> forall k l, NoDup l -> Rsum (map (fun k' => g (apart k k')) l) <= 2 * C.
Proof.
  intros G0 GC k l ND. set (n := (k + S (list_max l))%nat).
  eapply Rle_trans; [apply (NoDup_sum_le (fun k' => g (apart k k')) n)|]; [intros; apply G0|exact ND| |].
  - intros i Hi. assert (i <= list_max l)%nat; [|unfold n; lia]. assert (K := proj1 (list_max_le l (list_max l)) (le_n _)). rewrite Forall_forall in K. now apply K.
  - unfold n. rewrite sumn_app. assert (A : sumn k (fun i => g (apart k i)) <= sumn (S k) g).
    { rewrite sumn_rev, sumn_S_first. rewrite (sumn_ext k _ (fun i => g (S i))); [assert (Q := G0 0%nat); lra|]. intros i Hi. f_equal. unfold apart. lia. }
    assert (B : sumn (S (list_max l)) (fun i => g (apart k (k + i))) <= C).
    { rewrite (sumn_ext _ _ g); [apply GC|]. intros i _. f_equal. unfold apart. lia. }
    assert (Q := GC (S k)). lra.
Qed.
(** a constant up to distance L, then decay like the square of the distance *)
Definition tent (A B : R) (L i : nat) : R := if le_dec i L then A else B / INR (i - L) ^ 2.
Lemma tent_sum A B L n : 0 <= A -> 0 <= B -> sumn n (tent A B L) <= INR (S L) * A + 2 * B.
Proof.
  intros HA HB. assert (T0 : forall i, 0 <= tent A B L i).
  { intros i. unfold tent. destruct (le_dec i L); [trivial|]. apply Rmult_le_pos; [trivial|]. left. apply Rinv_0_lt_compat, pow_lt, lt_0_INR. lia. }
  apply Rle_trans with (sumn (S L + n) (tent A B L)).
  - rewrite Nat.add_comm, sumn_app. assert (0 <= sumn (S L) (fun i => tent A B L (n + i))) by (apply sumn_nonneg; intros; apply T0). lra.
  - rewrite sumn_app. rewrite (sumn_ext (S L) _ (fun _ => A)) by (intros i Hi; unfold tent; destruct (le_dec i L); [reflexivity|lia]). rewrite sumn_const.
    rewrite (sumn_ext n _ (fun i => B * / (INR i + 1) ^ 2)).
    + rewrite sumn_scal. assert (K := inv_squares_2 n). assert (B * sumn n (fun i => / (INR i + 1) ^ 2) <= B * 2) by (now apply Rmult_le_compat_l). lra.
    + intros i _. unfold tent. destruct (le_dec (S L + i) L); [lia|]. replace (S L + i - L)%nat with (S i) by lia. rewrite S_INR. reflexivity.
Qed.

(** ** Covariances *)
Lemma filtered_even f r d : (forall z, r (- z)%Z = r z) -> filtered f f r (- d) = filtered f f r d.
Proof.
  intros H. unfold filtered. rewrite sumn_swap. apply sumn_ext. intros m' _. apply sumn_ext. intros m _.
  replace (2 * - d - Z.of_nat m + Z.of_nat m')%Z with (- (2 * d - Z.of_nat m' + Z.of_nat m))%Z by ring. rewrite H. ring.
Qed.
Lemma high_cov_even w v j d : (forall z, v (- z)%Z = v z) -> high_cov w v j (- d) = high_cov w v j d.
Proof. intros H. unfold high_cov. apply filtered_even. generalize (j - 1)%nat. intros i. induction i as [|i IH]; intros z; [apply H|]. cbn [low_cov]. apply filtered_even, IH. Qed.
Lemma ev_le b phi x A : 0 <= A -> (forall p, In p b -> Rabs (phi (x + snd p)) <= A) -> Rabs (ev b phi x) <= tnorm b * A.
Proof.
  intros HA H. unfold ev, tnorm. eapply Rle_trans; [apply Rsum_abs_le|]. rewrite Rmult_comm, <- Rsum_scal_map. apply tsum_le. intros p Hp.
  rewrite Rabs_mult, Rmult_comm. apply Rmult_le_compat_r; [apply Rabs_pos|]. now apply H.
Qed.
Lemma norm1_nonneg f : 0 <= norm1 f.
Proof. rewrite norm1_sumn. apply sumn_nonneg. intros; apply Rabs_pos. Qed.
Lemma gain_nonneg w j : 0 <= gain w j.
Proof. unfold gain. apply Rmult_le_pos; apply pow_le, norm1_nonneg. Qed.

Section Short.
Variables (w : wavelet) (b : taps) (n0 M : nat) (rho K al : R) (phi : R -> R) (v : Z -> R) (j : nat).
Hypothesis Hj : (1 <= j)%nat.
Hypothesis Hw : good_wavelet w.
Hypothesis V : vanishing_moments (dec_hi w) M.
Hypothesis HA : ann b n0.
Hypothesis HB : between (- rho) rho b.
Hypothesis Hrho : 0 <= rho <= 1.
Hypothesis Hal : 0 <= al <= 2.
Hypothesis Hn : (4 <= 2 * M + n0)%nat.
Hypothesis HP : forall t, 0 < t -> phi t = K * Rpower t al.
Hypothesis HV : forall z, v z = ev b phi (IZR z).
Hypothesis Heven : forall z, v (- z)%Z = v z.
Hypothesis Hbd : forall X, exists A, forall t, Rabs t <= X -> Rabs (phi t) <= A.
Let L := length (dec_hi w).
Lemma L_pos : (1 <= L)%nat. Proof using Hw. unfold L. destruct Hw as [A B]. clear - A. apply A. Qed.
Lemma spread_le : 0 <= spread w j /\ rho + spread w j <= 2 ^ j * INR L.
Proof using All.
  assert (1 <= 2 ^ j) by (apply pow_R1_Rle; lra). assert (1 <= INR L) by (apply (le_INR 1), L_pos). unfold spread. fold L. split; [apply Rmult_le_pos; lra|]. nra.
Qed.
Lemma short_range : exists C, forall k l, NoDup l -> Rsum (map (fun k' => Rabs (high_cov w v j (Z.of_nat k - Z.of_nat k'))) l) <= C.
Proof using All.
  destruct (Hbd (2 ^ j * INR L + 2 ^ j * INR L)) as [A0 HA0]. destruct spread_le as [SP SL].
  assert (J1 : 1 <= 2 ^ j) by (apply pow_R1_Rle; lra). assert (L1 : 1 <= INR L) by (apply (le_INR 1), L_pos).
  assert (A0p : 0 <= A0). { eapply Rle_trans; [apply (Rabs_pos (phi 0))|]. apply HA0. rewrite Rabs_R0. nra. }
  set (A := tnorm (htaps w b j) * A0). set (n := (2 * M + n0)%nat).
  set (B := Rabs K * (2 / INR n * (gain w j * tnorm b) * (rho + spread w j) ^ n)).
  assert (Ap : 0 <= A) by (apply Rmult_le_pos; [apply tnorm_nonneg|trivial]).
  assert (Bp : 0 <= B).
  { unfold B. assert (0 < INR n) by (apply lt_0_INR; unfold n; lia). assert (T := tnorm_nonneg b). assert (G := gain_nonneg w j).
    apply Rmult_le_pos; [apply Rabs_pos|]. apply Rmult_le_pos; [|apply pow_le; lra]. apply Rmult_le_pos; [|now apply Rmult_le_pos].
    apply Rmult_le_pos; [lra|]. left; now apply Rinv_0_lt_compat. }
  assert (PT : forall z, Rabs (high_cov w v j z) <= tent A B L (Z.to_nat (Z.abs z))).
  { assert (PT0 : forall i, Rabs (high_cov w v j (Z.of_nat i)) <= tent A B L i).
    { intros i. unfold tent. destruct (le_dec i L) as [I|I].
      - replace (high_cov w v j (Z.of_nat i)) with (high_cov w (fun z => ev b phi (IZR z)) j (Z.of_nat i)).
        + rewrite high_cov_taps by trivial. apply ev_le; [trivial|]. intros p Hp. apply HA0.
          assert (E : length (dec_lo w) = length (dec_hi w)) by apply Hw. assert (Q := htaps_between w b rho j Hj E HB p Hp).
          rewrite <- INR_IZR_INZ. assert (INR i <= INR L) by (now apply le_INR). assert (I0 := pos_INR i).
          eapply Rle_trans; [apply Rabs_triang|]. rewrite (Rabs_pos_eq (2 ^ j * INR i)) by nra.
          assert (Rabs (snd p) <= rho + spread w j) by (apply Rabs_le; lra). nra.
        + unfold high_cov. apply filtered_ext. generalize (j - 1)%nat. intros a. induction a as [|a IH]; intros y; cbn [low_cov]; [now rewrite HV|]. now apply filtered_ext.
      - assert (LI : INR L + 1 <= INR i). { replace (INR L + 1) with (INR (S L)) by (now rewrite S_INR). apply le_INR. lia. }
        assert (U : INR (i - L) <= 2 ^ j * IZR (Z.of_nat i) - (rho + spread w j)). { rewrite minus_INR by lia. rewrite <- INR_IZR_INZ. nra. }
        assert (I1 : 1 <= INR (i - L)) by (apply (le_INR 1); lia).
        eapply Rle_trans; [apply (high_power w b n0 M rho K al phi v j (Z.of_nat i)); trivial; try lra; try lia|].
        fold n. unfold B. set (u := 2 ^ j * IZR (Z.of_nat i) - (rho + spread w j)) in *.
        replace (Rabs K * (2 / INR n * (gain w j * tnorm b) * (rho + spread w j) ^ n * Rpower u (al - INR n))) with (B * Rpower u (al - INR n)) by (unfold B; ring).
        fold B. unfold Rdiv. apply Rmult_le_compat_l; [exact Bp|].
        assert (N4 : 4 <= INR n) by (replace 4 with (INR 4) by (cbn [INR]; ring); apply le_INR; exact Hn).
        apply Rle_trans with (Rpower u (-2)).
        + unfold Rpower. assert (0 <= ln u). { destruct (Rle_lt_or_eq_dec 1 u ltac:(lra)) as [X| <-]; [left; rewrite <- ln_1; apply ln_increasing; lra|rewrite ln_1; lra]. }
          assert (X : (al - INR n) * ln u <= -2 * ln u) by (apply Rmult_le_compat_r; lra). destruct X as [X| ->]; [left; now apply exp_increasing|lra].
        + eapply Rle_trans; [apply (Rpower_antitone (INR (i - L)) u); lra|]. rewrite (Rpower_Ropp _ 2). replace 2 with (INR 2) at 1 by reflexivity. rewrite Rpower_pow by lra. lra. }
    intros z. destruct (Z_le_gt_dec 0 z) as [Z0|Z0].
    - rewrite <- (Z2Nat.id z) at 1 by trivial. replace (Z.to_nat (Z.abs z)) with (Z.to_nat z) by lia. apply PT0.
    - rewrite <- high_cov_even by trivial. replace (- z)%Z with (Z.of_nat (Z.to_nat (Z.abs z))) by lia. apply PT0. }
  exists (2 * (INR (S L) * A + 2 * B)). intros k l ND.
  eapply Rle_trans; [apply tsum_le; intros k' _; apply PT|]. change (Rsum (map (fun k' => tent A B L (apart k k')) l) <= 2 * (INR (S L) * A + 2 * B)).
  apply apart_sum; [|intros m; now apply tent_sum|exact ND].
  intros i. unfold tent. destruct (le_dec i L); [trivial|]. apply Rmult_le_pos; [trivial|]. left. apply Rinv_0_lt_compat, pow_lt, lt_0_INR. lia.
Qed.
End Short.

Lemma rpow_bounded d e s2 X : 0 < d -> 0 <= e -> 0 <= s2 -> exists A, forall t, Rabs t <= X -> Rabs (s2 * rpow (Rabs (d * t)) e) <= A.
Proof.
  intros Hd He Hs. exists (s2 * Rpower (d * Rmax X 1) e). intros t Ht. rewrite Rabs_mult, (Rabs_pos_eq s2) by trivial. apply Rmult_le_compat_l; [trivial|].
  assert (M1 := Rmax_r X 1). assert (M2 := Rmax_l X 1). unfold rpow. destruct (Rlt_dec 0 (Rabs (d * t))) as [P|_].
  - rewrite Rabs_pos_eq by (left; apply exp_pos). unfold Rpower. assert (Q : Rabs (d * t) <= d * Rmax X 1). { rewrite Rabs_mult, (Rabs_pos_eq d) by lra. apply Rmult_le_compat_l; lra. }
    assert (ln (Rabs (d * t)) <= ln (d * Rmax X 1)) by (destruct Q as [Q|Q]; [left; now apply ln_increasing|right; now rewrite Q]).
    assert (Y : e * ln (Rabs (d * t)) <= e * ln (d * Rmax X 1)) by (now apply Rmult_le_compat_l). destruct Y as [Y|Y]; [left; now apply exp_increasing|rewrite Y; lra].
  - rewrite Rabs_R0. left. apply exp_pos.
Qed.

(** with two vanishing moments, the covariances of a coefficient of an fbm with all the others of its scale have a bounded sum: the bound does not depend on the length of the signal *)
Theorem C110_short_fbm :
  forall H sigma d w M j gam norm, 0 < H <= 1 -> 0 < d -> good_wavelet w -> vanishing_moments (dec_hi w) M -> (2 <= M)%nat -> (1 <= j)%nat -> norm <> 0 ->
  exists C, forall W (P : expectation W) sh N dt z0 (drawn : W -> noise) p j1 j2 weighted,
  shape_N sh = N -> (2 <= N)%nat -> sampling_step dt N d -> white_complex P (shape_R sh) (2 * N - 2) (fun w => nz (drawn w)) -> p_ok p ->
  exists B, (forall o, fbm sh H sigma dt "cme" z0 (drawn o) = Ok (presented sh (B o), false)) /\
  forall (T : W -> wtransform) (ws : W -> list warning), (forall o, wavelet_analysis (map fin (B o)) p w j1 j2 gam norm weighted = Ok (T o, ws o)) ->
  forall r, (r < shape_R sh)%nat -> (forall o, In (Z.of_nat j) (scales (wt_coefs (T o)))) ->
  let c k o := number (entry (wt_coefs (T o)) (Z.of_nat j) r k) in
  forall k l, inner N (length (dec_hi w)) j k -> NoDup l -> (forall k', In k' l -> inner N (length (dec_hi w)) j k') ->
  Rsum (map (fun k' => Rabs (Cov P (c k) (c k'))) l) <= C.
Proof.
  intros H sigma d w M j gam norm HH d0 Hw HM M2 Hj Hn. set (v := fun z => - (sigma ^ 2 / 2 * rpow (Rabs (d * IZR z)) (2 * H))).
  assert (S2 : 0 <= sigma ^ 2) by apply pow2_ge_0.
  destruct (short_range w [(1, 0)] 0 M 0 (- (sigma ^ 2 / 2 * Rpower d (2 * H))) (2 * H) (fun t => - (sigma ^ 2 / 2 * rpow (Rabs (d * t)) (2 * H))) v j) as [C HC]; trivial.
  - apply ann_0.
  - intros q [<-|[]]. cbn [snd]. lra.
  - lra.
  - lra.
  - lia.
  - intros t Ht. rewrite rpow_dt by trivial. ring.
  - intros z. unfold ev, Rsum. cbn [map fold_right fst snd]. rewrite !Rplus_0_r. unfold v. ring.
  - intros z. unfold v. rewrite opp_IZR. replace (d * - IZR z) with (- (d * IZR z)) by ring. now rewrite Rabs_Ropp.
  - intros X. destruct (rpow_bounded d (2 * H) (sigma ^ 2 / 2) X d0) as [A HA]; try lra. exists A. intros t Ht. rewrite Rabs_Ropp. now apply HA.
  - exists (factor norm gam j ^ 2 * C). intros W P sh N dt z0 drawn p j1 j2 wd EN HN Hd HZ Hp.
    destruct (C108_fbm P sh N H sigma dt d z0 drawn w p j1 j2 gam norm wd EN HN Hd HH HZ Hw (vanish_ignores w M ltac:(lia) HM) Hn Hp) as (B & EB & HB).
    exists B. split; [exact EB|]. intros T ws HT r Hr HI c k l IN ND HL. destruct (HB T ws HT r j Hr Hj HI) as [Q _]. fold v in Q.
    rewrite (Rsum_map_ext _ (fun k' => factor norm gam j ^ 2 * Rabs (high_cov w v j (Z.of_nat k - Z.of_nat k')))).
    + rewrite Rsum_scal_map. apply Rmult_le_compat_l; [apply pow2_ge_0|]. now apply HC.
    + intros k' Hk'. destruct (Q k k' IN (HL k' Hk')) as [_ E1]. unfold c. rewrite E1, Rabs_mult, (Rabs_pos_eq (factor _ _ _ ^ 2)) by (apply pow2_ge_0). reflexivity.
Qed.
Print Assumptions C110_short_fbm.
(** for fgn one vanishing moment is enough, whatever H: the long memory of the noise is removed *)
Theorem C110_short_fgn :
  forall H sigma d w M j gam norm, 0 < H <= 1 -> 0 < d -> good_wavelet w -> vanishing_moments (dec_hi w) M -> (1 <= M)%nat -> (1 <= j)%nat -> norm <> 0 ->
  exists C, forall W (P : expectation W) sh N dt z0 (drawn : W -> noise) p j1 j2 weighted,
  shape_N sh = N -> (2 <= N)%nat -> sampling_step dt N d -> white_complex P (shape_R sh) (2 * N - 2) (fun w => nz (drawn w)) -> p_ok p ->
  exists X, (forall o, fgn sh H sigma dt "cme" z0 (drawn o) = Ok (presented sh (X o), false)) /\
  forall (T : W -> wtransform) (ws : W -> list warning), (forall o, wavelet_analysis (map fin (X o)) p w j1 j2 gam norm weighted = Ok (T o, ws o)) ->
  forall r, (r < shape_R sh)%nat -> (forall o, In (Z.of_nat j) (scales (wt_coefs (T o)))) ->
  let c k o := number (entry (wt_coefs (T o)) (Z.of_nat j) r k) in
  forall k l, inner N (length (dec_hi w)) j k -> NoDup l -> (forall k', In k' l -> inner N (length (dec_hi w)) j k') ->
  Rsum (map (fun k' => Rabs (Cov P (c k) (c k'))) l) <= C.
Proof.
  intros H sigma d w M j gam norm HH d0 Hw HM M1 Hj Hn.
  set (phi := fun t => sigma ^ 2 / 2 * rpow (Rabs (d * t)) (2 * H)). set (b := [(1, 1); (-2, 0); (1, -1)] : taps). set (v := fun z => ev b phi (IZR z)).
  assert (S2 : 0 <= sigma ^ 2) by apply pow2_ge_0.
  destruct (short_range w b 2 M 1 (sigma ^ 2 / 2 * Rpower d (2 * H)) (2 * H) phi v j) as [C HC]; trivial.
  - intros [|[|i]] x Hi; [| |lia]; unfold ev, b, Rsum; cbn [map fold_right fst snd pow]; ring.
  - intros q [<-|[<-|[<-|[]]]]; cbn [snd]; lra.
  - lra.
  - lra.
  - lia.
  - intros t Ht. unfold phi. rewrite rpow_dt by trivial. ring.
  - intros z. unfold v, ev, b, phi, Rsum. cbn [map fold_right fst snd]. rewrite opp_IZR.
    replace (d * (- IZR z + 1)) with (- (d * (IZR z + -1))) by ring. replace (d * (- IZR z + 0)) with (- (d * (IZR z + 0))) by ring. replace (d * (- IZR z + -1)) with (- (d * (IZR z + 1))) by ring.
    rewrite !Rabs_Ropp. ring.
  - intros X. apply rpow_bounded; trivial; lra.
  - exists (factor norm gam j ^ 2 * C). intros W P sh N dt z0 drawn p j1 j2 wd EN HN Hd HZ Hp.
    destruct (fgn_stationary P sh N H sigma dt d z0 drawn EN HN Hd HH HZ) as (X & EX & HS & HX).
    exists X. split; [exact EX|]. intros T ws HT r Hr HI c k l IN ND HL.
    rewrite (Rsum_map_ext _ (fun k' => factor norm gam j ^ 2 * Rabs (high_cov w v j (Z.of_nat k - Z.of_nat k')))).
    + rewrite Rsum_scal_map. apply Rmult_le_compat_l; [apply pow2_ge_0|]. now apply HC.
    + intros k' Hk'. destruct (C108_stationary P X N (shape_R sh) w p j1 j2 gam norm wd T ws r _ HS Hw Hn Hp HT Hr (HX r Hr) j k k' Hj HI IN (HL k' Hk')) as (_ & _ & _ & _ & E1).
      unfold c. rewrite E1. rewrite Rabs_mult, (Rabs_pos_eq (factor _ _ _ ^ 2)) by (apply pow2_ge_0). reflexivity.
Qed.
Print Assumptions C110_short_fgn.
