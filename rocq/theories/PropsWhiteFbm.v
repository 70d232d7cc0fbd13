(** * C108, continued: signals with stationary increments, in particular the fractional Brownian motion and noise generated by the package *)
From Coq Require Import Reals List ZArith Bool Lra Lia String.
From Verif Require Import XReal PyBase ModelUtils ModelMRQ ModelStructure ModelWavelet ModelSimul Spec SpecMRQ SpecSimul LXReal LUtils LBase LFilter LTransform LPattern LWave LPoly LCone LWaveEst LDft LSimul LEst
  PropsWavelet PropsMissing PropsSlope PropsWhite PropsWhitePower.
From Verif Require Import PropsSimul.
Import ListNotations.
Open Scope R_scope.
Local Notation length := List.length.
Notation entry := SpecMRQ.entry.

Section Inc.
Context {W : Type} (P : expectation W).
Variables (n : nat) (x : W -> list R) (a : nat -> R) (v : Z -> R) (lo : list R).
Hypothesis HL : (1 <= length lo)%nat.
Hypothesis HX : stationary_increments P n x a v.
Let L := length lo.
Let pos (k m : nat) : nat := (2 * k + 1 + (L - 1) / 2 - m)%nat.
Fixpoint acov (j : nat) : nat -> R :=
  match j with O => a | S j' => fun k => sumn (length lo) (fun m => nth m lo 0) * sumn (length lo) (fun m => nth m lo 0 * acov j' (2 * k + 1 + (length lo - 1) / 2 - m)%nat) end.
Lemma inc_out f g j k k' (b : nat -> R) (q : Z -> R) : length f = L -> length g = L -> inner n L (S j) k -> inner n L (S j) k' ->
  (forall i i', okpos n L j i -> okpos n L j i' -> integrable P (fun w => lowr x lo j i w * lowr x lo j i' w) /\ E P (fun w => lowr x lo j i w * lowr x lo j i' w) = b i + b i' + q (Z.of_nat i - Z.of_nat i')%Z) ->
  integrable P (fun w => outr x lo f j k w * outr x lo g j k' w) /\
  E P (fun w => outr x lo f j k w * outr x lo g j k' w) =
    sumn L (fun m => nth m g 0) * sumn L (fun m => nth m f 0 * b (pos k m)) + sumn L (fun m => nth m f 0) * sumn L (fun m => nth m g 0 * b (pos k' m))
    + filtered f g q (Z.of_nat k - Z.of_nat k')%Z.
Proof using HL.
  intros Hf Hg IN IN' H.
  destruct (lin_prod P L (fun m => nth m f 0) (fun m => nth m g 0) (fun m => lowr x lo j (pos k m)) (fun m => lowr x lo j (pos k' m))
    (fun m m' => b (pos k m) + b (pos k' m') + q (2 * (Z.of_nat k - Z.of_nat k') - Z.of_nat m + Z.of_nat m')%Z)) as [A B].
  { intros m m' Hm Hm'. destruct (H (pos k m) (pos k' m')) as [U V]; try (now apply okpos_step).
    split; [exact U|]. rewrite V. do 2 f_equal. apply (pos_diff lo HL); trivial; [apply IN|apply IN']. }
  split; [exact A|]. etransitivity; [exact B|]. unfold filtered. rewrite Hf, Hg.
  rewrite (sumn_ext L _ (fun m => (sumn L (fun m' => nth m' g 0) * (nth m f 0 * b (pos k m)) + nth m f 0 * sumn L (fun m' => nth m' g 0 * b (pos k' m')))
     + sumn L (fun m' => nth m f 0 * nth m' g 0 * q (2 * (Z.of_nat k - Z.of_nat k') - Z.of_nat m + Z.of_nat m')%Z))).
  - rewrite !sumn_plus, sumn_scal, sumn_scal_r. reflexivity.
  - intros m Hm. rewrite <- sumn_scal_r, <- sumn_scal, <- !sumn_plus. apply sumn_ext. intros m' Hm'. ring.
Qed.
Lemma inc_lowr_S j k w : inner n L (S j) k -> lowr x lo (S j) k w = outr x lo lo j k w.
Proof using HL HX. intros IN. unfold lowr. rewrite low_S; trivial. destruct HX as (X & _). rewrite X. exact IN. Qed.
Lemma inc_low j : forall k k', okpos n L j k -> okpos n L j k' ->
  integrable P (fun w => lowr x lo j k w * lowr x lo j k' w) /\ E P (fun w => lowr x lo j k w * lowr x lo j k' w) = acov j k + acov j k' + lcov v lo j (Z.of_nat k - Z.of_nat k')%Z.
Proof using HL HX.
  induction j as [|j IH]; intros k k' Hk Hk'.
  - destruct HX as (X1 & _ & X). cbn [okpos] in *. destruct (X k k' Hk Hk') as [A B].
    assert (G : forall w, nth k (x w) 0 * nth k' (x w) 0 = lowr x lo 0 k w * lowr x lo 0 k' w).
    { intros w. unfold lowr, low. cbn [approx_at]. unfold fin. rewrite !(nth_map_lt _ _ _ 0) by (now rewrite X1). reflexivity. }
    split; [now apply (int_ext W P _ _ G)|]. now rewrite <- (E_ext W P _ _ G).
  - cbn [okpos] in *. destruct (inc_out lo lo j k k' (acov j) (lcov v lo j) eq_refl eq_refl Hk Hk' (fun i i' Hi Hi' => IH i i' Hi Hi')) as [A B].
    assert (G : forall w, outr x lo lo j k w * outr x lo lo j k' w = lowr x lo (S j) k w * lowr x lo (S j) k' w) by (intros w; now rewrite !inc_lowr_S).
    split; [now apply (int_ext W P _ _ G)|]. rewrite <- (E_ext W P _ _ G). exact B.
Qed.
Lemma inc_mean j : forall k, okpos n L j k -> integrable P (lowr x lo j k) /\ E P (lowr x lo j k) = 0.
Proof using HL HX.
  induction j as [|j IH]; intros k Hk.
  - destruct HX as (X1 & X & _). cbn [okpos] in *. destruct (X k Hk) as [A B].
    assert (G : forall w, nth k (x w) 0 = lowr x lo 0 k w).
    { intros w. unfold lowr, low. cbn [approx_at]. unfold fin. rewrite !(nth_map_lt _ _ _ 0) by (now rewrite X1). reflexivity. }
    split; [now apply (int_ext W P _ _ G)|]. now rewrite <- (E_ext W P _ _ G).
  - cbn [okpos] in *. destruct (out_mean P n x lo HL lo j k Hk IH) as [A B].
    assert (G : forall w, outr x lo lo j k w = lowr x lo (S j) k w) by (intros w; now rewrite inc_lowr_S).
    split; [now apply (int_ext W P _ _ G)|]. now rewrite <- (E_ext W P _ _ G).
Qed.
End Inc.

(** the coefficients of a signal with stationary increments are centred and stationary at every scale, as soon as the wavelet ignores constants *)
Theorem C108_increments :
  forall {W} (P : expectation W) (S : W -> list (list R)) (n nrep : nat) w p j1 j2 gam norm weighted (T : W -> wtransform) (ws : W -> list warning) r a v,
  (forall o, length (S o) = nrep /\ Forall (fun s => length s = n) (S o)) -> good_wavelet w -> ignores_constants w -> norm <> 0 -> p_ok p ->
  (forall o, wavelet_analysis (map fin (S o)) p w j1 j2 gam norm weighted = Ok (T o, ws o)) ->
  (r < nrep)%nat -> stationary_increments P n (fun o => nth r (S o) []) a v ->
  forall j, (1 <= j)%nat -> (forall o, In (Z.of_nat j) (scales (wt_coefs (T o)))) ->
  (forall k k', inner n (length (dec_hi w)) j k -> inner n (length (dec_hi w)) j k' ->
   let c k o := number (entry (wt_coefs (T o)) (Z.of_nat j) r k) in
   (forall o, entry (wt_coefs (T o)) (Z.of_nat j) r k = Fin (c k o)) /\
   integrable P (c k) /\ E P (c k) = 0 /\ integrable P (fun o => c k o * c k' o) /\
   Cov P (c k) (c k') = factor norm gam j ^ 2 * high_cov w v j (Z.of_nat k - Z.of_nat k')) /\
  ((1 <= inner_count n (length (dec_hi w)) j)%nat ->
   E P (fun o => abs_moment 2 (numbers (wt_coefs (T o)) (Z.of_nat j) r)) = factor norm gam j ^ 2 * high_cov w v j 0).
Proof.
  intros W P S n nrep w p j1 j2 gam norm wd T ws r a v HS Hw HC Hn Hp HT Hr HX j Hj HI.
  set (x := fun o => nth r (S o) []) in *. set (lo := dec_lo w). assert (LL : length lo = length (dec_hi w)) by apply Hw. assert (L1 : (1 <= length lo)%nat) by (destruct Hw; lia).
  assert (NL : length (neg_hi w) = length lo) by (now rewrite neg_hi_length, LL).
  assert (SN : sumn (length lo) (fun m => nth m (neg_hi w) 0) = 0).
  { rewrite LL. replace 0 with (- sumn (length (dec_hi w)) (fun m => nth m (dec_hi w) 0)) by (rewrite HC; ring). rewrite <- sumn_opp. apply sumn_ext. intros m Hm.
    unfold neg_hi. rewrite (nth_map_lt _ _ _ 0) by trivial. ring. }
  assert (M2 : forall k k', inner n (length (dec_hi w)) j k -> inner n (length (dec_hi w)) j k' ->
    integrable P (fun o => number (entry (wt_coefs (T o)) (Z.of_nat j) r k) * number (entry (wt_coefs (T o)) (Z.of_nat j) r k')) /\
    E P (fun o => number (entry (wt_coefs (T o)) (Z.of_nat j) r k) * number (entry (wt_coefs (T o)) (Z.of_nat j) r k')) = factor norm gam j ^ 2 * high_cov w v j (Z.of_nat k - Z.of_nat k')).
  { intros k k' IN IN'. assert (V := coef_value S n nrep w p j1 j2 gam norm wd T ws HS Hw Hn Hp HT j r k Hj HI Hr IN).
    assert (V' := coef_value S n nrep w p j1 j2 gam norm wd T ws HS Hw Hn Hp HT j r k' Hj HI Hr IN'). fold x lo in V, V'.
    rewrite <- LL in IN, IN'. replace j with (Datatypes.S (j - 1)) in IN, IN' by lia.
    destruct (inc_out P n x lo L1 (neg_hi w) (neg_hi w) (j - 1) k k' (acov a lo (j - 1)) (lcov v lo (j - 1)) NL NL IN IN') as [A B].
    { intros i i' Hi Hi'. now apply (inc_low P n x a v lo L1 HX). }
    set (f := factor norm gam j) in *.
    assert (G : forall o, f ^ 2 * (outr x lo (neg_hi w) (j - 1) k o * outr x lo (neg_hi w) (j - 1) k' o)
       = number (entry (wt_coefs (T o)) (Z.of_nat j) r k) * number (entry (wt_coefs (T o)) (Z.of_nat j) r k')) by (intros o; rewrite V, V'; cbn [number]; ring).
    split; [now apply (int_ext W P _ _ G), int_scal|]. rewrite <- (E_ext W P _ _ G), E_scal by trivial. rewrite B, SN, filtered_neg. f_equal. unfold high_cov.
    rewrite (filtered_ext _ _ _ (low_cov w v (j - 1))) by (intros z; apply lcov_eq). ring. }
  split.
  - intros k k' IN IN' c. assert (V := coef_value S n nrep w p j1 j2 gam norm wd T ws HS Hw Hn Hp HT j r k Hj HI Hr IN). destruct (M2 k k' IN IN') as [A' B'].
    fold x lo in V. assert (INL := IN). rewrite <- LL in INL. replace j with (Datatypes.S (j - 1)) in INL by lia.
    destruct (out_mean P n x lo L1 (neg_hi w) (j - 1) k INL) as [A B]; [intros i Hi; now apply (inc_mean P n x a v lo L1 HX)|].
    assert (G : forall o, factor norm gam j * outr x lo (neg_hi w) (j - 1) k o = c k o) by (intros o; unfold c; now rewrite V).
    assert (E0 : E P (c k) = 0) by (rewrite <- (E_ext W P _ _ G), E_scal by trivial; rewrite B; ring).
    split; [intros o; unfold c; rewrite V; reflexivity|]. split; [now apply (int_ext W P _ _ G), int_scal|]. split; [exact E0|]. split; [exact A'|].
    unfold Cov. rewrite E0. unfold c. rewrite B'. ring.
  - intros IC. rewrite (E_ext W P _ (fun o => mean_sq (wt_coefs (T o)) (Z.of_nat j) r)) by (intros o; now rewrite abs_moment_2).
    apply (mean_power P S n nrep w p j1 j2 gam norm wd T ws HS Hw Hn Hp HT j r); trivial. intros k IN. destruct (M2 k k IN IN) as [A B]. split; [exact A|]. rewrite B. now rewrite Z.sub_diag.
Qed.
Print Assumptions C108_increments.

(** ** The generators of the package *)
(** fbm(H, sigma) analysed by the package: the coefficients at every scale are stationary, with covariances determined by -sigma^2 |d t|^(2H) / 2 *)
Theorem C108_fbm :
  forall {W} (P : expectation W) sh N (H sigma : R) dt d z0 (drawn : W -> noise) w p j1 j2 gam norm weighted,
  shape_N sh = N -> (2 <= N)%nat -> sampling_step dt N d -> 0 < H <= 1 -> white_complex P (shape_R sh) (2 * N - 2) (fun w => nz (drawn w)) ->
  good_wavelet w -> ignores_constants w -> norm <> 0 -> p_ok p ->
  exists B, (forall o, fbm sh H sigma dt "cme" z0 (drawn o) = Ok (presented sh (B o), false)) /\
  forall (T : W -> wtransform) (ws : W -> list warning), (forall o, wavelet_analysis (map fin (B o)) p w j1 j2 gam norm weighted = Ok (T o, ws o)) ->
  forall r j, (r < shape_R sh)%nat -> (1 <= j)%nat -> (forall o, In (Z.of_nat j) (scales (wt_coefs (T o)))) ->
  let v z := - (sigma ^ 2 / 2 * rpow (Rabs (d * IZR z)) (2 * H)) in
  (forall k k', inner N (length (dec_hi w)) j k -> inner N (length (dec_hi w)) j k' ->
   let c k o := number (entry (wt_coefs (T o)) (Z.of_nat j) r k) in
   E P (c k) = 0 /\ Cov P (c k) (c k') = factor norm gam j ^ 2 * high_cov w v j (Z.of_nat k - Z.of_nat k')) /\
  ((1 <= inner_count N (length (dec_hi w)) j)%nat ->
   E P (fun o => abs_moment 2 (numbers (wt_coefs (T o)) (Z.of_nat j) r)) = factor norm gam j ^ 2 * high_cov w v j 0).
Proof.
  intros W P sh N H sigma dt d z0 drawn w p j1 j2 gam norm wd EN HN Hd HH HZ Hw HC Hn Hp.
  destruct (PropsSimul.C61_fbm W P sh N H sigma dt d z0 drawn EN HN Hd HH HZ) as (B & EB & HB). exists B. split; [exact EB|].
  intros T ws HT r j Hr Hj HI v. destruct HB as (B1 & B2 & B3).
  assert (HS : forall o, length (B o) = shape_R sh /\ Forall (fun s => length s = N) (B o)) by exact B1.
  destruct (C108_increments P B N (shape_R sh) w p j1 j2 gam norm wd T ws r (fun i => sigma ^ 2 / 2 * rpow (d * (INR i + 1)) (2 * H)) v HS Hw HC Hn Hp HT Hr) with (j := j) as [Q1 Q2]; trivial.
  { split; [intros o; destruct (HS o) as [U V]; rewrite Forall_forall in V; apply V, nth_In; lia|]. split.
    - intros i Hi. exact (B2 r i Hr Hi).
    - intros i k Hi Hk. destruct (B3 r r i k Hr Hr Hi Hk) as [U V]. split; [exact U|]. unfold Cov in V. rewrite (proj2 (B2 r i Hr Hi)) in V.
      destruct (Nat.eq_dec r r) as [_|]; [|congruence]. unfold SpecSimul.entry in V. rewrite Rmult_0_l, Rminus_0_r in V. rewrite V. unfold fbm_covariance, v.
      replace (d * (INR i + 1) - d * (INR k + 1)) with (d * IZR (Z.of_nat i - Z.of_nat k)); [ring|]. rewrite minus_IZR, <- !INR_IZR_INZ. ring. }
  split; [|exact Q2]. intros k k' IN IN' c. destruct (Q1 k k' IN IN') as (_ & _ & E1 & _ & E2). now split.
Qed.
Print Assumptions C108_fbm.
