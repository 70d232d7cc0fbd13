(** * C125: the hypotheses are met *)
From Coq Require Import Reals List ZArith Bool Lra Lia String Classical_Prop.
From Verif Require Import XReal PyBase ModelUtils ModelMRQ ModelStructure ModelWavelet ModelSimul Spec SpecMRQ SpecSimul LXReal LBase LFilter LMoment LSimul LNoise PropsSimul PropsWhiteCase PropsHaarFgn PropsWhite PropsHaarFbm PropsFluct PropsWhitePower LWave LWaveEst LWick LThree PropsConsist PropsConsistGen PropsConsistCase LWick8 LFive PropsMonofractal.
Import ListNotations.
Open Scope R_scope.
Local Notation length := List.length.

(** for every shape there is a genuine (positive) expectation for which the noise drawn has the moments of complex Gaussian noise, up to the eighth order *)
Theorem C125_noise_exists R n : exists W (P : expectation W) (drawn : W -> noise), positive P /\ gaussian_complex8 P R n (fun o => nz (drawn o)).
Proof.
  exists (nat -> Rdefinitions.R), (five (2 * (R * n))), (fun w => mkNoise (three_noise R n w) []). split; [apply five_positive|]. cbn [nz]. apply five_gaussian.
Qed.
Lemma haar_unit_pos H j : 0 < H < 1 -> (1 <= j)%nat -> 0 < high_cov haar1 (unit_fgn H) j 0.
Proof.
  intros HH Hj. assert (K := haar_unit_eq H 1 1 j Rlt_0_1 Hj). assert (V := haar_variance_pos H 1 1 j HH ltac:(lra)). rewrite <- K in V.
  assert (X : 1 ^ 2 * Rpower 1 (2 * H) = 1) by (unfold Rpower; rewrite ln_1, Rmult_0_r, exp_0; ring). rewrite X in V. lra.
Qed.
(** fgn with H = 3/4, Haar, scales 1 to 3: for every tolerance, all long enough simulations have draws whose exponents of orders 2 and 4 are proportional within the tolerance *)
Theorem C125_case tol : 0 < tol -> exists N0, forall N, (N0 <= N)%nat ->
  exists (drawn : noise) X t ws s z2 z4,
      fgn (SInt N) (3 / 4) 1 None "cme" None drawn = Ok (presented (SInt N) X, false) /\
      wavelet_analysis (map fin X) PNone haar1 1 None 0 1 true = Ok (t, ws) /\
      StructureFunction (wt_coefs t) (QArr [2; 4]) 1 3 true = Ok s /\
      at2 (sf_zeta s) 0 0 = Fin z2 /\ at2 (sf_zeta s) 1 0 = Fin z4 /\ Rabs (z4 - 2 * z2) <= tol.
Proof.
  intros Ht. destruct (C125_fgn (3 / 4) haar1 1 0 1 tol (1 / 2) 1 3 ltac:(lra) good_haar1 vanish_haar1 ltac:(lra) Ht ltac:(lra) ltac:(lia) (fun j Hj => haar_unit_pos (3 / 4) j ltac:(lra) (proj1 Hj))) as [N0 HK].
  exists (N0 + 1)%nat. intros N HN. apply NNPP. intros HA.
  destruct (C125_noise_exists 1 (2 * N - 2)) as (W & P & drawn & HP & HG).
  assert (I0 : 0 < INR N) by (apply lt_0_INR; lia).
  assert (Q := HK W P (SInt N) N 1 None (/ INR N) None drawn 1%Z None true 0%nat [2; 4] 0%nat 1%nat true eq_refl ltac:(lia) (or_intror (Logic.conj (or_introl eq_refl) eq_refl)) ltac:(lra) HG ltac:(cbn; lia) eq_refl eq_refl).
  apply (not_everywhere P _ _ HP Q); [lra|].
  intros o (X & t & ws & s & z2 & z4 & E1 & _ & E2 & E3 & E4 & E5 & E6). apply HA. exists (drawn o), X, t, ws, s, z2, z4. repeat split; trivial.
Qed.
Print Assumptions C125_case.

(** ** Both exponents, Haar *)
(** H is the half of the exponent of order 2, corrected for the integration, for every representation and every list of orders *)
Lemma SF_half m qs j1 j2 wd s i r : StructureFunction m (QArr qs) j1 j2 wd = Ok s -> nth_error qs i = Some 2 ->
  forall z h, at2 (sf_zeta s) i r = Fin z -> nth r (sf_H s) NaN = Fin h -> h = z / 2 - mq_gamint m.
Proof.
  unfold StructureFunction. intros E Hi z h Hz Hh. destruct (mq_nrep m) as [nrep|]; [|discriminate]. cbn [bind] in E. destruct (reg_weights wd (mq_nj m) nrep j1 j2) as [W0|]; [|discriminate]. cbn [bind] in E.
  unfold sf_compute in E. cbn [q_items] in E.
  destruct (mapM (regress_cols wd j1 j2 W0) _) as [fits|] eqn:EF; [|discriminate]. cbn [bind get_q2] in E. destruct (select_q2 _ _) as [z2|] eqn:E2; [|discriminate]. cbn [bind] in E. injection E as <-. cbn [sf_zeta sf_H] in Hz, Hh.
  apply mapM_Ok in EF. set (A := map (fun t => fst (fst t)) : list (xr * xr * xr) -> list xr) in *.
  assert (D : forall l f, Forall2 (fun a b => regress_cols wd j1 j2 W0 a = Ok b) (map (fun e => map (fun r => map (fun c => xlog2 (sf_moment c e)) (cols_of m r)) (seq 0 nrep)) (map PyFloat l)) f -> forall i t y,
     nth_error l i = Some 2 -> nth_error f i = Some t -> select_q2 l (map A f) = Ok y -> y = A t).
  { clear. assert (U : forall l f, Forall2 (fun a b => regress_cols wd j1 j2 W0 a = Ok b) (map (fun e => map (fun r => map (fun c => xlog2 (sf_moment c e)) (cols_of m r)) (seq 0 nrep)) (map PyFloat l)) f -> forall i t, nth_error l i = Some 2 -> nth_error f i = Some t ->
      regress_cols wd j1 j2 W0 (map (fun r => map (fun c => xlog2 (sf_moment c (PyFloat 2))) (cols_of m r)) (seq 0 nrep)) = Ok t).
    { induction l as [|a l IH]; intros f HF i t Hl Hf; [destruct i; discriminate|]. cbn [map] in HF. inversion HF as [|? b ? f' Hb Hf' E1 E2]; subst. destruct i as [|i]; cbn in Hl, Hf; [|now apply (IH f' Hf' i)]. injection Hl as ->. now injection Hf as <-. }
    induction l as [|a l IH]; intros f HF i t y Hl Hf HS; [destruct i; discriminate|]. assert (HF' := HF). cbn [map] in HF. inversion HF as [|? b ? f' Hb Hf' E1 E2]; subst. cbn [map select_q2] in HS. destruct (Req_EM_T a 2) as [->|N].
    - injection HS as <-. assert (K := U _ _ HF' i t Hl Hf). rewrite Hb in K. now injection K as ->.
    - destruct i as [|i]; cbn in Hl, Hf; [injection Hl as ->; contradiction|]. now apply (IH f' Hf' i). }
  destruct (nth_error fits i) as [t|] eqn:Et.
  - rewrite (D qs fits EF i t z2 Hi Et E2) in Hh. unfold at2 in Hz. rewrite (nth_error_nth (map A fits) i [] (map_nth_error A i fits Et)) in Hz.
    destruct (le_lt_dec (length (A t)) r) as [L|L]; [rewrite nth_overflow in Hz by trivial; discriminate|].
    rewrite (nth_map_lt _ _ _ NaN) in Hh by trivial. rewrite Hz in Hh. cbn [xdiv] in Hh. destruct (Req_EM_T 2 0); [lra|]. cbn in Hh. injection Hh as <-. unfold Rminus, Rdiv. ring.
  - exfalso. apply nth_error_None in Et. assert (FL : forall A B (g : A -> B -> Prop) l k, Forall2 g l k -> length l = length k) by (clear; induction 1; cbn; lia). apply FL in EF. rewrite !map_length in EF. assert (K : nth_error qs i <> None) by (rewrite Hi; discriminate). apply nth_error_Some in K. lia.
Qed.
(** fgn: for every tolerance and every probability, all long enough simulations give the two exponents 2 (H - 1/norm + gamint) and 4 (H - 1/norm + gamint) within
    the tolerance, outside an event of at most that probability *)
Theorem C125_fgn_haar :
  forall H gam norm tol q (j1 j2 : nat), 0 < H < 1 -> norm <> 0 -> 0 < tol -> 0 < q -> (1 <= j1 < j2)%nat ->
  exists N0, forall W (P : expectation W) sh N sigma dt d z0 (drawn : W -> noise) ja jb weighted r qs i2 i4 wd,
  shape_N sh = N -> (N0 <= N)%nat -> sampling_step dt N d -> sigma <> 0 -> gaussian_complex8 P (shape_R sh) (2 * N - 2) (fun w => nz (drawn w)) -> (r < shape_R sh)%nat -> nth_error qs i2 = Some 2 -> nth_error qs i4 = Some 4 ->
  prob_at_most P (fun o => ~ exists X t ws s z2 z4,
      fgn sh H sigma dt "cme" z0 (drawn o) = Ok (presented sh X, false) /\ shaped (shape_R sh) N X /\
      wavelet_analysis (map fin X) PNone haar1 ja jb gam norm weighted = Ok (t, ws) /\
      StructureFunction (wt_coefs t) (QArr qs) (Z.of_nat j1) (Z.of_nat j2) wd = Ok s /\
      at2 (sf_zeta s) i2 r = Fin z2 /\ at2 (sf_zeta s) i4 r = Fin z4 /\ Rabs (z2 - 2 * (H - 1 / norm + gam)) <= tol /\ Rabs (z4 - 4 * (H - 1 / norm + gam)) <= tol) q.
Proof.
  intros H gam norm tol q j1 j2 HH Hn Ht Hq Hj.
  destruct (C125_fgn H haar1 1 gam norm (tol / 2) (q / 2) j1 j2 HH good_haar1 vanish_haar1 Hn ltac:(lra) ltac:(lra) Hj (fun j Hjj => haar_unit_pos H j HH ltac:(lia))) as [N1 K1].
  destruct (C112_fgn_consistent H gam norm (tol / 8) j1 j2 HH Hn ltac:(lra) Hj) as [K K2].
  assert (AR : exists N2, Rmax 1 (K / (q / 2)) < INR N2). { destruct (archimed (Rmax 1 (K / (q / 2)))) as [A _]. assert (M := Rmax_l 1 (K / (q / 2))). exists (Z.to_nat (up (Rmax 1 (K / (q / 2))))). rewrite INR_IZR_INZ, Z2Nat.id; [lra|]. apply le_IZR. lra. }
  destruct AR as [N2 HN2]. exists (N1 + N2 + 2)%nat. intros W P sh N sigma dt d z0 drawn ja jb wd0 r qs i2 i4 wd EN HN Hd Hs HG Hr Q2 Q4.
  assert (HK : K / INR N <= q / 2).
  { assert (L : INR N2 <= INR N) by (apply le_INR; lia). assert (M1 := Rmax_l 1 (K / (q / 2))). assert (M2 := Rmax_r 1 (K / (q / 2))).
    apply Rmult_le_reg_r with (INR N); [lra|]. unfold Rdiv at 1. rewrite Rmult_assoc, Rinv_l by lra. rewrite Rmult_1_r. apply Rle_trans with (K / (q / 2) * (q / 2)); [right; field; lra|]. rewrite Rmult_comm. apply Rmult_le_compat_l; lra. }
  eapply prob_weaken; [| |apply (prob_union P _ _ _ _ (K1 W P sh N sigma dt d z0 drawn ja jb wd0 r qs i2 i4 wd EN ltac:(lia) Hd Hs HG Hr Q2 Q4) (K2 W P sh N sigma dt d z0 drawn ja jb wd0 r qs wd EN ltac:(lia) Hd Hs (gaussian_8_4 _ _ _ _ HG) Hr (nth_error_In _ _ Q2)))]; [|lra].
  intros o NO. cbv beta. match goal with |- ?A \/ ?B => destruct (classic A) as [X|X]; [now left|]; destruct (classic B) as [Y|Y]; [now right|] end. exfalso. apply NO. apply NNPP in X, Y.
  destruct X as (X & t & ws & s & z2 & z4 & E1 & E2 & E3 & E4 & E5 & E6 & E7). destruct Y as (X' & t' & ws' & s' & h & F1 & F2 & F3 & F4 & F5 & F6).
  assert (EX : presented sh X = presented sh X') by congruence. assert (EXX : X = X').
  { now apply (presented_inj sh N). }
  subst X'. rewrite E3 in F3. injection F3 as <- <-. rewrite E4 in F4. injection F4 as <-.
  assert (G : mq_gamint (wt_coefs t) = gam). { destruct (wa_inv (map fin X) PNone haar1 ja jb gam norm wd0 t ws good_haar1 Hn Logic.I E3) as (eta & _ & ET & _). rewrite ET. reflexivity. }
  assert (EH := SF_half (wt_coefs t) qs (Z.of_nat j1) (Z.of_nat j2) wd s i2 r E4 Q2 z2 h E5 F5). rewrite G in EH.
  exists X, t, ws, s, z2, z4. repeat (split; [assumption|]). assert (EZ : z2 = 2 * (h + gam)) by lra. assert (AB : forall a b, Rabs a <= b -> - b <= a <= b) by (intros a b; unfold Rabs; destruct (Rcase_abs a); lra). apply AB in F6, E7. split; apply Rabs_le; lra.
Qed.
Print Assumptions C125_fgn_haar.
