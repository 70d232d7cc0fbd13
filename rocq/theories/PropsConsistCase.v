(** * C112: the hypotheses are met *)
From Coq Require Import Reals List ZArith Bool Lra Lia String Classical_Prop.
From Verif Require Import XReal PyBase ModelUtils ModelMRQ ModelStructure ModelWavelet ModelSimul Spec SpecMRQ SpecSimul LXReal LBase LSimul LNoise PropsSimul PropsWhiteCase LWick LThree PropsConsist PropsConsistGen.
Import ListNotations.
Open Scope R_scope.
Local Notation length := List.length.

(** for every shape there is a genuine (positive) expectation for which the noise drawn has the moments of complex Gaussian noise *)
Theorem C112_noise_exists R n : exists W (P : expectation W) (drawn : W -> noise), positive P /\ gaussian_complex P R n (fun o => nz (drawn o)).
Proof.
  exists (nat -> Rdefinitions.R), (three (2 * (R * n))), (fun w => mkNoise (three_noise R n w) []). split; [apply three_positive|]. cbn [nz]. apply three_gaussian.
Qed.
(** an event of probability below one fails for some outcome *)
Lemma not_everywhere {W} (P : expectation W) (A : W -> Prop) q : positive P -> prob_at_most P A q -> q < 1 -> ~ forall o, A o.
Proof.
  intros HP HA Hq HO. assert (K := prob_at_most_sound P A q (fun _ => 1) HP HA (int_one W P) (fun _ => Rle_refl 1)). rewrite E_one in K.
  assert (1 <= q) by (apply K; intros o N; exfalso; now apply N). lra.
Qed.
(** fgn with H = 3/4, Haar, scales 1 to 3: for every tolerance, all long enough simulations have draws that give H - 1 within the tolerance *)
Theorem C112_case eps : 0 < eps -> exists N0, forall N, (N0 <= N)%nat ->
  exists (drawn : noise) X t ws s h,
      fgn (SInt N) (3 / 4) 1 None "cme" None drawn = Ok (presented (SInt N) X, false) /\
      wavelet_analysis (map fin X) PNone haar1 1 None 0 1 true = Ok (t, ws) /\
      StructureFunction (wt_coefs t) (QArr [2]) 1 3 true = Ok s /\
      nth 0 (sf_H s) NaN = Fin h /\ Rabs (h - (- (1 / 4))) <= eps.
Proof.
  intros He. destruct (C112_fgn_consistent (3 / 4) 0 1 eps 1 3 ltac:(lra) ltac:(lra) He ltac:(lia)) as [K HK].
  
  assert (AR : exists N0, Rmax 2 K < INR N0). { destruct (archimed (Rmax 2 K)) as [A _]. assert (M := Rmax_l 2 K). exists (Z.to_nat (up (Rmax 2 K))). rewrite INR_IZR_INZ, Z2Nat.id; [lra|]. apply le_IZR. lra. }
  destruct AR as [N0 HN0]. exists N0. intros N HN. apply NNPP. intros HA. apply le_INR in HN. assert (M1 := Rmax_l 2 K). assert (M2 := Rmax_r 2 K).
  assert (N2 : (2 <= N)%nat) by (apply INR_le; cbn [INR]; lra).
  destruct (C112_noise_exists 1 (2 * N - 2)) as (W & P & drawn & HP & HG).
  assert (Q := HK W P (SInt N) N 1 None (/ INR N) None drawn 1%Z None true 0%nat [2] true eq_refl N2 (or_intror (conj (or_introl eq_refl) eq_refl)) ltac:(lra) HG ltac:(cbn; lia) (or_introl eq_refl)).
  apply (not_everywhere P _ _ HP Q).
  - apply Rmult_lt_reg_r with (INR N); [lra|]. unfold Rdiv. rewrite Rmult_assoc, Rinv_l by lra. lra.
  - intros o (X & t & ws & s & h & E1 & _ & E2 & E3 & E4 & E5). apply HA. exists (drawn o), X, t, ws, s, h. repeat split; trivial. replace (- (1 / 4)) with (3 / 4 - 1 / 1) by field. exact E5.
Qed.
Print Assumptions C112_case.
(** the same for fbm with H = 1/4, at coarse enough scales *)
Theorem C112_case_fbm eps : 0 < eps -> exists j0, forall j1 j2 : nat, (j0 <= j1 < j2)%nat -> exists N0, forall N, (N0 <= N)%nat ->
  exists (drawn : noise) X t ws s h,
      fbm (SPair N 2) (1 / 4) 3 (Some (1 / 10)) "cme" None drawn = Ok (presented (SPair N 2) X, false) /\
      wavelet_analysis (map fin X) PNone haar1 1 None 0 1 true = Ok (t, ws) /\
      StructureFunction (wt_coefs t) (QArr [1; 2]) (Z.of_nat j1) (Z.of_nat j2) false = Ok s /\
      nth 1 (sf_H s) NaN = Fin h /\ Rabs (h - 1 / 4) <= eps.
Proof.
  intros He. destruct (C112_fbm_consistent (1 / 4) 1 eps ltac:(lra) ltac:(lra) He) as [j0 HJ]. exists j0. intros j1 j2 Hj.
  destruct (HJ 0 (1 / 2) j1 j2 ltac:(lra) Hj) as [N0 HK]. exists N0. intros N HN. apply NNPP. intros HA.
  destruct (C112_noise_exists 2 (2 * N - 2)) as (W & P & drawn & HP & HG).
  assert (St : sampling_step (Some (1 / 10)) N (1 / 10)) by (left; split; [reflexivity|lra]).
  assert (Q := HK W P (SPair N 2) N 3 (Some (1 / 10)) (1 / 10) None drawn 1%Z None true 1%nat [1; 2] false eq_refl HN St ltac:(lra) HG (le_n 2) (or_intror (or_introl eq_refl))).
  apply (not_everywhere P _ _ HP Q); [lra|].
  intros o (X & t & ws & s & h & E1 & _ & E2 & E3 & E4 & E5). apply HA. exists (drawn o), X, t, ws, s, h. repeat split; trivial. replace (1 / 4) with (1 / 4 + 1 - 1 / 1) by field. exact E5.
Qed.
