(** * C124: Gaussian signals have no intermittency, at every scale and for every wavelet *)
From Coq Require Import Reals List ZArith Bool Lra Lia String.
From Verif Require Import XReal PyBase ModelUtils ModelMRQ ModelStructure ModelWavelet ModelSimul Spec SpecMRQ SpecSimul LXReal LUtils LBase LFilter LTransform LPattern LWave LPoly LCone LWaveEst LDft LSimul LFgnCov LEst LNoise
  PropsWavelet PropsMissing PropsSlope PropsWhite PropsWhitePower PropsSimul PropsWhiteCase PropsWhiteFbm PropsRounded LTaps PropsDecorr PropsHaarFgn LWick PropsFluct PropsConsist PropsConsistCase PropsMrwHaar2 PropsMrwIntermit.
Import ListNotations.
Open Scope R_scope.
Local Notation length := List.length.
Local Notation entry := SpecMRQ.entry.

(** ** Specification *)
(** the transform of every draw; its scale j holds a coefficient that no border reaches *)
Definition run_of {W} (X : W -> list (list R)) (w : wavelet) (p : pexp) (j1 : Z) (j2 : option R) (gam norm : R) (weighted : bool) (T : W -> wtransform) (ws : W -> list warning) : Prop :=
  norm <> 0 /\ p_ok p /\ forall o, wavelet_analysis (map fin (X o)) p w j1 j2 gam norm weighted = Ok (T o, ws o).
Definition scale_held {W} (T : W -> wtransform) (w : wavelet) (N j : nat) : Prop :=
  (1 <= j)%nat /\ (1 <= inner_count N (length (dec_hi w)) j)%nat /\ forall o, In (Z.of_nat j) (scales (wt_coefs (T o))).
(** the expected mean fourth power of the coefficients of a scale is three times the square of their expected mean square *)
Definition no_intermittency {W} (P : expectation W) (T : W -> wtransform) (r j : nat) : Prop :=
  integrable P (fun o => abs_moment 2 (numbers (wt_coefs (T o)) (Z.of_nat j) r)) /\ integrable P (fun o => abs_moment 4 (numbers (wt_coefs (T o)) (Z.of_nat j) r)) /\
  coef_moment P T 4 r j = 3 * coef_moment P T 2 r j ^ 2.

Section Gauss.
Context {W I : Type} (P : expectation W) (idx : I -> Prop) (z : I -> W -> R).
Variables (X : W -> list (list R)) (n nrep : nat) (w : wavelet) (p : pexp) (j1 : Z) (j2 : option R) (gam norm : R) (weighted : bool) (T : W -> wtransform) (ws : W -> list warning) (r j : nat).
Hypothesis HS : forall o, length (X o) = nrep /\ Forall (fun s => length s = n) (X o).
Hypothesis Hw : good_wavelet w.
Hypothesis HT : run_of X w p j1 j2 gam norm weighted T ws.
Hypothesis Hr : (r < nrep)%nat.
Hypothesis HF : scale_held T w n j.
Hypothesis HX : forall i, (i < n)%nat -> combination idx z (fun o => nth i (nth r (X o) []) 0).
Hypothesis Hwhite : white P idx z.
Hypothesis Hgauss : gaussian4 P idx z.
Variable v : R.
Hypothesis HV : forall k, inner n (length (dec_hi w)) j k -> E P (fun o => number (entry (wt_coefs (T o)) (Z.of_nat j) r k) * number (entry (wt_coefs (T o)) (Z.of_nat j) r k)) = v.
Lemma gauss_moments : coef_moment P T 2 r j = v /\ no_intermittency P T r j.
Proof.
  destruct HT as (Hn & Hp & HTT). destruct HF as (Hj & HC & HI).
  assert (C := coef_comb P idx z X n nrep w p j1 j2 gam norm weighted T ws r j HS Hw Hn Hp HTT Hr Hj HI HX).
  destruct (average_between P X n nrep w p j1 j2 gam norm weighted T ws HS Hw Hn Hp HTT (fun x => x * x) j r v v ltac:(cbv beta; ring) Hj HI Hr HC) as [I2 B2].
  { intros k IN. split; [apply (comb_int2 idx z P Hwhite); apply C|]. rewrite (HV k IN). lra. }
  destruct (average_between P X n nrep w p j1 j2 gam norm weighted T ws HS Hw Hn Hp HTT (fun x => x ^ 4) j r (3 * v ^ 2) (3 * v ^ 2) ltac:(cbv beta; ring) Hj HI Hr HC) as [I4 B4].
  { intros k IN. destruct (comb_pow4 idx z P Hgauss _ (C k)) as [A B]. split; [exact A|]. cbv beta in B. rewrite B, (HV k IN). lra. }
  assert (G2 : forall o, mean (map (fun x => x * x) (numbers (wt_coefs (T o)) (Z.of_nat j) r)) = abs_moment 2 (numbers (wt_coefs (T o)) (Z.of_nat j) r)) by (intros; now rewrite abs_moment_2).
  assert (G4 : forall o, mean (map (fun x => x ^ 4) (numbers (wt_coefs (T o)) (Z.of_nat j) r)) = abs_moment 4 (numbers (wt_coefs (T o)) (Z.of_nat j) r)) by (intros; now rewrite abs_moment_4).
  rewrite (E_ext W P _ _ G2) in B2. rewrite (E_ext W P _ _ G4) in B4.
  assert (M2 : coef_moment P T 2 r j = v) by (unfold coef_moment; lra).
  split; [exact M2|]. split; [exact (int_ext W P _ _ G2 I2)|]. split; [exact (int_ext W P _ _ G4 I4)|]. rewrite M2. unfold coef_moment. lra.
Qed.
End Gauss.

(** ** C124: fractional Gaussian noise, every wavelet *)
Theorem C124_fgn :
  forall {W} (P : expectation W) sh N H sigma dt d z0 (drawn : W -> noise),
  shape_N sh = N -> (2 <= N)%nat -> sampling_step dt N d -> 0 < H <= 1 -> gaussian_complex P (shape_R sh) (2 * N - 2) (fun w => nz (drawn w)) ->
  exists X, (forall o, fgn sh H sigma dt "cme" z0 (drawn o) = Ok (presented sh (X o), false)) /\ (forall o, shaped (shape_R sh) N (X o)) /\
  forall w p j1 j2 gam norm weighted T ws, good_wavelet w -> run_of X w p j1 j2 gam norm weighted T ws ->
  forall r j, (r < shape_R sh)%nat -> scale_held T w N j ->
  coef_moment P T 2 r j = factor norm gam j ^ 2 * (sigma ^ 2 * Rpower d (2 * H)) * high_cov w (unit_fgn H) j 0 /\ no_intermittency P T r j.
Proof.
  intros W P sh N H sigma dt d z0 drawn EN HN Hd HH [HZ HG]. assert (d0 := proj2 (step_ok dt N d ltac:(lia) Hd)).
  destruct (fgn_stationary P sh N H sigma dt d z0 drawn EN HN Hd HH HZ) as (X & EX & HS & HX).
  exists X. split; [exact EX|]. split; [exact HS|]. intros w p j1 j2 gam norm weighted T ws Hw HT r j Hr HF.
  assert (Lin := fgn_linear sh N H sigma dt d z0 drawn X EN HN Hd HH (proj1 HZ) EX HS r).
  apply (gauss_moments P (cidx (shape_R sh) (2 * N - 2)) (cvar (fun o => nz (drawn o))) X N (shape_R sh) w p j1 j2 gam norm weighted T ws r j HS Hw HT Hr HF (fun i Hi => Lin i Hr Hi) (proj2 HZ) HG).
  intros k IN. destruct HT as (Hn & Hp & HTT). destruct HF as (Hj & HC & HI).
  destruct (moments_2 P X N (shape_R sh) w p j1 j2 gam norm weighted T ws HS Hw Hn Hp HTT r _ j k k (HX r Hr) Hj HI Hr IN IN) as [_ ->]. rewrite Z.sub_diag, !Rmult_assoc. f_equal. rewrite <- !Rmult_assoc.
  rewrite <- high_cov_scal. apply high_cov_ext'. intros y. now apply fgn_scale.
Qed.
Print Assumptions C124_fgn.
(** fractional Brownian motion, every wavelet that ignores constants *)
Theorem C124_fbm :
  forall {W} (P : expectation W) sh N H sigma dt d z0 (drawn : W -> noise),
  shape_N sh = N -> (2 <= N)%nat -> sampling_step dt N d -> 0 < H <= 1 -> gaussian_complex P (shape_R sh) (2 * N - 2) (fun w => nz (drawn w)) ->
  exists B, (forall o, fbm sh H sigma dt "cme" z0 (drawn o) = Ok (presented sh (B o), false)) /\ (forall o, shaped (shape_R sh) N (B o)) /\
  forall w p j1 j2 gam norm weighted T ws, good_wavelet w -> ignores_constants w -> run_of B w p j1 j2 gam norm weighted T ws ->
  forall r j, (r < shape_R sh)%nat -> scale_held T w N j ->
  coef_moment P T 2 r j = factor norm gam j ^ 2 * (sigma ^ 2 * Rpower d (2 * H)) * high_cov w (unit_fbm H) j 0 /\ no_intermittency P T r j.
Proof.
  intros W P sh N H sigma dt d z0 drawn EN HN Hd HH [HZ HG]. assert (d0 := proj2 (step_ok dt N d ltac:(lia) Hd)).
  destruct (fbm_facts P sh N H sigma dt d z0 drawn EN HN Hd HH HZ) as (B & EB & HS & HX & Lin).
  exists B. split; [exact EB|]. split; [exact HS|]. intros w p j1 j2 gam norm weighted T ws Hw Hi HT r j Hr HF.
  apply (gauss_moments P (cidx (shape_R sh) (2 * N - 2)) (cvar (fun o => nz (drawn o))) B N (shape_R sh) w p j1 j2 gam norm weighted T ws r j HS Hw HT Hr HF (fun i Hi => Lin r i Hr Hi) (proj2 HZ) HG).
  intros k IN. destruct HT as (Hn & Hp & HTT). destruct HF as (Hj & HC & HI).
  destruct (C108_increments P B N (shape_R sh) w p j1 j2 gam norm weighted T ws r _ _ HS Hw Hi Hn Hp HTT Hr (HX r Hr) j Hj HI) as [Q _]. destruct (Q k k IN IN) as (_ & _ & E0 & _ & EC). unfold Cov in EC. rewrite E0, Z.sub_diag in EC.
  rewrite Rmult_0_l, Rminus_0_r in EC. rewrite EC, !Rmult_assoc. f_equal. rewrite <- !Rmult_assoc.
  rewrite <- high_cov_scal. apply high_cov_ext'. intros y. now apply fbm_scale.
Qed.
Print Assumptions C124_fbm.

(** ** Haar wavelet: the flatness is 3, and the exponent of the fourth moment is twice the one of the second, exactly *)
Theorem C124_fgn_haar :
  forall {W} (P : expectation W) sh N H sigma dt d z0 (drawn : W -> noise),
  shape_N sh = N -> (2 <= N)%nat -> sampling_step dt N d -> 0 < H < 1 -> sigma <> 0 -> gaussian_complex P (shape_R sh) (2 * N - 2) (fun w => nz (drawn w)) ->
  exists X, (forall o, fgn sh H sigma dt "cme" z0 (drawn o) = Ok (presented sh (X o), false)) /\ (forall o, shaped (shape_R sh) N (X o)) /\
  forall p j1 j2 gam norm weighted T ws, run_of X haar1 p j1 j2 gam norm weighted T ws ->
  forall r j, (r < shape_R sh)%nat -> scale_held T haar1 N j ->
  0 < coef_moment P T 2 r j /\ flatness P T r j = 3 /\
  forall j', scale_held T haar1 N j' ->
  log2R (coef_moment P T 2 r j') - log2R (coef_moment P T 2 r j) = (INR j' - INR j) * (2 * (H - 1 / norm + gam)) /\
  log2R (coef_moment P T 4 r j') - log2R (coef_moment P T 4 r j) = (INR j' - INR j) * (4 * (H - 1 / norm + gam)) /\
  log2R (flatness P T r j') - log2R (flatness P T r j) = 0.
Proof.
  intros W P sh N H sigma dt d z0 drawn EN HN Hd HH Hs HG. assert (d0 := proj2 (step_ok dt N d ltac:(lia) Hd)).
  destruct (C124_fgn P sh N H sigma dt d z0 drawn EN HN Hd ltac:(lra) HG) as (X & EX & HS & K).
  exists X. split; [exact EX|]. split; [exact HS|]. intros p j1 j2 gam norm weighted T ws HT r j Hr HF. assert (Hn := proj1 HT). assert (l2 : 0 < ln 2) by (assert (Q := ln_lt_2); lra).
  assert (G0 : 0 < (4 - Rpower 4 H) / 2). { assert (Rpower 4 H < 4) by (rewrite <- (Rpower_1 4) at 2 by lra; apply Rpower_lt; lra). lra. }
  assert (S0 : 0 < sigma ^ 2) by (rewrite <- Rsqr_pow2; now apply Rsqr_pos_lt). set (A := (4 - Rpower 4 H) / 2 * (sigma ^ 2 * Rpower d (2 * H))).
  assert (A0 : 0 < A) by (apply Rmult_lt_0_compat; [trivial|]; apply Rmult_lt_0_compat; [trivial|apply exp_pos]).
  assert (M : forall i, scale_held T haar1 N i -> no_intermittency P T r i /\ 0 < coef_moment P T 2 r i /\ ln (coef_moment P T 2 r i) = ln A - (2 * H - 1) * ln 2 + INR i * (2 * (H - 1 / norm + gam)) * ln 2).
  { intros i Hi. destruct (K haar1 p j1 j2 gam norm weighted T ws good_haar1 HT r i Hr Hi) as [M NI]. split; [exact NI|].
    rewrite Rmult_assoc, (Rmult_comm (sigma ^ 2 * _)), (haar_unit_eq H sigma d i d0 (proj1 Hi)) in M. unfold haar_variance in M.
    replace (factor norm gam i ^ 2 * (sigma ^ 2 / 2 * Rpower d (2 * H) * (4 - Rpower 4 H) * Rpower 2 ((INR i - 1) * (2 * H - 1)))) with (A * (factor norm gam i ^ 2 * Rpower 2 ((INR i - 1) * (2 * H - 1)))) in M by (unfold A; field).
    assert (F0 : 0 < factor norm gam i ^ 2) by (apply pow_lt, exp_pos). assert (R0 : 0 < Rpower 2 ((INR i - 1) * (2 * H - 1))) by apply exp_pos. rewrite M. split; [apply Rmult_lt_0_compat; [trivial|now apply Rmult_lt_0_compat]|].
    rewrite ln_mult by (trivial; now apply Rmult_lt_0_compat). rewrite ln_mult by trivial. rewrite ln_pow by apply exp_pos. unfold factor, Rpower. rewrite !ln_exp. change (INR 2) with 2. field. exact Hn. }
  assert (FL : forall i, scale_held T haar1 N i -> flatness P T r i = 3 /\ log2R (coef_moment P T 4 r i) = log2R 3 + 2 * log2R (coef_moment P T 2 r i)).
  { intros i Hi. destruct (M i Hi) as ((_ & _ & M4) & M0 & _). unfold flatness. rewrite M4. split; [field; lra|]. unfold log2R. rewrite ln_mult by (try lra; now apply pow_lt). rewrite ln_pow by trivial. change (INR 2) with 2. field. lra. }
  destruct (M j HF) as (_ & M0 & ML). destruct (FL j HF) as [F3 F4]. split; [exact M0|]. split; [exact F3|]. intros j' HF'. destruct (M j' HF') as (_ & M0' & ML'). destruct (FL j' HF') as [F3' F4'].
  assert (D : log2R (coef_moment P T 2 r j') - log2R (coef_moment P T 2 r j) = (INR j' - INR j) * (2 * (H - 1 / norm + gam))) by (unfold log2R; rewrite ML, ML'; field; lra).
  split; [exact D|]. split; [rewrite F4, F4'; lra|]. rewrite F3, F3'. ring.
Qed.
Print Assumptions C124_fgn_haar.

(** ** A concrete case: two realisations of 64 samples, H = 3/4, scales 1, 2 and 3 *)
Theorem C124_case : exists W (P : expectation W) (drawn : W -> noise) X T ws, positive P /\
  (forall o, fgn (SPair 64 2) (3 / 4) 5 None "cme" None (drawn o) = Ok (presented (SPair 64 2) (X o), false)) /\
  run_of X haar1 PNone 1 None 0 1 true T ws /\
  forall j, (1 <= j <= 3)%nat -> flatness P T 1 j = 3 /\ log2R (coef_moment P T 2 1 3) - log2R (coef_moment P T 2 1 1) = - 1.
Proof.
  destruct (C112_noise_exists 2 (2 * 64 - 2)) as (W & P & drawn & HP & HG).
  destruct (C124_fgn_haar P (SPair 64 2) 64 (3 / 4) 5 None (/ INR 64) None drawn eq_refl ltac:(lia) (or_intror (Logic.conj (or_introl eq_refl) eq_refl)) ltac:(lra) ltac:(lra) HG) as (X & EX & SH & K).
  assert (TT : forall o, wavelet_analysis (map fin (X o)) PNone haar1 1 None 0 1 true = Ok (transform_of (X o) haar1 1 None 0 1 true, warnings_of (X o) haar1 1 None 0 1 true)).
  { intros o. destruct (SH o) as [S1 S2]. apply (transform_ok (X o) 64); [intros Q; rewrite Q in S1; discriminate|lia|exact S2|exact good_haar1|lra]. }
  exists W, P, drawn, X, (fun o => transform_of (X o) haar1 1 None 0 1 true), (fun o => warnings_of (X o) haar1 1 None 0 1 true).
  assert (RO : run_of X haar1 PNone 1 None 0 1 true (fun o => transform_of (X o) haar1 1 None 0 1 true) (fun o => warnings_of (X o) haar1 1 None 0 1 true)) by (split; [lra|split; [exact Logic.I|exact TT]]).
  assert (SC : forall j, (1 <= j <= 3)%nat -> scale_held (fun o => transform_of (X o) haar1 1 None 0 1 true) haar1 64 j).
  { intros j Hj. assert (IC : (3 <= inner_count 64 2 j)%nat) by (assert (j = 1 \/ j = 2 \/ j = 3)%nat as [->|[->| ->]] by lia; vm_compute; lia).
    split; [lia|]. split; [cbn [haar1 dec_hi List.length]; lia|]. intros o. destruct (SH o) as [S1 S2]. apply (C99_scales (X o) 64 haar1 1 None 0 1 true _ _ ltac:(intros Q; rewrite Q in S1; discriminate) ltac:(lia) S2 good_haar1 ltac:(lra) (TT o)). split; [lia|exact IC]. }
  split; [exact HP|]. split; [exact EX|]. split; [exact RO|]. intros j Hj.
  destruct (K PNone 1%Z None 0 1 true _ _ RO 1%nat j ltac:(cbn; lia) (SC j Hj)) as (_ & F3 & _). split; [exact F3|].
  destruct (K PNone 1%Z None 0 1 true _ _ RO 1%nat 1%nat ltac:(cbn; lia) (SC 1%nat ltac:(lia))) as (_ & _ & Q). destruct (Q 3%nat (SC 3%nat ltac:(lia))) as [-> _]. cbn [INR]. field.
Qed.
Print Assumptions C124_case.
