(** * C111: a concrete case *)
From Coq Require Import Reals List ZArith Bool Lra Lia String.
From Verif Require Import XReal PyBase ModelUtils ModelMRQ ModelStructure ModelWavelet ModelSimul ModelPSD Spec SpecMRQ SpecSimul LXReal LUtils LBase LFilter LTransform LPattern LWave LPoly LCone LWaveEst LDft LSimul LEst LNoise
  PropsWavelet PropsMissing PropsSlope PropsWhite PropsWhitePower PropsWhiteCase PropsSimul PropsWhiteFbm PropsHaarFgn.
Import ListNotations.
Open Scope R_scope.
Local Notation length := List.length.

Lemma scales_24_haar1 s : length s = 24%nat ->
  exists T ws, wavelet_analysis (map fin [s]) PNone haar1 1 None 0 1 false = Ok (T, ws) /\ scales (wt_coefs T) = [1; 2]%Z.
Proof.
  intros Hs. assert (HF : Forall (fun s => length s = 24%nat) [s]) by (now repeat constructor).
  destruct (C14_returns [s] 24 haar1 PNone 1 None 0 1 false ltac:(discriminate) ltac:(lia) HF good_haar1 R1_neq_R0 ltac:(auto)) as (t & ws & E1).
  exists t, ws. split; [exact E1|]. apply wa_inv in E1 as (eta & X & -> & -> & _); [|exact good_haar1|exact R1_neq_R0|exact I].
  cbn [the_wt wt_coefs]. rewrite scales_mrq. rewrite (fin_ccount haar1 0 1 [s] 24 PNone good_haar1 ltac:(discriminate) HF I). unfold ccount_b, gcount_b, lev_b.
  change (length (dec_hi haar1)) with 2%nat. rewrite level_24_2. vm_compute. reflexivity.
Qed.
(** 24 samples of fgn(3/4) and the scales 1 and 2: the hypotheses of C111_power and C111_exponent hold; the variance grows by sqrt 2 from one scale to the next *)
Example C111_case : exists W (P : expectation W) (drawn : W -> noise),
  white_complex P (shape_R (SInt 24)) (2 * 24 - 2) (fun o => nz (drawn o)) /\ sampling_step (Some 1) 24 1 /\
  (forall X : W -> list (list R), (forall o, length (X o) = 1%nat /\ Forall (fun s => length s = 24%nat) (X o)) ->
   exists T ws, forall o, wavelet_analysis (map fin (X o)) PNone haar1 1 None 0 1 false = Ok (T o, ws o) /\ scales (wt_coefs (T o)) = [1; 2]%Z) /\
  inner 24 2 1 4 /\ (1 <= inner_count 24 2 1)%nat /\ (1 <= inner_count 24 2 2)%nat /\
  0 < haar_variance (3 / 4) 1 1 1 /\ haar_variance (3 / 4) 1 1 2 = Rpower 2 (1 / 2) * haar_variance (3 / 4) 1 1 1.
Proof.
  assert (HK : (1 <= 2 * (1 * (2 * 24 - 2)))%nat) by lia.
  exists (nat * bool)%type, (sign_space _ HK), (fun o => mkNoise (cplx_noise (2 * (1 * (2 * 24 - 2))) 1 (2 * 24 - 2) o) []).
  split; [apply cplx_noise_white|]. split; [left; split; [reflexivity|lra]|]. split; [|split; [|split; [|split; [|split]]]].
  - intros X HX. set (A := fun o => wavelet_analysis (map fin (X o)) PNone haar1 1 None 0 1 false).
    assert (G : forall o, exists T ws, A o = Ok (T, ws) /\ scales (wt_coefs T) = [1; 2]%Z).
    { intros o. destruct (HX o) as [H1 H2]. unfold A. destruct (X o) as [|s [|]]; cbn [length] in H1; try lia. inversion H2; subst. now apply scales_24_haar1. }
    exists (fun o => match A o with Ok r => fst r | Err _ => mkWT (new_mrq WaveletCoef 0) None 0%Z None end), (fun o => match A o with Ok r => snd r | Err _ => [] end).
    intros o. destruct (G o) as (t & ws & E1 & E2). rewrite E1. cbn [fst snd]. fold (A o). split; [exact E1|exact E2].
  - unfold inner. change (24 / 2 ^ (1 - 1))%nat with 24%nat. lia.
  - vm_compute. lia.
  - vm_compute. lia.
  - apply haar_variance_pos; lra.
  - unfold haar_variance. change (INR 1) with 1. replace (INR 2) with 2 by reflexivity. replace ((2 - 1) * (2 * (3 / 4) - 1)) with (1 / 2) by field.
    replace ((1 - 1) * (2 * (3 / 4) - 1)) with 0 by ring. rewrite (Rpower_O 2) by lra. ring.
Qed.

(** fbm: whatever j0, a long enough simulation has two scales above j0, so the hypotheses of C111_fbm_exponent can be met *)
Example C111_fbm_case : forall j0 : nat, exists N, exists W (P : expectation W) (drawn : W -> noise), (2 <= N)%nat /\
  white_complex P (shape_R (SInt N)) (2 * N - 2) (fun o => nz (drawn o)) /\ sampling_step (Some 1) N 1 /\
  (forall X : W -> list (list R), (forall o, length (X o) = 1%nat /\ Forall (fun s => length s = N) (X o)) ->
   exists T ws, (forall o, wavelet_analysis (map fin (X o)) PNone haar1 1 None 0 1 false = Ok (T o, ws o)) /\
   forall j, In j [Datatypes.S j0; Datatypes.S (Datatypes.S j0)] ->
     (1 <= j)%nat /\ (j0 <= j)%nat /\ (1 <= inner_count N 2 j)%nat /\ forall o, In (Z.of_nat j) (scales (wt_coefs (T o)))).
Proof.
  intros j0. set (N := (2 ^ (j0 + 4))%nat). exists N.
  assert (N2 : (16 <= N)%nat). { unfold N. change 16%nat with (2 ^ 4)%nat. apply Nat.pow_le_mono_r; lia. }
  assert (HK : (1 <= 2 * (1 * (2 * N - 2)))%nat) by lia.
  assert (IC : forall j, In j [Datatypes.S j0; Datatypes.S (Datatypes.S j0)] -> (3 <= inner_count N 2 j)%nat).
  { assert (Dv : forall i, (i <= j0 + 4)%nat -> (N / 2 ^ i = 2 ^ (j0 + 4 - i))%nat).
    { intros i Hi. unfold N. replace (j0 + 4)%nat with ((j0 + 4 - i) + i)%nat at 1 by lia. rewrite Nat.pow_add_r. apply Nat.div_mul, Nat.pow_nonzero. lia. }
    intros j [<-|[<-|[]]]; unfold inner_count; rewrite Dv by lia.
    - replace (j0 + 4 - (Datatypes.S j0 - 1))%nat with 4%nat by lia. vm_compute. lia.
    - replace (j0 + 4 - (Datatypes.S (Datatypes.S j0) - 1))%nat with 3%nat by lia. vm_compute. lia. }
  exists (nat * bool)%type, (sign_space _ HK), (fun o => mkNoise (cplx_noise (2 * (1 * (2 * N - 2))) 1 (2 * N - 2) o) []).
  split; [lia|]. split; [apply cplx_noise_white|]. split; [left; split; [reflexivity|lra]|].
  intros X HX. set (A := fun o => wavelet_analysis (map fin (X o)) PNone haar1 1 None 0 1 false).
  assert (G : forall o, exists T ws, A o = Ok (T, ws)).
  { intros o. destruct (HX o) as [H1 H2]. apply (C14_returns (X o) N); [intros C; rewrite C in H1; discriminate|lia|trivial|exact good_haar1|exact R1_neq_R0|now left]. }
  exists (fun o => match A o with Ok r => fst r | Err _ => mkWT (new_mrq WaveletCoef 0) None 0%Z None end), (fun o => match A o with Ok r => snd r | Err _ => [] end).
  split; [intros o; destruct (G o) as (t & ws & E); rewrite E; exact E|].
  intros j Hj. assert (I3 := IC j Hj). assert (J : (Datatypes.S j0 <= j)%nat) by (destruct Hj as [<-|[<-|[]]]; lia).
  split; [lia|]. split; [lia|]. split; [lia|]. intros o. destruct (G o) as (t & ws & E). rewrite E. cbn [fst]. destruct (HX o) as [H1 H2].
  apply (C99_scales (X o) N haar1 1%Z None 0 1 false t ws); [intros C; rewrite C in H1; discriminate|lia|trivial|exact good_haar1|exact R1_neq_R0|exact E|]. split; [lia|exact I3].
Qed.
