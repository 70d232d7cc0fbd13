(** * C110: a concrete case (the Daubechies wavelet with two vanishing moments) *)
From Coq Require Import Reals List ZArith Bool Lra Lia String.
From Verif Require Import XReal PyBase ModelUtils ModelMRQ ModelStructure ModelWavelet ModelSimul Spec SpecMRQ SpecSimul LXReal LUtils LBase LFilter LTransform LPattern LWave LPoly LCone LWaveEst LDft LSimul LEst LNoise
  PropsWavelet PropsMissing PropsSlope PropsWhite PropsWhitePower PropsSimul PropsWhiteFbm PropsRounded LTaps PropsDecorr PropsShortRange.
Import ListNotations.
Open Scope R_scope.
Local Notation length := List.length.

(** pywt.Wavelet('db2'): dec_hi and dec_lo *)
Definition db2 : wavelet :=
  let c := / (4 * sqrt 2) in let t := sqrt 3 in
  mkWavelet [- (1 + t) * c; (3 + t) * c; - (3 - t) * c; (1 - t) * c] [(1 - t) * c; (3 - t) * c; (3 + t) * c; (1 + t) * c].
Lemma good_db2 : good_wavelet db2. Proof. split; cbn; lia. Qed.
Lemma db2_moments : vanishing_moments (dec_hi db2) 2.
Proof.
  intros [|[|i]] Hi; [| |lia]; unfold Rsum; cbn [db2 dec_hi length seq map fold_right nth pow]; change (INR 0) with 0; change (INR 1) with 1; change (INR 2) with 2;
    replace (INR 3) with 3 by (cbn; ring); ring.
Qed.
Lemma cc : / (4 * sqrt 2) * / (4 * sqrt 2) = / 32.
Proof. rewrite <- Rinv_mult. f_equal. replace (4 * sqrt 2 * (4 * sqrt 2)) with (16 * (sqrt 2 * sqrt 2)) by ring. rewrite sqrt_sqrt by lra. ring. Qed.
Lemma shifted4 f g m : length f = 4%nat -> length g = 4%nat ->
  translate_product f g m = if Z.eq_dec m 0 then nth 0 f 0 * nth 0 g 0 + nth 1 f 0 * nth 1 g 0 + nth 2 f 0 * nth 2 g 0 + nth 3 f 0 * nth 3 g 0
    else if Z.eq_dec m 1 then nth 0 f 0 * nth 2 g 0 + nth 1 f 0 * nth 3 g 0 else if Z.eq_dec m (-1) then nth 2 f 0 * nth 0 g 0 + nth 3 f 0 * nth 1 g 0 else 0.
Proof.
  intros Hf Hg. unfold translate_product. rewrite Hf. rewrite !sumn_S, sumn_0. cbv zeta.
  assert (G : forall a, (a + 2 * m < 0 \/ 4 <= a + 2 * m)%Z -> (if (a + 2 * m <? 0)%Z then 0 else nth (Z.to_nat (a + 2 * m)) g 0) = 0).
  { intros z Hz. destruct (Z.ltb_spec (z + 2 * m) 0); [reflexivity|]. apply nth_overflow. rewrite Hg. lia. }
  assert (F : forall a i, (a + 2 * m = Z.of_nat i)%Z -> (if (a + 2 * m <? 0)%Z then 0 else nth (Z.to_nat (a + 2 * m)) g 0) = nth i g 0).
  { intros z i Hz. rewrite Hz. destruct (Z.ltb_spec (Z.of_nat i) 0); [lia|]. now rewrite Nat2Z.id. }
  destruct (Z.eq_dec m 0) as [E0|N0].
  { rewrite (F (Z.of_nat 0) 0%nat), (F (Z.of_nat 1) 1%nat), (F (Z.of_nat 2) 2%nat), (F (Z.of_nat 3) 3%nat) by lia. ring. }
  destruct (Z.eq_dec m 1) as [E1|N1].
  { rewrite (F (Z.of_nat 0) 2%nat), (F (Z.of_nat 1) 3%nat), (G (Z.of_nat 2)), (G (Z.of_nat 3)) by lia. ring. }
  destruct (Z.eq_dec m (-1)) as [E2|N2].
  { rewrite (G (Z.of_nat 0)), (G (Z.of_nat 1)), (F (Z.of_nat 2) 0%nat), (F (Z.of_nat 3) 1%nat) by lia. ring. }
  rewrite !G by lia. ring.
Qed.
(** it is orthonormal: C108 and C109 apply to it *)
Lemma db2_orthonormal : orthonormal db2.
Proof.
  intros m. rewrite !shifted4 by reflexivity. cbn [db2 dec_lo dec_hi nth]. set (c := / (4 * sqrt 2)). assert (C2 : c * c = / 32) by apply cc.
  set (t := sqrt 3). assert (T2 : t * t = 3) by (apply sqrt_sqrt; lra).
  assert (G : forall x y, x * c * (y * c) = x * y / 32) by (intros; replace (x * c * (y * c)) with (x * y * (c * c)) by ring; rewrite C2; reflexivity). rewrite !G.
  destruct (Z.eq_dec m 0); [repeat split; nra|]. destruct (Z.eq_dec m 1); [repeat split; nra|]. destruct (Z.eq_dec m (-1)); [repeat split; nra|]. repeat split; reflexivity.
Qed.
Lemma level_24_4 : decomposition_level 24 4 = Ok 2%Z.
Proof.
  destruct (PropsUtils.C12_largest_level 24 4) as (m & E & Hm); [lia|]. rewrite E. f_equal.
  assert (A : (2 <= m)%Z) by (apply Hm; simpl; lra).
  assert (B : ~ (3 <= m)%Z) by (rewrite Hm; simpl; lra). lia.
Qed.
Lemma scales_24_db2 s p : length s = 24%nat -> p = PNone ->
  exists T ws, wavelet_analysis (map fin [s]) p db2 1 None 0 1 false = Ok (T, ws) /\ scales (wt_coefs T) = [1; 2]%Z.
Proof.
  intros Hs ->. assert (HF : Forall (fun s => length s = 24%nat) [s]) by (now repeat constructor).
  destruct (C14_returns [s] 24 db2 PNone 1 None 0 1 false ltac:(discriminate) ltac:(lia) HF good_db2 R1_neq_R0 ltac:(auto)) as (t & ws & E1).
  exists t, ws. split; [exact E1|]. apply wa_inv in E1 as (eta & X & -> & -> & _); [|exact good_db2|exact R1_neq_R0|exact I].
  cbn [the_wt wt_coefs]. rewrite scales_mrq. rewrite (fin_ccount db2 0 1 [s] 24 PNone good_db2 ltac:(discriminate) HF I). unfold ccount_b, gcount_b, lev_b.
  change (length (dec_hi db2)) with 4%nat. rewrite level_24_4. vm_compute. reflexivity.
Qed.

(** 24 samples of fbm(0.7), analysed with db2: the hypotheses of C110_fbm and C110_fgn hold, for coefficients 1 and 9 of scale 1 *)
Example C110_case : exists W (P : expectation W) (drawn : W -> noise),
  white_complex P (shape_R (SInt 24)) (2 * 24 - 2) (fun o => nz (drawn o)) /\ sampling_step (Some 1) 24 1 /\
  good_wavelet db2 /\ vanishing_moments (dec_hi db2) 2 /\ orthonormal db2 /\
  (forall X : W -> list (list R), (forall o, length (X o) = 1%nat /\ Forall (fun s => length s = 24%nat) (X o)) ->
   exists T ws, forall o, wavelet_analysis (map fin (X o)) PNone db2 1 None 0 1 false = Ok (T o, ws o) /\ In (Z.of_nat 1) (scales (wt_coefs (T o)))) /\
  inner 24 (length (dec_hi db2)) 1 1 /\ inner 24 (length (dec_hi db2)) 1 9 /\ spread db2 1 + 1 < lag 1 1 9 /\ lag 1 1 9 = 16.
Proof.
  assert (HK : (1 <= 2 * (1 * (2 * 24 - 2)))%nat) by lia.
  exists (nat * bool)%type, (sign_space _ HK), (fun o => mkNoise (cplx_noise (2 * (1 * (2 * 24 - 2))) 1 (2 * 24 - 2) o) []).
  split; [apply cplx_noise_white|]. split; [left; split; [reflexivity|lra]|]. split; [exact good_db2|]. split; [exact db2_moments|]. split; [exact db2_orthonormal|].
  assert (LG : lag 1 1 9 = 16). { unfold lag. replace (INR 9) with 9 by (cbn; ring). change (INR 1) with 1. rewrite Rabs_left by lra. simpl. ring. }
  split; [|split; [|split; [|split]]].
  - intros X HX. set (A := fun o => wavelet_analysis (map fin (X o)) PNone db2 1 None 0 1 false).
    assert (G : forall o, exists T ws, A o = Ok (T, ws) /\ scales (wt_coefs T) = [1; 2]%Z).
    { intros o. destruct (HX o) as [H1 H2]. unfold A. destruct (X o) as [|s [|]]; cbn [length] in H1; try lia. inversion H2; subst. now apply scales_24_db2. }
    exists (fun o => match A o with Ok r => fst r | Err _ => mkWT (new_mrq WaveletCoef 0) None 0%Z None end), (fun o => match A o with Ok r => snd r | Err _ => [] end).
    intros o. destruct (G o) as (t & ws & E1 & E2). rewrite E1. cbn [fst snd]. fold (A o). split; [exact E1|]. rewrite E2. now left.
  - change (length (dec_hi db2)) with 4%nat. unfold inner. change (24 / 2 ^ (1 - 1))%nat with 24%nat. lia.
  - change (length (dec_hi db2)) with 4%nat. unfold inner. change (24 / 2 ^ (1 - 1))%nat with 24%nat. lia.
  - rewrite LG. unfold spread. change (length (dec_hi db2)) with 4%nat. replace (INR 4) with 4 by (cbn; ring). simpl. lra.
  - exact LG.
Qed.
