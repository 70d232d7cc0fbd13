(** * C92, continued: IEEE 754 binary64 is such a machine *)
From Coq Require Import Reals List ZArith Bool Lra Lia Permutation.
From Flocq Require Core Relative.
From Verif Require Import XReal PyBase ModelUtils ModelMRQ ModelStructure ModelWavelet ModelRounded Spec SpecMRQ LTransform PropsWavelet PropsLeaders LWave LWaveEst PropsRounded.
Import ListNotations.
Open Scope R_scope.
Local Notation length := List.length.

(** rounding to nearest, ties to even, in binary64 (no overflow), and with 53 bits and any exponent *)
Definition rnd64 (x : R) : R := Core.Generic_fmt.round Core.Zaux.radix2 (Core.FLT.FLT_exp (-1074) 53) Core.Round_NE.ZnearestE x.
Definition rnd53 (x : R) : R := Core.Generic_fmt.round Core.Zaux.radix2 (Core.FLX.FLX_exp 53) Core.Round_NE.ZnearestE x.
Definition u64 : R := / 2 ^ 53.
Definition eta64 : R := / 2 ^ 1075.
(** inner product accumulated from left to right *)
Fixpoint dot_from (acc : R) (l : list (R * R)) : R :=
  match l with [] => acc | (h, a) :: l' => dot_from (rnd64 (acc + rnd64 (h * a))) l' end.
Definition dot_left (l : list (R * R)) : R := match l with [] => 0 | (h, a) :: l' => dot_from (rnd64 (h * a)) l' end.
Definition binary64 : machine :=
  mkMachine (fun a b => rnd64 (a + b)) (fun a b => rnd64 (a * b)) (fun h a x => rnd64 (h * a + x)) (fun _ _ _ _ => dot_left)
    (fun norm s => rnd53 (Rpower 2 (IZR s * (1 / 2 - 1 / norm)))) (fun gam s => rnd53 (Rpower 2 (gam * IZR s))).

Lemma bpow_neg n : Core.Raux.bpow Core.Zaux.radix2 (- Z.of_nat n) = / 2 ^ n.
Proof.
  rewrite Core.Raux.bpow_opp. f_equal. rewrite Core.Raux.bpow_powerRZ. cbn [Core.Zaux.radix2 Core.Zaux.radix_val]. rewrite <- pow_powerRZ. reflexivity.
Qed.
Lemma half_pow n : / 2 * / 2 ^ n = / 2 ^ (S n).
Proof. rewrite <- tech_pow_Rmult, Rinv_mult. reflexivity. Qed.
Lemma u64_eq : / 2 * Core.Raux.bpow Core.Zaux.radix2 (- (53) + 1) = u64.
Proof. change (- (53) + 1)%Z with (- Z.of_nat 52)%Z. rewrite bpow_neg. exact (half_pow 52). Qed.
Lemma eta64_eq : / 2 * Core.Raux.bpow Core.Zaux.radix2 (-1074) = eta64.
Proof. change (-1074)%Z with (- Z.of_nat 1074)%Z. rewrite bpow_neg. exact (half_pow 1074). Qed.
Lemma rnd64_err x : Rabs (rnd64 x - x) <= u64 * Rabs x + eta64.
Proof.
  destruct (Relative.error_N_FLT Core.Zaux.radix2 (-1074) 53 ltac:(reflexivity) (fun t => negb (Z.even t)) x) as (eps & eta & H1 & H2 & _ & H3).
  assert (H4 : rnd64 x = x * (1 + eps) + eta) by exact H3. rewrite H4. rewrite u64_eq in H1. rewrite eta64_eq in H2.
  replace (x * (1 + eps) + eta - x) with (x * eps + eta) by ring. eapply Rle_trans; [apply Rabs_triang|]. rewrite Rabs_mult.
  assert (P := Rabs_pos x). assert (Rabs x * Rabs eps <= Rabs x * u64) by now apply Rmult_le_compat_l. lra.
Qed.
Lemma rnd53_err x : 0 < x -> Rabs (rnd53 x - x) <= u64 * x.
Proof.
  intros Hx. assert (H := Relative.relative_error_N_FLX Core.Zaux.radix2 53 ltac:(reflexivity) (fun t => negb (Z.even t)) x).
  rewrite u64_eq, (Rabs_pos_eq x) in H by lra. exact H.
Qed.
Lemma dot_left_to l : l <> [] -> dot_to binary64 l (dot_left l).
Proof.
  revert l. assert (G : forall l done acc, dot_to binary64 done acc -> dot_to binary64 (done ++ l) (dot_from acc l)).
  { induction l as [|[h a] l IH]; intros done acc H; cbn [dot_from]; [now rewrite app_nil_r|].
    change (done ++ (h, a) :: l) with (done ++ [(h, a)] ++ l). rewrite app_assoc. apply IH.
    apply (dot_add binary64 _ done [(h, a)] acc (rnd64 (h * a))); [reflexivity|exact H|]. apply (dot_mul binary64 h a). }
  intros [|[h a] l]; [congruence|]. intros _. apply (G l [(h, a)]). apply (dot_mul binary64 h a).
Qed.
Lemma accurate64 : accurate u64 u64 eta64 binary64.
Proof.
  repeat split; cbn; intros; try apply rnd64_err; try now apply dot_left_to.
  all: apply rnd53_err; apply exp_pos.
Qed.
Lemma u64_nonneg : 0 <= u64.
Proof. left. apply Rinv_0_lt_compat, pow_lt. lra. Qed.
Lemma eta64_nonneg : 0 <= eta64.
Proof. left. apply Rinv_0_lt_compat, pow_lt. lra. Qed.

(** the transform computed in binary64 *)
Theorem C92_binary64 X w signal (leaders : bool) j1 j2 gam norm weighted t ws :
  0 <= X -> good_wavelet w -> samples_within X signal ->
  wavelet_analysis signal (if leaders then PInfty else PNone) w j1 j2 gam norm weighted = Ok (t, ws) ->
  exists t', wavelet_analysis_f binary64 signal leaders w j2 gam norm = Ok (t', ws) /\ rounded_close u64 u64 eta64 X w norm gam t t'.
Proof.
  intros X0 Hw HS HT.
  assert (K := C92_rounded_transform binary64 u64 u64 eta64 X w signal leaders j1 j2 gam norm weighted u64_nonneg u64_nonneg eta64_nonneg X0 accurate64 Hw HS).
  rewrite HT in K. exact K.
Qed.

(** a concrete case: the ramp 0, ..., 23 with Haar filters; the exact coefficient 2 at scale 2 is computed to 12 digits *)
Lemma ramp_bound : coef_bound u64 u64 eta64 23 haar 1 0 2 <= / 10 ^ 12.
Proof.
  assert (E : eta64 <= / 2 ^ 53). { unfold eta64. apply Rinv_le_contravar; [apply pow_lt; lra|]. apply Rle_pow; [lra|]. apply Nat.leb_le. reflexivity. }
  assert (E0 := eta64_nonneg). unfold coef_bound, coef_err, detail_err, underflow. change (2 - 1)%nat with 1%nat. cbn [approx_err]. unfold underflow, growth.
  assert (N1 : norm1 (dec_hi haar) = 2) by (unfold norm1, Rsum; cbn; rewrite Rabs_R1, (Rabs_left (-1)) by lra; lra).
  assert (N2 : norm1 (dec_lo haar) = 2) by (unfold norm1, Rsum; cbn; rewrite Rabs_R1; lra).
  rewrite N1, N2. change (length (dec_hi haar)) with 2%nat.
  replace (Rpower 2 (INR 2 * (1 / 2 - 1 / 1))) with (/ 2). 2:{ replace (INR 2 * (1 / 2 - 1 / 1)) with (- (1)) by (cbn; field). rewrite Rpower_Ropp, Rpower_1 by lra. reflexivity. }
  replace (Rpower 2 (0 * INR 2)) with 1 by (rewrite Rmult_0_l, Rpower_O by lra; reflexivity).
  replace (INR 2) with 2 by (cbn; lra). unfold u64. generalize dependent eta64. intros eta E E0.
  replace (2 ^ 53) with 9007199254740992 in * by (cbn; lra). replace (10 ^ 12) with 1000000000000 by (cbn; lra). cbn [pow]. lra.
Qed.

Lemma ramp_within : samples_within 23 [fin ramp].
Proof.
  intros c x [<-|[]] Hx. unfold fin in Hx. apply in_map_iff in Hx as (a & <- & Ha). right. exists a. split; [reflexivity|].
  unfold ramp in Ha. apply in_map_iff in Ha as (z & <- & Hz). assert (0 <= z < 24)%Z as [Z1 Z2].
  { unfold zrange in Hz. apply in_map_iff in Hz as (k & <- & Hk). apply in_seq in Hk. cbn in Hk. lia. }
  apply IZR_le in Z1. assert (Z3 : (z <= 23)%Z) by lia. apply IZR_le in Z3. rewrite Rabs_pos_eq; lra.
Qed.
Example binary64_case : exists t' l' ws, wavelet_analysis_f binary64 [fin ramp] true haar None 0 1 = Ok (t', ws) /\
  scales (wt_coefs t') = [1; 2]%Z /\ wt_leaders t' = Some l' /\ scales l' = [1; 2]%Z /\ j2_eff t' = 2%Z /\
  exists y, entry (wt_coefs t') 2 0 0 = Fin y /\ Rabs (y - 2) <= / 10 ^ 12.
Proof.
  assert (N : [ramp] <> []) by discriminate. assert (H : Forall (fun s => length s = 24%nat) [ramp]) by (repeat constructor).
  destruct (wavelet_case [ramp] N H) as (t & l & ws & E & H1 & H2 & H3 & H4 & H5). cbn [map] in E.
  destruct (C92_binary64 23 haar [fin ramp] true 1 None 0 1 true t ws ltac:(lra) good_haar ramp_within E) as (t' & E' & J & C & L).
  rewrite H2 in L. destruct (wt_leaders t') as [l'|] eqn:EL; [|contradiction]. exists t', l', ws.
  split; [exact E'|]. split; [rewrite (proj1 C); exact H1|]. split; [exact EL|]. split; [rewrite (proj1 L); exact H3|]. split; [congruence|].
  assert (X : entry (wt_coefs t) 2 0 0 = Fin 2).
  { apply wa_inv in E as (eta & _ & -> & _); [|exact good_haar|exact R1_neq_R0|exact I]. unfold the_wt. cbn [wt_coefs].
    destruct (haar_count 0 PInfty I eq_refl) as (_ & K & _). rewrite K. unfold entry, mrq_of. cbn [mq_values]. change 2%Z with (Z.of_nat 2).
    rewrite table_get by lia. rewrite Cf_nth_lt by (simpl; lia). cbn [nth]. unfold coef. rewrite rescale_eq, ramp_d2. cbn [repeat app map nth xmul]. f_equal.
    replace (0 * IZR (Z.of_nat 2) + IZR (Z.of_nat 2) * (1 / 2 - 1 / 1)) with (- (1)) by (cbn; field). rewrite Rpower_Ropp, Rpower_1 by lra. change (IZR (Z.of_nat 2)) with 2. lra. }
  destruct C as (_ & _ & _ & C). destruct (C 2%Z 0%nat 0%nat 2 X) as (y & Y1 & Y2). exists y. split; [exact Y1|]. eapply Rle_trans; [exact Y2|]. exact ramp_bound.
Qed.
Print Assumptions C92_binary64.
