(** * C114, C115: concrete cases *)
From Coq Require Import Reals List ZArith Bool Lra Lia.
From Verif Require Import XReal PyBase ModelUtils ModelMRQ ModelWavelet ModelPSD ModelSimul ModelWelch Spec SpecMRQ SpecSimul LXReal LBase LPSD LDft LSimul LTransform LPattern LWave LPoly LWaveEst LWelch
  PropsWavelet PropsMissing PropsWhite PropsWhitePower PropsWhiteCase PropsWelch PropsWelchSine.
Import ListNotations.
Local Notation length := List.length.
Open Scope R_scope.

Definition got (r : res psd) : psd := match r with Ok p => p | Err _ => mkPSD [] (PSD1 []) end.
Lemma got_ok r : (exists p, r = Ok p) -> r = Ok (got r).
Proof. now intros [p ->]. Qed.

(** white noise on 24 samples, segments of 8 samples, transforms of 16 points, normalised Haar wavelet: the hypotheses of C114_methods_refuted *)
Example C114_case : let Pr := spikes 24 ltac:(lia) in
  exists Q V : bool * nat -> psd,
  stationary_signal Pr 24 (spike 24) (flat 1) /\ good_wavelet haar1 /\ orthonormal haar1 /\
  (forall o, welch (fin (spike 24 o)) 100 16 (Some 8%Z) = Ok (Q o)) /\
  (forall o, wavelet_estimation (fun _ => Some haar1) [fin (spike 24 o)] 100 1 None = Ok (V o)) /\
  (forall o, (1 < length (psd_freq (V o)))%nat) /\ (1 <= inner_count 24 (length (dec_hi haar1)) (1 + 1))%nat /\
  E Pr (fun o => number (spectrum_at (Q o) 3)) = 4 / PI /\
  E Pr (fun o => number (spectrum_at (Q o) 8)) = 2 / PI.
Proof.
  intros Pr. set (Q := fun o => got (welch (fin (spike 24 o)) 100 16 (Some 8%Z))).
  set (V := fun o => got (wavelet_estimation (fun _ => Some haar1) [fin (spike 24 o)] 100 1 None)).
  assert (WH : stationary_signal Pr 24 (spike 24) (flat 1)) by exact (spike_white 24 _).
  assert (HQ : forall o, welch (fin (spike 24 o)) 100 16 (Some 8%Z) = Ok (Q o)).
  { intros o. apply got_ok. apply C114_returns; [intros Z; assert (L := spike_length 24 o); rewrite Z in L; discriminate|].
    rewrite spike_length. change (asked_seg 16 (Some 8%Z)) with 8%nat. change (8 / 2)%nat with 4%nat. lia. }
  assert (HF : forall o, Forall (fun s => length s = 24%nat) [spike 24 o]) by (intros o; repeat constructor; apply spike_length).
  assert (HV : forall o, exists t ws, wavelet_analysis [fin (spike 24 o)] PNone haar1 1 None (1/2) 1 false = Ok (t, ws) /\ scales (wt_coefs t) = [1; 2]%Z).
  { intros o. destruct (C14_returns [spike 24 o] 24 haar1 PNone 1 None (1/2) 1 false ltac:(discriminate) ltac:(lia) (HF o) good_haar1 R1_neq_R0 ltac:(auto)) as (t & ws & E1).
    exists t, ws. split; [exact E1|]. apply wa_inv in E1 as (eta & X & -> & -> & _); [|exact good_haar1|exact R1_neq_R0|exact Logic.I].
    cbn [the_wt wt_coefs]. rewrite scales_mrq.
    rewrite (fin_ccount haar1 (1/2) 1 [spike 24 o] 24 PNone good_haar1 ltac:(discriminate) (HF o) Logic.I). unfold ccount_b, gcount_b, lev_b.
    change (length (dec_hi haar1)) with 2%nat. rewrite level_24_2. vm_compute. reflexivity. }
  exists Q, V. split; [exact WH|]. split; [exact good_haar1|]. split; [exact haar1_orthonormal|]. split; [exact HQ|].
  split; [|split; [|split; [|split]]].
  - intros o. apply got_ok. unfold wavelet_estimation. destruct (HV o) as (t & ws & -> & _). cbn [bind]. eauto.
  - intros o. unfold V, wavelet_estimation. destruct (HV o) as (t & ws & -> & SC). cbn [bind got psd_freq]. unfold wavelet_freq, dict_vals. rewrite !map_length, seq_length.
    unfold scales, dict_keys in SC. apply (f_equal (@length Z)) in SC. rewrite map_length in SC. rewrite SC. cbn. lia.
  - vm_compute. lia.
  - rewrite (C114_white Pr (spike 24) 24 100 16 (Some 8%Z) Q 1 ltac:(lia) HQ WH 3) by (vm_compute; lia).
    change (asked_nfft 16 (Some 8%Z)) with 16%nat. cbn [Nat.eqb Nat.mul Nat.add orb]. field. apply PI_neq0.
  - rewrite (C114_white Pr (spike 24) 24 100 16 (Some 8%Z) Q 1 ltac:(lia) HQ WH 8) by (vm_compute; lia).
    change (asked_nfft 16 (Some 8%Z)) with 16%nat. cbn [Nat.eqb Nat.mul Nat.add orb]. field. apply PI_neq0.
Qed.

(** a sinusoid of amplitude 3 on 20 samples, at frequency number 2 of transforms of 9 points (an odd number: the frequency given is wrong) *)
Example C115_case : let x := map (fun t => 3 * cos (2 * PI * INR 2 * INR t / INR 9 + 1)) (seq 0 20) in
  exists P, welch (fin x) 90 (Z.of_nat 9) None = Ok P /\ (2 + 2 <= 9 / 2)%nat /\ (9 <= length x)%nat /\
  (forall t, (t < length x)%nat -> nth t x 0 = 3 * cos (2 * PI * INR 2 * INR t / INR 9 + 1)) /\ nth 2 (psd_freq P) 0 = 45 / 2.
Proof.
  intros x. assert (L : length x = 20%nat) by reflexivity.
  assert (HX : forall t, (t < length x)%nat -> nth t x 0 = 3 * cos (2 * PI * INR 2 * INR t / INR 9 + 1)).
  { intros t Ht. unfold x. rewrite (nth_map_lt _ _ _ 0%nat) by (rewrite seq_length; lia). rewrite seq_nth by lia. reflexivity. }
  destruct (proj2 (C114_returns x 90 (Z.of_nat 9) None ltac:(intros Z; rewrite Z in L; discriminate))) as [P HP].
  { rewrite L. vm_compute. lia. }
  exists P. split; [exact HP|]. split; [vm_compute; lia|]. split; [rewrite L; lia|]. split; [exact HX|].
  destruct (C115_frequency_refuted 3 1 90 9 2 x P ltac:(lra) ltac:(lia) ltac:(vm_compute; lia) ltac:(rewrite L; lia) HX HP) as (_ & _ & H).
  destruct (H eq_refl) as [-> _]. cbn [INR]. field.
Qed.
