(** * C115: a sinusoid in the Fourier (Welch) spectrum *)
From Coq Require Import Reals List ZArith Bool Lra Lia.
From Verif Require Import XReal PyBase ModelUtils ModelMRQ ModelWavelet ModelPSD ModelSimul ModelWelch Spec LXReal LBase LPSD LDft LWelch PropsSlope PropsWelch.
Import ListNotations.
Local Notation length := List.length.
Open Scope R_scope.

(** height of the Hamming window's transform at distance 0, 1 and more from a Fourier frequency, up to a common factor *)
Definition leak (k0 k : nat) : R := if Nat.eqb k k0 then 54 / 100 else if Nat.eqb k (k0 + 1) || Nat.eqb (k + 1) k0 then 23 / 100 else 0.
Definition sleak (k0 k : nat) : R := if Nat.eqb k k0 then 54 / 100 else if Nat.eqb k (k0 + 1) || Nat.eqb (k + 1) k0 then - 23 / 100 else 0.

Definition D (M : nat) (d : Z) : R := if Z.eq_dec (d mod Z.of_nat M) 0 then INR M else 0.
Lemma D_small M d : (- Z.of_nat M < d < Z.of_nat M)%Z -> D M d = if Z.eq_dec d 0 then INR M else 0.
Proof.
  intros H. unfold D. destruct (Z.eq_dec d 0) as [->|N].
  - rewrite Z.mod_0_l by lia. now destruct (Z.eq_dec 0 0).
  - destruct (Z.eq_dec _ 0) as [E|_]; [|reflexivity]. exfalso. apply Z.mod_divide in E as [q E]; [|lia].
    assert (q = 0)%Z by (destruct (Z_le_gt_dec q (-1)); [nia|destruct (Z_le_gt_dec q 0); [lia|nia]]). subst q. lia.
Qed.
(** a whole number of turns *)
Lemma shifted M d psi : (1 <= M)%nat ->
  sumn M (fun n => cos (ang M d n + psi)) = D M d * cos psi /\ sumn M (fun n => sin (ang M d n + psi)) = D M d * sin psi.
Proof.
  intros H. destruct (orthogonality M d H) as [C S]. fold (D M d) in C. split.
  - rewrite (sumn_ext M _ (fun n => cos (ang M d n) * cos psi - sin (ang M d n) * sin psi)) by (intros; apply cos_plus).
    rewrite sumn_minus, !sumn_scal_r, C, S. ring.
  - rewrite (sumn_ext M _ (fun n => sin (ang M d n) * cos psi + cos (ang M d n) * sin psi)) by (intros; apply sin_plus).
    rewrite sumn_plus, !sumn_scal_r, C, S. ring.
Qed.
Lemma energy_eq M : (3 <= M)%nat -> window_energy M = INR M * ((54 / 100) ^ 2 + (46 / 100) ^ 2 / 2).
Proof.
  intros H. unfold window_energy.
  rewrite (sumn_ext M _ (fun n => ((54 / 100) ^ 2 + (46 / 100) ^ 2 / 2) - 2 * (54 / 100) * (46 / 100) * cos (ang M 1 n + 0) + (46 / 100) ^ 2 / 2 * cos (ang M 2 n + 0))).
  - rewrite sumn_plus, sumn_minus, !sumn_scal, sumn_const. destruct (shifted M 1 0 ltac:(lia)) as [-> _]. destruct (shifted M 2 0 ltac:(lia)) as [-> _].
    rewrite !D_small by lia. destruct (Z.eq_dec 1 0); [lia|]. destruct (Z.eq_dec 2 0); [lia|]. ring.
  - intros n _. unfold window. destruct (Nat.eqb_spec M 1); [lia|]. rewrite !Rplus_0_r.
    replace (2 * PI * INR n / INR M) with (ang M 1 n) by (unfold ang, Rdiv; ring).
    replace (ang M 2 n) with (2 * ang M 1 n) by (unfold ang, Rdiv; ring). rewrite cos_2a_cos. field.
Qed.
Lemma product_cos a b u v t : (a - b * cos u) * cos v * cos t =
  a / 2 * (cos (v + t) + cos (v - t)) - b / 4 * (cos (v + t + u) + cos (v + t - u) + cos (v - t + u) + cos (v - t - u)).
Proof. do 3 rewrite ?cos_plus, ?cos_minus, ?sin_plus, ?sin_minus. field. Qed.
Lemma product_sin a b u v t : (a - b * cos u) * cos v * sin t =
  a / 2 * (sin (v + t) - sin (v - t)) - b / 4 * (sin (v + t + u) + sin (v + t - u) - sin (v - t + u) - sin (v - t - u)).
Proof. do 3 rewrite ?cos_plus, ?cos_minus, ?sin_plus, ?sin_minus. field. Qed.

Lemma sine_power M A k0 psi k : (2 <= k0)%nat -> (k0 + 2 <= M / 2)%nat -> (k <= M / 2)%nat ->
  power M M (fun n => A * cos (2 * PI * INR k0 * INR n / INR M + psi)) k = (A * INR M / 2 * leak k0 k) ^ 2.
Proof.
  intros H1 H2 Hk. assert (D2 := Nat.mul_div_le M 2 ltac:(lia)).
  set (zk0 := Z.of_nat k0). set (zk := Z.of_nat k).
  assert (AN : forall d e n, ang M d n + psi + ang M e n = ang M (d + e) n + psi) by (intros; rewrite ang_plus; ring).
  assert (AM : forall d e n, ang M d n + psi - ang M e n = ang M (d - e) n + psi) by (intros; rewrite ang_minus; ring).
  assert (W : forall n, window M n = 54 / 100 - 46 / 100 * cos (ang M 1 n)).
  { intros n. unfold window. destruct (Nat.eqb_spec M 1); [lia|]. f_equal. f_equal. f_equal. unfold ang, Rdiv. ring. }
  assert (K0 : forall n, 2 * PI * INR k0 * INR n / INR M = ang M zk0 n) by (intros; unfold ang, zk0; rewrite <- INR_IZR_INZ; unfold Rdiv; ring).
  assert (K : forall n, 2 * PI * INR k * INR n / INR M = ang M zk n) by (intros; unfold ang, zk; rewrite <- INR_IZR_INZ; unfold Rdiv; ring).
  assert (RE : sumn M (fun n => window M n * (A * cos (2 * PI * INR k0 * INR n / INR M + psi)) * cos (2 * PI * INR k * INR n / INR M)) = A * INR M / 2 * sleak k0 k * cos psi /\
               sumn M (fun n => window M n * (A * cos (2 * PI * INR k0 * INR n / INR M + psi)) * sin (2 * PI * INR k * INR n / INR M)) = - (A * INR M / 2 * sleak k0 k * sin psi)).
  { assert (LK : 54 / 100 / 2 * D M (zk0 - zk) - 46 / 100 / 4 * (D M (zk0 - zk + 1) + D M (zk0 - zk - 1)) = INR M / 2 * sleak k0 k /\
                 D M (zk0 + zk) = 0 /\ D M (zk0 + zk + 1) = 0 /\ D M (zk0 + zk - 1) = 0).
    { assert (Z0 : zk0 = Z.of_nat k0) by reflexivity. assert (Z1 : zk = Z.of_nat k) by reflexivity. clearbody zk0 zk. clear K0 K AN AM W.
      rewrite !D_small by lia. unfold sleak.
      destruct (Z.eq_dec (zk0 + zk) 0); [lia|]. destruct (Z.eq_dec (zk0 + zk + 1) 0); [lia|].
      destruct (Z.eq_dec (zk0 + zk - 1) 0); [lia|]. split; [|repeat split].
      destruct (Z.eq_dec (zk0 - zk) 0), (Z.eq_dec (zk0 - zk + 1) 0), (Z.eq_dec (zk0 - zk - 1) 0), (Nat.eqb_spec k k0), (Nat.eqb_spec k (k0 + 1)), (Nat.eqb_spec (k + 1) k0);
        cbn [orb]; first [exfalso; lia | field]. }
    destruct LK as (LK & D0 & Dp & Dm). split.
    - rewrite (sumn_ext M _ (fun n => A * (54 / 100 / 2 * (cos (ang M (zk0 + zk) n + psi) + cos (ang M (zk0 - zk) n + psi)) -
          46 / 100 / 4 * (cos (ang M (zk0 + zk + 1) n + psi) + cos (ang M (zk0 + zk - 1) n + psi) + cos (ang M (zk0 - zk + 1) n + psi) + cos (ang M (zk0 - zk - 1) n + psi))))).
      2:{ intros n _. rewrite W, K0, K. rewrite <- ?AM, <- ?AN, <- ?AM, <- ?AN. etransitivity; [|apply f_equal, product_cos]. ring. }
      rewrite sumn_scal, sumn_minus, !sumn_scal, !sumn_plus. rewrite !(proj1 (shifted M _ psi ltac:(lia))), D0, Dp, Dm. 
      transitivity (A * (54 / 100 / 2 * D M (zk0 - zk) - 46 / 100 / 4 * (D M (zk0 - zk + 1) + D M (zk0 - zk - 1))) * cos psi); [ring|]. rewrite LK. field.
    - rewrite (sumn_ext M _ (fun n => A * (54 / 100 / 2 * (sin (ang M (zk0 + zk) n + psi) - sin (ang M (zk0 - zk) n + psi)) -
          46 / 100 / 4 * (sin (ang M (zk0 + zk + 1) n + psi) + sin (ang M (zk0 + zk - 1) n + psi) - sin (ang M (zk0 - zk + 1) n + psi) - sin (ang M (zk0 - zk - 1) n + psi))))).
      2:{ intros n _. rewrite W, K0, K. rewrite <- ?AM, <- ?AN, <- ?AM, <- ?AN. etransitivity; [|apply f_equal, product_sin]. ring. }
      rewrite sumn_scal, sumn_minus, !sumn_scal, !sumn_minus, !sumn_plus. rewrite !(proj2 (shifted M _ psi ltac:(lia))), D0, Dp, Dm. 
      transitivity (- (A * (54 / 100 / 2 * D M (zk0 - zk) - 46 / 100 / 4 * (D M (zk0 - zk + 1) + D M (zk0 - zk - 1))) * sin psi)); [ring|]. rewrite LK. field. }
  replace ((A * INR M / 2 * leak k0 k) ^ 2) with ((A * INR M / 2 * sleak k0 k) ^ 2) by (unfold leak, sleak; destruct (Nat.eqb k k0); [field|]; destruct (_ || _); field).
  unfold power. destruct RE as [-> ->]. assert (S2 := sin2_cos2 psi). unfold Rsqr in S2.
  transitivity ((A * INR M / 2 * sleak k0 k) ^ 2 * (sin psi * sin psi + cos psi * cos psi)); [ring|]. rewrite S2. ring.
Qed.

(** A sinusoid of amplitude A at Fourier frequency number k0 of a transform of M points, recorded for at least M samples: its power shows at
    k0, ((23/54)^2 of it) at the two neighbours, and nowhere else, whatever its phase *)
Theorem C115_sinusoid :
  forall A phi fs M k0 (x : list R) P, (2 <= k0)%nat -> (k0 + 2 <= M / 2)%nat -> (M <= length x)%nat ->
  (forall t, (t < length x)%nat -> nth t x 0 = A * cos (2 * PI * INR k0 * INR t / INR M + phi)) ->
  welch (fin x) fs (Z.of_nat M) None = Ok P ->
  forall k, (k <= M / 2)%nat ->
  spectrum_at P k = Fin (A ^ 2 * INR M / PI * leak k0 k ^ 2 / ((54 / 100) ^ 2 + (46 / 100) ^ 2 / 2)).
Proof.
  intros A phi fs M k0 x P H1 H2 HL HX E k Hk. assert (D2 := Nat.mul_div_le M 2 ltac:(lia)).
  assert (NX : x <> []) by (intros ->; cbn in HL; lia).
  destruct (C114_value x fs (Z.of_nat M) None P NX E) as (S1 & S2 & S3 & _ & _ & V).
  assert (ES : asked_seg (Z.of_nat M) None = M) by (unfold asked_seg; apply Nat2Z.id).
  assert (EF : asked_nfft (Z.of_nat M) None = M) by (unfold asked_nfft; rewrite ES, Nat2Z.id; apply Nat.max_id).
  rewrite ES, EF in *. rewrite V by exact Hk. clear V. f_equal.
  assert (SL : seg_length M (length x) = M) by (unfold seg_length; lia). rewrite SL.
  assert (NS : sides M k * leak k0 k = 2 * leak k0 k).
  { unfold sides, leak. destruct (Nat.eqb_spec k 0) as [Z|N]; [|destruct (Nat.eqb_spec (2 * k) M) as [Z|N2]]; cbn [orb]; try ring;
      destruct (Nat.eqb_spec k k0), (Nat.eqb_spec k (k0 + 1)), (Nat.eqb_spec (k + 1) k0); cbn [orb]; try lia; ring. }
  unfold over_segments.
  rewrite (sumn_ext _ _ (fun _ => (A * INR M / 2 * leak k0 k) ^ 2)).
  2:{ intros i Hi. rewrite <- (sine_power M A k0 (phi + 2 * PI * INR k0 * INR (i * seg_step M (length x)) / INR M) k H1 H2 Hk).
      apply power_ext. intros a Ha. rewrite HX by (apply segment_inside; trivial; lia). f_equal. f_equal. rewrite plus_INR. unfold Rdiv. ring. }
  rewrite sumn_const, energy_eq by lia. assert (CP : 0 < INR (seg_count M (length x))) by (apply lt_0_INR; lia). assert (MP : 0 < INR M) by (apply lt_0_INR; lia). assert (PP := PI_RGT_0).
  transitivity (4 / (2 * PI * (INR M * ((54 / 100) ^ 2 + (46 / 100) ^ 2 / 2))) * (A * INR M / 2) ^ 2 * leak k0 k * (sides M k * leak k0 k)); [field; repeat split; lra|].
  rewrite NS. field. repeat split; lra.
Qed.
Print Assumptions C115_sinusoid.

(** hence the spectrum has one strict maximum, at k0 *)
Theorem C115_peak :
  forall A phi fs M k0 (x : list R) P, A <> 0 -> (2 <= k0)%nat -> (k0 + 2 <= M / 2)%nat -> (M <= length x)%nat ->
  (forall t, (t < length x)%nat -> nth t x 0 = A * cos (2 * PI * INR k0 * INR t / INR M + phi)) ->
  welch (fin x) fs (Z.of_nat M) None = Ok P ->
  exists peak, 0 < peak /\ spectrum_at P k0 = Fin peak /\
  forall k, (k <= M / 2)%nat -> k <> k0 -> exists v, spectrum_at P k = Fin v /\ v < peak /\
    v = (if Nat.eqb k (k0 + 1) || Nat.eqb (k + 1) k0 then (23 / 54) ^ 2 * peak else 0).
Proof.
  intros A phi fs M k0 x P HA H1 H2 HL HX E. assert (D2 := Nat.mul_div_le M 2 ltac:(lia)).
  assert (V := C115_sinusoid A phi fs M k0 x P H1 H2 HL HX E).
  assert (MP : 0 < INR M) by (apply lt_0_INR; lia). assert (PP := PI_RGT_0). assert (A2 : 0 < A ^ 2) by (assert (Z := Rsqr_pos_lt A HA); unfold Rsqr in Z; lra).
  set (c := A ^ 2 * INR M / PI). assert (CP : 0 < c) by (apply Rmult_lt_0_compat; [apply Rmult_lt_0_compat; lra|now apply Rinv_0_lt_compat]).
  exists (c * leak k0 k0 ^ 2 / ((54 / 100) ^ 2 + (46 / 100) ^ 2 / 2)). unfold leak at 1. rewrite Nat.eqb_refl.
  split; [apply Rmult_lt_0_compat; [apply Rmult_lt_0_compat; [exact CP|lra]|lra]|]. split; [apply V; lia|].
  intros k Hk N. eexists. split; [apply V, Hk|]. fold c. unfold leak. rewrite Nat.eqb_refl. destruct (Nat.eqb_spec k k0) as [|_]; [contradiction|].
  destruct (_ || _).
  - split; [lra|]. field.
  - split; [lra|]. field.
Qed.
Print Assumptions C115_peak.

(** The frequency given for the peak is that of the sinusoid, k0 fs / M, when M is even; when M is odd it is k0 fs / (M - 1), too high *)
Theorem C115_frequency_refuted :
  forall A phi fs M k0 (x : list R) P, 0 < fs -> (2 <= k0)%nat -> (k0 + 2 <= M / 2)%nat -> (M <= length x)%nat ->
  (forall t, (t < length x)%nat -> nth t x 0 = A * cos (2 * PI * INR k0 * INR t / INR M + phi)) ->
  welch (fin x) fs (Z.of_nat M) None = Ok P ->
  let true_frequency := INR k0 * fs / INR M in
  (forall t, (t < length x)%nat -> nth t x 0 = A * cos (2 * PI * true_frequency * (INR t / fs) + phi)) /\
  (Nat.even M = true -> nth k0 (psd_freq P) 0 = true_frequency) /\
  (Nat.even M = false -> nth k0 (psd_freq P) 0 = INR k0 * fs / (INR M - 1) /\ true_frequency < nth k0 (psd_freq P) 0).
Proof.
  intros A phi fs M k0 x P Hfs H1 H2 HL HX E f. assert (D2 := Nat.mul_div_le M 2 ltac:(lia)). assert (MP : 0 < INR M) by (apply lt_0_INR; lia).
  split; [intros t Ht; rewrite HX by trivial; f_equal; f_equal; f_equal; unfold f; field; lra|].
  assert (NX : fin x <> []) by (intros Z; apply (f_equal (@length xr)) in Z; rewrite fin_length in Z; cbn in Z; lia).
  assert (EV : Z.even (Z.of_nat M) = Nat.even M).
  { destruct (Nat.even M) eqn:Q; [apply Nat.even_spec in Q as [h ->]; apply Z.even_spec; exists (Z.of_nat h); lia|].
    apply Bool.not_true_iff_false. intros Z. apply Z.even_spec in Z as [h Z]. assert (X : Nat.even M = true) by (apply Nat.even_spec; exists (Z.to_nat h); lia). congruence. }
  destruct (C54_odd_grid_refuted welch_num (fin x) fs (Z.of_nat M) None P NX Hfs ltac:(lia) E k0) as [B C].
  { rewrite Z.max_id. split; [lia|]. assert (Z := Nat2Z.inj_div M 2). change (Z.of_nat 2) with 2%Z in Z. lia. }
  rewrite Z.max_id, EV, <- INR_IZR_INZ in B, C. split; [exact B|exact C].
Qed.
Print Assumptions C115_frequency_refuted.
