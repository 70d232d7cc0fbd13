(** * The log-volatility of mrw *)
From Coq Require Import Reals List ZArith Bool Lia Lra String.
From Verif Require Import XReal PyBase ModelSimul Spec SpecSimul LXReal LBase LDft LSimul LCirc LFgn LFgnCov LNoise LBivariate PropsSimul.
Import ListNotations.
Open Scope R_scope.
Local Notation length := List.length.

Lemma ln_nonneg x : 1 <= x -> 0 <= ln x.
Proof. intros [H|<-]; [left; rewrite <- ln_1; apply ln_increasing; lra|rewrite ln_1; lra]. Qed.
Lemma log_plus_nonneg x : 0 <= log_plus x.
Proof. unfold log_plus. destruct (Rle_dec 1 x); [now apply ln_nonneg|lra]. Qed.
Lemma log_plus_ge x : 0 < x -> ln x <= log_plus x.
Proof. intros H. unfold log_plus. destruct (Rle_dec 1 x); [lra|]. rewrite <- ln_1. left. apply ln_increasing; lra. Qed.
Lemma log_plus_mono x y : 0 < x -> x <= y -> log_plus x <= log_plus y.
Proof.
  intros H0 H. destruct (Rle_dec 1 x) as [L|L].
  - unfold log_plus. destruct (Rle_dec 1 x); [|lra]. destruct (Rle_dec 1 y); [|lra].
    destruct H as [H|<-]; [left; now apply ln_increasing|lra].
  - unfold log_plus at 1. destruct (Rle_dec 1 x); [lra|]. apply log_plus_nonneg.
Qed.
Lemma log_plus_convex x m : 0 < x -> 0 <= log_plus (x / (INR m + 1)) - 2 * log_plus (x / (INR (S m) + 1)) + log_plus (x / (INR (S (S m)) + 1)).
Proof.
  intros Hx. assert (P := pos_INR m). rewrite !S_INR. set (t := INR m + 1). assert (Ht : 1 <= t) by (unfold t; lra).
  assert (Q : forall y, 0 < y -> 0 < x / y) by (intros; now apply Rdiv_lt_0_compat).
  assert (A := log_plus_ge (x / t) (Q t ltac:(lra))). assert (B := log_plus_ge (x / (t + 1 + 1)) (Q (t + 1 + 1) ltac:(lra))).
  assert (A0 := log_plus_nonneg (x / t)). assert (B0 := log_plus_nonneg (x / (t + 1 + 1))).
  unfold log_plus at 2. destruct (Rle_dec 1 (x / (t + 1))); [|lra].
  assert (L : forall y, 0 < y -> ln (x / y) = ln x - ln y) by (intros; unfold Rdiv; rewrite ln_mult, ln_Rinv by (try apply Rinv_0_lt_compat; trivial); ring).
  rewrite !L in * by lra. assert (K : ln t + ln (t + 1 + 1) <= 2 * ln (t + 1)); [|lra].
  rewrite <- ln_mult by lra. replace (2 * ln (t + 1)) with (ln ((t + 1) * (t + 1))) by (rewrite ln_mult by lra; ring).
  assert (t * (t + 1 + 1) < (t + 1) * (t + 1)) by nra. left. apply ln_increasing; nra.
Qed.
(** the array rho and its logarithm *)
Lemma rho_w_eq N L dt : 0 < L -> 0 < dt -> L / dt <= INR N ->
  exists rho, rho_w N L dt = Ok rho /\ length rho = N /\ forall k, (k < N)%nat -> ln (nth k rho 0) = log_plus (L / dt / (INR k + 1)).
Proof.
  intros HL Hd HN. unfold rho_w. destruct (Req_EM_T dt 0); [lra|]. set (x := L / dt). assert (Hx : 0 < x) by (now apply Rdiv_lt_0_compat).
  assert (Tr : truncR x = Int_part x) by (unfold truncR; destruct (Rle_dec 0 x); [reflexivity|lra]). rewrite Tr.
  destruct (base_Int_part x) as [I1 I2]. assert (I0 : (0 <= Int_part x)%Z). { apply le_IZR. assert (IZR (Int_part x) > -1) by lra. apply lt_IZR in H. apply IZR_le. lia. }
  set (k0 := Z.to_nat (Int_part x)). assert (Ek : INR k0 = IZR (Int_part x)) by (unfold k0; now rewrite INR_IZR_INZ, Z2Nat.id).
  assert (kN : (k0 <= N)%nat) by (apply INR_le; rewrite Ek; fold x in HN; lra).
  assert (Ni : norm_index (Int_part x) N = k0). { unfold norm_index. destruct (Z.ltb_spec (Int_part x) 0); [lia|]. fold k0. lia. }
  rewrite Ni, Nat.eqb_refl. cbn [orb]. eexists. split; [reflexivity|]. split; [now rewrite map_length, seq_length|]. intros k Hk. rewrite nth_map_seq by trivial.
  assert (Pk := pos_INR k). destruct (Nat.ltb_spec k k0) as [Lt|Ge].
  - assert (Z1 : INR (if Nat.eqb k0 1 then 0%nat else k) = INR k) by (destruct (Nat.eqb_spec k0 1); [replace k with 0%nat by lia; reflexivity|reflexivity]).
    rewrite Z1. replace (L / (INR k + 1) / dt) with (x / (INR k + 1)) by (unfold x; field; lra).
    unfold log_plus. destruct (Rle_dec 1 (x / (INR k + 1))) as [|No]; [reflexivity|]. exfalso. apply No.
    assert (INR k + 1 <= x). { rewrite <- S_INR. apply Rle_trans with (INR k0); [apply le_INR; lia|lra]. }
    apply Rmult_le_reg_r with (INR k + 1); [lra|]. unfold Rdiv. rewrite Rmult_assoc, Rinv_l by lra. lra.
  - rewrite ln_1. unfold log_plus. destruct (Rle_dec 1 (x / (INR k + 1))) as [Ye|]; [|reflexivity]. exfalso.
    apply le_INR in Ge. apply Rmult_le_compat_r with (r := INR k + 1) in Ye; [|lra]. unfold Rdiv in Ye. rewrite Rmult_assoc, Rinv_l in Ye by lra. lra.
Qed.
