(** * C117: consistency of the Fourier (Welch) spectrum *)
From Coq Require Import Reals List ZArith Bool Lra Lia String FunctionalExtensionality Classical_Prop.
From Verif Require Import XReal PyBase ModelUtils ModelMRQ ModelWavelet ModelPSD ModelSimul ModelWelch Spec SpecMRQ SpecSimul LXReal LBase LPSD LDft LSimul LTransform LWave LWelch
  PropsWavelet PropsMissing PropsWhite PropsWhitePower PropsSimul LTaps PropsDecorr PropsShortRange LPowerSum LWick PropsFluct PropsConsist PropsConsistGen PropsConsistCase PropsBeta PropsWelch.
Import ListNotations.
Open Scope R_scope.
Local Notation length := List.length.

(** ** Specification *)
(** the covariance [cov] seen through the window of M samples, at entry k of a spectrum with nf points: C114_mean *)
Definition seen (M nf : nat) (cov : Z -> R) (k : nat) : R :=
  4 * sides nf k / (2 * PI * window_energy M) *
  sumn M (fun a => sumn M (fun b => window M a * window M b * cov (Z.of_nat a - Z.of_nat b)%Z * cos (2 * PI * INR k * (INR a - INR b) / INR nf))).

(** ** Bounds *)
Lemma window_abs M n : Rabs (window M n) <= 1.
Proof.
  unfold window. destruct (Nat.eqb M 1); [rewrite Rabs_R1; lra|]. assert (B := COS_bound (2 * PI * INR n / INR M)). apply Rabs_le. lra.
Qed.
Lemma sumn_abs_le n f A : (forall i, (i < n)%nat -> Rabs (f i) <= A) -> Rabs (sumn n f) <= INR n * A.
Proof.
  induction n as [|n IH]; intros H.
  - change (sumn 0 f) with 0. rewrite Rabs_R0. change (INR 0) with 0. lra.
  - rewrite sumn_S, S_INR. eapply Rle_trans; [apply Rabs_triang|]. assert (Rabs (sumn n f) <= INR n * A) by (apply IH; intros; apply H; lia).
    assert (Rabs (f n) <= A) by (apply H; lia). lra.
Qed.
Lemma seg_count_big seg c n : (1 <= seg)%nat -> (seg * (c + 1) <= n)%nat -> (c <= seg_count seg n)%nat.
Proof.
  intros H1 H. unfold seg_count. assert (D : (seg / 2 < seg)%nat) by (apply Nat.div_lt; lia).
  assert (E : seg_step seg n = (seg - seg / 2)%nat) by (unfold seg_step, seg_length; nia). rewrite E.
  apply Nat.div_le_lower_bound; [lia|]. nia.
Qed.

(** ** One linear form per segment *)
Section Form.
Context {W I : Type} (P : expectation W) (idx : I -> Prop) (z : I -> W -> R) (x : W -> list R) (n seg : nat) (cov : Z -> R) (f : nat -> R) (g : nat -> R) (T : R).
Hypothesis HW : white P idx z.
Hypothesis HG : gaussian4 P idx z.
Hypothesis HX : stationary_signal P n x cov.
Hypothesis HL : forall i, (i < n)%nat -> combination idx z (fun o => nth i (x o) 0).
Hypothesis S1 : (1 <= seg)%nat.
Hypothesis S2 : (seg <= n)%nat.
Hypothesis Hf : forall a, Rabs (f a) <= 1.
(** covariances at a lag of at least i segments *)
Hypothesis Hg : forall y i, (i <= Z.to_nat (Z.abs y) + seg)%nat -> cov y ^ 2 <= g i.
Hypothesis HT : forall k, (k < seg_count seg n)%nat -> sumn (seg_count seg n) (fun k' => g (apart k k')) <= T.
Let e i o := sumn seg (fun a => window seg a * f a * nth (i * seg_step seg n + a) (x o) 0).
Let m := sumn seg (fun a => sumn seg (fun b => (window seg a * f a) * (window seg b * f b) * cov (Z.of_nat a - Z.of_nat b)%Z)).
Let C := seg_count seg n.
Lemma len_seg : seg_length seg n = seg. Proof using S2. clear - S2. unfold seg_length. lia. Qed.
Lemma half : (seg / 2 < n)%nat. Proof using S1 S2. clear - S1 S2. assert (D : (seg / 2 < seg)%nat) by (apply Nat.div_lt; lia). lia. Qed.
Lemma form_cov i i' : (i < C)%nat -> (i' < C)%nat ->
  E P (fun o => e i o * e i' o) = sumn seg (fun a => sumn seg (fun b => (window seg a * f a) * (window seg b * f b) * cov (Z.of_nat (i * seg_step seg n + a) - Z.of_nat (i' * seg_step seg n + b))%Z)).
Proof using HX S1 S2.
  intros Hi Hi'. destruct HX as (_ & _ & C2). unfold e.
  apply (lin_prod P seg (fun a => window seg a * f a) (fun a => window seg a * f a) (fun a o => nth (i * seg_step seg n + a) (x o) 0) (fun a o => nth (i' * seg_step seg n + a) (x o) 0)).
  intros a b Ha Hb. apply C2; apply segment_inside; trivial; try apply half; now rewrite len_seg.
Qed.
Lemma form_comb i : (i < C)%nat -> combination idx z (e i).
Proof using HL S1 S2.
  intros Hi. unfold e. apply (comb_sumn idx z seg (fun a o => window seg a * f a * nth (i * seg_step seg n + a) (x o) 0)). intros a Ha.
  apply (comb_scal idx z (window seg a * f a) (fun o => nth (i * seg_step seg n + a) (x o) 0)). apply HL. apply segment_inside; trivial; [apply half|now rewrite len_seg].
Qed.
Lemma form_var i : (i < C)%nat -> E P (fun o => e i o * e i o) = m.
Proof using HX S1 S2.
  intros Hi. rewrite form_cov by trivial. unfold m. apply sumn_ext. intros a _. apply sumn_ext. intros b _. do 2 f_equal. lia.
Qed.
Lemma form_small i i' : (i < C)%nat -> (i' < C)%nat -> E P (fun o => e i o * e i' o) ^ 2 <= INR seg ^ 4 * g (apart i i').
Proof using HX S1 S2 Hf Hg.
  intros Hi Hi'. rewrite form_cov by trivial. set (G := g (apart i i')).
  assert (D : (1 <= seg_step seg n)%nat) by (apply count_pos; [exact S1|apply half]).
  assert (Q : forall a b, (a < seg)%nat -> (b < seg)%nat -> cov (Z.of_nat (i * seg_step seg n + a) - Z.of_nat (i' * seg_step seg n + b))%Z ^ 2 <= G).
  { intros a b Ha Hb. apply Hg. unfold apart. set (s := seg_step seg n) in *. clearbody s. nia. }
  assert (G0 : 0 <= G) by (eapply Rle_trans; [|apply (Q 0%nat 0%nat); lia]; apply pow2_ge_0).
  assert (Q' : forall a b, (a < seg)%nat -> (b < seg)%nat -> Rabs (cov (Z.of_nat (i * seg_step seg n + a) - Z.of_nat (i' * seg_step seg n + b))%Z) <= sqrt G).
  { intros a b Ha Hb. rewrite <- sqrt_Rsqr_abs. apply sqrt_le_1_alt. rewrite Rsqr_pow2. now apply Q. }
  assert (K : Rabs (sumn seg (fun a => sumn seg (fun b => (window seg a * f a) * (window seg b * f b) * cov (Z.of_nat (i * seg_step seg n + a) - Z.of_nat (i' * seg_step seg n + b))%Z))) <= INR seg * (INR seg * sqrt G)).
  { apply sumn_abs_le. intros a Ha. apply sumn_abs_le. intros b Hb. rewrite !Rabs_mult. rewrite <- (Rmult_1_l (sqrt G)).
    assert (A1 := window_abs seg a). assert (A2 := window_abs seg b). assert (B1 := Hf a). assert (B2 := Hf b). specialize (Q' a b Ha Hb).
    assert (U : forall u v, 0 <= u <= 1 -> 0 <= v <= 1 -> 0 <= u * v <= 1) by (intros; nra).
    apply Rmult_le_compat; try apply Rabs_pos; trivial.
    - repeat apply Rmult_le_pos; apply Rabs_pos.
    - apply U; apply U; split; trivial; apply Rabs_pos. }
  rewrite <- pow2_abs. replace (INR seg ^ 4 * G) with ((INR seg * (INR seg * sqrt G)) ^ 2).
  - apply pow_incr. split; [apply Rabs_pos|exact K].
  - transitivity (INR seg ^ 4 * (sqrt G * sqrt G)); [ring|]. now rewrite sqrt_sqrt.
Qed.
Lemma form_prob t : 0 < t ->
  prob_at_most P (fun o => t <= Rabs (sumn C (fun i => e i o * e i o) / INR C - m)) (2 * INR seg ^ 4 * T / INR C / t ^ 2).
Proof using HW HG HX HL S1 S2 Hf Hg HT.
  intros Ht. assert (C1 : (1 <= C)%nat) by (apply count_pos; [exact S1|apply half]). assert (CP : 0 < INR C) by (apply lt_0_INR; lia).
  destruct (sumsq_var idx z P HW HG C e form_comb) as [IV EV].
  assert (MM : sumn C (fun k => E P (fun w => e k w * e k w)) = INR C * m) by (rewrite (sumn_ext C _ (fun _ => m)) by (intros; now apply form_var); apply sumn_const).
  rewrite MM in IV. assert (EV' : E P (fun w => (sumn C (fun k => e k w * e k w) - INR C * m) ^ 2) <= 2 * (INR C * (INR seg ^ 4 * T))).
  { rewrite <- MM, EV. apply Rmult_le_compat_l; [lra|]. rewrite <- sumn_const. apply sumn_le. intros i Hi.
    apply Rle_trans with (sumn C (fun l => INR seg ^ 4 * g (apart i l))).
    - apply sumn_le. intros i' Hi'. now apply form_small.
    - rewrite sumn_scal. apply Rmult_le_compat_l; [apply pow_le, pos_INR|]. now apply HT. }
  assert (tC : 0 < t * INR C) by (now apply Rmult_lt_0_compat).
  eapply prob_weaken; [| |apply (chebyshev P (fun w => sumn C (fun k => e k w * e k w)) (INR C * m) _ (t * INR C) tC IV EV')].
  - intros o Ho. cbv beta. replace (sumn C (fun k => e k o * e k o) - INR C * m) with (INR C * (sumn C (fun i => e i o * e i o) / INR C - m)) by (field; lra).
    rewrite Rabs_mult, (Rabs_pos_eq (INR C)) by lra. rewrite Rmult_comm. apply Rmult_le_compat_l; lra.
  - right. field. split; lra.
Qed.
End Form.

(** ** The spectrum *)
Section Spec.
Context {W I : Type} (P : expectation W) (idx : I -> Prop) (z : I -> W -> R) (x : W -> list R) (n : nat) (fs : R) (n_fft : Z) (seg_size : option Z) (cov : Z -> R) (g : nat -> R) (T : R).
Local Notation seg := (asked_seg n_fft seg_size).
Local Notation nf := (asked_nfft n_fft seg_size).
Hypothesis HW : white P idx z.
Hypothesis HG : gaussian4 P idx z.
Hypothesis HX : stationary_signal P n x cov.
Hypothesis HL : forall i, (i < n)%nat -> combination idx z (fun o => nth i (x o) 0).
Hypothesis S1 : (1 <= seg)%nat.
Hypothesis S2 : (seg <= n)%nat.
Hypothesis Hg : forall y i, (i <= Z.to_nat (Z.abs y) + seg)%nat -> cov y ^ 2 <= g i.
Hypothesis HT : forall k, (k < seg_count seg n)%nat -> sumn (seg_count seg n) (fun k' => g (apart k k')) <= T.
Lemma power_split M k s : power M nf s k =
  sumn M (fun a => window M a * cos (2 * PI * INR k * INR a / INR nf) * s a) * sumn M (fun a => window M a * cos (2 * PI * INR k * INR a / INR nf) * s a) +
  sumn M (fun a => window M a * sin (2 * PI * INR k * INR a / INR nf) * s a) * sumn M (fun a => window M a * sin (2 * PI * INR k * INR a / INR nf) * s a).
Proof using.
  unfold power. rewrite (sumn_ext M (fun a => window M a * cos _ * _) (fun a => window M a * s a * cos (2 * PI * INR k * INR a / INR nf))) by (intros; ring).
  rewrite (sumn_ext M (fun a => window M a * sin _ * _) (fun a => window M a * s a * sin (2 * PI * INR k * INR a / INR nf))) by (intros; ring). ring.
Qed.
Lemma seen_split M k : seen M nf cov k = 4 * sides nf k / (2 * PI * window_energy M) *
  (sumn M (fun a => sumn M (fun b => (window M a * cos (2 * PI * INR k * INR a / INR nf)) * (window M b * cos (2 * PI * INR k * INR b / INR nf)) * cov (Z.of_nat a - Z.of_nat b)%Z)) +
   sumn M (fun a => sumn M (fun b => (window M a * sin (2 * PI * INR k * INR a / INR nf)) * (window M b * sin (2 * PI * INR k * INR b / INR nf)) * cov (Z.of_nat a - Z.of_nat b)%Z))).
Proof using.
  unfold seen. f_equal. rewrite <- sumn_plus. apply sumn_ext. intros a _. rewrite <- sumn_plus. apply sumn_ext. intros b _.
  replace (2 * PI * INR k * (INR a - INR b) / INR nf) with (2 * PI * INR k * INR a / INR nf - 2 * PI * INR k * INR b / INR nf) by (unfold Rdiv; ring).
  rewrite cos_minus. ring.
Qed.
(** one entry *)
Lemma entry_prob k tau : (k <= nf / 2)%nat -> 0 < tau ->
  prob_at_most P (fun o => ~ (exists Q v, welch (fin (x o)) fs n_fft seg_size = Ok Q /\ spectrum_at Q k = Fin v /\ Rabs (v - seen seg nf cov k) <= tau))
    (4 * INR seg ^ 4 * T / INR (seg_count seg n) / (tau / (8 / (PI * window_energy seg))) ^ 2).
Proof using HW HG HX HL S1 S2 Hg HT.
  intros Hk Ht. assert (LX := proj1 HX). assert (N1 : (1 <= n)%nat) by (clear - S1 S2; lia).
  assert (Hh : (seg / 2 < n)%nat) by (apply half; trivial).
  assert (EL : seg_length seg n = seg) by (now apply len_seg).
  assert (EP := energy_pos seg S1). assert (PP := PI_RGT_0). set (C := seg_count seg n) in *.
  assert (C1 : (1 <= C)%nat) by (apply count_pos; trivial). assert (CP : 0 < INR C) by (apply lt_0_INR; lia).
  set (kap := 8 / (PI * window_energy seg)) in *. assert (KP : 0 < kap) by (apply Rdiv_lt_0_compat; [lra|now apply Rmult_lt_0_compat]).
  assert (t0 : 0 < tau / kap) by (now apply Rdiv_lt_0_compat).
  assert (Bc : forall a, Rabs (cos (2 * PI * INR k * INR a / INR nf)) <= 1) by (intros a; apply Rabs_le; apply COS_bound).
  assert (Bs : forall a, Rabs (sin (2 * PI * INR k * INR a / INR nf)) <= 1) by (intros a; apply Rabs_le; apply SIN_bound).
  assert (U := prob_union P _ _ _ _
    (form_prob P idx z x n seg cov (fun a => cos (2 * PI * INR k * INR a / INR nf)) g T HW HG HX HL S1 S2 Bc Hg HT (tau / kap) t0)
    (form_prob P idx z x n seg cov (fun a => sin (2 * PI * INR k * INR a / INR nf)) g T HW HG HX HL S1 S2 Bs Hg HT (tau / kap) t0)).
  cbv beta in U. fold C in U.
  eapply prob_weaken; [| |exact U].
  - intros o NO.
    assert (NX : x o <> []) by (intros Z; assert (LO := LX o); rewrite Z in LO; cbn in LO; lia).
    assert (XQ : exists Q, welch (fin (x o)) fs n_fft seg_size = Ok Q) by (apply C114_returns; [exact NX|]; rewrite LX; now split).
    destruct XQ as [Q HQ]. destruct (C114_value (x o) fs n_fft seg_size Q NX HQ) as (_ & _ & _ & _ & _ & V). rewrite LX in V. specialize (V k Hk). rewrite EL in V.
    apply NNPP. intros NU. apply NO. exists Q. eexists. split; [exact HQ|]. split; [exact V|].
    set (sc := sumn C (fun i => _)) in NU at 1. set (mc := sumn seg _) in NU at 1. set (ss := sumn C (fun i => sumn seg (fun a => window seg a * sin _ * _) * _)) in NU. set (ms := sumn seg (fun a => sumn seg (fun b => window seg a * sin _ * _ * _))) in NU.
    assert (A1 : Rabs (sc / INR C - mc) < tau / kap) by (destruct (Rlt_le_dec (Rabs (sc / INR C - mc)) (tau / kap)) as [L|L]; [exact L|exfalso; apply NU; now left]).
    assert (A2 : Rabs (ss / INR C - ms) < tau / kap) by (destruct (Rlt_le_dec (Rabs (ss / INR C - ms)) (tau / kap)) as [L|L]; [exact L|exfalso; apply NU; now right]).
    assert (EO : over_segments seg n (fun s => power seg nf s k) (fun t => nth t (x o) 0) = (sc + ss) / INR C).
    { unfold over_segments. fold C. f_equal. unfold sc, ss. rewrite <- sumn_plus. apply sumn_ext. intros i _. apply power_split. }
    rewrite EO, seen_split. fold mc ms.
    replace (4 * sides nf k / (2 * PI * window_energy seg) * ((sc + ss) / INR C) - 4 * sides nf k / (2 * PI * window_energy seg) * (mc + ms))
      with (sides nf k / 4 * kap * ((sc / INR C - mc) + (ss / INR C - ms))) by (unfold kap; field; lra).
    assert (SB : 0 <= sides nf k / 4 <= 1 / 2) by (unfold sides; destruct (_ || _); lra).
    rewrite Rabs_mult, Rabs_mult, (Rabs_pos_eq (sides nf k / 4)), (Rabs_pos_eq kap) by lra.
    assert (AA : Rabs (sc / INR C - mc + (ss / INR C - ms)) <= 2 * (tau / kap)) by (eapply Rle_trans; [apply Rabs_triang|lra]).
    apply Rle_trans with (1 / 2 * kap * (2 * (tau / kap))).
    + apply Rmult_le_compat; [apply Rmult_le_pos; lra|apply Rabs_pos| |exact AA]. apply Rmult_le_compat_r; lra.
    + right. field. lra.
  - right. field. repeat split; lra.
Qed.
(** all the entries at once *)
Lemma spectrum_prob tau : 0 < tau ->
  prob_at_most P (fun o => ~ (exists Q, welch (fin (x o)) fs n_fft seg_size = Ok Q /\ forall k, (k <= nf / 2)%nat -> exists v, spectrum_at Q k = Fin v /\ Rabs (v - seen seg nf cov k) <= tau))
    (INR (nf / 2 + 1) * (4 * INR seg ^ 4 * T / INR (seg_count seg n) / (tau / (8 / (PI * window_energy seg))) ^ 2)).
Proof using HW HG HX HL S1 S2 Hg HT.
  intros Ht. set (q := 4 * INR seg ^ 4 * T / INR (seg_count seg n) / (tau / (8 / (PI * window_energy seg))) ^ 2).
  assert (U := prob_list P (fun k o => ~ (exists Q v, welch (fin (x o)) fs n_fft seg_size = Ok Q /\ spectrum_at Q k = Fin v /\ Rabs (v - seen seg nf cov k) <= tau)) (fun _ => q) (seq 0 (nf / 2 + 1))).
  rewrite Rsum_const, seq_length in U.
  eapply prob_weaken; [|apply Rle_refl|apply U; intros k Hk; apply in_seq in Hk; apply entry_prob; [lia|exact Ht]].
  intros o NO. apply NNPP. intros NE. apply NO. clear NO.
  assert (G : forall k, (k <= nf / 2)%nat -> exists Q v, welch (fin (x o)) fs n_fft seg_size = Ok Q /\ spectrum_at Q k = Fin v /\ Rabs (v - seen seg nf cov k) <= tau).
  { intros k Hk. apply NNPP. intros Z. apply NE. exists k. split; [apply in_seq; lia|exact Z]. }
  destruct (G 0%nat ltac:(lia)) as (Q & _ & HQ & _). exists Q. split; [exact HQ|]. intros k Hk. destruct (G k Hk) as (Q' & v & HQ' & A & B). rewrite HQ in HQ'. injection HQ' as <-. now exists v.
Qed.
End Spec.

(** ** Fractional Gaussian noise *)
Lemma unit_fgn_even H y : unit_fgn H (- y) = unit_fgn H y.
Proof.
  unfold unit_fgn, ev, second, Rsum. cbn [map fold_right fst snd]. rewrite opp_IZR.
  replace (- IZR y + 1) with (- (IZR y + -1)) by ring. replace (- IZR y + 0) with (- (IZR y + 0)) by ring. replace (- IZR y + -1) with (- (IZR y + 1)) by ring. rewrite !Rabs_Ropp. ring.
Qed.
Lemma unit_fgn_far H y : 0 < H < 1 -> (2 <= y)%Z -> Rabs (unit_fgn H y) <= 2 * Rpower (IZR y - 1) (2 * H - 2).
Proof.
  intros HH Hy. assert (Y2 : 2 <= IZR y) by (now apply IZR_le).
  assert (HA : ann second 2) by (intros [|[|i]] t Hi; [| |lia]; unfold ev, second, Rsum; cbn [map fold_right fst snd pow]; ring).
  assert (HB : between (- (1)) 1 second) by (intros q [<-|[<-|[<-|[]]]]; cbn [snd]; lra).
  assert (Q := power_bound second 2 (2 * H) (IZR y) 1 ltac:(lia) ltac:(lra) HA HB ltac:(lra)).
  assert (TN : tnorm second = 4). { unfold tnorm, second, Rsum. cbn [map fold_right fst]. rewrite Rabs_R1, (Rabs_left (-2)) by lra. ring. }
  rewrite TN in Q. change (INR 2) with (1 + 1) in Q. replace (1 + 1) with 2 in Q by ring.
  unfold unit_fgn. rewrite (ev_ext second _ (fun t => 1 / 2 * Rpower t (2 * H))).
  - rewrite ev_scal, Rabs_mult, (Rabs_pos_eq (1 / 2)) by lra. lra.
  - intros p Hp. assert (B := HB p Hp). rewrite Rabs_pos_eq by lra. f_equal. unfold rpow. destruct (Rlt_dec 0 (IZR y + snd p)); [reflexivity|lra].
Qed.
Lemma unit_fgn_near H X : 0 < H < 1 -> exists A, 0 <= A /\ forall y, Rabs (IZR y) <= X -> unit_fgn H y ^ 2 <= A.
Proof.
  intros HH. destruct (rpow_bounded 1 (2 * H) (1 / 2) (X + 1)) as [A HA]; try lra. exists ((tnorm second * Rmax A 0) ^ 2). split; [apply pow2_ge_0|]. intros y Hy.
  rewrite <- pow2_abs. apply pow_incr. split; [apply Rabs_pos|]. unfold unit_fgn. apply ev_le; [apply Rmax_r|]. intros p Hp.
  eapply Rle_trans; [|apply Rmax_l]. assert (B : Rabs (IZR y + snd p) <= X + 1).
  { eapply Rle_trans; [apply Rabs_triang|]. assert (Rabs (snd p) <= 1) by (destruct Hp as [<-|[<-|[<-|[]]]]; cbn [snd]; apply Rabs_le; lra). lra. }
  specialize (HA _ B). now rewrite Rmult_1_l in HA.
Qed.
Lemma unit_fgn_vanish H eta : 0 < H < 1 -> 0 < eta -> exists A L0, 0 <= A /\ forall y, unit_fgn H y ^ 2 <= if le_dec (Z.to_nat (Z.abs y)) L0 then A else eta.
Proof.
  intros HH He. set (e := 2 - 2 * H). assert (e0 : 0 < e) by (unfold e; lra). set (th := sqrt eta / 2). assert (th0 : 0 < th) by (apply Rdiv_lt_0_compat; [now apply sqrt_lt_R0|lra]).
  set (X0 := Rmax 1 (Rpower th (- / e))). destruct (archimed (1 + X0)) as [AR _]. set (L0 := Z.to_nat (up (1 + X0))).
  assert (M1 := Rmax_l 1 (Rpower th (- / e))). assert (M2 := Rmax_r 1 (Rpower th (- / e))). fold X0 in M1, M2.
  assert (L0b : 1 + X0 < INR L0). { rewrite (INR_IZR_INZ L0). unfold L0. rewrite Z2Nat.id; [lra|apply le_IZR; lra]. }
  destruct (unit_fgn_near H (INR L0) HH) as (A & A0 & HA). exists A, L0. split; [exact A0|].
  assert (G : forall i : nat, unit_fgn H (Z.of_nat i) ^ 2 <= if le_dec i L0 then A else eta).
  { intros i. destruct (le_dec i L0) as [Li|Li].
    - apply HA. rewrite <- INR_IZR_INZ, Rabs_pos_eq by (apply pos_INR). now apply le_INR.
    - assert (I : INR L0 <= INR i) by (apply le_INR; lia). assert (I2 : (2 <= Z.of_nat i)%Z). { apply le_IZR. rewrite <- INR_IZR_INZ. lra. }
      assert (Q := unit_fgn_far H _ HH I2). rewrite <- INR_IZR_INZ in Q. rewrite <- pow2_abs. replace eta with (sqrt eta ^ 2) by (rewrite <- Rsqr_pow2; apply Rsqr_sqrt; lra).
      apply pow_incr. split; [apply Rabs_pos|]. eapply Rle_trans; [exact Q|]. assert (R : Rpower (INR i - 1) (2 * H - 2) <= th).
      { replace (2 * H - 2) with (- e) by (unfold e; ring). eapply Rle_trans; [apply (Rpower_antitone (Rpower th (- / e))); [split; [apply exp_pos|lra]|lra]|].
        rewrite Rpower_mult. replace (- / e * - e) with 1 by (field; lra). rewrite Rpower_1 by trivial. lra. }
      unfold th in R. lra. }
  intros y. destruct (Z_le_gt_dec 0 y) as [Z0|Z0].
  - replace (Z.to_nat (Z.abs y)) with (Z.to_nat y) by lia. rewrite <- (Z2Nat.id y) at 1 by trivial. apply G.
  - rewrite <- unit_fgn_even. replace (- y)%Z with (Z.of_nat (Z.to_nat (Z.abs y))) by lia. apply G.
Qed.
Lemma seen_scal M nf c cov k : seen M nf (fun y => c * cov y) k = c * seen M nf cov k.
Proof.
  unfold seen. rewrite (sumn_ext M _ (fun a => c * sumn M (fun b => window M a * window M b * cov (Z.of_nat a - Z.of_nat b)%Z * cos (2 * PI * INR k * (INR a - INR b) / INR nf)))).
  - rewrite sumn_scal. ring.
  - intros a _. rewrite <- sumn_scal. apply sumn_ext. intros; ring.
Qed.
Lemma seen_ext M nf c1 c2 k : (forall y, c1 y = c2 y) -> seen M nf c1 k = seen M nf c2 k.
Proof. intros H. unfold seen. f_equal. apply sumn_ext. intros a _. apply sumn_ext. intros b _. now rewrite H. Qed.

(** sum of a bound that is A up to L lags and eta beyond *)
Lemma near_far_sum A eta L : 0 <= A -> 0 <= eta -> forall k l, NoDup l -> Rsum (map (fun k' => if le_dec (apart k k') L then A + eta else eta) l) <= 2 * (INR (S L) * A) + INR (length l) * eta.
Proof.
  intros A0 E0 k l ND. assert (Q := apart_sum (tent A 0 L) (INR (S L) * A)).
  assert (T0 : forall i, 0 <= tent A 0 L i) by (intros i; unfold tent; destruct (le_dec i L); unfold Rdiv; lra).
  specialize (Q T0 (fun n => ltac:(assert (K := tent_sum A 0 L n A0 (Rle_refl 0)); lra)) k l ND).
  apply Rle_trans with (Rsum (map (fun k' => tent A 0 L (apart k k') + eta) l)).
  - apply tsum_le. intros k' _. unfold tent. destruct (le_dec _ L); unfold Rdiv; lra.
  - assert (X : Rsum (map (fun k' => tent A 0 L (apart k k') + eta) l) = Rsum (map (fun k' => tent A 0 L (apart k k')) l) + INR (length l) * eta).
    { clear. induction l as [|a l IH]; [unfold Rsum; cbn; ring|]. cbn [map length]. change (Rsum (?a :: ?m)) with (a + Rsum m). rewrite IH, S_INR. ring. }
    lra.
Qed.

(** the general bound for simulated noise: gg i bounds the squared unit covariances of samples of segments i apart *)
Lemma fgn_spectrum H n_fft seg_size (gg : nat -> R) tau : 0 < H < 1 -> (1 <= asked_seg n_fft seg_size)%nat -> 0 < tau ->
  let seg := asked_seg n_fft seg_size in let nf := asked_nfft n_fft seg_size in
  (forall y i, (i <= Z.to_nat (Z.abs y) + seg)%nat -> unit_fgn H y ^ 2 <= gg i) ->
  forall W (P : expectation W) sh N sigma dt d z0 (drawn : W -> noise) fs r T,
  (forall k, (k < seg_count seg N)%nat -> sumn (seg_count seg N) (fun k' => gg (apart k k')) <= T) ->
  shape_N sh = N -> (2 <= N)%nat -> (seg <= N)%nat -> sampling_step dt N d -> sigma <> 0 -> gaussian_complex P (shape_R sh) (2 * N - 2) (fun w => nz (drawn w)) -> (r < shape_R sh)%nat ->
  prob_at_most P (fun o => ~ exists X Q,
      fgn sh H sigma dt "cme" z0 (drawn o) = Ok (presented sh X, false) /\ shaped (shape_R sh) N X /\ welch (fin (nth r X [])) fs n_fft seg_size = Ok Q /\
      forall k, (k <= nf / 2)%nat -> exists v, spectrum_at Q k = Fin v /\
        Rabs (v - sigma ^ 2 * Rpower d (2 * H) * seen seg nf (unit_fgn H) k) <= tau * (sigma ^ 2 * Rpower d (2 * H)))
    (INR (nf / 2 + 1) * (4 * INR seg ^ 4 * (8 / (PI * window_energy seg)) ^ 2 / tau ^ 2) * (T / INR (seg_count seg N))).
Proof.
  intros HH S1 t0 seg nf HU W P sh N sigma dt d z0 drawn fs r T HTT EN HN S2 Hd Hs [HZ HG] Hr.
  assert (d0 := proj2 (step_ok dt N d ltac:(lia) Hd)). set (amp := sigma ^ 2 * Rpower d (2 * H)).
  assert (a0 : 0 < amp) by (apply Rmult_lt_0_compat; [rewrite <- Rsqr_pow2; now apply Rsqr_pos_lt|apply exp_pos]).
  destruct (fgn_stationary P sh N H sigma dt d z0 drawn EN HN Hd ltac:(lra) HZ) as (X & EX & HS & HX).
  set (C := seg_count seg N). assert (C1 : (1 <= C)%nat) by (apply count_pos; [exact S1|now apply half]). assert (CP : 0 < INR C) by (apply lt_0_INR; lia).
  assert (EP := energy_pos seg S1). assert (PP := PI_RGT_0).
  set (g := fun i => amp ^ 2 * gg i). assert (a2 : 0 <= amp ^ 2) by apply pow2_ge_0.
  assert (Q := spectrum_prob P (cidx (shape_R sh) (2 * N - 2)) (cvar (fun o => nz (drawn o))) (fun o => nth r (X o) []) N fs n_fft seg_size
     (fun z => ev second (fun t => sigma ^ 2 / 2 * rpow (Rabs (d * t)) (2 * H)) (IZR z)) g (amp ^ 2 * T) (proj2 HZ) HG (HX r Hr)
     (fun i Hi => fgn_linear sh N H sigma dt d z0 drawn X EN HN Hd ltac:(lra) (proj1 HZ) EX HS r i Hr Hi) S1 S2).
  assert (Hg : forall y i, (i <= Z.to_nat (Z.abs y) + seg)%nat -> ev second (fun t => sigma ^ 2 / 2 * rpow (Rabs (d * t)) (2 * H)) (IZR y) ^ 2 <= g i).
  { intros y i Hi. rewrite fgn_scale by trivial. fold amp. rewrite Rpow_mult_distr. apply Rmult_le_compat_l; [exact a2|]. now apply HU. }
  assert (HT : forall k, (k < seg_count seg N)%nat -> sumn (seg_count seg N) (fun k' => g (apart k k')) <= amp ^ 2 * T).
  { intros k Hk. unfold g. rewrite sumn_scal. apply Rmult_le_compat_l; [exact a2|]. now apply HTT. }
  assert (ta : 0 < tau * amp) by (now apply Rmult_lt_0_compat). specialize (Q Hg HT (tau * amp) ta).
  eapply prob_weaken; [| |exact Q].
  - intros o NO (QQ & HQ & HV). apply NO. exists (X o), QQ. split; [apply EX|]. split; [apply HS|]. split; [exact HQ|]. intros k Hk. destruct (HV k Hk) as (v & V1 & V2). exists v. split; [exact V1|].
    rewrite <- seen_scal. rewrite (seen_ext seg nf _ (fun z => ev second (fun t => sigma ^ 2 / 2 * rpow (Rabs (d * t)) (2 * H)) (IZR z))) by (intros y; rewrite fgn_scale by trivial; reflexivity).
    exact V2.
  - right. change (asked_seg n_fft seg_size) with seg. change (asked_nfft n_fft seg_size) with nf. fold C. set (we := window_energy seg) in *. clearbody we. set (ic := INR C) in *. clearbody ic.
    set (a1 := INR (nf / 2 + 1)). set (b1 := INR seg). clearbody a1 b1 amp. field. repeat split; lra.
Qed.

(** The spectrum of simulated fractional noise converges, at all the returned frequencies at once, to the covariance of the noise seen through the window: with probability as close to one
    as wanted it is as close as wanted, for all long enough recordings; how long does not depend on sigma, on the sampling step or on the sampling frequency *)
Theorem C117_fgn_consistent :
  forall H n_fft seg_size tol q, 0 < H < 1 -> (1 <= asked_seg n_fft seg_size)%nat -> 0 < tol -> 0 < q ->
  let seg := asked_seg n_fft seg_size in let nf := asked_nfft n_fft seg_size in
  exists N0, forall W (P : expectation W) sh N sigma dt d z0 (drawn : W -> noise) fs r,
  shape_N sh = N -> (N0 <= N)%nat -> sampling_step dt N d -> sigma <> 0 -> gaussian_complex P (shape_R sh) (2 * N - 2) (fun w => nz (drawn w)) -> (r < shape_R sh)%nat ->
  prob_at_most P (fun o => ~ exists X Q,
      fgn sh H sigma dt "cme" z0 (drawn o) = Ok (presented sh X, false) /\ shaped (shape_R sh) N X /\ welch (fin (nth r X [])) fs n_fft seg_size = Ok Q /\
      forall k, (k <= nf / 2)%nat -> exists v, spectrum_at Q k = Fin v /\
        Rabs (v - sigma ^ 2 * Rpower d (2 * H) * seen seg nf (unit_fgn H) k) <= tol * (sigma ^ 2 * Rpower d (2 * H))) q.
Proof.
  intros H n_fft seg_size tol q HH S1 Ht Hq seg nf. assert (EP := energy_pos seg S1). assert (PP := PI_RGT_0).
  set (B := INR (nf / 2 + 1) * (4 * INR seg ^ 4 * (8 / (PI * window_energy seg)) ^ 2 / tol ^ 2)).
  assert (B0 : 0 < B).
  { unfold B. assert (0 < INR seg) by (apply lt_0_INR; exact S1). assert (0 < INR (nf / 2 + 1)) by (apply lt_0_INR; lia).
    apply Rmult_lt_0_compat; [trivial|]. apply Rdiv_lt_0_compat; [|now apply pow_lt]. apply Rmult_lt_0_compat; [apply Rmult_lt_0_compat; [lra|now apply pow_lt]|].
    apply pow_lt, Rdiv_lt_0_compat; [lra|now apply Rmult_lt_0_compat]. }
  set (eta := q / (2 * B)). assert (e0 : 0 < eta) by (apply Rdiv_lt_0_compat; lra).
  destruct (unit_fgn_vanish H eta HH e0) as (A & L0 & A0 & HA).
  set (Y := 2 * (INR (S (L0 + seg)) * A)). assert (Y0 : 0 <= Y) by (unfold Y; assert (V := pos_INR (S (L0 + seg))); nra).
  destruct (archimed (Y / eta)) as [AR _]. set (c := Z.to_nat (up (Y / eta))).
  assert (YE : 0 <= Y / eta) by (apply Rmult_le_pos; [exact Y0|left; now apply Rinv_0_lt_compat]).
  assert (cb : Y / eta < INR c). { rewrite (INR_IZR_INZ c). unfold c. rewrite Z2Nat.id; [lra|apply le_IZR; lra]. }
  exists (seg * (c + 1) + 2)%nat. intros W P sh N sigma dt d z0 drawn fs r EN HN Hd Hs HG Hr.
  assert (CB : (c <= seg_count seg N)%nat) by (apply seg_count_big; [exact S1|lia]). apply le_INR in CB.
  assert (HU : forall y i, (i <= Z.to_nat (Z.abs y) + seg)%nat -> unit_fgn H y ^ 2 <= if le_dec i (L0 + seg) then A + eta else eta).
  { intros y i Hi. eapply Rle_trans; [apply HA|]. destruct (le_dec (Z.to_nat (Z.abs y)) L0); destruct (le_dec i (L0 + seg)); try lra. lia. }
  assert (CP : 0 < INR (seg_count seg N)) by lra.
  eapply prob_weaken; [intros o Ho; exact Ho| |apply (fgn_spectrum H n_fft seg_size _ tol HH S1 Ht HU W P sh N sigma dt d z0 drawn fs r (Y + INR (seg_count seg N) * eta))]; trivial; [| |lia|fold seg; nia].
  2:{ intros k Hk. assert (NF := near_far_sum A eta (L0 + seg) A0 ltac:(lra) k (seq 0 (seg_count seg N)) (seq_NoDup _ _)). rewrite seq_length in NF. exact NF. }
  fold seg nf B. replace ((Y + INR (seg_count seg N) * eta) / INR (seg_count seg N)) with (Y / INR (seg_count seg N) + eta) by (field; lra). assert (Y / INR (seg_count seg N) <= eta).
  { apply Rmult_le_reg_r with (INR (seg_count seg N)); [lra|]. unfold Rdiv. rewrite Rmult_assoc, Rinv_l, Rmult_1_r by lra. apply Rmult_le_reg_r with (/ eta); [now apply Rinv_0_lt_compat|].
    replace (eta * INR (seg_count seg N) * / eta) with (INR (seg_count seg N)) by (field; lra). unfold Rdiv in *. lra. }
  apply Rle_trans with (B * (2 * eta)); [apply Rmult_le_compat_l; lra|]. right. unfold eta. field. lra.
Qed.
Print Assumptions C117_fgn_consistent.

(** ** A rate *)
Lemma count_rate seg N : (1 <= seg)%nat -> (seg <= N)%nat -> INR N <= 3 * INR seg * INR (seg_count seg N).
Proof.
  intros H1 H2. assert (C1 : (1 <= seg_count seg N)%nat) by (apply count_pos; [exact H1|now apply half]).
  assert (Q : (N <= 3 * seg * seg_count seg N)%nat).
  { assert (D := Nat.div_mod N seg ltac:(lia)). assert (U := Nat.mod_upper_bound N seg ltac:(lia)). set (c := (N / seg)%nat) in *.
    assert (G : (c - 1 <= seg_count seg N)%nat). { destruct c as [|c]; [lia|]. apply seg_count_big; [exact H1|]. replace (S c - 1 + 1)%nat with (S c) by lia. lia. }
    set (k := seg_count seg N) in *. clearbody k c. nia. }
  apply le_INR in Q. rewrite !mult_INR in Q. replace (INR 3) with 3 in Q by (cbn; ring). exact Q.
Qed.
Lemma fgn_decay H seg s : 0 < H < 1 -> 0 < s <= 4 - 4 * H -> exists A, 0 <= A /\ forall y i, (i <= Z.to_nat (Z.abs y) + seg)%nat -> unit_fgn H y ^ 2 <= decay A s (seg + 2) i.
Proof.
  intros HH HS. destruct (unit_fgn_near H 2 ltac:(lra)) as (A & A0 & HA). exists (A + 4). split; [lra|].
  assert (F : forall i : nat, (3 <= i)%nat -> unit_fgn H (Z.of_nat i) ^ 2 <= 4 * Rpower (INR i - 1) (- s)).
  { intros i Hi. assert (I3 : 3 <= INR i) by (apply le_INR in Hi; replace (INR 3) with 3 in Hi by (cbn; ring); exact Hi).
    assert (Q := unit_fgn_far H (Z.of_nat i) ltac:(lra) ltac:(lia)). rewrite <- INR_IZR_INZ in Q.
    apply Rle_trans with (4 * Rpower (INR i - 1) (- (4 - 4 * H))).
    - rewrite <- pow2_abs. replace (4 * Rpower (INR i - 1) (- (4 - 4 * H))) with ((2 * Rpower (INR i - 1) (2 * H - 2)) ^ 2).
      + apply pow_incr. split; [apply Rabs_pos|exact Q].
      + replace (- (4 - 4 * H)) with ((2 * H - 2) + (2 * H - 2)) by ring. rewrite Rpower_plus. ring.
    - apply Rmult_le_compat_l; [lra|]. apply Rle_Rpower; lra. }
  assert (G : forall y : nat, forall i, (i <= y + seg)%nat -> unit_fgn H (Z.of_nat y) ^ 2 <= decay (A + 4) s (seg + 2) i).
  { intros y i Hi. unfold decay. destruct (le_dec i (seg + 2)) as [L|L].
    - destruct (le_dec y 2) as [Y|Y].
      + assert (unit_fgn H (Z.of_nat y) ^ 2 <= A); [|lra]. apply HA. rewrite <- INR_IZR_INZ, Rabs_pos_eq by (apply pos_INR). apply le_INR in Y. replace (INR 2) with 2 in Y by (cbn; ring). exact Y.
      + assert (Y3 : (3 <= y)%nat) by lia. assert (Q := F y Y3). apply le_INR in Y3. replace (INR 3) with 3 in Y3 by (cbn; ring).
        assert (O := Rpower_O (INR y - 1) ltac:(lra)). assert (Rpower (INR y - 1) (- s) <= Rpower (INR y - 1) 0) by (apply Rle_Rpower; lra). lra.
    - assert (Y3 : (3 <= y)%nat) by lia. eapply Rle_trans; [apply (F y Y3)|]. assert (I0 : 0 < INR (i - (seg + 2))) by (apply lt_0_INR; lia).
      assert (I1 : INR (i - (seg + 2)) <= INR y - 1). { replace (INR y - 1) with (INR (y - 1)) by (rewrite minus_INR by lia; reflexivity). apply le_INR. lia. }
      apply Rmult_le_compat; [lra|left; apply exp_pos|lra|]. apply Rpower_antitone; lra. }
  intros y i Hi. destruct (Z_le_gt_dec 0 y) as [Z0|Z0].
  - rewrite <- (Z2Nat.id y) at 1 by trivial. apply G. lia.
  - rewrite <- unit_fgn_even. replace (- y)%Z with (Z.of_nat (Z.to_nat (- y))) by lia. apply G. lia.
Qed.
(** The probability of a deviation beyond tol decreases like 1 / N as long as H < 3/4, and like N^(4H - 4) beyond; at H = 3/4, faster than any power of exponent above -1 *)
Theorem C117_fgn_rate :
  forall H n_fft seg_size tol a, 0 < H < 1 -> (1 <= asked_seg n_fft seg_size)%nat -> 0 < tol -> 0 < a <= 1 -> a <= 4 - 4 * H -> (H = 3 / 4 -> a < 1) ->
  let seg := asked_seg n_fft seg_size in let nf := asked_nfft n_fft seg_size in
  exists K, forall W (P : expectation W) sh N sigma dt d z0 (drawn : W -> noise) fs r,
  shape_N sh = N -> (2 <= N)%nat -> sampling_step dt N d -> sigma <> 0 -> gaussian_complex P (shape_R sh) (2 * N - 2) (fun w => nz (drawn w)) -> (r < shape_R sh)%nat ->
  prob_at_most P (fun o => ~ exists X Q,
      fgn sh H sigma dt "cme" z0 (drawn o) = Ok (presented sh X, false) /\ shaped (shape_R sh) N X /\ welch (fin (nth r X [])) fs n_fft seg_size = Ok Q /\
      forall k, (k <= nf / 2)%nat -> exists v, spectrum_at Q k = Fin v /\
        Rabs (v - sigma ^ 2 * Rpower d (2 * H) * seen seg nf (unit_fgn H) k) <= tol * (sigma ^ 2 * Rpower d (2 * H))) (K * Rpower (INR N) (- a)).
Proof.
  intros H n_fft seg_size tol a HH S1 Ht Ha H4 H3 seg nf. assert (EP := energy_pos seg S1). assert (PP := PI_RGT_0).
  set (B := INR (nf / 2 + 1) * (4 * INR seg ^ 4 * (8 / (PI * window_energy seg)) ^ 2 / tol ^ 2)).
  assert (sp : 0 < INR seg) by (apply lt_0_INR; exact S1).
  assert (B0 : 0 < B).
  { unfold B. assert (0 < INR (nf / 2 + 1)) by (apply lt_0_INR; lia).
    apply Rmult_lt_0_compat; [trivial|]. apply Rdiv_lt_0_compat; [|now apply pow_lt]. apply Rmult_lt_0_compat; [apply Rmult_lt_0_compat; [lra|now apply pow_lt]|].
    apply pow_lt, Rdiv_lt_0_compat; [lra|now apply Rmult_lt_0_compat]. }
  assert (XS : exists s, 0 < s <= 4 - 4 * H /\ (s = a /\ a < 1 \/ 1 < s /\ a = 1)).
  { destruct (Rlt_le_dec a 1) as [A1|A1]; [exists a; split; [lra|left; split; [reflexivity|exact A1]]|]. exists (4 - 4 * H). split; [lra|]. right. split; [|lra].
    destruct (Req_dec H (3 / 4)) as [E|E]; [specialize (H3 E); lra|lra]. }
  destruct XS as (s & HS & HC). destruct (power_sum s a (proj1 HS) Ha HC) as (K1 & K0 & HK).
  destruct (fgn_decay H seg s HH HS) as (A & A0 & HA). set (T := INR (S (seg + 2)) * A + A * K1).
  assert (T0 : 0 <= T) by (unfold T; assert (V := pos_INR (S (seg + 2))); nra).
  set (K := B * (2 * T) * Rpower (3 * INR seg) a).
  exists (Rmax (Rpower (INR seg) a) K). intros W P sh N sigma dt d z0 drawn fs r EN HN Hd Hs HG Hr.
  assert (NP : 0 < INR N) by (apply lt_0_INR; lia). assert (M1 := Rmax_l (Rpower (INR seg) a) K). assert (M2 := Rmax_r (Rpower (INR seg) a) K).
  assert (PN : 0 < Rpower (INR N) (- a)) by apply exp_pos.
  destruct (le_lt_dec seg N) as [L|L].
  - assert (CR := count_rate seg N S1 L). set (C := seg_count seg N) in *. assert (C1 : (1 <= C)%nat) by (apply count_pos; [exact S1|now apply half]). assert (CP : 0 < INR C) by (apply lt_0_INR; exact C1).
    eapply prob_weaken; [intros o Ho; exact Ho| |apply (fgn_spectrum H n_fft seg_size _ tol HH S1 Ht HA W P sh N sigma dt d z0 drawn fs r (2 * (T * Rpower (INR C) (1 - a))))]; trivial.
    + fold seg nf B C. apply Rle_trans with (K * Rpower (INR N) (- a)); [|apply Rmult_le_compat_r; lra]. rewrite Rpower_minus_one by trivial.
      replace (B * (2 * (T * (INR C * Rpower (INR C) (- a))) / INR C)) with (B * (2 * T) * Rpower (INR C) (- a)) by (field; lra).
      unfold K. rewrite (Rmult_assoc (B * (2 * T))). apply Rmult_le_compat_l; [apply Rmult_le_pos; lra|].
      assert (S3 : 0 < 3 * INR seg) by lra.
      assert (E3 : Rpower (3 * INR seg) a = Rpower (/ (3 * INR seg)) (- a)).
      { unfold Rpower. rewrite ln_Rinv by trivial. f_equal. ring. }
      rewrite E3, Rpower_mult_distr by (trivial; now apply Rinv_0_lt_compat).
      apply Rpower_antitone; [|lra]. split; [apply Rmult_lt_0_compat; [now apply Rinv_0_lt_compat|trivial]|]. apply Rmult_le_reg_l with (3 * INR seg); [trivial|]. rewrite <- Rmult_assoc, Rinv_r, Rmult_1_l by lra. exact CR.
    + intros k Hk. fold seg C. unfold sumn. apply (apart_list (decay A s (seg + 2)) C).
      * intros i. now apply decay_nonneg.
      * apply seq_NoDup.
      * intros k' Hk'. apply in_seq in Hk'. fold seg C in Hk. unfold apart. lia.
      * apply decay_sum; trivial; lra.
  - apply prob_one. apply lt_INR in L. apply Rle_trans with (Rpower (INR seg) a * Rpower (INR N) (- a)); [|apply Rmult_le_compat_r; lra].
    apply Rle_trans with (Rpower (INR N) a * Rpower (INR N) (- a)).
    + rewrite <- Rpower_plus. replace (a + - a) with 0 by ring. rewrite Rpower_O by trivial. lra.
    + apply Rmult_le_compat_r; [lra|]. apply Rle_Rpower_l; lra.
Qed.
Print Assumptions C117_fgn_rate.

(** White noise: the spectrum gets flat, at 4 / pi times the variance, and half of it at frequency 0 and at the Nyquist frequency *)
Lemma unit_fgn_half y : unit_fgn (1 / 2) y = flat 1 y.
Proof.
  assert (E1 : forall t, rpow (Rabs t) (2 * (1 / 2)) = Rabs t).
  { intros t. replace (2 * (1 / 2)) with 1 by lra. unfold rpow. destruct (Rlt_dec 0 (Rabs t)) as [L|L]; [now apply Rpower_1|]. assert (Q := Rabs_pos t). lra. }
  unfold unit_fgn, ev, second, Rsum, flat. cbn [map fold_right fst snd]. rewrite !E1. destruct (Z.eq_dec y 0) as [->|N].
  - rewrite !Rplus_0_l, Rabs_R1, Rabs_R0, Rabs_left by lra. field.
  - destruct (Z_le_gt_dec 1 y) as [Z0|Z0].
    + apply IZR_le in Z0. rewrite !Rabs_pos_eq by lra. field.
    + assert (Z1 : (y <= -1)%Z) by lia. apply IZR_le in Z1. rewrite !Rabs_left1 by lra. field.
Qed.
Lemma seen_flat M nf k : (1 <= M)%nat -> seen M nf (flat 1) k = if Nat.eqb k 0 || Nat.eqb (2 * k) nf then 2 / PI else 4 / PI.
Proof.
  intros HM. unfold seen. rewrite (sumn_ext M _ (fun a => window M a * window M a)).
  2:{ intros a Ha. rewrite (sumn_single M _ a Ha).
      - unfold flat. rewrite Z.sub_diag. destruct (Z.eq_dec 0 0); [|lia]. rewrite Rminus_diag_eq by reflexivity.
        replace (2 * PI * INR k * 0 / INR nf) with 0 by (unfold Rdiv; ring). rewrite cos_0. ring.
      - intros b Hb NE. unfold flat. destruct (Z.eq_dec _ 0) as [Z|_]; [lia|]. ring. }
  fold (window_energy M). assert (EP := energy_pos M HM). assert (PP := PI_RGT_0). unfold sides. destruct (_ || _); field; lra.
Qed.
Theorem C117_white_flat :
  forall n_fft seg_size tol, (1 <= asked_seg n_fft seg_size)%nat -> 0 < tol ->
  let nf := asked_nfft n_fft seg_size in
  exists K, forall W (P : expectation W) sh N sigma dt d z0 (drawn : W -> noise) fs r,
  shape_N sh = N -> (2 <= N)%nat -> sampling_step dt N d -> sigma <> 0 -> gaussian_complex P (shape_R sh) (2 * N - 2) (fun w => nz (drawn w)) -> (r < shape_R sh)%nat ->
  prob_at_most P (fun o => ~ exists X Q,
      fgn sh (1 / 2) sigma dt "cme" z0 (drawn o) = Ok (presented sh X, false) /\ shaped (shape_R sh) N X /\ welch (fin (nth r X [])) fs n_fft seg_size = Ok Q /\
      forall k, (k <= nf / 2)%nat -> exists v, spectrum_at Q k = Fin v /\
        Rabs (v - (if Nat.eqb k 0 || Nat.eqb (2 * k) nf then 2 / PI else 4 / PI) * (sigma ^ 2 * d)) <= tol * (sigma ^ 2 * d)) (K / INR N).
Proof.
  intros n_fft seg_size tol S1 Ht nf. destruct (C117_fgn_rate (1 / 2) n_fft seg_size tol 1 ltac:(lra) S1 Ht ltac:(lra) ltac:(lra) ltac:(lra)) as [K HK]. exists K.
  intros W P sh N sigma dt d z0 drawn fs r EN HN Hd Hs HG Hr. assert (d0 := proj2 (step_ok dt N d ltac:(lia) Hd)).
  assert (NP : 0 < INR N) by (apply lt_0_INR; lia).
  eapply prob_weaken; [| |apply (HK W P sh N sigma dt d z0 drawn fs r EN HN Hd Hs HG Hr)]; [|rewrite Rpower_Ropp, Rpower_1 by trivial; apply Rle_refl].
  intros o NO (X & Q & E1 & E2 & E3 & E4). apply NO. exists X, Q. split; [exact E1|]. split; [exact E2|]. split; [exact E3|]. intros k Hk. destruct (E4 k Hk) as (v & V1 & V2). exists v. split; [exact V1|].
  rewrite (seen_ext _ _ _ (flat 1) k unit_fgn_half), seen_flat in V2 by exact S1. fold nf in V2. replace (Rpower d (2 * (1 / 2))) with d in V2 by (replace (2 * (1 / 2)) with 1 by lra; now rewrite Rpower_1).
  rewrite (Rmult_comm (if _ || _ then _ else _)). exact V2.
Qed.
Print Assumptions C117_white_flat.

(** Non-vacuity: white noise of standard deviation 3 and step 1, segments of 8 samples, transforms of 16 points: all long enough simulations have draws whose spectrum is as flat as wanted *)
Theorem C117_case tol : 0 < tol -> exists N0, forall N, (N0 <= N)%nat -> exists (drawn : noise) X Q,
  fgn (SInt N) (1 / 2) 3 (Some 1) "cme" None drawn = Ok (presented (SInt N) X, false) /\ shaped 1 N X /\ welch (fin (nth 0 X [])) 250 16 (Some 8%Z) = Ok Q /\
  forall k, (k <= 8)%nat -> exists v, spectrum_at Q k = Fin v /\ Rabs (v - (if Nat.eqb k 0 || Nat.eqb k 8 then 18 / PI else 36 / PI)) <= tol.
Proof.
  intros He. destruct (C117_white_flat 16 (Some 8%Z) (tol / 9) ltac:(vm_compute; lia) ltac:(lra)) as [K HK].
  assert (AR : exists N0, Rmax 2 K < INR N0). { destruct (archimed (Rmax 2 K)) as [A _]. assert (M := Rmax_l 2 K). exists (Z.to_nat (up (Rmax 2 K))). rewrite INR_IZR_INZ, Z2Nat.id; [lra|]. apply le_IZR. lra. }
  destruct AR as [N0 HN0]. exists N0. intros N HN. apply NNPP. intros HA. apply le_INR in HN. assert (M1 := Rmax_l 2 K). assert (M2 := Rmax_r 2 K).
  assert (N2 : (2 <= N)%nat) by (apply INR_le; cbn [INR]; lra).
  destruct (C112_noise_exists 1 (2 * N - 2)) as (W & P & drawn & HP & HG).
  assert (St : sampling_step (Some 1) N 1) by (left; split; [reflexivity|lra]).
  assert (Q := HK W P (SInt N) N 3 (Some 1) 1 None drawn 250 0%nat eq_refl N2 St ltac:(lra) HG ltac:(cbn; lia)).
  apply (not_everywhere P _ _ HP Q).
  - apply Rmult_lt_reg_r with (INR N); [lra|]. unfold Rdiv. rewrite Rmult_assoc, Rinv_l by lra. lra.
  - intros o (X & QQ & E1 & E2 & E3 & E4). apply HA. exists (drawn o), X, QQ. split; [exact E1|]. split; [exact E2|]. split; [exact E3|]. intros k Hk.
    change (asked_nfft 16 (Some 8%Z)) with 16%nat in E4. destruct (E4 k Hk) as (v & V1 & V2). exists v. split; [exact V1|].
    replace (Nat.eqb k 8) with (Nat.eqb (2 * k) 16) by (destruct (Nat.eqb_spec (2 * k) 16), (Nat.eqb_spec k 8); lia || reflexivity).
    replace (tol / 9 * (3 ^ 2 * 1)) with tol in V2 by field. assert (PP := PI_RGT_0).
    replace (if Nat.eqb k 0 || Nat.eqb (2 * k) 16 then 18 / PI else 36 / PI) with ((if Nat.eqb k 0 || Nat.eqb (2 * k) 16 then 2 / PI else 4 / PI) * (3 ^ 2 * 1)) by (destruct (_ || _); field; lra).
    exact V2.
Qed.
Print Assumptions C117_case.
