(** * Wavelet coefficients of fractional Gaussian noise and fractional Brownian motion have positive variance *)
From Coq Require Import Reals List ZArith Bool Lra Lia Classical_Prop.
From Verif Require Import XReal PyBase ModelSimul ModelWavelet Spec SpecSimul LXReal LBase LDft LSimul LCirc LFgn LFgnCov LChol LTransform PropsWhite PropsWhiteCase PropsWhiteFbm LTaps PropsFluct.
Import ListNotations.
Open Scope R_scope.
Local Notation length := List.length.

(** ** Specification *)
(** a filter with a tap *)
Definition has_tap (f : list R) : Prop := exists m, nth m f 0 <> 0.

(** ** Positive quadratic forms over the integers *)
Definition nonzero (n : nat) (x : nat -> R) : Prop := exists i, (i < n)%nat /\ x i <> 0.
Definition form (n : nat) (x : nat -> R) (r : Z -> R) : R := sumn n (fun a => x a * sumn n (fun b => x b * r (Z.of_nat a - Z.of_nat b)%Z)).
(** on every sequence of [class] *)
Definition pos_on (class : nat -> (nat -> R) -> Prop) (r : Z -> R) : Prop := forall n x, nonzero n x -> class n x -> 0 < form n x r.
Definition any (n : nat) (x : nat -> R) : Prop := True.
Definition balanced (n : nat) (x : nat -> R) : Prop := sumn n x = 0.

(** the sequence filtered after the insertion of zeros *)
Definition spread (n : nat) (x : nat -> R) (f : list R) (i : nat) : R :=
  sumn n (fun a => sumn (length f) (fun m => if Nat.eqb i (2 * a + (length f - 1 - m)) then x a * nth m f 0 else 0)).
Lemma spread_sum n x f (g : nat -> R) : sumn (2 * n + length f) (fun i => spread n x f i * g i) = sumn n (fun a => sumn (length f) (fun m => x a * nth m f 0 * g (2 * a + (length f - 1 - m))%nat)).
Proof.
  unfold spread. transitivity (sumn (2 * n + length f) (fun i => sumn n (fun a => sumn (length f) (fun m => (if Nat.eqb i (2 * a + (length f - 1 - m)) then x a * nth m f 0 else 0) * g i)))).
  { apply sumn_ext. intros i _. rewrite <- sumn_scal_r. apply sumn_ext. intros a _. now rewrite <- sumn_scal_r. }
  rewrite sumn_swap. apply sumn_ext. intros a Ha. rewrite sumn_swap. apply sumn_ext. intros m Hm.
  rewrite (sumn_single _ _ (2 * a + (length f - 1 - m))%nat); [now rewrite Nat.eqb_refl|lia|]. intros i _ N. destruct (Nat.eqb_spec i (2 * a + (length f - 1 - m))); [contradiction|ring].
Qed.
(** the first tap and the last value meet alone *)
Lemma last_nonzero n x : nonzero n x -> exists i, (i < n)%nat /\ x i <> 0 /\ forall k, (i < k < n)%nat -> x k = 0.
Proof.
  induction n as [|n IH]; intros [i [Hi Xi]]; [lia|]. destruct (Req_dec (x n) 0) as [E|N].
  - destruct IH as (k & Hk & Xk & Q); [exists i; split; [|exact Xi]; assert (i <> n) by (intros ->; contradiction); lia|]. exists k. split; [lia|]. split; [exact Xk|]. intros l Hl. destruct (Nat.eq_dec l n) as [->|]; [exact E|apply Q; lia].
  - exists n. split; [lia|]. split; [exact N|]. intros k Hk. lia.
Qed.
Lemma first_tap f : has_tap f -> exists m, (m < length f)%nat /\ nth m f 0 <> 0 /\ forall k, (k < m)%nat -> nth k f 0 = 0.
Proof.
  induction f as [|a f IH]; intros [m Hm]; [destruct m; cbn in Hm; lra|]. destruct (Req_dec a 0) as [E|N].
  - destruct m as [|m]; [cbn in Hm; contradiction|]. destruct IH as (k & Hk & Nk & Q); [now exists m|]. exists (S k). cbn. split; [lia|]. split; [exact Nk|]. intros [|l] Hl; [exact E|apply Q; lia].
  - exists 0%nat. cbn. split; [lia|]. split; [exact N|]. intros k Hk. lia.
Qed.
Lemma spread_nonzero n x f : nonzero n x -> has_tap f -> nonzero (2 * n + length f) (spread n x f).
Proof.
  intros Hx Hf. destruct (last_nonzero n x Hx) as (a & Ha & Xa & La). destruct (first_tap f Hf) as (m & Hm & Fm & Lm).
  exists (2 * a + (length f - 1 - m))%nat. split; [lia|]. unfold spread.
  rewrite (sumn_single n _ a Ha).
  - rewrite (sumn_single (length f) _ m Hm); [rewrite Nat.eqb_refl; now apply Rmult_integral_contrapositive|]. intros k Hk N. destruct (Nat.eqb_spec (2 * a + (length f - 1 - m)) (2 * a + (length f - 1 - k))); [lia|reflexivity].
  - intros b Hb N. apply sumn_zero. intros k Hk. destruct (Nat.eqb_spec (2 * a + (length f - 1 - m)) (2 * b + (length f - 1 - k))); [|reflexivity].
    destruct (lt_eq_lt_dec a b) as [[L|L]|L]; [rewrite La by lia; ring|congruence|]. rewrite (Lm k) by lia. ring.
Qed.
Lemma spread_total n x f : sumn (2 * n + length f) (spread n x f) = sumn n x * sumn (length f) (fun m => nth m f 0).
Proof.
  rewrite (sumn_ext _ (spread n x f) (fun i => spread n x f i * 1)) by (intros; ring). rewrite (spread_sum n x f (fun _ => 1)). rewrite <- sumn_scal_r. apply sumn_ext. intros a _. rewrite <- sumn_scal. apply sumn_ext. intros; ring.
Qed.
Lemma form_filtered n x f r : form n x (filtered f f r) = form (2 * n + length f) (spread n x f) r.
Proof.
  unfold form. rewrite (spread_sum n x f (fun i => sumn (2 * n + length f) (fun b => spread n x f b * r (Z.of_nat i - Z.of_nat b)%Z))). apply sumn_ext. intros a Ha.
  rewrite <- sumn_scal. rewrite (sumn_ext (length f) _ (fun m => sumn n (fun b => sumn (length f) (fun m' => x a * nth m f 0 * (x b * nth m' f 0 * r (2 * (Z.of_nat a - Z.of_nat b) - Z.of_nat m + Z.of_nat m')%Z))))).
  - rewrite sumn_swap. apply sumn_ext. intros b Hb. unfold filtered. rewrite <- !sumn_scal. apply sumn_ext. intros m Hm. rewrite <- !sumn_scal. apply sumn_ext. intros m' Hm'. ring.
  - intros m Hm. rewrite (spread_sum n x f (fun b => r (Z.of_nat (2 * a + (length f - 1 - m)) - Z.of_nat b)%Z)). rewrite <- sumn_scal. apply sumn_ext. intros b Hb. rewrite <- sumn_scal. apply sumn_ext. intros m' Hm'. do 2 f_equal. f_equal. lia.
Qed.
Lemma pos_filtered_any f r : has_tap f -> pos_on any r -> pos_on any (filtered f f r).
Proof. intros Hf Hr n x Hx _. rewrite form_filtered. apply Hr; [now apply spread_nonzero|exact Logic.I]. Qed.
Lemma pos_filtered_balanced f r : has_tap f -> pos_on balanced r -> pos_on balanced (filtered f f r).
Proof. intros Hf Hr n x Hx Hb. rewrite form_filtered. apply Hr; [now apply spread_nonzero|]. unfold balanced in *. rewrite spread_total, Hb. ring. Qed.
Lemma pos_filtered_balance f r : has_tap f -> sumn (length f) (fun m => nth m f 0) = 0 -> pos_on balanced r -> pos_on any (filtered f f r).
Proof. intros Hf H0 Hr n x Hx Hb. rewrite form_filtered. apply Hr; [now apply spread_nonzero|]. unfold balanced in *. rewrite spread_total, H0. ring. Qed.
Lemma pos_zero r : pos_on any r -> 0 < r 0%Z.
Proof.
  intros H. assert (K := H 1%nat (fun _ => 1) (ex_intro _ 0%nat (Logic.conj (Nat.lt_succ_diag_r 0) R1_neq_R0)) Logic.I). unfold form in K. rewrite !sumn_S, !sumn_0 in K. change (Z.of_nat 0 - Z.of_nat 0)%Z with 0%Z in K. lra.
Qed.
Lemma high_pos w r j : has_tap (dec_lo w) -> has_tap (dec_hi w) -> pos_on any r -> 0 < high_cov w r j 0.
Proof.
  intros Hl Hh Hr. apply pos_zero. unfold high_cov. apply pos_filtered_any; [exact Hh|]. generalize (j - 1)%nat. intros i. induction i as [|i IH]; cbn [low_cov]; [exact Hr|now apply pos_filtered_any].
Qed.
Lemma high_pos_balance w r j : has_tap (dec_lo w) -> has_tap (dec_hi w) -> vanishing_moments (dec_hi w) 1 -> pos_on balanced r -> 0 < high_cov w r j 0.
Proof.
  intros Hl Hh HM Hr. apply pos_zero. unfold high_cov. apply pos_filtered_balance; [exact Hh| |].
  - specialize (HM 0%nat ltac:(lia)). etransitivity; [|exact HM]. unfold sumn. f_equal. apply map_ext. intros m. cbn [pow]. ring.
  - generalize (j - 1)%nat. intros i. induction i as [|i IH]; cbn [low_cov]; [exact Hr|now apply pos_filtered_balanced].
Qed.

(** ** Fractional Gaussian noise, fractional Brownian motion *)
Lemma unit_fgn_toeplitz H n a b : 0 < H -> (a < n)%nat -> (b < n)%nat -> toeplitz (fgn_cov n H 1 1) a b = unit_fgn H (Z.of_nat a - Z.of_nat b).
Proof.
  intros H0 Ha Hb. unfold toeplitz, fgn_cov. rewrite nth_map_seq by lia. rewrite !powR_rpow by (try apply Rabs_pos; lra).
  assert (E : IZR (Z.of_nat a - Z.of_nat b) = INR (Nat.max a b - Nat.min a b) \/ IZR (Z.of_nat a - Z.of_nat b) = - INR (Nat.max a b - Nat.min a b)).
  { destruct (le_lt_dec b a) as [L|L]; [left|right]; rewrite INR_IZR_INZ, <- ?opp_IZR; f_equal; lia. }
  assert (R1 : rpow 1 (2 * H) = 1) by (unfold rpow; destruct (Rlt_dec 0 1); [unfold Rpower; now rewrite ln_1, Rmult_0_r, exp_0|lra]). rewrite R1.
  unfold unit_fgn, ev, second, Rsum. cbn [map fold_right fst snd]. set (k := INR (Nat.max a b - Nat.min a b)) in *. rewrite !Rplus_0_r.
  destruct E as [-> | ->].
  - replace (k + -1) with (k - 1) by ring. field.
  - replace (- k + 1) with (- (k - 1)) by ring. replace (- k + -1) with (- (k + 1)) by ring. rewrite !Rabs_Ropp. field.
Qed.
Lemma unit_fgn_pos H : 0 < H < 1 -> pos_on any (unit_fgn H).
Proof.
  intros HH n x Hx _. assert (N1 : (1 <= n)%nat) by (destruct Hx as [i [Hi _]]; lia). assert (K := fgn_pd n H 1 1 N1 (proj1 HH) (proj2 HH) Rlt_0_1 R1_neq_R0 x Hx).
  eapply Rlt_le_trans; [exact K|]. right. unfold form. change (fold_right Rplus 0 (map ?f (seq 0 n))) with (sumn n f). apply sumn_ext. intros a Ha. rewrite <- sumn_scal. change (fold_right Rplus 0 (map ?f (seq 0 n))) with (sumn n f). apply sumn_ext. intros b Hb.
  rewrite unit_fgn_toeplitz by (trivial; lra). ring.
Qed.
Lemma abel n x (g : nat -> R) : sumn (S n) (fun i => x i * g i) = sumn n (fun a => sumn (S a) x * (g a - g (S a))) + sumn (S n) x * g n.
Proof.
  induction n as [|n IH]; [rewrite !sumn_S, !sumn_0; ring|]. rewrite sumn_S, IH, (sumn_S n (fun a => sumn (S a) x * (g a - g (S a)))), (sumn_S (S n) x). ring.
Qed.
Lemma unit_fbm_pos H : 0 < H < 1 -> pos_on balanced (unit_fbm H).
Proof.
  intros HH n x Hx Hb. destruct n as [|n]; [destruct Hx as [i [Hi _]]; lia|]. unfold balanced in Hb. set (s := fun a => sumn (S a) x).
  assert (A : forall g, sumn (S n) (fun i => x i * g i) = sumn n (fun a => s a * (g a - g (S a)))) by (intros g; rewrite abel, Hb; unfold s; ring).
  assert (Hs : nonzero n s).
  { apply NNPP. intros N. assert (Z0 : forall a, (a < S n)%nat -> s a = 0).
    { intros a Ha. destruct (Nat.eq_dec a n) as [->|Q]; [exact Hb|]. apply NNPP. intros Y. apply N. exists a. split; [lia|exact Y]. }
    destruct Hx as [i [Hi Xi]]. apply Xi. destruct i as [|i]; [specialize (Z0 0%nat ltac:(lia)); unfold s in Z0; rewrite sumn_S, sumn_0 in Z0; lra|].
    assert (Q1 := Z0 i ltac:(lia)). assert (Q2 := Z0 (S i) Hi). unfold s in Q1, Q2. rewrite sumn_S, Q1 in Q2. lra. }
  eapply Rlt_le_trans; [exact (unit_fgn_pos H HH n s Hs Logic.I)|]. right. unfold form.
  rewrite (A (fun a => sumn (S n) (fun b => x b * unit_fbm H (Z.of_nat a - Z.of_nat b)))). apply sumn_ext. intros a Ha. f_equal.
  rewrite (A (fun b => unit_fbm H (Z.of_nat a - Z.of_nat b))), (A (fun b => unit_fbm H (Z.of_nat (S a) - Z.of_nat b))). rewrite <- sumn_minus. apply sumn_ext. intros b Hb'.
  replace (Z.of_nat a - Z.of_nat (S b))%Z with (Z.of_nat a - Z.of_nat b - 1)%Z by lia. replace (Z.of_nat (S a) - Z.of_nat b)%Z with (Z.of_nat a - Z.of_nat b + 1)%Z by lia. replace (Z.of_nat (S a) - Z.of_nat (S b))%Z with (Z.of_nat a - Z.of_nat b)%Z by lia.
  set (z := (Z.of_nat a - Z.of_nat b)%Z). unfold unit_fgn, unit_fbm, ev, second, Rsum. cbn [map fold_right fst snd]. rewrite minus_IZR, plus_IZR. rewrite !Rplus_0_r. replace (IZR z + -1) with (IZR z - 1) by ring. ring.
Qed.
(** the ideal variance of the coefficients is positive at every scale, for every wavelet whose filters have a tap *)
Theorem fgn_variance_positive H w j : 0 < H < 1 -> has_tap (dec_lo w) -> has_tap (dec_hi w) -> 0 < high_cov w (unit_fgn H) j 0.
Proof. intros HH Hl Hh. now apply high_pos, unit_fgn_pos. Qed.
(** for fbm, when the wavelet ignores constants *)
Theorem fbm_variance_positive H w j M : 0 < H < 1 -> has_tap (dec_lo w) -> has_tap (dec_hi w) -> vanishing_moments (dec_hi w) M -> (1 <= M)%nat -> 0 < high_cov w (unit_fbm H) j 0.
Proof. intros HH Hl Hh HM M1. apply high_pos_balance; trivial; [intros i Hi; apply HM; lia|now apply unit_fbm_pos]. Qed.
Print Assumptions fbm_variance_positive.
