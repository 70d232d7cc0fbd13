(** * Sums of powers of the lag *)
From Coq Require Import Reals List ZArith Lra Lia.
From Verif Require Import XReal PyBase Spec SpecMRQ LXReal LBase LDft LSimul SpecSimul LTaps PropsShortRange.
Import ListNotations.
Open Scope R_scope.
Local Notation length := List.length.

(** sums of powers *)
Lemma R1pow e : Rpower 1 e = 1.
Proof. unfold Rpower. rewrite ln_1, Rmult_0_r. apply exp_0. Qed.
Lemma Rpower_minus_one u s : 0 < u -> Rpower u (1 - s) = u * Rpower u (- s).
Proof. intros H. replace (1 - s) with (1 + - s) by ring. rewrite Rpower_plus, Rpower_1 by trivial. reflexivity. Qed.
Lemma power_step s i : s <> 1 -> 0 < s -> (1 <= i)%nat ->
  Rpower (INR (S i)) (- s) <= (Rpower (INR (S i)) (1 - s) - Rpower (INR i) (1 - s)) / (1 - s).
Proof.
  intros N1 S0 Hi. assert (I0 : 0 < INR i) by (apply lt_0_INR; lia). assert (I1 : INR i < INR (S i)) by (apply lt_INR; lia).
  destruct (MVT_cor2 (fun t => Rpower t (1 - s)) (fun t => (1 - s) * Rpower t (1 - s - 1)) (INR i) (INR (S i)) I1) as (c & E & C1 & C2).
  { intros c Hc. apply derivable_pt_lim_power. lra. }
  rewrite E. replace (INR (S i) - INR i) with 1 by (rewrite S_INR; ring). replace ((1 - s) * Rpower c (1 - s - 1) * 1 / (1 - s)) with (Rpower c (- s)) by (replace (1 - s - 1) with (- s) by ring; field; lra).
  apply Rpower_antitone; lra.
Qed.
(** the sum of the first n powers -s: bounded by a power of n, or by a constant *)
Lemma power_sum s a : 0 < s -> 0 < a <= 1 -> (s = a /\ a < 1 \/ 1 < s /\ a = 1) -> exists K, 0 <= K /\ forall n, (1 <= n)%nat -> sumn n (fun i => Rpower (INR (S i)) (- s)) <= K * Rpower (INR n) (1 - a).
Proof.
  intros S0 A0 [[-> A1]|[S1 ->]].
  - exists (1 + / (1 - a)). assert (I0 : 0 < / (1 - a)) by (apply Rinv_0_lt_compat; lra). split; [lra|].
    assert (G : forall n, sumn (S n) (fun i => Rpower (INR (S i)) (- a)) <= 1 + Rpower (INR (S n)) (1 - a) / (1 - a)).
    { induction n as [|n IH].
      - unfold sumn, Rsum. cbn [seq map fold_right]. change (INR 1) with 1. rewrite !R1pow. unfold Rdiv. lra.
      - rewrite sumn_S. assert (Q := power_step a (S n) ltac:(lra) ltac:(lra) ltac:(lia)). unfold Rdiv in *. rewrite Rmult_minus_distr_r in Q. lra. }
    intros n Hn. destruct n as [|n]; [lia|]. eapply Rle_trans; [apply G|]. unfold Rdiv. assert (1 <= Rpower (INR (S n)) (1 - a)).
    { rewrite <- (Rpower_O (INR (S n))) at 1 by (apply lt_0_INR; lia). apply Rle_Rpower; [|lra]. apply (le_INR 1). lia. }
    rewrite Rmult_plus_distr_r. lra.
  - exists (1 + / (s - 1)). assert (I0 : 0 < / (s - 1)) by (apply Rinv_0_lt_compat; lra). split; [lra|].
    assert (G : forall n, sumn (S n) (fun i => Rpower (INR (S i)) (- s)) <= 1 + / (s - 1) - Rpower (INR (S n)) (1 - s) * / (s - 1)).
    { induction n as [|n IH].
      - unfold sumn, Rsum. cbn [seq map fold_right]. change (INR 1) with 1. rewrite !R1pow. lra.
      - rewrite sumn_S. assert (Q := power_step s (S n) ltac:(lra) ltac:(lra) ltac:(lia)).
        replace ((Rpower (INR (S (S n))) (1 - s) - Rpower (INR (S n)) (1 - s)) / (1 - s)) with (Rpower (INR (S n)) (1 - s) * / (s - 1) - Rpower (INR (S (S n))) (1 - s) * / (s - 1)) in Q by (field; lra). lra. }
    intros n Hn. destruct n as [|n]; [lia|]. replace (1 - 1) with 0 by ring. rewrite Rpower_O by (apply lt_0_INR; lia). eapply Rle_trans; [apply G|].
    assert (0 <= Rpower (INR (S n)) (1 - s) * / (s - 1)) by (apply Rmult_le_pos; [left; apply exp_pos|lra]). lra.
Qed.
(** a bound that is A up to L and a power beyond *)
Definition decay (A s : R) (L i : nat) : R := if le_dec i L then A else A * Rpower (INR (i - L)) (- s).
Lemma decay_nonneg A s L i : 0 <= A -> 0 <= decay A s L i.
Proof. intros A0. unfold decay. destruct (le_dec i L); [trivial|]. apply Rmult_le_pos; [trivial|]. left. apply exp_pos. Qed.
Lemma decay_sum A s L n K a : 0 <= A -> 0 <= K -> a <= 1 -> (forall n, (1 <= n)%nat -> sumn n (fun i => Rpower (INR (S i)) (- s)) <= K * Rpower (INR n) (1 - a)) -> (1 <= n)%nat ->
  sumn n (decay A s L) <= (INR (S L) * A + A * K) * Rpower (INR n) (1 - a).
Proof.
  intros A0 K0 A1 HK Hn. assert (N1 : 1 <= INR n) by (apply (le_INR 1); lia).
  assert (P1 : 1 <= Rpower (INR n) (1 - a)) by (rewrite <- (Rpower_O (INR n)) at 1 by lra; apply Rle_Rpower; lra).
  assert (IL := pos_INR (S L)). assert (LA : 0 <= INR (S L) * A) by (now apply Rmult_le_pos). assert (AK : 0 <= A * K) by (now apply Rmult_le_pos).
  assert (NEAR : forall m, (m <= S L)%nat -> sumn m (decay A s L) <= INR (S L) * A).
  { intros m Hm. rewrite (sumn_ext m _ (fun _ => A)) by (intros i Hi; unfold decay; destruct (le_dec i L); [reflexivity|lia]). rewrite sumn_const. apply Rmult_le_compat_r; [trivial|now apply le_INR]. }
  assert (FAR : forall m, sumn (S L + m) (decay A s L) = sumn (S L) (decay A s L) + A * sumn m (fun i => Rpower (INR (S i)) (- s))).
  { induction m as [|m IH]; [rewrite Nat.add_0_r; change (sumn 0 (fun i => Rpower (INR (S i)) (- s))) with 0; ring|].
    rewrite Nat.add_succ_r, (sumn_S (S L + m)), (sumn_S m), IH. assert (SV : decay A s L (S L + m) = A * Rpower (INR (S m)) (- s)) by (unfold decay; destruct (le_dec (S L + m) L); [lia|]; replace (S L + m - L)%nat with (S m) by lia; reflexivity). rewrite SV. ring. }
  destruct (le_lt_dec n (S L)) as [L1|L1].
  - eapply Rle_trans; [now apply NEAR|]. rewrite <- (Rmult_1_r (INR (S L) * A)) at 1. apply Rmult_le_compat; lra.
  - replace n with (S L + (n - S L))%nat at 1 by lia. rewrite FAR. rewrite Rmult_plus_distr_r. apply Rplus_le_compat.
    + eapply Rle_trans; [now apply NEAR|]. rewrite <- (Rmult_1_r (INR (S L) * A)) at 1. apply Rmult_le_compat_l; lra.
    + rewrite Rmult_assoc. apply Rmult_le_compat_l; [trivial|]. eapply Rle_trans; [apply HK; lia|]. apply Rmult_le_compat_l; [trivial|]. apply Rle_Rpower_l; [lra|]. split; [apply lt_0_INR; lia|]. apply le_INR. lia.
Qed.
Lemma apart_list (g : nat -> R) C T k l : (forall i, 0 <= g i) -> NoDup l -> (forall k', In k' l -> (apart k k' < C)%nat) -> sumn C g <= T -> Rsum (map (fun k' => g (apart k k')) l) <= 2 * T.
Proof.
  intros G0 ND Hk HT. set (h := fun i => if lt_dec i C then g i else 0).
  assert (H0 : forall i, 0 <= h i) by (intros i; unfold h; destruct (lt_dec i C); [apply G0|lra]).
  assert (HS : forall m, sumn m h <= T).
  { assert (E : forall m, sumn (C + m) h = sumn C g).
    { induction m as [|m IH]; [rewrite Nat.add_0_r; apply sumn_ext; intros i Hi; unfold h; destruct (lt_dec i C); [reflexivity|lia]|]. rewrite Nat.add_succ_r, sumn_S, IH. unfold h. destruct (lt_dec (C + m) C); [lia|]. ring. }
    intros m. destruct (le_lt_dec C m) as [L|L]; [replace m with (C + (m - C))%nat by lia; now rewrite E|].
    eapply Rle_trans; [|exact HT]. rewrite <- (E 0%nat), Nat.add_0_r. replace C with (m + (C - m))%nat by lia. generalize (C - m)%nat. induction n as [|n IH]; [rewrite Nat.add_0_r; lra|].
    rewrite Nat.add_succ_r, sumn_S. specialize (H0 (m + n)%nat). lra. }
  assert (Q := apart_sum h T H0 HS k l ND). eapply Rle_trans; [|exact Q]. apply tsum_le. intros k' IK. unfold h. destruct (lt_dec (apart k k') C) as [|NL]; [lra|]. now specialize (Hk k' IK).
Qed.
