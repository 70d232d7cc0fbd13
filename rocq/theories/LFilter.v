(** * One filtering step *)
From Coq Require Import Reals List ZArith Bool Lra Lia.
From Verif Require Import XReal PyBase ModelUtils ModelMRQ ModelWavelet Spec LXReal LUtils LBase.
Import ListNotations.
Open Scope R_scope.

(** retained positions *)
Definition kept (n L i : nat) : bool := Nat.leb (L - 1) i && Nat.leb (i + L) n.

(** the convolution sum at position i *)
Definition csum (h : list R) (a : col) (i : nat) : xr :=
  xsum (map (fun m => xmul (Fin (nth m h 0)) (nth (i + (length h - 1) / 2 - m) a NaN))
            (seq 0 (length h))).

Definition fstep (h : list R) (a : col) : col :=
  map (fun k => if kept (length a) (length h) (2 * k + 1) then csum h a (2 * k + 1) else NaN)
      (seq 0 (length a / 2)).

Lemma fstep_length h a : length (fstep h a) = (length a / 2)%nat.
Proof. unfold fstep. now rewrite map_length, seq_length. Qed.

Lemma conv_same_length pad a h : length (conv_same pad a h) = length a.
Proof. unfold conv_same. now rewrite map_length, seq_length. Qed.

Lemma half_nat (L : nat) : (1 <= L)%nat ->
  ((Z.of_nat L - 1) / 2)%Z = Z.of_nat ((L - 1) / 2).
Proof. intros. rewrite Nat2Z.inj_div. f_equal. lia. Qed.

Lemma conv_same_kept pad a h i :
  (1 <= length h)%nat -> (i < length a)%nat -> kept (length a) (length h) i = true ->
  nth i (conv_same pad a h) NaN = csum h a i.
Proof.
  intros Hh Hi K. unfold conv_same.
  rewrite (nth_map_lt _ _ _ 0%nat) by (now rewrite seq_length).
  rewrite seq_nth by trivial. unfold csum. f_equal. apply map_ext_in. intros m Hm.
  apply in_seq in Hm. f_equal. simpl.
  apply andb_prop in K as [K1 K2]. apply Nat.leb_le in K1, K2.
  rewrite half_nat by trivial.
  assert (B : ((length h - 1) / 2 <= length h - 1)%nat) by (apply Nat.div_le_upper_bound; lia).
  assert (C : (0 <= (length h - 1) / 2)%nat) by lia.
  unfold get_pad.
  generalize dependent ((length h - 1) / 2)%nat. intros c B C.
  replace (Z.of_nat i + Z.of_nat c - Z.of_nat m)%Z with (Z.of_nat (i + c - m)) by lia.
  destruct (Z.ltb_spec (Z.of_nat (i + c - m)) 0); [lia|].
  rewrite Nat2Z.id. apply nth_indep. lia.
Qed.

Lemma nan_border_nth n L out i :
  (1 <= L)%nat -> length out = n -> (i < n)%nat ->
  nth i (nan_border n L out) NaN = if kept n L i then nth i out NaN else NaN.
Proof.
  intros HL Ho Hi. unfold nan_border.
  rewrite (nth_map2 _ _ _ _ 0%nat NaN) by (rewrite ?seq_length; lia).
  rewrite seq_nth by lia. simpl.
  unfold kept. destruct (Nat.leb_spec (L - 1) i); destruct (Nat.leb_spec (i + L) n); simpl.
  - assert (E : Nat.ltb i (L - 1) = false) by (apply Nat.ltb_ge; lia). rewrite E. simpl.
    unfold norm_index. destruct (Z.ltb_spec (Z.of_nat n - Z.of_nat L + 1) 0); [lia|].
    assert (F : Nat.leb (Nat.min (Z.to_nat (Z.of_nat n - Z.of_nat L + 1)) n) i = false)
      by (apply Nat.leb_gt; lia).
    now rewrite F.
  - assert (E : Nat.ltb i (L - 1) = false) by (apply Nat.ltb_ge; lia). rewrite E. simpl.
    unfold norm_index. destruct (Z.ltb_spec (Z.of_nat n - Z.of_nat L + 1) 0); [lia|].
    assert (F : Nat.leb (Nat.min (Z.to_nat (Z.of_nat n - Z.of_nat L + 1)) n) i = true)
      by (apply Nat.leb_le; lia).
    now rewrite F.
  - assert (E : Nat.ltb i (L - 1) = true) by (apply Nat.ltb_lt; lia). now rewrite E.
  - assert (E : Nat.ltb i (L - 1) = true) by (apply Nat.ltb_lt; lia). now rewrite E.
Qed.

Lemma subsample_fstep pad a h :
  (1 <= length h)%nat ->
  subsample (length a) (nan_border (length a) (length h) (conv_same pad a h)) = fstep h a.
Proof.
  intros Hh. unfold subsample, fstep. apply map_ext_in. intros k Hk. apply in_seq in Hk.
  assert (B : (2 * k + 1 < length a)%nat).
  { assert (2 * (length a / 2) <= length a)%nat by (apply Nat.mul_div_le; lia). lia. }
  rewrite nan_border_nth; trivial; [|apply conv_same_length].
  destruct (kept _ _ _) eqn:K; [|reflexivity]. now apply conv_same_kept.
Qed.

Lemma filtering_fstep pad a hi lo :
  (1 <= length hi)%nat -> length lo = length hi ->
  filtering_pad pad a hi lo = (fstep hi a, fstep lo a).
Proof.
  intros H E. unfold filtering_pad. f_equal.
  - now apply subsample_fstep.
  - rewrite <- E. apply subsample_fstep. lia.
Qed.

Lemma fstep_nth h a k : (k < length a / 2)%nat ->
  nth k (fstep h a) NaN
  = if kept (length a) (length h) (2 * k + 1) then csum h a (2 * k + 1) else NaN.
Proof.
  intros H. unfold fstep. rewrite (nth_map_lt _ _ _ 0%nat) by (now rewrite seq_length).
  now rewrite seq_nth.
Qed.

Lemma fstep_out h a k : (length a / 2 <= k)%nat -> nth k (fstep h a) NaN = NaN.
Proof. intros. apply nth_overflow. now rewrite fstep_length. Qed.
