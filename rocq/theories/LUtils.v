(** * Lemmas about utils.py *)
From Coq Require Import Reals List ZArith Bool Lra Lia Permutation Sorted.
From Verif Require Import XReal PyBase ModelUtils Spec LXReal.
Import ListNotations.
Open Scope R_scope.

(** ** integer parts *)
Lemma floor_spec z r : (z <= Int_part r)%Z <-> IZR z <= r.
Proof.
  destruct (base_Int_part r) as [A B]. split; intros H.
  - apply IZR_le in H. lra.
  - assert (IZR z < IZR (Int_part r + 1)) by (rewrite plus_IZR; lra).
    apply lt_IZR in H0. lia.
Qed.

Lemma ceil_spec z r : (ceilR r <= z)%Z <-> r <= IZR z.
Proof.
  unfold ceilR. split; intros H.
  - assert (H' : (- z <= Int_part (- r))%Z) by lia. apply floor_spec in H'.
    rewrite opp_IZR in H'. lra.
  - assert (H' : IZR (- z) <= - r) by (rewrite opp_IZR; lra). apply floor_spec in H'. lia.
Qed.
Lemma Int_part_IZR z : Int_part (IZR z) = z.
Proof.
  apply Z.le_antisymm.
  - apply le_IZR. assert (Int_part (IZR z) <= Int_part (IZR z))%Z by lia. now apply floor_spec in H.
  - apply floor_spec. lra.
Qed.
Lemma is_intR_IZR z : is_intR (IZR z) = true.
Proof. unfold is_intR. rewrite Int_part_IZR. destruct (Req_EM_T _ _); congruence. Qed.
Lemma is_intR_true e : is_intR e = true -> e = IZR (Int_part e).
Proof. unfold is_intR. destruct (Req_EM_T _ _); congruence. Qed.
Lemma is_intR_false e : is_intR e = false -> forall z, e <> IZR z.
Proof. intros H z ->. rewrite is_intR_IZR in H. discriminate. Qed.

Lemma ln2_pos : 0 < ln 2.
Proof. rewrite <- ln_1. apply ln_increasing; lra. Qed.
Lemma log2R_Rpower x : log2R (Rpower 2 x) = x.
Proof. unfold log2R, Rpower. rewrite ln_exp. field. assert (H := ln2_pos); lra. Qed.
Lemma Rpower_log2R x : 0 < x -> Rpower 2 (log2R x) = x.
Proof. intros. unfold log2R, Rpower. replace (ln x / ln 2 * ln 2) with (ln x).
  - now apply exp_ln.
  - field. assert (H0 := ln2_pos); lra. Qed.
Lemma log2R_mult a b : 0 < a -> 0 < b -> log2R (a * b) = log2R a + log2R b.
Proof. intros. unfold log2R. rewrite ln_mult by trivial. field. assert (H1 := ln2_pos); lra. Qed.
Lemma log2R_le a b : 0 < a -> a <= b -> log2R a <= log2R b.
Proof. intros. unfold log2R. assert (H1 := ln2_pos). apply Rmult_le_compat_r.
  - left. now apply Rinv_0_lt_compat.
  - destruct H0; [left; now apply ln_increasing | subst; lra]. Qed.
Lemma log2R_lt a b : 0 < a -> a < b -> log2R a < log2R b.
Proof. intros. unfold log2R. assert (H1 := ln2_pos). apply Rmult_lt_compat_r.
  - now apply Rinv_0_lt_compat.
  - now apply ln_increasing. Qed.
Lemma log2R_le_inv a b : 0 < a -> 0 < b -> log2R a <= log2R b -> a <= b.
Proof. intros. destruct (Rle_or_lt a b); trivial. apply log2R_lt in H2; trivial. lra. Qed.
Lemma log2R_1 : log2R 1 = 0.
Proof. unfold log2R. rewrite ln_1. field. assert (H := ln2_pos); lra. Qed.
Lemma log2R_2 : log2R 2 = 1.
Proof. unfold log2R. field. assert (H := ln2_pos); lra. Qed.
Lemma log2R_4 : log2R 4 = 2.
Proof. replace 4 with (2 * 2) by lra. rewrite log2R_mult, log2R_2 by lra. lra. Qed.
Lemma log2R_Rinv a : 0 < a -> log2R (/ a) = - log2R a.
Proof. intros. unfold log2R. rewrite ln_Rinv by trivial. field. assert (H1 := ln2_pos); lra. Qed.
Lemma log2R_div a b : 0 < a -> 0 < b -> log2R (a / b) = log2R a - log2R b.
Proof. intros. unfold Rdiv. assert (0 < / b) by (now apply Rinv_0_lt_compat).
  rewrite log2R_mult, log2R_Rinv by trivial. lra. Qed.
Lemma Rpower_pos a b : 0 < Rpower a b.
Proof. apply exp_pos. Qed.
Lemma log2R_powerRZ z : log2R (powerRZ 2 z) = IZR z.
Proof. rewrite powerRZ_Rpower by lra. apply log2R_Rpower. Qed.
Lemma log2R_Rpower_gen x y : 0 < x -> log2R (Rpower x y) = y * log2R x.
Proof. intros. unfold log2R, Rpower. rewrite ln_exp. field. assert (H0 := ln2_pos); lra. Qed.

(** ** fast_power *)
Lemma xpow_spec a e : is_power a e (xpow (Fin a) e).
Proof.
  unfold xpow. destruct (Rlt_dec 0 a) as [P|P].
  { unfold Rpower. now constructor. }
  destruct (Req_EM_T a 0) as [->|N].
  { destruct (Req_EM_T e 0) as [->|Ne].
    - replace 0 with (INR 0) at 2 by reflexivity. replace 1 with (0 ^ 0) by reflexivity. constructor.
    - destruct (Rlt_dec 0 e); constructor; lra. }
  destruct (is_intR e) eqn:E.
  - apply is_intR_true in E. rewrite E at 1. set (z := Int_part e).
    destruct z as [|p|p]; simpl powerRZ.
    + change (IZR 0) with (INR 0). replace 1 with (a ^ 0) by reflexivity. constructor.
    + change (IZR (Z.pos p)) with (IZR (Z.pos p)). rewrite <- positive_nat_Z, <- INR_IZR_INZ. constructor.
    + change (Z.neg p) with (- Z.pos p)%Z. rewrite opp_IZR, <- positive_nat_Z, <- INR_IZR_INZ.
      now constructor.
  - constructor; [lra|]. now apply is_intR_false.
Qed.

Lemma mul_loop_Fin n r a : mul_loop n (Fin r) (Fin a) = Fin (r * a ^ n).
Proof.
  revert r; induction n; intros r; simpl; [f_equal; lra|].
  rewrite IHn. f_equal. ring.
Qed.
Lemma mul_loop_NaN n x : mul_loop n NaN x = NaN.
Proof. induction n; simpl; trivial. Qed.

(** pointwise form of fast_power *)
Definition fp1 (e : pynum) (x : xr) : xr := hd NaN (fast_power [x] e).
Lemma fast_power_map c e : fast_power c e = map (fp1 e) c.
Proof.
  unfold fp1, fast_power.
  repeat (destruct (Req_EM_T _ _); [simpl; rewrite ?map_id; reflexivity|]).
  destruct e as [z|r]; [destruct (_ && _)%bool|]; reflexivity.
Qed.
Lemma fp1_NaN e : fp1 e NaN = NaN.
Proof.
  unfold fp1, fast_power.
  destruct (Req_EM_T _ 1); [reflexivity|].
  destruct (Req_EM_T _ 2); [reflexivity|].
  destruct (Req_EM_T _ (1/2)); [reflexivity|].
  destruct (Req_EM_T _ 0); [reflexivity|].
  assert (P : xpow NaN (num_val e) = NaN).
  { unfold xpow. destruct (Req_EM_T (num_val e) 0); [contradiction|reflexivity]. }
  destruct (Req_EM_T _ (-1)); [simpl; exact P|].
  destruct e as [z|r]; [destruct (_ && _)%bool eqn:B|]; cbn [map hd]; try exact P.
  apply andb_prop in B as [B1 _]. apply Z.ltb_lt in B1.
  destruct (Z.to_nat z) eqn:Z; [lia|]. simpl. apply mul_loop_NaN.
Qed.
Lemma fp1_Fin e a : is_power a (num_val e) (fp1 e (Fin a)).
Proof.
  unfold fp1, fast_power.
  destruct (Req_EM_T _ 1) as [->|_].
  { simpl. replace a with (a ^ 1) at 2 by ring. apply (pow_natural a 1). }
  destruct (Req_EM_T _ 2) as [->|_].
  { simpl. replace (a * a) with (a ^ 2) by ring. apply (pow_natural a 2). }
  destruct (Req_EM_T _ (1/2)) as [->|_].
  { simpl. destruct (Rle_dec 0 a) as [P|P].
    - destruct (Rle_lt_or_eq_dec _ _ P) as [P'| <-].
      + replace (sqrt a) with (exp (1/2 * ln a)); [now constructor|].
        change (exp (1/2 * ln a)) with (Rpower a (1/2)).
        replace (1/2) with (/ 2) by lra. now apply Rpower_sqrt.
      + rewrite sqrt_0. constructor. lra.
    - constructor; [lra|]. intros z E.
      assert (2 * IZR z = 1) by lra. rewrite <- mult_IZR in H. apply eq_IZR in H. lia. }
  destruct (Req_EM_T _ 0) as [->|_]; [apply xpow_spec|].
  destruct (Req_EM_T _ (-1)) as [->|_]; [apply xpow_spec|].
  destruct e as [z|r]; [destruct (_ && _)%bool eqn:B|]; cbn [map hd]; try apply xpow_spec.
  apply andb_prop in B as [B1 _]. apply Z.ltb_lt in B1.
  rewrite mul_loop_Fin. cbn [num_val].
  replace z with (Z.of_nat (Z.to_nat z)) at 1 by lia. rewrite <- INR_IZR_INZ, Rmult_1_l. constructor.
Qed.

Lemma INR_minus_inv n m : - INR n = INR m -> n = 0%nat /\ m = 0%nat.
Proof.
  intros H. assert (A := pos_INR n). assert (B := pos_INR m).
  split; apply INR_eq; simpl; lra.
Qed.

(** functional consequences of is_power *)
Lemma is_power_pos a e v : 0 < a -> is_power a e v -> v = Fin (Rpower a e).
Proof.
  intros Ha H. destruct H; try lra; try reflexivity; f_equal.
  - symmetry. now apply Rpower_pow.
  - rewrite Rpower_Ropp, Rpower_pow by trivial. reflexivity.
Qed.
Lemma is_power_0 e v : is_power 0 e v -> 0 < e -> v = Fin 0.
Proof.
  intros H He. remember 0 as z eqn:E in H. destruct H; subst; try lra; try reflexivity.
  - f_equal. destruct n; [simpl in He; lra|]. simpl. ring.
Qed.
Lemma is_power_e0 a v : is_power a 0 v -> v = Fin 1.
Proof.
  intros H. remember 0 as z eqn:E in H. destruct H; subst; try lra; f_equal.
  - rewrite Rmult_0_l. apply exp_0.
  - destruct n; [reflexivity|]. rewrite S_INR in E. assert (P := pos_INR n). lra.
  - destruct n; [simpl; lra|]. rewrite S_INR in E. assert (P := pos_INR n). lra.
  - exfalso. now apply (H0 0%Z).
Qed.
Lemma is_power_nat a n v : is_power a (INR n) v -> v = Fin (a ^ n).
Proof.
  intros H. remember (INR n) as e eqn:E in H. destruct H; subst.
  - f_equal. apply (Rpower_pow n a). trivial.
  - apply INR_eq in E. now subst.
  - destruct (INR_minus_inv _ _ E). subst. f_equal. simpl. lra.
  - f_equal. destruct n; [simpl in H; lra|]. simpl. ring.
  - assert (P := pos_INR n). lra.
  - exfalso. apply (H0 (Z.of_nat n)). apply INR_IZR_INZ.
Qed.
Lemma fp1_pos e a : 0 < a -> fp1 e (Fin a) = Fin (Rpower a (num_val e)).
Proof. intros. apply is_power_pos; trivial. apply fp1_Fin. Qed.
Lemma fp1_0 e : 0 < num_val e -> fp1 e (Fin 0) = Fin 0.
Proof. intros. apply (is_power_0 (num_val e)); trivial. apply fp1_Fin. Qed.
Lemma fp1_nat n a : fp1 (PyFloat (INR n)) (Fin a) = Fin (a ^ n).
Proof. apply is_power_nat. exact (fp1_Fin (PyFloat (INR n)) a). Qed.
Lemma fp1_e0 e a : num_val e = 0 -> fp1 e (Fin a) = Fin 1.
Proof. intros H. apply (is_power_e0 a). rewrite <- H. apply fp1_Fin. Qed.

(** ** nanmax *)
Lemma nanmax_spec c : no_inf c ->
  (reals c = [] /\ nanmax c = NaN) \/ exists m, nanmax c = Fin m /\ is_max m (reals c).
Proof.
  induction 1 as [|v c [->|[a ->]] H IH].
  - left. split; reflexivity.
  - simpl. destruct (nanmax c) eqn:E; exact IH.
  - right. simpl. fold (nanmax c) in *. change (fold_right xfmax NaN c) with (nanmax c).
    destruct IH as [[E ->]|(m & -> & Hm)].
    + exists a. split; [reflexivity|]. rewrite E. split; [now left|].
      intros v [->|[]]. lra.
    + exists (Rmax a m). split; [reflexivity|]. destruct Hm as [I1 I2]. split.
      * unfold Rmax. destruct (Rle_dec a m); [now right|now left].
      * intros v [->|Hv]; [apply Rmax_l|]. apply Rle_trans with m; [auto|apply Rmax_r].
Qed.

(** ** sorting *)
Lemma insertR_In x y l : In y (insertR x l) <-> y = x \/ In y l.
Proof.
  induction l as [|a l IH]; simpl; [intuition|].
  destruct (Rle_dec x a); simpl; [intuition|]. rewrite IH. intuition.
Qed.
Lemma sortR_In y l : In y (sortR l) <-> In y l.
Proof.
  induction l as [|a l IH]; simpl; [tauto|]. rewrite insertR_In, IH. intuition.
Qed.
Lemma insertR_sorted x l : StronglySorted Rle l -> StronglySorted Rle (insertR x l).
Proof.
  induction 1 as [|a l Hs IH Hf]; simpl.
  - repeat constructor.
  - destruct (Rle_dec x a).
    + constructor; [now constructor|]. constructor; trivial.
      eapply Forall_impl; [|exact Hf]. simpl. intros; lra.
    + constructor; trivial. rewrite Forall_forall in *. intros y Hy.
      apply insertR_In in Hy as [->|Hy]; [lra|auto].
Qed.
Lemma sortR_sorted l : StronglySorted Rle (sortR l).
Proof. induction l; simpl; [constructor|]. now apply insertR_sorted. Qed.
Lemma dedupR_In y l : In y (dedupR l) <-> In y l.
Proof.
  induction l as [|a l IH]; simpl; [tauto|].
  destruct (dedupR l) as [|b t] eqn:E.
  - simpl. rewrite <- IH. simpl. tauto.
  - destruct (Req_EM_T a b) as [->|N]; simpl in *; rewrite <- IH; intuition.
Qed.
Lemma dedupR_sorted l : StronglySorted Rle l -> StronglySorted Rlt (dedupR l).
Proof.
  induction 1 as [|a l Hs IH Hf]; simpl; [constructor|].
  destruct (dedupR l) as [|b t] eqn:E.
  - repeat constructor.
  - destruct (Req_EM_T a b) as [->|N]; [trivial|].
    constructor; trivial. rewrite Forall_forall in Hf.
    assert (Hb : In b l) by (apply dedupR_In; rewrite E; now left).
    assert (a < b) by (destruct (Hf b Hb); [trivial|contradiction]).
    inversion IH; subst. constructor; trivial.
    eapply Forall_impl; [|eassumption]. simpl. intros; lra.
Qed.
Lemma uniqueR_In y l : In y (uniqueR l) <-> In y l.
Proof. unfold uniqueR. rewrite dedupR_In. apply sortR_In. Qed.
Lemma uniqueR_sorted l : StronglySorted Rlt (uniqueR l).
Proof. apply dedupR_sorted, sortR_sorted. Qed.
Lemma sorted_lt_NoDup l : StronglySorted Rlt l -> NoDup l.
Proof.
  induction 1 as [|a l Hs IH Hf]; constructor; trivial.
  intros Hi. rewrite Forall_forall in Hf. apply Hf in Hi. lra.
Qed.
