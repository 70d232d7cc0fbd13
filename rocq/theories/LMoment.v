(** * Moments of columns *)
From Coq Require Import Reals List ZArith Bool Lra Lia.
From Verif Require Import XReal PyBase ModelUtils ModelMRQ ModelStructure Spec SpecMRQ LXReal LReg LUtils LBase LEst.
Import ListNotations.
Open Scope R_scope.

Lemma fp1_qpow e a : 0 <= num_val e \/ a <> 0 -> fp1 e (Fin (Rabs a)) = Fin (qpow (num_val e) a).
Proof.
  intros H. unfold qpow, abs_pow. destruct (Req_EM_T (num_val e) 0) as [E|E].
  - now apply fp1_e0.
  - destruct (Req_EM_T a 0) as [->|N].
    + rewrite Rabs_R0. apply fp1_0. destruct H; [lra|congruence].
    + rewrite fp1_pos by (now apply Rabs_pos_lt). reflexivity.
Qed.
Lemma q_defined_in q l a : q_defined q l -> In a l -> 0 <= q \/ a <> 0.
Proof. intros [H|H] I; [auto|]. rewrite Forall_forall in H. auto. Qed.

Lemma abs_power_col c e : no_inf c -> q_defined (num_val e) (reals c) ->
  no_inf (fast_power (map xabs c) e) /\ reals (fast_power (map xabs c) e) = map (qpow (num_val e)) (reals c).
Proof.
  intros N Q. rewrite fast_power_map, map_map. apply map_no_inf; trivial.
  - cbn [xabs]. apply fp1_NaN.
  - intros a Ha. cbn [xabs]. apply fp1_qpow. eapply q_defined_in; eassumption.
Qed.
Lemma sf_moment_eq c e : no_inf c -> reals c <> [] -> q_defined (num_val e) (reals c) ->
  sf_moment c e = Fin (abs_moment (num_val e) (reals c)).
Proof.
  intros N Hne Q. unfold sf_moment. destruct (abs_power_col c e N Q) as [A B].
  rewrite nanmean_reals; trivial; rewrite B; [reflexivity|]. destruct (reals c); [congruence|discriminate].
Qed.
Lemma mean_const {A} (l : list A) x : l <> [] -> mean (map (fun _ => x) l) = x.
Proof. intros H. unfold mean. rewrite Rsum_const, map_length. field. apply INR_len_pos in H. lra. Qed.
Lemma mean_ext {A} (f g : A -> R) l : (forall a, In a l -> f a = g a) -> mean (map f l) = mean (map g l).
Proof. intros H. unfold mean. rewrite !map_length. now rewrite (Rsum_map_ext f g). Qed.
Lemma mean_repeat x n : (1 <= n)%nat -> mean (repeat x n) = x.
Proof.
  intros H. transitivity (mean (map (fun _ => x) (repeat x n))).
  - f_equal. clear. induction n; simpl; congruence.
  - apply mean_const. destruct n; [lia|discriminate].
Qed.
(** a column whose usable entries all have absolute value a > 0 *)
Lemma moment_const l a q : l <> [] -> 0 < a -> (forall x, In x l -> Rabs x = a) -> abs_moment q l = Rpower a q.
Proof.
  intros Hne Ha H. unfold abs_moment.
  rewrite (mean_ext (qpow q) (fun _ => Rpower a q)).
  - now apply mean_const.
  - intros x Hx. unfold qpow, abs_pow. destruct (Req_EM_T q 0) as [->|]; [now rewrite Rpower_O|].
    assert (E := H x Hx). destruct (Req_EM_T x 0) as [->|]; [rewrite Rabs_R0 in E; lra|]. now rewrite E.
Qed.
Lemma qpow_pos q a : a <> 0 -> 0 < qpow q a.
Proof. intros H. unfold qpow, abs_pow. destruct (Req_EM_T q 0); [lra|]. destruct (Req_EM_T a 0); [congruence|]. apply exp_pos. Qed.
Lemma qpow_nonneg q a : 0 <= qpow q a.
Proof. unfold qpow, abs_pow. destruct (Req_EM_T q 0); [lra|]. destruct (Req_EM_T a 0); [lra|]. left. apply exp_pos. Qed.
(** positive as soon as one entry is non-zero, or q = 0 *)
Lemma abs_moment_pos q l : l <> [] -> q = 0 \/ Exists (fun a => a <> 0) l -> 0 < abs_moment q l.
Proof.
  intros Hne H. unfold abs_moment, mean. apply Rdiv_lt_0_compat.
  - apply Rsum_map_pos; [intros; apply qpow_nonneg|]. destruct H as [->|H].
    + destruct l as [|a l]; [congruence|]. exists a. split; [now left|]. unfold qpow. destruct (Req_EM_T 0 0); [lra|congruence].
    + apply Exists_exists in H as (a & Ha & Hz). exists a. split; trivial. now apply qpow_pos.
  - rewrite map_length. now apply INR_len_pos.
Qed.
Lemma xlog2_pos a : 0 < a -> xlog2 (Fin a) = Fin (log2R a).
Proof. intros. unfold xlog2. destruct (Rlt_dec 0 a); [reflexivity|lra]. Qed.
Lemma xln_pos a : 0 < a -> xln (Fin a) = Fin (ln a).
Proof. intros. unfold xln. destruct (Rlt_dec 0 a); [reflexivity|lra]. Qed.
