(** * Lemmas: the cumulant generating function of a sample and its derivatives *)
From Coq Require Import Reals List Lra Lia.
From Verif Require Import Spec LXReal LEst LMoment LCum.
Import ListNotations.
Open Scope R_scope.

(** exponential moments of order n *)
Definition em (x : list R) (n : nat) (q : R) : R := mean (map (fun t => t ^ n * exp (q * t)) x).

Lemma deriv_ext (f g : R -> R) q l : (forall t, f t = g t) -> derivable_pt_lim f q l -> derivable_pt_lim g q l.
Proof. intros H D eps He. destruct (D eps He) as [d Hd]. exists d. intros h Hh0 Hh. rewrite <- !H. now apply Hd. Qed.
Lemma deriv_sum {A} (F F' : A -> R -> R) l q : (forall a, In a l -> derivable_pt_lim (F a) q (F' a q)) ->
  derivable_pt_lim (fun q => Rsum (map (fun a => F a q) l)) q (Rsum (map (fun a => F' a q) l)).
Proof.
  induction l as [|a l IH]; intros H.
  - exact (derivable_pt_lim_const 0 q).
  - apply (derivable_pt_lim_plus (F a) (fun q => Rsum (map (fun a => F a q) l)) q).
    + apply H. now left.
    + apply IH. intros. apply H. now right.
Qed.
Lemma deriv_exp_lin t q : derivable_pt_lim (fun q => exp (q * t)) q (t * exp (q * t)).
Proof.
  assert (K := derivable_pt_lim_comp (fun q => q * t) exp q t (exp (q * t))). rewrite Rmult_comm. apply K; [|apply derivable_pt_lim_exp].
  assert (Q := derivable_pt_lim_mult id (fct_cte t) q 1 0 (derivable_pt_lim_id q) (derivable_pt_lim_const t q)).
  unfold fct_cte, id in Q. replace (1 * t + q * 0) with t in Q by ring. exact Q.
Qed.
Lemma em_deriv x n q : derivable_pt_lim (em x n) q (em x (S n) q).
Proof.
  unfold em, mean. rewrite map_length.
  apply deriv_ext with (f := fun q => / INR (length x) * Rsum (map (fun t => t ^ n * exp (q * t)) x)).
  { intros t. rewrite map_length. unfold Rdiv. ring. }
  replace (Rsum (map (fun t => t ^ S n * exp (q * t)) x) / INR (length x))
    with (/ INR (length x) * Rsum (map (fun t => t ^ S n * exp (q * t)) x)) by (unfold Rdiv; ring).
  apply (derivable_pt_lim_scal (fun q => Rsum (map (fun t => t ^ n * exp (q * t)) x))).
  apply (deriv_sum (fun t q => t ^ n * exp (q * t)) (fun t q => t ^ S n * exp (q * t))). intros t _.
  replace (t ^ S n * exp (q * t)) with (t ^ n * (t * exp (q * t))) by (simpl; ring).
  apply (derivable_pt_lim_scal (fun q => exp (q * t))). apply deriv_exp_lin.
Qed.
Lemma em_pos x q : x <> [] -> 0 < em x 0 q.
Proof.
  intros H. unfold em, mean. rewrite map_length. apply Rdiv_lt_0_compat.
  - destruct x as [|a x]; [contradiction|]. apply Rsum_map_pos.
    + intros t _. simpl. rewrite Rmult_1_l. left. apply exp_pos.
    + exists a. split; [now left|]. simpl. rewrite Rmult_1_l. apply exp_pos.
  - apply lt_0_INR. destruct x; [contradiction|simpl; lia].
Qed.
Lemma em_0 x n : em x n 0 = mu x n.
Proof. unfold em, mu. apply mean_ext. intros. rewrite Rmult_0_l, exp_0. ring. Qed.

(** the cumulant generating function and its successive derivatives: the cumulants of the tilted sample *)
Definition cgf (x : list R) (n : nat) (q : R) : R :=
  match n with
  | O => ln (em x 0 q)
  | _ => kappa (fun k => em x k q / em x 0 q) n
  end.
Lemma cgf_relation x q n : x <> [] -> em x (S n) q = conv (fun k => cgf x (S k) q) (fun k => em x k q) n.
Proof.
  intros H. assert (P := em_pos x q H).
  assert (R := kap_relation (fun k => em x k q / em x 0 q) (S n) ltac:(cbn beta; field; lra) n ltac:(lia)). cbn beta in R.
  assert (E : conv (shift (kappa (fun k => em x k q / em x 0 q))) (fun k => em x k q / em x 0 q) n
    = / em x 0 q * conv (fun k => cgf x (S k) q) (fun k => em x k q) n).
  { rewrite <- conv_scal_r. apply conv_ext; intros; [reflexivity|unfold Rdiv; ring]. }
  rewrite E in R. apply (Rmult_eq_reg_l (/ em x 0 q)); [|apply Rinv_neq_0_compat; lra]. rewrite <- R. unfold Rdiv. ring.
Qed.
Lemma cgf_solve x q n : x <> [] ->
  cgf x (S n) q = (em x (S n) q - Rsum (map (fun k => Binomial.C n k * cgf x (S k) q * em x (n - k) q) (seq 0 n))) / em x 0 q.
Proof.
  intros H. assert (P := em_pos x q H). assert (R := cgf_relation x q n H).
  rewrite conv_binom, Rsum_seq_last, C_n, Nat.sub_diag in R. rewrite R. field. lra.
Qed.
Lemma cgf_deriv x n q : x <> [] -> derivable_pt_lim (cgf x n) q (cgf x (S n) q).
Proof.
  intros H. revert q. induction n as [n IH] using lt_wf_ind. intros q. assert (P := em_pos x q H). destruct n as [|n].
  - assert (K := derivable_pt_lim_comp (em x 0) ln q (em x 1 q) (/ em x 0 q) (em_deriv x 0 q) (derivable_pt_lim_ln _ P)).
    replace (cgf x 1 q) with (/ em x 0 q * em x 1 q); [exact K|]. cbn [cgf]. rewrite kappa_1. field. lra.
  - set (G := fun q => em x (S n) q - Rsum (map (fun k => Binomial.C n k * cgf x (S k) q * em x (n - k) q) (seq 0 n))).
    set (G' := em x (S (S n)) q - Rsum (map (fun k => Binomial.C n k * (cgf x (S (S k)) q * em x (n - k) q + cgf x (S k) q * em x (S (n - k)) q)) (seq 0 n))).
    assert (DG : derivable_pt_lim G q G').
    { apply (derivable_pt_lim_minus (em x (S n)) (fun q => Rsum (map (fun k => Binomial.C n k * cgf x (S k) q * em x (n - k) q) (seq 0 n)))); [apply em_deriv|].
      apply (deriv_sum (fun k q => Binomial.C n k * cgf x (S k) q * em x (n - k) q)
               (fun k q => Binomial.C n k * (cgf x (S (S k)) q * em x (n - k) q + cgf x (S k) q * em x (S (n - k)) q))).
      intros k Hk. apply in_seq in Hk.
      apply deriv_ext with (f := fun q => Binomial.C n k * (cgf x (S k) q * em x (n - k) q)); [intros; ring|].
      apply (derivable_pt_lim_scal (fun q => cgf x (S k) q * em x (n - k) q)).
      apply (derivable_pt_lim_mult (cgf x (S k)) (em x (n - k))); [apply IH; lia|apply em_deriv]. }
    assert (Q := derivable_pt_lim_div G (em x 0) q G' (em x 1 q) DG (em_deriv x 0 q) ltac:(lra)).
    apply deriv_ext with (f := (G / em x 0)%F).
    { intros t. unfold div_fct, G. symmetry. now apply cgf_solve. }
    replace (cgf x (S (S n)) q) with ((G' * em x 0 q - em x 1 q * G q) / Rsqr (em x 0 q)); [exact Q|].
    assert (EG : G q = cgf x (S n) q * em x 0 q) by (unfold G; rewrite (cgf_solve x q n H); field; lra).
    rewrite EG. apply (Rmult_eq_reg_r (em x 0 q)); [|lra].
    replace ((G' * em x 0 q - em x 1 q * (cgf x (S n) q * em x 0 q)) / Rsqr (em x 0 q) * em x 0 q)
      with (G' - em x 1 q * cgf x (S n) q) by (unfold Rsqr; field; lra).
    assert (R := cgf_relation x q (S n) H). cbn [conv] in R. rewrite !conv_binom, !Rsum_seq_last, !C_n, !Nat.sub_diag in R.
    unfold shift in R. unfold G'. rewrite R.
    rewrite (Rsum_map_ext (fun k => Binomial.C n k * (cgf x (S (S k)) q * em x (n - k) q + cgf x (S k) q * em x (S (n - k)) q))
      (fun k => Binomial.C n k * cgf x (S (S k)) q * em x (n - k) q + Binomial.C n k * cgf x (S k) q * em x (S (n - k)) q)) by (intros; ring).
    rewrite (Rsum_map_plus (fun k => Binomial.C n k * cgf x (S (S k)) q * em x (n - k) q)). ring.
Qed.
Lemma kappa_ext f g n : (forall k, f k = g k) -> kappa f n = kappa g n.
Proof.
  intros H. unfold kappa. f_equal. induction n as [|n IH]; [reflexivity|]. cbn [kap]. rewrite IH, H. f_equal. f_equal. f_equal. f_equal. 
  apply map_ext. intros k. now rewrite H.
Qed.
Lemma cgf_at_0 x n : x <> [] -> (1 <= n)%nat -> cgf x n 0 = kappa (mu x) n.
Proof.
  intros H Hn. destruct n as [|n]; [lia|]. cbn [cgf]. apply kappa_ext. intros k. rewrite !em_0, (mu_0 x H). field.
Qed.
