(** * C107: the log-cumulants determine the scaling function: Taylor expansion with explicit error, and convergence of the series *)
From Coq Require Import Reals List ZArith Bool Lra Lia.
From Verif Require Import XReal PyBase ModelUtils ModelMRQ ModelStructure ModelCumulants ModelSpectrum ModelEstimation ModelWavelet Spec SpecMRQ
  LXReal LReg LUtils LBase LEst LMoment LCum LEntropy LCgf LTransform LPattern LWave LWaveEst PropsEstimators PropsCumulants PropsSpectrum PropsMono PropsStable PropsWavelet PropsLeaders PropsCgf PropsShape.
Import ListNotations.
Open Scope R_scope.
Local Notation length := List.length.

(** ** Specification *)
(** the magnitudes are within a factor 2^S of one another *)
Definition factor_range (S : R) (l : list R) : Prop := forall a b, In a l -> In b l -> Rabs a <= Rpower 2 S * Rabs b.
(** c_1 q + c_2 q^2 / 2! + ... + c_n q^n / n! *)
Definition expansion (c : nat -> R) (n : nat) (q : R) : R := Rsum (map (fun k => c k * q ^ k / INR (fact k)) (seq 1 n)).
(** its derivative c_1 + c_2 q + ... + c_n q^(n-1) / (n-1)! *)
Definition expansion_h (c : nat -> R) (n : nat) (q : R) : R := Rsum (map (fun k => c k * q ^ (k - 1) / INR (fact (k - 1))) (seq 1 n)).

(** ** Taylor's inequality *)
Lemma pow_fact_deriv n q : derivable_pt_lim (fun t => t ^ S n / INR (fact (S n))) q (q ^ n / INR (fact n)).
Proof.
  apply deriv_ext with (f := fun t => / INR (fact (S n)) * t ^ S n); [intros; unfold Rdiv; ring|].
  replace (q ^ n / INR (fact n)) with (/ INR (fact (S n)) * (INR (S n) * q ^ n)).
  - apply deriv_scal. apply (derivable_pt_lim_pow q (S n)).
  - rewrite fact_simpl, mult_INR. field. split; [apply INR_fact_neq_0|apply not_0_INR; lia].
Qed.
Lemma taylor_pos n : forall (F : nat -> R -> R) q M, 0 <= q -> (forall k t, derivable_pt_lim (F k) t (F (S k) t)) -> (forall t, 0 <= t <= q -> Rabs (F n t) <= M) ->
  Rabs (F 0%nat q - Rsum (map (fun k => F k 0 * q ^ k / INR (fact k)) (seq 0 n))) <= M * q ^ n / INR (fact n).
Proof.
  induction n as [|n IH]; intros F q M Hq HD HM.
  - unfold Rsum. cbn [seq map fold_right fact pow]. change (INR 1) with 1. rewrite Rminus_0_r. assert (K := HM q ltac:(lra)). lra.
  - set (P := fun t => Rsum (map (fun k => F k 0 * t ^ k / INR (fact k)) (seq 0 (S n)))).
    set (P' := fun t => Rsum (map (fun k => F (S k) 0 * t ^ k / INR (fact k)) (seq 0 n))).
    assert (DP : forall t, derivable_pt_lim P t (P' t)).
    { intros t. unfold P, P'. apply deriv_ext with (f := fun t => F 0%nat 0 + Rsum (map (fun k => F (S k) 0 * t ^ S k / INR (fact (S k))) (seq 0 n))).
      - intros u. cbn [seq]. rewrite <- seq_shift, map_cons, map_map. unfold Rsum. cbn [fold_right pow fact]. change (INR 1) with 1. field.
      - rewrite <- (Rplus_0_l (Rsum _)). apply (derivable_pt_lim_plus (fun _ => F 0%nat 0)); [apply derivable_pt_lim_const|].
        apply (deriv_sum (fun k t => F (S k) 0 * t ^ S k / INR (fact (S k))) (fun k t => F (S k) 0 * t ^ k / INR (fact k))). intros k _.
        apply deriv_ext with (f := fun t => F (S k) 0 * (t ^ S k / INR (fact (S k)))); [intros; unfold Rdiv; ring|].
        replace (F (S k) 0 * t ^ k / INR (fact k)) with (F (S k) 0 * (t ^ k / INR (fact k))) by (unfold Rdiv; ring). apply deriv_scal, pow_fact_deriv. }
    assert (P0 : P 0 = F 0%nat 0).
    { unfold P. cbn [seq]. rewrite <- seq_shift, map_cons, map_map. unfold Rsum. cbn [fold_right].
      change (F 0%nat 0 * 0 ^ 0 / INR (fact 0) + Rsum (map (fun k => F (S k) 0 * 0 ^ S k / INR (fact (S k))) (seq 0 n)) = F 0%nat 0).
      rewrite (Rsum_map_ext _ (fun _ => 0)) by (intros k _; rewrite pow_i by lia; unfold Rdiv; ring). rewrite Rsum_map_zero by reflexivity. cbn [pow fact]. change (INR 1) with 1. field. }
    assert (B : forall t, 0 <= t <= q -> Rabs (F 1%nat t - P' t) <= M * t ^ n / INR (fact n)).
    { intros t Ht. apply (IH (fun k => F (S k)) t M); [lra|intros; apply HD|]. intros u Hu. apply HM. lra. }
    set (E := fun t => M * (t ^ S n / INR (fact (S n)))).
    assert (DE : forall t, derivable_pt_lim E t (M * (t ^ n / INR (fact n)))) by (intros t; apply deriv_scal, pow_fact_deriv).
    assert (E0 : E 0 = 0) by (unfold E; rewrite pow_i by lia; unfold Rdiv; ring).
    destruct (Rle_lt_or_eq_dec _ _ Hq) as [L|Eq].
    + assert (U : forall sg, (sg = 1 \/ sg = -1) -> 0 <= E q + sg * (F 0%nat q - P q)).
      { intros sg Hsg. set (G := fun t => E t + sg * (F 0%nat t - P t)).
        assert (DG : forall t, derivable_pt_lim G t (M * (t ^ n / INR (fact n)) + sg * (F 1%nat t - P' t))).
        { intros t. apply (derivable_pt_lim_plus E (fun t => sg * (F 0%nat t - P t))); [apply DE|]. apply deriv_scal. apply (derivable_pt_lim_minus (F 0%nat) P); [apply HD|apply DP]. }
        destruct (MVT_cor2 G _ 0 q L (fun t _ => DG t)) as (c & Ec & Hc). assert (Bc := B c ltac:(lra)).
        assert (0 <= (M * (c ^ n / INR (fact n)) + sg * (F 1%nat c - P' c)) * (q - 0)).
        { apply Rmult_le_pos; [|lra]. replace (M * (c ^ n / INR (fact n))) with (M * c ^ n / INR (fact n)) by (unfold Rdiv; ring). destruct Hsg as [-> | ->]; revert Bc; unfold Rabs; destruct (Rcase_abs _); lra. }
        assert (G0 : G 0 = 0) by (unfold G; rewrite E0, P0; ring). change (0 <= G q). lra. }
      assert (U1 := U 1 (or_introl eq_refl)). assert (U2 := U (-1) (or_intror eq_refl)).
      fold (P q). replace (M * q ^ S n / INR (fact (S n))) with (E q) by (unfold E, Rdiv; ring). apply Rabs_le. lra.
    + fold (P q). rewrite <- Eq. rewrite P0, Rminus_diag_eq by reflexivity. rewrite Rabs_R0, pow_i by lia. unfold Rdiv. lra.
Qed.
Lemma taylor n (F : nat -> R -> R) q M : (forall k t, derivable_pt_lim (F k) t (F (S k) t)) -> (forall t, Rabs (F n t) <= M) ->
  Rabs (F 0%nat q - Rsum (map (fun k => F k 0 * q ^ k / INR (fact k)) (seq 0 n))) <= M * Rabs q ^ n / INR (fact n).
Proof.
  intros HD HM. destruct (Rle_dec 0 q) as [P|N].
  - rewrite (Rabs_pos_eq q P). apply taylor_pos; [trivial|trivial|]. intros t _. apply HM.
  - rewrite (Rabs_left q) by lra.
    assert (HD' : forall k t, derivable_pt_lim (fun t => (-1) ^ k * F k (- t)) t ((-1) ^ S k * F (S k) (- t))).
    { intros k t. replace ((-1) ^ S k * F (S k) (- t)) with ((-1) ^ k * (F (S k) (- t) * -1)) by (simpl; ring). apply deriv_scal.
      exact (derivable_pt_lim_comp (fun t => - t) (F k) t (-1) (F (S k) (- t)) (derivable_pt_lim_opp id t 1 (derivable_pt_lim_id t)) (HD k (- t))). }
    assert (K := taylor_pos n (fun k t => (-1) ^ k * F k (- t)) (- q) M ltac:(lra) HD').
    cbn beta in K. replace (F 0%nat q) with ((-1) ^ 0 * F 0%nat (- - q)) by (rewrite Ropp_involutive; simpl; ring).
    rewrite (Rsum_map_ext (fun k => F k 0 * q ^ k / INR (fact k)) (fun k => (-1) ^ k * F k (- 0) * (- q) ^ k / INR (fact k))).
    + apply K. intros t _. rewrite Rabs_mult, <- RPow_abs, Rabs_left by lra. replace (- -1) with 1 by ring. rewrite pow1, Rmult_1_l. apply HM.
    + intros k _. rewrite Ropp_0. replace ((- q) ^ k) with ((-1) ^ k * q ^ k) by (rewrite <- Rpow_mult_distr; f_equal; ring).
      assert (S1 : (-1) ^ k * (-1) ^ k = 1) by (rewrite <- Rpow_mult_distr; replace (-1 * -1) with 1 by ring; apply pow1).
      replace ((-1) ^ k * F k 0 * ((-1) ^ k * q ^ k)) with ((-1) ^ k * (-1) ^ k * (F k 0 * q ^ k)) by ring. rewrite S1. unfold Rdiv. ring.
Qed.

(** ** Cumulants of a bounded sample *)
Lemma em_bounds x w k q : (forall t, In t x -> 0 <= t <= w) -> 0 <= em x k q <= w ^ k * em x 0 q.
Proof.
  intros H. unfold em, mean. rewrite !map_length. set (n := INR (length x)).
  assert (N : 0 <= / n). { unfold n. destruct x; [simpl; rewrite Rinv_0; lra|]. left. apply Rinv_0_lt_compat, lt_0_INR. simpl. lia. }
  enough (0 <= Rsum (map (fun t => t ^ k * exp (q * t)) x) <= w ^ k * Rsum (map (fun t => t ^ 0 * exp (q * t)) x)) as [A B].
  { split; [now apply Rmult_le_pos|]. unfold Rdiv. rewrite <- Rmult_assoc. now apply Rmult_le_compat_r. }
  clear n N. unfold Rsum. induction x as [|t x IH]; cbn [map fold_right]; [lra|]. destruct IH as [A B]; [intros u Hu; apply H; now right|].
  assert (T := H t (or_introl eq_refl)). assert (0 <= t ^ k) by (apply pow_le; lra). assert (t ^ k <= w ^ k) by (apply pow_incr; lra). assert (P := exp_pos (q * t)).
  assert (0 <= t ^ k * exp (q * t)) by (apply Rmult_le_pos; lra). assert (t ^ k * exp (q * t) <= w ^ k * exp (q * t)) by (apply Rmult_le_compat_r; lra).
  change (t ^ 0) with 1. lra.
Qed.
Lemma Rsum_geom m : Rsum (map (fun k => 4 ^ k) (seq 0 m)) = (4 ^ m - 1) / 3.
Proof. induction m as [|m IH]; [unfold Rsum; simpl; field|]. rewrite Rsum_seq_last, IH. simpl. field. Qed.
Lemma fact_pow i : (1 <= i)%nat -> 2 ^ i <= 2 * INR (fact i).
Proof.
  induction i as [|i IH]; intros H; [lia|]. destruct i as [|i]; [simpl; lra|]. specialize (IH ltac:(lia)). rewrite fact_simpl, mult_INR. assert (2 <= INR (S (S i))) by (change 2 with (INR 2); apply le_INR; lia).
  change (2 ^ S (S i)) with (2 * 2 ^ S i). assert (P := INR_fact_lt_0 (S i)). nra.
Qed.
Lemma cum_weights m : (1 <= m)%nat -> 1 + Rsum (map (fun k => Binomial.C m k * (INR (fact k) * 2 ^ S k)) (seq 0 m)) <= INR (fact m) * 2 ^ S m.
Proof.
  intros Hm. assert (F := INR_fact_lt_0 m).
  assert (B : Rsum (map (fun k => Binomial.C m k * (INR (fact k) * 2 ^ S k)) (seq 0 m)) <= INR (fact m) * (4 / 2 ^ m) * ((4 ^ m - 1) / 3)).
  { rewrite <- Rsum_geom, <- Rsum_map_scal. apply Rsum_map_le. intros k Hk. apply in_seq in Hk. unfold Binomial.C.
    assert (Fk := INR_fact_lt_0 k). assert (Fi := INR_fact_lt_0 (m - k)). assert (P2 := fact_pow (m - k) ltac:(lia)). assert (Q : 0 < 2 ^ (m - k)) by (apply pow_lt; lra). assert (Qm : 0 < 2 ^ m) by (apply pow_lt; lra). assert (Qk : 0 < 2 ^ k) by (apply pow_lt; lra).
    replace (INR (fact m) / (INR (fact k) * INR (fact (m - k))) * (INR (fact k) * 2 ^ S k)) with (INR (fact m) * (2 ^ S k / INR (fact (m - k)))) by (field; lra).
    rewrite Rmult_assoc. apply Rmult_le_compat_l; [lra|].
    replace (4 / 2 ^ m * 4 ^ k) with (2 ^ S k * (2 / 2 ^ (m - k))).
    - unfold Rdiv. apply Rmult_le_compat_l; [simpl; lra|]. apply (Rmult_le_reg_r (INR (fact (m - k)))); [trivial|]. rewrite Rinv_l by lra.
      apply (Rmult_le_reg_r (2 ^ (m - k))); [trivial|]. replace (2 * / 2 ^ (m - k) * INR (fact (m - k)) * 2 ^ (m - k)) with (2 * INR (fact (m - k))) by (field; lra). lra.
    - replace (2 ^ m) with (2 ^ k * 2 ^ (m - k)) by (rewrite <- pow_add; f_equal; lia). replace (4 ^ k) with (2 ^ k * 2 ^ k) by (rewrite <- Rpow_mult_distr; f_equal; ring). simpl. field. lra. }
  assert (P4 : 4 ^ m = 2 ^ m * 2 ^ m) by (rewrite <- Rpow_mult_distr; f_equal; ring). assert (Q : 2 <= 2 ^ m) by (replace 2 with (2 ^ 1) at 1 by (simpl; ring); apply Rle_pow; [lra|lia]).
  assert (F1 : 1 <= INR (fact m)) by (change 1 with (INR 1); apply le_INR; apply (fact_le 1 m); lia).
  rewrite P4 in B. replace (INR (fact m) * (4 / 2 ^ m) * ((2 ^ m * 2 ^ m - 1) / 3)) with (INR (fact m) * (4 / 3 * 2 ^ m) - INR (fact m) * (4 / 3 / 2 ^ m)) in B by (field; lra).
  assert (0 < / 2 ^ m) by (apply Rinv_0_lt_compat; lra). assert (0 <= INR (fact m) * (4 / 3 / 2 ^ m)) by (apply Rmult_le_pos; [lra|unfold Rdiv; lra]).
  change (2 ^ S m) with (2 * 2 ^ m). nra.
Qed.
Lemma Rsum_map_abs {A} (f : A -> R) l : Rabs (Rsum (map f l)) <= Rsum (map (fun a => Rabs (f a)) l).
Proof. induction l as [|a l IH]; [simpl; rewrite Rabs_R0; lra|]. cbn [map Rsum fold_right]. eapply Rle_trans; [apply Rabs_triang|]. unfold Rsum in IH. lra. Qed.
(** the cumulant of order n of a sample in [0, w], tilted or not, is at most (n-1)! (2 w)^n *)
Lemma cgf_bound x w n q : x <> [] -> (forall t, In t x -> 0 <= t <= w) -> Rabs (cgf x (S n) q) <= INR (fact n) * (2 * w) ^ S n.
Proof.
  intros Hx H. assert (W : 0 <= w). { destruct x as [|t x]; [contradiction|]. assert (T := H t (or_introl eq_refl)). lra. }
  assert (P := em_pos x q Hx). induction n as [n IH] using lt_wf_ind. rewrite (cgf_solve x q n Hx).
  unfold Rdiv. rewrite Rabs_mult, (Rabs_pos_eq (/ em x 0 q)) by (left; now apply Rinv_0_lt_compat).
  apply (Rmult_le_reg_r (em x 0 q)); [trivial|]. rewrite Rmult_assoc, Rinv_l, Rmult_1_r by lra.
  destruct (em_bounds x w (S n) q H) as [E1 E2].
  assert (B : Rabs (Rsum (map (fun k => Binomial.C n k * cgf x (S k) q * em x (n - k) q) (seq 0 n)))
     <= w ^ S n * Rsum (map (fun k => Binomial.C n k * (INR (fact k) * 2 ^ S k)) (seq 0 n)) * em x 0 q).
  { eapply Rle_trans; [apply Rsum_map_abs|]. rewrite Rmult_assoc, (Rmult_comm (Rsum _)), <- Rmult_assoc, <- Rsum_map_scal. apply Rsum_map_le. intros k Hk. apply in_seq in Hk.
    destruct (em_bounds x w (n - k) q H) as [M1 M2]. rewrite !Rabs_mult, (Rabs_pos_eq (em x (n - k) q)) by trivial.
    assert (C0 : 0 <= Binomial.C n k) by (unfold Binomial.C; apply Rmult_le_pos; [apply pos_INR|left; apply Rinv_0_lt_compat, Rmult_lt_0_compat; apply INR_fact_lt_0]).
    rewrite (Rabs_pos_eq (Binomial.C n k)) by trivial. specialize (IH k ltac:(lia)).
    replace (w ^ S n * em x 0 q * (Binomial.C n k * (INR (fact k) * 2 ^ S k))) with (Binomial.C n k * (INR (fact k) * (2 * w) ^ S k) * (w ^ (n - k) * em x 0 q)).
    - apply Rmult_le_compat; trivial; [apply Rmult_le_pos; trivial; apply Rabs_pos|now apply Rmult_le_compat_l].
    - rewrite Rpow_mult_distr. replace (w ^ S n) with (w ^ S k * w ^ (n - k)) by (rewrite <- pow_add; f_equal; lia). ring. }
  assert (T : Rabs (em x (S n) q - Rsum (map (fun k => Binomial.C n k * cgf x (S k) q * em x (n - k) q) (seq 0 n)))
     <= w ^ S n * (1 + Rsum (map (fun k => Binomial.C n k * (INR (fact k) * 2 ^ S k)) (seq 0 n))) * em x 0 q).
  { eapply Rle_trans; [apply Rabs_triang|]. rewrite Rabs_Ropp, (Rabs_pos_eq (em x (S n) q)) by trivial. lra. }
  eapply Rle_trans; [exact T|]. apply Rmult_le_compat_r; [lra|]. assert (WP : 0 <= w ^ S n) by (now apply pow_le). rewrite Rpow_mult_distr.
  replace (INR (fact n) * (2 ^ S n * w ^ S n)) with (w ^ S n * (INR (fact n) * 2 ^ S n)) by ring. apply Rmult_le_compat_l; trivial.
  destruct n as [|n]; [unfold Rsum; simpl; lra|apply cum_weights; lia].
Qed.
Lemma em_shift_0 x a q : em (map (fun t => a + t) x) 0 q = exp (q * a) * em x 0 q.
Proof.
  unfold em, mean. rewrite !map_map, !map_length. rewrite (Rsum_map_ext _ (fun t => exp (q * a) * (t ^ 0 * exp (q * t)))).
  - rewrite Rsum_map_scal. unfold Rdiv. ring.
  - intros t _. rewrite Rmult_plus_distr_l, exp_plus. simpl. ring.
Qed.
Lemma cgf_shift x a n : x <> [] -> forall q, cgf (map (fun t => a + t) x) (S n) q = cgf x (S n) q + match n with O => a | _ => 0 end.
Proof.
  intros Hx. assert (Hx' : map (fun t => a + t) x <> []) by (destruct x; [contradiction|discriminate]).
  induction n as [|n IH]; intros q.
  - apply (uniqueness_limite (plus_fct (cgf x 0) (fun q => q * a)) q).
    + apply deriv_ext with (f := cgf (map (fun t => a + t) x) 0).
      * intros t. unfold plus_fct. cbn [cgf]. assert (P := em_pos x t Hx). rewrite em_shift_0, ln_mult by (trivial; apply exp_pos). rewrite ln_exp. ring.
      * now apply cgf_deriv.
    + apply derivable_pt_lim_plus; [now apply cgf_deriv|]. apply deriv_ext with (f := fun q => a * q); [intros; ring|]. assert (K := deriv_scal a id q 1 (derivable_pt_lim_id q)). rewrite Rmult_1_r in K. exact K.
  - apply (uniqueness_limite (plus_fct (cgf x (S n)) (fun _ => match n with O => a | _ => 0 end)) q).
    + apply deriv_ext with (f := cgf (map (fun t => a + t) x) (S n)); [intros t; apply IH|]. now apply cgf_deriv.
    + apply derivable_pt_lim_plus; [now apply cgf_deriv|]. apply derivable_pt_lim_const.
Qed.
Lemma list_least (x : list R) : x <> [] -> exists t0, In t0 x /\ forall t, In t x -> t0 <= t.
Proof.
  induction x as [|a x IH]; intros H; [contradiction|]. destruct x as [|b x].
  - exists a. split; [now left|]. intros t [->|[]]. lra.
  - destruct (IH ltac:(discriminate)) as (t0 & I0 & L). destruct (Rle_dec a t0) as [A|A].
    + exists a. split; [now left|]. intros t [->|Ht]; [lra|]. specialize (L t Ht). lra.
    + exists t0. split; [now right|]. intros t [->|Ht]; [lra|now apply L].
Qed.
Lemma cgf_range x w n q : x <> [] -> (forall t t', In t x -> In t' x -> t - t' <= w) -> (1 <= n)%nat -> Rabs (cgf x (S n) q) <= INR (fact n) * (2 * w) ^ S n.
Proof.
  intros Hx H Hn. destruct (list_least x Hx) as (t0 & I0 & L). assert (E := cgf_shift x (- t0) n Hx q). destruct n as [|n]; [lia|]. rewrite Rplus_0_r in E. rewrite <- E.
  apply cgf_bound; [destruct x; [contradiction|discriminate]|]. intros t Ht. apply in_map_iff in Ht as (u & <- & Hu). assert (A := L u Hu). assert (B := H u t0 Hu I0). lra.
Qed.
Lemma logs_range S l : Forall (fun a => a <> 0) l -> factor_range S l ->
  forall t t', In t (map (fun a => ln (Rabs a)) l) -> In t' (map (fun a => ln (Rabs a)) l) -> t - t' <= S * ln 2.
Proof.
  intros Z H t t' Ht Ht'. apply in_map_iff in Ht as (a & <- & Ha). apply in_map_iff in Ht' as (b & <- & Hb). rewrite Forall_forall in Z.
  assert (Pa := Rabs_pos_lt a (Z a Ha)). assert (Pb := Rabs_pos_lt b (Z b Hb)). assert (K0 := H a b Ha Hb).
  assert (K : ln (Rabs a) <= ln (Rpower 2 S * Rabs b)) by (destruct K0 as [K0|K0]; [left; now apply ln_increasing|right; now rewrite K0]).
  rewrite ln_mult in K by (trivial; apply Rpower_pos). rewrite ln_2d in K. lra.
Qed.

(** ** The scaling function and its derivatives as sums over scales *)
Definition zfun (u : Z -> R) (m : mrq) (j1 j2 : Z) (r : nat) (k : nat) (q : R) : R := Rsum (map (fun j => u j * (cgf (logs m j r) k q / ln 2)) (zrange j1 (j2 + 1))).
Lemma zfun_spec m g nrep j1 j2 wd : regular m g nrep -> counted m -> (1 <= j1)%Z -> (j1 < j2)%Z -> (j2 <= Z.of_nat g)%Z ->
  forall r, (r < nrep)%nat -> fit_ready m j1 j2 r ->
  exists u, let Z := zfun u m j1 j2 r in
    (forall k q, derivable_pt_lim (Z k) q (Z (S k) q)) /\ Z 0%nat 0 = 0 /\
    (forall y, slope (fit_points wd m j1 j2 r y) = Rsum (map (fun j => u j * y j) (zrange j1 (j2 + 1)))) /\
    (forall qs s i, StructureFunction m (QArr qs) j1 j2 wd = Ok s -> (i < length qs)%nat -> at2 (sf_zeta s) i r = Fin (Z 0%nat (nth i qs 0))) /\
    (forall qs s i, MultifractalSpectrum m j1 j2 wd (QArr qs) = Ok s -> (i < length qs)%nat ->
       at2 (ms_hq s) i r = Fin (Z 1%nat (nth i qs 0)) /\ at2 (ms_Dq s) i r = Fin (1 + nth i qs 0 * Z 1%nat (nth i qs 0) - Z 0%nat (nth i qs 0))) /\
    (forall n c k, Cumulants m n j1 j2 wd = Ok c -> (1 <= k <= n)%nat -> at2 (cu_log_cumulants c) (k - 1) r = Fin (Z k 0)).
Proof.
  intros HR HC H1 H2 H3 r Hr HU. assert (H2' : (j1 <= j2)%Z) by lia. assert (L2 := ln2_pos).
  assert (WP : forall y, well_posed (fit_points wd m j1 j2 r y)) by (intros; apply fit_well_posed; trivial; intros j Hj; now apply HU).
  destruct (fit_weights wd m j1 j2 r H2) as [u Hu]; [intros; now apply HU|]. exists u. set (Z := zfun u m j1 j2 r).
  assert (DZ : forall k q, derivable_pt_lim (Z k) q (Z (S k) q)).
  { intros k q. apply (deriv_sum (fun j q => u j * (cgf (logs m j r) k q / ln 2)) (fun j q => u j * (cgf (logs m j r) (S k) q / ln 2))).
    intros j Hj. apply zrange_In in Hj. apply deriv_scal. apply deriv_ext with (f := fun q => / ln 2 * cgf (logs m j r) k q); [intros; unfold Rdiv; ring|].
    replace (cgf (logs m j r) (S k) q / ln 2) with (/ ln 2 * cgf (logs m j r) (S k) q) by (unfold Rdiv; ring). apply deriv_scal, cgf_deriv, logs_nonempty, HU. lia. }
  assert (HS : forall qs s i, StructureFunction m (QArr qs) j1 j2 wd = Ok s -> (i < length qs)%nat -> at2 (sf_zeta s) i r = Fin (Z 0%nat (nth i qs 0))).
  { intros qs s i E Hi. destruct (SF_rows m g nrep qs j1 j2 wd s HR H1 H2' H3 E i r Hi Hr) as (_ & -> & _).
    rewrite (Hu _ (fun j => cgf (logs m j r) 0 (nth i qs 0) / ln 2)); [reflexivity|].
    intros j Hj. destruct (HU j Hj) as ([U1 U2] & Z0 & _). unfold no_zero in Z0.
    assert (E0 := moment_em (nth i qs 0) _ Z0). fold (logs m j r) in E0.
    rewrite logS_eq; [|split; trivial|now right|rewrite E0; apply em_pos, logs_nonempty; split; trivial].
    rewrite E0. reflexivity. }
  split; [exact DZ|]. split; [|split; [|split; [exact HS|split]]].
  - unfold Z, zfun. rewrite (Rsum_map_ext _ (fun _ => 0)); [apply Rsum_map_zero; reflexivity|]. intros j Hj. apply zrange_In in Hj.
    assert (N : logs m j r <> []) by (apply logs_nonempty, HU; lia). cbn [cgf]. rewrite em_0, (mu_0 _ N), ln_1. unfold Rdiv. ring.
  - intros y. destruct (fit_finite wd m j1 j2 r y (WP y)) as [E _]. rewrite (Hu (fun j => Fin (y j)) y) in E by reflexivity. now injection E.
  - destruct (C106_curvature m g nrep j1 j2 wd HR HC H1 H2 H3 r Hr HU) as (Z0 & Z1 & Z2 & D0 & D1 & E0 & B & HS' & HM & HCu).
    assert (Q : forall q, Z0 q = Z 0%nat q).
    { intros q. assert (I2 : has_two [q; 2] = true) by (apply has_two_In; right; now left).
      assert (Ef := SF_eq m g nrep HR [q; 2] j1 j2 wd H1 H2' H3). rewrite I2 in Ef. match type of Ef with _ = Ok ?x => set (sf := x) in Ef; clearbody sf end.
      assert (A1 := HS _ sf 0%nat Ef ltac:(simpl; lia)). assert (A2 := HS' _ sf 0%nat Ef ltac:(simpl; lia)). rewrite A1 in A2. injection A2 as A2. symmetry. exact A2. }
    assert (Q1 : forall q, Z1 q = Z 1%nat q) by (intros q; apply (uniqueness_limite (Z 0%nat) q); [apply (deriv_ext Z0); trivial|apply DZ]).
    intros qs s i E Hi. destruct (HM qs s i E Hi) as [V W]. rewrite <- !Q1, <- Q. split; trivial.
  - intros n c k E Hk. destruct (CUM_rows m g nrep n j1 j2 wd c HR H1 H2' H3 E k r Hk Hr) as (_ & _ & _ & ->).
    rewrite (Hu _ (fun j => kappa (mu (logs m j r)) k)) by (intros j Hj; destruct (HU j Hj) as (U & Z0 & _); apply Cval_eq; trivial).
    cbn [xmul]. f_equal. unfold Z, zfun. rewrite Rmult_comm, <- Rsum_map_scal. apply Rsum_map_ext. intros j Hj. apply zrange_In in Hj.
    rewrite cgf_at_0 by (try lia; apply logs_nonempty, HU; lia). unfold log2_e, log2R. rewrite ln_exp. field. lra.
Qed.
(** bound on the derivatives of order 2 and more *)
Lemma zfun_bound u m g nrep j1 j2 wd S : regular m g nrep -> (1 <= j1)%Z -> (j1 < j2)%Z ->
  forall r, fit_ready m j1 j2 r -> (forall j, (j1 <= j <= j2)%Z -> factor_range S (numbers m j r)) ->
  (forall y, slope (fit_points wd m j1 j2 r y) = Rsum (map (fun j => u j * y j) (zrange j1 (j2 + 1)))) ->
  forall n q, (1 <= n)%nat -> Rabs (zfun u m j1 j2 r (Datatypes.S n) q) <= INR (fact n) * (2 * (S * ln 2)) ^ Datatypes.S n / (ln 2 * spread wd m j1 j2 r).
Proof.
  intros HR H1 H2 r HU HS Hs n q Hn. assert (L2 := ln2_pos). unfold zfun. rewrite <- (Hs (fun j => cgf (logs m j r) (Datatypes.S n) q / ln 2)).
  assert (WP : well_posed (fit_points wd m j1 j2 r (fun j => cgf (logs m j r) (Datatypes.S n) q / ln 2))) by (apply fit_well_posed; trivial; intros j Hj; now apply HU).
  destruct (spread_eq wd m j1 j2 r _ WP) as [Sp _].
  replace (INR (fact n) * (2 * (S * ln 2)) ^ Datatypes.S n / (ln 2 * spread wd m j1 j2 r)) with (INR (fact n) * (2 * (S * ln 2)) ^ Datatypes.S n / ln 2 / spread wd m j1 j2 r) by (field; lra).
  apply slope_bound; trivial. intros j Hj. unfold Rdiv. rewrite Rabs_mult, (Rabs_pos_eq (/ ln 2)) by (left; now apply Rinv_0_lt_compat).
  apply Rmult_le_compat_r; [left; now apply Rinv_0_lt_compat|]. destruct (HU j Hj) as (U & Z & _). apply cgf_range; trivial; [now apply logs_nonempty|]. apply logs_range; [exact Z|now apply HS].
Qed.

Lemma expansion_seq0 (Z : nat -> R -> R) n q : Z 0%nat 0 = 0 -> Rsum (map (fun k => Z k 0 * q ^ k / INR (fact k)) (seq 0 (S n))) = expansion (fun k => Z k 0) n q.
Proof. intros H. cbn [seq]. unfold Rsum, expansion. cbn [map fold_right]. rewrite H. unfold Rdiv. rewrite !Rmult_0_l, Rplus_0_l. reflexivity. Qed.
Lemma expansion_h_seq0 (Z : nat -> R -> R) n q : Rsum (map (fun k => Z (S k) 0 * q ^ k / INR (fact k)) (seq 0 n)) = expansion_h (fun k => Z k 0) n q.
Proof. unfold expansion_h. rewrite <- seq_shift, map_map. apply Rsum_map_ext. intros k _. now rewrite Nat.sub_succ, Nat.sub_0_r. Qed.

(** The first n log-cumulants give zeta(q), h(q) and D(q) up to an error of order |q|^(n+1), |q|^n and |q|^(n+1), for every n *)
Theorem C107_expansion :
  forall m g nrep j1 j2 wd S, regular m g nrep -> counted m -> (1 <= j1)%Z -> (j1 < j2)%Z -> (j2 <= Z.of_nat g)%Z ->
  forall r, (r < nrep)%nat -> fit_ready m j1 j2 r -> (forall j, (j1 <= j <= j2)%Z -> factor_range S (numbers m j r)) ->
  exists ck : nat -> R,
    (forall n c k, Cumulants m n j1 j2 wd = Ok c -> (1 <= k <= n)%nat -> at2 (cu_log_cumulants c) (k - 1) r = Fin (ck k)) /\
    let x := 2 * S * ln 2 in let sd := spread wd m j1 j2 r in
    (forall qs s i n, StructureFunction m (QArr qs) j1 j2 wd = Ok s -> (i < length qs)%nat -> (1 <= n)%nat ->
       let q := nth i qs 0 in
       exists z, at2 (sf_zeta s) i r = Fin z /\ Rabs (z - expansion ck n q) <= (x * Rabs q) ^ (n + 1) / (INR (n + 1) * (ln 2 * sd))) /\
    (forall qs s i n, MultifractalSpectrum m j1 j2 wd (QArr qs) = Ok s -> (i < length qs)%nat -> (1 <= n)%nat ->
       let q := nth i qs 0 in
       exists h d, at2 (ms_hq s) i r = Fin h /\ at2 (ms_Dq s) i r = Fin d /\
         Rabs (h - expansion_h ck n q) <= x ^ (n + 1) * Rabs q ^ n / (ln 2 * sd) /\
         Rabs (d - (1 + q * expansion_h ck n q - expansion ck n q)) <= (1 + / INR (n + 1)) * (x * Rabs q) ^ (n + 1) / (ln 2 * sd)).
Proof.
  intros m g nrep j1 j2 wd S HR HC H1 H2 H3 r Hr HU HS. assert (L2 := ln2_pos).
  destruct (zfun_spec m g nrep j1 j2 wd HR HC H1 H2 H3 r Hr HU) as (u & DZ & Z0 & Sl & HZ & HM & HK). set (Z := zfun u m j1 j2 r) in *.
  assert (WP : well_posed (fit_points wd m j1 j2 r (fun _ => 0))) by (apply fit_well_posed; trivial; intros j Hj; now apply HU).
  destruct (spread_eq wd m j1 j2 r _ WP) as [Sp _].
  assert (B := fun n q => zfun_bound u m g nrep j1 j2 wd S HR H1 H2 r HU HS Sl n q). fold Z in B.
  exists (fun k => Z k 0). split; [intros n c k E Hk; now apply (HK n)|]. cbn zeta. set (sd := spread wd m j1 j2 r) in *. clearbody sd.
  assert (Bz : forall n q, (1 <= n)%nat -> Rabs (Z 0%nat q - expansion (fun k => Z k 0) n q) <= (2 * S * ln 2 * Rabs q) ^ (n + 1) / (INR (n + 1) * (ln 2 * sd))).
  { intros n q Hn. assert (K := taylor (Datatypes.S n) Z q _ DZ (fun t => B n t Hn)). rewrite expansion_seq0 in K by exact Z0.
    eapply Rle_trans; [exact K|]. right. replace (2 * (S * ln 2)) with (2 * S * ln 2) by ring. rewrite Nat.add_1_r, (Rpow_mult_distr (2 * S * ln 2) (Rabs q)), fact_simpl, mult_INR.
    generalize ((2 * S * ln 2) ^ Datatypes.S n) (Rabs q ^ Datatypes.S n). intros a b. assert (N1 := INR_fact_neq_0 n). assert (N2 : INR (Datatypes.S n) <> 0) by (apply not_0_INR; lia).
    revert N1 N2. generalize (INR (fact n)) (INR (Datatypes.S n)). intros c d N1 N2. field. repeat split; try lra; assumption. }
  assert (Bh : forall n q, (1 <= n)%nat -> Rabs (Z 1%nat q - expansion_h (fun k => Z k 0) n q) <= (2 * S * ln 2) ^ (n + 1) * Rabs q ^ n / (ln 2 * sd)).
  { intros n q Hn. assert (K := taylor n (fun k => Z (Datatypes.S k)) q _ (fun k => DZ (Datatypes.S k)) (fun t => B n t Hn)). cbn beta in K. rewrite expansion_h_seq0 in K.
    eapply Rle_trans; [exact K|]. right. rewrite Nat.add_1_r. replace (2 * (S * ln 2)) with (2 * S * ln 2) by ring.
    generalize ((2 * S * ln 2) ^ Datatypes.S n) (Rabs q ^ n). intros a b. assert (N1 := INR_fact_neq_0 n). revert N1. generalize (INR (fact n)). intros c N1. field. repeat split; try lra; assumption. }
  split.
  - intros qs s i n E Hi Hn. exists (Z 0%nat (nth i qs 0)). split; [now apply HZ|]. now apply Bz.
  - intros qs s i n E Hi Hn. destruct (HM qs s i E Hi) as [V W]. eexists _, _. split; [exact V|]. split; [exact W|]. split; [now apply Bh|].
    set (q := nth i qs 0). set (a := expansion_h _ n q). set (b := expansion _ n q).
    replace (1 + q * Z 1%nat q - Z 0%nat q - (1 + q * a - b)) with (q * (Z 1%nat q - a) + - (Z 0%nat q - b)) by ring.
    eapply Rle_trans; [apply Rabs_triang|]. rewrite Rabs_Ropp, Rabs_mult. assert (K1 := Bh n q Hn). assert (K2 := Bz n q Hn). fold a in K1. fold b in K2.
    assert (K3 : Rabs q * Rabs (Z 1%nat q - a) <= Rabs q * ((2 * S * ln 2) ^ (n + 1) * Rabs q ^ n / (ln 2 * sd))) by (apply Rmult_le_compat_l; [apply Rabs_pos|exact K1]).
    eapply Rle_trans; [apply Rplus_le_compat; [exact K3|exact K2]|]. right. rewrite Nat.add_1_r, (Rpow_mult_distr (2 * S * ln 2) (Rabs q)).
    replace (Rabs q ^ Datatypes.S n) with (Rabs q * Rabs q ^ n) by reflexivity. assert (N2 : INR (Datatypes.S n) <> 0) by (apply not_0_INR; lia). revert N2.
    generalize ((2 * S * ln 2) ^ Datatypes.S n) (Rabs q ^ n) (INR (Datatypes.S n)). intros e f d N2. field. repeat split; try lra; assumption.
Qed.
Print Assumptions C107_expansion.

(** For orders up to 1 / (2 S ln 2) the series of the log-cumulants converges to zeta(q): the log-cumulants determine the scaling function *)
Theorem C107_series :
  forall m g nrep j1 j2 wd S, regular m g nrep -> counted m -> (1 <= j1)%Z -> (j1 < j2)%Z -> (j2 <= Z.of_nat g)%Z ->
  forall r, (r < nrep)%nat -> fit_ready m j1 j2 r -> (forall j, (j1 <= j <= j2)%Z -> factor_range S (numbers m j r)) ->
  exists ck : nat -> R,
    (forall n c k, Cumulants m n j1 j2 wd = Ok c -> (1 <= k <= n)%nat -> at2 (cu_log_cumulants c) (k - 1) r = Fin (ck k)) /\
    forall qs s i, StructureFunction m (QArr qs) j1 j2 wd = Ok s -> (i < length qs)%nat ->
      let q := nth i qs 0 in 2 * S * ln 2 * Rabs q <= 1 ->
      exists z, at2 (sf_zeta s) i r = Fin z /\ infinite_sum (fun k => ck (k + 1)%nat * q ^ (k + 1) / INR (fact (k + 1))) z.
Proof.
  intros m g nrep j1 j2 wd S HR HC H1 H2 H3 r Hr HU HS. assert (L2 := ln2_pos).
  assert (WP : well_posed (fit_points wd m j1 j2 r (fun _ => 0))) by (apply fit_well_posed; trivial; intros j Hj; now apply HU).
  destruct (spread_eq wd m j1 j2 r _ WP) as [Sp _].
  destruct (C107_expansion m g nrep j1 j2 wd S HR HC H1 H2 H3 r Hr HU HS) as (ck & K1 & K2 & _). exists ck. split; [exact K1|].
  intros qs s i E Hi q Hq. destruct (K2 qs s i 1%nat E Hi ltac:(lia)) as (z & Ez & _). exists z. split; [exact Ez|].
  assert (S0 : 0 <= 2 * S * ln 2).
  { assert (P : 0 <= S); [|apply Rmult_le_pos; lra]. destruct (HU j1 ltac:(lia)) as ([_ U] & Z & _). assert (F := HS j1 ltac:(lia)). destruct (numbers m j1 r) as [|a l] eqn:En; [contradiction|].
    assert (K := F a a (or_introl eq_refl) (or_introl eq_refl)). unfold no_zero in Z. rewrite En in Z. inversion Z as [|? ? Na _]. assert (Pa := Rabs_pos_lt a Na).
    destruct (Rle_dec 0 S) as [|N]; [trivial|exfalso]. assert (Q : Rpower 2 S < Rpower 2 0) by (apply Rpower_lt; lra). rewrite (Rpower_O 2) in Q by lra. nra. }
  assert (Hx : 0 <= 2 * S * ln 2 * Rabs q) by (apply Rmult_le_pos; [trivial|apply Rabs_pos]).
  assert (B : forall n, (1 <= n)%nat -> Rabs (z - expansion ck n q) <= / INR (n + 1) * / (ln 2 * spread wd m j1 j2 r)).
  { intros n Hn. destruct (K2 qs s i n E Hi Hn) as (z' & Ez' & Bz). rewrite Ez in Ez'. injection Ez' as <-. fold q in Bz. cbn zeta in Bz. eapply Rle_trans; [exact Bz|].
    unfold Rdiv. assert (In : 0 < INR (n + 1)) by (apply lt_0_INR; lia). assert (Il : 0 < ln 2 * spread wd m j1 j2 r) by (apply Rmult_lt_0_compat; lra). rewrite Rinv_mult.
    rewrite <- (Rmult_1_l (/ INR (n + 1) * / (ln 2 * spread wd m j1 j2 r))) at 2.
    apply Rmult_le_compat_r; [left; apply Rmult_lt_0_compat; now apply Rinv_0_lt_compat|]. rewrite <- (pow1 (n + 1)). apply pow_incr. lra. }
  intros eps He. set (C := / (ln 2 * spread wd m j1 j2 r)) in *. assert (HC0 : 0 < C) by (apply Rinv_0_lt_compat, Rmult_lt_0_compat; lra).
  destruct (archimed_cor1 (eps / C)) as (N & HN & HN0); [now apply Rdiv_lt_0_compat|]. exists N. intros n Hn.
  replace (sum_f_R0 (fun k => ck (k + 1)%nat * q ^ (k + 1) / INR (fact (k + 1))) n) with (expansion ck (Datatypes.S n) q).
  - unfold R_dist. rewrite Rabs_minus_sym. eapply Rle_lt_trans; [apply B; lia|].
    assert (In : 0 < INR N) by (apply lt_0_INR; lia). assert (/ INR (Datatypes.S n + 1) <= / INR N) by (apply Rinv_le_contravar; [trivial|apply le_INR; lia]).
    replace eps with (eps / C * C) by (field; lra). apply Rmult_lt_compat_r; lra.
  - clear. unfold expansion. rewrite <- seq_shift, map_map. induction n as [|n IH].
    + cbn [sum_f_R0]. unfold Rsum. cbn [seq map fold_right]. rewrite Rplus_0_r. reflexivity.
    + rewrite Rsum_seq_last, IH. cbn [sum_f_R0]. rewrite !Nat.add_1_r. reflexivity.
Qed.
Print Assumptions C107_series.

(** the hypotheses are met by the leaders of the 24-sample recording dip: magnitudes within a factor 2 at both scales *)
Example expansion_case : exists t ws l, wavelet_analysis [fin dip] PInfty haar 1 None 0 1 true = Ok (t, ws) /\ wt_leaders t = Some l /\
  regular l 2 1 /\ counted l /\ fit_ready l 1 2 0 /\ (forall j, (1 <= j <= 2)%Z -> factor_range 1 (numbers l j 0)) /\ spread false l 1 2 0 = / 2.
Proof.
  destruct (l24 dip eq_refl) as (t & ws & l & E & El & Es & HR & HC). destruct (dip_leads t ws l E El Es) as [C1 C2]. assert (F := scale1).
  destruct narrowing_case as (t' & ws' & l' & E' & El' & _ & _ & Rd & _). rewrite E in E'. injection E' as <- <-. rewrite El in El'. injection El' as <-.
  exists t, ws, l. split; [exact E|]. split; [exact El|]. split; [exact HR|]. split; [exact HC|]. split; [exact Rd|]. split.
  - intros j Hj a b Ha Hb. rewrite Rpower_1 by lra. assert (j = 1 \/ j = 2)%Z as [-> | ->] by lia; unfold numbers in Ha, Hb; rewrite ?C1, ?C2 in Ha, Hb; apply In_reals in Ha; apply In_reals in Hb.
    + set (f := Rpower 2 (- (INR 1 / 2))) in *.
      assert (Q : forall v, In (Fin v) (Fin (f * 2) :: repeat (Fin f) 9) -> f <= Rabs v <= 2 * f).
      { intros v [K|K]; [injection K as <-|apply repeat_spec in K; injection K as ->]; rewrite Rabs_pos_eq by lra; lra. }
      assert (Qa := Q a Ha). assert (Qb := Q b Hb). lra.
    + apply repeat_spec in Ha. apply repeat_spec in Hb. injection Ha as ->. injection Hb as ->. rewrite Rabs_pos_eq by lra. lra.
  - rewrite C94_spread_unweighted by lia. replace ((IZR (2 - 1 + 1) ^ 2 - 1) / 12) with (/ 2 * / 2) by (simpl; field). apply sqrt_square. lra.
Qed.
