(** * Entropy and convexity lemmas for moments and spectra *)
From Coq Require Import Reals List ZArith Bool Lra Lia.
From Verif Require Import XReal PyBase ModelUtils ModelMRQ ModelStructure ModelSpectrum Spec SpecMRQ LXReal LReg LUtils LBase LEst LMoment LPattern.
Import ListNotations.
Open Scope R_scope.

(** the non-zero elements *)
Definition nzb (a : R) : bool := if Req_EM_T a 0 then false else true.
Definition nz (l : list R) : list R := filter nzb l.
Lemma nzb_true a : nzb a = true <-> a <> 0.
Proof. unfold nzb. destruct (Req_EM_T a 0); split; congruence. Qed.
Lemma nz_In a l : In a (nz l) <-> In a l /\ a <> 0.
Proof. unfold nz. rewrite filter_In, nzb_true. tauto. Qed.
Lemma nz_id l : Forall (fun a => a <> 0) l -> nz l = l.
Proof. induction 1 as [|a l H _ IH]; trivial. unfold nz in *. simpl. apply nzb_true in H. now rewrite H, IH. Qed.
Lemma nz_nonempty l : Exists (fun a => a <> 0) l -> nz l <> [].
Proof. intros H E. apply Exists_exists in H as (a & Ha & N). assert (In a (nz l)) by (now apply nz_In). now rewrite E in H. Qed.
Lemma nz_length l : (length (nz l) <= length l)%nat.
Proof. unfold nz. induction l as [|a l IH]; simpl; [lia|]. destruct (nzb a); simpl; lia. Qed.

(** "spectrum-defined": q > 0, or no zero value; and not everything zero *)
Definition s_defined (q : R) (l : list R) : Prop :=
  (0 < q \/ Forall (fun a => a <> 0) l) /\ Exists (fun a => a <> 0) l.
Lemma s_q_defined q l : s_defined q l -> q_defined q l.
Proof. intros [[H|H] _]; [left; lra|now right]. Qed.
Lemma s_nonempty q l : s_defined q l -> l <> [].
Proof. intros [_ E] ->. inversion E. Qed.
Lemma Rsum_nz (F : R -> R) l : (forall a, In a l -> a = 0 -> F a = 0) -> Rsum (map F (nz l)) = Rsum (map F l).
Proof.
  unfold nz. induction l as [|a l IH]; intros H; simpl; trivial.
  unfold nzb at 1. destruct (Req_EM_T a 0) as [E|E]; simpl; rewrite IH by (intros; apply H; simpl; auto).
  - rewrite (H a) by (simpl; auto). unfold Rsum. ring.
  - reflexivity.
Qed.
Definition qsum (q : R) (l : list R) : R := Rsum (map (qpow q) l).
Lemma qpow_0 q : 0 < q -> qpow q 0 = 0.
Proof. intros H. unfold qpow, abs_pow. destruct (Req_EM_T q 0); [lra|]. destruct (Req_EM_T 0 0); [reflexivity|congruence]. Qed.
Lemma qsum_nz q l : s_defined q l -> Rsum (map (qpow q) (nz l)) = qsum q l.
Proof.
  intros [[H|H] _].
  - apply Rsum_nz. intros a _ ->. now apply qpow_0.
  - now rewrite nz_id.
Qed.
Lemma qsum_pos q l : s_defined q l -> 0 < qsum q l.
Proof.
  intros H. rewrite <- qsum_nz by trivial. apply Rsum_map_pos; [intros; apply qpow_nonneg|].
  destruct H as [_ E]. apply Exists_exists in E as (a & Ha & N). exists a. split; [now apply nz_In|now apply qpow_pos].
Qed.
Lemma moment_qsum q l : abs_moment q l = qsum q l / INR (length l).
Proof. unfold abs_moment, mean, qsum. now rewrite map_length. Qed.
(** the weights R(j, q, .) *)
Definition prob (q : R) (l : list R) (a : R) : R := qpow q a / qsum q l.
Lemma prob_pos q l a : s_defined q l -> a <> 0 -> 0 < prob q l a.
Proof. intros H N. unfold prob. apply Rdiv_lt_0_compat; [now apply qpow_pos|now apply qsum_pos]. Qed.
Lemma prob_nonneg q l a : s_defined q l -> 0 <= prob q l a.
Proof.
  intros H. unfold prob, Rdiv. apply Rmult_le_pos; [apply qpow_nonneg|]. left. apply Rinv_0_lt_compat. now apply qsum_pos.
Qed.
Lemma prob_sum q l : s_defined q l -> Rsum (map (prob q l) (nz l)) = 1.
Proof.
  intros H. unfold prob, Rdiv. rewrite Rsum_map_mult_r, qsum_nz by trivial. apply Rinv_r. assert (P := qsum_pos q l H). lra.
Qed.
Lemma Rsum_map_in_le {A} (F : A -> R) l a : (forall x, In x l -> 0 <= F x) -> In a l -> F a <= Rsum (map F l).
Proof.
  induction l as [|b l IH]; intros P H; [inversion H|]. simpl.
  assert (N := Rsum_map_nonneg F l (fun x Hx => P x (or_intror Hx))). unfold Rsum in *.
  destruct H as [->|H].
  - lra.
  - assert (P1 := P b (or_introl eq_refl)). assert (K := IH (fun x Hx => P x (or_intror Hx)) H). lra.
Qed.
Lemma prob_le1 q l a : s_defined q l -> In a (nz l) -> prob q l a <= 1.
Proof.
  intros H Ha. rewrite <- (prob_sum q l H). apply (Rsum_map_in_le (prob q l)); trivial. intros. now apply prob_nonneg.
Qed.
Lemma log2_qpow q a : a <> 0 -> log2R (qpow q a) = q * log2R (Rabs a).
Proof.
  intros H. unfold qpow, abs_pow. destruct (Req_EM_T q 0) as [->|]; [rewrite log2R_1; ring|].
  destruct (Req_EM_T a 0); [congruence|]. unfold log2R. rewrite ln_exp. unfold Rdiv. ring.
Qed.
Lemma log2_prob q l a : s_defined q l -> a <> 0 -> log2R (prob q l a) = q * log2R (Rabs a) - log2R (qsum q l).
Proof. intros H N. unfold prob. rewrite log2R_div by (try apply qpow_pos; try apply qsum_pos; trivial). now rewrite log2_qpow. Qed.

(** entropy (in bits) is at most log2 of the number of outcomes *)
Lemma ln_le_x1 x : 0 < x -> ln x <= x - 1.
Proof.
  intros H. destruct (Req_dec x 1) as [->|N]; [rewrite ln_1; lra|].
  assert (K := exp_ineq1 (ln x)). rewrite exp_ln in K by trivial.
  assert (ln x <> 0). { intros E. apply N. apply ln_inv; [trivial|lra|]. now rewrite ln_1. }
  specialize (K H0). lra.
Qed.
Lemma gibbs {A} (p : A -> R) (l : list A) : l <> [] -> (forall a, In a l -> 0 < p a) -> Rsum (map p l) = 1 ->
  0 <= log2R (INR (length l)) + Rsum (map (fun a => p a * log2R (p a)) l).
Proof.
  intros Hne P S. set (n := INR (length l)). assert (Hn : 0 < n) by (now apply INR_len_pos).
  assert (L2 := ln2_pos).
  assert (E : log2R n + Rsum (map (fun a => p a * log2R (p a)) l) = Rsum (map (fun a => - (p a * ln (/ (n * p a)))) l) / ln 2).
  { unfold Rdiv. rewrite <- Rsum_map_mult_r. 
    transitivity (Rsum (map (fun a => log2R n * p a) l) + Rsum (map (fun a => p a * log2R (p a)) l)).
    - rewrite Rsum_map_scal, S. ring.
    - rewrite <- Rsum_map_plus. apply Rsum_map_ext. intros a Ha. assert (Pa := P a Ha).
      rewrite ln_Rinv, ln_mult by (try apply Rmult_lt_0_compat; trivial). unfold log2R. field. lra. }
  rewrite E. unfold Rdiv. apply Rmult_le_pos; [|left; now apply Rinv_0_lt_compat].
  assert (K : Rsum (map (fun a => p a - / n) l) <= Rsum (map (fun a => - (p a * ln (/ (n * p a)))) l)).
  { apply Rsum_map_le. intros a Ha. assert (Pa := P a Ha).
    assert (Q : 0 < / (n * p a)) by (apply Rinv_0_lt_compat, Rmult_lt_0_compat; trivial).
    assert (B := ln_le_x1 _ Q). assert (p a * ln (/ (n * p a)) <= p a * (/ (n * p a) - 1)) by (apply Rmult_le_compat_l; lra).
    replace (p a * (/ (n * p a) - 1)) with (/ n - p a) in H by (field; lra). lra. }
  assert (Z : Rsum (map (fun a => p a - / n) l) = 0).
  { unfold Rminus. rewrite Rsum_map_plus, S, Rsum_const. fold n. field. lra. }
  lra.
Qed.
Lemma neg_log_le {A} (p : A -> R) (l : list A) : (forall a, In a l -> 0 < p a <= 1) -> Rsum (map (fun a => p a * log2R (p a)) l) <= 0.
Proof.
  intros P. assert (H : Rsum (map (fun a => p a * log2R (p a)) l) <= Rsum (map (fun _ => 0) l)).
  - apply Rsum_map_le. intros a Ha. destruct (P a Ha) as [P1 P2].
    assert (L := log2R_le (p a) 1 P1 P2). rewrite log2R_1 in L.
    assert (p a * log2R (p a) <= p a * 0) by (apply Rmult_le_compat_l; lra). lra.
  - rewrite Rsum_const in H. lra.
Qed.

(** ** sums that skip NaN *)
Lemma fixednansum_eq c : no_inf c -> reals c <> [] -> fixednansum c = Fin (Rsum (reals c)).
Proof.
  intros N H. unfold fixednansum. destruct (forallb isnan c) eqn:E; [|now apply nansum_reals].
  exfalso. apply H. rewrite forallb_forall in E. clear N H. induction c as [|x c IH]; trivial.
  assert (X := E x (or_introl eq_refl)). destruct x; try discriminate. simpl. apply IH. intros y Hy. apply E. now right.
Qed.
Lemma map_reals_opt (f : xr -> xr) (keep : R -> bool) (g : R -> R) c : no_inf c ->
  f NaN = NaN -> (forall a, In a (reals c) -> f (Fin a) = if keep a then Fin (g a) else NaN) ->
  no_inf (map f c) /\ reals (map f c) = map g (filter keep (reals c)).
Proof.
  intros N F0. induction N as [|x c [->|[a ->]] N IH]; intros H; simpl.
  - split; [constructor|reflexivity].
  - rewrite F0. simpl. destruct IH as [A B]; [intros; apply H; trivial|]. split; [constructor; auto|trivial].
  - destruct IH as [A B]; [intros; apply H; now right|]. rewrite (H a) by (now left).
    destruct (keep a); simpl; (split; [constructor; eauto|]); rewrite B; reflexivity.
Qed.

(** ** the two sums of the spectrum *)
Lemma spec_R_eq c e : no_inf c -> s_defined (num_val e) (reals c) ->
  spec_R c e = map (fun x => match x with Fin a => Fin (prob (num_val e) (reals c) a) | _ => NaN end) c.
Proof.
  intros N Hs. assert (P := qsum_pos _ _ Hs). unfold spec_R.
  destruct (abs_power_col c e N (s_q_defined _ _ Hs)) as [A B].
  rewrite nansum_reals, B by trivial. change (Rsum (map (qpow (num_val e)) (reals c))) with (qsum (num_val e) (reals c)).
  rewrite fast_power_map, !map_map. apply map_ext_in. intros x Hx.
  unfold no_inf in N. rewrite Forall_forall in N. destruct (N x Hx) as [->|[a ->]].
  - cbn [xabs]. rewrite fp1_NaN. reflexivity.
  - cbn [xabs]. rewrite fp1_qpow by (apply (q_defined_in _ (reals c)); [now apply s_q_defined|now apply In_reals]).
    rewrite xdiv_Fin by lra. reflexivity.
Qed.
Definition Vr (q : R) (l : list R) : R := Rsum (map (fun a => prob q l a * log2R (Rabs a)) (nz l)).
Definition Hr (q : R) (l : list R) : R := Rsum (map (fun a => prob q l a * log2R (prob q l a)) (nz l)).
Lemma spec_V_eq c e : no_inf c -> s_defined (num_val e) (reals c) -> spec_V c e = Fin (Vr (num_val e) (reals c)).
Proof.
  intros N Hs. set (q := num_val e) in *. set (l := reals c) in *. unfold spec_V. rewrite spec_R_eq by trivial.
  fold q l. rewrite map_map, map2_map, map2_diag.
  destruct (map_reals_opt (fun x => xmul (match x with Fin a => Fin (prob q l a) | _ => NaN end) (xlog2 (xabs x)))
     nzb (fun a => prob q l a * log2R (Rabs a)) c) as [A B]; trivial.
  - intros a Ha. cbn [xabs]. unfold nzb. destruct (Req_EM_T a 0) as [->|Na].
    + assert (Pz : prob q l 0 = 0).
      { unfold prob. destruct Hs as [[Hq|Hf] _].
        - rewrite qpow_0 by trivial. unfold Rdiv. ring.
        - rewrite Forall_forall in Hf. exfalso. now apply (Hf 0). }
      rewrite Pz, Rabs_R0. unfold xlog2. destruct (Rlt_dec 0 0); [lra|]. destruct (Req_EM_T 0 0); [|congruence].
      simpl. unfold scale_inf. destruct (Req_EM_T 0 0); congruence.
    + rewrite xlog2_pos by (now apply Rabs_pos_lt). reflexivity.
  - fold l in B. change (filter nzb l) with (nz l) in B. rewrite fixednansum_eq; trivial.
    + rewrite B. reflexivity.
    + rewrite B. destruct Hs as [_ E]. apply nz_nonempty in E. destruct (nz l); [congruence|discriminate].
Qed.
Lemma spec_U_eq n c e : no_inf c -> s_defined (num_val e) (reals c) -> (1 <= n)%nat ->
  spec_U n c e = Fin (log2R (INR n) + Hr (num_val e) (reals c)).
Proof.
  intros N Hs Hn. set (q := num_val e) in *. set (l := reals c) in *. unfold spec_U. rewrite spec_R_eq by trivial.
  fold q l. rewrite map_map.
  destruct (map_reals_opt (fun x => xmul (match x with Fin a => Fin (prob q l a) | _ => NaN end)
     (xlog2 (match x with Fin a => Fin (prob q l a) | _ => NaN end)))
     nzb (fun a => prob q l a * log2R (prob q l a)) c) as [A B]; trivial.
  - intros a Ha. unfold nzb. destruct (Req_EM_T a 0) as [->|Na].
    + assert (Pz : prob q l 0 = 0).
      { unfold prob. destruct Hs as [[Hq|Hf] _].
        - rewrite qpow_0 by trivial. unfold Rdiv. ring.
        - rewrite Forall_forall in Hf. exfalso. now apply (Hf 0). }
      rewrite Pz. unfold xlog2. destruct (Rlt_dec 0 0); [lra|]. destruct (Req_EM_T 0 0); [|congruence].
      simpl. unfold scale_inf. destruct (Req_EM_T 0 0); congruence.
    + rewrite xlog2_pos by (now apply prob_pos). reflexivity.
  - fold l in B. change (filter nzb l) with (nz l) in B. rewrite fixednansum_eq; trivial.
    + rewrite B. rewrite xlog2_pos by (apply lt_0_INR; lia). reflexivity.
    + rewrite B. destruct Hs as [_ E]. apply nz_nonempty in E. destruct (nz l); [congruence|discriminate].
Qed.

(** ** bounds and the Legendre identity *)
Lemma Hr_bounds q l : s_defined q l -> - log2R (INR (length l)) <= Hr q l <= 0.
Proof.
  intros Hs. assert (E := Hs). destruct E as [_ E]. apply nz_nonempty in E. split.
  - assert (G := gibbs (prob q l) (nz l) E (fun a Ha => prob_pos q l a Hs (proj2 (proj1 (nz_In a l) Ha))) (prob_sum q l Hs)).
    fold (Hr q l) in G.
    assert (L := log2R_le (INR (length (nz l))) (INR (length l)) (INR_len_pos _ E) (le_INR _ _ (nz_length l))). lra.
  - apply neg_log_le. intros a Ha. split; [apply prob_pos; trivial; now apply nz_In in Ha|now apply prob_le1].
Qed.
Lemma Vr_bounds q l lo hi : s_defined q l -> (forall a, In a l -> a <> 0 -> lo <= log2R (Rabs a) <= hi) -> lo <= Vr q l <= hi.
Proof.
  intros Hs B. assert (S := prob_sum q l Hs).
  assert (G : forall x, Rsum (map (fun a => prob q l a * x) (nz l)) = x) by (intros; rewrite Rsum_map_mult_r, S; ring).
  unfold Vr. split; [rewrite <- (G lo)|rewrite <- (G hi)]; apply Rsum_map_le; intros a Ha; apply nz_In in Ha as [H1 H2];
    apply Rmult_le_compat_l; try (now apply prob_nonneg); now apply B.
Qed.
Lemma legendre q l : s_defined q l ->
  log2R (INR (length l)) + Hr q l = q * Vr q l - log2R (abs_moment q l).
Proof.
  intros Hs. assert (Q := qsum_pos q l Hs). assert (Hn := INR_len_pos l (s_nonempty q l Hs)).
  rewrite moment_qsum, log2R_div by trivial.
  assert (E : Hr q l = q * Vr q l - log2R (qsum q l)).
  { unfold Hr, Vr. rewrite <- Rsum_map_scal.
    transitivity (Rsum (map (fun a => q * (prob q l a * log2R (Rabs a)) + - log2R (qsum q l) * prob q l a) (nz l))).
    - apply Rsum_map_ext. intros a Ha. apply nz_In in Ha as [_ Ha]. rewrite log2_prob by trivial. ring.
    - rewrite Rsum_map_plus, (Rsum_map_scal (- log2R (qsum q l))), prob_sum by trivial. ring. }
  lra.
Qed.

(** ** Hoelder *)
Lemma am_gm x y t : 0 < x -> 0 < y -> 0 <= t <= 1 -> exp (t * ln x + (1 - t) * ln y) <= t * x + (1 - t) * y.
Proof.
  intros Hx Hy Ht. set (m := t * ln x + (1 - t) * ln y).
  assert (T : forall u, exp m * (1 + (u - m)) <= exp u).
  { intros u. assert (E : exp u = exp m * exp (u - m)) by (rewrite <- exp_plus; f_equal; ring).
    rewrite E. apply Rmult_le_compat_l; [left; apply exp_pos|].
    destruct (Req_dec (u - m) 0) as [Z|Z]; [rewrite Z, exp_0; lra|]. left. now apply exp_ineq1. }
  assert (A := T (ln x)). assert (B := T (ln y)). rewrite exp_ln in A, B by trivial.
  assert (t * (exp m * (1 + (ln x - m))) <= t * x) by (apply Rmult_le_compat_l; lra).
  assert ((1 - t) * (exp m * (1 + (ln y - m))) <= (1 - t) * y) by (apply Rmult_le_compat_l; lra).
  assert (E : t * (exp m * (1 + (ln x - m))) + (1 - t) * (exp m * (1 + (ln y - m))) = exp m) by (unfold m; ring).
  lra.
Qed.
Lemma qpow_interp q1 q2 t a A B : 0 < t < 1 -> 0 < A -> 0 < B -> (0 <= q1 /\ 0 <= q2 \/ a <> 0) ->
  qpow (t * q1 + (1 - t) * q2) a <= exp (t * ln A + (1 - t) * ln B) * (t * (qpow q1 a / A) + (1 - t) * (qpow q2 a / B)).
Proof.
  intros Ht HA HB Hq.
  assert (EP : 0 < exp (t * ln A + (1 - t) * ln B)) by apply exp_pos.
  assert (N : forall q x, 0 < x -> 0 <= qpow q a / x).
  { intros. unfold Rdiv. apply Rmult_le_pos; [apply qpow_nonneg|]. left. now apply Rinv_0_lt_compat. }
  destruct (Req_EM_T a 0) as [->|Na].
  - destruct Hq as [[H1 H2]|]; [|congruence].
    destruct (Req_EM_T (t * q1 + (1 - t) * q2) 0) as [Z|Z].
    + assert (0 <= t * q1) by (apply Rmult_le_pos; lra). assert (0 <= (1 - t) * q2) by (apply Rmult_le_pos; lra).
      assert (Z1 : q1 = 0) by (apply Rmult_eq_reg_l with t; lra).
      assert (Z2 : q2 = 0) by (apply Rmult_eq_reg_l with (1 - t); lra).
      subst. rewrite Z. unfold qpow. destruct (Req_EM_T 0 0); [|congruence].
      assert (K := am_gm (/ A) (/ B) t ltac:(now apply Rinv_0_lt_compat) ltac:(now apply Rinv_0_lt_compat) ltac:(lra)).
      rewrite !ln_Rinv in K by trivial.
      replace (t * - ln A + (1 - t) * - ln B) with (- (t * ln A + (1 - t) * ln B)) in K by ring.
      rewrite exp_Ropp in K.
      apply Rmult_le_reg_l with (/ exp (t * ln A + (1 - t) * ln B)); [now apply Rinv_0_lt_compat|].
      rewrite Rmult_1_r, <- Rmult_assoc, Rinv_l, Rmult_1_l by lra. unfold Rdiv. rewrite !Rmult_1_l. exact K.
    + assert (Hp : 0 < t * q1 + (1 - t) * q2).
      { assert (0 <= t * q1) by (apply Rmult_le_pos; lra). assert (0 <= (1 - t) * q2) by (apply Rmult_le_pos; lra). lra. }
      rewrite qpow_0 by trivial. apply Rmult_le_pos; [lra|].
      assert (X := N q1 A HA). assert (Y := N q2 B HB).
      assert (0 <= t * (qpow q1 0 / A)) by (apply Rmult_le_pos; lra).
      assert (0 <= (1 - t) * (qpow q2 0 / B)) by (apply Rmult_le_pos; lra). lra.
  - assert (QE : forall q, qpow q a = exp (q * ln (Rabs a))).
    { intros q. unfold qpow, abs_pow. destruct (Req_EM_T q 0) as [->|]; [rewrite Rmult_0_l, exp_0; reflexivity|].
      destruct (Req_EM_T a 0); [congruence|reflexivity]. }
    assert (P : forall q x, 0 < x -> 0 < qpow q a / x) by (intros; apply Rdiv_lt_0_compat; [now apply qpow_pos|trivial]).
    assert (LE : forall q x, 0 < x -> ln (qpow q a / x) = q * ln (Rabs a) - ln x).
    { intros. unfold Rdiv. rewrite ln_mult, ln_Rinv by (try apply qpow_pos; try apply Rinv_0_lt_compat; trivial). rewrite QE, ln_exp. ring. }
    assert (K := am_gm _ _ t (P q1 A HA) (P q2 B HB) ltac:(lra)).
    rewrite !LE in K by trivial.
    apply Rle_trans with (exp (t * ln A + (1 - t) * ln B) * exp (t * (q1 * ln (Rabs a) - ln A) + (1 - t) * (q2 * ln (Rabs a) - ln B))).
    + right. rewrite QE, <- exp_plus. f_equal. ring.
    + apply Rmult_le_compat_l; lra.
Qed.
Lemma holder q1 q2 t l : l <> [] -> 0 < t < 1 -> q_defined q1 l -> q_defined q2 l ->
  0 < abs_moment q1 l -> 0 < abs_moment q2 l ->
  abs_moment (t * q1 + (1 - t) * q2) l <= exp (t * ln (abs_moment q1 l) + (1 - t) * ln (abs_moment q2 l)).
Proof.
  intros Hne Ht D1 D2 PA PB. set (A := abs_moment q1 l) in *. set (B := abs_moment q2 l) in *.
  set (E := exp (t * ln A + (1 - t) * ln B)).
  assert (Hn := INR_len_pos l Hne).
  assert (S : Rsum (map (qpow (t * q1 + (1 - t) * q2)) l)
     <= Rsum (map (fun a => E * t / A * qpow q1 a + E * (1 - t) / B * qpow q2 a) l)).
  { apply Rsum_map_le. intros a Ha. eapply Rle_trans; [apply (qpow_interp q1 q2 t a A B); trivial|].
    - destruct (q_defined_in q1 l a D1 Ha); [|now right]. destruct (q_defined_in q2 l a D2 Ha); [|now right]. left. auto.
    - right. unfold E. field. lra. }
  rewrite Rsum_map_plus, !Rsum_map_scal in S.
  assert (EA : Rsum (map (qpow q1) l) = A * INR (length l)).
  { unfold A, abs_moment, mean. rewrite map_length. field. lra. }
  assert (EB : Rsum (map (qpow q2) l) = B * INR (length l)).
  { unfold B, abs_moment, mean. rewrite map_length. field. lra. }
  rewrite EA, EB in S. unfold abs_moment at 1, mean. rewrite map_length.
  apply Rmult_le_reg_r with (INR (length l)); trivial.
  unfold Rdiv. rewrite Rmult_assoc, Rinv_l, Rmult_1_r by lra. eapply Rle_trans; [exact S|]. right. field. lra.
Qed.

Lemma valid_map_notnan_in (f : xr -> xr) c : (forall v, In v c -> isnan (f v) = isnan v) ->
  count_valid (map f c) = count_valid c.
Proof.
  intros H. unfold count_valid, valid. induction c as [|v c IH]; simpl; [reflexivity|].
  unfold notnan in *. rewrite H by (now left). destruct (isnan v); simpl; [|f_equal]; apply IH; intros; apply H; now right.
Qed.
