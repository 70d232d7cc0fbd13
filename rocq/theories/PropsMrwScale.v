(** * C121: scaling of the moments of the multifractal random walk *)
From Coq Require Import Reals List ZArith Bool Lra Lia String.
From Verif Require Import XReal PyBase ModelSimul Spec SpecSimul LXReal LBase LDft LSimul LCirc LFgn LFgnCov LNoise LMrw LBivariate PropsSimul PropsMrw LWick PropsFluct PropsMrwStat.
Import ListNotations.
Open Scope R_scope.
Local Notation length := List.length.

(** ** Specification *)
(** displacement of a walk over l samples *)
Definition displacement (x : list R) (a l : nat) : R := nth (a + l) x 0 - nth a x 0.
(** scaling exponent of the moment of order q of a process of log-cumulants c1, c2 *)
Definition scaling_exponent (c1 c2 q : R) : R := c1 * q + c2 * q ^ 2 / 2.
Definition simulated_cumul {W} (X : W -> list (list R)) sh c1 c2 L sigma (z0e z0w : W -> option noise) (drawn_w drawn_e : W -> noise) : Prop :=
  (forall w, mrw_cumul sh c1 c2 L sigma "cme" (z0e w) (z0w w) (drawn_w w) (drawn_e w) = Ok (presented sh (map (map Fin) (X w)))) /\ (forall w, shaped (shape_R sh) (shape_N sh) (X w)).

(** ** Sums over pairs *)
Notation lag := (fun k k' : nat => (Nat.max k k' - Nat.min k k')%nat).
Definition pairs (l : nat) (f : nat -> nat -> R) : R := sumn l (fun k => sumn l (f k)).
Lemma pairs_le l f h : (forall k k', (k < l)%nat -> (k' < l)%nat -> f k k' <= h k k') -> pairs l f <= pairs l h.
Proof. intros H. apply sumn_le. intros k Hk. apply sumn_le. intros k' Hk'. now apply H. Qed.
Lemma pairs_ext l f h : (forall k k', (k < l)%nat -> (k' < l)%nat -> f k k' = h k k') -> pairs l f = pairs l h.
Proof. intros H. apply sumn_ext. intros k Hk. apply sumn_ext. intros k' Hk'. now apply H. Qed.
Lemma pairs_scal l c f : pairs l (fun k k' => c * f k k') = c * pairs l f.
Proof. unfold pairs. rewrite <- sumn_scal. apply sumn_ext. intros k _. apply sumn_scal. Qed.
Lemma pairs_plus l f h : pairs l (fun k k' => f k k' + h k k') = pairs l f + pairs l h.
Proof. unfold pairs. rewrite <- sumn_plus. apply sumn_ext. intros k _. apply sumn_plus. Qed.
Lemma pairs_lag_S f l : pairs (S l) (fun k k' => f (lag k k')) = pairs l (fun k k' => f (lag k k')) + (f 0%nat + 2 * sumn l (fun d => f (S d))).
Proof.
  unfold pairs. rewrite sumn_S. rewrite (sumn_ext l _ (fun k => sumn l (fun k' => f (lag k k')) + f (l - k)%nat)).
  2:{ intros k Hk. rewrite sumn_S. do 2 f_equal. lia. }
  rewrite sumn_plus, sumn_S, Nat.max_id, Nat.min_id, Nat.sub_diag.
  rewrite (sumn_ext l (fun k' => f (Nat.max l k' - Nat.min l k')%nat) (fun k => f (l - k)%nat)) by (intros k Hk; f_equal; lia).
  assert (Q : sumn l (fun k => f (l - k)%nat) = sumn l (fun d => f (S d))) by (rewrite sumn_rev; apply sumn_ext; intros i Hi; f_equal; lia).
  rewrite Q. ring.
Qed.
Lemma fcor_total a l : pairs l (fun k k' => fcor a (lag k k')) = rpow (INR l) a.
Proof.
  induction l as [|l IH]; [unfold pairs; rewrite sumn_0; cbn [INR]; now rewrite rpow_0|]. rewrite (pairs_lag_S (fcor a)), IH, fcor_sum. cbn [fcor]. rewrite Nat.add_1_r. field.
Qed.
Lemma fcor_nonneg a d : 1 <= a -> 0 <= fcor a d.
Proof. intros Ha. destruct d as [|d]; [cbn [fcor]; lra|]. rewrite fcor_S. assert (K := g_convex a d Ha). lra. Qed.
Lemma fcor_nonpos a d : 0 <= a -> a <= 1 -> fcor a (S d) <= 0.
Proof. intros H0 Ha. rewrite fcor_S. assert (K := g_concave a d H0 Ha). lra. Qed.
Lemma fcor_le1 a d : 1 <= a -> a <= 2 -> fcor a d <= 1.
Proof.
  intros H1 H2. destruct d as [|d]; [cbn [fcor]; lra|]. induction d as [|d IH].
  - rewrite fcor_S. cbn [Nat.add]. assert (K := two_pow_le2 a H2). assert (K0 := g_0 a). assert (K1 := g_1 a). assert (K2 := g_2 a). cbv beta zeta in *. rewrite K0, K1, K2. lra.
  - rewrite fcor_S in *. assert (K := g_third a d H1 H2). replace (S d + 2)%nat with (d + 3)%nat by lia. replace (S d + 1)%nat with (d + 2)%nat by lia. replace (S d) with (d + 1)%nat by lia. lra.
Qed.

(** ** Moments of the displacements *)
Lemma disp_sum x a l : displacement x a l = sumn l (fun k => increment x (S (a + k))).
Proof.
  unfold displacement. induction l as [|l IH]; [rewrite sumn_0, Nat.add_0_r; ring|]. rewrite sumn_S, <- IH. unfold increment. rewrite <- plus_n_Sm. ring.
Qed.
Lemma second_moment_sum {W} (P : expectation W) (v : nat -> W -> R) (c : nat -> nat -> R) l :
  (forall a b, (a < l)%nat -> (b < l)%nat -> integrable P (fun w => v a w * v b w) /\ E P (fun w => v a w * v b w) = c a b) ->
  integrable P (fun w => sumn l (fun k => v k w) ^ 2) /\ E P (fun w => sumn l (fun k => v k w) ^ 2) = pairs l c.
Proof.
  intros Hc. assert (R1 : forall k, (k < l)%nat -> integrable P (fun w => sumn l (fun k' => v k w * v k' w)) /\ E P (fun w => sumn l (fun k' => v k w * v k' w)) = sumn l (c k)).
  { intros k Hk. destruct (int_sumn P l (fun k' w => v k w * v k' w) (fun k' Hk' => proj1 (Hc k k' Hk Hk'))) as [I V]. split; [exact I|]. rewrite V. apply sumn_ext. intros k' Hk'. now apply Hc. }
  destruct (int_sumn P l (fun k w => sumn l (fun k' => v k w * v k' w)) (fun k Hk => proj1 (R1 k Hk))) as [I V].
  assert (G : forall w, sumn l (fun k => sumn l (fun k' => v k w * v k' w)) = sumn l (fun k => v k w) ^ 2).
  { intros w. rewrite (sumn_ext l _ (fun k => v k w * sumn l (fun k' => v k' w))) by (intros; apply sumn_scal). rewrite sumn_scal_r. ring. }
  split; [exact (int_ext W P _ _ G I)|]. rewrite <- (E_ext W P _ _ G), V. apply sumn_ext. intros k Hk. now apply R1.
Qed.

(** log-volatility as a function of the lag *)
Definition volL (lam L : R) (d : nat) : R := lam ^ 2 * log_plus (L / (INR d + 1)).
Lemma volL_eq lam L a b : log_vol_cov lam L a b = volL lam L (lag a b).
Proof. unfold log_vol_cov, volL. now rewrite lag_abs. Qed.
Lemma volL_0 lam L : 1 <= L -> volL lam L 0 = lam ^ 2 * ln L.
Proof. intros HL. unfold volL. cbn [INR]. rewrite Rplus_0_l. unfold Rdiv. rewrite Rinv_1, Rmult_1_r. unfold log_plus. destruct (Rle_dec 1 L); [reflexivity|lra]. Qed.
Lemma volL_far lam L m d : INR m + 1 <= L -> (m <= d)%nat -> volL lam L d <= lam ^ 2 * (ln L - ln (INR m + 1)).
Proof.
  intros Hm Hd. assert (Pm := pos_INR m). apply le_INR in Hd. assert (P2 := pow2_ge_0 lam). unfold volL. apply Rmult_le_compat_l; [trivial|].
  assert (i1 : 0 < / (INR m + 1)) by (apply Rinv_0_lt_compat; lra). assert (i2 : 0 < / (INR d + 1)) by (apply Rinv_0_lt_compat; lra).
  eapply Rle_trans; [apply (log_plus_mono _ (L / (INR m + 1)))|].
  - unfold Rdiv. apply Rmult_lt_0_compat; lra.
  - unfold Rdiv. apply Rmult_le_compat_l; [lra|]. apply Rinv_le_contravar; lra.
  - assert (Q : 1 <= L / (INR m + 1)). { apply Rmult_le_reg_r with (INR m + 1); [lra|]. unfold Rdiv. rewrite Rmult_assoc, Rinv_l; lra. }
    unfold log_plus. destruct (Rle_dec 1 _) as [_|n]; [|contradiction]. unfold Rdiv. rewrite ln_mult, ln_Rinv by lra. lra.
Qed.
Lemma volL_le lam L d : 1 <= L -> volL lam L d <= lam ^ 2 * ln L.
Proof. intros HL. assert (K := volL_far lam L 0 d ltac:(cbn; lra) ltac:(lia)). cbn [INR] in K. rewrite Rplus_0_l, ln_1 in K. lra. Qed.

(** size of the correction due to the time average *)
Definition corr (lam L : R) (N : nat) : R := 4 * L * (lam ^ 2 * ln L) / INR N.
Definition nominal (H sigma : R) (N : nat) : R := sigma ^ 2 * Rpower (/ INR N) (2 * H).
Lemma nominal_nonneg H sigma N : 0 <= nominal H sigma N.
Proof. apply Rmult_le_pos; [apply pow2_ge_0|left; apply exp_pos]. Qed.
Lemma vol_ge0 lam L : 1 <= L -> 0 <= lam ^ 2 * ln L.
Proof. intros HL. apply Rmult_le_pos; [apply pow2_ge_0|]. rewrite <- ln_1. destruct HL as [l| <-]; [left; apply ln_increasing; lra|right; reflexivity]. Qed.
Lemma corr_nonneg lam L N : 1 <= L -> (1 <= N)%nat -> 0 <= corr lam L N.
Proof.
  intros HL HN. assert (Y := vol_ge0 lam L HL). assert (n0 : 0 < INR N) by (apply lt_0_INR; lia). assert (i0 : 0 < / INR N) by (now apply Rinv_0_lt_compat).
  unfold corr, Rdiv. apply Rmult_le_pos; [apply Rmult_le_pos|]; lra.
Qed.
Lemma abs_between u e : Rabs u <= e -> - e <= u <= e.
Proof. intros Hu. assert (A := Rle_abs u). assert (B := Rle_abs (- u)). rewrite Rabs_Ropp in B. lra. Qed.
(** covariance of the increments *)
Lemma cov_form H lam L sigma N a b : (2 <= N)%nat -> 0 < H -> 1 <= L -> (a < N)%nat -> (b < N)%nat -> exists u, - (2 * corr lam L N) <= u <= 2 * corr lam L N /\
  fgn_covariance H sigma (/ INR N) a b * exp (demeaned N (log_vol_cov lam L) a a / 2 + demeaned N (log_vol_cov lam L) b b / 2 + demeaned N (log_vol_cov lam L) a b - lam ^ 2 * ln L) = nominal H sigma N * (fcor (2 * H) (lag a b) * exp (volL lam L (lag a b) + u)).
Proof.
  intros HN HH HL1 Ha Hb. set (g := demeaned N (log_vol_cov lam L)). exists (g a a / 2 + g b b / 2 + g a b - lam ^ 2 * ln L - volL lam L (lag a b)). split.
  - assert (A := demeaned_close lam L N a a HL1 ltac:(lia) Ha Ha). assert (B := demeaned_close lam L N b b HL1 ltac:(lia) Hb Hb). assert (C := demeaned_close lam L N a b HL1 ltac:(lia) Ha Hb).
    rewrite vol_diag in A, B by trivial. rewrite volL_eq in C. fold g (corr lam L N) in A, B, C. apply abs_between in A, B, C. lra.
  - assert (n0 : 0 < / INR N) by (apply Rinv_0_lt_compat, lt_0_INR; lia). rewrite fgn_covariance_fcor by lra. rewrite rpow_pos by trivial. unfold nominal.
    replace (volL lam L (lag a b) + (g a a / 2 + g b b / 2 + g a b - lam ^ 2 * ln L - volL lam L (lag a b))) with (g a a / 2 + g b b / 2 + g a b - lam ^ 2 * ln L) by ring. ring.
Qed.

Section Second.
Context {W : Type} (P : expectation W) (sh : shape_arg) (N : nat) (H lam L sigma : R) (z0e z0w : W -> option noise) (drawn_w drawn_e : W -> noise) (X : W -> list (list R)).
Hypothesis EN : shape_N sh = N.
Hypothesis HN : (2 <= N)%nat.
Hypothesis HH : 0 < H <= 1.
Hypothesis HL1 : 1 <= L.
Hypothesis HLN : L <= INR N.
Hypothesis HG : gaussian_pair P (shape_R sh) (2 * N - 2) (fun o => nz (drawn_e o)) (fun o => nz (pick (z0w o) (drawn_w o))).
Hypothesis HX : simulated X sh H lam L sigma z0e z0w drawn_w drawn_e.
(** the second moment of a displacement is a sum over pairs of increments *)
Lemma disp2 r a l : (r < shape_R sh)%nat -> (a + l < N)%nat -> exists u, (forall k k', (k < l)%nat -> (k' < l)%nat -> - (2 * corr lam L N) <= u k k' <= 2 * corr lam L N) /\
  integrable P (fun w => displacement (nth r (X w) []) a l ^ 2) /\
  E P (fun w => displacement (nth r (X w) []) a l ^ 2) = nominal H sigma N * pairs l (fun k k' => fcor (2 * H) (lag k k') * exp (volL lam L (lag k k') + u k k')).
Proof.
  intros Hr Hl.
  assert (F := fun k k' Hk Hk' => sim_facts P sh N H lam L sigma z0e z0w drawn_w drawn_e X EN HN HH ltac:(lra) HLN HG HX r r (S (a + k)) (S (a + k')) Hr Hr Hk Hk').
  set (g := demeaned N (log_vol_cov lam L)) in *.
  exists (fun k k' => g (S (a + k)) (S (a + k)) / 2 + g (S (a + k')) (S (a + k')) / 2 + g (S (a + k)) (S (a + k')) - lam ^ 2 * ln L - volL lam L (lag k k')).
  assert (LG : forall k k', lag (S (a + k)) (S (a + k')) = lag k k') by (intros; lia).
  split.
  - intros k k' Hk Hk'. assert (A := demeaned_close lam L N (S (a + k)) (S (a + k)) HL1 ltac:(lia) ltac:(lia) ltac:(lia)). assert (B := demeaned_close lam L N (S (a + k')) (S (a + k')) HL1 ltac:(lia) ltac:(lia) ltac:(lia)). assert (C := demeaned_close lam L N (S (a + k)) (S (a + k')) HL1 ltac:(lia) ltac:(lia) ltac:(lia)).
    rewrite vol_diag in A, B by trivial. rewrite volL_eq, LG in C. fold g (corr lam L N) in A, B, C. apply abs_between in A, B, C. lra.
  - destruct (second_moment_sum P (fun k w => increment (nth r (X w) []) (S (a + k))) (fun k k' => nominal H sigma N * (fcor (2 * H) (lag k k') * exp (volL lam L (lag k k') + (g (S (a + k)) (S (a + k)) / 2 + g (S (a + k')) (S (a + k')) / 2 + g (S (a + k)) (S (a + k')) - lam ^ 2 * ln L - volL lam L (lag k k')))))  l) as [I V].
    + intros k k' Hk Hk'. destruct (F k k' ltac:(lia) ltac:(lia)) as (_ & (I & V) & _). split; [exact I|]. rewrite V. destruct (Nat.eq_dec r r) as [_|n]; [|now elim n].
      assert (n0 : 0 < / INR N) by (apply Rinv_0_lt_compat, lt_0_INR; lia). rewrite fgn_covariance_fcor by lra. rewrite rpow_pos by trivial. rewrite LG. unfold nominal.
      replace (volL lam L (lag k k') + (g (S (a + k)) (S (a + k)) / 2 + g (S (a + k')) (S (a + k')) / 2 + g (S (a + k)) (S (a + k')) - lam ^ 2 * ln L - volL lam L (lag k k'))) with (g (S (a + k)) (S (a + k)) / 2 + g (S (a + k')) (S (a + k')) / 2 + g (S (a + k)) (S (a + k')) - lam ^ 2 * ln L) by ring. ring.
    + assert (G : forall w, sumn l (fun k => increment (nth r (X w) []) (S (a + k))) ^ 2 = displacement (nth r (X w) []) a l ^ 2) by (intros; now rewrite disp_sum).
      split; [exact (int_ext W P _ _ G I)|]. rewrite <- (E_ext W P _ _ G), V. apply pairs_scal.
Qed.
Lemma inc2 r b : (r < shape_R sh)%nat -> (b < N)%nat -> exists u, - (2 * corr lam L N) <= u <= 2 * corr lam L N /\
  E P (fun w => increment (nth r (X w) []) b ^ 2) = nominal H sigma N * exp (lam ^ 2 * ln L + u).
Proof.
  intros Hr Hb. destruct (cov_form H lam L sigma N b b HN ltac:(lra) HL1 Hb Hb) as (u & Bu & Eu). exists u. split; [exact Bu|].
  destruct (sim_facts P sh N H lam L sigma z0e z0w drawn_w drawn_e X EN HN HH ltac:(lra) HLN HG HX r r b b Hr Hr Hb Hb) as (_ & (I & V) & _). destruct (Nat.eq_dec r r) as [_|n]; [|now elim n].
  rewrite Eu, Nat.max_id, Nat.min_id, Nat.sub_diag, volL_0 in V by trivial. cbn [fcor] in V. rewrite Rmult_1_l in V. rewrite <- V. apply E_ext. intros; ring.
Qed.
End Second.

Lemma exp_le x z : x <= z -> exp x <= exp z.
Proof. intros [l| ->]; [left; now apply exp_increasing|apply Rle_refl]. Qed.
(** ** Upper bound for persistent noise *)
Lemma near_pairs l m : pairs l (fun k k' => if lt_dec (lag k k') m then 1 else 0) <= 2 * INR m * INR l.
Proof.
  unfold pairs. replace (2 * INR m * INR l) with (INR l * (2 * INR m)) by ring. rewrite <- (sumn_const l). apply sumn_le. intros k Hk.
  set (f := fun d => if lt_dec d m then 1 else 0). assert (F0 : forall d, 0 <= f d) by (intros d; unfold f; destruct (lt_dec d m); lra).
  eapply Rle_trans; [exact (sumn_two_sides f l k F0 Hk)|]. apply Rmult_le_compat_l; [lra|]. replace (INR m) with (INR m * 1) by ring.
  apply sumn_head_bound; [lra| |]; intros d; unfold f; destruct (lt_dec d m); try lra; try lia. 
Qed.
Lemma persistent_pairs a lam L l m e u : 1 <= a -> a <= 2 -> 1 <= L -> INR m + 1 <= L -> 0 <= e -> (forall k k', (k < l)%nat -> (k' < l)%nat -> - e <= u k k' <= e) ->
  pairs l (fun k k' => fcor a (lag k k') * exp (volL lam L (lag k k') + u k k')) <= exp (lam ^ 2 * ln L) * exp e * (2 * INR m * INR l + Rpower (INR m + 1) (- lam ^ 2) * rpow (INR l) a).
Proof.
  intros A1 A2 HL Hm He Hu. set (E0 := exp (lam ^ 2 * ln L) * exp e). assert (E1 : 0 < E0) by (apply Rmult_lt_0_compat; apply exp_pos). set (q := Rpower (INR m + 1) (- lam ^ 2)). assert (q0 : 0 < q) by apply exp_pos.
  apply Rle_trans with (pairs l (fun k k' => E0 * ((if lt_dec (lag k k') m then 1 else 0) + q * fcor a (lag k k')))).
  - apply pairs_le. intros k k' Hk Hk'. set (d := lag k k'). assert (f0 := fcor_nonneg a d A1). assert (f1 := fcor_le1 a d A1 A2). specialize (Hu k k' Hk Hk').
    destruct (lt_dec d m) as [Hd|Hd].
    + assert (B : exp (volL lam L d + u k k') <= E0) by (unfold E0; rewrite <- exp_plus; apply exp_le; assert (V := volL_le lam L d HL); lra).
      assert (B0 : 0 < exp (volL lam L d + u k k')) by apply exp_pos. assert (B1 : fcor a d * exp (volL lam L d + u k k') <= 1 * E0) by (apply Rmult_le_compat; lra).
      assert (B2 : 0 <= E0 * (q * fcor a d)) by (apply Rmult_le_pos; [lra|apply Rmult_le_pos; lra]). lra.
    + assert (B : exp (volL lam L d + u k k') <= E0 * q) by (unfold E0, q, Rpower; rewrite <- !exp_plus; apply exp_le; assert (V := volL_far lam L m d Hm ltac:(lia)); lra).
      replace (E0 * (0 + q * fcor a d)) with (fcor a d * (E0 * q)) by ring. now apply Rmult_le_compat_l.
  - rewrite pairs_scal, pairs_plus, pairs_scal, fcor_total. apply Rmult_le_compat_l; [lra|]. apply Rplus_le_compat_r, near_pairs.
Qed.
(** ** Lower bound for antipersistent noise *)
Lemma off_sum a k l : 0 < a -> a <= 1 -> (k < l)%nat -> sumn l (fun k' => match lag k k' with O => 0 | S d => - fcor a (S d) end) <= 1.
Proof.
  intros A0 A1 Hk. set (f := fun d => match d with O => 0 | S d => - fcor a (S d) end).
  assert (F0 : forall d, 0 <= f d) by (intros [|d]; unfold f; [lra|assert (Q := fcor_nonpos a d ltac:(lra) A1); lra]).
  eapply Rle_trans; [exact (sumn_two_sides f l k F0 Hk)|]. destruct l as [|l]; [lia|]. rewrite sumn_S_first. cbn [f]. rewrite sumn_opp, fcor_sum.
  assert (M := g_mono a l ltac:(lra)). rewrite Nat.add_1_r. cbv beta in M. lra.
Qed.
Lemma anti_pairs a lam L l e u : 0 < a -> a <= 1 -> 2 <= L -> 0 <= e -> (forall k k', (k < l)%nat -> (k' < l)%nat -> - e <= u k k' <= e) ->
  exp (lam ^ 2 * ln L) * (INR l * (exp (- e) - Rpower 2 (- lam ^ 2) * exp e)) <= pairs l (fun k k' => fcor a (lag k k') * exp (volL lam L (lag k k') + u k k')).
Proof.
  intros A0 A1 HL He Hu. set (E0 := exp (lam ^ 2 * ln L)). assert (E1 : 0 < E0) by apply exp_pos. set (q := Rpower 2 (- lam ^ 2)). assert (q0 : 0 < q) by apply exp_pos.
  set (off := fun d => match d with O => 0 | S d => - fcor a (S d) end).
  apply Rle_trans with (sumn l (fun k => sumn l (fun k' => E0 * (exp (- e) * (if Nat.eq_dec k k' then 1 else 0) - q * exp e * off (lag k k'))))).
  - replace (E0 * (INR l * (exp (- e) - q * exp e))) with (INR l * (E0 * (exp (- e) - q * exp e))) by ring. rewrite <- (sumn_const l). apply sumn_le. intros k Hk.
    rewrite sumn_scal, sumn_minus, !sumn_scal. apply Rmult_le_compat_l; [lra|]. rewrite (sumn_single l _ k Hk) by (intros i _ ne; destruct (Nat.eq_dec k i); [subst; now elim ne|reflexivity]).
    destruct (Nat.eq_dec k k) as [_|n]; [|now elim n]. assert (O1 := off_sum a k l A0 A1 Hk). change (sumn l (fun k' => off (lag k k')) <= 1) in O1.
    assert (0 < q * exp e) by (apply Rmult_lt_0_compat; [trivial|apply exp_pos]). nra.
  - apply pairs_le. intros k k' Hk Hk'. specialize (Hu k k' Hk Hk'). destruct (Nat.eq_dec k k') as [<-|ne].
    + rewrite Nat.max_id, Nat.min_id, Nat.sub_diag. rewrite volL_0 by lra. cbn [fcor off]. rewrite exp_plus. fold E0. assert (exp (- e) <= exp (u k k)) by (apply exp_le; lra). nra.
    + destruct (lag k k') as [|d] eqn:Ed; [lia|]. cbn [off]. assert (f0 := fcor_nonpos a d ltac:(lra) A1).
      assert (B : exp (volL lam L (S d) + u k k') <= E0 * (q * exp e)).
      { unfold E0, q, Rpower; rewrite <- !exp_plus; apply exp_le. assert (V := volL_far lam L 1 (S d) ltac:(cbn; lra) ltac:(lia)). replace (INR 1 + 1) with 2 in V by (cbn; ring). lra. }
      assert (K := Rmult_le_compat_neg_l _ _ _ f0 B). lra.
Qed.
(** ** Theorems: moment of order two *)
(** a run of the generator, with independent Gaussian noises *)
Definition mrw_run {W} (P : expectation W) sh N H lam L sigma (z0e z0w : W -> option noise) (drawn_w drawn_e : W -> noise) (X : W -> list (list R)) : Prop :=
  shape_N sh = N /\ (2 <= N)%nat /\ 0 < H <= 1 /\ 1 <= L <= INR N /\
  gaussian_pair P (shape_R sh) (2 * N - 2) (fun o => nz (drawn_e o)) (fun o => nz (pick (z0w o) (drawn_w o))) /\
  simulated X sh H lam L sigma z0e z0w drawn_w drawn_e.
Definition cumul_run {W} (P : expectation W) sh N c1 c2 L sigma (z0e z0w : W -> option noise) (drawn_w drawn_e : W -> noise) (X : W -> list (list R)) : Prop :=
  shape_N sh = N /\ (2 <= N)%nat /\ 0 < c1 + c2 <= 1 /\ 1 <= L <= INR N /\
  gaussian_pair P (shape_R sh) (2 * N - 2) (fun o => nz (drawn_e o)) (fun o => nz (pick (z0w o) (drawn_w o))) /\
  simulated_cumul X sh c1 c2 L sigma z0e z0w drawn_w drawn_e.
(** moments of the displacement over l samples from sample a, and of increment b *)
Definition moment {W} (P : expectation W) (X : W -> list (list R)) (q r a l : nat) : R := E P (fun w => displacement (nth r (X w) []) a l ^ q).
Definition inc_moment {W} (P : expectation W) (X : W -> list (list R)) (q r b : nat) : R := E P (fun w => increment (nth r (X w) []) b ^ q).

Lemma cumul_is_mrw {W} (P : expectation W) sh N c1 c2 L sigma z0e z0w drawn_w drawn_e X : c2 <= 0 -> cumul_run P sh N c1 c2 L sigma z0e z0w drawn_w drawn_e X ->
  mrw_run P sh N (c1 + c2) (sqrt (- c2)) L sigma z0e z0w drawn_w drawn_e X.
Proof.
  intros Hc (A & B & C & D & F & [G G']). refine (conj A (conj B (conj C (conj D (conj F (conj _ G')))))). intros w. specialize (G w). unfold mrw_cumul in G. destruct (Rle_dec 0 (- c2)) as [_|n]; [exact G|lra].
Qed.

(** H > 1/2: over any number of samples the second moment is at most (2 m l + (m + 1)^(-lam^2) l^(2 H)) times the one of an increment, whatever m *)
Theorem C121_persistent : forall W (P : expectation W) sh N H lam L sigma z0e z0w drawn_w drawn_e X, 1 / 2 <= H -> mrw_run P sh N H lam L sigma z0e z0w drawn_w drawn_e X ->
  forall r a l b m, (r < shape_R sh)%nat -> (a + l < N)%nat -> (b < N)%nat -> INR m + 1 <= L ->
  moment P X 2 r a l <= inc_moment P X 2 r b * exp (4 * corr lam L N) * (2 * INR m * INR l + Rpower (INR m + 1) (- lam ^ 2) * rpow (INR l) (2 * H)).
Proof.
  intros W P sh N H lam L sigma z0e z0w drawn_w drawn_e X H2 (EN & HN & HH & [HL HLN] & HG & HX) r a l b m Hr Hl Hb Hm.
  destruct (disp2 P sh N H lam L sigma z0e z0w drawn_w drawn_e X EN HN HH HL HLN HG HX r a l Hr Hl) as (u & Bu & _ & Eu). destruct (inc2 P sh N H lam L sigma z0e z0w drawn_w drawn_e X EN HN HH HL HLN HG HX r b Hr Hb) as (v & Bv & Ev).
  unfold moment, inc_moment. rewrite Eu, Ev. assert (e0 := corr_nonneg lam L N HL ltac:(lia)). assert (K0 := nominal_nonneg H sigma N). set (e := corr lam L N) in *.
  assert (Q := persistent_pairs (2 * H) lam L l m (2 * e) u ltac:(lra) ltac:(lra) HL Hm ltac:(lra) Bu). set (T := 2 * INR m * INR l + Rpower (INR m + 1) (- lam ^ 2) * rpow (INR l) (2 * H)) in *.
  assert (T0 : 0 <= T). { assert (Pm := pos_INR m). assert (Pl := pos_INR l). assert (Pr := rpow_nonneg (INR l) (2 * H)). assert (0 < Rpower (INR m + 1) (- lam ^ 2)) by apply exp_pos. unfold T. assert (0 <= INR m * INR l) by (now apply Rmult_le_pos). assert (0 <= Rpower (INR m + 1) (- lam ^ 2) * rpow (INR l) (2 * H)) by (apply Rmult_le_pos; lra). lra. }
  rewrite 2 Rmult_assoc. apply Rmult_le_compat_l; [trivial|]. eapply Rle_trans; [exact Q|]. rewrite <- Rmult_assoc. apply Rmult_le_compat_r; [trivial|]. rewrite <- !exp_plus. apply exp_le. lra.
Qed.
(** H < 1/2: the second moment grows linearly with the number of samples *)
Theorem C121_antipersistent : forall W (P : expectation W) sh N H lam L sigma z0e z0w drawn_w drawn_e X, H <= 1 / 2 -> 2 <= L -> mrw_run P sh N H lam L sigma z0e z0w drawn_w drawn_e X ->
  forall r a l b, (r < shape_R sh)%nat -> (a + l < N)%nat -> (b < N)%nat -> 0 <= exp (- (4 * corr lam L N)) - Rpower 2 (- lam ^ 2) ->
  inc_moment P X 2 r b * (exp (- (4 * corr lam L N)) - Rpower 2 (- lam ^ 2)) * INR l <= moment P X 2 r a l.
Proof.
  intros W P sh N H lam L sigma z0e z0w drawn_w drawn_e X H2 HL2 (EN & HN & HH & [HL HLN] & HG & HX) r a l b Hr Hl Hb Hd.
  destruct (disp2 P sh N H lam L sigma z0e z0w drawn_w drawn_e X EN HN HH HL HLN HG HX r a l Hr Hl) as (u & Bu & _ & Eu). destruct (inc2 P sh N H lam L sigma z0e z0w drawn_w drawn_e X EN HN HH HL HLN HG HX r b Hr Hb) as (v & Bv & Ev).
  unfold moment, inc_moment. rewrite Eu, Ev. assert (e0 := corr_nonneg lam L N HL ltac:(lia)). assert (K0 := nominal_nonneg H sigma N). set (e := corr lam L N) in *.
  assert (Q := anti_pairs (2 * H) lam L l (2 * e) u ltac:(lra) ltac:(lra) HL2 ltac:(lra) Bu). rewrite 2 Rmult_assoc. apply Rmult_le_compat_l; [trivial|]. eapply Rle_trans; [|exact Q].
  set (q := Rpower 2 (- lam ^ 2)) in *. assert (Pl := pos_INR l). assert (B : exp (lam ^ 2 * ln L + v) <= exp (lam ^ 2 * ln L) * exp (2 * e)) by (rewrite <- exp_plus; apply exp_le; lra).
  apply Rle_trans with (exp (lam ^ 2 * ln L) * exp (2 * e) * ((exp (- (4 * e)) - q) * INR l)); [apply Rmult_le_compat_r; [now apply Rmult_le_pos|exact B]|].
  right. assert (Z : exp (2 * e) * exp (- (4 * e)) = exp (- (2 * e))) by (rewrite <- exp_plus; f_equal; ring). rewrite <- Z. ring.
Qed.
(** H = 1/2: the second moment is proportional to the number of samples *)
Theorem C121_brownian : forall W (P : expectation W) sh N lam L sigma z0e z0w drawn_w drawn_e X, mrw_run P sh N (1 / 2) lam L sigma z0e z0w drawn_w drawn_e X ->
  forall r a l b, (r < shape_R sh)%nat -> (a + l < N)%nat -> (b < N)%nat ->
  inc_moment P X 2 r b * INR l * exp (- (4 * corr lam L N)) <= moment P X 2 r a l <= inc_moment P X 2 r b * INR l * exp (4 * corr lam L N).
Proof.
  intros W P sh N lam L sigma z0e z0w drawn_w drawn_e X (EN & HN & HH & [HL HLN] & HG & HX) r a l b Hr Hl Hb.
  destruct (disp2 P sh N (1 / 2) lam L sigma z0e z0w drawn_w drawn_e X EN HN HH HL HLN HG HX r a l Hr Hl) as (u & Bu & _ & Eu). destruct (inc2 P sh N (1 / 2) lam L sigma z0e z0w drawn_w drawn_e X EN HN HH HL HLN HG HX r b Hr Hb) as (v & Bv & Ev).
  unfold moment, inc_moment. rewrite Eu, Ev. assert (K0 := nominal_nonneg (1 / 2) sigma N). set (e := corr lam L N) in *. set (y := lam ^ 2 * ln L) in *.
  assert (Z : pairs l (fun k k' => fcor (2 * (1 / 2)) (lag k k') * exp (volL lam L (lag k k') + u k k')) = sumn l (fun k => exp (y + u k k))).
  { apply sumn_ext. intros k Hk. rewrite (sumn_single l _ k Hk).
    - rewrite Nat.max_id, Nat.min_id, Nat.sub_diag, volL_0 by trivial. cbn [fcor]. apply Rmult_1_l.
    - intros i Hi ne. destruct (lag k i) as [|d] eqn:Ed; [lia|]. assert (f0 := fcor_nonpos (2 * (1 / 2)) d ltac:(lra) ltac:(lra)). assert (f1 := fcor_nonneg (2 * (1 / 2)) (S d) ltac:(lra)). replace (fcor (2 * (1 / 2)) (S d)) with 0 by lra. ring. }
  rewrite Z. assert (Pl := pos_INR l). split; rewrite 2 Rmult_assoc; apply Rmult_le_compat_l; trivial.
  - rewrite (Rmult_comm (INR l)), <- Rmult_assoc, <- exp_plus, Rmult_comm. rewrite <- sumn_const. apply sumn_le. intros k Hk. specialize (Bu k k Hk Hk). apply exp_le. lra.
  - rewrite (Rmult_comm (INR l)), <- Rmult_assoc, <- exp_plus, Rmult_comm. rewrite <- sumn_const. apply sumn_le. intros k Hk. specialize (Bu k k Hk Hk). apply exp_le. lra.
Qed.

Lemma power_small s d : 0 < s -> 0 < d -> exists n0 : nat, (1 <= n0)%nat /\ forall x, INR n0 <= x -> Rpower x (- s) < d.
Proof.
  intros Hs Hd. set (x0 := Rmax 1 (exp (- (ln d - 1) / s))). assert (AR : exists n0 : nat, x0 < INR n0).
  { destruct (archimed x0) as [A _]. assert (M := Rmax_l 1 (exp (- (ln d - 1) / s))). fold x0 in M. exists (Z.to_nat (up x0)). rewrite INR_IZR_INZ, Z2Nat.id; [lra|]. apply le_IZR. lra. }
  destruct AR as [n0 Hn]. assert (M1 := Rmax_l 1 (exp (- (ln d - 1) / s))). assert (M2 := Rmax_r 1 (exp (- (ln d - 1) / s))). fold x0 in M1, M2. exists n0. split; [apply INR_le; cbn [INR]; lra|].
  intros x Hx. rewrite <- (exp_ln d Hd). unfold Rpower. apply exp_increasing.
  assert (Q : - (ln d - 1) / s <= ln x). { rewrite <- (ln_exp (- (ln d - 1) / s)). left. apply ln_increasing; [apply exp_pos|lra]. }
  assert (Q2 : - (ln d - 1) <= s * ln x). { replace (- (ln d - 1)) with (s * (- (ln d - 1) / s)) by (field; lra). apply Rmult_le_compat_l; lra. } lra.
Qed.
Lemma ln2_half : 1 / 2 <= ln 2.
Proof. assert (K := exp_ineq1_le (- (1 / 2))). assert (Q : ln (1 / 2) <= - (1 / 2)). { rewrite <- (ln_exp (- (1 / 2))). destruct K as [K|K]; [left; apply ln_increasing; lra|right; f_equal; lra]. } replace (1 / 2) with (/ 2) in Q at 1 by field. rewrite ln_Rinv in Q by lra. lra. Qed.
Lemma corr_small lam L N : 1 <= L -> (1 <= N)%nat -> 64 * L * ln L <= INR N -> 4 * corr lam L N <= lam ^ 2 / 4.
Proof.
  intros HL HN HB. assert (n0 : 0 < INR N) by (apply lt_0_INR; lia). unfold corr. apply Rmult_le_reg_r with (INR N); [trivial|]. replace (4 * (4 * L * (lam ^ 2 * ln L) / INR N) * INR N) with (lam ^ 2 / 4 * (64 * L * ln L)) by (field; lra).
  apply Rmult_le_compat_l; [|trivial]. assert (K := pow2_ge_0 lam). lra.
Qed.
(** REFUTED: a walk made by mrw_cumul does not have the log-cumulants c1, c2 asked for, except with c1 + c2 = 1/2: whatever the constants, over enough samples
    and for long enough integral scales and recordings, its second moment leaves the range of the power law of exponent 2 c1 + 2 c2 *)
Theorem C121_cumulants_refuted : forall c1 c2 A B, c2 < 0 -> 0 < c1 + c2 <= 1 -> c1 + c2 <> 1 / 2 -> 0 < A -> 0 < B ->
  exists l0 L0, forall W (P : expectation W) sh N L sigma z0e z0w drawn_w drawn_e X, cumul_run P sh N c1 c2 L sigma z0e z0w drawn_w drawn_e X ->
  L0 <= L -> 64 * L * ln L <= INR N -> sigma <> 0 ->
  forall r a l b, (r < shape_R sh)%nat -> (l0 <= l)%nat -> (a + l < N)%nat -> (b < N)%nat ->
  ~ (A * Rpower (INR l) (scaling_exponent c1 c2 2) * inc_moment P X 2 r b <= moment P X 2 r a l <= B * Rpower (INR l) (scaling_exponent c1 c2 2) * inc_moment P X 2 r b).
Proof.
  intros c1 c2 A B Hc HH ne HA HB. set (H := c1 + c2) in *. set (lam := sqrt (- c2)). assert (lam2 : lam ^ 2 = - c2) by (unfold lam; rewrite <- Rsqr_pow2; apply Rsqr_sqrt; lra).
  assert (EX : scaling_exponent c1 c2 2 = 2 * H) by (unfold scaling_exponent, H; field).
  assert (POS : forall W (P : expectation W) sh N L sigma z0e z0w drawn_w drawn_e X, mrw_run P sh N H lam L sigma z0e z0w drawn_w drawn_e X -> sigma <> 0 -> forall r b, (r < shape_R sh)%nat -> (b < N)%nat -> 0 < inc_moment P X 2 r b).
  { intros W P sh N L sigma z0e z0w drawn_w drawn_e X (EN & HN & HH' & [HL HLN] & HG & HX) Hs r b Hr Hb. destruct (inc2 P sh N H lam L sigma z0e z0w drawn_w drawn_e X EN HN HH' HL HLN HG HX r b Hr Hb) as (v & Bv & Ev).
    unfold inc_moment. rewrite Ev. unfold nominal. apply Rmult_lt_0_compat; [|apply exp_pos]. apply Rmult_lt_0_compat; [|apply exp_pos]. rewrite <- Rsqr_pow2. now apply Rsqr_pos_lt. }
  set (C := exp (lam ^ 2 / 4)). assert (C0 : 0 < C) by apply exp_pos.
  destruct (Rlt_le_dec (1 / 2) H) as [Hp|Hp].
  - destruct (power_small (- c2) (A / 2 / C) ltac:(lra)) as (m & m1 & Hm); [apply Rdiv_lt_0_compat; lra|].
    assert (Pm : 1 <= INR m) by (apply (le_INR 1); trivial). assert (d0 : 0 < A / 2 / C / (2 * INR m)) by (apply Rdiv_lt_0_compat; [apply Rdiv_lt_0_compat|]; lra).
    destruct (power_small (2 * H - 1) _ ltac:(lra) d0) as (l0 & l1 & Hl0). exists l0, (INR m + 1).
    intros W P sh N L sigma z0e z0w drawn_w drawn_e X RUN HL0 HB64 Hs r a l b Hr Hl Hal Hb [Q _]. apply cumul_is_mrw in RUN; [|lra]. assert (V0 := POS _ _ _ _ _ _ _ _ _ _ _ RUN Hs r b Hr Hb).
    assert (U := C121_persistent W P sh N H lam L sigma z0e z0w drawn_w drawn_e X ltac:(lra) RUN r a l b m Hr Hal Hb HL0). destruct RUN as (_ & HN & _ & [HL _] & _).
    set (V := inc_moment P X 2 r b) in *. assert (CS := corr_small lam L N HL ltac:(lia) HB64). apply exp_le in CS. fold C in CS.
    assert (Hx : INR l0 <= INR l) by (now apply le_INR). assert (Pl : 1 <= INR l) by (assert (Z := le_INR 1 l0 l1); cbn [INR] in Z; lra). specialize (Hl0 _ Hx). specialize (Hm (INR m + 1) ltac:(lra)).
    rewrite rpow_pos in U by lra. rewrite EX in Q. set (G := Rpower (INR l) (2 * H)) in *. assert (G0 : 0 < G) by apply exp_pos. rewrite lam2 in U. replace (- - c2) with (- (- c2)) in U by ring.
    assert (Gl : INR l = G * Rpower (INR l) (- (2 * H - 1))). { unfold G. rewrite <- Rpower_plus. replace (2 * H + - (2 * H - 1)) with 1 by ring. rewrite Rpower_1; lra. }
    set (q := Rpower (INR m + 1) (- - c2)) in *. set (p := Rpower (INR l) (- (2 * H - 1))) in *. rewrite Gl in U. assert (q0 : 0 < q) by apply exp_pos. assert (p0 : 0 < p) by apply exp_pos.
    assert (T : 2 * INR m * (G * p) + q * G < A / C * G).
    { assert (T1 : 2 * INR m * p < A / 2 / C). { apply Rmult_lt_reg_r with (/ (2 * INR m)); [apply Rinv_0_lt_compat; lra|]. replace (2 * INR m * p * / (2 * INR m)) with p by (field; lra). exact Hl0. }
      replace (A / C * G) with ((A / 2 / C + A / 2 / C) * G) by (field; lra). replace (2 * INR m * (G * p) + q * G) with ((2 * INR m * p + q) * G) by ring. apply Rmult_lt_compat_r; lra. }
    set (T2 := 2 * INR m * (G * p) + q * G) in *. assert (T0 : 0 < T2) by (unfold T2; assert (0 < G * p) by (now apply Rmult_lt_0_compat); assert (0 < q * G) by (now apply Rmult_lt_0_compat); assert (0 < INR m * (G * p)) by (apply Rmult_lt_0_compat; lra); lra).
    assert (F : V * exp (4 * corr lam L N) * T2 < A * G * V).
    { apply Rle_lt_trans with (V * C * T2). - apply Rmult_le_compat_r; [lra|]. apply Rmult_le_compat_l; lra.
      - replace (A * G * V) with (V * C * (A / C * G)) by (field; lra). apply Rmult_lt_compat_l; [now apply Rmult_lt_0_compat|exact T]. }
    apply (Rlt_not_le _ _ F). eapply Rle_trans; [exact Q|exact U].
  - assert (Hq : H < 1 / 2) by lra. set (d := exp (- (lam ^ 2 / 4)) - Rpower 2 (- lam ^ 2)).
    assert (d0 : 0 < d). { unfold d, Rpower. assert (exp (- lam ^ 2 * ln 2) < exp (- (lam ^ 2 / 4))); [|lra]. apply exp_increasing. assert (K := ln2_half). rewrite lam2. nra. }
    destruct (power_small (1 - 2 * H) (d / B) ltac:(lra)) as (l0 & l1 & Hl0); [apply Rdiv_lt_0_compat; lra|]. exists l0, 2.
    intros W P sh N L sigma z0e z0w drawn_w drawn_e X RUN HL0 HB64 Hs r a l b Hr Hl Hal Hb [_ Q]. apply cumul_is_mrw in RUN; [|lra]. assert (V0 := POS _ _ _ _ _ _ _ _ _ _ _ RUN Hs r b Hr Hb).
    assert (U := C121_antipersistent W P sh N H lam L sigma z0e z0w drawn_w drawn_e X ltac:(lra) HL0 RUN r a l b Hr Hal Hb). destruct RUN as (_ & HN & _ & [HL _] & _).
    set (V := inc_moment P X 2 r b) in *. assert (CS := corr_small lam L N HL ltac:(lia) HB64). apply Ropp_le_contravar in CS. apply exp_le in CS.
    set (d' := exp (- (4 * corr lam L N)) - Rpower 2 (- lam ^ 2)) in *. assert (dd : d <= d') by (unfold d, d'; lra). specialize (U ltac:(lra)).
    assert (Hx : INR l0 <= INR l) by (now apply le_INR). assert (Pl : 1 <= INR l) by (assert (Z := le_INR 1 l0 l1); cbn [INR] in Z; lra). specialize (Hl0 _ Hx). rewrite EX in Q. set (G := Rpower (INR l) (2 * H)) in *. assert (G0 : 0 < G) by apply exp_pos.
    assert (Gl : INR l * Rpower (INR l) (- (1 - 2 * H)) = G). { rewrite <- (Rpower_1 (INR l)) at 1 by lra. unfold G. rewrite <- Rpower_plus. f_equal. ring. }
    set (p := Rpower (INR l) (- (1 - 2 * H))) in *. assert (p0 : 0 < p) by apply exp_pos.
    assert (F : B * G * V < V * d' * INR l).
    { apply Rlt_le_trans with (V * d * INR l); [|apply Rmult_le_compat_r; [lra|apply Rmult_le_compat_l; lra]]. rewrite <- Gl. replace (B * (INR l * p) * V) with (V * (B * p) * INR l) by ring. apply Rmult_lt_compat_r; [lra|]. apply Rmult_lt_compat_l; [trivial|].
      apply Rmult_lt_reg_r with (/ B); [now apply Rinv_0_lt_compat|]. replace (B * p * / B) with p by (field; lra). exact Hl0. }
    apply (Rlt_not_le _ _ F). eapply Rle_trans; [exact U|exact Q].
Qed.
