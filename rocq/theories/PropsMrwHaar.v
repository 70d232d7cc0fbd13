(** * C122: Haar wavelet coefficients of the multifractal random walk *)
From Coq Require Import Reals List ZArith Bool Lra Lia String.
From Verif Require Import XReal PyBase ModelSimul Spec SpecSimul LXReal LBase LDft LSimul LCirc LFgn LFgnCov LNoise LMrw LBivariate PropsSimul PropsMrw LWick PropsFluct PropsMrwStat PropsMrwScale PropsMrwScale4.
Import ListNotations.
Open Scope R_scope.
Local Notation length := List.length.
Local Notation lag := (fun k k' : nat => (Nat.max k k' - Nat.min k k')%nat).

(** ** Weighted sums of increments, H = 1/2 *)
Definition wsum (wt : nat -> R) (x : list R) (a l : nat) : R := sumn l (fun i => wt i * increment x (S (a + i))).
Section Weighted.
Context {W : Type} (P : expectation W) (sh : shape_arg) (N : nat) (lam L sigma : R) (z0e z0w : W -> option noise) (drawn_w drawn_e : W -> noise) (X : W -> list (list R)).
Hypothesis HR : mrw_run P sh N (1 / 2) lam L sigma z0e z0w drawn_w drawn_e X.
Let g := demeaned N (log_vol_cov lam L).
Lemma wsum2 wt r a l : (r < shape_R sh)%nat -> (a + l < N)%nat ->
  integrable P (fun w => wsum wt (nth r (X w) []) a l ^ 2) /\
  E P (fun w => wsum wt (nth r (X w) []) a l ^ 2) = nominal (1 / 2) sigma N * sumn l (fun i => wt i ^ 2 * exp (2 * g (S (a + i)) (S (a + i)) - lam ^ 2 * ln L)).
Proof.
  intros Hr Hl. destruct HR as (EN & HN & HH & [HL1 HLN] & HG & HX). assert (HL : 0 < L) by lra.
  destruct (second_moment_sum P (fun i w => wt i * increment (nth r (X w) []) (S (a + i))) (fun i k => dl i k * (wt i * wt k * (nominal (1 / 2) sigma N * exp (2 * g (S (a + i)) (S (a + i)) - lam ^ 2 * ln L)))) l) as [I V].
  { intros i k Hi Hk.
    destruct (sim_facts P sh N (1 / 2) lam L sigma z0e z0w drawn_w drawn_e X EN HN HH HL HLN HG HX r r (S (a + i)) (S (a + k)) Hr Hr ltac:(lia) ltac:(lia)) as (_ & (J & VJ) & _).
    destruct (Nat.eq_dec r r) as [_|n]; [|now elim n]. rewrite fgn_half in VJ by trivial.
    assert (G : forall w, wt i * wt k * (increment (nth r (X w) []) (S (a + i)) * increment (nth r (X w) []) (S (a + k))) = wt i * increment (nth r (X w) []) (S (a + i)) * (wt k * increment (nth r (X w) []) (S (a + k)))) by (intros; ring).
    split; [exact (int_ext W P _ _ G (int_scal W P (wt i * wt k) _ J))|]. rewrite <- (E_ext W P _ _ G), (E_scal W P (wt i * wt k) _ J), VJ. unfold dl.
    destruct (Nat.eq_dec i k) as [<-|ne]; destruct (Nat.eq_dec (S (a + i)) (S (a + _))); try lia; [|ring]. fold g. rewrite !Rmult_1_l, Rmult_1_r. do 3 f_equal. field. }
  split; [exact I|]. unfold wsum. rewrite V. unfold pairs. rewrite <- sumn_scal. apply sumn_ext. intros i Hi. rewrite (delta_sum l i (fun k => wt i * wt k * (nominal (1 / 2) sigma N * exp (2 * g (S (a + i)) (S (a + i)) - lam ^ 2 * ln L)))) by trivial. ring.
Qed.
Lemma wsum4 wt r a l : (r < shape_R sh)%nat -> (a + l < N)%nat ->
  integrable P (fun w => wsum wt (nth r (X w) []) a l ^ 4) /\
  E P (fun w => wsum wt (nth r (X w) []) a l ^ 4) = nominal (1 / 2) sigma N ^ 2 * (3 * pairs l (fun i k => wt i ^ 2 * wt k ^ 2 * exp (2 * g (S (a + i)) (S (a + i)) + 2 * g (S (a + k)) (S (a + k)) + 4 * g (S (a + i)) (S (a + k)) - 2 * (lam ^ 2 * ln L)))).
Proof.
  intros Hr Hl. destruct HR as (EN & HN & HH & [HL1 HLN] & HG & HX).
  destruct (decomposition P sh N (1 / 2) lam L sigma z0e z0w drawn_w drawn_e X EN HN HH ltac:(lra) HLN HG HX r Hr) as (ee & u & Ce & Cu & Ve & Vu & Inc).
  set (K := exp (- (1 / 2 * lam ^ 2 * ln L))) in *. set (v2 := nominal (1 / 2) sigma N).
  set (s := fun i => S (a + i)). set (M := fun i j k m => wt i * wt j * wt k * wt m * E P (fun w => exp (u (s i) w + u (s j) w + u (s k) w + u (s m) w))).
  assert (Cw : forall i j k m, (i < l)%nat -> (j < l)%nat -> (k < l)%nat -> (m < l)%nat -> combination (cidx (shape_R sh) (2 * N - 2)) (cvar (fun o => nz (pick (z0w o) (drawn_w o)))) (fun w => u (s i) w + u (s j) w + u (s k) w + u (s m) w)).
  { intros i j k m Hi Hj Hk Hm. apply (comb_plus _ _ (fun w => u (s i) w + u (s j) w + u (s k) w) (u (s m))); [|apply Cu; unfold s; lia]. apply (comb_plus _ _ (fun w => u (s i) w + u (s j) w) (u (s k))); [|apply Cu; unfold s; lia]. apply (comb_plus _ _ (u (s i)) (u (s j))); apply Cu; unfold s; lia. }
  destruct (fourth_moment_sum P (fun i w => wt i * increment (nth r (X w) []) (s i)) (fun i j k m => K ^ 4 * v2 ^ 2 * ((dl i j * dl k m + dl i k * dl j m + dl i m * dl j k) * M i j k m)) l) as [I V].
  { intros i j k m Hi Hj Hk Hm.
    destruct (joint_four P _ _ _ _ HG (ee (s i)) (ee (s j)) (ee (s k)) (ee (s m)) _ (Ce (s i) ltac:(unfold s; lia)) (Ce (s j) ltac:(unfold s; lia)) (Ce (s k) ltac:(unfold s; lia)) (Ce (s m) ltac:(unfold s; lia)) (Cw i j k m Hi Hj Hk Hm)) as [J VJ].
    set (c := wt i * wt j * wt k * wt m).
    assert (G : forall w, c * K ^ 4 * (ee (s i) w * ee (s j) w * ee (s k) w * ee (s m) w * exp (u (s i) w + u (s j) w + u (s k) w + u (s m) w)) = wt i * increment (nth r (X w) []) (s i) * (wt j * increment (nth r (X w) []) (s j)) * (wt k * increment (nth r (X w) []) (s k)) * (wt m * increment (nth r (X w) []) (s m))).
    { intros w. rewrite !Inc by (unfold s; lia). rewrite !exp_plus. unfold c. ring. }
    split; [exact (int_ext W P _ _ G (int_scal W P (c * K ^ 4) _ J))|]. rewrite <- (E_ext W P _ _ G), (E_scal W P (c * K ^ 4) _ J), VJ. rewrite !Ve by (unfold s; lia). rewrite !fgn_half by trivial. fold v2.
    assert (Ds : forall i j, dl (s i) (s j) = dl i j). { intros i0 j0. unfold dl, s. destruct (Nat.eq_dec (S (a + i0)) (S (a + j0))), (Nat.eq_dec i0 j0); trivial; lia. }
    rewrite !Ds. unfold M. fold c. ring. }
  split; [exact I|]. etransitivity; [exact V|]. clear V I.
  rewrite (sumn_ext l _ (fun i => K ^ 4 * v2 ^ 2 * sumn l (fun j => sumn l (fun k => sumn l (fun m => (dl i j * dl k m + dl i k * dl j m + dl i m * dl j k) * M i j k m))))).
  2:{ intros i _. rewrite <- sumn_scal. apply sumn_ext. intros j _. rewrite <- sumn_scal. apply sumn_ext. intros k _. rewrite <- sumn_scal. reflexivity. }
  rewrite sumn_scal. rewrite (paired_sum l M (fun i k => M i i k k)); [| | |reflexivity].
  2:{ intros i j k m. unfold M. f_equal; [ring|]. apply E_ext; intros; f_equal; ring. }
  2:{ intros i j k m. unfold M. f_equal; [ring|]. apply E_ext; intros; f_equal; ring. }
  rewrite (Rmult_comm (K ^ 4)), Rmult_assoc. f_equal. rewrite <- Rmult_assoc, (Rmult_comm (K ^ 4) 3), Rmult_assoc. f_equal. rewrite <- pairs_scal. apply pairs_ext. intros i k Hi Hk. unfold M.
  rewrite (exp_E P _ _ _ _ HG _ (Cw i i k k Hi Hi Hk Hk)). assert (Q := Vu (s i) (s k) 2 ltac:(unfold s; lia) ltac:(unfold s; lia)).
  rewrite (E_ext W P _ (fun w => (2 * (u (s i) w + u (s k) w)) ^ 2)) by (intros; f_equal; ring). rewrite Q. fold g. unfold K. rewrite pow_exp4. replace (wt i * wt i * wt k * wt k) with (wt i ^ 2 * wt k ^ 2) by ring.
  rewrite <- Rmult_assoc, (Rmult_comm (exp _)), Rmult_assoc, <- exp_plus. f_equal. f_equal. unfold s. field.
Qed.
End Weighted.

(** ** Bounds, relative to an increment *)
Section Bounds.
Context {W : Type} (P : expectation W) (sh : shape_arg) (N : nat) (lam L sigma : R) (z0e z0w : W -> option noise) (drawn_w drawn_e : W -> noise) (X : W -> list (list R)).
Hypothesis HR : mrw_run P sh N (1 / 2) lam L sigma z0e z0w drawn_w drawn_e X.
Let g := demeaned N (log_vol_cov lam L).
Let y := lam ^ 2 * ln L.
Let cc := corr lam L N.
Lemma g_near i k : (i < N)%nat -> (k < N)%nat -> volL lam L (lag i k) - cc <= g i k <= volL lam L (lag i k) + cc.
Proof.
  intros Hi Hk. destruct HR as (EN & HN & HH & [HL1 HLN] & HG & HX). assert (Q := demeaned_close lam L N i k HL1 ltac:(lia) Hi Hk). rewrite volL_eq in Q. fold g (corr lam L N) in Q. apply abs_between in Q. unfold cc. lra.
Qed.
Lemma g_diag i : (i < N)%nat -> y - cc <= g i i <= y + cc.
Proof.
  intros Hi. assert (Q := g_near i i Hi Hi). destruct HR as (EN & HN & HH & [HL1 HLN] & HG & HX). cbv beta in Q. rewrite Nat.max_id, Nat.min_id, Nat.sub_diag, volL_0 in Q by trivial. exact Q.
Qed.
Lemma inc2_eq r b : (r < shape_R sh)%nat -> (b < N)%nat -> inc_moment P X 2 r b = nominal (1 / 2) sigma N * exp (2 * g b b - y).
Proof.
  intros Hr Hb. destruct HR as (EN & HN & HH & [HL1 HLN] & HG & HX).
  unfold inc_moment. rewrite (proj2 (sim_var P sh N (1 / 2) lam L sigma z0e z0w drawn_w drawn_e X EN HN HH ltac:(lra) HLN HG HX r b Hr Hb)). reflexivity.
Qed.
Lemma wsum2_bounds wt r a l b : (r < shape_R sh)%nat -> (a + l < N)%nat -> (b < N)%nat ->
  let V := inc_moment P X 2 r b in let Q := sumn l (fun i => wt i ^ 2) in let e := exp (4 * cc) in
  V * Q / e <= E P (fun w => wsum wt (nth r (X w) []) a l ^ 2) <= V * Q * e.
Proof.
  intros Hr Hl Hb V Q e. rewrite (proj2 (wsum2 P sh N lam L sigma z0e z0w drawn_w drawn_e X HR wt r a l Hr Hl)). fold g y. unfold V. rewrite inc2_eq by trivial.
  assert (n0 := nominal_nonneg (1 / 2) sigma N). set (v := nominal (1 / 2) sigma N) in *. assert (D := g_diag b Hb).
  assert (Q1 : exp (2 * g b b - y) * Q / e = sumn l (fun i => wt i ^ 2 * exp (2 * g b b - y - 4 * cc))).
  { unfold Q, Rdiv, e. rewrite <- exp_Ropp, Rmult_comm, <- Rmult_assoc, <- exp_plus, <- sumn_scal. apply sumn_ext. intros i _. rewrite Rmult_comm. f_equal. f_equal. ring. }
  assert (Q2 : exp (2 * g b b - y) * Q * e = sumn l (fun i => wt i ^ 2 * exp (2 * g b b - y + 4 * cc))).
  { unfold Q, e. rewrite Rmult_comm, <- Rmult_assoc, <- exp_plus, <- sumn_scal. apply sumn_ext. intros i _. rewrite Rmult_comm. f_equal. f_equal. ring. }
  split.
  - replace (v * exp (2 * g b b - y) * Q / e) with (v * (exp (2 * g b b - y) * Q / e)) by (unfold Rdiv; ring). rewrite Q1. apply Rmult_le_compat_l; [trivial|]. apply sumn_le. intros i Hi. apply Rmult_le_compat_l; [apply pow2_ge_0|]. apply exp_le. assert (D' := g_diag (S (a + i)) ltac:(lia)). lra.
  - rewrite 2 Rmult_assoc, <- (Rmult_assoc (exp _)). rewrite Q2. apply Rmult_le_compat_l; [trivial|]. apply sumn_le. intros i Hi. apply Rmult_le_compat_l; [apply pow2_ge_0|]. apply exp_le. assert (D' := g_diag (S (a + i)) ltac:(lia)). lra.
Qed.
Lemma volL_near d : INR d + 1 <= L -> 4 * volL lam L d = 4 * y - 4 * lam ^ 2 * ln (INR d + 1).
Proof.
  intros Hd. assert (Pd := pos_INR d). assert (U := volL_far lam L d d Hd (le_n d)). assert (Lw : lam ^ 2 * (ln L - ln (INR d + 1)) <= volL lam L d).
  { unfold volL. apply Rmult_le_compat_l; [apply pow2_ge_0|]. assert (i1 : 0 < / (INR d + 1)) by (apply Rinv_0_lt_compat; lra). replace (ln L - ln (INR d + 1)) with (ln (L / (INR d + 1))) by (unfold Rdiv; rewrite ln_mult, ln_Rinv by lra; ring). apply log_plus_ge. unfold Rdiv. apply Rmult_lt_0_compat; lra. }
  unfold y. lra.
Qed.
Lemma wsum4_bounds wt B r a l b : 4 * lam ^ 2 < 1 -> (r < shape_R sh)%nat -> (1 <= l)%nat -> INR l <= L -> (a + l < N)%nat -> (b < N)%nat -> (forall i, (i < l)%nat -> wt i ^ 2 <= B) ->
  let V := inc_moment P X 4 r b in let Q := sumn l (fun i => wt i ^ 2) in let s := 4 * lam ^ 2 in let e := exp (16 * cc) in
  V * (Q ^ 2 * Rpower (INR l) (- s)) / e <= E P (fun w => wsum wt (nth r (X w) []) a l ^ 4) <= V * (Q * B * (2 / (1 - s)) * Rpower (INR l) (1 - s)) * e.
Proof.
  intros Hlam Hr Hl HlL Hal Hb HB V Q s e. rewrite (proj2 (wsum4 P sh N lam L sigma z0e z0w drawn_w drawn_e X HR wt r a l Hr Hal)). fold g y.
  assert (EV : V = nominal (1 / 2) sigma N ^ 2 * (3 * exp (8 * g b b - 2 * y))) by exact (inc4 P sh N lam L sigma z0e z0w drawn_w drawn_e X HR r b Hr Hb). rewrite EV.
  assert (s0 : 0 <= s) by (assert (Z := pow2_ge_0 lam); unfold s; lra). assert (v0 : 0 <= nominal (1 / 2) sigma N ^ 2) by apply pow2_ge_0. set (v := nominal (1 / 2) sigma N ^ 2) in *. assert (D := g_diag b Hb). assert (l0 : 0 < INR l) by (apply lt_0_INR; lia).
  set (f := fun d : nat => Rpower (INR d + 1) (- s)).
  assert (F : forall i k, (i < l)%nat -> (k < l)%nat -> exp (8 * g b b - 2 * y - 16 * cc) * f (lag i k) <= exp (2 * g (S (a + i)) (S (a + i)) + 2 * g (S (a + k)) (S (a + k)) + 4 * g (S (a + i)) (S (a + k)) - 2 * y) <= exp (8 * g b b - 2 * y + 16 * cc) * f (lag i k)).
  { intros i k Hi Hk. cbv beta. set (d := (Nat.max i k - Nat.min i k)%nat). assert (Hd : INR d + 1 <= INR l) by (rewrite <- S_INR; apply le_INR; unfold d; lia).
    assert (A1 := g_diag (S (a + i)) ltac:(lia)). assert (A2 := g_diag (S (a + k)) ltac:(lia)). assert (A3 := g_near (S (a + i)) (S (a + k)) ltac:(lia) ltac:(lia)). cbv beta in A3.
    replace (Nat.max (S (a + i)) (S (a + k)) - Nat.min (S (a + i)) (S (a + k)))%nat with d in A3 by (unfold d; lia). assert (A4 := volL_near d ltac:(lra)). fold s in A4.
    unfold f, Rpower. rewrite <- !exp_plus. split; apply exp_le; lra. }
  assert (W0 : forall i, 0 <= wt i ^ 2) by (intros; apply pow2_ge_0).
  split.
  - replace (v * (3 * exp (8 * g b b - 2 * y)) * (Q ^ 2 * Rpower (INR l) (- s)) / e) with (v * (3 * (exp (8 * g b b - 2 * y) * / e * Rpower (INR l) (- s) * Q ^ 2))) by (unfold Rdiv; ring).
    apply Rmult_le_compat_l; [trivial|]. apply Rmult_le_compat_l; [lra|]. unfold e. rewrite <- exp_Ropp, <- exp_plus.
    replace (Q ^ 2) with (pairs l (fun i k => wt i ^ 2 * wt k ^ 2)).
    2:{ unfold pairs, Q. rewrite (sumn_ext l _ (fun i => wt i ^ 2 * sumn l (fun k => wt k ^ 2))) by (intros; apply sumn_scal). rewrite sumn_scal_r. ring. }
    rewrite <- pairs_scal. apply pairs_le. intros i k Hi Hk. rewrite Rmult_comm. apply Rmult_le_compat_l; [now apply Rmult_le_pos|]. eapply Rle_trans; [|apply F; trivial]. unfold Rminus at 2. apply Rmult_le_compat_l; [left; apply exp_pos|].
    cbv beta. set (d := (Nat.max i k - Nat.min i k)%nat). assert (Hd : INR d + 1 <= INR l) by (rewrite <- S_INR; apply le_INR; unfold d; lia). assert (Pd := pos_INR d). unfold f, Rpower. apply exp_le. assert (ln (INR d + 1) <= ln (INR l)) by (destruct Hd as [Hd| ->]; [left; apply ln_increasing; lra|right; reflexivity]). nra.
  - replace (v * (3 * exp (8 * g b b - 2 * y)) * (Q * B * (2 / (1 - s)) * Rpower (INR l) (1 - s)) * e) with (v * (3 * (exp (8 * g b b - 2 * y) * e * (Q * (B * (2 * (/ (1 - s) * Rpower (INR l) (1 - s)))))))) by (unfold Rdiv; ring).
    apply Rmult_le_compat_l; [trivial|]. apply Rmult_le_compat_l; [lra|]. unfold e. rewrite <- exp_plus. unfold pairs, Q. rewrite <- sumn_scal_r, <- sumn_scal. apply sumn_le. intros i Hi.
    set (x := exp (8 * g b b - 2 * y + 16 * cc)). assert (x0 : 0 < x) by apply exp_pos. assert (B0 : 0 <= B) by (eapply Rle_trans; [apply (W0 i)|now apply HB]).
    apply Rle_trans with (sumn l (fun k => x * wt i ^ 2 * B * f (lag i k))).
    + apply sumn_le. intros k Hk. destruct (F i k Hi Hk) as [_ F2]. fold x in F2. cbv beta in *. set (d := (Nat.max i k - Nat.min i k)%nat) in *. assert (0 < f d) by apply exp_pos.
      apply Rle_trans with (wt i ^ 2 * B * (x * f d)); [|right; ring]. apply Rmult_le_compat; [now apply Rmult_le_pos|left; apply exp_pos|apply Rmult_le_compat_l; [trivial|now apply HB]|exact F2].
    + rewrite sumn_scal. rewrite <- !Rmult_assoc, !(Rmult_assoc (x * wt i ^ 2 * B)). apply Rmult_le_compat_l; [apply Rmult_le_pos; [apply Rmult_le_pos; [lra|trivial]|trivial]|].
      eapply Rle_trans; [exact (sumn_two_sides f l i (fun d => Rlt_le _ _ (exp_pos _)) Hi)|]. rewrite Rmult_assoc. apply Rmult_le_compat_l; [lra|]. now apply power_sum.
Qed.
End Bounds.
