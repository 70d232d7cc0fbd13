(** * C122, continued: Haar coefficients, averages over a scale *)
From Coq Require Import Reals List ZArith Bool Lra Lia String.
From Verif Require Import XReal PyBase ModelUtils ModelMRQ ModelStructure ModelWavelet ModelSimul Spec SpecMRQ SpecSimul LXReal LUtils LBase LFilter LTransform LPattern LWave LPoly LCone LWaveEst LDft LSimul LEst LNoise
  PropsWavelet PropsMissing PropsWhite PropsWhitePower PropsWhiteCase PropsMrwStat PropsMrwScale PropsMrwScale4 PropsMrwHaar.
Import ListNotations.
Open Scope R_scope.
Local Notation length := List.length.
Local Notation entry := SpecMRQ.entry.

(** ** A Haar coefficient as a sum of weighted increments *)
Lemma haar_low_sum x j : forall k, okpos (length x) 2 j k -> low (dec_lo haar1) x j k = (/ sqrt 2) ^ j * sumn (2 ^ j) (fun i => nth (2 ^ j * k + i) x 0).
Proof.
  induction j as [|j IH]; intros k Hk.
  - cbn [okpos pow Nat.pow] in *. unfold low. cbn [approx_at]. unfold fin. rewrite (nth_map_lt _ _ _ 0) by trivial. rewrite sumn_S, sumn_0. cbn [number]. replace (1 * k + 0)%nat with k by lia. ring.
  - rewrite low_S by (cbn [haar1 dec_lo length]; trivial; lia). cbn [haar1 dec_lo length]. rewrite !sumn_S, sumn_0. cbn [nth]. change ((2 - 1) / 2)%nat with 0%nat.
    assert (O := fun m Hm => okpos_step (length x) 2 j k m ltac:(lia) Hk Hm). change ((2 - 1) / 2)%nat with 0%nat in O.
    rewrite !IH by (apply O; lia). replace (2 * k + 1 + 0 - 0)%nat with (2 * k + 1)%nat by lia. replace (2 * k + 1 + 0 - 1)%nat with (2 * k)%nat by lia.
    replace (2 ^ S j)%nat with (2 ^ j + 2 ^ j)%nat by (cbn [Nat.pow]; lia). rewrite sumn_app.
    rewrite (sumn_ext (2 ^ j) (fun i => nth ((2 ^ j + 2 ^ j) * k + i) x 0) (fun i => nth (2 ^ j * (2 * k) + i) x 0)) by (intros i _; f_equal; lia).
    rewrite (sumn_ext (2 ^ j) (fun i => nth ((2 ^ j + 2 ^ j) * k + (2 ^ j + i)) x 0) (fun i => nth (2 ^ j * (2 * k + 1) + i) x 0)) by (intros i _; f_equal; lia). cbn [pow]. ring.
Qed.
(** number of i < h with i <= t < i + h *)
Definition tri (h t : nat) : R := sumn h (fun i => if (i <=? t)%nat && (t <? i + h)%nat then 1 else 0).
Lemma window h i (f : nat -> R) : (i < h)%nat -> sumn h (fun m => f (i + m)%nat) = sumn (2 * h) (fun t => if (i <=? t)%nat && (t <? i + h)%nat then f t else 0).
Proof.
  intros Hi. replace (2 * h)%nat with (i + (h + (h - i)))%nat by lia. rewrite !sumn_app.
  rewrite (sumn_zero i) by (intros t Ht; destruct (Nat.leb_spec i t); [lia|reflexivity]).
  rewrite (sumn_zero (h - i)) by (intros t Ht; destruct (Nat.ltb_spec (i + (h + t)) (i + h)); [lia|now rewrite andb_false_r]).
  rewrite Rplus_0_l, Rplus_0_r. apply sumn_ext. intros m Hm. destruct (Nat.leb_spec i (i + m)); [|lia]. destruct (Nat.ltb_spec (i + m) (i + h)); [reflexivity|lia].
Qed.
Lemma tri_sum h (f : nat -> R) : sumn h (fun i => sumn h (fun m => f (i + m)%nat)) = sumn (2 * h) (fun t => tri h t * f t).
Proof.
  rewrite (sumn_ext h _ (fun i => sumn (2 * h) (fun t => if (i <=? t)%nat && (t <? i + h)%nat then f t else 0))) by (intros; now apply window).
  rewrite sumn_swap. apply sumn_ext. intros t _. unfold tri. rewrite <- sumn_scal_r. apply sumn_ext. intros i _. destruct (_ && _); ring.
Qed.
Lemma tri_range h t : 0 <= tri h t <= INR h.
Proof.
  unfold tri. split; [apply sumn_nonneg; intros; destruct (_ && _); lra|]. rewrite <- (Rmult_1_r (INR h)), <- sumn_const. apply sumn_le. intros; destruct (_ && _); lra.
Qed.
Lemma tri_total h : sumn (2 * h) (tri h) = INR h * INR h.
Proof. rewrite (sumn_ext _ (tri h) (fun t => tri h t * 1)) by (intros; ring). rewrite <- (tri_sum h (fun _ => 1)). rewrite !sumn_const. ring. Qed.
Lemma tri_squares h : INR h ^ 3 / 2 <= sumn (2 * h) (fun t => tri h t ^ 2) <= INR h ^ 3.
Proof.
  assert (T := tri_total h). split.
  - assert (Q : 0 <= sumn (2 * h) (fun t => (tri h t - INR h / 2) ^ 2)) by (apply sumn_nonneg; intros; apply pow2_ge_0).
    rewrite (sumn_ext _ _ (fun t => tri h t ^ 2 + (- INR h * tri h t + (INR h / 2) ^ 2))) in Q by (intros; field). rewrite !sumn_plus, sumn_scal, sumn_const, T, mult_INR in Q. change (INR 2) with 2 in Q. simpl pow in *. lra.
  - replace (INR h ^ 3) with (sumn (2 * h) (fun t => INR h * tri h t)) by (rewrite sumn_scal, T; ring). apply sumn_le. intros t _. destruct (tri_range h t). simpl pow. rewrite Rmult_1_r. now apply Rmult_le_compat_r.
Qed.
Lemma haar_sum x h a : sumn h (fun i => nth (a + h + i) x 0) - sumn h (fun i => nth (a + i) x 0) = wsum (tri h) x a (2 * h).
Proof.
  unfold wsum. rewrite <- (tri_sum h (fun t => increment x (S (a + t)))). rewrite <- sumn_minus. apply sumn_ext. intros i Hi.
  rewrite (sumn_ext h _ (fun m => increment x (S (a + i + m)))) by (intros; do 2 f_equal; lia). rewrite <- disp_sum. unfold displacement. do 2 f_equal. lia.
Qed.
Lemma sqrt2_pow j : ((/ sqrt 2) ^ j) ^ 2 = / 2 ^ j.
Proof. rewrite <- pow_mult, Nat.mul_comm, pow_mult. replace ((/ sqrt 2) ^ 2) with (/ 2) by (rewrite <- half; ring). now rewrite pow_inv. Qed.
Section Coef.
Context {W : Type}.
Variables (X : W -> list (list R)) (n nrep : nat) (p : pexp) (j1 : Z) (j2 : option R) (gam norm : R) (weighted : bool) (T : W -> wtransform) (ws : W -> list warning).
Hypothesis HS : forall o, length (X o) = nrep /\ Forall (fun s => length s = n) (X o).
Hypothesis Hn : norm <> 0.
Hypothesis Hp : p_ok p.
Hypothesis HT : forall o, wavelet_analysis (map fin (X o)) p haar1 j1 j2 gam norm weighted = Ok (T o, ws o).
Lemma haar_value j r k : (1 <= j)%nat -> (forall o, In (Z.of_nat j) (scales (wt_coefs (T o)))) -> (r < nrep)%nat -> inner n 2 j k -> (2 ^ j * k + 2 ^ j < n)%nat /\
  forall o, number (entry (wt_coefs (T o)) (Z.of_nat j) r k) = factor norm gam j * (/ sqrt 2) ^ j * wsum (tri (2 ^ (j - 1))) (nth r (X o) []) (2 ^ j * k) (2 ^ j).
Proof.
  intros Hj HI Hr IN. assert (V := coef_value X n nrep haar1 p j1 j2 gam norm weighted T ws HS good_haar1 Hn Hp HT j r k Hj HI Hr IN).
  assert (E2 : (2 ^ j = 2 * 2 ^ (j - 1))%nat) by (replace j with (S (j - 1)) at 1 by lia; reflexivity). set (h := (2 ^ (j - 1))%nat) in *. assert (h1 : (1 <= h)%nat) by (apply Nat.neq_0_lt_0, Nat.pow_nonzero; lia).
  split.
  - destruct IN as [_ B]. fold h in B. assert (Q := Nat.mul_div_le n h ltac:(lia)). nia.
  - intros o. rewrite (V o). cbn [number]. rewrite Rmult_assoc. f_equal. unfold outr. cbn [haar1 dec_lo dec_hi length neg_hi map]. rewrite !sumn_S, sumn_0. cbn [nth]. change ((2 - 1) / 2)%nat with 0%nat. unfold lowr.
    assert (Ls : length (nth r (X o) []) = n) by (destruct (HS o) as [A B]; rewrite Forall_forall in B; apply B, nth_In; lia).
    assert (IN' : inner n 2 (S (j - 1)) k) by (replace (S (j - 1)) with j by lia; exact IN).
    assert (O := fun m Hm => okpos_step n 2 (j - 1) k m ltac:(lia) IN' Hm). change ((2 - 1) / 2)%nat with 0%nat in O.
    change [/ sqrt 2; / sqrt 2] with (dec_lo haar1). rewrite !haar_low_sum by (rewrite Ls; apply O; lia). fold h. replace (2 * k + 1 + 0 - 0)%nat with (2 * k + 1)%nat by lia. replace (2 * k + 1 + 0 - 1)%nat with (2 * k)%nat by lia.
    rewrite E2. rewrite <- haar_sum. replace j with (S (j - 1)) at 3 by lia. cbn [pow].
    rewrite (sumn_ext h (fun i => nth (2 * h * k + h + i) (nth r (X o) []) 0) (fun i => nth (h * (2 * k + 1) + i) (nth r (X o) []) 0)) by (intros i _; f_equal; lia).
    rewrite (sumn_ext h (fun i => nth (2 * h * k + i) (nth r (X o) []) 0) (fun i => nth (h * (2 * k) + i) (nth r (X o) []) 0)) by (intros i _; f_equal; lia). ring.
Qed.
End Coef.

(** ** Average over a scale of a function of the coefficients *)
Lemma reals_sum_map (F : R -> R) c : F 0 = 0 -> no_inf c -> Rsum (map F (reals c)) = sumn (length c) (fun k => F (number (nth k c NaN))).
Proof.
  intros F0. induction c as [|x c IH]; intros N; [reflexivity|]. inversion N; subst. cbn [length]. rewrite sumn_S_first.
  change (sumn (length c) (fun i => F (number (nth (S i) (x :: c) NaN)))) with (sumn (length c) (fun k => F (number (nth k c NaN)))). rewrite <- (IH H2).
  destruct H1 as [-> | [a ->]]; cbn [reals map nth number]; [rewrite F0; lra|]. change (Rsum (?a :: ?l)) with (a + Rsum l). ring.
Qed.
Section Average.
Context {W : Type} (P : expectation W).
Variables (X : W -> list (list R)) (n nrep : nat) (w : wavelet) (p : pexp) (j1 : Z) (j2 : option R) (gam norm : R) (weighted : bool) (T : W -> wtransform) (ws : W -> list warning).
Hypothesis HS : forall o, length (X o) = nrep /\ Forall (fun s => length s = n) (X o).
Hypothesis Hw : good_wavelet w.
Hypothesis Hn : norm <> 0.
Hypothesis Hp : p_ok p.
Hypothesis HT : forall o, wavelet_analysis (map fin (X o)) p w j1 j2 gam norm weighted = Ok (T o, ws o).
Lemma average_between (F : R -> R) j r lo hi : F 0 = 0 -> (1 <= j)%nat -> (forall o, In (Z.of_nat j) (scales (wt_coefs (T o)))) -> (r < nrep)%nat -> (1 <= inner_count n (length (dec_hi w)) j)%nat ->
  (forall k, inner n (length (dec_hi w)) j k ->
     integrable P (fun o => F (number (entry (wt_coefs (T o)) (Z.of_nat j) r k))) /\ lo <= E P (fun o => F (number (entry (wt_coefs (T o)) (Z.of_nat j) r k))) <= hi) ->
  integrable P (fun o => mean (map F (numbers (wt_coefs (T o)) (Z.of_nat j) r))) /\ lo <= E P (fun o => mean (map F (numbers (wt_coefs (T o)) (Z.of_nat j) r))) <= hi.
Proof.
  intros F0 Hj HI Hr HC H. set (L := length (dec_hi w)) in *. set (e := fun k o => F (number (entry (wt_coefs (T o)) (Z.of_nat j) r k))) in *.
  assert (V : forall o, / INR (inner_count n L j) * sumn (n / 2 ^ j) (fun k => e k o) = mean (map F (numbers (wt_coefs (T o)) (Z.of_nat j) r))).
  { intros o. destruct (column_facts X n nrep w p j1 j2 gam norm weighted T ws HS Hw Hn Hp HT j r o Hj (HI o) Hr) as (A1 & A2 & A3 & A4). unfold mean, numbers. rewrite map_length, A3, reals_sum_map, A2 by trivial.
    unfold Rdiv. rewrite Rmult_comm. f_equal. apply sumn_ext. intros k Hk. unfold e, SpecMRQ.entry, column. destruct (dict_get _ _); [reflexivity|]. now destruct k. }
  assert (Z : forall k, integrable P (e k) /\ (if innerb n L j k then lo else 0) <= E P (e k) <= (if innerb n L j k then hi else 0)).
  { intros k. unfold innerb. destruct (inner_dec n L j k) as [IN|IN]; [now apply H|].
    assert (G : forall o : W, 0 = e k o).
    { intros o. destruct (column_facts X n nrep w p j1 j2 gam norm weighted T ws HS Hw Hn Hp HT j r o Hj (HI o) Hr) as (_ & _ & _ & A4). specialize (A4 k IN). unfold e, SpecMRQ.entry. unfold column in A4. destruct (dict_get _ _); [|cbn; now rewrite F0]. rewrite A4. cbn. now rewrite F0. }
    split; [exact (int_ext W P _ _ G (int_zero P))|]. assert (Q := E_ext W P _ _ G). rewrite (E_zero P) in Q. cbv beta in Q. change (0 <= E P (e k) <= 0). change (0 = E P (e k)) in Q. lra. }
  destruct (int_sumn P (n / 2 ^ j) e (fun k _ => proj1 (Z k))) as [IS ES].
  split; [exact (int_ext W P _ _ V (int_scal W P (/ INR (inner_count n L j)) _ IS))|]. rewrite <- (E_ext W P _ _ V), (E_scal W P (/ INR (inner_count n L j)) _ IS), ES.
  assert (C0 : 0 < INR (inner_count n L j)) by (apply lt_0_INR; lia).
  assert (A : forall v, v = / INR (inner_count n L j) * sumn (n / 2 ^ j) (fun k => if innerb n L j k then v else 0)).
  { intros v. rewrite sumn_indicator, inner_total by (trivial; destruct Hw; unfold L; lia). field. lra. }
  split; [rewrite (A lo)|rewrite (A hi)]; apply Rmult_le_compat_l; try (left; now apply Rinv_0_lt_compat); apply sumn_le; intros k _; apply Z.
Qed.
End Average.
Lemma abs_moment_4 l : abs_moment 4 l = mean (map (fun x => x ^ 4) l).
Proof.
  unfold abs_moment. f_equal. apply map_ext. intros a. unfold qpow, abs_pow. destruct (Req_EM_T 4 0); [lra|]. destruct (Req_EM_T a 0) as [->|ne]; [ring|].
  assert (X := Rabs_pos_lt a ne). replace (4 * ln (Rabs a)) with (ln (Rabs a) + ln (Rabs a) + ln (Rabs a) + ln (Rabs a)) by ring. rewrite !exp_plus, exp_ln by trivial.
  unfold Rabs. destruct (Rcase_abs a); ring.
Qed.
