(** * Transforms of a rescaled signal *)
From Coq Require Import Reals List ZArith Bool Lra Lia.
From Verif Require Import XReal PyBase ModelUtils ModelMRQ ModelStructure ModelWavelet Spec SpecMRQ LXReal LUtils LBase LFilter LTransform LPattern LWave LEst LScale.
Import ListNotations.
Open Scope R_scope.

Lemma scl_nth k c i : nth i (scl k c) NaN = xmul (Fin k) (nth i c NaN).
Proof. change NaN with (xmul (Fin k) NaN) at 1. unfold scl. apply map_nth. Qed.
Lemma scl_length k c : length (scl k c) = length c.
Proof. apply map_length. Qed.
Lemma scl_scl a b c : scl a (scl b c) = scl (a * b) c.
Proof. unfold scl. rewrite map_map. apply map_ext. intros. apply xmul_Fin_assoc. Qed.
Lemma scl_fin al s : scl al (fin s) = fin (map (Rmult al) s).
Proof. unfold scl, fin. rewrite !map_map. reflexivity. Qed.

Lemma fstep_scl h al a : fstep h (scl al a) = scl al (fstep h a).
Proof.
  unfold fstep. rewrite scl_length. symmetry. unfold scl at 1. rewrite map_map. symmetry. apply map_ext. intros k.
  destruct (kept _ _ _); [|reflexivity]. unfold csum. rewrite <- xsum_scale, map_map by auto. f_equal.
  apply map_ext. intros m. rewrite scl_nth, !xmul_Fin_assoc. f_equal. f_equal. ring.
Qed.
Lemma approx_scl lo j al a : approx_at lo j (scl al a) = scl al (approx_at lo j a).
Proof. induction j; cbn [approx_at]; trivial. rewrite IHj. apply fstep_scl. Qed.
Lemma detail_scl hi lo j al a : detail hi lo j (scl al a) = scl al (detail hi lo j a).
Proof. unfold detail. rewrite approx_scl. apply fstep_scl. Qed.
Lemma coef_scl hi lo norm gam j al a : coef hi lo norm gam j (scl al a) = scl al (coef hi lo norm gam j a).
Proof.
  unfold coef. rewrite detail_scl, !rescale_eq. unfold scl. rewrite !map_map. apply map_ext. intros.
  rewrite !xmul_Fin_assoc. f_equal. f_equal. ring.
Qed.

Lemma fixednansum_scl k l : k <> 0 -> fixednansum (scl k l) = xmul (Fin k) (fixednansum l).
Proof.
  intros K. unfold fixednansum. replace (forallb isnan (scl k l)) with (forallb isnan l).
  - destruct (forallb isnan l); [reflexivity|]. now apply nansum_scl.
  - unfold scl. induction l as [|x l IH]; [reflexivity|]. cbn [map forallb]. now rewrite IH, xmul_isnan.
Qed.
Lemma reduce3_scl f k l : 0 < k -> reduce3 f (scl k l) = xmul (Fin k) (reduce3 f l).
Proof.
  intros K. assert (k <> 0) by lra. destruct f; cbn [reduce3]; unfold fixednanmax;
  try (now apply nanmax_scale); now apply fixednansum_scl.
Qed.

(** the factor applied before the reductions *)
Definition prefac (f : formalism) (p : pexp) (k : R) : R :=
  match f, p with WaveletPLeader, PNum e => Rpower k (num_val e) | _, _ => k end.
Lemma prefac_pos f p k : 0 < k -> 0 < prefac f p k.
Proof. intros. unfold prefac. destruct f, p; trivial. apply Rpower_pos. Qed.
Lemma pre_scl f p j al c : al <> 0 -> no_inf c -> pre f p j (scl al c) = scl (prefac f p (Rabs al)) (pre f p j c).
Proof.
  intros Ha N.
  assert (E : map xabs (scl al c) = scl (Rabs al) (map xabs c)).
  { unfold scl. rewrite !map_map. apply map_ext. intros. now apply xabs_scale. }
  unfold pre, prefac. destruct f, p; trivial.
  rewrite abs_power_scale by trivial. unfold scl. rewrite !map_map. apply map_ext. intros.
  rewrite !xmul_Fin_assoc. f_equal. f_equal. ring.
Qed.
Section Lead.
Variables (f : formalism) (p : pexp) (d d' : nat -> col) (al : R).
Hypothesis Ha : al <> 0.
Hypothesis Hd : forall i, no_inf (d i).
Hypothesis Hd' : forall i, d' i = scl al (d i).
Hypothesis Hp : pos_pexp p.
Let k := prefac f p (Rabs al).
Lemma k_pos : 0 < k. Proof. apply prefac_pos. now apply Rabs_pos_lt. Qed.
Lemma sv_scl j : sv f p d' j = scl k (sv f p d j).
Proof.
  induction j as [|j IH]; [reflexivity|]. destruct j as [|j].
  - cbn [sv]. rewrite Hd'. now apply pre_scl.
  - cbn [sv] in *. rewrite IH, scl_length. symmetry. unfold scl at 1. rewrite map_map. symmetry. apply map_ext. intros i.
    rewrite Hd', pre_scl by trivial. fold k. rewrite !scl_nth.
    exact (reduce3_scl f k [_; _; _] k_pos).
Qed.
Lemma raw_lead_scl j : raw_lead f p d' j = scl k (raw_lead f p d j).
Proof.
  unfold raw_lead. rewrite sv_scl, scl_length. symmetry. unfold scl at 1. rewrite map_map. symmetry. apply map_ext. intros i.
  rewrite !scl_nth. exact (reduce3_scl f k [_; _; _] k_pos).
Qed.
Lemma lead_scl j : lead f p d' j = scl (Rabs al) (lead f p d j).
Proof.
  unfold lead. rewrite raw_lead_scl. assert (N := raw_lead_nonneg f p d j Hp Hd).
  assert (KP := k_pos). assert (AP := Rabs_pos_lt al Ha).
  unfold post, k, prefac in *. destruct f, p; trivial. simpl in Hp.
  unfold scl. rewrite !fast_power_map, !map_map. apply map_ext_in. intros x Hx.
  unfold nonneg in N. rewrite Forall_forall in N. destruct (N x Hx) as [->|(a & -> & Hpa)].
  - cbn [xmul]. rewrite fp1_NaN. reflexivity.
  - cbn [xmul]. set (b := Rpower 2 (- INR j) * a). assert (P2 := Rpower_pos 2 (- INR j)).
    assert (Hb : 0 <= b) by (apply Rmult_le_pos; lra).
    replace (Rpower 2 (- INR j) * (Rpower (Rabs al) (num_val p0) * a)) with (Rpower (Rabs al) (num_val p0) * b) by (unfold b; ring).
    rewrite <- (Rabs_right (Rpower (Rabs al) (num_val p0) * b)).
    2:{ apply Rle_ge, Rmult_le_pos; lra. }
    rewrite fp1_scale by (apply Rgt_not_eq; trivial). rewrite (Rabs_right b) by lra.
    rewrite Rabs_right by lra. rewrite Rpower_mult. cbn [num_val].
    replace (num_val p0 * (1 / num_val p0)) with 1 by (field; lra). rewrite Rpower_1 by trivial. reflexivity.
Qed.
End Lead.
Lemma count_valid_scl k c : k <> 0 -> count_valid (scl k c) = count_valid c.
Proof. intros. apply valid_map_notnan. intros. now apply xmul_isnan. Qed.
