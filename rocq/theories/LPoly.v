(** * Polynomials and vanishing moments *)
From Coq Require Import Reals List ZArith Bool Lra Lia.
From Verif Require Import XReal PyBase ModelUtils ModelMRQ ModelWavelet Spec LXReal LUtils LBase LFilter LTransform LPattern LWave.
Import ListNotations.
Open Scope R_scope.

(** Spec.poly is in Horner form *)
Lemma poly_scal r c x : poly (map (Rmult r) c) x = r * poly c x.
Proof. induction c; simpl; [lra|]. rewrite IHc. lra. Qed.
Fixpoint padd (c d : list R) : list R :=
  match c, d with
  | [], _ => d
  | _, [] => c
  | a :: c', b :: d' => (a + b) :: padd c' d'
  end.
Lemma padd_poly c d x : poly (padd c d) x = poly c x + poly d x.
Proof. revert d. induction c; intros [|b d]; simpl; try lra. rewrite IHc. lra. Qed.
Lemma padd_length c d M : (length c <= M)%nat -> (length d <= M)%nat -> (length (padd c d) <= M)%nat.
Proof.
  revert d M. induction c; intros [|b d] [|M]; simpl; try lia. intros. apply le_n_S. apply IHc; lia.
Qed.
Lemma poly_affine c a b : exists c', length c' = length c /\ forall x, poly c' x = poly c (a * x + b).
Proof.
  induction c as [|r c (c' & L & E)]; [exists []; auto|].
  (* r + (a x + b) * c'(x) = r + b c' + x (a c') *)
  exists (padd (r :: map (Rmult a) c') (map (Rmult b) c')). split.
  - assert (H : forall u v, (length v <= length u)%nat -> length (padd u v) = length u).
    { clear. induction u; intros [|b v]; simpl; try lia. intros. f_equal. apply IHu. lia. }
    rewrite H; simpl; rewrite !map_length; lia.
  - intros x. rewrite padd_poly. cbn [poly fold_right].
    change (fold_right _ 0 (map (Rmult a) c')) with (poly (map (Rmult a) c') x).
    rewrite !poly_scal, E. unfold poly. simpl. lra.
Qed.
Lemma poly_sum {X} (l : list X) (w : X -> R) (P : X -> R -> R) M :
  (forall m, In m l -> exists c, (length c <= M)%nat /\ forall x, P m x = poly c x) ->
  exists c, (length c <= M)%nat /\ forall x, Rsum (map (fun m => w m * P m x) l) = poly c x.
Proof.
  induction l as [|m l IH]; intros H.
  - exists []. split; [simpl; lia|reflexivity].
  - destruct IH as (c & Lc & Ec); [intros; apply H; now right|].
    destruct (H m) as (d & Ld & Ed); [now left|].
    exists (padd (map (Rmult (w m)) d) c). split.
    + apply padd_length; trivial. now rewrite map_length.
    + intros x. simpl. rewrite padd_poly, poly_scal, Ec, Ed. lra.
Qed.

(** a filter with M vanishing moments kills polynomials of degree < M *)
Lemma vanish_poly h M c : vanishing_moments h M -> (length c <= M)%nat ->
  Rsum (map (fun m => nth m h 0 * poly c (INR m)) (seq 0 (length h))) = 0.
Proof.
  intros V Hc.
  assert (G : forall c i, (i + length c <= M)%nat ->
     Rsum (map (fun m => nth m h 0 * (INR m ^ i * poly c (INR m))) (seq 0 (length h))) = 0).
  { clear c Hc. induction c as [|a c IH]; intros i Hi.
    - apply Rsum_map_zero. intros. simpl. lra.
    - simpl in Hi.
      rewrite (Rsum_map_ext _ (fun m => a * (INR m ^ i * nth m h 0) + nth m h 0 * (INR m ^ S i * poly c (INR m)))).
      2:{ intros m _. simpl. unfold poly. simpl. lra. }
      rewrite Rsum_map_plus, Rsum_map_scal, IH by lia.
      assert (Vi : Rsum (map (fun m => INR m ^ i * nth m h 0) (seq 0 (length h))) = 0) by (apply V; lia).
      rewrite Vi. lra. }
  specialize (G c 0%nat). rewrite <- G at 1 by lia. apply Rsum_map_ext. intros. simpl. lra.
Qed.

(** a column is a polynomial on its non-NaN positions *)
Definition is_poly (c : list R) (a : col) : Prop :=
  forall i, nth i a NaN = NaN \/ nth i a NaN = Fin (poly c (INR i)).

Lemma poly_fin_case c n : is_poly c (fin (map (fun i => poly c (INR i)) (seq 0 n))).
Proof.
  intros i. destruct (Nat.lt_ge_cases i n).
  - right. unfold fin. rewrite map_map, (nth_map_lt _ _ _ 0%nat) by (now rewrite seq_length).
    now rewrite seq_nth.
  - left. apply nth_overflow. unfold fin. now rewrite !map_length, seq_length.
Qed.

Lemma fstep_poly_val h c a k : is_poly c a ->
  nth k (fstep h a) NaN = NaN \/
  ((length h - 1 <= 2 * k + 1)%nat /\
  nth k (fstep h a) NaN
  = Fin (Rsum (map (fun m => nth m h 0 * poly c (INR (2 * k + 1 + (length h - 1) / 2 - m))) (seq 0 (length h))))).
Proof.
  intros H. destruct (Nat.lt_ge_cases k (length a / 2)); [|left; now apply fstep_out].
  rewrite fstep_nth by trivial. destruct (kept _ _ _) eqn:K; [|now left].
  apply andb_prop in K as [K _]. apply Nat.leb_le in K.
  unfold csum. set (l := seq 0 (length h)).
  assert (G : xsum (map (fun m => xmul (Fin (nth m h 0)) (nth (2 * k + 1 + (length h - 1) / 2 - m) a NaN)) l) = NaN \/
     xsum (map (fun m => xmul (Fin (nth m h 0)) (nth (2 * k + 1 + (length h - 1) / 2 - m) a NaN)) l)
     = Fin (Rsum (map (fun m => nth m h 0 * poly c (INR (2 * k + 1 + (length h - 1) / 2 - m))) l))).
  { generalize l. clear l. induction l as [|m l IH]; [right; reflexivity|]. simpl.
    fold (xsum (map (fun m => xmul (Fin (nth m h 0)) (nth (2 * k + 1 + (length h - 1) / 2 - m) a NaN)) l)).
    destruct (H (2 * k + 1 + (length h - 1) / 2 - m)%nat) as [E|E]; simpl in E; rewrite E; [now left|].
    simpl in IH. destruct IH as [E'|E']; rewrite E'; simpl; auto. }
  destruct G; auto.
Qed.

Lemma fstep_poly h c a : is_poly c a -> exists c', (length c' <= length c)%nat /\ is_poly c' (fstep h a).
Proof.
  intros H.
  destruct (poly_sum (seq 0 (length h)) (fun m => nth m h 0)
              (fun m x => poly c (2 * x + (1 + INR ((length h - 1) / 2) - INR m))) (length c)) as (c' & Lc & Ec).
  { intros m _. destruct (poly_affine c 2 (1 + INR ((length h - 1) / 2) - INR m)) as (c' & L & E).
    exists c'. split; [lia|]. intros x. now rewrite E. }
  exists c'. split; trivial. intros k. destruct (fstep_poly_val h c a k H) as [->|(K & ->)]; [now left|].
  right. f_equal. rewrite <- Ec. apply Rsum_map_ext. intros m Hm. apply in_seq in Hm. do 2 f_equal.
  rewrite minus_INR by lia. rewrite !plus_INR, mult_INR. simpl. lra.
Qed.
Lemma fstep_vanish h M c a : vanishing_moments h M -> (length c <= M)%nat -> is_poly c a ->
  forall k, nth k (fstep h a) NaN = NaN \/ nth k (fstep h a) NaN = Fin 0.
Proof.
  intros V L H k. destruct (fstep_poly_val h c a k H) as [->|(K & ->)]; [now left|].
  right. f_equal.
  destruct (poly_affine c (-1) (INR (2 * k + 1 + (length h - 1) / 2))) as (c' & L' & E).
  transitivity (Rsum (map (fun m => nth m h 0 * poly c' (INR m)) (seq 0 (length h)))).
  2:{ apply (vanish_poly h M c' V). lia. }
  apply Rsum_map_ext. intros m Hm. apply in_seq in Hm.
  rewrite E. do 2 f_equal. rewrite minus_INR by lia. lra.
Qed.
Lemma approx_poly lo j c a : is_poly c a -> exists c', (length c' <= length c)%nat /\ is_poly c' (approx_at lo j a).
Proof.
  intros H. induction j as [|j (c1 & L1 & H1)]; cbn [approx_at]; [exists c; auto|].
  destruct (fstep_poly lo c1 _ H1) as (c2 & L2 & H2). exists c2. split; [lia|trivial].
Qed.
Lemma detail_vanish hi lo j M c a : vanishing_moments hi M -> (length c <= M)%nat -> is_poly c a ->
  forall k, nth k (detail hi lo j a) NaN = NaN \/ nth k (detail hi lo j a) NaN = Fin 0.
Proof.
  intros V L H. unfold detail. destruct (approx_poly lo (j - 1) c a H) as (c' & L' & H').
  apply (fstep_vanish hi M c'); trivial. lia.
Qed.

Lemma vanishing_neg h M : vanishing_moments h M -> vanishing_moments (map (fun t => -1 * t) h) M.
Proof.
  intros V i Hi. rewrite map_length.
  rewrite (Rsum_map_ext _ (fun m => -1 * (INR m ^ i * nth m h 0))).
  - rewrite Rsum_map_scal. replace (Rsum _) with 0; [lra|]. symmetry. now apply V.
  - intros m Hm. apply in_seq in Hm. rewrite (nth_map_lt _ _ _ 0) by lia. lra.
Qed.

(** adding a polynomial does not change the details *)
Lemma detail_trend hi lo j M c s : vanishing_moments hi M -> (length c <= M)%nat ->
  length lo = length hi -> (1 <= j)%nat ->
  detail hi lo j (fin (add_trend c s)) = detail hi lo j (fin s).
Proof.
  intros V L Hlo Hj.
  set (P := fin (map (fun i => poly c (INR i)) (seq 0 (length s)))).
  assert (LP : length (fin s) = length P) by (unfold P, fin; now rewrite !map_length, seq_length).
  assert (E : fin (add_trend c s) = comb 1 1 (fin s) P).
  { unfold comb, P, fin, add_trend. rewrite map2_map, !map_map.
    apply nth_ext with (d := NaN) (d' := NaN).
    - now rewrite map2_length, !map_length, !seq_length, Nat.min_id.
    - intros i Hi. rewrite map_length, seq_length in Hi.
      rewrite (nth_map_lt _ _ _ 0%nat) by (now rewrite seq_length).
      rewrite (nth_map2 _ _ _ _ 0 0) by (rewrite ?map_length, ?seq_length; trivial).
      rewrite (nth_map_lt _ _ _ 0%nat) by (now rewrite seq_length).
      rewrite seq_nth by trivial. unfold lin. simpl. f_equal. lra. }
  rewrite E, detail_comb by trivial.
  assert (VP := detail_vanish hi lo j M c P V L (poly_fin_case c (length s))).
  apply nth_ext with (d := NaN) (d' := NaN).
  - rewrite comb_length; trivial. rewrite !detail_length by trivial. now rewrite LP.
  - intros k Hk. rewrite comb_nth by (rewrite !detail_length by trivial; now rewrite LP).
    assert (Q : isnan (nth k (detail hi lo j (fin s)) NaN) = isnan (nth k (detail hi lo j P) NaN)).
    { apply pat_nth. apply detail_pat; try apply no_inf_fin; trivial.
      unfold P. rewrite !pat_fin, map_length, seq_length. reflexivity. }
    unfold lin. destruct (VP k) as [E1|E1]; rewrite E1 in *.
    + destruct (nth k (detail hi lo j (fin s)) NaN); try discriminate. reflexivity.
    + rewrite xmul_1_l. simpl. rewrite Rmult_0_r. apply xadd_0_r.
Qed.
