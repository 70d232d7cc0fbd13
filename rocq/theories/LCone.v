(** * Leaders as reductions over the time-scale cone *)
From Coq Require Import Reals List ZArith Bool Lra Lia Permutation.
From Verif Require Import XReal PyBase ModelUtils ModelMRQ ModelWavelet Spec LXReal LUtils LBase LFilter LTransform LPattern LWave.
Import ListNotations.
Open Scope R_scope.

(** addition that ignores NaN (infinities do not occur) *)
Definition xfsum (x y : xr) : xr :=
  match x, y with
  | NaN, y => y
  | x, NaN => x
  | Fin a, Fin b => Fin (a + b)
  | x, y => xfmax x y
  end.
Definition op (f : formalism) : xr -> xr -> xr :=
  match f with WaveletPLeader => xfsum | _ => xfmax end.
Definition big (f : formalism) (l : col) : xr := fold_right (op f) NaN l.

Definition fn (x : xr) : Prop := x = NaN \/ exists a, x = Fin a.
Lemma op_fn f x y : fn x -> fn y -> fn (op f x y).
Proof. intros [->|[a ->]] [->|[b ->]]; destruct f; simpl; unfold fn; eauto. Qed.
Lemma op_comm f x y : fn x -> fn y -> op f x y = op f y x.
Proof. intros [->|[a ->]] [->|[b ->]]; destruct f; simpl; trivial; f_equal; try lra; apply Rmax_comm. Qed.
Lemma op_assoc f x y z : fn x -> fn y -> fn z -> op f x (op f y z) = op f (op f x y) z.
Proof.
  intros [->|[a ->]] [->|[b ->]] [->|[c ->]]; destruct f; simpl; trivial; f_equal; try lra;
    now rewrite Rmax_assoc.
Qed.
Lemma op_NaN_l f x : fn x -> op f NaN x = x.
Proof. intros [->|[a ->]]; destruct f; reflexivity. Qed.
Lemma op_NaN_r f x : fn x -> op f x NaN = x.
Proof. intros [->|[a ->]]; destruct f; reflexivity. Qed.
Lemma big_fn f l : no_inf l -> fn (big f l).
Proof. induction 1; simpl; [now left|]. apply op_fn; trivial. Qed.
Lemma big_app f l m : no_inf l -> no_inf m -> big f (l ++ m) = op f (big f l) (big f m).
Proof.
  intros Hl Hm. induction Hl; simpl; [now rewrite op_NaN_l by (now apply big_fn)|].
  rewrite IHHl. apply op_assoc; trivial; now apply big_fn.
Qed.
Lemma no_inf_perm l m : Permutation l m -> no_inf l -> no_inf m.
Proof. intros P H. unfold no_inf in *. rewrite Forall_forall in *. intros x Hx. apply H. eapply Permutation_in; [apply Permutation_sym; eassumption|trivial]. Qed.
Lemma big_perm f l m : Permutation l m -> no_inf l -> big f l = big f m.
Proof.
  induction 1; intros N; simpl; trivial.
  - inversion N; subst. now rewrite IHPermutation.
  - inversion N as [|? ? Hx N1]; subst. inversion N1 as [|? ? Hy N2]; subst.
    assert (B := big_fn f l N2).
    rewrite !op_assoc by trivial. now rewrite (op_comm f y x).
  - rewrite IHPermutation1 by trivial. apply IHPermutation2. eapply no_inf_perm; eassumption.
Qed.
Lemma big_sum l : no_inf l ->
  big WaveletPLeader l = if forallb isnan l then NaN else Fin (Rsum (reals l)).
Proof.
  induction 1 as [|x l [->|[a ->]] H IH]; simpl; trivial.
  fold (big WaveletPLeader l). rewrite IH. destruct (forallb isnan l) eqn:E; [|reflexivity].
    assert (Z : reals l = []).
    { clear -E H. induction H as [|y l [->|[b ->]] H IH]; simpl in *; trivial; [auto|discriminate]. }
    rewrite Z. simpl. f_equal. lra.
Qed.
Lemma reduce3_big f l : no_inf l -> reduce3 f l = big f l.
Proof.
  intros H. destruct f; try reflexivity.
  simpl. rewrite big_sum by trivial. unfold fixednansum. now rewrite nansum_reals.
Qed.

(** positions below (j, k): one dyadic interval per finer scale *)
Definition C1 (j k : nat) : list (nat * nat) :=
  flat_map (fun j' => map (pair j') (seq (k * 2 ^ (j - j')) (2 ^ (j - j')))) (seq 1 j).

Lemma flat_map_app_perm {X Y} (a b : X -> list Y) l :
  Permutation (flat_map (fun x => a x ++ b x) l) (flat_map a l ++ flat_map b l).
Proof.
  induction l; simpl; [constructor|].
  rewrite IHl. rewrite <- !app_assoc. apply Permutation_app_head.
  rewrite !app_assoc. apply Permutation_app_tail. apply Permutation_app_comm.
Qed.
Lemma flat_map_ext_in {X Y} (a b : X -> list Y) l : (forall x, In x l -> a x = b x) -> flat_map a l = flat_map b l.
Proof. induction l; simpl; intros H; trivial. rewrite H by auto. f_equal. apply IHl. auto. Qed.
Lemma C1_succ j k : Permutation (C1 (S j) k) ((S j, k) :: C1 j (2 * k) ++ C1 j (2 * k + 1)).
Proof.
  unfold C1 at 1. rewrite seq_S, flat_map_app. cbn [flat_map].
  replace (1 + j)%nat with (S j) by lia.
  rewrite Nat.sub_diag, Nat.pow_0_r, Nat.mul_1_r. cbn [seq map app].
  rewrite Permutation_app_comm. cbn [app]. apply perm_skip.
  unfold C1. rewrite <- flat_map_app_perm. apply Permutation_refl'. apply flat_map_ext_in.
  intros j' Hj. apply in_seq in Hj. rewrite <- map_app. f_equal.
  replace (S j - j')%nat with (S (j - j')) by lia. rewrite Nat.pow_succ_r'.
  replace (2 * 2 ^ (j - j'))%nat with (2 ^ (j - j') + 2 ^ (j - j'))%nat by lia.
  rewrite seq_app. f_equal; f_equal; lia.
Qed.

(** the cone under the three neighbours k, k+1, k+2 *)
Lemma cone_C1 j k : Permutation (cone j k) (C1 j k ++ C1 j (k + 1) ++ C1 j (k + 2)).
Proof.
  unfold cone, C1. rewrite <- !flat_map_app_perm. apply Permutation_refl'. apply flat_map_ext_in.
  intros j' Hj. apply in_seq in Hj. rewrite <- !map_app. f_equal.
  replace (3 * 2 ^ (j - j'))%nat with (2 ^ (j - j') + (2 ^ (j - j') + 2 ^ (j - j')))%nat by lia.
  rewrite !seq_app. f_equal. f_equal; f_equal; lia.
Qed.

Section Cone.
Variables (f : formalism) (p : pexp) (d : nat -> col).
Hypothesis Hp : pos_pexp p.
Hypothesis Hd : forall i, no_inf (d i).
Definition pv (jk : nat * nat) : xr := nth (snd jk) (pre f p (fst jk) (d (fst jk))) NaN.
Lemma pv_fn l : no_inf (map pv l).
Proof.
  unfold no_inf. rewrite Forall_map, Forall_forall. intros [j k] _. unfold pv. cbn [fst snd].
  apply no_inf_nth. apply nonneg_no_inf. apply pre_nonneg; trivial.
Qed.
Lemma sv_big j k : (k < length (sv f p d j))%nat -> nth k (sv f p d j) NaN = big f (map pv (C1 j k)).
Proof.
  revert k. induction j as [|j IH]; intros k Hk; [simpl in Hk; lia|].
  destruct j as [|j].
  - unfold C1. simpl. rewrite Nat.mul_1_r. unfold pv. cbn [fst snd].
    rewrite op_NaN_r; [reflexivity|]. apply no_inf_nth. apply nonneg_no_inf. apply pre_nonneg; trivial.
  - rewrite (big_perm f _ _ (Permutation_map pv (C1_succ (S j) k))) by apply pv_fn.
    cbn [sv] in *. set (s := match j with O => _ | S _ => _ end) in *.
    rewrite map_length, seq_length in Hk.
    rewrite (nth_map_lt _ _ _ 0%nat) by (now rewrite seq_length). rewrite seq_nth by trivial.
    change (0 + k)%nat with k.
    assert (B : (2 * (length s / 2) <= length s)%nat) by (apply Nat.mul_div_le; lia).
    assert (Ns : nonneg s) by (apply (sv_nonneg f p d (S j)); trivial).
    assert (Np := proj1 (pre_nonneg f p (S (S j)) (d (S (S j))) Hp (Hd _))).
    rewrite reduce3_big by (apply nonneg_no_inf, nonneg3; trivial).
    simpl map. rewrite map_app. simpl big. unfold pv at 1. cbn [fst snd]. f_equal.
    rewrite big_app by apply pv_fn. rewrite !IH by lia.
    rewrite op_NaN_r; [reflexivity|]. apply big_fn, pv_fn.
Qed.
Lemma raw_lead_big j k : (k < length (sv f p d j) - 2)%nat ->
  nth k (raw_lead f p d j) NaN = big f (map pv (cone j k)).
Proof.
  intros Hk. unfold raw_lead. rewrite (nth_map_lt _ _ _ 0%nat) by (now rewrite seq_length).
  rewrite seq_nth by trivial. change (0 + k)%nat with k.
  assert (Ns := sv_nonneg f p d j Hp Hd).
  rewrite reduce3_big by (apply nonneg_no_inf, nonneg3; trivial).
  rewrite (big_perm f _ _ (Permutation_map pv (cone_C1 j k))) by apply pv_fn.
  rewrite !map_app. rewrite !big_app by (try apply pv_fn; rewrite <- map_app; apply pv_fn).
  rewrite <- !sv_big by lia. simpl. rewrite op_NaN_r by (apply no_inf_nth, nonneg_no_inf; trivial). reflexivity.
Qed.
End Cone.
