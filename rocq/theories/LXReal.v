(** * Lemmas on extended reals and columns *)
From Coq Require Import Reals List ZArith Bool Lra Lia Permutation.
From Verif Require Import XReal PyBase Spec.
Import ListNotations.
Open Scope R_scope.

Lemma xadd_comm x y : xadd x y = xadd y x.
Proof. destruct x, y; simpl; try reflexivity. f_equal; lra. Qed.

Lemma xadd_assoc x y z : xadd x (xadd y z) = xadd (xadd x y) z.
Proof. destruct x, y, z; simpl; try reflexivity. f_equal; lra. Qed.

Lemma xadd_0_l x : xadd (Fin 0) x = x.
Proof. destruct x; simpl; try reflexivity. f_equal; lra. Qed.

Lemma xadd_0_r x : xadd x (Fin 0) = x.
Proof. rewrite xadd_comm; apply xadd_0_l. Qed.

Lemma scale_inf_0 i : scale_inf 0 i = NaN.
Proof. unfold scale_inf. destruct (Req_EM_T 0 0); [reflexivity | lra]. Qed.
Lemma scale_inf_pos a i : 0 < a -> scale_inf a i = i.
Proof. intros. unfold scale_inf. destruct (Req_EM_T a 0); [lra|].
  destruct (Rlt_dec 0 a); [reflexivity | lra]. Qed.
Lemma scale_inf_neg a i : a < 0 -> scale_inf a i = xopp i.
Proof. intros. unfold scale_inf. destruct (Req_EM_T a 0); [lra|].
  destruct (Rlt_dec 0 a); [lra | reflexivity]. Qed.

Lemma xmul_comm x y : xmul x y = xmul y x.
Proof. destruct x, y; simpl; try reflexivity. f_equal; lra. Qed.

Ltac sgn a := destruct (Rtotal_order a 0) as [?|[?|?]].
Ltac sinf :=
  repeat match goal with
  | H : ?a = 0 |- context [scale_inf ?a ?i] => rewrite H, (scale_inf_0 i)
  | H : ?a < 0 |- context [scale_inf ?a ?i] => rewrite (scale_inf_neg a i H)
  | H : ?a > 0 |- context [scale_inf ?a ?i] => rewrite (scale_inf_pos a i H)
  end.

Lemma xopp_xadd x y : xopp (xadd x y) = xadd (xopp x) (xopp y).
Proof. destruct x, y; simpl; try reflexivity. f_equal; lra. Qed.
Lemma xopp_invol x : xopp (xopp x) = x.
Proof. destruct x; simpl; try reflexivity. f_equal; lra. Qed.

Lemma xmul_Fin_distr c x y :
  xmul (Fin c) (xadd x y) = xadd (xmul (Fin c) x) (xmul (Fin c) y).
Proof.
  destruct x, y; simpl; try reflexivity; try (f_equal; lra);
  sgn c; sinf; simpl; try reflexivity.
Qed.

Lemma scale_inf_assoc a b i : (i = PInf \/ i = NInf) ->
  xmul (Fin a) (scale_inf b i) = scale_inf (a * b) i.
Proof.
  intros Hi.
  sgn b; [rewrite (scale_inf_neg b) by lra
         | subst b; rewrite Rmult_0_r, scale_inf_0; reflexivity
         | rewrite (scale_inf_pos b) by lra];
  (sgn a; [| subst a; rewrite Rmult_0_l, scale_inf_0;
             destruct Hi as [-> | ->]; simpl; rewrite scale_inf_0; reflexivity |]);
  try rewrite (scale_inf_pos (a * b)) by nra;
  try rewrite (scale_inf_neg (a * b)) by nra;
  destruct Hi as [-> | ->]; simpl; sinf; reflexivity.
Qed.

Lemma xmul_Fin_assoc a b x : xmul (Fin a) (xmul (Fin b) x) = xmul (Fin (a * b)) x.
Proof.
  destruct x; try reflexivity.
  - simpl; f_equal; lra.
  - change (xmul (Fin b) PInf) with (scale_inf b PInf). apply scale_inf_assoc; auto.
  - change (xmul (Fin b) NInf) with (scale_inf b NInf). apply scale_inf_assoc; auto.
Qed.

Lemma xmul_1_l x : xmul (Fin 1) x = x.
Proof. destruct x; simpl; rewrite ?scale_inf_pos by lra; try reflexivity. f_equal; lra. Qed.

Lemma xmul_isnan c x : c <> 0 -> isnan (xmul (Fin c) x) = isnan x.
Proof. intros. destruct x; simpl; try reflexivity; sgn c; try lra; sinf; reflexivity. Qed.

Lemma isnan_xadd_Fin c x : isnan (xadd x (Fin c)) = isnan x.
Proof. destruct x; reflexivity. Qed.

(** ** sums *)
Lemma xsum_app l m : xsum (l ++ m) = xadd (xsum l) (xsum m).
Proof.
  induction l; simpl app; [symmetry; apply xadd_0_l|].
  change (xadd a (xsum (l ++ m)) = xadd (xadd a (xsum l)) (xsum m)).
  rewrite IHl. apply xadd_assoc.
Qed.

Lemma xsum_fin l : xsum (fin l) = Fin (Rsum l).
Proof. induction l; simpl; [reflexivity|]. rewrite IHl. reflexivity. Qed.

Lemma xsum_map_Fin {A} (f : A -> R) l : xsum (map (fun a => Fin (f a)) l) = Fin (Rsum (map f l)).
Proof. induction l; simpl; [reflexivity|]. rewrite IHl. reflexivity. Qed.

Lemma xsum_scale c l : l <> [] \/ True -> xsum (map (xmul (Fin c)) l) = xmul (Fin c) (xsum l).
Proof.
  intros _. induction l; simpl.
  - f_equal; lra.
  - rewrite IHl. symmetry. apply xmul_Fin_distr.
Qed.

Lemma xsum_map_xadd {A} (f g : A -> xr) l :
  xsum (map (fun a => xadd (f a) (g a)) l) = xadd (xsum (map f l)) (xsum (map g l)).
Proof.
  induction l; simpl; [f_equal; lra|].
  rewrite IHl. rewrite !xadd_assoc. f_equal.
  rewrite <- !xadd_assoc. f_equal. apply xadd_comm.
Qed.

Lemma xsum_perm l m : Permutation l m -> xsum l = xsum m.
Proof.
  induction 1; simpl; try congruence.
  rewrite !xadd_assoc. f_equal. apply xadd_comm.
Qed.

Lemma xsum_NaN l : In NaN l -> xsum l = NaN.
Proof.
  induction l; simpl; [tauto|]. intros [->|H]; [reflexivity|].
  rewrite IHl by trivial. destruct a; reflexivity.
Qed.

(** ** Rsum *)
Lemma Rsum_app l m : Rsum (l ++ m) = Rsum l + Rsum m.
Proof. induction l; simpl; [lra|]. rewrite IHl. lra. Qed.
Lemma Rsum_map_plus {A} (f g : A -> R) l :
  Rsum (map (fun a => f a + g a) l) = Rsum (map f l) + Rsum (map g l).
Proof. induction l; simpl; [lra|]. rewrite IHl. lra. Qed.
Lemma Rsum_map_scal {A} c (f : A -> R) l :
  Rsum (map (fun a => c * f a) l) = c * Rsum (map f l).
Proof. induction l; simpl; [lra|]. rewrite IHl. lra. Qed.
Lemma Rsum_scal c l : Rsum (map (Rmult c) l) = c * Rsum l.
Proof. induction l; simpl; [lra|]. rewrite IHl. lra. Qed.
Lemma Rsum_map_ext {A} (f g : A -> R) l :
  (forall a, In a l -> f a = g a) -> Rsum (map f l) = Rsum (map g l).
Proof.
  induction l; simpl; intros H; [reflexivity|].
  rewrite IHl by (intros; apply H; auto). rewrite (H a) by auto. reflexivity.
Qed.
Lemma Rsum_const {A} c (l : list A) : Rsum (map (fun _ => c) l) = INR (length l) * c.
Proof.
  induction l; [simpl; lra|]. simpl length. simpl map. simpl Rsum.
  rewrite IHl, S_INR. lra.
Qed.
Lemma Rsum_nonneg l : Forall (fun a => 0 <= a) l -> 0 <= Rsum l.
Proof. induction 1; simpl; lra. Qed.
Lemma Rsum_map_le {A} (f g : A -> R) l :
  (forall a, In a l -> f a <= g a) -> Rsum (map f l) <= Rsum (map g l).
Proof.
  induction l; simpl; intros H; [lra|].
  assert (Rsum (map f l) <= Rsum (map g l)) by (apply IHl; intros; apply H; auto).
  assert (f a <= g a) by (apply H; auto). lra.
Qed.
Lemma Rsum_map_nonneg {A} (f : A -> R) l :
  (forall a, In a l -> 0 <= f a) -> 0 <= Rsum (map f l).
Proof.
  intros. apply Rsum_nonneg. rewrite Forall_forall. intros x Hx.
  apply in_map_iff in Hx as (a & <- & Ha). auto.
Qed.
Lemma Rsum_map_pos {A} (f : A -> R) l :
  (forall a, In a l -> 0 <= f a) -> (exists a, In a l /\ 0 < f a) -> 0 < Rsum (map f l).
Proof.
  induction l; simpl; intros H (b & Hb & Hp); [tauto|].
  assert (0 <= Rsum (map f l)) by (apply Rsum_map_nonneg; intros; apply H; auto).
  destruct Hb as [->|Hb].
  - lra.
  - assert (0 <= f a) by (apply H; auto).
    assert (0 < Rsum (map f l)) by (apply IHl; [intros; apply H; auto | eauto]). lra.
Qed.
Lemma Rsum_map_zero {A} (f : A -> R) l :
  (forall a, In a l -> f a = 0) -> Rsum (map f l) = 0.
Proof.
  induction l; simpl; intros H; [reflexivity|].
  rewrite IHl by (intros; apply H; auto). rewrite (H a) by auto. lra.
Qed.
Lemma Rsum_perm l m : Permutation l m -> Rsum l = Rsum m.
Proof. induction 1; simpl; lra. Qed.
Lemma Rsum_map_mult_r {A} (f : A -> R) c l :
  Rsum (map (fun a => f a * c) l) = Rsum (map f l) * c.
Proof. induction l; simpl; [lra|]. rewrite IHl. lra. Qed.

(** double sums *)
Lemma Rsum_swap {A B} (f : A -> B -> R) l m :
  Rsum (map (fun a => Rsum (map (fun b => f a b) m)) l)
  = Rsum (map (fun b => Rsum (map (fun a => f a b) l)) m).
Proof.
  induction l; simpl.
  - symmetry. apply Rsum_map_zero. auto.
  - rewrite IHl, <- Rsum_map_plus. reflexivity.
Qed.

(** ** map2 *)
Lemma map2_length {A B C} (f : A -> B -> C) l m :
  length (map2 f l m) = Nat.min (length l) (length m).
Proof. unfold map2. now rewrite map_length, combine_length. Qed.
Lemma map2_cons {A B C} (f : A -> B -> C) a l b m :
  map2 f (a :: l) (b :: m) = f a b :: map2 f l m.
Proof. reflexivity. Qed.
Lemma map2_map {A B C A' B'} (f : A -> B -> C) (g : A' -> A) (h : B' -> B) l m :
  map2 f (map g l) (map h m) = map2 (fun a b => f (g a) (h b)) l m.
Proof. revert m; induction l; destruct m; simpl; try reflexivity.
  unfold map2 in *; simpl; f_equal; apply IHl. Qed.
Lemma map2_map_l {A B C A'} (f : A -> B -> C) (g : A' -> A) l m :
  map2 f (map g l) m = map2 (fun a b => f (g a) b) l m.
Proof. rewrite <- (map_id m) at 1. apply map2_map. Qed.
Lemma map2_map_r {A B C B'} (f : A -> B -> C) (h : B' -> B) l m :
  map2 f l (map h m) = map2 (fun a b => f a (h b)) l m.
Proof. rewrite <- (map_id l) at 1. apply map2_map. Qed.
Lemma map_map2 {A B C D} (g : C -> D) (f : A -> B -> C) l m :
  map g (map2 f l m) = map2 (fun a b => g (f a b)) l m.
Proof. unfold map2. now rewrite map_map. Qed.
Lemma map2_ext {A B C} (f g : A -> B -> C) l m :
  (forall a b, In (a, b) (combine l m) -> f a b = g a b) -> map2 f l m = map2 g l m.
Proof. intros. unfold map2. apply map_ext_in. intros [a b] Hi. simpl. auto. Qed.
Lemma map2_diag {A C} (f : A -> A -> C) l : map2 f l l = map (fun a => f a a) l.
Proof. induction l; simpl; try reflexivity. unfold map2 in *; simpl; f_equal; apply IHl. Qed.
Lemma nth_map2 {A B C} (f : A -> B -> C) l m i da db dc :
  (i < length l)%nat -> (i < length m)%nat ->
  nth i (map2 f l m) dc = f (nth i l da) (nth i m db).
Proof.
  revert m i; induction l; intros [|b m] [|i]; simpl; intros; try lia; try reflexivity.
  unfold map2 in *; simpl. apply IHl; lia.
Qed.
Lemma fin_length l : length (fin l) = length l.
Proof. apply map_length. Qed.

(** ** valid, reals *)
Lemma valid_no_inf c : no_inf c -> valid c = fin (reals c).
Proof.
  induction 1 as [|v c [->|[a ->]] H IH]; simpl; try assumption; auto.
  unfold valid in *. simpl. now rewrite IH.
Qed.
Lemma count_valid_reals c : no_inf c -> count_valid c = length (reals c).
Proof. intros H. unfold count_valid. rewrite valid_no_inf by trivial. apply fin_length. Qed.
Lemma reals_app a b : reals (a ++ b) = reals a ++ reals b.
Proof. induction a as [|[]]; simpl; congruence. Qed.
Lemma reals_fin l : reals (fin l) = l.
Proof. induction l; simpl; congruence. Qed.
Lemma no_inf_fin l : no_inf (fin l).
Proof. induction l; constructor; eauto. Qed.
Lemma nansum_reals c : no_inf c -> nansum c = Fin (Rsum (reals c)).
Proof. intros. unfold nansum. rewrite valid_no_inf by trivial. apply xsum_fin. Qed.
Lemma xdiv_Fin a b : b <> 0 -> xdiv (Fin a) (Fin b) = Fin (a / b).
Proof. intros. simpl. destruct (Req_EM_T b 0); [lra|reflexivity]. Qed.
Lemma INR_len_pos {A} (l : list A) : l <> [] -> 0 < INR (length l).
Proof. destruct l; [congruence|]. intros. apply lt_0_INR. simpl. lia. Qed.
Lemma nanmean_reals c : no_inf c -> reals c <> [] -> nanmean c = Fin (mean (reals c)).
Proof.
  intros H Hn. unfold nanmean. rewrite nansum_reals, count_valid_reals by trivial.
  rewrite xdiv_Fin; [reflexivity|]. apply INR_len_pos in Hn. lra.
Qed.
Lemma map_no_inf (f : xr -> xr) (g : R -> R) c :
  no_inf c -> f NaN = NaN -> (forall a, In a (reals c) -> f (Fin a) = Fin (g a)) ->
  no_inf (map f c) /\ reals (map f c) = map g (reals c).
Proof.
  intros H HN. induction H as [|v c [->|[a ->]] H IH]; simpl; intros Hf.
  - split; constructor.
  - rewrite HN. destruct (IH Hf). split; [constructor; auto|]. assumption.
  - rewrite (Hf a) by auto. destruct IH as [I1 I2]; [intros; apply Hf; auto|].
    split; [constructor; eauto|]. simpl. now rewrite I2.
Qed.
Lemma In_reals a c : In a (reals c) <-> In (Fin a) c.
Proof.
  induction c as [|v c IH]; simpl; [tauto|].
  destruct v; simpl; rewrite IH; intuition congruence.
Qed.
Global Arguments map2 : simpl never.

Lemma nth_map_lt {A B} (f : A -> B) l i da db :
  (i < length l)%nat -> nth i (map f l) db = f (nth i l da).
Proof.
  intros H. rewrite (nth_indep _ db (f da)) by (now rewrite map_length). apply map_nth.
Qed.
Global Arguments Nat.div : simpl never.
Global Arguments Nat.modulo : simpl never.
