(** * Property C100: when two sets of multifractal parameters are taken to be the same *)
From Coq Require Import Reals List ZArith Bool Lra Lia.
From Verif Require Import XReal PyBase ModelUtils ModelMRQ ModelStructure ModelSignal.
Import ListNotations.
Open Scope R_scope.

Lemma Reqb_true x y : Reqb x y = true <-> x = y.
Proof. unfold Reqb. destruct (Req_EM_T x y); split; congruence. Qed.
Lemma all2 a : forall b, length a = length b -> (forallb (fun t => t) (map2 Reqb a b) = true <-> a = b).
Proof.
  induction a as [|x a IH]; intros [|y b] L; try discriminate; [cbn; tauto|].
  change (forallb (fun t => t) (map2 Reqb (x :: a) (y :: b))) with (Reqb x y && forallb (fun t => t) (map2 Reqb a b)).
  rewrite andb_true_iff, Reqb_true, IH by (cbn in L; lia). split; [intros [-> ->]; trivial|].
  intros K. injection K. auto.
Qed.
Lemma andb_ok (b : bool) (n k : nat) : (if b then Ok (Nat.eqb n k) else Ok false) = Ok true <-> b = true /\ n = k.
Proof. destruct b; [|split; [discriminate|intros [? _]; discriminate]]. rewrite <- Nat.eqb_eq. split; [intros K; split; [trivial|congruence]|intros [_ ->]; trivial]. Qed.
Lemma andb_no (b : bool) (n k : nat) : (if b then Ok (Nat.eqb n k) else Ok false) = Ok false <-> ~ (b = true /\ n = k).
Proof.
  destruct b; [|split; [intros _ [? _]; discriminate|trivial]].
  destruct (Nat.eqb_spec n k); split; try discriminate; try tauto.
Qed.

(** two arrays of orders of the same length, or two lists: the parameters are taken to be the same exactly when the
    orders are equal one by one and the numbers of cumulants are equal *)
Theorem C100_equal_lengths :
  forall a b n k, length a = length b ->
  (same_params (Some (mkMP (QArr a) n)) (mkMP (QArr b) k) = Ok true <-> a = b /\ n = k) /\
  (same_params (Some (mkMP (QArr a) n)) (mkMP (QArr b) k) = Ok false <-> ~ (a = b /\ n = k)).
Proof.
  intros a b n k L. unfold same_params. cbn [mp_q mp_n same_q q_numbers]. unfold arr_eq. rewrite L, Nat.eqb_refl. cbn [bind].
  rewrite andb_ok, andb_no, all2 by trivial. tauto.
Qed.
Print Assumptions C100_equal_lengths.
Theorem C100_lists :
  forall a b n k,
  let same := map num_val a = map num_val b /\ n = k in
  (same_params (Some (mkMP (QList a) n)) (mkMP (QList b) k) = Ok true <-> same) /\
  (same_params (Some (mkMP (QList a) n)) (mkMP (QList b) k) = Ok false <-> ~ same).
Proof.
  intros a b n k same. unfold same_params. cbn [mp_q mp_n same_q bind].
  assert (K : Nat.eqb (length a) (length b) && forallb (fun t => t) (map2 (fun x y => Reqb (num_val x) (num_val y)) a b) = true
              <-> map num_val a = map num_val b).
  { assert (E : map2 (fun x y => Reqb (num_val x) (num_val y)) a b = map2 Reqb (map num_val a) (map num_val b)).
    { clear. revert b. induction a as [|x a IH]; intros [|y b]; trivial.
      unfold map2 in *. cbn. f_equal. apply IH. }
    rewrite E, andb_true_iff, Nat.eqb_eq. split.
    - intros [L H]. apply all2 in H; trivial. now rewrite !map_length.
    - intros H. assert (L := f_equal (@length _) H). rewrite !map_length in L. split; trivial. apply all2; trivial. now rewrite !map_length. }
  rewrite andb_ok, andb_no, K. subst same. tauto.
Qed.
Print Assumptions C100_lists.

(** REFUTED for arrays of different lengths: one order against several is broadcast, so it is "the same" as any array of
    copies of it, including the empty one; other lengths raise AttributeError *)
Theorem C100_broadcast_refuted :
  (forall x b n k, length b <> 1%nat ->
     (same_params (Some (mkMP (QArr [x]) n)) (mkMP (QArr b) k) = Ok true <-> (forall y, In y b -> y = x) /\ n = k) /\
     (same_params (Some (mkMP (QArr b) n)) (mkMP (QArr [x]) k) = Ok true <-> (forall y, In y b -> y = x) /\ n = k)) /\
  (forall a b n k, length a <> length b -> length a <> 1%nat -> length b <> 1%nat ->
     same_params (Some (mkMP (QArr a) n)) (mkMP (QArr b) k) = Err AttributeError).
Proof.
  split.
  - intros x b n k L. unfold same_params. cbn [mp_q mp_n same_q q_numbers]. unfold arr_eq.
    replace (Nat.eqb (length [x]) (length b)) with false by (symmetry; apply Nat.eqb_neq; cbn; lia).
    replace (Nat.eqb (length b) (length [x])) with false by (symmetry; apply Nat.eqb_neq; cbn; lia). cbn [bind].
    assert (A : forallb (fun t => t) (map (Reqb x) b) = true <-> forall y, In y b -> y = x).
    { rewrite forallb_forall. split.
      - intros H y Hy. symmetry. apply Reqb_true. apply H. now apply in_map.
      - intros H t Ht. apply in_map_iff in Ht as (y & <- & Hy). apply Reqb_true. symmetry. auto. }
    assert (B : forallb (fun t => t) (map (fun y => Reqb y x) b) = true <-> forall y, In y b -> y = x).
    { rewrite forallb_forall. split.
      - intros H y Hy. apply Reqb_true. apply H. now apply (in_map (fun y => Reqb y x)).
      - intros H t Ht. apply in_map_iff in Ht as (y & <- & Hy). apply Reqb_true. auto. }
    rewrite andb_ok, A. split; [tauto|].
    destruct b as [|y [|z b]]; [|cbn in L; lia|]; cbn [bind]; rewrite andb_ok, B; tauto.
  - intros a b n k L A B. unfold same_params. cbn [mp_q mp_n same_q q_numbers]. unfold arr_eq.
    destruct (Nat.eqb_spec (length a) (length b)); [contradiction|].
    destruct a as [|x [|y a]], b as [|u [|v b]]; cbn [length] in *; try lia; reflexivity.
Qed.
Print Assumptions C100_broadcast_refuted.

(** a list of several orders against an array of as many raises ValueError, even when they hold the same numbers; the
    other way round the comparison works *)
Theorem C100_list_array_refuted :
  forall a b n k, length a = length b -> (2 <= length a)%nat ->
  same_params (Some (mkMP (QList a) n)) (mkMP (QArr b) k) = Err ValueError /\
  (same_params (Some (mkMP (QArr b) n)) (mkMP (QList a) k) = Ok true <-> b = map num_val a /\ n = k).
Proof.
  intros a b n k L L2. split.
  - unfold same_params. cbn [mp_q mp_n same_q]. unfold arr_eq. rewrite map_length, L, Nat.eqb_refl.
    destruct a as [|x [|y a]], b as [|u [|v b]]; cbn [length] in *; try lia. reflexivity.
  - assert (K : same_params (Some (mkMP (QArr b) n)) (mkMP (QList a) k) = same_params (Some (mkMP (QArr b) n)) (mkMP (QArr (map num_val a)) k)) by reflexivity.
    rewrite K. apply C100_equal_lengths. now rewrite map_length.
Qed.
Print Assumptions C100_list_array_refuted.

(** concrete cases: the orders [2] and [] are the same parameters, [1; 2] and [1; 2; 3] raise, nothing stored raises *)
Example C100_example :
  same_params (Some (mkMP (QArr [2]) 3)) (mkMP (QArr []) 3) = Ok true /\
  same_params (Some (mkMP (QArr [2]) 3)) (mkMP (QArr [2; 2]) 3) = Ok true /\
  same_params (Some (mkMP (QArr [1; 2]) 3)) (mkMP (QArr [1; 2]) 2) = Ok false /\
  same_params (Some (mkMP (QArr [1; 2]) 3)) (mkMP (QArr [1; 2; 3]) 3) = Err AttributeError /\
  same_params None (mkMP (QArr [2]) 3) = Err AttributeError.
Proof.
  split; [|split; [|split; [|split; [|reflexivity]]]].
  - destruct C100_broadcast_refuted as [K _]. apply (K 2 [] 3%nat 3%nat ltac:(cbn; lia)). split; [intros y []|reflexivity].
  - destruct C100_broadcast_refuted as [K _]. apply (K 2 [2; 2] 3%nat 3%nat ltac:(cbn; lia)). split; [intros y [<-|[<-|[]]]; trivial|reflexivity].
  - apply C100_equal_lengths; trivial. intros [_ ?]. discriminate.
  - destruct C100_broadcast_refuted as [_ K]. apply K; cbn; lia.
Qed.
