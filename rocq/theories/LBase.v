(** * Lemmas on dicts, ranges and loops *)
From Coq Require Import Reals List ZArith Bool Lra Lia.
From Verif Require Import XReal PyBase LXReal.
Import ListNotations.

Lemma dict_get_set {V} (d : dict V) k v k' :
  dict_get (dict_set d k v) k' = if Z.eqb k' k then Some v else dict_get d k'.
Proof.
  induction d as [|[a b] d IH]; simpl.
  - reflexivity.
  - destruct (Z.eqb_spec k a) as [->|N]; simpl.
    + destruct (Z.eqb_spec k' a); reflexivity.
    + rewrite IH. destruct (Z.eqb_spec k' a) as [->|]; trivial.
      destruct (Z.eqb_spec a k); [congruence|reflexivity].
Qed.
Lemma dict_keys_set_eq {V W} (d : dict V) (d' : dict W) k v w :
  dict_keys d = dict_keys d' -> dict_keys (dict_set d k v) = dict_keys (dict_set d' k w).
Proof.
  unfold dict_keys. revert d'. induction d as [|[a b] d IH]; intros [|[a' b'] d']; simpl; try discriminate; trivial.
  intros [= -> E]. destruct (Z.eqb k a'); simpl; f_equal; auto.
Qed.
Lemma dict_set_keys_In {V} (d : dict V) k v x :
  In x (dict_keys (dict_set d k v)) <-> x = k \/ In x (dict_keys d).
Proof.
  unfold dict_keys. induction d as [|[a b] d IH]; simpl; [intuition|].
  destruct (Z.eqb_spec k a) as [->|]; simpl; [intuition|]. rewrite IH. intuition.
Qed.
Lemma dict_set_NoDup {V} (d : dict V) k v :
  NoDup (dict_keys d) -> NoDup (dict_keys (dict_set d k v)).
Proof.
  unfold dict_keys. induction d as [|[a b] d IH]; simpl; intros H.
  - repeat constructor; simpl; tauto.
  - destruct (Z.eqb_spec k a) as [->|N]; simpl; trivial.
    inversion H; subst. constructor; auto.
    intros K. apply dict_set_keys_In in K as [K|K]; [congruence|]. contradiction.
Qed.

Lemma zrange_In a b j : In j (zrange a b) <-> (a <= j < b)%Z.
Proof.
  unfold zrange. rewrite in_map_iff. split.
  - intros (i & <- & Hi). apply in_seq in Hi. lia.
  - intros H. exists (Z.to_nat (j - a)). split; [lia|]. apply in_seq. lia.
Qed.
Lemma mapM_Ok {A B} (f : A -> res B) l bs :
  mapM f l = Ok bs <-> Forall2 (fun a b => f a = Ok b) l bs.
Proof.
  revert bs. induction l as [|a l IH]; intros bs; simpl.
  - split; [intros [= <-]; constructor | intros H; inversion H; reflexivity].
  - destruct (f a) as [b|e] eqn:E; simpl.
    + destruct (mapM f l) as [bs'|e] eqn:E'; simpl.
      * split.
        -- intros [= <-]. constructor; trivial. now apply IH.
        -- intros H. inversion H; subst. rewrite E in H2. injection H2 as <-.
           apply IH in H4. congruence.
      * split; [discriminate|]. intros H. inversion H; subst. apply IH in H4. discriminate.
    + split; [discriminate|]. intros H. inversion H; subst. congruence.
Qed.
Lemma mapM_Err {A B} (f : A -> res B) l e :
  (forall a e', In a l -> f a = Err e' -> e' = e) ->
  (mapM f l = Err e <-> exists a, In a l /\ f a = Err e).
Proof.
  intros U. induction l as [|a l IH]; simpl.
  - split; [discriminate|]. intros (a & [] & _).
  - assert (IH' := IH (fun a e' Ha => U a e' (or_intror Ha))). clear IH.
    destruct (f a) as [b|e'] eqn:E; simpl.
    + destruct (mapM f l) as [bs|e''] eqn:E'; simpl.
      * split; [discriminate|]. intros (x & [<-|Hx] & Ex); [congruence|].
        destruct IH' as [_ K]. assert (Ok bs = Err e) by eauto. discriminate.
      * split.
        -- intros [= ->]. destruct IH' as [K _]. destruct K as (x & Hx & Ex); trivial. eauto.
        -- intros (x & [<-|Hx] & Ex); [congruence|]. destruct IH' as [_ K].
           assert (Err e'' = @Err (list B) e) by eauto. congruence.
    + assert (e' = e) by (apply (U a); [now left | exact E]). subst e'.
      split; [intros _; exists a; split; [now left|trivial]|]. intros _; reflexivity.
Qed.

Lemma Forall2_len {A B} (P : A -> B -> Prop) l m : Forall2 P l m -> length l = length m.
Proof. induction 1; simpl; congruence. Qed.
