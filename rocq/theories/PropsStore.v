(** * Property C104: a multi-resolution quantity as a store *)
From Coq Require Import Reals List ZArith Bool Lia String.
From Verif Require Import XReal PyBase ModelUtils ModelMRQ LXReal LUtils PropsUtils.
Import ListNotations.
Local Notation length := List.length.
Open Scope R_scope.

Definition accepted : list string := ["wavelet coef"; "wavelet leader"; "wavelet p-leader"]%string.
(** the names given by the documentation of the class (multiresquantity.py:75-78) *)
Definition documented : list string := ["wavelet coef"; "wavelet leader"; "wavelet p-leaders"]%string.
(** exactly three names are accepted, they give three different formalisms and an empty store; any other name raises ValueError *)
Theorem C104_names :
  (forall name g, In name accepted -> exists m, MultiResolutionQuantity name g = Ok m /\
     mq_gamint m = g /\ mq_values m = [] /\ mq_nj m = []) /\
  (forall name g, ~ In name accepted -> MultiResolutionQuantity name g = Err ValueError) /\
  (forall n1 n2 g1 g2 m1 m2, MultiResolutionQuantity n1 g1 = Ok m1 -> MultiResolutionQuantity n2 g2 = Ok m2 ->
     (mq_formalism m1 = mq_formalism m2 <-> n1 = n2)) /\
  (forall g, MultiResolutionQuantity "wavelet coef" g = Ok (new_mrq WaveletCoef g) /\
     MultiResolutionQuantity "wavelet leader" g = Ok (new_mrq WaveletLeader g) /\
     MultiResolutionQuantity "wavelet p-leader" g = Ok (new_mrq WaveletPLeader g)).
Proof.
  assert (D : forall name g, (name = "wavelet coef"%string /\ MultiResolutionQuantity name g = Ok (new_mrq WaveletCoef g)) \/
     (name = "wavelet leader"%string /\ MultiResolutionQuantity name g = Ok (new_mrq WaveletLeader g)) \/
     (name = "wavelet p-leader"%string /\ MultiResolutionQuantity name g = Ok (new_mrq WaveletPLeader g)) \/
     (~ In name accepted /\ MultiResolutionQuantity name g = Err ValueError)).
  { intros name g. unfold MultiResolutionQuantity, formalism_of_string, accepted.
    destruct (String.eqb_spec name "wavelet coef") as [->|N1]; [left; split; reflexivity|].
    destruct (String.eqb_spec name "wavelet leader") as [->|N2]; [right; left; split; reflexivity|].
    destruct (String.eqb_spec name "wavelet p-leader") as [->|N3]; [right; right; left; split; reflexivity|].
    do 3 right. split; [|reflexivity]. cbn [In]. intuition congruence. }
  split; [|split; [|split]].
  - intros name g Hin. destruct (D name g) as [[-> ->]|[[-> ->]|[[-> ->]|[N _]]]]; [| | |contradiction]; (eexists; repeat split; reflexivity).
  - intros name g Hn. destruct (D name g) as [[-> _]|[[-> _]|[[-> _]|[_ E]]]]; [| | |exact E]; exfalso; apply Hn; cbn; auto.
  - intros n1 n2 g1 g2 m1 m2 E1 E2.
    destruct (D n1 g1) as [[-> E]|[[-> E]|[[-> E]|[_ E]]]]; rewrite E in E1; [| | |discriminate]; injection E1 as <-;
    destruct (D n2 g2) as [[-> E']|[[-> E']|[[-> E']|[_ E']]]]; rewrite E' in E2; try discriminate; injection E2 as <-;
    cbn [mq_formalism new_mrq]; split; intros K; try reflexivity; discriminate.
  - intros g. repeat split; reflexivity.
Qed.
Print Assumptions C104_names.
(** the documented name of the p-leader formalism is refused *)
Theorem C104_documented_refuted : exists name, In name documented /\ forall g, MultiResolutionQuantity name g = Err ValueError.
Proof. exists "wavelet p-leaders"%string. split; [cbn; auto|]. intros g. reflexivity. Qed.
Print Assumptions C104_documented_refuted.

(** the scales in the order of their first appearance *)
Fixpoint firsts (seen : list Z) (l : list Z) : list Z :=
  match l with
  | [] => []
  | j :: l' => if in_dec Z.eq_dec j seen then firsts seen l' else j :: firsts (j :: seen) l'
  end.
Lemma set_keys {V} (d : dict V) k v : dict_keys (dict_set d k v) = if in_dec Z.eq_dec k (dict_keys d) then dict_keys d else dict_keys d ++ [k].
Proof.
  induction d as [|[k' v'] d IH]; [reflexivity|]. cbn [dict_set dict_keys map fst In] in *. fold (dict_keys d) in *.
  destruct (Z.eqb_spec k k') as [->|N].
  - cbn [dict_keys map fst]. fold (dict_keys d). destruct (in_dec Z.eq_dec k' (k' :: dict_keys d)) as [|X]; [reflexivity|]. exfalso. apply X. now left.
  - cbn [dict_keys map fst]. fold (dict_keys (dict_set d k v)). rewrite IH.
    destruct (in_dec Z.eq_dec k (dict_keys d)) as [I1|I1]; destruct (in_dec Z.eq_dec k (k' :: dict_keys d)) as [I2|I2]; trivial.
    + exfalso. apply I2. now right.
    + exfalso. destruct I2; [congruence|contradiction].
Qed.
Lemma firsts_ext s1 s2 l : (forall j, In j s1 <-> In j s2) -> firsts s1 l = firsts s2 l.
Proof.
  revert s1 s2. induction l as [|j l IH]; intros s1 s2 H; [reflexivity|]. cbn [firsts].
  destruct (in_dec _ j s1) as [I1|I1]; destruct (in_dec _ j s2) as [I2|I2].
  - now apply IH.
  - exfalso. apply I2. now apply H.
  - exfalso. apply I1. now apply H.
  - f_equal. apply IH. intros i. cbn [In]. rewrite H. tauto.
Qed.
Lemma keys_firsts ops : forall m, dict_keys (mq_values (fold_left (fun m op => add_values m (fst op) (snd op)) ops m))
  = dict_keys (mq_values m) ++ firsts (dict_keys (mq_values m)) (map snd ops).
Proof.
  induction ops as [|[a j] ops IH]; intros m; cbn [fold_left map snd fst firsts]; [now rewrite app_nil_r|].
  rewrite IH. unfold add_values. cbn [mq_values]. rewrite set_keys.
  destruct (in_dec Z.eq_dec j (dict_keys (mq_values m))) as [I1|I1]; [reflexivity|]. rewrite <- app_assoc. cbn [app]. f_equal. f_equal.
  apply firsts_ext. intros i. rewrite in_app_iff. cbn [In]. tauto.
Qed.

(** after any history of [add_values]: the scales are listed in the order of their first appearance, each with the array given
    last and its counts; [get_nj] lists the counts in this order; nrep is the number of realisations of the array last given at
    the scale given first, AttributeError for an empty store *)
Theorem C104_history : forall f g (ops : list (arr * Z)),
  let m := add_all f g ops in
  dict_keys (mq_values m) = firsts [] (map snd ops) /\
  get_nj (mq_nj m) = map (fun j => match last_at ops j with Some a => map (fun c => length (filter (fun v => negb (isnan v)) c)) a | None => [] end)
                         (firsts [] (map snd ops)) /\
  mq_nrep m = match ops with
              | [] => Err AttributeError
              | (_, j0) :: _ => match last_at ops j0 with Some a => Ok (length a) | None => Err AttributeError end
              end.
Proof.
  intros f g ops m. destruct (C10_nj_counts f g ops) as (K & N & G). fold m in K, N, G.
  assert (F : dict_keys (mq_values m) = firsts [] (map snd ops)) by exact (keys_firsts ops (new_mrq f g)).
  assert (V : forall {V} (d : dict V), NoDup (dict_keys d) -> forall k v, In (k, v) d -> dict_get d k = Some v).
  { clear. intros V d. induction d as [|[k v] d IH]; intros ND k0 v0 H; [destruct H|]. cbn [dict_keys map fst] in ND. inversion ND as [|? ? A B]; subst.
    cbn [dict_get]. destruct H as [H|H]; [injection H as -> ->; now rewrite Z.eqb_refl|].
    destruct (Z.eqb_spec k0 k) as [->|]; [|now apply IH]. exfalso. apply A. apply in_map_iff. now exists (k, v0). }
  split; [exact F|]. split.
  - rewrite <- F, K. unfold get_nj, dict_vals, dict_keys. rewrite map_map. apply map_ext_in. intros [k v] Hin. cbn [fst snd].
    rewrite K in N. assert (X := V _ _ N k v Hin). destruct (G k) as [_ G2]. rewrite G2 in X. destruct (last_at ops k); [|discriminate].
    injection X as <-. reflexivity.
  - destruct ops as [|[a j0] ops]; [reflexivity|]. cbn [map snd firsts] in F.
    destruct (in_dec Z.eq_dec j0 []) as [[]|_]. unfold mq_nrep. destruct (mq_values m) as [|[k v] d] eqn:E; [discriminate|].
    cbn [dict_keys map fst] in F. injection F as -> _.
    destruct (G j0) as [G1 _]. rewrite <- G1. cbn [dict_get]. now rewrite Z.eqb_refl.
Qed.
Print Assumptions C104_history.
(** a new object cannot be printed or compared: the generated methods read nrep *)
Theorem C104_printing_refuted : forall name g, In name accepted ->
  (exists m, MultiResolutionQuantity name g = Ok m /\ mq_repr m = Err AttributeError) /\
  forall f ops, (mq_repr (add_all f g ops) = Ok tt <-> ops <> []).
Proof.
  intros name g Hin. split.
  - destruct (proj1 C104_names name g Hin) as (m & E & _ & V & _). exists m. split; [exact E|]. unfold mq_repr, mq_nrep. now rewrite V.
  - intros f ops. destruct (C104_history f g ops) as (_ & _ & H). destruct (C10_nj_counts f g ops) as (_ & _ & G).
    unfold mq_repr. rewrite H. destruct ops as [|[a j] ops]; [split; [discriminate|congruence]|].
    split; [discriminate|]. intros _. unfold last_at. destruct (find _ (rev ((a, j) :: ops))) as [op|] eqn:Ef; [reflexivity|]. exfalso.
    assert (X := find_none _ _ Ef (a, j) ltac:(apply in_rev; rewrite rev_involutive; now left)). cbn in X. rewrite Z.eqb_refl in X. discriminate.
Qed.
Print Assumptions C104_printing_refuted.
(** a history with a scale given twice, out of order *)
Example C104_case : let m := add_all WaveletLeader 1 [([[Fin 1; NaN]], 2%Z); ([[Fin 1]; [Fin 2]], 1%Z); ([[Fin 3]; [NaN]; [Fin 0]], 2%Z)] in
  dict_keys (mq_values m) = [2; 1]%Z /\ get_nj (mq_nj m) = [[1; 0; 1]; [1; 1]]%nat /\ mq_nrep m = Ok 3%nat /\ mq_repr m = Ok tt.
Proof. repeat split; reflexivity. Qed.
