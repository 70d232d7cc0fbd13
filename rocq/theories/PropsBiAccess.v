(** * Property C103: reading the bivariate cumulants by name *)
From Coq Require Import Reals List ZArith Bool Lia Lra String Ascii.
From Verif Require Import XReal PyBase ModelUtils ModelMRQ ModelStructure ModelCumulants ModelWavelet ModelMFA ModelBivariate
  Spec SpecMRQ SpecBi LXReal LReg LUtils LBase LEst LMoment LCum LBivariate PropsEstimators PropsCumulants PropsBivariate.
Import ListNotations.
Local Notation length := List.length.
Open Scope R_scope.

(** the name made of a letter and two digits *)
Definition name3 (k : ascii) (u v : nat) : string := String k (String (digit u) (String (digit v) EmptyString)).
Lemma digit_back d : (d <= 9)%nat -> is_digit (digit d) = true /\ digit_val (digit d) = d.
Proof. intros Hd. do 10 (destruct d as [|d]; [split; reflexivity|]). lia. Qed.
Lemma digit_form d : is_digit d = true -> exists k, (k <= 9)%nat /\ d = digit k.
Proof.
  intros H. exists (digit_val d). unfold is_digit, digit_val, digit in *.
  apply andb_prop in H as [A B]. apply Nat.leb_le in A. apply Nat.leb_le in B. split; [lia|].
  replace (48 + (nat_of_ascii d - 48))%nat with (nat_of_ascii d) by lia. now rewrite ascii_nat_embedding.
Qed.

(** with the orders 0..n computed over the scales 1..g: c<u><v> is the log-cumulant of orders (u, v), C<u><v> the sequence of the
    cumulants of these orders over the scales; orders not computed give an empty array; orders above 9 have no name *)
Theorem C103_accessors :
  forall m1 m2 g n j1 j2 wd b,
  regular m1 g 1 -> regular m2 g 1 -> (1 <= j1)%Z -> (j1 <= j2)%Z -> (j2 <= Z.of_nat g)%Z ->
  (forall j, In j (scales m1) -> length (column m1 j 0) = length (column m2 j 0)) ->
  BiCumulants m1 m2 n j1 j2 wd = Ok b ->
  (forall u v, (u <= 9)%nat -> (v <= 9)%nat -> (u <= n)%nat -> (v <= n)%nat ->
     bc_getattr b (name3 "c" u v) = Ok (BLog [b2 (bc_log_cumulants b) u v]) /\
     exists C, bc_getattr b (name3 "C" u v) = Ok (BVal [C]) /\ length C = g /\
       forall j, (1 <= j <= Z.of_nat g)%Z -> b1 C j = b3 (bc_values b) u v j) /\
  (forall u v, (u <= 9)%nat -> (v <= 9)%nat -> (n < u \/ n < v)%nat ->
     bc_getattr b (name3 "c" u v) = Ok (BLog []) /\ bc_getattr b (name3 "C" u v) = Ok (BVal [])) /\
  bc_getattr b EmptyString = Err IndexError /\
  (forall name, name <> EmptyString -> (forall u v, (u <= 9)%nat -> (v <= 9)%nat -> name <> name3 "c" u v /\ name <> name3 "C" u v) ->
     bc_getattr b name = Err AttributeError).
Proof.
  intros m1 m2 g n j1 j2 wd b R1 R2 H1 H2 H3 HL E.
  assert (S1 : scales m1 = one_to g) by apply R1.
  assert (HT : bc_n_cumul b = n /\ forall u v, (u <= n)%nat -> (v <= n)%nat -> length (nth v (nth u (bc_values b) []) []) = g).
  { rewrite S1 in HL. destruct (BC_ok_inv _ _ _ _ _ _ _ E) as [HF HN]. rewrite (BC_eq m1 m2 g) in E by trivial. cbv zeta in E.
    destruct (bi_rho _ _ _ _) as [[RHO rho]|] eqn:ER; [|discriminate]. cbn [bind] in E. injection E as <-.
    cbn [bc_n_cumul bc_values]. split; [reflexivity|]. intros u v Hu Hv.
    rewrite (nth_map_lt _ _ _ 0%nat) by (rewrite seq_length; lia). rewrite seq_nth by lia.
    rewrite (nth_map_lt _ _ _ 0%nat) by (rewrite seq_length; lia). rewrite map_length. unfold one_to. now rewrite map_length, seq_length. }
  destruct HT as [En HT].
  assert (G : forall u v, (u <= 9)%nat -> (v <= 9)%nat ->
     bc_getattr b (name3 "c" u v) = Ok (BLog (bc_c b u v)) /\ bc_getattr b (name3 "C" u v) = Ok (BVal (bc_C b u v))).
  { intros u v Hu Hv. destruct (digit_back u Hu) as [A1 A2]. destruct (digit_back v Hv) as [B1 B2].
    unfold bc_getattr, name3. rewrite A1, A2, B1, B2. split; reflexivity. }
  split; [|split; [|split; [reflexivity|]]].
  - intros u v Hu Hv Hun Hvn. destruct (G u v Hu Hv) as [-> ->]. unfold bc_c, bc_C. rewrite En.
    destruct (Nat.leb_spec u n); [|lia]. destruct (Nat.leb_spec v n); [|lia]. cbn [andb]. split; [reflexivity|].
    eexists. split; [reflexivity|]. split; [now apply HT|]. intros j Hj. reflexivity.
  - intros u v Hu Hv Hn. destruct (G u v Hu Hv) as [-> ->]. unfold bc_c, bc_C. rewrite En.
    destruct (Nat.leb_spec u n); destruct (Nat.leb_spec v n); cbn [andb]; try lia; split; reflexivity.
  - intros name HE HD. unfold bc_getattr. destruct name as [|k [|u [|v [|e t]]]]; trivial; [congruence|].
    destruct (is_digit u) eqn:Du; [|cbn [andb]; now rewrite !andb_false_r].
    destruct (is_digit v) eqn:Dv; [|cbn [andb]; now rewrite !andb_false_r].
    destruct (digit_form u Du) as (u' & Hu & ->). destruct (digit_form v Dv) as (v' & Hv & ->). destruct (HD u' v' Hu Hv) as [N1 N2].
    cbn [andb]. rewrite !andb_true_r.
    destruct (Ascii.eqb_spec k "c") as [->|]; [now contradiction N1|]. destruct (Ascii.eqb_spec k "C") as [->|]; [now contradiction N2|]. reflexivity.
Qed.
Print Assumptions C103_accessors.
(** with twelve cumulants computed, "c10" reads the orders (1, 0), and no name reads an order above 9 *)
Theorem C103_high_orders : forall b name rows, (bc_getattr b name = Ok (BLog rows)) ->
  exists u v, (u <= 9)%nat /\ (v <= 9)%nat /\ rows = bc_c b u v.
Proof.
  intros b name rows H. unfold bc_getattr in H. destruct name as [|k [|u [|v [|e t]]]]; try discriminate.
  destruct (is_digit u) eqn:Du; [|cbn [andb] in H; rewrite !andb_false_r in H; discriminate].
  destruct (is_digit v) eqn:Dv; [|cbn [andb] in H; rewrite !andb_false_r in H; discriminate].
  destruct (digit_form u Du) as (u' & Hu & ->). destruct (digit_form v Dv) as (v' & Hv & ->).
  rewrite !(proj2 (digit_back _ Hu)), !(proj2 (digit_back _ Hv)) in H.
  destruct (Ascii.eqb k "c"); cbn [andb] in H; [injection H as <-; eauto|]. destruct (Ascii.eqb k "C"); discriminate.
Qed.
(** a concrete case *)
Example C103_case : exists b, BiCumulants (bi_demo WaveletLeader 0 (exp 1)) (bi_demo WaveletLeader 0 (exp (-1))) 2 1 2 true = Ok b /\
  bc_getattr b "c11" = Ok (BLog [b2 (bc_log_cumulants b) 1 1]) /\ bc_getattr b "c31" = Ok (BLog []) /\ bc_getattr b "c1" = Err AttributeError.
Proof.
  set (m := bi_demo WaveletLeader 0 (exp 1)). set (m' := bi_demo WaveletLeader 0 (exp (-1))).
  assert (HR := bi_demo_regular WaveletLeader 0 (exp 1)). assert (HC := bi_demo_counted WaveletLeader 0 (exp 1)). fold m in HR, HC.
  assert (HR' := bi_demo_regular WaveletLeader 0 (exp (-1))). assert (HC' := bi_demo_counted WaveletLeader 0 (exp (-1))). fold m' in HR', HC'.
  assert (HA := bi_demo_aligned WaveletLeader 0 (exp 1) (exp (-1))). fold m m' in HA.
  assert (HL : forall j, In j (scales m) -> length (column m j 0) = length (column m' j 0)) by (intros j Hj; apply HA, Hj).
  destruct (C56_returns m m' 2 2 1 2 true HR HR' HC HC' ltac:(lia) ltac:(lia) ltac:(lia) HL ltac:(right; lia)) as [[_ X] _].
  destruct X as [b E]; [split; [reflexivity|intros j Hj; apply HA, Hj]|]. exists b. split; [exact E|].
  destruct (C103_accessors m m' 2 2 1 2 true b HR HR' ltac:(lia) ltac:(lia) ltac:(lia) HL E) as (A & B & _).
  split; [exact (proj1 (A 1%nat 1%nat ltac:(lia) ltac:(lia) ltac:(lia) ltac:(lia)))|].
  split; [exact (proj1 (B 3%nat 1%nat ltac:(lia) ltac:(lia) ltac:(lia)))|reflexivity].
Qed.
