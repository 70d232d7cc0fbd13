(** * Properties C34, C35, C36: cumulants *)
From Coq Require Import Reals List ZArith Bool Lra Lia String Ascii.
From Verif Require Import XReal PyBase ModelUtils ModelMRQ ModelStructure ModelCumulants Spec SpecMRQ LXReal LReg LUtils LBase LEst LMoment LCum PropsEstimators.
Import ListNotations.
Open Scope R_scope.

(** ** Specification *)
(** the logarithms of the moduli of the usable values *)
Definition logs (m : mrq) (j : Z) (r : nat) : list R := map (fun a => ln (Rabs a)) (numbers m j r).
(** moment and central moment of order k of a sample *)
Definition moment (k : nat) (x : list R) : R := mean (map (fun t => t ^ k) x).
Definition central (k : nat) (x : list R) : R := mean (map (fun t => (t - mean x) ^ k) x).
Definition no_zero (m : mrq) (j : Z) (r : nat) : Prop := Forall (fun a => a <> 0) (numbers m j r).

(** the rows of Cumulants *)
Lemma CUM_rows m g nrep n j1 j2 wd c :
  regular m g nrep -> (1 <= j1)%Z -> (j1 <= j2)%Z -> (j2 <= Z.of_nat g)%Z ->
  Cumulants m n j1 j2 wd = Ok c ->
  forall k r, (1 <= k <= n)%nat -> (r < nrep)%nat ->
    (forall j, In j (scales m) -> at3 (cu_values c) (k - 1) r j = Cval m n k r j) /\
    at2 (cu_slope c) (k - 1) r = fslope wd m j1 j2 r (Cval m n k r) /\
    at2 (cu_intercept c) (k - 1) r = ficept wd m j1 j2 r (Cval m n k r) /\
    at2 (cu_log_cumulants c) (k - 1) r = xmul (fslope wd m j1 j2 r (Cval m n k r)) (Fin log2_e).
Proof.
  intros HR H1 H2 H3 E k r Hk Hr. rewrite (CUM_eq m g nrep HR) in E by trivial. injection E as <-.
  cbn [cu_values cu_slope cu_intercept cu_log_cumulants].
  assert (Hi : (k - 1 < List.length (seq 1 n))%nat) by (rewrite seq_length; lia).
  assert (En : nth (k - 1) (seq 1 n) 0%nat = k) by (rewrite seq_nth by lia; lia).
  split; [|split; [|split]].
  - intros j Hj. rewrite (proj1 (proj2 HR)) in Hj.
    rewrite (at3_map (fun k r => Cval m n k r) (seq 1 n) nrep g (k - 1) r j 0%nat) by trivial. now rewrite En.
  - rewrite (at2_map (fun k r => fslope wd m j1 j2 r (Cval m n k r)) (seq 1 n) nrep (k - 1) r 0%nat) by trivial. now rewrite En.
  - rewrite (at2_map (fun k r => ficept wd m j1 j2 r (Cval m n k r)) (seq 1 n) nrep (k - 1) r 0%nat) by trivial. now rewrite En.
  - rewrite (at2_map (fun k r => xmul (fslope wd m j1 j2 r (Cval m n k r)) (Fin log2_e)) (seq 1 n) nrep (k - 1) r 0%nat) by trivial. now rewrite En.
Qed.
Lemma Cval_eq m n k r j : (1 <= k <= n)%nat -> usable m j r -> no_zero m j r ->
  Cval m n k r j = Fin (kappa (mu (logs m j r)) k).
Proof.
  intros Hk [U1 U2] Z. unfold Cval. apply cum_value_eq; trivial. intros i _. now apply log_moment_eq.
Qed.
Lemma logs_nonempty m j r : usable m j r -> logs m j r <> [].
Proof. intros [_ U]. unfold logs. destruct (numbers m j r); [congruence|discriminate]. Qed.

(** ** C34: moment-cumulant relations at every order *)
Theorem C34_moment_cumulant :
  forall m g nrep n j1 j2 wd c,
  regular m g nrep -> (1 <= j1)%Z -> (j1 <= j2)%Z -> (j2 <= Z.of_nat g)%Z ->
  Cumulants m n j1 j2 wd = Ok c ->
  cu_nrep c = nrep /\ cu_j c = scales m /\ cu_m c = seq 1 n /\
  forall r j, (r < nrep)%nat -> In j (scales m) -> usable m j r -> no_zero m j r ->
  exists K : nat -> R,
    (forall k, (1 <= k <= n)%nat -> at3 (cu_values c) (k - 1) r j = Fin (K k)) /\
    (forall k, (1 <= k <= n)%nat ->
       moment k (logs m j r)
       = Rsum (map (fun i => Binomial.C (k - 1) (i - 1) * K i * moment (k - i) (logs m j r)) (seq 1 k))).
Proof.
  intros m g nrep n j1 j2 wd c HR H1 H2 H3 E.
  split; [|split; [|split]].
  1-3: rewrite (CUM_eq m g nrep HR) in E by trivial; injection E as <-; cbn; trivial. { symmetry. apply (proj1 (proj2 HR)). }
  intros r j Hr Hj U Z. exists (kappa (mu (logs m j r))). split.
  - intros k Hk. destruct (CUM_rows m g nrep n j1 j2 wd c HR H1 H2 H3 E k r Hk Hr) as (A & _). rewrite A by trivial. now apply Cval_eq.
  - intros k Hk. change moment with (fun k x => mu x k). cbn beta.
    assert (RL := kap_relation (mu (logs m j r)) k (mu_0 _ (logs_nonempty m j r U)) (k - 1)%nat ltac:(lia)).
    replace (S (k - 1)) with k in RL by lia. rewrite RL at 1. rewrite conv_binom.
    replace (S (k - 1)) with k by lia. rewrite <- seq_shift, map_map. apply Rsum_map_ext. intros i Hi. apply in_seq in Hi.
    unfold shift. rewrite Nat.sub_succ, Nat.sub_0_r. f_equal. f_equal. lia.
Qed.
Print Assumptions C34_moment_cumulant.

(** central moments in terms of raw moments *)
Lemma central_expand x k : x <> [] -> central k x = conv (fun i => (- mu x 1) ^ i) (mu x) k.
Proof.
  intros H. unfold central. rewrite <- mu_shift. unfold mu. rewrite map_map. apply mean_ext. intros t _. f_equal.
  unfold mean. rewrite (map_ext (fun t => t ^ 1) (fun t => t)) by (intros; ring). rewrite map_id. ring.
Qed.
Lemma conv_succ f g n : conv f g (S n) = conv (shift f) g n + conv f (shift g) n.
Proof. reflexivity. Qed.
Theorem C34_low_orders :
  forall m g nrep n j1 j2 wd c,
  regular m g nrep -> (1 <= j1)%Z -> (j1 <= j2)%Z -> (j2 <= Z.of_nat g)%Z ->
  Cumulants m n j1 j2 wd = Ok c ->
  forall r j, (r < nrep)%nat -> In j (scales m) -> usable m j r -> no_zero m j r ->
    ((1 <= n)%nat -> at3 (cu_values c) 0 r j = Fin (mean (logs m j r))) /\
    ((2 <= n)%nat -> at3 (cu_values c) 1 r j = Fin (central 2 (logs m j r)) /\ 0 <= central 2 (logs m j r)) /\
    ((3 <= n)%nat -> at3 (cu_values c) 2 r j = Fin (central 3 (logs m j r))) /\
    ((4 <= n)%nat -> at3 (cu_values c) 3 r j = Fin (central 4 (logs m j r) - 3 * central 2 (logs m j r) ^ 2)).
Proof.
  intros m g nrep n j1 j2 wd c HR H1 H2 H3 E r j Hr Hj U Z.
  assert (V : forall k, (1 <= k <= n)%nat -> at3 (cu_values c) (k - 1) r j = Fin (kappa (mu (logs m j r)) k)).
  { intros k Hk. destruct (CUM_rows m g nrep n j1 j2 wd c HR H1 H2 H3 E k r Hk Hr) as (A & _). rewrite A by trivial. now apply Cval_eq. }
  set (x := logs m j r) in *. assert (Hx : x <> []) by now apply logs_nonempty.
  assert (M0 := mu_0 x Hx).
  split; [|split; [|split]]; intros Hn.
  - etransitivity; [exact (V 1%nat ltac:(lia))|]. rewrite kappa_1. f_equal. unfold mu. rewrite (map_ext (fun t => t ^ 1) (fun t => t)) by (intros; ring). now rewrite map_id.
  - split.
    + etransitivity; [exact (V 2%nat ltac:(lia))|]. rewrite kappa_2, central_expand by trivial. f_equal.
      rewrite !conv_succ. cbn [conv]. unfold shift. rewrite M0. simpl. ring.
    + unfold central, mean at 1. unfold Rdiv. apply Rmult_le_pos.
      * apply Rsum_map_nonneg. intros t _. apply pow2_ge_0.
      * left. apply Rinv_0_lt_compat. rewrite map_length. now apply INR_len_pos.
  - etransitivity; [exact (V 3%nat ltac:(lia))|]. rewrite kappa_3, central_expand by trivial. f_equal.
    rewrite !conv_succ. cbn [conv]. unfold shift. rewrite M0. simpl. ring.
  - etransitivity; [exact (V 4%nat ltac:(lia))|]. rewrite kappa_4, !central_expand by trivial. f_equal.
    rewrite !conv_succ. cbn [conv]. unfold shift. rewrite M0. simpl. ring.
Qed.
Print Assumptions C34_low_orders.

(** log-cumulants are log2(e) times the slopes of the fit of C_k(j) *)
Theorem C34_log_cumulants :
  forall m g nrep n j1 j2 wd c,
  regular m g nrep -> (1 <= j1)%Z -> (j1 < j2)%Z -> (j2 <= Z.of_nat g)%Z ->
  Cumulants m n j1 j2 wd = Ok c ->
  forall k r (y : Z -> R), (1 <= k <= n)%nat -> (r < nrep)%nat ->
    (forall j, (j1 <= j <= j2)%Z -> (0 < count m j r)%nat /\ at3 (cu_values c) (k - 1) r j = Fin (y j)) ->
    exists a b, at2 (cu_slope c) (k - 1) r = Fin a /\ at2 (cu_intercept c) (k - 1) r = Fin b /\
      is_best_line (fit_points wd m j1 j2 r y) a b /\
      at2 (cu_log_cumulants c) (k - 1) r = Fin (a / ln 2).
Proof.
  intros m g nrep n j1 j2 wd c HR H1 H2 H3 E k r y Hk Hr Hy.
  destruct (CUM_rows m g nrep n j1 j2 wd c HR H1 ltac:(lia) H3 E k r Hk Hr) as (A & B & D & F).
  assert (W : well_posed (fit_points wd m j1 j2 r y)) by (apply fit_well_posed; trivial; intros; now apply Hy).
  destruct (fit_finite wd m j1 j2 r y W) as [S I].
  exists (LReg.slope (fit_points wd m j1 j2 r y)), (LReg.icept (fit_points wd m j1 j2 r y)).
  assert (X : forall j, (j1 <= j <= j2)%Z -> Cval m n k r j = Fin (y j)).
  { intros j Hj. rewrite <- A by (eapply range_in; eassumption). now apply Hy. }
  assert (S' : fslope wd m j1 j2 r (Cval m n k r) = Fin (LReg.slope (fit_points wd m j1 j2 r y))) by (rewrite <- S; now apply fslope_ext).
  split; [now rewrite B|]. split; [rewrite D, <- I; now apply ficept_ext|]. split; [now apply best_line|].
  rewrite F, S'. cbn [xmul]. unfold log2_e. rewrite log2_exp. f_equal. field. assert (P := ln2_pos). lra.
Qed.
Print Assumptions C34_log_cumulants.

(** ** C35: shift invariance and homogeneity, at every order *)
Theorem C35_shift :
  forall m m' g g' nrep nrep' n j1 j2 j1' j2' wd wd' c c',
  regular m g nrep -> regular m' g' nrep' ->
  (1 <= j1)%Z -> (j1 <= j2)%Z -> (j2 <= Z.of_nat g)%Z -> (1 <= j1')%Z -> (j1' <= j2')%Z -> (j2' <= Z.of_nat g')%Z ->
  Cumulants m n j1 j2 wd = Ok c -> Cumulants m' n j1' j2' wd' = Ok c' ->
  forall r r' j j' a, (r < nrep)%nat -> (r' < nrep')%nat -> In j (scales m) -> In j' (scales m') ->
    usable m j r -> no_zero m j r -> usable m' j' r' -> no_zero m' j' r' ->
    (* ln|values'| = ln|values| + a *)
    logs m' j' r' = map (fun t => a + t) (logs m j r) ->
    forall k v, (1 <= k <= n)%nat -> at3 (cu_values c) (k - 1) r j = Fin v ->
      at3 (cu_values c') (k - 1) r' j' = Fin (if Nat.eqb k 1 then v + a else v).
Proof.
  intros m m' g g' nrep nrep' n j1 j2 j1' j2' wd wd' c c' HR HR' H1 H2 H3 H1' H2' H3' E E' r r' j j' a Hr Hr' Hj Hj' U Z U' Z' HL k v Hk Hv.
  destruct (CUM_rows m g nrep n j1 j2 wd c HR H1 H2 H3 E k r Hk Hr) as (A & _).
  destruct (CUM_rows m' g' nrep' n j1' j2' wd' c' HR' H1' H2' H3' E' k r' Hk Hr') as (A' & _).
  rewrite A, Cval_eq in Hv by trivial. injection Hv as <-. rewrite A', Cval_eq by trivial. f_equal.
  rewrite HL, kappa_shift by (try lia; now apply logs_nonempty).
  destruct k as [|[|]]; [lia| |]; cbn [Nat.eqb]; ring.
Qed.
Print Assumptions C35_shift.

Theorem C35_homogeneous :
  forall m m' g g' nrep nrep' n j1 j2 j1' j2' wd wd' c c',
  regular m g nrep -> regular m' g' nrep' ->
  (1 <= j1)%Z -> (j1 <= j2)%Z -> (j2 <= Z.of_nat g)%Z -> (1 <= j1')%Z -> (j1' <= j2')%Z -> (j2' <= Z.of_nat g')%Z ->
  Cumulants m n j1 j2 wd = Ok c -> Cumulants m' n j1' j2' wd' = Ok c' ->
  forall r r' j j' s, (r < nrep)%nat -> (r' < nrep')%nat -> In j (scales m) -> In j' (scales m') ->
    usable m j r -> no_zero m j r -> usable m' j' r' -> no_zero m' j' r' ->
    (* ln|values'| = s ln|values| *)
    logs m' j' r' = map (fun t => s * t) (logs m j r) ->
    forall k v, (1 <= k <= n)%nat -> at3 (cu_values c) (k - 1) r j = Fin v ->
      at3 (cu_values c') (k - 1) r' j' = Fin (s ^ k * v).
Proof.
  intros m m' g g' nrep nrep' n j1 j2 j1' j2' wd wd' c c' HR HR' H1 H2 H3 H1' H2' H3' E E' r r' j j' s Hr Hr' Hj Hj' U Z U' Z' HL k v Hk Hv.
  destruct (CUM_rows m g nrep n j1 j2 wd c HR H1 H2 H3 E k r Hk Hr) as (A & _).
  destruct (CUM_rows m' g' nrep' n j1' j2' wd' c' HR' H1' H2' H3' E' k r' Hk Hr') as (A' & _).
  rewrite A, Cval_eq in Hv by trivial. injection Hv as <-. rewrite A', Cval_eq by trivial. f_equal.
  rewrite HL. apply kappa_scale; [now apply logs_nonempty|lia].
Qed.
Print Assumptions C35_homogeneous.

(** ** C36: the accessors c<d>, C<d>, M *)
Definition digit (d : nat) : ascii := ascii_of_nat (48 + d).
Lemma select_rows_eq {A} (rows : list A) n k x0 : List.length rows = n -> (1 <= k <= n)%nat ->
  select_rows (seq 1 n) k rows = [nth (k - 1) rows x0].
Proof.
  intros Hl Hk. unfold select_rows.
  assert (G : forall (rows : list A) s, (s <= k < s + List.length rows)%nat ->
     map snd (filter (fun p => Nat.eqb (fst p) k) (combine (seq s (List.length rows)) rows)) = [nth (k - s) rows x0]).
  { clear. induction rows as [|a rows IH]; intros s H; simpl in H; [lia|]. cbn [List.length seq combine filter fst].
    assert (N : forall (rows : list A) s, (k < s)%nat -> filter (fun p => Nat.eqb (fst p) k) (combine (seq s (List.length rows)) rows) = []).
    { clear. induction rows as [|a rows IH]; intros s H; trivial. cbn [List.length seq combine filter fst].
      destruct (Nat.eqb_spec s k); [lia|]. apply IH. lia. }
    destruct (Nat.eqb_spec s k) as [->|Hn].
    - rewrite N by lia. rewrite Nat.sub_diag. reflexivity.
    - rewrite IH by lia. replace (k - s)%nat with (S (k - S s)) by lia. reflexivity. }
  rewrite <- Hl. apply G. lia.
Qed.
Lemma select_rows_out {A} (rows : list A) n k : (k = 0 \/ n < k)%nat -> select_rows (seq 1 n) k rows = [].
Proof.
  intros H. unfold select_rows.
  assert (G : forall (rows : list A) l, ~ In k l -> filter (fun p => Nat.eqb (fst p) k) (combine l rows) = []).
  { clear. intros rows l. revert rows. induction l as [|s l IH]; intros rows H; trivial. destruct rows; trivial. cbn [combine filter fst].
    destruct (Nat.eqb_spec s k); [exfalso; apply H; now left|]. apply IH. intros K. apply H. now right. }
  rewrite G; trivial. rewrite in_seq. lia.
Qed.
Theorem C36_accessors :
  forall m g nrep n j1 j2 wd c,
  regular m g nrep -> (1 <= j1)%Z -> (j1 <= j2)%Z -> (j2 <= Z.of_nat g)%Z ->
  Cumulants m n j1 j2 wd = Ok c ->
  (forall d, (1 <= d <= 9)%nat -> (d <= n)%nat ->
     cum_getattr c (String "c" (String (digit d) EmptyString)) = Ok (CLog [nth (d - 1) (cu_log_cumulants c) []]) /\
     cum_getattr c (String "C" (String (digit d) EmptyString)) = Ok (CVal [nth (d - 1) (cu_values c) []])) /\
  (forall d, (d <= 9)%nat -> (d = 0 \/ n < d)%nat ->
     cum_getattr c (String "c" (String (digit d) EmptyString)) = Ok (CLog []) /\
     cum_getattr c (String "C" (String (digit d) EmptyString)) = Ok (CVal [])) /\
  ((2 <= n)%nat -> cum_getattr c "M" = Ok (CLog [map xopp (nth 1 (cu_log_cumulants c) [])])).
Proof.
  intros m g nrep n j1 j2 wd c HR H1 H2 H3 E. rewrite (CUM_eq m g nrep HR) in E by trivial. injection E as <-.
  set (c := mkCum _ _ _ _ _ _ _ _ _ _ _ _ _).
  assert (L1 : List.length (cu_log_cumulants c) = n) by (cbn; now rewrite map_length, seq_length).
  assert (L2 : List.length (cu_values c) = n) by (cbn; now rewrite map_length, seq_length).
  assert (M : cu_m c = seq 1 n) by reflexivity. clearbody c.
  assert (D : forall d, (d <= 9)%nat -> is_digit (digit d) = true /\ digit_val (digit d) = d).
  { intros d Hd. do 10 (destruct d as [|d]; [split; reflexivity|]). lia. }
  split; [|split].
  - intros d Hd Hn. destruct (D d ltac:(lia)) as [D1 D2].
    unfold cum_getattr. cbn [Ascii.eqb Bool.eqb andb]. rewrite D1. cbn [andb]. rewrite D2, M.
    split; f_equal; f_equal; apply select_rows_eq; trivial; lia.
  - intros d Hd Hn. destruct (D d ltac:(lia)) as [D1 D2].
    unfold cum_getattr. cbn [Ascii.eqb Bool.eqb andb]. rewrite D1. cbn [andb]. rewrite D2, M.
    split; f_equal; f_equal; apply select_rows_out; trivial; lia.
  - intros Hn. unfold cum_getattr. rewrite M. f_equal. f_equal. rewrite (select_rows_eq _ n 2 []) by (trivial; lia). reflexivity.
Qed.
Print Assumptions C36_accessors.
(** every other name raises AttributeError *)
Theorem C36_unknown : forall c name,
  name <> "M"%string -> name <> EmptyString ->
  (forall d, (d <= 9)%nat -> name <> String "c" (String (digit d) EmptyString) /\ name <> String "C" (String (digit d) EmptyString)) ->
  cum_getattr c name = Err AttributeError.
Proof.
  intros c name HM HE HD.
  assert (Dg : forall d, is_digit d = true -> exists k, (k <= 9)%nat /\ d = digit k).
  { intros d H. exists (digit_val d). unfold is_digit, digit_val, digit in *.
    apply andb_prop in H as [A B]. apply Nat.leb_le in A. apply Nat.leb_le in B. split; [lia|].
    replace (48 + (nat_of_ascii d - 48))%nat with (nat_of_ascii d) by lia. now rewrite ascii_nat_embedding. }
  unfold cum_getattr. destruct name as [|a [|d [|e t]]]; [congruence| | |].
  - destruct a as [[] [] [] [] [] [] [] []]; try reflexivity. now contradiction HM.
  - destruct (is_digit d) eqn:Ed; [|rewrite !andb_false_r; destruct a as [[] [] [] [] [] [] [] []]; reflexivity].
    destruct (Dg d Ed) as (k & Hk & ->). destruct (HD k Hk) as [N1 N2].
    rewrite !andb_true_r.
    destruct (Ascii.eqb_spec a "c") as [->|]; [congruence|]. destruct (Ascii.eqb_spec a "C") as [->|]; [congruence|].
    destruct a as [[] [] [] [] [] [] [] []]; reflexivity.
  - destruct a as [[] [] [] [] [] [] [] []]; reflexivity.
Qed.
Print Assumptions C36_unknown.
