(** * Lemmas on grids of panels *)
From Coq Require Import Reals List ZArith Bool Lia Lra Permutation.
From Verif Require Import XReal PyBase ModelUtils ModelMRQ ModelStructure ModelCumulants ModelBivariate ModelPSD ModelPlot.
Import ListNotations.

Lemma pos_eqb_eq p q : pos_eqb p q = true <-> p = q.
Proof. destruct p as [a b], q as [c d]. unfold pos_eqb. cbn [fst snd]. rewrite andb_true_iff, !Nat.eqb_eq. split; [intros [-> ->]; reflexivity|intros [= -> ->]; auto]. Qed.
Lemma foldM_app {A B} (f : A -> B -> res A) l l' a : foldM f (l ++ l') a = (x <- foldM f l a ;; foldM f l' x).
Proof. revert a. induction l as [|b l IH]; intros a; [reflexivity|]. cbn [app foldM]. destruct (f a b); [apply IH|reflexivity]. Qed.
Lemma ceil_div_spec n k : (1 <= k)%nat -> (n <= k * ceil_div n k)%nat /\ (forall i, (i < n)%nat -> (i / k < ceil_div n k)%nat) /\ (k * ceil_div n k < n + k)%nat.
Proof.
  intros Hk. unfold ceil_div. assert (D := Nat.div_mod (n + k - 1) k ltac:(lia)). assert (M := Nat.mod_upper_bound (n + k - 1) k ltac:(lia)).
  set (c := ((n + k - 1) / k)%nat) in *. refine (conj _ (conj _ _)); [lia| |lia].
  intros i Hi. apply Nat.div_lt_upper_bound; [lia|]. lia.
Qed.

Section Grid.
Variables (nrow a b : nat).
Hypothesis Hr : (1 <= nrow)%nat.
Hypothesis Ha : (a <= nrow)%nat.
Definition grid : list (nat * nat) := list_prod (seq 0 a) (seq 0 b).
Definition pos (i : nat) : nat * nat := ((i mod nrow)%nat, (i / nrow)%nat).
Definition idx (p : nat * nat) : nat := (snd p * nrow + fst p)%nat.
Definition in_grid (i : nat) : bool := Nat.ltb (i mod nrow) a && Nat.ltb (i / nrow) b.
Lemma panel_at_eq i : panel_at nrow a b i = if in_grid i then Ok (pos i) else Err IndexError.
Proof using Hr. unfold panel_at, in_grid. clear Ha. destruct (Nat.eqb_spec nrow 0); [lia|reflexivity]. Qed.
Lemma idx_pos i : idx (pos i) = i.
Proof using Hr. unfold idx, pos. clear Ha. cbn [fst snd]. rewrite Nat.mul_comm. symmetry. apply Nat.div_mod. lia. Qed.
Lemma pos_inj i j : pos i = pos j -> i = j.
Proof using Hr. intros H. now rewrite <- (idx_pos i), <- (idx_pos j), H. Qed.
Lemma pos_idx p : (fst p < nrow)%nat -> pos (idx p) = p.
Proof.
  destruct p as [r c]. cbn [fst]. intros H. unfold pos, idx. cbn [fst snd]. rewrite Nat.add_comm. f_equal.
  - rewrite Nat.mod_add by lia. now apply Nat.mod_small.
  - rewrite Nat.div_add by lia. rewrite Nat.div_small by trivial. lia.
Qed.
Lemma in_grid_pos p : In p grid <-> (fst p < a)%nat /\ (snd p < b)%nat.
Proof. destruct p as [r c]. unfold grid. rewrite in_prod_iff, !in_seq. cbn [fst snd]. lia. Qed.
Lemma in_grid_iff i : in_grid i = true <-> In (pos i) grid.
Proof. rewrite in_grid_pos. unfold in_grid. rewrite andb_true_iff, !Nat.ltb_lt. reflexivity. Qed.
Lemma NoDup_app_intro {A} (l m : list A) : NoDup l -> NoDup m -> (forall x, In x l -> ~ In x m) -> NoDup (l ++ m).
Proof.
  intros Hl Hm D. induction Hl as [|x l Hx Hl IH]; [exact Hm|]. cbn [app]. constructor.
  - rewrite in_app_iff. intros [K|K]; [contradiction|]. apply (D x); [now left|trivial].
  - apply IH. intros y Hy. apply D. now right.
Qed.
Lemma NoDup_list_prod {A B} (l : list A) (m : list B) : NoDup l -> NoDup m -> NoDup (list_prod l m).
Proof.
  intros Hl Hm. induction Hl as [|x l Hx Hl IH]; [constructor|]. cbn [list_prod]. apply NoDup_app_intro; trivial.
  - apply FinFun.Injective_map_NoDup; [|trivial]. intros y z [= ->]. reflexivity.
  - intros p Hp Hq. apply in_map_iff in Hp as [y [<- _]]. apply in_prod_iff in Hq as [Hq _]. contradiction.
Qed.
Lemma grid_NoDup : NoDup grid.
Proof. apply NoDup_list_prod; apply seq_NoDup. Qed.

(** the drawing loop *)
Variables (skip : nat -> bool) (l1 l2 : nat -> line).
Definition step (f : figure) (i : nat) : res figure :=
  if skip i then Ok f else p <- panel_at nrow a b i ;; Ok (draw p (l2 i) (draw p (l1 i) f)).
Definition content (k : nat) (p : nat * nat) : list line :=
  if Nat.ltb (idx p) k && negb (skip (idx p)) then [l1 (idx p); l2 (idx p)] else [].
Lemma draw_twice p x y (g : nat * nat -> list line) : draw p y (draw p x (map (fun q => (q, g q)) grid)) =
  map (fun q => (q, if pos_eqb q p then g q ++ [x; y] else g q)) grid.
Proof.
  unfold draw. rewrite !map_map. apply map_ext. intros q. cbn [fst snd]. destruct (pos_eqb q p) eqn:E; cbn [fst snd]; rewrite E; [|reflexivity]. now rewrite <- app_assoc.
Qed.
Lemma draws_ok k : (forall i, (i < k)%nat -> skip i = false -> in_grid i = true) ->
  foldM step (seq 0 k) (map (fun p => (p, [])) grid) = Ok (map (fun p => (p, content k p)) grid).
Proof.
  induction k as [|k IH]; intros H; [reflexivity|]. rewrite seq_S, foldM_app. rewrite IH by (intros; apply H; [lia|trivial]). cbn [bind foldM]. rewrite Nat.add_0_l.
  assert (Ext : forall p, In p grid -> (if skip k then content k p else if pos_eqb p (pos k) then content k p ++ [l1 k; l2 k] else content k p) = content (S k) p).
  { intros p Hp. apply in_grid_pos in Hp. unfold content. destruct (pos_eqb p (pos k)) eqn:E.
    - apply pos_eqb_eq in E. subst p. rewrite idx_pos. destruct (Nat.ltb_spec k k); [lia|]. destruct (Nat.ltb_spec k (S k)); [|lia]. cbn [andb app]. destruct (skip k); reflexivity.
    - assert (Ne : idx p <> k). { intros K. rewrite <- K, pos_idx in E by lia. rewrite (proj2 (pos_eqb_eq p p) eq_refl) in E. discriminate. }
      replace (Nat.ltb (idx p) (S k)) with (Nat.ltb (idx p) k) by (destruct (Nat.ltb_spec (idx p) k), (Nat.ltb_spec (idx p) (S k)); lia || reflexivity).
      destruct (skip k); reflexivity. }
  unfold step at 1. destruct (skip k) eqn:Es.
  - cbn [bind]. f_equal. apply map_ext_in. intros p Hp. now rewrite <- Ext.
  - rewrite panel_at_eq. rewrite (H k ltac:(lia) Es). cbn [bind]. f_equal. rewrite draw_twice. apply map_ext_in. intros p Hp. now rewrite <- Ext.
Qed.
Lemma draws_err k : (exists i, (i < k)%nat /\ skip i = false /\ in_grid i = false) ->
  foldM step (seq 0 k) (map (fun p => (p, [])) grid) = Err IndexError.
Proof.
  induction k as [|k IH]; intros [i [Hi [Hs Hg]]]; [lia|]. rewrite seq_S, foldM_app.
  destruct (existsb (fun i => negb (skip i) && negb (in_grid i)) (seq 0 k)) eqn:E.
  - apply existsb_exists in E as [i' [H1 H2]]. apply in_seq in H1. apply andb_true_iff in H2 as [H2 H3]. rewrite IH; [reflexivity|].
    exists i'. destruct (skip i'), (in_grid i'); try discriminate. split; [lia|auto].
  - assert (K : forall i, (i < k)%nat -> skip i = false -> in_grid i = true).
    { intros i' Hi' Hs'. destruct (in_grid i') eqn:G; [reflexivity|]. rewrite <- not_true_iff_false in E. exfalso. apply E. apply existsb_exists. exists i'.
      rewrite in_seq, Hs', G. split; [lia|reflexivity]. }
    rewrite draws_ok by exact K. cbn [bind foldM]. rewrite Nat.add_0_l. destruct (Nat.eq_dec i k) as [->|]; [|exfalso; rewrite K in Hg by (trivial; lia); discriminate].
    unfold step. rewrite Hs, panel_at_eq, Hg. reflexivity.
Qed.
(** removal of the panels from index k on *)
Lemma remove_gen k d (f : figure) : (forall i, (k <= i < k + d)%nat -> in_grid i = true) ->
  foldM (fun f i => p <- panel_at nrow a b i ;; Ok (delaxes p f)) (seq k d) f =
  Ok (filter (fun q => negb (existsb (fun i => pos_eqb (fst q) (pos i)) (seq k d))) f).
Proof.
  revert k f. induction d as [|d IH]; intros k f H.
  - cbn [seq foldM existsb negb]. f_equal. induction f as [|q f IHf]; [reflexivity|]. cbn [filter]. now rewrite <- IHf.
  - cbn [seq foldM existsb]. rewrite panel_at_eq, (H k) by lia. cbn [bind]. rewrite IH by (intros; apply H; lia). f_equal. unfold delaxes.
    clear. induction f as [|q f IHf]; [reflexivity|]. cbn [filter]. destruct (pos_eqb (fst q) (pos k)); cbn [negb orb]; [exact IHf|]. cbn [filter].
    destruct (negb (existsb _ (seq (S k) d))); now rewrite IHf.
Qed.
Lemma full_in_grid i : a = nrow -> (i < a * b)%nat -> in_grid i = true.
Proof.
  intros E H. unfold in_grid. apply andb_true_iff. rewrite !Nat.ltb_lt. split; [rewrite E; apply Nat.mod_upper_bound; lia|].
  apply Nat.div_lt_upper_bound; lia.
Qed.
Lemma filter_map_swap {A B} (h : A -> B) t (l : list A) : filter t (map h l) = map h (filter (fun x => t (h x)) l).
Proof. induction l as [|x l IH]; [reflexivity|]. cbn [map filter]. destruct (t (h x)); cbn [map]; now rewrite IH. Qed.
Lemma idx_bound p : a = nrow -> In p grid -> (idx p < a * b)%nat.
Proof. intros E H. apply in_grid_pos in H. unfold idx. nia. Qed.
Lemma remove_ok k (g : nat * nat -> list line) : a = nrow ->
  remove_from nrow a b k (map (fun p => (p, g p)) grid) = Ok (map (fun p => (p, g p)) (filter (fun p => Nat.ltb (idx p) k) grid)).
Proof.
  intros E. unfold remove_from. rewrite remove_gen by (intros i Hi; apply full_in_grid; [trivial|lia]). f_equal.
  rewrite filter_map_swap. f_equal. apply filter_ext_in. intros p Hp. cbn [fst].
  assert (B := idx_bound p E Hp). apply in_grid_pos in Hp. destruct (Nat.ltb_spec (idx p) k) as [L|L].
  - apply negb_true_iff. apply not_true_iff_false. intros K. apply existsb_exists in K as [i [Hi K]]. apply in_seq in Hi. apply pos_eqb_eq in K. subst p. rewrite idx_pos in L. lia.
  - apply negb_false_iff. apply existsb_exists. exists (idx p). rewrite in_seq, pos_eqb_eq, pos_idx by lia. split; [lia|reflexivity].
Qed.
Lemma remove_none k (f : figure) : (a * b <= k)%nat -> remove_from nrow a b k f = Ok f.
Proof using. intros H. unfold remove_from. clear Hr Ha. replace (a * b - k)%nat with 0%nat by lia. reflexivity. Qed.
(** the surviving panels are those of the indices below k which are in the grid *)
Lemma survivors k : Permutation (filter (fun p => Nat.ltb (idx p) k) grid) (map pos (filter in_grid (seq 0 k))).
Proof.
  apply NoDup_Permutation.
  - apply NoDup_filter, grid_NoDup.
  - apply FinFun.Injective_map_NoDup; [intros x y; apply pos_inj|]. apply NoDup_filter, seq_NoDup.
  - intros p. rewrite filter_In, Nat.ltb_lt, in_map_iff. split.
    + intros [H1 H2]. exists (idx p). assert (H1' := H1). apply in_grid_pos in H1'. assert (Q := pos_idx p ltac:(lia)). split; [trivial|].
      apply filter_In. rewrite in_seq. split; [lia|]. apply in_grid_iff. now rewrite Q.
    + intros [i [<- Hi]]. apply filter_In in Hi as [Hi G]. apply in_seq in Hi. rewrite idx_pos. split; [now apply in_grid_iff|lia].
Qed.
End Grid.
