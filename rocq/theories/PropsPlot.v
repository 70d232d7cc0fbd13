(** * C75, C76: the panels drawn by Cumulants.plot and StructureFunction.plot *)
From Coq Require Import Reals List ZArith Bool Lia Lra Permutation.
From Verif Require Import XReal PyBase ModelUtils ModelMRQ ModelStructure ModelCumulants ModelBivariate ModelPSD ModelPlot Spec SpecMRQ LXReal LBase LEst LPlot.
Import ListNotations.
Open Scope R_scope.
Local Notation length := List.length.

(** a figure shows exactly one panel for each index in [shown], all at different places, and nothing else; the panel of index i
    holds the curves [c i] *)
Definition one_panel_each (fig : figure) (shown : list nat) (c : nat -> list line) : Prop :=
  exists pos : nat -> nat * nat, (forall i j, pos i = pos j -> i = j) /\ Permutation fig (map (fun i => (pos i, c i)) shown).

Lemma foldM_ext {A B} (f h : A -> B -> res A) l a : (forall x b, In b l -> f x b = h x b) -> foldM f l a = foldM h l a.
Proof.
  revert a. induction l as [|b l IH]; intros a H; [reflexivity|]. cbn [foldM]. rewrite H by now left.
  destruct (h a b); [|reflexivity]. cbn [bind]. apply IH. intros x b' Hb. apply H. now right.
Qed.
Lemma dims_pos n k : (1 <= n)%nat -> (1 <= k)%nat -> (1 <= ceil_div n k)%nat.
Proof. intros Hn Hk. destruct (ceil_div_spec n k Hk) as [H _]. destruct (ceil_div n k); lia. Qed.
(** drawing then removing, on a full grid *)
Lemma plot_panels nrow b n skip l1 l2 : (1 <= nrow)%nat -> (forall i, (i < n)%nat -> skip i = false -> in_grid nrow nrow b i = true) ->
  exists fig, (f <- foldM (step nrow nrow b skip l1 l2) (seq 0 n) (map (fun p => (p, [])) (grid nrow b)) ;; remove_from nrow nrow b n f) = Ok fig /\
  one_panel_each fig (filter (in_grid nrow nrow b) (seq 0 n)) (fun i => if skip i then [] else [l1 i; l2 i]).
Proof.
  intros Hr Hg. rewrite draws_ok by (trivial; lia). cbn [bind]. rewrite (remove_ok nrow nrow b Hr (Nat.le_refl _)) by reflexivity. eexists. split; [reflexivity|].
  exists (pos nrow). split; [intros i j; now apply pos_inj|].
  eapply Permutation_trans; [apply Permutation_map, (survivors nrow nrow b Hr (Nat.le_refl _))|]. rewrite map_map.
  match goal with |- Permutation ?x ?y => replace x with y; [apply Permutation_refl|] end.
  apply map_ext_in. intros i Hi. apply filter_In in Hi as [Hi _]. apply in_seq in Hi. f_equal. unfold content. rewrite idx_pos by trivial.
  destruct (Nat.ltb_spec i n); [|lia]. cbn [andb]. destruct (skip i); reflexivity.
Qed.
Lemma filter_all {A} (t : A -> bool) l : (forall x, In x l -> t x = true) -> filter t l = l.
Proof. intros H. induction l as [|x l IH]; [reflexivity|]. cbn [filter]. rewrite H by now left. f_equal. apply IH. intros y Hy. apply H. now right. Qed.
Lemma subplots_eq a b : (1 <= a)%nat -> (1 <= b)%nat -> subplots a b = Ok (map (fun p => (p, [])) (grid a b)).
Proof. intros Ha Hb. unfold subplots, grid. destruct (Nat.eqb_spec a 0); [lia|]. destruct (Nat.eqb_spec b 0); [lia|]. reflexivity. Qed.
Lemma grid_all n nrow i : (1 <= nrow)%nat -> (i < n)%nat -> in_grid nrow nrow (ceil_div n nrow) i = true.
Proof.
  intros Hr Hi. unfold in_grid. apply andb_true_iff. rewrite !Nat.ltb_lt. split; [apply Nat.mod_upper_bound; lia|]. now apply ceil_div_spec.
Qed.

(** ** C75 *)
(** the curve C_m(j) against j, then the regression line between j1 and j2, labelled with the log-cumulant; i = m - 1 *)
Definition cum_curves (c : cumulants) (i : nat) : list line :=
  [mkLine (map (fun z => Fin (IZR z)) (cu_j c)) (hd [] (nth i (cu_values c) [])) None;
   let s := hd NaN (nth i (cu_slope c) []) in let t := hd NaN (nth i (cu_intercept c) []) in
   mkLine [Fin (IZR (cu_j1 c)); Fin (IZR (cu_j2 c))] [xadd (xmul s (Fin (IZR (cu_j1 c)))) t; xadd (xmul s (Fin (IZR (cu_j2 c)))) t]
          (Some (hd NaN (nth i (cu_log_cumulants c) [])))].

(** for a single realisation every order has its own panel with its curve and its regression line, and no other panel remains;
    for several realisations the panels are all empty *)
Theorem C75_cumulants_plot c nrow n : length (cu_m c) = n -> (1 <= n)%nat -> (1 <= nrow)%nat ->
  exists fig, cum_plot c nrow = Ok fig /\ length fig = n /\
    (cu_nrep c = 1%nat -> one_panel_each fig (seq 0 n) (cum_curves c)) /\
    (cu_nrep c <> 1%nat -> one_panel_each fig (seq 0 n) (fun _ => [])).
Proof.
  intros En Hn Hr. unfold cum_plot. rewrite En. set (nr := Nat.min nrow n). assert (Hnr : (1 <= nr)%nat) by (unfold nr; lia).
  assert (D : grid_dims n nr = Ok (nr, ceil_div n nr)).
  { unfold grid_dims. destruct (Nat.ltb_spec 1 n); [destruct (Nat.eqb_spec nr 0); [lia|reflexivity]|]. assert (N1 : n = 1%nat) by lia.
    assert (R1 : nr = 1%nat) by (unfold nr; lia). rewrite R1, N1. reflexivity. }
  rewrite D. cbn [bind]. assert (Hb := dims_pos n nr Hn Hnr). rewrite subplots_eq by lia. cbn [bind].
  set (b := ceil_div n nr) in *.
  set (l1 := fun i => nth 0 (cum_curves c i) (mkLine [] [] None)). set (l2 := fun i => nth 1 (cum_curves c i) (mkLine [] [] None)).
  set (skip := fun i : nat => negb (Nat.eqb (cu_nrep c) 1)).
  rewrite (foldM_ext _ (step nr nr b skip l1 l2)).
  2:{ intros f i Hi. apply in_seq in Hi. unfold step, skip. rewrite panel_at_eq by lia. unfold b. rewrite grid_all by lia. fold b. cbn [bind].
      destruct (Nat.eqb (cu_nrep c) 1); reflexivity. }
  destruct (plot_panels nr b n skip l1 l2 Hnr) as [fig [E P]]; [intros i Hi _; now apply grid_all|].
  exists fig. destruct n as [|n']; [lia|]. split; [exact E|]. rewrite filter_all in P by (intros x Hx; apply in_seq in Hx; apply grid_all; lia).
  refine (conj _ (conj _ _)).
  - destruct P as [ps [_ P]]. apply Permutation_length in P. now rewrite map_length, seq_length in P.
  - intros E1. destruct P as [ps [I P]]. exists ps. split; [exact I|]. unfold skip in P. rewrite E1 in P. exact P.
  - intros E1. destruct P as [ps [I P]]. exists ps. split; [exact I|]. unfold skip in P. destruct (Nat.eqb_spec (cu_nrep c) 1); [contradiction|]. exact P.
Qed.
(** every Cumulants object of a regular quantity with n_cumul >= 1 can be plotted; with n_cumul = 0 plot raises UnboundLocalError *)
Theorem C75_constructed m g nrep n j1 j2 wd nrow : regular m g nrep -> (1 <= j1)%Z -> (j1 <= j2)%Z -> (j2 <= Z.of_nat g)%Z -> (1 <= nrow)%nat ->
  exists c, Cumulants m n j1 j2 wd = Ok c /\ length (cu_m c) = n /\ cu_nrep c = nrep /\ cu_j c = one_to g /\ cu_j1 c = j1 /\ cu_j2 c = j2 /\
    ((1 <= n)%nat -> exists fig, cum_plot c nrow = Ok fig /\ length fig = n) /\ (n = 0%nat -> cum_plot c nrow = Err UnboundLocalError).
Proof.
  intros HR H1 H2 H3 Hr. rewrite (CUM_eq m g nrep HR n j1 j2 wd H1 H2 H3). eexists. split; [reflexivity|]. cbn [cu_m cu_nrep cu_j cu_j1 cu_j2]. rewrite seq_length.
  refine (conj eq_refl (conj eq_refl (conj eq_refl (conj eq_refl (conj eq_refl (conj _ _)))))).
  - intros Hn. match goal with |- exists fig, cum_plot ?c _ = _ /\ _ => destruct (C75_cumulants_plot c nrow n) as [fig [E [L _]]]; [cbn [cu_m]; apply seq_length|exact Hn|exact Hr|] end. exists fig. split; [exact E|exact L].
  - intros ->. unfold cum_plot. cbn [cu_m seq length]. rewrite Nat.min_0_r. reflexivity.
Qed.

(** ** C76 *)
Definition sf_curves (s : structure) (i : nat) : list line :=
  [mkLine (map (fun z => Fin (IZR z)) (sf_j s)) (hd [] (nth i (sf_logvalues s) [])) None;
   let z := hd NaN (nth i (sf_zeta s) []) in let t := hd NaN (nth i (sf_intercept s) []) in
   mkLine [Fin (IZR (sf_j1 s)); Fin (IZR (sf_j2 s))] [xadd (xmul z (Fin (IZR (sf_j1 s)))) t; xadd (xmul z (Fin (IZR (sf_j2 s)))) t] (Some z)].
(** order number i is left out *)
Definition left_out (ignore_q0 : bool) (qs : list R) (i : nat) : bool := if Req_EM_T (nth i qs 1) 0 then ignore_q0 else false.
(** the arguments for which the grid is one panel too small *)
Definition too_small (ignore_q0 : bool) (qs : list R) (nrow : nat) : Prop :=
  ignore_q0 = true /\ In 0 qs /\ last qs 1 <> 0 /\ (length qs = 2%nat \/ Nat.divide (Nat.min nrow (length qs)) (length qs - 1)).

Lemma grid_last n nrow : (1 <= nrow)%nat -> (1 <= n)%nat -> in_grid nrow nrow (ceil_div n nrow) n = true <-> ~ Nat.divide nrow n.
Proof.
  intros Hr Hn. unfold in_grid. rewrite andb_true_iff, !Nat.ltb_lt. destruct (ceil_div_spec n nrow Hr) as [A [_ B]].
  assert (D := Nat.div_mod n nrow ltac:(lia)). assert (M := Nat.mod_upper_bound n nrow ltac:(lia)). rewrite <- Nat.mod_divide by lia. split.
  - intros [_ K] Z. rewrite Z in D. nia.
  - intros Z. split; [trivial|]. nia.
Qed.
Lemma last_nth_R (l : list R) d : last l d = nth (length l - 1) l d.
Proof. induction l as [|x [|y l] IH]; [reflexivity|reflexivity|]. change (last (x :: y :: l) d) with (last (y :: l) d). rewrite IH. cbn [length Nat.sub nth]. now rewrite Nat.sub_0_r. Qed.

Theorem C76_structure_plot m g qs j1 j2 wd s nrow ignore_q0 : regular m g 1 -> (1 <= j1)%Z -> (j1 <= j2)%Z -> (j2 <= Z.of_nat g)%Z -> (1 <= nrow)%nat ->
  StructureFunction m (QArr qs) j1 j2 wd = Ok s ->
  (sf_plot s nrow ignore_q0 = Err IndexError <-> too_small ignore_q0 qs nrow) /\
  (~ too_small ignore_q0 qs nrow -> exists fig shown, sf_plot s nrow ignore_q0 = Ok fig /\
     NoDup shown /\ incl shown (seq 0 (length qs)) /\ (forall i, (i < length qs)%nat -> left_out ignore_q0 qs i = false -> In i shown) /\
     one_panel_each fig shown (fun i => if left_out ignore_q0 qs i then [] else sf_curves s i)).
Proof.
  intros HR H1 H2 H3 Hr Es. rewrite (SF_eq m g 1 HR qs j1 j2 wd H1 H2 H3) in Es. destruct (has_two qs) eqn:E2; [|discriminate]. apply has_two_In in E2.
  set (n := length qs). assert (Hn : (1 <= n)%nat) by (destruct qs; [destruct E2|cbn [length] in n; lia]).
  assert (Sq : sf_q s = QArr qs) by (injection Es as <-; reflexivity).
  assert (Single : forall i, (i < n)%nat -> exists v z c, nth i (sf_logvalues s) [] = [v] /\ nth i (sf_zeta s) [] = [z] /\ nth i (sf_intercept s) [] = [c]).
  { intros i Hi. injection Es as <-. cbn [sf_logvalues sf_zeta sf_intercept seq map].
    assert (Q : forall {A} (h : pynum -> A), nth i (map (fun q => [h q]) (map PyFloat qs)) [] = [h (nth i (map PyFloat qs) (PyInt 1))]).
    { intros A h. rewrite (nth_indep _ [] ((fun q => [h q]) (PyInt 1))) by (rewrite !map_length; exact Hi). now rewrite (map_nth (fun q => [h q])). }
    eexists _, _, _. exact (conj (Q _ (fun q => map (logS m q 0) (one_to g))) (conj (Q _ (fun q => fslope wd m j1 j2 0 (logS m q 0))) (Q _ (fun q => ficept wd m j1 j2 0 (logS m q 0))))). }
  clear Es. unfold sf_plot. rewrite Sq. cbn [q_items]. rewrite map_length. fold n.
  set (nr := Nat.min nrow n). assert (Hnr : (1 <= nr)%nat) by (unfold nr; lia).
  set (zero := existsb is_q0 (map PyFloat qs) && ignore_q0).
  assert (Zero : zero = true <-> ignore_q0 = true /\ In 0 qs).
  { unfold zero. rewrite andb_true_iff, existsb_exists. split.
    - intros [[q [Hq K]] ->]. split; [reflexivity|]. apply in_map_iff in Hq as [x [<- Hx]]. unfold is_q0 in K. cbn [num_val] in K. destruct (Req_EM_T x 0); [now subst|discriminate].
    - intros [-> K]. split; [|reflexivity]. exists (PyFloat 0). split; [now apply in_map|]. unfold is_q0. cbn [num_val]. destruct (Req_EM_T 0 0); congruence. }
  set (skip := left_out ignore_q0 qs).
  assert (Sk : forall i, (i < n)%nat -> is_q0 (nth i (map PyFloat qs) (PyInt 1)) && ignore_q0 = skip i).
  { intros i Hi. rewrite (nth_indep _ _ (PyFloat 1)) by (now rewrite map_length). rewrite map_nth. unfold is_q0, skip, left_out. cbn [num_val]. destruct (Req_EM_T (nth i qs 1) 0), ignore_q0; reflexivity. }
  assert (SkZ : forall i, (i < n)%nat -> skip i = true -> zero = true).
  { intros i Hi K. apply Zero. unfold skip, left_out in K. destruct (Req_EM_T (nth i qs 1) 0) as [K0|]; [|discriminate]. split; [exact K|]. rewrite <- K0. now apply nth_In. }
  set (l1 := fun i => nth 0 (sf_curves s i) (mkLine [] [] None)). set (l2 := fun i => nth 1 (sf_curves s i) (mkLine [] [] None)).
  (* the loop in an a x b grid *)
  assert (Loop : forall a b f, foldM (fun f i => if is_q0 (nth i (map PyFloat qs) (PyInt 1)) && ignore_q0 then Ok f else
             p <- panel_at nr a b i ;;
             match nth i (sf_logvalues s) [], nth i (sf_zeta s) [], nth i (sf_intercept s) [] with
             | [v], [z], [c] => Ok (draw p (reg_line (sf_j1 s) (sf_j2 s) z c z) (draw p (mkLine (ModelPlot.scales (sf_j s)) v None) f))
             | _, _, _ => Err TypeError end) (seq 0 n) f = foldM (step nr a b skip l1 l2) (seq 0 n) f).
  { intros a b f. apply foldM_ext. intros f' i Hi. apply in_seq in Hi. rewrite Sk by lia. unfold step. destruct (skip i); [reflexivity|].
    destruct (panel_at nr a b i); [|reflexivity]. cbn [bind]. destruct (Single i ltac:(lia)) as [v [z [c [Q1 [Q2 Q3]]]]].
    unfold l1, l2, sf_curves. rewrite Q1, Q2, Q3. reflexivity. }
  assert (Lst : n <> 0%nat -> last qs 1 <> 0 <-> nth (n - 1) qs 1 <> 0) by (intros _; now rewrite last_nth_R).
  assert (Enr : nr = Nat.min nrow n) by reflexivity. clearbody nr. destruct n as [|n'] eqn:En; [lia|]. rewrite <- En in *.
  (* a full grid *)
  assert (Full : forall b, (1 <= b)%nat -> (forall i, (i < n)%nat -> skip i = false -> in_grid nr nr b i = true) ->
     exists fig shown, (f <- subplots nr b ;; f <- foldM (step nr nr b skip l1 l2) (seq 0 n) f ;; remove_from nr nr b n f) = Ok fig /\
       NoDup shown /\ incl shown (seq 0 n) /\ (forall i, (i < n)%nat -> skip i = false -> In i shown) /\
       one_panel_each fig shown (fun i => if skip i then [] else sf_curves s i)).
  { intros b Hb Hg. rewrite subplots_eq by lia. cbn [bind]. destruct (plot_panels nr b n skip l1 l2 Hnr Hg) as [fig [E P]].
    exists fig, (filter (in_grid nr nr b) (seq 0 n)). refine (conj E (conj _ (conj _ (conj _ _)))).
    - apply NoDup_filter, seq_NoDup.
    - intros i Hi. now apply filter_In in Hi.
    - intros i Hi K. apply filter_In. rewrite in_seq. split; [lia|auto].
    - destruct P as [ps [I P]]. exists ps. split; [exact I|]. exact P. }
  assert (Fin1 : forall (x : res figure) (T : Prop), ~ T ->
     (exists fig shown, x = Ok fig /\ NoDup shown /\ incl shown (seq 0 n) /\ (forall i, (i < n)%nat -> skip i = false -> In i shown) /\ one_panel_each fig shown (fun i => if skip i then [] else sf_curves s i)) ->
     (x = Err IndexError <-> T) /\ (~ T -> exists fig shown, x = Ok fig /\ NoDup shown /\ incl shown (seq 0 n) /\ (forall i, (i < n)%nat -> skip i = false -> In i shown) /\ one_panel_each fig shown (fun i => if skip i then [] else sf_curves s i))).
  { intros x T HT K. split; [|auto]. split; [|contradiction]. destruct K as [fig [sh [K _]]]. congruence. }
  assert (Fin2 : forall (x : res figure) (T U : Prop), T -> x = Err IndexError -> (x = Err IndexError <-> T) /\ (~ T -> U)) by (intros x T U HT Hx; split; [tauto|contradiction]).
  destruct zero eqn:Ez.
  - (* a zero order is ignored *)
    assert (Z1 := proj1 Zero eq_refl). destruct Z1 as [Ig Z1].
    assert (Hn2 : (2 <= n)%nat). { destruct qs as [|x [|y qs']]; [destruct E2| |unfold n; cbn [length]; lia]. destruct E2 as [->|[]], Z1 as [Z1|[]]. lra. }
    destruct (Nat.eq_dec n 2) as [N2|N2].
    + rewrite N2. cbn [Nat.sub]. unfold grid_dims. cbn [Nat.ltb Nat.leb bind]. rewrite <- N2.
      rewrite subplots_eq by lia. cbn [bind]. rewrite Loop.
      assert (G0 : in_grid nr 1 1 0 = true). { unfold in_grid. rewrite Nat.mod_small, Nat.div_small by lia. reflexivity. }
      assert (G1 : in_grid nr 1 1 1 = false). { unfold in_grid. assert (Cs : nr = 1%nat \/ nr = 2%nat) by lia. destruct Cs as [-> | ->]; reflexivity. }
      destruct (skip 1%nat) eqn:S1.
      * apply Fin1.
        { intros [_ [_ [K _]]]. apply (proj1 (Lst ltac:(lia))) in K. apply K. rewrite N2. cbn [Nat.sub]. unfold skip, left_out in S1. destruct (Req_EM_T (nth 1 qs 1) 0); [trivial|discriminate]. }
        rewrite draws_ok; [|lia|lia|]. 2:{ intros i Hi K. assert (i = 0%nat \/ i = 1%nat) as [-> | ->] by lia; [exact G0|congruence]. }
        cbn [bind]. rewrite remove_none by lia. eexists _, [0%nat]. split; [reflexivity|]. refine (conj _ (conj _ (conj _ _))).
        -- repeat constructor. intros [].
        -- intros i [<-|[]]. apply in_seq. lia.
        -- intros i Hi K. assert (i = 0%nat \/ i = 1%nat) as [-> | ->] by lia; [now left|congruence].
        -- exists (pos nr). split; [intros i j; apply pos_inj; lia|]. unfold grid. cbn [seq list_prod map app]. unfold content, idx. cbn [fst snd Nat.mul Nat.add].
           destruct (Nat.ltb_spec 0 n); [|lia]. cbn [andb]. replace (pos nr 0) with (0%nat, 0%nat) by (unfold pos; rewrite Nat.mod_small, Nat.div_small by lia; reflexivity).
           destruct (skip 0%nat); reflexivity.
      * apply Fin2.
        { refine (conj Ig (conj Z1 (conj _ (or_introl N2)))). apply (proj2 (Lst ltac:(lia))). rewrite N2. cbn [Nat.sub]. intros K. unfold skip, left_out in S1. destruct (Req_EM_T (nth 1 qs 1) 0); [congruence|contradiction]. }
        rewrite draws_err; [reflexivity|lia|lia|]. exists 1%nat. split; [lia|auto].
    + unfold grid_dims. destruct (Nat.ltb_spec 1 (n - 1)); [|lia]. destruct (Nat.eqb_spec nr 0); [lia|]. cbn [bind].
      set (b := ceil_div (n - 1) nr). assert (Hb : (1 <= b)%nat) by (apply dims_pos; lia).
      assert (GA : forall i, (i < n - 1)%nat -> in_grid nr nr b i = true) by (intros i Hi; now apply grid_all).
      assert (GL := grid_last (n - 1) nr Hnr ltac:(lia)). fold b in GL.
      destruct (skip (n - 1)%nat) eqn:S1; [|destruct (in_grid nr nr b (n - 1)) eqn:G1].
        destruct (Full b Hb) as [fig [shown [F1 F2]]].
        { intros i Hi K. apply GA. destruct (Nat.eq_dec i (n - 1)) as [->|]; [congruence|lia]. }
        apply Fin1.
        { intros [_ [_ [K _]]]. apply (proj1 (Lst ltac:(lia))) in K. apply K. unfold skip, left_out in S1. destruct (Req_EM_T (nth (n - 1) qs 1) 0); [trivial|discriminate]. }
        exists fig, shown. split; [|exact F2]. rewrite subplots_eq in F1 |- * by lia. cbn [bind] in F1 |- *. rewrite Loop. exact F1.
      * destruct (Full b Hb) as [fig [shown [F1 F2]]].
        { intros i Hi K. destruct (Nat.eq_dec i (n - 1)) as [->|]; [exact G1|apply GA; lia]. }
        apply Fin1.
        { intros [_ [_ [_ [K|K]]]]; [fold n in K; lia|]. fold n in K. rewrite <- Enr in K. exact (proj1 GL eq_refl K). }
        exists fig, shown. split; [|exact F2]. rewrite subplots_eq in F1 |- * by lia. cbn [bind] in F1 |- *. rewrite Loop. exact F1.
      * rewrite subplots_eq by lia. cbn [bind]. rewrite Loop. apply Fin2.
        { refine (conj Ig (conj Z1 (conj _ (or_intror _)))).
          - apply (proj2 (Lst ltac:(lia))). intros K. unfold skip, left_out in S1. destruct (Req_EM_T (nth (n - 1) qs 1) 0); [congruence|contradiction].
          - fold n. rewrite <- Enr. rewrite <- Nat.mod_divide by lia. destruct (Nat.eq_dec ((n - 1) mod nr) 0) as [|Nz]; [trivial|]. exfalso.
            assert (K : ~ Nat.divide nr (n - 1)) by (rewrite <- Nat.mod_divide by lia; exact Nz). apply (proj2 GL) in K. congruence. }
        rewrite draws_err; [reflexivity|lia|lia|]. exists (n - 1)%nat. split; [lia|auto].
  - (* no order is left out *)
    assert (NS : forall i, (i < n)%nat -> skip i = false). { intros i Hi. destruct (skip i) eqn:K; [|reflexivity]. apply (SkZ i Hi) in K. discriminate. }
    assert (D : grid_dims n nr = Ok (nr, ceil_div n nr)).
    { unfold grid_dims. destruct (Nat.ltb_spec 1 n); [destruct (Nat.eqb_spec nr 0); [lia|reflexivity]|]. assert (N1 : n = 1%nat) by lia. assert (R1 : nr = 1%nat) by lia. rewrite R1, N1. reflexivity. }
    rewrite D. cbn [bind]. set (b := ceil_div n nr). assert (Hb : (1 <= b)%nat) by (apply dims_pos; lia).
    destruct (Full b Hb) as [fig [shown [F1 F2]]]; [intros i Hi _; now apply grid_all|]. apply Fin1.
    { intros [K1 [K2 _]]. assert (K := proj2 Zero (conj K1 K2)). discriminate. }
    exists fig, shown. split; [|exact F2]. rewrite subplots_eq in F1 |- * by lia. cbn [bind] in F1 |- *. rewrite Loop. exact F1.
Qed.
Print Assumptions C75_cumulants_plot.
Print Assumptions C76_structure_plot.

(** the default arguments: with the orders -2, -1, 0, 1, 2 (the zero order is left out by default, nrow is 4 by default) plot raises
    IndexError, whatever the quantity *)
Theorem C76_default_refuted m g j1 j2 wd : regular m g 1 -> (1 <= j1)%Z -> (j1 <= j2)%Z -> (j2 <= Z.of_nat g)%Z ->
  exists s, StructureFunction m (QArr [-2; -1; 0; 1; 2]) j1 j2 wd = Ok s /\ sf_plot s 4 true = Err IndexError.
Proof.
  intros HR H1 H2 H3. assert (E := SF_eq m g 1 HR [-2; -1; 0; 1; 2] j1 j2 wd H1 H2 H3).
  destruct (has_two [-2; -1; 0; 1; 2]) eqn:E2.
  2:{ exfalso. rewrite <- not_true_iff_false in E2. apply E2, has_two_In. cbn [In]. auto 6. }
  eexists. split; [exact E|]. apply (C76_structure_plot m g [-2; -1; 0; 1; 2] j1 j2 wd _ 4 true HR H1 H2 H3 ltac:(lia) E).
  refine (conj eq_refl (conj _ (conj _ (or_intror _)))).
  - cbn [In]. auto 6.
  - cbn [last]. intros K. lra.
  - exists 1%nat. reflexivity.
Qed.
(** with several realisations plot never returns *)
Lemma foldM_fails {A B} (f : A -> B -> res A) l b : In b l -> (forall a, exists e, f a b = Err e) -> forall a, exists e, foldM f l a = Err e.
Proof.
  intros Hb Hf. induction l as [|c l IH]; [destruct Hb|]. intros a. cbn [foldM]. destruct (f a c) as [a'|e] eqn:E; [|exists e; reflexivity]. cbn [bind].
  destruct Hb as [->|Hb]; [|now apply IH]. destruct (Hf a) as [e E']. congruence.
Qed.
Theorem C76_several_refuted m g nrep qs j1 j2 wd s nrow ignore_q0 : regular m g nrep -> (2 <= nrep)%nat -> (1 <= j1)%Z -> (j1 <= j2)%Z -> (j2 <= Z.of_nat g)%Z ->
  StructureFunction m (QArr qs) j1 j2 wd = Ok s -> forall fig, sf_plot s nrow ignore_q0 <> Ok fig.
Proof.
  intros HR Hn H1 H2 H3 Es fig. rewrite (SF_eq m g nrep HR qs j1 j2 wd H1 H2 H3) in Es. destruct (has_two qs) eqn:E2; [|discriminate]. apply has_two_In in E2.
  apply In_nth with (d := 1) in E2 as [i [Hi Ei]].
  injection Es as <-. unfold sf_plot. cbn [sf_q sf_logvalues sf_zeta sf_intercept sf_j sf_j1 sf_j2 q_items]. rewrite map_length.
  destruct (grid_dims _ _) as [[a b]|]; [|discriminate]. cbn [bind]. destruct (subplots a b) as [f|]; [|discriminate]. cbn [bind].
  match goal with |- (x <- foldM ?F ?l f ;; _) <> _ => assert (K : exists e, foldM F l f = Err e) end.
  2:{ destruct K as [e K]. rewrite K. discriminate. }
  apply foldM_fails with (b := i); [apply in_seq; lia|]. intros f'.
  assert (Q0 : is_q0 (nth i (map PyFloat qs) (PyInt 1)) = false).
  { rewrite (nth_indep _ _ (PyFloat 1)) by (now rewrite map_length). rewrite map_nth, Ei. unfold is_q0. cbn [num_val]. destruct (Req_EM_T 2 0); [lra|reflexivity]. }
  rewrite Q0. cbn [andb]. destruct (panel_at _ a b i) as [p|e]; [|exists e; reflexivity]. cbn [bind].
  rewrite (nth_indep (map (fun q => map (fun r => map (logS m q r) (one_to g)) (seq 0 nrep)) (map PyFloat qs)) [] ((fun q => map (fun r => map (logS m q r) (one_to g)) (seq 0 nrep)) (PyInt 1))) by (now rewrite !map_length).
  rewrite (map_nth (fun q => map (fun r => map (logS m q r) (one_to g)) (seq 0 nrep))).
  destruct nrep as [|[|nrep]]; [lia|lia|]. eexists. reflexivity.
Qed.
Print Assumptions C76_default_refuted.
Print Assumptions C76_several_refuted.
(** orders without 0, or with the zero order kept: plot always returns (one panel per order) *)
Theorem C76_returns m g qs j1 j2 wd s nrow ignore_q0 : regular m g 1 -> (1 <= j1)%Z -> (j1 <= j2)%Z -> (j2 <= Z.of_nat g)%Z -> (1 <= nrow)%nat ->
  StructureFunction m (QArr qs) j1 j2 wd = Ok s -> (ignore_q0 = false \/ ~ In 0 qs) ->
  exists fig, sf_plot s nrow ignore_q0 = Ok fig /\ one_panel_each fig (seq 0 (length qs)) (sf_curves s).
Proof.
  intros HR H1 H2 H3 Hr Es Hi. destruct (C76_structure_plot m g qs j1 j2 wd s nrow ignore_q0 HR H1 H2 H3 Hr Es) as [_ K].
  assert (NT : ~ too_small ignore_q0 qs nrow) by (intros [U1 [U2 _]]; destruct Hi as [->|Hi]; [discriminate|contradiction]).
  destruct (K NT) as [fig [shown [E [ND [I1 [I2 [ps [Hp P]]]]]]]].
  assert (L : forall i, (i < length qs)%nat -> left_out ignore_q0 qs i = false).
  { intros i Hi'. unfold left_out. destruct (Req_EM_T (nth i qs 1) 0) as [U|]; [|reflexivity]. destruct Hi as [->|Hi]; [reflexivity|]. exfalso. apply Hi. rewrite <- U. now apply nth_In. }
  exists fig. split; [exact E|]. exists ps. split; [exact Hp|].
  assert (Q : Permutation shown (seq 0 (length qs))).
  { apply NoDup_Permutation; [exact ND|apply seq_NoDup|]. intros i. split; [apply I1|]. intros Hs. apply in_seq in Hs. apply I2; [lia|]. apply L; lia. }
  eapply Permutation_trans; [exact P|]. eapply Permutation_trans; [apply Permutation_map, Q|].
  match goal with |- Permutation ?x ?y => replace x with y; [apply Permutation_refl|] end.
  apply map_ext_in. intros i Hs. apply in_seq in Hs. now rewrite L by lia.
Qed.
(** plot_scaling draws one curve zeta(q) per realisation, and needs two orders *)
Theorem C76_scaling m g nrep qs j1 j2 wd s : regular m g nrep -> (1 <= j1)%Z -> (j1 <= j2)%Z -> (j2 <= Z.of_nat g)%Z ->
  StructureFunction m (QArr qs) j1 j2 wd = Ok s ->
  (length qs = 1%nat -> sf_plot_scaling s = Err AssertionError) /\
  ((2 <= length qs)%nat -> exists ls, sf_plot_scaling s = Ok ls /\ length ls = nrep /\
     forall r i, (r < nrep)%nat -> (i < length qs)%nat -> let l := nth r ls (mkLine [] [] None) in
       length (ln_x l) = length qs /\ length (ln_y l) = length qs /\ nth i (ln_x l) NaN = Fin (nth i qs 0) /\ nth i (ln_y l) NaN = nth r (nth i (sf_zeta s) []) NaN).
Proof.
  intros HR H1 H2 H3 Es. rewrite (SF_eq m g nrep HR qs j1 j2 wd H1 H2 H3) in Es. destruct (has_two qs); [|discriminate].
  assert (Lz : length (sf_zeta s) = length qs) by (injection Es as <-; cbn [sf_zeta]; now rewrite !map_length).
  assert (Sq : sf_q s = QArr qs) by (injection Es as <-; reflexivity). assert (Sn : sf_nrep s = nrep) by (injection Es as <-; reflexivity). clear Es.
  unfold sf_plot_scaling. rewrite Sq, Sn. cbn [q_items]. rewrite map_length. split.
  - intros ->. reflexivity.
  - intros L2. destruct (Nat.ltb_spec 1 (length qs)); [|lia]. cbn [assert_ bind]. eexists. split; [reflexivity|]. split; [now rewrite map_length, seq_length|].
    intros r i Hr Hi. cbv zeta. match goal with |- context [nth r ?L ?d] => set (l := nth r L d) end. 
    assert (El : l = mkLine (map (fun q => Fin (num_val q)) (map PyFloat qs)) (map (fun z => nth r z NaN) (sf_zeta s)) None).
    { unfold l. match goal with |- nth r (map ?h _) ?d = _ => rewrite (nth_indep _ d (h 0%nat)) by (now rewrite map_length, seq_length); rewrite (map_nth h) end. now rewrite seq_nth by trivial. }
    rewrite El. cbn [ln_x ln_y]. rewrite !map_length. refine (conj eq_refl (conj Lz (conj _ _))).
    + rewrite map_map. cbn [num_val]. rewrite (nth_indep _ NaN (Fin 0)) by (now rewrite map_length). now rewrite (map_nth Fin).
    + rewrite (nth_indep _ NaN ((fun z => nth r z NaN) [])) by (rewrite map_length; lia). now rewrite (map_nth (fun z => nth r z NaN)).
Qed.
