(** * C98: estimates depend only on the distribution of the magnitudes at every scale *)
From Coq Require Import Reals List ZArith Bool Lia Lra Permutation.
From Verif Require Import XReal PyBase ModelUtils ModelMRQ ModelStructure ModelCumulants ModelSpectrum ModelEstimation Spec SpecMRQ LXReal LUtils LBase LReg LEst LEntropy LMoment PropsSpectrum PropsMono.
Import ListNotations.
Open Scope R_scope.

(** ** Specification *)
(** the magnitudes stored in a column: absolute values of the entries which are not NaN *)
Definition magnitudes (c : col) : list xr := map xabs (filter (fun x => negb (isnan x)) c).
(** two columns hold the same magnitudes, in any order, with any signs and any number of NaN (both or none are empty arrays) *)
Definition same_column (c c' : col) : Prop := Permutation (magnitudes c) (magnitudes c') /\ (c = [] <-> c' = []).
(** two quantities with the same attributes and scales whose columns hold the same magnitudes *)
Definition same_distribution (m m' : mrq) : Prop :=
  mq_formalism m' = mq_formalism m /\ mq_gamint m' = mq_gamint m /\ mq_nj m' = mq_nj m /\
  Forall2 (fun kv kv' => fst kv = fst kv' /\ Forall2 same_column (snd kv) (snd kv')) (mq_values m) (mq_values m').

(** ** reductions only see the magnitudes *)
Lemma valid_map (h : xr -> xr) c : h NaN = NaN -> valid (map h c) = valid (map h (valid c)).
Proof.
  intros E. induction c as [|x c IH]; [reflexivity|]. unfold valid in *. cbn [map filter].
  destruct (notnan x) eqn:N; [cbn [map filter]; rewrite IH; reflexivity|]. assert (x = NaN) by (destruct x; cbn in N; congruence). subst x. rewrite E. exact IH.
Qed.
Lemma valid_idem c : valid (valid c) = valid c.
Proof. unfold valid. induction c as [|x c IH]; [reflexivity|]. cbn. destruct (notnan x) eqn:E; cbn; rewrite ?E, IH; reflexivity. Qed.
Lemma valid_mag (h : xr -> xr) c : h NaN = NaN -> valid (map (fun x => h (xabs x)) c) = valid (map h (magnitudes c)).
Proof. intros E. rewrite (valid_map (fun x => h (xabs x))) by exact E. unfold magnitudes. rewrite map_map. reflexivity. Qed.
Lemma valid_perm a b : Permutation a b -> Permutation (valid a) (valid b).
Proof.
  intros P. induction P as [|x a b P IH|x y a|a b d P1 IH1 P2 IH2]; unfold valid in *; cbn [filter].
  - constructor.
  - destruct (notnan x); [now constructor|exact IH].
  - destruct (notnan x), (notnan y); try apply Permutation_refl. apply perm_swap.
  - now transitivity (filter notnan b).
Qed.
Lemma reduce_same (h : xr -> xr) c c' : h NaN = NaN -> same_column c c' -> Permutation (valid (map (fun x => h (xabs x)) c)) (valid (map (fun x => h (xabs x)) c')).
Proof. intros E [P _]. rewrite !valid_mag by exact E. apply valid_perm. now apply Permutation_map. Qed.
Lemma nansum_same (h : xr -> xr) c c' : h NaN = NaN -> same_column c c' -> nansum (map (fun x => h (xabs x)) c) = nansum (map (fun x => h (xabs x)) c').
Proof. intros E S. unfold nansum. apply xsum_perm. now apply reduce_same. Qed.
Lemma nanmean_same (h : xr -> xr) c c' : h NaN = NaN -> same_column c c' -> nanmean (map (fun x => h (xabs x)) c) = nanmean (map (fun x => h (xabs x)) c').
Proof. intros E S. unfold nanmean. rewrite (nansum_same h c c') by trivial. unfold count_valid. now rewrite (Permutation_length (reduce_same h c c' E S)). Qed.
Lemma forallb_valid c : forallb isnan c = match valid c with [] => true | _ => false end.
Proof. unfold valid. induction c as [|x c IH]; [reflexivity|]. cbn. unfold notnan at 1. destruct (isnan x); cbn; [exact IH|reflexivity]. Qed.
Lemma fixednansum_same (h : xr -> xr) c c' : h NaN = NaN -> same_column c c' -> fixednansum (map (fun x => h (xabs x)) c) = fixednansum (map (fun x => h (xabs x)) c').
Proof.
  intros E S. unfold fixednansum. rewrite (nansum_same h c c') by trivial. rewrite !forallb_valid. assert (L := Permutation_length (reduce_same h c c' E S)).
  destruct (valid (map _ c)), (valid (map _ c')); cbn in L; congruence.
Qed.
Lemma xfmax_comm x y : xfmax x y = xfmax y x.
Proof. destruct x, y; cbn; trivial. f_equal. apply Rmax_comm. Qed.
Lemma xfmax_assoc x y z : xfmax x (xfmax y z) = xfmax (xfmax x y) z.
Proof. destruct x, y, z; cbn; trivial. f_equal. apply Rmax_assoc. Qed.
Lemma nanmax_perm a b : Permutation a b -> nanmax a = nanmax b.
Proof.
  intros P. induction P as [|x a b P IH|x y a|a b d P1 IH1 P2 IH2]; unfold nanmax in *; cbn [fold_right]; trivial.
  - now rewrite IH.
  - rewrite !xfmax_assoc. f_equal. apply xfmax_comm.
  - congruence.
Qed.
Lemma nanmax_valid c : nanmax (valid c) = nanmax c.
Proof.
  unfold valid, nanmax. induction c as [|x c IH]; [reflexivity|]. cbn [filter fold_right]. unfold notnan at 1. destruct (isnan x) eqn:E; cbn [negb fold_right]; [|now rewrite IH].
  assert (x = NaN) by (destruct x; cbn in E; congruence). subst x. rewrite IH. cbn. now destruct (fold_right xfmax NaN c).
Qed.
Lemma nanmax_same c c' : same_column c c' -> nanmax (map xabs c) = nanmax (map xabs c').
Proof. intros S. rewrite <- (nanmax_valid (map xabs c)), <- (nanmax_valid (map xabs c')). apply nanmax_perm. exact (reduce_same (fun x => x) c c' eq_refl S). Qed.

Lemma sf_same c c' e : same_column c c' -> sf_moment c e = sf_moment c' e.
Proof. intros S. unfold sf_moment. rewrite !fast_power_map, !map_map. apply (nanmean_same (fp1 e)); [apply fp1_NaN|exact S]. Qed.
Lemma log_moment_same c c' k : same_column c c' -> log_moment c k = log_moment c' k.
Proof. intros S. unfold log_moment. rewrite !fast_power_map, !map_map. apply (nanmean_same (fun x => fp1 (PyFloat (INR k)) (xln x))); [cbn [xln]; apply fp1_NaN|exact S]. Qed.
Lemma cum_list_ext mom mom' n : (forall k, mom k = mom' k) -> cum_list mom n = cum_list mom' n.
Proof.
  intros E. induction n as [|n IH]; [reflexivity|]. cbn [cum_list]. rewrite IH. do 2 f_equal. unfold cum_step. rewrite E. destruct (Nat.eqb (S n) 1); [reflexivity|]. f_equal.
  unfold cum_aux. generalize (Fin 0). induction (seq 1 (S n - 1)) as [|i l IHl]; intros acc; [reflexivity|]. cbn [fold_left]. now rewrite E, IHl.
Qed.
Lemma cum_same c c' n k : same_column c c' -> cum_value n c k = cum_value n c' k.
Proof. intros S. unfold cum_value. f_equal. apply cum_list_ext. intros i. now apply log_moment_same. Qed.
Lemma spec_R_map c e : spec_R c e = map (fun x => xdiv (fp1 e (xabs x)) (nansum (map (fun x => fp1 e (xabs x)) c))) c.
Proof. unfold spec_R. rewrite fast_power_map, !map_map. reflexivity. Qed.
Lemma spec_V_same c c' e : same_column c c' -> spec_V c e = spec_V c' e.
Proof.
  intros S. unfold spec_V. rewrite !spec_R_map, <- (nansum_same (fp1 e) c c') by (trivial; apply fp1_NaN). set (s := nansum _).
  assert (E : forall c, map2 xmul (map (fun x => xdiv (fp1 e (xabs x)) s) c) (map xlog2 (map xabs c)) = map (fun x => xmul (xdiv (fp1 e (xabs x)) s) (xlog2 (xabs x))) c).
  { intros d. rewrite map_map, map2_map. apply map2_diag. }
  rewrite !E. apply (fixednansum_same (fun x => xmul (xdiv (fp1 e x) s) (xlog2 x))); [|exact S]. rewrite fp1_NaN. reflexivity.
Qed.
Lemma spec_U_same n c c' e : same_column c c' -> spec_U n c e = spec_U n c' e.
Proof.
  intros S. unfold spec_U. f_equal. rewrite !spec_R_map, <- (nansum_same (fp1 e) c c') by (trivial; apply fp1_NaN). set (s := nansum _). rewrite !map_map.
  apply (fixednansum_same (fun x => xmul (xdiv (fp1 e x) s) (xlog2 (xdiv (fp1 e x) s)))); [|exact S]. rewrite fp1_NaN. reflexivity.
Qed.

(** ** columns of two such quantities *)
Lemma same_nil : same_column [] [].
Proof. split; [constructor|tauto]. Qed.
Lemma same_nth a a' r : Forall2 same_column a a' -> same_column (nth r a []) (nth r a' []).
Proof. intros F. revert r. induction F as [|x y a b S F IH]; intros [|r]; cbn; trivial; apply same_nil. Qed.
Lemma F2_length {A B} (P : A -> B -> Prop) l l' : Forall2 P l l' -> length l = length l'.
Proof. induction 1; cbn; congruence. Qed.
Lemma keys_same m m' : same_distribution m m' -> dict_keys (mq_values m') = dict_keys (mq_values m).
Proof. intros (_ & _ & _ & F). unfold dict_keys. induction F as [|kv kv' l l' [E _] F IH]; cbn [map]; [reflexivity|]; f_equal; [symmetry; exact E|exact IH]. Qed.
Lemma nrep_same m m' : same_distribution m m' -> mq_nrep m' = mq_nrep m.
Proof. intros (_ & _ & _ & F). unfold mq_nrep. destruct F as [|[k a] [k' a'] l l' [_ G] F]; [reflexivity|]. cbn in G. now rewrite (F2_length _ _ _ G). Qed.
Lemma map_values {X} (f : Z -> arr -> X) d d' :
  Forall2 (fun kv kv' => fst kv = fst kv' /\ Forall2 same_column (snd kv) (snd kv')) d d' ->
  (forall k a a', Forall2 same_column a a' -> f k a = f k a') ->
  map (fun kv => f (fst kv) (snd kv)) d = map (fun kv => f (fst kv) (snd kv)) d'.
Proof. intros F H. induction F as [|[k a] [k' a'] l l' [E G] F IH]; [reflexivity|]. cbn in *. subst k'. now rewrite IH, (H k a a' G). Qed.
Lemma cols_map {X} (f : col -> X) m m' r : same_distribution m m' -> (forall c c', same_column c c' -> f c = f c') -> map f (cols_of m' r) = map f (cols_of m r).
Proof.
  intros (_ & _ & _ & F) H. unfold cols_of. rewrite !map_map. symmetry. apply (map_values (fun _ a => f (nth r a []))); [exact F|]. intros k a a' G. apply H. now apply same_nth.
Qed.
Lemma getitem_same m m' j : same_distribution m m' ->
  match dict_getitem (mq_values m) j, dict_getitem (mq_values m') j with Ok a, Ok a' => Forall2 same_column a a' | Err e, Err e' => e = e' | _, _ => False end.
Proof.
  intros (_ & _ & _ & F). unfold dict_getitem. induction F as [|[k a] [k' a'] l l' [E G] F IH]; [reflexivity|]. cbn in *. subst k'. destruct (Z.eqb j k); [exact G|exact IH].
Qed.
Lemma mapM_ext {A B} (f g : A -> res B) l : (forall a, f a = g a) -> mapM f l = mapM g l.
Proof. intros H. induction l as [|a l IH]; cbn; [reflexivity|]. now rewrite H, IH. Qed.

(** ** C98 *)
(** reordering the coefficients of a scale, changing their signs, inserting or removing NaN: nothing returned by the estimators changes *)
Theorem C98_reordered : forall m m', same_distribution m m' -> forall j1 j2 weighted,
  (forall q, StructureFunction m' q j1 j2 weighted = StructureFunction m q j1 j2 weighted) /\
  (forall n, Cumulants m' n j1 j2 weighted = Cumulants m n j1 j2 weighted) /\
  (forall q, MultifractalSpectrum m' j1 j2 weighted q = MultifractalSpectrum m j1 j2 weighted q) /\
  (forall warn, estimate_hmin m' j1 j2 weighted warn = estimate_hmin m j1 j2 weighted warn).
Proof.
  intros m m' D j1 j2 wd. assert (K := keys_same m m' D). assert (R := nrep_same m m' D). destruct (D) as (Ef & Eg & En & F). repeat split.
  - intros q. unfold StructureFunction. rewrite R, Ef, Eg, En, K. destruct (mq_nrep m) as [nrep|]; [|reflexivity]. cbn [bind].
    replace (sf_compute m' nrep q) with (sf_compute m nrep q); [reflexivity|]. unfold sf_compute. apply map_ext. intros e. apply map_ext. intros r.
    symmetry. apply (cols_map (fun c => xlog2 (sf_moment c e))); [exact D|]. intros c c' S. now rewrite (sf_same c c' e S).
  - intros n. unfold Cumulants. rewrite R, Ef, En, K. destruct (mq_nrep m) as [nrep|]; [|reflexivity]. cbn [bind].
    replace (cum_compute m' nrep n) with (cum_compute m nrep n); [reflexivity|]. unfold cum_compute. apply map_ext. intros k. apply map_ext. intros r.
    symmetry. apply (cols_map (fun c => cum_value n c k)); [exact D|]. intros c c' S. now apply cum_same.
  - intros q. unfold MultifractalSpectrum. rewrite R, Ef, En, K. destruct (mq_nrep m) as [nrep|]; [|reflexivity]. cbn [bind].
    assert (C : match mapM (cols_nj m) (seq 0 nrep), mapM (cols_nj m') (seq 0 nrep) with
                | Ok l, Ok l' => Forall2 (Forall2 (fun p p' => same_column (fst p) (fst p') /\ snd p = snd p')) l l'
                | Err e, Err e' => e = e' | _, _ => False end).
    { assert (C1 : forall r, match cols_nj m r, cols_nj m' r with Ok l, Ok l' => Forall2 (fun p p' => same_column (fst p) (fst p') /\ snd p = snd p') l l' | Err e, Err e' => e = e' | _, _ => False end).
      { intros r. unfold cols_nj. rewrite En. clear K R D. induction F as [|[k a] [k' a'] l l' [E G] F IH]; [constructor|]. cbn [mapM fst snd] in *. subst k'.
        destruct (dict_getitem (mq_nj m) k) as [n|]; cbn [bind]; [|reflexivity].
        match type of IH with context [mapM ?f l] => destruct (mapM f l), (mapM f l') end; cbn [bind]; trivial. constructor; [|exact IH]. split; [now apply same_nth|reflexivity]. }
      induction (seq 0 nrep) as [|r l IH]; [constructor|]. cbn [mapM]. specialize (C1 r). destruct (cols_nj m r), (cols_nj m' r); cbn [bind]; trivial; try contradiction.
      destruct (mapM (cols_nj m) l), (mapM (cols_nj m') l); cbn [bind]; trivial. now constructor. }
    destruct (mapM (cols_nj m) (seq 0 nrep)) as [l|e], (mapM (cols_nj m') (seq 0 nrep)) as [l'|e']; try contradiction; [|subst; reflexivity]. cbn [bind].
    assert (T : forall f : col -> nat -> xr, (forall c c' n, same_column c c' -> f c n = f c' n) -> map (fun cn => map (fun p => f (fst p) (snd p)) cn) l' = map (fun cn => map (fun p => f (fst p) (snd p)) cn) l).
    { intros f Hf. clear K R D F. induction C as [|a a' l l' G C IH]; [reflexivity|]. cbn [map]. rewrite IH. f_equal. clear IH C. induction G as [|p p' a a' [S E] G IH]; [reflexivity|]. cbn [map]. rewrite IH, E. f_equal. symmetry. now apply Hf. }
    replace (map (fun e => map (fun cn => map (fun p => spec_U (snd p) (fst p) e) cn) l') (q_items q)) with (map (fun e => map (fun cn => map (fun p => spec_U (snd p) (fst p) e) cn) l) (q_items q)).
    2:{ apply map_ext. intros e. symmetry. apply (T (fun c n => spec_U n c e)). intros c c' n S. now apply spec_U_same. }
    replace (map (fun e => map (fun cn => map (fun p => spec_V (fst p) e) cn) l') (q_items q)) with (map (fun e => map (fun cn => map (fun p => spec_V (fst p) e) cn) l) (q_items q)); [reflexivity|].
    apply map_ext. intros e. symmetry. apply (T (fun c n => spec_V c e)). intros c c' n S. now apply spec_V_same.
  - intros warn. unfold estimate_hmin. assert (G1 := getitem_same m m' 1 D). destruct (dict_getitem (mq_values m) 1) as [a|e], (dict_getitem (mq_values m') 1) as [a'|e']; try contradiction; [|subst; reflexivity].
    cbn [bind]. rewrite <- (F2_length _ _ _ G1), En. destruct (j2 - j1 + 1 <? 0)%Z; [reflexivity|].
    match goal with |- bind (mapM ?f ?l) _ = bind (mapM ?g ?l) _ => rewrite (mapM_ext f g); [reflexivity|] end.
    intros j. assert (G := getitem_same m m' j D). destruct (dict_getitem (mq_values m) j) as [b|e], (dict_getitem (mq_values m') j) as [b'|e']; try contradiction; [|subst; reflexivity]. cbn [bind].
    apply mapM_ext. intros r. unfold sup_col. assert (S := same_nth b b' r G). destruct (proj2 S) as [N1 N2].
    destruct (nth r b []) as [|x c] eqn:E1, (nth r b' []) as [|x' c'] eqn:E2; try reflexivity; try (now specialize (N1 eq_refl)); try (now specialize (N2 eq_refl)). f_equal. symmetry. now apply nanmax_same.
Qed.

(** ** repeating every value the same number of times *)
(** [k] copies of a list, one after the other *)
Definition copies {A} (k : nat) (l : list A) : list A := concat (repeat l k).
(** m' holds, at every scale j, every magnitude of m exactly k j >= 1 times (in any order, with any signs, among any NaN), and its [nj] says so *)
Definition duplicated (k : Z -> nat) (m m' : mrq) : Prop :=
  mq_formalism m' = mq_formalism m /\ mq_gamint m' = mq_gamint m /\
  forall j r, (1 <= k j)%nat /\ Permutation (magnitudes (column m' j r)) (copies (k j) (magnitudes (column m j r))) /\
    count m' j r = (k j * count m j r)%nat.

Lemma copies_S {A} k (l : list A) : copies (S k) l = l ++ copies k l.
Proof. reflexivity. Qed.
Lemma copies_map {A B} (f : A -> B) k l : map f (copies k l) = copies k (map f l).
Proof. induction k as [|k IH]; [reflexivity|]. now rewrite !copies_S, map_app, IH. Qed.
Lemma copies_filter {A} (p : A -> bool) k l : filter p (copies k l) = copies k (filter p l).
Proof. induction k as [|k IH]; [reflexivity|]. now rewrite !copies_S, filter_app, IH. Qed.
Lemma copies_length {A} k (l : list A) : length (copies k l) = (k * length l)%nat.
Proof. induction k as [|k IH]; [reflexivity|]. rewrite copies_S, app_length, IH. lia. Qed.
Lemma copies_In {A} k (l : list A) x : In x (copies k l) -> In x l.
Proof. induction k as [|k IH]; [intros []|]. rewrite copies_S, in_app_iff. tauto. Qed.
Lemma xmul_one x : xmul (Fin 1) x = x.
Proof. destruct x; cbn; try reflexivity; [f_equal; ring|..]; unfold scale_inf; (destruct (Req_EM_T 1 0); [lra|]); (destruct (Rlt_dec 0 1); [reflexivity|lra]). Qed.
Lemma xmul_pos a i : 0 < a -> scale_inf a i = i.
Proof. intros H. unfold scale_inf. destruct (Req_EM_T a 0); [lra|]. destruct (Rlt_dec 0 a); [reflexivity|lra]. Qed.
Lemma xmul_succ a x : 0 < a -> xadd x (xmul (Fin a) x) = xmul (Fin (a + 1)) x.
Proof. intros H. destruct x; cbn [xmul]; rewrite ?xmul_pos by lra; cbn; try reflexivity. f_equal. ring. Qed.
Lemma xsum_copies k l : (1 <= k)%nat -> xsum (copies k l) = xmul (Fin (INR k)) (xsum l).
Proof.
  intros H. induction k as [|k IH]; [lia|]. rewrite copies_S, xsum_app. destruct k as [|k].
  - change (INR 1) with 1. rewrite xmul_one. change (xsum (copies 0 l)) with (Fin 0). destruct (xsum l); cbn; try reflexivity. f_equal. ring.
  - rewrite IH by lia. rewrite (S_INR (S k)). apply xmul_succ. apply lt_0_INR. lia.
Qed.
Lemma xdiv_copies k n x : (1 <= k)%nat -> xdiv (xmul (Fin (INR k)) x) (Fin (INR (k * n))) = xdiv x (Fin (INR n)).
Proof.
  intros H. assert (P : 0 < INR k) by (apply lt_0_INR; lia). rewrite mult_INR. assert (Q := pos_INR n). assert (Q2 : 0 <= INR k * INR n) by (apply Rmult_le_pos; lra).
  destruct x as [a| | |]; cbn [xmul]; rewrite ?xmul_pos by exact P; cbn [xdiv]; try reflexivity; try (destruct (Rlt_dec (INR n) 0); [lra|]; destruct (Rlt_dec (INR k * INR n) 0); [lra|reflexivity]).
  destruct (Req_EM_T (INR n) 0) as [E|E].
  - rewrite E, Rmult_0_r. destruct (Req_EM_T 0 0); [|lra]. destruct (Req_EM_T a 0) as [->|Na].
    + rewrite Rmult_0_r. destruct (Req_EM_T 0 0); [reflexivity|lra].
    + destruct (Req_EM_T (INR k * a) 0) as [Z|Z]; [exfalso; apply Rmult_integral in Z; lra|].
      destruct (Rlt_dec 0 a) as [L|L], (Rlt_dec 0 (INR k * a)) as [L'|L']; try reflexivity; exfalso.
      { apply L'. now apply Rmult_lt_0_compat. } { apply L. apply (Rmult_lt_reg_l (INR k)); lra. }
  - destruct (Req_EM_T (INR k * INR n) 0) as [Z|Z]; [exfalso; apply Rmult_integral in Z; lra|]. f_equal. field. lra.
Qed.
Section Copies.
Variables (k : nat) (c c' : col).
Hypothesis Hk : (1 <= k)%nat.
Hypothesis HP : Permutation (magnitudes c') (copies k (magnitudes c)).
Lemma reduce_copies (h : xr -> xr) : h NaN = NaN -> Permutation (valid (map (fun x => h (xabs x)) c')) (copies k (valid (map (fun x => h (xabs x)) c))).
Proof. intros E. rewrite !valid_mag by exact E. unfold valid at 2. rewrite <- copies_filter, <- copies_map. apply valid_perm. now apply Permutation_map. Qed.
Lemma nanmean_copies (h : xr -> xr) : h NaN = NaN -> nanmean (map (fun x => h (xabs x)) c') = nanmean (map (fun x => h (xabs x)) c).
Proof.
  intros E. assert (P := reduce_copies h E). unfold nanmean, nansum, count_valid. rewrite (xsum_perm _ _ P), xsum_copies, (Permutation_length P), copies_length by exact Hk.
  now apply xdiv_copies.
Qed.
Lemma xfmax_app a b : nanmax (a ++ b) = xfmax (nanmax a) (nanmax b).
Proof. unfold nanmax. induction a as [|x a IH]; cbn [app fold_right]; [now destruct (fold_right xfmax NaN b)|]. rewrite IH. apply xfmax_assoc. Qed.
Lemma nanmax_copies : nanmax (map xabs c') = nanmax (map xabs c).
Proof.
  rewrite <- (nanmax_valid (map xabs c)), <- (nanmax_valid (map xabs c')). assert (P := nanmax_perm _ _ (reduce_copies (fun x => x) eq_refl)). cbv beta in P.
  change (map (fun x => xabs x) c') with (map xabs c') in P. change (map (fun x => xabs x) c) with (map xabs c) in P. rewrite P. clear P HP. generalize (valid (map xabs c)). intros l. destruct k as [|n]; [lia|]. clear Hk. induction n as [|n IH]; [rewrite copies_S; cbn; now rewrite app_nil_r|].
  rewrite copies_S, xfmax_app, IH. destruct (nanmax l); cbn; try reflexivity. f_equal. apply Rmax_left. lra.
Qed.
Lemma sf_copies e : sf_moment c' e = sf_moment c e.
Proof. unfold sf_moment. rewrite !fast_power_map, !map_map. apply (nanmean_copies (fp1 e)), fp1_NaN. Qed.
Lemma cum_copies n i : cum_value n c' i = cum_value n c i.
Proof.
  unfold cum_value. f_equal. apply cum_list_ext. intros p. unfold log_moment. rewrite !fast_power_map, !map_map.
  apply (nanmean_copies (fun x => fp1 (PyFloat (INR p)) (xln x))). cbn [xln]. apply fp1_NaN.
Qed.
End Copies.

(** the fitted line does not change when all weights are multiplied by the same positive number *)
Lemma fit_rescaled_weights wd m m' j1 j2 r (c : R) y : (j1 <= j2)%Z -> 0 < c -> (forall j, (j1 <= j <= j2)%Z -> weight wd m' j r = c * weight wd m j r) ->
  fslope wd m' j1 j2 r y = fslope wd m j1 j2 r y /\ ficept wd m' j1 j2 r y = ficept wd m j1 j2 r y.
Proof.
  intros Hj Hc Hw. set (P := fpts wd m j1 j2 r). set (P' := fpts wd m' j1 j2 r).
  assert (EP : P' = map (fun p => (c * pw p, px p, py p)) P).
  { unfold P, P', fpts, fit_points. rewrite map_map. apply map_ext_in. intros j J. apply zrange_In in J. cbn. rewrite Hw by lia. reflexivity. }
  assert (E0 : S0 P' = c * S0 P). { unfold S0. rewrite EP, map_map, <- Rsum_map_scal. reflexivity. }
  assert (E1 : S1 P' = c * S1 P). { unfold S1. rewrite EP, map_map, <- Rsum_map_scal. apply Rsum_map_ext. intros p _. cbn. ring. }
  assert (E2 : S2 P' = c * S2 P). { unfold S2. rewrite EP, map_map, <- Rsum_map_scal. apply Rsum_map_ext. intros p _. cbn. ring. }
  assert (ED : D P' = c * c * D P). { unfold D. rewrite E0, E1, E2. ring. }
  assert (F : forall mm Q, Q = fpts wd mm j1 j2 r ->
     (D Q = 0 /\ fslope wd mm j1 j2 r y = NaN /\ ficept wd mm j1 j2 r y = NaN) \/
     (D Q <> 0 /\ fslope wd mm j1 j2 r y = xsum (map2 xmul (map (fun p => Fin (wsl Q p)) Q) (map y (zrange j1 (j2 + 1)))) /\
        ficept wd mm j1 j2 r y = xsum (map2 xmul (map (fun p => Fin (wic Q p)) Q) (map y (zrange j1 (j2 + 1)))))).
  { intros mm Q EQ. assert (L : length (map y (zrange j1 (j2 + 1))) = length Q) by (rewrite EQ; unfold fpts, fit_points; now rewrite !map_length).
    assert (E := fit3_ok wd mm j1 j2 r y). rewrite (wts_fin wd mm j1 j2 r (fun _ => 0)), (supp_fin wd mm j1 j2 r (fun _ => 0)) in E. fold (fpts wd mm j1 j2 r) in E. rewrite <- EQ in E.
    destruct (Req_EM_T (D Q) 0) as [HD|HD].
    - left. split; [exact HD|]. destruct (lr_D0 Q (map y (zrange j1 (j2 + 1)))) as [v Hv]; trivial.
      + rewrite EQ. unfold fpts, fit_points. intros K. apply (f_equal (@length _)) in K. rewrite map_length, zrange_length in K. simpl in K. lia.
      + intros p Hp. apply D0_weights; trivial. rewrite EQ. unfold fpts, fit_points. rewrite Forall_map, Forall_forall. intros j _. apply weight_nonneg.
      + rewrite E in Hv. injection Hv as Hv. unfold fslope, ficept. rewrite Hv. auto.
    - right. split; [exact HD|]. destruct (lr_general Q _ L HD) as [v Hv]. rewrite E in Hv. injection Hv as Hv. unfold fslope, ficept. rewrite Hv. auto. }
  destruct (F m P eq_refl) as [(Z & A & B)|(Z & A & B)], (F m' P' eq_refl) as [(Z' & A' & B')|(Z' & A' & B')].
  - now rewrite A, B, A', B'.
  - exfalso. apply Z'. rewrite ED, Z. ring.
  - exfalso. apply Z. rewrite ED in Z'. apply Rmult_integral in Z' as [Z'|Z']; [|exact Z']. apply Rmult_integral in Z'. lra.
  - rewrite A, B, A', B'. assert (M : forall f : point -> xr, map f P' = map (fun p => f (c * pw p, px p, py p)) P) by (intros f; rewrite EP; apply map_map).
    replace (map (fun p => Fin (wsl P' p)) P') with (map (fun p => Fin (wsl P p)) P).
    2:{ rewrite (M (fun p => Fin (wsl P' p))). apply map_ext. intros p. f_equal. unfold wsl. rewrite E0, E1, ED. cbn [pw px py fst snd]. destruct p as [[w x] yy]. cbn. field. lra. }
    replace (map (fun p => Fin (wic P' p)) P') with (map (fun p => Fin (wic P p)) P); [auto|].
    rewrite (M (fun p => Fin (wic P' p))). apply map_ext. intros p. f_equal. unfold wic. rewrite E1, E2, ED. destruct p as [[w x] yy]. cbn. field. lra.
Qed.

(** ** the spectrum sums over copies *)
Lemma mags_fin c : no_inf c -> magnitudes c = fin (map Rabs (reals c)).
Proof. intros N. unfold magnitudes. change (filter (fun x => negb (isnan x)) c) with (valid c). rewrite valid_no_inf by exact N. unfold fin. now rewrite !map_map. Qed.
Lemma Rsum_perm l l' : Permutation l l' -> Rsum l = Rsum l'.
Proof. intros P. induction P; unfold Rsum in *; cbn; lra. Qed.
Lemma Rsum_copies k l : Rsum (copies k l) = INR k * Rsum l.
Proof.
  induction k as [|k IH]; [cbn; ring|]. rewrite copies_S, S_INR. replace (Rsum (l ++ copies k l)) with (Rsum l + Rsum (copies k l)); [rewrite IH; ring|].
  unfold Rsum. clear IH. generalize (copies k l). intros m. induction l as [|x l IH]; cbn; [ring|]. rewrite <- IH. ring.
Qed.
Section SpecCopies.
Variables (k : nat) (l l' : list R).
Hypothesis Hk : (1 <= k)%nat.
Hypothesis HP : Permutation (map Rabs l') (copies k (map Rabs l)).
Lemma even_sum (F : R -> R) : (forall a, F (Rabs a) = F a) -> Rsum (map F l') = INR k * Rsum (map F l).
Proof.
  intros E. assert (M : forall m, map F m = map F (map Rabs m)) by (intros m; rewrite map_map; apply map_ext; intros a; now rewrite E).
  rewrite (M l'), (M l), (Rsum_perm _ _ (Permutation_map F HP)), copies_map. apply Rsum_copies.
Qed.
Lemma even_sum_nz (F : R -> R) : (forall a, F (Rabs a) = F a) -> Rsum (map F (nz l')) = INR k * Rsum (map F (nz l)).
Proof.
  intros E. assert (N : forall m, Rsum (map F (nz m)) = Rsum (map (fun a => if nzb a then F a else 0) m)).
  { intros m. unfold nz. induction m as [|a m IH]; [reflexivity|]. cbn [filter map]. destruct (nzb a) eqn:Z; cbn [map]; rewrite ?Z; unfold Rsum in *; cbn [fold_right]; rewrite IH; [reflexivity|ring]. }
  rewrite !N. apply even_sum. intros a. rewrite E. replace (nzb (Rabs a)) with (nzb a); [reflexivity|]. unfold nzb. destruct (Req_EM_T a 0) as [A|A], (Req_EM_T (Rabs a) 0) as [B|B]; trivial; exfalso.
  - apply B. rewrite A. apply Rabs_R0. - now apply Rabs_no_R0 in B.
Qed.
Lemma qpow_even q a : qpow q (Rabs a) = qpow q a.
Proof.
  unfold qpow, abs_pow. destruct (Req_EM_T q 0); [reflexivity|]. rewrite Rabs_Rabsolu. destruct (Req_EM_T a 0) as [A|A], (Req_EM_T (Rabs a) 0) as [B|B]; trivial; exfalso.
  - apply B. rewrite A. apply Rabs_R0. - now apply Rabs_no_R0 in B.
Qed.
Lemma qsum_copies q : qsum q l' = INR k * qsum q l.
Proof. unfold qsum. apply even_sum. intros a. apply qpow_even. Qed.
Lemma prob_copies q a : s_defined q l -> prob q l' a = / INR k * prob q l a.
Proof. intros S. assert (Q := qsum_pos q l S). assert (K : 0 < INR k) by (apply lt_0_INR; lia). unfold prob. rewrite qsum_copies. field. lra. Qed.
Lemma s_defined_copies q : s_defined q l -> s_defined q l'.
Proof.
  intros [A B]. assert (I : forall a, In a l' -> exists b, In b l /\ Rabs b = Rabs a).
  { intros a Ha. assert (X : In (Rabs a) (copies k (map Rabs l))) by (eapply Permutation_in; [exact HP|now apply in_map]). apply copies_In in X. apply in_map_iff in X as (b & E & Hb). eauto. }
  assert (J : forall a, In a l -> exists b, In b l' /\ Rabs b = Rabs a).
  { intros a Ha. assert (X : In (Rabs a) (map Rabs l')). { eapply Permutation_in; [apply Permutation_sym; exact HP|]. destruct k as [|n]; [lia|]. rewrite copies_S. apply in_or_app. left. now apply in_map. }
    apply in_map_iff in X as (b & E & Hb). eauto. }
  split.
  - destruct A as [A|A]; [now left|right]. rewrite Forall_forall in *. intros a Ha Z. destruct (I a Ha) as (b & Hb & E). apply (A b Hb). subst a. rewrite Rabs_R0 in E. destruct (Req_dec b 0) as [|N]; [assumption|]. now apply Rabs_no_R0 in N.
  - apply Exists_exists in B as (a & Ha & N). destruct (J a Ha) as (b & Hb & E). apply Exists_exists. exists b. split; [exact Hb|]. intros ->. rewrite Rabs_R0 in E. symmetry in E. now apply Rabs_no_R0 in N.
Qed.
Lemma Vr_copies q : s_defined q l -> Vr q l' = Vr q l.
Proof.
  intros S. assert (K : 0 < INR k) by (apply lt_0_INR; lia). unfold Vr.
  transitivity (Rsum (map (fun a => / INR k * (prob q l a * log2R (Rabs a))) (nz l'))).
  { apply Rsum_map_ext. intros a _. rewrite prob_copies by exact S. ring. }
  rewrite Rsum_map_scal, (even_sum_nz (fun a => prob q l a * log2R (Rabs a))); [field; lra|]. intros a. unfold prob. now rewrite qpow_even, Rabs_Rabsolu.
Qed.
Lemma Hr_copies q : s_defined q l -> Hr q l' = Hr q l - log2R (INR k).
Proof.
  intros S. assert (K : 0 < INR k) by (apply lt_0_INR; lia). unfold Hr.
  transitivity (Rsum (map (fun a => / INR k * (prob q l a * log2R (prob q l a) + - log2R (INR k) * prob q l a)) (nz l'))).
  { apply Rsum_map_ext. intros a Ha. apply nz_In in Ha as [_ Ha]. assert (P := prob_pos q l a S Ha). rewrite prob_copies by exact S. replace (/ INR k * prob q l a) with (prob q l a / INR k) by (field; lra).
    rewrite log2R_div by lra. field. lra. }
  rewrite Rsum_map_scal, (even_sum_nz (fun a => prob q l a * log2R (prob q l a) + - log2R (INR k) * prob q l a)).
  - rewrite Rsum_map_plus, Rsum_map_scal, prob_sum by exact S. field. lra.
  - intros a. unfold prob. now rewrite qpow_even.
Qed.
End SpecCopies.
Lemma no_inf_copies k c c' : no_inf c -> Permutation (magnitudes c') (copies k (magnitudes c)) -> no_inf c' /\ Permutation (map Rabs (reals c')) (copies k (map Rabs (reals c))).
Proof.
  intros N P. rewrite (mags_fin c N) in P. assert (N' : no_inf c').
  { unfold no_inf. apply Forall_forall. intros x Hx. destruct (isnan x) eqn:E; [left; destruct x; cbn in E; congruence|right].
    assert (X : In (xabs x) (copies k (fin (map Rabs (reals c))))). { eapply Permutation_in; [exact P|]. unfold magnitudes. apply in_map, filter_In. now rewrite E. }
    apply copies_In in X. unfold fin in X. apply in_map_iff in X as (a & X & _). destruct x as [b| | |]; cbn in X; try discriminate. eauto. }
  split; [exact N'|]. rewrite (mags_fin c' N') in P. unfold fin in P. rewrite <- copies_map in P. apply Permutation_map_inv in P as (l3 & E & P).
  assert (T : forall a b : list R, map Fin a = map Fin b -> a = b). { induction a as [|x a IH]; destruct b as [|y b]; cbn; intros X; try discriminate; [reflexivity|]. injection X as -> X. f_equal. now apply IH. }
  apply T in E. subst l3. now apply Permutation_sym.
Qed.

(** repeating every coefficient of scale j the same number of times (with [nj] multiplied accordingly) changes no estimate; with weighted = True the number must be the same at all fitted scales *)
Theorem C98_duplicated : forall m m' g nrep k, regular m g nrep -> regular m' g nrep -> duplicated k m m' ->
  forall j1 j2 weighted, (1 <= j1)%Z -> (j1 <= j2)%Z -> (j2 <= Z.of_nat g)%Z ->
  (weighted = true -> forall j, (j1 <= j <= j2)%Z -> k j = k j1) ->
  (forall qs, StructureFunction m' (QArr qs) j1 j2 weighted = StructureFunction m (QArr qs) j1 j2 weighted) /\
  (forall n, exists c c', Cumulants m n j1 j2 weighted = Ok c /\ Cumulants m' n j1 j2 weighted = Ok c' /\
     cu_values c' = cu_values c /\ cu_log_cumulants c' = cu_log_cumulants c /\ cu_slope c' = cu_slope c /\ cu_intercept c' = cu_intercept c) /\
  (forall warn h h', estimate_hmin m j1 j2 weighted warn = Ok h -> estimate_hmin m' j1 j2 weighted warn = Ok h' -> h' = h) /\
  (counted m -> counted m' -> forall q, exists s s', MultifractalSpectrum m j1 j2 weighted q = Ok s /\ MultifractalSpectrum m' j1 j2 weighted q = Ok s' /\
     forall i r, (i < List.length (q_items q))%nat -> (r < nrep)%nat -> (forall j, (j1 <= j <= j2)%Z -> spectrum_defined (q_at q i) m j r) ->
       at2 (ms_Dq s') i r = at2 (ms_Dq s) i r /\ at2 (ms_hq s') i r = at2 (ms_hq s) i r /\
       forall j, (j1 <= j <= j2)%Z -> at3 (ms_U s') i r j = at3 (ms_U s) i r j /\ at3 (ms_V s') i r j = at3 (ms_V s) i r j).
Proof.
  intros m m' g nrep k HR HR' (Ef & Eg & HD) j1 j2 wd H1 H2 H3 Hw.
  assert (FW : forall r y, fslope wd m' j1 j2 r y = fslope wd m j1 j2 r y /\ ficept wd m' j1 j2 r y = ficept wd m j1 j2 r y).
  { intros r y. destruct wd.
    - apply (fit_rescaled_weights true m m' j1 j2 r (INR (k j1)) y H2); [apply lt_0_INR; destruct (HD j1 r); lia|]. intros j Hj. unfold weight. destruct (HD j r) as (_ & _ & ->). rewrite mult_INR, (Hw eq_refl j Hj). reflexivity.
    - apply (fit_rescaled_weights false m m' j1 j2 r 1 y H2); [lra|]. intros j Hj. unfold weight. ring. }
  split; [|split; [|split]].
  - intros qs. rewrite (SF_eq m g nrep HR), (SF_eq m' g nrep HR') by trivial. destruct (has_two qs); [|reflexivity]. rewrite Ef, Eg.
    assert (L : forall q r j, logS m' q r j = logS m q r j). { intros q r j. unfold logS. destruct (HD j r) as (K & P & _). now rewrite (sf_copies (k j) (column m j r) (column m' j r) K P). }
    assert (Fs : forall q r, fslope wd m' j1 j2 r (logS m' q r) = fslope wd m j1 j2 r (logS m q r)). { intros q r. rewrite (proj1 (FW r _)). apply fslope_ext. intros j _. apply L. }
    assert (Fi : forall q r, ficept wd m' j1 j2 r (logS m' q r) = ficept wd m j1 j2 r (logS m q r)). { intros q r. rewrite (proj2 (FW r _)). apply ficept_ext. intros j _. apply L. }
    f_equal. f_equal.
    + apply map_ext. intros q. apply map_ext. intros r. apply map_ext. intros j. apply L.
    + apply map_ext. intros q. apply map_ext. intros r. apply Fs.
    + apply map_ext. intros q. apply map_ext. intros r. apply Fi.
    + apply map_ext. intros r. now rewrite Fs.
  - intros n. rewrite (CUM_eq m g nrep HR), (CUM_eq m' g nrep HR') by trivial. eexists; eexists. split; [reflexivity|]. split; [reflexivity|]. cbn [cu_values cu_log_cumulants cu_slope cu_intercept].
    assert (L : forall i r j, Cval m' n i r j = Cval m n i r j). { intros i r j. unfold Cval. destruct (HD j r) as (K & P & _). now apply (cum_copies (k j)). }
    assert (Fs : forall q r, fslope wd m' j1 j2 r (Cval m' n q r) = fslope wd m j1 j2 r (Cval m n q r)). { intros q r. rewrite (proj1 (FW r _)). apply fslope_ext. intros j _. apply L. }
    assert (Fi : forall q r, ficept wd m' j1 j2 r (Cval m' n q r) = ficept wd m j1 j2 r (Cval m n q r)). { intros q r. rewrite (proj2 (FW r _)). apply ficept_ext. intros j _. apply L. }
    repeat split; apply map_ext; intros q; apply map_ext; intros r; rewrite ?Fs, ?Fi; trivial. apply map_ext. intros j. apply L.
  - intros warn h h' E E'. apply (HMIN_rows m g nrep) in E; trivial. apply (HMIN_rows m' g nrep) in E'; trivial. subst h h'.
    assert (L : forall r j, lsup m' r j = lsup m r j). { intros r j. unfold lsup. destruct (HD j r) as (K & P & _). now rewrite (nanmax_copies (k j) (column m j r) (column m' j r) K P). }
    assert (Fs : forall r, fslope wd m' j1 j2 r (lsup m' r) = fslope wd m j1 j2 r (lsup m r)). { intros r. rewrite (proj1 (FW r _)). apply fslope_ext. intros j _. apply L. }
    assert (Fi : forall r, ficept wd m' j1 j2 r (lsup m' r) = ficept wd m j1 j2 r (lsup m r)). { intros r. rewrite (proj2 (FW r _)). apply ficept_ext. intros j _. apply L. }
    rewrite (map_ext _ _ Fs), (map_ext _ _ Fi). f_equal. apply map_ext. intros r. apply map_ext. intros j. apply L.
  - intros C C' q. assert (E := MFS_eq m g nrep HR q j1 j2 wd H1 H2 H3). assert (E' := MFS_eq m' g nrep HR' q j1 j2 wd H1 H2 H3).
    eexists; eexists. split; [exact E|]. split; [exact E'|]. intros i r Hi Hr S.
    destruct (MFS_rows m g nrep q j1 j2 wd _ HR H1 H2 H3 E i r Hi Hr) as (A & B & G). destruct (MFS_rows m' g nrep q j1 j2 wd _ HR' H1 H2 H3 E' i r Hi Hr) as (A' & B' & G'). rewrite B, B', G, G'.
    set (e := nth i (q_items q) (PyFloat 0)) in *.
    assert (Hj : forall j, (j1 <= j <= j2)%Z -> In j (scales m) /\ In j (scales m')). { intros j Hj. rewrite (proj1 (proj2 HR)), (proj1 (proj2 HR')). split; apply one_to_In; lia. }
    assert (L : forall j, (j1 <= j <= j2)%Z -> Uval m' e r j = Uval m e r j /\ Vval m' e r j = Vval m e r j).
    { intros j J. destruct (Hj j J) as [I I']. assert (Sj := S j J). change (q_at q i) with (num_val e) in Sj. destruct (HD j r) as (K & P & Cn). destruct Sj as ([N NE] & Sq).
      destruct (no_inf_copies (k j) _ _ N P) as [N' P']. assert (SD : s_defined (num_val e) (numbers m j r)) by exact Sq. assert (SD' := s_defined_copies (k j) _ _ K P' (num_val e) SD).
      assert (S' : spectrum_defined (num_val e) m' j r). { split; [|exact SD']. split; [exact N'|]. exact (s_nonempty _ _ SD'). }
      assert (SO : spectrum_defined (num_val e) m j r) by (split; [split; [exact N|exact NE]|exact Sq]).
      rewrite !Uval_eq, !Vval_eq by assumption. split; f_equal.
      - rewrite (Hr_copies (k j) (numbers m j r) (numbers m' j r) K P' (num_val e) SD).
        assert (Ln := Permutation_length P'). rewrite copies_length, !map_length in Ln. fold (numbers m j r) (numbers m' j r) in Ln. rewrite Ln, mult_INR, log2R_mult; [ring|apply lt_0_INR; lia|].
        apply lt_0_INR. destruct (numbers m j r); [congruence|cbn; lia].
      - exact (Vr_copies (k j) (numbers m j r) (numbers m' j r) K P' (num_val e) SD). }
    split; [f_equal; rewrite (proj1 (FW r _)); apply fslope_ext; intros j J; apply (L j J)|]. split; [rewrite (proj1 (FW r _)); apply fslope_ext; intros j J; apply (L j J)|].
    intros j J. destruct (Hj j J) as [I I']. destruct (A j I) as [-> ->], (A' j I') as [-> ->]. exact (L j J).
Qed.

(** ** A concrete case *)
(** [demo] with the first scale reordered, signs changed and a NaN moved, the second scale with a NaN more *)
Definition demo_mixed : mrq :=
  add_values (add_values (add_values (new_mrq WaveletCoef 0)
    [[NaN; Fin (-2); Fin (-2)]; [Fin 3; Fin (-1); Fin (-2)]] 1)
    [[Fin 4; Fin (-4)]; [NaN; Fin 5]] 2)
    [[Fin 8]; [Fin (-7)]] 3.
(** every coefficient of [demo] twice *)
Definition demo_twice : mrq :=
  add_values (add_values (add_values (new_mrq WaveletCoef 0)
    [[Fin 2; Fin 2; NaN; Fin (-2); Fin (-2); NaN]; [Fin 1; Fin 2; Fin 3; Fin 3; Fin 2; Fin (-1)]] 1)
    [[Fin 4; Fin 4; Fin 4; Fin (-4)]; [Fin 5; NaN; Fin 5; NaN]] 2)
    [[Fin (-8); Fin 8]; [Fin 7; Fin 7]] 3.
Ltac abs_solve := cbn; unfold copies; cbn; repeat match goal with |- context [Rabs ?x] => first [rewrite (Rabs_pos_eq x) by lra | rewrite (Rabs_left x) by lra] end; repeat match goal with |- context [Ropp (IZR (Zneg ?p))] => replace (Ropp (IZR (Zneg p))) with (IZR (Zpos p)) by lra end.
Example demo_mixed_same : same_distribution demo demo_mixed.
Proof.
  split; [reflexivity|]. split; [reflexivity|]. split; [reflexivity|].
  repeat (constructor; [split; [reflexivity|]; repeat (constructor; [split; [|cbn; split; intros X; discriminate]|]); try constructor; unfold magnitudes|]); try constructor; abs_solve; try apply Permutation_refl.
  - apply (Permutation_cons_app [Fin 3] [Fin 2]). cbn. apply (Permutation_cons_app [Fin 3] []). cbn. apply Permutation_refl.
Qed.
Example demo_twice_dup : duplicated (fun _ => 2%nat) demo demo_twice /\ regular demo_twice 3 2 /\ counted demo_twice.
Proof.
  split; [|split].
  - split; [reflexivity|]. split; [reflexivity|]. intros j r. split; [lia|]. unfold magnitudes, column, count. cbn [demo demo_twice].
    destruct (Z.eq_dec j 1) as [->|N1]; [|destruct (Z.eq_dec j 2) as [->|N2]; [|destruct (Z.eq_dec j 3) as [->|N3]]].
    1-3: (destruct r as [|[|r]]; [| |destruct r; cbn; split; [constructor|reflexivity|constructor|reflexivity]]); (split; [abs_solve; try apply Permutation_refl|reflexivity]).
    + do 3 apply perm_skip. exact (Permutation_sym (Permutation_rev [Fin 1; Fin 2; Fin 3])).
    + cbn. rewrite (proj2 (Z.eqb_neq j 1) N1), (proj2 (Z.eqb_neq j 2) N2), (proj2 (Z.eqb_neq j 3) N3). split; [constructor|reflexivity].
  - split; [lia|]. split; [reflexivity|]. split; [reflexivity|]. intros j a E. cbn in E. repeat (destruct (_ =? _)%Z in E; [injection E as <-; reflexivity|]). discriminate.
  - intros j a E. cbn in *. repeat (destruct (_ =? _)%Z; [injection E as <-; reflexivity|]). discriminate.
Qed.
Example demo_same_zeta wd : StructureFunction demo_mixed (QArr [-1; 0; 2]) 1 3 wd = StructureFunction demo (QArr [-1; 0; 2]) 1 3 wd /\
  StructureFunction demo_twice (QArr [-1; 0; 2]) 1 3 wd = StructureFunction demo (QArr [-1; 0; 2]) 1 3 wd.
Proof.
  split; [apply (C98_reordered _ _ demo_mixed_same)|]. destruct demo_twice_dup as (D & R & _).
  apply (C98_duplicated demo demo_twice 3 2 (fun _ => 2%nat) demo_regular R D 1 3 wd); [lia|lia|cbn; lia|reflexivity].
Qed.
Print Assumptions C98_reordered.
Print Assumptions C98_duplicated.
