(** * Properties C05-C12: utils.py, multiresquantity.py, decomposition level *)
From Coq Require Import Reals List ZArith Bool Lra Lia Permutation Sorted.
From Verif Require Import XReal PyBase ModelUtils ModelMRQ ModelWavelet Spec LXReal LUtils LBase.
Import ListNotations.
Open Scope R_scope.

(** ** C05: fast_power is the elementwise power, NaN kept *)
Theorem C05_fast_power : forall (c : list xr) (e : pynum),
  no_inf c ->
  length (fast_power c e) = length c /\
  forall i, (i < length c)%nat ->
    (nth i c NaN = NaN -> nth i (fast_power c e) NaN = NaN) /\
    (forall a, nth i c NaN = Fin a -> is_power a (num_val e) (nth i (fast_power c e) NaN)).
Proof.
  intros c e Hc. rewrite fast_power_map. split; [apply map_length|].
  intros i Hi.
  rewrite (nth_map_lt _ _ _ NaN) by trivial.
  split.
  - intros ->. apply fp1_NaN.
  - intros a ->. apply fp1_Fin.
Qed.
Print Assumptions C05_fast_power.

(** the relation [is_power] determines the value: NaN comes out only of NaN or
    of a fractional power of a negative number *)
Theorem C05_power_unique : forall a e v w, is_power a e v -> is_power a e w -> v = w.
Proof.
  intros a e v w H K.
  destruct (Rtotal_order a 0) as [N|[->|P]].
  2:{ destruct (Rtotal_order e 0) as [N|[->|P]].
      - assert (forall u, is_power 0 e u -> u = PInf).
        { intros u Hu. remember 0 as z eqn:E in Hu. destruct Hu; subst; try lra; try reflexivity.
          assert (Q := pos_INR n). lra. }
        rewrite (H0 v H), (H0 w K). reflexivity.
      - now rewrite (is_power_e0 0 v H), (is_power_e0 0 w K).
      - now rewrite (is_power_0 e v H P), (is_power_0 e w K P). }
  2:{ now rewrite (is_power_pos a e v P H), (is_power_pos a e w P K). }
  destruct H; try lra.
  - symmetry. now apply is_power_nat.
  - remember (- INR n) as e eqn:E in K. destruct K; try lra.
    + symmetry in E. destruct (INR_minus_inv _ _ E) as [-> ->]. f_equal. simpl. lra.
    + assert (n0 = n) by (apply INR_eq; lra). subst. reflexivity.
    + exfalso. apply (H1 (- Z.of_nat n)%Z). rewrite opp_IZR, <- INR_IZR_INZ. trivial.
  - destruct K; try lra; trivial; exfalso.
    + apply (H0 (Z.of_nat n)). apply INR_IZR_INZ.
    + apply (H0 (- Z.of_nat n)%Z). now rewrite opp_IZR, <- INR_IZR_INZ.
Qed.
Print Assumptions C05_power_unique.

Example C05_case : no_inf [Fin 2; NaN; Fin (-3)].
Proof. repeat (constructor; [first [now left | right; eexists; reflexivity]|]); constructor. Qed.

(** ** C06: NaN-aware sum and maximum *)
Theorem C06_fixednansum : forall c : list xr, no_inf c ->
  (fixednansum c = NaN <-> Forall (eq NaN) c) /\
  (~ Forall (eq NaN) c -> fixednansum c = Fin (Rsum (reals c))).
Proof.
  intros c H. unfold fixednansum.
  assert (A : forallb isnan c = true <-> Forall (eq NaN) c).
  { rewrite forallb_forall, Forall_forall. split; intros K v Hv.
    - specialize (K v Hv). destruct v; simpl in K; congruence.
    - specialize (K v Hv). now subst. }
  rewrite nansum_reals by trivial.
  destruct (forallb isnan c).
  - split; [split; [intros _; now apply A|reflexivity]|]. intros N. exfalso. apply N. now apply A.
  - split; [|reflexivity]. split; [discriminate|]. intros K. apply A in K. discriminate.
Qed.
Print Assumptions C06_fixednansum.

Theorem C06_fixednanmax : forall c : list xr, no_inf c ->
  (fixednanmax c = NaN <-> Forall (eq NaN) c) /\
  (~ Forall (eq NaN) c -> exists m, fixednanmax c = Fin m /\ is_max m (reals c)).
Proof.
  intros c H. unfold fixednanmax.
  assert (A : reals c = [] <-> Forall (eq NaN) c).
  { induction H as [|v c [->|[a ->]] H IH]; simpl.
    - split; auto.
    - rewrite IH. split; intros K; [now constructor|now inversion K].
    - split; [discriminate|]. intros K; inversion K; discriminate. }
  destruct (nanmax_spec c H) as [[E ->]|(m & -> & Hm)].
  - split; [tauto|]. intros N; exfalso; apply N; now apply A.
  - split; [|eauto]. split; [discriminate|]. intros K. apply A in K. rewrite K in Hm.
    destruct Hm as [[] _].
Qed.
Print Assumptions C06_fixednanmax.

Example C06_case : ~ Forall (eq NaN) [NaN; Fin 1].
Proof. intros H. inversion H; subst. inversion H3; discriminate. Qed.

(** ** C07: scales and frequencies *)
Theorem C07_freq2scale_scale2freq : forall j fs, 0 < fs ->
  freq2scale (scale2freq j fs) fs = j.
Proof.
  intros j fs H. unfold freq2scale, scale2freq.
  replace (3 / 4 * fs * Rpower 2 (- j) / (3 * fs)) with (/ 4 * Rpower 2 (- j)) by (field; lra).
  rewrite log2R_mult by (try apply Rpower_pos; lra).
  rewrite log2R_Rpower, log2R_Rinv, log2R_4 by lra. lra.
Qed.
Print Assumptions C07_freq2scale_scale2freq.

Theorem C07_scale2freq_freq2scale : forall f fs, 0 < fs -> 0 < f ->
  scale2freq (freq2scale f fs) fs = f.
Proof.
  intros f fs H Hf. unfold freq2scale, scale2freq.
  replace (- (-2 - log2R (f / (3 * fs)))) with (2 + log2R (f / (3 * fs))) by ring.
  rewrite Rpower_plus, Rpower_log2R.
  2:{ apply Rdiv_lt_0_compat; lra. }
  replace (Rpower 2 2) with 4. - field. lra.
  - replace (Rpower 2 2) with (Rpower 2 (INR 2)) by (f_equal; simpl; lra).
    rewrite Rpower_pow by lra. simpl; lra.
Qed.
Print Assumptions C07_scale2freq_freq2scale.

Theorem C07_decreasing : forall j j' fs, 0 < fs -> j < j' ->
  scale2freq j' fs < scale2freq j fs.
Proof.
  intros. unfold scale2freq. apply Rmult_lt_compat_l; [lra|].
  apply Rpower_lt; lra.
Qed.
Print Assumptions C07_decreasing.

(** ** C08: fband2scale returns exactly the scales inside the band *)
Theorem C08_fband2scale : forall f_lo f_hi fs (j : Z), 0 < fs -> 0 < f_lo -> 0 < f_hi ->
  (fst (fband2scale (f_lo, f_hi) fs) <= j <= snd (fband2scale (f_lo, f_hi) fs))%Z
  <-> f_lo <= scale2freq (IZR j) fs <= f_hi.
Proof.
  intros f_lo f_hi fs j Hs Hl Hh. unfold fband2scale, floorR. cbn [fst snd].
  rewrite ceil_spec, floor_spec.
  assert (M : forall f, 0 < f -> (f <= scale2freq (IZR j) fs <-> IZR j <= freq2scale f fs)).
  { intros f Hf. rewrite <- (C07_scale2freq_freq2scale f fs) at 1 by trivial.
    split; intros K.
    - apply Rnot_lt_le. intros L. apply (C07_decreasing _ _ fs Hs) in L. lra.
    - destruct K as [K|<-]; [left; now apply C07_decreasing|lra]. }
  assert (N : forall f, 0 < f -> (scale2freq (IZR j) fs <= f <-> freq2scale f fs <= IZR j)).
  { intros f Hf. rewrite <- (C07_scale2freq_freq2scale f fs) at 1 by trivial.
    split; intros K.
    - apply Rnot_lt_le. intros L. apply (C07_decreasing _ _ fs Hs) in L. lra.
    - destruct K as [K|<-]; [left; now apply C07_decreasing|lra]. }
  rewrite (M f_lo Hl), (N f_hi Hh). tauto.
Qed.
Print Assumptions C08_fband2scale.

(** ** C09: the grid of moments *)

(** the i-th of n log-spaced values from a to b *)
Definition geometric (a b : R) (n i : nat) : R :=
  if Nat.eqb n 1 then a else a * Rpower (b / a) (INR i / INR (n - 1)).

Lemma logspace_In v a b n : 0 < a -> 0 < b ->
  (In v (logspace (log10R a) (log10R b) n) <-> exists i, (i < n)%nat /\ v = geometric a b n i).
Proof.
  intros Ha Hb. unfold logspace, linspace. rewrite map_map, in_map_iff.
  assert (L10 : 0 < ln 10) by (rewrite <- ln_1; apply ln_increasing; lra).
  assert (P10 : forall x, 0 < x -> Rpower 10 (log10R x) = x).
  { intros x Hx. unfold log10R, Rpower. replace (ln x / ln 10 * ln 10) with (ln x) by (field; lra).
    now apply exp_ln. }
  assert (E : forall i, Rpower 10 match n with
                | 1%nat => log10R a
                | _ => log10R a + INR i * ((log10R b - log10R a) / INR (n - 1))
                end = geometric a b n i).
  { intros i. unfold geometric.
    assert (G : (n <> 1)%nat -> Rpower 10 (log10R a + INR i * ((log10R b - log10R a) / INR (n - 1)))
                = a * Rpower (b / a) (INR i / INR (n - 1))).
    { intros _. rewrite Rpower_plus, P10 by trivial. f_equal.
      assert (Lba : ln (b / a) = ln b - ln a).
      { unfold Rdiv. rewrite ln_mult, ln_Rinv by (trivial; now apply Rinv_0_lt_compat). ring. }
      unfold log10R, Rpower. rewrite Lba. f_equal. unfold Rdiv.
      transitivity (ln 10 * / ln 10 * (INR i * / INR (n - 1) * (ln b + - ln a))); [ring|].
      rewrite Rinv_r by lra. ring. }
    destruct n as [|[|n]]; [apply G; lia | apply P10; trivial | apply G; lia]. }
  split.
  - intros (i & <- & Hi). apply in_seq in Hi. exists i. split; [lia|]. apply E.
  - intros (i & Hi & ->). exists i. split; [apply E|]. apply in_seq. lia.
Qed.

Theorem C09_error_iff : forall q_min q_max n,
  (build_q_log q_min q_max n = Err ValueError <-> q_min <= 0 \/ q_max <= 0) /\
  (0 < q_min -> 0 < q_max -> exists q, build_q_log q_min q_max n = Ok q).
Proof.
  intros. unfold build_q_log.
  destruct (Rle_dec q_min 0); [split; [tauto|lra]|].
  destruct (Rle_dec q_max 0); [split; [tauto|lra]|].
  split; [|eauto]. split; [discriminate|lra].
Qed.
Print Assumptions C09_error_iff.

Lemma build_q_log_In q_min q_max n q : 0 < q_min -> 0 < q_max ->
  build_q_log q_min q_max n = Ok q ->
  forall v, In v q <->
    Rabs v = 0 \/ Rabs v = 1 \/ Rabs v = 2 \/
    exists i, (i < n)%nat /\ Rabs v = geometric q_min q_max n i.
Proof.
  intros H1 H2. unfold build_q_log.
  destruct (Rle_dec q_min 0); [lra|]. destruct (Rle_dec q_max 0); [lra|].
  intros [= <-] v. rewrite uniqueR_In, sortR_In, in_app_iff.
  set (g := logspace _ _ _ ++ [0; 1; 2]).
  assert (G : forall u, In u g <-> u = 0 \/ u = 1 \/ u = 2 \/ exists i, (i < n)%nat /\ u = geometric q_min q_max n i).
  { intros u. unfold g. rewrite in_app_iff, logspace_In by trivial. simpl. intuition. }
  assert (GP : forall u, In u g -> 0 <= u).
  { intros u Hu. apply G in Hu as [-> | [-> | [-> | (i & Hi & ->)]]]; try lra.
    unfold geometric. destruct (Nat.eqb n 1); [lra|].
    apply Rmult_le_pos; [lra|]. left. apply Rpower_pos. }
  assert (E : In v g \/ In v (map Ropp g) <-> In (Rabs v) g).
  { rewrite in_map_iff. split.
    - intros [K|(u & <- & K)].
      + now rewrite Rabs_right by (apply Rle_ge, GP, K).
      + rewrite Rabs_Ropp. now rewrite Rabs_right by (apply Rle_ge, GP, K).
    - intros K. destruct (Rle_dec 0 v) as [P|P].
      + left. now rewrite Rabs_right in K by lra.
      + right. exists (Rabs v). split; trivial. rewrite Rabs_left by lra. ring. }
  rewrite E. apply G.
Qed.

(** the grid: strictly increasing, symmetric, exactly the values announced *)
Theorem C09_grid : forall q_min q_max n q, 0 < q_min -> 0 < q_max ->
  build_q_log q_min q_max n = Ok q ->
  StronglySorted Rlt q /\
  (forall v, In v q <->
     Rabs v = 0 \/ Rabs v = 1 \/ Rabs v = 2 \/
     exists i, (i < n)%nat /\ Rabs v = geometric q_min q_max n i) /\
  (forall v, In v q -> In (- v) q) /\
  (In (-2) q /\ In (-1) q /\ In 0 q /\ In 1 q /\ In 2 q) /\
  ((1 <= n)%nat -> In q_min q) /\
  ((2 <= n)%nat -> In q_max q) /\
  (length q <= 2 * n + 5)%nat.
Proof.
  intros a b n q Ha Hb H.
  assert (M := build_q_log_In a b n q Ha Hb H).
  assert (SS : StronglySorted Rlt q).
  { revert H. unfold build_q_log. destruct (Rle_dec a 0); [lra|]. destruct (Rle_dec b 0); [lra|].
    intros [= <-]. apply uniqueR_sorted. }
  repeat split; trivial; try apply M.
  - intros v Hv. apply M. rewrite Rabs_Ropp. now apply M.
  - rewrite Rabs_left by lra. lra.
  - rewrite Rabs_left by lra. lra.
  - left. apply Rabs_R0.
  - right; left. apply Rabs_R1.
  - right; right; left. apply Rabs_right. lra.
  - intros Hn. apply M. right; right; right. exists 0%nat. split; [lia|].
    rewrite Rabs_right by lra. unfold geometric. destruct (Nat.eqb n 1); [reflexivity|].
    unfold Rdiv. simpl INR. rewrite Rmult_0_l, Rpower_O; [ring|].
    apply Rmult_lt_0_compat; trivial. now apply Rinv_0_lt_compat.
  - intros Hn. apply M. right; right; right. exists (n - 1)%nat. split; [lia|].
    rewrite Rabs_right by lra. unfold geometric.
    destruct (Nat.eqb n 1) eqn:E; [apply Nat.eqb_eq in E; lia|].
    assert (0 < INR (n - 1)) by (apply lt_0_INR; lia).
    replace (INR (n - 1) / INR (n - 1)) with 1 by (field; lra).
    rewrite Rpower_1; [field; lra|]. apply Rdiv_lt_0_compat; trivial.
  - apply sorted_lt_NoDup in SS.
    set (g := map (geometric a b n) (seq 0 n)).
    assert (I : incl q ([-2; -1; 0; 1; 2] ++ g ++ map Ropp g)).
    { intros v Hv. apply M in Hv. rewrite !in_app_iff.
      assert (forall c, 0 <= c -> Rabs v = c -> v = c \/ v = - c).
      { intros c _ <-. unfold Rabs. destruct (Rcase_abs v); lra. }
      destruct Hv as [Hv | [Hv | [Hv | (i & Hi & Hv)]]].
      - apply H0 in Hv; [|lra]. left. simpl. destruct Hv; [|right]; intuition lra.
      - apply H0 in Hv; [|lra]. left. simpl. destruct Hv; intuition lra.
      - apply H0 in Hv; [|lra]. left. simpl. destruct Hv; intuition lra.
      - assert (In (Rabs v) g).
        { rewrite Hv. apply in_map. apply in_seq. lia. }
        unfold Rabs in H1. destruct (Rcase_abs v).
        + right; right. apply in_map_iff. exists (- v). split; [ring|trivial].
        + right; left. trivial. }
    apply NoDup_incl_length in I; trivial.
    rewrite !app_length, map_length in I. unfold g in I. rewrite map_length, seq_length in I.
    simpl in I. lia.
Qed.
Print Assumptions C09_grid.

Example C09_case : 0 < / 100 /\ 0 < 5.
Proof. lra. Qed.

(** ** C10: nj counts the non-NaN coefficients, whatever the history of add_values *)

(** the calls [add_values(array, scale)] in order *)
Definition add_all (f : formalism) (g : R) (ops : list (arr * Z)) : mrq :=
  fold_left (fun m op => add_values m (fst op) (snd op)) ops (new_mrq f g).

(** the last array stored at scale j *)
Definition last_at (ops : list (arr * Z)) (j : Z) : option arr :=
  option_map fst (find (fun op => Z.eqb j (snd op)) (rev ops)).

Theorem C10_nj_counts : forall f g (ops : list (arr * Z)),
  let m := add_all f g ops in
  dict_keys (mq_values m) = dict_keys (mq_nj m) /\
  NoDup (dict_keys (mq_values m)) /\
  forall j,
    dict_get (mq_values m) j = last_at ops j /\
    dict_get (mq_nj m) j
    = option_map (map (fun c => length (filter (fun v => negb (isnan v)) c))) (last_at ops j).
Proof.
  intros f g ops. unfold add_all. induction ops as [|[a j] ops IH] using rev_ind.
  - simpl. repeat split; constructor.
  - rewrite fold_left_app. cbn zeta in *. set (m := fold_left _ ops _) in *.
    destruct IH as (K & N & G). cbn [fold_left fst snd]. unfold add_values. cbn [mq_values mq_nj].
    split; [now apply dict_keys_set_eq|]. split; [now apply dict_set_NoDup|].
    intros i. destruct (G i) as [G1 G2]. rewrite !dict_get_set, G1, G2.
    unfold last_at. rewrite rev_app_distr. simpl. destruct (Z.eqb i j); split; reflexivity.
Qed.
Print Assumptions C10_nj_counts.

(** scales are kept in the order of their first storage *)
Theorem C10_scale_order : forall f g (ops : list (arr * Z)),
  NoDup (map snd ops) -> dict_keys (mq_values (add_all f g ops)) = map snd ops.
Proof.
  intros f g ops. unfold add_all.
  enough (E : forall m, NoDup (dict_keys (mq_values m) ++ map snd ops) ->
    dict_keys (mq_values (fold_left (fun m op => add_values m (fst op) (snd op)) ops m))
    = dict_keys (mq_values m) ++ map snd ops).
  { intros H. now rewrite E. }
  induction ops as [|[a j] ops IH]; intros m H; simpl in *; [now rewrite app_nil_r|].
  assert (S : dict_keys (dict_set (mq_values m) j a) = dict_keys (mq_values m) ++ [j]).
  { assert (Hj : ~ In j (dict_keys (mq_values m))).
    { intros K. apply NoDup_remove_2 in H. apply H. apply in_app_iff. now left. }
    clear -Hj. unfold dict_keys in *. induction (mq_values m) as [|[k v] d IHd]; simpl in *; trivial.
    destruct (Z.eqb_spec j k) as [->|]; [exfalso; auto|]. simpl. f_equal. apply IHd. auto. }
  rewrite IH; unfold add_values; cbn [mq_values fst snd]; rewrite S, <- app_assoc; trivial.
Qed.
Print Assumptions C10_scale_order.

(** ** C11: get_nj_interv *)
Theorem C11_nj_interval : forall (nj : dict (list nat)) (j1 j2 : Z),
  (get_nj_interv nj j1 j2 = Err KeyError
     <-> exists j, (j1 <= j <= j2)%Z /\ dict_get nj j = None) /\
  ((forall j, (j1 <= j <= j2)%Z -> dict_get nj j <> None) ->
     exists rows, get_nj_interv nj j1 j2 = Ok rows) /\
  (forall rows, get_nj_interv nj j1 j2 = Ok rows ->
     length rows = Z.to_nat (j2 - j1 + 1) /\
     forall i, (i < length rows)%nat ->
       dict_get nj (j1 + Z.of_nat i) = Some (nth i rows [])).
Proof.
  intros nj j1 j2. unfold get_nj_interv. split.
  - rewrite mapM_Err.
    + split; intros (j & Hj & E).
      * apply zrange_In in Hj. exists j. split; [lia|]. unfold dict_getitem in E.
        destruct (dict_get nj j); congruence.
      * exists j. split; [apply zrange_In; lia|]. unfold dict_getitem. now rewrite E.
    + intros a e' _. unfold dict_getitem. destruct (dict_get nj a); congruence.
  - split.
    { intros H. destruct (mapM (dict_getitem nj) (zrange j1 (j2 + 1))) as [rows|e] eqn:E; [eauto|].
      exfalso. apply mapM_Err in E.
      - destruct E as (j & Hj & E). apply zrange_In in Hj. unfold dict_getitem in E.
        destruct (dict_get nj j) eqn:K; [discriminate|]. apply (H j); [lia|trivial].
      - intros a e' _ K. unfold dict_getitem in K.
        destruct (dict_get nj a); [discriminate|]. injection K as <-.
        clear -E. revert E. generalize (zrange j1 (j2+1)) as l. induction l as [|x l IH]; simpl; [discriminate|].
        unfold dict_getitem at 1. destruct (dict_get nj x); simpl; [|congruence].
        destruct (mapM (dict_getitem nj) l); simpl; [discriminate|]. intros [= ->]. now apply IH. }
    intros rows H. apply mapM_Ok in H.
    assert (L := Forall2_len _ _ _ H).
    assert (L' : length rows = Z.to_nat (j2 - j1 + 1)).
    { rewrite <- L. unfold zrange. rewrite map_length, seq_length. f_equal. lia. }
    split; trivial.
    intros i Hi.
    assert (E : forall l (m : list (list nat)), Forall2 (fun a b => dict_getitem nj a = Ok b) l m ->
       forall i, (i < length m)%nat -> dict_getitem nj (nth i l 0%Z) = Ok (nth i m [])).
    { clear. induction 1; intros [|i] Hi; simpl in *; try lia; trivial. apply IHForall2. lia. }
    specialize (E _ _ H i Hi). unfold zrange in E.
    rewrite (nth_map_lt _ _ _ 0%nat) in E by (rewrite seq_length; lia).
    rewrite seq_nth in E by lia. unfold dict_getitem in E. simpl in E.
    destruct (dict_get nj (j1 + Z.of_nat i)); congruence.
Qed.
Print Assumptions C11_nj_interval.

(** ** C12: maximum decomposition level *)

(** for a signal of at least one sample the level is the largest m (possibly
    negative) with (filter_len+1) 2^m <= length *)
Theorem C12_largest_level : forall (len flen : nat), (1 <= len)%nat ->
  exists m, decomposition_level len flen = Ok m /\
    forall k : Z, (k <= m)%Z <-> (INR flen + 1) * powerRZ 2 k <= INR len.
Proof.
  intros len flen Hl. unfold decomposition_level, floor_log2.
  assert (A : 0 < INR len) by (apply lt_0_INR; lia).
  assert (B := pos_INR flen).
  assert (C : 0 < INR len / (INR flen + 1)) by (apply Rdiv_lt_0_compat; lra).
  destruct (Rle_dec (INR len / (INR flen + 1)) 0); [lra|].
  destruct (Rle_dec (INR len) 0); [lra|]. cbn [bind].
  eexists. split; [reflexivity|]. intros k. unfold floorR.
  rewrite Z.min_glb_iff, !floor_spec.
  assert (P : 0 < powerRZ 2 k) by (apply powerRZ_lt; lra).
  assert (E1 : forall a, 0 < a -> (IZR k <= log2R a <-> powerRZ 2 k <= a)).
  { intros a Ha. rewrite <- log2R_powerRZ. split; intros H.
    - now apply log2R_le_inv.
    - now apply log2R_le. }
  rewrite !E1 by trivial.
  assert (E2 : powerRZ 2 k <= INR len / (INR flen + 1) <-> (INR flen + 1) * powerRZ 2 k <= INR len).
  { split; intros H.
    - apply (Rmult_le_compat_l (INR flen + 1)) in H; [|lra].
      replace ((INR flen + 1) * (INR len / (INR flen + 1))) with (INR len) in H by (field; lra). trivial.
    - apply (Rmult_le_reg_l (INR flen + 1)); [lra|].
      replace ((INR flen + 1) * (INR len / (INR flen + 1))) with (INR len) by (field; lra). trivial. }
  rewrite E2. split; [tauto|]. intros H. split; trivial.
  apply Rle_trans with ((INR flen + 1) * powerRZ 2 k); trivial.
  rewrite <- (Rmult_1_l (powerRZ 2 k)) at 1. apply Rmult_le_compat_r; lra.
Qed.
Print Assumptions C12_largest_level.

Theorem C12_empty_signal_raises : forall flen, decomposition_level 0 flen = Err OverflowError.
Proof.
  intros. unfold decomposition_level, floor_log2. simpl INR. unfold Rdiv. rewrite Rmult_0_l.
  destruct (Rle_dec 0 0); [reflexivity|lra].
Qed.
Print Assumptions C12_empty_signal_raises.

(** monotone in the length; the internal limit is the same number, with a
    warning exactly when j2 exceeds it *)
Theorem C12_monotone : forall len len' flen m m', (len <= len')%nat ->
  decomposition_level len flen = Ok m -> decomposition_level len' flen = Ok m' -> (m <= m')%Z.
Proof.
  intros len len' flen m m' H E E'.
  destruct len as [|len]; [rewrite C12_empty_signal_raises in E; discriminate|].
  destruct (C12_largest_level (S len) flen) as (k & Ek & Hk); [lia|].
  destruct (C12_largest_level len' flen) as (k' & Ek' & Hk'); [lia|].
  assert (k = m) by congruence. assert (k' = m') by congruence. subst.
  apply Hk'. apply Rle_trans with (INR (S len)); [|now apply le_INR].
  apply Hk. lia.
Qed.
Print Assumptions C12_monotone.

Theorem C12_internal_limit_agrees : forall len flen j2 m,
  decomposition_level len flen = Ok m ->
  decomposition_level_warn len flen j2
  = Ok (m, match j2 with Some j => if Rlt_dec (IZR m) j then [WarnJ2] else [] | None => [] end).
Proof. intros len flen j2 m H. unfold decomposition_level_warn. now rewrite H. Qed.
Print Assumptions C12_internal_limit_agrees.

Example C12_case : decomposition_level 16 3 = Ok 2%Z.
Proof.
  destruct (C12_largest_level 16 3) as (m & -> & H); [lia|]. f_equal.
  apply Z.le_antisymm.
  - assert (~ (3 <= m)%Z); [|lia]. rewrite H. simpl. lra.
  - apply H. simpl. lra.
Qed.
