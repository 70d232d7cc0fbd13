(** * wavelet_analysis: inversion of a successful call *)
From Coq Require Import Reals List ZArith Bool Lra Lia.
From Verif Require Import XReal PyBase ModelUtils ModelMRQ ModelStructure ModelWavelet Spec LXReal LUtils LBase LFilter LTransform LPattern.
Import ListNotations.
Open Scope R_scope.

(** ** tables *)
Lemma table_get (T : nat -> arr) g j : (1 <= j <= g)%nat -> dict_get (table T g) (Z.of_nat j) = Some (T j).
Proof.
  unfold table. assert (H : forall s n, (s <= j < s + n)%nat ->
    dict_get (map (fun i => (Z.of_nat i, T i)) (seq s n)) (Z.of_nat j) = Some (T j)).
  { intros s n. revert s. induction n; intros s Hs; [lia|]. simpl.
    destruct (Z.eqb_spec (Z.of_nat j) (Z.of_nat s)) as [E|E].
    - apply Nat2Z.inj in E. now subst.
    - apply IHn. lia. }
  intros. apply H. lia.
Qed.
Lemma table_keys (T : nat -> arr) g : dict_keys (table T g) = map Z.of_nat (seq 1 g).
Proof. unfold table, dict_keys. rewrite map_map. reflexivity. Qed.
Lemma njtable_keys (T : nat -> arr) g : dict_keys (njtable T g) = map Z.of_nat (seq 1 g).
Proof. unfold njtable, dict_keys. rewrite map_map. reflexivity. Qed.
Lemma dict_get_In {V} (d : dict V) k v : dict_get d k = Some v -> In k (dict_keys d).
Proof.
  unfold dict_keys. induction d as [|[a b] d IH]; simpl; [discriminate|].
  destruct (Z.eqb_spec k a); [auto|]. auto.
Qed.
Lemma table_get_inv (T : nat -> arr) g j v : dict_get (table T g) j = Some v ->
  exists i, j = Z.of_nat i /\ (1 <= i <= g)%nat /\ v = T i.
Proof.
  intros H. assert (I := dict_get_In _ _ _ H). rewrite table_keys in I.
  apply in_map_iff in I as (i & <- & Hi). apply in_seq in Hi.
  exists i. repeat split; try lia. rewrite table_get in H by lia. congruence.
Qed.
Lemma table_ext (T T' : nat -> arr) g : (forall j, (1 <= j <= g)%nat -> T j = T' j) -> table T g = table T' g.
Proof. intros H. unfold table. apply map_ext_in. intros j Hj. apply in_seq in Hj. rewrite H by lia. reflexivity. Qed.
Lemma njtable_ext (T T' : nat -> arr) g : (forall j, (1 <= j <= g)%nat -> map count_valid (T j) = map count_valid (T' j)) ->
  njtable T g = njtable T' g.
Proof. intros H. unfold njtable. apply map_ext_in. intros j Hj. apply in_seq in Hj. rewrite H by lia. reflexivity. Qed.
Lemma njtable_get (T : nat -> arr) g j : (1 <= j <= g)%nat ->
  dict_get (njtable T g) (Z.of_nat j) = Some (map count_valid (T j)).
Proof.
  unfold njtable. assert (H : forall s n, (s <= j < s + n)%nat ->
    dict_get (map (fun i => (Z.of_nat i, map count_valid (T i))) (seq s n)) (Z.of_nat j) = Some (map count_valid (T j))).
  { intros s n. revert s. induction n; intros s Hs; [lia|]. simpl.
    destruct (Z.eqb_spec (Z.of_nat j) (Z.of_nat s)) as [E|E].
    - apply Nat2Z.inj in E. now subst.
    - apply IHn. lia. }
  intros. apply H. lia.
Qed.
Lemma zrange_seq (g : nat) : zrange 1 (Z.of_nat g + 1) = map Z.of_nat (seq 1 g).
Proof.
  unfold zrange. replace (Z.to_nat (Z.of_nat g + 1 - 1)) with g by lia.
  rewrite <- seq_shift, map_map. apply map_ext. intros. lia.
Qed.

(** ** the correction loop *)
Definition corr_arr (p : R) (eta : list xr) (j : nat) (v : arr) : arr :=
  map2 (fun c e => map (fun x => xmul x (zpj_corr p e (Z.of_nat j))) c) v eta.

Lemma dict_set_app {V} (d d' : dict V) k v : ~ In k (dict_keys d) ->
  dict_set (d ++ d') k v = d ++ dict_set d' k v.
Proof.
  unfold dict_keys. induction d as [|[a b] d IH]; simpl; intros H; [reflexivity|].
  destruct (Z.eqb_spec k a); [exfalso; auto|]. f_equal. apply IH. auto.
Qed.
Lemma dict_get_app {V} (d d' : dict V) k : ~ In k (dict_keys d) -> dict_get (d ++ d') k = dict_get d' k.
Proof.
  unfold dict_keys. induction d as [|[a b] d IH]; simpl; intros H; [reflexivity|].
  destruct (Z.eqb_spec k a); [exfalso; auto|]. apply IH. auto.
Qed.
Lemma correct_loop_eq p eta f gam nj (T : nat -> arr) g s n : (s + n = g)%nat ->
  correct_loop p eta (map Z.of_nat (seq (S s) n))
    (mkMRQ f gam (table (fun j => corr_arr p eta j (T j)) s ++ map (fun j => (Z.of_nat j, T j)) (seq (S s) n)) nj)
  = Ok (mkMRQ f gam (table (fun j => corr_arr p eta j (T j)) g) nj).
Proof.
  revert s. induction n; intros s E.
  - simpl. rewrite app_nil_r. replace g with s by lia. reflexivity.
  - cbn [seq map correct_loop mq_values].
    assert (K : ~ In (Z.of_nat (S s)) (dict_keys (table (fun j => corr_arr p eta j (T j)) s))).
    { rewrite table_keys. intros H. apply in_map_iff in H as (i & E' & Hi). apply in_seq in Hi. lia. }
    unfold dict_getitem. rewrite dict_get_app by trivial.
    cbn [dict_get]. rewrite Z.eqb_refl. cbn [bind mq_formalism mq_gamint mq_nj].
    rewrite dict_set_app by trivial. cbn [dict_set]. rewrite Z.eqb_refl.
    rewrite <- (IHn (S s)) by lia. f_equal. f_equal. unfold table.
    rewrite (seq_S s 1), map_app, <- app_assoc. reflexivity.
Qed.
Lemma correct_loop_all p eta f gam (T : nat -> arr) g :
  correct_loop p eta (zrange 1 (Z.of_nat g + 1)) (mrq_of f gam T g)
  = Ok (mkMRQ f gam (table (fun j => corr_arr p eta j (T j)) g) (njtable T g)).
Proof.
  rewrite zrange_seq. apply (correct_loop_eq p eta f gam (njtable T g) T g 0 g). reflexivity.
Qed.
Lemma level_cut_range g n ml : n = Z.to_nat ml -> (g <= n)%nat ->
  zrange 1 (level_cut g n ml + 1) = zrange 1 (Z.of_nat g + 1).
Proof.
  intros -> H. unfold level_cut. destruct (Nat.ltb_spec g (Z.to_nat ml)) as [L|L]; [reflexivity|].
  assert (g = Z.to_nat ml) by lia. subst g. unfold zrange. f_equal. f_equal. lia.
Qed.

(** ** counts *)
Definition nlev (A : arr) (w : wavelet) : Z :=
  match decomposition_level (sig_len A) (length (dec_hi w)) with Ok m => m | Err _ => 0%Z end.
(** number of scales kept by the loop, and number of stored coefficient scales *)
Definition gcount (A : arr) (p : pexp) (w : wavelet) (gam norm : R) : nat :=
  let n := Z.to_nat (nlev A w) in
  match p with
  | PNone => run (okc (neg_hi w) (dec_lo w) A) n 0
  | _ => run (okb (neg_hi w) (dec_lo w) norm gam A (check_formalism p) p) n 0
  end.
Definition ccount (A : arr) (p : pexp) (w : wavelet) (gam norm : R) : nat :=
  let g := gcount A p w gam norm in
  match p with
  | PNone => g
  | _ => g + if Nat.ltb g (Z.to_nat (nlev A w)) && okc (neg_hi w) (dec_lo w) A (S g) then 1 else 0
  end.
Definition Cf (A : arr) (w : wavelet) (gam norm : R) : nat -> arr := coef_arr (neg_hi w) (dec_lo w) norm gam A.
Definition Ld (A : arr) (p : pexp) (w : wavelet) (gam norm : R) : nat -> arr :=
  lead_arr (neg_hi w) (dec_lo w) norm gam A (check_formalism p) p.
Definition jeff (A : arr) (p : pexp) (w : wavelet) (gam norm : R) (j2 : option R) : Z :=
  effective_j2 (level_cut (gcount A p w gam norm) (Z.to_nat (nlev A w)) (nlev A w)) j2.

Definition p_ok (p : pexp) : Prop := match p with PNum e => num_val e <> 0 | _ => True end.
Lemma p_ok_nonzero p : p_ok p -> p_nonzero (check_formalism p) p.
Proof. destruct p; simpl; trivial. Qed.
Lemma pos_p_ok p : pos_pexp p -> p_ok p.
Proof. destruct p; simpl; trivial. lra. Qed.

(** the transform of a successful call *)
Definition the_wt (A : arr) (p : pexp) (w : wavelet) (j2 : option R) (gam norm : R) (eta : list xr) : wtransform :=
  mkWT (mrq_of WaveletCoef gam (Cf A w gam norm) (ccount A p w gam norm))
       (match p with
        | PNone => None
        | PInfty => Some (mrq_of WaveletLeader gam (Ld A p w gam norm) (gcount A p w gam norm))
        | PNum e => Some (mkMRQ WaveletPLeader gam
             (table (fun j => corr_arr (num_val e) eta j (Ld A p w gam norm j)) (gcount A p w gam norm))
             (njtable (Ld A p w gam norm) (gcount A p w gam norm)))
        end)
       (jeff A p w gam norm j2)
       (match p with PNum _ => Some eta | _ => None end).

Definition level_warns (A : arr) (w : wavelet) (j2 : option R) : list warning :=
  match j2 with Some j => if Rlt_dec (IZR (nlev A w)) j then [WarnJ2] else [] | None => [] end.

Definition eta_of (A : arr) (p : pexp) (w : wavelet) (j1 : Z) (j2 : option R) (gam norm : R) (weighted : bool) : res (list xr) :=
  match p with
  | PNum e => estimate_eta_p (mrq_of WaveletCoef gam (Cf A w gam norm) (ccount A p w gam norm))
                (num_val e) j1 (jeff A p w gam norm j2) weighted
  | _ => Ok []
  end.

(** the whole function in closed form *)
Definition wa_closed (A : arr) (p : pexp) (w : wavelet) (j1 : Z) (j2 : option R) (gam norm : R) (weighted : bool)
  : res (wtransform * list warning) :=
  _ <- decomposition_level (sig_len A) (length (dec_hi w)) ;;
  eta <- eta_of A p w j1 j2 gam norm weighted ;;
  match p with
  | PNum _ => if min_le_0 eta then Err TypeError
              else Ok (the_wt A p w j2 gam norm eta, level_warns A w j2)
  | _ => Ok (the_wt A p w j2 gam norm eta, level_warns A w j2)
  end.

Lemma gcount_le A p w gam norm : (gcount A p w gam norm <= Z.to_nat (nlev A w))%nat.
Proof. unfold gcount. destruct p; apply run_le. Qed.

Lemma wa_eq A p w j1 j2 gam norm weighted :
  good_wavelet w -> norm <> 0 -> p_ok p ->
  wavelet_analysis A p w j1 j2 gam norm weighted = wa_closed A p w j1 j2 gam norm weighted.
Proof.
  intros Hw Hn Hp. unfold wavelet_analysis, wa_closed.
  fold (neg_hi w). fold (sig_len A). rewrite neg_hi_length.
  unfold decomposition_level_warn.
  destruct (decomposition_level (sig_len A) (length (dec_hi w))) as [ml|e] eqn:El; [|reflexivity].
  cbn [bind].
  assert (Enl : nlev A w = ml) by (unfold nlev; now rewrite El).
  assert (HA : A <> []).
  { intros ->. unfold sig_len, decomposition_level, floor_log2 in El. simpl in El.
    destruct (Rle_dec (0 / (INR (length (dec_hi w)) + 1)) 0) as [|N]; [discriminate|]. exfalso. apply N. unfold Rdiv. rewrite Rmult_0_l. lra. }
  assert (Ew : match j2 with Some j => if Rlt_dec (IZR ml) j then [WarnJ2] else [] | None => [] end = level_warns A w j2).
  { unfold level_warns. now rewrite Enl. }
  destruct p as [| |e].
  - unfold wavelet_coef_analysis. destruct Hw as [Hw1 Hw2].
    assert (Lhi : length (neg_hi w) = length (dec_hi w)) by apply neg_hi_length.
    assert (E := coef_loop_eq (neg_hi w) (dec_lo w) norm gam A ltac:(lia) ltac:(lia) Hn HA (Z.to_nat ml) 0 ml (new_mrq WaveletCoef gam)).
    simpl Z.add in E. simpl approx_at in E. rewrite map_id in E. rewrite E. cbn [bind eta_of].
    unfold coef_ops. rewrite add_many_table. unfold the_wt, ccount, gcount, jeff, gcount. rewrite Enl, Ew. reflexivity.
  - cbn [check_formalism]. rewrite leader_loop_top by (trivial; exact I). cbn [bind eta_of].
    unfold the_wt, ccount, gcount, jeff, gcount. rewrite Enl, Ew. reflexivity.
  - cbn [check_formalism]. rewrite leader_loop_top by (trivial; exact Hp). cbn [bind eta_of].
    set (g := run _ _ _). assert (Eg : g = gcount A (PNum e) w gam norm) by (unfold gcount; now rewrite Enl).
    unfold correct_leaders.
    set (n := Z.to_nat ml) in *. 
    assert (Ec : (g + (if Nat.ltb g n && okc (neg_hi w) (dec_lo w) A (S g) then 1 else 0))%nat = ccount A (PNum e) w gam norm).
    { unfold ccount. rewrite Enl, <- Eg. reflexivity. }
    rewrite Ec.
    assert (Ej : effective_j2 (level_cut g n ml) j2 = jeff A (PNum e) w gam norm j2).
    { unfold jeff. rewrite Enl, <- Eg. reflexivity. }
    rewrite Ej. fold (Cf A w gam norm).
    destruct (estimate_eta_p _ _ _ _ _) as [eta|]; [|reflexivity]. cbn [bind].
    destruct (min_le_0 eta); [reflexivity|].
    rewrite (level_cut_range g n ml) by (trivial; unfold g; apply run_le).
    rewrite correct_loop_all. cbn [bind]. unfold the_wt. rewrite <- Eg, app_nil_r, Ew. reflexivity.
Qed.

Lemma wa_inv A p w j1 j2 gam norm weighted t ws :
  good_wavelet w -> norm <> 0 -> p_ok p ->
  wavelet_analysis A p w j1 j2 gam norm weighted = Ok (t, ws) ->
  exists eta, eta_of A p w j1 j2 gam norm weighted = Ok eta /\
    t = the_wt A p w j2 gam norm eta /\ ws = level_warns A w j2 /\
    match p with PNum _ => min_le_0 eta = false | _ => True end /\
    decomposition_level (sig_len A) (length (dec_hi w)) = Ok (nlev A w) /\ A <> [].
Proof.
  intros Hw Hn Hp H. rewrite wa_eq in H by trivial. unfold wa_closed in H.
  destruct (decomposition_level (sig_len A) (length (dec_hi w))) as [ml|] eqn:El; [|discriminate].
  assert (HA : A <> []).
  { intros ->. unfold sig_len, decomposition_level, floor_log2 in El. simpl in El.
    destruct (Rle_dec (0 / (INR (length (dec_hi w)) + 1)) 0) as [|N]; [discriminate|]. exfalso. apply N. unfold Rdiv. rewrite Rmult_0_l. lra. }
  assert (Enl : nlev A w = ml) by (unfold nlev; now rewrite El).
  cbn [bind] in H. destruct (eta_of _ _ _ _ _ _ _ _) as [eta|]; [|discriminate]. cbn [bind] in H.
  exists eta. rewrite Enl. split; [reflexivity|].
  destruct p; [| |destruct (min_le_0 eta); [discriminate|]]; injection H as <- <-; repeat split; auto.
Qed.

(** ** boolean NaN pattern of one step *)
Definition pat_step (L : nat) (b : list bool) : list bool :=
  map (fun k => if kept (length b) L (2 * k + 1)
                then existsb (fun m => nth (2 * k + 1 + (L - 1) / 2 - m) b true) (seq 0 L)
                else true) (seq 0 (length b / 2)).
Lemma fstep_pat_step h a : no_inf a -> pat (fstep h a) = pat_step (length h) (pat a).
Proof.
  intros N. unfold fstep, pat_step, pat at 1. rewrite map_map, pat_length.
  apply map_ext. intros k. destruct (kept _ _ _); [|reflexivity].
  destruct (csum_no_inf h a (2 * k + 1) N) as [_ ->].
  generalize (seq 0 (length h)). intros s. induction s as [|m s IH]; cbn [existsb]; [reflexivity|].
  rewrite IH. f_equal. change true with (isnan NaN). unfold pat. now rewrite map_nth.
Qed.
Fixpoint pat_iter (L j : nat) (b : list bool) : list bool :=
  match j with O => b | S j' => pat_step L (pat_iter L j' b) end.
Lemma approx_pat_iter lo j c : no_inf c -> pat (approx_at lo j c) = pat_iter (length lo) j (pat c).
Proof.
  intros N. induction j; cbn [approx_at pat_iter]; trivial.
  rewrite fstep_pat_step by (now apply approx_no_inf). now rewrite IHj.
Qed.
Lemma detail_pat_iter hi lo j c : no_inf c -> length lo = length hi -> (1 <= j)%nat ->
  pat (detail hi lo j c) = pat_iter (length hi) j (pat c).
Proof.
  intros N E Hj. unfold detail. rewrite fstep_pat_step by (now apply approx_no_inf).
  rewrite approx_pat_iter, E by trivial. destruct j; [lia|]. simpl. now rewrite Nat.sub_0_r.
Qed.
Definition count_false (b : list bool) : nat := length (filter negb b).
Lemma count_valid_false c : count_valid c = count_false (pat c).
Proof.
  unfold count_valid, valid, count_false, pat. induction c as [|v c IH]; simpl; [reflexivity|].
  unfold notnan in *. destruct (isnan v); simpl; congruence.
Qed.
(** leaders *)
Fixpoint sv_pat_iter (d : nat -> list bool) (j : nat) : list bool :=
  match j with
  | O => []
  | S j' => match j' with
      | O => d 1%nat
      | S _ => map (fun k => nth k (d j) true && nth (2 * k) (sv_pat_iter d j') true && nth (2 * k + 1) (sv_pat_iter d j') true)
                   (seq 0 (length (sv_pat_iter d j') / 2))
      end
  end.
Definition lead_pat_iter (d : nat -> list bool) (j : nat) : list bool :=
  map (fun k => nth k (sv_pat_iter d j) true && nth (k + 1) (sv_pat_iter d j) true && nth (k + 2) (sv_pat_iter d j) true)
      (seq 0 (length (sv_pat_iter d j) - 2)).
Lemma nth_pat i c : isnan (nth i c NaN) = nth i (pat c) true.
Proof. change true with (isnan NaN). unfold pat. now rewrite map_nth. Qed.
Lemma sv_pat_eq f p d b j : pos_pexp p -> (forall i, no_inf (d i)) ->
  (forall i, (1 <= i)%nat -> pat (d i) = b i) -> pat (sv f p d j) = sv_pat_iter b j.
Proof.
  intros Hp Hd P. induction j as [|j IH]; [reflexivity|].
  destruct j as [|j].
  - simpl sv. rewrite (proj2 (pre_nonneg f p 1 (d 1%nat) Hp (Hd _))). apply P. lia.
  - assert (S1 := sv_nonneg f p d (S j) Hp Hd).
    cbn [sv sv_pat_iter] in *. set (s := match j with O => _ | S _ => _ end) in *.
    rewrite <- IH, pat_length. unfold pat at 1. rewrite map_map. apply map_ext. intros k.
    destruct (pre_nonneg f p (S (S j)) (d (S (S j))) Hp (Hd _)) as [A1 A2].
    rewrite (proj2 (reduce3_nonneg f _ _ _ (nonneg3 _ _ _ k (2 * k) (2 * k + 1) A1 S1 S1))).
    rewrite !nth_pat. rewrite A2, P by lia. reflexivity.
Qed.
Lemma lead_pat_eq f p d b j : pos_pexp p -> (forall i, no_inf (d i)) ->
  (forall i, (1 <= i)%nat -> pat (d i) = b i) -> pat (lead f p d j) = lead_pat_iter b j.
Proof.
  intros Hp Hd P. unfold lead. rewrite (proj2 (post_nonneg f p j _ Hp (raw_lead_nonneg f p d j Hp Hd))).
  unfold raw_lead, lead_pat_iter. assert (S1 := sv_nonneg f p d j Hp Hd).
  rewrite <- (sv_pat_eq f p d b j Hp Hd P), pat_length. unfold pat at 1. rewrite map_map. apply map_ext. intros k.
  rewrite (proj2 (reduce3_nonneg f _ _ _ (nonneg3 _ _ _ k (k + 1) (k + 2) S1 S1 S1))).
  now rewrite !nth_pat.
Qed.

(** the whole NaN structure of a finite signal of length n as a function of n and L *)
Definition cpat (n L j : nat) : list bool := pat_iter L j (repeat false n).
Definition lpat (n L j : nat) : list bool := lead_pat_iter (cpat n L) j.
Definition okc_b (n L j : nat) : bool := Nat.leb 3 (count_false (cpat n L j)).
Definition okl_b (n L j : nat) : bool := Nat.leb 3 (count_false (lpat n L j)).

Section Finite.
Variables (hi lo : list R) (norm gam : R) (S : list (list R)) (n : nat) (p : pexp).
Hypothesis Hlo : length lo = length hi.
Hypothesis HS : S <> [].
Hypothesis Hlen : Forall (fun s => length s = n) S.
Hypothesis Hp : pos_pexp p.

Lemma fin_cpat s j : length s = n -> (1 <= j)%nat -> pat (detail hi lo j (fin s)) = cpat n (length hi) j.
Proof.
  intros E Hj. rewrite detail_pat_iter; trivial; [|apply no_inf_fin]. now rewrite pat_fin, E.
Qed.
Lemma fin_coef_pat s j : length s = n -> (1 <= j)%nat -> pat (coef hi lo norm gam j (fin s)) = cpat n (length hi) j.
Proof. intros. rewrite coef_pat. now apply fin_cpat. Qed.
Lemma fin_lpat f s j : length s = n -> pat (lead_of hi lo norm gam f p j (fin s)) = lpat n (length hi) j.
Proof.
  intros E. unfold lead_of. apply lead_pat_eq; trivial.
  - intros i. apply coef_no_inf, no_inf_fin.
  - intros i Hi. unfold cf. now apply fin_coef_pat.
Qed.
Lemma forallb_const {X} (f : X -> bool) b l : l <> [] -> (forall x, In x l -> f x = b) -> forallb f l = b.
Proof.
  intros N H. destruct l as [|x l]; [congruence|]. clear N. simpl. rewrite H by (now left).
  destruct b; [|reflexivity]. simpl. apply forallb_forall. intros y Hy. apply H. now right.
Qed.
Lemma fin_in c : In c (map fin S) -> exists s, c = fin s /\ length s = n.
Proof.
  intros H. apply in_map_iff in H as (s & <- & H). exists s. split; trivial.
  rewrite Forall_forall in Hlen. auto.
Qed.
Lemma fin_nonempty : map fin S <> [].
Proof. destruct S; [congruence|discriminate]. Qed.
Lemma fin_okc j : (1 <= j)%nat -> okc hi lo (map fin S) j = okc_b n (length hi) j.
Proof.
  intros Hj. unfold okc, okc_b. apply forallb_const; [apply fin_nonempty|].
  intros c Hc. apply fin_in in Hc as (s & -> & E). now rewrite count_valid_false, fin_cpat.
Qed.
Lemma fin_okl f j : okl hi lo norm gam (map fin S) f p j = okl_b n (length hi) j.
Proof.
  unfold okl, okl_b. apply forallb_const; [apply fin_nonempty|].
  intros c Hc. apply fin_in in Hc as (s & -> & E). now rewrite count_valid_false, fin_lpat.
Qed.
Lemma fin_okb f j : (1 <= j)%nat -> okb hi lo norm gam (map fin S) f p j = okc_b n (length hi) j && okl_b n (length hi) j.
Proof. intros. unfold okb. now rewrite fin_okc, fin_okl. Qed.
Lemma fin_sig_len : sig_len (map fin S) = n.
Proof. destruct S as [|s S']; [congruence|]. simpl. rewrite fin_length. now inversion Hlen. Qed.
End Finite.

(** number of levels and counts as functions of the lengths only *)
Definition lev_b (n L : nat) : Z := match decomposition_level n L with Ok m => m | Err _ => 0%Z end.
Definition gcount_b (n L : nat) (leaders : bool) : nat :=
  run (fun j => okc_b n L j && (negb leaders || okl_b n L j)) (Z.to_nat (lev_b n L)) 0.
Definition ccount_b (n L : nat) (leaders : bool) : nat :=
  let g := gcount_b n L leaders in
  if leaders then g + if Nat.ltb g (Z.to_nat (lev_b n L)) && okc_b n L (S g) then 1 else 0 else g.
Definition has_leaders (p : pexp) : bool := match p with PNone => false | _ => true end.

Section FiniteCounts.
Variables (w : wavelet) (gam norm : R) (S : list (list R)) (n : nat) (p : pexp).
Hypothesis Hw : good_wavelet w.
Hypothesis HS : S <> [].
Hypothesis Hlen : Forall (fun s => length s = n) S.
Hypothesis Hp : pos_pexp p.
Let L := length (dec_hi w).
Let A := map fin S.

Lemma fin_nlev : nlev A w = lev_b n L.
Proof. unfold nlev, A. rewrite (fin_sig_len S n) by trivial. reflexivity. Qed.
Lemma fin_gcount : gcount A p w gam norm = gcount_b n L (has_leaders p).
Proof.
  unfold gcount. rewrite fin_nlev. unfold gcount_b. destruct Hw as [Hw1 Hw2].
  assert (Lh : length (neg_hi w) = L) by apply neg_hi_length.
  destruct p; apply run_ext; intros j Hj; cbn [has_leaders negb orb].
  - rewrite (fin_okc _ _ S n) by (trivial; lia). rewrite Lh, andb_true_r. reflexivity.
  - unfold A. rewrite (fin_okb _ _ _ _ S n) by (trivial; lia). rewrite Lh. reflexivity.
  - unfold A. rewrite (fin_okb _ _ _ _ S n) by (trivial; lia). rewrite Lh. reflexivity.
Qed.
Lemma fin_ccount : ccount A p w gam norm = ccount_b n L (has_leaders p).
Proof.
  unfold ccount, ccount_b. rewrite fin_nlev, fin_gcount. destruct Hw as [Hw1 Hw2].
  assert (Lh : length (neg_hi w) = L) by apply neg_hi_length.
  destruct p; cbn [has_leaders]; trivial; unfold A; rewrite (fin_okc _ _ S n) by (trivial; lia); now rewrite Lh.
Qed.
Lemma fin_Cf_pat j r : (1 <= j)%nat -> (r < length S)%nat -> pat (nth r (Cf A w gam norm j) []) = cpat n L j.
Proof.
  intros Hj Hr. unfold Cf, coef_arr, A. rewrite map_map, (nth_map_lt _ _ _ []) by trivial.
  destruct Hw as [Hw1 Hw2]. assert (Lh : length (neg_hi w) = L) by apply neg_hi_length.
  assert (En : length (nth r S []) = n).
  { rewrite Forall_forall in Hlen. apply Hlen. now apply nth_In. }
  rewrite (fin_coef_pat _ _ _ _ n); trivial; [now rewrite Lh | lia].
Qed.
Lemma fin_Cf_pats j : (1 <= j)%nat -> map pat (Cf A w gam norm j) = repeat (cpat n L j) (length S).
Proof.
  intros Hj. unfold Cf, coef_arr, A. rewrite !map_map.
  destruct Hw as [Hw1 Hw2]. assert (Lh : length (neg_hi w) = L) by apply neg_hi_length.
  clear HS A. induction Hlen as [|s S' E H IH]; simpl; [reflexivity|].
  rewrite (fin_coef_pat _ _ _ _ n); trivial; [|lia]. rewrite Lh. f_equal. now apply IH.
Qed.
Lemma fin_Ld_pats j : map pat (Ld A p w gam norm j) = repeat (lpat n L j) (length S).
Proof.
  unfold Ld, lead_arr, A. rewrite !map_map.
  destruct Hw as [Hw1 Hw2]. assert (Lh : length (neg_hi w) = L) by apply neg_hi_length.
  clear HS A. induction Hlen as [|s S' E H IH]; simpl; [reflexivity|].
  rewrite (fin_lpat _ _ _ _ n); trivial; [|lia]. rewrite Lh. f_equal. now apply IH.
Qed.
Lemma counts_of_pats (B : arr) b m : map pat B = repeat b m -> map count_valid B = repeat (count_false b) m.
Proof.
  revert m. induction B as [|c B IH]; intros [|m]; simpl; try discriminate; trivial.
  intros [= E E']. rewrite count_valid_false, E. f_equal. now apply IH.
Qed.
End FiniteCounts.
