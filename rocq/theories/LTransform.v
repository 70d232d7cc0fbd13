(** * The wavelet transform loops in closed form *)
From Coq Require Import Reals List ZArith Bool Lra Lia.
From Verif Require Import XReal PyBase ModelUtils ModelMRQ ModelWavelet Spec LXReal LUtils LBase LFilter.
Import ListNotations.
Open Scope R_scope.

Fixpoint approx_at (lo : list R) (j : nat) (c : col) : col :=
  match j with O => c | S j' => fstep lo (approx_at lo j' c) end.
(** detail coefficients at scale j >= 1 *)
Definition detail (hi lo : list R) (j : nat) (c : col) : col :=
  fstep hi (approx_at lo (j - 1) c).
Definition coef (hi lo : list R) (norm gam : R) (j : nat) (c : col) : col :=
  rescale norm gam (Z.of_nat j) (detail hi lo j c).

Lemma approx_at_length lo j c : length (approx_at lo j c) = (length c / 2 ^ j)%nat.
Proof.
  induction j; simpl approx_at; simpl Nat.pow; [now rewrite Nat.div_1_r|].
  rewrite fstep_length, IHj, Nat.div_div by (try apply Nat.pow_nonzero; lia).
  f_equal. lia.
Qed.
Lemma detail_length hi lo j c : (1 <= j)%nat -> length (detail hi lo j c) = (length c / 2 ^ j)%nat.
Proof.
  intros. unfold detail. rewrite fstep_length, approx_at_length, Nat.div_div
    by (try apply Nat.pow_nonzero; lia).
  f_equal. destruct j; [lia|]. simpl. rewrite Nat.sub_0_r. lia.
Qed.

Lemma rescale_eq norm gam z d :
  rescale norm gam z d
  = map (xmul (Fin (Rpower 2 (gam * IZR z + IZR z * (1/2 - 1/norm))))) d.
Proof.
  unfold rescale. rewrite map_map. apply map_ext. intros v.
  rewrite (xmul_comm v), (xmul_comm (xmul _ _)), xmul_Fin_assoc. do 2 f_equal.
  now rewrite <- Rpower_plus.
Qed.
Lemma Rpower_neq0 a b : Rpower a b <> 0.
Proof. assert (H := Rpower_pos a b). lra. Qed.

Lemma valid_map_notnan (f : xr -> xr) c : (forall v, isnan (f v) = isnan v) ->
  count_valid (map f c) = count_valid c.
Proof.
  intros H. unfold count_valid, valid. induction c as [|v c IH]; simpl; [reflexivity|].
  unfold notnan in *. rewrite H. destruct (isnan v); simpl; congruence.
Qed.
Lemma count_valid_rescale norm gam z d : count_valid (rescale norm gam z d) = count_valid d.
Proof.
  rewrite rescale_eq. apply valid_map_notnan. intros. apply xmul_isnan, Rpower_neq0.
Qed.
Lemma rescale_length norm gam z d : length (rescale norm gam z d) = length d.
Proof. rewrite rescale_eq. apply map_length. Qed.
Lemma coef_length hi lo norm gam j c : (1 <= j)%nat ->
  length (coef hi lo norm gam j c) = (length c / 2 ^ j)%nat.
Proof. intros. unfold coef. rewrite rescale_length. now apply detail_length. Qed.

(** minimum of a non-empty list of counts compared with 3 *)
Lemma min_count_spec (A : arr) : A <> [] ->
  exists m, min_count A = Ok m /\ Nat.ltb m 3 = negb (forallb (fun c => Nat.leb 3 (count_valid c)) A).
Proof.
  unfold min_count. intros H. induction A as [|c A IH]; [congruence|]. clear H.
  destruct A as [|c' A].
  - exists (count_valid c). split; [reflexivity|]. simpl. rewrite andb_true_r, Nat.ltb_antisym. reflexivity.
  - destruct IH as (m & E & Em); [discriminate|].
    exists (Nat.min (count_valid c) m). simpl map in *. cbn [min_list]. 
    cbn [min_list] in E. rewrite E. split; [reflexivity|].
    change (forallb ?f (c :: ?l)) with (f c && forallb f l)%bool. cbn beta.
    rewrite negb_andb, <- Em, <- Nat.ltb_antisym.
    destruct (Nat.ltb_spec (Nat.min (count_valid c) m) 3), (Nat.ltb_spec (count_valid c) 3), (Nat.ltb_spec m 3); simpl; trivial; lia.
Qed.

(** number of consecutive indices s+1, s+2, ... (at most n) satisfying ok *)
Fixpoint run (ok : nat -> bool) (n s : nat) : nat :=
  match n with
  | O => O
  | S n' => if ok (S s) then S (run ok n' (S s)) else O
  end.
Lemma run_le ok n s : (run ok n s <= n)%nat.
Proof. revert s; induction n; intros s; simpl; [lia|]. destruct (ok (S s)); [|lia]. specialize (IHn (S s)). lia. Qed.
Lemma run_ok ok n s j : (s < j <= s + run ok n s)%nat -> ok j = true.
Proof.
  revert s; induction n; intros s H; simpl in *; [lia|].
  destruct (ok (S s)) eqn:E; [|lia].
  destruct (Nat.eq_dec j (S s)) as [->|]; [trivial|]. apply (IHn (S s)). lia.
Qed.
Lemma run_stop ok n s : (run ok n s < n)%nat -> ok (S (s + run ok n s)) = false.
Proof.
  revert s; induction n; intros s H; simpl in *; [lia|].
  destruct (ok (S s)) eqn:E; [|now rewrite Nat.add_0_r].
  specialize (IHn (S s)). rewrite <- plus_n_Sm. apply IHn. lia.
Qed.
Lemma run_ext ok ok' n s : (forall j, (s < j <= s + n)%nat -> ok j = ok' j) -> run ok n s = run ok' n s.
Proof.
  revert s; induction n; intros s H; simpl; [reflexivity|].
  rewrite H by lia. destruct (ok' (S s)); [|reflexivity]. f_equal. apply IHn. intros; apply H; lia.
Qed.

(** successive add_values *)
Definition add_many (ops : list (arr * Z)) (m : mrq) : mrq :=
  fold_left (fun m op => add_values m (fst op) (snd op)) ops m.
Lemma add_many_app o1 o2 m : add_many (o1 ++ o2) m = add_many o2 (add_many o1 m).
Proof. apply fold_left_app. Qed.

Lemma dict_set_new {V} (d : dict V) k v : ~ In k (dict_keys d) -> dict_set d k v = d ++ [(k, v)].
Proof.
  unfold dict_keys. induction d as [|[a b] d IH]; simpl; intros H; [reflexivity|].
  destruct (Z.eqb_spec k a) as [->|]; [exfalso; auto|]. f_equal. apply IH. auto.
Qed.
Lemma add_many_new ops m :
  NoDup (dict_keys (mq_values m) ++ map snd ops) -> dict_keys (mq_nj m) = dict_keys (mq_values m) ->
  add_many ops m = mkMRQ (mq_formalism m) (mq_gamint m)
     (mq_values m ++ map (fun op => (snd op, fst op)) ops)
     (mq_nj m ++ map (fun op => (snd op, map count_valid (fst op))) ops).
Proof.
  revert m. induction ops as [|[a j] ops IH]; intros m H K; simpl.
  - rewrite !app_nil_r. destruct m; reflexivity.
  - assert (Hj : ~ In j (dict_keys (mq_values m))).
    { intros I. simpl in H. apply NoDup_remove_2 in H. apply H. apply in_app_iff. now left. }
    unfold add_many in IH. unfold add_many. simpl. rewrite IH.
    + unfold add_values; cbn [mq_formalism mq_gamint mq_values mq_nj].
      rewrite !dict_set_new by (rewrite ?K; trivial). now rewrite <- !app_assoc.
    + unfold add_values; cbn [mq_values]. rewrite dict_set_new by trivial.
      unfold dict_keys in *. rewrite map_app. simpl. rewrite <- app_assoc. exact H.
    + unfold add_values; cbn [mq_values mq_nj]. rewrite !dict_set_new by (rewrite ?K; trivial).
      unfold dict_keys in *. rewrite !map_app, K. reflexivity.
Qed.

Section Coefs.
Variables (hi lo : list R) (norm gam : R) (A : arr).
Hypothesis Hhi : (1 <= length hi)%nat.
Hypothesis Hlo : length lo = length hi.
Hypothesis Hnorm : norm <> 0.
Hypothesis HA : A <> [].

Lemma filtering_arr_eq B :
  filtering_arr B hi lo = (map (fstep hi) B, map (fstep lo) B).
Proof.
  unfold filtering_arr. f_equal; apply map_ext; intros c; unfold filtering;
    rewrite filtering_fstep by trivial; reflexivity.
Qed.

Definition coef_arr (j : nat) : arr := map (coef hi lo norm gam j) A.
Definition okc (j : nat) : bool := forallb (fun c => Nat.leb 3 (count_valid (detail hi lo j c))) A.
Definition coef_ops (s g : nat) : list (arr * Z) :=
  map (fun j => (coef_arr j, Z.of_nat j)) (seq (S s) g).

Lemma okc_eq j : forallb (fun c => Nat.leb 3 (count_valid c)) (coef_arr j) = okc j.
Proof.
  unfold coef_arr, okc. induction A as [|c B IH]; simpl; [reflexivity|].
  unfold coef. rewrite count_valid_rescale. f_equal.
  destruct B; [reflexivity|]. apply IH. discriminate.
Qed.

Lemma step_detail s :
  map (rescale norm gam (Z.of_nat s + 1)) (fst (filtering_arr (map (approx_at lo s) A) hi lo))
  = coef_arr (S s).
Proof.
  rewrite filtering_arr_eq. cbn [fst]. unfold coef_arr. rewrite !map_map. apply map_ext. intros c.
  unfold coef, detail. simpl. rewrite Nat.sub_0_r. f_equal. lia.
Qed.
Lemma step_approx s :
  snd (filtering_arr (map (approx_at lo s) A) hi lo) = map (approx_at lo (S s)) A.
Proof. rewrite filtering_arr_eq. cbn [snd]. rewrite map_map. reflexivity. Qed.

Lemma coef_loop_eq n s ml m :
  coef_loop hi lo norm gam n (Z.of_nat s + 1) ml (map (approx_at lo s) A) m
  = Ok (add_many (coef_ops s (run okc n s)) m,
        if Nat.ltb (run okc n s) n then Z.of_nat (s + run okc n s) else ml).
Proof.
  revert s m. induction n as [|n IH]; intros s m; cbn [coef_loop run].
  - reflexivity.
  - destruct (Req_EM_T norm 0); [contradiction|].
    rewrite step_detail, step_approx.
    destruct (min_count_spec (coef_arr (S s))) as (c & -> & Ec).
    { unfold coef_arr. destruct A; [congruence|discriminate]. }
    cbn [bind]. rewrite Ec, okc_eq. destruct (okc (S s)) eqn:O; cbn [negb].
    + replace (Z.of_nat s + 1 + 1)%Z with (Z.of_nat (S s) + 1)%Z by lia.
      rewrite IH. f_equal. f_equal.
      * unfold coef_ops. simpl seq. simpl map. unfold add_many at 2. simpl fold_left.
        replace (Z.of_nat s + 1)%Z with (Z.of_nat (S s)) by lia. reflexivity.
      * assert (L := run_le okc n (S s)).
        destruct (Nat.ltb_spec (run okc n (S s)) n), (Nat.ltb_spec (S (run okc n (S s))) (S n)); try lia.
    + replace (Nat.ltb 0 (S n)) with true by reflexivity. unfold coef_ops. simpl.
      f_equal. f_equal. lia.
Qed.

Lemma coef_ops_keys s g : map snd (coef_ops s g) = map Z.of_nat (seq (S s) g).
Proof. unfold coef_ops. rewrite map_map. reflexivity. Qed.
End Coefs.

Lemma NoDup_Zseq s g : NoDup (map Z.of_nat (seq s g)).
Proof.
  apply FinFun.Injective_map_NoDup; [|apply seq_NoDup].
  intros a b E. lia.
Qed.

(** ** leaders *)
Section Leaders.
Variables (f : formalism) (p : pexp).

(** what is fed to the cone: |d| or 2^j |d|^p *)
Definition pre (j : nat) (d : col) : col :=
  match f, p with
  | WaveletPLeader, PNum e =>
      map (fun v => xmul (Fin (Rpower 2 (INR j))) v) (fast_power (map xabs d) e)
  | _, _ => map xabs d
  end.
Definition post (j : nat) (l : col) : col :=
  match f, p with
  | WaveletPLeader, PNum e =>
      fast_power (map (fun v => xmul (Fin (Rpower 2 (- INR j))) v) l) (PyFloat (1 / num_val e))
  | _, _ => l
  end.

Variable (d : nat -> col).  (* the coefficients per scale *)

Fixpoint sv (j : nat) : col :=
  match j with
  | O => []
  | S j' =>
      match j' with
      | O => pre 1 (d 1%nat)
      | S _ => map (fun k => reduce3 f [nth k (pre j (d j)) NaN;
                                        nth (2 * k) (sv j') NaN;
                                        nth (2 * k + 1) (sv j') NaN])
                   (seq 0 (length (sv j') / 2))
      end
  end.
Definition raw_lead (j : nat) : col :=
  map (fun k => reduce3 f [nth k (sv j) NaN; nth (k + 1) (sv j) NaN; nth (k + 2) (sv j) NaN])
      (seq 0 (length (sv j) - 2)).
Definition lead (j : nat) : col := post j (raw_lead j).

Definition p_nonzero : Prop := match f, p with
  | WaveletPLeader, PNum e => num_val e <> 0 | _, _ => True end.

Lemma pre_length j c : length (pre j c) = length c.
Proof. unfold pre. destruct f, p; rewrite ?map_length, ?fast_power_map, ?map_length; reflexivity. Qed.

Lemma py_slice_nth {X} (l : list X) (a b : nat) k x :
  (b <= length l)%nat -> (k < b - a)%nat ->
  nth k (py_slice (Z.of_nat a) (Z.of_nat b) l) x = nth (a + k) l x.
Proof.
  intros Hb Hk. unfold py_slice, norm_index.
  destruct (Z.ltb_spec (Z.of_nat a) 0); [lia|]. destruct (Z.ltb_spec (Z.of_nat b) 0); [lia|].
  rewrite !Nat2Z.id. rewrite (Nat.min_l a) by lia. rewrite (Nat.min_l b) by lia.
  assert (F : forall (m : list X) n i, nth i (skipn n m) x = nth (n + i) m x).
  { clear. induction m; intros [|n] i; simpl; trivial. destruct i; trivial. }
  rewrite <- F.
  assert (E : forall (m : list X) n i, (i < n)%nat -> nth i (firstn n m) x = nth i m x).
  { clear. induction m; intros [|n] [|i] Hi; simpl; try lia; trivial. apply IHm. lia. }
  apply E. trivial.
Qed.
Lemma py_slice_length {X} (l : list X) (a b : nat) :
  (b <= length l)%nat -> length (py_slice (Z.of_nat a) (Z.of_nat b) l) = (b - a)%nat.
Proof.
  intros Hb. unfold py_slice, norm_index.
  destruct (Z.ltb_spec (Z.of_nat a) 0); [lia|]. destruct (Z.ltb_spec (Z.of_nat b) 0); [lia|].
  rewrite !Nat2Z.id, firstn_length, skipn_length. lia.
Qed.

Lemma stack_windows s :
  let n := Z.of_nat (length s) in
  stack3 (reduce3 f) (py_slice 0 (n - 2) s) (py_slice 1 (n - 1) s) (py_slice 2 n s)
  = Ok (map (fun k => reduce3 f [nth k s NaN; nth (k + 1) s NaN; nth (k + 2) s NaN])
            (seq 0 (length s - 2))).
Proof.
  intros n. unfold n. destruct (le_lt_dec 2 (length s)) as [H|H].
  - replace (Z.of_nat (length s) - 2)%Z with (Z.of_nat (length s - 2)) by lia.
    replace (Z.of_nat (length s) - 1)%Z with (Z.of_nat (length s - 1)) by lia.
    change 0%Z with (Z.of_nat 0) at 1. change 1%Z with (Z.of_nat 1) at 1. change 2%Z with (Z.of_nat 2) at 1.
    unfold stack3. rewrite !py_slice_length by lia.
    replace (length s - 2 - 0)%nat with (length s - 2)%nat by lia.
    replace (length s - 1 - 1)%nat with (length s - 2)%nat by lia.
    rewrite Nat.eqb_refl. cbn [andb]. f_equal. apply map_ext_in. intros k Hk. apply in_seq in Hk.
    rewrite !py_slice_nth by lia. rewrite (Nat.add_comm 1 k), (Nat.add_comm 2 k). reflexivity.
  - destruct s as [|a [|b s]]; simpl in H; try lia; reflexivity.
Qed.

Lemma find_sv_eq j :
  (1 <= j)%nat -> length (d (S j)) = (length (sv j) / 2)%nat ->
  find_sans_voisin (Z.of_nat (S j)) (pre (S j) (d (S j))) (Some (sv j)) f = Ok (sv (S j)).
Proof.
  intros Hj Hl. unfold find_sans_voisin.
  destruct (Z.eqb_spec (Z.of_nat (S j)) 1); [lia|].
  destruct j as [|j]; [lia|]. cbn [sv].
  set (s := match j with O => _ | S _ => _ end).
  change (sv (S j)) with s in Hl.
  unfold stack3.
  rewrite firstn_length, pre_length, Hl, Nat.min_id. unfold every2 at 1 2 3.
  rewrite !map_length, !seq_length, Nat.eqb_refl. cbn [andb]. f_equal.
  apply map_ext_in. intros k Hk. apply in_seq in Hk.
  unfold every2. rewrite !(nth_map_lt _ _ _ 0%nat) by (rewrite seq_length; lia).
  rewrite !seq_nth by lia. simpl Nat.add at 2 5.
  f_equal. f_equal.
  - rewrite firstn_all2 by (rewrite pre_length, Hl; lia). reflexivity.
  - f_equal; f_equal; lia.
Qed.

Lemma compute_leaders_eq j :
  p_nonzero -> (1 <= j)%nat ->
  (forall i, (1 <= i < j)%nat -> length (d (S i)) = (length (sv i) / 2)%nat) ->
  compute_leaders (d j) (match j with 1%nat => None | _ => Some (sv (j - 1)) end) (Z.of_nat j) f p
  = Ok (lead j, sv j).
Proof.
  intros Hp Hj Hl. unfold compute_leaders.
  assert (E1 : match f, p with
       | WaveletPLeader, PNum e =>
           Ok (map (fun v => xmul (Fin (Rpower 2 (IZR (Z.of_nat j)))) v) (fast_power (map xabs (d j)) e))
       | _, _ => Ok (map xabs (d j))
       end = Ok (pre j (d j))).
  { unfold pre. rewrite <- INR_IZR_INZ. destruct f, p; reflexivity. }
  rewrite E1. cbn [bind]. clear E1.
  assert (E2 : find_sans_voisin (Z.of_nat j) (pre j (d j)) (match j with 1%nat => None | _ => Some (sv (j - 1)) end) f = Ok (sv j)).
  { destruct j as [|[|j]]; [lia|reflexivity|]. replace (S (S j) - 1)%nat with (S j) by lia.
    apply find_sv_eq; [lia|]. apply Hl. lia. }
  rewrite E2. cbn [bind]. rewrite stack_windows. cbn [bind]. fold (raw_lead j).
  unfold lead, post, p_nonzero in *. rewrite <- INR_IZR_INZ.
  destruct f, p; try reflexivity. destruct (Req_EM_T (num_val p0) 0); [contradiction|reflexivity].
Qed.
End Leaders.

Section LeaderLoop.
Variables (hi lo : list R) (norm gam : R) (A : arr) (f : formalism) (p : pexp).
Hypothesis Hhi : (1 <= length hi)%nat.
Hypothesis Hlo : length lo = length hi.
Hypothesis Hnorm : norm <> 0.
Hypothesis HA : A <> [].
Hypothesis Hp : p_nonzero f p.

Definition cf (c : col) (j : nat) : col := coef hi lo norm gam j c.
Definition sv_of (j : nat) (c : col) : col := sv f p (cf c) j.
Definition lead_of (j : nat) (c : col) : col := lead f p (cf c) j.
Definition lead_arr (j : nat) : arr := map (lead_of j) A.
Definition okl (j : nat) : bool := forallb (fun c => Nat.leb 3 (count_valid (lead_of j c))) A.
Definition lead_ops (s g : nat) : list (arr * Z) :=
  map (fun j => (lead_arr j, Z.of_nat j)) (seq (S s) g).

Lemma sv_length (c : col) j : (1 <= j)%nat -> length (sv_of j c) = (length c / 2 ^ j)%nat.
Proof.
  intros Hj. unfold sv_of. induction j as [|j IH]; [lia|].
  destruct j as [|j].
  - simpl sv. rewrite pre_length. unfold cf. apply coef_length. lia.
  - cbn [sv]. rewrite map_length, seq_length. cbn [sv] in IH. rewrite IH by lia.
    rewrite Nat.div_div by (try apply Nat.pow_nonzero; lia). f_equal. simpl. lia.
Qed.
Lemma cf_sv_length c i : (1 <= i)%nat -> length (cf c (S i)) = (length (sv_of i c) / 2)%nat.
Proof.
  intros Hi. unfold cf. rewrite coef_length, sv_length by lia.
  rewrite Nat.div_div by (try apply Nat.pow_nonzero; lia). f_equal. simpl. lia.
Qed.

Lemma mapM_map {X Y Z} (g : Y -> res Z) (h : X -> Y) (k : X -> Z) l :
  (forall x, In x l -> g (h x) = Ok (k x)) -> mapM g (map h l) = Ok (map k l).
Proof.
  induction l as [|x l IH]; simpl; intros H; [reflexivity|].
  rewrite H by auto. cbn [bind]. rewrite IH by auto. reflexivity.
Qed.

Definition sv_opt (s : nat) : option arr :=
  match s with O => None | _ => Some (map (sv_of s) A) end.

Lemma combine_map {X Y Z} (g : X -> Y) (h : X -> Z) l :
  combine (map g l) (map h l) = map (fun x => (g x, h x)) l.
Proof. induction l; simpl; congruence. Qed.

Lemma compute_leaders_arr_eq s :
  compute_leaders_arr (coef_arr hi lo norm gam A (S s)) (sv_opt s) (Z.of_nat s + 1) f p
  = Ok (lead_arr (S s), map (sv_of (S s)) A).
Proof.
  unfold compute_leaders_arr. replace (Z.of_nat s + 1)%Z with (Z.of_nat (S s)) by lia.
  set (svl := match sv_opt s with None => _ | Some _ => _ end).
  assert (E : svl = map (fun c => match S s with 1%nat => None | _ => Some (sv_of (S s - 1) c) end) A).
  { unfold svl, sv_opt. destruct s.
    - unfold coef_arr. rewrite map_map. reflexivity.
    - rewrite map_map. replace (S (S s) - 1)%nat with (S s) by lia. reflexivity. }
  rewrite E. unfold coef_arr. rewrite combine_map.
  rewrite (mapM_map _ _ (fun c => (lead_of (S s) c, sv_of (S s) c))).
  - cbn [bind]. rewrite !map_map. reflexivity.
  - intros c _. cbn [fst snd].
    apply (compute_leaders_eq f p (cf c) (S s)); trivial; [lia|].
    intros i Hi. apply cf_sv_length. lia.
Qed.

Definition okb (j : nat) : bool := okc hi lo A j && okl j.

Lemma leader_loop_eq n s ml mc mlq :
  let g := run okb n s in
  leader_loop hi lo norm gam f p n (Z.of_nat s + 1) ml (map (approx_at lo s) A) (sv_opt s) mc mlq
  = Ok (add_many (coef_ops hi lo norm gam A s
           (g + if Nat.ltb g n && okc hi lo A (S (s + g)) then 1 else 0)) mc,
        add_many (lead_ops s g) mlq,
        if Nat.ltb g n then Z.of_nat (s + g) else ml).
Proof.
  revert s mc mlq. induction n as [|n IH]; intros s mc mlq; cbn zeta; cbn [leader_loop run].
  - reflexivity.
  - destruct (Req_EM_T norm 0); [contradiction|].
    rewrite step_detail, step_approx by trivial.
    destruct (min_count_spec (coef_arr hi lo norm gam A (S s))) as (c & -> & Ec).
    { unfold coef_arr. destruct A; [congruence|discriminate]. }
    cbn [bind]. rewrite Ec, okc_eq by trivial.
    assert (Eb : okb (S s) = okc hi lo A (S s) && okl (S s)) by reflexivity.
    rewrite Eb. destruct (okc hi lo A (S s)) eqn:O; cbn [negb andb].
    2:{ replace (Nat.ltb 0 (S n)) with true by reflexivity.
        rewrite Nat.add_0_r, O. unfold coef_ops, lead_ops. simpl. do 2 f_equal. lia. }
    rewrite compute_leaders_arr_eq. cbn [bind].
    destruct (min_count_spec (lead_arr (S s))) as (c' & -> & Ec').
    { unfold lead_arr. destruct A; [congruence|discriminate]. }
    cbn [bind]. rewrite Ec'.
    assert (El : forallb (fun c => Nat.leb 3 (count_valid c)) (lead_arr (S s)) = okl (S s)).
    { unfold lead_arr, okl. generalize A. intros B. induction B as [|b B IHB]; cbn [map forallb]; [reflexivity|]. now rewrite IHB. }
    rewrite El. destruct (okl (S s)) eqn:Ol; cbn [negb].
    + replace (Z.of_nat s + 1 + 1)%Z with (Z.of_nat (S s) + 1)%Z by lia.
      replace (Some (map (sv_of (S s)) A)) with (sv_opt (S s)) by reflexivity.
      rewrite IH. cbn zeta.
      assert (L := run_le okb n (S s)).
      replace (Nat.ltb (S (run okb n (S s))) (S n)) with (Nat.ltb (run okb n (S s)) n) by reflexivity.
      replace (S s + run okb n (S s))%nat with (s + S (run okb n (S s)))%nat by lia.
      replace (Z.of_nat s + 1)%Z with (Z.of_nat (S s)) by lia. reflexivity.
    + replace (Nat.ltb 0 (S n)) with true by reflexivity.
      rewrite Nat.add_0_r, O. unfold coef_ops, lead_ops. simpl.
      replace (Z.of_nat s + 1)%Z with (Z.of_nat (S s)) by lia.
      do 2 f_equal. lia.
Qed.
End LeaderLoop.

(** ** wavelet_analysis in closed form *)
Definition neg_hi (w : wavelet) : list R := map (fun t => -1 * t) (dec_hi w).
Definition sig_len (A : arr) : nat := match A with c :: _ => length c | [] => O end.

(** filters as pywt provides them: same length, not empty *)
Definition good_wavelet (w : wavelet) : Prop :=
  (1 <= length (dec_hi w))%nat /\ length (dec_lo w) = length (dec_hi w).

Lemma neg_hi_length w : length (neg_hi w) = length (dec_hi w).
Proof. apply map_length. Qed.

(** stored table of a quantity built by successive add_values on 1..g *)
Definition table (T : nat -> arr) (g : nat) : dict arr :=
  map (fun j => (Z.of_nat j, T j)) (seq 1 g).
Definition njtable (T : nat -> arr) (g : nat) : dict (list nat) :=
  map (fun j => (Z.of_nat j, map count_valid (T j))) (seq 1 g).
Definition mrq_of (f : formalism) (gam : R) (T : nat -> arr) (g : nat) : mrq :=
  mkMRQ f gam (table T g) (njtable T g).

Lemma add_many_table f gam T g :
  add_many (map (fun j => (T j, Z.of_nat j)) (seq 1 g)) (new_mrq f gam) = mrq_of f gam T g.
Proof.
  rewrite add_many_new.
  - unfold new_mrq, mrq_of, table, njtable. simpl. rewrite !map_map. reflexivity.
  - simpl. rewrite map_map. apply NoDup_Zseq.
  - reflexivity.
Qed.

Definition level_cut (g n : nat) (ml : Z) : Z := if Nat.ltb g n then Z.of_nat g else ml.

Lemma wavelet_coef_eq A w j1 j2 gam norm weighted ml :
  good_wavelet w -> norm <> 0 -> A <> [] ->
  decomposition_level (sig_len A) (length (dec_hi w)) = Ok ml ->
  let hi := neg_hi w in let lo := dec_lo w in
  let n := Z.to_nat ml in
  let g := run (okc hi lo A) n 0 in
  exists ws, wavelet_analysis A PNone w j1 j2 gam norm weighted
  = Ok (mkWT (mrq_of WaveletCoef gam (coef_arr hi lo norm gam A) g) None
             (effective_j2 (level_cut g n ml) j2) None, ws).
Proof.
  intros (Hw1 & Hw2) Hn HA Hl hi lo n g. unfold wavelet_analysis.
  fold (neg_hi w). fold (sig_len A). fold hi.
  assert (Lhi : length hi = length (dec_hi w)) by apply neg_hi_length.
  unfold decomposition_level_warn. rewrite Lhi, Hl. cbn [bind].
  unfold wavelet_coef_analysis. fold lo n.
  assert (E := coef_loop_eq hi lo norm gam A ltac:(lia) ltac:(unfold lo; lia) Hn HA n 0 ml (new_mrq WaveletCoef gam)).
  simpl Z.add in E. simpl approx_at in E. rewrite map_id in E. rewrite E. cbn [bind].
  eexists. f_equal. f_equal. unfold coef_ops. rewrite add_many_table. reflexivity.
Qed.

Lemma leader_loop_top A w norm gam f p ml :
  good_wavelet w -> norm <> 0 -> A <> [] -> p_nonzero f p ->
  let hi := neg_hi w in let lo := dec_lo w in
  let n := Z.to_nat ml in
  let g := run (okb hi lo norm gam A f p) n 0 in
  leader_loop hi lo norm gam f p n 1 ml A None (new_mrq WaveletCoef gam) (new_mrq f gam)
  = Ok (mrq_of WaveletCoef gam (coef_arr hi lo norm gam A)
           (g + if Nat.ltb g n && okc hi lo A (S g) then 1 else 0),
        mrq_of f gam (lead_arr hi lo norm gam A f p) g,
        level_cut g n ml).
Proof.
  intros (Hw1 & Hw2) Hn HA Hp hi lo n g.
  assert (Lhi : length hi = length (dec_hi w)) by apply neg_hi_length.
  assert (E := leader_loop_eq hi lo norm gam A f p ltac:(lia) ltac:(unfold lo; lia) Hn HA Hp n 0 ml
                 (new_mrq WaveletCoef gam) (new_mrq f gam)).
  simpl Z.add in E. simpl approx_at in E. rewrite map_id in E. cbn zeta in E.
  change (sv_opt _ _ _ _ _ _ _ 0) with (@None arr) in E. rewrite E.
  unfold coef_ops, lead_ops. rewrite !add_many_table. reflexivity.
Qed.

Lemma wavelet_leader_eq A w j1 j2 gam norm weighted ml :
  good_wavelet w -> norm <> 0 -> A <> [] ->
  decomposition_level (sig_len A) (length (dec_hi w)) = Ok ml ->
  let hi := neg_hi w in let lo := dec_lo w in
  let n := Z.to_nat ml in
  let g := run (okb hi lo norm gam A WaveletLeader PInfty) n 0 in
  exists ws, wavelet_analysis A PInfty w j1 j2 gam norm weighted
  = Ok (mkWT (mrq_of WaveletCoef gam (coef_arr hi lo norm gam A)
                (g + if Nat.ltb g n && okc hi lo A (S g) then 1 else 0))
             (Some (mrq_of WaveletLeader gam (lead_arr hi lo norm gam A WaveletLeader PInfty) g))
             (effective_j2 (level_cut g n ml) j2) None, ws).
Proof.
  intros Hw Hn HA Hl hi lo n g. unfold wavelet_analysis.
  fold (neg_hi w). fold (sig_len A). fold hi.
  assert (Lhi : length hi = length (dec_hi w)) by apply neg_hi_length.
  unfold decomposition_level_warn. rewrite Lhi, Hl. cbn [bind].
  unfold hi, lo, n in *. cbn [check_formalism].
  rewrite leader_loop_top by (trivial; exact I). cbn [bind].
  eexists. reflexivity.
Qed.

(** the p-leader formalism up to the correction *)
Lemma wavelet_pleader_eq A w e j1 j2 gam norm weighted ml :
  good_wavelet w -> norm <> 0 -> A <> [] -> num_val e <> 0 ->
  decomposition_level (sig_len A) (length (dec_hi w)) = Ok ml ->
  let hi := neg_hi w in let lo := dec_lo w in
  let n := Z.to_nat ml in
  let g := run (okb hi lo norm gam A WaveletPLeader (PNum e)) n 0 in
  let mc := mrq_of WaveletCoef gam (coef_arr hi lo norm gam A)
                (g + if Nat.ltb g n && okc hi lo A (S g) then 1 else 0) in
  let mlq := mrq_of WaveletPLeader gam (lead_arr hi lo norm gam A WaveletPLeader (PNum e)) g in
  let j2e := effective_j2 (level_cut g n ml) j2 in
  exists ws, wavelet_analysis A (PNum e) w j1 j2 gam norm weighted
  = (rw <- correct_leaders mc mlq (num_val e) j1 j2e weighted (level_cut g n ml) ;;
     match fst rw with
     | CPair m eta => Ok (mkWT mc (Some m) j2e (Some eta), ws ++ snd rw)
     | CBare _ => Err TypeError
     end).
Proof.
  intros Hw Hn HA He Hl hi lo n g mc mlq j2e. unfold wavelet_analysis.
  fold (neg_hi w). fold (sig_len A). fold hi.
  assert (Lhi : length hi = length (dec_hi w)) by apply neg_hi_length.
  unfold decomposition_level_warn. rewrite Lhi, Hl. cbn [bind].
  unfold hi, lo, n in *. cbn [check_formalism].
  rewrite leader_loop_top by (trivial; exact He). cbn [bind].
  eexists. fold (level_cut g (Z.to_nat ml) ml). unfold j2e.
  destruct (correct_leaders _ _ _ _ _ _ _) as [[r ws']|]; reflexivity.
Qed.
