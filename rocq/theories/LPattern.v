(** * NaN patterns, locality, linearity of the transform *)
From Coq Require Import Reals List ZArith Bool Lra Lia.
From Verif Require Import XReal PyBase ModelUtils ModelMRQ ModelWavelet Spec LXReal LUtils LBase LFilter LTransform.
Import ListNotations.
Open Scope R_scope.

Definition pat (c : col) : list bool := map isnan c.
(** finite or NaN, non-negative *)
Definition nonneg (c : col) : Prop := Forall (fun v => v = NaN \/ exists a, v = Fin a /\ 0 <= a) c.
Lemma nonneg_no_inf c : nonneg c -> no_inf c.
Proof. apply Forall_impl. intros v [->|(a & -> & _)]; eauto. Qed.

Lemma pat_length c : length (pat c) = length c. Proof. apply map_length. Qed.
Lemma pat_eq_length c c' : pat c = pat c' -> length c = length c'.
Proof. intros H. rewrite <- (pat_length c), H. apply pat_length. Qed.
Lemma pat_nth c c' i : pat c = pat c' -> isnan (nth i c NaN) = isnan (nth i c' NaN).
Proof.
  intros H. change true with (isnan NaN).
  rewrite <- !(map_nth isnan). unfold pat in H. now rewrite H.
Qed.
Lemma count_valid_pat c c' : pat c = pat c' -> count_valid c = count_valid c'.
Proof.
  unfold count_valid, valid, pat. revert c'. induction c as [|v c IH]; intros [|v' c']; simpl; try discriminate; trivial.
  intros [= E E']. unfold notnan in *. rewrite E. destruct (isnan v'); simpl; rewrite (IH c'); trivial.
Qed.
Lemma no_inf_nth c i : no_inf c -> nth i c NaN = NaN \/ exists a, nth i c NaN = Fin a.
Proof.
  intros H. destruct (Nat.lt_ge_cases i (length c)).
  - unfold no_inf in H. rewrite Forall_forall in H. apply H. now apply nth_In.
  - left. now apply nth_overflow.
Qed.
Lemma nonneg_nth c i : nonneg c -> nth i c NaN = NaN \/ exists a, nth i c NaN = Fin a /\ 0 <= a.
Proof.
  intros H. destruct (Nat.lt_ge_cases i (length c)).
  - unfold nonneg in H. rewrite Forall_forall in H. apply H. now apply nth_In.
  - left. now apply nth_overflow.
Qed.

Lemma xsum_no_inf l : no_inf l ->
  xsum l = if existsb isnan l then NaN else Fin (Rsum (reals l)).
Proof.
  induction 1 as [|v l [->|[a ->]] H IH]; simpl; [reflexivity|reflexivity|].
  change (fold_right xadd (Fin 0) l) with (xsum l). rewrite IH.
  destruct (existsb isnan l); reflexivity.
Qed.

Lemma csum_no_inf h a i : no_inf a ->
  (csum h a i = NaN \/ exists r, csum h a i = Fin r) /\
  isnan (csum h a i) = existsb (fun m => isnan (nth (i + (length h - 1) / 2 - m) a NaN)) (seq 0 (length h)).
Proof.
  intros H. unfold csum.
  set (l := map _ (seq 0 (length h))).
  assert (N : no_inf l).
  { unfold l, no_inf. rewrite Forall_map, Forall_forall. intros m _.
    destruct (no_inf_nth a (i + (length h - 1) / 2 - m) H) as [-> | [r ->]]; simpl; eauto. }
  rewrite (xsum_no_inf l N).
  assert (E : existsb isnan l = existsb (fun m => isnan (nth (i + (length h - 1) / 2 - m) a NaN)) (seq 0 (length h))).
  { unfold l. generalize (seq 0 (length h)). intros s. induction s as [|m s IH]; cbn [map existsb]; [reflexivity|].
    rewrite IH. f_equal.
    destruct (no_inf_nth a (i + (length h - 1) / 2 - m) H) as [-> | [r ->]]; reflexivity. }
  rewrite <- E. destruct (existsb isnan l); split; eauto.
Qed.

Lemma fstep_no_inf h a : no_inf a -> no_inf (fstep h a).
Proof.
  intros H. unfold fstep, no_inf. rewrite Forall_map, Forall_forall. intros k _.
  destruct (kept _ _ _); [|auto]. apply csum_no_inf, H.
Qed.
Lemma fstep_pat h h' a a' : no_inf a -> no_inf a' -> length h = length h' -> pat a = pat a' ->
  pat (fstep h a) = pat (fstep h' a').
Proof.
  intros N N' Hh P. unfold fstep, pat. rewrite !map_map.
  rewrite (pat_eq_length _ _ P), Hh. apply map_ext. intros k.
  destruct (kept _ _ _); [|reflexivity].
  destruct (csum_no_inf h a (2 * k + 1) N) as [_ ->].
  destruct (csum_no_inf h' a' (2 * k + 1) N') as [_ ->].
  rewrite Hh. generalize (seq 0 (length h')). intros s.
  induction s as [|m s IH]; cbn [map existsb]; [reflexivity|]. rewrite IH. f_equal. now apply pat_nth.
Qed.

Lemma approx_no_inf lo j c : no_inf c -> no_inf (approx_at lo j c).
Proof. intros H. induction j; simpl; trivial. now apply fstep_no_inf. Qed.
Lemma approx_pat lo lo' j c c' : no_inf c -> no_inf c' -> length lo = length lo' -> pat c = pat c' ->
  pat (approx_at lo j c) = pat (approx_at lo' j c').
Proof.
  intros. induction j; simpl; trivial.
  apply fstep_pat; trivial; now apply approx_no_inf.
Qed.
Lemma detail_no_inf hi lo j c : no_inf c -> no_inf (detail hi lo j c).
Proof. intros. now apply fstep_no_inf, approx_no_inf. Qed.
Lemma detail_pat hi hi' lo lo' j c c' : no_inf c -> no_inf c' ->
  length hi = length hi' -> length lo = length lo' -> pat c = pat c' ->
  pat (detail hi lo j c) = pat (detail hi' lo' j c').
Proof. intros. apply fstep_pat; trivial; try now apply approx_no_inf. now apply approx_pat. Qed.

Lemma pat_map f c : (forall v, isnan (f v) = isnan v) -> pat (map f c) = pat c.
Proof. intros H. unfold pat. rewrite map_map. now apply map_ext. Qed.
Lemma pat_map_in f c : (forall v, In v c -> isnan (f v) = isnan v) -> pat (map f c) = pat c.
Proof. intros H. unfold pat. rewrite map_map. now apply map_ext_in. Qed.
Lemma coef_pat hi lo norm gam j c : pat (coef hi lo norm gam j c) = pat (detail hi lo j c).
Proof. unfold coef. rewrite rescale_eq. apply pat_map. intros. apply xmul_isnan, Rpower_neq0. Qed.
Lemma scal_no_inf r c : no_inf c -> no_inf (map (xmul (Fin r)) c).
Proof.
  intros. unfold no_inf in *. rewrite Forall_map. eapply Forall_impl; [|eassumption].
  intros v [->|[a ->]]; simpl; eauto.
Qed.
Lemma coef_no_inf hi lo norm gam j c : no_inf c -> no_inf (coef hi lo norm gam j c).
Proof. intros. unfold coef. rewrite rescale_eq. apply scal_no_inf. now apply detail_no_inf. Qed.

Lemma pat_fin l : pat (fin l) = repeat false (length l).
Proof. induction l; simpl; congruence. Qed.

(** *** leaders *)
Lemma xabs_isnan v : isnan (xabs v) = isnan v. Proof. destruct v; reflexivity. Qed.
Lemma xabs_nonneg c : no_inf c -> nonneg (map xabs c).
Proof.
  intros H. unfold nonneg. rewrite Forall_map. eapply Forall_impl; [|exact H].
  intros v [->|[a ->]]; simpl; [auto|]. right. exists (Rabs a). split; [reflexivity|apply Rabs_pos].
Qed.

Lemma fp1_nonneg e a : 0 < num_val e -> 0 <= a -> exists b, fp1 e (Fin a) = Fin b /\ 0 <= b.
Proof.
  intros He [Ha|<-].
  - exists (Rpower a (num_val e)). split; [now apply fp1_pos|]. left. apply Rpower_pos.
  - exists 0. split; [now apply fp1_0|lra].
Qed.

Definition pos_pexp (p : pexp) : Prop := match p with PNum e => 0 < num_val e | _ => True end.
Lemma fast_power_nonneg e c : 0 < num_val e -> nonneg c ->
  nonneg (fast_power c e) /\ pat (fast_power c e) = pat c.
Proof.
  intros He Hc. rewrite fast_power_map. split.
  - unfold nonneg. rewrite Forall_map. eapply Forall_impl; [|exact Hc].
    intros v [->|(a & -> & Ha)]; [left; apply fp1_NaN|]. right. now apply fp1_nonneg.
  - apply pat_map_in. intros v Hv. unfold nonneg in Hc. rewrite Forall_forall in Hc.
    destruct (Hc v Hv) as [->|(a & -> & Ha)]; [now rewrite fp1_NaN|].
    destruct (fp1_nonneg e a He Ha) as (b & -> & _). reflexivity.
Qed.
Lemma scal_nonneg r c : 0 < r -> nonneg c ->
  nonneg (map (fun v => xmul (Fin r) v) c) /\ pat (map (fun v => xmul (Fin r) v) c) = pat c.
Proof.
  intros Hr Hc. split.
  - unfold nonneg. rewrite Forall_map. eapply Forall_impl; [|exact Hc].
    intros v [->|(a & -> & Ha)]; simpl; [auto|]. right. eexists. split; [reflexivity|].
    apply Rmult_le_pos; lra.
  - apply pat_map. intros. apply xmul_isnan. lra.
Qed.
Lemma pre_nonneg f p j c : pos_pexp p -> no_inf c ->
  nonneg (pre f p j c) /\ pat (pre f p j c) = pat c.
Proof.
  intros Hp Hc.
  assert (A : nonneg (map xabs c) /\ pat (map xabs c) = pat c).
  { split; [now apply xabs_nonneg|]. apply pat_map. apply xabs_isnan. }
  unfold pre. destruct f, p; trivial. simpl in Hp.
  destruct A as [A1 A2]. destruct (fast_power_nonneg p _ Hp A1) as [B1 B2].
  destruct (scal_nonneg (Rpower 2 (INR j)) _ (Rpower_pos _ _) B1) as [C1 C2].
  split; trivial. now rewrite C2, B2.
Qed.

Lemma reduce3_nonneg f u v w :
  nonneg [u; v; w] ->
  nonneg [reduce3 f [u; v; w]] /\
  isnan (reduce3 f [u; v; w]) = isnan u && isnan v && isnan w.
Proof.
  intros H. inversion H as [|? ? Hu H1]; subst. inversion H1 as [|? ? Hv H2]; subst.
  inversion H2 as [|? ? Hw _]; subst.
  unfold nonneg.
  destruct Hu as [->|(a & -> & Ha)]; destruct Hv as [->|(b & -> & Hb)]; destruct Hw as [->|(c & -> & Hc)];
  destruct f; simpl; unfold fixednansum, nansum, valid; simpl; (split; [|reflexivity]);
  (constructor; [|constructor]); auto; right; eexists; (split; [reflexivity|]);
  repeat (unfold Rmax; destruct (Rle_dec _ _)); lra.
Qed.

Lemma nonneg3 a b c i j k : nonneg a -> nonneg b -> nonneg c ->
  nonneg [nth i a NaN; nth j b NaN; nth k c NaN].
Proof.
  intros. constructor; [now apply nonneg_nth|]. constructor; [now apply nonneg_nth|].
  constructor; [now apply nonneg_nth|]. constructor.
Qed.

Lemma sv_nonneg f p d j : pos_pexp p -> (forall i, no_inf (d i)) -> nonneg (sv f p d j).
Proof.
  intros Hp Hd. induction j as [|j IH]; [constructor|].
  destruct j as [|j]; [apply pre_nonneg; trivial|].
  cbn [sv] in *. set (s := match j with O => _ | S _ => _ end) in *.
  unfold nonneg. rewrite Forall_map, Forall_forall. intros k _.
  assert (N : nonneg [nth k (pre f p (S (S j)) (d (S (S j)))) NaN; nth (2 * k) s NaN; nth (2 * k + 1) s NaN]).
  { assert (P := proj1 (pre_nonneg f p (S (S j)) (d (S (S j))) Hp (Hd _))).
    apply nonneg3; assumption. }
  apply (reduce3_nonneg f) in N as [N _]. inversion N; trivial.
Qed.

Lemma sv_pat f f' p p' d d' j : pos_pexp p -> pos_pexp p' ->
  (forall i, no_inf (d i)) -> (forall i, no_inf (d' i)) ->
  (forall i, pat (d i) = pat (d' i)) -> pat (sv f p d j) = pat (sv f' p' d' j).
Proof.
  intros Hp Hp' Hd Hd' P. induction j as [|j IH]; [reflexivity|].
  destruct j as [|j].
  - simpl sv. rewrite (proj2 (pre_nonneg f p 1 (d 1%nat) Hp (Hd _))).
    rewrite (proj2 (pre_nonneg f' p' 1 (d' 1%nat) Hp' (Hd' _))). apply P.
  - assert (S1 := sv_nonneg f p d (S j) Hp Hd). assert (S2 := sv_nonneg f' p' d' (S j) Hp' Hd').
    cbn [sv] in *. set (s := match j with O => _ | S _ => _ end) in *.
    set (s' := match j with O => pre f' p' 1 (d' 1%nat) | S _ => _ end) in *.
    rewrite (pat_eq_length _ _ IH). unfold pat. rewrite !map_map. apply map_ext. intros k.
    destruct (pre_nonneg f p (S (S j)) (d (S (S j))) Hp (Hd _)) as [A1 A2].
    destruct (pre_nonneg f' p' (S (S j)) (d' (S (S j))) Hp' (Hd' _)) as [B1 B2].
    rewrite (proj2 (reduce3_nonneg f _ _ _ (nonneg3 _ _ _ k (2 * k) (2 * k + 1) A1 S1 S1))).
    rewrite (proj2 (reduce3_nonneg f' _ _ _ (nonneg3 _ _ _ k (2 * k) (2 * k + 1) B1 S2 S2))).
    f_equal; [f_equal|]; apply pat_nth; trivial. now rewrite A2, B2, P.
Qed.

Lemma raw_lead_nonneg f p d j : pos_pexp p -> (forall i, no_inf (d i)) -> nonneg (raw_lead f p d j).
Proof.
  intros Hp Hd. unfold raw_lead, nonneg. rewrite Forall_map, Forall_forall. intros k _.
  assert (S1 := sv_nonneg f p d j Hp Hd).
  assert (N : nonneg [nth k (sv f p d j) NaN; nth (k + 1) (sv f p d j) NaN; nth (k + 2) (sv f p d j) NaN]).
  { apply nonneg3; assumption. }
  apply (reduce3_nonneg f) in N as [N _]. inversion N; trivial.
Qed.
Lemma raw_lead_pat f f' p p' d d' j : pos_pexp p -> pos_pexp p' ->
  (forall i, no_inf (d i)) -> (forall i, no_inf (d' i)) ->
  (forall i, pat (d i) = pat (d' i)) -> pat (raw_lead f p d j) = pat (raw_lead f' p' d' j).
Proof.
  intros Hp Hp' Hd Hd' P.
  assert (S1 := sv_nonneg f p d j Hp Hd). assert (S2 := sv_nonneg f' p' d' j Hp' Hd').
  assert (SP := sv_pat f f' p p' d d' j Hp Hp' Hd Hd' P).
  unfold raw_lead. rewrite (pat_eq_length _ _ SP). unfold pat. rewrite !map_map. apply map_ext. intros k.
  rewrite (proj2 (reduce3_nonneg f _ _ _ (nonneg3 _ _ _ k (k + 1) (k + 2) S1 S1 S1))).
  rewrite (proj2 (reduce3_nonneg f' _ _ _ (nonneg3 _ _ _ k (k + 1) (k + 2) S2 S2 S2))).
  f_equal; [f_equal|]; apply pat_nth; trivial.
Qed.
Lemma post_nonneg f p j c : pos_pexp p -> nonneg c -> nonneg (post f p j c) /\ pat (post f p j c) = pat c.
Proof.
  intros Hp Hc. unfold post. destruct f, p; auto. simpl in Hp.
  destruct (scal_nonneg (Rpower 2 (- INR j)) _ (Rpower_pos _ _) Hc) as [C1 C2].
  assert (He : 0 < num_val (PyFloat (1 / num_val p))).
  { simpl. apply Rdiv_lt_0_compat; lra. }
  destruct (fast_power_nonneg _ _ He C1) as [D1 D2].
  split; trivial. now rewrite D2, C2.
Qed.
Lemma lead_nonneg f p d j : pos_pexp p -> (forall i, no_inf (d i)) -> nonneg (lead f p d j).
Proof. intros. unfold lead. apply post_nonneg; trivial. now apply raw_lead_nonneg. Qed.
Lemma lead_pat f f' p p' d d' j : pos_pexp p -> pos_pexp p' ->
  (forall i, no_inf (d i)) -> (forall i, no_inf (d' i)) ->
  (forall i, pat (d i) = pat (d' i)) -> pat (lead f p d j) = pat (lead f' p' d' j).
Proof.
  intros Hp Hp' Hd Hd' P. unfold lead. rewrite (proj2 (post_nonneg f p j _ Hp (raw_lead_nonneg f p d j Hp Hd))).
  rewrite (proj2 (post_nonneg f' p' j _ Hp' (raw_lead_nonneg f' p' d' j Hp' Hd'))).
  now apply raw_lead_pat.
Qed.

(** ** Locality *)
Definition half_len (L : nat) : Z := Z.of_nat ((L - 1) / 2).
Lemma fstep_local h a b k : length a = length b -> (1 <= length h)%nat ->
  (forall i : nat, (2 * Z.of_nat k + (half_len (length h) + 2 - Z.of_nat (length h)) <= Z.of_nat i
                    <= 2 * Z.of_nat k + 1 + half_len (length h))%Z -> nth i a NaN = nth i b NaN) ->
  nth k (fstep h a) NaN = nth k (fstep h b) NaN.
Proof.
  intros Hl Hh H. destruct (Nat.lt_ge_cases k (length a / 2)) as [K|K].
  2:{ rewrite !fstep_out; trivial. now rewrite <- Hl. }
  rewrite !fstep_nth by (rewrite <- ?Hl; trivial). rewrite <- Hl.
  destruct (kept _ _ _) eqn:E; [|reflexivity].
  apply andb_prop in E as [E1 E2]. apply Nat.leb_le in E1, E2.
  unfold csum. f_equal. apply map_ext_in. intros m Hm. apply in_seq in Hm. f_equal.
  apply H. unfold half_len. generalize dependent ((length h - 1) / 2)%nat. intros. lia.
Qed.

Definition cone_lo (L j : nat) (k : Z) : Z :=
  (2 ^ Z.of_nat j * k + (2 ^ Z.of_nat j - 1) * ((Z.of_nat L - 1) / 2 + 2 - Z.of_nat L))%Z.
Definition cone_hi (L j : nat) (k : Z) : Z :=
  (2 ^ Z.of_nat j * k + (2 ^ Z.of_nat j - 1) * ((Z.of_nat L - 1) / 2 + 1))%Z.

Lemma approx_local lo j a b k : length a = length b -> (1 <= length lo)%nat ->
  (forall i : nat, (cone_lo (length lo) j (Z.of_nat k) <= Z.of_nat i <= cone_hi (length lo) j (Z.of_nat k))%Z ->
     nth i a NaN = nth i b NaN) ->
  nth k (approx_at lo j a) NaN = nth k (approx_at lo j b) NaN.
Proof.
  intros Hl Hh. revert k. induction j as [|j IH]; intros k H; cbn [approx_at].
  - apply H. unfold cone_lo, cone_hi. simpl Z.of_nat. rewrite Z.pow_0_r. lia.
  - apply fstep_local; trivial; [now rewrite !approx_at_length, Hl|].
    intros i Hi. apply IH. intros i' Hi'. apply H. clear H IH.
    unfold cone_lo, cone_hi, half_len in *.
    rewrite Nat2Z.inj_succ, Z.pow_succ_r by lia.
    rewrite half_nat in * by trivial.
    set (t := (2 ^ Z.of_nat j)%Z) in *.
    assert (T : (1 <= t)%Z) by (unfold t; assert (0 < 2 ^ Z.of_nat j)%Z by (apply Z.pow_pos_nonneg; lia); lia).
    generalize dependent (Z.of_nat ((length lo - 1) / 2)). intros c Hi Hi'. nia.
Qed.

Lemma detail_local hi lo j a b k : length a = length b -> (1 <= length hi)%nat -> length lo = length hi ->
  (1 <= j)%nat ->
  (forall i : nat, (cone_lo (length hi) j (Z.of_nat k) <= Z.of_nat i <= cone_hi (length hi) j (Z.of_nat k))%Z ->
     nth i a NaN = nth i b NaN) ->
  nth k (detail hi lo j a) NaN = nth k (detail hi lo j b) NaN.
Proof.
  intros Hl Hh Hlo Hj H. unfold detail. apply fstep_local; trivial.
  { now rewrite !approx_at_length, Hl. }
  intros i Hi. apply approx_local; trivial; [lia|]. rewrite Hlo.
  intros i' Hi'. apply H. clear H.
  unfold cone_lo, cone_hi, half_len in *.
  destruct j as [|j]; [lia|]. simpl in Hi'. rewrite Nat.sub_0_r in Hi'.
  rewrite Nat2Z.inj_succ, Z.pow_succ_r by lia.
  rewrite half_nat in * by trivial.
  set (t := (2 ^ Z.of_nat j)%Z) in *.
  assert (T : (1 <= t)%Z) by (unfold t; assert (0 < 2 ^ Z.of_nat j)%Z by (apply Z.pow_pos_nonneg; lia); lia).
  generalize dependent (Z.of_nat ((length hi - 1) / 2)). intros c Hi Hi'. nia.
Qed.

(** ** Linearity *)
Definition lin (al be : R) (u v : xr) : xr := xadd (xmul (Fin al) u) (xmul (Fin be) v).
Definition comb (al be : R) (a b : col) : col := map2 (lin al be) a b.

Lemma comb_length al be a b : length a = length b -> length (comb al be a b) = length a.
Proof. intros. unfold comb. rewrite map2_length. lia. Qed.
Lemma comb_nth al be a b i : length a = length b ->
  nth i (comb al be a b) NaN = lin al be (nth i a NaN) (nth i b NaN).
Proof.
  intros H. destruct (Nat.lt_ge_cases i (length a)).
  - unfold comb. apply nth_map2; lia.
  - rewrite !nth_overflow; try lia; [reflexivity|]. rewrite comb_length; trivial.
Qed.
Lemma lin_scale r al be u v : xmul (Fin r) (lin al be u v) = lin al be (xmul (Fin r) u) (xmul (Fin r) v).
Proof.
  unfold lin. rewrite xmul_Fin_distr, !xmul_Fin_assoc. rewrite (Rmult_comm r al), (Rmult_comm r be). reflexivity.
Qed.
Lemma lin_xsum {X} al be (f g : X -> xr) l :
  xsum (map (fun x => lin al be (f x) (g x)) l) = lin al be (xsum (map f l)) (xsum (map g l)).
Proof.
  unfold lin. rewrite xsum_map_xadd. f_equal.
  - rewrite <- xsum_scale by auto. now rewrite map_map.
  - rewrite <- xsum_scale by auto. now rewrite map_map.
Qed.
Lemma fstep_comb h al be a b : length a = length b ->
  fstep h (comb al be a b) = comb al be (fstep h a) (fstep h b).
Proof.
  intros H. unfold fstep at 1. rewrite comb_length by trivial.
  unfold comb at 2. unfold fstep. rewrite <- H. rewrite map2_map, map2_diag. apply map_ext. intros k.
  destruct (kept _ _ _); [|reflexivity].
  unfold csum. rewrite <- lin_xsum. f_equal. apply map_ext. intros m.
  rewrite comb_nth by trivial. apply lin_scale.
Qed.
Lemma approx_comb lo j al be a b : length a = length b ->
  approx_at lo j (comb al be a b) = comb al be (approx_at lo j a) (approx_at lo j b).
Proof.
  intros H. induction j; cbn [approx_at]; trivial. rewrite IHj. apply fstep_comb.
  now rewrite !approx_at_length, H.
Qed.
Lemma detail_comb hi lo j al be a b : length a = length b ->
  detail hi lo j (comb al be a b) = comb al be (detail hi lo j a) (detail hi lo j b).
Proof.
  intros H. unfold detail. rewrite approx_comb by trivial. apply fstep_comb.
  now rewrite !approx_at_length, H.
Qed.
Lemma coef_comb hi lo norm gam j al be a b : length a = length b ->
  coef hi lo norm gam j (comb al be a b) = comb al be (coef hi lo norm gam j a) (coef hi lo norm gam j b).
Proof.
  intros H. unfold coef. rewrite detail_comb by trivial. rewrite !rescale_eq. unfold comb.
  rewrite map_map2, map2_map. apply map2_ext. intros. apply lin_scale.
Qed.
