(** * Lemmas on ModelPSD *)
From Coq Require Import Reals List ZArith Bool Lra Lia String.
From Verif Require Import XReal PyBase ModelUtils ModelMRQ ModelWavelet ModelPSD Spec SpecMRQ LXReal LReg LUtils LBase.
Import ListNotations.
Local Notation length := List.length.
Open Scope R_scope.

(** unit-weight data points *)
Definition upoints (l : list (R * R)) : list point := map (fun t => (1, fst t, snd t)) l.

Lemma sum_cross (l : list (R * R)) a b :
  fold_right Rplus 0 (map (fun t => (fst t - a) * (snd t - b)) l) =
  Rsum (map (fun t => fst t * snd t) l) - b * Rsum (map fst l) - a * Rsum (map snd l) + INR (length l) * a * b.
Proof.
  induction l as [|t l IH]; [simpl; unfold Rsum; simpl; ring|].
  cbn [map fold_right length]. rewrite IH, S_INR. unfold Rsum. cbn [map fold_right]. ring.
Qed.
Lemma map2_fst_snd {C} (f : R -> R -> C) (l : list (R * R)) : map2 f (map fst l) (map snd l) = map (fun t => f (fst t) (snd t)) l.
Proof. induction l as [|t l IH]; [reflexivity|]. unfold map2 in *. cbn [map combine fst snd]. now rewrite IH. Qed.
Lemma S0_u l : S0 (upoints l) = INR (length l).
Proof. unfold S0, upoints. rewrite map_map. induction l as [|t l IH]; [reflexivity|]. cbn [map length]. rewrite S_INR, <- IH. unfold Rsum, pw. cbn [fold_right fst]. ring. Qed.
Lemma S1_u l : S1 (upoints l) = Rsum (map fst l).
Proof. unfold S1, upoints. rewrite map_map. f_equal. apply map_ext. intros t. unfold pw, px. simpl. ring. Qed.
Lemma S2_u l : S2 (upoints l) = Rsum (map (fun t => fst t * fst t) l).
Proof. unfold S2, upoints. rewrite map_map. f_equal. apply map_ext. intros t. unfold pw, px. simpl. ring. Qed.
Lemma T0_u l : T0 (upoints l) = Rsum (map snd l).
Proof. unfold T0, upoints. rewrite map_map. f_equal. apply map_ext. intros t. unfold pw, py. simpl. ring. Qed.
Lemma T1_u l : T1 (upoints l) = Rsum (map (fun t => fst t * snd t) l).
Proof. unfold T1, upoints. rewrite map_map. f_equal. apply map_ext. intros t. unfold pw, px, py. simpl. ring. Qed.

Lemma ols_D l : D (upoints l) <> 0 -> ols (map fst l) (map snd l) = (slope (upoints l), icept (upoints l)).
Proof.
  intros HD. assert (Hl : (0 < length l)%nat).
  { destruct l; [|simpl; lia]. exfalso. apply HD. unfold D, S0, S1, S2, upoints, Rsum. simpl. ring. }
  apply lt_0_INR in Hl. set (n := INR (length l)) in *.
  unfold ols. rewrite map_length. fold n.
  assert (X : fold_right Rplus 0 (map (fun a => (a - fold_right Rplus 0 (map fst l) / n) * (a - fold_right Rplus 0 (map fst l) / n)) (map fst l)) = D (upoints l) / n).
  { assert (C := sum_cross (map (fun t => (fst t, fst t)) l) (Rsum (map fst l) / n) (Rsum (map fst l) / n)).
    rewrite map_length, !map_map in C. cbn [fst snd] in C. rewrite map_map. unfold D. rewrite S0_u, S1_u, S2_u. fold n in C |- *.
    change (fold_right Rplus 0 (map fst l)) with (Rsum (map fst l)). rewrite C. change (map (fun t : R * R => fst t) l) with (map fst l). field. lra. }
  rewrite X. destruct (Req_EM_T (D (upoints l) / n) 0) as [E|E].
  { exfalso. apply HD. apply (f_equal (fun v => v * n)) in E. field_simplify in E; lra. }
  assert (Y : fold_right Rplus 0 (map2 (fun a b => (a - fold_right Rplus 0 (map fst l) / n) * (b - fold_right Rplus 0 (map snd l) / n)) (map fst l) (map snd l))
    = (S0 (upoints l) * T1 (upoints l) - S1 (upoints l) * T0 (upoints l)) / n).
  { rewrite map2_fst_snd, sum_cross. rewrite S0_u, S1_u, T0_u, T1_u. fold n. unfold Rsum. field. lra. }
  rewrite Y. assert (SL : (S0 (upoints l) * T1 (upoints l) - S1 (upoints l) * T0 (upoints l)) / n / (D (upoints l) / n) = slope (upoints l)).
  { unfold slope. field. split; [exact HD|lra]. }
  rewrite SL. f_equal. assert (N := normal_1 (upoints l) HD). rewrite S0_u, S1_u, T0_u in N. fold n in N. unfold Rsum in N. 
  apply (Rmult_eq_reg_r n); [|lra]. field_simplify; [|lra]. lra.
Qed.

Lemma well_posed_u l : (exists a b, In a l /\ In b l /\ fst a <> fst b) -> well_posed (upoints l).
Proof.
  intros (a & b & A & B & N). split.
  - unfold upoints. rewrite Forall_map, Forall_forall. intros t _. unfold pw. simpl. lra.
  - exists (1, fst a, snd a), (1, fst b, snd b). unfold upoints, pw, px. simpl. repeat split; try lra; trivial.
    + apply in_map_iff. exists a. auto.
    + apply in_map_iff. exists b. auto.
Qed.
Lemma ols_best l : (exists a b, In a l /\ In b l /\ fst a <> fst b) ->
  is_best_line (upoints l) (fst (ols (map fst l) (map snd l))) (snd (ols (map fst l) (map snd l))).
Proof.
  intros H. assert (W := well_posed_u l H). assert (HD := D_pos _ W). rewrite ols_D by lra. now apply best_line.
Qed.
(** exact line *)
Lemma wsse_nonneg_u l a b : 0 <= wsse (upoints l) a b.
Proof.
  unfold wsse, upoints. rewrite map_map. induction l as [|t l IH]; [simpl; unfold Rsum; simpl; lra|].
  cbn [map Rsum fold_right]. unfold Rsum in IH. unfold pw, px, py. cbn [fst snd]. unfold pw, px, py in IH. cbn [fst snd] in IH. 
  assert (P := pow2_ge_0 (snd t - (a * fst t + b))). lra.
Qed.
Lemma ols_exact (x : list R) a b : (exists u v, In u x /\ In v x /\ u <> v) ->
  ols x (map (fun t => a * t + b) x) = (a, b).
Proof.
  intros (u & v & U & V & N).
  set (l := map (fun t => (t, a * t + b)) x).
  assert (E1 : map fst l = x) by (unfold l; rewrite map_map; apply map_id).
  assert (E2 : map snd l = map (fun t => a * t + b) x) by (unfold l; now rewrite map_map).
  assert (H : exists a b, In a l /\ In b l /\ fst a <> fst b).
  { exists (u, a * u + b), (v, a * v + b). unfold l. repeat split; trivial; apply in_map_iff; eexists; split; trivial; reflexivity. }
  assert (B := ols_best l H). rewrite E1, E2 in B. destruct (ols x (map (fun t => a * t + b) x)) as [s c]. cbn [fst snd] in B.
  assert (Z : wsse (upoints l) a b = 0).
  { unfold wsse, upoints, l. rewrite !map_map. unfold pw, px, py. cbn [fst snd]. clear. induction x as [|t x IH]; [reflexivity|].
    cbn [map Rsum fold_right]. unfold Rsum in IH. rewrite IH. ring. }
  destruct (Req_dec a s) as [<-|Ha].
  - destruct (Req_dec b c) as [<-|Hb]; [reflexivity|]. exfalso.
    assert (L := B a b ltac:(intros X; injection X; auto)). assert (P := wsse_nonneg_u l a c). lra.
  - exfalso. assert (L := B a b ltac:(intros X; injection X; auto)). assert (P := wsse_nonneg_u l s c). lra.
Qed.

(** ** masks *)
Lemma select_filter {A} (t : A -> bool) (l : list A) : select (map t l) l = filter t l.
Proof. induction l as [|a l IH]; [reflexivity|]. cbn [map select filter]. rewrite IH. reflexivity. Qed.
Lemma select_map_filter {A B} (t : A -> bool) (f : A -> B) (l : list A) : select (map t l) (map f l) = map f (filter t l).
Proof. induction l as [|a l IH]; [reflexivity|]. cbn [map select filter]. rewrite IH. destruct (t a); reflexivity. Qed.
Lemma all_finite_fin l : all_finite (fin l) = Some l.
Proof. induction l as [|a l IH]; [reflexivity|]. cbn [fin map all_finite] in *. unfold fin in IH. now rewrite IH. Qed.
Lemma all_finite_inv l r : all_finite l = Some r -> l = fin r.
Proof.
  revert r. induction l as [|a l IH]; intros r; cbn [all_finite]; [intros E; injection E as <-; reflexivity|].
  destruct a; try discriminate. destruct (all_finite l) as [t|] eqn:E; [|discriminate]. intros X. injection X as <-.
  cbn [fin map]. f_equal. now apply IH.
Qed.
Lemma in_band_spec lo hi f : in_band lo hi f = true <-> lo <= f <= hi.
Proof. unfold in_band. destruct (Rle_dec lo f), (Rle_dec f hi); split; intros; try discriminate; try lra; auto. Qed.
