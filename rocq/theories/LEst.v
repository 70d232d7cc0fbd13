(** * The estimators on regular quantities, in closed form *)
From Coq Require Import Reals List ZArith Bool Lra Lia.
From Verif Require Import XReal PyBase ModelUtils ModelMRQ ModelStructure ModelCumulants ModelSpectrum ModelEstimation Spec SpecMRQ LXReal LReg LUtils LBase.
Import ListNotations.
Open Scope R_scope.

(** ** dict access *)
Lemma dict_by_keys {V X} (F : Z * V -> X) (d : dict V) (v0 : V) : NoDup (dict_keys d) ->
  map F d = map (fun k => F (k, match dict_get d k with Some v => v | None => v0 end)) (dict_keys d).
Proof.
  unfold dict_keys. induction d as [|[k v] d IH]; simpl; intros N; trivial.
  rewrite Z.eqb_refl. f_equal. inversion N as [|? ? N1 N2]; subst. rewrite IH by trivial.
  apply map_ext_in. intros k' Hk'. destruct (Z.eqb_spec k' k) as [->|]; [contradiction|reflexivity].
Qed.
Lemma one_to_NoDup n : NoDup (one_to n).
Proof.
  unfold one_to. apply FinFun.Injective_map_NoDup; [|apply seq_NoDup]. intros a b. apply Nat2Z.inj.
Qed.
Lemma one_to_In n j : In j (one_to n) <-> (1 <= j <= Z.of_nat n)%Z.
Proof.
  unfold one_to. rewrite in_map_iff. setoid_rewrite in_seq. split.
  - intros (i & <- & Hi). lia.
  - intros Hj. exists (Z.to_nat j). lia.
Qed.
Lemma dict_get_Some {V} (d : dict V) k : In k (dict_keys d) -> exists v, dict_get d k = Some v.
Proof.
  unfold dict_keys. induction d as [|[a b] d IH]; simpl; [tauto|].
  destruct (Z.eqb_spec k a) as [->|]; [eauto|]. intros [E|H]; [congruence|auto].
Qed.

Lemma zrange_length a b : length (zrange a b) = Z.to_nat (b - a).
Proof. unfold zrange. now rewrite map_length, seq_length. Qed.
Lemma zrange_nth a b i d : (i < Z.to_nat (b - a))%nat -> nth i (zrange a b) d = (a + Z.of_nat i)%Z.
Proof. intros H. unfold zrange. rewrite (nth_map_lt _ _ _ 0%nat) by (now rewrite seq_length). now rewrite seq_nth. Qed.
Lemma zrange_NoDup a b : NoDup (zrange a b).
Proof. unfold zrange. apply FinFun.Injective_map_NoDup; [|apply seq_NoDup]. intros x y H. lia. Qed.

Lemma slice_one_to {X} (F : Z -> X) g j1 j2 : (1 <= j1)%Z -> (j1 <= j2)%Z -> (j2 <= Z.of_nat g)%Z ->
  py_slice (j1 - 1) j2 (map F (one_to g)) = map F (zrange j1 (j2 + 1)).
Proof.
  intros H1 H2 H3. unfold py_slice, norm_index, one_to. rewrite !map_length, seq_length.
  destruct (Z.ltb_spec (j1 - 1) 0); [lia|]. destruct (Z.ltb_spec j2 0); [lia|].
  rewrite !Nat.min_l by lia. rewrite map_map. rewrite skipn_map, firstn_map.
  assert (Sk : forall k s n, skipn k (seq s n) = seq (s + k) (n - k)).
  { clear. induction k; intros s n; simpl; [now rewrite Nat.sub_0_r, Nat.add_0_r|].
    destruct n; simpl; [reflexivity|]. rewrite IHk. f_equal; lia. }
  assert (Fs : forall k s n, (k <= n)%nat -> firstn k (seq s n) = seq s k).
  { clear. induction k; intros s n Hn; simpl; trivial. destruct n; [lia|]. simpl. f_equal. apply IHk. lia. }
  rewrite Sk, Fs by lia. unfold zrange. rewrite map_map.
  replace (Z.to_nat (j2 + 1 - j1)) with (Z.to_nat j2 - Z.to_nat (j1 - 1))%nat by lia.
  set (n := (Z.to_nat j2 - Z.to_nat (j1 - 1))%nat).
  replace (1 + Z.to_nat (j1 - 1))%nat with (Z.to_nat j1) by lia.
  assert (Sh : seq (Z.to_nat j1) n = map (fun i => (Z.to_nat j1 + i)%nat) (seq 0 n)).
  { clear. generalize (Z.to_nat j1) as a. intros a. rewrite <- (Nat.add_0_r a) at 1. generalize 0%nat as b.
    induction n; intros b; simpl; trivial. f_equal. rewrite <- IHn. f_equal. lia. }
  rewrite Sh, map_map. apply map_ext. intros i. f_equal. lia.
Qed.

(** ** the regression operator *)
Definition wts (wd : bool) (m : mrq) (j1 j2 : Z) (r : nat) : col :=
  map (fun j => Fin (weight wd m j r)) (zrange j1 (j2 + 1)).
Definition fit3 (wd : bool) (m : mrq) (j1 j2 : Z) (r : nat) (y : Z -> xr) : xr * xr * xr :=
  match linear_regression (scale_support j1 j2) (map y (zrange j1 (j2 + 1))) (wts wd m j1 j2 r) with
  | Ok t => t | Err _ => (NaN, NaN, NaN) end.
Definition fslope wd m j1 j2 r y := fst (fst (fit3 wd m j1 j2 r y)).
Definition ficept wd m j1 j2 r y := snd (fst (fit3 wd m j1 j2 r y)).

Lemma lr_ok x y n : length n = length x -> length y = length x -> exists t, linear_regression x y n = Ok t.
Proof.
  intros A B. unfold linear_regression. rewrite A, Nat.eqb_refl. cbn [negb].
  unfold bcast_mul. rewrite !map2_length, A, B, Nat.min_id, Nat.eqb_refl. cbn [bind]. eexists; reflexivity.
Qed.
Lemma fit3_ok wd m j1 j2 r y :
  linear_regression (scale_support j1 j2) (map y (zrange j1 (j2 + 1))) (wts wd m j1 j2 r)
  = Ok (fit3 wd m j1 j2 r y).
Proof.
  unfold fit3. destruct (lr_ok (scale_support j1 j2) (map y (zrange j1 (j2 + 1))) (wts wd m j1 j2 r)) as [t ->]; trivial;
  unfold wts, scale_support; now rewrite !map_length.
Qed.
Lemma weight_nonneg wd m j r : 0 <= weight wd m j r.
Proof. unfold weight. destruct wd; [apply pos_INR|lra]. Qed.

Definition fpts (wd : bool) (m : mrq) (j1 j2 : Z) (r : nat) : list point := fit_points wd m j1 j2 r (fun _ => 0).
Lemma fit_points_w wd m j1 j2 r y : map pw (fit_points wd m j1 j2 r y) = map (fun j => weight wd m j r) (zrange j1 (j2 + 1)).
Proof. unfold fit_points. now rewrite map_map. Qed.
Lemma fit_points_x wd m j1 j2 r y : map px (fit_points wd m j1 j2 r y) = map IZR (zrange j1 (j2 + 1)).
Proof. unfold fit_points. now rewrite map_map. Qed.
Lemma wts_fin wd m j1 j2 r y : wts wd m j1 j2 r = fin (map pw (fit_points wd m j1 j2 r y)).
Proof. rewrite fit_points_w. unfold fin, wts. now rewrite map_map. Qed.
Lemma supp_fin wd m j1 j2 r y : scale_support j1 j2 = fin (map px (fit_points wd m j1 j2 r y)).
Proof. rewrite fit_points_x. unfold fin, scale_support. now rewrite map_map. Qed.

(** The regression is either NaN for all data, or a linear form with finite
    coefficients u (slope), v (intercept) *)
Lemma fit_linear wd m j1 j2 r : (j1 <= j2)%Z ->
  (forall y, fslope wd m j1 j2 r y = NaN /\ ficept wd m j1 j2 r y = NaN) \/
  exists u v : Z -> R,
    let js := zrange j1 (j2 + 1) in
    Rsum (map u js) = 0 /\ Rsum (map (fun j => u j * IZR j) js) = 1 /\
    Rsum (map v js) = 1 /\ Rsum (map (fun j => v j * IZR j) js) = 0 /\
    forall y, fslope wd m j1 j2 r y = xsum (map (fun j => xmul (Fin (u j)) (y j)) js) /\
              ficept wd m j1 j2 r y = xsum (map (fun j => xmul (Fin (v j)) (y j)) js).
Proof.
  intros Hj. set (P := fpts wd m j1 j2 r).
  assert (E : forall y, linear_regression (fin (map px P)) (map y (zrange j1 (j2 + 1))) (fin (map pw P)) = Ok (fit3 wd m j1 j2 r y)).
  { intros y. unfold P, fpts. rewrite <- wts_fin, <- supp_fin. apply fit3_ok. }
  assert (L : forall y : Z -> xr, length (map y (zrange j1 (j2 + 1))) = length P).
  { intros. unfold P, fpts, fit_points. now rewrite !map_length. }
  destruct (Req_EM_T (D P) 0) as [HD|HD].
  - left. intros y. destruct (lr_D0 P (map y (zrange j1 (j2 + 1)))) as [v Hv]; trivial.
    + unfold P, fpts, fit_points. intros K. apply (f_equal (@length _)) in K. rewrite map_length, zrange_length in K. simpl in K. lia.
    + intros p Hp. apply D0_weights; trivial. unfold P, fpts, fit_points. rewrite Forall_map, Forall_forall.
      intros j _. apply weight_nonneg.
    + rewrite E in Hv. injection Hv as Hv. unfold fslope, ficept. rewrite Hv. auto.
  - right. exists (fun j => wsl P (weight wd m j r, IZR j, 0)), (fun j => wic P (weight wd m j r, IZR j, 0)).
    cbn zeta.
    assert (M : forall (g : point -> R), map (fun j => g (weight wd m j r, IZR j, 0)) (zrange j1 (j2 + 1)) = map g P).
    { intros g. unfold P, fpts, fit_points. rewrite map_map. reflexivity. }
    split; [etransitivity; [apply f_equal, (M (wsl P))|now apply sum_wsl]|].
    split; [etransitivity; [apply f_equal, (M (fun p => wsl P p * px p))|now apply sum_wsl_x]|].
    split; [etransitivity; [apply f_equal, (M (wic P))|now apply sum_wic]|].
    split; [etransitivity; [apply f_equal, (M (fun p => wic P p * px p))|now apply sum_wic_x]|].
    intros y. destruct (lr_general P (map y (zrange j1 (j2 + 1))) (L y) HD) as [v Hv].
    rewrite E in Hv. injection Hv as Hv. unfold fslope, ficept. rewrite Hv. cbn [fst snd].
    assert (MP : forall g : point -> R, map2 xmul (map (fun p => Fin (g p)) P) (map y (zrange j1 (j2 + 1)))
       = map (fun j => xmul (Fin (g (weight wd m j r, IZR j, 0))) (y j)) (zrange j1 (j2 + 1))).
    { intros g. unfold P at 1, fpts, fit_points. rewrite map_map, map2_map, map2_diag. reflexivity. }
    rewrite !MP. auto.
Qed.

Lemma fit3_ext wd m j1 j2 r y y' : (forall j, (j1 <= j <= j2)%Z -> y j = y' j) ->
  fit3 wd m j1 j2 r y = fit3 wd m j1 j2 r y'.
Proof.
  intros H. unfold fit3. rewrite (map_ext_in y y'); trivial. intros j Hj. apply zrange_In in Hj. apply H. lia.
Qed.
Lemma fslope_ext wd m j1 j2 r y y' : (forall j, (j1 <= j <= j2)%Z -> y j = y' j) ->
  fslope wd m j1 j2 r y = fslope wd m j1 j2 r y'.
Proof. intros. unfold fslope. now rewrite (fit3_ext wd m j1 j2 r y y'). Qed.
Lemma ficept_ext wd m j1 j2 r y y' : (forall j, (j1 <= j <= j2)%Z -> y j = y' j) ->
  ficept wd m j1 j2 r y = ficept wd m j1 j2 r y'.
Proof. intros. unfold ficept. now rewrite (fit3_ext wd m j1 j2 r y y'). Qed.
(** the fit only sees the weights of the quantity *)
Lemma fit3_weights wd m m' j1 j2 r r' y : (forall j, (j1 <= j <= j2)%Z -> count m j r = count m' j r') ->
  fit3 wd m j1 j2 r y = fit3 wd m' j1 j2 r' y.
Proof.
  intros H. unfold fit3. replace (wts wd m j1 j2 r) with (wts wd m' j1 j2 r'); trivial.
  unfold wts. apply map_ext_in. intros j Hj. apply zrange_In in Hj. unfold weight. rewrite H by lia. reflexivity.
Qed.

(** adding a line a*j + b to the data adds a to the slope, b to the intercept *)
Lemma fit_add_line wd m j1 j2 r y a b : (j1 <= j2)%Z ->
  fslope wd m j1 j2 r (fun j => xadd (y j) (Fin (a * IZR j + b))) = xadd (fslope wd m j1 j2 r y) (Fin a) /\
  ficept wd m j1 j2 r (fun j => xadd (y j) (Fin (a * IZR j + b))) = xadd (ficept wd m j1 j2 r y) (Fin b).
Proof.
  intros Hj. destruct (fit_linear wd m j1 j2 r Hj) as [N|(u & v & U0 & U1 & V0 & V1 & L)].
  - destruct (N y) as [-> ->]. destruct (N (fun j => xadd (y j) (Fin (a * IZR j + b)))) as [-> ->]. auto.
  - destruct (L y) as [-> ->]. destruct (L (fun j => xadd (y j) (Fin (a * IZR j + b)))) as [-> ->].
    set (js := zrange j1 (j2 + 1)) in *.
    assert (G : forall w : Z -> R,
      xsum (map (fun j => xmul (Fin (w j)) (xadd (y j) (Fin (a * IZR j + b)))) js)
      = xadd (xsum (map (fun j => xmul (Fin (w j)) (y j)) js))
             (Fin (a * Rsum (map (fun j => w j * IZR j) js) + b * Rsum (map w js)))).
    { intros w. rewrite <- !Rsum_map_scal, <- Rsum_map_plus, <- xsum_map_Fin, <- xsum_map_xadd. f_equal.
      apply map_ext. intros j. rewrite xmul_Fin_distr. f_equal. simpl. f_equal. ring. }
    rewrite !G, U0, U1, V0, V1. split; f_equal; f_equal; ring.
Qed.
Lemma fit_scale wd m j1 j2 r y c : (j1 <= j2)%Z ->
  fslope wd m j1 j2 r (fun j => xmul (Fin c) (y j)) = xmul (Fin c) (fslope wd m j1 j2 r y) /\
  ficept wd m j1 j2 r (fun j => xmul (Fin c) (y j)) = xmul (Fin c) (ficept wd m j1 j2 r y).
Proof.
  intros Hj. destruct (fit_linear wd m j1 j2 r Hj) as [N|(u & v & U0 & U1 & V0 & V1 & L)].
  - destruct (N y) as [-> ->]. destruct (N (fun j => xmul (Fin c) (y j))) as [-> ->]. auto.
  - destruct (L y) as [-> ->]. destruct (L (fun j => xmul (Fin c) (y j))) as [-> ->].
    rewrite <- !xsum_scale by auto. rewrite !map_map.
    split; f_equal; apply map_ext; intros j; rewrite !xmul_Fin_assoc; f_equal; f_equal; ring.
Qed.
Lemma fit_add wd m j1 j2 r y z : (j1 <= j2)%Z ->
  fslope wd m j1 j2 r (fun j => xadd (y j) (z j)) = xadd (fslope wd m j1 j2 r y) (fslope wd m j1 j2 r z) /\
  ficept wd m j1 j2 r (fun j => xadd (y j) (z j)) = xadd (ficept wd m j1 j2 r y) (ficept wd m j1 j2 r z).
Proof.
  intros Hj. destruct (fit_linear wd m j1 j2 r Hj) as [N|(u & v & U0 & U1 & V0 & V1 & L)].
  - destruct (N y) as [-> ->]. destruct (N z) as [-> ->]. destruct (N (fun j => xadd (y j) (z j))) as [-> ->]. auto.
  - destruct (L y) as [-> ->]. destruct (L z) as [-> ->]. destruct (L (fun j => xadd (y j) (z j))) as [-> ->].
    rewrite <- !xsum_map_xadd. split; f_equal; apply map_ext; intros j; now rewrite xmul_Fin_distr.
Qed.
(** finite data: the least-squares line *)
Lemma fit_finite wd m j1 j2 r (y : Z -> R) : well_posed (fit_points wd m j1 j2 r y) ->
  let P := fit_points wd m j1 j2 r y in
  fslope wd m j1 j2 r (fun j => Fin (y j)) = Fin (slope P) /\
  ficept wd m j1 j2 r (fun j => Fin (y j)) = Fin (icept P).
Proof.
  intros W P. assert (HD := D_pos P W).
  destruct (lr_points P) as [v Hv]; [lra|].
  assert (E := fit3_ok wd m j1 j2 r (fun j => Fin (y j))).
  rewrite (wts_fin wd m j1 j2 r y), (supp_fin wd m j1 j2 r y) in E.
  assert (Ey : map (fun j => Fin (y j)) (zrange j1 (j2 + 1)) = fin (map py P)).
  { unfold P, fit_points, fin. rewrite !map_map. reflexivity. }
  fold P in E. rewrite Ey, Hv in E. injection E as E. unfold fslope, ficept. rewrite <- E. auto.
Qed.
(** when two scales have positive weight the fit is well posed *)
Lemma fit_well_posed wd m j1 j2 r y : (j1 < j2)%Z ->
  (forall j, (j1 <= j <= j2)%Z -> (0 < count m j r)%nat) -> well_posed (fit_points wd m j1 j2 r y).
Proof.
  intros H C. assert (W : forall j, (j1 <= j <= j2)%Z -> 0 < weight wd m j r).
  { intros j Hj. unfold weight. destruct wd; [|lra]. apply lt_0_INR. auto. }
  split.
  - unfold fit_points. rewrite Forall_map, Forall_forall. intros j _. apply weight_nonneg.
  - exists (weight wd m j1 r, IZR j1, y j1), (weight wd m j2 r, IZR j2, y j2).
    split; [apply (in_map (fun j => (weight wd m j r, IZR j, y j))), zrange_In; lia|].
    split; [apply (in_map (fun j => (weight wd m j r, IZR j, y j))), zrange_In; lia|].
    cbn. split; [apply W; lia|]. split; [apply W; lia|]. intros E. apply eq_IZR in E. lia.
Qed.

(** ** weights and column regression *)
Section Regular.
Variables (m : mrq) (g nrep : nat).
Hypothesis HR : regular m g nrep.

Lemma reg_nrep : mq_nrep m = Ok nrep.
Proof.
  destruct HR as (G & S & _ & L). unfold mq_nrep, scales in *. destruct (mq_values m) as [|[k a] d] eqn:E.
  - unfold one_to in S. destruct g; [lia|discriminate].
  - f_equal. apply (L k). simpl. now rewrite Z.eqb_refl.
Qed.
Lemma reg_cols r : cols_of m r = map (fun j => column m j r) (one_to g).
Proof.
  destruct HR as (G & S & _ & L). unfold cols_of, scales in *.
  assert (N : NoDup (dict_keys (mq_values m))) by (rewrite S; apply one_to_NoDup).
  etransitivity; [exact (dict_by_keys (fun kv : Z * arr => nth r (snd kv) []) (mq_values m) [] N)|].
  rewrite S. apply map_ext. intros j. cbn [snd]. unfold column. destruct (dict_get _ _); trivial. now destruct r.
Qed.
Lemma reg_rows wd j1 j2 : (1 <= j1)%Z -> (j2 <= Z.of_nat g)%Z ->
  reg_weights wd (mq_nj m) nrep j1 j2 = Ok (map (wts wd m j1 j2) (seq 0 nrep)).
Proof.
  intros H1 H2. unfold reg_weights. destruct wd.
  - destruct HR as (G & _ & K & _).
    assert (E : get_nj_interv (mq_nj m) j1 j2
       = Ok (map (fun j => match dict_get (mq_nj m) j with Some v => v | None => [] end) (zrange j1 (j2 + 1)))).
    { unfold get_nj_interv. apply mapM_Ok.
      assert (Hj : forall j, In j (zrange j1 (j2 + 1)) -> (1 <= j <= Z.of_nat g)%Z) by (intros j Hj; apply zrange_In in Hj; lia).
      revert Hj. generalize (zrange j1 (j2 + 1)). induction l as [|j l IH]; intros Hj; simpl; constructor.
      - unfold dict_getitem. destruct (dict_get_Some (mq_nj m) j) as [v ->]; trivial.
        rewrite K. apply one_to_In. apply Hj. now left.
      - apply IH. intros. apply Hj. now right. }
    rewrite E. cbn [bind]. f_equal. apply map_ext. intros r. rewrite map_map. unfold wts. apply map_ext. intros j.
    unfold weight, count. destruct (dict_get _ _); trivial. now destruct r.
  - f_equal. unfold wts, weight. unfold scale_support. rewrite map_length.
    assert (C : forall X Y (y : Y) (l : list X), map (fun _ => y) l = repeat y (length l)).
    { induction l; simpl; congruence. }
    rewrite !C, seq_length. reflexivity.
Qed.
Lemma regress_eq wd j1 j2 (F : nat -> Z -> xr) : (1 <= j1)%Z -> (j1 <= j2)%Z -> (j2 <= Z.of_nat g)%Z ->
  regress_cols wd j1 j2 (map (wts wd m j1 j2) (seq 0 nrep)) (map (fun r => map (F r) (one_to g)) (seq 0 nrep))
  = Ok (map (fun r => fit3 wd m j1 j2 r (F r)) (seq 0 nrep)).
Proof.
  intros H1 H2 H3. unfold regress_cols.
  replace (wd && (j2 <? j1)%Z) with false.
  2:{ destruct (Z.ltb_spec j2 j1); [lia|]. now rewrite andb_false_r. }
  generalize (seq 0 nrep). induction l as [|r l IH]; simpl; trivial.
  rewrite slice_one_to by trivial. rewrite fit3_ok. cbn [bind]. rewrite IH. reflexivity.
Qed.
Lemma mapM_regress {X} wd j1 j2 (G : X -> nat -> Z -> xr) l : (1 <= j1)%Z -> (j1 <= j2)%Z -> (j2 <= Z.of_nat g)%Z ->
  mapM (regress_cols wd j1 j2 (map (wts wd m j1 j2) (seq 0 nrep)))
       (map (fun x => map (fun r => map (G x r) (one_to g)) (seq 0 nrep)) l)
  = Ok (map (fun x => map (fun r => fit3 wd m j1 j2 r (G x r)) (seq 0 nrep)) l).
Proof.
  intros. induction l as [|x l IH]; simpl; trivial. rewrite regress_eq by trivial. cbn [bind]. rewrite IH. reflexivity.
Qed.

(** ** StructureFunction *)
Definition logS (q : pynum) (r : nat) (j : Z) : xr := xlog2 (sf_moment (column m j r) q).
Definition has_two (qs : list R) : bool := existsb (fun q => if Req_EM_T q 2 then true else false) qs.
Lemma has_two_In qs : has_two qs = true <-> In 2 qs.
Proof.
  unfold has_two. rewrite existsb_exists. split.
  - intros (q & Hq & E). destruct (Req_EM_T q 2); [now subst|discriminate].
  - intros H. exists 2. split; trivial. destruct (Req_EM_T 2 2); [reflexivity|congruence].
Qed.
Lemma select_map qs (F : pynum -> list xr) :
  select_q2 qs (map F (map PyFloat qs)) = if has_two qs then Ok (F (PyFloat 2)) else Err IndexError.
Proof.
  induction qs as [|q qs IH]; simpl; trivial. destruct (Req_EM_T q 2) as [->|]; trivial.
Qed.
Lemma SF_eq qs j1 j2 wd : (1 <= j1)%Z -> (j1 <= j2)%Z -> (j2 <= Z.of_nat g)%Z ->
  StructureFunction m (QArr qs) j1 j2 wd =
  if has_two qs then
    Ok (mkSF (mq_formalism m) (mq_gamint m) nrep (one_to g) (QArr qs) j1 j2 wd []
         (map (fun q => map (fun r => map (logS q r) (one_to g)) (seq 0 nrep)) (map PyFloat qs))
         (map (fun q => map (fun r => fslope wd m j1 j2 r (logS q r)) (seq 0 nrep)) (map PyFloat qs))
         (map (fun q => map (fun r => ficept wd m j1 j2 r (logS q r)) (seq 0 nrep)) (map PyFloat qs))
         (map (fun r => xsub (xdiv (fslope wd m j1 j2 r (logS (PyFloat 2) r)) (Fin 2)) (Fin (mq_gamint m))) (seq 0 nrep)))
  else Err IndexError.
Proof.
  intros H1 H2 H3. unfold StructureFunction. rewrite reg_nrep. cbn [bind]. rewrite reg_rows by trivial. cbn [bind].
  assert (E : sf_compute m nrep (QArr qs) = map (fun q => map (fun r => map (logS q r) (one_to g)) (seq 0 nrep)) (map PyFloat qs)).
  { unfold sf_compute. cbn [q_items]. apply map_ext. intros e. apply map_ext. intros r. rewrite reg_cols, map_map. reflexivity. }
  rewrite E. rewrite mapM_regress by trivial. cbn [bind get_q2]. rewrite !map_map.
  rewrite <- (map_map PyFloat (fun q => map (fun t => fst (fst t)) (map (fun r => fit3 wd m j1 j2 r (logS q r)) (seq 0 nrep)))).
  rewrite select_map. destruct (has_two qs); [|reflexivity]. cbn [bind].
  rewrite !map_map. f_equal. f_equal.
  - apply (proj1 (proj2 HR)).
  - apply map_ext. intros. now rewrite map_map.
  - apply map_ext. intros. now rewrite map_map.
Qed.
Lemma SF_list l j1 j2 wd : (1 <= j1)%Z -> (j1 <= j2)%Z -> (j2 <= Z.of_nat g)%Z ->
  StructureFunction m (QList l) j1 j2 wd = Err IndexError.
Proof.
  intros H1 H2 H3. unfold StructureFunction. rewrite reg_nrep. cbn [bind]. rewrite reg_rows by trivial. cbn [bind].
  assert (E : sf_compute m nrep (QList l) = map (fun q => map (fun r => map (logS q r) (one_to g)) (seq 0 nrep)) l).
  { unfold sf_compute. cbn [q_items]. apply map_ext. intros e. apply map_ext. intros r. rewrite reg_cols, map_map. reflexivity. }
  rewrite E. rewrite mapM_regress by trivial. reflexivity.
Qed.

(** ** Cumulants *)
Definition Cval (n k r : nat) (j : Z) : xr := cum_value n (column m j r) k.
Lemma CUM_eq n j1 j2 wd : (1 <= j1)%Z -> (j1 <= j2)%Z -> (j2 <= Z.of_nat g)%Z ->
  Cumulants m n j1 j2 wd =
    Ok (mkCum (mq_formalism m) (mq_nj m) nrep (one_to g) (seq 1 n) j1 j2 wd
         (map (fun k => map (fun r => map (Cval n k r) (one_to g)) (seq 0 nrep)) (seq 1 n))
         (map (fun k => map (fun r => xmul (fslope wd m j1 j2 r (Cval n k r)) (Fin log2_e)) (seq 0 nrep)) (seq 1 n))
         (map (fun k => map (fun r => xmul (Fin (log2_e * log2_e)) (snd (fit3 wd m j1 j2 r (Cval n k r)))) (seq 0 nrep)) (seq 1 n))
         (map (fun k => map (fun r => fslope wd m j1 j2 r (Cval n k r)) (seq 0 nrep)) (seq 1 n))
         (map (fun k => map (fun r => ficept wd m j1 j2 r (Cval n k r)) (seq 0 nrep)) (seq 1 n))).
Proof.
  intros H1 H2 H3. unfold Cumulants. rewrite reg_nrep. cbn [bind]. rewrite reg_rows by trivial. cbn [bind].
  assert (E : cum_compute m nrep n = map (fun k => map (fun r => map (Cval n k r) (one_to g)) (seq 0 nrep)) (seq 1 n)).
  { unfold cum_compute. apply map_ext. intros e. apply map_ext. intros r. rewrite reg_cols, map_map. reflexivity. }
  rewrite E. rewrite mapM_regress by trivial. cbn [bind]. rewrite !map_map. f_equal. f_equal.
  - apply (proj1 (proj2 HR)).
  - apply map_ext. intros. now rewrite !map_map.
  - apply map_ext. intros. now rewrite !map_map.
  - apply map_ext. intros. now rewrite !map_map.
  - apply map_ext. intros. now rewrite !map_map.
Qed.

(** ** MultifractalSpectrum *)
Definition Uval (q : pynum) (r : nat) (j : Z) : xr := spec_U (count m j r) (column m j r) q.
Definition Vval (q : pynum) (r : nat) (j : Z) : xr := spec_V (column m j r) q.
Lemma cols_nj_eq r : cols_nj m r = Ok (map (fun j => (column m j r, count m j r)) (one_to g)).
Proof.
  destruct HR as (G & S & K & L). unfold cols_nj, scales in *.
  assert (E : mq_values m = map (fun j => (j, match dict_get (mq_values m) j with Some v => v | None => [] end)) (one_to g)).
  { assert (N : NoDup (dict_keys (mq_values m))) by (rewrite S; apply one_to_NoDup).
    rewrite <- S. rewrite <- (map_id (mq_values m)) at 1.
    exact (dict_by_keys (fun kv : Z * arr => kv) (mq_values m) [] N). }
  rewrite E at 1. apply mapM_Ok.
  assert (Hj : forall j, In j (one_to g) -> In j (dict_keys (mq_nj m))) by (intros; now rewrite K).
  revert Hj. generalize (one_to g). induction l as [|j l IH]; intros Hj; simpl; constructor.
  - cbn [fst snd]. unfold dict_getitem. destruct (dict_get_Some (mq_nj m) j) as [v Hv]; [apply Hj; now left|].
    rewrite Hv. cbn [bind]. f_equal. f_equal.
    + unfold column. generalize (dict_get (mq_values m) j : option arr). intros o. 
      change (nth r (match o with Some v => v | None => [] end) [] = match o with Some a => nth r a [] | None => [] end).
      destruct o; [reflexivity|]. destruct r; reflexivity.
    + unfold count. now rewrite Hv.
  - apply IH. intros. apply Hj. now right.
Qed.
Lemma MFS_eq q j1 j2 wd : (1 <= j1)%Z -> (j1 <= j2)%Z -> (j2 <= Z.of_nat g)%Z ->
  MultifractalSpectrum m j1 j2 wd q =
    Ok (mkMFS (mq_formalism m) (mq_nj m) nrep (one_to g) q j1 j2 wd
         (map (fun e => map (fun r => map (Uval e r) (one_to g)) (seq 0 nrep)) (q_items q))
         (map (fun e => map (fun r => map (Vval e r) (one_to g)) (seq 0 nrep)) (q_items q))
         (map (fun e => map (fun r => xadd (Fin 1) (fslope wd m j1 j2 r (Uval e r))) (seq 0 nrep)) (q_items q))
         (map (fun e => map (fun r => fslope wd m j1 j2 r (Vval e r)) (seq 0 nrep)) (q_items q))).
Proof.
  intros H1 H2 H3. unfold MultifractalSpectrum. rewrite reg_nrep. cbn [bind].
  assert (E : mapM (cols_nj m) (seq 0 nrep) = Ok (map (fun r => map (fun j => (column m j r, count m j r)) (one_to g)) (seq 0 nrep))).
  { generalize (seq 0 nrep). induction l as [|r l IH]; simpl; trivial. rewrite cols_nj_eq. cbn [bind]. now rewrite IH. }
  rewrite E. cbn [bind]. rewrite reg_rows by trivial. cbn [bind].
  assert (EG : forall F : pynum -> col * nat -> xr,
     map (fun e => map (fun cn => map (F e) cn)
       (map (fun r => map (fun j => (column m j r, count m j r)) (one_to g)) (seq 0 nrep))) (q_items q)
     = map (fun e => map (fun r => map (fun j => F e (column m j r, count m j r)) (one_to g)) (seq 0 nrep)) (q_items q)).
  { intros F. apply map_ext. intros e. rewrite map_map. apply map_ext. intros r. rewrite map_map. reflexivity. }
  rewrite (EG (fun e p => spec_U (snd p) (fst p) e)), (EG (fun e p => spec_V (fst p) e)). cbn [fst snd].
  change (fun e => map (fun r => map (fun j => spec_U (count m j r) (column m j r) e) (one_to g)) (seq 0 nrep))
    with (fun e => map (fun r => map (Uval e r) (one_to g)) (seq 0 nrep)).
  change (fun e => map (fun r => map (fun j => spec_V (column m j r) e) (one_to g)) (seq 0 nrep))
    with (fun e => map (fun r => map (Vval e r) (one_to g)) (seq 0 nrep)).
 rewrite !mapM_regress by trivial. cbn [bind]. rewrite !map_map. f_equal. f_equal.
  - apply (proj1 (proj2 HR)).
  - apply map_ext. intros. now rewrite !map_map.
  - apply map_ext. intros. now rewrite !map_map.
Qed.

(** ** estimate_hmin *)
Definition lsup (r : nat) (j : Z) : xr := xlog2 (nanmax (map xabs (column m j r))).
Lemma HMIN_eq j1 j2 wd warn : (1 <= j1)%Z -> (j1 <= j2)%Z -> (j2 <= Z.of_nat g)%Z ->
  (forall j r, (j1 <= j <= j2)%Z -> (r < nrep)%nat -> column m j r <> []) ->
  estimate_hmin m j1 j2 wd warn =
   let h := map (fun r => fslope wd m j1 j2 r (lsup r)) (seq 0 nrep) in
   Ok (mkHmin h (map (fun r => ficept wd m j1 j2 r (lsup r)) (seq 0 nrep))
         (map (fun r => map (lsup r) (zrange j1 (j2 + 1))) (seq 0 nrep))
         (zero_in h && warn)).
Proof.
  intros H1 H2 H3 Hne. destruct HR as (G & S & K & L). unfold estimate_hmin.
  destruct (dict_get_Some (mq_values m) 1) as [a1 Ha1].
  { change (In 1%Z (scales m)). rewrite S. apply one_to_In. lia. }
  unfold dict_getitem at 1. rewrite Ha1. cbn [bind]. rewrite (L _ _ Ha1).
  destruct (Z.ltb_spec (j2 - j1 + 1) 0); [lia|].
  assert (E : mapM (fun j => a <- dict_getitem (mq_values m) j ;; mapM (sup_col a) (seq 0 nrep)) (zrange j1 (j2 + 1))
    = Ok (map (fun j => map (fun r => nanmax (map xabs (column m j r))) (seq 0 nrep)) (zrange j1 (j2 + 1)))).
  { apply mapM_Ok.
    assert (Hj : forall j, In j (zrange j1 (j2 + 1)) -> (j1 <= j <= j2)%Z) by (intros j Hj; apply zrange_In in Hj; lia).
    revert Hj. generalize (zrange j1 (j2 + 1)). induction l as [|j l IH]; intros Hj; simpl; constructor.
    2:{ apply IH. intros. apply Hj. now right. }
    assert (Hj' := Hj j (or_introl eq_refl)).
    destruct (dict_get_Some (mq_values m) j) as [a Ha].
    { change (In j (scales m)). rewrite S. apply one_to_In. lia. }
    unfold dict_getitem. rewrite Ha. cbn [bind].
    assert (Hr : forall r, In r (seq 0 nrep) -> (r < nrep)%nat) by (intros r Hr; apply in_seq in Hr; lia).
    revert Hr. generalize (seq 0 nrep). induction l0 as [|r l0 IH0]; intros Hr; simpl; trivial.
    assert (N := Hne j r Hj' (Hr r (or_introl eq_refl))). unfold column in *. rewrite Ha in *.
    unfold sup_col at 1. destruct (nth r a []) as [|c0 c] eqn:Ec; [contradiction|].
    cbn [bind]. rewrite IH0 by (intros; apply Hr; now right). reflexivity. }
  rewrite E. cbn [bind]. rewrite reg_rows by trivial. cbn [bind].
  replace (wd && (j2 <? j1)%Z) with false.
  2:{ destruct (Z.ltb_spec j2 j1); [lia|]. now rewrite andb_false_r. }
  assert (Ey : map (fun r => map (fun row => xlog2 (nth r row NaN))
       (map (fun j => map (fun r => nanmax (map xabs (column m j r))) (seq 0 nrep)) (zrange j1 (j2 + 1)))) (seq 0 nrep)
     = map (fun r => map (lsup r) (zrange j1 (j2 + 1))) (seq 0 nrep)).
  { apply map_ext_in. intros r Hr. apply in_seq in Hr. rewrite map_map. apply map_ext. intros j. unfold lsup.
    rewrite (nth_map_lt _ _ _ 0%nat) by (rewrite seq_length; lia). rewrite seq_nth by lia. reflexivity. }
  rewrite Ey.
  assert (Ef : mapM (fun wv : col * col => linear_regression (scale_support j1 j2) (snd wv) (fst wv))
      (combine (map (wts wd m j1 j2) (seq 0 nrep)) (map (fun r => map (lsup r) (zrange j1 (j2 + 1))) (seq 0 nrep)))
      = Ok (map (fun r => fit3 wd m j1 j2 r (lsup r)) (seq 0 nrep))).
  { generalize (seq 0 nrep). induction l as [|r l IH]; simpl; trivial. rewrite fit3_ok. cbn [bind]. now rewrite IH. }
  rewrite Ef. cbn [bind]. rewrite !map_map. reflexivity.
Qed.
End Regular.

(** data exactly on a line *)
Lemma fit_exact wd m j1 j2 r a b : (j1 < j2)%Z -> (forall j, (j1 <= j <= j2)%Z -> (0 < count m j r)%nat) ->
  fslope wd m j1 j2 r (fun j => Fin (a * IZR j + b)) = Fin a /\
  ficept wd m j1 j2 r (fun j => Fin (a * IZR j + b)) = Fin b.
Proof.
  intros Hj Hc.
  destruct (fit_add_line wd m j1 j2 r (fun _ => Fin 0) a b ltac:(lia)) as [A B].
  destruct (fit_finite wd m j1 j2 r (fun _ => 0) (fit_well_posed wd m j1 j2 r _ Hj Hc)) as [A' B'].
  assert (T : T0 (fit_points wd m j1 j2 r (fun _ => 0)) = 0 /\ T1 (fit_points wd m j1 j2 r (fun _ => 0)) = 0).
  { unfold T0, T1, fit_points. rewrite !map_map. split; apply Rsum_map_zero; intros; cbn; ring. }
  assert (Z : slope (fit_points wd m j1 j2 r (fun _ => 0)) = 0 /\ icept (fit_points wd m j1 j2 r (fun _ => 0)) = 0).
  { unfold slope, icept. destruct T as [-> ->]. unfold Rdiv. split; ring. }
  destruct Z as [Z1 Z2]. rewrite Z1 in A'. rewrite Z2 in B'.
  rewrite A' in A. rewrite B' in B. cbn [xadd] in *.
  assert (E : forall u v, fslope wd m j1 j2 r u = v -> (forall j, u j = Fin (a * IZR j + b)) ->
     fslope wd m j1 j2 r (fun j => Fin (a * IZR j + b)) = v).
  { intros u v <- H. apply fslope_ext. intros. now rewrite H. }
  assert (E' : forall u v, ficept wd m j1 j2 r u = v -> (forall j, u j = Fin (a * IZR j + b)) ->
     ficept wd m j1 j2 r (fun j => Fin (a * IZR j + b)) = v).
  { intros u v <- H. apply ficept_ext. intros. now rewrite H. }
  split.
  - rewrite (E _ _ A) by (intros; f_equal; ring). f_equal. ring.
  - rewrite (E' _ _ B) by (intros; f_equal; ring). f_equal. ring.
Qed.
