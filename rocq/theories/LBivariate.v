(** * Lemmas on bivariate/ *)
From Coq Require Import Reals List ZArith Bool Lra Lia.
From Verif Require Import XReal PyBase ModelUtils ModelMRQ ModelStructure ModelCumulants ModelWavelet ModelMFA ModelBivariate
  Spec SpecMRQ SpecBi LXReal LReg LUtils LBase LEst LMoment LCum LEntropy LSignal.
Import ListNotations.
Open Scope R_scope.

(** ** Cauchy-Schwarz *)
Lemma cauchy {A} (f g : A -> R) l :
  Rsum (map (fun a => f a * g a) l) ^ 2 <= Rsum (map (fun a => f a ^ 2) l) * Rsum (map (fun a => g a ^ 2) l).
Proof.
  set (F := Rsum (map (fun a => f a ^ 2) l)). set (G := Rsum (map (fun a => g a ^ 2) l)).
  set (P := Rsum (map (fun a => f a * g a) l)).
  assert (GP : 0 <= G) by (apply Rsum_map_nonneg; intros; apply pow2_ge_0).
  assert (K : 0 <= Rsum (map (fun a => (G * f a - P * g a) ^ 2) l)) by (apply Rsum_map_nonneg; intros; apply pow2_ge_0).
  assert (E : Rsum (map (fun a => (G * f a - P * g a) ^ 2) l) = G * (F * G - P ^ 2)).
  { rewrite (Rsum_map_ext _ (fun a => G ^ 2 * f a ^ 2 + ((- 2 * G * P) * (f a * g a) + P ^ 2 * g a ^ 2))) by (intros; ring).
    rewrite !Rsum_map_plus, !Rsum_map_scal. fold F G P. ring. }
  rewrite E in K. destruct GP as [GP|G0].
  - apply Rmult_le_reg_l with G; trivial. lra.
  - assert (Z : forall a, In a l -> g a = 0).
    { intros a Ha. destruct (Req_dec (g a) 0) as [|N]; trivial. exfalso.
      assert (0 < G); [|lra]. apply Rsum_map_pos; [intros; apply pow2_ge_0|]. exists a. split; trivial.
      replace (g a ^ 2) with (Rsqr (g a)) by (unfold Rsqr; ring). now apply Rsqr_pos_lt. }
    assert (P0 : P = 0) by (apply Rsum_map_zero; intros a Ha; rewrite (Z a Ha); ring).
    rewrite P0, <- G0. lra.
Qed.
Lemma cauchy_mean {A} (f g : A -> R) l : l <> [] ->
  mean (map (fun a => f a * g a) l) ^ 2 <= mean (map (fun a => f a ^ 2) l) * mean (map (fun a => g a ^ 2) l).
Proof.
  intros H. apply INR_len_pos in H. unfold mean. rewrite !map_length.
  assert (K := cauchy f g l). set (n := INR (length l)) in *.
  replace ((Rsum (map (fun a => f a * g a) l) / n) ^ 2) with (Rsum (map (fun a => f a * g a) l) ^ 2 * / n ^ 2) by (field; lra).
  replace (Rsum (map (fun a => f a ^ 2) l) / n * (Rsum (map (fun a => g a ^ 2) l) / n))
    with (Rsum (map (fun a => f a ^ 2) l) * Rsum (map (fun a => g a ^ 2) l) * / n ^ 2) by (field; lra).
  apply Rmult_le_compat_r; trivial. left. apply Rinv_0_lt_compat. apply pow_lt. trivial.
Qed.
Lemma mean_sq_nonneg {A} (f : A -> R) l : 0 <= mean (map (fun a => f a ^ 2) l).
Proof.
  unfold mean. destruct l as [|a l]; [simpl; unfold Rdiv; lra|]. apply Rmult_le_pos.
  - apply Rsum_map_nonneg. intros. apply pow2_ge_0.
  - left. apply Rinv_0_lt_compat. rewrite map_length. now apply INR_len_pos.
Qed.
(** the ratio p / sqrt(f g) *)
Lemma ratio_bound p d : p ^ 2 <= d -> 0 < d -> Rabs (p / sqrt d) <= 1.
Proof.
  intros H1 H2. assert (S := sqrt_lt_R0 _ H2). assert (Q := sqrt_sqrt d ltac:(lra)).
  unfold Rdiv. rewrite Rabs_mult, (Rabs_pos_eq (/ sqrt d)) by (left; now apply Rinv_0_lt_compat).
  apply Rmult_le_reg_r with (sqrt d); trivial. rewrite Rmult_assoc, Rinv_l, Rmult_1_r, Rmult_1_l by lra.
  apply Rsqr_incr_0_var; [|lra]; rewrite <- Rsqr_abs; unfold Rsqr; lra.
Qed.
Lemma xdiv_ratio p d : p ^ 2 <= d ->
  (d = 0 /\ xdiv (Fin p) (xsqrt (Fin d)) = NaN) \/
  (0 < d /\ xdiv (Fin p) (xsqrt (Fin d)) = Fin (p / sqrt d) /\ Rabs (p / sqrt d) <= 1).
Proof.
  intros H. assert (D : 0 <= d) by (assert (K := pow2_ge_0 p); lra). destruct D as [D|<-].
  - right. split; trivial. unfold xsqrt. destruct (Rle_dec 0 d); [|lra]. assert (S := sqrt_lt_R0 _ D).
    rewrite xdiv_Fin by lra. split; trivial. now apply ratio_bound.
  - left. split; trivial. unfold xsqrt. destruct (Rle_dec 0 0); [|lra]. rewrite sqrt_0.
    assert (p = 0) by nra. subst p. unfold xdiv. destruct (Req_EM_T 0 0); [reflexivity|lra].
Qed.

(** ** means of products *)
Lemma joint_sym c1 : forall c2, joint c2 c1 = map (fun p => (snd p, fst p)) (joint c1 c2).
Proof.
  induction c1 as [|x c1 IH]; intros [|y c2]; cbn [joint map]; trivial.
  - destruct y; reflexivity.
  - destruct x; reflexivity.
  - destruct x, y; cbn [map fst snd]; rewrite ?IH; reflexivity.
Qed.
Lemma joint_fst c1 : forall c2, map isnan c1 = map isnan c2 -> no_inf c1 -> no_inf c2 ->
  map fst (joint c1 c2) = reals c1 /\ map snd (joint c1 c2) = reals c2.
Proof.
  induction c1 as [|x c1 IH]; intros [|y c2] E N1 N2; try discriminate; cbn [joint map]; auto.
  injection E as E1 E2. inversion N1 as [|? ? A1 B1]; inversion N2 as [|? ? A2 B2]; subst.
  destruct (IH c2 E2 B1 B2) as [F G].
  destruct A1 as [->|[a ->]]; destruct A2 as [->|[b ->]]; cbn in E1; try discriminate; cbn [reals map fst snd]; [auto|]. now rewrite F, G.
Qed.
Lemma map2_joint (f g : xr -> xr) (F G : R -> R) c1 : forall c2, length c1 = length c2 -> no_inf c1 -> no_inf c2 ->
  f NaN = NaN -> g NaN = NaN ->
  (forall a b, In (a, b) (joint c1 c2) -> f (Fin a) = Fin (F a) /\ g (Fin b) = Fin (G b)) ->
  no_inf (map2 xmul (map f c1) (map g c2)) /\
  reals (map2 xmul (map f c1) (map g c2)) = map (fun p => F (fst p) * G (snd p)) (joint c1 c2).
Proof.
  induction c1 as [|x c1 IH]; intros [|y c2] L N1 N2 HF HG H; try discriminate.
  - split; [constructor|reflexivity].
  - injection L as L. inversion N1 as [|? ? A1 B1]; inversion N2 as [|? ? A2 B2]; subst.
    cbn [map]. rewrite map2_cons.
    destruct A1 as [->|[a ->]]; [|destruct A2 as [->|[b ->]]].
    + rewrite HF. cbn [xmul]. change (joint (NaN :: c1) (y :: c2)) with (joint c1 c2) in *. destruct (IH c2 L B1 B2 HF HG H) as [P Q]. split; [constructor; auto|exact Q].
    + rewrite HG. replace (xmul (f (Fin a)) NaN) with NaN by (destruct (f (Fin a)); reflexivity). cbn [joint] in *.
      destruct (IH c2 L B1 B2 HF HG H) as [P Q]. split; [constructor; auto|exact Q].
    + cbn [joint] in *. destruct (H a b (or_introl eq_refl)) as [-> ->]. cbn [xmul].
      destruct (IH c2 L B1 B2 HF HG) as [P Q]; [intros; apply H; now right|].
      split; [constructor; [right; eexists; reflexivity|exact P]|]. cbn [reals map fst snd]. now rewrite Q.
Qed.
Lemma bcast_eq x y : length x = length y -> bcast_mul x y = Ok (map2 xmul x y).
Proof. intros H. unfold bcast_mul. now rewrite H, Nat.eqb_refl. Qed.
Lemma nanmean_empty c : no_inf c -> reals c = [] -> nanmean c = NaN.
Proof.
  intros N E. unfold nanmean. rewrite nansum_reals, count_valid_reals by trivial. rewrite E. cbn.
  destruct (Req_EM_T 0 0); [reflexivity|lra].
Qed.
Lemma mean_prod_joint (f g : xr -> xr) (F G : R -> R) c1 c2 : length c1 = length c2 -> no_inf c1 -> no_inf c2 ->
  f NaN = NaN -> g NaN = NaN ->
  (forall a b, In (a, b) (joint c1 c2) -> f (Fin a) = Fin (F a) /\ g (Fin b) = Fin (G b)) ->
  mean_prod (map f c1) (map g c2) = Ok (match joint c1 c2 with [] => NaN | _ => Fin (pmean F G (joint c1 c2)) end).
Proof.
  intros L N1 N2 HF HG H. unfold mean_prod. rewrite bcast_eq by (now rewrite !map_length). cbn [bind]. f_equal.
  destruct (map2_joint f g F G c1 c2 L N1 N2 HF HG H) as [P Q].
  destruct (joint c1 c2) as [|p l] eqn:E.
  - apply nanmean_empty; trivial.
  - rewrite nanmean_reals; trivial; rewrite Q; [reflexivity|discriminate].
Qed.
(** when the NaN agree, a power 0 of the other column has no effect *)
Lemma map2_pow0_r (f g : xr -> xr) c1 : forall c2, map isnan c1 = map isnan c2 ->
  f NaN = NaN -> g NaN = NaN -> (forall x, isnan x = false -> g x = Fin 1) ->
  map2 xmul (map f c1) (map g c2) = map f c1.
Proof.
  induction c1 as [|x c1 IH]; intros [|y c2] E HF HG H1; try discriminate; trivial.
  injection E as E1 E2. cbn [map]. rewrite map2_cons, (IH c2) by trivial. f_equal.
  destruct (isnan y) eqn:Ny.
  - destruct x; try discriminate. now rewrite HF.
  - rewrite H1 by trivial. rewrite xmul_comm. apply xmul_1_l.
Qed.
Lemma fp1_0_any x : isnan x = false -> fp1 (PyFloat (INR 0)) x = Fin 1.
Proof.
  intros H. destruct x; try discriminate; [now apply fp1_e0| |]; cbn [INR]; unfold fp1, fast_power; cbn [num_val];
  (destruct (Req_EM_T 0 1); [lra|]; destruct (Req_EM_T 0 2); [lra|]; destruct (Req_EM_T 0 (1/2)); [lra|];
   destruct (Req_EM_T 0 0); [|lra]; cbn [map hd isnan xpow]; destruct (Req_EM_T 0 0); [reflexivity|lra]).
Qed.
Lemma isnan_lnabs x : isnan (xln (xabs x)) = isnan x.
Proof.
  destruct x; cbn; trivial. destruct (Rlt_dec 0 (Rabs r)); trivial. destruct (Req_EM_T (Rabs r) 0); trivial.
  assert (K := Rabs_pos r). lra.
Qed.

(** ** comparison of the counts *)
Lemma nj_equal_ok m1 m2 g : regular m1 g 1 -> regular m2 g 1 -> counted m1 -> counted m2 ->
  nj_equal (mq_nj m1) (mq_nj m2) = Ok (forallb (fun j => Nat.eqb (count m1 j 0) (count m2 j 0)) (one_to g)).
Proof.
  intros R1 R2 C1 C2. destruct R1 as (G1 & S1 & K1 & L1). destruct R2 as (G2 & S2 & K2 & L2).
  unfold nj_equal.
  assert (E : length (mq_nj m1) = length (mq_nj m2)).
  { apply (f_equal (@length _)) in K1, K2. unfold dict_keys in *. rewrite map_length in K1, K2. congruence. }
  rewrite E, Nat.eqb_refl.
  assert (X : forall j, In j (one_to g) -> exists a b, dict_get (mq_nj m1) j = Some [a] /\ dict_get (mq_nj m2) j = Some [b] /\
     count m1 j 0 = a /\ count m2 j 0 = b).
  { intros j Hj.
    assert (H1 : In j (scales m1)) by (now rewrite S1). assert (H2 : In j (scales m2)) by (now rewrite S2).
    destruct (dict_get_Some _ _ H1) as [v1 V1]. destruct (dict_get_Some _ _ H2) as [v2 V2].
    assert (Z1 := L1 _ _ V1). assert (Z2 := L2 _ _ V2). apply C1 in V1. apply C2 in V2.
    destruct v1 as [|a [|]]; try discriminate. destruct v2 as [|b [|]]; try discriminate.
    exists (count_valid a), (count_valid b). unfold count. now rewrite V1, V2. }
  assert (N : NoDup (dict_keys (mq_nj m1))) by (rewrite K1; apply one_to_NoDup).
  rewrite <- K1 in *. clear K1 E S1 L1 C1 S2 L2 C2 K2 G1 G2.
  assert (Gn : forall d : dict (list nat), (forall k v, In (k, v) d -> dict_get (mq_nj m1) k = Some v) ->
     (forall j, In j (dict_keys d) -> In j (dict_keys (mq_nj m1))) ->
     nj_loop d (mq_nj m2) = Ok (forallb (fun j => Nat.eqb (count m1 j 0) (count m2 j 0)) (dict_keys d))).
  { induction d as [|[k v] d IH]; intros H1 H2; [reflexivity|]. cbn [nj_loop dict_keys map forallb fst].
    destruct (X k (H2 k (or_introl eq_refl))) as (a & b & Ga & Gb & Ca & Cb).
    assert (Ev : v = [a]) by (rewrite (H1 k v (or_introl eq_refl)) in Ga; congruence). subst v.
    rewrite Gb, Ca, Cb. cbn [counts_eq bind]. destruct (Nat.eqb a b); cbn [andb]; trivial.
    apply IH; intros; [apply H1|apply H2]; now right. }
  apply Gn; [|auto].
  clear - N. unfold dict_keys in N. induction (mq_nj m1) as [|[k v] d IH]; cbn [dict_get In map fst] in *; [tauto|].
  inversion N as [|? ? N1 N2]; subst. intros k' v' [E|I].
  - injection E as -> ->. now rewrite Z.eqb_refl.
  - destruct (Z.eqb_spec k' k) as [->|]; [|now apply IH]. exfalso. apply N1. now apply (in_map fst) in I.
Qed.
Lemma formalism_eqb_eq a b : formalism_eqb a b = true <-> a = b.
Proof. destruct a, b; cbn; split; congruence. Qed.

(** ** the regressions of one cell *)
Lemma bi_fit_eq m g (F : Z -> xr) wd j1 j2 : regular m g 1 -> (1 <= j1)%Z -> (j1 <= j2)%Z -> (j2 <= Z.of_nat g)%Z ->
  bi_fit wd (mq_nj m) j1 j2 (map F (one_to g)) = Ok (fslope wd m j1 j2 0 F, ficept wd m j1 j2 0 F).
Proof.
  intros HR H1 H2 H3. unfold bi_fit. rewrite (reg_rows m g 1 HR) by trivial. cbn [bind].
  assert (K := regress_eq m g 1 wd j1 j2 (fun _ => F) H1 H2 H3).
  change (map (fun r : nat => map F (one_to g)) (seq 0 1)) with [map F (one_to g)] in K.
  change (regress_cols wd j1 j2 (map (wts wd m j1 j2) (seq 0 1)) [map F (one_to g)]
    = Ok [fit3 wd m j1 j2 0 F]) in K.
  refine (eq_trans (f_equal (fun r => bind r (fun l => match l with t :: _ => Ok (fst t) | [] => Err ValueError end)) K) _).
  cbn [bind]. unfold fslope, ficept. now destruct (fit3 wd m j1 j2 0 F) as [[? ?] ?].
Qed.
Lemma mapM_map_ok {A B} (f : A -> res B) (h : A -> B) l : (forall a, In a l -> f a = Ok (h a)) -> mapM f l = Ok (map h l).
Proof.
  induction l as [|a l IH]; intros H; [reflexivity|]. cbn [mapM map]. rewrite H by (now left). cbn [bind].
  rewrite IH by (intros; apply H; now right). reflexivity.
Qed.
Lemma fits_eq {X Y} m g (F : X -> Y -> Z -> xr) l1 l2 wd j1 j2 : regular m g 1 -> (1 <= j1)%Z -> (j1 <= j2)%Z -> (j2 <= Z.of_nat g)%Z ->
  mapM (fun row => mapM (bi_fit wd (mq_nj m) j1 j2) row) (map (fun a => map (fun b => map (F a b) (one_to g)) l2) l1)
  = Ok (map (fun a => map (fun b => (fslope wd m j1 j2 0 (F a b), ficept wd m j1 j2 0 (F a b))) l2) l1).
Proof.
  intros HR H1 H2 H3.
  induction l1 as [|a l1 IH]; [reflexivity|]. cbn [map mapM].
  assert (E : mapM (bi_fit wd (mq_nj m) j1 j2) (map (fun b => map (F a b) (one_to g)) l2)
     = Ok (map (fun b => (fslope wd m j1 j2 0 (F a b), ficept wd m j1 j2 0 (F a b))) l2)).
  { clear IH. induction l2 as [|b l2 IH]; [reflexivity|]. cbn [map mapM]. rewrite (bi_fit_eq m g) by trivial. cbn [bind].
    rewrite IH. reflexivity. }
  rewrite E. cbn [bind]. rewrite IH. reflexivity.
Qed.
Lemma both_eq m1 m2 g j : regular m1 g 1 -> regular m2 g 1 -> In j (one_to g) ->
  both m1 m2 j = Ok (column m1 j 0, column m2 j 0).
Proof.
  intros (G1 & S1 & K1 & L1) (G2 & S2 & K2 & L2) Hj.
  assert (H1 : In j (scales m1)) by (now rewrite S1). assert (H2 : In j (scales m2)) by (now rewrite S2).
  destruct (dict_get_Some _ _ H1) as [v1 V1]. destruct (dict_get_Some _ _ H2) as [v2 V2].
  assert (Z1 := L1 _ _ V1). assert (Z2 := L2 _ _ V2).
  unfold both, dict_getitem, column. rewrite V1, V2. cbn [bind].
  destruct v1 as [|a [|]]; try discriminate. destruct v2 as [|b [|]]; try discriminate.
  unfold flat. cbn [concat nth]. now rewrite !app_nil_r.
Qed.

(** ** BiCumulants in closed form *)
Definition lnc (c : col) : col := map xln (map xabs c).
Definition Bval (m1 m2 : mrq) (a b : nat) (j : Z) : xr :=
  bi_value (bi_moment (lnc (column m1 j 0)) (lnc (column m2 j 0))) a b.
Lemma BC_eq m1 m2 g n j1 j2 wd : regular m1 g 1 -> regular m2 g 1 -> (1 <= j1)%Z -> (j1 <= j2)%Z -> (j2 <= Z.of_nat g)%Z ->
  mq_formalism m1 = mq_formalism m2 -> nj_equal (mq_nj m1) (mq_nj m2) = Ok true ->
  (forall j, In j (one_to g) -> length (column m1 j 0) = length (column m2 j 0)) ->
  BiCumulants m1 m2 n j1 j2 wd =
    let o := seq 0 (n + 1) in
    let values := map (fun a => map (fun b => map (Bval m1 m2 a b) (one_to g)) o) o in
    let lc := map (fun a => map (fun b => xmul (fslope wd m1 j1 j2 0 (Bval m1 m2 a b)) (Fin log2_e)) o) o in
    '(RHO, rho) <- bi_rho (mq_formalism m1) n values lc ;;
    Ok (mkBiCum (mq_formalism m1) (mq_nj m1) (one_to g) n values lc
          (map (fun a => map (fun b => fslope wd m1 j1 j2 0 (Bval m1 m2 a b)) o) o)
          (map (fun a => map (fun b => ficept wd m1 j1 j2 0 (Bval m1 m2 a b)) o) o) RHO rho).
Proof.
  intros R1 R2 H1 H2 H3 HF HN HL. unfold BiCumulants.
  rewrite (proj2 (formalism_eqb_eq _ _) HF). cbn [assert_ bind]. rewrite HN. cbn [bind assert_].
  replace (dict_keys (mq_values m1)) with (one_to g) by (symmetry; apply R1).
  rewrite (mapM_map_ok (bi_scale m1 m2) (fun j a b => Bval m1 m2 a b j)).
  2:{ intros j Hj. unfold bi_scale. rewrite (both_eq m1 m2 g j R1 R2 Hj). cbn [bind].
      rewrite bcast_eq by (rewrite !map_length; auto). reflexivity. }
  cbn [bind]. cbv zeta.
  assert (EV : map (fun a => map (fun b => map (fun t : nat -> nat -> xr => t a b) (map (fun j a b => Bval m1 m2 a b j) (one_to g)))
     (seq 0 (n + 1))) (seq 0 (n + 1)) = map (fun a => map (fun b => map (Bval m1 m2 a b) (one_to g)) (seq 0 (n + 1))) (seq 0 (n + 1))).
  { apply map_ext. intros a. apply map_ext. intros b. now rewrite map_map. }
  rewrite EV. rewrite (fits_eq m1 g (Bval m1 m2)) by trivial. cbn [bind].
  assert (EM : forall (Y : Type) (f : xr * xr -> Y), map (map f) (map (fun a => map (fun b => (fslope wd m1 j1 j2 0 (Bval m1 m2 a b), ficept wd m1 j1 j2 0 (Bval m1 m2 a b)))
     (seq 0 (n + 1))) (seq 0 (n + 1)))
     = map (fun a => map (fun b => f (fslope wd m1 j1 j2 0 (Bval m1 m2 a b), ficept wd m1 j1 j2 0 (Bval m1 m2 a b))) (seq 0 (n + 1))) (seq 0 (n + 1))).
  { intros Y f. rewrite map_map. apply map_ext. intros a. now rewrite map_map. }
  rewrite !EM. cbn [fst snd].
  assert (EL : map (map (fun s : xr => xmul s (Fin log2_e))) (map (fun a => map (fun b => fslope wd m1 j1 j2 0 (Bval m1 m2 a b)) (seq 0 (n + 1))) (seq 0 (n + 1)))
     = map (fun a => map (fun b => xmul (fslope wd m1 j1 j2 0 (Bval m1 m2 a b)) (Fin log2_e)) (seq 0 (n + 1))) (seq 0 (n + 1))).
  { rewrite map_map. apply map_ext. intros a. now rewrite map_map. }
  rewrite EL. reflexivity.
Qed.
(** what a successful call tells about the arguments *)
Lemma BC_ok_inv m1 m2 n j1 j2 wd b : BiCumulants m1 m2 n j1 j2 wd = Ok b ->
  mq_formalism m1 = mq_formalism m2 /\ nj_equal (mq_nj m1) (mq_nj m2) = Ok true.
Proof.
  unfold BiCumulants. destruct (formalism_eqb _ _) eqn:E; [|discriminate]. cbn [assert_ bind].
  destruct (nj_equal _ _) as [[|]|]; try discriminate. intros _. split; trivial. now apply formalism_eqb_eq.
Qed.
Lemma b2_map (F : nat -> nat -> xr) n a b : (a <= n)%nat -> (b <= n)%nat ->
  b2 (map (fun a => map (F a) (seq 0 (n + 1))) (seq 0 (n + 1))) a b = F a b.
Proof.
  intros Ha Hb. unfold b2. rewrite (nth_map_lt _ _ _ 0%nat) by (rewrite seq_length; lia).
  rewrite (nth_map_lt _ _ _ 0%nat) by (rewrite seq_length; lia). rewrite !seq_nth by lia. reflexivity.
Qed.
Lemma b1_map (F : Z -> xr) g j : In j (one_to g) -> b1 (map F (one_to g)) j = F j.
Proof.
  intros Hj. apply one_to_In in Hj. unfold b1.
  rewrite (nth_map_lt _ _ _ 0%Z) by (unfold one_to; rewrite map_length, seq_length; lia).
  unfold one_to. rewrite (nth_map_lt _ _ _ 0%nat) by (rewrite seq_length; lia). rewrite seq_nth by lia. f_equal. lia.
Qed.
Lemma b3_map (F : nat -> nat -> Z -> xr) n g a b j : (a <= n)%nat -> (b <= n)%nat -> In j (one_to g) ->
  b3 (map (fun a => map (fun b => map (F a b) (one_to g)) (seq 0 (n + 1))) (seq 0 (n + 1))) a b j = F a b j.
Proof.
  intros Ha Hb Hj. unfold b3. rewrite (nth_map_lt _ _ _ 0%nat) by (rewrite seq_length; lia).
  rewrite (nth_map_lt _ _ _ 0%nat) by (rewrite seq_length; lia). rewrite !seq_nth by lia. now apply (b1_map (F a b)).
Qed.
Lemma nth2_map (F : nat -> nat -> col) n a b : (a <= n)%nat -> (b <= n)%nat ->
  nth b (nth a (map (fun a => map (F a) (seq 0 (n + 1))) (seq 0 (n + 1))) []) [] = F a b.
Proof.
  intros Ha Hb. rewrite (nth_map_lt _ _ _ 0%nat) by (rewrite seq_length; lia).
  rewrite (nth_map_lt _ _ _ 0%nat) by (rewrite seq_length; lia). rewrite !seq_nth by lia. reflexivity.
Qed.

(** ** the values *)
Lemma bi_moment_eq c1 c2 a b : length c1 = length c2 -> no_inf c1 -> no_inf c2 -> joint c1 c2 <> [] -> pairs_nonzero (joint c1 c2) ->
  bi_moment (lnc c1) (lnc c2) a b = Fin (pmean (fun x => x ^ a) (fun y => y ^ b) (log_pairs (joint c1 c2))).
Proof.
  intros L N1 N2 Hne Hz. unfold bi_moment, lnc. rewrite !fast_power_map, !map_map.
  rewrite (mean_prod_joint (fun x => fp1 (PyFloat (INR a)) (xln (xabs x))) (fun x => fp1 (PyFloat (INR b)) (xln (xabs x)))
     (fun x => ln (Rabs x) ^ a) (fun x => ln (Rabs x) ^ b)); trivial.
  - unfold pmean, log_pairs. rewrite map_map. cbn [fst snd]. destruct (joint c1 c2); [congruence|reflexivity].
  - cbn. apply fp1_NaN.
  - cbn. apply fp1_NaN.
  - intros u v Huv. unfold pairs_nonzero in Hz. rewrite Forall_forall in Hz. destruct (Hz _ Huv) as [Z1 Z2]. cbn [fst snd] in *. cbn [xabs].
    rewrite !xln_pos by (now apply Rabs_pos_lt). now rewrite !fp1_nat.
Qed.
Lemma bi_row (mom : nat -> xr) (mu0 : nat -> R) k : (1 <= k)%nat -> (forall i, (1 <= i <= k)%nat -> mom i = Fin (mu0 i)) ->
  nth (k - 1) (cum_list mom k) NaN = Fin (kappa mu0 k).
Proof.
  intros Hk H. rewrite (cum_list_eq _ mu0) by trivial. unfold fin.
  rewrite (nth_map_lt _ _ _ 0) by (rewrite kap_length; lia). f_equal.
Qed.
Lemma pmean_left l k : pmean (fun x => x ^ k) (fun y => y ^ 0) l = mu (map fst l) k.
Proof. unfold pmean, mu. rewrite map_map. apply mean_ext. intros. simpl. ring. Qed.
Lemma pmean_right l k : pmean (fun x => x ^ 0) (fun y => y ^ k) l = mu (map snd l) k.
Proof. unfold pmean, mu. rewrite map_map. apply mean_ext. intros. simpl. ring. Qed.
Lemma cov_eq l : l <> [] -> cov l = pmean (fun x => x ^ 1) (fun y => y ^ 1) l - mu (map fst l) 1 * mu (map snd l) 1.
Proof.
  intros H. assert (Hn := INR_len_pos l H). unfold cov, pmean.
  assert (M : forall f : R * R -> R, mean (map f l) = mu (map f l) 1).
  { intros f. unfold mu. rewrite map_map. apply mean_ext. intros. ring. }
  rewrite (M fst), (M snd). set (A := mu (map fst l) 1). set (B := mu (map snd l) 1).
  rewrite (mean_ext _ (fun p => (fst p ^ 1 * snd p ^ 1 + ((- B) * fst p)) + ((- A) * snd p + A * B))) by (intros; ring).
  rewrite (mean_plus (fun p => fst p ^ 1 * snd p ^ 1 + (- B) * fst p) (fun p => (- A) * snd p + A * B)).
  rewrite (mean_plus (fun p : R * R => fst p ^ 1 * snd p ^ 1) (fun p => (- B) * fst p)), (mean_plus (fun p : R * R => (- A) * snd p) (fun _ => A * B)).
  rewrite !mean_scal, mean_const by trivial. rewrite (M fst), (M snd). fold A B. ring.
Qed.
Section Values.
Variables (m1 m2 : mrq) (j : Z).
Hypothesis HA : aligned m1 m2 j.
Hypothesis Hne : pairs m1 m2 j <> [].
Hypothesis Hz : pairs_nonzero (pairs m1 m2 j).
Let l := log_pairs (pairs m1 m2 j).
Lemma mom_eq a b : bi_moment (lnc (column m1 j 0)) (lnc (column m2 j 0)) a b = Fin (pmean (fun x => x ^ a) (fun y => y ^ b) l).
Proof. destruct HA as (L & N1 & N2). now apply bi_moment_eq. Qed.
Lemma Bval_left k : (1 <= k)%nat -> Bval m1 m2 k 0 j = Fin (kappa (mu (map fst l)) k).
Proof.
  intros Hk. unfold Bval, bi_value. destruct k as [|[|k]]; [lia| |]; (apply bi_row; [lia|]; intros i Hi; rewrite mom_eq; f_equal; apply pmean_left).
Qed.
Lemma Bval_right k : (1 <= k)%nat -> Bval m1 m2 0 k j = Fin (kappa (mu (map snd l)) k).
Proof.
  intros Hk. unfold Bval, bi_value. destruct k as [|k]; [lia|]. apply bi_row; [lia|]; intros i Hi; rewrite mom_eq; f_equal; apply pmean_right.
Qed.
Lemma l_ne : l <> [].
Proof. unfold l, log_pairs. destruct (pairs m1 m2 j); [congruence|discriminate]. Qed.
Lemma Bval_11 : Bval m1 m2 1 1 j = Fin (cov l).
Proof.
  assert (A := Bval_left 1 (Nat.le_refl _)). assert (B := Bval_right 1 (Nat.le_refl _)).
  unfold Bval, bi_value in *. cbn [Nat.sub] in *. rewrite A, B, mom_eq, !kappa_1. cbn [xmul xsub xadd xopp]. f_equal.
  rewrite cov_eq by (apply l_ne). ring.
Qed.
Lemma Bval_other a b : (1 <= a)%nat -> (1 <= b)%nat -> (a, b) <> (1, 1)%nat -> Bval m1 m2 a b j = Fin 0.
Proof.
  intros Ha Hb N. unfold Bval, bi_value. destruct a as [|[|a]]; [lia| |]; destruct b as [|[|b]]; try lia; try reflexivity. congruence.
Qed.
End Values.

(** ** BiStructureFunction in closed form *)
Definition Sval (f : xr -> xr) (m1 m2 : mrq) (a b : pynum) (j : Z) : xr :=
  match mean_prod (fast_power (map f (column m1 j 0)) a) (fast_power (map f (column m2 j 0)) b) with Ok v => v | Err _ => NaN end.
Definition logSval (m1 m2 : mrq) (a b : pynum) (j : Z) : xr := xlog2 (Sval xabs m1 m2 a b j).
Definition Stable (f : xr -> xr) (m1 m2 : mrq) (g : nat) (q1 q2 : qarg) : list (list col) :=
  map (fun a => map (fun b => map (Sval f m1 m2 a b) (one_to g)) (q_items q2)) (q_items q1).
Lemma fast_power_length c e : length (fast_power c e) = length c.
Proof. rewrite fast_power_map. apply map_length. Qed.
Lemma table_eq f m1 m2 g q1 q2 : regular m1 g 1 -> regular m2 g 1 ->
  (forall j, In j (one_to g) -> length (column m1 j 0) = length (column m2 j 0)) ->
  mapM (fun a => mapM (fun b => mapM (fun j =>
     '(x, y) <- both m1 m2 j ;; mean_prod (fast_power (map f x) a) (fast_power (map f y) b)) (one_to g))
     (q_items q2)) (q_items q1) = Ok (Stable f m1 m2 g q1 q2).
Proof.
  intros R1 R2 HL. unfold Stable. apply mapM_map_ok. intros a _. apply mapM_map_ok. intros b _. apply mapM_map_ok. intros j Hj.
  rewrite (both_eq m1 m2 g j R1 R2 Hj). cbn [bind]. unfold Sval, mean_prod.
  rewrite bcast_eq by (rewrite !fast_power_length, !map_length; auto). reflexivity.
Qed.
Lemma BS_eq m1 m2 g q1 q2 j1 j2 wd : regular m1 g 1 -> regular m2 g 1 -> (1 <= j1)%Z -> (j1 <= j2)%Z -> (j2 <= Z.of_nat g)%Z ->
  mq_formalism m1 = mq_formalism m2 -> mq_gamint m1 = mq_gamint m2 -> nj_equal (mq_nj m1) (mq_nj m2) = Ok true ->
  (forall j, In j (one_to g) -> length (column m1 j 0) = length (column m2 j 0)) ->
  BiStructureFunction m1 m2 j1 j2 (Some q1) (Some q2) wd =
    coh <- bi_coherence q1 q2 (Stable (fun x => x) m1 m2 g q1 q2) ;;
    Ok (mkBiSF (mq_formalism m1) (mq_gamint m1) (mq_nj m1) (one_to g)
          (map (fun a => map (fun b => map (logSval m1 m2 a b) (one_to g)) (q_items q2)) (q_items q1))
          (map (fun a => map (fun b => fslope wd m1 j1 j2 0 (logSval m1 m2 a b)) (q_items q2)) (q_items q1))
          (map (fun a => map (fun b => ficept wd m1 j1 j2 0 (logSval m1 m2 a b)) (q_items q2)) (q_items q1)) coh).
Proof.
  intros R1 R2 H1 H2 H3 HF HG HN HL. unfold BiStructureFunction.
  rewrite (proj2 (formalism_eqb_eq _ _) HF). cbn [assert_ bind]. destruct (Req_EM_T _ _) as [_|]; [|contradiction].
  cbn [assert_ bind]. rewrite HN. cbn [bind assert_].
  replace (dict_keys (mq_values m1)) with (one_to g) by (symmetry; apply R1). cbv zeta.
  rewrite (table_eq (fun x => x) m1 m2 g q1 q2 R1 R2 HL). cbn [bind].
  rewrite (table_eq xabs m1 m2 g q1 q2 R1 R2 HL). cbn [bind].
  destruct (bi_coherence _ _ _) as [coh|e]; [|reflexivity]. cbn [bind].
  assert (EL : map (map (map xlog2)) (Stable xabs m1 m2 g q1 q2)
    = map (fun a => map (fun b => map (logSval m1 m2 a b) (one_to g)) (q_items q2)) (q_items q1)).
  { unfold Stable. rewrite map_map. apply map_ext. intros a. rewrite map_map. apply map_ext. intros b. now rewrite map_map. }
  rewrite EL, (fits_eq m1 g (logSval m1 m2)) by trivial. cbn [bind].
  assert (EM : forall (Y : Type) (f : xr * xr -> Y), map (map f) (map (fun a => map (fun b => (fslope wd m1 j1 j2 0 (logSval m1 m2 a b), ficept wd m1 j1 j2 0 (logSval m1 m2 a b)))
     (q_items q2)) (q_items q1))
     = map (fun a => map (fun b => f (fslope wd m1 j1 j2 0 (logSval m1 m2 a b), ficept wd m1 j1 j2 0 (logSval m1 m2 a b))) (q_items q2)) (q_items q1)).
  { intros Y f. rewrite map_map. apply map_ext. intros a. now rewrite map_map. }
  rewrite !EM. reflexivity.
Qed.
Lemma BS_ok_inv m1 m2 q1 q2 j1 j2 wd s : BiStructureFunction m1 m2 j1 j2 q1 q2 wd = Ok s ->
  mq_formalism m1 = mq_formalism m2 /\ mq_gamint m1 = mq_gamint m2 /\ nj_equal (mq_nj m1) (mq_nj m2) = Ok true /\
  exists a b, q1 = Some a /\ q2 = Some b.
Proof.
  unfold BiStructureFunction. destruct (formalism_eqb _ _) eqn:E; [|discriminate]. cbn [assert_ bind].
  destruct (Req_EM_T _ _) as [G|]; [|discriminate]. cbn [assert_ bind].
  destruct (nj_equal _ _) as [[|]|]; try discriminate. cbn [assert_ bind]. destruct q1, q2; try discriminate.
  intros _. split; [now apply formalism_eqb_eq|]. split; [exact G|]. split; [reflexivity|]. eauto.
Qed.

(** ** selections by masks *)
Lemma positions_In v q i : In i (positions v q) <-> (i < length q)%nat /\ nth i q 0 = v.
Proof.
  unfold positions. rewrite filter_In, in_seq. destruct (Req_EM_T (nth i q 0) v); split; intros [A B]; split; try lia; trivial; try discriminate; contradiction.
Qed.
Lemma select2_In {A} (d : A) q1 q2 a b table l x : select2 d q1 q2 a b table = Ok l -> In x l ->
  exists i k, (i < length q1)%nat /\ nth i q1 0 = a /\ (k < length q2)%nat /\ nth k q2 0 = b /\ x = nth k (nth i table []) d.
Proof.
  unfold select2. intros E I.
  assert (P1 := positions_In a q1). assert (P2 := positions_In b q2).
  set (L1 := positions a q1) in *. set (L2 := positions b q2) in *. clearbody L1 L2.
  assert (G : exists i k, In i L1 /\ In k L2 /\ x = nth k (nth i table []) d).
  { assert (M : forall u v, In x (map2 (fun i k => nth k (nth i table []) d) u v) -> exists i k, In i u /\ In k v /\ x = nth k (nth i table []) d).
    { intros u v H. unfold map2 in H. apply in_map_iff in H as ([i k] & <- & H). exists i, k.
      split; [now apply in_combine_l in H|]. split; [now apply in_combine_r in H|reflexivity]. }
    destruct L1 as [|i [|i' L1]]; [destruct L2 as [|k [|k' L2]]| |destruct L2 as [|k [|k' L2]]]; cbn [length Nat.eqb] in E; try discriminate.
    - injection E as <-. destruct I.
    - injection E as <-. destruct I.
    - injection E as <-. apply in_map_iff in I as (k & <- & Hk). exists i, k. split; [now left|auto].
    - injection E as <-. apply (in_map_iff (fun i => nth k (nth i table []) d) (i :: i' :: L1)) in I as (i0 & <- & Hi). exists i0, k. split; [exact Hi|]. split; [now left|reflexivity].
    - destruct (Nat.eqb (length L1) (length L2)); [|discriminate]. injection E as <-. now apply M. }
  destruct G as (i & k & Hi & Hk & ->). apply P1 in Hi as [? ?]. apply P2 in Hk as [? ?]. exists i, k. auto.
Qed.
Lemma Stable_nth f m1 m2 g a b i k : (i < length a)%nat -> (k < length b)%nat ->
  nth k (nth i (Stable f m1 m2 g (QArr a) (QArr b)) []) [] = map (Sval f m1 m2 (PyFloat (nth i a 0)) (PyFloat (nth k b 0))) (one_to g).
Proof.
  intros Hi Hk. unfold Stable. cbn [q_items]. rewrite (nth_map_lt _ _ _ (PyFloat 0)) by (now rewrite map_length).
  rewrite (nth_map_lt _ _ _ (PyFloat 0)) by (now rewrite map_length).
  now rewrite (nth_map_lt PyFloat a i 0), (nth_map_lt PyFloat b k 0) by trivial.
Qed.
Lemma coherence_eq m1 m2 g a b coh : bi_coherence (QArr a) (QArr b) (Stable (fun x => x) m1 m2 g (QArr a) (QArr b)) = Ok coh ->
  let S u v := Sval (fun x => x) m1 m2 (PyFloat u) (PyFloat v) in
  coh = map (fun j => xdiv (S 1 1 j) (xsqrt (xmul (S 2 0 j) (S 0 2 j)))) (one_to g).
Proof.
  intros E S. unfold bi_coherence in E. set (T := Stable _ _ _ _ _ _) in *.
  destruct (select2 [] a b 1 1 T) as [r11|] eqn:E1; [|discriminate]. cbn [bind] in E.
  destruct r11 as [|v11 r11]; [discriminate|]. cbn [first_row bind] in E.
  destruct (select2 [] a b 2 0 T) as [v20|] eqn:E2; [|discriminate]. cbn [bind] in E.
  destruct (select2 [] a b 0 2 T) as [v02|] eqn:E3; [|discriminate]. cbn [bind] in E.
  unfold first_product in E. destruct (_ || _ || _)%bool; [|discriminate].
  destruct v20 as [|x v20]; [discriminate|]. cbn [first_row bind] in E. destruct v02 as [|y v02]; [discriminate|]. cbn [first_row bind] in E.
  injection E as <-.
  destruct (select2_In _ _ _ _ _ _ _ v11 E1 (or_introl eq_refl)) as (i & k & Hi & Qi & Hk & Qk & ->).
  destruct (select2_In _ _ _ _ _ _ _ x E2 (or_introl eq_refl)) as (i' & k' & Hi' & Qi' & Hk' & Qk' & ->).
  destruct (select2_In _ _ _ _ _ _ _ y E3 (or_introl eq_refl)) as (i2 & k2 & Hi2 & Qi2 & Hk2 & Qk2 & ->).
  unfold T. rewrite !Stable_nth by trivial. rewrite Qi, Qk, Qi', Qk', Qi2, Qk2.
  rewrite !map2_map, !map2_diag, map2_map, map2_diag. reflexivity.
Qed.
Lemma positions_one v q : NoDup q -> In v q -> exists i, positions v q = [i].
Proof.
  intros N I. apply (In_nth _ _ 0) in I as (i & Hi & E). exists i.
  assert (P : forall k, In k (positions v q) -> k = i).
  { intros k Hk. apply positions_In in Hk as [A B]. rewrite <- E in B. now apply (proj1 (NoDup_nth q 0) N). }
  assert (Ii : In i (positions v q)) by (apply positions_In; auto).
  assert (ND : NoDup (positions v q)) by (apply NoDup_filter, seq_NoDup).
  destruct (positions v q) as [|k [|k' l]].
  - destruct Ii.
  - now rewrite (P k (or_introl eq_refl)).
  - rewrite (P k (or_introl eq_refl)), (P k' (or_intror (or_introl eq_refl))) in ND. inversion ND as [|? ? X]; subst. exfalso. apply X. now left.
Qed.
Lemma positions_none v q : ~ In v q -> positions v q = [].
Proof.
  intros N. destruct (positions v q) as [|i l] eqn:E; trivial. exfalso. apply N.
  assert (I : In i (positions v q)) by (rewrite E; now left). apply positions_In in I as [A <-]. now apply nth_In.
Qed.
Lemma positions_le1 v q : NoDup q -> positions v q = [] \/ exists i, positions v q = [i].
Proof. intros N. destruct (in_dec Req_EM_T v q); [right; now apply positions_one|left; now apply positions_none]. Qed.
Lemma select2_cases {A} (d : A) q1 q2 a b table : NoDup q1 -> NoDup q2 ->
  (In a q1 /\ In b q2 /\ exists x, select2 d q1 q2 a b table = Ok [x]) \/
  (~ (In a q1 /\ In b q2) /\ select2 d q1 q2 a b table = Ok []).
Proof.
  intros N1 N2. unfold select2.
  destruct (in_dec Req_EM_T a q1) as [I1|I1]; [destruct (positions_one a q1 N1 I1) as [i ->]|rewrite (positions_none a q1 I1)];
  (destruct (in_dec Req_EM_T b q2) as [I2|I2]; [destruct (positions_one b q2 N2 I2) as [k ->]|rewrite (positions_none b q2 I2)]).
  - left. split; trivial. split; trivial. eexists. reflexivity.
  - right. split; [tauto|reflexivity].
  - right. split; [tauto|reflexivity].
  - right. split; [tauto|reflexivity].
Qed.
Lemma coherence_cases a b T : NoDup a -> NoDup b ->
  (In 0 a /\ In 1 a /\ In 2 a /\ In 0 b /\ In 1 b /\ In 2 b /\ exists c, bi_coherence (QArr a) (QArr b) T = Ok c) \/
  (~ (In 0 a /\ In 1 a /\ In 2 a /\ In 0 b /\ In 1 b /\ In 2 b) /\ bi_coherence (QArr a) (QArr b) T = Err IndexError).
Proof.
  intros N1 N2. unfold bi_coherence.
  destruct (select2_cases [] a b 1 1 T N1 N2) as [(A1 & B1 & x & ->)|(X1 & ->)]; cbn [bind first_row]; [|right; split; [tauto|reflexivity]].
  destruct (select2_cases [] a b 2 0 T N1 N2) as [(A2 & B2 & y & ->)|(X2 & ->)]; cbn [bind first_row];
  (destruct (select2_cases [] a b 0 2 T N1 N2) as [(A3 & B3 & z & ->)|(X3 & ->)]; cbn [bind first_row]; unfold first_product; cbn [length Nat.eqb orb first_row bind]).
  - left. repeat (split; trivial). eexists. reflexivity.
  - right. split; [tauto|reflexivity].
  - right. split; [tauto|reflexivity].
  - right. split; [tauto|reflexivity].
Qed.

(** ** the values of the joint moments *)
Lemma Sval_signed m1 m2 j a b : aligned m1 m2 j ->
  Sval (fun x => x) m1 m2 (PyFloat (INR a)) (PyFloat (INR b)) j =
  match pairs m1 m2 j with [] => NaN | l => Fin (pmean (fun x => x ^ a) (fun y => y ^ b) l) end.
Proof.
  intros (L & N1 & N2). unfold Sval, pairs. rewrite !map_id, !fast_power_map.
  rewrite (mean_prod_joint _ _ (fun x => x ^ a) (fun x => x ^ b)); trivial; try apply fp1_NaN.
  - destruct (joint _ _); reflexivity.
  - intros. now rewrite !fp1_nat.
Qed.
Lemma Sval_abs m1 m2 j p q : aligned m1 m2 j -> pairs m1 m2 j <> [] -> pairs_defined (num_val p) (num_val q) (pairs m1 m2 j) ->
  Sval xabs m1 m2 p q j = Fin (jmoment (num_val p) (num_val q) (pairs m1 m2 j)).
Proof.
  intros (L & N1 & N2) Hne D. unfold Sval, pairs in *. rewrite !fast_power_map, !map_map.
  rewrite (mean_prod_joint _ _ (qpow (num_val p)) (qpow (num_val q))); trivial; try (cbn [xabs]; apply fp1_NaN).
  - unfold jmoment. destruct (joint _ _); [congruence|reflexivity].
  - intros a b I. unfold pairs_defined in D. rewrite Forall_forall in D. destruct (D _ I) as [Da Db]. cbn [fst snd] in *. cbn [xabs].
    now rewrite !fp1_qpow.
Qed.

(** ** moments with one order 0, when the NaN agree *)
Lemma map_isnan_lnc c : map isnan (lnc c) = map isnan c.
Proof. unfold lnc. rewrite !map_map. apply map_ext. intros. apply isnan_lnabs. Qed.
Lemma map_isnan_abs c : map isnan (map xabs c) = map isnan c.
Proof. rewrite map_map. apply map_ext. now intros []. Qed.
Lemma mean_prod_pow0 x y e : map isnan x = map isnan y ->
  mean_prod (fast_power x e) (fast_power y (PyFloat 0)) = Ok (nanmean (fast_power x e)) /\
  mean_prod (fast_power y (PyFloat 0)) (fast_power x e) = Ok (nanmean (fast_power x e)).
Proof.
  intros H. unfold mean_prod. assert (L : length x = length y) by (apply (f_equal (@length _)) in H; now rewrite !map_length in H).
  rewrite !bcast_eq by (now rewrite !fast_power_length). cbn [bind]. rewrite !fast_power_map.
  assert (K := map2_pow0_r (fp1 e) (fp1 (PyFloat (INR 0))) x y H (fp1_NaN _) (fp1_NaN _) fp1_0_any). change (INR 0) with 0 in K.
  split; f_equal; f_equal; [exact K|]. etransitivity; [|exact K]. clear.
  revert y. induction x as [|a x IH]; intros [|b y]; trivial. cbn [map]. rewrite !map2_cons, IH. f_equal. apply xmul_comm.
Qed.
Lemma bi_moment_left c1 c2 i : map isnan c1 = map isnan c2 -> bi_moment (lnc c1) (lnc c2) i 0 = log_moment c1 i.
Proof.
  intros H. unfold bi_moment. change (INR 0) with 0.
  now rewrite (proj1 (mean_prod_pow0 (lnc c1) (lnc c2) (PyFloat (INR i)) ltac:(now rewrite !map_isnan_lnc))).
Qed.
Lemma bi_moment_right c1 c2 i : map isnan c1 = map isnan c2 -> bi_moment (lnc c1) (lnc c2) 0 i = log_moment c2 i.
Proof.
  intros H. unfold bi_moment. change (INR 0) with 0.
  now rewrite (proj2 (mean_prod_pow0 (lnc c2) (lnc c1) (PyFloat (INR i)) ltac:(rewrite !map_isnan_lnc; now symmetry))).
Qed.
Lemma cum_list_length mom n : length (cum_list mom n) = n.
Proof. induction n; cbn [cum_list]; trivial. rewrite app_length, IHn. cbn. lia. Qed.
Lemma cum_list_prefix mom n k : (1 <= k <= n)%nat -> nth (k - 1) (cum_list mom n) NaN = nth (k - 1) (cum_list mom k) NaN.
Proof.
  induction n; intros Hk; [lia|]. destruct (Nat.eq_dec k (S n)) as [->|]; [reflexivity|].
  cbn [cum_list]. rewrite app_nth1 by (rewrite cum_list_length; lia). apply IHn. lia.
Qed.
Lemma cum_list_ext mom mom' n : (forall i, mom i = mom' i) -> cum_list mom n = cum_list mom' n.
Proof.
  intros H. induction n; cbn [cum_list]; trivial. rewrite IHn. f_equal. f_equal. unfold cum_step, cum_aux. rewrite H.
  destruct (Nat.eqb _ _); trivial. f_equal. generalize (Fin 0). induction (seq 1 (S n - 1)) as [|a l IH]; cbn [fold_left]; trivial.
  intros x. rewrite IH, H. reflexivity.
Qed.
Lemma Bval_left_uni m1 m2 n k j : (1 <= k <= n)%nat -> same_nans m1 m2 j -> Bval m1 m2 k 0 j = Cval m1 n k 0 j.
Proof.
  intros Hk S. unfold Cval, cum_value. rewrite cum_list_prefix by trivial.
  rewrite (cum_list_ext (log_moment (column m1 j 0)) (fun i => bi_moment (lnc (column m1 j 0)) (lnc (column m2 j 0)) i 0)).
  - unfold Bval, bi_value. destruct k as [|[|k]]; [lia|reflexivity|reflexivity].
  - intros i. symmetry. now apply bi_moment_left.
Qed.
Lemma Bval_right_uni m1 m2 n k j : (1 <= k <= n)%nat -> same_nans m1 m2 j -> Bval m1 m2 0 k j = Cval m2 n k 0 j.
Proof.
  intros Hk S. unfold Cval, cum_value. rewrite cum_list_prefix by trivial.
  rewrite (cum_list_ext (log_moment (column m2 j 0)) (fun i => bi_moment (lnc (column m1 j 0)) (lnc (column m2 j 0)) 0 i)).
  - unfold Bval, bi_value. destruct k as [|k]; [lia|reflexivity].
  - intros i. symmetry. now apply bi_moment_right.
Qed.
(** equal counts *)
Lemma counts_eq_true v w : counts_eq v w = Ok true -> exists a, v = [a] /\ w = [a].
Proof.
  unfold counts_eq. destruct v as [|a [|a' v]]; try discriminate; [|destruct w as [|? [|]]; try discriminate; destruct (Nat.eqb _ _); discriminate].
  destruct w as [|b [|]]; try discriminate. intros H. injection H as H. apply Nat.eqb_eq in H. subst. eauto.
Qed.
Lemma nj_equal_counts m1 m2 : nj_equal (mq_nj m1) (mq_nj m2) = Ok true ->
  forall j, In j (dict_keys (mq_nj m1)) -> count m1 j 0 = count m2 j 0.
Proof.
  unfold nj_equal, count. destruct (Nat.eqb _ _); [|discriminate]. generalize (mq_nj m2) as d2. generalize (mq_nj m1) as d1.
  induction d1 as [|[k v] d1 IH]; cbn [nj_loop dict_keys map fst In]; intros d2 E j; [tauto|].
  destruct (dict_get d2 k) as [w|] eqn:G; [|discriminate]. destruct (counts_eq v w) as [[|]|] eqn:CE; try discriminate. cbn [bind] in E.
  apply counts_eq_true in CE as (a & -> & ->). cbn [dict_get]. intros H. destruct (Z.eqb_spec j k) as [->|N]; [now rewrite G|].
  destruct H as [H|H]; [congruence|]. now apply IH.
Qed.

(** ** exchange of the arguments *)
Lemma map2_comm x : forall y, map2 xmul x y = map2 xmul y x.
Proof. induction x as [|a x IH]; intros [|b y]; trivial. rewrite !map2_cons, IH. f_equal. apply xmul_comm. Qed.
Lemma mean_prod_comm x y : length x = length y -> mean_prod x y = mean_prod y x.
Proof. intros H. unfold mean_prod. rewrite !bcast_eq by auto. now rewrite map2_comm. Qed.
Lemma Bval_swap m1 m2 a b j : length (column m1 j 0) = length (column m2 j 0) -> Bval m2 m1 b a j = Bval m1 m2 a b j.
Proof.
  intros L.
  assert (M : forall u v, bi_moment (lnc (column m2 j 0)) (lnc (column m1 j 0)) u v = bi_moment (lnc (column m1 j 0)) (lnc (column m2 j 0)) v u).
  { intros u v. unfold bi_moment. rewrite mean_prod_comm; trivial. rewrite !fast_power_length. unfold lnc. now rewrite !map_length. }
  unfold Bval, bi_value.
  set (A := bi_moment (lnc (column m2 j 0)) (lnc (column m1 j 0))) in *. set (B := bi_moment (lnc (column m1 j 0)) (lnc (column m2 j 0))) in *.
  assert (E1 : forall k, cum_list (fun i => A 0%nat i) k = cum_list (fun i => B i 0%nat) k) by (intros; apply cum_list_ext; intros; apply M).
  assert (E2 : forall k, cum_list (fun i => A i 0%nat) k = cum_list (fun i => B 0%nat i) k) by (intros; apply cum_list_ext; intros; apply M).
  destruct a as [|[|a]], b as [|[|b]]; trivial; rewrite ?E1, ?E2, ?M; trivial. f_equal. apply xmul_comm.
Qed.
Lemma Sval_swap f m1 m2 a b j : length (column m1 j 0) = length (column m2 j 0) -> Sval f m2 m1 b a j = Sval f m1 m2 a b j.
Proof. intros L. unfold Sval. rewrite mean_prod_comm; trivial. rewrite !fast_power_length, !map_length. auto. Qed.
Lemma nj_equal_sym m1 m2 g : regular m1 g 1 -> regular m2 g 1 -> counted m1 -> counted m2 ->
  nj_equal (mq_nj m1) (mq_nj m2) = Ok true -> nj_equal (mq_nj m2) (mq_nj m1) = Ok true.
Proof.
  intros R1 R2 C1 C2. rewrite !(nj_equal_ok _ _ g) by trivial. intros H. injection H as H. f_equal. rewrite <- H.
  clear. induction (one_to g); cbn [forallb]; trivial. rewrite IHl. f_equal. apply Nat.eqb_sym.
Qed.

(** ** Hoelder for joint moments *)
Lemma abs_pow_0 e : abs_pow 0 e = 0.
Proof. unfold abs_pow. destruct (Req_EM_T 0 0); [reflexivity|congruence]. Qed.
Lemma abs_pow_mult a b e : abs_pow (a * b) e = abs_pow a e * abs_pow b e.
Proof.
  unfold abs_pow. destruct (Req_EM_T a 0) as [->|Na]; [rewrite Rmult_0_l; destruct (Req_EM_T 0 0); [ring|congruence]|].
  destruct (Req_EM_T b 0) as [->|Nb]; [rewrite Rmult_0_r; destruct (Req_EM_T 0 0); [ring|congruence]|].
  destruct (Req_EM_T (a * b) 0) as [Z|_]; [apply Rmult_integral in Z; tauto|].
  rewrite Rabs_mult, ln_mult by (now apply Rabs_pos_lt). rewrite <- exp_plus. f_equal. ring.
Qed.
Lemma abs_pow_nonneg a e : 0 <= abs_pow a e.
Proof. unfold abs_pow. destruct (Req_EM_T a 0); [lra|left; apply exp_pos]. Qed.
Lemma young a b t : 0 <= a -> 0 <= b -> 0 < t < 1 -> abs_pow a t * abs_pow b (1 - t) <= t * a + (1 - t) * b.
Proof.
  intros Ha Hb Ht. unfold abs_pow. destruct (Req_EM_T a 0) as [->|Na]; [assert (0 <= (1 - t) * b) by (apply Rmult_le_pos; lra); lra|].
  destruct (Req_EM_T b 0) as [->|Nb]; [assert (0 <= t * a) by (apply Rmult_le_pos; lra); lra|].
  rewrite !Rabs_pos_eq by trivial. rewrite <- exp_plus. apply am_gm; lra.
Qed.
Lemma qpow_interp_eq p1 p2 t a : 0 < t < 1 -> (0 <= p1 \/ a <> 0) -> (0 <= p2 \/ a <> 0) ->
  qpow (t * p1 + (1 - t) * p2) a = abs_pow (qpow p1 a) t * abs_pow (qpow p2 a) (1 - t).
Proof.
  intros Ht D1 D2.
  assert (One : forall e, abs_pow 1 e = 1).
  { intros e. unfold abs_pow. destruct (Req_EM_T 1 0); [lra|]. rewrite Rabs_R1, ln_1, Rmult_0_r. apply exp_0. }
  destruct (Req_dec a 0) as [->|Na].
  - destruct D1 as [D1|]; [|congruence]. destruct D2 as [D2|]; [|congruence].
    assert (P1 : 0 <= t * p1) by (apply Rmult_le_pos; lra). assert (P2 : 0 <= (1 - t) * p2) by (apply Rmult_le_pos; lra).
    unfold qpow. rewrite !abs_pow_0.
    destruct (Req_EM_T p1 0) as [->|N1]; destruct (Req_EM_T p2 0) as [->|N2]; rewrite ?abs_pow_0, ?One.
    + destruct (Req_EM_T _ 0) as [|N]; [ring|exfalso; apply N; ring].
    + assert (0 < (1 - t) * p2) by (apply Rmult_lt_0_compat; lra). destruct (Req_EM_T _ 0); [lra|ring].
    + assert (0 < t * p1) by (apply Rmult_lt_0_compat; lra). destruct (Req_EM_T _ 0); [lra|ring].
    + assert (0 < t * p1) by (apply Rmult_lt_0_compat; lra). destruct (Req_EM_T _ 0); [lra|ring].
  - assert (QE : forall q, qpow q a = exp (q * ln (Rabs a))).
    { intros q. unfold qpow, abs_pow. destruct (Req_EM_T q 0) as [->|]; [now rewrite Rmult_0_l, exp_0|]. destruct (Req_EM_T a 0); [congruence|reflexivity]. }
    assert (AE : forall x e, abs_pow (exp x) e = exp (e * x)).
    { intros x e. unfold abs_pow. assert (X := exp_pos x). destruct (Req_EM_T _ 0); [lra|]. now rewrite Rabs_pos_eq, ln_exp by lra. }
    rewrite !QE, !AE, <- exp_plus. f_equal. ring.
Qed.
Lemma holder_mean {A} (f g : A -> R) t l : l <> [] -> 0 < t < 1 -> (forall a, In a l -> 0 <= f a) -> (forall a, In a l -> 0 <= g a) ->
  0 < mean (map f l) -> 0 < mean (map g l) ->
  mean (map (fun a => abs_pow (f a) t * abs_pow (g a) (1 - t)) l) <= exp (t * ln (mean (map f l)) + (1 - t) * ln (mean (map g l))).
Proof.
  intros Hne Ht Pf Pg PF PG. set (F := mean (map f l)) in *. set (G := mean (map g l)) in *.
  assert (Hn := INR_len_pos l Hne).
  assert (EF : exp (t * ln F + (1 - t) * ln G) = abs_pow F t * abs_pow G (1 - t)).
  { rewrite exp_plus. unfold abs_pow. destruct (Req_EM_T F 0); [lra|]. destruct (Req_EM_T G 0); [lra|]. now rewrite !Rabs_pos_eq by lra. }
  rewrite EF. set (K := abs_pow F t * abs_pow G (1 - t)).
  assert (PK : 0 <= K) by (apply Rmult_le_pos; apply abs_pow_nonneg).
  assert (S : Rsum (map (fun a => abs_pow (f a) t * abs_pow (g a) (1 - t)) l) <= Rsum (map (fun a => K * t / F * f a + K * (1 - t) / G * g a) l)).
  { apply Rsum_map_le. intros a Ha.
    assert (IF : 0 < / F) by (now apply Rinv_0_lt_compat). assert (IG : 0 < / G) by (now apply Rinv_0_lt_compat).
    assert (Y := young (f a / F) (g a / G) t ltac:(apply Rmult_le_pos; [auto|lra]) ltac:(apply Rmult_le_pos; [auto|lra]) Ht).
    apply (Rmult_le_compat_l K) in Y; trivial.
    assert (E : K * (abs_pow (f a / F) t * abs_pow (g a / G) (1 - t)) = abs_pow (f a) t * abs_pow (g a) (1 - t)).
    { unfold K. replace (f a) with (F * (f a / F)) at 2 by (field; lra). replace (g a) with (G * (g a / G)) at 2 by (field; lra).
      rewrite !abs_pow_mult. ring. }
    rewrite E in Y. eapply Rle_trans; [exact Y|]. right. field. lra. }
  rewrite Rsum_map_plus, !Rsum_map_scal in S.
  assert (HF : Rsum (map f l) = F * INR (length l)) by (unfold F, mean; rewrite map_length; field; lra).
  assert (HG : Rsum (map g l) = G * INR (length l)) by (unfold G, mean; rewrite map_length; field; lra).
  rewrite HF, HG in S. unfold mean. rewrite map_length. apply Rmult_le_reg_r with (INR (length l)); trivial.
  unfold Rdiv. rewrite Rmult_assoc, Rinv_l, Rmult_1_r by lra. eapply Rle_trans; [exact S|]. right. field. lra.
Qed.
Lemma joint_holder p1 q1 p2 q2 t l : l <> [] -> 0 < t < 1 -> pairs_defined p1 q1 l -> pairs_defined p2 q2 l ->
  0 < jmoment p1 q1 l -> 0 < jmoment p2 q2 l ->
  jmoment (t * p1 + (1 - t) * p2) (t * q1 + (1 - t) * q2) l <= exp (t * ln (jmoment p1 q1 l) + (1 - t) * ln (jmoment p2 q2 l)).
Proof.
  intros Hne Ht D1 D2 P1 P2. unfold jmoment, pmean in *.
  assert (K := holder_mean (fun v : R * R => qpow p1 (fst v) * qpow q1 (snd v)) (fun v => qpow p2 (fst v) * qpow q2 (snd v)) t l Hne Ht
    ltac:(intros; apply Rmult_le_pos; apply qpow_nonneg) ltac:(intros; apply Rmult_le_pos; apply qpow_nonneg) P1 P2).
  eapply Rle_trans; [|exact K]. right. apply mean_ext. intros [x y] Hv. unfold pairs_defined in *. rewrite Forall_forall in D1, D2.
  destruct (D1 _ Hv) as [A1 B1]. destruct (D2 _ Hv) as [A2 B2]. cbn [fst snd] in *.
  rewrite (qpow_interp_eq p1 p2 t x), (qpow_interp_eq q1 q2 t y) by trivial. rewrite !abs_pow_mult. ring.
Qed.
