(** * C60 (mrw arguments), C71 (given noise), C72 (homogeneity), C74 (cumulants) *)
From Coq Require Import Reals List ZArith Bool Lia Lra String.
From Verif Require Import XReal PyBase ModelSimul Spec SpecSimul LXReal LBase LDft LSimul LCirc LFgn LFgnCov LNoise LMrw LChol LBivariate PropsSimul PropsChol PropsMrw.
Import ListNotations.
Open Scope R_scope.
Local Notation length := List.length.

(** mrw with 'cme', N >= 2 and L > 0: ValueError exactly when H is outside [0, 1] or L > N, else N finite samples per realisation *)
Theorem C60_mrw_arguments sh N H lam L sigma z0e z0w drawn_w drawn_e :
  shape_N sh = N -> (2 <= N)%nat -> 0 < L ->
  shaped (shape_R sh) (2 * N - 2) (nz (pick z0w drawn_w)) -> shaped (shape_R sh) (2 * N - 2) (nz drawn_e) ->
  (mrw sh H (Some lam) L sigma "cme" z0e z0w drawn_w drawn_e = Err ValueError <-> ~ (0 <= H <= 1) \/ INR N < L) /\
  (0 <= H <= 1 -> L <= INR N -> exists X, shaped (shape_R sh) N X /\
     mrw sh H (Some lam) L sigma "cme" z0e z0w drawn_w drawn_e = Ok (presented sh (map (map Fin) X))).
Proof.
  intros EN HN HL Sw Se.
  assert (Ok1 : 0 <= H <= 1 -> L <= INR N -> exists X, shaped (shape_R sh) N X /\
     mrw sh H (Some lam) L sigma "cme" z0e z0w drawn_w drawn_e = Ok (presented sh (map (map Fin) X))).
  { intros HH HLN.
    assert (Sw2 : shaped (shape_R sh) (2 * (N - 1)) (nz (pick z0w drawn_w))) by (replace (2 * (N - 1))%nat with (2 * N - 2)%nat by lia; exact Sw).
    assert (Se2 : shaped (shape_R sh) (2 * (N - 1)) (nz drawn_e)) by (replace (2 * (N - 1))%nat with (2 * N - 2)%nat by lia; exact Se).
    destruct (rho_w_eq N L 1 HL Rlt_0_1 ltac:(unfold Rdiv; rewrite Rinv_1, Rmult_1_r; exact HLN)) as [rho [E1 [E2 _]]].
    assert (Gw : exists w ww, gaussian_w N L lam 1 "cme" z0w drawn_w = Ok (w, ww)).
    { unfold gaussian_w. rewrite E1. cbn [bind String.eqb Ascii.eqb Bool.eqb andb]. eexists _, _. apply cme_eq; [trivial|now rewrite map_length|exact Sw2]. }
    destruct Gw as [w [ww Gw]].
    assert (Hst : sampling_step None N (/ INR N)) by (right; auto).
    destruct (fgn_cme_eq (SPair N (shape_R sh)) H sigma None z0e drawn_e N _ _ _ eq_refl HN Hst (proj1 HH) (proj2 HH)
      (cme_eq (fgn_cov N H sigma (/ INR N)) N HN (fgn_cov_length _ _ _ _) (shape_R sh) (nz drawn_e) Se2) (array_shaped _ _ _)) as [_ [F3 _]].
    cbn [presented] in F3. destruct (C73_mrw_values sh N H lam L sigma z0e z0w drawn_w drawn_e _ _ _ _ EN HN HH HL HLN Sw Se Gw F3) as [M [[W1 W2] [V1 V2]]].
    set (e := map (fun r => map (cme_val (fgn_cov N H sigma (/ INR N)) N (nz drawn_e) r) (seq 0 N)) (seq 0 (shape_R sh))) in *.
    exists (map2 (fun ec wc => cumsum (map2 (fun a b => a * exp b) ec (centred lam L wc))) e w). split.
    - split; [rewrite map2_length; lia|]. clear -W2 V2. revert w W2. induction e as [|x e IH]; intros [|y w] W2; try constructor.
      + assert (Lx := Forall_inv V2). assert (Ly := Forall_inv W2). cbn beta in Lx, Ly. rewrite cumsum_length, map2_length. unfold centred. rewrite map_length. cbn [fst snd]. lia.
      + apply IH; [exact (Forall_inv_tail V2)|exact (Forall_inv_tail W2)].
    - rewrite M. f_equal. f_equal. clear. revert w. induction e as [|x e IH]; intros [|y w]; try reflexivity. rewrite !map2_cons. cbn [map]. now rewrite IH. }
  split; [|exact Ok1]. split.
  - intros K. destruct (Rle_lt_dec L (INR N)) as [L1|L1]; [|now right]. left. intros HH. destruct (Ok1 HH L1) as [X [_ Q]]. congruence.
  - intros K. unfold mrw. destruct (Rle_lt_dec 0 H) as [H0|H0]; [destruct (Rle_lt_dec H 1) as [H1|H1]|]; [|now rewrite H_test_out by (intros [? ?]; lra)|now rewrite H_test_out by (intros [? ?]; lra)].
    rewrite H_test by trivial. destruct K as [K|K]; [exfalso; auto|]. rewrite EN. destruct (Rlt_dec (INR N) L); [reflexivity|contradiction].
Qed.
(** REFUTED for an unknown method: mrw raises UnboundLocalError (fgn and fbm raise ValueError) *)
Theorem C60_mrw_unknown_method_refuted sh N H lam L sigma method z0e z0w drawn_w drawn_e :
  shape_N sh = N -> 0 <= H <= 1 -> 0 < L -> L <= INR N -> method <> "cme"%string -> method <> "chol"%string ->
  mrw sh H (Some lam) L sigma method z0e z0w drawn_w drawn_e = Err UnboundLocalError.
Proof.
  intros EN HH HL HLN N1 N2. unfold mrw. rewrite H_test by lra. rewrite EN. destruct (Rlt_dec (INR N) L); [lra|].
  destruct (rho_w_eq N L 1 HL Rlt_0_1 ltac:(unfold Rdiv; rewrite Rinv_1, Rmult_1_r; exact HLN)) as [rho [E1 _]].
  unfold gaussian_w. rewrite E1. cbn [bind]. destruct (String.eqb_spec method "cme"); [contradiction|]. destruct (String.eqb_spec method "chol"); [contradiction|reflexivity].
Qed.

(** ** C71: a noise given by the caller *)
(** with method 'chol' the result of fgn and fbm depends on the given noise only *)
Theorem C71_chol_reproducible sh H sigma dt z drawn drawn' :
  fgn sh H sigma dt "chol" (Some z) drawn = fgn sh H sigma dt "chol" (Some z) drawn' /\
  fbm sh H sigma dt "chol" (Some z) drawn = fbm sh H sigma dt "chol" (Some z) drawn'.
Proof. split; reflexivity. Qed.
(** so does the log-volatility, with both methods *)
Theorem C71_w_reproducible N L lam dt method z drawn drawn' : gaussian_w N L lam dt method (Some z) drawn = gaussian_w N L lam dt method (Some z) drawn'.
Proof. reflexivity. Qed.
(** REFUTED with the default method 'cme': the given noise is never used, and the result still varies with the random draw *)
Theorem C71_cme_ignores_noise_refuted sh N H sigma dt d z0 : shape_N sh = N -> (2 <= N)%nat -> (1 <= shape_R sh)%nat -> sampling_step dt N d -> 0 < H <= 1 -> sigma <> 0 ->
  (forall z1 z2 drawn, fgn sh H sigma dt "cme" z1 drawn = fgn sh H sigma dt "cme" z2 drawn) /\
  exists drawn drawn', shaped (shape_R sh) (2 * N - 2) (nz drawn) /\ shaped (shape_R sh) (2 * N - 2) (nz drawn') /\
    fgn sh H sigma dt "cme" z0 drawn <> fgn sh H sigma dt "cme" z0 drawn'.
Proof.
  intros EN HN HR Hd HH Hs. split; [reflexivity|]. assert (d0 := proj2 (step_ok dt N d ltac:(lia) Hd)).
  assert (HK : (1 <= 2 * (shape_R sh * (2 * N - 2)))%nat) by nia. set (K := (2 * (shape_R sh * (2 * N - 2)))%nat).
  set (dr := fun w => mkNoise (cplx_noise K (shape_R sh) (2 * N - 2) w) []).
  assert (HZ : white_complex (sign_space K HK) (shape_R sh) (2 * N - 2) (fun w => nz (dr w))) by (apply cplx_noise_white).
  destruct (C61_fgn _ (sign_space K HK) sh N H sigma dt d z0 dr EN HN Hd HH HZ) as [X [A [B1 [B2 B3]]]].
  destruct (B3 0%nat 0%nat 0%nat 0%nat ltac:(lia) ltac:(lia) ltac:(lia) ltac:(lia)) as [_ V].
  destruct (Nat.eq_dec 0 0) as [_|n]; [|congruence].
  assert (V0 : fgn_covariance H sigma d 0 0 <> 0).
  { rewrite fgn_covariance_fcor by lra. cbn [Nat.max Nat.min Nat.sub fcor]. rewrite Rmult_1_r. apply Rmult_integral_contrapositive_currified; [rewrite rpow_pos by trivial; apply Rgt_not_eq, exp_pos|now apply pow_nonzero]. }
  assert (Ex : exists w w', entry 0 (X w) 0 0 <> entry 0 (X w') 0 0).
  { destruct (Classical_Prop.classic (exists w w', entry 0 (X w) 0 0 <> entry 0 (X w') 0 0)) as [|No]; [trivial|exfalso]. apply V0. rewrite <- V.
    set (c := entry 0 (X (0%nat, true)) 0 0). assert (Cn : forall w, entry 0 (X w) 0 0 = c).
    { intros w. destruct (Req_EM_T (entry 0 (X w) 0 0) c) as [|Ne]; [trivial|]. exfalso. apply No. exists w, (0%nat, true). exact Ne. }
    destruct (B2 0%nat 0%nat ltac:(lia) ltac:(lia)) as [_ M0]. unfold Cov. rewrite M0.
    assert (c0 : c = 0). { rewrite <- M0. rewrite (E_ext _ (sign_space K HK) _ (fun w => c * 1)) by (intros w; rewrite Cn; ring). rewrite (E_scal _ (sign_space K HK) c (fun _ => 1)) by exact I. rewrite (E_one _ (sign_space K HK)). ring. }
    rewrite (E_ext _ (sign_space K HK) _ (fun w => 0)) by (intros w; rewrite !Cn, c0; ring). rewrite (E_zero (sign_space K HK)). ring. }
  destruct Ex as [w [w' Ne]]. exists (dr w), (dr w'). refine (conj (proj1 HZ w) (conj (proj1 HZ w') _)). rewrite !A. intros Q. apply Ne.
  injection Q as Q. destruct (B1 w) as [L1 _], (B1 w') as [L2 _]. unfold entry. destruct sh as [n|n r]; cbn [presented] in Q; injection Q as Q.
  - destruct (X w), (X w'); cbn in L1, L2; try lia. cbn [hd nth] in *. now rewrite Q.
  - now rewrite Q.
Qed.

(** ** C72: sigma and dt only scale the result *)
Definition nd_scale (c : R) (x : nd R) : nd R :=
  match x with Arr0 a => Arr0 (c * a) | Arr1 l => Arr1 (map (Rmult c) l) | Arr2 l => Arr2 (map (map (Rmult c)) l) end.
Theorem C72_homogeneous sh N H sigma dt d z0 drawn : shape_N sh = N -> (2 <= N)%nat -> sampling_step dt N d -> 0 < H <= 1 ->
  shaped (shape_R sh) (2 * N - 2) (nz drawn) ->
  exists x b, fgn sh H 1 (Some 1) "cme" z0 drawn = Ok (x, false) /\ fbm sh H 1 (Some 1) "cme" z0 drawn = Ok (b, false) /\
    fgn sh H sigma dt "cme" z0 drawn = Ok (nd_scale (Rabs sigma * rpow d H) x, false) /\
    fbm sh H sigma dt "cme" z0 drawn = Ok (nd_scale (Rabs sigma * rpow d H) b, false).
Proof.
  intros EN HN Hd HH Sh. assert (d0 := proj2 (step_ok dt N d ltac:(lia) Hd)).
  assert (Sh2 : shaped (shape_R sh) (2 * (N - 1)) (nz drawn)) by (replace (2 * (N - 1))%nat with (2 * N - 2)%nat by lia; exact Sh).
  set (sc := Rabs sigma * rpow d H). assert (sc0 : 0 <= sc) by (unfold sc; apply Rmult_le_pos; [apply Rabs_pos|apply rpow_nonneg]).
  assert (Sq : rpow d (2 * H) * sigma ^ 2 = sc * sc).
  { unfold sc. rewrite !rpow_pos by trivial. replace (2 * H) with (H + H) by ring. rewrite Rpower_plus. replace (sigma ^ 2) with (Rabs sigma * Rabs sigma); [ring|].
    rewrite <- Rabs_mult, Rabs_pos_eq by nra. ring. }
  assert (Nw : forall s' e, 0 < e -> cme_warned (fgn_cov N H s' e) N = false).
  { intros s' e He. destruct (cme_warned (fgn_cov N H s' e) N) eqn:Ew; [|reflexivity]. apply (cme_warned_iff _ N HN (fgn_cov_length _ _ _ _)) in Ew as [k [_ Neg]].
    assert (K := fgn_cov_eig_nonneg N H s' e k HN ltac:(lra) ltac:(lra) He). lra. }
  assert (Cf : forall a i, cme_coef (fgn_cov N H sigma d) N a i = sc * cme_coef (fgn_cov N H 1 1) N a i).
  { intros a i. unfold cme_coef.
    assert (Ei : forall k, eig (N - 1) (fun i => nth i (fgn_cov N H sigma d) 0) k = (sc * sc) * eig (N - 1) (fun i => nth i (fgn_cov N H 1 1) 0) k).
    { intros k. rewrite !fgn_cov_eig by (trivial; lra). rewrite Sq, rpow_1. ring. }
    assert (Rt : forall y, sqrt ((Rabs (/ INR (2 * (N - 1)) * (sc * sc * y)) + / INR (2 * (N - 1)) * (sc * sc * y)) / 2) = sc * sqrt ((Rabs (/ INR (2 * (N - 1)) * y) + / INR (2 * (N - 1)) * y) / 2) /\
        sqrt ((Rabs (/ INR (2 * (N - 1)) * (sc * sc * y)) - / INR (2 * (N - 1)) * (sc * sc * y)) / 2) = sc * sqrt ((Rabs (/ INR (2 * (N - 1)) * y) - / INR (2 * (N - 1)) * y) / 2)).
    { intros y. replace (/ INR (2 * (N - 1)) * (sc * sc * y)) with ((sc * sc) * (/ INR (2 * (N - 1)) * y)) by ring. set (v := / INR (2 * (N - 1)) * y).
      rewrite Rabs_mult, (Rabs_pos_eq (sc * sc)) by nra.
      replace ((sc * sc * Rabs v + sc * sc * v) / 2) with ((sc * sc) * ((Rabs v + v) / 2)) by field. replace ((sc * sc * Rabs v - sc * sc * v) / 2) with ((sc * sc) * ((Rabs v - v) / 2)) by field.
      assert (V1 := Rle_abs v). assert (V2 := Rle_abs (- v)). rewrite Rabs_Ropp in V2.
      rewrite !sqrt_mult by nra. rewrite sqrt_sqrt by trivial. auto. }
    rewrite !Ei. rewrite !(proj1 (Rt _)), !(proj2 (Rt _)). destruct (Nat.ltb i (2 * (N - 1))); ring. }
  assert (Vl : forall r a, cme_val (fgn_cov N H sigma d) N (nz drawn) r a = sc * cme_val (fgn_cov N H 1 1) N (nz drawn) r a).
  { intros r a. unfold cme_val. rewrite <- sumn_scal. apply sumn_ext. intros i _. rewrite Cf. ring. }
  assert (G1 := cme_eq (fgn_cov N H 1 1) N HN (fgn_cov_length _ _ _ _) (shape_R sh) (nz drawn) Sh2). rewrite Nw in G1 by lra.
  assert (G2 := cme_eq (fgn_cov N H sigma d) N HN (fgn_cov_length _ _ _ _) (shape_R sh) (nz drawn) Sh2). rewrite Nw in G2 by trivial.
  set (X := map (fun r => map (cme_val (fgn_cov N H 1 1) N (nz drawn) r) (seq 0 N)) (seq 0 (shape_R sh))) in *.
  assert (EX : map (fun r => map (cme_val (fgn_cov N H sigma d) N (nz drawn) r) (seq 0 N)) (seq 0 (shape_R sh)) = map (map (Rmult sc)) X).
  { unfold X. rewrite map_map. apply map_ext. intros r. rewrite map_map. apply map_ext. intros a. apply Vl. }
  rewrite EX in G2. assert (ShX : shaped (shape_R sh) N X) by apply array_shaped.
  assert (ShX2 : shaped (shape_R sh) N (map (map (Rmult sc)) X)) by (rewrite <- EX; apply array_shaped).
  destruct (fgn_cme_eq sh H 1 (Some 1) z0 drawn N 1 _ _ EN HN ltac:(left; split; [reflexivity|lra]) ltac:(lra) ltac:(lra) G1 ShX) as [_ [A1 A2]].
  destruct (fgn_cme_eq sh H sigma dt z0 drawn N d _ _ EN HN Hd ltac:(lra) ltac:(lra) G2 ShX2) as [_ [B1 B2]].
  exists (presented sh X), (presented sh (map cumsum X)). refine (conj A1 (conj A2 (conj _ _))).
  - rewrite B1. f_equal. f_equal. destruct sh as [n|n r]; cbn [presented nd_scale]; reflexivity.
  - rewrite B2. f_equal. f_equal.
    assert (Cs : forall acc c, cumsum_from (sc * acc) (map (Rmult sc) c) = map (Rmult sc) (cumsum_from acc c)).
    { intros acc c. revert acc. induction c as [|y c IH]; intros acc; [reflexivity|]. cbn [map cumsum_from]. rewrite <- Rmult_plus_distr_l. now rewrite IH. }
    assert (Cs2 : forall c, cumsum (map (Rmult sc) c) = map (Rmult sc) (cumsum c)). { intros c. unfold cumsum. rewrite <- Cs. f_equal. ring. }
    destruct sh as [n|n r]; cbn [presented nd_scale].
    + apply (f_equal Arr1). etransitivity; [|apply Cs2]. reflexivity.
    + f_equal. rewrite !map_map. apply map_ext. exact Cs2.
Qed.

(** ** C74: mrw from cumulants *)
(** for c2 <= 0 it is the mrw with c1 = H + lam^2 and c2 = - lam^2; for c2 > 0 (no such process) nothing is raised by 'cme': every sample is NaN *)
Theorem C74_mrw_cumul sh c1 c2 L sigma method z0e z0w drawn_w drawn_e :
  (c2 <= 0 -> exists H lam, 0 <= lam /\ c1 = H + lam ^ 2 /\ c2 = - lam ^ 2 /\
     mrw_cumul sh c1 c2 L sigma method z0e z0w drawn_w drawn_e = mrw sh H (Some lam) L sigma method z0e z0w drawn_w drawn_e).
Proof.
  intros Hc. exists (c1 + c2), (sqrt (- c2)). assert (S := sqrt_sqrt (- c2) ltac:(lra)). refine (conj (sqrt_pos _) (conj _ (conj _ _))).
  - cbn [pow]. lra.
  - cbn [pow]. lra.
  - unfold mrw_cumul. destruct (Rle_dec 0 (- c2)); [reflexivity|lra].
Qed.
Theorem C74_positive_c2 sh N c1 c2 L sigma z0e z0w drawn_w drawn_e :
  shape_N sh = N -> (2 <= N)%nat -> 0 < c2 -> 0 <= c1 + c2 <= 1 -> 0 < L -> L <= INR N ->
  shaped (shape_R sh) (2 * N - 2) (nz (pick z0w drawn_w)) -> shaped (shape_R sh) (2 * N - 2) (nz drawn_e) ->
  mrw_cumul sh c1 c2 L sigma "cme" z0e z0w drawn_w drawn_e = Ok (presented sh (repeat (repeat NaN N) (shape_R sh))).
Proof.
  intros EN HN Hc HH HL HLN Sw Se. unfold mrw_cumul. destruct (Rle_dec 0 (- c2)); [lra|].
  assert (Sw2 : shaped (shape_R sh) (2 * (N - 1)) (nz (pick z0w drawn_w))) by (replace (2 * (N - 1))%nat with (2 * N - 2)%nat by lia; exact Sw).
  assert (Se2 : shaped (shape_R sh) (2 * (N - 1)) (nz drawn_e)) by (replace (2 * (N - 1))%nat with (2 * N - 2)%nat by lia; exact Se).
  destruct (rho_w_eq N L 1 HL Rlt_0_1 ltac:(unfold Rdiv; rewrite Rinv_1, Rmult_1_r; exact HLN)) as [rho [E1 [E2 _]]].
  assert (Hst : sampling_step None N (/ INR N)) by (right; auto).
  destruct (fgn_cme_eq (SPair N (shape_R sh)) (c1 + c2) sigma None z0e drawn_e N _ _ _ eq_refl HN Hst (proj1 HH) (proj2 HH)
      (cme_eq (fgn_cov N (c1 + c2) sigma (/ INR N)) N HN (fgn_cov_length _ _ _ _) (shape_R sh) (nz drawn_e) Se2) (array_shaped _ _ _)) as [F3 _].
  unfold mrw. rewrite H_test by lra. rewrite EN. destruct (Rlt_dec (INR N) L); [lra|]. cbn [String.eqb Ascii.eqb Bool.eqb andb].
  unfold gaussian_w. rewrite E1. cbn [bind String.eqb Ascii.eqb Bool.eqb andb].
  rewrite (cme_eq _ N HN) with (R := shape_R sh) by (trivial; now rewrite map_length). cbn [bind]. rewrite F3. cbn [bind].
  assert (Rep : forall (A : Type) (f : nat -> A) (c : A) n k, (forall i, f i = c) -> map f (seq k n) = repeat c n).
  { intros A f c m. induction m as [|m IH]; intros k Hf; [reflexivity|]. cbn [seq map repeat]. rewrite Hf. f_equal. now apply IH. }
  assert (Q : forall cov1 cov2 z1 z2, map2 (fun ec wc => xcumsum (map2 (fun a b => xmul (Fin a) (xexp b)) ec wc))
     (map (fun r => map (cme_val cov1 N z1 r) (seq 0 N)) (seq 0 (shape_R sh))) (map (map (fun _ => NaN)) (map (fun r => map (cme_val cov2 N z2 r) (seq 0 N)) (seq 0 (shape_R sh)))) = repeat (repeat NaN N) (shape_R sh)).
  { intros cov1 cov2 z1 z2. rewrite map_map. rewrite map2_diag. apply Rep. intros r. rewrite map_map, map2_diag.
    rewrite (Rep xr _ NaN); [|reflexivity]. unfold xcumsum. clear. assert (G : forall m acc, xcumsum_from acc (repeat NaN m) = repeat NaN m).
    { induction m as [|m IH]; intros acc; [reflexivity|]. cbn [repeat xcumsum_from]. replace (xadd acc NaN) with NaN by (destruct acc; reflexivity). now rewrite IH. }
    apply G. }
  rewrite Q. f_equal. apply presented_out with (N := N); [trivial|]. split; [apply repeat_length|]. apply Forall_forall. intros x Hx. apply repeat_spec in Hx. subst x. apply repeat_length.
Qed.
