(** * C94: how much the estimates move when the wavelet quantities move.
    If every value of a multi-resolution quantity is multiplied by some factor
    between 2^-d and 2^d (a different one for each value), every estimate moves
    by at most d (|q| d for zeta(q)) divided by the weighted standard deviation
    of the scales of the fit. *)
From Coq Require Import Reals List ZArith Bool Lra Lia Psatz.
From Verif Require Import XReal PyBase ModelUtils ModelMRQ ModelStructure ModelCumulants ModelSpectrum ModelEstimation
  Spec SpecMRQ LXReal LReg LUtils LBase LEst LMoment LCum LEntropy LScale LBivariate PropsEstimators PropsCumulants PropsSpectrum PropsMono PropsInvariance PropsFinite.
Import ListNotations.
Open Scope R_scope.

(** ** Specification *)
(** weighted average of f over a list of scales *)
Definition wavg (b f : Z -> R) (js : list Z) : R :=
  Rsum (map (fun j => b j * f j) js) / Rsum (map b js).
(** weighted standard deviation of the scales j1..j2 (weights: nj or 1) *)
Definition spread (weighted : bool) (m : mrq) (j1 j2 : Z) (r : nat) : R :=
  let b := fun j => weight weighted m j r in
  let js := zrange j1 (j2 + 1) in
  sqrt (wavg b (fun j => (IZR j - wavg b IZR js) ^ 2) js).
(** two values missing together or within a factor 2^d of each other in modulus *)
Definition within (d : R) (x y : xr) : Prop :=
  (x = NaN /\ y = NaN) \/
  exists a b, x = Fin a /\ y = Fin b /\ Rabs a <= Rpower 2 d * Rabs b /\ Rabs b <= Rpower 2 d * Rabs a.
(** the values of realisation r at the scales j1..j2 *)
Definition close_quantities (d : R) (m m' : mrq) (j1 j2 : Z) (r : nat) : Prop :=
  forall j, (j1 <= j <= j2)%Z -> Forall2 (within d) (column m j r) (column m' j r).

(** ** regression *)
Section Slope.
Variables (wd : bool) (m : mrq) (j1 j2 : Z) (r : nat).
Let b := fun j => weight wd m j r.
Let js := zrange j1 (j2 + 1).

Lemma fp_S0 y : S0 (fit_points wd m j1 j2 r y) = Rsum (map b js).
Proof. unfold S0, fit_points. now rewrite map_map. Qed.
Lemma fp_S1 y : S1 (fit_points wd m j1 j2 r y) = Rsum (map (fun j => b j * IZR j) js).
Proof. unfold S1, fit_points. now rewrite map_map. Qed.
Lemma fp_S2 y : S2 (fit_points wd m j1 j2 r y) = Rsum (map (fun j => b j * (IZR j * IZR j)) js).
Proof. unfold S2, fit_points. now rewrite map_map. Qed.
Lemma fp_T0 y : T0 (fit_points wd m j1 j2 r y) = Rsum (map (fun j => b j * y j) js).
Proof. unfold T0, fit_points. now rewrite map_map. Qed.
Lemma fp_T1 y : T1 (fit_points wd m j1 j2 r y) = Rsum (map (fun j => b j * IZR j * y j) js).
Proof. unfold T1, fit_points. now rewrite map_map. Qed.

Lemma b_nonneg j : 0 <= b j.
Proof. apply weight_nonneg. Qed.
Lemma wposed_ext y y' : well_posed (fit_points wd m j1 j2 r y) -> well_posed (fit_points wd m j1 j2 r y').
Proof.
  apply well_posed_ext; unfold fit_points; now rewrite !map_map.
Qed.
Lemma S0_pos y : well_posed (fit_points wd m j1 j2 r y) -> 0 < S0 (fit_points wd m j1 j2 r y).
Proof.
  intros W. assert (P := D_pos _ W). unfold D in P.
  assert (N0 : 0 <= S0 (fit_points wd m j1 j2 r y)).
  { rewrite fp_S0. apply Rsum_map_nonneg. intros. apply b_nonneg. }
  destruct N0 as [N0|N0]; trivial. rewrite <- N0 in P. nra.
Qed.
Lemma spread_eq y : well_posed (fit_points wd m j1 j2 r y) ->
  let P := fit_points wd m j1 j2 r y in
  0 < spread wd m j1 j2 r /\ spread wd m j1 j2 r = sqrt (D P) / S0 P.
Proof.
  intros W P. assert (HD : 0 < D P) by (now apply D_pos). assert (H0 : 0 < S0 P) by (now apply S0_pos).
  assert (E : spread wd m j1 j2 r = sqrt (D P) / S0 P).
  { unfold spread. fold b js. set (mu := wavg b IZR js).
    assert (Emu : mu = S1 P / S0 P) by (unfold P; now rewrite fp_S1, fp_S0).
    assert (Ev : wavg b (fun j => (IZR j - mu) ^ 2) js = D P / (S0 P * S0 P)).
    { unfold wavg. change (Rsum (map b js)) with (Rsum (map b js)).
      replace (Rsum (map b js)) with (S0 P) by (unfold P; now rewrite fp_S0).
      rewrite (Rsum_map_ext _ (fun j => b j * (IZR j * IZR j) + (- 2 * mu * (b j * IZR j) + mu * mu * b j))) by (intros; ring).
      rewrite !Rsum_map_plus, !Rsum_map_scal.
      rewrite <- (fp_S2 y), <- (fp_S1 y), <- (fp_S0 y). fold P. rewrite Emu. unfold D. field. lra. }
    rewrite Ev. rewrite sqrt_div_alt by nra. f_equal. apply sqrt_square. lra. }
  split; [|exact E]. rewrite E. apply Rdiv_lt_0_compat; [now apply sqrt_lt_R0|trivial].
Qed.
(** ordinates of modulus at most e give a slope of modulus at most e / spread *)
Lemma slope_bound y e : well_posed (fit_points wd m j1 j2 r y) -> (forall j, (j1 <= j <= j2)%Z -> Rabs (y j) <= e) ->
  Rabs (slope (fit_points wd m j1 j2 r y)) <= e / spread wd m j1 j2 r.
Proof.
  intros W Hy. set (P := fit_points wd m j1 j2 r y).
  assert (HD : 0 < D P) by (now apply D_pos). assert (H0 : 0 < S0 P) by (now apply S0_pos).
  destruct (spread_eq y W) as [Sp Es]. fold P in Es.
  set (mu := S1 P / S0 P).
  (* D * slope = S0 * sum b (j - mu) y *)
  assert (Eq : slope P = S0 P / D P * Rsum (map (fun j => b j * (IZR j - mu) * y j) js)).
  { unfold slope. rewrite (Rsum_map_ext (fun j => b j * (IZR j - mu) * y j) (fun j => b j * IZR j * y j + - mu * (b j * y j))) by (intros; ring).
    rewrite Rsum_map_plus, Rsum_map_scal. rewrite <- fp_T1, <- fp_T0. fold P. unfold mu. field. lra. }
  (* Cauchy-Schwarz *)
  assert (C := cauchy (fun j => sqrt (b j) * (IZR j - mu)) (fun j => sqrt (b j) * y j) js).
  rewrite (Rsum_map_ext (fun j => sqrt (b j) * (IZR j - mu) * (sqrt (b j) * y j)) (fun j => b j * (IZR j - mu) * y j)) in C.
  2:{ intros j _. rewrite <- (sqrt_sqrt (b j)) at 3 by apply b_nonneg. ring. }
  rewrite (Rsum_map_ext (fun j => (sqrt (b j) * (IZR j - mu)) ^ 2) (fun j => b j * (IZR j * IZR j) + (- 2 * mu * (b j * IZR j) + mu * mu * b j))) in C.
  2:{ intros j _. replace ((sqrt (b j) * (IZR j - mu)) ^ 2) with (sqrt (b j) * sqrt (b j) * (IZR j - mu) ^ 2) by ring. rewrite sqrt_sqrt by apply b_nonneg. ring. }
  rewrite !Rsum_map_plus, !Rsum_map_scal in C. rewrite <- (fp_S2 y), <- (fp_S1 y), <- (fp_S0 y) in C. fold P in C.
  replace (S2 P + (-2 * mu * S1 P + mu * mu * S0 P)) with (D P / S0 P) in C by (unfold mu, D; field; lra).
  assert (B : Rsum (map (fun j => (sqrt (b j) * y j) ^ 2) js) <= e * e * S0 P).
  { unfold P. rewrite (fp_S0 y). rewrite <- Rsum_map_scal. apply Rsum_map_le. intros j Hj. apply zrange_In in Hj.
    replace ((sqrt (b j) * y j) ^ 2) with (sqrt (b j) * sqrt (b j) * (y j * y j)) by ring. rewrite sqrt_sqrt by apply b_nonneg.
    rewrite Rmult_comm. apply Rmult_le_compat_r; [apply b_nonneg|].
    assert (K := Hy j ltac:(lia)). assert (Rabs (y j) * Rabs (y j) = y j * y j) by (rewrite <- Rabs_mult; apply Rabs_pos_eq; nra).
    assert (0 <= Rabs (y j)) by apply Rabs_pos. nra. }
  set (T := Rsum (map (fun j => b j * (IZR j - mu) * y j) js)) in *.
  assert (T2 : T ^ 2 <= D P * (e * e)).
  { eapply Rle_trans; [exact C|]. replace (D P * (e * e)) with (D P / S0 P * (e * e * S0 P)) by (field; lra).
    apply Rmult_le_compat_l; [|exact B]. left. now apply Rdiv_lt_0_compat. }
  assert (He : 0 <= e).
  { destruct W as [_ (p & ? & Hp & _)]. unfold fit_points in Hp. apply in_map_iff in Hp as (j & _ & Hj). apply zrange_In in Hj.
    assert (K := Hy j ltac:(lia)). assert (0 <= Rabs (y j)) by apply Rabs_pos. lra. }
  assert (Q := sqrt_lt_R0 _ HD). assert (QQ := sqrt_sqrt (D P) ltac:(lra)). set (s := sqrt (D P)) in *.
  assert (T1 : Rabs T <= s * e).
  { apply Rsqr_incr_0_var; [|nra]. rewrite <- Rsqr_abs. unfold Rsqr. nra. }
  rewrite Eq, Es. rewrite Rabs_mult, (Rabs_pos_eq (S0 P / D P)) by (left; now apply Rdiv_lt_0_compat).
  replace (e / (s / S0 P)) with (S0 P / D P * (s * e)) by (rewrite <- QQ; field; lra).
  apply Rmult_le_compat_l; [left; now apply Rdiv_lt_0_compat|exact T1].
Qed.
Lemma slope_sub y z : D (fit_points wd m j1 j2 r y) <> 0 ->
  slope (fit_points wd m j1 j2 r y) - slope (fit_points wd m j1 j2 r z) = slope (fit_points wd m j1 j2 r (fun j => y j - z j)).
Proof.
  intros H. unfold slope, D in *. rewrite !fp_S0, !fp_S1, !fp_S2, !fp_T0, !fp_T1 in *.
  rewrite (Rsum_map_ext (fun j => b j * (y j - z j)) (fun j => b j * y j + - 1 * (b j * z j))) by (intros; ring).
  rewrite (Rsum_map_ext (fun j => b j * IZR j * (y j - z j)) (fun j => b j * IZR j * y j + - 1 * (b j * IZR j * z j))) by (intros; ring).
  rewrite !Rsum_map_plus, !Rsum_map_scal. field. exact H.
Qed.
End Slope.

(** ** values *)
Lemma Rabs_between a b : Rabs a <= b -> - b <= a <= b.
Proof. intros H. assert (A := Rle_abs a). assert (B := Rle_abs (- a)). rewrite Rabs_Ropp in B. lra. Qed.
Definition near (d a b : R) : Prop := Rabs a <= Rpower 2 d * Rabs b /\ Rabs b <= Rpower 2 d * Rabs a.
Lemma near_sym d a b : near d a b -> near d b a.
Proof. intros [A B]. split; trivial. Qed.
Lemma near_nz d a b : near d a b -> a <> 0 -> b <> 0.
Proof.
  intros [A _] Ha ->. rewrite Rabs_R0, Rmult_0_r in A. assert (P := Rabs_pos_lt a Ha). lra.
Qed.
Lemma within_reals d c c' : Forall2 (within d) c c' ->
  no_inf c /\ no_inf c' /\ Forall2 (near d) (reals c) (reals c') /\ count_valid c = count_valid c'.
Proof.
  induction 1 as [|x y c c' H _ (N & N' & F & C)]; [repeat split; constructor|].
  destruct H as [[-> ->]|(a & b & -> & -> & A & B)].
  - repeat split; trivial; constructor; trivial; now left.
  - split; [constructor; trivial; right; eauto|]. split; [constructor; trivial; right; eauto|].
    split; [cbn [reals]; constructor; trivial; now split|]. unfold count_valid, valid in *. cbn. now rewrite C.
Qed.
Lemma within_sym d c c' : Forall2 (within d) c c' -> Forall2 (within d) c' c.
Proof.
  induction 1 as [|x y c c' H _ IH]; constructor; trivial.
  destruct H as [[-> ->]|(a & b & -> & -> & A & B)]; [left; auto|right; exists b, a; auto].
Qed.
Lemma near_list_sym d l l' : Forall2 (near d) l l' -> Forall2 (near d) l' l.
Proof. induction 1; constructor; trivial. now apply near_sym. Qed.
Lemma near_Forall d l l' : Forall2 (near d) l l' -> Forall (fun a => a <> 0) l -> Forall (fun a => a <> 0) l'.
Proof. induction 1; intros F; inversion F; subst; constructor; auto. eapply near_nz; eassumption. Qed.
Lemma near_Exists d l l' : Forall2 (near d) l l' -> Exists (fun a => a <> 0) l -> Exists (fun a => a <> 0) l'.
Proof.
  induction 1; intros F; inversion F; subst; [left; eapply near_nz; eassumption|right; auto].
Qed.
Lemma near_nil d l l' : Forall2 (near d) l l' -> l <> [] -> l' <> [].
Proof. destruct 1; congruence. Qed.
Lemma near_length d l l' : Forall2 (near d) l l' -> length l = length l'.
Proof. induction 1; simpl; congruence. Qed.
Lemma near_determined d q l l' : Forall2 (near d) l l' -> determined q l -> determined q l'.
Proof.
  intros H (A & B & C). split; [now apply (near_nil d l)|]. split; intros Hq; [apply (near_Exists d l); auto|apply (near_Forall d l); auto].
Qed.
Lemma ln_2d d : ln (Rpower 2 d) = d * ln 2.
Proof. unfold Rpower. apply ln_exp. Qed.
Lemma near_ln d a b : near d a b -> a <> 0 -> Rabs (ln (Rabs a) - ln (Rabs b)) <= d * ln 2.
Proof.
  intros H Ha. assert (Hb := near_nz d a b H Ha). assert (Pa := Rabs_pos_lt a Ha). assert (Pb := Rabs_pos_lt b Hb).
  assert (P2 := Rpower_pos 2 d). destruct H as [A B].
  assert (ln (Rabs a) <= d * ln 2 + ln (Rabs b)).
  { rewrite <- ln_2d, <- ln_mult by trivial. destruct A as [A|A]; [left; now apply ln_increasing|rewrite A; lra]. }
  assert (ln (Rabs b) <= d * ln 2 + ln (Rabs a)).
  { rewrite <- ln_2d, <- ln_mult by trivial. destruct B as [B|B]; [left; now apply ln_increasing|rewrite B; lra]. }
  apply Rabs_le. lra.
Qed.
Lemma near_d_pos d a b : near d a b -> a <> 0 -> 0 <= d.
Proof.
  intros H Ha. assert (K := near_ln d a b H Ha). assert (L := ln2_pos).
  assert (0 <= Rabs (ln (Rabs a) - ln (Rabs b))) by apply Rabs_pos. nra.
Qed.
Lemma qpow_near d q a b : near d a b -> (q <= 0 -> q = 0 \/ a <> 0) -> qpow q a <= Rpower 2 (Rabs q * d) * qpow q b.
Proof.
  intros H Hq. unfold qpow. destruct (Req_EM_T q 0) as [->|Nq].
  - rewrite Rabs_R0, Rmult_0_l, Rpower_O by lra. lra.
  - unfold abs_pow. destruct (Req_EM_T a 0) as [->|Na].
    + apply Rmult_le_pos; [left; apply Rpower_pos|]. destruct (Req_EM_T b 0); [lra|left; apply exp_pos].
    + assert (Nb := near_nz d a b H Na). destruct (Req_EM_T b 0); [contradiction|].
      unfold Rpower. rewrite <- exp_plus. assert (K := near_ln d a b H Na). apply Rabs_between in K.
      assert (L := ln2_pos). assert (Hd := near_d_pos d a b H Na).
      assert (q * ln (Rabs a) <= Rabs q * d * ln 2 + q * ln (Rabs b)).
      { destruct (Rle_dec 0 q) as [Q|Q]; [rewrite (Rabs_pos_eq q) by trivial|rewrite (Rabs_left q) by lra]; nra. }
      destruct H0 as [H0|H0]; [left; now apply exp_increasing|rewrite H0; lra].
Qed.
Lemma moment_near d q l l' : Forall2 (near d) l l' -> (q <= 0 -> q = 0 \/ Forall (fun a => a <> 0) l) ->
  abs_moment q l <= Rpower 2 (Rabs q * d) * abs_moment q l'.
Proof.
  intros H Hq. unfold abs_moment, mean. rewrite !map_length, <- (near_length d l l' H).
  unfold Rdiv. rewrite <- Rmult_assoc. destruct l as [|a0 l0] eqn:El.
  { inversion H; subst. simpl. lra. }
  rewrite <- El in *. assert (0 < INR (length l)) by (apply lt_0_INR; rewrite El; simpl; lia).
  apply Rmult_le_compat_r; [left; now apply Rinv_0_lt_compat|]. clear El H0 a0 l0.
  induction H as [|a b l l' H F IH]; [simpl; lra|]. cbn [map]. change (Rsum (?x :: ?y)) with (x + Rsum y).
  assert (Q1 : q <= 0 -> q = 0 \/ a <> 0) by (intros Q; destruct (Hq Q) as [|Z]; auto; inversion Z; auto).
  assert (Q2 : q <= 0 -> q = 0 \/ Forall (fun a => a <> 0) l) by (intros Q; destruct (Hq Q) as [|Z]; auto; inversion Z; auto).
  assert (A := qpow_near d q a b H Q1). specialize (IH Q2). lra.
Qed.
Lemma det_q q l : determined q l -> q <= 0 -> q = 0 \/ Forall (fun a => a <> 0) l.
Proof. intros (_ & _ & N) [H|H]; auto. Qed.
Lemma det_defined q l : determined q l -> q_defined q l.
Proof. intros (_ & _ & N). destruct (Rle_dec 0 q); [now left|right; apply N; lra]. Qed.
Lemma det_pos q l : determined q l -> 0 < abs_moment q l.
Proof.
  intros (NE & P & N). unfold abs_moment, mean. rewrite map_length. apply Rdiv_lt_0_compat; [|now apply INR_len_pos].
  apply Rsum_map_pos.
  - intros a _. unfold qpow. destruct (Req_EM_T q 0); [lra|]. unfold abs_pow. destruct (Req_EM_T a 0); [lra|left; apply exp_pos].
  - assert (X : q = 0 \/ Exists (fun a => a <> 0) l).
    { destruct (Rtotal_order q 0) as [Q|[Q|Q]]; auto. right. specialize (N Q). destruct l; [congruence|]. inversion N; subst. now left. }
    destruct X as [->|X].
    + destruct l as [|a l]; [congruence|]. exists a. split; [now left|]. unfold qpow. destruct (Req_EM_T 0 0); lra.
    + apply Exists_exists in X as (a & Ha & Na). exists a. split; trivial. unfold qpow. destruct (Req_EM_T q 0); [lra|].
      unfold abs_pow. destruct (Req_EM_T a 0); [contradiction|apply exp_pos].
Qed.
Lemma logS_near d c c' e : Forall2 (within d) c c' -> determined (num_val e) (reals c) ->
  exists a b, xlog2 (sf_moment c e) = Fin a /\ xlog2 (sf_moment c' e) = Fin b /\ Rabs (a - b) <= Rabs (num_val e) * d.
Proof.
  intros H Hd. destruct (within_reals d c c' H) as (N & N' & F & _). set (q := num_val e) in *.
  assert (Hd' := near_determined d q _ _ F Hd).
  rewrite (sf_moment_eq c); [|trivial|apply Hd|now apply det_defined].
  rewrite (sf_moment_eq c'); [|trivial|apply Hd'|now apply det_defined]. fold q.
  assert (P := det_pos q _ Hd). assert (P' := det_pos q _ Hd'). rewrite !xlog2_pos by trivial.
  eexists; eexists. split; [reflexivity|]. split; [reflexivity|].
  assert (A := moment_near d q _ _ F (det_q q _ Hd)). assert (B := moment_near d q _ _ (near_list_sym d _ _ F) (det_q q _ Hd')).
  assert (P2 := Rpower_pos 2 (Rabs q * d)).
  apply log2R_le in A; trivial. rewrite log2R_mult, log2R_Rpower in A by trivial.
  apply log2R_le in B; trivial. rewrite log2R_mult, log2R_Rpower in B by trivial. apply Rabs_le. lra.
Qed.
Lemma max_near d l l' x x' : Forall2 (near d) l l' -> is_max x (map Rabs l) -> is_max x' (map Rabs l') -> x <= Rpower 2 d * x'.
Proof.
  intros F [I _] [_ M]. apply in_map_iff in I as (a & <- & Ha).
  assert (E : exists b, In b l' /\ near d a b).
  { clear M. induction F as [|u v l l' H F IH]; [destruct Ha|]. destruct Ha as [->|Ha]; [exists v; split; [now left|trivial]|].
    destruct (IH Ha) as (b & Hb & Hn). exists b. split; [now right|trivial]. }
  destruct E as (b & Hb & [A _]). eapply Rle_trans; [exact A|]. apply Rmult_le_compat_l; [left; apply Rpower_pos|].
  apply M. now apply in_map.
Qed.
Lemma sup_value c : no_inf c -> Exists (fun a => a <> 0) (reals c) ->
  exists x, 0 < x /\ is_max x (map Rabs (reals c)) /\ xlog2 (nanmax (map xabs c)) = Fin (log2R x).
Proof.
  intros N E. destruct (map_no_inf xabs Rabs c N eq_refl (fun a _ => eq_refl)) as [A B].
  destruct (nanmax_spec (map xabs c) A) as [[Z _]|(v & -> & M)].
  - rewrite B in Z. destruct (reals c); [inversion E|discriminate].
  - rewrite B in M. exists v. assert (0 < v).
    { apply Exists_exists in E as (a & Ha & Na). assert (P := Rabs_pos_lt a Na).
      assert (Rabs a <= v) by (apply M; now apply in_map). lra. }
    split; trivial. split; trivial. now apply xlog2_pos.
Qed.
Lemma sup_near d c c' : Forall2 (within d) c c' -> Exists (fun a => a <> 0) (reals c) ->
  exists a b, xlog2 (nanmax (map xabs c)) = Fin a /\ xlog2 (nanmax (map xabs c')) = Fin b /\ Rabs (a - b) <= d.
Proof.
  intros H E. destruct (within_reals d c c' H) as (N & N' & F & _).
  destruct (sup_value c N E) as (x & Px & Mx & ->). destruct (sup_value c' N' (near_Exists d _ _ F E)) as (y & Py & My & ->).
  eexists; eexists. split; [reflexivity|]. split; [reflexivity|].
  assert (A := max_near d _ _ x y F Mx My). assert (B := max_near d _ _ y x (near_list_sym d _ _ F) My Mx).
  assert (P2 := Rpower_pos 2 d).
  apply log2R_le in A; trivial. rewrite log2R_mult, log2R_Rpower in A by trivial.
  apply log2R_le in B; trivial. rewrite log2R_mult, log2R_Rpower in B by trivial. apply Rabs_le. lra.
Qed.

(** first cumulant: mean of ln |x|; second: variance of ln |x| *)
Lemma near_logs d l l' : Forall2 (near d) l l' -> Forall (fun a => a <> 0) l ->
  Forall2 (fun u v => Rabs (u - v) <= d * ln 2) (map (fun a => ln (Rabs a)) l) (map (fun a => ln (Rabs a)) l').
Proof. induction 1; intros F; inversion F; subst; cbn [map]; constructor; auto. now apply near_ln. Qed.
Lemma mean_near e x y : x <> [] -> Forall2 (fun u v => Rabs (u - v) <= e) x y -> Rabs (mean x - mean y) <= e.
Proof.
  intros NE H. assert (L : length x = length y) by (clear NE; induction H; simpl; congruence).
  assert (P := INR_len_pos x NE). unfold mean. rewrite <- L.
  replace (Rsum x / INR (length x) - Rsum y / INR (length x)) with ((Rsum x - Rsum y) * / INR (length x)) by (field; lra).
  rewrite Rabs_mult, (Rabs_pos_eq (/ _)) by (left; now apply Rinv_0_lt_compat).
  apply Rmult_le_reg_r with (INR (length x)); trivial. rewrite Rmult_assoc, Rinv_l, Rmult_1_r by lra.
  clear NE L P. induction H as [|u v x y H F IH]; [simpl; rewrite Rminus_0_r, Rabs_R0; lra|].
  cbn [length]. rewrite S_INR. change (Rsum (?a :: ?b)) with (a + Rsum b).
  replace (u + Rsum x - (v + Rsum y)) with ((u - v) + (Rsum x - Rsum y)) by ring.
  eapply Rle_trans; [apply Rabs_triang|]. lra.
Qed.
Definition variance (x : list R) : R := mean (map (fun t => (t - mean x) ^ 2) x).
Lemma variance_eq x : x <> [] -> variance x = mean (map (fun t => t ^ 2) x) - mean x ^ 2.
Proof.
  intros H. unfold variance. set (mu0 := mean x). assert (P := INR_len_pos x H).
  unfold mean. rewrite !map_length.
  rewrite (Rsum_map_ext _ (fun t => t ^ 2 + (- 2 * mu0 * t + mu0 ^ 2 * 1))) by (intros; ring).
  rewrite !Rsum_map_plus, !Rsum_map_scal, map_id, Rsum_const.
  unfold mu0, mean. field. lra.
Qed.

Lemma variance_near e x y : x <> [] -> Forall2 (fun u v => Rabs (u - v) <= e) x y ->
  Rabs (variance x - variance y) <= e * (2 * sqrt (variance x) + e).
Proof.
  intros NE H.
  (* a list of pairs *)
  assert (E : exists l : list (R * R), x = map fst l /\ y = map snd l /\ forall p, In p l -> Rabs (fst p - snd p) <= e).
  { clear NE. induction H as [|u v x y H F (l & -> & -> & Hl)].
    - exists []. repeat split. intros p [].
    - exists ((u, v) :: l). repeat split. intros p [<-|Hp]; auto. }
  destruct E as (l & Ex & Ey & Hl). clear H.
  assert (Nl : l <> []) by (intros ->; apply NE; rewrite Ex; reflexivity).
  assert (He : 0 <= e).
  { destruct l as [|p l]; [congruence|]. assert (K := Hl p (or_introl eq_refl)). assert (0 <= Rabs (fst p - snd p)) by apply Rabs_pos. lra. }
  set (mx := mean x). set (my := mean y).
  set (f := fun p : R * R => fst p - mx). set (g := fun p : R * R => (fst p - snd p) - (mx - my)).
  assert (Vx : variance x = mean (map (fun p => f p ^ 2) l)).
  { unfold variance. fold mx. rewrite Ex, map_map. reflexivity. }
  assert (Vy : variance y = mean (map (fun p => f p ^ 2) l) + - 2 * mean (map (fun p => f p * g p) l) + mean (map (fun p => g p ^ 2) l)).
  { unfold variance. fold my. rewrite Ey, map_map. rewrite <- mean_scal.
    rewrite <- !mean_plus. apply mean_ext. intros p _. unfold f, g. ring. }
  assert (G2 : mean (map (fun p => g p ^ 2) l) <= e * e).
  { (* variance of the differences is at most their mean square *)
    assert (Md : mean (map (fun p => fst p - snd p) l) = mx - my).
    { unfold mx, my. rewrite Ex, Ey. rewrite (mean_ext _ (fun p => fst p + - 1 * snd p)) by (intros; ring).
      rewrite mean_plus, mean_scal. ring. }
    assert (Q := variance_eq (map (fun p => fst p - snd p) l)). unfold variance in Q. rewrite Md, !map_map in Q.
    change (mean (map (fun p => g p ^ 2) l)) with (mean (map (fun x0 : R * R => (fst x0 - snd x0 - (mx - my)) ^ 2) l)).
    rewrite Q by (destruct l; [congruence|discriminate]).
    assert (B : mean (map (fun p : R * R => (fst p - snd p) ^ 2) l) <= e * e).
    { assert (P := INR_len_pos l Nl). unfold mean. rewrite map_length.
      apply Rmult_le_reg_r with (INR (length l)); trivial. unfold Rdiv. rewrite Rmult_assoc, Rinv_l, Rmult_1_r by lra.
      rewrite Rmult_comm, <- Rsum_const. apply Rsum_map_le. intros p Hp. assert (K := Hl p Hp). apply Rabs_between in K. nra. }
    assert (0 <= (mx - my) ^ 2) by apply pow2_ge_0. lra. }
  assert (C := cauchy_mean f g l Nl). rewrite <- Vx in C.
  assert (VP : 0 <= variance x) by (rewrite Vx; apply mean_sq_nonneg).
  assert (GP := mean_sq_nonneg g l).
  set (cov := mean (map (fun p => f p * g p) l)) in *. set (G := mean (map (fun p => g p ^ 2) l)) in *.
  set (s := sqrt (variance x)). assert (Ss : s * s = variance x) by (apply sqrt_sqrt; trivial). assert (S0 : 0 <= s) by apply sqrt_pos.
  assert (Cb : Rabs cov <= s * e).
  { apply Rsqr_incr_0_var; [|apply Rmult_le_pos; lra]. rewrite <- Rsqr_abs. unfold Rsqr.
    assert (variance x * G <= variance x * (e * e)) by (apply Rmult_le_compat_l; lra). nra. }
  rewrite Vy, <- Vx. apply Rabs_between in Cb. apply Rabs_le. nra.
Qed.
Definition lnl (l : list R) : list R := map (fun a => ln (Rabs a)) l.
Lemma cum1_value c n : no_inf c -> reals c <> [] -> Forall (fun a => a <> 0) (reals c) -> (1 <= n)%nat ->
  cum_value n c 1 = Fin (mean (lnl (reals c))).
Proof.
  intros N NE Z Hn. rewrite (cum_value_eq c n 1 (mu (lnabs c))) by (trivial; try lia; intros; now apply log_moment_eq).
  rewrite kappa_1. unfold mu. f_equal. f_equal. unfold lnabs, lnl. rewrite map_map. apply map_ext. intros; ring.
Qed.
Lemma cum2_value c n : no_inf c -> reals c <> [] -> Forall (fun a => a <> 0) (reals c) -> (2 <= n)%nat ->
  cum_value n c 2 = Fin (variance (lnl (reals c))).
Proof.
  intros N NE Z Hn. rewrite (cum_value_eq c n 2 (mu (lnabs c))) by (trivial; try lia; intros; now apply log_moment_eq).
  rewrite kappa_2, variance_eq by (unfold lnl; destruct (reals c); [congruence|discriminate]).
  unfold mu. change (lnabs c) with (lnl (reals c)). f_equal. f_equal. f_equal. f_equal.
  rewrite (map_ext (fun t => t ^ 1) (fun t => t)) by (intros; ring). now rewrite map_id.
Qed.

(** ** The fitted slopes *)
Lemma fslope_close wd m m' j1 j2 r Y Y' e : (j1 < j2)%Z ->
  (forall j, (j1 <= j <= j2)%Z -> count m j r = count m' j r /\ (0 < count m j r)%nat) ->
  (forall j, (j1 <= j <= j2)%Z -> exists a b, Y j = Fin a /\ Y' j = Fin b /\ Rabs (a - b) <= e) ->
  exists u v, fslope wd m j1 j2 r Y = Fin u /\ fslope wd m' j1 j2 r Y' = Fin v /\ Rabs (u - v) <= e / spread wd m j1 j2 r.
Proof.
  intros Hj Hc HY.
  set (val := fun x : xr => match x with Fin v => v | _ => 0 end).
  assert (EY : fslope wd m j1 j2 r Y = fslope wd m j1 j2 r (fun j => Fin (val (Y j)))).
  { apply fslope_ext. intros j Hi. destruct (HY j Hi) as (a & b & -> & _). reflexivity. }
  assert (EY' : fslope wd m' j1 j2 r Y' = fslope wd m' j1 j2 r (fun j => Fin (val (Y' j)))).
  { apply fslope_ext. intros j Hi. destruct (HY j Hi) as (a & b & _ & -> & _). reflexivity. }
  rewrite EY, EY'.
  assert (FP : forall y, fit_points wd m' j1 j2 r y = fit_points wd m j1 j2 r y).
  { intros y. unfold fit_points. apply map_ext_in. intros j Hi. apply zrange_In in Hi. unfold weight.
    destruct (Hc j ltac:(lia)) as [<- _]. reflexivity. }
  assert (W : forall y, well_posed (fit_points wd m j1 j2 r y)) by (intros y; apply fit_well_posed; trivial; intros j Hi; now apply Hc).
  destruct (fit_finite wd m j1 j2 r (fun j => val (Y j)) (W _)) as [-> _].
  destruct (fit_finite wd m' j1 j2 r (fun j => val (Y' j))) as [-> _]; [rewrite FP; apply W|]. rewrite FP.
  eexists; eexists. split; [reflexivity|]. split; [reflexivity|].
  rewrite slope_sub by (apply Rgt_not_eq, D_pos, W). apply slope_bound; [apply W|].
  intros j Hi. destruct (HY j Hi) as (a & b & -> & -> & K). exact K.
Qed.

(** two results: numbers together, and then at most e apart *)
Definition moves_at_most (e : R) (x y : xr) : Prop :=
  (is_number x <-> is_number y) /\ forall u v, x = Fin u -> y = Fin v -> Rabs (u - v) <= e.

Section Stable.
Variables (m m' : mrq) (g nrep : nat) (j1 j2 : Z) (wd : bool) (d : R) (r : nat).
Hypotheses (HR : regular m g nrep) (HR' : regular m' g nrep) (HC : counted m) (HC' : counted m')
  (H1 : (1 <= j1)%Z) (H2 : (j1 < j2)%Z) (H3 : (j2 <= Z.of_nat g)%Z)
  (HQ : close_quantities d m m' j1 j2 r).

Lemma st_scale j : (j1 <= j <= j2)%Z -> In j (SpecMRQ.scales m) /\ In j (SpecMRQ.scales m').
Proof using HR HR' H1 H3. intros Hj. destruct HR as (_ & -> & _). destruct HR' as (_ & -> & _). split; apply one_to_In; lia. Qed.
Lemma st_count j : (j1 <= j <= j2)%Z -> count m j r = count m' j r.
Proof using HR HR' HC HC' H1 H3 HQ.
  intros Hj. destruct (st_scale j Hj) as [A B].
  destruct (dict_get_Some (mq_values m) j A) as [a Ha]. destruct (dict_get_Some (mq_values m') j B) as [b Hb].
  assert (E := HC j a Ha). assert (E' := HC' j b Hb). unfold count. rewrite E, E'.
  assert (F := HQ j Hj). unfold column in F. rewrite Ha, Hb in F. apply within_reals in F as (_ & _ & _ & F).
  transitivity (count_valid (nth r a [])); [apply (map_nth count_valid a [] r)|]. etransitivity; [exact F|]. symmetry. apply (map_nth count_valid b [] r).
Qed.
Lemma st_count_pos j : (j1 <= j <= j2)%Z -> numbers m j r <> [] -> (0 < count m j r)%nat.
Proof using HR HR' HC H1 H3 HQ.
  intros Hj NE. destruct (within_reals d _ _ (HQ j Hj)) as (N & _). rewrite count_numbers; trivial.
  - destruct (numbers m j r); [congruence|cbn; lia].
  - now apply st_scale.
  - split; trivial.
Qed.
(** the general step: an ordinate that is a number exactly under P, P the same for both quantities *)
Lemma st_slope (Y Y' : Z -> xr) (P : Z -> Prop) e :
  (forall j, (j1 <= j <= j2)%Z -> (is_number (Y j) <-> P j)) ->
  (forall j, (j1 <= j <= j2)%Z -> (is_number (Y' j) <-> P j)) ->
  (forall j, (j1 <= j <= j2)%Z -> P j -> numbers m j r <> [] /\ exists a b, Y j = Fin a /\ Y' j = Fin b /\ Rabs (a - b) <= e) ->
  moves_at_most (e / spread wd m j1 j2 r) (fslope wd m j1 j2 r Y) (fslope wd m' j1 j2 r Y').
Proof using HR HR' HC HC' H1 H2 H3 HQ.
  intros A A' B.
  assert (K : (forall j, (j1 <= j <= j2)%Z -> P j) -> exists u v, fslope wd m j1 j2 r Y = Fin u /\ fslope wd m' j1 j2 r Y' = Fin v /\ Rabs (u - v) <= e / spread wd m j1 j2 r).
  { intros HP. apply fslope_close; trivial.
    - intros j Hj. split; [now apply st_count|]. apply st_count_pos; trivial. now apply B, HP.
    - intros j Hj. now apply B, HP. }
  assert (PI : is_number (fslope wd m j1 j2 r Y) -> forall j, (j1 <= j <= j2)%Z -> P j).
  { intros X j Hj. apply A; trivial. now apply (fslope_fin_inv wd m j1 j2 r Y). }
  assert (PI' : is_number (fslope wd m' j1 j2 r Y') -> forall j, (j1 <= j <= j2)%Z -> P j).
  { intros X j Hj. apply A'; trivial. now apply (fslope_fin_inv wd m' j1 j2 r Y'). }
  split.
  - split; intros X; [destruct (K (PI X)) as (u & v & _ & -> & _)|destruct (K (PI' X)) as (u & v & -> & _)]; eexists; reflexivity.
  - intros u v Eu Ev. destruct (K (PI (ex_intro _ u Eu))) as (u' & v' & Eu' & Ev' & B'). congruence.
Qed.
Lemma st_near j : (j1 <= j <= j2)%Z -> no_inf (column m j r) /\ no_inf (column m' j r) /\ Forall2 (near d) (numbers m j r) (numbers m' j r).
Proof using HQ. intros Hj. destruct (within_reals d _ _ (HQ j Hj)) as (N & N' & F & _). auto. Qed.

Lemma st_zeta e : moves_at_most (Rabs (num_val e) * d / spread wd m j1 j2 r)
  (fslope wd m j1 j2 r (logS m e r)) (fslope wd m' j1 j2 r (logS m' e r)).
Proof using HR HR' HC HC' H1 H2 H3 HQ.
  apply (st_slope _ _ (fun j => determined (num_val e) (numbers m j r))).
  - intros j Hj. apply logS_fin. now apply st_near.
  - intros j Hj. destruct (st_near j Hj) as (N & N' & F). unfold logS. rewrite logS_fin by trivial.
    split; apply near_determined with d; trivial. now apply near_list_sym.
  - intros j Hj D0. split; [apply D0|]. apply logS_near; trivial. now apply HQ.
Qed.
Lemma st_sup : moves_at_most (d / spread wd m j1 j2 r) (fslope wd m j1 j2 r (lsup m r)) (fslope wd m' j1 j2 r (lsup m' r)).
Proof using HR HR' HC HC' H1 H2 H3 HQ.
  apply (st_slope _ _ (fun j => Exists (fun a => a <> 0) (numbers m j r))).
  - intros j Hj. apply sup_fin. now apply st_near.
  - intros j Hj. destruct (st_near j Hj) as (N & N' & F). unfold lsup. rewrite sup_fin by trivial.
    split; apply near_Exists with d; trivial. now apply near_list_sym.
  - intros j Hj D0. split; [intros Z; rewrite Z in D0; inversion D0|]. apply sup_near; trivial. now apply HQ.
Qed.
Lemma st_cum k n e : (1 <= k <= n)%nat ->
  (forall j, (j1 <= j <= j2)%Z -> numbers m j r <> [] -> Forall (fun a => a <> 0) (numbers m j r) ->
     exists a b, Cval m n k r j = Fin a /\ Cval m' n k r j = Fin b /\ Rabs (a - b) <= e) ->
  moves_at_most (e / spread wd m j1 j2 r) (fslope wd m j1 j2 r (Cval m n k r)) (fslope wd m' j1 j2 r (Cval m' n k r)).
Proof using HR HR' HC HC' H1 H2 H3 HQ.
  intros Hk B. apply (st_slope _ _ (fun j => numbers m j r <> [] /\ Forall (fun a => a <> 0) (numbers m j r))).
  - intros j Hj. apply cum_fin; trivial. now apply st_near.
  - intros j Hj. destruct (st_near j Hj) as (N & N' & F). unfold Cval. rewrite cum_fin by trivial.
    assert (F' := near_list_sym d _ _ F).
    split; intros [X Z]; (split; [eapply near_nil; eassumption|eapply near_Forall; eassumption]).
  - intros j Hj [X Z]. split; trivial. now apply B.
Qed.
End Stable.

(** ** C94 *)
Theorem C94_exponents :
  forall m m' g nrep qs j1 j2 wd d s s' r,
  regular m g nrep -> regular m' g nrep -> counted m -> counted m' ->
  (1 <= j1)%Z -> (j1 < j2)%Z -> (j2 <= Z.of_nat g)%Z -> (r < nrep)%nat ->
  close_quantities d m m' j1 j2 r -> mq_gamint m = mq_gamint m' ->
  StructureFunction m (QArr qs) j1 j2 wd = Ok s -> StructureFunction m' (QArr qs) j1 j2 wd = Ok s' ->
  let sd := spread wd m j1 j2 r in
  (forall i, (i < length qs)%nat -> moves_at_most (Rabs (nth i qs 0) * d / sd) (at2 (sf_zeta s) i r) (at2 (sf_zeta s') i r)) /\
  moves_at_most (d / sd) (nth r (sf_H s) NaN) (nth r (sf_H s') NaN).
Proof.
  intros m m' g nrep qs j1 j2 wd d s s' r HR HR' HC HC' H1 H2 H3 Hr HQ HG E E'. cbn zeta.
  assert (Z := fun e => st_zeta m m' g nrep j1 j2 wd d r HR HR' HC HC' H1 H2 H3 HQ e). split.
  - intros i Hi. destruct (SF_rows m g nrep qs j1 j2 wd s HR H1 ltac:(lia) H3 E i r Hi Hr) as (_ & -> & _).
    destruct (SF_rows m' g nrep qs j1 j2 wd s' HR' H1 ltac:(lia) H3 E' i r Hi Hr) as (_ & -> & _). exact (Z (PyFloat (nth i qs 0))).
  - rewrite (SF_eq m g nrep HR) in E by (trivial; lia). rewrite (SF_eq m' g nrep HR') in E' by (trivial; lia).
    destruct (has_two qs); [|discriminate]. injection E as <-. injection E' as <-. cbn [sf_H].
    rewrite !nth_seq_map by trivial. specialize (Z (PyFloat 2)). cbn [num_val] in Z.
    destruct Z as [ZN ZB]. set (x := fslope wd m j1 j2 r _) in *. set (y := fslope wd m' j1 j2 r _) in *.
    assert (T : forall z ga, is_number (xsub (xdiv z (Fin 2)) (Fin ga)) <-> is_number z).
    { intros z ga. destruct z as [a| | |]; cbn; unfold xdiv, scale_inf; cbn;
        repeat match goal with |- context [if ?b then _ else _] => destruct b end;
        split; intros [v V]; try discriminate; try (eexists; reflexivity); try lra. }
    split; [rewrite !T; exact ZN|]. intros u v Eu Ev.
    destruct (proj1 (T x (mq_gamint m)) (ex_intro _ u Eu)) as [a Ea]. destruct (proj1 (T y (mq_gamint m')) (ex_intro _ v Ev)) as [b Eb].
    assert (B := ZB a b Ea Eb). rewrite Ea in Eu. rewrite Eb in Ev. rewrite xdiv_Fin in Eu, Ev by lra. cbn in Eu, Ev.
    injection Eu as <-. injection Ev as <-. rewrite HG.
    replace (a / 2 + - mq_gamint m' - (b / 2 + - mq_gamint m')) with (/ 2 * (a - b)) by field.
    rewrite Rabs_mult, (Rabs_pos_eq (/ 2)) by lra. rewrite (Rabs_pos_eq 2) in B by lra.
    replace (d / spread wd m j1 j2 r) with (/ 2 * (2 * d / spread wd m j1 j2 r)) by (unfold Rdiv; set (i := / spread wd m j1 j2 r); field).
    apply Rmult_le_compat_l; lra.
Qed.
Print Assumptions C94_exponents.

Theorem C94_hmin :
  forall m m' g nrep j1 j2 wd warn warn' d h h' r,
  regular m g nrep -> regular m' g nrep -> counted m -> counted m' ->
  (1 <= j1)%Z -> (j1 < j2)%Z -> (j2 <= Z.of_nat g)%Z -> (r < nrep)%nat ->
  close_quantities d m m' j1 j2 r ->
  estimate_hmin m j1 j2 wd warn = Ok h -> estimate_hmin m' j1 j2 wd warn' = Ok h' ->
  moves_at_most (d / spread wd m j1 j2 r) (nth r (hm_hmin h) NaN) (nth r (hm_hmin h') NaN).
Proof.
  intros m m' g nrep j1 j2 wd warn warn' d h h' r HR HR' HC HC' H1 H2 H3 Hr HQ E E'.
  apply (HMIN_rows m g nrep) in E; trivial; [|lia]. apply (HMIN_rows m' g nrep) in E'; trivial; [|lia]. rewrite E, E'. cbn [hm_hmin].
  rewrite !nth_seq_map by trivial. now apply (st_sup m m' g nrep j1 j2 wd d r).
Qed.
Print Assumptions C94_hmin.

Lemma log2e_ln2 : log2_e * ln 2 = 1.
Proof. unfold log2_e. rewrite log2_exp. assert (L := ln2_pos). field. lra. Qed.
Lemma moves_scaled c e x y : 0 < c -> moves_at_most e x y -> moves_at_most (e * c) (xmul x (Fin c)) (xmul y (Fin c)).
Proof.
  intros Hc [N B].
  assert (T : forall z, is_number (xmul z (Fin c)) <-> is_number z).
  { intros z. destruct z as [a| | |]; cbn; unfold scale_inf;
      repeat match goal with |- context [if ?b then _ else _] => destruct b end;
      split; intros [v V]; try discriminate; try (eexists; reflexivity); lra. }
  split; [rewrite !T; exact N|]. intros u v Eu Ev.
  destruct (proj1 (T x) (ex_intro _ u Eu)) as [a ->]. destruct (proj1 (T y) (ex_intro _ v Ev)) as [b ->]. cbn in Eu, Ev.
  injection Eu as <-. injection Ev as <-. replace (a * c - b * c) with ((a - b) * c) by ring.
  rewrite Rabs_mult, (Rabs_pos_eq c) by lra. apply Rmult_le_compat_r; [lra|]. now apply B.
Qed.

(** c_1 moves by at most d / sd; c_2 by at most d ln 2 (2 S log2(e) + d) / sd, where
    S bounds the standard deviation of ln |x| at every scale of the fit *)
Theorem C94_log_cumulants :
  forall m m' g nrep n j1 j2 wd d c c' r,
  regular m g nrep -> regular m' g nrep -> counted m -> counted m' ->
  (1 <= j1)%Z -> (j1 < j2)%Z -> (j2 <= Z.of_nat g)%Z -> (r < nrep)%nat ->
  close_quantities d m m' j1 j2 r -> 0 <= d ->
  Cumulants m n j1 j2 wd = Ok c -> Cumulants m' n j1 j2 wd = Ok c' ->
  let sd := spread wd m j1 j2 r in
  ((1 <= n)%nat -> moves_at_most (d / sd) (at2 (cu_log_cumulants c) 0 r) (at2 (cu_log_cumulants c') 0 r)) /\
  ((2 <= n)%nat -> forall S, (forall j, (j1 <= j <= j2)%Z -> sqrt (central 2 (logs m j r)) <= S) ->
     moves_at_most (d * (2 * S + d * ln 2) / sd) (at2 (cu_log_cumulants c) 1 r) (at2 (cu_log_cumulants c') 1 r)).
Proof.
  intros m m' g nrep n j1 j2 wd d c c' r HR HR' HC HC' H1 H2 H3 Hr HQ Hd E E'. cbn zeta.
  assert (L := ln2_pos). assert (LE := log2e_ln2).
  assert (Pe : 0 < log2_e) by (destruct (Rle_dec log2_e 0); [nra|lra]).
  set (sd := spread wd m j1 j2 r).
  assert (Row : forall k, (1 <= k <= n)%nat ->
     at2 (cu_log_cumulants c) (k - 1) r = xmul (fslope wd m j1 j2 r (Cval m n k r)) (Fin log2_e) /\
     at2 (cu_log_cumulants c') (k - 1) r = xmul (fslope wd m' j1 j2 r (Cval m' n k r)) (Fin log2_e)).
  { intros k Hk. split.
    - now destruct (CUM_rows m g nrep n j1 j2 wd c HR H1 ltac:(lia) H3 E k r Hk Hr) as (_ & _ & _ & ->).
    - now destruct (CUM_rows m' g nrep n j1 j2 wd c' HR' H1 ltac:(lia) H3 E' k r Hk Hr) as (_ & _ & _ & ->). }
  assert (Nr := st_near m m' j1 j2 d r HQ). split.
  - intros Hn. destruct (Row 1%nat ltac:(lia)) as [R1 R2]. cbn [Nat.sub] in R1, R2. rewrite R1, R2.
    replace (d / sd) with (d * ln 2 / sd * log2_e) by (transitivity (d / sd * (log2_e * ln 2)); [unfold Rdiv; ring|rewrite LE; ring]).
    apply moves_scaled; trivial. apply (st_cum m m' g nrep j1 j2 wd d r); trivial; [lia|].
    intros j Hj NE Z. destruct (Nr j Hj) as (N & N' & F). unfold Cval.
    rewrite (cum1_value (column m j r)) by (trivial; lia).
    rewrite (cum1_value (column m' j r)); [|trivial|now apply (near_nil d _ _ F)|now apply (near_Forall d _ _ F)|lia].
    eexists; eexists. split; [reflexivity|]. split; [reflexivity|].
    apply mean_near; [unfold lnl; fold (numbers m j r); destruct (numbers m j r); [congruence|discriminate]|]. apply (near_logs d); trivial.
  - intros Hn S HS. destruct (Row 2%nat ltac:(lia)) as [R1 R2]. cbn [Nat.sub] in R1, R2. rewrite R1, R2.
    replace (d * (2 * S + d * ln 2) / sd) with (d * ln 2 * (2 * S + d * ln 2) / sd * log2_e)
      by (transitivity (d * (2 * S + d * ln 2) / sd * (log2_e * ln 2)); [unfold Rdiv; ring|rewrite LE; ring]).
    apply moves_scaled; trivial. apply (st_cum m m' g nrep j1 j2 wd d r); trivial; [lia|].
    intros j Hj NE Z. destruct (Nr j Hj) as (N & N' & F). unfold Cval.
    rewrite (cum2_value (column m j r)) by (trivial; lia).
    rewrite (cum2_value (column m' j r)); [|trivial|now apply (near_nil d _ _ F)|now apply (near_Forall d _ _ F)|lia].
    eexists; eexists. split; [reflexivity|]. split; [reflexivity|].
    eapply Rle_trans.
    + apply variance_near; [|apply (near_logs d); eassumption]. fold (numbers m j r). destruct (numbers m j r); [congruence|discriminate].
    + apply Rmult_le_compat_l; [apply Rmult_le_pos; lra|]. assert (K := HS j Hj). change (central 2 (logs m j r)) with (variance (lnl (reals (column m j r)))) in K.
      unfold lnl in *. fold (numbers m j r) in *. lra.
Qed.
Print Assumptions C94_log_cumulants.

(** the deviation of n consecutive scales, unweighted: sqrt ((n^2 - 1) / 12) *)
Lemma zsums a n : Rsum (map (fun _ => 1) (zrange a (a + Z.of_nat n))) = INR n /\
  Rsum (map IZR (zrange a (a + Z.of_nat n))) = INR n * IZR a + INR n * (INR n - 1) / 2 /\
  Rsum (map (fun j => IZR j * IZR j) (zrange a (a + Z.of_nat n)))
   = INR n * IZR a * IZR a + IZR a * INR n * (INR n - 1) + (INR n - 1) * INR n * (2 * INR n - 1) / 6.
Proof.
  unfold zrange. replace (Z.to_nat (a + Z.of_nat n - a)) with n by lia. rewrite !map_map.
  induction n as [|n (A & B & C0)].
  - simpl. repeat split; lra.
  - rewrite seq_S. rewrite !map_app, !Rsum_app, A, B, C0. cbn [map Rsum fold_right]. rewrite Nat.add_0_l.
    rewrite plus_IZR, <- INR_IZR_INZ, S_INR. repeat split; field.
Qed.
Theorem C94_spread_unweighted : forall m j1 j2 r, (j1 <= j2)%Z ->
  spread false m j1 j2 r = sqrt ((IZR (j2 - j1 + 1) ^ 2 - 1) / 12).
Proof.
  intros m j1 j2 r H. unfold spread, wavg, weight. set (n := Z.to_nat (j2 - j1 + 1)).
  replace (j2 + 1)%Z with (j1 + Z.of_nat n)%Z by lia. destruct (zsums j1 n) as (A & B & C0).
  assert (P : 0 < INR n) by (apply lt_0_INR; lia).
  set (js := zrange j1 (j1 + Z.of_nat n)) in *. rewrite A.
  rewrite (Rsum_map_ext (fun j => 1 * IZR j) IZR) by (intros; ring). rewrite B.
  set (mu := (INR n * IZR j1 + INR n * (INR n - 1) / 2) / INR n).
  rewrite (Rsum_map_ext _ (fun j => IZR j * IZR j + (- 2 * mu * IZR j + mu * mu * 1))) by (intros; ring).
  rewrite !Rsum_map_plus, !Rsum_map_scal, A, B, C0.
  replace (IZR (j2 - j1 + 1)) with (INR n) by (rewrite INR_IZR_INZ; f_equal; lia).
  f_equal. unfold mu. field. lra.
Qed.
Print Assumptions C94_spread_unweighted.

(** the hypotheses are met: the demo quantity against a perturbed copy *)
Definition demo2 : mrq :=
  add_values (add_values (add_values (new_mrq WaveletCoef 0)
    [[Fin 4; NaN; Fin 1]; [Fin 1; Fin (-2); Fin 3]] 1)
    [[Fin 4; Fin (-3)]; [Fin 10; NaN]] 2)
    [[Fin (-8)]; [Fin 5]] 3.
Example demo_close : regular demo2 3 2 /\ counted demo2 /\ mq_gamint demo = mq_gamint demo2 /\
  (forall r, (r < 2)%nat -> close_quantities 1 demo demo2 1 3 r) /\
  (forall wd, 0 < spread wd demo 1 3 0) /\ spread false demo 1 3 0 = sqrt (2 / 3).
Proof.
  split; [|split; [|split; [reflexivity|split; [|split]]]].
  - split; [lia|]. split; [reflexivity|]. split; [reflexivity|]. intros j a E.
    cbn in E. repeat (destruct (_ =? _)%Z in E; [injection E as <-; reflexivity|]). discriminate.
  - intros j a E. cbn in *. repeat (destruct (_ =? _)%Z; [injection E as <-; reflexivity|]). discriminate.
  - intros r Hr j Hj. assert (W : forall a b, Rabs a <= 2 * Rabs b -> Rabs b <= 2 * Rabs a -> within 1 (Fin a) (Fin b)).
    { intros a b A B. right. exists a, b. rewrite Rpower_1 by lra. auto. }
    assert (V : within 1 NaN NaN) by (left; auto).
    destruct (demo_scale j Hj) as [-> | [-> | ->]]; (destruct r as [|[|]]; [| |lia]); cbn;
      repeat (constructor; [first [exact V|apply W; unfold Rabs; repeat destruct (Rcase_abs _); lra]|]); constructor.
  - intros wd. apply (spread_eq wd demo 1 3 0 (fun _ => 0)). apply fit_well_posed; [lia|].
    intros j Hj. apply (demo_usable j 0 Hj). lia.
  - rewrite C94_spread_unweighted by lia. f_equal. simpl. field.
Qed.
