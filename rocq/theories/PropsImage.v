(** * C123: statistics of the images of mrw2D *)
From Coq Require Import Reals List ZArith Bool Lia Lra String.
From Verif Require Import XReal PyBase ModelSimul ModelPlot Model2D Spec SpecSimul LXReal LDft LSimul LNoise LWick LDft2 Spec2D LFract LCov2 Props2D PropsMrwStat.
Import ListNotations.
Open Scope R_scope.
Local Notation length := List.length.

(** ** Specification *)
(** the entries of the complex noise and the pixels of the real one *)
Definition fidx (N nr : nat) (i : nat * nat * nat * bool) : Prop := let '(k1, k2, r, _) := i in (k1 < N)%nat /\ (k2 < N)%nat /\ (r < nr)%nat.
Definition fvar {W} (z : W -> nat -> nat -> nat -> R * R) (i : nat * nat * nat * bool) (w : W) : R := let '(k1, k2, r, im) := i in if im then snd (z w k1 k2 r) else fst (z w k1 k2 r).
Definition pidx (N nr : nat) (i : nat * nat * nat) : Prop := let '(a, b, r) := i in (a < N)%nat /\ (b < N)%nat /\ (r < nr)%nat.
Definition pvar {W} (x : W -> nat -> nat -> nat -> R) (i : nat * nat * nat) (w : W) : R := let '(a, b, r) := i in x w a b r.
(** independent Gaussian noises: complex for the log-volatility, real for the increments *)
Definition gaussian_fields {W} (P : expectation W) (N nr : nat) (z : W -> nat -> nat -> nat -> R * R) (x : W -> nat -> nat -> nat -> R) : Prop :=
  white_field P N nr z /\ exp_moments P (fidx N nr) (fvar z) /\ white P (pidx N nr) (pvar x) /\ gaussian4 P (pidx N nr) (pvar x) /\ independent_exp P (pidx N nr) (pvar x) (fidx N nr) (fvar z).
(** the runs of mrw2D: Y is the motion and X are its increments *)
Definition image_run {W} (P : expectation W) (sh : shape_arg) (H lam L sigma : R) (z : W -> nat -> nat -> nat -> R * R) (x0 : W -> nat -> nat -> nat -> R) (Y X : W -> nat -> nat -> nat -> R) : Prop :=
  (1 <= shape_N sh)%nat /\ gaussian_fields P (even_size (shape_N sh)) (shape_R sh) z x0 /\
  forall w, mrw2D sh H lam L sigma (z w) (x0 w) = Ok (A3 (even_size (shape_N sh)) (even_size (shape_N sh)) (shape_R sh) (Y w), A3 (even_size (shape_N sh)) (even_size (shape_N sh)) (shape_R sh) (X w)).
(** covariance of the log-volatility between the pixels (a, b) and (c, d): the one of C82 *)
Definition image_vol (N : nat) (lam L : R) (a b c d : nat) : R := / INR N ^ 4 * grid_sum N (fun k1 k2 => Rabs (log_spectrum N lam L k1 k2) * cos (phase N k1 k2 a b - phase N k1 k2 c d)).
(** energy of the frequency (k1, k2) of an image *)
Definition energy (N : nat) (x : nat -> nat -> R) (k1 k2 : nat) : R := cosine_coef N x k1 k2 ^ 2 + sine_coef N x k1 k2 ^ 2.

(** ** Products of combinations of one noise with the exponential of a combination of the other *)
Section Joint.
Context {W I J : Type} (P : expectation W) (idx : I -> Prop) (x : I -> W -> R) (jdx : J -> Prop) (y : J -> W -> R).
Hypothesis Hw : white P idx x.
Hypothesis H4 : gaussian4 P idx x.
Hypothesis HI : independent_exp P idx x jdx y.
Notation combe := (combination idx x).
Notation combw := (combination jdx y).
Lemma gjoint1 f g : combe f -> combw g -> integrable P (fun w => f w * exp (g w)) /\ E P (fun w => f w * exp (g w)) = 0.
Proof using Hw HI.
  intros Hf Hg. destruct (HI f g 1%nat ltac:(lia) Hf Hg) as [I1 V1].
  assert (G : forall w, f w ^ 1 * exp (g w) = f w * exp (g w)) by (intros; ring).
  split; [exact (int_ext W P _ _ G I1)|]. rewrite <- (E_ext W P _ _ G), V1. rewrite (E_ext W P (fun w => f w ^ 1) f) by (intros; ring).
  rewrite (proj2 (comb_int _ _ P Hw f Hf)). ring.
Qed.
Lemma gjoint2 f f' g : combe f -> combe f' -> combw g -> integrable P (fun w => f w * f' w * exp (g w)) /\ E P (fun w => f w * f' w * exp (g w)) = E P (fun w => f w * f' w) * E P (fun w => exp (g w)).
Proof using Hw HI.
  intros Hf Hf' Hg.
  destruct (HI _ g 2%nat ltac:(lia) (comb_plus _ _ f f' Hf Hf') Hg) as [I1 V1]. destruct (HI _ g 2%nat ltac:(lia) (comb_sub _ _ f f' Hf Hf') Hg) as [I2 V2]. cbv beta in *.
  assert (S2 : forall s, integrable P (fun w => (f w + s * f' w) ^ 2) /\ E P (fun w => (f w + s * f' w) ^ 2) = E P (fun w => f w * f w) + 2 * s * E P (fun w => f w * f' w) + s * s * E P (fun w => f' w * f' w)).
  { intros s. assert (A := comb_int2 _ _ P Hw f f Hf Hf). assert (B := comb_int2 _ _ P Hw f f' Hf Hf'). assert (C := comb_int2 _ _ P Hw f' f' Hf' Hf').
    assert (J1 := int_scal W P (2 * s) _ B). assert (J2 := int_scal W P (s * s) _ C). cbv beta in J1, J2. assert (K1 := int_plus W P _ _ J1 J2). cbv beta in K1.
    assert (G : forall w, f w * f w + (2 * s * (f w * f' w) + s * s * (f' w * f' w)) = (f w + s * f' w) ^ 2) by (intros; ring).
    split; [apply (int_ext W P _ _ G); now apply int_plus|]. rewrite <- (E_ext W P _ _ G), (E_plus W P _ _ A K1), (E_plus W P _ _ J1 J2), (E_scal W P _ _ B), (E_scal W P _ _ C). ring. }
  rewrite (E_ext W P (fun w => (f w + f' w) ^ 2) (fun w => (f w + 1 * f' w) ^ 2)) in V1 by (intros; ring). rewrite (proj2 (S2 1)) in V1.
  rewrite (E_ext W P (fun w => (f w - f' w) ^ 2) (fun w => (f w + -1 * f' w) ^ 2)) in V2 by (intros; ring). rewrite (proj2 (S2 (-1))) in V2.
  assert (G : forall w, / 4 * ((f w + f' w) ^ 2 * exp (g w)) + - / 4 * ((f w - f' w) ^ 2 * exp (g w)) = f w * f' w * exp (g w)) by (intros; field).
  assert (J1 := int_scal W P (/ 4) _ I1). assert (J2 := int_scal W P (- / 4) _ I2). cbv beta in J1, J2.
  split; [apply (int_ext W P _ _ G); now apply int_plus|]. rewrite <- (E_ext W P _ _ G), (E_plus W P _ _ J1 J2), (E_scal W P _ _ I1), (E_scal W P _ _ I2), V1, V2. field.
Qed.
Lemma gjoint4 f f' g : combe f -> combe f' -> combw g ->
  integrable P (fun w => (f w * f w) * (f' w * f' w) * exp (g w)) /\
  E P (fun w => (f w * f w) * (f' w * f' w) * exp (g w)) = (E P (fun w => f w * f w) * E P (fun w => f' w * f' w) + 2 * E P (fun w => f w * f' w) ^ 2) * E P (fun w => exp (g w)).
Proof using Hw H4 HI.
  intros Hf Hf' Hg.
  destruct (comb_wick _ _ P Hw H4 f f' Hf Hf') as [_ VW].
  assert (Hp := comb_plus _ _ f f' Hf Hf'). assert (Hm := comb_sub _ _ f f' Hf Hf').
  destruct (HI _ g 4%nat ltac:(lia) Hp Hg) as [I1 V1]. destruct (HI _ g 4%nat ltac:(lia) Hm Hg) as [I2 V2].
  destruct (HI _ g 4%nat ltac:(lia) Hf Hg) as [I3 V3]. destruct (HI _ g 4%nat ltac:(lia) Hf' Hg) as [I4 V4]. cbv beta in *.
  assert (G : forall w, / 12 * ((f w + f' w) ^ 4 * exp (g w) + (f w - f' w) ^ 4 * exp (g w)) + - / 6 * (f w ^ 4 * exp (g w) + f' w ^ 4 * exp (g w)) = (f w * f w) * (f' w * f' w) * exp (g w)) by (intros; field).
  assert (G' : forall w, / 12 * ((f w + f' w) ^ 4 + (f w - f' w) ^ 4) + - / 6 * (f w ^ 4 + f' w ^ 4) = f w * f w * (f' w * f' w)) by (intros; field).
  assert (K1 := int_plus W P _ _ I1 I2). assert (K2 := int_plus W P _ _ I3 I4). cbv beta in K1, K2. assert (J1 := int_scal W P (/ 12) _ K1). assert (J2 := int_scal W P (- / 6) _ K2). cbv beta in J1, J2.
  split; [apply (int_ext W P _ _ G); now apply int_plus|]. rewrite <- VW, <- (E_ext W P _ _ G), <- (E_ext W P _ _ G').
  assert (F : forall h, combe h -> integrable P (fun w => h w ^ 4)) by (intros h Hh; now apply H4).
  assert (K1' := int_plus W P _ _ (F _ Hp) (F _ Hm)). assert (K2' := int_plus W P _ _ (F _ Hf) (F _ Hf')). cbv beta in K1', K2'. assert (J1' := int_scal W P (/ 12) _ K1'). assert (J2' := int_scal W P (- / 6) _ K2'). cbv beta in J1', J2'.
  rewrite (E_plus W P _ _ J1 J2), (E_scal W P _ _ K1), (E_scal W P _ _ K2), (E_plus W P _ _ I1 I2), (E_plus W P _ _ I3 I4), V1, V2, V3, V4.
  rewrite (E_plus W P _ _ J1' J2'), (E_scal W P _ _ K1'), (E_scal W P _ _ K2'), (E_plus W P _ _ (F _ Hp) (F _ Hm)), (E_plus W P _ _ (F _ Hf) (F _ Hf')). ring.
Qed.
End Joint.
Lemma lin_comb {W I} (idx : I -> Prop) (z : I -> W -> R) l a : Forall idx l -> combination idx z (lin z l a).
Proof.
  intros F. exists (map (fun i => (a i, i)) l). split; [intros p Hp; apply in_map_iff in Hp as (i & <- & Hi); rewrite Forall_forall in F; now apply F|].
  intros w. unfold lin. now rewrite map_map.
Qed.

Lemma sumn_Rabs n f : Rabs (sumn n f) <= sumn n (fun i => Rabs (f i)).
Proof. induction n as [|n IH]; [rewrite !sumn_0, Rabs_R0; lra|]. rewrite !sumn_S. eapply Rle_trans; [apply Rabs_triang|]. lra. Qed.
Lemma exp_le x y : x <= y -> exp x <= exp y.
Proof. intros [H| ->]; [left; now apply exp_increasing|right; reflexivity]. Qed.
Section Image.
Context {W : Type} (P : expectation W) (sh : shape_arg) (H lam L sigma : R) (z : W -> nat -> nat -> nat -> R * R) (x0 : W -> nat -> nat -> nat -> R) (Y X : W -> nat -> nat -> nat -> R).
Hypothesis RUN : image_run P sh H lam L sigma z x0 Y X.
Let N := even_size (shape_N sh).
Let nr := shape_R sh.
Let om (w : W) (a b r : nat) : R := log_vol2d N lam L (fun i j => z w i j r) a b.
Let vol := image_vol N lam L.
Let v := vol 0%nat 0%nat 0%nat 0%nat.
Lemma N1 : (1 <= N)%nat.
Proof. destruct RUN as (Hn & _). pose proof (even_size_ge (shape_N sh)). unfold N. lia. Qed.
Lemma NE : Nat.even N = true.
Proof. apply even_size_even. Qed.
Lemma X_eq w a b r : X w a b r = x0 w a b r * exp (om w a b r).
Proof.
  destruct RUN as (Hn & _ & E). destruct (mrw2D_eq sh H lam L sigma (z w) (x0 w) Hn) as (y & _ & E2). rewrite E in E2. injection E2 as _ EX.
  exact (f_equal (fun g => g a b r) EX).
Qed.
Lemma om_comb a b r : (r < nr)%nat -> combination (fidx N nr) (fvar z) (fun w => om w a b r).
Proof.
  intros Hr. eapply comb_ext; [intros w; exact (omega_lin N N1 lam L nr z a b r w Hr)|]. exact (lin_comb (fidx N nr) (fvar z) (indices N nr) _ (indices_ok N N1 nr)).
Qed.
Lemma om_cov a b r c d s : (r < nr)%nat -> (s < nr)%nat -> integrable P (fun w => om w a b r * om w c d s) /\ E P (fun w => om w a b r * om w c d s) = if Nat.eq_dec r s then vol a b c d else 0.
Proof.
  intros Hr Hs. destruct RUN as (_ & (HZ & _) & _). destruct (omega_cov N N1 NE lam L P nr z HZ a b r c d s Hr Hs) as [A B]. split; [exact A|].
  unfold Cov in B. rewrite (proj2 (omega_mean N N1 lam L P nr z HZ a b r Hr)), Rmult_0_l, Rminus_0_r in B. exact B.
Qed.
Lemma vol_diag a b : vol a b a b = v.
Proof. unfold v, vol, image_vol. f_equal. rewrite !grid_sum_eq. apply sum2_ext. intros k1 k2 _ _. now rewrite !Rminus_eq_0. Qed.
Lemma exp_om s a b r c d q : (r < nr)%nat -> (q < nr)%nat -> E P (fun w => exp (s * (om w a b r + om w c d q))) = exp (s ^ 2 * (v + (if Nat.eq_dec r q then vol a b c d else 0))).
Proof.
  intros Hr Hq. destruct RUN as (_ & (_ & HE & _) & _). destruct (HE _ (comb_scal _ _ s _ (comb_plus _ _ _ _ (om_comb a b r Hr) (om_comb c d q Hq)))) as [_ V]. rewrite V. f_equal.
  destruct (om_cov a b r a b r Hr Hr) as [I1 V1]. destruct (om_cov a b r c d q Hr Hq) as [I2 V2]. destruct (om_cov c d q c d q Hq Hq) as [I3 V3].
  destruct (Nat.eq_dec r r) as [_|n]; [|now elim n]. destruct (Nat.eq_dec q q) as [_|n]; [|now elim n]. rewrite vol_diag in V1, V3.
  assert (G : forall w, s ^ 2 * (om w a b r * om w a b r + (2 * (om w a b r * om w c d q) + om w c d q * om w c d q)) = (s * (om w a b r + om w c d q)) ^ 2) by (intros; ring).
  assert (J2 := int_scal W P 2 _ I2). cbv beta in J2. assert (K2 := int_plus W P _ _ J2 I3). cbv beta in K2. assert (K1 := int_plus W P _ _ I1 K2). cbv beta in K1.
  rewrite <- (E_ext W P _ _ G), (E_scal W P _ _ K1), (E_plus W P _ _ I1 K2), (E_plus W P _ _ J2 I3), (E_scal W P _ _ I2), V1, V2, V3. field.
Qed.
Let same (a b r c d s : nat) : bool := (Nat.eqb a c && Nat.eqb b d && Nat.eqb r s)%bool.
Lemma x0_comb a b r : (a < N)%nat -> (b < N)%nat -> (r < nr)%nat -> combination (pidx N nr) (pvar x0) (fun w => x0 w a b r).
Proof. intros Ha Hb Hr. exact (comb_gen (pidx N nr) (pvar x0) (a, b, r) (Logic.conj Ha (Logic.conj Hb Hr))). Qed.
Lemma x0_cov a b r c d s : (a < N)%nat -> (b < N)%nat -> (r < nr)%nat -> (c < N)%nat -> (d < N)%nat -> (s < nr)%nat -> E P (fun w => x0 w a b r * x0 w c d s) = if same a b r c d s then 1 else 0.
Proof.
  intros Ha Hb Hr Hc Hd Hs. destruct RUN as (_ & (_ & _ & (_ & H2) & _) & _). destruct (H2 (a, b, r) (c, d, s) (Logic.conj Ha (Logic.conj Hb Hr)) (Logic.conj Hc (Logic.conj Hd Hs))) as (_ & A & B). unfold same.
  destruct (Nat.eqb_spec a c) as [->|n1]; [|apply B; congruence]. destruct (Nat.eqb_spec b d) as [->|n2]; [|apply B; congruence]. destruct (Nat.eqb_spec r s) as [->|n3]; [|apply B; congruence]. now apply A.
Qed.
(** the increments are centred and uncorrelated, with the same variance *)
Theorem C123_white a b r c d s : (a < N)%nat -> (b < N)%nat -> (r < nr)%nat -> (c < N)%nat -> (d < N)%nat -> (s < nr)%nat ->
  integrable P (fun w => X w a b r) /\ E P (fun w => X w a b r) = 0 /\
  integrable P (fun w => X w a b r * X w c d s) /\ E P (fun w => X w a b r * X w c d s) = if (Nat.eqb a c && Nat.eqb b d && Nat.eqb r s)%bool then exp (2 * image_vol N lam L 0 0 0 0) else 0.
Proof.
  intros Ha Hb Hr Hc Hd Hs. destruct RUN as (_ & (_ & _ & Hw & H4 & HI) & _). fold N nr in Hw, H4, HI.
  destruct (gjoint1 P _ _ _ _ Hw HI _ _ (x0_comb a b r Ha Hb Hr) (om_comb a b r Hr)) as [I1 V1].
  destruct (gjoint2 P _ _ _ _ Hw HI _ _ _ (x0_comb a b r Ha Hb Hr) (x0_comb c d s Hc Hd Hs) (comb_scal _ _ 1 _ (comb_plus _ _ _ _ (om_comb a b r Hr) (om_comb c d s Hs)))) as [I2 V2].
  assert (G1 : forall w, x0 w a b r * exp (om w a b r) = X w a b r) by (intros; now rewrite X_eq).
  assert (G2 : forall w, x0 w a b r * x0 w c d s * exp (1 * (om w a b r + om w c d s)) = X w a b r * X w c d s) by (intros; rewrite !X_eq, Rmult_1_l, exp_plus; ring).
  split; [exact (int_ext W P _ _ G1 I1)|]. split; [now rewrite <- (E_ext W P _ _ G1)|]. split; [exact (int_ext W P _ _ G2 I2)|]. rewrite <- (E_ext W P _ _ G2), V2, x0_cov by trivial. unfold same.
  destruct (Nat.eqb_spec a c) as [<-|n1]; [|cbn [andb]; ring]. destruct (Nat.eqb_spec b d) as [<-|n2]; [|cbn [andb]; ring]. destruct (Nat.eqb_spec r s) as [<-|n3]; [|cbn [andb]; ring]. cbn [andb]. rewrite exp_om by trivial.
  destruct (Nat.eq_dec r r) as [_|n]; [|now elim n]. rewrite vol_diag, Rmult_1_l. f_equal. unfold v, vol. ring.
Qed.
(** their squares are correlated through the log-volatility; their fourth moment *)
Theorem C123_squares a b r c d s : (a < N)%nat -> (b < N)%nat -> (r < nr)%nat -> (c < N)%nat -> (d < N)%nat -> (s < nr)%nat -> let u := image_vol N lam L 0 0 0 0 in
  integrable P (fun w => X w a b r ^ 2 * X w c d s ^ 2) /\
  E P (fun w => X w a b r ^ 2 * X w c d s ^ 2) = if (Nat.eqb a c && Nat.eqb b d && Nat.eqb r s)%bool then 3 * exp (8 * u) else exp (4 * u + 4 * (if Nat.eqb r s then image_vol N lam L a b c d else 0)).
Proof.
  intros Ha Hb Hr Hc Hd Hs u. destruct RUN as (_ & (_ & _ & Hw & H4 & HI) & _). fold N nr in Hw, H4, HI.
  destruct (gjoint4 P _ _ _ _ Hw H4 HI _ _ _ (x0_comb a b r Ha Hb Hr) (x0_comb c d s Hc Hd Hs) (comb_scal _ _ 2 _ (comb_plus _ _ _ _ (om_comb a b r Hr) (om_comb c d s Hs)))) as [I2 V2].
  assert (G2 : forall w, x0 w a b r * x0 w a b r * (x0 w c d s * x0 w c d s) * exp (2 * (om w a b r + om w c d s)) = X w a b r ^ 2 * X w c d s ^ 2).
  { intros; rewrite !X_eq. replace (2 * (om w a b r + om w c d s)) with (om w a b r + om w a b r + (om w c d s + om w c d s)) by ring. rewrite !exp_plus; ring. }
  split; [exact (int_ext W P _ _ G2 I2)|]. rewrite <- (E_ext W P _ _ G2), V2, !x0_cov, exp_om by trivial. unfold same. rewrite !Nat.eqb_refl. cbn [andb].
  destruct (Nat.eqb_spec r s) as [<-|n3]; destruct (Nat.eq_dec r _) as [e|n]; try congruence.
  - destruct (Nat.eqb_spec a c) as [<-|n1]; [destruct (Nat.eqb_spec b d) as [<-|n2]|]; cbn [andb].
    + rewrite vol_diag. replace (2 ^ 2 * (v + v)) with (8 * u) by (unfold u, v, vol; ring). ring.
    + replace (2 ^ 2 * (v + vol a b a d)) with (4 * u + 4 * image_vol N lam L a b a d) by (unfold u, v, vol; ring). ring.
    + replace (2 ^ 2 * (v + vol a b c d)) with (4 * u + 4 * image_vol N lam L a b c d) by (unfold u, v, vol; ring). ring.
  - rewrite andb_false_r. replace (2 ^ 2 * (v + 0)) with (4 * u + 4 * 0) by (unfold u, v, vol; ring). ring.
Qed.
(** the flatness of the increments, and the correlation of their squares over the square of their mean: at most L^(4 lam^2 / N), where the multifractal random walk has 3 L^(4 lam^2) and (L / (1 + distance))^(4 lam^2) *)
Lemma vol_abs a b c d : Rabs (vol a b c d) <= v.
Proof.
  assert (PN : 0 < INR N ^ 4) by (apply pow_lt, lt_0_INR; pose proof N1; lia). unfold v, vol, image_vol. rewrite !grid_sum_eq, Rabs_mult, (Rabs_pos_eq (/ _)) by (left; now apply Rinv_0_lt_compat). apply Rmult_le_compat_l; [left; now apply Rinv_0_lt_compat|].
  unfold sum2. eapply Rle_trans; [apply sumn_Rabs|]. apply sumn_le. intros k1 _. eapply Rle_trans; [apply sumn_Rabs|]. apply sumn_le. intros k2 _.
  rewrite Rabs_mult, Rabs_Rabsolu. apply Rmult_le_compat_l; [apply Rabs_pos|]. rewrite Rminus_eq_0, cos_0. apply Rabs_le. assert (Q := COS_bound (phase N k1 k2 a b - phase N k1 k2 c d)). lra.
Qed.
Lemma v_bound : 0 <= v <= lam ^ 2 * log_plus L / INR N.
Proof. split; [eapply Rle_trans; [apply Rabs_pos|apply (vol_abs 0 0 0 0)]|]. exact (cov2_bound N N1 NE lam L 0 0). Qed.
Theorem C123_flatness a b r : (a < N)%nat -> (b < N)%nat -> (r < nr)%nat -> 1 <= L ->
  3 <= E P (fun w => X w a b r ^ 4) / E P (fun w => X w a b r ^ 2) ^ 2 <= 3 * Rpower L (4 * lam ^ 2 / INR N).
Proof.
  intros Ha Hb Hr HL. destruct (C123_white a b r a b r Ha Hb Hr Ha Hb Hr) as (_ & _ & _ & V2). destruct (C123_squares a b r a b r Ha Hb Hr Ha Hb Hr) as (_ & V4). cbv zeta in V4. rewrite !Nat.eqb_refl in V2, V4. cbn [andb] in V2, V4.
  rewrite (E_ext W P (fun w => X w a b r ^ 4) (fun w => X w a b r ^ 2 * X w a b r ^ 2)) by (intros; ring). rewrite (E_ext W P (fun w => X w a b r ^ 2) (fun w => X w a b r * X w a b r)) by (intros; ring). rewrite V2, V4.
  change (image_vol N lam L 0 0 0 0) with v. destruct v_bound as [B0 B1].
  replace (3 * exp (8 * v) / exp (2 * v) ^ 2) with (3 * exp (4 * v)).
  2:{ replace (8 * v) with (4 * v + (2 * v + 2 * v)) by ring. rewrite !exp_plus. field. apply Rgt_not_eq, exp_pos. }
  assert (LP : log_plus L = ln L) by (unfold log_plus; destruct (Rle_dec 1 L); [reflexivity|lra]). rewrite LP in B1. split.
  - assert (1 <= exp (4 * v)); [|lra]. rewrite <- exp_0. apply exp_le. lra.
  - apply Rmult_le_compat_l; [lra|]. unfold Rpower. apply exp_le. apply Rle_trans with (4 * (lam ^ 2 * ln L / INR N)); [lra|]. right. unfold Rdiv. ring.
Qed.
Theorem C123_volatility_correlation a b r c d s : (a < N)%nat -> (b < N)%nat -> (r < nr)%nat -> (c < N)%nat -> (d < N)%nat -> (s < nr)%nat -> (a, b, r) <> (c, d, s) -> 1 <= L ->
  Rpower L (- (4 * lam ^ 2 / INR N)) <= E P (fun w => X w a b r ^ 2 * X w c d s ^ 2) / (E P (fun w => X w a b r ^ 2) * E P (fun w => X w c d s ^ 2)) <= Rpower L (4 * lam ^ 2 / INR N).
Proof.
  intros Ha Hb Hr Hc Hd Hs ne HL. destruct (C123_white a b r a b r Ha Hb Hr Ha Hb Hr) as (_ & _ & _ & V2). destruct (C123_white c d s c d s Hc Hd Hs Hc Hd Hs) as (_ & _ & _ & V2'). destruct (C123_squares a b r c d s Ha Hb Hr Hc Hd Hs) as (_ & V4). cbv zeta in V4. rewrite !Nat.eqb_refl in V2, V2'. cbn [andb] in V2, V2'.
  rewrite (E_ext W P (fun w => X w a b r ^ 2) (fun w => X w a b r * X w a b r)) by (intros; ring). rewrite (E_ext W P (fun w => X w c d s ^ 2) (fun w => X w c d s * X w c d s)) by (intros; ring). rewrite V2, V2', V4.
  change (image_vol N lam L 0 0 0 0) with v. change (image_vol N lam L a b c d) with (vol a b c d). destruct v_bound as [B0 B1]. assert (VA := vol_abs a b c d).
  destruct (_ && _)%bool eqn:eb; [exfalso; apply ne; apply andb_prop in eb as [eb e3]; apply andb_prop in eb as [e1 e2]; apply Nat.eqb_eq in e1, e2, e3; congruence|].
  set (k := if Nat.eqb r s then vol a b c d else 0). assert (KB : Rabs k <= v) by (unfold k; destruct (Nat.eqb r s); [trivial|now rewrite Rabs_R0]). clearbody k.
  replace (exp (4 * v + 4 * k) / (exp (2 * v) * exp (2 * v))) with (exp (4 * k)).
  2:{ replace (4 * v + 4 * k) with (4 * k + (2 * v + 2 * v)) by ring. rewrite !exp_plus. field. apply Rgt_not_eq, exp_pos. }
  assert (LP : log_plus L = ln L) by (unfold log_plus; destruct (Rle_dec 1 L); [reflexivity|lra]). rewrite LP in B1. replace (4 * lam ^ 2 / INR N) with (4 * (lam ^ 2 / INR N)) by (unfold Rdiv; ring).
  replace (lam ^ 2 * ln L / INR N) with (lam ^ 2 / INR N * ln L) in B1 by (unfold Rdiv; ring). unfold Rpower. assert (K1 := Rle_abs k). assert (K2 := Rle_abs (- k)). rewrite Rabs_Ropp in K2. split; apply exp_le; lra.
Qed.
(** ** The spectrum *)
Lemma white_pixels r : (r < nr)%nat -> white P (fun i : nat * nat => (fst i < N)%nat /\ (snd i < N)%nat) (fun i w => exp (- v) * X w (fst i) (snd i) r).
Proof.
  intros Hr. assert (K : exp (- v) * exp (- v) * exp (2 * v) = 1) by (rewrite <- !exp_plus; replace (- v + - v + 2 * v) with 0 by ring; apply exp_0). split.
  - intros [a b] [Ha Hb]. cbn [fst snd] in *. destruct (C123_white a b r a b r Ha Hb Hr Ha Hb Hr) as (I1 & V1 & _). split; [exact (int_scal W P (exp (- v)) _ I1)|]. rewrite (E_scal W P (exp (- v)) _ I1), V1. ring.
  - intros [a b] [c d] [Ha Hb] [Hc Hd]. cbn [fst snd] in *. destruct (C123_white a b r c d r Ha Hb Hr Hc Hd Hr) as (_ & _ & I2 & V2).
    assert (G : forall w, exp (- v) * exp (- v) * (X w a b r * X w c d r) = exp (- v) * X w a b r * (exp (- v) * X w c d r)) by (intros; ring).
    split; [exact (int_ext W P _ _ G (int_scal W P (exp (- v) * exp (- v)) _ I2))|]. rewrite <- (E_ext W P _ _ G), (E_scal W P _ _ I2), V2, Nat.eqb_refl, andb_true_r. change (image_vol N lam L 0 0 0 0) with v. split.
    + intros [= -> ->]. rewrite !Nat.eqb_refl. exact K.
    + intros ne. destruct (Nat.eqb_spec a c) as [->|n1]; [|cbn [andb]; ring]. destruct (Nat.eqb_spec b d) as [->|n2]; [now elim ne|cbn [andb]; ring].
Qed.
Lemma pixels_energy r t : (r < nr)%nat -> let S := fun w => grid_sum N (fun a b => X w a b r * t a b) in integrable P (fun w => S w ^ 2) /\ E P (fun w => S w ^ 2) = exp (2 * v) * grid_sum N (fun a b => t a b ^ 2).
Proof.
  intros Hr S. set (l := list_prod (seq 0 N) (seq 0 N)). set (zz := fun (i : nat * nat) w => exp (- v) * X w (fst i) (snd i) r). set (co := fun i : nat * nat => t (fst i) (snd i)).
  assert (F : Forall (fun i : nat * nat => (fst i < N)%nat /\ (snd i < N)%nat) l) by (apply Forall_forall; intros [a b] Hi; apply in_prod_iff in Hi as [A B]; apply in_seq in A, B; cbn [fst snd]; lia).
  assert (D : NoDup l) by (apply NoDup_prod; apply seq_NoDup).
  destruct (lin_lin P _ zz (white_pixels r Hr) l co co F D) as [I V].
  assert (SL : forall w, S w = exp v * lin zz l co w).
  { intros w. unfold S, grid_sum, lin. fold l. unfold Rsum. clear F D I V. induction l as [|i m IH]; cbn [map fold_right]; [ring|]. rewrite IH, Rmult_plus_distr_l. f_equal. unfold co, zz. assert (K : exp v * exp (- v) = 1) by (rewrite <- exp_plus, Rplus_opp_r; apply exp_0). replace (exp v * (t (fst i) (snd i) * (exp (- v) * X w (fst i) (snd i) r))) with (exp v * exp (- v) * (X w (fst i) (snd i) r * t (fst i) (snd i))) by ring. rewrite K. ring. }
  assert (G : forall w, exp (2 * v) * (lin zz l co w * lin zz l co w) = S w ^ 2) by (intros; rewrite SL; replace (2 * v) with (v + v) by ring; rewrite exp_plus; ring).
  split; [exact (int_ext W P _ _ G (int_scal W P (exp (2 * v)) _ I))|]. rewrite <- (E_ext W P _ _ G), (E_scal W P _ _ I), V. f_equal. unfold grid_sum, Rsum. fold l. f_equal. apply map_ext. intros i. unfold co. ring.
Qed.
(** the motion has the energy of fractional integration of order H + 1 of white noise: |k|^-(2 H + 2) *)
Theorem C123_spectrum r k1 k2 : (r < nr)%nat -> (k1 < N)%nat -> (k2 < N)%nat ->
  integrable P (fun w => energy N (fun a b => X w a b r) k1 k2) /\ E P (fun w => energy N (fun a b => X w a b r) k1 k2) = INR N ^ 2 * exp (2 * image_vol N lam L 0 0 0 0) /\
  integrable P (fun w => energy N (fun a b => Y w a b r) k1 k2) /\
  E P (fun w => energy N (fun a b => Y w a b r) k1 k2) = INR N ^ 2 * exp (2 * image_vol N lam L 0 0 0 0) * (if (Nat.eqb k1 0 && Nat.eqb k2 0)%bool then 1 else Rpower (sqrt (freq_norm2 N k1 k2)) (- (2 * H + 2))).
Proof.
  intros Hr H1 H2. change (image_vol N lam L 0 0 0 0) with v.
  destruct (pixels_energy r (fun a b => cos (phase N k1 k2 a b)) Hr) as [Ic Vc]. destruct (pixels_energy r (fun a b => sin (phase N k1 k2 a b)) Hr) as [Is Vs]. cbv zeta in *.
  assert (EX : integrable P (fun w => energy N (fun a b => X w a b r) k1 k2) /\ E P (fun w => energy N (fun a b => X w a b r) k1 k2) = INR N ^ 2 * exp (2 * v)).
  { assert (I := int_plus W P _ _ Ic Is). cbv beta in I. split; [exact I|]. unfold energy, cosine_coef, sine_coef. rewrite (E_plus W P _ _ Ic Is), Vc, Vs, <- Rmult_plus_distr_l, (Rmult_comm (INR N ^ 2)). f_equal.
    rewrite !grid_sum_eq, <- sum2_plus. rewrite (sum2_ext N _ (fun _ _ => 1)); [rewrite (sum2_const N); ring|]. intros a b _ _. assert (Q := sin2_cos2 (phase N k1 k2 a b)). unfold Rsqr in Q. simpl pow. lra. }
  destruct EX as [I V]. split; [exact I|]. split; [exact V|].
  assert (EY : forall w, fract_gain N (H + 1) k1 k2 ^ 2 * energy N (fun a b => X w a b r) k1 k2 = energy N (fun a b => Y w a b r) k1 k2).
  { intros w. destruct RUN as (Hn & _ & R). destruct (C83_integral sh H lam L sigma (z w) (x0 w) Hn) as (y & x & Ew & C). rewrite R in Ew. injection Ew as EA EB. fold N in EA, EB, C.
    destruct (C r k1 k2 H1 H2) as [A B]. unfold energy. rewrite EA, EB, A, B. ring. }
  split; [exact (int_ext W P _ _ EY (int_scal W P _ _ I))|]. rewrite <- (E_ext W P _ _ EY), (E_scal W P _ _ I), V, Rmult_comm. f_equal. unfold fract_gain. destruct (Nat.eqb k1 0 && Nat.eqb k2 0)%bool eqn:Z; [ring|].
  assert (F0 : 0 < freq_norm2 N k1 k2).
  { unfold freq_norm2. assert (Q : IZR (centred N k1) ^ 2 + IZR (centred N k2) ^ 2 <> 0).
    { intros e. assert (q1 := pow2_ge_0 (IZR (centred N k1))). assert (q2 := pow2_ge_0 (IZR (centred N k2))). assert (e1 : IZR (centred N k1) ^ 2 = 0) by lra. assert (e2 : IZR (centred N k2) ^ 2 = 0) by lra.
      rewrite <- Rsqr_pow2 in e1, e2. apply Rsqr_0_uniq in e1, e2. apply (eq_IZR _ 0) in e1, e2. apply (proj1 (centred_zero N N1 k1 H1)) in e1. apply (proj1 (centred_zero N N1 k2 H2)) in e2. subst. discriminate. }
    assert (q1 := pow2_ge_0 (IZR (centred N k1))). assert (q2 := pow2_ge_0 (IZR (centred N k2))). lra. }
  rewrite <- (Rpower_sqrt _ F0), Rpower_mult. simpl pow. rewrite Rmult_1_r, <- Rpower_plus. f_equal. field.
Qed.
End Image.
