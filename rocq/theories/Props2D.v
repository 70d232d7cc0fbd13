(** * C81-C83: two-dimensional generators *)
From Coq Require Import Reals List ZArith Bool Lia Lra.
From Verif Require Import XReal PyBase ModelSimul ModelPlot Model2D Spec SpecSimul LXReal LDft LSimul LNoise LDft2 Spec2D LFract LCov2.
Import ListNotations.
Open Scope R_scope.

(** ** C81: fractional integration *)
Lemma fract_ok N nr x alpha : (1 <= N)%nat -> Nat.even N = true -> exists filt,
  fract_int_2d (A3 N N nr x) alpha = Ok (A3 N N nr (fun a b k => fract_apply N N filt (fun i j => x i j k) a b)) /\
  forall k1 k2, (k1 < N)%nat -> (k2 < N)%nat -> filt (shifted N k1) (shifted N k2) = fract_gain N alpha k1 k2.
Proof.
  intros HN Ev. destruct (fract_filter_eq N HN Ev alpha) as [filt [E F]]. exists filt. split; [|exact F]. unfold fract_int_2d. rewrite E. cbn [bind]. now rewrite Nat.eqb_refl.
Qed.
(** every Fourier coefficient of every realisation is multiplied by |k|^(-alpha), the one of frequency 0 by 1 *)
Theorem C81_spectrum : forall N nr x alpha, (1 <= N)%nat -> Nat.even N = true ->
  exists y, fract_int_2d (A3 N N nr x) alpha = Ok (A3 N N nr y) /\
  forall r k1 k2, (k1 < N)%nat -> (k2 < N)%nat ->
    cosine_coef N (fun a b => y a b r) k1 k2 = fract_gain N alpha k1 k2 * cosine_coef N (fun a b => x a b r) k1 k2 /\
    sine_coef N (fun a b => y a b r) k1 k2 = fract_gain N alpha k1 k2 * sine_coef N (fun a b => x a b r) k1 k2.
Proof.
  intros N nr x alpha HN Ev. destruct (fract_ok N nr x alpha HN Ev) as [filt [E F]]. eexists. split; [exact E|]. intros r k1 k2 H1 H2.
  pose proof (fract_apply_fft N HN Ev alpha filt F (fun a b => x a b r) k1 k2 H1 H2) as X. rewrite !fft2_coefs in X by trivial. injection X as X1 X2. split; [exact X1|]. apply (f_equal Ropp) in X2. rewrite Ropp_involutive in X2. etransitivity; [exact X2|]. cbn [snd]. ring.
Qed.
Lemma coefs_unique N nr x alpha y (H : forall r k1 k2, (k1 < N)%nat -> (k2 < N)%nat ->
    cosine_coef N (fun a b => y a b r) k1 k2 = fract_gain N alpha k1 k2 * cosine_coef N (fun a b => x a b r) k1 k2 /\
    sine_coef N (fun a b => y a b r) k1 k2 = fract_gain N alpha k1 k2 * sine_coef N (fun a b => x a b r) k1 k2) : (1 <= N)%nat -> Nat.even N = true ->
  exists y', fract_int_2d (A3 N N nr x) alpha = Ok (A3 N N nr y') /\ forall a b r, (a < N)%nat -> (b < N)%nat -> y' a b r = y a b r.
Proof.
  intros HN Ev. destruct (C81_spectrum N nr x alpha HN Ev) as [y' [E F]]. exists y'. split; [exact E|]. intros a b r Ha Hb.
  apply (coefs_inj N (fun a b => y' a b r) (fun a b => y a b r) HN); trivial. intros k1 k2 H1 H2. destruct (F r k1 k2 H1 H2) as [-> ->]. destruct (H r k1 k2 H1 H2) as [-> ->]. auto.
Qed.
Lemma gain_add N alpha beta k1 k2 : fract_gain N beta k1 k2 * fract_gain N alpha k1 k2 = fract_gain N (alpha + beta) k1 k2.
Proof. unfold fract_gain. destruct (andb _ _); [ring|]. rewrite <- Rpower_plus. f_equal. lra. Qed.
Lemma gain_zero N k1 k2 : (k1 < N)%nat -> (k2 < N)%nat -> fract_gain N 0 k1 k2 = 1.
Proof. intros H1 H2. unfold fract_gain. destruct (andb _ _) eqn:E; [reflexivity|]. replace (- 0 / 2) with 0 by lra. unfold Rpower. now rewrite Rmult_0_l, exp_0. Qed.
(** integrations of orders alpha and beta are one integration of order alpha + beta *)
Theorem C81_semigroup : forall N nr x alpha beta, (1 <= N)%nat -> Nat.even N = true ->
  exists y z z', fract_int_2d (A3 N N nr x) alpha = Ok (A3 N N nr y) /\ fract_int_2d (A3 N N nr y) beta = Ok (A3 N N nr z) /\
    fract_int_2d (A3 N N nr x) (alpha + beta) = Ok (A3 N N nr z') /\ forall a b r, (a < N)%nat -> (b < N)%nat -> z' a b r = z a b r.
Proof.
  intros N nr x alpha beta HN Ev. destruct (C81_spectrum N nr x alpha HN Ev) as [y [Ey Fy]]. destruct (C81_spectrum N nr y beta HN Ev) as [z [Ez Fz]]. exists y, z.
  destruct (coefs_unique N nr x (alpha + beta) z) as [z' [E F]]; trivial; [|exists z'; auto].
  intros r k1 k2 H1 H2. destruct (Fz r k1 k2 H1 H2) as [-> ->]. destruct (Fy r k1 k2 H1 H2) as [-> ->]. rewrite <- gain_add. split; ring.
Qed.
(** order 0 changes nothing, so orders alpha and -alpha undo each other *)
Theorem C81_inverse : forall N nr x alpha, (1 <= N)%nat -> Nat.even N = true ->
  (exists y, fract_int_2d (A3 N N nr x) 0 = Ok (A3 N N nr y) /\ forall a b r, (a < N)%nat -> (b < N)%nat -> y a b r = x a b r) /\
  exists y z, fract_int_2d (A3 N N nr x) alpha = Ok (A3 N N nr y) /\ fract_int_2d (A3 N N nr y) (- alpha) = Ok (A3 N N nr z) /\
    forall a b r, (a < N)%nat -> (b < N)%nat -> z a b r = x a b r.
Proof.
  intros N nr x alpha HN Ev.
  assert (Z : exists y, fract_int_2d (A3 N N nr x) 0 = Ok (A3 N N nr y) /\ forall a b r, (a < N)%nat -> (b < N)%nat -> y a b r = x a b r).
  { apply coefs_unique; trivial. intros r k1 k2 H1 H2. rewrite gain_zero by trivial. split; ring. }
  split; [exact Z|]. destruct (C81_semigroup N nr x alpha (- alpha) HN Ev) as [y [z [z' [Ey [Ez [Ez' F]]]]]]. exists y, z. split; [trivial|]. split; [trivial|]. intros a b r Ha Hb.
  destruct Z as [y0 [E0 F0]]. rewrite Rplus_opp_r, E0 in Ez'. injection Ez' as <-. rewrite <- F, <- F0 by trivial. reflexivity.
Qed.
(** the integral is linear in the data *)
Theorem C81_linear : forall N nr x x' c alpha, (1 <= N)%nat -> Nat.even N = true ->
  exists y y' z, fract_int_2d (A3 N N nr x) alpha = Ok (A3 N N nr y) /\ fract_int_2d (A3 N N nr x') alpha = Ok (A3 N N nr y') /\
    fract_int_2d (A3 N N nr (fun a b r => c * x a b r + x' a b r)) alpha = Ok (A3 N N nr z) /\
    forall a b r, (a < N)%nat -> (b < N)%nat -> z a b r = c * y a b r + y' a b r.
Proof.
  intros N nr x x' c alpha HN Ev. destruct (C81_spectrum N nr x alpha HN Ev) as [y [Ey Fy]]. destruct (C81_spectrum N nr x' alpha HN Ev) as [y' [Ey' Fy']]. exists y, y'.
  destruct (coefs_unique N nr (fun a b r => c * x a b r + x' a b r) alpha (fun a b r => c * y a b r + y' a b r)) as [z [E F]]; trivial; [|exists z; auto].
  assert (L : forall u v t, grid_sum N (fun a b => (c * u a b + v a b) * t a b) = c * grid_sum N (fun a b => u a b * t a b) + grid_sum N (fun a b => v a b * t a b)).
  { intros u v t. rewrite !grid_sum_eq. rewrite <- sum2_scal, <- sum2_plus. apply sum2_ext. intros. ring. }
  intros r k1 k2 H1 H2. unfold cosine_coef, sine_coef. rewrite !(L (fun a b => x a b r) (fun a b => x' a b r)), !(L (fun a b => y a b r) (fun a b => y' a b r)).
  destruct (Fy r k1 k2 H1 H2) as [A B]. destruct (Fy' r k1 k2 H1 H2) as [A' B']. unfold cosine_coef, sine_coef in A, B, A', B'. rewrite A, B, A', B'. split; ring.
Qed.
(** the mean of every realisation is kept *)
Theorem C81_mean : forall N nr x alpha, (1 <= N)%nat -> Nat.even N = true ->
  exists y, fract_int_2d (A3 N N nr x) alpha = Ok (A3 N N nr y) /\ forall r, grid_sum N (fun a b => y a b r) = grid_sum N (fun a b => x a b r).
Proof.
  intros N nr x alpha HN Ev. destruct (C81_spectrum N nr x alpha HN Ev) as [y [E F]]. exists y. split; [exact E|]. intros r. destruct (F r 0%nat 0%nat) as [A _]; [lia|lia|].
  assert (Z : forall u, cosine_coef N u 0 0 = grid_sum N u).
  { intros u. unfold cosine_coef. rewrite !grid_sum_eq. apply sum2_ext. intros a b _ _. unfold phase. change (INR 0) with 0. replace (2 * PI * (0 * INR a + 0 * INR b) / INR N) with 0 by (unfold Rdiv; ring). rewrite cos_0. ring. }
  rewrite !Z in A. rewrite A. unfold fract_gain. cbn. ring.
Qed.
(** the coefficients of a plane wave vanish away from its two frequencies *)
Lemma wave_coefs N p q A phi k1 k2 : (1 <= N)%nat -> (p < N)%nat -> (q < N)%nat -> (k1 < N)%nat -> (k2 < N)%nat ->
  (k1, k2) <> (p, q) -> (k1, k2) <> (((N - p) mod N)%nat, ((N - q) mod N)%nat) ->
  fft2 N N (fun a b => toC (A * cos (phase N p q a b + phi))) k1 k2 = c0.
Proof.
  intros HN Hp Hq H1 H2 N1 N2. rewrite fft2_eq by trivial.
  rewrite (csum2_ext N N _ (fun a b => cadd (cmul (cmul (toC (A / 2)) (cis phi)) (w2 N (Z.of_nat p - Z.of_nat k1) (Z.of_nat q - Z.of_nat k2) a b))
                                      (cmul (cmul (toC (A / 2)) (cis (- phi))) (w2 N (- Z.of_nat p - Z.of_nat k1) (- Z.of_nat q - Z.of_nat k2) a b)))).
  2:{ intros a b _ _. unfold Z.sub. rewrite <- !w2_mul. rewrite <- (w2_conj N (Z.of_nat p)). rewrite (w2_phase N p q a b), <- conj_cis. set (w := w2 N _ _ a b).
      replace (toC (A * cos (phase N p q a b + phi))) with (cadd (cmul (cmul (toC (A / 2)) (cis phi)) (cis (phase N p q a b))) (cmul (cmul (toC (A / 2)) (conj (cis phi))) (conj (cis (phase N p q a b))))); [ring|].
      apply C_eq; cbn [cadd cmul conj toC cis fst snd]; rewrite ?cos_plus; field. }
  rewrite csum2_plus, !csum2_mul, !w2_ortho by trivial.
  assert (X1 : (if Z.eq_dec ((Z.of_nat p - Z.of_nat k1) mod Z.of_nat N) 0 then if Z.eq_dec ((Z.of_nat q - Z.of_nat k2) mod Z.of_nat N) 0 then toC (INR N * INR N) else c0 else c0) = c0).
  { destruct (Z.eq_dec _ 0) as [E1|]; [|reflexivity]. destruct (Z.eq_dec _ 0) as [E2|]; [|reflexivity]. exfalso. apply N1. apply mod_eq_small in E1; trivial. apply mod_eq_small in E2; trivial. now subst. }
  assert (X2 : (if Z.eq_dec ((- Z.of_nat p - Z.of_nat k1) mod Z.of_nat N) 0 then if Z.eq_dec ((- Z.of_nat q - Z.of_nat k2) mod Z.of_nat N) 0 then toC (INR N * INR N) else c0 else c0) = c0).
  { destruct (Z.eq_dec ((- Z.of_nat p - Z.of_nat k1) mod Z.of_nat N) 0) as [E1|]; [|reflexivity]. destruct (Z.eq_dec ((- Z.of_nat q - Z.of_nat k2) mod Z.of_nat N) 0) as [E2|]; [|reflexivity]. exfalso. apply N2.
    assert (Q : forall s k, (s < N)%nat -> (k < N)%nat -> ((- Z.of_nat s - Z.of_nat k) mod Z.of_nat N = 0)%Z -> k = ((N - s) mod N)%nat).
    { intros s k Hs Hk E. apply Z.mod_divide in E as [t E]; [|lia]. assert (t = 0 \/ t = -1)%Z as [->| ->] by nia.
      - assert (s = 0 /\ k = 0)%nat as [-> ->] by lia. now rewrite Nat.sub_0_r, Nat.mod_same by lia.
      - rewrite Nat.mod_small by lia. lia. }
    f_equal; apply Q; trivial. }
  rewrite X1, X2. ring.
Qed.
(** a plane wave of frequency (p, q) is multiplied by |(p, q)|^(-alpha) *)
Theorem C81_plane_wave : forall N nr p q (A phi : nat -> R) alpha, (1 <= N)%nat -> Nat.even N = true -> (p < N)%nat -> (q < N)%nat ->
  exists y, fract_int_2d (A3 N N nr (fun a b r => A r * cos (phase N p q a b + phi r))) alpha = Ok (A3 N N nr y) /\
  forall a b r, (a < N)%nat -> (b < N)%nat -> y a b r = fract_gain N alpha p q * (A r * cos (phase N p q a b + phi r)).
Proof.
  intros N nr p q A phi alpha HN Ev Hp Hq. apply coefs_unique; trivial. intros r k1 k2 H1 H2. set (u := fun a b => A r * cos (phase N p q a b + phi r)).
  assert (S : forall t, grid_sum N (fun a b => fract_gain N alpha p q * u a b * t a b) = fract_gain N alpha p q * grid_sum N (fun a b => u a b * t a b)).
  { intros t. rewrite !grid_sum_eq, <- sum2_scal. apply sum2_ext. intros. ring. }
  unfold cosine_coef, sine_coef. change (fun a b => A r * cos (phase N p q a b + phi r)) with u.
  change (fun a b => fract_gain N alpha p q * (A r * cos (phase N p q a b + phi r)) * cos (phase N k1 k2 a b)) with (fun a b => fract_gain N alpha p q * u a b * cos (phase N k1 k2 a b)).
  change (fun a b => fract_gain N alpha p q * (A r * cos (phase N p q a b + phi r)) * sin (phase N k1 k2 a b)) with (fun a b => fract_gain N alpha p q * u a b * sin (phase N k1 k2 a b)).
  rewrite !S. change (fun a b => A r * cos (phase N p q a b + phi r) * cos (phase N k1 k2 a b)) with (fun a b => u a b * cos (phase N k1 k2 a b)).
  change (fun a b => A r * cos (phase N p q a b + phi r) * sin (phase N k1 k2 a b)) with (fun a b => u a b * sin (phase N k1 k2 a b)).
  assert (D : fract_gain N alpha k1 k2 = fract_gain N alpha p q \/ fft2 N N (fun a b => toC (u a b)) k1 k2 = c0).
  { assert (Dec : forall x y : nat * nat, {x = y} + {x <> y}) by (decide equality; apply Nat.eq_dec).
    destruct (Dec (k1, k2) (p, q)) as [e|e1]; [injection e as -> ->; now left|].
    destruct (Dec (k1, k2) (((N - p) mod N)%nat, ((N - q) mod N)%nat)) as [e|e2]; [injection e as -> ->; left; now apply fract_gain_neg|].
    right. now apply wave_coefs. }
  destruct D as [->|D]; [auto|]. rewrite fft2_coefs in D by trivial. injection D as D1 D2. unfold cosine_coef in D1. unfold sine_coef in D2.
  assert (D3 : grid_sum N (fun a b => u a b * sin (phase N k1 k2 a b)) = 0) by lra. rewrite D1, D3. split; ring.
Qed.
(** only arrays of shape (N, N, R) are accepted: a single N x N image is an error *)
Theorem C81_refused : forall n m nr x y alpha, (1 <= n)%nat -> Nat.even n = true ->
  fract_int_2d (A2 n m x) alpha = Err ValueError /\ (n <> m -> fract_int_2d (A3 n m nr y) alpha = Err ValueError).
Proof.
  intros n m nr x y alpha Hn Ev. destruct (fract_filter_eq n Hn Ev alpha) as [filt [E _]]. unfold fract_int_2d. rewrite E. cbn [bind]. split; [reflexivity|]. intros Ne. rewrite (proj2 (Nat.eqb_neq n m) Ne). destruct (Nat.eqb_spec n 1) as [->|]; [discriminate|reflexivity].
Qed.
(** a non-trivial case: a 4 x 4 image; the diagonal wave of frequency (1, 1) integrated to the order 2 is halved *)
Example C81_example : exists y, fract_int_2d (A3 4 4 1 (fun a b r => 3 * cos (phase 4 1 1 a b + 0))) 2 = Ok (A3 4 4 1 y) /\ y 0%nat 0%nat 0%nat = 3 / 2 /\ y 2%nat 0%nat 0%nat = - (3 / 2).
Proof.
  destruct (C81_plane_wave 4 1 1 1 (fun _ => 3) (fun _ => 0) 2) as [y [E F]]; try reflexivity; try lia. exists y. split; [exact E|]. rewrite !F by lia.
  assert (G : fract_gain 4 2 1 1 = / 2).
  { unfold fract_gain. cbn [Nat.eqb andb]. unfold freq_norm2, centred. cbn [Nat.ltb Nat.leb Nat.mul Nat.add Z.of_nat]. replace (- (2) / 2) with (- (1)) by lra. rewrite Rpower_Ropp. change (Z.pos (Pos.of_succ_nat 0)) with 1%Z. replace (1 ^ 2 + 1 ^ 2) with 2 by ring. rewrite Rpower_1 by lra. reflexivity. }
  rewrite G. unfold phase. cbn [INR]. replace (2 * PI * (1 * 0 + 1 * 0) / (1 + 1 + 1 + 1) + 0) with 0 by field. replace (2 * PI * (1 * (1 + 1) + 1 * 0) / (1 + 1 + 1 + 1) + 0) with PI by field. rewrite cos_0, cos_PI. split; lra.
Qed.

(** ** C83: shapes *)
Lemma even_size_eq n : (2 * ((n + 1) / 2) = even_size n)%nat.
Proof.
  unfold even_size. destruct (Nat.even n) eqn:E.
  - apply Nat.even_spec in E as [h ->]. replace (2 * h + 1)%nat with (1 + h * 2)%nat by lia. rewrite Nat.div_add by lia. change (1 / 2)%nat with 0%nat. lia.
  - assert (O : Nat.odd n = true) by (unfold Nat.odd; now rewrite E). apply Nat.odd_spec in O as [h ->]. replace (2 * h + 1 + 1)%nat with ((h + 1) * 2)%nat by lia. rewrite Nat.div_mul by lia. lia.
Qed.
Lemma even_size_even n : Nat.even (even_size n) = true.
Proof. unfold even_size. destruct (Nat.even n) eqn:E; [trivial|]. rewrite Nat.even_succ. unfold Nat.odd. now rewrite E. Qed.
Lemma even_size_ge n : (n <= even_size n)%nat. Proof. unfold even_size. destruct (Nat.even n); lia. Qed.
Lemma even_size_0 n : even_size n = 0%nat <-> n = 0%nat.
Proof. unfold even_size. split; [destruct (Nat.even n); [trivial|discriminate]|intros ->; reflexivity]. Qed.
Lemma mrw2D_eq sh H lam L sigma z1 x0 : (1 <= shape_N sh)%nat -> let N := even_size (shape_N sh) in let nr := shape_R sh in
  let X := fun a b r => x0 a b r * exp (log_vol2d N lam L (fun i j => z1 i j r) a b) in
  exists y, fract_int_2d (A3 N N nr X) (H + 1) = Ok (A3 N N nr y) /\ mrw2D sh H lam L sigma z1 x0 = Ok (A3 N N nr y, A3 N N nr X).
Proof.
  intros Hn N nr X. assert (HN : (1 <= N)%nat) by (pose proof (even_size_ge (shape_N sh)); unfold N; lia). destruct (fract_ok N nr X (H + 1) HN (even_size_even _)) as [filt [E _]]. eexists. split; [exact E|].
  unfold mrw2D. cbv zeta. rewrite even_size_eq. fold N nr. rewrite (proj2 (Nat.eqb_neq N 0)) by lia. fold X. rewrite E. reflexivity.
Qed.
(** two arrays of shape (N, N, R) are returned, with N rounded up to an even number and R = 1 for a scalar shape: the documented (N,) never happens *)
Theorem C83_shapes : forall sh H lam L sigma z1 x0,
  (shape_N sh = 0%nat -> mrw2D sh H lam L sigma z1 x0 = Err ValueError) /\
  ((1 <= shape_N sh)%nat -> let N := even_size (shape_N sh) in
    exists y x, mrw2D sh H lam L sigma z1 x0 = Ok (A3 N N (shape_R sh) y, A3 N N (shape_R sh) x)).
Proof.
  intros sh H lam L sigma z1 x0. split.
  - intros E. unfold mrw2D. cbv zeta. rewrite even_size_eq, E. reflexivity.
  - intros Hn N. destruct (mrw2D_eq sh H lam L sigma z1 x0 Hn) as [y [_ E]]. eauto.
Qed.
(** the walk is the fractional integral of order H + 1 of the increments: its coefficients are those of the increments times |k|^-(H+1) *)
Theorem C83_integral : forall sh H lam L sigma z1 x0, (1 <= shape_N sh)%nat -> let N := even_size (shape_N sh) in
  exists y x, mrw2D sh H lam L sigma z1 x0 = Ok (A3 N N (shape_R sh) y, A3 N N (shape_R sh) x) /\
  forall r k1 k2, (k1 < N)%nat -> (k2 < N)%nat ->
    cosine_coef N (fun a b => y a b r) k1 k2 = fract_gain N (H + 1) k1 k2 * cosine_coef N (fun a b => x a b r) k1 k2 /\
    sine_coef N (fun a b => y a b r) k1 k2 = fract_gain N (H + 1) k1 k2 * sine_coef N (fun a b => x a b r) k1 k2.
Proof.
  intros sh H lam L sigma z1 x0 Hn N. destruct (mrw2D_eq sh H lam L sigma z1 x0 Hn) as [y [E1 E2]]. fold N in E1, E2. eexists y, _. split; [exact E2|].
  assert (HN : (1 <= N)%nat) by (pose proof (even_size_ge (shape_N sh)); unfold N; lia).
  match type of E1 with fract_int_2d (A3 N N _ ?X) _ = _ => destruct (C81_spectrum N (shape_R sh) X (H + 1) HN (even_size_even _)) as [y' [E3 F]] end.
  rewrite E1 in E3. injection E3 as <-. exact F.
Qed.
(** sigma, documented as the variance of the process, is ignored *)
Theorem C83_sigma_ignored : forall sh H lam L sigma sigma' z1 x0, mrw2D sh H lam L sigma z1 x0 = mrw2D sh H lam L sigma' z1 x0.
Proof. reflexivity. Qed.

(** ** C82: the log-volatility of mrw2D *)
(** the increments are the drawn noise times the exponential of a centred field whose covariance is the inverse transform of the absolute values
    of the spectrum, divided by N^4; realisations are uncorrelated *)
Theorem C82_covariance : forall W (P : expectation W) n nr H lam L sigma z1 x0, (1 <= n)%nat -> let N := even_size n in white_field P N nr z1 ->
  exists omega : W -> nat -> nat -> nat -> R,
  (forall w, exists y, mrw2D (SPair n nr) H lam L sigma (z1 w) (x0 w) = Ok (y, A3 N N nr (fun a b r => x0 w a b r * exp (omega w a b r)))) /\
  (forall a b r, (a < N)%nat -> (b < N)%nat -> (r < nr)%nat -> integrable P (fun w => omega w a b r) /\ E P (fun w => omega w a b r) = 0) /\
  (forall a b r c d s, (a < N)%nat -> (b < N)%nat -> (c < N)%nat -> (d < N)%nat -> (r < nr)%nat -> (s < nr)%nat ->
     integrable P (fun w => omega w a b r * omega w c d s) /\
     Cov P (fun w => omega w a b r) (fun w => omega w c d s) =
     if Nat.eq_dec r s then / INR N ^ 4 * grid_sum N (fun k1 k2 => Rabs (log_spectrum N lam L k1 k2) * cos (phase N k1 k2 a b - phase N k1 k2 c d)) else 0).
Proof.
  intros W P n nr H lam L sigma z1 x0 Hn N HW. assert (HN : (1 <= N)%nat) by (pose proof (even_size_ge n); unfold N; lia). assert (Ev : Nat.even N = true) by apply even_size_even.
  exists (fun w a b r => log_vol2d N lam L (fun i j => z1 w i j r) a b). split; [|split].
  - intros w. destruct (mrw2D_eq (SPair n nr) H lam L sigma (z1 w) (x0 w) Hn) as [y [_ E]]. eexists. exact E.
  - intros a b r _ _ Hr. now apply (omega_mean N HN lam L P nr z1 HW).
  - intros a b r c d s _ _ _ _ Hr Hs. now apply (omega_cov N HN Ev lam L P nr z1 HW).
Qed.
(** when the spectrum is non-negative this is the wanted covariance lam^2 log+(L / (1 + distance on the torus)) divided by N^2: the normalisation is wrong *)
Theorem C82_off_by_N2 : forall n lam L a b c d, (1 <= n)%nat -> let N := even_size n in
  (forall k1 k2, (k1 < N)%nat -> (k2 < N)%nat -> 0 <= log_spectrum N lam L k1 k2) -> (a < N)%nat -> (b < N)%nat -> (c < N)%nat -> (d < N)%nat ->
  / INR N ^ 4 * grid_sum N (fun k1 k2 => Rabs (log_spectrum N lam L k1 k2) * cos (phase N k1 k2 a b - phase N k1 k2 c d)) =
  log_covariance N lam L ((a + (N - c)) mod N) ((b + (N - d)) mod N) / INR N ^ 2.
Proof.
  intros n lam L a b c d Hn N Pos Ha Hb Hc Hd. assert (HN : (1 <= N)%nat) by (pose proof (even_size_ge n); unfold N; lia).
  exact (cov2_exact N HN (even_size_even n) lam L a b c d Ha Hb Hc Hd Pos).
Qed.
(** in every case the variance of the log-volatility is at most lam^2 log+ L / N: it is never the wanted lam^2 log L, and vanishes as the image grows *)
Theorem C82_variance_too_small : forall W (P : expectation W) n nr H lam L sigma z1 x0, (1 <= n)%nat -> let N := even_size n in white_field P N nr z1 ->
  exists omega : W -> nat -> nat -> nat -> R,
  (forall w, exists y, mrw2D (SPair n nr) H lam L sigma (z1 w) (x0 w) = Ok (y, A3 N N nr (fun a b r => x0 w a b r * exp (omega w a b r)))) /\
  (forall a b r, (a < N)%nat -> (b < N)%nat -> (r < nr)%nat -> Cov P (fun w => omega w a b r) (fun w => omega w a b r) <= lam ^ 2 * log_plus L / INR N) /\
  (1 < L -> lam <> 0 -> forall a b r, (a < N)%nat -> (b < N)%nat -> (r < nr)%nat -> Cov P (fun w => omega w a b r) (fun w => omega w a b r) < log_covariance N lam L 0 0).
Proof.
  intros W P n nr H lam L sigma z1 x0 Hn N HW. assert (HN : (1 <= N)%nat) by (pose proof (even_size_ge n); unfold N; lia). assert (Ev : Nat.even N = true) by apply even_size_even.
  exists (fun w a b r => log_vol2d N lam L (fun i j => z1 w i j r) a b).
  assert (B : forall a b r, (a < N)%nat -> (b < N)%nat -> (r < nr)%nat -> Cov P (fun w => log_vol2d N lam L (fun i j => z1 w i j r) a b) (fun w => log_vol2d N lam L (fun i j => z1 w i j r) a b) <= lam ^ 2 * log_plus L / INR N).
  { intros a b r _ _ Hr. rewrite (proj2 (omega_cov N HN Ev lam L P nr z1 HW a b r a b r Hr Hr)). destruct (Nat.eq_dec r r); [|congruence]. exact (cov2_bound N HN Ev lam L a b). }
  split; [|split].
  - intros w. destruct (mrw2D_eq (SPair n nr) H lam L sigma (z1 w) (x0 w) Hn) as [y [_ E]]. eexists. exact E.
  - exact B.
  - intros HL Hlam a b r Ha Hb Hr. eapply Rle_lt_trans; [now apply B|]. unfold log_covariance. assert (F0 : freq_norm2 N 0 0 = 0).
    { unfold freq_norm2. rewrite (proj2 (centred_zero N HN 0 ltac:(lia))) by trivial. cbn; ring. }
    rewrite F0, sqrt_0. replace (L / (1 + 0)) with L by field. assert (0 < lam ^ 2 * log_plus L).
    { apply Rmult_lt_0_compat; [|unfold log_plus; destruct (Rle_dec 1 L); [|lra]; rewrite <- ln_1; apply ln_increasing; lra]. pose proof (pow2_ge_0 lam). assert (lam ^ 2 <> 0) by now apply pow_nonzero. lra. }
    assert (2 <= INR N). { destruct (half N HN Ev) as [h [E [H1 _]]]. change 2 with (INR 2). apply le_INR. lia. }
    apply (Rmult_lt_reg_r (INR N)); [lra|]. unfold Rdiv. rewrite Rmult_assoc, Rinv_l by lra. nra.
Qed.
(** the wanted covariance is not the one of the code, and the hypotheses can be met: white noise exists for every shape *)
Definition field_noise (N nr : nat) (w : nat * bool) (k1 k2 r : nat) : R * R :=
  let K := (2 * (N * N * nr))%nat in (spike K (2 * ((r * N + k1) * N + k2)) w, spike K (2 * ((r * N + k1) * N + k2) + 1) w).
Lemma field_noise_white N nr HK : white_field (sign_space (2 * (N * N * nr)) HK) N nr (field_noise N nr).
Proof.
  apply (white_reindex _ (fun i => (i < 2 * (N * N * nr))%nat) _ (spike (2 * (N * N * nr))) _
    (fun i : nat * nat * nat * bool => let '(k1, k2, r, im) := i in (2 * ((r * N + k1) * N + k2) + (if im then 1 else 0))%nat)).
  - now apply spike_white.
  - intros [[[k1 k2] r] im] [H1 [H2 H3]]. assert (r * N + k1 + 1 <= nr * N)%nat by nia. assert ((r * N + k1) * N + k2 + 1 <= nr * N * N)%nat by nia. destruct im; nia.
  - intros [[[k1 k2] r] im] w [H1 [H2 H3]]. unfold field_noise. cbn [fst snd]. destruct im; [reflexivity|now rewrite Nat.add_0_r].
  - intros [[[k1 k2] r] im] [[[k1' k2'] r'] im'] [H1 [H2 H3]] [H1' [H2' H3']] e.
    assert (Q : im = im' /\ ((r * N + k1) * N + k2 = (r' * N + k1') * N + k2')%nat) by (destruct im, im'; split; trivial; lia). destruct Q as [<- Q].
    apply pair_inj in Q as [Q <-]; trivial. apply pair_inj in Q as [<- <-]; trivial.
Qed.
Lemma grid2 f : grid_sum 2 f = f 0%nat 0%nat + f 0%nat 1%nat + f 1%nat 0%nat + f 1%nat 1%nat.
Proof. unfold grid_sum. cbn. ring. Qed.
Lemma sqrt2_bounds : 1 < sqrt 2 < 2.
Proof. split; [rewrite <- sqrt_1 at 1; apply sqrt_lt_1_alt; lra|]. replace 2 with (sqrt (2 * 2)) at 2 by (apply sqrt_square; lra). apply sqrt_lt_1_alt. lra. Qed.
(** a 2 x 2 image with L = 4, lam = 1: the spectrum is positive *)
Lemma spectrum_2x2 k1 k2 : (k1 < 2)%nat -> (k2 < 2)%nat -> 0 <= log_spectrum 2 1 4 k1 k2.
Proof.
  intros H1 H2. pose proof sqrt2_bounds as S2.
  assert (G : forall a b t, freq_norm2 2 a b = t -> 0 <= t -> sqrt t <= 3 -> log_covariance 2 1 4 a b = ln 4 - ln (1 + sqrt t)).
  { intros a b t E T T3. unfold log_covariance. rewrite E. pose proof (sqrt_pos t). unfold log_plus. destruct (Rle_dec 1 (4 / (1 + sqrt t))) as [|n].
    - unfold Rdiv. rewrite ln_mult, ln_Rinv by (try apply Rinv_0_lt_compat; lra). ring.
    - exfalso. apply n. apply (Rmult_le_reg_r (1 + sqrt t)); [lra|]. unfold Rdiv. rewrite Rmult_assoc, Rinv_l by lra. lra. }
  assert (G00 : log_covariance 2 1 4 0 0 = ln 4) by (rewrite (G 0%nat 0%nat 0); rewrite ?sqrt_0; [rewrite Rplus_0_r, ln_1; ring|unfold freq_norm2, centred; cbn; ring|lra|lra]).
  assert (G01 : log_covariance 2 1 4 0 1 = ln 4 - ln 2) by (rewrite (G 0%nat 1%nat 1); rewrite ?sqrt_1; [reflexivity|unfold freq_norm2, centred; cbn; ring|lra|lra]).
  assert (G10 : log_covariance 2 1 4 1 0 = ln 4 - ln 2) by (rewrite (G 1%nat 0%nat 1); rewrite ?sqrt_1; [reflexivity|unfold freq_norm2, centred; cbn; ring|lra|lra]).
  assert (G11 : log_covariance 2 1 4 1 1 = ln 4 - ln (1 + sqrt 2)) by (rewrite (G 1%nat 1%nat 2); [reflexivity|unfold freq_norm2, centred; cbn; ring|lra|lra]).
  assert (L2 : 0 < ln 2) by (rewrite <- ln_1; apply ln_increasing; lra). assert (L4 : ln 4 = ln 2 + ln 2) by (rewrite <- ln_mult by lra; f_equal; lra).
  assert (LS : ln 2 < ln (1 + sqrt 2) < ln 4) by (split; apply ln_increasing; lra).
  unfold log_spectrum, cosine_coef. rewrite grid2, G00, G01, G10, G11.
  assert (C0 : forall t, t = 0 -> cos t = 1) by (intros; subst; apply cos_0). assert (C1 : forall t, t = PI -> cos t = -1) by (intros; subst; apply cos_PI).
  assert (C2 : forall t, t = 2 * PI -> cos t = 1) by (intros; subst; apply cos_2PI).
  destruct k1 as [|[|]]; try lia; destruct k2 as [|[|]]; try lia; unfold phase; cbn [INR].
  - rewrite !C0 by field. lra.
  - rewrite (C0 (2 * PI * (0 * 0 + 1 * 0) / (1 + 1))), (C1 (2 * PI * (0 * 0 + 1 * 1) / (1 + 1))), (C0 (2 * PI * (0 * 1 + 1 * 0) / (1 + 1))), (C1 (2 * PI * (0 * 1 + 1 * 1) / (1 + 1))) by field. lra.
  - rewrite (C0 (2 * PI * (1 * 0 + 0 * 0) / (1 + 1))), (C0 (2 * PI * (1 * 0 + 0 * 1) / (1 + 1))), (C1 (2 * PI * (1 * 1 + 0 * 0) / (1 + 1))), (C1 (2 * PI * (1 * 1 + 0 * 1) / (1 + 1))) by field. lra.
  - rewrite (C0 (2 * PI * (1 * 0 + 1 * 0) / (1 + 1))), (C1 (2 * PI * (1 * 0 + 1 * 1) / (1 + 1))), (C1 (2 * PI * (1 * 1 + 1 * 0) / (1 + 1))), (C2 (2 * PI * (1 * 1 + 1 * 1) / (1 + 1))) by field. lra.
Qed.
(** there the variance of the log-volatility is (ln 4) / 4 instead of ln 4 *)
Example C82_example : exists (W : Type) (P : expectation W) (z : W -> nat -> nat -> nat -> R * R), white_field P 2 1 z /\
  forall H sigma x0, exists omega : W -> nat -> nat -> nat -> R,
    (forall w, exists y, mrw2D (SPair 2 1) H 1 4 sigma (z w) (x0 w) = Ok (y, A3 2 2 1 (fun a b r => x0 w a b r * exp (omega w a b r)))) /\
    Cov P (fun w => omega w 0%nat 0%nat 0%nat) (fun w => omega w 0%nat 0%nat 0%nat) = ln 4 / 4.
Proof.
  assert (HK : (1 <= 2 * (2 * 2 * 1))%nat) by lia. exists (nat * bool)%type, (sign_space (2 * (2 * 2 * 1)) HK), (field_noise 2 1).
  pose proof (field_noise_white 2 1 HK) as HW. split; [exact HW|]. intros H sigma x0. destruct (C82_covariance _ _ 2 1 H 1 4 sigma (field_noise 2 1) x0 ltac:(lia) HW) as [om [E [_ F]]]. exists om. split; [exact E|].
  change (even_size 2) with 2%nat in F. rewrite (proj2 (F 0%nat 0%nat 0%nat 0%nat 0%nat 0%nat ltac:(lia) ltac:(lia) ltac:(lia) ltac:(lia) ltac:(lia) ltac:(lia))). destruct (Nat.eq_dec 0 0); [|congruence].
  pose proof (C82_off_by_N2 2 1 4 0 0 0 0 ltac:(lia)) as Q. change (even_size 2) with 2%nat in Q. cbv zeta in Q. rewrite Q; [|exact spectrum_2x2|lia|lia|lia|lia].
  change ((0 + (2 - 0)) mod 2)%nat with 0%nat. unfold log_covariance. replace (freq_norm2 2 0 0) with 0 by (unfold freq_norm2, centred; cbn; ring). rewrite sqrt_0.
  replace (4 / (1 + 0)) with 4 by field. unfold log_plus. destruct (Rle_dec 1 4); [|lra]. cbn [INR]. field.
Qed.
