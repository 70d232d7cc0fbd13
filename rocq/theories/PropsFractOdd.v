(** * C97: fract_int_2d outside its documented domain: arrays of odd size *)
From Coq Require Import Reals List ZArith Bool Lia Lra.
From Verif Require Import XReal PyBase ModelSimul ModelPlot Model2D Spec LXReal LDft LDft2 Spec2D PropsPlotBi LFract Props2D.
Import ListNotations.
Open Scope R_scope.

(** ** Specification *)
(** the half-shifted frequency norms and the gain at an odd size: the mean of |k - (1/2,1/2)|^(-alpha) and |k + (1/2,1/2)|^(-alpha) *)
Definition shifted_norm2 (s : R) (N k1 k2 : nat) : R := (IZR (centred N k1) + s) ^ 2 + (IZR (centred N k2) + s) ^ 2.
Definition odd_gain (N : nat) (alpha : R) (k1 k2 : nat) : R :=
  (Rpower (shifted_norm2 (- / 2) N k1 k2) (- alpha / 2) + Rpower (shifted_norm2 (/ 2) N k1 k2) (- alpha / 2)) / 2.

Section Odd.
Variable N : nat.
Hypothesis Od : Nat.odd N = true.
Lemma halfo : exists h, N = (2 * h + 1)%nat /\ (N / 2 = h)%nat.
Proof. apply Nat.odd_spec in Od as [h E]. exists h. split; [trivial|]. rewrite E. replace (2 * h + 1)%nat with (1 + h * 2)%nat by lia. rewrite Nat.div_add by lia. reflexivity. Qed.
Lemma N1 : (1 <= N)%nat.
Proof. destruct halfo as (h & E & _). lia. Qed.
Lemma oshifted_cases k : (k < N)%nat -> (2 * k < N /\ shifted N k = k + N / 2)%nat \/ (N <= 2 * k /\ shifted N k + N = k + N / 2)%nat.
Proof.
  intros Hk. unfold shifted. destruct halfo as (h & E & H2). rewrite H2. destruct (le_lt_dec N (2 * k)) as [L|L].
  - right. split; trivial. replace (k + h)%nat with (k - h - 1 + 1 * N)%nat by lia. rewrite Nat.mod_add by lia. rewrite Nat.mod_small; lia.
  - left. split; trivial. apply Nat.mod_small. lia.
Qed.
Lemma owavenumber k : (k < N)%nat -> wavenumber N (shifted N k) = IZR (centred N k) + - / 2.
Proof.
  intros Hk. unfold wavenumber, centred. destruct halfo as (h & E & H2). assert (EN : INR N = 2 * INR h + 1) by (rewrite E, plus_INR, mult_INR; cbn; lra).
  destruct (oshifted_cases k Hk) as [[L S]|[L S]]; rewrite H2 in S; apply (f_equal INR) in S; rewrite ?plus_INR in S.
  - rewrite (proj2 (Nat.ltb_lt (2 * k) N)) by trivial. rewrite S, EN, <- INR_IZR_INZ. field.
  - rewrite (proj2 (Nat.ltb_ge (2 * k) N)) by trivial. rewrite minus_IZR, <- !INR_IZR_INZ. lra.
Qed.
Lemma oshifted_back k : (k < N)%nat -> ((shifted N k + (N - N / 2)) mod N = k)%nat.
Proof.
  intros Hk. destruct halfo as (h & E & H2). destruct (oshifted_cases k Hk) as [[L S]|[L S]]; rewrite H2 in *.
  - rewrite S. replace (k + h + (N - h))%nat with (k + 1 * N)%nat by lia. rewrite Nat.mod_add by lia. now apply Nat.mod_small.
  - replace (shifted N k + (N - h))%nat with k by lia. now apply Nat.mod_small.
Qed.
Lemma ocentred_neg k : (k < N)%nat -> centred N ((N - k) mod N) = (- centred N k)%Z.
Proof.
  intros Hk. destruct halfo as (h & E & H2). destruct (Nat.eq_dec k 0) as [->|Nk].
  - rewrite Nat.sub_0_r, Nat.mod_same by lia. unfold centred. destruct (Nat.ltb_spec (2 * 0) N); lia.
  - rewrite Nat.mod_small by lia. unfold centred. destruct (Nat.ltb_spec (2 * k) N), (Nat.ltb_spec (2 * (N - k)) N); lia.
Qed.
Lemma shifted_norm2_neg s k1 k2 : (k1 < N)%nat -> (k2 < N)%nat -> shifted_norm2 s N ((N - k1) mod N) ((N - k2) mod N) = shifted_norm2 (- s) N k1 k2.
Proof. intros H1 H2. unfold shifted_norm2. rewrite !ocentred_neg by trivial. rewrite !opp_IZR. ring. Qed.
Lemma half_sq z s : s = / 2 \/ s = - / 2 -> / 4 <= (IZR z + s) ^ 2.
Proof.
  intros Hs. assert (K : (z <= -1 \/ 0 <= z)%Z) by lia. assert (K2 : (z <= 0 \/ 1 <= z)%Z) by lia.
  destruct Hs as [->| ->]; [destruct K as [L|L]|destruct K2 as [L|L]]; apply IZR_le in L; nra.
Qed.
Lemma shifted_norm2_pos s k1 k2 : s = / 2 \/ s = - / 2 -> / 2 <= shifted_norm2 s N k1 k2.
Proof. intros Hs. unfold shifted_norm2. assert (A := half_sq (centred N k1) s Hs). assert (B := half_sq (centred N k2) s Hs). lra. Qed.
Lemma oradius k1 k2 : (k1 < N)%nat -> (k2 < N)%nat -> radius N (shifted N k1) (shifted N k2) = sqrt (shifted_norm2 (- / 2) N k1 k2).
Proof. intros H1 H2. unfold radius, shifted_norm2. now rewrite !owavenumber. Qed.
Lemma ofilter alpha : exists filt, fract_filter N alpha = Ok filt /\
  forall k1 k2, (k1 < N)%nat -> (k2 < N)%nat -> filt (shifted N k1) (shifted N k2) = Rpower (shifted_norm2 (- / 2) N k1 k2) (- alpha / 2).
Proof.
  assert (R0 : forall k1 k2, (k1 < N)%nat -> (k2 < N)%nat -> 0 < radius N (shifted N k1) (shifted N k2)).
  { intros k1 k2 H1 H2. rewrite oradius by trivial. apply sqrt_lt_R0. assert (X := shifted_norm2_pos (- / 2) k1 k2 (or_intror eq_refl)). lra. }
  assert (P := N1). unfold fract_filter. set (l := filter _ _).
  assert (NE : l <> []).
  { assert (I1 : In (radius N (shifted N 0) (shifted N 0)) l); [|intros Z; rewrite Z in I1; destruct I1].
    apply filter_In. assert (Q := R0 0%nat 0%nat ltac:(lia) ltac:(lia)). split; [|destruct (Req_EM_T _ 0); [lra|reflexivity]].
    apply in_map_iff. exists (shifted N 0, shifted N 0). split; [reflexivity|]. apply in_prod; apply in_seq; split; try lia; apply Nat.mod_upper_bound; lia. }
  destruct (list_min_spec l NE) as (m & E & _). rewrite E. cbn [bind]. eexists. split; [reflexivity|]. intros k1 k2 H1 H2. cbv beta zeta.
  assert (Q := R0 k1 k2 H1 H2). destruct (Req_EM_T _ 0); [lra|]. rewrite powR_pos by trivial. rewrite oradius by trivial. apply sqrt_Rpower.
  assert (X := shifted_norm2_pos (- / 2) k1 k2 (or_intror eq_refl)). lra.
Qed.

Section Apply.
Variables (alpha : R) (filt x : nat -> nat -> R).
Let g (k1 k2 : nat) : R := Rpower (shifted_norm2 (- / 2) N k1 k2) (- alpha / 2).
Hypothesis HF : forall k1 k2, (k1 < N)%nat -> (k2 < N)%nat -> filt (shifted N k1) (shifted N k2) = g k1 k2.
Let X : field := fft2 N N (fun i j => toC (x i j)).
Let G : field := ifftshift N N (fun i j => cscal (filt i j) (fftshift N N X i j)).
Let neg (k : nat) : nat := ((N - k) mod N)%nat.
Let G' : field := fun k1 k2 => conj (G (neg k1) (neg k2)).
Lemma oG_eq k1 k2 : (k1 < N)%nat -> (k2 < N)%nat -> G k1 k2 = cscal (g k1 k2) (X k1 k2).
Proof. intros H1 H2. unfold G, ifftshift, fftshift. fold (shifted N k1) (shifted N k2). rewrite HF by trivial. now rewrite !oshifted_back. Qed.
Lemma conj_ifft2 a b : conj (ifft2 N N G a b) = ifft2 N N G' a b.
Proof.
  assert (P := N1). rewrite !ifft2_eq by exact P. rewrite conj_mul, conj_toC. f_equal. rewrite csum2_conj.
  rewrite <- (csum2_reflect N N (fun k1 k2 => conj (cmul (G k1 k2) (w2 N (Z.of_nat k1) (Z.of_nat k2) a b)))) by exact P. apply csum2_ext. intros k1 k2 H1 H2.
  rewrite conj_mul. unfold G'. f_equal. rewrite (w2_reflect N P) by lia. rewrite w2_conj. f_equal; lia.
Qed.
Lemma ofract_fft k1 k2 : (k1 < N)%nat -> (k2 < N)%nat -> fft2 N N (fun a b => toC (fract_apply N N filt x a b)) k1 k2 = cscal (odd_gain N alpha k1 k2) (X k1 k2).
Proof.
  intros H1 H2. assert (P := N1).
  set (Hm := fun k1 k2 => cscal (/ 2) (cadd (G k1 k2) (G' k1 k2))).
  assert (E : forall a b, toC (fract_apply N N filt x a b) = ifft2 N N Hm a b).
  { intros a b. unfold fract_apply. fold X. fold G.
    assert (Q : ifft2 N N Hm a b = cscal (/ 2) (cadd (ifft2 N N G a b) (conj (ifft2 N N G a b)))).
    { rewrite conj_ifft2, !ifft2_eq by exact P. unfold Hm.
      rewrite (csum2_ext N N _ (fun k1 k2 => cmul (toC (/ 2)) (cadd (cmul (G k1 k2) (w2 N (Z.of_nat k1) (Z.of_nat k2) a b)) (cmul (G' k1 k2) (w2 N (Z.of_nat k1) (Z.of_nat k2) a b))))) by (intros; rewrite cscal_mul; ring).
      rewrite csum2_mul, csum2_plus, cscal_mul. ring. }
    rewrite Q. generalize (ifft2 N N G a b). intros [zr zi]. apply C_eq; cbn [fst snd cscal cadd conj toC]; lra. }
  assert (N0 : forall k, (k < N)%nat -> (neg k < N)%nat) by (intros; apply Nat.mod_upper_bound; lia).
  assert (Gh : Hm k1 k2 = cscal (odd_gain N alpha k1 k2) (X k1 k2)).
  { unfold Hm, G'. rewrite !oG_eq by auto. unfold X at 2. unfold neg. rewrite (fft2_reflect N P) by (try lia; intros; apply conj_toC). fold X.
    unfold g. rewrite shifted_norm2_neg by trivial. rewrite Ropp_involutive. rewrite !cscal_mul, conj_mul, conj_toC, conj_conj.
    unfold odd_gain. apply C_eq; cbn; field. }
  rewrite <- Gh. rewrite <- (fft2_ifft2 N P Hm k1 k2) by trivial. rewrite !fft2_eq by exact P. apply csum2_ext. intros a b _ _. now rewrite E.
Qed.
End Apply.
End Odd.

Lemma odd_shape N nr x alpha : Nat.odd N = true -> exists filt,
  fract_int_2d (A3 N N nr x) alpha = Ok (A3 N N nr (fun a b k => fract_apply N N filt (fun i j => x i j k) a b)) /\
  forall k1 k2, (k1 < N)%nat -> (k2 < N)%nat -> filt (shifted N k1) (shifted N k2) = Rpower (shifted_norm2 (- / 2) N k1 k2) (- alpha / 2).
Proof.
  intros Od. destruct (ofilter N Od alpha) as [filt [E F]]. exists filt. split; [|exact F]. unfold fract_int_2d. rewrite E. cbn [bind]. now rewrite Nat.eqb_refl.
Qed.
(** ** C97: what an odd size does *)
(** the call succeeds, and every Fourier coefficient, that of frequency 0 included, is multiplied by the mean of the powers of the norms of
    the frequency moved by half a step towards either end of the diagonal *)
Theorem C97_odd_spectrum : forall N nr x alpha, Nat.odd N = true ->
  exists y, fract_int_2d (A3 N N nr x) alpha = Ok (A3 N N nr y) /\
  forall r k1 k2, (k1 < N)%nat -> (k2 < N)%nat ->
    cosine_coef N (fun a b => y a b r) k1 k2 = odd_gain N alpha k1 k2 * cosine_coef N (fun a b => x a b r) k1 k2 /\
    sine_coef N (fun a b => y a b r) k1 k2 = odd_gain N alpha k1 k2 * sine_coef N (fun a b => x a b r) k1 k2.
Proof.
  intros N nr x alpha Od. assert (P := N1 N Od). destruct (odd_shape N nr x alpha Od) as [filt [E F]]. eexists. split; [exact E|]. intros r k1 k2 H1 H2.
  pose proof (ofract_fft N Od alpha filt (fun a b => x a b r) F k1 k2 H1 H2) as X. rewrite !fft2_coefs in X by trivial. injection X as X1 X2. split; [exact X1|].
  apply (f_equal Ropp) in X2. rewrite Ropp_involutive in X2. etransitivity; [exact X2|]. cbn [snd]. ring.
Qed.
Lemma coef_zero N u : cosine_coef N u 0 0 = grid_sum N u.
Proof. unfold cosine_coef. rewrite !grid_sum_eq. apply sum2_ext. intros a b _ _. unfold phase. change (INR 0) with 0. replace (2 * PI * (0 * INR a + 0 * INR b) / INR N) with 0 by (unfold Rdiv; ring). rewrite cos_0. ring. Qed.
Lemma odd_gain_zero N alpha : (1 <= N)%nat -> odd_gain N alpha 0 0 = Rpower 2 (alpha / 2).
Proof.
  intros P. unfold odd_gain, shifted_norm2, centred. destruct (Nat.ltb_spec (2 * 0) N); [|lia]. change (IZR (Z.of_nat 0)) with 0.
  replace ((0 + - / 2) ^ 2 + (0 + - / 2) ^ 2) with (/ 2) by field. replace ((0 + / 2) ^ 2 + (0 + / 2) ^ 2) with (/ 2) by field.
  unfold Rpower. rewrite ln_Rinv by lra. replace (- alpha / 2 * - ln 2) with (alpha / 2 * ln 2) by field. field.
Qed.
(** so the mean is multiplied by 2^(alpha/2) *)
Theorem C97_odd_mean : forall N nr x alpha, Nat.odd N = true ->
  exists y, fract_int_2d (A3 N N nr x) alpha = Ok (A3 N N nr y) /\ forall r, grid_sum N (fun a b => y a b r) = Rpower 2 (alpha / 2) * grid_sum N (fun a b => x a b r).
Proof.
  intros N nr x alpha Od. assert (P := N1 N Od). destruct (C97_odd_spectrum N nr x alpha Od) as [y [E F]]. exists y. split; [exact E|]. intros r. destruct (F r 0%nat 0%nat) as [A _]; [lia|lia|].
  rewrite !coef_zero in A. now rewrite A, odd_gain_zero.
Qed.
Lemma Rpower_ne_1 a e : 1 < a -> e <> 0 -> Rpower a e <> 1.
Proof.
  intros Ha He Z. apply (f_equal ln) in Z. unfold Rpower in Z. rewrite ln_exp, ln_1 in Z. apply Rmult_integral in Z as [Z|Z]; [lra|]. pose proof (ln_increasing 1 a ltac:(lra) Ha) as L. rewrite ln_1 in L. lra.
Qed.
(** "the mean of the image is kept", true of even sizes, is false of every odd size and every order but 0 *)
Theorem C97_mean_refuted : forall N nr x alpha, Nat.odd N = true -> alpha <> 0 ->
  exists y, fract_int_2d (A3 N N nr x) alpha = Ok (A3 N N nr y) /\
    forall r, grid_sum N (fun a b => x a b r) <> 0 -> grid_sum N (fun a b => y a b r) <> grid_sum N (fun a b => x a b r).
Proof.
  intros N nr x alpha Od Ha. destruct (C97_odd_mean N nr x alpha Od) as [y [E F]]. exists y. split; [exact E|]. intros r Nz Z. rewrite F in Z.
  apply (Rpower_ne_1 2 (alpha / 2)); [lra|lra|]. apply (Rmult_eq_reg_r (grid_sum N (fun a b => x a b r))); [|exact Nz]. lra.
Qed.
Lemma odd_gain_one N alpha : (3 <= N)%nat -> odd_gain N alpha 1 0 = (Rpower (/ 2) (- alpha / 2) + Rpower (5 / 2) (- alpha / 2)) / 2.
Proof.
  intros P. unfold odd_gain, shifted_norm2, centred. destruct (Nat.ltb_spec (2 * 0) N); [|lia]. destruct (Nat.ltb_spec (2 * 1) N); [|lia].
  change (IZR (Z.of_nat 0)) with 0. change (IZR (Z.of_nat 1)) with 1. do 3 f_equal; field.
Qed.
(** the orders alpha and -alpha no longer undo each other: the gains at the frequency (1, 0) multiply to more than 1 *)
Lemma odd_gain_inverse N alpha : (3 <= N)%nat -> alpha <> 0 -> 1 < odd_gain N (- alpha) 1 0 * odd_gain N alpha 1 0.
Proof.
  intros P Ha. rewrite !odd_gain_one by trivial. replace (- - alpha / 2) with (- (- alpha / 2)) by lra. rewrite !Rpower_Ropp.
  assert (U : 0 < Rpower (/ 2) (- alpha / 2)) by apply exp_pos. assert (V : 0 < Rpower (5 / 2) (- alpha / 2)) by apply exp_pos.
  assert (D : Rpower (/ 2) (- alpha / 2) <> Rpower (5 / 2) (- alpha / 2)).
  { intros Z. apply (Rpower_ne_1 5 (- alpha / 2)); [lra|lra|]. replace 5 with (5 / 2 * / (/ 2)) by field. rewrite <- Rpower_mult_distr by lra. rewrite <- Z.
    unfold Rpower. rewrite (ln_Rinv (/ 2)) by lra. rewrite <- exp_plus. replace (- alpha / 2 * ln (/ 2) + - alpha / 2 * - ln (/ 2)) with 0 by ring. apply exp_0. }
  revert U V D. generalize (Rpower (/ 2) (- alpha / 2)) (Rpower (5 / 2) (- alpha / 2)). intros u v U V D.
  assert (Q : 0 < (u - v) ^ 2) by (assert (K : u - v <> 0) by (intros K; apply D; lra); apply Rsqr_pos_lt in K; unfold Rsqr in K; cbn [pow]; lra). assert (W : 0 < u * v) by now apply Rmult_lt_0_compat.
  replace ((/ u + / v) / 2 * ((u + v) / 2)) with (1 + (u - v) ^ 2 / (4 * (u * v))) by (field; lra).
  assert (0 < (u - v) ^ 2 / (4 * (u * v))); [apply Rdiv_lt_0_compat; lra|lra].
Qed.
(** for every odd size from 3 on and every order but 0, integrating then differentiating does not give back the image cos(2 pi a / N) *)
Theorem C97_inverse_refuted : forall N alpha, Nat.odd N = true -> (3 <= N)%nat -> alpha <> 0 ->
  exists y z, fract_int_2d (A3 N N 1 (fun a b r => cos (2 * PI * INR a / INR N))) alpha = Ok (A3 N N 1 y) /\ fract_int_2d (A3 N N 1 y) (- alpha) = Ok (A3 N N 1 z) /\
    ~ (forall a b, (a < N)%nat -> (b < N)%nat -> z a b 0%nat = cos (2 * PI * INR a / INR N)).
Proof.
  intros N alpha Od H3 Ha. destruct (C97_odd_spectrum N 1 (fun a b r => cos (2 * PI * INR a / INR N)) alpha Od) as [y [Ey Fy]]. destruct (C97_odd_spectrum N 1 y (- alpha) Od) as [z [Ez Fz]]. exists y, z. split; [exact Ey|]. split; [exact Ez|].
  intros Z. destruct (Fz 0%nat 1%nat 0%nat) as [A _]; [lia|lia|]. destruct (Fy 0%nat 1%nat 0%nat) as [B _]; [lia|lia|]. rewrite B in A. clear B Fy Fz Ey Ez.
  assert (E : cosine_coef N (fun a b => z a b 0%nat) 1 0 = cosine_coef N (fun a _ => cos (2 * PI * INR a / INR N)) 1 0).
  { unfold cosine_coef. rewrite !grid_sum_eq. apply sum2_ext. intros a b La Lb. now rewrite Z. }
  rewrite E in A. assert (G := odd_gain_inverse N alpha H3 Ha).
  assert (Q : 0 < cosine_coef N (fun a _ => cos (2 * PI * INR a / INR N)) 1 0); [|nra].
  unfold cosine_coef. rewrite grid_sum_eq. unfold sum2.
  assert (T : forall a b, 0 <= cos (2 * PI * INR a / INR N) * cos (phase N 1 0 a b)).
  { intros a b. unfold phase. change (INR 1) with 1. change (INR 0) with 0. replace (1 * INR a + 0 * INR b) with (INR a) by ring. apply Rle_0_sqr. }
  destruct N as [|n]; [lia|]. rewrite sumn_S_first, sumn_S_first.
  assert (T0 : cos (2 * PI * INR 0 / INR (S n)) * cos (phase (S n) 1 0 0 0) = 1).
  { unfold phase. change (INR 0) with 0. replace (2 * PI * 0 / INR (S n)) with 0 by (unfold Rdiv; ring). replace (2 * PI * (INR 1 * 0 + 0 * 0) / INR (S n)) with 0 by (unfold Rdiv; ring). rewrite cos_0. ring. }
  rewrite T0. assert (S1 := sumn_nonneg n (fun i => cos (2 * PI * INR 0 / INR (S n)) * cos (phase (S n) 1 0 0 (S i))) (fun i _ => T _ _)).
  assert (S2 := sumn_nonneg n (fun i => sumn (S n) (fun b => cos (2 * PI * INR (S i) / INR (S n)) * cos (phase (S n) 1 0 (S i) b))) (fun i _ => sumn_nonneg _ _ (fun b _ => T _ _))). cbv beta in S1, S2. lra.
Qed.

(** ** one row: any number of columns is accepted, and the image is multiplied by 2^(alpha/2) *)
Section Row.
Variable M : nat.
Hypothesis HM : (1 <= M)%nat.
Lemma row_fft x k : fft2 1 M x 0%nat k = csumn M (fun b => cmul (x 0%nat b) (W M (- Z.of_nat k * Z.of_nat b))).
Proof using HM.
  unfold fft2, dft2. rewrite csum_prod, csum_seq. unfold csumn at 1. rewrite !(sumn_S 0%nat), !sumn_0, !Rplus_0_l, <- surjective_pairing. rewrite csum_seq. apply csumn_ext. intros b _. cbn [fst snd]. f_equal. unfold W. f_equal.
  rewrite mult_IZR, opp_IZR, <- !INR_IZR_INZ, !mult_INR. change (INR 0) with 0. change (INR 1) with 1. field. apply INR_N. exact HM.
Qed.
Lemma row_ifft x b : ifft2 1 M x 0%nat b = cmul (toC (/ INR M)) (csumn M (fun k => cmul (x 0%nat k) (W M (Z.of_nat k * Z.of_nat b)))).
Proof using HM.
  unfold ifft2. rewrite cscal_mul. change (INR 1) with 1. rewrite Rmult_1_l. f_equal. unfold dft2. rewrite csum_prod, csum_seq. unfold csumn at 1. rewrite !(sumn_S 0%nat), !sumn_0, !Rplus_0_l, <- surjective_pairing. rewrite csum_seq. apply csumn_ext. intros k _. cbn [fst snd]. f_equal. unfold W. f_equal.
  rewrite mult_IZR, <- !INR_IZR_INZ, !mult_INR. change (INR 0) with 0. change (INR 1) with 1. field. apply INR_N. exact HM.
Qed.
Lemma row_inverse x b : (b < M)%nat -> ifft2 1 M (fft2 1 M x) 0%nat b = x 0%nat b.
Proof using HM.
  intros Hb. rewrite row_ifft.
  rewrite (csumn_ext M _ (fun k => csumn M (fun l => cmul (x 0%nat l) (W M (Z.of_nat k * (Z.of_nat b - Z.of_nat l)))))).
  2:{ intros k _. rewrite row_fft, <- csumn_mul_r. apply csumn_ext. intros l _. replace (Z.of_nat k * (Z.of_nat b - Z.of_nat l))%Z with (- Z.of_nat k * Z.of_nat l + Z.of_nat k * Z.of_nat b)%Z by ring. rewrite W_add. ring. }
  rewrite csumn_swap. rewrite (csumn_single M _ b Hb).
  - rewrite csumn_mul, Z.sub_diag, W_ortho, Z.mod_0_l by lia. destruct (Z.eq_dec 0 0); [|congruence].
    match goal with |- cmul ?u (cmul ?v ?w) = _ => replace (cmul u (cmul v w)) with (cmul (cmul u w) v) by ring end. rewrite <- toC_mul, Rinv_l by (apply INR_N; exact HM). rewrite toC_1. ring.
  - intros l Hl Ne. rewrite csumn_mul, W_ortho by exact HM. destruct (Z.eq_dec _ 0) as [E|]; [|ring]. exfalso. apply Ne. symmetry. now apply (mod_eq_small M HM).
Qed.
End Row.
Lemma roll_back m j : (j < m)%nat -> (((j + m / 2) mod m + (m - m / 2)) mod m = j)%nat.
Proof.
  intros H. assert (L : (m / 2 <= m)%nat) by (apply Nat.div_le_upper_bound; lia). rewrite Nat.add_mod_idemp_l by lia.
  replace (j + m / 2 + (m - m / 2))%nat with (j + 1 * m)%nat by lia. rewrite Nat.mod_add by lia. now apply Nat.mod_small.
Qed.
Theorem C97_one_row : forall M nr x alpha, (1 <= M)%nat ->
  exists y, fract_int_2d (A3 1 M nr x) alpha = Ok (A3 1 M nr y) /\ forall b r, (b < M)%nat -> y 0%nat b r = Rpower 2 (alpha / 2) * x 0%nat b r.
Proof.
  intros M nr x alpha HM. destruct (ofilter 1 eq_refl alpha) as [filt [E F]]. specialize (F 0%nat 0%nat ltac:(lia) ltac:(lia)).
  assert (C : filt 0%nat 0%nat = Rpower 2 (alpha / 2)).
  { change (shifted 1 0) with 0%nat in F. rewrite F. rewrite <- (odd_gain_zero 1) by lia. unfold odd_gain, shifted_norm2. change (centred 1 0) with 0%Z. replace ((0 + - / 2) ^ 2 + (0 + - / 2) ^ 2) with ((0 + / 2) ^ 2 + (0 + / 2) ^ 2) by field. field. }
  assert (A : forall g f b, (forall i j, (i < 1)%nat -> (j < M)%nat -> g i j = filt 0%nat 0%nat) -> (b < M)%nat -> fract_apply 1 M g f 0%nat b = Rpower 2 (alpha / 2) * f 0%nat b).
  { intros g f b Hg Hb. unfold fract_apply. rewrite row_ifft by exact HM.
    rewrite (csumn_ext M _ (fun k => cmul (toC (Rpower 2 (alpha / 2))) (cmul (fft2 1 M (fun i j => toC (f i j)) 0%nat k) (W M (Z.of_nat k * Z.of_nat b))))).
    2:{ intros k Hk. unfold ifftshift, fftshift. rewrite Hg by (apply Nat.mod_upper_bound; lia). rewrite (roll_back M k) by exact Hk. rewrite (roll_back 1 0) by lia. rewrite cscal_mul, C. ring. }
    rewrite csumn_mul. assert (R := row_inverse M HM (fun i j => toC (f i j)) b Hb). rewrite row_ifft in R by exact HM. 
    match goal with |- fst (cmul ?u (cmul ?v ?w)) = _ => replace (cmul u (cmul v w)) with (cmul v (cmul u w)) by ring end. rewrite R. cbn. ring. }
  unfold fract_int_2d. rewrite E. cbn [bind]. destruct (Nat.eqb_spec 1 M) as [<-|Ne].
  - eexists. split; [reflexivity|]. intros b r Hb. cbv beta. apply A; [|exact Hb]. intros i j Hi Hj. now replace i with 0%nat by lia; replace j with 0%nat by lia.
  - rewrite Nat.eqb_refl. destruct (Nat.eqb_spec M 0); [lia|]. cbn [negb andb]. eexists. split; [reflexivity|]. intros b r Hb. cbv beta. apply A; [reflexivity|exact Hb].
Qed.
(** other shapes are refused *)
Theorem C97_refused : forall N M nr x y alpha, Nat.odd N = true ->
  fract_int_2d (A2 N M x) alpha = Err ValueError /\ ((3 <= N)%nat -> N <> M -> fract_int_2d (A3 N M nr y) alpha = Err ValueError) /\ (M = 0%nat -> fract_int_2d (A3 N M nr y) alpha = Err ValueError).
Proof.
  intros N M nr x y alpha Od. assert (P := N1 N Od). destruct (ofilter N Od alpha) as [filt [E _]]. unfold fract_int_2d. rewrite E. cbn [bind]. repeat split.
  - intros H3 Ne. rewrite (proj2 (Nat.eqb_neq N M) Ne). destruct (Nat.eqb_spec N 1); [lia|reflexivity].
  - intros ->. destruct (Nat.eqb_spec N 0); [lia|]. now rewrite andb_false_r.
Qed.
(** a non-trivial case: the 3 x 3 image with entries 1, integrated to the order 2, has entries summing to 18 instead of 9 *)
Example C97_case : exists y, fract_int_2d (A3 3 3 1 (fun _ _ _ => 1)) 2 = Ok (A3 3 3 1 y) /\ grid_sum 3 (fun a b => y a b 0%nat) = 18 /\
  grid_sum 3 (fun _ _ => 1) = 9.
Proof.
  destruct (C97_odd_mean 3 1 (fun _ _ _ => 1) 2 eq_refl) as [y [E F]]. exists y. split; [exact E|]. rewrite F. replace (2 / 2) with 1 by lra. rewrite Rpower_1 by lra. unfold grid_sum. cbn. lra.
Qed.
