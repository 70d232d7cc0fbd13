(** * Fractional integration on the torus *)
From Coq Require Import Reals List ZArith Bool Lia Lra.
From Verif Require Import XReal PyBase ModelSimul ModelPlot Model2D Spec LXReal LDft LDft2 Spec2D PropsPlotBi.
Import ListNotations.
Open Scope R_scope.

(** ** the centred frequencies *)
Section Even.
Variable N : nat.
Hypothesis HN : (1 <= N)%nat.
Hypothesis Ev : Nat.even N = true.
Lemma half : exists h, N = (2 * h)%nat /\ (1 <= h)%nat /\ (N / 2 = h)%nat.
Proof. apply Nat.even_spec in Ev as [h E]. exists h. repeat split; [trivial|lia|]. rewrite E, Nat.mul_comm. apply Nat.div_mul. lia. Qed.
Definition shifted (k : nat) : nat := ((k + N / 2) mod N)%nat.
Lemma shifted_lt k : (shifted k < N)%nat. Proof. apply Nat.mod_upper_bound. lia. Qed.
Lemma shifted_cases k : (k < N)%nat -> (2 * k < N /\ shifted k = k + N / 2)%nat \/ (N <= 2 * k /\ shifted k = k - N / 2)%nat.
Proof.
  intros Hk. unfold shifted. destruct half as [h [E [H1 H2]]]. rewrite H2. destruct (le_lt_dec N (2 * k)) as [L|L].
  - right. split; trivial. replace (k + h)%nat with (k - h + 1 * N)%nat by lia. rewrite Nat.mod_add by lia. apply Nat.mod_small. lia.
  - left. split; trivial. apply Nat.mod_small. lia.
Qed.
Lemma wavenumber_shifted k : (k < N)%nat -> wavenumber N (shifted k) = IZR (centred N k).
Proof.
  intros Hk. unfold wavenumber, centred. destruct half as [h [E [H1 H2]]]. destruct (shifted_cases k Hk) as [[L ->]|[L ->]]; rewrite H2.
  - rewrite (proj2 (Nat.ltb_lt (2 * k) N)) by trivial. rewrite plus_INR, E, mult_INR, <- INR_IZR_INZ. cbn [INR]. field.
  - rewrite (proj2 (Nat.ltb_ge (2 * k) N)) by trivial. rewrite minus_INR by lia. rewrite minus_IZR, <- !INR_IZR_INZ, E, mult_INR. cbn [INR]. field.
Qed.
(** fftshift after ifftshift *)
Lemma shifted_back k : (k < N)%nat -> ((shifted k + (N - N / 2)) mod N = k)%nat.
Proof.
  intros Hk. destruct half as [h [E [H1 H2]]]. destruct (shifted_cases k Hk) as [[L ->]|[L ->]]; rewrite H2.
  - replace (k + h + (N - h))%nat with (k + 1 * N)%nat by lia. rewrite Nat.mod_add by lia. now apply Nat.mod_small.
  - replace (k - h + (N - h))%nat with k by lia. now apply Nat.mod_small.
Qed.
Lemma centred_neg k : (k < N)%nat -> IZR (centred N ((N - k) mod N)) ^ 2 = IZR (centred N k) ^ 2.
Proof.
  intros Hk. destruct half as [h [E [H1 H2]]]. destruct (Nat.eq_dec k 0) as [->|Nk].
  - now rewrite Nat.sub_0_r, Nat.mod_same by lia.
  - rewrite Nat.mod_small by lia. unfold centred. destruct (Nat.ltb_spec (2 * k) N), (Nat.ltb_spec (2 * (N - k)) N); try lia.
    + rewrite Nat2Z.inj_sub by lia. rewrite !minus_IZR. ring.
    + rewrite Nat2Z.inj_sub by lia. rewrite !minus_IZR. ring.
    + assert (2 * k = N)%nat by lia. replace (N - k)%nat with k by lia. reflexivity.
Qed.
Lemma centred_zero k : (k < N)%nat -> centred N k = 0%Z <-> k = 0%nat.
Proof. intros Hk. unfold centred. destruct (Nat.ltb_spec (2 * k) N); lia. Qed.
Lemma freq_norm2_neg k1 k2 : (k1 < N)%nat -> (k2 < N)%nat -> freq_norm2 N ((N - k1) mod N) ((N - k2) mod N) = freq_norm2 N k1 k2.
Proof. intros H1 H2. unfold freq_norm2. now rewrite !centred_neg. Qed.
Lemma IZR_sq_ge (z : Z) : z <> 0%Z -> 1 <= IZR z ^ 2.
Proof. intros H. cbn [pow]. rewrite Rmult_1_r, <- mult_IZR. apply IZR_le. nia. Qed.
Lemma freq_norm2_pos k1 k2 : (k1 < N)%nat -> (k2 < N)%nat -> (k1, k2) <> (0, 0)%nat -> 1 <= freq_norm2 N k1 k2.
Proof.
  intros H1 H2 Ne. unfold freq_norm2. pose proof (pow2_ge_0 (IZR (centred N k1))). pose proof (pow2_ge_0 (IZR (centred N k2))).
  destruct (Nat.eq_dec k1 0) as [->|N1].
  - assert (k2 <> 0)%nat by congruence. pose proof (IZR_sq_ge (centred N k2)). rewrite centred_zero in H4 by trivial. specialize (H4 H3). lra.
  - pose proof (IZR_sq_ge (centred N k1)). rewrite centred_zero in H3 by trivial. specialize (H3 N1). lra.
Qed.
Lemma radius_shifted k1 k2 : (k1 < N)%nat -> (k2 < N)%nat -> radius N (shifted k1) (shifted k2) = sqrt (freq_norm2 N k1 k2).
Proof. intros H1 H2. unfold radius, freq_norm2. now rewrite !wavenumber_shifted. Qed.
(** every index is a shifted one *)
Lemma shifted_onto i : (i < N)%nat -> exists k, (k < N)%nat /\ shifted k = i.
Proof.
  intros Hi. exists ((i + (N - N / 2)) mod N)%nat. split; [apply Nat.mod_upper_bound; lia|]. unfold shifted. destruct half as [h [E [H1 H2]]]. rewrite H2.
  rewrite Nat.add_mod_idemp_l by lia. replace (i + (N - h) + h)%nat with (i + 1 * N)%nat by lia. rewrite Nat.mod_add by lia. now apply Nat.mod_small.
Qed.
Lemma list_min_1 : list_min (filter (fun d => if Req_EM_T d 0 then false else true) (map (fun p => radius N (fst p) (snd p)) (list_prod (seq 0 N) (seq 0 N)))) = Ok 1.
Proof.
  set (l := filter _ _).
  assert (I1 : In 1 l).
  { apply filter_In. split; [|destruct (Req_EM_T 1 0); [lra|reflexivity]]. apply in_map_iff. exists (shifted (N - 1), shifted 0). split.
    - cbn [fst snd]. destruct half as [h [E [H1 H2]]]. rewrite radius_shifted by lia. unfold freq_norm2, centred.
      destruct (Nat.ltb_spec (2 * (N - 1)) N); [lia|]. destruct (Nat.ltb_spec (2 * 0) N); [|lia]. replace (Z.of_nat (N - 1) - Z.of_nat N)%Z with (-1)%Z by lia. change (Z.of_nat 0) with 0%Z. replace (IZR (-1) ^ 2 + 0 ^ 2) with 1 by ring. apply sqrt_1.
    - apply in_prod; apply in_seq; split; try lia; apply shifted_lt. }
  assert (Ge : forall d, In d l -> 1 <= d).
  { intros d Hd. apply filter_In in Hd as [Hd Nz]. apply in_map_iff in Hd as [[i j] [E Hij]]. apply in_prod_iff in Hij as [Hi Hj]. apply in_seq in Hi, Hj. cbn [fst snd] in E.
    destruct (shifted_onto i) as [k1 [K1 E1]]; [lia|]. destruct (shifted_onto j) as [k2 [K2 E2]]; [lia|]. subst i j. rewrite radius_shifted in E by trivial. subst d.
    destruct (Req_EM_T _ 0) as [|Ns]; [discriminate|]. rewrite <- sqrt_1. apply sqrt_le_1_alt. apply freq_norm2_pos; trivial. intros E. injection E as -> ->. apply Ns.
    unfold freq_norm2. rewrite (proj2 (centred_zero 0 K1)) by trivial. replace (0 ^ 2 + 0 ^ 2) with 0 by (cbn; ring). apply sqrt_0. }
  destruct (list_min_spec l) as [m [E [Im Lm]]]; [now destruct l|]. rewrite E. f_equal. apply Rle_antisym; auto.
Qed.
Lemma powR_pos a e : 0 < a -> powR a e = Rpower a e.
Proof. intros H. unfold powR, xpow. destruct (Rlt_dec 0 a); [reflexivity|contradiction]. Qed.
Lemma sqrt_Rpower x e : 0 < x -> / Rpower (sqrt x) e = Rpower x (- e / 2).
Proof. intros H. rewrite <- Rpower_Ropp, <- (Rpower_sqrt x) by trivial. rewrite Rpower_mult. f_equal. lra. Qed.
Lemma fract_filter_eq alpha : exists filt, fract_filter N alpha = Ok filt /\ forall k1 k2, (k1 < N)%nat -> (k2 < N)%nat -> filt (shifted k1) (shifted k2) = fract_gain N alpha k1 k2.
Proof.
  unfold fract_filter. rewrite list_min_1. cbn [bind]. eexists. split; [reflexivity|]. intros k1 k2 H1 H2. cbv beta zeta. rewrite radius_shifted by trivial.
  unfold fract_gain. destruct (Nat.eqb_spec k1 0) as [->|N1]; [destruct (Nat.eqb_spec k2 0) as [->|N2]|]; cbn [andb].
  - replace (freq_norm2 N 0 0) with 0. { rewrite sqrt_0. destruct (Req_EM_T 0 0); [|congruence]. rewrite powR_pos by lra. unfold Rpower. rewrite ln_1, Rmult_0_r, exp_0. field. }
    unfold freq_norm2. rewrite (proj2 (centred_zero 0 H1)) by trivial. cbn; ring.
  - pose proof (freq_norm2_pos 0 k2 H1 H2 ltac:(congruence)) as P. pose proof (sqrt_lt_R0 (freq_norm2 N 0 k2) ltac:(lra)). destruct (Req_EM_T _ 0); [lra|]. rewrite powR_pos by trivial. apply sqrt_Rpower. lra.
  - pose proof (freq_norm2_pos k1 k2 H1 H2 ltac:(congruence)) as P. pose proof (sqrt_lt_R0 (freq_norm2 N k1 k2) ltac:(lra)). destruct (Req_EM_T _ 0); [lra|]. rewrite powR_pos by trivial. apply sqrt_Rpower. lra.
Qed.
Lemma fract_gain_neg alpha k1 k2 : (k1 < N)%nat -> (k2 < N)%nat -> fract_gain N alpha ((N - k1) mod N) ((N - k2) mod N) = fract_gain N alpha k1 k2.
Proof.
  intros H1 H2. unfold fract_gain. rewrite freq_norm2_neg by trivial.
  assert (Z : forall k, (k < N)%nat -> Nat.eqb ((N - k) mod N) 0 = Nat.eqb k 0).
  { intros k Hk. destruct (Nat.eqb_spec k 0) as [->|Nk]; [now rewrite Nat.sub_0_r, Nat.mod_same by lia|]. rewrite Nat.mod_small by lia. apply Nat.eqb_neq. lia. }
  now rewrite !Z.
Qed.

(** ** transforms of real arrays *)
Lemma W_eqm z z' : (z mod Z.of_nat N = z' mod Z.of_nat N)%Z -> W N z = W N z'.
Proof. intros H. rewrite <- (W_mod N HN z), <- (W_mod N HN z'). now rewrite H. Qed.
Lemma neg_mod k : (k <= N)%nat -> (Z.of_nat ((N - k) mod N) mod Z.of_nat N = (- Z.of_nat k) mod Z.of_nat N)%Z.
Proof. intros H. rewrite Nat2Z.inj_mod, Nat2Z.inj_sub by trivial. rewrite Z.mod_mod by lia. replace (Z.of_nat N - Z.of_nat k)%Z with (- Z.of_nat k + 1 * Z.of_nat N)%Z by ring. now rewrite Z.mod_add by lia. Qed.
Lemma w2_reflect k1 k2 a b : (k1 <= N)%nat -> (k2 <= N)%nat -> w2 N (Z.of_nat ((N - k1) mod N)) (Z.of_nat ((N - k2) mod N)) a b = w2 N (- Z.of_nat k1) (- Z.of_nat k2) a b.
Proof.
  intros H1 H2. unfold w2. apply W_eqm. rewrite (Z.add_mod _ _ (Z.of_nat N)), (Z.mul_mod _ (Z.of_nat a)), (Z.mul_mod _ (Z.of_nat b)) by lia. rewrite !neg_mod by trivial.
  now rewrite <- !Z.mul_mod, <- Z.add_mod by lia.
Qed.
Lemma fft2_reflect x k1 k2 : (forall a b, conj (x a b) = x a b) -> (k1 <= N)%nat -> (k2 <= N)%nat -> fft2 N N x ((N - k1) mod N)%nat ((N - k2) mod N)%nat = conj (fft2 N N x k1 k2).
Proof.
  intros Re H1 H2. rewrite !fft2_eq by trivial. rewrite csum2_conj. apply csum2_ext. intros a b _ _. rewrite conj_mul, Re. f_equal. rewrite w2_conj.
  rewrite <- (w2_conj N (Z.of_nat _)). rewrite w2_reflect by trivial. rewrite w2_conj. reflexivity.
Qed.
(** the inverse transform of a conjugate-symmetric array is real *)
Lemma ifft2_real X a b : (forall k1 k2, (k1 < N)%nat -> (k2 < N)%nat -> X ((N - k1) mod N)%nat ((N - k2) mod N)%nat = conj (X k1 k2)) -> snd (ifft2 N N X a b) = 0.
Proof.
  intros Sy. apply conj_real. rewrite !ifft2_eq by trivial. rewrite conj_mul, conj_toC. f_equal. rewrite csum2_conj.
  rewrite <- (csum2_reflect N N (fun k1 k2 => cmul (X k1 k2) (w2 N (Z.of_nat k1) (Z.of_nat k2) a b))) by trivial. apply csum2_ext. intros k1 k2 H1 H2.
  rewrite conj_mul, Sy by trivial. f_equal. rewrite w2_conj. symmetry. apply w2_reflect; lia.
Qed.

(** ** the effect on the coefficients *)
Section Apply.
Variable alpha : R.
Variable filt : nat -> nat -> R.
Hypothesis HF : forall k1 k2, (k1 < N)%nat -> (k2 < N)%nat -> filt (shifted k1) (shifted k2) = fract_gain N alpha k1 k2.
Variable x : nat -> nat -> R.
Let X : field := fft2 N N (fun i j => toC (x i j)).
Let G : field := ifftshift N N (fun i j => cscal (filt i j) (fftshift N N X i j)).
Lemma G_eq k1 k2 : (k1 < N)%nat -> (k2 < N)%nat -> G k1 k2 = cscal (fract_gain N alpha k1 k2) (X k1 k2).
Proof. intros H1 H2. unfold G, ifftshift, fftshift. fold (shifted k1) (shifted k2). rewrite HF by trivial. now rewrite !shifted_back. Qed.
Lemma fract_apply_toC a b : toC (fract_apply N N filt x a b) = ifft2 N N G a b.
Proof.
  unfold fract_apply. fold X. fold G. apply C_eq; [reflexivity|]. cbn [snd toC]. symmetry. apply ifft2_real. intros k1 k2 H1 H2.
  rewrite !G_eq by (trivial; apply Nat.mod_upper_bound; lia). rewrite fract_gain_neg by trivial. unfold X. rewrite fft2_reflect by (try lia; intros; apply conj_toC).
  rewrite !cscal_mul, conj_mul, conj_toC. reflexivity.
Qed.
Lemma fract_apply_fft k1 k2 : (k1 < N)%nat -> (k2 < N)%nat -> fft2 N N (fun a b => toC (fract_apply N N filt x a b)) k1 k2 = cscal (fract_gain N alpha k1 k2) (X k1 k2).
Proof.
  intros H1 H2. rewrite <- G_eq by trivial. rewrite <- (fft2_ifft2 N HN G k1 k2) by trivial. rewrite !fft2_eq by trivial. apply csum2_ext. intros a b _ _. now rewrite fract_apply_toC.
Qed.
End Apply.
End Even.

(** ** grid sums *)
Lemma Rsum_prod (f : nat * nat -> R) (l m : list nat) : Rsum (map f (list_prod l m)) = Rsum (map (fun i => Rsum (map (fun j => f (i, j)) m)) l).
Proof. induction l as [|i l IH]; [reflexivity|]. cbn [list_prod map]. rewrite map_app, map_map, Rsum_app, IH. reflexivity. Qed.
Definition sum2 (N : nat) (f : nat -> nat -> R) : R := sumn N (fun a => sumn N (f a)).
Lemma grid_sum_eq N f : grid_sum N f = sum2 N f.
Proof. unfold grid_sum. change (fold_right Rplus 0 (map (fun p => f (fst p) (snd p)) (list_prod (seq 0 N) (seq 0 N)))) with (Rsum (map (fun p => f (fst p) (snd p)) (list_prod (seq 0 N) (seq 0 N)))). apply Rsum_prod. Qed.
Lemma sum2_ext N f g : (forall a b, (a < N)%nat -> (b < N)%nat -> f a b = g a b) -> sum2 N f = sum2 N g.
Proof. intros H. apply sumn_ext. intros. apply sumn_ext. auto. Qed.
Lemma sum2_opp N f : sum2 N (fun a b => - f a b) = - sum2 N f.
Proof. unfold sum2. rewrite <- sumn_opp. apply sumn_ext. intros. apply sumn_opp. Qed.
Lemma fft2_coefs N x k1 k2 : (1 <= N)%nat -> fft2 N N (fun a b => toC (x a b)) k1 k2 = (cosine_coef N x k1 k2, - sine_coef N x k1 k2).
Proof.
  intros HN. rewrite fft2_eq by trivial. unfold cosine_coef, sine_coef. rewrite !grid_sum_eq.
  assert (E : forall a b, w2 N (- Z.of_nat k1) (- Z.of_nat k2) a b = (cos (phase N k1 k2 a b), - sin (phase N k1 k2 a b))).
  { intros a b. unfold w2, W, cis, phase. rewrite plus_IZR, !mult_IZR, !opp_IZR, <- !INR_IZR_INZ.
    replace (2 * PI * (- INR k1 * INR a + - INR k2 * INR b) / INR N) with (- (2 * PI * (INR k1 * INR a + INR k2 * INR b) / INR N)) by (unfold Rdiv; ring). now rewrite cos_neg, sin_neg. }
  rewrite (csum2_ext N N _ (fun a b => (x a b * cos (phase N k1 k2 a b), - (x a b * sin (phase N k1 k2 a b))))).
  - rewrite <- sum2_opp. reflexivity.
  - intros a b _ _. rewrite E. apply C_eq; cbn; ring.
Qed.
(** an array is determined by its coefficients *)
Lemma coefs_inj N x y : (1 <= N)%nat -> (forall k1 k2, (k1 < N)%nat -> (k2 < N)%nat -> cosine_coef N x k1 k2 = cosine_coef N y k1 k2 /\ sine_coef N x k1 k2 = sine_coef N y k1 k2) ->
  forall a b, (a < N)%nat -> (b < N)%nat -> x a b = y a b.
Proof.
  intros HN H a b Ha Hb. assert (E : toC (x a b) = toC (y a b)); [|now injection E].
  rewrite <- (ifft2_fft2 N HN (fun a b => toC (x a b)) a b), <- (ifft2_fft2 N HN (fun a b => toC (y a b)) a b) by trivial. rewrite !ifft2_eq by trivial. f_equal. apply csum2_ext.
  intros k1 k2 H1 H2. f_equal. rewrite !fft2_coefs by trivial. destruct (H k1 k2 H1 H2) as [-> ->]. reflexivity.
Qed.
