(** * C123: consequences, and runs that meet the hypotheses *)
From Coq Require Import Reals List ZArith Bool Lia Lra String.
From Verif Require Import XReal PyBase ModelSimul ModelPlot Model2D Spec SpecSimul LXReal LDft LSimul LNoise LWick LDft2 Spec2D LFract LCov2 Props2D PropsMrwStat PropsMrwCase PropsImage.
Import ListNotations.
Open Scope R_scope.
Local Notation length := List.length.

(** ** Consequences *)
Lemma even_two n : (1 <= n)%nat -> 2 <= INR (even_size n).
Proof. intros Hn. change 2 with (INR 2). apply le_INR. pose proof (even_size_ge n) as G. pose proof (even_size_even n) as Ev. destruct (even_size n) as [|[|m]]; [lia|discriminate|lia]. Qed.
(** the increments never have the flatness 3 L^(4 lam^2) of the multifractal random walk *)
Theorem C123_intermittency_refuted : forall W (P : expectation W) sh H lam L sigma z x0 Y X a b r, image_run P sh H lam L sigma z x0 Y X -> 1 < L -> lam <> 0 ->
  (a < even_size (shape_N sh))%nat -> (b < even_size (shape_N sh))%nat -> (r < shape_R sh)%nat ->
  E P (fun w => X w a b r ^ 4) / E P (fun w => X w a b r ^ 2) ^ 2 <= 3 * Rpower L (2 * lam ^ 2) /\ 3 * Rpower L (2 * lam ^ 2) < 3 * Rpower L (4 * lam ^ 2).
Proof.
  intros W P sh H lam L sigma z x0 Y X a b r RUN HL Hlam Ha Hb Hr. assert (HN := even_two (shape_N sh) (proj1 RUN)). destruct (C123_flatness P sh H lam L sigma z x0 Y X RUN a b r Ha Hb Hr ltac:(lra)) as [_ B].
  assert (l0 : 0 < ln L) by (rewrite <- ln_1; apply ln_increasing; lra). assert (m0 : 0 < lam ^ 2) by (rewrite <- Rsqr_pow2; now apply Rsqr_pos_lt). split.
  - eapply Rle_trans; [exact B|]. apply Rmult_le_compat_l; [lra|]. unfold Rpower. apply exp_le. apply Rmult_le_compat_r; [lra|]. apply Rmult_le_reg_r with (INR (even_size (shape_N sh))); [lra|]. unfold Rdiv. rewrite Rmult_assoc, Rinv_l by lra. nra.
  - apply Rmult_lt_compat_l; [lra|]. unfold Rpower. apply exp_increasing. apply Rmult_lt_compat_r; lra.
Qed.
(** whatever the intermittency asked for, the flatness tends to the one of Gaussian increments as the image grows *)
Theorem C123_gaussian : forall lam L eps, 1 <= L -> 0 < eps -> exists n0, forall W (P : expectation W) sh H sigma z x0 Y X a b r, image_run P sh H lam L sigma z x0 Y X -> (n0 <= shape_N sh)%nat ->
  (a < even_size (shape_N sh))%nat -> (b < even_size (shape_N sh))%nat -> (r < shape_R sh)%nat ->
  3 <= E P (fun w => X w a b r ^ 4) / E P (fun w => X w a b r ^ 2) ^ 2 <= 3 + eps.
Proof.
  intros lam L eps HL He. assert (e0 : 0 < ln (1 + eps / 3)) by (rewrite <- ln_1 at 1; apply ln_increasing; lra). destruct (archimed (4 * lam ^ 2 * ln L / ln (1 + eps / 3))) as [A _]. exists (Z.to_nat (up (4 * lam ^ 2 * ln L / ln (1 + eps / 3)))).
  intros W P sh H sigma z x0 Y X a b r RUN Hn Ha Hb Hr. destruct (C123_flatness P sh H lam L sigma z x0 Y X RUN a b r Ha Hb Hr HL) as [B0 B]. split; [exact B0|]. eapply Rle_trans; [exact B|].
  assert (HN := even_two (shape_N sh) (proj1 RUN)). assert (G := even_size_ge (shape_N sh)). set (N := even_size (shape_N sh)) in *.
  assert (K : 4 * lam ^ 2 * ln L / ln (1 + eps / 3) <= INR N). { apply Rle_trans with (IZR (up (4 * lam ^ 2 * ln L / ln (1 + eps / 3)))); [lra|]. rewrite INR_IZR_INZ. apply IZR_le. lia. }
  replace (3 + eps) with (3 * exp (ln (1 + eps / 3))) by (rewrite exp_ln by lra; field). apply Rmult_le_compat_l; [lra|]. unfold Rpower. apply exp_le. apply Rmult_le_reg_r with (INR N); [lra|]. replace (4 * lam ^ 2 / INR N * ln L * INR N) with (4 * lam ^ 2 * ln L) by (field; lra).
  apply Rmult_le_reg_r with (/ ln (1 + eps / 3)); [now apply Rinv_0_lt_compat|]. replace (ln (1 + eps / 3) * INR N * / ln (1 + eps / 3)) with (INR N) by (field; lra). exact K.
Qed.
(** the slope of the logarithm of the mean energy against the logarithm of the frequency is - (2 H + 2) between any two frequencies *)
Theorem C123_exponent : forall W (P : expectation W) sh H lam L sigma z x0 Y X r k1 k2 l1 l2, image_run P sh H lam L sigma z x0 Y X -> let N := even_size (shape_N sh) in
  (r < shape_R sh)%nat -> (k1 < N)%nat -> (k2 < N)%nat -> (l1 < N)%nat -> (l2 < N)%nat -> (k1, k2) <> (0, 0)%nat -> (l1, l2) <> (0, 0)%nat ->
  ln (E P (fun w => energy N (fun a b => Y w a b r) k1 k2)) - ln (E P (fun w => energy N (fun a b => Y w a b r) l1 l2)) = - (2 * H + 2) * (ln (sqrt (freq_norm2 N k1 k2)) - ln (sqrt (freq_norm2 N l1 l2))).
Proof.
  intros W P sh H lam L sigma z x0 Y X r k1 k2 l1 l2 RUN N Hr K1 K2 L1 L2 nk nl. destruct (C123_spectrum P sh H lam L sigma z x0 Y X RUN r k1 k2 Hr K1 K2) as (_ & _ & _ & EK). destruct (C123_spectrum P sh H lam L sigma z x0 Y X RUN r l1 l2 Hr L1 L2) as (_ & _ & _ & EL).
  fold N in EK, EL. rewrite EK, EL. assert (Z : forall a b : nat, (a, b) <> (0, 0)%nat -> (Nat.eqb a 0 && Nat.eqb b 0)%bool = false) by (intros a b ne; destruct a; [destruct b; [now elim ne|]|]; reflexivity). rewrite (Z _ _ nk), (Z _ _ nl).
  assert (C0 : 0 < INR N ^ 2 * exp (2 * image_vol N lam L 0 0 0 0)) by (apply Rmult_lt_0_compat; [apply pow_lt; assert (Q := even_two (shape_N sh) (proj1 RUN)); fold N in Q; lra|apply exp_pos]). set (c := INR N ^ 2 * exp _) in *. clearbody c.
  rewrite !ln_mult by (trivial; apply exp_pos). unfold Rpower. rewrite !ln_exp. ring.
Qed.
(** ** Such noises exist *)
Lemma comb_reindex {W I J} (idx : I -> Prop) (idy : J -> Prop) (z : I -> W -> R) (y : J -> W -> R) (s : J -> I) f : (forall j, idy j -> idx (s j)) -> (forall j w, idy j -> y j w = z (s j) w) -> combination idy y f -> combination idx z f.
Proof.
  intros Hs Hy (l & A & B). exists (map (fun p => (fst p, s (snd p))) l). split; [intros p Hp; apply in_map_iff in Hp as (q & <- & Hq); cbn [snd]; apply Hs, A, Hq|].
  intros w. rewrite B, map_map. f_equal. apply map_ext_in. intros q Hq. cbn [fst snd]. now rewrite (Hy _ w (A q Hq)).
Qed.
Theorem C123_noise_exists : forall N nr, exists W (P : expectation W) z x0, positive P /\ gaussian_fields P N nr z x0.
Proof.
  intros N nr. destruct (C120_noise_exists nr (N * N)) as (W & P & dw & de & HP & ((_ & Ww) & G4) & (_ & Wz) & EM & IE). set (ze := fun o => nz (de o)) in *. set (zw := fun o => nz (pick None (dw o))) in *.
  exists W, P, (fun w k1 k2 r => entry (0, 0) (zw w) r (k1 * N + k2)%nat), (fun w a b r => fst (entry (0, 0) (ze w) r (a * N + b)%nat)). split; [exact HP|].
  set (sz := fun i : nat * nat * nat * bool => let '(k1, k2, r, im) := i in (r, (k1 * N + k2)%nat, im)). set (sx := fun i : nat * nat * nat => let '(a, b, r) := i in (r, (a * N + b)%nat, false)).
  assert (IN : forall a b, (a < N)%nat -> (b < N)%nat -> (a * N + b < N * N)%nat) by (intros; nia).
  assert (IZ : forall j, fidx N nr j -> cidx nr (N * N) (sz j)) by (intros [[[k1 k2] r] im] (A & B & C); split; cbn [fst snd sz]; auto).
  assert (IX : forall j, pidx N nr j -> cidx nr (N * N) (sx j)) by (intros [[a b] r] (A & B & C); split; cbn [fst snd sx]; auto).
  set (z := fun w k1 k2 r => entry (0, 0) (zw w) r (k1 * N + k2)%nat). set (x0 := fun w a b r => fst (entry (0, 0) (ze w) r (a * N + b)%nat)).
  assert (VZ : forall j w, fidx N nr j -> fvar z j w = cvar zw (sz j) w) by (intros [[[k1 k2] r] im] w _; reflexivity).
  assert (VX : forall j w, pidx N nr j -> pvar x0 j w = cvar ze (sx j) w) by (intros [[a b] r] w _; reflexivity).
  assert (JZ : forall j k, fidx N nr j -> fidx N nr k -> sz j = sz k -> j = k).
  { intros [[[k1 k2] r] im] [[[l1 l2] r'] im'] (A & B & C) (A' & B' & C') [= -> e ->]. assert (k1 = l1 /\ k2 = l2) as [-> ->]; [|reflexivity]. now apply (pair_inj N). }
  assert (JX : forall j k, pidx N nr j -> pidx N nr k -> sx j = sx k -> j = k).
  { intros [[k1 k2] r] [[l1 l2] r'] (A & B & C) (A' & B' & C') [= -> e]. assert (k1 = l1 /\ k2 = l2) as [-> ->]; [|reflexivity]. now apply (pair_inj N). }
  split; [exact (white_reindex P _ _ _ (fvar z) sz Wz IZ VZ JZ)|]. split; [intros f Hf; apply EM; exact (comb_reindex _ _ _ _ sz f IZ VZ Hf)|].
  split; [exact (white_reindex P _ _ _ (pvar x0) sx Ww IX VX JX)|]. split; [intros f Hf; apply G4; exact (comb_reindex _ _ _ _ sx f IX VX Hf)|].
  intros f g k Hk Hf Hg. apply IE; [exact Hk|exact (comb_reindex _ _ _ _ sx f IX VX Hf)|exact (comb_reindex _ _ _ _ sz g IZ VZ Hg)].
Qed.
(** for all parameters: a positive expectation and a run *)
Theorem C123_run_exists : forall sh H lam L sigma, (1 <= shape_N sh)%nat -> exists W (P : expectation W) z x0 Y X, positive P /\ image_run P sh H lam L sigma z x0 Y X.
Proof.
  intros sh H lam L sigma Hn. destruct (C123_noise_exists (even_size (shape_N sh)) (shape_R sh)) as (W & P & z & x0 & HP & HG).
  set (res w := mrw2D sh H lam L sigma (z w) (x0 w)).
  set (Y := fun w => match res w with Ok (A3 _ _ _ y, _) => y | _ => fun _ _ _ => 0 end). set (X := fun w => match res w with Ok (_, A3 _ _ _ x) => x | _ => fun _ _ _ => 0 end).
  exists W, P, z, x0, Y, X. split; [exact HP|]. split; [exact Hn|]. split; [exact HG|]. intros w. destruct (mrw2D_eq sh H lam L sigma (z w) (x0 w) Hn) as (y & _ & E). unfold Y, X, res. rewrite E. reflexivity.
Qed.
(** a 5 x 5 image is made 6 x 6; L = 4, lam = 1/2, H = 1/2: flatness of the increments at most 3 * 4^(1/6) where the random walk has 3 * 4; between the frequencies (1, 0) and (2, 0) the energy is divided by 8 *)
Theorem C123_case : exists W (P : expectation W) z x0 Y X, positive P /\ image_run P (SInt 5) (1 / 2) (1 / 2) 4 1 z x0 Y X /\
  3 <= E P (fun w => X w 5%nat 2%nat 0%nat ^ 4) / E P (fun w => X w 5%nat 2%nat 0%nat ^ 2) ^ 2 <= 3 * Rpower 4 (1 / 6) /\
  E P (fun w => energy 6 (fun a b => Y w a b 0%nat) 1 0) = 8 * E P (fun w => energy 6 (fun a b => Y w a b 0%nat) 2 0).
Proof.
  destruct (C123_run_exists (SInt 5) (1 / 2) (1 / 2) 4 1 ltac:(cbn; lia)) as (W & P & z & x0 & Y & X & HP & RUN). exists W, P, z, x0, Y, X. split; [exact HP|]. split; [exact RUN|].
  assert (I6 : INR 6 = 6) by (rewrite INR_IZR_INZ; reflexivity). split.
  - assert (B := C123_flatness P (SInt 5) (1 / 2) (1 / 2) 4 1 z x0 Y X RUN 5%nat 2%nat 0%nat ltac:(cbn; lia) ltac:(cbn; lia) ltac:(cbn; lia) ltac:(lra)). change (even_size (shape_N (SInt 5))) with 6%nat in B. rewrite I6 in B. replace (4 * (1 / 2) ^ 2 / 6) with (1 / 6) in B by field. exact B.
  - destruct (C123_spectrum P (SInt 5) (1 / 2) (1 / 2) 4 1 z x0 Y X RUN 0%nat 1%nat 0%nat ltac:(cbn; lia) ltac:(cbn; lia) ltac:(cbn; lia)) as (_ & _ & _ & A). destruct (C123_spectrum P (SInt 5) (1 / 2) (1 / 2) 4 1 z x0 Y X RUN 0%nat 2%nat 0%nat ltac:(cbn; lia) ltac:(cbn; lia) ltac:(cbn; lia)) as (_ & _ & _ & B).
    change (even_size (shape_N (SInt 5))) with 6%nat in A, B. rewrite A, B. cbn [Nat.eqb andb].
    replace (freq_norm2 6 1 0) with 1 by (unfold freq_norm2, centred; cbn; ring). replace (freq_norm2 6 2 0) with (2 * 2) by (unfold freq_norm2, centred; cbn; ring). rewrite sqrt_1, sqrt_square by lra.
    replace (2 * (1 / 2) + 2) with (INR 3) by (cbn [INR]; field). rewrite !Rpower_Ropp, !Rpower_pow by lra. field.
Qed.
Print Assumptions C123_case.
Print Assumptions C123_gaussian.
Print Assumptions C123_intermittency_refuted.
