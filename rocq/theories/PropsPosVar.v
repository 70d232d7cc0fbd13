(** * C126: every wavelet sees simulated Gaussian signals at every scale; consequences for C113, C124 and C125 *)
From Coq Require Import Reals List ZArith Bool Lra Lia String Classical_Prop.
From Verif Require Import XReal PyBase ModelUtils ModelMRQ ModelStructure ModelWavelet ModelBivariate ModelSimul Spec SpecMRQ SpecBi SpecSimul LXReal LUtils LBase LFilter LTransform LPattern LWave LWaveEst LDft LSimul LNoise
  PropsWavelet PropsMissing PropsSlope PropsWhite PropsWhitePower PropsWhiteCase PropsSimul PropsWhiteFbm LTaps PropsDecorr LWick PropsFluct PropsConsist PropsConsistGen PropsConsistCase LCoherence PropsCoherence PropsMrwHaar2 PropsMrwIntermit PropsGaussFlat LWick8 LFive PropsMonofractal PropsMonofractalCase LPosVar.
Import ListNotations.
Open Scope R_scope.
Local Notation length := List.length.

(** a wavelet: two filters of the same length, both with a tap *)
Definition proper (w : wavelet) : Prop := good_wavelet w /\ has_tap (dec_lo w) /\ has_tap (dec_hi w).

Lemma scaled_pos norm gam j sigma d H v : sigma <> 0 -> 0 < v -> 0 < factor norm gam j ^ 2 * (sigma ^ 2 * Rpower d (2 * H)) * v.
Proof.
  intros Hs Hv. apply Rmult_lt_0_compat; [|exact Hv]. apply Rmult_lt_0_compat; [apply pow_lt; unfold factor; apply exp_pos|]. apply Rmult_lt_0_compat; [|apply exp_pos].
  rewrite <- Rsqr_pow2. now apply Rsqr_pos_lt.
Qed.
Lemma flat_of {W} (P : expectation W) T r j : no_intermittency P T r j -> 0 < coef_moment P T 2 r j -> flatness P T r j = 3.
Proof.
  intros K Hp. destruct K as (I2 & I4 & K). unfold flatness. rewrite K. field. lra.
Qed.
(** the expected mean power of a scale of simulated fgn is positive, and the flatness is 3 *)
Theorem C126_fgn :
  forall {W} (P : expectation W) sh N H sigma dt d z0 (drawn : W -> noise),
  shape_N sh = N -> (2 <= N)%nat -> sampling_step dt N d -> 0 < H < 1 -> sigma <> 0 -> gaussian_complex P (shape_R sh) (2 * N - 2) (fun w => nz (drawn w)) ->
  exists X, (forall o, fgn sh H sigma dt "cme" z0 (drawn o) = Ok (presented sh (X o), false)) /\ (forall o, shaped (shape_R sh) N (X o)) /\
  forall w p j1 j2 gam norm weighted T ws, proper w -> run_of X w p j1 j2 gam norm weighted T ws ->
  forall r j, (r < shape_R sh)%nat -> scale_held T w N j ->
  0 < coef_moment P T 2 r j /\ flatness P T r j = 3.
Proof.
  intros W P sh N H sigma dt d z0 drawn EN HN Hd HH Hs HG. destruct (C124_fgn P sh N H sigma dt d z0 drawn EN HN Hd ltac:(lra) HG) as (X & EX & HS & K).
  exists X. split; [exact EX|]. split; [exact HS|]. intros w p j1 j2 gam norm weighted T ws (Hw & Hl & Hh) HT r j Hr HF.
  destruct (K w p j1 j2 gam norm weighted T ws Hw HT r j Hr HF) as [E F].
  assert (V : 0 < coef_moment P T 2 r j) by (rewrite E; apply scaled_pos; [exact Hs|now apply fgn_variance_positive]). split; [exact V|now apply flat_of].
Qed.
Print Assumptions C126_fgn.
(** fbm, when the wavelet ignores constants *)
Theorem C126_fbm :
  forall {W} (P : expectation W) sh N H sigma dt d z0 (drawn : W -> noise),
  shape_N sh = N -> (2 <= N)%nat -> sampling_step dt N d -> 0 < H < 1 -> sigma <> 0 -> gaussian_complex P (shape_R sh) (2 * N - 2) (fun w => nz (drawn w)) ->
  exists B, (forall o, fbm sh H sigma dt "cme" z0 (drawn o) = Ok (presented sh (B o), false)) /\ (forall o, shaped (shape_R sh) N (B o)) /\
  forall w p j1 j2 gam norm weighted T ws, proper w -> vanishing_moments (dec_hi w) 1 -> run_of B w p j1 j2 gam norm weighted T ws ->
  forall r j, (r < shape_R sh)%nat -> scale_held T w N j ->
  0 < coef_moment P T 2 r j /\ flatness P T r j = 3.
Proof.
  intros W P sh N H sigma dt d z0 drawn EN HN Hd HH Hs HG. destruct (C124_fbm P sh N H sigma dt d z0 drawn EN HN Hd ltac:(lra) HG) as (B & EB & HS & K).
  exists B. split; [exact EB|]. split; [exact HS|]. intros w p j1 j2 gam norm weighted T ws (Hw & Hl & Hh) HM HT r j Hr HF.
  destruct (K w p j1 j2 gam norm weighted T ws Hw (vanish_ignores w 1 ltac:(lia) HM) HT r j Hr HF) as [E F].
  assert (V : 0 < coef_moment P T 2 r j) by (rewrite E; apply scaled_pos; [exact Hs|now apply (fbm_variance_positive H w j 1)]). split; [exact V|now apply flat_of].
Qed.
Print Assumptions C126_fbm.

(** ** C125 for every wavelet *)
Theorem C125_fgn_any :
  forall H w M gam norm tol q (j1 j2 : nat), 0 < H < 1 -> proper w -> vanishing_moments (dec_hi w) M -> norm <> 0 -> 0 < tol -> 0 < q -> (1 <= j1 < j2)%nat ->
  exists N0, forall W (P : expectation W) sh N sigma dt d z0 (drawn : W -> noise) ja jb weighted r qs i2 i4 wd,
  shape_N sh = N -> (N0 <= N)%nat -> sampling_step dt N d -> sigma <> 0 -> gaussian_complex8 P (shape_R sh) (2 * N - 2) (fun w => nz (drawn w)) -> (r < shape_R sh)%nat -> nth_error qs i2 = Some 2 -> nth_error qs i4 = Some 4 ->
  prob_at_most P (fun o => ~ exists X t ws s z2 z4,
      fgn sh H sigma dt "cme" z0 (drawn o) = Ok (presented sh X, false) /\ shaped (shape_R sh) N X /\
      wavelet_analysis (map fin X) PNone w ja jb gam norm weighted = Ok (t, ws) /\
      StructureFunction (wt_coefs t) (QArr qs) (Z.of_nat j1) (Z.of_nat j2) wd = Ok s /\
      at2 (sf_zeta s) i2 r = Fin z2 /\ at2 (sf_zeta s) i4 r = Fin z4 /\ Rabs (z4 - 2 * z2) <= tol) q.
Proof. intros H w M gam norm tol q j1 j2 HH (Hw & Hl & Hh) HM Hn Ht Hq Hj. apply (C125_fgn H w M); trivial. intros j _. now apply fgn_variance_positive. Qed.
Print Assumptions C125_fgn_any.
Theorem C125_fbm_any :
  forall H w M gam norm tol q (j1 j2 : nat), 0 < H < 1 -> proper w -> vanishing_moments (dec_hi w) M -> (1 <= M)%nat -> norm <> 0 -> 0 < tol -> 0 < q -> (1 <= j1 < j2)%nat ->
  exists N0, forall W (P : expectation W) sh N sigma dt d z0 (drawn : W -> noise) ja jb weighted r qs i2 i4 wd,
  shape_N sh = N -> (N0 <= N)%nat -> sampling_step dt N d -> sigma <> 0 -> gaussian_complex8 P (shape_R sh) (2 * N - 2) (fun w => nz (drawn w)) -> (r < shape_R sh)%nat -> nth_error qs i2 = Some 2 -> nth_error qs i4 = Some 4 ->
  prob_at_most P (fun o => ~ exists B t ws s z2 z4,
      fbm sh H sigma dt "cme" z0 (drawn o) = Ok (presented sh B, false) /\ shaped (shape_R sh) N B /\
      wavelet_analysis (map fin B) PNone w ja jb gam norm weighted = Ok (t, ws) /\
      StructureFunction (wt_coefs t) (QArr qs) (Z.of_nat j1) (Z.of_nat j2) wd = Ok s /\
      at2 (sf_zeta s) i2 r = Fin z2 /\ at2 (sf_zeta s) i4 r = Fin z4 /\ Rabs (z4 - 2 * z2) <= tol) q.
Proof. intros H w M gam norm tol q j1 j2 HH (Hw & Hl & Hh) HM M1 Hn Ht Hq Hj. apply (C125_fbm H w M); trivial. intros j _. now apply (fbm_variance_positive H w j M). Qed.
Print Assumptions C125_fbm_any.

(** ** C113 for every wavelet *)
Theorem C113_fgn_any :
  forall H w M gam norm al1 be1 al2 be2 eps q (j1 j2 : nat), 0 < H < 1 -> proper w -> vanishing_moments (dec_hi w) M -> (1 <= M)%nat -> norm <> 0 -> 0 < eps -> 0 < q -> (1 <= j1 <= j2)%nat ->
  0 < al1 ^ 2 + be1 ^ 2 -> 0 < al2 ^ 2 + be2 ^ 2 ->
  exists N0, forall W (P : expectation W) sh N sigma dt d z0 (drawn : W -> noise) ja jb weighted r1 r2 qa qb wd,
  shape_N sh = N -> (N0 <= N)%nat -> sampling_step dt N d -> sigma <> 0 -> gaussian_complex P (shape_R sh) (2 * N - 2) (fun w => nz (drawn w)) ->
  (r1 < shape_R sh)%nat -> (r2 < shape_R sh)%nat -> r1 <> r2 -> NoDup qa -> NoDup qb -> incl [0; 1; 2] qa -> incl [0; 1; 2] qb ->
  prob_at_most P (fun o => ~ exists X t1 t2 ws1 ws2 s,
      fgn sh H sigma dt "cme" z0 (drawn o) = Ok (presented sh X, false) /\
      wavelet_analysis [fin (mixed al1 be1 (nth r1 X []) (nth r2 X []))] PNone w ja jb gam norm weighted = Ok (t1, ws1) /\
      wavelet_analysis [fin (mixed al2 be2 (nth r1 X []) (nth r2 X []))] PNone w ja jb gam norm weighted = Ok (t2, ws2) /\
      BiStructureFunction (wt_coefs t1) (wt_coefs t2) (Z.of_nat j1) (Z.of_nat j2) (Some (QArr qa)) (Some (QArr qb)) wd = Ok s /\
      forall j, (j1 <= j <= j2)%nat -> exists c, b1 (bs_coherence s) (Z.of_nat j) = Fin c /\ Rabs (c - correlation al1 be1 al2 be2) <= eps) q.
Proof. intros H w M gam norm al1 be1 al2 be2 eps q j1 j2 HH (Hw & Hl & Hh) HM M1 Hn He Hq Hj H1 H2. apply (C113_fgn H w M); trivial. intros j _. now apply fgn_variance_positive. Qed.
Print Assumptions C113_fgn_any.
Theorem C113_fbm_any :
  forall H w M gam norm al1 be1 al2 be2 eps q (j1 j2 : nat), 0 < H < 1 -> proper w -> vanishing_moments (dec_hi w) M -> (1 <= M)%nat -> norm <> 0 -> 0 < eps -> 0 < q -> (1 <= j1 <= j2)%nat ->
  0 < al1 ^ 2 + be1 ^ 2 -> 0 < al2 ^ 2 + be2 ^ 2 ->
  exists N0, forall W (P : expectation W) sh N sigma dt d z0 (drawn : W -> noise) ja jb weighted r1 r2 qa qb wd,
  shape_N sh = N -> (N0 <= N)%nat -> sampling_step dt N d -> sigma <> 0 -> gaussian_complex P (shape_R sh) (2 * N - 2) (fun w => nz (drawn w)) ->
  (r1 < shape_R sh)%nat -> (r2 < shape_R sh)%nat -> r1 <> r2 -> NoDup qa -> NoDup qb -> incl [0; 1; 2] qa -> incl [0; 1; 2] qb ->
  prob_at_most P (fun o => ~ exists B t1 t2 ws1 ws2 s,
      fbm sh H sigma dt "cme" z0 (drawn o) = Ok (presented sh B, false) /\
      wavelet_analysis [fin (mixed al1 be1 (nth r1 B []) (nth r2 B []))] PNone w ja jb gam norm weighted = Ok (t1, ws1) /\
      wavelet_analysis [fin (mixed al2 be2 (nth r1 B []) (nth r2 B []))] PNone w ja jb gam norm weighted = Ok (t2, ws2) /\
      BiStructureFunction (wt_coefs t1) (wt_coefs t2) (Z.of_nat j1) (Z.of_nat j2) (Some (QArr qa)) (Some (QArr qb)) wd = Ok s /\
      forall j, (j1 <= j <= j2)%nat -> exists c, b1 (bs_coherence s) (Z.of_nat j) = Fin c /\ Rabs (c - correlation al1 be1 al2 be2) <= eps) q.
Proof. intros H w M gam norm al1 be1 al2 be2 eps q j1 j2 HH (Hw & Hl & Hh) HM M1 Hn He Hq Hj H1 H2. apply (C113_fbm H w M); trivial. intros j _. now apply (fbm_variance_positive H w j M). Qed.
Print Assumptions C113_fbm_any.

(** ** The hypotheses are met: Daubechies' wavelet with two vanishing moments (the filters of pywt's db2) *)
Definition db2 : wavelet :=
  let s := sqrt 3 in let c := / (4 * sqrt 2) in
  mkWavelet [- (1 + s) * c; (3 + s) * c; - (3 - s) * c; (1 - s) * c] [(1 - s) * c; (3 - s) * c; (3 + s) * c; (1 + s) * c].
Lemma vanish_db2 : vanishing_moments (dec_hi db2) 2.
Proof. intros i Hi. destruct i as [|[|i]]; [| |lia]; unfold Rsum, db2; cbn [dec_hi length seq map fold_right nth pow INR]; ring. Qed.
Lemma proper_db2 : proper db2.
Proof.
  assert (C : / (4 * sqrt 2) <> 0). { apply Rinv_neq_0_compat. assert (0 < sqrt 2) by (apply sqrt_lt_R0; lra). lra. }
  assert (S3 : 0 <= sqrt 3) by apply sqrt_pos.
  split; [split; cbn; lia|]. split; exists 3%nat || exists 0%nat; cbn.
  - apply Rmult_integral_contrapositive; split; [lra|exact C].
  - apply Rmult_integral_contrapositive; split; [|exact C]. intros E. assert (E1 : sqrt 3 = 1) by lra. assert (K := sqrt_sqrt 3 ltac:(lra)). rewrite E1 in K. lra.
Qed.
Lemma translate_far f g m : (Z.of_nat (length g) <= 2 * m \/ 2 * m <= - Z.of_nat (length f))%Z -> translate_product f g m = 0.
Proof.
  intros Hm. unfold translate_product. apply sumn_zero. intros a Ha. cbv zeta. destruct (Z.ltb_spec (Z.of_nat a + 2 * m) 0); [ring|]. rewrite (nth_overflow g) by lia. ring.
Qed.
(** db2 is orthonormal, so the theorems on orthonormal wavelets apply to it *)
Lemma db2_orthonormal : orthonormal db2.
Proof.
  intros m. assert (S3 : sqrt 3 * sqrt 3 = 3) by (apply sqrt_sqrt; lra). assert (S2 : sqrt 2 * sqrt 2 = 2) by (apply sqrt_sqrt; lra). assert (N2 : sqrt 2 <> 0) by (intros E; rewrite E in S2; lra).
  set (c := / (4 * sqrt 2)). assert (CC : 32 * (c * c) = 1). { unfold c. field_simplify_eq; [|exact N2]. replace (sqrt 2 ^ 2) with (sqrt 2 * sqrt 2) by ring. rewrite S2. ring. }
  destruct (Z.eq_dec m 0) as [->|N0]; [|destruct (Z.eq_dec m 1) as [->|N1]; [|destruct (Z.eq_dec m (-1)) as [->|N1']]].
  4:{ rewrite !translate_far by (cbn [db2 dec_lo dec_hi length]; lia). auto. }
  all: unfold translate_product, db2; cbn [dec_lo dec_hi length]; fold c; rewrite !sumn_S, !sumn_0; cbn [Z.of_nat Pos.of_succ_nat Pos.succ Z.mul Z.add Pos.mul Pos.add Z.pos_sub Pos.pred_double Z.succ_double Z.pred_double Z.double Z.opp Z.ltb Z.compare Z.to_nat Pos.to_nat Pos.iter_op Nat.add nth];
    change (Pos.to_nat 1) with 1%nat; change (Pos.to_nat 2) with 2%nat; change (Pos.to_nat 3) with 3%nat; change (Pos.to_nat 4) with 4%nat; change (Pos.to_nat 5) with 5%nat; cbn [nth];
    set (s := sqrt 3) in *; assert (C2 : c * c = / 32) by lra; repeat split; try ring [S3 C2]; (transitivity (c * c * (20 + 4 * (s * s))); [ring|rewrite S3, C2; field]).
Qed.
(** fbm with H = 1/4 analysed with db2, scales 2 to 4: for every tolerance, all long enough simulations have draws whose exponents of orders 2 and 4 are proportional
    within the tolerance *)
Theorem C126_case tol : 0 < tol -> exists N0, forall N, (N0 <= N)%nat ->
  exists (drawn : noise) B t ws s z2 z4,
      fbm (SPair N 2) (1 / 4) 3 None "cme" None drawn = Ok (presented (SPair N 2) B, false) /\
      wavelet_analysis (map fin B) PNone db2 1 None (1 / 2) 1 false = Ok (t, ws) /\
      StructureFunction (wt_coefs t) (QArr [1; 2; 3; 4]) 2 4 false = Ok s /\
      at2 (sf_zeta s) 1 0 = Fin z2 /\ at2 (sf_zeta s) 3 0 = Fin z4 /\ Rabs (z4 - 2 * z2) <= tol.
Proof.
  intros Ht. destruct (C125_fbm_any (1 / 4) db2 2 (1 / 2) 1 tol (1 / 2) 2 4 ltac:(lra) proper_db2 vanish_db2 ltac:(lia) ltac:(lra) Ht ltac:(lra) ltac:(lia)) as [N0 HK].
  exists (N0 + 1)%nat. intros N HN. apply NNPP. intros HA. destruct (C125_noise_exists 2 (2 * N - 2)) as (W & P & drawn & HP & HG).
  assert (Q := HK W P (SPair N 2) N 3 None (/ INR N) None drawn 1%Z None false 0%nat [1; 2; 3; 4] 1%nat 3%nat false eq_refl ltac:(lia) (or_intror (Logic.conj (or_introl eq_refl) eq_refl)) ltac:(lra) HG ltac:(cbn; lia) eq_refl eq_refl).
  apply (not_everywhere P _ _ HP Q); [lra|].
  intros o (B & t & ws & s & z2 & z4 & E1 & _ & E2 & E3 & E4 & E5 & E6). apply HA. exists (drawn o), B, t, ws, s, z2, z4. repeat split; trivial.
Qed.
Print Assumptions C126_case.
