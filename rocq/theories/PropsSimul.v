(** * C60, C61, C62: Gaussian generators by circulant embedding *)
From Coq Require Import Reals List ZArith Bool Lia Lra String.
From Verif Require Import XReal PyBase ModelSimul Spec SpecSimul LXReal LBase LDft LSimul LCirc LFgn LFgnCov LNoise LBivariate.
Import ListNotations.
Open Scope R_scope.
Local Notation length := List.length.

(** what an array of N >= 2 samples and R realisations looks like: one dimension for an integer shape *)
Definition presented {A} (sh : shape_arg) (cols : list (list A)) : nd A :=
  match sh with SInt _ => Arr1 (hd [] cols) | SPair _ _ => Arr2 cols end.
(** the sampling step in use: dt, or 1/N when dt is not given (or 0) *)
Definition sampling_step (dt : option R) (N : nat) (d : R) : Prop :=
  (dt = Some d /\ 0 < d) \/ ((dt = None \/ dt = Some 0) /\ d = / INR N).

(** ** C62: what the circulant embedding does, for any covariance sequence.  It never fails; it warns exactly when an
    eigenvalue is negative; without warning the output has the covariance asked for, and realisations are uncorrelated *)
Theorem C62_embedding W (P : expectation W) cov N R (Z : W -> list (list (Rdefinitions.R * Rdefinitions.R))) :
  (2 <= N)%nat -> List.length cov = N -> white_complex P R (2 * N - 2) Z ->
  exists (X : W -> list (list Rdefinitions.R)) (warned : bool),
    (forall w, gaussian_cme cov N (Z w) = Ok (X w, warned)) /\
    (warned = true <-> exists k, (k < 2 * N - 2)%nat /\ circulant_eigenvalue cov k < 0) /\
    (warned = false -> has_covariance P R N X (stationary cov)) /\
    has_covariance P R N X (fun a b =>
      / INR (2 * N - 2) * Rsum (map (fun k => Rabs (circulant_eigenvalue cov k) * cos (2 * PI * INR k * (INR a - INR b) / INR (2 * N - 2))) (seq 0 (2 * N - 2)))).
Proof.
  intros HN Hc HZ. replace (2 * N - 2)%nat with (2 * (N - 1))%nat in * by lia.
  exists (fun w => map (fun r => map (cme_val cov N (Z w) r) (seq 0 N)) (seq 0 R)), (cme_warned cov N).
  assert (Ec : forall k, circulant_eigenvalue cov k = eig (N - 1) (fun i => nth i cov 0) k) by (intros k; rewrite eig_circulant by lia; now rewrite Hc).
  assert (Wi : cme_warned cov N = true <-> exists k, (k < 2 * (N - 1))%nat /\ circulant_eigenvalue cov k < 0).
  { rewrite (cme_warned_iff cov N HN Hc). split; intros [k [Hk H]]; exists k; (split; [exact Hk|]); [rewrite Ec|rewrite Ec in H]; exact H. }
  assert (Cv := cme_covariance cov N HN Hc P R Z HZ).
  refine (conj _ (conj Wi (conj _ _))).
  - intros w. apply cme_eq; trivial. apply HZ.
  - intros Hw. assert (He : forall k, (k < 2 * (N - 1))%nat -> 0 <= eig (N - 1) (fun i => nth i cov 0) k).
    { intros k Hk. destruct (Rle_lt_dec 0 (eig (N - 1) (fun i => nth i cov 0) k)) as [|Neg]; [trivial|]. exfalso.
      assert (cme_warned cov N = true); [|congruence]. apply Wi. exists k. split; [exact Hk|]. now rewrite Ec. }
    destruct Cv as [A [B D]]. refine (conj A (conj B _)). intros r r' a b Hr Hr' Ha Hb. destruct (D r r' a b Hr Hr' Ha Hb) as [D1 D2].
    split; [exact D1|]. rewrite D2. destruct (Nat.eq_dec r r'); [|reflexivity]. now apply (cme_exact cov N HN Hc).
  - destruct Cv as [A [B D]]. refine (conj A (conj B _)). intros r r' a b Hr Hr' Ha Hb. destruct (D r r' a b Hr Hr' Ha Hb) as [D1 D2].
    split; [exact D1|]. rewrite D2. destruct (Nat.eq_dec r r'); [|reflexivity]. f_equal. apply sumn_ext. intros k _. rewrite Ec. f_equal.
    unfold ang. now rewrite minus_IZR, <- !INR_IZR_INZ.
Qed.
(** the noise assumed above exists for every shape *)
Theorem C62_noise_exists R n : (1 <= R)%nat -> (1 <= n)%nat -> exists W (P : expectation W) Z, white_complex P R n Z.
Proof.
  intros HR Hn. assert (HK : (1 <= 2 * (R * n))%nat) by nia. exists (nat * bool)%type, (sign_space _ HK), (cplx_noise (2 * (R * n)) R n).
  apply cplx_noise_white.
Qed.

(** a covariance sequence that is non-negative, non-increasing and convex is always imposed exactly *)
Theorem C62_convex_exact W (P : expectation W) cov N R (Z : W -> list (list (Rdefinitions.R * Rdefinitions.R))) :
  (2 <= N)%nat -> List.length cov = N -> white_complex P R (2 * N - 2) Z ->
  (forall k, (k < N)%nat -> 0 <= nth k cov 0) -> (forall k, (k + 1 < N)%nat -> nth (k + 1) cov 0 <= nth k cov 0) ->
  (forall k, (k + 2 < N)%nat -> 2 * nth (k + 1) cov 0 <= nth k cov 0 + nth (k + 2) cov 0) ->
  exists X, (forall w, gaussian_cme cov N (Z w) = Ok (X w, false)) /\ has_covariance P R N X (stationary cov).
Proof.
  intros HN Hc HZ H0 H1 H2. destruct (C62_embedding W P cov N R Z HN Hc HZ) as [X [wd [A [B [D _]]]]].
  assert (wd = false) as ->.
  { destruct wd; [|reflexivity]. destruct (proj1 B eq_refl) as [k [Hk Neg]]. exfalso. rewrite eig_circulant in Neg by lia.
    assert (0 <= eig (List.length cov - 1) (fun i => nth i cov 0) k); [|lra]. apply convex_eig; [lia|]. refine (conj _ (conj _ _)).
    - apply H0. lia.
    - assert (K := H1 (List.length cov - 2)%nat ltac:(lia)). replace (List.length cov - 2 + 1)%nat with (List.length cov - 1)%nat in K by lia.
      replace (List.length cov - 1 - 1)%nat with (List.length cov - 2)%nat by lia. exact K.
    - intros m Hm. assert (K := H2 m ltac:(lia)). replace (S (S m)) with (m + 2)%nat by lia. replace (S m) with (m + 1)%nat by lia. lra. }
  exists X. auto.
Qed.

(** ** fgn and fbm *)
Lemma presented_out {A} sh (cols : list (list A)) N : (2 <= N)%nat -> shaped (shape_R sh) N cols -> out sh cols = presented sh cols.
Proof.
  intros HN [L F]. destruct sh as [n|n r]; [|reflexivity]. cbn [shape_R] in L. destruct cols as [|c [|c2 cols]]; try discriminate L.
  assert (Lc : List.length c = N) by (rewrite Forall_forall in F; apply F; now left).
  unfold out, squeeze, presented. destruct c as [|x [|y c]]; cbn in Lc; try lia. reflexivity.
Qed.
Lemma presented_cumsum sh cols N : (2 <= N)%nat -> shaped (shape_R sh) N cols -> nd_cumsum (presented sh cols) = presented sh (map cumsum cols).
Proof. intros HN [L _]. destruct sh as [n|n r]; [|reflexivity]. cbn [shape_R] in L. destruct cols; [discriminate|reflexivity]. Qed.
Lemma step_ok dt N d : (1 <= N)%nat -> sampling_step dt N d -> fgn_dt dt N = Ok d /\ 0 < d.
Proof.
  intros HN [[-> Hd]|[Hdt ->]].
  - unfold fgn_dt. destruct (Req_EM_T d 0); [lra|]. auto.
  - assert (0 < / INR N) by (apply Rinv_0_lt_compat, lt_0_INR; lia). split; [|trivial].
    assert (E : (if Nat.eqb N 0 then Err ZeroDivisionError else Ok (1 / INR N)) = Ok (/ INR N)).
    { destruct (Nat.eqb_spec N 0); [lia|]. f_equal. field. apply not_0_INR. lia. }
    unfold fgn_dt. destruct Hdt as [->| ->]; [exact E|]. destruct (Req_EM_T 0 0); [exact E|lra].
Qed.
Lemma H_test H : 0 <= H -> H <= 1 -> negb (if Rle_dec 0 H then if Rle_dec H 1 then true else false else false) = false.
Proof. intros. destruct (Rle_dec 0 H); [|lra]. destruct (Rle_dec H 1); [reflexivity|lra]. Qed.
Lemma H_test_out H : ~ (0 <= H <= 1) -> negb (if Rle_dec 0 H then if Rle_dec H 1 then true else false else false) = true.
Proof. intros N. destruct (Rle_dec 0 H); [|reflexivity]. destruct (Rle_dec H 1); [exfalso; auto|reflexivity]. Qed.
Lemma fgn_cme_eq sh H s dt z0 drawn N d cols w : shape_N sh = N -> (2 <= N)%nat -> sampling_step dt N d -> 0 <= H -> H <= 1 ->
  gaussian_cme (fgn_cov N H s d) N (nz drawn) = Ok (cols, w) -> shaped (shape_R sh) N cols ->
  fgn_cols sh H s dt "cme" z0 drawn = Ok (cols, w) /\
  fgn sh H s dt "cme" z0 drawn = Ok (presented sh cols, w) /\ fbm sh H s dt "cme" z0 drawn = Ok (presented sh (map cumsum cols), w).
Proof.
  intros EN HN Hd H0 H1 G Sh. assert (F : fgn_cols sh H s dt "cme" z0 drawn = Ok (cols, w)).
  { unfold fgn_cols. rewrite H_test by trivial. rewrite EN. rewrite (proj1 (step_ok dt N d ltac:(lia) Hd)). cbn [bind]. exact G. }
  assert (F2 : fgn sh H s dt "cme" z0 drawn = Ok (presented sh cols, w)).
  { unfold fgn. rewrite F. cbn [bind]. now rewrite (presented_out sh cols N HN Sh). }
  refine (conj F (conj F2 _)). unfold fbm. rewrite F2. cbn [bind]. now rewrite (presented_cumsum sh cols N HN Sh).
Qed.

(** fgn by circulant embedding has exactly the covariance of the increments of fractional Brownian motion, for every
    0 < H <= 1, and never warns *)
Theorem C61_fgn W (P : expectation W) sh N (H sigma : R) dt d z0 (drawn : W -> noise) :
  shape_N sh = N -> (2 <= N)%nat -> sampling_step dt N d -> 0 < H <= 1 -> white_complex P (shape_R sh) (2 * N - 2) (fun w => nz (drawn w)) ->
  exists X, (forall w, fgn sh H sigma dt "cme" z0 (drawn w) = Ok (presented sh (X w), false)) /\
    has_covariance P (shape_R sh) N X (fgn_covariance H sigma d).
Proof.
  intros EN HN Hd [H0 H1] HZ. assert (d0 := proj2 (step_ok dt N d ltac:(lia) Hd)).
  destruct (C62_embedding W P (fgn_cov N H sigma d) N (shape_R sh) _ HN (fgn_cov_length _ _ _ _) HZ) as [X [wd [A [B [D _]]]]].
  assert (wd = false) as ->.
  { destruct wd; [|reflexivity]. destruct (proj1 B eq_refl) as [k [Hk Neg]]. exfalso. rewrite eig_circulant in Neg by (rewrite fgn_cov_length; lia).
    rewrite fgn_cov_length in Neg. assert (K := fgn_cov_eig_nonneg N H sigma d k HN H0 H1 d0). lra. }
  specialize (D eq_refl). exists X. split.
  - intros w. apply (fgn_cme_eq sh H sigma dt z0 (drawn w) N d (X w) false); trivial; [lra|]. apply D.
  - destruct D as [D1 [D2 D3]]. refine (conj D1 (conj D2 _)). intros r r' a b Hr Hr' Ha Hb. destruct (D3 r r' a b Hr Hr' Ha Hb) as [I1 E1].
    split; [exact I1|]. rewrite E1. destruct (Nat.eq_dec r r'); [|reflexivity]. now apply fgn_cov_stationary.
Qed.
(** fbm is fractional Brownian motion at times d, 2 d, ..., N d *)
Theorem C61_fbm W (P : expectation W) sh N (H sigma : R) dt d z0 (drawn : W -> noise) :
  shape_N sh = N -> (2 <= N)%nat -> sampling_step dt N d -> 0 < H <= 1 -> white_complex P (shape_R sh) (2 * N - 2) (fun w => nz (drawn w)) ->
  exists B, (forall w, fbm sh H sigma dt "cme" z0 (drawn w) = Ok (presented sh (B w), false)) /\
    has_covariance P (shape_R sh) N B (fun k l => fbm_covariance H sigma (d * (INR k + 1)) (d * (INR l + 1))).
Proof.
  intros EN HN Hd HH HZ. assert (d0 := proj2 (step_ok dt N d ltac:(lia) Hd)).
  destruct (C61_fgn W P sh N H sigma dt d z0 drawn EN HN Hd HH HZ) as [X [A D]].
  exists (fun w => map cumsum (X w)). split.
  - intros w. unfold fbm. rewrite A. cbn [bind]. rewrite (presented_cumsum sh (X w) N HN); [reflexivity|]. apply D.
  - destruct (cumsum_covariance P (shape_R sh) N X _ D) as [D1 [D2 D3]]. refine (conj D1 (conj D2 _)).
    intros r r' a b Hr Hr' Ha Hb. destruct (D3 r r' a b Hr Hr' Ha Hb) as [I1 E1]. split; [exact I1|]. rewrite E1.
    destruct (Nat.eq_dec r r'); [|reflexivity]. rewrite (fbm_sum H sigma d (S a) (S b) d0), !S_INR. reflexivity.
Qed.
(** so Var B(t) = sigma^2 t^(2H), and for H = 1/2 the increments are uncorrelated *)
Theorem C61_variance H sigma t : 0 < t -> fbm_covariance H sigma t t = sigma ^ 2 * rpow t (2 * H).
Proof. intros Ht. unfold fbm_covariance. replace (t - t) with 0 by ring. rewrite Rabs_R0, rpow_0. field. Qed.
Theorem C61_brownian sigma d a b : 0 < d -> fgn_covariance (1 / 2) sigma d a b = if Nat.eq_dec a b then sigma ^ 2 * d else 0.
Proof.
  intros Hd. assert (O : forall x, 0 <= x -> rpow x (2 * (1 / 2)) = x).
  { intros x [Hx|<-]; [|apply rpow_0]. rewrite rpow_pos by trivial. replace (2 * (1 / 2)) with 1 by field. now apply Rpower_1. }
  rewrite fgn_covariance_fcor by lra. rewrite O by lra.
  destruct (Nat.eq_dec a b) as [e|e].
  - subst b. rewrite Nat.max_id, Nat.min_id, Nat.sub_diag. cbn [fcor]. ring.
  - replace (Nat.max a b - Nat.min a b)%nat with (S (Nat.max a b - Nat.min a b - 1)) by lia. rewrite fcor_S. rewrite !O by apply pos_INR.
    rewrite !plus_INR. cbn [INR]. field.
Qed.
(** REFUTED at the end H = 0 of the accepted range: the result is identically zero, whatever the noise *)
Theorem C61_H0_is_zero_refuted sh N sigma dt d z0 drawn : shape_N sh = N -> (2 <= N)%nat -> sampling_step dt N d ->
  shaped (shape_R sh) (2 * N - 2) (nz drawn) ->
  fgn sh 0 sigma dt "cme" z0 drawn = Ok (presented sh (repeat (repeat 0 N) (shape_R sh)), false) /\
  fbm sh 0 sigma dt "cme" z0 drawn = Ok (presented sh (repeat (repeat 0 N) (shape_R sh)), false).
Proof.
  intros EN HN Hd Sh. assert (d0 := proj2 (step_ok dt N d ltac:(lia) Hd)).
  assert (C0 : forall m, nth m (fgn_cov N 0 sigma d) 0 = 0).
  { intros m. destruct (Nat.lt_ge_cases m N) as [L|L]; [|apply nth_overflow; rewrite fgn_cov_length; lia].
    unfold fgn_cov. rewrite nth_map_seq by trivial. rewrite Rmult_0_r, !powR_exp0 by (try apply Rabs_pos; lra). field. }
  assert (E0 : forall k, eig (N - 1) (fun i => nth i (fgn_cov N 0 sigma d) 0) k = 0).
  { intros k. unfold eig. apply sumn_zero. intros m _. unfold emb. rewrite !C0. destruct (Nat.leb m (N - 1)); ring. }
  assert (Sh2 : shaped (shape_R sh) (2 * (N - 1)) (nz drawn)) by (replace (2 * (N - 1))%nat with (2 * N - 2)%nat by lia; exact Sh).
  assert (Sq : sqrt 0 = 0) by apply sqrt_0.
  assert (G := cme_eq (fgn_cov N 0 sigma d) N HN (fgn_cov_length _ _ _ _) (shape_R sh) (nz drawn) Sh2).
  replace (cme_warned (fgn_cov N 0 sigma d) N) with false in G.
  2:{ destruct (cme_warned (fgn_cov N 0 sigma d) N) eqn:Ew; [|reflexivity]. apply (cme_warned_iff _ N HN (fgn_cov_length _ _ _ _)) in Ew as [k [_ Neg]]. rewrite E0 in Neg. lra. }
  assert (Rp : map (fun r => map (cme_val (fgn_cov N 0 sigma d) N (nz drawn) r) (seq 0 N)) (seq 0 (shape_R sh)) = repeat (repeat 0 N) (shape_R sh)).
  { assert (Z1 : forall r a, cme_val (fgn_cov N 0 sigma d) N (nz drawn) r a = 0).
    { intros r a. unfold cme_val. apply sumn_zero. intros i _. unfold cme_coef. rewrite !E0, !Rmult_0_r, !Rabs_R0. 
      replace ((0 + 0) / 2) with 0 by field. replace ((0 - 0) / 2) with 0 by field. rewrite Sq.
      destruct (Nat.ltb i (2 * (N - 1))); ring. }
    assert (Rep : forall (A : Type) (f : nat -> A) (c : A) n k, (forall i, f i = c) -> map f (seq k n) = repeat c n).
    { intros A f c n. induction n as [|n IH]; intros k Hf; [reflexivity|]. cbn [seq map repeat]. rewrite Hf. f_equal. now apply IH. }
    apply Rep. intros r. apply Rep. intros a. apply Z1. }
  rewrite Rp in G.
  assert (Shc : shaped (shape_R sh) N (repeat (repeat 0 N) (shape_R sh))).
  { split; [apply repeat_length|]. apply Forall_forall. intros x Hx. apply repeat_spec in Hx. subst x. apply repeat_length. }
  destruct (fgn_cme_eq sh 0 sigma dt z0 drawn N d _ _ EN HN Hd ltac:(lra) ltac:(lra) G Shc) as [_ [F1 F2]].
  split; [exact F1|]. rewrite F2. do 3 f_equal.
  assert (Cs : forall n acc, acc = 0 -> cumsum_from acc (repeat 0 n) = repeat 0 n).
  { induction n as [|n IH]; intros acc Ha; [reflexivity|]. cbn [repeat cumsum_from]. rewrite Ha, Rplus_0_r. f_equal. now apply IH. }
  clear -Cs. induction (shape_R sh) as [|r IH]; [reflexivity|]. cbn [repeat map]. rewrite IH. f_equal. now apply Cs.
Qed.

(** ** C60: arguments and shapes *)
(** for N >= 2 samples: a ValueError exactly when H is outside [0, 1] or the method is unknown; with 'cme' an array of the right
    shape otherwise *)
Theorem C60_fgn_arguments sh N H sigma dt d method z0 drawn : shape_N sh = N -> (2 <= N)%nat -> sampling_step dt N d ->
  shaped (shape_R sh) (2 * N - 2) (nz drawn) -> shaped (shape_R sh) N (nx (pick z0 drawn)) ->
  (fgn sh H sigma dt method z0 drawn = Err ValueError <-> ~ (0 <= H <= 1) \/ (method <> "cme" /\ method <> "chol")%string) /\
  (fbm sh H sigma dt method z0 drawn = Err ValueError <-> ~ (0 <= H <= 1) \/ (method <> "cme" /\ method <> "chol")%string) /\
  (0 <= H <= 1 -> method = "cme"%string -> exists X warned, shaped (shape_R sh) N X /\
     fgn sh H sigma dt method z0 drawn = Ok (presented sh X, warned) /\ fbm sh H sigma dt method z0 drawn = Ok (presented sh (map cumsum X), warned)).
Proof.
  intros EN HN Hd Sc Sr.
  assert (Fe : fbm sh H sigma dt method z0 drawn = Err ValueError <-> fgn sh H sigma dt method z0 drawn = Err ValueError).
  { unfold fbm. destruct (fgn sh H sigma dt method z0 drawn) as [[x w]|e]; cbn [bind]; split; intros K; (discriminate || exact K). }
  assert (Sc2 : shaped (shape_R sh) (2 * (N - 1)) (nz drawn)) by (replace (2 * (N - 1))%nat with (2 * N - 2)%nat by lia; exact Sc).
  assert (Cme : 0 <= H <= 1 -> exists X warned, shaped (shape_R sh) N X /\
     fgn sh H sigma dt "cme" z0 drawn = Ok (presented sh X, warned) /\ fbm sh H sigma dt "cme" z0 drawn = Ok (presented sh (map cumsum X), warned)).
  { intros [H0 H1]. assert (G := cme_eq (fgn_cov N H sigma d) N HN (fgn_cov_length _ _ _ _) (shape_R sh) (nz drawn) Sc2).
    assert (Sh := array_shaped (cme_val (fgn_cov N H sigma d) N (nz drawn)) (shape_R sh) N).
    destruct (fgn_cme_eq sh H sigma dt z0 drawn N d _ _ EN HN Hd H0 H1 G Sh) as [_ [F1 F2]]. eexists _, _. exact (conj Sh (conj F1 F2)). }
  assert (Main : fgn sh H sigma dt method z0 drawn = Err ValueError <-> ~ (0 <= H <= 1) \/ (method <> "cme" /\ method <> "chol")%string).
  { destruct (Rle_lt_dec 0 H) as [H0|H0]; [destruct (Rle_lt_dec H 1) as [H1|H1]|].
    - destruct (String.eqb_spec method "cme") as [->|N1]; [|destruct (String.eqb_spec method "chol") as [->|N2]].
      + destruct (Cme (conj H0 H1)) as [X [w [_ [F _]]]]. rewrite F. split; [discriminate|]. intros [K|[K _]]; [exfalso; auto|congruence].
      + split; [|intros [K|[_ K]]; [exfalso; auto|congruence]]. intros K. exfalso. revert K.
        unfold fgn, fgn_cols. rewrite H_test by trivial. rewrite EN. rewrite (proj1 (step_ok dt N d ltac:(lia) Hd)).
        cbn [bind String.eqb Ascii.eqb Bool.eqb andb]. unfold gaussian_chol. rewrite fgn_cov_length.
        assert (Ch : forall n a, cholesky n a = Err LinAlgError \/ exists u, cholesky n a = Ok u).
        { induction n as [|n IH]; intros a; [right; eexists; reflexivity|]. cbn [cholesky]. destruct (Rle_dec (a 0%nat 0%nat) 0); [now left|].
          destruct (IH (fun i j => a (S i) (S j) - a 0%nat (S i) / sqrt (a 0%nat 0%nat) * (a 0%nat (S j) / sqrt (a 0%nat 0%nat)))) as [E|[u E]]; rewrite E; [now left|right; eexists; reflexivity]. }
        destruct (Ch N (toeplitz (fgn_cov N H sigma d))) as [E|[u E]]; rewrite E; cbn [bind]; [discriminate|].
        rewrite (mapM_map_ok (matvec N u) (fun z => map (fun i => fold_right Rplus 0 (map (fun k => u i k * nth k z 0) (seq 0 N))) (seq 0 N))).
        * discriminate.
        * intros z Hz. unfold matvec. destruct Sr as [_ F]. rewrite Forall_forall in F. now rewrite (F z Hz), Nat.eqb_refl.
      + split; [auto|]. intros _. unfold fgn, fgn_cols. rewrite H_test by trivial. rewrite EN, (proj1 (step_ok dt N d ltac:(lia) Hd)). cbn [bind].
        destruct (String.eqb_spec method "cme"); [contradiction|]. destruct (String.eqb_spec method "chol"); [contradiction|reflexivity].
    - split; [intros _; left; lra|]. intros _. unfold fgn, fgn_cols. rewrite H_test_out by lra. reflexivity.
    - split; [intros _; left; lra|]. intros _. unfold fgn, fgn_cols. rewrite H_test_out by lra. reflexivity. }
  refine (conj Main (conj (iff_trans Fe Main) _)). intros HH ->. now apply Cme.
Qed.
(** with one sample the circulant embedding always fails *)
Theorem C60_one_sample_refuted sh H sigma dt d z0 drawn : shape_N sh = 1%nat -> sampling_step dt 1 d ->
  fgn sh H sigma dt "cme" z0 drawn = Err ValueError.
Proof.
  intros EN Hd. unfold fgn, fgn_cols. destruct (negb _); [reflexivity|]. rewrite EN, (proj1 (step_ok dt 1 d ltac:(lia) Hd)). reflexivity.
Qed.
