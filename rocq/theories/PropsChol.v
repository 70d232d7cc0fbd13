(** * C63: synthesis through a Cholesky factor *)
From Coq Require Import Reals List ZArith Bool Lia Lra String.
From Verif Require Import XReal PyBase ModelSimul Spec SpecSimul LXReal LBase LDft LSimul LCirc LFgn LFgnCov LNoise LChol LBivariate PropsSimul.
Import ListNotations.
Open Scope R_scope.
Local Notation length := List.length.

Definition chol_out (N R : nat) (U : mat) (z : list (list Rdefinitions.R)) : list (list Rdefinitions.R) :=
  array (fun r i => sumn N (fun k => U i k * entry 0 z r k)) R N.
Lemma list_array {A} (d : A) R N z : shaped R N z -> z = array (entry d z) R N.
Proof.
  intros [L F]. apply nth_ext with (d := []) (d' := []); [unfold array; now rewrite map_length, seq_length|]. intros r Hr. rewrite L in Hr.
  assert (Lr : List.length (nth r z []) = N) by (rewrite Forall_forall in F; apply F, nth_In; lia).
  assert (La : List.length (nth r (array (entry d z) R N) []) = N).
  { destruct (array_shaped (entry d z) R N) as [L2 F2]. rewrite Forall_forall in F2. apply F2, nth_In. now rewrite L2. }
  apply nth_ext with (d := d) (d' := d); [congruence|]. intros k Hk. rewrite Lr in Hk. symmetry. apply (array_entry (entry d z) d R N r k Hr Hk).
Qed.
Lemma chol_eq cov N R U z : List.length cov = N -> cholesky N (toeplitz cov) = Ok U -> shaped R N z -> gaussian_chol cov z = Ok (chol_out N R U z).
Proof.
  intros Hc HU Sh. unfold gaussian_chol. rewrite Hc, HU. cbn [bind].
  rewrite (mapM_map_ok (matvec N U) (fun c => map (fun i => sumn N (fun k => U i k * nth k c 0)) (seq 0 N))).
  2:{ intros c Hz. unfold matvec. destruct Sh as [_ F]. rewrite Forall_forall in F. now rewrite (F c Hz), Nat.eqb_refl. }
  f_equal. rewrite (list_array 0 R N z Sh) at 1. unfold chol_out. unfold array at 1. rewrite map_map. unfold array. apply map_ext_in. intros r Hr.
  apply in_seq in Hr. apply map_ext. intros i. apply sumn_ext. intros k Hk. f_equal. now rewrite nth_map_seq.
Qed.
Lemma chol_covariance W (P : expectation W) N R U (Z : W -> list (list Rdefinitions.R)) : white_real P R N Z ->
  has_covariance P R N (fun w => chol_out N R U (Z w)) (fun a b => sumn N (fun k => U a k * U b k)).
Proof.
  intros [Sh [H1 H2]].
  assert (Ms : forall r i, (r < R)%nat -> (i < N)%nat -> integrable P (fun w => entry 0 (Z w) r i) /\ E P (fun w => entry 0 (Z w) r i) = 0).
  { intros r i Hr Hi. apply (H1 (r, i)). auto. }
  assert (Ps : forall r s i j, (r < R)%nat -> (s < R)%nat -> (i < N)%nat -> (j < N)%nat -> integrable P (fun w => entry 0 (Z w) r i * entry 0 (Z w) s j) /\
     E P (fun w => entry 0 (Z w) r i * entry 0 (Z w) s j) = if Nat.eq_dec r s then if Nat.eq_dec i j then 1 else 0 else 0).
  { intros r s i j Hr Hs Hi Hj. destruct (H2 (r, i) (s, j) (conj Hr Hi) (conj Hs Hj)) as [A [B D]]. cbn [fst snd] in *. split; [exact A|].
    destruct (Nat.eq_dec r s); [destruct (Nat.eq_dec i j)|]; [apply B; congruence|apply D; congruence|apply D; congruence]. }
  assert (En : forall r a w, (r < R)%nat -> (a < N)%nat -> sumn N (fun k => U a k * entry 0 (Z w) r k) = entry 0 (chol_out N R U (Z w)) r a).
  { intros r a w Hr Ha. unfold chol_out. now rewrite array_entry. }
  refine (conj _ (conj _ _)).
  - intros w. apply array_shaped.
  - intros r a Hr Ha. destruct (lin_mean P N (U a) (fun k w => entry 0 (Z w) r k) (fun i Hi => Ms r i Hr Hi)) as [I0 E0].
    split; [exact (int_ext W P _ _ (fun w => En r a w Hr Ha) I0)|]. etransitivity; [|exact E0]. apply E_ext. intros w. now rewrite En.
  - intros r s a b Hr Hs Ha Hb. split.
    + apply (int_ext W P (fun w => sumn N (fun k => U a k * entry 0 (Z w) r k) * sumn N (fun k => U b k * entry 0 (Z w) s k))); [intros w; now rewrite !En|].
      apply (lin_prod P N (U a) (U b) (fun k w => entry 0 (Z w) r k) (fun k w => entry 0 (Z w) s k) _ (fun i j Hi Hj => Ps r s i j Hr Hs Hi Hj)).
    + rewrite <- (lin_cov P N (U a) (U b) (fun r k w => entry 0 (Z w) r k) r s (fun i Hi => Ms r i Hr Hi) (fun i Hi => Ms s i Hs Hi) (fun i j Hi Hj => Ps r s i j Hr Hs Hi Hj)).
      unfold Cov. f_equal; [|f_equal]; apply E_ext; intros w; now rewrite !En.
Qed.

(** gaussian_chol succeeds exactly for positive definite covariances and fails with LinAlgError otherwise *)
Theorem C63_success cov N R z : List.length cov = N -> shaped R N z ->
  (positive_definite N (stationary cov) <-> exists X, gaussian_chol cov z = Ok X) /\
  (~ positive_definite N (stationary cov) -> gaussian_chol cov z = Err LinAlgError).
Proof.
  intros Hc Sh. destruct (cholesky_pd N (toeplitz cov) (fun i j _ _ => toeplitz_sym cov i j)) as [A B]. split; [split|].
  - intros PD. destruct (proj1 A PD) as [U HU]. eexists. exact (chol_eq cov N R U z Hc HU Sh).
  - intros [X HX]. apply (proj2 A). unfold gaussian_chol in HX. rewrite Hc in HX. destruct (cholesky N (toeplitz cov)) as [u|]; [eauto|discriminate].
  - intros NPD. unfold gaussian_chol. rewrite Hc, (B NPD). reflexivity.
Qed.
(** the factor U satisfies U^T U = covariance, U is upper triangular with a positive diagonal, but the output is U z, whose
    covariance is U U^T *)
Theorem C63_output_covariance W (P : expectation W) cov N R Z : List.length cov = N -> white_real P R N Z -> positive_definite N (stationary cov) ->
  exists (U : nat -> nat -> Rdefinitions.R) X, (forall w, gaussian_chol cov (Z w) = Ok (X w)) /\
    (forall i j, (i < N)%nat -> (j < N)%nat -> Rsum (map (fun k => U k i * U k j) (seq 0 N)) = stationary cov i j) /\
    (forall i j, (j < i)%nat -> (i < N)%nat -> U i j = 0) /\ (forall i, (i < N)%nat -> 0 < U i i) /\
    has_covariance P R N X (fun a b => Rsum (map (fun k => U a k * U b k) (seq 0 N))).
Proof.
  intros Hc HZ PD. destruct (proj1 (proj1 (cholesky_pd N (toeplitz cov) (fun i j _ _ => toeplitz_sym cov i j))) PD) as [U HU].
  destruct (cholesky_spec N (toeplitz cov) U (fun i j _ _ => toeplitz_sym cov i j) HU) as [A [B D]].
  exists U, (fun w => chol_out N R U (Z w)). refine (conj _ (conj A (conj B (conj D _)))).
  - intros w. apply chol_eq; trivial. apply HZ.
  - now apply chol_covariance.
Qed.
(** REFUTED: the output has the covariance asked for only when that covariance is white *)
Theorem C63_wrong_covariance_refuted W (P : expectation W) cov N R Z X : List.length cov = N -> (1 <= N)%nat -> (1 <= R)%nat -> white_real P R N Z ->
  (forall w, gaussian_chol cov (Z w) = Ok (X w)) ->
  (has_covariance P R N X (stationary cov) <-> forall k, (1 <= k)%nat -> (k < N)%nat -> nth k cov 0 = 0) /\
  (* the first sample has variance sum cov^2 / cov[0] instead of cov[0] *)
  Cov P (fun w => entry 0 (X w) 0 0) (fun w => entry 0 (X w) 0 0) = Rsum (map (fun k => nth k cov 0 ^ 2) (seq 0 N)) / nth 0 cov 0.
Proof.
  intros Hc HN HR HZ HX.
  assert (Ex : exists w : W, True).
  { destruct (Classical_Prop.classic (exists w : W, True)) as [|No]; [trivial|exfalso].
    assert (E1 := E_one W P). rewrite (E_ext W P (fun _ => 1) (fun _ => 0)) in E1 by (intros w; exfalso; apply No; exists w; exact I). rewrite (E_zero P) in E1. lra. }
  destruct Ex as [w0 _].
  assert (PD : positive_definite N (stationary cov)). { apply (proj2 (proj1 (C63_success cov N R (Z w0) Hc (proj1 HZ w0)))). eauto. }
  destruct (C63_output_covariance W P cov N R Z Hc HZ PD) as [U [X' [A [B [D [F G]]]]]].
  assert (EX : forall w, X w = X' w) by (intros w; specialize (HX w); specialize (A w); congruence).
  assert (G' : has_covariance P R N X (fun a b => sumn N (fun k => U a k * U b k))).
  { destruct G as [G1 [G2 G3]]. refine (conj _ (conj _ _)).
    - intros w. rewrite EX. apply G1.
    - intros r a Hr Ha. destruct (G2 r a Hr Ha) as [I1 E1]. split.
      + apply (int_ext W P _ _ (fun w => f_equal (fun x => entry 0 x r a) (eq_sym (EX w))) I1).
      + etransitivity; [|exact E1]. apply E_ext. intros w. now rewrite EX.
    - intros r s a b Hr Hs Ha Hb. destruct (G3 r s a b Hr Hs Ha Hb) as [I1 E1]. split.
      + apply (int_ext W P (fun w => entry 0 (X' w) r a * entry 0 (X' w) s b)); [intros w; now rewrite EX|exact I1].
      + etransitivity; [|exact E1]. unfold Cov. f_equal; [|f_equal]; apply E_ext; intros w; now rewrite !EX. }
  assert (U00 : 0 < U 0%nat 0%nat) by (apply F; lia).
  assert (Row : forall j, (j < N)%nat -> U 0%nat 0%nat * U 0%nat j = nth j cov 0).
  { intros j Hj. assert (K := B 0%nat j ltac:(lia) Hj). change (sumn N (fun k => U k 0%nat * U k j) = stationary cov 0 j) in K.
    rewrite (sumn_single N _ 0%nat) in K by (try lia; intros i Hi Ni; rewrite (D i 0%nat) by lia; ring).
    rewrite K. unfold stationary. rewrite Nat.max_0_l, Nat.min_0_l, Nat.sub_0_r. reflexivity. }
  assert (V0 : Cov P (fun w => entry 0 (X w) 0 0) (fun w => entry 0 (X w) 0 0) = sumn N (fun k => U 0%nat k * U 0%nat k)).
  { destruct G' as [_ [_ G3]]. destruct (G3 0%nat 0%nat 0%nat 0%nat ltac:(lia) ltac:(lia) ltac:(lia) ltac:(lia)) as [_ E1]. exact E1. }
  assert (c0 : nth 0 cov 0 = U 0%nat 0%nat * U 0%nat 0%nat) by (symmetry; apply Row; lia).
  split.
  - split.
    + intros Hs k K1 K2. destruct Hs as [_ [_ S3]]. destruct (S3 0%nat 0%nat 0%nat 0%nat ltac:(lia) ltac:(lia) ltac:(lia) ltac:(lia)) as [_ E1].
      rewrite V0 in E1. cbn [Nat.eq_dec] in E1. destruct (Nat.eq_dec 0 0) as [_|n]; [|congruence].
      unfold stationary in E1. cbn [Nat.max Nat.min Nat.sub] in E1. rewrite c0 in E1.
      replace N with (S (N - 1)) in E1 by lia. rewrite sumn_S_first in E1.
      assert (Z1 : sumn (N - 1) (fun i => U 0%nat (S i) * U 0%nat (S i)) = 0) by lra.
      assert (Zk : U 0%nat k = 0).
      { destruct k as [|k]; [lia|]. clear -Z1 K2. rename Z1 into Z. assert (L : (k < N - 1)%nat) by lia. revert L Z. generalize (N - 1)%nat. intros n. induction n as [|n IH]; [lia|].
        intros L Z. rewrite sumn_S in Z. assert (0 <= sumn n (fun i => U 0%nat (S i) * U 0%nat (S i))) by (apply sumn_nonneg; intros; nra).
        assert (0 <= U 0%nat (S n) * U 0%nat (S n)) by nra. destruct (Nat.eq_dec k n) as [->|]; [nra|]. apply IH; [lia|lra]. }
      rewrite <- (Row k K2), Zk. ring.
    + intros Hw. destruct G' as [S1 [S2 S3]]. refine (conj S1 (conj S2 _)). intros r s a b Hr Hs Ha Hb. destruct (S3 r s a b Hr Hs Ha Hb) as [I1 E1].
      split; [exact I1|]. rewrite E1. destruct (Nat.eq_dec r s); [|reflexivity].
      (* U is diagonal *)
      assert (Dg : forall i, (i < N)%nat -> forall j, (j < N)%nat -> i <> j -> U i j = 0).
      { intros i. induction i as [i IH] using lt_wf_ind. intros Hi j Hj Nij. destruct (Nat.lt_ge_cases j i) as [L|L]; [apply D; lia|].
        assert (K := B i j Hi Hj). change (sumn N (fun k => U k i * U k j) = stationary cov i j) in K.
        assert (Z2 : stationary cov i j = 0) by (unfold stationary; apply Hw; lia). rewrite Z2 in K.
        rewrite (sumn_single N _ i Hi) in K.
        - assert (Q := F i Hi). apply Rmult_integral in K as [K|K]; [lra|exact K].
        - intros k Hk Nk. destruct (Nat.lt_ge_cases k i) as [L2|L2]; [rewrite (IH k L2 Hk j Hj) by lia; ring|rewrite (D k i) by lia; ring]. }
      destruct (Nat.eq_dec a b) as [e2|e2].
      * subst b. rewrite (sumn_single N _ a Ha) by (intros k Hk Nk; rewrite (Dg a Ha k Hk) by auto; ring). rewrite <- (B a a Ha Ha).
        change (U a a * U a a = sumn N (fun k => U k a * U k a)). rewrite (sumn_single N _ a Ha) by (intros k Hk Nk; rewrite (Dg k Hk a Ha) by auto; ring). reflexivity.
      * rewrite sumn_zero.
        -- unfold stationary. symmetry. apply Hw; lia.
        -- intros k Hk. destruct (Nat.eq_dec a k) as [->|N1]; [rewrite (Dg b Hb k Ha) by auto; ring|rewrite (Dg a Ha k Hk) by auto; ring].
  - rewrite V0, c0. apply Rmult_eq_reg_r with (U 0%nat 0%nat * U 0%nat 0%nat); [|nra]. unfold Rdiv. rewrite Rmult_assoc, Rinv_l, Rmult_1_r by nra.
    rewrite <- sumn_scal_r. apply sumn_ext. intros k Hk. rewrite <- (Row k Hk). ring.
Qed.
(** a case: two samples, correlation 1/2; the first one has variance 5/4 *)
Theorem C63_case_refuted : exists W (P : expectation W) Z X, white_real P 1 2 Z /\ (forall w, gaussian_chol [1; 1 / 2] (Z w) = Ok (X w)) /\
  Cov P (fun w => entry 0 (X w) 0 0) (fun w => entry 0 (X w) 0 0) = 5 / 4.
Proof.
  assert (HK : (1 <= 1 * 2)%nat) by lia. exists (nat * bool)%type, (sign_space (1 * 2) HK), (real_noise (1 * 2) 1 2).
  assert (HZ := real_noise_white 1 2 HK).
  assert (PD : positive_definite 2 (stationary [1; 1 / 2])).
  { rewrite pd_quad. intros x [i [Hi Xi]]. unfold quad. rewrite !sumn_S, !sumn_0. unfold stationary. cbn [Nat.max Nat.min Nat.sub nth].
    assert (Q : 0 < x 0%nat * x 0%nat + x 0%nat * x 1%nat + x 1%nat * x 1%nat).
    { destruct (Req_EM_T (x 1%nat) 0) as [e|e].
      - assert (x 0%nat <> 0) by (destruct i as [|[|i]]; [trivial|congruence|lia]). rewrite e. assert (G := Rsqr_pos_lt _ H). unfold Rsqr in G. lra.
      - assert (G := Rsqr_pos_lt _ e). unfold Rsqr in G. nra. }
    lra. }
  destruct (C63_output_covariance _ _ [1; 1 / 2] 2 1 _ eq_refl HZ PD) as [_ [X [A _]]]. exists X. refine (conj HZ (conj A _)).
  rewrite (proj2 (C63_wrong_covariance_refuted _ _ [1; 1 / 2] 2 1 _ X eq_refl ltac:(lia) ltac:(lia) HZ A)). cbn. field.
Qed.

(** fgn with method='chol' (N >= 2, sigma <> 0): it returns for 0 < H < 1 and raises LinAlgError for H = 0 and H = 1; the
    covariance is that of fractional Gaussian noise only for H = 1/2 *)
Theorem C63_fgn_chol_refuted W (P : expectation W) sh N (H sigma : R) dt d (z0 : W -> option noise) (drawn : W -> noise) :
  shape_N sh = N -> (2 <= N)%nat -> (1 <= shape_R sh)%nat -> sampling_step dt N d -> sigma <> 0 ->
  white_real P (shape_R sh) N (fun w => nx (pick (z0 w) (drawn w))) ->
  (0 < H < 1 -> exists X, (forall w, fgn sh H sigma dt "chol" (z0 w) (drawn w) = Ok (presented sh (X w), false)) /\
     (has_covariance P (shape_R sh) N X (fgn_covariance H sigma d) <-> H = 1 / 2)) /\
  (H = 0 \/ H = 1 -> forall w, fgn sh H sigma dt "chol" (z0 w) (drawn w) = Err LinAlgError).
Proof.
  intros EN HN HR Hd Hs HZ. assert (d0 := proj2 (step_ok dt N d ltac:(lia) Hd)).
  assert (F : forall w, 0 <= H -> H <= 1 -> fgn sh H sigma dt "chol" (z0 w) (drawn w) = (x <- gaussian_chol (fgn_cov N H sigma d) (nx (pick (z0 w) (drawn w))) ;; Ok (out sh x, false))).
  { intros w H0 H1. unfold fgn, fgn_cols. rewrite H_test by trivial. rewrite EN, (proj1 (step_ok dt N d ltac:(lia) Hd)). cbn [bind String.eqb Ascii.eqb Bool.eqb andb].
    destruct (gaussian_chol _ _); reflexivity. }
  split.
  - intros [H0 H1]. assert (PD : positive_definite N (stationary (fgn_cov N H sigma d))) by (apply (fgn_pd N H sigma d); trivial; lia).
    destruct (C63_output_covariance W P _ N (shape_R sh) _ (fgn_cov_length _ _ _ _) HZ PD) as [U [X [A [_ [_ [_ G]]]]]].
    exists X. split.
    + intros w. rewrite F by lra. rewrite A. cbn [bind]. rewrite (presented_out sh (X w) N HN); [reflexivity|]. apply G.
    + assert (Q := proj1 (C63_wrong_covariance_refuted W P _ N (shape_R sh) _ X (fgn_cov_length N H sigma d) ltac:(lia) HR HZ A)).
      assert (Eq : has_covariance P (shape_R sh) N X (fgn_covariance H sigma d) <-> has_covariance P (shape_R sh) N X (stationary (fgn_cov N H sigma d))).
      { split; intros [S1 [S2 S3]]; refine (conj S1 (conj S2 _)); intros r s a b Hr Hs' Ha Hb; destruct (S3 r s a b Hr Hs' Ha Hb) as [I1 E1]; (split; [exact I1|]); rewrite E1;
        (destruct (Nat.eq_dec r s); [|reflexivity]); [symmetry|]; now apply fgn_cov_stationary. }
      rewrite Eq, Q. assert (Sc : rpow d (2 * H) * sigma ^ 2 <> 0).
      { apply Rmult_integral_contrapositive_currified; [rewrite rpow_pos by trivial; apply Rgt_not_eq, exp_pos|]. now apply pow_nonzero. }
      split.
      * intros Z. assert (Z1 := Z 1%nat ltac:(lia) ltac:(lia)). rewrite fgn_cov_nth in Z1 by (trivial; lia). apply Rmult_integral in Z1 as [Z1|Z1]; [contradiction|].
        rewrite fcor_S in Z1. cbn [Nat.add] in Z1. rewrite g_0, g_1, g_2 in Z1.
        assert (T : Rpower 2 (2 * H) = 2) by lra. destruct (Rtotal_order (2 * H) 1) as [L|[L|L]]; [|lra|].
        -- assert (K := Rpower_lt 2 (2 * H) 1 ltac:(lra) L). rewrite (Rpower_1 2) in K by lra. lra.
        -- assert (K := Rpower_lt 2 1 (2 * H) ltac:(lra) L). rewrite (Rpower_1 2) in K by lra. lra.
      * intros -> k K1 K2.  assert (T := fgn_cov_stationary N (1 / 2) sigma d 0 k ltac:(lra) d0 ltac:(lia) K2). rewrite C61_brownian in T by trivial. destruct (Nat.eq_dec 0 k); [lia|].
        unfold stationary in T. rewrite Nat.max_0_l, Nat.min_0_l, Nat.sub_0_r in T. exact T.
  - intros HH w. assert (A0 : 0 <= H) by (destruct HH; lra). assert (A1 : H <= 1) by (destruct HH; lra). rewrite (F w A0 A1). rewrite (proj2 (C63_success (fgn_cov N H sigma d) N (shape_R sh) _ (fgn_cov_length _ _ _ _) (proj1 HZ w))); [reflexivity|].
    assert (N0 : (0 < N)%nat) by lia. intros PD.
    assert (K := PD (fun i => match i with O => 1 | S O => -1 | _ => 0 end) (ex_intro _ 0%nat (conj N0 R1_neq_R0))).
    change (0 < quad N (stationary (fgn_cov N H sigma d)) (fun i => match i with O => 1 | S O => -1 | _ => 0 end)) in K.
    unfold quad in K.
    assert (Cut : forall f : nat -> Rdefinitions.R, (forall i, (2 <= i)%nat -> f i = 0) -> sumn N f = f 0%nat + f 1%nat).
    { intros f Hf. replace (sumn N) with (sumn (2 + (N - 2))) by (f_equal; lia). rewrite sumn_app, (sumn_zero (N - 2)) by (intros; apply Hf; lia). rewrite !sumn_S, sumn_0. ring. }
    rewrite Cut in K. 2:{ intros i Hi. apply sumn_zero. intros j _. destruct i as [|[|i]]; [lia|lia|ring]. }
    rewrite !Cut in K by (intros [|[|i]] Hi; [lia|lia|ring]).
    unfold stationary in K. cbn [Nat.max Nat.min Nat.sub] in K.
    assert (Eq01 : nth 0 (fgn_cov N H sigma d) 0 = nth 1 (fgn_cov N H sigma d) 0).
    { destruct HH as [->| ->].
      - unfold fgn_cov. rewrite !nth_map_seq by lia. rewrite Rmult_0_r, !powR_exp0 by (try apply Rabs_pos; lra). ring.
      - rewrite !fgn_cov_nth by (trivial; (lia || lra)). f_equal. rewrite fcor_S. cbn [Nat.add fcor]. rewrite g_0, g_1, g_2.
        replace (2 * 1) with (INR 2) by (cbn; ring). rewrite Rpower_pow by lra. cbn [INR]. field. }
    rewrite Eq01 in K. lra.
Qed.

(** REFUTED: "if shape is int, the result is of shape (N,)".  For one sample the Cholesky method gives a 0-dimensional array (of
    the right standard deviation), while fbm gives an array of one element; the circulant method gives nothing *)
Theorem C60_one_sample_chol_refuted H sigma dt d z0 drawn z : 0 < H <= 1 -> sigma <> 0 -> sampling_step dt 1 d -> nx (pick z0 drawn) = [[z]] ->
  fgn (SInt 1) H sigma dt "chol" z0 drawn = Ok (Arr0 (Rpower d H * Rabs sigma * z), false) /\
  fbm (SInt 1) H sigma dt "chol" z0 drawn = Ok (Arr1 [Rpower d H * Rabs sigma * z], false) /\
  fgn (SPair 1 1) H sigma dt "chol" z0 drawn = Ok (Arr2 [[Rpower d H * Rabs sigma * z]], false) /\
  (exists e, fgn (SInt 1) H sigma dt "cme" z0 drawn = Err e).
Proof.
  intros [H0 H1] Hs Hd Hz. destruct (step_ok dt 1 d ltac:(lia) Hd) as [Ed d0].
  assert (C : fgn_cov 1 H sigma d = [(Rpower d H * Rabs sigma) ^ 2]).
  { unfold fgn_cov. cbn [seq map INR]. f_equal. rewrite Rplus_0_l, Rminus_0_l, Rabs_Ropp, Rabs_R1, Rabs_R0, !powR_one.
    rewrite (powR_rpow 0) by lra. unfold rpow. destruct (Rlt_dec 0 0); [lra|]. rewrite powR_pos by trivial.
    replace (2 * H) with (H + H) by ring. rewrite Rpower_plus. rewrite <- (pow2_abs sigma). field. }
  assert (P : 0 < Rpower d H * Rabs sigma) by (apply Rmult_lt_0_compat; [apply exp_pos|now apply Rabs_pos_lt]).
  set (v := Rpower d H * Rabs sigma) in *.
  assert (G : gaussian_chol [v ^ 2] [[z]] = Ok [[v * z]]).
  { unfold gaussian_chol. cbn [List.length cholesky]. unfold toeplitz at 1. cbn [Nat.max Nat.min Nat.sub nth].
    assert (P2 := pow_lt v 2 P). destruct (Rle_dec (v ^ 2) 0); [lra|]. cbn [bind mapM]. unfold matvec. cbn [List.length Nat.eqb seq map fold_right nth bind].
    f_equal. f_equal. f_equal. unfold toeplitz. cbn [Nat.max Nat.min Nat.sub nth]. replace (v ^ 2) with (v * v) by ring. rewrite sqrt_square by lra. ring. }
  assert (F : forall sh, shape_N sh = 1%nat -> fgn sh H sigma dt "chol" z0 drawn = Ok (out sh [[v * z]], false)).
  { intros sh Hsh. unfold fgn, fgn_cols. rewrite H_test by lra. rewrite Hsh, Ed. cbn [bind String.eqb Ascii.eqb Bool.eqb andb]. rewrite Hz, C, G. reflexivity. }
  split; [rewrite F; reflexivity|]. split; [unfold fbm; rewrite F by reflexivity; unfold out, squeeze; cbn [bind nd_cumsum cumsum cumsum_from]; reflexivity|].
  split; [rewrite F; reflexivity|].
  unfold fgn, fgn_cols. rewrite H_test by lra. cbn [shape_N]. rewrite Ed. cbn [bind String.eqb Ascii.eqb Bool.eqb andb].
  destruct (gaussian_cme (fgn_cov 1 H sigma d) 1 (nz drawn)) as [[x b]|e2] eqn:E2; [|cbn [bind]; eauto].
  exfalso. unfold gaussian_cme in E2. destruct (fft _); cbn [bind Nat.mul Nat.add Nat.sub Nat.eqb] in E2; discriminate.
Qed.
Print Assumptions C60_one_sample_chol_refuted.
Example C60_one_sample_case : fgn (SInt 1) 1 2 (Some 1) "chol" (Some (mkNoise [] [[3]])) (mkNoise [] []) = Ok (Arr0 6, false).
Proof.
  destruct (C60_one_sample_chol_refuted 1 2 (Some 1) 1 (Some (mkNoise [] [[3]])) (mkNoise [] []) 3 ltac:(lra) ltac:(lra)) as [-> _]; [left; split; [reflexivity|lra]|reflexivity|].
  rewrite Rpower_1, Rabs_pos_eq by lra. do 3 f_equal. ring.
Qed.
