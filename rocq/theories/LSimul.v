(** * Covariances of linear maps of white noise *)
From Coq Require Import Reals List ZArith Bool Lia Lra.
From Verif Require Import XReal PyBase ModelSimul Spec SpecSimul LXReal LBase LDft LBivariate.
Import ListNotations.
Open Scope R_scope.
Local Notation length := List.length.

Section Lin.
Context {W : Type} (P : expectation W).
Lemma int_zero : integrable P (fun _ => 0).
Proof. apply (int_ext W P (fun w => 0 * 1)); [intros; ring|]. apply (int_scal W P 0 (fun _ => 1)), int_one. Qed.
Lemma E_zero : E P (fun _ => 0) = 0.
Proof.
  rewrite (E_ext W P (fun _ => 0) (fun w => 0 * 1)) by (intros; ring). rewrite (E_scal W P 0 (fun _ => 1)) by apply int_one. ring.
Qed.
Lemma int_sumn n (f : nat -> W -> R) : (forall i, (i < n)%nat -> integrable P (f i)) -> integrable P (fun w => sumn n (fun i => f i w)).
Proof.
  induction n; intros H.
  - apply (int_ext W P (fun _ => 0)); [reflexivity|apply int_zero].
  - apply (int_ext W P (fun w => sumn n (fun i => f i w) + f n w)); [intros; now rewrite sumn_S|]. apply int_plus; auto.
Qed.
Lemma E_sumn n (f : nat -> W -> R) : (forall i, (i < n)%nat -> integrable P (f i)) -> E P (fun w => sumn n (fun i => f i w)) = sumn n (fun i => E P (f i)).
Proof.
  induction n; intros H.
  - rewrite (E_ext W P _ (fun _ => 0)) by reflexivity. apply E_zero.
  - rewrite (E_ext W P _ (fun w => sumn n (fun i => f i w) + f n w)) by (intros; now rewrite sumn_S).
    rewrite E_plus; [|apply int_sumn; auto|auto]. rewrite IHn, sumn_S by auto. reflexivity.
Qed.
(** two linear combinations of pairwise uncorrelated centred variables *)
Lemma lin_mean n a (z : nat -> W -> R) : (forall i, (i < n)%nat -> integrable P (z i) /\ E P (z i) = 0) ->
  integrable P (fun w => sumn n (fun i => a i * z i w)) /\ E P (fun w => sumn n (fun i => a i * z i w)) = 0.
Proof.
  intros H. split.
  - apply (int_sumn n (fun i w => a i * z i w)). intros i Hi. apply int_scal. now apply H.
  - rewrite (E_sumn n (fun i w => a i * z i w)). 2:{ intros i Hi. apply int_scal. now apply H. }
    apply sumn_zero. intros i Hi. destruct (H i Hi) as [A B]. rewrite E_scal, B by trivial. ring.
Qed.
Lemma lin_prod n a b (z y : nat -> W -> R) (m : nat -> nat -> R) :
  (forall i j, (i < n)%nat -> (j < n)%nat -> integrable P (fun w => z i w * y j w) /\ E P (fun w => z i w * y j w) = m i j) ->
  integrable P (fun w => sumn n (fun i => a i * z i w) * sumn n (fun j => b j * y j w)) /\
  E P (fun w => sumn n (fun i => a i * z i w) * sumn n (fun j => b j * y j w)) = sumn n (fun i => sumn n (fun j => a i * b j * m i j)).
Proof.
  intros H.
  assert (X : forall w, sumn n (fun i => sumn n (fun j => (a i * b j) * (z i w * y j w))) = sumn n (fun i => a i * z i w) * sumn n (fun j => b j * y j w)).
  { intros w. rewrite <- sumn_scal_r. apply sumn_ext. intros i _. rewrite <- sumn_scal. apply sumn_ext. intros. ring. }
  assert (I1 : forall i j, (i < n)%nat -> (j < n)%nat -> integrable P (fun w => (a i * b j) * (z i w * y j w))).
  { intros i j Hi Hj. apply (int_scal W P (a i * b j) (fun w => z i w * y j w)). now apply H. }
  assert (I2 : forall i, (i < n)%nat -> integrable P (fun w => sumn n (fun j => (a i * b j) * (z i w * y j w)))).
  { intros i Hi. apply (int_sumn n (fun j w => (a i * b j) * (z i w * y j w))). auto. }
  split.
  - apply (int_ext W P _ _ X). apply (int_sumn n (fun i w => sumn n (fun j => (a i * b j) * (z i w * y j w)))). exact I2.
  - rewrite <- (E_ext W P _ _ X). rewrite (E_sumn n (fun i w => sumn n (fun j => (a i * b j) * (z i w * y j w)))) by exact I2.
    apply sumn_ext. intros i Hi. rewrite (E_sumn n (fun j w => (a i * b j) * (z i w * y j w))) by auto.
    apply sumn_ext. intros j Hj. destruct (H i j Hi Hj) as [A B].
    rewrite (E_scal W P (a i * b j) (fun w => z i w * y j w) A), B. reflexivity.
Qed.
(** covariance of X = sum a z^r, Y = sum b z^s for a family z^r_i of pairwise uncorrelated variables *)
Lemma lin_cov n a b (z : nat -> nat -> W -> R) r s :
  (forall i, (i < n)%nat -> integrable P (z r i) /\ E P (z r i) = 0) ->
  (forall i, (i < n)%nat -> integrable P (z s i) /\ E P (z s i) = 0) ->
  (forall i j, (i < n)%nat -> (j < n)%nat -> integrable P (fun w => z r i w * z s j w) /\
     E P (fun w => z r i w * z s j w) = if Nat.eq_dec r s then if Nat.eq_dec i j then 1 else 0 else 0) ->
  Cov P (fun w => sumn n (fun i => a i * z r i w)) (fun w => sumn n (fun i => b i * z s i w)) =
  if Nat.eq_dec r s then sumn n (fun i => a i * b i) else 0.
Proof.
  intros H1 H2 H3. unfold Cov.
  rewrite (proj2 (lin_mean n a (z r) H1)), (proj2 (lin_mean n b (z s) H2)).
  rewrite (proj2 (lin_prod n a b (z r) (z s) _ H3)). destruct (Nat.eq_dec r s) as [e|e].
  - rewrite Rmult_0_l, Rminus_0_r. apply sumn_ext. intros i Hi. rewrite (sumn_single n _ i Hi).
    + destruct (Nat.eq_dec i i); [ring|congruence].
    + intros j _ Hj. destruct (Nat.eq_dec i j); [congruence|ring].
  - rewrite Rmult_0_l, Rminus_0_r. apply sumn_zero. intros i Hi. apply sumn_zero. intros j Hj. ring.
Qed.
End Lin.

(** ** Circulant embedding *)
(** the periodised sequence and its eigenvalues *)
Definition emb (n : nat) (c : nat -> R) (m : nat) : R := if Nat.leb m n then c m else c (2 * n - m)%nat.
Definition eig (n : nat) (c : nat -> R) (k : nat) : R := sumn (2 * n) (fun m => emb n c m * cos (ang (2 * n) (Z.of_nat m) k)).

Lemma removelast_length {A} (l : list A) : length (removelast l) = (length l - 1)%nat.
Proof. induction l as [|a [|b l] IH]; [reflexivity|reflexivity|]. cbn [removelast length] in *. lia. Qed.
Lemma nth_removelast {A} (l : list A) i d : (i < length l - 1)%nat -> nth i (removelast l) d = nth i l d.
Proof.
  revert i. induction l as [|a [|b l] IH]; intros i H; [cbn in H; lia|cbn in H; lia|].
  cbn [removelast]. destruct i; [reflexivity|]. cbn [nth]. apply IH. cbn [length] in *. lia.
Qed.
Lemma embed_length cov : (2 <= length cov)%nat -> length (embed cov) = (2 * (length cov - 1))%nat.
Proof. intros H. unfold embed. rewrite app_length, rev_length, removelast_length. destruct cov; cbn [tl length] in *; lia. Qed.
Lemma embed_nth cov m : (2 <= length cov)%nat -> (m < 2 * (length cov - 1))%nat ->
  nth m (embed cov) 0 = emb (length cov - 1) (fun i => nth i cov 0) m.
Proof.
  intros H Hm. unfold embed, emb. destruct (Nat.leb_spec m (length cov - 1)) as [L|L].
  - apply app_nth1. lia.
  - destruct cov as [|c0 cov]; [cbn in H; lia|]. cbn [tl length] in *. rewrite app_nth2 by (cbn; lia).
    cbn [length]. rewrite rev_nth by (rewrite removelast_length; lia). rewrite removelast_length, nth_removelast by lia.
    replace (2 * (S (length cov) - 1) - m)%nat with (S (length cov - 1 - S (m - S (length cov))))%nat by lia. reflexivity.
Qed.
Lemma emb_sym n c m : (1 <= m)%nat -> (m < 2 * n)%nat -> emb n c (2 * n - m) = emb n c m.
Proof.
  intros H1 H2. unfold emb. destruct (Nat.leb_spec (2 * n - m) n), (Nat.leb_spec m n); f_equal; lia.
Qed.
Lemma ang_reflect n m k : (1 <= n)%nat -> (m <= n)%nat -> cos (ang n (Z.of_nat (n - m)) k) = cos (ang n (Z.of_nat m) k) /\ sin (ang n (Z.of_nat (n - m)) k) = - sin (ang n (Z.of_nat m) k).
Proof.
  intros Hn Hm. rewrite Nat2Z.inj_sub by trivial. replace (Z.of_nat n - Z.of_nat m)%Z with (- Z.of_nat m + Z.of_nat n)%Z by ring.
  destruct (ang_period n (- Z.of_nat m) k Hn) as [-> ->]. rewrite ang_neg, cos_neg, sin_neg. auto.
Qed.
(** the imaginary parts of the eigenvalues vanish *)
Lemma emb_sin_zero n c k : (1 <= n)%nat -> sumn (2 * n) (fun m => emb n c m * sin (ang (2 * n) (Z.of_nat m) k)) = 0.
Proof.
  intros Hn. set (f := fun m => emb n c m * sin (ang (2 * n) (Z.of_nat m) k)).
  assert (F0 : f 0%nat = 0). { unfold f, ang. cbn [Z.of_nat]. rewrite Rmult_0_r. unfold Rdiv. rewrite Rmult_0_l, sin_0. ring. }
  assert (S1 : sumn (2 * n) f = sumn (2 * n - 1) (fun i => f (S i))).
  { replace (2 * n)%nat with (S (2 * n - 1)) at 1 by lia. rewrite sumn_S_first, F0. ring. }
  assert (S2 : sumn (2 * n - 1) (fun i => f (S i)) = - sumn (2 * n - 1) (fun i => f (S i))).
  { rewrite sumn_rev at 1. rewrite <- sumn_opp. apply sumn_ext. intros i Hi. unfold f.
    replace (S (2 * n - 1 - 1 - i)) with (2 * n - S i)%nat by lia. rewrite emb_sym by lia.
    destruct (ang_reflect (2 * n) (S i) k) as [_ ->]; [lia|lia|]. ring. }
  rewrite S1. lra.
Qed.
Lemma eig_inversion n c a : (1 <= n)%nat -> (a < 2 * n)%nat ->
  sumn (2 * n) (fun k => eig n c k * cos (ang (2 * n) (Z.of_nat a) k)) = INR (2 * n) * emb n c a.
Proof.
  intros Hn Ha. rewrite <- (dft_inversion (2 * n) (emb n c) a Ha). apply sumn_ext. intros k _.
  rewrite emb_sin_zero by trivial. fold (eig n c k). ring.
Qed.

(** the square root of a real eigenvalue *)
Lemma csqrt_real x : csqrt (x, 0) = (sqrt ((Rabs x + x) / 2), sqrt ((Rabs x - x) / 2)).
Proof.
  unfold csqrt. replace (x ^ 2 + 0 ^ 2) with (Rsqr x) by (unfold Rsqr; ring). rewrite sqrt_Rsqr_abs.
  destruct (Rle_dec 0 0) as [_|n]; [|lra]. now rewrite Rmult_1_l.
Qed.
Lemma csqrt_real_sq x : sqrt ((Rabs x + x) / 2) * sqrt ((Rabs x + x) / 2) + sqrt ((Rabs x - x) / 2) * sqrt ((Rabs x - x) / 2) = Rabs x.
Proof.
  assert (A := Rle_abs x). assert (B := Rle_abs (- x)). rewrite Rabs_Ropp in B.
  rewrite !sqrt_sqrt by lra. lra.
Qed.

Lemma map2_cmul_nth (x y : list C) i : length x = length y -> (i < length x)%nat ->
  nth i (map2 cmul x y) (0, 0) = cmul (nth i x (0, 0)) (nth i y (0, 0)).
Proof.
  revert y i. induction x as [|a x IH]; intros [|b y] i K Hi; try discriminate; [cbn in Hi; lia|].
  destruct i; [reflexivity|]. rewrite map2_cons. cbn [nth]. apply IH; [now injection K|cbn in Hi; lia].
Qed.
Section Cme.
Variables (cov : list R) (N : nat).
Hypothesis HN : (2 <= N)%nat.
Hypothesis Hc : length cov = N.
Let n := (N - 1)%nat.
Let M := (2 * n)%nat.
Let c := fun i => nth i cov 0.
Lemma fft_embed : fft (map toC (embed cov)) = Ok (map (fun k => (eig n c k, 0)) (seq 0 M)).
Proof.
  assert (L : length (map toC (embed cov)) = M) by (rewrite map_length, embed_length by lia; unfold M, n; lia).
  rewrite fft_eq by (rewrite L; unfold M, n; lia). rewrite L. f_equal. apply map_ext. intros k.
  assert (T : forall m, (m < M)%nat -> nth m (map toC (embed cov)) (0, 0) = (emb n c m, 0)).
  { intros m Hm. change (0, 0) with (toC 0) at 1. rewrite map_nth. unfold toC. rewrite embed_nth by (try lia; unfold M, n in Hm; lia).
    unfold n, c. now rewrite Hc. }
  f_equal.
  - unfold eig. fold M. apply sumn_ext. intros m Hm. rewrite T by trivial. cbn [fst snd]. ring.
  - assert (Z0 := emb_sin_zero n c k ltac:(unfold n; lia)). fold M in Z0. apply (f_equal Ropp) in Z0.
    rewrite <- sumn_opp, Ropp_0 in Z0. etransitivity; [|exact Z0]. apply sumn_ext. intros m Hm. rewrite T by trivial. cbn [fst snd]. ring.
Qed.
(** the coefficients of the noise in sample a *)
Let p k := sqrt ((Rabs (/ INR M * eig n c k) + / INR M * eig n c k) / 2).
Let q k := sqrt ((Rabs (/ INR M * eig n c k) - / INR M * eig n c k) / 2).
Let cA a k := p k * cos (ang M (Z.of_nat k) a) + q k * sin (ang M (Z.of_nat k) a).
Let cB a k := p k * sin (ang M (Z.of_nat k) a) - q k * cos (ang M (Z.of_nat k) a).
Definition cme_coef (a i : nat) : R := if Nat.ltb i M then cA a i else cB a (i - M).
Definition cme_noise (z : list (list C)) (r i : nat) : R :=
  if Nat.ltb i M then fst (entry (0, 0) z r i) else snd (entry (0, 0) z r (i - M)).
Definition cme_val (z : list (list C)) (r a : nat) : R := sumn (2 * M) (fun i => cme_coef a i * cme_noise z r i).
Definition cme_warned : bool := existsb (fun k => if Rlt_dec (eig n c k) 0 then true else false) (seq 0 M).

Lemma cme_eq R (z : list (list C)) : shaped R M z ->
  gaussian_cme cov N z = Ok (map (fun r => map (cme_val z r) (seq 0 N)) (seq 0 R), cme_warned).
Proof.
  intros [L F]. unfold gaussian_cme. rewrite fft_embed. cbn [bind]. fold M.
  assert (HM : (1 <= M)%nat) by (unfold M, n; lia).
  replace (2 * N - 2)%nat with M by (unfold M, n; lia). destruct (Nat.eqb_spec M 0) as [e|_]; [lia|].
  rewrite (mapM_map_ok _ (fun col => map (fun k =>
     (sumn M (fun i => fst (nth i col (0, 0)) * cA k i + snd (nth i col (0, 0)) * cB k i),
      snd (dft_at (-1) (map2 cmul col (map (fun l => csqrt (cscal (/ INR M) l)) (map (fun k => (eig n c k, 0)) (seq 0 M)))) k))) (seq 0 M))).
  2:{ intros col Hcol. rewrite Forall_forall in F. specialize (F col Hcol).
      unfold bcast_cmul. rewrite !map_length, seq_length, F, Nat.eqb_refl. cbn [bind].
      set (s := map (fun l => csqrt (cscal (/ INR M) l)) (map (fun k => (eig n c k, 0)) (seq 0 M))).
      assert (Ls : length s = M) by (unfold s; now rewrite !map_length, seq_length).
      assert (Lp : length (map2 cmul col s) = M) by (rewrite map2_length, F, Ls; lia).
      assert (T : forall i, (i < M)%nat -> nth i (map2 cmul col s) (0, 0) = cmul (nth i col (0, 0)) (p i, q i)).
      { intros i Hi. assert (Es : nth i s (0, 0) = (p i, q i)).
        { unfold s. rewrite map_map. rewrite (nth_indep _ (0, 0) (csqrt (cscal (/ INR M) (eig n c 0, 0)))) by (rewrite map_length, seq_length; lia).
          rewrite (map_nth (fun k => csqrt (cscal (/ INR M) (eig n c k, 0)))). rewrite seq_nth by trivial. cbn [Nat.add].
          unfold cscal. cbn [fst snd]. rewrite Rmult_0_r. apply csqrt_real. }
        rewrite <- Es. apply map2_cmul_nth; [exact (eq_trans F (eq_sym Ls))|]. rewrite F. exact Hi. }
      rewrite fft_eq by (rewrite Lp; lia). rewrite Lp. f_equal. apply map_ext. intros k. f_equal.
      - apply sumn_ext. intros i Hi. rewrite T by trivial. unfold cmul, cA, cB. cbn [fst snd]. ring.
      - destruct (dft_at_eq (-1) (map2 cmul col s) k) as [E|[_ E]]; [|lra]. rewrite E. cbn [snd]. rewrite Lp. apply sumn_ext. intros; ring. }
  cbn [bind]. f_equal. f_equal.
  - rewrite map_map. rewrite <- L. clear L. assert (G : z = map (fun r => nth r z []) (seq 0 (length z))).
    { clear. rewrite <- (map_id z) at 1. rewrite <- (firstn_all z) at 1. rewrite firstn_all, map_id.
      apply nth_ext with (d := []) (d' := []); [now rewrite map_length, seq_length|]. intros i Hi.
      rewrite (nth_indep (map _ _) [] (nth 0 z [])) by (now rewrite map_length, seq_length).
      rewrite (map_nth (fun r => nth r z [])), seq_nth by trivial. reflexivity. }
    rewrite G at 1. rewrite map_map. apply map_ext_in. intros r Hr. apply in_seq in Hr.
    rewrite map_map. cbn [fst]. rewrite firstn_map. replace (firstn N (seq 0 M)) with (seq 0 N).
    2:{ replace M with (N + (M - N))%nat by (unfold M, n; lia). rewrite seq_app, firstn_app, seq_length, Nat.sub_diag, firstn_O, app_nil_r.
        rewrite firstn_all2; [reflexivity|rewrite seq_length; lia]. }
    apply map_ext. intros a. unfold cme_val. replace (2 * M)%nat with (M + M)%nat by lia. rewrite sumn_app, <- sumn_plus.
    apply sumn_ext. intros i Hi. unfold cme_coef, cme_noise, entry.
    destruct (Nat.ltb_spec i M); [|lia]. destruct (Nat.ltb_spec (M + i) M); [lia|].
    replace (M + i - M)%nat with i by lia. unfold C. ring.
  - unfold cme_warned. clear. induction (seq 0 M) as [|k l IH]; [reflexivity|]. cbn [map existsb fst]. now rewrite IH.
Qed.

Lemma cme_coef_prod a b : sumn (2 * M) (fun i => cme_coef a i * cme_coef b i) =
  / INR M * sumn M (fun k => Rabs (eig n c k) * cos (ang M (Z.of_nat a - Z.of_nat b) k)).
Proof.
  replace (2 * M)%nat with (M + M)%nat by lia. rewrite sumn_app, <- sumn_plus, <- sumn_scal. apply sumn_ext. intros k Hk.
  unfold cme_coef. destruct (Nat.ltb_spec k M); [|lia]. destruct (Nat.ltb_spec (M + k) M); [lia|].
  replace (M + k - M)%nat with k by lia. unfold cA, cB. rewrite ang_minus, cos_minus, !(ang_sym M k).
  set (ca := cos (ang M (Z.of_nat a) k)). set (sa := sin (ang M (Z.of_nat a) k)).
  set (cb := cos (ang M (Z.of_nat b) k)). set (sb := sin (ang M (Z.of_nat b) k)).
  transitivity ((p k * p k + q k * q k) * (ca * cb + sa * sb)); [ring|].
  unfold p, q. rewrite csqrt_real_sq, Rabs_mult.
  rewrite (Rabs_pos_eq (/ INR M)); [ring|]. left. apply Rinv_0_lt_compat, lt_0_INR. unfold M, n. lia.
Qed.
(** with non-negative eigenvalues it is the covariance asked for *)
Lemma cme_exact a b : (a < N)%nat -> (b < N)%nat -> (forall k, (k < M)%nat -> 0 <= eig n c k) ->
  / INR M * sumn M (fun k => Rabs (eig n c k) * cos (ang M (Z.of_nat a - Z.of_nat b) k)) = stationary cov a b.
Proof.
  intros Ha Hb He. set (d := (Nat.max a b - Nat.min a b)%nat).
  assert (Hd : (d <= n)%nat) by (unfold d, n; lia).
  rewrite (sumn_ext M _ (fun k => eig n c k * cos (ang M (Z.of_nat d) k))).
  2:{ intros k Hk. rewrite Rabs_pos_eq by auto. f_equal. destruct (Nat.le_ge_cases a b) as [L|L].
      - replace (Z.of_nat a - Z.of_nat b)%Z with (- Z.of_nat d)%Z by (unfold d; lia). now rewrite ang_neg, cos_neg.
      - f_equal. f_equal. unfold d. lia. }
  unfold M at 2. rewrite eig_inversion by (unfold n in *; lia). fold M. unfold emb. destruct (Nat.leb_spec d n); [|lia].
  unfold stationary. fold d. fold (c d). field. apply not_0_INR. unfold M, n. lia.
Qed.
Lemma cme_warned_iff : cme_warned = true <-> exists k, (k < M)%nat /\ eig n c k < 0.
Proof.
  unfold cme_warned. rewrite existsb_exists. split.
  - intros [k [Hk H]]. apply in_seq in Hk. exists k. split; [lia|]. destruct (Rlt_dec (eig n c k) 0); [trivial|discriminate].
  - intros [k [Hk H]]. exists k. split; [apply in_seq; lia|]. destruct (Rlt_dec (eig n c k) 0); [trivial|contradiction].
Qed.

Section WithE.
Context {W : Type} (P : expectation W) (R : nat) (Z : W -> list (list C)).
Hypothesis HZ : white_complex P R M Z.
Lemma noise_mean r i : (r < R)%nat -> (i < 2 * M)%nat -> integrable P (fun w => cme_noise (Z w) r i) /\ E P (fun w => cme_noise (Z w) r i) = 0.
Proof.
  intros Hr Hi. destruct HZ as [_ [H _]]. unfold cme_noise. destruct (Nat.ltb_spec i M).
  - apply (H (r, i, false)). auto.
  - apply (H (r, (i - M)%nat, true)). cbn. split; [trivial|lia].
Qed.
Lemma noise_prod r s i j : (r < R)%nat -> (s < R)%nat -> (i < 2 * M)%nat -> (j < 2 * M)%nat ->
  integrable P (fun w => cme_noise (Z w) r i * cme_noise (Z w) s j) /\
  E P (fun w => cme_noise (Z w) r i * cme_noise (Z w) s j) = if Nat.eq_dec r s then if Nat.eq_dec i j then 1 else 0 else 0.
Proof.
  intros Hr Hs Hi Hj. destruct HZ as [_ [_ H]].
  set (ix := fun (r i : nat) => if Nat.ltb i M then ((r, i), false) else ((r, (i - M)%nat), true)).
  assert (Hx : forall r i, (r < R)%nat -> (i < 2 * M)%nat -> (fst (fst (ix r i)) < R)%nat /\ (snd (fst (ix r i)) < M)%nat).
  { intros r' i' A B. unfold ix. destruct (Nat.ltb_spec i' M); cbn; lia. }
  assert (Ex : forall r i w, cme_noise (Z w) r i = let c := entry (0, 0) (Z w) (fst (fst (ix r i))) (snd (fst (ix r i))) in if snd (ix r i) then snd c else fst c).
  { intros r' i' w. unfold cme_noise, ix. destruct (Nat.ltb_spec i' M); reflexivity. }
  destruct (H (ix r i) (ix s j) (Hx r i Hr Hi) (Hx s j Hs Hj)) as [I [E1 E0]].
  assert (X : forall w, (let c := entry (0, 0) (Z w) (fst (fst (ix r i))) (snd (fst (ix r i))) in if snd (ix r i) then snd c else fst c) *
     (let c := entry (0, 0) (Z w) (fst (fst (ix s j))) (snd (fst (ix s j))) in if snd (ix s j) then snd c else fst c) = cme_noise (Z w) r i * cme_noise (Z w) s j).
  { intros w. now rewrite !Ex. }
  split; [exact (int_ext W P _ _ X I)|]. rewrite <- (E_ext W P _ _ X).
  destruct (Nat.eq_dec r s) as [e|e]; [destruct (Nat.eq_dec i j) as [f|f]|].
  - apply E1. now subst.
  - apply E0. unfold ix. destruct (Nat.ltb_spec i M), (Nat.ltb_spec j M); intros Q; inversion Q; lia.
  - apply E0. unfold ix. destruct (Nat.ltb_spec i M), (Nat.ltb_spec j M); intros Q; inversion Q; lia.
Qed.
Lemma cme_covariance : has_covariance P R N (fun w => map (fun r => map (cme_val (Z w) r) (seq 0 N)) (seq 0 R))
  (fun a b => / INR M * sumn M (fun k => Rabs (eig n c k) * cos (ang M (Z.of_nat a - Z.of_nat b) k))).
Proof.
  assert (X : forall r a w, (r < R)%nat -> (a < N)%nat -> entry 0 (map (fun r => map (cme_val (Z w) r) (seq 0 N)) (seq 0 R)) r a = cme_val (Z w) r a).
  { intros r a w Hr Ha. unfold entry. rewrite (nth_indep _ [] (map (cme_val (Z w) 0) (seq 0 N))) by (now rewrite map_length, seq_length).
    rewrite (map_nth (fun r => map (cme_val (Z w) r) (seq 0 N))), seq_nth by trivial. cbn [Nat.add].
    rewrite (nth_indep _ 0 (cme_val (Z w) r 0)) by (now rewrite map_length, seq_length). now rewrite map_nth, seq_nth. }
  refine (conj _ (conj _ _)).
  - intros w. split; [now rewrite map_length, seq_length|]. apply Forall_forall. intros x Hx. apply in_map_iff in Hx as [r [<- _]].
    now rewrite map_length, seq_length.
  - intros r a Hr Ha. destruct (lin_mean P (2 * M) (cme_coef a) (fun i w => cme_noise (Z w) r i) (fun i Hi => noise_mean r i Hr Hi)) as [I0 E0].
    split.
    + apply (int_ext W P (fun w => cme_val (Z w) r a)); [intros w; now rewrite X|exact I0].
    + etransitivity; [|exact E0]. apply E_ext. intros w. now rewrite X.
  - intros r s a b Hr Hs Ha Hb. split.
    { apply (int_ext W P (fun w => cme_val (Z w) r a * cme_val (Z w) s b)); [intros w; now rewrite !X|].
      apply (lin_prod P (2 * M) (cme_coef a) (cme_coef b) (fun i w => cme_noise (Z w) r i) (fun i w => cme_noise (Z w) s i)
        (fun i j => if Nat.eq_dec r s then if Nat.eq_dec i j then 1 else 0 else 0) (fun i j Hi Hj => noise_prod r s i j Hr Hs Hi Hj)). }
    rewrite <- cme_coef_prod.
    rewrite <- (lin_cov P (2 * M) (cme_coef a) (cme_coef b) (fun r i w => cme_noise (Z w) r i) r s
      (fun i Hi => noise_mean r i Hr Hi) (fun i Hi => noise_mean s i Hs Hi) (fun i j Hi Hj => noise_prod r s i j Hr Hs Hi Hj)).
    unfold Cov. f_equal; [|f_equal]; [| |]; try (apply E_ext; intros w; now rewrite !X).
Qed.
End WithE.
End Cme.
