(** * Cholesky factors; Toeplitz matrices with a positive circulant spectrum *)
From Coq Require Import Reals List ZArith Bool Lia Lra.
From Verif Require Import XReal PyBase ModelSimul Spec SpecSimul LXReal LBase LDft LSimul LCirc LFgn LFgnCov LBivariate.
Import ListNotations.
Open Scope R_scope.
Local Notation length := List.length.

Definition quad n (A : mat) (x : nat -> R) : R := sumn n (fun i => sumn n (fun j => x i * A i j * x j)).
Lemma pd_quad n A : positive_definite n A <-> forall x, (exists i, (i < n)%nat /\ x i <> 0) -> 0 < quad n A x.
Proof. reflexivity. Qed.

(** ** factorisation *)
Lemma cholesky_spec n : forall (A : mat) u, (forall i j, (i < n)%nat -> (j < n)%nat -> A i j = A j i) -> cholesky n A = Ok u ->
  (forall i j, (i < n)%nat -> (j < n)%nat -> sumn n (fun k => u k i * u k j) = A i j) /\
  (forall i j, (j < i)%nat -> (i < n)%nat -> u i j = 0) /\ (forall i, (i < n)%nat -> 0 < u i i).
Proof.
  induction n as [|n IH]; intros A u Sy Hu.
  - split; [|split]; intros; lia.
  - cbn [cholesky] in Hu. destruct (Rle_dec (A 0%nat 0%nat) 0) as [|Np]; [discriminate|]. set (d := sqrt (A 0%nat 0%nat)) in *.
    assert (dp : 0 < d) by (apply sqrt_lt_R0; lra). assert (dd : d * d = A 0%nat 0%nat) by (apply sqrt_sqrt; lra).
    destruct (cholesky n _) as [v|] eqn:Ev; cbn [bind] in Hu; [|discriminate]. injection Hu as <-.
    destruct (IH (fun i j => A (S i) (S j) - A 0%nat (S i) / d * (A 0%nat (S j) / d)) v) as [P1 [P2 P3]];
      [intros i j Hi Hj; rewrite (Sy (S i) (S j)) by lia; ring|exact Ev|]. cbv beta in P1.
    refine (conj _ (conj _ _)).
    + intros i j Hi Hj. rewrite sumn_S_first. destruct i as [|i], j as [|j].
      * rewrite sumn_zero by (intros; ring). rewrite dd. ring.
      * rewrite sumn_zero by (intros; ring). field. lra.
      * rewrite sumn_zero by (intros; ring). rewrite (Sy (S i) 0%nat) by lia. field. lra.
      * rewrite P1 by lia. ring.
    + intros [|i] [|j] H1 H2; try lia; [reflexivity|]. apply P2; lia.
    + intros [|i] Hi; [exact dp|]. apply P3. lia.
Qed.

(** ** success exactly for positive definite matrices *)
Lemma quad_S n A x : (forall i j, (i < S n)%nat -> (j < S n)%nat -> A i j = A j i) ->
  quad (S n) A x = A 0%nat 0%nat * x 0%nat ^ 2 + 2 * x 0%nat * sumn n (fun j => A 0%nat (S j) * x (S j)) + quad n (fun i j => A (S i) (S j)) (fun i => x (S i)).
Proof.
  intros Sy. unfold quad. rewrite sumn_S_first, sumn_S_first.
  rewrite (sumn_ext n (fun i => sumn (S n) (fun j => x (S i) * A (S i) j * x j)) (fun i => x (S i) * A (S i) 0%nat * x 0%nat + sumn n (fun j => x (S i) * A (S i) (S j) * x (S j)))).
  2:{ intros i _. apply sumn_S_first. }
  rewrite sumn_plus.
  rewrite (sumn_ext n (fun i => x (S i) * A (S i) 0%nat * x 0%nat) (fun j => x 0%nat * (A 0%nat (S j) * x (S j)))).
  2:{ intros i Hi. rewrite (Sy (S i) 0%nat) by lia. ring. }
  rewrite (sumn_ext n (fun j => x 0%nat * A 0%nat (S j) * x (S j)) (fun j => x 0%nat * (A 0%nat (S j) * x (S j)))) by (intros; ring).
  rewrite !sumn_scal. ring.
Qed.
Lemma quad_schur n A d x : d <> 0 -> quad n (fun i j => A (S i) (S j) - A 0%nat (S i) / d * (A 0%nat (S j) / d)) x =
  quad n (fun i j => A (S i) (S j)) x - (sumn n (fun j => A 0%nat (S j) * x j) / d) ^ 2.
Proof.
  intros Hd. unfold quad.
  transitivity (sumn n (fun i => sumn n (fun j => x i * A (S i) (S j) * x j)) - sumn n (fun i => sumn n (fun j => (A 0%nat (S i) * x i) * (A 0%nat (S j) * x j) * (/ d * / d)))).
  - rewrite <- sumn_minus. apply sumn_ext. intros i _. rewrite <- sumn_minus. apply sumn_ext. intros j _. field. trivial.
  - f_equal. rewrite (sumn_ext n _ (fun i => (A 0%nat (S i) * x i) * (sumn n (fun j => A 0%nat (S j) * x j) * (/ d * / d)))).
    + rewrite sumn_scal_r. field. trivial.
    + intros i _. rewrite <- sumn_scal_r, <- sumn_scal. apply sumn_ext. intros; ring.
Qed.
Lemma cholesky_pd n : forall (A : mat), (forall i j, (i < n)%nat -> (j < n)%nat -> A i j = A j i) ->
  (positive_definite n A <-> exists u, cholesky n A = Ok u) /\ (~ positive_definite n A -> cholesky n A = Err LinAlgError).
Proof.
  induction n as [|n IH]; intros A Sy.
  - split; [split; [intros _; eexists; reflexivity|]|].
    + intros _ x [i [Hi _]]. lia.
    + intros N. exfalso. apply N. intros x [i [Hi _]]. lia.
  - cbn [cholesky]. destruct (Rle_dec (A 0%nat 0%nat) 0) as [Np|Pp].
    + split; [|reflexivity]. split; [|intros [u K]; discriminate]. intros PD. exfalso.
      assert (Q := PD (fun i => match i with O => 1 | _ => 0 end) (ex_intro _ 0%nat (conj (Nat.lt_0_succ n) R1_neq_R0))).
      change (0 < quad (S n) A (fun i => match i with O => 1 | _ => 0 end)) in Q. rewrite quad_S in Q by trivial.
      rewrite sumn_zero in Q by (intros; ring). unfold quad in Q. rewrite sumn_zero in Q; [lra|]. intros. apply sumn_zero. intros; ring.
    + set (d := sqrt (A 0%nat 0%nat)). assert (dp : 0 < d) by (apply sqrt_lt_R0; lra). assert (dd : d * d = A 0%nat 0%nat) by (apply sqrt_sqrt; lra).
      set (B := fun i j => A (S i) (S j) - A 0%nat (S i) / d * (A 0%nat (S j) / d)).
      destruct (IH B) as [I1 I2].
      { intros i j Hi Hj. unfold B. rewrite (Sy (S i) (S j)) by lia. ring. }
      assert (Eq : positive_definite (S n) A <-> positive_definite n B).
      { rewrite !pd_quad. split; intros PD x [i [Hi Xi]].
        - set (b := sumn n (fun j => A 0%nat (S j) * x j)).
          assert (Q := PD (fun k => match k with O => - b / (d * d) | S k' => x k' end)). cbv beta in Q.
          rewrite quad_S in Q by trivial. cbv beta iota in Q. fold b in Q. change (fun i => x i) with x in Q.
          unfold B. rewrite quad_schur by lra. fold b. assert (Z : 0 < A 0%nat 0%nat * (- b / (d * d)) ^ 2 + 2 * (- b / (d * d)) * b + quad n (fun i j => A (S i) (S j)) x).
          { apply Q. exists (S i). split; [lia|exact Xi]. }
          replace (A 0%nat 0%nat * (- b / (d * d)) ^ 2 + 2 * (- b / (d * d)) * b) with (- (b / d) ^ 2) in Z by (rewrite <- dd; field; lra). lra.
        - rewrite quad_S by trivial. set (b := sumn n (fun j => A 0%nat (S j) * x (S j))).
          assert (S1 := quad_schur n A d (fun i => x (S i)) ltac:(lra)). cbv beta in S1. fold b in S1. fold B in S1.
          replace (A 0%nat 0%nat * x 0%nat ^ 2 + 2 * x 0%nat * b + quad n (fun i j => A (S i) (S j)) (fun i => x (S i)))
            with ((d * x 0%nat + b / d) ^ 2 + quad n B (fun i => x (S i))).
          2:{ rewrite S1, <- dd. field. lra. }
          destruct (Classical_Prop.classic (exists k, (k < n)%nat /\ x (S k) <> 0)) as [K|K].
          + assert (Q := PD (fun i => x (S i)) K). assert (0 <= (d * x 0%nat + b / d) ^ 2) by apply pow2_ge_0. lra.
          + assert (Z : forall k, (k < n)%nat -> x (S k) = 0). { intros k Hk. destruct (Req_EM_T (x (S k)) 0); [trivial|]. exfalso. apply K. eauto. }
            assert (i = 0%nat) as ->. { destruct i; [reflexivity|]. exfalso. apply Xi, Z. lia. }
            assert (b = 0) as ->. { unfold b. apply sumn_zero. intros k Hk. rewrite (Z k Hk). ring. }
            replace (quad n B (fun i => x (S i))) with 0.
            * replace (d * x 0%nat + 0 / d) with (d * x 0%nat) by (field; lra). assert (0 < (d * x 0%nat) ^ 2); [|lra].
              assert (Nz : d * x 0%nat <> 0) by (apply Rmult_integral_contrapositive_currified; [lra|exact Xi]).
              assert (G := Rsqr_pos_lt _ Nz). unfold Rsqr in G. cbn [pow]. lra.
            * symmetry. unfold quad. apply sumn_zero. intros k Hk. apply sumn_zero. intros l Hl. rewrite (Z k Hk). ring. }
      split.
      * rewrite Eq, I1. split; intros [u K].
        -- rewrite K. cbn [bind]. eexists; reflexivity.
        -- destruct (cholesky n B) as [v|] eqn:Ev; [eexists; reflexivity|discriminate].
      * intros N. rewrite Eq in N. now rewrite (I2 N).
Qed.

(** ** Toeplitz matrices *)
Lemma toeplitz_sym c i j : toeplitz c i j = toeplitz c j i.
Proof. unfold toeplitz. now rewrite Nat.max_comm, Nat.min_comm. Qed.
Lemma toeplitz_stationary c : toeplitz c = stationary c. Proof. reflexivity. Qed.
(** a positive circulant spectrum *)
Lemma circulant_quad n c (x : nat -> R) : (1 <= n)%nat ->
  sumn (n + 1) (fun a => sumn (n + 1) (fun b => x a * c (Nat.max a b - Nat.min a b)%nat * x b)) =
  / INR (2 * n) * sumn (2 * n) (fun k => eig n c k * (sumn (n + 1) (fun a => x a * cos (ang (2 * n) (Z.of_nat a) k)) ^ 2 + sumn (n + 1) (fun a => x a * sin (ang (2 * n) (Z.of_nat a) k)) ^ 2)).
Proof.
  intros Hn. set (M := (2 * n)%nat).
  assert (M0 : INR M <> 0) by (apply not_0_INR; unfold M; lia).
  assert (Ent : forall a b, (a < n + 1)%nat -> (b < n + 1)%nat -> c (Nat.max a b - Nat.min a b)%nat = / INR M * sumn M (fun k => eig n c k * cos (ang M (Z.of_nat a - Z.of_nat b) k))).
  { intros a b Ha Hb. set (e := (Nat.max a b - Nat.min a b)%nat). assert (He : (e <= n)%nat) by (unfold e; lia).
    rewrite (sumn_ext M _ (fun k => eig n c k * cos (ang M (Z.of_nat e) k))).
    - unfold M at 2. rewrite eig_inversion by lia. fold M. unfold emb. destruct (Nat.leb_spec e n); [|lia]. field. exact M0.
    - intros k _. f_equal. destruct (Nat.le_ge_cases a b) as [L|L].
      + replace (Z.of_nat a - Z.of_nat b)%Z with (- Z.of_nat e)%Z by (unfold e; lia). now rewrite ang_neg, cos_neg.
      + f_equal. f_equal. unfold e. lia. }
  rewrite (sumn_ext (n + 1) _ (fun a => sumn (n + 1) (fun b => sumn M (fun k => / INR M * (eig n c k * (x a * cos (ang M (Z.of_nat a) k) * (x b * cos (ang M (Z.of_nat b) k)) + x a * sin (ang M (Z.of_nat a) k) * (x b * sin (ang M (Z.of_nat b) k)))))))).
  2:{ intros a Ha. apply sumn_ext. intros b Hb. rewrite Ent by trivial. rewrite (Rmult_comm (x a)), Rmult_assoc, <- sumn_scal, <- sumn_scal_r. apply sumn_ext. intros k _. rewrite ang_minus, cos_minus. ring. }
  rewrite (sumn_ext (n + 1) _ (fun a => sumn M (fun k => sumn (n + 1) (fun b => / INR M * (eig n c k * (x a * cos (ang M (Z.of_nat a) k) * (x b * cos (ang M (Z.of_nat b) k)) + x a * sin (ang M (Z.of_nat a) k) * (x b * sin (ang M (Z.of_nat b) k)))))))) by (intros; apply sumn_swap).
  rewrite sumn_swap. rewrite <- sumn_scal. apply sumn_ext. intros k _.
  set (C1 := sumn (n + 1) (fun a => x a * cos (ang M (Z.of_nat a) k))). set (S1 := sumn (n + 1) (fun a => x a * sin (ang M (Z.of_nat a) k))).
  transitivity (/ INR M * (eig n c k * (C1 * C1 + S1 * S1))); [|ring].
  unfold C1 at 1, S1 at 1. rewrite <- !sumn_scal_r, <- sumn_plus, <- !sumn_scal. apply sumn_ext. intros a _.
  unfold C1, S1. rewrite <- !sumn_scal, <- sumn_plus, <- !sumn_scal. apply sumn_ext. intros b _. ring.
Qed.
Lemma circulant_pd n c : (1 <= n)%nat -> (forall k, 0 < eig n c k) -> positive_definite (n + 1) (fun a b => c (Nat.max a b - Nat.min a b)%nat).
Proof.
  intros Hn He. rewrite pd_quad. intros x [i [Hi Xi]]. unfold quad. rewrite circulant_quad by trivial.
  set (M := (2 * n)%nat). assert (M0 : 0 < INR M) by (apply lt_0_INR; unfold M; lia).
  apply Rmult_lt_0_compat; [now apply Rinv_0_lt_compat|].
  set (S2 := fun k => sumn (n + 1) (fun a => x a * cos (ang M (Z.of_nat a) k)) ^ 2 + sumn (n + 1) (fun a => x a * sin (ang M (Z.of_nat a) k)) ^ 2).
  assert (Pk : forall k, 0 <= S2 k). { intros k. unfold S2. assert (A := pow2_ge_0 (sumn (n + 1) (fun a => x a * cos (ang M (Z.of_nat a) k)))). assert (B := pow2_ge_0 (sumn (n + 1) (fun a => x a * sin (ang M (Z.of_nat a) k)))). lra. }
  (* some frequency is excited *)
  assert (Ex : exists k, (k < M)%nat /\ S2 k <> 0).
  { destruct (Classical_Prop.classic (exists k, (k < M)%nat /\ S2 k <> 0)) as [|No]; [trivial|exfalso].
    assert (Z : forall k, (k < M)%nat -> sumn (n + 1) (fun a => x a * cos (ang M (Z.of_nat a) k)) = 0 /\ sumn (n + 1) (fun a => x a * sin (ang M (Z.of_nat a) k)) = 0).
    { intros k Hk. destruct (Req_EM_T (S2 k) 0) as [E|E]; [|exfalso; apply No; eauto]. unfold S2 in E.
      assert (A := pow2_ge_0 (sumn (n + 1) (fun a => x a * cos (ang M (Z.of_nat a) k)))). assert (B := pow2_ge_0 (sumn (n + 1) (fun a => x a * sin (ang M (Z.of_nat a) k)))).
      assert (A0 : sumn (n + 1) (fun a => x a * cos (ang M (Z.of_nat a) k)) ^ 2 = 0) by lra. assert (B0 : sumn (n + 1) (fun a => x a * sin (ang M (Z.of_nat a) k)) ^ 2 = 0) by lra.
      split; [clear -A0; revert A0|clear -B0; revert B0]; generalize (sumn (n + 1) (fun a => x a * cos (ang M (Z.of_nat a) k))); generalize (sumn (n + 1) (fun a => x a * sin (ang M (Z.of_nat a) k))); intros; nra. }
    apply Xi. assert (Inv := dft_inversion M (fun j => if Nat.ltb j (n + 1) then x j else 0) i).
    assert (iM : (i < M)%nat). { unfold M. destruct (Nat.eq_dec n 1); [|lia]. lia. }
    specialize (Inv iM). cbv beta in Inv. rewrite (proj2 (Nat.ltb_lt i (n + 1)) Hi) in Inv. rewrite sumn_zero in Inv.
    - apply Rmult_eq_reg_l with (INR M); [|lra]. rewrite <- Inv. ring.
    - intros k Hk. destruct (Z k Hk) as [Zc Zs].
      assert (Cut : forall f, sumn M (fun j => (if Nat.ltb j (n + 1) then x j else 0) * f j) = sumn (n + 1) (fun j => x j * f j)).
      { intros f. replace M with (n + 1 + (M - (n + 1)))%nat by (unfold M; lia). rewrite sumn_app. rewrite (sumn_zero (M - (n + 1))).
        - rewrite Rplus_0_r. apply sumn_ext. intros j Hj. destruct (Nat.ltb_spec j (n + 1)); [reflexivity|lia].
        - intros j _. destruct (Nat.ltb_spec (n + 1 + j) (n + 1)); [lia|ring]. }
      rewrite (Cut (fun j => cos (ang M (Z.of_nat j) k))), (Cut (fun j => sin (ang M (Z.of_nat j) k))), Zc, Zs. ring. }
  destruct Ex as [k [Hk Nz]]. assert (P1 : 0 < S2 k) by (assert (K := Pk k); lra).
  change (0 < sumn M (fun k => eig n c k * S2 k)).
  replace (sumn M) with (sumn (k + S (M - k - 1))) by (f_equal; lia). rewrite sumn_app, sumn_S_first, Nat.add_0_r.
  assert (T1 : 0 <= sumn k (fun k => eig n c k * S2 k)). { apply sumn_nonneg. intros j _. apply Rmult_le_pos; [left; apply He|apply Pk]. }
  assert (T2 : 0 <= sumn (M - k - 1) (fun i0 => eig n c (k + S i0) * S2 (k + S i0)%nat)). { apply sumn_nonneg. intros j _. apply Rmult_le_pos; [left; apply He|apply Pk]. }
  assert (T3 : 0 < eig n c k * S2 k) by (apply Rmult_lt_0_compat; [apply He|trivial]).
  lra.
Qed.

(** ** fractional Gaussian noise is positive definite for 0 < H < 1 *)
Lemma three_two_strict a : 1 <= a -> a < 2 -> 0 < Rpower 3 a - 4 * Rpower 2 a + 7.
Proof.
  intros Ha H2.
  destruct (MVT_cor2 (fun x => 1 * Rpower 3 x + (-4) * Rpower 2 x) (fun x => 1 * (ln 3 * Rpower 3 x) + (-4) * (ln 2 * Rpower 2 x)) a 2 H2) as [c [E1 E2]].
  { intros c _. apply (derivable_pt_lim_plus (fun x => 1 * Rpower 3 x) (fun x => -4 * Rpower 2 x)); apply exp_deriv. }
  assert (N : 1 * (ln 3 * Rpower 3 c) + -4 * (ln 2 * Rpower 2 c) < 0).
  { assert (L2 : 0 < ln 2) by (rewrite <- ln_1; apply ln_increasing; lra).
    assert (L3 : ln 2 < ln 3) by (apply ln_increasing; lra).
    assert (R1 : Rpower 3 c <= 9 / 4 * Rpower 2 c).
    { unfold Rpower. replace (c * ln 3) with (c * (ln 3 - ln 2) + c * ln 2) by ring. rewrite exp_plus. apply Rmult_le_compat_r; [left; apply exp_pos|].
      replace (9 / 4) with (exp (2 * (ln 3 - ln 2))).
      - left. apply exp_increasing. apply Rmult_lt_compat_r; lra.
      - replace (2 * (ln 3 - ln 2)) with (ln (9 / 4)); [apply exp_ln; lra|]. unfold Rdiv. rewrite ln_mult, ln_Rinv by lra.
        replace 9 with (3 * 3) by ring. replace 4 with (2 * 2) by ring. rewrite !ln_mult by lra. ring. }
    assert (R2 : 9 * ln 3 < 16 * ln 2).
    { replace 9 with (INR 9) by (cbn; ring). replace 16 with (INR 16) by (cbn; ring). rewrite <- !ln_pow by lra. apply ln_increasing; lra. }
    assert (R3 : 0 < Rpower 2 c) by apply exp_pos. nra. }
  assert (V : 1 * Rpower 3 2 + -4 * Rpower 2 2 = -7).
  { replace 2 with (INR 2) at 1 3 by (cbn; ring). rewrite !Rpower_pow by lra. cbn. lra. }
  rewrite V in E1. nra.
Qed.
Lemma convex_eig_strict n c k : (1 <= n)%nat -> convex_seq n c -> (n = 1%nat -> c 1%nat < c 0%nat) -> ((2 <= n)%nat -> 0 < c 0%nat - 2 * c 1%nat + c 2%nat) -> 0 < eig n c k.
Proof.
  intros Hn [H0 [H1 H2]] S1 S2. set (e := if Nat.eq_dec n 1 then c 0%nat - c 1%nat else c 0%nat - 2 * c 1%nat + c 2%nat).
  assert (Pe : 0 < e) by (unfold e; destruct (Nat.eq_dec n 1); [assert (K := S1 e0); lra|apply S2; lia]).
  set (c' := fun m => c m - match m with O => e | _ => 0 end).
  assert (Q : eig n c k = e + eig n c' k).
  { rewrite !eig_cos by trivial. unfold c'. destruct n as [|n]; [lia|]. rewrite (sumn_ext (S n - 1) (fun m => (c (S m) - 0) * cos (ang (2 * S n) (Z.of_nat (S m)) k)) (fun m => c (S m) * cos (ang (2 * S n) (Z.of_nat (S m)) k))) by (intros; ring). ring. }
  rewrite Q. assert (0 <= eig n c' k); [|lra]. apply convex_eig; [trivial|]. unfold c', e. refine (conj _ (conj _ _)).
  - destruct n; [lia|]. lra.
  - destruct n as [|[|n]]; [lia| |]; cbn [Nat.sub] in *; [destruct (Nat.eq_dec 1 1); [lra|congruence]|]. lra.
  - intros [|m] Hm; [destruct (Nat.eq_dec n 1); [lia|lra]|]. assert (K := H2 (S m) Hm). lra.
Qed.
Lemma fcor_eig_pos a n k : (1 <= n)%nat -> 0 < a -> a < 2 -> 0 < eig n (fcor a) k.
Proof.
  intros Hn H0 H2. destruct (Rle_lt_dec 1 a) as [H1|H1].
  - apply convex_eig_strict; [trivial|apply fcor_convex; [trivial|trivial|lra]| |].
    + intros _. rewrite fcor_S. cbn [Nat.add fcor]. rewrite g_0, g_1, g_2.
      assert (K : Rpower 2 a < 4). { replace 4 with (Rpower 2 2) by (replace 2 with (INR 2) at 2 by (cbn; ring); rewrite Rpower_pow by lra; ring). apply Rpower_lt; lra. } lra.
    + intros _. rewrite !fcor_S. cbn [Nat.add fcor]. rewrite g_0, g_1, g_2, g_3. assert (K := three_two_strict a H1 H2). lra.
  - set (e := (rpow (INR (n + 1)) a - rpow (INR (n - 1)) a) / 2).
    assert (Pe : 0 < e).
    { unfold e. assert (K : rpow (INR (n - 1)) a < rpow (INR (n + 1)) a); [|lra]. destruct n as [|[|n]]; [lia| |].
      - cbn [Nat.sub INR]. rewrite rpow_0. rewrite rpow_pos by (apply lt_0_INR; lia). apply exp_pos.
      - replace (S (S n) - 1)%nat with (S n) by lia. rewrite !rpow_pos by (apply lt_0_INR; lia). unfold Rpower. apply exp_increasing. apply Rmult_lt_compat_l; [trivial|].
        apply ln_increasing; [apply lt_0_INR; lia|apply lt_INR; lia]. }
    set (c' := fun m => fcor a m - match m with O => e | _ => 0 end).
    assert (Q : eig n (fcor a) k = e + eig n c' k).
    { rewrite !eig_cos by trivial. unfold c'. destruct n as [|n]; [lia|]. rewrite (sumn_ext (S n - 1) (fun m => (fcor a (S m) - 0) * cos (ang (2 * S n) (Z.of_nat (S m)) k)) (fun m => fcor a (S m) * cos (ang (2 * S n) (Z.of_nat (S m)) k))) by (intros; ring). ring. }
    rewrite Q. assert (0 <= eig n c' k); [|lra]. apply negative_eig; [trivial| |].
    + intros [|m] L1 L2; [lia|]. unfold c'. rewrite fcor_S. assert (K := g_concave a m ltac:(lra) ltac:(lra)). lra.
    + unfold c'. destruct n as [|n]; [lia|]. rewrite (sumn_ext (S n - 1) (fun m => fcor a (S m) - 0) (fun m => fcor a (S m))) by (intros; ring). rewrite fcor_sum. replace (S n - 1)%nat with n by lia.
      rewrite fcor_S. cbn [fcor]. unfold e. replace (S n - 1)%nat with n by lia.
      replace (S n + 1)%nat with (n + 2)%nat by lia. lra.
Qed.
Lemma fgn_pd N H s d : (1 <= N)%nat -> 0 < H -> H < 1 -> 0 < d -> s <> 0 -> positive_definite N (toeplitz (fgn_cov N H s d)).
Proof.
  intros HN H0 H1 Hd Hs. assert (Sc : 0 < rpow d (2 * H) * s ^ 2).
  { apply Rmult_lt_0_compat; [rewrite rpow_pos by trivial; apply exp_pos|]. assert (G := Rsqr_pos_lt _ Hs). unfold Rsqr in G. cbn [pow]. lra. }
  destruct (Nat.eq_dec N 1) as [->|N1].
  - rewrite pd_quad. intros x [i [Hi Xi]]. assert (i = 0%nat) as -> by lia. unfold quad. rewrite !sumn_S, !sumn_0. unfold toeplitz. cbn [Nat.max Nat.min Nat.sub].
    rewrite fgn_cov_nth by (trivial; lia). cbn [fcor]. assert (G := Rsqr_pos_lt _ Xi). unfold Rsqr in G. rewrite !Rplus_0_l, Rmult_1_r.
    replace (x 0%nat * (rpow d (2 * H) * s ^ 2) * x 0%nat) with ((rpow d (2 * H) * s ^ 2) * (x 0%nat * x 0%nat)) by ring. now apply Rmult_lt_0_compat.
  - assert (K := circulant_pd (N - 1) (fun i => nth i (fgn_cov N H s d) 0) ltac:(lia)). replace (N - 1 + 1)%nat with N in K by lia. apply K.
    intros k. rewrite fgn_cov_eig by (trivial; (lia || lra)). apply Rmult_lt_0_compat; [trivial|]. apply fcor_eig_pos; [lia|lra|lra].
Qed.
