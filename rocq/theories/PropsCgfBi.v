(** * Property C102, bivariate part: the joint log-cumulants are the partial derivatives of the joint scaling function at (0, 0) *)
From Coq Require Import Reals List ZArith Bool Lra Lia.
From Verif Require Import XReal PyBase ModelUtils ModelMRQ ModelStructure ModelCumulants ModelWavelet ModelMFA ModelBivariate
  Spec SpecMRQ SpecBi LXReal LReg LUtils LBase LEst LMoment LCum LBivariate LCgf PropsEstimators PropsCumulants PropsBivariate PropsBiStructure
  PropsCgf.
Import ListNotations.
Open Scope R_scope.

(** joint exponential moments *)
Definition jem (l : list (R * R)) (a b : nat) (p q : R) : R :=
  mean (map (fun v => fst v ^ a * snd v ^ b * exp (p * fst v + q * snd v)) l).
Lemma deriv_mean {A} (F F' : A -> R -> R) l q : (forall a, In a l -> derivable_pt_lim (F a) q (F' a q)) ->
  derivable_pt_lim (fun q => mean (map (fun a => F a q) l)) q (mean (map (fun a => F' a q) l)).
Proof.
  intros H. unfold mean. rewrite map_length.
  apply deriv_ext with (f := fun q => / INR (length l) * Rsum (map (fun a => F a q) l)).
  { intros t. rewrite map_length. unfold Rdiv. ring. }
  replace (Rsum (map (fun a => F' a q) l) / INR (length l)) with (/ INR (length l) * Rsum (map (fun a => F' a q) l)) by (unfold Rdiv; ring).
  apply (derivable_pt_lim_scal (fun q => Rsum (map (fun a => F a q) l))). now apply deriv_sum.
Qed.
Lemma jem_p l a b p q : derivable_pt_lim (fun p => jem l a b p q) p (jem l (S a) b p q).
Proof.
  apply (deriv_mean (fun v p => fst v ^ a * snd v ^ b * exp (p * fst v + q * snd v)) (fun v p => fst v ^ S a * snd v ^ b * exp (p * fst v + q * snd v))).
  intros [x y] _. cbn [fst snd].
  apply deriv_ext with (f := fun p => (x ^ a * y ^ b * exp (q * y)) * exp (p * x)).
  { intros t. rewrite exp_plus. ring. }
  replace (x ^ S a * y ^ b * exp (p * x + q * y)) with ((x ^ a * y ^ b * exp (q * y)) * (x * exp (p * x))) by (rewrite exp_plus; simpl; ring).
  apply (derivable_pt_lim_scal (fun p => exp (p * x))). apply deriv_exp_lin.
Qed.
Lemma jem_q l a b p q : derivable_pt_lim (fun q => jem l a b p q) q (jem l a (S b) p q).
Proof.
  apply (deriv_mean (fun v q => fst v ^ a * snd v ^ b * exp (p * fst v + q * snd v)) (fun v q => fst v ^ a * snd v ^ S b * exp (p * fst v + q * snd v))).
  intros [x y] _. cbn [fst snd].
  apply deriv_ext with (f := fun q => (x ^ a * y ^ b * exp (p * x)) * exp (q * y)).
  { intros t. rewrite exp_plus. ring. }
  replace (x ^ a * y ^ S b * exp (p * x + q * y)) with ((x ^ a * y ^ b * exp (p * x)) * (y * exp (q * y))) by (rewrite exp_plus; simpl; ring).
  apply (derivable_pt_lim_scal (fun q => exp (q * y))). apply deriv_exp_lin.
Qed.
Lemma jem_pos l p q : l <> [] -> 0 < jem l 0 0 p q.
Proof.
  intros H. unfold jem, mean. rewrite map_length. apply Rdiv_lt_0_compat; [|now apply INR_len_pos].
  destruct l as [|a l]; [contradiction|]. apply Rsum_map_pos.
  - intros t _. simpl. rewrite !Rmult_1_l. left. apply exp_pos.
  - exists a. split; [now left|]. simpl. rewrite !Rmult_1_l. apply exp_pos.
Qed.
Lemma jem_fst l n p : jem l n 0 p 0 = em (map fst l) n p.
Proof. unfold jem, em. rewrite map_map. apply mean_ext. intros v _. rewrite Rmult_0_l, Rplus_0_r. simpl. ring. Qed.
Lemma jem_snd l n q : jem l 0 n 0 q = em (map snd l) n q.
Proof. unfold jem, em. rewrite map_map. apply mean_ext. intros v _. rewrite Rmult_0_l, Rplus_0_l. simpl. ring. Qed.
Lemma jmoment_jem l p q : pairs_nonzero l -> jmoment p q l = jem (log_pairs l) 0 0 p q.
Proof.
  intros H. unfold jmoment, pmean, jem, log_pairs. rewrite map_map. apply mean_ext. intros v Hv. unfold pairs_nonzero in H.
  rewrite Forall_forall in H. destruct (H v Hv) as [H1 H2]. cbn [fst snd]. rewrite !qpow_exp by trivial. rewrite exp_plus. simpl. ring.
Qed.
Lemma deriv_ln (f f' : R -> R) p : (forall p, 0 < f p) -> (forall p, derivable_pt_lim f p (f' p)) -> derivable_pt_lim (fun p => ln (f p)) p (f' p / f p).
Proof.
  intros H D. replace (f' p / f p) with (/ f p * f' p) by (unfold Rdiv; ring).
  exact (derivable_pt_lim_comp f ln p (f' p) (/ f p) (D p) (derivable_pt_lim_ln _ (H p))).
Qed.

(** The exponents zeta(q1, q2) of two quantities are the values of one function Z of two real variables with partial
    derivatives Zp, Zq and mixed derivative Zpq everywhere; c11 is the mixed derivative at (0, 0); the cumulants c_k0 and c_0k
    are the k-th derivatives of Z along the axes, for every k *)
Theorem C102_bivariate :
  forall m1 m2 g j1 j2 wd,
  regular m1 g 1 -> regular m2 g 1 -> (1 <= j1)%Z -> (j1 < j2)%Z -> (j2 <= Z.of_nat g)%Z ->
  (forall j, In j (scales m1) -> length (column m1 j 0) = length (column m2 j 0)) ->
  (forall j, (j1 <= j <= j2)%Z -> aligned m1 m2 j /\ pairs m1 m2 j <> [] /\ pairs_nonzero (pairs m1 m2 j) /\ (0 < count m1 j 0)%nat) ->
  exists (Z Zp Zq Zpq : R -> R -> R) (X Y : nat -> R -> R),
    (forall p q, derivable_pt_lim (fun p => Z p q) p (Zp p q)) /\
    (forall p q, derivable_pt_lim (fun q => Z p q) q (Zq p q)) /\
    (forall p q, derivable_pt_lim (fun q => Zp p q) q (Zpq p q)) /\
    (forall p q, derivable_pt_lim (fun p => Zq p q) p (Zpq p q)) /\
    (forall p, X 0%nat p = Z p 0) /\ (forall k p, derivable_pt_lim (X k) p (X (S k) p)) /\
    (forall q, Y 0%nat q = Z 0 q) /\ (forall k q, derivable_pt_lim (Y k) q (Y (S k) q)) /\
    (forall qa qb s i k, BiStructureFunction m1 m2 j1 j2 (Some (QArr qa)) (Some (QArr qb)) wd = Ok s ->
       (i < length qa)%nat -> (k < length qb)%nat -> b2 (bs_zeta s) i k = Fin (Z (nth i qa 0) (nth k qb 0))) /\
    (forall n b, BiCumulants m1 m2 n j1 j2 wd = Ok b ->
       ((1 <= n)%nat -> b2 (bc_log_cumulants b) 1 1 = Fin (Zpq 0 0)) /\
       (forall k, (1 <= k <= n)%nat -> b2 (bc_log_cumulants b) k 0 = Fin (X k 0) /\ b2 (bc_log_cumulants b) 0 k = Fin (Y k 0))).
Proof.
  intros m1 m2 g j1 j2 wd R1 R2 H1 H2 H3 HL HU. assert (L2 := ln2_pos).
  destruct (fit_weights wd m1 j1 j2 0 H2) as [u Hu]; [intros; now apply HU|].
  set (l := fun j => log_pairs (pairs m1 m2 j)).
  assert (Hl : forall j, In j (zrange j1 (j2 + 1)) -> l j <> []).
  { intros j Hj. apply zrange_In in Hj. destruct (HU j ltac:(lia)) as (_ & N & _). unfold l, log_pairs. destruct (pairs m1 m2 j); [contradiction|discriminate]. }
  assert (Ne1 : forall j, In j (zrange j1 (j2 + 1)) -> map fst (l j) <> [] /\ map snd (l j) <> []).
  { intros j Hj. assert (N := Hl j Hj). destruct (l j); [contradiction|split; discriminate]. }
  set (js := zrange j1 (j2 + 1)) in *.
  set (w := fun j => u j / ln 2).
  set (comb := fun f : Z -> R => Rsum (map (fun j => w j * f j) js)).
  assert (DC : forall (F F' : Z -> R -> R) t, (forall j, In j js -> derivable_pt_lim (F j) t (F' j t)) ->
     derivable_pt_lim (fun t => comb (fun j => F j t)) t (comb (fun j => F' j t))).
  { intros F F' t H. apply (deriv_sum (fun j t => w j * F j t) (fun j t => w j * F' j t)). intros j Hj.
    apply (derivable_pt_lim_scal (F j)). now apply H. }
  exists (fun p q => comb (fun j => ln (jem (l j) 0 0 p q))).
  exists (fun p q => comb (fun j => jem (l j) 1 0 p q / jem (l j) 0 0 p q)).
  exists (fun p q => comb (fun j => jem (l j) 0 1 p q / jem (l j) 0 0 p q)).
  exists (fun p q => comb (fun j => (jem (l j) 1 1 p q * jem (l j) 0 0 p q - jem (l j) 0 1 p q * jem (l j) 1 0 p q) / Rsqr (jem (l j) 0 0 p q))).
  exists (fun k p => comb (fun j => cgf (map fst (l j)) k p)).
  exists (fun k q => comb (fun j => cgf (map snd (l j)) k q)).
  split; [|split; [|split; [|split; [|split; [|split; [|split; [|split; [|split]]]]]]]].
  - intros p q. apply (DC (fun j p => ln (jem (l j) 0 0 p q)) (fun j p => jem (l j) 1 0 p q / jem (l j) 0 0 p q)). intros j Hj.
    apply (deriv_ln (fun p => jem (l j) 0 0 p q) (fun p => jem (l j) 1 0 p q)); [intros; now apply jem_pos, Hl|intros; apply jem_p].
  - intros p q. apply (DC (fun j q => ln (jem (l j) 0 0 p q)) (fun j q => jem (l j) 0 1 p q / jem (l j) 0 0 p q)). intros j Hj.
    apply (deriv_ln (fun q => jem (l j) 0 0 p q) (fun q => jem (l j) 0 1 p q)); [intros; now apply jem_pos, Hl|intros; apply jem_q].
  - intros p q. apply (DC (fun j q => jem (l j) 1 0 p q / jem (l j) 0 0 p q)
       (fun j q => (jem (l j) 1 1 p q * jem (l j) 0 0 p q - jem (l j) 0 1 p q * jem (l j) 1 0 p q) / Rsqr (jem (l j) 0 0 p q))). intros j Hj.
    assert (P := jem_pos (l j) p q (Hl j Hj)).
    apply (derivable_pt_lim_div (fun q => jem (l j) 1 0 p q) (fun q => jem (l j) 0 0 p q) q (jem (l j) 1 1 p q) (jem (l j) 0 1 p q));
      [apply jem_q|apply jem_q|lra].
  - intros p q. apply (DC (fun j p => jem (l j) 0 1 p q / jem (l j) 0 0 p q)
       (fun j p => (jem (l j) 1 1 p q * jem (l j) 0 0 p q - jem (l j) 0 1 p q * jem (l j) 1 0 p q) / Rsqr (jem (l j) 0 0 p q))). intros j Hj.
    assert (P := jem_pos (l j) p q (Hl j Hj)). rewrite (Rmult_comm (jem (l j) 0 1 p q)).
    apply (derivable_pt_lim_div (fun p => jem (l j) 0 1 p q) (fun p => jem (l j) 0 0 p q) p (jem (l j) 1 1 p q) (jem (l j) 1 0 p q));
      [apply jem_p|apply jem_p|lra].
  - intros p. unfold comb. apply Rsum_map_ext. intros j _. now rewrite jem_fst.
  - intros k p. apply (DC (fun j p => cgf (map fst (l j)) k p) (fun j p => cgf (map fst (l j)) (S k) p)). intros j Hj. apply cgf_deriv. now apply Ne1.
  - intros q. unfold comb. apply Rsum_map_ext. intros j _. now rewrite jem_snd.
  - intros k q. apply (DC (fun j p => cgf (map snd (l j)) k p) (fun j p => cgf (map snd (l j)) (S k) p)). intros j Hj. apply cgf_deriv. now apply Ne1.
  - intros qa qb s i k E Hi Hk.
    destruct (BS_rows m1 m2 g qa qb j1 j2 wd s R1 R2 H1 ltac:(lia) H3 HL E) as (_ & _ & _ & _ & _ & V & _).
    destruct (V i k Hi Hk) as (_ & -> & _). set (p := nth i qa 0). set (q := nth k qb 0).
    rewrite (Hu _ (fun j => ln (jem (l j) 0 0 p q) / ln 2)).
    + f_equal. unfold comb, w. apply Rsum_map_ext. intros j _. field. lra.
    + intros j Hj. destruct (HU j Hj) as (A & N & Z & _).
      assert (EJ := jmoment_jem (pairs m1 m2 j) p q Z). fold (l j) in EJ.
      rewrite logSval_eq; trivial.
      * now rewrite EJ.
      * unfold pairs_defined. eapply Forall_impl; [|exact Z]. intros v [Z1 Z2]. auto.
      * rewrite EJ. apply jem_pos, Hl. apply zrange_In. lia.
  - intros n b E. destruct (BC_rows m1 m2 g n j1 j2 wd b R1 R2 H1 ltac:(lia) H3 HL E) as (_ & _ & _ & V & _).
    assert (K : forall a c (f : Z -> R), (a <= n)%nat -> (c <= n)%nat -> (forall j, (j1 <= j <= j2)%Z -> Bval m1 m2 a c j = Fin (f j)) ->
       b2 (bc_log_cumulants b) a c = Fin (comb f)).
    { intros a c f Ha Hc Hf. destruct (V a c Ha Hc) as (_ & _ & _ & ->). rewrite (Hu _ f Hf). cbn [xmul]. f_equal.
      rewrite Rmult_comm, <- Rsum_map_scal. apply Rsum_map_ext. intros j _. unfold w, log2_e, log2R. rewrite ln_exp. field. lra. }
    split.
    + intros Hn. apply K; trivial. intros j Hj. destruct (HU j Hj) as (A & N & Z & _). rewrite Bval_11 by trivial. f_equal.
      fold (l j). assert (Lj : l j <> []) by (apply Hl, zrange_In; lia). rewrite cov_eq by trivial.
      assert (J0 : jem (l j) 0 0 0 0 = 1) by (rewrite jem_fst, em_0; apply mu_0, Ne1, zrange_In; lia).
      rewrite J0, jem_fst, jem_snd, !em_0.
      replace (jem (l j) 1 1 0 0) with (pmean (fun x => x ^ 1) (fun y => y ^ 1) (l j)); [unfold Rsqr; field|].
      unfold pmean, jem. apply mean_ext. intros v _. rewrite !Rmult_0_l, Rplus_0_l, exp_0. ring.
    + intros k Hk. split; apply K; try lia; intros j Hj; destruct (HU j Hj) as (A & N & Z & _).
      * rewrite Bval_left by (trivial; lia). fold (l j). rewrite cgf_at_0; [reflexivity|apply Ne1, zrange_In; lia|lia].
      * rewrite Bval_right by (trivial; lia). fold (l j). rewrite cgf_at_0; [reflexivity|apply Ne1, zrange_In; lia|lia].
Qed.
Print Assumptions C102_bivariate.
(** two concrete quantities with correlated values meet the hypotheses, and both estimators return *)
Example C102_bi_case : exists (Z Zpq : R -> R -> R) s b,
  BiStructureFunction (bi_demo WaveletLeader 0 (exp 1)) (bi_demo WaveletLeader 0 (exp (-1))) 1 2
    (Some (QArr [0; 1; 2])) (Some (QArr [0; 1; 2])) true = Ok s /\
  BiCumulants (bi_demo WaveletLeader 0 (exp 1)) (bi_demo WaveletLeader 0 (exp (-1))) 2 1 2 true = Ok b /\
  b2 (bs_zeta s) 1 2 = Fin (Z 1 2) /\ b2 (bc_log_cumulants b) 1 1 = Fin (Zpq 0 0) /\
  exists Zp : R -> R -> R, (forall p q, derivable_pt_lim (fun p => Z p q) p (Zp p q)) /\ derivable_pt_lim (fun q => Zp 0 q) 0 (Zpq 0 0).
Proof.
  set (m := bi_demo WaveletLeader 0 (exp 1)). set (m' := bi_demo WaveletLeader 0 (exp (-1))).
  assert (HR := bi_demo_regular WaveletLeader 0 (exp 1)). assert (HC := bi_demo_counted WaveletLeader 0 (exp 1)). fold m in HR, HC.
  assert (HR' := bi_demo_regular WaveletLeader 0 (exp (-1))). assert (HC' := bi_demo_counted WaveletLeader 0 (exp (-1))). fold m' in HR', HC'.
  assert (HA := bi_demo_aligned WaveletLeader 0 (exp 1) (exp (-1))). fold m m' in HA.
  assert (HL : forall j, In j (scales m) -> length (column m j 0) = length (column m' j 0)) by (intros j Hj; apply HA, Hj).
  destruct (C56_returns m m' 2 2 1 2 true HR HR' HC HC' ltac:(lia) ltac:(lia) ltac:(lia) HL ltac:(right; lia)) as [[_ X] _].
  destruct X as [b E]; [split; [reflexivity|intros j Hj; apply HA, Hj]|].
  assert (ND : NoDup [0; 1; 2]) by (repeat constructor; cbn; lra).
  assert (K := C55_needed_moments m m' 2 (Some (QArr [0; 1; 2])) (Some (QArr [0; 1; 2])) 1 2 true HR HR' HC HC' ltac:(lia) ltac:(lia) ltac:(lia) eq_refl eq_refl).
  destruct K as [_ [s Es]]; trivial.
  { intros j Hj. split; apply HA, Hj. }
  { split; apply incl_refl. }
  destruct (C102_bivariate m m' 2 1 2 true HR HR' ltac:(lia) ltac:(lia) ltac:(lia) HL) as (Z & Zp & Zq & Zpq & X & Y & D1 & D2 & D3 & D4 & _ & _ & _ & _ & B & C).
  { intros j Hj. assert (Ij : In j (scales m)) by (assert (D : j = 1%Z \/ j = 2%Z) by lia; destruct D as [-> | ->]; [left|right; left]; reflexivity).
    destruct (HA j Ij) as (A & _ & _ & P). split; [exact A|]. rewrite P. split; [discriminate|]. split.
    - assert (P1 := exp_pos 1). assert (P2 := exp_pos (-1)). repeat constructor; cbn; lra.
    - assert (D : j = 1%Z \/ j = 2%Z) by lia. destruct D as [-> | ->]; vm_compute; lia. }
  exists Z, Zpq, s, b. split; [exact Es|]. split; [exact E|].
  split; [exact (B _ _ s 1%nat 2%nat Es ltac:(cbn; lia) ltac:(cbn; lia))|].
  split; [exact (proj1 (C 2%nat b E) ltac:(lia))|]. exists Zp. split; [exact D1|apply D3].
Qed.
