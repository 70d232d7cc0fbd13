(** * C89, C90: bivariate estimates, amplitudes and fractional integration *)
From Coq Require Import Reals List ZArith Bool Lia Lra.
From Verif Require Import XReal PyBase ModelUtils ModelMRQ ModelStructure ModelCumulants ModelWavelet ModelMFA ModelBivariate
  Spec SpecMRQ SpecBi LXReal LReg LUtils LBase LTransform LPattern LWave LEst LMoment LWaveEst LCum LScale LScaleWT LBivariate
  PropsEstimators PropsCumulants PropsWavelet PropsInvariance PropsBivariate PropsBiStructure PropsBiPipeline.
Import ListNotations.
Open Scope R_scope.

(** ** Specification *)
(** the estimates [r'] are those of [r] with the exponents of the first quantity increased by a1, of the second by a2:
    zeta(q1, q2) by q1 a1 + q2 a2, c10 by a1, c01 by a2, nothing else; the coherence is multiplied by the sign sg.
    The cumulants are compared where the logarithms exist (no zero among the jointly usable values) *)
Definition usable (m1 m2 : mrq) (j : Z) : Prop := pairs m1 m2 j <> [] /\ pairs_nonzero (pairs m1 m2 j).
Definition exponents_shifted (m1 m2 : mrq) (qa qb : list R) (n : nat) (j1 j2 : Z) (a1 a2 sg : R) (r r' : bimf) : Prop :=
  (forall i k, (i < length qa)%nat -> (k < length qb)%nat ->
     b2 (bs_zeta (bm_structure r')) i k = xadd (b2 (bs_zeta (bm_structure r)) i k) (Fin (nth i qa 0 * a1 + nth k qb 0 * a2))) /\
  (forall j, In j (scales m1) -> b1 (bs_coherence (bm_structure r')) j = xmul (Fin sg) (b1 (bs_coherence (bm_structure r)) j)) /\
  ((forall j, (j1 <= j <= j2)%Z -> usable m1 m2 j) ->
     (forall u v, (u <= n)%nat -> (v <= n)%nat ->
        b2 (bc_log_cumulants (bm_cumulants r')) u v = xadd (b2 (bc_log_cumulants (bm_cumulants r)) u v)
          (Fin (match u, v with 1%nat, 0%nat => a1 | 0%nat, 1%nat => a2 | _, _ => 0 end))) /\
     bc_rho (bm_cumulants r') = bc_rho (bm_cumulants r)) /\
  match bc_RHO (bm_cumulants r), bc_RHO (bm_cumulants r') with
  | Some rho, Some rho' => forall j, In j (scales m1) -> usable m1 m2 j -> b1 rho' j = b1 rho j
  | None, None => True
  | _, _ => False
  end.

(** ** Lemmas *)
Lemma xmul_pos_pos k l x y : 0 < k -> 0 < l -> xmul (xmul (Fin k) x) (xmul (Fin l) y) = xmul (Fin (k * l)) (xmul x y).
Proof.
  intros Hk Hl. rewrite xmul_pos_assoc by trivial. rewrite (xmul_comm x), xmul_pos_assoc by trivial. rewrite xmul_Fin_assoc. f_equal. apply xmul_comm.
Qed.
Lemma map2_scl k l x : forall y, 0 < k -> 0 < l -> map2 xmul (scl k x) (scl l y) = scl (k * l) (map2 xmul x y).
Proof.
  induction x as [|a x IH]; intros [|b y] Hk Hl; try reflexivity. unfold scl in *. cbn [map]. rewrite !map2_cons. cbn [map]. rewrite IH by trivial.
  f_equal. now apply xmul_pos_pos.
Qed.
Lemma joint_scl k l c1 : forall c2, no_inf c1 -> no_inf c2 -> joint (scl k c1) (scl l c2) = map (fun p => (k * fst p, l * snd p)) (joint c1 c2).
Proof.
  unfold scl. induction c1 as [|x c1 IH]; intros [|y c2] N1 N2; try reflexivity.
  - cbn [map joint]. now destruct (xmul (Fin k) x), x.
  - inversion N1 as [|? ? A1 B1]; inversion N2 as [|? ? A2 B2]; subst. cbn [map].
    destruct A1 as [->|[a ->]], A2 as [->|[b ->]]; cbn [xmul joint map fst snd]; rewrite IH by trivial; reflexivity.
Qed.
Lemma log_pairs_scl k l ps : k <> 0 -> l <> 0 -> pairs_nonzero ps ->
  log_pairs (map (fun p => (k * fst p, l * snd p)) ps) = map (fun p => (ln (Rabs k) + fst p, ln (Rabs l) + snd p)) (log_pairs ps).
Proof.
  intros Hk Hl Hz. unfold log_pairs. rewrite !map_map. unfold pairs_nonzero in Hz. rewrite Forall_forall in Hz. apply map_ext_in. intros p Hp. destruct (Hz p Hp) as [A B]. cbn [fst snd].
  rewrite !Rabs_mult, !ln_mult by (now apply Rabs_pos_lt). reflexivity.
Qed.
Lemma mean_plus {A} (f : A -> R) c l : l <> [] -> mean (map (fun a => c + f a) l) = c + mean (map f l).
Proof.
  intros H. assert (P := INR_len_pos l H). unfold mean. rewrite !map_length.
  rewrite Rsum_map_plus. assert (E : Rsum (map (fun _ : A => c) l) = INR (length l) * c).
  { clear. induction l as [|a l IH]; [cbn; ring|]. cbn [map length]. change (Rsum (?a :: ?l)) with (a + Rsum l). rewrite IH, S_INR. ring. }
  rewrite E. field. lra.
Qed.
Lemma cov_shift u v l : l <> [] -> cov (map (fun p => (u + fst p, v + snd p)) l) = cov l.
Proof.
  intros H. unfold cov, pmean. rewrite !map_map. cbn [fst snd]. rewrite (mean_plus (fun p => fst p) u l H), (mean_plus (fun p => snd p) v l H).
  change (fun p : R * R => fst p) with (@fst R R). change (fun p : R * R => snd p) with (@snd R R). apply mean_ext. intros p _. ring.
Qed.

Lemma positions_shape {A} (d d' : A) q1 q2 a b T T' l : select2 d q1 q2 a b T = Ok l -> exists l', select2 d' q1 q2 a b T' = Ok l' /\ length l' = length l.
Proof.
  unfold select2. set (p := positions a q1). set (p' := positions b q2). clearbody p p'.
  assert (M2 : forall (f f' : nat -> nat -> A) x y, length (map2 f x y) = length (map2 f' x y)).
  { intros f f' x. induction x as [|? ? IH]; intros [|? ?]; try reflexivity. rewrite !map2_cons. cbn [length]. now rewrite (IH _). }
  destruct p as [|i [|i' p]]; destruct p' as [|k [|k' p']]; cbn [length];
    repeat match goal with |- context [Nat.eqb ?a ?b] => destruct (Nat.eqb a b) end; intros E; try discriminate; injection E as <-;
    (eexists; split; [reflexivity|]); rewrite ?map_length; try reflexivity; try apply M2; cbn [length]; now rewrite map_length.
Qed.
Lemma coherence_shape a b T T' c : bi_coherence (QArr a) (QArr b) T = Ok c -> exists c', bi_coherence (QArr a) (QArr b) T' = Ok c'.
Proof.
  unfold bi_coherence. intros E.
  destruct (select2 [] a b 1 1 T) as [r|] eqn:E1; [|discriminate]. cbn [bind] in E.
  destruct (select2 [] a b 2 0 T) as [r2|] eqn:E2; [|destruct r; discriminate].
  destruct (select2 [] a b 0 2 T) as [r3|] eqn:E3; [|destruct r; discriminate].
  destruct (positions_shape [] [] _ _ _ _ T T' _ E1) as (r' & -> & L1). destruct (positions_shape [] [] _ _ _ _ T T' _ E2) as (r2' & -> & L2).
  destruct (positions_shape [] [] _ _ _ _ T T' _ E3) as (r3' & -> & L3). cbn [bind].
  destruct r as [|v r]; [discriminate|]. destruct r' as [|v' r']; [discriminate|]. cbn [first_row bind] in *.
  unfold first_product in *. change (@length (list xr) r2' = @length col r2) in L2. change (@length (list xr) r3' = @length col r3) in L3.
  change col with (list xr) in *. rewrite L2, L3. destruct (_ || _)%bool; [|discriminate].
  destruct r2 as [|? ?]; [discriminate|]. destruct r2'; [discriminate|]. destruct r3; [discriminate|]. destruct r3'; [discriminate|].
  cbn [first_row bind]. eauto.
Qed.

Section General.
Variables (f1 f2 : Z -> R) (a1 e1 a2 e2 sg : R) (m1 m1' m2 m2' : mrq) (g : nat) (j1 j2 : Z) (wd : bool).
Hypothesis F1 : forall j, Rabs (f1 j) = Rpower 2 (a1 * IZR j + e1).
Hypothesis F2 : forall j, Rabs (f2 j) = Rpower 2 (a2 * IZR j + e2).
Hypothesis SG : forall j, f1 j * f2 j = sg * Rabs (f1 j * f2 j).
Hypothesis M1 : rescaled f1 m1 m1'.
Hypothesis M2 : rescaled f2 m2 m2'.
Hypothesis N1 : no_infinities m1.
Hypothesis N2 : no_infinities m2.
Hypothesis R1 : regular m1 g 1.
Hypothesis R2 : regular m2 g 1.
Hypothesis FM1 : mq_formalism m1' = mq_formalism m1.
Hypothesis FM2 : mq_formalism m2' = mq_formalism m2.
Hypothesis GM : mq_gamint m1 = mq_gamint m2 -> mq_gamint m1' = mq_gamint m2'.
Hypothesis H1 : (1 <= j1)%Z.
Hypothesis H2 : (j1 <= j2)%Z.
Hypothesis H3 : (j2 <= Z.of_nat g)%Z.
Hypothesis HL : forall j, In j (scales m1) -> length (column m1 j 0) = length (column m2 j 0).

Lemma R1' : regular m1' g 1. Proof using M1 R1. eapply rescaled_regular; eassumption. Qed.
Lemma R2' : regular m2' g 1. Proof using M2 R2. eapply rescaled_regular; eassumption. Qed.
Lemma col1 j : column m1' j 0 = scl (f1 j) (column m1 j 0). Proof using M1. now apply rescaled_column. Qed.
Lemma col2 j : column m2' j 0 = scl (f2 j) (column m2 j 0). Proof using M2. now apply rescaled_column. Qed.
Lemma HL' j : In j (scales m1') -> length (column m1' j 0) = length (column m2' j 0).
Proof using M1 M2 HL. rewrite (proj1 M1). intros Hj. rewrite col1, col2, !scl_length. now apply HL. Qed.
Lemma n1 j : f1 j <> 0. Proof using F1. now apply (f_nz f1 a1 e1). Qed.
Lemma n2 j : f2 j <> 0. Proof using F2. now apply (f_nz f2 a2 e2). Qed.
Lemma pairs' j : pairs m1' m2' j = map (fun p => (f1 j * fst p, f2 j * snd p)) (pairs m1 m2 j).
Proof using M1 M2 N1 N2. unfold pairs. rewrite col1, col2. apply joint_scl; now apply no_inf_column. Qed.
Lemma al j : In j (scales m1) -> aligned m1 m2 j.
Proof using HL N1 N2. intros Hj. split; [now apply HL|split; now apply no_inf_column]. Qed.
Lemma al' j : In j (scales m1') -> aligned m1' m2' j.
Proof using HL N1 N2 M1 M2.
  intros Hj. split; [now apply HL'|]. rewrite col1, col2. split; (apply scl_no_inf; now apply no_inf_column).
Qed.
Lemma usable' j : usable m1 m2 j -> usable m1' m2' j.
Proof using F1 F2 M1 M2 N1 N2.
  intros [A B]. split; [rewrite pairs'; destruct (pairs m1 m2 j); [congruence|discriminate]|]. rewrite pairs'. unfold pairs_nonzero in *. rewrite Forall_map.
  revert B. apply Forall_impl. intros p [P Q]. cbn [fst snd]. split; (apply Rmult_integral_contrapositive_currified; trivial; first [apply n1|apply n2]).
Qed.
Lemma logSval' q q' j : In j (scales m1) ->
  logSval m1' m2' q q' j = xadd (logSval m1 m2 q q' j) (Fin ((num_val q * a1 + num_val q' * a2) * IZR j + (num_val q * e1 + num_val q' * e2))).
Proof using F1 F2 M1 M2 N1 N2 HL g.
  intros Hj. unfold logSval, Sval. rewrite col1, col2. rewrite !abs_power_scale by (first [apply n1|apply n2|now apply no_inf_column]).
  assert (L := HL j Hj). unfold mean_prod. rewrite !bcast_eq by (rewrite ?scl_length, ?fast_power_length, ?map_length; trivial). cbn [bind].
  assert (P1 := Rpower_pos (Rabs (f1 j)) (num_val q)). assert (P2 := Rpower_pos (Rabs (f2 j)) (num_val q')).
  rewrite map2_scl by trivial. rewrite nanmean_scl by (now apply Rmult_lt_0_compat). rewrite xlog2_scale by (now apply Rmult_lt_0_compat).
  f_equal. f_equal. rewrite F1, F2, !Rpower_mult, <- Rpower_plus. unfold log2R, Rpower. rewrite ln_exp. field. assert (K := ln2_pos). lra.
Qed.
Lemma Bval' u v j : In j (scales m1) -> usable m1 m2 j ->
  Bval m1' m2' u v j = xadd (Bval m1 m2 u v j)
    (Fin ((match u, v with 1%nat, 0%nat => a1 | 0%nat, 1%nat => a2 | _, _ => 0 end * ln 2) * IZR j
          + match u, v with 1%nat, 0%nat => e1 | 0%nat, 1%nat => e2 | _, _ => 0 end * ln 2)).
Proof using F1 F2 M1 M2 N1 N2 HL g.
  intros Hj Hu. assert (Hu' := usable' j Hu). destruct Hu as [A B]. destruct Hu' as [A' B']. assert (HA := al j Hj).
  assert (HA' : aligned m1' m2' j) by (apply al'; now rewrite (proj1 M1)).
  assert (EL : log_pairs (pairs m1' m2' j) = map (fun p => (ln (Rabs (f1 j)) + fst p, ln (Rabs (f2 j)) + snd p)) (log_pairs (pairs m1 m2 j))).
  { rewrite pairs'. apply log_pairs_scl; trivial; [apply n1|apply n2]. }
  assert (LN : log_pairs (pairs m1 m2 j) <> []) by (destruct (pairs m1 m2 j); [congruence|discriminate]).
  assert (LM : forall f : R * R -> R, map f (log_pairs (pairs m1 m2 j)) <> []) by (intros f; destruct (log_pairs (pairs m1 m2 j)); [congruence|discriminate]).
  assert (K1 := f_ln f1 a1 e1 F1 j). assert (K2 := f_ln f2 a2 e2 F2 j).
  destruct u as [|u], v as [|v].
  - unfold Bval, bi_value. cbn [xadd]. f_equal. ring.
  - rewrite (Bval_right m1' m2' j HA' A' B'), (Bval_right m1 m2 j HA A B) by lia. cbn [xadd]. f_equal. rewrite EL, map_map. cbn [snd].
    replace (map (fun x : R * R => ln (Rabs (f2 j)) + snd x) (log_pairs (pairs m1 m2 j))) with (map (fun t => ln (Rabs (f2 j)) + t) (map snd (log_pairs (pairs m1 m2 j)))) by (now rewrite map_map).
    rewrite kappa_shift by (trivial; lia). f_equal. rewrite K2. destruct v; ring.
  - rewrite (Bval_left m1' m2' j HA' A' B'), (Bval_left m1 m2 j HA A B) by lia. cbn [xadd]. f_equal. rewrite EL, map_map. cbn [fst].
    replace (map (fun x : R * R => ln (Rabs (f1 j)) + fst x) (log_pairs (pairs m1 m2 j))) with (map (fun t => ln (Rabs (f1 j)) + t) (map fst (log_pairs (pairs m1 m2 j)))) by (now rewrite map_map).
    rewrite kappa_shift by (trivial; lia). f_equal. rewrite K1. destruct u; ring.
  - assert (Z : forall x, xadd x (Fin (0 * ln 2 * IZR j + 0 * ln 2)) = x).
    { intros x. replace (0 * ln 2 * IZR j + 0 * ln 2) with 0 by ring. apply xadd_F0. }
    assert (E : Bval m1' m2' (S u) (S v) j = Bval m1 m2 (S u) (S v) j).
    { destruct (Nat.eq_dec u 0) as [->|Nu]; [destruct (Nat.eq_dec v 0) as [->|Nv]|].
      - rewrite (Bval_11 m1' m2' j HA' A' B'), (Bval_11 m1 m2 j HA A B). f_equal. rewrite EL. now apply cov_shift.
      - rewrite !Bval_other by (try lia; congruence). reflexivity.
      - rewrite !Bval_other by (try lia; congruence). reflexivity. }
    rewrite E. destruct u; symmetry; apply Z.
Qed.

Lemma in_range j : (j1 <= j <= j2)%Z -> In j (scales m1).
Proof using R1 H1 H3. intros Hj. eapply (range_in m1); eassumption. Qed.

Lemma bi_general qa qb n r : bi_results m1 m2 qa qb n j1 j2 wd r ->
  exists r', bi_results m1' m2' qa qb n j1 j2 wd r' /\ exponents_shifted m1 m2 qa qb n j1 j2 a1 a2 sg r r'.
Proof using All.
  intros [EB ES]. assert (S1 : scales m1 = one_to g) by apply R1. assert (S1' : scales m1' = one_to g) by (apply R1').
  destruct (BC_ok_inv _ _ _ _ _ _ _ EB) as [HF HN]. destruct (BS_ok_inv _ _ _ _ _ _ _ _ ES) as (_ & HG & _ & _).
  assert (HF' : mq_formalism m1' = mq_formalism m2') by congruence.
  assert (HN' : nj_equal (mq_nj m1') (mq_nj m2') = Ok true) by (rewrite (proj1 (proj2 M1)), (proj1 (proj2 M2)); exact HN).
  assert (HLo : forall j, In j (one_to g) -> length (column m1 j 0) = length (column m2 j 0)) by (intros j Hj; apply HL; now rewrite S1).
  assert (HLo' : forall j, In j (one_to g) -> length (column m1' j 0) = length (column m2' j 0)) by (intros j Hj; apply HL'; now rewrite S1').
  (* the calls succeed *)
  assert (XB : exists b', BiCumulants m1' m2' n j1 j2 wd = Ok b').
  { rewrite (BC_eq m1' m2' g n j1 j2 wd R1' R2' H1 H2 H3 HF' HN' HLo'). cbv zeta.
    rewrite (BC_eq m1 m2 g n j1 j2 wd R1 R2 H1 H2 H3 HF HN HLo) in EB. cbv zeta in EB. rewrite FM1. unfold bi_rho in *.
    destruct (mq_formalism m1); [cbn [bind]; eauto| |]; (destruct (Nat.ltb n 2); [discriminate|cbn [bind]; eauto]). }
  destruct XB as [b' EB'].
  assert (XS : exists s', BiStructureFunction m1' m2' j1 j2 (Some (QArr qa)) (Some (QArr qb)) wd = Ok s').
  { rewrite (BS_eq m1' m2' g (QArr qa) (QArr qb) j1 j2 wd R1' R2' H1 H2 H3 HF' (GM HG) HN' HLo').
    rewrite (BS_eq m1 m2 g (QArr qa) (QArr qb) j1 j2 wd R1 R2 H1 H2 H3 HF HG HN HLo) in ES.
    destruct (bi_coherence (QArr qa) (QArr qb) (Stable (fun x => x) m1 m2 g (QArr qa) (QArr qb))) as [c|] eqn:EC; [|discriminate].
    destruct (coherence_shape _ _ _ (Stable (fun x => x) m1' m2' g (QArr qa) (QArr qb)) _ EC) as [c' ->]. cbn [bind]. eauto. }
  destruct XS as [s' ES'].
  exists (mkBiMF s' b'). split; [split; assumption|]. unfold exponents_shifted. cbn [bm_structure bm_cumulants].
  destruct (BS_rows m1 m2 g qa qb j1 j2 wd _ R1 R2 H1 H2 H3 HL ES) as (_ & _ & _ & _ & _ & V & _).
  destruct (BS_rows m1' m2' g qa qb j1 j2 wd _ R1' R2' H1 H2 H3 HL' ES') as (_ & _ & _ & _ & _ & V' & _).
  destruct (BC_rows m1 m2 g n j1 j2 wd _ R1 R2 H1 H2 H3 HL EB) as (_ & _ & _ & W & WC & WL).
  destruct (BC_rows m1' m2' g n j1 j2 wd _ R1' R2' H1 H2 H3 HL' EB') as (_ & _ & _ & W' & WC' & WL').
  assert (P := ln2_pos).
  assert (PE : 0 < log2_e) by (unfold log2_e; rewrite log2_exp; apply Rdiv_lt_0_compat; lra).
  assert (LE : ln 2 * log2_e = 1) by (unfold log2_e; rewrite log2_exp; field; lra).
  split; [|split; [|split]].
  - intros i k Hi Hk. destruct (V i k Hi Hk) as (_ & -> & _). destruct (V' i k Hi Hk) as (_ & -> & _).
    apply (fit_line f1 m1 m1' j1 j2 wd M1 H2 0%nat _ _ (nth i qa 0 * a1 + nth k qb 0 * a2) (nth i qa 0 * e1 + nth k qb 0 * e2)). intros j Hj.
    apply (logSval' (PyFloat (nth i qa 0)) (PyFloat (nth k qb 0)) j). now apply in_range.
  - intros j Hj. destruct (C55_coherence m1 m2 g qa qb j1 j2 wd _ R1 R2 H1 H2 H3 al ES) as [_ K].
    destruct (C55_coherence m1' m2' g qa qb j1 j2 wd _ R1' R2' H1 H2 H3 al' ES') as [_ K'].
    destruct (K j Hj) as [Ka Kb]. destruct (K' j ltac:(rewrite (proj1 M1); exact Hj)) as [Ka' Kb']. clear K K'. rewrite pairs', !map_map in Ka', Kb'. cbn [fst snd] in *.
    set (l := pairs m1 m2 j) in *.
    set (xx := Rsum (map (fun p => fst p ^ 2) l)) in *. set (yy := Rsum (map (fun p => snd p ^ 2) l)) in *. set (xy := Rsum (map (fun p => fst p * snd p) l)) in *.
    assert (Exx : Rsum (map (fun p => (f1 j * fst p) ^ 2) l) = f1 j ^ 2 * xx).
    { unfold xx. rewrite <- Rsum_map_scal. apply Rsum_map_ext. intros. ring. }
    assert (Eyy : Rsum (map (fun p => (f2 j * snd p) ^ 2) l) = f2 j ^ 2 * yy).
    { unfold yy. rewrite <- Rsum_map_scal. apply Rsum_map_ext. intros. ring. }
    assert (Exy : Rsum (map (fun p => fst p * snd p) (map (fun p => (f1 j * fst p, f2 j * snd p)) l)) = (f1 j * f2 j) * xy).
    { rewrite map_map. unfold xy. cbn [fst snd]. rewrite <- Rsum_map_scal. apply Rsum_map_ext. intros. ring. }
    rewrite Exx, Eyy in Ka'. rewrite Exx, Eyy, Exy in Kb'. assert (F0 : f1 j * f2 j <> 0) by (apply Rmult_integral_contrapositive_currified; [apply n1|apply n2]).
    assert (PF := Rabs_pos_lt _ F0).
    assert (EP : f1 j ^ 2 * xx * (f2 j ^ 2 * yy) = Rabs (f1 j * f2 j) ^ 2 * (xx * yy)). { rewrite <- !(Rsqr_pow2 (Rabs _)), <- Rsqr_abs. unfold Rsqr. ring. }
    rewrite EP in Ka', Kb'.
    assert (X0 : 0 <= xx) by (apply Rsum_map_nonneg; intros; apply pow2_ge_0). assert (Y0 : 0 <= yy) by (apply Rsum_map_nonneg; intros; apply pow2_ge_0).
    destruct (Req_dec (xx * yy) 0) as [Z|Z].
    + rewrite Ka, Ka' by (trivial; rewrite Z; ring). reflexivity.
    + assert (PZ : 0 < xx * yy) by (assert (T := Rmult_le_pos _ _ X0 Y0); lra).
      destruct (Kb PZ) as [-> _]. destruct (Kb' ltac:(apply Rmult_lt_0_compat; [apply pow_lt|]; trivial)) as [-> _]. cbn [xmul]. f_equal.
      rewrite sqrt_mult_alt by (apply pow2_ge_0). rewrite sqrt_pow2 by (left; exact PF). assert (SP := sqrt_lt_R0 _ PZ). rewrite (SG j) at 1. field. split; lra.
  - intros HU.
    assert (LC : forall u v, (u <= n)%nat -> (v <= n)%nat -> b2 (bc_log_cumulants b') u v = xadd (b2 (bc_log_cumulants (bm_cumulants r)) u v)
          (Fin (match u, v with 1%nat, 0%nat => a1 | 0%nat, 1%nat => a2 | _, _ => 0 end))).
    { intros u v Hu Hv. destruct (W u v Hu Hv) as (_ & _ & _ & ->). destruct (W' u v Hu Hv) as (_ & _ & _ & ->).
      destruct (fit_line f1 m1 m1' j1 j2 wd M1 H2 0%nat (Bval m1 m2 u v) (Bval m1' m2' u v)
         (match u, v with 1%nat, 0%nat => a1 | 0%nat, 1%nat => a2 | _, _ => 0 end * ln 2) (match u, v with 1%nat, 0%nat => e1 | 0%nat, 1%nat => e2 | _, _ => 0 end * ln 2)) as [-> _].
      { intros j Hj. apply Bval'; [now apply in_range|now apply HU]. }
      destruct (fslope _ _ _ _ _ _); simpl; rewrite ?scale_inf_pos by trivial; trivial. f_equal. rewrite Rmult_plus_distr_r, Rmult_assoc, LE. ring. }
    split; [exact LC|]. destruct (mq_formalism m1) eqn:FM.
    + rewrite (proj2 (WC eq_refl)), (proj2 (WC' FM1)). reflexivity.
    + destruct WL as (Hn & _ & ->); [discriminate|]. destruct WL' as (_ & _ & ->); [rewrite FM1; discriminate|]. rewrite !LC by lia. cbn match. now rewrite !xadd_F0.
    + destruct WL as (Hn & _ & ->); [discriminate|]. destruct WL' as (_ & _ & ->); [rewrite FM1; discriminate|]. rewrite !LC by lia. cbn match. now rewrite !xadd_F0.
  - assert (RR : forall j, In j (scales m1) -> usable m1 m2 j ->
      xdiv (Bval m1' m2' 1 1 j) (xabs (xsqrt (xmul (Bval m1' m2' 0 2 j) (Bval m1' m2' 2 0 j)))) = xdiv (Bval m1 m2 1 1 j) (xabs (xsqrt (xmul (Bval m1 m2 0 2 j) (Bval m1 m2 2 0 j))))).
    { intros j Hj Hu. rewrite !Bval' by trivial. cbn match. replace (0 * ln 2 * IZR j + 0 * ln 2) with 0 by ring. now rewrite !xadd_F0. }
    destruct (mq_formalism m1) eqn:FM.
    + rewrite (proj1 (WC eq_refl)), (proj1 (WC' FM1)). trivial.
    + destruct WL as (_ & -> & _); [discriminate|]. destruct WL' as (_ & -> & _); [rewrite FM1; discriminate|]. intros j Hj Hu. rewrite !(b1_map (fun j => xdiv _ _)) by (now rewrite <- S1). now apply RR.
    + destruct WL as (_ & -> & _); [discriminate|]. destruct WL' as (_ & -> & _); [rewrite FM1; discriminate|]. intros j Hj Hu. rewrite !(b1_map (fun j => xdiv _ _)) by (now rewrite <- S1). now apply RR.
Qed.
End General.

(** ** Two signals of the same length *)
Lemma one_signal (s1 s2 : list R) w j1 j2 gam norm wd t ws t' ws' :
  length s1 = length s2 -> (1 <= length s1)%nat -> good_wavelet w -> norm <> 0 ->
  wavelet_analysis [fin s1] PInfty w j1 j2 gam norm wd = Ok (t, ws) ->
  wavelet_analysis [fin s2] PInfty w j1 j2 gam norm wd = Ok (t', ws') -> (1 <= j1 <= j2_eff t)%Z ->
  j2_eff t' = j2_eff t /\
  (exists g, regular (wt_coefs t) g 1 /\ regular (wt_coefs t') g 1 /\ (j2_eff t <= Z.of_nat g)%Z /\
     no_infinities (wt_coefs t) /\ no_infinities (wt_coefs t') /\
     (forall j, In j (scales (wt_coefs t)) -> length (column (wt_coefs t) j 0) = length (column (wt_coefs t') j 0))) /\
  exists l l' g, wt_leaders t = Some l /\ wt_leaders t' = Some l' /\ regular l g 1 /\ regular l' g 1 /\ (j2_eff t <= Z.of_nat g)%Z /\
     no_infinities l /\ no_infinities l' /\ (forall j, In j (scales l) -> length (column l j 0) = length (column l' j 0)).
Proof.
  intros EL Hl Hw Hn H H' Hj.
  set (N := length s1) in *.
  assert (F1 : Forall (fun s : list R => length s = N) [s1]) by (constructor; [reflexivity|constructor]).
  assert (F2 : Forall (fun s : list R => length s = N) [s2]) by (constructor; [now symmetry|constructor]).
  assert (NE1 : [s1] <> []) by discriminate. assert (NE2 : [s2] <> []) by discriminate.
  assert (NI : forall s, Forall no_inf [fin s]).
  { intros s. constructor; [|constructor]. unfold no_inf, fin. rewrite Forall_map, Forall_forall. eauto. }
  apply wa_inv in H as (eta & _ & -> & _); trivial; [|exact Logic.I]. apply wa_inv in H' as (eta' & _ & -> & _); trivial; [|exact Logic.I].
  cbn [the_wt wt_coefs wt_leaders j2_eff] in *.
  assert (EG : gcount [fin s1] PInfty w gam norm = gcount [fin s2] PInfty w gam norm).
  { change [fin s1] with (map fin [s1]). change [fin s2] with (map fin [s2]). now rewrite !(fin_gcount _ _ _ _ N) by (trivial; exact Logic.I). }
  assert (EC : ccount [fin s1] PInfty w gam norm = ccount [fin s2] PInfty w gam norm).
  { change [fin s1] with (map fin [s1]). change [fin s2] with (map fin [s2]). now rewrite !(fin_ccount _ _ _ _ N) by (trivial; exact Logic.I). }
  assert (EJ : jeff [fin s1] PInfty w gam norm j2 = jeff [fin s2] PInfty w gam norm j2).
  { unfold jeff. rewrite EG. unfold nlev. change [fin s1] with (map fin [s1]). change [fin s2] with (map fin [s2]).
    now rewrite !(fin_sig_len _ N). }
  assert (J := jeff_le [fin s1] PInfty w gam norm j2). assert (G := gcount_le_ccount [fin s1] PInfty w gam norm).
  assert (PC : forall i, (1 <= i)%nat -> map pat (Cf [fin s1] w gam norm i) = map pat (Cf [fin s2] w gam norm i)).
  { intros i Hi. change [fin s1] with (map fin [s1]). change [fin s2] with (map fin [s2]). now rewrite !(fin_Cf_pats _ _ _ _ N). }
  assert (PL : forall i, map pat (Ld [fin s1] PInfty w gam norm i) = map pat (Ld [fin s2] PInfty w gam norm i)).
  { intros i. change [fin s1] with (map fin [s1]). change [fin s2] with (map fin [s2]). now rewrite !(fin_Ld_pats _ _ _ _ N) by (trivial; exact Logic.I). }
  rewrite <- EC, <- EG. split; [now symmetry|]. split.
  - set (c := ccount [fin s1] PInfty w gam norm) in *. exists c.
    assert (RA : forall T : nat -> arr, (forall i, length (T i) = 1%nat) -> regular (mrq_of WaveletCoef gam T c) c 1) by (intros T LT; apply table_regular; trivial; lia).
    split; [apply RA; intros; apply Cf_length|]. split; [apply RA; intros; apply Cf_length|]. split; [lia|].
    split; [now apply coefs_no_inf|]. split; [now apply coefs_no_inf|].
    intros j Hj'. apply (tables_aligned WaveletCoef gam (Cf [fin s1] w gam norm) (Cf [fin s2] w gam norm) c j).
    + intros i Hi. apply PC. lia.
    + intros; apply Cf_no_inf.
    + intros; apply Cf_no_inf.
    + rewrite <- (proj1 (proj2 (RA (Cf [fin s1] w gam norm) ltac:(intros; apply Cf_length)))). exact Hj'.
  - set (c := gcount [fin s1] PInfty w gam norm) in *. do 2 eexists. exists c.
    assert (RA : forall T : nat -> arr, (forall i, length (T i) = 1%nat) -> regular (mrq_of WaveletLeader gam T c) c 1) by (intros T LT; apply table_regular; trivial; lia).
    split; [reflexivity|]. split; [reflexivity|].
    split; [apply RA; intros; apply Ld_length|]. split; [apply RA; intros; apply Ld_length|]. split; [lia|].
    split; [apply leads_no_inf; [apply NI|exact Logic.I]|]. split; [apply leads_no_inf; [apply NI|exact Logic.I]|].
    intros j Hj'. apply (tables_aligned WaveletLeader gam (Ld [fin s1] PInfty w gam norm) (Ld [fin s2] PInfty w gam norm) c j).
    + intros i Hi. apply PL.
    + intros; apply Ld_no_inf.
    + intros; apply Ld_no_inf.
    + rewrite <- (proj1 (proj2 (RA (Ld [fin s1] PInfty w gam norm) ltac:(intros; apply Ld_length)))). exact Hj'.
Qed.
Lemma tags A w j1 j2 gam norm wd t ws : Forall no_inf A -> good_wavelet w -> norm <> 0 ->
  wavelet_analysis A PInfty w j1 j2 gam norm wd = Ok (t, ws) ->
  mq_formalism (wt_coefs t) = WaveletCoef /\ mq_gamint (wt_coefs t) = gam /\
  exists l, wt_leaders t = Some l /\ mq_formalism l = WaveletLeader /\ mq_gamint l = gam.
Proof.
  intros HA Hw Hn H. apply wa_inv in H as (eta & _ & -> & _); trivial; [|exact Logic.I]. cbn [the_wt wt_coefs wt_leaders]. split; [reflexivity|]. split; [reflexivity|].
  eexists. split; [reflexivity|]. split; reflexivity.
Qed.

Lemma inf_free (s : list R) : Forall no_inf [fin s].
Proof. constructor; [|constructor]. unfold no_inf, fin. rewrite Forall_map, Forall_forall. eauto. Qed.
Lemma scaled_fin al s : [fin (map (Rmult al) s)] = map (map (xmul (Fin al))) [fin s].
Proof. cbn [map]. f_equal. unfold fin. rewrite !map_map. reflexivity. Qed.

(** ** C89: multiplying the signals by constants *)
Theorem C89_amplitude :
  forall (s1 s2 : list R) (al1 al2 : R) w j1 j2 gam norm wd qa qb n t ws t2 ws2 d o,
  length s1 = length s2 -> (1 <= length s1)%nat -> good_wavelet w -> norm <> 0 -> al1 <> 0 -> al2 <> 0 ->
  wavelet_analysis [fin s1] PInfty w j1 j2 gam norm wd = Ok (t, ws) ->
  wavelet_analysis [fin s2] PInfty w j1 j2 gam norm wd = Ok (t2, ws2) -> (1 <= j1 <= j2_eff t)%Z ->
  bivariate_analysis_full [fin s1] [fin s2] w j1 j2 norm gam wd PInfty (Some (QArr qa)) (Some (QArr qb)) n = Ok (d, Some o) ->
  exists l l2 d' o',
    wt_leaders t = Some l /\ wt_leaders t2 = Some l2 /\
    bivariate_analysis_full [fin (map (Rmult al1) s1)] [fin (map (Rmult al2) s2)] w j1 j2 norm gam wd PInfty (Some (QArr qa)) (Some (QArr qb)) n = Ok (d', Some o') /\
    exponents_shifted (wt_coefs t) (wt_coefs t2) qa qb n j1 (j2_eff t) 0 0 (al1 * al2 / Rabs (al1 * al2)) d d' /\
    exponents_shifted l l2 qa qb n j1 (j2_eff t) 0 0 1 o o'.
Proof.
  intros s1 s2 al1 al2 w j1 j2 gam norm wd qa qb n t ws t2 ws2 d o EL Hl Hw Hn A1 A2 H H' Hj E.
  destruct (one_signal s1 s2 w j1 j2 gam norm wd t ws t2 ws2 EL Hl Hw Hn H H' Hj) as (EJ & (g & R1 & R2 & Hg & N1 & N2 & HL) & l & l2 & g' & L1 & L2 & R1' & R2' & Hg' & N1' & N2' & HL').
  unfold bivariate_analysis_full in E. rewrite H, H' in E. cbn [bind] in E.
  apply (C58_with_leaders t t2 l l2 j1 wd n qa qb d (Some o) L1 L2) in E as [BD (o1 & Eo & BO)]. injection Eo as <-. rewrite EJ, Z.min_id in BD, BO.
  destruct (C30_transform [fin s1] w PInfty j1 j2 gam norm al1 wd t ws (inf_free s1) Hw Hn Logic.I A1 H Logic.I) as (t' & K & EJ1 & _ & RC1 & RL1).
  destruct (C30_transform [fin s2] w PInfty j1 j2 gam norm al2 wd t2 ws2 (inf_free s2) Hw Hn Logic.I A2 H' Logic.I) as (t2' & K' & EJ2 & _ & RC2 & RL2).
  rewrite L1 in RL1. rewrite L2 in RL2.
  assert (I1 : forall al s, Forall no_inf (map (map (xmul (Fin al))) [fin s])) by (intros al s; rewrite <- scaled_fin; apply inf_free).
  destruct (tags _ _ _ _ _ _ _ _ _ (inf_free s1) Hw Hn H) as (T1 & T2 & x & X & T3 & T4). rewrite L1 in X. injection X as <-.
  destruct (tags _ _ _ _ _ _ _ _ _ (inf_free s2) Hw Hn H') as (U1 & U2 & x & X & U3 & U4). rewrite L2 in X. injection X as <-.
  destruct (tags _ _ _ _ _ _ _ _ _ (I1 al1 s1) Hw Hn K) as (V1 & V2 & l' & L1' & V3 & V4). rewrite L1' in RL1.
  destruct (tags _ _ _ _ _ _ _ _ _ (I1 al2 s2) Hw Hn K') as (W1 & W2 & l2' & L2' & W3 & W4). rewrite L2' in RL2.
  assert (Z0 : al1 * al2 <> 0) by (now apply Rmult_integral_contrapositive_currified). assert (ZP := Rabs_pos_lt _ Z0).
  destruct (bi_general (fun _ => al1) (fun _ => al2) 0 (log2R (Rabs al1)) 0 (log2R (Rabs al2)) (al1 * al2 / Rabs (al1 * al2)) (wt_coefs t) (wt_coefs t') (wt_coefs t2) (wt_coefs t2') g j1 (j2_eff t) wd
    (const_f al1 A1) (const_f al2 A2)) with (qa := qa) (qb := qb) (n := n) (r := d) as (d' & BD' & SD); trivial; try congruence; try lia.
  { intros _. field. lra. }
  assert (AP1 := Rabs_no_R0 al1 A1). assert (AP2 := Rabs_no_R0 al2 A2).
  destruct (bi_general (fun _ => Rabs al1) (fun _ => Rabs al2) 0 (log2R (Rabs (Rabs al1))) 0 (log2R (Rabs (Rabs al2))) 1 l l' l2 l2' g' j1 (j2_eff t) wd
    (const_f (Rabs al1) AP1) (const_f (Rabs al2) AP2)) with (qa := qa) (qb := qb) (n := n) (r := o) as (o' & BO' & SO); trivial; try congruence; try lia.
  { intros _. rewrite Rabs_mult, !Rabs_Rabsolu. ring. }
  exists l, l2, d', o'. split; [trivial|]. split; [trivial|]. split; [|split; assumption].
  unfold bivariate_analysis_full. rewrite !scaled_fin, K, K'. cbn [bind].
  apply (C58_with_leaders t' t2' l' l2' j1 wd n qa qb d' (Some o') L1' L2'). rewrite EJ1, EJ2, EJ, Z.min_id. split; [trivial|]. exists o'. split; [reflexivity|trivial].
Qed.
Print Assumptions C89_amplitude.

(** ** C90: fractional integration of the analysis *)
Theorem C90_integration :
  forall (s1 s2 : list R) w j1 j2 gam gam' norm wd qa qb n t ws t2 ws2 d o d' o',
  length s1 = length s2 -> (1 <= length s1)%nat -> good_wavelet w -> norm <> 0 ->
  wavelet_analysis [fin s1] PInfty w j1 j2 gam norm wd = Ok (t, ws) ->
  wavelet_analysis [fin s2] PInfty w j1 j2 gam norm wd = Ok (t2, ws2) -> (1 <= j1 <= j2_eff t)%Z ->
  bivariate_analysis_full [fin s1] [fin s2] w j1 j2 norm gam wd PInfty (Some (QArr qa)) (Some (QArr qb)) n = Ok (d, o) ->
  bivariate_analysis_full [fin s1] [fin s2] w j1 j2 norm gam' wd PInfty (Some (QArr qa)) (Some (QArr qb)) n = Ok (d', o') ->
  exponents_shifted (wt_coefs t) (wt_coefs t2) qa qb n j1 (j2_eff t) (gam' - gam) (gam' - gam) 1 d d'.
Proof.
  intros s1 s2 w j1 j2 gam gam' norm wd qa qb n t ws t2 ws2 d o d' o' EL Hl Hw Hn H H' Hj E E'.
  destruct (one_signal s1 s2 w j1 j2 gam norm wd t ws t2 ws2 EL Hl Hw Hn H H' Hj) as (EJ & (g & R1 & R2 & Hg & N1 & N2 & HL) & l & l2 & g' & L1 & L2 & _).
  unfold bivariate_analysis_full in E, E'. rewrite H, H' in E. cbn [bind] in E.
  destruct (wavelet_analysis [fin s1] PInfty w j1 j2 gam' norm wd) as [[t' ws']|] eqn:K; [|discriminate]. cbn [bind] in E'.
  destruct (wavelet_analysis [fin s2] PInfty w j1 j2 gam' norm wd) as [[t2' ws2']|] eqn:K'; [|discriminate]. cbn [bind] in E'.
  destruct (tags _ _ _ _ _ _ _ _ _ (inf_free s1) Hw Hn H) as (T1 & T2 & _).
  destruct (tags _ _ _ _ _ _ _ _ _ (inf_free s2) Hw Hn H') as (U1 & U2 & _).
  destruct (tags _ _ _ _ _ _ _ _ _ (inf_free s1) Hw Hn K) as (V1 & V2 & l' & L1' & V3 & V4).
  destruct (tags _ _ _ _ _ _ _ _ _ (inf_free s2) Hw Hn K') as (W1 & W2 & l2' & L2' & W3 & W4).
  destruct (C31_coefficients [fin s1] w PInfty j1 j2 gam gam' norm wd t ws t' ws' (inf_free s1) Hw Hn Logic.I H K) as (J1 & _ & RC1).
  destruct (C31_coefficients [fin s2] w PInfty j1 j2 gam gam' norm wd t2 ws2 t2' ws2' (inf_free s2) Hw Hn Logic.I H' K') as (J2 & _ & RC2).
  apply (C58_with_leaders t t2 l l2 j1 wd n qa qb d o L1 L2) in E as [BD _]. rewrite EJ, Z.min_id in BD.
  apply (C58_with_leaders t' t2' l' l2' j1 wd n qa qb d' o' L1' L2') in E' as [BD' _]. rewrite J1, J2, EJ, Z.min_id in BD'.
  destruct (bi_general (fun j => Rpower 2 ((gam' - gam) * IZR j)) (fun j => Rpower 2 ((gam' - gam) * IZR j)) (gam' - gam) 0 (gam' - gam) 0 1 (wt_coefs t) (wt_coefs t') (wt_coefs t2) (wt_coefs t2') g j1 (j2_eff t) wd
    (pow_f _) (pow_f _)) with (qa := qa) (qb := qb) (n := n) (r := d) as (d1 & BD1 & SD); trivial; try congruence; try lia.
  { intros j. rewrite Rabs_right; [ring|]. left. apply Rmult_lt_0_compat; apply Rpower_pos. }
  destruct BD1 as [X1 X2]. destruct BD' as [Y1 Y2]. rewrite Y1 in X1. rewrite Y2 in X2. injection X1 as X1. injection X2 as X2.
  replace d' with d1; [exact SD|]. destruct d1, d'. cbn in X1, X2. congruence.
Qed.
Print Assumptions C90_integration.

(** a concrete case for both: the ramp 0, 1, ..., 23, Haar, every usable value different from zero *)
Lemma joint_self_repeat x n c : joint (repeat (Fin x) n ++ c) (repeat (Fin x) n ++ c) = repeat (x, x) n ++ joint c c.
Proof. induction n as [|n IH]; [reflexivity|]. cbn [repeat app joint]. now rewrite IH. Qed.
Example C89_case : exists t ws d o,
  wavelet_analysis [fin PropsLeaders.ramp] PInfty haar 1 None 0 1 true = Ok (t, ws) /\ j2_eff t = 2%Z /\
  bivariate_analysis_full [fin PropsLeaders.ramp] [fin PropsLeaders.ramp] haar 1 None 1 0 true PInfty (Some (QArr [0; 1; 2])) (Some (QArr [0; 1; 2])) 2 = Ok (d, Some o) /\
  (exists d' o', bivariate_analysis_full [fin PropsLeaders.ramp] [fin PropsLeaders.ramp] haar 1 None 1 (1/2) true PInfty (Some (QArr [0; 1; 2])) (Some (QArr [0; 1; 2])) 2 = Ok (d', Some o')) /\
  forall j, (1 <= j <= 2)%Z -> usable (wt_coefs t) (wt_coefs t) j.
Proof.
  assert (NE : [PropsLeaders.ramp] <> []) by discriminate. assert (HL : Forall (fun s => length s = 24%nat) [PropsLeaders.ramp]) by (repeat constructor).
  assert (X : forall gam, exists t ws d o, wavelet_analysis [fin PropsLeaders.ramp] PInfty haar 1 None gam 1 true = Ok (t, ws) /\ j2_eff t = 2%Z /\
    bivariate_analysis_full [fin PropsLeaders.ramp] [fin PropsLeaders.ramp] haar 1 None 1 gam true PInfty (Some (QArr [0; 1; 2])) (Some (QArr [0; 1; 2])) 2 = Ok (d, Some o)).
  { intros gam. destruct (C14_returns [PropsLeaders.ramp] 24 haar PInfty 1 None gam 1 true NE ltac:(lia) HL good_haar R1_neq_R0 ltac:(auto)) as (t & ws & E).
    cbn [map] in E. exists t, ws. assert (J : j2_eff t = 2%Z).
    { apply wa_inv in E as (eta & _ & -> & _); [|exact good_haar|exact R1_neq_R0|exact Logic.I]. cbn [the_wt j2_eff].
      destruct (PropsLeaders.haar_count gam PInfty Logic.I eq_refl) as (_ & _ & -> & _). reflexivity. }
    destruct (C58_pipeline PropsLeaders.ramp PropsLeaders.ramp haar 1 None gam 1 true [0; 1; 2] [0; 1; 2] 2 t ws) as (t' & ws' & l' & l'' & d & o & _ & _ & _ & _ & K & _);
      try exact E; try lia; try apply incl_refl; try (repeat constructor; cbn; lra); try exact good_haar; try lra; try (rewrite J; lia).
    exists d, o. auto. }
  destruct (X 0) as (t & ws & d & o & E & J & B). exists t, ws, d, o. split; [exact E|]. split; [exact J|]. split; [exact B|].
  split. { destruct (X (1/2)) as (_ & _ & d' & o' & _ & _ & B'). eauto. }
  intros j Hj. apply wa_inv in E as (eta & _ & -> & _); [|exact good_haar|exact R1_neq_R0|exact Logic.I]. cbn [the_wt wt_coefs].
  destruct (PropsLeaders.haar_count 0 PInfty Logic.I eq_refl) as (_ & -> & _).
  assert (C : exists n a, (0 < n)%nat /\ 0 < a /\ column (mrq_of WaveletCoef 0 (Cf [fin PropsLeaders.ramp] haar 0 1) 2) j 0 = repeat (Fin a) n ++ [NaN]).
  { replace j with (Z.of_nat (Z.to_nat j)) by lia. set (i := Z.to_nat j). assert (Hi : i = 1%nat \/ i = 2%nat) by (unfold i; lia). unfold mrq_of. rewrite table_column by lia.
    rewrite Cf_nth_lt by (simpl; lia). cbn [nth]. unfold coef. rewrite rescale_eq.
    set (K := Rpower 2 (0 * IZR (Z.of_nat i) + IZR (Z.of_nat i) * (1 / 2 - 1 / 1))). assert (KP : 0 < K) by (apply Rpower_pos).
    destruct Hi as [Ei|Ei]; rewrite Ei.
    - exists 11%nat, (K * 1). split; [lia|]. split; [lra|]. rewrite PropsLeaders.ramp_d1, map_app. unfold K. rewrite Ei. reflexivity.
    - exists 5%nat, (K * 4). split; [lia|]. split; [lra|]. rewrite PropsLeaders.ramp_d2, map_app. unfold K. rewrite Ei. reflexivity. }
  destruct C as (n & a & Hn & Ha & C). unfold usable, pairs. rewrite C, joint_self_repeat. cbn [joint]. rewrite app_nil_r. split.
  - destruct n; [lia|discriminate].
  - unfold pairs_nonzero. apply Forall_forall. intros p Hp. apply repeat_spec in Hp. subst p. cbn. lra.
Qed.
