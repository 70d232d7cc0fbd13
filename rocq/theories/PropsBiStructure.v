(** * Properties C59, C69, C70: the bivariate Legendre surface and structure functions *)
From Coq Require Import Reals List ZArith Bool Lia Lra.
From Verif Require Import XReal PyBase ModelUtils ModelMRQ ModelStructure ModelCumulants ModelWavelet ModelMFA ModelBivariate
  Spec SpecMRQ SpecBi LXReal LReg LUtils LBase LEst LMoment LCum LBivariate PropsEstimators PropsCumulants PropsBivariate.
Import ListNotations.
Open Scope R_scope.

(** ** C59: the Legendre surface *)
(** the quadratic surface 1 + (c02 x^2 - 2 c11 x y + c20 y^2) / (2 (c20 c02 - c11^2)), x = h1 - c10, y = h2 - c01 *)
Definition surface (c10 c01 c20 c02 c11 h1 h2 : R) : R :=
  1 + (c02 * (h1 - c10) ^ 2 - 2 * c11 * (h1 - c10) * (h2 - c01) + c20 * (h2 - c01) ^ 2) / (2 * (c20 * c02 - c11 ^ 2)).

Lemma legendre_entry_eq c10 c01 c20 c02 c11 h1 h2 : c20 * c02 - c11 ^ 2 <> 0 ->
  legendre_entry (Fin c10) (Fin c01) (Fin c20) (Fin c02) (Fin c11) h1 h2 = Fin (surface c10 c01 c20 c02 c11 h1 h2).
Proof.
  intros H. unfold legendre_entry. cbn [xmul xsub xadd xopp].
  rewrite !xdiv_Fin by (try lra; intros K; apply H; lra). cbn [xmul xsub xadd xopp]. f_equal. unfold surface. field.
  try split; intros K; apply H; lra.
Qed.
Lemma legendre_entry_flat c10 c01 c20 c02 c11 h1 h2 : c20 * c02 - c11 ^ 2 = 0 ->
  legendre_entry (Fin c10) (Fin c01) (Fin c20) (Fin c02) (Fin c11) h1 h2 = NaN.
Proof.
  intros H. unfold legendre_entry. cbn [xmul xsub xadd xopp].
  assert (B : c20 * c02 + - (c11 * c11) = 0) by lra. rewrite B. clear H B.
  rewrite !Rmult_0_r. rewrite !(xdiv_Fin 0 2) by lra.
  assert (Z : 0 / 2 = 0) by field. rewrite Z.
  assert (Q : forall x, exists v, xdiv (Fin x) (Fin 0) = v /\ xmul (Fin 0) v = NaN /\ xmul (Fin 0) (xmul v v) = NaN).
  { intros x. unfold xdiv. destruct (Req_EM_T 0 0) as [_|]; [|lra].
    destruct (Req_EM_T x 0); [eexists; split; [reflexivity|split; reflexivity]|].
    destruct (Rlt_dec 0 x); (eexists; split; [reflexivity|cbn; unfold scale_inf; destruct (Req_EM_T 0 0); [auto|lra]]). }
  destruct (Q (h1 + - c10)) as (u & -> & _ & Q2). rewrite Q2. reflexivity.
Qed.

Theorem C59_legendre :
  forall b lo hi n c10 c01 c20 c02 c11, (2 <= bc_n_cumul b)%nat ->
  b2 (bc_log_cumulants b) 1 0 = Fin c10 -> b2 (bc_log_cumulants b) 0 1 = Fin c01 ->
  b2 (bc_log_cumulants b) 2 0 = Fin c20 -> b2 (bc_log_cumulants b) 0 2 = Fin c02 -> b2 (bc_log_cumulants b) 1 1 = Fin c11 ->
  exists h L, compute_legendre b lo hi n = Ok (h, L) /\ length h = n /\ length L = n /\
    (forall i, (i < n)%nat -> (2 <= n)%nat -> nth i h 0 = lo + INR i * ((hi - lo) / INR (n - 1))) /\
    (c20 * c02 - c11 ^ 2 = 0 -> forall i k, (i < n)%nat -> (k < n)%nat -> b2 L i k = NaN) /\
    (c20 * c02 - c11 ^ 2 <> 0 -> forall i k, (i < n)%nat -> (k < n)%nat ->
       b2 L i k = Fin (surface c10 c01 c20 c02 c11 (nth i h 0) (nth k h 0))).
Proof.
  intros b lo hi n c10 c01 c20 c02 c11 Hn E10 E01 E20 E02 E11. unfold b2 in *.
  assert (C : forall a k, (a <= 2)%nat -> (k <= 2)%nat -> bc_c b a k = [nth k (nth a (bc_log_cumulants b) []) NaN]).
  { intros a k Ha Hk. unfold bc_c. destruct (Nat.leb_spec a (bc_n_cumul b)); [|lia]. destruct (Nat.leb_spec k (bc_n_cumul b)); [|lia]. reflexivity. }
  unfold compute_legendre. rewrite !C, E10, E01, E20, E02, E11 by lia.
  eexists. eexists. split; [reflexivity|].
  assert (LL : length (linspace lo hi n) = n) by (unfold linspace; now rewrite map_length, seq_length).
  split; [exact LL|]. split; [now rewrite map_length|].
  assert (NT : forall i k, (i < n)%nat -> (k < n)%nat ->
    nth k (nth i (map (fun h1 => map (legendre_entry (Fin c10) (Fin c01) (Fin c20) (Fin c02) (Fin c11) h1) (linspace lo hi n)) (linspace lo hi n)) []) NaN
    = legendre_entry (Fin c10) (Fin c01) (Fin c20) (Fin c02) (Fin c11) (nth i (linspace lo hi n) 0) (nth k (linspace lo hi n) 0)).
  { intros i k Hi Hk.
    rewrite (nth_indep _ [] (map (legendre_entry (Fin c10) (Fin c01) (Fin c20) (Fin c02) (Fin c11) 0) (linspace lo hi n))) by (now rewrite map_length, LL).
    rewrite (map_nth (fun h1 => map (legendre_entry (Fin c10) (Fin c01) (Fin c20) (Fin c02) (Fin c11) h1) (linspace lo hi n))).
    rewrite (nth_indep _ NaN (legendre_entry (Fin c10) (Fin c01) (Fin c20) (Fin c02) (Fin c11) (nth i (linspace lo hi n) 0) 0)) by (now rewrite map_length, LL).
    apply map_nth. }
  split.
  - intros i Hi Hn2. unfold linspace. destruct n as [|[|n]]; [lia|lia|].
    rewrite (nth_indep _ 0 (lo + INR 0 * ((hi - lo) / INR (S (S n) - 1)))) by (now rewrite map_length, seq_length).
    rewrite (map_nth (fun i => lo + INR i * ((hi - lo) / INR (S (S n) - 1)))). rewrite seq_nth by lia. reflexivity.
  - split.
    + intros D i k Hi Hk. rewrite NT by trivial. now apply legendre_entry_flat.
    + intros D i k Hi Hk. rewrite NT by trivial. now apply legendre_entry_eq.
Qed.
Print Assumptions C59_legendre.

(** the surface is symmetric in the two components, its value at (c10, c01) is 1, and this is its only maximum for
    negative definite second-order cumulants *)
Theorem C59_surface :
  (forall c10 c01 c20 c02 c11 h1 h2, surface c01 c10 c02 c20 c11 h2 h1 = surface c10 c01 c20 c02 c11 h1 h2) /\
  (forall c10 c01 c20 c02 c11, surface c10 c01 c20 c02 c11 c10 c01 = 1) /\
  (forall c10 c01 c20 c02 c11 h1 h2, c20 < 0 -> c02 < 0 -> c11 ^ 2 < c20 * c02 ->
     surface c10 c01 c20 c02 c11 h1 h2 <= 1 /\
     (surface c10 c01 c20 c02 c11 h1 h2 = 1 -> h1 = c10 /\ h2 = c01)).
Proof.
  split; [|split].
  - intros. unfold surface. rewrite (Rmult_comm c02 c20). f_equal. f_equal. ring.
  - intros. unfold surface. replace (c10 - c10) with 0 by ring. replace (c01 - c01) with 0 by ring.
    replace (c02 * 0 ^ 2 - 2 * c11 * 0 * 0 + c20 * 0 ^ 2) with 0 by ring. unfold Rdiv. ring.
  - intros c10 c01 c20 c02 c11 h1 h2 H1 H2 H3. unfold surface. set (x := h1 - c10). set (y := h2 - c01).
    set (D := c20 * c02 - c11 ^ 2). assert (PD : 0 < D) by (unfold D; lra).
    assert (SQ : (c02 * x ^ 2 - 2 * c11 * x * y + c20 * y ^ 2) / (2 * D) = - ((c02 * x - c11 * y) ^ 2 + D * y ^ 2) / (- c02 * (2 * D))).
    { unfold D. field. split; [fold D; lra|lra]. }
    rewrite SQ. set (Q := (c02 * x - c11 * y) ^ 2 + D * y ^ 2).
    assert (Q0 : 0 <= Q) by (unfold Q; assert (A := pow2_ge_0 (c02 * x - c11 * y)); assert (B := Rmult_le_pos D (y ^ 2) ltac:(lra) (pow2_ge_0 y)); lra).
    assert (PM : 0 < - c02 * (2 * D)) by (apply Rmult_lt_0_compat; lra).
    assert (I : 0 < / (- c02 * (2 * D))) by (now apply Rinv_0_lt_compat).
    assert (EQ : - Q / (- c02 * (2 * D)) = - (Q * / (- c02 * (2 * D)))) by (unfold Rdiv; ring).
    rewrite EQ. assert (N := Rmult_le_pos _ _ Q0 (Rlt_le _ _ I)). split; [lra|].
    intros E. assert (Z : Q * / (- c02 * (2 * D)) = 0) by lra.
    apply Rmult_integral in Z as [Z|Z]; [|lra]. unfold Q in Z.
    assert (A := pow2_ge_0 (c02 * x - c11 * y)). assert (B := Rmult_le_pos D (y ^ 2) ltac:(lra) (pow2_ge_0 y)).
    assert (Y : y = 0).
    { assert (Z2 : D * y ^ 2 = 0) by lra. apply Rmult_integral in Z2 as [Z2|Z2]; [lra|].
      destruct (Req_EM_T y 0) as [|NY]; [trivial|]. exfalso. apply (pow_nonzero y 2 NY), Z2. }
    assert (X : x = 0).
    { assert (Z1 : (c02 * x - c11 * y) ^ 2 = 0) by lra. rewrite Y in Z1.
      destruct (Req_EM_T x 0) as [|NX]; [trivial|]. exfalso. apply (pow_nonzero (c02 * x - c11 * 0) 2); [|exact Z1].
      intros K. assert (K' : c02 * x = 0) by lra. apply Rmult_integral in K' as [|]; lra. }
    unfold x, y in *. split; lra.
Qed.
Print Assumptions C59_surface.

(** exchanging the two quantities transposes the surface *)
Theorem C59_swap :
  forall m1 m2 g n j1 j2 wd b lo hi k h L,
  regular m1 g 1 -> regular m2 g 1 -> counted m1 -> counted m2 -> (1 <= j1)%Z -> (j1 <= j2)%Z -> (j2 <= Z.of_nat g)%Z ->
  (forall j, In j (scales m1) -> length (column m1 j 0) = length (column m2 j 0)) -> (2 <= n)%nat ->
  BiCumulants m1 m2 n j1 j2 wd = Ok b -> compute_legendre b lo hi k = Ok (h, L) ->
  (forall u v, (u + v <= 2)%nat -> exists c, b2 (bc_log_cumulants b) u v = Fin c) ->
  exists b' L', BiCumulants m2 m1 n j1 j2 wd = Ok b' /\ compute_legendre b' lo hi k = Ok (h, L') /\
    forall u v, (u < k)%nat -> (v < k)%nat -> b2 L' v u = b2 L u v.
Proof.
  intros m1 m2 g n j1 j2 wd b lo hi k h L R1 R2 C1 C2 H1 H2 H3 HL Hn E EL F.
  destruct (C56_swap m1 m2 g n j1 j2 wd b R1 R2 C1 C2 H1 H2 H3 HL E) as (b' & E' & T & _).
  assert (N : forall a c B, BiCumulants a c n j1 j2 wd = Ok B -> bc_n_cumul B = n).
  { intros a c B. unfold BiCumulants. do 3 (destruct (assert_ _) || destruct (nj_equal _ _); cbn [bind]; try discriminate).
    cbv zeta. destruct (mapM _ _); cbn [bind]; try discriminate. destruct (mapM _ _); cbn [bind]; try discriminate.
    destruct (bi_rho _ _ _ _) as [[? ?]|]; cbn [bind]; try discriminate. intros K. injection K as <-. reflexivity. }
  assert (Nb := N _ _ _ E). assert (Nb' := N _ _ _ E').
  destruct (F 1%nat 0%nat ltac:(lia)) as [c10 E10]. destruct (F 0%nat 1%nat ltac:(lia)) as [c01 E01].
  destruct (F 2%nat 0%nat ltac:(lia)) as [c20 E20]. destruct (F 0%nat 2%nat ltac:(lia)) as [c02 E02].
  destruct (F 1%nat 1%nat ltac:(lia)) as [c11 E11].
  assert (T' : forall u v c, (u <= n)%nat -> (v <= n)%nat -> b2 (bc_log_cumulants b) u v = Fin c -> b2 (bc_log_cumulants b') v u = Fin c).
  { intros u v c Hu Hv K. destruct (T u v Hu Hv) as (_ & _ & _ & ->). exact K. }
  destruct (C59_legendre b lo hi k _ _ _ _ _ ltac:(lia) E10 E01 E20 E02 E11) as (h0 & L0 & EL0 & _ & _ & _ & Z & V).
  rewrite EL in EL0. injection EL0 as <- <-.
  destruct (C59_legendre b' lo hi k c01 c10 c02 c20 c11 ltac:(lia)) as (h1 & L' & EL' & _ & _ & _ & Z' & V');
    try (apply T'; trivial; lia).
  assert (Hh : h1 = h).
  { unfold compute_legendre in EL, EL'. repeat (destruct (bc_c _ _ _) as [|? [|? ?]] in EL; try (destruct k; try discriminate)); 
    repeat (destruct (bc_c _ _ _) as [|? [|? ?]] in EL'; try (destruct k; try discriminate)); congruence. }
  subst h1. exists b', L'. split; [exact E'|]. split; [exact EL'|]. intros u v Hu Hv.
  destruct (Req_EM_T (c20 * c02 - c11 ^ 2) 0) as [D|D].
  - rewrite (Z D u v Hu Hv). apply Z'; trivial. rewrite <- D. ring.
  - rewrite (V D u v Hu Hv), V' by (trivial; rewrite (Rmult_comm c02); trivial). f_equal. apply (proj1 C59_surface).
Qed.
Print Assumptions C59_swap.

(** ** C69: the joint structure functions *)
Lemma q3_map (F : pynum -> pynum -> Z -> xr) qa qb g i k j : (i < length qa)%nat -> (k < length qb)%nat -> In j (one_to g) ->
  b3 (map (fun a => map (fun b => map (F a b) (one_to g)) (map PyFloat qb)) (map PyFloat qa)) i k j = F (PyFloat (nth i qa 0)) (PyFloat (nth k qb 0)) j.
Proof.
  intros Hi Hk Hj. unfold b3. rewrite map_map.
  rewrite (nth_indep _ [] ((fun x => map (fun b => map (F (PyFloat x) b) (one_to g)) (map PyFloat qb)) 0)) by (now rewrite map_length).
  rewrite (map_nth (fun x => map (fun b => map (F (PyFloat x) b) (one_to g)) (map PyFloat qb))). rewrite map_map.
  rewrite (nth_indep _ [] ((fun x => map (F (PyFloat (nth i qa 0)) (PyFloat x)) (one_to g)) 0)) by (now rewrite map_length).
  rewrite (map_nth (fun x => map (F (PyFloat (nth i qa 0)) (PyFloat x)) (one_to g))). now apply (b1_map (F _ _)).
Qed.
Lemma q2_map (F : pynum -> pynum -> xr) qa qb i k : (i < length qa)%nat -> (k < length qb)%nat ->
  b2 (map (fun a => map (fun b => F a b) (map PyFloat qb)) (map PyFloat qa)) i k = F (PyFloat (nth i qa 0)) (PyFloat (nth k qb 0)).
Proof.
  intros Hi Hk. unfold b2. rewrite map_map.
  rewrite (nth_indep _ [] ((fun x => map (F (PyFloat x)) (map PyFloat qb)) 0)) by (now rewrite map_length).
  rewrite (map_nth (fun x => map (F (PyFloat x)) (map PyFloat qb))). rewrite map_map.
  rewrite (nth_indep _ NaN ((fun x => F (PyFloat (nth i qa 0)) (PyFloat x)) 0)) by (now rewrite map_length).
  apply (map_nth (fun x => F (PyFloat (nth i qa 0)) (PyFloat x))).
Qed.
Lemma BS_rows m1 m2 g qa qb j1 j2 wd s :
  regular m1 g 1 -> regular m2 g 1 -> (1 <= j1)%Z -> (j1 <= j2)%Z -> (j2 <= Z.of_nat g)%Z ->
  (forall j, In j (scales m1) -> length (column m1 j 0) = length (column m2 j 0)) ->
  BiStructureFunction m1 m2 j1 j2 (Some (QArr qa)) (Some (QArr qb)) wd = Ok s ->
  bs_j s = one_to g /\ bs_formalism s = mq_formalism m1 /\ bs_gamint s = mq_gamint m1 /\
  length (bs_logvalues s) = length qa /\ length (bs_zeta s) = length qa /\
  (forall i k, (i < length qa)%nat -> (k < length qb)%nat ->
    (forall j, In j (scales m1) -> b3 (bs_logvalues s) i k j = logSval m1 m2 (PyFloat (nth i qa 0)) (PyFloat (nth k qb 0)) j) /\
    b2 (bs_zeta s) i k = fslope wd m1 j1 j2 0 (logSval m1 m2 (PyFloat (nth i qa 0)) (PyFloat (nth k qb 0))) /\
    b2 (bs_intercept s) i k = ficept wd m1 j1 j2 0 (logSval m1 m2 (PyFloat (nth i qa 0)) (PyFloat (nth k qb 0)))) /\
  bi_coherence (QArr qa) (QArr qb) (Stable (fun x => x) m1 m2 g (QArr qa) (QArr qb)) = Ok (bs_coherence s).
Proof.
  intros R1 R2 H1 H2 H3 HL E. assert (S1 : scales m1 = one_to g) by apply R1. rewrite S1 in *.
  destruct (BS_ok_inv _ _ _ _ _ _ _ _ E) as (HF & HG & HN & _).
  rewrite (BS_eq m1 m2 g (QArr qa) (QArr qb) j1 j2 wd R1 R2 H1 H2 H3 HF HG HN HL) in E.
  destruct (bi_coherence _ _ _) as [coh|]; [|discriminate]. cbn [bind] in E. injection E as <-.
  cbn [bs_j bs_formalism bs_gamint bs_logvalues bs_zeta bs_intercept bs_coherence q_items].
  do 3 (split; [reflexivity|]). split; [now rewrite !map_length|]. split; [now rewrite !map_length|]. split; [|reflexivity].
  intros i k Hi Hk. split; [intros j Hj; now apply (q3_map (logSval m1 m2))|].
  split; [now apply (q2_map (fun a b => fslope wd m1 j1 j2 0 (logSval m1 m2 a b)))|].
  now apply (q2_map (fun a b => ficept wd m1 j1 j2 0 (logSval m1 m2 a b))).
Qed.
Lemma logSval_eq m1 m2 j p q : aligned m1 m2 j -> pairs m1 m2 j <> [] -> pairs_defined p q (pairs m1 m2 j) ->
  0 < jmoment p q (pairs m1 m2 j) ->
  logSval m1 m2 (PyFloat p) (PyFloat q) j = Fin (log2R (jmoment p q (pairs m1 m2 j))).
Proof. intros A N D P. unfold logSval. rewrite Sval_abs by trivial. cbn [num_val]. now apply xlog2_pos. Qed.
Lemma logSval_inv m1 m2 j p q x : aligned m1 m2 j -> pairs m1 m2 j <> [] -> pairs_defined p q (pairs m1 m2 j) ->
  logSval m1 m2 (PyFloat p) (PyFloat q) j = Fin x ->
  0 < jmoment p q (pairs m1 m2 j) /\ x = log2R (jmoment p q (pairs m1 m2 j)).
Proof.
  intros A N D. unfold logSval. rewrite Sval_abs by trivial. cbn [num_val]. unfold xlog2.
  destruct (Rlt_dec 0 _); [intros K; injection K as <-; auto|]. destruct (Req_EM_T _ 0); discriminate.
Qed.

Theorem C69_log_moments :
  forall m1 m2 g qa qb j1 j2 wd s,
  regular m1 g 1 -> regular m2 g 1 -> (1 <= j1)%Z -> (j1 <= j2)%Z -> (j2 <= Z.of_nat g)%Z ->
  (forall j, In j (scales m1) -> length (column m1 j 0) = length (column m2 j 0)) ->
  BiStructureFunction m1 m2 j1 j2 (Some (QArr qa)) (Some (QArr qb)) wd = Ok s ->
  bs_j s = scales m1 /\ length (bs_logvalues s) = length qa /\ length (bs_zeta s) = length qa /\
  forall i k j, (i < length qa)%nat -> (k < length qb)%nat -> In j (scales m1) ->
    aligned m1 m2 j -> pairs m1 m2 j <> [] ->
    pairs_defined (nth i qa 0) (nth k qb 0) (pairs m1 m2 j) ->
    0 < jmoment (nth i qa 0) (nth k qb 0) (pairs m1 m2 j) ->
    b3 (bs_logvalues s) i k j
    = Fin (ln (mean (map (fun p => qpow (nth i qa 0) (fst p) * qpow (nth k qb 0) (snd p)) (pairs m1 m2 j))) / ln 2).
Proof.
  intros m1 m2 g qa qb j1 j2 wd s R1 R2 H1 H2 H3 HL E.
  destruct (BS_rows m1 m2 g qa qb j1 j2 wd s R1 R2 H1 H2 H3 HL E) as (J & _ & _ & L1 & L2 & V & _).
  split; [rewrite J; symmetry; apply R1|]. split; [exact L1|]. split; [exact L2|].
  intros i k j Hi Hk Hj A N D P. destruct (V i k Hi Hk) as [Va _]. rewrite Va by trivial. now apply logSval_eq.
Qed.
Print Assumptions C69_log_moments.

Theorem C69_zeta_best_line :
  forall m1 m2 g qa qb j1 j2 wd s,
  regular m1 g 1 -> regular m2 g 1 -> (1 <= j1)%Z -> (j1 < j2)%Z -> (j2 <= Z.of_nat g)%Z ->
  (forall j, In j (scales m1) -> length (column m1 j 0) = length (column m2 j 0)) ->
  BiStructureFunction m1 m2 j1 j2 (Some (QArr qa)) (Some (QArr qb)) wd = Ok s ->
  forall i k (y : Z -> R), (i < length qa)%nat -> (k < length qb)%nat ->
    (forall j, (j1 <= j <= j2)%Z -> (0 < count m1 j 0)%nat /\ b3 (bs_logvalues s) i k j = Fin (y j)) ->
    exists a b, b2 (bs_zeta s) i k = Fin a /\ b2 (bs_intercept s) i k = Fin b /\
      is_best_line (fit_points wd m1 j1 j2 0 y) a b.
Proof.
  intros m1 m2 g qa qb j1 j2 wd s R1 R2 H1 H2 H3 HL E i k y Hi Hk Hy.
  destruct (BS_rows m1 m2 g qa qb j1 j2 wd s R1 R2 H1 ltac:(lia) H3 HL E) as (_ & _ & _ & _ & _ & V & _).
  destruct (V i k Hi Hk) as (A & B & D).
  assert (W : well_posed (fit_points wd m1 j1 j2 0 y)) by (apply fit_well_posed; trivial; intros; now apply Hy).
  destruct (fit_finite wd m1 j1 j2 0 y W) as [F G].
  exists (LReg.slope (fit_points wd m1 j1 j2 0 y)), (LReg.icept (fit_points wd m1 j1 j2 0 y)).
  assert (X : forall j, (j1 <= j <= j2)%Z -> logSval m1 m2 (PyFloat (nth i qa 0)) (PyFloat (nth k qb 0)) j = Fin (y j)).
  { intros j Hj. rewrite <- A by (eapply (range_in m1); eassumption). now apply Hy. }
  split; [rewrite B, <- F; now apply fslope_ext|]. split; [rewrite D, <- G; now apply ficept_ext|]. now apply best_line.
Qed.
Print Assumptions C69_zeta_best_line.

(** the row and column of order 0 are the univariate structure functions *)
Theorem C69_marginals :
  forall m1 m2 g qa qb j1 j2 wd s s1 s2,
  regular m1 g 1 -> regular m2 g 1 -> (1 <= j1)%Z -> (j1 <= j2)%Z -> (j2 <= Z.of_nat g)%Z ->
  (forall j, In j (scales m1) -> same_nans m1 m2 j) ->
  BiStructureFunction m1 m2 j1 j2 (Some (QArr qa)) (Some (QArr qb)) wd = Ok s ->
  StructureFunction m1 (QArr qa) j1 j2 wd = Ok s1 -> StructureFunction m2 (QArr qb) j1 j2 wd = Ok s2 ->
  (forall i k, (i < length qa)%nat -> (k < length qb)%nat -> nth k qb 0 = 0 ->
     (forall j, In j (scales m1) -> b3 (bs_logvalues s) i k j = at3 (sf_logvalues s1) i 0 j) /\
     b2 (bs_zeta s) i k = at2 (sf_zeta s1) i 0 /\ b2 (bs_intercept s) i k = at2 (sf_intercept s1) i 0) /\
  (forall i k, (i < length qa)%nat -> (k < length qb)%nat -> nth i qa 0 = 0 ->
     (forall j, In j (scales m1) -> b3 (bs_logvalues s) i k j = at3 (sf_logvalues s2) k 0 j) /\
     b2 (bs_zeta s) i k = at2 (sf_zeta s2) k 0 /\ b2 (bs_intercept s) i k = at2 (sf_intercept s2) k 0).
Proof.
  intros m1 m2 g qa qb j1 j2 wd s s1 s2 R1 R2 H1 H2 H3 HS E E1 E2.
  assert (S1 : scales m1 = one_to g) by apply R1. assert (S2 : scales m2 = one_to g) by apply R2.
  assert (HL : forall j, In j (scales m1) -> length (column m1 j 0) = length (column m2 j 0)).
  { intros j Hj. apply HS in Hj. apply (f_equal (@length _)) in Hj. now rewrite !map_length in Hj. }
  destruct (BS_ok_inv _ _ _ _ _ _ _ _ E) as (HF & HG & HN & _). assert (HC := nj_equal_counts m1 m2 HN).
  assert (KJ : dict_keys (mq_nj m1) = one_to g) by apply R1. rewrite KJ in HC.
  destruct (BS_rows m1 m2 g qa qb j1 j2 wd s R1 R2 H1 H2 H3 HL E) as (_ & _ & _ & _ & _ & V & _).
  assert (IN : forall j, (j1 <= j <= j2)%Z -> In j (scales m1)) by (intros j Hj; eapply (range_in m1); eassumption).
  split; intros i k Hi Hk Z; destruct (V i k Hi Hk) as (Va & Vz & Vi).
  - destruct (SF_rows m1 g 1 qa j1 j2 wd s1 R1 H1 H2 H3 E1 i 0%nat Hi ltac:(lia)) as (A & B & D).
    assert (X : forall j, In j (scales m1) -> logSval m1 m2 (PyFloat (nth i qa 0)) (PyFloat (nth k qb 0)) j = logS m1 (PyFloat (nth i qa 0)) 0 j).
    { intros j Hj. unfold logSval, logS, Sval, sf_moment. rewrite Z.
      destruct (mean_prod_pow0 (map xabs (column m1 j 0)) (map xabs (column m2 j 0)) (PyFloat (nth i qa 0))) as [-> _]; [|reflexivity].
      rewrite !map_isnan_abs. apply HS, Hj. }
    split; [intros j Hj; now rewrite Va, A, X|]. rewrite Vz, Vi, B, D.
    split; [apply fslope_ext|apply ficept_ext]; intros j Hj; apply X, IN, Hj.
  - destruct (SF_rows m2 g 1 qb j1 j2 wd s2 R2 H1 H2 H3 E2 k 0%nat Hk ltac:(lia)) as (A & B & D).
    assert (X : forall j, In j (scales m1) -> logSval m1 m2 (PyFloat (nth i qa 0)) (PyFloat (nth k qb 0)) j = logS m2 (PyFloat (nth k qb 0)) 0 j).
    { intros j Hj. unfold logSval, logS, Sval, sf_moment. rewrite Z.
      destruct (mean_prod_pow0 (map xabs (column m2 j 0)) (map xabs (column m1 j 0)) (PyFloat (nth k qb 0))) as [_ ->]; [|reflexivity].
      rewrite !map_isnan_abs. symmetry. apply HS, Hj. }
    split; [intros j Hj; rewrite Va, A, X by (trivial; now rewrite S2, <- S1); reflexivity|].
    assert (W : forall y, fit3 wd m2 j1 j2 0 y = fit3 wd m1 j1 j2 0 y).
    { intros y. apply fit3_weights. intros j Hj. symmetry. apply HC. rewrite <- S1. now apply IN. }
    rewrite Vz, Vi, B, D. unfold fslope, ficept. rewrite !W.
    split; [apply fslope_ext|apply ficept_ext]; intros j Hj; apply X, IN, Hj.
Qed.
Print Assumptions C69_marginals.

(** exchanging the quantities (and the orders) transposes the tables *)
Theorem C69_swap :
  forall m1 m2 g qa qb j1 j2 wd s s',
  regular m1 g 1 -> regular m2 g 1 -> counted m1 -> counted m2 -> (1 <= j1)%Z -> (j1 <= j2)%Z -> (j2 <= Z.of_nat g)%Z ->
  (forall j, In j (scales m1) -> length (column m1 j 0) = length (column m2 j 0)) ->
  BiStructureFunction m1 m2 j1 j2 (Some (QArr qa)) (Some (QArr qb)) wd = Ok s ->
  BiStructureFunction m2 m1 j1 j2 (Some (QArr qb)) (Some (QArr qa)) wd = Ok s' ->
  forall i k, (i < length qa)%nat -> (k < length qb)%nat ->
    (forall j, In j (scales m1) -> b3 (bs_logvalues s') k i j = b3 (bs_logvalues s) i k j) /\
    b2 (bs_zeta s') k i = b2 (bs_zeta s) i k /\ b2 (bs_intercept s') k i = b2 (bs_intercept s) i k.
Proof.
  intros m1 m2 g qa qb j1 j2 wd s s' R1 R2 C1 C2 H1 H2 H3 HL E E' i k Hi Hk.
  assert (S1 : scales m1 = one_to g) by apply R1. assert (S2 : scales m2 = one_to g) by apply R2.
  assert (HL' : forall j, In j (scales m2) -> length (column m2 j 0) = length (column m1 j 0)).
  { intros j Hj. symmetry. apply HL. now rewrite S1, <- S2. }
  destruct (BS_ok_inv _ _ _ _ _ _ _ _ E) as (_ & _ & HN & _). assert (HC := nj_equal_counts m1 m2 HN).
  assert (KJ : dict_keys (mq_nj m1) = one_to g) by apply R1. rewrite KJ in HC.
  assert (IN : forall j, (j1 <= j <= j2)%Z -> In j (scales m1)) by (intros j Hj; eapply (range_in m1); eassumption).
  destruct (BS_rows m1 m2 g qa qb j1 j2 wd s R1 R2 H1 H2 H3 HL E) as (_ & _ & _ & _ & _ & V & _).
  destruct (BS_rows m2 m1 g qb qa j1 j2 wd s' R2 R1 H1 H2 H3 HL' E') as (_ & _ & _ & _ & _ & V' & _).
  destruct (V i k Hi Hk) as (Va & Vz & Vi). destruct (V' k i Hk Hi) as (Va' & Vz' & Vi').
  assert (X : forall j, In j (scales m1) -> logSval m2 m1 (PyFloat (nth k qb 0)) (PyFloat (nth i qa 0)) j
                                         = logSval m1 m2 (PyFloat (nth i qa 0)) (PyFloat (nth k qb 0)) j).
  { intros j Hj. unfold logSval. now rewrite Sval_swap by (now apply HL). }
  split; [intros j Hj; rewrite Va, Va', X by (trivial; now rewrite S2, <- S1); reflexivity|].
  assert (W : forall y, fit3 wd m2 j1 j2 0 y = fit3 wd m1 j1 j2 0 y).
  { intros y. apply fit3_weights. intros j Hj. symmetry. apply HC. rewrite <- S1. now apply IN. }
  rewrite Vz, Vi, Vz', Vi'. unfold fslope, ficept. rewrite !W.
  split; [apply fslope_ext|apply ficept_ext]; intros j Hj; apply X, IN, Hj.
Qed.
Print Assumptions C69_swap.

(** ** C70: the joint log-moments are convex along every segment of orders *)
Theorem C70_log_convex :
  forall m1 m2 g qa qb j1 j2 wd s,
  regular m1 g 1 -> regular m2 g 1 -> (1 <= j1)%Z -> (j1 <= j2)%Z -> (j2 <= Z.of_nat g)%Z ->
  (forall j, In j (scales m1) -> length (column m1 j 0) = length (column m2 j 0)) ->
  BiStructureFunction m1 m2 j1 j2 (Some (QArr qa)) (Some (QArr qb)) wd = Ok s ->
  forall i1 k1 i2 k2 i k j t x1 x2 x, (i1 < length qa)%nat -> (k1 < length qb)%nat -> (i2 < length qa)%nat -> (k2 < length qb)%nat ->
    (i < length qa)%nat -> (k < length qb)%nat -> In j (scales m1) -> aligned m1 m2 j -> pairs m1 m2 j <> [] ->
    0 <= t <= 1 ->
    nth i qa 0 = t * nth i1 qa 0 + (1 - t) * nth i2 qa 0 -> nth k qb 0 = t * nth k1 qb 0 + (1 - t) * nth k2 qb 0 ->
    pairs_defined (nth i1 qa 0) (nth k1 qb 0) (pairs m1 m2 j) -> pairs_defined (nth i2 qa 0) (nth k2 qb 0) (pairs m1 m2 j) ->
    b3 (bs_logvalues s) i1 k1 j = Fin x1 -> b3 (bs_logvalues s) i2 k2 j = Fin x2 -> b3 (bs_logvalues s) i k j = Fin x ->
    x <= t * x1 + (1 - t) * x2.
Proof.
  intros m1 m2 g qa qb j1 j2 wd s R1 R2 H1 H2 H3 HL E i1 k1 i2 k2 i k j t x1 x2 x I1 K1 I2 K2 Ii Kk Hj A N Ht Eq Ek D1 D2 X1 X2 X.
  destruct (BS_rows m1 m2 g qa qb j1 j2 wd s R1 R2 H1 H2 H3 HL E) as (_ & _ & _ & _ & _ & V & _).
  destruct (V i1 k1 I1 K1) as [V1 _]. destruct (V i2 k2 I2 K2) as [V2 _]. destruct (V i k Ii Kk) as [V3 _].
  rewrite V1 in X1 by trivial. rewrite V2 in X2 by trivial. rewrite V3 in X by trivial.
  assert (D : pairs_defined (nth i qa 0) (nth k qb 0) (pairs m1 m2 j)).
  { unfold pairs_defined in *. rewrite Forall_forall in *. intros v Hv. destruct (D1 v Hv) as [A1 B1]. destruct (D2 v Hv) as [A2 B2].
    split.
    - rewrite Eq. destruct A1 as [A1|]; [|now right]. destruct A2 as [A2|]; [|now right]. left.
      assert (0 <= t * nth i1 qa 0) by (apply Rmult_le_pos; lra). assert (0 <= (1 - t) * nth i2 qa 0) by (apply Rmult_le_pos; lra). lra.
    - rewrite Ek. destruct B1 as [B1|]; [|now right]. destruct B2 as [B2|]; [|now right]. left.
      assert (0 <= t * nth k1 qb 0) by (apply Rmult_le_pos; lra). assert (0 <= (1 - t) * nth k2 qb 0) by (apply Rmult_le_pos; lra). lra. }
  apply logSval_inv in X1 as [P1 ->]; trivial. apply logSval_inv in X2 as [P2 ->]; trivial. apply logSval_inv in X as [P ->]; trivial.
  destruct (Req_EM_T t 0) as [Z|NZ].
  { subst t. right. rewrite Eq, Ek. replace (0 * nth i1 qa 0 + (1 - 0) * nth i2 qa 0) with (nth i2 qa 0) by ring.
    replace (0 * nth k1 qb 0 + (1 - 0) * nth k2 qb 0) with (nth k2 qb 0) by ring. ring. }
  destruct (Req_EM_T t 1) as [O|NO].
  { subst t. right. rewrite Eq, Ek. replace (1 * nth i1 qa 0 + (1 - 1) * nth i2 qa 0) with (nth i1 qa 0) by ring.
    replace (1 * nth k1 qb 0 + (1 - 1) * nth k2 qb 0) with (nth k1 qb 0) by ring. ring. }
  assert (K := joint_holder (nth i1 qa 0) (nth k1 qb 0) (nth i2 qa 0) (nth k2 qb 0) t (pairs m1 m2 j) N ltac:(lra) D1 D2 P1 P2).
  rewrite <- Eq, <- Ek in K.
  assert (L2 : 0 < ln 2) by (rewrite <- ln_1; apply ln_increasing; lra).
  unfold log2R. apply Rmult_le_reg_r with (ln 2); [exact L2|].
  replace ((t * (ln (jmoment (nth i1 qa 0) (nth k1 qb 0) (pairs m1 m2 j)) / ln 2) +
     (1 - t) * (ln (jmoment (nth i2 qa 0) (nth k2 qb 0) (pairs m1 m2 j)) / ln 2)) * ln 2)
    with (t * ln (jmoment (nth i1 qa 0) (nth k1 qb 0) (pairs m1 m2 j)) + (1 - t) * ln (jmoment (nth i2 qa 0) (nth k2 qb 0) (pairs m1 m2 j))) by (field; lra).
  unfold Rdiv. rewrite Rmult_assoc, Rinv_l, Rmult_1_r by lra.
  destruct K as [K|K]; [|rewrite K, ln_exp; lra]. rewrite <- (ln_exp (t * ln _ + _)). left. now apply ln_increasing.
Qed.
Print Assumptions C70_log_convex.

(** the hypotheses of C55, C69 and C70 are met by concrete quantities *)
Example C69_example : exists s, BiStructureFunction (bi_demo WaveletCoef 0 2) (bi_demo WaveletCoef 0 (-3)) 1 2
    (Some (QArr [0; 1; 2])) (Some (QArr [0; 1; 2])) true = Ok s /\
  b1 (bs_coherence s) 1 = Fin (- 4 / sqrt 66) /\ b3 (bs_logvalues s) 1 1 2 = Fin (ln (8 / 3) / ln 2).
Proof.
  set (m := bi_demo WaveletCoef 0 2). set (m' := bi_demo WaveletCoef 0 (-3)).
  assert (HR := bi_demo_regular WaveletCoef 0 2). assert (HC := bi_demo_counted WaveletCoef 0 2). fold m in HR, HC.
  assert (HR' := bi_demo_regular WaveletCoef 0 (-3)). assert (HC' := bi_demo_counted WaveletCoef 0 (-3)). fold m' in HR', HC'.
  assert (HA := bi_demo_aligned WaveletCoef 0 2 (-3)). fold m m' in HA.
  assert (ND : NoDup [0; 1; 2]) by (repeat constructor; cbn; lra).
  assert (K := C55_needed_moments m m' 2 (Some (QArr [0; 1; 2])) (Some (QArr [0; 1; 2])) 1 2 true HR HR' HC HC' ltac:(lia) ltac:(lia) ltac:(lia) eq_refl eq_refl).
  destruct K as [_ [s E]]; trivial.
  { intros j Hj. split; apply HA, Hj. }
  { split; apply incl_refl. }
  exists s. split; [exact E|]. split.
  - destruct (C55_coherence m m' 2 _ _ 1 2 true s HR HR' ltac:(lia) ltac:(lia) ltac:(lia) (fun j Hj => proj1 (HA j Hj)) E) as [_ V].
    specialize (V 1%Z ltac:(left; reflexivity)). cbv zeta in V. destruct (HA 1%Z ltac:(left; reflexivity)) as (_ & _ & _ & P). rewrite P in V.
    cbn [map fst snd Rsum fold_right] in V.
    replace ((2 ^ 2 + (1 ^ 2 + (1 ^ 2 + 0))) * ((-3) ^ 2 + (1 ^ 2 + (1 ^ 2 + 0)))) with 66 in V by ring.
    destruct V as [_ V]. destruct V as [-> _]; [lra|]. f_equal. f_equal. ring.
  - destruct (C69_log_moments m m' 2 _ _ 1 2 true s HR HR' ltac:(lia) ltac:(lia) ltac:(lia) (fun j Hj => proj1 (proj1 (HA j Hj))) E) as (_ & _ & _ & V).
    destruct (HA 2%Z ltac:(right; left; reflexivity)) as (A & _ & _ & P).
    assert (Q : forall a, a <> 0 -> qpow 1 a = Rabs a).
    { intros a Ha. unfold qpow, abs_pow. destruct (Req_EM_T 1 0); [lra|]. destruct (Req_EM_T a 0); [lra|]. rewrite Rmult_1_l. apply exp_ln, Rabs_pos_lt, Ha. }
    assert (M : mean (map (fun p => qpow 1 (fst p) * qpow 1 (snd p)) [(2, -3); (1, 1); (1, 1)]) = 8 / 3).
    { unfold mean, Rsum. cbn [map fst snd fold_right length INR]. rewrite !Q by lra. rewrite (Rabs_pos_eq 2), Rabs_R1 by lra. rewrite Rabs_left by lra. field. }
    specialize (V 1%nat 1%nat 2%Z ltac:(cbn; lia) ltac:(cbn; lia) ltac:(right; left; reflexivity) A). rewrite P in V. cbn [nth] in V. rewrite M in V. apply V.
    + discriminate.
    + unfold pairs_defined. rewrite Forall_forall. intros v _. split; left; lra.
    + unfold jmoment, pmean. rewrite M. lra.
Qed.
