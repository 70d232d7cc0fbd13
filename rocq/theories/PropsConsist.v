(** * C112, continued: the exponent estimated from simulated fractional noise converges to the exponent that was simulated *)
From Coq Require Import Reals List ZArith Bool Lra Lia String FunctionalExtensionality.
From Verif Require Import XReal PyBase ModelUtils ModelMRQ ModelStructure ModelWavelet ModelSimul Spec SpecMRQ SpecSimul LXReal LUtils LBase LFilter LTransform LPattern LWave LPoly LCone LMoment LWaveEst LDft LSimul LEst LReg
  PropsEstimators PropsWavelet PropsMissing PropsSlope PropsWhite PropsWhitePower PropsWhiteCase PropsSimul PropsWhiteFbm PropsRounded LTaps PropsDecorr PropsShortRange PropsHaarFgn PropsHaarFbm LWick PropsFluct.
Import ListNotations.
Open Scope R_scope.
Local Notation length := List.length.
Local Notation entry := SpecMRQ.entry.

(** ** Logarithms of numbers close to each other *)
Lemma ln_near x y delta : 0 < y -> 0 < delta <= 1 / 2 -> Rabs (x - y) < delta * y -> 0 < x /\ Rabs (ln x - ln y) <= 2 * delta.
Proof.
  intros Hy Hd H. apply Rabs_def2 in H as [H1 H2]. assert (X : (1 - delta) * y < x) by lra. assert (X0 : 0 < x) by nra. split; [trivial|].
  assert (U : forall t, 0 < t -> ln t <= t - 1). { intros t Ht. assert (K := exp_ineq1_le (ln t)). rewrite exp_ln in K by trivial. lra. }
  assert (A := U (x / y) (Rdiv_lt_0_compat _ _ X0 Hy)). assert (B := U (y / x) (Rdiv_lt_0_compat _ _ Hy X0)).
  unfold Rdiv in A, B. rewrite ln_mult, ln_Rinv in A by (trivial; now apply Rinv_0_lt_compat). rewrite ln_mult, ln_Rinv in B by (trivial; now apply Rinv_0_lt_compat).
  assert (A' : x * / y <= 1 + delta). { apply Rmult_le_reg_r with y; [trivial|]. rewrite Rmult_assoc, Rinv_l by lra. lra. }
  assert (B' : y * / x <= 1 + 2 * delta). { apply Rmult_le_reg_r with x; [trivial|]. rewrite Rmult_assoc, Rinv_l by lra. nra. }
  apply Rabs_le. lra.
Qed.

(** ** The estimate read from a transform whose mean powers are close to a power law *)
Section Read.
Variables (S : list (list R)) (n : nat) (w : wavelet) (p : pexp) (ja : Z) (jb : option R) (gam norm : R) (weighted : bool) (t : wtransform) (ws : list warning).
Hypothesis HS : Forall (fun s => length s = n) S.
Hypothesis Hw : good_wavelet w.
Hypothesis Hn : norm <> 0.
Hypothesis Hp : p_ok p.
Hypothesis HT : wavelet_analysis (map fin S) p w ja jb gam norm weighted = Ok (t, ws).
Lemma hurst_near qs (j1 j2 : nat) wd r a b eps : In 2 qs -> (1 <= j1 < j2)%nat -> In (Z.of_nat j2) (scales (wt_coefs t)) -> (r < length S)%nat ->
  (forall j, (j1 <= j <= j2)%nat -> (1 <= inner_count n (length (dec_hi w)) j)%nat /\ 0 < abs_moment 2 (numbers (wt_coefs t) (Z.of_nat j) r) /\
     Rabs (log2R (abs_moment 2 (numbers (wt_coefs t) (Z.of_nat j) r)) - (a * INR j + b)) <= eps) ->
  exists s h, StructureFunction (wt_coefs t) (QArr qs) (Z.of_nat j1) (Z.of_nat j2) wd = Ok s /\ nth r (sf_H s) NaN = Fin h /\ Rabs (h - (a / 2 - gam)) <= eps.
Proof using All.
  intros H2 Hj I2 Hr HV. assert (CN := C99_count S n w p ja jb gam norm weighted t ws HS Hw Hn Hp HT).
  assert (CF := fun j => column_facts (fun _ : unit => S) n (length S) w p ja jb gam norm weighted (fun _ => t) (fun _ => ws) (fun _ => conj eq_refl HS) Hw Hn Hp (fun _ => HT) j r tt).
  assert (E := HT). apply wa_inv in E as (eta & _ & ET & _ & _ & _ & NA); trivial.
  assert (SC : scales (wt_coefs t) = one_to (ccount (map fin S) p w gam norm)) by (rewrite ET; apply PropsWavelet.scales_mrq).
  set (g := ccount (map fin S) p w gam norm) in *. rewrite SC in I2. apply one_to_In in I2.
  assert (HR : regular (wt_coefs t) g (length S)). { rewrite ET. cbn [the_wt wt_coefs]. rewrite <- (map_length fin S). apply coefs_regular. fold g. lia. }
  assert (IN : forall j, (j1 <= j <= j2)%nat -> In (Z.of_nat j) (scales (wt_coefs t))) by (intros j Hjj; rewrite SC; apply one_to_In; lia).
  set (m := wt_coefs t) in *. set (y := fun j : Z => log2R (abs_moment 2 (numbers m j r))).
  assert (LS : forall j, (Z.of_nat j1 <= j <= Z.of_nat j2)%Z -> logS m (PyFloat 2) r j = Fin (y j)).
  { intros j Hjj. rewrite <- (Z2Nat.id j) by lia. set (i := Z.to_nat j). assert (Hi : (j1 <= i <= j2)%nat) by lia. destruct (HV i Hi) as (C1 & V0 & _). destruct (CF i ltac:(lia) (IN i Hi) Hr) as (NI & _ & LR & _).
    apply logS_eq; [split; [exact NI|]|left; lra|exact V0]. unfold numbers. intros X. fold m in LR. rewrite X in LR. cbn in LR. lia. }
  assert (WP : well_posed (fit_points wd m (Z.of_nat j1) (Z.of_nat j2) r y)).
  { apply fit_well_posed; [lia|]. intros j Hjj. rewrite <- (Z2Nat.id j) by lia. rewrite (CN (Z.to_nat j) r) by (trivial; apply IN; lia). destruct (HV (Z.to_nat j) ltac:(lia)) as [C1 _]. lia. }
  destruct (fit_finite wd m (Z.of_nat j1) (Z.of_nat j2) r y WP) as [FS _]. set (pts := fit_points wd m (Z.of_nat j1) (Z.of_nat j2) r y) in *.
  assert (EG : mq_gamint m = gam) by (unfold m; rewrite ET; reflexivity).
  rewrite (SF_eq m g (length S) HR) by lia. apply has_two_In in H2. rewrite H2. do 2 eexists. split; [reflexivity|]. cbn [sf_H].
  rewrite (nth_map_lt _ _ _ 0%nat) by (now rewrite seq_length). rewrite seq_nth by trivial. cbn [Nat.add].
  rewrite (fslope_ext wd m (Z.of_nat j1) (Z.of_nat j2) r _ (fun j => Fin (y j)) LS), FS, EG. cbn [xdiv]. destruct (Req_EM_T 2 0) as [X|_]; [lra|]. cbv [xsub xadd xopp]. split; [reflexivity|].
  assert (N : Rabs (slope pts - a) <= 2 * eps).
  { apply slope_near; [exact WP|]. intros u v Hu Hv. unfold pts, fit_points in Hu, Hv. apply in_map_iff in Hu as (i & <- & Hi). apply in_map_iff in Hv as (k & <- & Hk). apply zrange_In in Hi, Hk. cbn [px py fst snd].
    assert (Q : forall l : Z, (Z.of_nat j1 <= l <= Z.of_nat j2)%Z -> Rabs (y l - (a * IZR l + b)) <= eps).
    { intros l Hl. destruct (HV (Z.to_nat l) ltac:(lia)) as (_ & _ & Q). rewrite INR_IZR_INZ, Z2Nat.id in Q by lia. exact Q. }
    assert (A := Q i ltac:(lia)). assert (B := Q k ltac:(lia)).
    destruct (Z.eq_dec i k) as [->|nik]. { replace (y k - y k - a * (IZR k - IZR k)) with 0 by ring. rewrite Rminus_diag_eq by reflexivity. rewrite !Rabs_R0. lra. }
    assert (E0 : 0 <= eps) by (assert (K := Rabs_pos (y i - (a * IZR i + b))); lra).
    assert (D1 : 1 <= Rabs (IZR i - IZR k)). { rewrite <- minus_IZR, <- abs_IZR. apply IZR_le. lia. }
    replace (y i - y k - a * (IZR i - IZR k)) with ((y i - (a * IZR i + b)) + - (y k - (a * IZR k + b))) by ring.
    eapply Rle_trans; [apply Rabs_triang|]. rewrite Rabs_Ropp. nra. }
  replace (slope pts / 2 + - gam - (a / 2 - gam)) with (/ 2 * (slope pts - a)) by field. rewrite Rabs_mult, (Rabs_pos_eq (/ 2)) by lra. lra.
Qed.
End Read.

(** ** Probability that the estimate is far from the exponent *)
Lemma estimate_prob {W} (P : expectation W) (S : W -> list (list R)) (n nrep : nat) w p ja jb gam norm weighted (T : W -> wtransform) (ws : W -> list warning) r (j1 j2 : nat) qs wd a b eps0 eps delta (mu v : nat -> R) :
  (forall o, length (S o) = nrep /\ Forall (fun s => length s = n) (S o)) -> good_wavelet w -> norm <> 0 -> p_ok p ->
  (forall o, wavelet_analysis (map fin (S o)) p w ja jb gam norm weighted = Ok (T o, ws o)) ->
  In 2 qs -> (1 <= j1 < j2)%nat -> (forall o, In (Z.of_nat j2) (scales (wt_coefs (T o)))) -> (r < nrep)%nat -> 0 < delta <= 1 / 2 -> 2 * delta / ln 2 <= eps ->
  (forall j, (j1 <= j <= j2)%nat -> let power o := abs_moment 2 (numbers (wt_coefs (T o)) (Z.of_nat j) r) in
     (1 <= inner_count n (length (dec_hi w)) j)%nat /\ 0 < mu j /\ Rabs (log2R (mu j) - (a * INR j + b)) <= eps0 /\
     integrable P (fun o => (power o - mu j) ^ 2) /\ E P (fun o => (power o - mu j) ^ 2) <= v j) ->
  prob_at_most P (fun o => ~ exists s h, StructureFunction (wt_coefs (T o)) (QArr qs) (Z.of_nat j1) (Z.of_nat j2) wd = Ok s /\ nth r (sf_H s) NaN = Fin h /\ Rabs (h - (a / 2 - gam)) <= eps0 + eps)
    (Rsum (map (fun j => v j / (delta * mu j) ^ 2) (seq j1 (Datatypes.S (j2 - j1))))).
Proof.
  intros HS Hw Hn Hp HT H2 Hj I2 Hr Hd He HV. set (l := seq j1 (Datatypes.S (j2 - j1))).
  assert (IL : forall j, In j l <-> (j1 <= j <= j2)%nat) by (intros j; unfold l; rewrite in_seq; lia).
  set (A j o := delta * mu j <= Rabs (abs_moment 2 (numbers (wt_coefs (T o)) (Z.of_nat j) r) - mu j)).
  eapply prob_weaken; [|apply Rle_refl|apply (prob_list P A)].
  - intros o NO. destruct (Exists_dec (fun j => A j o) l) as [X|X]; [intros j; unfold A; apply Rle_dec|now apply Exists_exists in X|].
    exfalso. apply NO. apply (hurst_near (S o) n w p ja jb gam norm weighted (T o) (ws o) (proj2 (HS o)) Hw Hn Hp (HT o) qs j1 j2 wd r a b (eps0 + eps)); trivial; [rewrite (proj1 (HS o)); trivial|].
    intros j Hjj. destruct (HV j Hjj) as (C1 & M0 & ML & _). split; [exact C1|].
    assert (L2 : 0 < ln 2) by (assert (K := ln_lt_2); lra).
    assert (NA : Rabs (abs_moment 2 (numbers (wt_coefs (T o)) (Z.of_nat j) r) - mu j) < delta * mu j).
    { apply Rnot_le_lt. intros Y. apply X. apply Exists_exists. exists j. split; [now apply IL|exact Y]. }
    destruct (ln_near _ _ delta M0 Hd NA) as [V0 VL]. split; [exact V0|].
    set (V := abs_moment 2 (numbers (wt_coefs (T o)) (Z.of_nat j) r)) in *. replace (log2R V - (a * INR j + b)) with ((log2R V - log2R (mu j)) + (log2R (mu j) - (a * INR j + b))) by ring.
    eapply Rle_trans; [apply Rabs_triang|]. assert (Rabs (log2R V - log2R (mu j)) <= eps); [|lra].
    unfold log2R. replace (ln V / ln 2 - ln (mu j) / ln 2) with ((ln V - ln (mu j)) * / ln 2) by (field; lra). rewrite Rabs_mult, (Rabs_pos_eq (/ ln 2)) by (left; now apply Rinv_0_lt_compat).
    eapply Rle_trans; [|exact He]. unfold Rdiv. apply Rmult_le_compat_r; [left; now apply Rinv_0_lt_compat|exact VL].
  - intros j Hjl. apply IL in Hjl. destruct (HV j Hjl) as (_ & M0 & _ & I & B). unfold A.
    apply (chebyshev P (fun o => abs_moment 2 (numbers (wt_coefs (T o)) (Z.of_nat j) r))); trivial. apply Rmult_lt_0_compat; lra.
Qed.

(** ** Constants common to finitely many scales *)
Lemma list_bound (Q : nat -> R -> Prop) l : (forall j C C', C <= C' -> Q j C -> Q j C') -> (forall j, In j l -> exists C, Q j C) -> exists C, 0 <= C /\ forall j, In j l -> Q j C.
Proof.
  intros HM. induction l as [|j l IH]; intros H; [exists 0; split; [lra|intros ? []]|].
  destruct IH as (C & C0 & HC); [intros i Hi; apply H; now right|]. destruct (H j (or_introl eq_refl)) as [C' HC']. exists (Rmax C C').
  split; [eapply Rle_trans; [exact C0|apply Rmax_l]|]. intros i [<-|Hi]; [eapply HM; [apply Rmax_r|trivial]|eapply HM; [apply Rmax_l|auto]].
Qed.
Lemma haar_count N j : (1 <= j)%nat -> (1 <= inner_count N 2 j)%nat -> / INR (inner_count N 2 j) <= 2 ^ (j + 2) / INR N.
Proof.
  intros Hj H1. assert (C0 : 0 < INR (inner_count N 2 j)) by (apply lt_0_INR; lia).
  assert (B : (N <= 2 ^ (j + 2) * inner_count N 2 j)%nat).
  { set (q := (N / 2 ^ (j - 1))%nat). assert (Ec : inner_count N 2 j = ((q + 1 - 2) / 2 - 0)%nat) by reflexivity. set (c := inner_count N 2 j) in *. clearbody c.
    assert (P0 : (2 ^ (j - 1) <> 0)%nat) by (apply Nat.pow_nonzero; lia). assert (D := Nat.div_mod N (2 ^ (j - 1)) P0). assert (U := Nat.mod_upper_bound N (2 ^ (j - 1)) P0). fold q in D.
    assert (D2 := Nat.div_mod (q + 1 - 2) 2 ltac:(lia)). assert (U2 := Nat.mod_upper_bound (q + 1 - 2) 2 ltac:(lia)).
    replace (j + 2)%nat with (Datatypes.S (Datatypes.S (Datatypes.S (j - 1)))) by lia. cbn [Nat.pow]. set (b := (2 ^ (j - 1))%nat) in *. assert (q <= 2 * c + 2)%nat by lia. nia. }
  destruct (Nat.eq_dec N 0) as [->|N0].
  { exfalso. unfold inner_count in H1. rewrite Nat.div_0_l in H1 by (apply Nat.pow_nonzero; lia). vm_compute in H1. lia. }
  assert (NP : 0 < INR N) by (apply lt_0_INR; lia). apply le_INR in B. rewrite mult_INR, pow_INR in B. change (INR 2) with 2 in B.
  apply Rmult_le_reg_l with (INR (inner_count N 2 j)); [trivial|]. rewrite Rinv_r by lra. apply Rmult_le_reg_r with (INR N); [trivial|].
  replace (INR (inner_count N 2 j) * (2 ^ (j + 2) / INR N) * INR N) with (2 ^ (j + 2) * INR (inner_count N 2 j)) by (field; lra). lra.
Qed.
Lemma haar_scale N j : (1 <= j)%nat -> (inner_count N 2 j < 3)%nat -> INR N <= 2 ^ (j + 2).
Proof.
  intros Hj H. assert (B : (N <= 2 ^ (j + 2))%nat).
  { unfold inner_count in H. change ((2 - 1) / 2)%nat with 0%nat in H. set (q := (N / 2 ^ (j - 1))%nat) in *.
    assert (P0 : (2 ^ (j - 1) <> 0)%nat) by (apply Nat.pow_nonzero; lia). assert (D := Nat.div_mod N (2 ^ (j - 1)) P0). assert (U := Nat.mod_upper_bound N (2 ^ (j - 1)) P0). fold q in D.
    assert (D2 := Nat.div_mod (q + 1 - 2) 2 ltac:(lia)). assert (U2 := Nat.mod_upper_bound (q + 1 - 2) 2 ltac:(lia)).
    replace (j + 2)%nat with (Datatypes.S (Datatypes.S (Datatypes.S (j - 1)))) by lia. cbn [Nat.pow]. set (b := (2 ^ (j - 1))%nat) in *. assert (q <= 6)%nat by lia. nia. }
  apply le_INR in B. now rewrite pow_INR in B.
Qed.
Lemma vanish_haar1 : vanishing_moments (dec_hi haar1) 1.
Proof. intros a Ha. assert (a = 0)%nat as -> by lia. cbn [haar1 dec_hi length seq map nth pow]. unfold Rsum. cbn. ring. Qed.

(** ** C112: fgn *)
Definition fgn_bound (H : R) (w : wavelet) (gam norm : R) (j : nat) (C : R) : Prop :=
  forall W (P : expectation W) sh N sigma dt d z0 (drawn : W -> noise) p j1 j2 weighted,
  shape_N sh = N -> (2 <= N)%nat -> sampling_step dt N d -> gaussian_complex P (shape_R sh) (2 * N - 2) (fun w => nz (drawn w)) -> p_ok p ->
  exists X, (forall o, fgn sh H sigma dt "cme" z0 (drawn o) = Ok (presented sh (X o), false)) /\ (forall o, shaped (shape_R sh) N (X o)) /\
  forall (T : W -> wtransform) (ws : W -> list warning), (forall o, wavelet_analysis (map fin (X o)) p w j1 j2 gam norm weighted = Ok (T o, ws o)) ->
  forall r, (r < shape_R sh)%nat -> (forall o, In (Z.of_nat j) (scales (wt_coefs (T o)))) -> (1 <= inner_count N (length (dec_hi w)) j)%nat ->
  let power o := abs_moment 2 (numbers (wt_coefs (T o)) (Z.of_nat j) r) in
  integrable P power /\ E P power = factor norm gam j ^ 2 * (sigma ^ 2 * Rpower d (2 * H)) * high_cov w (unit_fgn H) j 0 /\
  integrable P (fun o => (power o - E P power) ^ 2) /\
  E P (fun o => (power o - E P power) ^ 2) <= C * (sigma ^ 2 * Rpower d (2 * H)) ^ 2 / INR (inner_count N (length (dec_hi w)) j).
Lemma fgn_bound_mono H w gam norm j C C' : C <= C' -> fgn_bound H w gam norm j C -> fgn_bound H w gam norm j C'.
Proof.
  intros L F W P sh N sigma dt d z0 drawn p j1 j2 wd EN HN Hd HZ Hp. destruct (F W P sh N sigma dt d z0 drawn p j1 j2 wd EN HN Hd HZ Hp) as (X & EX & HS & K).
  exists X. split; [exact EX|]. split; [exact HS|]. intros T ws HT r Hr HI Hc power. destruct (K T ws HT r Hr HI Hc) as (A & B & D & Q). split; [exact A|]. split; [exact B|]. split; [exact D|].
  eapply Rle_trans; [exact Q|]. unfold Rdiv. apply Rmult_le_compat_r; [left; apply Rinv_0_lt_compat, lt_0_INR; lia|]. apply Rmult_le_compat_r; [apply pow2_ge_0|trivial].
Qed.
Lemma same_array {W} sh N (F : W -> res (nd R * bool)) (X Y : W -> list (list R)) : (forall o, shaped (shape_R sh) N (X o)) -> (forall o, shaped (shape_R sh) N (Y o)) ->
  (forall o, F o = Ok (presented sh (X o), false)) -> (forall o, F o = Ok (presented sh (Y o), false)) -> X = Y.
Proof. intros SX SY EX EY. apply functional_extensionality. intros o. apply (presented_inj sh N); trivial. specialize (EX o). rewrite EY in EX. congruence. Qed.
Definition haar_unit (H norm gam : R) (j : nat) : R := factor norm gam j ^ 2 * ((4 - Rpower 4 H) / 2 * Rpower 2 ((INR j - 1) * (2 * H - 1))).
Lemma haar_unit_eq H sigma d j : 0 < d -> (1 <= j)%nat -> high_cov haar1 (unit_fgn H) j 0 * (sigma ^ 2 * Rpower d (2 * H)) = haar_variance H sigma d j.
Proof.
  intros Hd Hj. rewrite <- (haar_var H sigma d j Hd Hj). rewrite Rmult_comm, <- high_cov_scal. apply high_cov_ext'. intros z. symmetry. now apply fgn_scale.
Qed.
(** the whole chain, any formalism: for every tolerance, the probability that the structure function of a realisation does not give H - 1/norm within
    the tolerance is at most K / N, where K depends neither on the length N, nor on sigma, nor on the sampling step *)
Theorem C112_fgn_estimate :
  forall H gam norm eps (j1 j2 : nat), 0 < H < 1 -> norm <> 0 -> 0 < eps -> (1 <= j1 < j2)%nat ->
  exists K, forall W (P : expectation W) sh N sigma dt d z0 (drawn : W -> noise) p ja jb weighted,
  shape_N sh = N -> (2 <= N)%nat -> sampling_step dt N d -> sigma <> 0 -> gaussian_complex P (shape_R sh) (2 * N - 2) (fun w => nz (drawn w)) -> p_ok p ->
  exists X, (forall o, fgn sh H sigma dt "cme" z0 (drawn o) = Ok (presented sh (X o), false)) /\ (forall o, shaped (shape_R sh) N (X o)) /\
  forall (T : W -> wtransform) (ws : W -> list warning), (forall o, wavelet_analysis (map fin (X o)) p haar1 ja jb gam norm weighted = Ok (T o, ws o)) ->
  (forall o, In (Z.of_nat j2) (scales (wt_coefs (T o)))) -> (1 <= inner_count N 2 j2)%nat ->
  forall r qs wd, (r < shape_R sh)%nat -> In 2 qs ->
  prob_at_most P (fun o => ~ exists s h, StructureFunction (wt_coefs (T o)) (QArr qs) (Z.of_nat j1) (Z.of_nat j2) wd = Ok s /\ nth r (sf_H s) NaN = Fin h /\ Rabs (h - (H - 1 / norm)) <= eps)
    (K / INR N).
Proof.
  intros H gam norm eps j1 j2 HH Hn He Hj. set (l := seq j1 (Datatypes.S (j2 - j1))).
  assert (IL : forall j, In j l <-> (j1 <= j <= j2)%nat) by (intros j; unfold l; rewrite in_seq; lia).
  destruct (list_bound (fgn_bound H haar1 gam norm) l) as (C & C0 & HC).
  { intros j C C'. apply fgn_bound_mono. }
  { intros j Hjl. apply IL in Hjl. destruct (C112_fluctuation_fgn H haar1 1 j gam norm ltac:(lra) good_haar1 vanish_haar1 ltac:(lia) ltac:(lia) Hn) as [C HC]. exists C. exact HC. }
  assert (L2 : 0 < ln 2) by (assert (K := ln_lt_2); lra).
  set (delta := Rmin (1 / 2) (eps / 2 * ln 2 / 2)).
  assert (Hd0 : 0 < delta). { apply Rmin_pos; [lra|]. apply Rmult_lt_0_compat; [|lra]. apply Rmult_lt_0_compat; lra. }
  assert (Hd1 : delta <= 1 / 2) by apply Rmin_l. assert (Hd2 : 2 * delta / ln 2 <= eps / 2).
  { assert (Q : delta <= eps / 2 * ln 2 / 2) by apply Rmin_r. apply Rmult_le_reg_r with (ln 2); [trivial|]. unfold Rdiv at 1. rewrite Rmult_assoc, Rinv_l by lra. lra. }
  set (u := haar_unit H norm gam).
  assert (U0 : forall j, 0 < u j).
  { intros j. unfold u, haar_unit. assert (Rpower 4 H < 4) by (rewrite <- (Rpower_1 4) at 2 by lra; apply Rpower_lt; lra).
    apply Rmult_lt_0_compat; [apply pow_lt, exp_pos|]. apply Rmult_lt_0_compat; [lra|apply exp_pos]. }
  exists (Rsum (map (fun j => C * 2 ^ (j + 2) / (delta * u j) ^ 2) l)).
  intros W P sh N sigma dt d z0 drawn p ja jb wd0 EN HN Hd Hs HG Hp. assert (d0 := proj2 (step_ok dt N d ltac:(lia) Hd)).
  destruct (fgn_stationary P sh N H sigma dt d z0 drawn EN HN Hd ltac:(lra) (proj1 HG)) as (X & EX & HS & _).
  exists X. split; [exact EX|]. split; [exact HS|]. intros T ws HT I2 IC r qs wd Hr H2.
  set (A := sigma ^ 2 * Rpower d (2 * H)). assert (A0 : 0 < A). { apply Rmult_lt_0_compat; [rewrite <- Rsqr_pow2; now apply Rsqr_pos_lt|apply exp_pos]. }
  assert (MU : forall j, (1 <= j)%nat -> factor norm gam j ^ 2 * A * high_cov haar1 (unit_fgn H) j 0 = A * u j).
  { intros j J1. transitivity (factor norm gam j ^ 2 * (high_cov haar1 (unit_fgn H) j 0 * (sigma ^ 2 * Rpower d (2 * H)))); [unfold A; ring|]. rewrite haar_unit_eq by trivial. unfold u, haar_unit, haar_variance, A. field. }
  assert (SC : forall o j, (j1 <= j <= j2)%nat -> In (Z.of_nat j) (scales (wt_coefs (T o)))).
  { intros o j Hjj. assert (I := I2 o). assert (Q := HT o). apply wa_inv in Q as (eta & _ & ET & _); trivial; [|apply good_haar1].
    assert (S1 : scales (wt_coefs (T o)) = one_to (ccount (map fin (X o)) p haar1 gam norm)) by (rewrite ET; apply PropsWavelet.scales_mrq). rewrite S1 in *. apply one_to_In in I. apply one_to_In. lia. }
  assert (CJ : forall j, (j1 <= j <= j2)%nat -> (1 <= inner_count N 2 j)%nat) by (intros j Hjj; assert (Q := inner_count_decr N 2 j j2 ltac:(lia)); lia).
  set (b := log2R ((4 - Rpower 4 H) / 2 * A) - (2 * H - 1)).
  eapply prob_weaken; [| |apply (estimate_prob P X N (shape_R sh) haar1 p ja jb gam norm wd0 T ws r j1 j2 qs wd (2 * H - 2 / norm + 2 * gam) b (eps / 2) (eps / 2) delta (fun j => A * u j) (fun j => C * A ^ 2 / INR (inner_count N 2 j)))]; trivial.
  - intros o NO (s & h & E1 & E2 & E3). apply NO. exists s, h. split; [exact E1|]. split; [exact E2|]. replace (H - 1 / norm) with ((2 * H - 2 / norm + 2 * gam) / 2 - gam) by (field; trivial). lra.
  - fold l. match goal with |- _ <= ?a / ?b => replace (a / b) with (/ b * a) by (unfold Rdiv; ring) end. rewrite <- Rsum_scal_map. apply tsum_le. intros j Hjl. apply IL in Hjl.
    assert (Q := haar_count N j ltac:(lia) (CJ j Hjl)). assert (Uj := U0 j). assert (NP : 0 < INR N) by (apply lt_0_INR; lia). assert (CP : 0 < INR (inner_count N 2 j)) by (apply lt_0_INR; specialize (CJ j Hjl); lia).
    replace (C * A ^ 2 / INR (inner_count N 2 j) / (delta * (A * u j)) ^ 2) with (C / (delta * u j) ^ 2 * / INR (inner_count N 2 j)) by (field; repeat split; lra).
    replace (/ INR N * (C * 2 ^ (j + 2) / (delta * u j) ^ 2)) with (C / (delta * u j) ^ 2 * (2 ^ (j + 2) / INR N)) by (field; repeat split; lra).
    apply Rmult_le_compat_l; [|exact Q]. apply Rmult_le_pos; [trivial|]. left. apply Rinv_0_lt_compat, pow_lt. now apply Rmult_lt_0_compat.
  - exact good_haar1.
  - now split.
  - intros j Hjj power. split; [now apply CJ|]. split; [now apply Rmult_lt_0_compat|]. split.
    + replace (log2R (A * u j)) with ((2 * H - 2 / norm + 2 * gam) * INR j + b); [rewrite Rminus_diag_eq by reflexivity; rewrite Rabs_R0; lra|].
      assert (G0 : 0 < (4 - Rpower 4 H) / 2). { assert (Rpower 4 H < 4) by (rewrite <- (Rpower_1 4) at 2 by lra; apply Rpower_lt; lra). lra. }
      set (G := (4 - Rpower 4 H) / 2) in *.
      assert (EL : ln (A * u j) = ln A + (2 * (INR j * (1 / 2 - 1 / norm + gam)) * ln 2 + (ln G + (INR j - 1) * (2 * H - 1) * ln 2))).
      { rewrite ln_mult by trivial. f_equal. unfold u, haar_unit, factor. fold G. rewrite ln_mult; [|apply pow_lt, exp_pos|apply Rmult_lt_0_compat; [trivial|apply exp_pos]].
        rewrite ln_pow by apply exp_pos. rewrite (ln_mult G) by (trivial; apply exp_pos). unfold Rpower. rewrite !ln_exp. change (INR 2) with 2. ring. }
      unfold b, log2R. fold G. rewrite EL, ln_mult by trivial. field. split; [trivial|lra].
    + apply IL in Hjj as Hjl. destruct (HC j Hjl W P sh N sigma dt d z0 drawn p ja jb wd0 EN HN Hd HG Hp) as (X' & EX' & HS' & K).
      rewrite (same_array sh N _ X' X HS' HS EX' EX) in K. destruct (K T ws HT r Hr (fun o => SC o j Hjj) (CJ j Hjj)) as (_ & EM & I1 & V1). fold power A in EM, I1, V1. rewrite MU in EM by lia. rewrite EM in I1, V1. now split.
Qed.
Print Assumptions C112_fgn_estimate.

(** ** From the simulation to the estimate *)
Lemma prob_one {W} (P : expectation W) (A : W -> Prop) q : 1 <= q -> prob_at_most P A q.
Proof. intros H. exists (fun _ => 1). split; [apply int_one|]. split; [intros; lra|]. split; [intros; lra|]. rewrite E_one. exact H. Qed.
Definition transform_of (S : list (list R)) (w : wavelet) ja jb gam norm weighted : wtransform :=
  match wavelet_analysis (map fin S) PNone w ja jb gam norm weighted with Ok (t, _) => t | Err _ => the_wt [] PNone w None gam norm [] end.
Definition warnings_of (S : list (list R)) (w : wavelet) ja jb gam norm weighted : list warning :=
  match wavelet_analysis (map fin S) PNone w ja jb gam norm weighted with Ok (_, ws) => ws | Err _ => [] end.
Lemma transform_ok S n w ja jb gam norm weighted : S <> [] -> (1 <= n)%nat -> Forall (fun s => length s = n) S -> good_wavelet w -> norm <> 0 ->
  wavelet_analysis (map fin S) PNone w ja jb gam norm weighted = Ok (transform_of S w ja jb gam norm weighted, warnings_of S w ja jb gam norm weighted).
Proof.
  intros NS Hn HS Hw Hno. destruct (C14_returns S n w PNone ja jb gam norm weighted NS Hn HS Hw Hno (or_introl eq_refl)) as (t & ws & E). unfold transform_of, warnings_of. now rewrite E.
Qed.
(** simulate, analyse, fit: fails or gives an exponent further than eps from H - 1/norm (H - 1 with the default normalisation: fgn is the increments of an fbm of exponent H)
    with probability at most K / N; no hypothesis on the transform is left *)
Theorem C112_fgn_consistent :
  forall H gam norm eps (j1 j2 : nat), 0 < H < 1 -> norm <> 0 -> 0 < eps -> (1 <= j1 < j2)%nat ->
  exists K, forall W (P : expectation W) sh N sigma dt d z0 (drawn : W -> noise) ja jb weighted r qs wd,
  shape_N sh = N -> (2 <= N)%nat -> sampling_step dt N d -> sigma <> 0 -> gaussian_complex P (shape_R sh) (2 * N - 2) (fun w => nz (drawn w)) -> (r < shape_R sh)%nat -> In 2 qs ->
  prob_at_most P (fun o => ~ exists X t ws s h,
      fgn sh H sigma dt "cme" z0 (drawn o) = Ok (presented sh X, false) /\ shaped (shape_R sh) N X /\
      wavelet_analysis (map fin X) PNone haar1 ja jb gam norm weighted = Ok (t, ws) /\
      StructureFunction (wt_coefs t) (QArr qs) (Z.of_nat j1) (Z.of_nat j2) wd = Ok s /\
      nth r (sf_H s) NaN = Fin h /\ Rabs (h - (H - 1 / norm)) <= eps)
    (K / INR N).
Proof.
  intros H gam norm eps j1 j2 HH Hn He Hj. destruct (C112_fgn_estimate H gam norm eps j1 j2 HH Hn He Hj) as [K HK].
  exists (Rmax K (2 ^ (j2 + 2))). intros W P sh N sigma dt d z0 drawn ja jb wd0 r qs wd EN HN Hd Hs HG Hr H2. assert (NP : 0 < INR N) by (apply lt_0_INR; lia).
  destruct (le_lt_dec 3 (inner_count N 2 j2)) as [C3|C3].
  - destruct (HK W P sh N sigma dt d z0 drawn PNone ja jb wd0 EN HN Hd Hs HG Logic.I) as (X & EX & HS & Q).
    assert (NE : forall o, X o <> []) by (intros o Z; destruct (HS o) as [L _]; rewrite Z in L; cbn in L; lia).
    assert (TE := fun o => transform_ok (X o) N haar1 ja jb gam norm wd0 (NE o) ltac:(lia) (proj2 (HS o)) good_haar1 Hn).
    eapply prob_weaken; [| |apply (Q (fun o => transform_of (X o) haar1 ja jb gam norm wd0) (fun o => warnings_of (X o) haar1 ja jb gam norm wd0) TE)]; try exact Hr; try exact H2.
    + intros o NO (s & h & E1 & E2 & E3). apply NO. eexists _, _, _, s, h. split; [apply EX|]. split; [apply HS|]. split; [apply TE|]. split; [exact E1|]. split; [exact E2|exact E3].
    + unfold Rdiv. apply Rmult_le_compat_r; [left; now apply Rinv_0_lt_compat|apply Rmax_l].
    + intros o. apply (C99_scales (X o) N haar1 ja jb gam norm wd0 _ _ (NE o) ltac:(lia) (proj2 (HS o)) good_haar1 Hn (TE o)). split; [lia|exact C3].
    + lia.
  - apply prob_one. assert (B := haar_scale N j2 ltac:(lia) C3). assert (M := Rmax_r K (2 ^ (j2 + 2))). apply Rmult_le_reg_r with (INR N); [trivial|]. unfold Rdiv. rewrite Rmult_assoc, Rinv_l by lra. lra.
Qed.
Print Assumptions C112_fgn_consistent.
