(** * C96, continued: the multifractal spectrum (h(q), D(q)) in floating point. *)
From Coq Require Import Reals List ZArith Bool Lra Lia Psatz Permutation.
From Verif Require Import XReal PyBase ModelUtils ModelMRQ ModelStructure ModelCumulants ModelSpectrum ModelEstimation
  Spec SpecMRQ LXReal LReg LUtils LBase LEst LMoment LCum LEntropy LScale LBivariate PropsEstimators PropsCumulants PropsSpectrum PropsMono PropsInvariance PropsFinite PropsStable ModelRoundedEst PropsRoundedEst ModelRoundedSpec.
Import ListNotations.
Open Scope R_scope.

(** ** Specification *)
(** the share of a in the sum of the |b|^q over the list *)
Definition share (q : R) (l : list R) (a : R) : R := Rpower (Rabs a) q / Rsum (map (fun b => Rpower (Rabs b) q) l).
(** the machine is accurate to the relative error t on sums of at most N terms, and no power or share comes close to underflow *)
Definition relative (t u v eta : R) (N : nat) (q : R) (l : list R) : Prop :=
  0 <= t <= / 100 /\ v <= t /\ (1 + u) ^ N <= 1 + t /\
  forall a, In a l -> eta <= t * Rpower (Rabs a) q /\ eta <= t * share q l a.
Section Bounds.
Variables (t u v eta : R).
(** mean of numbers of modulus at most B, known with error e, weighted by shares known with relative error 10 t *)
Definition wmean_term (B e : R) : R := (1 + 10 * t) * e + 10 * t * B + t * ((1 + 10 * t) * (B + e)) + t.
Definition k_wmean (p : known) : known :=
  let k := wmean_term (size p) (error p) in (size p, k + t * (size p + k) + (1 + t) * t).
(** V(j, q) from values with |log2| at most B *)
Definition k_V (B : R) : known := k_wmean (B, t * B + t).
(** U(j, q) from at most N values with shares at least 2^(-Q) *)
Definition k_U (N : nat) (Q : R) : known :=
  k_add u eta (k_log v eta (log2R (INR N))) (k_wmean (Q, t * (Q + 24 * t) + 25 * t)).
End Bounds.

(** ** Sums of shares *)
Lemma ln_small x : 0 <= x <= / 10 -> Rabs (ln (1 + x)) <= 12 / 10 * x /\ Rabs (ln (1 - x)) <= 12 / 10 * x.
Proof.
  intros H. split.
  - assert (K := ln_le_x1 (1 + x) ltac:(lra)). assert (0 <= ln (1 + x)).
    { destruct (Req_dec x 0) as [->|N]; [rewrite Rplus_0_r, ln_1; lra|]. rewrite <- ln_1. left. apply ln_increasing; lra. }
    rewrite Rabs_pos_eq by trivial. lra.
  - assert (K := ln_le_x1 (/ (1 - x)) ltac:(apply Rinv_0_lt_compat; lra)). rewrite ln_Rinv in K by lra.
    assert (K2 := ln_le_x1 (1 - x) ltac:(lra)). rewrite Rabs_left1 by lra.
    assert (I : / (1 - x) - 1 <= 12 / 10 * x).
    { apply (Rmult_le_reg_r (1 - x)); [lra|]. rewrite Rmult_minus_distr_r, Rinv_l by lra. nra. }
    lra.
Qed.
Lemma log2_rel x y c : 0 < x -> 0 <= c <= / 10 -> Rabs (y - x) <= c * x -> 0 < y /\ Rabs (log2R y - log2R x) <= 24 / 10 * c.
Proof.
  intros Hx Hc H. apply Rabs_between in H. assert (Hy : 0 < y) by nra. split; [exact Hy|].
  rewrite <- log2R_div by trivial. unfold log2R.
  assert (L2 : / 2 <= ln 2). { assert (K := ln_le_x1 (/ 2) ltac:(lra)). rewrite ln_Rinv in K by lra. lra. }
  destruct (ln_small c Hc) as [A B].
  assert (R1 : 1 - c <= y / x) by (apply (Rmult_le_reg_r x); [trivial|]; replace (y / x * x) with y by (field; lra); lra).
  assert (R2 : y / x <= 1 + c) by (apply (Rmult_le_reg_r x); [trivial|]; replace (y / x * x) with y by (field; lra); lra).
  assert (E : Rabs (ln (y / x)) <= 12 / 10 * c).
  { apply Rabs_le. assert (Q1 : ln (1 - c) <= ln (y / x)) by (destruct R1 as [R1| ->]; [left; apply ln_increasing; lra|lra]).
    assert (Q2 : ln (y / x) <= ln (1 + c)) by (destruct R2 as [R2| ->]; [left; apply ln_increasing; [apply Rdiv_lt_0_compat; trivial|trivial]|lra]).
    apply Rabs_between in A. apply Rabs_between in B. lra. }
  unfold Rdiv at 1. rewrite Rabs_mult, (Rabs_pos_eq (/ ln 2)) by (left; apply Rinv_0_lt_compat; lra).
  apply (Rmult_le_reg_r (ln 2)); [lra|]. rewrite Rmult_assoc, Rinv_l, Rmult_1_r by lra. nra.
Qed.

Section Shares.
Variables (F : arith) (u v eta t : R) (N : nat).
Hypotheses (U0 : 0 <= u) (UV : u <= v) (E0 : 0 <= eta) (HF : accurate_arith u v eta F).

(** positive powers pw, computed powers pc *)
Variables (l : list R) (pw pc : R -> R).
Hypotheses (NE : l <> []) (HN : (length l <= N)%nat) (T0 : 0 <= t <= / 100) (VT : v <= t) (GT : (1 + u) ^ N <= 1 + t)
  (PP : forall a, In a l -> 0 < pw a) (PE : forall a, In a l -> eta <= t * pw a) (PC : forall a, In a l -> Rabs (pc a - pw a) <= v * pw a + eta).
Let s := Rsum (map pw l).
Let sc := f_sum F (map pc l).
Lemma s_pos : 0 < s.
Proof using NE PP.
  unfold s. clear - NE PP. induction l as [|a k IH]; [congruence|]. unfold Rsum. cbn [map fold_right]. assert (P := PP a (or_introl eq_refl)).
  assert (Q : 0 <= Rsum (map pw k)) by (apply Rsum_map_nonneg; intros x Hx; left; apply PP; now right). unfold Rsum in Q. lra.
Qed.
Lemma pc_near a : In a l -> Rabs (pc a - pw a) <= 2 * t * pw a.
Proof using VT PP PE PC.
  intros H. eapply Rle_trans; [now apply PC|]. assert (Q := PE a H). assert (P := PP a H). assert (v * pw a <= t * pw a) by (apply Rmult_le_compat_r; lra). lra.
Qed.
Lemma eta_sum : INR (length l) * eta <= t * s.
Proof using PE.
  unfold s. clear - PE. revert PE. induction l as [|a k IH]; intros PE; [unfold Rsum; cbn; lra|].
  change (length (a :: k)) with (S (length k)). rewrite S_INR. unfold Rsum in *. cbn [map fold_right]. assert (Q := PE a (or_introl eq_refl)). assert (IH' := IH (fun x Hx => PE x (or_intror Hx))). lra.
Qed.
Lemma sc_near : Rabs (sc - s) <= 5 * t * s.
Proof using All.
  assert (SP := s_pos). set (sm := Rsum (map pc l)).
  assert (D : Rsum (map (fun a => Rabs (pc a - pw a)) l) <= 2 * t * s).
  { unfold s. rewrite <- Rsum_map_scal. apply Rsum_map_le. intros a Ha. now apply pc_near. }
  assert (A : Rabs (sm - s) <= 2 * t * s).
  { eapply Rle_trans; [|exact D]. unfold sm, s. replace (Rsum (map pc l) - Rsum (map pw l)) with (Rsum (map (fun a => pc a - pw a) l)).
    - eapply Rle_trans; [apply absum|]. rewrite map_map. lra.
    - rewrite (Rsum_map_ext (fun a => pc a - pw a) (fun a => pc a + - 1 * pw a)) by (intros; ring). rewrite Rsum_map_plus, Rsum_map_scal. ring. }
  assert (B : Rsum (map (fun a => Rabs (pc a)) l) <= (1 + 2 * t) * s).
  { unfold s. rewrite <- Rsum_map_scal. apply Rsum_map_le. intros a Ha. assert (Q := pc_near a Ha). assert (P := PP a Ha).
    replace (pc a) with (pw a + (pc a - pw a)) by ring. eapply Rle_trans; [apply Rabs_triang|]. rewrite (Rabs_pos_eq (pw a)) by lra. lra. }
  assert (SS := f_sum_err F u v eta U0 E0 HF (map pc l)). rewrite map_map, map_length in SS.
  assert (NEt : map pc l <> []) by (destruct l; [congruence|discriminate]). specialize (SS NEt). fold sc in SS. fold sm in SS.
  assert (G : (1 + u) ^ (length l - 1) <= 1 + t) by (eapply Rle_trans; [apply (g_mono u U0 _ N); lia|exact GT]). assert (G1 := g_ge1 u U0 (length l - 1)).
  set (g := (1 + u) ^ (length l - 1)) in *.
  assert (X1 : (g - 1) * Rsum (map (fun a => Rabs (pc a)) l) <= t * ((1 + 2 * t) * s)) by (apply Rmult_le_compat; try lra; apply Rsum_map_nonneg; intros; apply Rabs_pos).
  assert (I1 : INR (length l - 1) <= INR (length l)) by (apply le_INR; lia). assert (I0 := pos_INR (length l - 1)). assert (ES := eta_sum).
  assert (X2 : INR (length l - 1) * g * eta <= (1 + t) * (t * s)).
  { replace (INR (length l - 1) * g * eta) with (g * (INR (length l - 1) * eta)) by ring. apply Rmult_le_compat; try lra; [apply Rmult_le_pos; lra|].
    assert (INR (length l - 1) * eta <= INR (length l) * eta) by (apply Rmult_le_compat_r; lra). lra. }
  eapply Rle_trans; [apply (tri _ sm)|]. assert (TS : 0 <= t * s) by (apply Rmult_le_pos; lra). assert (TT : t * (t * s) <= / 100 * (t * s)) by (apply Rmult_le_compat_r; lra). nra.
Qed.
Lemma sc_pos : 0 < sc.
Proof using All. assert (A := sc_near). assert (SP := s_pos). apply Rabs_between in A. nra. Qed.

(** computed shares *)
Let R_ (a : R) := pw a / s.
Let Rc (a : R) := f_div F (pc a) sc.
Hypothesis (ER : forall a, In a l -> eta <= t * R_ a).
Lemma share_near a : In a l -> Rabs (Rc a - R_ a) <= 10 * t * R_ a.
Proof using All.
  intros Ha. assert (SP := s_pos). assert (CP := sc_pos). assert (P := PP a Ha). assert (A := pc_near a Ha). assert (B := sc_near).
  assert (RP : 0 < R_ a) by (now apply Rdiv_lt_0_compat). specialize (ER a Ha).
  destruct HF as (_ & _ & Hd & _). assert (K := Hd (pc a) sc ltac:(lra)). fold (Rc a) in K.
  assert (Q : Rabs (pc a / sc - R_ a) <= 75 / 10 * t * R_ a).
  { replace (pc a / sc - R_ a) with (((pc a - pw a) - R_ a * (sc - s)) / sc) by (unfold R_; field; split; lra).
    unfold Rdiv at 1. rewrite Rabs_mult, (Rabs_pos_eq (/ sc)) by (left; now apply Rinv_0_lt_compat).
    apply (Rmult_le_reg_r sc); trivial. rewrite Rmult_assoc, Rinv_l, Rmult_1_r by lra.
    eapply Rle_trans; [apply Rabs_triang|]. rewrite Rabs_Ropp, Rabs_mult, (Rabs_pos_eq (R_ a)) by lra.
    assert (X : R_ a * Rabs (sc - s) <= R_ a * (5 * t * s)) by (apply Rmult_le_compat_l; lra).
    assert (EP : pw a = R_ a * s) by (unfold R_; field; lra). rewrite EP in A at 2.
    apply Rabs_between in B. assert (L : 95 / 100 * s <= sc) by nra.
    assert (Y : 75 / 10 * t * R_ a * (95 / 100 * s) <= 75 / 10 * t * R_ a * sc) by (apply Rmult_le_compat_l; [apply Rmult_le_pos; lra|exact L]).
    assert (0 <= t * (R_ a * s)) by (apply Rmult_le_pos; [lra|apply Rmult_le_pos; lra]). lra. }
  assert (M : Rabs (pc a / sc) <= (1 + 75 / 10 * t) * R_ a).
  { replace (pc a / sc) with (R_ a + (pc a / sc - R_ a)) by ring. eapply Rle_trans; [apply Rabs_triang|]. rewrite (Rabs_pos_eq (R_ a)) by lra. lra. }
  eapply Rle_trans; [apply (tri _ (pc a / sc))|].
  assert (UM : u * Rabs (pc a / sc) <= t * ((1 + 75 / 10 * t) * R_ a)) by (apply Rmult_le_compat; try lra; apply Rabs_pos).
  assert (TR : 0 <= t * R_ a) by (apply Rmult_le_pos; lra). assert (TT : t * (t * R_ a) <= / 100 * (t * R_ a)) by (apply Rmult_le_compat_r; lra). nra.
Qed.
Lemma share_sum : Rsum (map R_ l) = 1.
Proof using NE PP. unfold R_, Rdiv. rewrite Rsum_map_mult_r. fold s. apply Rinv_r. assert (SP := s_pos). lra. Qed.
Lemma R_pos a : In a l -> 0 < R_ a.
Proof using NE PP. intros Ha. apply Rdiv_lt_0_compat; [now apply PP|apply s_pos]. Qed.

(** weighted means *)
Lemma wmean_near p (x xc : R -> R) : (forall a, In a l -> approx p (x a) (xc a)) ->
  approx (k_wmean t p) (Rsum (map (fun a => R_ a * x a) l)) (f_sum F (map (fun a => f_mul F (Rc a) (xc a)) l)).
Proof using All.
  intros HX. assert (PS : 0 <= size p /\ 0 <= error p) by (destruct l as [|a k]; [congruence|]; apply (approx_nonneg p (x a) (xc a)), HX; now left). destruct PS as [PS PER].
  set (B := size p) in *. set (e := error p) in *. set (k := wmean_term t B e).
  assert (TT : t * t <= / 100 * t) by (apply Rmult_le_compat_r; lra).
  assert (K0 : 0 <= k) by (unfold k, wmean_term; assert (0 <= t * B) by (apply Rmult_le_pos; lra); assert (0 <= t * e) by (apply Rmult_le_pos; lra); assert (0 <= t * (t * (B + e))) by (repeat apply Rmult_le_pos; lra); lra).
  assert (W : Rsum (map (fun a => Rabs (R_ a * x a)) l) <= B).
  { rewrite <- (Rmult_1_r B), <- share_sum, <- Rsum_map_scal. apply Rsum_map_le. intros a Ha. assert (P := R_pos a Ha). rewrite Rabs_mult, (Rabs_pos_eq (R_ a)), Rmult_comm by lra.
    apply Rmult_le_compat_r; [lra|]. now apply HX. }
  set (tm := fun a => f_mul F (Rc a) (xc a)).
  assert (T1 : forall a, In a l -> Rabs (tm a - R_ a * x a) <= k * R_ a).
  { intros a Ha. assert (P := R_pos a Ha). assert (A := share_near a Ha). destruct (HX a Ha) as [X1 X2]. fold B in X1. fold e in X2. specialize (ER a Ha).
    assert (RC : Rabs (Rc a) <= (1 + 10 * t) * R_ a). { replace (Rc a) with (R_ a + (Rc a - R_ a)) by ring. eapply Rle_trans; [apply Rabs_triang|]. rewrite (Rabs_pos_eq (R_ a)) by lra. lra. }
    assert (XC : Rabs (xc a) <= B + e). { replace (xc a) with (x a + (xc a - x a)) by ring. eapply Rle_trans; [apply Rabs_triang|]. lra. }
    destruct HF as (_ & Hm & _). assert (M := Hm (Rc a) (xc a)). fold (tm a) in M. rewrite Rabs_mult in M.
    eapply Rle_trans; [apply (tri _ (Rc a * xc a))|].
    replace (Rc a * xc a - R_ a * x a) with (Rc a * (xc a - x a) + (Rc a - R_ a) * x a) by ring.
    assert (Y1 : Rabs (Rc a * (xc a - x a) + (Rc a - R_ a) * x a) <= (1 + 10 * t) * R_ a * e + 10 * t * R_ a * B).
    { eapply Rle_trans; [apply Rabs_triang|]. rewrite !Rabs_mult. apply Rplus_le_compat; apply Rmult_le_compat; trivial; apply Rabs_pos. }
    assert (Y2 : u * (Rabs (Rc a) * Rabs (xc a)) <= t * ((1 + 10 * t) * R_ a * (B + e))).
    { apply Rmult_le_compat; try lra; [apply Rmult_le_pos; apply Rabs_pos|]. apply Rmult_le_compat; trivial; apply Rabs_pos. }
    unfold k, wmean_term. lra. }
  set (V := Rsum (map (fun a => R_ a * x a) l)) in *.
  assert (S1 : Rabs (Rsum (map tm l) - V) <= k).
  { replace (Rsum (map tm l) - V) with (Rsum (map (fun a => tm a - R_ a * x a) l)).
    - eapply Rle_trans; [apply absum|]. rewrite map_map. rewrite <- (Rmult_1_r k), <- share_sum, <- Rsum_map_scal. now apply Rsum_map_le.
    - unfold V. rewrite (Rsum_map_ext (fun a => tm a - R_ a * x a) (fun a => tm a + - 1 * (R_ a * x a))) by (intros; ring). rewrite Rsum_map_plus, Rsum_map_scal. ring. }
  assert (S2 : Rsum (map (fun a => Rabs (tm a)) l) <= B + k).
  { eapply Rle_trans; [apply (Rsum_map_le _ (fun a => Rabs (R_ a * x a) + k * R_ a))|].
    - intros a Ha. replace (tm a) with (R_ a * x a + (tm a - R_ a * x a)) at 1 by ring. eapply Rle_trans; [apply Rabs_triang|]. specialize (T1 a Ha). lra.
    - rewrite Rsum_map_plus, Rsum_map_scal, share_sum. lra. }
  split; cbn [k_wmean size error fst snd]; fold (size p) (error p) B e k.
  - unfold V. eapply Rle_trans; [apply absum|]. rewrite map_map. exact W.
  - assert (SS := f_sum_err F u v eta U0 E0 HF (map tm l)). rewrite map_map, map_length in SS.
    assert (NEt : map tm l <> []) by (destruct l; [congruence|discriminate]). specialize (SS NEt).
    assert (G : (1 + u) ^ (length l - 1) <= 1 + t) by (eapply Rle_trans; [apply (g_mono u U0 _ N); lia|exact GT]). assert (G1 := g_ge1 u U0 (length l - 1)).
    set (g := (1 + u) ^ (length l - 1)) in *.
    assert (ES : INR (length l) * eta <= t).
    { assert (Q : INR (length l) * eta <= t * Rsum (map R_ l)); [|now rewrite share_sum, Rmult_1_r in Q]. revert ER. generalize R_. clear. intros R_ ER.
      induction l as [|a k IH]; [unfold Rsum; cbn; lra|]. change (length (a :: k)) with (S (length k)). rewrite S_INR. unfold Rsum in *. cbn [map fold_right].
      assert (Q := ER a (or_introl eq_refl)). assert (IH' := IH (fun x Hx => ER x (or_intror Hx))). lra. }
    assert (I1 : INR (length l - 1) <= INR (length l)) by (apply le_INR; lia). assert (I0 := pos_INR (length l - 1)).
    assert (X1 : (g - 1) * Rsum (map (fun a => Rabs (tm a)) l) <= t * (B + k)) by (apply Rmult_le_compat; try lra; apply Rsum_map_nonneg; intros; apply Rabs_pos).
    assert (X2 : INR (length l - 1) * g * eta <= (1 + t) * t).
    { replace (INR (length l - 1) * g * eta) with (g * (INR (length l - 1) * eta)) by ring. apply Rmult_le_compat; try lra; [apply Rmult_le_pos; lra|].
      assert (INR (length l - 1) * eta <= INR (length l) * eta) by (apply Rmult_le_compat_r; lra). lra. }
    eapply Rle_trans; [apply (tri _ (Rsum (map tm l)))|]. lra.
Qed.
End Shares.

(** ** U and V *)
Lemma qpow_Rpower q a : a <> 0 -> qpow q a = Rpower (Rabs a) q.
Proof. intros H. unfold qpow, abs_pow. destruct (Req_EM_T q 0) as [->|_]; [rewrite Rpower_O; trivial; now apply Rabs_pos_lt|]. destruct (Req_EM_T a 0); [congruence|]. reflexivity. Qed.
Section Columns.
Variables (F : arith) (u v eta t : R) (N : nat).
Hypotheses (U0 : 0 <= u) (UV : u <= v) (E0 : 0 <= eta) (HF : accurate_arith u v eta F).
Variables (c : col) (e : pynum).
Let q := num_val e.
Let l := reals c.
Hypotheses (NI : no_inf c) (NE : l <> []) (NZ : Forall (fun a => a <> 0) l) (HN : (length l <= N)%nat) (HREL : relative t u v eta N q l).

Lemma nz_all : nz l = l.
Proof using NZ. now apply nz_id. Qed.
Lemma in_nz a : In a l -> a <> 0.
Proof using NZ. intros H. rewrite Forall_forall in NZ. now apply NZ. Qed.
Lemma sdef : s_defined q l.
Proof using NE NZ. split; [now right|]. revert NE NZ. clear. intros NE NZ. destruct NZ as [|a k Ha _]; [congruence|]. now apply Exists_cons_hd. Qed.
Lemma prob_share a : In a l -> prob q l a = share q l a.
Proof using NZ.
  intros H. unfold prob, share, qsum. rewrite qpow_Rpower by now apply in_nz. f_equal. f_equal. apply map_ext_in. intros b Hb. apply qpow_Rpower. now apply in_nz.
Qed.

Let pc (a : R) := pw_f F e (Rabs a).
Let Rc (a : R) := f_div F (pc a) (f_sum F (map pc l)).
Lemma pow_col : no_inf (fast_power_f F (map xabs c) e) /\ reals (fast_power_f F (map xabs c) e) = map pc l /\
  (forall a, In a l -> fpw_x F e (xabs (Fin a)) = Fin (pc a)) /\ forall a, In a l -> Rabs (pc a - qpow q a) <= v * qpow q a + eta.
Proof using U0 UV E0 HF NI NZ.
  assert (G : forall a, In a l -> fpw_x F e (xabs (Fin a)) = Fin (pc a) /\ Rabs (pc a - qpow q a) <= v * qpow q a + eta).
  { intros a Ha. destruct (fpw_Fin F u v eta U0 UV E0 HF e (Rabs a) (qpow q a)) as [A B]; [apply fp1_qpow; right; now apply in_nz|].
    split; [exact A|]. rewrite (Rabs_pos_eq (qpow q a)) in B by apply qpow_nonneg. exact B. }
  destruct (map_no_inf (fun x => fpw_x F e (xabs x)) pc c NI (fpw_NaN F e) (fun a Ha => proj1 (G a Ha))) as [A B].
  rewrite fast_power_f_map, map_map. split; [exact A|]. split; [exact B|]. split; intros a Ha; now apply G.
Qed.
Lemma pow_hyps : (forall a, In a l -> 0 < qpow q a) /\ (forall a, In a l -> eta <= t * qpow q a) /\ (forall a, In a l -> eta <= t * (qpow q a / Rsum (map (qpow q) l))).
Proof using NZ HREL.
  destruct HREL as (_ & _ & _ & H). split; [|split]; intros a Ha.
  - apply qpow_pos. now apply in_nz.
  - rewrite qpow_Rpower by now apply in_nz. now apply H.
  - change (qpow q a / Rsum (map (qpow q) l)) with (prob q l a). rewrite prob_share by trivial. now apply H.
Qed.
Lemma spec_R_f_eq : spec_R_f F c e = map (fun x => match x with Fin a => Fin (Rc a) | _ => NaN end) c.
Proof using U0 UV E0 HF NI NE NZ HN HREL.
  destruct pow_col as (A & B & G & GE). destruct pow_hyps as (P1 & P2 & P3). assert (R4 := HREL). destruct R4 as (T0 & VT & GT & _).
  assert (SP := sc_pos F u v eta t N U0 UV E0 HF l (qpow q) pc NE HN T0 VT GT P1 P2 GE).
  unfold spec_R_f, nansum_f. rewrite valid_no_inf, B by trivial. unfold sum_x. rewrite all_fin_fin.
  assert (E : match map pc l with [] => Fin 0 | _ :: _ => Fin (f_sum F (map pc l)) end = Fin (f_sum F (map pc l))) by (destruct l; [congruence|reflexivity]).
  rewrite E. rewrite fast_power_f_map, !map_map. apply map_ext_in. intros x Hx.
  assert (N1 := NI). unfold no_inf in N1. rewrite Forall_forall in N1. destruct (N1 x Hx) as [->|[a ->]].
  - cbn [xabs]. rewrite fpw_NaN. reflexivity.
  - rewrite G by (now apply In_reals). unfold div_x, lift2, xdiv. destruct (Req_EM_T _ 0); [lra|]. reflexivity.
Qed.
Lemma fixed_eq c' k : no_inf c' -> reals c' = k -> k <> [] -> fixednansum_f F c' = Fin (f_sum F k).
Proof.
  intros A B K. unfold fixednansum_f. destruct (forallb isnan c') eqn:Ef.
  - exfalso. apply K. rewrite <- B. clear - Ef. induction c' as [|x c' IH]; [reflexivity|]. cbn in Ef. apply andb_prop in Ef as [E1 E2]. destruct x; try discriminate. cbn. now apply IH.
  - unfold nansum_f. rewrite valid_no_inf, B by trivial. unfold sum_x. rewrite all_fin_fin. destruct k; [congruence|reflexivity].
Qed.
Lemma spec_V_f_value B : (forall a, In a l -> Rabs (log2R (Rabs a)) <= B) -> computed (k_V t B) (spec_V c e) (spec_V_f F c e).
Proof using U0 UV E0 HF NI NE NZ HN HREL.
  intros HB. destruct pow_col as (_ & _ & _ & GE). destruct pow_hyps as (P1 & P2 & P3). assert (R4 := HREL). destruct R4 as (T0 & VT & GT & _).
  rewrite spec_V_eq by (trivial; apply sdef). fold q l. unfold Vr. rewrite nz_all.
  assert (E : spec_V_f F c e = Fin (f_sum F (map (fun a => f_mul F (Rc a) (f_log2 F (Rabs a))) l))).
  { unfold spec_V_f. rewrite spec_R_f_eq, map_map, map2_map, map2_diag.
    destruct (map_no_inf (fun x => mul_x F (match x with Fin a => Fin (Rc a) | _ => NaN end) (log2_x F (xabs x))) (fun a => f_mul F (Rc a) (f_log2 F (Rabs a))) c NI eq_refl) as [A1 A2].
    - intros a Ha. cbn [xabs]. unfold log2_x, lift1. rewrite xlog2_pos by (apply Rabs_pos_lt, in_nz, Ha). reflexivity.
    - apply fixed_eq; trivial. fold l. destruct l; [congruence|discriminate]. }
  rewrite E. eexists; eexists. split; [reflexivity|]. split; [reflexivity|].
  apply (wmean_near F u v eta t N U0 UV E0 HF l (qpow q) pc NE HN T0 VT GT P1 P2 GE P3).
  intros a Ha. split; [now apply HB|]. cbn. destruct HF as (_ & _ & _ & _ & Hl & _). eapply Rle_trans; [apply Hl, Rabs_pos_lt, in_nz, Ha|].
  assert (S1 : share q l a <= 1).
  { rewrite <- prob_share by trivial. apply prob_le1; [apply sdef|]. now rewrite nz_all. }
  assert (ET : eta <= t) by (destruct HREL as (_ & _ & _ & H); destruct (H a Ha) as [_ H']; assert (t * share q l a <= t * 1) by (apply Rmult_le_compat_l; lra); lra).
  assert (v * Rabs (log2R (Rabs a)) <= t * B) by (apply Rmult_le_compat; try lra; [apply Rabs_pos|now apply HB]). lra.
Qed.
Lemma spec_U_f_value Q : (forall a, In a l -> Rpower 2 (- Q) <= share q l a) ->
  computed (k_U t u v eta N Q) (spec_U (length l) c e) (spec_U_f F (length l) c e).
Proof using U0 UV E0 HF NI NE NZ HN HREL.
  intros HQ. destruct pow_col as (_ & _ & _ & GE). destruct pow_hyps as (P1 & P2 & P3). assert (R4 := HREL). destruct R4 as (T0 & VT & GT & _).
  assert (L1 : (1 <= length l)%nat) by (destruct l; [congruence|cbn; lia]).
  rewrite spec_U_eq by (trivial; apply sdef). fold q l. unfold Hr. rewrite nz_all.
  assert (RN := share_near F u v eta t N U0 UV E0 HF l (qpow q) pc NE HN T0 VT GT P1 P2 GE P3). fold Rc in RN.
  assert (LR : forall a, In a l -> 0 < Rc a /\ Rabs (log2R (Rc a) - log2R (prob q l a)) <= 24 * t).
  { intros a Ha. destruct (log2_rel (prob q l a) (Rc a) (10 * t)) as [X Y]; [apply prob_pos; [apply sdef|now apply in_nz]|lra|now apply RN|]. split; [exact X|lra]. }
  assert (E : fixednansum_f F (map (fun x => mul_x F x (log2_x F x)) (spec_R_f F c e)) = Fin (f_sum F (map (fun a => f_mul F (Rc a) (f_log2 F (Rc a))) l))).
  { rewrite spec_R_f_eq, map_map.
    destruct (map_no_inf (fun x => mul_x F (match x with Fin a => Fin (Rc a) | _ => NaN end) (log2_x F (match x with Fin a => Fin (Rc a) | _ => NaN end))) (fun a => f_mul F (Rc a) (f_log2 F (Rc a))) c NI eq_refl) as [A1 A2].
    - intros a Ha. unfold log2_x, lift1. rewrite xlog2_pos by (now apply LR). reflexivity.
    - apply fixed_eq; trivial. fold l. destruct l; [congruence|discriminate]. }
  unfold spec_U_f. rewrite E. change (Fin (log2R (INR (length l)) + Rsum (map (fun a => prob q l a * log2R (prob q l a)) l))) with (xadd (Fin (log2R (INR (length l)))) (Fin (Rsum (map (fun a => prob q l a * log2R (prob q l a)) l)))).
  apply (co_add F u v eta U0 HF).
  - unfold log2_x, lift1. assert (LP : 0 < INR (length l)) by (apply lt_0_INR; lia). rewrite xlog2_pos by trivial. eexists; eexists. split; [reflexivity|]. split; [reflexivity|].
    assert (L0 : 0 <= log2R (INR (length l)) <= log2R (INR N)).
    { split; [rewrite <- log2R_1; apply log2R_le; [lra|apply (le_INR 1); lia]|apply log2R_le; [trivial|now apply le_INR]]. }
    split; cbn; [rewrite Rabs_pos_eq; lra|]. destruct HF as (_ & _ & _ & _ & Hl & _). eapply Rle_trans; [now apply Hl|]. rewrite Rabs_pos_eq by lra.
    apply Rplus_le_compat_r, Rmult_le_compat_l; lra.
  - eexists; eexists. split; [reflexivity|]. split; [reflexivity|].
    apply (wmean_near F u v eta t N U0 UV E0 HF l (qpow q) pc NE HN T0 VT GT P1 P2 GE P3).
    intros a Ha. assert (PB : Rabs (log2R (prob q l a)) <= Q).
    { assert (PS := HQ a Ha). rewrite <- prob_share in PS by trivial. assert (P1' : prob q l a <= 1) by (apply prob_le1; [apply sdef|now rewrite nz_all]).
      assert (PP := prob_pos q l a sdef (in_nz a Ha)). apply log2R_le in P1'; [|trivial]. rewrite log2R_1 in P1'.
      apply log2R_le in PS; [|apply Rpower_pos]. rewrite log2R_Rpower in PS. rewrite Rabs_left1 by trivial. lra. }
    split; [exact PB|]. cbn. fold (prob q l a). change (Rabs (f_log2 F (Rc a) - log2R (prob q l a)) <= t * (Q + 24 * t) + 25 * t).
    destruct (LR a Ha) as [X Y]. destruct HF as (_ & _ & _ & _ & Hl & _). assert (K := Hl (Rc a) X).
    assert (LQ : Rabs (log2R (Rc a)) <= Q + 24 * t). { replace (log2R (Rc a)) with (log2R (prob q l a) + (log2R (Rc a) - log2R (prob q l a))) by ring. eapply Rle_trans; [apply Rabs_triang|]. lra. }
    assert (S1 : share q l a <= 1) by (rewrite <- prob_share by trivial; apply prob_le1; [apply sdef|now rewrite nz_all]).
    assert (ET : eta <= t) by (destruct HREL as (_ & _ & _ & H); destruct (H a Ha) as [_ H']; assert (t * share q l a <= t * 1) by (apply Rmult_le_compat_l; lra); lra).
    assert (VL : v * Rabs (log2R (Rc a)) <= t * (Q + 24 * t)) by (apply Rmult_le_compat; try lra; apply Rabs_pos).
    eapply Rle_trans; [apply (tri _ (log2R (Rc a)))|]. lra.
Qed.
End Columns.

Section Forms.
Variables (F : arith) (m : mrq) (g nrep : nat).
Hypothesis HR : regular m g nrep.
Definition Uval_f (q : pynum) (r : nat) (j : Z) : xr := spec_U_f F (count m j r) (column m j r) q.
Definition Vval_f (q : pynum) (r : nat) (j : Z) : xr := spec_V_f F (column m j r) q.
Lemma MFS_f_eq q j1 j2 wd : (1 <= j1)%Z -> (j1 <= j2)%Z -> (j2 <= Z.of_nat g)%Z ->
  exists s, MultifractalSpectrum_f F m j1 j2 wd q = Ok s /\
    ms_Dq s = map (fun e => map (fun r => add_x F (Fin 1) (fslope_f F wd m j1 j2 r (Uval_f e r))) (seq 0 nrep)) (q_items q) /\
    ms_hq s = map (fun e => map (fun r => fslope_f F wd m j1 j2 r (Vval_f e r)) (seq 0 nrep)) (q_items q).
Proof using HR.
  intros H1 H2 H3. unfold MultifractalSpectrum_f. rewrite (reg_nrep m g nrep HR). cbn [bind].
  assert (E : mapM (cols_nj m) (seq 0 nrep) = Ok (map (fun r => map (fun j => (column m j r, count m j r)) (one_to g)) (seq 0 nrep))).
  { generalize (seq 0 nrep). induction l as [|r l IH]; simpl; trivial. rewrite (cols_nj_eq m g nrep HR). cbn [bind]. now rewrite IH. }
  rewrite E. cbn [bind]. rewrite (reg_rows m g nrep HR) by trivial. cbn [bind].
  assert (EG : forall G : pynum -> col * nat -> xr,
     map (fun e => map (fun cn => map (G e) cn)
       (map (fun r => map (fun j => (column m j r, count m j r)) (one_to g)) (seq 0 nrep))) (q_items q)
     = map (fun e => map (fun r => map (fun j => G e (column m j r, count m j r)) (one_to g)) (seq 0 nrep)) (q_items q)).
  { intros G. apply map_ext. intros e. rewrite map_map. apply map_ext. intros r. rewrite map_map. reflexivity. }
  rewrite (EG (fun e p => spec_U_f F (snd p) (fst p) e)), (EG (fun e p => spec_V_f F (fst p) e)). cbn [fst snd].
  change (fun e => map (fun r => map (fun j => spec_U_f F (count m j r) (column m j r) e) (one_to g)) (seq 0 nrep))
    with (fun e => map (fun r => map (Uval_f e r) (one_to g)) (seq 0 nrep)).
  change (fun e => map (fun r => map (fun j => spec_V_f F (column m j r) e) (one_to g)) (seq 0 nrep))
    with (fun e => map (fun r => map (Vval_f e r) (one_to g)) (seq 0 nrep)).
  rewrite !mapM_regress_f by trivial. cbn [bind]. eexists. split; [reflexivity|]. cbn [ms_Dq ms_hq]. rewrite !map_map.
  split; apply map_ext; intros; now rewrite !map_map.
Qed.
End Forms.

(** ** C96: the spectrum *)
(** For a realisation without zero values, h(q) and D(q) are computed within explicit bounds of their exact values *)
Theorem C96_spectrum :
  forall F u v eta m g nrep qs j1 j2 wd s,
  0 <= u -> u <= v -> 0 <= eta -> accurate_arith u v eta F ->
  regular m g nrep -> counted m -> (1 <= j1)%Z -> (j1 < j2)%Z -> (j2 <= Z.of_nat g)%Z ->
  MultifractalSpectrum m j1 j2 wd (QArr qs) = Ok s ->
  exists s', MultifractalSpectrum_f F m j1 j2 wd (QArr qs) = Ok s' /\
  forall r i t B Q N, (r < nrep)%nat -> (i < length qs)%nat ->
  (forall j, (j1 <= j <= j2)%Z -> usable m j r /\ Forall (fun a => a <> 0) (numbers m j r) /\ (length (numbers m j r) <= N)%nat /\
     relative t u v eta N (nth i qs 0) (numbers m j r) /\
     forall a, In a (numbers m j r) -> Rabs (log2R (Rabs a)) <= B /\ Rpower 2 (- Q) <= share (nth i qs 0) (numbers m j r) a) ->
  let fit := k_fit u eta (Z.to_nat (j2 - j1 + 1)) (spread wd m j1 j2 r) in
  computed (fit (k_V t B)) (at2 (ms_hq s) i r) (at2 (ms_hq s') i r) /\
  computed (k_add u eta (k_exact 1) (fit (k_U t u v eta N Q))) (at2 (ms_Dq s) i r) (at2 (ms_Dq s') i r).
Proof.
  intros F u v eta m g nrep qs j1 j2 wd s U0 UV E0 HF HR HC H1 H2 H3 E.
  destruct (MFS_f_eq F m g nrep HR (QArr qs) j1 j2 wd H1 ltac:(lia) H3) as (s' & E' & ED & EH). exists s'. split; [exact E'|].
  intros r i t B Q N Hr Hi HY. cbn zeta. replace (Z.to_nat (j2 - j1 + 1)) with (nscales j1 j2) by (unfold nscales; f_equal; lia).
  assert (Hi' : (i < length (q_items (QArr qs)))%nat) by (cbn [q_items]; now rewrite map_length).
  destruct (MFS_rows m g nrep (QArr qs) j1 j2 wd s HR H1 ltac:(lia) H3 E i r Hi' Hr) as (_ & XD & XH).
  assert (Ee : nth i (q_items (QArr qs)) (PyFloat 0) = PyFloat (nth i qs 0)) by (cbn [q_items]; now apply nth_PyFloat).
  rewrite Ee in XD, XH. set (e := PyFloat (nth i qs 0)) in *.
  rewrite XD, XH, ED, EH.
  rewrite (at2_map (fun e r => add_x F (Fin 1) (fslope_f F wd m j1 j2 r (Uval_f F m e r))) (q_items (QArr qs)) nrep i r (PyFloat 0)) by trivial.
  rewrite (at2_map (fun e r => fslope_f F wd m j1 j2 r (Vval_f F m e r)) (q_items (QArr qs)) nrep i r (PyFloat 0)) by trivial.
  rewrite Ee. fold e.
  assert (HN : forall j, (j1 <= j <= j2)%Z -> no_inf (column m j r) /\ numbers m j r <> []) by (intros j Hj; apply HY; trivial).
  split.
  - apply (slope_computed F u v eta m g nrep); trivial. intros j Hj. destruct (HY j Hj) as ([A1 A2] & A3 & A4 & A5 & A6).
    apply (spec_V_f_value F u v eta t N U0 UV E0 HF (column m j r) e); trivial. intros a Ha. now apply A6.
  - apply (co_add F u v eta U0 HF); [apply co_exact|].
    apply (slope_computed F u v eta m g nrep); trivial. intros j Hj. destruct (HY j Hj) as ([A1 A2] & A3 & A4 & A5 & A6).
    assert (EC : count m j r = length (numbers m j r)).
    { apply count_numbers; trivial; [|now split]. destruct HR as (_ & -> & _). apply one_to_In. lia. }
    unfold Uval, Uval_f. rewrite EC.
    apply (spec_U_f_value F u v eta t N U0 UV E0 HF (column m j r) e); trivial. intros a Ha. now apply A6.
Qed.
Print Assumptions C96_spectrum.
