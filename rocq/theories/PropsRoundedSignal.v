(** * C96, continued: from the signal to the estimates, everything in floating point *)
From Coq Require Import Reals List ZArith Bool Lra Lia Psatz.
From Verif Require Import XReal PyBase ModelUtils ModelMRQ ModelStructure ModelCumulants ModelSpectrum ModelEstimation ModelWavelet ModelRounded
  Spec SpecMRQ LXReal LReg LUtils LBase LTransform LPattern LWave LWaveEst LEst PropsEstimators PropsCumulants PropsWavelet PropsLeaders PropsMono PropsInvariance PropsFinite PropsStable PropsStableFloat.
From Verif Require PropsRounded PropsBinary64 PropsRoundedEst64.
From Verif Require Import ModelRoundedEst PropsRoundedEst.
Import ListNotations.
Open Scope R_scope.
Local Notation length := List.length.

(** the exact result x and the computed result y are numbers, with an error of at most e *)
Definition off_by (e : R) (x y : xr) : Prop := exists a b, x = Fin a /\ y = Fin b /\ Rabs (b - a) <= e.

Lemma off_by_sum e p x y z : is_number x -> moves_at_most e x y -> computed p y z -> off_by (e + error p) x z.
Proof.
  intros [a ->] [_ M] (b & c & -> & -> & _ & K). exists a, c. split; [reflexivity|]. split; [reflexivity|].
  assert (Q := M a b eq_refl eq_refl). rewrite Rabs_minus_sym in Q.
  replace (c - a) with ((c - b) + (b - a)) by ring. eapply Rle_trans; [apply Rabs_triang|]. lra.
Qed.
Lemma within_length d c c' : Forall2 (within d) c c' -> length c = length c'.
Proof. induction 1; simpl; congruence. Qed.

Section Stored.
Variables (F : arith) (u v eta : R) (m m' : mrq) (g nrep : nat) (j1 j2 : Z) (wd : bool) (d : R) (r : nat).
Hypotheses (U0 : 0 <= u) (UV : u <= v) (E0 : 0 <= eta) (HF : accurate_arith u v eta F).
Hypotheses (HR : regular m g nrep) (HR' : regular m' g nrep) (HC : counted m) (HC' : counted m').
Hypotheses (H1 : (1 <= j1)%Z) (H2 : (j1 < j2)%Z) (H3 : (j2 <= Z.of_nat g)%Z) (HQ : close_quantities d m m' j1 j2 r) (Hd : 0 <= d) (Hr : (r < nrep)%nat).

Lemma spread_same : spread wd m' j1 j2 r = spread wd m j1 j2 r.
Proof using HR HR' HC HC' H1 H2 H3 HQ Hr.
  assert (W : forall j, In j (zrange j1 (j2 + 1)) -> weight wd m' j r = weight wd m j r).
  { intros j Hj. assert (Hj' : (j1 <= j <= j2)%Z).
    { unfold zrange in Hj. apply in_map_iff in Hj as (k & <- & Hk). apply in_seq in Hk. lia. }
    unfold weight. destruct wd; [|reflexivity]. f_equal. symmetry. now apply (st_count m m' g nrep j1 j2 d r). }
  unfold spread, wavg. 
  assert (WS : forall f f' : Z -> R, (forall j, f j = f' j) -> Rsum (map (fun j => weight wd m' j r * f j) (zrange j1 (j2 + 1))) = Rsum (map (fun j => weight wd m j r * f' j) (zrange j1 (j2 + 1)))).
  { intros f f' E. apply Rsum_map_ext. intros j Hj. rewrite E. now rewrite W. }
  assert (W0 : Rsum (map (fun j => weight wd m' j r) (zrange j1 (j2 + 1))) = Rsum (map (fun j => weight wd m j r) (zrange j1 (j2 + 1)))) by (now apply Rsum_map_ext).
  rewrite W0. f_equal. f_equal. apply WS. intros j. now rewrite (WS IZR IZR (fun _ => eq_refl)).
Qed.

Lemma stored_hmin warn h Y : estimate_hmin m j1 j2 wd warn = Ok h -> is_number (nth r (hm_hmin h) NaN) ->
  (forall j x, (j1 <= j <= j2)%Z -> is_max x (map Rabs (numbers m j r)) -> Rabs (log2R x) <= Y) ->
  (forall j r, (j1 <= j <= j2)%Z -> (r < nrep)%nat -> column m' j r <> []) ->
  exists h', estimate_hmin_f F m' j1 j2 wd warn = Ok h' /\
  off_by (d / spread wd m j1 j2 r + error (k_fit u eta (Z.to_nat (j2 - j1 + 1)) (spread wd m j1 j2 r) (k_log v eta (Y + d))))
    (nth r (hm_hmin h) NaN) (nth r (hm_hmin h') NaN).
Proof.
  intros E HN HY HNE. assert (E1 := HMIN_eq m' g nrep HR' j1 j2 wd warn H1 ltac:(lia) H3 HNE). cbv zeta in E1.
  match type of E1 with _ = Ok ?h => set (h1 := h) in * end.
  assert (MV := C94_hmin m m' g nrep j1 j2 wd warn warn d h h1 r HR HR' HC HC' H1 H2 H3 Hr HQ E E1).
  destruct (C96_hmin F u v eta m' g nrep j1 j2 wd warn h1 U0 UV E0 HF HR' HC' H1 H2 H3 E1) as (h' & E' & K).
  exists h'. split; [exact E'|]. eapply off_by_sum; [exact HN|exact MV|]. rewrite <- spread_same. apply K; trivial; [now apply (proj1 MV)|].
  intros j Hj. destruct (st_near m m' j1 j2 d r HQ j Hj) as (N & N' & NF). split; [exact N'|]. intros x' Hx'.
  assert (X : Exists (fun a => a <> 0) (numbers m j r)).
  { apply sup_fin; [exact N|]. apply (HMIN_rows m g nrep) in E; trivial; [|lia]. rewrite E in HN. cbn [hm_hmin] in HN. rewrite nth_seq_map in HN by trivial.
    exact (fslope_fin_inv wd m j1 j2 r (lsup m r) HN j Hj). }
  destruct (sup_near d _ _ (HQ j Hj) X) as (a & b & A & B & D).
  destruct (sup_value _ N X) as (x & Px & Mx & A'). destruct (sup_value _ N' (near_Exists d _ _ NF X)) as (y & Py & My & B').
  assert (y = x') by (apply Rle_antisym; [apply Hx', My|apply My, Hx']). subst y.
  rewrite A' in A. injection A as <-. rewrite B' in B. injection B as <-.
  assert (Q := HY j x Hj Mx). replace (log2R x') with (log2R x + - (log2R x - log2R x')) by ring.
  eapply Rle_trans; [apply Rabs_triang|]. rewrite Rabs_Ropp. lra.
Qed.

Lemma stored_zeta qs s i Y d2 N : StructureFunction m (QArr qs) j1 j2 wd = Ok s -> (i < length qs)%nat -> is_number (at2 (sf_zeta s) i r) -> 0 <= d2 ->
  (forall j, (j1 <= j <= j2)%Z -> (length (numbers m j r) <= N)%nat /\
     let S := abs_moment (nth i qs 0) (numbers m j r) in
     let T := Rpower 2 (- (Rabs (nth i qs 0) * d)) * S in
     mom_rel u v N * T + mom_abs u eta N <= (1 - Rpower 2 (- d2)) * T /\ Rabs (log2R S) <= Y) ->
  exists s', StructureFunction_f F m' (QArr qs) j1 j2 wd = Ok s' /\
  off_by (Rabs (nth i qs 0) * d / spread wd m j1 j2 r
          + error (k_fit u eta (Z.to_nat (j2 - j1 + 1)) (spread wd m j1 j2 r) (k_log2 v eta (Y + Rabs (nth i qs 0) * d) d2)))
    (at2 (sf_zeta s) i r) (at2 (sf_zeta s') i r).
Proof.
  intros E Hi HN Hd2 HY. assert (E2 := E). rewrite (SF_eq m g nrep HR) in E2 by (trivial; lia). destruct (has_two qs) eqn:H2q; [|discriminate]. clear E2.
  assert (E1 := SF_eq m' g nrep HR' qs j1 j2 wd H1 ltac:(lia) H3). rewrite H2q in E1.
  match type of E1 with _ = Ok ?h => set (s1 := h) in * end.
  destruct (SF_rows m g nrep qs j1 j2 wd s HR ltac:(lia) ltac:(lia) H3 E i r Hi Hr) as (_ & Ez & _).
  assert (MV : moves_at_most (Rabs (nth i qs 0) * d / spread wd m j1 j2 r) (at2 (sf_zeta s) i r) (at2 (sf_zeta s1) i r)).
  { rewrite Ez. destruct (SF_rows m' g nrep qs j1 j2 wd s1 HR' ltac:(lia) ltac:(lia) H3 E1 i r Hi Hr) as (_ & -> & _).
    exact (st_zeta m m' g nrep j1 j2 wd d r HR HR' HC HC' H1 H2 H3 HQ (PyFloat (nth i qs 0))). }
  destruct (C96_exponents F u v eta m' g nrep qs j1 j2 wd s1 U0 UV E0 HF HR' HC' H1 H2 H3 E1) as (s' & E' & K).
  exists s'. split; [exact E'|]. eapply off_by_sum; [exact HN|exact MV|]. rewrite <- spread_same. set (q := nth i qs 0) in *.
  refine (proj1 (K r i _ d2 N Hr Hi (proj1 (proj1 MV) HN) Hd2 _)). fold q.
  intros j Hj. destruct (st_near m m' j1 j2 d r HQ j Hj) as (Ni & Ni' & NF). destruct (HY j Hj) as (L & M0 & Ly). cbv zeta in M0, Ly.
  split; [exact Ni'|]. split; [now rewrite <- (near_length d _ _ NF)|]. cbv zeta.
  assert (DT : determined q (numbers m j r)).
  { apply (logS_fin (column m j r) (PyFloat q)); [exact Ni|]. rewrite Ez in HN. exact (fslope_fin_inv wd m j1 j2 r (logS m (PyFloat q) r) HN j Hj). }
  assert (DT' := near_determined d q _ _ NF DT). assert (Sp := det_pos _ _ DT). assert (Sp' := det_pos _ _ DT').
  assert (MN := moment_near d q _ _ NF (det_q _ _ DT)). assert (MN' := moment_near d q _ _ (near_list_sym _ _ _ NF) (det_q _ _ DT')).
  set (S := abs_moment q (numbers m j r)) in *. set (S' := abs_moment q (numbers m' j r)) in *.
  set (e := Rabs q * d) in *. assert (Pe : 0 < Rpower 2 e) by apply exp_pos. rewrite Rpower_Ropp in M0.
  split.
  - set (T := / Rpower 2 e * S) in *. assert (HT : 0 < T) by (apply Rmult_lt_0_compat; [now apply Rinv_0_lt_compat|trivial]).
    assert (TS : T <= S'). { unfold T. apply (Rmult_le_reg_l (Rpower 2 e)); trivial. rewrite <- Rmult_assoc, Rinv_r, Rmult_1_l by lra. exact MN. }
    assert (A0 : 0 <= mom_abs u eta N). { unfold mom_abs. assert (G := pow_R1_Rle (1 + u) N ltac:(lra)). apply Rmult_le_pos; lra. }
    set (c := 1 - Rpower 2 (- d2) - mom_rel u v N).
    assert (C0 : 0 <= c). { destruct (Rle_dec 0 c) as [|Hc]; [trivial|exfalso]. assert (c * T < 0) by (apply Ropp_lt_cancel; rewrite Ropp_0, <- Ropp_mult_distr_l_reverse; apply Rmult_lt_0_compat; lra).
      unfold c in *. lra. }
    assert (c * T <= c * S') by (now apply Rmult_le_compat_l). unfold c in *. lra.
  - assert (P2 := ln2_pos).
    assert (LM : forall a b, 0 < a -> 0 < b -> a <= Rpower 2 e * b -> log2R a <= e + log2R b).
    { intros a b Ha Hb Hab. unfold log2R. apply (Rmult_le_reg_r (ln 2)); trivial. unfold Rdiv. rewrite Rmult_plus_distr_r, !Rmult_assoc, Rinv_l, !Rmult_1_r by lra.
      rewrite <- (ln_2d e). rewrite <- ln_mult by trivial. destruct Hab as [Hab| ->]; [left; now apply ln_increasing|right; reflexivity]. }
    assert (A := LM S S' Sp Sp' MN). assert (B := LM S' S Sp' Sp MN').
    replace (log2R S') with (log2R S + (log2R S' - log2R S)) by ring. eapply Rle_trans; [apply Rabs_triang|].
    assert (Rabs (log2R S' - log2R S) <= e) by (apply Rabs_le; lra). lra.
Qed.

Lemma stored_c1 n c B N : Cumulants m n j1 j2 wd = Ok c -> (1 <= n)%nat -> is_number (at2 (cu_log_cumulants c) 0 r) ->
  (forall j, (j1 <= j <= j2)%Z -> (length (numbers m j r) <= N)%nat /\ forall a, In a (numbers m j r) -> Rabs (ln (Rabs a)) <= B) ->
  exists c', Cumulants_f F m' n j1 j2 wd = Ok c' /\
  off_by (d / spread wd m j1 j2 r
          + error (k_mul u eta (k_fit u eta (Z.to_nat (j2 - j1 + 1)) (spread wd m j1 j2 r) (k_cum u v eta N (B + d * ln 2) 1)) (k_log2e v eta)))
    (at2 (cu_log_cumulants c) 0 r) (at2 (cu_log_cumulants c') 0 r).
Proof.
  intros E Hn HN HY. assert (E1 := CUM_eq m' g nrep HR' n j1 j2 wd H1 ltac:(lia) H3). 
  match type of E1 with _ = Ok ?h => set (s1 := h) in * end.
  destruct (C94_log_cumulants m m' g nrep n j1 j2 wd d c s1 r HR HR' HC HC' H1 H2 H3 Hr HQ Hd E E1) as [MV _]. specialize (MV Hn).
  destruct (C96_log_cumulants F u v eta m' g nrep n j1 j2 wd s1 U0 UV E0 HF HR' HC' H1 H2 H3 E1) as (c' & E' & K).
  exists c'. split; [exact E'|]. eapply off_by_sum; [exact HN|exact MV|]. rewrite <- spread_same.
  apply (K r 1%nat); trivial; [lia|now apply (proj1 MV)|].
  intros j Hj. destruct (st_near m m' j1 j2 d r HQ j Hj) as (Ni & Ni' & NF). destruct (HY j Hj) as (L & LB).
  split; [exact Ni'|]. split; [now rewrite <- (near_length d _ _ NF)|].
  assert (NZ : Forall (fun a => a <> 0) (numbers m j r)).
  { destruct (CUM_rows m g nrep n j1 j2 wd c HR H1 ltac:(lia) H3 E 1%nat r ltac:(lia) Hr) as (_ & _ & _ & Ez). cbn [Nat.sub] in Ez. rewrite Ez in HN.
    apply (cum_fin (column m j r) n 1); [exact Ni|lia|]. apply (fslope_fin_inv wd m j1 j2 r (Cval m n 1 r)); trivial.
    destruct HN as [w Hw]. destruct (fslope wd m j1 j2 r (Cval m n 1 r)) as [a| | |]; [now exists a| | |]; cbn in Hw; unfold scale_inf in Hw; repeat destruct (Req_EM_T _ _) in Hw; repeat destruct (Rlt_dec _ _) in Hw; discriminate. }
  intros b Hb. revert LB NZ Hb. clear - NF. induction NF as [|x y l l' Hxy NF IH]; intros LB NZ Hb; [destruct Hb|]. inversion NZ as [|? ? Nx NZ']; subst.
  destruct Hb as [<-|Hb]; [|apply IH; trivial; intros; apply LB; now right].
  assert (Q := near_ln d x y Hxy Nx). assert (Q2 := LB x (or_introl eq_refl)). rewrite Rabs_minus_sym in Q.
  replace (ln (Rabs y)) with (ln (Rabs x) + (ln (Rabs y) - ln (Rabs x))) by ring. eapply Rle_trans; [apply Rabs_triang|]. lra.
Qed.
End Stored.

(** The leaders computed on the machine M and the estimates computed from them with the arithmetic F, compared with the
    exact leaders and the exact estimates: if the error bound of C92 is at most the fraction 1 - 2^-d of every exact leader
    at the scales of the fit, the errors are those of C94 (leaders) plus those of C96 (estimators) *)
Theorem C96_signal :
  forall M F u v eta X w signal j1w j2w gam norm wt0 t ws l,
  0 <= u -> u <= v -> 0 <= eta -> 0 <= X -> PropsRounded.accurate u v eta M -> accurate_arith u v eta F -> good_wavelet w -> norm <> 0 ->
  PropsRounded.samples_within X signal ->
  wavelet_analysis signal PInfty w j1w j2w gam norm wt0 = Ok (t, ws) -> wt_leaders t = Some l ->
  exists t' l', wavelet_analysis_f M signal true w j2w gam norm = Ok (t', ws) /\ wt_leaders t' = Some l' /\
  forall d j1 j2 wd r, 0 <= d -> (1 <= j1 < j2)%Z -> In j2 (SpecMRQ.scales l) -> (r < length signal)%nat ->
  (forall j x, (j1 <= j <= j2)%Z -> In x (numbers l j r) ->
     PropsRounded.lead_bound u v eta X w norm gam (Z.to_nat j) <= (1 - Rpower 2 (- d)) * Rabs x) ->
  let sd := spread wd l j1 j2 r in
  let fit := k_fit u eta (Z.to_nat (j2 - j1 + 1)) sd in
  (forall warn h Y, estimate_hmin l j1 j2 wd warn = Ok h -> is_number (nth r (hm_hmin h) NaN) ->
     (forall j x, (j1 <= j <= j2)%Z -> is_max x (map Rabs (numbers l j r)) -> Rabs (log2R x) <= Y) ->
     exists h', estimate_hmin_f F l' j1 j2 wd warn = Ok h' /\
     off_by (d / sd + error (fit (k_log v eta (Y + d)))) (nth r (hm_hmin h) NaN) (nth r (hm_hmin h') NaN)) /\
  (forall qs s i Y d2 N, StructureFunction l (QArr qs) j1 j2 wd = Ok s -> (i < length qs)%nat -> is_number (at2 (sf_zeta s) i r) -> 0 <= d2 ->
     (forall j, (j1 <= j <= j2)%Z -> (length (numbers l j r) <= N)%nat /\
        let S := abs_moment (nth i qs 0) (numbers l j r) in
        let T := Rpower 2 (- (Rabs (nth i qs 0) * d)) * S in
        mom_rel u v N * T + mom_abs u eta N <= (1 - Rpower 2 (- d2)) * T /\ Rabs (log2R S) <= Y) ->
     exists s', StructureFunction_f F l' (QArr qs) j1 j2 wd = Ok s' /\
     off_by (Rabs (nth i qs 0) * d / sd + error (fit (k_log2 v eta (Y + Rabs (nth i qs 0) * d) d2))) (at2 (sf_zeta s) i r) (at2 (sf_zeta s') i r)) /\
  (forall n c B N, Cumulants l n j1 j2 wd = Ok c -> (1 <= n)%nat -> is_number (at2 (cu_log_cumulants c) 0 r) ->
     (forall j, (j1 <= j <= j2)%Z -> (length (numbers l j r) <= N)%nat /\ forall a, In a (numbers l j r) -> Rabs (ln (Rabs a)) <= B) ->
     exists c', Cumulants_f F l' n j1 j2 wd = Ok c' /\
     off_by (d / sd + error (k_mul u eta (fit (k_cum u v eta N (B + d * ln 2) 1)) (k_log2e v eta))) (at2 (cu_log_cumulants c) 0 r) (at2 (cu_log_cumulants c') 0 r)).
Proof.
  intros M F u v eta X w signal j1w j2w gam norm wt0 t ws l U UV E0 X0 HM HF Hw Hn HS H El.
  assert (V : 0 <= v) by lra.
  assert (K := PropsRounded.C92_rounded_transform M u v eta X w signal true j1w j2w gam norm wt0 U V E0 X0 HM Hw HS). cbn iota in K.
  rewrite H in K. destruct K as (t' & E' & J & _ & L). rewrite El in L. destruct (wt_leaders t') as [l'|] eqn:El'; [|contradiction].
  exists t', l'. split; [exact E'|]. split; [exact El'|]. intros d j1 j2 wd r Hd Hj Hs Hr HB. cbv zeta.
  assert (HA : Forall no_inf signal).
  { rewrite Forall_forall. intros c Hc. apply Forall_forall. intros x Hx. destruct (HS c x Hc Hx) as [->|(a & -> & _)]; [now left|right; eauto]. }
  set (g := gcount signal PInfty w gam norm).
  assert (R : regular l g (length signal) /\ counted l /\ (j2 <= Z.of_nat g)%Z /\ forall j r, (r < length signal)%nat -> no_inf (column l j r)).
  { apply wa_inv in H as (? & _ & -> & _); [|trivial|trivial|exact I]. cbn [the_wt wt_leaders] in El. apply Some_inj in El. subst l. fold g in Hs |- *.
    apply PropsWavelet.in_scales in Hs as (i & -> & Hi). split; [apply table_regular; [lia|intros; apply Ld_length]|].
    split; [apply table_counted; reflexivity|]. split; [lia|]. intros j r' _. apply no_inf_column. now apply leads_no_inf. }
  destruct R as (HR & HC & H3 & NI).
  assert (HR' := cw_regular _ l l' g _ L HR). assert (HC' := cw_counted _ l l' L HC).
  assert (HQ : close_quantities d l l' j1 j2 r) by (apply (cw_close _ l l' L); trivial; intros; now apply NI).
  split; [|split].
  - intros warn h Y Eh HN HY. apply (stored_hmin F u v eta l l' g (length signal) j1 j2 wd d r); trivial; try lia.
    intros j r' Hj' Hr'. assert (NE := hmin_nonempty l g (length signal) j1 j2 wd warn h HR ltac:(lia) ltac:(lia) H3 Eh j r' Hj' Hr').
    intros Z. apply NE. destruct L as (S & _ & P & _). assert (D0 := dict_same nan_pattern (mq_values l) (mq_values l') S P j).
    unfold column in *. destruct (dict_get (mq_values l') j), (dict_get (mq_values l) j); try contradiction; try reflexivity.
    assert (Q := pat_nth _ _ r' D0). rewrite Z in Q. cbn in Q. symmetry in Q. now apply map_eq_nil in Q.
  - intros qs s i Y d2 N Es Hi HN Hd2 HY. eapply (stored_zeta F u v eta l l' g (length signal) j1 j2 wd d r); try eassumption; lia.
  - intros n c B N Ec Hn1 HN HY. eapply (stored_c1 F u v eta l l' g (length signal) j1 j2 wd d r); try eassumption; lia.
Qed.
Print Assumptions C96_signal.

(** A concrete case, everything in binary64: the ramp 0, ..., 23 with Haar filters.  The exact leaders are 2^(3j/2 - 2), the exact hmin is 3/2. *)
Import PropsBinary64 PropsRoundedEst64.
Lemma ramp_coefs2 j : (1 <= j <= 2)%nat ->
  column (mrq_of WaveletCoef 0 (Cf [fin ramp] haar 0 1) 2) (Z.of_nat j) 0 = repeat (Fin (Rpower 2 (3 / 2 * INR j - 2))) (if Nat.eqb j 1 then 11 else 5) ++ [NaN].
Proof.
  intros Hj. unfold mrq_of. rewrite table_column by lia. rewrite Cf_nth_lt by (simpl; lia). cbn [nth].
  unfold coef. rewrite rescale_eq.
  assert (V : Rpower 2 (3 / 2 * INR j - 2) = Rpower 2 (0 * INR j + INR j * (1/2 - 1/1)) * Rpower 2 (2 * INR j - 2)).
  { rewrite <- Rpower_plus. f_equal. field. }
  rewrite V. rewrite <- INR_IZR_INZ. assert (j = 1%nat \/ j = 2%nat) as [->| ->] by lia; cbn [Nat.eqb].
  - rewrite ramp_d1, map_app. cbn [map xmul]. f_equal. cbn [repeat map xmul].
    replace (2 * INR 1 - 2) with 0 by (simpl; ring). rewrite Rpower_O by lra. reflexivity.
  - rewrite ramp_d2, map_app. cbn [map xmul]. f_equal. cbn [repeat map xmul].
    replace (2 * INR 2 - 2) with (INR 2) by (simpl; ring). rewrite Rpower_pow by lra.
    replace (2 ^ 2) with 4 by (simpl; ring). reflexivity.
Qed.
Lemma nth_In_or_default_NaN k c a : nth k c NaN = Fin a -> In (Fin a) c.
Proof. intros H. destruct (nth_in_or_default k c NaN) as [I1|E]; [now rewrite H in I1|congruence]. Qed.
Lemma reals_length_le c : (length (reals c) <= length c)%nat.
Proof. induction c as [|[a| | |] c IH]; cbn; lia. Qed.
Lemma ramp_mono t ws l : wavelet_analysis [fin ramp] PInfty haar 1 None 0 1 true = Ok (t, ws) -> wt_leaders t = Some l ->
  monofractal l 1 2 0 (/ 4) (3 / 2) /\ regular l 2 1 /\ counted l /\ forall j, (1 <= j <= 2)%Z -> (length (numbers l j 0) <= 10)%nat.
Proof.
  intros E El. assert (HA : Forall no_inf [fin ramp]) by (constructor; [apply no_inf_fin|constructor]).
  assert (K := C21_leader_sup [fin ramp] haar 1 None 0 1 true t ws l HA good_haar R1_neq_R0 E El).
  apply wa_inv in E as (eta & _ & -> & _); [|exact good_haar|exact R1_neq_R0|exact I].
  destruct (haar_count 0 PInfty I eq_refl) as (G & C & _). cbn [the_wt wt_coefs wt_leaders] in *. apply Some_inj in El. rewrite G in El. rewrite C in K.
  assert (NI : forall j, no_inf (column l j 0)) by (intros j; subst l; apply no_inf_column; now apply leads_no_inf).
  assert (RG : regular l 2 1) by (subst l; apply table_regular; [lia|intros; apply Ld_length]).
  assert (CT : counted l) by (subst l; apply table_counted; reflexivity).
  assert (Sc : forall i, (1 <= i <= 2)%nat -> In (Z.of_nat i) (SpecMRQ.scales l)).
  { intros i Hi. destruct RG as (_ & -> & _). apply one_to_In. lia. }
  clear El.
  assert (LL : forall i, (1 <= i <= 2)%nat -> length (column l (Z.of_nat i) 0) = (if Nat.eqb i 1 then 10 else 4)%nat).
  { intros i Hi. destruct (K (Z.of_nat i) 0%nat 0%nat (Sc i Hi) ltac:(simpl; lia)) as [L _]. rewrite L, ramp_coefs2 by trivial.
    assert (i = 1%nat \/ i = 2%nat) as [->| ->] by lia; reflexivity. }
  assert (EN : forall i k, (1 <= i <= 2)%nat -> (k < length (column l (Z.of_nat i) 0))%nat -> nth k (column l (Z.of_nat i) 0) NaN = Fin (Rpower 2 (3 / 2 * INR i - 2))).
  { intros i k Hi Hk. destruct (K (Z.of_nat i) 0%nat k (Sc i Hi) ltac:(simpl; lia)) as [_ Q]. destruct (Q Hk) as [_ Q2]. rewrite <- entry_column. apply Q2.
    rewrite (LL i Hi) in Hk. set (y := Rpower 2 (3 / 2 * INR i - 2)). assert (Py : 0 < y) by apply Rpower_pos. split.
    - apply in_map_iff. exists y. split; [apply Rabs_pos_eq; lra|]. apply In_reals. unfold cone_coefs. apply in_map_iff. exists (i, k). split.
      + cbn [fst snd]. rewrite entry_column, ramp_coefs2 by trivial. fold y.
        assert (k < (if Nat.eqb i 1 then 11 else 5))%nat by (destruct (Nat.eqb i 1); lia).
        rewrite app_nth1 by (now rewrite repeat_length). rewrite (nth_indep _ NaN (Fin y)) by (now rewrite repeat_length). apply nth_repeat.
      + rewrite Nat2Z.id. apply cone_In. rewrite Nat.sub_diag. cbn [Nat.pow]. lia.
    - intros z Hz. apply in_map_iff in Hz as (a & <- & Ha). apply In_reals in Ha. unfold cone_coefs in Ha. apply in_map_iff in Ha as ([j' k'] & Ea & Hin).
      rewrite Nat2Z.id in Hin. apply cone_In in Hin. cbn [fst snd] in Ea. rewrite entry_column, ramp_coefs2 in Ea by lia.
      apply nth_In_or_default_NaN in Ea. apply in_app_iff in Ea as [Ea|[Ea|[]]]; [|discriminate]. apply repeat_spec in Ea. injection Ea as ->.
      rewrite Rabs_pos_eq by (left; apply Rpower_pos). unfold y. apply Rle_Rpower; [lra|]. assert (INR j' <= INR i) by (apply le_INR; lia). lra. }
  split; [|split; [exact RG|split; [exact CT|]]].
  - split; [lra|]. intros j Hj. replace j with (Z.of_nat (Z.to_nat j)) by lia. set (i := Z.to_nat j). assert (Hi : (1 <= i <= 2)%nat) by (unfold i; lia).
    assert (L := LL i Hi). split.
    + split; [apply NI|]. intros Z. assert (Q := EN i 0%nat Hi ltac:(rewrite L; destruct (Nat.eqb i 1); lia)).
      assert (I1 : In (Rpower 2 (3 / 2 * INR i - 2)) (numbers l (Z.of_nat i) 0)).
      { apply In_reals. rewrite <- Q. apply nth_In. rewrite L. destruct (Nat.eqb i 1); lia. }
      rewrite Z in I1. destruct I1.
    + intros a Ha. apply In_reals in Ha. apply (In_nth _ _ NaN) in Ha as (k & Hk & Ek). rewrite EN in Ek by trivial. injection Ek as <-.
      rewrite Rabs_pos_eq by (left; apply Rpower_pos). rewrite <- INR_IZR_INZ.
      replace (/ 4) with (Rpower 2 (- INR 2)). 2:{ rewrite Rpower_Ropp, Rpower_pow by lra. cbn [pow]. f_equal. lra. }
      rewrite <- Rpower_plus. f_equal. cbn [INR]. lra.
  - intros j Hj. replace j with (Z.of_nat (Z.to_nat j)) by lia. set (i := Z.to_nat j). assert (Hi : (1 <= i <= 2)%nat) by (unfold i; lia).
    unfold numbers. eapply Nat.le_trans; [apply reals_length_le|]. rewrite (LL i Hi). destruct (Nat.eqb i 1); lia.
Qed.

Example C96_signal_case : exists t l ws h t' l' h',
  wavelet_analysis [fin ramp] PInfty haar 1 None 0 1 true = Ok (t, ws) /\ wt_leaders t = Some l /\ estimate_hmin l 1 2 false true = Ok h /\
  nth 0 (hm_hmin h) NaN = Fin (3 / 2) /\
  wavelet_analysis_f binary64 [fin ramp] true haar None 0 1 = Ok (t', ws) /\ wt_leaders t' = Some l' /\ estimate_hmin_f arith64 l' 1 2 false true = Ok h' /\
  exists y, nth 0 (hm_hmin h') NaN = Fin y /\ Rabs (y - 3 / 2) <= 3 / 10 ^ 11.
Proof.
  assert (N : [ramp] <> []) by discriminate. assert (H : Forall (fun s => length s = 24%nat) [ramp]) by (repeat constructor).
  destruct (wavelet_case [ramp] N H) as (t & l & ws & E & H1 & H2 & H3 & H4 & H5). cbn [map] in E.
  destruct (ramp_mono t ws l E H2) as (HM & HR & HC & HL).
  assert (T2 : has_two [2] = true) by (apply has_two_In; simpl; auto).
  assert (Ef := SF_eq l 2 1 HR [2] 1 2 false ltac:(lia) ltac:(lia) ltac:(lia)). rewrite T2 in Ef.
  assert (Ec := CUM_eq l 2 1 HR 1 1 2 false ltac:(lia) ltac:(lia) ltac:(lia)).
  assert (Es := MFS_eq l 2 1 HR (QArr [2]) 1 2 false ltac:(lia) ltac:(lia) ltac:(lia)).
  assert (Eh := HMIN_eq l 2 1 HR 1 2 false true ltac:(lia) ltac:(lia) ltac:(lia)). cbv zeta in Eh.
  match type of Eh with ?P -> _ => assert (HP : P) end.
  { intros j r Hj Hr Z. assert (r = 0%nat) by lia. subst r. destruct HM as [_ HM]. destruct (HM j Hj) as ([_ U] & _). unfold numbers in U. rewrite Z in U. now apply U. }
  specialize (Eh HP). match type of Eh with _ = Ok ?x => set (h := x) in * end.
  assert (K := C40_monofractal l 2 1 [2] 1 1 2 false true _ _ _ _ HR HC ltac:(lia) ltac:(lia) ltac:(lia) Ef Ec Es Eh 0%nat (/ 4) (3 / 2) ltac:(lia) HM).
  destruct K as (_ & _ & _ & V & _). clear Ef Ec Es. clearbody h.
  destruct (C96_signal binary64 arith64 u64 u64 eta64 23 haar [fin ramp] 1 None 0 1 true t ws l u64_nonneg (Rle_refl _) eta64_nonneg ltac:(lra) accurate64 accurate_arith64
     good_haar R1_neq_R0 ramp_within E H2) as (t' & l' & E' & El' & K).
  assert (P : 0 < 10 ^ 11) by (apply pow_lt; lra). set (d := / 10 ^ 11) in *. assert (Dp : 0 < d) by (now apply Rinv_0_lt_compat).
  assert (D1 : d <= / 1000) by (unfold d; apply Rinv_le_contravar; [lra|]; cbn; lra).
  destruct (K d 1%Z 2%Z false 0%nat) as (Kh & _).
  - lra.
  - lia.
  - rewrite H3. right. now left.
  - simpl; lia.
  - intros j x Hj Hx.
    assert (B : PropsRounded.lead_bound u64 u64 eta64 23 haar 1 0 (Z.to_nat j) <= / 10 ^ 12).
    { assert (j = 1 \/ j = 2)%Z as [-> | ->] by lia; unfold PropsRounded.lead_bound; cbn [Z.to_nat Pos.to_nat Pos.iter_op Nat.add PropsRounded.lead_err];
        change (PropsRounded.coef_err ?a ?b ?c (length (dec_hi haar)) ?e ?f ?g ?h ?i ?k) with (PropsRounded.coef_bound a b c g haar h i k);
        assert (0 <= / 10 ^ 12) by (left; apply Rinv_0_lt_compat, pow_lt; lra); assert (R1 := ramp_bound1); assert (R2 := ramp_bound);
        repeat apply Rmax_lub; trivial. }
    assert (X : / 2 <= Rabs x).
    { apply (ramp_leads t ws l j); trivial. rewrite H3. assert (j = 1 \/ j = 2)%Z as [-> | ->] by lia; [now left|right; now left]. }
    assert (D2 : / 10 ^ 12 = d / 10) by (unfold d; cbn; field).
    assert (Z1 := one_minus_pow d ltac:(lra)). rewrite D2 in B.
    assert (Z2 : d / 4 * / 2 <= (1 - Rpower 2 (- d)) * Rabs x) by (apply Rmult_le_compat; lra). lra.
  - destruct (Kh true h 1 Eh) as (h' & Eh' & a & b & A & B & Q); [rewrite V; now exists (3 / 2)| |].
    { intros j x Hj [Hx _]. apply in_map_iff in Hx as (a & <- & Ha). destruct HM as [_ HM]. destruct (HM j Hj) as [_ HM']. rewrite (HM' a Ha).
      unfold log2R. assert (L2 := ln2_pos). rewrite ln_mult by (try apply Rpower_pos; lra). rewrite ln_2d, ln_Rinv by lra.
      replace 4 with (2 * 2) by ring. rewrite ln_mult by lra. replace ((- (ln 2 + ln 2) + IZR j * (3 / 2) * ln 2) / ln 2) with (IZR j * (3 / 2) - 2) by (field; lra).
      assert (j = 1 \/ j = 2)%Z as [-> | ->] by lia; apply Rabs_le; lra. }
    exists t, l, ws, h, t', l', h'. do 7 (split; [assumption|]). rewrite V in A. injection A as <-. exists b. split; [exact B|]. eapply Rle_trans; [exact Q|].
    rewrite C94_spread_unweighted by lia. replace ((IZR (2 - 1 + 1) ^ 2 - 1) / 12) with (/ 2 * / 2) by (cbn; field). rewrite sqrt_square by lra.
    change (Z.to_nat (2 - 1 + 1)) with 2%nat. unfold k_fit, k_log, size, error. cbn [fst snd].
    assert (U := u64_small). assert (T := eta64_small). fold eps in U, T. assert (G := pow_small (2 + 1) ltac:(lia)). assert (G2 := pow_small 2 ltac:(lia)).
    set (g3 := (1 + u64) ^ (2 + 1)) in *. set (g2 := (1 + u64) ^ 2) in *. clearbody g3 g2. replace (INR 2) with 2 by (cbn; lra).
    assert (EP : 0 < eps <= d / 10000). { unfold eps, d. split; [|cbn]; lra. }
    assert (X1 : 0 <= u64 * (1 + d) <= eps * 2) by (split; [apply Rmult_le_pos|apply Rmult_le_compat]; lra).
    set (e := u64 * (1 + d) + eta64). assert (X2 : 0 <= e <= 3 * eps) by (unfold e; lra).
    assert (X3 : (g3 - 1) * (1 + d + e) <= 5 * eps * 2) by (apply Rmult_le_compat; lra).
    assert (X4 : 2 * (1 + d + e + 2) * g2 * eta64 <= 2 * 4 * 2 * eps).
    { apply Rmult_le_compat; [apply Rmult_le_pos; lra|lra| |lra]. apply Rmult_le_compat; lra. }
    replace (3 / 10 ^ 11) with (3 * d) by (unfold d; field; lra).
    replace (d / / 2) with (2 * d) by field. replace ((e + (g3 - 1) * (1 + d + e)) / / 2) with (2 * (e + (g3 - 1) * (1 + d + e))) by field. lra.
Qed.
