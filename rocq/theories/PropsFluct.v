(** * C112: fluctuations of the mean power of the wavelet coefficients of simulated Gaussian signals *)
From Coq Require Import Reals List ZArith Bool Lra Lia String.
From Verif Require Import XReal PyBase ModelUtils ModelMRQ ModelStructure ModelWavelet ModelSimul Spec SpecMRQ SpecSimul LXReal LUtils LBase LFilter LTransform LPattern LWave LPoly LCone LWaveEst LDft LSimul LFgnCov LEst LNoise
  PropsWavelet PropsMissing PropsSlope PropsWhite PropsWhitePower PropsSimul PropsWhiteFbm PropsRounded LTaps PropsDecorr PropsShortRange LWick.
Import ListNotations.
Open Scope R_scope.
Local Notation length := List.length.
Local Notation entry := SpecMRQ.entry.

(** ** The simulated samples are linear combinations of the noise *)
Lemma presented_inj {A} sh N (x y : list (list A)) : shaped (shape_R sh) N x -> shaped (shape_R sh) N y -> presented sh x = presented sh y -> x = y.
Proof.
  intros [Lx _] [Ly _] H. destruct sh as [n|n r]; unfold presented in H; cbn [shape_R] in *.
  - destruct x as [|a [|]]; try discriminate Lx. destruct y as [|b [|]]; try discriminate Ly. cbn in H. congruence.
  - congruence.
Qed.
Lemma fgn_linear {W} sh N (H sigma : R) dt d z0 (drawn : W -> noise) (X : W -> list (list R)) :
  shape_N sh = N -> (2 <= N)%nat -> sampling_step dt N d -> 0 < H <= 1 -> (forall o, shaped (shape_R sh) (2 * N - 2) (nz (drawn o))) ->
  (forall o, fgn sh H sigma dt "cme" z0 (drawn o) = Ok (presented sh (X o), false)) -> (forall o, shaped (shape_R sh) N (X o)) ->
  forall r i, (r < shape_R sh)%nat -> (i < N)%nat -> combination (cidx (shape_R sh) (2 * N - 2)) (cvar (fun o => nz (drawn o))) (fun o => nth i (nth r (X o) []) 0).
Proof.
  intros EN HN Hd HH HZ EX SX r i Hr Hi. set (cov := fgn_cov N H sigma d).
  assert (G : forall o, X o = map (fun r => map (cme_val cov N (nz (drawn o)) r) (seq 0 N)) (seq 0 (shape_R sh))).
  { intros o. assert (HZo := HZ o). replace (2 * N - 2)%nat with (2 * (N - 1))%nat in HZo by lia.
    assert (G := cme_eq cov N HN (fgn_cov_length _ _ _ _) (shape_R sh) (nz (drawn o)) HZo).
    assert (Sh := array_shaped (cme_val cov N (nz (drawn o))) (shape_R sh) N).
    destruct (fgn_cme_eq sh H sigma dt z0 (drawn o) N d _ _ EN HN Hd ltac:(lra) ltac:(lra) G Sh) as [_ [F _]]. rewrite EX in F. injection F as F _.
    now apply (presented_inj sh N _ _ (SX o) Sh). }
  apply (comb_ext _ _ (fun o => sumn (2 * (2 * (N - 1))) (fun l => cme_coef cov N i l * cme_noise N (nz (drawn o)) r l))).
  - intros o. rewrite G. rewrite (nth_map_lt _ _ _ 0%nat) by (now rewrite seq_length). rewrite seq_nth by trivial. rewrite (nth_map_lt _ _ _ 0%nat) by (now rewrite seq_length). rewrite seq_nth by trivial. reflexivity.
  - apply comb_sumn. intros l Hl. apply (comb_scal _ _ (cme_coef cov N i l)). unfold cme_noise. destruct (Nat.ltb_spec l (2 * (N - 1))).
    + apply (comb_ext _ _ (cvar (fun o => nz (drawn o)) (r, l, false))); [reflexivity|]. apply comb_gen. split; cbn [fst snd]; lia.
    + apply (comb_ext _ _ (cvar (fun o => nz (drawn o)) (r, l - 2 * (N - 1), true)%nat)); [reflexivity|]. apply comb_gen. split; cbn [fst snd]; lia.
Qed.
Lemma cumsum_linear {W I} (idx : I -> Prop) (z : I -> W -> R) R N (X : W -> list (list Rdefinitions.R)) : (forall o, shaped R N (X o)) ->
  (forall r i, (r < R)%nat -> (i < N)%nat -> combination idx z (fun o => nth i (nth r (X o) []) 0)) ->
  forall r i, (r < R)%nat -> (i < N)%nat -> combination idx z (fun o => nth i (nth r (map cumsum (X o)) []) 0).
Proof.
  intros SX HX r i Hr Hi. apply (comb_ext _ _ (fun o => sumn (S i) (fun l => nth l (nth r (X o) []) 0))).
  - intros o. destruct (SX o) as [LX FX]. rewrite (nth_map_lt _ _ _ []) by lia. rewrite cumsum_nth; [reflexivity|]. rewrite Forall_forall in FX. rewrite FX; [trivial|]. apply nth_In. lia.
  - apply (comb_sumn _ _ (S i) (fun l o => nth l (nth r (X o) []) 0)). intros l Hl. apply HX; [trivial|lia].
Qed.

Lemma sq_sum_le (f : nat -> R) l : Rsum (map (fun k => f k ^ 2) l) <= Rsum (map (fun k => Rabs (f k)) l) ^ 2.
Proof.
  induction l as [|k l IH]; [unfold Rsum; cbn; lra|]. cbn [map]. change (Rsum (?a :: ?m)) with (a + Rsum m).
  assert (N0 : 0 <= Rsum (map (fun k => Rabs (f k)) l)). { clear. induction l as [|a m IH]; [unfold Rsum; cbn; lra|]. cbn [map]. change (Rsum (?a :: ?m)) with (a + Rsum m). assert (Q := Rabs_pos (f a)). lra. }
  assert (Q := Rabs_pos (f k)). rewrite <- (pow2_abs (f k)). nra.
Qed.
Lemma filter_sum (f : nat -> R) (b : nat -> bool) l : (forall k, b k = false -> f k = 0) -> Rsum (map f l) = Rsum (map f (filter b l)).
Proof.
  intros Hb. induction l as [|k l IH]; [reflexivity|]. cbn [map filter]. change (Rsum (?a :: ?m)) with (a + Rsum m) at 1. rewrite IH. destruct (b k) eqn:E; [reflexivity|]. rewrite (Hb k E). ring.
Qed.

(** ** So are the wavelet coefficients *)
Section Fluct.
Context {W I : Type} (P : expectation W) (idx : I -> Prop) (z : I -> W -> R).
Variables (S : W -> list (list R)) (n nrep : nat) (w : wavelet) (p : pexp) (j1 : Z) (j2 : option R) (gam norm : R) (weighted : bool) (T : W -> wtransform) (ws : W -> list warning) (r j : nat).
Hypothesis HS : forall o, length (S o) = nrep /\ Forall (fun s => length s = n) (S o).
Hypothesis Hw : good_wavelet w.
Hypothesis Hn : norm <> 0.
Hypothesis Hp : p_ok p.
Hypothesis HT : forall o, wavelet_analysis (map fin (S o)) p w j1 j2 gam norm weighted = Ok (T o, ws o).
Hypothesis Hr : (r < nrep)%nat.
Hypothesis Hj : (1 <= j)%nat.
Hypothesis HI : forall o, In (Z.of_nat j) (scales (wt_coefs (T o))).
Hypothesis HX : forall i, (i < n)%nat -> combination idx z (fun o => nth i (nth r (S o) []) 0).
Let L := length (dec_hi w).
Let x := fun o => nth r (S o) [].
Let c k o := number (entry (wt_coefs (T o)) (Z.of_nat j) r k).
Lemma x_len o : length (x o) = n.
Proof using HS Hr. destruct (HS o) as [A B]. rewrite Forall_forall in B. apply B, nth_In. rewrite A. exact Hr. Qed.
Lemma out_comb h i k : (forall l, okpos n (length (dec_lo w)) i l -> combination idx z (lowr x (dec_lo w) i l)) -> inner n (length (dec_lo w)) (Datatypes.S i) k -> combination idx z (outr x (dec_lo w) h i k).
Proof using Hw.
  intros Hl IN. unfold outr. apply (comb_sumn idx z _ (fun m o => nth m h 0 * lowr x (dec_lo w) i (2 * k + 1 + (length (dec_lo w) - 1) / 2 - m)%nat o)).
  intros m Hm. apply (comb_scal idx z (nth m h 0)). apply Hl. apply okpos_step; trivial. destruct Hw as [E0 E1]. clear - E0 E1. lia.
Qed.
Lemma low_comb i : forall k, okpos n (length (dec_lo w)) i k -> combination idx z (lowr x (dec_lo w) i k).
Proof using Hw HS Hr HX.
  induction i as [|i IH]; intros k Hk.
  - cbn [okpos] in Hk. apply (comb_ext idx z (fun o => nth k (x o) 0)); [|now apply HX]. intros o. unfold lowr, low. cbn [approx_at]. unfold fin. rewrite (nth_map_lt _ _ _ 0) by (now rewrite x_len). reflexivity.
  - cbn [okpos] in Hk. apply (comb_ext idx z (outr x (dec_lo w) (dec_lo w) i k)); [|now apply out_comb].
    intros o. unfold lowr, outr, lowr. symmetry. apply low_S; [destruct Hw as [E0 E1]; clear - E0 E1; lia|]. now rewrite x_len.
Qed.
Lemma not_inner_zero k o : ~ inner n L j k -> c k o = 0.
Proof using All.
  intros NK. destruct (column_facts S n nrep w p j1 j2 gam norm weighted T ws HS Hw Hn Hp HT j r o Hj (HI o) Hr) as (_ & _ & _ & A4). specialize (A4 k NK).
  unfold c, entry. unfold column in A4. destruct (dict_get _ _); [|reflexivity]. now rewrite A4.
Qed.
Lemma coef_comb k : combination idx z (c k).
Proof using All.
  destruct (inner_dec n L j k) as [IN|IN].
  - assert (V := coef_value S n nrep w p j1 j2 gam norm weighted T ws HS Hw Hn Hp HT j r k Hj HI Hr IN). fold x in V.
    apply (comb_ext idx z (fun o => factor norm gam j * outr x (dec_lo w) (neg_hi w) (j - 1) k o)); [intros o; unfold c; now rewrite V|]. apply comb_scal.
    apply out_comb; [apply low_comb|]. assert (E : length (dec_lo w) = L) by apply Hw. rewrite E. now replace (Datatypes.S (j - 1)) with j by lia.
  - apply (comb_ext idx z (fun _ => 0)); [intros o; now rewrite not_inner_zero|apply comb_zero].
Qed.
Hypothesis Hwhite : white P idx z.
Hypothesis Hgauss : gaussian4 P idx z.
Hypothesis H1 : (1 <= inner_count n L j)%nat.
Lemma mean_fluct2 D : (forall k, inner n L j k -> Rsum (map (fun k' => E P (fun o => c k o * c k' o) ^ 2) (filter (innerb n L j) (seq 0 (n / 2 ^ j)))) <= D) ->
  let M o := mean_sq (wt_coefs (T o)) (Z.of_nat j) r in
  integrable P M /\ integrable P (fun o => (M o - E P M) ^ 2) /\ E P (fun o => (M o - E P M) ^ 2) <= 2 * D / INR (inner_count n L j).
Proof using All.
  intros HD. intros M. set (K := (n / 2 ^ j)%nat). set (cnt := INR (inner_count n L j)). assert (c0 : 0 < cnt) by (apply lt_0_INR; lia).
  assert (V : forall o, / cnt * sumn K (fun k => c k o * c k o) = M o).
  { intros o. destruct (column_facts S n nrep w p j1 j2 gam norm weighted T ws HS Hw Hn Hp HT j r o Hj (HI o) Hr) as (A1 & A2 & A3 & A4). unfold M, mean_sq, mean, numbers. rewrite map_length, A3, reals_sumn, A2 by trivial.
    unfold Rdiv. rewrite Rmult_comm. f_equal. apply sumn_ext. intros k Hk. unfold c, entry, column. destruct (dict_get _ _); [reflexivity|]. now destruct k. }
  assert (I2 : forall k l, integrable P (fun o => c k o * c l o)) by (intros k l; apply (comb_int2 idx z P Hwhite); apply coef_comb).
  destruct (sumsq_var idx z P Hwhite Hgauss K c (fun k _ => coef_comb k)) as [A B]. set (s := sumn K (fun k => E P (fun o => c k o * c k o))) in *.
  assert (IM : integrable P M). { apply (int_ext W P _ _ V). apply (int_scal W P (/ cnt) (fun o => sumn K (fun k => c k o * c k o))). apply (int_sumn P K (fun k o => c k o * c k o)). intros; apply I2. }
  assert (EM : E P M = / cnt * s).
  { rewrite <- (E_ext W P _ _ V). rewrite (E_scal W P (/ cnt) (fun o => sumn K (fun k => c k o * c k o))) by (apply (int_sumn P K (fun k o => c k o * c k o)); intros; apply I2).
    f_equal. apply (E_sumn P K (fun k o => c k o * c k o)). intros; apply I2. }
  assert (G : forall o, / cnt ^ 2 * (sumn K (fun k => c k o * c k o) - s) ^ 2 = (M o - E P M) ^ 2) by (intros o; rewrite <- V, EM; field; lra).
  split; [exact IM|]. split; [apply (int_ext W P _ _ G); now apply (int_scal W P (/ cnt ^ 2) (fun o => (sumn K (fun k => c k o * c k o) - s) ^ 2))|].
  rewrite <- (E_ext W P _ _ G). rewrite (E_scal W P (/ cnt ^ 2) (fun o => (sumn K (fun k => c k o * c k o) - s) ^ 2) A). rewrite B.
  assert (Q : sumn K (fun k => sumn K (fun l => E P (fun o => c k o * c l o) ^ 2)) <= cnt * D).
  { unfold cnt. rewrite <- inner_total by (trivial; destruct Hw; unfold L; lia). fold K. rewrite <- sumn_indicator. apply sumn_le. intros k Hk. unfold innerb at 1. destruct (inner_dec n L j k) as [IN|IN].
    - eapply Rle_trans; [|apply (HD k IN)]. fold K. right. unfold sumn. apply filter_sum. intros l Hl. unfold innerb in Hl. destruct (inner_dec n L j l) as [|NL]; [discriminate|].
      rewrite (E_ext W P _ (fun _ => 0)); [rewrite E_zero; ring|]. intros o. rewrite (not_inner_zero l o NL). ring.
    - rewrite (sumn_ext K _ (fun _ => 0)); [rewrite sumn_const; lra|]. intros l _. rewrite (E_ext W P _ (fun _ => 0)); [rewrite E_zero; ring|]. intros o. rewrite (not_inner_zero k o IN). ring. }
  fold cnt. apply Rle_trans with (/ cnt ^ 2 * (2 * (cnt * D))); [apply Rmult_le_compat_l; [left; apply Rinv_0_lt_compat, pow_lt; trivial|lra]|]. right. field. lra.
Qed.
Variable C : R.
Hypothesis HC : forall k l, inner n L j k -> NoDup l -> (forall k', In k' l -> inner n L j k') -> Rsum (map (fun k' => Rabs (E P (fun o => c k o * c k' o))) l) <= C.
Lemma mean_fluct :
  let M o := mean_sq (wt_coefs (T o)) (Z.of_nat j) r in
  integrable P M /\ integrable P (fun o => (M o - E P M) ^ 2) /\ E P (fun o => (M o - E P M) ^ 2) <= 2 * C ^ 2 / INR (inner_count n L j).
Proof using All.
  apply mean_fluct2. intros k IN. eapply Rle_trans; [apply (sq_sum_le (fun l => E P (fun o => c k o * c l o)))|]. apply pow_incr. split.
  - set (m := filter _ _). clear. induction m as [|a m IH]; [unfold Rsum; cbn; lra|]. cbn [map]. change (Rsum (?a :: ?m)) with (a + Rsum m). assert (Q := Rabs_pos (E P (fun o => c k o * c a o))). lra.
  - apply HC; trivial; [apply NoDup_filter, seq_NoDup|]. intros k' Hk'. apply filter_In in Hk' as [_ Hk']. unfold innerb in Hk'. destruct (inner_dec n L j k'); [trivial|discriminate].
Qed.
End Fluct.

(** ** Scaling in sigma and in the sampling step *)
Lemma filtered_scal f g a r d : filtered f g (fun z => a * r z) d = a * filtered f g r d.
Proof. unfold filtered. rewrite <- sumn_scal. apply sumn_ext. intros m _. rewrite <- sumn_scal. apply sumn_ext. intros m' _. ring. Qed.
Lemma high_cov_scal w a v j d : high_cov w (fun z => a * v z) j d = a * high_cov w v j d.
Proof.
  unfold high_cov. rewrite <- filtered_scal. apply filtered_ext. generalize (j - 1)%nat. intros i. induction i as [|i IH]; intros z; cbn [low_cov]; [reflexivity|].
  rewrite <- filtered_scal. now apply filtered_ext.
Qed.
Lemma high_cov_ext' w v v' j z : (forall z, v z = v' z) -> high_cov w v j z = high_cov w v' j z.
Proof. intros H. unfold high_cov. apply filtered_ext. generalize (j - 1)%nat. intros i. induction i as [|i IH]; intros y; cbn [low_cov]; [apply H|now apply filtered_ext]. Qed.
Lemma rpow_scale d t e : 0 < d -> rpow (Rabs (d * t)) e = Rpower d e * rpow (Rabs t) e.
Proof.
  intros Hd. rewrite Rabs_mult, (Rabs_pos_eq d) by lra. assert (P := Rabs_pos t). unfold rpow. destruct (Rlt_dec 0 (Rabs t)) as [Q|Q].
  - destruct (Rlt_dec 0 (d * Rabs t)) as [_|N]; [symmetry; now apply Rpower_mult_distr|]. exfalso. apply N. now apply Rmult_lt_0_compat.
  - assert (Rabs t = 0) as -> by lra. rewrite Rmult_0_r. destruct (Rlt_dec 0 0); [lra|ring].
Qed.
Definition second : taps := [(1, 1); (-2, 0); (1, -1)].
(** covariances of fgn and of fbm for sigma = 1 and the sampling step 1, up to terms that depend on one position only for fbm *)
Definition unit_fgn (H : R) (z : Z) : R := ev second (fun t => 1 / 2 * rpow (Rabs t) (2 * H)) (IZR z).
Definition unit_fbm (H : R) (z : Z) : R := - (1 / 2 * rpow (Rabs (IZR z)) (2 * H)).
Lemma fgn_scale H sigma d z : 0 < d -> ev second (fun t => sigma ^ 2 / 2 * rpow (Rabs (d * t)) (2 * H)) (IZR z) = sigma ^ 2 * Rpower d (2 * H) * unit_fgn H z.
Proof. intros Hd. unfold unit_fgn, ev, second, Rsum. cbn [map fold_right fst snd]. rewrite !rpow_scale by trivial. field. Qed.
Lemma fbm_scale H sigma d z : 0 < d -> - (sigma ^ 2 / 2 * rpow (Rabs (d * IZR z)) (2 * H)) = sigma ^ 2 * Rpower d (2 * H) * unit_fbm H z.
Proof. intros Hd. unfold unit_fbm. rewrite !rpow_scale by trivial. field. Qed.
Lemma unit_fgn_short H w M j : 0 < H <= 1 -> good_wavelet w -> vanishing_moments (dec_hi w) M -> (1 <= M)%nat -> (1 <= j)%nat ->
  exists C, forall k l, NoDup l -> Rsum (map (fun k' => Rabs (high_cov w (unit_fgn H) j (Z.of_nat k - Z.of_nat k'))) l) <= C.
Proof.
  intros HH Hw HM M1 Hj. apply (short_range w second 2 M 1 (1 / 2) (2 * H) (fun t => 1 / 2 * rpow (Rabs t) (2 * H)) (unit_fgn H) j); trivial.
  - intros [|[|i]] x Hi; [| |lia]; unfold ev, second, Rsum; cbn [map fold_right fst snd pow]; ring.
  - intros q [<-|[<-|[<-|[]]]]; cbn [snd]; lra.
  - lra.
  - lra.
  - lia.
  - intros t Ht. rewrite Rabs_pos_eq by lra. unfold rpow. destruct (Rlt_dec 0 t); [reflexivity|lra].
  - intros z. unfold unit_fgn, ev, second, Rsum. cbn [map fold_right fst snd]. rewrite opp_IZR.
    replace (- IZR z + 1) with (- (IZR z + -1)) by ring. replace (- IZR z + 0) with (- (IZR z + 0)) by ring. replace (- IZR z + -1) with (- (IZR z + 1)) by ring. rewrite !Rabs_Ropp. ring.
  - intros X. destruct (rpow_bounded 1 (2 * H) (1 / 2) X) as [A HA]; try lra. exists A. intros t Ht. specialize (HA t Ht). now rewrite Rmult_1_l in HA.
Qed.
Lemma unit_fbm_short H w M j : 0 < H <= 1 -> good_wavelet w -> vanishing_moments (dec_hi w) M -> (2 <= M)%nat -> (1 <= j)%nat ->
  exists C, forall k l, NoDup l -> Rsum (map (fun k' => Rabs (high_cov w (unit_fbm H) j (Z.of_nat k - Z.of_nat k'))) l) <= C.
Proof.
  intros HH Hw HM M1 Hj. apply (short_range w [(1, 0)] 0 M 0 (- (1 / 2)) (2 * H) (fun t => - (1 / 2 * rpow (Rabs t) (2 * H))) (unit_fbm H) j); trivial.
  - apply ann_0.
  - intros q [<-|[]]. cbn [snd]. lra.
  - lra.
  - lra.
  - lia.
  - intros t Ht. rewrite Rabs_pos_eq by lra. unfold rpow. destruct (Rlt_dec 0 t); [unfold Rpower; ring|lra].
  - intros z. unfold ev, Rsum. cbn [map fold_right fst snd]. rewrite !Rplus_0_r. unfold unit_fbm. ring.
  - intros z. unfold unit_fbm. now rewrite opp_IZR, Rabs_Ropp.
  - intros X. destruct (rpow_bounded 1 (2 * H) (1 / 2) X) as [A HA]; try lra. exists A. intros t Ht. specialize (HA t Ht). rewrite Rmult_1_l in HA. now rewrite Rabs_Ropp.
Qed.

(** ** C112: the mean power of a scale is within O(1 / sqrt n) of its expectation, n being the number of coefficients *)
Lemma power_mean_sq (T : wtransform) j r : abs_moment 2 (numbers (wt_coefs T) j r) = mean_sq (wt_coefs T) j r.
Proof. now rewrite abs_moment_2. Qed.
Lemma bound_short (f a C : R) (g : nat -> nat -> R) (h : nat -> nat -> R) : 0 <= a -> (forall k l, NoDup l -> Rsum (map (fun k' => Rabs (h k k')) l) <= C) ->
  forall k l, NoDup l -> (forall k', In k' l -> g k k' = f ^ 2 * (a * h k k')) -> Rsum (map (fun k' => Rabs (g k k')) l) <= f ^ 2 * C * a.
Proof.
  intros Ha HC k l ND HG. rewrite (Rsum_map_ext _ (fun k' => f ^ 2 * a * Rabs (h k k'))).
  - rewrite Rsum_scal_map. assert (F := pow2_ge_0 f). replace (f ^ 2 * C * a) with (f ^ 2 * a * C) by ring. apply Rmult_le_compat_l; [now apply Rmult_le_pos|now apply HC].
  - intros k' Hk'. rewrite HG by trivial. rewrite !Rabs_mult, (Rabs_pos_eq (f ^ 2)), (Rabs_pos_eq a) by (trivial; apply pow2_ge_0). ring.
Qed.
Theorem C112_fluctuation_fgn :
  forall H w M j gam norm, 0 < H <= 1 -> good_wavelet w -> vanishing_moments (dec_hi w) M -> (1 <= M)%nat -> (1 <= j)%nat -> norm <> 0 ->
  exists C, forall W (P : expectation W) sh N sigma dt d z0 (drawn : W -> noise) p j1 j2 weighted,
  shape_N sh = N -> (2 <= N)%nat -> sampling_step dt N d -> gaussian_complex P (shape_R sh) (2 * N - 2) (fun w => nz (drawn w)) -> p_ok p ->
  exists X, (forall o, fgn sh H sigma dt "cme" z0 (drawn o) = Ok (presented sh (X o), false)) /\ (forall o, shaped (shape_R sh) N (X o)) /\
  forall (T : W -> wtransform) (ws : W -> list warning), (forall o, wavelet_analysis (map fin (X o)) p w j1 j2 gam norm weighted = Ok (T o, ws o)) ->
  forall r, (r < shape_R sh)%nat -> (forall o, In (Z.of_nat j) (scales (wt_coefs (T o)))) -> (1 <= inner_count N (length (dec_hi w)) j)%nat ->
  let power o := abs_moment 2 (numbers (wt_coefs (T o)) (Z.of_nat j) r) in
  integrable P power /\ E P power = factor norm gam j ^ 2 * (sigma ^ 2 * Rpower d (2 * H)) * high_cov w (unit_fgn H) j 0 /\
  integrable P (fun o => (power o - E P power) ^ 2) /\
  E P (fun o => (power o - E P power) ^ 2) <= C * (sigma ^ 2 * Rpower d (2 * H)) ^ 2 / INR (inner_count N (length (dec_hi w)) j).
Proof.
  intros H w M j gam norm HH Hw HM M1 Hj Hn. destruct (unit_fgn_short H w M j HH Hw HM M1 Hj) as [C HC].
  exists (2 * (factor norm gam j ^ 2 * C) ^ 2). intros W P sh N sigma dt d z0 drawn p j1 j2 wd EN HN Hd [HZ HG] Hp.
  assert (d0 := proj2 (step_ok dt N d ltac:(lia) Hd)). assert (a0 : 0 <= sigma ^ 2 * Rpower d (2 * H)) by (apply Rmult_le_pos; [apply pow2_ge_0|left; apply exp_pos]).
  destruct (fgn_stationary P sh N H sigma dt d z0 drawn EN HN Hd HH HZ) as (X & EX & HS & HX).
  exists X. split; [exact EX|]. split; [exact HS|]. intros T ws HT r Hr HI Hc power.
  assert (Lin := fgn_linear sh N H sigma dt d z0 drawn X EN HN Hd HH (proj1 HZ) EX HS r).
  assert (M2 : forall k k', inner N (length (dec_hi w)) j k -> inner N (length (dec_hi w)) j k' ->
    E P (fun o => number (entry (wt_coefs (T o)) (Z.of_nat j) r k) * number (entry (wt_coefs (T o)) (Z.of_nat j) r k')) = factor norm gam j ^ 2 * ((sigma ^ 2 * Rpower d (2 * H)) * high_cov w (unit_fgn H) j (Z.of_nat k - Z.of_nat k'))).
  { intros k k' IN IN'. destruct (moments_2 P X N (shape_R sh) w p j1 j2 gam norm wd T ws HS Hw Hn Hp HT r _ j k k' (HX r Hr) Hj HI Hr IN IN') as [_ ->]. f_equal.
    rewrite <- high_cov_scal. apply high_cov_ext'. intros z. now apply fgn_scale. }
  assert (B := mean_fluct P (cidx (shape_R sh) (2 * N - 2)) (cvar (fun o => nz (drawn o))) X N (shape_R sh) w p j1 j2 gam norm wd T ws r j HS Hw Hn Hp HT Hr Hj HI (fun i Hi => Lin i Hr Hi) (proj2 HZ) HG Hc
    (factor norm gam j ^ 2 * C * (sigma ^ 2 * Rpower d (2 * H)))).
  cbv beta zeta in B. destruct B as (B1 & B2 & B3).
  { intros k l IN ND HL. apply (bound_short _ _ C (fun k k' => E P (fun o => number (entry (wt_coefs (T o)) (Z.of_nat j) r k) * number (entry (wt_coefs (T o)) (Z.of_nat j) r k'))) (fun k k' => high_cov w (unit_fgn H) j (Z.of_nat k - Z.of_nat k'))); trivial.
    intros k' Hk'. apply M2; auto. }
  assert (G : forall o, mean_sq (wt_coefs (T o)) (Z.of_nat j) r = power o) by (intros o; unfold power; now rewrite power_mean_sq).
  assert (EG := E_ext W P _ _ G). cbv beta in EG. change (E P (fun w => power w)) with (E P power) in EG.
  split; [exact (int_ext W P _ _ G B1)|]. split.
  - rewrite <- EG. destruct (mean_power P X N (shape_R sh) w p j1 j2 gam norm wd T ws HS Hw Hn Hp HT j r (factor norm gam j ^ 2 * (sigma ^ 2 * Rpower d (2 * H)) * high_cov w (unit_fgn H) j 0) Hj HI Hr Hc) as [_ Q]; [|exact Q].
    intros k IN. split; [|rewrite (M2 k k IN IN), Z.sub_diag; ring]. apply (moments_2 P X N (shape_R sh) w p j1 j2 gam norm wd T ws HS Hw Hn Hp HT r _ j k k (HX r Hr) Hj HI Hr IN IN).
  - rewrite EG in B2, B3. split; [apply (int_ext W P _ _ (fun o => f_equal (fun y => (y - E P power) ^ 2) (G o)) B2)|].
    rewrite <- (E_ext W P _ _ (fun o => f_equal (fun y => (y - E P power) ^ 2) (G o))). eapply Rle_trans; [exact B3|]. right. unfold Rdiv. ring.
Qed.
Print Assumptions C112_fluctuation_fgn.
(** the same for fbm, with two vanishing moments *)
Lemma fbm_facts {W} (P : expectation W) sh N (H sigma : R) dt d z0 (drawn : W -> noise) :
  shape_N sh = N -> (2 <= N)%nat -> sampling_step dt N d -> 0 < H <= 1 -> white_complex P (shape_R sh) (2 * N - 2) (fun w => nz (drawn w)) ->
  exists B, (forall o, fbm sh H sigma dt "cme" z0 (drawn o) = Ok (presented sh (B o), false)) /\ (forall o, shaped (shape_R sh) N (B o)) /\
  (forall r, (r < shape_R sh)%nat -> stationary_increments P N (fun o => nth r (B o) []) (fun i => sigma ^ 2 / 2 * rpow (d * (INR i + 1)) (2 * H)) (fun z => - (sigma ^ 2 / 2 * rpow (Rabs (d * IZR z)) (2 * H)))) /\
  forall r i, (r < shape_R sh)%nat -> (i < N)%nat -> combination (cidx (shape_R sh) (2 * N - 2)) (cvar (fun o => nz (drawn o))) (fun o => nth i (nth r (B o) []) 0).
Proof.
  intros EN HN Hd HH HZ. destruct (C61_fbm W P sh N H sigma dt d z0 drawn EN HN Hd HH HZ) as (B & EB & (B1 & B2 & B3)).
  exists B. split; [exact EB|]. split; [exact B1|]. split.
  - intros r Hr. split; [intros o; destruct (B1 o) as [U V]; rewrite Forall_forall in V; apply V, nth_In; lia|]. split.
    + intros i Hi. exact (B2 r i Hr Hi).
    + intros i k Hi Hk. destruct (B3 r r i k Hr Hr Hi Hk) as [U V]. split; [exact U|]. unfold Cov in V. rewrite (proj2 (B2 r i Hr Hi)) in V.
      destruct (Nat.eq_dec r r) as [_|]; [|congruence]. unfold SpecSimul.entry in V. rewrite Rmult_0_l, Rminus_0_r in V. rewrite V. unfold fbm_covariance.
      replace (d * (INR i + 1) - d * (INR k + 1)) with (d * IZR (Z.of_nat i - Z.of_nat k)); [ring|]. rewrite minus_IZR, <- !INR_IZR_INZ. ring.
  - intros r i Hr Hi. destruct (fgn_stationary P sh N H sigma dt d z0 drawn EN HN Hd HH HZ) as (X & EX & HSX & _).
    assert (G : forall o, map cumsum (X o) = B o).
    { intros o. assert (F := EB o). unfold fbm in F. rewrite EX in F. cbn [bind] in F. rewrite (presented_cumsum sh (X o) N HN (HSX o)) in F. injection F as F.
      apply (presented_inj sh N); trivial. destruct (HSX o) as [U V]. split; [now rewrite map_length|]. apply Forall_map. eapply Forall_impl; [|exact V]. intros c Hc. cbv beta. now rewrite cumsum_length. }
    apply (comb_ext _ _ (fun o => nth i (nth r (map cumsum (X o)) []) 0)); [intros o; now rewrite G|].
    apply (cumsum_linear _ _ (shape_R sh) N X HSX); trivial. intros r' i' Hr' Hi'. apply (fgn_linear sh N H sigma dt d z0 drawn X); trivial. apply HZ.
Qed.
Theorem C112_fluctuation_fbm :
  forall H w M j gam norm, 0 < H <= 1 -> good_wavelet w -> vanishing_moments (dec_hi w) M -> (2 <= M)%nat -> (1 <= j)%nat -> norm <> 0 ->
  exists C, forall W (P : expectation W) sh N sigma dt d z0 (drawn : W -> noise) p j1 j2 weighted,
  shape_N sh = N -> (2 <= N)%nat -> sampling_step dt N d -> gaussian_complex P (shape_R sh) (2 * N - 2) (fun w => nz (drawn w)) -> p_ok p ->
  exists B, (forall o, fbm sh H sigma dt "cme" z0 (drawn o) = Ok (presented sh (B o), false)) /\ (forall o, shaped (shape_R sh) N (B o)) /\
  forall (T : W -> wtransform) (ws : W -> list warning), (forall o, wavelet_analysis (map fin (B o)) p w j1 j2 gam norm weighted = Ok (T o, ws o)) ->
  forall r, (r < shape_R sh)%nat -> (forall o, In (Z.of_nat j) (scales (wt_coefs (T o)))) -> (1 <= inner_count N (length (dec_hi w)) j)%nat ->
  let power o := abs_moment 2 (numbers (wt_coefs (T o)) (Z.of_nat j) r) in
  integrable P power /\ E P power = factor norm gam j ^ 2 * (sigma ^ 2 * Rpower d (2 * H)) * high_cov w (unit_fbm H) j 0 /\
  integrable P (fun o => (power o - E P power) ^ 2) /\
  E P (fun o => (power o - E P power) ^ 2) <= C * (sigma ^ 2 * Rpower d (2 * H)) ^ 2 / INR (inner_count N (length (dec_hi w)) j).
Proof.
  intros H w M j gam norm HH Hw HM M1 Hj Hn. destruct (unit_fbm_short H w M j HH Hw HM M1 Hj) as [C HC].
  exists (2 * (factor norm gam j ^ 2 * C) ^ 2). intros W P sh N sigma dt d z0 drawn p j1 j2 wd EN HN Hd [HZ HG] Hp.
  assert (d0 := proj2 (step_ok dt N d ltac:(lia) Hd)). assert (a0 : 0 <= sigma ^ 2 * Rpower d (2 * H)) by (apply Rmult_le_pos; [apply pow2_ge_0|left; apply exp_pos]).
  destruct (fbm_facts P sh N H sigma dt d z0 drawn EN HN Hd HH HZ) as (B & EB & HS & HX & Lin).
  exists B. split; [exact EB|]. split; [exact HS|]. intros T ws HT r Hr HI Hc power.
  destruct (C108_increments P B N (shape_R sh) w p j1 j2 gam norm wd T ws r _ _ HS Hw (vanish_ignores w M ltac:(lia) HM) Hn Hp HT Hr (HX r Hr) j Hj HI) as [Q1 Q2].
  assert (SC : forall z, high_cov w (fun z => - (sigma ^ 2 / 2 * rpow (Rabs (d * IZR z)) (2 * H))) j z = sigma ^ 2 * Rpower d (2 * H) * high_cov w (unit_fbm H) j z).
  { intros z. rewrite <- high_cov_scal. apply high_cov_ext'. intros y. now apply fbm_scale. }
  assert (M2 : forall k k', inner N (length (dec_hi w)) j k -> inner N (length (dec_hi w)) j k' ->
    E P (fun o => number (entry (wt_coefs (T o)) (Z.of_nat j) r k) * number (entry (wt_coefs (T o)) (Z.of_nat j) r k')) = factor norm gam j ^ 2 * ((sigma ^ 2 * Rpower d (2 * H)) * high_cov w (unit_fbm H) j (Z.of_nat k - Z.of_nat k'))).
  { intros k k' IN IN'. destruct (Q1 k k' IN IN') as (_ & _ & E0 & _ & EC). unfold Cov in EC. rewrite E0, SC in EC. lra. }
  assert (F := mean_fluct P (cidx (shape_R sh) (2 * N - 2)) (cvar (fun o => nz (drawn o))) B N (shape_R sh) w p j1 j2 gam norm wd T ws r j HS Hw Hn Hp HT Hr Hj HI (fun i Hi => Lin r i Hr Hi) (proj2 HZ) HG Hc
    (factor norm gam j ^ 2 * C * (sigma ^ 2 * Rpower d (2 * H)))).
  cbv beta zeta in F. destruct F as (B1 & B2 & B3).
  { intros k l IN ND HL. apply (bound_short _ _ C (fun k k' => E P (fun o => number (entry (wt_coefs (T o)) (Z.of_nat j) r k) * number (entry (wt_coefs (T o)) (Z.of_nat j) r k'))) (fun k k' => high_cov w (unit_fbm H) j (Z.of_nat k - Z.of_nat k'))); trivial.
    intros k' Hk'. apply M2; auto. }
  assert (G : forall o, mean_sq (wt_coefs (T o)) (Z.of_nat j) r = power o) by (intros o; unfold power; now rewrite power_mean_sq).
  assert (EG := E_ext W P _ _ G). cbv beta in EG. change (E P (fun w => power w)) with (E P power) in EG.
  split; [exact (int_ext W P _ _ G B1)|]. split; [unfold power; rewrite (Q2 Hc), SC; ring|].
  rewrite EG in B2, B3. split; [apply (int_ext W P _ _ (fun o => f_equal (fun y => (y - E P power) ^ 2) (G o)) B2)|].
  rewrite <- (E_ext W P _ _ (fun o => f_equal (fun y => (y - E P power) ^ 2) (G o))). eapply Rle_trans; [exact B3|]. right. unfold Rdiv. ring.
Qed.
Print Assumptions C112_fluctuation_fbm.
