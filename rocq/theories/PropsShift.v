(** * C84: longer recordings keep the coefficients *)
From Coq Require Import Reals List ZArith Bool Lra Lia.
From Verif Require Import XReal PyBase ModelUtils ModelMRQ ModelStructure ModelWavelet Spec SpecMRQ LXReal LUtils LBase LFilter LTransform LPattern LWave LPoly LCone LWaveEst PropsWavelet PropsLeaders.
Import ListNotations.
Open Scope R_scope.

(** [a] is found in [b] from position [s] on, as far as it is not NaN *)
Definition inside (s : nat) (a b : col) : Prop :=
  (length a + s <= length b)%nat /\ forall i, nth i a NaN <> NaN -> nth (i + s) b NaN = nth i a NaN.
Lemma xsum_not_nan l : xsum l <> NaN -> Forall (fun v => v <> NaN) l.
Proof.
  induction l as [|v l IH]; [constructor|]. cbn [xsum fold_right]. change (fold_right xadd (Fin 0) l) with (xsum l). intros H. constructor.
  - intros ->. apply H. reflexivity.
  - apply IH. intros E. apply H. rewrite E. destruct v; reflexivity.
Qed.
Lemma fstep_inside h a b s : (1 <= length h)%nat -> inside (2 * s) a b -> inside s (fstep h a) (fstep h b).
Proof.
  intros Hh [Hl H]. split.
  - rewrite !fstep_length. replace (length a / 2 + s)%nat with ((length a + s * 2) / 2)%nat by (now rewrite Nat.div_add by lia). apply Nat.div_le_mono; lia.
  - intros k Hk. destruct (Nat.lt_ge_cases k (length a / 2)) as [K|K]; [|rewrite fstep_out in Hk by trivial; congruence].
    assert (K' : (k + s < length b / 2)%nat).
    { assert (length a / 2 + s <= length b / 2)%nat; [|lia]. replace (length a / 2 + s)%nat with ((length a + s * 2) / 2)%nat by (now rewrite Nat.div_add by lia). apply Nat.div_le_mono; lia. }
    rewrite fstep_nth in Hk by trivial. rewrite !fstep_nth by trivial. destruct (kept (length a) (length h) (2 * k + 1)) eqn:E; [|congruence].
    apply andb_prop in E as [E1 E2]. apply Nat.leb_le in E1, E2.
    assert (E' : kept (length b) (length h) (2 * (k + s) + 1) = true) by (apply andb_true_intro; split; apply Nat.leb_le; lia). rewrite E'.
    unfold csum in *. f_equal. apply xsum_not_nan in Hk. apply map_ext_in. intros m Hm. rewrite Forall_map, Forall_forall in Hk. specialize (Hk m Hm). apply in_seq in Hm. f_equal.
    replace (2 * (k + s) + 1 + (length h - 1) / 2 - m)%nat with (2 * k + 1 + (length h - 1) / 2 - m + 2 * s)%nat by lia. apply H. intros N. apply Hk. now rewrite N.
Qed.
Lemma approx_inside lo j s a b : (1 <= length lo)%nat -> inside (2 ^ j * s) a b -> inside s (approx_at lo j a) (approx_at lo j b).
Proof.
  intros Hh. revert s. induction j as [|j IH]; intros s H; cbn [approx_at].
  - now rewrite Nat.pow_0_r, Nat.mul_1_l in H.
  - apply fstep_inside; trivial. apply IH. cbn [Nat.pow] in H. replace (2 ^ j * (2 * s))%nat with (2 * 2 ^ j * s)%nat by lia. exact H.
Qed.
Lemma detail_inside hi lo j s a b : (1 <= length hi)%nat -> (1 <= length lo)%nat -> (1 <= j)%nat -> inside (2 ^ j * s) a b -> inside s (detail hi lo j a) (detail hi lo j b).
Proof.
  intros Hh Hl Hj H. unfold detail. apply fstep_inside; trivial. apply approx_inside; trivial. destruct j as [|j]; [lia|]. cbn [Nat.sub Nat.pow] in *. rewrite Nat.sub_0_r.
  replace (2 ^ j * (2 * s))%nat with (2 * 2 ^ j * s)%nat by lia. exact H.
Qed.
Lemma coef_inside hi lo norm gam j s a b : (1 <= length hi)%nat -> (1 <= length lo)%nat -> (1 <= j)%nat -> inside (2 ^ j * s) a b -> inside s (coef hi lo norm gam j a) (coef hi lo norm gam j b).
Proof.
  intros Hh Hl Hj H. destruct (detail_inside hi lo j s a b Hh Hl Hj H) as [L I]. unfold coef. rewrite !rescale_eq. split; [now rewrite !map_length|]. set (f := xmul _).
  assert (F : f NaN = NaN) by reflexivity. intros k. rewrite <- F, !map_nth. intros Hk. f_equal. apply I. intros E. apply Hk. now rewrite E.
Qed.
Lemma app_inside (pre a post : col) : inside (length pre) a (pre ++ a ++ post).
Proof.
  split; [rewrite !app_length; lia|]. intros i Hi. rewrite app_nth2 by lia. replace (i + length pre - length pre)%nat with i by lia. destruct (Nat.lt_ge_cases i (length a)) as [H|H].
  - now rewrite app_nth1.
  - rewrite nth_overflow in Hi by trivial. congruence.
Qed.

(** samples added before (a multiple of 2^j) and after the signal leave every usable coefficient of scale j unchanged, moved by the number of blocks added *)
Theorem C84_coefficients :
  forall (A B : arr) (w : wavelet) (p p' : pexp) (j1 j1' : Z) (j2 j2' : option R) (gam norm : R) (weighted weighted' : bool) t t' ws ws',
  good_wavelet w -> norm <> 0 -> p_ok p -> p_ok p' ->
  wavelet_analysis A p w j1 j2 gam norm weighted = Ok (t, ws) ->
  wavelet_analysis B p' w j1' j2' gam norm weighted' = Ok (t', ws') ->
  forall (j : Z) (r r' s : nat) (before after : col),
  In j (scales (wt_coefs t)) -> In j (scales (wt_coefs t')) ->
  nth r' B [] = before ++ nth r A [] ++ after -> length before = (2 ^ Z.to_nat j * s)%nat ->
  forall k, entry (wt_coefs t) j r k <> NaN -> entry (wt_coefs t') j r' (k + s) = entry (wt_coefs t) j r k.
Proof.
  intros A B w p p' j1 j1' j2 j2' gam norm wd wd' t t' ws ws' Hw Hn Hp Hp' H H' j r r' s pre post I I' HB HL k.
  apply wa_inv in H as (eta & _ & -> & _); trivial. apply wa_inv in H' as (eta' & _ & -> & _); trivial. cbn [the_wt wt_coefs] in *.
  apply in_scales in I as (i & -> & Hi). apply in_scales in I' as (i' & Ei & Hi'). apply Nat2Z.inj in Ei. subst i'. rewrite Nat2Z.id in HL.
  rewrite !entry_coef by trivial. rewrite HB. destruct (neg_good w Hw) as [Hh Hlo].
  assert (Q : inside s (coef (neg_hi w) (dec_lo w) norm gam i (nth r A [])) (coef (neg_hi w) (dec_lo w) norm gam i (pre ++ nth r A [] ++ post))).
  { apply coef_inside; trivial; try lia. rewrite <- HL. apply app_inside. }
  apply Q.
Qed.
Print Assumptions C84_coefficients.

(** leaders can only grow, and are unchanged where all the coefficients below them were usable *)
Theorem C84_leaders :
  forall (A B : arr) (w : wavelet) (j1 j1' : Z) (j2 j2' : option R) (gam norm : R) (weighted weighted' : bool) t t' ws ws' l l',
  Forall no_inf A -> Forall no_inf B -> good_wavelet w -> norm <> 0 ->
  wavelet_analysis A PInfty w j1 j2 gam norm weighted = Ok (t, ws) ->
  wavelet_analysis B PInfty w j1' j2' gam norm weighted' = Ok (t', ws') ->
  wt_leaders t = Some l -> wt_leaders t' = Some l' ->
  forall (j : Z) (r r' s : nat) (before after : col),
  In j (scales l) -> In j (scales l') -> (r < length A)%nat -> (r' < length B)%nat ->
  nth r' B [] = before ++ nth r A [] ++ after -> length before = (2 ^ Z.to_nat j * s)%nat ->
  forall k x, entry l j r k = Fin x ->
    (exists y, entry l' j r' (k + s) = Fin y /\ x <= y) /\
    (Forall (fun v => v <> NaN) (cone_coefs (wt_coefs t) r j k) -> entry l' j r' (k + s) = Fin x).
Proof.
  intros A B w j1 j1' j2 j2' gam norm wd wd' t t' ws ws' l l' HA HB Hw Hn H H' El El' j r r' s pre post I I' Hr Hr' Happ HL k x Ex.
  destruct (C21_leader_sup A w j1 j2 gam norm wd t ws l HA Hw Hn H El j r k I Hr) as [L1 S1].
  destruct (C21_leader_sup B w j1' j2' gam norm wd' t' ws' l' HB Hw Hn H' El' j r' (k + s) I' Hr') as [L2 S2].
  assert (Hk : (k < length (column l j r))%nat).
  { rewrite entry_column in Ex. destruct (Nat.lt_ge_cases k (length (column l j r))); trivial. rewrite nth_overflow in Ex by trivial. discriminate. }
  destruct (S1 Hk) as [_ M1].
  (* the cones *)
  assert (CC : forall j' k', (1 <= j')%nat -> (Z.of_nat j' <= j)%Z -> entry (wt_coefs t) (Z.of_nat j') r k' <> NaN ->
     entry (wt_coefs t') (Z.of_nat j') r' (k' + 2 ^ (Z.to_nat j - j') * s) = entry (wt_coefs t) (Z.of_nat j') r k').
  { intros j' k' Hj1 Hj2 Nn. apply (C84_coefficients A B w PInfty PInfty j1 j1' j2 j2' gam norm wd wd' t t' ws ws' Hw Hn Logic.I Logic.I H H' (Z.of_nat j') r r' _ pre post); trivial.
    - destruct (in_dec Z.eq_dec (Z.of_nat j') (scales (wt_coefs t))); trivial. now rewrite entry_out in Nn.
    - apply wa_inv in H' as (eta' & _ & -> & _); trivial; [|exact Logic.I]. cbn [the_wt wt_leaders wt_coefs] in *. apply Some_inj in El'; subst l'. apply in_scales in I' as (i & -> & Hi).
      assert (Hc := gcount_le_ccount B PInfty w gam norm). rewrite scales_mrq. apply in_map. apply in_seq. lia.
    - rewrite Nat2Z.id, HL. rewrite Nat.mul_assoc, <- Nat.pow_add_r. do 2 f_equal. lia. }
  assert (Hlen : (k + s < length (column l' j r'))%nat).
  { rewrite L1 in Hk. rewrite L2.
    assert (Q : (length (column (wt_coefs t) j r) + s <= length (column (wt_coefs t') j r'))%nat); [|lia].
    apply wa_inv in H as (eta & _ & -> & _); trivial; [|exact Logic.I]. apply wa_inv in H' as (eta' & _ & -> & _); trivial; [|exact Logic.I]. cbn [the_wt wt_leaders wt_coefs] in *. apply Some_inj in El, El'; subst l l'.
    apply in_scales in I as (i & -> & Hi). apply in_scales in I' as (i' & Ei & Hi'). apply Nat2Z.inj in Ei; subst i'.
    assert (Hc := gcount_le_ccount B PInfty w gam norm). assert (Hc' := gcount_le_ccount A PInfty w gam norm).
    unfold mrq_of. rewrite !table_column by lia. rewrite !Cf_nth. rewrite Happ. rewrite Nat2Z.id in HL. destruct (neg_good w Hw) as [Hh Hlo].
    apply (coef_inside (neg_hi w) (dec_lo w) norm gam i s (nth r A []) (pre ++ nth r A [] ++ post)); trivial; try lia. rewrite <- HL. apply app_inside. }
  destruct (S2 Hlen) as [N2 M2]. apply M1 in Ex as Mx.
  (* every usable value of the first cone is in the second *)
  assert (Sub : forall v, In v (cone_coefs (wt_coefs t) r j k) -> v <> NaN -> In v (cone_coefs (wt_coefs t') r' j (k + s))).
  { intros v Hv Nv. unfold cone_coefs in *. apply in_map_iff in Hv as ((j', k') & <- & Hc). cbn [fst snd] in *. apply cone_In in Hc as [Hj Hk']. apply in_map_iff.
    assert (Hjj : (Z.of_nat j' <= j)%Z) by lia. exists (j', k' + 2 ^ (Z.to_nat j - j') * s)%nat. cbn [fst snd]. split; [now apply CC|]. apply cone_In. split; [trivial|]. nia. }
  assert (In_reals : forall u L, In u (reals L) <-> In (Fin u) L).
  { intros u L. induction L as [|v L IH]; [reflexivity|]. split; intros Q.
    - destruct v; cbn [reals In] in Q |- *; rewrite ?IH in Q; try (right; exact Q). destruct Q as [->|Q]; [now left|]. right. exact Q.
    - destruct v; cbn [reals In] in Q |- *; rewrite ?IH; (destruct Q as [Q|Q]; [try discriminate|]); try exact Q; [left; now injection Q|now right]. }
  assert (SubR : forall u, In u (map Rabs (reals (cone_coefs (wt_coefs t) r j k))) -> In u (map Rabs (reals (cone_coefs (wt_coefs t') r' j (k + s))))).
  { intros u Hu. apply in_map_iff in Hu as (v & <- & Hv). apply in_map. apply In_reals in Hv. apply In_reals. apply Sub; [trivial|discriminate]. }
  assert (NN : ~ Forall (eq NaN) (cone_coefs (wt_coefs t') r' j (k + s))).
  { intros F. destruct Mx as [Mx _]. apply SubR in Mx. apply in_map_iff in Mx as (v & _ & Hv). apply In_reals in Hv. rewrite Forall_forall in F. specialize (F _ Hv). discriminate. }
  assert (Y : exists y, entry l' j r' (k + s) = Fin y).
  { destruct (entry l' j r' (k + s)) eqn:E; eauto; exfalso.
    - assert (NI : no_inf (column l' j r')).
      { apply wa_inv in H' as (eta' & _ & -> & _); trivial; [|exact Logic.I]. cbn [the_wt wt_leaders wt_coefs] in *. apply Some_inj in El'; subst l'. apply in_scales in I' as (i & -> & Hi). unfold mrq_of. rewrite table_column by lia.
        rewrite Ld_nth by trivial. apply nonneg_no_inf. apply lead_nonneg; [exact Logic.I|]. intros i'. apply coef_no_inf. now apply In_nth_no_inf. }
      rewrite entry_column in E. destruct (no_inf_nth _ (k + s) NI) as [Q|[a Q]]; rewrite Q in E; discriminate.
    - assert (NI : no_inf (column l' j r')).
      { apply wa_inv in H' as (eta' & _ & -> & _); trivial; [|exact Logic.I]. cbn [the_wt wt_leaders wt_coefs] in *. apply Some_inj in El'; subst l'. apply in_scales in I' as (i & -> & Hi). unfold mrq_of. rewrite table_column by lia.
        rewrite Ld_nth by trivial. apply nonneg_no_inf. apply lead_nonneg; [exact Logic.I|]. intros i'. apply coef_no_inf. now apply In_nth_no_inf. }
      rewrite entry_column in E. destruct (no_inf_nth _ (k + s) NI) as [Q|[a Q]]; rewrite Q in E; discriminate.
    - apply NN. now apply N2. }
  destruct Y as [y Ey]. assert (My := proj1 (M2 y) Ey). split.
  - exists y. split; [trivial|]. apply My. apply SubR. apply Mx.
  - intros Fu. rewrite Ey. f_equal. apply Rle_antisym; [|apply My; apply SubR; apply Mx]. destruct My as [My _]. apply Mx.
    apply in_map_iff in My as (v & <- & Hv). apply in_map. apply In_reals in Hv. apply In_reals. unfold cone_coefs in Hv. apply in_map_iff in Hv as ((j', k') & Ev & Hc). cbn [fst snd] in *.
    apply cone_In in Hc as [Hj Hk']. assert (Hjj : (Z.of_nat j' <= j)%Z) by lia. set (q := (2 ^ (Z.to_nat j - j'))%nat) in *.
    assert (K : (k' = (k' - q * s) + q * s)%nat) by nia.
    assert (Ic : In (entry (wt_coefs t) (Z.of_nat j') r (k' - q * s)) (cone_coefs (wt_coefs t) r j k)).
    { unfold cone_coefs. apply in_map_iff. exists (j', k' - q * s)%nat. split; [reflexivity|]. apply cone_In. fold q. split; [trivial|]. nia. }
    rewrite Forall_forall in Fu. specialize (Fu _ Ic). rewrite <- Ev, K. unfold q. rewrite CC; trivial. lia.
Qed.
Print Assumptions C84_leaders.

(** ** The hypotheses are met: 24 samples, and the same preceded by 4 more, with the Haar wavelet: scale 2, one position *)
Lemma level_28_2 : decomposition_level 28 2 = Ok 3%Z.
Proof.
  destruct (PropsUtils.C12_largest_level 28 2) as (m & E & Hm); [lia|]. rewrite E. f_equal.
  assert (A : (3 <= m)%Z) by (apply Hm; simpl; lra).
  assert (B : ~ (4 <= m)%Z) by (rewrite Hm; simpl; lra). lia.
Qed.
Lemma shift_case_28 : forall u : list R, length u = 28%nat ->
  exists t l ws, wavelet_analysis [fin u] PInfty haar 1 None 0 1 true = Ok (t, ws) /\
    scales (wt_coefs t) = [1; 2; 3]%Z /\ wt_leaders t = Some l /\ scales l = [1; 2]%Z.
Proof.
  intros u Hu. assert (N : [u] <> []) by discriminate. assert (H : Forall (fun s => length s = 28%nat) [u]) by (constructor; trivial).
  destruct (C14_returns [u] 28 haar PInfty 1 None 0 1 true N ltac:(lia) H good_haar R1_neq_R0 ltac:(auto)) as (t & ws & E).
  exists t. assert (E' := E).
  apply wa_inv in E' as (eta & _ & -> & _); [|exact good_haar|exact R1_neq_R0|exact Logic.I].
  unfold the_wt; cbn [wt_coefs wt_leaders j2_eff]. eexists. exists ws. split; [exact E|].
  assert (G : gcount (map fin [u]) PInfty haar 0 1 = 2%nat).
  { rewrite (fin_gcount haar 0 1 [u] 28 PInfty good_haar N H Logic.I). unfold gcount_b, lev_b.
    change (length (dec_hi haar)) with 2%nat. rewrite level_28_2. vm_compute. reflexivity. }
  assert (C : ccount (map fin [u]) PInfty haar 0 1 = 3%nat).
  { rewrite (fin_ccount haar 0 1 [u] 28 PInfty good_haar N H Logic.I). unfold ccount_b, gcount_b, lev_b.
    change (length (dec_hi haar)) with 2%nat. rewrite level_28_2. vm_compute. reflexivity. }
  change [fin u] with (map fin [u]). rewrite scales_mrq, C. split; [reflexivity|]. split; [reflexivity|]. rewrite scales_mrq, G. reflexivity.
Qed.
Example C84_case : forall (before s : list R), length before = 4%nat -> length s = 24%nat ->
  exists t ws t' ws' l l',
    wavelet_analysis [fin s] PInfty haar 1 None 0 1 true = Ok (t, ws) /\
    wavelet_analysis [fin (before ++ s)] PInfty haar 1 None 0 1 true = Ok (t', ws') /\
    wt_leaders t = Some l /\ wt_leaders t' = Some l' /\
    In 2%Z (scales l) /\ In 2%Z (scales l') /\ In 2%Z (scales (wt_coefs t)) /\ In 2%Z (scales (wt_coefs t')) /\
    nth 0 [fin (before ++ s)] [] = fin before ++ nth 0 [fin s] [] ++ [] /\ length (fin before) = (2 ^ Z.to_nat 2 * 1)%nat.
Proof.
  intros b s Hb Hs. destruct (wavelet_case [s] ltac:(discriminate) ltac:(constructor; trivial)) as (t & l & ws & E & C & L & G & _).
  destruct (shift_case_28 (b ++ s)) as (t' & l' & ws' & E' & C' & L' & G'); [rewrite app_length; lia|].
  exists t, ws, t', ws', l, l'. rewrite C, C', G, G'. repeat split; trivial; try (cbn; tauto).
  - cbn [nth]. unfold fin. now rewrite map_app, app_nil_r.
  - unfold fin. now rewrite map_length, Hb.
Qed.
