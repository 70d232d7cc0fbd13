(** * Properties C21-C27: wavelet leaders and p-leaders *)
From Coq Require Import Reals List ZArith Bool Lra Lia.
From Verif Require Import XReal PyBase ModelUtils ModelMRQ ModelStructure ModelWavelet Spec SpecMRQ LXReal LReg LUtils LBase LFilter LTransform LPattern LWave LPoly LCone LEst LMoment LWaveEst PropsWavelet.
Import ListNotations.
Open Scope R_scope.

(** the coefficients of realisation r at the positions of the cone under (j, k) *)
Definition cone_coefs (m : mrq) (r : nat) (j : Z) (k : nat) : list xr :=
  map (fun jk => entry m (Z.of_nat (fst jk)) r (snd jk)) (cone (Z.to_nat j) k).

(** ** helper: the cone of the stored coefficients *)
Lemma cone_In j k j' k' : In (j', k') (cone j k) <->
  (1 <= j' <= j /\ k * 2 ^ (j - j') <= k' < (k + 3) * 2 ^ (j - j'))%nat.
Proof.
  unfold cone. rewrite in_flat_map. split.
  - intros (i & Hi & H). apply in_map_iff in H as (x & [= -> ->] & H). apply in_seq in H. apply in_seq in Hi. lia.
  - intros (H & H'). exists j'. split; [apply in_seq; lia|]. apply in_map. apply in_seq. lia.
Qed.
Lemma cone_coefs_eq A p w gam norm (j r k : nat) : (r < length A)%nat -> (j <= ccount A p w gam norm)%nat ->
  cone_coefs (mrq_of WaveletCoef gam (Cf A w gam norm) (ccount A p w gam norm)) r (Z.of_nat j) k
  = map (fun jk => nth (snd jk) (coef (neg_hi w) (dec_lo w) norm gam (fst jk) (nth r A [])) NaN) (cone j k).
Proof.
  intros Hr Hj. unfold cone_coefs. rewrite Nat2Z.id. apply map_ext_in. intros [j' k'] H.
  apply cone_In in H. cbn [fst snd]. apply entry_coef. lia.
Qed.
Lemma In_nth_no_inf A r : Forall no_inf A -> no_inf (nth r A []).
Proof.
  intros H. destruct (Nat.lt_ge_cases r (length A)).
  - rewrite Forall_forall in H. apply H. now apply nth_In.
  - rewrite nth_overflow by trivial. constructor.
Qed.
Lemma xabs_cols l : no_inf l -> nanmax (map xabs l) = NaN /\ Forall (eq NaN) l \/
  exists x, nanmax (map xabs l) = Fin x /\ is_max x (map Rabs (reals l)).
Proof.
  intros H. destruct (map_no_inf xabs Rabs l H eq_refl (fun _ _ => eq_refl)) as [N R].
  destruct (nanmax_spec (map xabs l) N) as [[E F]|(x & E & M)].
  - left. split; trivial. rewrite R in E. clear -H E. induction H as [|v l [->|[a ->]] H IH]; simpl in *; constructor; auto; discriminate.
  - right. exists x. split; trivial. now rewrite R in M.
Qed.
Lemma big_nanmax f l : f <> WaveletPLeader -> big f l = nanmax l.
Proof. destruct f; try congruence; reflexivity. Qed.

(** ** C21: leaders are suprema over the time-scale cone *)
Theorem C21_leader_sup :
  forall (A : arr) (w : wavelet) (j1 : Z) (j2 : option R) (gam norm : R) (weighted : bool) t ws l,
  Forall no_inf A ->               (* samples are numbers or NaN *)
  good_wavelet w -> norm <> 0 ->
  wavelet_analysis A PInfty w j1 j2 gam norm weighted = Ok (t, ws) ->
  wt_leaders t = Some l ->
  forall j r k, In j (scales l) -> (r < length A)%nat ->
    length (column l j r) = (length (column (wt_coefs t) j r) - 2)%nat /\
    ((k < length (column l j r))%nat ->
      let D := cone_coefs (wt_coefs t) r j k in
      (entry l j r k = NaN <-> Forall (eq NaN) D) /\
      (forall x, entry l j r k = Fin x <-> is_max x (map Rabs (reals D)))).
Proof.
  intros A w j1 j2 gam norm wd t ws l HA Hw Hn H El j r k Hj Hr.
  apply wa_inv in H as (eta & _ & -> & _); [|trivial|trivial|exact I].
  cbn [the_wt wt_leaders wt_coefs] in *. apply Some_inj in El; subst l.
  apply in_scales in Hj as (i & -> & Hi).
  set (g := gcount A PInfty w gam norm) in *. set (n := ccount A PInfty w gam norm) in *.
  assert (Hc := gcount_le_ccount A PInfty w gam norm). fold g n in Hc.
  assert (El : column (mrq_of WaveletLeader gam (Ld A PInfty w gam norm) g) (Z.of_nat i) r
     = lead_of (neg_hi w) (dec_lo w) norm gam WaveletLeader PInfty i (nth r A [])).
  { unfold mrq_of. rewrite table_column by lia. now rewrite Ld_nth. }
  assert (Ec : column (mrq_of WaveletCoef gam (Cf A w gam norm) n) (Z.of_nat i) r
     = coef (neg_hi w) (dec_lo w) norm gam i (nth r A [])).
  { unfold mrq_of. rewrite table_column by lia. now rewrite Cf_nth_lt. }
  rewrite El, Ec. destruct (neg_good w Hw) as [Hh Hl].
  rewrite lead_of_length, coef_length by (trivial; lia). split; [reflexivity|].
  intros Hk. cbn zeta. rewrite entry_column, El. unfold n.
  assert (Hin : (i <= ccount A PInfty w gam norm)%nat) by (fold n; lia).
  rewrite cone_coefs_eq by trivial.
  set (c := nth r A []) in *. assert (Nc : no_inf c) by (now apply In_nth_no_inf).
  set (d := fun j0 => coef (neg_hi w) (dec_lo w) norm gam j0 c).
  assert (Hd : forall q, no_inf (d q)) by (intros; apply coef_no_inf; trivial).
  assert (E : nth k (lead_of (neg_hi w) (dec_lo w) norm gam WaveletLeader PInfty i c) NaN
    = nanmax (map xabs (map (fun jk => nth (snd jk) (d (fst jk)) NaN) (cone i k)))).
  { unfold lead_of, lead, post.
    rewrite (raw_lead_big WaveletLeader PInfty (cf (neg_hi w) (dec_lo w) norm gam c) I Hd).
    2:{ rewrite <- (sv_length (neg_hi w) (dec_lo w) norm gam WaveletLeader PInfty Hh Hl c i) in Hk by lia. exact Hk. }
    rewrite big_nanmax by discriminate. rewrite map_map. f_equal. apply map_ext. intros [j' k'].
    unfold pv, pre. cbn [fst snd]. unfold d, cf. change NaN with (xabs NaN) at 1. apply map_nth. }
  rewrite E.
  assert (N : no_inf (map (fun jk => nth (snd jk) (d (fst jk)) NaN) (cone i k))).
  { unfold no_inf. rewrite Forall_map, Forall_forall. intros [j' k'] _. apply no_inf_nth, Hd. }
  unfold d in *. clear E El Ec. set (D := map _ (cone i k)) in *.
  destruct (xabs_cols D N) as [[-> F]|(x & -> & M)].
  - split; [split; auto|]. intros x. split; [discriminate|]. intros [I _]. exfalso.
    apply in_map_iff in I as (a & _ & I). apply In_reals in I. rewrite Forall_forall in F. apply F in I. discriminate.
  - split.
    + split; [discriminate|]. intros F. exfalso. destruct M as [I _].
      apply in_map_iff in I as (a & _ & I). apply In_reals in I. rewrite Forall_forall in F. apply F in I. discriminate.
    + intros y. split; [intros [= <-]; trivial|]. intros M'. f_equal.
      destruct M as [M1 M2], M' as [M3 M4]. apply Rle_antisym; auto.
Qed.
Print Assumptions C21_leader_sup.

(** ** C22: leaders dominate coefficients, and grow with the scale *)
Lemma leader_dominates :
  forall (A : arr) (w : wavelet) (j1 : Z) (j2 : option R) (gam norm : R) (weighted : bool) t ws l,
  Forall no_inf A -> good_wavelet w -> norm <> 0 ->
  wavelet_analysis A PInfty w j1 j2 gam norm weighted = Ok (t, ws) ->
  wt_leaders t = Some l ->
  forall j r k j' k' a, In j (scales l) -> (r < length A)%nat -> (k < length (column l j r))%nat ->
    In (j', k') (cone (Z.to_nat j) k) ->
    entry (wt_coefs t) (Z.of_nat j') r k' = Fin a ->
    exists x, entry l j r k = Fin x /\ Rabs a <= x.
Proof.
  intros A w j1 j2 gam norm wd t ws l HA Hw Hn H El j r k j' k' a Hj Hr Hk Hc E.
  destruct (C21_leader_sup A w j1 j2 gam norm wd t ws l HA Hw Hn H El j r k Hj Hr) as [_ K].
  destruct (K Hk) as [K1 K2]. clear K. set (D := cone_coefs _ _ _ _) in *.
  assert (ID : In (Fin a) D).
  { unfold D, cone_coefs. rewrite <- E. apply (in_map (fun jk => entry (wt_coefs t) (Z.of_nat (fst jk)) r (snd jk)) _ (j', k')). trivial. }
  destruct (entry l j r k) as [x| | |] eqn:Ev.
  - exists x. split; trivial. apply (K2 x); trivial. apply in_map. now apply In_reals.
  - exfalso. (* PInf: impossible, the maximum exists *)
    assert (Mx : exists x, is_max x (map Rabs (reals D))).
    { apply In_reals in ID. clear -ID. destruct (map Rabs (reals D)) as [|y L] eqn:Y.
      - destruct (reals D); [destruct ID|discriminate].
      - clear. revert y. induction L as [|z L IH]; intros y; [exists y; split; [now left|intros v [<-|[]]; lra]|].
        destruct (IH z) as (m & M1 & M2). exists (Rmax y m). split.
        + unfold Rmax. destruct (Rle_dec y m); [now right|now left].
        + intros v [<-|Hv]; [apply Rmax_l|]. eapply Rle_trans; [now apply M2|apply Rmax_r]. }
    destruct Mx as [x Mx]. apply K2 in Mx. discriminate.
  - exfalso.
    assert (Mx : exists x, is_max x (map Rabs (reals D))).
    { apply In_reals in ID. clear -ID. destruct (map Rabs (reals D)) as [|y L] eqn:Y.
      - destruct (reals D); [destruct ID|discriminate].
      - clear. revert y. induction L as [|z L IH]; intros y; [exists y; split; [now left|intros v [<-|[]]; lra]|].
        destruct (IH z) as (m & M1 & M2). exists (Rmax y m). split.
        + unfold Rmax. destruct (Rle_dec y m); [now right|now left].
        + intros v [<-|Hv]; [apply Rmax_l|]. eapply Rle_trans; [now apply M2|apply Rmax_r]. }
    destruct Mx as [x Mx]. apply K2 in Mx. discriminate.
  - exfalso. assert (F := proj1 K1 eq_refl). rewrite Forall_forall in F. apply F in ID. discriminate.
Qed.
Theorem C22_leaders_dominate :
  forall (A : arr) (w : wavelet) (j1 : Z) (j2 : option R) (gam norm : R) (weighted : bool) t ws l,
  Forall no_inf A -> good_wavelet w -> norm <> 0 ->
  wavelet_analysis A PInfty w j1 j2 gam norm weighted = Ok (t, ws) ->
  wt_leaders t = Some l ->
  forall j r k, In j (scales l) -> (r < length A)%nat -> (k < length (column l j r))%nat ->
    (* coefficients at k, k+1, k+2 *)
    (forall i a, (i <= 2)%nat -> entry (wt_coefs t) j r (k + i) = Fin a ->
       exists x, entry l j r k = Fin x /\ Rabs a <= x) /\
    (* leaders of the next finer scale at 2k .. 2k+3 *)
    (forall i a, (i <= 3)%nat -> entry l (j - 1) r (2 * k + i) = Fin a ->
       exists x, entry l j r k = Fin x /\ a <= x).
Proof.
  intros A w j1 j2 gam norm wd t ws l HA Hw Hn H El j r k Hj Hr Hk.
  assert (Dom := leader_dominates A w j1 j2 gam norm wd t ws l HA Hw Hn H El).
  assert (H' := H).
  apply wa_inv in H' as (eta & _ & Et & _); [|trivial|trivial|exact I].
  assert (Hj1 : exists i, j = Z.of_nat i /\ (1 <= i <= gcount A PInfty w gam norm)%nat).
  { rewrite Et in El. cbn in El. apply Some_inj in El; subst l. now apply in_scales in Hj. }
  destruct Hj1 as (i0 & -> & Hi0).
  split.
  - intros i a Hi E. apply (Dom (Z.of_nat i0) r k i0 (k + i)%nat a Hj Hr Hk); trivial.
    rewrite Nat2Z.id. apply cone_In. rewrite Nat.sub_diag. simpl. lia.
  - intros i a Hi E.
    assert (Hj' : In (Z.of_nat i0 - 1)%Z (scales l)).
    { destruct (in_dec Z.eq_dec (Z.of_nat i0 - 1)%Z (scales l)) as [|N]; trivial.
      rewrite entry_out in E by trivial. discriminate. }
    assert (Hi1 : (2 <= i0)%nat).
    { rewrite Et in El. cbn in El. apply Some_inj in El; subst l. apply in_scales in Hj' as (q & Eq & Hq). lia. }
    assert (Hk' : (2 * k + i < length (column l (Z.of_nat i0 - 1) r))%nat).
    { destruct (Nat.lt_ge_cases (2 * k + i) (length (column l (Z.of_nat i0 - 1) r))) as [|O]; trivial.
      rewrite entry_column, nth_overflow in E by trivial. discriminate. }
    destruct (C21_leader_sup A w j1 j2 gam norm wd t ws l HA Hw Hn H El (Z.of_nat i0 - 1)%Z r (2 * k + i)%nat Hj' Hr) as [_ K].
    destruct (K Hk') as [_ K2]. assert (M := proj1 (K2 a) E). destruct M as [M _].
    apply in_map_iff in M as (b & Eb & M). apply In_reals in M. unfold cone_coefs in M.
    apply in_map_iff in M as ([j' k'] & Eb' & M). cbn [fst snd] in Eb'.
    replace (Z.to_nat (Z.of_nat i0 - 1)) with (i0 - 1)%nat in M by lia.
    rewrite <- Eb. apply (Dom (Z.of_nat i0) r k j' k' b Hj Hr Hk); trivial.
    rewrite Nat2Z.id. apply cone_In in M. apply cone_In. split; [lia|].
    replace (i0 - j')%nat with (S (i0 - 1 - j')) by lia. rewrite Nat.pow_succ_r'. 
    generalize dependent (2 ^ (i0 - 1 - j'))%nat. intros. nia.
Qed.
Print Assumptions C22_leaders_dominate.

(** ** C23: p-leaders are l^p averages over the cone *)

(** sum over the cone under (j, k) of 2^(j'-j) |d(j',k')|^p, NaN skipped *)
Definition cone_energy (m : mrq) (r : nat) (j : Z) (k : nat) (p : R) : R :=
  Rsum (map (fun jk => match entry m (Z.of_nat (fst jk)) r (snd jk) with
                       | Fin a => Rpower 2 (INR (fst jk) - IZR j) * abs_pow a p
                       | _ => 0
                       end) (cone (Z.to_nat j) k)).

Lemma fp1_abs e a : 0 < num_val e -> fp1 e (Fin (Rabs a)) = Fin (abs_pow a (num_val e)).
Proof.
  intros He. unfold abs_pow. destruct (Req_EM_T a 0) as [->|N].
  - rewrite Rabs_R0. now apply fp1_0.
  - rewrite fp1_pos by (now apply Rabs_pos_lt). reflexivity.
Qed.
Lemma abs_pow_nonneg a e : 0 <= abs_pow a e.
Proof. unfold abs_pow. destruct (Req_EM_T a 0); [lra|]. left. apply exp_pos. Qed.

Definition cone_energy_of (d : nat -> col) (j k : nat) (p : R) : R :=
  Rsum (map (fun jk => match nth (snd jk) (d (fst jk)) NaN with
                       | Fin a => Rpower 2 (INR (fst jk) - INR j) * abs_pow a p
                       | _ => 0
                       end) (cone j k)).
Lemma big_plead (e : pynum) (d : nat -> col) (l : list (nat * nat)) : 0 < num_val e -> (forall i, no_inf (d i)) ->
  big WaveletPLeader (map (pv WaveletPLeader (PNum e) d) l)
  = if forallb isnan (map (fun jk => nth (snd jk) (d (fst jk)) NaN) l) then NaN
    else Fin (Rsum (map (fun jk => match nth (snd jk) (d (fst jk)) NaN with
                       | Fin a => Rpower 2 (INR (fst jk)) * abs_pow a (num_val e)
                       | _ => 0
                       end) l)).
Proof.
  intros He Hd. rewrite big_sum by (now apply pv_fn).
  assert (P : forall jk, pv WaveletPLeader (PNum e) d jk =
     match nth (snd jk) (d (fst jk)) NaN with
     | Fin a => Fin (Rpower 2 (INR (fst jk)) * abs_pow a (num_val e))
     | _ => NaN end).
  { intros [j' k']. unfold pv, pre. cbn [fst snd]. rewrite fast_power_map, !map_map.
    destruct (Nat.lt_ge_cases k' (length (d j'))) as [L|L].
    - rewrite (nth_map_lt _ _ _ NaN) by trivial.
      destruct (no_inf_nth (d j') k' (Hd j')) as [->|[a ->]].
      + cbn [xabs]. now rewrite fp1_NaN.
      + cbn [xabs]. rewrite fp1_abs by trivial. reflexivity.
    - rewrite !nth_overflow by (rewrite ?map_length; trivial). reflexivity. }
  rewrite (map_ext _ _ P). clear P.
  induction l as [|[j' k'] l IH]; [reflexivity|]. cbn [map fst snd forallb].
  destruct (no_inf_nth (d j') k' (Hd j')) as [->|[a ->]].
  - cbn [isnan andb reals Rsum fold_right]. rewrite Rplus_0_l. exact IH.
  - cbn [isnan andb reals]. cbn [Rsum fold_right]. f_equal. f_equal.
    clear IH. induction l as [|[j k] l IH]; [reflexivity|]. cbn [map fst snd].
    destruct (no_inf_nth (d j) k (Hd j)) as [->|[b ->]]; cbn [reals Rsum fold_right]; unfold Rsum in IH; rewrite IH; lra.
Qed.
Lemma lead_plead (e : pynum) (d : nat -> col) j k : 0 < num_val e -> (forall i, no_inf (d i)) ->
  (k < length (sv WaveletPLeader (PNum e) d j) - 2)%nat ->
  nth k (lead WaveletPLeader (PNum e) d j) NaN
  = if forallb isnan (map (fun jk => nth (snd jk) (d (fst jk)) NaN) (cone j k)) then NaN
    else Fin (abs_pow (cone_energy_of d j k (num_val e)) (1 / num_val e)).
Proof.
  intros He Hd Hk. unfold lead, post. rewrite fast_power_map, map_map.
  assert (Hk' : (k < length (raw_lead WaveletPLeader (PNum e) d j))%nat).
  { unfold raw_lead. now rewrite map_length, seq_length. }
  rewrite (nth_map_lt _ _ _ NaN) by trivial.
  rewrite raw_lead_big by trivial. rewrite big_plead by trivial.
  destruct (forallb isnan _); [apply fp1_NaN|].
  cbn [xmul]. rewrite <- Rsum_map_scal.
  replace (Rsum _) with (cone_energy_of d j k (num_val e)).
  - set (s := cone_energy_of d j k (num_val e)).
    assert (Hs : 0 <= s).
    { unfold s, cone_energy_of. apply Rsum_map_nonneg. intros [j' k'] _. cbn [fst snd].
      destruct (nth k' (d j') NaN); try lra. apply Rmult_le_pos; [left; apply Rpower_pos|apply abs_pow_nonneg]. }
    rewrite <- (Rabs_pos_eq s Hs) at 1. rewrite fp1_abs; [reflexivity|]. cbn [num_val].
    apply Rdiv_lt_0_compat; lra.
  - unfold cone_energy_of. apply Rsum_map_ext. intros [j' k'] _. cbn [fst snd].
    destruct (nth k' (d j') NaN); try lra. rewrite <- Rmult_assoc, <- Rpower_plus.
    f_equal. f_equal. lra.
Qed.
Lemma forallb_isnan l : forallb isnan l = true <-> Forall (eq NaN) l.
Proof.
  rewrite forallb_forall, Forall_forall. split; intros H x Hx; apply H in Hx; [|now subst].
  destruct x; simpl in Hx; congruence.
Qed.
Lemma cone_energy_eq A p w gam norm (j r k : nat) q : (r < length A)%nat -> (j <= ccount A p w gam norm)%nat ->
  cone_energy (mrq_of WaveletCoef gam (Cf A w gam norm) (ccount A p w gam norm)) r (Z.of_nat j) k q
  = cone_energy_of (fun i => coef (neg_hi w) (dec_lo w) norm gam i (nth r A [])) j k q.
Proof.
  intros Hr Hj. unfold cone_energy, cone_energy_of. rewrite Nat2Z.id, <- INR_IZR_INZ.
  apply Rsum_map_ext. intros [j' k'] H. apply cone_In in H. cbn [fst snd]. rewrite entry_coef by lia. reflexivity.
Qed.

(** The leaders as the loop produces them, before the finite-resolution
    correction, for every p > 0 *)
Theorem C23_p_leader_average :
  forall (A : arr) (w : wavelet) (e : pynum) (gam norm : R) (ml : Z) mc l top,
  Forall no_inf A -> A <> [] -> good_wavelet w -> norm <> 0 -> 0 < num_val e ->
  leader_loop (map (fun t => -1 * t) (dec_hi w)) (dec_lo w) norm gam WaveletPLeader (PNum e)
    (Z.to_nat ml) 1 ml A None (new_mrq WaveletCoef gam) (new_mrq WaveletPLeader gam) = Ok (mc, l, top) ->
  forall j r k, In j (scales l) -> (r < length A)%nat ->
    length (column l j r) = (length (column mc j r) - 2)%nat /\
    ((k < length (column l j r))%nat ->
      (Forall (eq NaN) (cone_coefs mc r j k) -> entry l j r k = NaN) /\
      (~ Forall (eq NaN) (cone_coefs mc r j k) ->
        entry l j r k = Fin (abs_pow (cone_energy mc r j k (num_val e)) (1 / num_val e)))).
Proof.
  intros A w e gam norm ml mc l top HA NA Hw Hn He H j r k Hj Hr.
  fold (neg_hi w) in H. rewrite leader_loop_top in H by (trivial; simpl; lra).
  set (g := run _ _ _) in H. set (n := (g + _)%nat) in H.
  assert (E : mc = mrq_of WaveletCoef gam (Cf A w gam norm) n /\ l = mrq_of WaveletPLeader gam (Ld A (PNum e) w gam norm) g).
  { injection H as <- <- _. split; reflexivity. }
  destruct E as [-> ->]. clear H. assert (Hgn : (g <= n)%nat) by (unfold n; lia). clearbody g n.
  apply in_scales in Hj as (i & -> & Hi).
  assert (El : column (mrq_of WaveletPLeader gam (Ld A (PNum e) w gam norm) g) (Z.of_nat i) r
     = lead_of (neg_hi w) (dec_lo w) norm gam WaveletPLeader (PNum e) i (nth r A [])).
  { unfold mrq_of. rewrite table_column by lia. now rewrite Ld_nth. }
  assert (Ec : column (mrq_of WaveletCoef gam (Cf A w gam norm) n) (Z.of_nat i) r
     = coef (neg_hi w) (dec_lo w) norm gam i (nth r A [])).
  { unfold mrq_of. rewrite table_column by lia. now rewrite Cf_nth_lt. }
  rewrite El, Ec. destruct (neg_good w Hw) as [Hh Hl].
  rewrite lead_of_length, coef_length by (trivial; lia). split; [reflexivity|].
  intros Hk. rewrite entry_column, El.
  set (c := nth r A []) in *. assert (Nc : no_inf c) by (now apply In_nth_no_inf).
  set (d := fun j0 => coef (neg_hi w) (dec_lo w) norm gam j0 c).
  assert (Hd : forall q, no_inf (d q)) by (intros; apply coef_no_inf; trivial).
  rewrite <- (sv_length (neg_hi w) (dec_lo w) norm gam WaveletPLeader (PNum e) Hh Hl c i) in Hk by lia.
  assert (E := lead_plead e d i k He Hd Hk).
  change (nth k (lead_of (neg_hi w) (dec_lo w) norm gam WaveletPLeader (PNum e) i c) NaN
     = if forallb isnan (map (fun jk => nth (snd jk) (d (fst jk)) NaN) (cone i k)) then NaN
       else Fin (abs_pow (cone_energy_of d i k (num_val e)) (1 / num_val e))) in E.
  rewrite E.
  assert (Q : cone_coefs (mrq_of WaveletCoef gam (Cf A w gam norm) n) r (Z.of_nat i) k
     = map (fun jk => nth (snd jk) (d (fst jk)) NaN) (cone i k)).
  { unfold cone_coefs. rewrite Nat2Z.id. apply map_ext_in. intros [j' k'] H. apply cone_In in H. cbn [fst snd]. apply entry_coef. lia. }
  assert (Q' : cone_energy (mrq_of WaveletCoef gam (Cf A w gam norm) n) r (Z.of_nat i) k (num_val e) = cone_energy_of d i k (num_val e)).
  { unfold cone_energy, cone_energy_of. rewrite Nat2Z.id, <- INR_IZR_INZ.
    apply Rsum_map_ext. intros [j' k'] H. apply cone_In in H. cbn [fst snd]. rewrite entry_coef by lia. reflexivity. }
  rewrite Q, Q'. rewrite <- forallb_isnan. destruct (forallb isnan _); split; intros H; trivial; try discriminate; congruence.
Qed.
Print Assumptions C23_p_leader_average.

(** ** C24: the finite-resolution correction *)
Definition correction (p eta : R) (j : nat) : R :=
  exp (- (1 / p) * ln ((1 - Rpower 2 (- (INR j * eta))) / (1 - Rpower 2 (- eta)))).

Lemma pow2_neg_lt1 x : 0 < x -> 0 < Rpower 2 (- x) < 1.
Proof.
  intros H. split; [apply Rpower_pos|]. rewrite <- (Rpower_O 2) by lra. apply Rpower_lt; lra.
Qed.
Lemma pow2_neg_le x y : x <= y -> Rpower 2 (- y) <= Rpower 2 (- x).
Proof. intros H. apply Rle_Rpower; lra. Qed.

Theorem C24_correction_factor : forall p eta : R, 0 < p -> 0 < eta ->
  correction p eta 1 = 1 /\
  forall i j : nat, (1 <= i <= j)%nat -> 0 < correction p eta j <= correction p eta i /\ correction p eta i <= 1.
Proof.
  intros p eta Hp He.
  assert (Den := pow2_neg_lt1 eta He).
  assert (Hip : 0 < 1 / p) by (apply Rdiv_lt_0_compat; lra).
  assert (Num : forall i : nat, (1 <= i)%nat -> 0 < 1 - Rpower 2 (- (INR i * eta))).
  { intros i Hi. assert (1 <= INR i) by (change 1 with (INR 1); now apply le_INR).
    assert (0 < INR i * eta) by (apply Rmult_lt_0_compat; lra). assert (K := pow2_neg_lt1 _ H0). lra. }
  assert (One : correction p eta 1 = 1).
  { unfold correction. simpl INR. rewrite Rmult_1_l. unfold Rdiv at 2. rewrite Rinv_r by lra. rewrite ln_1, Rmult_0_r. apply exp_0. }
  assert (Mono : forall i j : nat, (1 <= i <= j)%nat -> correction p eta j <= correction p eta i).
  { intros i j Hij. unfold correction.
    assert (Hr : 0 < (1 - Rpower 2 (- (INR i * eta))) / (1 - Rpower 2 (- eta))
              <= (1 - Rpower 2 (- (INR j * eta))) / (1 - Rpower 2 (- eta))).
    { split.
      - apply Rdiv_lt_0_compat; [apply Num; lia|lra].
      - apply Rmult_le_compat_r; [left; apply Rinv_0_lt_compat; lra|].
        assert (INR i <= INR j) by (apply le_INR; lia).
        assert (Rpower 2 (- (INR j * eta)) <= Rpower 2 (- (INR i * eta))).
        { apply pow2_neg_le. apply Rmult_le_compat_r; lra. }
        lra. }
    assert (L : ln ((1 - Rpower 2 (- (INR i * eta))) / (1 - Rpower 2 (- eta)))
             <= ln ((1 - Rpower 2 (- (INR j * eta))) / (1 - Rpower 2 (- eta)))).
    { destruct Hr as [H1 [H2|H2]]; [left; now apply ln_increasing|rewrite H2; lra]. }
    set (X := ln _) in L. set (Y := ln _) in L.
    assert (E : - (1 / p) * Y <= - (1 / p) * X) by nra.
    fold Y X. destruct E as [E|E]; [left; now apply exp_increasing|rewrite E; lra]. }
  split; trivial. intros i j Hij. split; [split; [apply exp_pos|now apply Mono]|].
  rewrite <- One. apply Mono. lia.
Qed.
Print Assumptions C24_correction_factor.

Lemma zpj_corr_fin p eta (j : nat) : 0 < p -> 0 < eta -> (1 <= j)%nat ->
  zpj_corr p (Fin eta) (Z.of_nat j) = Fin (correction p eta j).
Proof.
  intros Hp He Hj. unfold zpj_corr. cbn [xmul xopp xsub xadd].
  assert (H1 : 1 <= INR j) by (change 1 with (INR 1); now apply le_INR).
  assert (Den := pow2_neg_lt1 eta He).
  assert (H0 : 0 < INR j * eta) by (apply Rmult_lt_0_compat; lra). assert (K := pow2_neg_lt1 _ H0).
  rewrite <- INR_IZR_INZ. replace (- INR j * eta) with (- (INR j * eta)) by ring.
  rewrite xdiv_Fin by lra. unfold xlog2.
  set (q := (1 + - Rpower 2 (- (INR j * eta))) / (1 + - Rpower 2 (- eta))).
  assert (Hq : 0 < q) by (apply Rdiv_lt_0_compat; lra).
  destruct (Rlt_dec 0 q); [|lra]. cbn [xmul]. unfold correction, Rpower at 1. f_equal. f_equal.
  unfold log2R. fold q. replace (1 - Rpower 2 (- (INR j * eta))) with (1 + - Rpower 2 (- (INR j * eta))) by lra.
  replace (1 - Rpower 2 (- eta)) with (1 + - Rpower 2 (- eta)) by lra. fold q. field. assert (L := ln2_pos). lra.
Qed.
Lemma zpj_corr_notnan p eta (j : nat) : 0 < p -> (1 <= j)%nat -> isnan eta = false -> xleb eta (Fin 0) = false ->
  exists f, 0 < f /\ zpj_corr p eta (Z.of_nat j) = Fin f.
Proof.
  intros Hp Hj Hn Hl. destruct eta as [h| | |]; try discriminate.
  - simpl in Hl. destruct (Rle_dec h 0); [discriminate|]. assert (Hh : 0 < h) by lra.
    exists (correction p h j). split; [apply exp_pos|now apply zpj_corr_fin].
  - exists 1. split; [lra|]. unfold zpj_corr. assert (B : - IZR (Z.of_nat j) < 0).
    { rewrite <- INR_IZR_INZ. assert (1 <= INR j) by (change 1 with (INR 1); now apply le_INR). lra. }
    change (xmul (Fin (- IZR (Z.of_nat j))) PInf) with (scale_inf (- IZR (Z.of_nat j)) PInf).
    rewrite scale_inf_neg by trivial. cbn [xopp xsub xadd]. rewrite xdiv_Fin by lra.
    replace ((1 + - 0) / (1 + - 0)) with 1 by field. unfold xlog2. destruct (Rlt_dec 0 1); [|lra].
    rewrite log2R_1. cbn [xmul]. rewrite Rmult_0_r, Rpower_O by lra. reflexivity.
Qed.
(** the minimum test on eta *)
Lemma fold_xmin_NaN l : fold_left xmin l NaN = NaN.
Proof. induction l; simpl; trivial. Qed.
Lemma fold_xmin_le l a : isnan a = false -> Forall (fun e => isnan e = false) l ->
  xleb (fold_left xmin l a) (Fin 0) = xleb a (Fin 0) || existsb (fun e => xleb e (Fin 0)) l.
Proof.
  revert a. induction l as [|e l IH]; intros a Ha Hl; simpl; [now rewrite orb_false_r|].
  inversion Hl as [|? ? He Hl']; subst. rewrite IH; trivial.
  - rewrite orb_assoc. f_equal. destruct a, e; try discriminate; simpl; trivial;
      repeat match goal with |- context [Rle_dec ?x ?y] => destruct (Rle_dec x y) end; trivial; exfalso;
      unfold Rmin in *; repeat match goal with H : context [Rle_dec ?x ?y] |- _ => destruct (Rle_dec x y) end; lra.
  - destruct a, e; try discriminate; reflexivity.
Qed.
Lemma min_le_0_false l : Forall (fun e => isnan e = false) l -> min_le_0 l = false ->
  Forall (fun e => xleb e (Fin 0) = false) l.
Proof.
  destruct l as [|a l]; simpl; [constructor|]. intros H E. inversion H; subst.
  rewrite fold_xmin_le in E by trivial. apply orb_false_iff in E as [E1 E2]. constructor; trivial.
  rewrite Forall_forall. intros e He. destruct (xleb e (Fin 0)) eqn:Q; trivial.
  exfalso.
  assert (existsb (fun e => xleb e (Fin 0)) l = true) by (apply existsb_exists; eauto). congruence.
Qed.

(** What [_correct_leaders] does to any regular p-leader quantity *)
Theorem C24_correction_applied :
  forall (coefs leaders : mrq) (p : R) (j1 j2 : Z) (weighted : bool) (g nrep : nat) m eta ws,
  0 < p -> regular leaders g nrep -> length eta = nrep ->
  correct_leaders coefs leaders p j1 j2 weighted (Z.of_nat g) = Ok (CPair m eta, ws) ->
  ws = [] /\ mq_nj m = mq_nj leaders /\ scales m = scales leaders /\
  estimate_eta_p coefs p j1 j2 weighted = Ok eta /\
  forall r h, (r < nrep)%nat -> nth r eta NaN = Fin h -> Forall (fun e => isnan e = false) eta ->
    0 < h /\
    forall j k, (1 <= j <= g)%nat ->
      column m (Z.of_nat j) r
      = map (fun v => xmul v (Fin (correction p h j))) (column leaders (Z.of_nat j) r) /\
      isnan (entry m (Z.of_nat j) r k) = isnan (entry leaders (Z.of_nat j) r k).
Proof.
  intros coefs leaders p j1 j2 wd g nrep m eta ws Hp HR Le H.
  unfold correct_leaders in H. destruct (estimate_eta_p coefs p j1 j2 wd) as [eta'|] eqn:Ee; [|discriminate].
  cbn [bind] in H. destruct (min_le_0 eta') eqn:Em; [discriminate|].
  (* express the quantity by its table *)
  set (T := fun j : nat => match dict_get (mq_values leaders) (Z.of_nat j) with Some v => v | None => [] end).
  assert (EL : leaders = mkMRQ (mq_formalism leaders) (mq_gamint leaders) (table T g) (mq_nj leaders)).
  { destruct HR as (G & S & K & L). unfold scales in S.
    assert (N : NoDup (dict_keys (mq_values leaders))) by (rewrite S; apply one_to_NoDup).
    assert (E := dict_by_keys (fun kv : Z * arr => kv) (mq_values leaders) [] N). rewrite map_id, S in E.
    unfold one_to in E. rewrite map_map in E. destruct leaders; cbn in *. f_equal. exact E. }
  rewrite EL in H at 1.
  assert (C := correct_loop_eq p eta' (mq_formalism leaders) (mq_gamint leaders) (mq_nj leaders) T g 0 g eq_refl).
  cbn [table seq map app] in C. rewrite zrange_seq in H. unfold table in H. rewrite C in H. cbn [bind] in H.
  injection H as <- -> <-.
  split; [reflexivity|]. split; [reflexivity|].
  split; [unfold scales at 1; cbn [mq_values]; rewrite table_keys; symmetry; apply HR|].
  split; [reflexivity|].
  intros r h Hr Eh Hnn. assert (Pos := min_le_0_false eta Hnn Em). rewrite Forall_forall in Pos.
  assert (Hh : 0 < h).
  { assert (I : In (Fin h) eta) by (rewrite <- Eh; apply nth_In; lia). apply Pos in I. simpl in I.
    destruct (Rle_dec h 0); [discriminate|lra]. }
  split; trivial. intros j k Hj.
  assert (LT : length (T j) = nrep).
  { destruct HR as (G & S & K & L). unfold T. destruct (dict_get_Some (mq_values leaders) (Z.of_nat j)) as [v Hv].
    - change (In (Z.of_nat j) (scales leaders)). rewrite S. apply one_to_In. lia.
    - rewrite Hv. now apply (L _ _ Hv). }
  assert (Ecol : column (mkMRQ (mq_formalism leaders) (mq_gamint leaders)
        (table (fun j => corr_arr p eta j (T j)) g) (mq_nj leaders)) (Z.of_nat j) r
     = map (fun v => xmul v (Fin (correction p h j))) (column leaders (Z.of_nat j) r)).
  { unfold column at 1. cbn [mq_values]. rewrite table_get by trivial.
    assert (L1 : (r < length (T j))%nat) by (rewrite LT; exact Hr).
    assert (L2 : (r < length eta)%nat) by (rewrite Le; exact Hr).
    unfold corr_arr. rewrite (nth_map2 _ _ _ _ [] NaN); [|exact L1|exact L2]. rewrite Eh, zpj_corr_fin by (trivial; lia).
    f_equal. unfold T, column. destruct (dict_get _ _); trivial. now destruct r. }
  split; [exact Ecol|]. rewrite !entry_column, Ecol.
  destruct (Nat.lt_ge_cases k (length (column leaders (Z.of_nat j) r))) as [L|L].
  - rewrite (nth_map_lt _ _ _ NaN) by trivial. rewrite xmul_comm. apply xmul_isnan.
    apply Rgt_not_eq, exp_pos.
  - rewrite !nth_overflow by (rewrite ?map_length; trivial). reflexivity.
Qed.
Print Assumptions C24_correction_applied.

(** ** C25: p-leaders for every p -- REFUTED: only p = 2 can ever succeed *)
Theorem C25_only_two_refuted :
  forall (A : arr) (w : wavelet) (e : pynum) (j1 : Z) (j2 : option R) (gam norm : R) (weighted : bool) r,
  good_wavelet w -> norm <> 0 -> 0 < num_val e -> num_val e <> 2 ->
  wavelet_analysis A (PNum e) w j1 j2 gam norm weighted <> Ok r.
Proof.
  intros A w e j1 j2 gam norm wd [t ws] Hw Hn He H2 H.
  apply wa_inv in H as (eta & Ee & _); trivial; [|simpl; lra].
  unfold eta_of, estimate_eta_p in Ee. destruct (StructureFunction _ _ _ _ _) eqn:E; [|discriminate].
  apply SF_no2 in E; trivial. intros [F|[]]. lra.
Qed.
Print Assumptions C25_only_two_refuted.

(** the failure is an IndexError on inputs where p = inf works; e.g. p = 1 *)
Theorem C25_index_error_refuted :
  forall (A : arr) (w : wavelet) (e : pynum) (j1 : Z) (j2 : option R) (gam norm : R) (weighted : bool) t ws,
  Forall no_inf A -> good_wavelet w -> norm <> 0 -> 0 < num_val e -> num_val e <> 2 ->
  wavelet_analysis A PInfty w j1 j2 gam norm weighted = Ok (t, ws) -> (1 <= j1 <= j2_eff t)%Z ->
  wavelet_analysis A (PNum e) w j1 j2 gam norm weighted = Err IndexError.
Proof.
  intros A w e j1 j2 gam norm wd t ws HA Hw Hn He H2 H Hj.
  apply wa_inv in H as (eta & _ & -> & _ & _ & L & _); [|trivial|trivial|exact I].
  cbn [the_wt j2_eff] in Hj.
  rewrite wa_eq by (trivial; simpl; lra). unfold wa_closed. rewrite L. cbn [bind].
  rewrite eta_of_eq by (rewrite jeff_pexp by trivial; exact Hj).
  destruct (Req_EM_T (num_val e) 2); [contradiction|]. reflexivity.
Qed.
Print Assumptions C25_index_error_refuted.

(** ** C25/C26 for p = 2: the sign of eta_p decides.  The positive part of
    C25: p = 2 works when every eta_p is positive.  REFUTED part of C26: as soon
    as some eta_p <= 0 the call raises TypeError instead of warning. *)
Theorem C26_eta_decides_refuted :
  forall (A : arr) (w : wavelet) (e : pynum) (j1 : Z) (j2 : option R) (gam norm : R) (weighted : bool) t ws s,
  Forall no_inf A -> good_wavelet w -> norm <> 0 -> num_val e = 2 ->
  wavelet_analysis A PInfty w j1 j2 gam norm weighted = Ok (t, ws) -> (1 <= j1 <= j2_eff t)%Z ->
  StructureFunction (wt_coefs t) (QArr [2]) j1 (j2_eff t) weighted = Ok s ->
  exists eta, sf_zeta s = [eta] /\ length eta = length A /\
    (* some eta <= 0 (and none undefined): TypeError *)
    (Forall (fun h => h <> NaN) eta -> Exists (fun h => h = NInf \/ exists a, h = Fin a /\ a <= 0) eta ->
       wavelet_analysis A (PNum e) w j1 j2 gam norm weighted = Err TypeError) /\
    (* all eta > 0: a transform with the same coefficients *)
    (Forall (fun h => h = PInf \/ exists a, h = Fin a /\ 0 < a) eta ->
       exists t', wavelet_analysis A (PNum e) w j1 j2 gam norm weighted = Ok (t', ws) /\
         eta_p t' = Some eta /\ wt_coefs t' = wt_coefs t /\ j2_eff t' = j2_eff t /\
         exists l l', wt_leaders t = Some l /\ wt_leaders t' = Some l' /\ scales l' = scales l).
Proof.
  intros A w e j1 j2 gam norm wd t ws s HA Hw Hn He H Hj Hs.
  assert (He0 : 0 < num_val e) by lra.
  apply wa_inv in H as (eta0 & _ & -> & -> & _ & L & _); [|trivial|trivial|exact I].
  cbn [the_wt j2_eff wt_coefs] in *.
  assert (J := jeff_le A PInfty w gam norm j2). assert (G := gcount_le_ccount A PInfty w gam norm).
  set (m := mrq_of WaveletCoef gam (Cf A w gam norm) (ccount A PInfty w gam norm)) in *.
  set (jj := jeff A PInfty w gam norm j2) in *.
  set (eta := map (fun r => fslope wd m j1 jj r (logS m (PyFloat 2) r)) (seq 0 (length A))).
  assert (Es : sf_zeta s = [eta]).
  { unfold m in Hs. rewrite (SF_eq _ (ccount A PInfty w gam norm) (length A)) in Hs by (try apply coefs_regular; lia).
    unfold has_two in Hs. simpl existsb in Hs. destruct (Req_EM_T 2 2); [|congruence]. cbn [orb] in Hs.
    injection Hs as <-. cbn [sf_zeta map]. reflexivity. }
  assert (Ee : eta_of A (PNum e) w j1 j2 gam norm wd = Ok eta).
  { rewrite eta_of_eq by (rewrite jeff_pexp by trivial; exact Hj).
    destruct (Req_EM_T (num_val e) 2); [|congruence]. rewrite jeff_pexp, ccount_pexp by trivial. rewrite He. reflexivity. }
  exists eta. split; [exact Es|]. split; [unfold eta; now rewrite map_length, seq_length|].
  rewrite wa_eq by (trivial; simpl; lra). unfold wa_closed. rewrite L. cbn [bind]. rewrite Ee. cbn [bind].
  clearbody eta. split.
  - intros Hnn Hex.
    assert (min_le_0 eta = true) as ->; [|reflexivity].
    destruct eta as [|a l]; [inversion Hex|]. simpl.
    assert (Hnn' : Forall (fun h => isnan h = false) (a :: l)).
    { eapply Forall_impl; [|exact Hnn]. intros [| | |]; simpl; congruence. }
    inversion Hnn' as [|? ? Na Nl]; subst. rewrite fold_xmin_le by trivial.
    apply orb_true_iff. apply Exists_exists in Hex as (h & Hh & Hle).
    assert (Lh : xleb h (Fin 0) = true).
    { destruct Hle as [->|(b & -> & Hb)]; simpl; [reflexivity|]. destruct (Rle_dec b 0); [reflexivity|lra]. }
    destruct Hh as [->|Hh]; [now left|]. right. apply existsb_exists. eauto.
  - intros Hpos.
    assert (M : min_le_0 eta = false).
    { destruct eta as [|a l]; [reflexivity|]. simpl.
      assert (Hnn' : Forall (fun h => isnan h = false) (a :: l)).
      { eapply Forall_impl; [|exact Hpos]. intros h [->|(b & -> & _)]; reflexivity. }
      inversion Hnn' as [|? ? Na Nl]; subst. rewrite fold_xmin_le by trivial.
      assert (P : forall h, In h (a :: l) -> xleb h (Fin 0) = false).
      { intros h Hh. rewrite Forall_forall in Hpos. destruct (Hpos h Hh) as [->|(b & -> & Hb)]; simpl; trivial.
        destruct (Rle_dec b 0); [lra|reflexivity]. }
      rewrite (P a) by (now left). cbn [orb].
      destruct (existsb _ l) eqn:X; trivial. apply existsb_exists in X as (h & Hh & X). rewrite P in X by (now right). discriminate. }
    rewrite M. eexists. split; [reflexivity|]. cbn [the_wt eta_p wt_coefs j2_eff wt_leaders].
    split; [reflexivity|]. split; [unfold m; now rewrite ccount_pexp|]. split; [now apply jeff_pexp|].
    eexists; eexists. split; [reflexivity|]. split; [reflexivity|].
    unfold scales. cbn [mq_values mrq_of]. rewrite !table_keys. now rewrite gcount_pexp.
Qed.
Print Assumptions C26_eta_decides_refuted.

(** ** C27: nj of the returned quantities counts the usable entries *)
Theorem C27_counts_partial :
  forall (A : arr) (w : wavelet) (p : pexp) (j1 : Z) (j2 : option R) (gam norm : R) (weighted : bool) t ws,
  good_wavelet w -> norm <> 0 -> pos_pexp p ->
  wavelet_analysis A p w j1 j2 gam norm weighted = Ok (t, ws) ->
  counted (wt_coefs t) /\
  forall l, wt_leaders t = Some l ->
    (forall eta, eta_p t = Some eta -> length eta = length A /\ Forall (fun h => h <> NaN) eta) ->
    counted l.
Proof.
  intros A w p j1 j2 gam norm wd t ws Hw Hn Hp H.
  apply wa_inv in H as (eta & _ & -> & _ & M & _); [|trivial|trivial|now apply pos_p_ok].
  cbn [the_wt wt_coefs wt_leaders eta_p].
  split; [apply coefs_counted|]. intros l El Heta. destruct p as [| |e]; [discriminate| |].
  - apply Some_inj in El; subst l. apply table_counted. reflexivity.
  - apply Some_inj in El; subst l. destruct (Heta eta eq_refl) as [Le Hnn]. clear Heta.
    assert (Hnn' : Forall (fun h => isnan h = false) eta).
    { eapply Forall_impl; [|exact Hnn]. intros [| | |]; simpl; congruence. }
    assert (Pos := min_le_0_false eta Hnn' M).
    apply table_counted. intros j Hj. 
    assert (Lv : length eta = length (Ld A (PNum e) w gam norm j)) by (now rewrite Ld_length).
    revert Lv. generalize (Ld A (PNum e) w gam norm j). clear Le Hnn M.
    intros v. revert eta Hnn' Pos. unfold corr_arr. induction v as [|c v IH]; intros eta Hnn Pos Lv; [reflexivity|].
    destruct eta as [|h eta]; [discriminate|]. rewrite map2_cons. cbn [map].
    inversion Hnn as [|? ? N1 N2]; subst. inversion Pos as [|? ? P1 P2]; subst.
    f_equal; [|apply IH; trivial; now injection Lv].
    destruct (zpj_corr_notnan (num_val e) h j Hp ltac:(lia) N1 P1) as (f & Hf & ->).
    symmetry. apply valid_map_notnan. intros x. rewrite xmul_comm. apply xmul_isnan. lra.
Qed.
Print Assumptions C27_counts_partial.

(** REFUTED: p = 2 with a single scale (j1 = j2_eff): eta_p is NaN, the test
    [eta_p.min() <= 0] is false, every returned leader is NaN while nj still
    announces at least three usable leaders in every realisation *)
Theorem C27_nan_leaders_refuted :
  forall (A : arr) (w : wavelet) (e : pynum) (j1 : Z) (j2 : option R) (gam norm : R) (weighted : bool) t ws,
  Forall no_inf A -> good_wavelet w -> norm <> 0 -> num_val e = 2 ->
  wavelet_analysis A PInfty w j1 j2 gam norm weighted = Ok (t, ws) -> (1 <= j1)%Z -> j1 = j2_eff t ->
  exists t' l', wavelet_analysis A (PNum e) w j1 j2 gam norm weighted = Ok (t', ws) /\
    wt_leaders t' = Some l' /\ In j1 (scales l') /\
    forall j r, In j (scales l') -> (r < length A)%nat ->
      (3 <= count l' j r)%nat /\ Forall (eq NaN) (column l' j r) /\ column l' j r <> [].
Proof.
  intros A w e j1 j2 gam norm wd t ws HA Hw Hn He H Hj Hj'.
  assert (He0 : 0 < num_val e) by lra.
  apply wa_inv in H as (eta0 & _ & -> & -> & _ & L & _); [|trivial|trivial|exact I].
  cbn [the_wt j2_eff wt_coefs] in *.
  assert (J := jeff_le A PInfty w gam norm j2). assert (G := gcount_le_ccount A PInfty w gam norm).
  assert (Ee : eta_of A (PNum e) w j1 j2 gam norm wd = Ok (repeat NaN (length A))).
  { rewrite eta_of_eq by (rewrite jeff_pexp by trivial; lia).
    destruct (Req_EM_T (num_val e) 2); [|congruence]. f_equal. rewrite jeff_pexp by trivial. rewrite <- Hj'.
    set (m := mrq_of _ _ _ _). 
    assert (E : forall r y, fslope wd m j1 j1 r y = NaN).
    { intros r y. destruct (fit_linear wd m j1 j1 r ltac:(lia)) as [N|(u & v & U0 & U1 & _)]; [apply N|].
      exfalso. unfold zrange in *. replace (Z.to_nat (j1 + 1 - j1)) with 1%nat in * by lia.
      cbn [seq map Rsum fold_right] in *. rewrite Z.add_0_r in *. rewrite Rplus_0_r in *. rewrite U0 in U1. lra. }
    rewrite (map_ext _ (fun _ => NaN)) by (intros; apply E).
    clear. generalize 0%nat. induction (length A); intros s; simpl; trivial. f_equal. apply IHn. }
  rewrite wa_eq by (trivial; simpl; lra). unfold wa_closed. rewrite L. cbn [bind]. rewrite Ee. cbn [bind].
  assert (M : min_le_0 (repeat NaN (length A)) = false).
  { destruct (length A); [reflexivity|]. simpl. rewrite fold_xmin_NaN. reflexivity. }
  rewrite M. eexists; eexists. split; [reflexivity|]. cbn [the_wt wt_leaders]. split; [reflexivity|].
  unfold scales. cbn [mq_values]. rewrite table_keys. rewrite gcount_pexp by trivial.
  change (map Z.of_nat (seq 1 (gcount A PInfty w gam norm))) with (one_to (gcount A PInfty w gam norm)).
  split; [apply one_to_In; lia|].
  intros j r Hs Hr. apply one_to_In in Hs.
  replace j with (Z.of_nat (Z.to_nat j)) by lia. set (i := Z.to_nat j). assert (Hi : (1 <= i <= gcount A PInfty w gam norm)%nat) by lia.
  rewrite table_count, table_column by trivial.
  assert (C3 : (3 <= count_valid (nth r (Ld A (PNum e) w gam norm i) []))%nat).
  { apply gcount_ok_l; trivial. now rewrite gcount_pexp. }
  split; [exact C3|].
  unfold corr_arr. rewrite (nth_map2 _ _ _ _ [] NaN); [|rewrite Ld_length; exact Hr|rewrite repeat_length; exact Hr].
  rewrite nth_repeat. split.
  - rewrite Forall_map, Forall_forall. intros x _. unfold zpj_corr. simpl. destruct x; reflexivity.
  - intros E. apply map_eq_nil in E.
    assert (Z0 : count_valid (nth r (Ld A (PNum e) w gam norm i) []) = 0%nat)
      by (transitivity (count_valid []); [apply (f_equal count_valid); exact E|reflexivity]). lia.
Qed.
Print Assumptions C27_nan_leaders_refuted.

(** ** Concrete cases for p = 2: the ramp 0, 1, ..., 23 with Haar filters.
    Its coefficients at scale j have modulus 4^(j-1) * 2^(j (g - 1/2)), so
    eta_2 = 3 + 2 g: positive for g = 0, negative for g = -5. *)
Definition ramp : list R := map IZR (zrange 0 24).
Lemma ramp_d1 : detail (neg_hi haar) (dec_lo haar) 1 (fin ramp) = repeat (Fin 1) 11 ++ [NaN].
Proof. cbv -[Rplus Rmult Ropp IZR]. repeat (apply f_equal2; [apply f_equal; ring|]). reflexivity. Qed.
Lemma ramp_d2 : detail (neg_hi haar) (dec_lo haar) 2 (fin ramp) = repeat (Fin 4) 5 ++ [NaN].
Proof. cbv -[Rplus Rmult Ropp IZR]. repeat (apply f_equal2; [apply f_equal; ring|]). reflexivity. Qed.
Lemma haar_count gam p : pos_pexp p -> has_leaders p = true ->
  gcount [fin ramp] p haar gam 1 = 2%nat /\ ccount [fin ramp] p haar gam 1 = 2%nat /\
  jeff [fin ramp] p haar gam 1 None = 2%Z /\ nlev [fin ramp] haar = 3%Z.
Proof.
  intros Hp Hl. assert (N : [ramp] <> []) by discriminate.
  assert (H : Forall (fun s => length s = 24%nat) [ramp]) by (repeat constructor).
  assert (G : gcount [fin ramp] p haar gam 1 = 2%nat).
  { change ([fin ramp]) with (map fin [ramp]). rewrite (fin_gcount haar gam 1 [ramp] 24 p good_haar N H Hp), Hl. unfold gcount_b, lev_b.
    change (length (dec_hi haar)) with 2%nat. rewrite level_24_2. vm_compute. reflexivity. }
  assert (K : ccount [fin ramp] p haar gam 1 = 2%nat).
  { change ([fin ramp]) with (map fin [ramp]). rewrite (fin_ccount haar gam 1 [ramp] 24 p good_haar N H Hp), Hl. unfold ccount_b, gcount_b, lev_b.
    change (length (dec_hi haar)) with 2%nat. rewrite level_24_2. vm_compute. reflexivity. }
  assert (V : nlev [fin ramp] haar = 3%Z).
  { change ([fin ramp]) with (map fin [ramp]). rewrite (fin_nlev haar [ramp] 24 N H). unfold lev_b.
    change (length (dec_hi haar)) with 2%nat. now rewrite level_24_2. }
  repeat split; trivial. unfold jeff. rewrite G, V. reflexivity.
Qed.
Lemma reals_repeat x n c : reals (repeat (Fin x) n ++ c) = repeat x n ++ reals c.
Proof. induction n; simpl; congruence. Qed.
Lemma ramp_logS gam p (j : nat) : pos_pexp p -> has_leaders p = true -> (1 <= j <= 2)%nat ->
  logS (mrq_of WaveletCoef gam (Cf [fin ramp] haar gam 1) (ccount [fin ramp] p haar gam 1)) (PyFloat 2) 0 (Z.of_nat j)
  = Fin ((3 + 2 * gam) * INR j + - 4).
Proof.
  intros Hp Hl Hj. destruct (haar_count gam p Hp Hl) as (_ & K & _). rewrite K.
  unfold logS, mrq_of. rewrite table_column by lia. rewrite Cf_nth_lt by (simpl; lia). cbn [nth].
  assert (E : coef (neg_hi haar) (dec_lo haar) 1 gam j (fin ramp)
     = repeat (Fin (Rpower 2 ((gam + 3 / 2) * INR j - 2))) (match j with 1%nat => 11 | _ => 5 end) ++ [NaN]).
  { unfold coef. rewrite rescale_eq.
    assert (V : Rpower 2 ((gam + 3 / 2) * INR j - 2) = Rpower 2 (gam * INR j + INR j * (1/2 - 1/1)) * Rpower 2 (2 * INR j - 2)).
    { rewrite <- Rpower_plus. f_equal. field. }
    rewrite V. rewrite <- INR_IZR_INZ. assert (j = 1%nat \/ j = 2%nat) as [->| ->] by lia.
    - rewrite ramp_d1, map_app. cbn [map xmul]. f_equal. cbn [repeat map xmul].
      replace (2 * INR 1 - 2) with 0 by (simpl; ring). rewrite Rpower_O by lra. reflexivity.
    - rewrite ramp_d2, map_app. cbn [map xmul]. f_equal. cbn [repeat map xmul].
      replace (2 * INR 2 - 2) with (INR 2) by (simpl; ring). rewrite Rpower_pow by lra.
      replace (2 ^ 2) with 4 by (simpl; ring). reflexivity. }
  rewrite E. set (a := Rpower 2 _). assert (Ha : 0 < a) by apply Rpower_pos.
  rewrite sf_moment_eq.
  - rewrite reals_repeat. cbn [reals]. rewrite app_nil_r.
    rewrite (moment_const _ a); trivial.
    + cbn [num_val]. rewrite xlog2_pos by apply Rpower_pos. f_equal. rewrite log2R_Rpower_gen by trivial.
      unfold a. rewrite log2R_Rpower. field.
    + destruct j as [|[|]]; discriminate.
    + intros x Hx. apply repeat_spec in Hx. subst x. apply Rabs_pos_eq. lra.
  - apply Forall_app. split; [|repeat constructor]. apply Forall_forall. intros x Hx. apply repeat_spec in Hx. right. eauto.
  - rewrite reals_repeat. destruct j as [|[|]]; discriminate.
  - left. cbn. lra.
Qed.
Lemma ramp_eta gam wd : eta_of [fin ramp] (PNum (PyInt 2)) haar 1 None gam 1 wd = Ok [Fin (3 + 2 * gam)].
Proof.
  assert (Pp : pos_pexp (PNum (PyInt 2))) by (simpl; lra).
  destruct (haar_count gam (PNum (PyInt 2)) Pp eq_refl) as (_ & K & J & _).
  rewrite eta_of_eq by (rewrite J; lia). cbn [num_val]. destruct (Req_EM_T 2 2); [|congruence].
  rewrite J. cbn [length seq map]. f_equal. f_equal.
  set (m := mrq_of _ _ _ _).
  rewrite (fslope_ext wd m 1 2 0 _ (fun j => Fin ((3 + 2 * gam) * IZR j + - 4))).
  - apply fit_exact; [lia|]. intros j Hj. unfold m. replace j with (Z.of_nat (Z.to_nat j)) by lia.
    unfold mrq_of. rewrite table_count by (rewrite K; lia).
    enough (3 <= count_valid (nth 0 (Cf [fin ramp] haar gam 1 (Z.to_nat j)) []))%nat by lia.
    apply gcount_ok_c with (p := PInfty); [|simpl; lia].
    destruct (haar_count gam PInfty I eq_refl) as (G & _). rewrite G. lia.
  - intros j Hj. replace j with (Z.of_nat (Z.to_nat j)) by lia. unfold m. rewrite ramp_logS by (trivial; lia).
    rewrite INR_IZR_INZ. reflexivity.
Qed.
(** C24, C27: a p = 2 analysis that succeeds, with eta = 3 *)
Example C27_case : forall wd, exists t, wavelet_analysis [fin ramp] (PNum (PyInt 2)) haar 1 None 0 1 wd = Ok (t, []) /\
  eta_p t = Some [Fin 3] /\ j2_eff t = 2%Z /\ exists l, wt_leaders t = Some l /\ scales l = [1; 2]%Z.
Proof.
  intros wd. assert (Pp : pos_pexp (PNum (PyInt 2))) by (simpl; lra).
  destruct (haar_count 0 (PNum (PyInt 2)) Pp eq_refl) as (G & _ & J & V).
  rewrite wa_eq by (try exact good_haar; try exact R1_neq_R0; simpl; lra). unfold wa_closed.
  change (decomposition_level (sig_len [fin ramp]) (length (dec_hi haar))) with (decomposition_level 24 2).
  rewrite level_24_2. cbn [bind]. rewrite ramp_eta. cbn [bind].
  assert (M : min_le_0 [Fin (3 + 2 * 0)] = false).
  { simpl. destruct (Rle_dec (3 + 2 * 0) 0); [lra|reflexivity]. }
  rewrite M. eexists. split; [reflexivity|]. cbn [the_wt eta_p j2_eff wt_leaders]. split; [repeat f_equal; ring|].
  split; [exact J|]. eexists. split; [reflexivity|]. unfold scales. cbn [mq_values]. rewrite table_keys, G. reflexivity.
Qed.
(** C26: and one with eta = -7, which raises TypeError *)
Example C26_case : forall wd, wavelet_analysis [fin ramp] (PNum (PyInt 2)) haar 1 None (-5) 1 wd = Err TypeError.
Proof.
  intros wd. rewrite wa_eq by (try exact good_haar; try exact R1_neq_R0; simpl; lra). unfold wa_closed.
  change (decomposition_level (sig_len [fin ramp]) (length (dec_hi haar))) with (decomposition_level 24 2).
  rewrite level_24_2. cbn [bind]. rewrite ramp_eta. cbn [bind].
  assert (M : min_le_0 [Fin (3 + 2 * -5)] = true).
  { simpl. destruct (Rle_dec (3 + 2 * -5) 0); [reflexivity|lra]. }
  now rewrite M.
Qed.
(** C25: p = 1 on the same signal raises IndexError *)
Example C25_case : forall wd, wavelet_analysis [fin ramp] (PNum (PyInt 1)) haar 1 None 0 1 wd = Err IndexError.
Proof.
  intros wd.
  assert (E' : exists t ws, wavelet_analysis [fin ramp] PInfty haar 1 None 0 1 wd = Ok (t, ws) /\ j2_eff t = 2%Z).
  { destruct (haar_count 0 PInfty I eq_refl) as (_ & _ & J' & _).
    rewrite wa_eq by (try exact good_haar; try exact R1_neq_R0; exact I). unfold wa_closed.
    change (decomposition_level (sig_len [fin ramp]) (length (dec_hi haar))) with (decomposition_level 24 2).
    rewrite level_24_2. cbn [bind eta_of]. eexists; eexists. split; [reflexivity|exact J']. }
  destruct E' as (t' & ws' & E' & J').
  apply (C25_index_error_refuted [fin ramp] haar (PyInt 1) 1 None 0 1 wd t' ws'); trivial.
  - constructor; [apply no_inf_fin|constructor].
  - exact good_haar.
  - cbn; lra.
  - cbn; lra.
  - rewrite J'. lia.
Qed.
