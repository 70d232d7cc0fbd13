(** * C23/C14, end to end: the p-leaders that wavelet_analysis returns.
    C23_p_leader_average is about the loop, before the correction; C24 about the
    correction.  Here both are put together on the value returned to the user. *)
From Coq Require Import Reals List ZArith Bool Lra Lia.
From Verif Require Import XReal PyBase ModelUtils ModelMRQ ModelStructure ModelWavelet Spec SpecMRQ LXReal LReg LUtils LBase LFilter LTransform LPattern LWave LPoly LCone LEst LMoment LWaveEst PropsWavelet PropsLeaders.
Import ListNotations.
Open Scope R_scope.

Lemma wa_two A e w j1 j2 gam norm wd t ws :
  good_wavelet w -> norm <> 0 -> 0 < num_val e ->
  wavelet_analysis A (PNum e) w j1 j2 gam norm wd = Ok (t, ws) -> num_val e = 2.
Proof.
  intros Hw Hn He H. destruct (Req_EM_T (num_val e) 2) as [E|N]; trivial. exfalso.
  exact (C25_only_two_refuted A w e j1 j2 gam norm wd (t, ws) Hw Hn He N H).
Qed.
Lemma zpj_corr_inf p (j : nat) : (1 <= j)%nat -> zpj_corr p PInf (Z.of_nat j) = Fin 1.
Proof.
  intros Hj. unfold zpj_corr. assert (B : - IZR (Z.of_nat j) < 0).
  { rewrite <- INR_IZR_INZ. assert (1 <= INR j) by (change 1 with (INR 1); now apply le_INR). lra. }
  change (xmul (Fin (- IZR (Z.of_nat j))) PInf) with (scale_inf (- IZR (Z.of_nat j)) PInf).
  rewrite scale_inf_neg by trivial. cbn [xopp xsub xadd]. rewrite xdiv_Fin by lra.
  replace ((1 + - 0) / (1 + - 0)) with 1 by field. unfold xlog2. destruct (Rlt_dec 0 1); [|lra].
  rewrite log2R_1. cbn [xmul]. rewrite Rmult_0_r, Rpower_O by lra. reflexivity.
Qed.

(** the correction factor of one realisation: [correction p h j] for a number
    h, 1 for eta = +inf *)
Definition factor_of (p : R) (eta : xr) (j : nat) : R :=
  match eta with Fin h => correction p h j | _ => 1 end.

(** ** C23: what wavelet_analysis(p_exp = p) returns as leaders *)
Theorem C23_returned_leaders :
  forall (A : arr) (w : wavelet) (e : pynum) (j1 : Z) (j2 : option R) (gam norm : R) (weighted : bool) t ws l eta,
  Forall no_inf A -> good_wavelet w -> norm <> 0 -> 0 < num_val e ->
  wavelet_analysis A (PNum e) w j1 j2 gam norm weighted = Ok (t, ws) ->
  wt_leaders t = Some l -> eta_p t = Some eta ->
  (1 <= j1 <= j2_eff t)%Z -> ~ In NaN eta ->
  forall j r k, In j (scales l) -> (r < length A)%nat ->
    let c := wt_coefs t in
    (nth r eta NaN = PInf \/ exists h, nth r eta NaN = Fin h /\ 0 < h) /\
    length (column l j r) = (length (column c j r) - 2)%nat /\
    ((k < length (column l j r))%nat ->
      (Forall (eq NaN) (cone_coefs c r j k) -> entry l j r k = NaN) /\
      (~ Forall (eq NaN) (cone_coefs c r j k) ->
         entry l j r k = Fin (factor_of (num_val e) (nth r eta NaN) (Z.to_nat j)
                              * abs_pow (cone_energy c r j k (num_val e)) (1 / num_val e)))).
Proof.
  intros A w e j1 j2 gam norm wd t ws l eta HA Hw Hn He H El Ep J12 Hnn j r k Hj Hr. cbn zeta.
  apply wa_inv in H as (eta0 & Ee & -> & _ & Em & _ & NA); [|trivial|trivial|now apply pos_p_ok].
  cbn [the_wt j2_eff] in J12. rewrite eta_of_eq in Ee by exact J12.
  destruct (Req_EM_T (num_val e) 2); [|discriminate]. injection Ee as Ee.
  assert (Le : length eta = length A).
  { cbn [the_wt eta_p] in Ep. apply Some_inj in Ep. subst eta0. rewrite <- Ep. now rewrite map_length, seq_length. }
  clear Ee.
  cbn [the_wt wt_leaders wt_coefs eta_p] in *. apply Some_inj in El; subst l. apply Some_inj in Ep; subst eta0.
  assert (Nn : Forall (fun h => isnan h = false) eta).
  { rewrite Forall_forall. intros [| | |] Hx; trivial. contradiction. }
  assert (Pos := min_le_0_false eta Nn Em). rewrite Forall_forall in Pos.
  assert (Hpos : nth r eta NaN = PInf \/ exists h, nth r eta NaN = Fin h /\ 0 < h).
  { assert (Hin : In (nth r eta NaN) eta) by (apply nth_In; lia).
    assert (P := Pos _ Hin). destruct (nth r eta NaN) as [h| | |]; simpl in P; try discriminate; auto.
    - right. exists h. split; trivial. destruct (Rle_dec h 0); [discriminate|lra].
    - contradiction. }
  split; [exact Hpos|].
  unfold scales in Hj. cbn [mq_values] in Hj. rewrite table_keys in Hj. apply in_map_iff in Hj as (i & <- & Hi). apply in_seq in Hi.
  rewrite Nat2Z.id.
  set (g := gcount A (PNum e) w gam norm) in *. set (n := ccount A (PNum e) w gam norm) in *.
  assert (Hc := gcount_le_ccount A (PNum e) w gam norm). fold g n in Hc.
  set (c := nth r A []) in *. assert (Nc : no_inf c) by (now apply In_nth_no_inf).
  set (d := fun j0 => coef (neg_hi w) (dec_lo w) norm gam j0 c).
  assert (Hd : forall q, no_inf (d q)) by (intros; apply coef_no_inf; trivial).
  set (raw := lead_of (neg_hi w) (dec_lo w) norm gam WaveletPLeader (PNum e) i c).
  set (f := zpj_corr (num_val e) (nth r eta NaN) (Z.of_nat i)).
  assert (El : column (mkMRQ WaveletPLeader gam
      (table (fun j => corr_arr (num_val e) eta j (Ld A (PNum e) w gam norm j)) g)
      (njtable (Ld A (PNum e) w gam norm) g)) (Z.of_nat i) r = map (fun v => xmul v f) raw).
  { unfold column. cbn [mq_values]. rewrite table_get by lia. unfold corr_arr.
    rewrite (nth_map2 _ _ _ _ [] NaN); [|rewrite Ld_length; exact Hr|rewrite Le; exact Hr].
    rewrite Ld_nth by trivial. reflexivity. }
  assert (Ec : column (mrq_of WaveletCoef gam (Cf A w gam norm) n) (Z.of_nat i) r = d i).
  { unfold mrq_of. rewrite table_column by lia. now rewrite Cf_nth_lt. }
  rewrite El, Ec, map_length. unfold raw. destruct (neg_good w Hw) as [Hh Hl].
  rewrite lead_of_length by (trivial; lia). unfold d at 1. rewrite coef_length by (trivial; lia). split; [reflexivity|].
  intros Hk. rewrite entry_column, El.
  assert (Lr : (k < length raw)%nat) by (unfold raw; rewrite lead_of_length by (trivial; lia); exact Hk).
  rewrite (nth_map_lt _ _ _ NaN) by exact Lr.
  rewrite <- (sv_length (neg_hi w) (dec_lo w) norm gam WaveletPLeader (PNum e) Hh Hl c i) in Hk by lia.
  assert (E := lead_plead e d i k He Hd Hk).
  change (nth k raw NaN
     = if forallb isnan (map (fun jk => nth (snd jk) (d (fst jk)) NaN) (cone i k)) then NaN
       else Fin (abs_pow (cone_energy_of d i k (num_val e)) (1 / num_val e))) in E.
  rewrite E.
  assert (Q : cone_coefs (mrq_of WaveletCoef gam (Cf A w gam norm) n) r (Z.of_nat i) k
     = map (fun jk => nth (snd jk) (d (fst jk)) NaN) (cone i k)) by (apply cone_coefs_eq; trivial; fold n; lia).
  assert (Q' : cone_energy (mrq_of WaveletCoef gam (Cf A w gam norm) n) r (Z.of_nat i) k (num_val e) = cone_energy_of d i k (num_val e))
    by (apply cone_energy_eq; trivial; fold n; lia).
  rewrite Q, Q'. rewrite <- forallb_isnan. split; intros F.
  - rewrite F. reflexivity.
  - apply not_true_is_false in F. rewrite F. unfold f, factor_of.
    destruct Hpos as [->|(h & -> & Hh0)].
    + rewrite zpj_corr_inf by lia. cbn [xmul]. f_equal. ring.
    + rewrite zpj_corr_fin by (trivial; lia). cbn [xmul]. f_equal. ring.
Qed.
Print Assumptions C23_returned_leaders.

(** ** C14 for p-leaders: the pattern of missing values of the returned leaders
    is that of the leaders of any other signal of the same length, whatever p,
    provided every eta_p is defined *)
Lemma pat_corr p eta j v : 0 < p -> (1 <= j)%nat -> ~ In NaN eta -> min_le_0 eta = false -> length eta = length v ->
  map pat (corr_arr p eta j v) = map pat v.
Proof.
  intros Hp Hj Hnn M Le.
  assert (Nn : Forall (fun h => isnan h = false) eta).
  { rewrite Forall_forall. intros [| | |] Hx; trivial. contradiction. }
  assert (Pos := min_le_0_false eta Nn M). clear Hnn M. unfold corr_arr.
  revert v Le. induction eta as [|h eta IH]; intros [|c v] Le; try discriminate; [reflexivity|].
  inversion Nn; inversion Pos; subst. rewrite map2_cons. cbn [map]. f_equal; [|apply IH; trivial; now injection Le].
  destruct (zpj_corr_notnan p h j Hp Hj) as (f & Hf & ->); trivial.
  unfold pat. rewrite map_map. apply map_ext. intros x. rewrite xmul_comm. apply xmul_isnan. lra.
Qed.

Definition eta_defined (t : wtransform) (j1 : Z) : Prop :=
  match eta_p t with Some eta => (1 <= j1 <= j2_eff t)%Z /\ ~ In NaN eta | None => True end.

Lemma leaders_pattern A w p j1 j2 gam norm wd t ws l :
  good_wavelet w -> norm <> 0 -> pos_pexp p ->
  wavelet_analysis A p w j1 j2 gam norm wd = Ok (t, ws) -> eta_defined t j1 -> wt_leaders t = Some l ->
  map nan_pattern (dict_vals (mq_values l)) = map (fun j => map pat (Ld A p w gam norm j)) (seq 1 (gcount A p w gam norm)).
Proof.
  intros Hw Hn Hp H He El.
  apply wa_inv in H as (eta & Ee & -> & _ & M & _); [|trivial|trivial|now apply pos_p_ok].
  unfold eta_defined in He. cbn [the_wt wt_leaders eta_p j2_eff] in *.
  destruct p as [| |e]; [discriminate| |]; apply Some_inj in El; subst l; cbn [mrq_of mq_values].
  - unfold dict_vals, table. rewrite !map_map. apply map_ext. intros j. reflexivity.
  - destruct He as [J Hnn]. cbn [pos_pexp] in Hp. rewrite eta_of_eq in Ee by exact J.
    destruct (Req_EM_T (num_val e) 2); [|discriminate].
    assert (Le : length eta = length A) by (injection Ee as <-; now rewrite map_length, seq_length).
    unfold dict_vals, table. rewrite !map_map. apply map_ext_in. intros j Hj. apply in_seq in Hj. cbn [snd].
    change (nan_pattern ?a) with (map pat a). apply pat_corr; trivial; [lia|]. now rewrite Ld_length.
Qed.

Theorem C14_leader_pattern :
  forall (S S' : list (list R)) (n : nat) (w w' : wavelet) (p p' : pexp) (j1 j1' : Z)
         (j2 : option R) (gam gam' norm norm' : R) (weighted weighted' : bool) t t' ws ws' l l',
  Forall (fun s => length s = n) S -> Forall (fun s => length s = n) S' -> length S = length S' ->
  good_wavelet w -> good_wavelet w' -> length (dec_hi w) = length (dec_hi w') ->
  norm <> 0 -> norm' <> 0 -> pos_pexp p -> pos_pexp p' ->
  wavelet_analysis (map fin S) p w j1 j2 gam norm weighted = Ok (t, ws) ->
  wavelet_analysis (map fin S') p' w' j1' j2 gam' norm' weighted' = Ok (t', ws') ->
  wt_leaders t = Some l -> wt_leaders t' = Some l' ->
  eta_defined t j1 -> eta_defined t' j1' ->
  map nan_pattern (dict_vals (mq_values l)) = map nan_pattern (dict_vals (mq_values l')).
Proof.
  intros S S' n w w' p p' j1 j1' j2 gam gam' norm norm' wd wd' t t' ws ws' l l'
         HS HS' Hl Hw Hw' HL Hn Hn' Hp Hp' H H' El El' He He'.
  rewrite (leaders_pattern _ _ _ _ _ _ _ _ _ _ _ Hw Hn Hp H He El), (leaders_pattern _ _ _ _ _ _ _ _ _ _ _ Hw' Hn' Hp' H' He' El').
  apply wa_inv in H as (eta & _ & -> & -> & _ & _ & N1); trivial; [|now apply pos_p_ok].
  apply wa_inv in H' as (eta' & _ & -> & -> & _ & _ & N2); trivial; [|now apply pos_p_ok].
  assert (NS : S <> []) by (intros ->; apply N1; reflexivity).
  assert (NS' : S' <> []) by (intros ->; apply N2; reflexivity).
  assert (Hh : has_leaders p = has_leaders p') by (destruct p, p'; simpl in *; trivial; discriminate).
  rewrite (fin_gcount w gam norm S n p), (fin_gcount w' gam' norm' S' n p') by trivial. rewrite Hh, HL.
  apply map_ext_in. intros j Hj. rewrite (fin_Ld_pats w gam norm S n), (fin_Ld_pats w' gam' norm' S' n) by trivial. now rewrite HL, Hl.
Qed.
Print Assumptions C14_leader_pattern.

(** ** C93: leaders and p-leaders of the same signal bound each other *)
Lemma abs_pow_ge0 a q : 0 <= abs_pow a q.
Proof. unfold abs_pow. destruct (Req_EM_T a 0); [lra|left; apply exp_pos]. Qed.
Lemma abs_pow_mono a b q : 0 < q -> Rabs a <= Rabs b -> abs_pow a q <= abs_pow b q.
Proof.
  intros Hq H. unfold abs_pow. destruct (Req_EM_T a 0) as [->|Na].
  - destruct (Req_EM_T b 0); [lra|left; apply exp_pos].
  - assert (Pa := Rabs_pos_lt a Na). destruct (Req_EM_T b 0) as [->|Nb]; [rewrite Rabs_R0 in H; lra|].
    assert (L : ln (Rabs a) <= ln (Rabs b)).
    { destruct H as [H|H]; [left; now apply ln_increasing|rewrite H; lra]. }
    assert (E : q * ln (Rabs a) <= q * ln (Rabs b)) by nra.
    destruct E as [E|E]; [left; now apply exp_increasing|rewrite E; lra].
Qed.
Lemma abs_pow_root c M q : 0 < c -> 0 <= M -> 0 < q -> abs_pow (c * abs_pow M q) (1 / q) = Rpower c (1 / q) * M.
Proof.
  intros Hc HM Hq. unfold abs_pow at 2. destruct (Req_EM_T M 0) as [->|N].
  - rewrite !Rmult_0_r. unfold abs_pow. destruct (Req_EM_T 0 0); lra.
  - assert (PM : 0 < M) by lra. rewrite (Rabs_pos_eq M) by lra.
    assert (P : 0 < c * exp (q * ln M)) by (apply Rmult_lt_0_compat; [trivial|apply exp_pos]).
    unfold abs_pow. destruct (Req_EM_T _ 0) as [Z|_]; [lra|]. rewrite Rabs_pos_eq by lra.
    rewrite ln_mult by (trivial; apply exp_pos). rewrite ln_exp. unfold Rpower.
    replace (1 / q * (ln c + q * ln M)) with (1 / q * ln c + ln M) by (field; lra).
    rewrite exp_plus, exp_ln by lra. reflexivity.
Qed.
Lemma Rsum_flat_map {X Y} (f : Y -> R) (g : X -> list Y) l :
  Rsum (map f (flat_map g l)) = Rsum (map (fun x => Rsum (map f (g x))) l).
Proof. induction l as [|a l IH]; [reflexivity|]. cbn [flat_map map]. rewrite map_app, Rsum_app, IH. reflexivity. Qed.
(** total weight of a cone *)
Lemma cone_weight j k : Rsum (map (fun jk => Rpower 2 (INR (fst jk) - INR j)) (cone j k)) = 3 * INR j.
Proof.
  unfold cone. rewrite Rsum_flat_map.
  rewrite (map_ext_in _ (fun _ => 3)).
  - rewrite Rsum_const, seq_length. ring.
  - intros j' Hj. apply in_seq in Hj. rewrite map_map. cbn [fst]. rewrite Rsum_const, seq_length.
    rewrite mult_INR, pow_INR. change (INR 2) with 2. rewrite <- Rpower_pow by lra.
    rewrite minus_INR by lia. replace (INR 3) with 3 by (simpl; ring). rewrite Rmult_assoc, <- Rpower_plus.
    replace (INR j - INR j' + (INR j' - INR j)) with 0 by ring. rewrite Rpower_O; lra.
Qed.
Lemma Rsum_ge_one {X} (f : X -> R) l x : In x l -> (forall y, In y l -> 0 <= f y) -> f x <= Rsum (map f l).
Proof.
  induction l as [|a l IH]; intros Hx H; [destruct Hx|]; destruct Hx as [Hx|Hx]; cbn [map]; change (Rsum (?x :: ?y)) with (x + Rsum y).
  - subst. assert (0 <= Rsum (map f l)) by (apply Rsum_map_nonneg; intros; apply H; now right). lra.
  - assert (0 <= f a) by (apply H; now left). assert (f x <= Rsum (map f l)) by (apply IH; trivial; intros; apply H; now right). lra.
Qed.
Lemma energy_bounds m r (j k : nat) q M : 0 < q -> (1 <= j)%nat ->
  is_max M (map Rabs (reals (cone_coefs m r (Z.of_nat j) k))) ->
  Rpower 2 (1 - INR j) * abs_pow M q <= cone_energy m r (Z.of_nat j) k q <= 3 * INR j * abs_pow M q.
Proof.
  intros Hq Hj [Hin Hmax]. unfold cone_coefs, cone_energy in *. rewrite Nat2Z.id, <- INR_IZR_INZ in *.
  assert (HM : 0 <= M) by (apply in_map_iff in Hin as (x & <- & _); apply Rabs_pos).
  assert (W : forall jk, In jk (cone j k) -> forall a, entry m (Z.of_nat (fst jk)) r (snd jk) = Fin a -> Rabs a <= M).
  { intros jk Hjk a E. apply Hmax. apply in_map_iff. exists a. split; trivial.
    apply In_reals. rewrite <- E. apply in_map_iff. exists jk. split; trivial. }
  split.
  - apply in_map_iff in Hin as (x & Ex & Hx). apply In_reals in Hx. apply in_map_iff in Hx as (jk & E & Hjk).
    eapply Rle_trans; [|apply (Rsum_ge_one _ _ jk Hjk)].
    + cbn beta. rewrite E. assert (B : abs_pow M q = abs_pow x q).
      { subst M. apply Rle_antisym; apply abs_pow_mono; trivial; rewrite Rabs_Rabsolu; lra. }
      rewrite B. apply Rmult_le_compat_r; [apply abs_pow_ge0|]. apply Rle_Rpower; [lra|].
      destruct jk as [j' k']. apply cone_In in Hjk. cbn [fst].
      assert (1 <= INR j') by (change 1 with (INR 1); apply le_INR; lia). lra.
    + intros y _. cbn beta. destruct (entry m (Z.of_nat (fst y)) r (snd y)); try lra. apply Rmult_le_pos; [left; apply Rpower_pos|apply abs_pow_ge0].
  - rewrite <- (cone_weight j k). rewrite Rmult_comm, <- Rsum_map_scal.
    apply Rsum_map_le. intros jk Hjk. destruct (entry m (Z.of_nat (fst jk)) r (snd jk)) eqn:E;
      try (apply Rmult_le_pos; [apply abs_pow_ge0|left; apply Rpower_pos]).
    rewrite (Rmult_comm (abs_pow M q)). apply Rmult_le_compat_l; [left; apply Rpower_pos|]. apply abs_pow_mono; trivial.
    rewrite (Rabs_pos_eq M) by trivial. now apply (W jk Hjk).
Qed.

(** returned leaders (p_exp = np.inf) and returned p-leaders of the same signal:
    missing at the same places, and elsewhere
      f 2^(-(j-1)/p) leader <= p-leader <= f (3 j)^(1/p) leader
    with f in (0,1] the finite-resolution correction *)
Theorem C93_p_leaders_comparable :
  forall (A : arr) (w : wavelet) (e : pynum) (j1 : Z) (j2 : option R) (gam norm : R) (weighted weighted' : bool)
         t ws l t' ws' l' eta,
  Forall no_inf A -> good_wavelet w -> norm <> 0 -> 0 < num_val e ->
  wavelet_analysis A PInfty w j1 j2 gam norm weighted = Ok (t, ws) -> wt_leaders t = Some l ->
  wavelet_analysis A (PNum e) w j1 j2 gam norm weighted' = Ok (t', ws') -> wt_leaders t' = Some l' ->
  eta_p t' = Some eta -> (1 <= j1 <= j2_eff t')%Z -> ~ In NaN eta ->
  scales l' = scales l /\
  forall j r k, In j (scales l) -> (r < length A)%nat ->
    length (column l' j r) = length (column l j r) /\
    let p := num_val e in
    let f := factor_of p (nth r eta NaN) (Z.to_nat j) in
    0 < f <= 1 /\
    ((k < length (column l j r))%nat ->
      (entry l j r k = NaN /\ entry l' j r k = NaN) \/
      exists x y, entry l j r k = Fin x /\ entry l' j r k = Fin y /\ 0 <= x /\
        f * (Rpower 2 (- (IZR j - 1) / p) * x) <= y <= f * (Rpower (3 * IZR j) (1 / p) * x)).
Proof.
  intros A w e j1 j2 gam norm wd wd' t ws l t' ws' l' eta HA Hw Hn He H El H' El' Ep J12 Hnn.
  assert (C21 := C21_leader_sup A w j1 j2 gam norm wd t ws l HA Hw Hn H El).
  assert (C23 := C23_returned_leaders A w e j1 j2 gam norm wd' t' ws' l' eta HA Hw Hn He H' El' Ep J12 Hnn).
  assert (Same : wt_coefs t' = wt_coefs t /\ scales l' = scales l).
  { apply wa_inv in H as (? & _ & -> & _); [|trivial|trivial|exact I].
    apply wa_inv in H' as (? & _ & -> & _); [|trivial|trivial|now apply pos_p_ok].
    cbn [the_wt wt_coefs wt_leaders] in *. apply Some_inj in El, El'. subst. rewrite ccount_pexp by trivial. split; [reflexivity|].
    unfold scales. cbn [mrq_of mq_values]. rewrite !table_keys. now rewrite gcount_pexp. }
  destruct Same as [Ec Es]. split; [exact Es|]. intros j r k Hj Hr. cbn zeta.
  assert (Hj0 : (1 <= j)%Z).
  { apply wa_inv in H as (? & _ & -> & _); [|trivial|trivial|exact I]. cbn [the_wt wt_leaders] in El. apply Some_inj in El. subst l.
    apply in_scales in Hj as (i & -> & Hi). lia. }
  assert (NI : no_inf (cone_coefs (wt_coefs t) r j k)).
  { apply wa_inv in H as (? & _ & -> & _); [|trivial|trivial|exact I]. cbn [the_wt wt_leaders wt_coefs] in *.
    apply Some_inj in El. subst l. apply in_scales in Hj as (i & -> & Hi).
    rewrite cone_coefs_eq by (trivial; assert (G := gcount_le_ccount A PInfty w gam norm); lia).
    apply Forall_map, Forall_forall. intros [j' k'] _. cbn [fst snd].
    assert (N := coef_no_inf (neg_hi w) (dec_lo w) norm gam j' (nth r A []) (In_nth_no_inf A r HA)).
    destruct (Nat.lt_ge_cases k' (length (coef (neg_hi w) (dec_lo w) norm gam j' (nth r A [])))) as [Q|Q].
    - unfold no_inf in N. rewrite Forall_forall in N. apply N. now apply nth_In.
    - rewrite nth_overflow by trivial. now left. }
  destruct (C21 j r k Hj Hr) as [L1 V1]. destruct (C23 j r k ltac:(now rewrite Es) Hr) as (P & L2 & V2). clear C21 C23.
  cbn zeta in *. rewrite Ec in *. split; [now rewrite L1, L2|].
  set (p := num_val e) in *. set (f := factor_of p (nth r eta NaN) (Z.to_nat j)) in *.
  assert (Hf : 0 < f <= 1).
  { unfold f, factor_of. destruct P as [->|(h & -> & Hh)]; [lra|].
    destruct (C24_correction_factor p h He Hh) as [_ C]. destruct (C 1%nat (Z.to_nat j) ltac:(lia)) as [[C1 C2] C3]. lra. }
  split; [exact Hf|]. intros Hk. specialize (V1 Hk). rewrite <- L1 in L2. rewrite <- L2 in Hk. specialize (V2 Hk).
  destruct V1 as [N1 M1]. destruct V2 as [N2 M2]. set (D := cone_coefs (wt_coefs t) r j k) in *.
  destruct (xabs_cols D NI) as [[_ F]|(x & _ & MX)].
  { left. split; [now apply N1|now apply N2]. }
  assert (Ex : entry l j r k = Fin x) by (now apply M1).
  right.
  assert (ND : ~ Forall (eq NaN) D) by (intros F; apply N1 in F; congruence).
  specialize (M2 ND). eexists; eexists. split; [exact Ex|]. split; [exact M2|].
  assert (X0 : 0 <= x) by (destruct MX as [Hin _]; apply in_map_iff in Hin as (a & <- & _); apply Rabs_pos).
  split; trivial.
  assert (Ej : j = Z.of_nat (Z.to_nat j)) by lia. unfold D in MX. rewrite Ej in MX.
  destruct (energy_bounds (wt_coefs t) r (Z.to_nat j) k p x He ltac:(lia) MX) as [B1 B2].
  rewrite <- Ej in B1, B2. rewrite INR_IZR_INZ, <- Ej in B1, B2.
  set (E := cone_energy (wt_coefs t) r j k p) in *.
  assert (J1 : 1 <= IZR j) by (now apply IZR_le).
  assert (Hip : 0 < 1 / p) by (apply Rdiv_lt_0_compat; [lra|exact He]).
  assert (A0 := abs_pow_ge0 x p). assert (Q2 : 0 <= 3 * IZR j * abs_pow x p) by (apply Rmult_le_pos; lra).
  assert (Q1 : 0 <= Rpower 2 (1 - IZR j) * abs_pow x p) by (apply Rmult_le_pos; [left; apply Rpower_pos|trivial]).
  split; (apply Rmult_le_compat_l; [lra|]).
  - replace (Rpower 2 (- (IZR j - 1) / p)) with (Rpower (Rpower 2 (1 - IZR j)) (1 / p)).
    + rewrite <- abs_pow_root by (trivial; apply Rpower_pos). apply abs_pow_mono; trivial. rewrite !Rabs_pos_eq by lra. exact B1.
    + rewrite Rpower_mult. f_equal. field. apply Rgt_not_eq, He.
  - rewrite <- abs_pow_root; [|lra|trivial|exact He]. apply abs_pow_mono; trivial. rewrite !Rabs_pos_eq by lra. exact B2.
Qed.
Print Assumptions C93_p_leaders_comparable.

(** the hypotheses of C14, C23 and C93 are met: the ramp with Haar filters, p = 2 *)
Example p_leader_case : forall wd wd', exists t l t' l',
  wavelet_analysis [fin ramp] PInfty haar 1 None 0 1 wd = Ok (t, []) /\ wt_leaders t = Some l /\
  wavelet_analysis [fin ramp] (PNum (PyInt 2)) haar 1 None 0 1 wd' = Ok (t', []) /\ wt_leaders t' = Some l' /\
  eta_p t' = Some [Fin 3] /\ (1 <= 1 <= j2_eff t')%Z /\ ~ In NaN [Fin 3] /\ eta_defined t' 1 /\
  scales l = [1; 2]%Z /\ entry l 1 0 0 = Fin (Rpower 2 (- (1/2))).
Proof.
  intros wd wd'. destruct (C27_case wd') as (t' & E' & Ep & J & l' & El' & S').
  destruct (haar_count 0 PInfty I eq_refl) as (G & K & J' & V).
  assert (E : wavelet_analysis [fin ramp] PInfty haar 1 None 0 1 wd = Ok (the_wt [fin ramp] PInfty haar None 0 1 [], [])).
  { rewrite wa_eq by (try exact good_haar; try exact R1_neq_R0; exact I). unfold wa_closed.
    change (decomposition_level (sig_len [fin ramp]) (length (dec_hi haar))) with (decomposition_level 24 2).
    rewrite level_24_2. reflexivity. }
  eexists; eexists; exists t', l'. split; [exact E|]. split; [reflexivity|]. split; [exact E'|]. split; [exact El'|].
  split; [exact Ep|]. rewrite J. split; [lia|]. assert (NN : ~ In NaN [Fin 3]) by (intros [F|[]]; discriminate).
  split; [exact NN|]. split; [unfold eta_defined; rewrite Ep, J; split; [lia|exact NN]|].
  split; [unfold scales; cbn [mrq_of mq_values]; rewrite table_keys, G; reflexivity|].
  assert (HA : Forall no_inf [fin ramp]) by (constructor; [apply no_inf_fin|constructor]).
  assert (S1 : In 1%Z (scales (mrq_of WaveletLeader 0 (Ld [fin ramp] PInfty haar 0 1) (gcount [fin ramp] PInfty haar 0 1)))).
  { unfold scales; cbn [mrq_of mq_values]; rewrite table_keys, G. now left. }
  destruct (C21_leader_sup [fin ramp] haar 1 None 0 1 wd _ _ _ HA good_haar R1_neq_R0 E eq_refl 1%Z 0%nat 0%nat S1 ltac:(simpl; lia)) as [L V'].
  assert (Ec : column (wt_coefs (the_wt [fin ramp] PInfty haar None 0 1 [])) 1 0 = repeat (Fin (Rpower 2 (- (1/2)))) 11 ++ [NaN]).
  { cbn [the_wt wt_coefs]. unfold mrq_of. rewrite K. change 1%Z with (Z.of_nat 1). rewrite table_column by lia.
    rewrite Cf_nth_lt by (simpl; lia). cbn [nth]. unfold coef. rewrite rescale_eq.
    rewrite ramp_d1, map_app. cbn [repeat map xmul app].
    change (Z.of_nat 1) with 1%Z. replace (Rpower 2 (0 * 1 + 1 * (1 / 2 - 1 / 1)) * 1) with (Rpower 2 (- (1/2))); [reflexivity|].
    rewrite Rmult_1_r. f_equal. field. }
  rewrite Ec in L. cbn zeta in V'. apply V'; [rewrite L; simpl; lia|].
  unfold cone_coefs. change (Z.to_nat 1) with 1%nat. 
  change (cone 1 0) with [(1,0);(1,1);(1,2)]%nat. cbn [map fst snd]. change (Z.of_nat 1) with 1%Z.
  rewrite !entry_column, Ec. cbn [repeat app nth reals map]. 
  assert (P := Rpower_pos 2 (- (1/2))). rewrite Rabs_pos_eq by lra. split; [now left|]. intros v [<-|[<-|[<-|[]]]]; lra.
Qed.
