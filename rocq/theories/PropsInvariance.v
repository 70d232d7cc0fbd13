(** * Properties C30, C31: amplitude and fractional integration *)
From Coq Require Import Reals List ZArith Bool Lra Lia String.
From Verif Require Import XReal PyBase ModelUtils ModelMRQ ModelStructure ModelCumulants ModelSpectrum ModelEstimation ModelWavelet Spec SpecMRQ LXReal LReg LUtils LBase LFilter LTransform LPattern LWave LEst LMoment LCum LEntropy LWaveEst LScale LScaleWT PropsEstimators PropsCumulants PropsSpectrum PropsMono.
From Verif Require PropsWavelet PropsLeaders.
Import ListNotations.
Open Scope R_scope.
Local Notation length := List.length.

(** ** Specification: at every scale j the values of [m'] are those of [m] times
    the number f(j); same scales, same counts *)
Definition rescaled (f : Z -> R) (m m' : mrq) : Prop :=
  scales m' = scales m /\ mq_nj m' = mq_nj m /\
  forall j a, dict_get (mq_values m) j = Some a ->
    dict_get (mq_values m') j = Some (map (map (xmul (Fin (f j)))) a).
(** every stored value is a number or NaN *)
Definition no_infinities (m : mrq) : Prop :=
  forall j a, dict_get (mq_values m) j = Some a -> Forall no_inf a.

Lemma rescaled_regular f m m' g nrep : rescaled f m m' -> regular m g nrep -> regular m' g nrep.
Proof.
  intros (A & B & C) (G & S & K & L). split; [trivial|]. split; [congruence|]. split; [congruence|].
  intros j a Ha. assert (I : In j (scales m)) by (rewrite <- A; eapply dict_get_In; exact Ha).
  destruct (dict_get_Some (mq_values m) j I) as [b Hb].
  pose proof (eq_trans (eq_sym Ha) (C j b Hb)) as E. apply Some_inj in E. subst a. rewrite map_length. exact (L j b Hb).
Qed.
Lemma rescaled_column f m m' j r : rescaled f m m' -> column m' j r = scl (f j) (column m j r).
Proof.
  intros (A & B & C). unfold column. destruct (dict_get (mq_values m) j) as [a|] eqn:Ha.
  - rewrite (C j a Ha). change (@nil xr) with (map (xmul (Fin (f j))) []) at 1. apply map_nth.
  - destruct (dict_get (mq_values m') j) as [b|] eqn:Hb; [|reflexivity].
    exfalso. apply dict_get_In in Hb. change (In j (scales m')) in Hb. rewrite A in Hb.
    destruct (dict_get_Some (mq_values m) j Hb) as [c Hc]. congruence.
Qed.
Lemma rescaled_count f m m' j r : rescaled f m m' -> count m' j r = count m j r.
Proof. intros (A & B & C). unfold count. now rewrite B. Qed.
Lemma no_inf_column m j r : no_infinities m -> no_inf (column m j r).
Proof.
  intros H. unfold column. destruct (dict_get _ _) as [a|] eqn:E; [|constructor].
  specialize (H j a E). rewrite Forall_forall in H. destruct (Nat.lt_ge_cases r (length a)).
  - apply H. now apply nth_In.
  - rewrite nth_overflow by trivial. constructor.
Qed.
Lemma numbers_rescaled f m m' j r : rescaled f m m' -> no_infinities m -> numbers m' j r = map (Rmult (f j)) (numbers m j r).
Proof. intros H N. unfold numbers. rewrite (rescaled_column f m m') by trivial. apply scl_no_inf. now apply no_inf_column. Qed.

Section Generic.
Variables (f : Z -> R) (a b : R) (m m' : mrq) (g nrep : nat) (j1 j2 : Z) (wd : bool).
Hypothesis Hf : forall j, Rabs (f j) = Rpower 2 (a * IZR j + b).
Hypothesis HM : rescaled f m m'.
Hypothesis HN : no_infinities m.
Hypothesis HR : regular m g nrep.
Hypothesis H1 : (1 <= j1)%Z.
Hypothesis H2 : (j1 <= j2)%Z.
Hypothesis H3 : (j2 <= Z.of_nat g)%Z.

Lemma f_nz j : f j <> 0.
Proof. intros E. assert (K := Hf j). rewrite E, Rabs_R0 in K. assert (P := Rpower_pos 2 (a * IZR j + b)). lra. Qed.
Lemma f_log j : log2R (Rabs (f j)) = a * IZR j + b.
Proof. rewrite Hf. unfold log2R, Rpower. rewrite ln_exp. field. assert (P := ln2_pos). lra. Qed.
Lemma f_ln j : ln (Rabs (f j)) = (a * IZR j + b) * ln 2.
Proof. rewrite Hf. unfold Rpower. now rewrite ln_exp. Qed.
Lemma fit_same r y : fit3 wd m' j1 j2 r y = fit3 wd m j1 j2 r y.
Proof. apply fit3_weights. intros. now apply (rescaled_count f). Qed.
Lemma fit_line r y y' u v : (forall j, (j1 <= j <= j2)%Z -> y' j = xadd (y j) (Fin (u * IZR j + v))) ->
  fslope wd m' j1 j2 r y' = xadd (fslope wd m j1 j2 r y) (Fin u) /\
  ficept wd m' j1 j2 r y' = xadd (ficept wd m j1 j2 r y) (Fin v).
Proof.
  intros H. unfold fslope, ficept. rewrite fit_same.
  destruct (fit_add_line wd m j1 j2 r y u v H2) as [A B]. unfold fslope, ficept in A, B.
  rewrite <- A, <- B. rewrite (fit3_ext wd m j1 j2 r y' _ H). auto.
Qed.

Lemma resc_logS q r j : logS m' q r j = xadd (logS m q r j) (Fin (num_val q * (a * IZR j + b))).
Proof.
  unfold logS. rewrite (rescaled_column f m m') by trivial.
  rewrite log_sf_scale by (try apply f_nz; now apply no_inf_column). now rewrite f_log.
Qed.
Lemma resc_SF qs s : StructureFunction m (QArr qs) j1 j2 wd = Ok s ->
  exists s', StructureFunction m' (QArr qs) j1 j2 wd = Ok s' /\
    (forall i r, (i < length qs)%nat -> (r < nrep)%nat ->
      (forall j, In j (scales m) ->
         at3 (sf_logvalues s') i r j = xadd (at3 (sf_logvalues s) i r j) (Fin (nth i qs 0 * (a * IZR j + b)))) /\
      at2 (sf_zeta s') i r = xadd (at2 (sf_zeta s) i r) (Fin (nth i qs 0 * a)) /\
      at2 (sf_intercept s') i r = xadd (at2 (sf_intercept s) i r) (Fin (nth i qs 0 * b))) /\
    (forall r, (r < nrep)%nat -> nth r (sf_H s') NaN = xadd (nth r (sf_H s) NaN) (Fin (a - (mq_gamint m' - mq_gamint m)))).
Proof.
  intros E. assert (HR' := rescaled_regular f m m' g nrep HM HR).
  assert (E0 := E). rewrite (SF_eq m g nrep HR) in E0 by trivial.
  destruct (has_two qs) eqn:I2; [|discriminate]. injection E0 as E0.
  assert (E' := SF_eq m' g nrep HR' qs j1 j2 wd H1 H2 H3). rewrite I2 in E'.
  eexists. split; [exact E'|]. split.
  - intros i r Hi Hr.
    destruct (SF_rows m g nrep qs j1 j2 wd s HR H1 H2 H3 E i r Hi Hr) as (A & B & D).
    destruct (SF_rows m' g nrep qs j1 j2 wd _ HR' H1 H2 H3 E' i r Hi Hr) as (A' & B' & D').
    split; [|].
    + intros j Hj. rewrite A by trivial. rewrite A' by (now rewrite (proj1 HM)). apply resc_logS.
    + rewrite B, B', D, D'. apply fit_line. intros j _. rewrite resc_logS. cbn [num_val]. f_equal. f_equal. ring.
  - intros r Hr. rewrite <- E0. cbn [sf_H]. rewrite !nth_seq_map by trivial.
    destruct (fit_line r (logS m (PyFloat 2) r) (logS m' (PyFloat 2) r) (2 * a) (2 * b)) as [-> _].
    { intros j _. rewrite resc_logS. cbn [num_val]. f_equal. f_equal. ring. }
    assert (X : forall x, xsub (xdiv (xadd x (Fin (2 * a))) (Fin 2)) (Fin (mq_gamint m'))
      = xadd (xsub (xdiv x (Fin 2)) (Fin (mq_gamint m))) (Fin (a - (mq_gamint m' - mq_gamint m)))); [|apply X].
    intros [x| | |]; cbn [xadd xdiv xsub xopp]; trivial.
    + destruct (Req_EM_T 2 0); [lra|]. unfold xsub. cbn [xadd xopp]. f_equal. field.
    + destruct (Rlt_dec 2 0); [lra|reflexivity].
    + destruct (Rlt_dec 2 0); [lra|reflexivity].
Qed.

Lemma resc_CUM n c : Cumulants m n j1 j2 wd = Ok c ->
  exists c', Cumulants m' n j1 j2 wd = Ok c' /\
    (forall k r j, (1 <= k <= n)%nat -> (r < nrep)%nat -> In j (scales m) ->
       at3 (cu_values c') (k - 1) r j = xadd (at3 (cu_values c) (k - 1) r j)
         (Fin (if Nat.eqb k 1 then (a * IZR j + b) * ln 2 else 0))) /\
    (forall k r, (1 <= k <= n)%nat -> (r < nrep)%nat ->
       at2 (cu_log_cumulants c') (k - 1) r = xadd (at2 (cu_log_cumulants c) (k - 1) r) (Fin (if Nat.eqb k 1 then a else 0))).
Proof.
  intros E. assert (HR' := rescaled_regular f m m' g nrep HM HR).
  assert (E' := CUM_eq m' g nrep HR' n j1 j2 wd H1 H2 H3).
  assert (V : forall k r j, (1 <= k <= n)%nat ->
     Cval m' n k r j = xadd (Cval m n k r j) (Fin (if Nat.eqb k 1 then (a * IZR j + b) * ln 2 else 0))).
  { intros k r j Hk. unfold Cval. rewrite (rescaled_column f m m') by trivial.
    rewrite cum_value_scale_all by (trivial; first [apply f_nz | now apply no_inf_column]). f_equal. f_equal.
    destruct k as [|[|k]]; [lia| |]; cbn [Nat.eqb]; [apply f_ln|reflexivity]. }
  eexists. split; [exact E'|]. split.
  - intros k r j Hk Hr Hj.
    destruct (CUM_rows m g nrep n j1 j2 wd c HR H1 H2 H3 E k r Hk Hr) as (A & _).
    destruct (CUM_rows m' g nrep n j1 j2 wd _ HR' H1 H2 H3 E' k r Hk Hr) as (A' & _).
    rewrite A by trivial. rewrite A' by (now rewrite (proj1 HM)). now apply V.
  - intros k r Hk Hr.
    destruct (CUM_rows m g nrep n j1 j2 wd c HR H1 H2 H3 E k r Hk Hr) as (_ & _ & _ & A).
    destruct (CUM_rows m' g nrep n j1 j2 wd _ HR' H1 H2 H3 E' k r Hk Hr) as (_ & _ & _ & A').
    rewrite A, A'.
    destruct (fit_line r (Cval m n k r) (Cval m' n k r) (if Nat.eqb k 1 then a * ln 2 else 0) (if Nat.eqb k 1 then b * ln 2 else 0)) as [-> _].
    { intros j Hj. rewrite V by trivial. f_equal. f_equal. destruct (Nat.eqb k 1); ring. }
    assert (P := ln2_pos).
    assert (PE : 0 < log2_e) by (unfold log2_e; rewrite log2_exp; apply Rdiv_lt_0_compat; lra).
    assert (LE : ln 2 * log2_e = 1) by (unfold log2_e; rewrite log2_exp; field; lra).
    destruct (fslope _ _ _ _ _ _); simpl; rewrite ?scale_inf_pos by trivial; trivial.
    f_equal. destruct (Nat.eqb k 1); [|ring]. rewrite Rmult_plus_distr_r, Rmult_assoc, LE. ring.
Qed.

Lemma resc_MFS q s : MultifractalSpectrum m j1 j2 wd q = Ok s ->
  exists s', MultifractalSpectrum m' j1 j2 wd q = Ok s' /\
    (forall i r, (i < length (q_items q))%nat -> (r < nrep)%nat -> at2 (ms_Dq s') i r = at2 (ms_Dq s) i r) /\
    (forall i r, (i < length (q_items q))%nat -> (r < nrep)%nat ->
       (forall j, (j1 <= j <= j2)%Z -> spectrum_defined (q_at q i) m j r) ->
       at2 (ms_hq s') i r = xadd (at2 (ms_hq s) i r) (Fin a)).
Proof.
  intros E. assert (HR' := rescaled_regular f m m' g nrep HM HR).
  assert (E' := MFS_eq m' g nrep HR' q j1 j2 wd H1 H2 H3).
  eexists. split; [exact E'|]. split.
  - intros i r Hi Hr.
    destruct (MFS_rows m g nrep q j1 j2 wd s HR H1 H2 H3 E i r Hi Hr) as (_ & A & _).
    destruct (MFS_rows m' g nrep q j1 j2 wd _ HR' H1 H2 H3 E' i r Hi Hr) as (_ & A' & _).
    rewrite A, A'. f_equal. unfold fslope. rewrite fit_same. f_equal. f_equal. apply fit3_ext. intros j _.
    unfold Uval. rewrite (rescaled_count f m m'), (rescaled_column f m m') by trivial.
    apply spec_U_scale; [apply f_nz|now apply no_inf_column].
  - intros i r Hi Hr HS.
    destruct (MFS_rows m g nrep q j1 j2 wd s HR H1 H2 H3 E i r Hi Hr) as (_ & _ & A).
    destruct (MFS_rows m' g nrep q j1 j2 wd _ HR' H1 H2 H3 E' i r Hi Hr) as (_ & _ & A').
    rewrite A, A'. apply (fit_line r _ _ a b). intros j Hj. unfold Vval. rewrite (rescaled_column f m m') by trivial.
    rewrite spec_V_scale; [now rewrite f_log|apply f_nz|now apply no_inf_column|]. exact (sd_s _ _ _ _ (HS j Hj)).
Qed.
Lemma resc_HMIN warn h : estimate_hmin m j1 j2 wd warn = Ok h ->
  exists h', estimate_hmin m' j1 j2 wd warn = Ok h' /\
    forall r, (r < nrep)%nat -> nth r (hm_hmin h') NaN = xadd (nth r (hm_hmin h) NaN) (Fin a).
Proof.
  intros E. assert (HR' := rescaled_regular f m m' g nrep HM HR).
  assert (NE := hmin_nonempty m g nrep j1 j2 wd warn h HR H1 H2 H3 E).
  rewrite (HMIN_rows m g nrep j1 j2 wd warn h HR H1 H2 H3 E).
  assert (E' := HMIN_eq m' g nrep HR' j1 j2 wd warn H1 H2 H3).
  eexists. split; [apply E'|].
  - intros j r Hj Hr. rewrite (rescaled_column f m m') by trivial. assert (K := NE j r Hj Hr). destruct (column m j r); [congruence|discriminate].
  - intros r Hr. cbn [hm_hmin]. rewrite !nth_seq_map by trivial. apply (fit_line r _ _ a b).
    intros j _. unfold lsup. rewrite (rescaled_column f m m') by trivial. rewrite lsup_scale by apply f_nz. now rewrite f_log.
Qed.
End Generic.

(** ** Transforms *)
Lemma forallb_map {X Y} (h : X -> Y) (t : Y -> bool) l : forallb t (map h l) = forallb (fun x => t (h x)) l.
Proof. induction l; simpl; congruence. Qed.
Lemma forallb_ext_in {X} (t t' : X -> bool) l : (forall x, In x l -> t x = t' x) -> forallb t l = forallb t' l.
Proof. intros H. induction l as [|x l IH]; simpl; trivial. rewrite H, IH; trivial; [|now left]. intros. apply H. now right. Qed.
Section TransformScale.
Variables (A : arr) (w : wavelet) (gam norm al : R) (p : pexp).
Hypothesis HA : Forall no_inf A.
Hypothesis Hw : good_wavelet w.
Hypothesis Hal : al <> 0.
Hypothesis Hp : pos_pexp p.
Let A' : arr := map (map (xmul (Fin al))) A.

Lemma sc_sig_len : sig_len A' = sig_len A.
Proof. unfold A', sig_len. destruct A as [|c B]; [reflexivity|]. apply map_length. Qed.
Lemma sc_nlev : nlev A' w = nlev A w.
Proof. unfold nlev. now rewrite sc_sig_len. Qed.
Lemma sc_okc j : okc (neg_hi w) (dec_lo w) A' j = okc (neg_hi w) (dec_lo w) A j.
Proof.
  unfold okc, A'. rewrite forallb_map. apply forallb_ext_in. intros c _.
  change (map (xmul (Fin al)) c) with (scl al c). now rewrite detail_scl, count_valid_scl.
Qed.
Lemma sc_lead f c j : no_inf c ->
  lead_of (neg_hi w) (dec_lo w) norm gam f p j (scl al c) = scl (Rabs al) (lead_of (neg_hi w) (dec_lo w) norm gam f p j c).
Proof.
  intros N. unfold lead_of. apply lead_scl; trivial.
  - intros i. unfold cf. now apply coef_no_inf.
  - intros i. unfold cf. apply coef_scl.
Qed.
Lemma sc_okl f j : okl (neg_hi w) (dec_lo w) norm gam A' f p j = okl (neg_hi w) (dec_lo w) norm gam A f p j.
Proof.
  unfold okl, A'. rewrite forallb_map. apply forallb_ext_in. intros c Hc. rewrite Forall_forall in HA.
  change (map (xmul (Fin al)) c) with (scl al c). rewrite sc_lead by auto. rewrite count_valid_scl; trivial. now apply Rabs_no_R0.
Qed.
Lemma sc_gcount : gcount A' p w gam norm = gcount A p w gam norm.
Proof.
  assert (O := sc_okc). assert (Q := sc_okl).
  unfold gcount. rewrite sc_nlev. destruct p; apply run_ext; intros j _.
  - apply O.
  - unfold okb. now rewrite O, Q.
  - unfold okb. now rewrite O, Q.
Qed.
Lemma sc_ccount : ccount A' p w gam norm = ccount A p w gam norm.
Proof. unfold ccount. rewrite sc_gcount, sc_nlev. destruct p; trivial; now rewrite sc_okc. Qed.
Lemma sc_jeff j2 : jeff A' p w gam norm j2 = jeff A p w gam norm j2.
Proof. unfold jeff. now rewrite sc_gcount, sc_nlev. Qed.
Lemma sc_Cf j : Cf A' w gam norm j = map (map (xmul (Fin al))) (Cf A w gam norm j).
Proof.
  unfold Cf, coef_arr, A'. rewrite !map_map. apply map_ext. intros c. exact (coef_scl _ _ _ _ _ al c).
Qed.
Lemma sc_Ld j : Ld A' p w gam norm j = map (map (xmul (Fin (Rabs al)))) (Ld A p w gam norm j).
Proof.
  unfold Ld, lead_arr, A'. rewrite !map_map. apply map_ext_in. intros c Hc. rewrite Forall_forall in HA.
  apply (sc_lead (check_formalism p) c j). auto.
Qed.
End TransformScale.
Lemma rescaled_table f fm gam fm' gam' (T T' N N' : nat -> arr) g :
  (forall j, (1 <= j <= g)%nat -> T' j = map (map (xmul (Fin (f (Z.of_nat j))))) (T j)) ->
  (forall j, (1 <= j <= g)%nat -> map count_valid (N' j) = map count_valid (N j)) ->
  rescaled f (mkMRQ fm gam (table T g) (njtable N g)) (mkMRQ fm' gam' (table T' g) (njtable N' g)).
Proof.
  intros H C. split; [|split].
  - unfold scales. cbn [mq_values]. now rewrite !table_keys.
  - cbn [mq_nj]. now apply njtable_ext.
  - intros j a E. cbn [mq_values] in *. apply table_get_inv in E as (i & -> & Hi & ->). rewrite table_get by trivial. now rewrite H.
Qed.

(** the quantities of a transform: regular, free of infinities *)
Lemma coefs_no_inf A w gam norm g fm : Forall no_inf A -> no_infinities (mrq_of fm gam (Cf A w gam norm) g).
Proof.
  intros HA j a E. unfold mrq_of in E. cbn [mq_values] in E. apply table_get_inv in E as (i & -> & _ & ->).
  unfold Cf, coef_arr. rewrite Forall_map. apply (Forall_impl _ (P := no_inf)); trivial. intros c. apply coef_no_inf.
Qed.
Lemma xmul_pos_assoc k x y : 0 < k -> xmul (xmul (Fin k) x) y = xmul (Fin k) (xmul x y).
Proof.
  intros K.
  assert (S : forall r i, i = PInf \/ i = NInf -> scale_inf (k * r) i = xmul (Fin k) (scale_inf r i) /\
      scale_inf r i = xmul (Fin k) (scale_inf r i)).
  { intros r i Hi. unfold scale_inf. destruct (Req_EM_T r 0) as [->|N].
    - rewrite Rmult_0_r. destruct (Req_EM_T 0 0); [auto|lra].
    - destruct (Req_EM_T (k * r) 0) as [E|_]; [apply Rmult_integral in E; lra|].
      destruct (Rlt_dec 0 r) as [P|P]; destruct (Rlt_dec 0 (k * r)) as [Q|Q]; try (exfalso; nra);
        destruct Hi; subst i; cbn [xopp xmul]; rewrite ?(scale_inf_pos k) by trivial; auto. }
  destruct x as [x| | |], y as [y| | |]; cbn [xmul]; rewrite ?(scale_inf_pos k) by trivial; cbn [xmul xopp];
    rewrite ?(scale_inf_pos k) by trivial; trivial; try (f_equal; ring).
  - etransitivity; [exact (proj1 (S x PInf (or_introl eq_refl)))|]. destruct (scale_inf _ _); cbn [xmul]; rewrite ?(scale_inf_pos k) by trivial; reflexivity.
  - etransitivity; [exact (proj1 (S x NInf (or_intror eq_refl)))|]. destruct (scale_inf _ _); cbn [xmul]; rewrite ?(scale_inf_pos k) by trivial; reflexivity.
  - etransitivity; [exact (proj2 (S y PInf (or_introl eq_refl)))|]. destruct (scale_inf _ _); cbn [xmul]; rewrite ?(scale_inf_pos k) by trivial; reflexivity.
  - etransitivity; [exact (proj2 (S y NInf (or_intror eq_refl)))|]. destruct (scale_inf _ _); cbn [xmul]; rewrite ?(scale_inf_pos k) by trivial; reflexivity.
Qed.

(** ** C30: amplitude *)
Theorem C30_transform :
  forall (A : arr) (w : wavelet) (p : pexp) (j1 : Z) (j2 : option R) (gam norm al : R) (weighted : bool) t ws,
  Forall no_inf A -> good_wavelet w -> norm <> 0 -> pos_pexp p -> al <> 0 ->
  wavelet_analysis A p w j1 j2 gam norm weighted = Ok (t, ws) ->
  (match p with PNum _ => (1 <= j1 <= j2_eff t)%Z | _ => True end) ->
  exists t', wavelet_analysis (map (map (xmul (Fin al))) A) p w j1 j2 gam norm weighted = Ok (t', ws) /\
    j2_eff t' = j2_eff t /\ eta_p t' = eta_p t /\
    rescaled (fun _ => al) (wt_coefs t) (wt_coefs t') /\
    match wt_leaders t, wt_leaders t' with
    | Some l, Some l' => rescaled (fun _ => Rabs al) l l'
    | None, None => True
    | _, _ => False
    end.
Proof.
  intros A w p j1 j2 gam norm al wd t ws HA Hw Hn Hp Hal H HJ.
  assert (AP := Rabs_pos_lt al Hal).
  apply wa_inv in H as (eta & Ee & -> & -> & Em & El & HNE); trivial; [|now apply pos_p_ok].
  set (A' := map (map (xmul (Fin al))) A).
  assert (RC : rescaled (fun _ => al) (mrq_of WaveletCoef gam (Cf A w gam norm) (ccount A p w gam norm))
                 (mrq_of WaveletCoef gam (Cf A' w gam norm) (ccount A' p w gam norm))).
  { unfold A'. rewrite sc_ccount by trivial. apply rescaled_table.
    - intros j _. apply sc_Cf.
    - intros j _. rewrite sc_Cf, map_map. apply map_ext. intros c. now apply (count_valid_scl al c). }
  assert (Ee' : eta_of A' p w j1 j2 gam norm wd = Ok eta).
  { destruct p as [| |e]; trivial. cbn [the_wt j2_eff] in HJ. rewrite eta_of_eq in Ee by trivial.
    rewrite eta_of_eq by (unfold A'; rewrite sc_jeff by trivial; exact HJ).
    destruct (Req_EM_T (num_val e) 2); [|discriminate]. rewrite <- Ee. f_equal.
    match goal with |- map _ (seq 0 ?x) = _ => replace x with (length A) by (symmetry; apply map_length) end. apply map_ext_in. intros r Hr. apply in_seq in Hr.
    assert (J := jeff_le A (PNum e) w gam norm j2).
    assert (EJ : jeff A' (PNum e) w gam norm j2 = jeff A (PNum e) w gam norm j2) by (unfold A'; now apply sc_jeff). rewrite EJ.
    refine (eq_trans (proj1 (fit_line (fun _ => al) _ _ j1 (jeff A (PNum e) w gam norm j2) wd RC (proj2 HJ) r
      (logS (mrq_of WaveletCoef gam (Cf A w gam norm) (ccount A (PNum e) w gam norm)) (PyFloat (num_val e)) r) _ 0 (num_val e * log2R (Rabs al)) _)) _).
    - intros j _. unfold logS. rewrite (rescaled_column _ _ _ _ _ RC).
      rewrite log_sf_scale; trivial; [|apply no_inf_column; now apply coefs_no_inf].
      f_equal. f_equal. cbn [num_val]. ring.
    - destruct (fslope _ _ _ _ _ _); simpl; trivial. f_equal. ring. }
  exists (the_wt A' p w j2 gam norm eta). split; [|split; [|split; [|split]]].
  - rewrite wa_eq by (trivial; now apply pos_p_ok). unfold wa_closed. unfold A' at 1. rewrite sc_sig_len, El by trivial. cbn [bind].
    rewrite Ee'. cbn [bind]. assert (LW : level_warns A' w j2 = level_warns A w j2) by (unfold level_warns, A'; now rewrite sc_nlev).
    rewrite LW. destruct p; [reflexivity|reflexivity|]. now rewrite Em.
  - cbn [the_wt j2_eff]. unfold A'. now apply sc_jeff.
  - reflexivity.
  - exact RC.
  - cbn [the_wt wt_leaders]. destruct p as [| |e]; trivial.
    + unfold A'. rewrite sc_gcount by trivial. apply rescaled_table.
      * intros j _. now apply sc_Ld.
      * intros j _. rewrite sc_Ld, map_map by trivial. apply map_ext. intros c. apply (count_valid_scl (Rabs al) c). lra.
    + unfold A'. rewrite sc_gcount by trivial. apply rescaled_table.
      * intros j _. rewrite sc_Ld by trivial. unfold corr_arr. generalize (Ld A (PNum e) w gam norm j). intros B.
        clear - AP. revert eta. induction B as [|c B IH]; intros [|h eta]; trivial. cbn [map]. rewrite !map2_cons. cbn [map]. rewrite IH. f_equal.
        rewrite !map_map. apply map_ext. intros x. now apply xmul_pos_assoc.
      * intros j _. rewrite sc_Ld, map_map by trivial. apply map_ext. intros c. apply (count_valid_scl (Rabs al) c). lra.
Qed.
Print Assumptions C30_transform.

Lemma xadd_F0 x : xadd x (Fin 0) = x.
Proof. destruct x; simpl; trivial. f_equal. ring. Qed.
Lemma const_power al : al <> 0 -> Rabs al = Rpower 2 (0 * 0 + log2R (Rabs al)).
Proof.
  intros H. rewrite Rmult_0_l, Rplus_0_l. unfold log2R, Rpower.
  replace (ln (Rabs al) / ln 2 * ln 2) with (ln (Rabs al)) by (field; assert (P := ln2_pos); lra).
  rewrite exp_ln; trivial. now apply Rabs_pos_lt.
Qed.
Lemma const_f al : al <> 0 -> forall j : Z, Rabs ((fun _ : Z => al) j) = Rpower 2 (0 * IZR j + log2R (Rabs al)).
Proof. intros H j. cbn beta. rewrite (const_power al H) at 1. f_equal. ring. Qed.

Theorem C30_structure_functions :
  forall m m' g nrep al qs j1 j2 wd s,
  al <> 0 -> rescaled (fun _ => al) m m' -> mq_gamint m' = mq_gamint m ->
  regular m g nrep -> no_infinities m -> (1 <= j1)%Z -> (j1 <= j2)%Z -> (j2 <= Z.of_nat g)%Z ->
  StructureFunction m (QArr qs) j1 j2 wd = Ok s ->
  exists s', StructureFunction m' (QArr qs) j1 j2 wd = Ok s' /\
    (forall i r, (i < length qs)%nat -> (r < nrep)%nat ->
      at2 (sf_zeta s') i r = at2 (sf_zeta s) i r /\
      forall j, In j (scales m) -> at3 (sf_logvalues s') i r j
        = xadd (at3 (sf_logvalues s) i r j) (Fin (nth i qs 0 * (ln (Rabs al) / ln 2)))) /\
    (forall r, (r < nrep)%nat -> nth r (sf_H s') NaN = nth r (sf_H s) NaN).
Proof.
  intros m m' g nrep al qs j1 j2 wd s Ha HM HG HR HN H1 H2 H3 E.
  destruct (resc_SF _ 0 (log2R (Rabs al)) m m' g nrep j1 j2 wd (const_f al Ha) HM HN HR H1 H2 H3 qs s E) as (s' & E' & R1 & R2).
  exists s'. split; [trivial|]. split.
  - intros i r Hi Hr. destruct (R1 i r Hi Hr) as (B & C & _). split.
    + rewrite C, Rmult_0_r. apply xadd_F0.
    + intros j Hj. rewrite B by trivial. f_equal. f_equal. unfold log2R. ring.
  - intros r Hr. rewrite R2 by trivial. rewrite HG.
    replace (0 - (mq_gamint m - mq_gamint m)) with 0 by ring. apply xadd_F0.
Qed.
Print Assumptions C30_structure_functions.

Theorem C30_cumulants :
  forall m m' g nrep al n j1 j2 wd c,
  al <> 0 -> rescaled (fun _ => al) m m' ->
  regular m g nrep -> no_infinities m -> (1 <= j1)%Z -> (j1 <= j2)%Z -> (j2 <= Z.of_nat g)%Z ->
  Cumulants m n j1 j2 wd = Ok c ->
  exists c', Cumulants m' n j1 j2 wd = Ok c' /\
    (forall k r j, (1 <= k <= n)%nat -> (r < nrep)%nat -> In j (scales m) ->
       at3 (cu_values c') (k - 1) r j
       = xadd (at3 (cu_values c) (k - 1) r j) (Fin (if Nat.eqb k 1 then ln (Rabs al) else 0))) /\
    (forall k r, (1 <= k <= n)%nat -> (r < nrep)%nat ->
       at2 (cu_log_cumulants c') (k - 1) r = at2 (cu_log_cumulants c) (k - 1) r).
Proof.
  intros m m' g nrep al n j1 j2 wd c Ha HM HR HN H1 H2 H3 E.
  destruct (resc_CUM _ 0 (log2R (Rabs al)) m m' g nrep j1 j2 wd (const_f al Ha) HM HN HR H1 H2 H3 n c E) as (c' & E' & R1 & R2).
  exists c'. split; [trivial|]. split.
  - intros k r j Hk Hr Hj. rewrite R1 by trivial. f_equal. f_equal. destruct (Nat.eqb k 1); trivial.
    unfold log2R. field. assert (P := ln2_pos). lra.
  - intros k r Hk Hr. rewrite R2 by trivial. destruct (Nat.eqb k 1); apply xadd_F0.
Qed.
Print Assumptions C30_cumulants.

Theorem C30_spectrum :
  forall m m' g nrep al q j1 j2 wd s,
  al <> 0 -> rescaled (fun _ => al) m m' ->
  regular m g nrep -> no_infinities m -> (1 <= j1)%Z -> (j1 <= j2)%Z -> (j2 <= Z.of_nat g)%Z ->
  MultifractalSpectrum m j1 j2 wd q = Ok s ->
  exists s', MultifractalSpectrum m' j1 j2 wd q = Ok s' /\
    forall i r, (i < length (q_items q))%nat -> (r < nrep)%nat ->
      at2 (ms_Dq s') i r = at2 (ms_Dq s) i r /\
      ((forall j, (j1 <= j <= j2)%Z -> spectrum_defined (q_at q i) m j r) ->
       at2 (ms_hq s') i r = at2 (ms_hq s) i r).
Proof.
  intros m m' g nrep al q j1 j2 wd s Ha HM HR HN H1 H2 H3 E.
  destruct (resc_MFS _ 0 (log2R (Rabs al)) m m' g nrep j1 j2 wd (const_f al Ha) HM HN HR H1 H2 H3 q s E) as (s' & E' & R1 & R2).
  exists s'. split; [trivial|]. intros i r Hi Hr. split; [now apply R1|]. intros HS. rewrite R2 by trivial. apply xadd_F0.
Qed.
Print Assumptions C30_spectrum.

Theorem C30_hmin :
  forall m m' g nrep al j1 j2 wd warn h,
  al <> 0 -> rescaled (fun _ => al) m m' ->
  regular m g nrep -> (1 <= j1)%Z -> (j1 <= j2)%Z -> (j2 <= Z.of_nat g)%Z ->
  estimate_hmin m j1 j2 wd warn = Ok h ->
  exists h', estimate_hmin m' j1 j2 wd warn = Ok h' /\
    forall r, (r < nrep)%nat -> nth r (hm_hmin h') NaN = nth r (hm_hmin h) NaN.
Proof.
  intros m m' g nrep al j1 j2 wd warn h Ha HM HR H1 H2 H3 E.
  destruct (resc_HMIN _ 0 (log2R (Rabs al)) m m' g nrep j1 j2 wd (const_f al Ha) HM HR H1 H2 H3 warn h E) as (h' & E' & R1).
  exists h'. split; [trivial|]. intros r Hr. rewrite R1 by trivial. apply xadd_F0.
Qed.
Print Assumptions C30_hmin.

(** The coefficients (any p) and leaders (p = inf) of a transform meet the
    hypotheses of the four theorems above *)
Lemma leads_no_inf A w p gam norm g fm : Forall no_inf A -> pos_pexp p -> no_infinities (mrq_of fm gam (Ld A p w gam norm) g).
Proof.
  intros HA Hp j a E. unfold mrq_of in E. cbn [mq_values] in E. apply table_get_inv in E as (i & -> & _ & ->).
  unfold Ld, lead_arr. rewrite Forall_map. apply (Forall_impl _ (P := no_inf)); trivial. intros c Hc.
  apply nonneg_no_inf. unfold lead_of, lead. apply post_nonneg; trivial. apply raw_lead_nonneg; trivial.
  intros k. unfold cf. now apply coef_no_inf.
Qed.
Theorem C30_applies :
  forall (A : arr) (w : wavelet) (p : pexp) (j1 : Z) (j2 : option R) (gam norm : R) (weighted : bool) t ws,
  Forall no_inf A -> good_wavelet w -> norm <> 0 -> pos_pexp p ->
  wavelet_analysis A p w j1 j2 gam norm weighted = Ok (t, ws) -> (1 <= j2_eff t)%Z ->
  (exists g, regular (wt_coefs t) g (length A) /\ (j2_eff t <= Z.of_nat g)%Z) /\
  no_infinities (wt_coefs t) /\ mq_gamint (wt_coefs t) = gam /\
  (p = PInfty -> exists l g, wt_leaders t = Some l /\ regular l g (length A) /\ (j2_eff t <= Z.of_nat g)%Z /\
     no_infinities l /\ mq_gamint l = gam).
Proof.
  intros A w p j1 j2 gam norm wd t ws HA Hw Hn Hp H HJ.
  apply wa_inv in H as (eta & _ & -> & _ & _ & _ & HNE); trivial; [|now apply pos_p_ok].
  cbn [the_wt j2_eff wt_coefs wt_leaders] in *. assert (J := jeff_le A p w gam norm j2). assert (G := gcount_le_ccount A p w gam norm).
  split; [|split; [|split]].
  - exists (ccount A p w gam norm). split; [apply coefs_regular; lia|lia].
  - now apply coefs_no_inf.
  - reflexivity.
  - intros ->. exists (mrq_of WaveletLeader gam (Ld A PInfty w gam norm) (gcount A PInfty w gam norm)), (gcount A PInfty w gam norm).
    split; [reflexivity|]. split; [apply table_regular; [lia|intros; apply Ld_length]|]. split; [exact J|].
    split; [now apply leads_no_inf|reflexivity].
Qed.
Print Assumptions C30_applies.

(** End to end: structure functions of the coefficients of a rescaled signal *)
Theorem C30_signal_exponents :
  forall (A : arr) (w : wavelet) (p : pexp) (j1 : Z) (j2 : option R) (gam norm al : R) (weighted wd : bool) t ws qs s,
  Forall no_inf A -> good_wavelet w -> norm <> 0 -> pos_pexp p -> al <> 0 ->
  wavelet_analysis A p w j1 j2 gam norm weighted = Ok (t, ws) -> (1 <= j1 <= j2_eff t)%Z ->
  StructureFunction (wt_coefs t) (QArr qs) j1 (j2_eff t) wd = Ok s ->
  exists t' s', wavelet_analysis (map (map (xmul (Fin al))) A) p w j1 j2 gam norm weighted = Ok (t', ws) /\
    StructureFunction (wt_coefs t') (QArr qs) j1 (j2_eff t') wd = Ok s' /\
    forall i r, (i < length qs)%nat -> (r < length A)%nat ->
      at2 (sf_zeta s') i r = at2 (sf_zeta s) i r /\ nth r (sf_H s') NaN = nth r (sf_H s) NaN.
Proof.
  intros A w p j1 j2 gam norm al wt wd t ws qs s HA Hw Hn Hp Ha H HJ E.
  destruct (C30_applies A w p j1 j2 gam norm wt t ws HA Hw Hn Hp H ltac:(lia)) as ((g & HR & Hg) & HN & HG & _).
  destruct (C30_transform A w p j1 j2 gam norm al wt t ws HA Hw Hn Hp Ha H) as (t' & H' & Ej & _ & HM & _); [now destruct p|].
  assert (HG' : mq_gamint (wt_coefs t') = gam).
  { apply wa_inv in H' as (eta & _ & -> & _); trivial. now apply pos_p_ok. }
  destruct (C30_structure_functions _ _ g (length A) al qs j1 (j2_eff t) wd s Ha HM ltac:(congruence) HR HN ltac:(lia) ltac:(lia) Hg E) as (s' & E' & R1 & R2).
  exists t', s'. split; [trivial|]. split; [now rewrite Ej|]. intros i r Hi Hr. split; [now apply R1|now apply R2].
Qed.
Print Assumptions C30_signal_exponents.

(** ** C31: fractional integration *)
Theorem C31_coefficients :
  forall (A : arr) (w : wavelet) (p : pexp) (j1 : Z) (j2 : option R) (gam gam' norm : R) (weighted : bool) t ws t' ws',
  Forall no_inf A -> good_wavelet w -> norm <> 0 -> pos_pexp p ->
  wavelet_analysis A p w j1 j2 gam norm weighted = Ok (t, ws) ->
  wavelet_analysis A p w j1 j2 gam' norm weighted = Ok (t', ws') ->
  j2_eff t' = j2_eff t /\ ws' = ws /\
  rescaled (fun j => Rpower 2 ((gam' - gam) * IZR j)) (wt_coefs t) (wt_coefs t').
Proof.
  intros A w p j1 j2 gam gam' norm wd t ws t' ws' HA Hw Hn Hp H H'.
  apply wa_inv in H as (eta & _ & -> & -> & _ & _ & HNE); trivial; [|now apply pos_p_ok].
  apply wa_inv in H' as (eta' & _ & -> & -> & _); trivial; [|now apply pos_p_ok].
  cbn [the_wt j2_eff wt_coefs].
  assert (L : forall j, okl (neg_hi w) (dec_lo w) norm gam' A (check_formalism p) p j = okl (neg_hi w) (dec_lo w) norm gam A (check_formalism p) p j).
  { intros j. unfold okl. apply forallb_ext_in. intros c Hc. f_equal. apply count_valid_pat. unfold lead_of.
    rewrite Forall_forall in HA. apply lead_pat; trivial; intros i; unfold cf; try (apply coef_no_inf; now auto). now rewrite !coef_pat. }
  assert (G : gcount A p w gam' norm = gcount A p w gam norm).
  { unfold gcount. destruct p; apply run_ext; intros j _; trivial; unfold okb; now rewrite L. }
  assert (C : ccount A p w gam' norm = ccount A p w gam norm) by (unfold ccount; now rewrite G).
  split; [unfold jeff; now rewrite G|]. split; [reflexivity|]. rewrite C.
  assert (K : forall j c, coef (neg_hi w) (dec_lo w) norm gam' j c
    = scl (Rpower 2 ((gam' - gam) * IZR (Z.of_nat j))) (coef (neg_hi w) (dec_lo w) norm gam j c)).
  { intros j c. unfold coef. rewrite !rescale_eq. unfold scl. rewrite map_map. apply map_ext. intros x.
    rewrite xmul_Fin_assoc, <- Rpower_plus. f_equal. f_equal. f_equal. ring. }
  apply rescaled_table.
  - intros j _. unfold Cf, coef_arr. rewrite map_map. apply map_ext. intros c. apply K.
  - intros j _. unfold Cf, coef_arr. rewrite !map_map. apply map_ext. intros c. rewrite K. apply count_valid_scl, Rpower_neq0.
Qed.
Print Assumptions C31_coefficients.
Lemma pow_f d : forall j : Z, Rabs ((fun j => Rpower 2 (d * IZR j)) j) = Rpower 2 (d * IZR j + 0).
Proof. intros j. cbn beta. rewrite Rplus_0_r. apply Rabs_right. left. apply Rpower_pos. Qed.

Theorem C31_estimates :
  forall (A : arr) (w : wavelet) (p : pexp) (j1 : Z) (j2 : option R) (gam gam' norm : R) (weighted wd : bool) t ws t' ws',
  Forall no_inf A -> good_wavelet w -> norm <> 0 -> pos_pexp p ->
  wavelet_analysis A p w j1 j2 gam norm weighted = Ok (t, ws) ->
  wavelet_analysis A p w j1 j2 gam' norm weighted = Ok (t', ws') -> (1 <= j1 <= j2_eff t)%Z ->
  let d := gam' - gam in
  let m := wt_coefs t in
  (* zeta(q) -> zeta(q) + q d, H unchanged *)
  (forall qs s, StructureFunction m (QArr qs) j1 (j2_eff t) wd = Ok s ->
     exists s', StructureFunction (wt_coefs t') (QArr qs) j1 (j2_eff t') wd = Ok s' /\
     forall i r, (i < length qs)%nat -> (r < length A)%nat ->
       at2 (sf_zeta s') i r = xadd (at2 (sf_zeta s) i r) (Fin (nth i qs 0 * d)) /\
       nth r (sf_H s') NaN = nth r (sf_H s) NaN) /\
  (* c_1 -> c_1 + d, c_k unchanged for k >= 2 *)
  (forall n c, Cumulants m n j1 (j2_eff t) wd = Ok c ->
     exists c', Cumulants (wt_coefs t') n j1 (j2_eff t') wd = Ok c' /\
     forall k r, (1 <= k <= n)%nat -> (r < length A)%nat ->
       at2 (cu_log_cumulants c') (k - 1) r
       = if Nat.eqb k 1 then xadd (at2 (cu_log_cumulants c) (k - 1) r) (Fin d) else at2 (cu_log_cumulants c) (k - 1) r) /\
  (* D(q) unchanged, h(q) -> h(q) + d *)
  (forall q s, MultifractalSpectrum m j1 (j2_eff t) wd q = Ok s ->
     exists s', MultifractalSpectrum (wt_coefs t') j1 (j2_eff t') wd q = Ok s' /\
     forall i r, (i < length (q_items q))%nat -> (r < length A)%nat ->
       at2 (ms_Dq s') i r = at2 (ms_Dq s) i r /\
       ((forall j, (j1 <= j <= j2_eff t)%Z -> spectrum_defined (q_at q i) m j r) ->
        at2 (ms_hq s') i r = xadd (at2 (ms_hq s) i r) (Fin d))) /\
  (* hmin -> hmin + d *)
  (forall warn h, estimate_hmin m j1 (j2_eff t) wd warn = Ok h ->
     exists h', estimate_hmin (wt_coefs t') j1 (j2_eff t') wd warn = Ok h' /\
     forall r, (r < length A)%nat -> nth r (hm_hmin h') NaN = xadd (nth r (hm_hmin h) NaN) (Fin d)).
Proof.
  intros A w p j1 j2 gam gam' norm wt wd t ws t' ws' HA Hw Hn Hp H H' HJ d m.
  destruct (C31_coefficients A w p j1 j2 gam gam' norm wt t ws t' ws' HA Hw Hn Hp H H') as (Ej & _ & HM).
  destruct (C30_applies A w p j1 j2 gam norm wt t ws HA Hw Hn Hp H ltac:(lia)) as ((g & HR & Hg) & HN & HG & _).
  destruct (C30_applies A w p j1 j2 gam' norm wt t' ws' HA Hw Hn Hp H' ltac:(lia)) as (_ & _ & HG' & _).
  rewrite Ej. fold m in HR, HN, HG, HM.
  assert (PF := pow_f d). split; [|split; [|split]].
  - intros qs s E. destruct (resc_SF _ d 0 m _ g (length A) j1 (j2_eff t) wd PF HM HN HR ltac:(lia) ltac:(lia) Hg qs s E) as (s' & E' & R1 & R2).
    exists s'. split; [trivial|]. intros i r Hi Hr. split; [now apply R1|]. rewrite R2 by trivial. rewrite HG, HG'.
    replace (d - (gam' - gam)) with 0 by (unfold d; ring). apply xadd_F0.
  - intros n c E. destruct (resc_CUM _ d 0 m _ g (length A) j1 (j2_eff t) wd PF HM HN HR ltac:(lia) ltac:(lia) Hg n c E) as (c' & E' & _ & R2).
    exists c'. split; [trivial|]. intros k r Hk Hr. rewrite R2 by trivial. destruct (Nat.eqb k 1); trivial. apply xadd_F0.
  - intros q s E. destruct (resc_MFS _ d 0 m _ g (length A) j1 (j2_eff t) wd PF HM HN HR ltac:(lia) ltac:(lia) Hg q s E) as (s' & E' & R1 & R2).
    exists s'. split; [trivial|]. intros i r Hi Hr. split; [now apply R1|]. intros HS. now apply R2.
  - intros warn h E. destruct (resc_HMIN _ d 0 m _ g (length A) j1 (j2_eff t) wd PF HM HR ltac:(lia) ltac:(lia) Hg warn h E) as (h' & E' & R1).
    exists h'. split; [trivial|]. exact R1.
Qed.
Print Assumptions C31_estimates.

(** ** Non-vacuity: the ramp signal, p = 2, rescaled by -3 and integrated *)
Example C30_case wd : exists t t', 
  wavelet_analysis [fin PropsLeaders.ramp] (PNum (PyInt 2)) PropsWavelet.haar 1 None 0 1 wd = Ok (t, []) /\
  wavelet_analysis [scl (-3) (fin PropsLeaders.ramp)] (PNum (PyInt 2)) PropsWavelet.haar 1 None 0 1 wd = Ok (t', []) /\
  eta_p t' = Some [Fin 3] /\ j2_eff t' = 2%Z /\ rescaled (fun _ => -3) (wt_coefs t) (wt_coefs t').
Proof.
  destruct (PropsLeaders.C27_case wd) as (t & E & Ee & Ej & _).
  destruct (C30_transform [fin PropsLeaders.ramp] PropsWavelet.haar (PNum (PyInt 2)) 1 None 0 1 (-3) wd t []) as (t' & E' & Ej' & Ee' & HM & _).
  - constructor; [apply no_inf_fin|constructor].
  - exact PropsWavelet.good_haar.
  - exact R1_neq_R0.
  - simpl. lra.
  - lra.
  - exact E.
  - lia.
  - exists t, t'. split; [exact E|]. split; [exact E'|]. split; [congruence|]. split; [congruence|exact HM].
Qed.
Example C31_case wd : exists t t',
  wavelet_analysis [fin PropsLeaders.ramp] PInfty PropsWavelet.haar 1 None 0 1 wd = Ok (t, []) /\
  wavelet_analysis [fin PropsLeaders.ramp] PInfty PropsWavelet.haar 1 None (1/2) 1 wd = Ok (t', []) /\
  j2_eff t' = 2%Z /\ rescaled (fun j => Rpower 2 ((1/2 - 0) * IZR j)) (wt_coefs t) (wt_coefs t').
Proof.
  assert (H : forall gam, exists t, wavelet_analysis [fin PropsLeaders.ramp] PInfty PropsWavelet.haar 1 None gam 1 wd = Ok (t, []) /\ j2_eff t = 2%Z).
  { intros gam. destruct (PropsLeaders.haar_count gam PInfty I eq_refl) as (_ & _ & J' & _).
    rewrite wa_eq by (try exact PropsWavelet.good_haar; try exact R1_neq_R0; exact I). unfold wa_closed.
    change (decomposition_level (sig_len [fin PropsLeaders.ramp]) (length (dec_hi PropsWavelet.haar))) with (decomposition_level 24 2).
    rewrite PropsWavelet.level_24_2. cbn [bind eta_of]. eexists. split; [reflexivity|exact J']. }
  destruct (H 0) as (t & E & J), (H (1/2)) as (t' & E' & J').
  exists t, t'. split; [trivial|]. split; [trivial|]. split; [trivial|].
  eapply C31_coefficients; try exact E; try exact E'.
  - constructor; [apply no_inf_fin|constructor].
  - exact PropsWavelet.good_haar.
  - exact R1_neq_R0.
  - exact I.
Qed.
