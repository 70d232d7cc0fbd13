(** * Properties C37-C42: multifractal spectrum, monofractals, hmin, Hurst *)
From Coq Require Import Reals List ZArith Bool Lra Lia String.
From Verif Require Import XReal PyBase ModelUtils ModelMRQ ModelStructure ModelCumulants ModelSpectrum ModelEstimation Spec SpecMRQ LXReal LReg LUtils LBase LPattern LEst LMoment LCum LEntropy PropsEstimators PropsCumulants.
Import ListNotations.
Open Scope R_scope.

(** the i-th exponent of the argument q *)
Definition q_at (q : qarg) (i : nat) : R := num_val (nth i (q_items q) (PyFloat 0)).
(** q can be used in the spectrum at scale j: some value is not zero, and q > 0
    unless no value is zero *)
Definition spectrum_defined (q : R) (m : mrq) (j : Z) (r : nat) : Prop :=
  usable m j r /\ (0 < q \/ no_zero m j r) /\ Exists (fun a => a <> 0) (numbers m j r).

Lemma MFS_rows m g nrep q j1 j2 wd s :
  regular m g nrep -> (1 <= j1)%Z -> (j1 <= j2)%Z -> (j2 <= Z.of_nat g)%Z ->
  MultifractalSpectrum m j1 j2 wd q = Ok s ->
  forall i r, (i < List.length (q_items q))%nat -> (r < nrep)%nat ->
    let e := nth i (q_items q) (PyFloat 0) in
    (forall j, In j (scales m) -> at3 (ms_U s) i r j = Uval m e r j /\ at3 (ms_V s) i r j = Vval m e r j) /\
    at2 (ms_Dq s) i r = xadd (Fin 1) (fslope wd m j1 j2 r (Uval m e r)) /\
    at2 (ms_hq s) i r = fslope wd m j1 j2 r (Vval m e r).
Proof.
  intros HR H1 H2 H3 E i r Hi Hr e. rewrite (MFS_eq m g nrep HR) in E by trivial. injection E as <-.
  cbn [ms_U ms_V ms_Dq ms_hq]. split; [|split].
  - intros j Hj. rewrite (proj1 (proj2 HR)) in Hj. split.
    + now rewrite (at3_map (fun e r => Uval m e r) (q_items q) nrep g i r j (PyFloat 0)).
    + now rewrite (at3_map (fun e r => Vval m e r) (q_items q) nrep g i r j (PyFloat 0)).
  - exact (at2_map (fun e r => xadd (Fin 1) (fslope wd m j1 j2 r (Uval m e r))) (q_items q) nrep i r (PyFloat 0) Hi Hr).
  - exact (at2_map (fun e r => fslope wd m j1 j2 r (Vval m e r)) (q_items q) nrep i r (PyFloat 0) Hi Hr).
Qed.
Lemma count_numbers m j r : counted m -> In j (scales m) -> usable m j r -> count m j r = List.length (numbers m j r).
Proof.
  intros HC Hj [U _]. destruct (dict_get_Some (mq_values m) j Hj) as [a Ha].
  unfold count, numbers, column in *. rewrite Ha in *. rewrite (HC j a Ha).
  transitivity (count_valid (nth r a [])); [|now apply count_valid_reals]. apply (map_nth count_valid a [] r).
Qed.
Lemma sd_s q m j r : spectrum_defined q m j r -> s_defined q (numbers m j r).
Proof. intros (_ & A & B). split; trivial. Qed.
Lemma Uval_eq m e r j : counted m -> In j (scales m) -> spectrum_defined (num_val e) m j r ->
  Uval m e r j = Fin (log2R (INR (List.length (numbers m j r))) + Hr (num_val e) (numbers m j r)).
Proof.
  intros HC Hj S. assert (U := proj1 S). unfold Uval. rewrite count_numbers by trivial. apply spec_U_eq.
  - apply U.
  - now apply sd_s.
  - destruct U as [_ U]. destruct (numbers m j r); [congruence|simpl; lia].
Qed.
Lemma Vval_eq m e r j : spectrum_defined (num_val e) m j r -> Vval m e r j = Fin (Vr (num_val e) (numbers m j r)).
Proof. intros S. unfold Vval. apply spec_V_eq; [apply (proj1 S)|now apply sd_s]. Qed.

(** ** C37: entropy bounds *)
Theorem C37_entropy_bounds :
  forall m g nrep q j1 j2 wd s,
  regular m g nrep -> counted m -> (1 <= j1)%Z -> (j1 <= j2)%Z -> (j2 <= Z.of_nat g)%Z ->
  MultifractalSpectrum m j1 j2 wd q = Ok s ->
  forall i r j, (i < List.length (q_items q))%nat -> (r < nrep)%nat -> In j (scales m) ->
    spectrum_defined (q_at q i) m j r ->
    exists u v, at3 (ms_U s) i r j = Fin u /\ at3 (ms_V s) i r j = Fin v /\
      0 <= u <= ln (INR (count m j r)) / ln 2 /\
      forall lo hi, (forall a, In a (numbers m j r) -> a <> 0 -> lo <= ln (Rabs a) / ln 2 <= hi) -> lo <= v <= hi.
Proof.
  intros m g nrep q j1 j2 wd s HR HC H1 H2 H3 E i r j Hi Hr Hj S.
  destruct (MFS_rows m g nrep q j1 j2 wd s HR H1 H2 H3 E i r Hi Hr) as (A & _). destruct (A j Hj) as [AU AV].
  unfold q_at in S. rewrite AU, AV. rewrite Uval_eq, Vval_eq by trivial.
  eexists; eexists. split; [reflexivity|]. split; [reflexivity|].
  assert (B := Hr_bounds _ _ (sd_s _ _ _ _ S)). rewrite count_numbers by (trivial; apply (proj1 S)).
  change (ln (INR (List.length (numbers m j r))) / ln 2) with (log2R (INR (List.length (numbers m j r)))).
  split; [lra|]. intros lo hi Hb. apply Vr_bounds; [now apply sd_s|]. exact Hb.
Qed.
Print Assumptions C37_entropy_bounds.

(** R(j, q, .) is a probability vector: non-negative, NaN exactly where the value
    is, with sum 1 *)
Theorem C37_probability :
  forall (c : col) (e : pynum), no_inf c ->
  (0 < num_val e \/ Forall (fun a => a <> 0) (reals c)) -> Exists (fun a => a <> 0) (reals c) ->
  map isnan (spec_R c e) = map isnan c /\ no_inf (spec_R c e) /\
  Forall (fun p => 0 <= p <= 1) (reals (spec_R c e)) /\ Rsum (reals (spec_R c e)) = 1.
Proof.
  intros c e N A B. assert (S : s_defined (num_val e) (reals c)) by (split; trivial).
  rewrite spec_R_eq by trivial. set (q := num_val e) in *. set (l := reals c) in *.
  assert (P : no_inf (map (fun x => match x with Fin a => Fin (prob q l a) | _ => NaN end) c) /\
     reals (map (fun x => match x with Fin a => Fin (prob q l a) | _ => NaN end) c) = map (prob q l) l).
  { apply map_no_inf; trivial. }
  destruct P as [P1 P2]. rewrite P2. split; [|split; [exact P1|]].
  - rewrite map_map. apply map_ext_in. intros x Hx. unfold no_inf in N. rewrite Forall_forall in N. destruct (N x Hx) as [->|[a ->]]; reflexivity.
  - assert (T : Rsum (map (prob q l) l) = 1).
    { unfold prob, Rdiv. rewrite Rsum_map_mult_r. apply Rinv_r. assert (K := qsum_pos q l S). unfold qsum in *. lra. }
    split; [|exact T].
    rewrite Forall_map, Forall_forall. intros a Ha. split; [now apply prob_nonneg|]. rewrite <- T.
    apply (Rsum_map_in_le (prob q l)); trivial. intros. now apply prob_nonneg.
Qed.
Print Assumptions C37_probability.

(** ** C38: the spectrum at q = 0 *)
Lemma xlog2_xln x : xlog2 x = xmul (Fin log2_e) (xln x).
Proof.
  assert (L2 := ln2_pos).
  assert (P : 0 < log2_e) by (unfold log2_e; rewrite log2_exp; apply Rdiv_lt_0_compat; lra).
  destruct x; simpl; trivial.
  - destruct (Rlt_dec 0 r).
    + simpl. f_equal. unfold log2_e. rewrite log2_exp. unfold log2R. field. lra.
    + destruct (Req_EM_T r 0); simpl; trivial. now rewrite scale_inf_pos.
  - now rewrite scale_inf_pos.
Qed.
(** V(j, 0) is log2(e) times C_1(j), even when some value is zero *)
Lemma V0_C1 c : no_inf c -> reals c <> [] -> spec_V c (PyFloat 0) = xmul (Fin log2_e) (log_moment c 1).
Proof.
  intros N Hne. set (n := INR (count_valid c)).
  assert (Hc : count_valid c = List.length (reals c)) by (now apply count_valid_reals).
  assert (Hn : 0 < n) by (unfold n; rewrite Hc; now apply INR_len_pos).
  assert (ER : spec_R c (PyFloat 0) = map (fun x => match x with Fin _ => Fin (/ n) | _ => NaN end) c).
  { unfold spec_R. destruct (abs_power_col c (PyFloat 0) N) as [A B]; [left; cbn; lra|].
    rewrite nansum_reals, B by trivial.
    assert (S : Rsum (map (qpow (num_val (PyFloat 0))) (reals c)) = n).
    { rewrite (Rsum_map_ext _ (fun _ => 1)); [rewrite Rsum_const; unfold n; rewrite Hc; ring|].
      intros. unfold qpow. cbn. destruct (Req_EM_T 0 0); [reflexivity|lra]. }
    rewrite S, fast_power_map, !map_map. apply map_ext_in. intros x Hx.
    unfold no_inf in N. rewrite Forall_forall in N. destruct (N x Hx) as [->|[a ->]]; cbn [xabs].
    - now rewrite fp1_NaN.
    - rewrite fp1_e0 by reflexivity. rewrite xdiv_Fin by lra. f_equal. unfold Rdiv. ring. }
  unfold spec_V. rewrite ER, map_map, map2_map, map2_diag.
  unfold log_moment. rewrite fast_power_map, !map_map.
  assert (F1 : forall x, fp1 (PyFloat (INR 1)) x = x).
  { intros x. unfold fp1, fast_power. simpl. destruct (Req_EM_T 1 1); [reflexivity|lra]. }
  (* both sides as sums of the same list *)
  set (f := fun x => xln (xabs x)).
  assert (EV : map (fun a => xmul (match a with Fin _ => Fin (/ n) | _ => NaN end) (xlog2 (xabs a))) c
     = map (fun x => xmul (Fin (/ n)) (xmul (Fin log2_e) (f x))) c).
  { apply map_ext_in. intros x Hx. unfold no_inf in N. rewrite Forall_forall in N. unfold f.
    destruct (N x Hx) as [->|[a ->]]; [reflexivity|]. now rewrite xlog2_xln. }
  rewrite EV. rewrite (map_ext (fun x => fp1 (PyFloat (INR 1)) (xln (xabs x))) f) by (intros; apply F1).
  assert (L2 := ln2_pos).
  assert (P : 0 < log2_e) by (unfold log2_e; rewrite log2_exp; apply Rdiv_lt_0_compat; lra).
  assert (Vf : forall k, 0 < k -> valid (map (fun x => xmul (Fin k) (f x)) c) = map (xmul (Fin k)) (valid (map f c))).
  { intros k Hk. clearbody f. clear - Hk. unfold valid. induction c as [|x c IH]; cbn [map filter]; trivial.
    assert (I : notnan (xmul (Fin k) (f x)) = notnan (f x)) by (unfold notnan; f_equal; apply xmul_isnan; lra).
    rewrite I. destruct (notnan (f x)); cbn [map]; [now rewrite IH|exact IH]. }
  assert (Vc : count_valid (map f c) = count_valid c).
  { apply valid_map_notnan_in. intros x Hx. unfold no_inf in N. rewrite Forall_forall in N.
    destruct (N x Hx) as [->|[a ->]]; [reflexivity|]. unfold f, xln. simpl.
    destruct (Rlt_dec 0 (Rabs a)); [reflexivity|]. destruct (Req_EM_T (Rabs a) 0); [reflexivity|]. assert (K := Rabs_pos a). lra. }
  unfold fixednansum.
  replace (forallb isnan _) with false.
  2:{ symmetry. destruct (forallb isnan _) eqn:Ef; trivial. exfalso.
      destruct (reals c) as [|a l] eqn:Er; [congruence|].
      assert (Ia : In (Fin a) c) by (apply In_reals; rewrite Er; now left).
      rewrite forallb_forall in Ef. specialize (Ef (xmul (Fin (/ n)) (xmul (Fin log2_e) (f (Fin a))))).
      assert (Fi := Ef (in_map (fun x => xmul (Fin (/ n)) (xmul (Fin log2_e) (f x))) c (Fin a) Ia)).
      rewrite !xmul_isnan in Fi by (try lra; apply Rinv_neq_0_compat; lra).
      unfold f in Fi. simpl in Fi. unfold xln in Fi. destruct (Rlt_dec 0 (Rabs a)); [discriminate|].
      destruct (Req_EM_T (Rabs a) 0); [discriminate|]. assert (K := Rabs_pos a). lra. }
  unfold nanmean. rewrite Vc. fold n. unfold nansum.
  rewrite (map_ext (fun x => xmul (Fin (/ n)) (xmul (Fin log2_e) (f x))) (fun x => xmul (Fin (/ n * log2_e)) (f x))) by (intros; apply xmul_Fin_assoc).
  rewrite Vf by (apply Rmult_lt_0_compat; [now apply Rinv_0_lt_compat|trivial]). rewrite xsum_scale by auto.
  assert (Dv : forall y, xdiv y (Fin n) = xmul (Fin (/ n)) y).
  { assert (In' := Rinv_0_lt_compat n Hn). intros [y| | |]; simpl; trivial.
    - destruct (Req_EM_T n 0); [lra|]. f_equal. unfold Rdiv. ring.
    - rewrite scale_inf_pos by trivial. destruct (Rlt_dec n 0); [lra|reflexivity].
    - rewrite scale_inf_pos by trivial. destruct (Rlt_dec n 0); [lra|reflexivity]. }
  rewrite Dv, xmul_Fin_assoc. f_equal. f_equal. ring.
Qed.
Theorem C38_spectrum_zero :
  forall m g nrep q j1 j2 wd s n c,
  regular m g nrep -> counted m -> (1 <= j1)%Z -> (j1 <= j2)%Z -> (j2 <= Z.of_nat g)%Z -> (1 <= n)%nat ->
  MultifractalSpectrum m j1 j2 wd q = Ok s -> Cumulants m n j1 j2 wd = Ok c ->
  forall i r, (i < List.length (q_items q))%nat -> (r < nrep)%nat -> nth i (q_items q) (PyFloat 1) = PyFloat 0 ->
    (forall j, (j1 <= j <= j2)%Z -> usable m j r) ->
    at2 (ms_hq s) i r = at2 (cu_log_cumulants c) 0 r /\
    ((j1 < j2)%Z -> at2 (ms_Dq s) i r = Fin 1).
Proof.
  intros m g nrep q j1 j2 wd s n c HR HC H1 H2 H3 Hn Es Ec i r Hi Hr Hq HU.
  destruct (MFS_rows m g nrep q j1 j2 wd s HR H1 H2 H3 Es i r Hi Hr) as (_ & HD & Hh).
  destruct (CUM_rows m g nrep n j1 j2 wd c HR H1 H2 H3 Ec 1 r ltac:(lia) Hr) as (_ & _ & _ & Hc).
  rewrite (nth_indep _ _ (PyFloat 0)) in Hq by trivial. rewrite Hq in HD, Hh. clear Hq. split.
  - rewrite Hh. etransitivity; [|symmetry; exact Hc]. rewrite xmul_comm.
    destruct (fit_scale wd m j1 j2 r (Cval m n 1 r) log2_e H2) as [F _]. rewrite <- F. apply fslope_ext.
    intros j Hj. destruct (HU j Hj) as [U1 U2]. unfold Vval. rewrite V0_C1 by trivial. f_equal.
    unfold Cval, cum_value. cbn [Nat.sub].
    assert (G : forall n, (1 <= n)%nat -> nth 0 (cum_list (log_moment (column m j r)) n) NaN = log_moment (column m j r) 1).
    { induction n0 as [|[|k] IH]; intros Hk; [lia|reflexivity|]. cbn [cum_list] in *. rewrite app_nth1.
      - apply IH. lia.
      - rewrite app_length. simpl. lia. }
    rewrite G by trivial. reflexivity.
  - intros Hlt. rewrite HD.
    assert (Z : forall j, (j1 <= j <= j2)%Z -> Uval m (PyFloat 0) r j = Fin (0 * IZR j + 0)).
    { intros j Hj. destruct (HU j Hj) as [U1 U2]. assert (Ij := range_in m g nrep j j1 j2 HR H1 H3 Hj).
      unfold Uval. rewrite count_numbers by (trivial; now apply HU).
      set (l := numbers m j r) in *. set (N := INR (List.length l)). assert (HN : 0 < N) by (now apply INR_len_pos).
      (* R = 1/n everywhere *)
      assert (ER : spec_R (column m j r) (PyFloat 0) = map (fun x => match x with Fin _ => Fin (/ N) | _ => NaN end) (column m j r)).
      { unfold spec_R. destruct (abs_power_col (column m j r) (PyFloat 0) U1) as [A B]; [left; cbn; lra|].
        rewrite nansum_reals, B by trivial. change (reals (column m j r)) with l.
        assert (S : Rsum (map (qpow (num_val (PyFloat 0))) l) = N).
        { rewrite (Rsum_map_ext _ (fun _ => 1)); [rewrite Rsum_const; unfold N; ring|].
          intros. unfold qpow. cbn. destruct (Req_EM_T 0 0); [reflexivity|lra]. }
        rewrite S, fast_power_map, !map_map. apply map_ext_in. intros x Hx.
        unfold no_inf in U1. rewrite Forall_forall in U1. destruct (U1 x Hx) as [->|[a ->]]; cbn [xabs].
        - now rewrite fp1_NaN.
        - rewrite fp1_e0 by reflexivity. rewrite xdiv_Fin by lra. f_equal. unfold Rdiv. ring. }
      unfold spec_U. rewrite ER, map_map.
      destruct (map_no_inf (fun x => xmul (match x with Fin _ => Fin (/ N) | _ => NaN end) (xlog2 (match x with Fin _ => Fin (/ N) | _ => NaN end)))
         (fun _ => / N * log2R (/ N)) (column m j r)) as [A B]; trivial.
      { intros a _. rewrite xlog2_pos by (now apply Rinv_0_lt_compat). reflexivity. }
      change (reals (column m j r)) with l in B.
      rewrite fixednansum_eq; trivial; [|rewrite B; destruct l; [congruence|discriminate]].
      rewrite B, Rsum_const. fold N. rewrite xlog2_pos by trivial. cbn [xadd]. f_equal.
      rewrite log2R_Rinv by trivial. field. lra. }
    assert (Hcnt : forall j, (j1 <= j <= j2)%Z -> (0 < count m j r)%nat).
    { intros j Hj. rewrite count_numbers by (trivial; try apply HU; trivial; eapply range_in; eassumption).
      destruct (HU j Hj) as [_ U2]. destruct (numbers m j r); [congruence|simpl; lia]. }
    destruct (fit_exact wd m j1 j2 r 0 0 Hlt Hcnt) as [F _].
    rewrite (fslope_ext wd m j1 j2 r _ _ Z), F. cbn. f_equal. ring.
Qed.
Print Assumptions C38_spectrum_zero.

(** ** C39: Legendre consistency *)
Theorem C39_legendre :
  forall m g nrep qs j1 j2 wd sf s,
  regular m g nrep -> counted m -> (1 <= j1)%Z -> (j1 <= j2)%Z -> (j2 <= Z.of_nat g)%Z ->
  StructureFunction m (QArr qs) j1 j2 wd = Ok sf -> MultifractalSpectrum m j1 j2 wd (QArr qs) = Ok s ->
  forall i r, (i < List.length qs)%nat -> (r < nrep)%nat ->
    (forall j, (j1 <= j <= j2)%Z -> spectrum_defined (nth i qs 0) m j r) ->
    (* scale by scale: U = q V - log2 S *)
    (forall j, (j1 <= j <= j2)%Z -> exists u v y, at3 (ms_U s) i r j = Fin u /\ at3 (ms_V s) i r j = Fin v /\
        at3 (sf_logvalues sf) i r j = Fin y /\ u = nth i qs 0 * v - y) /\
    (* and for the estimates *)
    at2 (ms_Dq s) i r
    = xsub (xadd (Fin 1) (xmul (Fin (nth i qs 0)) (at2 (ms_hq s) i r))) (at2 (sf_zeta sf) i r).
Proof.
  intros m g nrep qs j1 j2 wd sf s HR HC H1 H2 H3 Ef Es i r Hi Hr HS.
  assert (Hi' : (i < List.length (q_items (QArr qs)))%nat) by (cbn; now rewrite map_length).
  destruct (MFS_rows m g nrep _ j1 j2 wd s HR H1 H2 H3 Es i r Hi' Hr) as (AS & HD & Hh).
  destruct (SF_rows m g nrep qs j1 j2 wd sf HR H1 H2 H3 Ef i r Hi Hr) as (AF & HZ & _).
  cbn [q_items] in *. rewrite nth_PyFloat in * by trivial. set (q := nth i qs 0) in *.
  assert (P : forall j, (j1 <= j <= j2)%Z -> Uval m (PyFloat q) r j
     = Fin (q * Vr q (numbers m j r) - log2R (abs_moment q (numbers m j r))) /\
     Vval m (PyFloat q) r j = Fin (Vr q (numbers m j r)) /\
     logS m (PyFloat q) r j = Fin (log2R (abs_moment q (numbers m j r)))).
  { intros j Hj. assert (S := HS j Hj). assert (Ij := range_in m g nrep j j1 j2 HR H1 H3 Hj).
    split; [rewrite Uval_eq by trivial; f_equal; cbn [num_val]; apply legendre; now apply sd_s|].
    split; [now apply (Vval_eq m (PyFloat q))|]. apply logS_eq; [apply (proj1 S)|apply s_q_defined; now apply sd_s|].
    rewrite moment_qsum. apply Rdiv_lt_0_compat; [apply qsum_pos; now apply sd_s|]. apply INR_len_pos. apply (proj1 S). }
  split.
  - intros j Hj. assert (Ij := range_in m g nrep j j1 j2 HR H1 H3 Hj). destruct (P j Hj) as (PU & PV & PS).
    destruct (AS j Ij) as [AU AV]. rewrite AU, AV, AF by trivial. rewrite PU, PV, PS.
    do 3 eexists. repeat split; reflexivity.
  - rewrite HD, Hh, HZ.
    destruct (fit_scale wd m j1 j2 r (Vval m (PyFloat q) r) q H2) as [F1 _].
    destruct (fit_scale wd m j1 j2 r (logS m (PyFloat q) r) (-1) H2) as [F2 _].
    destruct (fit_add wd m j1 j2 r (fun j => xmul (Fin q) (Vval m (PyFloat q) r j)) (fun j => xmul (Fin (-1)) (logS m (PyFloat q) r j)) H2) as [F3 _].
    rewrite F1, F2 in F3.
    rewrite (fslope_ext wd m j1 j2 r (Uval m (PyFloat q) r) (fun j => xadd (xmul (Fin q) (Vval m (PyFloat q) r j)) (xmul (Fin (-1)) (logS m (PyFloat q) r j)))).
    + rewrite F3. unfold xsub. rewrite xadd_assoc. f_equal.
      generalize (fslope wd m j1 j2 r (logS m (PyFloat q) r)). intros [y| | |]; simpl; trivial; [f_equal; ring| |];
        rewrite scale_inf_neg by lra; reflexivity.
    + intros j Hj. destruct (P j Hj) as (PU & PV & PS). rewrite PU, PV, PS. cbn. f_equal. ring.
Qed.
Print Assumptions C39_legendre.
