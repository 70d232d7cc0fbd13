(** * Multiplying the stored values of a scale by a constant *)
From Coq Require Import Reals List ZArith Bool Lra Lia.
From Verif Require Import XReal PyBase ModelUtils ModelMRQ ModelStructure ModelCumulants ModelSpectrum ModelEstimation Spec SpecMRQ LXReal LReg LUtils LBase LEst LMoment LCum LEntropy.
Import ListNotations.
Open Scope R_scope.

Definition scl (f : R) (c : col) : col := map (xmul (Fin f)) c.

Lemma scl_no_inf f c : no_inf c -> no_inf (scl f c) /\ reals (scl f c) = map (Rmult f) (reals c).
Proof. intros N. unfold scl. apply map_no_inf; trivial. Qed.

Lemma Rpower_mult_l a b q : 0 < a -> 0 < b -> Rpower (a * b) q = Rpower a q * Rpower b q.
Proof. intros. unfold Rpower. rewrite <- exp_plus, ln_mult by trivial. f_equal. ring. Qed.
Lemma is_power_0neg e v : is_power 0 e v -> e < 0 -> v = PInf.
Proof.
  intros H He. inversion H; subst; trivial; try lra.
  exfalso. assert (K := pos_INR n). lra.
Qed.

(** ** powers *)
Lemma fp1_scale e f a : f <> 0 ->
  fp1 e (Fin (Rabs (f * a))) = xmul (Fin (Rpower (Rabs f) (num_val e))) (fp1 e (Fin (Rabs a))).
Proof.
  intros Hf. assert (K := Rabs_pos_lt f Hf). destruct (Req_EM_T a 0) as [->|Na].
  - rewrite Rmult_0_r, Rabs_R0. destruct (total_order_T (num_val e) 0) as [[L|Z]|G].
    + rewrite (is_power_0neg _ _ (fp1_Fin e 0)) by trivial. simpl. now rewrite scale_inf_pos by apply Rpower_pos.
    + rewrite !fp1_e0 by trivial. simpl. f_equal. rewrite Z, Rpower_O by trivial. ring.
    + rewrite !fp1_0 by trivial. simpl. f_equal. ring.
  - assert (P := Rabs_pos_lt a Na). rewrite Rabs_mult, !fp1_pos by (trivial; now apply Rmult_lt_0_compat).
    simpl. f_equal. now apply Rpower_mult_l.
Qed.
Lemma abs_power_scale f c e : f <> 0 -> no_inf c ->
  fast_power (map xabs (scl f c)) e = scl (Rpower (Rabs f) (num_val e)) (fast_power (map xabs c) e).
Proof.
  intros Hf N. unfold scl. rewrite !fast_power_map, !map_map. apply map_ext_in. intros x Hx.
  unfold no_inf in N. rewrite Forall_forall in N. destruct (N x Hx) as [->|[a ->]].
  - cbn [xabs xmul]. rewrite fp1_NaN. reflexivity.
  - cbn [xabs xmul]. now apply fp1_scale.
Qed.

(** ** sums, means, quotients *)
Lemma valid_scl k l : k <> 0 -> valid (scl k l) = scl k (valid l).
Proof.
  intros H. unfold valid, scl. induction l as [|x l IH]; [reflexivity|]. cbn [map filter]. unfold notnan in *.
  rewrite xmul_isnan by trivial. destruct (isnan x); cbn [negb map]; now rewrite IH.
Qed.
Lemma nansum_scl k l : k <> 0 -> nansum (scl k l) = xmul (Fin k) (nansum l).
Proof. intros H. unfold nansum. rewrite valid_scl by trivial. unfold scl. now apply xsum_scale; auto. Qed.
Lemma xdiv_scale_l k s n : 0 < k -> 0 <= n -> xdiv (xmul (Fin k) s) (Fin n) = xmul (Fin k) (xdiv s (Fin n)).
Proof.
  intros K Hn. destruct s; simpl; trivial.
  - destruct (Req_EM_T n 0) as [->|N].
    + destruct (Req_EM_T r 0) as [->|R0].
      * rewrite Rmult_0_r. destruct (Req_EM_T 0 0); [reflexivity|lra].
      * destruct (Req_EM_T (k * r) 0) as [E|_]; [apply Rmult_integral in E; lra|].
        destruct (Rlt_dec 0 r), (Rlt_dec 0 (k * r)); simpl; try (now rewrite scale_inf_pos);
          exfalso; nra.
    + simpl. f_equal. unfold Rdiv. ring.
  - rewrite !scale_inf_pos by trivial. unfold xdiv. destruct (Rlt_dec n 0); [lra|]. cbn [xmul]. rewrite ?scale_inf_pos by trivial. reflexivity.
  - rewrite !scale_inf_pos by trivial. unfold xdiv. destruct (Rlt_dec n 0); [lra|]. cbn [xmul]. rewrite ?scale_inf_pos by trivial. reflexivity.
Qed.
Lemma nanmean_scl k l : 0 < k -> nanmean (scl k l) = xmul (Fin k) (nanmean l).
Proof.
  intros K. assert (K' : k <> 0) by lra. unfold nanmean. rewrite nansum_scl by trivial.
  replace (count_valid (scl k l)) with (count_valid l).
  - apply xdiv_scale_l; trivial. apply pos_INR.
  - unfold count_valid. rewrite valid_scl by trivial. unfold scl. now rewrite map_length.
Qed.
Lemma xdiv_cancel k t s : 0 < k -> xdiv (xmul (Fin k) t) (xmul (Fin k) s) = xdiv t s.
Proof.
  intros K. destruct t, s; simpl; rewrite ?scale_inf_pos by trivial; trivial.
  - destruct (Req_EM_T r0 0) as [->|N].
    + rewrite Rmult_0_r. destruct (Req_EM_T 0 0); [|lra]. destruct (Req_EM_T r 0) as [->|R0].
      * rewrite Rmult_0_r. destruct (Req_EM_T 0 0); [reflexivity|lra].
      * destruct (Req_EM_T (k * r) 0) as [E|_]; [apply Rmult_integral in E; lra|].
        destruct (Rlt_dec 0 r), (Rlt_dec 0 (k * r)); trivial; exfalso; nra.
    + destruct (Req_EM_T (k * r0) 0) as [E|_]; [apply Rmult_integral in E; lra|].
      f_equal. field. split; lra.
  - unfold xdiv. assert (k * r < 0 <-> r < 0) by (split; intros; nra).
    destruct (Rlt_dec r 0), (Rlt_dec (k * r) 0); trivial; exfalso; tauto.
  - unfold xdiv. assert (k * r < 0 <-> r < 0) by (split; intros; nra).
    destruct (Rlt_dec r 0), (Rlt_dec (k * r) 0); trivial; exfalso; tauto.
Qed.
Lemma xlog2_scale k y : 0 < k -> xlog2 (xmul (Fin k) y) = xadd (xlog2 y) (Fin (log2R k)).
Proof.
  intros K. destruct y; simpl; rewrite ?scale_inf_pos by trivial; trivial.
  destruct (Rlt_dec 0 r) as [P|P].
  - destruct (Rlt_dec 0 (k * r)) as [_|N]; [|exfalso; apply N; now apply Rmult_lt_0_compat].
    simpl. f_equal. rewrite log2R_mult by trivial. ring.
  - destruct (Rlt_dec 0 (k * r)) as [N|_]; [exfalso; nra|].
    destruct (Req_EM_T r 0) as [->|R0].
    + rewrite Rmult_0_r. destruct (Req_EM_T 0 0); [reflexivity|lra].
    + destruct (Req_EM_T (k * r) 0) as [E|_]; [apply Rmult_integral in E; lra|]. reflexivity.
Qed.

(** ** structure function *)
Lemma sf_moment_scale f c e : f <> 0 -> no_inf c ->
  sf_moment (scl f c) e = xmul (Fin (Rpower (Rabs f) (num_val e))) (sf_moment c e).
Proof.
  intros Hf N. unfold sf_moment. rewrite abs_power_scale by trivial. apply nanmean_scl, Rpower_pos.
Qed.
Lemma log_sf_scale f c e : f <> 0 -> no_inf c ->
  xlog2 (sf_moment (scl f c) e) = xadd (xlog2 (sf_moment c e)) (Fin (num_val e * log2R (Rabs f))).
Proof.
  intros Hf N. rewrite sf_moment_scale, xlog2_scale by (trivial; apply Rpower_pos).
  rewrite log2R_Rpower_gen; trivial. now apply Rabs_pos_lt.
Qed.

(** ** spectrum *)
Lemma spec_R_scale f c e : f <> 0 -> no_inf c -> spec_R (scl f c) e = spec_R c e.
Proof.
  intros Hf N. unfold spec_R. rewrite abs_power_scale by trivial.
  assert (K := Rpower_pos (Rabs f) (num_val e)). rewrite nansum_scl by lra.
  unfold scl. rewrite map_map. apply map_ext. intros t. now apply xdiv_cancel.
Qed.
Lemma spec_U_scale f n c e : f <> 0 -> no_inf c -> spec_U n (scl f c) e = spec_U n c e.
Proof. intros. unfold spec_U. now rewrite spec_R_scale. Qed.
Lemma qpow_scale q f a : f <> 0 -> qpow q (f * a) = Rpower (Rabs f) q * qpow q a.
Proof.
  intros Hf. assert (K := Rabs_pos_lt f Hf). unfold qpow, abs_pow. destruct (Req_EM_T q 0) as [->|Hq].
  - rewrite Rpower_O by trivial. ring.
  - destruct (Req_EM_T a 0) as [->|Na].
    + rewrite Rmult_0_r. destruct (Req_EM_T 0 0); [ring|lra].
    + destruct (Req_EM_T (f * a) 0) as [E|_]; [apply Rmult_integral in E; lra|].
      rewrite Rabs_mult. change (Rpower (Rabs f * Rabs a) q = Rpower (Rabs f) q * Rpower (Rabs a) q).
      apply Rpower_mult_l; trivial. now apply Rabs_pos_lt.
Qed.
Lemma nz_scale f l : f <> 0 -> nz (map (Rmult f) l) = map (Rmult f) (nz l).
Proof.
  intros Hf. unfold nz. induction l as [|a l IH]; simpl; trivial. unfold nzb in *.
  destruct (Req_EM_T a 0) as [->|Na].
  - rewrite Rmult_0_r. destruct (Req_EM_T 0 0); [exact IH|lra].
  - destruct (Req_EM_T (f * a) 0) as [E|_]; [apply Rmult_integral in E; lra|]. simpl. now rewrite IH.
Qed.
Lemma qsum_scale q f l : f <> 0 -> qsum q (map (Rmult f) l) = Rpower (Rabs f) q * qsum q l.
Proof.
  intros Hf. unfold qsum. rewrite map_map, <- Rsum_map_scal. apply Rsum_map_ext. intros. now apply qpow_scale.
Qed.
Lemma prob_scale q f l a : f <> 0 -> s_defined q l -> prob q (map (Rmult f) l) (f * a) = prob q l a.
Proof.
  intros Hf S. unfold prob. rewrite qsum_scale, qpow_scale by trivial.
  assert (P := qsum_pos q l S). assert (K := Rpower_pos (Rabs f) q). field. split; lra.
Qed.
Lemma s_defined_scale q f l : f <> 0 -> s_defined q l -> s_defined q (map (Rmult f) l).
Proof.
  intros Hf [A B]. split.
  - destruct A as [A|A]; [auto|]. right. rewrite Forall_map. apply (Forall_impl _ (P := fun a => a <> 0)); trivial.
    intros a Ha E. apply Rmult_integral in E. lra.
  - apply Exists_exists in B as (a & Ha & Na). apply Exists_exists. exists (f * a). split; [now apply in_map|].
    intros E. apply Rmult_integral in E. lra.
Qed.
Lemma Vr_scale q f l : f <> 0 -> s_defined q l -> Vr q (map (Rmult f) l) = Vr q l + log2R (Rabs f).
Proof.
  intros Hf S. unfold Vr. rewrite nz_scale, map_map by trivial.
  rewrite (Rsum_map_ext _ (fun a => prob q l a * log2R (Rabs a) + log2R (Rabs f) * prob q l a)).
  - rewrite Rsum_map_plus, Rsum_map_scal, prob_sum by trivial. ring.
  - intros a Ha. apply nz_In in Ha as [_ Na]. rewrite prob_scale by trivial.
    rewrite Rabs_mult, log2R_mult by (now apply Rabs_pos_lt). ring.
Qed.
Lemma spec_V_scale f c e : f <> 0 -> no_inf c -> s_defined (num_val e) (reals c) ->
  spec_V (scl f c) e = xadd (spec_V c e) (Fin (log2R (Rabs f))).
Proof.
  intros Hf N S. destruct (scl_no_inf f c N) as [N' E'].
  rewrite (spec_V_eq c), (spec_V_eq (scl f c)); trivial; [|rewrite E'; now apply s_defined_scale].
  rewrite E', Vr_scale by trivial. reflexivity.
Qed.

(** ** sup *)
Lemma xfmax_scale k x y : 0 < k -> xfmax (xmul (Fin k) x) (xmul (Fin k) y) = xmul (Fin k) (xfmax x y).
Proof.
  intros K. destruct x, y; simpl; rewrite ?scale_inf_pos by trivial; trivial.
  f_equal. apply RmaxRmult. lra.
Qed.
Lemma nanmax_scale k c : 0 < k -> nanmax (scl k c) = xmul (Fin k) (nanmax c).
Proof. intros K. unfold nanmax, scl. induction c as [|x c IH]; [reflexivity|]. cbn [map fold_right]. now rewrite IH, xfmax_scale. Qed.
Lemma xabs_scale f x : f <> 0 -> xabs (xmul (Fin f) x) = xmul (Fin (Rabs f)) (xabs x).
Proof.
  intros Hf. assert (K := Rabs_pos_lt f Hf). destruct x; cbn [xabs xmul]; trivial.
  - now rewrite Rabs_mult.
  - rewrite (scale_inf_pos (Rabs f)) by trivial. unfold scale_inf. destruct (Req_EM_T f 0); [lra|]. now destruct (Rlt_dec 0 f).
  - rewrite (scale_inf_pos (Rabs f)) by trivial. unfold scale_inf. destruct (Req_EM_T f 0); [lra|]. now destruct (Rlt_dec 0 f).
Qed.
Lemma lsup_scale f c : f <> 0 ->
  xlog2 (nanmax (map xabs (scl f c))) = xadd (xlog2 (nanmax (map xabs c))) (Fin (log2R (Rabs f))).
Proof.
  intros Hf. replace (map xabs (scl f c)) with (scl (Rabs f) (map xabs c)).
  - rewrite nanmax_scale, xlog2_scale; trivial; now apply Rabs_pos_lt.
  - unfold scl. rewrite !map_map. apply map_ext. intros. symmetry. now apply xabs_scale.
Qed.

(** ** cumulants *)
Lemma cum_value_scale f c n k : f <> 0 -> no_inf c -> reals c <> [] -> Forall (fun a => a <> 0) (reals c) ->
  (1 <= k <= n)%nat ->
  cum_value n (scl f c) k = xadd (cum_value n c k) (Fin (match k with 1%nat => ln (Rabs f) | _ => 0 end)).
Proof.
  intros Hf N Hne Hz Hk. destruct (scl_no_inf f c N) as [N' E'].
  assert (Hz' : Forall (fun a => a <> 0) (reals (scl f c))).
  { rewrite E', Forall_map. apply (Forall_impl _ (P := fun a => a <> 0)); trivial.
    intros a Ha E. apply Rmult_integral in E. lra. }
  assert (Hne' : reals (scl f c) <> []) by (rewrite E'; destruct (reals c); [congruence|discriminate]).
  rewrite (cum_value_eq c n k (mu (lnabs c))) by (trivial; intros; now apply log_moment_eq).
  rewrite (cum_value_eq (scl f c) n k (mu (lnabs (scl f c)))) by (trivial; intros; now apply log_moment_eq).
  simpl. f_equal.
  assert (L : lnabs (scl f c) = map (fun t => ln (Rabs f) + t) (lnabs c)).
  { unfold lnabs. rewrite E', !map_map. apply map_ext_in. intros a Ha. rewrite Forall_forall in Hz.
    rewrite Rabs_mult, ln_mult; trivial; apply Rabs_pos_lt; auto. }
  rewrite L. apply kappa_shift; [|lia]. unfold lnabs. destruct (reals c); [congruence|discriminate].
Qed.

(** *** columns with a zero, and columns without numbers *)
Lemma cum_list_length mom n : length (cum_list mom n) = n.
Proof. induction n; cbn [cum_list]; trivial. rewrite app_length, IHn. cbn. lia. Qed.
Lemma cum_list_nth mom n k : (1 <= k <= n)%nat ->
  nth (k - 1) (cum_list mom n) NaN = cum_step mom (cum_list mom (k - 1)) k.
Proof.
  induction n; [lia|]. intros Hk. cbn [cum_list]. destruct (Nat.eq_dec k (S n)) as [->|N].
  - rewrite app_nth2; rewrite cum_list_length; [|lia]. replace (S n - 1 - n)%nat with 0%nat by lia. cbn [nth].
    now replace (S n - 1)%nat with n by lia.
  - rewrite app_nth1 by (rewrite cum_list_length; lia). apply IHn. lia.
Qed.
Lemma xadd_fold_NaN (t : nat -> xr) l : fold_left (fun aux i => xadd aux (t i)) l NaN = NaN.
Proof. induction l; simpl; trivial. Qed.
Lemma fold_NaN (t : nat -> xr) l a i : In i l -> t i = NaN -> fold_left (fun aux i => xadd aux (t i)) l a = NaN.
Proof.
  revert a. induction l as [|x l IH]; intros a H E; [contradiction|]. destruct H as [->|H]; simpl.
  - rewrite E. assert (K : xadd a NaN = NaN) by (now destruct a). rewrite K. apply xadd_fold_NaN.
  - now apply IH.
Qed.
Lemma xmul_NaN_r x : xmul x NaN = NaN. Proof. now destruct x. Qed.
(** once C_2 is NaN so are all later cumulants *)
Lemma cum_NaN mom n k : (3 <= k <= n)%nat -> cum_step mom (cum_list mom 1) 2 = NaN -> nth (k - 1) (cum_list mom n) NaN = NaN.
Proof.
  intros Hk E. rewrite cum_list_nth by lia. unfold cum_step. destruct (Nat.eqb_spec k 1); [lia|].
  unfold cum_aux. rewrite (fold_NaN _ _ _ 2%nat).
  - cbn [xsub xopp]. now destruct (mom k).
  - apply in_seq. lia.
  - change (2 - 1)%nat with 1%nat. assert (Q := cum_list_nth mom (k - 1) 2 ltac:(lia)). change (2 - 1)%nat with 1%nat in Q.
    rewrite Q, E, xmul_NaN_r. reflexivity.
Qed.
Lemma xsum_inf l s : (s = PInf \/ s = NInf) -> In s l -> Forall (fun x => x = s \/ exists a, x = Fin a) l -> xsum l = s.
Proof.
  intros Hs. induction l as [|x l IH]; [contradiction|]. intros Hin F. inversion F as [|? ? Fx Fl]; subst.
  assert (T : xsum l = s \/ exists a, xsum l = Fin a).
  { clear - Fl Hs. induction Fl as [|y l Hy Fl IH]; [right; exists 0; reflexivity|]. unfold xsum in *. cbn [fold_right].
    destruct Hy as [->|[a ->]], IH as [->|[b ->]]; destruct Hs as [->| ->]; cbn; eauto. }
  unfold xsum in *. cbn [fold_right]. destruct Hin as [->|Hin].
  - destruct T as [->|[a ->]]; destruct Hs as [->| ->]; reflexivity.
  - rewrite IH by trivial. destruct Fx as [->|[a ->]]; destruct Hs as [->| ->]; reflexivity.
Qed.
Lemma log_moment_zero c : no_inf c -> In 0 (reals c) -> log_moment c 1 = NInf /\ log_moment c 2 = PInf.
Proof.
  intros N Z.
  assert (G : forall (h : xr -> xr) s, (s = PInf \/ s = NInf) -> h NaN = NaN -> h (Fin 0) = s ->
     (forall a, h (Fin a) = s \/ exists b, h (Fin a) = Fin b) -> nanmean (map h c) = s).
  { intros h s Hs H0 H1 H2. unfold nanmean, nansum.
    assert (V : xsum (valid (map h c)) = s).
    { apply xsum_inf; trivial.
      - unfold valid. apply filter_In. split; [|now destruct Hs as [->| ->]].
        rewrite <- H1. apply in_map. clear - Z N. induction N as [|x l Hx N IH]; [contradiction|].
        destruct Hx as [->|[a ->]]; simpl in Z; [right; auto|]. destruct Z as [->|Z]; [now left|right; auto].
      - apply Forall_forall. intros x Hx. unfold valid in Hx. apply filter_In in Hx as [Hx Nx]. apply in_map_iff in Hx as (y & <- & Hy).
        unfold no_inf in N. rewrite Forall_forall in N. destruct (N y Hy) as [->|[a ->]]; [rewrite H0 in Nx; discriminate|apply H2]. }
    rewrite V. assert (P := pos_INR (count_valid (map h c))). destruct Hs as [->| ->]; unfold xdiv; destruct (Rlt_dec _ 0); trivial; lra. }
  assert (L0 : xln (xabs (Fin 0)) = NInf).
  { cbn. rewrite Rabs_R0. destruct (Rlt_dec 0 0); [lra|]. destruct (Req_EM_T 0 0); [reflexivity|lra]. }
  assert (LF : forall a, xln (xabs (Fin a)) = NInf \/ exists b, xln (xabs (Fin a)) = Fin b).
  { intros a. destruct (Req_EM_T a 0) as [->|Na]; [auto|]. right. cbn. destruct (Rlt_dec 0 (Rabs a)) as [|K]; [eauto|].
    exfalso. apply K. now apply Rabs_pos_lt. }
  unfold log_moment. rewrite !map_map. split.
  - unfold fast_power. cbn [num_val INR]. destruct (Req_EM_T 1 1); [|lra]. apply G; auto.
  - unfold fast_power. cbn [num_val]. replace (INR 2) with 2 by (simpl; ring).
    destruct (Req_EM_T 2 1); [lra|]. destruct (Req_EM_T 2 2); [|lra]. rewrite map_map. apply G; auto.
    + now rewrite L0.
    + intros a. destruct (LF a) as [->|[b ->]]; [auto|right; eexists; reflexivity].
Qed.
Lemma log_moment_none c k : no_inf c -> reals c = [] -> log_moment c k = NaN.
Proof.
  intros N Z.
  assert (A : Forall (fun x => x = NaN) c).
  { clear k. induction N as [|x l Hx N IH]; constructor; destruct Hx as [->|[a ->]]; trivial; try discriminate; auto. }
  unfold log_moment. rewrite fast_power_map, !map_map. unfold nanmean, nansum, count_valid, valid.
  assert (V : filter notnan (map (fun x => fp1 (PyFloat (INR k)) (xln (xabs x))) c) = []).
  { clear - A. induction A as [|x l -> A IH]; trivial. cbn [map filter]. rewrite IH. cbn [xabs xln]. now rewrite fp1_NaN. }
  rewrite V. cbn. destruct (Req_EM_T 0 0); [reflexivity|lra].
Qed.
(** cumulants in the presence of zeros *)
Lemma cum_value_zero c n k : no_inf c -> In 0 (reals c) -> (1 <= k <= n)%nat ->
  cum_value n c k = if Nat.eqb k 1 then NInf else NaN.
Proof.
  intros N Z Hk. destruct (log_moment_zero c N Z) as [L1 L2]. unfold cum_value.
  assert (E2 : cum_step (log_moment c) (cum_list (log_moment c) 1) 2 = NaN).
  { unfold cum_step, cum_aux. cbn [Nat.eqb Nat.sub seq fold_left cum_list app nth]. rewrite L2. unfold cum_step. cbn [Nat.eqb]. rewrite L1.
    destruct C_vals as [-> _]. rewrite xadd_0_l. cbn [xmul]. rewrite scale_inf_pos by lra. reflexivity. }
  destruct k as [|[|[|k]]]; [lia| | |].
  - rewrite cum_list_nth by lia. exact L1.
  - rewrite cum_list_nth by lia. exact E2.
  - now rewrite cum_NaN by (trivial; lia).
Qed.
Lemma cum_value_none c n k : no_inf c -> reals c = [] -> (1 <= k <= n)%nat -> cum_value n c k = NaN.
Proof.
  intros N Z Hk. unfold cum_value. rewrite cum_list_nth by lia. unfold cum_step. rewrite log_moment_none by trivial.
  destruct (Nat.eqb k 1); reflexivity.
Qed.
(** ... hence the shift property without any condition on the values *)
Lemma cum_value_scale_all f c n k : f <> 0 -> no_inf c -> (1 <= k <= n)%nat ->
  cum_value n (scl f c) k = xadd (cum_value n c k) (Fin (match k with 1%nat => ln (Rabs f) | _ => 0 end)).
Proof.
  intros Hf N Hk. destruct (scl_no_inf f c N) as [N' E'].
  destruct (reals c) as [|a l] eqn:Er.
  { rewrite !cum_value_none; trivial. }
  destruct (in_dec Req_EM_T 0 (a :: l)) as [I|I].
  - rewrite (cum_value_zero c), (cum_value_zero (scl f c)); trivial.
    + destruct k as [|[|k]]; [lia| |]; reflexivity.
    + rewrite E'. rewrite <- (Rmult_0_r f). now apply in_map.
    + now rewrite Er.
  - apply cum_value_scale; trivial; rewrite Er; [discriminate|]. apply Forall_forall. intros x Hx ->. contradiction.
Qed.
