(** * C91: an estimate is a number exactly when every fitted scale determines it *)
From Coq Require Import Reals List ZArith Bool Lra Lia.
From Verif Require Import XReal PyBase ModelUtils ModelMRQ ModelStructure ModelCumulants ModelSpectrum ModelEstimation
  Spec SpecMRQ LXReal LReg LUtils LBase LPattern LEst LMoment LCum LEntropy PropsEstimators PropsCumulants PropsSpectrum PropsMono PropsInvariance.
Import ListNotations.
Open Scope R_scope.
Local Notation length := List.length.

(** ** Specification *)
Definition is_number (x : xr) : Prop := exists v, x = Fin v.
(** the moment of order q of the moduli of [l] is a positive number: something to average, for q > 0 something different from
    zero, for q < 0 nothing equal to zero *)
Definition determined (q : R) (l : list R) : Prop :=
  l <> [] /\ (0 < q -> Exists (fun a => a <> 0) l) /\ (q < 0 -> Forall (fun a => a <> 0) l).

(** ** Lemmas *)
Lemma fin_xadd x y : is_number (xadd x y) -> is_number x /\ is_number y.
Proof. intros [v E]. destruct x, y; try discriminate; split; eexists; reflexivity. Qed.
Lemma fin_xmul_r x y : is_number (xmul x y) -> is_number y.
Proof.
  intros [v E]. destruct x, y; try discriminate; try (eexists; reflexivity); cbn in E; unfold scale_inf in E;
    repeat match type of E with context [if ?b then _ else _] => destruct b end; discriminate.
Qed.
Lemma fin_xsum l : is_number (xsum l) -> Forall is_number l.
Proof. induction l as [|x l IH]; intros H; constructor; apply (fin_xadd x (xsum l)) in H; [apply H|now apply IH]. Qed.
Lemma fin_xdiv x c : is_number (xdiv x (Fin c)) -> is_number x.
Proof. intros [v E]. destruct x; try discriminate; try (eexists; reflexivity); cbn in E; destruct (Rlt_dec c 0); discriminate. Qed.
Lemma fin_map2_xmul : forall w y, length w = length y -> Forall is_number (map2 xmul w y) -> Forall is_number y.
Proof.
  induction w as [|a w IH]; intros [|b y] L H; try discriminate; constructor; rewrite map2_cons in H; inversion_clear H.
  - now apply fin_xmul_r in H0.
  - apply IH; [now injection L|trivial].
Qed.
Lemma lr_fin x y n t : length x = length y -> linear_regression x y n = Ok t -> is_number (fst (fst t)) -> Forall is_number y.
Proof.
  intros L. unfold linear_regression. destruct (Nat.eqb_spec (length n) (length x)) as [e|]; [|discriminate]. cbn [negb].
  intros E. unfold bcast_mul in E. rewrite !map2_length, e, Nat.min_id, L, Nat.eqb_refl in E. cbn [bind] in E. injection E as <-. cbn [fst].
  intros H. apply fin_xsum in H. revert H. apply fin_map2_xmul. now rewrite map2_length, e, Nat.min_id.
Qed.
Lemma fslope_fin_inv wd m j1 j2 r y : is_number (fslope wd m j1 j2 r y) -> forall j, (j1 <= j <= j2)%Z -> is_number (y j).
Proof.
  intros H j Hj. assert (L : length (scale_support j1 j2) = length (map y (zrange j1 (j2 + 1)))) by (unfold scale_support; now rewrite !map_length).
  assert (F := lr_fin (scale_support j1 j2) (map y (zrange j1 (j2 + 1))) (wts wd m j1 j2 r) (fit3 wd m j1 j2 r y) L (fit3_ok wd m j1 j2 r y) H).
  rewrite Forall_map, Forall_forall in F. apply F, zrange_In. lia.
Qed.
(** the fitted slope is a number exactly when all the ordinates are *)
Lemma fslope_fin wd m j1 j2 r y : (j1 < j2)%Z -> ((forall j, (j1 <= j <= j2)%Z -> is_number (y j)) -> forall j, (j1 <= j <= j2)%Z -> (0 < count m j r)%nat) ->
  (is_number (fslope wd m j1 j2 r y) <-> forall j, (j1 <= j <= j2)%Z -> is_number (y j)).
Proof.
  intros Hj HC. split; [apply fslope_fin_inv|]. intros H.
  assert (E : fslope wd m j1 j2 r y = fslope wd m j1 j2 r (fun j => Fin (match y j with Fin v => v | _ => 0 end))).
  { apply fslope_ext. intros j Hi. destruct (H j Hi) as [v ->]. reflexivity. }
  rewrite E. destruct (fit_finite wd m j1 j2 r (fun j => match y j with Fin v => v | _ => 0 end)) as [-> _].
  - apply fit_well_posed; [trivial|]. now apply HC.
  - eexists. reflexivity.
Qed.
Lemma fin_xlog2 x : is_number (xlog2 x) -> exists a, x = Fin a /\ 0 < a.
Proof.
  intros [v E]. destruct x as [a| | |]; try discriminate. cbn in E. destruct (Rlt_dec 0 a); [eauto|]. destruct (Req_EM_T a 0); discriminate.
Qed.
Lemma fin_nanmean c : is_number (nanmean c) -> Forall is_number (valid c) /\ valid c <> [].
Proof.
  unfold nanmean. intros H. split; [apply fin_xsum; now apply fin_xdiv in H|]. intros Z. unfold nansum, count_valid in H. rewrite Z in H.
  destruct H as [v H]. cbn in H. destruct (Req_EM_T 0 0); [|lra]. discriminate.
Qed.
Lemma reals_valid c : no_inf c -> (valid c = [] <-> reals c = []).
Proof. intros N. rewrite valid_no_inf by trivial. destruct (reals c); cbn; split; congruence. Qed.
Lemma fp1_0_neg e : num_val e < 0 -> fp1 e (Fin 0) = PInf.
Proof.
  intros H. assert (P := fp1_Fin e 0). inversion P as [a x Ha| a n Ha Hb| a n Ha| x He Ha Hb| x He Ha Hb|a x Ha]; subst; trivial; try lra.
  - rewrite <- Hb in H. assert (K := pos_INR n). lra.
Qed.
Lemma fp1_abs_pos e a : a <> 0 -> exists v, fp1 e (xabs (Fin a)) = Fin v /\ 0 < v.
Proof. intros H. cbn [xabs]. rewrite fp1_pos by (now apply Rabs_pos_lt). eexists. split; [reflexivity|apply Rpower_pos]. Qed.

Lemma no_inf_in c x : no_inf c -> In x c -> x = NaN \/ exists a, x = Fin a /\ In a (reals c).
Proof.
  intros N H. unfold no_inf in N. rewrite Forall_forall in N. destruct (N x H) as [->|[a ->]]; [now left|right; exists a; split; trivial; now apply In_reals].
Qed.
Lemma not_forall_nz l : ~ Forall (fun a => a <> 0) l -> In 0 l.
Proof. intros H. destruct (in_dec Req_EM_T 0 l) as [I|I]; trivial. exfalso. apply H, Forall_forall. intros a Ha ->. contradiction. Qed.
Lemma not_exists_nz l : ~ Exists (fun a => a <> 0) l -> forall a, In a l -> a = 0.
Proof. intros H a Ha. destruct (Req_dec a 0); trivial. exfalso. apply H, Exists_exists. eauto. Qed.
Lemma in_valid x c : In x c -> x <> NaN -> In x (valid c).
Proof. intros H N. unfold valid. apply filter_In. split; trivial. destruct x; trivial. congruence. Qed.

(** *** moments *)
Lemma logS_fin c e : no_inf c -> (is_number (xlog2 (sf_moment c e)) <-> determined (num_val e) (reals c)).
Proof.
  intros N. split.
  - intros H. apply fin_xlog2 in H as (a & E & Ha). unfold sf_moment in E.
    assert (F := fin_nanmean (fast_power (map xabs c) e) (ex_intro _ a E)). destruct F as [F1 F2]. rewrite fast_power_map, map_map in F1, F2.
    assert (NE : reals c <> []).
    { intros Z. apply F2. clear - N Z. induction N as [|x c [->|[b ->]] N IH]; [reflexivity| |discriminate]. cbn [map xabs]. rewrite fp1_NaN. cbn. now apply IH. }
    split; [exact NE|]. split.
    + intros Hq. destruct (Exists_dec (fun b => b <> 0) (reals c)) as [X|X]; [intros b; destruct (Req_EM_T b 0); [right; auto|left; auto]|exact X|exfalso].
      assert (Z := not_exists_nz _ X). assert (M := sf_moment_eq c e N NE ltac:(left; lra)). unfold sf_moment in M. rewrite E in M. injection M as M.
      unfold abs_moment in M. rewrite (mean_ext (qpow (num_val e)) (fun _ => 0)) in M.
      2:{ intros b Hb. rewrite (Z b Hb). now apply qpow_0. }
      rewrite mean_const in M by trivial. lra.
    + intros Hq. destruct (Forall_dec (fun b => b <> 0) (fun b => match Req_EM_T b 0 with left p => right (fun n => n p) | right n => left n end) (reals c)) as [X|X]; [exact X|exfalso].
      apply not_forall_nz in X. rewrite Forall_forall in F1. destruct (F1 PInf) as [v V]; [|discriminate]. apply in_valid; [|discriminate].
      apply in_map_iff. exists (Fin 0). split; [cbn [xabs]; rewrite Rabs_R0; now apply fp1_0_neg|now apply In_reals].
  - intros (A & B & C). rewrite sf_moment_eq; trivial.
    + rewrite xlog2_pos; [eexists; reflexivity|]. apply abs_moment_pos; trivial. destruct (Rtotal_order (num_val e) 0) as [L|[L|L]]; auto.
      right. specialize (C L). destruct (reals c) as [|b l]; [congruence|]. constructor. now inversion C.
    + destruct (Rlt_dec (num_val e) 0); [right; auto|left; lra].
Qed.

(** *** cumulants *)
Lemma cum_list_length mom n : length (cum_list mom n) = n.
Proof. induction n as [|n IH]; [reflexivity|]. cbn [cum_list]. rewrite app_length, IH. cbn. lia. Qed.
Lemma cum_list_nth mom n k : (1 <= k <= n)%nat -> nth (k - 1) (cum_list mom n) NaN = cum_step mom (cum_list mom (k - 1)) k.
Proof.
  induction n as [|n IH]; intros Hk; [lia|]. cbn [cum_list]. destruct (Nat.eq_dec k (S n)) as [->|ne].
  - rewrite app_nth2 by (rewrite cum_list_length; lia). rewrite cum_list_length. replace (S n - 1 - n)%nat with 0%nat by lia. cbn [nth]. now replace (S n - 1)%nat with n by lia.
  - rewrite app_nth1 by (rewrite cum_list_length; lia). apply IH. lia.
Qed.
Lemma fold_xadd_NaN (f : nat -> xr) l : forall a, a = NaN \/ (exists n, In n l /\ f n = NaN) -> fold_left (fun aux n => xadd aux (f n)) l a = NaN.
Proof.
  induction l as [|x l IH]; intros a [->|(n & Hn & E)]; cbn [fold_left]; trivial; try (destruct Hn; fail).
  - apply IH. now left.
  - apply IH. destruct Hn as [->|Hn]; [left; rewrite E; now destruct a|right; eauto].
Qed.
Lemma xsum_all_inf (i : xr) l : i = PInf \/ i = NInf -> (forall x, In x l -> x = i \/ is_number x) -> In i l -> xsum l = i.
Proof.
  intros Hi. induction l as [|x l IH]; intros H I; [destruct I|]. change (xsum (x :: l)) with (xadd x (xsum l)).
  assert (T : xsum l = i \/ is_number (xsum l)).
  { clear IH I. induction l as [|y l IHl]; [right; eexists; reflexivity|]. change (xsum (y :: l)) with (xadd y (xsum l)).
    destruct IHl as [->|[v ->]]; [intros z [->|Hz]; apply H; [now left|right; now right]| |];
    (destruct (H y ltac:(right; now left)) as [->|[u ->]]; destruct Hi as [->| ->]; cbn; auto; right; eexists; reflexivity). }
  destruct (H x (or_introl eq_refl)) as [->|[v ->]].
  - destruct T as [->|[u ->]]; destruct Hi as [->| ->]; reflexivity.
  - destruct I as [I|I]; [destruct Hi as [->| ->]; discriminate|]. rewrite IH; trivial.
    + destruct Hi as [->| ->]; reflexivity.
    + intros y Hy. apply H. now right.
Qed.
Lemma nanmean_inf (i : xr) c : i = PInf \/ i = NInf -> (forall x, In x c -> x = i \/ x = NaN \/ is_number x) -> In i c -> nanmean c = i.
Proof.
  intros Hi H I. unfold nanmean, nansum. rewrite (xsum_all_inf i (valid c) Hi).
  - assert (P := pos_INR (count_valid c)). destruct Hi as [->| ->]; cbn; (destruct (Rlt_dec _ 0); [lra|reflexivity]).
  - intros x Hx. unfold valid in Hx. apply filter_In in Hx as [Hx Nx]. destruct (H x Hx) as [->|[->|K]]; auto. discriminate.
  - apply in_valid; trivial. destruct Hi as [->| ->]; discriminate.
Qed.
Lemma log_abs_cases c x : no_inf c -> In x (map xln (map xabs c)) -> x = NInf \/ x = NaN \/ is_number x.
Proof.
  intros N H. rewrite map_map in H. apply in_map_iff in H as (y & <- & Hy). destruct (no_inf_in c y N Hy) as [->|(a & -> & _)]; [right; now left|].
  cbn. destruct (Rlt_dec 0 (Rabs a)); [right; right; eexists; reflexivity|]. destruct (Req_EM_T (Rabs a) 0); auto.
Qed.
Lemma zero_log c : In 0 (reals c) -> In NInf (map xln (map xabs c)).
Proof.
  intros H. apply In_reals in H. rewrite map_map. apply in_map_iff. exists (Fin 0). split; trivial. cbn. rewrite Rabs_R0. destruct (Rlt_dec 0 0); [lra|].
  destruct (Req_EM_T 0 0); congruence.
Qed.
Lemma cum_fin c n k : no_inf c -> (1 <= k <= n)%nat -> (is_number (cum_value n c k) <-> reals c <> [] /\ Forall (fun a => a <> 0) (reals c)).
Proof.
  intros N Hk. split.
  - intros H. unfold cum_value in H. rewrite cum_list_nth in H by trivial. set (mom := log_moment c) in *.
    assert (NE : reals c <> []).
    { intros Z. assert (MN : forall i, mom i = NaN).
      { intros i. unfold mom, log_moment. rewrite fast_power_map, !map_map.
        replace (map (fun x => fp1 (PyFloat (INR i)) (xln (xabs x))) c) with (map (fun _ : xr => NaN) c).
        - unfold nanmean, nansum, count_valid. assert (V : valid (map (fun _ : xr => NaN) c) = []) by (clear; induction c; trivial). rewrite V. cbn. destruct (Req_EM_T 0 0); [reflexivity|lra].
        - apply map_ext_in. intros x Hx. destruct (no_inf_in c x N Hx) as [->|(a & -> & Ha)]; [cbn; now rewrite fp1_NaN|]. rewrite Z in Ha. destruct Ha. }
      unfold cum_step in H. rewrite MN in H. destruct (Nat.eqb k 1); destruct H as [v H]; discriminate. }
    split; [exact NE|].
    destruct (Forall_dec (fun b => b <> 0) (fun b => match Req_EM_T b 0 with left p => right (fun n => n p) | right n => left n end) (reals c)) as [X|X]; [exact X|exfalso].
    apply not_forall_nz in X.
    assert (M1 : mom 1%nat = NInf).
    { unfold mom, log_moment. assert (E : fast_power (map xln (map xabs c)) (PyFloat (INR 1)) = map xln (map xabs c)).
      { unfold fast_power. cbn [num_val INR]. destruct (Req_EM_T 1 1); [reflexivity|congruence]. }
      rewrite E. apply nanmean_inf; auto; [intros x Hx; now apply (log_abs_cases c)|now apply zero_log]. }
    assert (M2 : mom 2%nat = PInf).
    { unfold mom, log_moment. assert (E : fast_power (map xln (map xabs c)) (PyFloat (INR 2)) = map (fun x => xmul x x) (map xln (map xabs c))).
      { unfold fast_power. cbn [num_val INR]. replace (1 + 1) with 2 by ring. destruct (Req_EM_T 2 1); [lra|]. destruct (Req_EM_T 2 2); [reflexivity|congruence]. }
      rewrite E. apply nanmean_inf; auto.
      - intros x Hx. apply in_map_iff in Hx as (y & <- & Hy). destruct (log_abs_cases c y N Hy) as [->|[->|[v ->]]]; cbn; auto. right. right. eexists. reflexivity.
      - apply in_map_iff. exists NInf. split; [reflexivity|now apply zero_log]. }
    assert (C1 : nth 0 (cum_list mom 1) NaN = NInf) by (cbn; exact M1).
    assert (S2 : forall prev, nth 0 prev NaN = NInf -> cum_step mom prev 2 = NaN).
    { intros prev P. unfold cum_step. cbn [Nat.eqb]. unfold cum_aux. cbn [Nat.sub seq fold_left]. rewrite P, M1, M2.
      assert (CE : C 1 0 = 1) by (unfold C; cbn; field). change (2 - 1)%nat with 1%nat. change (1 - 1)%nat with 0%nat. rewrite CE. cbn [xmul]. rewrite scale_inf_pos by lra. reflexivity. }
    destruct (Nat.eq_dec k 1) as [->|K1]; [cbn in H; rewrite M1 in H; destruct H; discriminate|].
    destruct (Nat.eq_dec k 2) as [->|K2]; [rewrite S2 in H by exact C1; destruct H; discriminate|].
    assert (P2 : nth 1 (cum_list mom (k - 1)) NaN = NaN).
    { change 1%nat with (2 - 1)%nat at 1. rewrite cum_list_nth by lia. apply S2. exact C1. }
    unfold cum_step in H. destruct (Nat.eqb_spec k 1) as [|_]; [lia|]. unfold cum_aux in H.
    rewrite fold_xadd_NaN in H.
    + destruct H as [v H]. destruct (mom k); discriminate.
    + right. exists 2%nat. split; [apply in_seq; lia|]. change (2 - 1)%nat with 1%nat. rewrite P2. reflexivity.
  - intros [A B]. rewrite (cum_value_eq c n k (mu (lnabs c))); [eexists; reflexivity|trivial|]. intros i _. now apply log_moment_eq.
Qed.
(** *** suprema *)
Lemma sup_fin c : no_inf c -> (is_number (xlog2 (nanmax (map xabs c))) <-> Exists (fun a => a <> 0) (reals c)).
Proof.
  intros N. destruct (map_no_inf xabs Rabs c N eq_refl (fun a _ => eq_refl)) as [A B].
  destruct (nanmax_spec (map xabs c) A) as [[E ->]|(v & -> & I & M)].
  - rewrite B in E. destruct (reals c); [|discriminate]. split; [intros [v H]; discriminate|intros H; inversion H].
  - rewrite B in I, M. apply in_map_iff in I as (a & <- & Ia). split.
    + intros H. apply fin_xlog2 in H as (b & Eb & Hb). injection Eb as <-. apply Exists_exists. exists a. split; trivial. intros ->. rewrite Rabs_R0 in Hb. lra.
    + intros H. apply Exists_exists in H as (b & Ib & Hb). assert (P := Rabs_pos_lt b Hb). assert (Q := M (Rabs b) (in_map Rabs _ _ Ib)).
      rewrite xlog2_pos by lra. eexists. reflexivity.
Qed.
(** *** the two sums of the spectrum *)
Lemma fixednansum_NaN c : (forall x, In x c -> x = NaN) -> fixednansum c = NaN.
Proof.
  intros H. unfold fixednansum. replace (forallb isnan c) with true; [reflexivity|]. symmetry. apply forallb_forall. intros x Hx. now rewrite (H x Hx).
Qed.
Definition Fdec (l : list R) := Forall_dec (fun b => b <> 0) (fun b => match Req_EM_T b 0 with left p => right (fun n => n p) | right n => left n end) l.
Definition Edec (l : list R) := Exists_dec (fun b => b <> 0) l (fun b => match Req_EM_T b 0 with left p => right (fun n => n p) | right n => left n end).
(** q < 0 and a zero: the probabilities are 0 (non-zero value) or NaN (zero or missing value) *)
Lemma R_neg_zero c e : no_inf c -> num_val e < 0 -> In 0 (reals c) ->
  spec_R c e = map (fun x => match x with Fin a => if Req_EM_T a 0 then NaN else Fin 0 | _ => NaN end) c.
Proof.
  intros N Hq Z. unfold spec_R. rewrite fast_power_map, (map_map xabs (fp1 e)).
  assert (S : nansum (map (fun x => fp1 e (xabs x)) c) = PInf).
  { unfold nansum. apply xsum_all_inf; auto.
    - intros x Hx. unfold valid in Hx. apply filter_In in Hx as [Hx Nx]. apply in_map_iff in Hx as (y & <- & Hy).
      destruct (no_inf_in c y N Hy) as [->|(a & -> & Ha)]; [cbn [xabs] in Nx; rewrite fp1_NaN in Nx; discriminate|].
      destruct (Req_EM_T a 0) as [->|Na].
      + left. cbn [xabs]. rewrite Rabs_R0. now apply fp1_0_neg.
      + right. destruct (fp1_abs_pos e a Na) as (v & -> & _). eexists. reflexivity.
    - apply in_valid; [|discriminate]. apply in_map_iff. exists (Fin 0). split; [cbn [xabs]; rewrite Rabs_R0; now apply fp1_0_neg|now apply In_reals]. }
  rewrite S, map_map. apply map_ext_in. intros x Hx. destruct (no_inf_in c x N Hx) as [->|(a & -> & Ha)].
  - cbn [xabs]. now rewrite fp1_NaN.
  - destruct (Req_EM_T a 0) as [->|Na].
    + cbn [xabs]. rewrite Rabs_R0, fp1_0_neg by trivial. reflexivity.
    + destruct (fp1_abs_pos e a Na) as (v & -> & _). reflexivity.
Qed.
(** q > 0 and nothing but zeros, or nothing at all: all NaN *)
Lemma R_void c e : no_inf c -> reals c = [] \/ (0 < num_val e /\ forall a, In a (reals c) -> a = 0) -> forall x, In x (spec_R c e) -> x = NaN.
Proof.
  intros N [Z|[Hq Z]] x Hx; unfold spec_R in Hx; rewrite fast_power_map in Hx; rewrite !map_map in Hx; apply in_map_iff in Hx as (y & <- & Hy);
    destruct (no_inf_in c y N Hy) as [->|(a & -> & Ha)]; try (cbn [xabs]; rewrite fp1_NaN; reflexivity).
  - rewrite Z in Ha. destruct Ha.
  - rewrite (Z a Ha). cbn [xabs]. rewrite Rabs_R0, fp1_0 by trivial.
    assert (S : nansum (map (fun x => fp1 e (xabs x)) c) = Fin 0).
    { destruct (map_no_inf (fun x => fp1 e (xabs x)) (fun _ => 0) c N) as [A B].
      - cbn [xabs]. apply fp1_NaN.
      - intros b Hb. rewrite (Z b Hb). cbn [xabs]. rewrite Rabs_R0, fp1_0 by trivial. reflexivity.
      - rewrite nansum_reals, B by trivial. rewrite Rsum_const. f_equal. ring. }
    rewrite S. cbn. destruct (Req_EM_T 0 0); [reflexivity|congruence].
Qed.
Lemma R_q0 c e : no_inf c -> num_val e = 0 -> reals c <> [] ->
  spec_R c e = map (fun x => match x with Fin a => Fin (/ INR (length (reals c))) | _ => NaN end) c.
Proof.
  intros N Hq NE. unfold spec_R. rewrite fast_power_map, (map_map xabs (fp1 e)).
  assert (P := INR_len_pos _ NE).
  assert (S : nansum (map (fun x => fp1 e (xabs x)) c) = Fin (INR (length (reals c)))).
  { destruct (map_no_inf (fun x => fp1 e (xabs x)) (fun _ => 1) c N) as [A B].
    - cbn [xabs]. apply fp1_NaN.
    - intros b Hb. cbn [xabs]. now apply fp1_e0.
    - rewrite nansum_reals, B by trivial. rewrite Rsum_const. f_equal. ring. }
  rewrite S, map_map. apply map_ext_in. intros x Hx. destruct (no_inf_in c x N Hx) as [->|(a & -> & Ha)]; cbn [xabs].
  - now rewrite fp1_NaN.
  - rewrite fp1_e0 by trivial. rewrite xdiv_Fin by lra. f_equal. unfold Rdiv. ring.
Qed.
Lemma U_fin n c e : no_inf c -> (reals c <> [] -> (1 <= n)%nat) -> (is_number (spec_U n c e) <-> determined (num_val e) (reals c)).
Proof.
  intros N Hn. split.
  - intros H. unfold spec_U in H. apply fin_xadd in H as [_ H].
    assert (NN : ~ (forall x, In x (map (fun t => xmul t (xlog2 t)) (spec_R c e)) -> x = NaN)).
    { intros K. rewrite fixednansum_NaN in H by exact K. destruct H; discriminate. }
    assert (RV : ~ (forall x, In x (spec_R c e) -> x = NaN)).
    { intros K. apply NN. intros x Hx. apply in_map_iff in Hx as (y & <- & Hy). now rewrite (K y Hy). }
    assert (NE : reals c <> []) by (intros Z; apply RV; now apply (R_void c e N (or_introl Z))).
    split; [exact NE|]. split.
    + intros Hq. destruct (Edec (reals c)) as [X|X]; [exact X|exfalso]. apply RV, (R_void c e N). right. split; trivial. now apply not_exists_nz.
    + intros Hq. destruct (Fdec (reals c)) as [X|X]; [exact X|exfalso]. apply not_forall_nz in X. apply NN. rewrite R_neg_zero by trivial. intros x Hx.
      rewrite map_map in Hx. apply in_map_iff in Hx as (y & <- & Hy). destruct y as [a| | |]; trivial. destruct (Req_EM_T a 0); trivial.
      cbn. destruct (Rlt_dec 0 0); [lra|]. destruct (Req_EM_T 0 0); [|congruence]. cbn. unfold scale_inf. destruct (Req_EM_T 0 0); congruence.
  - intros (A & B & D). specialize (Hn A). destruct (Rtotal_order (num_val e) 0) as [L|[L|L]].
    + assert (S : s_defined (num_val e) (reals c)). { split; [right; auto|]. specialize (D L). destruct (reals c); [congruence|]. constructor. now inversion D. }
      rewrite spec_U_eq by trivial. eexists. reflexivity.
    + unfold spec_U. rewrite R_q0 by trivial. rewrite map_map. assert (P := INR_len_pos _ A). assert (P' : 0 < / INR (length (reals c))) by now apply Rinv_0_lt_compat.
      destruct (map_no_inf (fun x => xmul (match x with Fin a => Fin (/ INR (length (reals c))) | _ => NaN end) (xlog2 (match x with Fin a => Fin (/ INR (length (reals c))) | _ => NaN end)))
        (fun _ => / INR (length (reals c)) * log2R (/ INR (length (reals c)))) c N eq_refl) as [F G].
      * intros a _. rewrite xlog2_pos by trivial. reflexivity.
      * rewrite fixednansum_eq; [|exact F|rewrite G; destruct (reals c); [congruence|discriminate]]. rewrite xlog2_pos by (apply lt_0_INR; lia). eexists. reflexivity.
    + rewrite spec_U_eq; trivial; [eexists; reflexivity|]. split; [now left|auto].
Qed.
Lemma map2_all_NaN (l l2 : list xr) : (forall x, In x l -> x = NaN) -> forall z, In z (map2 xmul l l2) -> z = NaN.
Proof.
  revert l2. induction l as [|x l IH]; intros l2 K z Hz; [destruct Hz|]. destruct l2 as [|y l2]; [destruct Hz|].
  rewrite map2_cons in Hz. destruct Hz as [<-|Hz].
  - now rewrite (K x (or_introl eq_refl)).
  - apply (IH l2); trivial. intros u Hu. apply K. now right.
Qed.
Lemma V_fin c e : no_inf c -> 0 <= num_val e -> (is_number (spec_V c e) <-> reals c <> [] /\ (0 < num_val e -> Exists (fun a => a <> 0) (reals c)) /\ (num_val e = 0 -> Forall (fun a => a <> 0) (reals c))).
Proof.
  intros N H0. split.
  - intros H. unfold spec_V in H. rewrite map_map in H.
    assert (RV : ~ (forall x, In x (spec_R c e) -> x = NaN)).
    { intros K. rewrite fixednansum_NaN in H; [destruct H; discriminate|]. now apply map2_all_NaN. }
    assert (NE : reals c <> []) by (intros Z; apply RV; now apply (R_void c e N (or_introl Z))).
    split; [exact NE|]. split.
    + intros Hq. destruct (Edec (reals c)) as [X|X]; [exact X|exfalso]. apply RV, (R_void c e N). right. split; trivial. now apply not_exists_nz.
    + intros Hq. destruct (Fdec (reals c)) as [X|X]; [exact X|exfalso]. apply not_forall_nz in X. rewrite R_q0 in H by trivial.
      rewrite map2_map, map2_diag in H. assert (P := INR_len_pos _ NE). assert (P' : 0 < / INR (length (reals c))) by now apply Rinv_0_lt_compat.
      set (L := map _ c) in H. assert (LC : forall x, In x L -> x = NInf \/ x = NaN \/ is_number x).
      { intros x Hx. unfold L in Hx. apply in_map_iff in Hx as (y & <- & Hy). destruct (no_inf_in c y N Hy) as [->|(a & -> & _)]; [right; left; reflexivity|].
        cbn [xabs]. unfold xlog2. destruct (Rlt_dec 0 (Rabs a)); [right; right; eexists; reflexivity|]. destruct (Req_EM_T (Rabs a) 0); [|right; left; reflexivity].
        left. cbn. now rewrite scale_inf_pos. }
      assert (LI : In NInf L).
      { unfold L. apply in_map_iff. exists (Fin 0). split; [|now apply In_reals]. cbn [xabs]. rewrite Rabs_R0. unfold xlog2. destruct (Rlt_dec 0 0); [lra|].
        destruct (Req_EM_T 0 0); [|congruence]. cbn. now rewrite scale_inf_pos. }
      unfold fixednansum in H. destruct (forallb isnan L) eqn:EL; [destruct H; discriminate|].
      unfold nansum in H. rewrite (xsum_all_inf NInf) in H; [destruct H; discriminate|auto| |].
      * intros x Hx. unfold valid in Hx. apply filter_In in Hx as [Hx Nx]. destruct (LC x Hx) as [->|[->|K]]; auto. discriminate.
      * apply in_valid; [trivial|discriminate].
  - intros (A & B & D). destruct H0 as [L|L].
    + rewrite spec_V_eq; trivial; [eexists; reflexivity|]. split; [now left|auto].
    + assert (S : s_defined (num_val e) (reals c)). { specialize (D (eq_sym L)). split; [now right|]. destruct (reals c); [congruence|]. constructor. now inversion D. }
      rewrite spec_V_eq by trivial. eexists. reflexivity.
Qed.
(** q < 0, a zero and a non-zero value: 0, whatever the values are *)
Lemma V_neg_zero c e : no_inf c -> num_val e < 0 -> In 0 (reals c) -> Exists (fun a => a <> 0) (reals c) -> spec_V c e = Fin 0.
Proof.
  intros N Hq Z X. unfold spec_V. rewrite R_neg_zero by trivial. rewrite map_map, map2_map, map2_diag.
  destruct (map_reals_opt (fun x => xmul (match x with Fin a => if Req_EM_T a 0 then NaN else Fin 0 | _ => NaN end) (xlog2 (xabs x))) nzb (fun _ => 0) c N eq_refl) as [A B].
  - intros a Ha. unfold nzb. destruct (Req_EM_T a 0); [reflexivity|]. cbn [xabs]. rewrite xlog2_pos by (now apply Rabs_pos_lt). cbn. f_equal. ring.
  - rewrite fixednansum_eq; trivial; rewrite B.
    + rewrite Rsum_const. f_equal. ring.
    + apply nz_nonempty in X. unfold nz in X. destruct (filter nzb (reals c)); [congruence|discriminate].
Qed.

(** ** C91 *)
Section C91.
Variables (m : mrq) (g nrep : nat) (j1 j2 : Z) (wd : bool).
Hypothesis HR : regular m g nrep.
Hypothesis HC : counted m.
Hypothesis HN : no_infinities m.
Hypothesis H1 : (1 <= j1)%Z.
Hypothesis H2 : (j1 < j2)%Z.
Hypothesis H3 : (j2 <= Z.of_nat g)%Z.
Lemma in_scales j : (j1 <= j <= j2)%Z -> In j (scales m).
Proof using HR H1 H3. intros Hj. rewrite (proj1 (proj2 HR)). apply one_to_In. lia. Qed.
Lemma count_pos j r : (j1 <= j <= j2)%Z -> numbers m j r <> [] -> (0 < count m j r)%nat.
Proof using HR HC HN H1 H3.
  intros Hj NE. rewrite count_numbers; trivial.
  - destruct (numbers m j r); [congruence|cbn; lia].
  - now apply in_scales.
  - split; [now apply no_inf_column|trivial].
Qed.
Lemma slope_iff r (y : Z -> xr) (P : Z -> Prop) : (forall j, (j1 <= j <= j2)%Z -> (is_number (y j) <-> P j)) -> (forall j, (j1 <= j <= j2)%Z -> P j -> numbers m j r <> []) ->
  (is_number (fslope wd m j1 j2 r y) <-> forall j, (j1 <= j <= j2)%Z -> P j).
Proof using HR HC HN H1 H2 H3.
  intros A B. rewrite fslope_fin; trivial.
  - split; intros H j Hj; apply A; auto.
  - intros H j Hj. apply count_pos; trivial. apply B; trivial. now apply A, H.
Qed.
Lemma zeta_iff r e : is_number (fslope wd m j1 j2 r (logS m e r)) <-> forall j, (j1 <= j <= j2)%Z -> determined (num_val e) (numbers m j r).
Proof using HR HC HN H1 H2 H3.
  apply slope_iff.
  - intros j Hj. apply logS_fin. now apply no_inf_column.
  - intros j Hj D. apply D.
Qed.
End C91.

(** zeta(q) and H *)
Theorem C91_exponents :
  forall m g nrep qs j1 j2 wd s,
  regular m g nrep -> counted m -> no_infinities m -> (1 <= j1)%Z -> (j1 < j2)%Z -> (j2 <= Z.of_nat g)%Z ->
  StructureFunction m (QArr qs) j1 j2 wd = Ok s -> forall r, (r < nrep)%nat ->
  (forall i, (i < length qs)%nat ->
     (is_number (at2 (sf_zeta s) i r) <-> forall j, (j1 <= j <= j2)%Z -> determined (nth i qs 0) (numbers m j r))) /\
  (is_number (nth r (sf_H s) NaN) <-> forall j, (j1 <= j <= j2)%Z -> Exists (fun a => a <> 0) (numbers m j r)).
Proof.
  intros m g nrep qs j1 j2 wd s HR HC HN H1 H2 H3 E r Hr. split.
  - intros i Hi. destruct (SF_rows m g nrep qs j1 j2 wd s HR H1 ltac:(lia) H3 E i r Hi Hr) as (_ & -> & _).
    exact (zeta_iff m g nrep j1 j2 wd HR HC HN H1 H2 H3 r (PyFloat (nth i qs 0))).
  - rewrite (SF_eq m g nrep HR) in E by (trivial; lia). destruct (has_two qs); [|discriminate]. injection E as <-. cbn [sf_H].
    rewrite (nth_map_lt _ _ _ 0%nat) by (now rewrite seq_length). rewrite seq_nth by trivial. cbn [Nat.add].
    assert (Z := zeta_iff m g nrep j1 j2 wd HR HC HN H1 H2 H3 r (PyFloat 2)). cbn [num_val] in Z.
    transitivity (is_number (fslope wd m j1 j2 r (logS m (PyFloat 2) r))).
    + split.
      * intros [v V]. apply (fin_xdiv _ 2). destruct (xdiv (fslope wd m j1 j2 r (logS m (PyFloat 2) r)) (Fin 2)) eqn:X; try discriminate. eexists. reflexivity.
      * intros [v ->]. rewrite xdiv_Fin by lra. eexists. reflexivity.
    + rewrite Z. split; intros K j Hj.
      * destruct (K j Hj) as (_ & B & _). apply B. lra.
      * specialize (K j Hj). split; [intros N; rewrite N in K; inversion K|]. split; [trivial|lra].
Qed.
Print Assumptions C91_exponents.

(** c_k, for every order *)
Theorem C91_log_cumulants :
  forall m g nrep n j1 j2 wd c,
  regular m g nrep -> counted m -> no_infinities m -> (1 <= j1)%Z -> (j1 < j2)%Z -> (j2 <= Z.of_nat g)%Z ->
  Cumulants m n j1 j2 wd = Ok c -> forall k r, (1 <= k <= n)%nat -> (r < nrep)%nat ->
  (is_number (at2 (cu_log_cumulants c) (k - 1) r) <->
   forall j, (j1 <= j <= j2)%Z -> numbers m j r <> [] /\ Forall (fun a => a <> 0) (numbers m j r)).
Proof.
  intros m g nrep n j1 j2 wd c HR HC HN H1 H2 H3 E k r Hk Hr.
  destruct (CUM_rows m g nrep n j1 j2 wd c HR H1 ltac:(lia) H3 E k r Hk Hr) as (_ & _ & _ & ->).
  transitivity (is_number (fslope wd m j1 j2 r (Cval m n k r))).
  - split; [|intros [v ->]; eexists; reflexivity]. intros [v V]. destruct (fslope wd m j1 j2 r (Cval m n k r)); [eexists; reflexivity| | |]; cbn in V; unfold scale_inf in V;
      repeat match type of V with context [if ?b then _ else _] => destruct b end; discriminate.
  - apply (slope_iff m g nrep j1 j2 wd HR HC HN H1 H2 H3).
    + intros j Hj. apply cum_fin; trivial. now apply no_inf_column.
    + intros j Hj D. apply D.
Qed.
Print Assumptions C91_log_cumulants.

(** hmin *)
Theorem C91_hmin :
  forall m g nrep j1 j2 wd warn h,
  regular m g nrep -> counted m -> no_infinities m -> (1 <= j1)%Z -> (j1 < j2)%Z -> (j2 <= Z.of_nat g)%Z ->
  estimate_hmin m j1 j2 wd warn = Ok h -> forall r, (r < nrep)%nat ->
  (is_number (nth r (hm_hmin h) NaN) <-> forall j, (j1 <= j <= j2)%Z -> Exists (fun a => a <> 0) (numbers m j r)).
Proof.
  intros m g nrep j1 j2 wd warn h HR HC HN H1 H2 H3 E r Hr. apply (HMIN_rows m g nrep) in E; trivial; [|lia]. rewrite E. cbn [hm_hmin].
  rewrite nth_seq_map by trivial. apply (slope_iff m g nrep j1 j2 wd HR HC HN H1 H2 H3).
  - intros j Hj. apply sup_fin. now apply no_inf_column.
  - intros j Hj D N. rewrite N in D. inversion D.
Qed.
Print Assumptions C91_hmin.

(** D(q) for every q, h(q) for q >= 0 *)
Theorem C91_spectrum :
  forall m g nrep q j1 j2 wd s,
  regular m g nrep -> counted m -> no_infinities m -> (1 <= j1)%Z -> (j1 < j2)%Z -> (j2 <= Z.of_nat g)%Z ->
  MultifractalSpectrum m j1 j2 wd q = Ok s -> forall i r, (i < length (q_items q))%nat -> (r < nrep)%nat ->
  (is_number (at2 (ms_Dq s) i r) <-> forall j, (j1 <= j <= j2)%Z -> determined (q_at q i) (numbers m j r)) /\
  (0 < q_at q i -> (is_number (at2 (ms_hq s) i r) <-> forall j, (j1 <= j <= j2)%Z -> Exists (fun a => a <> 0) (numbers m j r))) /\
  (q_at q i = 0 -> (is_number (at2 (ms_hq s) i r) <-> forall j, (j1 <= j <= j2)%Z -> numbers m j r <> [] /\ Forall (fun a => a <> 0) (numbers m j r))).
Proof.
  intros m g nrep q j1 j2 wd s HR HC HN H1 H2 H3 E i r Hi Hr.
  destruct (MFS_rows m g nrep q j1 j2 wd s HR H1 ltac:(lia) H3 E i r Hi Hr) as (_ & -> & ->). unfold q_at.
  set (e := nth i (q_items q) (PyFloat 0)). split; [|split].
  - transitivity (is_number (fslope wd m j1 j2 r (Uval m e r))).
    + split; [intros H; now apply fin_xadd in H|intros [v ->]; eexists; reflexivity].
    + apply (slope_iff m g nrep j1 j2 wd HR HC HN H1 H2 H3).
      * intros j Hj. apply U_fin; [now apply no_inf_column|]. intros NE. now apply (count_pos m g nrep j1 j2).
      * intros j Hj D. apply D.
  - intros Hq. apply (slope_iff m g nrep j1 j2 wd HR HC HN H1 H2 H3).
    + intros j Hj. unfold Vval. rewrite V_fin by (try lra; now apply no_inf_column). split; [intros (_ & A & _); auto|].
      intros X. split; [intros N; unfold numbers in X; rewrite N in X; inversion X|]. split; [trivial|lra].
    + intros j Hj D N. rewrite N in D. inversion D.
  - intros Hq. apply (slope_iff m g nrep j1 j2 wd HR HC HN H1 H2 H3).
    + intros j Hj. unfold Vval. rewrite V_fin by (try lra; now apply no_inf_column). split; [intros (A & _ & B); auto|].
      intros [A B]. split; [trivial|]. split; [lra|trivial].
    + intros j Hj D. apply D.
Qed.
Print Assumptions C91_spectrum.

(** REFUTED for h(q), q < 0: a zero among the values leaves the moment of order q infinite, D(q) is NaN as it should, but h(q) is fitted to
    a(j) = 0 at that scale, whatever the values are: with a zero at every fitted scale h(q) = 0 *)
Theorem C91_h_negative_refuted :
  forall m g nrep q j1 j2 wd s,
  regular m g nrep -> counted m -> no_infinities m -> (1 <= j1)%Z -> (j1 < j2)%Z -> (j2 <= Z.of_nat g)%Z ->
  MultifractalSpectrum m j1 j2 wd q = Ok s -> forall i r, (i < length (q_items q))%nat -> (r < nrep)%nat -> q_at q i < 0 ->
  (forall j, (j1 <= j <= j2)%Z -> In 0 (numbers m j r) /\ Exists (fun a => a <> 0) (numbers m j r)) ->
  at2 (ms_hq s) i r = Fin 0 /\ ~ is_number (at2 (ms_Dq s) i r) /\
  forall j, (j1 <= j <= j2)%Z -> at3 (ms_V s) i r j = Fin 0.
Proof.
  intros m g nrep q j1 j2 wd s HR HC HN H1 H2 H3 E i r Hi Hr Hq HZ.
  destruct (MFS_rows m g nrep q j1 j2 wd s HR H1 ltac:(lia) H3 E i r Hi Hr) as (A & _ & B).
  assert (D := proj1 (C91_spectrum m g nrep q j1 j2 wd s HR HC HN H1 H2 H3 E i r Hi Hr)).
  set (e := nth i (q_items q) (PyFloat 0)) in *.
  assert (V : forall j, (j1 <= j <= j2)%Z -> Vval m e r j = Fin 0).
  { intros j Hj. destruct (HZ j Hj) as [Z X]. apply V_neg_zero; trivial. now apply no_inf_column. }
  split; [|split].
  - rewrite B. destruct (fit_exact wd m j1 j2 r 0 0 H2) as [FE _].
    + intros j Hj. apply (count_pos m g nrep j1 j2); trivial. intros N. destruct (HZ j Hj) as [Z _]. rewrite N in Z. destruct Z.
    + etransitivity; [|exact FE]. apply fslope_ext. intros j Hj. rewrite V by trivial. f_equal. ring.
  - intros K. destruct (proj1 D K j1 ltac:(lia)) as (_ & _ & F). specialize (F Hq). rewrite Forall_forall in F. destruct (HZ j1 ltac:(lia)) as [Z _]. now apply (F 0).
  - intros j Hj. assert (Ij : In j (scales m)) by (rewrite (proj1 (proj2 HR)); apply one_to_In; lia). destruct (A j Ij) as [_ ->]. now apply V.
Qed.
Print Assumptions C91_h_negative_refuted.

(** ** Concrete cases *)
(** the C28-C42 demo meets the hypotheses: everything is a number *)
Example C91_demo wd : exists sf cu sp hm,
  StructureFunction demo (QArr [-1; 0; 2]) 1 3 wd = Ok sf /\ Cumulants demo 3 1 3 wd = Ok cu /\
  MultifractalSpectrum demo 1 3 wd (QArr [-1; 0; 2]) = Ok sp /\ estimate_hmin demo 1 3 wd true = Ok hm /\
  forall r, (r < 2)%nat -> (forall i, (i < 3)%nat -> is_number (at2 (sf_zeta sf) i r) /\ is_number (at2 (ms_Dq sp) i r)) /\
    is_number (nth r (sf_H sf) NaN) /\ (forall k, (1 <= k <= 3)%nat -> is_number (at2 (cu_log_cumulants cu) (k - 1) r)) /\ is_number (nth r (hm_hmin hm) NaN).
Proof.
  destruct (demo_estimators wd) as (sf & cu & sp & hm & Es & Ec & Ep & Eh & _).
  exists sf, cu, sp, hm. do 4 (split; [assumption|]). intros r Hr.
  assert (NI : no_infinities demo).
  { intros j a E. cbn in E. repeat (destruct (_ =? _)%Z in E; [injection E as <-; repeat (apply Forall_cons; [unfold no_inf; repeat (apply Forall_cons; [first [left; reflexivity|right; eexists; reflexivity]|]); apply Forall_nil|]); apply Forall_nil|]). discriminate. }
  assert (NZ : forall j, (1 <= j <= 3)%Z -> numbers demo j r <> [] /\ Forall (fun a => a <> 0) (numbers demo j r)).
  { intros j Hj. destruct (demo_usable j r Hj Hr) as ([_ U] & Z & _). split; trivial. }
  assert (EX : forall j, (1 <= j <= 3)%Z -> Exists (fun a => a <> 0) (numbers demo j r)).
  { intros j Hj. destruct (NZ j Hj) as [A B]. destruct (numbers demo j r); [congruence|]. constructor. now inversion B. }
  assert (D : forall q j, (1 <= j <= 3)%Z -> determined q (numbers demo j r)).
  { intros q j Hj. destruct (NZ j Hj) as [A B]. split; [trivial|]. split; intros _; auto. }
  destruct (C91_exponents demo 3 2 _ 1 3 wd sf demo_regular demo_counted NI ltac:(lia) ltac:(lia) ltac:(lia) Es r Hr) as [A B].
  split; [|split; [apply B, EX|split]].
  - intros i Hi. split; [apply A; [exact Hi|intros; now apply D]|].
    apply (C91_spectrum demo 3 2 _ 1 3 wd sp demo_regular demo_counted NI ltac:(lia) ltac:(lia) ltac:(lia) Ep i r Hi Hr). intros; now apply D.
  - intros k Hk. apply (C91_log_cumulants demo 3 2 3 1 3 wd cu demo_regular demo_counted NI ltac:(lia) ltac:(lia) ltac:(lia) Ec k r Hk Hr). exact NZ.
  - apply (C91_hmin demo 3 2 1 3 wd true hm demo_regular demo_counted NI ltac:(lia) ltac:(lia) ltac:(lia) Eh r Hr). exact EX.
Qed.
(** values 2^j with one zero per scale: D(-1) is not a number but h(-1) = 0 *)
Definition holed : mrq := add_values (add_values (new_mrq WaveletCoef 0) [[Fin 2; Fin 0; Fin (-2)]] 1) [[Fin 4; Fin 0]] 2.
Example C91_holed wd : exists sp, MultifractalSpectrum holed 1 2 wd (QArr [-1; 2]) = Ok sp /\
  at2 (ms_hq sp) 0 0 = Fin 0 /\ ~ is_number (at2 (ms_Dq sp) 0 0) /\ is_number (at2 (ms_Dq sp) 1 0) /\ is_number (at2 (ms_hq sp) 1 0).
Proof.
  assert (HR : regular holed 2 1).
  { split; [lia|]. split; [reflexivity|]. split; [reflexivity|]. intros j a E.
    cbn in E. repeat (destruct (_ =? _)%Z in E; [injection E as <-; reflexivity|]). discriminate. }
  assert (HC : counted holed).
  { intros j a E. cbn in *. repeat (destruct (_ =? _)%Z; [injection E as <-; reflexivity|]). discriminate. }
  assert (NI : no_infinities holed).
  { intros j a E. cbn in E. repeat (destruct (_ =? _)%Z in E; [injection E as <-; repeat (apply Forall_cons; [unfold no_inf; repeat (apply Forall_cons; [first [left; reflexivity|right; eexists; reflexivity]|]); apply Forall_nil|]); apply Forall_nil|]). discriminate. }
  assert (HZ : forall j, (1 <= j <= 2)%Z -> In 0 (numbers holed j 0) /\ Exists (fun a => a <> 0) (numbers holed j 0)).
  { intros j Hj. assert (j = 1 \/ j = 2)%Z as [-> | ->] by lia; (split; [cbn; auto|constructor; lra]). }
  assert (E := MFS_eq holed 2 1 HR (QArr [-1; 2]) 1 2 wd ltac:(lia) ltac:(lia) ltac:(lia)).
  eexists. split; [exact E|]. revert E. match goal with |- _ = Ok ?s -> _ => generalize s end. intros sp E.
  destruct (C91_h_negative_refuted holed 2 1 _ 1 2 wd sp HR HC NI ltac:(lia) ltac:(lia) ltac:(lia) E 0%nat 0%nat) as (A & B & _); [cbn; lia|lia|unfold q_at; cbn; lra|exact HZ|].
  destruct (C91_spectrum holed 2 1 _ 1 2 wd sp HR HC NI ltac:(lia) ltac:(lia) ltac:(lia) E 1%nat 0%nat) as (C & D & _); [cbn; lia|lia|].
  split; [exact A|]. split; [exact B|]. split.
  - apply C. intros j Hj. destruct (HZ j Hj) as [Z X]. split; [intros N; rewrite N in Z; destruct Z|]. split; [trivial|]. unfold q_at; cbn. lra.
  - apply D; [unfold q_at; cbn; lra|]. intros j Hj. apply HZ, Hj.
Qed.
