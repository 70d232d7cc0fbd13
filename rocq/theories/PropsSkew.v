(** * C64: the skewness convolution; C65: skewed_mrw never returns *)
From Coq Require Import Reals List ZArith Bool Lia Lra String.
From Verif Require Import XReal PyBase ModelSimul Spec SpecSimul LXReal LBase LDft LSimul LCirc LFgn LFgnCov LNoise LBivariate LSkew PropsSimul.
Import ListNotations.
Open Scope R_scope.
Local Notation length := List.length.

Lemma kbar_nth N K0 alpha beta dt t : 0 < dt -> (t < 2 * N)%nat ->
  nth t (kbar N K0 alpha beta dt) 0 = if (Nat.leb 1 t && Nat.leb t N)%bool then skew_kernel K0 alpha beta dt t else 0.
Proof.
  intros Hd Ht. unfold kbar.
  rewrite (nth_map_seq _ (2 * N) t Ht). destruct (Nat.eqb_spec t 0) as [->|Nt]; [reflexivity|].
  replace (Nat.leb 1 t) with true by (symmetry; apply Nat.leb_le; lia). cbn [andb]. destruct (Nat.leb t N); [|reflexivity].
  unfold skew_kernel. rewrite !powR_pos; trivial. apply lt_0_INR. lia.
Qed.
Lemma causal_sumn K n e t : causal_sum K n e t = sumn n (fun i => K (S i) * nth (t - S i) e 0).
Proof. unfold causal_sum, sumn. f_equal. rewrite <- seq_shift, map_map. reflexivity. Qed.

Lemma seq_shift_add N n a : map (fun k => (N + k)%nat) (seq a n) = seq (N + a) n.
Proof. revert a. induction n as [|n IH]; intros a; [reflexivity|]. cbn [seq map]. rewrite IH. now rewrite Nat.add_succ_r. Qed.
Lemma skew_col_eq N K0 alpha beta dt c : (1 <= N)%nat -> 0 < dt -> length c = (2 * N)%nat ->
  skew_col N K0 alpha beta dt c = Ok (map (fun k => causal_sum (skew_kernel K0 alpha beta dt) N c (N + k)) (seq 0 N)).
Proof.
  intros HN Hd Lc. assert (Lk : length (kbar N K0 alpha beta dt) = (2 * N)%nat) by (unfold kbar; now rewrite map_length, seq_length).
  assert (Q := circular_convolution (kbar N K0 alpha beta dt) c ltac:(lia) ltac:(lia)). rewrite Lk in Q.
  unfold skew_col.
  destruct (fft (map toC (kbar N K0 alpha beta dt))) as [fk|]; [|discriminate Q]. cbn [bind] in *.
  destruct (fft (map toC c)) as [fe|]; [|discriminate Q]. cbn [bind] in *.
  destruct (bcast_cmul fk fe) as [p|]; [|discriminate Q]. cbn [bind] in *.
  destruct (ifft p) as [y|]; [|discriminate Q]. cbn [bind] in *. apply (f_equal (fun r => match r with Ok v => v | _ => [] end)) in Q. cbn beta iota in Q. f_equal. rewrite Q.
  replace (seq 0 (2 * N)) with (seq 0 (N + N)) by (f_equal; lia). rewrite seq_app, map_app, skipn_app, map_length, seq_length, Nat.sub_diag. cbn [skipn].
  rewrite skipn_all2 by (rewrite map_length, seq_length; lia). cbn [app]. rewrite Nat.add_0_l.
  replace (seq N N) with (map (fun k => (N + k)%nat) (seq 0 N)) by (rewrite seq_shift_add; f_equal; lia).
  rewrite map_map. apply map_ext_in. intros k Hk. apply in_seq in Hk. rewrite causal_sumn.
  set (K := skew_kernel K0 alpha beta dt).
  rewrite (sumn_ext (2 * N) _ (fun m => (if (Nat.leb 1 m && Nat.leb m N)%bool then K m * nth (N + k - m) c 0 else 0))).
  2:{ intros m Hm. rewrite kbar_nth by trivial. destruct (Nat.leb_spec 1 m) as [M1|M1]; [destruct (Nat.leb_spec m N) as [M2|M2]|]; cbn [andb].
      - rewrite (sumn_single (2 * N) _ (N + k - m)%nat); [| lia |].
        + replace ((Z.of_nat m + Z.of_nat (N + k - m) - Z.of_nat (N + k)) mod Z.of_nat (2 * N))%Z with 0%Z.
          * destruct (Z.eq_dec 0 0); [|congruence]. fold K. ring.
          * replace (Z.of_nat m + Z.of_nat (N + k - m) - Z.of_nat (N + k))%Z with 0%Z by lia. symmetry. apply Z.mod_0_l. lia.
        + intros l Hl Nl. destruct (Z.eq_dec _ 0) as [E|]; [|ring]. exfalso. apply Nl. apply Z.mod_divide in E as [q E]; [|lia].
          assert (Q0 : (q = 0)%Z) by (destruct (Z_le_gt_dec q (-1)); [nia|destruct (Z_le_gt_dec q 0); [lia|nia]]). subst q. lia.
      - apply sumn_zero. intros; ring.
      - apply sumn_zero. intros; ring. }
  replace (sumn (2 * N)) with (sumn (S N + (N - 1))) by (f_equal; lia). rewrite sumn_app, sumn_S_first.
  replace (Nat.leb 1 0) with false by reflexivity. cbn [andb].
  rewrite (sumn_zero (N - 1)).
  2:{ intros i _. destruct (Nat.leb_spec (S N + i) N); [lia|]. rewrite andb_false_r. reflexivity. }
  rewrite Rplus_0_l, Rplus_0_r. apply sumn_ext. intros i Hi. destruct (Nat.leb_spec (S i) N); [|lia]. destruct (Nat.leb_spec 1 (S i)); [|lia]. reflexivity.
Qed.

(** ** C64 *)
(** on noise of length 2 N (N fake past values first), the result at time k is exactly sum_{tau=1}^{N} K(tau) e[N + k - tau]:
    it uses strictly past values only, and nothing wraps around *)
Theorem C64_convolution R N e K0 alpha beta dt : (1 <= R)%nat -> (1 <= N)%nat -> 0 < dt -> shaped R (2 * N) e ->
  exists y, skewness_convolution e K0 alpha beta dt = Ok y /\ shaped R N y /\
    forall r k, (r < R)%nat -> (k < N)%nat -> entry 0 y r k = causal_sum (skew_kernel K0 alpha beta dt) N (nth r e []) (N + k).
Proof.
  intros HR HN Hd [L F].
  exists (map (fun c => map (fun k => causal_sum (skew_kernel K0 alpha beta dt) N c (N + k)) (seq 0 N)) e). split; [|split].
  - unfold skewness_convolution. destruct e as [|c0 e]; [cbn in L; lia|]. cbn [hd]. rewrite (Forall_inv F). rewrite Nat.mul_comm, Nat.div_mul by lia.
    apply mapM_map_ok. intros c Hc. apply skew_col_eq; trivial. rewrite Forall_forall in F. now apply F.
  - split; [now rewrite map_length|]. apply Forall_map. apply Forall_forall. intros c _. now rewrite map_length, seq_length.
  - intros r k Hr Hk. unfold entry.
    rewrite (nth_indep _ [] ((fun c => map (fun k => causal_sum (skew_kernel K0 alpha beta dt) N c (N + k)) (seq 0 N)) [])) by (rewrite map_length; lia).
    rewrite (map_nth (fun c => map (fun k => causal_sum (skew_kernel K0 alpha beta dt) N c (N + k)) (seq 0 N))). exact (nth_map_seq (fun k => causal_sum (skew_kernel K0 alpha beta dt) N (nth r e []) (N + k)) N k Hk).
Qed.

Lemma fold_left_sum (f : nat -> Rdefinitions.R) l acc : fold_left (fun a i => a + f i) l acc = acc + fold_right Rplus 0 (map f l).
Proof. revert acc. induction l as [|i l IH]; intros acc; cbn [fold_left map fold_right]; [ring|]. rewrite IH. ring. Qed.
Lemma dumb_col_nth K0 alpha beta dt c k : 0 < dt -> (k < length c)%nat ->
  nth k (dumb_col K0 alpha beta dt c) 0 = causal_sum (skew_kernel K0 alpha beta dt) k c k.
Proof.
  intros Hd Hk. unfold dumb_col. rewrite nth_map_seq by trivial.
  rewrite (fold_left_sum (fun i => K0 / powR (INR (k - i)) alpha / powR dt beta * nth i c 0)). rewrite Rplus_0_l, causal_sumn.
  change (sumn k (fun i => K0 / powR (INR (k - i)) alpha / powR dt beta * nth i c 0) = sumn k (fun i => skew_kernel K0 alpha beta dt (S i) * nth (k - S i) c 0)).
  rewrite sumn_rev. apply sumn_ext. intros i Hi. replace (k - (k - 1 - i))%nat with (S i) by lia. replace (k - 1 - i)%nat with (k - S i)%nat by lia.
  unfold skew_kernel. rewrite !powR_pos; trivial. apply lt_0_INR. lia.
Qed.
(** the reference implementation is the causal sum over all the past, and on noise with a zero fake past both agree *)
Theorem C64_reference R N e K0 alpha beta dt : (1 <= R)%nat -> (1 <= N)%nat -> 0 < dt -> shaped R N e ->
  shaped R N (skewness_convolution_dumb e K0 alpha beta dt) /\
  (forall r k, (r < R)%nat -> (k < N)%nat ->
     entry 0 (skewness_convolution_dumb e K0 alpha beta dt) r k = causal_sum (skew_kernel K0 alpha beta dt) k (nth r e []) k) /\
  skewness_convolution (map (fun c => repeat 0 N ++ c) e) K0 alpha beta dt = Ok (skewness_convolution_dumb e K0 alpha beta dt).
Proof.
  intros HR HN Hd [L F]. assert (Sd : shaped R N (skewness_convolution_dumb e K0 alpha beta dt)).
  { split; [unfold skewness_convolution_dumb; now rewrite map_length|]. unfold skewness_convolution_dumb. apply Forall_map. eapply Forall_impl; [|exact F].
    intros c Hc. cbn beta in *. unfold dumb_col. now rewrite map_length, seq_length. }
  assert (Ed : forall r k, (r < R)%nat -> (k < N)%nat ->
     entry 0 (skewness_convolution_dumb e K0 alpha beta dt) r k = causal_sum (skew_kernel K0 alpha beta dt) k (nth r e []) k).
  { intros r k Hr Hk. unfold entry, skewness_convolution_dumb.
    rewrite (nth_indep _ [] (dumb_col K0 alpha beta dt [])) by (rewrite map_length; lia). rewrite map_nth. apply dumb_col_nth; trivial.
    rewrite Forall_forall in F. rewrite F; trivial. apply nth_In. lia. }
  refine (conj Sd (conj Ed _)).
  assert (SZ : shaped R (2 * N) (map (fun c => repeat 0 N ++ c) e)).
  { split; [now rewrite map_length|]. apply Forall_map. eapply Forall_impl; [|exact F]. intros c Hc. cbn beta in *. rewrite app_length, repeat_length. lia. }
  destruct (C64_convolution R N _ K0 alpha beta dt HR HN Hd SZ) as [y [Ey [[Ly Fy] Vy]]]. rewrite Ey. f_equal.
  apply nth_ext with (d := []) (d' := []); [destruct Sd as [Sd _]; lia|]. intros r Hr. rewrite Ly in Hr.
  assert (Lr : length (nth r y []) = N) by (rewrite Forall_forall in Fy; apply Fy, nth_In; lia).
  assert (Ld : length (nth r (skewness_convolution_dumb e K0 alpha beta dt) []) = N) by (destruct Sd as [S1 S2]; rewrite Forall_forall in S2; apply S2, nth_In; lia).
  apply nth_ext with (d := 0) (d' := 0); [lia|]. intros k Hk. rewrite Lr in Hk. fold (entry 0 y r k). fold (entry 0 (skewness_convolution_dumb e K0 alpha beta dt) r k).
  rewrite Vy, Ed by trivial. rewrite (nth_indep _ [] ((fun c => repeat 0 N ++ c) [])) by (rewrite map_length; lia). rewrite (map_nth (fun c => repeat 0 N ++ c)).
  assert (Lc : length (nth r e []) = N) by (rewrite Forall_forall in F; apply F, nth_In; lia). set (c := nth r e []) in *.
  rewrite !causal_sumn. replace (sumn N) with (sumn (k + (N - k))) by (f_equal; lia). rewrite sumn_app. rewrite (sumn_zero (N - k)).
  - rewrite Rplus_0_r. apply sumn_ext. intros i Hi. f_equal. rewrite app_nth2; rewrite repeat_length; [|lia]. f_equal. lia.
  - intros i Hi. rewrite app_nth1 by (rewrite repeat_length; lia). rewrite nth_repeat. ring.
Qed.
(** REFUTED for noise of odd length: always ValueError *)
Theorem C64_odd_length_refuted R n e K0 alpha beta dt : (1 <= R)%nat -> shaped R (2 * n + 1) e -> skewness_convolution e K0 alpha beta dt = Err ValueError.
Proof.
  intros HR [L F]. unfold skewness_convolution. destruct e as [|c e]; [cbn in L; lia|]. cbn [hd]. assert (Lc := Forall_inv F). cbn beta in Lc.
  replace (length c / 2)%nat with n by (rewrite Lc; apply (Nat.div_unique (2 * n + 1) 2 n 1); lia).
  cbn [mapM]. replace (skew_col n K0 alpha beta dt c) with (Err (A := list Rdefinitions.R) ValueError); [reflexivity|]. symmetry. unfold skew_col.
  destruct n as [|n]; [reflexivity|]. assert (Lk : length (kbar (S n) K0 alpha beta dt) = (2 * S n)%nat) by (unfold kbar; now rewrite map_length, seq_length).
  rewrite !fft_real by lia. cbn [bind]. unfold bcast_cmul. rewrite !map_length, !seq_length.
  rewrite Lk, Lc. destruct (Nat.eqb_spec (2 * S n) (2 * S n + 1)); [lia|]. replace (2 * S n)%nat with (S (S (2 * n))) by lia.
  replace (S (S (2 * n)) + 1)%nat with (S (S (S (2 * n)))) by lia. cbn [seq map bind]. reflexivity.
Qed.

(** ** C65 *)
Lemma gaussian_cme_err cov N z e : gaussian_cme cov N z = Err e -> e = ValueError.
Proof.
  assert (Fe : forall x e, fft x = Err e -> e = ValueError) by (intros [|a x] e' Q; cbn [fft] in Q; congruence).
  unfold gaussian_cme. destruct (fft (map toC (embed cov))) as [Lm|e1] eqn:E1; cbn [bind]; [|intros [= ->]; eauto].
  destruct (Nat.eqb (2 * N - 2) 0); [congruence|].
  set (s := map _ Lm). intros Q. destruct (mapM (fun c => p <- bcast_cmul c s;; fft p) z) as [x|e2] eqn:E2; cbn [bind] in Q; [discriminate|].
  injection Q as <-. assert (G : forall a e', In a z -> (p <- bcast_cmul a s;; fft p) = Err e' -> e' = ValueError).
  { intros a e' _. destruct (bcast_cmul a s) as [p|e3] eqn:E3; cbn [bind]; [apply Fe|]. intros [= <-]. unfold bcast_cmul in E3.
    destruct (Nat.eqb _ _); [discriminate|]. destruct a as [|? [|? ?]], s as [|? [|? ?]]; congruence. }
  clear -G E2. revert e2 E2. induction z as [|a z IH]; intros e2 E2; [discriminate|]. cbn [mapM] in E2.
  destruct (p <- bcast_cmul a s;; fft p) as [b|e3] eqn:E3; cbn [bind] in E2.
  - destruct (mapM _ z) as [bs|e4] eqn:E4; cbn [bind] in E2; [discriminate|]. injection E2 as <-. apply IH; trivial. intros a' e' Ha. apply G. now right.
  - injection E2 as <-. apply (G a); [now left|trivial].
Qed.
(** REFUTED: skewed_mrw returns for no arguments.  Whatever the shape (at least one realisation), the parameters and the noise, it
    raises ValueError: the 2 N + 1 noise samples it draws are one too many for the convolution *)
Theorem C65_skewed_mrw_refuted sh H lam L K0 alpha sigma dt beta do_mirror drawn_w drawn_e :
  (1 <= shape_R sh)%nat -> 0 < dt -> shaped (shape_R sh) (4 * shape_N sh) (nz drawn_e) ->
  skewed_mrw sh H lam L K0 alpha sigma dt beta do_mirror drawn_w drawn_e = Err ValueError.
Proof.
  intros HR Hd Se. unfold skewed_mrw. destruct (Rle_dec 0 H) as [H0|H0]; [destruct (Rle_dec H 1) as [H1|H1]|]; [|reflexivity|reflexivity]. cbn [negb].
  destruct (Req_EM_T dt 0) as [|_]; [lra|]. destruct (Rlt_dec (INR (shape_N sh)) (L / dt)); [reflexivity|].
  assert (Gw : forall e, gaussian_w (shape_N sh) L lam dt "cme" None drawn_w = Err e -> e = ValueError).
  { intros e. unfold gaussian_w, rho_w. destruct (Req_EM_T dt 0); [lra|]. destruct (_ || _)%bool; cbn [bind String.eqb Ascii.eqb Bool.eqb andb]; [|congruence]. apply gaussian_cme_err. }
  destruct (gaussian_w (shape_N sh) L lam dt "cme" None drawn_w) as [[w ww]|e1]; cbn [bind]; [|f_equal; now apply Gw]. clear Gw.
  destruct (Nat.eq_dec (shape_N sh) 0) as [N0|N0].
  - unfold fgn_cols. rewrite H_test by trivial. cbn [shape_N]. rewrite N0. cbn [Nat.mul Nat.add]. rewrite (proj1 (step_ok (Some dt) 1 dt ltac:(lia) ltac:(left; auto))). cbn [bind String.eqb Ascii.eqb Bool.eqb andb].
    destruct (gaussian_cme (fgn_cov 1 H sigma dt) 1 (nz drawn_e)) as [[x b]|e2] eqn:E2.
    + exfalso. unfold gaussian_cme in E2. destruct (fft _); cbn [bind Nat.mul Nat.add Nat.sub Nat.eqb] in E2; discriminate.
    + apply gaussian_cme_err in E2. subst e2. reflexivity.
  - assert (HN : (2 <= 2 * shape_N sh + 1)%nat) by lia.
    assert (Se2 : shaped (shape_R sh) (2 * (2 * shape_N sh + 1 - 1)) (nz drawn_e)) by (replace (2 * (2 * shape_N sh + 1 - 1))%nat with (4 * shape_N sh)%nat by lia; exact Se).
    assert (Sh := array_shaped (cme_val (fgn_cov (2 * shape_N sh + 1) H sigma dt) (2 * shape_N sh + 1) (nz drawn_e)) (shape_R sh) (2 * shape_N sh + 1)).
    destruct (fgn_cme_eq (SPair (2 * shape_N sh + 1) (shape_R sh)) H sigma (Some dt) None drawn_e _ dt _ _ eq_refl HN ltac:(left; auto) H0 H1
       (cme_eq (fgn_cov (2 * shape_N sh + 1) H sigma dt) _ HN (fgn_cov_length _ _ _ _) (shape_R sh) (nz drawn_e) Se2) Sh) as [-> _]. cbn [bind].
    assert (Q : skewed_half 1 (shape_N sh) (map (centre_w 1 lam (L / dt)) w) (array (cme_val (fgn_cov (2 * shape_N sh + 1) H sigma dt) (2 * shape_N sh + 1) (nz drawn_e)) (shape_R sh) (2 * shape_N sh + 1)) K0 alpha beta dt = Err ValueError).
    { unfold skewed_half. rewrite (C64_odd_length_refuted (shape_R sh) (shape_N sh)); [reflexivity|trivial|]. destruct Sh as [S1 S2]. split; [now rewrite map_length|].
      apply Forall_map. eapply Forall_impl; [|exact S2]. intros c Hc. cbn beta in *. now rewrite map_length. }
    unfold array in Q. rewrite Q. reflexivity.
Qed.
