(** * C118: which samples of a recording count *)
From Coq Require Import Reals List ZArith Bool Lra Lia String.
From Verif Require Import XReal PyBase ModelUtils ModelMRQ ModelStructure ModelWavelet ModelPSD Spec SpecMRQ LXReal LUtils LBase LFilter LTransform LWave PropsWavelet PropsMissing.
Import ListNotations.
Open Scope R_scope.
Local Notation length := List.length.
Local Notation entry := SpecMRQ.entry.

(** ** Specification: with a filter of even length L, the samples before L/2 - 1 and the last L/2 ones (one more in a recording of even length) *)
Definition ignored (n L i : nat) : Prop :=
  (i < L / 2 - 1 \/ n <= i + L / 2 + (if Nat.even n then 1 else 0))%nat.
(** two recordings of the same length that agree elsewhere *)
Definition same_inside (L : nat) (c c' : col) : Prop :=
  length c' = length c /\ forall i, ~ ignored (length c) L i -> nth i c' NaN = nth i c NaN.

Lemma even_half (L : nat) : Nat.Even L -> (1 <= L)%nat -> exists m, (1 <= m)%nat /\ L = (2 * m)%nat /\ (L / 2 = m)%nat /\ ((L - 1) / 2 = m - 1)%nat.
Proof.
  intros [m ->] H. exists m. split; [lia|]. split; [reflexivity|]. split; [rewrite Nat.mul_comm; now apply Nat.div_mul|].
  symmetry. apply (Nat.div_unique (2 * m - 1) 2 (m - 1) 1); lia.
Qed.
(** what the retained positions of scale 1 see *)
Lemma seen_inside n L k i : Nat.Even L -> (1 <= L)%nat -> kept n L (2 * k + 1) = true ->
  (2 * k + 2 + (L - 1) / 2 <= i + L)%nat -> (i <= 2 * k + 1 + (L - 1) / 2)%nat -> ~ ignored n L i.
Proof.
  intros HE HL K H1 H2. destruct (even_half L HE HL) as (m & Hm & EL & E2 & E3). rewrite E3 in *. unfold ignored. rewrite E2.
  apply andb_prop in K as [K1 K2]. apply Nat.leb_le in K1, K2. destruct (Nat.even n) eqn:EN; [|lia].
  apply Nat.even_spec in EN as [q ->]. lia.
Qed.
Lemma inside_seen n L i : Nat.Even L -> (1 <= L)%nat -> (2 * L <= n + 1)%nat -> ~ ignored n L i -> exists k, (k < n / 2)%nat /\ kept n L (2 * k + 1) = true /\
  (2 * k + 2 + (L - 1) / 2 <= i + L)%nat /\ (i <= 2 * k + 1 + (L - 1) / 2)%nat.
Proof.
  intros HE HL Hn NI. destruct (even_half L HE HL) as (m & Hm & EL & E2 & E3). rewrite E3. unfold ignored in NI. rewrite E2 in NI. unfold kept.
  assert (D := Nat.div_mod n 2 ltac:(lia)). assert (M := Nat.mod_upper_bound n 2 ltac:(lia)).
  assert (X : exists k, (L - 1 <= 2 * k + 1)%nat /\ (2 * k + 1 + L <= n)%nat /\ (2 * k + 2 + (m - 1) <= i + L)%nat /\ (i <= 2 * k + 1 + (m - 1))%nat).
  { assert (EN : (n mod 2 = 0 /\ Nat.even n = true \/ n mod 2 = 1 /\ Nat.even n = false)%nat).
    { rewrite <- Nat.negb_odd. destruct (Nat.odd n) eqn:O; [right|left].
      - split; [|reflexivity]. apply Nat.odd_spec in O as [q ->]. symmetry. apply (Nat.mod_unique _ _ q); lia.
      - split; [|reflexivity]. rewrite <- Nat.negb_even in O. apply negb_false_iff, Nat.even_spec in O as [q ->]. symmetry. apply (Nat.mod_unique _ _ q); lia. }
    set (q := (n / 2)%nat) in *. clearbody q. set (k := Nat.max (m - 1) ((i - (m - 1)) / 2)).
    assert (Dk := Nat.div_mod (i - (m - 1)) 2 ltac:(lia)). assert (Mk := Nat.mod_upper_bound (i - (m - 1)) 2 ltac:(lia)). set (u := ((i - (m - 1)) / 2)%nat) in *. clearbody u.
    exists k. destruct EN as [[E0 E1]|[E0 E1]]; rewrite E1 in NI; rewrite E0 in D; unfold k; destruct (Nat.max_spec (m - 1) u) as [[? ->]|[? ->]]; lia. }
  destruct X as (k & X1 & X2 & X3 & X4). exists k. split; [lia|]. split; [|auto]. apply andb_true_intro. split; now apply Nat.leb_le.
Qed.

Lemma fstep_inside h a a' : Nat.Even (length h) -> (1 <= length h)%nat -> same_inside (length h) a a' -> fstep h a' = fstep h a.
Proof.
  intros HE HL [EL HI]. unfold fstep. rewrite EL. apply map_ext. intros k. destruct (kept _ _ _) eqn:K; [|reflexivity].
  unfold csum. f_equal. apply map_ext_in. intros m Hm. apply in_seq in Hm. f_equal. apply HI.
  apply (seen_inside _ _ k); trivial; assert (K' := K); apply andb_prop in K' as [K1 K2]; apply Nat.leb_le in K1, K2; lia.
Qed.
Lemma filtering_inside A A' hi lo : Nat.Even (length hi) -> (1 <= length hi)%nat -> length lo = length hi -> Forall2 (same_inside (length hi)) A A' ->
  filtering_arr A' hi lo = filtering_arr A hi lo.
Proof.
  intros HE HL El F. unfold filtering_arr, filtering. f_equal; induction F as [|c c' A A' HC F IH]; try reflexivity; cbn [map]; rewrite IH; f_equal;
    rewrite !filtering_fstep by trivial; cbn [fst snd]; apply fstep_inside; rewrite ?El; trivial.
Qed.

(** ** C118 *)
(** the analysis is a function of the other samples only, whatever is stored in the ignored ones (numbers, infinities, NaN): same coefficients, leaders, counts, warnings, exceptions *)
Theorem C118_ignored :
  forall (A A' : arr) (w : wavelet) (p : pexp) (j1 : Z) (j2 : option R) (gam norm : R) (weighted : bool),
  good_wavelet w -> Nat.Even (length (dec_hi w)) -> Forall2 (same_inside (length (dec_hi w))) A A' ->
  wavelet_analysis A' p w j1 j2 gam norm weighted = wavelet_analysis A p w j1 j2 gam norm weighted.
Proof.
  intros A A' w p j1 j2 gam norm wd [Hw1 Hw2] HE F. unfold wavelet_analysis. cbv zeta.
  assert (HL : length (map (fun t => -1 * t) (dec_hi w)) = length (dec_hi w)) by apply map_length.
  set (hi := map (fun t => -1 * t) (dec_hi w)) in *. clearbody hi.
  assert (FI : filtering_arr A' hi (dec_lo w) = filtering_arr A hi (dec_lo w)) by (apply filtering_inside; rewrite HL; trivial).
  replace (match A' with [] => 0%nat | c :: _ => length c end) with (match A with [] => 0%nat | c :: _ => length c end) by (destruct F as [|c c' ? ? [E _] _]; [reflexivity|now rewrite E]).
  destruct (decomposition_level_warn _ _ _) as [[ml ws]|]; [|reflexivity]. cbn [bind].
  assert (C : forall g n, coef_loop hi (dec_lo w) norm gam n 1 ml A' g = coef_loop hi (dec_lo w) norm gam n 1 ml A g) by (intros g [|n]; cbn [coef_loop]; [reflexivity|now rewrite FI]).
  assert (Ld : forall f n m1 m2, leader_loop hi (dec_lo w) norm gam f p n 1 ml A' None m1 m2 = leader_loop hi (dec_lo w) norm gam f p n 1 ml A None m1 m2) by (intros f [|n] m1 m2; cbn [leader_loop]; [reflexivity|now rewrite FI]).
  unfold wavelet_coef_analysis. rewrite C, Ld. reflexivity.
Qed.
Print Assumptions C118_ignored.

(** REFUTED: the last sample of a recording never counts, with any wavelet (of even length), formalism or parameter; nor for the spectrum and the spectral exponent *)
Theorem C118_last_refuted :
  forall (c : col) (x y : xr) (w : wavelet), good_wavelet w -> Nat.Even (length (dec_hi w)) ->
  (forall p j1 j2 gam norm weighted, wavelet_analysis [c ++ [y]] p w j1 j2 gam norm weighted = wavelet_analysis [c ++ [x]] p w j1 j2 gam norm weighted) /\
  (forall db nm fs j2, db nm = Some w -> wavelet_estimation db [c ++ [y]] fs nm j2 = wavelet_estimation db [c ++ [x]] fs nm j2) /\
  (forall db nm fs band log, db nm = Some w -> fractal_analysis db [c ++ [y]] fs nm band log = fractal_analysis db [c ++ [x]] fs nm band log).
Proof.
  intros c x y w Hw HE.
  assert (F : Forall2 (same_inside (length (dec_hi w))) [c ++ [x]] [c ++ [y]]).
  { constructor; [|constructor]. split; [now rewrite !app_length|]. intros i NI. destruct (Nat.lt_trichotomy i (length c)) as [L|[->|L]].
    - now rewrite !app_nth1.
    - exfalso. apply NI. right. rewrite app_length. cbn [length]. destruct (even_half _ HE (proj1 Hw)) as (m & Hm & _ & -> & _). destruct (Nat.even _); lia.
    - rewrite !nth_overflow; trivial; rewrite app_length; cbn [length]; lia. }
  assert (T : forall p j1 j2 gam norm weighted, wavelet_analysis [c ++ [y]] p w j1 j2 gam norm weighted = wavelet_analysis [c ++ [x]] p w j1 j2 gam norm weighted) by (intros; now apply C118_ignored).
  assert (U : forall db nm fs j2, db nm = Some w -> wavelet_estimation db [c ++ [y]] fs nm j2 = wavelet_estimation db [c ++ [x]] fs nm j2) by (intros db nm fs j2 E; unfold wavelet_estimation; rewrite E, T; reflexivity).
  split; [exact T|]. split; [exact U|]. intros db nm fs band log E. unfold fractal_analysis. now rewrite U.
Qed.
Print Assumptions C118_last_refuted.

(** every other sample counts: with filters without zero tap, changing it alone changes a coefficient of scale 1 *)
Lemma Rsum_one (f : nat -> R) n m0 : (m0 < n)%nat -> (forall m, (m < n)%nat -> m <> m0 -> f m = 0) -> Rsum (map f (seq 0 n)) = f m0.
Proof.
  induction n as [|n IH]; intros H0 HZ; [lia|]. rewrite seq_S, map_app, Rsum_app. cbn [map Nat.add]. change (Rsum [f n]) with (f n + 0). rewrite Rplus_0_r.
  destruct (Nat.eq_dec m0 n) as [->|NE].
  - rewrite (Rsum_map_zero f (seq 0 n)); [ring|]. intros m Hm. apply in_seq in Hm. apply HZ; lia.
  - rewrite IH by (intros; try apply HZ; lia). rewrite (HZ n) by lia. ring.
Qed.
Theorem C118_used :
  forall (S S' : list (list R)) (n : nat) (w : wavelet) (p : pexp) (j1 : Z) (j2 : option R) (gam norm : R) (weighted : bool) t ws t' ws' r i,
  length S' = length S -> Forall (fun s => length s = n) S -> Forall (fun s => length s = n) S' -> (r < length S)%nat ->
  good_wavelet w -> Nat.Even (length (dec_hi w)) -> Forall (fun a => a <> 0) (dec_hi w) -> norm <> 0 -> p_ok p ->
  wavelet_analysis (map fin S) p w j1 j2 gam norm weighted = Ok (t, ws) -> wavelet_analysis (map fin S') p w j1 j2 gam norm weighted = Ok (t', ws') ->
  In 1%Z (scales (wt_coefs t)) -> In 1%Z (scales (wt_coefs t')) ->
  (2 * length (dec_hi w) <= n + 1)%nat -> ~ ignored n (length (dec_hi w)) i ->
  (forall l, l <> i -> nth l (nth r S' []) 0 = nth l (nth r S []) 0) -> nth i (nth r S' []) 0 <> nth i (nth r S []) 0 ->
  exists k v v', entry (wt_coefs t) 1 r k = Fin v /\ entry (wt_coefs t') 1 r k = Fin v' /\ v' <> v.
Proof.
  intros S S' n w p j1 j2 gam norm wd t ws t' ws' r i ES HS HS' Hr Hw HE HZ Hn Hp HT HT' I1 I1' HLn NI Hsame Hdiff. destruct Hw as [Hw1 Hw2].
  destruct (inside_seen n _ i HE Hw1 HLn NI) as (k & Hk & K & B1 & B2). exists k. do 2 eexists.
  assert (V : forall Q t0 ws0, length Q = length S -> Forall (fun s => length s = n) Q -> wavelet_analysis (map fin Q) p w j1 j2 gam norm wd = Ok (t0, ws0) -> In 1%Z (scales (wt_coefs t0)) ->
     entry (wt_coefs t0) 1 r k = Fin (Rpower 2 (gam * 1 + 1 * (1 / 2 - 1 / norm)) * Rsum (map (fun m => nth m (neg_hi w) 0 * nth (2 * k + 1 + (length (dec_hi w) - 1) / 2 - m) (nth r Q []) 0) (seq 0 (length (dec_hi w)))))).
  { intros Q t0 ws0 EQ HQ T0 I0. apply wa_inv in T0 as (eta & _ & -> & _); [|split; trivial|trivial|trivial]. cbn [the_wt wt_coefs] in *. change 1%Z with (Z.of_nat 1) in *.
    apply in_scales in I0 as (i0 & Ei & Hi). apply Nat2Z.inj in Ei. subst i0. rewrite entry_coef by trivial. unfold coef. rewrite rescale_eq. change (IZR (Z.of_nat 1)) with 1.
    assert (Lq : length (nth r Q []) = n) by (rewrite Forall_forall in HQ; apply HQ, nth_In; lia).
    unfold detail. cbn [approx_at Nat.sub]. rewrite nth_fin. set (f := xmul _).
    change NaN with (f NaN) at 1. rewrite map_nth. rewrite fstep_nth by (rewrite fin_length, Lq; exact Hk). rewrite fin_length, Lq, neg_hi_length, K. unfold csum. rewrite neg_hi_length.
    erewrite map_ext_in with (g := fun m => Fin (nth m (neg_hi w) 0 * nth (2 * k + 1 + (length (dec_hi w) - 1) / 2 - m) (nth r Q []) 0)).
    - rewrite xsum_map_Fin. reflexivity.
    - intros m Hm. apply in_seq in Hm. assert (LB : (2 * k + 1 + (length (dec_hi w) - 1) / 2 - m < n)%nat).
      { destruct (even_half _ HE Hw1) as (m1 & Hm1 & EL1 & _ & E3). apply andb_prop in K as [K1 K2]. apply Nat.leb_le in K1, K2. lia. }
      unfold fin at 1. rewrite (nth_map_lt Fin _ _ 0 NaN) by (rewrite Lq; exact LB). reflexivity. }
  split; [exact (V S t ws eq_refl HS HT I1)|]. split; [exact (V S' t' ws' ES HS' HT' I1')|]. intros E.
  assert (P0 : 0 < Rpower 2 (gam * 1 + 1 * (1 / 2 - 1 / norm))) by apply exp_pos. apply Rmult_eq_reg_l in E; [|lra].
  set (c := ((length (dec_hi w) - 1) / 2)%nat) in *. set (m0 := (2 * k + 1 + c - i)%nat).
  assert (D : Rsum (map (fun m => nth m (neg_hi w) 0 * (nth (2 * k + 1 + c - m) (nth r S' []) 0 - nth (2 * k + 1 + c - m) (nth r S []) 0)) (seq 0 (length (dec_hi w)))) = 0).
  { rewrite (Rsum_map_ext _ (fun m => nth m (neg_hi w) 0 * nth (2 * k + 1 + c - m) (nth r S' []) 0 + (-1) * (nth m (neg_hi w) 0 * nth (2 * k + 1 + c - m) (nth r S []) 0))) by (intros; ring).
    rewrite Rsum_map_plus, Rsum_map_scal. rewrite E. ring. }
  assert (KK := K). apply andb_prop in KK as [K1 K2]. apply Nat.leb_le in K1, K2.
  assert (Hm0 : (m0 < length (dec_hi w))%nat) by (unfold m0; lia).
  rewrite (Rsum_one _ _ m0 Hm0) in D.
  - replace (2 * k + 1 + c - m0)%nat with i in D by (unfold m0; lia). apply Rmult_integral in D as [D|D]; [|lra].
    unfold neg_hi in D. rewrite (nth_indep _ 0 (-1 * 0)) in D by (rewrite map_length; exact Hm0). rewrite (map_nth (fun t => -1 * t)) in D.
    rewrite Forall_forall in HZ. apply (HZ (nth m0 (dec_hi w) 0)); [now apply nth_In|lra].
  - intros m Hm Nm. rewrite Hsame; [ring|]. unfold m0 in Nm. lia.
Qed.
Print Assumptions C118_used.

(** REFUTED: the direction of time. The Haar filters are symmetric, yet for every length from 7 on a spike on the first sample of a recording is seen at scale 1 and the same spike on the last sample of the
    reversed recording at no scale *)
Theorem C118_reversal_refuted :
  forall (n : nat) (a : R) j1 j2 gam norm weighted, (7 <= n)%nat -> a <> 0 -> norm <> 0 ->
  let s := a :: repeat 0 (n - 1) in
  exists t ws t' ws', wavelet_analysis [fin s] PNone haar j1 j2 gam norm weighted = Ok (t, ws) /\ wavelet_analysis [fin (rev s)] PNone haar j1 j2 gam norm weighted = Ok (t', ws') /\
    (exists k v, entry (wt_coefs t) 1 0 k = Fin v /\ v <> 0) /\
    (forall j k v, entry (wt_coefs t') j 0 k = Fin v -> v = 0).
Proof.
  intros n a j1 j2 gam norm wd Hn Ha Hno s. set (z := 0 :: repeat 0 (n - 1)).
  assert (Ls : length s = n) by (unfold s; cbn [length]; rewrite repeat_length; lia). assert (Lz : length z = n) by (unfold z; cbn [length]; rewrite repeat_length; lia).
  destruct (C14_returns [s] n haar PNone j1 j2 gam norm wd ltac:(discriminate) ltac:(lia) (Forall_cons _ Ls (Forall_nil _)) good_haar Hno (or_introl eq_refl)) as (t & ws & E).
  destruct (C14_returns [z] n haar PNone j1 j2 gam norm wd ltac:(discriminate) ltac:(lia) (Forall_cons _ Lz (Forall_nil _)) good_haar Hno (or_introl eq_refl)) as (t0 & ws0 & E0).
  assert (RZ : rev s = repeat 0 (n - 1) ++ [a]).
  { unfold s. cbn [rev]. f_equal. clear. induction (n - 1)%nat as [|m IH]; [reflexivity|]. cbn [repeat rev]. rewrite IH. clear. induction m as [|m IH]; [reflexivity|]. cbn [repeat app]. now rewrite IH. }
  assert (ZZ : z = repeat 0 (n - 1) ++ [0]) by (unfold z; clear; induction (n - 1)%nat as [|m IH]; [reflexivity|]; cbn [repeat app]; now rewrite <- IH).
  assert (E' : wavelet_analysis [fin (rev s)] PNone haar j1 j2 gam norm wd = Ok (t0, ws0)).
  { rewrite RZ. unfold fin. rewrite map_app. cbn [map]. cbn [map] in E0. rewrite ZZ in E0. unfold fin in E0. rewrite map_app in E0. cbn [map] in E0. rewrite <- E0.
    apply (C118_last_refuted (map Fin (repeat 0 (n - 1))) (Fin 0) (Fin a) haar good_haar). exists 1%nat. reflexivity. }
  assert (CZ : combine_signals 0 0 [z] [z] = [z]).
  { unfold combine_signals, z. change (map2 (map2 (fun x y => 0 * x + 0 * y)) [0 :: repeat 0 (n - 1)] [0 :: repeat 0 (n - 1)]) with [map2 (fun x y => 0 * x + 0 * y) (repeat 0 (S (n - 1))) (repeat 0 (S (n - 1)))].
    f_equal. change (0 :: repeat 0 (n - 1)) with (repeat 0 (S (n - 1))). induction (S (n - 1)) as [|m IH]; [reflexivity|]. cbn [repeat]. change (map2 (fun x y => 0 * x + 0 * y) (0 :: repeat 0 m) (0 :: repeat 0 m)) with ((0 * 0 + 0 * 0) :: map2 (fun x y => 0 * x + 0 * y) (repeat 0 m) (repeat 0 m)).
    rewrite IH. f_equal. ring. }
  assert (E2 := E0). rewrite <- CZ in E2.
  destruct (C16_linear [z] [z] n 0 0 haar PNone j1 j2 gam norm wd t0 t0 t0 ws0 ws0 ws0 (Forall_cons _ Lz (Forall_nil _)) (Forall_cons _ Lz (Forall_nil _)) eq_refl good_haar Hno Logic.I E0 E0 E2) as (_ & _ & _ & LIN).
  assert (Z0 : forall j k v, entry (wt_coefs t0) j 0 k = Fin v -> v = 0).
  { intros j k v Hv. destruct (LIN j 0%nat k) as (_ & _ & X). specialize (X v v Hv Hv). rewrite Hv in X. injection X as X. lra. }
  exists t, ws, t0, ws0. split; [exact E|]. split; [exact E'|]. split; [|exact Z0].
  assert (C3 : (3 <= inner_count n (length (dec_hi haar)) 1)%nat).
  { unfold inner_count. cbn [haar dec_hi length Nat.sub Nat.pow]. rewrite Nat.div_1_r. change (1 / 2)%nat with 0%nat. rewrite Nat.sub_0_r. apply Nat.div_le_lower_bound; lia. }
  assert (I1 : In 1%Z (scales (wt_coefs t))) by (apply (C99_scales [s] n haar j1 j2 gam norm wd t ws ltac:(discriminate) ltac:(lia) (Forall_cons _ Ls (Forall_nil _)) good_haar Hno E 1%nat); lia).
  assert (I0 : In 1%Z (scales (wt_coefs t0))) by (apply (C99_scales [z] n haar j1 j2 gam norm wd t0 ws0 ltac:(discriminate) ltac:(lia) (Forall_cons _ Lz (Forall_nil _)) good_haar Hno E0 1%nat); lia).
  destruct (C118_used [z] [s] n haar PNone j1 j2 gam norm wd t0 ws0 t ws 0 0) as (k & v & v' & V1 & V2 & V3); trivial; try exact good_haar; try (repeat constructor; assumption).
  - exists 1%nat. reflexivity.
  - unfold haar. cbn [dec_hi]. repeat constructor; lra.
  - cbn [haar dec_hi length]. lia.
  - unfold ignored. cbn [haar dec_hi length]. change (2 / 2)%nat with 1%nat. destruct (Nat.even n); lia.
  - intros l Hl. unfold s, z. cbn [nth]. destruct l; [lia|reflexivity].
  - exists k, v'. split; [exact V2|]. rewrite <- (Z0 1%Z k v V1). exact V3.
Qed.
Print Assumptions C118_reversal_refuted.
