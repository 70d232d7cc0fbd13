(** * C108: a concrete case *)
From Coq Require Import Reals List ZArith Bool Lra Lia.
From Verif Require Import XReal PyBase ModelUtils ModelMRQ ModelStructure ModelWavelet ModelPSD Spec SpecMRQ SpecSimul LXReal LUtils LBase LFilter LTransform LPattern LWave LPoly LCone LWaveEst LDft LSimul
  PropsWavelet PropsMissing PropsWhite PropsWhitePower.
Import ListNotations.
Open Scope R_scope.
Local Notation length := List.length.

(** white noise of any length n >= 1: a fair sign at a uniformly drawn position, of height sqrt n *)
Definition spikes (n : nat) (Hn : (1 <= n)%nat) : expectation (bool * nat).
Proof.
  assert (P : 0 < INR n) by (apply lt_0_INR; lia).
  refine (mkE _ (fun _ => True) (fun f => sumn n (fun i => f (true, i) + f (false, i)) / (2 * INR n)) _ _ _ _ _ _ _ _); auto.
  - intros f g H. f_equal. apply sumn_ext. intros i _. now rewrite !H.
  - rewrite (sumn_ext n _ (fun _ => 2)) by (intros; lra). rewrite sumn_const. field. lra.
  - intros f g _ _. rewrite (sumn_ext n _ (fun i => (f (true, i) + f (false, i)) + (g (true, i) + g (false, i)))) by (intros; ring). rewrite sumn_plus. field. lra.
  - intros c f _. rewrite (sumn_ext n _ (fun i => c * (f (true, i) + f (false, i)))) by (intros; ring). rewrite sumn_scal. field. lra.
Defined.
Definition spike (n : nat) (o : bool * nat) : list R :=
  map (fun i => if Nat.eqb i (snd o) then (if fst o then sqrt (INR n) else - sqrt (INR n)) else 0) (seq 0 n).
Lemma spike_length n o : length (spike n o) = n.
Proof. unfold spike. now rewrite map_length, seq_length. Qed.
Lemma spike_nth n o i : (i < n)%nat -> nth i (spike n o) 0 = if Nat.eqb i (snd o) then (if fst o then sqrt (INR n) else - sqrt (INR n)) else 0.
Proof. intros H. unfold spike. rewrite (nth_map_lt _ _ _ 0%nat) by (now rewrite seq_length). rewrite seq_nth by trivial. reflexivity. Qed.
Lemma spike_white n Hn : stationary_signal (spikes n Hn) n (spike n) (flat 1).
Proof.
  assert (P : 0 < INR n) by (apply lt_0_INR; lia).
  split; [apply spike_length|]. split.
  - intros i Hi. split; [exact I|]. cbn [E spikes]. rewrite sumn_zero; [field; lra|]. intros a _. rewrite !spike_nth by trivial. cbn [fst snd]. destruct (Nat.eqb i a); ring.
  - intros i k Hi Hk. split; [exact I|]. cbn [E spikes]. unfold flat. destruct (Z.eq_dec _ 0) as [Q|Q].
    + assert (k = i) by lia. subst k. rewrite (sumn_single n _ i Hi).
      * rewrite !spike_nth by trivial. cbn [fst snd]. rewrite Nat.eqb_refl. assert (S := sqrt_sqrt (INR n) ltac:(lra)). field_simplify_eq; [|lra]. rewrite <- S at 2. ring.
      * intros a _ ne. rewrite !spike_nth by trivial. cbn [fst snd]. apply Nat.eqb_neq in ne. rewrite Nat.eqb_sym, ne. ring.
    + rewrite sumn_zero; [field; lra|]. intros a _. rewrite !spike_nth by trivial. cbn [fst snd].
      destruct (Nat.eqb i a) eqn:A; [|ring]. destruct (Nat.eqb k a) eqn:B; [|ring]. apply Nat.eqb_eq in A, B. exfalso. apply Q. lia.
Qed.

(** the Haar wavelet, normalised *)
Definition haar1 : wavelet := mkWavelet [- / sqrt 2; / sqrt 2] [/ sqrt 2; / sqrt 2].
Lemma good_haar1 : good_wavelet haar1. Proof. split; cbn; lia. Qed.
Lemma half : / sqrt 2 * / sqrt 2 = / 2.
Proof. rewrite <- Rinv_mult. now rewrite sqrt_sqrt by lra. Qed.
Lemma shifted (a b c d : R) m : translate_product [a; b] [c; d] m = if Z.eq_dec m 0 then a * c + b * d else 0.
Proof.
  unfold translate_product. cbn [length]. rewrite !sumn_S, sumn_0. cbn [nth]. cbv zeta.
  destruct (Z.eq_dec m 0) as [->|ne].
  { change (Z.of_nat 0 + 2 * 0 <? 0)%Z with false. change (Z.of_nat 1 + 2 * 0 <? 0)%Z with false. change (Z.to_nat (Z.of_nat 0 + 2 * 0)) with 0%nat. change (Z.to_nat (Z.of_nat 1 + 2 * 0)) with 1%nat. cbn [nth]. ring. }
  assert (G : forall a, (0 <= a <= 1)%Z -> (if (a + 2 * m <? 0)%Z then 0 else nth (Z.to_nat (a + 2 * m)) [c; d] 0) = 0).
  { intros z Hz. destruct (Z.ltb_spec (z + 2 * m) 0); [reflexivity|]. apply nth_overflow. cbn [length]. lia. }
  rewrite !G by lia. ring.
Qed.
Lemma haar1_orthonormal : orthonormal haar1.
Proof.
  intros m. cbn [haar1 dec_lo dec_hi]. rewrite !shifted. assert (H := half).
  replace (- / sqrt 2 * - / sqrt 2) with (/ 2) by (rewrite <- H; ring). replace (- / sqrt 2 * / sqrt 2) with (- / 2) by (rewrite <- H; ring). rewrite H.
  destruct (Z.eq_dec m 0); repeat split; lra.
Qed.
Lemma haar1_ignores : ignores_constants haar1.
Proof. unfold ignores_constants. cbn [haar1 dec_hi length]. rewrite !sumn_S, sumn_0. cbn [nth]. ring. Qed.

(** the two scales of this noise on 24 samples: the hypotheses of C108_stationary and C108_white hold *)
Example C108_case : exists (T : bool * nat -> wtransform) (ws : bool * nat -> list warning),
  stationary_signal (spikes 24 ltac:(lia)) 24 (fun o => nth 0 [spike 24 o] []) (flat 1) /\
  good_wavelet haar1 /\ orthonormal haar1 /\ ignores_constants haar1 /\
  (forall o, wavelet_analysis (map fin [spike 24 o]) PNone haar1 1 None 0 1 false = Ok (T o, ws o)) /\
  (forall o, scales (wt_coefs (T o)) = [1; 2]%Z) /\
  inner 24 (length (dec_hi haar1)) 1 1 /\ inner 24 (length (dec_hi haar1)) 1 10 /\ inner 24 (length (dec_hi haar1)) 2 3.
Proof.
  set (T := fun o => the_wt (map fin [spike 24 o]) PNone haar1 None 0 1 []).
  exists T, (fun o => level_warns (map fin [spike 24 o]) haar1 None).
  split; [exact (spike_white 24 _)|]. split; [exact good_haar1|]. split; [exact haar1_orthonormal|]. split; [exact haar1_ignores|].
  assert (HF : forall o, Forall (fun s => length s = 24%nat) [spike 24 o]) by (intros o; repeat constructor; apply spike_length).
  split; [|split].
  - intros o. destruct (C14_returns [spike 24 o] 24 haar1 PNone 1 None 0 1 false ltac:(discriminate) ltac:(lia) (HF o) good_haar1 R1_neq_R0 ltac:(auto)) as (t & ws & E1).
    assert (E' := E1). apply wa_inv in E' as (eta & X & -> & -> & _); [|exact good_haar1|exact R1_neq_R0|exact I]. exact E1.
  - intros o. unfold T. cbn [the_wt wt_coefs]. rewrite scales_mrq.
    rewrite (fin_ccount haar1 0 1 [spike 24 o] 24 PNone good_haar1 ltac:(discriminate) (HF o) I). unfold ccount_b, gcount_b, lev_b.
    change (length (dec_hi haar1)) with 2%nat. rewrite level_24_2. vm_compute. reflexivity.
  - change (length (dec_hi haar1)) with 2%nat. unfold inner. change (24 / 2 ^ (1 - 1))%nat with 24%nat. change (24 / 2 ^ (2 - 1))%nat with 12%nat. lia.
Qed.
(** fractional Brownian motion as a signal with stationary increments (two samples, H = 1/2, times 0 and 1: the values 0 and a coin) *)
Example C108_case_increments : exists a v, stationary_increments (spikes 1 ltac:(lia)) 2 (fun o => [0; if fst o then 1 else -1]) a v /\ v 1%Z <> v 0%Z.
Proof.
  exists (fun i => INR i / 2), (fun z => - (IZR (Z.abs z) / 2)). split; [|cbn; lra].
  split; [reflexivity|]. split.
  - intros [|[|i]] Hi; try lia; (split; [exact I|]); cbn [E spikes nth fst]; rewrite sumn_S, sumn_0; cbn [INR]; field.
  - intros [|[|i]] [|[|k]] Hi Hk; try lia; (split; [exact I|]); cbn [E spikes nth fst Z.of_nat Z.sub Z.abs Z.opp Z.add Z.pos_sub Pos.of_succ_nat]; rewrite sumn_S, sumn_0; cbn; field.
Qed.
