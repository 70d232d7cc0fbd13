(** * C109: the coefficients of an orthonormal wavelet carry at most the energy of the recording *)
From Coq Require Import Reals List ZArith Bool Lra Lia.
From Verif Require Import XReal PyBase ModelUtils ModelMRQ ModelStructure ModelWavelet ModelPSD Spec SpecMRQ SpecSimul LXReal LUtils LBase LFilter LTransform LPattern LWave LPoly LCone LWaveEst LDft LSimul LEst LPSD
  PropsPSD PropsLeaders PropsWavelet PropsMissing PropsSlope PropsWhite PropsWhitePower PropsWhiteCase.
Import ListNotations.
Open Scope R_scope.
Local Notation length := List.length.

(** ** Specification *)
(** sum of the squares *)
Definition energy (l : list R) : R := Rsum (map (fun x => x * x) l).

(** sum of the squared differences of the numbers in two columns *)
Definition gap2 (c c' : col) : R := sumn (length c) (fun k => (number (nth k c NaN) - number (nth k c' NaN)) * (number (nth k c NaN) - number (nth k c' NaN))).

(** ** Bessel's inequality *)
Lemma bessel M N (x : nat -> R) (v : nat -> nat -> R) :
  (forall t s, (t < M)%nat -> (s < M)%nat -> t <> s -> sumn N (fun i => v t i * v s i) = 0) ->
  (forall t, (t < M)%nat -> sumn N (fun i => v t i * v t i) <= 1) ->
  sumn M (fun t => sumn N (fun i => x i * v t i) * sumn N (fun i => x i * v t i)) <= sumn N (fun i => x i * x i).
Proof.
  intros HO HN. set (c t := sumn N (fun i => x i * v t i)).
  change (sumn M (fun t => c t * c t) <= sumn N (fun i => x i * x i)).
  set (y i := sumn M (fun t => c t * v t i)).
  assert (XY : sumn N (fun i => x i * y i) = sumn M (fun t => c t * c t)).
  { rewrite (sumn_ext N _ (fun i => sumn M (fun t => c t * (x i * v t i)))) by (intros i _; unfold y; rewrite <- sumn_scal; apply sumn_ext; intros; ring).
    rewrite sumn_swap. apply sumn_ext. intros t _. rewrite sumn_scal. reflexivity. }
  assert (YY : sumn N (fun i => y i * y i) <= sumn M (fun t => c t * c t)).
  { rewrite (sumn_ext N _ (fun i => sumn M (fun t => sumn M (fun s => c t * c s * (v t i * v s i))))).
    2:{ intros i _. unfold y at 1. rewrite <- sumn_scal_r. apply sumn_ext. intros t _. unfold y. rewrite <- sumn_scal. apply sumn_ext. intros s _. ring. }
    rewrite sumn_swap. apply sumn_le. intros t Ht. rewrite sumn_swap. rewrite (sumn_single M _ t Ht).
    - rewrite sumn_scal. rewrite <- (Rmult_1_r (c t * c t)) at 2. apply Rmult_le_compat_l; [apply Rle_0_sqr|now apply HN].
    - intros s Hs ne. rewrite sumn_scal, HO by auto. ring. }
  assert (P : 0 <= sumn N (fun i => (x i - y i) * (x i - y i))) by (apply sumn_nonneg; intros; apply Rle_0_sqr).
  rewrite (sumn_ext N _ (fun i => (x i * x i + y i * y i) - 2 * (x i * y i))) in P by (intros; ring).
  rewrite sumn_minus, sumn_plus, sumn_scal, XY in P. lra.
Qed.

(** ** One step *)
(** the filter h read backwards from position q *)
Definition window (h : list R) (q i : nat) : R := if Nat.leb i q then nth (q - i) h 0 else 0.
Lemma window_sum h q N (g : nat -> R) : (length h <= q + 1)%nat -> (q < N)%nat ->
  sumn N (fun i => g i * window h q i) = sumn (length h) (fun m => nth m h 0 * g (q - m)%nat).
Proof.
  intros A B. set (L := length h) in *. replace N with ((q + 1 - L) + (L + (N - 1 - q)))%nat by lia. rewrite !sumn_app.
  rewrite (sumn_zero (q + 1 - L)).
  2:{ intros i Hi. unfold window. destruct (Nat.leb_spec i q); [|ring]. rewrite nth_overflow by (fold L; lia). ring. }
  rewrite (sumn_zero (N - 1 - q)).
  2:{ intros i Hi. unfold window. destruct (Nat.leb_spec (q + 1 - L + (L + i)) q); [lia|ring]. }
  rewrite sumn_rev. rewrite (sumn_ext L _ (fun m => nth m h 0 * g (q - m)%nat)); [ring|].
  intros m Hm. unfold window. destruct (Nat.leb_spec (q + 1 - L + (L - 1 - m)) q); [|lia]. rewrite Rmult_comm. f_equal; f_equal; lia.
Qed.
Lemma window_product f g q q' N d : (length f <= q + 1)%nat -> (q < N)%nat -> (Z.of_nat q' - Z.of_nat q = 2 * d)%Z ->
  sumn N (fun i => window f q i * window g q' i) = translate_product f g d.
Proof.
  intros A B E. rewrite (sumn_ext N _ (fun i => window g q' i * window f q i)) by (intros; ring). rewrite window_sum by trivial.
  unfold translate_product. apply sumn_ext. intros m Hm. f_equal. cbv zeta. unfold window.
  destruct (Nat.leb_spec (q - m) q'), (Z.ltb_spec (Z.of_nat m + 2 * d) 0); trivial; try lia. f_equal. lia.
Qed.
(** an output of a step is a scalar product, or missing *)
Lemma xsum_number {A} (l : list A) (c : A -> R) (y : A -> xr) : (forall a, In a l -> y a = NaN \/ exists z, y a = Fin z) ->
  xsum (map (fun a => xmul (Fin (c a)) (y a)) l) = NaN \/ xsum (map (fun a => xmul (Fin (c a)) (y a)) l) = Fin (Rsum (map (fun a => c a * number (y a)) l)).
Proof.
  intros H. set (l' := map _ l). destruct (existsb isnan l') eqn:X.
  - left. apply existsb_exists in X as (z & I & Z). destruct z; try discriminate. now apply xsum_NaN.
  - right. rewrite <- xsum_map_Fin. f_equal. unfold l'. apply map_ext_in. intros a Ha. destruct (H a Ha) as [E|[z E]]; [|now rewrite E]. exfalso.
    assert (T : existsb isnan l' = true); [|congruence]. apply existsb_exists. exists NaN. split; [|reflexivity]. apply in_map_iff. exists a. split; [now rewrite E|trivial].
Qed.
(** the vector whose scalar product with the inputs gives output k *)
Definition seen (h : list R) (a : col) (k : nat) (i : nat) : R :=
  match nth k (fstep h a) NaN with Fin _ => window h (2 * k + 1 + (length h - 1) / 2) i | _ => 0 end.
Lemma output_product h a k : (1 <= length h)%nat -> no_inf a -> (k < length a / 2)%nat ->
  number (nth k (fstep h a) NaN) = sumn (length a) (fun i => number (nth i a NaN) * seen h a k i) /\
  (nth k (fstep h a) NaN <> NaN -> (length h <= 2 * k + 1 + (length h - 1) / 2 + 1)%nat /\ (2 * k + 1 + (length h - 1) / 2 < length a)%nat).
Proof.
  intros HL NI Hk. unfold seen. rewrite fstep_nth by trivial. assert (D := Nat.div_mod (length h - 1) 2 ltac:(lia)).
  destruct (kept (length a) (length h) (2 * k + 1)) eqn:K; [|cbn [number]; split; [rewrite sumn_zero; [reflexivity|intros; ring]|congruence]].
  unfold kept in K. apply andb_prop in K as [K1 K2]. apply Nat.leb_le in K1, K2.
  assert (Q1 : (length h <= 2 * k + 1 + (length h - 1) / 2 + 1)%nat) by lia. assert (Q2 : (2 * k + 1 + (length h - 1) / 2 < length a)%nat) by lia.
  split; [|intros _; now split]. unfold csum.
  destruct (xsum_number (seq 0 (length h)) (fun m => nth m h 0) (fun m => nth (2 * k + 1 + (length h - 1) / 2 - m) a NaN)) as [-> | ->].
  - intros m _. now apply no_inf_nth.
  - cbn [number]. rewrite sumn_zero; [reflexivity|intros; ring].
  - cbn [number]. rewrite window_sum by trivial. reflexivity.
Qed.
(** sum of the squares of the numbers in a column *)
Definition en (a : col) : R := sumn (length a) (fun i => number (nth i a NaN) * number (nth i a NaN)).
Lemma seen_product f g a k k' : length f = length g -> (1 <= length f)%nat -> no_inf a -> (k < length a / 2)%nat -> (k' < length a / 2)%nat ->
  sumn (length a) (fun i => seen f a k i * seen g a k' i) = 0 \/
  sumn (length a) (fun i => seen f a k i * seen g a k' i) = translate_product f g (Z.of_nat k' - Z.of_nat k).
Proof.
  intros LL HL NI Hk Hk'. destruct (output_product f a k HL NI Hk) as [_ B]. destruct (output_product g a k' ltac:(lia) NI Hk') as [_ B']. unfold seen in *.
  destruct (nth k (fstep f a) NaN); try (left; apply sumn_zero; intros; ring).
  destruct (nth k' (fstep g a) NaN); try (left; apply sumn_zero; intros; ring). right.
  apply window_product; [apply B|apply B|]; try discriminate. rewrite LL. lia.
Qed.
Lemma translate_sym_zero f g a k k' : (forall m, translate_product f g m = 0) -> length f = length g -> (1 <= length f)%nat -> no_inf a -> (k < length a / 2)%nat -> (k' < length a / 2)%nat ->
  sumn (length a) (fun i => seen f a k i * seen g a k' i) = 0.
Proof. intros H LL HL NI Hk Hk'. destruct (seen_product f g a k k' LL HL NI Hk Hk') as [-> | ->]; [reflexivity|apply H]. Qed.
(** orthonormal pair of filters *)
Definition ortho_pair (lo hi : list R) : Prop := forall m,
  translate_product lo lo m = (if Z.eq_dec m 0 then 1 else 0) /\ translate_product hi hi m = (if Z.eq_dec m 0 then 1 else 0) /\ translate_product hi lo m = 0.
Lemma energy_step lo hi a : ortho_pair lo hi -> length hi = length lo -> (1 <= length lo)%nat -> no_inf a ->
  en (fstep lo a) + en (fstep hi a) <= en a.
Proof.
  intros HO LL HL NI. set (K := (length a / 2)%nat). set (N := length a).
  set (v t := if Nat.ltb t K then seen lo a t else seen hi a (t - K)).
  assert (B := bessel (K + K) N (fun i => number (nth i a NaN)) v).
  assert (SAME : forall f k k', length f = length lo -> (forall m, translate_product f f m = if Z.eq_dec m 0 then 1 else 0) -> (k < K)%nat -> (k' < K)%nat -> 
    sumn N (fun i => seen f a k i * seen f a k' i) = 0 \/ sumn N (fun i => seen f a k i * seen f a k' i) = if Nat.eq_dec k k' then 1 else 0).
  { intros f k k' Lf Hf Hk Hk'. destruct (seen_product f f a k k' eq_refl ltac:(lia) NI Hk Hk') as [E|E]; [left; exact E|]. right. unfold N. rewrite E, Hf.
    destruct (Z.eq_dec _ 0), (Nat.eq_dec k k'); trivial; lia. }
  assert (X : forall k k', (k < K)%nat -> (k' < K)%nat -> sumn N (fun i => seen hi a k i * seen lo a k' i) = 0).
  { intros k k' Hk Hk'. apply translate_sym_zero; trivial; try lia. intros m. apply HO. }
  assert (H1 : sumn (K + K) (fun t => sumn N (fun i => number (nth i a NaN) * v t i) * sumn N (fun i => number (nth i a NaN) * v t i)) <= sumn N (fun i => number (nth i a NaN) * number (nth i a NaN))).
  { apply B.
    - intros t s Ht Hs ne. unfold v. destruct (Nat.ltb_spec t K), (Nat.ltb_spec s K).
      + destruct (SAME lo t s eq_refl ltac:(intros; apply HO) ltac:(trivial) ltac:(trivial)) as [E|E]; [exact E|]. rewrite E. destruct (Nat.eq_dec t s); [lia|reflexivity].
      + rewrite (sumn_ext N _ (fun i => seen hi a (s - K) i * seen lo a t i)) by (intros; ring). apply X; lia.
      + apply X; lia.
      + destruct (SAME hi (t - K)%nat (s - K)%nat LL ltac:(intros; apply HO) ltac:(lia) ltac:(lia)) as [E|E]; [exact E|]. rewrite E. destruct (Nat.eq_dec _ _); [lia|reflexivity].
    - intros t Ht. unfold v. destruct (Nat.ltb_spec t K).
      + destruct (SAME lo t t eq_refl ltac:(intros; apply HO) ltac:(trivial) ltac:(trivial)) as [E|E]; rewrite E; [lra|]. destruct (Nat.eq_dec t t); lra.
      + destruct (SAME hi (t - K)%nat (t - K)%nat LL ltac:(intros; apply HO) ltac:(lia) ltac:(lia)) as [E|E]; rewrite E; [lra|]. destruct (Nat.eq_dec _ _); lra. }
  rewrite sumn_app in H1. unfold en. rewrite !fstep_length. fold K N.
  eapply Rle_trans; [|exact H1]. apply Req_le. f_equal.
  - apply sumn_ext. intros k Hk. unfold v. destruct (Nat.ltb_spec k K); [|lia]. now rewrite (proj1 (output_product lo a k HL NI Hk)).
  - apply sumn_ext. intros k Hk. unfold v. destruct (Nat.ltb_spec (K + k) K); [lia|]. replace (K + k - K)%nat with k by lia. now rewrite (proj1 (output_product hi a k ltac:(lia) NI Hk)).
Qed.
Lemma energy_levels lo hi c J : ortho_pair lo hi -> length hi = length lo -> (1 <= length lo)%nat -> no_inf c ->
  en (approx_at lo J c) + sumn J (fun i => en (detail hi lo (S i) c)) <= en c.
Proof.
  intros HO LL HL NI. induction J as [|J IH]; [rewrite sumn_0; cbn [approx_at]; lra|]. rewrite sumn_S.
  assert (ST := energy_step lo hi (approx_at lo J c) HO LL HL (approx_no_inf _ _ _ NI)). cbn [approx_at]. unfold detail at 2. replace (S J - 1)%nat with J by lia. lra.
Qed.
Lemma en_nonneg a : 0 <= en a. Proof. apply sumn_nonneg. intros. apply Rle_0_sqr. Qed.
Lemma en_reals c : no_inf c -> en c = energy (reals c).
Proof. intros N. unfold en, energy. now rewrite reals_sumn. Qed.
Lemma en_scale b (c : col) : no_inf c -> en (map (xmul (Fin b)) c) = b ^ 2 * en c.
Proof.
  intros NI. unfold en. rewrite map_length, <- sumn_scal. apply sumn_ext. intros i Hi. rewrite (nth_map_lt _ _ _ NaN) by trivial.
  destruct (no_inf_nth c i NI) as [-> | [z ->]]; cbn [xmul number]; ring.
Qed.
Lemma translate_neg f g m : translate_product (map (fun t => -1 * t) f) g m = - translate_product f g m.
Proof.
  unfold translate_product. rewrite map_length, <- sumn_opp. apply sumn_ext. intros a Ha. rewrite (nth_map_lt _ _ _ 0) by trivial. ring.
Qed.
Lemma translate_neg_r f g m : translate_product f (map (fun t => -1 * t) g) m = - translate_product f g m.
Proof.
  unfold translate_product. rewrite <- sumn_opp. apply sumn_ext. intros a Ha. cbv zeta. destruct (_ <? 0)%Z; [ring|].
  assert (E : nth (Z.to_nat (Z.of_nat a + 2 * m)) (map (fun t => -1 * t) g) 0 = -1 * nth (Z.to_nat (Z.of_nat a + 2 * m)) g 0).
  { replace 0 with (-1 * 0) at 1 by ring. apply (map_nth (fun t => -1 * t)). }
  rewrite E. ring.
Qed.
Lemma ortho_neg w : orthonormal w -> ortho_pair (dec_lo w) (neg_hi w).
Proof.
  intros H m. destruct (H m) as (A & B & C). unfold neg_hi. rewrite !translate_neg, translate_neg_r, A, B, C. repeat split; ring.
Qed.
Lemma factor_pos norm gam j : 0 < factor norm gam j. Proof. apply Rpower_pos. Qed.
Lemma en_coef w norm gam j c : no_inf c -> en (coef (neg_hi w) (dec_lo w) norm gam j c) = factor norm gam j ^ 2 * en (detail (neg_hi w) (dec_lo w) j c).
Proof.
  intros NI. unfold coef. rewrite rescale_eq, en_scale by (unfold detail; apply fstep_no_inf, approx_no_inf; trivial).
  unfold factor. do 3 f_equal. rewrite <- INR_IZR_INZ. ring.
Qed.

(** ** C109 *)
Section Signal.
Variables (A : arr) (w : wavelet) (p : pexp) (j1 : Z) (j2 : option R) (gam norm : R) (wd : bool) (t : wtransform) (ws : list warning).
Hypothesis HA : Forall no_inf A.
Hypothesis Hw : good_wavelet w.
Hypothesis HO : orthonormal w.
Hypothesis Hn : norm <> 0.
Hypothesis Hp : p_ok p.
Hypothesis H : wavelet_analysis A p w j1 j2 gam norm wd = Ok (t, ws).
Lemma row_no_inf r : no_inf (nth r A []).
Proof using HA. destruct (nth_in_or_default r A []) as [I|E]; [rewrite Forall_forall in HA; now apply HA|rewrite E; constructor]. Qed.
Lemma coef_energy : exists g, scales (wt_coefs t) = map Z.of_nat (seq 1 g) /\
  forall r j, (r < length A)%nat -> (1 <= j <= g)%nat ->
  energy (numbers (wt_coefs t) (Z.of_nat j) r) = factor norm gam j ^ 2 * en (detail (neg_hi w) (dec_lo w) j (nth r A [])).
Proof using HA Hw Hn Hp H.
  apply wa_inv in H as (eta & _ & -> & _); trivial. cbn [the_wt wt_coefs]. exists (ccount A p w gam norm). split; [apply scales_mrq|].
  intros r j Hr Hj. rewrite <- en_coef by apply row_no_inf. rewrite en_reals by (apply coef_no_inf, row_no_inf). unfold numbers. do 2 f_equal.
  unfold column, mrq_of. cbn [mq_values]. rewrite table_get by trivial. now rewrite Cf_nth_lt.
Qed.
Lemma total_energy r : (r < length A)%nat ->
  Rsum (map (fun j => energy (numbers (wt_coefs t) j r) / factor norm gam (Z.to_nat j) ^ 2) (scales (wt_coefs t))) <= energy (reals (nth r A [])).
Proof using HA Hw HO Hn Hp H.
  intros Hr. destruct coef_energy as (g & -> & V). rewrite map_map, <- en_reals by apply row_no_inf.
  destruct Hw as [W1 W2].
  assert (E := energy_levels (dec_lo w) (neg_hi w) (nth r A []) g (ortho_neg w HO) ltac:(now rewrite neg_hi_length) ltac:(lia) (row_no_inf r)).
  assert (NN := en_nonneg (approx_at (dec_lo w) g (nth r A []))).
  assert (Q : Rsum (map (fun x => energy (numbers (wt_coefs t) (Z.of_nat x) r) / factor norm gam (Z.to_nat (Z.of_nat x)) ^ 2) (seq 1 g)) = sumn g (fun i => en (detail (neg_hi w) (dec_lo w) (S i) (nth r A [])))).
  { unfold sumn. rewrite <- seq_shift, map_map. f_equal. apply map_ext_in. intros i Hi. apply in_seq in Hi. rewrite V by lia. rewrite Nat2Z.id. field. apply Rgt_not_eq, factor_pos. }
  rewrite Q. lra.
Qed.
End Signal.

(** all coefficients of all scales, with the normalisation of the scales undone, carry at most the energy of the samples that are present *)
Theorem C109_energy :
  forall A w p j1 j2 gam norm weighted t ws,
  Forall no_inf A -> good_wavelet w -> orthonormal w -> norm <> 0 -> p_ok p ->
  wavelet_analysis A p w j1 j2 gam norm weighted = Ok (t, ws) ->
  forall r, (r < length A)%nat ->
  Rsum (map (fun j => energy (numbers (wt_coefs t) j r) / factor norm gam (Z.to_nat j) ^ 2) (scales (wt_coefs t))) <= energy (reals (nth r A [])).
Proof. intros. eapply total_energy; eassumption. Qed.
Print Assumptions C109_energy.

(** no coefficient exceeds the norm of the recording, up to the normalisation of its scale; no leader exceeds it up to the largest normalisation below its scale *)
Lemma energy_nonneg l : 0 <= energy l.
Proof. unfold energy. apply Rsum_nonneg, Forall_map, Forall_forall. intros x _. apply Rle_0_sqr. Qed.
Lemma energy_in l x : In x l -> x * x <= energy l.
Proof.
  unfold energy. induction l as [|a l IH]; [easy|]. intros [->|I]; cbn [map]; change (Rsum (?a :: ?l)) with (a + Rsum l).
  - assert (P := energy_nonneg l). unfold energy in P. lra.
  - specialize (IH I). assert (P := Rle_0_sqr a). unfold Rsqr in P. lra.
Qed.
Lemma entry_number m j r k d : SpecMRQ.entry m j r k = Fin d -> In d (numbers m j r).
Proof.
  unfold SpecMRQ.entry, numbers, column. destruct (dict_get _ _) as [a|]; [|discriminate]. generalize (nth r a []). intros c. revert k. induction c as [|x c IH]; intros [|k] E; cbn in E; try discriminate.
  - subst x. now left.
  - destruct x; cbn [reals]; try (now apply (IH k)). right. now apply (IH k).
Qed.
Lemma Rsum_member {X} (f : X -> R) l x : (forall y, In y l -> 0 <= f y) -> In x l -> f x <= Rsum (map f l).
Proof.
  intros H I. induction l as [|a l IH]; [easy|]. cbn [map]. change (Rsum (?a :: ?l)) with (a + Rsum l).
  assert (P : 0 <= Rsum (map f l)) by (apply Rsum_nonneg, Forall_map, Forall_forall; intros y Hy; apply H; now right).
  destruct I as [->|I]; [lra|]. assert (Q := IH (fun y Hy => H y (or_intror Hy)) I). assert (P' := H a (or_introl eq_refl)). lra.
Qed.
Theorem C109_coefficient :
  forall A w p j1 j2 gam norm weighted t ws,
  Forall no_inf A -> good_wavelet w -> orthonormal w -> norm <> 0 -> p_ok p ->
  wavelet_analysis A p w j1 j2 gam norm weighted = Ok (t, ws) ->
  forall r j k d, (r < length A)%nat -> SpecMRQ.entry (wt_coefs t) j r k = Fin d ->
  Rabs d <= factor norm gam (Z.to_nat j) * sqrt (energy (reals (nth r A []))).
Proof.
  intros A w p j1 j2 gam norm wd t ws HA Hw HO Hn Hp H r j k d Hr E.
  assert (T := C109_energy A w p j1 j2 gam norm wd t ws HA Hw HO Hn Hp H r Hr). set (e := energy (reals (nth r A []))) in *.
  assert (I : In j (scales (wt_coefs t))). { unfold SpecMRQ.entry in E. destruct (dict_get _ j) eqn:G; [|discriminate]. apply (dict_get_In _ _ _ G). }
  set (f := factor norm gam (Z.to_nat j)) in *. assert (F : 0 < f) by apply factor_pos.
  assert (M := Rsum_member (fun j => energy (numbers (wt_coefs t) j r) / factor norm gam (Z.to_nat j) ^ 2) (scales (wt_coefs t)) j).
  assert (Q : energy (numbers (wt_coefs t) j r) / f ^ 2 <= e).
  { eapply Rle_trans; [|exact T]. apply M; trivial. intros y _. apply Rmult_le_pos; [apply energy_nonneg|]. left. apply Rinv_0_lt_compat, pow_lt, factor_pos. }
  assert (D := energy_in _ d (entry_number _ _ _ _ _ E)).
  assert (Q' : d * d <= f ^ 2 * e).
  { eapply Rle_trans; [exact D|]. replace (energy (numbers (wt_coefs t) j r)) with (f ^ 2 * (energy (numbers (wt_coefs t) j r) / f ^ 2)) by (field; lra). apply Rmult_le_compat_l; [apply pow_le; lra|exact Q]. }
  assert (E0 : 0 <= e) by apply energy_nonneg.
  replace (f * sqrt e) with (sqrt (f ^ 2 * e)) by (rewrite sqrt_mult; [rewrite sqrt_pow2; lra|apply pow_le; lra|trivial]).
  rewrite <- sqrt_Rsqr_abs. apply sqrt_le_1_alt. exact Q'.
Qed.
Print Assumptions C109_coefficient.

Theorem C109_leader :
  forall A w j1 j2 gam norm weighted t ws l,
  Forall no_inf A -> good_wavelet w -> orthonormal w -> norm <> 0 ->
  wavelet_analysis A PInfty w j1 j2 gam norm weighted = Ok (t, ws) -> wt_leaders t = Some l ->
  forall r j k x B, (r < length A)%nat -> SpecMRQ.entry l j r k = Fin x ->
  (forall i, (1 <= i <= Z.to_nat j)%nat -> factor norm gam i <= B) ->
  0 <= x <= B * sqrt (energy (reals (nth r A []))).
Proof.
  intros A w j1 j2 gam norm wd t ws l HA Hw HO Hn H El r j k x B Hr E HB.
  assert (I : In j (scales l)). { unfold SpecMRQ.entry in E. destruct (dict_get _ j) eqn:G; [|discriminate]. apply (dict_get_In _ _ _ G). }
  destruct (PropsLeaders.C21_leader_sup A w j1 j2 gam norm wd t ws l HA Hw Hn H El j r k I Hr) as [_ C].
  assert (K : (k < length (column l j r))%nat).
  { destruct (Nat.lt_ge_cases k (length (column l j r))) as [|G]; trivial. exfalso. unfold SpecMRQ.entry in E. unfold column in G. destruct (dict_get _ j); [|discriminate]. rewrite nth_overflow in E by trivial. discriminate. }
  destruct (C K) as [_ X]. apply X in E as [M _]. apply in_map_iff in M as (d & <- & D). split; [apply Rabs_pos|].
  assert (IN : In (Fin d) (PropsLeaders.cone_coefs (wt_coefs t) r j k)).
  { revert D. generalize (PropsLeaders.cone_coefs (wt_coefs t) r j k). intros c. induction c as [|y c IH]; [easy|]. cbn [reals]. destruct y; intros D; try (right; now apply IH). destruct D as [->|D]; [now left|right; now apply IH]. }
  unfold PropsLeaders.cone_coefs in IN. apply in_map_iff in IN as ([i q] & ED & IC). cbn [fst snd] in ED. apply PropsLeaders.cone_In in IC as [Hi _].
  eapply Rle_trans; [apply (C109_coefficient A w PInfty j1 j2 gam norm wd t ws HA Hw HO Hn Logic.I H r (Z.of_nat i) q d Hr ED)|].
  rewrite Nat2Z.id. apply Rmult_le_compat_r; [apply sqrt_pos|]. now apply HB.
Qed.
Print Assumptions C109_leader.

(** two recordings: the distance between their coefficients is at most the distance between the recordings *)
Theorem C109_distance :
  forall S S' n w p j1 j2 gam norm weighted t t' ws ws',
  Forall (fun s => length s = n) S -> Forall (fun s => length s = n) S' -> length S = length S' -> (1 <= n)%nat ->
  good_wavelet w -> orthonormal w -> norm <> 0 -> p = PNone \/ p = PInfty ->
  wavelet_analysis (map fin S) p w j1 j2 gam norm weighted = Ok (t, ws) ->
  wavelet_analysis (map fin S') p w j1 j2 gam norm weighted = Ok (t', ws') ->
  forall r, (r < length S)%nat ->
  Rsum (map (fun j => gap2 (column (wt_coefs t) j r) (column (wt_coefs t') j r) / factor norm gam (Z.to_nat j) ^ 2) (scales (wt_coefs t)))
  <= energy (map2 Rminus (nth r S []) (nth r S' [])).
Proof.
  intros S S' n w p j1 j2 gam norm wd t t' ws ws' HS HS' LS Hn Hw HO Hno Hp H H' r Hr.
  assert (PP : pos_pexp p) by (destruct Hp as [-> | ->]; exact Logic.I). assert (PK : p_ok p) by (destruct Hp as [-> | ->]; exact Logic.I).
  set (D := combine_signals 1 (-1) S S').
  assert (LD : length D = length S) by (unfold D, combine_signals; rewrite map2_length; lia).
  assert (HD : Forall (fun s => length s = n) D).
  { unfold D, combine_signals. clear -HS HS'. revert S' HS'. induction HS as [|s S E HS IH]; intros S' HS'; [constructor|]. destruct HS' as [|s' S' E' HS']; [constructor|]. rewrite map2_cons. constructor; [rewrite map2_length; lia|now apply IH]. }
  destruct (C14_returns D n w p j1 j2 gam norm wd) as (td & wsd & Hd); trivial; [destruct D; [cbn in LD; lia|discriminate]|].
  destruct (C16_linear S S' n 1 (-1) w p j1 j2 gam norm wd t t' td ws ws' wsd HS HS' LS Hw Hno PP H H' Hd) as (ES & _ & _ & V).
  assert (NI : Forall no_inf (map fin D)) by (apply Forall_map, Forall_forall; intros s _; apply no_inf_fin).
  assert (T := C109_energy (map fin D) w p j1 j2 gam norm wd td wsd NI Hw HO Hno PK Hd r ltac:(rewrite map_length; lia)).
  rewrite nth_fin, reals_fin in T.
  assert (ED : nth r D [] = map2 Rminus (nth r S []) (nth r S' [])).
  { unfold D, combine_signals. rewrite (nth_map2 _ _ _ _ [] [] []) by lia. apply map2_ext. intros. ring. }
  rewrite ED in T. eapply Rle_trans; [|exact T]. rewrite ES. apply Req_le. f_equal. apply map_ext_in. intros j Ij. f_equal.
  assert (CE : forall m k, nth k (column m j r) NaN = SpecMRQ.entry m j r k) by (intros m k; unfold SpecMRQ.entry, column; destruct (dict_get _ _); [reflexivity|now destruct k]).
  assert (G : no_inf (column (wt_coefs td) j r) /\ length (column (wt_coefs td) j r) = length (column (wt_coefs t) j r)).
  { apply wa_inv in H as (e1 & _ & -> & _); trivial. apply wa_inv in Hd as (e2 & _ & -> & _); trivial. cbn [the_wt wt_coefs] in *. rewrite !scales_mrq in *.
    assert (Cnt : forall g g', map Z.of_nat (seq 1 g) = map Z.of_nat (seq 1 g') -> g = g') by (intros g g' X; apply (f_equal (@length _)) in X; now rewrite !map_length, !seq_length in X).
    apply Cnt in ES. apply in_map_iff in Ij as (i & <- & Hi). apply in_seq in Hi. unfold column, mrq_of. cbn [mq_values]. rewrite !table_get by lia. rewrite !Cf_nth_lt by (rewrite map_length; lia). rewrite !nth_fin.
    split; [apply coef_no_inf, no_inf_fin|]. rewrite !coef_length, !fin_length by lia. rewrite Forall_forall in HD, HS. rewrite (HD (nth r D [])), (HS (nth r S [])); trivial; apply nth_In; lia. }
  destruct G as [G1 G2]. unfold energy, numbers. rewrite reals_sumn, G2 by trivial. unfold gap2. apply sumn_ext. intros k _. rewrite !CE. destruct (V j r k) as (V1 & V2 & V3).
  assert (N1 := no_inf_nth _ k G1). rewrite CE in N1. destruct N1 as [E|[d E]].
  - rewrite E, (proj1 V1 E), (proj1 V2 E). cbn. ring.
  - assert (X : forall m, no_inf (column m j r) -> SpecMRQ.entry m j r k <> NaN -> exists d, SpecMRQ.entry m j r k = Fin d).
    { intros m NN ne. assert (Q := no_inf_nth _ k NN). rewrite CE in Q. destruct Q as [Q|Q]; [congruence|exact Q]. }
    assert (NC : forall A tt ws0, Forall no_inf A -> wavelet_analysis A p w j1 j2 gam norm wd = Ok (tt, ws0) -> no_inf (column (wt_coefs tt) j r)).
    { intros A0 tt ws0 N0 E0. apply wa_inv in E0 as (e1 & _ & -> & _); trivial. cbn [the_wt wt_coefs]. unfold column, mrq_of. cbn [mq_values].
      destruct (dict_get _ j) as [a|] eqn:Q; [|constructor]. apply table_get_inv in Q as (i & -> & Hi & ->). unfold Cf, coef_arr. destruct (nth_in_or_default r (map (coef (neg_hi w) (dec_lo w) norm gam i) A0) []) as [I|I]; [|rewrite I; constructor].
      apply in_map_iff in I as (c & <- & Ic). apply coef_no_inf. rewrite Forall_forall in N0. now apply N0. }
    assert (F : forall Q, Forall no_inf (map fin Q)) by (intros Q; apply Forall_map, Forall_forall; intros s _; apply no_inf_fin).
    destruct (X (wt_coefs t)) as [d1 E1]; [now apply (NC (map fin S) t ws)|intros Q; apply V1 in Q; congruence|].
    destruct (X (wt_coefs t')) as [d2 E2]; [now apply (NC (map fin S') t' ws')|intros Q; apply V2 in Q; congruence|].
    rewrite (V3 d1 d2 E1 E2), E1, E2. cbn [number]. ring.
Qed.
Print Assumptions C109_distance.

(** the wavelet spectrum: weighted by the numbers of coefficients, its values sum to at most the energy of the recording *)
Theorem C109_psd :
  forall S n db N w fs j2 Q,
  Forall (fun s => length s = n) S -> db N = Some w -> good_wavelet w -> orthonormal w ->
  wavelet_estimation db (map fin S) fs N j2 = Ok Q ->
  forall r, (r < length S)%nat ->
  let value i := match psd_psd Q with PSD1 v => NaN | PSD2 _ rows => nth r (nth i rows []) NaN end in
  sumn (length (psd_freq Q)) (fun i => INR (inner_count n (length (dec_hi w)) (i + 1)) * number (value i)) <= energy (nth r S []).
Proof.
  intros S n db N w fs j2 Q HS Hdb Hw HO HQ r Hr value.
  assert (NI : Forall no_inf (map fin S)) by (apply Forall_map, Forall_forall; intros s _; apply no_inf_fin).
  destruct (we_inv db (map fin S) fs N j2 w Q Hdb Hw HQ) as (ws & EW & EQ). set (t := the_wt (map fin S) PNone w j2 (1/2) 1 []) in *.
  assert (T := C109_energy (map fin S) w PNone 1 j2 (1/2) 1 false t ws NI Hw HO R1_neq_R0 Logic.I EW r ltac:(now rewrite map_length)). rewrite nth_fin, reals_fin in T.
  set (g := ccount (map fin S) PNone w (1/2) 1) in *.
  assert (SC : scales (wt_coefs t) = map Z.of_nat (seq 1 g)) by apply scales_mrq.
  assert (LQ : length (psd_freq Q) = g) by (rewrite EQ; cbn [psd_freq]; unfold one_to; rewrite !map_length; apply seq_length).
  rewrite LQ. rewrite SC, map_map in T. rewrite <- seq_shift, map_map in T. eapply Rle_trans; [|exact T]. apply Req_le. unfold sumn. f_equal. apply map_ext_in. intros i Hi. apply in_seq in Hi.
  assert (V : value i = Fin (mean_sq (wt_coefs t) (Z.of_nat (i + 1)) r)).
  { assert (H := we_holds (map fin S) w NI ltac:(fold g; lia)). fold g in H. unfold value. rewrite EQ. cbn [psd_psd].
    change (mq_values (wt_coefs t)) with (mq_values (mrq_of WaveletCoef (1/2) (Cf (map fin S) w (1/2) 1) g)).
    assert (HL : length (map mean_square (dict_vals (mq_values (mrq_of WaveletCoef (1/2) (Cf (map fin S) w (1/2) 1) g)))) = g).
    { unfold mrq_of. cbn [mq_values]. unfold table, dict_vals. now rewrite !map_length, seq_length. }
    destruct H as [_ [(y & _ & H)|[_ H]]]; [discriminate|]. injection H as _ H. set (rows := map mean_square _) in *. destruct rows as [|r0 rows0] eqn:ER; [cbn in HL; lia|]. rewrite H.
    rewrite (nth_map_lt _ _ _ 0%nat) by (rewrite seq_length; lia). rewrite seq_nth by lia.
    rewrite (nth_map_lt _ _ _ []) by (rewrite !map_length, seq_length; lia). rewrite (nth_map_lt _ _ _ 0%nat) by (rewrite seq_length, map_length; lia). rewrite seq_nth by (rewrite ?map_length; lia).
    rewrite (nth_map_lt _ _ _ 0%Z) by (unfold one_to; rewrite map_length, seq_length; lia). cbn [Nat.add].
    unfold one_to. rewrite (nth_map_lt _ _ _ 0%nat) by (rewrite seq_length; lia). rewrite seq_nth by lia. replace (1 + i)%nat with (i + 1)%nat by lia. reflexivity. }
  rewrite V. cbn [number]. replace (Datatypes.S i) with (i + 1)%nat by lia.
  assert (I : In (Z.of_nat (i + 1)) (scales (wt_coefs t))) by (rewrite SC; apply in_map, in_seq; lia).
  assert (CN := C99_count S n w PNone 1 j2 (1/2) 1 false t ws HS Hw R1_neq_R0 Logic.I EW (i + 1) r I Hr).
  assert (LN : length (numbers (wt_coefs t) (Z.of_nat (i + 1)) r) = inner_count n (length (dec_hi w)) (i + 1)).
  { rewrite <- CN. unfold t. cbn [the_wt wt_coefs]. unfold mrq_of. rewrite table_count by lia. unfold numbers, column. cbn [mq_values]. rewrite table_get by lia. now rewrite count_valid_reals by (rewrite Cf_nth_lt by (now rewrite map_length); rewrite nth_fin; apply coef_no_inf, no_inf_fin). }
  unfold mean_sq, mean. rewrite map_length, LN. fold (energy (numbers (wt_coefs t) (Z.of_nat (i + 1)) r)).
  rewrite Nat2Z.id. unfold factor. replace (INR (i + 1) * (1 / 2 - 1 / 1 + 1 / 2)) with 0 by field. rewrite Rpower_O by lra. rewrite pow1. unfold Rdiv at 2. rewrite Rinv_1, Rmult_1_r.
  destruct (Nat.eq_dec (inner_count n (length (dec_hi w)) (i + 1)) 0) as [Z0|Z0].
  - rewrite Z0 in *. destruct (numbers (wt_coefs t) (Z.of_nat (i + 1)) r); [|discriminate]. unfold energy. cbn. ring.
  - field. now apply not_0_INR.
Qed.
Print Assumptions C109_psd.

(** a concrete case: a bump on 24 samples, normalised Haar wavelet; the energies are 1 at the finest scale for a total of 2 *)
Definition bump : list R := repeat 0 9 ++ [1; -1] ++ repeat 0 13.
Example C109_case : exists t ws, Forall no_inf (map fin [bump]) /\ good_wavelet haar1 /\ orthonormal haar1 /\
  wavelet_analysis (map fin [bump]) PInfty haar1 1 None 0 2 true = Ok (t, ws) /\ scales (wt_coefs t) = [1; 2]%Z /\ energy bump = 2.
Proof.
  assert (HF : Forall (fun s => length s = 24%nat) [bump]) by (repeat constructor).
  destruct (C14_returns [bump] 24 haar1 PInfty 1 None 0 2 true ltac:(discriminate) ltac:(lia) HF good_haar1 ltac:(lra) ltac:(auto)) as (t & ws & E1). exists t, ws.
  split; [apply Forall_map, Forall_forall; intros s _; apply no_inf_fin|]. split; [exact good_haar1|]. split; [exact haar1_orthonormal|]. split; [exact E1|]. split.
  - apply wa_inv in E1 as (eta & _ & -> & _); [|exact good_haar1|lra|exact Logic.I]. cbn [the_wt wt_coefs]. rewrite scales_mrq.
    rewrite (fin_ccount haar1 0 2 [bump] 24 PInfty good_haar1 ltac:(discriminate) HF Logic.I). unfold ccount_b, gcount_b, lev_b.
    change (length (dec_hi haar1)) with 2%nat. rewrite level_24_2. vm_compute. reflexivity.
  - unfold energy, bump. cbn. ring.
Qed.
