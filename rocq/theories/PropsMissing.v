(** * C99: which coefficients are usable, exactly: borders and missing samples *)
From Coq Require Import Reals List ZArith Bool Lra Lia.
From Verif Require Import XReal PyBase ModelUtils ModelMRQ ModelStructure ModelWavelet Spec SpecMRQ LXReal LUtils LBase LFilter LTransform LPattern LWave LPoly LCone LWaveEst PropsWavelet PropsLeaders.
Import ListNotations.
Open Scope R_scope.

(** ** Specification *)
(** position k of scale j >= 1 is away from the borders, for n samples and a filter of length L *)
Definition inner (n L j k : nat) : Prop := (L <= 2 * k + 2 /\ 2 * k + 1 + L <= n / 2 ^ (j - 1))%nat.
(** the samples seen by coefficient k of scale j *)
Definition support (L j k : nat) (i : nat) : Prop :=
  let c := ((Z.of_nat L - 1) / 2)%Z in
  (2 ^ Z.of_nat j * Z.of_nat k + (2 ^ Z.of_nat j - 1) * (c + 2 - Z.of_nat L) <= Z.of_nat i
   <= 2 ^ Z.of_nat j * Z.of_nat k + (2 ^ Z.of_nat j - 1) * (c + 1))%Z.
(** the number of such positions *)
Definition inner_count (n L j : nat) : nat := ((n / 2 ^ (j - 1) + 1 - L) / 2 - (L - 1) / 2)%nat.

(** ** one filtering step *)
Lemma fstep_nan h a k : (1 <= length h)%nat -> no_inf a ->
  (nth k (fstep h a) NaN = NaN <->
   ~ (length h <= 2 * k + 2 /\ 2 * k + 1 + length h <= length a)%nat \/
   exists i, (2 * k + 2 + (length h - 1) / 2 <= i + length h)%nat /\ (i <= 2 * k + 1 + (length h - 1) / 2)%nat /\ nth i a NaN = NaN).
Proof.
  intros Hh N. set (c := ((length h - 1) / 2)%nat). assert (Hc : (2 * c <= length h - 1 < 2 * c + 2)%nat) by (unfold c; assert (D := Nat.div_mod (length h - 1) 2); assert (M := Nat.mod_upper_bound (length h - 1) 2); lia).
  destruct (Nat.lt_ge_cases k (length a / 2)) as [K|K].
  2:{ rewrite fstep_out by exact K. split; [|trivial]. intros _. left. intros [A B]. assert (D := Nat.div_mod (length a) 2). assert (M := Nat.mod_upper_bound (length a) 2). lia. }
  rewrite fstep_nth by exact K. unfold kept. destruct (Nat.leb_spec (length h - 1) (2 * k + 1)) as [A|A]; cbn [andb]; [|split; [intros _; left; lia|trivial]].
  destruct (Nat.leb_spec (2 * k + 1 + length h) (length a)) as [B|B]; [|split; [intros _; left; lia|trivial]].
  destruct (csum_no_inf h a (2 * k + 1) N) as [_ E]. fold c in E.
  assert (Q : csum h a (2 * k + 1) = NaN <-> isnan (csum h a (2 * k + 1)) = true) by (destruct (csum h a (2 * k + 1)); cbn; split; congruence).
  rewrite Q, E, existsb_exists. split.
  - intros (m & Hm & X). apply in_seq in Hm. right. exists (2 * k + 1 + c - m)%nat. split; [lia|]. split; [lia|]. destruct (nth (2 * k + 1 + c - m) a NaN); cbn in X; congruence.
  - intros [X|(i & H1 & H2 & X)]; [lia|]. exists (2 * k + 1 + c - i)%nat. split; [apply in_seq; lia|]. replace (2 * k + 1 + c - (2 * k + 1 + c - i))%nat with i by lia. now rewrite X.
Qed.

(** a position of scale j + 1 sees exactly what the positions of scale j it is computed from see *)
Lemma support_step L j k i : (1 <= L)%nat -> (L <= 2 * k + 2)%nat ->
  (support L (S j) k i <-> exists i', (2 * k + 2 + (L - 1) / 2 <= i' + L)%nat /\ (i' <= 2 * k + 1 + (L - 1) / 2)%nat /\ support L j i' i).
Proof.
  intros HL Hk. unfold support. cbv zeta. rewrite Nat2Z.inj_succ, Z.pow_succ_r by lia. rewrite (half_nat L HL). set (t := (2 ^ Z.of_nat j)%Z).
  assert (T : (1 <= t)%Z) by (unfold t; assert (0 < 2 ^ Z.of_nat j)%Z by (apply Z.pow_pos_nonneg; lia); lia). clearbody t. set (c := ((L - 1) / 2)%nat).
  assert (Hc : (2 * c <= L - 1 < 2 * c + 2)%nat) by (unfold c; assert (D := Nat.div_mod (L - 1) 2); assert (M := Nat.mod_upper_bound (L - 1) 2); lia). clearbody c.
  split.
  - intros [H1 H2]. set (z := Z.min ((Z.of_nat i - (t - 1) * (Z.of_nat c + 2 - Z.of_nat L)) / t) (2 * Z.of_nat k + 1 + Z.of_nat c)).
    set (f := ((Z.of_nat i - (t - 1) * (Z.of_nat c + 2 - Z.of_nat L)) / t)%Z) in *.
    assert (Ff : (t * f <= Z.of_nat i - (t - 1) * (Z.of_nat c + 2 - Z.of_nat L) < t * f + t)%Z).
    { unfold f. assert (D := Z.div_mod (Z.of_nat i - (t - 1) * (Z.of_nat c + 2 - Z.of_nat L)) t ltac:(lia)). assert (M := Z.mod_pos_bound (Z.of_nat i - (t - 1) * (Z.of_nat c + 2 - Z.of_nat L)) t ltac:(lia)). lia. }
    clearbody f. assert (Fl : (2 * Z.of_nat k + (Z.of_nat c + 2 - Z.of_nat L) <= f)%Z) by nia.
    assert (Zc : (z = f /\ f <= 2 * Z.of_nat k + 1 + Z.of_nat c \/ z = 2 * Z.of_nat k + 1 + Z.of_nat c /\ z < f)%Z) by (unfold z; lia). clearbody z.
    exists (Z.to_nat z). assert (Z0 : (0 <= z)%Z) by lia. rewrite Z2Nat.id by exact Z0. split; [lia|]. split; [lia|].
    destruct Zc as [[-> F2]|[E F2]].
    + split; [nia|]. destruct (Nat.eq_dec L 1) as [->|NL]; [|nia]. assert (c = 0)%nat by lia. subst c. nia.
    + subst z. split; nia.
  - intros (i' & H1 & H2 & H3 & H4). split; nia.
Qed.
Lemma support_0 L k i : support L 0 k i <-> i = k.
Proof. unfold support. cbn [Z.of_nat]. rewrite Z.pow_0_r. lia. Qed.

(** positions inside at scale j + 1 are computed from positions inside at scale j *)
Lemma div_pow n j : (n / 2 ^ S j = n / 2 ^ j / 2)%nat.
Proof. rewrite Nat.div_div by (try apply Nat.pow_nonzero; lia). f_equal. cbn [Nat.pow]. lia. Qed.
Lemma inner_step n L j k i : (1 <= L)%nat -> (1 <= j)%nat -> inner n L (S j) k -> (2 * k + 2 + (L - 1) / 2 <= i + L)%nat -> (i <= 2 * k + 1 + (L - 1) / 2)%nat -> inner n L j i.
Proof.
  intros HL Hj [A B] H1 H2. unfold inner in *. replace (S j - 1)%nat with (S (j - 1)) in B by lia. rewrite div_pow in B. set (m := (n / 2 ^ (j - 1))%nat) in *. clearbody m.
  assert (D := Nat.div_mod m 2 ltac:(lia)). assert (M := Nat.mod_upper_bound m 2 ltac:(lia)). assert (D' := Nat.div_mod (L - 1) 2 ltac:(lia)). assert (M' := Nat.mod_upper_bound (L - 1) 2 ltac:(lia)). lia.
Qed.

Lemma approx_nan lo j a k : (1 <= length lo)%nat -> no_inf a -> (1 <= j)%nat ->
  (nth k (approx_at lo j a) NaN = NaN <-> ~ inner (length a) (length lo) j k \/ exists i, support (length lo) j k i /\ nth i a NaN = NaN).
Proof.
  intros Hl N. revert k. induction j as [|j IH]; intros k Hj; [lia|]. cbn [approx_at]. rewrite fstep_nan by (trivial; now apply approx_no_inf).
  rewrite approx_at_length. unfold inner at 1. replace (S j - 1)%nat with j by lia.
  destruct (Nat.le_gt_cases (length lo) (2 * k + 2)) as [A|A]; [|split; intros _; left; lia].
  destruct (Nat.le_gt_cases (2 * k + 1 + length lo) (length a / 2 ^ j)) as [B|B]; [|split; intros _; left; lia].
  assert (IN : inner (length a) (length lo) (S j) k) by (split; [exact A|]; now replace (S j - 1)%nat with j by lia).
  split.
  - intros [X|(i' & H1 & H2 & X)]; [lia|]. right. destruct j as [|j].
    + cbn [approx_at] in X. exists i'. split; [|exact X]. apply support_step; trivial. exists i'. split; [exact H1|]. split; [exact H2|]. now apply support_0.
    + apply IH in X; [|lia]. destruct X as [X|(i & S1 & X)]; [exfalso; apply X; apply (inner_step _ _ (S j) k); trivial; lia|].
      exists i. split; [|exact X]. apply support_step; trivial. exists i'. auto.
  - intros [X|(i & S1 & X)]; [exfalso; apply X; split; assumption|]. right. apply support_step in S1 as (i' & H1 & H2 & S1); trivial. exists i'. split; [exact H1|]. split; [exact H2|].
    destruct j as [|j]; [cbn [approx_at]; apply support_0 in S1; now subst i|]. apply IH; [lia|]. right. eauto.
Qed.
Lemma detail_nan hi lo j a k : (1 <= length hi)%nat -> length lo = length hi -> no_inf a -> (1 <= j)%nat ->
  (nth k (detail hi lo j a) NaN = NaN <-> ~ inner (length a) (length hi) j k \/ exists i, support (length hi) j k i /\ nth i a NaN = NaN).
Proof.
  intros Hh Hl N Hj. assert (E : (nth k (detail hi lo j a) NaN = NaN <-> nth k (approx_at lo j a) NaN = NaN)).
  { unfold detail. destruct j as [|j]; [lia|]. replace (S j - 1)%nat with j by lia. cbn [approx_at]. rewrite !fstep_nan by (try lia; now apply approx_no_inf). rewrite Hl. reflexivity. }
  rewrite E, approx_nan by (trivial; lia). now rewrite Hl.
Qed.

(** a position away from the borders only sees samples of the signal *)
Lemma support_in n L j k i : (1 <= L)%nat -> (1 <= j)%nat -> inner n L j k -> support L j k i -> (i < n)%nat.
Proof.
  intros HL Hj. revert k. induction j as [|j IH]; intros k IN S1; [lia|]. assert (IN' := IN). destruct IN' as [A B].
  apply support_step in S1 as (i' & H1 & H2 & S1); trivial. destruct j as [|j].
  - apply support_0 in S1. subst i'. cbn in B. rewrite Nat.div_1_r in B. assert (D' := Nat.div_mod (L - 1) 2 ltac:(lia)). lia.
  - apply (IH ltac:(lia) i'); [|exact S1]. apply (inner_step n L (S j) k i'); trivial; lia.
Qed.
Lemma inner_dec n L j k : {inner n L j k} + {~ inner n L j k}.
Proof. unfold inner. destruct (le_dec L (2 * k + 2)), (le_dec (2 * k + 1 + L) (n / 2 ^ (j - 1))); tauto. Qed.
Lemma coef_nan hi lo norm gam j a k : (1 <= length hi)%nat -> length lo = length hi -> no_inf a -> (1 <= j)%nat ->
  (nth k (coef hi lo norm gam j a) NaN = NaN <-> ~ inner (length a) (length hi) j k \/ exists i, (i < length a)%nat /\ support (length hi) j k i /\ nth i a NaN = NaN).
Proof.
  intros Hh Hl N Hj. unfold coef. rewrite rescale_eq. set (f := xmul _). assert (F : f NaN = NaN) by reflexivity. rewrite <- F at 1. rewrite map_nth.
  assert (E : f (nth k (detail hi lo j a) NaN) = NaN <-> nth k (detail hi lo j a) NaN = NaN).
  { split; [|intros ->; reflexivity]. destruct (no_inf_nth _ k (detail_no_inf hi lo j a N)) as [->|[x ->]]; [trivial|]. unfold f. cbn. discriminate. }
  rewrite E, detail_nan by trivial. destruct (inner_dec (length a) (length hi) j k) as [IN|IN]; [|tauto].
  split; (intros [X|(i & X)]; [now left|right; exists i]); [destruct X as [X Y]|tauto]. split; [|auto]. now apply (support_in _ (length hi) j k).
Qed.

(** ** C99 *)
(** a coefficient is missing exactly when its position is too close to a border or one of the samples it sees is missing *)
Theorem C99_usable :
  forall (A : arr) (w : wavelet) (p : pexp) (j1 : Z) (j2 : option R) (gam norm : R) (weighted : bool) t ws,
  Forall no_inf A ->               (* samples are numbers or NaN *)
  good_wavelet w -> norm <> 0 -> p_ok p ->
  wavelet_analysis A p w j1 j2 gam norm weighted = Ok (t, ws) ->
  forall j r k, In (Z.of_nat j) (scales (wt_coefs t)) -> (r < length A)%nat ->
    let n := length (nth r A []) in let L := length (dec_hi w) in
    entry (wt_coefs t) (Z.of_nat j) r k = NaN <->
    ~ inner n L j k \/ exists i, (i < n)%nat /\ support L j k i /\ nth i (nth r A []) NaN = NaN.
Proof.
  intros A w p j1 j2 gam norm wd t ws HA Hw Hn Hp H j r k I Hr n L. apply wa_inv in H as (eta & _ & -> & _); trivial. cbn [the_wt wt_coefs] in *.
  apply in_scales in I as (i & Ei & Hi). apply Nat2Z.inj in Ei. subst i. rewrite entry_coef by trivial. destruct Hw as [Hw1 Hw2].
  rewrite coef_nan; rewrite ?neg_hi_length; try (unfold L, n; reflexivity); try lia; trivial. rewrite Forall_forall in HA. apply HA. now apply nth_In.
Qed.

(** ** counting *)
Lemma count_positions c : count_valid c = length (filter (fun k => negb (isnan (nth k c NaN))) (seq 0 (length c))).
Proof.
  unfold count_valid, valid. induction c as [|x c IH]; [reflexivity|]. cbn [length seq filter]. change (nth 0 (x :: c) NaN) with x. rewrite <- seq_shift.
  assert (E : forall l, length (filter (fun k => negb (isnan (nth k (x :: c) NaN))) (map S l)) = length (filter (fun k => negb (isnan (nth k c NaN))) l)).
  { induction l as [|a l IHl]; [reflexivity|]. cbn [map filter]. change (nth (S a) (x :: c) NaN) with (nth a c NaN). destruct (isnan (nth a c NaN)); cbn [negb length]; now rewrite IHl. }
  unfold notnan at 1. destruct (isnan x); cbn [negb length]; rewrite E, IH; reflexivity.
Qed.
Lemma filter_range a b N : (b <= N)%nat -> length (filter (fun k => Nat.leb a k && Nat.ltb k b) (seq 0 N)) = (b - a)%nat.
Proof.
  intros H. replace N with (b + (N - b))%nat by lia. rewrite seq_app, filter_app, app_length.
  replace (length (filter _ (seq (0 + b) (N - b)))) with 0%nat.
  2:{ symmetry. generalize (N - b)%nat. intros d. cbn [Nat.add]. assert (Q : forall s, (b <= s)%nat -> filter (fun k => Nat.leb a k && Nat.ltb k b) (seq s d) = []).
      { induction d as [|d IH]; intros s Hs; [reflexivity|]. cbn [seq filter]. destruct (Nat.ltb_spec s b); [lia|]. rewrite andb_false_r. apply IH. lia. }
      now rewrite Q. }
  rewrite Nat.add_0_r. clear H N. induction b as [|b IH]; [reflexivity|]. rewrite seq_S, filter_app, app_length. cbn [Nat.add filter].
  assert (E : length (filter (fun k => Nat.leb a k && Nat.ltb k (S b)) (seq 0 b)) = (b - a)%nat).
  { rewrite <- IH. f_equal. apply filter_ext_in. intros k Hk. apply in_seq in Hk. f_equal. destruct (Nat.ltb_spec k (S b)), (Nat.ltb_spec k b); trivial; lia. }
  rewrite E. destruct (Nat.ltb_spec b (S b)); [|lia]. rewrite andb_true_r. destruct (Nat.leb_spec a b); cbn [length]; lia.
Qed.
Lemma inner_iff n L j k : (1 <= L)%nat -> inner n L j k <-> ((L - 1) / 2 <= k < (n / 2 ^ (j - 1) + 1 - L) / 2)%nat.
Proof.
  intros HL. unfold inner. set (m := (n / 2 ^ (j - 1))%nat). assert (D := Nat.div_mod (L - 1) 2 ltac:(lia)). assert (M := Nat.mod_upper_bound (L - 1) 2 ltac:(lia)).
  assert (D' := Nat.div_mod (m + 1 - L) 2 ltac:(lia)). assert (M' := Nat.mod_upper_bound (m + 1 - L) 2 ltac:(lia)). lia.
Qed.
Lemma inner_len n L j k : (1 <= L)%nat -> (1 <= j)%nat -> inner n L j k -> (k < n / 2 ^ j)%nat.
Proof. intros HL Hj [_ B]. replace j with (S (j - 1)) by lia. rewrite div_pow. assert (D := Nat.div_mod (n / 2 ^ (j - 1)) 2 ltac:(lia)). assert (M := Nat.mod_upper_bound (n / 2 ^ (j - 1)) 2 ltac:(lia)). lia. Qed.
Definition innerb (n L j k : nat) : bool := if inner_dec n L j k then true else false.
Lemma inner_total n L j : (1 <= L)%nat -> (1 <= j)%nat -> length (filter (innerb n L j) (seq 0 (n / 2 ^ j))) = inner_count n L j.
Proof.
  intros HL Hj. unfold inner_count. rewrite <- (filter_range ((L - 1) / 2) ((n / 2 ^ (j - 1) + 1 - L) / 2) (n / 2 ^ j)).
  - f_equal. apply filter_ext. intros k. unfold innerb. destruct (inner_dec n L j k) as [IN|IN]; rewrite inner_iff in IN by exact HL; symmetry.
    + apply andb_true_intro. split; [apply Nat.leb_le|apply Nat.ltb_lt]; lia.
    + apply andb_false_iff. destruct (Nat.leb_spec ((L - 1) / 2) k); [right; apply Nat.ltb_ge; lia|now left].
  - replace j with (S (j - 1)) at 2 by lia. rewrite div_pow. apply Nat.div_le_mono; lia.
Qed.
Lemma filter_le {A} (p q : A -> bool) l : (forall x, In x l -> p x = true -> q x = true) -> (length (filter p l) <= length (filter q l))%nat.
Proof.
  induction l as [|x l IH]; intros H; [cbn; lia|]. cbn [filter]. assert (K := IH (fun y Hy => H y (or_intror Hy))). specialize (H x (or_introl eq_refl)).
  destruct (p x); [rewrite H by trivial; cbn; lia|]. destruct (q x); cbn; lia.
Qed.

(** the number of usable coefficients of a complete signal, in closed form *)
Theorem C99_count :
  forall (S : list (list R)) (n : nat) (w : wavelet) (p : pexp) (j1 : Z) (j2 : option R) (gam norm : R) (weighted : bool) t ws,
  Forall (fun s => length s = n) S -> good_wavelet w -> norm <> 0 -> p_ok p ->
  wavelet_analysis (map fin S) p w j1 j2 gam norm weighted = Ok (t, ws) ->
  forall j r, In (Z.of_nat j) (scales (wt_coefs t)) -> (r < length S)%nat ->
    count (wt_coefs t) (Z.of_nat j) r = inner_count n (length (dec_hi w)) j.
Proof.
  intros S n w p j1 j2 gam norm wd t ws HS Hw Hn Hp H j r I Hr. apply wa_inv in H as (eta & _ & -> & _); trivial. cbn [the_wt wt_coefs] in *.
  apply in_scales in I as (i & Ei & Hi). apply Nat2Z.inj in Ei. subst i. unfold mrq_of. rewrite table_count by exact Hi. rewrite Cf_nth_lt by (now rewrite map_length). destruct Hw as [Hw1 Hw2].
  assert (Ls : length (nth r S []) = n) by (rewrite Forall_forall in HS; apply HS; now apply nth_In). rewrite nth_fin. set (s := nth r S []) in *.
  rewrite count_positions. unfold coef at 2. rewrite rescale_eq, map_length, detail_length, fin_length, Ls by lia. rewrite <- inner_total by lia. f_equal. apply filter_ext. intros k.
  assert (Q := coef_nan (neg_hi w) (dec_lo w) norm gam j (fin s) k). rewrite neg_hi_length in Q. specialize (Q Hw1 Hw2 (no_inf_fin s) ltac:(lia)). rewrite fin_length, Ls in Q. unfold innerb.
  destruct (inner_dec n (length (dec_hi w)) j k) as [IN|IN].
  - destruct (isnan (nth k (coef (neg_hi w) (dec_lo w) norm gam j (fin s)) NaN)) eqn:E; [|reflexivity]. exfalso.
    assert (X : nth k (coef (neg_hi w) (dec_lo w) norm gam j (fin s)) NaN = NaN) by (destruct (nth k _ NaN); cbn in E; congruence).
    apply Q in X as [X|(i & Hi1 & _ & X)]; [now apply X|]. unfold fin in X. rewrite (nth_map_lt _ _ _ 0) in X by lia. discriminate.
  - rewrite (proj2 Q) by (now left). reflexivity.
Qed.

Lemma filter_split {A} (p q : A -> bool) l : (length (filter p l) <= length (filter q l) + length (filter (fun x => p x && negb (q x)) l))%nat.
Proof. induction l as [|x l IH]; [cbn; lia|]. cbn [filter]. destruct (p x), (q x); cbn [andb negb length]; lia. Qed.
Lemma union_bound {A B} (p : A -> bool) (q : B -> A -> bool) (M : list B) b l :
  (forall x, In x l -> p x = true -> exists i, In i M /\ q i x = true) -> (forall i, In i M -> (length (filter (q i) l) <= b)%nat) -> (length (filter p l) <= b * length M)%nat.
Proof.
  revert p. induction M as [|i M IH]; intros p H HB.
  - assert (E : filter p l = []); [|rewrite E; cbn; lia]. clear HB. induction l as [|x l IHl]; [reflexivity|]. cbn [filter]. destruct (p x) eqn:E; [|apply IHl; intros y Hy; apply H; now right].
    destruct (H x (or_introl eq_refl) E) as (i & [] & _).
  - assert (S1 := filter_split p (q i) l). assert (S2 := HB i (or_introl eq_refl)).
    assert (S3 := IH (fun x => p x && negb (q i x))). cbn [length]. assert (K : (length (filter (fun x => p x && negb (q i x)) l) <= b * length M)%nat); [|lia]. apply S3.
    + intros x Hx P. apply andb_prop in P as [P Q]. destruct (H x Hx P) as (i' & [->|Hi] & Q'); [rewrite Q' in Q; discriminate|eauto].
    + intros i' Hi. apply HB. now right.
Qed.
Definition supportb (L j i k : nat) : bool :=
  let c := ((Z.of_nat L - 1) / 2)%Z in
  ((2 ^ Z.of_nat j * Z.of_nat k + (2 ^ Z.of_nat j - 1) * (c + 2 - Z.of_nat L) <=? Z.of_nat i)%Z &&
   (Z.of_nat i <=? 2 ^ Z.of_nat j * Z.of_nat k + (2 ^ Z.of_nat j - 1) * (c + 1))%Z)%bool.
Lemma supportb_iff L j i k : supportb L j i k = true <-> support L j k i.
Proof. unfold supportb, support. cbv zeta. rewrite andb_true_iff, !Z.leb_le. reflexivity. Qed.
(** a sample is seen by at most L - 1 coefficients of a scale *)
Lemma seen_by L j i N : (2 <= L)%nat -> (1 <= j)%nat -> (length (filter (supportb L j i) (seq 0 N)) <= L - 1)%nat.
Proof.
  intros HL Hj. set (T := (2 ^ Z.of_nat j)%Z). assert (HT : (1 <= T)%Z) by (unfold T; assert (0 < 2 ^ Z.of_nat j)%Z by (apply Z.pow_pos_nonneg; lia); lia).
  set (c := ((Z.of_nat L - 1) / 2)%Z). set (x := (Z.of_nat i - (T - 1) * (c + 1))%Z). set (a := (- ((- x) / T))%Z).
  assert (Ha : (T * a - T < x <= T * a)%Z). { unfold a. assert (D := Z.div_mod (- x) T ltac:(lia)). assert (M := Z.mod_pos_bound (- x) T ltac:(lia)). lia. }
  rewrite <- (seq_length (L - 1) (Z.to_nat a)). apply NoDup_incl_length; [apply NoDup_filter, seq_NoDup|]. intros k Hk. apply filter_In in Hk as [_ Hk]. apply supportb_iff in Hk. unfold support in Hk. fold T c in Hk. cbv zeta in Hk. destruct Hk as [K1 K2].
  assert (A1 : (a <= Z.of_nat k)%Z) by (unfold x in Ha; nia). assert (A2 : (T * Z.of_nat k <= T * a + (T - 1) * (Z.of_nat L - 1))%Z) by (unfold x in Ha; nia).
  assert (A3 : (Z.of_nat k < a + (Z.of_nat L - 1))%Z) by nia. apply in_seq. lia.
Qed.
Lemma missing_positions c : length (filter isnan c) = length (filter (fun k => isnan (nth k c NaN)) (seq 0 (length c))).
Proof.
  induction c as [|x c IH]; [reflexivity|]. cbn [length seq filter]. change (nth 0 (x :: c) NaN) with x. rewrite <- seq_shift.
  assert (E : forall l, length (filter (fun k => isnan (nth k (x :: c) NaN)) (map S l)) = length (filter (fun k => isnan (nth k c NaN)) l)).
  { induction l as [|a l IHl]; [reflexivity|]. cbn [map filter]. change (nth (S a) (x :: c) NaN) with (nth a c NaN). destruct (isnan (nth a c NaN)); cbn [length]; now rewrite IHl. }
  destruct (isnan x); cbn [length]; rewrite E, IH; reflexivity.
Qed.
(** every missing sample costs at most L - 1 coefficients at each scale *)
Theorem C99_lost :
  forall (A : arr) (w : wavelet) (p : pexp) (j1 : Z) (j2 : option R) (gam norm : R) (weighted : bool) t ws,
  Forall no_inf A -> good_wavelet w -> (2 <= length (dec_hi w))%nat -> norm <> 0 -> p_ok p ->
  wavelet_analysis A p w j1 j2 gam norm weighted = Ok (t, ws) ->
  forall j r, In (Z.of_nat j) (scales (wt_coefs t)) -> (r < length A)%nat ->
    let n := length (nth r A []) in let L := length (dec_hi w) in
    (count (wt_coefs t) (Z.of_nat j) r <= inner_count n L j <= count (wt_coefs t) (Z.of_nat j) r + (L - 1) * length (filter isnan (nth r A [])))%nat.
Proof.
  intros A w p j1 j2 gam norm wd t ws HA Hw H2 Hn Hp H j r I Hr n L. apply wa_inv in H as (eta & _ & -> & _); trivial. cbn [the_wt wt_coefs] in *.
  apply in_scales in I as (i & Ei & Hi). apply Nat2Z.inj in Ei. subst i. unfold mrq_of. rewrite table_count by exact Hi. rewrite Cf_nth_lt by exact Hr. destruct Hw as [Hw1 Hw2].
  assert (Na : no_inf (nth r A [])) by (rewrite Forall_forall in HA; apply HA; now apply nth_In).
  rewrite count_positions. unfold coef at 2 4. rewrite rescale_eq, map_length, detail_length by lia. fold n. rewrite <- inner_total by lia. fold L.
  assert (Q : forall k, nth k (coef (neg_hi w) (dec_lo w) norm gam j (nth r A [])) NaN = NaN <-> ~ inner n L j k \/ exists i, (i < n)%nat /\ support L j k i /\ nth i (nth r A []) NaN = NaN).
  { intros k. rewrite coef_nan; rewrite ?neg_hi_length; try (unfold L, n; reflexivity); try lia; trivial. }
  split.
  - apply filter_le. intros k _ X. unfold innerb. destruct (inner_dec n L j k) as [IN|IN]; [reflexivity|]. rewrite (proj2 (Q k)) in X by (now left). discriminate.
  - rewrite missing_positions. fold n. eapply Nat.le_trans; [apply (filter_split _ (fun k => negb (isnan (nth k (coef (neg_hi w) (dec_lo w) norm gam j (nth r A [])) NaN))))|]. apply Nat.add_le_mono_l.
    apply (union_bound _ (supportb L j)).
    + intros k _ X. apply andb_prop in X as [X Y]. rewrite negb_involutive in Y. assert (Z : nth k (coef (neg_hi w) (dec_lo w) norm gam j (nth r A [])) NaN = NaN) by (destruct (nth k _ NaN); cbn in Y; congruence).
      apply Q in Z as [Z|(i & I1 & I2 & I3)]; [unfold innerb in X; destruct (inner_dec n L j k); [contradiction|discriminate]|]. exists i. split; [|now apply supportb_iff]. apply filter_In. split; [apply in_seq; lia|now rewrite I3].
    + intros i _. apply seen_by; [exact H2|lia].
Qed.

(** the scales of the coefficients of a complete signal: exactly those with at least three positions away from the borders *)
Lemma inner_count_decr n L j j' : (1 <= j <= j')%nat -> (inner_count n L j' <= inner_count n L j)%nat.
Proof.
  intros Hj. unfold inner_count. apply Nat.sub_le_mono_r. apply Nat.div_le_mono; [lia|]. assert (n / 2 ^ (j' - 1) <= n / 2 ^ (j - 1))%nat; [|lia].
  apply Nat.div_le_compat_l. split; [assert (X := Nat.pow_nonzero 2 (j - 1)); lia|]. apply Nat.pow_le_mono_r; lia.
Qed.
Lemma count_level n L j : (1 <= n)%nat -> (1 <= L)%nat -> (1 <= j)%nat -> (3 <= inner_count n L j)%nat -> (Z.of_nat j <= lev_b n L)%Z.
Proof.
  intros Hn HL Hj H. unfold lev_b. destruct (PropsUtils.C12_largest_level n L Hn) as (m & -> & Hm). apply Hm. unfold inner_count in H.
  set (u := (n / 2 ^ (j - 1))%nat) in *. assert (U : (2 * (L + 1) <= u)%nat).
  { assert (D := Nat.div_mod (u + 1 - L) 2 ltac:(lia)). assert (M := Nat.mod_upper_bound (u + 1 - L) 2 ltac:(lia)). assert (D' := Nat.div_mod (L - 1) 2 ltac:(lia)). assert (M' := Nat.mod_upper_bound (L - 1) 2 ltac:(lia)). lia. }
  assert (V : ((L + 1) * 2 ^ j <= n)%nat).
  { assert (W : (2 ^ (j - 1) * u <= n)%nat) by (apply Nat.mul_div_le, Nat.pow_nonzero; lia). replace (2 ^ j)%nat with (2 * 2 ^ (j - 1))%nat by (replace j with (S (j - 1)) at 2 by lia; reflexivity). nia. }
  apply le_INR in V. rewrite mult_INR, plus_INR, pow_INR in V. rewrite <- pow_powerRZ. exact V.
Qed.
Theorem C99_scales :
  forall (S : list (list R)) (n : nat) (w : wavelet) (j1 : Z) (j2 : option R) (gam norm : R) (weighted : bool) t ws,
  S <> [] -> (1 <= n)%nat -> Forall (fun s => length s = n) S -> good_wavelet w -> norm <> 0 ->
  wavelet_analysis (map fin S) PNone w j1 j2 gam norm weighted = Ok (t, ws) ->
  forall j : nat, In (Z.of_nat j) (scales (wt_coefs t)) <-> (1 <= j)%nat /\ (3 <= inner_count n (length (dec_hi w)) j)%nat.
Proof.
  intros S n w j1 j2 gam norm wd t ws NS Hn1 HS Hw Hn H j. apply wa_inv in H as (eta & _ & -> & _); [|trivial|trivial|exact Logic.I]. cbn [the_wt wt_coefs].
  rewrite scales_mrq. destruct (Hw) as [Hw1 Hw2]. set (L := length (dec_hi w)) in *.
  assert (OK : forall i, (1 <= i)%nat -> okc (neg_hi w) (dec_lo w) (map fin S) i = Nat.leb 3 (inner_count n L i)).
  { intros i Hi. unfold okc. assert (E : forall s, In s S -> count_valid (detail (neg_hi w) (dec_lo w) i (fin s)) = inner_count n L i).
    { intros s Hs. assert (Ls : length s = n) by (rewrite Forall_forall in HS; now apply HS). rewrite count_positions, detail_length, fin_length, Ls, <- inner_total by lia. f_equal. apply filter_ext. intros k.
      assert (Q := detail_nan (neg_hi w) (dec_lo w) i (fin s) k). rewrite neg_hi_length in Q. specialize (Q Hw1 Hw2 (no_inf_fin s) Hi). rewrite fin_length, Ls in Q. fold L in Q. unfold innerb. destruct (inner_dec n L i k) as [IN|IN].
      - destruct (isnan (nth k (detail (neg_hi w) (dec_lo w) i (fin s)) NaN)) eqn:E; [|reflexivity]. exfalso. assert (X : nth k (detail (neg_hi w) (dec_lo w) i (fin s)) NaN = NaN) by (destruct (nth k _ NaN); cbn in E; congruence).
        apply Q in X as [X|(i' & S1 & X)]; [now apply X|]. assert (i' < n)%nat by (now apply (support_in n L i k)). unfold fin in X. rewrite (nth_map_lt _ _ _ 0) in X by lia. discriminate.
      - rewrite (proj2 Q) by (now left). reflexivity. }
    destruct S as [|s S]; [congruence|]. cbn [map forallb]. rewrite (E s) by (now left). destruct (Nat.leb 3 (inner_count n L i)) eqn:B; cbn [andb]; [|reflexivity].
    assert (F : forall S', (forall s, In s S' -> count_valid (detail (neg_hi w) (dec_lo w) i (fin s)) = inner_count n L i) -> forallb (fun c => Nat.leb 3 (count_valid (detail (neg_hi w) (dec_lo w) i c))) (map fin S') = true).
    { induction S' as [|s' S' IH]; intros E'; [reflexivity|]. cbn [map forallb]. rewrite (E' s') by (now left). rewrite B. apply IH. intros. apply E'. now right. }
    apply F. intros s' Hs. apply E. now right. }
  assert (G : ccount (map fin S) PNone w gam norm = run (fun i => Nat.leb 3 (inner_count n L i)) (Z.to_nat (lev_b n L)) 0).
  { unfold ccount, gcount. rewrite (fin_nlev w S n) by trivial. fold L. apply run_ext. intros i Hi. apply OK. lia. }
  rewrite G. set (g := run _ _ _). rewrite in_map_iff. split.
  - intros (i & Ei & Hi). apply Nat2Z.inj in Ei. subst i. apply in_seq in Hi. split; [lia|]. apply Nat.leb_le. apply (run_ok (fun i => Nat.leb 3 (inner_count n L i)) (Z.to_nat (lev_b n L)) 0 j). fold g. lia.
  - intros [J1 J2]. exists j. split; [reflexivity|]. apply in_seq. split; [lia|]. assert (Lv := count_level n L j Hn1 Hw1 J1 J2). destruct (Nat.lt_ge_cases j (1 + g)) as [|Q]; [assumption|exfalso].
    assert (ST := run_stop (fun i => Nat.leb 3 (inner_count n L i)) (Z.to_nat (lev_b n L)) 0). fold g in ST. specialize (ST ltac:(lia)). apply Nat.leb_gt in ST. assert (K := inner_count_decr n L (Datatypes.S g) j ltac:(lia)). cbn [Nat.add] in ST. lia.
Qed.

(** ** leaders of a complete signal *)
(** a position away from the borders at scale j is above a position away from the borders at scale 1 *)
Lemma inner_below n L j j' k k' : (1 <= L)%nat -> (1 <= j' <= j)%nat -> inner n L j' k' -> (k * 2 ^ (j - j') <= k' < (k + 3) * 2 ^ (j - j'))%nat ->
  exists i, inner n L 1 i /\ (k * 2 ^ (j - 1) <= i < (k + 3) * 2 ^ (j - 1))%nat.
Proof.
  intros HL Hj [A B] [C D]. exists (k' * 2 ^ (j' - 1))%nat. assert (P : (1 <= 2 ^ (j' - 1))%nat) by (assert (X := Nat.pow_nonzero 2 (j' - 1)); lia).
  assert (E : (2 ^ (j - 1) = 2 ^ (j - j') * 2 ^ (j' - 1))%nat) by (rewrite <- Nat.pow_add_r; f_equal; lia). rewrite E. split; [|split; nia].
  unfold inner. cbn [Nat.sub]. rewrite Nat.pow_0_r, Nat.div_1_r. assert (W : (2 ^ (j' - 1) * (n / 2 ^ (j' - 1)) <= n)%nat) by (apply Nat.mul_div_le, Nat.pow_nonzero; lia). nia.
Qed.
Theorem C99_leaders :
  forall (S : list (list R)) (n : nat) (w : wavelet) (j1 : Z) (j2 : option R) (gam norm : R) (weighted : bool) t ws l,
  Forall (fun s => length s = n) S -> good_wavelet w -> norm <> 0 ->
  wavelet_analysis (map fin S) PInfty w j1 j2 gam norm weighted = Ok (t, ws) -> wt_leaders t = Some l ->
  forall j r k, In (Z.of_nat j) (scales l) -> (r < length S)%nat -> (k < length (column l (Z.of_nat j) r))%nat ->
    (entry l (Z.of_nat j) r k <> NaN <-> exists i, inner n (length (dec_hi w)) 1 i /\ (k * 2 ^ (j - 1) <= i < (k + 3) * 2 ^ (j - 1))%nat).
Proof.
  intros S n w j1 j2 gam norm wd t ws l HS Hw Hn H El j r k I Hr Hk. set (L := length (dec_hi w)).
  assert (NI : Forall no_inf (map fin S)) by (apply Forall_map, Forall_forall; intros s _; apply no_inf_fin).
  assert (Hr' : (r < length (map fin S))%nat) by (now rewrite map_length).
  destruct (C21_leader_sup (map fin S) w j1 j2 gam norm wd t ws l NI Hw Hn H El (Z.of_nat j) r k I Hr') as [_ C]. destruct (C Hk) as [C1 _]. clear C.
  assert (Ls : length (nth r (map fin S) []) = n) by (rewrite nth_fin, fin_length; rewrite Forall_forall in HS; apply HS; now apply nth_In).
  assert (SC : forall j', (1 <= j' <= j)%nat -> In (Z.of_nat j') (scales (wt_coefs t))).
  { intros j' Hj'. apply wa_inv in H as (eta' & _ & -> & _); trivial; [|exact Logic.I]. cbn [the_wt wt_leaders wt_coefs] in *. apply Some_inj in El; subst l. apply in_scales in I as (i & Ei & Hi). apply Nat2Z.inj in Ei. subst i.
    assert (Hc := gcount_le_ccount (map fin S) PInfty w gam norm). rewrite scales_mrq. apply in_map. apply in_seq. lia. }
  assert (J1 : (1 <= j)%nat). { apply wa_inv in H as (eta' & _ & -> & _); trivial; [|exact Logic.I]. cbn [the_wt wt_leaders] in *. apply Some_inj in El; subst l. apply in_scales in I as (i & Ei & Hi). lia. }
  assert (U : forall j' k', (1 <= j' <= j)%nat -> (entry (wt_coefs t) (Z.of_nat j') r k' = NaN <-> ~ inner n L j' k')).
  { intros j' k' Hj'. assert (Q := C99_usable (map fin S) w PInfty j1 j2 gam norm wd t ws NI Hw Hn Logic.I H j' r k' (SC j' Hj') Hr'). cbv zeta in Q. fold L in Q.
    match type of Q with context [length ?z] => replace (length z) with n in Q by (symmetry; exact Ls) end. rewrite Q. split; [|tauto].
    intros [X|(i & I1 & _ & X)]; [exact X|]. assert (NF := nth_fin S r). match type of X with nth i ?z NaN = NaN => change z with (nth r (map fin S) []) in X end. rewrite NF in X, Ls. unfold fin in X. rewrite fin_length in Ls. rewrite (nth_map_lt _ _ _ 0) in X by lia. discriminate. }
  rewrite C1. unfold cone_coefs. rewrite Nat2Z.id. split.
  - intros NF. destruct (existsb (fun jk => innerb n L (fst jk) (snd jk)) (cone j k)) eqn:E.
    + apply existsb_exists in E as ([j' k'] & Hc & E). cbn [fst snd] in E. apply cone_In in Hc as [Hj' Hk']. unfold innerb in E. destruct (inner_dec n L j' k') as [IN|]; [|discriminate].
      apply (inner_below n L j j' k k'); trivial. apply Hw.
    + exfalso. apply NF. rewrite Forall_map, Forall_forall. intros [j' k'] Hc. symmetry. assert (Hc' := Hc). apply cone_In in Hc' as [Hj' _]. cbn [fst snd]. apply U; [exact Hj'|]. intros IN.
      assert (X : existsb (fun jk => innerb n L (fst jk) (snd jk)) (cone j k) = true); [|congruence]. apply existsb_exists. exists (j', k'). split; [exact Hc|]. cbn [fst snd]. unfold innerb. now destruct (inner_dec n L j' k').
  - intros (i & IN & Hi) F. rewrite Forall_map, Forall_forall in F. assert (Hc : In (1%nat, i) (cone j k)) by (apply cone_In; split; [lia|exact Hi]). specialize (F _ Hc). cbn [fst snd] in F. symmetry in F. apply U in F; [contradiction|lia].
Qed.
Print Assumptions C99_usable.
Print Assumptions C99_count.
Print Assumptions C99_lost.
Print Assumptions C99_scales.
Print Assumptions C99_leaders.

(** ** A concrete case: 24 samples, the tenth one missing, Haar wavelet *)
Definition holed : arr := [fin (repeat 1 9) ++ [NaN] ++ fin (repeat 2 14)].
Example C99_case : exists t ws,
  wavelet_analysis holed PNone haar 1 None 0 1 true = Ok (t, ws) /\ Forall no_inf holed /\ good_wavelet haar /\ (2 <= length (dec_hi haar))%nat /\
  scales (wt_coefs t) = [1; 2]%Z /\
  count (wt_coefs t) 1 0 = 10%nat /\ count (wt_coefs t) 2 0 = 4%nat /\
  inner_count 24 2 1 = 11%nat /\ inner_count 24 2 2 = 5%nat /\ inner_count 24 2 3 = 2%nat /\
  entry (wt_coefs t) 1 0 3 <> NaN /\ entry (wt_coefs t) 1 0 4 = NaN /\ entry (wt_coefs t) 1 0 5 <> NaN.
Proof.
  assert (NI : Forall no_inf holed).
  { constructor; [|constructor]. unfold no_inf. cbn. repeat (constructor; [first [right; eexists; reflexivity|left; reflexivity]|]). constructor. }
  assert (E := wa_eq holed PNone haar 1 None 0 1 true good_haar R1_neq_R0 Logic.I). unfold wa_closed in E. change (sig_len holed) with 24%nat in E. change (length (dec_hi haar)) with 2%nat in E.
  assert (Lv : decomposition_level 24 2 = Ok 3%Z).
  { destruct (PropsUtils.C12_largest_level 24 2) as (m & Em & Hm); [lia|]. rewrite Em. f_equal. assert (A : (3 <= m)%Z) by (apply Hm; simpl; lra). assert (B : ~ (4 <= m)%Z) by (rewrite Hm; simpl; lra). lia. }
  assert (NL : nlev holed haar = 3%Z). { unfold nlev. change (sig_len holed) with 24%nat. change (length (dec_hi haar)) with 2%nat. now rewrite Lv. }
  assert (CC : ccount holed PNone haar 0 1 = 2%nat).
  { unfold ccount, gcount. rewrite NL. reflexivity. }
  match type of E with _ = ?x => assert (F : exists t ws, x = Ok (t, ws)) end.
  { rewrite Lv. cbn [bind eta_of]. eauto. }
  destruct F as (t & ws & F). rewrite F in E. clear F. exists t, ws. split; [exact E|]. split; [exact NI|]. split; [exact good_haar|]. split; [cbn; lia|].
  apply wa_inv in E as (eta & _ & -> & _); [|exact good_haar|exact R1_neq_R0|exact Logic.I]. cbn [the_wt wt_coefs]. rewrite CC.
  repeat split; try reflexivity; change 1%Z with (Z.of_nat 1); rewrite entry_coef by lia; cbn; discriminate.
Qed.
