(** * C96: the estimates computed in floating point.
    On a machine whose operations have relative error u (logarithms and powers: v) plus underflow eta, and whose sums may be
    accumulated in any order, hmin, zeta(q), H and every log-cumulant are computed within explicit bounds of their exact values. *)
From Coq Require Import Reals List ZArith Bool Lra Lia Psatz Permutation.
From Verif Require Import XReal PyBase ModelUtils ModelMRQ ModelStructure ModelCumulants ModelSpectrum ModelEstimation
  Spec SpecMRQ LXReal LReg LUtils LBase LEst LMoment LCum LEntropy LScale LBivariate PropsEstimators PropsCumulants PropsSpectrum PropsMono PropsInvariance PropsFinite PropsStable ModelRoundedEst.
Import ListNotations.
Open Scope R_scope.

(** ** Specification *)
(** x is the sum of l, added in some order and grouping with the machine's addition *)
Inductive sum_to (F : arith) : list R -> R -> Prop :=
| sum_one a : sum_to F [a] a
| sum_add l l1 l2 x y : Permutation l (l1 ++ l2) -> sum_to F l1 x -> sum_to F l2 y -> sum_to F l (f_add F x y).

Definition accurate_arith (u v eta : R) (F : arith) : Prop :=
  (forall a b, Rabs (f_add F a b - (a + b)) <= u * Rabs (a + b) + eta) /\
  (forall a b, Rabs (f_mul F a b - a * b) <= u * Rabs (a * b) + eta) /\
  (forall a b, b <> 0 -> Rabs (f_div F a b - a / b) <= u * Rabs (a / b) + eta) /\
  (forall l, l <> [] -> sum_to F l (f_sum F l)) /\
  (forall a, 0 < a -> Rabs (f_log2 F a - log2R a) <= v * Rabs (log2R a) + eta) /\
  (forall a, 0 < a -> Rabs (f_ln F a - ln a) <= v * Rabs (ln a) + eta) /\
  (forall a e w, is_power a (num_val e) (Fin w) -> Rabs (f_pow F a e - w) <= v * Rabs w + eta) /\
  Rabs (f_log2e F - log2_e) <= v * Rabs log2_e + eta.

(** A quantity known with an error: (bound on its modulus, bound on the error of the computed value) *)
Definition known : Set := (R * R)%type.
Definition size (p : known) : R := fst p.
Definition error (p : known) : R := snd p.
(** the exact number a, the computed number b *)
Definition approx (p : known) (a b : R) : Prop := Rabs a <= size p /\ Rabs (b - a) <= error p.
(** the exact result x is a number (and then) the computed result y is one, with an error bounded by p *)
Definition computed (p : known) (x y : xr) : Prop := exists a b, x = Fin a /\ y = Fin b /\ approx p a b.

Section Bounds.
Variables (u v eta : R).
(** error bounds of the computed sum, difference, product, half, mean of at most N numbers *)
Definition k_add (p q : known) : known :=
  (size p + size q, error p + error q + u * (size p + size q + error p + error q) + eta).
Definition k_mul (p q : known) : known :=
  (size p * size q, size p * error q + error p * size q + error p * error q + u * ((size p + error p) * (size q + error q)) + eta).
Definition k_half (p : known) : known := (size p / 2, error p / 2 + u * ((size p + error p) / 2) + eta).
Definition k_mean (N : nat) (p : known) : known :=
  (size p, error p + ((1 + u) ^ N - 1) * (size p + error p) + 2 * (1 + u) ^ N * eta).
Definition k_exact (a : R) : known := (Rabs a, 0).
(** a logarithm of modulus at most B; its m-th power; log2(e) *)
Definition k_log (B : R) : known := (B, v * B + eta).
Definition k_pow (p : known) (m : nat) : known :=
  (size p ^ m, (size p + error p) ^ m - size p ^ m + v * (size p + error p) ^ m + eta).
Definition k_log2e : known := (log2_e, v * log2_e + eta).
(** logarithm of a number known up to a factor 2^d, with |log2| at most Y *)
Definition k_log2 (Y d : R) : known := (Y, d + (v * (Y + d) + eta)).
(** slope of the fit over k scales of standard deviation sd *)
Definition k_fit (k : nat) (sd : R) (p : known) : known :=
  (size p / sd,
   (error p + ((1 + u) ^ (k + 1) - 1) * (size p + error p)) / sd + INR k * (size p + error p + 2) * (1 + u) ^ k * eta).
(** relative error of the computed moments, and their absolute error due to underflow *)
Definition mom_rel (N : nat) : R := (1 + u) ^ N * (1 + v) - 1.
Definition mom_abs (N : nat) : R := 3 * (1 + u) ^ N * eta.

(** C_1, ..., C_n from logarithms of modulus at most B: the recursion of cumulants.py:104-118 on bounds *)
Definition k_mom (N : nat) (B : R) (m : nat) : known := k_mean N (k_pow (k_log B) m).
Definition k_aux (mom : nat -> known) (prev : list known) (m : nat) : known :=
  fold_left (fun aux n => k_add aux (k_mul (k_mul (k_exact (C (m - 1) (n - 1))) (nth (n - 1) prev (0, 0))) (mom (m - n)%nat)))
            (seq 1 (m - 1)) (k_exact 0).
Definition k_step (mom : nat -> known) (prev : list known) (m : nat) : known :=
  if Nat.eqb m 1 then mom m else k_add (mom m) (k_aux mom prev m).
Fixpoint k_list (mom : nat -> known) (n : nat) : list known :=
  match n with
  | O => []
  | S k => let prev := k_list mom k in prev ++ [k_step mom prev (S k)]
  end.
Definition k_cum (N : nat) (B : R) (m : nat) : known := nth (m - 1) (k_list (k_mom N B) m) (0, 0).
End Bounds.

(** ** Sums, products, means *)
Section Calc.
Variables (F : arith) (u v eta : R).
Hypotheses (U0 : 0 <= u) (V0 : 0 <= v) (E0 : 0 <= eta) (HF : accurate_arith u v eta F).

Lemma absum l : Rabs (Rsum l) <= Rsum (map Rabs l).
Proof.
  induction l as [|x l IH]; unfold Rsum in *; cbn [map fold_right]; [rewrite Rabs_R0; lra|]. eapply Rle_trans; [apply Rabs_triang|]. lra.
Qed.
Lemma abs_nonneg l : 0 <= Rsum (map Rabs l).
Proof. apply Rsum_map_nonneg. intros. apply Rabs_pos. Qed.
Lemma sum_to_nonempty l x : sum_to F l x -> (1 <= length l)%nat.
Proof. induction 1 as [a|l l1 l2 x y P D1 I1 D2 I2]; [cbn; lia|]. apply Permutation_length in P. rewrite P, app_length. lia. Qed.
Lemma Rsum_perm1 l l' : Permutation l l' -> Rsum l = Rsum l'.
Proof. induction 1; unfold Rsum in *; cbn [fold_right]; lra. Qed.
Lemma g_ge1 n : 1 <= (1 + u) ^ n.
Proof using U0. apply pow_R1_Rle. lra. Qed.
Lemma g_mono a b : (a <= b)%nat -> (1 + u) ^ a <= (1 + u) ^ b.
Proof using U0. intros H. apply Rle_pow; trivial. lra. Qed.

Lemma sum_err l x : sum_to F l x ->
  Rabs (x - Rsum l) <= ((1 + u) ^ (length l - 1) - 1) * Rsum (map Rabs l) + INR (length l - 1) * (1 + u) ^ (length l - 1) * eta.
Proof using U0 E0 HF.
  destruct HF as (Ha & _). induction 1 as [a|l l1 l2 x y P D1 I1 D2 I2].
  - unfold Rsum. cbn [fold_right length Nat.sub pow INR map]. replace (a - (a + 0)) with 0 by ring. rewrite Rabs_R0. lra.
  - assert (N1 := sum_to_nonempty _ _ D1). assert (N2 := sum_to_nonempty _ _ D2).
    assert (LL := Permutation_length P). rewrite app_length in LL.
    assert (ER : Rsum l = Rsum l1 + Rsum l2) by (rewrite (Rsum_perm1 _ _ P); apply Rsum_app).
    assert (EA : Rsum (map Rabs l) = Rsum (map Rabs l1) + Rsum (map Rabs l2)).
    { rewrite (Rsum_perm1 _ (map Rabs (l1 ++ l2))) by (now apply Permutation_map). rewrite map_app. apply Rsum_app. }
    assert (A1 := absum l1). assert (A2 := absum l2). assert (P1 := abs_nonneg l1). assert (P2 := abs_nonneg l2).
    rewrite ER, EA. set (s1 := Rsum l1) in *. set (s2 := Rsum l2) in *. set (a1 := Rsum (map Rabs l1)) in *. set (a2 := Rsum (map Rabs l2)) in *.
    set (n := (length l - 2)%nat). replace (length l - 1)%nat with (S n) by lia. cbn [pow]. set (g := (1 + u) ^ n).
    assert (G1 : 1 <= g) by apply g_ge1.
    assert (G2 : (1 + u) ^ (length l1 - 1) <= g) by (apply g_mono; lia). assert (G3 : (1 + u) ^ (length l2 - 1) <= g) by (apply g_mono; lia).
    assert (Q1 := g_ge1 (length l1 - 1)). assert (Q2 := g_ge1 (length l2 - 1)).
    assert (J1 := pos_INR (length l1 - 1)). assert (J2 := pos_INR (length l2 - 1)).
    assert (B1 : Rabs (x - s1) <= (g - 1) * a1 + INR (length l1 - 1) * g * eta).
    { eapply Rle_trans; [exact I1|]. apply Rplus_le_compat; [apply Rmult_le_compat_r; lra|].
      apply Rmult_le_compat_r; [lra|]. apply Rmult_le_compat_l; lra. }
    assert (B2 : Rabs (y - s2) <= (g - 1) * a2 + INR (length l2 - 1) * g * eta).
    { eapply Rle_trans; [exact I2|]. apply Rplus_le_compat; [apply Rmult_le_compat_r; lra|].
      apply Rmult_le_compat_r; [lra|]. apply Rmult_le_compat_l; lra. }
    assert (LI : INR (S n) = INR (length l1 - 1) + INR (length l2 - 1) + 1) by (rewrite S_INR, <- plus_INR; f_equal; f_equal; unfold n; lia).
    rewrite LI. assert (K := Ha x y). set (i1 := INR (length l1 - 1)) in *. set (i2 := INR (length l2 - 1)) in *.
    assert (T : Rabs (x + y) <= Rabs (x - s1) + Rabs (y - s2) + a1 + a2).
    { replace (x + y) with ((x - s1) + (y - s2) + (s1 + s2)) by ring.
      eapply Rle_trans; [apply Rabs_triang|]. assert (Q := Rabs_triang (x - s1) (y - s2)). assert (Q' := Rabs_triang s1 s2). lra. }
    assert (T2 : Rabs (f_add F x y - (s1 + s2)) <= Rabs (f_add F x y - (x + y)) + (Rabs (x - s1) + Rabs (y - s2))).
    { replace (f_add F x y - (s1 + s2)) with ((f_add F x y - (x + y)) + ((x - s1) + (y - s2))) by ring.
      eapply Rle_trans; [apply Rabs_triang|]. assert (Q := Rabs_triang (x - s1) (y - s2)). lra. }
    set (e1 := Rabs (x - s1)) in *. set (e2 := Rabs (y - s2)) in *.
    assert (UT : u * Rabs (x + y) <= u * (e1 + e2 + a1 + a2)) by (apply Rmult_le_compat_l; lra).
    assert (B12 : (1 + u) * (e1 + e2) <= (1 + u) * ((g - 1) * a1 + i1 * g * eta + ((g - 1) * a2 + i2 * g * eta))) by (apply Rmult_le_compat_l; lra).
    assert (GE : eta <= (1 + u) * g * eta).
    { rewrite <- (Rmult_1_l eta) at 1. apply Rmult_le_compat_r; [lra|]. assert (0 <= u * g) by (apply Rmult_le_pos; lra). lra. }
    eapply Rle_trans; [exact T2|]. eapply Rle_trans with ((1 + u) * (e1 + e2) + u * (a1 + a2) + eta); [lra|].
    eapply Rle_trans; [apply Rplus_le_compat; [apply Rplus_le_compat_r, B12|exact GE]|]. apply Req_le. ring.
Qed.
Lemma f_sum_err l : l <> [] ->
  Rabs (f_sum F l - Rsum l) <= ((1 + u) ^ (length l - 1) - 1) * Rsum (map Rabs l) + INR (length l - 1) * (1 + u) ^ (length l - 1) * eta.
Proof using U0 E0 HF. intros H. apply sum_err. now apply HF. Qed.

Lemma tri a b c : Rabs (a - c) <= Rabs (a - b) + Rabs (b - c).
Proof. replace (a - c) with ((a - b) + (b - c)) by ring. apply Rabs_triang. Qed.
Lemma size_computed p a b : approx p a b -> Rabs b <= size p + error p.
Proof. intros [A B]. replace b with (a + (b - a)) by ring. eapply Rle_trans; [apply Rabs_triang|]. lra. Qed.
Lemma approx_nonneg p a b : approx p a b -> 0 <= size p /\ 0 <= error p.
Proof. intros [A B]. assert (X := Rabs_pos a). assert (Y := Rabs_pos (b - a)). lra. Qed.

Lemma ap_add p q a b c d : approx p a b -> approx q c d -> approx (k_add u eta p q) (a + c) (f_add F b d).
Proof using U0 HF.
  intros A B. assert (SA := size_computed _ _ _ A). assert (SB := size_computed _ _ _ B). destruct A as [A1 A2], B as [B1 B2].
  split; cbn [k_add size error fst snd]; fold (size p) (size q) (error p) (error q).
  - eapply Rle_trans; [apply Rabs_triang|]. lra.
  - eapply Rle_trans; [apply (tri _ (b + d))|].
    assert (K := proj1 HF b d). assert (T := Rabs_triang b d).
    assert (u * Rabs (b + d) <= u * (size p + size q + error p + error q)) by (apply Rmult_le_compat_l; lra).
    replace (b + d - (a + c)) with ((b - a) + (d - c)) by ring. assert (T2 := Rabs_triang (b - a) (d - c)). lra.
Qed.
Lemma approx_opp p a b : approx p a b -> approx p (- a) (- b).
Proof. intros [A B]. split; [now rewrite Rabs_Ropp|]. replace (- b - - a) with (- (b - a)) by ring. now rewrite Rabs_Ropp. Qed.
Lemma ap_sub p q a b c d : approx p a b -> approx q c d -> approx (k_add u eta p q) (a - c) (f_add F b (- d)).
Proof using U0 HF. intros A B. apply (ap_add p q a b (- c) (- d)); trivial. now apply approx_opp. Qed.
Lemma prod_close p q a b c d : approx p a b -> approx q c d ->
  Rabs (a * c) <= size p * size q /\ Rabs (b * d - a * c) <= size p * error q + error p * size q + error p * error q.
Proof.
  intros A B. assert (PA := approx_nonneg _ _ _ A). assert (PB := approx_nonneg _ _ _ B). destruct A as [A1 A2], B as [B1 B2]. split.
  - rewrite Rabs_mult. apply Rmult_le_compat; trivial; apply Rabs_pos.
  - replace (b * d - a * c) with (a * (d - c) + (b - a) * c + (b - a) * (d - c)) by ring.
    eapply Rle_trans; [apply Rabs_triang|]. apply Rplus_le_compat; [eapply Rle_trans; [apply Rabs_triang|]; apply Rplus_le_compat|];
      rewrite Rabs_mult; apply Rmult_le_compat; trivial; apply Rabs_pos.
Qed.
Lemma ap_mul p q a b c d : approx p a b -> approx q c d -> approx (k_mul u eta p q) (a * c) (f_mul F b d).
Proof using U0 HF.
  intros A B. destruct (prod_close _ _ _ _ _ _ A B) as [P1 P2]. assert (SA := size_computed _ _ _ A). assert (SB := size_computed _ _ _ B).
  split; cbn [k_mul size error fst snd]; fold (size p) (size q) (error p) (error q); trivial.
  eapply Rle_trans; [apply (tri _ (b * d))|]. assert (K := proj1 (proj2 HF) b d).
  assert (u * Rabs (b * d) <= u * ((size p + error p) * (size q + error q))).
  { apply Rmult_le_compat_l; trivial. rewrite Rabs_mult. apply Rmult_le_compat; trivial; apply Rabs_pos. }
  lra.
Qed.
Lemma ap_half p a b : approx p a b -> approx (k_half u eta p) (a / 2) (f_div F b 2).
Proof using U0 HF.
  intros A. assert (SA := size_computed _ _ _ A). destruct A as [A1 A2].
  split; cbn [k_half size error fst snd]; fold (size p) (error p).
  - unfold Rdiv. rewrite Rabs_mult, (Rabs_pos_eq (/ 2)) by lra. lra.
  - eapply Rle_trans; [apply (tri _ (b / 2))|]. assert (K := proj1 (proj2 (proj2 HF)) b 2 ltac:(lra)).
    replace (b / 2 - a / 2) with ((b - a) * / 2) by field. unfold Rdiv in *. rewrite !Rabs_mult, (Rabs_pos_eq (/ 2)) in * by lra.
    assert (u * (Rabs b * / 2) <= u * ((size p + error p) * / 2)) by (apply Rmult_le_compat_l; lra). lra.
Qed.
Lemma ap_exact a : approx (k_exact a) a a.
Proof. split; cbn; [lra|]. rewrite Rminus_diag_eq, Rabs_R0 by reflexivity. lra. Qed.
Lemma approx_weaken p q a b : size p <= size q -> error p <= error q -> approx p a b -> approx q a b.
Proof. intros A B [C D]. split; lra. Qed.

(** the mean of numbers known with a common absolute error *)
Lemma Rsum_le_const {A} (f : A -> R) l c : (forall x, In x l -> f x <= c) -> Rsum (map f l) <= INR (length l) * c.
Proof.
  induction l as [|x l IH]; intros H; [cbn; unfold Rsum; cbn; lra|]. change (length (x :: l)) with (S (length l)). rewrite S_INR. cbn [map]. unfold Rsum in *. cbn [fold_right].
  assert (A1 := H x (or_introl eq_refl)). assert (A2 := IH (fun y Hy => H y (or_intror Hy))). lra.
Qed.
Lemma ap_mean N p (l l' : list R) : l <> [] -> (length l <= N)%nat -> Forall2 (approx p) l l' ->
  approx (k_mean u eta N p) (mean l) (f_div F (f_sum F l') (INR (length l))).
Proof using U0 E0 HF.
  intros NE HN HA. assert (LL : length l = length l') by (clear - HA; induction HA; cbn; congruence).
  assert (NE' : l' <> []) by (destruct l, l'; cbn in *; congruence).
  set (n := length l) in *. assert (Hn : (1 <= n)%nat) by (unfold n; destruct l; [congruence|cbn; lia]).
  assert (P : 0 < INR n) by (apply lt_0_INR; lia).
  assert (PP : 0 <= size p /\ 0 <= error p) by (destruct HA as [|a b ? ? A]; [congruence|]; now apply approx_nonneg in A). destruct PP as [PS PE].
  assert (D1 : Rabs (Rsum l' - Rsum l) <= INR n * error p).
  { unfold n. clear - HA. induction HA as [|a b l l' [A B] HA IH]; [unfold Rsum; cbn; rewrite Rminus_0_r, Rabs_R0; lra|].
    change (length (a :: l)) with (S (length l)). rewrite S_INR. unfold Rsum in *. cbn [fold_right].
    replace (b + fold_right Rplus 0 l' - (a + fold_right Rplus 0 l)) with ((b - a) + (fold_right Rplus 0 l' - fold_right Rplus 0 l)) by ring.
    eapply Rle_trans; [apply Rabs_triang|]. lra. }
  assert (D2 : Rsum (map Rabs l') <= INR n * (size p + error p)).
  { rewrite LL. apply Rsum_le_const. intros x Hx. clear - HA Hx. induction HA as [|a b l l' A HA IH]; [destruct Hx|].
    destruct Hx as [->|Hx]; [now apply size_computed in A|auto]. }
  assert (D3 : Rabs (Rsum l) <= INR n * size p).
  { eapply Rle_trans; [apply absum|]. apply Rsum_le_const. intros x Hx. clear - HA Hx. induction HA as [|a b l l' [A _] HA IH]; [destruct Hx|].
    destruct Hx as [->|Hx]; auto. }
  assert (SS := f_sum_err l' NE'). rewrite <- LL in SS. set (g := (1 + u) ^ (n - 1)) in *. assert (G1 : 1 <= g) by apply g_ge1.
  set (s := f_sum F l') in *.
  assert (K := proj1 (proj2 (proj2 HF)) s (INR n) ltac:(lra)).
  assert (GN : (1 + u) * g <= (1 + u) ^ N).
  { change ((1 + u) ^ S (n - 1) <= (1 + u) ^ N). apply g_mono. lia. }
  assert (IN : INR (n - 1) <= INR n) by (apply le_INR; lia). assert (I0 := pos_INR (n - 1)).
  assert (SE : Rabs (s - Rsum l') <= INR n * ((g - 1) * (size p + error p) + g * eta)).
  { eapply Rle_trans; [exact SS|]. rewrite Rmult_plus_distr_l. apply Rplus_le_compat.
    - replace (INR n * ((g - 1) * (size p + error p))) with ((g - 1) * (INR n * (size p + error p))) by ring. apply Rmult_le_compat_l; lra.
    - rewrite Rmult_assoc. apply Rmult_le_compat_r; [apply Rmult_le_pos; lra|lra]. }
  assert (SB : Rabs s <= INR n * (g * (size p + error p) + g * eta)).
  { replace s with ((s - Rsum l') + Rsum l') by ring. eapply Rle_trans; [apply Rabs_triang|]. assert (Q := absum l'). lra. }
  split; cbn [k_mean size error fst snd]; fold (size p) (error p).
  - unfold mean. fold n. unfold Rdiv. rewrite Rabs_mult, (Rabs_pos_eq (/ INR n)) by (left; now apply Rinv_0_lt_compat).
    apply (Rmult_le_reg_l (INR n)); trivial. replace (INR n * (Rabs (Rsum l) * / INR n)) with (Rabs (Rsum l)) by (field; lra). exact D3.
  - eapply Rle_trans; [apply (tri _ (s / INR n))|].
    assert (Q1 : Rabs (s / INR n) <= g * (size p + error p) + g * eta).
    { unfold Rdiv. rewrite Rabs_mult, (Rabs_pos_eq (/ INR n)) by (left; now apply Rinv_0_lt_compat).
      apply (Rmult_le_reg_l (INR n)); trivial. replace (INR n * (Rabs s * / INR n)) with (Rabs s) by (field; lra). exact SB. }
    assert (Q2 : Rabs (s / INR n - mean l) <= (g - 1) * (size p + error p) + g * eta + error p).
    { unfold mean. fold n. replace (s / INR n - Rsum l / INR n) with ((s - Rsum l) * / INR n) by (field; lra).
      rewrite Rabs_mult, (Rabs_pos_eq (/ INR n)) by (left; now apply Rinv_0_lt_compat).
      apply (Rmult_le_reg_l (INR n)); trivial. replace (INR n * (Rabs (s - Rsum l) * / INR n)) with (Rabs (s - Rsum l)) by (field; lra).
      eapply Rle_trans; [apply (tri _ (Rsum l'))|]. lra. }
    assert (Q3 : u * Rabs (s / INR n) <= u * (g * (size p + error p) + g * eta)) by (apply Rmult_le_compat_l; lra).
    eapply Rle_trans with (error p + ((1 + u) * g - 1) * (size p + error p) + ((1 + u) * g + 1) * eta); [lra|].
    assert (X1 : ((1 + u) * g - 1) * (size p + error p) <= ((1 + u) ^ N - 1) * (size p + error p)) by (apply Rmult_le_compat_r; lra).
    assert (X2 : ((1 + u) * g + 1) * eta <= 2 * (1 + u) ^ N * eta) by (apply Rmult_le_compat_r; [lra|]; assert (Y := g_ge1 N); lra).
    lra.
Qed.

(** the mean of non-negative numbers known with a relative error *)
Lemma mean_rel N (l l' : list R) : l <> [] -> (length l <= N)%nat -> Forall (fun a => 0 <= a) l ->
  Forall2 (fun a b => Rabs (b - a) <= v * a + eta) l l' ->
  Rabs (f_div F (f_sum F l') (INR (length l)) - mean l) <= mom_rel u v N * mean l + mom_abs u eta N.
Proof using U0 V0 E0 HF.
  intros NE HN HP HA. assert (LL : length l = length l') by (clear - HA; induction HA; cbn; congruence).
  assert (NE' : l' <> []) by (destruct l, l'; cbn in *; congruence).
  set (n := length l) in *. assert (Hn : (1 <= n)%nat) by (unfold n; destruct l; [congruence|cbn; lia]).
  assert (P : 0 < INR n) by (apply lt_0_INR; lia).
  assert (W0 : 0 <= Rsum l). { clear - HP. induction HP; unfold Rsum in *; cbn [fold_right]; lra. }
  assert (D1 : Rabs (Rsum l' - Rsum l) <= v * Rsum l + INR n * eta).
  { unfold n. clear - HA. induction HA as [|a b l l' A HA IH]; [unfold Rsum; cbn; rewrite Rminus_0_r, Rabs_R0; lra|].
    change (length (a :: l)) with (S (length l)). rewrite S_INR. unfold Rsum in *. cbn [fold_right].
    replace (b + fold_right Rplus 0 l' - (a + fold_right Rplus 0 l)) with ((b - a) + (fold_right Rplus 0 l' - fold_right Rplus 0 l)) by ring.
    eapply Rle_trans; [apply Rabs_triang|]. lra. }
  assert (D2 : Rsum (map Rabs l') <= (1 + v) * Rsum l + INR n * eta).
  { unfold n. clear - HA HP. induction HA as [|a b l l' A HA IH]; [unfold Rsum; cbn; lra|]. inversion HP as [|? ? P1 P2]; subst. specialize (IH P2).
    change (length (a :: l)) with (S (length l)). rewrite S_INR. unfold Rsum in *. cbn [map fold_right].
    assert (Rabs b <= a + Rabs (b - a)). { replace b with (a + (b - a)) at 1 by ring. eapply Rle_trans; [apply Rabs_triang|]. rewrite (Rabs_pos_eq a) by trivial. lra. }
    lra. }
  assert (SS := f_sum_err l' NE'). rewrite <- LL in SS. set (g := (1 + u) ^ (n - 1)) in *. assert (G1 : 1 <= g) by apply g_ge1.
  set (s := f_sum F l') in *. set (W := Rsum l) in *.
  assert (K := proj1 (proj2 (proj2 HF)) s (INR n) ltac:(lra)).
  assert (GN : (1 + u) * g <= (1 + u) ^ N).
  { change ((1 + u) ^ S (n - 1) <= (1 + u) ^ N). apply g_mono. lia. }
  assert (IN : INR (n - 1) <= INR n) by (apply le_INR; lia). assert (I0 := pos_INR (n - 1)).
  assert (GE : 0 <= g * eta) by (apply Rmult_le_pos; lra).
  assert (SE : Rabs (s - Rsum l') <= (g - 1) * ((1 + v) * W + INR n * eta) + INR n * (g * eta)).
  { eapply Rle_trans; [exact SS|]. apply Rplus_le_compat; [apply Rmult_le_compat_l; lra|]. rewrite Rmult_assoc. apply Rmult_le_compat_r; lra. }
  assert (ST : Rabs (s - W) <= (g * (1 + v) - 1) * W + 2 * (INR n * (g * eta))).
  { eapply Rle_trans; [apply (tri _ (Rsum l'))|]. eapply Rle_trans; [apply Rplus_le_compat; [exact SE|exact D1]|]. apply Req_le. ring. }
  assert (SB : Rabs s <= g * (1 + v) * W + 2 * (INR n * (g * eta))).
  { replace s with ((s - W) + W) by ring. eapply Rle_trans; [apply Rabs_triang|]. rewrite (Rabs_pos_eq W) by trivial. lra. }
  set (i := / INR n). assert (Hi : 0 < i) by (now apply Rinv_0_lt_compat). assert (NI : INR n * i = 1) by (unfold i; field; lra).
  assert (EM : mean l = W * i) by (unfold mean; fold n W; reflexivity).
  assert (Q1 : Rabs (s / INR n) <= g * (1 + v) * mean l + 2 * (g * eta)).
  { unfold Rdiv. fold i. rewrite Rabs_mult, (Rabs_pos_eq i) by lra. rewrite EM.
    replace (g * (1 + v) * (W * i) + 2 * (g * eta)) with ((g * (1 + v) * W + 2 * (INR n * (g * eta))) * i) by (rewrite <- (Rmult_1_l (2 * (g * eta))), <- NI; ring).
    apply Rmult_le_compat_r; lra. }
  assert (Q2 : Rabs (s / INR n - mean l) <= (g * (1 + v) - 1) * mean l + 2 * (g * eta)).
  { rewrite EM. unfold Rdiv. fold i. replace (s * i - W * i) with ((s - W) * i) by ring. rewrite Rabs_mult, (Rabs_pos_eq i) by lra.
    replace ((g * (1 + v) - 1) * (W * i) + 2 * (g * eta)) with (((g * (1 + v) - 1) * W + 2 * (INR n * (g * eta))) * i) by (rewrite <- (Rmult_1_l (2 * (g * eta))), <- NI; ring).
    apply Rmult_le_compat_r; lra. }
  assert (M0 : 0 <= mean l) by (rewrite EM; apply Rmult_le_pos; lra).
  eapply Rle_trans; [apply (tri _ (s / INR n))|].
  assert (Q3 : u * Rabs (s / INR n) <= u * (g * (1 + v) * mean l + 2 * (g * eta))) by (apply Rmult_le_compat_l; lra).
  eapply Rle_trans with (((1 + u) * g * (1 + v) - 1) * mean l + (2 * ((1 + u) * g) + 1) * eta); [lra|].
  unfold mom_rel, mom_abs. apply Rplus_le_compat.
  - apply Rmult_le_compat_r; trivial. assert ((1 + u) * g * (1 + v) <= (1 + u) ^ N * (1 + v)) by (apply Rmult_le_compat_r; lra). lra.
  - apply Rmult_le_compat_r; [lra|]. assert (Y := g_ge1 N). lra.
Qed.
End Calc.

(** ** The fit *)
Section Fit.
Variables (F : arith) (u v eta : R).
Hypotheses (U0 : 0 <= u) (V0 : 0 <= v) (E0 : 0 <= eta) (HF : accurate_arith u v eta F).
Variables (wd : bool) (m : mrq) (j1 j2 : Z) (r : nat).
Let js := zrange j1 (j2 + 1).

Definition fit3_f (y : Z -> xr) : xr * xr * xr :=
  match linear_regression_f F (scale_support j1 j2) (map y (zrange j1 (j2 + 1))) (wts wd m j1 j2 r) with
  | Ok t => t | Err _ => (NaN, NaN, NaN) end.
Definition fslope_f (y : Z -> xr) : xr := fst (fst (fit3_f y)).
Lemma fit3_f_ok y : linear_regression_f F (scale_support j1 j2) (map y (zrange j1 (j2 + 1))) (wts wd m j1 j2 r) = Ok (fit3_f y).
Proof.
  unfold fit3_f, linear_regression_f, bcast_mul_f. set (s := scale_support j1 j2). set (w := wts wd m j1 j2 r). set (z := map y (zrange j1 (j2 + 1))).
  assert (L1 : length w = length s) by (unfold w, s, wts, scale_support; now rewrite !map_length).
  assert (L2 : length z = length s) by (unfold z, s, scale_support; now rewrite !map_length).
  rewrite L1, Nat.eqb_refl. cbn [negb]. rewrite !map2_length, L1, L2, Nat.min_id, Nat.eqb_refl. reflexivity.
Qed.
Lemma fslope_f_ext y y' : (forall j, (j1 <= j <= j2)%Z -> y j = y' j) -> fslope_f y = fslope_f y'.
Proof.
  intros H. unfold fslope_f, fit3_f. rewrite (map_ext_in y y'); trivial. intros j Hj. apply zrange_In in Hj. apply H. lia.
Qed.
Lemma all_fin_fin l : all_fin (fin l) = Some l.
Proof. induction l as [|a l IH]; cbn; trivial. unfold fin in IH. now rewrite IH. Qed.

Let P := fpts wd m j1 j2 r.
Let num (j : Z) : R := weight wd m j r * (S0 P * IZR j - S1 P).
Definition wgt (j : Z) : R := num j / D P.
Lemma fslope_f_value y : (j1 <= j2)%Z -> D P <> 0 ->
  fslope_f (fun j => Fin (y j)) = Fin (f_sum F (map (fun j => f_mul F (f_div F (num j) (D P)) (y j)) js)).
Proof.
  intros Hj HD. unfold fslope_f, fit3_f, linear_regression_f. rewrite (wts_fin wd m j1 j2 r (fun _ => 0)), (supp_fin wd m j1 j2 r (fun _ => 0)).
  change (fit_points wd m j1 j2 r (fun _ => 0)) with P. rewrite !fin_length, !map_length, Nat.eqb_refl. cbn [negb].
  rewrite V0_eq, V1_eq, V2_eq. change (xsub (xmul (Fin (S0 P)) (Fin (S2 P))) (xmul (Fin (S1 P)) (Fin (S1 P)))) with (Fin (D P)).
  assert (E : map2 (fun n t => div_x F (xmul n (xsub (xmul (Fin (S0 P)) t) (Fin (S1 P)))) (Fin (D P))) (fin (map pw P)) (fin (map px P))
    = map (fun j => Fin (f_div F (num j) (D P))) js).
  { rewrite !fin_map, map2_map, map2_diag.
    assert (M : forall g : point -> xr, map g P = map (fun j => g (weight wd m j r, IZR j, 0)) js) by (intros g; unfold P, fpts, fit_points; now rewrite map_map).
    rewrite M. apply map_ext. intros j.
    cbn [pw px fst snd]. unfold div_x, lift2, xsub. cbn [xmul xopp xadd]. unfold xdiv. destruct (Req_EM_T (D P) 0); [contradiction|]. unfold num. reflexivity. }
  rewrite E. unfold bcast_mul_f. rewrite !map2_length, !fin_length, !map_length.
  assert (LP : length P = length js) by (unfold P, fpts, fit_points; now rewrite map_length). fold js. rewrite LP, Nat.min_id, Nat.eqb_refl. cbn [bind fst].
  rewrite map2_map, map2_diag. change (map (fun a => mul_x F (Fin (f_div F (num a) (D P))) (Fin (y a))) js) with (map (fun j => Fin (f_mul F (f_div F (num j) (D P)) (y j))) js).
  rewrite <- fin_map. unfold sum_x. rewrite all_fin_fin. set (L := map (fun a => f_mul F (f_div F (num a) (D P)) (y a)) js).
  destruct L as [|a l] eqn:El; [|reflexivity].
  exfalso. unfold L in El. apply (f_equal (@length _)) in El. rewrite map_length in El. unfold js in El. rewrite zrange_length in El. cbn in El. lia.
Qed.
Lemma slope_wgt y : D P <> 0 -> slope (fit_points wd m j1 j2 r y) = Rsum (map (fun j => wgt j * y j) js).
Proof.
  intros HD. unfold slope. assert (ED : D (fit_points wd m j1 j2 r y) = D P) by (unfold D, P, fpts; now rewrite !fp_S0, !fp_S1, !fp_S2).
  rewrite ED, fp_S0, fp_S1, fp_T0, fp_T1. fold js.
  rewrite (Rsum_map_ext (fun j => wgt j * y j) (fun j => S0 P / D P * (weight wd m j r * IZR j * y j) + - S1 P / D P * (weight wd m j r * y j)))
    by (intros; unfold wgt, num; field; trivial).
  rewrite Rsum_map_plus, !Rsum_map_scal.
  assert (A0 : S0 P = Rsum (map (fun j => weight wd m j r) js)) by apply fp_S0. assert (A1 : S1 P = Rsum (map (fun j => weight wd m j r * IZR j) js)) by apply fp_S1.
  rewrite A0, A1. field. trivial.
Qed.
Lemma wgt_norm : well_posed P -> Rsum (map (fun j => Rabs (wgt j)) js) <= 1 / spread wd m j1 j2 r.
Proof.
  intros W. assert (HD := D_pos _ W).
  set (y := fun j => if Rle_dec 0 (wgt j) then 1 else -1).
  assert (E : slope (fit_points wd m j1 j2 r y) = Rsum (map (fun j => Rabs (wgt j)) js)).
  { rewrite slope_wgt by lra. apply Rsum_map_ext. intros j _. unfold y. destruct (Rle_dec 0 (wgt j)); [rewrite Rabs_pos_eq by trivial|rewrite Rabs_left by lra]; ring. }
  assert (B := slope_bound wd m j1 j2 r y 1 (wposed_ext wd m j1 j2 r _ y W)).
  rewrite E in B. rewrite Rabs_pos_eq in B by (apply Rsum_map_nonneg; intros; apply Rabs_pos). apply B.
  intros j _. unfold y. destruct (Rle_dec 0 (wgt j)); [rewrite Rabs_R1|rewrite Rabs_left by lra]; lra.
Qed.
Definition nscales : nat := Z.to_nat (j2 + 1 - j1).

Lemma ap_fit p (y y' : Z -> R) : well_posed P -> (forall j, (j1 <= j <= j2)%Z -> approx p (y j) (y' j)) ->
  computed (k_fit u eta nscales (spread wd m j1 j2 r) p) (fslope wd m j1 j2 r (fun j => Fin (y j))) (fslope_f (fun j => Fin (y' j))).
Proof using U0 E0 HF.
  intros W HY. assert (HD := D_pos _ W).
  assert (Hj : (j1 <= j2)%Z).
  { destruct W as [_ (q & ? & Hq & _)]. unfold P, fpts, fit_points in Hq. apply in_map_iff in Hq as (j & _ & Hq). apply zrange_In in Hq. lia. }
  destruct (spread_eq wd m j1 j2 r _ W) as [Sp _]. set (sd := spread wd m j1 j2 r) in *.
  destruct (fit_finite wd m j1 j2 r y (wposed_ext wd m j1 j2 r _ y W)) as [E1 _].
  rewrite E1, fslope_f_value by (trivial; lra). eexists; eexists. split; [reflexivity|]. split; [reflexivity|].
  assert (PP := approx_nonneg _ _ _ (HY j1 ltac:(lia))). destruct PP as [PS PE].
  set (B := size p + error p). assert (B0 : 0 <= B) by (unfold B; lra).
  split; cbn [k_fit size error fst snd]; fold (size p) (error p); fold B.
  { apply slope_bound; [now apply (wposed_ext wd m j1 j2 r (fun _ => 0))|]. intros j H. now apply HY. }
  assert (HA := wgt_norm W). fold sd in HA. set (A := Rsum (map (fun j => Rabs (wgt j)) js)) in *.
  assert (A0 : 0 <= A) by (apply Rsum_map_nonneg; intros; apply Rabs_pos).
  assert (NE : js <> []) by (intros K; apply (f_equal (@length _)) in K; unfold js in K; rewrite zrange_length in K; cbn in K; lia).
  assert (LK : length js = nscales) by (unfold js, nscales; now rewrite zrange_length).
  assert (K1 : (1 <= nscales)%nat) by (unfold nscales; lia). set (k := nscales) in *.
  set (w' := fun j => f_div F (num j) (D P)). set (t := fun j => f_mul F (w' j) (y' j)).
  destruct HF as (_ & Hm & Hd & _).
  assert (W1 : forall j, Rabs (w' j - wgt j) <= u * Rabs (wgt j) + eta) by (intros j; apply Hd; lra).
  assert (W2 : forall j, Rabs (w' j) <= (1 + u) * Rabs (wgt j) + eta).
  { intros j. replace (w' j) with (wgt j + (w' j - wgt j)) by ring. eapply Rle_trans; [apply Rabs_triang|]. assert (Q := W1 j). lra. }
  assert (Y1 : forall j, In j js -> Rabs (y' j) <= B).
  { intros j H. apply zrange_In in H. apply (size_computed p (y j)), HY. lia. }
  assert (T1 : forall j, In j js -> Rabs (t j - wgt j * y' j) <= B * (((1 + u) ^ 2 - 1) * Rabs (wgt j) + (1 + u) * eta) + eta).
  { intros j H. specialize (Y1 j H). assert (Q := Hm (w' j) (y' j)). eapply Rle_trans; [apply (tri _ (w' j * y' j))|].
    replace (w' j * y' j - wgt j * y' j) with ((w' j - wgt j) * y' j) by ring. rewrite Rabs_mult in Q. rewrite (Rabs_mult (w' j - wgt j)).
    assert (X1 : Rabs (w' j) * Rabs (y' j) <= ((1 + u) * Rabs (wgt j) + eta) * B) by (apply Rmult_le_compat; trivial; apply Rabs_pos).
    assert (X2 : Rabs (w' j - wgt j) * Rabs (y' j) <= (u * Rabs (wgt j) + eta) * B) by (apply Rmult_le_compat; trivial; apply Rabs_pos).
    assert (X3 : u * (Rabs (w' j) * Rabs (y' j)) <= u * (((1 + u) * Rabs (wgt j) + eta) * B)) by (apply Rmult_le_compat_l; lra).
    eapply Rle_trans; [apply Rplus_le_compat; [exact Q|exact X2]|]. eapply Rle_trans; [apply Rplus_le_compat_r, Rplus_le_compat_r, X3|]. apply Req_le. ring. }
  assert (T2 : forall j, In j js -> Rabs (t j) <= B * ((1 + u) ^ 2 * Rabs (wgt j) + (1 + u) * eta) + eta).
  { intros j H. replace (t j) with ((t j - wgt j * y' j) + wgt j * y' j) by ring. eapply Rle_trans; [apply Rabs_triang|].
    assert (Q := T1 j H). rewrite Rabs_mult. assert (Rabs (wgt j) * Rabs (y' j) <= Rabs (wgt j) * B) by (apply Rmult_le_compat_l; [apply Rabs_pos|now apply Y1]). lra. }
  assert (S1' : Rsum (map (fun j => Rabs (t j - wgt j * y' j)) js) <= B * (((1 + u) ^ 2 - 1) * A + INR k * ((1 + u) * eta)) + INR k * eta).
  { eapply Rle_trans; [apply Rsum_map_le; intros j H; apply (T1 j H)|].
    rewrite (Rsum_map_ext _ (fun j => B * ((1 + u) ^ 2 - 1) * Rabs (wgt j) + (B * ((1 + u) * eta) + eta))) by (intros; ring).
    rewrite Rsum_map_plus, Rsum_map_scal, Rsum_const, LK. fold A. apply Req_le. ring. }
  assert (S2' : Rsum (map (fun j => Rabs (t j)) js) <= B * ((1 + u) ^ 2 * A + INR k * ((1 + u) * eta)) + INR k * eta).
  { eapply Rle_trans; [apply Rsum_map_le; intros j H; apply (T2 j H)|].
    rewrite (Rsum_map_ext _ (fun j => B * (1 + u) ^ 2 * Rabs (wgt j) + (B * ((1 + u) * eta) + eta))) by (intros; ring).
    rewrite Rsum_map_plus, Rsum_map_scal, Rsum_const, LK. fold A. apply Req_le. ring. }
  assert (SS := f_sum_err F u v eta U0 E0 HF (map t js)). rewrite map_map, map_length, LK in SS.
  assert (NEt : map t js <> []) by (destruct js; [congruence|discriminate]). specialize (SS NEt).
  set (g := (1 + u) ^ (k - 1)) in *. assert (G1 : 1 <= g) by (now apply g_ge1). fold (t).
  change (map (fun j => f_mul F (f_div F (num j) (D P)) (y' j)) js) with (map t js). set (s := f_sum F (map t js)) in *.
  rewrite slope_wgt by lra.
  assert (Z1 : Rabs (Rsum (map t js) - Rsum (map (fun j => wgt j * y' j) js)) <= B * (((1 + u) ^ 2 - 1) * A + INR k * ((1 + u) * eta)) + INR k * eta).
  { eapply Rle_trans; [|exact S1']. replace (Rsum (map t js) - Rsum (map (fun j => wgt j * y' j) js)) with (Rsum (map (fun j => t j - wgt j * y' j) js)).
    - eapply Rle_trans; [apply absum|]. now rewrite map_map; apply Rle_refl.
    - rewrite (Rsum_map_ext (fun j => t j - wgt j * y' j) (fun j => t j + - 1 * (wgt j * y' j))) by (intros; ring). rewrite Rsum_map_plus, Rsum_map_scal. ring. }
  assert (Z2 : Rabs (Rsum (map (fun j => wgt j * y' j) js) - Rsum (map (fun j => wgt j * y j) js)) <= error p / sd).
  { replace (Rsum (map (fun j => wgt j * y' j) js) - Rsum (map (fun j => wgt j * y j) js)) with (slope (fit_points wd m j1 j2 r (fun j => y' j - y j))).
    - apply slope_bound; [now apply (wposed_ext wd m j1 j2 r (fun _ => 0))|]. intros j H. now apply HY.
    - rewrite slope_wgt by lra. rewrite (Rsum_map_ext (fun j => wgt j * (y' j - y j)) (fun j => wgt j * y' j + - 1 * (wgt j * y j))) by (intros; ring).
      rewrite Rsum_map_plus, Rsum_map_scal. ring. }
  eapply Rle_trans; [apply (tri _ (Rsum (map (fun j => wgt j * y' j) js)))|]. eapply Rle_trans; [apply Rplus_le_compat; [apply (tri _ (Rsum (map t js)))|exact Z2]|].
  set (i := INR k) in *. assert (I1 : INR (k - 1) <= i) by (apply le_INR; lia). assert (I0 := pos_INR (k - 1)).
  assert (IP : 0 <= i) by apply pos_INR.
  set (b := B * ((1 + u) ^ 2 * A + i * ((1 + u) * eta)) + i * eta) in *.
  assert (SS' : Rabs (s - Rsum (map t js)) <= (g - 1) * b + i * (g * eta)).
  { eapply Rle_trans; [exact SS|]. apply Rplus_le_compat; [apply Rmult_le_compat_l; lra|]. rewrite Rmult_assoc.
    apply Rmult_le_compat_r; [apply Rmult_le_pos; lra|trivial]. }
  assert (G2 : (1 + u) ^ (k + 1) = (1 + u) ^ 2 * g) by (unfold g; rewrite <- pow_add; f_equal; lia).
  assert (G3 : (1 + u) ^ k = (1 + u) * g) by (unfold g; change ((1 + u) * (1 + u) ^ (k - 1)) with ((1 + u) ^ S (k - 1)); f_equal; lia).
  rewrite G2, G3.
  assert (X : Rabs (s - Rsum (map t js)) + Rabs (Rsum (map t js) - Rsum (map (fun j => wgt j * y' j) js)) <=
     ((1 + u) ^ 2 * g - 1) * B * A + i * (B + 2) * ((1 + u) * g) * eta).
  { eapply Rle_trans; [apply Rplus_le_compat; [exact SS'|exact Z1]|]. unfold b.
    replace ((g - 1) * (B * ((1 + u) ^ 2 * A + i * ((1 + u) * eta)) + i * eta) + i * (g * eta) + (B * (((1 + u) ^ 2 - 1) * A + i * ((1 + u) * eta)) + i * eta))
      with (((1 + u) ^ 2 * g - 1) * B * A + i * B * ((1 + u) * g) * eta + 2 * (i * (g * eta))) by ring.
    assert (0 <= u * (i * (g * eta))) by (repeat apply Rmult_le_pos; lra).
    replace (i * (B + 2) * ((1 + u) * g) * eta) with (i * B * ((1 + u) * g) * eta + 2 * (i * (g * eta)) + 2 * (u * (i * (g * eta)))) by ring. lra. }
  assert (Q : ((1 + u) ^ 2 * g - 1) * B * A <= ((1 + u) ^ 2 * g - 1) * B / sd).
  { unfold Rdiv. apply Rmult_le_compat_l; [apply Rmult_le_pos; trivial|lra]. assert (1 <= (1 + u) ^ 2) by now apply g_ge1.
    assert (1 * 1 <= (1 + u) ^ 2 * g) by (apply Rmult_le_compat; lra). lra. }
  replace ((error p + ((1 + u) ^ 2 * g - 1) * B) / sd) with (error p / sd + ((1 + u) ^ 2 * g - 1) * B / sd) by (unfold Rdiv; ring). lra.
Qed.
End Fit.

(** ** Columns *)
Section Columns.
Variables (F : arith) (u v eta : R).
Hypotheses (U0 : 0 <= u) (UV : u <= v) (E0 : 0 <= eta) (HF : accurate_arith u v eta F).

Lemma nanmean_f_value c : no_inf c -> reals c <> [] -> nanmean_f F c = Fin (f_div F (f_sum F (reals c)) (INR (length (reals c)))).
Proof.
  intros N NE. unfold nanmean_f. rewrite count_valid_reals, valid_no_inf by trivial. unfold sum_x. rewrite all_fin_fin.
  assert (P := INR_len_pos _ NE). destruct (reals c) as [|a l]; [congruence|]. unfold div_x, lift2, xdiv.
  destruct (Req_EM_T (INR (length (a :: l))) 0) as [Z|Z]; [lra|reflexivity].
Qed.
(** |x|^e as computed *)
Definition pw_f (e : pynum) (t : R) : R :=
  if Req_EM_T (num_val e) 1 then t else if Req_EM_T (num_val e) 2 then f_mul F t t else f_pow F t e.
Definition fpw_x (e : pynum) (x : xr) : xr :=
  if Req_EM_T (num_val e) 1 then x else if Req_EM_T (num_val e) 2 then mul_x F x x
  else lift1 (fun t => f_pow F t e) (fun z => hd NaN (fast_power [z] e)) x.
Lemma fast_power_f_map c e : fast_power_f F c e = map (fpw_x e) c.
Proof. unfold fast_power_f, fpw_x. destruct (Req_EM_T _ 1); [now rewrite map_id|]. destruct (Req_EM_T _ 2); reflexivity. Qed.
Lemma fpw_NaN e : fpw_x e NaN = NaN.
Proof.
  unfold fpw_x. destruct (Req_EM_T _ 1); [reflexivity|]. destruct (Req_EM_T _ 2); [reflexivity|]. unfold lift1. exact (fp1_NaN e).
Qed.
Lemma fpw_Fin e a w : fp1 e (Fin a) = Fin w -> fpw_x e (Fin a) = Fin (pw_f e a) /\ Rabs (pw_f e a - w) <= v * Rabs w + eta.
Proof using U0 UV E0 HF.
  intros H. assert (PW := fp1_Fin e a). rewrite H in PW. destruct HF as (_ & Hm & _ & _ & _ & _ & Hp & _).
  assert (VW : 0 <= v * Rabs w) by (apply Rmult_le_pos; [lra|apply Rabs_pos]).
  unfold fpw_x, pw_f. destruct (Req_EM_T (num_val e) 1) as [E1|E1].
  - split; [reflexivity|]. assert (w = a). { unfold fp1, fast_power in H. destruct (Req_EM_T (num_val e) 1); [|contradiction]. cbn in H. congruence. }
    subst w. rewrite Rminus_diag_eq, Rabs_R0 by reflexivity. lra.
  - destruct (Req_EM_T (num_val e) 2) as [E2|E2].
    + split; [reflexivity|]. assert (w = a * a). { unfold fp1, fast_power in H. destruct (Req_EM_T (num_val e) 1); [contradiction|]. destruct (Req_EM_T (num_val e) 2); [|contradiction]. cbn in H. congruence. }
      subst w. eapply Rle_trans; [apply Hm|]. apply Rplus_le_compat_r, Rmult_le_compat_r; [apply Rabs_pos|trivial].
    + split; [unfold lift1; fold (fp1 e (Fin a)); now rewrite H|]. now apply Hp.
Qed.
Lemma qpow_nonneg q a : 0 <= qpow q a.
Proof. unfold qpow. destruct (Req_EM_T q 0); [lra|]. unfold abs_pow. destruct (Req_EM_T a 0); [lra|left; apply exp_pos]. Qed.

(** moments *)
Lemma sf_moment_f_value c e N : no_inf c -> (length (reals c) <= N)%nat -> determined (num_val e) (reals c) ->
  exists s, sf_moment_f F c e = Fin s /\
    Rabs (s - abs_moment (num_val e) (reals c)) <= mom_rel u v N * abs_moment (num_val e) (reals c) + mom_abs u eta N.
Proof using U0 UV E0 HF.
  intros NI HN HD. assert (Q := det_defined _ _ HD). assert (NE := proj1 HD).
  assert (G : forall a, In a (reals c) -> fpw_x e (xabs (Fin a)) = Fin (pw_f e (Rabs a)) /\ Rabs (pw_f e (Rabs a) - qpow (num_val e) a) <= v * qpow (num_val e) a + eta).
  { intros a Ha. destruct (fpw_Fin e (Rabs a) (qpow (num_val e) a)) as [A B]; [apply fp1_qpow; eapply q_defined_in; eassumption|].
    split; [exact A|]. rewrite (Rabs_pos_eq (qpow (num_val e) a)) in B by apply qpow_nonneg. exact B. }
  destruct (map_no_inf (fun x => fpw_x e (xabs x)) (fun a => pw_f e (Rabs a)) c NI (fpw_NaN e) (fun a Ha => proj1 (G a Ha))) as [A B].
  unfold sf_moment_f. rewrite fast_power_f_map, map_map. rewrite nanmean_f_value; trivial.
  2:{ rewrite B. destruct (reals c); [congruence|discriminate]. }
  eexists. split; [reflexivity|]. rewrite B, map_length.
  assert (M := mean_rel F u v eta U0 ltac:(lra) E0 HF N (map (qpow (num_val e)) (reals c)) (map (fun a => pw_f e (Rabs a)) (reals c))).
  rewrite map_length in M. apply M; trivial.
  - destruct (reals c); [congruence|discriminate].
  - rewrite Forall_map, Forall_forall. intros a _. apply qpow_nonneg.
  - clear M A B NE Q HD HN NI. revert G. generalize (reals c). induction l as [|a l IH]; intros G; cbn; constructor.
    + apply G. now left.
    + apply IH. intros b Hb. apply G. now right.
Qed.
Lemma pow2_sym d : 0 <= d -> Rpower 2 (- d) <= 1 /\ 2 - Rpower 2 (- d) <= Rpower 2 d.
Proof.
  intros H. assert (P := Rpower_pos 2 d). rewrite Rpower_Ropp. set (x := Rpower 2 d) in *.
  assert (X1 : 1 <= x). { unfold x. rewrite <- (Rpower_O 2) by lra. apply Rle_Rpower; lra. }
  assert (I : x * / x = 1) by (field; lra). assert (0 < / x) by (now apply Rinv_0_lt_compat). split; nra.
Qed.
Lemma logS_f_value c e N d Y : no_inf c -> (length (reals c) <= N)%nat -> determined (num_val e) (reals c) -> 0 <= d ->
  (let s := abs_moment (num_val e) (reals c) in mom_rel u v N * s + mom_abs u eta N <= (1 - Rpower 2 (- d)) * s /\ Rabs (log2R s) <= Y) ->
  computed (k_log2 v eta Y d) (xlog2 (sf_moment c e)) (log2_x F (sf_moment_f F c e)).
Proof using U0 UV E0 HF.
  intros NI HN HD Hd [HM HY]. destruct (sf_moment_f_value c e N NI HN HD) as (s & -> & HS).
  rewrite (sf_moment_eq c e NI (proj1 HD) (det_defined _ _ HD)). assert (P := det_pos _ _ HD). set (S := abs_moment (num_val e) (reals c)) in *.
  rewrite xlog2_pos by trivial. assert (P2 := Rpower_pos 2 (- d)). destruct (pow2_sym d Hd) as [D1 D2].
  apply Rabs_between in HS.
  assert (L1 : Rpower 2 (- d) * S <= s) by lra. assert (L0 : 0 < Rpower 2 (- d) * S) by (apply Rmult_lt_0_compat; trivial).
  assert (L2 : s <= Rpower 2 d * S). { assert ((2 - Rpower 2 (- d)) * S <= Rpower 2 d * S) by (apply Rmult_le_compat_r; lra). lra. }
  unfold log2_x, lift1. rewrite xlog2_pos by lra. eexists; eexists. split; [reflexivity|]. split; [reflexivity|].
  assert (B : Rabs (log2R s - log2R S) <= d).
  { apply log2R_le in L1; [|trivial]. apply log2R_le in L2; [|lra]. rewrite log2R_mult, log2R_Rpower in L1 by trivial. assert (PP := Rpower_pos 2 d). rewrite log2R_mult, log2R_Rpower in L2 by trivial.
    apply Rabs_le. lra. }
  split; cbn [k_log2 size error fst snd]; trivial. eapply Rle_trans; [apply (tri _ (log2R s))|].
  destruct HF as (_ & _ & _ & _ & Hl & _). assert (K := Hl s ltac:(lra)).
  assert (Q : Rabs (log2R s) <= Y + d). { replace (log2R s) with (log2R S + (log2R s - log2R S)) by ring. eapply Rle_trans; [apply Rabs_triang|]. lra. }
  assert (v * Rabs (log2R s) <= v * (Y + d)) by (apply Rmult_le_compat_l; lra). lra.
Qed.

(** suprema *)
Lemma lsup_f_value c Y : no_inf c -> Exists (fun a => a <> 0) (reals c) ->
  (forall x, is_max x (map Rabs (reals c)) -> Rabs (log2R x) <= Y) ->
  computed (k_log v eta Y) (xlog2 (nanmax (map xabs c))) (log2_x F (nanmax (map xabs c))).
Proof using U0 UV E0 HF.
  intros NI HE HY. destruct (sup_value c NI HE) as (x & Px & Mx & E). specialize (HY x Mx).
  destruct (nanmax (map xabs c)) as [a| | |]; cbn [xlog2] in E; try discriminate. unfold log2_x, lift1. cbn [xlog2].
  destruct (Rlt_dec 0 a) as [Pa|Pa]; [|destruct (Req_EM_T a 0); discriminate]. injection E as E.
  eexists; eexists. split; [reflexivity|]. split; [reflexivity|]. rewrite <- E in HY. split; cbn; trivial.
  destruct HF as (_ & _ & _ & _ & Hl & _). assert (K := Hl a Pa). assert (v * Rabs (log2R a) <= v * Y) by (apply Rmult_le_compat_l; lra). lra.
Qed.

(** moments of the logarithms *)
Lemma pow_diff B a d m : Rabs a <= B -> Rabs (a + d) <= B + Rabs d -> Rabs ((a + d) ^ m - a ^ m) <= (B + Rabs d) ^ m - B ^ m.
Proof.
  intros HA HB. assert (B0 := Rabs_pos a). assert (D0 := Rabs_pos d). induction m as [|m IH]; [cbn; rewrite Rminus_diag_eq, Rabs_R0 by reflexivity; lra|].
  cbn [pow]. replace ((a + d) * (a + d) ^ m - a * a ^ m) with (a * ((a + d) ^ m - a ^ m) + d * (a + d) ^ m) by ring.
  eapply Rle_trans; [apply Rabs_triang|]. rewrite !Rabs_mult.
  assert (X1 : Rabs a * Rabs ((a + d) ^ m - a ^ m) <= B * ((B + Rabs d) ^ m - B ^ m)) by (apply Rmult_le_compat; trivial; apply Rabs_pos).
  assert (X2 : Rabs d * Rabs ((a + d) ^ m) <= Rabs d * (B + Rabs d) ^ m).
  { apply Rmult_le_compat_l; trivial. rewrite <- RPow_abs. apply pow_incr. split; [apply Rabs_pos|trivial]. }
  lra.
Qed.
Lemma ap_pow p a b m : approx p a b -> approx (k_pow v eta p m) (a ^ m) (pw_f (PyFloat (INR m)) b).
Proof using U0 UV E0 HF.
  intros A. assert (S := size_computed _ _ _ A). destruct A as [A B]. set (d := b - a) in *.
  assert (Eb : b = a + d) by (unfold d; ring). assert (A0 := Rabs_pos a). assert (D0 := Rabs_pos d).
  destruct (fpw_Fin (PyFloat (INR m)) b (b ^ m) (fp1_nat m b)) as [_ K].
  assert (PB : Rabs (b ^ m) <= (size p + error p) ^ m) by (rewrite <- RPow_abs; apply pow_incr; split; [apply Rabs_pos|trivial]).
  split; cbn [k_pow size error fst snd]; fold (size p) (error p).
  - rewrite <- RPow_abs. apply pow_incr. split; trivial.
  - eapply Rle_trans; [apply (tri _ (b ^ m))|].
    assert (X : Rabs (b ^ m - a ^ m) <= (size p + error p) ^ m - size p ^ m).
    { rewrite Eb. assert (Q : Rabs ((a + d) ^ m - a ^ m) <= (size p + Rabs d) ^ m - size p ^ m).
      { apply pow_diff; trivial. eapply Rle_trans; [apply Rabs_triang|]. lra. }
      assert ((size p + Rabs d) ^ m <= (size p + error p) ^ m) by (apply pow_incr; lra). lra. }
    assert (v * Rabs (b ^ m) <= v * (size p + error p) ^ m) by (apply Rmult_le_compat_l; lra). lra.
Qed.
Lemma log_moment_f_value c m N B : no_inf c -> (length (reals c) <= N)%nat -> reals c <> [] -> Forall (fun a => a <> 0) (reals c) ->
  (forall a, In a (reals c) -> Rabs (ln (Rabs a)) <= B) ->
  computed (k_mom u v eta N B m) (log_moment c m) (log_moment_f F c m).
Proof using U0 UV E0 HF.
  intros NI HN NE HZ HB. rewrite log_moment_eq by trivial. unfold log_moment_f. rewrite fast_power_f_map, !map_map.
  rewrite Forall_forall in HZ. set (e := PyFloat (INR m)).
  assert (G : forall a, In a (reals c) -> fpw_x e (ln_x F (xabs (Fin a))) = Fin (pw_f e (f_ln F (Rabs a)))).
  { intros a Ha. cbn [xabs]. unfold ln_x, lift1. rewrite xln_pos by (apply Rabs_pos_lt; auto). apply (fpw_Fin e _ _ (fp1_nat m _)). }
  destruct (map_no_inf (fun x => fpw_x e (ln_x F (xabs x))) (fun a => pw_f e (f_ln F (Rabs a))) c NI (fpw_NaN e) G) as [A1 A2].
  rewrite nanmean_f_value; trivial.
  2:{ rewrite A2. destruct (reals c); [congruence|discriminate]. }
  eexists; eexists. split; [reflexivity|]. split; [reflexivity|]. rewrite A2, map_length.
  unfold mu, lnabs. rewrite map_map.
  assert (M := ap_mean F u v eta U0 E0 HF N (k_pow v eta (k_log v eta B) m) (map (fun a => ln (Rabs a) ^ m) (reals c)) (map (fun a => pw_f e (f_ln F (Rabs a))) (reals c))).
  rewrite map_length in M. apply M; trivial.
  - destruct (reals c); [congruence|discriminate].
  - destruct HF as (_ & _ & _ & _ & _ & Hl & _). clear M A1 A2 G NE HN NI.
    assert (K : forall a, In a (reals c) -> approx (k_log v eta B) (ln (Rabs a)) (f_ln F (Rabs a))).
    { intros a Ha. split; [now apply HB|]. cbn. assert (Q := Hl (Rabs a) (Rabs_pos_lt a (HZ a Ha))). specialize (HB a Ha).
      assert (v * Rabs (ln (Rabs a)) <= v * B) by (apply Rmult_le_compat_l; lra). lra. }
    clear HB HZ. revert K. generalize (reals c). induction l as [|a l IH]; intros K; cbn; constructor.
    + apply ap_pow. apply K. now left.
    + apply IH. intros b Hb. apply K. now right.
Qed.

(** the recursion for the cumulants *)
Lemma co_add p q x y z t : computed p x y -> computed q z t -> computed (k_add u eta p q) (xadd x z) (add_x F y t).
Proof using U0 HF. intros (a & b & -> & -> & A) (c & d & -> & -> & B). eexists; eexists. split; [reflexivity|]. split; [reflexivity|]. now apply (ap_add F u v eta). Qed.
Lemma co_sub p q x y z t : computed p x y -> computed q z t -> computed (k_add u eta p q) (xsub x z) (sub_x F y t).
Proof using U0 HF. intros (a & b & -> & -> & A) (c & d & -> & -> & B). eexists; eexists. split; [reflexivity|]. split; [reflexivity|]. now apply (ap_sub F u v eta). Qed.
Lemma co_mul p q x y z t : computed p x y -> computed q z t -> computed (k_mul u eta p q) (xmul x z) (mul_x F y t).
Proof using U0 HF. intros (a & b & -> & -> & A) (c & d & -> & -> & B). eexists; eexists. split; [reflexivity|]. split; [reflexivity|]. now apply (ap_mul F u v eta). Qed.
Lemma co_exact a : computed (k_exact a) (Fin a) (Fin a).
Proof. eexists; eexists. split; [reflexivity|]. split; [reflexivity|]. apply ap_exact. Qed.

Section Recursion.
Variables (mom mom' : nat -> xr) (kmom : nat -> known).
Hypothesis HM : forall i, computed (kmom i) (mom i) (mom' i).
Lemma co_aux prev prev' kprev m : (forall i, (i < m - 1)%nat -> computed (nth i kprev (0, 0)) (nth i prev NaN) (nth i prev' NaN)) ->
  computed (k_aux u eta kmom kprev m) (cum_aux mom prev m) (cum_aux_f F mom' prev' m).
Proof using U0 HF HM.
  intros HP. unfold k_aux, cum_aux, cum_aux_f.
  assert (G : forall l k x y, (forall n, In n l -> (n - 1 < m - 1)%nat) -> computed k x y ->
    computed (fold_left (fun aux n => k_add u eta aux (k_mul u eta (k_mul u eta (k_exact (C (m - 1) (n - 1))) (nth (n - 1) kprev (0, 0))) (kmom (m - n)%nat))) l k)
      (fold_left (fun aux n => xadd aux (xmul (xmul (Fin (C (m - 1) (n - 1))) (nth (n - 1) prev NaN)) (mom (m - n)%nat))) l x)
      (fold_left (fun aux n => add_x F aux (mul_x F (mul_x F (Fin (C (m - 1) (n - 1))) (nth (n - 1) prev' NaN)) (mom' (m - n)%nat))) l y)).
  { induction l as [|n l IH]; intros k x y Hl HC; cbn [fold_left]; trivial. apply IH; [intros; apply Hl; now right|].
    apply co_add; trivial. apply co_mul; [|apply HM]. apply co_mul; [apply co_exact|]. apply HP, Hl. now left. }
  apply G; [|apply co_exact]. intros n Hn. apply in_seq in Hn. lia.
Qed.
Lemma k_list_length n : length (k_list u eta kmom n) = n.
Proof. induction n; cbn; trivial. rewrite app_length, IHn. cbn. lia. Qed.
Lemma cum_list_len n : length (cum_list mom n) = n /\ length (cum_list_f F mom' n) = n.
Proof. induction n as [|n [A B]]; cbn; [auto|]. rewrite !app_length, A, B. cbn. lia. Qed.
Lemma co_list n : forall i, (i < n)%nat -> computed (nth i (k_list u eta kmom n) (0, 0)) (nth i (cum_list mom n) NaN) (nth i (cum_list_f F mom' n) NaN).
Proof using U0 HF HM.
  induction n as [|n IH]; intros i Hi; [lia|]. cbn [k_list cum_list cum_list_f]. destruct (cum_list_len n) as [L1 L2]. assert (L3 := k_list_length n).
  destruct (Nat.eq_dec i n) as [->|Ne].
  - rewrite !app_nth2 by lia. rewrite L1, L2, L3, Nat.sub_diag. cbn [nth]. unfold k_step, cum_step, cum_step_f.
    destruct (Nat.eqb (S n) 1); [apply HM|]. apply co_sub; [apply HM|]. apply co_aux. intros i Hi'. apply IH. lia.
  - rewrite !app_nth1 by lia. apply IH. lia.
Qed.
Lemma k_list_stable n i : (i < n)%nat -> nth i (k_list u eta kmom n) (0, 0) = nth i (k_list u eta kmom (S i)) (0, 0).
Proof.
  intros Hi. induction n as [|n IH]; [lia|]. destruct (Nat.eq_dec i n) as [->|Ne]; [reflexivity|]. rewrite <- IH by lia.
  cbn [k_list]. rewrite app_nth1 by (rewrite k_list_length; lia). reflexivity.
Qed.
End Recursion.
Lemma cum_f_value c n k N B : no_inf c -> (length (reals c) <= N)%nat -> reals c <> [] -> Forall (fun a => a <> 0) (reals c) ->
  (forall a, In a (reals c) -> Rabs (ln (Rabs a)) <= B) -> (1 <= k <= n)%nat ->
  computed (k_cum u v eta N B k) (cum_value n c k) (cum_value_f F n c k).
Proof using U0 UV E0 HF.
  intros NI HN NE HZ HB Hk. unfold cum_value, cum_value_f, k_cum.
  assert (K := co_list (log_moment c) (log_moment_f F c) (k_mom u v eta N B) (fun i => log_moment_f_value c i N B NI HN NE HZ HB) n (k - 1) ltac:(lia)).
  rewrite k_list_stable in K by lia. replace (S (k - 1)) with k in K by lia. exact K.
Qed.
End Columns.

(** ** The estimators on regular quantities, in closed form *)
Section Forms.
Variables (F : arith) (m : mrq) (g nrep : nat).
Hypothesis HR : regular m g nrep.
Definition logS_f (q : pynum) (r : nat) (j : Z) : xr := log2_x F (sf_moment_f F (column m j r) q).
Definition Cval_f (n k r : nat) (j : Z) : xr := cum_value_f F n (column m j r) k.
Definition lsup_f (r : nat) (j : Z) : xr := log2_x F (nanmax (map xabs (column m j r))).
Local Notation ffit := (fit3_f F).
Lemma regress_f_eq wd j1 j2 (G : nat -> Z -> xr) : (1 <= j1)%Z -> (j1 <= j2)%Z -> (j2 <= Z.of_nat g)%Z ->
  regress_cols_f F wd j1 j2 (map (wts wd m j1 j2) (seq 0 nrep)) (map (fun r => map (G r) (one_to g)) (seq 0 nrep))
  = Ok (map (fun r => ffit wd m j1 j2 r (G r)) (seq 0 nrep)).
Proof.
  intros H1 H2 H3. unfold regress_cols_f.
  replace (wd && (j2 <? j1)%Z) with false.
  2:{ destruct (Z.ltb_spec j2 j1); [lia|]. now rewrite andb_false_r. }
  generalize (seq 0 nrep). induction l as [|r l IH]; simpl; trivial.
  rewrite slice_one_to by trivial. rewrite fit3_f_ok. cbn [bind]. rewrite IH. reflexivity.
Qed.
Lemma mapM_regress_f {X} wd j1 j2 (G : X -> nat -> Z -> xr) l : (1 <= j1)%Z -> (j1 <= j2)%Z -> (j2 <= Z.of_nat g)%Z ->
  mapM (regress_cols_f F wd j1 j2 (map (wts wd m j1 j2) (seq 0 nrep)))
       (map (fun x => map (fun r => map (G x r) (one_to g)) (seq 0 nrep)) l)
  = Ok (map (fun x => map (fun r => ffit wd m j1 j2 r (G x r)) (seq 0 nrep)) l).
Proof.
  intros. induction l as [|x l IH]; simpl; trivial. rewrite regress_f_eq by trivial. cbn [bind]. rewrite IH. reflexivity.
Qed.
Lemma SF_f_eq qs j1 j2 wd : (1 <= j1)%Z -> (j1 <= j2)%Z -> (j2 <= Z.of_nat g)%Z ->
  StructureFunction_f F m (QArr qs) j1 j2 wd =
  if has_two qs then
    Ok (mkSF (mq_formalism m) (mq_gamint m) nrep (one_to g) (QArr qs) j1 j2 wd []
         (map (fun q => map (fun r => map (logS_f q r) (one_to g)) (seq 0 nrep)) (map PyFloat qs))
         (map (fun q => map (fun r => fslope_f F wd m j1 j2 r (logS_f q r)) (seq 0 nrep)) (map PyFloat qs))
         (map (fun q => map (fun r => snd (fst (ffit wd m j1 j2 r (logS_f q r)))) (seq 0 nrep)) (map PyFloat qs))
         (map (fun r => sub_x F (div_x F (fslope_f F wd m j1 j2 r (logS_f (PyFloat 2) r)) (Fin 2)) (Fin (mq_gamint m))) (seq 0 nrep)))
  else Err IndexError.
Proof using HR.
  intros H1 H2 H3. unfold StructureFunction_f. rewrite (reg_nrep m g nrep HR). cbn [bind]. rewrite (reg_rows m g nrep HR) by trivial. cbn [bind].
  assert (E : sf_compute_f F m nrep (QArr qs) = map (fun q => map (fun r => map (logS_f q r) (one_to g)) (seq 0 nrep)) (map PyFloat qs)).
  { unfold sf_compute_f. cbn [q_items]. apply map_ext. intros e. apply map_ext. intros r. rewrite (reg_cols m g nrep HR), map_map. reflexivity. }
  rewrite E. rewrite mapM_regress_f by trivial. cbn [bind get_q2]. rewrite !map_map.
  rewrite <- (map_map PyFloat (fun q => map (fun t => fst (fst t)) (map (fun r => ffit wd m j1 j2 r (logS_f q r)) (seq 0 nrep)))).
  rewrite select_map. destruct (has_two qs); [|reflexivity]. cbn [bind].
  rewrite !map_map. f_equal. f_equal.
  - apply (proj1 (proj2 HR)).
  - apply map_ext. intros. now rewrite map_map.
  - apply map_ext. intros. now rewrite map_map.
Qed.
Lemma CUM_f_eq n j1 j2 wd : (1 <= j1)%Z -> (j1 <= j2)%Z -> (j2 <= Z.of_nat g)%Z ->
  exists c, Cumulants_f F m n j1 j2 wd = Ok c /\
    cu_log_cumulants c = map (fun k => map (fun r => mul_x F (fslope_f F wd m j1 j2 r (Cval_f n k r)) (Fin (f_log2e F))) (seq 0 nrep)) (seq 1 n) /\
    cu_intercept c = map (fun k => map (fun r => snd (fst (ffit wd m j1 j2 r (Cval_f n k r)))) (seq 0 nrep)) (seq 1 n) /\
    cu_var_log_cumulants c = map (fun k => map (fun r => mul_x F (Fin (f_mul F (f_log2e F) (f_log2e F))) (snd (ffit wd m j1 j2 r (Cval_f n k r)))) (seq 0 nrep)) (seq 1 n).
Proof using HR.
  intros H1 H2 H3. unfold Cumulants_f. rewrite (reg_nrep m g nrep HR). cbn [bind]. rewrite (reg_rows m g nrep HR) by trivial. cbn [bind].
  assert (E : cum_compute_f F m nrep n = map (fun k => map (fun r => map (Cval_f n k r) (one_to g)) (seq 0 nrep)) (seq 1 n)).
  { unfold cum_compute_f. apply map_ext. intros e. apply map_ext. intros r. rewrite (reg_cols m g nrep HR), map_map. reflexivity. }
  rewrite E. rewrite mapM_regress_f by trivial. cbn [bind]. eexists. split; [reflexivity|]. cbn [cu_log_cumulants cu_intercept cu_var_log_cumulants]. rewrite !map_map.
  repeat split; apply map_ext; intros; now rewrite !map_map.
Qed.
Lemma HMIN_f_eq j1 j2 wd warn : (1 <= j1)%Z -> (j1 <= j2)%Z -> (j2 <= Z.of_nat g)%Z ->
  (forall j r, (j1 <= j <= j2)%Z -> (r < nrep)%nat -> column m j r <> []) ->
  exists h, estimate_hmin_f F m j1 j2 wd warn = Ok h /\
    hm_hmin h = map (fun r => fslope_f F wd m j1 j2 r (lsup_f r)) (seq 0 nrep) /\
    hm_intercept h = map (fun r => snd (fst (ffit wd m j1 j2 r (lsup_f r)))) (seq 0 nrep) /\
    hm_warned h = zero_in (hm_hmin h) && warn.
Proof using HR.
  intros H1 H2 H3 Hne. destruct HR as (G & S & K & L). unfold estimate_hmin_f.
  destruct (dict_get_Some (mq_values m) 1) as [a1 Ha1].
  { change (In 1%Z (scales m)). rewrite S. apply one_to_In. lia. }
  unfold dict_getitem at 1. rewrite Ha1. cbn [bind]. rewrite (L _ _ Ha1).
  destruct (Z.ltb_spec (j2 - j1 + 1) 0); [lia|].
  assert (E : mapM (fun j => a <- dict_getitem (mq_values m) j ;; mapM (sup_col a) (seq 0 nrep)) (zrange j1 (j2 + 1))
    = Ok (map (fun j => map (fun r => nanmax (map xabs (column m j r))) (seq 0 nrep)) (zrange j1 (j2 + 1)))).
  { apply mapM_Ok.
    assert (Hj : forall j, In j (zrange j1 (j2 + 1)) -> (j1 <= j <= j2)%Z) by (intros j Hj; apply zrange_In in Hj; lia).
    revert Hj. generalize (zrange j1 (j2 + 1)). induction l as [|j l IH]; intros Hj; simpl; constructor.
    2:{ apply IH. intros. apply Hj. now right. }
    assert (Hj' := Hj j (or_introl eq_refl)).
    destruct (dict_get_Some (mq_values m) j) as [a Ha].
    { change (In j (scales m)). rewrite S. apply one_to_In. lia. }
    unfold dict_getitem. rewrite Ha. cbn [bind].
    assert (Hr : forall r, In r (seq 0 nrep) -> (r < nrep)%nat) by (intros r Hr; apply in_seq in Hr; lia).
    revert Hr. generalize (seq 0 nrep). induction l0 as [|r l0 IH0]; intros Hr; simpl; trivial.
    assert (N := Hne j r Hj' (Hr r (or_introl eq_refl))). unfold column in *. rewrite Ha in *.
    unfold sup_col at 1. destruct (nth r a []) as [|c0 c] eqn:Ec; [contradiction|].
    cbn [bind]. rewrite IH0 by (intros; apply Hr; now right). reflexivity. }
  rewrite E. cbn [bind]. rewrite (reg_rows m g nrep HR) by trivial. cbn [bind].
  replace (wd && (j2 <? j1)%Z) with false.
  2:{ destruct (Z.ltb_spec j2 j1); [lia|]. now rewrite andb_false_r. }
  assert (Ey : map (fun r => map (fun row => log2_x F (nth r row NaN))
       (map (fun j => map (fun r => nanmax (map xabs (column m j r))) (seq 0 nrep)) (zrange j1 (j2 + 1)))) (seq 0 nrep)
     = map (fun r => map (lsup_f r) (zrange j1 (j2 + 1))) (seq 0 nrep)).
  { apply map_ext_in. intros r Hr. apply in_seq in Hr. rewrite map_map. apply map_ext. intros j. unfold lsup_f.
    rewrite (nth_map_lt _ _ _ 0%nat) by (rewrite seq_length; lia). rewrite seq_nth by lia. reflexivity. }
  rewrite Ey.
  assert (Ef : mapM (fun wv : col * col => linear_regression_f F (scale_support j1 j2) (snd wv) (fst wv))
      (combine (map (wts wd m j1 j2) (seq 0 nrep)) (map (fun r => map (lsup_f r) (zrange j1 (j2 + 1))) (seq 0 nrep)))
      = Ok (map (fun r => ffit wd m j1 j2 r (lsup_f r)) (seq 0 nrep))).
  { generalize (seq 0 nrep). induction l as [|r l IH]; simpl; trivial. rewrite fit3_f_ok. cbn [bind]. now rewrite IH. }
  rewrite Ef. cbn [bind]. eexists. split; [reflexivity|]. cbn [hm_hmin hm_intercept hm_warned]. now rewrite !map_map.
Qed.
End Forms.

(** ** C96 *)
Section C96.
Variables (F : arith) (u v eta : R) (m : mrq) (g nrep : nat) (j1 j2 : Z) (wd : bool).
Hypotheses (U0 : 0 <= u) (UV : u <= v) (E0 : 0 <= eta) (HF : accurate_arith u v eta F)
  (HR : regular m g nrep) (HC : counted m) (H1 : (1 <= j1)%Z) (H2 : (j1 < j2)%Z) (H3 : (j2 <= Z.of_nat g)%Z).

Lemma slope_computed p r (Y Y' : Z -> xr) :
  (forall j, (j1 <= j <= j2)%Z -> no_inf (column m j r) /\ numbers m j r <> []) ->
  (forall j, (j1 <= j <= j2)%Z -> computed p (Y j) (Y' j)) ->
  computed (k_fit u eta (nscales j1 j2) (spread wd m j1 j2 r) p) (fslope wd m j1 j2 r Y) (fslope_f F wd m j1 j2 r Y').
Proof using U0 E0 HF HR HC H1 H2 H3.
  intros HN HY. set (val := fun x : xr => match x with Fin a => a | _ => 0 end).
  rewrite (fslope_ext wd m j1 j2 r Y (fun j => Fin (val (Y j)))) by (intros j Hj; destruct (HY j Hj) as (a & b & -> & _); reflexivity).
  rewrite (fslope_f_ext F wd m j1 j2 r Y' (fun j => Fin (val (Y' j)))) by (intros j Hj; destruct (HY j Hj) as (a & b & _ & -> & _); reflexivity).
  apply (ap_fit F u v eta U0 E0 HF).
  - apply fit_well_posed; [lia|]. intros j Hj. destruct (HN j Hj) as [N NE]. rewrite count_numbers; trivial.
    + destruct (numbers m j r); [congruence|cbn; lia].
    + destruct HR as (_ & -> & _). apply one_to_In. lia.
    + split; trivial.
  - intros j Hj. destruct (HY j Hj) as (a & b & -> & -> & A). exact A.
Qed.
End C96.

(** hmin *)
Theorem C96_hmin :
  forall F u v eta m g nrep j1 j2 wd warn h,
  0 <= u -> u <= v -> 0 <= eta -> accurate_arith u v eta F ->
  regular m g nrep -> counted m -> (1 <= j1)%Z -> (j1 < j2)%Z -> (j2 <= Z.of_nat g)%Z ->
  estimate_hmin m j1 j2 wd warn = Ok h ->
  exists h', estimate_hmin_f F m j1 j2 wd warn = Ok h' /\
  forall r Y, (r < nrep)%nat -> is_number (nth r (hm_hmin h) NaN) ->
  (forall j, (j1 <= j <= j2)%Z -> no_inf (column m j r) /\
     forall x, is_max x (map Rabs (numbers m j r)) -> Rabs (log2R x) <= Y) ->
  computed (k_fit u eta (Z.to_nat (j2 - j1 + 1)) (spread wd m j1 j2 r) (k_log v eta Y)) (nth r (hm_hmin h) NaN) (nth r (hm_hmin h') NaN).
Proof.
  intros F u v eta m g nrep j1 j2 wd warn h U0 UV E0 HF HR HC H1 H2 H3 E.
  assert (NE := hmin_nonempty m g nrep j1 j2 wd warn h HR H1 ltac:(lia) H3 E).
  destruct (HMIN_f_eq F m g nrep HR j1 j2 wd warn H1 ltac:(lia) H3 NE) as (h' & E' & Eh & _). exists h'. split; [exact E'|].
  intros r Y Hr HNum HY. rewrite Eh. apply (HMIN_rows m g nrep) in E; trivial; [|lia]. rewrite E in *. cbn [hm_hmin] in *. rewrite !nth_seq_map in * by trivial.
  replace (Z.to_nat (j2 - j1 + 1)) with (nscales j1 j2) by (unfold nscales; f_equal; lia).
  assert (X : forall j, (j1 <= j <= j2)%Z -> Exists (fun a => a <> 0) (numbers m j r)).
  { intros j Hj. apply sup_fin; [now apply HY|]. exact (fslope_fin_inv wd m j1 j2 r (lsup m r) HNum j Hj). }
  apply (slope_computed F u v eta m g nrep); trivial.
  - intros j Hj. split; [now apply HY|]. intros Z. assert (Q := X j Hj). rewrite Z in Q. inversion Q.
  - intros j Hj. apply (lsup_f_value F u v eta U0 UV E0 HF); [now apply HY|now apply X|]. apply (HY j Hj).
Qed.
Print Assumptions C96_hmin.

(** zeta(q) and H *)
Theorem C96_exponents :
  forall F u v eta m g nrep qs j1 j2 wd s,
  0 <= u -> u <= v -> 0 <= eta -> accurate_arith u v eta F ->
  regular m g nrep -> counted m -> (1 <= j1)%Z -> (j1 < j2)%Z -> (j2 <= Z.of_nat g)%Z ->
  StructureFunction m (QArr qs) j1 j2 wd = Ok s ->
  exists s', StructureFunction_f F m (QArr qs) j1 j2 wd = Ok s' /\
  forall r i Y d N, (r < nrep)%nat -> (i < length qs)%nat -> is_number (at2 (sf_zeta s) i r) -> 0 <= d ->
  (forall j, (j1 <= j <= j2)%Z -> no_inf (column m j r) /\ (length (numbers m j r) <= N)%nat /\
     let S := abs_moment (nth i qs 0) (numbers m j r) in
     mom_rel u v N * S + mom_abs u eta N <= (1 - Rpower 2 (- d)) * S /\ Rabs (log2R S) <= Y) ->
  let z := k_fit u eta (Z.to_nat (j2 - j1 + 1)) (spread wd m j1 j2 r) (k_log2 v eta Y d) in
  computed z (at2 (sf_zeta s) i r) (at2 (sf_zeta s') i r) /\
  (nth i qs 0 = 2 -> computed (k_add u eta (k_half u eta z) (k_exact (mq_gamint m))) (nth r (sf_H s) NaN) (nth r (sf_H s') NaN)).
Proof.
  intros F u v eta m g nrep qs j1 j2 wd s U0 UV E0 HF HR HC H1 H2 H3 E.
  rewrite (SF_f_eq F m g nrep HR) by (trivial; lia). assert (E2 := E). rewrite (SF_eq m g nrep HR) in E2 by (trivial; lia).
  destruct (has_two qs) eqn:H2q; [|discriminate]. injection E2 as Es. eexists. split; [reflexivity|].
  intros r i Y d N Hr Hi HNum Hd HY. cbn zeta.
  replace (Z.to_nat (j2 - j1 + 1)) with (nscales j1 j2) by (unfold nscales; f_equal; lia).
  set (e := PyFloat (nth i qs 0)).
  destruct (SF_rows m g nrep qs j1 j2 wd s HR H1 ltac:(lia) H3 E i r Hi Hr) as (_ & Ez & _). fold e in Ez.
  assert (X : forall j, (j1 <= j <= j2)%Z -> determined (num_val e) (numbers m j r)).
  { intros j Hj. apply logS_fin; [now apply HY|]. rewrite Ez in HNum. exact (fslope_fin_inv wd m j1 j2 r (logS m e r) HNum j Hj). }
  assert (Z : computed (k_fit u eta (nscales j1 j2) (spread wd m j1 j2 r) (k_log2 v eta Y d)) (fslope wd m j1 j2 r (logS m e r)) (fslope_f F wd m j1 j2 r (logS_f F m e r))).
  { apply (slope_computed F u v eta m g nrep); trivial.
    - intros j Hj. split; [now apply HY|]. apply (X j Hj).
    - intros j Hj. destruct (HY j Hj) as (A & B & C0). apply (logS_f_value F u v eta U0 UV E0 HF _ e N); trivial. now apply X. }
  split.
  - rewrite Ez. cbn [sf_zeta]. rewrite (at2_map (fun q r => fslope_f F wd m j1 j2 r (logS_f F m q r)) (map PyFloat qs) nrep i r (PyFloat 0)) by (trivial; now rewrite map_length).
    rewrite nth_PyFloat by trivial. exact Z.
  - intros Hq. rewrite <- Es. cbn [sf_H]. rewrite !nth_seq_map by trivial. unfold e in Z. rewrite Hq in Z.
    destruct Z as (a & b & Ea & Eb & A). rewrite Ea, Eb. apply (co_sub F u v eta); trivial; [|apply co_exact].
    unfold div_x, lift2, xdiv. destruct (Req_EM_T 2 0); [lra|]. eexists; eexists. split; [reflexivity|]. split; [reflexivity|]. now apply (ap_half F u v eta).
Qed.
Print Assumptions C96_exponents.

(** log-cumulants of every order *)
Theorem C96_log_cumulants :
  forall F u v eta m g nrep n j1 j2 wd c,
  0 <= u -> u <= v -> 0 <= eta -> accurate_arith u v eta F ->
  regular m g nrep -> counted m -> (1 <= j1)%Z -> (j1 < j2)%Z -> (j2 <= Z.of_nat g)%Z ->
  Cumulants m n j1 j2 wd = Ok c ->
  exists c', Cumulants_f F m n j1 j2 wd = Ok c' /\
  forall r k B N, (r < nrep)%nat -> (1 <= k <= n)%nat -> is_number (at2 (cu_log_cumulants c) (k - 1) r) ->
  (forall j, (j1 <= j <= j2)%Z -> no_inf (column m j r) /\ (length (numbers m j r) <= N)%nat /\
     forall a, In a (numbers m j r) -> Rabs (ln (Rabs a)) <= B) ->
  computed (k_mul u eta (k_fit u eta (Z.to_nat (j2 - j1 + 1)) (spread wd m j1 j2 r) (k_cum u v eta N B k)) (k_log2e v eta))
    (at2 (cu_log_cumulants c) (k - 1) r) (at2 (cu_log_cumulants c') (k - 1) r).
Proof.
  intros F u v eta m g nrep n j1 j2 wd c U0 UV E0 HF HR HC H1 H2 H3 E.
  destruct (CUM_f_eq F m g nrep HR n j1 j2 wd H1 ltac:(lia) H3) as (c' & E' & Ec & _). exists c'. split; [exact E'|].
  intros r k B N Hr Hk HNum HY. rewrite Ec.
  replace (Z.to_nat (j2 - j1 + 1)) with (nscales j1 j2) by (unfold nscales; f_equal; lia).
  destruct (CUM_rows m g nrep n j1 j2 wd c HR H1 ltac:(lia) H3 E k r Hk Hr) as (_ & _ & _ & Ez). rewrite Ez in *.
  rewrite (at2_map (fun k r => mul_x F (fslope_f F wd m j1 j2 r (Cval_f F m n k r)) (Fin (f_log2e F))) (seq 1 n) nrep (k - 1) r 0%nat) by (trivial; rewrite seq_length; lia).
  rewrite seq_nth by lia. replace (1 + (k - 1))%nat with k by lia.
  assert (X : forall j, (j1 <= j <= j2)%Z -> numbers m j r <> [] /\ Forall (fun a => a <> 0) (numbers m j r)).
  { intros j Hj. apply (cum_fin (column m j r) n k); [now apply HY|trivial|]. apply (fslope_fin_inv wd m j1 j2 r (Cval m n k r)); trivial.
    destruct HNum as [w Hw]. destruct (fslope wd m j1 j2 r (Cval m n k r)) as [a| | |]; [now exists a| | |]; cbn in Hw; unfold scale_inf in Hw; repeat destruct (Req_EM_T _ _) in Hw; repeat destruct (Rlt_dec _ _) in Hw; discriminate. }
  apply (co_mul F u v eta); trivial.
  - apply (slope_computed F u v eta m g nrep); trivial.
    + intros j Hj. split; [now apply HY|]. apply (X j Hj).
    + intros j Hj. destruct (HY j Hj) as (A & A2 & A3). destruct (X j Hj) as [X1 X2]. now apply (cum_f_value F u v eta U0 UV E0 HF).
  - eexists; eexists. split; [reflexivity|]. split; [reflexivity|]. assert (L := ln2_pos). assert (LE := log2e_ln2).
    assert (Pe : 0 < log2_e) by (destruct (Rle_dec log2_e 0); [nra|lra]).
    destruct HF as (_ & _ & _ & _ & _ & _ & _ & K). rewrite (Rabs_pos_eq log2_e) in K by lra. split; cbn; [rewrite Rabs_pos_eq by lra; lra|exact K].
Qed.
Print Assumptions C96_log_cumulants.
