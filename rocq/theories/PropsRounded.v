(** * C92: the wavelet transform in floating point *)
From Coq Require Import Reals List ZArith Bool Lra Lia Permutation.
From Verif Require Import XReal PyBase ModelUtils ModelMRQ ModelStructure ModelWavelet ModelRounded Spec SpecMRQ LXReal LReg LUtils LBase LFilter LTransform LPattern.
Import ListNotations.
Open Scope R_scope.
Local Notation length := List.length.

(** ** Specification *)
(** v is a possible result of computing the inner product of the pairs [l] on the machine: products summed in any order and any
    grouping, with or without fused multiply-adds *)
Inductive dot_to (M : machine) : list (R * R) -> R -> Prop :=
| dot_mul h a : dot_to M [(h, a)] (m_mul M h a)
| dot_add l l1 l2 x y : Permutation l (l1 ++ l2) -> dot_to M l1 x -> dot_to M l2 y -> dot_to M l (m_add M x y)
| dot_fma l l1 h a x : Permutation l ((h, a) :: l1) -> dot_to M l1 x -> dot_to M l (m_fma M h a x).
(** every operation has relative error at most u and absolute (underflow) error at most eta, powers of two relative error v *)
Definition accurate (u v eta : R) (M : machine) : Prop :=
  (forall a b, Rabs (m_add M a b - (a + b)) <= u * Rabs (a + b) + eta) /\
  (forall a b, Rabs (m_mul M a b - a * b) <= u * Rabs (a * b) + eta) /\
  (forall h a x, Rabs (m_fma M h a x - (h * a + x)) <= u * Rabs (h * a + x) + eta) /\
  (forall b s r i l, l <> [] -> dot_to M l (m_dot M b s r i l)) /\
  (forall norm s, Rabs (m_norm M norm s - Rpower 2 (IZR s * (1 / 2 - 1 / norm))) <= v * Rpower 2 (IZR s * (1 / 2 - 1 / norm))) /\
  (forall gam s, Rabs (m_int M gam s - Rpower 2 (gam * IZR s)) <= v * Rpower 2 (gam * IZR s)).

Definition norm1 (h : list R) : R := Rsum (map Rabs h).
(** the error bounds: u, v, eta as above, L the filter length, A and H the 1-norms of the low and high filters, X a bound of the
    samples *)
Section Bounds.
Variables (u v eta : R) (L : nat) (A H X norm gam : R).
Definition growth : R := (1 + u) ^ L.
Definition underflow : R := (2 * INR L - 1) * growth * eta.
Fixpoint approx_err (j : nat) : R :=
  match j with O => 0 | S j' => growth * A * approx_err j' + (growth - 1) * A ^ j * X + underflow end.
Definition detail_err (j : nat) : R := growth * H * approx_err (j - 1) + (growth - 1) * (H * A ^ (j - 1) * X) + underflow.
Definition coef_err (j : nat) : R :=
  let k := (1 + u) * (1 + v) in
  let f1 := Rpower 2 (INR j * (1 / 2 - 1 / norm)) in
  let f2 := Rpower 2 (gam * INR j) in
  f1 * f2 * (k ^ 2 * detail_err j + (k ^ 2 - 1) * (H * A ^ (j - 1) * X)) + eta * (1 + k * f2).
(** the leaders gather scales 1..j *)
Fixpoint lead_err (j : nat) : R := match j with O => 0 | S j' => Rmax (lead_err j') (coef_err j) end.
End Bounds.
(** the bounds for a wavelet and samples bounded by X *)
Definition coef_bound (u v eta X : R) (w : wavelet) (norm gam : R) (j : nat) : R :=
  coef_err u v eta (length (dec_hi w)) (norm1 (dec_lo w)) (norm1 (dec_hi w)) X norm gam j.
Definition lead_bound (u v eta X : R) (w : wavelet) (norm gam : R) (j : nat) : R :=
  lead_err u v eta (length (dec_hi w)) (norm1 (dec_lo w)) (norm1 (dec_hi w)) X norm gam j.

(** m' holds the same scales, counts and missing values as m, and each of its numbers at scale j is within err(j) of the one of m *)
Definition computed_within (err : nat -> R) (m m' : mrq) : Prop :=
  scales m' = scales m /\ mq_nj m' = mq_nj m /\
  map nan_pattern (dict_vals (mq_values m')) = map nan_pattern (dict_vals (mq_values m)) /\
  forall j r k x, entry m j r k = Fin x -> exists y, entry m' j r k = Fin y /\ Rabs (y - x) <= err (Z.to_nat j).

(** ** Inner products *)
Definition dotR (l : list (R * R)) : R := Rsum (map (fun p => fst p * snd p) l).
Definition dotA (l : list (R * R)) : R := Rsum (map (fun p => Rabs (fst p * snd p)) l).
Lemma dotA_nonneg l : 0 <= dotA l.
Proof. apply Rsum_map_nonneg. intros. apply Rabs_pos. Qed.
Lemma Rsum_perm {A} (f : A -> R) l l' : Permutation l l' -> Rsum (map f l) = Rsum (map f l').
Proof. induction 1; cbn; unfold Rsum in *; try lra; congruence. Qed.
Lemma Rsum_app' a b : Rsum (a ++ b) = Rsum a + Rsum b.
Proof. induction a as [|x a IH]; cbn; [unfold Rsum; cbn; ring|]. unfold Rsum in *. rewrite IH. ring. Qed.
Lemma dotR_abs l : Rabs (dotR l) <= dotA l.
Proof.
  unfold dotR, dotA. induction l as [|p l IH]; [cbn; rewrite Rabs_R0; lra|]. cbn [map]. unfold Rsum in *. cbn [fold_right].
  eapply Rle_trans; [apply Rabs_triang|]. lra.
Qed.
Lemma pow_ge1 x n : 1 <= x -> 1 <= x ^ n.
Proof. intros H. now apply pow_R1_Rle. Qed.
Lemma pow_mono x a b : 1 <= x -> (a <= b)%nat -> x ^ a <= x ^ b.
Proof. intros. now apply Rle_pow. Qed.
Lemma dot_to_nonempty M l x : dot_to M l x -> (1 <= length l)%nat.
Proof.
  induction 1 as [h a|l l1 l2 x y P D1 I1 D2 I2|l l1 h a x P D1 I1]; [cbn; lia| |]; apply Permutation_length in P; rewrite P; rewrite ?app_length; cbn; lia.
Qed.
Section Dot.
Variables (M : machine) (u v eta : R).
Hypothesis U0 : 0 <= u.
Hypothesis E0 : 0 <= eta.
Hypothesis HM : accurate u v eta M.
Lemma dot_err l x : dot_to M l x -> Rabs (x - dotR l) <= ((1 + u) ^ length l - 1) * dotA l + (2 * INR (length l) - 1) * (1 + u) ^ length l * eta.
Proof using U0 E0 HM.
  destruct HM as (Ha & Hm & Hf & _).
  induction 1 as [h a|l l1 l2 x y P D1 I1 D2 I2|l l1 h a x P D1 I1].
  - assert (K := Hm h a). unfold dotR, dotA, Rsum. cbn [length map fold_right fst snd INR pow]. rewrite !Rplus_0_r, Rmult_1_r.
    eapply Rle_trans; [exact K|]. assert (0 <= u * eta) by now apply Rmult_le_pos. assert (Q := Rabs_pos (h * a)). lra.
  - assert (N1 := dot_to_nonempty _ _ _ D1). assert (N2 := dot_to_nonempty _ _ _ D2).
    assert (LL := Permutation_length P). rewrite app_length in LL.
    assert (ER : dotR l = dotR l1 + dotR l2) by (unfold dotR; rewrite (Rsum_perm _ _ _ P), map_app, Rsum_app'; reflexivity).
    assert (EA : dotA l = dotA l1 + dotA l2) by (unfold dotA; rewrite (Rsum_perm _ _ _ P), map_app, Rsum_app'; reflexivity).
    assert (P1 := dotA_nonneg l1). assert (P2 := dotA_nonneg l2). rewrite ER, EA.
    set (n := (length l - 1)%nat). assert (En : length l = S n) by lia. rewrite En. cbn [pow].
    set (g := (1 + u) ^ n). assert (G1 : 1 <= g) by (apply pow_ge1; lra).
    assert (G2 : (1 + u) ^ length l1 <= g) by (apply pow_mono; [lra|lia]). assert (G3 : (1 + u) ^ length l2 <= g) by (apply pow_mono; [lra|lia]).
    assert (B1 : Rabs (x - dotR l1) <= (g - 1) * dotA l1 + (2 * INR (length l1) - 1) * g * eta).
    { eapply Rle_trans; [exact I1|]. apply Rplus_le_compat.
      - apply Rmult_le_compat_r; lra.
      - apply Rmult_le_compat_r; [lra|]. apply Rmult_le_compat_l; [|lra]. apply le_INR in N1. cbn in N1. lra. }
    assert (B2 : Rabs (y - dotR l2) <= (g - 1) * dotA l2 + (2 * INR (length l2) - 1) * g * eta).
    { eapply Rle_trans; [exact I2|]. apply Rplus_le_compat.
      - apply Rmult_le_compat_r; lra.
      - apply Rmult_le_compat_r; [lra|]. apply Rmult_le_compat_l; [|lra]. apply le_INR in N2. cbn in N2. lra. }
    assert (K := Ha x y). assert (A1 := dotR_abs l1). assert (A2 := dotR_abs l2).
    assert (T : Rabs (x + y) <= Rabs (x - dotR l1) + Rabs (y - dotR l2) + dotA l1 + dotA l2).
    { replace (x + y) with ((x - dotR l1) + (y - dotR l2) + (dotR l1 + dotR l2)) by ring.
      eapply Rle_trans; [apply Rabs_triang|]. assert (Q := Rabs_triang (x - dotR l1) (y - dotR l2)). assert (Q' := Rabs_triang (dotR l1) (dotR l2)). lra. }
    assert (T2 : Rabs (m_add M x y - (dotR l1 + dotR l2)) <= Rabs (m_add M x y - (x + y)) + (Rabs (x - dotR l1) + Rabs (y - dotR l2))).
    { replace (m_add M x y - (dotR l1 + dotR l2)) with ((m_add M x y - (x + y)) + ((x - dotR l1) + (y - dotR l2))) by ring.
      eapply Rle_trans; [apply Rabs_triang|]. assert (Q := Rabs_triang (x - dotR l1) (y - dotR l2)). lra. }
    set (e1 := Rabs (x - dotR l1)) in *. set (e2 := Rabs (y - dotR l2)) in *.
    assert (UT : u * Rabs (x + y) <= u * (e1 + e2 + dotA l1 + dotA l2)) by (apply Rmult_le_compat_l; lra).
    assert (LI : INR (S n) = INR (length l1) + INR (length l2)) by (rewrite <- plus_INR; f_equal; lia).
    assert (B12 : (1 + u) * (e1 + e2) <= (1 + u) * ((g - 1) * dotA l1 + (2 * INR (length l1) - 1) * g * eta + ((g - 1) * dotA l2 + (2 * INR (length l2) - 1) * g * eta)))
      by (apply Rmult_le_compat_l; lra).
    rewrite LI. assert (GE : eta <= (1 + u) * g * eta).
    { rewrite <- (Rmult_1_l eta) at 1. apply Rmult_le_compat_r; [lra|]. assert (0 <= u * g) by (apply Rmult_le_pos; lra). lra. }
    eapply Rle_trans; [exact T2|]. eapply Rle_trans with ((1 + u) * (e1 + e2) + u * (dotA l1 + dotA l2) + eta); [lra|].
    eapply Rle_trans; [apply Rplus_le_compat; [apply Rplus_le_compat_r, B12|exact GE]|]. apply Req_le. ring.
  - assert (N1 := dot_to_nonempty _ _ _ D1).
    assert (LL := Permutation_length P). cbn [length] in LL.
    assert (ER : dotR l = h * a + dotR l1) by (unfold dotR; rewrite (Rsum_perm _ _ _ P); reflexivity).
    assert (EA : dotA l = Rabs (h * a) + dotA l1) by (unfold dotA; rewrite (Rsum_perm _ _ _ P); reflexivity).
    assert (P1 := dotA_nonneg l1). assert (P2 := Rabs_pos (h * a)). rewrite ER, EA, LL. cbn [pow].
    set (g := (1 + u) ^ length l1) in *. assert (G1 : 1 <= g) by (apply pow_ge1; lra).
    assert (K := Hf h a x). assert (A1 := dotR_abs l1). set (e1 := Rabs (x - dotR l1)) in *.
    assert (T : Rabs (h * a + x) <= e1 + Rabs (h * a) + dotA l1).
    { replace (h * a + x) with ((x - dotR l1) + (h * a + dotR l1)) by ring. eapply Rle_trans; [apply Rabs_triang|].
      assert (Q := Rabs_triang (h * a) (dotR l1)). fold e1. lra. }
    assert (T2 : Rabs (m_fma M h a x - (h * a + dotR l1)) <= Rabs (m_fma M h a x - (h * a + x)) + e1).
    { replace (m_fma M h a x - (h * a + dotR l1)) with ((m_fma M h a x - (h * a + x)) + (x - dotR l1)) by ring. apply Rabs_triang. }
    assert (UT : u * Rabs (h * a + x) <= u * (e1 + Rabs (h * a) + dotA l1)) by (apply Rmult_le_compat_l; lra).
    assert (B12 : (1 + u) * e1 <= (1 + u) * ((g - 1) * dotA l1 + (2 * INR (length l1) - 1) * g * eta)) by (apply Rmult_le_compat_l; lra).
    assert (LI : INR (S (length l1)) = INR (length l1) + 1) by apply S_INR. rewrite LI.
    assert (GE : eta <= (1 + u) * g * eta).
    { rewrite <- (Rmult_1_l eta) at 1. apply Rmult_le_compat_r; [lra|]. assert (0 <= u * g) by (apply Rmult_le_pos; lra). lra. }
    assert (GA : 0 <= (1 + u) * (g - 1) * Rabs (h * a)) by (apply Rmult_le_pos; [apply Rmult_le_pos; lra|lra]).
    assert (GE2 : 0 <= (1 + u) * g * eta) by lra.
    eapply Rle_trans; [exact T2|]. eapply Rle_trans with ((1 + u) * e1 + u * (Rabs (h * a) + dotA l1) + eta); [lra|].
    eapply Rle_trans with ((1 + u) * ((g - 1) * dotA l1 + (2 * INR (length l1) - 1) * g * eta) + u * (Rabs (h * a) + dotA l1) + (1 + u) * g * eta); [lra|].
    eapply Rle_trans with ((1 + u) * ((g - 1) * dotA l1 + (2 * INR (length l1) - 1) * g * eta) + u * (Rabs (h * a) + dotA l1) + (1 + u) * g * eta + (1 + u) * (g - 1) * Rabs (h * a) + (1 + u) * g * eta); [lra|].
    apply Req_le. ring.
Qed.
End Dot.

(** ** Exact and computed values side by side *)
Definition near (e B : R) (x y : xr) : Prop := (x = NaN /\ y = NaN) \/ exists a b, x = Fin a /\ y = Fin b /\ Rabs (b - a) <= e /\ Rabs a <= B.
Definition nearc e B := Forall2 (near e B).
Definition neara e B := Forall2 (nearc e B).
Lemma near_weaken e B e' B' x y : e <= e' -> B <= B' -> near e B x y -> near e' B' x y.
Proof. intros H1 H2 [H|(a & b & -> & -> & H3 & H4)]; [now left|]. right. exists a, b. repeat split; lra. Qed.
Lemma Forall2_impl {A B} (P Q : A -> B -> Prop) l l' : (forall x y, P x y -> Q x y) -> Forall2 P l l' -> Forall2 Q l l'.
Proof. intros H. induction 1; constructor; auto. Qed.
Lemma nearc_weaken e B e' B' x y : e <= e' -> B <= B' -> nearc e B x y -> nearc e' B' x y.
Proof. intros H1 H2. apply Forall2_impl. intros. now apply (near_weaken e B). Qed.
Lemma neara_weaken e B e' B' x y : e <= e' -> B <= B' -> neara e B x y -> neara e' B' x y.
Proof. intros H1 H2. apply Forall2_impl. intros. now apply (nearc_weaken e B). Qed.
Lemma Forall2_nth {A B} (P : A -> B -> Prop) l l' d d' i : Forall2 P l l' -> P d d' -> P (nth i l d) (nth i l' d').
Proof. intros H D. revert i. induction H as [|x y l l' H F IH]; intros [|i]; cbn; auto. Qed.
Lemma Forall2_maps {A B C} (P : B -> C -> Prop) (f : A -> B) (g : A -> C) l : (forall x, In x l -> P (f x) (g x)) -> Forall2 P (map f l) (map g l).
Proof. induction l as [|a l IH]; intros H; cbn; constructor; [apply H; now left|]. apply IH. intros. apply H. now right. Qed.
Lemma Forall2_map2 {A B C D} (P : A -> B -> Prop) (Q : C -> D -> Prop) (f : A -> C) (g : B -> D) l l' : Forall2 P l l' -> (forall x y, P x y -> Q (f x) (g y)) -> Forall2 Q (map f l) (map g l').
Proof. intros H HQ. induction H; cbn; constructor; auto. Qed.
Lemma Forall2_map2_seq {A B C D} (P : A -> B -> Prop) (Q : C -> D -> Prop) (f : nat -> A -> C) (g : nat -> B -> D) l l' s : Forall2 P l l' -> (forall i x y, P x y -> Q (f i x) (g i y)) ->
  Forall2 Q (map2 f s l) (map2 g s l').
Proof.
  intros H HQ. revert s. induction H as [|x y l l' H F IH]; intros [|i s]; try (constructor; fail).
  rewrite !map2_cons. constructor; [now apply HQ|apply IH].
Qed.
Lemma map_map2_seq {A C} (f : A -> C) l : map f l = map2 (fun _ c => f c) (seq 0 (length l)) l.
Proof. generalize 0%nat. induction l as [|a l IH]; intros s; [reflexivity|]. cbn [length seq]. rewrite map2_cons. cbn. f_equal. apply IH. Qed.
Lemma Forall2_len {A B} (P : A -> B -> Prop) l l' : Forall2 P l l' -> length l = length l'.
Proof. induction 1; cbn; congruence. Qed.
Lemma Rabs_le_both a b : Rabs a <= b -> - b <= a <= b.
Proof. intros H. assert (K := Rle_abs a). assert (K' := Rle_abs (- a)). rewrite Rabs_Ropp in K'. lra. Qed.
Lemma near_isnan e B x y : near e B x y -> isnan x = isnan y.
Proof. intros [[-> ->]|(a & b & -> & -> & _)]; reflexivity. Qed.
Lemma near_NaN e B : near e B NaN NaN.
Proof. now left. Qed.
Lemma nearc_length e B c c' : nearc e B c c' -> length c = length c'.
Proof. apply Forall2_len. Qed.
Lemma nearc_count e B c c' : nearc e B c c' -> count_valid c = count_valid c'.
Proof.
  unfold count_valid, valid. induction 1 as [|x y c c' H F IH]; [reflexivity|]. cbn [filter]. unfold notnan. rewrite (near_isnan e B x y H).
  destruct (isnan y); cbn [negb length]; trivial. now f_equal.
Qed.
Lemma neara_counts e B a a' : neara e B a a' -> map count_valid a = map count_valid a'.
Proof. induction 1 as [|x y a a' H F IH]; [reflexivity|]. cbn. f_equal; [now apply (nearc_count e B)|exact IH]. Qed.
Lemma nearc_pat e B c c' : nearc e B c c' -> map isnan c = map isnan c'.
Proof. induction 1 as [|x y c c' H F IH]; [reflexivity|]. cbn. f_equal; [now apply (near_isnan e B)|exact IH]. Qed.
Lemma neara_pat e B a a' : neara e B a a' -> nan_pattern a = nan_pattern a'.
Proof. unfold nan_pattern. induction 1 as [|x y a a' H F IH]; [reflexivity|]. cbn. f_equal; [now apply (nearc_pat e B)|exact IH]. Qed.
Lemma nearc_no_inf e B c c' : nearc e B c c' -> no_inf c /\ no_inf c'.
Proof.
  induction 1 as [|x y c c' H F [IH1 IH2]]; [split; constructor|]. split; constructor; trivial.
  all: destruct H as [[-> ->]|(a & b & -> & -> & _)]; [now left|right; eauto].
Qed.
(** maxima are 1-Lipschitz *)
Lemma near_nanmax e B c c' : nearc e B c c' -> near e B (nanmax c) (nanmax c').
Proof.
  intros H. induction H as [|x y c c' H F IH]; [now left|]. cbn.
  assert (NN : forall z, xfmax NaN z = z) by (intros []; reflexivity).
  assert (NN' : forall z, xfmax z NaN = z) by (intros []; reflexivity).
  destruct H as [[-> ->]|(a & b & -> & -> & H1 & H2)]; [now rewrite !NN|].
  unfold nanmax in IH. destruct IH as [[-> ->]|(a' & b' & -> & -> & H3 & H4)]; [rewrite !NN'; right; eauto 6|].
  right. exists (Rmax a a'), (Rmax b b'). split; [reflexivity|]. split; [reflexivity|].
  apply Rabs_le_both in H1. apply Rabs_le_both in H2. apply Rabs_le_both in H3. apply Rabs_le_both in H4.
  split; apply Rabs_le; unfold Rmax; destruct (Rle_dec a a'), (Rle_dec b b'); lra.
Qed.
Lemma near_xabs e B x y : near e B x y -> near e B (xabs x) (xabs y).
Proof.
  intros [[-> ->]|(a & b & -> & -> & H1 & H2)]; [now left|]. right. exists (Rabs a), (Rabs b). repeat split.
  - eapply Rle_trans; [apply Rabs_triang_inv2|exact H1].
  - now rewrite Rabs_Rabsolu.
Qed.

(** ** One filtering step *)
Section Step.
Variables (M : machine) (u v eta : R).
Hypothesis U0 : 0 <= u.
Hypothesis V0 : 0 <= v.
Hypothesis E0 : 0 <= eta.
Hypothesis HM : accurate u v eta M.
Lemma operands_near e B (h : list R) (x y : list xr) : length x = length h -> nearc e B x y ->
  (operands (combine h x) = None /\ operands (combine h y) = None /\ xsum (map2 (fun a b => xmul (Fin a) b) h x) = NaN) \/
  exists xs ys, operands (combine h x) = Some (combine h xs) /\ operands (combine h y) = Some (combine h ys) /\
    xsum (map2 (fun a b => xmul (Fin a) b) h x) = Fin (dotR (combine h xs)) /\ length xs = length h /\ length ys = length h /\
    Forall2 (fun a b => Rabs (b - a) <= e /\ Rabs a <= B) xs ys.
Proof using.
  clear. revert x y. induction h as [|w h IH]; intros x y L H.
  - destruct x; [|discriminate]. inversion H; subst. right. exists [], []. repeat split; constructor.
  - destruct x as [|a x]; [discriminate|]. inversion H as [|a0 b x0 y0 Hab Hxy]; subst. injection L as L. rewrite map2_cons. cbn [combine operands].
    change (xsum (xmul (Fin w) a :: map2 (fun a1 b0 => xmul (Fin a1) b0) h x)) with (xadd (xmul (Fin w) a) (xsum (map2 (fun a1 b0 => xmul (Fin a1) b0) h x))).
    destruct Hab as [[-> ->]|(ra & rb & -> & -> & H1 & H2)].
    + left. repeat split; reflexivity.
    + destruct (IH x y0 L Hxy) as [(N1 & N2 & N3)|(xs & ys & E1 & E2 & E3 & L1 & L2 & F)].
      * left. rewrite N1, N2, N3. repeat split; reflexivity.
      * right. exists (ra :: xs), (rb :: ys). rewrite E1, E2, E3. cbn [length combine]. repeat split; try congruence. now constructor.
Qed.
Lemma combine_dots e B (h : list R) : forall xs ys, 0 <= e -> length xs = length h -> Forall2 (fun a b => Rabs (b - a) <= e /\ Rabs a <= B) xs ys ->
  Rabs (dotR (combine h ys) - dotR (combine h xs)) <= norm1 h * e /\ dotA (combine h ys) <= norm1 h * (B + e) /\ Rabs (dotR (combine h xs)) <= norm1 h * B.
Proof using.
  clear. intros xs ys He. revert xs ys. induction h as [|w h IH]; intros xs ys L F.
  - cbn. rewrite Rminus_0_r, Rabs_R0. repeat split; unfold Rsum; cbn; lra.
  - destruct xs as [|a xs]; [discriminate|]. inversion F as [|a0 b xs0 ys0 [H1 H2] Hxy]; subst. injection L as L.
    destruct (IH xs ys0 L Hxy) as (I1 & I2 & I3). unfold dotR, dotA, norm1 in *. cbn [combine map]. unfold Rsum in *. cbn [fold_right fst snd].
    assert (Pw := Rabs_pos w).
    assert (Q1 : Rabs (w * b - w * a) <= Rabs w * e) by (rewrite <- Rmult_minus_distr_l, Rabs_mult; now apply Rmult_le_compat_l).
    assert (Q2 : Rabs (w * b) <= Rabs w * (B + e)).
    { rewrite Rabs_mult. apply Rmult_le_compat_l; [trivial|]. replace b with (a + (b - a)) by ring. eapply Rle_trans; [apply Rabs_triang|]. lra. }
    assert (Q3 : Rabs (w * a) <= Rabs w * B) by (rewrite Rabs_mult; now apply Rmult_le_compat_l).
    repeat split.
    + match goal with |- Rabs (?p + ?q - (?r + ?s)) <= _ => replace (p + q - (r + s)) with ((p - r) + (q - s)) by ring end.
      eapply Rle_trans; [apply Rabs_triang|]. lra.
    + lra.
    + eapply Rle_trans; [apply Rabs_triang|]. lra.
Qed.
(** error and size after an inner product with h *)
Definition step_err (h : list R) (e B : R) : R := growth u (length h) * norm1 h * e + (growth u (length h) - 1) * (norm1 h * B) + underflow u eta (length h).
Lemma growth_ge1 n : 1 <= growth u n.
Proof using U0. unfold growth. apply pow_ge1. lra. Qed.
Lemma near_get_pad e B a a' i : 0 <= e -> 0 <= B -> nearc e B a a' -> near e B (get_pad (Fin 0) a i) (get_pad (Fin 0) a' i).
Proof using.
  intros He HB H. assert (Z : near e B (Fin 0) (Fin 0)) by (right; exists 0, 0; rewrite Rminus_0_r, Rabs_R0; auto).
  unfold get_pad. destruct (i <? 0)%Z; [exact Z|]. now apply Forall2_nth.
Qed.
Lemma combine_map' {X Y Z} (f : X -> Y) (g : X -> Z) l : combine (map f l) (map g l) = map (fun x => (f x, g x)) l.
Proof using. induction l; cbn; congruence. Qed.
Lemma map2_maps {X Y Z W} (op : Y -> Z -> W) (f : X -> Y) (g : X -> Z) l : map2 op (map f l) (map g l) = map (fun x => op (f x) (g x)) l.
Proof using. unfold map2. rewrite combine_map', map_map. reflexivity. Qed.
Lemma map_nth_seq (h : list R) : map (fun k => nth k h 0) (seq 0 (length h)) = h.
Proof using.
  apply (nth_ext _ _ 0 0); [now rewrite map_length, seq_length|]. intros i Hi. rewrite map_length, seq_length in Hi.
  rewrite (nth_indep _ 0 ((fun k => nth k h 0) 0%nat)) by (now rewrite map_length, seq_length). rewrite (map_nth (fun k => nth k h 0)), seq_nth by trivial. reflexivity.
Qed.
Lemma near_conv e B a a' h (dot : nat -> list (R * R) -> R) : 0 <= e -> 0 <= B -> (1 <= length h)%nat -> (forall i l, l <> [] -> dot_to M l (dot i l)) ->
  nearc e B a a' -> nearc (step_err h e B) (norm1 h * B) (conv_same (Fin 0) a h) (conv_same_f dot a' h).
Proof using U0 E0 HM.
  intros He HB Hh HD H. unfold conv_same, conv_same_f. rewrite <- (nearc_length _ _ _ _ H). apply Forall2_maps. intros i _.
  set (pos := fun k : nat => (Z.of_nat i + (Z.of_nat (length h) - 1) / 2 - Z.of_nat k)%Z).
  set (x := map (fun k => get_pad (Fin 0) a (pos k)) (seq 0 (length h))). set (y := map (fun k => get_pad (Fin 0) a' (pos k)) (seq 0 (length h))).
  assert (Nxy : nearc e B x y) by (apply Forall2_maps; intros; now apply near_get_pad).
  assert (Ex : map (fun k => xmul (Fin (nth k h 0)) (get_pad (Fin 0) a (pos k))) (seq 0 (length h)) = map2 (fun a b => xmul (Fin a) b) h x).
  { transitivity (map2 (fun a b => xmul (Fin a) b) (map (fun k => nth k h 0) (seq 0 (length h))) x); [unfold x; now rewrite map2_maps|now rewrite map_nth_seq]. }
  assert (Ey : map (fun k => (nth k h 0, get_pad (Fin 0) a' (pos k))) (seq 0 (length h)) = combine h y).
  { transitivity (combine (map (fun k => nth k h 0) (seq 0 (length h))) y); [unfold y; now rewrite combine_map'|now rewrite map_nth_seq]. }
  change (near (step_err h e B) (norm1 h * B) (xsum (map (fun k => xmul (Fin (nth k h 0)) (get_pad (Fin 0) a (pos k))) (seq 0 (length h))))
     (dot_x (dot i) (map (fun k => (nth k h 0, get_pad (Fin 0) a' (pos k))) (seq 0 (length h))))).
  rewrite Ex, Ey. unfold dot_x.
  destruct (operands_near e B h x y ltac:(unfold x; now rewrite map_length, seq_length) Nxy) as [(_ & -> & ->)|(xs & ys & E1 & -> & -> & L1 & L2 & F)]; [now left|].
  right. exists (dotR (combine h xs)), (dot i (combine h ys)). split; [reflexivity|]. split; [reflexivity|].
  destruct (combine_dots e B h xs ys He L1 F) as (I1 & I2 & I3). split; [|exact I3].
  assert (LC : length (combine h ys) = length h) by (rewrite combine_length; lia).
  assert (NE : combine h ys <> []) by (intros N; rewrite N in LC; cbn in LC; lia).
  assert (D := dot_err M u v eta U0 E0 HM _ _ (HD i _ NE)). rewrite LC in D.
  assert (G := growth_ge1 (length h)). unfold step_err, underflow. unfold growth in *. set (g := (1 + u) ^ length h) in *.
  replace (dot i (combine h ys) - dotR (combine h xs)) with ((dot i (combine h ys) - dotR (combine h ys)) + (dotR (combine h ys) - dotR (combine h xs))) by ring.
  eapply Rle_trans; [apply Rabs_triang|].
  assert (K : (g - 1) * dotA (combine h ys) <= (g - 1) * (norm1 h * (B + e))) by (apply Rmult_le_compat_l; lra).
  eapply Rle_trans; [apply Rplus_le_compat; [eapply Rle_trans; [exact D|apply Rplus_le_compat_r, K]|exact I1]|]. apply Req_le. ring.
Qed.
Lemma near_border e B n L c c' : nearc e B c c' -> nearc e B (nan_border n L c) (nan_border n L c').
Proof using.
  intros H. unfold nan_border. rewrite <- (nearc_length _ _ _ _ H). apply (Forall2_map2_seq (near e B)); trivial.
  intros i x y K. destruct (_ || _); [now left|exact K].
Qed.
Lemma near_subsample e B n c c' : nearc e B c c' -> nearc e B (subsample n c) (subsample n c').
Proof using. intros H. unfold subsample. apply Forall2_maps. intros k _. apply Forall2_nth; [trivial|now left]. Qed.
Lemma near_filtering e B a a' hi lo (dot : bool -> nat -> list (R * R) -> R) : 0 <= e -> 0 <= B -> (1 <= length hi)%nat -> (1 <= length lo)%nat ->
  (forall b i l, l <> [] -> dot_to M l (dot b i l)) -> nearc e B a a' ->
  nearc (step_err hi e B) (norm1 hi * B) (fst (filtering a hi lo)) (fst (filtering_f dot a' hi lo)) /\
  nearc (step_err lo e B) (norm1 lo * B) (snd (filtering a hi lo)) (snd (filtering_f dot a' hi lo)).
Proof using U0 E0 HM.
  intros He HB Hh Hl HD H. unfold filtering, filtering_pad, filtering_f. cbn [fst snd]. rewrite <- (nearc_length _ _ _ _ H).
  split; apply near_subsample, near_border, near_conv; trivial; intros; now apply HD.
Qed.
Lemma near_filtering_arr e B a a' hi lo (dot : bool -> nat -> nat -> list (R * R) -> R) : 0 <= e -> 0 <= B -> (1 <= length hi)%nat -> (1 <= length lo)%nat ->
  (forall b r i l, l <> [] -> dot_to M l (dot b r i l)) -> neara e B a a' ->
  neara (step_err hi e B) (norm1 hi * B) (fst (filtering_arr a hi lo)) (fst (filtering_arr_f dot a' hi lo)) /\
  neara (step_err lo e B) (norm1 lo * B) (snd (filtering_arr a hi lo)) (snd (filtering_arr_f dot a' hi lo)).
Proof using U0 E0 HM.
  intros He HB Hh Hl HD H. unfold filtering_arr, filtering_arr_f. cbn [fst snd].
  rewrite !(map_map2_seq _ a), (Forall2_len _ _ _ H).
  split; apply (Forall2_map2_seq (nearc e B)); trivial; intros i x y K; apply near_filtering; trivial; intros; now apply HD.
Qed.
Definition kk : R := (1 + u) * (1 + v).
Definition resc_err (norm gam : R) (s : Z) (e B : R) : R :=
  let f1 := Rpower 2 (IZR s * (1 / 2 - 1 / norm)) in let f2 := Rpower 2 (gam * IZR s) in
  f1 * f2 * (kk ^ 2 * e + (kk ^ 2 - 1) * B) + eta * (1 + kk * f2).
Lemma mul_err a c f : 0 < f -> Rabs (c - f) <= v * f -> Rabs (m_mul M a c - a * f) <= (kk - 1) * Rabs a * f + eta.
Proof using U0 V0 HM.
  intros Hf Hc. destruct HM as (_ & Hm & _). assert (K := Hm a c). assert (Pa := Rabs_pos a).
  assert (C1 : Rabs c <= (1 + v) * f).
  { replace c with ((c - f) + f) by ring. eapply Rle_trans; [apply Rabs_triang|]. rewrite (Rabs_pos_eq f) by lra. lra. }
  rewrite Rabs_mult in K. assert (K1 : Rabs a * Rabs c <= Rabs a * ((1 + v) * f)) by (apply Rmult_le_compat_l; lra).
  assert (K2 : u * (Rabs a * Rabs c) <= u * (Rabs a * ((1 + v) * f))) by (apply Rmult_le_compat_l; lra).
  assert (K3 : Rabs (a * (c - f)) <= Rabs a * (v * f)) by (rewrite Rabs_mult; apply Rmult_le_compat_l; lra).
  replace (m_mul M a c - a * f) with ((m_mul M a c - a * c) + a * (c - f)) by ring. eapply Rle_trans; [apply Rabs_triang|].
  unfold kk. eapply Rle_trans; [apply Rplus_le_compat; [eapply Rle_trans; [exact K|apply Rplus_le_compat_r, K2]|exact K3]|]. apply Req_le. ring.
Qed.
Lemma kk_ge1 : 1 <= kk.
Proof using U0 V0. unfold kk. assert (0 <= u * v) by now apply Rmult_le_pos. lra. Qed.
Lemma near_rescale norm gam s e B c c' : 0 <= e -> nearc e B c c' ->
  nearc (resc_err norm gam s e B) (B * (Rpower 2 (IZR s * (1 / 2 - 1 / norm)) * Rpower 2 (gam * IZR s))) (rescale norm gam s c) (rescale_f M norm gam s c').
Proof using U0 V0 E0 HM.
  intros He H. unfold rescale, rescale_f. rewrite !map_map. apply (Forall2_map2 (near e B)); trivial. intros x y K.
  set (f1 := Rpower 2 (IZR s * (1 / 2 - 1 / norm))). set (f2 := Rpower 2 (gam * IZR s)).
  assert (F1 : 0 < f1) by apply Rpower_pos. assert (F2 : 0 < f2) by apply Rpower_pos. assert (F : 0 < f1 * f2) by now apply Rmult_lt_0_compat.
  destruct K as [[-> ->]|(a & b & -> & -> & H1 & H2)]; [left; split; reflexivity|]. right. cbn [xmul mul_f].
  set (g1 := m_norm M norm s). set (g2 := m_int M gam s). set (c1 := m_mul M b g1).
  exists (a * f1 * f2), (m_mul M c1 g2). split; [reflexivity|]. split; [reflexivity|].
  destruct HM as (_ & _ & _ & _ & N1 & N2). assert (K1 := mul_err b g1 f1 F1 (N1 norm s)). assert (K2 := mul_err c1 g2 f2 F2 (N2 gam s)).
  fold c1 in K1. assert (KG := kk_ge1). assert (Pb := Rabs_pos b).
  assert (BB : Rabs b <= B + e). { replace b with (a + (b - a)) by ring. eapply Rle_trans; [apply Rabs_triang|]. lra. }
  assert (C1 : Rabs c1 <= kk * Rabs b * f1 + eta).
  { replace c1 with ((c1 - b * f1) + b * f1) by ring. eapply Rle_trans; [apply Rabs_triang|]. rewrite Rabs_mult, (Rabs_pos_eq f1) by lra. lra. }
  split.
  - replace (m_mul M c1 g2 - a * f1 * f2) with ((m_mul M c1 g2 - c1 * f2) + (c1 - b * f1) * f2 + (b - a) * (f1 * f2)) by ring.
    eapply Rle_trans; [apply Rabs_triang|]. eapply Rle_trans; [apply Rplus_le_compat_r, Rabs_triang|].
    rewrite (Rabs_mult (c1 - b * f1)), (Rabs_mult (b - a)), (Rabs_pos_eq f2), (Rabs_pos_eq (f1 * f2)) by lra.
    assert (T1 : (kk - 1) * Rabs c1 * f2 <= (kk - 1) * (kk * Rabs b * f1 + eta) * f2) by (apply Rmult_le_compat_r; [lra|]; apply Rmult_le_compat_l; lra).
    assert (T2 : Rabs (c1 - b * f1) * f2 <= ((kk - 1) * Rabs b * f1 + eta) * f2) by (apply Rmult_le_compat_r; lra).
    assert (T3 : Rabs (b - a) * (f1 * f2) <= e * (f1 * f2)) by (apply Rmult_le_compat_r; lra).
    assert (T4 : (kk ^ 2 - 1) * (f1 * f2) * Rabs b <= (kk ^ 2 - 1) * (f1 * f2) * (B + e)).
    { apply Rmult_le_compat_l; [|exact BB]. apply Rmult_le_pos; [|lra]. assert (0 <= (kk - 1) * (kk + 1)) by (apply Rmult_le_pos; lra). lra. }
    unfold resc_err. fold f1 f2.
    eapply Rle_trans with ((kk - 1) * (kk * Rabs b * f1 + eta) * f2 + eta + ((kk - 1) * Rabs b * f1 + eta) * f2 + e * (f1 * f2)); [lra|].
    replace ((kk - 1) * (kk * Rabs b * f1 + eta) * f2 + eta + ((kk - 1) * Rabs b * f1 + eta) * f2 + e * (f1 * f2))
      with ((kk ^ 2 - 1) * (f1 * f2) * Rabs b + eta * (1 + kk * f2) + e * (f1 * f2)) by ring.
    eapply Rle_trans; [apply Rplus_le_compat_r, Rplus_le_compat_r, T4|]. apply Req_le. ring.
  - rewrite !Rabs_mult, (Rabs_pos_eq f1), (Rabs_pos_eq f2) by lra. rewrite Rmult_assoc. apply Rmult_le_compat_r; lra.
Qed.
End Step.

(** ** Leaders *)
Definition sim {A B} (P : A -> B -> Prop) (x : res A) (y : res B) : Prop :=
  match x, y with Ok a, Ok b => P a b | Err e, Err e' => e = e' | _, _ => False end.
Lemma sim_bind {A B C D} (P : A -> B -> Prop) (Q : C -> D -> Prop) x y f g : sim P x y -> (forall a b, P a b -> sim Q (f a) (g b)) -> sim Q (bind x f) (bind y g).
Proof. destruct x, y; cbn; auto; tauto. Qed.
Lemma sim_mapM {A B C D} (P : A -> B -> Prop) (Q : C -> D -> Prop) f g l l' : Forall2 P l l' -> (forall a b, P a b -> sim Q (f a) (g b)) -> sim (Forall2 Q) (mapM f l) (mapM g l').
Proof.
  intros H HF. induction H as [|a b l l' H F IH]; [constructor|]. cbn [mapM]. apply (sim_bind Q); [now apply HF|]. intros c d Hcd.
  apply (sim_bind (Forall2 Q)); [exact IH|]. intros cs ds Hs. cbn. now constructor.
Qed.
Lemma near_fixednanmax e B c c' : nearc e B c c' -> near e B (fixednanmax c) (fixednanmax c').
Proof. exact (near_nanmax e B c c'). Qed.
Lemma near_stack3 e B a b c a' b' c' : nearc e B a a' -> nearc e B b b' -> nearc e B c c' ->
  sim (nearc e B) (stack3 (reduce3 WaveletLeader) a b c) (stack3 (reduce3 WaveletLeader) a' b' c').
Proof.
  intros Ha Hb Hc. unfold stack3. rewrite <- (nearc_length _ _ _ _ Ha), <- (nearc_length _ _ _ _ Hb), <- (nearc_length _ _ _ _ Hc).
  destruct (Nat.eqb (length a) (length b) && Nat.eqb (length b) (length c)); [|reflexivity]. cbn [sim].
  apply Forall2_maps. intros k _. cbn [reduce3]. apply near_fixednanmax.
  repeat (constructor; [apply Forall2_nth; [assumption|now left]|]). constructor.
Qed.
Lemma Forall2_firstn {A B} (P : A -> B -> Prop) n l l' : Forall2 P l l' -> Forall2 P (firstn n l) (firstn n l').
Proof. intros H. revert n. induction H; intros [|n]; cbn; constructor; auto. Qed.
Lemma Forall2_skipn {A B} (P : A -> B -> Prop) n l l' : Forall2 P l l' -> Forall2 P (skipn n l) (skipn n l').
Proof. intros H. revert n. induction H as [|a b l l' H F IH]; intros [|n]; cbn; try constructor; auto. Qed.
Lemma near_py_slice e B i j c c' : nearc e B c c' -> nearc e B (py_slice i j c) (py_slice i j c').
Proof. intros H. unfold py_slice. rewrite <- (nearc_length _ _ _ _ H). now apply Forall2_firstn, Forall2_skipn. Qed.
Lemma near_every2 e B i m c c' : nearc e B c c' -> nearc e B (every2 i m c) (every2 i m c').
Proof. intros H. unfold every2. apply Forall2_maps. intros k _. apply Forall2_nth; [trivial|now left]. Qed.
Definition nearo e B (x y : option col) : Prop := match x, y with None, None => True | Some c, Some c' => nearc e B c c' | _, _ => False end.
Lemma near_leaders e B d d' sv sv' s : nearc e B d d' -> nearo e B sv sv' ->
  sim (fun p q => nearc e B (fst p) (fst q) /\ nearc e B (snd p) (snd q))
    (compute_leaders d sv s WaveletLeader PInfty) (compute_leaders d' sv' s WaveletLeader PInfty).
Proof.
  intros Hd Hs. unfold compute_leaders. cbn [bind].
  assert (Ha : nearc e B (map xabs d) (map xabs d')) by (apply (Forall2_map2 (near e B)); trivial; apply near_xabs).
  apply (sim_bind (nearc e B)).
  - unfold find_sans_voisin. destruct (s =? 1)%Z; [exact Ha|]. destruct sv as [c|], sv' as [c'|]; cbn in Hs; try contradiction; [|reflexivity].
    rewrite <- (nearc_length _ _ _ _ Hs). apply near_stack3; [now apply Forall2_firstn|now apply near_every2|now apply near_every2].
  - intros a b H. rewrite <- (nearc_length _ _ _ _ H). apply (sim_bind (nearc e B)).
    + apply near_stack3; now apply near_py_slice.
    + intros l l' Hl. cbn. auto.
Qed.
Definition nearoa e B (x y : option arr) : Prop := match x, y with None, None => True | Some c, Some c' => neara e B c c' | _, _ => False end.
Lemma near_leaders_arr e B d d' sv sv' s : neara e B d d' -> nearoa e B sv sv' ->
  sim (fun p q => neara e B (fst p) (fst q) /\ neara e B (snd p) (snd q))
    (compute_leaders_arr d sv s WaveletLeader PInfty) (compute_leaders_arr d' sv' s WaveletLeader PInfty).
Proof.
  intros Hd Hs. unfold compute_leaders_arr.
  set (Q := fun p q : col * col => nearc e B (fst p) (fst q) /\ nearc e B (snd p) (snd q)).
  apply (sim_bind (Forall2 Q)).
  - apply (sim_mapM (fun p q : col * option col => nearc e B (fst p) (fst q) /\ nearo e B (snd p) (snd q))).
    + assert (K : forall os os', Forall2 (nearo e B) os os' -> Forall2 (fun p q : col * option col => nearc e B (fst p) (fst q) /\ nearo e B (snd p) (snd q)) (combine d os) (combine d' os')).
      { induction Hd as [|a b d d' H F IH]; intros os os' HO; [constructor|]. destruct HO; cbn; constructor; auto. }
      apply K. destruct sv as [c|], sv' as [c'|]; cbn in Hs; try contradiction.
      * apply (Forall2_map2 (nearc e B)); trivial.
      * apply (Forall2_map2 (nearc e B)); trivial.
    + intros [c o] [c' o'] [H1 H2]. now apply near_leaders.
  - intros r r' H. cbn. split; (apply (Forall2_map2 Q); [exact H|]; intros x y [H1 H2]; assumption).
Qed.
Lemma near_min_count e B a a' : neara e B a a' -> min_count a = min_count a'.
Proof. intros H. unfold min_count. now rewrite (neara_counts e B a a' H). Qed.

(** ** Quantities *)
Definition mrel (err : nat -> R) (m m' : mrq) : Prop :=
  mq_formalism m = mq_formalism m' /\ mq_gamint m = mq_gamint m' /\ mq_nj m = mq_nj m' /\
  Forall2 (fun p q => fst p = fst q /\ exists B, neara (err (Z.to_nat (fst p))) B (snd p) (snd q)) (mq_values m) (mq_values m').
Lemma mrel_add err m m' d d' j B : mrel err m m' -> neara (err (Z.to_nat j)) B d d' -> mrel err (add_values m d j) (add_values m' d' j).
Proof.
  intros (H1 & H2 & H3 & H4) H. unfold mrel, add_values. cbn [mq_formalism mq_gamint mq_nj mq_values].
  rewrite H1, H2, H3, (neara_counts _ _ _ _ H). repeat split; trivial.
  induction H4 as [|[k a] [k' a'] l l' [E (B' & N)] F IH]; cbn [dict_set].
  - constructor; [|constructor]. cbn. eauto.
  - cbn in E. subst k'. destruct (Z.eqb_spec j k) as [->|NE]; constructor; cbn; eauto.
Qed.
Lemma mrel_within err m m' : mrel err m m' -> computed_within err m m'.
Proof.
  intros (H1 & H2 & H3 & H4). unfold computed_within, scales, entry, dict_keys, dict_vals. rewrite H3. clear H1 H2 H3. revert H4. generalize (mq_values m) (mq_values m'). intros d d' H4. split; [|split; [reflexivity|split]].
  - induction H4 as [|p q l l' [E _] F IH]; cbn; [reflexivity|]. f_equal; [now symmetry|exact IH].
  - induction H4 as [|p q l l' [E (B & N)] F IH]; cbn [map]; [reflexivity|]. f_equal; [symmetry; eapply neara_pat; eassumption|exact IH].
  - intros j r k x. induction H4 as [|[k0 a] [k' a'] l l' [E (B & N)] F IH]; cbn [dict_get]; [discriminate|]. cbn in E. subst k'.
    destruct (Z.eqb_spec j k0) as [->|NE]; [|exact IH]. intros Hx. cbn in N.
    assert (K : near (err (Z.to_nat k0)) B (nth k (nth r a []) NaN) (nth k (nth r a' []) NaN)).
    { apply Forall2_nth; [|now left]. apply (Forall2_nth (nearc (err (Z.to_nat k0)) B)); [exact N|constructor]. }
    destruct K as [[K _]|(p & q & K1 & K2 & K3 & _)]; [discriminate (eq_trans (eq_sym Hx) K)|]. assert (Q := eq_trans (eq_sym Hx) K1). injection Q as ->. exists q. split; trivial.
Qed.

(** ** The two loops *)
Section Run.
Variables (M : machine) (u v eta : R) (hi lo : list R) (norm gam X : R).
Hypothesis U0 : 0 <= u.
Hypothesis V0 : 0 <= v.
Hypothesis E0 : 0 <= eta.
Hypothesis X0 : 0 <= X.
Hypothesis HM : accurate u v eta M.
Hypothesis Hh : (1 <= length hi)%nat.
Hypothesis Hl : length lo = length hi.
Let ae := approx_err u eta (length hi) (norm1 lo) X.
Let de := detail_err u eta (length hi) (norm1 lo) (norm1 hi) X.
Let ce := coef_err u v eta (length hi) (norm1 lo) (norm1 hi) X norm gam.
Let le := lead_err u v eta (length hi) (norm1 lo) (norm1 hi) X norm gam.
Lemma norm1_nonneg h : 0 <= norm1 h.
Proof using. unfold norm1. rewrite <- (map_id h) at 1. rewrite map_map. apply Rsum_map_nonneg. intros. apply Rabs_pos. Qed.
Lemma ae_nonneg j : 0 <= ae j.
Proof using U0 E0 X0 Hh.
  unfold ae. induction j as [|j IH]; cbn [approx_err]; [lra|]. assert (G := growth_ge1 u U0 (length hi)). assert (A := norm1_nonneg lo).
  assert (P : 0 <= norm1 lo ^ S j) by now apply pow_le. unfold underflow. apply le_INR in Hh. cbn in Hh.
  repeat apply Rplus_le_le_0_compat; repeat apply Rmult_le_pos; try lra; try (apply pow_le; trivial); trivial.
Qed.
Lemma size_nonneg j : 0 <= norm1 lo ^ j * X.
Proof using X0. apply Rmult_le_pos; trivial. apply pow_le, norm1_nonneg. Qed.
Lemma de_nonneg j : 0 <= de j.
Proof using U0 E0 X0 Hh.
  unfold de, detail_err. assert (G := growth_ge1 u U0 (length hi)). assert (A := norm1_nonneg hi). assert (B := ae_nonneg (j - 1)).
  assert (P := size_nonneg (j - 1)). unfold ae in B. unfold underflow. apply le_INR in Hh. cbn in Hh.
  rewrite (Rmult_assoc (norm1 hi)).
  repeat apply Rplus_le_le_0_compat; repeat apply Rmult_le_pos; try lra; try apply pow_le, norm1_nonneg.
Qed.
Lemma step_lo j : step_err u eta lo (ae j) (norm1 lo ^ j * X) = ae (S j).
Proof using Hl. unfold step_err, ae. rewrite Hl. cbn [approx_err pow]. ring. Qed.
Lemma step_hi j : (1 <= j)%nat -> step_err u eta hi (ae (j - 1)) (norm1 lo ^ (j - 1) * X) = de j.
Proof using. intros. unfold step_err, de, detail_err, ae. ring. Qed.
(** one scale: computed details and approximations *)
Lemma one_scale j a a' : (1 <= j)%nat -> neara (ae (j - 1)) (norm1 lo ^ (j - 1) * X) a a' ->
  let s := Z.of_nat j in
  let da := filtering_arr a hi lo in let da' := filtering_arr_f (fun b => m_dot M b s) a' hi lo in
  (exists B, neara (ce j) B (map (rescale norm gam s) (fst da)) (map (rescale_f M norm gam s) (fst da'))) /\
  neara (ae j) (norm1 lo ^ j * X) (snd da) (snd da').
Proof using U0 V0 E0 X0 HM Hh Hl.
  intros Hj H s da da'.
  assert (HD : forall b r i l, l <> [] -> dot_to M l (m_dot M b s r i l)) by (destruct HM as (_ & _ & _ & D & _); intros; now apply D).
  destruct (near_filtering_arr M u v eta U0 E0 HM _ _ a a' hi lo (fun b => m_dot M b s) (ae_nonneg (j - 1)) (size_nonneg (j - 1)) Hh ltac:(lia) HD H) as [N1 N2].
  rewrite step_hi in N1 by trivial. rewrite step_lo in N2. replace (S (j - 1)) with j in N2 by lia. split.
  - eexists. apply (Forall2_map2 (nearc (de j) (norm1 hi * (norm1 lo ^ (j - 1) * X)))); [exact N1|]. intros c c' K.
    assert (Q := near_rescale M u v eta U0 V0 E0 HM norm gam s _ _ c c' (de_nonneg j) K).
    eapply nearc_weaken; [|apply Rle_refl|exact Q]. apply Req_le. unfold resc_err, ce, coef_err, kk, s. rewrite <- INR_IZR_INZ. fold (de j). ring.
  - replace (norm1 lo ^ j * X) with (norm1 lo * (norm1 lo ^ (j - 1) * X)); [exact N2|]. replace j with (S (j - 1)) at 2 by lia. cbn [pow]. ring.
Qed.
Lemma coef_sim n j ml a a' m m' : (1 <= j)%nat -> neara (ae (j - 1)) (norm1 lo ^ (j - 1) * X) a a' -> mrel ce m m' ->
  sim (fun p q => mrel ce (fst p) (fst q) /\ snd p = snd q) (coef_loop hi lo norm gam n (Z.of_nat j) ml a m) (coef_loop_f M hi lo norm gam n (Z.of_nat j) ml a' m').
Proof using U0 V0 E0 X0 HM Hh Hl.
  revert j a a' m m'. induction n as [|n IH]; intros j a a' m m' Hj Ha Hm; [cbn; auto|]. cbn [coef_loop coef_loop_f].
  destruct (Req_EM_T norm 0); [reflexivity|]. destruct (one_scale j a a' Hj Ha) as ((B & N1) & N2). cbv zeta in N1, N2.
  rewrite <- (near_min_count _ _ _ _ N1). destruct (min_count _) as [c|err]; [|reflexivity]. cbn [bind].
  destruct (Nat.ltb c 3); [cbn; auto|]. replace (Z.of_nat j + 1)%Z with (Z.of_nat (S j)) by lia. apply IH; [lia| |].
  - replace (S j - 1)%nat with j by lia. exact N2.
  - eapply mrel_add; [exact Hm|]. rewrite Nat2Z.id. exact N1.
Qed.
Lemma le_mono j : le (j - 1) <= le j.
Proof using. destruct j as [|j]; [cbn; lra|]. rewrite Nat.sub_succ, Nat.sub_0_r. apply Rmax_l. Qed.
Lemma le_ce j : (1 <= j)%nat -> ce j <= le j.
Proof using. intros Hj. destruct j as [|j]; [inversion Hj|]. apply Rmax_r. Qed.
Lemma nearoa_weaken e B e' B' x y : e <= e' -> B <= B' -> nearoa e B x y -> nearoa e' B' x y.
Proof using. intros H1 H2. destruct x, y; cbn; trivial. now apply neara_weaken. Qed.
Lemma leader_sim n j ml a a' sv sv' mc mc' q q' : (1 <= j)%nat -> neara (ae (j - 1)) (norm1 lo ^ (j - 1) * X) a a' ->
  (exists B, nearoa (le (j - 1)) B sv sv') -> mrel ce mc mc' -> mrel le q q' ->
  sim (fun p q => mrel ce (fst (fst p)) (fst (fst q)) /\ mrel le (snd (fst p)) (snd (fst q)) /\ snd p = snd q)
    (leader_loop hi lo norm gam WaveletLeader PInfty n (Z.of_nat j) ml a sv mc q) (leader_loop_f M hi lo norm gam n (Z.of_nat j) ml a' sv' mc' q').
Proof using U0 V0 E0 X0 HM Hh Hl.
  revert j a a' sv sv' mc mc' q q'. induction n as [|n IH]; intros j a a' sv sv' mc mc' q q' Hj Ha [Bs Hs] Hm Hq; [cbn; auto|]. cbn [leader_loop leader_loop_f].
  destruct (Req_EM_T norm 0); [reflexivity|]. destruct (one_scale j a a' Hj Ha) as ((B & N1) & N2). cbv zeta in N1, N2.
  rewrite <- (near_min_count _ _ _ _ N1). destruct (min_count _) as [c|err]; [|reflexivity]. cbn [bind].
  destruct (Nat.ltb c 3); [cbn; auto|].
  set (D := map (rescale norm gam (Z.of_nat j)) _) in *. set (D' := map (rescale_f M norm gam (Z.of_nat j)) _) in *.
  assert (W1 : neara (le j) (Rmax B Bs) D D') by (eapply neara_weaken; [|apply Rmax_l|exact N1]; now apply le_ce).
  assert (W2 : nearoa (le j) (Rmax B Bs) sv sv') by (eapply nearoa_weaken; [apply le_mono|apply Rmax_r|exact Hs]).
  assert (HL := near_leaders_arr _ _ _ _ _ _ (Z.of_nat j) W1 W2).
  eapply sim_bind; [exact HL|]. intros [l s] [l' s'] [K1 K2]. cbn [fst snd] in K1, K2.
  rewrite <- (near_min_count _ _ _ _ K1). destruct (min_count _) as [c'|err]; [|reflexivity]. cbn [bind].
  assert (MC : mrel ce (add_values mc D (Z.of_nat j)) (add_values mc' D' (Z.of_nat j))) by (eapply mrel_add; [exact Hm|]; rewrite Nat2Z.id; exact N1).
  destruct (Nat.ltb c' 3); [cbn; auto|].
  replace (Z.of_nat j + 1)%Z with (Z.of_nat (S j)) by lia. apply IH; [lia| | |exact MC|].
  - replace (S j - 1)%nat with j by lia. exact N2.
  - exists (Rmax B Bs). replace (S j - 1)%nat with j by lia. exact K2.
  - eapply mrel_add; [exact Hq|]. rewrite Nat2Z.id. exact K1.
Qed.
End Run.

(** ** The theorems *)
Definition samples_within (X : R) (signal : arr) : Prop := forall c x, In c signal -> In x c -> x = NaN \/ exists a, x = Fin a /\ Rabs a <= X.
Lemma signal_near X signal : samples_within X signal -> neara 0 X signal signal.
Proof.
  intros H. unfold neara. induction signal as [|c l IH]; constructor; [|apply IH; intros c' x Hc; apply H; now right].
  assert (K : forall x, In x c -> x = NaN \/ exists a, x = Fin a /\ Rabs a <= X) by (intros x; apply H; now left). clear - K. unfold nearc.
  induction c as [|x c IH]; constructor; [|apply IH; intros; apply K; now right].
  destruct (K x (or_introl eq_refl)) as [->|(a & -> & Ha)]; [now left|]. right. exists a, a. rewrite Rminus_diag_eq, Rabs_R0 by reflexivity. auto with real.
Qed.
Lemma norm1_neg h : norm1 (map (fun t => -1 * t) h) = norm1 h.
Proof. unfold norm1. rewrite map_map. f_equal. apply map_ext. intros t. rewrite Rabs_mult. replace (-1) with (- (1)) by ring. rewrite Rabs_Ropp, Rabs_R1. ring. Qed.

(** every scale, count and missing value is the same, and each number is within the bound of the exact one *)
Definition rounded_close (u v eta X : R) (w : wavelet) (norm gam : R) (t t' : wtransform) : Prop :=
  j2_eff t' = j2_eff t /\
  computed_within (coef_bound u v eta X w norm gam) (wt_coefs t) (wt_coefs t') /\
  match wt_leaders t, wt_leaders t' with
  | Some l, Some l' => computed_within (lead_bound u v eta X w norm gam) l l'
  | None, None => True
  | _, _ => False
  end.
Theorem C92_rounded_transform M u v eta X w signal (leaders : bool) j1 j2 gam norm weighted :
  0 <= u -> 0 <= v -> 0 <= eta -> 0 <= X -> accurate u v eta M -> good_wavelet w -> samples_within X signal ->
  match wavelet_analysis signal (if leaders then PInfty else PNone) w j1 j2 gam norm weighted with
  | Ok (t, ws) => exists t', wavelet_analysis_f M signal leaders w j2 gam norm = Ok (t', ws) /\ rounded_close u v eta X w norm gam t t'
  | Err e => wavelet_analysis_f M signal leaders w j2 gam norm = Err e
  end.
Proof.
  intros U0 V0 E0 X0 HM [Hh Hl] HS. assert (N0 := signal_near X signal HS).
  unfold wavelet_analysis, wavelet_analysis_f. set (hi := map (fun t => -1 * t) (dec_hi w)). set (lo := dec_lo w).
  assert (Lh : length hi = length (dec_hi w)) by apply map_length. assert (L1 : (1 <= length hi)%nat) by lia. assert (L2 : length lo = length hi) by (unfold lo; lia).
  destruct (decomposition_level_warn _ _ _) as [[ml ws]|e]; [|reflexivity]. cbn [bind].
  assert (NA : neara (approx_err u eta (length hi) (norm1 lo) X (1 - 1)%nat) (norm1 lo ^ (1 - 1)%nat * X) signal signal) by (cbn; rewrite Rmult_1_l; exact N0).
  assert (M0 : forall (err : nat -> R) f, mrel err (new_mrq f gam) (new_mrq f gam)) by (intros; repeat split; constructor).
  destruct leaders.
  - assert (K := leader_sim M u v eta hi lo norm gam X U0 V0 E0 X0 HM L1 L2 (Z.to_nat ml) 1 ml signal signal None None _ _ _ _ (le_n 1) NA
                   (ex_intro _ 0 I) (M0 _ WaveletCoef) (M0 _ WaveletLeader)). cbn [check_formalism]. change (Z.of_nat 1) with 1%Z in K.
    destruct (leader_loop _ _ _ _ _ _ _ _ _ _ _ _ _) as [[[mc q] m2]|e], (leader_loop_f _ _ _ _ _ _ _ _ _ _ _ _) as [[[mc' q'] m2']|e']; cbn [sim] in K; try contradiction; [|subst; reflexivity].
    cbn [bind fst snd] in *. destruct K as (K1 & K2 & ->). eexists. split; [reflexivity|]. unfold rounded_close. cbn [j2_eff wt_coefs wt_leaders].
    split; [reflexivity|]. apply mrel_within in K1. apply mrel_within in K2. unfold coef_bound, lead_bound. rewrite <- Lh, <- (norm1_neg (dec_hi w)). split; assumption.
  - assert (K := coef_sim M u v eta hi lo norm gam X U0 V0 E0 X0 HM L1 L2 (Z.to_nat ml) 1 ml signal signal _ _ (le_n 1) NA (M0 _ WaveletCoef)).
    change (Z.of_nat 1) with 1%Z in K. unfold wavelet_coef_analysis.
    destruct (coef_loop _ _ _ _ _ _ _ _ _) as [[mc m2]|e], (coef_loop_f _ _ _ _ _ _ _ _ _ _) as [[mc' m2']|e']; cbn [sim] in K; try contradiction; [|subst; reflexivity].
    cbn [bind fst snd] in *. destruct K as (K1 & ->). eexists. split; [reflexivity|]. unfold rounded_close. cbn [j2_eff wt_coefs wt_leaders].
    split; [reflexivity|]. apply mrel_within in K1. unfold coef_bound. rewrite <- Lh, <- (norm1_neg (dec_hi w)). split; [assumption|exact I].
Qed.

(** without underflow the bound is a relative one: the largest possible coefficient at scale j times (1+u)^(Lj+2) (1+v)^2 - 1 *)
Theorem C92_no_underflow u v X w norm gam j : (1 <= j)%nat ->
  coef_bound u v 0 X w norm gam j
  = Rpower 2 (INR j * (1 / 2 - 1 / norm)) * Rpower 2 (gam * INR j) * (norm1 (dec_hi w) * norm1 (dec_lo w) ^ (j - 1) * X)
    * ((1 + u) ^ (length (dec_hi w) * j + 2) * (1 + v) ^ 2 - 1).
Proof.
  intros Hj. unfold coef_bound, coef_err, detail_err, underflow. set (L := length (dec_hi w)). set (A := norm1 (dec_lo w)). set (H := norm1 (dec_hi w)).
  assert (E : forall n, approx_err u 0 L A X n = (growth u L ^ n - 1) * (A ^ n * X)).
  { induction n as [|n IH]; cbn [approx_err pow]; [ring|]. rewrite IH. unfold underflow. ring. }
  rewrite E. unfold growth. rewrite pow_add, pow_mult. destruct j as [|j]; [lia|]. rewrite Nat.sub_succ, Nat.sub_0_r. cbn [pow]. ring.
Qed.
