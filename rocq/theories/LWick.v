(** * Fourth-order properties of Gaussian noise, and fluctuations of mean squares *)
From Coq Require Import Reals List ZArith Bool Lra Lia.
From Verif Require Import XReal PyBase Spec SpecSimul LXReal LDft LSimul.
Import ListNotations.
Open Scope R_scope.
Local Notation length := List.length.

(** ** Specification *)
(** finite linear combinations of a family of random variables *)
Definition combination {W I} (idx : I -> Prop) (z : I -> W -> R) (f : W -> R) : Prop :=
  exists l : list (R * I), (forall p, In p l -> idx (snd p)) /\ forall w, f w = Rsum (map (fun p => fst p * z (snd p) w) l).
(** every linear combination has the fourth moment of a centred Gaussian variable of its variance *)
Definition gaussian4 {W I} (P : expectation W) (idx : I -> Prop) (z : I -> W -> R) : Prop :=
  forall f, combination idx z f -> integrable P (fun w => f w ^ 4) /\ E P (fun w => f w ^ 4) = 3 * E P (fun w => f w ^ 2) ^ 2.
(** complex Gaussian noise of shape (n, R), as far as moments of order at most four are concerned *)
Definition cidx (R n : nat) (i : nat * nat * bool) : Prop := (fst (fst i) < R)%nat /\ (snd (fst i) < n)%nat.
Definition cvar {W} (z : W -> list (list (R * R))) (i : nat * nat * bool) (w : W) : R :=
  let c := entry (0, 0) (z w) (fst (fst i)) (snd (fst i)) in if snd i then snd c else fst c.
Definition gaussian_complex {W} (P : expectation W) (R n : nat) (z : W -> list (list (Rdefinitions.R * Rdefinitions.R))) : Prop :=
  white_complex P R n z /\ gaussian4 P (cidx R n) (cvar z).
(** the event A has outer probability at most q: an integrable function above its indicator has expectation at most q *)
Definition prob_at_most {W} (P : expectation W) (A : W -> Prop) (q : R) : Prop :=
  exists f, integrable P f /\ (forall w, 0 <= f w) /\ (forall w, A w -> 1 <= f w) /\ E P f <= q.
Definition positive {W} (P : expectation W) : Prop := forall f, integrable P f -> (forall w, 0 <= f w) -> 0 <= E P f.

(** for a genuine expectation, q bounds the probability of every event inside A that has one *)
Lemma prob_at_most_sound {W} (P : expectation W) (A : W -> Prop) q (g : W -> R) : positive P -> prob_at_most P A q ->
  integrable P g -> (forall w, g w <= 1) -> (forall w, ~ A w -> g w <= 0) -> E P g <= q.
Proof.
  intros Hp (f & If & F0 & FA & Ef) Ig G1 GA. eapply Rle_trans; [|exact Ef].
  assert (K : 0 <= E P (fun w => f w + -1 * g w)).
  { apply Hp; [apply int_plus; [trivial|now apply int_scal]|]. intros w. specialize (F0 w). specialize (G1 w).
    destruct (Rle_lt_dec (g w) 0) as [H|H]; [lra|]. destruct (Rle_lt_dec 1 (f w)) as [L|L]; [lra|]. exfalso. assert (~ A w) by (intros X; specialize (FA w X); lra). specialize (GA w H0). lra. }
  rewrite E_plus, E_scal in K; [lra| | |]; trivial. now apply int_scal.
Qed.
Lemma prob_weaken {W} (P : expectation W) (A B : W -> Prop) p q : (forall w, B w -> A w) -> p <= q -> prob_at_most P A p -> prob_at_most P B q.
Proof. intros AB pq (f & If & F0 & FA & Ef). exists f. split; [trivial|]. split; [trivial|]. split; [auto|lra]. Qed.
Lemma prob_union {W} (P : expectation W) (A B : W -> Prop) p q : prob_at_most P A p -> prob_at_most P B q -> prob_at_most P (fun w => A w \/ B w) (p + q).
Proof.
  intros (f & If & F0 & FA & Ef) (g & Ig & G0 & GA & Eg). exists (fun w => f w + g w). split; [now apply int_plus|].
  split; [intros w; specialize (F0 w); specialize (G0 w); lra|]. split; [|rewrite E_plus by trivial; lra].
  intros w [H|H]; [specialize (FA w H); specialize (G0 w); lra|specialize (GA w H); specialize (F0 w); lra].
Qed.
Lemma prob_never {W} (P : expectation W) (A : W -> Prop) : (forall w, ~ A w) -> prob_at_most P A 0.
Proof. intros H. exists (fun _ => 0). split; [apply int_zero|]. split; [intros; lra|]. split; [intros w X; now apply H in X|]. rewrite E_zero. lra. Qed.
Lemma prob_list {W T} (P : expectation W) (A : T -> W -> Prop) (q : T -> R) l : (forall t, In t l -> prob_at_most P (A t) (q t)) -> prob_at_most P (fun w => exists t, In t l /\ A t w) (Rsum (map q l)).
Proof.
  induction l as [|t l IH]; intros H; [apply prob_never; intros w (t & [] & _)|]. cbn [map]. change (Rsum (q t :: map q l)) with (q t + Rsum (map q l)).
  eapply prob_weaken; [|apply Rle_refl|apply prob_union; [apply (H t); now left|apply IH; intros u Hu; apply H; now right]].
  intros w (u & [<-|Hu] & Au); [now left|right; exists u; now split].
Qed.
(** Chebyshev's inequality *)
Lemma chebyshev {W} (P : expectation W) (f : W -> R) mu v t : 0 < t -> integrable P (fun w => (f w - mu) ^ 2) -> E P (fun w => (f w - mu) ^ 2) <= v -> prob_at_most P (fun w => t <= Rabs (f w - mu)) (v / t ^ 2).
Proof.
  intros Ht If Ef. assert (T2 : 0 < t ^ 2) by (apply pow_lt; lra). assert (I2 : 0 < / t ^ 2) by (now apply Rinv_0_lt_compat).
  exists (fun w => / t ^ 2 * (f w - mu) ^ 2). split; [apply (int_scal W P (/ t ^ 2) (fun w => (f w - mu) ^ 2)); trivial|]. split.
  - intros w. apply Rmult_le_pos; [lra|apply pow2_ge_0].
  - split.
    + intros w Hw. apply Rmult_le_reg_l with (t ^ 2); [trivial|]. rewrite <- Rmult_assoc, Rinv_r, Rmult_1_l, Rmult_1_r by lra.
      rewrite <- (pow2_abs (f w - mu)). apply pow_incr. lra.
    + rewrite (E_scal W P (/ t ^ 2) (fun w => (f w - mu) ^ 2)) by trivial. unfold Rdiv. rewrite Rmult_comm. apply Rmult_le_compat_r; lra.
Qed.

(** ** Linear combinations *)
Section Comb.
Context {W I : Type} (idx : I -> Prop) (z : I -> W -> R).
Local Notation comb := (combination idx z).
Lemma comb_ext f g : (forall w, f w = g w) -> comb f -> comb g.
Proof. intros E (l & A & B). exists l. split; [trivial|]. intros w. now rewrite <- E. Qed.
Lemma comb_zero : comb (fun _ => 0).
Proof. exists []. split; [intros p []|reflexivity]. Qed.
Lemma comb_gen i : idx i -> comb (z i).
Proof. intros Hi. exists [(1, i)]. split; [intros p [<-|[]]; trivial|]. intros w. unfold Rsum. cbn. ring. Qed.
Lemma comb_plus f g : comb f -> comb g -> comb (fun w => f w + g w).
Proof.
  intros (l & A & B) (l' & A' & B'). exists (l ++ l'). split; [intros p Hp; apply in_app_or in Hp as [H|H]; auto|]. intros w. rewrite map_app, B, B'.
  generalize (map (fun p => fst p * z (snd p) w) l'). intros m. unfold Rsum. induction (map (fun p => fst p * z (snd p) w) l) as [|a k IH]; cbn; [ring|]. rewrite <- IH. ring.
Qed.
Lemma comb_scal c f : comb f -> comb (fun w => c * f w).
Proof.
  intros (l & A & B). exists (map (fun p => (c * fst p, snd p)) l). split; [intros p Hp; apply in_map_iff in Hp as (q & <- & Hq); cbn [snd]; exact (A q Hq)|].
  intros w. rewrite B, map_map. unfold Rsum. clear A B. induction l as [|p l IH]; cbn [map fold_right fst snd] in *; [ring|]. rewrite <- IH. ring.
Qed.
Lemma comb_sumn n (f : nat -> W -> R) : (forall i, (i < n)%nat -> comb (f i)) -> comb (fun w => sumn n (fun i => f i w)).
Proof.
  induction n as [|n IH]; intros H; [apply (comb_ext (fun _ => 0)); [reflexivity|apply comb_zero]|].
  apply (comb_ext (fun w => sumn n (fun i => f i w) + f n w)); [intros; now rewrite sumn_S|]. apply comb_plus; auto.
Qed.
Variable P : expectation W.
Hypothesis Hwhite : white P idx z.
Lemma comb_int f : comb f -> integrable P f /\ E P f = 0.
Proof using Hwhite.
  intros (l & A & B). destruct Hwhite as [H1 _].
  assert (G : integrable P (fun w => Rsum (map (fun p => fst p * z (snd p) w) l)) /\ E P (fun w => Rsum (map (fun p => fst p * z (snd p) w) l)) = 0).
  { clear B. induction l as [|p l IH]; [split; [apply int_zero|apply E_zero]|]. destruct (IH (fun q Hq => A q (or_intror Hq))) as [U V]. destruct (H1 (snd p) (A p (or_introl eq_refl))) as [X Y].
    assert (K : forall w, fst p * z (snd p) w + Rsum (map (fun p => fst p * z (snd p) w) l) = Rsum (map (fun p => fst p * z (snd p) w) (p :: l))) by reflexivity.
    split; [apply (int_ext W P _ _ K), int_plus; [now apply int_scal|trivial]|]. rewrite <- (E_ext W P _ _ K), E_plus, E_scal by (trivial; now apply int_scal). rewrite V, Y. ring. }
  split; [apply (int_ext W P (fun w => Rsum (map (fun p => fst p * z (snd p) w) l))); [intros; now rewrite B|apply G]|]. rewrite (E_ext W P _ _ B). apply G.
Qed.
Lemma comb_int2 f g : comb f -> comb g -> integrable P (fun w => f w * g w).
Proof using Hwhite.
  intros (l & A & B) (l' & A' & B'). destruct Hwhite as [_ H2].
  apply (int_ext W P (fun w => Rsum (map (fun p => fst p * z (snd p) w) l) * Rsum (map (fun p => fst p * z (snd p) w) l'))); [intros w; now rewrite B, B'|]. clear f g B B'.
  induction l as [|p l IH]; [apply (int_ext W P (fun _ => 0)); [intros; unfold Rsum; cbn; ring|apply int_zero]|].
  apply (int_ext W P (fun w => fst p * (z (snd p) w * Rsum (map (fun p => fst p * z (snd p) w) l')) + Rsum (map (fun p => fst p * z (snd p) w) l) * Rsum (map (fun p => fst p * z (snd p) w) l')));
    [intros w; unfold Rsum; cbn; ring|].
  apply int_plus; [apply (int_scal W P (fst p) (fun w => z (snd p) w * Rsum (map (fun p => fst p * z (snd p) w) l')))|apply IH; intros q Hq; apply A; now right].
  assert (Hp := A p (or_introl eq_refl)). clear IH A l. induction l' as [|q l' IH]; [apply (int_ext W P (fun _ => 0)); [intros; unfold Rsum; cbn; ring|apply int_zero]|].
  apply (int_ext W P (fun w => fst q * (z (snd p) w * z (snd q) w) + z (snd p) w * Rsum (map (fun p => fst p * z (snd p) w) l'))); [intros w; unfold Rsum; cbn; ring|].
  apply int_plus; [apply (int_scal W P (fst q) (fun w => z (snd p) w * z (snd q) w)); now apply H2, A', in_eq|apply IH; intros u Hu; apply A'; now right].
Qed.
Hypothesis Hgauss : gaussian4 P idx z.
Lemma comb_pow4 f : comb f -> integrable P (fun w => f w ^ 4) /\ E P (fun w => f w ^ 4) = 3 * E P (fun w => f w * f w) ^ 2.
Proof using Hgauss.
  intros Hf. destruct (Hgauss f Hf) as [A B]. split; [exact A|]. rewrite B. do 2 f_equal. apply E_ext. intros w. ring.
Qed.
(** Isserlis' formula *)
Lemma comb_wick a b : comb a -> comb b ->
  integrable P (fun w => a w * a w * (b w * b w)) /\
  E P (fun w => a w * a w * (b w * b w)) = E P (fun w => a w * a w) * E P (fun w => b w * b w) + 2 * E P (fun w => a w * b w) ^ 2.
Proof using Hwhite Hgauss.
  intros Ha Hb. assert (Hp := comb_plus a b Ha Hb). assert (Hm := comb_plus a _ Ha (comb_scal (-1) b Hb)).
  destruct (comb_pow4 a Ha) as [A1 A2]. destruct (comb_pow4 b Hb) as [B1 B2]. destruct (comb_pow4 _ Hp) as [P1 P2]. destruct (comb_pow4 _ Hm) as [M1 M2].
  assert (Iaa := comb_int2 a a Ha Ha). assert (Ibb := comb_int2 b b Hb Hb). assert (Iab := comb_int2 a b Ha Hb).
  assert (EX : forall s, E P (fun w => (a w + s * b w) * (a w + s * b w)) = E P (fun w => a w * a w) + 2 * s * E P (fun w => a w * b w) + s * s * E P (fun w => b w * b w)).
  { intros s. rewrite (E_ext W P _ (fun w => a w * a w + (2 * s * (a w * b w) + s * s * (b w * b w)))) by (intros; ring).
    assert (I1 := int_scal W P (2 * s) _ Iab). assert (I2 := int_scal W P (s * s) _ Ibb). cbv beta in I1, I2.
    rewrite (E_plus W P (fun w => a w * a w) (fun w => 2 * s * (a w * b w) + s * s * (b w * b w)) Iaa (int_plus W P _ _ I1 I2)).
    rewrite (E_plus W P _ _ I1 I2), (E_scal W P _ _ Iab), (E_scal W P _ _ Ibb). ring. }
  rewrite (EX (-1)) in M2.
  assert (P2' : E P (fun w => (a w + b w) ^ 4) = 3 * (E P (fun w => a w * a w) + 2 * 1 * E P (fun w => a w * b w) + 1 * 1 * E P (fun w => b w * b w)) ^ 2).
  { rewrite P2, <- (EX 1). do 2 f_equal. apply E_ext. intros. ring. }
  set (q := fun w => / 12 * ((a w + b w) ^ 4 + (a w + -1 * b w) ^ 4) + - / 6 * (a w ^ 4 + b w ^ 4)).
  assert (G : forall w, q w = a w * a w * (b w * b w)) by (intros w; unfold q; field).
  assert (I1 := int_plus W P _ _ P1 M1). assert (I2 := int_plus W P _ _ A1 B1). cbv beta in I1, I2. assert (J1 := int_scal W P (/ 12) _ I1). assert (J2 := int_scal W P (- / 6) _ I2). cbv beta in J1, J2.
  split; [apply (int_ext W P _ _ G); unfold q; now apply int_plus|]. rewrite <- (E_ext W P _ _ G). unfold q. rewrite (E_plus W P _ _ J1 J2), (E_scal W P _ _ I1), (E_scal W P _ _ I2), (E_plus W P _ _ P1 M1), (E_plus W P _ _ A1 B1).
  rewrite P2', M2, A2, B2. field.
Qed.
(** variance of a sum of squares *)
Lemma sumsq_var K (e : nat -> W -> R) : (forall k, (k < K)%nat -> comb (e k)) ->
  integrable P (fun w => (sumn K (fun k => e k w * e k w) - sumn K (fun k => E P (fun w => e k w * e k w))) ^ 2) /\
  E P (fun w => (sumn K (fun k => e k w * e k w) - sumn K (fun k => E P (fun w => e k w * e k w))) ^ 2)
  = 2 * sumn K (fun k => sumn K (fun l => E P (fun w => e k w * e l w) ^ 2)).
Proof using Hwhite Hgauss.
  intros He. set (v k := E P (fun w => e k w * e k w)).
  destruct (lin_prod P K (fun _ => 1) (fun _ => 1) (fun i w => e i w * e i w - v i) (fun i w => e i w * e i w - v i) (fun i j => 2 * E P (fun w => e i w * e j w) ^ 2)) as [A B].
  { intros i j Hi Hj. destruct (comb_wick (e i) (e j) (He i Hi) (He j Hj)) as [U V]. assert (Ii := comb_int2 _ _ (He i Hi) (He i Hi)). assert (Ij := comb_int2 _ _ (He j Hj) (He j Hj)).
    assert (G : forall w, e i w * e i w * (e j w * e j w) + (- v j * (e i w * e i w) + (- v i * (e j w * e j w) + v i * v j * 1)) = (e i w * e i w - v i) * (e j w * e j w - v j)) by (intros; ring).
    assert (J1 := int_scal W P (- v j) _ Ii). assert (J2 := int_scal W P (- v i) _ Ij). assert (J3 := int_scal W P (v i * v j) _ (int_one W P)). cbv beta in J1, J2, J3.
    assert (K2 := int_plus W P _ _ J2 J3). assert (K1 := int_plus W P _ _ J1 K2). cbv beta in K1, K2.
    split; [apply (int_ext W P _ _ G); now apply int_plus|]. rewrite <- (E_ext W P _ _ G), (E_plus W P _ _ U K1), (E_plus W P _ _ J1 K2), (E_plus W P _ _ J2 J3), (E_scal W P _ _ Ii), (E_scal W P _ _ Ij), (E_scal W P _ _ (int_one W P)), E_one, V.
    unfold v. ring. }
  assert (G : forall w, sumn K (fun i => 1 * (e i w * e i w - v i)) * sumn K (fun j => 1 * (e j w * e j w - v j)) = (sumn K (fun k => e k w * e k w) - sumn K (fun k => v k)) ^ 2).
  { intros w. assert (D : sumn K (fun i => 1 * (e i w * e i w - v i)) = sumn K (fun k => e k w * e k w) - sumn K (fun k => v k)).
    { rewrite (sumn_ext K _ (fun i => e i w * e i w + -1 * v i)) by (intros; ring). rewrite sumn_plus, sumn_scal. change (sumn K (fun i => v i)) with (sumn K v). ring. }
    rewrite D. ring. }
  split; [now apply (int_ext W P _ _ G)|]. etransitivity; [symmetry; apply (E_ext W P _ _ G)|]. rewrite B, <- sumn_scal. apply sumn_ext. intros i _. rewrite <- sumn_scal. apply sumn_ext. intros; ring.
Qed.
End Comb.
