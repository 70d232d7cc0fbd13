(** * Eighth-order properties of Gaussian noise, and fluctuations of mean fourth powers *)
From Coq Require Import Reals List ZArith Bool Lra Lia.
From Verif Require Import XReal PyBase Spec SpecSimul LXReal LDft LSimul LWick.
Import ListNotations.
Open Scope R_scope.
Local Notation length := List.length.

(** ** Specification *)
(** every linear combination has the moments of orders four and eight of a centred Gaussian variable of its variance *)
Definition gaussian8 {W I} (P : expectation W) (idx : I -> Prop) (z : I -> W -> R) : Prop :=
  gaussian4 P idx z /\ forall f, combination idx z f -> integrable P (fun w => f w ^ 8) /\ E P (fun w => f w ^ 8) = 105 * E P (fun w => f w ^ 2) ^ 4.
(** complex Gaussian noise of shape (n, R), as far as moments of order at most eight are concerned *)
Definition gaussian_complex8 {W} (P : expectation W) (R n : nat) (z : W -> list (list (Rdefinitions.R * Rdefinitions.R))) : Prop :=
  white_complex P R n z /\ gaussian8 P (cidx R n) (cvar z).
Lemma gaussian_8_4 {W} (P : expectation W) R n z : gaussian_complex8 P R n z -> gaussian_complex P R n z.
Proof. intros [A [B _]]. now split. Qed.

(** ** The mean of the product of two fourth powers *)
Section Comb.
Context {W I : Type} (idx : I -> Prop) (z : I -> W -> R).
Local Notation comb := (combination idx z).
Variable P : expectation W.
Hypothesis Hwhite : white P idx z.
Hypothesis Hgauss : gaussian8 P idx z.
Lemma comb_pow8 f : comb f -> integrable P (fun w => f w ^ 8) /\ E P (fun w => f w ^ 8) = 105 * E P (fun w => f w * f w) ^ 4.
Proof using Hgauss.
  intros Hf. destruct (proj2 Hgauss f Hf) as [A B]. split; [exact A|]. rewrite B. do 2 f_equal. apply E_ext. intros w. ring.
Qed.
Lemma comb_pow4' f : comb f -> integrable P (fun w => f w ^ 4) /\ E P (fun w => f w ^ 4) = 3 * E P (fun w => f w * f w) ^ 2.
Proof using Hgauss. apply (comb_pow4 idx z P (proj1 Hgauss)). Qed.
Lemma lin2 (f g : W -> R) c d : integrable P f -> integrable P g -> integrable P (fun w => c * f w + d * g w) /\ E P (fun w => c * f w + d * g w) = c * E P f + d * E P g.
Proof using Type.
  intros Hf Hg. assert (I1 := int_scal W P c f Hf). assert (I2 := int_scal W P d g Hg). split; [now apply int_plus|]. now rewrite (E_plus W P _ _ I1 I2), (E_scal W P c f Hf), (E_scal W P d g Hg).
Qed.
Lemma comb_wick4 a b : comb a -> comb b ->
  integrable P (fun w => a w ^ 4 * b w ^ 4) /\
  E P (fun w => a w ^ 4 * b w ^ 4) =
    9 * E P (fun w => a w * a w) ^ 2 * E P (fun w => b w * b w) ^ 2 + 72 * (E P (fun w => a w * a w) * E P (fun w => b w * b w)) * E P (fun w => a w * b w) ^ 2 + 24 * E P (fun w => a w * b w) ^ 4.
Proof using Hwhite Hgauss.
  intros Ha Hb. set (A := E P (fun w => a w * a w)). set (B := E P (fun w => b w * b w)). set (C := E P (fun w => a w * b w)).
  assert (Iaa := comb_int2 idx z P Hwhite a a Ha Ha). assert (Ibb := comb_int2 idx z P Hwhite b b Hb Hb). assert (Iab := comb_int2 idx z P Hwhite a b Ha Hb).
  assert (EX : forall s, integrable P (fun w => (a w + s * b w) ^ 8) /\ E P (fun w => (a w + s * b w) ^ 8) = 105 * (A + 2 * s * C + s ^ 2 * B) ^ 4).
  { intros s. destruct (comb_pow8 _ (comb_plus idx z a _ Ha (comb_scal idx z s b Hb))) as [U V]. split; [exact U|]. rewrite V. do 2 f_equal.
    rewrite (E_ext W P _ (fun w => a w * a w + (2 * s * (a w * b w) + s ^ 2 * (b w * b w)))) by (intros; ring).
    destruct (lin2 _ _ (2 * s) (s ^ 2) Iab Ibb) as [I1 E1]. rewrite (E_plus W P _ _ Iaa I1), E1. unfold A, B, C. ring. }
  destruct (EX 1) as [U1 V1]. destruct (EX (-1)) as [U1' V1']. destruct (EX 2) as [U2 V2]. destruct (EX (-2)) as [U2' V2']. destruct (EX 3) as [U3 V3]. destruct (EX (-3)) as [U3' V3']. clear EX.
  destruct (comb_pow8 a Ha) as [A1 A2]. destruct (comb_pow8 b Hb) as [B1 B2]. fold A in A2. fold B in B2.
  destruct (lin2 _ _ 1 1 U1 U1') as [I1 E1]. destruct (lin2 _ _ 1 1 U2 U2') as [I2 E2]. destruct (lin2 _ _ 1 1 U3 U3') as [I3 E3].
  destruct (lin2 _ _ (- 39 / 10080) (12 / 10080) I1 I2) as [I12 E12]. destruct (lin2 _ _ 1 (- 1 / 10080) I12 I3) as [I123 E123].
  destruct (lin2 _ _ (56 / 10080) (2 * (3 ^ 8 - 12 * 2 ^ 8 + 39) / 10080) A1 B1) as [I4 E4]. destruct (lin2 _ _ 1 1 I123 I4) as [I5 E5].
  match type of I5 with integrable P ?q => assert (G : forall w, q w = a w ^ 4 * b w ^ 4) by (intros w; cbv beta; field) end.
  split; [exact (int_ext W P _ _ G I5)|]. rewrite <- (E_ext W P _ _ G). rewrite E5, E4, E123, E12, E1, E2, E3, V1, V1', V2, V2', V3, V3', A2, B2. field.
Qed.
(** variance of a sum of fourth powers *)
Lemma sum4_var K (e : nat -> W -> R) : (forall k, (k < K)%nat -> comb (e k)) ->
  integrable P (fun w => (sumn K (fun k => e k w ^ 4) - sumn K (fun k => E P (fun w => e k w ^ 4))) ^ 2) /\
  E P (fun w => (sumn K (fun k => e k w ^ 4) - sumn K (fun k => E P (fun w => e k w ^ 4))) ^ 2)
  = sumn K (fun k => sumn K (fun l => 72 * (E P (fun w => e k w * e k w) * E P (fun w => e l w * e l w)) * E P (fun w => e k w * e l w) ^ 2 + 24 * E P (fun w => e k w * e l w) ^ 4)).
Proof using Hwhite Hgauss.
  intros He. set (v k := E P (fun w => e k w ^ 4)).
  destruct (lin_prod P K (fun _ => 1) (fun _ => 1) (fun i w => e i w ^ 4 - v i) (fun i w => e i w ^ 4 - v i)
    (fun k l => 72 * (E P (fun w => e k w * e k w) * E P (fun w => e l w * e l w)) * E P (fun w => e k w * e l w) ^ 2 + 24 * E P (fun w => e k w * e l w) ^ 4)) as [A B].
  { intros i j Hi Hj. destruct (comb_wick4 (e i) (e j) (He i Hi) (He j Hj)) as [U V]. destruct (comb_pow4' _ (He i Hi)) as [Ii Vi]. destruct (comb_pow4' _ (He j Hj)) as [Ij Vj].
    assert (G : forall w, e i w ^ 4 * e j w ^ 4 + (- v j * e i w ^ 4 + (- v i * e j w ^ 4 + v i * v j * 1)) = (e i w ^ 4 - v i) * (e j w ^ 4 - v j)) by (intros; ring).
    assert (J1 := int_scal W P (- v j) _ Ii). assert (J2 := int_scal W P (- v i) _ Ij). assert (J3 := int_scal W P (v i * v j) _ (int_one W P)). cbv beta in J1, J2, J3.
    assert (K2 := int_plus W P _ _ J2 J3). assert (K1 := int_plus W P _ _ J1 K2). cbv beta in K1, K2.
    split; [apply (int_ext W P _ _ G); now apply int_plus|]. rewrite <- (E_ext W P _ _ G), (E_plus W P _ _ U K1), (E_plus W P _ _ J1 K2), (E_plus W P _ _ J2 J3), (E_scal W P _ _ Ii), (E_scal W P _ _ Ij), (E_scal W P _ _ (int_one W P)), E_one, V.
    fold (v i) (v j). unfold v. rewrite Vi, Vj. ring. }
  assert (G : forall w, sumn K (fun i => 1 * (e i w ^ 4 - v i)) * sumn K (fun j => 1 * (e j w ^ 4 - v j)) = (sumn K (fun k => e k w ^ 4) - sumn K (fun k => v k)) ^ 2).
  { intros w. assert (D : sumn K (fun i => 1 * (e i w ^ 4 - v i)) = sumn K (fun k => e k w ^ 4) - sumn K (fun k => v k)).
    { rewrite (sumn_ext K _ (fun i => e i w ^ 4 + -1 * v i)) by (intros; ring). rewrite sumn_plus, sumn_scal. change (sumn K (fun i => v i)) with (sumn K v). ring. }
    rewrite D. ring. }
  split; [now apply (int_ext W P _ _ G)|]. etransitivity; [symmetry; apply (E_ext W P _ _ G)|]. rewrite B. apply sumn_ext. intros i _. apply sumn_ext. intros; ring.
Qed.
End Comb.
