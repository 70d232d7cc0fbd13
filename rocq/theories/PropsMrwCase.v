(** * C120: two independent Gaussian noises, and concrete cases *)
From Coq Require Import Reals List ZArith Bool Lra Lia String.
From Verif Require Import XReal PyBase ModelSimul Spec SpecSimul LXReal LBase LDft LSimul LMrw LWick LGaussLimit PropsMrw PropsFluct PropsMrwStat.
Import ListNotations.
Open Scope R_scope.
Local Notation length := List.length.

(** ** Coordinates: which of the two noises, realisation, position, real or imaginary part *)
Definition coord : Type := (bool * (nat * nat * bool))%type.
Definition coord_dec (i j : coord) : {i = j} + {i <> j}.
Proof. decide equality; [|apply bool_dec]. decide equality; [apply bool_dec|]. decide equality; apply Nat.eq_dec. Defined.
Definition coords (Rn n : nat) : list coord := nodup coord_dec (list_prod [false; true] (list_prod (list_prod (seq 0 Rn) (seq 0 n)) [false; true])).
Lemma coords_in Rn n s i : cidx Rn n i -> In (s, i) (coords Rn n).
Proof.
  destruct i as [[r k] b]. intros [H1 H2]. cbn [fst snd] in *. unfold coords. rewrite nodup_In. apply in_prod; [destruct s; cbn; auto|].
  apply in_prod; [|destruct b; cbn; auto]. apply in_prod; apply in_seq; lia.
Qed.
Definition part (s : bool) (Rn n : nat) (w : coord -> R) : list (list (R * R)) :=
  map (fun r => map (fun k => (w (s, (r, k, false)), w (s, (r, k, true)))) (seq 0 n)) (seq 0 Rn).
Lemma part_shaped s Rn n w : shaped Rn n (part s Rn n w).
Proof. unfold part. split; [now rewrite map_length, seq_length|]. rewrite Forall_map. apply Forall_forall. intros r _. now rewrite map_length, seq_length. Qed.
Lemma part_var s Rn n i w : cidx Rn n i -> cvar (part s Rn n) i w = w (s, i).
Proof.
  destruct i as [[r k] b]. intros [H1 H2]. cbn [fst snd] in *. unfold cvar, entry, part. cbn [fst snd].
  rewrite (nth_map_lt _ _ _ 0%nat) by (now rewrite seq_length). rewrite seq_nth by trivial. rewrite (nth_map_lt _ _ _ 0%nat) by (now rewrite seq_length). rewrite seq_nth by trivial. now destruct b.
Qed.

Section Two.
Context (Rn n : nat).
Notation cs := (coords Rn n).
Notation P := (gauss coord_dec cs).
Notation lin := (@lin coord).
Notation coef := (coef coord_dec).
Notation norm2 := (norm2 coord_dec cs).
(** a combination of the variables of noise s is a linear form in its coordinates *)
Lemma comb_lin s f : combination (cidx Rn n) (cvar (part s Rn n)) f -> exists l, (forall p, In p l -> fst (snd p) = s) /\ forall w, f w = lin l w.
Proof.
  intros (l & Hl & Hf). exists (map (fun p => (fst p, (s, snd p))) l). split.
  - intros p Hp. apply in_map_iff in Hp. destruct Hp as (q & <- & _). reflexivity.
  - intros w. rewrite Hf. unfold LGaussLimit.lin. rewrite map_map. f_equal. apply map_ext_in. intros p Hp. cbn [fst snd]. now rewrite part_var by (now apply Hl).
Qed.
Lemma coef_other s l c : (forall p, In p l -> fst (snd p) = s) -> fst c <> s -> coef l c = 0.
Proof.
  intros Hl Hc. unfold LGaussLimit.coef. induction l as [|p l IH]; [reflexivity|]. cbn [map]. change (Rsum (?a :: ?m)) with (a + Rsum m). rewrite IH by (intros q Hq; apply Hl; now right).
  match goal with |- context [if ?d then _ else _] => destruct d as [e|_] end; [|ring]. exfalso. apply Hc. rewrite <- e. apply Hl. now left.
Qed.
Definition pairing (f g : list (R * coord)) : R := Rsum (map (fun c => coef f c * coef g c) cs).
Lemma lin_app f g w : lin (f ++ g) w = lin f w + lin g w.
Proof. unfold LGaussLimit.lin. now rewrite map_app, Rsum_app. Qed.
Lemma coef_app f g c : coef (f ++ g) c = coef f c + coef g c.
Proof. unfold LGaussLimit.coef. now rewrite map_app, Rsum_app. Qed.
Lemma norm2_app f g : norm2 (f ++ g) = norm2 f + 2 * pairing f g + norm2 g.
Proof.
  unfold LGaussLimit.norm2, pairing. induction cs as [|c l IH]; [unfold Rsum; cbn; ring|]. cbn [map]. repeat change (Rsum (?a :: ?m)) with (a + Rsum m). rewrite IH.
  rewrite coef_app. ring.
Qed.
Lemma sum_delta (v : coord -> R) i l : NoDup l -> In i l -> Rsum (map (fun c => if coord_dec i c then v c else 0) l) = v i.
Proof.
  induction l as [|a l IH]; intros ND Hi; [contradiction|]. inversion ND; subst. cbn [map]. change (Rsum (?a :: ?m)) with (a + Rsum m). destruct (coord_dec i a) as [->|ne].
  - replace (Rsum (map (fun c => if coord_dec a c then v c else 0) l)) with 0; [ring|]. symmetry. rewrite (map_ext_in _ (fun _ => 0)).
    + clear. induction l as [|b l IH]; [reflexivity|]. cbn [map]. change (Rsum (?a :: ?m)) with (a + Rsum m). rewrite IH. ring.
    + intros c Hc. destruct (coord_dec a c) as [->|_]; [contradiction|reflexivity].
  - destruct Hi as [->|Hi]; [now elim ne|]. rewrite IH by trivial. ring.
Qed.
Lemma pairing_unit i j : In i cs -> pairing [(1, i)] [(1, j)] = if coord_dec i j then 1 else 0.
Proof.
  intros Hi. unfold pairing. rewrite (map_ext _ (fun c => if coord_dec i c then (if coord_dec j c then 1 else 0) else 0)).
  - rewrite sum_delta by (trivial; apply NoDup_nodup). destruct (coord_dec i j), (coord_dec j i); congruence.
  - intros c. unfold LGaussLimit.coef, Rsum. cbn [map fold_right fst snd]. repeat match goal with |- context [if ?d then _ else _] => destruct d end; ring.
Qed.
Lemma norm2_pairing f : norm2 f = pairing f f.
Proof. unfold LGaussLimit.norm2, pairing. f_equal. apply map_ext. intros; ring. Qed.
Lemma lin_E f : integrable P (lin f) /\ E P (lin f) = 0.
Proof.
  destruct (pow_E coord_dec cs f 1 ltac:(lia)) as [I V]. assert (G : forall w, lin f w ^ 1 = lin f w) by (intros; ring). split; [exact (int_ext _ _ _ _ G I)|]. now rewrite <- (E_ext _ _ _ _ G), V.
Qed.
Lemma lin2_E f g : integrable P (fun w => lin f w * lin g w) /\ E P (fun w => lin f w * lin g w) = pairing f g.
Proof.
  destruct (pow_E coord_dec cs (f ++ g) 2 ltac:(lia)) as [I V]. destruct (pow_E coord_dec cs f 2 ltac:(lia)) as [I1 V1]. destruct (pow_E coord_dec cs g 2 ltac:(lia)) as [I2 V2]. cbn [mom] in *.
  assert (G : forall w, / 2 * lin (f ++ g) w ^ 2 + (- / 2 * lin f w ^ 2 + - / 2 * lin g w ^ 2) = lin f w * lin g w) by (intros; rewrite lin_app; field).
  assert (J := int_scal _ P (/ 2) _ I). assert (J1 := int_scal _ P (- / 2) _ I1). assert (J2 := int_scal _ P (- / 2) _ I2). cbv beta in *. assert (K := int_plus _ P _ _ J1 J2). cbv beta in K.
  split; [apply (int_ext _ P _ _ G); now apply int_plus|]. rewrite <- (E_ext _ P _ _ G), (E_plus _ P _ _ J K), (E_plus _ P _ _ J1 J2), (E_scal _ P _ _ I), (E_scal _ P _ _ I1), (E_scal _ P _ _ I2), V, V1, V2, norm2_app. field.
Qed.
Lemma part_white s : white_complex P Rn n (part s Rn n).
Proof.
  split; [apply part_shaped|]. assert (U : forall i w, cidx Rn n i -> lin [(1, (s, i))] w = cvar (part s Rn n) i w).
  { intros i w Hi. rewrite part_var by trivial. unfold LGaussLimit.lin, Rsum. cbn [map fold_right fst snd]. ring. }
  split.
  - intros i Hi. destruct (lin_E [(1, (s, i))]) as [I V]. split; [exact (int_ext _ _ _ _ (fun w => U i w Hi) I)|]. exact (eq_trans (eq_sym (E_ext _ _ _ _ (fun w => U i w Hi))) V).
  - intros i j Hi Hj. destruct (lin2_E [(1, (s, i))] [(1, (s, j))]) as [I V]. rewrite pairing_unit in V by (now apply coords_in).
    assert (G : forall w, lin [(1, (s, i))] w * lin [(1, (s, j))] w = cvar (part s Rn n) i w * cvar (part s Rn n) j w) by (intros w; now rewrite !U).
    assert (EV := E_ext _ P _ _ G). split; [exact (int_ext _ _ _ _ G I)|].
    split; intros Q; (etransitivity; [exact (eq_sym EV)|]); rewrite V.
    + subst j. destruct (coord_dec _ _); [reflexivity|congruence].
    + destruct (coord_dec _ _); [congruence|reflexivity].
Qed.
Lemma two_gaussian : gaussian_pair P Rn n (part false Rn n) (part true Rn n).
Proof.
  split; [split; [apply part_white|]|split; [apply part_white|split]].
  - intros f Hf. destruct (comb_lin _ _ Hf) as (l & _ & Hl). destruct (pow_E coord_dec cs l 4 ltac:(lia)) as [I V]. destruct (pow_E coord_dec cs l 2 ltac:(lia)) as [_ V2]. cbn [mom] in *.
    split; [apply (int_ext _ P (fun w => lin l w ^ 4)); [intros w; now rewrite Hl|exact I]|].
    rewrite (E_ext _ P _ (fun w => lin l w ^ 4)) by (intros w; now rewrite Hl). rewrite (E_ext _ P (fun w => f w ^ 2) (fun w => lin l w ^ 2)) by (intros w; now rewrite Hl). rewrite V, V2. ring.
  - intros f Hf. destruct (comb_lin _ _ Hf) as (l & _ & Hl). destruct (exp_lin_E coord_dec cs l) as [I V]. destruct (pow_E coord_dec cs l 2 ltac:(lia)) as [_ V2]. cbn [mom] in *.
    split; [apply (int_ext _ P (fun w => exp (lin l w))); [intros w; now rewrite Hl|exact I]|].
    rewrite (E_ext _ P _ (fun w => exp (lin l w))) by (intros w; now rewrite Hl). rewrite (E_ext _ P (fun w => f w ^ 2) (fun w => lin l w ^ 2)) by (intros w; now rewrite Hl). rewrite V, V2. f_equal. field.
  - intros f g k Hk Hf Hg. destruct (comb_lin _ _ Hf) as (l & Sl & Hl). destruct (comb_lin _ _ Hg) as (m & Sm & Hm).
    assert (D : forall c, coef l c = 0 \/ coef m c = 0).
    { intros c. destruct (bool_dec (fst c) false) as [e|ne]; [right|left]. - apply (coef_other true); [trivial|congruence]. - apply (coef_other false); trivial. }
    destruct (joint_E coord_dec cs l m k Hk D) as [I V]. destruct (pow_E coord_dec cs l k Hk) as [_ Vp]. destruct (exp_lin_E coord_dec cs m) as [_ Ve].
    split; [apply (int_ext _ P (fun w => lin l w ^ k * exp (lin m w))); [intros w; now rewrite Hl, Hm|exact I]|].
    rewrite (E_ext _ P _ (fun w => lin l w ^ k * exp (lin m w))) by (intros w; now rewrite Hl, Hm). rewrite (E_ext _ P (fun w => f w ^ k) (fun w => lin l w ^ k)) by (intros w; now rewrite Hl). rewrite (E_ext _ P (fun w => exp (g w)) (fun w => exp (lin m w))) by (intros w; now rewrite Hm). now rewrite V, Vp, Ve.
Qed.
End Two.

(** for every shape there is a genuine (positive) expectation for which the two arrays drawn are independent complex Gaussian noises *)
Theorem C120_noise_exists Rn n : exists W (P : expectation W) (drawn_w drawn_e : W -> noise), positive P /\ gaussian_pair P Rn n (fun o => nz (drawn_e o)) (fun o => nz (pick None (drawn_w o))).
Proof.
  exists (coord -> R), (gauss coord_dec (coords Rn n)), (fun w => mkNoise (part true Rn n w) []), (fun w => mkNoise (part false Rn n w) []).
  split; [apply gauss_positive|]. cbn [nz pick]. apply two_gaussian.
Qed.
(** a Brownian walk of 64 samples with intermittency 1/2 and integral scale 4, nominal variance of the increments 9/64: the expectation of the square of the first increment is larger, at least 9/64 * 4^(1/8) *)
Theorem C120_case : exists W (P : expectation W) (drawn_w drawn_e : W -> noise) X, positive P /\
  simulated X (SInt 64) (1 / 2) (1 / 2) 4 3 (fun _ => None) (fun _ => None) drawn_w drawn_e /\
  9 / 64 < 9 / 64 * Rpower 4 (1 / 8) <= E P (fun w => increment (nth 0 (X w) []) 0 ^ 2) /\
  E P (fun w => increment (nth 0 (X w) []) 0 * increment (nth 0 (X w) []) 1) = 0.
Proof.
  destruct (C120_noise_exists 1 126) as (W & P & dw & de & HP & HG).
  assert (I64 : INR 64 = 64) by (now rewrite INR_IZR_INZ).
  destruct (C120_increments W P (SInt 64) 64 (1 / 2) (1 / 2) 4 3 (fun _ => None) (fun _ => None) dw de eq_refl ltac:(lia) ltac:(lra) ltac:(lra) ltac:(lra) HG) as (X & EX & SX & _).
  assert (HX : simulated X (SInt 64) (1 / 2) (1 / 2) 4 3 (fun _ => None) (fun _ => None) dw de) by (split; [exact EX|exact SX]).
  exists W, P, dw, de, X. split; [trivial|]. split; [trivial|]. split.
  - assert (K := C120_sigma_refuted W P (SInt 64) 64 (1 / 2) (1 / 2) 4 3 (fun _ => None) (fun _ => None) dw de X eq_refl ltac:(lia) ltac:(lra) ltac:(lra) ltac:(lra) ltac:(lra) ltac:(lra) HG HX 0%nat 0%nat ltac:(cbn; lia) ltac:(lia)).
    replace (2 * (1 / 2)) with 1 in K by field. rewrite Rpower_1 in K by (rewrite I64; lra). rewrite I64 in K. replace (3 ^ 2 * / 64) with (9 / 64) in K by field. replace ((1 / 2) ^ 2 / 2) with (1 / 8) in K by field. exact K.
  - now apply (C120_uncorrelated W P (SInt 64) 64 (1 / 2) 4 3 (fun _ => None) (fun _ => None) dw de X eq_refl ltac:(lia) ltac:(lra) ltac:(lra) HG HX 0%nat 0%nat 1%nat); cbn; try lia.
Qed.
Print Assumptions C120_case.
