(** * Noise with Gaussian moments up to order four exists: independent three-point variables, for every shape *)
From Coq Require Import Reals List ZArith Bool Lia Lra.
From Verif Require Import XReal PyBase ModelSimul Spec SpecSimul LXReal LDft LSimul LNoise LWick.
Import ListNotations.
Open Scope R_scope.
Local Notation length := List.length.

(** K independent variables equal to - sqrt 3, 0, sqrt 3 with probabilities 1/6, 2/3, 1/6 *)
Definition upd (w : nat -> R) (k : nat) (v : R) (i : nat) : R := if Nat.eqb i k then v else w i.
Fixpoint ex (K : nat) (f : (nat -> R) -> R) : R :=
  match K with
  | O => f (fun _ => 0)
  | S k => 1 / 6 * ex k (fun w => f (upd w k (- sqrt 3))) + 2 / 3 * ex k (fun w => f (upd w k 0)) + 1 / 6 * ex k (fun w => f (upd w k (sqrt 3)))
  end.
Lemma ex_ext K : forall f g, (forall w, f w = g w) -> ex K f = ex K g.
Proof. induction K as [|k IH]; intros f g H; [apply H|]. cbn [ex]. rewrite !(IH (fun w => f _) (fun w => g _)) by (intros; apply H). reflexivity. Qed.
Lemma ex_one K : ex K (fun _ => 1) = 1.
Proof. induction K as [|k IH]; [reflexivity|]. cbn [ex]. rewrite IH. field. Qed.
Lemma ex_plus K : forall f g, ex K (fun w => f w + g w) = ex K f + ex K g.
Proof. induction K as [|k IH]; intros f g; [reflexivity|]. cbn [ex]. rewrite !IH. ring. Qed.
Lemma ex_scal K : forall c f, ex K (fun w => c * f w) = c * ex K f.
Proof. induction K as [|k IH]; intros c f; [reflexivity|]. cbn [ex]. rewrite !IH. ring. Qed.
Lemma ex_pos K : forall f, (forall w, 0 <= f w) -> 0 <= ex K f.
Proof.
  induction K as [|k IH]; intros f H; [apply H|]. cbn [ex]. assert (A := IH (fun w => f (upd w k (- sqrt 3))) (fun w => H _)).
  assert (B := IH (fun w => f (upd w k 0)) (fun w => H _)). assert (C := IH (fun w => f (upd w k (sqrt 3))) (fun w => H _)). lra.
Qed.
Definition three (K : nat) : expectation (nat -> R) :=
  mkE _ (fun _ => True) (ex K) (fun _ _ _ _ => I) (ex_ext K) I (ex_one K) (fun _ _ _ _ => I) (fun f g _ _ => ex_plus K f g) (fun _ _ _ => I) (fun c f _ => ex_scal K c f).
Lemma three_positive K : positive (three K).
Proof. intros f _ H. now apply ex_pos. Qed.

(** ** Moments of a linear form *)
Definition form (K : nat) (a : nat -> R) (w : nat -> R) : R := sumn K (fun i => a i * w i).
Definition norm2 (K : nat) (a : nat -> R) : R := sumn K (fun i => a i ^ 2).
Lemma form_upd k a w v : form (S k) a (upd w k v) = form k a w + a k * v.
Proof.
  unfold form. rewrite sumn_S. f_equal; [|unfold upd; now rewrite Nat.eqb_refl]. apply sumn_ext. intros i Hi. unfold upd. destruct (Nat.eqb_spec i k); [lia|reflexivity].
Qed.
Lemma ex_affine K f g c d : (forall w, f w = c * g w + d) -> ex K f = c * ex K g + d.
Proof.
  intros H. rewrite (ex_ext K f (fun w => c * g w + d * 1)) by (intros; rewrite H; ring). rewrite (ex_plus K (fun w => c * g w) (fun _ => d * 1)), (ex_scal K c g), (ex_scal K d (fun _ => 1)), ex_one. ring.
Qed.
Lemma form_moments a K : ex K (form K a) = 0 /\ ex K (fun w => form K a w ^ 2) = norm2 K a /\ ex K (fun w => form K a w ^ 3) = 0 /\ ex K (fun w => form K a w ^ 4) = 3 * norm2 K a ^ 2.
Proof.
  assert (S3 : sqrt 3 * sqrt 3 = 3) by (apply sqrt_sqrt; lra).
  induction K as [|k (M1 & M2 & M3 & M4)]; [unfold form, norm2; cbn [ex]; rewrite !sumn_0; repeat split; ring|].
  set (Z := form k a) in *. set (c := a k). assert (N : norm2 (S k) a = norm2 k a + c ^ 2) by (unfold norm2; now rewrite sumn_S).
  assert (X1 : forall x, ex k (fun w => form (S k) a (upd w k x)) = c * x).
  { intros x. rewrite (ex_affine k _ Z 1 (c * x)) by (intros w; rewrite form_upd; unfold Z, c; ring). rewrite M1. ring. }
  assert (X2 : forall x, ex k (fun w => form (S k) a (upd w k x) ^ 2) = norm2 k a + (c * x) ^ 2).
  { intros x. rewrite (ex_ext k _ (fun w => Z w ^ 2 + (2 * (c * x) * Z w + (c * x) ^ 2 * 1))) by (intros w; rewrite form_upd; unfold Z, c; ring).
    rewrite (ex_plus k (fun w => Z w ^ 2)), (ex_plus k (fun w => 2 * (c * x) * Z w)), (ex_scal k (2 * (c * x)) Z), (ex_scal k ((c * x) ^ 2)), ex_one, M1, M2. ring. }
  assert (X3 : forall x, ex k (fun w => form (S k) a (upd w k x) ^ 3) = 3 * (c * x) * norm2 k a + (c * x) ^ 3).
  { intros x. rewrite (ex_ext k _ (fun w => Z w ^ 3 + (3 * (c * x) * Z w ^ 2 + (3 * (c * x) ^ 2 * Z w + (c * x) ^ 3 * 1)))) by (intros w; rewrite form_upd; unfold Z, c; ring).
    rewrite (ex_plus k (fun w => Z w ^ 3)), (ex_plus k (fun w => 3 * (c * x) * Z w ^ 2)), (ex_plus k (fun w => 3 * (c * x) ^ 2 * Z w)), (ex_scal k (3 * (c * x)) (fun w => Z w ^ 2)), (ex_scal k (3 * (c * x) ^ 2) Z), (ex_scal k ((c * x) ^ 3)), ex_one, M1, M2, M3. ring. }
  assert (X4 : forall x, ex k (fun w => form (S k) a (upd w k x) ^ 4) = 3 * norm2 k a ^ 2 + 6 * (c * x) ^ 2 * norm2 k a + (c * x) ^ 4).
  { intros x. rewrite (ex_ext k _ (fun w => Z w ^ 4 + (4 * (c * x) * Z w ^ 3 + (6 * (c * x) ^ 2 * Z w ^ 2 + (4 * (c * x) ^ 3 * Z w + (c * x) ^ 4 * 1))))) by (intros w; rewrite form_upd; unfold Z, c; ring).
    rewrite (ex_plus k (fun w => Z w ^ 4)), (ex_plus k (fun w => 4 * (c * x) * Z w ^ 3)), (ex_plus k (fun w => 6 * (c * x) ^ 2 * Z w ^ 2)), (ex_plus k (fun w => 4 * (c * x) ^ 3 * Z w)),
      (ex_scal k (4 * (c * x)) (fun w => Z w ^ 3)), (ex_scal k (6 * (c * x) ^ 2) (fun w => Z w ^ 2)), (ex_scal k (4 * (c * x) ^ 3) Z), (ex_scal k ((c * x) ^ 4)), ex_one, M1, M2, M3, M4. ring. }
  cbn [ex]. rewrite !X1, !X2, !X3, !X4, N. set (s := sqrt 3) in *. repeat split.
  - ring.
  - replace ((c * - s) ^ 2) with (c ^ 2 * (s * s)) by ring. replace ((c * s) ^ 2) with (c ^ 2 * (s * s)) by ring. rewrite S3. field.
  - ring.
  - replace ((c * - s) ^ 2) with (c ^ 2 * (s * s)) by ring. replace ((c * s) ^ 2) with (c ^ 2 * (s * s)) by ring.
    replace ((c * - s) ^ 4) with (c ^ 4 * (s * s) * (s * s)) by ring. replace ((c * s) ^ 4) with (c ^ 4 * (s * s) * (s * s)) by ring. rewrite S3. field.
Qed.
Definition coord (i : nat) (w : nat -> R) : R := w i.
Definition spikes (l : list (R * nat)) (i : nat) : R := Rsum (map (fun p => if Nat.eqb i (snd p) then fst p else 0) l).
Lemma form_spikes K l : (forall p, In p l -> (snd p < K)%nat) -> forall w, form K (spikes l) w = Rsum (map (fun p => fst p * w (snd p)) l).
Proof.
  induction l as [|p l IH]; intros H w; [unfold form; apply sumn_zero; intros; unfold spikes, Rsum; cbn; ring|].
  cbn [map]. change (Rsum (?a :: ?m)) with (a + Rsum m). rewrite <- IH by (intros q Hq; apply H; now right). unfold form.
  rewrite (sumn_ext K _ (fun i => (if Nat.eqb i (snd p) then fst p else 0) * w i + spikes l i * w i)) by (intros i _; unfold spikes; cbn [map]; change (Rsum (?a :: ?m)) with (a + Rsum m); ring).
  rewrite sumn_plus. f_equal. rewrite (sumn_single K _ (snd p)); [now rewrite Nat.eqb_refl|apply H; now left|]. intros m _ Hm. destruct (Nat.eqb_spec m (snd p)); [contradiction|ring].
Qed.
Lemma three_white K : white (three K) (fun i => (i < K)%nat) coord.
Proof.
  assert (F1 : forall i w, (i < K)%nat -> form K (spikes [(1, i)]) w = w i).
  { intros i w Hi. rewrite form_spikes by (intros p [<-|[]]; trivial). unfold Rsum. cbn. ring. }
  assert (N1 : forall i, (i < K)%nat -> norm2 K (spikes [(1, i)]) = 1).
  { intros i Hi. unfold norm2. rewrite (sumn_single K _ i Hi); unfold spikes, Rsum; cbn; [rewrite Nat.eqb_refl; ring|]. intros m _ Hm. destruct (Nat.eqb_spec m i); [contradiction|ring]. }
  assert (Q2 : forall i, (i < K)%nat -> ex K (fun w => w i * w i) = 1).
  { intros i Hi. destruct (form_moments (spikes [(1, i)]) K) as (_ & M2 & _). rewrite N1 in M2 by trivial. rewrite <- M2. apply ex_ext. intros w. rewrite F1 by trivial. ring. }
  split.
  - intros i Hi. split; [exact I|]. destruct (form_moments (spikes [(1, i)]) K) as (M1 & _). etransitivity; [|exact M1]. apply ex_ext. intros w. now rewrite F1.
  - intros i j Hi Hj. split; [exact I|]. split; [intros <-; now apply Q2|]. intros ne. change (ex K (fun w => w i * w j) = 0).
    destruct (form_moments (spikes [(1, i); (1, j)]) K) as (_ & M2 & _).
    assert (N2 : norm2 K (spikes [(1, i); (1, j)]) = 2).
    { unfold norm2. rewrite (sumn_ext K _ (fun k => spikes [(1, i)] k ^ 2 + spikes [(1, j)] k ^ 2)).
      - rewrite sumn_plus. change (norm2 K (spikes [(1, i)]) + norm2 K (spikes [(1, j)]) = 2). rewrite !N1 by trivial. ring.
      - intros k _. unfold spikes, Rsum. cbn. destruct (Nat.eqb_spec k i), (Nat.eqb_spec k j); subst; try contradiction; ring. }
    rewrite N2 in M2. rewrite (ex_ext K _ (fun w => w i * w i + (w j * w j + 2 * (w i * w j)))) in M2.
    + rewrite (ex_plus K (fun w => w i * w i)), (ex_plus K (fun w => w j * w j)), (ex_scal K 2 (fun w => w i * w j)), !Q2 in M2 by trivial. lra.
    + intros w. rewrite form_spikes by (intros p [<-|[<-|[]]]; trivial). unfold Rsum. cbn. ring.
Qed.
Lemma three_gauss K : gaussian4 (three K) (fun i => (i < K)%nat) coord.
Proof.
  intros f (l & HL & Hf). split; [exact I|]. destruct (form_moments (spikes l) K) as (_ & M2 & _ & M4).
  assert (G : forall w, f w = form K (spikes l) w) by (intros w; rewrite Hf, form_spikes by trivial; reflexivity).
  change (ex K (fun w => f w ^ 4) = 3 * ex K (fun w => f w ^ 2) ^ 2). rewrite (ex_ext K _ (fun w => form K (spikes l) w ^ 4)), (ex_ext K (fun w => f w ^ 2) (fun w => form K (spikes l) w ^ 2)) by (intros; now rewrite G).
  now rewrite M4, M2.
Qed.
(** complex arrays of such variables *)
Definition three_noise (R n : nat) (w : nat -> Rdefinitions.R) : list (list (Rdefinitions.R * Rdefinitions.R)) :=
  array (fun r k => (w (2 * (r * n + k))%nat, w (2 * (r * n + k) + 1)%nat)) R n.
Theorem three_gaussian R n : gaussian_complex (three (2 * (R * n))) R n (three_noise R n).
Proof.
  set (ix := fun i : nat * nat * bool => (2 * (fst (fst i) * n + snd (fst i)) + (if snd i then 1 else 0))%nat).
  assert (B : forall i, cidx R n i -> (ix i < 2 * (R * n))%nat) by (intros [[r k] b] [Hr Hk]; unfold ix; cbn [fst snd] in *; destruct b; nia).
  assert (Y : forall i w, cidx R n i -> cvar (three_noise R n) i w = coord (ix i) w).
  { intros [[r k] b] w [Hr Hk]. unfold cvar, coord, ix, three_noise. cbn [fst snd] in *. rewrite array_entry by trivial. destruct b; [reflexivity|]. now rewrite Nat.add_0_r. }
  split; [split; [intros w; apply array_shaped|]|].
  - apply (white_reindex _ (fun i => (i < 2 * (R * n))%nat) _ coord _ ix); [apply three_white|exact B|intros j w Hj; now apply Y|].
    intros [[r k] b] [[r' k'] b'] [Hr Hk] [Hr' Hk'] e. unfold ix in e. cbn [fst snd] in *.
    assert (Q : b = b' /\ (r * n + k = r' * n + k')%nat) by (destruct b, b'; split; trivial; lia). destruct Q as [<- Q]. apply pair_inj in Q as [<- <-]; trivial.
  - intros f (l & HL & Hf). apply three_gauss. exists (map (fun p => (fst p, ix (snd p))) l). split.
    + intros p Hp. apply in_map_iff in Hp as (q & <- & Hq). cbn [snd]. now apply B, HL.
    + intros w. rewrite Hf, map_map. f_equal. apply map_ext_in. intros p Hp. cbn [fst snd]. now rewrite Y by (now apply HL).
Qed.
