(** * Noise with Gaussian moments up to order eight exists: independent five-point variables, for every shape *)
From Coq Require Import Reals List ZArith Bool Lia Lra.
From Verif Require Import XReal PyBase ModelSimul Spec SpecSimul LXReal LDft LSimul LNoise LWick LThree LWick8.
Import ListNotations.
Open Scope R_scope.
Local Notation length := List.length.

(** K independent variables with the law of the Gauss-Hermite quadrature of five points: 0, +- sqrt (5 - sqrt 10), +- sqrt (5 + sqrt 10) *)
Definition s10 : R := sqrt 10.
Definition x1 : R := sqrt (5 - s10).
Definition x2 : R := sqrt (5 + s10).
Definition p1 : R := (7 + 2 * s10) / 60.
Definition p2 : R := (7 - 2 * s10) / 60.
Fixpoint ex5 (K : nat) (f : (nat -> R) -> R) : R :=
  match K with
  | O => f (fun _ => 0)
  | S k => 8 / 15 * ex5 k (fun w => f (upd w k 0)) + p1 * ex5 k (fun w => f (upd w k x1)) + p1 * ex5 k (fun w => f (upd w k (- x1))) + p2 * ex5 k (fun w => f (upd w k x2)) + p2 * ex5 k (fun w => f (upd w k (- x2)))
  end.
Lemma s10_sq : s10 * s10 = 10.
Proof. apply sqrt_sqrt. lra. Qed.
Lemma s10_range : 3 <= s10 <= 7 / 2.
Proof. assert (H := s10_sq). assert (0 <= s10) by apply sqrt_pos. split; nra. Qed.
Lemma x1_sq : x1 * x1 = 5 - s10.
Proof. apply sqrt_sqrt. assert (H := s10_range). lra. Qed.
Lemma x2_sq : x2 * x2 = 5 + s10.
Proof. apply sqrt_sqrt. assert (H := s10_range). lra. Qed.
Lemma ex_ext K : forall f g, (forall w, f w = g w) -> ex5 K f = ex5 K g.
Proof. induction K as [|k IH]; intros f g H; [apply H|]. cbn [ex5]. rewrite !(IH (fun w => f _) (fun w => g _)) by (intros; apply H). reflexivity. Qed.
Lemma ex_one K : ex5 K (fun _ => 1) = 1.
Proof. induction K as [|k IH]; [reflexivity|]. cbn [ex5]. rewrite IH. unfold p1, p2. field. Qed.
Lemma ex_plus K : forall f g, ex5 K (fun w => f w + g w) = ex5 K f + ex5 K g.
Proof. induction K as [|k IH]; intros f g; [reflexivity|]. cbn [ex5]. rewrite !IH. ring. Qed.
Lemma ex_scal K : forall c f, ex5 K (fun w => c * f w) = c * ex5 K f.
Proof. induction K as [|k IH]; intros c f; [reflexivity|]. cbn [ex5]. rewrite !IH. ring. Qed.
Lemma ex_pos K : forall f, (forall w, 0 <= f w) -> 0 <= ex5 K f.
Proof.
  assert (S := s10_range). assert (P1 : 0 <= p1) by (unfold p1; lra). assert (P2 : 0 <= p2) by (unfold p2; lra).
  induction K as [|k IH]; intros f H; [apply H|]. cbn [ex5]. assert (Q := fun x => IH (fun w => f (upd w k x)) (fun w => H _)). cbv beta in Q.
  assert (A := Q 0). assert (B := Rmult_le_pos _ _ P1 (Q x1)). assert (C := Rmult_le_pos _ _ P1 (Q (- x1))). assert (D := Rmult_le_pos _ _ P2 (Q x2)). assert (F := Rmult_le_pos _ _ P2 (Q (- x2))). lra.
Qed.
Definition five (K : nat) : expectation (nat -> R) :=
  mkE _ (fun _ => True) (ex5 K) (fun _ _ _ _ => I) (ex_ext K) I (ex_one K) (fun _ _ _ _ => I) (fun f g _ _ => ex_plus K f g) (fun _ _ _ => I) (fun c f _ => ex_scal K c f).
Lemma five_positive K : positive (five K).
Proof. intros f _ H. now apply ex_pos. Qed.

(** ** Moments of a linear form *)
(** moments of a centred Gaussian variable of variance v *)
Definition gm (v : R) (i : nat) : R := nth i [1; 0; v; 0; 3 * v ^ 2; 0; 15 * v ^ 3; 0; 105 * v ^ 4] 0.
Fixpoint pev (l : list R) (x : R) : R := match l with [] => 0 | a :: l => a + x * pev l x end.
Fixpoint padd (a b : list R) : list R := match a, b with [], _ => b | _, [] => a | x :: a, y :: b => (x + y) :: padd a b end.
Fixpoint pas (i : nat) (y : R) : list R := match i with O => [1] | S i => padd (map (Rmult y) (pas i y)) (0 :: pas i y) end.
Lemma pev_add a : forall b x, pev (padd a b) x = pev a x + pev b x.
Proof. induction a as [|u a IH]; intros [|v b] x; cbn [padd pev]; [ring|ring|ring|]. rewrite IH. ring. Qed.
Lemma pev_scal y a x : pev (map (Rmult y) a) x = y * pev a x.
Proof. induction a as [|u a IH]; cbn [map pev]; [ring|]. rewrite IH. ring. Qed.
Lemma pev_pas i y x : pev (pas i y) x = (x + y) ^ i.
Proof. induction i as [|i IH]; [cbn; ring|]. cbn [pas]. rewrite pev_add, pev_scal. cbn [pev pow]. rewrite IH. ring. Qed.
Fixpoint dot (o : nat) (l : list R) (m : nat -> R) : R := match l with [] => 0 | a :: l => a * m o + dot (S o) l m end.
Lemma ex_poly K (Z : (nat -> R) -> R) (m : nat -> R) l : forall o, (forall i, (i < o + length l)%nat -> ex5 K (fun w => Z w ^ i) = m i) -> ex5 K (fun w => Z w ^ o * pev l (Z w)) = dot o l m.
Proof.
  induction l as [|a l IH]; intros o H; cbn [pev dot].
  - rewrite (ex_ext K _ (fun w => 0 * 1)) by (intros; ring). rewrite (ex_scal K 0 (fun _ => 1)). ring.
  - rewrite (ex_ext K _ (fun w => a * Z w ^ o + Z w ^ S o * pev l (Z w))) by (intros; cbn [pow]; ring). rewrite (ex_plus K (fun w => a * Z w ^ o)), (ex_scal K a (fun w => Z w ^ o)), H by (cbn [List.length]; lia).
    f_equal. apply IH. intros i Hi. apply H. cbn [List.length]. lia.
Qed.
Lemma pas_length i y : length (pas i y) = S i.
Proof.
  assert (G : forall a b : list R, length (padd a b) = Nat.max (length a) (length b)) by (induction a as [|u a IH]; intros [|v b]; cbn; try reflexivity; now rewrite IH).
  induction i as [|i IH]; [reflexivity|]. cbn [pas]. rewrite G, map_length. cbn [List.length]. rewrite IH. lia.
Qed.
Lemma form_moments a K : forall i, (i <= 8)%nat -> ex5 K (fun w => form K a w ^ i) = gm (norm2 K a) i.
Proof.
  assert (S2 := s10_sq). assert (E1 := x1_sq). assert (E2 := x2_sq).
  induction K as [|k IH].
  - intros i Hi. unfold form, norm2. cbn [ex5]. rewrite !sumn_0. do 9 (destruct i as [|i]; [unfold gm; cbn [nth pow]; ring|]). lia.
  - set (Z := form k a) in *. set (c := a k). assert (N : norm2 (S k) a = norm2 k a + c ^ 2) by (unfold norm2; now rewrite sumn_S). set (v := norm2 k a) in *.
    assert (X : forall i x, (i <= 8)%nat -> ex5 k (fun w => form (S k) a (upd w k x) ^ i) = dot 0 (pas i (c * x)) (gm v)).
    { intros i x Hi. rewrite <- (ex_poly k Z (gm v) (pas i (c * x)) 0%nat).
      - apply ex_ext. intros w. rewrite pev_pas, form_upd. unfold Z, c. ring.
      - intros l Hl. rewrite pas_length in Hl. apply IH. lia. }
    intros i Hi. cbn [ex5]. rewrite !X by trivial. rewrite N. clear X IH N. clearbody v c.
    assert (F1 : x1 ^ 2 = 5 - s10) by (rewrite <- E1; ring). assert (F2 : x2 ^ 2 = 5 + s10) by (rewrite <- E2; ring). assert (F3 : s10 ^ 2 = 10) by (rewrite <- S2; ring). unfold p1, p2.
    do 9 (destruct i as [|i]; [unfold gm; cbn [dot pas padd map nth pow]; field [F1 F2 F3]|]). lia.
Qed.
Lemma ex_as_pow K a i : (i <= 8)%nat -> forall f, (forall w, f w = form K a w ^ i) -> ex5 K f = gm (norm2 K a) i.
Proof. intros Hi f H. rewrite <- (form_moments a K i Hi). now apply ex_ext. Qed.
Lemma five_white K : white (five K) (fun i => (i < K)%nat) coord.
Proof.
  assert (F1 : forall i w, (i < K)%nat -> form K (spikes [(1, i)]) w = w i).
  { intros i w Hi. rewrite form_spikes by (intros p [<-|[]]; trivial). unfold Rsum. cbn. ring. }
  assert (N1 : forall i, (i < K)%nat -> norm2 K (spikes [(1, i)]) = 1).
  { intros i Hi. unfold norm2. rewrite (sumn_single K _ i Hi); unfold spikes, Rsum; cbn; [rewrite Nat.eqb_refl; ring|]. intros m _ Hm. destruct (Nat.eqb_spec m i); [contradiction|ring]. }
  assert (Q2 : forall i, (i < K)%nat -> ex5 K (fun w => w i * w i) = 1).
  { intros i Hi. rewrite (ex_as_pow K (spikes [(1, i)]) 2 ltac:(lia)) by (intros w; rewrite F1 by trivial; ring). unfold gm. cbn [nth]. now apply N1. }
  split.
  - intros i Hi. split; [exact I|]. change (ex5 K (fun w => w i) = 0). rewrite (ex_as_pow K (spikes [(1, i)]) 1 ltac:(lia)) by (intros w; rewrite F1 by trivial; ring). reflexivity.
  - intros i j Hi Hj. split; [exact I|]. split; [intros <-; now apply Q2|]. intros ne. change (ex5 K (fun w => w i * w j) = 0).
    assert (N2 : norm2 K (spikes [(1, i); (1, j)]) = 2).
    { unfold norm2. rewrite (sumn_ext K _ (fun k => spikes [(1, i)] k ^ 2 + spikes [(1, j)] k ^ 2)).
      - rewrite sumn_plus. change (norm2 K (spikes [(1, i)]) + norm2 K (spikes [(1, j)]) = 2). rewrite !N1 by trivial. ring.
      - intros k _. unfold spikes, Rsum. cbn. destruct (Nat.eqb_spec k i), (Nat.eqb_spec k j); subst; try contradiction; ring. }
    assert (M2 := form_moments (spikes [(1, i); (1, j)]) K 2 ltac:(lia)). unfold gm in M2. cbn [nth] in M2. rewrite N2 in M2. rewrite (ex_ext K _ (fun w => w i * w i + (w j * w j + 2 * (w i * w j)))) in M2.
    + rewrite (ex_plus K (fun w => w i * w i)), (ex_plus K (fun w => w j * w j)), (ex_scal K 2 (fun w => w i * w j)), !Q2 in M2 by trivial. lra.
    + intros w. rewrite form_spikes by (intros p [<-|[<-|[]]]; trivial). unfold Rsum. cbn. ring.
Qed.
Lemma five_gauss K : gaussian8 (five K) (fun i => (i < K)%nat) coord.
Proof.
  assert (G : forall f, combination (fun i => (i < K)%nat) coord f -> exists a, forall w, f w = form K a w).
  { intros f (l & HL & Hf). exists (spikes l). intros w. rewrite Hf, form_spikes by trivial. reflexivity. }
  split; intros f Hf; destruct (G f Hf) as [a Ha]; (split; [exact I|]); assert (M2 := ex_as_pow K a 2 ltac:(lia) (fun w => f w ^ 2) (fun w => f_equal (fun x => x ^ 2) (Ha w))).
  - change (ex5 K (fun w => f w ^ 4) = 3 * ex5 K (fun w => f w ^ 2) ^ 2). rewrite M2, (ex_as_pow K a 4 ltac:(lia)) by (intros w; now rewrite Ha). reflexivity.
  - change (ex5 K (fun w => f w ^ 8) = 105 * ex5 K (fun w => f w ^ 2) ^ 4). rewrite M2, (ex_as_pow K a 8 ltac:(lia)) by (intros w; now rewrite Ha). reflexivity.
Qed.
Theorem five_gaussian R n : gaussian_complex8 (five (2 * (R * n))) R n (three_noise R n).
Proof.
  set (ix := fun i : nat * nat * bool => (2 * (fst (fst i) * n + snd (fst i)) + (if snd i then 1 else 0))%nat).
  assert (B : forall i, cidx R n i -> (ix i < 2 * (R * n))%nat) by (intros [[r k] b] [Hr Hk]; unfold ix; cbn [fst snd] in *; destruct b; nia).
  assert (Y : forall i w, cidx R n i -> cvar (three_noise R n) i w = coord (ix i) w).
  { intros [[r k] b] w [Hr Hk]. unfold cvar, coord, ix, three_noise. cbn [fst snd] in *. rewrite array_entry by trivial. destruct b; [reflexivity|]. now rewrite Nat.add_0_r. }
  assert (C : forall f, combination (cidx R n) (cvar (three_noise R n)) f -> combination (fun i => (i < 2 * (R * n))%nat) coord f).
  { intros f (l & HL & Hf). exists (map (fun p => (fst p, ix (snd p))) l). split.
    + intros p Hp. apply in_map_iff in Hp as (q & <- & Hq). cbn [snd]. now apply B, HL.
    + intros w. rewrite Hf, map_map. f_equal. apply map_ext_in. intros p Hp. cbn [fst snd]. now rewrite Y by (now apply HL). }
  destruct (five_gauss (2 * (R * n))) as [G4 G8].
  split; [split; [intros w; apply array_shaped|]|split; intros f Hf; [apply G4|apply G8]; now apply C].
  apply (white_reindex _ (fun i => (i < 2 * (R * n))%nat) _ coord _ ix); [apply five_white|exact B|intros j w Hj; now apply Y|].
  intros [[r k] b] [[r' k'] b'] [Hr Hk] [Hr' Hk'] e. unfold ix in e. cbn [fst snd] in *.
  assert (Q : b = b' /\ (r * n + k = r' * n + k')%nat) by (destruct b, b'; split; trivial; lia). destruct Q as [<- Q]. apply pair_inj in Q as [<- <-]; trivial.
Qed.
