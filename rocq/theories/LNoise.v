(** * White noise exists: a finite sample space for every shape *)
From Coq Require Import Reals List ZArith Bool Lia Lra.
From Verif Require Import XReal PyBase ModelSimul Spec SpecSimul LXReal LDft LSimul.
Import ListNotations.
Open Scope R_scope.
Local Notation length := List.length.

(** the average over K points and two signs *)
Definition avg (K : nat) (f : nat * bool -> R) : R := / (2 * INR K) * sumn K (fun i => f (i, true) + f (i, false)).
Lemma avg_ext K f g : (forall w, f w = g w) -> avg K f = avg K g.
Proof. intros H. unfold avg. f_equal. apply sumn_ext. intros i _. now rewrite !H. Qed.
Lemma avg_one K : (1 <= K)%nat -> avg K (fun _ => 1) = 1.
Proof. intros HK. unfold avg. rewrite sumn_const. field. apply not_0_INR. lia. Qed.
Lemma avg_plus K f g : avg K (fun w => f w + g w) = avg K f + avg K g.
Proof. unfold avg. rewrite <- Rmult_plus_distr_l, <- sumn_plus. f_equal. apply sumn_ext. intros. ring. Qed.
Lemma avg_scal K c f : avg K (fun w => c * f w) = c * avg K f.
Proof.
  unfold avg. rewrite (sumn_ext K _ (fun i => c * (f (i, true) + f (i, false)))) by (intros; ring). rewrite sumn_scal. ring.
Qed.
Definition sign_space (K : nat) (HK : (1 <= K)%nat) : expectation (nat * bool) :=
  mkE _ (fun _ => True) (avg K) (fun _ _ _ _ => I) (avg_ext K) I (avg_one K HK) (fun _ _ _ _ => I) (fun f g _ _ => avg_plus K f g)
    (fun _ _ _ => I) (fun c f _ => avg_scal K c f).
Definition spike (K i : nat) (w : nat * bool) : R :=
  if Nat.eqb (fst w) i then (if snd w then sqrt (INR K) else - sqrt (INR K)) else 0.
Lemma spike_white K HK : (1 <= K)%nat -> white (sign_space K HK) (fun i => (i < K)%nat) (spike K).
Proof.
  intros _. split.
  - intros i Hi. split; [exact I|]. change (avg K (spike K i) = 0). unfold avg. rewrite sumn_zero; [ring|]. intros j _. unfold spike. cbn [fst snd].
    destruct (Nat.eqb j i); ring.
  - intros i j Hi Hj. split; [exact I|]. split; intros e.
    + subst j. change (avg K (fun w => spike K i w * spike K i w) = 1). unfold avg. rewrite (sumn_single K _ i Hi).
      * unfold spike. cbn [fst snd]. rewrite Nat.eqb_refl. assert (S := sqrt_sqrt (INR K) (pos_INR K)).
        replace (sqrt (INR K) * sqrt (INR K) + - sqrt (INR K) * - sqrt (INR K)) with (2 * INR K) by lra. field. apply not_0_INR. lia.
      * intros m _ Hm. unfold spike. cbn [fst]. destruct (Nat.eqb_spec m i); [contradiction|ring].
    + change (avg K (fun w => spike K i w * spike K j w) = 0). unfold avg. rewrite sumn_zero; [ring|]. intros m _. unfold spike. cbn [fst snd].
      destruct (Nat.eqb_spec m i), (Nat.eqb_spec m j); subst; try ring. congruence.
Qed.
(** arrays of such variables *)
Definition array {A} (f : nat -> nat -> A) (R n : nat) : list (list A) := map (fun r => map (f r) (seq 0 n)) (seq 0 R).
Lemma array_shaped {A} (f : nat -> nat -> A) R n : shaped R n (array f R n).
Proof.
  split; [unfold array; now rewrite map_length, seq_length|]. apply Forall_forall. intros x Hx. apply in_map_iff in Hx as [r [<- _]].
  now rewrite map_length, seq_length.
Qed.
Lemma array_entry {A} (f : nat -> nat -> A) d R n r k : (r < R)%nat -> (k < n)%nat -> entry d (array f R n) r k = f r k.
Proof.
  intros Hr Hk. unfold entry, array. rewrite (nth_indep _ [] (map (f 0%nat) (seq 0 n))) by (now rewrite map_length, seq_length).
  rewrite (map_nth (fun r => map (f r) (seq 0 n))), seq_nth by trivial. cbn [Nat.add].
  rewrite (nth_indep _ d (f r 0%nat)) by (now rewrite map_length, seq_length). now rewrite map_nth, seq_nth.
Qed.
Lemma white_reindex {W I J} (P : expectation W) (idx : I -> Prop) (idy : J -> Prop) (z : I -> W -> R) (y : J -> W -> R) (s : J -> I) :
  white P idx z -> (forall j, idy j -> idx (s j)) -> (forall j w, idy j -> y j w = z (s j) w) ->
  (forall j k, idy j -> idy k -> s j = s k -> j = k) -> white P idy y.
Proof.
  intros [H1 H2] Hs Hy Hi. split.
  - intros j Hj. destruct (H1 (s j) (Hs j Hj)) as [A B]. split.
    + apply (int_ext W P (z (s j))); [intros w; now rewrite Hy|exact A].
    + etransitivity; [|exact B]. apply E_ext. intros w. now apply Hy.
  - intros j k Hj Hk. destruct (H2 (s j) (s k) (Hs j Hj) (Hs k Hk)) as [A [B B2]].
    assert (X : forall w, z (s j) w * z (s k) w = y j w * y k w) by (intros w; now rewrite !Hy).
    split; [exact (int_ext W P _ _ X A)|]. rewrite <- (E_ext W P _ _ X). split; intros e; [apply B; now subst|apply B2; auto].
Qed.
Definition cplx_noise (K R n : nat) (w : nat * bool) : list (list (Rdefinitions.R * Rdefinitions.R)) :=
  array (fun r k => (spike K (2 * (r * n + k)) w, spike K (2 * (r * n + k) + 1) w)) R n.
Definition real_noise (K R n : nat) (w : nat * bool) : list (list Rdefinitions.R) := array (fun r k => spike K (r * n + k) w) R n.
Lemma pair_inj n r k r' k' : (k < n)%nat -> (k' < n)%nat -> (r * n + k = r' * n + k')%nat -> r = r' /\ k = k'.
Proof. intros H H' e. assert (r = r') by nia. subst. lia. Qed.
Lemma cplx_noise_white R n HK : white_complex (sign_space (2 * (R * n)) HK) R n (cplx_noise (2 * (R * n)) R n).
Proof.
  split; [intros w; apply array_shaped|].
  apply (white_reindex _ (fun i => (i < 2 * (R * n))%nat) _ (spike (2 * (R * n))) _
    (fun i : nat * nat * bool => (2 * (fst (fst i) * n + snd (fst i)) + (if snd i then 1 else 0))%nat)).
  - now apply spike_white.
  - intros [[r k] b] [Hr Hk]. cbn [fst snd] in *. destruct b; nia.
  - intros [[r k] b] w [Hr Hk]. cbn [fst snd] in *. unfold cplx_noise. rewrite array_entry by trivial. destruct b; [reflexivity|]. now rewrite Nat.add_0_r.
  - intros [[r k] b] [[r' k'] b'] [Hr Hk] [Hr' Hk'] e. cbn [fst snd] in *.
    assert (Q : b = b' /\ (r * n + k = r' * n + k')%nat) by (destruct b, b'; split; trivial; lia). destruct Q as [<- Q].
    apply pair_inj in Q as [<- <-]; trivial.
Qed.
Lemma real_noise_white R n HK : white_real (sign_space (R * n) HK) R n (real_noise (R * n) R n).
Proof.
  split; [intros w; apply array_shaped|].
  apply (white_reindex _ (fun i => (i < R * n)%nat) _ (spike (R * n)) _ (fun i : nat * nat => (fst i * n + snd i)%nat)).
  - now apply spike_white.
  - intros [r k] [Hr Hk]. cbn [fst snd] in *. nia.
  - intros [r k] w [Hr Hk]. cbn [fst snd] in *. unfold real_noise. now rewrite array_entry.
  - intros [r k] [r' k'] [Hr Hk] [Hr' Hk'] e. cbn [fst snd] in *. apply pair_inj in e as [<- <-]; trivial.
Qed.
