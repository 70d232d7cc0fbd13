(** * C121: moment of order four of the multifractal random walk *)
From Coq Require Import Reals List ZArith Bool Lra Lia String.
From Verif Require Import XReal PyBase ModelSimul Spec SpecSimul LXReal LBase LDft LSimul LCirc LFgn LFgnCov LNoise LMrw LBivariate PropsSimul PropsMrw LWick PropsFluct PropsMrwStat PropsMrwScale.
Import ListNotations.
Open Scope R_scope.
Local Notation length := List.length.
Local Notation lag := (fun k k' : nat => (Nat.max k k' - Nat.min k k')%nat).

(** ** Products of four combinations of one noise with the exponential of a combination of the other *)
Lemma E_weighted {W S} (P : expectation W) (F : S -> W -> R) (c : S -> R) l : (forall s, In s l -> integrable P (F s)) ->
  integrable P (fun w => Rsum (map (fun s => c s * F s w) l)) /\ E P (fun w => Rsum (map (fun s => c s * F s w) l)) = Rsum (map (fun s => c s * E P (F s)) l).
Proof.
  induction l as [|s l IH]; intros H.
  - split; [exact (int_zero P)|exact (E_zero P)].
  - destruct (IH (fun t Ht => H t (or_intror Ht))) as [I V]. assert (J := int_scal W P (c s) _ (H s (or_introl eq_refl))). split.
    + exact (int_plus W P _ _ J I).
    + change (E P (fun w => c s * F s w + Rsum (map (fun s => c s * F s w) l)) = c s * E P (F s) + Rsum (map (fun s => c s * E P (F s)) l)). rewrite (E_plus W P _ _ J I), V, (E_scal W P (c s) _ (H s (or_introl eq_refl))). reflexivity.
Qed.
Definition signs : list (R * R * R) := [(1, 1, 1); (1, 1, -1); (1, -1, 1); (1, -1, -1); (-1, 1, 1); (-1, 1, -1); (-1, -1, 1); (-1, -1, -1)].
Definition comb4 (s : R * R * R) (x1 x2 x3 x4 : R) : R := x1 + fst (fst s) * x2 + snd (fst s) * x3 + snd s * x4.
Definition weight (s : R * R * R) : R := fst (fst s) * snd (fst s) * snd s / 192.
Lemma polar x1 x2 x3 x4 t : Rsum (map (fun s => weight s * (comb4 s x1 x2 x3 x4 ^ 4 * t)) signs) = x1 * x2 * x3 * x4 * t.
Proof. unfold signs, weight, comb4, Rsum. cbn [map fold_right fst snd]. field. Qed.
Section Four.
Context {W : Type} (P : expectation W) (Rn n : nat) (ze zw : W -> list (list (R * R))).
Hypothesis HG : gaussian_pair P Rn n ze zw.
Notation combe := (combination (cidx Rn n) (cvar ze)).
Notation combw := (combination (cidx Rn n) (cvar zw)).
Lemma joint_four f1 f2 f3 f4 g : combe f1 -> combe f2 -> combe f3 -> combe f4 -> combw g ->
  let B := fun f h => E P (fun w => f w * h w) in
  integrable P (fun w => f1 w * f2 w * f3 w * f4 w * exp (g w)) /\
  E P (fun w => f1 w * f2 w * f3 w * f4 w * exp (g w)) = (B f1 f2 * B f3 f4 + B f1 f3 * B f2 f4 + B f1 f4 * B f2 f3) * E P (fun w => exp (g w)).
Proof.
  intros H1 H2 H3 H4 Hg B. destruct HG as ((Hw & G4) & _ & _ & HI).
  assert (Hc : forall s, combe (fun w => comb4 s (f1 w) (f2 w) (f3 w) (f4 w))).
  { intros s. unfold comb4. apply (comb_plus _ _ (fun w => f1 w + fst (fst s) * f2 w + snd (fst s) * f3 w) (fun w => snd s * f4 w)); [|now apply comb_scal].
    apply (comb_plus _ _ (fun w => f1 w + fst (fst s) * f2 w) (fun w => snd (fst s) * f3 w)); [|now apply comb_scal]. apply (comb_plus _ _ f1 (fun w => fst (fst s) * f2 w)); [trivial|now apply comb_scal]. }
  assert (I2 : forall f h, combe f -> combe h -> integrable P (fun w => f w * h w)) by (intros f h Hf Hh; now apply (comb_int2 _ _ P (proj2 Hw))).
  (* variance of a signed combination *)
  assert (V2 : forall s, E P (fun w => comb4 s (f1 w) (f2 w) (f3 w) (f4 w) ^ 2) = B f1 f1 + fst (fst s) ^ 2 * B f2 f2 + snd (fst s) ^ 2 * B f3 f3 + snd s ^ 2 * B f4 f4
     + 2 * fst (fst s) * B f1 f2 + 2 * snd (fst s) * B f1 f3 + 2 * snd s * B f1 f4 + 2 * fst (fst s) * snd (fst s) * B f2 f3 + 2 * fst (fst s) * snd s * B f2 f4 + 2 * snd (fst s) * snd s * B f3 f4).
  { intros s. set (l := [(1, (f1, f1)); (fst (fst s) ^ 2, (f2, f2)); (snd (fst s) ^ 2, (f3, f3)); (snd s ^ 2, (f4, f4)); (2 * fst (fst s), (f1, f2)); (2 * snd (fst s), (f1, f3)); (2 * snd s, (f1, f4));
       (2 * fst (fst s) * snd (fst s), (f2, f3)); (2 * fst (fst s) * snd s, (f2, f4)); (2 * snd (fst s) * snd s, (f3, f4))]).
    destruct (E_weighted P (fun (q : R * ((W -> R) * (W -> R))) w => fst (snd q) w * snd (snd q) w) (fun q => fst q) l) as [_ V].
    - intros q Hq. cbn in Hq. repeat (destruct Hq as [<-|Hq]; [cbn [fst snd]; now apply I2|]). contradiction.
    - rewrite (E_ext W P _ (fun w => Rsum (map (fun q : R * ((W -> R) * (W -> R)) => fst q * (fst (snd q) w * snd (snd q) w)) l))).
      + rewrite V. unfold l, Rsum, B. cbn [map fold_right fst snd]. ring.
      + intros w. unfold l, Rsum, comb4. cbn [map fold_right fst snd]. ring. }
  destruct (E_weighted P (fun s w => comb4 s (f1 w) (f2 w) (f3 w) (f4 w) ^ 4 * exp (g w)) weight signs) as [I V].
  { intros s _. apply (HI _ g 4%nat ltac:(lia) (Hc s) Hg). }
  assert (G := fun w => polar (f1 w) (f2 w) (f3 w) (f4 w) (exp (g w))). cbv beta in I, V, G.
  split; [exact (int_ext W P _ _ G I)|]. rewrite <- (E_ext W P _ _ G), V.
  rewrite (map_ext _ (fun s => weight s * (3 * E P (fun w => comb4 s (f1 w) (f2 w) (f3 w) (f4 w) ^ 2) ^ 2 * E P (fun w => exp (g w))))).
  - rewrite (map_ext _ (fun s => weight s * (3 * (B f1 f1 + fst (fst s) ^ 2 * B f2 f2 + snd (fst s) ^ 2 * B f3 f3 + snd s ^ 2 * B f4 f4
     + 2 * fst (fst s) * B f1 f2 + 2 * snd (fst s) * B f1 f3 + 2 * snd s * B f1 f4 + 2 * fst (fst s) * snd (fst s) * B f2 f3 + 2 * fst (fst s) * snd s * B f2 f4 + 2 * snd (fst s) * snd s * B f3 f4) ^ 2 * E P (fun w => exp (g w))))) by (intros s; now rewrite V2).
    unfold signs, weight, Rsum. cbn [map fold_right fst snd]. field.
  - intros s. f_equal. rewrite (proj2 (HI _ g 4%nat ltac:(lia) (Hc s) Hg)). now rewrite (proj2 (G4 _ (Hc s))).
Qed.
End Four.

(** ** Decomposition of the increments *)
Section Dec.
Context {W : Type} (P : expectation W) (sh : shape_arg) (N : nat) (H lam L sigma : R) (z0e z0w : W -> option noise) (drawn_w drawn_e : W -> noise) (X : W -> list (list R)).
Hypothesis EN : shape_N sh = N.
Hypothesis HN : (2 <= N)%nat.
Hypothesis HH : 0 < H <= 1.
Hypothesis HL : 0 < L.
Hypothesis HLN : L <= INR N.
Hypothesis HG : gaussian_pair P (shape_R sh) (2 * N - 2) (fun o => nz (drawn_e o)) (fun o => nz (pick (z0w o) (drawn_w o))).
Hypothesis HX : simulated X sh H lam L sigma z0e z0w drawn_w drawn_e.
Lemma decomposition r : (r < shape_R sh)%nat -> exists ee u : nat -> W -> R,
  (forall a, (a < N)%nat -> combination (cidx (shape_R sh) (2 * N - 2)) (cvar (fun o => nz (drawn_e o))) (ee a)) /\
  (forall a, (a < N)%nat -> combination (cidx (shape_R sh) (2 * N - 2)) (cvar (fun o => nz (pick (z0w o) (drawn_w o)))) (u a)) /\
  (forall a b, (a < N)%nat -> (b < N)%nat -> E P (fun w => ee a w * ee b w) = fgn_covariance H sigma (/ INR N) a b) /\
  (forall a b s, (a < N)%nat -> (b < N)%nat -> E P (fun w => (s * (u a w + u b w)) ^ 2) = s ^ 2 * (demeaned N (log_vol_cov lam L) a a + 2 * demeaned N (log_vol_cov lam L) a b + demeaned N (log_vol_cov lam L) b b)) /\
  forall a w, (a < N)%nat -> increment (nth r (X w) []) a = ee a w * exp (u a w) * exp (- (1 / 2 * lam ^ 2 * ln L)).
Proof.
  intros Hr. assert (Hst : sampling_step None N (/ INR N)) by (right; auto).
  destruct HG as ((HWe & H4) & HWw & _ & _).
  destruct (C61_fgn W P (SPair N (shape_R sh)) N H sigma None (/ INR N) None drawn_e eq_refl HN Hst HH HWe) as (e & Ee & Se & Me & Ce).
  assert (HLN1 : L / 1 <= INR N) by (unfold Rdiv; rewrite Rinv_1, Rmult_1_r; exact HLN).
  destruct (C60_log_volatility W P N (shape_R sh) L lam 1 z0w drawn_w HN HL Rlt_0_1 HLN1 HWw) as (v & Ev & Sv & Mv & Cv).
  assert (Le := fun r i Hr Hi => fgn_linear (SPair N (shape_R sh)) N H sigma None (/ INR N) None drawn_e e eq_refl HN Hst HH (proj1 HWe) Ee Se r i Hr Hi). cbn [shape_R] in Le, Se, Me, Ce.
  assert (Lv := gw_linear N (shape_R sh) L lam z0w drawn_w v HN HL HLN (proj1 HWw) Ev).
  assert (SX : forall w, shaped (shape_R sh) N (walk lam L (e w) (v w))).
  { intros w. destruct (Se w) as [L1 F1], (Sv w) as [L2 F2]. split; [unfold walk; rewrite map2_length; lia|]. apply Forall_forall. intros c Hc. apply (In_nth _ _ []) in Hc as (r0 & Hr0 & <-).
    unfold walk in Hr0. rewrite map2_length in Hr0. unfold walk. rewrite (nth_map2_lt _ [] [] []) by lia. rewrite cumsum_length, map2_length. unfold centred. rewrite map_length.
    rewrite Forall_forall in F1, F2. rewrite F1, F2 by (apply nth_In; lia). lia. }
  assert (EX : forall w, mrw sh H (Some lam) L sigma "cme" (z0e w) (z0w w) (drawn_w w) (drawn_e w) = Ok (presented sh (map (map Fin) (walk lam L (e w) (v w))))).
  { intros w. assert (z0 : fgn (SPair N (shape_R sh)) H sigma None "cme" (z0e w) (drawn_e w) = Ok (Arr2 (e w), false)) by exact (Ee w).
    destruct (C73_mrw_values sh N H lam L sigma (z0e w) (z0w w) (drawn_w w) (drawn_e w) (v w) (e w) false false EN HN ltac:(lra) HL HLN (proj1 HWw w) (proj1 HWe w) (Ev w) z0) as [Q _].
    rewrite Q. unfold walk. do 2 f_equal. rewrite map_map2. reflexivity. }
  assert (QX := simulated_eq X (fun w => walk lam L (e w) (v w)) sh H lam L sigma z0e z0w drawn_w drawn_e HX EX ltac:(now rewrite EN)). cbv beta in QX.
  set (vv := fun a w => nth a (nth r (v w) []) 0).
  exists (fun a w => nth a (nth r (e w) []) 0), (fun a w => vv a w - vbar N vv w). split; [|split; [|split; [|split]]].
  - intros a Ha. now apply Le.
  - intros a Ha. apply comb_sub; [now apply Lv|]. apply (comb_ext _ _ (fun w => / INR N * sumn N (fun k => vv k w))); [intros w; unfold vbar, Rdiv; ring|]. apply comb_scal. apply comb_sumn. intros k Hk. now apply Lv.
  - intros a b Ha Hb. destruct (Ce r r a b Hr Hr Ha Hb) as [I1 V1]. unfold Cov in V1. rewrite (proj2 (Me r a Hr Ha)) in V1. destruct (Nat.eq_dec r r) as [_|n]; [|now elim n]. rewrite <- V1. unfold entry. ring.
  - intros a b s Ha Hb. apply (mom_pair P N vv (log_vol_cov lam L)); trivial. intros a0 b0 Ha0 Hb0. destruct (Cv r r a0 b0 Hr Hr Ha0 Hb0) as [I1 V1]. split; [exact I1|]. destruct (Nat.eq_dec r r) as [_|n]; [|now elim n].
    unfold Cov in V1. rewrite (proj2 (Mv r a0 Hr Ha0)) in V1. unfold log_vol_cov. replace (L / 1) with L in V1 by field. rewrite <- V1. unfold vv, entry. ring.
  - intros a w Ha. rewrite QX, (walk_increment lam L (shape_R sh) N) by trivial. reflexivity.
Qed.
End Dec.

(** ** Sums over four indices *)
Lemma fourth_moment_sum {W} (P : expectation W) (v : nat -> W -> R) (c : nat -> nat -> nat -> nat -> R) l :
  (forall i j k m, (i < l)%nat -> (j < l)%nat -> (k < l)%nat -> (m < l)%nat -> integrable P (fun w => v i w * v j w * v k w * v m w) /\ E P (fun w => v i w * v j w * v k w * v m w) = c i j k m) ->
  integrable P (fun w => sumn l (fun k => v k w) ^ 4) /\ E P (fun w => sumn l (fun k => v k w) ^ 4) = sumn l (fun i => sumn l (fun j => sumn l (fun k => sumn l (fun m => c i j k m)))).
Proof.
  intros Hc.
  assert (R1 : forall i j k, (i < l)%nat -> (j < l)%nat -> (k < l)%nat -> integrable P (fun w => sumn l (fun m => v i w * v j w * v k w * v m w)) /\ E P (fun w => sumn l (fun m => v i w * v j w * v k w * v m w)) = sumn l (fun m => c i j k m)).
  { intros i j k Hi Hj Hk. destruct (int_sumn P l (fun m w => v i w * v j w * v k w * v m w) (fun m Hm => proj1 (Hc i j k m Hi Hj Hk Hm))) as [I V]. split; [exact I|]. rewrite V. apply sumn_ext. intros m Hm. now apply Hc. }
  assert (R2 : forall i j, (i < l)%nat -> (j < l)%nat -> integrable P (fun w => sumn l (fun k => sumn l (fun m => v i w * v j w * v k w * v m w))) /\ E P (fun w => sumn l (fun k => sumn l (fun m => v i w * v j w * v k w * v m w))) = sumn l (fun k => sumn l (fun m => c i j k m))).
  { intros i j Hi Hj. destruct (int_sumn P l (fun k w => sumn l (fun m => v i w * v j w * v k w * v m w)) (fun k Hk => proj1 (R1 i j k Hi Hj Hk))) as [I V]. split; [exact I|]. rewrite V. apply sumn_ext. intros k Hk. now apply R1. }
  assert (R3 : forall i, (i < l)%nat -> integrable P (fun w => sumn l (fun j => sumn l (fun k => sumn l (fun m => v i w * v j w * v k w * v m w)))) /\ E P (fun w => sumn l (fun j => sumn l (fun k => sumn l (fun m => v i w * v j w * v k w * v m w)))) = sumn l (fun j => sumn l (fun k => sumn l (fun m => c i j k m)))).
  { intros i Hi. destruct (int_sumn P l (fun j w => sumn l (fun k => sumn l (fun m => v i w * v j w * v k w * v m w))) (fun j Hj => proj1 (R2 i j Hi Hj))) as [I V]. split; [exact I|]. rewrite V. apply sumn_ext. intros j Hj. now apply R2. }
  destruct (int_sumn P l (fun i w => sumn l (fun j => sumn l (fun k => sumn l (fun m => v i w * v j w * v k w * v m w)))) (fun i Hi => proj1 (R3 i Hi))) as [I V].
  assert (G : forall w, sumn l (fun i => sumn l (fun j => sumn l (fun k => sumn l (fun m => v i w * v j w * v k w * v m w)))) = sumn l (fun k => v k w) ^ 4).
  { intros w. set (s := sumn l (fun k => v k w)).
    rewrite (sumn_ext l _ (fun i => v i w * (s * s * s))); [rewrite sumn_scal_r; fold s; ring|]. intros i _.
    rewrite (sumn_ext l _ (fun j => v j w * (v i w * s * s))); [rewrite sumn_scal_r; fold s; ring|]. intros j _.
    rewrite (sumn_ext l _ (fun k => v k w * (v i w * v j w * s))); [rewrite sumn_scal_r; fold s; ring|]. intros k _.
    rewrite sumn_scal. fold s. ring. }
  split; [exact (int_ext W P _ _ G I)|]. rewrite <- (E_ext W P _ _ G), V. apply sumn_ext. intros i Hi. now apply R3.
Qed.
Definition dl (i j : nat) : R := if Nat.eq_dec i j then 1 else 0.
Lemma delta_sum l i (f : nat -> R) : (i < l)%nat -> sumn l (fun j => dl i j * f j) = f i.
Proof.
  intros Hi. unfold dl. rewrite (sumn_single l _ i Hi). - destruct (Nat.eq_dec i i) as [_|n]; [ring|now elim n]. - intros j _ ne. destruct (Nat.eq_dec i j) as [e|_]; [subst; now elim ne|ring].
Qed.
Lemma paired_sum l (M : nat -> nat -> nat -> nat -> R) T : (forall i j k m, M i j k m = M i k j m) -> (forall i j k m, M i j k m = M i j m k) -> (forall i k, M i i k k = T i k) ->
  sumn l (fun i => sumn l (fun j => sumn l (fun k => sumn l (fun m => (dl i j * dl k m + dl i k * dl j m + dl i m * dl j k) * M i j k m)))) = 3 * pairs l T.
Proof.
  intros S1 S2 HT. unfold pairs. rewrite <- sumn_scal. apply sumn_ext. intros i Hi.
  rewrite (sumn_ext l _ (fun j => dl i j * sumn l (fun k => M i j k k) + M i j i j + M i j j i)).
  - rewrite 2 sumn_plus. rewrite (delta_sum l i (fun j => sumn l (fun k => M i j k k)) Hi).
    rewrite (sumn_ext l (fun j => M i j i j) (T i)) by (intros j _; now rewrite S1). rewrite (sumn_ext l (fun j => M i j j i) (T i)) by (intros j _; now rewrite S2, S1). rewrite (sumn_ext l (fun k => M i i k k) (T i)) by (intros; apply HT). ring.
  - intros j Hj. rewrite (sumn_ext l _ (fun k => dl i j * M i j k k + dl i k * M i j k j + dl j k * M i j k i)).
    + rewrite 2 sumn_plus, sumn_scal. f_equal; [f_equal|].
      * exact (delta_sum l i (fun k => M i j k j) Hi).
      * exact (delta_sum l j (fun k => M i j k i) Hj).
    + intros k Hk. rewrite (sumn_ext l _ (fun m => dl k m * (dl i j * M i j k m) + dl j m * (dl i k * M i j k m) + dl i m * (dl j k * M i j k m))) by (intros; ring).
      rewrite 2 sumn_plus. rewrite (delta_sum l k (fun m => dl i j * M i j k m) Hk), (delta_sum l j (fun m => dl i k * M i j k m) Hj), (delta_sum l i (fun m => dl j k * M i j k m) Hi). ring.
Qed.
(** ** The fourth moment of a displacement, H = 1/2 *)
Lemma fgn_half sigma N a b : (2 <= N)%nat -> fgn_covariance (1 / 2) sigma (/ INR N) a b = nominal (1 / 2) sigma N * dl a b.
Proof.
  intros HN. assert (n0 : 0 < / INR N) by (apply Rinv_0_lt_compat, lt_0_INR; lia). rewrite C61_brownian by trivial. unfold dl. destruct (Nat.eq_dec a b); [|ring].
  unfold nominal. replace (2 * (1 / 2)) with 1 by field. rewrite Rpower_1 by trivial. ring.
Qed.
Lemma pow_exp4 x : exp x ^ 4 = exp (4 * x).
Proof. replace (4 * x) with (x + x + x + x) by ring. rewrite !exp_plus. ring. Qed.
Section Fourth.
Context {W : Type} (P : expectation W) (sh : shape_arg) (N : nat) (lam L sigma : R) (z0e z0w : W -> option noise) (drawn_w drawn_e : W -> noise) (X : W -> list (list R)).
Hypothesis HR : mrw_run P sh N (1 / 2) lam L sigma z0e z0w drawn_w drawn_e X.
Let g := demeaned N (log_vol_cov lam L).
Lemma disp4 r a l : (r < shape_R sh)%nat -> (a + l < N)%nat ->
  integrable P (fun w => displacement (nth r (X w) []) a l ^ 4) /\
  moment P X 4 r a l = nominal (1 / 2) sigma N ^ 2 * (3 * pairs l (fun i k => exp (2 * g (S (a + i)) (S (a + i)) + 2 * g (S (a + k)) (S (a + k)) + 4 * g (S (a + i)) (S (a + k)) - 2 * (lam ^ 2 * ln L)))).
Proof.
  intros Hr Hl. destruct HR as (EN & HN & HH & [HL1 HLN] & HG & HX).
  destruct (decomposition P sh N (1 / 2) lam L sigma z0e z0w drawn_w drawn_e X EN HN HH ltac:(lra) HLN HG HX r Hr) as (ee & u & Ce & Cu & Ve & Vu & Inc).
  set (K := exp (- (1 / 2 * lam ^ 2 * ln L))) in *. set (v2 := nominal (1 / 2) sigma N).
  set (s := fun i => S (a + i)). set (M := fun i j k m => E P (fun w => exp (u (s i) w + u (s j) w + u (s k) w + u (s m) w))).
  assert (Cw : forall i j k m, (i < l)%nat -> (j < l)%nat -> (k < l)%nat -> (m < l)%nat -> combination (cidx (shape_R sh) (2 * N - 2)) (cvar (fun o => nz (pick (z0w o) (drawn_w o)))) (fun w => u (s i) w + u (s j) w + u (s k) w + u (s m) w)).
  { intros i j k m Hi Hj Hk Hm. apply (comb_plus _ _ (fun w => u (s i) w + u (s j) w + u (s k) w) (u (s m))); [|apply Cu; unfold s; lia]. apply (comb_plus _ _ (fun w => u (s i) w + u (s j) w) (u (s k))); [|apply Cu; unfold s; lia]. apply (comb_plus _ _ (u (s i)) (u (s j))); apply Cu; unfold s; lia. }
  destruct (fourth_moment_sum P (fun i w => increment (nth r (X w) []) (s i)) (fun i j k m => K ^ 4 * v2 ^ 2 * ((dl i j * dl k m + dl i k * dl j m + dl i m * dl j k) * M i j k m)) l) as [I V].
  { intros i j k m Hi Hj Hk Hm.
    destruct (joint_four P _ _ _ _ HG (ee (s i)) (ee (s j)) (ee (s k)) (ee (s m)) _ (Ce (s i) ltac:(unfold s; lia)) (Ce (s j) ltac:(unfold s; lia)) (Ce (s k) ltac:(unfold s; lia)) (Ce (s m) ltac:(unfold s; lia)) (Cw i j k m Hi Hj Hk Hm)) as [J VJ].
    assert (G : forall w, K ^ 4 * (ee (s i) w * ee (s j) w * ee (s k) w * ee (s m) w * exp (u (s i) w + u (s j) w + u (s k) w + u (s m) w)) = increment (nth r (X w) []) (s i) * increment (nth r (X w) []) (s j) * increment (nth r (X w) []) (s k) * increment (nth r (X w) []) (s m)).
    { intros w. rewrite !Inc by (unfold s; lia). rewrite !exp_plus. ring. }
    split; [exact (int_ext W P _ _ G (int_scal W P (K ^ 4) _ J))|]. rewrite <- (E_ext W P _ _ G), (E_scal W P (K ^ 4) _ J), VJ. rewrite !Ve by (unfold s; lia). rewrite !fgn_half by trivial. fold v2.
    assert (Ds : forall i j, dl (s i) (s j) = dl i j). { intros i0 j0. unfold dl, s. destruct (Nat.eq_dec (S (a + i0)) (S (a + j0))), (Nat.eq_dec i0 j0); trivial; lia. }
    rewrite !Ds. unfold M. ring. }
  assert (G : forall w, sumn l (fun i => increment (nth r (X w) []) (s i)) ^ 4 = displacement (nth r (X w) []) a l ^ 4) by (intros; now rewrite disp_sum).
  split; [exact (int_ext W P _ _ G I)|]. unfold moment. rewrite <- (E_ext W P _ _ G), V.
  rewrite (sumn_ext l _ (fun i => K ^ 4 * v2 ^ 2 * sumn l (fun j => sumn l (fun k => sumn l (fun m => (dl i j * dl k m + dl i k * dl j m + dl i m * dl j k) * M i j k m))))).
  2:{ intros i _. rewrite <- sumn_scal. apply sumn_ext. intros j _. rewrite <- sumn_scal. apply sumn_ext. intros k _. rewrite <- sumn_scal. reflexivity. }
  rewrite sumn_scal. rewrite (paired_sum l M (fun i k => M i i k k)); [|intros; apply E_ext; intros; f_equal; ring|intros; apply E_ext; intros; f_equal; ring|reflexivity].
  rewrite (Rmult_comm (K ^ 4)), Rmult_assoc. f_equal. rewrite <- Rmult_assoc, (Rmult_comm (K ^ 4) 3), Rmult_assoc. f_equal. rewrite <- pairs_scal. apply pairs_ext. intros i k Hi Hk. unfold M.
  rewrite (exp_E P _ _ _ _ HG _ (Cw i i k k Hi Hi Hk Hk)). assert (Q := Vu (s i) (s k) 2 ltac:(unfold s; lia) ltac:(unfold s; lia)).
  rewrite (E_ext W P _ (fun w => (2 * (u (s i) w + u (s k) w)) ^ 2)) by (intros; f_equal; ring). rewrite Q. fold g. unfold K. rewrite pow_exp4, <- exp_plus. f_equal. unfold s. field.
Qed.
End Fourth.
(** ** Sums of powers of the lag *)
Lemma power_sum s l : 0 <= s -> s < 1 -> (1 <= l)%nat -> sumn l (fun d => Rpower (INR d + 1) (- s)) <= / (1 - s) * Rpower (INR l) (1 - s).
Proof.
  intros S0 S1 Hl. destruct l as [|l]; [lia|]. clear Hl. assert (i0 : 0 < / (1 - s)) by (apply Rinv_0_lt_compat; lra). induction l as [|l IH].
  - rewrite sumn_S, sumn_0. cbn [INR]. rewrite !Rplus_0_l. unfold Rpower. rewrite ln_1, !Rmult_0_r, exp_0, Rmult_1_r. rewrite <- Rinv_1 at 1. apply Rinv_le_contravar; lra.
  - rewrite sumn_S. set (x := INR (S l)) in *. assert (x0 : 0 < x) by (apply lt_0_INR; lia). replace (INR (S (S l))) with (x + 1) by (unfold x; rewrite (S_INR (S l)); reflexivity).
    destruct (MVT_cor2 (fun t => Rpower t (1 - s)) (fun t => (1 - s) * Rpower t (1 - s - 1)) x (x + 1) ltac:(lra)) as (c & E1 & C1 & C2).
    { intros c Hc. apply derivable_pt_lim_power. lra. }
    replace (1 - s - 1) with (- s) in E1 by ring. replace (x + 1 - x) with 1 in E1 by ring. rewrite Rmult_1_r in E1.
    assert (D : Rpower (x + 1) (- s) <= Rpower c (- s)). { unfold Rpower. apply exp_le. assert (ln c < ln (x + 1)) by (apply ln_increasing; lra). nra. }
    assert (E2 : / (1 - s) * Rpower (x + 1) (1 - s) = / (1 - s) * Rpower x (1 - s) + Rpower c (- s)). { replace (Rpower (x + 1) (1 - s)) with (Rpower x (1 - s) + (1 - s) * Rpower c (- s)) by lra. field. lra. }
    rewrite E2. lra.
Qed.
Lemma lag_pairs s l : 0 <= s -> s < 1 -> (1 <= l)%nat ->
  Rpower (INR l) (2 - s) <= pairs l (fun i k => Rpower (INR (lag i k) + 1) (- s)) <= 2 / (1 - s) * Rpower (INR l) (2 - s).
Proof.
  intros S0 S1 Hl. assert (l0 : 0 < INR l) by (apply lt_0_INR; lia). split.
  - replace (Rpower (INR l) (2 - s)) with (INR l * (INR l * Rpower (INR l) (- s))).
    + unfold pairs. rewrite <- sumn_const. apply sumn_le. intros i Hi. rewrite <- sumn_const. apply sumn_le. intros k Hk. set (d := lag i k). assert (Hd : (d + 1 <= l)%nat) by (unfold d; lia). apply le_INR in Hd. rewrite plus_INR in Hd. cbn [INR] in Hd.
      assert (Pd := pos_INR d). unfold Rpower. apply exp_le. assert (ln (INR d + 1) <= ln (INR l)) by (destruct Hd as [Hd| ->]; [left; apply ln_increasing; lra|right; reflexivity]). nra.
    + rewrite <- (Rpower_1 (INR l)) at 1 2 by trivial. rewrite <- !Rpower_plus. f_equal. ring.
  - replace (2 / (1 - s) * Rpower (INR l) (2 - s)) with (INR l * (2 * (/ (1 - s) * Rpower (INR l) (1 - s)))).
    + unfold pairs. rewrite <- sumn_const. apply sumn_le. intros i Hi. set (f := fun d => Rpower (INR d + 1) (- s)). eapply Rle_trans; [exact (sumn_two_sides f l i (fun d => Rlt_le _ _ (exp_pos _)) Hi)|]. apply Rmult_le_compat_l; [lra|]. now apply power_sum.
    + replace (Rpower (INR l) (2 - s)) with (INR l * Rpower (INR l) (1 - s)); [field; lra|]. rewrite <- (Rpower_1 (INR l)) at 1 by trivial. rewrite <- Rpower_plus. f_equal. ring.
Qed.
Lemma inc4 {W} (P : expectation W) sh N lam L sigma z0e z0w drawn_w drawn_e X : mrw_run P sh N (1 / 2) lam L sigma z0e z0w drawn_w drawn_e X -> forall r b, (r < shape_R sh)%nat -> (b < N)%nat ->
  inc_moment P X 4 r b = nominal (1 / 2) sigma N ^ 2 * (3 * exp (8 * demeaned N (log_vol_cov lam L) b b - 2 * (lam ^ 2 * ln L))).
Proof.
  intros (EN & HN & HH & [HL1 HLN] & HG & HX) r b Hr Hb.
  destruct (sim_facts P sh N (1 / 2) lam L sigma z0e z0w drawn_w drawn_e X EN HN HH ltac:(lra) HLN HG HX r r b b Hr Hr Hb Hb) as (_ & _ & (_ & F)). set (g := demeaned N (log_vol_cov lam L)) in *. set (y := lam ^ 2 * ln L) in *. rewrite fgn_half in F by trivial.
  replace (2 * g b b + 2 * g b b + 4 * g b b - 2 * y) with (8 * g b b - 2 * y) in F by ring. unfold inc_moment. rewrite (E_ext W P _ (fun w => (increment (nth r (X w) []) b * increment (nth r (X w) []) b) ^ 2)) by (intros; ring).
  rewrite F. unfold dl. destruct (Nat.eq_dec b b) as [_|n]; [ring|now elim n].
Qed.
(** H = 1/2: the fourth moment follows the power law of exponent 2 - 4 lam^2 up to the integral scale *)
Theorem C121_order_four : forall W (P : expectation W) sh N lam L sigma z0e z0w drawn_w drawn_e X, 4 * lam ^ 2 < 1 -> mrw_run P sh N (1 / 2) lam L sigma z0e z0w drawn_w drawn_e X ->
  forall r a l b, (r < shape_R sh)%nat -> (1 <= l)%nat -> INR l <= L -> (a + l < N)%nat -> (b < N)%nat ->
  let V := inc_moment P X 4 r b in let T := Rpower (INR l) (2 - 4 * lam ^ 2) in let e := exp (16 * corr lam L N) in
  V * T / e <= moment P X 4 r a l <= V * (2 / (1 - 4 * lam ^ 2) * T) * e.
Proof.
  intros W P sh N lam L sigma z0e z0w drawn_w drawn_e X Hlam HR r a l b Hr Hl HlL Hal Hb V T e.
  destruct (disp4 P sh N lam L sigma z0e z0w drawn_w drawn_e X HR r a l Hr Hal) as [_ ED]. rewrite ED.
  destruct HR as (EN & HN & HH & [HL1 HLN] & HG & HX). set (g := demeaned N (log_vol_cov lam L)) in *. set (y := lam ^ 2 * ln L) in *. set (v2 := nominal (1 / 2) sigma N ^ 2). assert (v0 : 0 <= v2) by apply pow2_ge_0.
  assert (C : forall i k, (i < N)%nat -> (k < N)%nat -> volL lam L (lag i k) - corr lam L N <= g i k <= volL lam L (lag i k) + corr lam L N).
  { intros i k Hi Hk. assert (Q := demeaned_close lam L N i k HL1 ltac:(lia) Hi Hk). rewrite volL_eq in Q. fold g (corr lam L N) in Q. apply abs_between in Q. lra. }
  assert (Cd : forall i, (i < N)%nat -> y - corr lam L N <= g i i <= y + corr lam L N).
  { intros i Hi. assert (Q := C i i Hi Hi). cbv beta in Q. rewrite Nat.max_id, Nat.min_id, Nat.sub_diag, volL_0 in Q by trivial. exact Q. }
  set (cc := corr lam L N) in *. assert (cc0 : 0 <= cc) by (apply corr_nonneg; trivial; lia).
  (* an increment *)
  assert (EV : V = v2 * (3 * exp (8 * g b b - 2 * y))) by exact (inc4 P sh N lam L sigma z0e z0w drawn_w drawn_e X (conj EN (conj HN (conj HH (conj (conj HL1 HLN) (conj HG HX))))) r b Hr Hb).
  assert (Vb := Cd b Hb).
  assert (Lo : v2 * (3 * exp (6 * y - 8 * cc)) <= V <= v2 * (3 * exp (6 * y + 8 * cc))).
  { rewrite EV. split; apply Rmult_le_compat_l; trivial; apply Rmult_le_compat_l; try lra; apply exp_le; lra. }
  set (s := 4 * lam ^ 2) in *. assert (s0 : 0 <= s) by (assert (Q := pow2_ge_0 lam); unfold s; lra).
  assert (Q := lag_pairs s l s0 Hlam Hl). fold T in Q. set (S := pairs l (fun i k => Rpower (INR (lag i k) + 1) (- s))) in *.
  assert (Vl : forall d, (d < l)%nat -> 4 * volL lam L d = 4 * y - s * ln (INR d + 1)).
  { intros d Hd. apply (le_INR (Datatypes.S d)) in Hd. rewrite S_INR in Hd. assert (Pd := pos_INR d). assert (U := volL_far lam L d d ltac:(lra) (le_n d)). assert (Lw : lam ^ 2 * (ln L - ln (INR d + 1)) <= volL lam L d).
    { unfold volL. apply Rmult_le_compat_l; [apply pow2_ge_0|]. assert (i1 : 0 < / (INR d + 1)) by (apply Rinv_0_lt_compat; lra). replace (ln L - ln (INR d + 1)) with (ln (L / (INR d + 1))) by (unfold Rdiv; rewrite ln_mult, ln_Rinv by lra; ring). apply log_plus_ge. unfold Rdiv. apply Rmult_lt_0_compat; lra. }
    unfold s, y. lra. }
  assert (B : exp (6 * y - 8 * cc) * S <= pairs l (fun i k => exp (2 * g (Datatypes.S (a + i)) (Datatypes.S (a + i)) + 2 * g (Datatypes.S (a + k)) (Datatypes.S (a + k)) + 4 * g (Datatypes.S (a + i)) (Datatypes.S (a + k)) - 2 * y)) <= exp (6 * y + 8 * cc) * S).
  { unfold S. rewrite <- !pairs_scal. split; apply pairs_le; intros i k Hi Hk; unfold Rpower; rewrite <- exp_plus; apply exp_le;
      assert (A1 := Cd (Datatypes.S (a + i)) ltac:(lia)); assert (A2 := Cd (Datatypes.S (a + k)) ltac:(lia)); assert (A3 := C (Datatypes.S (a + i)) (Datatypes.S (a + k)) ltac:(lia) ltac:(lia));
      
      assert (LG : (Nat.max (Datatypes.S (a + i)) (Datatypes.S (a + k)) - Nat.min (Datatypes.S (a + i)) (Datatypes.S (a + k)))%nat = (Nat.max i k - Nat.min i k)%nat) by lia; cbv beta in A3; rewrite LG in A3;
      assert (A4 := Vl (Nat.max i k - Nat.min i k)%nat ltac:(lia)); lra. }
  set (D := pairs l (fun i k => exp _)) in *. clearbody D. clearbody S. assert (T0 : 0 < T) by apply exp_pos. assert (e0 : 0 < e) by apply exp_pos.
  assert (P0 : 0 < exp (6 * y - 8 * cc)) by apply exp_pos. assert (P1 : 0 < exp (6 * y + 8 * cc)) by apply exp_pos. assert (Pe : exp (6 * y - 8 * cc) * e = exp (6 * y + 8 * cc)) by (unfold e; rewrite <- exp_plus; f_equal; ring).
  set (Z := 2 / (1 - s) * T) in *. assert (Z0 : 0 < Z) by lra.
  split.
  - apply Rmult_le_reg_r with e; [trivial|]. replace (V * T / e * e) with (V * T) by (field; lra).
    apply Rle_trans with (v2 * (3 * exp (6 * y + 8 * cc)) * T); [apply Rmult_le_compat_r; lra|]. rewrite <- Pe.
    replace (v2 * (3 * (exp (6 * y - 8 * cc) * e)) * T) with (v2 * 3 * e * (exp (6 * y - 8 * cc) * T)) by ring. replace (v2 * (3 * D) * e) with (v2 * 3 * e * D) by ring.
    apply Rmult_le_compat_l; [apply Rmult_le_pos; lra|]. eapply Rle_trans; [|apply B]. apply Rmult_le_compat_l; lra.
  - apply Rle_trans with (v2 * (3 * (exp (6 * y + 8 * cc) * Z))).
    + apply Rmult_le_compat_l; [trivial|]. apply Rmult_le_compat_l; [lra|]. eapply Rle_trans; [apply B|]. apply Rmult_le_compat_l; lra.
    + rewrite <- Pe. replace (v2 * (3 * (exp (6 * y - 8 * cc) * e * Z))) with (v2 * (3 * exp (6 * y - 8 * cc)) * (Z * e)) by ring. rewrite (Rmult_assoc V). apply Rmult_le_compat_r; [apply Rmult_le_pos; lra|apply Lo].
Qed.
(** with c1 + c2 = 1/2 the walk made by mrw_cumul has the log-cumulants asked for, as far as moments of order two and four tell: up to the integral scale they
    follow the power laws of exponents 2 c1 + 2 c2 and 4 c1 + 8 c2, within constants that do not depend on the scale, on L or on N *)
Theorem C121_cumulants : forall W (P : expectation W) sh N c1 c2 L sigma z0e z0w drawn_w drawn_e X, c1 + c2 = 1 / 2 -> - (1 / 4) < c2 <= 0 -> cumul_run P sh N c1 c2 L sigma z0e z0w drawn_w drawn_e X -> 64 * L * ln L <= INR N ->
  forall r a l b, (r < shape_R sh)%nat -> (1 <= l)%nat -> INR l <= L -> (a + l < N)%nat -> (b < N)%nat ->
  let law q := Rpower (INR l) (scaling_exponent c1 c2 q) in
  (exp c2 * law 2 * inc_moment P X 2 r b <= moment P X 2 r a l <= exp (- c2) * law 2 * inc_moment P X 2 r b) /\
  (exp c2 * law 4 * inc_moment P X 4 r b <= moment P X 4 r a l <= 2 * exp (- c2) / (1 + 4 * c2) * law 4 * inc_moment P X 4 r b).
Proof.
  intros W P sh N c1 c2 L sigma z0e z0w drawn_w drawn_e X E1 Hc RUN H64 r a l b Hr Hl HlL Hal Hb law. apply cumul_is_mrw in RUN; [|lra]. rewrite E1 in RUN. set (lam := sqrt (- c2)) in *.
  assert (lam2 : lam ^ 2 = - c2) by (unfold lam; rewrite <- Rsqr_pow2; apply Rsqr_sqrt; lra). assert (l0 : 0 < INR l) by (apply lt_0_INR; lia).
  assert (CS := corr_small lam L N ltac:(apply RUN) ltac:(destruct RUN as (_ & Q & _); lia) H64). rewrite lam2 in CS. assert (c0 : 0 <= corr lam L N) by (apply corr_nonneg; [apply RUN|destruct RUN as (_ & Q & _); lia]).
  assert (L2 : law 2 = INR l) by (unfold law, scaling_exponent; replace (c1 * 2 + c2 * 2 ^ 2 / 2) with (2 * (c1 + c2)) by field; rewrite E1; replace (2 * (1 / 2)) with 1 by field; now apply Rpower_1).
  assert (L4 : law 4 = Rpower (INR l) (2 - 4 * lam ^ 2)) by (unfold law, scaling_exponent; rewrite lam2; f_equal; replace (c1 * 4 + c2 * 4 ^ 2 / 2) with (4 * (c1 + c2) + 4 * c2) by field; rewrite E1; field).
  assert (p0 : 0 < exp (- c2)) by apply exp_pos. assert (q0 : 0 < exp c2) by apply exp_pos. split.
  - destruct (C121_brownian W P sh N lam L sigma z0e z0w drawn_w drawn_e X RUN r a l b Hr Hal Hb) as [A B]. rewrite L2. set (V := inc_moment P X 2 r b) in *.
    assert (V0 : 0 <= V * INR l). { destruct RUN as (EN & HN & HH & [HL1 HLN] & HG & HX). destruct (inc2 P sh N (1 / 2) lam L sigma z0e z0w drawn_w drawn_e X EN HN HH HL1 HLN HG HX r b Hr Hb) as (v & _ & Ev). apply Rmult_le_pos; [|lra]. unfold V, inc_moment. rewrite Ev. apply Rmult_le_pos; [apply nominal_nonneg|left; apply exp_pos]. }
    assert (X1 : exp c2 <= exp (- (4 * corr lam L N))) by (apply exp_le; lra). assert (X2 : exp (4 * corr lam L N) <= exp (- c2)) by (apply exp_le; lra). split.
    + eapply Rle_trans; [|exact A]. replace (exp c2 * INR l * V) with (V * INR l * exp c2) by ring. now apply Rmult_le_compat_l.
    + eapply Rle_trans; [exact B|]. replace (exp (- c2) * INR l * V) with (V * INR l * exp (- c2)) by ring. now apply Rmult_le_compat_l.
  - destruct (C121_order_four W P sh N lam L sigma z0e z0w drawn_w drawn_e X ltac:(lra) RUN r a l b Hr Hl HlL Hal Hb) as [A B]. rewrite <- L4 in A, B. set (V := inc_moment P X 4 r b) in *. set (T := law 4) in *. assert (T0 : 0 < T) by apply exp_pos.
    assert (V0 : 0 <= V * T). { apply Rmult_le_pos; [|lra]. unfold V. rewrite (inc4 P sh N lam L sigma z0e z0w drawn_w drawn_e X RUN r b Hr Hb). apply Rmult_le_pos; [apply pow2_ge_0|]. apply Rmult_le_pos; [lra|left; apply exp_pos]. }
    assert (X2 : exp (16 * corr lam L N) <= exp (- c2)) by (apply exp_le; lra). set (e := exp (16 * corr lam L N)) in *. assert (e0 : 0 < e) by apply exp_pos. split.
    + eapply Rle_trans; [|exact A]. replace (exp c2 * T * V) with (V * T * exp c2) by ring. unfold Rdiv. apply Rmult_le_compat_l; [trivial|]. unfold e. rewrite <- exp_Ropp. apply exp_le. lra.
    + eapply Rle_trans; [exact B|]. rewrite lam2. replace (1 - 4 * - c2) with (1 + 4 * c2) by ring. replace (2 * exp (- c2) / (1 + 4 * c2) * T * V) with (V * (2 / (1 + 4 * c2) * T) * exp (- c2)) by (field; lra).
      apply Rmult_le_compat_l; [|trivial]. replace (V * (2 / (1 + 4 * c2) * T)) with (2 / (1 + 4 * c2) * (V * T)) by ring. apply Rmult_le_pos; [|trivial]. left. apply Rdiv_lt_0_compat; lra.
Qed.
