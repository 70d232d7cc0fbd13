(** * C120: statistics of the multifractal random walk *)
From Coq Require Import Reals List ZArith Bool Lra Lia String.
From Verif Require Import XReal PyBase ModelSimul Spec SpecSimul LXReal LBase LDft LSimul LCirc LFgn LFgnCov LNoise LMrw LBivariate PropsSimul PropsMrw LWick PropsFluct.
Import ListNotations.
Open Scope R_scope.
Local Notation length := List.length.

(** ** Specification *)
(** every linear combination has the exponential moment of a centred Gaussian variable of its variance *)
Definition exp_moments {W I} (P : expectation W) (idx : I -> Prop) (z : I -> W -> R) : Prop :=
  forall f, combination idx z f -> integrable P (fun w => exp (f w)) /\ E P (fun w => exp (f w)) = exp (E P (fun w => f w ^ 2) / 2).
(** the two families are independent, as far as powers up to four of combinations of the first and exponentials of combinations of the second are concerned *)
Definition independent_exp {W I J} (P : expectation W) (idx : I -> Prop) (z : I -> W -> R) (jdx : J -> Prop) (y : J -> W -> R) : Prop :=
  forall f g k, (k <= 4)%nat -> combination idx z f -> combination jdx y g ->
    integrable P (fun w => f w ^ k * exp (g w)) /\ E P (fun w => f w ^ k * exp (g w)) = E P (fun w => f w ^ k) * E P (fun w => exp (g w)).
(** two independent arrays of complex Gaussian noise of shape (n, R) *)
Definition gaussian_pair {W} (P : expectation W) (R n : nat) (ze zw : W -> list (list (Rdefinitions.R * Rdefinitions.R))) : Prop :=
  gaussian_complex P R n ze /\ white_complex P R n zw /\ exp_moments P (cidx R n) (cvar zw) /\ independent_exp P (cidx R n) (cvar ze) (cidx R n) (cvar zw).
(** increments of a series that starts from 0 *)
Definition increment (x : list R) (k : nat) : R := nth k x 0 - match k with O => 0 | S k' => nth k' x 0 end.
(** covariance of the log-volatility *)
Definition log_vol_cov (lam L : R) (a b : nat) : R := lam ^ 2 * log_plus (L / (Rabs (INR a - INR b) + 1)).
(** covariance of a process of covariance c once its time average over N samples is removed *)
Definition demeaned (N : nat) (c : nat -> nat -> R) (a b : nat) : R :=
  c a b - sumn N (c a) / INR N - sumn N (fun k => c k b) / INR N + sumn N (fun k => sumn N (c k)) / INR N / INR N.

(** ** The log-volatility is a linear combination of its noise *)
Lemma gw_linear {W} N Rn (L lam : R) (z0 : W -> option noise) (drawn : W -> noise) (X : W -> list (list R)) :
  (2 <= N)%nat -> 0 < L -> L <= INR N -> (forall o, shaped Rn (2 * N - 2) (nz (pick (z0 o) (drawn o)))) ->
  (forall o, gaussian_w N L lam 1 "cme" (z0 o) (drawn o) = Ok (X o, false)) ->
  forall r i, (r < Rn)%nat -> (i < N)%nat -> combination (cidx Rn (2 * N - 2)) (cvar (fun o => nz (pick (z0 o) (drawn o)))) (fun o => nth i (nth r (X o) []) 0).
Proof.
  intros HN HL HLN HZ EX r i Hr Hi.
  destruct (rho_w_eq N L 1 HL Rlt_0_1 ltac:(unfold Rdiv; rewrite Rinv_1, Rmult_1_r; exact HLN)) as [rho [E1 [E2 _]]].
  set (cov := map (fun r => lam ^ 2 * ln r) rho). assert (Lc : length cov = N) by (unfold cov; now rewrite map_length).
  assert (G : forall o, X o = map (fun r => map (cme_val cov N (nz (pick (z0 o) (drawn o))) r) (seq 0 N)) (seq 0 Rn)).
  { intros o. assert (HZo := HZ o). replace (2 * N - 2)%nat with (2 * (N - 1))%nat in HZo by lia.
    assert (K := EX o). unfold gaussian_w in K. rewrite E1 in K. cbn [bind String.eqb Ascii.eqb Bool.eqb andb] in K.
    change (map (fun r => lam ^ 2 * ln r) rho) with cov in K. rewrite (cme_eq cov N HN Lc Rn _ HZo) in K. now injection K as <- _. }
  apply (comb_ext _ _ (fun o => sumn (2 * (2 * (N - 1))) (fun l => cme_coef cov N i l * cme_noise N (nz (pick (z0 o) (drawn o))) r l))).
  - intros o. rewrite G. rewrite (nth_map_lt _ _ _ 0%nat) by (now rewrite seq_length). rewrite seq_nth by trivial. rewrite (nth_map_lt _ _ _ 0%nat) by (now rewrite seq_length). rewrite seq_nth by trivial. reflexivity.
  - apply comb_sumn. intros l Hl. apply (comb_scal _ _ (cme_coef cov N i l)). unfold cme_noise. destruct (Nat.ltb_spec l (2 * (N - 1))).
    + apply (comb_ext _ _ (cvar (fun o => nz (pick (z0 o) (drawn o))) (r, l, false))); [reflexivity|]. apply comb_gen. split; cbn [fst snd]; lia.
    + apply (comb_ext _ _ (cvar (fun o => nz (pick (z0 o) (drawn o))) (r, l - 2 * (N - 1), true)%nat)); [reflexivity|]. apply comb_gen. split; cbn [fst snd]; lia.
Qed.

(** ** Second moments of demeaned variables *)
Section Moments.
Context {W : Type} (P : expectation W) (N : nat) (v : nat -> W -> R) (c : nat -> nat -> R).
Hypothesis Hv : forall a b, (a < N)%nat -> (b < N)%nat -> integrable P (fun w => v a w * v b w) /\ E P (fun w => v a w * v b w) = c a b.
Definition vbar (w : W) : R := sumn N (fun k => v k w) / INR N.
Lemma int_sumn n (f : nat -> W -> R) : (forall k, (k < n)%nat -> integrable P (f k)) -> integrable P (fun w => sumn n (fun k => f k w)) /\ E P (fun w => sumn n (fun k => f k w)) = sumn n (fun k => E P (f k)).
Proof.
  induction n as [|n IH]; intros H.
  - split; [apply (int_ext W P (fun _ => 0)); [reflexivity|apply int_zero]|]. rewrite (E_ext W P _ (fun _ => 0)) by reflexivity. apply E_zero.
  - destruct (IH (fun k Hk => H k ltac:(lia))) as [I1 V1]. assert (Hn := H n ltac:(lia)). split.
    + apply (int_ext W P (fun w => sumn n (fun k => f k w) + f n w)); [intros w; now rewrite sumn_S|]. now apply int_plus.
    + rewrite (E_ext W P _ (fun w => sumn n (fun k => f k w) + f n w)) by (intros w; now rewrite sumn_S). rewrite (E_plus W P _ _ I1 Hn), V1, sumn_S. reflexivity.
Qed.
Lemma mom_bar a : (a < N)%nat -> integrable P (fun w => v a w * vbar w) /\ E P (fun w => v a w * vbar w) = sumn N (c a) / INR N.
Proof using Hv.
  intros Ha. destruct (int_sumn N (fun k w => v a w * v k w) (fun k Hk => proj1 (Hv a k Ha Hk))) as [I1 V1].
  assert (G : forall w, / INR N * sumn N (fun k => v a w * v k w) = v a w * vbar w) by (intros w; unfold vbar; rewrite sumn_scal; unfold Rdiv; ring).
  split; [apply (int_ext W P _ _ G); now apply (int_scal W P (/ INR N) (fun w => sumn N (fun k => v a w * v k w)))|].
  rewrite <- (E_ext W P _ _ G), (E_scal W P (/ INR N) _ I1), V1. rewrite (sumn_ext N _ (c a)) by (intros k Hk; now apply Hv). unfold Rdiv. ring.
Qed.
Lemma mom_bar' b : (b < N)%nat -> E P (fun w => v b w * vbar w) = sumn N (fun k => c k b) / INR N.
Proof using Hv.
  intros Hb. rewrite (proj2 (mom_bar b Hb)). f_equal. apply sumn_ext. intros k Hk. rewrite <- (proj2 (Hv b k Hb Hk)), <- (proj2 (Hv k b Hk Hb)). apply E_ext. intros; ring.
Qed.
Lemma mom_bar2 : integrable P (fun w => vbar w * vbar w) /\ E P (fun w => vbar w * vbar w) = sumn N (fun k => sumn N (c k)) / INR N / INR N.
Proof using Hv.
  destruct (int_sumn N (fun k w => v k w * vbar w) (fun k Hk => proj1 (mom_bar k Hk))) as [I1 V1].
  assert (G : forall w, / INR N * sumn N (fun k => v k w * vbar w) = vbar w * vbar w) by (intros w; rewrite sumn_scal_r; unfold vbar at 3; unfold Rdiv; ring).
  split; [apply (int_ext W P _ _ G); now apply (int_scal W P (/ INR N) (fun w => sumn N (fun k => v k w * vbar w)))|].
  rewrite <- (E_ext W P _ _ G), (E_scal W P (/ INR N) _ I1), V1. rewrite (sumn_ext N _ (fun k => sumn N (c k) / INR N)) by (intros k Hk; now apply mom_bar).
  unfold Rdiv. rewrite sumn_scal_r. ring.
Qed.
(** covariance of the demeaned variables *)
Lemma mom_dem a b : (a < N)%nat -> (b < N)%nat -> integrable P (fun w => (v a w - vbar w) * (v b w - vbar w)) /\ E P (fun w => (v a w - vbar w) * (v b w - vbar w)) = demeaned N c a b.
Proof using Hv.
  intros Ha Hb. destruct (Hv a b Ha Hb) as [I1 V1]. destruct (mom_bar a Ha) as [I2 V2]. destruct (mom_bar b Hb) as [I3 _]. assert (V3 := mom_bar' b Hb). destruct mom_bar2 as [I4 V4].
  assert (G : forall w, v a w * v b w + (-1 * (v a w * vbar w) + (-1 * (v b w * vbar w) + vbar w * vbar w)) = (v a w - vbar w) * (v b w - vbar w)) by (intros; ring).
  assert (J2 := int_scal W P (-1) _ I2). assert (J3 := int_scal W P (-1) _ I3). cbv beta in J2, J3. assert (K3 := int_plus W P _ _ J3 I4). assert (K2 := int_plus W P _ _ J2 K3). cbv beta in K2, K3.
  split; [apply (int_ext W P _ _ G); now apply int_plus|]. rewrite <- (E_ext W P _ _ G).
  rewrite (E_plus W P _ _ I1 K2), (E_plus W P _ _ J2 K3), (E_plus W P _ _ J3 I4), (E_scal W P _ _ I2), (E_scal W P _ _ I3), V1, V2, V3, V4. unfold demeaned. ring.
Qed.
(** variance of a sum s (v_a + v_b - 2 mean) *)
Lemma mom_pair s a b : (a < N)%nat -> (b < N)%nat -> E P (fun w => (s * ((v a w - vbar w) + (v b w - vbar w))) ^ 2) = s ^ 2 * (demeaned N c a a + 2 * demeaned N c a b + demeaned N c b b).
Proof using Hv.
  intros Ha Hb. destruct (mom_dem a a Ha Ha) as [I1 V1]. destruct (mom_dem a b Ha Hb) as [I2 V2]. destruct (mom_dem b b Hb Hb) as [I3 V3].
  assert (G : forall w, s ^ 2 * ((v a w - vbar w) * (v a w - vbar w) + (2 * ((v a w - vbar w) * (v b w - vbar w)) + (v b w - vbar w) * (v b w - vbar w))) = (s * ((v a w - vbar w) + (v b w - vbar w))) ^ 2) by (intros; ring).
  assert (J2 := int_scal W P 2 _ I2). cbv beta in J2. assert (K2 := int_plus W P _ _ J2 I3). cbv beta in K2. assert (K1 := int_plus W P _ _ I1 K2). cbv beta in K1.
  rewrite <- (E_ext W P _ _ G), (E_scal W P _ _ K1), (E_plus W P _ _ I1 K2), (E_plus W P _ _ J2 I3), (E_scal W P _ _ I2), V1, V2, V3. ring.
Qed.
End Moments.

(** ** Products of combinations of one noise with the exponential of a combination of the other *)
Section Joint.
Context {W : Type} (P : expectation W) (Rn n : nat) (ze zw : W -> list (list (R * R))).
Hypothesis HG : gaussian_pair P Rn n ze zw.
Notation combe := (combination (cidx Rn n) (cvar ze)).
Notation combw := (combination (cidx Rn n) (cvar zw)).
Lemma comb_sub {I} (idx : I -> Prop) (z : I -> W -> R) f g : combination idx z f -> combination idx z g -> combination idx z (fun w => f w - g w).
Proof. intros Hf Hg. apply (comb_ext _ _ (fun w => f w + -1 * g w)); [intros; ring|]. apply comb_plus; [trivial|now apply comb_scal]. Qed.
Lemma exp_E g : combw g -> E P (fun w => exp (g w)) = exp (E P (fun w => g w ^ 2) / 2).
Proof using HG. intros Hg. now apply HG. Qed.
Lemma joint1 f g : combe f -> combw g -> integrable P (fun w => f w * exp (g w)) /\ E P (fun w => f w * exp (g w)) = 0.
Proof using HG.
  intros Hf Hg. destruct HG as ((Hw & _) & _ & _ & HI). destruct (HI f g 1%nat ltac:(lia) Hf Hg) as [I1 V1].
  assert (G : forall w, f w ^ 1 * exp (g w) = f w * exp (g w)) by (intros; ring).
  split; [exact (int_ext W P _ _ G I1)|]. rewrite <- (E_ext W P _ _ G), V1. rewrite (E_ext W P (fun w => f w ^ 1) f) by (intros; ring).
  rewrite (proj2 (comb_int _ _ P (proj2 Hw) f Hf)). ring.
Qed.
Lemma joint2 f f' g : combe f -> combe f' -> combw g -> integrable P (fun w => f w * f' w * exp (g w)) /\ E P (fun w => f w * f' w * exp (g w)) = E P (fun w => f w * f' w) * E P (fun w => exp (g w)).
Proof using HG.
  intros Hf Hf' Hg. destruct HG as ((Hw & _) & _ & _ & HI).
  destruct (HI _ g 2%nat ltac:(lia) (comb_plus _ _ f f' Hf Hf') Hg) as [I1 V1]. destruct (HI _ g 2%nat ltac:(lia) (comb_sub _ _ f f' Hf Hf') Hg) as [I2 V2]. cbv beta in *.
  assert (S2 : forall s, integrable P (fun w => (f w + s * f' w) ^ 2) /\ E P (fun w => (f w + s * f' w) ^ 2) = E P (fun w => f w * f w) + 2 * s * E P (fun w => f w * f' w) + s * s * E P (fun w => f' w * f' w)).
  { intros s. assert (A := comb_int2 _ _ P (proj2 Hw) f f Hf Hf). assert (B := comb_int2 _ _ P (proj2 Hw) f f' Hf Hf'). assert (C := comb_int2 _ _ P (proj2 Hw) f' f' Hf' Hf').
    assert (J1 := int_scal W P (2 * s) _ B). assert (J2 := int_scal W P (s * s) _ C). cbv beta in J1, J2. assert (K1 := int_plus W P _ _ J1 J2). cbv beta in K1.
    assert (G : forall w, f w * f w + (2 * s * (f w * f' w) + s * s * (f' w * f' w)) = (f w + s * f' w) ^ 2) by (intros; ring).
    split; [apply (int_ext W P _ _ G); now apply int_plus|]. rewrite <- (E_ext W P _ _ G), (E_plus W P _ _ A K1), (E_plus W P _ _ J1 J2), (E_scal W P _ _ B), (E_scal W P _ _ C). ring. }
  rewrite (E_ext W P (fun w => (f w + f' w) ^ 2) (fun w => (f w + 1 * f' w) ^ 2)) in V1 by (intros; ring). rewrite (proj2 (S2 1)) in V1.
  rewrite (E_ext W P (fun w => (f w - f' w) ^ 2) (fun w => (f w + -1 * f' w) ^ 2)) in V2 by (intros; ring). rewrite (proj2 (S2 (-1))) in V2.
  assert (G : forall w, / 4 * ((f w + f' w) ^ 2 * exp (g w)) + - / 4 * ((f w - f' w) ^ 2 * exp (g w)) = f w * f' w * exp (g w)) by (intros; field).
  assert (J1 := int_scal W P (/ 4) _ I1). assert (J2 := int_scal W P (- / 4) _ I2). cbv beta in J1, J2.
  split; [apply (int_ext W P _ _ G); now apply int_plus|]. rewrite <- (E_ext W P _ _ G), (E_plus W P _ _ J1 J2), (E_scal W P _ _ I1), (E_scal W P _ _ I2), V1, V2. field.
Qed.
Lemma joint4 f f' g : combe f -> combe f' -> combw g ->
  integrable P (fun w => (f w * f w) * (f' w * f' w) * exp (g w)) /\
  E P (fun w => (f w * f w) * (f' w * f' w) * exp (g w)) = (E P (fun w => f w * f w) * E P (fun w => f' w * f' w) + 2 * E P (fun w => f w * f' w) ^ 2) * E P (fun w => exp (g w)).
Proof using HG.
  intros Hf Hf' Hg. destruct HG as ((Hw & H4) & _ & _ & HI).
  destruct (comb_wick _ _ P (proj2 Hw) H4 f f' Hf Hf') as [_ VW].
  assert (Hp := comb_plus _ _ f f' Hf Hf'). assert (Hm := comb_sub _ _ f f' Hf Hf').
  destruct (HI _ g 4%nat ltac:(lia) Hp Hg) as [I1 V1]. destruct (HI _ g 4%nat ltac:(lia) Hm Hg) as [I2 V2].
  destruct (HI _ g 4%nat ltac:(lia) Hf Hg) as [I3 V3]. destruct (HI _ g 4%nat ltac:(lia) Hf' Hg) as [I4 V4]. cbv beta in *.
  assert (G : forall w, / 12 * ((f w + f' w) ^ 4 * exp (g w) + (f w - f' w) ^ 4 * exp (g w)) + - / 6 * (f w ^ 4 * exp (g w) + f' w ^ 4 * exp (g w)) = (f w * f w) * (f' w * f' w) * exp (g w)) by (intros; field).
  assert (G' : forall w, / 12 * ((f w + f' w) ^ 4 + (f w - f' w) ^ 4) + - / 6 * (f w ^ 4 + f' w ^ 4) = f w * f w * (f' w * f' w)) by (intros; field).
  assert (K1 := int_plus W P _ _ I1 I2). assert (K2 := int_plus W P _ _ I3 I4). cbv beta in K1, K2. assert (J1 := int_scal W P (/ 12) _ K1). assert (J2 := int_scal W P (- / 6) _ K2). cbv beta in J1, J2.
  split; [apply (int_ext W P _ _ G); now apply int_plus|]. rewrite <- VW, <- (E_ext W P _ _ G), <- (E_ext W P _ _ G').
  assert (F : forall h, combe h -> integrable P (fun w => h w ^ 4)) by (intros h Hh; now apply H4).
  assert (K1' := int_plus W P _ _ (F _ Hp) (F _ Hm)). assert (K2' := int_plus W P _ _ (F _ Hf) (F _ Hf')). cbv beta in K1', K2'. assert (J1' := int_scal W P (/ 12) _ K1'). assert (J2' := int_scal W P (- / 6) _ K2'). cbv beta in J1', J2'.
  rewrite (E_plus W P _ _ J1 J2), (E_scal W P _ _ K1), (E_scal W P _ _ K2), (E_plus W P _ _ I1 I2), (E_plus W P _ _ I3 I4), V1, V2, V3, V4.
  rewrite (E_plus W P _ _ J1' J2'), (E_scal W P _ _ K1'), (E_scal W P _ _ K2'), (E_plus W P _ _ (F _ Hp) (F _ Hm)), (E_plus W P _ _ (F _ Hf) (F _ Hf')). ring.
Qed.
End Joint.

(** ** The random walk *)
Lemma map_map2 {A B C D} (f : A -> B -> C) (g : C -> D) : forall x y, map g (map2 f x y) = map2 (fun a b => g (f a b)) x y.
Proof. induction x as [|a x IH]; intros [|b y]; try reflexivity. rewrite !map2_cons. cbn [map]. now rewrite IH. Qed.
Lemma nth_map2_lt {A B C} (f : A -> B -> C) da db dc : forall x y k, (k < length x)%nat -> (k < length y)%nat -> nth k (map2 f x y) dc = f (nth k x da) (nth k y db).
Proof. induction x as [|a x IH]; intros [|b y] k Hx Hy; cbn [length] in *; try lia. rewrite map2_cons. destruct k as [|k]; [reflexivity|]. cbn [nth]. apply IH; lia. Qed.
Lemma increment_cumsum c k : (k < length c)%nat -> increment (cumsum c) k = nth k c 0.
Proof.
  intros Hk. unfold increment. rewrite cumsum_nth by trivial. destruct k as [|k]; [unfold sumn; cbn; ring|]. rewrite cumsum_nth by lia. rewrite (sumn_S (S k)). ring.
Qed.
Definition walk (lam L : R) (e v : list (list R)) : list (list R) := map2 (fun ec wc => cumsum (map2 (fun a b => a * exp b) ec (centred lam L wc))) e v.
Lemma walk_increment lam L Rn N e v r k : shaped Rn N e -> shaped Rn N v -> (r < Rn)%nat -> (k < N)%nat ->
  increment (nth r (walk lam L e v) []) k = nth k (nth r e []) 0 * exp (nth k (nth r v []) 0 - sumn N (fun l => nth l (nth r v []) 0) / INR N) * exp (- (1 / 2 * lam ^ 2 * ln L)).
Proof.
  intros [Le Fe] [Lv Fv] Hr Hk. unfold walk. rewrite (nth_map2_lt _ [] [] []) by lia.
  assert (Ne : length (nth r e []) = N) by (rewrite Forall_forall in Fe; apply Fe, nth_In; lia). assert (Nv : length (nth r v []) = N) by (rewrite Forall_forall in Fv; apply Fv, nth_In; lia).
  set (ec := nth r e []) in *. set (vc := nth r v []) in *.
  rewrite increment_cumsum by (rewrite map2_length; unfold centred; rewrite map_length; lia).
  unfold centred. rewrite (nth_map2_lt _ 0 0 0) by (rewrite ?map_length; lia). rewrite (nth_map_lt _ _ _ 0) by lia.
  rewrite (Rmult_assoc _ (exp _) (exp _)). rewrite <- exp_plus. do 2 f_equal. unfold mean. rewrite Nv. rewrite sumn_Rsum.
  replace (map (fun l => nth l vc 0) (seq 0 N)) with vc; [unfold Rsum; ring|]. rewrite <- Nv. clear. induction vc as [|x vc IH]; [reflexivity|]. cbn [length seq map nth]. f_equal. rewrite <- seq_shift, map_map. exact IH.
Qed.
Section Main.
Context {W : Type} (P : expectation W) (sh : shape_arg) (N : nat) (H lam L sigma : R) (z0e z0w : W -> option noise) (drawn_w drawn_e : W -> noise).
Hypothesis EN : shape_N sh = N.
Hypothesis HN : (2 <= N)%nat.
Hypothesis HH : 0 < H <= 1.
Hypothesis HL : 0 < L.
Hypothesis HLN : L <= INR N.
Hypothesis HG : gaussian_pair P (shape_R sh) (2 * N - 2) (fun o => nz (drawn_e o)) (fun o => nz (pick (z0w o) (drawn_w o))).
Let g := demeaned N (log_vol_cov lam L).
Let gam := fgn_covariance H sigma (/ INR N).
(** what is known of a simulated walk: first, second and fourth order statistics of its increments *)
Lemma walk_facts : exists X, (forall w, mrw sh H (Some lam) L sigma "cme" (z0e w) (z0w w) (drawn_w w) (drawn_e w) = Ok (presented sh (map (map Fin) (X w)))) /\
  (forall w, shaped (shape_R sh) N (X w)) /\
  forall r r' a b, (r < shape_R sh)%nat -> (r' < shape_R sh)%nat -> (a < N)%nat -> (b < N)%nat ->
    (integrable P (fun w => increment (nth r (X w) []) a) /\ E P (fun w => increment (nth r (X w) []) a) = 0) /\
    (integrable P (fun w => increment (nth r (X w) []) a * increment (nth r' (X w) []) b) /\
     E P (fun w => increment (nth r (X w) []) a * increment (nth r' (X w) []) b) =
       if Nat.eq_dec r r' then gam a b * exp (g a a / 2 + g b b / 2 + g a b - lam ^ 2 * ln L) else 0) /\
    (integrable P (fun w => (increment (nth r (X w) []) a * increment (nth r (X w) []) b) ^ 2) /\
     E P (fun w => (increment (nth r (X w) []) a * increment (nth r (X w) []) b) ^ 2) =
       (gam a a * gam b b + 2 * gam a b ^ 2) * exp (2 * g a a + 2 * g b b + 4 * g a b - 2 * (lam ^ 2 * ln L))).
Proof.
  assert (Hst : sampling_step None N (/ INR N)) by (right; auto).
  destruct HG as ((HWe & H4) & HWw & _ & _).
  destruct (C61_fgn W P (SPair N (shape_R sh)) N H sigma None (/ INR N) None drawn_e eq_refl HN Hst HH HWe) as (e & Ee & Se & Me & Ce).
  assert (HLN1 : L / 1 <= INR N) by (unfold Rdiv; rewrite Rinv_1, Rmult_1_r; exact HLN).
  destruct (C60_log_volatility W P N (shape_R sh) L lam 1 z0w drawn_w HN HL Rlt_0_1 HLN1 HWw) as (v & Ev & Sv & Mv & Cv).
  assert (Le := fun r i Hr Hi => fgn_linear (SPair N (shape_R sh)) N H sigma None (/ INR N) None drawn_e e eq_refl HN Hst HH (proj1 HWe) Ee Se r i Hr Hi). cbn [shape_R] in Le, Se, Me, Ce.
  assert (Lv := gw_linear N (shape_R sh) L lam z0w drawn_w v HN HL HLN (proj1 HWw) Ev).
  exists (fun w => walk lam L (e w) (v w)).
  assert (SX : forall w, shaped (shape_R sh) N (walk lam L (e w) (v w))).
  { intros w. destruct (Se w) as [L1 F1], (Sv w) as [L2 F2]. split; [unfold walk; rewrite map2_length; lia|]. apply Forall_forall. intros c Hc. apply (In_nth _ _ []) in Hc as (r & Hr & <-).
    unfold walk in Hr. rewrite map2_length in Hr. unfold walk. rewrite (nth_map2_lt _ [] [] []) by lia. rewrite cumsum_length, map2_length. unfold centred. rewrite map_length.
    rewrite Forall_forall in F1, F2. rewrite F1, F2 by (apply nth_In; lia). lia. }
  assert (z0 : forall w, fgn (SPair N (shape_R sh)) H sigma None "cme" (z0e w) (drawn_e w) = Ok (Arr2 (e w), false)).
  { intros w. exact (Ee w). }
  split; [|split; [exact SX|]].
  { intros w. destruct (C73_mrw_values sh N H lam L sigma (z0e w) (z0w w) (drawn_w w) (drawn_e w) (v w) (e w) false false EN HN ltac:(lra) HL HLN (proj1 HWw w) (proj1 HWe w) (Ev w) (z0 w)) as [Q _].
    rewrite Q. unfold walk. do 2 f_equal. rewrite map_map2. reflexivity. }
  intros r r' a b Hr Hr' Ha Hb.
  set (ee := fun r a w => nth a (nth r (e w) []) 0). set (vv := fun r a w => nth a (nth r (v w) []) 0). set (K := exp (- (1 / 2 * lam ^ 2 * ln L))).
  assert (KK : K * K = exp (- (lam ^ 2 * ln L))) by (unfold K; rewrite <- exp_plus; f_equal; field).
  set (u := fun r a w => vv r a w - vbar N (vv r) w).
  assert (Inc : forall r a w, (r < shape_R sh)%nat -> (a < N)%nat -> increment (nth r (walk lam L (e w) (v w)) []) a = ee r a w * exp (u r a w) * K).
  { intros r0 a0 w Hr0 Ha0. rewrite (walk_increment lam L (shape_R sh) N) by trivial. reflexivity. }
  assert (Lb : forall r, (r < shape_R sh)%nat -> combination (cidx (shape_R sh) (2 * N - 2)) (cvar (fun o => nz (pick (z0w o) (drawn_w o)))) (vbar N (vv r))).
  { intros r0 Hr0. apply (comb_ext _ _ (fun w => / INR N * sumn N (fun k => vv r0 k w))); [intros w; unfold vbar, Rdiv; ring|]. apply comb_scal. apply comb_sumn. intros k Hk. now apply Lv. }
  assert (Lu : forall r a, (r < shape_R sh)%nat -> (a < N)%nat -> combination (cidx (shape_R sh) (2 * N - 2)) (cvar (fun o => nz (pick (z0w o) (drawn_w o)))) (u r a)).
  { intros r0 a0 Hr0 Ha0. unfold u. apply comb_sub; [now apply Lv|now apply Lb]. }
  assert (Cvv : forall r, (r < shape_R sh)%nat -> forall a b, (a < N)%nat -> (b < N)%nat -> integrable P (fun w => vv r a w * vv r b w) /\ E P (fun w => vv r a w * vv r b w) = log_vol_cov lam L a b).
  { intros r0 Hr0 a0 b0 Ha0 Hb0. destruct (Cv r0 r0 a0 b0 Hr0 Hr0 Ha0 Hb0) as [I1 V1]. split; [exact I1|]. destruct (Nat.eq_dec r0 r0) as [_|n]; [|now elim n].
    unfold Cov in V1. rewrite (proj2 (Mv r0 a0 Hr0 Ha0)) in V1. unfold log_vol_cov. replace (L / 1) with L in V1 by field. rewrite <- V1. unfold vv, entry. ring. }
  assert (Cee : forall r r' a b, (r < shape_R sh)%nat -> (r' < shape_R sh)%nat -> (a < N)%nat -> (b < N)%nat -> E P (fun w => ee r a w * ee r' b w) = if Nat.eq_dec r r' then gam a b else 0).
  { intros r0 r1 a0 b0 Hr0 Hr1 Ha0 Hb0. destruct (Ce r0 r1 a0 b0 Hr0 Hr1 Ha0 Hb0) as [I1 V1]. unfold Cov in V1. rewrite (proj2 (Me r0 a0 Hr0 Ha0)) in V1. unfold gam. rewrite <- V1. unfold ee, entry. ring. }
  split; [|split].
  - destruct (joint1 P _ _ _ _ HG (ee r a) (u r a) (Le r a Hr Ha) (Lu r a Hr Ha)) as [I1 V1].
    assert (G : forall w, K * (ee r a w * exp (u r a w)) = increment (nth r (walk lam L (e w) (v w)) []) a) by (intros w; rewrite Inc by trivial; ring).
    split; [apply (int_ext W P _ _ G), (int_scal W P K _ I1)|]. rewrite <- (E_ext W P _ _ G), (E_scal W P K _ I1), V1. ring.
  - destruct (joint2 P _ _ _ _ HG (ee r a) (ee r' b) (fun w => u r a w + u r' b w) (Le r a Hr Ha) (Le r' b Hr' Hb) (comb_plus _ _ _ _ (Lu r a Hr Ha) (Lu r' b Hr' Hb))) as [I1 V1].
    assert (G : forall w, K * K * (ee r a w * ee r' b w * exp (u r a w + u r' b w)) = increment (nth r (walk lam L (e w) (v w)) []) a * increment (nth r' (walk lam L (e w) (v w)) []) b) by (intros w; rewrite !Inc by trivial; rewrite exp_plus; ring).
    split; [apply (int_ext W P _ _ G), (int_scal W P (K * K) _ I1)|]. rewrite <- (E_ext W P _ _ G), (E_scal W P (K * K) _ I1), V1, (Cee r r' a b Hr Hr' Ha Hb).
    destruct (Nat.eq_dec r r') as [<-|ne]; [|ring].
    rewrite (exp_E P _ _ _ _ HG _ (comb_plus _ _ _ _ (Lu r a Hr Ha) (Lu r b Hr Hb))).
    assert (V := mom_pair P N (vv r) (log_vol_cov lam L) (Cvv r Hr) 1 a b Ha Hb).
    rewrite (E_ext W P _ (fun w => (u r a w + u r b w) ^ 2)) in V by (intros; unfold u; ring). rewrite V, KK. fold g. rewrite <- Rmult_assoc, (Rmult_comm _ (gam a b)), Rmult_assoc, <- exp_plus. do 2 f_equal. field.
  - destruct (joint4 P _ _ _ _ HG (ee r a) (ee r b) (fun w => 2 * (u r a w + u r b w)) (Le r a Hr Ha) (Le r b Hr Hb) (comb_scal _ _ 2 _ (comb_plus _ _ _ _ (Lu r a Hr Ha) (Lu r b Hr Hb)))) as [I1 V1].
    assert (G : forall w, (K * K) * (K * K) * (ee r a w * ee r a w * (ee r b w * ee r b w) * exp (2 * (u r a w + u r b w))) = (increment (nth r (walk lam L (e w) (v w)) []) a * increment (nth r (walk lam L (e w) (v w)) []) b) ^ 2).
    { intros w; rewrite !Inc by trivial. replace (2 * (u r a w + u r b w)) with (u r a w + u r a w + (u r b w + u r b w)) by ring. rewrite !exp_plus. ring. }
    split; [apply (int_ext W P _ _ G), (int_scal W P (K * K * (K * K)) _ I1)|]. rewrite <- (E_ext W P _ _ G), (E_scal W P (K * K * (K * K)) _ I1), V1.
    rewrite !Cee by trivial. destruct (Nat.eq_dec r r) as [_|n]; [|now elim n].
    rewrite (exp_E P _ _ _ _ HG _ (comb_scal _ _ 2 _ (comb_plus _ _ _ _ (Lu r a Hr Ha) (Lu r b Hr Hb)))).
    assert (V := mom_pair P N (vv r) (log_vol_cov lam L) (Cvv r Hr) 2 a b Ha Hb). change (E P (fun w => (2 * (u r a w + u r b w)) ^ 2) = 2 ^ 2 * (g a a + 2 * g a b + g b b)) in V.
    rewrite V, KK. rewrite <- exp_plus. rewrite <- Rmult_assoc, (Rmult_comm _ (gam a a * gam b b + 2 * gam a b ^ 2)), Rmult_assoc, <- exp_plus. do 2 f_equal. field.
Qed.
End Main.

(** ** Size of the correction made by removing the time average *)
Lemma sumn_head_bound (f : nat -> R) m B n : 0 <= B -> (forall d, f d <= B) -> (forall d, (m <= d)%nat -> f d = 0) -> sumn n f <= INR m * B.
Proof.
  intros HB Hf Hz. assert (K : sumn n f <= INR (Nat.min n m) * B).
  { induction n as [|n IH]; [rewrite sumn_0; cbn; lra|]. rewrite sumn_S. destruct (Nat.le_gt_cases m n) as [Hm|Hm].
    - rewrite (Hz n Hm). rewrite Nat.min_r by lia. rewrite Nat.min_r in IH by lia. lra.
    - rewrite Nat.min_l by lia. rewrite Nat.min_l in IH by lia. rewrite S_INR. specialize (Hf n). lra. }
  eapply Rle_trans; [exact K|]. apply Rmult_le_compat_r; [trivial|]. apply le_INR. lia.
Qed.
Lemma sumn_two_sides (f : nat -> R) n a : (forall d, 0 <= f d) -> (a < n)%nat -> sumn n (fun k => f (Nat.max a k - Nat.min a k)%nat) <= 2 * sumn n f.
Proof.
  intros Hf Ha. replace n with (a + (n - a))%nat at 1 by lia. rewrite sumn_app.
  assert (A : sumn a (fun k => f (Nat.max a k - Nat.min a k)%nat) <= sumn n f).
  { rewrite sumn_rev. rewrite (sumn_ext a _ (fun i => f (S i))) by (intros i Hi; f_equal; lia).
    replace n with (1 + a + (n - 1 - a))%nat by lia. rewrite !sumn_app. assert (X := sumn_nonneg (n - 1 - a) (fun i => f (1 + a + i)%nat) (fun i _ => Hf _)). assert (Y := sumn_nonneg 1 f (fun i _ => Hf _)). cbn [Nat.add] in *. lra. }
  assert (B : sumn (n - a) (fun i => f (Nat.max a (a + i) - Nat.min a (a + i))%nat) <= sumn n f).
  { rewrite (sumn_ext (n - a) _ f) by (intros i Hi; f_equal; lia). replace n with (n - a + a)%nat at 2 by lia. rewrite sumn_app. assert (X := sumn_nonneg a (fun i => f (n - a + i)%nat) (fun i _ => Hf _)). lra. }
  lra.
Qed.
Lemma lag_abs a b : Rabs (INR a - INR b) = INR (Nat.max a b - Nat.min a b).
Proof.
  destruct (Nat.le_ge_cases a b) as [Le|Le]; apply le_INR in Le as Le2.
  - rewrite Nat.max_r, Nat.min_l, minus_INR by trivial. rewrite Rabs_left1; lra.
  - rewrite Nat.max_l, Nat.min_r, minus_INR by trivial. rewrite Rabs_pos_eq; lra.
Qed.
Lemma vol_nonneg lam L a b : 0 <= log_vol_cov lam L a b.
Proof. apply Rmult_le_pos; [apply pow2_ge_0|apply log_plus_nonneg]. Qed.
Lemma vol_diag lam L a : 1 <= L -> log_vol_cov lam L a a = lam ^ 2 * ln L.
Proof. intros HL. unfold log_vol_cov. replace (INR a - INR a) with 0 by ring. rewrite Rabs_R0, Rplus_0_l. unfold Rdiv. rewrite Rinv_1, Rmult_1_r. unfold log_plus. destruct (Rle_dec 1 L); [reflexivity|lra]. Qed.
Lemma vol_row lam L N a : 1 <= L -> (a < N)%nat -> 0 <= sumn N (log_vol_cov lam L a) <= 2 * L * (lam ^ 2 * ln L).
Proof.
  intros HL Ha. split; [apply sumn_nonneg; intros; apply vol_nonneg|].
  set (f := fun d => lam ^ 2 * log_plus (L / (INR d + 1))).
  assert (F0 : forall d, 0 <= f d) by (intros d; apply Rmult_le_pos; [apply pow2_ge_0|apply log_plus_nonneg]).
  assert (G0 : 0 <= ln L) by (rewrite <- ln_1; destruct HL as [HL|<-]; [left; apply ln_increasing; lra|right; reflexivity]).
  rewrite (sumn_ext N _ (fun k => f (Nat.max a k - Nat.min a k)%nat)) by (intros k Hk; unfold log_vol_cov, f; now rewrite lag_abs).
  eapply Rle_trans; [now apply sumn_two_sides|].
  set (m := Z.to_nat (Int_part L)). destruct (base_Int_part L) as [I1 I2].
  assert (I0 : (0 <= Int_part L)%Z) by (apply le_IZR; assert (IZR (Int_part L) > 0) by lra; lra).
  assert (Em : INR m = IZR (Int_part L)) by (unfold m; now rewrite INR_IZR_INZ, Z2Nat.id).
  assert (P2 := pow2_ge_0 lam).
  assert (K : sumn N f <= INR m * (lam ^ 2 * ln L)).
  { apply sumn_head_bound; [now apply Rmult_le_pos| |].
    - intros d. unfold f. apply Rmult_le_compat_l; [trivial|]. assert (Pd := pos_INR d). unfold log_plus. destruct (Rle_dec 1 (L / (INR d + 1))) as [Q|Q]; [|trivial].
      apply Rnot_lt_le. intros C. apply (Rlt_not_le _ _ C). destruct (Rle_lt_or_eq_dec 0 (INR d) Pd) as [P0|P0].
      + left. apply ln_increasing; [lra|]. apply Rmult_lt_reg_r with (INR d + 1); [lra|]. unfold Rdiv. rewrite Rmult_assoc, Rinv_l by lra. nra.
      + rewrite <- P0, Rplus_0_l. unfold Rdiv. rewrite Rinv_1, Rmult_1_r. lra.
    - intros d Hd. apply le_INR in Hd. unfold f. rewrite (proj1 (proj2 (C60_log_volatility_support L d ltac:(lra)))) by lra. ring. }
  apply Rle_trans with (2 * (INR m * (lam ^ 2 * ln L))); [lra|]. assert (0 <= lam ^ 2 * ln L) by (now apply Rmult_le_pos). nra.
Qed.
(** removing the time average changes the covariance of the log-volatility by at most 4 L lam^2 ln L / N *)
Lemma demeaned_close lam L N a b : 1 <= L -> (1 <= N)%nat -> (a < N)%nat -> (b < N)%nat ->
  Rabs (demeaned N (log_vol_cov lam L) a b - log_vol_cov lam L a b) <= 4 * L * (lam ^ 2 * ln L) / INR N.
Proof.
  intros HL HN Ha Hb. unfold demeaned. assert (A := vol_row lam L N a HL Ha). assert (B := vol_row lam L N b HL Hb).
  assert (Sy : sumn N (fun k => log_vol_cov lam L k b) = sumn N (log_vol_cov lam L b)) by (apply sumn_ext; intros k Hk; unfold log_vol_cov; now rewrite Rabs_minus_sym).
  rewrite Sy. set (Sa := sumn N (log_vol_cov lam L a)) in *. set (Sb := sumn N (log_vol_cov lam L b)) in *. set (G := 2 * L * (lam ^ 2 * ln L)) in *.
  assert (T0 : 0 <= sumn N (fun k => sumn N (log_vol_cov lam L k)) <= INR N * G).
  { split; [apply sumn_nonneg; intros; now apply vol_row|]. rewrite <- sumn_const. apply sumn_le. intros; now apply vol_row. }
  set (T := sumn N (fun k => sumn N (log_vol_cov lam L k))) in *. assert (n0 : 0 < INR N) by (apply lt_0_INR; lia). assert (i0 : 0 < / INR N) by (now apply Rinv_0_lt_compat).
  assert (T1 : 0 <= T / INR N / INR N <= G / INR N).
  { unfold Rdiv. split; [apply Rmult_le_pos; [apply Rmult_le_pos|]; lra|]. apply Rmult_le_compat_r; [lra|]. apply Rmult_le_reg_r with (INR N); [trivial|]. rewrite Rmult_assoc, Rinv_l by lra. lra. }
  assert (A1 : 0 <= Sa / INR N <= G / INR N) by (unfold Rdiv; split; [apply Rmult_le_pos; lra|apply Rmult_le_compat_r; lra]).
  assert (B1 : 0 <= Sb / INR N <= G / INR N) by (unfold Rdiv; split; [apply Rmult_le_pos; lra|apply Rmult_le_compat_r; lra]).
  replace (4 * L * (lam ^ 2 * ln L) / INR N) with (2 * (G / INR N)) by (unfold G; field; lra).
  apply Rabs_le. lra.
Qed.

(** ** Theorems *)
(** Increments of a simulated multifractal random walk: centred; their covariance is the one of the fractional noise times the
    exponential moment of the centred log-volatility; different realisations are uncorrelated; moments of squares. *)
Theorem C120_increments : forall W (P : expectation W) sh N (H lam L sigma : R) (z0e z0w : W -> option noise) (drawn_w drawn_e : W -> noise),
  shape_N sh = N -> (2 <= N)%nat -> 0 < H <= 1 -> 0 < L -> L <= INR N ->
  gaussian_pair P (shape_R sh) (2 * N - 2) (fun o => nz (drawn_e o)) (fun o => nz (pick (z0w o) (drawn_w o))) ->
  let g := demeaned N (log_vol_cov lam L) in
  let gam := fgn_covariance H sigma (/ INR N) in
  exists X, (forall w, mrw sh H (Some lam) L sigma "cme" (z0e w) (z0w w) (drawn_w w) (drawn_e w) = Ok (presented sh (map (map Fin) (X w)))) /\
  (forall w, shaped (shape_R sh) N (X w)) /\
  forall r r' a b, (r < shape_R sh)%nat -> (r' < shape_R sh)%nat -> (a < N)%nat -> (b < N)%nat ->
    (integrable P (fun w => increment (nth r (X w) []) a) /\ E P (fun w => increment (nth r (X w) []) a) = 0) /\
    (integrable P (fun w => increment (nth r (X w) []) a * increment (nth r' (X w) []) b) /\
     E P (fun w => increment (nth r (X w) []) a * increment (nth r' (X w) []) b) =
       if Nat.eq_dec r r' then gam a b * exp (g a a / 2 + g b b / 2 + g a b - lam ^ 2 * ln L) else 0) /\
    (integrable P (fun w => (increment (nth r (X w) []) a * increment (nth r (X w) []) b) ^ 2) /\
     E P (fun w => (increment (nth r (X w) []) a * increment (nth r (X w) []) b) ^ 2) =
       (gam a a * gam b b + 2 * gam a b ^ 2) * exp (2 * g a a + 2 * g b b + 4 * g a b - 2 * (lam ^ 2 * ln L))).
Proof. intros. now apply walk_facts. Qed.
(** the centred log-volatility has covariance lam^2 log+(L / (lag + 1)) up to 4 L lam^2 ln L / N *)
Theorem C120_log_volatility : forall lam L N a b, 1 <= L -> (1 <= N)%nat -> (a < N)%nat -> (b < N)%nat ->
  Rabs (demeaned N (log_vol_cov lam L) a b - lam ^ 2 * log_plus (L / (Rabs (INR a - INR b) + 1))) <= 4 * L * (lam ^ 2 * ln L) / INR N.
Proof. exact demeaned_close. Qed.

Lemma gam_diag H sigma N a : 0 < H <= 1 -> (2 <= N)%nat -> fgn_covariance H sigma (/ INR N) a a = sigma ^ 2 * Rpower (/ INR N) (2 * H).
Proof.
  intros HH HN. assert (n0 : 0 < / INR N) by (apply Rinv_0_lt_compat, lt_0_INR; lia). rewrite fgn_covariance_fcor by lra. rewrite Nat.max_id, Nat.min_id, Nat.sub_diag. cbn [fcor]. rewrite rpow_pos by trivial. ring.
Qed.
(** any X the generator returned is the one of the previous theorem *)
Definition simulated {W} (X : W -> list (list R)) sh H lam L sigma (z0e z0w : W -> option noise) (drawn_w drawn_e : W -> noise) : Prop :=
  (forall w, mrw sh H (Some lam) L sigma "cme" (z0e w) (z0w w) (drawn_w w) (drawn_e w) = Ok (presented sh (map (map Fin) (X w)))) /\ (forall w, shaped (shape_R sh) (shape_N sh) (X w)).
Lemma fin_inj2 (x y : list (list R)) : map (map Fin) x = map (map Fin) y -> x = y.
Proof.
  assert (K : forall c d : list R, map Fin c = map Fin d -> c = d) by (induction c as [|a c IH]; intros [|b d] Q; try discriminate; [reflexivity|]; injection Q as -> Q; f_equal; auto).
  revert y. induction x as [|a x IH]; intros [|b y] Q; try discriminate; [reflexivity|]. cbn [map] in Q. injection Q as Q1 Q2. f_equal; auto.
Qed.
Lemma shaped_fin Rn N (x : list (list R)) : shaped Rn N x -> shaped Rn N (map (map Fin) x).
Proof. intros [A B]. split; [now rewrite map_length|]. rewrite Forall_map. revert B. apply Forall_impl. intros c Hc. now rewrite map_length. Qed.
Lemma simulated_eq {W} (X Y : W -> list (list R)) sh H lam L sigma z0e z0w drawn_w drawn_e : simulated X sh H lam L sigma z0e z0w drawn_w drawn_e ->
  (forall w, mrw sh H (Some lam) L sigma "cme" (z0e w) (z0w w) (drawn_w w) (drawn_e w) = Ok (presented sh (map (map Fin) (Y w)))) -> (forall w, shaped (shape_R sh) (shape_N sh) (Y w)) -> forall w, X w = Y w.
Proof.
  intros [EX SX] EY SY w. apply fin_inj2, (presented_inj sh (shape_N sh)); [now apply shaped_fin|now apply shaped_fin|]. assert (Q := EX w). rewrite EY in Q. now injection Q as <-.
Qed.

Lemma sim_bound lam L N a : 1 <= L -> (1 <= N)%nat -> (a < N)%nat -> let g := demeaned N (log_vol_cov lam L) in Rabs (2 * g a a - lam ^ 2 * ln L - lam ^ 2 * ln L) <= 8 * L * (lam ^ 2 * ln L) / INR N.
Proof.
  intros HL1 HN Ha g. assert (D := demeaned_close lam L N a a HL1 HN Ha Ha). rewrite vol_diag in D by trivial. fold g in D.
  replace (2 * g a a - lam ^ 2 * ln L - lam ^ 2 * ln L) with (2 * (g a a - lam ^ 2 * ln L)) by ring. rewrite Rabs_mult, (Rabs_pos_eq 2) by lra.
  replace (8 * L * (lam ^ 2 * ln L) / INR N) with (2 * (4 * L * (lam ^ 2 * ln L) / INR N)) by (unfold Rdiv; ring). lra.
Qed.

Section Cor.
Context {W : Type} (P : expectation W) (sh : shape_arg) (N : nat) (H lam L sigma : R) (z0e z0w : W -> option noise) (drawn_w drawn_e : W -> noise) (X : W -> list (list R)).
Hypothesis EN : shape_N sh = N.
Hypothesis HN : (2 <= N)%nat.
Hypothesis HH : 0 < H <= 1.
Hypothesis HL : 0 < L.
Hypothesis HLN : L <= INR N.
Hypothesis HG : gaussian_pair P (shape_R sh) (2 * N - 2) (fun o => nz (drawn_e o)) (fun o => nz (pick (z0w o) (drawn_w o))).
Hypothesis HX : simulated X sh H lam L sigma z0e z0w drawn_w drawn_e.
Let g := demeaned N (log_vol_cov lam L).
Let gam := fgn_covariance H sigma (/ INR N).
Let dX r a w := increment (nth r (X w) []) a.
Lemma sim_facts r r' a b : (r < shape_R sh)%nat -> (r' < shape_R sh)%nat -> (a < N)%nat -> (b < N)%nat ->
    (integrable P (dX r a) /\ E P (dX r a) = 0) /\
    (integrable P (fun w => dX r a w * dX r' b w) /\ E P (fun w => dX r a w * dX r' b w) = if Nat.eq_dec r r' then gam a b * exp (g a a / 2 + g b b / 2 + g a b - lam ^ 2 * ln L) else 0) /\
    (integrable P (fun w => (dX r a w * dX r b w) ^ 2) /\ E P (fun w => (dX r a w * dX r b w) ^ 2) = (gam a a * gam b b + 2 * gam a b ^ 2) * exp (2 * g a a + 2 * g b b + 4 * g a b - 2 * (lam ^ 2 * ln L))).
Proof.
  intros Hr Hr' Ha Hb. destruct (walk_facts P sh N H lam L sigma z0e z0w drawn_w drawn_e EN HN HH HL HLN HG) as (Y & EY & SY & F).
  assert (Q := simulated_eq X Y sh H lam L sigma z0e z0w drawn_w drawn_e HX EY ltac:(now rewrite EN)).
  destruct (F r r' a b Hr Hr' Ha Hb) as ((I1 & V1) & (I2 & V2) & (I3 & V3)).
  assert (D : forall r a w, increment (nth r (Y w) []) a = dX r a w) by (intros; unfold dX; now rewrite Q).
  assert (D2 : forall r r' w, increment (nth r (Y w) []) a * increment (nth r' (Y w) []) b = dX r a w * dX r' b w) by (intros; now rewrite !D).
  assert (D3 : forall w, (increment (nth r (Y w) []) a * increment (nth r (Y w) []) b) ^ 2 = (dX r a w * dX r b w) ^ 2) by (intros; now rewrite !D).
  split; [split; [exact (int_ext W P _ _ (D r a) I1)|rewrite <- V1; apply E_ext; intros; now rewrite D]|].
  split; [split; [exact (int_ext W P _ _ (D2 r r') I2)|]|split; [exact (int_ext W P _ _ D3 I3)|]].
  - rewrite <- (E_ext W P _ _ (D2 r r')). exact V2.
  - rewrite <- (E_ext W P _ _ D3). exact V3.
Qed.
Lemma sim_var r a : (r < shape_R sh)%nat -> (a < N)%nat -> integrable P (fun w => dX r a w ^ 2) /\ E P (fun w => dX r a w ^ 2) = sigma ^ 2 * Rpower (/ INR N) (2 * H) * exp (2 * g a a - lam ^ 2 * ln L).
Proof.
  intros Hr Ha. destruct (sim_facts r r a a Hr Hr Ha Ha) as (_ & (I & V) & _). destruct (Nat.eq_dec r r) as [_|n]; [|now elim n].
  assert (G : forall w, dX r a w * dX r a w = dX r a w ^ 2) by (intros; ring). split; [exact (int_ext W P _ _ G I)|]. rewrite <- (E_ext W P _ _ G), V. unfold gam. rewrite gam_diag by trivial. f_equal. f_equal. field.
Qed.
End Cor.

(** with H = 1/2 the increments are uncorrelated, but their squares are not: they are correlated through the log-volatility,
    over the integral scale, as (L / (lag + 1))^(4 lam^2) up to the effect of the time average (C120_log_volatility) *)
Theorem C120_uncorrelated : forall W (P : expectation W) sh N (lam L sigma : R) (z0e z0w : W -> option noise) (drawn_w drawn_e : W -> noise) X,
  shape_N sh = N -> (2 <= N)%nat -> 0 < L -> L <= INR N ->
  gaussian_pair P (shape_R sh) (2 * N - 2) (fun o => nz (drawn_e o)) (fun o => nz (pick (z0w o) (drawn_w o))) ->
  simulated X sh (1 / 2) lam L sigma z0e z0w drawn_w drawn_e ->
  forall r a b, (r < shape_R sh)%nat -> (a < N)%nat -> (b < N)%nat -> a <> b ->
    E P (fun w => increment (nth r (X w) []) a * increment (nth r (X w) []) b) = 0 /\
    E P (fun w => (increment (nth r (X w) []) a * increment (nth r (X w) []) b) ^ 2) =
      E P (fun w => increment (nth r (X w) []) a ^ 2) * E P (fun w => increment (nth r (X w) []) b ^ 2) * exp (4 * demeaned N (log_vol_cov lam L) a b).
Proof.
  intros W P sh N lam L sigma z0e z0w drawn_w drawn_e X EN HN HL HLN HG HX r a b Hr Ha Hb ne.
  assert (HH : 0 < 1 / 2 <= 1) by lra. assert (n0 : 0 < / INR N) by (apply Rinv_0_lt_compat, lt_0_INR; lia).
  destruct (sim_facts P sh N (1 / 2) lam L sigma z0e z0w drawn_w drawn_e X EN HN HH HL HLN HG HX r r a b Hr Hr Ha Hb) as (_ & (_ & V2) & (_ & V4)).
  destruct (sim_var P sh N (1 / 2) lam L sigma z0e z0w drawn_w drawn_e X EN HN HH HL HLN HG HX r a Hr Ha) as [_ Va].
  destruct (sim_var P sh N (1 / 2) lam L sigma z0e z0w drawn_w drawn_e X EN HN HH HL HLN HG HX r b Hr Hb) as [_ Vb]. cbv beta in *.
  destruct (Nat.eq_dec r r) as [_|n]; [|now elim n]. assert (B := C61_brownian sigma (/ INR N) a b n0). destruct (Nat.eq_dec a b) as [e|_]; [contradiction|].
  split; [rewrite V2, B; ring|]. rewrite V4, Va, Vb, B, !gam_diag by trivial. set (g := demeaned N (log_vol_cov lam L)). set (y := lam ^ 2 * ln L). set (q := sigma ^ 2 * Rpower (/ INR N) (2 * (1 / 2))).
  replace (2 * g a a + 2 * g b b + 4 * g a b - 2 * y) with ((2 * g a a - y) + ((2 * g b b - y) + 4 * g a b)) by ring. rewrite !exp_plus. ring.
Qed.
(** the variance of an increment is sigma^2 dt^(2H) times a factor which is L^(lam^2) up to exp(+- 8 L lam^2 ln L / N) *)
Theorem C120_variance : forall W (P : expectation W) sh N (H lam L sigma : R) (z0e z0w : W -> option noise) (drawn_w drawn_e : W -> noise) X,
  shape_N sh = N -> (2 <= N)%nat -> 0 < H <= 1 -> 1 <= L -> L <= INR N ->
  gaussian_pair P (shape_R sh) (2 * N - 2) (fun o => nz (drawn_e o)) (fun o => nz (pick (z0w o) (drawn_w o))) ->
  simulated X sh H lam L sigma z0e z0w drawn_w drawn_e ->
  forall r a, (r < shape_R sh)%nat -> (a < N)%nat -> exists u,
    E P (fun w => increment (nth r (X w) []) a ^ 2) = sigma ^ 2 * Rpower (/ INR N) (2 * H) * Rpower L (lam ^ 2) * exp u /\
    Rabs u <= 8 * L * (lam ^ 2 * ln L) / INR N.
Proof.
  intros W P sh N H lam L sigma z0e z0w drawn_w drawn_e X EN HN HH HL HLN HG HX r a Hr Ha. assert (HL0 : 0 < L) by lra.
  exists (2 * demeaned N (log_vol_cov lam L) a a - lam ^ 2 * ln L - lam ^ 2 * ln L). split; [|apply sim_bound; [trivial|lia|trivial]].
  rewrite (proj2 (sim_var P sh N H lam L sigma z0e z0w drawn_w drawn_e X EN HN HH HL0 HLN HG HX r a Hr Ha)).
  rewrite (Rmult_assoc _ (Rpower L (lam ^ 2)) (exp _)). f_equal. unfold Rpower. rewrite <- exp_plus. f_equal. ring.
Qed.
(** REFUTED: sigma is not the (square root of the) variance of the process: for an integral scale L > 1 and a long simulation every increment has a
    variance larger than the one of the fractional noise, by at least L^(lam^2 / 2) *)
Theorem C120_sigma_refuted : forall W (P : expectation W) sh N (H lam L sigma : R) (z0e z0w : W -> option noise) (drawn_w drawn_e : W -> noise) X,
  shape_N sh = N -> (2 <= N)%nat -> 0 < H <= 1 -> 1 < L -> 16 * L <= INR N -> lam <> 0 -> sigma <> 0 ->
  gaussian_pair P (shape_R sh) (2 * N - 2) (fun o => nz (drawn_e o)) (fun o => nz (pick (z0w o) (drawn_w o))) ->
  simulated X sh H lam L sigma z0e z0w drawn_w drawn_e ->
  forall r a, (r < shape_R sh)%nat -> (a < N)%nat ->
    sigma ^ 2 * Rpower (/ INR N) (2 * H) < sigma ^ 2 * Rpower (/ INR N) (2 * H) * Rpower L (lam ^ 2 / 2) <= E P (fun w => increment (nth r (X w) []) a ^ 2).
Proof.
  intros W P sh N H lam L sigma z0e z0w drawn_w drawn_e X EN HN HH HL HLN Hlam Hs HG HX r a Hr Ha.
  destruct (C120_variance W P sh N H lam L sigma z0e z0w drawn_w drawn_e X EN HN HH ltac:(lra) ltac:(lra) HG HX r a Hr Ha) as (u & Eu & Bu). rewrite Eu.
  assert (l0 : 0 < ln L) by (rewrite <- ln_1; apply ln_increasing; lra). assert (p2 : 0 < lam ^ 2) by (rewrite <- Rsqr_pow2; now apply Rsqr_pos_lt). assert (s2 : 0 < sigma ^ 2) by (rewrite <- Rsqr_pow2; now apply Rsqr_pos_lt).
  set (y := lam ^ 2 * ln L) in *. assert (y0 : 0 < y) by (now apply Rmult_lt_0_compat). assert (n0 : 0 < INR N) by lra.
  assert (Bu2 : Rabs u <= y / 2). { eapply Rle_trans; [exact Bu|]. apply Rmult_le_reg_r with (INR N); [trivial|]. unfold Rdiv. rewrite Rmult_assoc, Rinv_l by lra. nra. }
  assert (K0 : 0 < sigma ^ 2 * Rpower (/ INR N) (2 * H)) by (apply Rmult_lt_0_compat; [trivial|apply exp_pos]).
  set (K := sigma ^ 2 * Rpower (/ INR N) (2 * H)) in *. assert (Bl := Rle_abs (- u)); rewrite Rabs_Ropp in Bl.
  assert (F1 : 1 < Rpower L (lam ^ 2 / 2)) by (unfold Rpower; rewrite <- exp_0; apply exp_increasing; replace (lam ^ 2 / 2 * ln L) with (y / 2) by (unfold y; field); lra).
  split; [nra|]. rewrite (Rmult_assoc _ (Rpower L (lam ^ 2)) (exp u)). apply Rmult_le_compat_l; [lra|]. unfold Rpower. rewrite <- exp_plus. 
  assert (Q : lam ^ 2 / 2 * ln L <= lam ^ 2 * ln L + u) by (replace (lam ^ 2 / 2 * ln L) with (y / 2) by (unfold y; field); fold y; lra).
  destruct Q as [Q|Q]; [left; now apply exp_increasing|right; now rewrite Q].
Qed.
