(** * A wavelet coefficient as a linear form of the samples *)
From Coq Require Import Reals List ZArith Bool Lra Lia Classical_Prop.
From Verif Require Import XReal PyBase ModelSimul ModelWavelet Spec SpecSimul LXReal LBase LDft LSimul LTransform PropsMissing PropsWhite PropsWhiteCase PropsWhiteFbm PropsWhitePower LTaps PropsFluct PropsMrwScale4 LPosVar PropsMrwStat PropsMrwHaar.
Import ListNotations.
Open Scope R_scope.
Local Notation length := List.length.

(** bilinear form of a covariance function *)
Definition bil (n : nat) (u v : nat -> R) (r : Z -> R) : R := sumn n (fun a => u a * sumn n (fun b => v b * r (Z.of_nat a - Z.of_nat b)%Z)).
Lemma bil_comb n l l' (c d : nat -> R) (u v : nat -> nat -> R) r :
  bil n (fun a => sumn l (fun m => c m * u m a)) (fun b => sumn l' (fun m => d m * v m b)) r = sumn l (fun m => sumn l' (fun m' => c m * d m' * bil n (u m) (v m') r)).
Proof.
  unfold bil. rewrite (sumn_ext n _ (fun a => sumn l (fun m => sumn l' (fun m' => c m * d m' * (u m a * sumn n (fun b => v m' b * r (Z.of_nat a - Z.of_nat b)%Z)))))).
  - rewrite sumn_swap. apply sumn_ext. intros m _. rewrite sumn_swap. apply sumn_ext. intros m' _. now rewrite sumn_scal.
  - intros a _. rewrite <- sumn_scal_r. apply sumn_ext. intros m _. rewrite <- sumn_scal_r || idtac.
    rewrite (sumn_ext n (fun b => sumn l' (fun m0 => d m0 * v m0 b) * r (Z.of_nat a - Z.of_nat b)%Z) (fun b => sumn l' (fun m0 => d m0 * (v m0 b * r (Z.of_nat a - Z.of_nat b)%Z)))).
    + rewrite sumn_swap, <- sumn_scal. apply sumn_ext. intros m' _. rewrite sumn_scal. ring.
    + intros b _. rewrite <- sumn_scal_r. apply sumn_ext. intros m' _. ring.
Qed.
Section Repr.
Variables (n : nat) (lo : list R).
Hypothesis HL : (1 <= length lo)%nat.
Let L := length lo.
Definition pos (k m : nat) : nat := (2 * k + 1 + (length lo - 1) / 2 - m)%nat.
Fixpoint rlow (j k i : nat) : R := match j with O => dl k i | S j' => sumn (length lo) (fun m => nth m lo 0 * rlow j' (pos k m) i) end.
Definition rout (h : list R) (j k i : nat) : R := sumn (length lo) (fun m => nth m h 0 * rlow j (pos k m) i).
Lemma low_rlow s : length s = n -> forall j k, okpos n L j k -> low lo s j k = sumn n (fun i => rlow j k i * nth i s 0).
Proof.
  intros Hs. induction j as [|j IH]; intros k Hk.
  - cbn [rlow okpos] in *. rewrite delta_sum by trivial. unfold low. cbn [approx_at]. unfold fin. rewrite (nth_map_lt _ _ _ 0) by lia. reflexivity.
  - cbn [okpos] in Hk. rewrite low_S; [|exact HL|now rewrite Hs]. cbn [rlow]. fold L.
    rewrite (sumn_ext L _ (fun m => sumn n (fun i => nth m lo 0 * rlow j (pos k m) i * nth i s 0))).
    + rewrite sumn_swap. apply sumn_ext. intros i _. now rewrite <- sumn_scal_r.
    + intros m Hm. rewrite IH by now apply okpos_step. rewrite <- sumn_scal. apply sumn_ext. intros i _. unfold pos, L. ring.
Qed.
Lemma out_rout s h j k : length s = n -> inner n L (S j) k -> sumn L (fun m => nth m h 0 * low lo s j (pos k m)) = sumn n (fun i => rout h j k i * nth i s 0).
Proof.
  intros Hs IN. unfold rout. fold L. rewrite (sumn_ext L _ (fun m => sumn n (fun i => nth m h 0 * rlow j (pos k m) i * nth i s 0))).
  - rewrite sumn_swap. apply sumn_ext. intros i _. now rewrite <- sumn_scal_r.
  - intros m Hm. rewrite (low_rlow s Hs) by (now apply okpos_step). rewrite <- sumn_scal. apply sumn_ext. intros i _. ring.
Qed.
Lemma rlow_total : forall j k, okpos n L j k -> sumn n (rlow j k) = sumn L (fun m => nth m lo 0) ^ j.
Proof.
  induction j as [|j IH]; intros k Hk; cbn [rlow okpos pow] in *.
  - rewrite (sumn_ext n _ (fun i => dl k i * 1)) by (intros; ring). now rewrite delta_sum.
  - rewrite sumn_swap, <- sumn_scal_r. fold L. apply sumn_ext. intros m Hm. rewrite sumn_scal. f_equal. apply IH. now apply okpos_step.
Qed.
Lemma rout_total h j k : inner n L (S j) k -> sumn n (rout h j k) = sumn L (fun m => nth m h 0) * sumn L (fun m => nth m lo 0) ^ j.
Proof.
  intros IN. unfold rout. rewrite sumn_swap, <- sumn_scal_r. fold L. apply sumn_ext. intros m Hm. rewrite sumn_scal. f_equal. apply rlow_total. now apply okpos_step.
Qed.
Variable r : Z -> R.
Lemma out_bil f g j k k' (q : Z -> R) : length f = L -> length g = L -> inner n L (S j) k -> inner n L (S j) k' ->
  (forall i i', okpos n L j i -> okpos n L j i' -> bil n (rlow j i) (rlow j i') r = q (Z.of_nat i - Z.of_nat i')%Z) ->
  bil n (rout f j k) (rout g j k') r = filtered f g q (Z.of_nat k - Z.of_nat k')%Z.
Proof.
  intros Hf Hg IN IN' H. unfold rout. rewrite bil_comb. unfold filtered. rewrite Hf, Hg. fold L. apply sumn_ext. intros m Hm. apply sumn_ext. intros m' Hm'. f_equal.
  rewrite H; [|now apply okpos_step|now apply okpos_step]. f_equal. unfold pos. fold L. destruct IN as [I1 _]. destruct IN' as [I1' _].
  assert (D := Nat.div_mod (L - 1) 2 ltac:(lia)). assert (M := Nat.mod_upper_bound (L - 1) 2 ltac:(lia)). rewrite !Nat2Z.inj_sub by lia. lia.
Qed.
Lemma low_bil : forall j k k', okpos n L j k -> okpos n L j k' -> bil n (rlow j k) (rlow j k') r = lcov r lo j (Z.of_nat k - Z.of_nat k')%Z.
Proof.
  induction j as [|j IH]; intros k k' Hk Hk'.
  - cbn [okpos rlow lcov] in *. unfold bil. rewrite (sumn_ext n _ (fun a => dl k a * r (Z.of_nat a - Z.of_nat k')%Z)); [now rewrite delta_sum|]. intros a _. f_equal. now rewrite delta_sum.
  - cbn [okpos lcov] in *. exact (out_bil lo lo j k k' (lcov r lo j) eq_refl eq_refl Hk Hk' IH).
Qed.
End Repr.
(** Brownian motion: for a balanced sequence the form of unit_fbm(1/2) is the sum of the squared partial sums *)
Lemma unit_fgn_half a b : unit_fgn (1 / 2) (Z.of_nat a - Z.of_nat b) = dl a b.
Proof.
  assert (A : forall t, rpow (Rabs t) (2 * (1 / 2)) = Rabs t).
  { intros t. unfold rpow. destruct (Rlt_dec 0 (Rabs t)) as [Q|Q]; [replace (2 * (1 / 2) * ln (Rabs t)) with (ln (Rabs t)) by field; now apply exp_ln|]. assert (P0 := Rabs_pos t). lra. }
  unfold unit_fgn, ev, second, Rsum. cbn [map fold_right fst snd]. rewrite !A, !Rplus_0_r. unfold dl. destruct (Nat.eq_dec a b) as [->|N].
  - rewrite Z.sub_diag. replace (0 + 1) with 1 by ring. replace (0 + -1) with (-1) by ring. rewrite Rabs_R0, Rabs_R1, (Rabs_left (-1)) by lra. field.
  - set (z := (Z.of_nat a - Z.of_nat b)%Z). assert (Hz : (1 <= z \/ z <= -1)%Z) by (unfold z; lia). destruct Hz as [Hz|Hz]; apply IZR_le in Hz.
    + rewrite !Rabs_pos_eq by lra. field.
    + rewrite !Rabs_left1 by lra. field.
Qed.
Lemma brownian_form n x : balanced (S n) x -> form (S n) x (unit_fbm (1 / 2)) = sumn n (fun a => sumn (S a) x ^ 2).
Proof.
  intros Hb. unfold balanced in Hb. set (s := fun a => sumn (S a) x).
  assert (A : forall g, sumn (S n) (fun i => x i * g i) = sumn n (fun a => s a * (g a - g (S a)))) by (intros g; rewrite abel, Hb; unfold s; ring).
  unfold form. rewrite (A (fun a => sumn (S n) (fun b => x b * unit_fbm (1 / 2) (Z.of_nat a - Z.of_nat b)))). apply sumn_ext. intros a Ha.
  rewrite (A (fun b => unit_fbm (1 / 2) (Z.of_nat a - Z.of_nat b))), (A (fun b => unit_fbm (1 / 2) (Z.of_nat (S a) - Z.of_nat b))). rewrite <- sumn_minus.
  rewrite (sumn_ext n _ (fun b => dl a b * s b)); [rewrite delta_sum by trivial; unfold s; ring|]. intros b Hb'. rewrite <- unit_fgn_half.
  replace (Z.of_nat a - Z.of_nat (S b))%Z with (Z.of_nat a - Z.of_nat b - 1)%Z by lia. replace (Z.of_nat (S a) - Z.of_nat b)%Z with (Z.of_nat a - Z.of_nat b + 1)%Z by lia. replace (Z.of_nat (S a) - Z.of_nat (S b))%Z with (Z.of_nat a - Z.of_nat b)%Z by lia.
  set (z := (Z.of_nat a - Z.of_nat b)%Z). unfold unit_fgn, unit_fbm, ev, second, Rsum. cbn [map fold_right fst snd]. rewrite minus_IZR, plus_IZR. rewrite !Rplus_0_r. replace (IZR z + -1) with (IZR z - 1) by ring. ring.
Qed.
(** a balanced linear form of the samples is a linear form of the increments *)
Lemma balanced_wsum n c x : balanced (S n) c -> sumn (S n) (fun i => c i * nth i x 0) = - wsum (fun a => sumn (S a) c) x 0 n.
Proof.
  intros Hb. rewrite abel. unfold balanced in Hb. rewrite Hb, Rmult_0_l, Rplus_0_r. unfold wsum. rewrite <- sumn_opp. apply sumn_ext. intros a _. unfold increment. cbn [Nat.add]. ring.
Qed.
