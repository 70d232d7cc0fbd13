(** * C108: wavelet coefficients of stationary signals and of white noise *)
From Coq Require Import Reals List ZArith Bool Lra Lia.
From Verif Require Import XReal PyBase ModelUtils ModelMRQ ModelStructure ModelWavelet ModelPSD Spec SpecMRQ SpecSimul LXReal LUtils LBase LFilter LTransform LPattern LWave LPoly LCone LWaveEst LDft LSimul
  PropsWavelet PropsMissing.
Import ListNotations.
Open Scope R_scope.
Notation entry := SpecMRQ.entry.
Local Notation length := List.length.

(** ** Specification *)
(** x is a random recording of n samples, centred, the product of samples i and k having the mean r (i - k) *)
Definition stationary_signal {W} (P : expectation W) (n : nat) (x : W -> list R) (r : Z -> R) : Prop :=
  (forall w, length (x w) = n) /\
  (forall i, (i < n)%nat -> integrable P (fun w => nth i (x w) 0) /\ E P (fun w => nth i (x w) 0) = 0) /\
  (forall i k, (i < n)%nat -> (k < n)%nat -> integrable P (fun w => nth i (x w) 0 * nth k (x w) 0) /\
     E P (fun w => nth i (x w) 0 * nth k (x w) 0) = r (Z.of_nat i - Z.of_nat k)%Z).
(** covariance of the outputs of two filters followed by a decimation by 2 *)
Definition filtered (f g : list R) (r : Z -> R) (d : Z) : R :=
  sumn (length f) (fun m => sumn (length g) (fun m' => nth m f 0 * nth m' g 0 * r (2 * d - Z.of_nat m + Z.of_nat m')%Z)).
(** of the coefficients at scale j, before the rescaling by 2^(j (1/2 - 1/norm + gam)) *)
Fixpoint low_cov (w : wavelet) (r : Z -> R) (j : nat) : Z -> R :=
  match j with O => r | S j' => filtered (dec_lo w) (dec_lo w) (low_cov w r j') end.
Definition high_cov (w : wavelet) (r : Z -> R) (j : nat) : Z -> R := filtered (dec_hi w) (dec_hi w) (low_cov w r (j - 1)).
(** an orthonormal wavelet: each filter is orthogonal to its even translates and to those of the other, with norm 1 *)
Definition translate_product (f g : list R) (m : Z) : R :=
  sumn (length f) (fun a => nth a f 0 * (let i := (Z.of_nat a + 2 * m)%Z in if (i <? 0)%Z then 0 else nth (Z.to_nat i) g 0)).
Definition orthonormal (w : wavelet) : Prop := forall m,
  translate_product (dec_lo w) (dec_lo w) m = (if Z.eq_dec m 0 then 1 else 0) /\
  translate_product (dec_hi w) (dec_hi w) m = (if Z.eq_dec m 0 then 1 else 0) /\
  translate_product (dec_hi w) (dec_lo w) m = 0.
(** uncorrelated samples of variance s2 *)
Definition flat (s2 : R) : Z -> R := fun d => if Z.eq_dec d 0 then s2 else 0.
(** the number in an entry *)
Definition number (x : xr) : R := match x with Fin a => a | _ => 0 end.
(** the factor applied at scale j *)
Definition factor (norm gam : R) (j : nat) : R := Rpower 2 (INR j * (1 / 2 - 1 / norm + gam)).

(** ** One step *)
Lemma fstep_value h a k : (length h <= 2 * k + 2)%nat -> (2 * k + 1 + length h <= length a)%nat -> (1 <= length h)%nat ->
  (forall m, (m < length h)%nat -> exists x, nth (2 * k + 1 + (length h - 1) / 2 - m) a NaN = Fin x) ->
  nth k (fstep h a) NaN = Fin (sumn (length h) (fun m => nth m h 0 * number (nth (2 * k + 1 + (length h - 1) / 2 - m) a NaN))).
Proof.
  intros A B H1 H. rewrite fstep_nth by (apply Nat.div_le_lower_bound; lia).
  assert (K : kept (length a) (length h) (2 * k + 1) = true) by (unfold kept; apply andb_true_intro; split; apply Nat.leb_le; lia).
  rewrite K. unfold csum, sumn. rewrite <- xsum_map_Fin. f_equal. apply map_ext_in. intros m Hm. apply in_seq in Hm.
  destruct (H m ltac:(lia)) as [x ->]. reflexivity.
Qed.

(** positions at level j of the approximations that carry a number *)
Definition okpos (n L j k : nat) : Prop := match j with O => (k < n)%nat | _ => inner n L j k end.
Lemma okpos_step n L j k m : (1 <= L)%nat -> inner n L (S j) k -> (m < L)%nat -> okpos n L j (2 * k + 1 + (L - 1) / 2 - m).
Proof.
  intros HL IN Hm. assert (D := Nat.div_mod (L - 1) 2 ltac:(lia)). assert (M := Nat.mod_upper_bound (L - 1) 2 ltac:(lia)).
  destruct j as [|j].
  - destruct IN as [A B]. cbn in B. rewrite Nat.div_1_r in B. cbn [okpos]. lia.
  - cbn [okpos]. assert (A := proj1 IN). apply (inner_step n L (S j) k); trivial; try lia.
Qed.
Lemma inner_len n L j k : inner n L (S j) k -> (L <= 2 * k + 2)%nat /\ (2 * k + 1 + L <= n / 2 ^ j)%nat.
Proof. intros [A B]. replace (S j - 1)%nat with j in B by lia. now split. Qed.
Section Values.
Variables (lo : list R) (s : list R).
Hypothesis HL : (1 <= length lo)%nat.
Definition low (j k : nat) : R := number (nth k (approx_at lo j (fin s)) NaN).
Lemma low_fin j k : okpos (length s) (length lo) j k -> nth k (approx_at lo j (fin s)) NaN = Fin (low j k).
Proof using HL.
  intros H. unfold low. destruct j as [|j].
  - cbn [approx_at okpos] in *. unfold fin. rewrite (nth_map_lt _ _ _ 0) by trivial. reflexivity.
  - destruct (no_inf_nth (approx_at lo (S j) (fin s)) k) as [X|[x X]]; [apply approx_no_inf, no_inf_fin| |now rewrite X].
    exfalso. apply approx_nan in X; [|trivial|apply no_inf_fin|lia]. rewrite fin_length in X. destruct X as [X|(i & S1 & X)]; [now apply X|].
    assert (Hi : (i < length s)%nat) by (apply (support_in _ (length lo) (S j) k); trivial; lia).
    unfold fin in X. rewrite (nth_map_lt _ _ _ 0) in X by trivial. discriminate.
Qed.
Lemma step_value h j k : length h = length lo -> inner (length s) (length lo) (S j) k ->
  nth k (fstep h (approx_at lo j (fin s))) NaN = Fin (sumn (length lo) (fun m => nth m h 0 * low j (2 * k + 1 + (length lo - 1) / 2 - m)%nat)).
Proof using HL.
  intros Hh IN. destruct (inner_len _ _ _ _ IN) as [A B]. unfold low. rewrite <- Hh. rewrite fstep_value; trivial; try lia.
  - rewrite approx_at_length, fin_length. lia.
  - intros m Hm. rewrite Hh. exists (low j (2 * k + 1 + (length lo - 1) / 2 - m)). apply low_fin. apply okpos_step; trivial. lia.
Qed.
Lemma low_S j k : inner (length s) (length lo) (S j) k -> low (S j) k = sumn (length lo) (fun m => nth m lo 0 * low j (2 * k + 1 + (length lo - 1) / 2 - m)%nat).
Proof using HL. intros IN. unfold low at 1. cbn [approx_at]. now rewrite step_value. Qed.
End Values.

(** ** Covariances *)
Section Cov.
Context {W : Type} (P : expectation W).
Variables (n : nat) (x : W -> list R) (r : Z -> R) (lo : list R).
Hypothesis HL : (1 <= length lo)%nat.
Hypothesis HX : stationary_signal P n x r.
Let L := length lo.
Definition lowr (j k : nat) (w : W) : R := low lo (x w) j k.
(** output of the filter h at level j + 1 *)
Definition outr (h : list R) (j k : nat) (w : W) : R := sumn (length lo) (fun m => nth m h 0 * lowr j (2 * k + 1 + (length lo - 1) / 2 - m)%nat w).
Fixpoint lcov (j : nat) : Z -> R := match j with O => r | S j' => filtered lo lo (lcov j') end.
Lemma lowr_S j k w : inner n L (S j) k -> lowr (S j) k w = outr lo j k w.
Proof using HL HX. intros IN. unfold lowr. rewrite low_S; trivial. destruct HX as (X & _). rewrite X. exact IN. Qed.
Lemma pos_diff k k' m m' : (m < L)%nat -> (m' < L)%nat -> (L <= 2 * k + 2)%nat -> (L <= 2 * k' + 2)%nat ->
  (Z.of_nat (2 * k + 1 + (L - 1) / 2 - m) - Z.of_nat (2 * k' + 1 + (L - 1) / 2 - m') = 2 * (Z.of_nat k - Z.of_nat k') - Z.of_nat m + Z.of_nat m')%Z.
Proof using HL. intros. rewrite !Nat2Z.inj_sub by lia. lia. Qed.
Lemma out_cov f g j k k' (q : Z -> R) : length f = L -> length g = L -> inner n L (S j) k -> inner n L (S j) k' ->
  (forall i i', okpos n L j i -> okpos n L j i' -> integrable P (fun w => lowr j i w * lowr j i' w) /\ E P (fun w => lowr j i w * lowr j i' w) = q (Z.of_nat i - Z.of_nat i')%Z) ->
  integrable P (fun w => outr f j k w * outr g j k' w) /\ E P (fun w => outr f j k w * outr g j k' w) = filtered f g q (Z.of_nat k - Z.of_nat k')%Z.
Proof using HL.
  intros Hf Hg IN IN' H.
  destruct (lin_prod P L (fun m => nth m f 0) (fun m => nth m g 0) (fun m => lowr j (2 * k + 1 + (L - 1) / 2 - m)) (fun m => lowr j (2 * k' + 1 + (L - 1) / 2 - m))
    (fun m m' => q (2 * (Z.of_nat k - Z.of_nat k') - Z.of_nat m + Z.of_nat m')%Z)) as [A B].
  { intros m m' Hm Hm'. destruct (H (2 * k + 1 + (L - 1) / 2 - m)%nat (2 * k' + 1 + (L - 1) / 2 - m')%nat) as [U V]; try (now apply okpos_step).
    split; [exact U|]. rewrite V. f_equal. apply pos_diff; trivial; [apply IN|apply IN']. }
  split; [exact A|]. unfold filtered. rewrite Hf, Hg. exact B.
Qed.
Lemma low_cov_ok j : forall k k', okpos n L j k -> okpos n L j k' ->
  integrable P (fun w => lowr j k w * lowr j k' w) /\ E P (fun w => lowr j k w * lowr j k' w) = lcov j (Z.of_nat k - Z.of_nat k')%Z.
Proof using HL HX.
  induction j as [|j IH]; intros k k' Hk Hk'.
  - destruct HX as (X1 & _ & X). cbn [okpos] in *. destruct (X k k' Hk Hk') as [A B].
    assert (G : forall w, nth k (x w) 0 * nth k' (x w) 0 = lowr 0 k w * lowr 0 k' w).
    { intros w. unfold lowr, low. cbn [approx_at]. unfold fin. rewrite !(nth_map_lt _ _ _ 0) by (now rewrite X1). reflexivity. }
    split; [now apply (int_ext W P _ _ G)|]. now rewrite <- (E_ext W P _ _ G).
  - cbn [okpos] in *. destruct (out_cov lo lo j k k' (lcov j) eq_refl eq_refl Hk Hk' (fun i i' Hi Hi' => IH i i' Hi Hi')) as [A B].
    assert (G : forall w, outr lo j k w * outr lo j k' w = lowr (S j) k w * lowr (S j) k' w) by (intros w; now rewrite !lowr_S).
    split; [now apply (int_ext W P _ _ G)|]. now rewrite <- (E_ext W P _ _ G).
Qed.
Lemma out_mean f j k : inner n L (S j) k -> (forall i, okpos n L j i -> integrable P (lowr j i) /\ E P (lowr j i) = 0) ->
  integrable P (outr f j k) /\ E P (outr f j k) = 0.
Proof using HL.
  intros IN H. apply (lin_mean P L (fun m => nth m f 0) (fun m => lowr j (2 * k + 1 + (L - 1) / 2 - m))).
  intros m Hm. apply H. now apply okpos_step.
Qed.
Lemma low_mean j : forall k, okpos n L j k -> integrable P (lowr j k) /\ E P (lowr j k) = 0.
Proof using HL HX.
  induction j as [|j IH]; intros k Hk.
  - destruct HX as (X1 & X & _). cbn [okpos] in *. destruct (X k Hk) as [A B].
    assert (G : forall w, nth k (x w) 0 = lowr 0 k w).
    { intros w. unfold lowr, low. cbn [approx_at]. unfold fin. rewrite !(nth_map_lt _ _ _ 0) by (now rewrite X1). reflexivity. }
    split; [now apply (int_ext W P _ _ G)|]. now rewrite <- (E_ext W P _ _ G).
  - cbn [okpos] in *. destruct (out_mean lo j k Hk IH) as [A B].
    assert (G : forall w, outr lo j k w = lowr (S j) k w) by (intros w; now rewrite lowr_S).
    split; [now apply (int_ext W P _ _ G)|]. now rewrite <- (E_ext W P _ _ G).
Qed.
(** a variable uncorrelated with all approximations of a level is uncorrelated with all later outputs *)
Lemma later_zero (y : W -> R) j : (forall i, okpos n L j i -> integrable P (fun w => y w * lowr j i w) /\ E P (fun w => y w * lowr j i w) = 0) ->
  forall d i, okpos n L (d + j) i -> integrable P (fun w => y w * lowr (d + j) i w) /\ E P (fun w => y w * lowr (d + j) i w) = 0.
Proof using HL HX.
  intros H d. induction d as [|d IH]; intros i Hi; [now apply H|]. cbn [Nat.add okpos] in *.
  assert (Q := lin_mean P L (fun m => nth m lo 0) (fun m w => y w * lowr (d + j) (2 * i + 1 + (L - 1) / 2 - m) w)).
  destruct Q as [A B]; [intros m Hm; apply IH; now apply okpos_step|].
  assert (G : forall w, sumn L (fun m => nth m lo 0 * (y w * lowr (d + j) (2 * i + 1 + (L - 1) / 2 - m) w)) = y w * lowr (S (d + j)) i w).
  { intros w. rewrite lowr_S by trivial. unfold outr. fold L. rewrite <- sumn_scal. apply sumn_ext. intros; ring. }
  split; [now apply (int_ext W P _ _ G)|]. now rewrite <- (E_ext W P _ _ G).
Qed.
Lemma later_out (y : W -> R) f j : (forall i, okpos n L j i -> integrable P (fun w => y w * lowr j i w) /\ E P (fun w => y w * lowr j i w) = 0) ->
  forall k, inner n L (S j) k -> integrable P (fun w => y w * outr f j k w) /\ E P (fun w => y w * outr f j k w) = 0.
Proof using HL HX.
  intros H k Hk.
  assert (Q := lin_mean P L (fun m => nth m f 0) (fun m w => y w * lowr j (2 * k + 1 + (L - 1) / 2 - m) w)).
  destruct Q as [A B]; [intros m Hm; apply H; now apply okpos_step|].
  assert (G : forall w, sumn L (fun m => nth m f 0 * (y w * lowr j (2 * k + 1 + (L - 1) / 2 - m) w)) = y w * outr f j k w).
  { intros w. unfold outr. fold L. rewrite <- sumn_scal. apply sumn_ext. intros; ring. }
  split; [now apply (int_ext W P _ _ G)|]. now rewrite <- (E_ext W P _ _ G).
Qed.
End Cov.

(** filters applied to uncorrelated samples *)
Lemma filtered_flat f g s2 d : filtered f g (flat s2) d = s2 * translate_product f g (- d).
Proof.
  unfold filtered, translate_product. rewrite <- sumn_scal. apply sumn_ext. intros m Hm. cbv zeta.
  set (z := (Z.of_nat m + 2 * - d)%Z). destruct (Z.ltb_spec z 0) as [Hz|Hz].
  - rewrite Rmult_0_r, Rmult_0_r. apply sumn_zero. intros m' Hm'. unfold flat. destruct (Z.eq_dec _ 0); [unfold z in Hz; lia|ring].
  - destruct (Nat.lt_ge_cases (Z.to_nat z) (length g)) as [Hl|Hl].
    + rewrite (sumn_single _ _ (Z.to_nat z) Hl).
      * unfold flat. destruct (Z.eq_dec _ 0) as [e|e]; [ring|]. exfalso. apply e. unfold z in *. lia.
      * intros i Hi ne. unfold flat. destruct (Z.eq_dec _ 0) as [e|e]; [|ring]. exfalso. apply ne. unfold z. lia.
    + rewrite (nth_overflow g) by trivial. rewrite Rmult_0_r, Rmult_0_r. apply sumn_zero. intros m' Hm'. unfold flat. destruct (Z.eq_dec _ 0); [unfold z in *; lia|ring].
Qed.
Lemma filtered_ext f g r r' d : (forall z, r z = r' z) -> filtered f g r d = filtered f g r' d.
Proof. intros H. unfold filtered. apply sumn_ext. intros. apply sumn_ext. intros. now rewrite H. Qed.
Lemma low_cov_flat w s2 : orthonormal w -> forall j d, low_cov w (flat s2) j d = flat s2 d.
Proof.
  intros O j. induction j as [|j IH]; intros d; [reflexivity|]. cbn [low_cov]. rewrite (filtered_ext _ _ _ _ d IH), filtered_flat.
  destruct (O (- d)%Z) as [-> _]. unfold flat. destruct (Z.eq_dec (- d) 0), (Z.eq_dec d 0); try lia; ring.
Qed.
Lemma high_cov_flat w s2 j d : orthonormal w -> high_cov w (flat s2) j d = flat s2 d.
Proof.
  intros O. unfold high_cov. rewrite (filtered_ext _ _ _ _ d (low_cov_flat w s2 O _)), filtered_flat.
  destruct (O (- d)%Z) as (_ & -> & _). unfold flat. destruct (Z.eq_dec (- d) 0), (Z.eq_dec d 0); try lia; ring.
Qed.
Lemma lcov_eq w r j d : lcov r (dec_lo w) j d = low_cov w r j d.
Proof. revert d. induction j as [|j IH]; intros d; [reflexivity|]. cbn [lcov low_cov]. now apply filtered_ext. Qed.
Lemma filtered_neg w r d : filtered (neg_hi w) (neg_hi w) r d = filtered (dec_hi w) (dec_hi w) r d.
Proof.
  unfold filtered. rewrite neg_hi_length. apply sumn_ext. intros m Hm. apply sumn_ext. intros m' Hm'. unfold neg_hi.
  rewrite !(nth_map_lt _ _ _ 0) by trivial. ring.
Qed.
Lemma filtered_neg_l w g r d : filtered (neg_hi w) g r d = - filtered (dec_hi w) g r d.
Proof.
  unfold filtered. rewrite neg_hi_length, <- sumn_opp. apply sumn_ext. intros m Hm. rewrite <- sumn_opp. apply sumn_ext. intros m' Hm'. unfold neg_hi.
  rewrite !(nth_map_lt _ _ _ 0) by trivial. ring.
Qed.

(** ** C108 *)
Section Transform.
Context {W : Type} (P : expectation W).
Variables (S : W -> list (list R)) (n nrep : nat) (w : wavelet) (p : pexp) (j1 : Z) (j2 : option R) (gam norm : R) (weighted : bool) (T : W -> wtransform) (ws : W -> list warning).
Hypothesis HS : forall o, length (S o) = nrep /\ Forall (fun s => length s = n) (S o).
Hypothesis Hw : good_wavelet w.
Hypothesis Hn : norm <> 0.
Hypothesis Hp : p_ok p.
Hypothesis HT : forall o, wavelet_analysis (map fin (S o)) p w j1 j2 gam norm weighted = Ok (T o, ws o).
Let lo := dec_lo w.
Lemma lo_len : length lo = length (dec_hi w).
Proof using Hw. apply Hw. Qed.
Lemma lo_1 : (1 <= length lo)%nat.
Proof using Hw. unfold lo. destruct Hw. lia. Qed.
(** an inner coefficient *)
Lemma coef_value j r k : (1 <= j)%nat -> (forall o, In (Z.of_nat j) (scales (wt_coefs (T o)))) -> (r < nrep)%nat -> inner n (length (dec_hi w)) j k ->
  forall o, entry (wt_coefs (T o)) (Z.of_nat j) r k = Fin (factor norm gam j * outr (fun o => nth r (S o) []) lo (neg_hi w) (j - 1) k o).
Proof using HS Hw Hn Hp HT.
  intros Hj HI Hr IN o. assert (I := HI o). assert (E := HT o). apply wa_inv in E as (eta & _ & ET & _); trivial. rewrite ET in *. cbn [the_wt wt_coefs] in *.
  apply in_scales in I as (i & Ei & Hi). apply Nat2Z.inj in Ei. subst i. rewrite entry_coef by trivial. rewrite nth_fin. unfold coef. rewrite rescale_eq.
  set (f := xmul _). assert (F : f NaN = NaN) by reflexivity. rewrite <- F, map_nth.
  assert (Ls : length (nth r (S o) []) = n) by (destruct (HS o) as [A B]; rewrite Forall_forall in B; apply B, nth_In; lia).
  unfold detail. change (dec_lo w) with lo. replace j with (Datatypes.S (j - 1)) in IN by lia. rewrite <- lo_len in IN.
  rewrite (step_value lo (nth r (S o) []) lo_1 (neg_hi w) (j - 1) k); [|now rewrite neg_hi_length, lo_len|now rewrite Ls].
  unfold f, factor, outr, lowr. cbn [xmul]. do 3 f_equal. rewrite <- INR_IZR_INZ. ring.
Qed.
Lemma moments_1 r (rr : Z -> R) j k : stationary_signal P n (fun o => nth r (S o) []) rr -> (1 <= j)%nat -> (forall o, In (Z.of_nat j) (scales (wt_coefs (T o)))) -> (r < nrep)%nat -> inner n (length (dec_hi w)) j k ->
  integrable P (fun o => number (entry (wt_coefs (T o)) (Z.of_nat j) r k)) /\ E P (fun o => number (entry (wt_coefs (T o)) (Z.of_nat j) r k)) = 0.
Proof using HS Hw Hn Hp HT.
  intros HX Hj HI Hr IN. assert (V := coef_value j r k Hj HI Hr IN). rewrite <- lo_len in IN. replace j with (Datatypes.S (j - 1)) in IN by lia.
  destruct (out_mean P n (fun o => nth r (S o) []) lo lo_1 (neg_hi w) (j - 1) k IN) as [A B]; [intros i Hi; now apply (low_mean P n _ rr lo lo_1 HX)|].
  assert (G : forall o, factor norm gam j * outr (fun o => nth r (S o) []) lo (neg_hi w) (j - 1) k o = number (entry (wt_coefs (T o)) (Z.of_nat j) r k)) by (intros o; now rewrite V).
  split; [now apply (int_ext W P _ _ G), int_scal|]. rewrite <- (E_ext W P _ _ G), E_scal by trivial. rewrite B. ring.
Qed.
Lemma moments_2 r (rr : Z -> R) j k k' : stationary_signal P n (fun o => nth r (S o) []) rr -> (1 <= j)%nat -> (forall o, In (Z.of_nat j) (scales (wt_coefs (T o)))) -> (r < nrep)%nat ->
  inner n (length (dec_hi w)) j k -> inner n (length (dec_hi w)) j k' ->
  integrable P (fun o => number (entry (wt_coefs (T o)) (Z.of_nat j) r k) * number (entry (wt_coefs (T o)) (Z.of_nat j) r k')) /\
  E P (fun o => number (entry (wt_coefs (T o)) (Z.of_nat j) r k) * number (entry (wt_coefs (T o)) (Z.of_nat j) r k'))
  = factor norm gam j ^ 2 * high_cov w rr j (Z.of_nat k - Z.of_nat k')%Z.
Proof using HS Hw Hn Hp HT.
  intros HX Hj HI Hr IN IN'. assert (V := coef_value j r k Hj HI Hr IN). assert (V' := coef_value j r k' Hj HI Hr IN').
  rewrite <- lo_len in IN, IN'. replace j with (Datatypes.S (j - 1)) in IN, IN' by lia.
  assert (NL : length (neg_hi w) = length lo) by (now rewrite neg_hi_length, lo_len).
  destruct (out_cov P n (fun o => nth r (S o) []) lo lo_1 (neg_hi w) (neg_hi w) (j - 1) k k' (lcov rr lo (j - 1)) NL NL IN IN') as [A B].
  { intros i i' Hi Hi'. now apply (low_cov_ok P n _ rr lo lo_1 HX). }
  set (f := factor norm gam j) in *.
  assert (G : forall o, f ^ 2 * (outr (fun o => nth r (S o) []) lo (neg_hi w) (j - 1) k o * outr (fun o => nth r (S o) []) lo (neg_hi w) (j - 1) k' o)
     = number (entry (wt_coefs (T o)) (Z.of_nat j) r k) * number (entry (wt_coefs (T o)) (Z.of_nat j) r k')) by (intros o; rewrite V, V'; cbn [number]; ring).
  split; [now apply (int_ext W P _ _ G), int_scal|]. rewrite <- (E_ext W P _ _ G), E_scal by trivial. rewrite B, filtered_neg. f_equal. unfold high_cov.
  apply filtered_ext. intros z. apply lcov_eq.
Qed.
End Transform.

(** the coefficients of a stationary signal are centred and stationary at every scale, with covariances given by the filters *)
Theorem C108_stationary :
  forall {W} (P : expectation W) (S : W -> list (list R)) (n nrep : nat) w p j1 j2 gam norm weighted (T : W -> wtransform) (ws : W -> list warning) r cov,
  (forall o, length (S o) = nrep /\ Forall (fun s => length s = n) (S o)) -> good_wavelet w -> norm <> 0 -> p_ok p ->
  (forall o, wavelet_analysis (map fin (S o)) p w j1 j2 gam norm weighted = Ok (T o, ws o)) ->
  (r < nrep)%nat -> stationary_signal P n (fun o => nth r (S o) []) cov ->
  forall j k k', (1 <= j)%nat -> (forall o, In (Z.of_nat j) (scales (wt_coefs (T o)))) ->
  inner n (length (dec_hi w)) j k -> inner n (length (dec_hi w)) j k' ->
  let c k o := number (entry (wt_coefs (T o)) (Z.of_nat j) r k) in
  (forall o, entry (wt_coefs (T o)) (Z.of_nat j) r k = Fin (c k o)) /\
  integrable P (c k) /\ E P (c k) = 0 /\ integrable P (fun o => c k o * c k' o) /\
  Cov P (c k) (c k') = factor norm gam j ^ 2 * high_cov w cov j (Z.of_nat k - Z.of_nat k').
Proof.
  intros W P S n nrep w p j1 j2 gam norm wd T ws r cov HS Hw Hn Hp HT Hr HX j k k' Hj HI IN IN' c.
  assert (V := coef_value S n nrep w p j1 j2 gam norm wd T ws HS Hw Hn Hp HT j r k Hj HI Hr IN).
  destruct (moments_1 P S n nrep w p j1 j2 gam norm wd T ws HS Hw Hn Hp HT r cov j k HX Hj HI Hr IN) as [A B].
  destruct (moments_2 P S n nrep w p j1 j2 gam norm wd T ws HS Hw Hn Hp HT r cov j k k' HX Hj HI Hr IN IN') as [A' B'].
  split; [intros o; unfold c; rewrite V; reflexivity|]. split; [exact A|]. split; [exact B|]. split; [exact A'|]. unfold Cov. unfold c. rewrite B, B'. ring.
Qed.
Print Assumptions C108_stationary.

(** white noise analysed with an orthonormal wavelet: all coefficients, of all positions and scales, are uncorrelated and have the variance s2 up to the factor of the scale *)
Theorem C108_white :
  forall {W} (P : expectation W) (S : W -> list (list R)) (n nrep : nat) w p j1 j2 gam norm weighted (T : W -> wtransform) (ws : W -> list warning) r s2,
  (forall o, length (S o) = nrep /\ Forall (fun s => length s = n) (S o)) -> good_wavelet w -> orthonormal w -> norm <> 0 -> p_ok p ->
  (forall o, wavelet_analysis (map fin (S o)) p w j1 j2 gam norm weighted = Ok (T o, ws o)) ->
  (r < nrep)%nat -> stationary_signal P n (fun o => nth r (S o) []) (flat s2) ->
  forall j j' k k', (1 <= j <= j')%nat -> (forall o, In (Z.of_nat j') (scales (wt_coefs (T o)))) ->
  inner n (length (dec_hi w)) j k -> inner n (length (dec_hi w)) j' k' ->
  let c j k o := number (entry (wt_coefs (T o)) (Z.of_nat j) r k) in
  E P (c j k) = 0 /\
  Cov P (c j k) (c j' k') = if Nat.eq_dec j j' then if Nat.eq_dec k k' then factor norm gam j ^ 2 * s2 else 0 else 0.
Proof.
  intros W P S n nrep w p j1 j2 gam norm wd T ws r s2 HS Hw HO Hn Hp HT Hr HX j j' k k' Hj HI' IN IN' c.
  assert (HI : forall o, In (Z.of_nat j) (scales (wt_coefs (T o)))).
  { intros o. assert (I := HI' o). assert (E := HT o). apply wa_inv in E as (eta & _ & ET & _); trivial. rewrite ET in *. cbn [the_wt wt_coefs] in *.
    apply in_scales in I as (i & Ei & Hi). apply Nat2Z.inj in Ei. subst i. rewrite scales_mrq. apply in_map. apply in_seq. lia. }
  destruct (moments_1 P S n nrep w p j1 j2 gam norm wd T ws HS Hw Hn Hp HT r _ j k HX (proj1 Hj) HI Hr IN) as [A B].
  split; [exact B|].
  destruct (moments_1 P S n nrep w p j1 j2 gam norm wd T ws HS Hw Hn Hp HT r _ j' k' HX ltac:(lia) HI' Hr IN') as [A' B'].
  unfold Cov, c. rewrite B, B'. destruct (Nat.eq_dec j j') as [<-|ne].
  - destruct (moments_2 P S n nrep w p j1 j2 gam norm wd T ws HS Hw Hn Hp HT r _ j k k' HX (proj1 Hj) HI Hr IN IN') as [_ ->].
    rewrite high_cov_flat by trivial. unfold flat. destruct (Nat.eq_dec k k'), (Z.eq_dec (Z.of_nat k - Z.of_nat k') 0); try lia; ring.
  - assert (V := coef_value S n nrep w p j1 j2 gam norm wd T ws HS Hw Hn Hp HT j r k (proj1 Hj) HI Hr IN).
    assert (V' := coef_value S n nrep w p j1 j2 gam norm wd T ws HS Hw Hn Hp HT j' r k' ltac:(lia) HI' Hr IN').
    set (x := fun o => nth r (S o) []) in *. set (lo := dec_lo w) in *.
    assert (LL : length lo = length (dec_hi w)) by apply Hw. assert (L1 : (1 <= length lo)%nat) by (destruct Hw; lia).
    rewrite <- LL in IN, IN'. replace j with (Datatypes.S (j - 1)) in IN by lia. replace j' with (Datatypes.S (j' - 1)) in IN' by lia.
    assert (NL : length (neg_hi w) = length lo) by (now rewrite neg_hi_length, LL).
    set (y := outr x lo (neg_hi w) (j - 1) k) in *.
    assert (Z0 : forall i, okpos n (length lo) j i -> integrable P (fun o => y o * lowr x lo j i o) /\ E P (fun o => y o * lowr x lo j i o) = 0).
    { intros i Hi. replace j with (Datatypes.S (j - 1)) in Hi |- * by lia. cbn [okpos] in Hi.
      destruct (out_cov P n x lo L1 (neg_hi w) lo (j - 1) k i (lcov (flat s2) lo (j - 1)) NL eq_refl IN Hi) as [U U'].
      { intros a b Ha Hb. now apply (low_cov_ok P n _ (flat s2) lo L1 HX). }
      assert (G : forall o, outr x lo (neg_hi w) (j - 1) k o * outr x lo lo (j - 1) i o = y o * lowr x lo (Datatypes.S (j - 1)) i o).
      { intros o. now rewrite (lowr_S P n x (flat s2) lo L1 HX). }
      split; [now apply (int_ext W P _ _ G)|]. rewrite <- (E_ext W P _ _ G), U', filtered_neg_l.
      rewrite (filtered_ext _ _ _ (flat s2)) by (intros z; unfold lo; rewrite lcov_eq; now apply low_cov_flat). rewrite filtered_flat.
      destruct (HO (- (Z.of_nat k - Z.of_nat i))%Z) as (_ & _ & Q). unfold lo. rewrite Q. ring. }
    destruct (later_out P n x (flat s2) lo L1 HX y (neg_hi w) (j' - 1)) with (k := k') as [U U']; [|exact IN'|].
    { intros i Hi. replace (j' - 1)%nat with ((j' - 1 - j) + j)%nat in * by lia. now apply (later_zero P n x (flat s2) lo L1 HX y j Z0). }
    rewrite (E_ext W P _ (fun o => factor norm gam j * factor norm gam j' * (y o * outr x lo (neg_hi w) (j' - 1) k' o))).
    + rewrite E_scal by trivial. rewrite U'. ring.
    + intros o. rewrite V, V'. cbn [number]. fold y. ring.
Qed.
Print Assumptions C108_white.
