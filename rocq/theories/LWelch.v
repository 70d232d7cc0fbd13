(** * The Welch spectrum: algebra of one segment *)
From Coq Require Import Reals List ZArith Bool Lra Lia.
From Verif Require Import XReal PyBase ModelUtils ModelMRQ ModelWavelet ModelPSD ModelSimul ModelWelch Spec LXReal LBase LPSD LDft.
Import ListNotations.
Local Notation length := List.length.
Open Scope R_scope.

(** ** Specification *)
(** the periodic Hamming window of M samples *)
Definition window (M n : nat) : R := if Nat.eqb M 1 then 1 else 54 / 100 - 46 / 100 * cos (2 * PI * INR n / INR M).
Definition window_energy (M : nat) : R := sumn M (fun n => window M n * window M n).
(** squared modulus, at frequency number k among nf, of the Fourier transform of the windowed samples s 0, ..., s (M-1) *)
Definition power (M nf : nat) (s : nat -> R) (k : nat) : R :=
  sumn M (fun n => window M n * s n * cos (2 * PI * INR k * INR n / INR nf)) ^ 2 +
  sumn M (fun n => window M n * s n * sin (2 * PI * INR k * INR n / INR nf)) ^ 2.
(** number of Fourier frequencies, among nf, shown at entry k of a one-sided spectrum: k and nf - k, or only one of them *)
Definition sides (nf k : nat) : R := if Nat.eqb k 0 || Nat.eqb (2 * k) nf then 1 else 2.
(** entry k of the spectrum of one recording *)
Definition spectrum_at (P : psd) (k : nat) : xr := match psd_psd P with PSD1 v => nth k v NaN | PSD2 _ _ => NaN end.

Lemma window_eq M n : (1 <= M)%nat -> hamming M n = window M n.
Proof. intros H. unfold hamming, window. destruct (Nat.leb_spec M 1), (Nat.eqb_spec M 1); trivial; lia. Qed.
Lemma window_pos M n : 8 / 100 <= window M n.
Proof. unfold window. destruct (Nat.eqb M 1); [lra|]. assert (B := COS_bound (2 * PI * INR n / INR M)). lra. Qed.
Lemma energy_pos M : (1 <= M)%nat -> 0 < window_energy M.
Proof.
  intros H. unfold window_energy. apply Rlt_le_trans with (INR M * (8 / 100 * (8 / 100))).
  - apply Rmult_lt_0_compat; [apply lt_0_INR; lia|lra].
  - rewrite <- sumn_const. apply sumn_le. intros n _. assert (W := window_pos M n). apply Rmult_le_compat; lra.
Qed.
Lemma sides_eq nf k : onesided nf k = sides nf k.
Proof.
  unfold onesided, sides. destruct (Nat.eqb_spec k 0) as [->|N]; [reflexivity|]. cbn [orb].
  destruct (Nat.eqb_spec (2 * k) nf) as [<-|E].
  - replace (2 * k)%nat with (k * 2)%nat by lia. rewrite Nat.div_mul, Nat.eqb_refl by lia. rewrite Nat.mul_comm, Nat.even_mul. reflexivity.
  - destruct (Nat.even nf) eqn:EV; [|reflexivity]. cbn [andb]. destruct (Nat.eqb_spec k (nf / 2)) as [->|]; [|reflexivity].
    exfalso. apply E. apply Nat.even_spec in EV. destruct EV as [h ->]. replace (2 * h)%nat with (h * 2)%nat by lia. rewrite Nat.div_mul; lia.
Qed.
Lemma sumn_pad M nf f : (M <= nf)%nat -> sumn nf (fun n => if Nat.ltb n M then f n else 0) = sumn M f.
Proof.
  intros H. replace nf with (M + (nf - M))%nat by lia. rewrite sumn_app. rewrite (sumn_zero (nf - M)).
  - rewrite Rplus_0_r. apply sumn_ext. intros i Hi. destruct (Nat.ltb_spec i M); [reflexivity|lia].
  - intros i _. destruct (Nat.ltb_spec (M + i) M); [lia|reflexivity].
Qed.
Lemma periodogram_eq fs M nf s k : (1 <= M <= nf)%nat -> (k <= nf / 2)%nat ->
  nth k (periodogram fs M nf s) 0 = power M nf (fun n => nth n s 0) k * (1 / (fs * window_energy M)) * sides nf k.
Proof.
  intros HM Hk. unfold periodogram. rewrite (nth_map_lt _ _ _ 0%nat) by (rewrite seq_length; lia). rewrite seq_nth by lia. cbn [Nat.add].
  rewrite sides_eq. f_equal.
  assert (L : length (windowed M nf s) = nf) by (unfold windowed; now rewrite map_length, seq_length).
  assert (V : forall m, (m < nf)%nat -> nth m (windowed M nf s) (0, 0) = toC (if Nat.ltb m M then window M m * nth m s 0 else 0)).
  { intros m Hm. unfold windowed. rewrite (nth_map_lt _ _ _ 0%nat) by (now rewrite seq_length). rewrite seq_nth by trivial. cbn [Nat.add].
    now rewrite window_eq by lia. }
  destruct (dft_at_eq (-1) (windowed M nf s) k) as [E|[_ E]]; [|lra]. rewrite E, L. cbn [fst snd]. clear E.
  unfold density. f_equal.
  2:{ f_equal. f_equal. unfold window_energy, sumn, Rsum. f_equal. apply map_ext. intros n. now rewrite window_eq by lia. }
  unfold power.
  rewrite (sumn_ext nf _ (fun n => if Nat.ltb n M then window M n * nth n s 0 * cos (2 * PI * INR k * INR n / INR nf) else 0)).
  2:{ intros m Hm. rewrite V by trivial. unfold toC, ang. cbn [fst snd]. rewrite <- INR_IZR_INZ. destruct (Nat.ltb m M); ring. }
  rewrite (sumn_ext nf (fun m => _ + _) (fun n => if Nat.ltb n M then - (window M n * nth n s 0 * sin (2 * PI * INR k * INR n / INR nf)) else 0)).
  2:{ intros m Hm. rewrite V by trivial. unfold toC, ang. cbn [fst snd]. rewrite <- INR_IZR_INZ. destruct (Nat.ltb m M); ring. }
  rewrite !sumn_pad, sumn_opp by lia. ring.
Qed.

(** the power as a double sum *)
Lemma power_double M nf s k : power M nf s k =
  sumn M (fun n => sumn M (fun m => window M n * s n * (window M m * s m) * cos (2 * PI * INR k * (INR n - INR m) / INR nf))).
Proof.
  unfold power.
  set (a := fun n => window M n * s n). set (t := fun n => 2 * PI * INR k * INR n / INR nf).
  assert (X : forall f, sumn M (fun n => a n * f n) ^ 2 = sumn M (fun n => sumn M (fun m => a n * f n * (a m * f m)))).
  { intros f. cbn [pow]. rewrite Rmult_1_r. rewrite <- sumn_scal_r. apply sumn_ext. intros n _. now rewrite <- sumn_scal. }
  change (sumn M (fun n => a n * cos (t n)) ^ 2 + sumn M (fun n => a n * sin (t n)) ^ 2 =
    sumn M (fun n => sumn M (fun m => a n * a m * cos (2 * PI * INR k * (INR n - INR m) / INR nf)))).
  rewrite (X (fun n => cos (t n))), (X (fun n => sin (t n))), <- sumn_plus. apply sumn_ext. intros n _. rewrite <- sumn_plus.
  apply sumn_ext. intros m _. replace (2 * PI * INR k * (INR n - INR m) / INR nf) with (t n - t m) by (unfold t, Rdiv; ring).
  rewrite cos_minus. ring.
Qed.
Lemma power_nonneg M nf s k : 0 <= power M nf s k.
Proof. unfold power. apply Rplus_le_le_0_compat; apply pow2_ge_0. Qed.
Lemma power_scal M nf s c k : power M nf (fun n => c * s n) k = c ^ 2 * power M nf s k.
Proof.
  unfold power. rewrite (sumn_ext M _ (fun n => c * (window M n * s n * cos (2 * PI * INR k * INR n / INR nf)))) by (intros; ring).
  rewrite (sumn_ext M (fun n => window M n * (c * s n) * _) (fun n => c * (window M n * s n * sin (2 * PI * INR k * INR n / INR nf)))) by (intros; ring).
  rewrite !sumn_scal. ring.
Qed.
Lemma power_ext M nf s s' k : (forall n, (n < M)%nat -> s n = s' n) -> power M nf s k = power M nf s' k.
Proof. intros H. unfold power. rewrite !(sumn_ext M _ _ (fun n Hn => f_equal (fun z => window M n * z * _) (H n Hn))). reflexivity. Qed.

(** ** Parseval *)
Lemma power_total M nf s : (1 <= M <= nf)%nat -> sumn nf (power M nf s) = INR nf * sumn M (fun n => (window M n * s n) ^ 2).
Proof.
  intros H. rewrite (sumn_ext nf _ _ (fun k _ => power_double M nf s k)). rewrite sumn_swap, <- sumn_scal. apply sumn_ext. intros n Hn.
  rewrite sumn_swap. rewrite (sumn_single M _ n Hn).
  - rewrite sumn_scal. rewrite (sumn_ext nf _ (fun _ => 1)); [rewrite sumn_const; ring|]. intros k _. rewrite Rminus_diag_eq by reflexivity.
    replace (2 * PI * INR k * 0 / INR nf) with 0 by (unfold Rdiv; ring). apply cos_0.
  - intros m Hm N. rewrite sumn_scal. destruct (orthogonality nf (Z.of_nat n - Z.of_nat m) ltac:(lia)) as [O _].
    rewrite (sumn_ext nf _ (fun k => cos (ang nf (Z.of_nat n - Z.of_nat m) k))).
    2:{ intros k _. unfold ang. now rewrite minus_IZR, <- !INR_IZR_INZ. }
    rewrite O. destruct (Z.eq_dec _ 0) as [E|_]; [|ring]. exfalso. apply Z.mod_divide in E as [q E]; [|lia].
    assert (Q : (q = 0)%Z) by (destruct (Z_le_gt_dec q (-1)); [nia|destruct (Z_le_gt_dec q 0); [lia|nia]]). subst q. lia.
Qed.
Lemma power_mirror M nf s k : (1 <= nf)%nat -> (k <= nf)%nat -> power M nf s (nf - k) = power M nf s k.
Proof.
  intros H Hk. rewrite !power_double. apply sumn_ext. intros n _. apply sumn_ext. intros m _. f_equal.
  rewrite minus_INR by trivial. assert (N : INR nf <> 0) by (apply not_0_INR; lia).
  replace (2 * PI * (INR nf - INR k) * (INR n - INR m) / INR nf) with (- (2 * PI * INR k * (INR n - INR m) / INR nf) + 2 * IZR (Z.of_nat n - Z.of_nat m) * PI).
  2:{ rewrite minus_IZR, <- !INR_IZR_INZ. field. exact N. }
  destruct (trig_period (Z.of_nat n - Z.of_nat m) (- (2 * PI * INR k * (INR n - INR m) / INR nf))) as [-> _]. apply cos_neg.
Qed.
(** a sum over the one-sided entries counts every Fourier frequency once *)
Lemma sides_sum nf f : (1 <= nf)%nat -> (forall k, (1 <= k < nf)%nat -> f (nf - k)%nat = f k) -> sumn (nf / 2 + 1) (fun k => sides nf k * f k) = sumn nf f.
Proof.
  intros H HF. assert (D := Nat.div_mod nf 2 ltac:(lia)). assert (MB := Nat.mod_upper_bound nf 2 ltac:(lia)).
  set (h := (nf / 2)%nat) in *. clearbody h. rewrite Nat.add_1_r, sumn_S_first. unfold sides at 1. cbn [Nat.eqb orb].
  destruct (nf mod 2) as [|[|?]]; [| |lia].
  - (* even *) destruct h as [|h]; [lia|]. rewrite sumn_S. unfold sides at 2.
    destruct (Nat.eqb_spec (2 * S h) nf) as [_|]; [|lia]. rewrite orb_true_r.
    rewrite (sumn_ext h _ (fun i => f (S i) + f (S i))).
    2:{ intros i Hi. unfold sides. destruct (Nat.eqb_spec (S i) 0); [lia|]. destruct (Nat.eqb_spec (2 * S i) nf); [lia|]. cbn [orb]. ring. }
    rewrite sumn_plus. replace nf with (S (h + S h)) by lia. rewrite sumn_S_first, sumn_app, sumn_S_first.
    rewrite (sumn_rev h (fun i => f (S (h + S i)))). replace (S (h + 0)) with (S h) by lia.
    rewrite (sumn_ext h (fun i => f (S (h + S (h - 1 - i)))) (fun i => f (S i))); [ring|].
    intros i Hi. rewrite <- (HF (S i)) by lia. f_equal. lia.
  - rewrite (sumn_ext h _ (fun i => f (S i) + f (S i))).
    2:{ intros i Hi. unfold sides. destruct (Nat.eqb_spec (S i) 0); [lia|]. destruct (Nat.eqb_spec (2 * S i) nf); [lia|]. cbn [orb]. ring. }
    rewrite sumn_plus. replace nf with (S (h + h)) by lia. rewrite sumn_S_first, sumn_app.
    rewrite (sumn_rev h (fun i => f (S (h + i)))).
    rewrite (sumn_ext h (fun i => f (S (h + (h - 1 - i)))) (fun i => f (S i))); [ring|].
    intros i Hi. rewrite <- (HF (S i)) by lia. f_equal. lia.
Qed.

(** ** The model *)
Lemma trunc_half z : (0 <= z)%Z -> truncR (IZR z / 2) = (z / 2)%Z.
Proof.
  intros H. assert (IP : Int_part (IZR z / 2) = (z / 2)%Z).
  { symmetry. unfold Int_part. apply Z.add_cancel_r with (p := 1%Z). rewrite Z.sub_add.
    assert (M := Z.mod_pos_bound z 2 ltac:(lia)). assert (D := Z.div_mod z 2 ltac:(lia)).
    apply tech_up; rewrite plus_IZR.
    - assert (Q : (z < 2 * (z / 2) + 2)%Z) by lia. apply IZR_lt in Q. rewrite plus_IZR, mult_IZR in Q. lra.
    - assert (Q : (2 * (z / 2) <= z)%Z) by lia. apply IZR_le in Q. rewrite mult_IZR in Q. lra. }
  unfold truncR. destruct (Rle_dec 0 (IZR z / 2)) as [P|P]; [exact IP|]. exfalso. apply IZR_le in H. lra.
Qed.
Lemma firstn_fin n l : firstn n (fin l) = fin (firstn n l).
Proof. apply firstn_map. Qed.
Lemma skipn_fin n l : skipn n (fin l) = fin (skipn n l).
Proof. apply skipn_map. Qed.
Lemma segment_nth (M ov : nat) (x : list R) i n : (n < M)%nat -> nth n (firstn M (skipn (i * (M - ov)) x)) 0 = nth (i * (M - ov) + n) x 0.
Proof.
  intros H. rewrite <- (firstn_skipn (i * (M - ov)) x) at 2.
  destruct (Nat.le_gt_cases (i * (M - ov)) (length x)) as [L|L].
  - rewrite app_nth2; rewrite firstn_length_le by trivial; [|lia]. replace (i * (M - ov) + n - i * (M - ov))%nat with n by lia.
    generalize (skipn (i * (M - ov)) x). intros l. clear - H. revert M l H. induction n; intros [|M] l H; try lia; destruct l; cbn; trivial.
    apply IHn. lia.
  - rewrite skipn_all2 by lia. rewrite firstn_nil, app_nil_r. rewrite firstn_all2 by lia. rewrite (nth_overflow x) by lia. now destruct n.
Qed.
