(** * C114, continued: missing samples and the end of the recording *)
From Coq Require Import Reals List ZArith Bool Lra Lia String.
From Verif Require Import XReal PyBase ModelUtils ModelMRQ ModelWavelet ModelPSD ModelSimul ModelWelch Spec SpecMRQ SpecSimul LXReal LBase LPSD LDft LSimul LTransform LWave LWelch
  PropsWelch PropsWelchCase.
Import ListNotations.
Local Notation length := List.length.
Open Scope R_scope.

(** the number of samples covered by the full segments *)
Definition used_samples (seg n : nat) : nat := (seg_count seg n * seg_step seg n + seg / 2)%nat.

Lemma used_inside seg n : (1 <= seg)%nat -> (seg / 2 < n)%nat -> (used_samples seg n <= n)%nat.
Proof.
  intros H1 H2. destruct (count_pos seg n H1 H2) as [S1 _]. unfold used_samples, seg_count.
  assert (Q := Nat.mul_div_le (n - seg / 2) (seg_step seg n) ltac:(lia)). rewrite Nat.mul_comm in Q. lia.
Qed.
Lemma used_iff seg n t : (1 <= seg)%nat -> (seg / 2 < n)%nat -> (t < used_samples seg n)%nat -> exists i a, (i < seg_count seg n)%nat /\ (a < seg_length seg n)%nat /\ t = (i * seg_step seg n + a)%nat.
Proof.
  intros H1 H2 Ht. destruct (count_pos seg n H1 H2) as [S1 C1]. unfold used_samples in Ht. set (st := seg_step seg n) in *. set (c := seg_count seg n) in *.
  assert (SL : seg_length seg n = (st + seg / 2)%nat) by (unfold st, seg_step in *; lia). rewrite SL.
  assert (D := Nat.div_mod t st ltac:(lia)). assert (U := Nat.mod_upper_bound t st ltac:(lia)).
  destruct (le_lt_dec c (t / st)) as [L|L].
  - exists (c - 1)%nat, (t - (c - 1) * st)%nat. assert (c * st <= t)%nat by nia. assert (c = (c - 1) + 1)%nat by lia. set (e := (c - 1)%nat) in *. clearbody e. subst c. nia.
  - exists (t / st)%nat, (t mod st)%nat. nia.
Qed.
Lemma used_seg seg n i a : (1 <= seg)%nat -> (seg / 2 < n)%nat -> (i < seg_count seg n)%nat -> (a < seg_length seg n)%nat -> (i * seg_step seg n + a < used_samples seg n)%nat.
Proof.
  intros H1 H2 Hi Ha. destruct (count_pos seg n H1 H2) as [S1 C1]. unfold used_samples. assert (SL : seg_length seg n = (seg_step seg n + seg / 2)%nat) by (unfold seg_step in *; lia). rewrite SL in Ha.
  set (st := seg_step seg n) in *. set (c := seg_count seg n) in *. nia.
Qed.
(** one segment, as a list of its samples *)
Lemma segment_nth_x (M ov : nat) (x : col) i n : (n < M)%nat -> nth n (welch_segment M ov x i) NaN = nth (i * (M - ov) + n) x NaN.
Proof.
  intros H. unfold welch_segment. set (p := (i * (M - ov))%nat). clearbody p. revert p. induction x as [|y x IH]; intros p.
  - rewrite skipn_nil, firstn_nil. assert (Z : forall k, nth k (@nil xr) NaN = NaN) by (intros []; reflexivity). now rewrite !Z.
  - destruct p; cbn [skipn]; [|rewrite IH; reflexivity]. cbn [Nat.add]. clear IH. revert M H x y. induction n; intros [|M] H x y; try lia; cbn; trivial. destruct x as [|z x]; [rewrite firstn_nil; destruct n; reflexivity|]. apply IHn. lia.
Qed.
Lemma segment_len (M ov : nat) (x : col) i : (i * (M - ov) + M <= length x)%nat -> length (welch_segment M ov x i) = M.
Proof. intros H. unfold welch_segment. rewrite firstn_length, skipn_length. lia. Qed.
Lemma all_finite_None l : In NaN l -> all_finite l = None.
Proof. induction l as [|x l IH]; [intros []|]. intros [->|H]; [reflexivity|]. cbn. rewrite (IH H). now destruct x. Qed.
Lemma all_finite_Some l (y : nat -> R) : (forall a, (a < length l)%nat -> nth a l NaN = Fin (y a)) -> all_finite l = Some (map y (seq 0 (length l))).
Proof.
  revert y. induction l as [|x l IH]; intros y H; [reflexivity|]. assert (X := H 0%nat ltac:(cbn; lia)). cbn [nth] in X. subst x. cbn [all_finite].
  rewrite (IH (fun a => y (S a))); [|intros a Ha; apply (H (S a)); cbn; lia]. cbn [length seq map]. now rewrite <- seq_shift, map_map.
Qed.

(** what welch computes, for a recording with any samples *)
Lemma welch_any (x : col) fs n_fft seg_size P : x <> [] -> welch x fs n_fft seg_size = Ok P ->
  let n := length x in let seg := asked_seg n_fft seg_size in let nf := asked_nfft n_fft seg_size in let M := seg_length seg n in
  (1 <= seg)%nat /\ (seg / 2 < n)%nat /\ (1 <= M <= nf)%nat /\
  (exists v, psd_psd P = PSD1 v /\ length v = (nf / 2 + 1)%nat) /\
  forall k, (k <= nf / 2)%nat -> spectrum_at P k = xmul (xdiv (xsum (map (fun i => match all_finite (welch_segment M (seg / 2) x i) with
       | Some s => Fin (nth k (periodogram (2 * PI) M nf s) 0) | None => NaN end) (seq 0 (seg_count seg n)))) (Fin (INR (seg_count seg n)))) (Fin 4).
Proof.
  intros NX E n seg nf M. assert (LX : length x = n) by reflexivity. clearbody n. unfold welch, welch_estimation in E.
  set (zs := welch_seg n_fft seg_size) in *. set (zn := welch_nfft n_fft seg_size) in *.
  assert (EN : zn = Z.max n_fft zs). { unfold zn, welch_nfft. fold zs. destruct (Z.ltb_spec n_fft zs); lia. }
  assert (ES : seg = Z.to_nat zs) by reflexivity.
  assert (EF : nf = Z.to_nat zn) by (unfold nf, asked_nfft; fold seg; rewrite ES, EN; lia).
  destruct (Z.ltb_spec (zn / 2 + 1) 0) as [|_]; [discriminate|].
  destruct (scipy_welch _ _ _) as [v|] eqn:EV; cbn [bind] in E; [|discriminate]. injection E as <-.
  unfold scipy_welch in EV. destruct x as [|y0 y] eqn:EX; [contradiction|]. rewrite <- EX in EV, LX. rewrite <- EX.
  cbn [nperseg ModelPSD.nfft noverlap] in EV. rewrite LX in EV.
  destruct (Z.ltb_spec zs 1) as [|H1]; [discriminate|].
  destruct (Z.ltb_spec zn (Z.min zs (Z.of_nat n))) as [|H2]; [discriminate|].
  rewrite trunc_half in EV by lia.
  destruct (Z.leb_spec (Z.min zs (Z.of_nat n)) (zs / 2)) as [|H3]; [discriminate|]. injection EV as EV.
  assert (Hn : (1 <= n)%nat) by (rewrite <- LX, EX; cbn; lia).
  assert (DV : (seg / 2 = Z.to_nat (zs / 2))%nat) by (rewrite ES; rewrite Z2Nat.inj_div by lia; reflexivity).
  assert (DN : (nf / 2 = Z.to_nat (zn / 2))%nat) by (rewrite EF; rewrite Z2Nat.inj_div by lia; reflexivity).
  assert (S1 : (1 <= seg)%nat) by lia. assert (S2 : (seg / 2 < n)%nat) by lia.
  unfold welch_num in EV. cbn [noverlap ModelPSD.nfft welch_fs] in EV. rewrite trunc_half in EV by lia.
  rewrite LX in EV. rewrite <- EF, <- DV in EV.
  replace (Z.to_nat (zn / 2 + 1)) with (nf / 2 + 1)%nat in EV by (rewrite DN; assert (0 <= zn / 2)%Z by (apply Z.div_pos; lia); lia).
  replace (Z.to_nat (Z.min zs (Z.of_nat n))) with M in EV by (unfold M, seg_length; lia).
  change (welch_segments M (seg / 2) n) with (seg_count seg n) in EV.
  assert (VL : length v = (nf / 2 + 1)%nat) by (rewrite <- EV, map_length, seq_length; reflexivity).
  split; [exact S1|]. split; [exact S2|]. split; [unfold M, seg_length; lia|]. split; [eexists; split; [reflexivity|now rewrite map_length]|].
  intros k Hk. unfold spectrum_at. cbn [psd_psd]. rewrite (nth_map_lt _ _ _ NaN) by lia. rewrite <- EV.
  rewrite (nth_map_lt _ _ _ 0%nat) by (rewrite seq_length; lia). rewrite seq_nth by lia. cbn [Nat.add]. rewrite map_map.
  f_equal. f_equal. f_equal. apply map_ext. intros i. destruct (all_finite (welch_segment M (seg / 2) x i)).
  - rewrite (nth_map_lt _ _ _ 0) by (unfold periodogram; rewrite map_length, seq_length; lia). reflexivity.
  - rewrite nth_repeat. reflexivity.
Qed.

(** A recording without infinite sample: when every sample of the full segments is a number, the spectrum is that of C114_value, whatever follows;
    when one of them is missing, every value of the spectrum is missing *)
Theorem C114_missing :
  forall (x : col) fs n_fft seg_size P, x <> [] -> welch x fs n_fft seg_size = Ok P ->
  let n := length x in let seg := asked_seg n_fft seg_size in let nf := asked_nfft n_fft seg_size in
  ((exists t, (t < used_samples seg n)%nat /\ nth t x NaN = NaN) -> forall k, (k <= nf / 2)%nat -> spectrum_at P k = NaN) /\
  (forall y : nat -> R, (forall t, (t < used_samples seg n)%nat -> nth t x NaN = Fin (y t)) -> forall k, (k <= nf / 2)%nat ->
     spectrum_at P k = Fin (4 * sides nf k / (2 * PI * window_energy (seg_length seg n)) * over_segments seg n (fun s => power (seg_length seg n) nf s k) y)).
Proof.
  intros x fs n_fft seg_size P NX E n seg nf. destruct (welch_any x fs n_fft seg_size P NX E) as (S1 & S2 & ML & _ & V). fold n seg nf in S1, S2, ML, V. destruct (count_pos seg n S1 S2) as [P1 P2].
  assert (ST : (seg_length seg n - seg / 2)%nat = seg_step seg n) by reflexivity. split.
  - intros (t & Ht & HN) k Hk. rewrite (V k Hk). destruct (used_iff seg n t S1 S2 Ht) as (i & a & Hi & Ha & Et).
    rewrite xsum_NaN; [reflexivity|]. apply in_map_iff. exists i. split; [|apply in_seq; lia]. rewrite all_finite_None; [reflexivity|].
    assert (Q := segment_nth_x (seg_length seg n) (seg / 2) x i a Ha). rewrite ST, <- Et, HN in Q. rewrite <- Q. apply nth_In. rewrite segment_len; [trivial|].
    rewrite ST. fold n. assert (Z := segment_inside seg n i (seg_length seg n - 1) S1 S2 Hi ltac:(lia)). lia.
  - intros y Hy k Hk. rewrite (V k Hk).
    rewrite (map_ext_in _ (fun i => Fin (power (seg_length seg n) nf (fun a => y (i * seg_step seg n + a)%nat) k * (1 / (2 * PI * window_energy (seg_length seg n))) * sides nf k))).
    2:{ intros i Hi. apply in_seq in Hi. assert (SLn : length (welch_segment (seg_length seg n) (seg / 2) x i) = seg_length seg n).
        { apply segment_len. rewrite ST. fold n. assert (Z := segment_inside seg n i (seg_length seg n - 1) S1 S2 ltac:(lia) ltac:(lia)). lia. }
        rewrite (all_finite_Some _ (fun a => y (i * seg_step seg n + a)%nat)).
        - f_equal. rewrite SLn, periodogram_eq by trivial. f_equal. f_equal. apply power_ext. intros a Ha. rewrite (nth_map_lt _ _ _ 0%nat) by (now rewrite seq_length). now rewrite seq_nth.
        - rewrite SLn. intros a Ha. rewrite segment_nth_x, ST by trivial. apply Hy. apply used_seg; trivial. lia. }
    rewrite xsum_map_Fin. cbn [xdiv]. destruct (Req_EM_T (INR (seg_count seg n)) 0) as [Z|_]; [exfalso; revert Z; apply not_0_INR; lia|].
    cbn [xmul]. f_equal. fold (sumn (seg_count seg n) (fun i => power (seg_length seg n) nf (fun a => y (i * seg_step seg n + a)%nat) k * (1 / (2 * PI * window_energy (seg_length seg n))) * sides nf k)).
    rewrite (sumn_ext _ _ (fun i => (1 / (2 * PI * window_energy (seg_length seg n)) * sides nf k) * power (seg_length seg n) nf (fun a => y (i * seg_step seg n + a)%nat) k)) by (intros; ring).
    rewrite sumn_scal. unfold over_segments. field. assert (EP := energy_pos (seg_length seg n) ltac:(lia)). assert (PP := PI_RGT_0).
    repeat split; try lra. apply not_0_INR; lia.
Qed.
Print Assumptions C114_missing.

(** the samples after the last full segment change nothing, not even when they are missing *)
Theorem C114_tail :
  forall (x x' : col) fs n_fft seg_size, x <> [] -> length x' = length x ->
  let seg := asked_seg n_fft seg_size in
  firstn (used_samples seg (length x)) x' = firstn (used_samples seg (length x)) x ->
  welch x' fs n_fft seg_size = welch x fs n_fft seg_size.
Proof.
  intros x x' fs n_fft seg_size NX L seg HF. unfold welch, welch_estimation.
  destruct (Z.ltb _ 0); [reflexivity|]. f_equal. unfold scipy_welch. 
  destruct x as [|x0 xt] eqn:EX; [contradiction|]. destruct x' as [|x0' xt'] eqn:EX'; [discriminate L|]. rewrite <- EX, <- EX' in *. clear x0 xt x0' xt' EX EX'.
  cbn [nperseg ModelPSD.nfft noverlap]. rewrite L. set (zs := welch_seg n_fft seg_size) in *. set (zn := welch_nfft n_fft seg_size) in *. set (n := length x) in *.
  destruct (Z.ltb_spec zs 1) as [|H1]; [reflexivity|]. destruct (Z.ltb_spec zn (Z.min zs (Z.of_nat n))) as [|H2]; [reflexivity|]. rewrite trunc_half by lia.
  destruct (Z.leb_spec (Z.min zs (Z.of_nat n)) (zs / 2)) as [|H3]; [reflexivity|]. f_equal.
  assert (ES : seg = Z.to_nat zs) by reflexivity. assert (DV : (seg / 2 = Z.to_nat (zs / 2))%nat) by (rewrite ES; rewrite Z2Nat.inj_div by lia; reflexivity).
  assert (LN : length x = n) by reflexivity. clearbody seg zs zn n. assert (S1 : (1 <= seg)%nat) by (clear - ES H1; lia). assert (S2 : (seg / 2 < n)%nat) by (rewrite DV; assert (0 <= zs / 2)%Z by (apply Z.div_pos; lia); clear - H H3 H1; set (u := (zs / 2)%Z) in *; clearbody u; lia). destruct (count_pos seg n S1 S2) as [P1 P2].
  unfold welch_num. cbn [noverlap ModelPSD.nfft welch_fs]. rewrite trunc_half by lia. rewrite L, LN. rewrite <- DV.
  replace (Z.to_nat (Z.min zs (Z.of_nat n))) with (seg_length seg n) by (unfold seg_length; clear - ES H1; lia). change (welch_segments (seg_length seg n) (seg / 2) n) with (seg_count seg n).
  assert (G : forall i, In i (seq 0 (seg_count seg n)) -> welch_segment (seg_length seg n) (seg / 2) x' i = welch_segment (seg_length seg n) (seg / 2) x i).
  { intros i Hi. apply in_seq in Hi. assert (ML : (1 <= seg_length seg n)%nat) by (unfold seg_length; lia).
    assert (Z := segment_inside seg n i (seg_length seg n - 1) S1 S2 ltac:(lia) ltac:(lia)).
    assert (ST : (seg_length seg n - seg / 2)%nat = seg_step seg n) by reflexivity.
    assert (L1 : length (welch_segment (seg_length seg n) (seg / 2) x i) = seg_length seg n) by (apply segment_len; rewrite ST, LN; lia).
    assert (L2 : length (welch_segment (seg_length seg n) (seg / 2) x' i) = seg_length seg n) by (apply segment_len; rewrite ST, L; lia).
    apply (nth_ext _ _ NaN NaN); [congruence|]. intros a Ha. rewrite L2 in Ha. rewrite !segment_nth_x, ST by trivial.
    assert (U := used_seg seg n i a S1 S2 ltac:(lia) Ha).
    rewrite <- (firstn_skipn (used_samples seg n) x'), <- (firstn_skipn (used_samples seg n) x). assert (UI := used_inside seg n S1 S2).
    rewrite !app_nth1 by (rewrite firstn_length; lia). now rewrite HF. }
  rewrite (map_ext_in _ (fun i => match all_finite (welch_segment (seg_length seg n) (seg / 2) x i) with Some s => map Fin (periodogram (2 * PI) (seg_length seg n) (Z.to_nat zn) s) | None => repeat NaN (Z.to_nat zn / 2 + 1) end)); [reflexivity|].
  intros i Hi. now rewrite (G i Hi).
Qed.
Print Assumptions C114_tail.

(** 11 samples, segments of 4: the last sample, missing here, is in no segment; a missing sample in the first segment spoils every value *)
Example C114_case_missing : let x := fin [1; 2; 0; 5; 1; 1; 3; 2; 1; 4; 7] in
  used_samples 4 11 = 10%nat /\
  welch (firstn 10 x ++ [NaN]) 100 4 None = welch x 100 4 None /\
  (exists P, welch x 100 4 None = Ok P) /\
  exists P', welch (NaN :: tl x) 100 4 None = Ok P' /\ forall k, (k <= 2)%nat -> spectrum_at P' k = NaN.
Proof.
  intros x. split; [vm_compute; reflexivity|]. split; [apply C114_tail; [discriminate|reflexivity|vm_compute; reflexivity]|].
  split; [apply C114_returns; [discriminate|vm_compute; lia]|].
  assert (E : exists P', welch (NaN :: tl x) 100 4 None = Ok P').
  { unfold welch, welch_estimation, scipy_welch. cbn [x tl fin map]. cbn [nperseg ModelPSD.nfft noverlap length]. rewrite trunc_half by (vm_compute; discriminate). cbn. eauto. }
  destruct E as [P' E]. exists P'. split; [exact E|]. intros k Hk.
  assert (NE : NaN :: tl x <> []) by discriminate. destruct (C114_missing _ 100 4 None P' NE E) as [Q _]. apply Q; [|exact Hk]. exists 0%nat. split; [vm_compute; lia|reflexivity].
Qed.
