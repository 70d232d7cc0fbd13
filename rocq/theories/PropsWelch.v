(** * C114, C115: the Fourier (Welch) spectrum *)
From Coq Require Import Reals List ZArith Bool Lra Lia String.
From Verif Require Import XReal PyBase ModelUtils ModelMRQ ModelWavelet ModelPSD ModelSimul ModelWelch Spec SpecMRQ SpecSimul LXReal LBase LPSD LDft LSimul LTransform LWave LWelch
  ModelPlot ModelViz PropsWavelet PropsMissing PropsWhite PropsWhitePower PropsPlotBi PropsViz.
Import ListNotations.
Local Notation length := List.length.
Open Scope R_scope.

(** ** Specification *)
(** the segments cut out of n samples when segments of [seg] samples with an overlap of seg // 2 are asked for *)
Definition seg_length (seg n : nat) : nat := Nat.min seg n.
Definition seg_step (seg n : nat) : nat := (seg_length seg n - seg / 2)%nat.
Definition seg_count (seg n : nat) : nat := ((n - seg / 2) / seg_step seg n)%nat.
(** mean over the segments of the recording s *)
Definition over_segments (seg n : nat) (f : (nat -> R) -> R) (s : nat -> R) : R :=
  sumn (seg_count seg n) (fun i => f (fun a => s (i * seg_step seg n + a)%nat)) / INR (seg_count seg n).
(** the segment and transform lengths asked for *)
Definition asked_seg (n_fft : Z) (seg_size : option Z) : nat := Z.to_nat (match seg_size with Some s => s | None => n_fft end).
Definition asked_nfft (n_fft : Z) (seg_size : option Z) : nat := Nat.max (Z.to_nat n_fft) (asked_seg n_fft seg_size).

Lemma count_pos seg n : (1 <= seg)%nat -> (seg / 2 < n)%nat -> (1 <= seg_step seg n)%nat /\ (1 <= seg_count seg n)%nat.
Proof.
  intros H1 H2. assert (D : (seg / 2 < seg)%nat) by (apply Nat.div_lt; lia). unfold seg_count, seg_step, seg_length.
  split; [lia|]. apply Nat.div_le_lower_bound; lia.
Qed.
Lemma segment_inside seg n i a : (1 <= seg)%nat -> (seg / 2 < n)%nat -> (i < seg_count seg n)%nat -> (a < seg_length seg n)%nat -> (i * seg_step seg n + a < n)%nat.
Proof.
  intros H1 H2 Hi Ha. destruct (count_pos seg n H1 H2) as [S1 _]. unfold seg_count in Hi.
  assert (Q : (seg_step seg n * ((n - seg / 2) / seg_step seg n) <= n - seg / 2)%nat) by (apply Nat.mul_div_le; lia).
  assert (Q2 : (seg_step seg n * (i + 1) <= n - seg / 2)%nat) by (eapply Nat.le_trans; [|exact Q]; apply Nat.mul_le_mono_l; lia).
  unfold seg_step in *. rewrite Nat.mul_add_distr_l, Nat.mul_1_r in Q2. rewrite (Nat.mul_comm i). lia.
Qed.

(** The returned spectrum: one value per returned frequency, each the mean over the half-overlapping segments of the power of the windowed
    segment, divided by (pi / 2) times the energy of the window, doubled where two Fourier frequencies are shown at once.  Every value is a
    number. *)
Theorem C114_value :
  forall (x : list R) fs n_fft seg_size P, x <> [] -> welch (fin x) fs n_fft seg_size = Ok P ->
  let n := length x in let seg := asked_seg n_fft seg_size in let nf := asked_nfft n_fft seg_size in
  (1 <= seg)%nat /\ (seg / 2 < n)%nat /\ (1 <= seg_count seg n)%nat /\ length (psd_freq P) = (nf / 2 + 1)%nat /\
  (exists v, psd_psd P = PSD1 v /\ length v = (nf / 2 + 1)%nat) /\
  forall k, (k <= nf / 2)%nat ->
    spectrum_at P k = Fin (4 * sides nf k / (2 * PI * window_energy (seg_length seg n)) *
                           over_segments seg n (fun s => power (seg_length seg n) nf s k) (fun t => nth t x 0)).
Proof.
  intros x fs n_fft seg_size P NX E n seg nf. unfold welch, welch_estimation in E.
  set (zs := welch_seg n_fft seg_size) in *. set (zn := welch_nfft n_fft seg_size) in *.
  assert (EN : zn = Z.max n_fft zs). { unfold zn, welch_nfft. fold zs. destruct (Z.ltb_spec n_fft zs); lia. }
  assert (ES : seg = Z.to_nat zs) by reflexivity.
  assert (EF : nf = Z.to_nat zn) by (unfold nf, asked_nfft; fold seg; rewrite ES, EN; lia).
  destruct (Z.ltb_spec (zn / 2 + 1) 0) as [|_]; [discriminate|].
  destruct (scipy_welch _ _ _) as [v|] eqn:EV; cbn [bind] in E; [|discriminate]. injection E as <-.
  unfold scipy_welch in EV. destruct (fin x) as [|y0 y] eqn:EX; [destruct x; [contradiction|discriminate]|]. rewrite <- EX in EV. clear y0 y EX.
  cbn [nperseg ModelPSD.nfft noverlap] in EV. rewrite fin_length in EV. fold n in EV.
  destruct (Z.ltb_spec zs 1) as [|H1]; [discriminate|].
  destruct (Z.ltb_spec zn (Z.min zs (Z.of_nat n))) as [|H2]; [discriminate|].
  rewrite trunc_half in EV by lia.
  destruct (Z.leb_spec (Z.min zs (Z.of_nat n)) (zs / 2)) as [|H3]; [discriminate|]. injection EV as EV.
  assert (Hn : (1 <= n)%nat) by (unfold n; destruct x; [contradiction|cbn; lia]).
  assert (DV : (seg / 2 = Z.to_nat (zs / 2))%nat) by (rewrite ES; rewrite Z2Nat.inj_div by lia; reflexivity).
  assert (DN : (nf / 2 = Z.to_nat (zn / 2))%nat) by (rewrite EF; rewrite Z2Nat.inj_div by lia; reflexivity).
  assert (S1 : (1 <= seg)%nat) by lia. assert (S2 : (seg / 2 < n)%nat) by lia.
  destruct (count_pos seg n S1 S2) as [P1 P2].
  assert (FL : length (map (fun t => fs * t) (linspace 0 (1 / 2) (Z.to_nat (zn / 2 + 1)))) = (nf / 2 + 1)%nat).
  { unfold linspace. rewrite !map_length, seq_length, DN. assert (0 <= zn / 2)%Z by (apply Z.div_pos; lia). lia. }
  unfold welch_num in EV. cbn [noverlap ModelPSD.nfft welch_fs] in EV. rewrite trunc_half in EV by lia.
  rewrite fin_length in EV. fold n in EV. rewrite <- EF, <- DV in EV.
  replace (Z.to_nat (zn / 2 + 1)) with (nf / 2 + 1)%nat in EV by (rewrite DN; assert (0 <= zn / 2)%Z by (apply Z.div_pos; lia); lia).
  replace (Z.to_nat (Z.min zs (Z.of_nat n))) with (seg_length seg n) in EV by (unfold seg_length; lia).
  change (welch_segments (seg_length seg n) (seg / 2) n) with (seg_count seg n) in EV.
  assert (VL : length v = (nf / 2 + 1)%nat) by (rewrite <- EV, map_length, seq_length; reflexivity).
  split; [exact S1|]. split; [exact S2|]. split; [exact P2|]. split; [exact FL|].
  split; [eexists; split; [reflexivity|now rewrite map_length]|].
  intros k Hk. unfold spectrum_at. cbn [psd_psd]. rewrite (nth_map_lt _ _ _ NaN) by lia. rewrite <- EV.
  rewrite (nth_map_lt _ _ _ 0%nat) by (rewrite seq_length; lia). rewrite seq_nth by lia. cbn [Nat.add].
  assert (ML : (1 <= seg_length seg n <= nf)%nat) by (unfold seg_length; lia).
  rewrite map_map.
  rewrite (map_ext_in _ (fun i => Fin (power (seg_length seg n) nf (fun a => nth (i * seg_step seg n + a) x 0) k *
                                       (1 / (2 * PI * window_energy (seg_length seg n))) * sides nf k))).
  2:{ intros i _. unfold welch_segment. rewrite skipn_fin, firstn_fin, all_finite_fin.
      rewrite (nth_map_lt _ _ _ 0) by (unfold periodogram; rewrite map_length, seq_length; lia). rewrite periodogram_eq by trivial.
      f_equal. f_equal. f_equal. apply power_ext. intros a Ha. now apply segment_nth. }
  rewrite xsum_map_Fin. cbn [xdiv]. destruct (Req_EM_T (INR (seg_count seg n)) 0) as [Z|_]; [exfalso; revert Z; apply not_0_INR; lia|].
  cbn [xmul]. f_equal. fold (sumn (seg_count seg n) (fun i => power (seg_length seg n) nf (fun a => nth (i * seg_step seg n + a) x 0) k *
     (1 / (2 * PI * window_energy (seg_length seg n))) * sides nf k)).
  rewrite (sumn_ext _ _ (fun i => (1 / (2 * PI * window_energy (seg_length seg n)) * sides nf k) * power (seg_length seg n) nf (fun a => nth (i * seg_step seg n + a) x 0) k)) by (intros; ring).
  rewrite sumn_scal. unfold over_segments. field. assert (EP := energy_pos (seg_length seg n) ltac:(lia)). assert (PP := PI_RGT_0).
  repeat split; try lra. apply not_0_INR; lia.
Qed.
Print Assumptions C114_value.

(** With this scipy the figure of plot_psd is the one of C86: no assumption on the number of values is left *)
Theorem C86_plot_psd_welch :
  forall db (x : list R) fs n_fft seg_size n_moments w lg,
  x <> [] -> (0 <= n_fft)%Z -> db n_moments = Some w -> good_wavelet w ->
  let seg := match seg_size with Some s => s | None => n_fft end in
  (1 <= seg)%Z -> (seg / 2 < Z.of_nat (length x))%Z ->
  (lg = "log2"%string \/ lg = "log"%string) -> let g := if String.eqb lg "log2" then xlog2 else xln in
  exists P Q, welch (fin x) fs n_fft seg_size = Ok P /\ wavelet_estimation db [fin x] fs n_moments None = Ok Q /\
   plot_psd welch_num db (fin x) fs n_fft seg_size n_moments lg =
     Ok (map (fun c => (log_curve g None (psd_freq P, c), 0%nat)) (psd_columns (psd_psd P)) ++
         map (fun c => (log_curve g None (psd_freq Q, c), 1%nat)) (psd_columns (psd_psd Q))).
Proof.
  intros db x fs n_fft seg_size n_moments w lg NX HN Hdb Hw seg H1 H2 HL g.
  destruct (C86_plot_psd welch_num db x fs n_fft seg_size n_moments w lg NX HN Hdb Hw H1 H2) as (P & Q & A & B & C & _).
  - intros a s. unfold welch_num. now rewrite map_length, seq_length.
  - exists P, Q. split; [exact A|]. split; [exact B|]. apply C, HL.
Qed.
Print Assumptions C86_plot_psd_welch.

(** When it returns *)
Theorem C114_returns :
  forall (x : list R) fs n_fft seg_size, x <> [] ->
  (exists P, welch (fin x) fs n_fft seg_size = Ok P) <->
  (1 <= asked_seg n_fft seg_size)%nat /\ (asked_seg n_fft seg_size / 2 < length x)%nat.
Proof.
  intros x fs n_fft seg_size NX. split.
  - intros [P E]. destruct (C114_value x fs n_fft seg_size P NX E) as (A & B & _). now split.
  - intros [H1 H2]. unfold welch, welch_estimation. set (zs := welch_seg n_fft seg_size). set (zn := welch_nfft n_fft seg_size).
    assert (ES : asked_seg n_fft seg_size = Z.to_nat zs) by reflexivity. rewrite ES in *.
    assert (EN : zn = Z.max n_fft zs). { unfold zn, welch_nfft. fold zs. destruct (Z.ltb_spec n_fft zs); lia. }
    assert (0 <= zn / 2)%Z by (apply Z.div_pos; lia).
    destruct (Z.ltb_spec (zn / 2 + 1) 0) as [|_]; [lia|]. unfold scipy_welch.
    destruct (fin x) as [|y0 y] eqn:EX; [destruct x; [contradiction|discriminate]|]. rewrite <- EX. clear y0 y EX.
    cbn [nperseg ModelPSD.nfft noverlap]. rewrite fin_length.
    destruct (Z.ltb_spec zs 1) as [|_]; [lia|]. destruct (Z.ltb_spec zn (Z.min zs (Z.of_nat (length x)))) as [|_]; [lia|].
    rewrite trunc_half by lia. assert (DV : (Z.to_nat zs / 2 = Z.to_nat (zs / 2))%nat) by (rewrite Z2Nat.inj_div by lia; reflexivity).
    assert (zs / 2 < zs)%Z by (apply Z.div_lt; lia).
    destruct (Z.leb_spec (Z.min zs (Z.of_nat (length x))) (zs / 2)) as [|_]; [lia|]. cbn [bind]. eauto.
Qed.
Print Assumptions C114_returns.

(** Amplitude and sign: values are never negative, and multiplying the recording by c multiplies the spectrum by c^2 *)
Theorem C114_scaling :
  forall (x : list R) fs n_fft seg_size P, x <> [] -> welch (fin x) fs n_fft seg_size = Ok P ->
  forall k, (k <= asked_nfft n_fft seg_size / 2)%nat ->
  exists v, spectrum_at P k = Fin v /\ 0 <= v /\
  forall c P', welch (fin (map (Rmult c) x)) fs n_fft seg_size = Ok P' -> spectrum_at P' k = Fin (c ^ 2 * v).
Proof.
  intros x fs n_fft seg_size P NX E k Hk. destruct (C114_value x fs n_fft seg_size P NX E) as (S1 & S2 & S3 & _ & _ & V).
  set (n := length x) in *. set (seg := asked_seg n_fft seg_size) in *. set (nf := asked_nfft n_fft seg_size) in *.
  eexists. split; [apply V, Hk|]. assert (EP := energy_pos (seg_length seg n) ltac:(unfold seg_length; lia)). assert (PP := PI_RGT_0).
  assert (CP : 0 < INR (seg_count seg n)) by (apply lt_0_INR; lia).
  split.
  - assert (0 < sides nf k) by (unfold sides; destruct (_ || _); lra).
    apply Rmult_le_pos.
    + apply Rmult_le_pos; [lra|]. apply Rlt_le, Rinv_0_lt_compat, Rmult_lt_0_compat; lra.
    + apply Rmult_le_pos; [|now apply Rlt_le, Rinv_0_lt_compat]. apply sumn_nonneg. intros. apply power_nonneg.
  - intros c P' E'. assert (NX' : map (Rmult c) x <> []) by (destruct x; [contradiction|discriminate]).
    destruct (C114_value _ fs n_fft seg_size P' NX' E') as (_ & _ & _ & _ & _ & V'). rewrite map_length in V'. fold n seg nf in V'.
    rewrite V' by exact Hk. f_equal. unfold over_segments.
    rewrite (sumn_ext _ _ (fun i => c ^ 2 * power (seg_length seg n) nf (fun a => nth (i * seg_step seg n + a) x 0) k)).
    + rewrite sumn_scal. field. repeat split; lra.
    + intros i Hi. rewrite <- power_scal. apply power_ext. intros a Ha. replace 0 with (c * 0) at 1 by ring. apply map_nth.
Qed.
Print Assumptions C114_scaling.

(** Parseval: summed over the returned entries, with the angular step 2 pi / nf, the spectrum is four times the mean over the segments of
    the energy of the windowed segment divided by that of the window *)
Theorem C114_total :
  forall (x : list R) fs n_fft seg_size P, x <> [] -> welch (fin x) fs n_fft seg_size = Ok P ->
  let n := length x in let seg := asked_seg n_fft seg_size in let nf := asked_nfft n_fft seg_size in let M := seg_length seg n in
  sumn (nf / 2 + 1) (fun k => number (spectrum_at P k)) * (2 * PI / INR nf) =
  4 * over_segments seg n (fun s => sumn M (fun a => (window M a * s a) ^ 2) / window_energy M) (fun t => nth t x 0).
Proof.
  intros x fs n_fft seg_size P NX E n seg nf M. destruct (C114_value x fs n_fft seg_size P NX E) as (S1 & S2 & S3 & _ & _ & V).
  fold n seg nf M in S1, S2, S3, V. assert (ML : (1 <= M <= nf)%nat) by (unfold M, seg_length, nf, asked_nfft; fold seg; lia).
  assert (EP := energy_pos M ltac:(lia)). assert (PP := PI_RGT_0). assert (CP : 0 < INR (seg_count seg n)) by (apply lt_0_INR; lia).
  assert (NP : 0 < INR nf) by (apply lt_0_INR; lia).
  set (tot := fun i k => power M nf (fun a => nth (i * seg_step seg n + a) x 0) k).
  rewrite (sumn_ext _ _ (fun k => sumn (seg_count seg n) (fun i => 4 / (2 * PI * window_energy M) / INR (seg_count seg n) * (sides nf k * tot i k)))).
  2:{ intros k Hk. rewrite V by lia. cbn [number]. unfold over_segments. rewrite sumn_scal. rewrite sumn_scal. fold (tot). unfold tot. field. repeat split; lra. }
  rewrite sumn_swap.
  rewrite (sumn_ext _ _ (fun i => 4 / (2 * PI * window_energy M) / INR (seg_count seg n) * INR nf * sumn M (fun a => (window M a * nth (i * seg_step seg n + a) x 0) ^ 2))).
  2:{ intros i Hi. rewrite sumn_scal, sides_sum; [|lia|intros k Hk; apply power_mirror; lia]. unfold tot. rewrite power_total by trivial. ring. }
  unfold over_segments. rewrite sumn_scal.
  rewrite (sumn_ext (seg_count seg n) (fun i => _ / window_energy M) (fun i => / window_energy M * sumn M (fun a => (window M a * nth (i * seg_step seg n + a) x 0) ^ 2))) by (intros; unfold Rdiv; ring).
  rewrite sumn_scal. field. repeat split; lra.
Qed.
Print Assumptions C114_total.

(** ** In the mean *)
Lemma sample_exists {W} (Pr : expectation W) : (W -> False) -> False.
Proof.
  intros N. assert (A := E_one W Pr). rewrite (E_ext W Pr (fun _ => 1) (fun _ => 0)) in A by (intros w; destruct (N w)).
  rewrite E_zero in A. lra.
Qed.
Section Mean.
Context {W : Type} (Pr : expectation W) (x : W -> list R) (n : nat) (fs : R) (n_fft : Z) (seg_size : option Z) (Q : W -> psd) (cov : Z -> R).
Let seg := asked_seg n_fft seg_size.
Let nf := asked_nfft n_fft seg_size.
Let M := seg_length seg n.
Hypothesis Hn : (1 <= n)%nat.
Hypothesis HQ : forall o, welch (fin (x o)) fs n_fft seg_size = Ok (Q o).
Hypothesis HX : stationary_signal Pr n x cov.
Lemma mean_power_segment i k : (i < seg_count seg n)%nat -> (1 <= seg)%nat -> (seg / 2 < n)%nat ->
  integrable Pr (fun o => power M nf (fun a => nth (i * seg_step seg n + a) (x o) 0) k) /\
  E Pr (fun o => power M nf (fun a => nth (i * seg_step seg n + a) (x o) 0) k) =
  sumn M (fun a => sumn M (fun b => window M a * window M b * cov (Z.of_nat a - Z.of_nat b)%Z * cos (2 * PI * INR k * (INR a - INR b) / INR nf))).
Proof using Hn HX.
  intros Hi S1 S2. destruct HX as (L & _ & C2).
  assert (A : forall f, integrable Pr (fun o => sumn M (fun a => window M a * f a * nth (i * seg_step seg n + a) (x o) 0) * sumn M (fun a => window M a * f a * nth (i * seg_step seg n + a) (x o) 0)) /\
    E Pr (fun o => sumn M (fun a => window M a * f a * nth (i * seg_step seg n + a) (x o) 0) * sumn M (fun a => window M a * f a * nth (i * seg_step seg n + a) (x o) 0)) =
    sumn M (fun a => sumn M (fun b => (window M a * f a) * (window M b * f b) * cov (Z.of_nat a - Z.of_nat b)%Z))).
  { intros f. apply (lin_prod Pr M (fun a => window M a * f a) (fun a => window M a * f a) (fun a o => nth (i * seg_step seg n + a) (x o) 0) (fun a o => nth (i * seg_step seg n + a) (x o) 0)).
    intros a b Ha Hb. destruct (C2 (i * seg_step seg n + a)%nat (i * seg_step seg n + b)%nat) as [I V]; [now apply segment_inside..|].
    split; [exact I|]. rewrite V. f_equal. lia. }
  set (c := fun a : nat => cos (2 * PI * INR k * INR a / INR nf)). set (d := fun a : nat => sin (2 * PI * INR k * INR a / INR nf)).
  destruct (A c) as [I1 V1]. destruct (A d) as [I2 V2].
  assert (X : forall o, sumn M (fun a => window M a * c a * nth (i * seg_step seg n + a) (x o) 0) * sumn M (fun a => window M a * c a * nth (i * seg_step seg n + a) (x o) 0) +
    sumn M (fun a => window M a * d a * nth (i * seg_step seg n + a) (x o) 0) * sumn M (fun a => window M a * d a * nth (i * seg_step seg n + a) (x o) 0) =
    power M nf (fun a => nth (i * seg_step seg n + a) (x o) 0) k).
  { intros o. unfold power. rewrite (sumn_ext M (fun a => window M a * c a * _) (fun a => window M a * nth (i * seg_step seg n + a) (x o) 0 * cos (2 * PI * INR k * INR a / INR nf))) by (intros; unfold c; ring).
    rewrite (sumn_ext M (fun a => window M a * d a * _) (fun a => window M a * nth (i * seg_step seg n + a) (x o) 0 * sin (2 * PI * INR k * INR a / INR nf))) by (intros; unfold d; ring). ring. }
  split.
  - apply (int_ext W Pr _ _ X). now apply int_plus.
  - rewrite <- (E_ext W Pr _ _ X). rewrite E_plus by trivial. rewrite V1, V2, <- sumn_plus. apply sumn_ext. intros a _. rewrite <- sumn_plus. apply sumn_ext. intros b _.
    replace (2 * PI * INR k * (INR a - INR b) / INR nf) with (2 * PI * INR k * INR a / INR nf - 2 * PI * INR k * INR b / INR nf) by (unfold Rdiv; ring).
    rewrite cos_minus. fold (c a) (c b) (d a) (d b). ring.
Qed.
Lemma mean_spectrum k : (k <= nf / 2)%nat ->
  (1 <= M)%nat /\ (forall o, spectrum_at (Q o) k = Fin (number (spectrum_at (Q o) k))) /\
  integrable Pr (fun o => number (spectrum_at (Q o) k)) /\
  E Pr (fun o => number (spectrum_at (Q o) k)) = 4 * sides nf k / (2 * PI * window_energy M) *
    sumn M (fun a => sumn M (fun b => window M a * window M b * cov (Z.of_nat a - Z.of_nat b)%Z * cos (2 * PI * INR k * (INR a - INR b) / INR nf))).
Proof using Hn HX HQ.
  intros Hk. assert (L := proj1 HX).
  assert (F : forall o, (1 <= seg)%nat /\ (seg / 2 < n)%nat /\ (1 <= seg_count seg n)%nat /\
     spectrum_at (Q o) k = Fin (4 * sides nf k / (2 * PI * window_energy M) * over_segments seg n (fun s => power M nf s k) (fun t => nth t (x o) 0))).
  { intros o. assert (NX : x o <> []) by (intros Z; assert (LO := L o); rewrite Z in LO; cbn in LO; lia).
    destruct (C114_value (x o) fs n_fft seg_size (Q o) NX (HQ o)) as (A & B & C & _ & _ & V). rewrite (L o) in B, C, V. fold seg nf in A, B, C, V. fold M in V.
    repeat split; trivial. apply V, Hk. }
  assert (S1 : (1 <= seg)%nat) by (destruct (le_dec 1 seg) as [D|D]; [exact D|exfalso; apply (sample_exists Pr); intros o; apply D, (F o)]).
  assert (S2 : (seg / 2 < n)%nat) by (destruct (lt_dec (seg / 2) n) as [D|D]; [exact D|exfalso; apply (sample_exists Pr); intros o; apply D, (F o)]).
  assert (S3 := proj2 (count_pos seg n S1 S2)).
  assert (ML : (1 <= M)%nat) by (unfold M, seg_length; lia). split; [exact ML|].
  split; [intros o; now rewrite (proj2 (proj2 (proj2 (F o))))|].
  set (K := 4 * sides nf k / (2 * PI * window_energy M)) in *.
  assert (X : forall o, (K / INR (seg_count seg n)) * sumn (seg_count seg n) (fun i => power M nf (fun a => nth (i * seg_step seg n + a) (x o) 0) k) = number (spectrum_at (Q o) k)).
  { intros o. destruct (F o) as (_ & _ & _ & ->). cbn [number]. unfold over_segments, Rdiv. ring. }
  assert (IS : integrable Pr (fun o => sumn (seg_count seg n) (fun i => power M nf (fun a => nth (i * seg_step seg n + a) (x o) 0) k))).
  { apply (int_sumn Pr (seg_count seg n) (fun i o => power M nf (fun a => nth (i * seg_step seg n + a) (x o) 0) k)). intros i Hi. now apply mean_power_segment. }
  split; [apply (int_ext W Pr _ _ X); now apply (int_scal W Pr (K / INR (seg_count seg n)) (fun o => sumn (seg_count seg n) (fun i => power M nf (fun a => nth (i * seg_step seg n + a) (x o) 0) k)))|].
  rewrite <- (E_ext W Pr _ _ X). rewrite (E_scal W Pr (K / INR (seg_count seg n)) (fun o => sumn (seg_count seg n) (fun i => power M nf (fun a => nth (i * seg_step seg n + a) (x o) 0) k)) IS).
  rewrite (E_sumn Pr (seg_count seg n) (fun i o => power M nf (fun a => nth (i * seg_step seg n + a) (x o) 0) k)) by (intros i Hi; now apply mean_power_segment).
  rewrite (sumn_ext _ _ _ (fun i Hi => proj2 (mean_power_segment i k Hi S1 S2))). rewrite sumn_const. field. apply not_0_INR. lia.
Qed.
End Mean.

(** For a stationary signal the mean of the spectrum is the covariance seen through the window, at every frequency *)
Theorem C114_mean :
  forall {W} (Pr : expectation W) (x : W -> list R) n fs n_fft seg_size (Q : W -> psd) cov, (1 <= n)%nat ->
  (forall o, welch (fin (x o)) fs n_fft seg_size = Ok (Q o)) -> stationary_signal Pr n x cov ->
  let nf := asked_nfft n_fft seg_size in let M := seg_length (asked_seg n_fft seg_size) n in
  forall k, (k <= nf / 2)%nat ->
  (forall o, spectrum_at (Q o) k = Fin (number (spectrum_at (Q o) k))) /\
  integrable Pr (fun o => number (spectrum_at (Q o) k)) /\
  E Pr (fun o => number (spectrum_at (Q o) k)) = 4 * sides nf k / (2 * PI * window_energy M) *
    sumn M (fun a => sumn M (fun b => window M a * window M b * cov (Z.of_nat a - Z.of_nat b)%Z * cos (2 * PI * INR k * (INR a - INR b) / INR nf))).
Proof.
  intros W Pr x n fs n_fft seg_size Q cov Hn HQ HX nf M k Hk.
  exact (proj2 (mean_spectrum Pr x n fs n_fft seg_size Q cov Hn HQ HX k Hk)).
Qed.
Print Assumptions C114_mean.

(** For white noise of variance s2 the mean spectrum is flat: 4 s2 / pi, and half of it at frequency 0 and at the Nyquist frequency *)
Theorem C114_white :
  forall {W} (Pr : expectation W) (x : W -> list R) n fs n_fft seg_size (Q : W -> psd) s2, (1 <= n)%nat ->
  (forall o, welch (fin (x o)) fs n_fft seg_size = Ok (Q o)) -> stationary_signal Pr n x (flat s2) ->
  let nf := asked_nfft n_fft seg_size in
  forall k, (k <= nf / 2)%nat ->
  E Pr (fun o => number (spectrum_at (Q o) k)) = if Nat.eqb k 0 || Nat.eqb (2 * k) nf then 2 * s2 / PI else 4 * s2 / PI.
Proof.
  intros W Pr x n fs n_fft seg_size Q s2 Hn HQ HX nf k Hk.
  destruct (mean_spectrum Pr x n fs n_fft seg_size Q (flat s2) Hn HQ HX k Hk) as (HM & _ & _ & ->). fold nf. set (M := seg_length (asked_seg n_fft seg_size) n) in *.
  rewrite (sumn_ext M _ (fun a => s2 * (window M a * window M a))).
  2:{ intros a Ha. rewrite (sumn_single M _ a Ha).
      - unfold flat. rewrite Z.sub_diag. destruct (Z.eq_dec 0 0); [|lia]. rewrite Rminus_diag_eq by reflexivity.
        replace (2 * PI * INR k * 0 / INR nf) with 0 by (unfold Rdiv; ring). rewrite cos_0. ring.
      - intros b Hb NE. unfold flat. destruct (Z.eq_dec _ 0) as [Z|_]; [lia|]. ring. }
  rewrite sumn_scal. fold (window_energy M). assert (EP := energy_pos M HM). assert (PP := PI_RGT_0).
  unfold sides. destruct (_ || _); field; lra.
Qed.
Print Assumptions C114_white.

(** In the mean the whole spectrum sums to four times the variance with the angular step 2 pi / nf, and to (2 fs / pi) times the variance
    with the step fs / nf of the returned frequencies *)
Theorem C114_total_mean :
  forall {W} (Pr : expectation W) (x : W -> list R) n fs n_fft seg_size (Q : W -> psd) cov, (1 <= n)%nat ->
  (forall o, welch (fin (x o)) fs n_fft seg_size = Ok (Q o)) -> stationary_signal Pr n x cov ->
  let nf := asked_nfft n_fft seg_size in
  E Pr (fun o => sumn (nf / 2 + 1) (fun k => number (spectrum_at (Q o) k)) * (2 * PI / INR nf)) = 4 * cov 0%Z /\
  E Pr (fun o => sumn (nf / 2 + 1) (fun k => number (spectrum_at (Q o) k)) * (fs / INR nf)) = 2 * fs / PI * cov 0%Z.
Proof.
  intros W Pr x n fs n_fft seg_size Q cov Hn HQ HX nf.
  assert (HM : (1 <= seg_length (asked_seg n_fft seg_size) n)%nat) by (apply (mean_spectrum Pr x n fs n_fft seg_size Q cov Hn HQ HX 0); lia).
  set (M := seg_length (asked_seg n_fft seg_size) n) in *.
  assert (NF : (M <= nf)%nat) by (unfold M, seg_length, nf, asked_nfft; lia).
  assert (NP : 0 < INR nf) by (apply lt_0_INR; lia). assert (EP := energy_pos M HM). assert (PP := PI_RGT_0).
  assert (I : integrable Pr (fun o => sumn (nf / 2 + 1) (fun k => number (spectrum_at (Q o) k)))).
  { apply (int_sumn Pr (nf / 2 + 1) (fun k o => number (spectrum_at (Q o) k))). intros k Hk.
    apply (C114_mean Pr x n fs n_fft seg_size Q cov Hn HQ HX k). fold nf. lia. }
  assert (T : E Pr (fun o => sumn (nf / 2 + 1) (fun k => number (spectrum_at (Q o) k))) = 4 * INR nf / (2 * PI) * cov 0%Z).
  { rewrite (E_sumn Pr (nf / 2 + 1) (fun k o => number (spectrum_at (Q o) k))).
    2:{ intros k Hk. apply (C114_mean Pr x n fs n_fft seg_size Q cov Hn HQ HX k). fold nf. lia. }
    set (q := fun k => sumn M (fun a => sumn M (fun b => window M a * window M b * cov (Z.of_nat a - Z.of_nat b)%Z * cos (2 * PI * INR k * (INR a - INR b) / INR nf)))).
    rewrite (sumn_ext _ _ (fun k => 4 / (2 * PI * window_energy M) * (sides nf k * q k))).
    2:{ intros k Hk. destruct (C114_mean Pr x n fs n_fft seg_size Q cov Hn HQ HX k ltac:(fold nf; lia)) as (_ & _ & ->). fold nf M. unfold q. field. lra. }
    rewrite sumn_scal, sides_sum; [|lia|].
    - unfold q. rewrite sumn_swap.
      rewrite (sumn_ext M _ (fun a => INR nf * cov 0%Z * (window M a * window M a))).
      2:{ intros a Ha. rewrite sumn_swap, (sumn_single M _ a Ha).
          - rewrite sumn_scal, Z.sub_diag. rewrite (sumn_ext nf _ (fun _ => 1)); [rewrite sumn_const; ring|]. intros k _. rewrite Rminus_diag_eq by reflexivity.
            replace (2 * PI * INR k * 0 / INR nf) with 0 by (unfold Rdiv; ring). apply cos_0.
          - intros b Hb NE. rewrite sumn_scal. destruct (orthogonality nf (Z.of_nat a - Z.of_nat b) ltac:(lia)) as [O _].
            rewrite (sumn_ext nf _ (fun k => cos (ang nf (Z.of_nat a - Z.of_nat b) k))) by (intros k _; unfold ang; now rewrite minus_IZR, <- !INR_IZR_INZ).
            rewrite O. destruct (Z.eq_dec _ 0) as [Z|_]; [|ring]. exfalso. apply Z.mod_divide in Z as [z Z]; [|lia].
            assert (z = 0)%Z by (destruct (Z_le_gt_dec z (-1)); [nia|destruct (Z_le_gt_dec z 0); [lia|nia]]). subst z. lia. }
      rewrite sumn_scal. fold (window_energy M). field. lra.
    - intros k Hk. unfold q. apply sumn_ext. intros a _. apply sumn_ext. intros b _. f_equal.
      rewrite minus_INR by lia.
      replace (2 * PI * (INR nf - INR k) * (INR a - INR b) / INR nf) with (- (2 * PI * INR k * (INR a - INR b) / INR nf) + 2 * IZR (Z.of_nat a - Z.of_nat b) * PI).
      2:{ rewrite minus_IZR, <- !INR_IZR_INZ. field. lra. }
      destruct (trig_period (Z.of_nat a - Z.of_nat b) (- (2 * PI * INR k * (INR a - INR b) / INR nf))) as [-> _]. apply cos_neg. }
  assert (G : forall c, E Pr (fun o => sumn (nf / 2 + 1) (fun k => number (spectrum_at (Q o) k)) * c) = c * (4 * INR nf / (2 * PI) * cov 0%Z)).
  { intros c. rewrite (E_ext W Pr _ (fun o => c * sumn (nf / 2 + 1) (fun k => number (spectrum_at (Q o) k)))) by (intros; ring).
    rewrite (E_scal W Pr c (fun o => sumn (nf / 2 + 1) (fun k => number (spectrum_at (Q o) k))) I). now rewrite T. }
  split; rewrite G; field; lra.
Qed.
Print Assumptions C114_total_mean.

(** The Fourier and the wavelet spectra drawn on one figure do not have one unit: on white noise both are flat in the mean, at 4 s2 / pi and at s2 *)
Theorem C114_methods_refuted :
  forall {W} (Pr : expectation W) (x : W -> list R) n fs n_fft seg_size (Q V : W -> psd) s2 db N w j2, (1 <= n)%nat -> 0 < s2 ->
  stationary_signal Pr n x (flat s2) -> db N = Some w -> good_wavelet w -> orthonormal w ->
  (forall o, welch (fin (x o)) fs n_fft seg_size = Ok (Q o)) ->
  (forall o, wavelet_estimation db [fin (x o)] fs N j2 = Ok (V o)) ->
  forall k i, (1 <= k)%nat -> (2 * k < asked_nfft n_fft seg_size)%nat ->
  (forall o, (i < length (psd_freq (V o)))%nat) -> (1 <= inner_count n (length (dec_hi w)) (i + 1))%nat ->
  let fourier := E Pr (fun o => number (spectrum_at (Q o) k)) in
  let wavelet := E Pr (fun o => number (match psd_psd (V o) with PSD1 v => NaN | PSD2 _ rows => nth 0 (nth i rows []) NaN end)) in
  wavelet = s2 /\ fourier = 4 / PI * wavelet /\ wavelet < fourier.
Proof.
  intros W Pr x n fs n_fft seg_size Q V s2 db N w j2 Hn Hs HX Hdb Hw Ho HQ HV k i Hk1 Hk2 Hi HC fourier wavelet.
  assert (A : wavelet = s2).
  { refine (proj2 (proj2 (C108_psd Pr (fun o => [x o]) n 1 db N w fs j2 V 0 (flat s2) _ Hdb Hw HV ltac:(lia) HX i Hi HC)) s2 Ho eq_refl).
    intros o. split; [reflexivity|]. constructor; [apply (proj1 HX)|constructor]. }
  assert (B : fourier = 4 * s2 / PI).
  { unfold fourier. rewrite (C114_white Pr x n fs n_fft seg_size Q s2 Hn HQ HX k) by (apply Nat.div_le_lower_bound; lia).
    destruct (Nat.eqb_spec k 0) as [|_]; [lia|]. destruct (Nat.eqb_spec (2 * k) (asked_nfft n_fft seg_size)) as [|_]; [lia|]. reflexivity. }
  assert (PP := PI_RGT_0). assert (P4 : PI < 4) by (destruct (PI_ineq 1) as [_ X]; unfold tg_alt, PI_tg in X; cbn in X; lra).
  rewrite A, B. split; [reflexivity|]. split; [field; lra|]. apply Rmult_lt_reg_r with PI; [lra|]. unfold Rdiv. rewrite Rmult_assoc, Rinv_l by lra. nra.
Qed.
Print Assumptions C114_methods_refuted.
