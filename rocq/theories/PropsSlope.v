(** * Properties C53, C54: spectral exponent against Hurst exponent; supports *)
From Coq Require Import Reals List ZArith Bool Lra Lia String.
From Verif Require Import XReal PyBase ModelUtils ModelMRQ ModelStructure ModelWavelet ModelPSD Spec SpecMRQ LXReal LReg LUtils LBase LFilter LTransform LPattern LWave LEst LMoment LCum LEntropy LWaveEst LScale LScaleWT LPSD PropsEstimators PropsCumulants PropsSpectrum PropsMono PropsInvariance PropsPSD.
From Verif Require PropsWavelet PropsLeaders.
Import ListNotations.
Local Notation length := List.length.
Open Scope R_scope.

(** mean square of the numbers of realisation r at scale j *)
Definition mean_sq (m : mrq) (j : Z) (r : nat) : R := mean (map (fun x => x * x) (numbers m j r)).

Lemma xmul_sq_reals c : no_inf c -> no_inf (map (fun x => xmul x x) c) /\ reals (map (fun x => xmul x x) c) = map (fun x => x * x) (reals c).
Proof.
  induction c as [|x c IH]; intros H; [split; [constructor|reflexivity]|]. inversion H; subst. destruct (IH H3) as [A B].
  cbn [map]. destruct H2 as [->|[a ->]].
  - split; [constructor; [now left|exact A]|]. cbn [xmul reals map]. now rewrite B.
  - split; [constructor; [right; now exists (a * a)|exact A]|]. cbn [xmul reals map]. now rewrite B.
Qed.
Lemma nanmean_sq c : no_inf c -> reals c <> [] -> nanmean (map (fun x => xmul x x) c) = Fin (mean (map (fun x => x * x) (reals c))).
Proof.
  intros H N. destruct (xmul_sq_reals c H) as [A B]. rewrite nanmean_reals; trivial; rewrite B; [reflexivity|].
  destruct (reals c); [congruence|discriminate].
Qed.
Lemma sf2_sq c : sf_moment c (PyFloat 2) = nanmean (map (fun x => xmul x x) c).
Proof.
  unfold sf_moment, fast_power. cbn [num_val]. destruct (Req_EM_T 2 1); [lra|]. destruct (Req_EM_T 2 2); [|lra].
  f_equal. rewrite map_map. apply map_ext. intros [x| | |]; cbn [xabs xmul]; trivial.
  f_equal. unfold Rabs. destruct (Rcase_abs x); ring.
Qed.
Lemma freq_scale fs (j : nat) : (3 / 4 * fs) / 2 ^ j = scale2freq (IZR (Z.of_nat j)) fs.
Proof. unfold scale2freq. rewrite Rpower_Ropp, <- INR_IZR_INZ, Rpower_pow by lra. reflexivity. Qed.
Lemma mean_sq_nonneg m j r : 0 <= mean_sq m j r.
Proof.
  unfold mean_sq, mean. destruct (numbers m j r) as [|x l]; [unfold Rsum; simpl; lra|].
  apply Rmult_le_pos.
  - clear. generalize (x :: l). intros k. unfold Rsum. induction k as [|a k IH]; cbn [map fold_right]; [lra|]. assert (P := Rle_0_sqr a). unfold Rsqr in P. lra.
  - left. apply Rinv_0_lt_compat. apply lt_0_INR. simpl. lia.
Qed.

Lemma list_as_map {X} (l : list X) d : l = map (fun k => nth k l d) (seq 0 (length l)).
Proof.
  induction l as [|a l IH]; [reflexivity|]. cbn [List.length seq map nth]. f_equal. rewrite <- seq_shift, map_map. exact IH.
Qed.
(** closed form of the wavelet spectrum *)
Section WE.
Variables (A : arr) (w : wavelet).
Hypothesis HA : Forall no_inf A.
Hypothesis Hw : good_wavelet w.
Let m := mrq_of WaveletCoef (1/2) (Cf A w (1/2) 1) (ccount A PNone w (1/2) 1).
Let g := ccount A PNone w (1/2) 1.

Lemma we_usable (j : nat) r gam p : (1 <= j <= gcount A p w gam 1)%nat -> (r < length A)%nat ->
  no_inf (nth r (Cf A w gam 1 j) []) /\ reals (nth r (Cf A w gam 1 j) []) <> [].
Proof.
  intros Hj Hr. assert (NI : no_inf (nth r (Cf A w gam 1 j) [])).
  { rewrite Cf_nth_lt by trivial. apply coef_no_inf. rewrite Forall_forall in HA. apply HA. now apply nth_In. }
  split; [exact NI|]. intros E. assert (C := gcount_ok_c A p w gam 1 j r Hj Hr). rewrite count_valid_reals, E in C by trivial. simpl in C. lia.
Qed.
Lemma we_holds : (1 <= g)%nat ->
  holds g (map (fun r => map (fun j => mean_sq m j r) (one_to g)) (seq 0 (length A)))
    (PSD2 (length A) (map mean_square (dict_vals (mq_values m)))).
Proof.
  intros Hg. split.
  { rewrite Forall_map, Forall_forall. intros r _. unfold one_to. now rewrite !map_length, seq_length. }
  right. split.
  { intros X. apply map_eq_nil in X. assert (L : length A = 0%nat) by (rewrite <- (seq_length (length A) 0), X; reflexivity).
    destruct A; [|discriminate]. unfold g in Hg. clear -Hg. 
    unfold ccount, gcount, nlev, sig_len in Hg. cbn [List.length] in Hg. unfold decomposition_level, floor_log2 in Hg. simpl INR in Hg.
    destruct (Rle_dec (0 / _) 0) as [|N]; [simpl in Hg; lia|]. apply N. unfold Rdiv. rewrite Rmult_0_l. lra. }
  rewrite map_length, seq_length. f_equal.
  assert (V : dict_vals (mq_values m) = map (fun k => Cf A w (1/2) 1 (S k)) (seq 0 g)).
  { unfold m, mrq_of. cbn [mq_values]. unfold table, dict_vals. rewrite map_map. fold g. rewrite <- seq_shift, map_map. reflexivity. }
  rewrite V, map_map. apply map_ext_in. intros k Hk. apply in_seq in Hk.
  unfold mean_square. rewrite map_map.
  rewrite (list_as_map (Cf A w (1/2) 1 (S k)) []). rewrite map_map, Cf_length. apply map_ext_in. intros r Hr. apply in_seq in Hr.
  destruct (we_usable (S k) r (1/2) PNone) as [U1 U2]; [unfold g, ccount in Hk; lia|lia|].
  rewrite nanmean_sq by trivial. f_equal. unfold one_to. rewrite map_map.
  rewrite (nth_map_lt _ _ _ 0%nat) by (rewrite seq_length; lia). rewrite seq_nth by lia.
  unfold mean_sq, numbers, m, mrq_of. change (1 + k)%nat with (S k). rewrite table_column by (unfold g in Hk; lia). reflexivity.
Qed.
End WE.

Lemma we_inv db A fs n j2 w P : db n = Some w -> good_wavelet w -> wavelet_estimation db A fs n j2 = Ok P ->
  exists ws, let t := the_wt A PNone w j2 (1/2) 1 [] in
  wavelet_analysis A PNone w 1 j2 (1/2) 1 false = Ok (t, ws) /\
  P = mkPSD (map (fun j => scale2freq (IZR j) fs) (one_to (ccount A PNone w (1/2) 1)))
        (match map mean_square (dict_vals (mq_values (wt_coefs t))) with [] => PSD1 [] | rows => PSD2 (length A) rows end).
Proof.
  intros Hdb Hw E. unfold wavelet_estimation in E. rewrite Hdb in E.
  destruct (wavelet_analysis A PNone w 1 j2 (1/2) 1 false) as [[t ws]|] eqn:EW; [|discriminate]. cbn [bind] in E.
  assert (EW' := EW). destruct (wa_inv A PNone w 1 j2 (1/2) 1 false t ws Hw R1_neq_R0 I EW) as (eta & EE & -> & -> & _).
  cbn [eta_of] in EE. injection EE as <-. exists (level_warns A w j2). cbn zeta. split; [reflexivity|]. injection E as <-. f_equal; [|destruct (map mean_square _); reflexivity].
  unfold wavelet_freq, one_to. rewrite map_map, <- seq_shift, map_map.
  replace (length _) with (ccount A PNone w (1/2) 1).
  - apply map_ext. intros i. rewrite Nat.add_1_r. apply freq_scale.
  - cbn [the_wt wt_coefs mrq_of]. unfold mrq_of. cbn [mq_values]. unfold table, dict_vals. now rewrite !map_length, seq_length.
Qed.

(** ** C54 *)
(** the wavelet spectrum: index i is scale i+1, at frequency scale2freq(i+1, fs), and holds the
    mean square of the coefficients of that scale (analysed with gamint = 1/2, normalisation 1), one column per realisation *)
Theorem C54_wavelet_support :
  forall db A fs n j2 w P, db n = Some w -> good_wavelet w -> Forall no_inf A ->
  wavelet_estimation db A fs n j2 = Ok P ->
  exists t ws, wavelet_analysis A PNone w 1 j2 (1/2) 1 false = Ok (t, ws) /\
    let m := wt_coefs t in
    psd_freq P = map (fun j => scale2freq (IZR j) fs) (scales m) /\
    scales m = one_to (length (scales m)) /\
    (scales m <> [] ->
     holds (length (scales m))
       (map (fun r => map (fun j => mean_sq m j r) (scales m)) (seq 0 (length A))) (psd_psd P)).
Proof.
  intros db A fs n j2 w P Hdb Hw HA E. destruct (we_inv db A fs n j2 w P Hdb Hw E) as (ws & EW & ->).
  eexists _, ws. split; [exact EW|]. cbn zeta. cbn [psd_freq psd_psd].
  assert (S : scales (wt_coefs (the_wt A PNone w j2 (1/2) 1 [])) = one_to (ccount A PNone w (1/2) 1)) by apply PropsWavelet.scales_mrq.
  assert (SL : length (scales (wt_coefs (the_wt A PNone w j2 (1/2) 1 []))) = ccount A PNone w (1/2) 1).
  { rewrite S. unfold one_to. now rewrite map_length, seq_length. }
  split; [now rewrite S|]. split; [now rewrite SL|]. intros NE. rewrite SL.
  assert (G : (1 <= ccount A PNone w (1/2) 1)%nat).
  { rewrite S in NE. destruct (ccount A PNone w (1/2) 1); [exfalso; apply NE; reflexivity|lia]. }
  assert (H := we_holds A w HA G). rewrite S.
  destruct (map mean_square (dict_vals (mq_values (wt_coefs (the_wt A PNone w j2 (1/2) 1 []))))) eqn:EV; [|rewrite <- EV; exact H].
  exfalso. apply map_eq_nil in EV. cbn [the_wt wt_coefs] in EV. unfold mrq_of in EV. cbn [mq_values] in EV. unfold table, dict_vals in EV.
  apply map_eq_nil, map_eq_nil in EV. destruct (ccount A PNone w (1/2) 1); [lia|discriminate].
Qed.
Print Assumptions C54_wavelet_support.

(** it is returned for every non-empty finite signal and every known wavelet *)
Theorem C54_wavelet_returns :
  forall db (S : list (list R)) len fs n j2,
  S <> [] -> (1 <= len)%nat -> Forall (fun s => length s = len) S ->
  (forall w, db n = Some w -> good_wavelet w) ->
  (exists P, wavelet_estimation db (map fin S) fs n j2 = Ok P) <-> (exists w, db n = Some w).
Proof.
  intros db S len fs n j2 NS Hl HS HD. unfold wavelet_estimation. destruct (db n) as [w|] eqn:E.
  - split; [eauto|]. intros _.
    destruct (PropsWavelet.C14_returns S len w PNone 1 j2 (1/2) 1 false NS Hl HS (HD w eq_refl) R1_neq_R0 (or_introl eq_refl)) as (t & ws & ->).
    cbn [bind]. eauto.
  - split; intros [x X]; discriminate.
Qed.
Print Assumptions C54_wavelet_returns.

(** welch_estimation: scipy is always called with nfft >= nperseg, half-overlapping segments; the grid
    has n_fft // 2 + 1 equally spaced points from 0 to fs/2.  A result exists iff the segment length is
    positive and more than half of a segment fits in the signal. *)
Theorem C54_welch :
  forall num (x : col) fs n_fft seg_size, x <> [] -> (0 <= n_fft)%Z ->
  let seg := match seg_size with Some s => s | None => n_fft end in
  let nfft := Z.max n_fft seg in
  (((1 <= seg)%Z /\ (seg / 2 < Z.of_nat (length x))%Z) <->
   exists P, welch_estimation num x fs n_fft seg_size = Ok P) /\
  forall P, welch_estimation num x fs n_fft seg_size = Ok P ->
    psd_psd P = PSD1 (map (fun v => xmul v (Fin 4))
                        (num x (mkWelch seg (IZR seg / 2) nfft (2 * PI)) (Z.min seg (Z.of_nat (length x))))) /\
    (seg <= nfft)%Z /\ length (psd_freq P) = Z.to_nat (nfft / 2 + 1) /\
    forall k : nat, (k < Z.to_nat (nfft / 2 + 1))%nat ->
      nth k (psd_freq P) 0 = if (nfft <? 2)%Z then 0 else fs * (INR k / (2 * IZR (nfft / 2))).
Proof.
  intros num x fs n_fft seg_size NX HN seg nfft.
  assert (E1 : welch_seg n_fft seg_size = seg) by reflexivity.
  assert (E2 : welch_nfft n_fft seg_size = nfft).
  { unfold welch_nfft, nfft. rewrite E1. destruct (Z.ltb_spec n_fft seg); lia. }
  assert (T : truncR (IZR seg / 2) = if (seg <? 0)%Z then (- ((- seg) / 2))%Z else (seg / 2)%Z).
  { assert (IP : forall z, Int_part (IZR z / 2) = (z / 2)%Z).
    { intros z. symmetry. unfold Int_part. apply Z.add_cancel_r with (p := 1%Z). rewrite Z.sub_add.
      apply tech_up.
      - assert (M := Z.mod_pos_bound z 2 ltac:(lia)). assert (D := Z.div_mod z 2 ltac:(lia)).
        rewrite plus_IZR. assert (Q : (z < 2 * (z / 2) + 2)%Z) by lia. apply IZR_lt in Q. rewrite plus_IZR, mult_IZR in Q. lra.
      - assert (M := Z.mod_pos_bound z 2 ltac:(lia)). assert (D := Z.div_mod z 2 ltac:(lia)).
        rewrite plus_IZR. assert (Q : (2 * (z / 2) <= z)%Z) by lia. apply IZR_le in Q. rewrite mult_IZR in Q. lra. }
    unfold truncR. destruct (Rle_dec 0 (IZR seg / 2)) as [P|P].
    - destruct (Z.ltb_spec seg 0) as [L|L]; [exfalso; apply IZR_lt in L; lra|]. apply IP.
    - destruct (Z.ltb_spec seg 0) as [L|L]; [|exfalso; apply IZR_le in L; lra].
      replace (- (IZR seg / 2)) with (IZR (- seg) / 2) by (rewrite opp_IZR; field). now rewrite IP. }
  assert (HF : (0 <= nfft)%Z) by lia.
  assert (H2 : (0 <= nfft / 2)%Z) by (apply Z.div_pos; lia).
  unfold welch_estimation. rewrite E1, E2. destruct (Z.ltb_spec (nfft / 2 + 1) 0) as [L|_]; [lia|].
  unfold scipy_welch. destruct x as [|x0 x']; [contradiction|]. set (x := x0 :: x') in *. cbn [nperseg noverlap ModelPSD.nfft].
  rewrite T. assert (LX : (1 <= Z.of_nat (length x))%Z) by (unfold x; cbn [List.length]; lia).
  split.
  - destruct (Z.ltb_spec seg 1) as [L1|L1].
    + cbn [bind]. split; [intros [? _]; lia|intros [P X]; discriminate].
    + destruct (Z.ltb_spec nfft (Z.min seg (Z.of_nat (length x)))) as [L2|L2]; [lia|].
      destruct (Z.ltb_spec seg 0) as [L3|L3]; [lia|].
      destruct (Z.leb_spec (Z.min seg (Z.of_nat (length x))) (seg / 2)) as [L4|L4]; cbn [bind].
      * split; [intros [_ ?]|intros [P X]; discriminate]. exfalso.
        assert (seg / 2 < seg)%Z by (apply Z.div_lt; lia). lia.
      * split; [eauto|]. intros _. lia.
  - intros P. destruct (Z.ltb_spec seg 1) as [L1|L1]; [cbn [bind]; discriminate|].
    destruct (Z.ltb_spec nfft (Z.min seg (Z.of_nat (length x)))) as [L2|L2]; [lia|].
    destruct (Z.ltb_spec seg 0) as [L3|L3]; [lia|].
    destruct (Z.leb_spec (Z.min seg (Z.of_nat (length x))) (seg / 2)) as [L4|L4]; cbn [bind]; [discriminate|].
    intros E. injection E as <-. cbn [psd_psd psd_freq]. split; [reflexivity|]. split; [lia|].
    unfold linspace. rewrite !map_length, seq_length. split; [reflexivity|].
    intros k Hk. rewrite map_map, (nth_map_lt _ _ _ 0%nat) by (now rewrite seq_length). rewrite seq_nth by trivial. cbn [Nat.add].
    destruct (Z.ltb_spec nfft 2) as [B|B].
    + assert (nfft / 2 = 0)%Z by (apply Z.div_small; lia). rewrite H. change (Z.to_nat (0 + 1)) with 1%nat. cbv beta iota. ring.
    + assert (Q : (1 <= nfft / 2)%Z) by (apply Z.div_le_lower_bound; lia).
      remember (Z.to_nat (nfft / 2 + 1)) as N eqn:EN. destruct N as [|[|N]]; [lia|lia|].
      assert (IN : INR (S (S N) - 1) = IZR (nfft / 2)) by (rewrite INR_IZR_INZ; f_equal; lia). rewrite IN.
      apply IZR_le in Q. field. lra.
Qed.
Print Assumptions C54_welch.

(** the grid is the DFT grid k fs / n_fft only for even n_fft: for an odd number of points every positive
    frequency is overestimated *)
Theorem C54_odd_grid_refuted :
  forall num x fs n_fft seg_size P, x <> [] -> 0 < fs ->
  let nfft := Z.max n_fft (match seg_size with Some s => s | None => n_fft end) in
  (3 <= n_fft)%Z -> welch_estimation num x fs n_fft seg_size = Ok P ->
  forall k : nat, (1 <= k < Z.to_nat (nfft / 2 + 1))%nat ->
    (Z.even nfft = true -> nth k (psd_freq P) 0 = INR k * fs / IZR nfft) /\
    (Z.even nfft = false -> nth k (psd_freq P) 0 = INR k * fs / (IZR nfft - 1) /\ INR k * fs / IZR nfft < nth k (psd_freq P) 0).
Proof.
  intros num x fs n_fft seg_size P NX Hfs nfft HN E k Hk.
  destruct (C54_welch num x fs n_fft seg_size NX ltac:(lia)) as [_ H]. destruct (H P E) as (_ & _ & _ & G).
  assert (G' := G k (proj2 Hk)). clear G H. set (s := match seg_size with Some s => s | None => n_fft end) in *. fold nfft in G'.
  destruct (Z.ltb_spec nfft 2) as [B|B]; [lia|]. rewrite G'.
  assert (EO := Zeven_odd_bool nfft). assert (Kp : 0 < INR k) by (apply lt_0_INR; lia).
  assert (BR : 2 <= IZR nfft) by (apply (IZR_le 2); lia).
  split; intros X.
  - apply Z.even_spec in X. destruct X as [z Z]. rewrite Z in *. replace (2 * z / 2)%Z with z by (rewrite Z.mul_comm, Z.div_mul; lia).
    rewrite mult_IZR in *. field. lra.
  - assert (O : Z.odd nfft = true) by (rewrite <- Z.negb_even, X; reflexivity). apply Z.odd_spec in O. destruct O as [z Z].
    assert (D : (nfft / 2 = z)%Z) by (rewrite Z, Z.mul_comm, Z.div_add_l by lia; change (1 / 2)%Z with 0%Z; lia).
    rewrite D. assert (R : 2 * IZR z = IZR nfft - 1) by (rewrite Z, plus_IZR, mult_IZR; lra).
    rewrite R. assert (N3 : 3 <= IZR nfft) by (apply (IZR_le 3); lia).
    replace (fs * (INR k / (IZR nfft - 1))) with (INR k * fs / (IZR nfft - 1)) by (field; lra). split; [reflexivity|].
    apply Rmult_lt_compat_l; [apply Rmult_lt_0_compat; lra|]. apply Rinv_lt_contravar; [apply Rmult_lt_0_compat; lra|lra].
Qed.
Print Assumptions C54_odd_grid_refuted.

(** ** When does a fit on real spectra return? *)
Lemma logged_pos name g x r : log_function name = Some g -> g (Fin x) = Fin r -> 0 < x.
Proof.
  intros G E. destruct (Rlt_dec 0 x) as [P|P]; [exact P|]. exfalso.
  apply (log_function_finite name g G (Fin x)) with (r := r); [|exact E]. intros a Ha X. injection X as ->. contradiction.
Qed.
Lemma log_name name g : log_function name = Some g -> exists b, base_of name b.
Proof.
  unfold log_function, base_of. destruct (String.eqb_spec name "log2"); [intros; exists 2; auto|].
  destruct (String.eqb_spec name "log"); [intros; exists (exp 1); auto|discriminate].
Qed.
Lemma beta_ok_inv lo hi name freq Y p r : holds (length freq) Y p -> estimate_beta freq p (lo, hi) name = Ok r ->
  (exists b, base_of name b) /\ band_index lo hi freq <> [] /\
  forall k, In k (band_index lo hi freq) -> 0 < nth k freq 0 /\ forall y, In y Y -> 0 < nth k y 0.
Proof.
  intros [HL HY] E. set (K := band_index lo hi freq).
  assert (EL : psd_len p = length freq).
  { destruct HY as [(y & -> & ->)|(_ & ->)]; cbn [psd_len].
    - inversion HL. unfold fin. rewrite map_length. assumption.
    - now rewrite map_length, seq_length. }
  unfold estimate_beta in E. cbn [fst snd] in E. rewrite EL, Nat.eqb_refl in E. cbn [negb] in E.
  assert (Ef : select (map (in_band lo hi) freq) freq = map (fun k => nth k freq 0) K).
  { rewrite (list_nth_seq freq) at 2. apply select_band. }
  rewrite Ef in E. unfold log_psd in E.
  destruct (existsb _ _) in E.
  { destruct (select_psd _ p); cbn [bind] in E; [discriminate|]. destruct (Nat.eqb nrep 1); cbn [bind] in E; [|discriminate].
    destruct (log_function name); cbn [bind] in E; discriminate. }
  destruct (log_function name) as [g|] eqn:G; cbn [bind] in E; [|discriminate].
  split; [eapply log_name; exact G|].
  rewrite map_map in E. cbn [regressor_fit] in E.
  assert (NK : K <> []) by (intros X; rewrite X in E; cbn in E; discriminate). split; [exact NK|].
  destruct (map (fun x => g (Fin (nth x freq 0))) K) as [|f0 fl] eqn:EF; [discriminate|]. rewrite <- EF in E.
  destruct (all_finite (map (fun x => g (Fin (nth x freq 0))) K)) as [X|] eqn:AF; [|discriminate].
  assert (Pos : forall (h : nat -> R) l, all_finite (map (fun k => g (Fin (h k))) K) = Some l -> forall k, In k K -> 0 < h k).
  { intros h l A k Ik. apply all_finite_inv in A. assert (I : In (g (Fin (h k))) (map (fun k => g (Fin (h k))) K)) by (apply in_map_iff; eauto).
    rewrite A in I. unfold fin in I. apply in_map_iff in I. destruct I as (a & Ea & _). symmetry in Ea. eapply logged_pos; eauto. }
  intros k Ik. split; [exact (Pos (fun k => nth k freq 0) X AF k Ik)|]. intros y Iy.
  destruct HY as [(y0 & -> & ->)|(HN & ->)]; cbn [select_psd map_psd] in E.
  - destruct Iy as [<-|[]]. inversion HL; subst. unfold fin at 1 in E. rewrite (list_nth_seq y0) in E at 1. rewrite map_map, H1, select_band, map_map in E. fold K in E.
    destruct (all_finite (map (fun x => g (Fin (nth x y0 0))) K)) as [l|] eqn:A; [|discriminate]. exact (Pos (fun k => nth k y0 0) l A k Ik).
  - rewrite select_band in E. fold K in E. rewrite map_map in E. destruct (Nat.eqb (length Y) 0); [discriminate|].
    destruct (mapM _ (seq 0 (length Y))) as [fits|] eqn:EM; [|discriminate].
    apply In_nth with (d := []) in Iy. destruct Iy as (i & Hi & <-).
    apply mapM_Ok in EM. 
    assert (Q : exists b, match all_finite (map (fun row => nth i row NaN) (map (fun x => map g (map (fun y => Fin (nth x y 0)) Y)) K)) with Some v => Ok (ols X v) | None => Err ValueError end = Ok b).
    { clear -EM Hi. assert (I : In i (seq 0 (length Y))) by (apply in_seq; lia). revert I. induction EM; intros I; [contradiction|destruct I as [->|I]; eauto]. }
    destruct Q as [b Q]. destruct (all_finite _) as [l|] eqn:A in Q; [|discriminate].
    apply (Pos (fun k => nth k (nth i Y []) 0) l); [|exact Ik]. rewrite <- A. f_equal. rewrite map_map. apply map_ext. intros k'. rewrite map_map.
    rewrite (nth_indep _ NaN (g (Fin (nth k' [] 0)))) by (now rewrite map_length).
    now rewrite (map_nth (fun y => g (Fin (nth k' y 0)))).
Qed.

(** ** C53 *)
Lemma run_mono ok ok' n s : (forall j, ok j = true -> ok' j = true) -> (run ok n s <= run ok' n s)%nat.
Proof.
  intros H. revert s. induction n; intros s; simpl; [lia|]. destruct (ok (S s)) eqn:E; [|lia]. rewrite (H _ E). specialize (IHn (S s)). lia.
Qed.
Lemma ccount_none A p w gam norm gam' norm' : (ccount A p w gam norm <= ccount A PNone w gam' norm')%nat.
Proof.
  unfold ccount at 2. unfold gcount. set (n := Z.to_nat (nlev A w)).
  assert (H : forall f, let g := run (okb (neg_hi w) (dec_lo w) norm gam A f p) n 0 in
    (g + (if Nat.ltb g n && okc (neg_hi w) (dec_lo w) A (S g) then 1 else 0) <= run (okc (neg_hi w) (dec_lo w) A) n 0)%nat).
  { intros f g. assert (M : (g <= run (okc (neg_hi w) (dec_lo w) A) n 0)%nat).
    { apply run_mono. intros j. unfold okb. now rewrite andb_true_iff. }
    destruct (Nat.ltb_spec g n) as [L|L]; cbn [andb]; [|lia].
    destruct (okc (neg_hi w) (dec_lo w) A (S g)) eqn:E; [|lia].
    destruct (Nat.eq_dec g (run (okc (neg_hi w) (dec_lo w) A) n 0)) as [Q|Q]; [|lia].
    exfalso. assert (S := run_stop (okc (neg_hi w) (dec_lo w) A) n 0). rewrite <- Q in S. cbn [Nat.add] in S. rewrite S in E by trivial. discriminate. }
  unfold ccount, gcount. fold n. destruct p; [lia|apply H|apply H].
Qed.
Lemma filter_true {X} (f : X -> bool) l : (forall x, In x l -> f x = true) -> filter f l = l.
Proof. induction l as [|a l IH]; intros H; [reflexivity|]. cbn [filter]. rewrite H by (simpl; auto). rewrite IH; [reflexivity|]. intros; apply H; simpl; auto. Qed.
Lemma filter_false {X} (f : X -> bool) l : (forall x, In x l -> f x = false) -> filter f l = [].
Proof. induction l as [|a l IH]; intros H; [reflexivity|]. cbn [filter]. rewrite H by (simpl; auto). apply IH. intros; apply H; simpl; auto. Qed.
Lemma filter_range f a b n : (a <= b <= n)%nat -> (forall k, (k < n)%nat -> f k = true <-> (a <= k < b)%nat) -> filter f (seq 0 n) = seq a (b - a).
Proof.
  intros H F. replace n with (a + ((b - a) + (n - b)))%nat at 1 by lia. rewrite !seq_app, !filter_app. cbn [Nat.add].
  rewrite (filter_false f (seq 0 a)), (filter_true f (seq a (b - a))), (filter_false f (seq (a + (b - a)) (n - b))).
  - cbn [app]. apply app_nil_r.
  - intros k Hk. apply in_seq in Hk. destruct (f k) eqn:E; [|reflexivity]. apply F in E; lia.
  - intros k Hk. apply in_seq in Hk. apply F; lia.
  - intros k Hk. apply in_seq in Hk. destruct (f k) eqn:E; [|reflexivity]. apply F in E; lia.
Qed.
Definition band_scales (lo hi fs : R) (j1 j2 : Z) : Prop :=
  forall j : Z, (1 <= j)%Z -> (lo <= scale2freq (IZR j) fs <= hi <-> (j1 <= j <= j2)%Z).
Lemma freq_nth fs g k : (k < g)%nat -> nth k (map (fun j => scale2freq (IZR j) fs) (one_to g)) 0 = scale2freq (IZR (Z.of_nat (S k))) fs.
Proof.
  intros H. unfold one_to. rewrite map_map, (nth_map_lt _ _ _ 0%nat) by (now rewrite seq_length). now rewrite seq_nth.
Qed.
Lemma one_to_len g : length (one_to g) = g.
Proof. unfold one_to. now rewrite map_length, seq_length. Qed.
Lemma band_is lo hi fs (j1 j2 : Z) g : band_scales lo hi fs j1 j2 -> (1 <= j1)%Z -> (j1 <= j2 + 1)%Z -> (j2 <= Z.of_nat g)%Z ->
  band_index lo hi (map (fun j => scale2freq (IZR j) fs) (one_to g)) = map (fun j => Z.to_nat (j - 1)) (zrange j1 (j2 + 1)).
Proof.
  intros B H1 H2 H3. unfold band_index. rewrite map_length, one_to_len.
  rewrite (filter_range _ (Z.to_nat (j1 - 1)) (Z.to_nat j2)); [|lia|].
  - unfold zrange. rewrite map_map. replace (Z.to_nat j2 - Z.to_nat (j1 - 1))%nat with (Z.to_nat (j2 + 1 - j1)) by lia.
    rewrite <- (map_id (seq (Z.to_nat (j1 - 1)) _)).
    assert (SH : forall a n, seq a n = map (fun i => (a + i)%nat) (seq 0 n)).
    { intros a n. revert a. induction n; intros a; [reflexivity|]. cbn [seq map]. f_equal; [lia|]. rewrite (IHn (S a)), <- seq_shift, map_map. apply map_ext. intros. lia. }
    rewrite SH, map_map. apply map_ext_in. intros i Hi. lia.
  - intros k Hk. rewrite freq_nth by trivial. specialize (B (Z.of_nat (S k)) ltac:(lia)).
    destruct (Rle_dec lo (scale2freq (IZR (Z.of_nat (S k))) fs)) as [L|L]; [destruct (Rle_dec (scale2freq (IZR (Z.of_nat (S k))) fs) hi) as [M|M]|].
    + assert (j1 <= Z.of_nat (S k) <= j2)%Z by (apply B; auto). split; [lia|trivial].
    + split; [discriminate|]. intros. exfalso. apply M, B. lia.
    + split; [discriminate|]. intros. exfalso. apply L, B. lia.
Qed.
Lemma best_line_change l c u a b : u <> 0 -> is_best_line (upoints l) a b ->
  is_best_line (upoints (map (fun t => (u * (c - fst t), u * snd t)) l)) (- a) (u * (b + a * c)).
Proof.
  intros Hu H a' b' N.
  assert (W : forall a' b', wsse (upoints (map (fun t => (u * (c - fst t), u * snd t)) l)) a' b' = u * u * wsse (upoints l) (- a') (a' * c + b' / u)).
  { intros x y. unfold wsse, upoints, Rsum. rewrite !map_map. induction l as [|t l' IH]; [simpl; ring|].
    cbn [map fold_right] in *. assert (IH' := IH ltac:(exact H)) || idtac. unfold pw, px, py in *. cbn [fst snd] in *. 
    rewrite Rmult_plus_distr_l. f_equal; [field; exact Hu|]. clear H. revert IH. intros IH. 
    clear N IH. induction l' as [|s l' IH]; [simpl; ring|]. cbn [map fold_right]. rewrite IH. field. exact Hu. }
  rewrite !W. apply Rmult_lt_compat_l; [nra|].
  replace (- - a) with a by ring. replace (- a * c + u * (b + a * c) / u) with b by (field; exact Hu).
  apply H. intros X. apply N. injection X as X1 X2. f_equal; [lra|].
  assert (E : b' = u * (b - a' * c)) by (rewrite <- X2; field; exact Hu). rewrite E. replace a' with (- a) by lra. ring.
Qed.

Lemma coef_gam hi lo norm gam gam' j c : coef hi lo norm gam' j c
    = scl (Rpower 2 ((gam' - gam) * IZR (Z.of_nat j))) (coef hi lo norm gam j c).
Proof.
  unfold coef. rewrite !rescale_eq. unfold scl. rewrite map_map. apply map_ext. intros x.
  rewrite xmul_Fin_assoc, <- Rpower_plus. f_equal. f_equal. f_equal. ring.
Qed.

Lemma unweighted_wp m j1 j2 y : (j1 < j2)%Z -> well_posed (fit_points false m j1 j2 0 y).
Proof.
  intros H. split.
  - unfold fit_points. rewrite Forall_map, Forall_forall. intros j _. unfold pw, weight. simpl. lra.
  - exists (1, IZR j1, y j1), (1, IZR j2, y j2). unfold fit_points, weight, pw, px. cbn [fst snd].
    split; [apply in_map_iff; exists j1; split; [reflexivity|apply zrange_In; lia]|].
    split; [apply in_map_iff; exists j2; split; [reflexivity|apply zrange_In; lia]|].
    split; [lra|]. split; [lra|]. intros X. apply eq_IZR in X. lia.
Qed.

(** beta = -(2 H + 1): the exponent of the wavelet spectrum over the frequencies of the scales j1..j2 is tied
    to the Hurst exponent of the unweighted structure function over the same scales, whatever the
    formalism and the fractional integration of the user's own analysis (same wavelet, normalisation 1) *)
Theorem C53_beta_is_hurst :
  forall db A fs n w lo hi name p j1u j2u gam weighted t ws (j1 j2 : Z) fr qs,
  db n = Some w -> good_wavelet w -> Forall no_inf A -> pos_pexp p ->
  wavelet_analysis A p w j1u j2u gam 1 weighted = Ok (t, ws) ->
  In j1 (scales (wt_coefs t)) -> In j2 (scales (wt_coefs t)) -> (j1 < j2)%Z ->
  (forall j : Z, (1 <= j)%Z -> (lo <= scale2freq (IZR j) fs <= hi <-> (j1 <= j <= j2)%Z)) ->
  In 2 qs ->
  fractal_analysis db A fs n (lo, hi) name = Ok fr ->
  exists s h, StructureFunction (wt_coefs t) (QArr qs) j1 j2 false = Ok s /\
    nth 0 (sf_H s) NaN = Fin h /\ fr_beta fr = - (2 * h + 1).
Proof.
  intros db A fs n w lo hi name p j1u j2u gam weighted t ws j1 j2 fr qs Hdb Hw HA Hp HT I1 I2 Hj HBd H2 HF.
  unfold fractal_analysis in HF. destruct (wavelet_estimation db A fs n None) as [P|] eqn:EP; [|discriminate]. cbn [bind] in HF.
  destruct (we_inv db A fs n None w P Hdb Hw EP) as (ws0 & EW & EP'). 
  destruct (wa_inv A p w j1u j2u gam 1 weighted t ws Hw R1_neq_R0 (pos_p_ok p Hp) HT) as (eta & _ & Et & _ & _ & _ & NA).
  subst t. cbn [the_wt wt_coefs] in *.
  set (m := mrq_of WaveletCoef gam (Cf A w gam 1) (ccount A p w gam 1)) in *.
  set (g := ccount A p w gam 1) in *. set (g0 := ccount A PNone w (1/2) 1) in *.
  assert (Sm : scales m = one_to g) by apply PropsWavelet.scales_mrq.
  rewrite Sm in I1, I2. apply one_to_In in I1. apply one_to_In in I2.
  assert (G0 : (g <= g0)%nat) by apply ccount_none.
  assert (G1 : (1 <= g0)%nat) by lia.
  assert (NR : (0 < length A)%nat) by (destruct A; [contradiction|simpl; lia]).
  assert (HR : regular m g (length A)) by (apply table_regular; [lia|intros; apply Cf_length]).
  set (m0 := mrq_of WaveletCoef (1/2) (Cf A w (1/2) 1) g0) in *.
  assert (EPP : psd_psd P = PSD2 (length A) (map mean_square (dict_vals (mq_values m0)))).
  { rewrite EP'. cbn [psd_psd]. destruct (map mean_square (dict_vals (mq_values m0))) eqn:EV; [|reflexivity].
    exfalso. apply map_eq_nil in EV. unfold m0, mrq_of in EV. cbn [mq_values] in EV. unfold table, dict_vals in EV.
    apply map_eq_nil, map_eq_nil in EV. destruct g0; [lia|discriminate]. }
  set (freq := map (fun j => scale2freq (IZR j) fs) (one_to g0)) in *.
  assert (EPF : psd_freq P = freq) by (rewrite EP'; reflexivity). rewrite EPF in HF.
  assert (Lf : length freq = g0) by (unfold freq; now rewrite map_length, one_to_len).
  set (Y := map (fun r => map (fun j => mean_sq m0 j r) (one_to g0)) (seq 0 (length A))) in *.
  assert (HH : holds (length freq) Y (psd_psd P)) by (rewrite EPP, Lf; exact (we_holds A w HA G1)).
  destruct (beta_ok_inv lo hi name freq Y (psd_psd P) fr HH HF) as ((b & HB) & HK & HP).
  assert (E := beta_eq lo hi b name freq HB (fun k Hk => proj1 (HP k Hk)) Y (psd_psd P) HH HK (fun y k Hy Hk => proj2 (HP k Hk) y Hy)).
  rewrite HF in E. injection E as E. 
  assert (EY : nth 0 Y [] = map (fun j => mean_sq m0 j 0) (one_to g0)).
  { unfold Y. now rewrite nth_seq_map. }
  assert (KE : band_index lo hi freq = map (fun j => Z.to_nat (j - 1)) (zrange j1 (j2 + 1))).
  { unfold freq. apply band_is; try lia. exact HBd. }
  set (js := zrange j1 (j2 + 1)) in *.
  assert (JS : forall j, In j js -> (j1 <= j <= j2)%Z) by (intros j Ij; apply zrange_In in Ij; lia).
  assert (FN : forall j, In j js -> nth (Z.to_nat (j - 1)) freq 0 = scale2freq (IZR j) fs).
  { intros j Ij. apply JS in Ij. unfold freq. rewrite freq_nth by lia. f_equal. f_equal. lia. }
  assert (YN : forall j, In j js -> nth (Z.to_nat (j - 1)) (nth 0 Y []) 0 = mean_sq m0 j 0).
  { intros j Ij. apply JS in Ij. rewrite EY. rewrite (nth_map_lt _ _ _ 0%Z) by (rewrite one_to_len; lia). f_equal.
    unfold one_to. rewrite (nth_map_lt _ _ _ 0%nat) by (rewrite seq_length; lia). rewrite seq_nth by lia. lia. }
  assert (PF : forall j, In j js -> 0 < mean_sq m0 j 0 /\ 0 < scale2freq (IZR j) fs).
  { intros j Ij. assert (Ik : In (Z.to_nat (j - 1)) (band_index lo hi freq)) by (rewrite KE; apply in_map_iff; eauto).
    rewrite <- YN, <- FN by trivial. split; [|exact (proj1 (HP _ Ik))]. apply (proj2 (HP _ Ik)). apply nth_In. unfold Y. now rewrite map_length, seq_length. }
  assert (Fs : 0 < fs).
  { destruct (PF j1) as [_ Q]; [apply zrange_In; lia|]. unfold scale2freq in Q. assert (Rp := Rpower_pos 2 (- IZR j1)). 
    destruct (Rlt_dec 0 fs); [trivial|]. exfalso. assert (3 / 4 * fs * Rpower 2 (- IZR j1) <= 0); [|lra].
    assert (0 <= (- (3 / 4 * fs)) * Rpower 2 (- IZR j1)) by (apply Rmult_le_pos; lra). lra. }
  assert (Lb := base_pos name b HB). assert (L2 := ln2_pos).
  (* unweighted fit of log2 mean_sq against j *)
  set (yl := fun j => log2R (mean_sq m0 j 0)).
  assert (WP : well_posed (fit_points false m j1 j2 0 yl)).
  { now apply unweighted_wp. }
  destruct (fit_finite false m j1 j2 0 yl WP) as [FS _]. assert (BL := best_line _ WP).
  set (sl := LReg.slope (fit_points false m j1 j2 0 yl)) in *.
  (* the fitted line in logarithmic coordinates *)
  assert (BB : fr_beta fr = - sl).
  { rewrite E. cbn [fr_beta].
    assert (TW : exists k k', In k (band_index lo hi freq) /\ In k' (band_index lo hi freq) /\ nth k freq 0 <> nth k' freq 0).
    { exists (Z.to_nat (j1 - 1)), (Z.to_nat (j2 - 1)). rewrite KE. fold js.
      assert (J1 : In j1 js) by (apply zrange_In; lia). assert (J2 : In j2 js) by (apply zrange_In; lia).
      split; [apply in_map_iff; eauto|]. split; [apply in_map_iff; eauto|]. rewrite !FN by trivial. unfold scale2freq.
      intros X. apply Rmult_eq_reg_l in X; [|apply Rgt_not_eq; lra]. unfold Rpower in X. apply exp_inv, Rmult_eq_reg_r in X; [|apply Rgt_not_eq; lra].
      assert (QE : IZR j1 = IZR j2) by lra. apply eq_IZR in QE. lia. }
    assert (LB := line_best lo hi b name freq HB (fun k Hk => proj1 (HP k Hk)) (nth 0 Y []) TW).
    assert (EQ : band_points lo hi b freq (nth 0 Y []) = upoints (map (fun t => (ln 2 / ln b * (log2R (3 / 4 * fs) - fst t), ln 2 / ln b * snd t))
       (map (fun j => (IZR j, yl j)) js))).
    { unfold band_points, upoints. rewrite KE, !map_map. apply map_ext_in. intros j Ij. rewrite FN, YN by trivial. cbn [fst snd].
      destruct (PF j Ij) as [Q1 Q2]. f_equal; [f_equal|].
      - unfold logb, scale2freq, log2R. rewrite ln_mult by (try apply Rpower_pos; lra). unfold Rpower. rewrite ln_exp. field. lra.
      - unfold logb, yl, log2R. field. lra. }
    assert (EU : fit_points false m j1 j2 0 yl = upoints (map (fun j => (IZR j, yl j)) js)).
    { unfold fit_points, upoints, weight. rewrite map_map. reflexivity. }
    assert (SLE : sl = LReg.slope (upoints (map (fun j => (IZR j, yl j)) js))) by (unfold sl; now rewrite EU).
    rewrite EU in BL. rewrite EQ in LB.
    assert (U0 : ln 2 / ln b <> 0) by (apply Rgt_not_eq, Rdiv_lt_0_compat; lra).
    assert (LC := best_line_change _ (log2R (3 / 4 * fs)) (ln 2 / ln b) _ _ U0 BL).
    destruct (best_line_unique _ _ _ _ _ LB LC) as [Q _]. exact Q. }
  assert (LS : forall j, (j1 <= j <= j2)%Z -> logS m (PyFloat 2) 0 j = Fin (yl j + (2 * (gam - 1/2)) * IZR j)).
  { intros j Hjj. destruct (Z_of_nat_complete j ltac:(lia)) as [k ->]. assert (J0 : (1 <= k <= g)%nat) by lia.
    unfold logS. unfold m, mrq_of. rewrite table_column by exact J0.
    rewrite Cf_nth_lt by trivial. rewrite (coef_gam _ _ _ (1/2) gam).
    assert (NI : no_inf (coef (neg_hi w) (dec_lo w) 1 (1/2) k (nth 0 A []))).
    { apply coef_no_inf. rewrite Forall_forall in HA. apply HA. now apply nth_In. }
    rewrite log_sf_scale by (trivial; apply Rpower_neq0).
    destruct (we_usable A w HA k 0 (1/2) PNone) as [U1 U2]; [unfold g0, ccount in G0; lia|exact NR|].
    rewrite sf2_sq. rewrite Cf_nth_lt in U1, U2 by trivial. rewrite nanmean_sq by trivial.
    assert (MQ : mean (map (fun x => x * x) (reals (coef (neg_hi w) (dec_lo w) 1 (1/2) k (nth 0 A [])))) = mean_sq m0 (Z.of_nat k) 0).
    { unfold mean_sq, numbers, m0, mrq_of. rewrite table_column by (unfold g0 in *; lia). now rewrite Cf_nth_lt by trivial. }
    match goal with |- context [mean ?z] => replace (mean z) with (mean_sq m0 (Z.of_nat k) 0) by (symmetry; exact MQ) end. destruct (PF (Z.of_nat k)) as [Q1 _]; [apply zrange_In; lia|]. rewrite xlog2_pos by exact Q1. cbn [xadd num_val].
    f_equal. unfold yl. f_equal. rewrite Rabs_right by (left; apply Rpower_pos). unfold log2R at 1, Rpower. rewrite ln_exp. field. lra. }
  assert (SE := SF_eq m g (length A) HR qs j1 j2 false ltac:(lia) ltac:(lia) ltac:(lia)).
  assert (HT2 : has_two qs = true) by (now apply has_two_In). rewrite HT2 in SE.
  eexists _, (sl / 2 - 1/2). split; [exact SE|]. cbn [sf_H]. rewrite nth_seq_map by trivial.
  split; [|rewrite BB; field].
  destruct (fit_add_line false m j1 j2 0 (fun j => Fin (yl j)) (2 * (gam - 1/2)) 0 ltac:(lia)) as [FA _].
  rewrite (fslope_ext false m j1 j2 0 _ (fun j => xadd (Fin (yl j)) (Fin (2 * (gam - 1/2) * IZR j + 0)))).
  - rewrite FA, FS. cbn [xadd]. rewrite xdiv_Fin by (apply Rgt_not_eq; lra). unfold xsub. cbn [xopp xadd].
    change (mq_gamint m) with gam. f_equal. field.
  - intros j Hjj. rewrite LS by trivial. cbn [xadd]. f_equal. ring.
Qed.
Print Assumptions C53_beta_is_hurst.

Lemma Ok_inj {X} (a b : X) : Ok a = Ok b -> a = b.
Proof. congruence. Qed.
(** the spectral exponent depends on the scales of the band only: not on the base of the logarithm, nor on the
    unit of time *)
Theorem C53_base_and_sampling :
  forall db A fs fs' n w lo hi lo' hi' name name' (j1 j2 : Z) fr fr' t ws,
  db n = Some w -> good_wavelet w -> Forall no_inf A ->
  wavelet_analysis A PNone w 1 None (1/2) 1 false = Ok (t, ws) ->
  In j1 (scales (wt_coefs t)) -> In j2 (scales (wt_coefs t)) -> (j1 < j2)%Z ->
  (forall j : Z, (1 <= j)%Z -> (lo <= scale2freq (IZR j) fs <= hi <-> (j1 <= j <= j2)%Z)) ->
  (forall j : Z, (1 <= j)%Z -> (lo' <= scale2freq (IZR j) fs' <= hi' <-> (j1 <= j <= j2)%Z)) ->
  fractal_analysis db A fs n (lo, hi) name = Ok fr ->
  fractal_analysis db A fs' n (lo', hi') name' = Ok fr' ->
  fr_beta fr' = fr_beta fr.
Proof.
  intros db A fs fs' n w lo hi lo' hi' name name' j1 j2 fr fr' t ws Hdb Hw HA HT I1 I2 Hj B B' F F'.
  destruct (C53_beta_is_hurst db A fs n w lo hi name PNone 1 None (1/2) false t ws j1 j2 fr [2] Hdb Hw HA I HT I1 I2 Hj B ltac:(simpl; auto) F) as (s & h & S & H & E).
  destruct (C53_beta_is_hurst db A fs' n w lo' hi' name' PNone 1 None (1/2) false t ws j1 j2 fr' [2] Hdb Hw HA I HT I1 I2 Hj B' ltac:(simpl; auto) F') as (s' & h' & S' & H' & E').
  rewrite S in S'. apply Ok_inj in S'. subst s'. rewrite H in H'. injection H' as <-. congruence.
Qed.
Print Assumptions C53_base_and_sampling.

(** fractal_analysis returns exactly when some scale lies in the band and the spectrum does not vanish there *)
Theorem C53_returns :
  forall db A fs n w lo hi name b t ws,
  db n = Some w -> good_wavelet w -> Forall no_inf A -> 0 < fs -> base_of name b ->
  wavelet_analysis A PNone w 1 None (1/2) 1 false = Ok (t, ws) ->
  let m := wt_coefs t in
  (exists fr, fractal_analysis db A fs n (lo, hi) name = Ok fr) <->
  ((exists j, In j (scales m) /\ lo <= scale2freq (IZR j) fs <= hi) /\
   forall j r, In j (scales m) -> lo <= scale2freq (IZR j) fs <= hi -> (r < length A)%nat -> 0 < mean_sq m j r).
Proof.
  intros db A fs n w lo hi name b t ws Hdb Hw HA Hfs HB HT m.
  assert (EW : exists P, wavelet_estimation db A fs n None = Ok P).
  { unfold wavelet_estimation. rewrite Hdb, HT. cbn [bind]. eauto. }
  destruct EW as [P EP]. 
  destruct (C54_wavelet_support db A fs n None w P Hdb Hw HA EP) as (t' & ws' & HT' & EF & SC & HH).
  rewrite HT in HT'. apply Ok_inj in HT'. injection HT' as <- <-. fold m in EF, SC, HH.
  unfold fractal_analysis. rewrite EP. cbn [bind]. set (g := length (scales m)) in *.
  assert (Lf : length (psd_freq P) = g) by (rewrite EF, map_length; reflexivity).
  assert (BI : forall j, In j (scales m) -> lo <= scale2freq (IZR j) fs <= hi -> In (Z.to_nat (j - 1)) (band_index lo hi (psd_freq P))).
  { intros j Ij Bj. rewrite SC in Ij. apply one_to_In in Ij. apply band_index_spec. rewrite Lf. split; [lia|].
    rewrite EF, SC, freq_nth by lia. replace (Z.of_nat (S (Z.to_nat (j - 1)))) with j by lia. exact Bj. }
  assert (BJ : forall k, In k (band_index lo hi (psd_freq P)) -> In (Z.of_nat (S k)) (scales m) /\ lo <= scale2freq (IZR (Z.of_nat (S k))) fs <= hi).
  { intros k Hk. apply band_index_spec in Hk. rewrite Lf in Hk. rewrite EF, SC, freq_nth in Hk by lia. split; [|apply Hk].
    rewrite SC. apply one_to_In. lia. }
  assert (YN : forall j r, In j (scales m) -> (r < length A)%nat ->
     nth (Z.to_nat (j - 1)) (nth r (map (fun r => map (fun j => mean_sq m j r) (scales m)) (seq 0 (length A))) []) 0 = mean_sq m j r).
  { intros j r Ij Hr. rewrite nth_seq_map by trivial. rewrite SC in Ij |- *. apply one_to_In in Ij.
    rewrite (nth_map_lt _ _ _ 0%Z) by (rewrite one_to_len; lia). f_equal.
    unfold one_to. rewrite (nth_map_lt _ _ _ 0%nat) by (rewrite seq_length; lia). rewrite seq_nth by lia. lia. }
  split.
  - intros [fr F]. assert (NE : scales m <> []).
    { intros X. rewrite X in EF. cbn [map] in EF. rewrite EF in F. unfold estimate_beta in F. cbn [fst snd map select] in F.
      destruct (negb _); [discriminate|]. unfold log_psd in F. cbn [existsb] in F. destruct (log_function name); cbn [bind map regressor_fit] in F; discriminate. }
    specialize (HH NE). rewrite <- Lf in HH.
    destruct (beta_ok_inv lo hi name _ _ _ fr HH F) as (_ & HK & HP). split.
    + destruct (band_index lo hi (psd_freq P)) as [|k K] eqn:EK; [contradiction|]. exists (Z.of_nat (S k)). apply BJ. simpl; auto.
    + intros j r Ij Bj Hr. rewrite <- (YN j r Ij Hr). apply (proj2 (HP _ (BI j Ij Bj))). apply nth_In. now rewrite map_length, seq_length.
  - intros [(j & Ij & Bj) HP]. assert (NE : scales m <> []) by (intros X; rewrite X in Ij; contradiction).
    specialize (HH NE). rewrite <- Lf in HH. eexists. eapply (beta_eq lo hi b name (psd_freq P) HB); [|exact HH| |].
    + intros k Hk. apply band_index_spec in Hk. rewrite Lf in Hk. rewrite EF, SC, freq_nth by lia. unfold scale2freq.
      apply Rmult_lt_0_compat; [lra|apply Rpower_pos].
    + intros X. specialize (BI j Ij Bj). rewrite X in BI. contradiction.
    + intros y k Hy Hk. apply In_nth with (d := []) in Hy. destruct Hy as (r & Hr & <-). rewrite map_length, seq_length in Hr.
      destruct (BJ k Hk) as [J1 J2]. replace k with (Z.to_nat (Z.of_nat (S k) - 1)) by lia. rewrite YN by trivial. now apply HP.
Qed.
Print Assumptions C53_returns.

(** ** Non-vacuity *)
Example C52_case : exists r, estimate_beta [1; 2; 4] (PSD1 (fin (map (fun f => 3 * Rpower f (-5)) [1; 2; 4]))) (1, 3) "log2" = Ok r /\
  fr_beta r = -5 /\ fr_log_C r = [logb 2 3].
Proof.
  assert (K : band_index 1 3 [1; 2; 4] = [0; 1]%nat).
  { unfold band_index. cbn [List.length seq filter nth].
    destruct (Rle_dec 1 1); [|lra]. destruct (Rle_dec 1 3); [|lra]. destruct (Rle_dec 1 2); [|lra]. destruct (Rle_dec 2 3); [|lra].
    destruct (Rle_dec 1 4); [|lra]. destruct (Rle_dec 4 3); [lra|]. reflexivity. }
  destruct (C52_power_law [1; 2; 4] 5 [3] (PSD1 (fin (map (fun f => 3 * Rpower f (-5)) [1; 2; 4]))) 1 3 2 "log2") as (r & E & B & L).
  - split; [constructor; [reflexivity|constructor]|]. left. eexists. split; [reflexivity|]. unfold fin. reflexivity.
  - left. auto.
  - constructor; [lra|constructor].
  - rewrite K. intros k [<-|[<-|[]]]; cbn [nth]; lra.
  - rewrite K. exists 0%nat, 1%nat. cbn [nth In]. split; [auto|]. split; [auto|]. lra.
  - exists r. auto.
Qed.
Example C53_case : exists fr, fractal_analysis (fun _ => Some PropsWavelet.haar) [fin PropsLeaders.ramp] 1 1 (1/8, 1/2) "log" = Ok fr.
Proof.
  set (A := [fin PropsLeaders.ramp]).
  destruct (PropsWavelet.C14_returns [PropsLeaders.ramp] 24 PropsWavelet.haar PNone 1 None (1/2) 1 false ltac:(discriminate) ltac:(lia)
     ltac:(constructor; [reflexivity|constructor]) PropsWavelet.good_haar R1_neq_R0 (or_introl eq_refl)) as (t & ws & E).
  change (map fin [PropsLeaders.ramp]) with A in E.
  assert (NI : Forall no_inf A) by (constructor; [apply no_inf_fin|constructor]).
  assert (Et := E). destruct (wa_inv A PNone PropsWavelet.haar 1 None (1/2) 1 false t ws PropsWavelet.good_haar R1_neq_R0 I Et) as (eta & _ & -> & _). clear Et.
  assert (SC : scales (wt_coefs (the_wt A PNone PropsWavelet.haar None (1/2) 1 eta)) = one_to (ccount A PNone PropsWavelet.haar (1/2) 1)) by apply PropsWavelet.scales_mrq.
  assert (G : (2 <= ccount A PNone PropsWavelet.haar (1/2) 1)%nat).
  { destruct (PropsLeaders.haar_count (1/2) PInfty I eq_refl) as (_ & G & _). rewrite <- G. apply ccount_none. }
  assert (FR : forall j : Z, (1 <= j)%Z -> 1/8 <= scale2freq (IZR j) 1 -> (j <= 2)%Z).
  { intros j Hj F. destruct (Z_le_gt_dec j 2); [trivial|]. exfalso. unfold scale2freq in F.
    assert (L : Rpower 2 (- IZR j) <= Rpower 2 (- IZR 3)).
    { apply Rle_Rpower; [lra|]. apply Ropp_le_contravar. apply IZR_le. lia. }
    rewrite (Rpower_Ropp 2 (IZR 3)) in L. replace (IZR 3) with (INR 3) in L by (simpl; lra). rewrite Rpower_pow in L by lra. simpl in L. lra. }
  apply (proj2 (C53_returns (fun _ => Some PropsWavelet.haar) A 1 1 PropsWavelet.haar (1/8) (1/2) "log" (exp 1) _ ws eq_refl PropsWavelet.good_haar NI ltac:(lra) ltac:(right; auto) E)).
  split.
  - exists 1%Z. split; [rewrite SC; apply one_to_In; lia|]. unfold scale2freq. rewrite Rpower_Ropp, Rpower_1 by lra. lra.
  - intros j r Ij [B _] Hr. rewrite SC in Ij. apply one_to_In in Ij. assert (r = 0%nat) by (simpl in Hr; lia). subst r.
    apply FR in B; [|lia]. destruct (Z_of_nat_complete j ltac:(lia)) as [k ->].
    assert (RL := PropsLeaders.ramp_logS (1/2) PInfty k I eq_refl ltac:(lia)).
    destruct (PropsLeaders.haar_count (1/2) PInfty I eq_refl) as (G2 & G3 & _).
    unfold logS, mrq_of in RL. rewrite table_column in RL by (rewrite G3; lia). rewrite sf2_sq in RL.
    destruct (we_usable A PropsWavelet.haar NI k 0 (1/2) PInfty) as [U1 U2]; [unfold A; rewrite G2; lia|simpl; lia|].
    fold A in RL. rewrite nanmean_sq in RL by trivial.
    cbn [the_wt wt_coefs]. unfold mean_sq, numbers, mrq_of. rewrite table_column by lia.
    apply (logged_pos "log2" xlog2 _ _ eq_refl RL).
Qed.
