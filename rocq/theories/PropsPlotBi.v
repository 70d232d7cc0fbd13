(** * C77-C80: bivariate plots, power spectra, Legendre surfaces *)
From Coq Require Import Reals List ZArith Bool Lia Lra Permutation String.
From Verif Require Import XReal PyBase ModelUtils ModelMRQ ModelStructure ModelCumulants ModelBivariate ModelPSD ModelPlot Spec SpecMRQ SpecBi
  LXReal LBase LReg LEst LBivariate LPlot PropsBivariate PropsBiStructure.
Import ListNotations.
Open Scope R_scope.
Local Notation length := List.length.

(** values against the scales, then the line slope * j + intercept over j1..j2 with its label *)
Definition curve_and_line (js : list Z) (values : list xr) (j1 j2 : Z) (slope icpt label : xr) : list line :=
  [mkLine (map (fun j => Fin (IZR j)) js) values None;
   mkLine (map (fun j => Fin (IZR j)) (zrange j1 (j2 + 1))) (map (fun j => xadd (xmul (Fin (IZR j)) slope) icpt) (zrange j1 (j2 + 1))) (Some label)].

Lemma two_length {A} (p q : nat -> A) l : length (flat_map (fun i => [p i; q i]) l) = (2 * length l)%nat.
Proof. induction l as [|i l IH]; [reflexivity|]. cbn [flat_map app length]. rewrite IH. lia. Qed.
Lemma two_fst (p q : nat -> list line) l : map fst (flat_map (fun i => [((i, 0%nat), p i); ((i, 1%nat), q i)]) l) = flat_map (fun i => [(i, 0%nat); (i, 1%nat)]) l.
Proof. induction l as [|i l IH]; [reflexivity|]. cbn [flat_map app map fst]. now rewrite IH. Qed.
Lemma two_NoDup l : NoDup l -> NoDup (flat_map (fun i : nat => [(i, 0%nat); (i, 1%nat)]) l).
Proof.
  assert (I : forall l i x, In (i, x) (flat_map (fun i : nat => [(i, 0%nat); (i, 1%nat)]) l) -> In i l).
  { intros l0 i x H. apply in_flat_map in H as [k [Hk [[= -> _]|[[= -> _]|[]]]]]; trivial. }
  induction 1 as [|i l Hi Hl IH]; [constructor|]. cbn [flat_map app]. constructor; [|constructor; [|exact IH]].
  - intros [[=]|K]. now apply Hi, (I l i 0%nat).
  - intros K. now apply Hi, (I l i 1%nat).
Qed.
(** ** C77 *)
(** panel (i, 0) shows C_{i+1,0} with its log-cumulant, panel (i, 1) shows C_{0,i+1}; the second figure shows C_{1,1} *)
Theorem C77_bicumulants_plot m1 m2 g n j1 j2 wd b :
  regular m1 g 1 -> regular m2 g 1 -> (1 <= j1)%Z -> (j1 <= j2)%Z -> (j2 <= Z.of_nat g)%Z ->
  (forall j, In j (scales m1) -> length (column m1 j 0) = length (column m2 j 0)) ->
  BiCumulants m1 m2 n j1 j2 wd = Ok b ->
  (n = 0%nat -> bc_plot b j1 j2 = Err ValueError) /\ (n = 1%nat -> bc_plot b j1 j2 = Err IndexError) /\
  ((2 <= n)%nat -> exists fig cross, bc_plot b j1 j2 = Ok (fig, cross) /\ length fig = (2 * n)%nat /\ NoDup (map fst fig) /\
     (forall i, (i < n)%nat ->
        In ((i, 0%nat), curve_and_line (one_to g) (nth 0 (nth (S i) (bc_values b) []) []) j1 j2 (b2 (bc_slope b) (S i) 0) (b2 (bc_intercept b) (S i) 0) (b2 (bc_log_cumulants b) (S i) 0)) fig /\
        In ((i, 1%nat), curve_and_line (one_to g) (nth (S i) (nth 0 (bc_values b) []) []) j1 j2 (b2 (bc_slope b) 0 (S i)) (b2 (bc_intercept b) 0 (S i)) (b2 (bc_log_cumulants b) 0 (S i))) fig) /\
     exists label, cross = curve_and_line (one_to g) (nth 1 (nth 1 (bc_values b) []) []) j1 j2 (b2 (bc_slope b) 1 1) (b2 (bc_intercept b) 1 1) label).
Proof.
  intros R1 R2 H1 H2 H3 HL E. destruct (BC_rows m1 m2 g n j1 j2 wd b R1 R2 H1 H2 H3 HL E) as [Ej [_ [En _]]].
  refine (conj _ (conj _ _)).
  - intros ->. unfold bc_plot. rewrite En. reflexivity.
  - intros ->. unfold bc_plot. rewrite En. reflexivity.
  - intros Hn. unfold bc_plot. rewrite En. destruct n as [|[|n']]; [lia|lia|]. set (n := S (S n')) in *. eexists _, _. split; [reflexivity|].
    refine (conj _ (conj _ (conj _ _))).
    + now rewrite two_length, seq_length.
    + rewrite two_fst. apply two_NoDup, seq_NoDup.
    + intros i Hi. split; apply in_flat_map; exists i; (split; [apply in_seq; lia|]).
      * left. unfold bc_curve. rewrite Ej. reflexivity.
      * right. left. unfold bc_curve. rewrite Ej. reflexivity.
    + exists (b2 (bc_slope b) 1 1). unfold bc_curve. rewrite Ej. reflexivity.
Qed.
Lemma log2_e_gt : 1 < log2_e.
Proof.
  unfold log2_e, log2R. rewrite ln_exp. assert (L : 0 < ln 2) by (rewrite <- ln_1; apply ln_increasing; lra).
  assert (L1 : ln 2 < 1). { rewrite <- (ln_exp 1). apply ln_increasing; [lra|]. assert (E := exp_ineq1 1 ltac:(lra)). lra. }
  apply Rmult_lt_reg_r with (ln 2); [trivial|]. unfold Rdiv. rewrite Rmult_1_l, Rmult_assoc, Rinv_l by lra. lra.
Qed.
(** the label of the second figure, printed "c11: ...", is the slope and not the attribute c11, which is log2(e) times the slope: they
    differ whenever the slope is a non-zero number *)
Theorem C77_label_refuted m1 m2 g n j1 j2 wd b :
  regular m1 g 1 -> regular m2 g 1 -> (1 <= j1)%Z -> (j1 <= j2)%Z -> (j2 <= Z.of_nat g)%Z ->
  (forall j, In j (scales m1) -> length (column m1 j 0) = length (column m2 j 0)) ->
  BiCumulants m1 m2 n j1 j2 wd = Ok b -> (2 <= n)%nat ->
  exists fig c1 l label, bc_plot b j1 j2 = Ok (fig, [c1; l]) /\ ln_label l = Some label /\ label = b2 (bc_slope b) 1 1 /\
    forall s : R, label = Fin s -> bc_c b 1 1 = [Fin (s * log2_e)] /\ (bc_c b 1 1 = [label] <-> s = 0).
Proof.
  intros R1 R2 H1 H2 H3 HL E Hn. destruct (BC_rows m1 m2 g n j1 j2 wd b R1 R2 H1 H2 H3 HL E) as [Ej [_ [En [V _]]]].
  unfold bc_plot. rewrite En. destruct n as [|[|n']]; [lia|lia|]. eexists _, _, _, _. split; [reflexivity|]. split; [reflexivity|]. split; [reflexivity|].
  intros s Es. destruct (V 1%nat 1%nat ltac:(lia) ltac:(lia)) as [_ [V1 [_ V2]]]. unfold bc_entry in Es. unfold b2 in V1, V2. rewrite V1 in Es.
  assert (Ec : bc_c b 1 1 = [Fin (s * log2_e)]).
  { unfold bc_c. rewrite En. cbn [Nat.leb andb]. rewrite V2, Es. reflexivity. }
  split; [exact Ec|]. rewrite Ec. unfold bc_entry. rewrite V1, Es. assert (G := log2_e_gt). split.
  - intros [= K]. assert (K' : s * (log2_e - 1) = 0) by lra. apply Rmult_integral in K' as [|]; lra.
  - intros ->. now rewrite Rmult_0_l.
Qed.
(** a concrete case: the slope of C11 is 2/3 *)
Definition plot_demo : mrq := add_values (add_values (new_mrq WaveletLeader 0) [[Fin (exp 1); Fin 1; Fin 1]] 1) [[Fin (exp 2); Fin 1; Fin 1]] 2.
Lemma plot_demo_regular : regular plot_demo 2 1.
Proof.
  split; [lia|]. split; [reflexivity|]. split; [reflexivity|]. intros j a H.
  cbn in H. destruct (j =? 1)%Z; [injection H as <-; reflexivity|]. destruct (j =? 2)%Z; [injection H as <-; reflexivity|discriminate].
Qed.
Lemma plot_demo_counted : counted plot_demo.
Proof.
  intros j a H. cbn in *. destruct (j =? 1)%Z; [injection H as <-; reflexivity|]. destruct (j =? 2)%Z; [injection H as <-; reflexivity|discriminate].
Qed.
Theorem C77_witness_refuted : exists b fig c1 l, BiCumulants plot_demo plot_demo 2 1 2 true = Ok b /\ bc_plot b 1 2 = Ok (fig, [c1; l]) /\ ln_label l = Some (Fin (2 / 3)) /\ bc_c b 1 1 = [Fin (2 / 3 * log2_e)] /\ ln_label l <> Some (Fin (2 / 3 * log2_e)).
Proof.
  set (m := plot_demo). assert (HR := plot_demo_regular). assert (HC := plot_demo_counted). fold m in HR, HC.
  destruct (C56_returns m m 2 2 1 2 true HR HR HC HC ltac:(lia) ltac:(lia) ltac:(lia) ltac:(reflexivity) ltac:(right; lia)) as [[_ X] _].
  destruct X as [b E]; [auto|].
  destruct (C77_label_refuted m m 2 2 1 2 true b HR HR ltac:(lia) ltac:(lia) ltac:(lia) ltac:(reflexivity) E ltac:(lia)) as [fig [c1 [l [lab [P1 [P2 [P3 P4]]]]]]].
  exists b, fig, c1, l. split; [exact E|]. split; [exact P1|].
  destruct (C56_values m m 2 2 1 2 true b HR HR ltac:(lia) ltac:(lia) ltac:(lia) ltac:(reflexivity) E) as [_ KV].
  destruct (BC_rows m m 2 2 1 2 true b HR HR ltac:(lia) ltac:(lia) ltac:(lia) ltac:(reflexivity) E) as [_ [_ [_ [V _]]]].
  destruct (V 1%nat 1%nat ltac:(lia) ltac:(lia)) as [V1 [V2 _]].
  assert (B : forall j, (1 <= j <= 2)%Z -> Bval m m 1 1 j = Fin (2 / 3 * IZR j + - (4 / 9))).
  { intros j Hj. assert (Hj' : j = 1%Z \/ j = 2%Z) by lia. rewrite <- V1 by (destruct Hj' as [-> | ->]; [left|right; left]; reflexivity).
    assert (Q : forall t, (j = 1%Z /\ t = 1) \/ (j = 2%Z /\ t = 2) -> b3 (bc_values b) 1 1 j = Fin (cov [(t, t); (0, 0); (0, 0)])).
    { intros t Ht. assert (Pj : pairs m m j = [(exp t, exp t); (1, 1); (1, 1)]) by (destruct Ht as [[-> ->]|[-> ->]]; reflexivity).
      assert (Ij : In j (scales m)) by (destruct Hj' as [-> | ->]; [left|right; left]; reflexivity).
      assert (Aj : aligned m m j).
      { destruct Hj' as [-> | ->]; (split; [reflexivity|]; split; repeat (constructor; [discriminate + eauto|]); constructor). }
      assert (NZ : pairs_nonzero (pairs m m j)). { rewrite Pj. assert (A := exp_pos t). repeat constructor; cbn; lra. }
      destruct (KV j Ij Aj ltac:(rewrite Pj; discriminate) NZ) as [_ K]. rewrite K by lia. rewrite Pj. unfold log_pairs. cbn [map fst snd].
      rewrite !(Rabs_pos_eq (exp _)) by (left; apply exp_pos). now rewrite !ln_exp, Rabs_R1, ln_1. }
    destruct Hj' as [-> | ->]; [rewrite (Q 1 ltac:(auto))|rewrite (Q 2 ltac:(auto))]; f_equal; unfold cov, pmean, mean, Rsum; cbn; field. }
  assert (Sl : b2 (bc_slope b) 1 1 = Fin (2 / 3)).
  { rewrite V2. rewrite (fslope_ext true m 1 2 0 _ (fun j => Fin (2 / 3 * IZR j + - (4 / 9)))) by exact B.
    apply fit_exact; [lia|]. intros j Hj. assert (Hj' : j = 1%Z \/ j = 2%Z) by lia. destruct Hj' as [-> | ->]; cbn; lia. }
  rewrite P3, Sl in P2. destruct (P4 (2 / 3) ltac:(now rewrite P3)) as [Q _]. split; [exact P2|]. split; [exact Q|]. rewrite P2. intros [= K].
  assert (G := log2_e_gt). lra.
Qed.
Print Assumptions C77_bicumulants_plot.
Print Assumptions C77_witness_refuted.

(** ** C78 *)
(** every BiStructureFunction of distinct orders can be plotted: one panel for each pair of orders, with its zeta as label *)
Theorem C78_bistructure_plot m1 m2 g qa qb j1 j2 wd s :
  regular m1 g 1 -> regular m2 g 1 -> counted m1 -> counted m2 -> (1 <= j1)%Z -> (j1 <= j2)%Z -> (j2 <= Z.of_nat g)%Z ->
  (forall j, In j (scales m1) -> length (column m1 j 0) = length (column m2 j 0)) -> NoDup qa -> NoDup qb ->
  BiStructureFunction m1 m2 j1 j2 (Some (QArr qa)) (Some (QArr qb)) wd = Ok s ->
  exists fig, bs_plot s (map PyFloat qa) (map PyFloat qb) j1 j2 = Ok fig /\ length fig = (length qa * length qb)%nat /\ NoDup (map fst fig) /\ forall i k, (i < length qa)%nat -> (k < length qb)%nat ->
      In ((i, k), curve_and_line (one_to g) (nth k (nth i (bs_logvalues s) []) []) j1 j2 (b2 (bs_zeta s) i k) (b2 (bs_intercept s) i k) (b2 (bs_zeta s) i k)) fig.
Proof.
  intros R1 R2 C1 C2 H1 H2 H3 HL Na Nb E.
  destruct (BS_ok_inv _ _ _ _ _ _ _ _ E) as [HF [HG [HN _]]].
  assert (Cnt : forall j, In j (scales m1) -> count m1 j 0 = count m2 j 0 /\ length (column m1 j 0) = length (column m2 j 0)).
  { intros j Hj. split; [|now apply HL]. apply (nj_equal_counts m1 m2 HN). destruct R1 as (_ & S1 & K1 & _). rewrite K1, <- S1. exact Hj. }
  assert (K := C55_needed_moments m1 m2 g (Some (QArr qa)) (Some (QArr qb)) j1 j2 wd R1 R2 C1 C2 H1 H2 H3 HF HG Cnt Na Nb). destruct K as [K _].
  assert (Inc : incl [0; 1; 2] qa /\ incl [0; 1; 2] qb).
  { destruct (in_dec Req_EM_T 0 qa), (in_dec Req_EM_T 1 qa), (in_dec Req_EM_T 2 qa), (in_dec Req_EM_T 0 qb), (in_dec Req_EM_T 1 qb), (in_dec Req_EM_T 2 qb);
    try (split; intros x [<-|[<-|[<-|[]]]]; assumption);
    exfalso; (assert (Q : ~ (incl [0; 1; 2] qa /\ incl [0; 1; 2] qb)) by (intros [I1 I2]; match goal with H : ~ In ?x _ |- _ => apply H; ((apply I1; cbn [In]; tauto) + (apply I2; cbn [In]; tauto)) end)); rewrite (K Q) in E; discriminate. }
  assert (N3 : NoDup [0; 1; 2]) by (repeat constructor; cbn [In]; intros Q; lra).
  assert (La : (3 <= length qa)%nat) by (apply (NoDup_incl_length N3), Inc). assert (Lb : (3 <= length qb)%nat) by (apply (NoDup_incl_length N3), Inc).
  assert (Ej : bs_j s = one_to g).
  { assert (S1 : scales m1 = one_to g) by apply R1. rewrite S1 in HL. rewrite (BS_eq m1 m2 g) in E by trivial. destruct (bi_coherence _ _ _); [|discriminate]. cbn [bind] in E. injection E as <-. reflexivity. }
  unfold bs_plot. rewrite !map_length. destruct (Nat.eqb_spec (length qa) 0); [lia|]. destruct (Nat.eqb_spec (length qb) 0); [lia|].
  destruct (Nat.eqb_spec (length qa) 1); [lia|]. destruct (Nat.eqb_spec (length qb) 1); [lia|]. cbn [orb andb]. eexists. split; [reflexivity|].
  refine (conj _ (conj _ _)).
  - now rewrite map_length, prod_length, !seq_length.
  - rewrite map_map. cbn [fst]. rewrite map_id. apply NoDup_list_prod; apply seq_NoDup.
  - intros i k Hi Hk. rewrite Ej. match goal with |- In _ (map ?h _) => change (In (h (i, k)) (map h (list_prod (seq 0 (length qa)) (seq 0 (length qb))))) end.
    apply in_map. apply in_prod_iff. rewrite !in_seq. lia.
Qed.
Print Assumptions C78_bistructure_plot.
(** a concrete case *)
Example C78_example : exists s fig, BiStructureFunction (bi_demo WaveletCoef 0 2) (bi_demo WaveletCoef 0 (-3)) 1 2 (Some (QArr [0; 1; 2])) (Some (QArr [0; 1; 2])) true = Ok s /\
  bs_plot s (map PyFloat [0; 1; 2]) (map PyFloat [0; 1; 2]) 1 2 = Ok fig /\ length fig = 9%nat.
Proof.
  destruct C69_example as [s [E _]]. exists s.
  assert (HA := bi_demo_aligned WaveletCoef 0 2 (-3)).
  assert (N3 : NoDup [0; 1; 2]) by (repeat constructor; cbn [In]; intros Q; lra).
  destruct (C78_bistructure_plot _ _ 2 [0; 1; 2] [0; 1; 2] 1 2 true s (bi_demo_regular WaveletCoef 0 2) (bi_demo_regular WaveletCoef 0 (-3)) (bi_demo_counted WaveletCoef 0 2) (bi_demo_counted WaveletCoef 0 (-3))
    ltac:(lia) ltac:(lia) ltac:(lia) (fun j Hj => proj1 (proj1 (HA j Hj))) N3 N3 E) as [fig [F1 [F2 _]]].
  exists fig. auto.
Qed.

(** ** C79 *)
(** the points of a spectrum that are drawn: frequency not 0 and below the cut, in the given order, both coordinates in logarithm *)
Definition shown_point (lowpass : option R) (p : R * xr) : bool :=
  (if Req_EM_T (fst p) 0 then false else true) && match lowpass with None => true | Some c => if Rlt_dec (fst p) c then true else false end.
Definition log_curve (lg : xr -> xr) (lowpass : option R) (psd : list R * list xr) : line :=
  let pts := filter (shown_point lowpass) (combine (fst psd) (snd psd)) in
  mkLine (map (fun p => lg (Fin (fst p))) pts) (map (fun p => lg (snd p)) pts) None.
Lemma combine_split_map {A B} (l : list (A * B)) : combine (map fst l) (map snd l) = l.
Proof. induction l as [|[a b] l IH]; [reflexivity|]. cbn [map combine fst snd]. now rewrite IH. Qed.
Lemma filter_filter {A} (t u : A -> bool) l : filter t (filter u l) = filter (fun x => t x && u x) l.
Proof. induction l as [|x l IH]; [reflexivity|]. cbn [filter]. destruct (u x); cbn [filter]; destruct (t x); cbn [andb]; now rewrite IH. Qed.
(** with the default styles there is one curve per spectrum, followed by the given slopes, as many as there are spectra; an unknown
    logarithm raises KeyError *)
Theorem C79_log_plot psds slopes lowpass :
  (forall lg, (lg = "log2"%string \/ lg = "log"%string) ->
     log_plot psds None None None slopes lg lowpass =
       Ok (map (log_curve (if String.eqb lg "log2" then xlog2 else xln) lowpass) psds ++ firstn (length psds) slopes)) /\
  (forall lg, lg <> "log2"%string -> lg <> "log"%string -> psds <> [] -> log_plot psds None None None slopes lg lowpass = Err KeyError).
Proof.
  assert (M : forall lg f k, log_function lg = Some f -> mapM (fun fp =>
      let keep := filter (fun q => match lowpass with None => true | Some c => if Rlt_dec (fst q) c then true else false end) (combine (fst fp) (snd fp)) in
      '(x, y) <- log_psd1 (map fst keep) (map snd keep) lg ;; Ok (mkLine x y None)) (firstn k psds) = Ok (map (log_curve f lowpass) (firstn k psds))).
  { intros lg f k Hf. apply mapM_map_ok. intros fp _. cbv zeta. unfold log_psd1. rewrite Hf, combine_split_map, filter_filter. reflexivity. }
  split.
  - intros lg Hl. unfold log_plot. cbn [n_style]. rewrite !Nat.min_id.
    assert (Hf : log_function lg = Some (if String.eqb lg "log2" then xlog2 else xln)) by (destruct Hl as [-> | ->]; reflexivity).
    rewrite (M lg _ _ Hf). cbn [bind]. now rewrite firstn_all.
  - intros lg H1 H2 Hp. unfold log_plot. cbn [n_style]. rewrite !Nat.min_id, firstn_all. destruct psds as [|fp psds]; [congruence|]. cbn [mapM]. unfold log_psd1, log_function.
    destruct (String.eqb_spec lg "log2"); [congruence|]. destruct (String.eqb_spec lg "log"); [congruence|]. reflexivity.
Qed.
(** with lists of styles, the spectra and slopes beyond the shortest list are silently left out *)
Theorem C79_styles_partial psds slopes lowpass color fmt lw lg : (lg = "log2"%string \/ lg = "log"%string) ->
  log_plot psds (Some color) (Some fmt) (Some lw) slopes lg lowpass =
    Ok (map (log_curve (if String.eqb lg "log2" then xlog2 else xln) lowpass) (firstn (Nat.min fmt (Nat.min color lw)) psds) ++ firstn color slopes).
Proof.
  intros Hl. unfold log_plot. cbn [n_style].
  assert (Hf : log_function lg = Some (if String.eqb lg "log2" then xlog2 else xln)) by (destruct Hl as [-> | ->]; reflexivity).
  rewrite (mapM_map_ok _ (log_curve (if String.eqb lg "log2" then xlog2 else xln) lowpass)).
  2:{ intros fp _. cbv zeta. unfold log_psd1. rewrite Hf, combine_split_map, filter_filter. reflexivity. }
  reflexivity.
Qed.
(** the curve never shows the zero frequency, and shows every other frequency below the cut *)
Theorem C79_points lg lowpass f p : length f = length p ->
  length (ln_x (log_curve lg lowpass (f, p))) = length (ln_y (log_curve lg lowpass (f, p))) /\
  forall x y, In (x, y) (combine (ln_x (log_curve lg lowpass (f, p))) (ln_y (log_curve lg lowpass (f, p)))) <->
    exists i, (i < length f)%nat /\ nth i f 0 <> 0 /\ (match lowpass with None => True | Some c => nth i f 0 < c end) /\ x = lg (Fin (nth i f 0)) /\ y = lg (nth i p NaN).
Proof.
  intros L. unfold log_curve. cbn [ln_x ln_y fst snd]. split; [now rewrite !map_length|]. intros x y.
  assert (C : forall l : list (R * xr), combine (map (fun p => lg (Fin (fst p))) l) (map (fun p => lg (snd p)) l) = map (fun p => (lg (Fin (fst p)), lg (snd p))) l).
  { induction l as [|q l IH]; [reflexivity|]. cbn [map combine]. now rewrite IH. }
  rewrite C, in_map_iff. split.
  - intros [[a b] [[= <- <-] H]]. apply filter_In in H as [H T]. apply In_nth with (d := (0, NaN)) in H as [i [Hi Ei]]. rewrite combine_length, <- L, Nat.min_id in Hi.
    rewrite combine_nth in Ei by trivial. injection Ei as <- <-. exists i. split; [trivial|]. unfold shown_point in T. cbn [fst snd] in *. apply andb_true_iff in T as [T1 T2].
    destruct (Req_EM_T (nth i f 0) 0); [discriminate|]. split; [trivial|]. split; [|auto]. destruct lowpass; [|trivial]. destruct (Rlt_dec (nth i f 0) r); [trivial|discriminate].
  - intros [i [Hi [Hz [Hc [-> ->]]]]]. exists (nth i f 0, nth i p NaN). split; [reflexivity|]. apply filter_In. split.
    + rewrite <- combine_nth by trivial. apply nth_In. now rewrite combine_length, <- L, Nat.min_id.
    + unfold shown_point. cbn [fst]. destruct (Req_EM_T (nth i f 0) 0); [contradiction|]. destruct lowpass; [|reflexivity]. destruct (Rlt_dec (nth i f 0) r); [reflexivity|contradiction].
Qed.
Print Assumptions C79_log_plot.
Print Assumptions C79_points.

(** ** C80 *)
(** h is a grid of n equally spaced values from lo to hi *)
Definition regular_grid (lo hi : R) (n : nat) (h : list R) : Prop :=
  length h = n /\ forall i, (i < n)%nat -> nth i h 0 = match n with 1%nat => lo | _ => lo + INR i * ((hi - lo) / INR (n - 1)) end.
(** the smallest interval holding a set of values *)
Definition hull (lo hi : R) (S : R -> Prop) : Prop := S lo /\ S hi /\ forall x, S x -> lo <= x <= hi.

Lemma linspace_grid lo hi n : regular_grid lo hi n (linspace lo hi n).
Proof.
  unfold regular_grid, linspace. rewrite map_length, seq_length. split; [reflexivity|]. intros i Hi.
  match goal with |- nth i (map ?h _) 0 = _ => rewrite (nth_indep _ 0 (h 0%nat)) by (now rewrite map_length, seq_length); rewrite (map_nth h) end.
  now rewrite seq_nth by trivial.
Qed.
Lemma regular_grid_unique lo hi n h h' : regular_grid lo hi n h -> regular_grid lo hi n h' -> h = h'.
Proof. intros [L H] [L' H']. apply (nth_ext _ _ 0 0); [congruence|]. intros i Hi. rewrite H, H' by lia. reflexivity. Qed.
Lemma sel_filter {A} (m : nat -> bool) (t : A -> bool) h d : (forall j, (j < length h)%nat -> m j = t (nth j h d)) -> sel_rows m h = filter t h.
Proof.
  intros H. unfold sel_rows.
  assert (G : forall k, (forall j, (j < length h)%nat -> m (k + j)%nat = t (nth j h d)) -> map snd (filter (fun p => m (fst p)) (combine (seq k (length h)) h)) = filter t h).
  { clear H. induction h as [|x h IH]; intros k H; [reflexivity|]. cbn [length seq combine filter fst].
    assert (H0 := H 0%nat ltac:(cbn [length]; lia)). rewrite Nat.add_0_r in H0. cbn [nth] in H0. rewrite H0.
    assert (T : map snd (filter (fun p => m (fst p)) (combine (seq (S k) (length h)) h)) = filter t h).
    { apply IH. intros j Hj. specialize (H (S j) ltac:(cbn [length]; lia)). now replace (S k + j)%nat with (k + S j)%nat by lia. }
    destruct (t x); cbn [map snd]; now rewrite T. }
  apply (G 0%nat). intros j Hj. now apply H.
Qed.
Lemma sel_map {A B} (m : nat -> bool) (f : A -> B) h : sel_rows m (map f h) = map f (sel_rows m h).
Proof.
  unfold sel_rows. rewrite map_length. generalize 0%nat as k. induction h as [|x h IH]; intros k; [reflexivity|]. cbn [length seq map combine filter fst].
  destruct (m k); cbn [map snd]; now rewrite IH.
Qed.
Lemma finites_map {A} (f : A -> R) l : finites (map (fun a => Fin (f a)) l) = Some (map f l).
Proof. induction l as [|a l IH]; [reflexivity|]. unfold finites in *. cbn [map fold_right]. now rewrite IH. Qed.
Lemma finite_rows_map (S : R -> R -> R) h h' : finite_rows (map (fun h1 => map (fun h2 => Fin (S h1 h2)) h) h') = Some (map (fun h1 => map (S h1) h) h').
Proof. induction h' as [|a l IH]; [reflexivity|]. unfold finite_rows in *. cbn [map fold_right]. now rewrite IH, finites_map. Qed.
Lemma Rge0_iff x : Rge0 x = true <-> 0 <= x.
Proof. unfold Rge0. destruct (Rle_dec 0 x); split; intros; (trivial || discriminate || contradiction). Qed.
Section Shown.
Variable S : R -> R -> R.
Definition col_ok (h : list R) (h2 : R) : bool := existsb (fun h1 => Rge0 (S h1 h2)) h.
Definition row_ok (h : list R) (h1 : R) : bool := existsb (fun h2 => Rge0 (S h1 h2)) h.
Lemma existsb_map {A B} (f : A -> B) t l : existsb t (map f l) = existsb (fun x => t (f x)) l.
Proof. induction l as [|x l IH]; [reflexivity|]. cbn [map existsb]. now rewrite IH. Qed.
Lemma existsb_ext_in {A} (t u : A -> bool) l : (forall x, In x l -> t x = u x) -> existsb t l = existsb u l.
Proof. intros H. induction l as [|x l IH]; [reflexivity|]. cbn [existsb]. rewrite H by now left. f_equal. apply IH. intros y Hy. apply H. now right. Qed.
Lemma col_max_eq h h' j : (j < length h)%nat -> col_max (map (fun h1 => map (S h1) h) h') j = col_ok h' (nth j h 0).
Proof.
  intros Hj. unfold col_max, col_ok. rewrite existsb_map. apply existsb_ext_in. intros h1 _. f_equal.
  rewrite (nth_indep _ (-1) (S h1 0)) by (now rewrite map_length). apply map_nth.
Qed.
Lemma row_max_eq h h' i : (i < length h')%nat -> row_max (map (fun h1 => map (S h1) h) h') i = row_ok h (nth i h' 0).
Proof.
  intros Hi. unfold row_max, row_ok. rewrite (nth_indep _ [] ((fun h1 => map (S h1) h) 0)) by (now rewrite map_length).
  rewrite (map_nth (fun h1 => map (S h1) h)). apply existsb_map.
Qed.
Lemma col_ok_iff h x : col_ok h x = true <-> exists h1, In h1 h /\ 0 <= S h1 x.
Proof. unfold col_ok. rewrite existsb_exists. split; intros [h1 [H1 H2]]; exists h1; (split; [trivial|]); now apply Rge0_iff. Qed.
Lemma row_ok_iff h x : row_ok h x = true <-> exists h2, In h2 h /\ 0 <= S x h2.
Proof. unfold row_ok. rewrite existsb_exists. split; intros [h1 [H1 H2]]; exists h1; (split; [trivial|]); now apply Rge0_iff. Qed.
Lemma sel_cols h : sel (col_max (map (fun h1 => map (S h1) h) h)) h = filter (col_ok h) h.
Proof. apply (sel_filter _ (col_ok h) h 0). intros j Hj. now apply col_max_eq. Qed.
Lemma sel_hy h : sel (row_max (map (fun h1 => map (S h1) h) h)) h = filter (row_ok h) h.
Proof. apply (sel_filter _ (row_ok h) h 0). intros j Hj. now apply row_max_eq. Qed.
Lemma sel_surface h : let L := map (fun h1 => map (S h1) h) h in let L1 := map (sel (col_max L)) L in
  sel_rows (row_max L1) L1 = map (fun h1 => map (S h1) (filter (col_ok h) h)) (filter (row_ok h) h).
Proof.
  cbv zeta. rewrite map_map.
  rewrite (map_ext _ (fun h1 => map (S h1) (filter (col_ok h) h))).
  2:{ intros h1. change (sel (col_max (map (fun h1 => map (S h1) h) h)) (map (S h1) h)) with (@sel_rows R (col_max (map (fun h1 => map (S h1) h) h)) (map (S h1) h)).
      rewrite sel_map. f_equal. apply sel_cols. }
  rewrite sel_map. f_equal. apply (sel_filter _ (row_ok h) h 0). intros i Hi. rewrite row_max_eq by trivial.
  assert (P : row_ok (filter (col_ok h) h) (nth i h 0) = true <-> row_ok h (nth i h 0) = true).
  { rewrite !row_ok_iff. split; intros [h2 [H1 H2]]; exists h2; (split; [|trivial]).
    - now apply filter_In in H1.
    - apply filter_In. split; [trivial|]. apply col_ok_iff. exists (nth i h 0). split; [now apply nth_In|trivial]. }
  destruct (row_ok (filter (col_ok h) h) (nth i h 0)), (row_ok h (nth i h 0)); tauto || (destruct P; symmetry; tauto) || idtac.
  all: destruct P as [P1 P2]; try (now rewrite P1); try (now rewrite P2).
Qed.
End Shown.
Lemma list_min_spec l : l <> [] -> exists m, list_min l = Ok m /\ In m l /\ forall x, In x l -> m <= x.
Proof.
  destruct l as [|a t]; [congruence|]. intros _. cbn [list_min]. eexists. split; [reflexivity|]. revert a. induction t as [|b t IH]; intros a.
  - cbn [fold_left]. split; [now left|]. intros x [->|[]]. lra.
  - cbn [fold_left]. destruct (IH (Rmin a b)) as [I M]. split.
    + destruct I as [I|I]; [|right; now right]. rewrite <- I at 1. unfold Rmin. destruct (Rle_dec a b); [now left|right; now left].
    + assert (B := Rmin_l a b). assert (B' := Rmin_r a b). assert (M0 := M (Rmin a b) ltac:(now left)). intros x [<-|[<-|Hx]]; [lra|lra|]. apply M. now right.
Qed.
Lemma list_max_spec l : l <> [] -> exists m, list_max l = Ok m /\ In m l /\ forall x, In x l -> x <= m.
Proof.
  destruct l as [|a t]; [congruence|]. intros _. cbn [list_max]. eexists. split; [reflexivity|]. revert a. induction t as [|b t IH]; intros a.
  - cbn [fold_left]. split; [now left|]. intros x [->|[]]. lra.
  - cbn [fold_left]. destruct (IH (Rmax a b)) as [I M]. split.
    + destruct I as [I|I]; [|right; now right]. rewrite <- I at 1. unfold Rmax. destruct (Rle_dec a b); [right; now left|now left].
    + assert (B := Rmax_l a b). assert (B' := Rmax_r a b). assert (M0 := M (Rmax a b) ltac:(now left)). intros x [<-|[<-|Hx]]; [lra|lra|]. apply M. now right.
Qed.

(** what is drawn: the range of the second grid is the hull of the coordinates of the non-negative points of the grid of 200 x 200 points
    of [0, 3/2]; rows and columns without a non-negative value are left out; the value at x = hx[j], y = hy[i] is the spectrum at
    h1 = y, h2 = x.  The argument h_support has no effect.  ValueError when a grid holds no non-negative value *)
Theorem C80_plot_legendre b h_support n c10 c01 c20 c02 c11 : (2 <= bc_n_cumul b)%nat ->
  b2 (bc_log_cumulants b) 1 0 = Fin c10 -> b2 (bc_log_cumulants b) 0 1 = Fin c01 ->
  b2 (bc_log_cumulants b) 2 0 = Fin c20 -> b2 (bc_log_cumulants b) 0 2 = Fin c02 -> b2 (bc_log_cumulants b) 1 1 = Fin c11 ->
  c20 * c02 - c11 ^ 2 <> 0 ->
  let S h1 h2 := surface c10 c01 c20 c02 c11 h1 h2 in
  forall g0, regular_grid 0 (3 / 2) 200 g0 ->
  ((forall h1 h2, In h1 g0 -> In h2 g0 -> S h1 h2 < 0) -> legendre_surface b h_support n = Some (Err ValueError)) /\
  ((exists h1 h2, In h1 g0 /\ In h2 g0 /\ 0 <= S h1 h2) ->
   exists lo hi g, hull lo hi (fun x => In x g0 /\ exists y, In y g0 /\ (0 <= S x y \/ 0 <= S y x)) /\ regular_grid lo hi n g /\
     ((forall h1 h2, In h1 g -> In h2 g -> S h1 h2 < 0) -> legendre_surface b h_support n = Some (Err ValueError)) /\
     ((exists h1 h2, In h1 g /\ In h2 g /\ 0 <= S h1 h2) ->
      exists hx hy L, legendre_surface b h_support n = Some (Ok (Surface hx hy L)) /\
        (forall x, In x hx <-> In x g /\ exists h1, In h1 g /\ 0 <= S h1 x) /\
        (forall y, In y hy <-> In y g /\ exists h2, In h2 g /\ 0 <= S y h2) /\
        length L = length hy /\
        forall i j, (i < length hy)%nat -> (j < length hx)%nat ->
          length (nth i L []) = length hx /\ nth j (nth i L []) 0 = S (nth i hy 0) (nth j hx 0))).
Proof.
  intros Hn E10 E01 E20 E02 E11 HD S g0 Hg0.
  assert (CL : forall lo hi k, compute_legendre b lo hi k = Ok (linspace lo hi k, map (fun h1 => map (fun h2 => Fin (S h1 h2)) (linspace lo hi k)) (linspace lo hi k))).
  { intros lo hi k. unfold b2 in *.
    assert (C : forall a k, (a <= 2)%nat -> (k <= 2)%nat -> bc_c b a k = [nth k (nth a (bc_log_cumulants b) []) NaN]).
    { intros a k' Ha Hk. unfold bc_c. destruct (Nat.leb_spec a (bc_n_cumul b)); [|lia]. destruct (Nat.leb_spec k' (bc_n_cumul b)); [|lia]. reflexivity. }
    unfold compute_legendre. rewrite !C, E10, E01, E20, E02, E11 by lia. f_equal. f_equal. apply map_ext. intros h1. apply map_ext. intros h2. now apply legendre_entry_eq. }
  rewrite (regular_grid_unique _ _ _ _ _ Hg0 (linspace_grid 0 (3 / 2) 200)) in *. clear g0 Hg0. set (g0 := linspace 0 (3 / 2) 200) in *.
  unfold legendre_surface. rewrite CL. fold g0. clearbody g0. rewrite finite_rows_map. cbv zeta. rewrite sel_cols, sel_hy. set (l0 := filter (col_ok S g0) g0 ++ filter (row_ok S g0) g0).
  assert (I0 : forall x, In x l0 <-> In x g0 /\ exists y, In y g0 /\ (0 <= S x y \/ 0 <= S y x)).
  { intros x. unfold l0. rewrite in_app_iff, !filter_In, col_ok_iff, row_ok_iff. split.
    - intros [[H [y [H1 H2]]]|[H [y [H1 H2]]]]; (split; [trivial|]); exists y; auto.
    - intros [H [y [H1 [H2|H2]]]]; [right|left]; (split; [trivial|]); exists y; auto. }
  split.
  - intros Neg. assert (l0 = []) as ->.
    { destruct l0 as [|x l] eqn:El; [reflexivity|]. exfalso. destruct (proj1 (I0 x) ltac:(now left)) as [Hx [y [Hy [K|K]]]]; [specialize (Neg x y Hx Hy)|specialize (Neg y x Hy Hx)]; lra. }
    reflexivity.
  - intros [a [c [Ha [Hc Hp]]]].
    assert (Ne : l0 <> []). { intros K. assert (In a l0) by (apply I0; split; [trivial|]; exists c; auto). rewrite K in *. contradiction. }
    destruct (list_min_spec l0 Ne) as [lo [E1 [Lo1 Lo2]]]. destruct (list_max_spec l0 Ne) as [hi [E2 [Hi1 Hi2]]]. rewrite E1, E2, CL.
    exists lo, hi, (linspace lo hi n). split; [|split; [apply linspace_grid|]].
    { split; [now apply I0|]. split; [now apply I0|]. intros x Hx. apply I0 in Hx. auto. }
    set (g := linspace lo hi n). rewrite finite_rows_map. rewrite sel_cols, sel_hy, sel_surface. split.
    + intros Neg. assert (filter (col_ok S g) g = []) as ->; [|reflexivity].
      destruct (filter (col_ok S g) g) as [|x l] eqn:El; [reflexivity|]. exfalso. assert (Hx : In x (filter (col_ok S g) g)) by (rewrite El; now left).
      apply filter_In in Hx as [Hx K]. apply col_ok_iff in K as [y [Hy K]]. specialize (Neg y x Hy Hx). lra.
    + intros [u [v [Hu [Hv Hp']]]]. exists (filter (col_ok S g) g), (filter (row_ok S g) g), (map (fun h1 => map (S h1) (filter (col_ok S g) g)) (filter (row_ok S g) g)).
      split. { destruct (filter (col_ok S g) g) as [|x l] eqn:El; [|reflexivity]. exfalso. assert (K : In v (filter (col_ok S g) g)) by (apply filter_In; split; [trivial|]; apply col_ok_iff; eauto). rewrite El in K. contradiction. }
      split; [intros x; now rewrite filter_In, col_ok_iff|]. split; [intros x; now rewrite filter_In, row_ok_iff|]. split; [now rewrite map_length|].
      intros i j Hi Hj. rewrite (nth_indep _ [] ((fun h1 => map (S h1) (filter (col_ok S g) g)) 0)) by (now rewrite map_length).
      rewrite (map_nth (fun h1 => map (S h1) (filter (col_ok S g) g))). split; [now rewrite map_length|].
      rewrite (nth_indep _ 0 (S (nth i (filter (row_ok S g) g) 0) 0)) by (now rewrite map_length). apply map_nth.
Qed.
(** REFUTED: the requested support is not used *)
Theorem C80_support_refuted b h1 h2 n : legendre_surface b h1 n = legendre_surface b h2 n.
Proof. reflexivity. Qed.
(** REFUTED: nothing outside [0, 3/2] is ever drawn *)
Lemma grid_range lo hi n g x : lo <= hi -> regular_grid lo hi n g -> In x g -> lo <= x <= hi.
Proof.
  intros H [L G] Hx. apply In_nth with (d := 0) in Hx as [i [Hi <-]]. rewrite G by lia. rewrite L in Hi. destruct n as [|[|n]]; [lia|lra|].
  assert (Hk : 0 < INR (Datatypes.S (Datatypes.S n) - 1)) by (apply lt_0_INR; lia). set (k := INR (Datatypes.S (Datatypes.S n) - 1)) in *.
  assert (Hik : INR i <= k) by (apply le_INR; lia). assert (H0 := pos_INR i).
  assert (0 <= INR i * ((hi - lo) / k)). { apply Rmult_le_pos; [trivial|]. apply Rmult_le_pos; [lra|]. left. now apply Rinv_0_lt_compat. }
  assert (INR i * ((hi - lo) / k) <= hi - lo).
  { apply Rle_trans with (k * ((hi - lo) / k)); [|right; field; lra]. apply Rmult_le_compat_r; [|trivial]. apply Rmult_le_pos; [lra|]. left. now apply Rinv_0_lt_compat. }
  lra.
Qed.
Theorem C80_range_refuted b h_support n c10 c01 c20 c02 c11 hx hy L : (2 <= bc_n_cumul b)%nat ->
  b2 (bc_log_cumulants b) 1 0 = Fin c10 -> b2 (bc_log_cumulants b) 0 1 = Fin c01 ->
  b2 (bc_log_cumulants b) 2 0 = Fin c20 -> b2 (bc_log_cumulants b) 0 2 = Fin c02 -> b2 (bc_log_cumulants b) 1 1 = Fin c11 ->
  c20 * c02 - c11 ^ 2 <> 0 -> legendre_surface b h_support n = Some (Ok (Surface hx hy L)) ->
  forall x, In x hx \/ In x hy -> 0 <= x <= 3 / 2.
Proof.
  intros Hn E10 E01 E20 E02 E11 HD E x Hx. set (g0 := linspace 0 (3 / 2) 200). assert (G0 := linspace_grid 0 (3 / 2) 200). fold g0 in G0. clearbody g0.
  destruct (C80_plot_legendre b h_support n c10 c01 c20 c02 c11 Hn E10 E01 E20 E02 E11 HD g0 G0) as [K1 K2]. set (S := surface c10 c01 c20 c02 c11) in *.
  assert (Dec : forall g, (exists h1 h2, In h1 g /\ In h2 g /\ 0 <= S h1 h2) \/ (forall h1 h2, In h1 g -> In h2 g -> S h1 h2 < 0)).
  { intros g. destruct (existsb (fun h1 => existsb (fun h2 => Rge0 (S h1 h2)) g) g) eqn:Ex.
    - left. apply existsb_exists in Ex as [h1 [H1 Ex]]. apply existsb_exists in Ex as [h2 [H2 Ex]]. exists h1, h2. split; [trivial|]. split; [trivial|]. now apply Rge0_iff.
    - right. intros h1 h2 H1 H2. destruct (Rlt_dec (S h1 h2) 0) as [|N]; [trivial|]. exfalso. rewrite <- not_true_iff_false in Ex. apply Ex. apply existsb_exists. exists h1. split; [trivial|].
      apply existsb_exists. exists h2. split; [trivial|]. apply Rge0_iff. lra. }
  destruct (Dec g0) as [P|P]; [|rewrite (K1 P) in E; discriminate]. destruct (K2 P) as [lo [hi [g [Hu [G [K3 K4]]]]]].
  destruct (Dec g) as [Q|Q]; [|rewrite (K3 Q) in E; discriminate]. destruct (K4 Q) as [hx' [hy' [L' [E' [X1 [X2 _]]]]]]. rewrite E' in E. injection E as -> -> ->.
  destruct Hu as [[U1 _] [[U2 _] U3]]. assert (B1 := grid_range 0 (3 / 2) 200 g0 lo ltac:(lra) G0 U1). assert (B2 := grid_range 0 (3 / 2) 200 g0 hi ltac:(lra) G0 U2).
  assert (Lh : lo <= hi). { destruct P as [a [c [Ha [Hc Hp]]]]. assert (T := U3 a (conj Ha (ex_intro _ c (conj Hc (or_introl Hp))))). lra. }
  assert (Ig : In x g) by (destruct Hx as [Hx|Hx]; [apply X1 in Hx|apply X2 in Hx]; tauto).
  assert (B3 := grid_range lo hi n g x Lh G Ig). lra.
Qed.
Print Assumptions C80_plot_legendre.
Print Assumptions C80_range_refuted.
(** REFUTED, and a concrete case meeting the hypotheses: the horizontal axis, labelled h1 by plot_legendre_pv, is h2.  Here, with the default
    support and resolution, the value drawn at x = 0, y = 3/2 is 0, and the spectrum at h1 = 0, h2 = 3/2 is 3/4 *)
Theorem C80_axes_refuted : exists b hx hy L i j, (2 <= bc_n_cumul b)%nat /\ b2 (bc_log_cumulants b) 1 0 = Fin (1 / 2) /\ b2 (bc_log_cumulants b) 0 1 = Fin 1 /\
  b2 (bc_log_cumulants b) 2 0 = Fin (-1) /\ b2 (bc_log_cumulants b) 0 2 = Fin (-1) /\ b2 (bc_log_cumulants b) 1 1 = Fin 0 /\
  legendre_surface b (0, 3 / 2) 30 = Some (Ok (Surface hx hy L)) /\ (j < length hx)%nat /\ (i < length hy)%nat /\
  nth j hx 0 = 0 /\ nth i hy 0 = 3 / 2 /\ nth j (nth i L []) 0 = 0 /\ surface (1 / 2) 1 (-1) (-1) 0 0 (3 / 2) = 3 / 4.
Proof.
  set (b := mkBiCum WaveletLeader [] [] 2 [] [[NaN; Fin 1; Fin (-1)]; [Fin (1 / 2); Fin 0; Fin 0]; [Fin (-1); Fin 0; Fin 0]] [] [] None None).
  exists b. assert (G0 := linspace_grid 0 (3 / 2) 200). set (g0 := linspace 0 (3 / 2) 200) in *. clearbody g0.
  destruct (C80_plot_legendre b (0, 3 / 2) 30 (1 / 2) 1 (-1) (-1) 0 ltac:(cbn; lia) eq_refl eq_refl eq_refl eq_refl eq_refl ltac:(intros K; lra) g0 G0) as [_ K2].
  set (S := surface (1 / 2) 1 (-1) (-1) 0) in *.
  assert (S1 : S 0 (3 / 2) = 3 / 4) by (unfold S, surface; field). assert (S2 : S (3 / 2) 0 = 0) by (unfold S, surface; field).
  assert (Ends : forall lo hi n h, (2 <= n)%nat -> regular_grid lo hi n h -> In lo h /\ In hi h).
  { intros lo hi n h Hn [L G]. split.
    - replace lo with (nth 0 h 0); [apply nth_In; lia|]. rewrite G by lia. destruct n as [|[|n]]; [lia|lia|]. cbn [INR]. lra.
    - replace hi with (nth (n - 1) h 0); [apply nth_In; lia|]. rewrite G by lia. destruct n as [|[|n]]; [lia|lia|]. field. apply not_0_INR. lia. }
  destruct (Ends 0 (3 / 2) 200%nat g0 ltac:(lia) G0) as [Z0 Z1].
  assert (P1 : 0 <= S 0 (3 / 2)) by lra. assert (P2 : 0 <= S (3 / 2) 0) by lra.
  destruct K2 as [lo [hi [g [[[U1 _] [[U2 _] U3]] [G [_ K4]]]]]]; [exists 0, (3 / 2); auto|].
  assert (Lo : lo = 0). { assert (A := U3 0 (conj Z0 (ex_intro _ _ (conj Z1 (or_introl P1))))). assert (B := grid_range 0 (3 / 2) 200 g0 lo ltac:(lra) G0 U1). lra. }
  assert (Hi : hi = 3 / 2). { assert (A := U3 (3 / 2) (conj Z1 (ex_intro _ _ (conj Z0 (or_introl P2))))). assert (B := grid_range 0 (3 / 2) 200 g0 hi ltac:(lra) G0 U2). lra. }
  destruct (Ends lo hi 30%nat g ltac:(lia) G) as [Y0 Y1]. rewrite Lo in Y0. rewrite Hi in Y1.
  destruct K4 as [hx [hy [L [E [X1 [X2 [_ X3]]]]]]]; [exists 0, (3 / 2); auto|].
  assert (I1 : In 0 hx) by (apply X1; split; [trivial|]; exists (3 / 2); auto). assert (I2 : In (3 / 2) hy) by (apply X2; split; [trivial|]; exists 0; auto).
  apply In_nth with (d := 0) in I1 as [j [Hj Ej]]. apply In_nth with (d := 0) in I2 as [i [Hi' Ei]].
  exists hx, hy, L, i, j. split; [cbn; lia|]. do 5 (split; [reflexivity|]). split; [exact E|]. split; [exact Hj|]. split; [exact Hi'|]. split; [exact Ej|]. split; [exact Ei|].
  split; [|exact S1]. rewrite (proj2 (X3 i j Hi' Hj)), Ei, Ej. exact S2.
Qed.
Print Assumptions C80_axes_refuted.
