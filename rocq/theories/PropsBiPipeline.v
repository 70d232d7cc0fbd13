(** * Property C58: the whole bivariate pipeline on finite signals *)
From Coq Require Import Reals List ZArith Bool Lia Lra.
From Verif Require Import XReal PyBase ModelUtils ModelMRQ ModelStructure ModelCumulants ModelWavelet ModelMFA ModelBivariate
  Spec SpecMRQ SpecBi LXReal LReg LUtils LBase LTransform LPattern LWave LEst LMoment LWaveEst LCum LBivariate
  PropsEstimators PropsCumulants PropsWavelet PropsBivariate.
Import ListNotations.
Open Scope R_scope.

(** two tables of single columns with the same NaN patterns *)
Lemma tables_aligned f gam (T1 T2 : nat -> arr) g (j : Z) :
  (forall i, (1 <= i <= g)%nat -> map pat (T1 i) = map pat (T2 i)) ->
  (forall i, no_inf (nth 0 (T1 i) [])) -> (forall i, no_inf (nth 0 (T2 i) [])) ->
  In j (one_to g) ->
  aligned (mrq_of f gam T1 g) (mrq_of f gam T2 g) j /\ same_nans (mrq_of f gam T1 g) (mrq_of f gam T2 g) j /\
  count (mrq_of f gam T1 g) j 0 = count (mrq_of f gam T2 g) j 0.
Proof.
  intros HP N1 N2 Hj. unfold one_to in Hj. apply in_map_iff in Hj as (i & <- & Hi). apply in_seq in Hi.
  assert (P : pat (nth 0 (T1 i) []) = pat (nth 0 (T2 i) [])).
  { specialize (HP i ltac:(lia)). apply (f_equal (fun l => nth 0 l [])) in HP.
    change (@nil bool) with (pat []) in HP. now rewrite !map_nth in HP. }
  unfold aligned, same_nans, mrq_of. rewrite !table_column, !table_count by lia.
  split; [split; [now apply pat_eq_length|auto]|]. split; [exact P|]. unfold count_valid.
  assert (V : forall c, length (valid c) = length (filter negb (pat c))).
  { unfold valid, pat, notnan. induction c as [|x c IH]; [reflexivity|]. cbn [filter map]. destruct (isnan x); cbn; auto. }
  now rewrite !V, P.
Qed.

Lemma bi_results_exist f gam (T1 T2 : nat -> arr) g n qa qb j1 j2 wd :
  (forall i, length (T1 i) = 1%nat) -> (forall i, length (T2 i) = 1%nat) ->
  (forall i, (1 <= i <= g)%nat -> map pat (T1 i) = map pat (T2 i)) ->
  (forall i, no_inf (nth 0 (T1 i) [])) -> (forall i, no_inf (nth 0 (T2 i) [])) ->
  (1 <= j1)%Z -> (j1 <= j2)%Z -> (j2 <= Z.of_nat g)%Z -> (2 <= n)%nat ->
  NoDup qa -> NoDup qb -> incl [0; 1; 2] qa -> incl [0; 1; 2] qb ->
  exists r, bi_results (mrq_of f gam T1 g) (mrq_of f gam T2 g) qa qb n j1 j2 wd r.
Proof.
  intros L1 L2 HP N1 N2 H1 H2 H3 Hn Da Db Ia Ib.
  set (m1 := mrq_of f gam T1 g). set (m2 := mrq_of f gam T2 g).
  assert (R1 : regular m1 g 1) by (apply table_regular; [lia|exact L1]).
  assert (R2 : regular m2 g 1) by (apply table_regular; [lia|exact L2]).
  assert (C1 : counted m1) by (apply table_counted; reflexivity).
  assert (C2 : counted m2) by (apply table_counted; reflexivity).
  assert (HA : forall j, In j (scales m1) -> aligned m1 m2 j /\ same_nans m1 m2 j /\ count m1 j 0 = count m2 j 0).
  { intros j Hj. rewrite (proj1 (proj2 R1)) in Hj. now apply tables_aligned. }
  destruct (C56_returns m1 m2 g n j1 j2 wd R1 R2 C1 C2 H1 H2 H3 (fun j Hj => proj1 (proj1 (HA j Hj))) (or_intror Hn)) as [[_ X] _].
  destruct X as [b Eb]; [split; [reflexivity|intros j Hj; apply HA, Hj]|].
  assert (K := C55_needed_moments m1 m2 g (Some (QArr qa)) (Some (QArr qb)) j1 j2 wd R1 R2 C1 C2 H1 H2 H3 eq_refl eq_refl
    (fun j Hj => conj (proj2 (proj2 (HA j Hj))) (proj1 (proj1 (HA j Hj)))) Da Db).
  destruct K as [_ K]. destruct K as [s Es]; [auto|].
  exists (mkBiMF s b). split; [exact Eb|exact Es].
Qed.

Lemma Cf_no_inf (s : list R) w gam norm j : no_inf (nth 0 (Cf [fin s] w gam norm j) []).
Proof.
  unfold Cf, coef_arr. cbn [map nth]. apply coef_no_inf. unfold no_inf, fin. rewrite Forall_map, Forall_forall. eauto.
Qed.
Lemma Ld_no_inf (s : list R) w gam norm j : no_inf (nth 0 (Ld [fin s] PInfty w gam norm j) []).
Proof.
  unfold Ld, lead_arr. cbn [map nth]. apply nonneg_no_inf. unfold lead_of. apply lead_nonneg; [exact I|].
  intros i. apply coef_no_inf. unfold no_inf, fin. rewrite Forall_map, Forall_forall. eauto.
Qed.

(** every pair of equally long finite signals is analysed; the results are those of the two estimators on the
    coefficients and on the leaders of the two transforms *)
Theorem C58_pipeline :
  forall (s1 s2 : list R) w j1 j2 gam norm wd qa qb n t ws,
  length s1 = length s2 -> (1 <= length s1)%nat -> good_wavelet w -> norm <> 0 ->
  wavelet_analysis [fin s1] PInfty w j1 j2 gam norm wd = Ok (t, ws) -> (1 <= j1 <= j2_eff t)%Z ->
  (2 <= n)%nat -> NoDup qa -> NoDup qb -> incl [0; 1; 2] qa -> incl [0; 1; 2] qb ->
  exists t' ws' l l' d o,
    wavelet_analysis [fin s2] PInfty w j1 j2 gam norm wd = Ok (t', ws') /\ j2_eff t' = j2_eff t /\
    wt_leaders t = Some l /\ wt_leaders t' = Some l' /\
    bivariate_analysis_full [fin s1] [fin s2] w j1 j2 norm gam wd PInfty (Some (QArr qa)) (Some (QArr qb)) n = Ok (d, Some o) /\
    bi_results (wt_coefs t) (wt_coefs t') qa qb n j1 (j2_eff t) wd d /\
    bi_results l l' qa qb n j1 (j2_eff t) wd o.
Proof.
  intros s1 s2 w j1 j2 gam norm wd qa qb n t ws EL Hl Hw Hn H Hj H2 Da Db Ia Ib.
  set (N := length s1) in *.
  assert (F1 : Forall (fun s : list R => length s = N) [s1]) by (constructor; [reflexivity|constructor]).
  assert (F2 : Forall (fun s : list R => length s = N) [s2]) by (constructor; [now symmetry|constructor]).
  assert (NE1 : [s1] <> []) by discriminate. assert (NE2 : [s2] <> []) by discriminate.
  destruct (C14_returns [s2] N w PInfty j1 j2 gam norm wd NE2 Hl F2 Hw Hn (or_intror eq_refl)) as (t' & ws' & H').
  cbn [map] in H'. exists t', ws'. assert (Q := H). assert (Q' := H').
  apply wa_inv in H as (eta & _ & -> & _); trivial; [|exact I]. apply wa_inv in H' as (eta' & _ & -> & _); trivial; [|exact I].
  cbn [the_wt wt_coefs wt_leaders j2_eff] in *.
  assert (EG : gcount [fin s1] PInfty w gam norm = gcount [fin s2] PInfty w gam norm).
  { change [fin s1] with (map fin [s1]). change [fin s2] with (map fin [s2]). now rewrite !(fin_gcount _ _ _ _ N) by (trivial; exact I). }
  assert (EC : ccount [fin s1] PInfty w gam norm = ccount [fin s2] PInfty w gam norm).
  { change [fin s1] with (map fin [s1]). change [fin s2] with (map fin [s2]). now rewrite !(fin_ccount _ _ _ _ N) by (trivial; exact I). }
  assert (EJ : jeff [fin s1] PInfty w gam norm j2 = jeff [fin s2] PInfty w gam norm j2).
  { unfold jeff. rewrite EG. unfold nlev. change [fin s1] with (map fin [s1]). change [fin s2] with (map fin [s2]).
    now rewrite !(fin_sig_len _ N). }
  assert (J := jeff_le [fin s1] PInfty w gam norm j2). assert (G := gcount_le_ccount [fin s1] PInfty w gam norm).
  assert (PC : forall i, (1 <= i)%nat -> map pat (Cf [fin s1] w gam norm i) = map pat (Cf [fin s2] w gam norm i)).
  { intros i Hi. change [fin s1] with (map fin [s1]). change [fin s2] with (map fin [s2]). now rewrite !(fin_Cf_pats _ _ _ _ N). }
  assert (PL : forall i, map pat (Ld [fin s1] PInfty w gam norm i) = map pat (Ld [fin s2] PInfty w gam norm i)).
  { intros i. change [fin s1] with (map fin [s1]). change [fin s2] with (map fin [s2]). now rewrite !(fin_Ld_pats _ _ _ _ N) by (trivial; exact I). }
  set (jj := jeff [fin s1] PInfty w gam norm j2) in *.
  destruct (bi_results_exist WaveletCoef gam (Cf [fin s1] w gam norm) (Cf [fin s2] w gam norm) (ccount [fin s1] PInfty w gam norm) n qa qb j1 jj wd)
    as [d Hd]; trivial; try (intros; apply Cf_length); try (intros; apply Cf_no_inf); try lia.
  { intros i Hi. apply PC. lia. }
  destruct (bi_results_exist WaveletLeader gam (Ld [fin s1] PInfty w gam norm) (Ld [fin s2] PInfty w gam norm) (gcount [fin s1] PInfty w gam norm) n qa qb j1 jj wd)
    as [o Ho]; trivial; try (intros; apply Ld_length); try (intros; apply Ld_no_inf); try lia.
  do 2 eexists. exists d, o. split; [exact Q'|]. split; [now symmetry|]. split; [reflexivity|]. split; [reflexivity|].
  rewrite <- EC, <- EG. split; [|split; [exact Hd|exact Ho]].
  unfold bivariate_analysis_full. rewrite Q, Q'. cbn [bind].
  apply (C58_with_leaders _ _ (mrq_of WaveletLeader gam (Ld [fin s1] PInfty w gam norm) (gcount [fin s1] PInfty w gam norm))
                              (mrq_of WaveletLeader gam (Ld [fin s2] PInfty w gam norm) (gcount [fin s1] PInfty w gam norm))).
  - reflexivity.
  - cbn. now rewrite EG.
  - cbn [the_wt wt_coefs j2_eff]. fold jj. rewrite <- EJ. fold jj. rewrite Z.min_id, <- EC. split; [exact Hd|]. exists o. split; [reflexivity|exact Ho].
Qed.
Print Assumptions C58_pipeline.
(** every pair of signals of 24 samples, with the Haar wavelet *)
Example C58_case : forall s1 s2 : list R, length s1 = 24%nat -> length s2 = 24%nat ->
  exists d o, bivariate_analysis_full [fin s1] [fin s2] haar 1 None 1 0 true PInfty (Some (QArr [0; 1; 2])) (Some (QArr [0; 1; 2])) 2 = Ok (d, Some o).
Proof.
  intros s1 s2 L1 L2.
  destruct (wavelet_case [s1] ltac:(discriminate) ltac:(constructor; [exact L1|constructor])) as (t & l & ws & E & _ & _ & _ & J & _).
  cbn [map] in E.
  destruct (C58_pipeline s1 s2 haar 1 None 0 1 true [0; 1; 2] [0; 1; 2] 2 t ws) as (t' & ws' & l' & l'' & d & o & _ & _ & _ & _ & K & _);
    try exact E; try lia; try apply incl_refl; try (repeat constructor; cbn; lra); try exact good_haar; try lra.
  eauto.
Qed.
