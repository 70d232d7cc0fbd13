(** * Transforms as regular quantities *)
From Coq Require Import Reals List ZArith Bool Lra Lia.
From Verif Require Import XReal PyBase ModelUtils ModelMRQ ModelStructure ModelWavelet Spec SpecMRQ LXReal LUtils LBase LFilter LTransform LPattern LWave LEst.
Import ListNotations.
Open Scope R_scope.

Lemma table_regular f gam (T N : nat -> arr) g nrep : (1 <= g)%nat -> (forall j, length (T j) = nrep) ->
  regular (mkMRQ f gam (table T g) (njtable N g)) g nrep.
Proof.
  intros G L. split; [trivial|]. split; [apply table_keys|]. split; [apply njtable_keys|].
  intros j a H. apply table_get_inv in H as (i & -> & _ & ->). apply L.
Qed.
Lemma table_counted f gam (T N : nat -> arr) g :
  (forall j, (1 <= j <= g)%nat -> map count_valid (N j) = map count_valid (T j)) ->
  counted (mkMRQ f gam (table T g) (njtable N g)).
Proof.
  intros H j a E. cbn [mq_values mq_nj] in *. apply table_get_inv in E as (i & -> & Hi & ->).
  rewrite njtable_get by trivial. now rewrite H.
Qed.
Lemma table_column f gam (T N : nat -> arr) g (j r : nat) : (1 <= j <= g)%nat ->
  column (mkMRQ f gam (table T g) (njtable N g)) (Z.of_nat j) r = nth r (T j) [].
Proof. intros H. unfold column. cbn [mq_values]. now rewrite table_get. Qed.
Lemma table_count f gam (T N : nat -> arr) g (j r : nat) : (1 <= j <= g)%nat ->
  count (mkMRQ f gam (table T g) (njtable N g)) (Z.of_nat j) r = count_valid (nth r (N j) []).
Proof.
  intros H. unfold count. cbn [mq_nj]. rewrite njtable_get by trivial.
  change 0%nat with (count_valid []). apply map_nth.
Qed.
Lemma table_entry f gam (T N : nat -> arr) g (j r k : nat) : (1 <= j <= g)%nat ->
  entry (mkMRQ f gam (table T g) (njtable N g)) (Z.of_nat j) r k = nth k (nth r (T j) []) NaN.
Proof. intros H. unfold entry. cbn [mq_values]. now rewrite table_get. Qed.
Lemma entry_column m j r k : entry m j r k = nth k (column m j r) NaN.
Proof. unfold entry, column. destruct (dict_get _ _); trivial. now destruct k. Qed.

Lemma Cf_length A w gam norm j : length (Cf A w gam norm j) = length A.
Proof. unfold Cf, coef_arr. apply map_length. Qed.
Lemma Ld_length A p w gam norm j : length (Ld A p w gam norm j) = length A.
Proof. unfold Ld, lead_arr. apply map_length. Qed.
Lemma corr_arr_length p eta j v : length eta = length v -> length (corr_arr p eta j v) = length v.
Proof. intros H. unfold corr_arr. rewrite map2_length, H. apply Nat.min_id. Qed.

Lemma Ld_nth A p w gam norm j r : (r < length A)%nat ->
  nth r (Ld A p w gam norm j) [] = lead_of (neg_hi w) (dec_lo w) norm gam (check_formalism p) p j (nth r A []).
Proof. intros H. unfold Ld, lead_arr. now apply nth_map_lt. Qed.
Lemma Cf_nth_lt A w gam norm j r : (r < length A)%nat ->
  nth r (Cf A w gam norm j) [] = coef (neg_hi w) (dec_lo w) norm gam j (nth r A []).
Proof. intros H. unfold Cf, coef_arr. now apply nth_map_lt. Qed.

(** kept scales have at least three usable coefficients and leaders *)
Lemma gcount_ok_c A p w gam norm j r : (1 <= j <= gcount A p w gam norm)%nat -> (r < length A)%nat ->
  (3 <= count_valid (nth r (Cf A w gam norm j) []))%nat.
Proof.
  intros H Hr. rewrite Cf_nth_lt by trivial. unfold coef. rewrite count_valid_rescale.
  assert (O : okc (neg_hi w) (dec_lo w) A j = true).
  { unfold gcount in H. destruct p.
    - eapply run_ok with (s := 0%nat). simpl. split; [|apply H]. lia.
    - assert (B : okb (neg_hi w) (dec_lo w) norm gam A (check_formalism PInfty) PInfty j = true)
        by (eapply run_ok with (s := 0%nat); simpl; split; [|apply H]; lia).
      apply andb_prop in B. tauto.
    - assert (B : okb (neg_hi w) (dec_lo w) norm gam A (check_formalism (PNum p)) (PNum p) j = true)
        by (eapply run_ok with (s := 0%nat); simpl; split; [|apply H]; lia).
      apply andb_prop in B. tauto. }
  unfold okc in O. rewrite forallb_forall in O. apply Nat.leb_le. apply O. now apply nth_In.
Qed.
Lemma gcount_ok_l A p w gam norm j r : has_leaders p = true -> (1 <= j <= gcount A p w gam norm)%nat -> (r < length A)%nat ->
  (3 <= count_valid (nth r (Ld A p w gam norm j) []))%nat.
Proof.
  intros Hl H Hr. rewrite Ld_nth by trivial.
  assert (O : okl (neg_hi w) (dec_lo w) norm gam A (check_formalism p) p j = true).
  { unfold gcount in H. destruct p; [discriminate| |].
    - assert (B : okb (neg_hi w) (dec_lo w) norm gam A (check_formalism PInfty) PInfty j = true)
        by (eapply run_ok with (s := 0%nat); simpl; split; [|apply H]; lia).
      apply andb_prop in B. tauto.
    - assert (B : okb (neg_hi w) (dec_lo w) norm gam A (check_formalism (PNum p)) (PNum p) j = true)
        by (eapply run_ok with (s := 0%nat); simpl; split; [|apply H]; lia).
      apply andb_prop in B. tauto. }
  unfold okl in O. rewrite forallb_forall in O. apply Nat.leb_le. apply O. now apply nth_In.
Qed.
Lemma gcount_le_ccount A p w gam norm : (gcount A p w gam norm <= ccount A p w gam norm)%nat.
Proof. unfold ccount. destruct p; lia. Qed.

Lemma Some_inj {X} (a b : X) : Some a = Some b -> a = b.
Proof. congruence. Qed.
Global Arguments gcount : simpl never.
Global Arguments ccount : simpl never.
Global Arguments jeff : simpl never.

(** lengths *)
Lemma neg_good w : good_wavelet w -> (1 <= length (neg_hi w))%nat /\ length (dec_lo w) = length (neg_hi w).
Proof. intros [A B]. now rewrite neg_hi_length. Qed.
Lemma lead_of_length hi lo norm gam f p j c : (1 <= length hi)%nat -> length lo = length hi -> (1 <= j)%nat ->
  length (lead_of hi lo norm gam f p j c) = (length c / 2 ^ j - 2)%nat.
Proof.
  intros Hh Hl H. unfold lead_of, lead.
  assert (P : forall l, length (post f p j l) = length l).
  { intros l. unfold post. destruct f, p; trivial. rewrite fast_power_map. now rewrite !map_length. }
  rewrite P. unfold raw_lead. rewrite map_length, seq_length. f_equal.
  exact (sv_length hi lo norm gam f p Hh Hl c j H).
Qed.

(** ** j2_eff, and counts for the two leader formalisms *)
Lemma jeff_le A p w gam norm j2 : (jeff A p w gam norm j2 <= Z.of_nat (gcount A p w gam norm))%Z.
Proof.
  assert (G := gcount_le A p w gam norm). unfold jeff. set (g := gcount A p w gam norm) in *.
  set (c := level_cut g (Z.to_nat (nlev A w)) (nlev A w)).
  assert (C : (c <= Z.of_nat g)%Z).
  { unfold c, level_cut. destruct (Nat.ltb_spec g (Z.to_nat (nlev A w))); lia. }
  unfold effective_j2. destruct j2 as [j|]; trivial.
  destruct (Rlt_dec j (IZR c)) as [L|L]; trivial.
  apply Z.le_trans with c; trivial. unfold truncR. destruct (Rle_dec 0 j) as [P|P].
  - destruct (base_Int_part j) as [B _]. apply le_IZR. lra.
  - assert (D := base_Int_part (- j)). assert (IZR (- Int_part (- j)) < IZR c + 1) by (rewrite opp_IZR; lra).
    rewrite <- plus_IZR in H. apply lt_IZR in H. lia.
Qed.
Lemma gcount_pexp A e w gam norm : Forall no_inf A -> 0 < num_val e ->
  gcount A (PNum e) w gam norm = gcount A PInfty w gam norm.
Proof.
  intros N He. unfold gcount. apply run_ext. intros j _. unfold okb. f_equal. unfold okl.
  induction N as [|c A Nc N IH]; cbn [forallb]; trivial. rewrite IH. f_equal. f_equal.
  apply count_valid_pat. unfold lead_of. apply lead_pat; simpl; trivial; intros i; unfold cf; now apply coef_no_inf.
Qed.
Lemma ccount_pexp A e w gam norm : Forall no_inf A -> 0 < num_val e ->
  ccount A (PNum e) w gam norm = ccount A PInfty w gam norm.
Proof. intros N He. unfold ccount. now rewrite gcount_pexp. Qed.
Lemma jeff_pexp A e w gam norm j2 : Forall no_inf A -> 0 < num_val e ->
  jeff A (PNum e) w gam norm j2 = jeff A PInfty w gam norm j2.
Proof. intros N He. unfold jeff. now rewrite gcount_pexp. Qed.

(** StructureFunction without 2 among the moments never succeeds *)
Lemma SF_no2 m qs j1 j2 wd s : ~ In 2 qs -> StructureFunction m (QArr qs) j1 j2 wd <> Ok s.
Proof.
  intros N. unfold StructureFunction. destruct (mq_nrep m); [|discriminate]. cbn [bind].
  destruct (reg_weights _ _ _ _ _); [|discriminate]. cbn [bind].
  destruct (mapM _ _) as [fits|]; [|discriminate]. cbn [bind get_q2].
  assert (E : forall qs rows, ~ In 2 qs -> select_q2 qs rows = Err IndexError).
  { clear. induction qs as [|q qs IH]; intros rows N; [reflexivity|]. destruct rows; [reflexivity|]. simpl.
    destruct (Req_EM_T q 2) as [->|]; [exfalso; apply N; now left|]. apply IH. intros H. apply N. now right. }
  rewrite E by trivial. discriminate.
Qed.

(** the coefficients of any transform are a regular, counted quantity *)
Lemma coefs_regular A p w gam norm : (1 <= ccount A p w gam norm)%nat ->
  regular (mrq_of WaveletCoef gam (Cf A w gam norm) (ccount A p w gam norm)) (ccount A p w gam norm) (length A).
Proof. intros H. apply table_regular; trivial. intros. apply Cf_length. Qed.
Lemma coefs_counted A p w gam norm :
  counted (mrq_of WaveletCoef gam (Cf A w gam norm) (ccount A p w gam norm)).
Proof. apply table_counted. reflexivity. Qed.

Lemma eta_of_eq A e w j1 j2 gam norm wd : (1 <= j1 <= jeff A (PNum e) w gam norm j2)%Z ->
  let m := mrq_of WaveletCoef gam (Cf A w gam norm) (ccount A (PNum e) w gam norm) in
  eta_of A (PNum e) w j1 j2 gam norm wd
  = if Req_EM_T (num_val e) 2 then
      Ok (map (fun r => fslope wd m j1 (jeff A (PNum e) w gam norm j2) r (logS m (PyFloat (num_val e)) r)) (seq 0 (length A)))
    else Err IndexError.
Proof.
  intros H m. unfold eta_of, estimate_eta_p. fold m.
  assert (J := jeff_le A (PNum e) w gam norm j2). assert (G := gcount_le_ccount A (PNum e) w gam norm).
  rewrite (SF_eq m (ccount A (PNum e) w gam norm) (length A)) by (try apply coefs_regular; lia).
  unfold has_two. simpl existsb. destruct (Req_EM_T (num_val e) 2); simpl; [|reflexivity]. reflexivity.
Qed.
