(** * A Gaussian expectation: limit of averages over random walks *)
From Coq Require Import Reals List ZArith Bool Lra Lia.
From Coquelicot Require Import Rcomplements Rbar Hierarchy Lim_seq Continuity Derive AutoDerive ElemFct.
From Verif Require Import XReal PyBase Spec SpecSimul LXReal LDft LSimul LWick.
Import ListNotations.
Open Scope R_scope.
Local Notation length := List.length.

(** ** cosh(c / sqrt n)^n tends to exp(c^2 / 2) *)
Lemma mono0 (f df : R -> R) : (forall y, 0 <= y -> is_derive f y (df y)) -> (forall y, 0 <= y -> 0 <= df y) -> forall y, 0 <= y -> f 0 <= f y.
Proof.
  intros D Pd y Hy. destruct (MVT_gen f 0 y df) as (c & [C1 C2] & V).
  - intros x [X1 _]. apply D. rewrite Rmin_left in X1 by lra. lra.
  - intros x [X1 _]. rewrite Rmin_left in X1 by lra. apply derivable_continuous_pt. exists (df x). apply is_derive_Reals. now apply D.
  - rewrite Rmin_left in C1 by lra. assert (Q := Pd c C1). nra.
Qed.
Lemma cosh_ge1 y : 1 <= cosh y.
Proof. unfold cosh. assert (0 < exp y) by apply exp_pos. assert (exp y * exp (- y) = 1) by (rewrite <- exp_plus, Rplus_opp_r; apply exp_0). assert (0 < exp (- y)) by apply exp_pos. assert (0 <= (exp y - exp (- y)) ^ 2) by apply pow2_ge_0. nra. Qed.
Lemma der_cosh y : is_derive cosh y (sinh y).
Proof. apply is_derive_Reals, derivable_pt_lim_cosh. Qed.
Lemma der_sinh y : is_derive sinh y (cosh y).
Proof. apply is_derive_Reals, derivable_pt_lim_sinh. Qed.
Lemma sinh_ge y : 0 <= y -> y <= sinh y.
Proof.
  intros Hy. assert (K := mono0 (fun y => sinh y - y) (fun y => cosh y - 1)). cbv beta in K.
  assert (0 <= sinh y - y); [|lra]. replace 0 with (sinh 0 - 0) by (rewrite sinh_0; ring). apply K; trivial.
  - intros x _. apply (is_derive_minus sinh (fun y => y)); [apply der_sinh|apply @is_derive_id].
  - intros x _. assert (Q := cosh_ge1 x). lra.
Qed.
Lemma cosh_lower0 y : 0 <= y -> 1 + y ^ 2 / 2 <= cosh y.
Proof.
  intros Hy. assert (K := mono0 (fun y => cosh y - y ^ 2 / 2) (fun y => sinh y - y)). cbv beta in K.
  assert (1 <= cosh y - y ^ 2 / 2); [|lra]. replace 1 with (cosh 0 - 0 ^ 2 / 2) by (rewrite cosh_0; field). apply K; trivial.
  - intros x _. apply (is_derive_minus cosh (fun y => y ^ 2 / 2)); [apply der_cosh|]. auto_derive; [trivial|]. field.
  - intros x Hx. assert (Q := sinh_ge x Hx). lra.
Qed.
Lemma sinh_le y : 0 <= y -> sinh y <= y * cosh y.
Proof.
  intros Hy. assert (K := mono0 (fun y => y * cosh y - sinh y) (fun y => (1 * cosh y + y * sinh y) - cosh y)). cbv beta in K.
  assert (0 <= y * cosh y - sinh y); [|lra]. replace 0 with (0 * cosh 0 - sinh 0) by (rewrite sinh_0; ring). apply K; trivial.
  - intros x _. apply (is_derive_minus (fun y => y * cosh y) sinh); [|apply der_sinh].
    apply (is_derive_mult (fun y => y) cosh x 1 (sinh x)); [apply @is_derive_id|apply der_cosh|intros; apply Rmult_comm].
  - intros x Hx. assert (Q := sinh_ge x Hx). nra.
Qed.
Lemma cosh_upper0 y : 0 <= y -> cosh y <= exp (y ^ 2 / 2).
Proof.
  intros Hy. assert (K := mono0 (fun y => - (exp (- (y ^ 2 / 2)) * cosh y)) (fun y => - ((- y * exp (- (y ^ 2 / 2))) * cosh y + exp (- (y ^ 2 / 2)) * sinh y))). cbv beta in K.
  assert (Q : - (exp (- (0 ^ 2 / 2)) * cosh 0) <= - (exp (- (y ^ 2 / 2)) * cosh y)).
  { apply K; trivial.
    - intros x _. apply (is_derive_opp (fun y => exp (- (y ^ 2 / 2)) * cosh y)).
      apply (is_derive_mult (fun y => exp (- (y ^ 2 / 2))) cosh x (- x * exp (- (x ^ 2 / 2))) (sinh x)); [|apply der_cosh|intros; apply Rmult_comm].
      auto_derive; [trivial|]. replace (- (x * (x * 1) * / 2)) with (- (x ^ 2 / 2)) by field. field.
    - intros x Hx. assert (L := sinh_le x Hx). assert (0 < exp (- (x ^ 2 / 2))) by apply exp_pos. nra. }
  rewrite cosh_0 in Q. replace (- (0 ^ 2 / 2)) with 0 in Q by field. rewrite exp_0 in Q.
  assert (R1 : exp (- (y ^ 2 / 2)) * exp (y ^ 2 / 2) = 1) by (rewrite <- exp_plus, Rplus_opp_l; apply exp_0). assert (0 < exp (y ^ 2 / 2)) by apply exp_pos. assert (0 < exp (- (y ^ 2 / 2))) by apply exp_pos. nra.
Qed.
Lemma cosh_sym y : cosh (- y) = cosh y.
Proof. unfold cosh. rewrite Ropp_involutive. now rewrite Rplus_comm. Qed.
Lemma cosh_bounds y : 1 + y ^ 2 / 2 <= cosh y <= exp (y ^ 2 / 2).
Proof.
  destruct (Rle_lt_dec 0 y) as [Hy|Hy]; [split; [now apply cosh_lower0|now apply cosh_upper0]|].
  rewrite <- cosh_sym. replace (y ^ 2) with ((- y) ^ 2) by ring. split; [apply cosh_lower0|apply cosh_upper0]; lra.
Qed.
Lemma one_plus_exp x : 0 <= x -> exp (x / (1 + x)) <= 1 + x.
Proof.
  intros Hx. assert (Q := exp_ineq1_le (- (x / (1 + x)))). assert (R1 : exp (x / (1 + x)) * exp (- (x / (1 + x))) = 1) by (rewrite <- exp_plus, Rplus_opp_r; apply exp_0).
  assert (0 < exp (x / (1 + x))) by apply exp_pos. replace (1 + - (x / (1 + x))) with (/ (1 + x)) in Q by (field; lra).
  apply Rmult_le_reg_r with (/ (1 + x)); [apply Rinv_0_lt_compat; lra|]. rewrite Rinv_r by lra. nra.
Qed.
Lemma pow_exp x n : exp x ^ n = exp (INR n * x).
Proof. induction n as [|n IH]; [cbn [pow INR]; now rewrite Rmult_0_l, exp_0|]. cbn [pow]. rewrite IH, <- exp_plus, S_INR. f_equal. ring. Qed.
Lemma step_sq n : (/ sqrt (INR (S n))) ^ 2 = / INR (S n).
Proof. assert (0 < INR (S n)) by (apply lt_0_INR; lia). replace ((/ sqrt (INR (S n))) ^ 2) with (/ (sqrt (INR (S n)) * sqrt (INR (S n)))) by (field; intros Z; apply sqrt_eq_0 in Z; lra). now rewrite sqrt_sqrt by lra. Qed.
Lemma lim_inv : is_lim_seq (fun n => / INR (S n)) 0.
Proof. apply (is_lim_seq_incr_1 (fun n => / INR n)). apply (is_lim_seq_inv INR p_infty); [apply is_lim_seq_INR|discriminate]. Qed.
Lemma cosh_limit c : is_lim_seq (fun n => cosh (/ sqrt (INR (S n)) * c) ^ S n) (exp (c ^ 2 / 2)).
Proof.
  apply is_lim_seq_le_le with (u := fun n => exp (c ^ 2 / 2 * / (1 + c ^ 2 / 2 * / INR (S n)))) (w := fun n => exp (c ^ 2 / 2)); [|
    |apply is_lim_seq_const].
  - intros n. assert (n0 : 0 < INR (S n)) by (apply lt_0_INR; lia). assert (c2 := pow2_ge_0 c). assert (i0 : 0 < / INR (S n)) by (now apply Rinv_0_lt_compat).
    destruct (cosh_bounds (/ sqrt (INR (S n)) * c)) as [B1 B2]. assert (Ey : (/ sqrt (INR (S n)) * c) ^ 2 = / INR (S n) * c ^ 2) by (rewrite Rpow_mult_distr, step_sq; reflexivity). rewrite Ey in B1, B2.
    set (x := / INR (S n) * c ^ 2 / 2) in *. assert (x0 : 0 <= x) by (unfold x; nra). assert (B0 := one_plus_exp x x0). assert (n1 : INR (S n) * x = c ^ 2 / 2) by (unfold x; field; lra).
    split.
    + replace (c ^ 2 / 2 * / (1 + c ^ 2 / 2 * / INR (S n))) with (INR (S n) * (x / (1 + x))).
      * rewrite <- pow_exp. apply pow_incr. split; [left; apply exp_pos|lra].
      * replace (c ^ 2 / 2 * / INR (S n)) with x by (unfold x; field; lra). rewrite <- n1. unfold Rdiv. ring.
    + rewrite <- n1, <- pow_exp. apply pow_incr. split; [assert (Q := cosh_ge1 (/ sqrt (INR (S n)) * c)); lra|exact B2].
  - apply (is_lim_seq_continuous exp). { apply derivable_continuous_pt, derivable_pt_exp. }
    replace (Finite (c ^ 2 / 2)) with (Finite (c ^ 2 / 2 * / (1 + c ^ 2 / 2 * 0))) by (f_equal; field).
    apply is_lim_seq_mult'; [apply is_lim_seq_const|]. assert (Q : is_lim_seq (fun n => 1 + c ^ 2 / 2 * / INR (S n)) (1 + c ^ 2 / 2 * 0)).
    { apply is_lim_seq_plus'; [apply is_lim_seq_const|]. apply is_lim_seq_mult'; [apply is_lim_seq_const|apply lim_inv]. }
    apply (is_lim_seq_inv _ (Finite (1 + c ^ 2 / 2 * 0)) Q). intros Z. injection Z as Z. lra.
Qed.

(** ** Averages over random walks *)
Section Walks.
Context {J : Type} (Jdec : forall i j : J, {i = j} + {i <> j}) (cs : list J).
Definition bump (x : J -> R) (j : J) (d : R) : J -> R := fun i => if Jdec i j then x i + d else x i.
(** the average of F over the end points of the walks that start from x and move the coordinates of l in turn, by h up or down *)
Fixpoint av (h : R) (l : list J) (F : (J -> R) -> R) (x : J -> R) : R :=
  match l with [] => F x | j :: l' => (av h l' F (bump x j h) + av h l' F (bump x j (- h))) / 2 end.
(** n + 1 rounds of steps of size 1 / sqrt (n + 1) *)
Definition steps (n : nat) : list J := concat (repeat cs (S n)).
Definition walk_av (n : nat) (F : (J -> R) -> R) : R := av (/ sqrt (INR (S n))) (steps n) F (fun _ => 0).
Lemma av_ext h l F G : (forall x, F x = G x) -> forall x, av h l F x = av h l G x.
Proof. intros H. induction l as [|j l IH]; intros x; cbn [av]; [apply H|]. now rewrite !IH. Qed.
Lemma av_one h l x : av h l (fun _ => 1) x = 1.
Proof. revert x. induction l as [|j l IH]; intros x; cbn [av]; [reflexivity|]. rewrite !IH. field. Qed.
Lemma av_plus h l F G x : av h l (fun y => F y + G y) x = av h l F x + av h l G x.
Proof. revert x. induction l as [|j l IH]; intros x; cbn [av]; [reflexivity|]. rewrite !IH. field. Qed.
Lemma av_scal h l c F x : av h l (fun y => c * F y) x = c * av h l F x.
Proof. revert x. induction l as [|j l IH]; intros x; cbn [av]; [reflexivity|]. rewrite !IH. field. Qed.
Lemma av_pos h l F x : (forall y, 0 <= F y) -> 0 <= av h l F x.
Proof. intros H. revert x. induction l as [|j l IH]; intros x; cbn [av]; [apply H|]. assert (A := IH (bump x j h)). assert (B := IH (bump x j (- h))). lra. Qed.

(** the limit *)
Definition gint (F : (J -> R) -> R) : Prop := exists l : R, is_lim_seq (fun n => walk_av n F) l.
Definition gE (F : (J -> R) -> R) : R := real (Lim_seq (fun n => walk_av n F)).
Lemma gE_lim F (l : R) : is_lim_seq (fun n => walk_av n F) l -> gint F /\ gE F = l.
Proof. intros H. split; [now exists l|]. unfold gE. now rewrite (is_lim_seq_unique _ _ H). Qed.
Lemma g_ext F G : (forall w, F w = G w) -> gint F -> gint G.
Proof. intros H [l Hl]. exists l. revert Hl. apply is_lim_seq_ext. intros n. now apply av_ext. Qed.
Lemma gE_ext F G : (forall w, F w = G w) -> gE F = gE G.
Proof. intros H. unfold gE. f_equal. apply Lim_seq_ext. intros n. now apply av_ext. Qed.
Lemma g_one : is_lim_seq (fun n => walk_av n (fun _ => 1)) 1.
Proof. apply is_lim_seq_ext with (fun _ => 1); [intros n; symmetry; apply av_one|apply is_lim_seq_const]. Qed.
Lemma g_plus F G (l m : R) : is_lim_seq (fun n => walk_av n F) l -> is_lim_seq (fun n => walk_av n G) m -> is_lim_seq (fun n => walk_av n (fun w => F w + G w)) (l + m).
Proof. intros A B. apply is_lim_seq_ext with (fun n => walk_av n F + walk_av n G); [intros n; symmetry; apply av_plus|now apply is_lim_seq_plus']. Qed.
Lemma g_scal c F (l : R) : is_lim_seq (fun n => walk_av n F) l -> is_lim_seq (fun n => walk_av n (fun w => c * F w)) (c * l).
Proof. intros A. apply is_lim_seq_ext with (fun n => c * walk_av n F); [intros n; symmetry; apply av_scal|]. apply is_lim_seq_mult'; [apply is_lim_seq_const|exact A]. Qed.
Definition gauss : expectation (J -> R).
Proof.
  refine (mkE (J -> R) gint gE g_ext gE_ext _ _ _ _ _ _).
  - exists 1. apply g_one.
  - apply gE_lim, g_one.
  - intros F G [l Hl] [m Hm]. exists (l + m). now apply g_plus.
  - intros F G [l Hl] [m Hm]. rewrite (proj2 (gE_lim _ _ (g_plus F G l m Hl Hm))), (proj2 (gE_lim _ _ Hl)), (proj2 (gE_lim _ _ Hm)). reflexivity.
  - intros c F [l Hl]. exists (c * l). now apply g_scal.
  - intros c F [l Hl]. rewrite (proj2 (gE_lim _ _ (g_scal c F l Hl))), (proj2 (gE_lim _ _ Hl)). reflexivity.
Defined.
Lemma gauss_positive : positive gauss.
Proof.
  intros F [l Hl] H. change (0 <= gE F). rewrite (proj2 (gE_lim _ _ Hl)). apply (is_lim_seq_le (fun _ => 0) (fun n => walk_av n F) 0 l); [|apply is_lim_seq_const|exact Hl].
  intros n. now apply av_pos.
Qed.

(** ** Linear forms *)
Definition lin (l : list (R * J)) (x : J -> R) : R := Rsum (map (fun p => fst p * x (snd p)) l).
Definition coef (l : list (R * J)) (j : J) : R := Rsum (map (fun p => if Jdec (snd p) j then fst p else 0) l).
Lemma lin_bump l x j d : lin l (bump x j d) = lin l x + d * coef l j.
Proof.
  unfold lin, coef. induction l as [|p l IH]; [cbn; ring|]. cbn [map]. unfold Rsum in *. cbn [fold_right]. rewrite IH. unfold bump. destruct (Jdec (snd p) j); ring.
Qed.
Lemma lin_zero l : lin l (fun _ => 0) = 0.
Proof. unfold lin. induction l as [|p l IH]; [reflexivity|]. cbn [map]. unfold Rsum in *. cbn [fold_right]. rewrite IH. ring. Qed.
Definition S2 (h : R) (f : list (R * J)) (l : list J) : R := Rsum (map (fun j => (h * coef f j) ^ 2) l).
Definition S4 (h : R) (f : list (R * J)) (l : list J) : R := Rsum (map (fun j => (h * coef f j) ^ 4) l).
Definition PC (h : R) (g : list (R * J)) (l : list J) : R := fold_right Rmult 1 (map (fun j => cosh (h * coef g j)) l).
Definition mom (k : nat) (u s2 s4 : R) : R :=
  match k with 0%nat => 1 | 1%nat => u | 2%nat => u ^ 2 + s2 | 3%nat => u ^ 3 + 3 * u * s2 | _ => u ^ 4 + 6 * u ^ 2 * s2 + 3 * s2 ^ 2 - 2 * s4 end.
Lemma mom_step k u s2 s4 d : (mom k (u + d) s2 s4 + mom k (u - d) s2 s4) / 2 = mom k u (d ^ 2 + s2) (d ^ 4 + s4).
Proof. destruct k as [|[|[|[|k]]]]; cbn [mom]; field. Qed.
Lemma av_joint h f g k : (k <= 4)%nat -> forall l, (forall j, In j l -> coef f j = 0 \/ coef g j = 0) -> forall x,
  av h l (fun y => lin f y ^ k * exp (lin g y)) x = mom k (lin f x) (S2 h f l) (S4 h f l) * (exp (lin g x) * PC h g l).
Proof.
  intros Hk. induction l as [|j l IH]; intros Hl x.
  - cbn [av]. unfold S2, S4, PC. cbn. destruct k as [|[|[|[|[|k]]]]]; try lia; cbn [mom]; ring.
  - cbn [av]. rewrite !IH by (intros i Hi; apply Hl; now right). rewrite !lin_bump.
    change (S2 h f (j :: l)) with ((h * coef f j) ^ 2 + S2 h f l). change (S4 h f (j :: l)) with ((h * coef f j) ^ 4 + S4 h f l). change (PC h g (j :: l)) with (cosh (h * coef g j) * PC h g l).
    destruct (Hl j (or_introl eq_refl)) as [Z|Z]; rewrite Z.
    + replace (lin f x + h * 0) with (lin f x) by ring. replace (lin f x + - h * 0) with (lin f x) by ring. replace ((h * 0) ^ 2 + S2 h f l) with (S2 h f l) by ring. replace ((h * 0) ^ 4 + S4 h f l) with (S4 h f l) by ring.
      unfold cosh. replace (lin g x + - h * coef g j) with (lin g x + - (h * coef g j)) by ring. rewrite !exp_plus. field.
    + replace (lin g x + h * 0) with (lin g x) by ring. replace (lin g x + - h * 0) with (lin g x) by ring. rewrite Rmult_0_r, cosh_0, Rmult_1_l.
      rewrite <- mom_step. replace (lin f x + - h * coef f j) with (lin f x - h * coef f j) by ring. field.
Qed.
(** sums over the rounds *)
Lemma concat_sum (q : J -> R) n : Rsum (map q (concat (repeat cs n))) = INR n * Rsum (map q cs).
Proof.
  induction n as [|n IH]; [cbn [repeat concat map INR]; unfold Rsum; cbn [fold_right]; ring|]. cbn [repeat concat]. rewrite map_app, Rsum_app, S_INR, IH. ring.
Qed.
Lemma prod_app (l m : list R) : fold_right Rmult 1 (l ++ m) = fold_right Rmult 1 l * fold_right Rmult 1 m.
Proof. induction l as [|a l IH]; cbn [app fold_right]; [ring|]. rewrite IH. ring. Qed.
Lemma prod_mult {T} (q r : T -> R) l : fold_right Rmult 1 (map q l) * fold_right Rmult 1 (map r l) = fold_right Rmult 1 (map (fun j => q j * r j) l).
Proof. induction l as [|a l IH]; cbn [map fold_right]; [ring|]. rewrite <- IH. ring. Qed.
Lemma prod_one {T} (q : T -> R) l : (forall t, q t = 1) -> fold_right Rmult 1 (map q l) = 1.
Proof. intros H. induction l as [|a l IH]; cbn [map fold_right]; [ring|]. rewrite IH, H. ring. Qed.
Lemma concat_prod (q : J -> R) n : fold_right Rmult 1 (map q (concat (repeat cs n))) = fold_right Rmult 1 (map (fun j => q j ^ n) cs).
Proof.
  induction n as [|n IH].
  - cbn [repeat concat]. rewrite (prod_one (fun j => q j ^ 0)) by reflexivity. reflexivity.
  - cbn [repeat concat]. rewrite map_app, prod_app, IH. apply prod_mult.
Qed.
Definition norm2 (f : list (R * J)) : R := Rsum (map (fun j => coef f j ^ 2) cs).
Lemma S2_steps f n : S2 (/ sqrt (INR (S n))) f (steps n) = norm2 f.
Proof.
  unfold S2, steps. rewrite concat_sum. rewrite (map_ext _ (fun j => / INR (S n) * coef f j ^ 2)) by (intros j; now rewrite Rpow_mult_distr, step_sq).
  rewrite Rsum_map_scal. unfold norm2. rewrite <- Rmult_assoc, Rinv_r, Rmult_1_l; [reflexivity|]. apply not_0_INR. lia.
Qed.
Lemma S4_steps f n : S4 (/ sqrt (INR (S n))) f (steps n) = Rsum (map (fun j => coef f j ^ 4) cs) * / INR (S n).
Proof.
  unfold S4, steps. rewrite concat_sum. assert (n0 : INR (S n) <> 0) by (apply not_0_INR; lia).
  rewrite (map_ext _ (fun j => (/ INR (S n) * / INR (S n)) * coef f j ^ 4)) by (intros j; rewrite <- step_sq; ring).
  rewrite Rsum_map_scal. field. exact n0.
Qed.
Lemma PC_limit g : is_lim_seq (fun n => PC (/ sqrt (INR (S n))) g (steps n)) (exp (norm2 g / 2)).
Proof.
  apply is_lim_seq_ext with (fun n => fold_right Rmult 1 (map (fun j => cosh (/ sqrt (INR (S n)) * coef g j) ^ S n) cs)).
  { intros n. unfold PC, steps. symmetry. apply (concat_prod (fun j => cosh (/ sqrt (INR (S n)) * coef g j))). }
  unfold norm2. induction cs as [|a l IHl].
  - cbn [map fold_right]. unfold Rsum. cbn [fold_right]. replace (0 / 2) with 0 by field. rewrite exp_0. apply is_lim_seq_const.
  - cbn [map fold_right]. change (Rsum (?a :: ?l)) with (a + Rsum l). replace ((coef g a ^ 2 + Rsum (map (fun j => coef g j ^ 2) l)) / 2) with (coef g a ^ 2 / 2 + Rsum (map (fun j => coef g j ^ 2) l) / 2) by field.
    rewrite exp_plus. apply is_lim_seq_mult'; [apply cosh_limit|exact IHl].
Qed.
Lemma joint_limit f g k : (k <= 4)%nat -> (forall j, coef f j = 0 \/ coef g j = 0) ->
  is_lim_seq (fun n => walk_av n (fun y => lin f y ^ k * exp (lin g y))) (mom k 0 (norm2 f) 0 * exp (norm2 g / 2)).
Proof.
  intros Hk Hd. apply is_lim_seq_ext with (fun n => mom k 0 (norm2 f) (Rsum (map (fun j => coef f j ^ 4) cs) * / INR (S n)) * PC (/ sqrt (INR (S n))) g (steps n)).
  { intros n. unfold walk_av. rewrite av_joint by (trivial; intros; apply Hd). rewrite !lin_zero, exp_0, Rmult_1_l, S2_steps, S4_steps. reflexivity. }
  apply is_lim_seq_mult'; [|apply PC_limit]. destruct k as [|[|[|[|[|k]]]]]; try lia; cbn [mom]; try apply is_lim_seq_const.
  apply is_lim_seq_minus'; [apply is_lim_seq_const|]. apply is_lim_seq_mult'; [apply is_lim_seq_const|].
  replace (Finite 0) with (Finite (Rsum (map (fun j => coef f j ^ 4) cs) * 0)) by (f_equal; ring). apply is_lim_seq_mult'; [apply is_lim_seq_const|apply lim_inv].
Qed.
Lemma joint_E f g k : (k <= 4)%nat -> (forall j, coef f j = 0 \/ coef g j = 0) ->
  integrable gauss (fun y => lin f y ^ k * exp (lin g y)) /\ E gauss (fun y => lin f y ^ k * exp (lin g y)) = mom k 0 (norm2 f) 0 * exp (norm2 g / 2).
Proof. intros Hk Hd. apply gE_lim. now apply joint_limit. Qed.
Lemma pow_E f k : (k <= 4)%nat -> integrable gauss (fun y => lin f y ^ k) /\ E gauss (fun y => lin f y ^ k) = mom k 0 (norm2 f) 0.
Proof.
  intros Hk. destruct (joint_E f [] k Hk (fun j => or_intror eq_refl)) as [I V].
  assert (N0 : norm2 [] = 0) by (unfold norm2, coef; cbn; clear; induction cs as [|a l IH]; [reflexivity|]; cbn [map]; unfold Rsum in *; cbn [fold_right]; rewrite IH; ring).
  assert (G : forall y, lin f y ^ k * exp (lin [] y) = lin f y ^ k) by (intros; unfold lin at 2; cbn; rewrite exp_0; ring).
  split; [exact (int_ext _ _ _ _ G I)|]. rewrite <- (E_ext _ _ _ _ G), V, N0. replace (0 / 2) with 0 by field. rewrite exp_0. ring.
Qed.
Lemma exp_lin_E g : integrable gauss (fun y => exp (lin g y)) /\ E gauss (fun y => exp (lin g y)) = exp (norm2 g / 2).
Proof.
  destruct (joint_E [] g 0 ltac:(lia) (fun j => or_introl eq_refl)) as [I V].
  assert (G : forall y, lin [] y ^ 0 * exp (lin g y) = exp (lin g y)) by (intros; cbn; ring).
  split; [exact (int_ext _ _ _ _ G I)|]. rewrite <- (E_ext _ _ _ _ G), V. cbn [mom]. ring.
Qed.
End Walks.
