(** * C87, continued: a segment without a colour *)
From Coq Require Import Reals List ZArith Bool Lra Lia String Permutation.
From Verif Require Import XReal PyBase ModelUtils ModelMRQ ModelPSD ModelPlot ModelViz Spec LXReal LBase PropsViz.
Import ListNotations.
Open Scope R_scope.
Local Notation length := List.length.

Lemma mapM_missing {S} (s2c : string -> option S) (f : string -> string) l : (exists g, In g l /\ s2c (f g) = None) -> mapM (fun g => get_color s2c (f g)) l = Err KeyError.
Proof.
  induction l as [|a l IH]; intros (g & I & E); [destruct I|]. cbn [mapM]. unfold get_color at 1. destruct (s2c (f a)) as [c|] eqn:C; [|reflexivity].
  cbn [bind]. destruct I as [->|I]; [congruence|]. rewrite IH by (exists g; now split). reflexivity.
Qed.
Lemma mapM_color {S} (s2c : string -> option S) (f : string -> string) l : (exists c, mapM (fun g => get_color s2c (f g)) l = Ok c) \/ mapM (fun g => get_color s2c (f g)) l = Err KeyError.
Proof.
  induction l as [|a l IH]; [left; now exists []|]. cbn [mapM]. unfold get_color at 1 3. destruct (s2c (f a)) as [c|] eqn:C; [|now right].
  cbn [bind]. destruct IH as [[c' ->]| ->]; [left; now eexists|now right].
Qed.

(** the dictionary of colours needs an entry for every segment and for its average: without one of them nothing is drawn, the call raises KeyError *)
Theorem C87_missing_color : forall {S} subs G segs grid v slope (seg2color : string -> option S) x0 sl,
  NoDup subs -> NoDup G -> subs <> [] -> G <> [] -> Permutation segs G ->
  (forall g, In g G -> grid g <> [] /\ forall s, In s subs -> length (v s g) = length (grid g)) ->
  slope (hd ""%string subs) (hd ""%string G) = x0 :: sl ->
  (exists g, In g G /\ (seg2color g = None \/ seg2color (g ++ "_avg")%string = None)) ->
  plot_multiscale (full_frame subs G grid v slope) seg2color segs = Err KeyError.
Proof.
  intros S subs G segs grid v slope s2c x0 sl NS NG ES EG Pm Hg Hs (g & Ig & Hm).
  assert (OK := C87_plot_multiscale subs G segs grid v slope (fun k => Some k) (fun k => k) (fun k => (k ++ "_avg")%string) x0 sl NS NG ES EG Pm Hg (fun _ _ => conj eq_refl eq_refl) Hs).
  assert (Ig' : In g segs) by (eapply Permutation_in; [apply Permutation_sym, Pm|exact Ig]).
  unfold plot_multiscale in *. cbv zeta in *. set (rows := full_frame subs G grid v slope) in *.
  destruct (mapM (band_of rows) segs) as [bands|e]; [|discriminate OK]. cbn [bind] in *.
  destruct (mapM (fun sb => average rows (fst sb) (snd sb)) (combine segs bands)) as [avgs|e]; [|discriminate OK]. cbn [bind] in *.
  destruct (mapM (fun sb => freq_avg rows (fst sb) (snd sb)) (combine segs bands)) as [favg|e]; [|discriminate OK]. cbn [bind] in *. clear OK.
  destruct (mapM_color s2c (fun g => g) segs) as [[c1 E1]|E1]; cbv beta in E1; change (fun g => get_color s2c g) with (get_color s2c) in E1; rewrite E1; [|reflexivity]. cbn [bind].
  destruct Hm as [Hm|Hm]; [assert (X := mapM_missing s2c (fun g => g) segs (ex_intro _ g (conj Ig' Hm))); cbv beta in X; change (fun g => get_color s2c g) with (get_color s2c) in X; congruence|].
  rewrite (mapM_missing s2c (fun g => (g ++ "_avg")%string) segs) by (exists g; now split). reflexivity.
Qed.
Print Assumptions C87_missing_color.
Example C87_color_case : plot_multiscale
    (full_frame ["a"; "b"]%string ["rest"]%string (fun g => [1; 2; 4]) (fun s g => [5; 6; 7]) (fun _ _ => [1; 8]))
    (fun k => if String.eqb k "rest" then Some k else None) ["rest"]%string = Err KeyError.
Proof.
  apply (C87_missing_color ["a"; "b"]%string ["rest"]%string ["rest"]%string _ _ _ _ 1 [8]); try discriminate; try reflexivity.
  - repeat constructor; cbn; intuition discriminate.
  - repeat constructor; cbn; intuition discriminate.
  - intros g _. split; [discriminate|reflexivity].
  - exists "rest"%string. split; [now left|now right].
Qed.
