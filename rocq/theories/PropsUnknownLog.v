(** * C52: an unknown logarithm is an error *)
From Coq Require Import Reals List Bool Lra Lia String.
From Verif Require Import XReal PyBase ModelWavelet ModelPSD Spec LXReal PropsPSD.
Import ListNotations.
Open Scope R_scope.
Lemma select_incl {A} (m : list bool) (l : list A) x : In x (select m l) -> In x l.
Proof. revert l. induction m as [|b m IH]; intros [|a l]; cbn [select]; try contradiction; [now destruct b|]. destruct b; [intros [->|H]; [now left|right; auto]|intros H; right; auto]. Qed.
(** the names known are log2 and log: with any other, a spectrum without null frequency raises KeyError, whatever its values and the band *)
Theorem C52_unknown_log freq p band name : name <> "log2"%string -> name <> "log"%string -> psd_len p = List.length freq -> (forall f, In f freq -> f <> 0) ->
  estimate_beta freq p band name = Err KeyError.
Proof.
  intros N1 N2 Hl Hf. unfold estimate_beta. rewrite Hl, Nat.eqb_refl. cbn [negb].
  assert (X : existsb (fun f => if Req_EM_T f 0 then true else false) (select (map (in_band (fst band) (snd band)) freq) freq) = false).
  { apply not_true_is_false. intros Q. apply existsb_exists in Q. destruct Q as (f & F1 & F2). apply select_incl in F1. apply Hf in F1. destruct (Req_EM_T f 0); [contradiction|discriminate]. }
  unfold log_psd. rewrite X. unfold log_function. apply String.eqb_neq in N1, N2. now rewrite N1, N2.
Qed.
Theorem C52_unknown_log_case : estimate_beta [1; 2; 4] (PSD1 [Fin 8; Fin 4; Fin 2]) (1, 4) "log10" = Err KeyError.
Proof. apply C52_unknown_log; try discriminate; [reflexivity|]. intros f Hf. cbn in Hf. destruct Hf as [<-|[<-|[<-|[]]]]; lra. Qed.
