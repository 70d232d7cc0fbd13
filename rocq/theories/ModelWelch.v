(** * Model of scipy.signal.welch as called by pymultifracs/psd.py:213-222

    [scipy] is outside the repository.  This file gives a meaning to the numerical part that ModelPSD.v leaves as an argument [num],
    for the constant arguments of the only call in the repository: window='hamming', detrend=False, return_onesided=True,
    scaling='density', average='mean'.  Numbers are real: no rounding. *)
From Coq Require Import Reals List ZArith Bool.
From Verif Require Import XReal PyBase ModelUtils ModelMRQ ModelWavelet ModelPSD ModelSimul.
Import ListNotations.
Local Notation length := List.length.
Open Scope R_scope.

(** psd.py:214, window='hamming': scipy.signal.get_window gives the periodic window, the ones vector for length 1 *)
Definition hamming (M n : nat) : R :=
  if Nat.leb M 1 then 1 else 54 / 100 - 46 / 100 * cos (2 * PI * INR n / INR M).

(** psd.py:215-216: segment number i of the signal, of [seg] samples, each sharing [ov] samples with the next one *)
Definition welch_segment (seg ov : nat) (x : col) (i : nat) : col := firstn seg (skipn (i * (seg - ov)) x).
Definition welch_segments (seg ov len : nat) : nat := (len - ov) / (seg - ov).

(** psd.py:217: the windowed segment followed by zeros up to [nf] samples *)
Definition windowed (seg nf : nat) (s : list R) : list C :=
  map (fun n => toC (if Nat.ltb n seg then hamming seg n * nth n s 0 else 0)) (seq 0 nf).

(** psd.py:219, return_onesided=True: every frequency but 0 and, for an even number of points, the last one is counted twice *)
Definition onesided (nf k : nat) : R :=
  if Nat.eqb k 0 then 1 else if Nat.even nf && Nat.eqb k (nf / 2) then 1 else 2.

(** psd.py:220 scaling='density', :222 fs=2*pi *)
Definition density (fs : R) (seg : nat) : R :=
  1 / (fs * fold_right Rplus 0 (map (fun n => hamming seg n * hamming seg n) (seq 0 seg))).

(** power of one segment at every frequency *)
Definition periodogram (fs : R) (seg nf : nat) (s : list R) : list R :=
  map (fun k => let X := dft_at (-1) (windowed seg nf s) k in
                (fst X * fst X + snd X * snd X) * density fs seg * onesided nf k) (seq 0 (nf / 2 + 1)).

(** psd.py:221, average='mean': the mean over the segments.  Simplification: a segment holding a NaN or an infinity gives NaN at every
    frequency (numpy gives infinity at frequency 0 when the infinities of the segment have one sign) *)
Definition welch_num (x : col) (a : welch_args) (seg : Z) : list xr :=
  let M := Z.to_nat seg in
  let ov := Z.to_nat (truncR (noverlap a)) in
  let nf := Z.to_nat (nfft a) in
  let count := welch_segments M ov (length x) in
  let per := map (fun i => match all_finite (welch_segment M ov x i) with
                           | Some s => map Fin (periodogram (welch_fs a) M nf s)
                           | None => repeat NaN (nf / 2 + 1)
                           end) (seq 0 count) in
  map (fun k => xdiv (xsum (map (fun p => nth k p NaN) per)) (Fin (INR count))) (seq 0 (Z.to_nat (nfft a / 2 + 1))).

(** psd.py:176-227 with this numerical part *)
Definition welch (x : col) (fs : R) (n_fft : Z) (seg_size : option Z) : res psd := welch_estimation welch_num x fs n_fft seg_size.
