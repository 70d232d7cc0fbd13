(** * Model of the remaining drawing functions: mfspectrum.py:146-170, psd.py:25-74 and :99-173 on arrays of any shape,
    signal.py:138-146, viz.py:12-97

    As in ModelPlot.v, matplotlib is assumed to follow its documentation and not to fail; fonts, titles and files are not modelled.
    viz.py:107-133 [start_xvfb] (starting an X server) is not modelled. *)
From Coq Require Import Reals List ZArith Bool String.
From Verif Require Import XReal PyBase ModelUtils ModelMRQ ModelStructure ModelSpectrum ModelWavelet ModelPSD ModelPlot ModelSignal.
Import ListNotations.
Open Scope R_scope.
Local Notation length := List.length.

(** ** mfspectrum.py:146-170 [MultifractalSpectrum.plot]: [ax.plot(self.hq, self.Dq)] draws one curve per realisation (:161) *)
Definition mfs_plot (s : spectrum) : list line :=
  map (fun r => mkLine (map (fun row => nth r row NaN) (ms_hq s)) (map (fun row => nth r row NaN) (ms_Dq s)) None)
      (seq 0 (ms_nrep s)).
(** the limits of the axes (:164-165) *)
Definition mfs_xlim : R * R := (0, 3 / 2).
Definition mfs_ylim : R * R := (0, 105 / 100).

(** ** psd.py *)
(** the columns of a PSD: [ax.plot(x, y)] draws one curve for each *)
Definition psd_columns (p : psd_array) : list (list xr) :=
  match p with
  | PSD1 v => [v]
  | PSD2 n rows => map (fun r => map (fun row => nth r row NaN) rows) (seq 0 n)
  end.
Definition mask_psd (mask : list bool) (freq : list R) (p : psd_array) : res (list R * psd_array) :=
  if Nat.eqb (psd_len p) (length freq) then Ok (select mask freq, select_psd mask p)
  else Err IndexError.                                      (* boolean index of another length *)
(** :81-96 [_log_psd] for 1-D frequencies *)
Definition log_psd_any (freq : list R) (p : psd_array) (log : string) : res (list xr * psd_array) :=
  '(freq, p) <- (if existsb (fun f => if Req_EM_T f 0 then true else false) freq
                 then mask_psd (map (fun f => if Req_EM_T f 0 then false else true) freq) freq p   (* :88-90 *)
                 else Ok (freq, p)) ;;
  match log_function log with
  | None => Err KeyError                                                                           (* :93 *)
  | Some g => Ok (map (fun f => g (Fin f)) freq, map_psd g p)                                      (* :94 *)
  end.
(** :99-173 [log_plot].  [styles] is zip(fmt, color, linewidth), cut to the shortest (:143-144); lowpass None is np.inf; no slope,
    no xticks.  A curve is returned with its style *)
Definition log_plot_any {S} (psds : list (list R * psd_array)) (styles : list S) (log : string) (lowpass : option R)
  : res (list (line * S)) :=
  ls <- mapM (fun fps =>
      let '((freq, p), st) := fps in
      '(freq, p) <- mask_psd (map (fun f => match lowpass with None => true | Some c => if Rlt_dec f c then true else false end) freq)
                             freq p ;;                                                             (* :146-147 *)
      '(x, y) <- log_psd_any freq p log ;;                                                         (* :148 *)
      Ok (map (fun c => (mkLine x c None, st)) (psd_columns y)))                                   (* :150 *)
    (combine psds styles) ;;
  Ok (List.concat ls).

(** :25-74 [plot_psd(signal, fs, n_fft, seg_size, n_moments, log)]; the 1-D signal of the documentation is one column.
    The style is the index of the spectrum (0 Fourier, 1 Wavelet): colours of the default map and the legend follow it *)
Definition plot_psd (num : col -> welch_args -> Z -> list xr) (db : nat -> option wavelet) (signal : col) (fs : R)
  (n_fft : Z) (seg_size : option Z) (n_moments : nat) (log : string) : res (list (line * nat)) :=
  w <- welch_estimation num signal fs n_fft seg_size ;;                                            (* :66-67 *)
  v <- wavelet_estimation db [signal] fs n_moments None ;;                                         (* :68 *)
  log_plot_any [(psd_freq w, psd_psd w); (psd_freq v, psd_psd v)] [0%nat; 1%nat] log None.         (* :72-75 *)

(** ** signal.py:138-146 [Signal.plot_psd]: the state after the two estimations, and the figure *)
Definition signal_plot_psd (pywt : string -> option wavelet) (num : col -> welch_args -> Z -> list xr) (s : signal)
  (w : welch_param_t) (p : psd_param) : signal * res (list (line * nat)) :=
  bindS (estimate_wavelet_psd pywt s p) (fun s _ =>                                                (* :140 *)
  bindS (estimate_welch_psd num s w) (fun s _ =>                                                   (* :141 *)
  match s_welch_psd s, s_wt_psd s with
  | Some a, Some b =>
      (s, log_plot_any [(psd_freq a, psd_psd a); (psd_freq b, psd_psd b)] [0%nat; 1%nat] (s_log s) None)  (* :143-146 *)
  | _, _ => (s, Err AttributeError)
  end)).

(** ** viz.py:12-97 [plot_multiscale(results, seg2color)]
    [results] is a pandas frame with a sorted index (subject, segment) without duplicates; the columns hold 1-D arrays.  [segs] is the
    order in which Python enumerates the set of segments (:16), which is not specified. *)
Record msrow := mkRow { mr_subj : string; mr_seg : string; mr_freq : list R; mr_scale : list xr; mr_slope : list R }.
(** [.unique()]: in order of appearance *)
Fixpoint uniq (seen l : list string) : list string :=
  match l with
  | [] => []
  | a :: l' => if existsb (String.eqb a) seen then uniq seen l' else a :: uniq (a :: seen) l'
  end.
Definition subjects (rows : list msrow) : list string := uniq [] (map mr_subj rows).               (* :17 *)
(** [results.loc[pd.IndexSlice[:, seg]]] *)
Definition rows_of (rows : list msrow) (seg : string) : list msrow := filter (fun r => String.eqb (mr_seg r) seg) rows.
(** the common band of a segment (:20-28) *)
Definition band_of (rows : list msrow) (seg : string) : res (R * R) :=
  hi <- mapM (fun r => list_max (mr_freq r)) (rows_of rows seg) ;;
  hi <- list_min hi ;;
  lo <- mapM (fun r => list_min (mr_freq r)) (rows_of rows seg) ;;
  lo <- list_max lo ;;
  Ok (lo, hi).
Definition in_band_mask (b : R * R) (freq : list R) : list bool :=
  map (fun f => if Rle_dec f (snd b) then if Rle_dec (fst b) f then true else false else false) freq.
Definition trim (b : R * R) (r : msrow) : res (list xr) :=                                         (* :31-32 *)
  if Nat.eqb (length (mr_scale r)) (length (mr_freq r)) then Ok (select (in_band_mask b (mr_freq r)) (mr_scale r))
  else Err IndexError.
(** [np.vstack] of 1-D arrays (:39-42) then [.mean(axis=0)] (:44-47) *)
Definition stack_mean (l : list (list xr)) : res (list xr) :=
  match l with
  | [] => Err ValueError
  | a :: _ =>
      if forallb (fun b => Nat.eqb (length b) (length a)) l
      then Ok (map (fun i => xdiv (xsum (map (fun b => nth i b NaN) l)) (Fin (INR (length l)))) (seq 0 (length a)))
      else Err ValueError
  end.
Definition average (rows : list msrow) (seg : string) (b : R * R) : res (list xr) :=
  t <- mapM (trim b) (rows_of rows seg) ;;
  if Nat.eqb (length t) (length (subjects rows)) then stack_mean t                                 (* index=subjects, :35 *)
  else Err ValueError.
Definition freq_avg (rows : list msrow) (seg : string) (b : R * R) : res (list R) :=               (* :49-53 *)
  match subjects rows with
  | [] => Err IndexError
  | s :: _ =>
      match filter (fun r => String.eqb (mr_subj r) s) (rows_of rows seg) with
      | r :: _ => Ok (select (in_band_mask b (mr_freq r)) (mr_freq r))
      | [] => Err KeyError
      end
  end.
Definition get_color {S} (seg2color : string -> option S) (k : string) : res S :=
  match seg2color k with Some c => Ok c | None => Err KeyError end.
Definition plot_multiscale {S} (rows : list msrow) (seg2color : string -> option S) (segs : list string)
  : res (list (line * (S * nat)) * (R * R)) :=
  let n := length (subjects rows) in                                                               (* :18 *)
  bands <- mapM (band_of rows) segs ;;
  avgs <- mapM (fun sb => average rows (fst sb) (snd sb)) (combine segs bands) ;;
  favg <- mapM (fun sb => freq_avg rows (fst sb) (snd sb)) (combine segs bands) ;;
  let mscales := flat_map (fun g => map mr_scale (rows_of rows g)) segs ++ avgs in                 (* :65-67 *)
  let freqs := flat_map (fun g => map mr_freq (rows_of rows g)) segs ++ favg in                    (* :68-70 *)
  c1 <- mapM (get_color seg2color) segs ;;
  c2 <- mapM (fun g => get_color seg2color (g ++ "_avg")%string) segs ;;
  let color := flat_map (fun c => repeat c n) c1 ++ c2 in                                          (* :72-73 *)
  let lw := repeat 1%nat (length segs * n) ++ repeat 2%nat (length segs) in                        (* :74 *)
  fig <- log_plot_any (combine freqs (map PSD1 mscales)) (combine color lw) "log2" (Some 50) ;;    (* :76 *)
  match rows with
  | [] => Err IndexError
  | r :: _ =>                                                                                      (* :90-91 *)
      match mr_slope r with
      | [] => Err IndexError
      | x :: _ => Ok (fig, (x, last (mr_slope r) x))
      end
  end.
