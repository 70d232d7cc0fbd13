(** * Model of pymultifracs/psd.py and pymultifracs/fractal_analysis.py

    The figures drawn by [log_plot], [plot_psd] and [plot_fractal] are modelled in ModelPlot.v.
    [scipy.signal.welch] and [sklearn.linear_model.LinearRegression] are outside
    the repository: the first is its argument checks plus an uninterpreted
    numerical part, the second is ordinary least squares with the minimum-norm
    slope, preceded by sklearn's finiteness and shape checks. *)
From Coq Require Import Reals List ZArith Bool String.
From Verif Require Import XReal PyBase ModelUtils ModelMRQ ModelWavelet.
Import ListNotations.
Local Notation length := List.length.
Open Scope R_scope.

(** The array in [PSD.psd]: one value per frequency, or one row of [nrep] values
    per frequency *)
Inductive psd_array :=
| PSD1 (v : list xr)
| PSD2 (nrep : nat) (rows : list (list xr)).
(** psd.py:13: the namedtuple [PSD] *)
Record psd := mkPSD { psd_freq : list R; psd_psd : psd_array }.

Definition psd_len (p : psd_array) : nat :=
  match p with PSD1 v => length v | PSD2 _ r => length r end.

(** ** psd.py:230-270 [wavelet_estimation] *)

(** psd.py:261-262: np.nanmean(np.square(arr), axis=0), for arr given by columns *)
Definition mean_square (a : arr) : list xr := map (fun c => nanmean (map (fun x => xmul x x) c)) a.

(** psd.py:267-268: scale = arange(len(psd)) + 1; freq = (3/4 * fs) / 2 ** scale *)
Definition wavelet_freq (fs : R) (n : nat) : list R :=
  map (fun i => (3 / 4 * fs) / 2 ^ (i + 1)) (seq 0 n).

(** psd.py:230-270.  [db n] is the Daubechies wavelet 'db{n}' of PyWavelets, [None]
    for the names PyWavelets does not know (ValueError).  [np.array] of an empty list is
    one-dimensional. *)
Definition wavelet_estimation (db : nat -> option wavelet) (signal : arr) (fs : R) (n_moments : nat)
  (j2 : option R) : res psd :=
  match db n_moments with
  | None => Err ValueError
  | Some w =>
      '(t, _) <- wavelet_analysis signal PNone w 1 j2 (1/2) 1 false ;;    (* :252-257 *)
      let rows := map mean_square (dict_vals (mq_values (wt_coefs t))) in   (* :261-263 *)
      let p := match rows with [] => PSD1 [] | _ => PSD2 (length signal) rows end in
      Ok (mkPSD (wavelet_freq fs (length rows)) p)
  end.

(** ** psd.py:176-227 [welch_estimation] *)

(** The integer and real arguments given to [scipy.signal.welch] (:213-222); window,
    detrend, scaling and average are constants of the call *)
Record welch_args := mkWelch { nperseg : Z; noverlap : R; nfft : Z; welch_fs : R }.

(** The argument checks of scipy.signal.welch (scipy/signal/_spectral_py.py,
    _spectral_helper): nperseg must be positive, it is cut to the length of the signal,
    nfft must not be below it, int(noverlap) must be below it.  The numerical part [num]
    is not interpreted.  An empty signal gives an empty result. *)
Definition scipy_welch (num : col -> welch_args -> Z -> list xr) (x : col) (a : welch_args) : res (list xr) :=
  match x with
  | [] => Ok []
  | _ =>
      if (nperseg a <? 1)%Z then Err ValueError
      else
        let seg := Z.min (nperseg a) (Z.of_nat (length x)) in
        if (nfft a <? seg)%Z then Err ValueError
        else if (seg <=? truncR (noverlap a))%Z then Err ValueError
        else Ok (num x a seg)
  end.

(** psd.py:203-207 *)
Definition welch_seg (n_fft : Z) (seg_size : option Z) : Z :=
  match seg_size with None => n_fft | Some s => s end.
Definition welch_nfft (n_fft : Z) (seg_size : option Z) : Z :=
  let s := welch_seg n_fft seg_size in if (n_fft <? s)%Z then s else n_fft.

(** psd.py:176-227; [np.linspace] with a negative number of points is a ValueError *)
Definition welch_estimation (num : col -> welch_args -> Z -> list xr) (signal : col) (fs : R)
  (n_fft : Z) (seg_size : option Z) : res psd :=
  let s := welch_seg n_fft seg_size in
  let n := welch_nfft n_fft seg_size in
  let pts := (n / 2 + 1)%Z in
  if (pts <? 0)%Z then Err ValueError
  else
    let freq := map (fun t => fs * t) (linspace 0 (1/2) (Z.to_nat pts)) in    (* :210 *)
    p <- scipy_welch num signal (mkWelch s (IZR s / 2) n (2 * PI)) ;;          (* :213-222 *)
    Ok (mkPSD freq (PSD1 (map (fun x => xmul x (Fin 4)) p))).                  (* :224-227 *)

(** ** psd.py:81-96 [_log_psd], on the reshaped (k, 1) frequencies of estimate_beta *)

(** psd.py:77-78 [log_function] *)
Definition log_function (name : string) : option (xr -> xr) :=
  if String.eqb name "log2" then Some xlog2
  else if String.eqb name "log" then Some xln
  else None.

Definition map_psd (f : xr -> xr) (p : psd_array) : psd_array :=
  match p with PSD1 v => PSD1 (map f v) | PSD2 n r => PSD2 n (map (map f) r) end.

(** The logged frequencies, either still of shape (k, 1) or flattened *)
Inductive logged := Lk1 (f : list xr) | L1d (f : list xr).

(** psd.py:88-90.  The mask has shape (k, 1): it flattens freq, it cannot index a 1-D psd,
    and it can index a 2-D psd only with one column.  :93-94 *)
Definition log_psd (freq : list R) (p : psd_array) (log : string) : res (logged * psd_array) :=
  let fin_log f := match log_function log with None => Err KeyError | Some g => f g end in
  if existsb (fun f => if Req_EM_T f 0 then true else false) freq then
    match p with
    | PSD1 _ => Err IndexError
    | PSD2 nrep rows =>
        if Nat.eqb nrep 1 then
          let keep := filter (fun fr => if Req_EM_T (fst fr) 0 then false else true) (combine freq rows) in
          fin_log (fun g => Ok (L1d (map (fun fr => g (Fin (fst fr))) keep),
                                PSD1 (map (fun fr => g (nth 0 (snd fr) NaN)) keep)))
        else Err IndexError
    end
  else fin_log (fun g => Ok (Lk1 (map (fun f => g (Fin f)) freq), map_psd g p)).

(** ** Least squares *)

(** sklearn's LinearRegression on one feature: minimum-norm slope and intercept *)
Definition ols (x y : list R) : R * R :=
  let n := INR (length x) in
  let mx := fold_right Rplus 0 x / n in
  let my := fold_right Rplus 0 y / n in
  let sxx := fold_right Rplus 0 (map (fun a => (a - mx) * (a - mx)) x) in
  let sxy := fold_right Rplus 0 (map2 (fun a b => (a - mx) * (b - my)) x y) in
  let slope := if Req_EM_T sxx 0 then 0 else sxy / sxx in
  (slope, my - slope * mx).

(** finite entries only, otherwise sklearn raises ValueError *)
Fixpoint all_finite (l : list xr) : option (list R) :=
  match l with
  | [] => Some []
  | Fin r :: l' => match all_finite l' with Some t => Some (r :: t) | None => None end
  | _ => None
  end.

(** [LinearRegression().fit(X, y)]: (slope, intercept) of every column of y *)
Definition regressor_fit (X : logged) (y : psd_array) : res (list (R * R)) :=
  match X with
  | L1d _ => Err ValueError                      (* Expected 2D array *)
  | Lk1 f =>
      match f with
      | [] => Err ValueError                     (* 0 samples *)
      | _ =>
          match all_finite f with
          | None => Err ValueError
          | Some x =>
              let fit c := match all_finite c with None => Err ValueError | Some v => Ok (ols x v) end in
              match y with
              | PSD1 v => t <- fit v ;; Ok [t]
              | PSD2 nrep rows =>
                  if Nat.eqb nrep 0 then Err ValueError
                  else mapM (fun r => fit (map (fun row => nth r row NaN) rows)) (seq 0 nrep)
              end
          end
      end
  end.

(** fractal_analysis.py:100-102: the namedtuple [FractalValues].  [fr_scalar]: coef_[0] is a
    number (1-D psd) and not an array of length 1 (2-D psd) *)
Record fractal := mkFractal { fr_beta : R; fr_log_C : list R; fr_freq : list xr; fr_scalar : bool }.

Definition in_band (lo hi f : R) : bool :=
  if Rle_dec lo f then if Rle_dec f hi then true else false else false.

(** [a[mask]] *)
Fixpoint select {A} (mask : list bool) (l : list A) : list A :=
  match mask, l with
  | true :: m, a :: l' => a :: select m l'
  | false :: m, _ :: l' => select m l'
  | _, _ => []
  end.
Definition select_psd (mask : list bool) (p : psd_array) : psd_array :=
  match p with PSD1 v => PSD1 (select mask v) | PSD2 n r => PSD2 n (select mask r) end.

(** fractal_analysis.py:105-149 [estimate_beta]; [beta] is [coef_[0]], the slope of the
    first column of psd *)
Definition estimate_beta (freq : list R) (p : psd_array) (band : R * R) (log : string) : res fractal :=
  let support := map (in_band (fst band) (snd band)) freq in          (* :129 *)
  let f := select support freq in                                     (* :130 *)
  if negb (Nat.eqb (psd_len p) (length freq)) then Err IndexError       (* :131 *)
  else
    '(lf, lp) <- log_psd f (select_psd support p) log ;;                (* :139 *)
    fits <- regressor_fit lf lp ;;                                      (* :143-145 *)
    match fits with
    | [] => Err IndexError
    | t :: _ => Ok (mkFractal (fst t) (map snd fits) (match lf with Lk1 l => l | L1d l => l end)
                           (match lp with PSD1 _ => true | PSD2 _ _ => false end))
    end.

(** fractal_analysis.py:68-97 [fractal_analysis] *)
Definition fractal_analysis (db : nat -> option wavelet) (signal : arr) (fs : R) (n_moments : nat)
  (band : R * R) (log : string) : res fractal :=
  p <- wavelet_estimation db signal fs n_moments None ;;
  estimate_beta (psd_freq p) (psd_psd p) band log.

(** fractal_analysis.py:13-65 [plot_fractal], up to the drawing of the figure (:64-65, see ModelPlot.v): the
    legend is f'{slope.beta:.2f}' (:62), which numpy refuses (TypeError) for an array.  The 1-D [signal]
    of the documentation is one column. *)
Definition format_2f (f : fractal) : res unit := if fr_scalar f then Ok tt else Err TypeError.
Definition plot_fractal (num : col -> welch_args -> Z -> list xr) (db : nat -> option wavelet) (signal : col) (fs : R)
  (log : string) (band : R * R) (n_moments : nat) (n_fft : Z) (seg_size : option Z) : res unit :=
  _ <- welch_estimation num signal fs n_fft seg_size ;;             (* :49-50 *)
  p <- wavelet_estimation db [signal] fs n_moments None ;;           (* :51 *)
  f <- estimate_beta (psd_freq p) (psd_psd p) band log ;;            (* :54 *)
  format_2f f.
