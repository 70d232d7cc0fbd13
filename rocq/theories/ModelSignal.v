(** * Model of pymultifracs/signal.py: the class [Signal] as a state machine

    Every method is a function from the object state to the new state and an outcome (value or
    exception).  An assignment made before an exception is kept, as in Python.  Figures are not drawn here:
    [plot_psd] and [plot_fractal] stop where they call [log_plot] (modelled in ModelPlot.v), which changes no attribute. *)
From Coq Require Import Reals List ZArith Bool String DecimalString.
From Verif Require Import XReal PyBase ModelUtils ModelMRQ ModelStructure ModelCumulants ModelSpectrum
  ModelEstimation ModelWavelet ModelMFA ModelPSD.
Import ListNotations.
Local Notation length := List.length.
Open Scope R_scope.

(** ** Parameter tuples, signal.py:16-31 *)
Record wavelet_param := mkWP {
  wp_j1 : Z; wp_j2 : option R; wp_norm : R; wp_gamint : R; wp_weighted : bool; wp_name : string; wp_p : pexp }.
Record psd_param := mkPP { pp_moments : nat; pp_j2 : option R }.
Record welch_param_t := mkWelchP { we_nfft : Z; we_seg : option Z }.
Record fractal_param_t := mkFP { fp_moments : nat; fp_band : R * R }.
Record mf_param_t := mkMP { mp_q : qarg; mp_n : nat }.

(** The attribute [wt_param] receives tuples of two classes (:116 and :178) *)
Inductive any_param := PWav (p : wavelet_param) | PPsd (p : psd_param).

(** Python's [==] on these tuples: numbers are compared by value, None only equals None *)
Definition Reqb (a b : R) : bool := if Req_EM_T a b then true else false.
Definition optR_eqb (a b : option R) : bool :=
  match a, b with None, None => true | Some x, Some y => Reqb x y | _, _ => false end.
Definition optZ_eqb (a b : option Z) : bool :=
  match a, b with None, None => true | Some x, Some y => Z.eqb x y | _, _ => false end.
Definition pexp_eqb (a b : pexp) : bool :=
  match a, b with
  | PNone, PNone | PInfty, PInfty => true
  | PNum x, PNum y => Reqb (num_val x) (num_val y)
  | _, _ => false
  end.
Definition wp_eqb (a b : wavelet_param) : bool :=
  Z.eqb (wp_j1 a) (wp_j1 b) && optR_eqb (wp_j2 a) (wp_j2 b) && Reqb (wp_norm a) (wp_norm b)
  && Reqb (wp_gamint a) (wp_gamint b) && Bool.eqb (wp_weighted a) (wp_weighted b)
  && String.eqb (wp_name a) (wp_name b) && pexp_eqb (wp_p a) (wp_p b).
Definition pp_eqb (a b : psd_param) : bool :=
  Nat.eqb (pp_moments a) (pp_moments b) && optR_eqb (pp_j2 a) (pp_j2 b).
Definition we_eqb (a b : welch_param_t) : bool :=
  Z.eqb (we_nfft a) (we_nfft b) && optZ_eqb (we_seg a) (we_seg b).

(** ** signal.py:34-53 [same_params], for MFParameters *)
(** [old == new] on two arrays: element-wise with broadcasting of length 1; other
    lengths compare to the scalar False, which has no method [all] *)
Definition arr_eq (a b : list R) : res (list bool) :=
  if Nat.eqb (length a) (length b) then Ok (map2 Reqb a b)
  else match a, b with
       | [x], _ => Ok (map (Reqb x) b)
       | _, [y] => Ok (map (fun x => Reqb x y) a)
       | _, _ => Err AttributeError
       end.
Definition q_numbers (q : qarg) : list R := match q with QArr l => l | QList l => map num_val l end.
Definition same_q (old new : qarg) : res bool :=
  match old with
  | QArr a => l <- arr_eq a (q_numbers new) ;; Ok (forallb (fun b => b) l)          (* :41-44 *)
  | QList a =>
      match new with
      | QList b => Ok (Nat.eqb (length a) (length b) && forallb (fun b => b) (map2 (fun x y => Reqb (num_val x) (num_val y)) a b))
      | QArr b =>                                            (* :48, then bool of an array :50 *)
          match arr_eq (map num_val a) b with
          | Ok [] => Ok false
          | Ok [t] => Ok t
          | Ok _ => Err ValueError
          | Err _ => Ok false
          end
      end
  end.
Definition same_params (old : option mf_param_t) (new : mf_param_t) : res bool :=
  match old with
  | None => Err AttributeError                               (* None has no _asdict *)
  | Some o =>
      b <- same_q (mp_q o) (mp_q new) ;;
      if b then Ok (Nat.eqb (mp_n o) (mp_n new)) else Ok false
  end.

(** ** The object, signal.py:56-108 *)
Record signal := mkSignal {
  s_data : option col;               (* None for the result of psd_difference *)
  s_fs : R;
  s_log : string;
  s_wt_psd_param : option psd_param;
  s_wt_psd : option psd;
  s_welch_param : option welch_param_t;
  s_welch_psd : option psd;
  s_fractal_param : option fractal_param_t;
  s_fractal : option fractal;
  s_wt_transform : option wtransform;
  s_wt_param : option any_param;
  s_mf_param : option mf_param_t;
  s_multi_fractal : option mfdata }.

(** [Signal(data, fs, log)] *)
Definition fresh (data : col) (fs : R) (log : string) : signal :=
  mkSignal (Some data) fs log None None None None None None None None None None.

(** attribute assignments *)
Definition set_wt_psd s v := mkSignal (s_data s) (s_fs s) (s_log s) (s_wt_psd_param s) v (s_welch_param s) (s_welch_psd s)
  (s_fractal_param s) (s_fractal s) (s_wt_transform s) (s_wt_param s) (s_mf_param s) (s_multi_fractal s).
Definition set_welch_param s v := mkSignal (s_data s) (s_fs s) (s_log s) (s_wt_psd_param s) (s_wt_psd s) v (s_welch_psd s)
  (s_fractal_param s) (s_fractal s) (s_wt_transform s) (s_wt_param s) (s_mf_param s) (s_multi_fractal s).
Definition set_welch_psd s v := mkSignal (s_data s) (s_fs s) (s_log s) (s_wt_psd_param s) (s_wt_psd s) (s_welch_param s) v
  (s_fractal_param s) (s_fractal s) (s_wt_transform s) (s_wt_param s) (s_mf_param s) (s_multi_fractal s).
Definition set_fractal_param s v := mkSignal (s_data s) (s_fs s) (s_log s) (s_wt_psd_param s) (s_wt_psd s) (s_welch_param s) (s_welch_psd s)
  v (s_fractal s) (s_wt_transform s) (s_wt_param s) (s_mf_param s) (s_multi_fractal s).
Definition set_fractal s v := mkSignal (s_data s) (s_fs s) (s_log s) (s_wt_psd_param s) (s_wt_psd s) (s_welch_param s) (s_welch_psd s)
  (s_fractal_param s) v (s_wt_transform s) (s_wt_param s) (s_mf_param s) (s_multi_fractal s).
Definition set_wt_transform s v := mkSignal (s_data s) (s_fs s) (s_log s) (s_wt_psd_param s) (s_wt_psd s) (s_welch_param s) (s_welch_psd s)
  (s_fractal_param s) (s_fractal s) v (s_wt_param s) (s_mf_param s) (s_multi_fractal s).
Definition set_wt_param s v := mkSignal (s_data s) (s_fs s) (s_log s) (s_wt_psd_param s) (s_wt_psd s) (s_welch_param s) (s_welch_psd s)
  (s_fractal_param s) (s_fractal s) (s_wt_transform s) v (s_mf_param s) (s_multi_fractal s).
Definition set_mf_param s v := mkSignal (s_data s) (s_fs s) (s_log s) (s_wt_psd_param s) (s_wt_psd s) (s_welch_param s) (s_welch_psd s)
  (s_fractal_param s) (s_fractal s) (s_wt_transform s) (s_wt_param s) v (s_multi_fractal s).
Definition set_multi_fractal s v := mkSignal (s_data s) (s_fs s) (s_log s) (s_wt_psd_param s) (s_wt_psd s) (s_welch_param s) (s_welch_psd s)
  (s_fractal_param s) (s_fractal s) (s_wt_transform s) (s_wt_param s) (s_mf_param s) v.

Section Library.
(** PyWavelets (filters by name, None for an unknown name) and the numerical part of scipy's welch *)
Variable pywt : string -> option wavelet.
Variable num : col -> welch_args -> Z -> list xr.

(** psd.py:254: f'db{n_moments}' *)
Definition db (n : nat) : option wavelet := pywt ("db" ++ NilEmpty.string_of_uint (Nat.to_uint n))%string.

(** The functions the methods call on the data.  On [None] every one fails; the class of the exception is
    simplified to AttributeError. *)
Definition f_wavelet_psd (d : option col) (fs : R) (p : psd_param) : res psd :=
  match d with None => Err AttributeError | Some x => wavelet_estimation db [x] fs (pp_moments p) (pp_j2 p) end.
Definition f_welch (d : option col) (fs : R) (p : welch_param_t) : res psd :=
  match d with None => Err AttributeError | Some x => welch_estimation num x fs (we_nfft p) (we_seg p) end.
Definition f_wavelet (d : option col) (p : wavelet_param) : res wtransform :=
  match d with
  | None => Err AttributeError
  | Some x =>
      match pywt (wp_name p) with
      | None => Err ValueError
      | Some w =>
          '(t, _) <- wavelet_analysis [x] (wp_p p) w (wp_j1 p) (wp_j2 p) (wp_gamint p) (wp_norm p) (wp_weighted p) ;;
          Ok t
      end
  end.

(** ** The methods *)
(** reading an attribute that was just tested to be set *)
Definition the {A} (o : option A) : res A := match o with Some a => Ok a | None => Err AttributeError end.

(** signal.py:110-122 [estimate_wavelet_psd]: the new parameters go to [wt_param] (:116), not to
    [wt_psd_param].  The return value is the attribute. *)
Definition estimate_wavelet_psd (s : signal) (p : psd_param) : signal * res (option psd) :=
  if match s_wt_psd s with
     | None => true
     | Some _ => match s_wt_psd_param s with None => true | Some o => negb (pp_eqb o p) end
     end
  then
    let s := set_wt_param s (Some (PPsd p)) in                         (* :116 *)
    match f_wavelet_psd (s_data s) (s_fs s) p with                     (* :118-120 *)
    | Err e => (s, Err e)
    | Ok r => let s := set_wt_psd s (Some r) in (s, Ok (s_wt_psd s))
    end
  else (s, Ok (s_wt_psd s)).

(** signal.py:124-136 [estimate_welch_psd] *)
Definition estimate_welch_psd (s : signal) (p : welch_param_t) : signal * res (option psd) :=
  if match s_welch_psd s with
     | None => true
     | Some _ => match s_welch_param s with None => true | Some o => negb (we_eqb o p) end
     end
  then
    let s := set_welch_param s (Some p) in                             (* :130 *)
    match f_welch (s_data s) (s_fs s) p with                           (* :132-134 *)
    | Err e => (s, Err e)
    | Ok r => let s := set_welch_psd s (Some r) in (s, Ok (s_welch_psd s))
    end
  else (s, Ok (s_welch_psd s)).

(** sequencing of methods: the state is kept on exceptions *)
Definition bindS {A B} (m : signal * res A) (k : signal -> A -> signal * res B) : signal * res B :=
  match m with (s, Ok a) => k s a | (s, Err e) => (s, Err e) end.

(** signal.py:163-172 [fractal_analysis] *)
Definition m_fractal_analysis (s : signal) (n_moments : nat) (band : R * R) : signal * res (option fractal) :=
  let s := set_fractal_param s (Some (mkFP n_moments band)) in         (* :165 *)
  bindS (estimate_wavelet_psd s (mkPP n_moments None)) (fun s _ =>     (* :166 *)
  match s_wt_psd s with
  | None => (s, Err AttributeError)
  | Some p =>
      match estimate_beta (psd_freq p) (psd_psd p) band (s_log s) with (* :167-170 *)
      | Err e => (s, Err e)
      | Ok r => let s := set_fractal s (Some r) in (s, Ok (s_fractal s))
      end
  end).

(** signal.py:138-146 [plot_psd] *)
Definition m_plot_psd (s : signal) (w : welch_param_t) (p : psd_param) : signal * res unit :=
  bindS (estimate_wavelet_psd s p) (fun s _ =>
  bindS (estimate_welch_psd s w) (fun s _ => (s, Ok tt))).

(** signal.py:148-161 [plot_fractal] *)
Definition m_plot_fractal (s : signal) (n_moments : nat) (band : R * R) (w : welch_param_t) : signal * res unit :=
  bindS (estimate_wavelet_psd s (mkPP n_moments None)) (fun s _ =>
  bindS (estimate_welch_psd s w) (fun s _ =>
  bindS (m_fractal_analysis s n_moments band) (fun s _ =>
  match s_fractal s with
  | None => (s, Err AttributeError)
  | Some f => (s, format_2f f)                                         (* :159 *)
  end))).

(** signal.py:174-195 [wavelet_analysis] *)
Definition m_wavelet_analysis (s : signal) (p : wavelet_param) : signal * res (option wtransform) :=
  if match s_wt_param s with
     | None => true
     | Some (PWav o) => negb (wp_eqb o p)
     | Some (PPsd _) => true                (* tuples of different lengths *)
     end
  then
    let s := set_wt_param s (Some (PWav p)) in                         (* :178 *)
    match f_wavelet (s_data s) p with                                  (* :179-180 *)
    | Err e => (s, Err e)
    | Ok t => let s := set_wt_transform s (Some t) in (s, Ok (s_wt_transform s))
    end
  else (s, Ok (s_wt_transform s)).

(** the names accepted by the function [mf_analysis] (mfa.py:41-42), and those it is called with
    (signal.py:236-243): the fields of the transform, p_exp, j1, weighted, q, n_cumul *)
Definition mf_params : list string := ["wt_coefs"; "wt_leaders"; "j2_eff"; "j1"; "weighted"; "n_cumul"; "q"]%string.
Definition mf_call_keys : list string :=
  ["wt_coefs"; "wt_leaders"; "j2_eff"; "eta_p"; "p_exp"; "j1"; "weighted"; "q"; "n_cumul"]%string.
Definition known (params keys : list string) : bool :=
  forallb (fun k => existsb (String.eqb k) params) keys.

(** signal.py:225-248 [mf_analysis]; the first match is [_check_wt_transform] (:220-223) *)
Definition m_mf_analysis (s : signal) (q : qarg) (n_cumul : nat) (save : bool) : signal * res mfdata :=
  match s_wt_transform s, s_wt_param s with
  | Some t, Some wp =>
      let new := mkMP q n_cumul in                                       (* :229 *)
      let stale := match s_multi_fractal s with
                   | None => Ok true
                   | Some _ => b <- same_params (s_mf_param s) new ;; Ok (negb b)
                   end in                                                (* :231-232 *)
      match stale with
      | Err e => (s, Err e)
      | Ok true =>
          let s := set_mf_param s (Some new) in                          (* :234 *)
          match wp with
          | PPsd _ => (s, Err AttributeError)                            (* no field p_exp *)
          | PWav o =>
              if known mf_params mf_call_keys then
                match mf_analysis (wt_coefs t) (wt_leaders t) (j2_eff t) (wp_j1 o) (wp_weighted o) n_cumul (Some q) with
                | Err e => (s, Err e)
                | Ok r => (if save then set_multi_fractal s (Some r) else s, Ok r)
                end
              else (s, Err TypeError)                                    (* unexpected keyword *)
          end
      | Ok false => (s, Err UnboundLocalError)                           (* :248 *)
      end
  | _, _ => (s, Err AttributeError)                                      (* :227 *)
  end.

(** signal.py:250-257 [hurst] *)
Definition m_hurst (s : signal) : signal * res (list xr * structure * list arr) :=
  match s_wt_transform s, s_wt_param s with
  | Some t, Some (PWav o) => (s, compute_hurst (wt_coefs t) (wp_j1 o) (j2_eff t) (wp_weighted o))
  | _, _ => (s, Err AttributeError)
  end.

(** signal.py:259-267 [hmin] *)
Definition m_hmin (s : signal) : signal * res hmin_result :=
  match s_wt_transform s, s_wt_param s with
  | Some t, Some (PWav o) => (s, estimate_hmin (wt_coefs t) (wp_j1 o) (j2_eff t) (wp_weighted o) true)
  | _, _ => (s, Err AttributeError)
  end.

(** signal.py:269-279 [mf_analysis_full] *)
Definition m_mf_analysis_full (s : signal) (p : wavelet_param) (q : option qarg) (n_cumul : nat) (save : bool)
  : signal * res mfdata :=
  let q := match q with None => QList [PyInt 2] | Some q => q end in
  bindS (m_wavelet_analysis s p) (fun s _ => m_mf_analysis s q n_cumul save).

(** ** signal.py:197-218 [psd_difference], for two spectra of one realisation *)
(** position of the first entry equal to f *)
Fixpoint index_of (f : R) (l : list R) : option nat :=
  match l with
  | [] => None
  | a :: l' => if Req_EM_T a f then Some 0%nat else option_map S (index_of f l')
  end.
(** np.intersect1d(a, b, assume_unique=True, return_indices=True), for arrays without repetition: the common
    values in increasing order, and their positions *)
Definition intersect (a b : list R) : list (R * nat * nat) :=
  flat_map (fun f => match index_of f a, index_of f b with Some i, Some k => [(f, i, k)] | _, _ => [] end) (sortR a).
Definition psd_rows (p : psd_array) : list (list xr) := match p with PSD1 v => map (fun x => [x]) v | PSD2 _ r => r end.
(** psd.min() over the whole array: NaN as soon as one entry is NaN; ValueError when empty *)
Definition array_min (rows : list (list xr)) : res xr :=
  match List.concat rows with [] => Err ValueError | x :: l => Ok (fold_left xmin l x) end.
Definition psd_difference (s o : signal) (log : option ((xr -> xr) * (xr -> xr))) : res signal :=
  match s_wt_psd s, s_wt_psd o with
  | Some p, Some p' =>
      let c := intersect (psd_freq p) (psd_freq p') in                   (* :201-203 *)
      let a := map (fun t => nth (snd (fst t)) (psd_rows (psd_psd p)) []) c in
      let b := map (fun t => nth (snd t) (psd_rows (psd_psd p')) []) c in
      diff <- match log with
              | None => Ok (map2 (map2 xsub) a b)                        (* :206 *)
              | Some (g, ginv) =>
                  let d := map2 (map2 xsub) (map (map g) a) (map (map g) b) in   (* :208-211 *)
                  m <- array_min d ;;
                  Ok (map (map (fun x => ginv (xadd (xsub x m) (Fin (1/10))))) d)  (* :212-215 *)
              end ;;
      Ok (mkSignal None (s_fs s) (s_log s) (s_wt_psd_param s)
            (Some (mkPSD (map (fun t => fst (fst t)) c) (PSD2 1 diff)))
            None None None None None None None None)                     (* :217-218 *)
  | _, _ => Err AttributeError
  end.

(** ** Histories *)
Inductive op :=
| OWaveletPsd (p : psd_param)
| OWelchPsd (p : welch_param_t)
| OPlotPsd (w : welch_param_t) (p : psd_param)
| OPlotFractal (n : nat) (band : R * R) (w : welch_param_t)
| OFractal (n : nat) (band : R * R)
| OWavelet (p : wavelet_param)
| OMf (q : qarg) (n : nat) (save : bool)
| OMfFull (p : wavelet_param) (q : option qarg) (n : nat) (save : bool)
| OHurst
| OHmin.

(** the state after a call, whether it returned or raised *)
Definition step (s : signal) (o : op) : signal :=
  match o with
  | OWaveletPsd p => fst (estimate_wavelet_psd s p)
  | OWelchPsd p => fst (estimate_welch_psd s p)
  | OPlotPsd w p => fst (m_plot_psd s w p)
  | OPlotFractal n b w => fst (m_plot_fractal s n b w)
  | OFractal n b => fst (m_fractal_analysis s n b)
  | OWavelet p => fst (m_wavelet_analysis s p)
  | OMf q n sv => fst (m_mf_analysis s q n sv)
  | OMfFull p q n sv => fst (m_mf_analysis_full s p q n sv)
  | OHurst => fst (m_hurst s)
  | OHmin => fst (m_hmin s)
  end.
Definition run (s : signal) (h : list op) : signal := fold_left step h s.
End Library.
