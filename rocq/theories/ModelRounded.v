(** * Model of pymultifracs/wavelet.py in rounded arithmetic

    ModelWavelet.v computes with exact real numbers.  Here the same code is run on a machine that rounds: every addition, product,
    fused multiply-add and power may be inexact, and the inner products of scipy.signal.convolve(method='direct') may be accumulated
    in any order, which may differ from one output sample to the next.  Formalisms 'wavelet coef' and 'wavelet leader'.
    Simplification: no overflow; the filters of pywt are the floating-point numbers themselves. *)
From Coq Require Import Reals List ZArith Bool.
From Verif Require Import XReal PyBase ModelUtils ModelMRQ ModelStructure ModelWavelet.
Import ListNotations.
Open Scope R_scope.

Record machine := mkMachine {
  m_add : R -> R -> R;
  m_mul : R -> R -> R;
  m_fma : R -> R -> R -> R;
  (** the inner product computed for the high (true) or low (false) filter, scale, column and output position *)
  m_dot : bool -> Z -> nat -> nat -> list (R * R) -> R;
  (** the computed 2**(scale*(0.5-1/normalization)) and 2.0**(gamint*scale) *)
  m_norm : R -> Z -> R;
  m_int : R -> Z -> R }.

(** the operands of an inner product, when all are numbers *)
Fixpoint operands (l : list (R * xr)) : option (list (R * R)) :=
  match l with
  | [] => Some []
  | (h, Fin a) :: l' => match operands l' with Some o => Some ((h, a) :: o) | None => None end
  | _ => None
  end.
Definition dot_x (dot : list (R * R) -> R) (l : list (R * xr)) : xr :=
  match operands l with Some o => Fin (dot o) | None => NaN end.

(** scipy.signal.convolve(a, h, mode='same', method='direct') (wavelet.py:131-132) *)
Definition conv_same_f (dot : nat -> list (R * R) -> R) (a : col) (h : list R) : col :=
  map (fun i => dot_x (dot i)
         (map (fun k => (nth k h 0, get_pad (Fin 0) a (Z.of_nat i + (Z.of_nat (length h) - 1) / 2 - Z.of_nat k)))
              (seq 0 (length h))))
      (seq 0 (length a)).

(** wavelet.py:123-158 [filtering] *)
Definition filtering_f (dot : bool -> nat -> list (R * R) -> R) (approx : col) (hi lo : list R) : col * col :=
  let n := length approx in
  let high := nan_border n (length hi) (conv_same_f (dot true) approx hi) in
  let low := nan_border n (length hi) (conv_same_f (dot false) approx lo) in
  (subsample n high, subsample n low).
Definition filtering_arr_f (dot : bool -> nat -> nat -> list (R * R) -> R) (approx : arr) (hi lo : list R) : arr * arr :=
  let run r c := filtering_f (fun b => dot b r) c hi lo in
  (map2 (fun r c => fst (run r c)) (seq 0 (length approx)) approx,
   map2 (fun r c => snd (run r c)) (seq 0 (length approx)) approx).

(** wavelet.py:241,244 and :368,:371: two products with computed powers of 2 *)
Definition mul_f (M : machine) (v : xr) (c : R) : xr := match v with Fin a => Fin (m_mul M a c) | _ => NaN end.
Definition rescale_f (M : machine) (norm gam : R) (scale : Z) (d : col) : col :=
  map (fun v => mul_f M v (m_int M gam scale)) (map (fun v => mul_f M v (m_norm M norm scale)) d).

(** wavelet.py:236-259 *)
Fixpoint coef_loop_f (M : machine) (hi lo : list R) (norm gam : R) (n : nat) (scale max_level : Z) (approx : arr) (m : mrq) : res (mrq * Z) :=
  match n with
  | O => Ok (m, max_level)
  | S n' =>
      let da := filtering_arr_f (fun b => m_dot M b scale) approx hi lo in
      if Req_EM_T norm 0 then Err ZeroDivisionError
      else
        let detail := map (rescale_f M norm gam scale) (fst da) in
        c <- min_count detail ;;
        if Nat.ltb c 3 then Ok (m, (scale - 1)%Z)
        else coef_loop_f M hi lo norm gam n' (scale + 1) max_level (snd da) (add_values m detail scale)
  end.

(** wavelet.py:363-400; np.abs and the maxima of _compute_leaders are exact in floating point, so [compute_leaders_arr] is unchanged *)
Fixpoint leader_loop_f (M : machine) (hi lo : list R) (norm gam : R) (n : nat) (scale max_level : Z) (approx : arr) (sv : option arr) (mc ml : mrq)
  : res (mrq * mrq * Z) :=
  match n with
  | O => Ok (mc, ml, max_level)
  | S n' =>
      let da := filtering_arr_f (fun b => m_dot M b scale) approx hi lo in
      if Req_EM_T norm 0 then Err ZeroDivisionError
      else
        let detail := map (rescale_f M norm gam scale) (fst da) in
        c <- min_count detail ;;
        if Nat.ltb c 3 then Ok (mc, ml, (scale - 1)%Z)
        else
          '(leaders, sv') <- compute_leaders_arr detail sv scale WaveletLeader PInfty ;;
          let mc' := add_values mc detail scale in
          c' <- min_count leaders ;;
          if Nat.ltb c' 3 then Ok (mc', ml, (scale - 1)%Z)
          else leader_loop_f M hi lo norm gam n' (scale + 1) max_level (snd da) (Some sv') mc' (add_values ml leaders scale)
  end.

(** wavelet.py:270-414 [wavelet_analysis] with p_exp = None ([leaders] = false) or np.inf (true) *)
Definition wavelet_analysis_f (M : machine) (signal : arr) (leaders : bool) (w : wavelet) (j2 : option R) (gamint norm : R)
  : res (wtransform * list warning) :=
  let hi := map (fun t => -1 * t) (dec_hi w) in                      (* :345, exact *)
  let lo := dec_lo w in
  let len := match signal with c :: _ => length c | [] => O end in
  '(max_level, warns) <- decomposition_level_warn len (length hi) j2 ;;
  if leaders then
    '(mc, ml, max_level) <-
       leader_loop_f M hi lo norm gamint (Z.to_nat max_level) 1 max_level signal None (new_mrq WaveletCoef gamint) (new_mrq WaveletLeader gamint) ;;
    Ok (mkWT mc (Some ml) (effective_j2 max_level j2) None, warns)
  else
    '(m, ml) <- coef_loop_f M hi lo norm gamint (Z.to_nat max_level) 1 max_level signal (new_mrq WaveletCoef gamint) ;;
    Ok (mkWT m None (effective_j2 ml j2) None, warns).
