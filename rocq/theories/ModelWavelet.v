(** * Model of pymultifracs/wavelet.py *)
From Coq Require Import Reals List ZArith Bool.
From Verif Require Import XReal PyBase ModelUtils ModelMRQ ModelStructure.
Import ListNotations.
Open Scope R_scope.

(** The two decomposition filters of [pywt.Wavelet(wt_name)] (external data) *)
Record wavelet := mkWavelet { dec_hi : list R; dec_lo : list R }.

(** The argument [p_exp]: None, np.inf, or a finite number.  Simplification:
    -inf and NaN are not considered. *)
Inductive pexp : Set := PNone | PInfty | PNum (p : pynum).

(** wavelet.py:18-27 [_check_formalism] *)
Definition check_formalism (p : pexp) : formalism :=
  match p with
  | PNone => WaveletCoef
  | PInfty => WaveletLeader
  | PNum _ => WaveletPLeader
  end.

(** [int(np.floor(np.log2(a)))] for a >= 0; int(-inf) is an OverflowError *)
Definition floor_log2 (a : R) : res Z :=
  if Rle_dec a 0 then Err OverflowError else Ok (floorR (log2R a)).

(** wavelet.py:77-101 [decomposition_level(length, wt_name)] and the identical
    computation of wavelet.py:109-111 in [_decomposition_level] *)
Definition decomposition_level (length filter_len : nat) : res Z :=
  a <- floor_log2 (INR length / (INR filter_len + 1)) ;;       (* :98, :110 *)
  b <- floor_log2 (INR length) ;;                              (* :99, :111 *)
  Ok (Z.min b a).

(** Warnings issued by the module *)
Inductive warning : Set := WarnJ2 | WarnEta.

(** wavelet.py:104-120 [_decomposition_level(signal, filter_len, j2)]: also
    warns when j2 exceeds the level *)
Definition decomposition_level_warn (length filter_len : nat) (j2 : option R)
  : res (Z * list warning) :=
  m <- decomposition_level length filter_len ;;
  Ok (m, match j2 with
         | Some j => if Rlt_dec (IZR m) j then [WarnJ2] else []  (* :114-116 *)
         | None => []
         end).

(** Element i of an array, [pad] outside its range *)
Definition get_pad (pad : xr) (a : col) (i : Z) : xr :=
  if (i <? 0)%Z then pad else nth (Z.to_nat i) a pad.

(** [scipy.signal.convolve(a, h, mode='same', method='direct')]: the sums of
    the full convolution, cut to the length of [a] and centred, i.e. starting
    at index (len(h)-1)//2 of the full output.  scipy uses pad = 0. *)
Definition conv_same (pad : xr) (a : col) (h : list R) : col :=
  map (fun i =>
         xsum (map (fun k =>
                      xmul (Fin (nth k h 0))
                           (get_pad pad a (Z.of_nat i + (Z.of_nat (length h) - 1) / 2
                                           - Z.of_nat k)))
                   (seq 0 (length h))))
      (seq 0 (length a)).

(** wavelet.py:138-147: [out[0:fp] = nan; out[lp+1:] = nan] with
    fp = len(high_filter)-1, lp = len(approx)-len(high_filter); a negative slice
    start counts from the end *)
Definition nan_border (n flen : nat) (out : col) : col :=
  let fp := (flen - 1)%nat in
  let start := norm_index (Z.of_nat n - Z.of_nat flen + 1) n in
  map2 (fun i v => if Nat.ltb i fp || Nat.leb start i then NaN else v)
       (seq 0 (length out)) out.

(** wavelet.py:152-156: [out[np.arange(1, nj_temp, 2)]] *)
Definition subsample (n : nat) (out : col) : col :=
  map (fun k => nth (2 * k + 1) out NaN) (seq 0 (n / 2)).

(** wavelet.py:123-158 [filtering(approx, high_filter, low_filter)], one column *)
Definition filtering_pad (pad : xr) (approx : col) (hi lo : list R) : col * col :=
  let n := length approx in
  let high := nan_border n (length hi) (conv_same pad approx hi) in
  let low := nan_border n (length hi) (conv_same pad approx lo) in
  (subsample n high, subsample n low).

Definition filtering (approx : col) (hi lo : list R) : col * col :=
  filtering_pad (Fin 0) approx hi lo.

(** all columns *)
Definition filtering_arr (approx : arr) (hi lo : list R) : arr * arr :=
  (map (fun c => fst (filtering c hi lo)) approx,
   map (fun c => snd (filtering c hi lo)) approx).

(** wavelet.py:241,244 and :368,:371 :
    detail*2**(scale*(0.5-1/normalization)) * 2.0**(gamint*scale) *)
Definition rescale (norm gam : R) (scale : Z) (d : col) : col :=
  map (fun v => xmul v (Fin (Rpower 2 (gam * IZR scale))))
      (map (fun v => xmul v (Fin (Rpower 2 (IZR scale * (1/2 - 1 / norm))))) d).

(** [np.sum(~np.isnan(a), axis=0).min()]; min of an empty array: ValueError *)
Fixpoint min_list (l : list nat) : res nat :=
  match l with
  | [] => Err ValueError
  | [a] => Ok a
  | a :: l' => b <- min_list l' ;; Ok (Nat.min a b)
  end.
Definition min_count (a : arr) : res nat := min_list (map count_valid a).

(** wavelet.py:236-259: the loop of [_wavelet_coef_analysis]; [n] iterations
    remain.  Returns the coefficients and the updated max_level. *)
Fixpoint coef_loop (hi lo : list R) (norm gam : R) (n : nat) (scale max_level : Z)
  (approx : arr) (m : mrq) : res (mrq * Z) :=
  match n with
  | O => Ok (m, max_level)
  | S n' =>
      let da := filtering_arr approx hi lo in                        (* :238 *)
      if Req_EM_T norm 0 then Err ZeroDivisionError                  (* :241 *)
      else
        let detail := map (rescale norm gam scale) (fst da) in       (* :241-244 *)
        c <- min_count detail ;;
        if Nat.ltb c 3 then Ok (m, (scale - 1)%Z)                    (* :252-254 *)
        else coef_loop hi lo norm gam n' (scale + 1) max_level (snd da)
                       (add_values m detail scale)                   (* :259 *)
  end.

(** WaveletTransform (wavelet.py:211-214) *)
Record wtransform := mkWT {
  wt_coefs : mrq;
  wt_leaders : option mrq;
  j2_eff : Z;
  eta_p : option (list xr)
}.

(** wavelet.py:262 and :403: int(min(max_level, j2) if j2 is not None else max_level) *)
Definition effective_j2 (max_level : Z) (j2 : option R) : Z :=
  match j2 with
  | Some j => if Rlt_dec j (IZR max_level) then truncR j else max_level
  | None => max_level
  end.

(** wavelet.py:230-267 [_wavelet_coef_analysis] *)
Definition wavelet_coef_analysis (approx : arr) (max_level : Z) (hi lo : list R)
  (norm gam : R) (j2 : option R) : res wtransform :=
  '(m, ml) <- coef_loop hi lo norm gam (Z.to_nat max_level) 1 max_level approx
                        (new_mrq WaveletCoef gam) ;;
  Ok (mkWT m None (effective_j2 ml j2) None).

(** ** Leaders *)

(** [np.stack] of equally long arrays followed by a reduction over the new axis.
    Different lengths are a ValueError. *)
Definition stack3 (f : col -> xr) (a b c : col) : res col :=
  if Nat.eqb (length a) (length b) && Nat.eqb (length b) (length c)
  then Ok (map (fun k => f [nth k a NaN; nth k b NaN; nth k c NaN])
               (seq 0 (length a)))
  else Err ValueError.

(** [l[i:2*m:2]] for i in {0,1} and 2*m <= len(l) *)
Definition every2 (i m : nat) (l : col) : col :=
  map (fun k => nth (2 * k + i) l NaN) (seq 0 m).

(** reduction used by the formalism: wavelet.py:176-179 and :202-206 *)
Definition reduce3 (f : formalism) (l : col) : xr :=
  match f with WaveletPLeader => fixednansum l | _ => fixednanmax l end.

(** wavelet.py:161-181 [_find_sans_voisin], one column; [sv] is None only at
    scale 1 *)
Definition find_sans_voisin (scale : Z) (detail : col) (sv : option col)
  (f : formalism) : res col :=
  if (scale =? 1)%Z then Ok detail                              (* :163-164 *)
  else match sv with
       | None => Err TypeError       (* len(None) *)
       | Some s =>
           let max_index := (length s / 2)%nat in               (* :168 *)
           let d := firstn max_index detail in                  (* :169 *)
           stack3 (reduce3 f) d (every2 0 max_index s) (every2 1 max_index s)
       end.

(** wavelet.py:184-208 [_compute_leaders], one column *)
Definition compute_leaders (detail : col) (sv : option col) (scale : Z)
  (f : formalism) (p : pexp) : res (col * col) :=
  let d := map xabs detail in                                   (* :189 *)
  d <- match f, p with
       | WaveletPLeader, PNum e =>                              (* :191-192 *)
           Ok (map (fun v => xmul (Fin (Rpower 2 (IZR scale))) v) (fast_power d e))
       | _, _ => Ok d
       end ;;
  s <- find_sans_voisin scale d sv f ;;                         (* :194 *)
  let n := Z.of_nat (length s) in
  l <- stack3 (reduce3 f) (py_slice 0 (n - 2) s) (py_slice 1 (n - 1) s)
              (py_slice 2 n s) ;;                               (* :196-206 *)
  match f, p with
  | WaveletPLeader, PNum e =>                                   (* :203-204 *)
      if Req_EM_T (num_val e) 0 then Err ZeroDivisionError
      else Ok (fast_power (map (fun v => xmul (Fin (Rpower 2 (- IZR scale))) v) l)
                          (PyFloat (1 / num_val e)), s)
  | _, _ => Ok (l, s)
  end.

(** all columns; the carried sans_voisin is None before scale 1 *)
Definition compute_leaders_arr (detail : arr) (sv : option arr) (scale : Z)
  (f : formalism) (p : pexp) : res (arr * arr) :=
  r <- mapM (fun ds => compute_leaders (fst ds) (snd ds) scale f p)
            (combine detail (match sv with
                             | None => map (fun _ => None) detail
                             | Some s => map Some s
                             end)) ;;
  Ok (map fst r, map snd r).

(** wavelet.py:363-400: the loop of [wavelet_analysis] for the leader formalisms *)
Fixpoint leader_loop (hi lo : list R) (norm gam : R) (f : formalism) (p : pexp)
  (n : nat) (scale max_level : Z) (approx : arr) (sv : option arr) (mc ml : mrq)
  : res (mrq * mrq * Z) :=
  match n with
  | O => Ok (mc, ml, max_level)
  | S n' =>
      let da := filtering_arr approx hi lo in                            (* :365 *)
      if Req_EM_T norm 0 then Err ZeroDivisionError
      else
        let detail := map (rescale norm gam scale) (fst da) in           (* :368-371 *)
        c <- min_count detail ;;
        if Nat.ltb c 3 then Ok (mc, ml, (scale - 1)%Z)                   (* :376-378 *)
        else
          '(leaders, sv') <- compute_leaders_arr detail sv scale f p ;;  (* :384 *)
          let mc' := add_values mc detail scale in                       (* :389 *)
          c' <- min_count leaders ;;
          if Nat.ltb c' 3 then Ok (mc', ml, (scale - 1)%Z)               (* :396-398 *)
          else leader_loop hi lo norm gam f p n' (scale + 1) max_level (snd da)
                           (Some sv') mc' (add_values ml leaders scale)  (* :400 *)
  end.

(** wavelet.py:30-40 [_estimate_eta_p]: zeta for q = [p_exp] *)
Definition estimate_eta_p (m : mrq) (p : R) (j1 j2 : Z) (weighted : bool)
  : res (list xr) :=
  s <- StructureFunction m (QArr [p]) j1 j2 weighted ;;
  match sf_zeta s with z :: _ => Ok z | [] => Err IndexError end.

(** [eta_p.min() <= 0]: NaN propagates and compares false *)
Definition min_le_0 (l : list xr) : bool :=
  match l with
  | [] => false
  | a :: l' => xleb (fold_left xmin l' a) (Fin 0)
  end.

(** wavelet.py:64-66: ZPJCorr for one realisation and scale index j (JJ0 = j) *)
Definition zpj_corr (p : R) (eta : xr) (j : Z) : xr :=
  let pow2 (x : xr) := match x with
                       | Fin a => Fin (Rpower 2 a)
                       | PInf => PInf | NInf => Fin 0 | NaN => NaN end in
  let num := xsub (Fin 1) (pow2 (xmul (Fin (- IZR j)) eta)) in
  let den := xsub (Fin 1) (pow2 (xopp eta)) in
  pow2 (xmul (Fin (-1 / p)) (xlog2 (xdiv num den))).

(** what [_correct_leaders] hands back: a bare quantity (wavelet.py:55) or a
    pair (:74) *)
Inductive corrected :=
| CBare (m : mrq)
| CPair (m : mrq) (eta : list xr).

(** the loop wavelet.py:70-72: only [values] is assigned, not [nj] *)
Fixpoint correct_loop (p : R) (eta : list xr) (js : list Z) (m : mrq) : res mrq :=
  match js with
  | [] => Ok m
  | j :: js' =>
      v <- dict_getitem (mq_values m) j ;;
      let v' := map2 (fun c e => map (fun x => xmul x (zpj_corr p e j)) c) v eta in
      correct_loop p eta js'
        (mkMRQ (mq_formalism m) (mq_gamint m) (dict_set (mq_values m) j v') (mq_nj m))
  end.

(** wavelet.py:43-74 [_correct_leaders] *)
Definition correct_leaders (coefs leaders : mrq) (p : R) (j1 j2 : Z) (weighted : bool)
  (max_level : Z) : res (corrected * list warning) :=
  eta <- estimate_eta_p coefs p j1 j2 weighted ;;                 (* :49 *)
  if min_le_0 eta then Ok (CBare leaders, [WarnEta])              (* :51-55 *)
  else
    m <- correct_loop p eta (zrange 1 (max_level + 1)) leaders ;; (* :57-72 *)
    Ok (CPair m eta, []).                                         (* :74 *)

(** wavelet.py:270-414 [wavelet_analysis].  The signal is given as its columns
    (a 1-D signal is one column, :339-340).  Returns the transform and the
    warnings issued. *)
Definition wavelet_analysis (signal : arr) (p_exp : pexp) (w : wavelet)
  (j1 : Z) (j2 : option R) (gamint norm : R) (weighted : bool)
  : res (wtransform * list warning) :=
  let hi := map (fun t => -1 * t) (dec_hi w) in                      (* :345 *)
  let lo := dec_lo w in                                              (* :346 *)
  let f := check_formalism p_exp in                                  (* :348 *)
  let len := match signal with c :: _ => length c | [] => O end in
  '(max_level, warns) <- decomposition_level_warn len (length hi) j2 ;; (* :350 *)
  match p_exp with
  | PNone =>                                                         (* :353-355 *)
      t <- wavelet_coef_analysis signal max_level hi lo norm gamint j2 ;;
      Ok (t, warns)
  | _ =>
      '(mc, ml, max_level) <-
        leader_loop hi lo norm gamint f p_exp (Z.to_nat max_level) 1 max_level
                    signal None (new_mrq WaveletCoef gamint) (new_mrq f gamint) ;;
      let j2e := effective_j2 max_level j2 in                        (* :403 *)
      match p_exp with
      | PNum e =>                                                    (* :405-407 *)
          '(r, ws) <- correct_leaders mc ml (num_val e) j1 j2e weighted max_level ;;
          match r with
          | CPair m eta => Ok (mkWT mc (Some m) j2e (Some eta), warns ++ ws)
          | CBare _ => Err TypeError   (* a single object cannot be unpacked in two *)
          end
      | _ => Ok (mkWT mc (Some ml) j2e None, warns)                  (* :409 *)
      end
  end.
