(** * Model of pymultifracs/cumulants.py *)
From Coq Require Import Reals List ZArith Bool String Ascii.
From Verif Require Import XReal PyBase ModelUtils ModelMRQ ModelStructure.
Import ListNotations.
Open Scope R_scope.

Record cumulants := mkCum {
  cu_formalism : formalism;
  cu_nj : dict (list nat);
  cu_nrep : nat;
  cu_j : list Z;
  cu_m : list nat;                       (* 1 .. n_cumul *)
  cu_j1 : Z;
  cu_j2 : Z;
  cu_weighted : bool;
  cu_values : list arr;                  (* [m][realisation][scale] *)
  cu_log_cumulants : list (list xr);     (* [m][realisation] *)
  cu_var_log_cumulants : list (list xr);
  cu_slope : list (list xr);
  cu_intercept : list (list xr)
}.

(** cumulants.py:101-107: the moment of order m of ln|values[j]|, one column.
    m is a np.int64, hence the general path of fast_power. *)
Definition log_moment (c : col) (m : nat) : xr :=
  nanmean (fast_power (map xln (map xabs c)) (PyFloat (INR m))).

(** cumulants.py:111-116: aux = sum_{n=1}^{m-1} binom(m-1,n-1) C_n moment_{m-n};
    [prev] holds C_1 .. C_{m-1} (self.values[0 .. m-2]) *)
Definition cum_aux (mom : nat -> xr) (prev : list xr) (m : nat) : xr :=
  fold_left (fun aux n =>
               xadd aux (xmul (xmul (Fin (C (m - 1) (n - 1)))
                                    (nth (n - 1) prev NaN))
                              (mom (m - n)%nat)))
            (seq 1 (m - 1)) (Fin 0).

(** cumulants.py:104-118: one pass of the loop over m *)
Definition cum_step (mom : nat -> xr) (prev : list xr) (m : nat) : xr :=
  if Nat.eqb m 1 then mom m                                  (* :108-109 *)
  else xsub (mom m) (cum_aux mom prev m).                    (* :111-118 *)

(** C_1 .. C_n, computed in increasing order as the loop does *)
Fixpoint cum_list (mom : nat -> xr) (n : nat) : list xr :=
  match n with
  | O => []
  | S k => let prev := cum_list mom k in prev ++ [cum_step mom prev (S k)]
  end.

(** [self.values] for order m, realisation r: the column over scales *)
Definition cum_value (n_cumul : nat) (c : col) (m : nat) : xr :=
  nth (m - 1) (cum_list (log_moment c) n_cumul) NaN.

Definition cum_compute (m : mrq) (nrep n_cumul : nat) : list arr :=
  map (fun k =>
         map (fun r => map (fun c => cum_value n_cumul c k) (cols_of m r))
             (seq 0 nrep))
      (seq 1 n_cumul).

(** np.log2(np.exp(1)) *)
Definition log2_e : R := log2R (exp 1).

(** cumulants.py:82-153 [Cumulants(mrq, n_cumul, j1, j2, weighted)] *)
Definition Cumulants (m : mrq) (n_cumul : nat) (j1 j2 : Z) (weighted : bool)
  : res cumulants :=
  nrep <- mq_nrep m ;;                                          (* :86 *)
  let values := cum_compute m nrep n_cumul in                   (* :92 *)
  W <- reg_weights weighted (mq_nj m) nrep j1 j2 ;;             (* :132-138 *)
  fits <- mapM (regress_cols weighted j1 j2 W) values ;;        (* :145-149 *)
  let slope := map (map (fun t => fst (fst t))) fits in
  let intercept := map (map (fun t => snd (fst t))) fits in
  let var := map (map snd) fits in
  Ok (mkCum (mq_formalism m) (mq_nj m) nrep (dict_keys (mq_values m))
            (seq 1 n_cumul) j1 j2 weighted values
            (map (map (fun s => xmul s (Fin log2_e))) slope)          (* :150 *)
            (map (map (fun v => xmul (Fin (log2_e * log2_e)) v)) var) (* :151 *)
            slope intercept).

(** cumulants.py:155-166 [__getattr__] for the names c<d>, C<d>, M.  The result
    of an array selection is the list of selected rows (empty if the order was
    not computed). *)
Definition is_digit (a : ascii) : bool :=
  let n := nat_of_ascii a in Nat.leb 48 n && Nat.leb n 57.
Definition digit_val (a : ascii) : nat := nat_of_ascii a - 48.
Definition select_rows {A} (orders : list nat) (k : nat) (rows : list A) : list A :=
  map snd (filter (fun p => Nat.eqb (fst p) k) (combine orders rows)).

Inductive cum_attr :=
| CLog (rows : list (list xr))       (* selection of log_cumulants *)
| CVal (rows : list arr).            (* selection of values *)

(** Restricted to names that are not real attributes of the object (Python only
    calls [__getattr__] for those). *)
Definition cum_getattr (c : cumulants) (name : string) : res cum_attr :=
  match name with
  | String a (String d EmptyString) =>
      if Ascii.eqb a "c" && is_digit d
      then Ok (CLog (select_rows (cu_m c) (digit_val d) (cu_log_cumulants c)))
      else if Ascii.eqb a "C" && is_digit d
      then Ok (CVal (select_rows (cu_m c) (digit_val d) (cu_values c)))
      else Err AttributeError
  | String "M" EmptyString =>
      Ok (CLog (map (map xopp) (select_rows (cu_m c) 2 (cu_log_cumulants c))))
  | EmptyString => Err IndexError                     (* name[0] *)
  | _ => Err AttributeError
  end.
