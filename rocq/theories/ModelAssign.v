(** * Model of pymultifracs/signal.py:56-108: [Signal] is an ordinary (mutable) dataclass

    Besides calling methods, the owner of the object may assign its public fields [data], [fs] and [log]
    (signal.py:93-95) at any time; an assignment runs no code of the library and leaves every other
    attribute as it is. *)
From Coq Require Import Reals List ZArith String.
From Verif Require Import XReal ModelWavelet ModelPSD ModelSignal.
Import ListNotations.

(** signal.py:93-95: [s.data = d], [s.fs = f], [s.log = l] *)
Definition assign_data (s : signal) (d : col) : signal :=
  mkSignal (Some d) (s_fs s) (s_log s) (s_wt_psd_param s) (s_wt_psd s) (s_welch_param s) (s_welch_psd s)
    (s_fractal_param s) (s_fractal s) (s_wt_transform s) (s_wt_param s) (s_mf_param s) (s_multi_fractal s).
Definition assign_fs (s : signal) (f : R) : signal :=
  mkSignal (s_data s) f (s_log s) (s_wt_psd_param s) (s_wt_psd s) (s_welch_param s) (s_welch_psd s)
    (s_fractal_param s) (s_fractal s) (s_wt_transform s) (s_wt_param s) (s_mf_param s) (s_multi_fractal s).
Definition assign_log (s : signal) (l : string) : signal :=
  mkSignal (s_data s) (s_fs s) l (s_wt_psd_param s) (s_wt_psd s) (s_welch_param s) (s_welch_psd s)
    (s_fractal_param s) (s_fractal s) (s_wt_transform s) (s_wt_param s) (s_mf_param s) (s_multi_fractal s).

(** one thing the owner of the object can do *)
Inductive action :=
| Call (o : op)
| SetData (d : col)
| SetFs (f : R)
| SetLog (l : string).
Definition act (pywt : string -> option wavelet) (num : col -> welch_args -> Z -> list xr) (s : signal) (a : action) : signal :=
  match a with
  | Call o => step pywt num s o
  | SetData d => assign_data s d
  | SetFs f => assign_fs s f
  | SetLog l => assign_log s l
  end.
Definition acts (pywt : string -> option wavelet) (num : col -> welch_args -> Z -> list xr) (s : signal) (h : list action) : signal :=
  fold_left (act pywt num) h s.
