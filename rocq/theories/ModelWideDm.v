(** Model of [get_delta_dm] and [get_dm_chi2] of WidebandTimingModel
    (enterprise/signals/gp_signals.py L773-799), at given DMs and uncertainties.
    Numbers are exact reals. *)
From Coq Require Import Reals.
From mathcomp Require Import all_ssreflect all_algebra.
From Verif Require Import RStruct PyBase ModelLinalg ModelWide.
Set Implicit Arguments.
Unset Strict Implicit.
Unset Printing Implicit Defensive.
Import GRing.Theory Num.Theory.
Local Open Scope ring_scope.

Section Debug.
Variables (n : nat) (bins : seq (dmx_bin n)) (dm dme : 'cV[R]_n) (dmpar : R).

(** L775-785 [get_delta_dm] *)
Definition wb_delta_dm (use_mean : bool) : 'cV[R]_n :=
  let d := if use_mean then wb_mean_dm bins dm dme else dm in
  fill bins (fun b i => d i ord0 - (dmpar + b_val b)).

(** L787-800 [get_dm_chi2]: with the mean, one term for every interval, from its first TOA *)
Definition wb_dm_chi2 (use_mean : bool) : result R :=
  let delta := wb_delta_dm use_mean in
  if use_mean then
    sum_bins bins (fun w => rbind (first_of delta w) (fun d => rmap (fun e => (d / e) ^+ 2) (first_of (wb_mean_dme bins dme) w)))
  else Ok (\sum_i (delta i ord0 / dme i ord0) ^+ 2).
End Debug.
