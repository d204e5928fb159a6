(** C119: the chi-squared of the DMs of a wideband timing model. *)
From Coq Require Import Reals String.
From mathcomp Require Import all_ssreflect all_algebra.
From Verif Require Import RStruct PyBase ModelLinalg ModelWide ProofWide ModelWideDm ProofWideDm.
Set Implicit Arguments.
Unset Strict Implicit.
Unset Printing Implicit Defensive.
Import GRing.Theory Num.Theory Order.TTheory.
Local Open Scope ring_scope.

(** C119: the differences from DM + DMX, their chi-squared, that of the weighted means, and
    what is between them: the scatter about the means. *)
Theorem wideband_chi2 : forall n (stoas : 'cV[R]_n) fitpars jk hj dmx bins (dm dme : 'cV[R]_n) dmpar,
  wb_init stoas fitpars jk hj dmx = Ok bins -> (forall i, intervals stoas dmx i = 1%N) ->
  (forall k d i, List.In (k, d) dmx -> within stoas i d ->
     wb_delta_dm bins dm dme dmpar false i ord0 = dm i ord0 - (dmpar + d_val d) /\
     wb_delta_dm bins dm dme dmpar true i ord0 = weighted_mean dm dme (fun i => within stoas i d) - (dmpar + d_val d)) /\
  ((forall i, 0 < dme i ord0) -> (forall k d, List.In (k, d) dmx -> exists i, within stoas i d) ->
   exists chi2 chi2_mean,
    [/\ wb_dm_chi2 bins dm dme dmpar false = Ok chi2, wb_dm_chi2 bins dm dme dmpar true = Ok chi2_mean,
        chi2 = \sum_(kd <- dmx) \sum_(i | within stoas i kd.2) ((dm i ord0 - (dmpar + d_val kd.2)) / dme i ord0) ^+ 2,
        chi2_mean = \sum_(kd <- dmx) (weighted_mean dm dme (fun i => within stoas i kd.2) - (dmpar + d_val kd.2)) ^+ 2 * \sum_(i | within stoas i kd.2) 1 / dme i ord0 ^+ 2 &
        chi2 = chi2_mean + \sum_(kd <- dmx) \sum_(i | within stoas i kd.2) ((dm i ord0 - weighted_mean dm dme (fun i => within stoas i kd.2)) / dme i ord0) ^+ 2]).
Proof. exact wideband_chi2_lem. Qed.
Print Assumptions wideband_chi2.
Example wideband_chi2_satisfiable : exists bins,
  wb_init wd_stoas wd_pars [::] false we_dmx = Ok bins /\ (forall i, intervals wd_stoas we_dmx i = 1%N) /\
  (forall k d, List.In (k, d) we_dmx -> exists i, within wd_stoas i d).
Proof. by have [b [h1 [h2 [h3 [h4 _]]]]] := ex_wide; exists b. Qed.

(** C119: an interval without TOAs makes the chi-squared of the means fail, the other not. *)
Theorem wideband_chi2_empty : forall n (bins : seq (dmx_bin n)) (dm dme : 'cV[R]_n) dmpar b,
  List.In b bins -> (forall i, ~~ b_which b i) ->
  wb_dm_chi2 bins dm dme dmpar true = Err IndexError /\ exists x, wb_dm_chi2 bins dm dme dmpar false = Ok x.
Proof. exact wideband_chi2_empty_lem. Qed.
Print Assumptions wideband_chi2_empty.
Example wideband_chi2_empty_satisfiable : List.In (DmxBin 0 0 xpred0) [:: DmxBin 0 0 xpred0 : dmx_bin 2] /\ forall i : 'I_2, ~~ b_which (DmxBin 0 0 xpred0) i.
Proof. by split; [left|]. Qed.
