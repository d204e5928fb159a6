(** The wideband timing model: which DMX tables it accepts, and its DM terms.
    Only theorem statements live here; the proofs are in ProofWide.v. *)
From Coq Require Import Reals String.
From mathcomp Require Import all_ssreflect all_algebra.
From Verif Require Import RStruct PyBase ModelLinalg ProofLinalg ModelNoise ProofNoise ModelLike ProofLike ModelCond ProofCond ModelWide ProofWide.
Set Implicit Arguments.
Unset Strict Implicit.
Unset Printing Implicit Defensive.
Import GRing.Theory Num.Theory Order.TTheory.
Local Open Scope ring_scope.

(** C47: the constructor's test compares totals. It accepts every table that
    puts each TOA in one interval; what it accepts does so if the intervals do
    not overlap, or if they leave no TOA out, but not otherwise. *)
Theorem wideband_accept : forall n (stoas : 'cV[R]_n) fitpars jk hj dmx,
  (exists bins, wb_init stoas fitpars jk hj dmx = Ok bins) <->
  jumps_selected jk hj /\ dmx_listed fitpars dmx /\ (\sum_i intervals stoas dmx i)%N = n /\ ~ List.In "DM"%string fitpars.
Proof. exact wideband_accept_lem. Qed.
Print Assumptions wideband_accept.
Theorem wideband_bins_accepted : forall n (stoas : 'cV[R]_n) fitpars jk hj dmx,
  jumps_selected jk hj -> dmx_listed fitpars dmx -> ~ List.In "DM"%string fitpars ->
  (forall i, intervals stoas dmx i = 1%N) ->
  exists bins, wb_init stoas fitpars jk hj dmx = Ok bins.
Proof. exact wideband_bins_accepted_lem. Qed.
Print Assumptions wideband_bins_accepted.
Theorem wideband_bins_cover_partial : forall n (stoas : 'cV[R]_n) fitpars jk hj dmx bins,
  wb_init stoas fitpars jk hj dmx = Ok bins ->
  (forall i, intervals stoas dmx i <= 1)%N \/ (forall i, 0 < intervals stoas dmx i)%N ->
  forall i, intervals stoas dmx i = 1%N.
Proof. exact wideband_bins_cover_partial_lem. Qed.
Print Assumptions wideband_bins_cover_partial.
Theorem wideband_bins_refuted : exists n (stoas : 'cV[R]_n) fitpars dmx bins,
  wb_init stoas fitpars [::] false dmx = Ok bins /\ List.NoDup (dkeys dmx) /\
  (exists i, intervals stoas dmx i = 2%N) /\ (exists i, intervals stoas dmx i = 0%N).
Proof. exact wideband_bins_refuted_lem. Qed.
Print Assumptions wideband_bins_refuted.
Example wideband_bins_satisfiable : exists bins,
  wb_init wd_stoas wd_pars [::] false we_dmx = Ok bins /\ List.NoDup (dkeys we_dmx) /\
  (forall i, intervals wd_stoas we_dmx i = 1%N).
Proof. by have [b [h1 [h2 [h3 _]]]] := ex_wide; exists b. Qed.

(** C48: prior variances, mean values and the log signal prior together are the
    density of all DM measurements, for all values of the DMX parameters; and the
    likelihood computed with delay, prior and log signal prior is the integral
    over all timing parameters of the density of the residuals and of the DM
    measurements (its integrand is that density, split off a normalised density
    of the parameters). [s] is the sign convention of the design matrix. *)
Theorem wideband_dm_terms : forall n (stoas : 'cV[R]_n) fitpars jk hj dmx bins (dm dme : 'cV[R]_n),
  wb_init stoas fitpars jk hj dmx = Ok bins -> List.NoDup (dkeys dmx) ->
  (forall i, intervals stoas dmx i = 1%N) -> (forall k d, List.In (k, d) dmx -> exists i, within stoas i d) ->
  (forall i, 0 < dme i ord0) ->
  (forall k d, List.In (k, d) dmx ->
    (forall j : 'I_(size fitpars), find_str k fitpars = Some (j : nat) ->
      wb_phi bins dme (size fitpars) j ord0 = 1 / (\sum_(i | within stoas i d) 1 / dme i ord0 ^+ 2)) /\
    forall i, within stoas i d ->
      wb_mean_dm bins dm dme i ord0 = (\sum_(i | within stoas i d) dm i ord0 / dme i ord0 ^+ 2) / (\sum_(i | within stoas i d) 1 / dme i ord0 ^+ 2) /\
      wb_mean_dme bins dme i ord0 ^+ 2 = 1 / (\sum_(i | within stoas i d) 1 / dme i ord0 ^+ 2) /\ 0 < wb_mean_dme bins dme i ord0) /\
  (forall j : 'I_(size fitpars), ~ List.In (nth ""%string fitpars j) (dkeys dmx) -> wb_phi bins dme (size fitpars) j ord0 = pow 10 40) /\
  exists p, wb_logprior bins dm dme = Ok p /\
    forall D : string -> R,
      (\sum_(kd <- dmx) lg (D kd.1 - weighted_mean dm dme (fun i => within stoas i kd.2)) (1 / (\sum_(i | within stoas i kd.2) 1 / dme i ord0 ^+ 2)) + p)%R =
      \sum_(kd <- dmx) \sum_(i | within stoas i kd.2) lg (dm i ord0 - D kd.1) (dme i ord0 ^+ 2).
Proof. exact wideband_dm_terms_lem. Qed.
Print Assumptions wideband_dm_terms.
Theorem wideband_likelihood : forall svd n (N : nobj n) (r stoas : 'cV[R]_n) fitpars jk hj dmx bins (dm dme : 'cV[R]_n) dmpar (freqs : 'cV[R]_n)
    (M : 'M[R]_(n, size fitpars)) (s : R),
  wb_init stoas fitpars jk hj dmx = Ok bins -> List.NoDup (dkeys dmx) ->
  (forall i, intervals stoas dmx i = 1%N) -> (forall k d, List.In (k, d) dmx -> exists i, within stoas i d) ->
  (forall i, 0 < dme i ord0) -> good_noise N -> (if N is NBlk _ _ then (1 < size fitpars)%N else True) -> s * s = 1 ->
  (forall k d (j : 'I_(size fitpars)) i, List.In (k, d) dmx -> find_str k fitpars = Some (j : nat) ->
    M i j = s * (within stoas i d)%:R / (241%:R / 10%:R ^+ 6 * freqs i ord0 ^+ 2)) ->
  exists p b (mu : 'cV[R]_(size fitpars)) (V : 'M[R]_(size fitpars)),
    wb_logprior bins dm dme = Ok p /\
    loglike svd [:: Pulsar N (r - wb_delay bins dm dme dmpar freqs) true M (PhiD (wb_phi bins dme (size fitpars))) p] = Ok (Fin b) /\
    posdef V /\
    forall e : nat -> R,
      (b + density ((\col_(j < size fitpars) e j) - mu) V)%R =
      (density_tm (r - M *m \col_(j < size fitpars) e j) (cov_of N) (tm_M N) - 2%:R^-1 * ((tm_k N)%:R * ln (pow 10 40)) +
       \sum_(kd <- dmx) \sum_(i | within stoas i kd.2) lg (dm i ord0 - (dmpar + d_val kd.2 + s * e (par_index fitpars kd.1))) (dme i ord0 ^+ 2) +
       \sum_(j < size fitpars | (j : nat) \notin [seq par_index fitpars kd.1 | kd <- dmx]) lg (e j) (pow 10 40))%R.
Proof. exact wideband_likelihood_lem. Qed.
Print Assumptions wideband_likelihood.
Theorem wideband_measured : forall n (jumps efacs equads : seq (R * pred 'I_n)) (dm dmerr : 'cV[R]_n) i j ef eq,
  the_value efacs i ef -> 0 < dmerr i ord0 -> ef != 0 ->
  (the_value jumps i j -> wb_dm jumps dm i ord0 = dm i ord0 + j) /\
  wb_dm [::] dm i ord0 = dm i ord0 /\
  (the_value equads i eq -> wb_dme efacs equads dmerr i ord0 ^+ 2 = ef ^+ 2 * (dmerr i ord0 ^+ 2 + (Rpower 10 eq) ^+ 2) /\ 0 < wb_dme efacs equads dmerr i ord0) /\
  wb_dme efacs [::] dmerr i ord0 ^+ 2 = ef ^+ 2 * dmerr i ord0 ^+ 2 /\ 0 < wb_dme efacs [::] dmerr i ord0.
Proof. exact wideband_measured_lem. Qed.
Print Assumptions wideband_measured.
Example wideband_likelihood_satisfiable : exists bins,
  wb_init wd_stoas wd_pars [::] false we_dmx = Ok bins /\ List.NoDup (dkeys we_dmx) /\
  (forall i, intervals wd_stoas we_dmx i = 1%N) /\ (forall k d, List.In (k, d) we_dmx -> exists i, within wd_stoas i d) /\
  (forall k d (j : 'I_(size wd_pars)) i, List.In (k, d) we_dmx -> find_str k wd_pars = Some (j : nat) ->
    we_M i j = 1 * (within wd_stoas i d)%:R / (241%:R / 10%:R ^+ 6 * (const_mx 1 : 'cV[R]_2) i ord0 ^+ 2)).
Proof. exact ex_wide. Qed.

(** C90: the default jump without a selection is refused. *)
Theorem wideband_default_refused : forall n (stoas : 'cV[R]_n) fitpars dmx,
  wb_init stoas fitpars [:: ""%string] true dmx = Err ValueError.
Proof. exact wideband_default_refused_lem. Qed.
Print Assumptions wideband_default_refused.

(** C91: an interval without TOAs. *)
Theorem wideband_empty_bin : forall n (bins : seq (dmx_bin n)) (dm dme : 'cV[R]_n) b,
  List.In b bins -> (forall i, ~~ b_which b i) -> wb_logprior bins dm dme = Err IndexError.
Proof. exact wideband_empty_bin_lem. Qed.
Print Assumptions wideband_empty_bin.
Theorem wideband_empty_accepted : forall n (stoas : 'cV[R]_n) fitpars jk hj dmx k d,
  (forall i, ~~ within stoas i d) -> d_fit d -> List.In k fitpars ->
  (exists bins, wb_init stoas fitpars jk hj dmx = Ok bins) ->
  exists bins b, wb_init stoas fitpars jk hj (dmx ++ [:: (k, d)]) = Ok bins /\ List.In b bins /\ forall i, ~~ b_which b i.
Proof. exact wideband_empty_accepted_lem. Qed.
Print Assumptions wideband_empty_accepted.
