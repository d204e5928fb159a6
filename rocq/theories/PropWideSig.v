(** C118: wideband timing models in arrays. *)
From Coq Require Import Reals String.
From mathcomp Require Import all_ssreflect all_algebra.
From Verif Require Import RStruct PyBase ProofBase ModelSelect ProofSelect ProofQuant ModelFunc ModelCache ProofCache ModelGp ProofGp ModelLinalg ProofLinalg ModelNoise ProofNoise ModelLike ProofLike ModelKernel ProofKernel ModelPhi ModelColl ProofColl ModelSigs ProofSigs ModelArray ProofArray ProofJoint ProofCorr ProofArrayEx ModelSized ProofSrc ProofSized ProofSource ModelEcorr ProofEcorr ModelCond ModelWide ProofWide ModelKinds ProofClasses ProofShare ProofMulti ProofMany ProofKinds ProofKindsEx ProofWideSig.
Import GRing.Theory Num.Theory.
Local Open Scope seq_scope.
Local Open Scope ring_scope.

(** C118: what a pulsar with a wideband timing model adds to the likelihood (see
    [kinds_likelihood] and [kinds_classes], whose signals may include it). With the DMs and
    uncertainties that the parameters give, it is the integral over the timing parameters of
    the density of the residuals less the timing model and of all DM measurements: its
    integrand is that density, split off a normalised density of the parameters. Residuals
    have the noise, the delays and the processes of the other signals; parameters that are
    not DMX have the prior variance 1e40. [sign] is that of the design matrix. *)
Theorem kinds_wideband : forall (hash : forall n, 'cV[R]_n -> nat) argsort fns p (q : psr_model) (ws1 ws2 : seq (view (v_n (pm q)))) v (s : bsig (v_n (pm q)))
    efac equad jump jref priorfn basisfn name psrname psr d sel jsel (dm dme : 'cV[R]_(v_n (pm q))) (sign : R),
  let st : 'cV[R]_(v_n (pm q)) := \col_i nth 0 (q_stoas d) i in
  v_sigs (pm q) = ws1 ++ v :: ws2 -> good_psr hash q ->
  wadds argsort fns p (Wideband efac equad jump jref priorfn basisfn name psrname psr d sel jsel) v -> w_basis v = Some s ->
  wide_dms p efac equad jump jref psrname d sel jsel dm dme -> (forall i, 0 < dme i ord0) ->
  List.NoDup (dkeys (q_dmx d)) -> (forall i, intervals st (q_dmx d) i = 1%N) -> (forall k x, List.In (k, x) (q_dmx d) -> exists i, within st i x) ->
  sign * sign = 1 ->
  (forall k x (j : 'I_(bk s)) i, List.In (k, x) (q_dmx d) -> find_str k (q_fitpars d) = Some (j : nat) ->
    bF s i j = sign * (within st i x)%:R / (241%:R / 10%:R ^+ 6 * nth 0 (q_freqs d) i ^+ 2)) ->
  bk s = size (q_fitpars d) /\
  exists (mu : 'cV[R]_(bk s)) (V : 'M[R]_(bk s)), posdef V /\
    forall e : nat -> R,
      (psr_term q + density ((\col_(j < bk s) e j) - mu) V)%R =
      (density_tm (v_res (pm q) - bF s *m \col_(j < bk s) e j - \sum_(w <- ws1 ++ ws2) (if w_delay w is Some (Some x) then x else 0))
         (cov_of (pm_N q) + coll_cov (pmap (@w_basis _) (ws1 ++ ws2))) (tm_M (pm_N q)) - 2%:R^-1 * ((tm_k (pm_N q))%:R * ln (pow 10 40)) +
       \sum_(w <- ws1 ++ ws2) w_prior w +
       \sum_(kd <- q_dmx d) \sum_(i | within st i kd.2) lg (dm i ord0 - (q_dmpar d + d_val kd.2 + sign * e (par_index (q_fitpars d) kd.1))) (dme i ord0 ^+ 2) +
       \sum_(j < bk s | (j : nat) \notin [seq par_index (q_fitpars d) kd.1 | kd <- q_dmx d]) lg (e j) (pow 10 40))%R.
Proof. exact kinds_wideband_lem. Qed.
Print Assumptions kinds_wideband.
(** White noise, a wideband timing model with an offset and one DMX interval, DMEFAC as a
    parameter, constant DMEQUAD, a DMJUMP for the third TOA, and a process: what each of any
    sequence of likelihoods is *)
Example kinds_wideband_array : forall svd l,
  run (z_ops u_hash svd (wcross k_fns)) (warray_colls k_fns u_dss u_arr) [seq ALike "partition" (u_p t) | t <- l] (warray_start u_dss) =
  [seq Ok (RLike (Fin (psr_term (u_A t)))) | t <- l].
Proof. exact u_likelihood. Qed.
Example kinds_wideband_example : forall t, exists (mu : 'cV[R]_2) (V : 'M[R]_2), posdef V /\
  forall e : nat -> R,
    (psr_term (u_A t) + density ((\col_(j < 2) e j) - mu) V)%R =
    (density_tm ((\col_i nth 0 k_resA i) - u_M *m \col_(j < 2) e j) (diag_cov (k_white t) + k_F 0 *m (const_mx (1 + t.2 * t.2) : 'M[R]_1) *m (k_F 0)^T) (0 : 'M[R]_(3, 0)) +
     \sum_(i < 3) lg (u_dm t i ord0 - (13%:R + e 1%N)) (u_dme t i ord0 ^+ 2) + lg (e 0%N) (pow 10 40))%R.
Proof. exact u_wideband. Qed.
