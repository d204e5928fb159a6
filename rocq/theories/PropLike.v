(** The likelihood: marginal Gaussian densities, failures, wide priors, and the
    inversion of prior matrices.
    Only theorem statements live here; the proofs are in ProofLike.v. *)
From Coq Require Import Reals.
From mathcomp Require Import all_ssreflect all_algebra.
From Verif Require Import RStruct PyBase ModelLinalg ProofLinalg ModelNoise ProofNoise ModelLike ProofLike.
Set Implicit Arguments.
Unset Strict Implicit.
Unset Printing Implicit Defensive.
Import GRing.Theory Num.Theory Order.TTheory.
Local Open Scope ring_scope.

(** C34: without common signals the likelihood is the sum over pulsars of the
    Gaussian log density with covariance N + T Phi T^T. *)
Theorem likelihood_density : forall svd ps,
  (forall p, List.In p ps -> proper_noise (psr_N p) /\ good_shape p /\ good_prior p) ->
  loglike svd ps = Ok (Fin (\sum_(p <- ps) (density (psr_r p) (psr_cov p) + psr_prior p))%R).
Proof. exact likelihood_density_lem. Qed.
Print Assumptions likelihood_density.
Example likelihood_density_satisfiable : forall p, List.In p [:: ex_psr; ex_psr_white; ex_psr] ->
  proper_noise (psr_N p) /\ good_shape p /\ good_prior p.
Proof. exact ex_psrs_proper. Qed.
(** The same with marginalised timing models. *)
Theorem likelihood_marginalised : forall svd ps,
  (forall p, List.In p ps -> good_noise (psr_N p) /\ good_shape p /\ good_prior p) ->
  loglike svd ps = Ok (Fin (\sum_(p <- ps)
    (density_tm (psr_r p) (psr_cov p) (tm_M (psr_N p))
     - 2%:R^-1 * ((tm_k (psr_N p))%:R * ln (pow 10 40)) + psr_prior p))%R).
Proof. exact likelihood_marginalised_lem. Qed.
Print Assumptions likelihood_marginalised.
Example likelihood_marginalised_satisfiable : forall p, List.In p [:: ex_psr_tm; ex_psr_white; ex_psr] ->
  good_noise (psr_N p) /\ good_shape p /\ good_prior p.
Proof. exact ex_psrs_good. Qed.
(** A basis of one column with the block method of ECORR raises. *)
Theorem block_one_column : forall svd n bs v r (T : 'M[R]_(n, 1)) phi prior,
  proper_noise (NBlk bs (NVec v)) -> posdef (phi_mx phi) ->
  loglike svd [:: Pulsar (NBlk bs (NVec v)) r true T phi prior] = Err IndexError.
Proof. exact block_one_column_lem. Qed.
Print Assumptions block_one_column.
Example block_one_column_satisfiable : proper_noise (NBlk (ecorr_blocks ex_bs) (NVec ex_v)).
Proof. exact ex_block_noise. Qed.

(** C35: with common signals the likelihood is the joint Gaussian log density of
    the stacked residuals. *)
Theorem correlated_density : forall ps (Phi : 'M[R]_(tot_k ps)),
  (forall p, List.In p ps -> proper_noise (psr_N p) /\ good_shape p /\ psr_hasT p) -> posdef Phi ->
  loglike_correlated (invmx Phi) (ln (\det Phi)) =
    Ok (Fin (density (all_r ps) (all_C ps + all_T ps *m Phi *m (all_T ps)^T) + \sum_(p <- ps) psr_prior p)%R).
Proof. exact correlated_density_lem. Qed.
Print Assumptions correlated_density.
Example correlated_density_satisfiable :
  (forall p, List.In p [:: ex_psr; ex_psr] -> proper_noise (psr_N p) /\ good_shape p /\ psr_hasT p) /\
  posdef (1%:M + const_mx 1 : 'M[R]_(tot_k [:: ex_psr; ex_psr])).
Proof. exact ex_corr. Qed.
Theorem correlated_marginalised : forall ps (Phi : 'M[R]_(tot_k ps)),
  (forall p, List.In p ps -> good_noise (psr_N p) /\ good_shape p /\ psr_hasT p) -> posdef Phi ->
  loglike_correlated (invmx Phi) (ln (\det Phi)) =
    Ok (Fin (density_tm (all_r ps) (all_C ps + all_T ps *m Phi *m (all_T ps)^T) (all_M ps)
             - 2%:R^-1 * ((\sum_(p <- ps) tm_k (psr_N p))%:R * ln (pow 10 40)) + \sum_(p <- ps) psr_prior p)%R).
Proof. exact correlated_marginalised_lem. Qed.
Print Assumptions correlated_marginalised.
Example correlated_marginalised_satisfiable :
  (forall p, List.In p [:: ex_psr_tm; ex_psr] -> good_noise (psr_N p) /\ good_shape p /\ psr_hasT p) /\
  posdef (1%:M + const_mx 1 : 'M[R]_(tot_k [:: ex_psr_tm; ex_psr])).
Proof. exact ex_corr_tm. Qed.

(** C36: a pulsar without basis adds its white-noise term; with common signals it
    makes the evaluation raise. *)
Theorem likelihood_no_basis : forall svd ps1 p ps2, psr_hasT p = false ->
  (forall q, List.In q (ps1 ++ p :: ps2) -> proper_noise (psr_N q) /\ good_shape q /\ good_prior q) ->
  exists a, loglike svd (ps1 ++ ps2) = Ok (Fin a) /\
    loglike svd (ps1 ++ p :: ps2) =
      Ok (Fin (a + (density (psr_r p) (cov_of (psr_N p)) + psr_prior p))%R).
Proof. exact likelihood_no_basis_lem. Qed.
Print Assumptions likelihood_no_basis.
Example likelihood_no_basis_satisfiable : psr_hasT ex_psr_white = false /\
  forall p, List.In p ([:: ex_psr] ++ ex_psr_white :: [:: ex_psr]) ->
    proper_noise (psr_N p) /\ good_shape p /\ good_prior p.
Proof. exact (conj erefl ex_psrs_proper). Qed.
Theorem correlated_no_basis : forall ps p, List.In p ps -> psr_hasT p = false ->
  forall (phiinv : 'M[R]_(tot_k ps)) ld, exists e, loglike_correlated phiinv ld = Err e.
Proof. exact correlated_no_basis_lem. Qed.
Print Assumptions correlated_no_basis.
Example correlated_no_basis_satisfiable : List.In ex_psr_white [:: ex_psr; ex_psr_white] /\ psr_hasT ex_psr_white = false.
Proof. exact (conj (or_intror (or_introl erefl)) erefl). Qed.

(** C37: the likelihood is minus infinity exactly when a system to be factorised
    is not positive definite. *)
Theorem likelihood_neginf : forall svd ps,
  (forall p, List.In p ps -> good_noise (psr_N p) /\ good_shape p /\ sym (phi_mx (psr_phi p))) ->
  ((forall p, List.In p ps -> psr_hasT p -> posdef (psr_Sigma svd p)) ->
     exists x, loglike svd ps = Ok (Fin x)) /\
  ((exists p, List.In p ps /\ psr_hasT p /\ ~ posdef (psr_Sigma svd p)) -> loglike svd ps = Ok NegInf).
Proof. exact likelihood_neginf_lem. Qed.
Print Assumptions likelihood_neginf.
Example likelihood_neginf_satisfiable : forall svd,
  (forall p, List.In p [:: ex_psr; neg_psr] -> good_noise (psr_N p) /\ good_shape p /\ sym (phi_mx (psr_phi p))) /\
  exists p, List.In p [:: ex_psr; neg_psr] /\ psr_hasT p /\ ~ posdef (psr_Sigma svd p).
Proof. exact ex_neg. Qed.
Theorem correlated_neginf : forall ps (phiinv : 'M[R]_(tot_k ps)) ld,
  (forall p, List.In p ps -> good_noise (psr_N p) /\ good_shape p /\ psr_hasT p) -> sym phiinv ->
  let Sigma := (all_T ps)^T *m proj_inv (all_C ps) (all_M ps) *m all_T ps + phiinv in
  (posdef Sigma -> exists x, loglike_correlated phiinv ld = Ok (Fin x)) /\
  (~ posdef Sigma -> loglike_correlated phiinv ld = Ok NegInf).
Proof. exact correlated_neginf_lem. Qed.
Print Assumptions correlated_neginf.
Example correlated_neginf_satisfiable :
  (forall p, List.In p [:: ex_psr_tm; ex_psr] -> good_noise (psr_N p) /\ good_shape p /\ psr_hasT p) /\
  posdef (1%:M + const_mx 1 : 'M[R]_(tot_k [:: ex_psr_tm; ex_psr])).
Proof. exact ex_corr_tm. Qed.

(** C45: marginalising over the timing model against an explicit timing model of
    prior variance [lam], with and without a Gaussian process: the explicit
    likelihood, up to the constants, is below by at most a multiple of 1/lam. *)
Theorem marginalised_explicit_gp : forall svd n m k (N : nobj n) (M : 'M[R]_(n, m)) r (T : 'M[R]_(n, k)) phi phi' prior lam,
  0 < lam -> proper_noise N -> full_rank M -> (if N is NBlk _ _ then (1 < m + k)%N else True) ->
  posdef (phi_mx phi) -> phi_mx phi' = block_mx lam%:M 0 0 (phi_mx phi) ->
  exists a b,
    loglike svd [:: Pulsar (NMarg M N) r true T phi prior] = Ok (Fin a) /\
    loglike svd [:: Pulsar N r true (row_mx M T) phi' prior] = Ok (Fin b) /\
    0 <= (a + 2%:R^-1 * (m%:R * ln (pow 10 40))) - (b + 2%:R^-1 * (m%:R * ln lam))
      <= (2%:R * lam)^-1 * tm_size r (cov_of N + T *m phi_mx phi *m T^T) M.
Proof. exact marginalised_explicit_gp_lem. Qed.
Print Assumptions marginalised_explicit_gp.
Theorem marginalised_explicit : forall svd n m k (N : nobj n) (M : 'M[R]_(n, m)) r (T : 'M[R]_(n, k)) phi phi' prior lam,
  0 < lam -> proper_noise N -> full_rank M -> (if N is NBlk _ _ then (1 < m)%N else True) ->
  phi_mx phi' = lam%:M ->
  exists a b,
    loglike svd [:: Pulsar (NMarg M N) r false T phi prior] = Ok (Fin a) /\
    loglike svd [:: Pulsar N r true M phi' prior] = Ok (Fin b) /\
    0 <= (a + 2%:R^-1 * (m%:R * ln (pow 10 40))) - (b + 2%:R^-1 * (m%:R * ln lam))
      <= (2%:R * lam)^-1 * tm_size r (cov_of N) M.
Proof. exact marginalised_explicit_lem. Qed.
Print Assumptions marginalised_explicit.
Theorem marginalised_limit : forall svd n m k (N : nobj n) (M : 'M[R]_(n, m)) r (T : 'M[R]_(n, k)) phi prior eps,
  0 < eps -> proper_noise N -> full_rank M -> (if N is NBlk _ _ then (1 < m + k)%N else True) -> posdef (phi_mx phi) ->
  exists a lam0, 0 < lam0 /\
    loglike svd [:: Pulsar (NMarg M N) r true T phi prior] = Ok (Fin a) /\
    forall lam, lam0 <= lam -> exists b,
      loglike svd [:: Pulsar N r true (row_mx M T) (PhiM (block_mx lam%:M 0 0 (phi_mx phi))) prior] = Ok (Fin b) /\
      `|(a + 2%:R^-1 * (m%:R * ln (pow 10 40))) - (b + 2%:R^-1 * (m%:R * ln lam))| <= eps.
Proof. exact marginalised_limit_lem. Qed.
Print Assumptions marginalised_limit.
Example marginalised_explicit_satisfiable :
  proper_noise (NSM ex_bs (NVec ex_v)) /\ full_rank ex_M /\ posdef (phi_mx ex_phi).
Proof. exact (conj ex_proper (conj ex_full_rank ex_phi_posdef)). Qed.

(** C88: a positive definite prior is inverted as itself; an invertible symmetric
    matrix that is not positive definite is inverted as if its eigenvalues were
    their absolute values. *)
Theorem kernel_inverse : forall svd k (phi : phi_t k), posdef (phi_mx phi) ->
  phi_mx (kinv svd phi).1 = invmx (phi_mx phi) /\ (kinv svd phi).2 = ln (\det (phi_mx phi)).
Proof. exact kinv_posdef_lem. Qed.
Print Assumptions kernel_inverse.
Example kernel_inverse_satisfiable : posdef (phi_mx ex_phi).
Proof. exact ex_phi_posdef. Qed.
Theorem kernel_inverse_indefinite : forall svd k (A : 'M[R]_k), sym A -> A \in unitmx -> ~ posdef A -> svd_spec svd A ->
  exists B, (kinv svd (PhiM A)).1 = PhiM B /\ posdef B /\ B *m B = invmx A *m invmx A /\
    B <> invmx A /\ (kinv svd (PhiM A)).2 = - ln (\det B).
Proof. exact kinv_fallback_lem. Qed.
Print Assumptions kernel_inverse_indefinite.
Example kernel_inverse_indefinite_satisfiable :
  let A : 'M[R]_2 := (- 1)%:M in sym A /\ A \in unitmx /\ ~ posdef A /\ svd_spec ex_svd A.
Proof. exact ex_indefinite. Qed.
