(** ECORR as noise and as a Gaussian process.
    Only theorem statements live here; the proofs are in ProofEcorr.v. *)
From Coq Require Import Reals String.
From mathcomp Require Import all_ssreflect all_algebra.
From Verif Require Import RStruct PyBase ModelLinalg ProofLinalg ModelNoise ProofNoise ModelLike ProofLike ModelKernel ProofKernel ModelSelect ProofSelect ProofQuant ModelEcorr ProofEcorr.
Set Implicit Arguments.
Unset Strict Implicit.
Unset Printing Implicit Defensive.
Import GRing.Theory Num.Theory Order.TTheory.
Local Open Scope ring_scope.

(** C112: EcorrBasisModel and EcorrKernelNoise made of the same TOAs, selections and
    values have the same covariance; the basis has one column for each epoch, of at
    least two TOAs, all different, and a proper prior. *)
Theorem ecorr_same_covariance : forall argsort toas masks value, ecorr_ok argsort toas masks ->
  exists bs s, ecorr_kernel argsort (size toas) toas masks value = Ok bs /\ ecorr_gp argsort (size toas) toas masks value = Ok s /\
    bF s *m phi_mx (bphi s) *m (bF s)^T = ecorr_cov bs /\
    [/\ bk s = size bs, bpar s = false, posdef (phi_mx (bphi s)) & uniq (columns s)] /\
    [/\ (forall b, b \in bs -> 0 < b.2), (forall b, b \in bs -> 1 < size b.1)%N & disjoint_epochs [seq b.1 | b <- bs]].
Proof. exact ecorr_same_covariance_lem. Qed.
Print Assumptions ecorr_same_covariance.
Example ecorr_same_covariance_satisfiable : ecorr_ok argsort_ins ex_toas ex_masks /\
  exists b bs, ecorr_kernel argsort_ins (size ex_toas) ex_toas ex_masks ex_value = Ok (b :: bs).
Proof. exact (conj ex_ecorr_ok ex_kernel). Qed.
(** The likelihood of a model does not change when the kernel, by any method, replaces
    the basis, next to any other signals and pulsars, with or without a marginalised
    timing model before it. *)
Theorem ecorr_same_likelihood : forall svd argsort toas masks value meth (hash : 'cV[R]_(size toas) -> nat)
    (vs1 vs2 vs3 : seq 'cV[R]_(size toas)) tm r sigs1 sigs2 prior ps1 ps2 s bs e,
  ecorr_ok argsort toas masks -> (0 < size toas)%N ->
  ecorr_gp argsort (size toas) toas masks value = Ok s -> ecorr_kernel argsort (size toas) toas masks value = Ok bs ->
  ecorr_noise meth bs = Ok e -> bs <> [::] ->
  (forall v, v \in vs1 ++ vs2 ++ vs3 -> forall i, 0 < v i ord0) -> vs1 ++ vs2 ++ vs3 <> [::] -> timing_noise tm ->
  no_collision hash (sigs1 ++ s :: sigs2) -> fixed_first (sigs1 ++ s :: sigs2) -> coll_ok hash (sigs1 ++ sigs2) ->
  (meth = BlockM -> combine_ncol hash (sigs1 ++ sigs2) <> 1%N) ->
  (forall x, List.In x (ps1 ++ ps2) -> good_noise (psr_N x) /\ good_shape x /\ good_prior x) ->
  exists p q,
    rbind (get_ndiag ([seq NVec v | v <- vs1] ++ tm ++ [seq NVec v | v <- vs2 ++ vs3]))
      (fun N => coll_pulsar hash N r (sigs1 ++ s :: sigs2) prior) = Ok p /\
    rbind (get_ndiag ([seq NVec v | v <- vs1] ++ tm ++ [seq NVec v | v <- vs2] ++ e :: [seq NVec v | v <- vs3]))
      (fun N => coll_pulsar hash N r (sigs1 ++ sigs2) prior) = Ok q /\
    loglike svd (ps1 ++ p :: ps2) = loglike svd (ps1 ++ q :: ps2) /\
    exists a, loglike svd (ps1 ++ p :: ps2) = Ok (Fin a).
Proof. exact ecorr_same_likelihood_lem. Qed.
Print Assumptions ecorr_same_likelihood.
Example ecorr_same_likelihood_satisfiable : exists s b bs (hash : 'cV[R]_5 -> nat),
  ecorr_ok argsort_ins ex_toas ex_masks /\ ecorr_gp argsort_ins 5 ex_toas ex_masks ex_value = Ok s /\
  ecorr_kernel argsort_ins 5 ex_toas ex_masks ex_value = Ok (b :: bs) /\
  no_collision hash [:: s; ex_extra] /\ fixed_first [:: s; ex_extra] /\ coll_ok hash [:: ex_extra] /\
  combine_ncol hash [:: ex_extra] = 2%N.
Proof. exact ex_same_lem. Qed.
(** Without an epoch of two TOAs the kernel adds nothing, but a collection with the
    basis model has no basis: it raises. *)
Theorem ecorr_no_epochs : forall svd argsort toas masks value meth (hash : 'cV[R]_(size toas) -> nat)
    (v r : 'cV[R]_(size toas)) sigs prior ps1 ps2 e,
  ecorr_ok argsort toas masks -> (0 < size toas)%N -> ecorr_kernel argsort (size toas) toas masks value = Ok [::] ->
  (forall i, 0 < v i ord0) -> coll_ok hash sigs -> meth <> BlockM -> ecorr_noise meth [::] = Ok e ->
  (forall x, List.In x (ps1 ++ ps2) -> good_noise (psr_N x) /\ good_shape x /\ good_prior x) ->
  (exists s, ecorr_gp argsort (size toas) toas masks value = Ok s /\
     forall N sigs1 sigs2, (forall p, coll_pulsar hash N r (sigs1 ++ s :: sigs2) prior <> Ok p) /\
       coll_pulsar hash N r (s :: sigs2) prior = Err IndexError) /\
  exists p q, coll_pulsar hash (NVec v) r sigs prior = Ok p /\
    rbind (get_ndiag [:: NVec v; e]) (fun N => coll_pulsar hash N r sigs prior) = Ok q /\
    loglike svd (ps1 ++ p :: ps2) = loglike svd (ps1 ++ q :: ps2) /\ exists a, loglike svd (ps1 ++ p :: ps2) = Ok (Fin a).
Proof. exact ecorr_no_epochs_lem. Qed.
Print Assumptions ecorr_no_epochs.
Example ecorr_no_epochs_satisfiable : forall value, ecorr_ok argsort_ins [:: 0] [:: ("A"%string, [:: true])] /\
  ecorr_kernel argsort_ins 1 [:: 0] [:: ("A"%string, [:: true])] value = Ok [::].
Proof. exact (fun value => conj (ex_one_ok 0) (ex_one_kernel 0 value)). Qed.
Theorem ecorr_same_refuted : forall svd value, exists argsort toas masks (hash : 'cV[R]_(size toas) -> nat) (v r : 'cV[R]_(size toas)) s q a,
  ecorr_ok argsort toas masks /\ (0 < size toas)%N /\ (forall i, 0 < v i ord0) /\
  ecorr_gp argsort (size toas) toas masks value = Ok s /\ coll_pulsar hash (NVec v) r [:: s] 0 = Err IndexError /\
  rbind (ecorr_kernel argsort (size toas) toas masks value) (fun bs =>
  rbind (ecorr_noise ShermanMorrisonM bs) (fun e =>
  rbind (get_ndiag [:: NVec v; e]) (fun N => coll_pulsar hash N r [::] 0))) = Ok q /\
  loglike svd [:: q] = Ok (Fin a).
Proof. exact ecorr_same_refuted_lem. Qed.
Print Assumptions ecorr_same_refuted.

(** C32: the prior of a collection is proper if those of its signals are. *)
Theorem combine_posdef : forall n (hash : 'cV[R]_n -> nat) (sigs : seq (bsig n)),
  no_collision hash sigs -> fixed_first sigs -> no_repeats sigs ->
  all (fun s => (0 < bk s)%N) sigs -> (0 < size sigs)%N -> (forall s, List.In s sigs -> posdef (phi_mx (bphi s))) ->
  exists phi, coll_phi hash sigs = Ok (Some phi) /\ posdef (phi_mx (kphi phi)).
Proof. exact combine_posdef_lem. Qed.
Print Assumptions combine_posdef.
Example combine_posdef_satisfiable : exists s b bs (hash : 'cV[R]_5 -> nat),
  ecorr_ok argsort_ins ex_toas ex_masks /\ ecorr_gp argsort_ins 5 ex_toas ex_masks ex_value = Ok s /\
  ecorr_kernel argsort_ins 5 ex_toas ex_masks ex_value = Ok (b :: bs) /\
  no_collision hash [:: s; ex_extra] /\ fixed_first [:: s; ex_extra] /\ coll_ok hash [:: ex_extra] /\
  combine_ncol hash [:: ex_extra] = 2%N.
Proof. exact ex_same_lem. Qed.
