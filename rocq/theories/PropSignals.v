(** C115: the likelihood of an array of enterprise's signals, from the functions they
    were made with. *)
From Coq Require Import Reals String.
From mathcomp Require Import all_ssreflect all_algebra.
From Verif Require Import RStruct PyBase ModelFunc ModelCache ModelGp ProofGp ModelLinalg ProofLinalg ModelNoise ProofNoise ModelLike ProofLike ModelKernel ProofKernel ModelPhi ModelColl ProofColl ModelSigs ProofSigs ModelArray ProofArray ProofJoint ProofCorr ProofArrayEx ModelSized ProofSrc ProofSized ProofSource.
Import GRing.Theory Num.Theory.
Local Open Scope seq_scope.
Local Open Scope ring_scope.

(** C115: an array [arr] of pulsars with white noise, deterministic signals, Gaussian
    processes with or without sampled coefficients and common processes, no common process
    in two pulsars. [psr_adds] says what the functions of the signals return for the
    parameters, and what noise, delays, basis and prior this is. Each of any sequence of
    likelihoods is the sum over the pulsars of the log densities of their residuals. *)
Theorem signals_likelihood : forall (hash : forall n, 'cV[R]_n -> nat) (svd : forall k, 'M[R]_k -> 'M[R]_k * 'cV[R]_k) (fns : nat -> fob * fob)
  (arr : seq (seq src * seq R)) (dss : seq (seq desc)) (l : seq (string * params R * seq psr_model)),
  (forall c s, List.In c arr -> List.In s c.1 -> proper s) -> new_array fns arr = Ok dss -> alone_in arr ->
  (forall t, List.In t l -> [/\ known_method t.1.1, permitted fns arr t.1.2 & List.Forall2 (fun c q => psr_adds fns t.1.2 c (pm q) /\ good_psr hash q) arr t.2]) ->
  run (z_ops hash svd (cross_z fns)) (array_colls fns dss arr) [seq ALike t.1.1 t.1.2 | t <- l] (array_start dss) =
  [seq Ok (RLike (Fin (\sum_(q <- t.2) psr_term q))) | t <- l].
Proof. exact signals_likelihood_lem. Qed.
Print Assumptions signals_likelihood.
(** Two pulsars with white noise for two selections, a deterministic signal for one of
    them, a process and one with sampled coefficients, and in one pulsar a process of the
    common kind *)
Example signals_likelihood_example : forall hash svd (l : seq (R * R * R * R)),
  run (z_ops hash svd (cross_z z_fns)) (array_colls z_fns (z_dss z_one) z_one) [seq ALike "partition" (z_p q) | q <- l] (array_start (z_dss z_one)) =
  [seq Ok (RLike (Fin (psr_term (z_model q [:: 7%:R; 8%:R] true) + psr_term (z_model q [:: 9%:R; 6%:R] false)))) | q <- l].
Proof. exact z_likelihood. Qed.

(** C115: arrays with a common process in every pulsar. [member] gives its basis and prior,
    [correlation] the value of the correlation function for the positions of two pulsars.
    Each of any sequence of likelihoods is the log density of all residuals together. *)
Theorem signals_correlated : forall (hash : forall n, 'cV[R]_n -> nat) (svd : forall k, 'M[R]_k -> 'M[R]_k * 'cV[R]_k) (fns : nat -> fob * fob)
  (arr : seq (seq src * seq R)) (dss : seq (seq desc)) (k0 K : nat) (l : seq (string * params R * (nat -> nat -> R) * 'cV[R]_K * seq (cpsr K))),
  (forall c s, List.In c arr -> List.In s c.1 -> proper s) -> new_array fns arr = Ok dss -> (1 < size arr)%N ->
  (forall method p orf phi xs, List.In (method, p, orf, phi, xs) l ->
    [/\ known_method method, permitted fns arr p,
        List.Forall2 (fun c x => [/\ psr_adds fns p c (pm (cp_q x)), good_psr hash (cp_q x), member fns p k0 phi c x & sole k0 c x]) arr xs,
        [seq cp_i x | x <- xs] = iota 0 (size xs) /\ correlation fns arr p k0 orf [seq (cp_i x, cp_j x) | x <- xs]
      & posdef (\matrix_(i < size xs, j < size xs) orf i j) /\ forall k, 0 < phi k ord0]) ->
  run (z_ops hash svd (cross_z fns)) (array_colls fns dss arr) [seq ALike t.1.1.1.1 t.1.1.1.2 | t <- l] (array_start dss) =
  [seq Ok (RLike (Fin (joint_term t.1.1.2 t.1.2 t.2))) | t <- l].
Proof. exact signals_correlated_lem. Qed.
Print Assumptions signals_correlated.
(** The same signals with the process of the common kind in both pulsars, at positions that
    give the correlation one half *)
Example signals_correlated_example : forall hash svd (l : seq (R * R * R * R)),
  run (z_ops hash svd (cross_z z_fns)) (array_colls z_fns (z_dss z_two) z_two) [seq ALike "cliques" (z_p q) | q <- l] (array_start (z_dss z_two)) =
  [seq Ok (RLike (Fin (joint_term y_orf (const_mx (1 + q.2 * q.2)) [:: z_cpsr q [:: 7%:R; 8%:R] 0; z_cpsr q [:: 9%:R; 6%:R] 1]))) | q <- l].
Proof. exact z_correlated. Qed.
