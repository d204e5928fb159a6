(** C114: the likelihood of an array object is the Gaussian log density of the model
    assembled from its signals, whatever was evaluated before. *)
From Coq Require Import Reals String.
From mathcomp Require Import all_ssreflect all_algebra.
From Verif Require Import RStruct PyBase ModelCache ModelGp ProofGp ModelLinalg ProofLinalg ModelNoise ProofNoise ModelLike ProofLike ModelKernel ProofKernel ModelPhi ModelColl ProofColl ModelArray ProofArray ProofJoint ProofCorr ProofArrayEx.
Import GRing.Theory Num.Theory.
Local Open Scope seq_scope.
Local Open Scope ring_scope.

(** C114: arrays without pairs of common signals. The signals of pulsar [c] add the noise,
    delays, Gaussian processes and log priors of the view [pm q] for the parameters [p].
    After any questions [l], the likelihood is the sum over the pulsars of the log density
    of the residuals less the delays, with the covariance of the noise plus the sum of
    F phi F^T over the processes, marginalised over the timing model if there is one, plus
    the log priors of sampled coefficients. *)
Theorem array_likelihood : forall (hash : forall n, 'cV[R]_n -> nat) (svd : forall k, 'M[R]_k -> 'M[R]_k * 'cV[R]_k) (St : Type)
  (cross : nat -> St -> St -> params R -> result cz) (dom : params R -> Prop) (v_cross : nat -> nat * nat -> nat * nat -> params R -> result cz),
  (forall p, dom p -> flat_values p) -> dom [::] ->
  forall (a : seq (coll St nz dz fz pz * seq (beh St nz dz fz pz))) (sss : seq (seq St)) l rs method p (qs : seq psr_model),
  List.Forall (sound_coll dom) a -> sound_commons (z_ops hash svd cross) v_cross a -> List.Forall2 (fun c ss => List.Forall2 b_inv (snd c) ss) a sss ->
  List.Forall2 (fun q r => dom (ask_params q) /\ v_ask (z_ops hash svd cross) v_cross a q = Ok r) l rs ->
  dom p -> known_method method -> no_pairs a -> List.Forall2 (fun c q => psr_seen p c (pm q) /\ good_psr hash q) a qs ->
  run (z_ops hash svd cross) (List.map fst a) (l ++ [:: ALike method p]) (new_pta sss) = List.map Ok (rs ++ [:: RLike (Fin (\sum_(q <- qs) psr_term q))]).
Proof. exact array_likelihood_lem. Qed.
Print Assumptions array_likelihood.
(** Two pulsars with white noise, a delay and a process: any sequence of likelihoods *)
Example array_likelihood_example : forall hash svd (l : seq (R * R * R)),
  run (z_ops hash svd y_cross) (List.map fst (y_array None)) [seq ALike "cliques" (y_p q) | q <- l] (new_pta y_start) =
  List.map Ok [seq RLike (Fin (psr_term (y_model q 0) + psr_term (y_model q 1))) | q <- l].
Proof. exact y_likelihood. Qed.

(** C114: arrays with a common signal in every pulsar, correlated by [orf] and with the
    prior [phi] for its coefficients. The likelihood is the log density of all residuals,
    with the covariances of the pulsars as blocks on the diagonal and
    orf(i,j) F_i phi F_j^T off it. *)
Theorem array_correlated : forall (hash : forall n, 'cV[R]_n -> nat) (svd : forall k, 'M[R]_k -> 'M[R]_k * 'cV[R]_k) (St : Type)
  (cross : nat -> St -> St -> params R -> result cz) (dom : params R -> Prop) (v_cross : nat -> nat * nat -> nat * nat -> params R -> result cz),
  (forall p, dom p -> flat_values p) -> dom [::] ->
  forall (a : seq (coll St nz dz fz pz * seq (beh St nz dz fz pz))) (sss : seq (seq St)) l rs method p (k0 K : nat) (orf : nat -> nat -> R) (phi : 'cV[R]_K) (xs : seq (cpsr K)),
  List.Forall (sound_coll dom) a -> sound_commons (z_ops hash svd cross) v_cross a -> List.Forall2 (fun c ss => List.Forall2 b_inv (snd c) ss) a sss ->
  List.Forall2 (fun q r => dom (ask_params q) /\ v_ask (z_ops hash svd cross) v_cross a q = Ok r) l rs ->
  dom p -> known_method method ->
  List.Forall2 (fun c x => [/\ psr_seen p c (pm (cp_q x)), good_psr hash (cp_q x), has_common orf phi x & one_common k0 c x]) a xs ->
  [seq cp_i x | x <- xs] = iota 0 (size xs) -> (1 < size xs)%N ->
  (forall x y, List.In x xs -> List.In y xs -> (cp_i x < cp_i y)%N ->
     v_cross k0 (cp_i x, cp_j x) (cp_i y, cp_j y) p = Ok (Cz (orf (cp_i x) (cp_i y)) (existT phi_t K (PhiD phi)))) ->
  posdef (\matrix_(i < size xs, j < size xs) orf i j) -> (forall k, 0 < phi k ord0) ->
  method = "sparse"%string \/ (forall x s, List.In x xs -> List.In s (processes (pm (cp_q x))) -> is_vector (bphi s)) ->
  run (z_ops hash svd cross) (List.map fst a) (l ++ [:: ALike method p]) (new_pta sss) = List.map Ok (rs ++ [:: RLike (Fin (joint_term orf phi xs))]).
Proof. exact array_correlated_lem. Qed.
Print Assumptions array_correlated.
(** The same two pulsars with their processes correlated by one half *)
Example array_correlated_example : forall hash svd (l : seq (R * R * R)),
  run (z_ops hash svd y_cross) (List.map fst (y_array (Some 0%N))) [seq ALike "partition" (y_p q) | q <- l] (new_pta y_start) =
  List.map Ok [seq RLike (Fin (joint_term y_orf (y_phi q.2) [:: y_cpsr q 0; y_cpsr q 1])) | q <- l].
Proof. exact y_correlated. Qed.
