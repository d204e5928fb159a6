(** C117: arrays with ECORR noise, marginalised timing models and several common processes,
    from the functions, TOAs and selections they were made with. *)
From Coq Require Import Reals String.
From mathcomp Require Import all_ssreflect all_algebra.
From Verif Require Import RStruct PyBase ModelSelect ProofSelect ProofQuant ModelFunc ModelCache ModelGp ProofGp ModelLinalg ProofLinalg ModelNoise ProofNoise ModelLike ProofLike ModelKernel ProofKernel ModelPhi ModelColl ProofColl ModelEcorr ProofEcorr ModelSigs ProofSigs ModelArray ProofArray ProofJoint ProofCorr ProofArrayEx ModelSized ProofSrc ProofSized ProofSource ModelKinds ProofShare ProofMulti ProofMany ProofKinds ProofKindsEx.
Import GRing.Theory Num.Theory.
Local Open Scope seq_scope.
Local Open Scope ring_scope.

(** C117: ECORR noise with the value [val k] for selection [k], from the parameters or fixed:
    epochs of two or more TOAs of one selection within a second, no TOA in two, simultaneous
    TOAs of a selection in one. Added to white noise, before or after it and with or
    without a marginalised timing model before it, it makes noise with covariance
    10^(2 val) between the TOAs of an epoch. *)
Theorem kinds_ecorr : forall argsort fns (block : bool) kind psrname toas masks p (val : string -> R),
  ecorr_ok argsort toas masks -> masks <> [::] ->
  (forall k, List.In k (dkeys masks) -> match kind with Varies => dget string_dec p (ecorr_param psrname k) = Some (Sc (val k)) | Fixed v => v (ecorr_param psrname k) = Some (val k) end) ->
  exists bs : seq (seq 'I_(size toas) * R),
    [/\ (forall b, b \in bs -> exists2 k, List.In k (dkeys masks) &
           [/\ b.2 = Rpower 10 (2 * val k), (1 < size b.1)%N, (forall i : 'I_(size toas), i \in b.1 -> selects masks k i) &
               forall i j : 'I_(size toas), i \in b.1 -> j \in b.1 -> (Rabs (nth 0 toas i - nth 0 toas j) < 1)%coqR]),
        disjoint_epochs [seq b.1 | b <- bs],
        (forall k (i j : 'I_(size toas)), i != j -> selects masks k i -> selects masks k j -> nth 0 toas i = nth 0 toas j -> exists2 b, b \in bs & (i \in b.1) && (j \in b.1)) &
        (block -> bs <> [::]) -> exists2 N, wadds argsort fns p (Ecorr block kind psrname toas masks) (View (Some N) (Some None) None 0) &
          forall (vs1 vs2 vs3 : seq 'cV[R]_(size toas)) tm, (forall v, v \in vs1 ++ vs2 ++ vs3 -> posv v) -> vs1 ++ vs2 ++ vs3 <> [::] -> timing_noise tm ->
            exists2 N', ModelNoise.get_ndiag ([seq NVec v | v <- vs1] ++ tm ++ [seq NVec v | v <- vs2] ++ N :: [seq NVec v | v <- vs3]) = Ok N' &
              good_noise N' /\ cov_of N' = diag_cov (\sum_(v <- vs1 ++ vs2 ++ vs3) v) + ecorr_cov bs].
Proof. exact kinds_ecorr_lem. Qed.
Print Assumptions kinds_ecorr.
(** Three TOAs in one selection, two of them simultaneous *)
Example kinds_ecorr_example : ecorr_ok argsort_ins k_toas k_masks /\ k_masks <> [::] /\
  (forall q k, List.In k (dkeys k_masks) -> dget string_dec (k_p q) (ecorr_param "A" k) = Some (Sc q.1.1.2)).
Proof. exact k_ecorr_ok. Qed.

(** C117: with a selection without masks the signal is made and its noise raises. *)
Theorem kinds_ecorr_empty : forall argsort block kind psrname toas e p,
  new_ecorr argsort block kind psrname toas [::] = Ok e -> ecorr_body e p = Err ValueError.
Proof. exact kinds_ecorr_empty_lem. Qed.
Print Assumptions kinds_ecorr_empty.
Example kinds_ecorr_empty_example : exists e, new_ecorr argsort_ins false Varies "A" k_toas [::] = Ok e.
Proof. by eexists. Qed.

(** C117, C118: as C115, with ECORR noise (with parameters or constants, by the
    Sherman-Morrison or the block method), marginalised timing models and wideband timing
    models among the signals. *)
Theorem kinds_likelihood : forall (hash : forall n, 'cV[R]_n -> nat) (svd : forall k, 'M[R]_k -> 'M[R]_k * 'cV[R]_k) (argsort : seq R -> seq nat) (fns : nat -> fob * fob)
  (arr : seq (seq wsrc * seq R)) (dss : seq (seq wdesc)) (l : seq (string * params R * seq psr_model)),
  (forall c s, List.In c arr -> List.In s c.1 -> wproper s) -> new_warray argsort fns arr = Ok dss -> walone arr ->
  (forall t, List.In t l -> [/\ known_method t.1.1, wpermitted fns arr t.1.2 & List.Forall2 (fun c q => psr_wadds argsort fns t.1.2 c (pm q) /\ good_psr hash q) arr t.2]) ->
  run (z_ops hash svd (wcross fns)) (warray_colls fns dss arr) [seq ALike t.1.1 t.1.2 | t <- l] (warray_start dss) =
  [seq Ok (RLike (Fin (\sum_(q <- t.2) psr_term q))) | t <- l].
Proof. exact kinds_likelihood_lem. Qed.
Print Assumptions kinds_likelihood.
(** White noise in two pulsars; in the first ECORR noise with a parameter, a marginalised
    offset and two processes, in the second ECORR noise with a constant and the block method *)
Example kinds_likelihood_example : forall svd (l : seq (R * R * R * R)),
  run (z_ops k_hash svd (wcross k_fns)) (warray_colls k_fns (k_dss k_one) k_one) [seq ALike "partition" (k_p q) | q <- l] (warray_start (k_dss k_one)) =
  [seq Ok (RLike (Fin (psr_term (k_A q) + psr_term (k_B false q)))) | q <- l].
Proof. exact k_likelihood. Qed.

(** C117, C118: the same with common processes of several classes, each in some of the pulsars.
    [wmember] gives their bases and priors, [wcorrelation] the correlations of the positions.
    Each of any sequence of likelihoods is the log density of all residuals together, with
    the covariance of C116. *)
Theorem kinds_classes : forall (hash : forall n, 'cV[R]_n -> nat) (svd : forall k, 'M[R]_k -> 'M[R]_k * 'cV[R]_k) (argsort : seq R -> seq nat) (fns : nat -> fob * fob)
  (arr : seq (seq wsrc * seq R)) (dss : seq (seq wdesc)) (K : nat -> nat) (ks : seq nat)
  (l : seq (string * params R * (nat -> nat -> nat -> R) * (forall k, 'cV[R]_(K k)) * seq (mpsr K))),
  (forall c s, List.In c arr -> List.In s c.1 -> wproper s) -> new_warray argsort fns arr = Ok dss -> uniq ks ->
  (forall method p orf phi xs, List.In (method, p, orf, phi, xs) l ->
    [/\ method_for method xs, wpermitted fns arr p,
        List.Forall2 (fun c x => [/\ psr_wadds argsort fns p c (pm (mp_q x)), good_psr hash (mp_q x), has_process x, wmember fns p phi c x & wothers c x]) arr xs,
        [/\ [seq mp_i x | x <- xs] = iota 0 (size xs), (forall x k, List.In x xs -> mp_j x k -> k \in ks), (exists k, (1 < size (members xs k))%N) & wcorrelation fns arr p orf xs]
      & forall k, k \in ks -> posdef (\matrix_(i < size xs, j < size xs) orf k i j) /\ forall i, 0 < phi k i ord0]) ->
  run (z_ops hash svd (wcross fns)) (warray_colls fns dss arr) [seq ALike t.1.1.1.1 t.1.1.1.2 | t <- l] (warray_start dss) =
  [seq Ok (RLike (Fin (many_term t.1.1.2 t.1.2 t.2 ks))) | t <- l].
Proof. exact kinds_classes_lem. Qed.
Print Assumptions kinds_classes.
(** The same pulsars with the two processes in both *)
Example kinds_classes_example : forall svd (l : seq (R * R * R * R)),
  run (z_ops k_hash svd (wcross k_fns)) (warray_colls k_fns (k_dss k_two) k_two) [seq ALike "cliques" (k_p q) | q <- l] (warray_start (k_dss k_two)) =
  [seq Ok (RLike (Fin (many_term (fun _ => y_orf) (fun k => const_mx (1 + k_val q k * k_val q k)) (k_xs q) [:: 0%N; 1%N]))) | q <- l].
Proof. exact k_classes. Qed.
