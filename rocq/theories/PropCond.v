(** Conditional coefficients of Gaussian processes: their mean and covariance,
    the signals they are attributed to, and the prior of sampled coefficients.
    Only theorem statements live here; the proofs are in ProofCond.v. *)
From Coq Require Import Reals Ascii String.
From mathcomp Require Import all_ssreflect all_algebra.
From mathcomp Require Import fingroup perm.
From Verif Require Import RStruct PyBase ModelLinalg ProofLinalg ModelNoise ProofNoise ModelLike ProofLike ModelKernel ProofKernel ModelCond ProofCond.
Set Implicit Arguments.
Unset Strict Implicit.
Unset Printing Implicit Defensive.
Import GRing.Theory Num.Theory Order.TTheory.
Local Open Scope ring_scope.

(** C49, C50: the coefficients without variates solve the normal equations and
    maximise the joint density; with standard normal variates they have the
    inverse of the normal matrix as covariance. *)
Theorem conditional_coefficients : forall svd ordering ps common (Phi : 'M[R]_(tot_k ps)),
  (forall p, List.In p ps -> ready p) -> prior_used common Phi ->
  exists b, posterior_mean Phi b /\ draws_with (cond_coefs svd ordering common) b (invmx (precision Phi)).
Proof. exact conditional_coefficients_lem. Qed.
Print Assumptions conditional_coefficients.
Example conditional_coefficients_satisfiable :
  (forall p, List.In p two -> ready p) /\ @prior_used two (Some (invmx Phi2)) Phi2.
Proof. exact (conj (proj1 ex_cond_joint) (proj1 (proj2 ex_cond_joint))). Qed.
Theorem get_coefficients_separate : forall svd svd2 qr ordering sparse ps,
  (forall p, List.In p ps -> ready p /\ posdef (phi_mx (psr_phi p)) /\ svd2_ok svd2 (psr_Sigma svd p)) ->
  exists b, posterior_mean (all_phi ps) b /\
    draws_with (get_coefs svd svd2 qr ordering sparse None) b (invmx (precision (all_phi ps))).
Proof. exact get_coefficients_separate_lem. Qed.
Print Assumptions get_coefficients_separate.
Example get_coefficients_separate_satisfiable : forall p, List.In p two ->
  ready p /\ posdef (phi_mx (psr_phi p)) /\ svd2_ok svd2_diag (psr_Sigma ex_svd p).
Proof. exact ex_cond_separate. Qed.
Theorem get_coefficients_joint : forall svd svd2 qr ordering ps (Phi : 'M[R]_(tot_k ps)),
  (forall p, List.In p ps -> ready p) -> posdef Phi -> svd2_ok svd2 (precision Phi) ->
  exists b, posterior_mean Phi b /\
    draws_with (get_coefs svd svd2 qr ordering false (Some (invmx Phi))) b (invmx (precision Phi)).
Proof. exact get_coefficients_joint_lem. Qed.
Print Assumptions get_coefficients_joint.
Example get_coefficients_joint_satisfiable :
  (forall p, List.In p two -> ready p) /\ @prior_used two (Some (invmx Phi2)) Phi2 /\ posdef (Phi2 : 'M[R]_(tot_k two)) /\
  svd2_ok svd2_diag (@precision two Phi2).
Proof. exact ex_cond_joint. Qed.
(** The sparse branch of get_coefficients forgets the fill-reducing ordering, and
    the QR fallback scales by the wrong power. *)
Theorem get_coefficients_sparse : forall svd svd2 qr (ordering : forall k, 'M[R]_k -> 'S_k) ps (Phi : 'M[R]_(tot_k ps)),
  (forall p, List.In p ps -> ready p) -> posdef Phi ->
  let P := perm_mx (ordering _ (precision Phi)) : 'M[R]_(tot_k ps) in
  exists b, posterior_mean Phi b /\
    draws_with (get_coefs svd svd2 qr ordering true (Some (invmx Phi))) b (P *m invmx (precision Phi) *m P^T).
Proof. exact get_coefficients_sparse_lem. Qed.
Print Assumptions get_coefficients_sparse.
Theorem get_coefficients_sparse_refuted :
  exists svd svd2 qr (ordering : forall k, 'M[R]_k -> 'S_k) ps (Phi : 'M[R]_(tot_k ps)) b,
  (forall p, List.In p ps -> ready p) /\ posdef Phi /\ posterior_mean Phi b /\
  get_coefs svd svd2 qr ordering true (Some (invmx Phi)) None = Ok b /\
  (forall V, draws_with (get_coefs svd svd2 qr ordering true (Some (invmx Phi))) b V -> V <> invmx (precision Phi)).
Proof. exact get_coefficients_sparse_refuted_lem. Qed.
Print Assumptions get_coefficients_sparse_refuted.
Theorem get_coefficients_qr : forall svd (svd2 : forall k, 'M[R]_k -> option ('M[R]_k * 'cV[R]_k)) qr ordering sparse p,
  ready p -> posdef (phi_mx (psr_phi p)) ->
  svd2 _ (psr_Sigma svd p) = None -> qr_ok qr (psr_Sigma svd p) -> svd2_ok svd2 (invmx (psr_Sigma svd p)) ->
  exists b, posterior_mean (all_phi [:: p]) b /\
    draws_with (get_coefs svd svd2 qr ordering sparse None) b (precision (all_phi [:: p])).
Proof. exact get_coefficients_qr_lem. Qed.
Print Assumptions get_coefficients_qr.
Example get_coefficients_qr_satisfiable :
  ready psr1 /\ posdef (phi_mx (psr_phi psr1)) /\ svd2_bad (psr_Sigma ex_svd psr1) = None /\
  qr_ok qr_trivial (psr_Sigma ex_svd psr1) /\ svd2_ok svd2_bad (invmx (psr_Sigma ex_svd psr1)).
Proof. exact ex_cond_qr. Qed.
Theorem get_coefficients_qr_refuted : exists svd svd2 qr ordering p b,
  ready p /\ posdef (phi_mx (psr_phi p)) /\ qr_ok qr (psr_Sigma svd p) /\ posterior_mean (all_phi [:: p]) b /\
  get_coefs svd svd2 qr ordering false None None = Ok b /\
  (forall V, draws_with (get_coefs svd svd2 qr ordering false None) b V -> V <> invmx (precision (all_phi [:: p]))).
Proof. exact get_coefficients_qr_refuted_lem. Qed.
Print Assumptions get_coefficients_qr_refuted.

(** C51: every signal is given the entries of its own columns when no columns are
    shared; with shared columns an IndexError is raised. *)
Theorem attribution : forall (hash : forall n, 'cV[R]_n -> nat) (ps : seq {n : nat & seq (asig n)}) (b : seq R) (gp : bool),
  (forall p, List.In p ps -> typed (projT2 p)) -> List.NoDup (gp_names is_gp ps) ->
  size b = columns_used hash ps -> (forall p, List.In p ps -> unshared hash (projT2 p)) ->
  exists d, attribute b gp [::] None ps = Ok d /\
    (forall k, List.In k (dkeys d) <-> exists x, List.In x (gp_names is_gp ps) /\ k = out_key gp x) /\
    forall p1 n (l1 : seq (asig n)) s F l2 p2,
      ps = p1 ++ existT (fun n => seq (asig n)) n (l1 ++ s :: l2) :: p2 -> a_basis s = Some F ->
      dget string_dec d (out_key gp (a_name s)) = Some (out_val gp F (own_entries hash b p1 (l1 ++ s :: l2) l1)).
Proof. exact attribution_lem. Qed.
Print Assumptions attribution.
Theorem attribution_joint : forall (hash : forall n, 'cV[R]_n -> nat) (ps : seq {n : nat & seq (asig n)}) (b : seq R) (d0 : cdict),
  (forall p, List.In p ps -> typed (projT2 p)) -> List.NoDup (gp_names is_gp ps) -> size b = columns_used hash ps ->
  (forall p, List.In p ps -> unshared hash (projT2 p)) ->
  exists d, attribute_joint d0 b ps = Ok d /\
    (forall k, (forall x, List.In x (gp_names is_gp ps) -> k <> append x "_coefficients") -> dget string_dec d k = dget string_dec d0 k) /\
    forall p1 n (l1 : seq (asig n)) s F l2 p2,
      ps = p1 ++ existT (fun n => seq (asig n)) n (l1 ++ s :: l2) :: p2 -> a_basis s = Some F ->
      dget string_dec d (append (a_name s) "_coefficients") = Some (CArr (own_entries hash b p1 (l1 ++ s :: l2) l1)).
Proof. exact attribution_joint_lem. Qed.
Print Assumptions attribution_joint.
Example attribution_satisfiable : (forall p, List.In p ex_arr -> typed (projT2 p)) /\ List.NoDup (gp_names is_gp ex_arr) /\
  size [:: 5%:R; 7%:R; 11%:R : R] = columns_used hash0 ex_arr /\ forall p, List.In p ex_arr -> unshared hash0 (projT2 p).
Proof. exact ex_attribution. Qed.
Theorem attribution_shared : forall (hash : forall n, 'cV[R]_n -> nat) (ps : seq {n : nat & seq (asig n)}) (b : seq R) (gp : bool),
  (forall p, List.In p ps -> typed (projT2 p)) -> size b = columns_used hash ps ->
  (exists p, List.In p ps /\ ~~ unshared hash (projT2 p)) ->
  attribute b gp [::] None ps = Err IndexError /\ forall d0, attribute_joint d0 b ps = Err IndexError.
Proof. exact attribution_shared_lem. Qed.
Print Assumptions attribution_shared.
Example attribution_shared_satisfiable : let ps := [:: existT (fun n => seq (asig n)) 1%N ex_share] in
  (forall p, List.In p ps -> typed (projT2 p)) /\ size [:: 5%:R : R] = columns_used hash0 ps /\
  exists p, List.In p ps /\ ~~ unshared hash0 (projT2 p).
Proof. exact ex_attribution_shared. Qed.
(** Without common signals get_coefficients counts only the signals of type
    "basis": right for those with no signal of type "common basis" before them. *)
Theorem attribution_separate : forall (hash : forall n, 'cV[R]_n -> nat) (pbs : seq ({n : nat & seq (asig n)} * seq R)) (d0 : cdict),
  (forall pb, List.In pb pbs -> typed (projT2 pb.1) /\ unshared hash (projT2 pb.1) /\
     size pb.2 = combine_ncol (@hash (projT1 pb.1)) (bases (projT2 pb.1))) ->
  List.NoDup (gp_names only_basis [seq pb.1 | pb <- pbs]) ->
  exists d, attribute_separate d0 pbs = Ok d /\
    (forall k, (forall x, List.In x (gp_names only_basis [seq pb.1 | pb <- pbs]) -> k <> append x "_coefficients") ->
       dget string_dec d k = dget string_dec d0 k) /\
    forall q1 n (l1 : seq (asig n)) s F l2 b q2,
      pbs = q1 ++ (existT (fun n => seq (asig n)) n (l1 ++ s :: l2), b) :: q2 -> a_type s = TBasis -> a_basis s = Some F ->
      (forall x, List.In x l1 -> a_type x <> TCommon) ->
      dget string_dec d (append (a_name s) "_coefficients") = Some (CArr (own_entries hash b [::] (l1 ++ s :: l2) l1)).
Proof. exact attribution_separate_lem. Qed.
Print Assumptions attribution_separate.
Example attribution_separate_satisfiable :
  let pbs := [:: (existT (fun n => seq (asig n)) 1%N [:: sig_r; sig_c], [:: 5%:R; 7%:R : R])] in
  (forall pb, List.In pb pbs -> typed (projT2 pb.1) /\ unshared hash0 (projT2 pb.1) /\
     size pb.2 = combine_ncol (@hash0 (projT1 pb.1)) (bases (projT2 pb.1))) /\
  List.NoDup (gp_names only_basis [seq pb.1 | pb <- pbs]).
Proof. exact ex_attribution_separate. Qed.
Theorem attribution_separate_refuted :
  exists (hash : forall n, 'cV[R]_n -> nat) n (l1 : seq (asig n)) s F l2 (b : seq R) d,
    typed (l1 ++ s :: l2) /\ unshared hash (l1 ++ s :: l2) /\ size b = combine_ncol (@hash n) (bases (l1 ++ s :: l2)) /\
    List.NoDup [seq a_name x | x <- l1 ++ s :: l2] /\ a_type s = TBasis /\ a_basis s = Some F /\
    attribute_separate [::] [:: (existT (fun n => seq (asig n)) n (l1 ++ s :: l2), b)] = Ok d /\
    dget string_dec d (append (a_name s) "_coefficients") <> Some (CArr (own_entries hash b [::] (l1 ++ s :: l2) l1)) /\
    exists x, List.In x l1 /\ is_gp (a_type x) /\ dget string_dec d (append (a_name x) "_coefficients") = None.
Proof. exact attribution_separate_refuted_lem. Qed.
Print Assumptions attribution_separate_refuted.
(** The entry of a timing-model parameter is that of the column at the
    parameter's place in [fitpars]; wrong if columns were excluded. *)
Theorem timing_attribution : forall (hash : forall n, 'cV[R]_n -> nat) n (l1 : seq (asig n)) s (F : bsig n) l2 (b : seq R) (gp : bool)
    (fp : seq string) (t : string) (j : 'I_(bk F)),
  typed (l1 ++ s :: l2) -> unshared hash (l1 ++ s :: l2) -> size b = combine_ncol (@hash n) (bases (l1 ++ s :: l2)) ->
  a_basis s = Some F -> substring_of "timing_model" (a_name s) = true ->
  (forall x, List.In x (l1 ++ l2) -> substring_of "timing_model" (a_name x) = false) ->
  find_str t fp = Some (j : nat) ->
  (forall x, List.In x (l1 ++ s :: l2) -> is_gp (a_type x) -> tm_key gp (a_name s) t <> out_key gp (a_name x)) ->
  exists d d', attribute b gp [:: t] (Some fp) [:: existT (fun n => seq (asig n)) n (l1 ++ s :: l2)] = Ok d /\
    attribute b gp [::] None [:: existT (fun n => seq (asig n)) n (l1 ++ s :: l2)] = Ok d' /\
    (forall k, k <> tm_key gp (a_name s) t -> dget string_dec d k = dget string_dec d' k) /\
    dget string_dec d (tm_key gp (a_name s) t) =
      let c := nth 0 (own_entries hash b [::] (l1 ++ s :: l2) l1) j in
      Some (if gp then CArr (scale_col (bF F) j c) else CNum c).
Proof. exact timing_attribution_lem. Qed.
Print Assumptions timing_attribution.
Example timing_attribution_satisfiable : let l := [:: sig_t; sig_r] in
  typed l /\ unshared hash0 l /\ size [:: 5%:R; 7%:R : R] = combine_ncol (@hash0 1) (bases l) /\
  substring_of "timing_model" (a_name sig_t) = true /\ substring_of "timing_model" (a_name sig_r) = false /\
  find_str "A"%string [:: "A"%string] = Some 0%N /\
  forall x, List.In x l -> is_gp (a_type x) -> tm_key false (a_name sig_t) "A" <> out_key false (a_name x).
Proof. exact ex_timing_attribution. Qed.
Theorem timing_attribution_refuted :
  exists (hash : forall n, 'cV[R]_n -> nat) n (l1 : seq (asig n)) s F l2 (b : seq R) (fp : seq string) (t : string) (excl : seq nat) d,
    typed (l1 ++ s :: l2) /\ unshared hash (l1 ++ s :: l2) /\ size b = combine_ncol (@hash n) (bases (l1 ++ s :: l2)) /\
    List.NoDup [seq a_name x | x <- l1 ++ s :: l2] /\ a_basis s = Some F /\ substring_of "timing_model" (a_name s) = true /\
    (forall x, List.In x (l1 ++ l2) -> substring_of "timing_model" (a_name x) = false) /\
    bk F = size [seq i <- iota 0 (size fp) | i \notin excl] /\
    attribute b false [:: t] (Some fp) [:: existT (fun n => seq (asig n)) n (l1 ++ s :: l2)] = Ok d /\
    exists j, find_str t fp = Some j /\ j \in [seq i <- iota 0 (size fp) | i \notin excl] /\
      dget string_dec d (tm_key false (a_name s) t) <>
      Some (CNum (nth 0 (own_entries hash b [::] (l1 ++ s :: l2) l1) (index j [seq i <- iota 0 (size fp) | i \notin excl]))).
Proof. exact timing_attribution_refuted_lem. Qed.
Print Assumptions timing_attribution_refuted.

(** C53: the prior of sampled coefficients is their Gaussian log density, their
    delay is the basis times them, and likelihood and prior together are the
    marginal likelihood times the density of the coefficients given the data. *)
Theorem coefficient_prior : forall svd k (c : 'cV[R]_k) (phi : phi_t k), posdef (phi_mx phi) ->
  coef_logprior svd c phi = log_gaussian c (phi_mx phi).
Proof. exact coefficient_prior_lem. Qed.
Print Assumptions coefficient_prior.
Example coefficient_prior_satisfiable : posdef (phi_mx ex_phi).
Proof. exact ex_phi_posdef. Qed.
Theorem coefficient_delay : forall n (bs : seq (selblk n)) (xs : seq (seq R)), sel_shapes bs ->
  [seq size x | x <- xs] = [seq sb_k b | b <- bs] ->
  exists F, sel_basis bs = Ok F /\ coef_delay bs xs = Ok (F *m \col_i nth 0 (flatten xs) i).
Proof. exact coefficient_delay_lem. Qed.
Print Assumptions coefficient_delay.
Example coefficient_delay_satisfiable : sel_shapes (n := 2) [:: SelBlk (fun _ => true) (const_mx 1 : 'M[R]_(2, 3)) (PhiD 0)].
Proof. exact ex_coef_delay. Qed.
Theorem coefficient_marginal : forall svd n k k0 (N : nobj n) r (F : 'M[R]_(n, k)) phi (T0 : 'M[R]_(n, k0)) phi0 prior c,
  good_noise N -> (if N is NBlk _ _ then (1 < k)%N else True) -> posdef (phi_mx phi) ->
  exists a b,
    loglike svd [:: Pulsar N (r - F *m c) false T0 phi0 prior] = Ok (Fin a) /\
    loglike svd [:: Pulsar N r true F phi prior] = Ok (Fin b) /\
    (a + coef_logprior svd c phi)%R =
    (b + log_gaussian (c - coef_mean (cov_of N) (tm_M N) F (phi_mx phi) r) (invmx (coef_precision (cov_of N) (tm_M N) F (phi_mx phi))))%R.
Proof. exact coefficient_marginal_lem. Qed.
Print Assumptions coefficient_marginal.
Theorem coefficient_marginal_gp : forall svd n k l (N : nobj n) r (F : 'M[R]_(n, k)) phi (T : 'M[R]_(n, l)) phiT phi' prior c,
  good_noise N -> (if N is NBlk _ _ then (1 < l)%N else True) -> posdef (phi_mx phi) -> posdef (phi_mx phiT) ->
  phi_mx phi' = block_mx (phi_mx phiT) 0 0 (phi_mx phi) ->
  let C := cov_of N + T *m phi_mx phiT *m T^T in
  exists a b,
    loglike svd [:: Pulsar N (r - F *m c) true T phiT prior] = Ok (Fin a) /\
    loglike svd [:: Pulsar N r true (row_mx T F) phi' prior] = Ok (Fin b) /\
    (a + coef_logprior svd c phi)%R =
    (b + log_gaussian (c - coef_mean C (tm_M N) F (phi_mx phi) r) (invmx (coef_precision C (tm_M N) F (phi_mx phi))))%R.
Proof. exact coefficient_marginal_gp_lem. Qed.
Print Assumptions coefficient_marginal_gp.
Example coefficient_marginal_satisfiable : good_noise (NMarg ex_M (NSM ex_bs (NVec ex_v))) /\ posdef (phi_mx ex_phi).
Proof. exact ex_coef_marginal. Qed.
