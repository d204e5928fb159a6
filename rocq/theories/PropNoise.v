(** White-noise objects: solves, log-determinants and sums.
    Only theorem statements live here; the proofs are in ProofNoise.v. *)
From Coq Require Import Reals.
From mathcomp Require Import all_ssreflect all_algebra.
From Verif Require Import RStruct PyBase ModelLinalg ProofLinalg ModelNoise ProofNoise.
Set Implicit Arguments.
Unset Strict Implicit.
Unset Printing Implicit Defensive.
Import GRing.Theory Num.Theory Order.TTheory.
Local Open Scope ring_scope.

(** C28: a diagonal noise object solves with its own covariance. *)
Theorem diag_solve : forall n (v : 'cV[R]_n) other left ld, (forall i, 0 < v i ord0) ->
  solve (NVec v) other left ld = exact_ret (diag_cov v) other (left_of other left) ld.
Proof. exact diag_solve_lem. Qed.
Print Assumptions diag_solve.
Example diag_solve_satisfiable : forall i, 0 < ex_v i ord0.
Proof. exact ex_v_pos. Qed.

(** C29: the Sherman-Morrison object solves with diagonal plus ECORR covariance. *)
Theorem sherman_morrison_solve : forall n (v : 'cV[R]_n) (bs : seq (seq 'I_n * R)) other left ld,
  (forall i, 0 < v i ord0) -> (forall b, b \in bs -> 0 < b.2) ->
  disjoint_epochs [seq b.1 | b <- bs] ->
  (forall k (X : 'M[R]_(n, k)), other = A2 X -> left <> LNone) ->
  solve (NSM bs (NVec v)) other left ld
    = exact_ret (diag_cov v + ecorr_cov bs) other (left_of other left) ld.
Proof. exact sherman_morrison_solve_lem. Qed.
Print Assumptions sherman_morrison_solve.
Example sherman_morrison_solve_satisfiable :
  (forall i, 0 < ex_v i ord0) /\ (forall b, b \in ex_bs -> 0 < b.2) /\ disjoint_epochs [seq b.1 | b <- ex_bs].
Proof. exact (conj ex_v_pos (conj ex_bs_pos ex_disjoint)). Qed.
(** With overlapping epochs the solve is not that of the covariance. *)
Theorem sherman_morrison_overlapping_refuted : exists n (v : 'cV[R]_n) (bs : seq (seq 'I_n * R)) other left ld,
  (forall i, 0 < v i ord0) /\ (forall b, b \in bs -> 0 < b.2) /\ (forall b, b \in bs -> uniq b.1) /\
  (forall k (X : 'M[R]_(n, k)), other = A2 X -> left <> LNone) /\
  solve (NSM bs (NVec v)) other left ld
    <> exact_ret (diag_cov v + ecorr_cov bs) other (left_of other left) ld.
Proof. exact sherman_morrison_overlapping_lem. Qed.
Print Assumptions sherman_morrison_overlapping_refuted.

(** C30: the block-diagonal object solves with diagonal plus block covariance. *)
Theorem blockmatrix_solve : forall n (v : 'cV[R]_n) (bs : blocks n) other left ld,
  (0 < n)%N -> (forall i, 0 < v i ord0) -> disjoint_epochs [seq projT1 b | b <- bs] ->
  (forall b, b \in bs -> (1 < size (projT1 b))%N -> posdef (blk_sum v (projT2 b))) ->
  regular_shapes other (left_of other left) ->
  solve (NBlk bs (NVec v)) other left ld
    = exact_ret (diag_cov v + block_cov bs) other (left_of other left) ld.
Proof. exact blockmatrix_solve_lem. Qed.
Print Assumptions blockmatrix_solve.
Theorem blockmatrix_not_posdef : forall n (v : 'cV[R]_n) (bs : blocks n) other left ld,
  (0 < n)%N -> (forall i, 0 < v i ord0) -> (forall b, b \in bs -> sym (projT2 b)) ->
  (exists b, b \in bs /\ (1 < size (projT1 b))%N /\ ~ posdef (blk_sum v (projT2 b))) ->
  solve (NBlk bs (NVec v)) other left ld = Err LinAlgError.
Proof. exact blockmatrix_not_posdef_lem. Qed.
Print Assumptions blockmatrix_not_posdef.
Theorem blockmatrix_row_raises : forall n k (v : 'cV[R]_n) (bs : blocks n) (X : 'M[R]_(n, k)) y ld,
  (0 < n)%N -> (forall i, 0 < v i ord0) -> disjoint_epochs [seq projT1 b | b <- bs] ->
  (forall b, b \in bs -> (1 < size (projT1 b))%N -> posdef (blk_sum v (projT2 b))) -> k <> 1%N ->
  solve (NBlk bs (NVec v)) (A2 X) (LArr (A1 y)) ld = Err TypeError.
Proof. exact blockmatrix_row_raises_lem. Qed.
Print Assumptions blockmatrix_row_raises.
Theorem blockmatrix_no_epoch : forall n (v : 'cV[R]_n), (0 < n)%N -> (forall i, 0 < v i ord0) ->
  (forall o, ecorr_block [::] = Ok o -> get_ndiag [:: NVec v; o] = Err ValueError) /\
  (forall o, ecorr_block [::] = Ok o -> get_ndiag [:: o; NVec v] = Err ValueError).
Proof. exact blockmatrix_no_epoch_lem. Qed.
Print Assumptions blockmatrix_no_epoch.
Example blockmatrix_solve_satisfiable :
  (forall i, 0 < ex_v i ord0) /\ disjoint_epochs [seq projT1 b | b <- ecorr_blocks ex_bs] /\
  (forall b, b \in ecorr_blocks ex_bs -> (1 < size (projT1 b))%N -> posdef (blk_sum ex_v (projT2 b))).
Proof. exact (conj ex_v_pos (conj ex_disjoint_blocks ex_block_posdef)). Qed.
Example blockmatrix_not_posdef_satisfiable :
  exists b, b \in bad_block /\ (1 < size (projT1 b))%N /\ ~ posdef (blk_sum ex_v (projT2 b)).
Proof. exact ex_bad_block. Qed.

(** C31: summing the noise components of a pulsar gives the sum of their covariances. *)
Theorem noise_sum : forall n (l : seq (nobj n)) o,
  (forall b, List.In b l -> component b) -> get_ndiag l = Ok o ->
  meaning o = Some (flatten [seq timing b | b <- l], \sum_(b <- l) component_cov b) \/
  (forall other left ld, solve o other left ld = Err TypeError \/ solve o other left ld = Err ValueError).
Proof. exact noise_sum_lem. Qed.
Print Assumptions noise_sum.
Theorem noise_layouts : forall n (vs1 vs2 vs3 : seq 'cV[R]_n) (e : seq (nobj n)) (tm : seq (nobj n)),
  (0 < n)%N -> (forall v, v \in vs1 ++ vs2 ++ vs3 -> forall i, 0 < v i ord0) ->
  (e = [::] \/ exists e0, correlated e0 /\ e = [:: e0]) ->
  (tm = [::] \/ exists k (M : 'M[R]_(n, k)), tm = [:: NMarg M (NScal 0)]) ->
  let l := [seq NVec v | v <- vs1] ++ tm ++ [seq NVec v | v <- vs2] ++ e ++ [seq NVec v | v <- vs3] in
  exists o, get_ndiag l = Ok o /\
    meaning o = Some (flatten [seq timing b | b <- l], \sum_(b <- l) component_cov b).
Proof. exact noise_layouts_lem. Qed.
Print Assumptions noise_layouts.
Example noise_layouts_satisfiable :
  (0 < 3)%N /\ (forall v, v \in [:: ex_v] ++ [::] ++ [:: ex_v] -> forall i, 0 < v i ord0) /\ correlated (ecorr_sm ex_bs).
Proof. exact ex_layout. Qed.
(** An ECORR component ahead of a marginalised timing model gives an object that cannot be solved with. *)
Theorem ecorr_before_marginalizing : forall n (l1 l2 l3 : seq (nobj n)) bs k (M : 'M[R]_(n, k)) o,
  get_ndiag (l1 ++ NSM bs (NScal 0) :: l2 ++ NMarg M (NScal 0) :: l3) = Ok o ->
  forall other left ld, solve o other left ld = Err TypeError \/ solve o other left ld = Err ValueError.
Proof. exact ecorr_before_marginalizing_lem. Qed.
Print Assumptions ecorr_before_marginalizing.
Example ecorr_before_marginalizing_satisfiable :
  exists o, get_ndiag [:: NVec ex_v; ecorr_sm ex_bs; NMarg ex_M (NScal 0)] = Ok o.
Proof. exact ex_bad_order. Qed.

(** C44: a marginalised timing model projects the timing parameters out. *)
Theorem marginalizing_solve : forall n k (M : 'M[R]_(n, k)) (N : nobj n),
  proper_noise N -> full_rank M ->
  exists C, inner_cov N = Some C /\ posdef C /\ posdef (M^T *m invmx C *m M) /\
    (forall other ld, solve (NMarg M N) other LSame ld =
       Ok (product_with (proj_inv C M) other other,
           if other is A1 _ then
             if ld then Some (ln (\det C) + ln (\det (M^T *m invmx C *m M)) + k%:R * ln (pow 10 40)) else None
           else None)) /\
    (forall other left ld, marg_shapes other left ->
       solve (NMarg M N) other (LArr left) ld = Ok (product_with (proj_inv C M) other left, None)) /\
    (forall other left ld, ~~ marg_shapes other left -> solve (NMarg M N) other (LArr left) ld = Err ValueError) /\
    (forall other ld, solve (NMarg M N) other LNone ld = Err ValueError).
Proof. exact marginalizing_solve_lem. Qed.
Print Assumptions marginalizing_solve.
Theorem marginalizing_invariance : forall n k (M : 'M[R]_(n, k)) (N : nobj n) (r : 'cV[R]_n) (x : 'cV[R]_k) ld,
  proper_noise N -> full_rank M ->
  solve (NMarg M N) (A1 (r + M *m x)) LSame ld = solve (NMarg M N) (A1 r) LSame ld /\
  (forall left, solve (NMarg M N) (A1 (r + M *m x)) (LArr left) ld = solve (NMarg M N) (A1 r) (LArr left) ld) /\
  (exists d, solve (NMarg M N) (A1 (M *m x)) LSame ld = Ok (OS 0, d)) /\
  (forall l (T : 'M[R]_(n, l)), solve (NMarg M N) (A1 (M *m x)) (LArr (A2 T)) ld = Ok (OV (nseq l 0), None)).
Proof. exact marginalizing_invariance_lem. Qed.
Print Assumptions marginalizing_invariance.
Theorem marginalizing_rank_deficient : forall n k (M : 'M[R]_(n, k)) (N : nobj n) other ld,
  proper_noise N -> ~ full_rank M -> solve (NMarg M N) other LSame ld = Err CholmodError.
Proof. exact marginalizing_rank_deficient_lem. Qed.
Print Assumptions marginalizing_rank_deficient.
Example marginalizing_solve_satisfiable : proper_noise (NSM ex_bs (NVec ex_v)) /\ full_rank ex_M.
Proof. exact (conj ex_proper ex_full_rank). Qed.
Example marginalizing_rank_deficient_satisfiable :
  proper_noise (NSM ex_bs (NVec ex_v)) /\ ~ full_rank (0 : 'M[R]_(3, 1)).
Proof. exact (conj ex_proper ex_rank_deficient). Qed.

(** C46: what may be added to a marginalised timing model, and which products it can form. *)
Theorem marginalizing_add : forall n k (M : 'M[R]_(n, k)) (N : nobj n),
  (forall k' (M' : 'M[R]_(n, k')) N', nadd (NMarg M N) (NMarg M' N') = Err ValueError) /\
  nadd (NMarg M N) (NScal 0) = Ok (NMarg M N) /\ nadd (NScal 0) (NMarg M N) = Ok (NMarg M N) /\
  (forall c, c <> 0 -> nadd (NMarg M N) (NScal c) = Err TypeError /\ nadd (NScal c) (NMarg M N) = Err TypeError).
Proof. exact marginalizing_add_lem. Qed.
Print Assumptions marginalizing_add.
Theorem marginalizing_add_vector : forall n k (M : 'M[R]_(n, k)) (N : nobj n) C (v : 'cV[R]_n),
  v <> 0 -> inner_cov N = Some C ->
  (forall o, nadd (NVec v) (NMarg M N) = Ok o \/ nadd (NMarg M N) (NVec v) = Ok o ->
     exists N', o = NMarg M N' /\ inner_cov N' = Some (C + diag_cov v)) /\
  ((if N is NBlk bs _ then bs <> [::] else True) ->
     exists o o', nadd (NVec v) (NMarg M N) = Ok o /\ nadd (NMarg M N) (NVec v) = Ok o').
Proof. exact marginalizing_add_vector_lem. Qed.
Print Assumptions marginalizing_add_vector.
Example marginalizing_add_vector_satisfiable : ex_v <> 0 /\ inner_cov (NSp (diag_cov ex_v)) = Some (diag_cov ex_v).
Proof. exact ex_add_vector. Qed.
Theorem marginalizing_shapes : forall n k (M : 'M[R]_(n, k)) (N : nobj n) ld,
  (forall other, solve (NMarg M N) other LNone ld = Err ValueError) /\
  (forall l (X : 'M[R]_(n, l)) y, solve (NMarg M N) (A2 X) (LArr (A1 y)) ld = Err ValueError).
Proof. exact marginalizing_shapes_lem. Qed.
Print Assumptions marginalizing_shapes.

(** C89: the three ECORR methods describe the same noise. *)
Theorem ecorr_methods : forall n (v : 'cV[R]_n) (bs : seq (seq 'I_n * R)) other left ld (swap : bool),
  (0 < n)%N -> (forall i, 0 < v i ord0) -> (forall b, b \in bs -> 0 < b.2) ->
  disjoint_epochs [seq b.1 | b <- bs] ->
  let white o := get_ndiag (if swap then [:: o; NVec v] else [:: NVec v; o]) in
  let C := diag_cov v + ecorr_cov bs in
  [/\ (forall k (X : 'M[R]_(n, k)), other = A2 X -> left <> LNone) ->
        rbind (white (ecorr_sm bs)) (fun o => solve o other left ld) = exact_ret C other (left_of other left) ld,
      rbind (white (ecorr_sparse bs)) (fun o => solve o other left ld) = exact_ret C other (left_of other left) ld
    & bs <> [::] -> regular_shapes other (left_of other left) ->
        rbind (rbind (ecorr_block bs) white) (fun o => solve o other left ld) = exact_ret C other (left_of other left) ld].
Proof. exact ecorr_methods_lem. Qed.
Print Assumptions ecorr_methods.
Theorem sparse_solve : forall n (A : 'M[R]_n) other left ld, sym A ->
  (posdef A -> solve (NSp A) other left ld = exact_ret A other (left_of other left) ld) /\
  (~ posdef A -> solve (NSp A) other left ld = Err CholmodError).
Proof. exact sparse_solve_lem. Qed.
Print Assumptions sparse_solve.
Example ecorr_methods_satisfiable :
  (0 < 3)%N /\ (forall i, 0 < ex_v i ord0) /\ (forall b, b \in ex_bs -> 0 < b.2) /\
  disjoint_epochs [seq b.1 | b <- ex_bs] /\ ex_bs <> [::].
Proof. by do 4 (split; first by [exact: ex_v_pos|exact: ex_bs_pos|exact: ex_disjoint|]). Qed.
