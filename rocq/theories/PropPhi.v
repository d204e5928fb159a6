(** The prior matrix of an array of pulsars and its inversion.
    Only theorem statements live here; the proofs are in ProofPhi.v. *)
From Coq Require Import Reals String.
From mathcomp Require Import all_ssreflect all_algebra.
From Verif Require Import RStruct PyBase ModelLinalg ProofLinalg ModelNoise ProofNoise ModelLike ProofLike ModelKernel ProofKernel ModelPhi ProofPhi.
Set Implicit Arguments.
Unset Strict Implicit.
Unset Printing Implicit Defensive.
Import GRing.Theory Num.Theory Order.TTheory.
Local Open Scope ring_scope.

(** C38: the slices of the pulsars follow each other, each as long as the
    pulsar's prior (empty without basis), from the first row to the last. *)
Theorem slices_consecutive : forall phis : phis_t,
  size (slices 0 phis) = size phis /\
  (forall p, (p < size phis)%N ->
     (nth (0%N, 0%N) (slices 0 phis) p).2 = ((nth (0%N, 0%N) (slices 0 phis) p).1 + psz (nth None phis p))%N) /\
  (forall p, (p.+1 < size phis)%N -> (nth (0%N, 0%N) (slices 0 phis) p.+1).1 = (nth (0%N, 0%N) (slices 0 phis) p).2) /\
  ((0 < size phis)%N -> (head (0%N, 0%N) (slices 0 phis)).1 = 0%N /\ (last (0%N, 0%N) (slices 0 phis)).2 = psize phis).
Proof. exact slices_consecutive_lem. Qed.
Print Assumptions slices_consecutive.
(** Every row belongs to exactly one pulsar. *)
Theorem slices_partition : forall (phis : phis_t) r, (r < psize phis)%N ->
  exists p, [/\ (p < size phis)%N, (nth (0%N, 0%N) (slices 0 phis) p).1 <= r, (r < (nth (0%N, 0%N) (slices 0 phis) p).2)
    & forall q, (q < size phis)%N -> (nth (0%N, 0%N) (slices 0 phis) q).1 <= r -> (r < (nth (0%N, 0%N) (slices 0 phis) q).2) -> q = p]%N.
Proof. exact slices_partition_lem. Qed.
Print Assumptions slices_partition.
Example slices_satisfiable : slices 0 [:: dense_psr; None; dense_psr] = [:: (0, 2); (2, 2); (2, 4)]%N.
Proof. reflexivity. Qed.

(** C39: entries within a pulsar are its own prior. *)
Theorem phi_own : forall pos (phis : phis_t) (cs : seq (csclass pos)) Phi cc p x (a b : 'I_(projT1 x)) (i j : 'I_(psize phis)),
  List.Forall (@good_class pos phis) cs -> get_phi phis cs = Ok (Phi, cc) -> nth None phis p = Some x ->
  val i = ((nth (0%N, 0%N) (slices 0 phis) p).1 + a)%N -> val j = ((nth (0%N, 0%N) (slices 0 phis) p).1 + b)%N ->
  Phi i j = phi_mx (kphi (projT2 x)) a b.
Proof. exact phi_own_lem. Qed.
Print Assumptions phi_own.
(** Entries between different pulsars are the sum over the common signals. *)
Theorem phi_cross : forall pos (phis : phis_t) (cs : seq (csclass pos)) Phi cc p q (i j : 'I_(psize phis)),
  List.Forall (@good_class pos phis) cs -> get_phi phis cs = Ok (Phi, cc) -> p <> q -> (p < size phis)%N -> (q < size phis)%N ->
  ((nth (0%N, 0%N) (slices 0 phis) p).1 <= i < (nth (0%N, 0%N) (slices 0 phis) p).2)%N ->
  ((nth (0%N, 0%N) (slices 0 phis) q).1 <= j < (nth (0%N, 0%N) (slices 0 phis) q).2)%N ->
  Phi i j = (\sum_(c <- cs) \sum_(m12 <- pairs (cs_mem c)) cross_terms phis c m12.1 m12.2 i j)%R.
Proof. exact phi_cross_lem. Qed.
Print Assumptions phi_cross.
(** One common signal: overlap reduction times the prior at the two columns. *)
Theorem phi_pair : forall pos (phis : phis_t) (c : csclass pos) Phi cc m0 a b (i j : 'I_(psize phis)) (k l : 'I_(mb_k (nth m0 (cs_mem c) a))),
  good_class phis c -> get_phi phis [:: c] = Ok (Phi, cc) -> (a < b < size (cs_mem c))%N ->
  let m1 := nth m0 (cs_mem c) a in let m2 := nth m0 (cs_mem c) b in
  val i = ((nth (0%N, 0%N) (slices 0 phis) (mb_psr m1)).1 + nth 0%N (mb_idx m1) k)%N ->
  val j = ((nth (0%N, 0%N) (slices 0 phis) (mb_psr m2)).1 + nth 0%N (mb_idx m2) l)%N ->
  Phi i j = cs_orf c (mb_pos m1) (mb_pos m2) * phi_mx (mb_prior m1) k l.
Proof. exact phi_pair_lem. Qed.
Print Assumptions phi_pair.
Theorem phi_symmetric : forall pos (phis : phis_t) (cs : seq (csclass pos)) Phi cc,
  List.Forall (@good_class pos phis) cs -> get_phi phis cs = Ok (Phi, cc) ->
  (forall p x, nth None phis p = Some x -> sym (phi_mx (kphi (projT2 x)))) ->
  (forall c m, List.In c cs -> List.In m (cs_mem c) -> sym (phi_mx (mb_prior m))) -> sym Phi.
Proof. exact phi_symmetric_lem. Qed.
Print Assumptions phi_symmetric.
Example phi_satisfiable : good_class ex_phis (ex_cls 1) /\
  exists (Phi : 'M[R]_(psize ex_phis)) cc, get_phi ex_phis [:: ex_cls 1] = Ok (Phi, cc) /\ posdef Phi /\ Phi = ex_mx 1.
Proof. exact (conj (ex_good 1) ex_one). Qed.

(** C40: the cliques method returns the inverse whenever the cliques separate
    the matrix. *)
Theorem cliques_separated : forall N (Phi : 'M[R]_N) cl n,
  (forall i j, i != j -> Phi i j != 0 -> cl i != None /\ cl i = cl j) -> (forall i c, cl i = Some c -> (c < n)%N) ->
  Phi \in unitmx -> (forall i, cl i = None -> 0 < Phi i i) ->
  inv_cliques Phi cl n = Ok (invmx Phi, ln `|\det Phi|).
Proof. exact cliques_separated_lem. Qed.
Print Assumptions cliques_separated.
(** They do for common signals with vector priors, on columns that the
    pulsars' own priors leave in no clique, and that share rows only if they tie
    the same ones. *)
Theorem cliques_vector : forall pos (phis : phis_t) (cs : seq (csclass pos)) Phi cc,
  List.Forall (@good_class pos phis) cs -> good_count phis -> own_separated phis ->
  (forall c, List.In c cs -> free_columns phis c) -> (forall c, List.In c cs -> vector_prior c) -> aligned phis cs ->
  get_phi phis cs = Ok (Phi, cc) -> posdef Phi ->
  phiinv_cliques phis cs = Ok (invmx Phi, ln (\det Phi)).
Proof. exact cliques_vector_lem. Qed.
Print Assumptions cliques_vector.
(** They also do for a common signal with a matrix prior whose columns are one
    clique of each pulsar. *)
Theorem cliques_dense : forall pos (phis : phis_t) (c : csclass pos) Phi cc,
  good_class phis c -> good_count phis -> own_separated phis -> one_clique phis c ->
  get_phi phis [:: c] = Ok (Phi, cc) -> posdef Phi ->
  phiinv_cliques phis [:: c] = Ok (invmx Phi, ln (\det Phi)).
Proof. exact cliques_dense_lem. Qed.
Print Assumptions cliques_dense.
Example cliques_vector_satisfiable : good_class ex_phis (ex_cls 1) /\ good_count ex_phis /\ own_separated ex_phis /\
  free_columns ex_phis (ex_cls 1) /\ vector_prior (ex_cls 1) /\ aligned ex_phis [:: ex_cls 1].
Proof. exact (conj (ex_good 1) (conj ex_count (conj ex_own (conj (ex_free (t := 1)) (conj (ex_vector (t := 1)) (aligned1 (ex_good 1))))))). Qed.
Example cliques_dense_satisfiable :
  (good_class dense_phis dense_cls /\ good_count dense_phis /\ own_separated dense_phis /\ one_clique dense_phis dense_cls) /\
  exists (Phi : 'M[R]_(psize dense_phis)) cc, get_phi dense_phis [:: dense_cls] = Ok (Phi, cc) /\ posdef Phi.
Proof. exact (conj dense_hyps dense_phi). Qed.
(** Entries between rows of different cliques come back as they were, so the
    result is not the inverse for a common signal on part of a dense prior. *)
Theorem cliques_untouched : forall pos (phis : phis_t) (cs : seq (csclass pos)) Phi cl n,
  get_phi phis cs = Ok (Phi, (cl, n)) -> posdef Phi ->
  exists P ld, phiinv_cliques phis cs = Ok (P, ld) /\ forall i j, cl i != cl j -> P i j = Phi i j.
Proof. exact cliques_untouched_lem. Qed.
Print Assumptions cliques_untouched.
Theorem cliques_refuted : exists (pos : Type) (phis : phis_t) (c : csclass pos) (Phi P : 'M[R]_(psize phis)) cc ld,
  good_class phis c /\ vector_prior c /\ own_separated phis /\ good_count phis /\
  get_phi phis [:: c] = Ok (Phi, cc) /\ posdef Phi /\
  phiinv_cliques phis [:: c] = Ok (P, ld) /\ P *m Phi <> 1%:M.
Proof. exact cliques_refuted_lem. Qed.
Print Assumptions cliques_refuted.

(** C41: the partition method returns the inverse for one class. *)
Theorem partition_one_class : forall pos (phis : phis_t) svd (c : csclass pos) Phi cc,
  good_class phis c -> vector_prior c -> own_separated phis -> free_columns phis c ->
  get_phi phis [:: c] = Ok (Phi, cc) -> posdef Phi ->
  phiinv_partition phis svd [:: c] = Ok (invmx Phi, ln (\det Phi)).
Proof. exact partition_one_class_lem. Qed.
Print Assumptions partition_one_class.
Example partition_satisfiable : good_class ex_phis (ex_cls 1) /\ vector_prior (ex_cls 1) /\ own_separated ex_phis /\
  free_columns ex_phis (ex_cls 1).
Proof. exact (conj (ex_good 1) (conj (ex_vector (t := 1)) (conj ex_own (ex_free (t := 1))))). Qed.
(** With two classes it does not: the pulsars' own variances are added to the
    matrices to be inverted once per class. *)
Theorem partition_two_classes_refuted : exists (pos : Type) (phis : phis_t) (cs : seq (csclass pos)) (Phi P : 'M[R]_(psize phis)) cc ld,
  size cs = 2%N /\ List.Forall (@good_class pos phis) cs /\ own_separated phis /\ good_count phis /\
  (forall c, List.In c cs -> vector_prior c /\ free_columns phis c) /\ aligned phis cs /\
  get_phi phis cs = Ok (Phi, cc) /\ posdef Phi /\
  (forall svd, phiinv_partition phis svd cs = Ok (P, ld)) /\ P *m Phi <> 1%:M.
Proof. exact partition_two_classes_refuted_lem. Qed.
Print Assumptions partition_two_classes_refuted.
(** Common signals with matrix priors are refused. *)
Theorem partition_dense : forall pos (phis : phis_t) svd (c : csclass pos) cs m1 m2 ms (X : 'M[R]_(mb_k m1)),
  cs_mem c = m1 :: m2 :: ms -> mb_prior m1 = PhiM X ->
  phiinv_partition phis svd (c :: cs) = Err NotImplementedError.
Proof. exact partition_dense_lem. Qed.
Print Assumptions partition_dense.

(** C42: the three methods agree. *)
Theorem methods_agree : forall pos (phis : phis_t) svd (c : csclass pos) Phi cc method,
  good_class phis c -> vector_prior c -> own_separated phis -> free_columns phis c -> good_count phis ->
  get_phi phis [:: c] = Ok (Phi, cc) -> posdef Phi ->
  method = "cliques"%string \/ method = "partition"%string \/ method = "sparse"%string ->
  get_phiinv phis svd [:: c] method = Ok (invmx Phi, ln (\det Phi)).
Proof. exact methods_agree_lem. Qed.
Print Assumptions methods_agree.
(** The sparse method needs no more than a positive definite matrix, and
    refuses any other symmetric one. *)
Theorem sparse_inverse : forall pos (phis : phis_t) svd (cs : seq (csclass pos)) Phi cc, get_phi phis cs = Ok (Phi, cc) ->
  posdef Phi -> get_phiinv phis svd cs "sparse" = Ok (invmx Phi, ln (\det Phi)).
Proof. exact sparse_inverse_lem. Qed.
Print Assumptions sparse_inverse.
Theorem sparse_refuses : forall pos (phis : phis_t) svd (cs : seq (csclass pos)) Phi cc, get_phi phis cs = Ok (Phi, cc) ->
  sym Phi -> ~ posdef Phi -> get_phiinv phis svd cs "sparse" = Err CholmodError.
Proof. exact sparse_refuses_lem. Qed.
Print Assumptions sparse_refuses.
Theorem method_unknown : forall pos (phis : phis_t) svd (cs : seq (csclass pos)) method,
  method <> "cliques"%string -> method <> "partition"%string -> method <> "sparse"%string ->
  get_phiinv phis svd cs method = Err NotImplementedError.
Proof. exact method_unknown_lem. Qed.
Print Assumptions method_unknown.
