(** Normal priors with a covariance matrix.
    Only theorem statements live here; the proofs are in ProofGauss.v. *)
From Coq Require Import Reals Lra.
From mathcomp Require Import all_ssreflect all_algebra.
From Verif Require Import RStruct PyBase ModelPrior ModelGauss ProofLinalg ProofLike ProofGauss.
Set Implicit Arguments.
Unset Strict Implicit.
Unset Printing Implicit Defensive.
Import GRing.Theory Num.Theory Order.TTheory.
Local Open Scope ring_scope.

(** C59: with a diagonal covariance the density is the product of the scalar ones,
    and it transforms like a density under every linear change of variables; it is
    symmetric and maximal at the mean, its logarithm is quadratic; a singular
    covariance raises. *)
Theorem normal_mx_diag : forall n (v mu : 'cV[R]_n) (s : 'rV[R]_n), (forall i, 0 < s ord0 i) ->
  NormalPriorMx v mu (diag_mx (\row_i s ord0 i ^+ 2)) = Ok (Some (\prod_i NormalPrior (v i ord0) (mu i ord0) (s ord0 i))).
Proof. exact normal_mx_diag_lem. Qed.
Print Assumptions normal_mx_diag.
Theorem normal_mx_linear : forall n (A : 'M[R]_n) (v mu : 'cV[R]_n) sigma p, A \in unitmx -> 0 < \det sigma ->
  NormalPriorMx v mu sigma = Ok (Some p) ->
  NormalPriorMx (A *m v) (A *m mu) (A *m sigma *m A^T) = Ok (Some (p / `|\det A|)).
Proof. exact normal_mx_linear_lem. Qed.
Print Assumptions normal_mx_linear.
Theorem normal_mx_shape : forall n (mu d : 'cV[R]_n) sigma, posdef sigma ->
  NormalPriorMx (mu + d) mu sigma = NormalPriorMx (mu - d) mu sigma /\
  (d != 0 -> exists p q, NormalPriorMx (mu + d) mu sigma = Ok (Some p) /\ NormalPriorMx mu mu sigma = Ok (Some q) /\ 0 < p < q) /\
  exists p, NormalPriorMx (mu + d) mu sigma = Ok (Some p) /\
    ln p = - (1 / 2)%coqR * (quad (invmx sigma) d + ln (\det sigma) + n%:R * ln (2 * PI)%coqR).
Proof. exact normal_mx_shape_lem. Qed.
Print Assumptions normal_mx_shape.
Theorem normal_mx_singular : forall n (v mu : 'cV[R]_n) sigma, \det sigma = 0 -> NormalPriorMx v mu sigma = Err LinAlgError.
Proof. exact normal_mx_singular_lem. Qed.
Print Assumptions normal_mx_singular.
Example normal_mx_satisfiable : exists A : 'M[R]_2, A \in unitmx /\ posdef (1%:M : 'M[R]_2) /\ A != 1%:M.
Proof.
exists (2%:R)%:M; split; [|split].
- by rewrite unitmxE det_scalar unitrX // unitfE pnatr_eq0.
- by have := @posdef_gram 2 2 1%:M; rewrite trmx1 mulmx1; apply=> x; rewrite mul1mx.
- by apply/eqP => /matrixP /(_ 0 0); rewrite !mxE eqxx /= => /eqP; rewrite eqr_nat.
Qed.
