(** The linear algebra of scipy that the code calls, on exact real numbers. *)
From Coq Require Import Reals.
From mathcomp Require Import all_ssreflect all_algebra.
From Verif Require Import RStruct.
Set Implicit Arguments.
Unset Strict Implicit.
Unset Printing Implicit Defensive.
Import GRing.Theory Num.Theory Order.TTheory.
Local Open Scope ring_scope.

(** [scipy.linalg.cho_factor(A)] (upper factor): Cholesky's algorithm, which
    reads the diagonal and the entries above it. [None] stands for the
    [LinAlgError] raised at the first pivot that is not positive. *)
Fixpoint chol (n : nat) : 'M[R]_n -> option 'M[R]_n :=
  if n is n'.+1 return 'M[R]_n -> option 'M[R]_n then
    fun A : 'M[R]_(1 + n') =>
      let a := A ord0 ord0 in
      if 0 < a then
        let s := sqrt a in
        let v : 'rV[R]_n' := s^-1 *: ursubmx A in
        if chol (drsubmx A - v^T *m v) is Some U
        then Some (block_mx (s%:M : 'M_1) v 0 U) else None
      else None
  else fun _ => Some 0.

(** [scipy.linalg.cho_solve((U, False), b)]: the two triangular solves. *)
Definition cho_solve (n k : nat) (U : 'M[R]_n) (b : 'M[R]_(n, k)) : 'M[R]_(n, k) :=
  invmx U *m (invmx U^T *m b).

(** [np.sum(2 * np.log(np.diag(U)))] *)
Definition cho_logdet (n : nat) (U : 'M[R]_n) : R := \sum_i (2%:R * ln (U i i)).
