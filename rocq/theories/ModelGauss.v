(** Normal priors with a covariance matrix (enterprise/signals/parameter.py
    L242-263). [None] is nan: the square root of a negative determinant. *)
From Coq Require Import Reals.
From mathcomp Require Import all_ssreflect all_algebra.
From Verif Require Import RStruct PyBase.
Set Implicit Arguments.
Unset Strict Implicit.
Unset Printing Implicit Defensive.
Import GRing.Theory.
Local Open Scope ring_scope.

Section Normal.
Variable n : nat.
(** L242-249, sigma of dimension two: [np.linalg.inv] raises on a singular matrix. *)
Definition NormalPriorMx (value mu : 'cV[R]_n) (sigma : 'M[R]_n) : result (option R) :=
  let dx := value - mu in
  if sigma \notin unitmx then Err LinAlgError
  else let d := \det ((2 * PI)%coqR *: sigma) in
  if rltb d 0 then Ok None
  else Ok (Some (exp (- (1 / 2) * (dx^T *m (invmx sigma *m dx))%R ord0 ord0) / sqrt d)%coqR).
End Normal.
