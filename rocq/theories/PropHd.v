(** The Hellings-Downs correlation matrix.
    Only theorem statements live here; the proofs are in ProofHdSeries.v. *)
From Coq Require Import Reals ZArith Bool Arith List Lra Lia.
From Verif Require Import PyBase ProofBase ModelBases ModelSpectra ModelOrf ProofBases ProofSpectra ProofOrf ProofHd ProofHdSeries.
Import ListNotations.
Open Scope list_scope.
Open Scope R_scope.

(** C98: for unit vectors the matrix of Hellings-Downs correlations is positive
    semidefinite; for distinct ones its eigenvalues are at least one half, and no larger
    constant will do. *)
Theorem hd_semidefinite : forall l, (forall a, In a l -> dot (snd a) (snd a) = 1) -> 0 <= form hd_orf l.
Proof. exact hd_semidefinite_lem. Qed.
Print Assumptions hd_semidefinite.
Theorem hd_definite : forall l, NoDup (map snd l) -> (forall a, In a l -> dot (snd a) (snd a) = 1) -> 1 / 2 * rsum (map (fun a => fst a * fst a) l) <= form hd_orf l.
Proof. exact hd_definite_lem. Qed.
Print Assumptions hd_definite.
Theorem hd_sharp : forall eps, 0 < eps -> exists l, NoDup (map snd l) /\ (forall a, In a l -> dot (snd a) (snd a) = 1) /\
  0 < rsum (map (fun a => fst a * fst a) l) /\ form hd_orf l < (1 / 2 + eps) * rsum (map (fun a => fst a * fst a) l).
Proof. exact hd_sharp_lem. Qed.
Print Assumptions hd_sharp.
(** C98: the covariance of a process with these correlations and non-negative powers. *)
Theorem hd_process : forall (ps : list vec) (phi : list R) (x : nat -> nat -> R), NoDup ps -> (forall p, In p ps -> dot p p = 1) -> (forall v, In v phi -> 0 <= v) ->
  let n := seq 0 (length ps) in let fs := seq 0 (length phi) in
  1 / 2 * rsum (map (fun k => nth k phi 0 * rsum (map (fun a => x a k * x a k) n)) fs)
  <= rsum (map (fun a => rsum (map (fun b => rsum (map (fun k => x a k * (hd_orf (nth a ps (0, 0, 0)) (nth b ps (0, 0, 0)) * nth k phi 0) * x b k) fs)) n)) n).
Proof. exact hd_process_lem. Qed.
Print Assumptions hd_process.
Example hd_definite_satisfiable : let l := [(1, (1, 0, 0)); (-1, (0, 1, 0)); (2, (0, 3 / 5, 4 / 5))] in
  NoDup (map snd l) /\ (forall a, In a l -> dot (snd a) (snd a) = 1) /\ rsum (map (fun a => fst a * fst a) l) = 6.
Proof.
  cbv zeta. split; [|split].
  - repeat constructor; cbn; intuition; match goal with h : (_, _, _) = _ |- _ => injection h; intros; lra end.
  - intros a [<-|[<-|[<-|[]]]]; cbn; lra.
  - unfold rsum. cbn. lra.
Qed.
(** Repeated positions: the matrix of two equal unit vectors has a zero eigenvalue. *)
Example hd_semidefinite_satisfiable : let l := [(1, (1, 0, 0)); (-1, (1, 0, 0))] in
  (forall a, In a l -> dot (snd a) (snd a) = 1) /\ form hd_orf l = 0.
Proof.
  cbv zeta. split; [intros a [<-|[<-|[]]]; cbn; lra|]. unfold form, rsum. cbn [map fst snd fold_right].
  destruct (orf_diagonal_lem (1, 0, 0)) as (-> & _). lra.
Qed.
Example hd_process_satisfiable : let ps := [(1, 0, 0); (0, 1, 0)] in let phi := [4; 1] in
  NoDup ps /\ (forall p, In p ps -> dot p p = 1) /\ (forall v, In v phi -> 0 <= v).
Proof.
  cbv zeta. split; [|split].
  - repeat constructor; cbn; intuition; match goal with h : (_, _, _) = _ |- _ => injection h; intros; lra end.
  - intros a [<-|[<-|[]]]; cbn; lra.
  - intros v [<-|[<-|[]]]; lra.
Qed.
