(** Overlap reduction functions and the ephemeris basis.
    Only theorem statements live here; the proofs are in ProofOrf.v. *)
From Coq Require Import Reals ZArith Bool Arith List Lra Lia.
From Verif Require Import PyBase ProofBase ModelBases ModelSpectra ModelOrf ProofBases ProofSpectra ProofOrf.
Import ListNotations.
Open Scope list_scope.
Open Scope R_scope.

(** C69: symmetry. *)
Theorem orf_symmetric : forall p q,
  hd_orf p q = hd_orf q p /\ dipole_orf p q = dipole_orf q p /\ monopole_orf p q = monopole_orf q p.
Proof. exact orf_symmetric_lem. Qed.
Print Assumptions orf_symmetric.
Theorem anis_symmetric : forall p q params basis na psrs lmax,
  (forall a i j, (i < length psrs)%nat -> (j < length psrs)%nat -> basis a i j = basis a j i) ->
  anis_orf p q params basis na psrs lmax = anis_orf q p params basis na psrs lmax.
Proof. exact anis_symmetric_lem. Qed.
Print Assumptions anis_symmetric.
(** C69: the Hellings-Downs function of two unit vectors lies within the sharp bounds,
    is one for equal vectors, and tends to one half as the vectors merge. *)
Theorem hd_bounds : forall p q, dot p p = 1 -> dot q q = 1 ->
  (p <> q -> 1 / 2 - 3 / 2 * exp (- (5 / 6)) <= hd_orf p q <= 1 / 2) /\ (p = q -> hd_orf p q = 1) /\ - (1 / 5) <= hd_orf p q <= 1.
Proof. exact hd_bounds_lem. Qed.
Print Assumptions hd_bounds.
Theorem hd_minimum : exists p q, dot p p = 1 /\ dot q q = 1 /\ p <> q /\ hd_orf p q = 1 / 2 - 3 / 2 * exp (- (5 / 6)).
Proof. exact hd_minimum_lem. Qed.
Print Assumptions hd_minimum.
Theorem hd_limit : forall eps, 0 < eps -> exists delta, 0 < delta /\
  forall p q, dot p p = 1 -> dot q q = 1 -> p <> q -> 1 - dot p q < delta -> Rabs (hd_orf p q - 1 / 2) < eps.
Proof. exact hd_limit_lem. Qed.
Print Assumptions hd_limit.
Theorem orf_diagonal : forall p, hd_orf p p = 1 /\ dipole_orf p p = 1 + / 100000 /\ monopole_orf p p = 1 + / 100000.
Proof. exact orf_diagonal_lem. Qed.
Print Assumptions orf_diagonal.
Theorem orf_distinct : forall p q, p <> q -> dipole_orf p q = dot p q /\ monopole_orf p q = 1.
Proof. exact orf_distinct_lem. Qed.
Print Assumptions orf_distinct.
Theorem anis_isotropic : forall p q params basis na psrs i j, (1 <= na)%nat -> NoDup psrs -> nth_error psrs i = Some p -> nth_error psrs j = Some q ->
  anis_orf p q params basis na psrs 0 = Ok (2 * sqrt PI * basis 0%nat i j).
Proof. exact anis_isotropic_lem. Qed.
Print Assumptions anis_isotropic.
(** C69: the anisotropic function is a fixed isotropic term plus the given coefficients
    times the basis matrices; a single coefficient is used for all of them, and any
    other number of coefficients is refused. *)
Theorem anis_value : forall p q params basis na psrs lmax i j, (1 <= lmax)%nat -> NoDup psrs -> nth_error psrs i = Some p -> nth_error psrs j = Some q ->
  let n := ((lmax + 1) * (lmax + 1))%nat in (n <= na)%nat ->
  (length params = (n - 1)%nat -> anis_orf p q params basis na psrs lmax =
     Ok (2 * sqrt PI * basis 0%nat i j + rsum (map (fun a => nth a params 0 * basis (S a) i j) (seq 0 (n - 1))))) /\
  (forall x, params = [x] -> anis_orf p q params basis na psrs lmax = Ok (2 * sqrt PI * basis 0%nat i j + x * rsum (map (fun a => basis (S a) i j) (seq 0 (n - 1))))) /\
  (length params <> (n - 1)%nat -> length params <> 1%nat -> anis_orf p q params basis na psrs lmax = Err ValueError).
Proof. exact anis_value_lem. Qed.
Print Assumptions anis_value.
Example hd_satisfiable : dot (1, 0, 0) (1, 0, 0) = 1 /\ dot (0, 3 / 5, 4 / 5) (0, 3 / 5, 4 / 5) = 1 /\ (1, 0, 0) <> (0, 3 / 5, 4 / 5)
  /\ hd_orf (1, 0, 0) (0, 3 / 5, 4 / 5) = 3 / 4 * ln (1 / 2) + 3 / 8.
Proof.
  split; [cbn; lra|]. split; [cbn; lra|]. assert (h : (1, 0, 0) <> (0, 3 / 5, 4 / 5)) by (intros [= e _ _]; lra). split; [exact h|].
  rewrite hd_value by exact h. cbv zeta. replace ((1 - dot (1, 0, 0) (0, 3 / 5, 4 / 5)) / 2) with (1 / 2) by (cbn; field). lra.
Qed.

(** C70: the monopole and dipole matrices of distinct positions are positive definite;
    with two equal positions every correlation matrix is singular. *)
Theorem monopole_positive : forall l, NoDup (map snd l) -> (exists a, In a l /\ fst a <> 0) -> 0 < form monopole_orf l.
Proof. exact monopole_positive_lem. Qed.
Print Assumptions monopole_positive.
Theorem dipole_positive : forall l, NoDup (map snd l) -> (forall a, In a l -> dot (snd a) (snd a) = 1) -> (exists a, In a l /\ fst a <> 0) -> 0 < form dipole_orf l.
Proof. exact dipole_positive_lem. Qed.
Print Assumptions dipole_positive.
Theorem same_position_singular : forall (orf : vec -> vec -> R) ps i j p, (i < j)%nat -> nth_error ps i = Some p -> nth_error ps j = Some p ->
  exists x : nat -> R, x i <> 0 /\ forall q, rsum (map (fun k => orf q (nth k ps (0, 0, 0)) * x k) (seq 0 (length ps))) = 0.
Proof. exact same_position_singular_lem. Qed.
Print Assumptions same_position_singular.
Example positive_satisfiable : let l := [(1, (1, 0, 0)); (-2, (0, 1, 0))] in NoDup (map snd l) /\ (forall a, In a l -> dot (snd a) (snd a) = 1)
  /\ (exists a, In a l /\ fst a <> 0) /\ form dipole_orf l = 5 * (1 + / 100000).
Proof.
  cbv zeta. split; [repeat constructor; cbn; intuition; try congruence; match goal with h : (_, _, _) = _ |- _ => injection h; intros; lra end|].
  split; [intros a [<-|[<-|[]]]; cbn; lra|]. split; [eexists; split; [left; reflexivity|cbn; lra]|].
  unfold form, dipole_orf. cbn [map snd fst rsum fold_right]. destruct (same_pos_spec (1, 0, 0) (1, 0, 0)); [|contradiction]. destruct (same_pos_spec (0, 1, 0) (0, 1, 0)); [|contradiction].
  destruct (same_pos_spec (1, 0, 0) (0, 1, 0)) as [e'|_]; [injection e'; intros; lra|]. destruct (same_pos_spec (0, 1, 0) (1, 0, 0)) as [e'|_]; [injection e'; intros; lra|]. cbn. lra.
Qed.

(** C96: the ephemeris basis with its power law of six components is the plain Fourier
    GP times the scalar product of the positions. *)
Theorem ephemeris_dipole : forall (S : Type) (seeded : Z -> S) next toas1 toas2 a b c x y z n T log10_A gamma s1 s2,
  exists F1 F2 G1 G2 ff gg phi psi,
  create_ephem seeded next toas1 [a; b; c] n (Some T) s1 = (Ok (F1, ff), s1) /\ create_ephem seeded next toas2 [x; y; z] n (Some T) s2 = (Ok (F2, ff), s2) /\
  create_red seeded next toas1 (Opts n (Some T) false None None None false None) s1 = (Ok (G1, gg), s1) /\
  create_red seeded next toas2 (Opts n (Some T) false None None None false None) s2 = (Ok (G2, gg), s2) /\
  powerlaw ff log10_A gamma 6 = Ok phi /\ powerlaw gg log10_A gamma 2 = Ok psi /\
  forall i k, (i < length toas1)%nat -> (k < length toas2)%nat ->
  wsum phi (nth i F1 []) (nth k F2 []) = dot (a, b, c) (x, y, z) * wsum psi (nth i G1 []) (nth k G2 []).
Proof. exact ephemeris_dipole_lem. Qed.
Print Assumptions ephemeris_dipole.
Theorem ephemeris_position : forall (S : Type) (seeded : Z -> S) next toas pos n T s, length pos <> 3%nat -> length pos <> 1%nat ->
  fst (create_ephem seeded next toas pos n (Some T) s) = Err ValueError.
Proof. exact ephemeris_position_lem. Qed.
Print Assumptions ephemeris_position.
