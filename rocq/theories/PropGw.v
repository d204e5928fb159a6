From Coq Require Import Reals Ratan Bool Arith List Lra.
From Verif Require Import PyBase ModelBases ModelOrf ModelGw ProofGw.
Import ListNotations.
Open Scope list_scope.
Open Scope R_scope.

(** C73: the total power of the two antenna patterns of a pulsar depends on its angle to
    the source only; neither exceeds one. *)
Theorem antenna_power : forall pos theta phi, dot pos pos = 1 -> dot (source theta phi) pos <> 1 ->
  let mu := dot (source theta phi) pos in
  exists fplus fcross, antenna_pattern pos theta phi = (fplus, fcross, mu) /\
  fplus ^ 2 + fcross ^ 2 = ((1 + mu) / 2) ^ 2 /\ Rabs fplus <= 1 /\ Rabs fcross <= 1.
Proof. exact antenna_power_lem. Qed.
Print Assumptions antenna_power.
(** C73: the patterns of a pulsar given by its angle from the direction of travel and the
    angle around it; polarisations are a quarter of a turn apart in twice the angle. *)
Theorem antenna_angles : forall theta phi alpha beta, cos alpha <> -1 ->
  antenna_pattern (seen theta phi alpha beta) theta phi =
    ((1 - cos alpha) / 2 * cos (2 * beta), (1 - cos alpha) / 2 * sin (2 * beta), - cos alpha).
Proof. exact antenna_angles_lem. Qed.
Print Assumptions antenna_angles.
Example antenna_satisfiable : dot (1, 0, 0) (1, 0, 0) = 1 /\ dot (source 0 0) (1, 0, 0) <> 1 /\ cos 0 <> -1.
Proof. cbn. rewrite sin_0, cos_0. lra. Qed.

(** C73: a burst has no effect up to its time and grows linearly after it, whichever
    antenna pattern is used. *)
Theorem bwm_shape : forall toas pos log10_h cos_gwtheta gwphi gwpol t0 pattern,
  let fpc := match pattern with Some f => f pos (acos cos_gwtheta) gwphi | None => fst (antenna_pattern pos (acos cos_gwtheta) gwphi) end in
  bwm_delay toas pos log10_h cos_gwtheta gwphi gwpol t0 pattern =
  map (fun t => if Rle_dec t (t0 * 86400) then 0
                else (cos (2 * gwpol) * fst fpc + sin (2 * gwpol) * snd fpc) * Rpower 10 log10_h * (t - t0 * 86400)) toas.
Proof. exact bwm_lem. Qed.
Print Assumptions bwm_shape.
(** C73: with the usual pattern delays grow by no more than the strain, so that they are
    bounded and continuous. *)
Theorem bwm_bounded : forall toas pos log10_h cos_gwtheta gwphi gwpol t0, dot pos pos = 1 -> dot (source (acos cos_gwtheta) gwphi) pos <> 1 ->
  Forall2 (fun t d => Rabs d <= Rpower 10 log10_h * Rmax 0 (t - t0 * 86400)) toas
    (bwm_delay toas pos log10_h cos_gwtheta gwphi gwpol t0 None).
Proof. exact bwm_bounded_lem. Qed.
Print Assumptions bwm_bounded.
Theorem bwm_lipschitz : forall t t' pos log10_h cos_gwtheta gwphi gwpol t0 d d', dot pos pos = 1 -> dot (source (acos cos_gwtheta) gwphi) pos <> 1 ->
  bwm_delay [t; t'] pos log10_h cos_gwtheta gwphi gwpol t0 None = [d; d'] -> Rabs (d - d') <= Rpower 10 log10_h * Rabs (t - t').
Proof. exact bwm_lipschitz_lem. Qed.
Print Assumptions bwm_lipschitz.
(** C73: adding to the logarithm of the strain multiplies the delays. *)
Theorem bwm_strain : forall toas pos log10_h cos_gwtheta gwphi gwpol t0 pattern a,
  bwm_delay toas pos (log10_h + a) cos_gwtheta gwphi gwpol t0 pattern =
  map (Rmult (Rpower 10 a)) (bwm_delay toas pos log10_h cos_gwtheta gwphi gwpol t0 pattern).
Proof. exact bwm_strain_lem. Qed.
Print Assumptions bwm_strain.
(** C73: the source lies where its cosine says. *)
Theorem bwm_source : forall c phi, -1 <= c <= 1 -> source (acos c) phi = (sqrt (1 - c ^ 2) * cos phi, sqrt (1 - c ^ 2) * sin phi, c).
Proof. exact bwm_source_lem. Qed.
Print Assumptions bwm_source.
Example bwm_satisfiable : dot (1, 0, 0) (1, 0, 0) = 1 /\ dot (source (acos 0) (PI / 2)) (1, 0, 0) <> 1 /\ -1 <= 0 <= 1 /\
  exists d d', bwm_delay [0; 1] (1, 0, 0) 0 0 (PI / 2) 0 0 None = [d; d'].
Proof. rewrite bwm_source_lem by lra. rewrite cos_PI2. cbn. repeat split; try lra. eexists. eexists. reflexivity. Qed.
