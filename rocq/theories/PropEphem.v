From Coq Require Import Reals Bool Arith List Lra.
From Verif Require Import PyBase ModelBases ModelOrf ModelEphem ProofEphem.
Import ListNotations.
Open Scope list_scope.
Open Scope R_scope.

(** C74: the conversions are rotations about the first axis by the obliquity, and inverse
    to each other. *)
Theorem ecliptic : forall l, ecl2eq_vec l = map (rotx obliquity) l /\ eq2ecl_vec l = map (rotx (- obliquity)) l.
Proof. exact ecl_lem. Qed.
Print Assumptions ecliptic.
Theorem ecliptic_inverse : forall l, eq2ecl_vec (ecl2eq_vec l) = l /\ ecl2eq_vec (eq2ecl_vec l) = l.
Proof. exact ecl_inverse_lem. Qed.
Print Assumptions ecliptic_inverse.
(** C74: Euler rotations turn about the third axis first, about the first axis last; they
    are orthogonal with determinant one. *)
Theorem euler_rotation : forall z y x v, mulv (euler z y x) v = rotx x (roty y (rotz z v)).
Proof. exact euler_lem. Qed.
Print Assumptions euler_rotation.
Theorem euler_orthogonal : forall z y x, mul3 (euler z y x) (tr3 (euler z y x)) = id3 /\ mul3 (tr3 (euler z y x)) (euler z y x) = id3 /\ det3 (euler z y x) = 1.
Proof. exact euler_orthogonal_lem. Qed.
Print Assumptions euler_orthogonal.
(** C74: what a frame rotation does to each position; the angle about the third axis grows
    with the time since MJD 55197. *)
Theorem framerotate : forall mjd planet x y z dz offset equatorial,
  ss_framerotate mjd planet x y z dz offset equatorial =
  map (fun tp => moved x y (z + dz * ((fst tp - 55197) / (36525 / 100))) offset equatorial (snd tp)) (combine mjd planet).
Proof. exact framerotate_lem. Qed.
Print Assumptions framerotate.
Theorem frame_lengths : forall mjd planet x y z dz equatorial, length mjd = length planet ->
  Forall2 (fun v w => dot w w = dot v v) planet (ss_framerotate mjd planet x y z dz None equatorial).
Proof. exact frame_lengths_lem. Qed.
Print Assumptions frame_lengths.
Theorem frame_identity : forall mjd planet equatorial, length mjd = length planet ->
  ss_framerotate mjd planet 0 0 0 0 None equatorial = planet.
Proof. exact frame_identity_lem. Qed.
Print Assumptions frame_identity.
Example frame_satisfiable : length [55197; 55300] = length [(1, 0, 0); (0, 1, 0)] /\ rotz 0 (1, 0, 0) = (1, 0, 0) /\ rotz PI (1, 0, 0) = (-1, 0, 0).
Proof. cbn. rewrite sin_0, cos_0, sin_PI, cos_PI. repeat split; do 2 (try f_equal); ring. Qed.

(** C75: orbits are interpolated between their samples and constant outside of them. *)
Theorem orbit_interpolation : forall xp fp, length xp = length fp -> xp <> [] -> increasing xp -> forall x,
  exists v, interp x xp fp = Ok v /\
  (x <= hd 0 xp -> v = hd (0, 0, 0) fp) /\ (last xp 0 <= x -> v = last fp (0, 0, 0)) /\
  forall i, (S i < length xp)%nat -> let a := nth i xp 0 in let b := nth (S i) xp 0 in a <= x <= b ->
    v = vadd (vscale ((b - x) / (b - a)) (nth i fp (0, 0, 0))) (vscale ((x - a) / (b - a)) (nth (S i) fp (0, 0, 0))).
Proof. exact interp_lem. Qed.
Print Assumptions orbit_interpolation.
(** C75: the delay is the scalar product of the pulsar with minus the displacement of the
    earth. *)
Theorem ephemeris_delay : forall toas pl pos k jup sat equatorial, length pl = length toas -> length pos = length toas -> fits (k_jup_orb k) jup -> fits (k_sat_orb k) sat ->
  ephem_delay toas pl pos k jup sat equatorial =
  Ok (map (fun q => let '(t, (p, n)) := q in
        dot (pl_earth p) n - dot (moved 0 0 (k_drift k * ((t / 86400 - 55197) / (36525 / 100))) None equatorial (pl_earth p)) n
        - shift k jup sat t p n) (combine toas (combine pl pos))).
Proof. exact delay_lem. Qed.
Print Assumptions ephemeris_delay.
Theorem ephemeris_zero : forall toas pl pos k jup sat equatorial, length pl = length toas -> length pos = length toas ->
  k_drift k = 0 -> k_jupiter k = 0 -> k_saturn k = 0 -> k_uranus k = 0 -> k_neptune k = 0 ->
  Forall (fun x => x = 0) (k_jup_orb k) -> Forall (fun x => x = 0) (k_sat_orb k) ->
  ephem_delay toas pl pos k jup sat equatorial = Ok (map (fun _ => 0) toas).
Proof. exact delay_zero_lem. Qed.
Print Assumptions ephemeris_zero.
Theorem ephemeris_linear : forall toas pl pos k k' jup sat equatorial a b, length pl = length toas -> length pos = length toas ->
  k_drift k = 0 -> k_drift k' = 0 -> length (k_jup_orb k) = length (k_jup_orb k') -> length (k_sat_orb k) = length (k_sat_orb k') ->
  fits (k_jup_orb k) jup -> fits (k_sat_orb k) sat -> fits (k_jup_orb k') jup -> fits (k_sat_orb k') sat ->
  exists d d', ephem_delay toas pl pos k jup sat equatorial = Ok d /\ ephem_delay toas pl pos k' jup sat equatorial = Ok d' /\
    length d = length toas /\ length d' = length toas /\
    ephem_delay toas pl pos (mix a k b k') jup sat equatorial = Ok (map (fun xy => a * fst xy + b * snd xy) (combine d d')).
Proof. exact delay_linear_lem. Qed.
Print Assumptions ephemeris_linear.
(** C75: the delay is not linear in the drift rate, which is an angle per time. *)
Theorem drift_refuted : exists toas pl pos r d d2, ephem_delay toas pl pos (Corrections r 0 0 0 0 [] []) None None true = Ok [d] /\
  ephem_delay toas pl pos (Corrections (2 * r) 0 0 0 0 [] []) None None true = Ok [d2] /\ d2 <> 2 * d.
Proof. exact drift_refuted_lem. Qed.
Print Assumptions drift_refuted.
(** C75: orbital elements without orbits raise. *)
Theorem ephemeris_missing : forall toas pl pos k sat equatorial, any_nonzero (k_jup_orb k) = true -> ephem_delay toas pl pos k None sat equatorial = Err ValueError.
Proof. exact missing_lem. Qed.
Print Assumptions ephemeris_missing.
(** C75: the columns of the design matrix are the delays of unit corrections; those with a
    deviation of None or zero are left out. *)
Theorem ephemeris_basis : forall toas pl pos s jup sat k, length pl = length toas -> length pos = length toas -> sampled 6 jup -> sampled 6 sat ->
  length (k_jup_orb k) = 6%nat -> length (k_sat_orb k) = 6%nat -> k_drift k = 0 ->
  (on (s_jupiter s) = false -> k_jupiter k = 0) -> (on (s_saturn s) = false -> k_saturn k = 0) ->
  (on (s_uranus s) = false -> k_uranus k = 0) -> (on (s_neptune s) = false -> k_neptune k = 0) ->
  (on (s_jup_orb s) = false -> Forall (fun x => x = 0) (k_jup_orb k)) -> (on (s_sat_orb s) = false -> Forall (fun x => x = 0) (k_sat_orb k)) ->
  exists F d, ephem_basis toas pl pos s jup sat = Ok (F, deviations s) /\
    ephem_delay toas pl pos k (Some jup) (Some sat) true = Ok d /\ length d = length toas /\ length F = length (coefficients s k) /\
    forall i, (i < length toas)%nat -> nth i d 0 = lincomb (coefficients s k) F i.
Proof. exact basis_delay_lem. Qed.
Print Assumptions ephemeris_basis.
Theorem ephemeris_spectrum : forall sg, ephem_spectrum sg = map (fun x => x * x) sg.
Proof. exact spectrum_lem. Qed.
Print Assumptions ephemeris_spectrum.
Example ephemeris_satisfiable : let v := (1, 2, 3) in let ob := Orbits [50000; 60000] (repeat [v; v] 6) in
  sampled 6 ob /\ fits (repeat 1 6) (Some ob) /\ fits (repeat 0 6) None /\ increasing (ob_times ob) /\ any_nonzero (repeat 1 6) = true /\
  exists (toas : list R) (pl : list planets) (pos : list vec) s k, length pl = length toas /\ length pos = length toas /\ toas <> [] /\ on (s_jupiter s) = true /\ on (s_saturn s) = false /\
    length (k_jup_orb k) = 6%nat /\ length (k_sat_orb k) = 6%nat /\ k_drift k = 0 /\ k_jupiter k = 1 /\ k_saturn k = 0 /\ on (s_jup_orb s) = true.
Proof.
  cbv zeta. assert (S : sampled 6 (Orbits [50000; 60000] (repeat [(1, 2, 3); (1, 2, 3)] 6))).
  { split; [discriminate|]. split; [discriminate|]. split; [reflexivity|]. cbn. repeat constructor. }
  split; [exact S|]. split. { right. eexists. split; [reflexivity|]. exact S. }
  split. { left. cbn. repeat constructor. } split. { cbn. lra. } split. { cbn. destruct (Req_EM_T 1 0); [lra|reflexivity]. }
  exists [55000 * 86400], [Planets (1, 0, 0) (0, 5, 0) (0, 0, 9) (1, 1, 1) (2, 2, 2)], [(1, 0, 0)],
    (Sigmas (Some 1) (Some 2) None None (Some 0) (Some 1) (Some 1)), (Corrections 0 1 0 0 0 (repeat 1 6) (repeat 2 6)).
  cbn. destruct (Req_EM_T 2 0), (Req_EM_T 1 0); try lra. repeat split; discriminate.
Qed.
