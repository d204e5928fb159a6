(** Waves of eccentric binaries and the evolution of their orbits
    (enterprise/signals/utils.py L356-685). *)
From Coq Require Import Reals ZArith Bool Arith List Lra Lia.
From Coquelicot Require Import Coquelicot.
From Verif Require Import PyBase ModelCw ProofCw ProofOrbit ProofOrbitEx.
Import ListNotations.
Open Scope list_scope.
Open Scope R_scope.

(** C102: the waveforms *)
(** Plus and cross waveform are time integrals of the strain of an eccentric binary with
    precessing periastron, summed over the harmonics 1, ..., nmax - 1. *)
Theorem cw_strain : forall jn nmax mc dl h0 F e l0 gamma gammadot inc, F <> 0 -> nmax <> 0%nat -> nonresonant F gammadot (seq 1 (nmax - 1)) ->
  exists splus scross,
  (forall ts, splus_scross jn nmax (Cell false mc) (Cell false dl) h0 F e ts l0 gamma gammadot inc = Ok ((map splus ts, map scross ts), (Cell false mc, Cell false dl))) /\
  forall t, let l := l0 + 2 * PI * F * t in let g := gamma + gammadot * t in
  is_derive splus t (total (hplus jn (amplitude h0 mc dl F) e inc l g) (seq 1 (nmax - 1))) /\
  is_derive scross t (total (hcross jn (amplitude h0 mc dl F) e inc l g) (seq 1 (nmax - 1))).
Proof. exact cw_strain_lem. Qed.
Print Assumptions cw_strain.
(** A circular orbit radiates at twice the orbital frequency only. *)
Theorem cw_circular : forall jn nmax mc dl h0 F ts l0 gamma gammadot inc, bessel_at_zero jn -> (3 <= nmax)%nat ->
  let A := amplitude h0 mc dl F in
  let phase t := 2 * (l0 + 2 * PI * F * t + (gamma + gammadot * t)) in
  let rate := 2 * (2 * PI * F) + 2 * gammadot in
  splus_scross jn nmax (Cell false mc) (Cell false dl) h0 F 0 ts l0 gamma gammadot inc =
  Ok ((map (fun t => 2 * A * (1 + cos inc ^ 2) * (sin (phase t) / rate)) ts, map (fun t => 4 * A * cos inc * (cos (phase t) / rate)) ts), (Cell false mc, Cell false dl)).
Proof. exact cw_circular_lem. Qed.
Print Assumptions cw_circular.
(** Raising [nmax] by one adds the harmonic of number [nmax]. *)
Theorem cw_harmonics : forall jn nmax mc dl h0 F e ts l0 gamma gammadot inc, nmax <> 0%nat ->
  exists sp sc sp' sc', splus_scross jn nmax (Cell false mc) (Cell false dl) h0 F e ts l0 gamma gammadot inc = Ok ((sp, sc), (Cell false mc, Cell false dl)) /\
  splus_scross jn (S nmax) (Cell false mc) (Cell false dl) h0 F e ts l0 gamma gammadot inc = Ok ((sp', sc'), (Cell false mc, Cell false dl)) /\
  forall i t, nth_error ts i = Some t -> let n := nmax in
    let l := INR n * (l0 + 2 * PI * F * t) in let g := 2 * (gamma + gammadot * t) in
    let A := amplitude h0 mc dl F in let a := ta jn A e n in let b := tb jn A e n in
    let dm := INR n * (2 * PI * F) - 2 * gammadot in let dp := INR n * (2 * PI * F) + 2 * gammadot in
    nth i sp' 0 = nth i sp 0 + (- (1 / 2) * (1 + cos inc ^ 2) * ((a - b) * (sin (l - g) / dm) + (a + b) * (sin (l + g) / dp)) + (1 - cos inc ^ 2) * (tc jn A e n / (INR n * (2 * PI * F))) * sin l) /\
    nth i sc' 0 = nth i sc 0 + cos inc * ((a - b) * (cos (l - g) / dm) - (a + b) * (cos (l + g) / dp)).
Proof. exact cw_harmonics_lem. Qed.
Print Assumptions cw_harmonics.
Theorem cw_nothing : forall jn mc dl h0 F e ts l0 gamma gammadot inc, splus_scross jn 0 mc dl h0 F e ts l0 gamma gammadot inc = Err ValueError.
Proof. exact cw_nothing_lem. Qed.
Print Assumptions cw_nothing.
(** The docstring says that [nmax] is the number of harmonics, but with [nmax = 2]
    nothing is left of a circular orbit. *)
Theorem cw_harmonics_refuted : forall jn mc dl h0 F ts l0 gamma gammadot inc, bessel_at_zero jn ->
  splus_scross jn 2 (Cell false mc) (Cell false dl) h0 F 0 ts l0 gamma gammadot inc = Ok ((map (fun _ => 0) ts, map (fun _ => 0) ts), (Cell false mc, Cell false dl)).
Proof. exact cw_harmonics_refuted_lem. Qed.
Print Assumptions cw_harmonics_refuted.
Theorem cw_symmetry : forall jn nmax mc dl h0 F e ts l0 gamma gammadot inc, nmax <> 0%nat ->
  exists sp sc, splus_scross jn nmax (Cell false mc) (Cell false dl) h0 F e ts l0 gamma gammadot inc = Ok ((sp, sc), (Cell false mc, Cell false dl)) /\
  (* seen from below *)
  splus_scross jn nmax (Cell false mc) (Cell false dl) h0 F e ts l0 gamma gammadot (PI - inc) = Ok ((sp, map Ropp sc), (Cell false mc, Cell false dl)) /\
  (* a whole orbit later, or with periastron and apastron exchanged twice *)
  splus_scross jn nmax (Cell false mc) (Cell false dl) h0 F e ts (l0 + 2 * PI) gamma gammadot inc = Ok ((sp, sc), (Cell false mc, Cell false dl)) /\
  splus_scross jn nmax (Cell false mc) (Cell false dl) h0 F e ts l0 (gamma + PI) gammadot inc = Ok ((sp, sc), (Cell false mc, Cell false dl)) /\
  (* edge-on *)
  (cos inc = 0 -> sc = map (fun _ => 0) ts).
Proof. exact cw_symmetry_lem. Qed.
Print Assumptions cw_symmetry.
Theorem cw_amplitude : forall jn nmax mc dl h0 F e ts l0 gamma gammadot inc,
  h0 = 2 * amplitude None mc dl F ->
  splus_scross jn nmax (Cell false mc) (Cell false dl) None F e ts l0 gamma gammadot inc = splus_scross jn nmax (Cell false mc) (Cell false dl) (Some h0) F e ts l0 gamma gammadot inc.
Proof. exact cw_amplitude_lem. Qed.
Print Assumptions cw_amplitude.
(** A chirp mass given as an array is overwritten by the three calls for coefficients,
    each of which sees another mass. *)
Theorem cw_mass_array_refuted : forall jn mc dl h0 F e ts l0 gamma gammadot inc nmax, nmax <> 0%nat -> mc <> 0 ->
  exists w mc', splus_scross jn nmax (Cell true mc) (Cell false dl) h0 F e ts l0 gamma gammadot inc = Ok (w, (mc', Cell false dl)) /\ content mc' = mc * Tsun ^ 3 /\ mc' <> Cell true mc.
Proof. exact cw_mass_array_refuted_lem. Qed.
Print Assumptions cw_mass_array_refuted.
Theorem cw_mass_wave_refuted : forall jn mc dl F inc nmax, bessel_at_zero jn -> 0 < mc -> 0 < dl -> 0 < F -> (3 <= nmax)%nat ->
  exists s s' w w' o o', splus_scross jn nmax (Cell false mc) (Cell false dl) None F 0 [0] 0 (PI / 4) 0 inc = Ok (([s], w), o) /\
  splus_scross jn nmax (Cell true mc) (Cell false dl) None F 0 [0] 0 (PI / 4) 0 inc = Ok (([s'], w'), o') /\ 0 < s /\ s' = Rpower Tsun (5 / 3) * s /\ s' < s.
Proof. exact cw_mass_wave_refuted_lem. Qed.
Print Assumptions cw_mass_wave_refuted.

Example cw_bessel : bessel_at_zero bessel.
Proof. exact bessel_zero. Qed.
Example cw_nonresonant : nonresonant (1 / (2 * PI)) (1 / 4) (seq 1 9).
Proof.
  intros n Hn. apply in_seq in Hn. pose proof PI_RGT_0. replace (2 * PI * (1 / (2 * PI))) with 1 by (field; lra).
  assert (1 <= INR n) by (change 1 with (INR 1); apply le_INR; lia). split; lra.
Qed.
Example cw_waveform : splus_scross bessel 10 (Cell false 1) (Cell false 1) (Some 1) (1 / (2 * PI)) 0 [0] 0 (PI / 4) 0 0 = Ok (([1], [0]), (Cell false 1, Cell false 1)).
Proof.
  rewrite (cw_circular_lem bessel 10 1 1 (Some 1) (1 / (2 * PI)) [0] 0 (PI / 4) 0 0 bessel_zero) by lia. cbn [map]. pose proof PI_RGT_0.
  replace (2 * (0 + 2 * PI * (1 / (2 * PI)) * 0 + (PI / 4 + 0 * 0))) with (PI / 2) by (field; lra). rewrite sin_PI2, cos_PI2, cos_0. unfold amplitude.
  do 2 f_equal. f_equal; f_equal; field; lra.
Qed.

(** C103: the orbit *)
(** Along the solutions of the equations for frequency and eccentricity, Peters' relation
    between the two holds. *)
Theorem peters_relation : forall F e gamma phase mc q a b, 0 < mc -> a < b -> inspiral F e gamma phase mc q a b -> peters (F b) (e b) = peters (F a) (e a).
Proof. exact peters_lem. Qed.
Print Assumptions peters_relation.
(** Through every state there is a solution. *)
Theorem inspiral_exists : forall mc q F0 e0 gamma0 phase0, 0 < mc -> 0 < F0 -> 0 < e0 < 1 ->
  exists b F e gamma phase, 0 < b /\ inspiral F e gamma phase mc q (- b) b /\ F 0 = F0 /\ e 0 = e0 /\ gamma 0 = gamma0 /\ phase 0 = phase0.
Proof. exact inspiral_exists_lem. Qed.
Print Assumptions inspiral_exists.
(** The frequency grows, the orbit circularises, periastron and phase advance. *)
Theorem orbit_monotone : forall F e gamma phase mc q a b, 0 < mc -> 0 < q -> a < b -> inspiral F e gamma phase mc q a b ->
  F a < F b /\ e b < e a /\ gamma a < gamma b /\ phase a < phase b.
Proof. exact orbit_monotone_lem. Qed.
Print Assumptions orbit_monotone.
Theorem orbit_signs : forall F mc q e, 0 < F -> 0 < mc -> 0 < q -> 0 <= e < 1 ->
  0 < get_Fdot F mc e /\ get_edot F mc e <= 0 /\ (get_edot F mc e = 0 <-> e = 0) /\ 0 < get_gammadot F mc q e.
Proof. exact orbit_signs_lem. Qed.
Print Assumptions orbit_signs.
(** The rate of the frequency is that of the quadrupole formula. *)
Theorem orbit_chirp : forall F mc e, 0 < F -> 0 < mc -> 0 <= e < 1 ->
  2 * get_Fdot F mc e = 96 / 5 * Rpower PI (8 / 3) * Rpower (mc * (GMsun / c_light ^ 3)) (5 / 3) * Rpower (2 * F) (11 / 3) * enhancement e.
Proof. exact orbit_chirp_lem. Qed.
Print Assumptions orbit_chirp.
Theorem enhancement_incr : forall e e', 0 <= e -> e < e' -> e' < 1 -> enhancement e < enhancement e'.
Proof. exact enhancement_incr_lem. Qed.
Print Assumptions enhancement_incr.
(** The precession depends on the total mass and not on which mass is called the first. *)
Theorem orbit_precession : forall F m1 m2 e, 0 < F -> 0 < m1 -> 0 < m2 ->
  let chirp := Rpower (m1 * m2) (3 / 5) / Rpower (m1 + m2) (1 / 5) in
  let x := Rpower (2 * PI * F * ((m1 + m2) * (GMsun / c_light ^ 3))) (2 / 3) in
  get_gammadot F chirp (m2 / m1) e = 6 * PI * F * x / (1 - e ^ 2) * (1 + x / (4 * (1 - e ^ 2)) * (26 - 15 * e ^ 2)) /\
  get_gammadot F chirp (m1 / m2) e = get_gammadot F chirp (m2 / m1) e.
Proof. exact orbit_precession_lem. Qed.
Print Assumptions orbit_precession.
(** With constant eccentricity the equations have a closed solution, which ends at the merger. *)
Theorem orbit_constant : forall F phase mc e0 a b, 0 < mc -> 0 <= e0 < 1 -> a < b -> inspiral0 F phase mc e0 a b ->
  let m := mc * (GMsun / c_light ^ 3) in
  let k := 48 / (5 * PI * m ^ 2) * Rpower (2 * PI * m) (11 / 3) * enhancement e0 in
  0 < k /\
  Rpower (F b) (- (8 / 3)) = Rpower (F a) (- (8 / 3)) - 8 / 3 * k * (b - a) /\
  phase b - phase a = 6 * PI / (5 * k) * (Rpower (F a) (- (5 / 3)) - Rpower (F b) (- (5 / 3))) /\
  b - a < 3 / (8 * k) * Rpower (F a) (- (8 / 3)).
Proof. exact orbit_constant_lem. Qed.
Print Assumptions orbit_constant.
Theorem orbit_constant_exists : forall mc e0 F0 phase0 b, 0 < mc -> 0 <= e0 < 1 -> 0 < F0 ->
  let m := mc * (GMsun / c_light ^ 3) in
  let k := 48 / (5 * PI * m ^ 2) * Rpower (2 * PI * m) (11 / 3) * enhancement e0 in
  b < 3 / (8 * k) * Rpower F0 (- (8 / 3)) ->
  exists F phase, inspiral0 F phase mc e0 0 b /\ F 0 = F0 /\ phase 0 = phase0.
Proof. exact orbit_constant_exists_lem. Qed.
Print Assumptions orbit_constant_exists.

Example orbit_circular : enhancement 0 = 1 /\ enhancement (1 / 2) > 1.
Proof.
  assert (E : enhancement 0 = 1) by (unfold enhancement; replace (1 - 0 ^ 2) with 1 by ring; unfold Rpower; rewrite ln_1, Rmult_0_r, exp_0; field).
  split; [exact E|]. rewrite <- E at 2. apply enhancement_incr_lem; lra.
Qed.
Example orbit_inspiral : exists b F e gamma phase, 0 < b /\ inspiral F e gamma phase (10 ^ 9) (1 / 4) (- b) b /\ F 0 = / 10 ^ 8 /\ e 0 = 3 / 10 /\ F (- b) < F b /\ e b < e (- b).
Proof.
  destruct (inspiral_exists_lem (10 ^ 9) (1 / 4) (/ 10 ^ 8) (3 / 10) (2 / 5) (6 / 5) ltac:(lra) ltac:(lra) ltac:(lra)) as (b & F & e & g & p & HB & HI & H1 & H2 & _).
  destruct (orbit_monotone_lem F e g p (10 ^ 9) (1 / 4) (- b) b ltac:(lra) ltac:(lra) ltac:(lra) HI) as (M1 & M2 & _).
  exists b, F, e, g, p. exact (conj HB (conj HI (conj H1 (conj H2 (conj M1 M2))))).
Qed.
