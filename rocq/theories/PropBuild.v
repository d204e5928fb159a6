(** Theorems about how pulsars are made. *)
From Coq Require Import Reals String Bool Arith List Lra Lia.
From Verif Require Import PyBase ModelOrf ModelEphem ModelBuild ProofBuild.
Import ListNotations.
Open Scope nat_scope.
Open Scope string_scope.
Open Scope list_scope.

(** C105: sky positions. The position is the unit vector of the angles, separations obey
    the cosine rule, and no two sky coordinates share a position. *)
Theorem pos_angles : forall raj decj,
  get_pos raj decj = ((sin (theta raj decj) * cos (phi raj decj))%R, (sin (theta raj decj) * sin (phi raj decj))%R, cos (theta raj decj)) /\
  dot (get_pos raj decj) (get_pos raj decj) = 1%R.
Proof. exact pos_angles_lem. Qed.
Print Assumptions pos_angles.
Theorem pos_separation : forall a d a' d',
  dot (get_pos a d) (get_pos a' d') = (sin d * sin d' + cos d * cos d' * cos (a - a'))%R.
Proof. exact pos_separation_lem. Qed.
Print Assumptions pos_separation.
Theorem pos_injective : forall a d a' d', (- (PI / 2) < d < PI / 2)%R -> (- (PI / 2) < d' < PI / 2)%R ->
  (0 <= a < 2 * PI)%R -> (0 <= a' < 2 * PI)%R -> get_pos a d = get_pos a' d' -> a = a' /\ d = d'.
Proof. exact pos_injective_lem. Qed.
Print Assumptions pos_injective.
Theorem pos_surjective : forall v, dot v v = 1%R -> exists a d, (- PI / 2 <= d <= PI / 2)%R /\ get_pos a d = v /\ (a, d) = angles v.
Proof. exact pos_surjective_lem. Qed.
Print Assumptions pos_surjective.
(** tempo2's directions are the position, in equatorial and ecliptic coordinates. *)
Theorem position_agrees : forall ephem name t lon lat n, coordinates t lon lat -> exact_j2000 ephem -> substring_of "B" name = false ->
  exists a d, t2_radec ephem name t = Ok (a, d) /\ t2_pos_t t (repeat (get_pos lon lat) n) = repeat (get_pos a d) n.
Proof. exact position_agrees_lem. Qed.
Print Assumptions position_agrees.
(** A B anywhere in the name stands for coordinates of 1950, and then they are not. *)
Theorem position_B : forall ephem name t lon lat n, coordinates t lon lat -> mem "RAJ" (t_fit t ++ t_set t) = false ->
  exact_j2000 ephem -> substring_of "B" name = true -> n <> 0%nat ->
  exists a d, t2_radec ephem name t = Ok (a, d) /\ (a, d) = ephem B1950 lon lat /\
    (t2_pos_t t (repeat (get_pos lon lat) n) = repeat (get_pos a d) n <->
     get_pos a d = get_pos (fst (ephem J2000 lon lat)) (snd (ephem J2000 lon lat))).
Proof. exact position_B_lem. Qed.
Print Assumptions position_B.
Theorem cluster_epoch_refuted : exists name, String.prefix "J" name = true /\
  forall ephem l b, radec_from_ecliptic ephem name (Some l) (Some b) = ephem B1950 l b.
Proof. exact cluster_epoch_refuted_lem. Qed.
Print Assumptions cluster_epoch_refuted.
Theorem radec_missing : forall ephem name l, radec_from_ecliptic ephem name None l = (0, 0)%R /\ radec_from_ecliptic ephem name l None = (0, 0)%R.
Proof. exact radec_missing_lem. Qed.
Print Assumptions radec_missing.
Theorem pint_radec_spec : forall ephem name raj decj elong elat,
  (forall a d, raj = Some a -> decj = Some d -> pint_radec ephem name raj decj elong elat = Ok (a, d)) /\
  (raj = None \/ decj = None ->
    (forall l b, elong = Some l -> elat = Some b ->
      pint_radec ephem name raj decj elong elat = Ok (if substring_of "B" name then ephem B1950 l b else ephem J2000 l b)) /\
    (elong = None \/ elat = None -> pint_radec ephem name raj decj elong elat = Err AttributeError)).
Proof. exact pint_radec_lem. Qed.
Print Assumptions pint_radec_spec.

Example position_ex : let t := T2Pars ["ELONG"; "ELAT"] ["F0"] [("ELONG", 1%R); ("ELAT", (1/2)%R)] [] in coordinates t 1 (1/2)%R /\ substring_of "B" "J1713+0747" = false.
Proof. cbn; repeat split. Qed.
Example position_B_ex : exact_j2000 ex_ephem /\ substring_of "B" "B1855+09" = true /\
  get_pos (fst (ex_ephem B1950 0 0)) (snd (ex_ephem B1950 0 0)) <> get_pos (fst (ex_ephem J2000 0 0)) (snd (ex_ephem J2000 0 0)).
Proof. exact (conj ex_exact (conj eq_refl ex_precesses)). Qed.

(** C106: what a pulsar takes over from PINT and tempo2. DM, DMX values with errors and
    ranges: those PINT fits; those set in tempo2. *)
Theorem pint_dmx : forall model dm o, NoDup (dkeys model) -> pint_set_dm model = Ok (dm, o) ->
  dm = pint_val model "DM" /\
  (forall k p, dget string_dec model k = Some p -> substring_of "DMX_" k = true -> pp_frozen p = false ->
    exists x, lookup o k = Some x /\ is_entry (pint_val model) (pp_unc p) k x /\ x_fit x = true) /\
  (forall k, (forall p, dget string_dec model k = Some p -> substring_of "DMX_" k = true -> pp_frozen p = true) -> lookup o k = None) /\
  o <> Some [].
Proof. exact pint_dmx_lem. Qed.
Print Assumptions pint_dmx.
Theorem t2_dmx : forall t dm o, t2_set_dm t = Ok (dm, o) ->
  (In "DM" (t_set t) -> dm <> None /\ dm = dget string_dec (t_val t) "DM") /\ (~ In "DM" (t_set t) -> dm = None) /\
  (forall k, In k (t_set t) -> substring_of "DMX_" k = true ->
    exists x, lookup o k = Some x /\ is_entry (dget string_dec (t_val t)) (dget string_dec (t_err t) k) k x /\ x_fit x = true) /\
  (forall k, ~ (In k (t_set t) /\ substring_of "DMX_" k = true) -> lookup o k = None).
Proof. exact t2_dmx_lem. Qed.
Print Assumptions t2_dmx.
Theorem fit_refuted : exists t dm o k x, t2_set_dm t = Ok (dm, Some o) /\ ~ In k (t_fit t) /\ dget string_dec o k = Some x /\ x_fit x = true.
Proof. exact fit_refuted_lem. Qed.
Print Assumptions fit_refuted.
Theorem frozen_refuted : exists model k p, dget string_dec model k = Some p /\ substring_of "DMX_" k = true /\ pp_value p <> None /\
  exists dm, pint_set_dm model = Ok (dm, None).
Proof. exact frozen_refuted_lem. Qed.
Print Assumptions frozen_refuted.
Theorem setpars_unfitted : forall all fit p, In p (setpars all fit) <-> In p all /\ ~ In p fit.
Proof. exact setpars_lem. Qed.
Print Assumptions setpars_unfitted.
(** Flags of PINT TOAs: an array for every flag of any TOA, empty where it is not set *)
Theorem pint_flags_spec : forall obs, (forall o, In o obs -> NoDup (dkeys o)) ->
  (forall k, In k (dkeys (pint_flags obs)) <-> exists o, In o obs /\ In k (dkeys o)) /\
  (forall k l, dget string_dec (pint_flags obs) k = Some l -> length l = length obs /\
    forall i o, nth_error obs i = Some o -> nth_error l i = Some (match dget string_dec o k with Some v => v | None => "" end)).
Proof. exact pint_flags_lem. Qed.
Print Assumptions pint_flags_spec.
(** Planets of PINT in light seconds; nan for the planets and velocities it does not have *)
Theorem pint_planetssb_spec : forall table n obs, dget string_dec table "ssb_obs_pos" = Some obs -> length obs = n ->
  (forall j k, In (j, k) pint_planets -> exists l, dget string_dec table k = Some l /\ length l = n) ->
  exists p, pint_planetssb true table n = Ok (Some p) /\ length p = n /\
  forall i, i < n ->
    (forall j k l c, In (j, k) pint_planets -> dget string_dec table k = Some l -> c < 3 ->
      entry p i j c = Some ((coord (nth i l (0, 0, 0)%R) c + coord (nth i obs (0, 0, 0)%R) c) / 299792458)%R) /\
    (forall j c, ~ (c < 3 /\ In j (map fst pint_planets)) -> entry p i j c = None).
Proof. exact pint_planetssb_lem. Qed.
Print Assumptions pint_planetssb_spec.
Theorem pint_planets_missing : forall table n k j, In (j, k) pint_planets -> dget string_dec table k = None ->
  dget string_dec table "ssb_obs_pos" <> None ->
  pint_planetssb true table n = Err ValueError /\ pint_planetssb false table n = Ok None.
Proof. exact pint_planets_missing_lem. Qed.
Print Assumptions pint_planets_missing.
Theorem pint_sunssb_spec : forall table n obs l, dget string_dec table "ssb_obs_pos" = Some obs -> dget string_dec table "obs_sun_pos" = Some l ->
  length obs = n -> length l = n ->
  exists p, pint_sunssb true table n = Ok (Some p) /\ length p = n /\ pint_sunssb false table n = Ok None /\
  forall i c, i < n ->
    (c < 3 -> nth c (nth i p []) None = Some ((coord (nth i l (0, 0, 0)%R) c + coord (nth i obs (0, 0, 0)%R) c) / 299792458)%R) /\
    (3 <= c < 6 -> nth c (nth i p []) None = Some 0%R).
Proof. exact pint_sunssb_lem. Qed.
Print Assumptions pint_sunssb_spec.

Example pint_dmx_ex : exists dm o, pint_set_dm
  [("DM", PintPar true (Some 10%R) None); ("DMX_0001", PintPar false (Some 1%R) (Some (1/5)%R)); ("DMXR1_0001", PintPar true (Some 55000%R) None); ("DMXR2_0001", PintPar true (Some 55007%R) None)]
  = Ok (Some dm, Some o) /\ dget string_dec o "DMX_0001" = Some (Dmx 1 (Some (1/5)) 55000 55007 true)%R.
Proof. do 2 eexists; split; reflexivity. Qed.
Example pint_flags_ex : pint_flags [[("f", "a"); ("be", "GUPPI")]; [("f", "b")]; []] = [("f", ["a"; "b"; ""]); ("be", ["GUPPI"; ""; ""])].
Proof. reflexivity. Qed.
Example pint_planets_ex : let v := (1, 2, 3)%R in
  let table := map (fun k => (k, [v])) ["ssb_obs_pos"; "obs_earth_pos"; "obs_jupiter_pos"; "obs_saturn_pos"; "obs_uranus_pos"; "obs_neptune_pos"] in
  forall j k, In (j, k) pint_planets -> exists l, dget string_dec table k = Some l /\ length l = 1.
Proof. cbn; intros j k i; repeat (destruct i as [[= <- <-]|i]; [eexists; split; reflexivity|]); destruct i. Qed.

(** C107: making a pulsar of a tempo2 object sets its corrections of planet masses to zero:
    the planets and directions do not depend on them, but the TOAs of a second pulsar of
    the same object do. *)
Theorem t2_planets : forall eng t t', looks eng -> t_set t = t_set t' -> t_fit t = t_fit t' -> same_but_masses (t_val t) (t_val t') ->
  let '((_, pl, pos), _) := t2_pulsar eng true t in let '((_, pl', pos'), _) := t2_pulsar eng true t' in pl = pl' /\ pos = pos'.
Proof. exact t2_planets_lem. Qed.
Print Assumptions t2_planets.
Theorem t2_masses : forall eng planets t out t', t2_pulsar eng planets t = (out, t') ->
  t_set t' = t_set t /\ t_fit t' = t_fit t /\ t_err t' = t_err t /\ same_but_masses (t_val t) (t_val t') /\
  (forall k, In k planet_masses -> dget string_dec (t_val t') k = if planets then Some 0%R else dget string_dec (t_val t) k).
Proof. exact t2_masses_lem. Qed.
Print Assumptions t2_masses.
Theorem t2_solar_system : forall eng t toas pl pos t', t2_pulsar eng true t = ((toas, pl, pos), t') ->
  let ecl := In "ELAT" (t_fit t) \/ In "ELAT" (t_set t) in
  toas = map (fun x => 86400 * x)%R (e_toas eng (t_val t)) /\
  (ecl -> pos = ecl2eq_vec (e_pos eng (t_val t'))) /\ (~ ecl -> pos = e_pos eng (t_val t')) /\
  exists p, pl = Some p /\ length p = 9 /\ forall j, j < 9 ->
    (ecl -> map fst (nth j p []) = ecl2eq_vec (map fst (e_planet eng (t_val t') j)) /\ map snd (nth j p []) = ecl2eq_vec (map snd (e_planet eng (t_val t') j))) /\
    (~ ecl -> nth j p [] = e_planet eng (t_val t') j).
Proof. exact t2_solar_system_lem. Qed.
Print Assumptions t2_solar_system.
Theorem second_pulsar : forall eng t, looks eng -> (forall k, In k planet_masses -> dget string_dec (t_val t) k = Some 0%R) ->
  let '(out, t') := t2_pulsar eng true t in fst (t2_pulsar eng true t') = out.
Proof. exact second_pulsar_lem. Qed.
Print Assumptions second_pulsar.
Theorem second_pulsar_refuted : exists eng t, looks eng /\
  let '((toas, _, _), t') := t2_pulsar eng true t in let '((toas', _, _), _) := t2_pulsar eng true t' in toas <> toas'.
Proof. exact second_pulsar_refuted_lem. Qed.
Print Assumptions second_pulsar_refuted.

(** C108: a pulsar gets rid of all that cannot be pickled, whatever was dropped before. *)
Theorem pint_picklable : forall a, pint_state a ->
  snd (pint_drop_not_picklable a) = None /\
  ~ In "model" (fst (pint_drop_not_picklable a)) /\ ~ In "pint_toas" (fst (pint_drop_not_picklable a)) /\
  (forall k, In k (fst (pint_drop_not_picklable a)) <-> In k a /\ k <> "model" /\ k <> "pint_toas").
Proof. exact pint_picklable_lem. Qed.
Print Assumptions pint_picklable.
Theorem t2_picklable : forall a, snd (t2_drop_not_picklable a) = None /\
  (forall k, In k (fst (t2_drop_not_picklable a)) <-> In k a /\ k <> "t2pulsar").
Proof. exact t2_picklable_lem. Qed.
Print Assumptions t2_picklable.
Theorem drop_pintpsr_spec : forall a, pint_state a ->
  (snd (drop_pintpsr a) = None <-> In "model" a) /\ (In "model" a -> fst (drop_pintpsr a) = []) /\
  (~ In "model" a -> drop_pintpsr a = (a, Some AttributeError)).
Proof. exact drop_pintpsr_lem. Qed.
Print Assumptions drop_pintpsr_spec.
(** Dropping what has been dropped raises, although exceptions are meant to be ignored. *)
Theorem drop_twice_refuted : exists a, pint_state a /\ snd (drop_pintpsr a) = Some AttributeError /\ a = fst (drop_pintpsr (new_pint false)) /\
  snd (drop_tempopsr (new_t2 true)) = Some AttributeError.
Proof. exact drop_twice_refuted_lem. Qed.
Print Assumptions drop_twice_refuted.

Example pint_states_ex : pint_state ["parfile"; "timfile"] /\ pint_state [].
Proof. split; [exact (ps_pickle _ (ps_new false))|exact (ps_new true)]. Qed.
