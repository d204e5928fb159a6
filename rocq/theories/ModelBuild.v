(** How pulsars are made from the timing packages (enterprise/pulsar.py): sky
    positions L94-125 and L288-296, the constructors and helpers of [PintPulsar]
    L326-484 and [Tempo2Pulsar] L487-608, and the methods that drop attributes
    L170-175, L390-401, L546-548, L616-620.

    Doubles are reals. What the packages compute is given: by tables for PINT, by
    functions of the tempo2 object's parameters for tempo2. *)
From Coq Require Import Reals String Bool Arith List.
From Verif Require Import PyBase ModelOrf ModelEphem.
Import ListNotations.
Open Scope string_scope.
Open Scope list_scope.

Definition mem (x : string) (l : list string) : bool := existsb (String.eqb x) l.

(** ** Positions *)
Inductive epoch : Type := B1950 | J2000.
(** L94-115: [ephem] is pyephem's conversion of ecliptic longitude and latitude to
    right ascension and declination of an epoch; a missing coordinate makes it raise
    TypeError. *)
Definition radec_from_ecliptic (ephem : epoch -> R -> R -> R * R) (name : string) (elong elat : option R) : R * R :=
  match elong, elat with
  | Some l, Some b => ephem (if substring_of "B" name then B1950 else J2000) l b
  | _, _ => (0%R, 0%R)
  end.
(** L117-124 *)
Definition get_pos (raj decj : R) : vec := ((cos raj * cos decj)%R, (sin raj * cos decj)%R, sin decj).
(** L288-296 *)
Definition theta (raj decj : R) : R := (PI / 2 - decj)%R.
Definition phi (raj decj : R) : R := raj.

(** ** DM and DMX *)
Record dmx_entry := Dmx { x_val : R; x_err : option R; x_r1 : R; x_r2 : R; x_fit : bool }.
Definition range_name (r par : string) : string :=
  (substring 0 3 par ++ r ++ substring 3 (String.length par - 3) par)%string.
(** A dictionary comprehension over the names that contain "DMX_"; an empty dictionary
    becomes None. *)
Definition dmx_dict (entry : string -> result dmx_entry) (pars : list string) : result (option (dict string dmx_entry)) :=
  rmap (fun d => match d with [] => None | _ => Some d end)
    (fold_left (fun st par => rbind st (fun d => rmap (dset string_dec d par) (entry par)))
       (filter (substring_of "DMX_") pars) (Ok [])).

(** A parameter of a PINT model *)
Record pint_par := PintPar { pp_frozen : bool; pp_value : option R; pp_unc : option R }.
(** [float(model[name].value)] *)
Definition pint_float (model : dict string pint_par) (name : string) : result R :=
  rbind (dgetE string_dec model name) (fun p => match pp_value p with Some v => Ok v | None => Err TypeError end).
(** L404-429; the first component is [_dm], which may stay undefined *)
Definition pint_set_dm (model : dict string pint_par) : result (option R * option (dict string dmx_entry)) :=
  let pars := map fst (filter (fun kp => negb (pp_frozen (snd kp))) model) in
  rbind (if dmem string_dec model "DM" then rmap Some (pint_float model "DM") else Ok None) (fun dm =>
  rmap (pair dm)
    (dmx_dict (fun par =>
       rbind (pint_float model par) (fun v =>
       rbind (dgetE string_dec model par) (fun p =>
       rbind (pint_float model (range_name "R1" par)) (fun r1 =>
       rbind (pint_float model (range_name "R2" par)) (fun r2 =>
         Ok (Dmx v (pp_unc p) r1 r2 (mem par pars))))))) pars)).

(** tempo2: the names of the set and of the fitted parameters, values and errors *)
Record t2pars := T2Pars { t_set : list string; t_fit : list string; t_val : dict string R; t_err : dict string R }.
(** L551-575 *)
Definition t2_set_dm (t : t2pars) : result (option R * option (dict string dmx_entry)) :=
  let pars := t_set t in
  rbind (if mem "DM" pars then rmap Some (dgetE string_dec (t_val t) "DM") else Ok None) (fun dm =>
  rmap (pair dm)
    (dmx_dict (fun par =>
       rbind (dgetE string_dec (t_val t) par) (fun v =>
       rbind (dgetE string_dec (t_err t) par) (fun e =>
       rbind (dgetE string_dec (t_val t) (range_name "R1" par)) (fun r1 =>
       rbind (dgetE string_dec (t_val t) (range_name "R2" par)) (fun r2 =>
         Ok (Dmx v (Some e) r1 r2 (mem par pars))))))) pars)).

(** L356 and L518-519 *)
Definition setpars (all fitpars : list string) : list string := filter (fun p => negb (mem p fitpars)) all.

(** ** Flags of PINT TOAs (L359-373); PINT has strings only. *)
Fixpoint set_nth {A} (l : list A) (i : nat) (x : A) : list A :=
  match l, i with
  | [], _ => []
  | _ :: l', O => x :: l'
  | y :: l', S i' => y :: set_nth l' i' x
  end.
Definition add_flags (ntoas : nat) (flags : dict string (list string)) (iobs : nat * dict string string) : dict string (list string) :=
  fold_left (fun fl kv =>
    let fl := if dmem string_dec fl (fst kv) then fl else dset string_dec fl (fst kv) (repeat "" ntoas) in
    match dget string_dec fl (fst kv) with Some l => dset string_dec fl (fst kv) (set_nth l (fst iobs) (snd kv)) | None => fl end)
    (snd iobs) flags.
Definition pint_flags (obs : list (dict string string)) : dict string (list string) :=
  fold_left (add_flags (length obs)) (combine (seq 0 (length obs)) obs) [].

(** ** Sky coordinates from the packages *)
(** L431-439; None: the model has no such attribute *)
Definition pint_radec (ephem : epoch -> R -> R -> R * R) (name : string) (raj decj elong elat : option R) : result (R * R) :=
  match raj, decj with
  | Some a, Some d => Ok (a, d)
  | _, _ =>
      match elong, elat with
      | Some l, Some b => Ok (radec_from_ecliptic ephem name (Some l) (Some b))
      | _, _ => Err AttributeError
      end
  end.
(** L577-585 *)
Definition t2_radec (ephem : epoch -> R -> R -> R * R) (name : string) (t : t2pars) : result (R * R) :=
  if mem "RAJ" (t_fit t ++ t_set t) then
    rbind (dgetE string_dec (t_val t) "RAJ") (fun a => rmap (fun d => (a, d)) (dgetE string_dec (t_val t) "DECJ"))
  else
    rbind (dgetE string_dec (t_val t) "ELONG") (fun l =>
    rbind (dgetE string_dec (t_val t) "ELAT") (fun b => Ok (radec_from_ecliptic ephem name (Some l) (Some b)))).
(** L535-537, L601, L612: ["ELONG" and "ELAT" in names] is ["ELAT" in names] *)
Definition t2_ecliptic (t : t2pars) : bool := mem "ELAT" (t_fit t ++ t_set t).
Definition t2_pos_t (t : t2pars) (psrPos : list vec) : list vec := if t2_ecliptic t then ecl2eq_vec psrPos else psrPos.

(** ** The solar system *)
(** Position and velocity; nan is None *)
Definition six : Type := list (option R).
Definition clight : R := 299792458.
(** L441-449, for positions in metres *)
Definition ssb_lsec (table : dict string (list vec)) (obs_planet : string) : result (list vec) :=
  rbind (match dget string_dec table obs_planet with Some p => Ok p | None => Err ValueError end) (fun p =>
  rmap (fun o => map (fun pq => vscale (/ clight) (vadd (fst pq) (snd pq))) (combine p o)) (dgetE string_dec table "ssb_obs_pos")).
Definition vlist (v : vec) : list (option R) := let '(x, y, z) := v in [Some x; Some y; Some z].
Definition nan3 : list (option R) := [None; None; None].
Definition nan6 : six := nan3 ++ nan3.
(** L451-472; one list of nine planets for each TOA *)
Definition pint_planetssb (planets : bool) (table : dict string (list vec)) (ntoas : nat) : result (option (list (list six))) :=
  if negb planets then Ok None else
  rbind (ssb_lsec table "obs_earth_pos") (fun e =>
  rbind (ssb_lsec table "obs_jupiter_pos") (fun j =>
  rbind (ssb_lsec table "obs_saturn_pos") (fun s =>
  rbind (ssb_lsec table "obs_uranus_pos") (fun u =>
  rbind (ssb_lsec table "obs_neptune_pos") (fun n =>
    Ok (Some (map (fun i =>
      let p l := vlist (nth i l (0, 0, 0)%R) ++ nan3 in
      [nan6; nan6; p e; nan6; p j; p s; p u; p n; nan6]) (seq 0 ntoas)))))))).
(** L474-484 *)
Definition pint_sunssb (planets : bool) (table : dict string (list vec)) (ntoas : nat) : result (option (list six)) :=
  if negb planets then Ok None else
  rmap (fun s => Some (map (fun i => vlist (nth i s (0, 0, 0)%R) ++ [Some 0%R; Some 0%R; Some 0%R]) (seq 0 ntoas))) (ssb_lsec table "obs_sun_pos").

Definition mass_names : list string :=
  ["DMASSPLANET1"; "DMASSPLANET2"; "DMASSPLANET3"; "DMASSPLANET4"; "DMASSPLANET5"; "DMASSPLANET6"; "DMASSPLANET7"; "DMASSPLANET8"; "DMASSPLANET9"].
(** What tempo2 computes from the values of the parameters: barycentred TOAs in days,
    planets (position and velocity) and the directions of the pulsar *)
Record tempo2 := Tempo2 { e_toas : dict string R -> list R; e_planet : dict string R -> nat -> list (vec * vec); e_pos : dict string R -> list vec }.
(** L587-608: the planets, and the values the object has afterwards *)
Definition t2_planetssb (eng : tempo2) (planets : bool) (t : t2pars) : option (list (list (vec * vec))) * dict string R :=
  if negb planets then (None, t_val t) else
  let vals := fold_left (fun d k => dset string_dec d k 0%R) mass_names (t_val t) in
  let rot p := if t2_ecliptic t then (mulv M_ecl (fst p), mulv M_ecl (snd p)) else p in
  (Some (map (fun ii => map rot (e_planet eng vals ii)) (seq 0 9)), vals).
(** The parts of L487-548 that depend on the values: TOAs in seconds, planets,
    directions, and the values left in the object *)
Definition t2_pulsar (eng : tempo2) (planets : bool) (t : t2pars) : (list R * option (list (list (vec * vec))) * list vec) * t2pars :=
  let toas := map (Rmult 86400) (e_toas eng (t_val t)) in
  let '(pl, vals) := t2_planetssb eng planets t in
  let t' := T2Pars (t_set t) (t_fit t) vals (t_err t) in
  ((toas, pl, t2_pos_t t' (e_pos eng vals)), t').

(** ** Attributes that can be dropped *)
(** The names of the attributes an object has *)
Definition attrs : Type := list string.
Definition del (a : attrs) (k : string) : result attrs := if mem k a then Ok (filter (fun x => negb (String.eqb x k)) a) else Err AttributeError.
(** [with contextlib.suppress(...): del self.k1; del self.k2 ...]; the object afterwards
    and the exception that is left *)
Fixpoint dels (suppressed : exn -> bool) (a : attrs) (ks : list string) : attrs * option exn :=
  match ks with
  | [] => (a, None)
  | k :: ks' => match del a k with Ok a' => dels suppressed a' ks' | Err e => (a, if suppressed e then None else Some e) end
  end.
(** [NameError] is not an exception that [del] raises *)
Definition suppress_name (e : exn) : bool := false.
Definition suppress_attribute (e : exn) : bool := match e with AttributeError => true | _ => false end.
(** L332-338; other attributes are left out *)
Definition new_pint (drop : bool) : attrs := if drop then [] else ["model"; "parfile"; "pint_toas"; "timfile"].
(** L390-395 *)
Definition drop_pintpsr (a : attrs) : attrs * option exn := dels suppress_name a ["model"; "parfile"; "pint_toas"; "timfile"].
(** L397-403 *)
Definition pint_drop_not_picklable (a : attrs) : attrs * option exn := dels suppress_attribute a ["model"; "pint_toas"].
(** L539-543, for existing files *)
Definition drop_tempopsr (a : attrs) : attrs * option exn := dels suppress_name a ["t2pulsar"].
Definition new_t2 (drop : bool) : attrs := if drop then fst (drop_tempopsr ["t2pulsar"]) else ["t2pulsar"; "parfile"; "timfile"].
Definition t2_drop_not_picklable (a : attrs) : attrs * option exn := dels suppress_attribute a ["t2pulsar"].
