(** Rotations of the solar system and the ephemeris delay
    (enterprise/signals/utils.py L945-1162; enterprise/constants.py L51-54).

    Doubles are reals; time series are lists, as long as the number of TOAs. *)
From Coq Require Import Reals Bool Arith List.
From Verif Require Import PyBase ModelBases ModelOrf.
Import ListNotations.
Open Scope list_scope.
Open Scope R_scope.

(** ** Rotations *)
(** A matrix of three rows. *)
Definition mat3 : Type := vec * vec * vec.
Definition mulv (M : mat3) (v : vec) : vec := let '(r1, r2, r3) := M in (dot r1 v, dot r2 v, dot r3 v).
Definition tr3 (M : mat3) : mat3 :=
  let '((a, b, c), (d, e, f), (g, h, i)) := M in ((a, d, g), (b, e, h), (c, f, i)).
(** [np.einsum("ijk,ikl->ijl", L, N)], one block *)
Definition mul3 (L N : mat3) : mat3 :=
  let t := tr3 N in let '(r1, r2, r3) := L in (mulv t r1, mulv t r2, mulv t r3).
(** constants.py L51-54 [e_ecl], [M_ecl] *)
Definition e_ecl : R := 2343704 / 100000 * PI / 180.
Definition M_ecl : mat3 := ((1, 0, 0), (0, cos e_ecl, - sin e_ecl), (0, sin e_ecl, cos e_ecl)).
(** L945-958 *)
Definition ecl2eq_vec (x : list vec) : list vec := map (mulv M_ecl) x.
Definition eq2ecl_vec (x : list vec) : list vec := map (mulv (tr3 M_ecl)) x.
(** L961-991 [euler_vec], one block *)
Definition euler (z y x : R) : mat3 :=
  let L := ((1, 0, 0), (0, cos x, - sin x), (0, sin x, cos x)) in
  let N := ((cos y, 0, sin y), (0, 1, 0), (- sin y, 0, cos y)) in
  let M := ((cos z, - sin z, 0), (sin z, cos z, 0), (0, 0, 1)) in
  mul3 (mul3 L N) M.
Definition vadd (p q : vec) : vec := let '(a, b, c) := p in let '(x, y, z) := q in (a + x, b + y, c + z).
Definition vscale (s : R) (p : vec) : vec := let '(a, b, c) := p in (s * a, s * b, s * c).
(** L994-1017 [ss_framerotate] for as many times as positions *)
Definition ss_framerotate (mjd : list R) (planet : list vec) (x y z dz : R) (offset : option vec) (equatorial : bool) : list vec :=
  let planet := if equatorial then eq2ecl_vec planet else planet in
  let planet := map (fun tp => mulv (euler (z + dz * (fst tp - 55197) / (36525 / 100)) y x) (snd tp)) (combine mjd planet) in
  let planet := match offset with None => planet | Some o => map (vadd o) planet end in
  if equatorial then ecl2eq_vec planet else planet.

(** ** The ephemeris delay *)
(** [np.interp(x, xp, fp)] for increasing [xp], one coordinate at a time is the
    same for vectors *)
Fixpoint interp_from (x x0 : R) (v0 : vec) (l : list (R * vec)) : vec :=
  match l with
  | [] => v0
  | (x1, v1) :: l' =>
      if Rlt_dec x x1
      then vadd v0 (vscale ((x - x0) / (x1 - x0)) (vadd v1 (vscale (-1) v0)))
      else interp_from x x1 v1 l'
  end.
Definition interp (x : R) (xp : list R) (fp : list vec) : result vec :=
  if negb (Nat.eqb (length xp) (length fp)) then Err ValueError else
  match combine xp fp with
  | [] => Err ValueError
  | (x0, v0) :: l => Ok (if Rlt_dec x x0 then v0 else interp_from x x0 v0 l)
  end.
(** The orbits that belong to the elements, sampled at some times. *)
Record orbits := Orbits { ob_times : list R; ob_orbit : list (list vec) }.
(** [np.einsum("i,ijk->jk", elements, orbit)] *)
Fixpoint combine_orbits (e : list R) (orbit : list (list vec)) : list vec :=
  match e, orbit with
  | [a], [o] => map (vscale a) o
  | a :: e', o :: orbit' => map (fun pq => vadd (vscale a (fst pq)) (snd pq)) (combine o (combine_orbits e' orbit'))
  | _, _ => []
  end.
(** [np.any(elements)] *)
Definition any_nonzero (l : list R) : bool := existsb (fun x => if Req_EM_T x 0 then false else true) l.
(** L1136-1150: one orbit perturbation; a single element for several orbits,
    which numpy stretches, is not modelled. *)
Definition orbit_shift (mjd : list R) (mass : R) (elements : list R) (ob : option orbits) : result (list vec) :=
  if any_nonzero elements then
    match ob with
    | None => Err ValueError
    | Some ob =>
        if negb (Nat.eqb (length elements) (length (ob_orbit ob))) then Err ValueError else
        let tmp := map (vscale mass) (combine_orbits elements (ob_orbit ob)) in
        rmapM (fun t => interp t (ob_times ob) tmp) mjd
    end
  else Ok (map (fun _ => (0, 0, 0)) mjd).
(** The positions of the planets at one time: rows 2 and 4 to 7 of [planetssb]. *)
Record planets := Planets { pl_earth : vec; pl_jupiter : vec; pl_saturn : vec; pl_uranus : vec; pl_neptune : vec }.
Record corrections := Corrections {
  k_drift : R; k_jupiter : R; k_saturn : R; k_uranus : R; k_neptune : R; k_jup_orb : list R; k_sat_orb : list R }.
(** L1102-1162 [physical_ephem_delay]; one list entry for each TOA *)
Definition ephem_delay (toas : list R) (pl : list planets) (pos : list vec) (k : corrections)
    (jup sat : option orbits) (equatorial : bool) : result (list R) :=
  let mjd := map (fun t => t / 86400) toas in
  let earth := ss_framerotate mjd (map pl_earth pl) 0 0 0 (k_drift k) None equatorial in
  let add (e : list vec) (d : list vec) := map (fun pq => vadd (fst pq) (snd pq)) (combine e d) in
  let earth := add earth (map (fun p => vscale (k_jupiter k) (pl_jupiter p)) pl) in
  let earth := add earth (map (fun p => vscale (k_saturn k) (pl_saturn p)) pl) in
  let earth := add earth (map (fun p => vscale (k_uranus k) (pl_uranus p)) pl) in
  let earth := add earth (map (fun p => vscale (k_neptune k) (pl_neptune p)) pl) in
  rbind (orbit_shift mjd (9547918983127075 / 10 ^ 19) (k_jup_orb k) jup) (fun dj =>
  rbind (orbit_shift mjd (28588567008942334 / 10 ^ 20) (k_sat_orb k) sat) (fun ds =>
  let earth := add (add earth dj) ds in
  Ok (map (fun pep => dot (pl_earth (fst pep)) (snd (snd pep)) - dot (fst (snd pep)) (snd (snd pep))) (combine pl (combine earth pos))))).
(** L1029-1100 [createfourierdesignmatrix_physicalephem]: columns and sigmas; a
    sigma of [None] or zero leaves its columns out. *)
Record sigmas := Sigmas {
  s_drift : option R; s_jupiter : option R; s_saturn : option R; s_uranus : option R; s_neptune : option R; s_jup_orb : option R; s_sat_orb : option R }.
Definition dpar : R := 1 / 10 ^ 5.
Definition unit6 (i : nat) : list R := map (fun j => if Nat.eqb j i then dpar else 0) (seq 0 6).
Definition ephem_basis (toas : list R) (pl : list planets) (pos : list vec) (s : sigmas) (jup sat : orbits) : result (list (list R) * list R) :=
  let par (sg : option R) (jup sat : option orbits) (ks : list corrections) :=
    match sg with
    | Some x => if Req_EM_T x 0 then [] else map (fun k => ((k, jup, sat), x)) ks
    | None => []
    end in
  let ks :=
    par (s_drift s) None None [Corrections dpar 0 0 0 0 (repeat 0 6) (repeat 0 6)] ++
    par (s_jupiter s) None None [Corrections 0 dpar 0 0 0 (repeat 0 6) (repeat 0 6)] ++
    par (s_saturn s) None None [Corrections 0 0 dpar 0 0 (repeat 0 6) (repeat 0 6)] ++
    par (s_uranus s) None None [Corrections 0 0 0 dpar 0 (repeat 0 6) (repeat 0 6)] ++
    par (s_neptune s) None None [Corrections 0 0 0 0 dpar (repeat 0 6) (repeat 0 6)] ++
    par (s_jup_orb s) (Some jup) (Some sat) (map (fun i => Corrections 0 0 0 0 0 (unit6 i) (repeat 0 6)) (seq 0 6)) ++
    par (s_sat_orb s) (Some jup) (Some sat) (map (fun i => Corrections 0 0 0 0 0 (repeat 0 6) (unit6 i)) (seq 0 6)) in
  rmap (fun cols => (cols, map snd ks))
    (rmapM (fun kx => rmap (map (fun d => d / dpar)) (let '(k, j, o) := fst kx in ephem_delay toas pl pos k j o true)) ks).
(** L1022-1026 [physicalephem_spectrum] *)
Definition ephem_spectrum (sg : list R) : list R := map (fun x => x ^ 2) sg.
