(** Waves of eccentric binaries (enterprise/signals/utils.py L356-685;
    enterprise/constants.py L19-39).
    Doubles are reals. [x ** y] with a broken exponent is [Rpower x y], which agrees for
    positive [x] only. The Bessel functions [ss.jn] are given. Frequencies,
    eccentricities and angles are numbers; arrays of TOAs are treated entry by entry.
    Chirp mass and distance are numbers or arrays with one entry: they are multiplied
    in place, which changes the caller's array. The table of harmonics (L340-353) and the
    numerical integration (L489-534) are not modelled. *)
From Coq Require Import Reals ZArith Bool Arith List.
From Verif Require Import PyBase.
Import ListNotations.
Open Scope list_scope.
Open Scope R_scope.

(** ** Constants *)
(** constants.py L19, L36, L39, and L30-32 with the parsec of scipy *)
Definition c_light : R := 299792458.
Definition GMsun : R := 1327124400 * 10 ^ 11.
Definition Tsun : R := GMsun / c_light ^ 3.
Definition AU : R := 149597870700.
Definition Mpc : R := AU / (PI / 648000) * 10 ^ 6.

(** ** Orbital evolution *)
(** L356-372 *)
Definition get_edot (F mc e : R) : R :=
  let mc := mc * Tsun in
  - 304 / (15 * mc) * Rpower (2 * PI * mc * F) (8 / 3) * e * (1 + 121 / 304 * e ^ 2) / Rpower (1 - e ^ 2) (5 / 2).
(** L375-399 *)
Definition get_Fdot (F mc e : R) : R :=
  let mc := mc * Tsun in
  48 / (5 * PI * mc ^ 2) * Rpower (2 * PI * mc * F) (11 / 3) * (1 + 73 / 24 * e ^ 2 + 37 / 96 * e ^ 4) / Rpower (1 - e ^ 2) (7 / 2).
(** L402-429 *)
Definition get_gammadot (F mc q e : R) : R :=
  let mc := mc * Tsun in
  let m := Rpower ((1 + q) ^ 2 / q) (3 / 5) * mc in
  6 * PI * F * Rpower (2 * PI * F * m) (2 / 3) / (1 - e ^ 2) * (1 + 25 / 100 * Rpower (2 * PI * F * m) (2 / 3) / (1 - e ^ 2) * (26 - 15 * e ^ 2)).
(** L432-453 *)
Definition constecc_eqns (F phase mc e0 : R) : list R := [get_Fdot F mc e0; 2 * PI * F].
(** L456-484 *)
Definition ecc_eqns (F e gamma phase mc q : R) : list R := [get_Fdot F mc e; get_edot F mc e; get_gammadot F mc q e; 2 * PI * F].

(** ** Waveforms *)
(** A number, or an array of one entry. *)
Record cell := Cell { is_array : bool; content : R }.
(** [x *= s] in a function: the value that the function goes on with, and the object of
    the caller afterwards. *)
Definition scale_in_place (x : cell) (s : R) : R * cell :=
  (content x * s, if is_array x then Cell true (content x * s) else x).

Section Bessel.
Variable jn : Z -> R -> R.
(** L537-569; the value and the caller's objects *)
Definition get_an (n : nat) (mc dl : cell) (h0 : option R) (F e : R) : R * (cell * cell) :=
  let (m, mc) := scale_in_place mc Tsun in
  let (d, dl) := scale_in_place dl (Mpc / c_light) in
  let omega := 2 * PI * F in
  let amp := match h0 with None => INR n * Rpower m (5 / 3) * Rpower omega (2 / 3) / d | Some h => INR n * h / 2 end in
  let k := Z.of_nat n in let x := INR n * e in
  (- amp * (jn (k - 2) x - 2 * e * jn (k - 1) x + 2 / INR n * jn k x + 2 * e * jn (k + 1) x - jn (k + 2) x), (mc, dl)).
(** L572-598 *)
Definition get_bn (n : nat) (mc dl : cell) (h0 : option R) (F e : R) : R * (cell * cell) :=
  let (m, mc) := scale_in_place mc Tsun in
  let (d, dl) := scale_in_place dl (Mpc / c_light) in
  let omega := 2 * PI * F in
  let amp := match h0 with None => INR n * Rpower m (5 / 3) * Rpower omega (2 / 3) / d | Some h => INR n * h / 2 end in
  let k := Z.of_nat n in let x := INR n * e in
  (- amp * sqrt (1 - e ^ 2) * (jn (k - 2) x - 2 * jn k x + jn (k + 2) x), (mc, dl)).
(** L601-627 *)
Definition get_cn (n : nat) (mc dl : cell) (h0 : option R) (F e : R) : R * (cell * cell) :=
  let (m, mc) := scale_in_place mc Tsun in
  let (d, dl) := scale_in_place dl (Mpc / c_light) in
  let omega := 2 * PI * F in
  let amp := match h0 with None => 2 * Rpower m (5 / 3) * Rpower omega (2 / 3) / d | Some h => h end in
  let k := Z.of_nat n in let x := INR n * e in
  (amp * jn k x / (INR n * omega), (mc, dl)).
(** One call for all harmonics: the objects are scaled once. *)
Definition all_harmonics (g : nat -> cell -> cell -> option R -> R -> R -> R * (cell * cell)) (ns : list nat) (mc dl : cell) (h0 : option R) (F e : R) : list R * (cell * cell) :=
  (map (fun n => fst (g n mc dl h0 F e)) ns, snd (g 1%nat mc dl h0 F e)).

(** L663-683: one harmonic at one TOA *)
Definition harmonic (n : nat) (an bn cn F t l0 gamma gammadot inc : R) : R * R :=
  let omega := 2 * PI * F in
  let gt := gamma + gammadot * t in
  let lt := l0 + omega * t in
  let phase1 := INR n * lt in
  let sinp1 := sin phase1 in let cosp1 := cos phase1 in
  let sinp2 := sin (2 * gt) in let cosp2 := cos (2 * gt) in
  let sinpp := sinp1 * cosp2 + cosp1 * sinp2 in
  let cospp := cosp1 * cosp2 - sinp1 * sinp2 in
  let sinpm := sinp1 * cosp2 - cosp1 * sinp2 in
  let cospm := cosp1 * cosp2 + sinp1 * sinp2 in
  let sp := sinpm / (INR n * omega - 2 * gammadot) + sinpp / (INR n * omega + 2 * gammadot) in
  let sm := sinpm / (INR n * omega - 2 * gammadot) - sinpp / (INR n * omega + 2 * gammadot) in
  let cp := cospm / (INR n * omega - 2 * gammadot) + cospp / (INR n * omega + 2 * gammadot) in
  let cm := cospm / (INR n * omega - 2 * gammadot) - cospp / (INR n * omega + 2 * gammadot) in
  (- (1 / 2) * (1 + cos inc ^ 2) * (an * sp - bn * sm) + (1 - cos inc ^ 2) * cn * sinp1, cos inc * (an * cm - bn * cp)).
(** L630-685: the waveforms at the TOAs, and the caller's mass and distance afterwards *)
Definition splus_scross (nmax : nat) (mc dl : cell) (h0 : option R) (F e : R) (t : list R) (l0 gamma gammadot inc : R) : result ((list R * list R) * (cell * cell)) :=
  let n := seq 1 (nmax - 1) in
  let '(an, (mc, dl)) := all_harmonics get_an n mc dl h0 F e in
  let '(bn, (mc, dl)) := all_harmonics get_bn n mc dl h0 F e in
  let '(cn, (mc, dl)) := all_harmonics get_cn n mc dl h0 F e in
  if Nat.eqb nmax 0 then Err ValueError else
  let waves tt := map (fun q => let '(n, (a, (b, c))) := q in harmonic n a b c F tt l0 gamma gammadot inc) (combine n (combine an (combine bn cn))) in
  let total l := fold_right Rplus 0 l in
  Ok ((map (fun tt => total (map fst (waves tt))) t, map (fun tt => total (map snd (waves tt))) t), (mc, dl)).
End Bessel.
