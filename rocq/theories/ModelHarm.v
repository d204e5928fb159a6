(** Spherical harmonics and correlations of anisotropic backgrounds
    (enterprise/signals/anis_coefficients.py).

    Doubles are reals and a complex number is a pair of reals. From healpy come
    the layout of its coefficients ([Alm.getsize], [Alm.getidx]) and the
    synthesis sum of [alm2map], the directions of the pixels are given. scipy's
    [sph_harm] is an arbitrary function [Y m l phi theta]. *)
From Coq Require Import Reals ZArith Bool Arith List.
From Verif Require Import PyBase ModelBases ModelOrf.
Import ListNotations.
Open Scope list_scope.
Open Scope R_scope.

Definition complex : Type := R * R.
Definition cadd (a b : complex) : complex := (fst a + fst b, snd a + snd b).
Definition csub (a b : complex) : complex := (fst a - fst b, snd a - snd b).
Definition cmul (a b : complex) : complex := (fst a * fst b - snd a * snd b, fst a * snd b + snd a * fst b).
Definition cscale (s : R) (a : complex) : complex := (s * fst a, s * snd a).
(** [(-1) ** mm] *)
Definition sgn (m : Z) : R := if Z.even m then 1 else -1.

(** healpy: coefficients for [lmax + 1 = k] *)
Definition getsize (k : nat) : nat := (k * (k + 1) / 2)%nat.
Definition getidx (k l m : nat) : nat := (m * (2 * k - 1 - m) / 2 + l)%nat.
(** The two loops over [ll] in [range(0, maxl + 1)] and [mm] in [range(-ll, ll + 1)]. *)
Definition lms (k : nat) : list (nat * Z) :=
  flat_map (fun l => map (fun i => (l, (Z.of_nat i - Z.of_nat l)%Z)) (seq 0 (2 * l + 1))) (seq 0 k).
(** [alm[i] += x] *)
Fixpoint add_at (l : list complex) (i : nat) (x : complex) : list complex :=
  match l, i with
  | [], _ => []
  | a :: l', 0%nat => cadd a x :: l'
  | a :: l', S i' => a :: add_at l' i' x
  end.
(** L128-135: the term of one coefficient *)
Definition term (m : Z) (c : R) : complex :=
  if (m =? 0)%Z then (c, 0) else if (m <? 0)%Z then (0, - (c / sqrt 2)) else (c / sqrt 2, 0).
(** L110-139 [almFromClm]; [int(np.sqrt(n))] is the integer square root. *)
Definition almFromClm (clm : list R) : list complex :=
  let k := Nat.sqrt (length clm) in
  fold_left (fun alm lmc => add_at alm (getidx k (fst (fst lmc)) (Z.abs_nat (snd (fst lmc)))) (term (snd (fst lmc)) (snd lmc)))
    (combine (lms k) clm) (repeat (0, 0) (getsize k)).
(** L160-165 *)
Definition back (m : Z) (a : complex) : R :=
  if (m =? 0)%Z then fst a else if (m <? 0)%Z then - snd a * sqrt 2 else fst a * sqrt 2.
(** L142-176 [clmFromAlm]; the solution of the quadratic equation, plus one. *)
Definition clmFromAlm (alm : list complex) : result (list R) :=
  let n := length alm in
  let k := ((Nat.sqrt (1 + 8 * n) - 1) / 2)%nat in
  if Nat.eqb n (getsize k)
  then Ok (map (fun lm => back (snd lm) (nth (getidx k (fst lm) (Z.abs_nat (snd lm))) alm (0, 0))) (lms k))
  else Err ValueError.

Section Maps.
Variable Y : Z -> nat -> R -> R -> complex.
(** L18-33 [real_sph_harm] *)
Definition real_sph_harm (m : Z) (l : nat) (phi theta : R) : R :=
  fst (if (0 <? m)%Z then cscale (1 / sqrt 2) (cadd (Y m l phi theta) (cscale (sgn m) (Y (- m) l phi theta)))
       else if (m =? 0)%Z then Y 0 l phi theta
       else cmul (0, - (1 / sqrt 2)) (csub (Y (- m) l phi theta) (cscale (sgn m) (Y m l phi theta)))).
(** L198-221 [mapFromClm], for the pixels (phi, theta) *)
Definition mapFromClm (clm : list R) (pixels : list (R * R)) : list R :=
  let k := Nat.sqrt (length clm) in
  map (fun pt => fold_left (fun h lmc => h + snd lmc * real_sph_harm (snd (fst lmc)) (fst (fst lmc)) (fst pt) (snd pt)) (combine (lms k) clm) 0) pixels.
(** healpy's [alm2map]: sums the harmonics of a real map *)
Definition alm2map (alm : list complex) (k : nat) (pixels : list (R * R)) : list R :=
  map (fun pt => fold_left (fun h l =>
      fold_left (fun h m => h + (if Nat.eqb m 0 then 1 else 2) * fst (cmul (nth (getidx k l m) alm (0, 0)) (Y (Z.of_nat m) l (fst pt) (snd pt)))) (seq 0 (l + 1)) h)
    (seq 0 k) 0) pixels.
(** L179-195 [mapFromClm_fast] *)
Definition mapFromClm_fast (clm : list R) (pixels : list (R * R)) : list R :=
  alm2map (almFromClm clm) (Nat.sqrt (length clm)) pixels.
End Maps.

(** L71-113 [createSignalResponse_pol] for one pulsar and one pixel out of
    [npixels], with [norm=True] *)
Definition response (pphi ptheta gwphi gwtheta : R) (npixels : nat) (plus : bool) : R :=
  let Omega := (- sin gwtheta * cos gwphi, - sin gwtheta * sin gwphi, - cos gwtheta) in
  let mhat := (- sin gwphi, cos gwphi, 0) in
  let nhat := (- cos gwphi * cos gwtheta, - cos gwtheta * sin gwphi, sin gwtheta) in
  let p := (cos pphi * sin ptheta, sin pphi * sin ptheta, cos ptheta) in
  let c := sqrt (3 / 2) / sqrt (INR npixels) in
  if plus then 1 / 2 * c * (dot nhat p ^ 2 - dot mhat p ^ 2) / (1 - dot Omega p)
  else c * dot mhat p * dot nhat p / (1 - dot Omega p).
(** L36-68 [signalResponse_fast], [createSignalResponse]: polarisations are
    neighbours; pulsars and pixels are pairs (phi, theta). *)
Definition signal_response (psrs pixels : list (R * R)) : list (list R) :=
  map (fun pp => flat_map (fun g => [response (fst pp) (snd pp) (fst g) (snd g) (length pixels) true;
                                     response (fst pp) (snd pp) (fst g) (snd g) (length pixels) false]) pixels) psrs.
(** L277-300 [getCov]: [sh] is the map, twice each pixel *)
Definition rdot (a b : list R) : R := fold_right Rplus 0 (map (fun xy => fst xy * snd xy) (combine a b)).
Definition getCov (h : list R) (F : list (list R)) : list (list R) :=
  let sh := flat_map (fun x => [x; x]) h in
  map (fun ia => map (fun jb =>
      let x := rdot (map (fun fs => fst fs * snd fs) (combine (snd ia) sh)) (snd jb) in
      if Nat.eqb (fst ia) (fst jb) then x + x else x) (combine (seq 0 (length F)) F)) (combine (seq 0 (length F)) F).
(** L303-340 [anis_basis] *)
Definition unit_vector (n i : nat) : list R := map (fun j => if Nat.eqb j i then 1 else 0) (seq 0 n).
Definition anis_basis (Y : Z -> nat -> R -> R -> complex) (psrs : list (R * R)) (lmax : nat) (pixels : list (R * R)) : list (list (list R)) :=
  let F := signal_response psrs pixels in
  let n := ((lmax + 1) * (lmax + 1))%nat in
  map (fun i => getCov (mapFromClm_fast Y (unit_vector n i) pixels) F) (seq 0 (length (lms (lmax + 1)))).
(** L334-366 [orfFromMap_fast] *)
Definition orfFromMap_fast (psrs : list (R * R)) (usermap : list R) (resp : option (list (list R))) (pixels : list (R * R)) : list (list R) :=
  getCov usermap (match resp with None => signal_response psrs pixels | Some F => F end).
