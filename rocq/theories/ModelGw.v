(** Antenna patterns and the burst with memory (enterprise/signals/utils.py
    L688-756).

    Doubles are reals; time series are lists. Divisions agree with the code for
    divisors other than zero. *)
From Coq Require Import Reals Ratan Bool Arith List.
From Verif Require Import PyBase ModelBases ModelOrf.
Import ListNotations.
Open Scope list_scope.
Open Scope R_scope.

(** L703-705 *)
Definition gw_m (theta phi : R) : vec := (sin phi, - cos phi, 0).
Definition gw_n (theta phi : R) : vec := (- cos theta * cos phi, - cos theta * sin phi, sin theta).
Definition gw_omhat (theta phi : R) : vec := (- sin theta * cos phi, - sin theta * sin phi, - cos theta).
(** L688-713 [create_gw_antenna_pattern] *)
Definition antenna_pattern (pos : vec) (theta phi : R) : R * R * R :=
  let m := gw_m theta phi in
  let n := gw_n theta phi in
  let omhat := gw_omhat theta phi in
  (1 / 2 * (dot m pos ^ 2 - dot n pos ^ 2) / (1 + dot omhat pos),
   dot m pos * dot n pos / (1 + dot omhat pos),
   - dot omhat pos).
(** [np.heaviside(x, 0.5)] *)
Definition heaviside (x : R) : R := if Rlt_dec x 0 then 0 else if Req_EM_T x 0 then 1 / 2 else 1.
(** L716-756 [bwm_delay]; [pattern] is the user's function, of which the first
    two results are used. [np.arccos] is [acos]; outside of [-1, 1] the code
    gives nan. *)
Definition bwm_delay (toas : list R) (pos : vec) (log10_h cos_gwtheta gwphi gwpol t0 : R) (pattern : option (vec -> R -> R -> R * R)) : list R :=
  let h := p10 log10_h in
  let gwtheta := acos cos_gwtheta in
  let t0 := t0 * 86400 in
  let '(fp, fc) := match pattern with None => fst (antenna_pattern pos gwtheta gwphi) | Some f => f pos gwtheta gwphi end in
  let pol := cos (2 * gwpol) * fp + sin (2 * gwpol) * fc in
  map (fun t => pol * h * heaviside (t - t0) * (t - t0)) toas.
