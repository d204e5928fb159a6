(** Prior densities, quantile functions and samplers of scalar and vector
    parameters (enterprise/signals/parameter.py L201-416).

    Doubles are reals, nan is [None], scipy's [uniform.ppf] and [erf] are the exact
    functions. numpy's generators are explicit: [np.random.uniform] turns a number of
    [0,1) into a sample, [np.random.normal] scales and shifts standard normal draws
    taken from a stream. *)
From Coq Require Import Reals Bool List Arith.
From Coquelicot Require Import Coquelicot.
From Verif Require Import PyBase.
Import ListNotations.
Open Scope list_scope.
Open Scope bool_scope.
Open Scope R_scope.

Definition leb (x y : R) : bool := if Rle_dec x y then true else false.
Definition ltb (x y : R) : bool := if Rlt_dec x y then true else false.
(** A truth value in arithmetic. *)
Definition num (b : bool) : R := if b then 1 else 0.

(** ** Uniform *)
(** L201-205; division of python numbers by zero raises *)
Definition UniformPrior (value pmin pmax : R) : result R :=
  if Req_EM_T (pmax - pmin) 0 then Err ZeroDivisionError
  else Ok (num (leb pmin value && leb value pmax) / (pmax - pmin)).
(** L208-211; [u] is the generator's number *)
Definition UniformSampler (u pmin pmax : R) : R := pmin + (pmax - pmin) * u.
(** scipy's [uniform.ppf(q, loc, scale)] *)
Definition uniform_ppf (q loc scale : R) : option R :=
  if ltb 0 scale then (if leb 0 q && leb q 1 then Some (loc + scale * q) else None) else None.
(** L214-217 *)
Definition UniformPPF (value pmin pmax : R) : option R := uniform_ppf value pmin (pmax - pmin).

(** ** LinearExp *)
Definition pow10 (x : R) : R := Rpower 10 x.
Definition log10 (x : R) : R := ln x / ln 10.
(** L368-376, a scalar *)
Definition LinearExpPrior (value pmin pmax : R) : result R :=
  if leb pmax pmin then Err ValueError
  else Ok (num (leb pmin value && leb value pmax) * ln 10 * pow10 value / (pow10 pmax - pow10 pmin)).
(** L368-376, vectors of one length: [np.any(pmin >= pmax)] *)
Fixpoint anyb (l : list bool) : bool := match l with [] => false | b :: l' => orb b (anyb l') end.
Definition LinearExpPriors (values pmins pmaxs : list R) : result (list R) :=
  if anyb (map (fun p => leb (snd p) (fst p)) (combine pmins pmaxs)) then Err ValueError
  else Ok (map (fun vp => num (leb (fst (snd vp)) (fst vp) && leb (fst vp) (snd (snd vp))) * ln 10 * pow10 (fst vp) / (pow10 (snd (snd vp)) - pow10 (fst (snd vp))))
               (combine values (combine pmins pmaxs))).
(** L379-387, scalar and vectors *)
Definition LinearExpSampler (u pmin pmax : R) : result R :=
  if leb pmax pmin then Err ValueError
  else Ok (log10 (UniformSampler u (pow10 pmin) (pow10 pmax))).
Definition LinearExpSamplers (us pmins pmaxs : list R) : result (list R) :=
  if anyb (map (fun p => leb (snd p) (fst p)) (combine pmins pmaxs)) then Err ValueError
  else Ok (map (fun up => log10 (UniformSampler (fst up) (pow10 (fst (snd up))) (pow10 (snd (snd up))))) (combine us (combine pmins pmaxs))).
(** L390-394 *)
Definition LinearExpPPF (value pmin pmax : R) : option R :=
  option_map log10 (uniform_ppf value (pow10 pmin) (pow10 pmax - pow10 pmin)).

(** ** Normal, scalar (L242-251, L266-276); [ndim] is the dimension of sigma *)
Definition NormalPrior (value mu sigma : R) : R := exp (- (1 / 2) * (value - mu) ^ 2 / sigma ^ 2) / sqrt (2 * PI * sigma ^ 2).
Definition NormalSampler (g mu sigma : R) : R := mu + sigma * g.
Definition NormalPPF (ndim : nat) (quantile : R -> R) (value mu sigma : R) : result R :=
  if Nat.leb 2 ndim then Err NotImplementedError else Ok (mu + sigma * quantile value).

(** ** TruncNormal *)
Definition erf (x : R) : R := 2 / sqrt PI * RInt (fun t => exp (- t ^ 2)) 0 x.
(** L305-311 and L353-358 *)
Definition trunc_norm (mu sigma pmin pmax : R) : R :=
  2 / sqrt (2 * PI) / sigma / (erf ((pmax - mu) / sigma / sqrt 2) - erf ((pmin - mu) / sigma / sqrt 2)).
(** L299-313 *)
Definition TruncNormalPrior (value mu sigma pmin pmax : R) (norm : option R) : R :=
  let norm := match norm with None => trunc_norm mu sigma pmin pmax | Some n => n end in
  let arg := - (1 / 2) * ((value - mu) / sigma) ^ 2 in
  norm * exp arg * num (ltb pmin value && ltb value pmax).
(** L352-363: the normalisation is computed with the class if its arguments are
    numbers ([None] stands for a hyperparameter, on which arithmetic raises
    TypeError), and evaluated with every value otherwise. *)
Definition class_norm (mu sigma pmin pmax : option R) : option R :=
  match mu, sigma, pmin, pmax with
  | Some m, Some s, Some a, Some b => Some (trunc_norm m s a b)
  | _, _, _, _ => None
  end.
Definition TruncNormal_pdf (mu sigma pmin pmax : option R) (value m s a b : R) : R :=
  TruncNormalPrior value m s a b (class_norm mu sigma pmin pmax).

(** Arguments that are numbers or arrays. *)
Inductive arg := Sc (x : R) | Ve (l : list R).
Definition at_ (a : arg) (i : nat) : R := match a with Sc x => x | Ve l => nth i l 0 end.
Definition len (a : arg) : option nat := match a with Sc _ => None | Ve l => Some (length l) end.
(** L316-335, no array among mu, sigma and no size: [g] is the stream of standard
    normals, [fuel] bounds the number of draws. *)
Fixpoint trunc_scalar (fuel : nat) (mu sigma pmin pmax : R) (g : nat -> R) (k : nat) : option R :=
  let samp := mu + sigma * g k in
  if orb (ltb pmax samp) (ltb samp pmin)
  then match fuel with O => None | S fuel' => trunc_scalar fuel' mu sigma pmin pmax g (S k) end
  else Some samp.
(** The positions of the mask, and redrawing them one after the other. *)
Definition mask_of (samp : list R) (pmin pmax : arg) : list bool :=
  map (fun ix => orb (ltb (at_ pmax (fst ix)) (snd ix)) (ltb (snd ix) (at_ pmin (fst ix)))) (combine (seq 0 (length samp)) samp).
Fixpoint redraw (i : nat) (mask : list bool) (samp : list R) (mu sigma : arg) (g : nat -> R) (k : nat) : list R * nat :=
  match mask, samp with
  | b :: mask', x :: samp' =>
      if b then let r := redraw (S i) mask' samp' mu sigma g (S k) in (at_ mu i + at_ sigma i * g k :: fst r, snd r)
      else let r := redraw (S i) mask' samp' mu sigma g k in (x :: fst r, snd r)
  | _, _ => ([], k)
  end.
(** L324-331: an array [mu] is indexed together with [sigma], which raises if
    [sigma] is a number; a number [mu] is used with all of [sigma], which raises if
    that is an array of another length than the number of values redrawn. [None] is
    running out of fuel. *)
Fixpoint trunc_loop (fuel : nat) (samp : list R) (mu sigma pmin pmax : arg) (g : nat -> R) (k : nat) : option (result (list R)) :=
  let mask := mask_of samp pmin pmax in
  if anyb mask then
    match fuel with
    | O => None
    | S fuel' =>
        let again := let r := redraw 0 mask samp mu sigma g k in trunc_loop fuel' (fst r) mu sigma pmin pmax g (snd r) in
        match mu, sigma with
        | Ve _, Sc _ => Some (Err TypeError)
        | Sc _, Ve l => if Nat.eqb (length (filter (fun b => b) mask)) (length l) then again else Some (Err ValueError)
        | _, _ => again
        end
    end
  else Some (Ok samp).
(** L316-335 with an array of samples: lengths must agree with the size. *)
Definition trunc_vector (fuel : nat) (mu sigma pmin pmax : arg) (size : nat) (g : nat -> R) : option (result (list R)) :=
  let fits a := match len a with None => true | Some n => Nat.eqb n size end in
  if fits mu && fits sigma && fits pmin && fits pmax then
    trunc_loop fuel (map (fun i => at_ mu i + at_ sigma i * g i) (seq 0 size)) mu sigma pmin pmax g size
  else Some (Err ValueError).
