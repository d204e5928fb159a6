(** Fourier bases (enterprise/signals/gp_bases.py).

    Doubles are reals and arrays are lists; a matrix is a list of rows. numpy's
    global generator is a state [S]: [seeded] is the state after
    [np.random.seed], [next] draws a number of [0,1). Where the code divides, the
    model agrees with it for divisors other than zero only (numpy gives
    infinities). *)
From Coq Require Import Reals ZArith String Bool Arith List.
From Verif Require Import PyBase.
Import ListNotations.
Open Scope list_scope.
Open Scope R_scope.

Definition mat := list (list R).
(** [10 ** x] and [x ** y] for a positive [x] *)
Definition p10 (x : R) : R := Rpower 10 x.
Definition lg10 (x : R) : R := ln x / ln 10.
(** [np.repeat(l, c)] *)
Definition rep {X} (c : nat) (l : list X) : list X := flat_map (fun x => repeat x c) l.
(** [np.linspace(a, b, n)], [np.logspace(a, b, n)] *)
Definition linspace (a b : R) (n : nat) : list R :=
  match n with
  | 0%nat => []
  | 1%nat => [a]
  | S n1 => map (fun i => a + INR i * ((b - a) / INR n1)) (seq 0 n)
  end.
Definition logspace (a b : R) (n : nat) : list R := map p10 (linspace a b n).
(** [int(x)] *)
Definition trunc (x : R) : Z := if Rle_dec 0 x then Int_part x else Z.opp (Int_part (- x)).
(** [toas.max() - toas.min()] *)
Definition extent (toas : list R) : result R :=
  match toas with
  | [] => Err ValueError
  | t :: l => Ok (fold_left Rmax l t - fold_left Rmin l t)
  end.

(** The explicit frequencies: an array or a list. *)
Inductive seqn := NpArray (l : list R) | PyList (l : list R).
Record opts := Opts {
  o_nmodes : nat; o_Tspan : option R; o_logf : bool; o_fmin : option R; o_fmax : option R;
  o_modes : option seqn; o_pshift : bool; o_pseed : option Z }.

Section Bases.
Context {S : Type}.
Variable seeded : Z -> S.
Variable next : S -> R * S.

Fixpoint draws (n : nat) (s : S) : list R * S :=
  match n with
  | 0%nat => ([], s)
  | Datatypes.S n' => let (u, s1) := next s in let (l, s2) := draws n' s1 in (u :: l, s2)
  end.
(** [np.random.uniform(a, b, n)] *)
Definition uniform (a b : R) (n : nat) (s : S) : list R * S :=
  let (u, s') := draws n s in (map (fun x => a + (b - a) * x) u, s').

(** L47-69: the sampling frequencies *)
Definition frequencies (o : opts) (T : R) : list R :=
  match o_modes o with
  | Some (NpArray l) => l
  | Some (PyList l) => l
  | None =>
      match o_fmin o, o_fmax o, o_logf o with
      | None, None, false => map (fun i => 1 * INR i / T) (seq 1 (o_nmodes o))
      | _, _, _ =>
          let fmin := match o_fmin o with Some x => x | None => 1 / T end in
          let fmax := match o_fmax o with Some x => x | None => INR (o_nmodes o) / T end in
          if o_logf o then logspace (lg10 fmin) (lg10 fmax) (o_nmodes o) else linspace fmin fmax (o_nmodes o)
      end
  end.
(** L71-80: the phases *)
Definition phases (o : opts) (toas : list R) (n : nat) (s : S) : result (list R) * S :=
  match o_pseed o with
  | Some p =>
      match toas with
      | [] => (Err IndexError, s)
      | t0 :: _ => let (l, s') := uniform 0 (2 * PI) n (seeded (trunc (t0 / 17) + p)) in (Ok l, s')
      end
  | None =>
      if o_pshift o then let (l, s') := uniform 0 (2 * PI) n s in (Ok l, s')
      else (Ok (repeat 0 n), s)
  end.
(** L84-89: one row; sines and cosines alternate *)
Definition fourier_row (f ph : list R) (t : R) : list R :=
  flat_map (fun fp => [sin (2 * PI * t * fst fp + snd fp); cos (2 * PI * t * fst fp + snd fp)]) (combine f ph).
(** L25-91 [createfourierdesignmatrix_red]; indexing a list with [None, :]
    raises TypeError. *)
Definition create_red (toas : list R) (o : opts) (s : S) : result (mat * list R) * S :=
  match (match o_Tspan o with Some T => Ok T | None => extent toas end) with
  | Err e => (Err e, s)
  | Ok T =>
      let f := frequencies o T in
      let nmodes := match o_modes o with Some _ => length f | None => o_nmodes o end in
      match phases o toas nmodes s with
      | (Err e, s') => (Err e, s')
      | (Ok ph, s') =>
          match o_modes o with
          | Some (PyList _) => (Err TypeError, s')
          | _ => (Ok (map (fourier_row f ph) toas, rep 2 f), s')
          end
      end
  end.

(** [F * d[:, None]]; lengths other than one must agree, and a length of one is
    not modelled. *)
Definition scale_rows (F : mat) (d : list R) : result mat :=
  if Nat.eqb (length F) (length d) then Ok (map (fun rd => map (fun x => x * snd rd) (fst rd)) (combine F d)) else Err ValueError.
Definition with_rows (r : result (mat * list R) * S) (d : list R) : result (mat * list R) * S :=
  (rbind (fst r) (fun Ff => rmap (fun F => (F, snd Ff)) (scale_rows (fst Ff) d)), snd r).
Definition no_seed (o : opts) : opts :=
  Opts (o_nmodes o) (o_Tspan o) (o_logf o) (o_fmin o) (o_fmax o) (o_modes o) (o_pshift o) None.
Definition no_shift (o : opts) : opts :=
  Opts (o_nmodes o) (o_Tspan o) (o_logf o) (o_fmin o) (o_fmax o) (o_modes o) false None.

(** L94-127 [createfourierdesignmatrix_dm] *)
Definition create_dm (toas freqs : list R) (fref : R) (o : opts) (s : S) :=
  with_rows (create_red toas (no_seed o) s) (map (fun nu => (fref / nu) ^ 2) freqs).
(** L130-165 [createfourierdesignmatrix_dm_tn] *)
Definition dm_tn_factor (x idx : R) : R := Rpower x idx * sqrt 12 * PI / 1400 / 1400 / (241 / 1000000).
Definition create_dm_tn (toas freqs : list R) (fref idx : R) (o : opts) (s : S) :=
  with_rows (create_red toas (no_seed o) s) (map (fun nu => dm_tn_factor (fref / nu) idx) freqs).
(** L168-211 [createfourierdesignmatrix_env] *)
Definition create_env (toas : list R) (log10_Amp log10_Q t0 : R) (o : opts) (s : S) :=
  let A := p10 log10_Amp in
  let Q := p10 log10_Q * 86400 in
  with_rows (create_red toas (no_shift o) s) (map (fun t => A * exp (- (t - t0) ^ 2 / 2 / Q ^ 2)) toas).
(** L261-292 [createfourierdesignmatrix_chromatic] *)
Definition create_chromatic (toas freqs : list R) (idx : R) (o : opts) (s : S) :=
  with_rows (create_red toas (no_shift o) s) (map (fun nu => Rpower (1400 / nu) idx) freqs).

(** L214-250 [createfourierdesignmatrix_ephem]: every entry of the plain basis
    times the three coordinates of the position (a single one is stretched); the
    frequencies of the sines, six times each. *)
Fixpoint evens {X} (l : list X) : list X :=
  match l with [] => [] | x :: l' => x :: match l' with [] => [] | _ :: l'' => evens l'' end end.
Definition create_ephem (toas pos : list R) (nmodes : nat) (Tspan : option R) (s : S) : result (mat * list R) * S :=
  let r := create_red toas (Opts nmodes Tspan false None None None false None) s in
  let pos := match pos with [c] => [c; c; c] | _ => pos end in
  (rbind (fst r) (fun Ff =>
     if Nat.eqb (length pos) 3
     then Ok (map (flat_map (fun x => map (fun c => x * c) pos)) (fst Ff), rep 6 (evens (snd Ff)))
     else Err ValueError), snd r).

(** L295-355 [createfourierdesignmatrix_general]: an empty [flagval] and a zero
    [idx] count as none. *)
Definition select_where {X} (m : list bool) (l : list X) : list X := map fst (filter snd (combine l m)).
Definition create_general (toas freqs : list R) (flags : list (string * list string)) (flagname : string)
    (flagval : option string) (idx : option R) (tndm psrTspan : bool) (o : opts) (s : S) : result (mat * list R) * S :=
  let flagval := match flagval with Some ""%string => None | x => x end in
  let mask := match flagval with
              | None => Ok None
              | Some v => rmap (fun l => Some (map (fun x => String.eqb x v) l)) (dgetE string_dec flags flagname)
              end in
  let Tspan := match flagval with
               | Some _ => if psrTspan then Ok (o_Tspan o)
                           else rbind mask (fun m => match m with
                                                     | Some m => rmap Some (extent (select_where m toas))
                                                     | None => Ok (o_Tspan o) end)
               | None => Ok (o_Tspan o)
               end in
  match Tspan with
  | Err e => (Err e, s)
  | Ok Tspan =>
      let r := create_red toas (Opts (o_nmodes o) Tspan (o_logf o) (o_fmin o) (o_fmax o) (o_modes o) (o_pshift o) (o_pseed o)) s in
      let r := match idx with
               | None => r
               | Some i => if Req_EM_T i 0 then r
                           else with_rows r (map (fun nu => if tndm then dm_tn_factor (1400 / nu) i else Rpower (1400 / nu) i) freqs)
               end in
      match fst r with
      | Err e => r
      | Ok _ => match mask with
                | Err e => (Err e, snd r)
                | Ok None => r
                | Ok (Some m) => with_rows r (map (fun b : bool => if b then 1 else 0) m)
                end
      end
  end.
End Bases.
