(** Model of the correlated Fourier process of enterprise/signals/gp_signals.py
    L414-462, whose class collects the first and the last TOA of the pulsars it is
    given to. *)
From Coq Require Import Reals ZArith String Bool Arith List.
From Verif Require Import PyBase ModelCache ModelBases ModelOrf.
Import ListNotations.
Open Scope list_scope.
Open Scope R_scope.

(** [min] and [max] of a list or an array; ValueError when empty. *)
Definition minimum (l : list R) : result R := match l with [] => Err ValueError | t :: l => Ok (fold_left Rmin l t) end.
Definition maximum (l : list R) : result R := match l with [] => Err ValueError | t :: l => Ok (fold_left Rmax l t) end.

Definition rparams := params R.

(** The arguments of the factory: whether coefficients are sampled, the explicit time
    span, the names of the varying basis parameters and what the arguments of the basis
    are for given parameters (a missing one raises). *)
Record setup := Setup {
  u_coef : bool; u_Tspan : option R; u_names : list string; u_opts : rparams -> result opts }.
(** L430-433 *)
Definition factory (u : setup) : result setup :=
  match u_coef u, u_Tspan u with true, None => Err ValueError | _, _ => Ok u end.

(** A signal: the TOAs and the position of its pulsar, the cache of [_construct_basis],
    and [_basis] with [_labels] once they exist. *)
Record inst := Inst { i_toas : list R; i_pos : vec; i_cache : cstate (num := R) unit; i_basis : option (mat * list R) }.

Section Common.
Context {G : Type}.
Variable seeded : Z -> G.
Variable next : G -> R * G.
Variable u : setup.

(** The class attributes [_Tmin] and [_Tmax] (L445), the signals made so far and the
    state of numpy's generator. *)
Record world := World { w_Tmin : list R; w_Tmax : list R; w_insts : list inst; w_rng : G }.

(** L459: the time span *)
Definition span (tmin tmax : list R) : result R :=
  match u_Tspan u with
  | Some T => Ok T
  | None => rbind (maximum tmax) (fun b => rbind (minimum tmin) (fun a => Ok (b - a)))
  end.
Definition with_span (o : opts) (T : R) : opts :=
  Opts (o_nmodes o) (Some T) (o_logf o) (o_fmin o) (o_fmax o) (o_modes o) (o_pshift o) (o_pseed o).
(** L458-460: the undecorated [_construct_basis]; the span given in the call replaces the
    one given to the factory. *)
Definition build (tmin tmax : list R) (toas : list R) (p : rparams) (s : option (mat * list R) * G)
    : (option (mat * list R) * G) * result unit :=
  match span tmin tmax with
  | Err e => (s, Err e)
  | Ok T =>
      match u_opts u p with
      | Err e => (s, Err e)
      | Ok o =>
          match create_red seeded next toas (with_span o T) (snd s) with
          | (Err e, g) => ((fst s, g), Err e)
          | (Ok b, g) => ((Some b, g), Ok tt)
          end
      end
  end.
(** L457: cached with limit one on the varying basis parameters *)
Definition construct (tmin tmax : list R) (p : rparams) (x : inst) (g : G) : (inst * G) * result unit :=
  let '((c, (b, g')), r) := cache_call Req_EM_T (u_names u) 1 (build tmin tmax (i_toas x)) p (i_cache x, (i_basis x, g)) in
  ((Inst (i_toas x) (i_pos x) c b, g'), r).

(** L447-452 and L288-316: a new signal; sampled coefficients make the basis at once.
    Nothing is recorded when the constructor raises. *)
Definition create (toas : list R) (pos : vec) (w : world) : world * result nat :=
  let x := Inst toas pos cempty None in
  let made := if u_coef u then construct (w_Tmin w) (w_Tmax w) [] x (w_rng w) else ((x, w_rng w), Ok tt) in
  match made with
  | ((x, g), Err e) => (World (w_Tmin w) (w_Tmax w) (w_insts w) g, Err e)
  | ((x, g), Ok _) =>
      let w' := World (w_Tmin w) (w_Tmax w) (w_insts w ++ [x]) g in
      match u_Tspan u with
      | Some _ => (w', Ok (length (w_insts w)))
      | None =>
          match minimum toas with
          | Err e => (World (w_Tmin w) (w_Tmax w) (w_insts w) g, Err e)
          | Ok a =>
              match maximum toas with
              | Err e => (World (w_Tmin w ++ [a]) (w_Tmax w) (w_insts w) g, Err e)
              | Ok b => (World (w_Tmin w ++ [a]) (w_Tmax w ++ [b]) (w_insts w ++ [x]) g, Ok (length (w_insts w)))
              end
          end
      end
  end.

Fixpoint put (k : nat) (x : inst) (l : list inst) : list inst :=
  match l, k with
  | [], _ => []
  | _ :: l, 0%nat => x :: l
  | y :: l, S k => y :: put k x l
  end.
(** [_construct_basis] of the [k]-th signal *)
Definition evaluate (k : nat) (p : rparams) (w : world) : world * result unit :=
  match nth_error (w_insts w) k with
  | None => (w, Err IndexError)
  | Some x =>
      let '((x', g), r) := construct (w_Tmin w) (w_Tmax w) p x (w_rng w) in
      (World (w_Tmin w) (w_Tmax w) (put k x' (w_insts w)) g, r)
  end.
(** What a signal holds; without a basis reading it raises AttributeError. *)
Definition stored (k : nat) (w : world) : result (mat * list R) :=
  match nth_error (w_insts w) k with
  | None => Err IndexError
  | Some x => match i_basis x with None => Err AttributeError | Some b => Ok b end
  end.
(** L391-394 [get_basis] *)
Definition get_basis (k : nat) (p : rparams) (w : world) : world * result mat :=
  let (w', r) := evaluate k p w in (w', rbind r (fun _ => rmap fst (stored k w'))).

Variable prior : list R -> rparams -> list R.
Variable orf : vec -> vec -> R.
Definition times (c : R) (l : list R) : list R := map (fun x => x * c) l.
(** L396-402 [get_phi] *)
Definition get_phi (k : nat) (p : rparams) (w : world) : world * result (list R) :=
  let (w', r) := evaluate k p w in
  (w', rbind r (fun _ => rbind (stored k w') (fun b =>
         match nth_error (w_insts w') k with
         | None => Err IndexError
         | Some x => Ok (times (orf (i_pos x) (i_pos x)) (prior (snd b) p))
         end))).
(** L404-409 [get_phicross]: the labels the first signal happens to hold *)
Definition get_phicross (k1 k2 : nat) (p : rparams) (w : world) : result (list R) :=
  rbind (stored k1 w) (fun b =>
    match nth_error (w_insts w) k1, nth_error (w_insts w) k2 with
    | Some x1, Some x2 => Ok (times (orf (i_pos x1) (i_pos x2)) (prior (snd b) p))
    | _, _ => Err IndexError
    end).

(** Programs: new signals and evaluations in any order; an exception leaves the world as
    it is then, and the program goes on. *)
Inductive op := New (toas : list R) (pos : vec) | Eval (k : nat) (p : rparams).
Definition step (w : world) (a : op) : world :=
  match a with New toas pos => fst (create toas pos w) | Eval k p => fst (evaluate k p w) end.
Definition run (ops : list op) (w : world) : world := fold_left step ops w.
Definition start (g : G) : world := World [] [] [] g.
End Common.
Arguments World {G}. Arguments w_Tmin {G}. Arguments w_Tmax {G}. Arguments w_insts {G}. Arguments w_rng {G}.
