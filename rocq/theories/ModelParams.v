(** Model of parameter lists, vectors and priors of an array
    (enterprise/signals/signal_base.py, parameter.py). *)
From Coq Require Import String Bool Arith List Reals.
From Verif Require Import PyBase.
Import ListNotations.
Open Scope list_scope.

(** * Parameters *)

(** A parameter object: identity, [name], [_size], and the values of
    [prior._params] (or [logprior._params]) with their keywords; or a constant.
    parameter.py L39-61 and L419-449. *)
Inductive par : Type :=
| Par : nat -> string -> option nat -> list (string * par) -> par
| Cst : nat -> string -> par.

Definition par_id (p : par) : nat := match p with Par i _ _ _ => i | Cst i _ => i end.
Definition par_name (p : par) : string := match p with Par _ n _ _ => n | Cst _ n => n end.
Definition par_size (p : par) : option nat := match p with Par _ _ s _ => s | Cst _ _ => None end.
Definition is_const (p : par) : bool := match p with Par _ _ _ _ => false | Cst _ _ => true end.

(** parameter.py L122-126 [Parameter.params], with [Function.params] (L576-580)
    of the prior inlined: [sum([par.params for par in values if not constant])]. *)
Fixpoint par_params (p : par) : list par :=
  match p with
  | Cst _ _ => []
  | Par _ _ _ prior =>
      p :: filter (fun q => negb (is_const q))
             ((fix go (l : list (string * par)) : list par :=
                match l with
                | [] => []
                | (_, q) :: l' => (if is_const q then [] else par_params q) ++ go l'
                end) prior)
  end.

(** A signal is given by its [_params] dictionary; a collection is a list of
    signals; an array a list of collections. *)
Definition signal := list (string * par).
Definition collection := list signal.

(** signal_base.py L98-101 [Signal.params]. *)
Definition signal_params (s : signal) : list par :=
  filter (fun p => negb (is_const p)) (map snd s).

(** Adding to a python set of objects (identity comparison). *)
Definition set_add (s : list par) (p : par) : list par :=
  if existsb (fun q => Nat.eqb (par_id q) (par_id p)) s then s else s ++ [p].

Definition name_le (p q : par) : bool :=
  match String.compare (par_name p) (par_name q) with Gt => false | _ => true end.

Section Enum.
  (** The order in which python iterates over a set: unspecified. *)
  Variable enum : list par -> list par.

  (** signal_base.py L825-827 [SignalCollection.params]. *)
  Definition coll_params (c : collection) : list par :=
    isort name_le (enum (fold_left set_add (flat_map signal_params c) [])).

  (** signal_base.py L287-296 [PTA.params]. *)
  Definition pta_params (l : list collection) : list par :=
    isort name_le (enum (fold_left set_add (flat_map par_params (flat_map coll_params l)) [])).
End Enum.

(** * Flattened names and vectors *)

(** signal_base.py L303-312 [param_names], one parameter: [if p.size:] is false
    for None and 0. *)
Definition names_of (p : par) : list string :=
  match par_size p with
  | Some (S n) => map (fun i => append (par_name p) (append "_" (str_of_nat i))) (seq 0 (S n))
  | _ => [par_name p]
  end.
Definition param_names (ps : list par) : list string := flat_map names_of ps.

(** [n = p.size if p.size else 1], signal_base.py L679. *)
Definition width (p : par) : nat :=
  match par_size p with Some (S n) => S n | _ => 1 end.

Section Vectors.
  Context {num : Type}.

  (** A value in a parameter dictionary: [float(...)] or a slice. *)
  Inductive pval : Type := PS : num -> pval | PV : list num -> pval.

  Definition pval_list (v : pval) : list num := match v with PS x => [x] | PV l => l end.

  (** python [xs[a:b]] for [0 <= a <= b]. *)
  Definition slice (a b : nat) (xs : list num) : list num := firstn (b - a) (skipn a xs).

  (** signal_base.py L675-682 [map_params]. *)
  Fixpoint map_params_loop (ps : list par) (ct : nat) (xs : list num)
      (ret : dict string pval) : result (dict string pval) :=
    match ps with
    | [] => Ok ret
    | p :: ps' =>
        let n := width p in
        if Nat.ltb 1 n then
          map_params_loop ps' (ct + n) xs (dset string_dec ret (par_name p) (PV (slice ct (ct + n) xs)))
        else
          match nth_error xs ct with
          | None => Err IndexError
          | Some x => map_params_loop ps' (ct + n) xs (dset string_dec ret (par_name p) (PS x))
          end
    end.
  Definition map_params (ps : list par) (xs : list num) : result (dict string pval) :=
    map_params_loop ps 0 xs [].

  (** Reading the values of the parameters back in order (what users and
      samplers do to turn a dictionary into a vector). *)
  Fixpoint flatten (ps : list par) (d : dict string pval) : result (list num) :=
    match ps with
    | [] => Ok []
    | p :: ps' =>
        rbind (dgetE string_dec d (par_name p))
          (fun v => rmap (app (pval_list v)) (flatten ps' d))
    end.

  (** signal_base.py L694-699 [get_hypercube_transform] on a vector: [ppf p v d]
      is [p.ppf(value, params=d)]. *)
  Variable ppf : par -> pval -> dict string pval -> result pval.
  Definition hypercube (ps : list par) (xs : list num) : result (list num) :=
    rbind (map_params ps xs) (fun d =>
      rmap (@concat num)
        (rmapM (fun p => rbind (dgetE string_dec d (par_name p))
                         (fun v => rmap pval_list (ppf p v d))) ps)).
End Vectors.
Arguments pval : clear implicits.

(** * Priors *)
Section Priors.
  Local Open Scope R_scope.

  (** Real numbers extended by -inf, with addition. *)
  Inductive lval : Type := Fin : R -> lval | NegInf : lval.
  Definition ladd (a b : lval) : lval :=
    match a, b with Fin x, Fin y => Fin (x + y) | _, _ => NegInf end.
  Definition lsum (l : list lval) : lval := fold_left ladd l (Fin 0).

  (** [np.log] of a non-negative density. *)
  Definition llog (x : R) : lval := if Rlt_dec 0 x then Fin (ln x) else NegInf.

  (** What evaluating the prior Function of a parameter gives: entries of
      [prior(value)] or the number [logprior(value)]. *)
  Inductive dens : Type := DPrior : list R -> dens | DLog : lval -> dens.

  Variable eval_prior : par -> pval R -> dict string (pval R) -> result dens.

  (** parameter.py L63-77 [get_logpdf] and L79-93 [get_pdf], with
      [value = params[self.name]]; for scalars the list has one entry. *)
  Definition get_logpdf (p : par) (d : dict string (pval R)) : result lval :=
    rbind (dgetE string_dec d (par_name p)) (fun v =>
      rmap (fun x => match x with DPrior l => lsum (map llog l) | DLog y => y end) (eval_prior p v d)).
  Definition lexp (x : lval) : R := match x with Fin y => exp y | NegInf => 0 end.
  Definition get_pdf (p : par) (d : dict string (pval R)) : result R :=
    rbind (dgetE string_dec d (par_name p)) (fun v =>
      rmap (fun x => match x with DPrior l => fold_right Rmult 1 l | DLog y => lexp y end) (eval_prior p v d)).

  (** signal_base.py L684-688 [get_lnprior] called with a dictionary or a vector. *)
  Definition lnprior_dict (ps : list par) (d : dict string (pval R)) : result lval :=
    rmap lsum (rmapM (fun p => get_logpdf p d) ps).
  Definition lnprior_vec (ps : list par) (xs : list R) : result lval :=
    rbind (map_params ps xs) (lnprior_dict ps).
End Priors.

(** * Summary *)

(** signal_base.py L745-768 [PTA.summary]: the numbers printed. A collection is
    (pulsar name, signals). [varying] is [len(self.param_names)]. *)
Record summary_counts := SC { s_total : nat; s_varying : nat; s_common : nat; s_fixed : nat; s_pulsars : nat }.
Definition summary (include_params : bool) (varying : nat) (l : list (string * collection)) : summary_counts :=
  let cop := if include_params
             then length (filter is_const (map snd (concat (flat_map snd l)))) else 0 in
  let cp := length (flat_map (fun sc =>
              flat_map (fun s => filter (fun n => negb (substring_of (fst sc) n)) (param_names (signal_params s)))
                (snd sc)) l) in
  SC (varying + cop) varying cp cop (length l).
