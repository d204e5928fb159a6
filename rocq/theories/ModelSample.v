(** Model of joint sampling from the priors of a list of parameters
    (enterprise/signals/parameter.py L14-36, L83-98). *)
From Coq Require Import String Bool Arith List.
From Verif Require Import PyBase ModelParams.
Import ListNotations.
Open Scope list_scope.

(** Depth of the tree of hyperparameters; the number of nested calls of [sample]. *)
Fixpoint par_depth (p : par) : nat :=
  match p with
  | Cst _ _ => 0
  | Par _ _ _ prior => S (fold_right (fun kq m => Nat.max (par_depth (snd kq)) m) 0 prior)
  end.

Definition par_prior (p : par) : list (string * par) := match p with Par _ _ _ pr => pr | Cst _ _ => [] end.

Section Sample.
  Context {V S : Type}.
  (** [par.sample(params=parvalues)], L83-98: the prior's sampler is called with
      the entries of [parvalues] under the names of the prior's parameters (see
      ModelFunc.v) and the state of the random generator. *)
  Variable draw : S -> par -> list (string * option V) -> result (V * S).

  Definition hyper_values (d : dict string V) (p : par) : list (string * option V) :=
    map (fun kq => (fst kq, dget string_dec d (par_name (snd kq)))) (par_prior p).

  (** L28-36 [_sample]; [par not in parvalues] compares a parameter object with
      names and is always true. [sample] (L14-25) of the hyperparameters starts
      from an empty dictionary. [fuel] bounds the nesting of calls. *)
  Fixpoint sample_from (fuel : nat) (ps : list par) (s : S) (ret : dict string V) : result (dict string V * S) :=
    match fuel with
    | 0 => match ps with [] => Ok (ret, s) | _ => Err RecursionError end
    | Datatypes.S fuel' =>
        fold_left (fun st p =>
          rbind st (fun '(ret, s) =>
            if is_const p then Err AttributeError else
            rbind (sample_from fuel' (tl (par_params p)) s []) (fun '(d, s) =>
              let ret := dupdate string_dec ret d in
              rbind (draw s p (hyper_values ret p)) (fun '(v, s) =>
                Ok (dset string_dec ret (par_name p) v, s))))) ps (Ok (ret, s))
    end.

  (** L14-25 [sample] *)
  Definition sample (ps : list par) (s : S) : result (dict string V * S) :=
    sample_from (fold_right (fun p m => Nat.max (par_depth p) m) 0 ps) ps s [].
End Sample.
