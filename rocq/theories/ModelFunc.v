(** Model of parameter functions: [Function], [get_funcargs], [function]
    (enterprise/signals/parameter.py L452-638) and [selection_func]
    (enterprise/signals/selections.py L14-51).
    Python values are an abstract type; python functions have plain arguments
    with defaults (no variable argument lists). The keywords "params", "func" and
    "name", which [Function] keeps for itself, are taken out of the keyword
    dictionaries and made separate arguments. *)
From Coq Require Import String Bool Arith List.
From Verif Require Import PyBase.
Import ListNotations.
Set Implicit Arguments.
Unset Strict Implicit.
Open Scope string_scope.
Open Scope list_scope.

Definition mem_str (x : string) (l : list string) : bool := existsb (String.eqb x) l.

Section Func.
Variable V : Type.
Notation sdict := (dict string V).

(** A python function: argument names, defaults of the last ones, body. *)
Record pyfun := PyFun { pf_args : list string; pf_defs : list V; pf_body : list V -> result V }.

(** Argument binding of [f] called with [args] and [kw]. *)
Definition pf_dflts (f : pyfun) : list (option V) :=
  repeat None (length (pf_args f) - length (pf_defs f)) ++ map Some (pf_defs f).
Fixpoint bind (names : list string) (dfl : list (option V)) (args : list V) (kw : sdict) : result (list V) :=
  match names, dfl with
  | [], _ => match args with [] => Ok [] | _ => Err TypeError end
  | _ :: _, [] => Err TypeError
  | x :: ns, d :: ds =>
      match args with
      | a :: args' => if dmem string_dec kw x then Err TypeError else rmap (cons a) (bind ns ds args' kw)
      | [] =>
          match dget string_dec kw x with
          | Some v => rmap (cons v) (bind ns ds [] kw)
          | None => match d with Some v => rmap (cons v) (bind ns ds [] kw) | None => Err TypeError end
          end
      end
  end.
Definition call_py (f : pyfun) (args : list V) (kw : sdict) : result V :=
  if forallb (fun k => mem_str k (pf_args f)) (dkeys kw)
  then rbind (bind (pf_args f) (pf_dflts f) args kw) (pf_body f) else Err TypeError.

(** [getattr(psr, name)], called if it can be called (L14-17), if there is one;
    and [attr[mask]] for arrays of the mask's length, [attr] otherwise. *)
Variable attr : V -> string -> option V.
Variable masked : V -> V -> V.
Definition domask (mask : option V) (v : V) : V := match mask with Some m => masked m v | None => v end.

(** selections.py L20-51: [selection_func(f)] called with positional [args] and keywords [kw] *)
Definition sel_call (f : pyfun) (args : list V) (kw : sdict) : result V :=
  let mask := dget string_dec kw "mask" in
  let kw1 := dpop string_dec kw "mask" in
  let targs :=
    if (length args <? length (pf_args f))%nat then
      match dget string_dec kw1 "psr" with
      | Some p => args ++ flat_map (fun a =>
          if dmem string_dec kw1 a then [] else
          match attr p a with Some v => [domask mask v] | None => [] end) (skipn (length args) (pf_args f))
      | None => args
      end
    else args in
  let kw2 := if dmem string_dec kw1 "psr" && negb (mem_str "psr" (pf_args f)) then dpop string_dec kw1 "psr" else kw1 in
  call_py f targs kw2.

(** Named parameters (a [Parameter] with its prior, L39-60, or a
    [ConstantParameter] with its value, L419-449) and functions, with the
    attributes [name], [_func], [_psr], the keys of [func_kwargs], [_params],
    [_defaults] and [_funcs]. The quantile function is left out. *)
Inductive par : Type :=
| Par (name : string) (prior : fobj)
| Cst (name : string) (value : V)
with fobj : Type :=
| FObj (name : string) (f : pyfun) (psr : option V) (kws : list string)
       (ps : list (string * par)) (defs : list (string * V)) (fns : list (string * fobj)).

Definition par_name (p : par) : string := match p with Par n _ => n | Cst n _ => n end.
(** [hasattr(par, "value")] and the value. *)
Definition par_value (p : par) : option V := match p with Par _ _ => None | Cst _ v => Some v end.
Definition is_cst (p : par) : bool := match p with Par _ _ => false | Cst _ _ => true end.
Definition fo_name (o : fobj) := match o with FObj n _ _ _ _ _ _ => n end.
Definition fo_func (o : fobj) := match o with FObj _ f _ _ _ _ _ => f end.
Definition fo_psr (o : fobj) := match o with FObj _ _ p _ _ _ _ => p end.
Definition fo_kws (o : fobj) := match o with FObj _ _ _ k _ _ _ => k end.
Definition fo_params (o : fobj) := match o with FObj _ _ _ _ ps _ _ => ps end.
Definition fo_defs (o : fobj) := match o with FObj _ _ _ _ _ d _ => d end.
Definition fo_funcs (o : fobj) := match o with FObj _ _ _ _ _ _ fns => fns end.

(** The keyword arguments of a function class: parameter and constant classes,
    instances of these, function classes and instances, anything else. The constants of a
    class have the value of the class, whatever their names, until they are set one by one
    (ModelDefault.v); the class is taken with the values of its constants by their names. *)
Inductive fclass : Type :=
| FC (f : pyfun) (fname : string) (kws : list (string * arg))
with arg : Type :=
| AParC (prior : fclass)
| ACstC (value : string -> V)
| AInst (p : par)
| AFunC (c : fclass)
| AFun (o : fobj)
| AVal (v : V).

(** ["_".join([n for n in pnames if n])] *)
Definition us_name (l : list string) : string := join_us (filter (fun s => negb (String.eqb s "")) l).

(** L460-510 [Function.__init__]; for a parameter class also L43-47, the
    instantiation of its prior under the parameter's name. *)
Fixpoint inst (c : fclass) (name : string) (psr : option V) : fobj :=
  match c with
  | FC f fname kws =>
      let st := fold_left
        (fun (st : list (string * par) * list (string * V) * list (string * fobj)) ka =>
          let '(ps, defs, fns) := st in
          let pn := us_name [name; fname; fst ka] in
          match snd ka with
          | AParC prior => (dset string_dec ps (fst ka) (Par pn (inst prior pn None)), defs, fns)
          | ACstC v => (dset string_dec ps (fst ka) (Cst pn (v pn)), defs, fns)
          | AInst p => (dset string_dec ps (fst ka) p, defs, fns)
          | AFunC g => let o := inst g pn psr in (dupdate string_dec ps (fo_params o), defs, dset string_dec fns (fst ka) o)
          | AFun o => (dupdate string_dec ps (fo_params o), defs, dset string_dec fns (fst ka) o)
          | AVal v => (ps, dset string_dec defs (fst ka) v, fns)
          end) kws ([], [], []) in
      FObj (us_name [name; fname]) f psr (map fst kws) (fst (fst st)) (snd (fst st)) (snd st)
  end.

(** L573-574 *)
Definition add_kwarg (o : fobj) (d : sdict) : fobj :=
  match o with FObj n f p k ps defs fns => FObj n f p k ps (dupdate string_dec defs d) fns end.

(** L561-569: the keywords that are passed on. *)
Definition admitted (f : pyfun) (kws : list string) (k : string) : bool :=
  mem_str k kws || mem_str k (pf_args f) || mem_str k ["psr"; "mask"; "size"].

(** L536-554: one keyword of the loop. [nested] holds the keyword names of each
    function in [_funcs] and how it is evaluated. *)
Definition fill_kw (params : sdict) (ps : list (string * par)) (defs : list (string * V))
    (nested : list (string * (list string * (sdict -> result V)))) (st : result sdict) (k : string) : result sdict :=
  rbind st (fun kw =>
    if dmem string_dec kw k then Ok kw else
    match dget string_dec ps k with
    | Some p =>
        match dget string_dec params (par_name p) with
        | Some v => Ok (dset string_dec kw k v)
        | None => match par_value p with Some v => Ok (dset string_dec kw k v) | None => Ok kw end
        end
    | None =>
        match dget string_dec defs k with
        | Some v => Ok (dset string_dec kw k v)
        | None =>
            match dget string_dec nested k with
            | Some (fkws, ev) => rmap (dset string_dec kw k) (ev (filter (fun kv => mem_str (fst kv) fkws) kw))
            | None => Ok kw
            end
        end
    end).

(** L512-571 [Function.__call__] with positional [args], keywords [kw], [params] and [func] *)
Fixpoint call (o : fobj) (args : list V) (kw params : sdict) (func : option pyfun) : result V :=
  match o with
  | FObj name f psr kws ps defs fns =>
      let nested := map (fun kf => (fst kf, (fo_kws (snd kf), fun kw' => call (snd kf) [] kw' params None))) fns in
      rbind (fold_left (fill_kw params ps defs nested) kws (Ok kw)) (fun kw1 =>
        let kw2 := match psr with
                   | Some p => if dmem string_dec kw1 "psr" then kw1 else dset string_dec kw1 "psr" p
                   | None => kw1 end in
        let kw3 := filter (fun kv => admitted f kws (fst kv)) kw2 in
        match func with Some g => call_py g args kw3 | None => sel_call f args kw3 end)
  end.

(** L576-580 [Function.params] and L122-126 [Parameter.params] *)
Fixpoint par_pars (p : par) : list par :=
  match p with
  | Par n prior =>
      match prior with
      | FObj _ _ _ _ ps _ _ =>
          p :: filter (fun q => negb (is_cst q)) (flat_map (fun kp => if is_cst (snd kp) then [] else par_pars (snd kp)) ps)
      end
  | Cst _ _ => []
  end.
Definition fo_pars (o : fobj) : list par :=
  flat_map (fun kp => if is_cst (snd kp) then [] else par_pars (snd kp)) (fo_params o).

(** L588-602 [get_funcargs] *)
Definition get_funcargs (f : pyfun) : list string * list string :=
  match pf_defs f with
  | [] => (pf_args f, [])
  | _ => let n := length (pf_args f) - length (pf_defs f) in (firstn n (pf_args f), skipn n (pf_args f))
  end.

(** L605-638: calling a decorated function gives a value or a function class. *)
Definition composable (a : arg) : bool := match a with AVal _ => false | _ => true end.
Definition plain_kw (kws : list (string * arg)) : sdict :=
  flat_map (fun ka => match snd ka with AVal v => [(fst ka, v)] | _ => [] end) kws.
Definition decorated (f : pyfun) (args : list V) (kws : list (string * arg)) : result V + fclass :=
  let fa := fst (get_funcargs f) in
  if negb (forallb (fun a => mem_str a (firstn (length args) fa) || mem_str a (dkeys kws)) fa)
  then inr (FC f "" kws)
  else if existsb (fun ka => composable (snd ka)) kws then inr (FC f "" kws)
  else inl (call_py f args (plain_kw kws)).
End Func.
