(** Model of how signals, pulsar models and arrays are put together
    (enterprise/signals/signal_base.py). *)
From Coq Require Import String Bool Arith ZArith List.
From Verif Require Import PyBase ModelCache.
Import ListNotations.
Open Scope list_scope.

(** * Adding signal classes *)

(** Operands of [+]: a signal class (MetaSignal), a collection class
    (MetaCollection, given by its [_metasignals]), or anything else. *)
Inductive operand : Type :=
| OSig : nat -> operand
| OColl : list nat -> operand
| OOther : operand.

(** signal_base.py L68-74 ([MetaSignal.__add__]) and L82-88
    ([MetaCollection.__add__]). An object of any other type on the left would
    use its own [__add__], or raise TypeError for want of one. *)
Definition sig_add (a b : operand) : result operand :=
  match a with
  | OSig s =>
      match b with
      | OSig t => Ok (OColl [s; t])
      | OColl l => Ok (OColl ([s] ++ l))
      | OOther => Err TypeError
      end
  | OColl m =>
      match b with
      | OSig t => Ok (OColl (m ++ [t]))
      | OColl l => Ok (OColl (m ++ l))
      | OOther => Err TypeError
      end
  | OOther => Err TypeError
  end.

(** An expression built with [+]. *)
Inductive sumexpr : Type :=
| SLeaf : operand -> sumexpr
| SAdd : sumexpr -> sumexpr -> sumexpr.

(** Python evaluates the left operand, then the right one, then adds. *)
Fixpoint sum_eval (e : sumexpr) : result operand :=
  match e with
  | SLeaf o => Ok o
  | SAdd a b => rbind (sum_eval a) (fun x => rbind (sum_eval b) (fun y => sig_add x y))
  end.

(** * Instances *)

(** A signal instance: an identity, its [name], its class, whether the class
    derives from [CommonSignal], whether it has sampled coefficients. *)
Record sigi := SigI
  { si_id : nat; si_name : string; si_class : nat; si_common : bool; si_coeff : bool }.

(** A [SignalCollection] instance: identity, pulsar name, signals, and whether
    some signal provides a basis ([_Fmat is not None]). *)
Record coll := Coll
  { co_id : nat; co_psr : string; co_signals : list sigi; co_basis : bool }.

(** * PTA *)

(** What a PTA can be given: a pulsar model, another PTA, or anything else. *)
Inductive pobj : Type :=
| PColl : coll -> pobj
| PArr : list coll -> pobj
| PElse : pobj.

(** signal_base.py L267-279 [PTA.__init__] on a list: [_set_signal_dict] reads
    [_signals] of every element, which a PTA or a foreign object lacks. *)
Fixpoint pta_init (l : list pobj) : result (list coll) :=
  match l with
  | [] => Ok []
  | PColl c :: l' => rmap (cons c) (pta_init l')
  | _ :: _ => Err AttributeError
  end.

(** [a + b] where [a] is a pulsar model (signal_base.py L792-793) or a PTA
    (L281-285); [PElse] on the left is not code of this package. *)
Definition pta_add (a b : pobj) : result pobj :=
  match a with
  | PColl c => rmap PArr (pta_init [PColl c; b])
  | PArr l =>
      match b with
      | PArr l2 => rmap PArr (pta_init (map PColl l ++ map PColl l2))
      | _ => rmap PArr (pta_init (map PColl l ++ [b]))
      end
  | PElse => Err TypeError
  end.

(** An expression built with [+] from pulsar models and arrays. *)
Inductive psum : Type :=
| PLeaf : pobj -> psum
| PAdd : psum -> psum -> psum.
Fixpoint psum_eval (e : psum) : result pobj :=
  match e with
  | PLeaf o => Ok o
  | PAdd a b => rbind (psum_eval a) (fun x => rbind (psum_eval b) (fun y => pta_add x y))
  end.

(** signal_base.py L323-331 [PTA.__getitem__]: integer or other key. *)
Inductive pkey := KInt : Z -> pkey | KName : string -> pkey.
Definition pta_getitem (l : list coll) (k : pkey) : result coll :=
  match k with
  | KInt z => py_index l z
  | KName s =>
      match find (fun c => String.eqb (co_psr c) s) l with
      | Some c => Ok c
      | None => Err KeyError
      end
  end.

(** signal_base.py L701-721 [_set_signal_dict]: both loops, with [sig_list] and
    [_signal_dict]. *)
Definition set_signal_dict (l : list coll) : dict string sigi :=
  snd (fold_left
    (fun (st : list string * dict string sigi) s =>
       let (sig_list, d) := st in
       if existsb (String.eqb (si_name s)) sig_list then (sig_list, d)
       else (sig_list ++ [si_name s], dset string_dec d (si_name s) s))
    (flat_map co_signals l) ([], [])).

(** signal_base.py L725-727 [get_signal]. *)
Definition get_signal (l : list coll) (name : string) : result sigi :=
  dgetE string_dec (set_signal_dict l) name.

(** signal_base.py L384-404 [_commonsignals]: class -> (signal -> collection),
    classes with more than one signal kept. *)
Definition commonsignals_all (l : list coll) : dict nat (dict nat nat) :=
  fold_left
    (fun d (c : coll) =>
       if co_basis c then
         fold_left
           (fun d s =>
              if si_common s && negb (si_coeff s) then
                let inner := match dget Nat.eq_dec d (si_class s) with Some x => x | None => [] end in
                dset Nat.eq_dec d (si_class s) (dset Nat.eq_dec inner (si_id s) (co_id c))
              else d) (co_signals c) d
       else d) l [].
Definition commonsignals (l : list coll) : dict nat (dict nat nat) :=
  filter (fun kv => Nat.ltb 1 (length (snd kv))) (commonsignals_all l).

(** LogLikelihood.__call__ L225-264: [if self.pta._commonsignals:]. *)
Definition correlated_branch (l : list coll) : bool :=
  match commonsignals l with [] => false | _ => true end.

(** * Constants *)
Section Constants.
  Variable V : Type.

  (** Entry of a signal's [_params]: a varying parameter or a reference to a
      constant object; both carry a name. *)
  Inductive pentry : Type :=
  | EVar : string -> pentry
  | EConst : nat -> string -> pentry.

  (** The values of constant objects, by identity; [None] is python's None.
      Varying parameters also have mutable attributes, tracked by the second
      component to state that they are not touched. *)
  Definition cheap := nat -> option V.

  Definition hset (h : cheap) (i : nat) (v : option V) : cheap :=
    fun j => if Nat.eqb j i then v else h j.

  (** signal_base.py L123-133 [Signal.set_default_params], one signal. *)
  Definition sig_set_default (d : dict string V) (entries : list pentry) (h : cheap) : cheap :=
    fold_left
      (fun h e =>
         match e with
         | EVar _ => h
         | EConst i n =>
             match dget string_dec d n with
             | Some v => hset h i (Some v)
             | None => h
             end
         end) entries h.

  (** SignalCollection L869-871 and PTA L368-370. *)
  Definition pta_set_default (d : dict string V) (l : list (list (list pentry))) (h : cheap) : cheap :=
    fold_left (fun h sc => fold_left (fun h s => sig_set_default d s h) sc h) l h.
End Constants.
Arguments sig_set_default {V} _ _ _. Arguments pta_set_default {V} _ _ _.
Arguments hset {V} _ _ _.
