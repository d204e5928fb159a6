(** Small pieces of python used by every model: exceptions as values and
    insertion-ordered dictionaries. *)
From Coq Require Import String Bool Arith List.
Import ListNotations.

(** The python exceptions that occur in the modelled code. *)
Inductive exn : Type :=
| KeyError | IndexError | TypeError | ValueError | AttributeError
| NotImplementedError | RuntimeError | LinAlgError | CholmodError | IOError
| ZeroDivisionError | RecursionError | OtherError.

(** Outcome of a python call: a value or a raised exception. *)
Inductive result (A : Type) : Type :=
| Ok : A -> result A
| Err : exn -> result A.
Arguments Ok {A} _.
Arguments Err {A} _.

Definition rbind {A B} (x : result A) (f : A -> result B) : result B :=
  match x with Ok a => f a | Err e => Err e end.

Definition rmap {A B} (f : A -> B) (x : result A) : result B :=
  match x with Ok a => Ok (f a) | Err e => Err e end.

(** [for x in l: ...] collecting results and stopping at the first raise. *)
Fixpoint rmapM {A B} (f : A -> result B) (l : list A) : result (list B) :=
  match l with
  | [] => Ok []
  | x :: l' => rbind (f x) (fun y => rbind (rmapM f l') (fun ys => Ok (y :: ys)))
  end.

Definition is_ok {A} (x : result A) : bool :=
  match x with Ok _ => true | Err _ => false end.

(** Insertion-ordered python dictionaries (CPython >= 3.7) as association
    lists with pairwise distinct keys. *)
Section Dict.
  Context {K V : Type}.
  Variable eqK : forall x y : K, {x = y} + {x <> y}.

  Definition dict := list (K * V).

  (** [d.get(k)] *)
  Fixpoint dget (d : dict) (k : K) : option V :=
    match d with
    | [] => None
    | (k', v) :: d' => if eqK k k' then Some v else dget d' k
    end.

  (** [d[k] = v]: replaces in place or appends. *)
  Fixpoint dset (d : dict) (k : K) (v : V) : dict :=
    match d with
    | [] => [(k, v)]
    | (k', v') :: d' => if eqK k k' then (k', v) :: d' else (k', v') :: dset d' k v
    end.

  (** [d.pop(k, None)] as an update. *)
  Fixpoint dpop (d : dict) (k : K) : dict :=
    match d with
    | [] => []
    | (k', v') :: d' => if eqK k k' then d' else (k', v') :: dpop d' k
    end.

  (** [k in d] *)
  Definition dmem (d : dict) (k : K) : bool :=
    match dget d k with Some _ => true | None => false end.

  (** [d[k]] *)
  Definition dgetE (d : dict) (k : K) : result V :=
    match dget d k with Some v => Ok v | None => Err KeyError end.

  (** [d.update(d2)] *)
  Definition dupdate (d d2 : dict) : dict :=
    fold_left (fun acc kv => dset acc (fst kv) (snd kv)) d2 d.

  (** [d.keys()], [d.values()] *)
  Definition dkeys (d : dict) : list K := map fst d.
  Definition dvals (d : dict) : list V := map snd d.
End Dict.
Arguments dict : clear implicits.

(** Python list indexing with a (possibly negative) integer. *)
From Coq Require Import ZArith.
Definition py_index {A} (l : list A) (z : Z) : result A :=
  let n := Z.of_nat (length l) in
  let i := if (z <? 0)%Z then (z + n)%Z else z in
  if ((0 <=? i) && (i <? n))%Z then
    match nth_error l (Z.to_nat i) with Some x => Ok x | None => Err IndexError end
  else Err IndexError.

(** [str(n)] for a non-negative integer. *)
From Coq Require Import DecimalString.
Definition str_of_nat (n : nat) : string := NilEmpty.string_of_uint (Nat.to_uint n).

(** python [sorted(l, key=...)], stable, for a boolean order [le]. *)
Section Sort.
  Context {A : Type}.
  Variable le : A -> A -> bool.
  Fixpoint insert_sorted (x : A) (l : list A) : list A :=
    match l with
    | [] => [x]
    | y :: l' => if le x y then x :: y :: l' else y :: insert_sorted x l'
    end.
  Fixpoint isort (l : list A) : list A :=
    match l with [] => [] | x :: l' => insert_sorted x (isort l') end.
End Sort.

(** python's [s <= t] on strings (by code point; the model has bytes). *)
Definition sle (s t : string) : bool := match String.compare s t with Gt => false | _ => true end.

(** ["_".join(l)] *)
Fixpoint join_us (l : list string) : string :=
  match l with
  | [] => EmptyString
  | [x] => x
  | x :: l' => append x (append "_" (join_us l'))
  end.

(** [b in s] for strings. *)
Fixpoint substring_of (b s : string) : bool :=
  String.prefix b s ||
  match s with EmptyString => false | String _ s' => substring_of b s' end.
