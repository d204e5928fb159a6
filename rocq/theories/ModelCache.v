(** Model of the caching decorators of enterprise/signals/signal_base.py. *)
From Coq Require Import String Bool Arith List.
From Verif Require Import PyBase.
Import ListNotations.

(** * Parameter dictionaries and cache keys *)
Section Values.
  (** Numbers appearing as parameter values; only their equality matters here. *)
  Variable num : Type.

  (** A value in a parameter dictionary: a scalar, a one-dimensional array or an
      array of higher dimension. *)
  Inductive pyval : Type :=
  | Sc : num -> pyval
  | Vec : list num -> pyval
  | Nd : list (list num) -> pyval.

  (** The entry of a cache key made from a parameter value
      (signal_base.py L1036-1039). *)
  Inductive kval : Type :=
  | KSc : num -> kval
  | KTup : list num -> kval.

  Definition params := dict string pyval.
  Definition key := list (string * kval).

  (** signal_base.py L1031-1040: the (name, value) pairs of the cached names
      present in [params]. A tuple of arrays is unhashable, so looking it up in
      the cache raises TypeError (L1054). *)
  Fixpoint cache_key (names : list string) (p : params) : result key :=
    match names with
    | [] => Ok []
    | n :: ns =>
        match dget string_dec p n with
        | None => cache_key ns p
        | Some (Sc x) => rmap (cons (n, KSc x)) (cache_key ns p)
        | Some (Vec l) => rmap (cons (n, KTup l)) (cache_key ns p)
        | Some (Nd _) => Err TypeError
        end
    end.
End Values.
Arguments Sc {num} _. Arguments Vec {num} _. Arguments Nd {num} _.
Arguments KSc {num} _. Arguments KTup {num} _.

(** * cache_call *)
Section CacheCall.
  Context {num : Type}.
  Variable num_eq_dec : forall x y : num, {x = y} + {x <> y}.

  Definition kval_eq_dec : forall x y : kval num, {x = y} + {x <> y}.
  Proof. repeat decide equality. Defined.
  Definition key_eq_dec : forall x y : key num, {x = y} + {x <> y}.
  Proof. repeat decide equality. Defined.

  (** The attributes [_cache_<method>] (a dict) and [_cache_list_<method>]
      (a list of keys) of the instance, signal_base.py L1044-1052. *)
  Record cstate (B : Type) := CState { cmap : dict (key num) B; clist : list (key num) }.
  Arguments CState {B} _ _. Arguments cmap {B} _. Arguments clist {B} _.

  Definition cempty {B} : cstate B := CState [] [].

  (** signal_base.py L1061-1062: after storing, if the list is longer than the
      limit, drop its head and the cache entry of that head. *)
  Definition cevict {B} (limit : nat) (c : cstate B) : cstate B :=
    if Nat.ltb limit (length (clist c)) then
      match clist c with
      | [] => c
      | k0 :: rest => CState (dpop key_eq_dec (cmap c) k0) rest
      end
    else c.

  (** signal_base.py L1028-1067. The object is a pair of the cache of this
      method and the rest of its attributes [S]; [func] may read and write the
      rest, and may raise after having written. *)
  Definition cache_call {S B : Type} (names : list string) (limit : nat)
      (func : params num -> S -> S * result B)
      (p : params num) (o : cstate B * S) : (cstate B * S) * result B :=
    let (c, s) := o in
    match cache_key num names p with
    | Err e => ((c, s), Err e)
    | Ok k =>
        if dmem key_eq_dec (cmap c) k then ((c, s), dgetE key_eq_dec (cmap c) k)
        else
          (* L1058: the key is appended before the function runs *)
          let l1 := clist c ++ [k] in
          match func p s with
          | (s1, Err e) => ((CState (cmap c) l1, s1), Err e)
          | (s1, Ok v) =>
              let c2 := cevict limit (CState (dset key_eq_dec (cmap c) k v) l1) in
              ((c2, s1), dgetE key_eq_dec (cmap c2) k)
          end
    end.

  (** A history of an object with one cached method: calls of the method, and
      arbitrary changes of the rest of the object made by other code. *)
  Inductive event (S : Type) : Type :=
  | Call : params num -> event S
  | Touch : (S -> S) -> event S.
  Arguments Call {S} _. Arguments Touch {S} _.

  (** Runs a history; returns the final object and, for each call, the
      parameters, the state in which it was made, the outcome and whether the
      underlying function ran (signal_base.py L1054). *)
  Record crec (S B : Type) := CRec
    { r_params : params num; r_before : cstate B * S; r_out : result B; r_eval : bool }.
  Arguments CRec {S B} _ _ _ _. Arguments r_params {S B} _. Arguments r_before {S B} _.
  Arguments r_out {S B} _. Arguments r_eval {S B} _.

  Definition would_eval {B} (names : list string) (p : params num) (c : cstate B) : bool :=
    match cache_key num names p with
    | Err _ => false
    | Ok k => negb (dmem key_eq_dec (cmap c) k)
    end.

  Fixpoint crun {S B} (names : list string) (limit : nat)
      (func : params num -> S -> S * result B)
      (h : list (event S)) (o : cstate B * S) : (cstate B * S) * list (crec S B) :=
    match h with
    | [] => (o, [])
    | Call p :: h' =>
        let (o1, r) := cache_call names limit func p o in
        let (o2, rs) := crun names limit func h' o1 in
        (o2, CRec p o r (would_eval names p (fst o)) :: rs)
    | Touch g :: h' => crun names limit func h' (fst o, g (snd o))
    end.
End CacheCall.
Arguments CState {num B} _ _. Arguments cmap {num B} _. Arguments clist {num B} _.
Arguments Call {num S} _. Arguments Touch {num S} _.
Arguments CRec {num S B} _ _ _ _. Arguments r_params {num S B} _. Arguments r_before {num S B} _.
Arguments r_out {num S B} _. Arguments r_eval {num S B} _.

(** * simplememobyid *)

(** Python objects live on a heap and identity is the address. An address
    holds either a [Sequence] (a list of addresses) or some other object, of
    which only the contents matter. *)
Section Memo.
  Variables Obj B : Type.

  Inductive cell : Type :=
  | CSeq : list nat -> cell
  | CObj : Obj -> cell.

  Definition heap := nat -> option cell.

  (** signal_base.py L39-43, [_simplememobyid_keycheck(key, arg)]. *)
  Definition keycheck (h : heap) (k a : nat) : bool :=
    match h k with
    | Some (CSeq ks) =>
        match h a with
        | Some (CSeq es) =>
            Nat.eqb (length ks) (length es) &&
            forallb (fun xy => Nat.eqb (fst xy) (snd xy)) (combine ks es)
        | _ => false
        end
    | _ => Nat.eqb k a
    end.

  (** signal_base.py L53-60, [memoizedfunc]: the slot [_memo<name>] holds the
      last argument and value. If the method raises nothing is stored. *)
  Definition memoized (method : heap -> nat -> result B) (h : heap)
      (slot : option (nat * B)) (a : nat) : option (nat * B) * result B :=
    let miss :=
      match method h a with
      | Ok v => (Some (a, v), Ok v)
      | Err e => (slot, Err e)
      end in
    match slot with
    | Some (k, v) => if keycheck h k a then (slot, Ok v) else miss
    | None => miss
    end.

  (** A history of calls, each with the heap at that moment. *)
  Fixpoint mrun (method : heap -> nat -> result B) (hist : list (heap * nat))
      (slot : option (nat * B)) : list (result B) :=
    match hist with
    | [] => []
    | (h, a) :: rest =>
        let (slot', r) := memoized method h slot a in r :: mrun method rest slot'
    end.
End Memo.
Arguments CSeq {Obj} _. Arguments CObj {Obj} _.

(** * Cached methods of signals and collections *)

(** ** BasisGP._construct_basis *)
Section BasisBuilder.
  Context {num : Type}.
  Variables F L : Type.

  (** What [_construct_basis] writes on the object: [_labels] (a dict), and
      [_basis] / [_slices], here the list of (selection key, block) in column
      order (gp_signals.py L98-115). *)
  Record gpstate := GPState { gp_labels : dict string L; gp_basis : list (string * F) }.

  (** gp_signals.py L99-100: the loop filling [basis] and [self._labels]; the
      labels written before a raise stay on the object. *)
  Fixpoint build_loop (bases : list (string * (params num -> result (F * L))))
      (p : params num) (labels : dict string L) (acc : list (string * F))
      : dict string L * result (list (string * F)) :=
    match bases with
    | [] => (labels, Ok acc)
    | (k, f) :: rest =>
        match f p with
        | Err e => (labels, Err e)
        | Ok (b, l) => build_loop rest p (dset string_dec labels k l) (acc ++ [(k, b)])
        end
    end.

  (** gp_signals.py L97-115, the undecorated [_construct_basis]. *)
  Definition construct_basis (bases : list (string * (params num -> result (F * L))))
      (p : params num) (s : gpstate) : gpstate * result unit :=
    match build_loop bases p [] [] with
    | (labels, Err e) => (GPState labels (gp_basis s), Err e)
    | (labels, Ok blocks) => (GPState labels blocks, Ok tt)
    end.
End BasisBuilder.
Arguments GPState {F L} _ _. Arguments gp_labels {F L} _. Arguments gp_basis {F L} _.
Arguments build_loop {num F L} _ _ _ _. Arguments construct_basis {num F L} _ _ _.

(** ** Constants *)
Section Constants.
  Context {num : Type}.

  (** signal_base.py L117-121, [Signal.get] for a parameter stored under its own
      name: the dictionary if present, else the value held by the object
      ([None] if a constant that was never set). *)
  Definition sget (p : params num) (consts : dict string (option (pyval num))) (n : string)
      : option (pyval num) :=
    match dget string_dec p n with
    | Some v => Some v
    | None => match dget string_dec consts n with Some o => o | None => None end
    end.

  (** signal_base.py L123-133, [Signal.set_default_params] on the constants of
      one signal. *)
  Definition set_defaults (p : params num) (consts : dict string (option (pyval num)))
      : dict string (option (pyval num)) :=
    map (fun kv => match dget string_dec p (fst kv) with
                   | Some v => (fst kv, Some v)
                   | None => kv
                   end) consts.

  (** A signal method such as [WhiteNoise.get_ndiag] (white_signals.py L58-63)
      that reads its parameters through [get]; [body] may raise, e.g. on a
      constant that is not set. *)
  Definition reads_get {B} (body : (string -> option (pyval num)) -> result B)
      (p : params num) (consts : dict string (option (pyval num)))
      : dict string (option (pyval num)) * result B :=
    (consts, body (sget p consts)).
End Constants.

(** ** Methods returning the array they keep writing into *)
Section SharedArray.
  Context {num A : Type}.

  (** deterministic_signals.py L198-204 ([PhysicalEphemerisSignal.get_delay] with
      epoch TOAs) and white_signals.py L266-271 ([_get_ndiag_sparse]): write the
      new values into an array owned by the object and return a reference to
      it. [S = A] is the contents of the array. *)
  Definition shared_write (wf : params num -> A) (p : params num) (s : A) : A * result unit :=
    (wf p, Ok tt).

  (** What the caller sees through the returned reference. *)
  Definition shared_read (o : cstate (num:=num) unit * A) : A := snd o.
End SharedArray.

(** ** SignalCollection *)
Section Collection.
  Context {num : Type}.
  Variable num_eq_dec : forall x y : num, {x = y} + {x <> y}.

  (** What a collection knows of a signal for caching and delays. *)
  Inductive sigtype := WhiteT | BasisT | CommonBasisT | DeterministicT | OtherT.
  Record csig (D : Type) := CSig
    { cs_type : sigtype; cs_ndiag_params : list string; cs_basis_params : list string;
      cs_delay_params : list string; cs_delay : params num -> result D }.
  Arguments CSig {D} _ _ _ _ _. Arguments cs_type {D} _. Arguments cs_ndiag_params {D} _.
  Arguments cs_basis_params {D} _. Arguments cs_delay_params {D} _. Arguments cs_delay {D} _.

  (** signal_base.py L796-815, [_set_cache_parameters]. *)
  Definition white_params {D} (l : list (csig D)) : list string :=
    flat_map (fun s => match cs_type s with WhiteT => cs_ndiag_params s | _ => [] end) l.
  Definition basis_params {D} (l : list (csig D)) : list string :=
    flat_map (fun s => match cs_type s with
                       | BasisT | CommonBasisT => cs_basis_params s | _ => [] end) l.
  Definition delay_params {D} (l : list (csig D)) : list string :=
    flat_map (fun s => match cs_type s with
                       | BasisT | CommonBasisT | DeterministicT => cs_delay_params s
                       | _ => [] end) l.

  (** signal_base.py L940-941, the undecorated [get_delay]: evaluate every
      signal, then [sum]. [zeroD]/[addD] are python [0] and [+] on delays. *)
  Definition delay_sum {D} (zeroD : D) (addD : D -> D -> D) (l : list (csig D))
      (p : params num) : result D :=
    rmap (fun ds => fold_left addD ds zeroD) (rmapM (fun s => cs_delay s p) l).

  (** signal_base.py L938-941, [get_delay] with its cache. *)
  Definition coll_get_delay {D} (zeroD : D) (addD : D -> D -> D) (l : list (csig D))
      (p : params num) (o : cstate D * unit) :=
    cache_call num_eq_dec (delay_params l) 2
      (fun p s => (s, delay_sum zeroD addD l p)) p o.

  (** [get_delay] of a collection of one ephemeris signal, whose own cache hands
      out references to its array, and one further deterministic signal [g]
      (signal_base.py L938-941 over deterministic_signals.py L196-204). *)
  Definition ephem_coll_delay {D} (addD : D -> D -> D)
      (enames gnames : list string) (wf : params num -> D) (g : params num -> D)
      (p : params num) (o : cstate D * (cstate unit * D)) :=
    cache_call num_eq_dec (enames ++ gnames) 2
      (fun p s =>
         let (s1, r) := cache_call num_eq_dec enames 2 (shared_write wf) p s in
         (s1, match r with
              | Ok _ => Ok (addD (shared_read s1) (g p))
              | Err e => Err e
              end)) p o.
End Collection.
Arguments CSig {num D} _ _ _ _ _. Arguments cs_type {num D} _. Arguments cs_ndiag_params {num D} _.
Arguments cs_basis_params {num D} _. Arguments cs_delay_params {num D} _. Arguments cs_delay {num D} _.
