(** Model of pulsars whose arrays live in shared memory
    (enterprise/pulsar.py L626-663, enterprise/pulsar_inflate.py L16-61).

    A world has shared blocks and any number of copies of pulsars, each in any
    process. Names of new blocks are fresh. As on POSIX systems an unlinked
    block cannot be opened any more, but an array that is mapped already stays
    readable. [resource_tracker] and [memmap.__del__] are left out: closing a
    mapping does not change the block. *)
From Coq Require Import Bool Arith List.
From Verif Require Import PyBase.
Import ListNotations.
Open Scope list_scope.

Section Shared.
(** Contents of an array, and its size in bytes. *)
Context {V : Type}.
Variable nbytes : V -> nat.

(** One of the attributes [_todeflate]: an array of its own, a
    [PulsarInflater], a [memmap] view of a block, or anything else (None, or the
    dictionary of flags of a PINT pulsar). *)
Inductive attr := Arr (v : V) | Inflater (b : nat) | View (b : nat) | Other.
Inductive status := Pristine | Deflated | Inflated | Destroyed.
Record copy := Copy { c_name : nat; c_status : status; c_attrs : list attr }.
Record block := Block { b_data : V; b_linked : bool }.
(** [w_unlinked] records every call of [unlink]. *)
Record world := World { w_blocks : list block; w_copies : list copy; w_unlinked : list nat }.

(** pulsar_inflate.py L37-48 [PulsarInflater(array)]: a block of zero bytes
    raises ValueError. *)
Definition new_inflater (bl : list block) (v : V) : result (list block * nat) :=
  if Nat.eqb (nbytes v) 0 then Err ValueError else Ok (bl ++ [Block v true], length bl).
(** [shared_memory.SharedMemory(name)] raises FileNotFoundError if unlinked. *)
Definition open_block (bl : list block) (b : nat) : result block :=
  match nth_error bl b with
  | Some k => if b_linked k then Ok k else Err IOError
  | None => Err IOError
  end.
Fixpoint set_block (bl : list block) (b : nat) (k : block) : list block :=
  match bl, b with
  | [], _ => []
  | _ :: bl', 0 => k :: bl'
  | x :: bl', S b' => x :: set_block bl' b' k
  end.

(** pulsar.py L641-647: the loop of [deflate]; it stops at an exception, with
    the attributes up to there replaced. *)
Fixpoint deflate_attrs (bl : list block) (l : list attr) : list block * list attr * option exn :=
  match l with
  | [] => (bl, [], None)
  | a :: l' =>
      let replace v :=
        match new_inflater bl v with
        | Err e => (bl, a :: l', Some e)
        | Ok (bl1, b) => let '(bl2, r, e) := deflate_attrs bl1 l' in (bl2, Inflater b :: r, e)
        end in
      match a with
      | Arr v => replace v
      | View b => match nth_error bl b with Some k => replace (b_data k) | None => (bl, a :: l', Some OtherError) end
      | _ => let '(bl2, r, e) := deflate_attrs bl l' in (bl2, a :: r, e)
      end
  end.
(** L649-655: the loop of [inflate] *)
Fixpoint inflate_attrs (bl : list block) (l : list attr) : list attr * option exn :=
  match l with
  | [] => ([], None)
  | Inflater b :: l' =>
      match open_block bl b with
      | Err e => (Inflater b :: l', Some e)
      | Ok _ => let '(r, e) := inflate_attrs bl l' in (View b :: r, e)
      end
  | a :: l' => let '(r, e) := inflate_attrs bl l' in (a :: r, e)
  end.
(** L657-663: the loop of [destroy] *)
Fixpoint destroy_attrs (bl : list block) (un : list nat) (l : list attr) : list block * list nat * option exn :=
  match l with
  | [] => (bl, un, None)
  | Inflater b :: l' =>
      match open_block bl b with
      | Err e => (bl, un, Some e)
      | Ok k => destroy_attrs (set_block bl b (Block (b_data k) false)) (un ++ [b]) l'
      end
  | _ :: l' => destroy_attrs bl un l'
  end.

Fixpoint set_copy (cs : list copy) (i : nat) (c : copy) : list copy :=
  match cs, i with
  | [], _ => []
  | _ :: cs', 0 => c :: cs'
  | x :: cs', S i' => x :: set_copy cs' i' c
  end.
Definition put (w : world) (i : nat) (bl : list block) (un : list nat) (c : copy) : world :=
  World bl (set_copy (w_copies w) i c) un.

(** L641-647 *)
Definition deflate (w : world) (i : nat) (c : copy) : world * option exn :=
  match c_status c with
  | Pristine =>
      let '(bl, r, e) := deflate_attrs (w_blocks w) (c_attrs c) in
      (put w i bl (w_unlinked w) (Copy (c_name c) (match e with None => Deflated | Some _ => Pristine end) r), e)
  | _ => (w, None)
  end.
(** L649-655 *)
Definition inflate (w : world) (i : nat) (c : copy) : world * option exn :=
  match c_status c with
  | Deflated =>
      let '(r, e) := inflate_attrs (w_blocks w) (c_attrs c) in
      (put w i (w_blocks w) (w_unlinked w) (Copy (c_name c) (match e with None => Inflated | Some _ => Deflated end) r), e)
  | _ => (w, None)
  end.
(** L657-663 *)
Definition destroy (w : world) (i : nat) (c : copy) : world * option exn :=
  match c_status c with
  | Deflated =>
      let '(bl, un, e) := destroy_attrs (w_blocks w) (w_unlinked w) (c_attrs c) in
      (put w i bl un (Copy (c_name c) (match e with None => Destroyed | Some _ => Deflated end) (c_attrs c)), e)
  | _ => (w, None)
  end.

(** Contents of an attribute, if it can be used as an array. *)
Definition contents (bl : list block) (a : attr) : option V :=
  match a with
  | Arr v => Some v
  | View b => option_map b_data (nth_error bl b)
  | _ => None
  end.
(** Pickling and unpickling a pulsar: inflaters travel as they are, views become
    arrays of their own. *)
Definition pickle_attr (bl : list block) (a : attr) : attr :=
  match a with
  | View b => match nth_error bl b with Some k => Arr (b_data k) | None => a end
  | _ => a
  end.
Definition pickle (w : world) (c : copy) : world :=
  World (w_blocks w) (w_copies w ++ [Copy (c_name c) (c_status c) (map (pickle_attr (w_blocks w)) (c_attrs c))]) (w_unlinked w).
(** [psr._attr[:] = v] *)
Fixpoint set_attr (l : list attr) (k : nat) (a : attr) : list attr :=
  match l, k with
  | [], _ => []
  | _ :: l', 0 => a :: l'
  | x :: l', S k' => x :: set_attr l' k' a
  end.
Definition write (w : world) (i : nat) (c : copy) (k : nat) (v : V) : world * option exn :=
  match nth_error (c_attrs c) k with
  | Some (Arr _) => (put w i (w_blocks w) (w_unlinked w) (Copy (c_name c) (c_status c) (set_attr (c_attrs c) k (Arr v))), None)
  | Some (View b) =>
      match nth_error (w_blocks w) b with
      | Some x => (World (set_block (w_blocks w) b (Block v (b_linked x))) (w_copies w) (w_unlinked w), None)
      | None => (w, Some OtherError)
      end
  | _ => (w, Some TypeError)
  end.

Inductive op := Deflate (i : nat) | Inflate (i : nat) | Destroy (i : nat) | Pickle (i : nat) | Write (i k : nat) (v : V).
Definition target (o : op) : nat := match o with Deflate i | Inflate i | Destroy i | Pickle i | Write i _ _ => i end.
Definition step (w : world) (o : op) : world * option exn :=
  match nth_error (w_copies w) (target o) with
  | None => (w, Some OtherError)
  | Some c =>
      match o with
      | Deflate i => deflate w i c
      | Inflate i => inflate w i c
      | Destroy i => destroy w i c
      | Pickle i => (pickle w c, None)
      | Write i k v => write w i c k v
      end
  end.
(** Exceptions end one operation; the processes carry on. *)
Definition run (w : world) (os : list op) : world := fold_left (fun w o => fst (step w o)) os w.
End Shared.
Arguments attr : clear implicits.
Arguments copy : clear implicits.
Arguments block : clear implicits.
Arguments world : clear implicits.
Arguments op : clear implicits.
