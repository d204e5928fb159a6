(** Pulsars in shared memory.
    Only theorem statements live here; the proofs are in ProofShared.v. *)
From Coq Require Import Bool Arith List.
From Verif Require Import PyBase ModelShared ProofShared.
Import ListNotations.
Open Scope list_scope.

(** C81: over all sequences of operations on all copies, arrays that can be read
    have the original contents, an inflated copy can be read; a block is unlinked
    at most once, and inflating raises from then on; a block whose inflaters have
    all been replaced by views is never unlinked. Deflating raises halfway if an
    array is empty, and the arrays before it are lost. *)
Theorem shared_contents : forall V (nbytes : V -> nat) orig (w0 : world V) os, fresh orig w0 ->
  forallb (fun o => negb (is_write o)) os = true ->
  forall c, In c (w_copies (run nbytes w0 os)) ->
  length (c_attrs c) = length (orig (c_name c)) /\
  forall k a o, nth_error (c_attrs c) k = Some a -> nth_error (orig (c_name c)) k = Some o ->
    let got := contents (w_blocks (run nbytes w0 os)) a in
    (got = own o \/ got = None) /\ (c_status c = Inflated -> got = own o).
Proof. exact shared_contents_lem. Qed.
Print Assumptions shared_contents.
Theorem shared_inflate : forall V (nbytes : V -> nat) orig (w0 : world V) os, fresh orig w0 ->
  forallb (fun o => negb (is_write o)) os = true ->
  let w := run nbytes w0 os in
  forall i c, nth_error (w_copies w) i = Some c -> c_status c = Deflated ->
  (step nbytes w (Inflate i) = (fst (step nbytes w (Inflate i)), None) <->
   forall b, In (Inflater b) (c_attrs c) -> ~ In b (w_unlinked w)) /\
  (forall e, snd (step nbytes w (Inflate i)) = Some e -> e = IOError) /\
  (forallb (fun o => negb (is_destroy o)) os = true -> snd (step nbytes w (Inflate i)) = None).
Proof. exact shared_inflate_lem. Qed.
Print Assumptions shared_inflate.
Theorem shared_destroyed : forall V (nbytes : V -> nat) orig (w0 : world V) os1 os2 i c b w1, fresh orig w0 ->
  nth_error (w_copies (run nbytes w0 os1)) i = Some c -> c_status c = Deflated -> In (Inflater b) (c_attrs c) ->
  step nbytes (run nbytes w0 os1) (Destroy i) = (w1, None) ->
  let w := run nbytes w1 os2 in
  forall j d, nth_error (w_copies w) j = Some d -> c_status d = Deflated -> In (Inflater b) (c_attrs d) ->
  snd (step nbytes w (Inflate j)) = Some IOError /\
  forall d', nth_error (w_copies (fst (step nbytes w (Inflate j)))) j = Some d' -> c_status d' = Deflated.
Proof. exact shared_destroyed_lem. Qed.
Print Assumptions shared_destroyed.
Theorem shared_unlinked_once : forall V (nbytes : V -> nat) orig (w0 : world V) os, fresh orig w0 ->
  let w := run nbytes w0 os in
  NoDup (w_unlinked w) /\
  (forall b, In b (w_unlinked w) -> b < length (w_blocks w)) /\
  (forall b, In b (w_unlinked w) <-> exists k, nth_error (w_blocks w) b = Some k /\ b_linked k = false).
Proof. exact shared_unlinked_once_lem. Qed.
Print Assumptions shared_unlinked_once.
Theorem shared_leak : forall V (nbytes : V -> nat) orig (w0 : world V) os1 os2 b, fresh orig w0 ->
  let w := run nbytes w0 os1 in
  b < length (w_blocks w) -> ~ In b (w_unlinked w) ->
  (forall c, In c (w_copies w) -> ~ In (Inflater b) (c_attrs c)) ->
  ~ In b (w_unlinked (run nbytes w os2)).
Proof. exact shared_leak_lem. Qed.
Print Assumptions shared_leak.
Theorem shared_destroy_inflated : forall V (nbytes : V -> nat) (w : world V) i c,
  nth_error (w_copies w) i = Some c -> c_status c <> Deflated -> step nbytes w (Destroy i) = (w, None).
Proof. exact shared_destroy_inflated_lem. Qed.
Print Assumptions shared_destroy_inflated.
Theorem shared_status : forall V (nbytes : V -> nat) (w : world V) o c w' e,
  nth_error (w_copies w) (target o) = Some c -> step nbytes w o = (w', e) ->
  (exists c', nth_error (w_copies w') (target o) = Some c' /\ c_name c' = c_name c /\
   c_status c' = match o, c_status c, e with
                 | Deflate _, Pristine, None => Deflated
                 | Inflate _, Deflated, None => Inflated
                 | Destroy _, Deflated, None => Destroyed
                 | _, st, _ => st
                 end) /\
  (forall j d, j <> target o -> nth_error (w_copies w) j = Some d -> nth_error (w_copies w') j = Some d) /\
  (match o, c_status c with
   | Deflate _, Pristine | Inflate _, Deflated | Destroy _, Deflated | Pickle _, _ | Write _ _ _, _ => True
   | _, _ => w' = w /\ e = None
   end).
Proof. exact shared_status_lem. Qed.
Print Assumptions shared_status.
Theorem shared_write : forall V (nbytes : V -> nat) (w : world V) i j c d k k' b v,
  nth_error (w_copies w) i = Some c -> nth_error (w_copies w) j = Some d ->
  nth_error (c_attrs c) k = Some (View b) -> nth_error (c_attrs d) k' = Some (View b) -> b < length (w_blocks w) ->
  let w' := fst (step nbytes w (Write i k v)) in
  nth_error (w_copies w') j = Some d /\ contents (w_blocks w') (View b) = Some v.
Proof. exact shared_write_lem. Qed.
Print Assumptions shared_write.
Theorem shared_deflate : forall V (nbytes : V -> nat) (w : world V) i c,
  nth_error (w_copies w) i = Some c -> c_status c = Pristine ->
  (forall a, In a (c_attrs c) -> a = Other \/ exists v, a = Arr v /\ nbytes v <> 0) ->
  exists w' c', step nbytes w (Deflate i) = (w', None) /\ nth_error (w_copies w') i = Some c' /\ c_status c' = Deflated /\
  forall a, In a (c_attrs c') -> a = Other \/ exists b, a = Inflater b /\ length (w_blocks w) <= b < length (w_blocks w').
Proof. exact shared_deflate_lem. Qed.
Print Assumptions shared_deflate.
Theorem shared_empty_array_refuted : exists (orig : nat -> list (attr nat)) w0 os, fresh orig w0 /\
  let w := run id w0 os in
  snd (step id w0 (Deflate 0)) = Some ValueError /\
  exists c, nth_error (w_copies w) 0 = Some c /\ c_status c = Pristine /\
  (exists b, nth_error (c_attrs c) 0 = Some (Inflater b)) /\
  (* neither operation restores the array *)
  step id w (Inflate 0) = (w, None) /\ step id w (Destroy 0) = (w, None) /\ snd (step id w (Deflate 0)) = Some ValueError.
Proof. exact shared_empty_array_refuted_lem. Qed.
Print Assumptions shared_empty_array_refuted.
Example shared_satisfiable : fresh sorig sw /\
  let w := run id sw [Deflate 0; Pickle 0; Pickle 0; Inflate 1; Destroy 2] in
  w_unlinked w = [0; 1] /\ map (@c_status nat) (w_copies w) = [Deflated; Inflated; Destroyed] /\
  snd (step id w (Inflate 0)) = Some IOError.
Proof. exact (conj sw_fresh ex_shared). Qed.
