(** Proofs about the list of common signals of an array with several classes. *)
From Coq Require Import String Bool Arith List Reals Lia.
From Verif Require Import PyBase ProofBase ModelCache ModelColl ProofColl ProofCommons.
Import ListNotations.
Open Scope nat_scope.
Open Scope list_scope.

(** A dictionary filtered by a condition on its values *)
Lemma filter_keys {A} (P : A -> bool) (d : list (nat * A)) : NoDup (dkeys d) -> NoDup (dkeys (filter (fun x => P (snd x)) d)).
Proof.
  unfold dkeys; induction d as [|[k a] d IH]; intros h; [constructor|]; cbn [map filter] in *; inversion h as [|? ? n1 n2]; subst; cbn [snd].
  destruct (P a); [|now apply IH]; cbn [map]; constructor; [|now apply IH].
  intros i; apply n1; apply in_map_iff in i as (x & e & i); apply filter_In in i as [i _]; apply in_map_iff; now exists x.
Qed.
Lemma of_class_app k xs ys : of_class k (xs ++ ys) = of_class k xs ++ of_class k ys.
Proof. induction xs as [|[k0 x] xs IH]; [reflexivity|]; cbn [app]; rewrite !of_class_cons; destruct (Nat.eqb k0 k); cbn [app]; now rewrite IH. Qed.

Section Arr.
Variables St N D F I P : Type.
Notation coll := (coll St N D F P).
Notation layout := (layout F I).
Notation sg := (sg St N D F P).
(** The signals with class [k] of one pulsar, when there is at most one *)
Lemma class_at k (i : nat) (l : list sg) : forall o t, (forall j m, nth_error l j = Some m -> (s_class m = Some k <-> t = Some j)) -> (forall j, t = Some j -> j < length l) ->
  of_class k (flat_map (fun jm : nat * sg => match s_class (snd jm) with Some k => [(k, (i, fst jm))] | None => @nil (nat * (nat * nat)) end) (combine (seq o (length l)) l))
  = match t with Some j => [(i, o + j)] | None => [] end.
Proof.
  induction l as [|m l IH]; intros o t h lt.
  - destruct t as [j|]; [specialize (lt j eq_refl); inversion lt|reflexivity].
  - cbn [length seq combine flat_map snd fst]; rewrite of_class_app.
    pose proof (h 0 m eq_refl) as h0; pose (t' := match t with Some (S j) => Some j | _ => None end).
    rewrite (IH (S o) t').
    + destruct t as [[|j]|].
      * rewrite (proj2 h0 eq_refl), of_class_cons, Nat.eqb_refl; cbn; now rewrite Nat.add_0_r.
      * assert (ne : s_class m <> Some k) by (intros e; apply h0 in e; discriminate).
        destruct (s_class m) as [k'|]; cbn [t']; [rewrite of_class_cons; destruct (Nat.eqb_spec k' k); [congruence|]|]; cbn; now rewrite Nat.add_succ_r.
      * assert (ne : s_class m <> Some k) by (intros e; apply h0 in e; discriminate).
        destruct (s_class m) as [k'|]; cbn [t']; [rewrite of_class_cons; destruct (Nat.eqb_spec k' k); [congruence|]|]; reflexivity.
    + intros j m' e; rewrite (h (S j) m' e); subst t'; destruct t as [[|t]|]; split; intros; try congruence.
    + intros j e; subst t'; destruct t as [[|t]|]; try discriminate; injection e as ->; specialize (lt _ eq_refl); cbn in lt; lia.
Qed.
(** Where each collection has its signal of class [k] *)
Definition places_from (o : nat) (ts : list (option nat)) : list (nat * nat) :=
  flat_map (fun it : nat * option nat => match snd it with Some j => [(fst it, j)] | None => [] end) (combine (seq o (length ts)) ts).
Lemma class_list_at k (a : list coll) : forall o (ls : list layout) (ts : list (option nat)), length ls = length a ->
  Forall2 (fun c t => (forall j m, nth_error (c_sigs c) j = Some m -> (s_class m = Some k <-> t = Some j)) /\ (forall j, t = Some j -> j < length (c_sigs c))) a ts ->
  Forall (fun l : layout => snd l <> None) ls ->
  of_class k (flat_map (fun icl : nat * (coll * layout) => let '(i, (c, l)) := icl in
    match snd l with
    | None => []
    | Some _ => flat_map (fun jm : nat * sg => match s_class (snd jm) with Some k => [(k, (i, fst jm))] | None => @nil (nat * (nat * nat)) end)
                  (combine (seq 0 (length (c_sigs c))) (c_sigs c))
    end) (combine (seq o (length a)) (combine a ls))) = places_from o ts.
Proof.
  unfold places_from; induction a as [|c a IH]; intros o ls ts el h hl; [inversion h; reflexivity|].
  destruct ls as [|l ls]; [discriminate|]; inversion h as [|? t ? ts' [h1 h2] h3]; subst; inversion hl as [|? ? l1 l2]; subst.
  cbn [length seq combine flat_map fst snd]; destruct (snd l) as [f|]; [|congruence].
  rewrite of_class_app, (class_at k o (c_sigs c) 0 t h1 h2), (IH (S o) ls ts'); [|now injection el|exact h3|exact l2].
  destruct t; reflexivity.
Qed.
(** The classes of an array are those with at least two signals. *)
Lemma commons_many (a : list coll) (ls : list layout) (ts : nat -> list (option nat)) : length ls = length a ->
  (forall k, Forall2 (fun c t => (forall j m, nth_error (c_sigs c) j = Some m -> (s_class m = Some k <-> t = Some j)) /\ (forall j, t = Some j -> j < length (c_sigs c))) a (ts k)) ->
  Forall (fun l : layout => snd l <> None) ls ->
  exists ks, NoDup ks /\ commons_of a ls = map (fun k => (k, places_from 0 (ts k))) ks /\ forall k, In k ks <-> 1 < length (places_from 0 (ts k)).
Proof.
  intros el h hl; set (xs := class_list a ls).
  assert (E : forall k, of_class k xs = places_from 0 (ts k)).
  { intros k; unfold xs, class_list; exact (class_list_at k a 0 ls (ts k) el (h k) hl). }
  set (d := fold_left add_common xs []).
  assert (nd : NoDup (dkeys d)) by (apply add_common_nodup; constructor).
  exists (dkeys (commons_of a ls)); unfold commons_of; fold xs; fold d; split; [|split].
  - apply filter_keys with (P := fun l => Nat.ltb 1 (length l)); exact nd.
  - assert (H : forall k l, In (k, l) d -> l = places_from 0 (ts k)) by (intros k l i; rewrite <- E; exact (add_common_in xs k l i)).
    unfold dkeys; rewrite map_map; clear nd; revert H; generalize d; induction d0 as [|[k l] d0 IH]; intros H; [reflexivity|]; cbn [filter snd].
    destruct (Nat.ltb 1 (length l)); cbn [map fst].
    + rewrite <- (H k l (or_introl eq_refl)); f_equal; apply IH; intros; apply H; now right.
    + apply IH; intros; apply H; now right.
  - intros k; unfold dkeys; rewrite in_map_iff; split.
    + intros ([k' l] & ek & i); cbn in ek; subst k'; apply filter_In in i as [i e]; cbn [snd] in e; apply Nat.ltb_lt in e.
      now rewrite <- E, <- (add_common_in xs k l i).
    + intros lt; exists (k, of_class k xs); split; [reflexivity|]; apply filter_In; split; [|cbn [snd]; rewrite E; now apply Nat.ltb_lt].
      apply (dget_In Nat.eq_dec); unfold d; rewrite add_common_get; cbn [dget].
      rewrite E; destruct (places_from 0 (ts k)); [cbn in lt; lia|reflexivity].
Qed.
End Arr.
