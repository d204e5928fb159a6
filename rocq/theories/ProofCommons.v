(** Proofs about the list of common signals of an array. *)
From Coq Require Import String Bool Arith List Reals Lia.
From Verif Require Import PyBase ProofBase ModelCache ModelColl ProofColl.
Import ListNotations.
Open Scope nat_scope.
Open Scope list_scope.

(** The positions of a class *)
Definition of_class (k : nat) (xs : list (nat * (nat * nat))) : list (nat * nat) := map snd (filter (fun x => Nat.eqb (fst x) k) xs).
Lemma of_class_cons k k0 x xs : of_class k ((k0, x) :: xs) = if Nat.eqb k0 k then x :: of_class k xs else of_class k xs.
Proof. unfold of_class; cbn [filter fst]; now destruct (Nat.eqb k0 k). Qed.
Lemma add_common_get xs : forall d k, dget Nat.eq_dec (fold_left add_common xs d) k =
  match dget Nat.eq_dec d k, of_class k xs with
  | Some l, l' => Some (l ++ l') | None, [] => None | None, l' => Some l'
  end.
Proof.
  induction xs as [|[k0 x] xs IH]; intros d k; cbn [fold_left].
  - cbn; destruct (dget _ d k); [now rewrite app_nil_r|reflexivity].
  - rewrite IH, of_class_cons; unfold add_common; cbn [fst snd]; destruct (Nat.eqb_spec k0 k) as [<-|ne].
    + rewrite dget_dset_same; destruct (dget Nat.eq_dec d k0); cbn [app]; [now rewrite <- app_assoc|reflexivity].
    + rewrite dget_dset_other by congruence; reflexivity.
Qed.
Lemma add_common_nodup xs : forall d, NoDup (dkeys d) -> NoDup (dkeys (fold_left add_common xs d)).
Proof. induction xs as [|x xs IH]; intros d h; [exact h|]; cbn [fold_left]; apply IH; unfold add_common; now apply dset_NoDup. Qed.
Lemma add_common_in xs k l : In (k, l) (fold_left add_common xs []) -> l = of_class k xs.
Proof.
  intros h; assert (e : dget Nat.eq_dec (fold_left add_common xs []) k = Some l).
  { apply In_dget; [apply add_common_nodup; constructor|exact h]. }
  rewrite add_common_get in e; cbn [dget] in e; destruct (of_class k xs); congruence.
Qed.

Lemma Forall2_length {A B} (P : A -> B -> Prop) l l' : Forall2 P l l' -> length l = length l'.
Proof. induction 1; cbn; congruence. Qed.
Lemma nodup_app {A} (l l' : list A) : NoDup l -> NoDup l' -> (forall x, In x l -> ~ In x l') -> NoDup (l ++ l').
Proof.
  intros h1 h2 dis; induction l as [|x m IH]; cbn [app]; [exact h2|]; inversion h1; subst; constructor; [|apply IH; [assumption|intros y i; apply dis; now right]].
  rewrite in_app_iff; intros [i|i]; [now auto|]; exact (dis x (or_introl eq_refl) i).
Qed.
Lemma nodup_flat {A B C K} (f : A -> list (B * C)) (g : A -> K) (key : C -> K) : (forall a x, In x (f a) -> key (snd x) = g a) -> forall l, NoDup (map g l) ->
  (forall a, In a l -> NoDup (map snd (f a))) -> NoDup (map snd (flat_map f l)).
Proof.
  intros hk; induction l as [|a l IH]; intros nd h; cbn [flat_map]; [constructor|]; rewrite map_app; cbn [map] in nd; inversion nd as [|a0 l0 n1 n2]; subst.
  apply nodup_app; [apply h; now left|apply IH; [exact n2|intros b i; apply h; now right]|].
  intros x i1 i2; apply in_map_iff in i1 as (y & <- & i1); apply in_map_iff in i2 as (z & e & i2); apply in_flat_map in i2 as (b & ib & iz).
  apply n1; rewrite <- (hk a y i1), <- e, (hk b z iz); now apply in_map.
Qed.
Lemma fst_combine {A B} (l : list A) : forall l' : list B, exists m, map fst (combine l l') = firstn m l.
Proof. induction l as [|x l IH]; intros [|y l']; [now exists 0|now exists 0|now exists 0|]; destruct (IH l') as [m e]; exists (S m); cbn; now rewrite e. Qed.
Lemma nodup_firstn {A} (l : list A) m : NoDup l -> NoDup (firstn m l).
Proof.
  revert m; induction l as [|x l IH]; intros [|m] h; cbn; try constructor; inversion h; subst; [|now apply IH].
  intros i; apply H1; revert i; clear; revert m; induction l as [|y l IH]; intros [|m]; cbn; [auto|auto|intros []|]; intros [e|i]; [now left|right; now apply (IH m)].
Qed.
Lemma nodup_numbered {A} (l : list A) o n : NoDup (map fst (combine (seq o n) l)).
Proof. destruct (fst_combine (seq o n) l) as [m e]; rewrite e; apply nodup_firstn, seq_NoDup. Qed.

Lemma nth_map_inv {A B} (f : A -> B) l : forall i y, nth_error (map f l) i = Some y -> exists x, nth_error l i = Some x /\ f x = y.
Proof. induction l as [|x l IH]; intros [|i] y; cbn; try discriminate; [intros [= <-]; now exists x|apply IH]. Qed.

Section Arr.
Variables St N D F I P : Type.
Notation coll := (coll St N D F P).
Notation layout := (layout F I).
Lemma class_nodup (a : list coll) (ls : list layout) : NoDup (map snd (class_list a ls)).
Proof.
  unfold class_list; apply nodup_flat with (g := fst) (key := fst).
  - intros [i [c l]] x; cbn; destruct (snd l); [|intros []]; intros h; apply in_flat_map in h as ([j m] & _ & h); cbn in h; destruct (s_class m); [|destruct h]; destruct h as [<-|[]]; reflexivity.
  - apply nodup_numbered.
  - intros [i [c l]] _; destruct (snd l); [|constructor]; apply nodup_flat with (g := fst) (key := snd).
    + intros [j m] x; cbn; destruct (s_class m); intros []; [now subst|contradiction].
    + apply nodup_numbered.
    + intros [j m] _; cbn; destruct (s_class m); repeat constructor; intros [].
Qed.
Lemma of_class_in k ij xs : In ij (of_class k xs) <-> In (k, ij) xs.
Proof.
  unfold of_class; rewrite in_map_iff; split.
  - intros ([k' x] & <- & h); apply filter_In in h as [h e]; apply Nat.eqb_eq in e; cbn in *; now subst.
  - intros h; exists (k, ij); split; [reflexivity|]; apply filter_In; split; [exact h|apply Nat.eqb_refl].
Qed.
Lemma of_class_nodup k xs : NoDup (map snd xs) -> NoDup (of_class k xs).
Proof.
  induction xs as [|[k0 x] xs IH]; intros h; [constructor|]; rewrite of_class_cons; cbn in h; inversion h as [|x0 l n1 n2]; subst.
  destruct (Nat.eqb k0 k); [constructor|]; auto; intros i; apply of_class_in in i; apply n1; now apply (in_map snd) in i.
Qed.
Lemma beh_at_intro (a : list (model St N D F P)) i j c m b : nth_error a i = Some c -> nth_error (c_sigs (fst c)) j = Some m -> nth_error (snd c) j = Some b -> beh_at a (i, j) = Some (m, b).
Proof. unfold beh_at; cbn [fst snd]; intros -> -> ->; reflexivity. Qed.
(** No class has two signals *)
Lemma commons_none (a : list (model St N D F P)) (ls : list layout) : Forall (fun c => length (c_sigs (fst c)) = length (snd c)) a ->
  (forall ij ij' m m' b b' k, beh_at a ij = Some (m, b) -> beh_at a ij' = Some (m', b') -> s_class m = Some k -> s_class m' = Some k -> ij = ij') ->
  commons_of (map fst a) ls = [].
Proof.
  intros hl h; unfold commons_of; set (xs := class_list (map fst a) ls).
  assert (L : forall k l, In (k, l) (fold_left add_common xs []) -> length l <= 1).
  { intros k l i; rewrite (add_common_in _ _ _ i); pose proof (of_class_nodup k xs (class_nodup (map fst a) ls)) as nd.
    assert (B : forall ij, In ij (of_class k xs) -> exists m b, beh_at a ij = Some (m, b) /\ s_class m = Some k).
    { intros [i0 j0] h0; apply of_class_in in h0; destruct (class_in _ _ _ _ _ _ _ _ _ _ _ h0) as (c & l0 & m & e1 & e2 & e3 & e4 & e5).
      destruct (@nth_map_inv (model St N D F P) _ fst a i0 c e1) as ([c0 bs] & Ea & ec); cbn in ec; subst c0.
      assert (lt : j0 < length bs). { rewrite Forall_forall in hl; specialize (hl _ (nth_error_In _ _ Ea)); cbn in hl; rewrite <- hl; apply nth_error_Some; congruence. }
      apply nth_error_Some in lt; destruct (nth_error bs j0) as [b|] eqn:Eb; [|congruence]; exists m, b; split; [exact (beh_at_intro a i0 j0 (c, bs) m b Ea e4 Eb)|exact e5]. }
    destruct (of_class k xs) as [|x [|y r]]; [auto|auto|]; exfalso; destruct (B x (or_introl eq_refl)) as (m & b & e1 & e2); destruct (B y (or_intror (or_introl eq_refl))) as (m' & b' & e3 & e4).
    inversion nd as [|? ? n1 _]; subst; apply n1; left; symmetry; exact (h _ _ _ _ _ _ _ e1 e3 e2 e4). }
  revert L; generalize (fold_left add_common xs []); induction c as [|[k l] c IH]; intros L; [reflexivity|]; cbn [filter snd].
  pose proof (L k l (or_introl eq_refl)); destruct (Nat.ltb_spec 1 (length l)); [lia|]; apply IH; intros; apply (L k0 l0); now right.
Qed.

(** One class with one signal in each pulsar *)
Notation sg := (sg St N D F P).
Lemma class_free (i : nat) (l : list sg) : forall o, (forall m, In m l -> s_class m = None) ->
  flat_map (fun jm : nat * sg => match s_class (snd jm) with Some k => [(k, (i, fst jm))] | None => @nil (nat * (nat * nat)) end) (combine (seq o (length l)) l) = [].
Proof.
  induction l as [|m l IH]; intros o h; [reflexivity|]; cbn [length seq combine flat_map snd]; rewrite (h m (or_introl eq_refl)); cbn [app].
  apply IH; intros m' i'; apply h; now right.
Qed.
Lemma class_one (k i : nat) (l : list sg) : forall o t, (forall j m, nth_error l j = Some m -> s_class m = if Nat.eqb j t then Some k else None) -> t < length l ->
  flat_map (fun jm : nat * sg => match s_class (snd jm) with Some k => [(k, (i, fst jm))] | None => @nil (nat * (nat * nat)) end) (combine (seq o (length l)) l) = [(k, (i, o + t))].
Proof.
  induction l as [|m l IH]; intros o t h lt; [inversion lt|]; cbn [length seq combine flat_map snd fst]; rewrite (h 0 m eq_refl); destruct t as [|t]; cbn [Nat.eqb app].
  - rewrite class_free, Nat.add_0_r; [reflexivity|]; intros m' i'; apply In_nth_error in i' as [j e]; exact (h (S j) m' e).
  - rewrite (IH (S o) t); [now rewrite Nat.add_succ_comm|intros j m' e; exact (h (S j) m' e)|cbn in lt; lia].
Qed.
Lemma class_list_one k (a : list coll) : forall o (ls : list layout) (js : list nat), length ls = length a ->
  Forall2 (fun c t => (forall j m, nth_error (c_sigs c) j = Some m -> s_class m = if Nat.eqb j t then Some k else None) /\ t < length (c_sigs c)) a js ->
  Forall (fun l : layout => snd l <> None) ls ->
  flat_map (fun icl : nat * (coll * layout) => let '(i, (c, l)) := icl in
    match snd l with
    | None => []
    | Some _ => flat_map (fun jm : nat * sg => match s_class (snd jm) with Some k => [(k, (i, fst jm))] | None => @nil (nat * (nat * nat)) end)
                  (combine (seq 0 (length (c_sigs c))) (c_sigs c))
    end) (combine (seq o (length a)) (combine a ls)) = map (fun ij => (k, ij)) (combine (seq o (length a)) js).
Proof.
  induction a as [|c a IH]; intros o ls js el h hl; [reflexivity|].
  destruct ls as [|l ls]; [discriminate|]; inversion h as [|? t ? js' [h1 h2] h3]; subst; inversion hl as [|? ? l1 l2]; subst.
  cbn [length seq combine flat_map map]; destruct (snd l) as [f|]; [|congruence].
  rewrite (class_one k o (c_sigs c) 0 t h1 h2); cbn [app Nat.add]; f_equal; apply IH; [now injection el|exact h3|exact l2].
Qed.
Lemma add_common_one k xs : forall l, fold_left add_common (map (fun ij => (k, ij)) xs) [(k, l)] = [(k, l ++ xs)].
Proof.
  induction xs as [|x xs IH]; intros l; cbn [map fold_left]; [now rewrite app_nil_r|].
  unfold add_common at 2; cbn [fst snd dget]; destruct (Nat.eq_dec k k) as [_|ne]; [|congruence]; cbn [dset]; destruct (Nat.eq_dec k k) as [_|ne]; [|congruence].
  rewrite IH, <- app_assoc; reflexivity.
Qed.
Lemma commons_one k (a : list coll) (ls : list layout) (js : list nat) : length ls = length a ->
  Forall2 (fun c t => (forall j m, nth_error (c_sigs c) j = Some m -> s_class m = if Nat.eqb j t then Some k else None) /\ t < length (c_sigs c)) a js ->
  Forall (fun l : layout => snd l <> None) ls -> 1 < length a -> commons_of a ls = [(k, combine (seq 0 (length a)) js)].
Proof.
  intros el h hl two; unfold commons_of, class_list; rewrite (class_list_one k a 0 ls js el h hl).
  assert (L : length (combine (seq 0 (length a)) js) = length a) by (rewrite combine_length, seq_length, <- (Forall2_length _ _ _ h); lia).
  destruct (combine (seq 0 (length a)) js) as [|x xs]; [cbn in L; lia|]; cbn [map fold_left].
  change (add_common [] (k, x)) with [(k, [x])]; rewrite add_common_one; cbn [app filter snd]; rewrite L.
  destruct (Nat.ltb_spec 1 (length a)); [reflexivity|lia].
Qed.
End Arr.
