(** Proofs about the data held by a pulsar. *)
From Coq Require Import String Bool Arith Lia List Permutation Sorted.
From Verif Require Import PyBase ProofBase ModelPulsar.
Import ListNotations.
Open Scope string_scope.
Open Scope list_scope.

(** ** Lists *)
Definition picks {X} (ix : list nat) (a l : list X) : Prop := Forall2 (fun i x => nth_error a i = Some x) ix l.

Lemma take_idx_picks {X} (a : list X) ix l : take_idx a ix = Ok l <-> picks ix a l.
Proof.
  unfold take_idx, picks; revert l; induction ix as [|i ix IH]; intros l; simpl.
  - split; [intros [= <-]; constructor|]. intros h; inversion h; reflexivity.
  - destruct (nth_error a i) as [x|] eqn:E; simpl.
    + destruct (rmapM _ ix) as [r|e] eqn:R; simpl.
      * split; [intros [= <-]; constructor; [exact E|now apply IH]|].
        intros h; inversion h as [|? ? ? ? e1 e2]; subst. rewrite E in e1; injection e1 as ->. apply IH in e2; congruence.
      * split; [discriminate|]. intros h; inversion h as [|? ? ? ? e1 e2]; subst. apply IH in e2; discriminate.
    + split; [discriminate|]. intros h; inversion h; congruence.
Qed.
Lemma combine_map_fst {X Y} (a : list X) (b : list Y) : length a = length b -> map fst (combine a b) = a.
Proof. revert b; induction a as [|x a IH]; intros [|y b] h; try discriminate; simpl; [reflexivity|]. f_equal; apply IH; now injection h. Qed.
Lemma combine_map_snd {X Y} (a : list X) (b : list Y) : length a = length b -> map snd (combine a b) = b.
Proof. revert b; induction a as [|x a IH]; intros [|y b] h; try discriminate; simpl; [reflexivity|]. f_equal; apply IH; now injection h. Qed.
Lemma mask_combine {X Y} (P : Y -> bool) (ks : list Y) (a : list X) : length ks = length a ->
  map fst (filter snd (combine a (map P ks))) = map snd (filter (fun ka => P (fst ka)) (combine ks a)).
Proof.
  revert a; induction ks as [|k ks IH]; intros [|x a] h; try discriminate; simpl; [reflexivity|].
  injection h as h; destruct (P k); simpl; now rewrite IH.
Qed.
Lemma select_map {X Y} (P : Y -> bool) (l : list (Y * X)) :
  select (map P (map fst l)) (map snd l) = map snd (filter (fun ka => P (fst ka)) l).
Proof. unfold select; induction l as [|[k x] l IH]; simpl; [reflexivity|]. destruct (P k); simpl; now rewrite IH. Qed.

(** ** Stable sorting *)
Section Sort.
Context {X Y : Type}.
Lemma isort_map (leX : X -> X -> bool) (leY : Y -> Y -> bool) (f : X -> Y) (h : forall x y, leY (f x) (f y) = leX x y) l :
  isort leY (map f l) = map f (isort leX l).
Proof.
  assert (ins : forall x l, insert_sorted leY (f x) (map f l) = map f (insert_sorted leX x l)).
  { intros x; induction l0 as [|y l0 IH]; simpl; [reflexivity|]. rewrite h; destruct (leX x y); simpl; now rewrite ?IH. }
  induction l as [|x l IH]; simpl; [reflexivity|]. now rewrite IH, ins.
Qed.
Variable le : X -> X -> bool.
Hypothesis total : forall a b, le a b = true \/ le b a = true.
Hypothesis trans : forall a b c, le a b = true -> le b c = true -> le a c = true.
Lemma insert_filter P x l : StronglySorted (fun a b => le a b = true) l ->
  filter P (insert_sorted le x l) = if P x then insert_sorted le x (filter P l) else filter P l.
Proof.
  induction l as [|y l IH]; intros s; simpl; [now destruct (P x)|].
  inversion s as [|? ? s' f]; subst. destruct (le x y) eqn:E.
  - simpl; destruct (P x) eqn:Px; [|reflexivity]. destruct (P y) eqn:Py; simpl; [now rewrite E|].
    assert (g : forall z, In z (filter P l) -> le x z = true).
    { intros z i; apply filter_In in i; destruct i as [i _]. rewrite Forall_forall in f. now apply trans with y; [|apply f]. }
    destruct (filter P l) as [|z r]; simpl; [reflexivity|]. now rewrite g by now left.
  - simpl; rewrite IH by exact s'. destruct (P y) eqn:Py; simpl; destruct (P x); simpl; rewrite ?E; reflexivity.
Qed.
Lemma isort_filter P l : filter P (isort le l) = isort le (filter P l).
Proof.
  induction l as [|x l IH]; simpl; [reflexivity|].
  rewrite insert_filter by now apply isort_sorted. rewrite IH; now destruct (P x).
Qed.
Lemma isort_id l : StronglySorted (fun a b => le a b = true) l -> isort le l = l.
Proof.
  induction 1 as [|x l s IH f]; simpl; [reflexivity|]. rewrite IH. destruct l as [|y l]; simpl; [reflexivity|].
  inversion f; subst. now rewrite H1.
Qed.
End Sort.

Section Stable.
Context {T : Type}.
Variable le : T -> T -> bool.
Hypothesis total : forall a b, le a b = true \/ le b a = true.
Hypothesis trans : forall a b c, le a b = true -> le b c = true -> le a c = true.
Notation key := (fun a b => le (fst a) (fst b)).
Definition before (a b : T * nat) : Prop := le (fst a) (fst b) = true /\ (le (fst b) (fst a) = true -> snd a < snd b).
Lemma insert_before x l : (forall y, In y l -> snd x < snd y) -> StronglySorted before l ->
  StronglySorted before (insert_sorted key x l).
Proof.
  induction l as [|y l IH]; intros lt s; simpl; [repeat constructor|].
  inversion s as [|? ? s' f]; subst. destruct (le (fst x) (fst y)) eqn:E.
  - constructor; [exact s|]. constructor.
    + split; [exact E|]. intros _; apply lt; now left.
    + rewrite Forall_forall in f |- *; intros z i; split.
      * apply trans with (fst y); [exact E|]. now apply f.
      * intros _; apply lt; now right.
  - constructor; [apply IH; [intros z i; apply lt; now right|exact s']|].
    eapply Permutation_Forall; [symmetry; apply insert_sorted_perm|]. constructor; [|exact f].
    split; [destruct (total (fst x) (fst y)); congruence|congruence].
Qed.
Lemma isort_before : forall ts s, StronglySorted before (isort key (combine ts (seq s (length ts)))).
Proof.
  induction ts as [|t ts IH]; intros s; simpl; [constructor|].
  apply insert_before; [|apply IH].
  intros [t' i] h. apply (Permutation_in _ (isort_perm _ _)), in_combine_r, in_seq in h. simpl; lia.
Qed.

Lemma argsort_pairs {X} (ts : list T) (a : list X) : length a = length ts ->
  take_idx a (argsort le ts) = Ok (map snd (isort key (combine ts a))).
Proof.
  intros h. set (n := length ts). set (L := combine ts (combine a (seq 0 n))).
  assert (la : length (combine a (seq 0 n)) = n) by (rewrite combine_length, seq_length; lia).
  set (f := fun x : T * (X * nat) => (fst x, snd (snd x))); set (g := fun x : T * (X * nat) => (fst x, fst (snd x))).
  assert (e1 : combine ts (seq 0 n) = map f L).
  { unfold L, f. clear -h. unfold n; generalize 0; revert a h; induction ts as [|t ts IH]; intros [|x a] h s; try discriminate; simpl; [reflexivity|].
    f_equal; apply IH; now injection h. }
  assert (e2 : combine ts a = map g L).
  { unfold L, g. clear -h. unfold n; generalize 0; revert a h; induction ts as [|t ts IH]; intros [|x a] h s; try discriminate; simpl; [reflexivity|].
    f_equal; apply IH; now injection h. }
  unfold argsort; fold n; rewrite e1, e2.
  rewrite (isort_map key (fun a b => le (fst a) (fst b)) f), (isort_map key (fun a b => le (fst a) (fst b)) g) by reflexivity.
  rewrite !map_map. apply take_idx_picks.
  assert (all : forall x, In x (isort key L) -> nth_error a (snd (snd x)) = Some (fst (snd x))).
  { intros [t [x i]] j. apply (Permutation_in _ (isort_perm _ _)), in_combine_r in j. simpl.
    clear -j. assert (k : forall s, In (x, i) (combine a (seq s n)) -> nth_error a (i - s) = Some x).
    { clear j; unfold n; clear n; revert ts; induction a as [|y a IH]; intros ts s j; [destruct j|].
      destruct ts as [|t ts]; [destruct j|]. simpl in j; destruct j as [[= <- <-]|j]; [now rewrite Nat.sub_diag|].
      assert (s < i) by (apply in_combine_r, in_seq in j; lia).
      apply (IH ts (S s)) in j. replace (i - s) with (S (i - S s)) by lia. exact j. }
    specialize (k 0 j); now rewrite Nat.sub_0_r in k. }
  unfold picks; induction (isort key L) as [|x l IH]; simpl; constructor; [apply all; now left|].
  apply IH; intros y i; apply all; now right.
Qed.
Lemma argsort_perm ts : Permutation (argsort le ts) (seq 0 (length ts)).
Proof.
  unfold argsort. rewrite (isort_perm _ _). now rewrite combine_map_snd by now rewrite seq_length.
Qed.
Lemma argsort_stable ts : StronglySorted (fun i j => forall x y, nth_error ts i = Some x -> nth_error ts j = Some y ->
  le x y = true /\ (le y x = true -> i < j)) (argsort le ts).
Proof.
  unfold argsort. assert (s := isort_before ts 0).
  assert (all : forall ti, In ti (isort key (combine ts (seq 0 (length ts)))) -> nth_error ts (snd ti) = Some (fst ti)).
  { intros [t i] h. apply (Permutation_in _ (isort_perm _ _)) in h. simpl.
    assert (k : forall ts s, In (t, i) (combine ts (seq s (length ts))) -> nth_error ts (i - s) = Some t).
    { clear; induction ts as [|u ts IH]; intros s [].
      - injection H as -> ->. now rewrite Nat.sub_diag.
      - assert (s < i) by (apply in_combine_r, in_seq in H; lia). apply IH in H. replace (i - s) with (S (i - S s)) by lia. exact H. }
    apply k in h; now rewrite Nat.sub_0_r in h. }
  induction s as [|x l s IH f]; simpl; constructor.
  - apply IH; intros y i; apply all; now right.
  - rewrite Forall_map. rewrite Forall_forall in f |- *. intros y i u v e1 e2.
    rewrite (all x (or_introl eq_refl)) in e1; rewrite (all y (or_intror i)) in e2.
    injection e1 as <-; injection e2 as <-. apply (f y i).
Qed.
End Stable.

(** ** The inverse permutation *)
Lemma set_nth_length {X} (v : list X) p x : length (set_nth v p x) = length v.
Proof. revert p; induction v as [|y v IH]; intros [|p]; simpl; auto. Qed.
Lemma set_nth_get {X} (v : list X) p x q : p < length v -> nth_error (set_nth v p x) q = if Nat.eqb q p then Some x else nth_error v q.
Proof.
  revert p q; induction v as [|y v IH]; intros [|p] [|q] h; simpl in *; try lia; try reflexivity.
  apply IH; lia.
Qed.
Lemma invert_spec_gen ix : forall s v, NoDup ix -> (forall i, In i ix -> i < length v) ->
  let r := fold_left (fun v pi => set_nth v (snd pi) (fst pi)) (combine (seq s (length ix)) ix) v in
  length r = length v /\
  (forall j i, nth_error ix j = Some i -> nth_error r i = Some (s + j)) /\
  (forall i, ~ In i ix -> nth_error r i = nth_error v i).
Proof.
  induction ix as [|p ix IH]; intros s v nd lt; simpl.
  - split; [reflexivity|]. split; [intros [|j] i; discriminate|reflexivity].
  - inversion nd as [|? ? ni nd']; subst.
    destruct (IH (S s) (set_nth v p s) nd') as [h1 [h2 h3]].
    { intros i ii; rewrite set_nth_length; apply lt; now right. }
    rewrite set_nth_length in h1. split; [exact h1|]. split.
    + intros [|j] i e.
      * injection e as ->. rewrite h3 by exact ni. rewrite set_nth_get by (apply lt; now left). rewrite Nat.eqb_refl; f_equal; lia.
      * rewrite (h2 j i e). f_equal; lia.
    + intros i h. rewrite h3 by tauto. rewrite set_nth_get by (apply lt; now left).
      destruct (Nat.eqb_spec i p) as [->|ne]; [tauto|reflexivity].
Qed.
Lemma invert_spec n ix : Permutation ix (seq 0 n) ->
  length (invert ix) = n /\ (forall j i, nth_error ix j = Some i -> nth_error (invert ix) i = Some j) /\
  (forall i, i < n -> exists j, nth_error (invert ix) i = Some j /\ nth_error ix j = Some i).
Proof.
  intros P. assert (ln : length ix = n) by (now rewrite (Permutation_length P), seq_length).
  assert (nd : NoDup ix) by (apply (Permutation_NoDup (Permutation_sym P)), seq_NoDup).
  destruct (invert_spec_gen ix 0 (repeat 0 (length ix)) nd) as [h1 [h2 h3]].
  { intros i h; rewrite repeat_length, ln. apply (Permutation_in _ P), in_seq in h; lia. }
  fold (invert ix) in h1, h2, h3. rewrite repeat_length, ln in h1. split; [exact h1|]. split; [exact h2|].
  intros i lt. assert (ii : In i ix) by (apply (Permutation_in _ (Permutation_sym P)), in_seq; lia).
  apply In_nth_error in ii; destruct ii as [j e]. exists j; split; [now apply h2|exact e].
Qed.
Lemma picks_nth {X} ix (a l : list X) : picks ix a l -> length l = length ix /\ forall j i, nth_error ix j = Some i -> nth_error l j = nth_error a i.
Proof.
  induction 1 as [|i x ix l e p [h1 h2]]; simpl; [split; [reflexivity|intros [|j] i; discriminate]|].
  split; [now rewrite h1|]. intros [|j] i' e'; simpl in *; [injection e' as <-; now rewrite e|now apply h2].
Qed.
Lemma take_all {X} (a : list X) ix : (forall i, In i ix -> i < length a) -> exists l, take_idx a ix = Ok l.
Proof.
  induction ix as [|i ix IH]; intros h; [now exists []|].
  destruct IH as [l e]; [intros j ij; apply h; now right|].
  assert (lt := h i (or_introl eq_refl)). apply nth_error_Some in lt. destruct (nth_error a i) as [x|] eqn:E; [|easy].
  exists (x :: l). unfold take_idx in *; simpl; now rewrite E, e.
Qed.
Lemma nth_ext_err {X} (a b : list X) : length a = length b -> (forall i, i < length a -> nth_error a i = nth_error b i) -> a = b.
Proof.
  revert b; induction a as [|x a IH]; intros [|y b] h k; try discriminate; [reflexivity|].
  assert (e := k 0); simpl in e; injection e as ->; [|lia]. f_equal. apply IH; [now injection h|].
  intros i lt; apply (k (S i)); simpl; lia.
Qed.
Lemma permute_back {X} n ix (a l : list X) : Permutation ix (seq 0 n) -> length a = n ->
  take_idx a ix = Ok l -> take_idx l (invert ix) = Ok a.
Proof.
  intros P la h. destruct (invert_spec n ix P) as [h1 [h2 h3]].
  apply take_idx_picks in h; apply picks_nth in h; destruct h as [l1 l2].
  assert (ln : length ix = n) by (now rewrite (Permutation_length P), seq_length).
  destruct (take_all l (invert ix)) as [r e].
  { intros i ii; apply In_nth_error in ii; destruct ii as [k ek].
    assert (kn : k < n) by (rewrite <- h1; apply nth_error_Some; congruence).
    destruct (h3 k kn) as [j [e1 e2]]. rewrite ek in e1; injection e1 as ->.
    rewrite l1; apply nth_error_Some; congruence. }
  rewrite e. apply take_idx_picks in e; apply picks_nth in e; destruct e as [r1 r2].
  f_equal; apply nth_ext_err; [lia|]. intros i lt. rewrite r1, h1 in lt.
  destruct (h3 i lt) as [j [e1 e2]]. rewrite (r2 i j e1). now apply l2.
Qed.
Lemma permute_forth {X} n ix (a l : list X) : Permutation ix (seq 0 n) -> length a = n ->
  take_idx a (invert ix) = Ok l -> take_idx l ix = Ok a.
Proof.
  intros P la h. destruct (invert_spec n ix P) as [h1 [h2 h3]].
  apply take_idx_picks in h; apply picks_nth in h; destruct h as [l1 l2].
  assert (ln : length ix = n) by (now rewrite (Permutation_length P), seq_length).
  destruct (take_all l ix) as [r e].
  { intros i ii; apply (Permutation_in _ P), in_seq in ii; lia. }
  rewrite e. apply take_idx_picks in e; apply picks_nth in e; destruct e as [r1 r2].
  f_equal; apply nth_ext_err; [lia|]. intros j lt.
  destruct (nth_error ix j) as [i|] eqn:E; [|apply nth_error_None in E; lia].
  rewrite (r2 j i E), (l2 i j (h2 j i E)). reflexivity.
Qed.

(** ** Public arrays *)
Section Public.
Context {T A D : Type}.
Variable le : T -> T -> bool.
Variable nz : list D -> bool.
Hypothesis total : forall a b, le a b = true \/ le b a = true.
Hypothesis trans : forall a b c, le a b = true -> le b c = true -> le a c = true.
Notation key := (fun a b => le (fst a) (fst b)).
Notation psr := (psr T A D).

(** The index attributes are those [sort_data] computes. *)
Definition consistent (p : psr) : Prop := sort_data le p = p.
(** Every array that [filter_data] treats has one entry per TOA, and the rows
    of the design matrix have one length. *)
Definition sized (p : psr) : Prop :=
  let n := length (p_toas p) in
  length (p_toaerrs p) = n /\ length (p_residuals p) = n /\ length (p_ssbfreqs p) = n /\ length (p_dmat p) = n /\
  (forall k f, In (k, f) (p_flags p) -> length (fl_vals f) = n) /\
  (forall a, p_planetssb p = Some a -> length a = n) /\
  (exists w, forall r, In r (p_dmat p) -> length r = w).
(** The other arrays with one entry per TOA. *)
Definition sized_rest (p : psr) : Prop :=
  let n := length (p_toas p) in
  length (p_stoas p) = n /\ length (p_telescope p) = n /\ length (p_pos_t p) = n /\
  (forall a, p_sunssb p = Some a -> length a = n).

Definition ordered {X} (p : psr) (a : list X) : list X :=
  if p_sort p then map snd (isort key (combine (p_toas p) a)) else a.
Lemma isort_cons p : consistent p -> p_isort p = if p_sort p then Some (argsort le (p_toas p)) else None.
Proof. intros <-; reflexivity. Qed.
Lemma iisort_cons p : consistent p -> p_iisort p = if p_sort p then Some (invert (argsort le (p_toas p))) else None.
Proof. intros <-; reflexivity. Qed.
Lemma public {X} p (a : list X) : consistent p -> length a = length (p_toas p) -> at_idx a (p_isort p) = Ok (ordered p a).
Proof.
  intros c h. rewrite (isort_cons p c). unfold ordered. destruct (p_sort p); [|reflexivity].
  simpl. now apply argsort_pairs.
Qed.
Lemma ordered_length {X} p (a : list X) : length a = length (p_toas p) -> length (ordered p a) = length (p_toas p).
Proof.
  intros h; unfold ordered; destruct (p_sort p); [|exact h].
  rewrite map_length, (Permutation_length (isort_perm _ _)), combine_length; lia.
Qed.
Lemma ordered_perm {X} p (a : list X) : length a = length (p_toas p) -> Permutation (ordered p a) a.
Proof.
  intros h; unfold ordered; destruct (p_sort p); [|reflexivity].
  rewrite (isort_perm _ _). now rewrite combine_map_snd.
Qed.
Lemma combine_self {X} (ts : list T) (a : list X) : length a = length ts -> combine ts ts = map (fun tx => (fst tx, fst tx)) (combine ts a).
Proof. revert a; induction ts as [|t ts IH]; intros [|x a] h; try discriminate; simpl; [reflexivity|]. f_equal; apply IH; now injection h. Qed.
Lemma ordered_toas {X} p (a : list X) : length a = length (p_toas p) -> p_sort p = true ->
  ordered p (p_toas p) = map fst (isort key (combine (p_toas p) a)).
Proof.
  intros h s; unfold ordered; rewrite s, (combine_self _ a h), (isort_map key key (fun tx => (fst tx, fst tx))) by reflexivity.
  now rewrite map_map.
Qed.
Lemma combine_filter {X} (P : T -> bool) (ts : list T) (a : list X) : length a = length ts ->
  combine (filter P ts) (select (map P ts) a) = filter (fun tx => P (fst tx)) (combine ts a).
Proof.
  unfold select; revert a; induction ts as [|t ts IH]; intros [|x a] h; try discriminate; simpl; [reflexivity|].
  injection h as h. destruct (P t); simpl; now rewrite IH.
Qed.
Lemma select_self (P : T -> bool) ts : select (map P ts) ts = filter P ts.
Proof. unfold select; induction ts as [|t ts IH]; simpl; [reflexivity|]. destruct (P t); simpl; now rewrite IH. Qed.
Lemma select_length (P : T -> bool) ts {X} (a : list X) : length a = length ts -> length (select (map P ts) a) = length (filter P ts).
Proof.
  unfold select; revert a; induction ts as [|t ts IH]; intros [|x a] h; try discriminate; simpl; [reflexivity|].
  injection h as h. destruct (P t); simpl; now rewrite IH.
Qed.
(** Ordering and selecting commute. *)
Lemma ordered_select {X} (P : T -> bool) p p' (a : list X) : length a = length (p_toas p) ->
  p_sort p' = p_sort p -> p_toas p' = filter P (p_toas p) ->
  ordered p' (select (map P (p_toas p)) a) = select (map P (ordered p (p_toas p))) (ordered p a).
Proof.
  intros h s t. destruct (p_sort p) eqn:S.
  - rewrite (ordered_toas p a h S). unfold ordered at 2; rewrite S. rewrite select_map.
    unfold ordered; rewrite s, t, combine_filter by exact h.
    rewrite (isort_filter key) by (intros; eauto). reflexivity.
  - unfold ordered; now rewrite s, S.
Qed.
Lemma mask_ok {X} (P : T -> bool) ts (a : list X) : length a = length ts -> mask_idx a (map P ts) = Ok (select (map P ts) a).
Proof. intros h; unfold mask_idx; rewrite map_length, h, Nat.eqb_refl. reflexivity. Qed.

(** *** Sorting *)
Lemma sort_data_consistent p : consistent (sort_data le p).
Proof. reflexivity. Qed.
Lemma public_length_ordered {X} p (a : list X) : consistent p -> length a = length (p_toas p) -> p_sort p = true ->
  exists ts, at_idx (p_toas p) (p_isort p) = Ok ts /\ StronglySorted (fun x y => le x y = true) ts.
Proof.
  intros c h s. exists (ordered p (p_toas p)); split; [now apply public|].
  rewrite (ordered_toas p a h s). 
  assert (q : StronglySorted (fun x y => le (fst x) (fst y) = true) (isort key (combine (p_toas p) a))) by (apply isort_sorted; intros; eauto).
  induction q as [|x l q IH f]; simpl; constructor; [exact IH|]. rewrite Forall_map; exact f.
Qed.

(** *** Filtering *)
Definition within (bounds : option (option T * option T)) (t : T) : bool :=
  match bounds with Some (Some a, Some b) => le a t && le t b | _ => true end.
Definition given (bounds : option (option T * option T)) : Prop :=
  bounds = None \/ exists a b, bounds = Some (Some a, Some b).
Definition kept (rows : list (list D)) (w : nat) : list bool := map (fun j => nz (column rows j)) (seq 0 w).

Definition filtered bounds (p : psr) : psr :=
  let P := within bounds in
  let m := map P (p_toas p) in
  let rows := select m (p_dmat p) in
  sort_data le (Psr (p_sort p) (filter P (p_toas p)) (select m (p_toaerrs p)) (select m (p_residuals p)) (select m (p_ssbfreqs p))
    (map (select (kept rows (width_of (p_dmat p)))) rows) (p_flags_array p)
    (map (fun kf => (fst kf, Flag (fl_width (snd kf)) (select m (fl_vals (snd kf))))) (p_flags p))
    (option_map (fun a => select m (ordered p a)) (p_planetssb p))
    (p_stoas p) (p_telescope p) (p_pos_t p) (p_sunssb p) (p_fitpars p) (p_isort p) (p_iisort p)).
Lemma rmapM_map {X Y} (f : X -> result Y) (g : X -> Y) l : (forall x, In x l -> f x = Ok (g x)) -> rmapM f l = Ok (map g l).
Proof.
  induction l as [|x l IH]; intros h; simpl; [reflexivity|]. rewrite (h x (or_introl eq_refl)); simpl.
  rewrite IH; [reflexivity|]. intros y i; apply h; now right.
Qed.
Lemma filter_dataE bounds p : given bounds -> sized p -> consistent p -> filter_data le nz bounds p = Ok (filtered bounds p).
Proof.
  intros g [s1 [s2 [s3 [s4 [s5 [s6 s7]]]]]] c.
  unfold filter_data.
  assert (m : (match bounds with
         | None => Ok (map (fun _ => true) (p_toas p))
         | Some (Some a, Some b) => Ok (map (fun t => le a t && le t b) (p_toas p))
         | Some _ => Err TypeError
         end) = Ok (map (within bounds) (p_toas p))).
  { destruct g as [->|[a [b ->]]]; reflexivity. }
  rewrite m; clear m. cbn [rbind].
  rewrite !mask_ok by assumption || reflexivity. cbn [rbind].
  rewrite (rmapM_map _ (fun kf => (fst kf, Flag (fl_width (snd kf)) (select (map (within bounds) (p_toas p)) (fl_vals (snd kf)))))).
  2:{ intros [k f] i; simpl. rewrite mask_ok by (now apply (s5 k f)). reflexivity. }
  cbn [rbind]. unfold filtered. rewrite select_self.
  destruct (p_planetssb p) as [a|] eqn:E; cbn [option_map].
  - unfold planetssb; rewrite E, (public p a c (s6 a eq_refl)); cbn [rbind].
    rewrite mask_ok by (now apply ordered_length, s6). reflexivity.
  - reflexivity.
Qed.
Lemma dget_map {V W} (f : V -> W) (d : list (string * V)) k :
  dget string_dec (map (fun kv => (fst kv, f (snd kv))) d) k = option_map f (dget string_dec d k).
Proof. induction d as [|[q v] d IH]; simpl; [reflexivity|]. destruct (string_dec k q); [reflexivity|exact IH]. Qed.
End Public.

(** ** Statements *)
(** The order of times: total and transitive. *)
Definition order {T} (le : T -> T -> bool) : Prop :=
  (forall a b, le a b = true \/ le b a = true) /\ (forall a b c, le a b = true -> le b c = true -> le a c = true).

(** C77 *)
Definition one_permutation {T A D} (ix : list nat) (p p' : psr T A D) : Prop :=
  (forall l, toas p' = Ok l <-> picks ix (p_toas p) l) /\
  (forall l, toaerrs p' = Ok l <-> picks ix (p_toaerrs p) l) /\
  (forall l, residuals p' = Ok l <-> picks ix (p_residuals p) l) /\
  (forall l, freqs p' = Ok l <-> picks ix (p_ssbfreqs p) l) /\
  (forall l, Mmat p' = Ok l <-> picks ix (p_dmat p) l) /\
  (forall l, stoas p' = Ok l <-> picks ix (p_stoas p) l) /\
  (forall l, telescope p' = Ok l <-> picks ix (p_telescope p) l) /\
  (forall l, pos_t p' = Ok l <-> picks ix (p_pos_t p) l) /\
  (forall a l, p_planetssb p = Some a -> planetssb p' = Ok l <-> picks ix a l) /\
  (forall a l, p_sunssb p = Some a -> sunssb p' = Ok l <-> picks ix a l) /\
  (forall k f l, dget string_dec (p_flags p) k = Some f -> flag_vals p' k = Ok l <-> picks ix (fl_vals f) l).
Lemma sort_data_permutes_lem : forall T A D (le : T -> T -> bool), order le -> forall p : psr T A D, p_sort p = true ->
  let p' := sort_data le p in let n := length (p_toas p) in
  exists ix iix, p_isort p' = Some ix /\ p_iisort p' = Some iix /\ Permutation ix (seq 0 n) /\
    one_permutation ix p p' /\
    StronglySorted (fun i j => forall x y, nth_error (p_toas p) i = Some x -> nth_error (p_toas p) j = Some y ->
      le x y = true /\ (le y x = true -> i < j)) ix /\
    (exists l, toas p' = Ok l /\ StronglySorted (fun x y => le x y = true) l) /\
    (forall X (a : list X), length a = n -> exists l, at_idx a (p_isort p') = Ok l /\ at_idx l (p_iisort p') = Ok a) /\
    (forall X (a : list X), length a = n -> exists l, at_idx a (p_iisort p') = Ok l /\ at_idx l (p_isort p') = Ok a).
Proof.
  intros T A D le [tot tr] p s p' n.
  exists (argsort le (p_toas p)), (invert (argsort le (p_toas p))).
  assert (P := argsort_perm le (p_toas p)). fold n in P.
  assert (I : p_isort p' = Some (argsort le (p_toas p))) by (unfold p'; cbn; now rewrite s).
  assert (J : p_iisort p' = Some (invert (argsort le (p_toas p)))) by (unfold p'; cbn; now rewrite s).
  split; [exact I|]. split; [exact J|]. split; [exact P|].
  split; [|split; [now apply argsort_stable|split; [|split]]].
  - unfold one_permutation, toas, toaerrs, residuals, freqs, Mmat, stoas, telescope, pos_t, planetssb, sunssb, flag_vals.
    rewrite I. unfold fget, dgetE. cbn [p' sort_data at_idx p_toas p_toaerrs p_residuals p_ssbfreqs p_dmat p_stoas p_telescope p_pos_t p_planetssb p_sunssb p_flags].
    do 8 (split; [intros; apply take_idx_picks|]).
    split; [intros a l ->; apply take_idx_picks|]. split; [intros a l ->; apply take_idx_picks|].
    intros k f l ->. cbn [rbind]. apply take_idx_picks.
  - apply (public_length_ordered le tot tr p' (p_toas p)); [reflexivity|reflexivity|exact s].
  - intros X a la. rewrite I, J; cbn [at_idx]. destruct (take_all a (argsort le (p_toas p))) as [l e].
    { intros i ii; apply (Permutation_in _ P), in_seq in ii. lia. }
    exists l; split; [exact e|]. now apply (permute_back n _ a l).
  - intros X a la. rewrite I, J; cbn [at_idx].
    destruct (invert_spec n _ P) as [h1 [h2 h3]].
    destruct (take_all a (invert (argsort le (p_toas p)))) as [l e].
    { intros i ii; apply In_nth_error in ii; destruct ii as [k ek].
      assert (kn : k < n) by (rewrite <- h1; apply nth_error_Some; congruence).
      destruct (h3 k kn) as [j [e1 e2]]. rewrite ek in e1; injection e1 as <-.
      assert (jl : i < length (argsort le (p_toas p))) by (apply nth_error_Some; congruence).
      rewrite (Permutation_length P), seq_length in jl. lia. }
    exists l; split; [exact e|]. now apply (permute_forth n _ a l).
Qed.
Lemma sort_data_unsorted_lem : forall T A D (le : T -> T -> bool) (p : psr T A D), p_sort p = false ->
  let p' := sort_data le p in
  toas p' = Ok (p_toas p) /\ toaerrs p' = Ok (p_toaerrs p) /\ residuals p' = Ok (p_residuals p) /\ freqs p' = Ok (p_ssbfreqs p) /\
  Mmat p' = Ok (p_dmat p) /\ stoas p' = Ok (p_stoas p) /\ telescope p' = Ok (p_telescope p) /\ pos_t p' = Ok (p_pos_t p) /\
  (forall X (a : list X), at_idx a (p_isort p') = Ok a /\ at_idx a (p_iisort p') = Ok a).
Proof.
  intros T A D le p s p'. unfold p', toas, toaerrs, residuals, freqs, Mmat, stoas, telescope, pos_t; cbn; rewrite s. cbn.
  repeat split; reflexivity.
Qed.
(** Stored data, and a second sorting, do not change. *)
Lemma sort_data_stored_lem : forall T A D (le : T -> T -> bool) (p : psr T A D),
  let p' := sort_data le p in
  sort_data le p' = p' /\ p_toas p' = p_toas p /\ p_toaerrs p' = p_toaerrs p /\ p_residuals p' = p_residuals p /\
  p_ssbfreqs p' = p_ssbfreqs p /\ p_dmat p' = p_dmat p /\ p_flags p' = p_flags p /\ p_planetssb p' = p_planetssb p.
Proof. intros; repeat split. Qed.

(** C78 *)
Fixpoint keeping {X} (m : list bool) (l : list X) : list X :=
  match m, l with b :: m', x :: l' => if b then x :: keeping m' l' else keeping m' l' | _, _ => [] end.
Lemma select_keeping {X} m (l : list X) : select m l = keeping m l.
Proof. unfold select; revert m; induction l as [|x l IH]; intros [|b m]; simpl; try reflexivity. destruct b; simpl; now rewrite IH. Qed.
Definition follows {X} (m : list bool) (r r' : result (list X)) : Prop := exists l, r = Ok l /\ r' = Ok (keeping m l).
Definition sum_test {D} (nz : list D -> bool) : Prop := forall l l', Permutation l l' -> nz l = nz l'.
Definition in_order {T A D} (le : T -> T -> bool) (p : psr T A D) : Prop :=
  p_sort p = false \/ StronglySorted (fun x y => le x y = true) (p_toas p).

Section Filter.
Context {T A D : Type}.
Variable le : T -> T -> bool.
Variable nz : list D -> bool.
Hypothesis total : forall a b, le a b = true \/ le b a = true.
Hypothesis trans : forall a b c, le a b = true -> le b c = true -> le a c = true.
Hypothesis nzp : sum_test nz.
Notation key := (fun a b => le (fst a) (fst b)).
Notation psr := (psr T A D).
Variables (bounds : option (option T * option T)) (p : psr).
Hypothesis (g : given bounds) (sz : sized p) (c : consistent le p).
Notation P := (within le bounds).
Notation p' := (filtered le nz bounds p).
Lemma follows_gen {X} (a : list X) : length a = length (p_toas p) ->
  follows (map P (ordered le p (p_toas p))) (at_idx a (p_isort p)) (at_idx (select (map P (p_toas p)) a) (p_isort p')).
Proof.
  intros h. exists (ordered le p a). split; [now apply public|].
  rewrite (public le p') ; [|reflexivity|now apply select_length].
  rewrite (ordered_select le total trans P p p') by (assumption || reflexivity). now rewrite select_keeping.
Qed.
Lemma ordered_map {X Y} (f : X -> Y) (q : psr) a : ordered le q (map f a) = map f (ordered le q a).
Proof.
  unfold ordered; destruct (p_sort q); [|reflexivity].
  assert (e : combine (p_toas q) (map f a) = map (fun tx => (fst tx, f (snd tx))) (combine (p_toas q) a)).
  { generalize (p_toas q) as ts; intros ts; revert a; induction ts as [|t ts IH]; intros [|x a]; simpl; try reflexivity. now rewrite IH. }
  rewrite e, (isort_map key key (fun tx => (fst tx, f (snd tx)))) by reflexivity. now rewrite !map_map.
Qed.
Lemma column_col rows j (col : list D) : map (fun r => nth_error r j) rows = map Some col -> column rows j = col.
Proof.
  revert col; induction rows as [|r rows IH]; intros [|x col] h; try discriminate; [reflexivity|].
  injection h as h1 h2. unfold column in *; simpl. rewrite h1; simpl. now rewrite (IH col).
Qed.
Lemma in_select {X} m (l : list X) x : In x (select m l) -> In x l.
Proof.
  unfold select; rewrite in_map_iff; intros [[y b] [<- h]]. apply filter_In in h. now apply proj1, in_combine_l in h.
Qed.
Lemma design_gen : exists rows keep, Mmat p = Ok rows /\
  Mmat p' = Ok (map (keeping keep) (keeping (map P (ordered le p (p_toas p))) rows)) /\
  (forall r, In r rows -> length keep = length r) /\
  (forall j col, map (fun r => nth_error r j) (keeping (map P (ordered le p (p_toas p))) rows) = map Some col -> j < length keep ->
     nth_error keep j = Some (nz col)).
Proof.
  destruct sz as [s1 [s2 [s3 [s4 [s5 [s6 [w s7]]]]]]].
  set (rows := ordered le p (p_dmat p)). set (m := map P (p_toas p)).
  set (keep := kept nz (select m (p_dmat p)) (width_of (p_dmat p))).
  assert (wd : forall r, In r rows -> length keep = length r).
  { intros r i. apply (Permutation_in _ (ordered_perm le p _ s4)) in i. rewrite (s7 r i). unfold keep, kept; rewrite map_length, seq_length.
    destruct (p_dmat p) as [|r0 d]; [destruct i|]. apply s7; now left. }
  exists rows, keep. split; [now apply public|]. split; [|split; [exact wd|]].
  - unfold Mmat. change (p_dmat p') with (map (select keep) (select m (p_dmat p))).
    rewrite (public le p'); [|reflexivity|rewrite map_length; now apply select_length].
    rewrite ordered_map. unfold m. rewrite (ordered_select le total trans P p p') by (assumption || reflexivity).
    f_equal. rewrite select_keeping. apply map_ext; intros r; apply select_keeping.
  - intros j col e lt. unfold keep, kept in *; rewrite map_length, seq_length in lt.
    rewrite (map_nth_error _ j _ (d := j)).
    2:{ rewrite (nth_error_nth' _ 0) by now rewrite seq_length. now rewrite seq_nth. }
    f_equal. rewrite <- (column_col _ _ _ e). apply nzp. unfold column. apply Permutation_flat_map.
    rewrite <- select_keeping. unfold rows, m. rewrite <- (ordered_select le total trans P p p') by (assumption || reflexivity).
    symmetry. apply ordered_perm. now apply select_length.
Qed.
Lemma sorted_pairs {X} (a : list X) : StronglySorted (fun x y => le x y = true) (p_toas p) -> length a = length (p_toas p) ->
  isort key (combine (p_toas p) a) = combine (p_toas p) a.
Proof.
  intros s h. apply isort_id. revert a h; induction s as [|t ts s IH f]; intros [|x a] h; try discriminate; simpl; constructor.
  - apply IH; now injection h.
  - rewrite Forall_forall in f |- *. intros [u y] i; apply in_combine_l in i. now apply f.
Qed.
Lemma in_order_ordered {X} (a : list X) : in_order le p -> length a = length (p_toas p) -> ordered le p a = a.
Proof.
  intros [s|s] h; unfold ordered; [now rewrite s|]. destruct (p_sort p); [|reflexivity].
  rewrite sorted_pairs by assumption. now apply combine_map_snd.
Qed.
Lemma filtered_sized : sized p'.
Proof.
  destruct sz as [s1 [s2 [s3 [s4 [s5 [s6 [w s7]]]]]]].
  unfold sized. cbn [filtered sort_data p_toas p_toaerrs p_residuals p_ssbfreqs p_dmat p_flags p_planetssb].
  rewrite map_length. do 4 (split; [now apply select_length|]). split.
  - intros k f i. apply in_map_iff in i. destruct i as [[k' f'] [[= <- <-] i]]. cbn. apply select_length, (s5 k' f' i).
  - split.
    + intros a e. destruct (p_planetssb p) as [b|] eqn:E; [|discriminate]. injection e as <-.
      apply select_length, ordered_length. now apply s6.
    + set (keep := kept _ _ _). exists (length (filter id keep)). intros r i. apply in_map_iff in i.
      destruct i as [r0 [<- i]]. apply in_select in i. apply s7 in i.
      assert (lk : length keep = length r0 \/ p_dmat p = []).
      { unfold keep, kept; rewrite map_length, seq_length. destruct (p_dmat p) as [|r1 d]; [now right|]. left; simpl. rewrite i; apply s7; now left. }
      destruct lk as [lk|n].
      * rewrite select_keeping. clearbody keep. clear -lk. revert r0 lk; induction keep as [|b keep IH]; intros [|x r0] h; try discriminate; [reflexivity|].
        injection h as h; simpl; destruct b; simpl; now rewrite IH.
      * (* no rows *) unfold keep, kept; rewrite n; simpl. rewrite select_keeping. reflexivity.
Qed.
End Filter.
Lemma keep_index keep : forall j, j < length (filter id keep) -> exists i, nth_error keep i = Some true /\
  forall X (r : list X), length r = length keep -> nth_error (keeping keep r) j = nth_error r i.
Proof.
  induction keep as [|b keep IH]; intros j h; [simpl in h; lia|]. destruct b; simpl in h.
  - destruct j as [|j].
    + exists 0; split; [reflexivity|]. intros X [|x r] e; [discriminate|reflexivity].
    + destruct (IH j) as [i [h1 h2]]; [unfold id in *; lia|]. exists (S i); split; [exact h1|].
      intros X [|x r] e; [discriminate|]. simpl. apply h2; now injection e.
  - destruct (IH j h) as [i [h1 h2]]. exists (S i); split; [exact h1|].
    intros X [|x r] e; [discriminate|]. simpl. apply h2; now injection e.
Qed.
Lemma keeping_length {X} keep (r : list X) : length r = length keep -> length (keeping keep r) = length (filter id keep).
Proof.
  revert r; induction keep as [|b keep IH]; intros [|x r] h; try discriminate; [reflexivity|].
  injection h as h; simpl; destruct b; simpl; now rewrite IH.
Qed.
Lemma keeping_all {X} keep (r : list X) : length r = length keep -> (forall j, j < length keep -> nth_error keep j = Some true) -> keeping keep r = r.
Proof.
  revert r; induction keep as [|b keep IH]; intros [|x r] h k; try discriminate; [reflexivity|].
  assert (e := k 0); simpl in e; injection e as ->; [|lia]. simpl; f_equal; apply IH; [now injection h|].
  intros j lt; apply (k (S j)); simpl; lia.
Qed.
Lemma column_ext {D} (rows : list (list D)) (f : list D -> list D) j i : (forall r, In r rows -> nth_error (f r) j = nth_error r i) ->
  column (map f rows) j = column rows i.
Proof.
  unfold column; induction rows as [|r rows IH]; intros h; simpl; [reflexivity|].
  rewrite h by now left. rewrite IH; [reflexivity|]. intros s k; apply h; now right.
Qed.
Lemma filter_filter {X} (P : X -> bool) l : filter P (filter P l) = filter P l.
Proof. induction l as [|x l IH]; simpl; [reflexivity|]. destruct (P x) eqn:E; simpl; now rewrite ?E, IH. Qed.
Lemma select_true {X Y} (P : Y -> bool) ks (a : list X) : length a = length (filter P ks) -> select (map P (filter P ks)) a = a.
Proof.
  intros h. rewrite select_keeping. apply keeping_all; [now rewrite map_length|].
  intros j lt; rewrite map_length in lt. apply nth_error_Some in lt. destruct (nth_error (filter P ks) j) as [k|] eqn:E; [|easy].
  rewrite (map_nth_error _ _ _ E). apply nth_error_In, filter_In in E. f_equal; apply E.
Qed.
Lemma filter_sorted {X} (le : X -> X -> bool) P l : StronglySorted (fun x y => le x y = true) l -> StronglySorted (fun x y => le x y = true) (filter P l).
Proof.
  induction 1 as [|x l s IH f]; simpl; [constructor|]. destruct (P x); [|exact IH]. constructor; [exact IH|].
  rewrite Forall_forall in f |- *. intros y i; apply filter_In in i; now apply f.
Qed.

Section Again.
Context {T A D : Type}.
Variable le : T -> T -> bool.
Variable nz : list D -> bool.
Hypothesis total : forall a b, le a b = true \/ le b a = true.
Hypothesis trans : forall a b c, le a b = true -> le b c = true -> le a c = true.
Notation psr := (psr T A D).
Variables (bounds : option (option T * option T)) (p : psr).
Hypothesis (sz : sized p) (c : consistent le p).
Notation P := (within le bounds).
Lemma filtered_again : p_planetssb p = None \/ in_order le p ->
  filtered le nz bounds (filtered le nz bounds p) = filtered le nz bounds p.
Proof.
  intros o. assert (sz' := filtered_sized le nz bounds p sz).
  destruct sz as [s1 [s2 [s3 [s4 [s5 [s6 [w s7]]]]]]]. destruct sz' as [z1 [z2 [z3 [z4 [z5 [z6 z7]]]]]].
  set (q := filtered le nz bounds p) in *. unfold filtered at 1.
  set (m := map P (p_toas q)).
  assert (tq : p_toas q = filter P (p_toas p)) by reflexivity.
  assert (sel : forall X (a : list X), length a = length (p_toas q) -> select m a = a).
  { intros X a h. unfold m. rewrite tq in *. now apply select_true. }
  assert (D1 : map (select (kept nz (select m (p_dmat q)) (width_of (p_dmat q)))) (select m (p_dmat q)) = p_dmat q).
  { rewrite (sel _ (p_dmat q)) by exact z4.
    set (rows := select (map P (p_toas p)) (p_dmat p)). set (keep := kept nz rows (width_of (p_dmat p))).
    assert (dq : p_dmat q = map (select keep) rows) by reflexivity.
    assert (wr : forall r, In r rows -> length r = length keep).
    { intros r i. apply in_select in i. unfold keep, kept; rewrite map_length, seq_length, (s7 r i).
      destruct (p_dmat p) as [|r1 d]; [destruct i|]. symmetry; apply s7; now left. }
    rewrite dq. etransitivity; [|apply map_id]. apply map_ext_in. intros r' i'.
    apply in_map_iff in i'; destruct i' as [r [<- i]].
    rewrite (select_keeping keep r), select_keeping.
    assert (wq : width_of (map (select keep) rows) = length (filter id keep)).
    { destruct rows as [|r0 rs]; [destruct i|]. simpl. rewrite select_keeping. apply keeping_length, wr. now left. }
    apply keeping_all.
    - rewrite keeping_length by now apply wr. unfold kept; now rewrite map_length, seq_length, wq.
    - intros j lt. unfold kept in lt; rewrite map_length, seq_length, wq in lt. destruct (keep_index keep j lt) as [k [h1 h2]].
      unfold kept. rewrite (map_nth_error _ j _ (d := j)).
      2:{ rewrite (nth_error_nth' _ 0) by (rewrite seq_length, wq; exact lt). rewrite seq_nth by (rewrite wq; exact lt). reflexivity. }
      f_equal. rewrite (column_ext rows (select keep) j k).
      + unfold keep, kept in h1. assert (kl : k < width_of (p_dmat p)).
        { assert (k < length (map (fun j => nz (column rows j)) (seq 0 (width_of (p_dmat p))))) by (apply nth_error_Some; congruence).
          now rewrite map_length, seq_length in H. }
        rewrite (map_nth_error _ k _ (d := k)) in h1.
        2:{ rewrite (nth_error_nth' _ 0) by now rewrite seq_length. now rewrite seq_nth. }
        now injection h1.
      + intros r0 i0. rewrite select_keeping. apply h2. now apply wr. }
  rewrite D1.
  rewrite (sel _ (p_toaerrs q)), (sel _ (p_residuals q)), (sel _ (p_ssbfreqs q)) by assumption.
  assert (F : map (fun kf => (fst kf, Flag (fl_width (snd kf)) (select m (fl_vals (snd kf))))) (p_flags q) = p_flags q).
  { etransitivity; [|apply map_id]. apply map_ext_in. intros [k [fw fv]] i. cbn [fst snd fl_width fl_vals]. rewrite (sel _ fv); [reflexivity|]. apply (z5 _ _ i). }
  rewrite F.
  assert (PL : option_map (fun a => select m (ordered le q a)) (p_planetssb q) = p_planetssb q).
  { destruct o as [n|o].
    - change (p_planetssb q) with (option_map (fun a => select (map P (p_toas p)) (ordered le p a)) (p_planetssb p)). now rewrite n.
    - destruct (p_planetssb q) as [a|] eqn:E; [|reflexivity]. simpl. f_equal.
      rewrite (in_order_ordered le q a); [|destruct o as [o|o]; [now left|right; rewrite tq; now apply filter_sorted]|now apply z6].
      now apply sel, z6. }
  rewrite PL, tq, filter_filter. reflexivity.
Qed.
End Again.

Lemma filter_data_aligned_lem : forall T A D (le : T -> T -> bool) (nz : list D -> bool), order le -> sum_test nz ->
  forall bounds (p : psr T A D), given bounds -> sized p -> consistent le p ->
  exists ts p', toas p = Ok ts /\ filter_data le nz bounds p = Ok p' /\
  let m := map (within le bounds) ts in
  follows m (toas p) (toas p') /\ follows m (toaerrs p) (toaerrs p') /\ follows m (residuals p) (residuals p') /\
  follows m (freqs p) (freqs p') /\
  (forall k, (exists f, dget string_dec (p_flags p) k = Some f) -> follows m (flag_vals p k) (flag_vals p' k)) /\
  (forall k, flag_vals p k = Err KeyError -> flag_vals p' k = Err KeyError) /\
  (exists rows keep, Mmat p = Ok rows /\ Mmat p' = Ok (map (keeping keep) (keeping m rows)) /\
    (forall r, In r rows -> length keep = length r) /\
    (forall j col, map (fun r => nth_error r j) (keeping m rows) = map Some col -> j < length keep -> nth_error keep j = Some (nz col))) /\
  (in_order le p -> p_planetssb p <> None -> follows m (planetssb p) (planetssb p')) /\
  consistent le p' /\ sized p'.
Proof.
  intros T A D le nz [tot tr] sp bounds p g sz c.
  assert (sz0 := sz). destruct sz0 as [s1 [s2 [s3 [s4 [s5 [s6 s7]]]]]].
  exists (ordered le p (p_toas p)), (filtered le nz bounds p).
  split; [now apply public|]. split; [now apply filter_dataE|]. intros m.
  split; [|split; [now apply follows_gen|split; [now apply follows_gen|split; [now apply follows_gen|split; [|split; [|split; [|split; [|split]]]]]]]].
  - unfold toas. change (p_toas (filtered le nz bounds p)) with (filter (within le bounds) (p_toas p)).
    rewrite <- select_self. now apply follows_gen.
  - intros k [f e]. unfold flag_vals, fget, dgetE.
    change (p_flags (filtered le nz bounds p)) with
      (map (fun kf => (fst kf, (fun f => Flag (fl_width f) (select (map (within le bounds) (p_toas p)) (fl_vals f))) (snd kf))) (p_flags p)).
    rewrite dget_map, e. cbn [option_map rbind fl_vals]. apply (follows_gen le nz tot tr bounds p c).
    apply dget_In in e. apply (s5 _ _ e).
  - intros k e. unfold flag_vals, fget, dgetE in *.
    change (p_flags (filtered le nz bounds p)) with
      (map (fun kf => (fst kf, (fun f => Flag (fl_width f) (select (map (within le bounds) (p_toas p)) (fl_vals f))) (snd kf))) (p_flags p)).
    rewrite dget_map. destruct (dget string_dec (p_flags p) k) as [f|] eqn:E; [|reflexivity].
    cbn [rbind] in e. apply dget_In, s5 in E. rewrite (public le) in e by assumption. discriminate.
  - apply design_gen; assumption.
  - intros o n. unfold planetssb.
    change (p_planetssb (filtered le nz bounds p)) with (option_map (fun a => select (map (within le bounds) (p_toas p)) (ordered le p a)) (p_planetssb p)).
    destruct (p_planetssb p) as [a|] eqn:E; [|easy]. cbn [option_map].
    rewrite in_order_ordered by (assumption || now apply s6). apply (follows_gen le nz tot tr bounds p c). now apply s6.
  - reflexivity.
  - now apply filtered_sized.
Qed.
Lemma filter_data_again_lem : forall T A D (le : T -> T -> bool) (nz : list D -> bool), order le ->
  forall bounds (p p' : psr T A D), given bounds -> sized p -> consistent le p ->
  p_planetssb p = None \/ in_order le p ->
  filter_data le nz bounds p = Ok p' -> filter_data le nz bounds p' = Ok p'.
Proof.
  intros T A D le nz [tot tr] bounds p p' g sz c o e.
  rewrite filter_dataE in e by assumption. injection e as <-.
  rewrite filter_dataE; [|assumption|now apply filtered_sized|reflexivity]. f_equal. now apply filtered_again.
Qed.
(** One bound missing. *)
Lemma filter_data_one_bound_lem : forall T A D (le : T -> T -> bool) (nz : list D -> bool) (p : psr T A D) t,
  filter_data le nz (Some (Some t, None)) p = Err TypeError /\ filter_data le nz (Some (None, Some t)) p = Err TypeError.
Proof. intros; split; reflexivity. Qed.

(** Witnesses: times and entries are numbers. *)
Definition nzsum (l : list nat) : bool := negb (Nat.eqb (fold_right Nat.add 0 l) 0).
Lemma nzsum_test : sum_test nzsum.
Proof.
  intros l l' h. unfold nzsum. replace (fold_right Nat.add 0 l') with (fold_right Nat.add 0 l); [reflexivity|].
  induction h; simpl; lia.
Qed.
Lemma leb_order : order Nat.leb.
Proof. split; intros; rewrite ?Nat.leb_le in *; lia. Qed.
Definition wit : psr nat nat nat := sort_data Nat.leb
  (Psr true [3; 1; 2] [30; 10; 20] [31; 11; 21] [32; 12; 22] [[0; 1; 3]; [5; 1; 1]; [0; 1; 2]] false [("f", Flag 2 ["c3"; "c1"; "c2"])]
       (Some [33; 13; 23]) [34; 14; 24] [35; 15; 25] [36; 16; 26] (Some [37; 17; 27]) ["DMX"; "Offset"; "F0"] None None).
Lemma wit_ok : sized wit /\ consistent Nat.leb wit.
Proof.
  split; [|reflexivity]. repeat (split; [reflexivity|]). split; [|split].
  - intros k f [[= <- <-]|[]]. reflexivity.
  - intros a [= <-]; reflexivity.
  - exists 3; intros r [<-|[<-|[<-|[]]]]; reflexivity.
Qed.
Lemma filter_data_other_arrays_refuted_lem : exists (p p' : psr nat nat nat) bounds ts, sized p /\ sized_rest p /\ consistent Nat.leb p /\
  toas p = Ok ts /\ filter_data Nat.leb nzsum bounds p = Ok p' /\
  let m := map (within Nat.leb bounds) ts in
  ~ follows m (stoas p) (stoas p') /\ ~ follows m (telescope p) (telescope p') /\ ~ follows m (pos_t p) (pos_t p') /\
  ~ follows m (sunssb p) (sunssb p') /\ ~ follows m (planetssb p) (planetssb p').
Proof.
  exists wit, (filtered Nat.leb nzsum (Some (Some 2, Some 3)) wit), (Some (Some 2, Some 3)), [1; 2; 3].
  destruct wit_ok as [h1 h2].
  split; [exact h1|]. split.
  { repeat (split; [reflexivity|]). intros a [= <-]; reflexivity. }
  split; [exact h2|]. split; [reflexivity|]. split; [reflexivity|]. intros m.
  repeat split; intros [l [e1 e2]]; vm_compute in e1; injection e1 as <-; vm_compute in e2; discriminate.
Qed.

(** C92: parameter names of the design matrix. *)
Definition labels {T A D} (p : psr T A D) : list string := p_fitpars p.
Lemma filter_data_fitpars_refuted_lem : exists (p p' : psr nat nat nat) bounds rows rows', sized p /\ consistent Nat.leb p /\
  filter_data Nat.leb nzsum bounds p = Ok p' /\ Mmat p = Ok rows /\ Mmat p' = Ok rows' /\
  (forall r, In r rows -> length r = length (p_fitpars p)) /\
  (exists r, In r rows' /\ length r <> length (p_fitpars p')) /\
  nth_error (p_fitpars p') 0 = Some "DMX" /\ nth_error (p_fitpars p) 1 = Some "Offset" /\
  map (fun r => nth_error r 0) rows' = map (fun r => nth_error r 1) (keeping [false; true; true] rows).
Proof.
  exists wit, (filtered Nat.leb nzsum (Some (Some 2, Some 3)) wit), (Some (Some 2, Some 3)), [[5; 1; 1]; [0; 1; 2]; [0; 1; 3]], [[1; 2]; [1; 3]].
  destruct wit_ok as [h1 h2]. split; [exact h1|]. split; [exact h2|]. split; [reflexivity|]. split; [reflexivity|]. split; [reflexivity|].
  split; [intros r [<-|[<-|[<-|[]]]]; reflexivity|]. split; [exists [1; 2]; split; [now left|discriminate]|].
  repeat split.
Qed.
(** If no column vanishes the names stay right. *)
Lemma filter_data_fitpars_lem : forall T A D (le : T -> T -> bool) (nz : list D -> bool), order le -> sum_test nz ->
  forall bounds (p p' : psr T A D) rows rows', given bounds -> sized p -> consistent le p ->
  filter_data le nz bounds p = Ok p' -> Mmat p = Ok rows -> Mmat p' = Ok rows' ->
  p_fitpars p' = p_fitpars p /\
  ((forall ts j col, toas p = Ok ts -> map (fun r => nth_error r j) (keeping (map (within le bounds) ts) rows) = map Some col -> nz col = true) ->
   forall ts, toas p = Ok ts -> rows' = keeping (map (within le bounds) ts) rows).
Proof.
  intros T A D le nz o sp bounds p p' rows rows' g sz c e er er'.
  assert (e0 := e). rewrite filter_dataE in e0 by assumption. injection e0 as e0.
  split; [rewrite <- e0; reflexivity|]. intros h ts et.
  destruct (filter_data_aligned_lem T A D le nz o sp bounds p g sz c) as [ts' [q [h1 [h2 h3]]]].
  rewrite e in h2; injection h2 as <-. rewrite et in h1; injection h1 as <-.
  destruct h3 as [_ [_ [_ [_ [_ [_ [[rows0 [keep [k1 [k2 [k3 k4]]]]] _]]]]]]].
  rewrite er in k1; injection k1 as <-. rewrite er' in k2; injection k2 as ->.
  set (kr := keeping _ rows) in *. etransitivity; [|apply map_id]. apply map_ext_in. intros r i.
  assert (sub : forall r, In r kr -> In r rows).
  { unfold kr; intros r0; rewrite <- select_keeping; apply in_select. }
  apply keeping_all; [symmetry; now apply k3, sub|]. intros j lt.
  assert (ex : exists col, map (fun r => nth_error r j) kr = map Some col).
  { assert (all : forall r, In r kr -> nth_error r j <> None).
    { intros r0 i0. apply nth_error_Some. now rewrite <- (k3 r0 (sub r0 i0)). }
    clear -all. induction kr as [|r kr IH]; [now exists []|]. destruct IH as [col e]; [intros r0 i; apply all; now right|].
    assert (a := all r (or_introl eq_refl)). destruct (nth_error r j) as [x|] eqn:E; [|easy].
    exists (x :: col); simpl; now rewrite E, e. }
  destruct ex as [col ec]. rewrite (k4 j col ec lt). f_equal. now apply (h ts j col et).
Qed.

(** C79 *)
Lemma take_idx_err {X} (a : list X) ix : (exists i, In i ix /\ length a <= i) -> take_idx a ix = Err IndexError.
Proof.
  unfold take_idx; induction ix as [|j ix IH]; intros [i [h lt]]; [destruct h|]. simpl.
  destruct (nth_error a j) as [x|] eqn:E; [|reflexivity]. simpl. destruct h as [->|h].
  - exfalso. assert (i < length a) by (apply nth_error_Some; congruence). lia.
  - now rewrite IH by (exists i; auto).
Qed.
Lemma take_idx_firstn {X} (a : list X) n ix : (forall i, In i ix -> i < n) -> n <= length a -> take_idx a ix = take_idx (firstn n a) ix.
Proof.
  intros h ln. unfold take_idx; induction ix as [|j ix IH]; [reflexivity|]. cbn [rmapM].
  rewrite IH by (intros i ii; apply h; now right).
  assert (lt := h j (or_introl eq_refl)). assert (e : nth_error (firstn n a) j = nth_error a j).
  { clear -lt. revert n j lt; induction a as [|x a IH]; intros [|n] [|j] lt; try lia; try reflexivity. simpl; apply IH; lia. }
  now rewrite e.
Qed.
Lemma invert_range n ix : Permutation ix (seq 0 n) -> forall i, In i (invert ix) <-> i < n.
Proof.
  intros P i. destruct (invert_spec n ix P) as [h1 [h2 h3]].
  assert (ln : length ix = n) by (now rewrite (Permutation_length P), seq_length). split.
  - intros ii; apply In_nth_error in ii; destruct ii as [k ek].
    assert (kn : k < n) by (rewrite <- h1; apply nth_error_Some; congruence).
    destruct (h3 k kn) as [j [e1 e2]]. rewrite ek in e1; injection e1 as <-. rewrite <- ln. apply nth_error_Some; congruence.
  - intros lt. rewrite <- ln in lt. apply nth_error_Some in lt. destruct (nth_error ix i) as [k|] eqn:E; [|easy].
    apply h2 in E. now apply nth_error_In in E.
Qed.
Lemma set_flags_lem : forall T A D (le : T -> T -> bool), order le -> forall (p : psr T A D) k w values,
  consistent le p -> p_flags_array p = false -> length values = length (p_toas p) ->
  exists p', set_flags p k w values = Ok p' /\ flag_vals p' k = Ok values /\
  (forall k', k' <> k -> flag_vals p' k' = flag_vals p k') /\
  toas p' = toas p /\ toaerrs p' = toaerrs p /\ residuals p' = residuals p /\ freqs p' = freqs p /\ Mmat p' = Mmat p /\
  consistent le p'.
Proof.
  intros T A D le [tot tr] p k w values c na h.
  assert (ex : exists v, at_idx values (p_iisort p) = Ok v /\ at_idx v (p_isort p) = Ok values).
  { destruct (p_sort p) eqn:S.
    - destruct (sort_data_permutes_lem T A D le (conj tot tr) p S) as [ix [iix [_ [_ [_ [_ [_ [_ [_ q]]]]]]]]].
      rewrite c in q. exact (q _ values h).
    - exists values. rewrite (isort_cons le p c), (iisort_cons le p c), S. split; reflexivity. }
  destruct ex as [v [e1 e2]]. unfold set_flags. rewrite na, e1. eexists; split; [reflexivity|].
  unfold flag_vals, fget, dgetE; cbn [p_flags p_isort].
  rewrite dget_dset_same. split; [exact e2|]. split.
  - intros k' ne. now rewrite dget_dset_other by congruence.
  - do 5 (split; [reflexivity|]). unfold consistent in *. unfold sort_data in *. cbn.
    assert (i1 := isort_cons le p c). assert (i2 := iisort_cons le p c). rewrite i1, i2. reflexivity.
Qed.
Lemma set_flags_lengths_lem : forall T A D (le : T -> T -> bool), order le -> forall (p : psr T A D) k w values,
  consistent le p -> p_flags_array p = false -> p_sort p = true ->
  (length values < length (p_toas p) -> set_flags p k w values = Err IndexError) /\
  (length (p_toas p) <= length values -> exists p', set_flags p k w values = Ok p' /\ flag_vals p' k = Ok (firstn (length (p_toas p)) values)).
Proof.
  intros T A D le o p k w values c na s.
  assert (P := argsort_perm le (p_toas p)). assert (R := invert_range _ _ P).
  split; intros h.
  - unfold set_flags. rewrite na, (iisort_cons le p c), s. cbn [at_idx].
    rewrite take_idx_err; [reflexivity|]. exists (length values). split; [apply R; exact h|lia].
  - destruct (set_flags_lem T A D le o p k w (firstn (length (p_toas p)) values) c na) as [p' [e1 [e2 _]]].
    { rewrite firstn_length; lia. }
    exists p'; split; [|exact e2]. rewrite <- e1. unfold set_flags. rewrite na, (iisort_cons le p c), s. cbn [at_idx].
    f_equal. apply take_idx_firstn; [intros i; apply R|exact h].
Qed.
Lemma set_flags_array_lem : forall T A D (p : psr T A D) k w values, p_flags_array p = true ->
  set_flags p k w values = Err NotImplementedError.
Proof. intros T A D p k w values e; unfold set_flags; now rewrite e. Qed.

(** C80 *)
Fixpoint first_nonempty (l : list string) : string :=
  match l with [] => "" | s :: l' => if string_dec s "" then first_nonempty l' else s end.
Definition joined (a b : string) : string :=
  if string_dec a "" then "" else if string_dec b "" then "" else append a (append "_" b).
Fixpoint str_prefix (w : nat) (s : string) : string :=
  match w, s with S w', String ch s' => String ch (str_prefix w' s') | _, _ => EmptyString end.
Lemma clip_prefix w s : clip w s = str_prefix w s.
Proof. unfold clip; revert s; induction w as [|w IH]; intros [|ch s]; simpl; try reflexivity. now rewrite IH. Qed.
Lemma prefix_all w s : String.length s <= w -> str_prefix w s = s.
Proof. revert s; induction w as [|w IH]; intros [|ch s] h; simpl in *; try reflexivity; [lia|]. f_equal; apply IH; lia. Qed.
Lemma prefix_nil w : str_prefix w "" = "".
Proof. now destruct w. Qed.
(** The widest flag. *)
Definition widest (fs : list (string * flag)) (w : nat) : Prop :=
  (forall k f, In (k, f) fs -> fl_width f <= w) /\ exists k f, In (k, f) fs /\ fl_width f = w.
Lemma ret_width_widest fs w : ret_width fs = Ok w -> widest fs w.
Proof.
  destruct fs as [|kf fs]; [discriminate|]. intros [= <-].
  assert (gen : forall fs : list (string * flag), (forall k f, In (k, f) fs -> fl_width f <= fold_right Nat.max 0 (map (fun kf => fl_width (snd kf)) fs)) /\
     (fs <> [] -> exists k f, In (k, f) fs /\ fl_width f = fold_right Nat.max 0 (map (fun kf => fl_width (snd kf)) fs))).
  { clear. induction fs as [|[k f] fs [IH1 IH2]]; [split; [intros k f []|easy]|]. split.
    - intros k' f' [[= <- <-]|i]; simpl; [lia|]. apply IH1 in i; lia.
    - intros _. simpl. destruct (Nat.max_spec (fl_width f) (fold_right Nat.max 0 (map (fun kf => fl_width (snd kf)) fs))) as [[lt ->]|[ge ->]].
      + destruct fs as [|kf' fs']; [simpl in lt; lia|]. destruct IH2 as [k' [f' [i e]]]; [easy|]. exists k', f'; split; [now right|exact e].
      + exists k, f; split; [now left|reflexivity]. }
  destruct (gen (kf :: fs)) as [g1 g2]. split; [exact g1|]. now apply g2.
Qed.
Lemma widest_unique fs w w' : widest fs w -> widest fs w' -> w = w'.
Proof.
  intros [h1 [k [f [i e]]]] [h1' [k' [f' [i' e']]]]. apply Nat.le_antisymm; [rewrite <- e|rewrite <- e']; eauto.
Qed.
(** The value of a flag at public position [j]; empty if there is no such flag. *)
Definition value_at {T A D} (p : psr T A D) (j : nat) (k : string) : string :=
  match flag_vals p k with Ok l => nth j l "" | Err _ => "" end.
Definition flags_sized {T A D} (p : psr T A D) : Prop :=
  forall k f, In (k, f) (p_flags p) -> length (fl_vals f) = length (p_toas p).
(** No value is wider than its string type. *)
Definition flags_fit {T A D} (p : psr T A D) : Prop :=
  forall k f v, In (k, f) (p_flags p) -> In v (fl_vals f) -> String.length v <= fl_width f.

Definition at_stored (fs : list (string * flag)) (i : nat) (k : string) : string :=
  match dget string_dec fs k with Some f => nth i (fl_vals f) "" | None => "" end.
Section Backend.
Context {T A D : Type}.
Variable p : psr T A D.
Hypothesis sz : flags_sized p.
Hypothesis ft : flags_fit p.
Variable w : nat.
Hypothesis wd : widest (p_flags p) w.
Notation n := (length (p_toas p)).
Notation v := (at_stored (p_flags p)).
Definition step (k : string) (ret : list string) : result (list string) :=
  match dget string_dec (p_flags p) k with
  | Some f => if Nat.eqb (length (fl_vals f)) (length ret)
              then Ok (map (fun rv => if String.eqb (snd rv) "" then fst rv else clip w (snd rv)) (combine ret (fl_vals f)))
              else Err ValueError
  | None => Ok ret end.
Lemma nth_error_combine {X Y} (a : list X) (b : list Y) i x y : nth_error a i = Some x -> nth_error b i = Some y ->
  nth_error (combine a b) i = Some (x, y).
Proof.
  revert b i; induction a as [|x0 a IH]; intros [|y0 b] [|i] e1 e2; try discriminate; simpl in *; [congruence|]. now apply IH.
Qed.
Lemma nth_some (f : flag) i : length (fl_vals f) = n -> i < n -> nth_error (fl_vals f) i = Some (nth i (fl_vals f) "").
Proof. intros e h. apply nth_error_nth'. lia. Qed.
Lemma step_ok k ret : length ret = n -> exists r, step k ret = Ok r /\ length r = n /\
  forall i x, i < n -> nth_error ret i = Some x -> nth_error r i = Some (if string_dec (v i k) "" then x else v i k).
Proof.
  intros l. unfold step, at_stored. destruct (dget string_dec (p_flags p) k) as [f|] eqn:E.
  - apply dget_In in E. assert (s := sz _ _ E). rewrite s, l, Nat.eqb_refl. eexists; split; [reflexivity|]. split.
    + rewrite map_length, combine_length; lia.
    + intros i x h e. rewrite (map_nth_error _ i _ (nth_error_combine _ _ i _ _ e (nth_some f i s h))). cbn [fst snd]. f_equal.
      destruct (String.eqb_spec (nth i (fl_vals f) "") "") as [e0|ne]; destruct (string_dec (nth i (fl_vals f) "") ""); try congruence.
      rewrite clip_prefix. apply prefix_all. apply Nat.le_trans with (fl_width f); [|now apply (proj1 wd k)].
      apply (ft k f); [exact E|]. apply nth_In; lia.
  - exists ret. split; [reflexivity|]. split; [exact l|]. intros i x h e. destruct (string_dec "" ""); [exact e|easy].
Qed.
Lemma start_ok : exists r, (match dget string_dec (p_flags p) "fe", dget string_dec (p_flags p) "be" with
         | Some fe, Some be => assign (repeat "" n) (map (fe_be w) (combine (fl_vals fe) (fl_vals be)))
         | _, _ => Ok (repeat "" n) end) = Ok r /\ length r = n /\
  forall i, i < n -> nth_error r i = Some (str_prefix w (joined (v i "fe") (v i "be"))).
Proof.
  unfold at_stored.
  assert (blank : forall i, i < n -> nth_error (repeat "" n) i = Some "").
  { intros i h. rewrite (nth_error_nth' _ ""); [|now rewrite repeat_length]. now rewrite nth_repeat. }
  destruct (dget string_dec (p_flags p) "fe") as [fe|] eqn:E1; [destruct (dget string_dec (p_flags p) "be") as [be|] eqn:E2|].
  - apply dget_In, sz in E1. apply dget_In, sz in E2. unfold assign. rewrite map_length, combine_length, E1, E2, Nat.min_id, repeat_length, Nat.eqb_refl.
    eexists; split; [reflexivity|]. split; [rewrite map_length, combine_length; lia|].
    intros i h. rewrite (map_nth_error _ i _ (nth_error_combine _ _ i _ _ (nth_some fe i E1 h) (nth_some be i E2 h))). f_equal.
    unfold fe_be, joined.
    destruct (String.eqb_spec (nth i (fl_vals fe) "") "") as [e|e]; destruct (string_dec (nth i (fl_vals fe) "") ""); try congruence; simpl; [now rewrite prefix_nil|].
    destruct (String.eqb_spec (nth i (fl_vals be) "") "") as [e'|e']; destruct (string_dec (nth i (fl_vals be) "") ""); try congruence; simpl; [now rewrite prefix_nil|].
    apply clip_prefix.
  - eexists; split; [reflexivity|]. split; [apply repeat_length|]. intros i h. rewrite blank by exact h. f_equal. unfold joined. destruct (string_dec _ ""); [now rewrite prefix_nil|].
    destruct (string_dec "" ""); [now rewrite prefix_nil|easy].
  - eexists; split; [reflexivity|]. split; [apply repeat_length|]. intros i h. rewrite blank by exact h. f_equal. unfold joined. destruct (string_dec "" ""); [now rewrite prefix_nil|easy].
Qed.
Lemma backend_stored : exists r, backend_flags p = at_idx r (p_isort p) /\ length r = n /\
  forall i, i < n -> nth_error r i = Some (first_nonempty
     [v i "group"; v i "g"; v i "sys"; v i "i"; v i "f"; str_prefix w (joined (v i "fe") (v i "be"))]).
Proof.
  destruct start_ok as [r0 [e0 [l0 h0]]].
  destruct (step_ok "f" r0 l0) as [r1 [e1 [l1 h1]]].
  destruct (step_ok "i" r1 l1) as [r2 [e2 [l2 h2]]].
  destruct (step_ok "sys" r2 l2) as [r3 [e3 [l3 h3]]].
  destruct (step_ok "g" r3 l3) as [r4 [e4 [l4 h4]]].
  destruct (step_ok "group" r4 l4) as [r5 [e5 [l5 h5]]].
  exists r5. split; [|split; [exact l5|]].
  - unfold backend_flags. assert (rw : ret_width (p_flags p) = Ok w).
    { destruct (ret_width (p_flags p)) as [w'|e] eqn:E.
      - f_equal. apply (widest_unique (p_flags p)); [now apply ret_width_widest|exact wd].
      - destruct wd as [_ [k [f [i _]]]]. destruct (p_flags p); [destruct i|discriminate]. }
    rewrite rw. cbn [rbind]. rewrite e0. cbn [rbind fold_left].
    unfold step in e1, e2, e3, e4, e5. rewrite e1. cbn [rbind]. rewrite e2. cbn [rbind]. rewrite e3. cbn [rbind]. rewrite e4. cbn [rbind]. rewrite e5. reflexivity.
  - intros i h. rewrite (h5 i _ h (h4 i _ h (h3 i _ h (h2 i _ h (h1 i _ h (h0 i h)))))). f_equal.
    cbn [first_nonempty]. destruct (string_dec (v i "group") ""); [|reflexivity].
    destruct (string_dec (v i "g") ""); [|reflexivity]. destruct (string_dec (v i "sys") ""); [|reflexivity].
    destruct (string_dec (v i "i") ""); [|reflexivity]. destruct (string_dec (v i "f") ""); [|reflexivity].
    destruct (string_dec _ "") as [->|]; reflexivity.
Qed.
End Backend.
Lemma public_nth {T A D} (le : T -> T -> bool) (p : psr T A D) j : consistent le p -> j < length (p_toas p) ->
  exists i, i < length (p_toas p) /\ forall X (a l : list X), at_idx a (p_isort p) = Ok l -> nth_error l j = nth_error a i.
Proof.
  intros c h. rewrite (isort_cons le p c). destruct (p_sort p).
  - assert (P := argsort_perm le (p_toas p)). assert (L := Permutation_length P). rewrite seq_length in L.
    assert (h' := h). rewrite <- L in h'. apply nth_error_Some in h'. destruct (nth_error (argsort le (p_toas p)) j) as [i|] eqn:E; [|easy].
    exists i. split; [apply nth_error_In in E; apply (Permutation_in _ P), in_seq in E; lia|].
    intros X a l e. cbn in e. apply take_idx_picks, picks_nth in e. now apply e.
  - exists j. split; [exact h|]. intros X a l [= ->]. reflexivity.
Qed.
Lemma backend_flags_lem : forall T A D (le : T -> T -> bool) (p : psr T A D) w, order le -> consistent le p -> flags_sized p -> flags_fit p ->
  widest (p_flags p) w ->
  exists bf, backend_flags p = Ok bf /\ length bf = length (p_toas p) /\
  forall j, j < length (p_toas p) -> let v := value_at p j in
    nth_error bf j = Some (first_nonempty [v "group"; v "g"; v "sys"; v "i"; v "f"; str_prefix w (joined (v "fe") (v "be"))]) /\
    (String.length (joined (v "fe") (v "be")) <= w ->
     nth_error bf j = Some (first_nonempty [v "group"; v "g"; v "sys"; v "i"; v "f"; joined (v "fe") (v "be")])).
Proof.
  intros T A D le p w [tot tr] c sz ft wd.
  destruct (backend_stored p sz ft w wd) as [r [e [l h]]].
  rewrite e. exists (ordered le p r). split; [now apply public|]. split; [now apply ordered_length|].
  intros j lt v.
  assert (main : nth_error (ordered le p r) j = Some (first_nonempty [v "group"; v "g"; v "sys"; v "i"; v "f"; str_prefix w (joined (v "fe") (v "be"))])).
  { destruct (public_nth le p j c lt) as [i [li hi]]. rewrite (hi _ r _ (public le p r c l)), (h i li).
    assert (q : forall k, at_stored (p_flags p) i k = v k).
    { intros k. unfold v, value_at, flag_vals, fget, dgetE, at_stored. destruct (dget string_dec (p_flags p) k) as [f|] eqn:E; [|reflexivity].
      apply dget_In, sz in E. cbn [rbind]. rewrite (public le p (fl_vals f) c E).
      assert (z := hi _ _ _ (public le p (fl_vals f) c E)).
      rewrite (nth_error_nth' (fl_vals f) "") in z by lia. symmetry. now apply nth_error_nth. }
    now rewrite !q. }
  split; [exact main|]. intros fit. now rewrite prefix_all in main.
Qed.
Lemma backend_flags_none_lem : forall T A D (p : psr T A D), p_flags p = [] -> backend_flags p = Err ValueError.
Proof. intros T A D p e. unfold backend_flags, ret_width. now rewrite e. Qed.
Definition wit_be : psr nat nat nat := sort_data Nat.leb
  (Psr true [3; 1; 2] [] [] [] [] false [("fe", Flag 4 ["Rcvr"; ""; "Rcvr"]); ("be", Flag 4 ["PUP1"; "PUP1"; "PUP2"]); ("g", Flag 2 [""; "a"; ""])]
       None [] [] [] None [] None None).
Lemma backend_flags_joined_refuted_lem : exists (p : psr nat nat nat) bf j, consistent Nat.leb p /\ flags_sized p /\ flags_fit p /\
  backend_flags p = Ok bf /\ j < length (p_toas p) /\ let v := value_at p j in
  nth_error bf j <> Some (first_nonempty [v "group"; v "g"; v "sys"; v "i"; v "f"; joined (v "fe") (v "be")]) /\
  (exists j', value_at p j' "be" <> v "be" /\ nth_error bf j' = nth_error bf j).
Proof.
  exists wit_be, ["a"; "Rcvr"; "Rcvr"], 1. split; [reflexivity|]. split; [|split].
  - intros k f [[= <- <-]|[[= <- <-]|[[= <- <-]|[]]]]; reflexivity.
  - intros k f v [[= <- <-]|[[= <- <-]|[[= <- <-]|[]]]] [<-|[<-|[<-|[]]]]; vm_compute; lia.
  - split; [reflexivity|]. split; [vm_compute; lia|]. split; [vm_compute; discriminate|]. exists 2; split; [vm_compute; discriminate|reflexivity].
Qed.
