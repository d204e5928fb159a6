(** Facts about python dictionaries and lists used by all proofs. *)
From Coq Require Import String Bool Arith Lia List.
From Verif Require Import PyBase.
Import ListNotations.

Section DictLemmas.
  Context {K V : Type}.
  Variable eqK : forall x y : K, {x = y} + {x <> y}.
  Implicit Types d : dict K V.

  Lemma dget_dset_same d k v : dget eqK (dset eqK d k v) k = Some v.
  Proof.
    induction d as [|[k' v'] d IH]; simpl.
    - destruct (eqK k k); congruence.
    - destruct (eqK k k') as [->|n]; simpl.
      + destruct (eqK k' k'); congruence.
      + destruct (eqK k k'); congruence.
  Qed.

  Lemma dget_dset_other d k k2 v : k2 <> k -> dget eqK (dset eqK d k v) k2 = dget eqK d k2.
  Proof.
    intros n. induction d as [|[k' v'] d IH]; simpl.
    - destruct (eqK k2 k); congruence.
    - destruct (eqK k k') as [->|n']; simpl.
      + destruct (eqK k2 k'); congruence.
      + destruct (eqK k2 k'); congruence.
  Qed.

  Lemma dget_dset d k k2 v :
    dget eqK (dset eqK d k v) k2 = if eqK k2 k then Some v else dget eqK d k2.
  Proof.
    destruct (eqK k2 k) as [->|n].
    - apply dget_dset_same.
    - now apply dget_dset_other.
  Qed.

  Lemma dget_In d k v : dget eqK d k = Some v -> In (k, v) d.
  Proof.
    induction d as [|[k' v'] d IH]; simpl; [discriminate|].
    destruct (eqK k k') as [->|n]; intros H; [injection H as ->; now left|right; auto].
  Qed.

  Lemma dget_None_notin d k : dget eqK d k = None <-> ~ In k (dkeys d).
  Proof.
    unfold dkeys. induction d as [|[k' v'] d IH]; simpl; [tauto|].
    destruct (eqK k k') as [->|n].
    - split; [discriminate|]. intros H. exfalso; apply H; now left.
    - rewrite IH. split; intros H; [intros [E|E]; [congruence|tauto]|tauto].
  Qed.

  Lemma dget_Some_in d k v : dget eqK d k = Some v -> In k (dkeys d).
  Proof. intros H; apply dget_In in H. unfold dkeys. now apply (in_map fst) in H. Qed.

  Lemma in_dget_Some d k : In k (dkeys d) -> exists v, dget eqK d k = Some v.
  Proof.
    intros H. destruct (dget eqK d k) eqn:E; [eauto|].
    apply dget_None_notin in E. tauto.
  Qed.

  Lemma In_dget d k v : NoDup (dkeys d) -> In (k, v) d -> dget eqK d k = Some v.
  Proof.
    unfold dkeys. induction d as [|[k' v'] d IH]; simpl; [tauto|].
    intros ND H. inversion ND; subst.
    destruct H as [E|H].
    - injection E as -> ->. destruct (eqK k k); congruence.
    - destruct (eqK k k') as [->|n]; auto.
      exfalso. apply (in_map fst) in H. simpl in H. tauto.
  Qed.

  Lemma dset_keys d k v :
    dkeys (dset eqK d k v) = if dmem eqK d k then dkeys d else dkeys d ++ [k].
  Proof.
    unfold dmem, dkeys. induction d as [|[k' v'] d IH]; simpl; auto.
    destruct (eqK k k') as [->|n]; simpl; auto.
    rewrite IH. now destruct (dget eqK d k).
  Qed.

  Lemma dset_keys_in d k v x : In x (dkeys (dset eqK d k v)) <-> x = k \/ In x (dkeys d).
  Proof.
    rewrite dset_keys. unfold dmem. destruct (dget eqK d k) eqn:E.
    - apply dget_Some_in in E. split; [tauto|]. intros [->|H]; tauto.
    - rewrite in_app_iff. simpl. intuition.
  Qed.

  Lemma dset_NoDup d k v : NoDup (dkeys d) -> NoDup (dkeys (dset eqK d k v)).
  Proof.
    intros H. rewrite dset_keys. unfold dmem. destruct (dget eqK d k) eqn:E; auto.
    apply dget_None_notin in E.
    apply NoDup_rev in H. rewrite <- (rev_involutive (dkeys d ++ [k])).
    apply NoDup_rev. rewrite rev_app_distr. simpl. constructor; auto.
    now rewrite <- in_rev.
  Qed.

  Lemma dget_dpop_other d k k2 : k2 <> k -> dget eqK (dpop eqK d k) k2 = dget eqK d k2.
  Proof.
    intros n. induction d as [|[k' v'] d IH]; simpl; auto.
    destruct (eqK k k') as [->|n']; simpl.
    - destruct (eqK k2 k'); congruence.
    - destruct (eqK k2 k'); congruence.
  Qed.

  Lemma dpop_keys_sub d k x : In x (dkeys (dpop eqK d k)) -> In x (dkeys d).
  Proof.
    unfold dkeys. induction d as [|[k' v'] d IH]; simpl; auto.
    destruct (eqK k k'); simpl; intuition.
  Qed.

  Lemma dpop_NoDup d k : NoDup (dkeys d) -> NoDup (dkeys (dpop eqK d k)).
  Proof.
    unfold dkeys. induction d as [|[k' v'] d IH]; simpl; auto.
    intros H; inversion H; subst. destruct (eqK k k'); simpl; auto.
    constructor; auto. intros HI. apply (dpop_keys_sub d k) in HI. tauto.
  Qed.

  Lemma dget_dpop_same d k : NoDup (dkeys d) -> dget eqK (dpop eqK d k) k = None.
  Proof.
    induction d as [|[k' v'] d IH]; simpl; auto. unfold dkeys; simpl.
    intros H; inversion H; subst. destruct (eqK k k') as [->|n]; simpl.
    - apply dget_None_notin. assumption.
    - destruct (eqK k k'); [congruence|]. apply IH. assumption.
  Qed.

  Lemma dget_dpop_Some d k k2 v : NoDup (dkeys d) ->
    dget eqK (dpop eqK d k) k2 = Some v -> dget eqK d k2 = Some v.
  Proof.
    intros ND H. destruct (eqK k2 k) as [->|n].
    - rewrite dget_dpop_same in H by assumption. discriminate.
    - now rewrite dget_dpop_other in H.
  Qed.

  Lemma dpop_notin d k : ~ In k (dkeys d) -> dpop eqK d k = d.
  Proof.
    unfold dkeys. induction d as [|[k' v'] d IH]; simpl; auto.
    intros H. destruct (eqK k k') as [->|n]; [tauto|]. rewrite IH; tauto.
  Qed.

  Lemma dpop_keys d k x : NoDup (dkeys d) ->
    In x (dkeys (dpop eqK d k)) <-> In x (dkeys d) /\ x <> k.
  Proof.
    intros ND. split.
    - intros H. split; [now apply dpop_keys_sub in H|]. intros ->.
      apply in_dget_Some in H. destruct H as [v H].
      rewrite dget_dpop_same in H by assumption. discriminate.
    - intros [H n]. apply in_dget_Some in H. destruct H as [v H].
      rewrite <- (dget_dpop_other d k) in H by assumption.
      now apply dget_Some_in in H.
  Qed.

  Lemma dpop_length d k : In k (dkeys d) -> S (length (dpop eqK d k)) = length d.
  Proof.
    unfold dkeys. induction d as [|[k' v'] d IH]; simpl; [tauto|].
    intros H. destruct (eqK k k') as [->|n]; simpl; auto.
    rewrite IH; auto. destruct H; congruence.
  Qed.

  Lemma dmem_true d k : dmem eqK d k = true <-> In k (dkeys d).
  Proof.
    unfold dmem. split; intros H.
    - destruct (dget eqK d k) eqn:E; [|discriminate]. now apply dget_Some_in in E.
    - apply in_dget_Some in H. now destruct H as [v ->].
  Qed.

  Lemma dmem_false d k : dmem eqK d k = false <-> ~ In k (dkeys d).
  Proof.
    rewrite <- dmem_true. now destruct (dmem eqK d k).
  Qed.

  Lemma dset_new d k v : ~ In k (dkeys d) -> dset eqK d k v = d ++ [(k, v)].
  Proof.
    unfold dkeys. induction d as [|[k' v'] d IH]; simpl; auto.
    intros H. destruct (eqK k k') as [->|n]; [tauto|]. rewrite IH; tauto.
  Qed.
End DictLemmas.

(** ** Lists *)
Lemma NoDup_snoc {A} (l : list A) x : NoDup l -> ~ In x l -> NoDup (l ++ [x]).
Proof.
  intros H n. apply NoDup_rev in H. rewrite <- (rev_involutive (l ++ [x])).
  apply NoDup_rev. rewrite rev_app_distr. simpl. constructor; auto. now rewrite <- in_rev.
Qed.

Lemma combine_same_eq (l1 l2 : list nat) :
  length l1 = length l2 ->
  forallb (fun xy => Nat.eqb (fst xy) (snd xy)) (combine l1 l2) = true -> l1 = l2.
Proof.
  revert l2; induction l1 as [|x l1 IH]; intros [|y l2]; simpl; try discriminate; auto.
  intros HL H. apply andb_true_iff in H as [E H]. apply Nat.eqb_eq in E. subst.
  f_equal. apply IH; auto.
Qed.

Lemma combine_same_refl (l : list nat) :
  forallb (fun xy => Nat.eqb (fst xy) (snd xy)) (combine l l) = true.
Proof. induction l; simpl; auto. now rewrite Nat.eqb_refl. Qed.

(** ** Insertion sort *)
From Coq Require Import Permutation Sorted.
Section SortLemmas.
  Context {A : Type}.
  Variable le : A -> A -> bool.

  Lemma insert_sorted_perm x l : Permutation (insert_sorted le x l) (x :: l).
  Proof.
    induction l as [|y l IH]; simpl; auto. destruct (le x y); auto.
    rewrite IH. apply perm_swap.
  Qed.

  Lemma isort_perm l : Permutation (isort le l) l.
  Proof.
    induction l as [|x l IH]; simpl; auto. rewrite insert_sorted_perm. now constructor.
  Qed.

  Hypothesis le_total : forall x y, le x y = true \/ le y x = true.
  Hypothesis le_trans : forall x y z, le x y = true -> le y z = true -> le x z = true.

  Lemma insert_sorted_sorted x l :
    StronglySorted (fun a b => le a b = true) l ->
    StronglySorted (fun a b => le a b = true) (insert_sorted le x l).
  Proof.
    induction 1 as [|y l HS IH HF]; simpl; [repeat constructor|].
    destruct (le x y) eqn:E.
    - constructor; [constructor; auto|]. constructor; auto.
      eapply Forall_impl; [|exact HF]. intros z Hz. eauto.
    - constructor; auto.
      assert (le y x = true) as Hyx by (destruct (le_total x y); congruence).
      eapply Permutation_Forall; [symmetry; apply insert_sorted_perm|]. constructor; auto.
  Qed.

  Lemma isort_sorted l : StronglySorted (fun a b => le a b = true) (isort le l).
  Proof. induction l as [|x l IH]; simpl; [constructor|]. now apply insert_sorted_sorted. Qed.
End SortLemmas.

(** ** String order *)
From Coq Require Import Ascii NArith.
Lemma ascii_compare_trans c a b d :
  Ascii.compare a b = c -> Ascii.compare b d = c -> Ascii.compare a d = c.
Proof.
  unfold Ascii.compare. destruct c; rewrite ?N.compare_eq_iff, ?N.compare_lt_iff, ?N.compare_gt_iff; lia.
Qed.

Lemma ascii_compare_eq a b : Ascii.compare a b = Eq -> a = b.
Proof.
  unfold Ascii.compare. rewrite N.compare_eq_iff. intros H.
  rewrite <- (ascii_N_embedding a), <- (ascii_N_embedding b). now rewrite H.
Qed.

Lemma ascii_compare_refl a : Ascii.compare a a = Eq.
Proof. unfold Ascii.compare. apply N.compare_refl. Qed.


Lemma sle_refl s : sle s s = true.
Proof. unfold sle. induction s as [|c s IH]; simpl; auto. now rewrite ascii_compare_refl. Qed.

Lemma sle_total s t : sle s t = true \/ sle t s = true.
Proof.
  unfold sle. revert t. induction s as [|c s IH]; intros [|d t]; simpl; auto.
  assert (Ascii.compare d c = CompOpp (Ascii.compare c d)) as -> by (unfold Ascii.compare; apply N.compare_antisym).
  destruct (Ascii.compare c d); simpl; auto.
Qed.

Lemma sle_trans s t u : sle s t = true -> sle t u = true -> sle s u = true.
Proof.
  unfold sle. revert t u. induction s as [|c s IH]; intros [|d t] [|e u]; simpl; auto; try discriminate.
  destruct (Ascii.compare c d) eqn:E1; try discriminate.
  - apply ascii_compare_eq in E1. subst d. destruct (Ascii.compare c e) eqn:E2; auto. apply IH.
  - intros _. destruct (Ascii.compare d e) eqn:E2; try discriminate.
    + apply ascii_compare_eq in E2. subst e. now rewrite E1.
    + now rewrite (ascii_compare_trans Lt c d e E1 E2).
Qed.

Lemma sle_antisym s t : sle s t = true -> sle t s = true -> s = t.
Proof.
  unfold sle. revert t. induction s as [|c s IH]; intros [|d t]; simpl; auto; try discriminate.
  assert (Ascii.compare d c = CompOpp (Ascii.compare c d)) as -> by (unfold Ascii.compare; apply N.compare_antisym).
  destruct (Ascii.compare c d) eqn:E; simpl; try discriminate.
  apply ascii_compare_eq in E. subst. intros. f_equal. now apply IH.
Qed.

(** ** Decimal strings *)
From Coq Require Import Decimal DecimalString DecimalNat.
Lemma str_of_nat_inj a b : str_of_nat a = str_of_nat b -> a = b.
Proof.
  unfold str_of_nat. intros H.
  apply (f_equal NilEmpty.uint_of_string) in H. rewrite !NilEmpty.usu in H.
  injection H as H. now apply Unsigned.to_uint_inj.
Qed.

Fixpoint no_us (s : string) : bool :=
  match s with EmptyString => true | String c s' => negb (Ascii.eqb c "_"%char) && no_us s' end.

Lemma str_of_nat_no_us n : no_us (str_of_nat n) = true.
Proof.
  unfold str_of_nat. generalize (Nat.to_uint n). induction u; simpl; auto.
Qed.

(** Splitting at the last underscore is unique. *)
Lemma last_us_inj a b x y :
  no_us x = true -> no_us y = true ->
  append a (append "_" x) = append b (append "_" y) -> a = b /\ x = y.
Proof.
  intros Hx Hy. revert b. induction a as [|c a IH]; intros [|d b]; simpl; intros H.
  - injection H as ->. auto.
  - injection H as <- H. exfalso. subst x. clear -Hx.
    induction b as [|c b IH]; simpl in Hx; [discriminate|]. apply andb_true_iff in Hx as [_ Hx]. auto.
  - injection H as -> H. exfalso. subst y. clear -Hy.
    induction a as [|c a IH]; simpl in Hy; [discriminate|]. apply andb_true_iff in Hy as [_ Hy]. auto.
  - injection H as -> H. destruct (IH _ H) as [-> ->]. auto.
Qed.
