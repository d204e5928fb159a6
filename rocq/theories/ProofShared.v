(** Proofs about pulsars in shared memory. *)
From Coq Require Import Bool Arith Lia List.
From Verif Require Import PyBase ModelShared.
Import ListNotations.
Open Scope list_scope.

(** ** Statements' vocabulary *)
Definition is_write {V} (o : op V) : bool := match o with Write _ _ _ => true | _ => false end.
Definition is_destroy {V} (o : op V) : bool := match o with Destroy _ => true | _ => false end.
(** No copy has been shared yet; [orig n] are the attributes of pulsar [n]. *)
Definition fresh {V} (orig : nat -> list (attr V)) (w : world V) : Prop :=
  w_blocks w = [] /\ w_unlinked w = [] /\
  (forall n a, In a (orig n) -> a = Other \/ exists v, a = Arr v) /\
  (forall c, In c (w_copies w) -> c_status c = Pristine /\ c_attrs c = orig (c_name c)).
Definition own {V} (a : attr V) : option V := match a with Arr v => Some v | _ => None end.

Section S.
Context {V : Type}.
Variable nbytes : V -> nat.
Notation step := (step nbytes).
Notation run := (run nbytes).

Lemma set_block_length (bl : list (block V)) b k : length (set_block bl b k) = length bl.
Proof. revert b; induction bl as [|x bl IH]; intros [|b]; simpl; auto. Qed.
Lemma set_block_get (bl : list (block V)) b k q : b < length bl -> nth_error (set_block bl b k) q = if Nat.eqb q b then Some k else nth_error bl q.
Proof. revert b q; induction bl as [|x bl IH]; intros [|b] [|q] h; simpl in *; try lia; try reflexivity. apply IH; lia. Qed.
Lemma set_copy_get (cs : list (copy V)) i c q : i < length cs -> nth_error (set_copy cs i c) q = if Nat.eqb q i then Some c else nth_error cs q.
Proof. revert i q; induction cs as [|x cs IH]; intros [|i] [|q] h; simpl in *; try lia; try reflexivity. apply IH; lia. Qed.
Lemma set_copy_in (cs : list (copy V)) i c x : In x (set_copy cs i c) -> x = c \/ In x cs.
Proof. revert i; induction cs as [|y cs IH]; intros [|i] h; simpl in *; [tauto|tauto|intuition|]. destruct h as [->|h]; [auto|]. apply IH in h; tauto. Qed.

(** What may happen to the blocks: new ones appear, old ones are unlinked. *)
Definition later (bl bl' : list (block V)) : Prop :=
  forall b k, nth_error bl b = Some k -> exists k', nth_error bl' b = Some k' /\ (b_linked k = false -> b_linked k' = false).
(** ... and the data stay. *)
Definition later_same (bl bl' : list (block V)) : Prop :=
  forall b k, nth_error bl b = Some k -> exists k', nth_error bl' b = Some k' /\ b_data k' = b_data k.
(** ... and nothing is unlinked. *)
Definition later_linked (bl bl' : list (block V)) : Prop :=
  forall b k, nth_error bl b = Some k -> exists k', nth_error bl' b = Some k' /\ b_linked k' = b_linked k.
Lemma later_refl bl : later bl bl.
Proof. intros b k e; eauto. Qed.
Lemma later_same_refl bl : later_same bl bl.
Proof. intros b k e; eauto. Qed.
Lemma later_trans a b c : later a b -> later b c -> later a c.
Proof. intros h1 h2 x k e. destruct (h1 x k e) as [k1 [e1 l1]]. destruct (h2 x k1 e1) as [k2 [e2 l2]]. eauto. Qed.
Lemma later_same_trans a b c : later_same a b -> later_same b c -> later_same a c.
Proof. intros h1 h2 x k e. destruct (h1 x k e) as [k1 [e1 l1]]. destruct (h2 x k1 e1) as [k2 [e2 l2]]. exists k2; split; congruence. Qed.
Lemma snoc_get (bl : list (block V)) x b k : nth_error bl b = Some k -> nth_error (bl ++ [x]) b = Some k.
Proof. intros e. rewrite nth_error_app1; [exact e|]. apply nth_error_Some; congruence. Qed.
Lemma snoc_last (bl : list (block V)) x : nth_error (bl ++ [x]) (length bl) = Some x.
Proof. rewrite nth_error_app2 by lia. now rewrite Nat.sub_diag. Qed.

(** *** The loops *)
Definition fits (bl : list (block V)) (o a : attr V) : Prop :=
  match a with
  | Arr v => o = Arr v
  | Inflater b | View b => exists k, nth_error bl b = Some k /\ o = Arr (b_data k)
  | Other => o = Other
  end.
Lemma fits_later bl bl' o a : later_same bl bl' -> fits bl o a -> fits bl' o a.
Proof. intros h. destruct a; simpl; auto; intros [k [e ->]]; destruct (h _ _ e) as [k' [e' d]]; exists k'; split; congruence. Qed.
Lemma fits_all_later bl bl' os l : later_same bl bl' -> Forall2 (fits bl) os l -> Forall2 (fits bl') os l.
Proof. intros h; induction 1; constructor; eauto using fits_later. Qed.

Lemma deflate_blocks l : forall bl bl' r e, deflate_attrs nbytes bl l = (bl', r, e) ->
  exists news, bl' = bl ++ news /\ Forall (fun k => b_linked k = true) news.
Proof.
  induction l as [|a l IH]; intros bl bl' r e h; simpl in h.
  - injection h as <- <- <-. exists []; now rewrite app_nil_r.
  - assert (rep : forall v, (match new_inflater nbytes bl v with
        | Err e => (bl, a :: l, Some e)
        | Ok (bl1, b) => let '(bl2, r, e) := deflate_attrs nbytes bl1 l in (bl2, Inflater b :: r, e) end) = (bl', r, e) ->
        exists news, bl' = bl ++ news /\ Forall (fun k => b_linked k = true) news).
    { intros v h'. unfold new_inflater in h'. destruct (Nat.eqb (nbytes v) 0).
      - injection h' as <- <- <-. exists []; now rewrite app_nil_r.
      - destruct (deflate_attrs nbytes (bl ++ [Block v true]) l) as [[bl2 r2] e2] eqn:E. injection h' as <- <- <-.
        apply IH in E. destruct E as [news [-> f]]. exists (Block v true :: news). rewrite <- app_assoc. split; [reflexivity|]. now constructor. }
    destruct a as [v|b|b|].
    + now apply (rep v).
    + destruct (deflate_attrs nbytes bl l) as [[bl2 r2] e2] eqn:E. injection h as <- <- <-. eauto.
    + destruct (nth_error bl b) as [k|]; [now apply (rep (b_data k))|]. injection h as <- <- <-. exists []; now rewrite app_nil_r.
    + destruct (deflate_attrs nbytes bl l) as [[bl2 r2] e2] eqn:E. injection h as <- <- <-. eauto.
Qed.
Lemma app_later (bl news : list (block V)) : later bl (bl ++ news) /\ later_same bl (bl ++ news) /\ later_linked bl (bl ++ news).
Proof. repeat split; intros b k e; exists k; (split; [rewrite nth_error_app1; [exact e|]; apply nth_error_Some; congruence|auto]). Qed.
Lemma deflate_fits l : forall os bl bl' r e, Forall2 (fits bl) os l -> deflate_attrs nbytes bl l = (bl', r, e) -> Forall2 (fits bl') os r.
Proof.
  induction l as [|a l IH]; intros os bl bl' r e f h.
  - simpl in h; injection h as <- <- <-. exact f.
  - inversion f as [|o ? os' ? fa fl]; subst. simpl in h.
    assert (rep : forall v, o = Arr v -> (match new_inflater nbytes bl v with
        | Err e => (bl, a :: l, Some e)
        | Ok (bl1, b) => let '(bl2, r, e) := deflate_attrs nbytes bl1 l in (bl2, Inflater b :: r, e) end) = (bl', r, e) ->
        Forall2 (fits bl') (o :: os') r).
    { intros v -> h'. unfold new_inflater in h'. destruct (Nat.eqb (nbytes v) 0).
      - injection h' as <- <- <-. exact f.
      - destruct (deflate_attrs nbytes (bl ++ [Block v true]) l) as [[bl2 r2] e2] eqn:E. injection h' as <- <- <-.
        assert (E' := E). apply deflate_blocks in E'. destruct E' as [news [eb _]].
        constructor.
        + exists (Block v true). split; [|reflexivity]. rewrite eb. rewrite nth_error_app1; [apply snoc_last|]. rewrite app_length; simpl; lia.
        + eapply IH; [|exact E]. eapply fits_all_later; [apply app_later|exact fl]. }
    destruct a as [v|b|b|].
    + now apply (rep v).
    + destruct (deflate_attrs nbytes bl l) as [[bl2 r2] e2] eqn:E. injection h as <- <- <-.
      constructor; [|eapply IH; [exact fl|exact E]]. apply deflate_blocks in E. destruct E as [news [-> _]]. eapply fits_later; [apply app_later|exact fa].
    + destruct fa as [k [ek eo]]. rewrite ek in h. now apply (rep (b_data k)).
    + destruct (deflate_attrs nbytes bl l) as [[bl2 r2] e2] eqn:E. injection h as <- <- <-.
      constructor; [exact fa|eapply IH; [exact fl|exact E]].
Qed.
Lemma inflate_fits (l : list (attr V)) : forall os bl r e, Forall2 (fits bl) os l -> inflate_attrs bl l = (r, e) -> Forall2 (fits bl) os r.
Proof.
  induction l as [|a l IH]; intros os bl r e f h; simpl in h; [injection h as <- <-; exact f|].
  inversion f as [|o ? os' ? fa fl]; subst. destruct a as [v|b|b|].
  2: destruct (open_block bl b); [|injection h as <- <-; exact f].
  all: destruct (inflate_attrs bl l) as [r2 e2] eqn:E; injection h as <- <-; constructor; [exact fa|eapply IH; eauto].
Qed.
Definition no_inflater (l : list (attr V)) : Prop := forall b, ~ In (Inflater b) l.
Lemma inflate_all (l : list (attr V)) : forall (bl : list (block V)) r, inflate_attrs bl l = (r, None) -> no_inflater r /\ forall b, In (Inflater b) l -> exists k, nth_error bl b = Some k /\ b_linked k = true.
Proof.
  induction l as [|a l IH]; intros bl r h; simpl in h; [injection h as <-; split; [intros b []|intros b []]|].
  destruct a as [v|b|b|].
  2: destruct (open_block bl b) eqn:O; [|discriminate].
  all: destruct (inflate_attrs bl l) as [r2 e2] eqn:E; injection h as <- ->; apply IH in E; destruct E as [h1 h2]; split;
    [intros b' [x|x]; [discriminate|now apply (h1 b')]|intros b' [x|x]; [|now apply h2]]; try discriminate.
  injection x as <-. unfold open_block in O. destruct (nth_error bl b) as [k|]; [|discriminate]. exists k. destruct (b_linked k); [auto|discriminate].
Qed.
Lemma inflate_ok (l : list (attr V)) (bl : list (block V)) : (forall b, In (Inflater b) l -> exists k, nth_error bl b = Some k /\ b_linked k = true) -> exists r, inflate_attrs bl l = (r, None).
Proof.
  induction l as [|a l IH]; intros h; [now exists []|].
  destruct IH as [r e]; [intros b i; apply h; now right|]. simpl. rewrite e. destruct a as [v|b|b|]; eauto.
  destruct (h b (or_introl eq_refl)) as [k [e1 e2]]. unfold open_block. rewrite e1, e2. eauto.
Qed.
Lemma inflate_err (l : list (attr V)) (bl : list (block V)) r e : inflate_attrs bl l = (r, Some e) -> e = IOError.
Proof.
  revert r; induction l as [|a l IH]; intros r h; simpl in h; [discriminate|].
  destruct a as [v|b|b|].
  2: destruct (open_block bl b) eqn:O.
  3: { injection h as _ <-. unfold open_block in O. destruct (nth_error bl b) as [k|]; [destruct (b_linked k)|]; congruence. }
  all: destruct (inflate_attrs bl l) as [r2 e2] eqn:E; injection h as <- ->; eapply IH; reflexivity.
Qed.

(** Blocks and the record of [unlink] agree. *)
Definition agree (bl : list (block V)) (un : list nat) : Prop :=
  NoDup un /\ forall b, In b un <-> exists k, nth_error bl b = Some k /\ b_linked k = false.
Lemma destroy_blocks (l : list (attr V)) : forall bl un bl' un' e, destroy_attrs bl un l = (bl', un', e) -> agree bl un ->
  agree bl' un' /\ later bl bl' /\ later_same bl bl' /\ length bl' = length bl /\
  (e = None -> forall b, In (Inflater b) l -> exists k, nth_error bl' b = Some k /\ b_linked k = false) /\
  (forall b k, ~ In (Inflater b) l -> nth_error bl b = Some k -> nth_error bl' b = Some k) /\
  (forall b, In b un -> In b un').
Proof.
  induction l as [|a l IH]; intros bl un bl' un' e h ag; simpl in h.
  - injection h as <- <- <-. split; [exact ag|]. split; [apply later_refl|]. split; [apply later_same_refl|]. split; [reflexivity|]. split; [intros _ b []|auto].
  - assert (skip : (forall b, a <> Inflater b) -> destroy_attrs bl un l = (bl', un', e) -> agree bl' un' /\ later bl bl' /\ later_same bl bl' /\ length bl' = length bl /\
      (e = None -> forall b, In (Inflater b) (a :: l) -> exists k, nth_error bl' b = Some k /\ b_linked k = false) /\
      (forall b k, ~ In (Inflater b) (a :: l) -> nth_error bl b = Some k -> nth_error bl' b = Some k) /\ (forall b, In b un -> In b un')).
    { intros na h'. destruct (IH _ _ _ _ _ h' ag) as [h1 [h2 [h3 [h4 [h5 [h6 h7]]]]]].
      repeat (split; [assumption|]). split; [|split; [|exact h7]].
      - intros en b [x|x]; [now apply na in x|now apply h5].
      - intros b k ni ek. apply h6; [|exact ek]. intros i; apply ni; now right. }
    destruct a as [v|b|b|]; [now apply skip| |now apply skip|now apply skip].
    unfold open_block in h. destruct (nth_error bl b) as [k|] eqn:Eb; [destruct (b_linked k) eqn:Lk|].
    + assert (lt : b < length bl) by (apply nth_error_Some; congruence).
      set (bl1 := set_block bl b (Block (b_data k) false)) in *.
      assert (ag1 : agree bl1 (un ++ [b])).
      { destruct ag as [nd eqv]. split.
        - apply NoDup_rev in nd. rewrite <- (rev_involutive (un ++ [b])). apply NoDup_rev. rewrite rev_app_distr. simpl. constructor; [|exact nd].
          rewrite <- in_rev. intros i. apply eqv in i. destruct i as [k' [e1 e2]]. congruence.
        - intros q. rewrite in_app_iff. unfold bl1. rewrite set_block_get by exact lt. split.
          + intros [i|[<-|[]]].
            * apply eqv in i. destruct (Nat.eqb_spec q b) as [->|ne]; [eexists; split; [reflexivity|reflexivity]|exact i].
            * rewrite Nat.eqb_refl. eexists; split; [reflexivity|reflexivity].
          + intros [k' [e1 e2]]. destruct (Nat.eqb_spec q b) as [->|ne]; [right; now left|]. left. apply eqv. eauto. }
      destruct (IH _ _ _ _ _ h ag1) as [h1 [h2 [h3 [h4 [h5 [h6 h7]]]]]].
      assert (s1 : later bl bl1).
      { intros q kq eq. unfold bl1. rewrite set_block_get by exact lt. destruct (Nat.eqb_spec q b) as [->|ne]; [|eauto]. eexists; split; [reflexivity|]. reflexivity. }
      assert (s2 : later_same bl bl1).
      { intros q kq eq. unfold bl1. rewrite set_block_get by exact lt. destruct (Nat.eqb_spec q b) as [->|ne]; [|eauto]. eexists; split; [reflexivity|]. simpl; congruence. }
      split; [exact h1|]. split; [eapply later_trans; eauto|]. split; [eapply later_same_trans; eauto|]. split; [now rewrite h4; apply set_block_length|].
      split; [|split].
      * intros en q [x|x]; [|now apply h5]. injection x as <-.
        destruct (h2 b (Block (b_data k) false)) as [k' [e1 e2]]; [unfold bl1; rewrite set_block_get by exact lt; now rewrite Nat.eqb_refl|].
        exists k'; split; [exact e1|now apply e2].
      * intros q kq ni eq. apply h6; [intros i; apply ni; now right|]. unfold bl1. rewrite set_block_get by exact lt.
        destruct (Nat.eqb_spec q b) as [->|ne]; [|exact eq]. exfalso; apply ni; now left.
      * intros q i; apply h7, in_app_iff; now left.
    + injection h as <- <- <-. split; [exact ag|]. split; [apply later_refl|]. split; [apply later_same_refl|]. split; [reflexivity|]. split; [discriminate|auto].
    + injection h as <- <- <-. split; [exact ag|]. split; [apply later_refl|]. split; [apply later_same_refl|]. split; [reflexivity|]. split; [discriminate|auto].
Qed.

(** *** Steps *)
Definition agrees (w : world V) : Prop := agree (w_blocks w) (w_unlinked w).
Lemma agree_app bl un news : agree bl un -> Forall (fun k : block V => b_linked k = true) news -> agree (bl ++ news) un.
Proof.
  intros [nd eqv] f. split; [exact nd|]. intros b. rewrite eqv. split; intros [k [e l]].
  - exists k; split; [|exact l]. rewrite nth_error_app1; [exact e|]. apply nth_error_Some; congruence.
  - destruct (Nat.lt_ge_cases b (length bl)) as [lt|ge].
    + rewrite nth_error_app1 in e by exact lt. eauto.
    + rewrite nth_error_app2 in e by exact ge. apply nth_error_In in e. rewrite Forall_forall in f. apply f in e. congruence.
Qed.
Lemma step_agrees w o : agrees w -> agrees (fst (step w o)) /\ later (w_blocks w) (w_blocks (fst (step w o))).
Proof.
  unfold agrees; intros ag. unfold step. destruct (nth_error (w_copies w) (target o)) as [c|]; [|split; [exact ag|apply later_refl]].
  destruct o as [i|i|i|i|i k v].
  - unfold deflate. destruct (c_status c); try (split; [exact ag|apply later_refl]).
    destruct (deflate_attrs nbytes (w_blocks w) (c_attrs c)) as [[bl r] e] eqn:E. apply deflate_blocks in E. destruct E as [news [-> f]].
    cbn. split; [now apply agree_app|apply app_later].
  - unfold inflate. destruct (c_status c); try (split; [exact ag|apply later_refl]).
    destruct (inflate_attrs (w_blocks w) (c_attrs c)) as [r e]. split; [exact ag|apply later_refl].
  - unfold destroy. destruct (c_status c); try (split; [exact ag|apply later_refl]).
    destruct (destroy_attrs (w_blocks w) (w_unlinked w) (c_attrs c)) as [[bl un] e] eqn:E. apply destroy_blocks in E; [|exact ag]. cbn. tauto.
  - split; [exact ag|apply later_refl].
  - unfold write. destruct (nth_error (c_attrs c) k) as [[v0|b|b|]|]; try (split; [exact ag|apply later_refl]).
    destruct (nth_error (w_blocks w) b) as [x|] eqn:Eb; [|split; [exact ag|apply later_refl]]. cbn.
    assert (lt : b < length (w_blocks w)) by (apply nth_error_Some; congruence).
    split.
    + destruct ag as [nd eqv]. split; [exact nd|]. intros q. rewrite eqv, set_block_get by exact lt.
      destruct (Nat.eqb_spec q b) as [->|ne]; [|reflexivity]. rewrite Eb. split; intros [k' [[= <-] l]]; (eexists; split; [reflexivity|exact l]).
    + intros q kq eq. rewrite set_block_get by exact lt. destruct (Nat.eqb_spec q b) as [->|ne]; [|eauto].
      eexists; split; [reflexivity|]. simpl. congruence.
Qed.
Lemma run_agrees os : forall w, agrees w -> agrees (run w os) /\ later (w_blocks w) (w_blocks (run w os)).
Proof.
  induction os as [|o os IH]; intros w ag; [split; [exact ag|apply later_refl]|].
  destruct (step_agrees w o ag) as [a1 l1]. destruct (IH _ a1) as [a2 l2]. split; [exact a2|]. eapply later_trans; [exact l1|exact l2].
Qed.

(** *** Contents *)
Definition sound (orig : nat -> list (attr V)) (w : world V) : Prop :=
  agrees w /\
  forall c, In c (w_copies w) -> Forall2 (fits (w_blocks w)) (orig (c_name c)) (c_attrs c) /\ (c_status c = Inflated -> no_inflater (c_attrs c)).
Lemma pickle_fits bl os l : Forall2 (fits bl) os l -> Forall2 (fits bl) os (map (pickle_attr bl) l).
Proof.
  induction 1 as [|o a os l f fl IH]; simpl; constructor; [|exact IH]. destruct a as [v|b|b|]; simpl in *; auto.
  destruct f as [k [e ->]]. rewrite e. reflexivity.
Qed.
Lemma pickle_no bl l : no_inflater l -> no_inflater (map (pickle_attr bl) l).
Proof.
  intros h b i. apply in_map_iff in i. destruct i as [[v|q|q|] [e i]]; simpl in e; try discriminate.
  - injection e as ->. now apply (h b).
  - destruct (nth_error bl q); discriminate.
Qed.
Lemma put_sound orig w i c bl un : sound orig w -> later_same (w_blocks w) bl -> agree bl un ->
  Forall2 (fits bl) (orig (c_name c)) (c_attrs c) -> (c_status c = Inflated -> no_inflater (c_attrs c)) -> sound orig (put w i bl un c).
Proof.
  intros [ag h] ls ag' f n. split; [exact ag'|]. intros x ix. cbn in *. apply set_copy_in in ix. destruct ix as [->|ix]; [auto|].
  apply h in ix. destruct ix as [fx nx]. split; [eapply fits_all_later; eauto|exact nx].
Qed.
Lemma step_sound orig w o : is_write o = false -> sound orig w -> sound orig (fst (step w o)).
Proof.
  intros nw s. unfold step. destruct (nth_error (w_copies w) (target o)) as [c|] eqn:Ec; [|exact s].
  assert (ic := nth_error_In _ _ Ec). destruct (proj2 s c ic) as [fc nc].
  destruct o as [i|i|i|i|i k v]; [| | | |discriminate].
  - unfold deflate. destruct (c_status c); try exact s.
    destruct (deflate_attrs nbytes (w_blocks w) (c_attrs c)) as [[bl r] e] eqn:E.
    assert (fr := deflate_fits _ _ _ _ _ _ fc E). apply deflate_blocks in E. destruct E as [news [-> f]].
    apply put_sound; [exact s|apply app_later|apply agree_app; [apply s|exact f]|exact fr|destruct e; discriminate].
  - unfold inflate. destruct (c_status c); try exact s.
    destruct (inflate_attrs (w_blocks w) (c_attrs c)) as [r e] eqn:E.
    assert (fr := inflate_fits _ _ _ _ _ fc E).
    apply put_sound; [exact s|apply later_same_refl|apply s|exact fr|]. cbn. destruct e; [discriminate|]. intros _. apply (inflate_all _ _ _ E).
  - unfold destroy. destruct (c_status c); try exact s.
    destruct (destroy_attrs (w_blocks w) (w_unlinked w) (c_attrs c)) as [[bl un] e] eqn:E. apply destroy_blocks in E; [|apply s].
    destruct E as [a1 [a2 [a3 _]]]. apply put_sound; [exact s|exact a3|exact a1|eapply fits_all_later; eauto|destruct e; discriminate].
  - destruct s as [ag h]. split; [exact ag|]. intros x ix. cbn in *. apply in_app_iff in ix. destruct ix as [ix|[<-|[]]]; [now apply h|]. cbn.
    split; [now apply pickle_fits|]. intros e; now apply pickle_no, nc.
Qed.
Lemma run_sound orig os : forall w, forallb (fun o => negb (is_write o)) os = true -> sound orig w -> sound orig (run w os).
Proof.
  induction os as [|o os IH]; intros w h s; [exact s|]. simpl in h. apply andb_prop in h. destruct h as [h1 h2].
  apply (IH _ h2). apply step_sound; [now apply negb_true_iff|exact s].
Qed.
Lemma fresh_sound orig w : fresh orig w -> sound orig w.
Proof.
  intros [h1 [h2 [h3 h4]]]. split.
  - unfold agrees, agree; rewrite h1, h2. split; [constructor|]. intros b; split; [intros []|]. intros [k [e _]]. destruct b; discriminate.
  - intros c i. destruct (h4 c i) as [e1 e2]. split; [|rewrite e1; discriminate]. rewrite e2.
    assert (g := h3 (c_name c)). revert g. clear. generalize (orig (c_name c)) as l.
    induction l as [|a l IH]; intros g; [constructor|]. constructor; [|apply IH; intros b ib; apply g; now right].
    destruct (g a (or_introl eq_refl)) as [->|[v ->]]; reflexivity.
Qed.

(** *** Blocks nobody can open stay *)
Definition unreferenced (b : nat) (w : world V) : Prop := forall c, In c (w_copies w) -> ~ In (Inflater b) (c_attrs c).
Lemma deflate_in (l : list (attr V)) : forall (bl : list (block V)) bl' r e b, deflate_attrs nbytes bl l = (bl', r, e) -> In (Inflater b) r -> In (Inflater b) l \/ length bl <= b.
Proof.
  induction l as [|a l IH]; intros bl bl' r e b h i; simpl in h; [injection h as <- <- <-; now left|].
  assert (rep : forall v, (match new_inflater nbytes bl v with
        | Err e => (bl, a :: l, Some e)
        | Ok (bl1, b) => let '(bl2, r, e) := deflate_attrs nbytes bl1 l in (bl2, Inflater b :: r, e) end) = (bl', r, e) ->
        In (Inflater b) (a :: l) \/ length bl <= b).
  { intros v h'. unfold new_inflater in h'. destruct (Nat.eqb (nbytes v) 0); [injection h' as <- <- <-; now left|].
    destruct (deflate_attrs nbytes (bl ++ [Block v true]) l) as [[bl2 r2] e2] eqn:E. injection h' as <- <- <-.
    destruct i as [[= <-]|i]; [right; lia|]. destruct (IH _ _ _ _ _ E i) as [q|q]; [left; now right|]. rewrite app_length in q; simpl in q; right; lia. }
  assert (skip : (let '(bl2, r, e) := deflate_attrs nbytes bl l in (bl2, a :: r, e)) = (bl', r, e) -> In (Inflater b) (a :: l) \/ length bl <= b).
  { intros h'. destruct (deflate_attrs nbytes bl l) as [[bl2 r2] e2] eqn:E. injection h' as <- <- <-.
    destruct i as [->|i]; [left; now left|]. destruct (IH _ _ _ _ _ E i) as [q|q]; [left; now right|now right]. }
  destruct a as [v|q|q|]; [now apply (rep v)|now apply skip| |now apply skip].
  destruct (nth_error bl q) as [k|]; [now apply (rep (b_data k))|]. injection h as <- <- <-. now left.
Qed.
Lemma inflate_in (l : list (attr V)) : forall (bl : list (block V)) r e b, inflate_attrs bl l = (r, e) -> In (Inflater b) r -> In (Inflater b) l.
Proof.
  induction l as [|a l IH]; intros bl r e b h i; simpl in h; [injection h as <- <-; exact i|].
  destruct a as [v|q|q|].
  2: destruct (open_block bl q); [|injection h as <- <-; exact i].
  all: destruct (inflate_attrs bl l) as [r2 e2] eqn:E; injection h as <- <-; destruct i as [i|i]; try discriminate; right; eapply IH; eauto.
Qed.
Lemma set_attr_in (l : list (attr V)) k a x : In x (set_attr l k a) -> x = a \/ In x l.
Proof. revert k; induction l as [|y l IH]; intros [|k] h; simpl in *; [tauto|tauto|intuition|]. destruct h as [->|h]; [auto|]. apply IH in h; tauto. Qed.
Lemma step_unreferenced b k w o : agrees w -> unreferenced b w -> nth_error (w_blocks w) b = Some k ->
  unreferenced b (fst (step w o)) /\ exists k', nth_error (w_blocks (fst (step w o))) b = Some k' /\ b_linked k' = b_linked k.
Proof.
  intros ag u e. assert (lt : b < length (w_blocks w)) by (apply nth_error_Some; congruence).
  unfold step. destruct (nth_error (w_copies w) (target o)) as [c|] eqn:Ec; [|split; [exact u|eauto]].
  assert (ic := nth_error_In _ _ Ec). assert (uc := u c ic).
  assert (pt : forall i bl un c', ~ In (Inflater b) (c_attrs c') -> unreferenced b (put w i bl un c')).
  { intros i bl un c' n x ix. cbn in ix. apply set_copy_in in ix. destruct ix as [->|ix]; [exact n|now apply u]. }
  destruct o as [i|i|i|i|i j v].
  - unfold deflate. destruct (c_status c); try (split; [exact u|eauto]).
    destruct (deflate_attrs nbytes (w_blocks w) (c_attrs c)) as [[bl r] x] eqn:E. cbn [fst]. split.
    + apply pt. cbn. intros i'. destruct (deflate_in _ _ _ _ _ _ E i') as [q|q]; [tauto|lia].
    + apply deflate_blocks in E. destruct E as [news [-> f]]. cbn. exists k; split; [|reflexivity]. now rewrite nth_error_app1.
  - unfold inflate. destruct (c_status c); try (split; [exact u|eauto]).
    destruct (inflate_attrs (w_blocks w) (c_attrs c)) as [r x] eqn:E. cbn [fst]. split; [|cbn; eauto].
    apply pt. cbn. intros i'. now apply (inflate_in _ _ _ _ _ E) in i'.
  - unfold destroy. destruct (c_status c); try (split; [exact u|eauto]).
    destruct (destroy_attrs (w_blocks w) (w_unlinked w) (c_attrs c)) as [[bl un] x] eqn:E. cbn [fst]. split; [now apply pt|].
    apply destroy_blocks in E; [|exact ag]. destruct E as [_ [_ [_ [_ [_ [h6 _]]]]]]. cbn. exists k; split; [now apply h6|reflexivity].
  - split; [|eauto]. intros x ix. cbn in ix. apply in_app_iff in ix. destruct ix as [ix|[<-|[]]]; [now apply u|]. cbn. intros i'.
    apply in_map_iff in i'. destruct i' as [[v|q|q|] [eq i']]; simpl in eq; try discriminate; [injection eq as ->; tauto|].
    destruct (nth_error (w_blocks w) q); discriminate.
  - unfold write. destruct (nth_error (c_attrs c) j) as [[v0|q|q|]|]; try (split; [exact u|eauto]).
    + split; [|cbn; eauto]. apply pt. cbn. intros i'. apply set_attr_in in i'. destruct i' as [x|x]; [discriminate|tauto].
    + destruct (nth_error (w_blocks w) q) as [x|] eqn:Eq; [|split; [exact u|eauto]]. split; [exact u|]. cbn.
      assert (ltq : q < length (w_blocks w)) by (apply nth_error_Some; congruence).
      rewrite set_block_get by exact ltq. destruct (Nat.eqb_spec b q) as [->|ne]; [|eauto]. eexists; split; [reflexivity|]. simpl; congruence.
Qed.
Lemma run_unreferenced b os : forall k w, agrees w -> unreferenced b w -> nth_error (w_blocks w) b = Some k ->
  exists k', nth_error (w_blocks (run w os)) b = Some k' /\ b_linked k' = b_linked k.
Proof.
  induction os as [|o os IH]; intros k w ag u e; [exists k; auto|].
  destruct (step_unreferenced b k w o ag u e) as [u' [k1 [e1 l1]]].
  destruct (IH k1 _ (proj1 (step_agrees w o ag)) u' e1) as [k2 [e2 l2]]. exists k2; split; [exact e2|congruence].
Qed.
(** Without [destroy] everything stays linked. *)
Definition all_linked (w : world V) : Prop := w_unlinked w = [].
Lemma step_linked w o : is_destroy o = false -> all_linked w -> all_linked (fst (step w o)).
Proof.
  intros nd h. unfold all_linked, step in *. destruct (nth_error (w_copies w) (target o)) as [c|]; [|exact h].
  destruct o as [i|i|i|i|i j v]; try discriminate.
  - unfold deflate. destruct (c_status c); try exact h. destruct (deflate_attrs nbytes (w_blocks w) (c_attrs c)) as [[bl r] x]. exact h.
  - unfold inflate. destruct (c_status c); try exact h. destruct (inflate_attrs (w_blocks w) (c_attrs c)) as [r x]. exact h.
  - exact h.
  - unfold write. destruct (nth_error (c_attrs c) j) as [[v0|q|q|]|]; try exact h. destruct (nth_error (w_blocks w) q); exact h.
Qed.
Lemma run_linked os : forall w, forallb (fun o => negb (is_destroy o)) os = true -> all_linked w -> all_linked (run w os).
Proof.
  induction os as [|o os IH]; intros w h s; [exact s|]. simpl in h. apply andb_prop in h. destruct h as [h1 h2].
  apply (IH _ h2). apply step_linked; [now apply negb_true_iff|exact s].
Qed.
End S.

(** ** Theorems *)
Lemma shared_contents_lem : forall V (nbytes : V -> nat) orig (w0 : world V) os, fresh orig w0 ->
  forallb (fun o => negb (is_write o)) os = true ->
  forall c, In c (w_copies (run nbytes w0 os)) ->
  length (c_attrs c) = length (orig (c_name c)) /\
  forall k a o, nth_error (c_attrs c) k = Some a -> nth_error (orig (c_name c)) k = Some o ->
    let got := contents (w_blocks (run nbytes w0 os)) a in
    (got = own o \/ got = None) /\ (c_status c = Inflated -> got = own o).
Proof.
  intros V nbytes orig w0 os f nw c i.
  destruct (run_sound nbytes orig os w0 nw (fresh_sound orig w0 f)) as [_ h].
  destruct (h c i) as [f2 n]. split; [symmetry; clear -f2; induction f2; simpl; congruence|].
  intros k a o ea eo got.
  assert (ft : fits (w_blocks (run nbytes w0 os)) o a).
  { clear -f2 ea eo. revert k ea eo; induction f2 as [|o' a' os' l f f2 IH]; intros [|k] ea eo; try discriminate; simpl in *; [congruence|eauto]. }
  unfold got. destruct a as [v|b|b|]; simpl in *.
  - subst o. auto.
  - split; [auto|]. intros e. exfalso. apply (n e b). now apply nth_error_In in ea.
  - destruct ft as [x [-> ->]]. auto.
  - subst o. auto.
Qed.
Lemma shared_inflate_lem : forall V (nbytes : V -> nat) orig (w0 : world V) os, fresh orig w0 ->
  forallb (fun o => negb (is_write o)) os = true ->
  let w := run nbytes w0 os in
  forall i c, nth_error (w_copies w) i = Some c -> c_status c = Deflated ->
  (step nbytes w (Inflate i) = (fst (step nbytes w (Inflate i)), None) <->
   forall b, In (Inflater b) (c_attrs c) -> ~ In b (w_unlinked w)) /\
  (forall e, snd (step nbytes w (Inflate i)) = Some e -> e = IOError) /\
  (forallb (fun o => negb (is_destroy o)) os = true -> snd (step nbytes w (Inflate i)) = None).
Proof.
  intros V nbytes orig w0 os f nw w i c ec st.
  destruct (run_sound nbytes orig os w0 nw (fresh_sound orig w0 f)) as [ag h]. fold w in ag, h.
  destruct (h c (nth_error_In _ _ ec)) as [f2 _].
  assert (ex : forall b, In (Inflater b) (c_attrs c) -> exists k, nth_error (w_blocks w) b = Some k).
  { intros b ib. clear -f2 ib. induction f2 as [|o' a' os' l' f' f2 IH]; [destruct ib|]. destruct ib as [->|ib]; [|auto]. destruct f' as [k [e _]]; eauto. }
  assert (main : snd (step nbytes w (Inflate i)) = None <-> forall b, In (Inflater b) (c_attrs c) -> ~ In b (w_unlinked w)).
  { unfold step. cbn [target]. rewrite ec. unfold inflate. rewrite st.
    destruct (inflate_attrs (w_blocks w) (c_attrs c)) as [r e] eqn:E. cbn [snd]. split.
    - intros -> b ib iu. apply inflate_all in E. destruct (proj2 E b ib) as [k [e1 e2]]. apply ag in iu. destruct iu as [k' [e3 e4]]. congruence.
    - intros g. destruct (inflate_ok (c_attrs c) (w_blocks w)) as [r' e'].
      + intros b ib. destruct (ex b ib) as [k ek]. exists k; split; [exact ek|]. destruct (b_linked k) eqn:L; [reflexivity|].
        exfalso; apply (g b ib), ag; eauto.
      + congruence. }
  split; [|split].
  - rewrite <- main. split; [intros ->; reflexivity|]. destruct (step nbytes w (Inflate i)); cbn; congruence.
  - unfold step. cbn [target]. rewrite ec. unfold inflate. rewrite st.
    destruct (inflate_attrs (w_blocks w) (c_attrs c)) as [r e] eqn:E. cbn [snd]. intros e0 ->. now apply inflate_err in E.
  - intros nd. apply main. intros b _ iu.
    assert (al : all_linked w) by (apply run_linked; [exact nd|]; apply f). unfold all_linked in al. rewrite al in iu. destruct iu.
Qed.
Lemma shared_destroyed_lem : forall V (nbytes : V -> nat) orig (w0 : world V) os1 os2 i c b w1, fresh orig w0 ->
  nth_error (w_copies (run nbytes w0 os1)) i = Some c -> c_status c = Deflated -> In (Inflater b) (c_attrs c) ->
  step nbytes (run nbytes w0 os1) (Destroy i) = (w1, None) ->
  let w := run nbytes w1 os2 in
  forall j d, nth_error (w_copies w) j = Some d -> c_status d = Deflated -> In (Inflater b) (c_attrs d) ->
  snd (step nbytes w (Inflate j)) = Some IOError /\
  forall d', nth_error (w_copies (fst (step nbytes w (Inflate j)))) j = Some d' -> c_status d' = Deflated.
Proof.
  intros V nbytes orig w0 os1 os2 i c b w1 f ec st ib ed w j d ej sd jb.
  assert (ag0 : agrees (run nbytes w0 os1)) by (apply run_agrees, (fresh_sound orig w0 f)).
  assert (ag1 : agrees w1) by (assert (q := step_agrees nbytes _ (Destroy i) ag0); rewrite ed in q; apply q).
  assert (gone : exists k, nth_error (w_blocks w1) b = Some k /\ b_linked k = false).
  { unfold step in ed. cbn [target] in ed. rewrite ec in ed. unfold destroy in ed. rewrite st in ed.
    destruct (destroy_attrs _ _ _) as [[bl un] e] eqn:E. injection ed as <- ->. apply destroy_blocks in E; [|exact ag0].
    destruct E as [_ [_ [_ [_ [h5 _]]]]]. cbn. now apply h5. }
  destruct gone as [k [ek lk]]. destruct (run_agrees nbytes os2 w1 ag1) as [ag2 lt]. fold w in ag2, lt.
  destruct (lt b k ek) as [k' [ek' lk']]. specialize (lk' lk).
  unfold step. cbn [target]. rewrite ej. unfold inflate. rewrite sd.
  destruct (inflate_attrs (w_blocks w) (c_attrs d)) as [r e] eqn:E. cbn [fst snd].
  destruct e as [e|].
  - apply inflate_err in E as E'. subst e. split; [reflexivity|]. intros d'. cbn [put w_copies].
    assert (ltj : j < length (w_copies w)) by (apply nth_error_Some; rewrite ej; discriminate).
    rewrite set_copy_get by exact ltj. rewrite Nat.eqb_refl. intros [= <-]. reflexivity.
  - exfalso. apply inflate_all in E. destruct (proj2 E b jb) as [k2 [e1 e2]]. congruence.
Qed.
Lemma shared_unlinked_once_lem : forall V (nbytes : V -> nat) orig (w0 : world V) os, fresh orig w0 ->
  let w := run nbytes w0 os in
  NoDup (w_unlinked w) /\
  (forall b, In b (w_unlinked w) -> b < length (w_blocks w)) /\
  (forall b, In b (w_unlinked w) <-> exists k, nth_error (w_blocks w) b = Some k /\ b_linked k = false).
Proof.
  intros V nbytes orig w0 os f w. destruct (run_agrees nbytes os w0) as [[nd eqv] _]; [apply (fresh_sound orig w0 f)|].
  split; [exact nd|]. split; [|exact eqv]. intros b i. apply eqv in i. destruct i as [k [e _]]. apply nth_error_Some. unfold w. rewrite e. discriminate.
Qed.
(** Once no copy holds an inflater of a block, nothing unlinks it any more. *)
Lemma shared_leak_lem : forall V (nbytes : V -> nat) orig (w0 : world V) os1 os2 b, fresh orig w0 ->
  let w := run nbytes w0 os1 in
  b < length (w_blocks w) -> ~ In b (w_unlinked w) ->
  (forall c, In c (w_copies w) -> ~ In (Inflater b) (c_attrs c)) ->
  ~ In b (w_unlinked (run nbytes w os2)).
Proof.
  intros V nbytes orig w0 os1 os2 b f w lt nu un i.
  destruct (run_agrees nbytes os1 w0) as [ag _]; [apply (fresh_sound orig w0 f)|]. fold w in ag.
  apply nth_error_Some in lt. destruct (nth_error (w_blocks w) b) as [k|] eqn:E; [|easy].
  destruct (run_unreferenced nbytes b os2 k w ag un E) as [k' [e1 e2]].
  destruct (run_agrees nbytes os2 w ag) as [ag2 _]. apply ag2 in i. destruct i as [k2 [e3 e4]].
  apply nu, ag. exists k; split; [exact E|congruence].
Qed.
(** In particular [inflate] drops the inflaters of its copy, which [destroy] then ignores. *)
Lemma shared_destroy_inflated_lem : forall V (nbytes : V -> nat) (w : world V) i c,
  nth_error (w_copies w) i = Some c -> c_status c <> Deflated -> step nbytes w (Destroy i) = (w, None).
Proof.
  intros V nbytes w i c e n. unfold step. cbn [target]. rewrite e. unfold destroy. destruct (c_status c); [reflexivity|easy|reflexivity|reflexivity].
Qed.
Lemma shared_status_lem : forall V (nbytes : V -> nat) (w : world V) o c w' e,
  nth_error (w_copies w) (target o) = Some c -> step nbytes w o = (w', e) ->
  (exists c', nth_error (w_copies w') (target o) = Some c' /\ c_name c' = c_name c /\
   c_status c' = match o, c_status c, e with
                 | Deflate _, Pristine, None => Deflated
                 | Inflate _, Deflated, None => Inflated
                 | Destroy _, Deflated, None => Destroyed
                 | _, st, _ => st
                 end) /\
  (forall j d, j <> target o -> nth_error (w_copies w) j = Some d -> nth_error (w_copies w') j = Some d) /\
  (match o, c_status c with
   | Deflate _, Pristine | Inflate _, Deflated | Destroy _, Deflated | Pickle _, _ | Write _ _ _, _ => True
   | _, _ => w' = w /\ e = None
   end).
Proof.
  intros V nbytes w o c w' e ec st.
  assert (li : target o < length (w_copies w)) by (apply nth_error_Some; congruence).
  assert (K : forall bl un c', c_name c' = c_name c -> forall st', c_status c' = st' -> 
    (exists c'', nth_error (w_copies (put w (target o) bl un c')) (target o) = Some c'' /\ c_name c'' = c_name c /\ c_status c'' = st') /\
    (forall j d, j <> target o -> nth_error (w_copies w) j = Some d -> nth_error (w_copies (put w (target o) bl un c')) j = Some d)).
  { intros bl un c' n st' s'. unfold put. cbn [w_copies]. split.
    - exists c'. rewrite set_copy_get by exact li. rewrite Nat.eqb_refl. repeat split; assumption.
    - intros j d nj ej. rewrite set_copy_get by exact li. apply Nat.eqb_neq in nj. now rewrite nj. }
  assert (N : (exists c'', nth_error (w_copies w) (target o) = Some c'' /\ c_name c'' = c_name c /\ c_status c'' = c_status c) /\
    (forall j d, j <> target o -> nth_error (w_copies w) j = Some d -> nth_error (w_copies w) j = Some d)).
  { split; [exists c; repeat split; exact ec|tauto]. }
  unfold step in st. rewrite ec in st. destruct o as [i|i|i|i|i k v]; cbn [target] in *.
  - unfold deflate in st. destruct (c_status c) eqn:ES; [|injection st as <- <-; destruct N; repeat split; assumption..].
    destruct (deflate_attrs nbytes (w_blocks w) (c_attrs c)) as [[bl r] e'] eqn:E1. injection st as <- <-.
    destruct (K bl (w_unlinked w) (Copy (c_name c) (match e' with None => Deflated | Some _ => Pristine end) r) eq_refl _ eq_refl) as [K1 K2].
    split; [|split; [exact K2|exact I]]. exact K1.
  - unfold inflate in st. destruct (c_status c) eqn:ES; [injection st as <- <-; destruct N; repeat split; assumption| |injection st as <- <-; destruct N; repeat split; assumption..].
    destruct (inflate_attrs (w_blocks w) (c_attrs c)) as [r e'] eqn:E1. injection st as <- <-.
    destruct (K (w_blocks w) (w_unlinked w) (Copy (c_name c) (match e' with None => Inflated | Some _ => Deflated end) r) eq_refl _ eq_refl) as [K1 K2].
    split; [|split; [exact K2|exact I]]. exact K1.
  - unfold destroy in st. destruct (c_status c) eqn:ES; [injection st as <- <-; destruct N; repeat split; assumption| |injection st as <- <-; destruct N; repeat split; assumption..].
    destruct (destroy_attrs (w_blocks w) (w_unlinked w) (c_attrs c)) as [[bl un] e'] eqn:E1. injection st as <- <-.
    destruct (K bl un (Copy (c_name c) (match e' with None => Destroyed | Some _ => Deflated end) (c_attrs c)) eq_refl _ eq_refl) as [K1 K2].
    split; [|split; [exact K2|exact I]]. exact K1.
  - injection st as <- <-. unfold pickle. cbn [w_copies]. split; [|split; [|exact I]].
    + exists c. rewrite nth_error_app1 by exact li. repeat split; exact ec.
    + intros j d _ ej. rewrite nth_error_app1; [exact ej|]. apply nth_error_Some. congruence.
  - unfold write in st. destruct (nth_error (c_attrs c) k) as [[x|b|b|]|]; try (injection st as <- <-; destruct N; repeat split; assumption).
    + injection st as <- <-. destruct (K (w_blocks w) (w_unlinked w) (Copy (c_name c) (c_status c) (set_attr (c_attrs c) k (Arr v))) eq_refl _ eq_refl) as [K1 K2].
      split; [|split; [exact K2|exact I]]. exact K1.
    + destruct (nth_error (w_blocks w) b); injection st as <- <-; destruct N; repeat split; assumption.
Qed.
Lemma shared_write_lem : forall V (nbytes : V -> nat) (w : world V) i j c d k k' b v,
  nth_error (w_copies w) i = Some c -> nth_error (w_copies w) j = Some d ->
  nth_error (c_attrs c) k = Some (View b) -> nth_error (c_attrs d) k' = Some (View b) -> b < length (w_blocks w) ->
  let w' := fst (step nbytes w (Write i k v)) in
  nth_error (w_copies w') j = Some d /\ contents (w_blocks w') (View b) = Some v.
Proof.
  intros V nbytes w i j c d k k' b v ei ej ek ek' lt w'. unfold w', step. cbn [target]. rewrite ei. unfold write. rewrite ek.
  assert (lt' := lt). apply nth_error_Some in lt'. destruct (nth_error (w_blocks w) b) as [x|]; [|easy]. cbn [fst w_copies w_blocks contents].
  split; [exact ej|]. rewrite set_block_get by exact lt. now rewrite Nat.eqb_refl.
Qed.
(** Deflating succeeds if no array is empty. *)
Lemma shared_deflate_lem : forall V (nbytes : V -> nat) (w : world V) i c,
  nth_error (w_copies w) i = Some c -> c_status c = Pristine ->
  (forall a, In a (c_attrs c) -> a = Other \/ exists v, a = Arr v /\ nbytes v <> 0) ->
  exists w' c', step nbytes w (Deflate i) = (w', None) /\ nth_error (w_copies w') i = Some c' /\ c_status c' = Deflated /\
  forall a, In a (c_attrs c') -> a = Other \/ exists b, a = Inflater b /\ length (w_blocks w) <= b < length (w_blocks w').
Proof.
  intros V nbytes w i c e st h. unfold step. cbn [target]. rewrite e. unfold deflate. rewrite st.
  assert (ok : forall l bl, (forall a, In a l -> a = Other \/ exists v, a = Arr v /\ nbytes v <> 0) ->
    exists bl' r, deflate_attrs nbytes bl l = (bl', r, None) /\ length bl <= length bl' /\
    forall a, In a r -> a = Other \/ exists b, a = Inflater b /\ length bl <= b < length bl').
  { clear. induction l as [|a l IH]; intros bl h; [exists bl, []; repeat split; auto; intros a []|].
    assert (hl : forall a, In a l -> a = Other \/ exists v, a = Arr v /\ nbytes v <> 0) by (intros x ix; apply h; now right).
    destruct (h a (or_introl eq_refl)) as [->|[v [-> n]]]; simpl.
    - destruct (IH bl hl) as [bl' [r [e1 [e2 e3]]]]. rewrite e1. exists bl', (Other :: r). split; [reflexivity|]. split; [exact e2|].
      intros x [<-|ix]; [now left|now apply e3].
    - unfold new_inflater. destruct (Nat.eqb_spec (nbytes v) 0) as [|_]; [easy|].
      destruct (IH (bl ++ [Block v true]) hl) as [bl' [r [e1 [e2 e3]]]]. rewrite e1. rewrite app_length in *. simpl in *.
      exists bl', (Inflater (length bl) :: r). split; [reflexivity|]. split; [lia|].
      intros x [<-|ix]; [right; exists (length bl); split; [reflexivity|lia]|]. destruct (e3 x ix) as [->|[b [-> q]]]; [now left|].
      right; exists b; split; [reflexivity|lia]. }
  destruct (ok (c_attrs c) (w_blocks w) h) as [bl' [r [e1 [e2 e3]]]]. rewrite e1.
  eexists; eexists; split; [reflexivity|]. cbn [put w_copies w_blocks].
  assert (lti : i < length (w_copies w)) by (apply nth_error_Some; rewrite e; discriminate).
  rewrite set_copy_get by exact lti. rewrite Nat.eqb_refl.
  split; [reflexivity|]. split; [reflexivity|exact e3].
Qed.

(** Witnesses: contents are numbers of bytes. *)
Definition sw : world nat := World [] [Copy 0 Pristine [Arr 7; Other; Arr 5]] [].
Definition sorig (n : nat) : list (attr nat) := match n with 0 => [Arr 7; Other; Arr 5] | _ => [] end.
Lemma sw_fresh : fresh sorig sw.
Proof.
  repeat split; try (destruct H as [<-|[]]; reflexivity).
  intros [|n] a; simpl; [|tauto]. intros [<-|[<-|[<-|[]]]]; eauto.
Qed.
(** A pulsar without flags: its record array has zero bytes. *)
Lemma shared_empty_array_refuted_lem : exists (orig : nat -> list (attr nat)) w0 os, fresh orig w0 /\
  let w := run id w0 os in
  snd (step id w0 (Deflate 0)) = Some ValueError /\
  exists c, nth_error (w_copies w) 0 = Some c /\ c_status c = Pristine /\
  (exists b, nth_error (c_attrs c) 0 = Some (Inflater b)) /\
  (* neither operation restores the array *)
  step id w (Inflate 0) = (w, None) /\ step id w (Destroy 0) = (w, None) /\ snd (step id w (Deflate 0)) = Some ValueError.
Proof.
  exists (fun n => match n with 0 => [Arr 7; Arr 0] | _ => [] end), (World [] [Copy 0 Pristine [Arr 7; Arr 0]] []), [Deflate 0].
  split.
  - repeat split; try (destruct H as [<-|[]]; reflexivity). intros [|n] a; simpl; [|tauto]. intros [<-|[<-|[]]]; eauto.
  - split; [reflexivity|]. eexists; split; [reflexivity|]. split; [reflexivity|]. split; [eexists; reflexivity|]. repeat split.
Qed.
Lemma ex_shared : let w := run id sw [Deflate 0; Pickle 0; Pickle 0; Inflate 1; Destroy 2] in
  w_unlinked w = [0; 1] /\ map (@c_status nat) (w_copies w) = [Deflated; Inflated; Destroyed] /\
  snd (step id w (Inflate 0)) = Some IOError.
Proof. repeat split. Qed.
