(** Proofs about putting signals, pulsar models and arrays together. *)
From Coq Require Import String Bool Arith ZArith Lia List.
From Verif Require Import PyBase ProofBase ModelCompose.
Import ListNotations.
Open Scope list_scope.

(** * C08 *)
Fixpoint leaves (e : sumexpr) : list operand :=
  match e with SLeaf o => [o] | SAdd a b => leaves a ++ leaves b end.
Definition op_signals (o : operand) : list nat :=
  match o with OSig s => [s] | OColl l => l | OOther => [] end.

Lemma sum_eval_ok e :
  ~ In OOther (leaves e) ->
  exists o, sum_eval e = Ok o /\ o <> OOther /\ op_signals o = flat_map op_signals (leaves e) /\
    (forall a b, e = SAdd a b -> o = OColl (flat_map op_signals (leaves e))).
Proof.
  induction e as [o|a IHa b IHb]; simpl; intros H.
  - exists o. split; auto. split; [intros ->; apply H; now left|]. split; [now rewrite app_nil_r|discriminate].
  - destruct IHa as (x & -> & Hx & Hfx & _); [intros E; apply H, in_or_app; now left|].
    destruct IHb as (y & -> & Hy & Hfy & _); [intros E; apply H, in_or_app; now right|].
    simpl. rewrite flat_map_app, <- Hfx, <- Hfy.
    exists (OColl (op_signals x ++ op_signals y)).
    destruct x, y; try congruence; simpl; repeat split; auto; discriminate.
Qed.

Lemma sum_eval_err e :
  In OOther (leaves e) -> (exists a b, e = SAdd a b) -> sum_eval e = Err TypeError.
Proof.
  induction e as [o|a IHa b IHb]; simpl; intros H (x & y & E); [discriminate|]. clear x y E.
  assert (forall e, In OOther (leaves e) ->
            ((exists a b, e = SAdd a b) -> sum_eval e = Err TypeError) ->
            sum_eval e = Err TypeError \/ sum_eval e = Ok OOther) as HH.
  { intros [o|u v] Hin Hi; [|left; apply Hi; eauto]. simpl in *. destruct Hin as [->|[]]. now right. }
  destruct (in_dec (fun x y : operand => ltac:(repeat decide equality) : {x = y} + {x <> y}) OOther (leaves a)) as [Ha|Ha].
  - destruct (HH a Ha (IHa Ha)) as [->| ->]; simpl; auto.
    destruct (in_dec (fun x y : operand => ltac:(repeat decide equality) : {x = y} + {x <> y}) OOther (leaves b)) as [Hb|Hb].
    + destruct (HH b Hb (IHb Hb)) as [->| ->]; auto.
    + destruct (sum_eval_ok b Hb) as (y & -> & _). reflexivity.
  - destruct (sum_eval_ok a Ha) as (x & -> & Hx & _). simpl.
    apply in_app_iff in H as [H|Hb]; [tauto|].
    destruct (HH b Hb (IHb Hb)) as [->| ->]; auto. destruct x; auto.
Qed.

Lemma signal_sum_flattens_lem :
  forall e : sumexpr, (exists a b, e = SAdd a b) ->
    sum_eval e =
      if in_dec (fun x y : operand => ltac:(repeat decide equality) : {x = y} + {x <> y}) OOther (leaves e)
      then Err TypeError
      else Ok (OColl (flat_map op_signals (leaves e))).
Proof.
  intros e He. destruct (in_dec _ OOther (leaves e)) as [H|H].
  - now apply sum_eval_err.
  - destruct (sum_eval_ok e H) as (o & -> & _ & _ & Ho). destruct He as (a & b & E).
    now rewrite (Ho a b E).
Qed.

(** * C09 *)
Fixpoint pleaves (e : psum) : list pobj :=
  match e with PLeaf o => [o] | PAdd a b => pleaves a ++ pleaves b end.
Definition p_models (o : pobj) : list coll :=
  match o with PColl c => [c] | PArr l => l | PElse => [] end.
(** No array stands to the right of a single pulsar model. *)
Fixpoint psum_good (e : psum) : Prop :=
  match e with
  | PLeaf o => o <> PElse
  | PAdd a b => psum_good a /\ psum_good b /\
      ((exists c, a = PLeaf (PColl c)) -> exists c', b = PLeaf (PColl c'))
  end.

Lemma pta_init_colls l : pta_init (map PColl l) = Ok l.
Proof. induction l as [|c l IH]; simpl; auto. now rewrite IH. Qed.

Lemma psum_eval_good e : psum_good e ->
  exists o, psum_eval e = Ok o /\ p_models o = flat_map p_models (pleaves e) /\
   match e with
   | PLeaf o' => o = o' /\ o <> PElse
   | PAdd _ _ => o = PArr (flat_map p_models (pleaves e))
   end.
Proof.
  induction e as [o|a IHa b IHb]; simpl.
  - intros Ho. exists o. rewrite app_nil_r. auto.
  - intros (Ha & Hb & Hab).
    destruct (IHa Ha) as (x & -> & Hfx & Hcx).
    destruct (IHb Hb) as (y & -> & Hfy & Hcy). simpl.
    rewrite flat_map_app, <- Hfx, <- Hfy.
    assert (pta_add x y = Ok (PArr (p_models x ++ p_models y))) as ->; [|eauto].
    assert (y <> PElse) as Hy by (destruct b; [destruct Hcy; congruence|congruence]).
    destruct x as [c|l|].
    + destruct Hab as (c' & ->).
      { destruct a as [o|]; [destruct Hcx as [<- _]; eauto|discriminate]. }
      destruct Hcy as [-> _]. reflexivity.
    + destruct y as [c2|l2|]; simpl; try congruence.
      * assert (map PColl l ++ [PColl c2] = map PColl (l ++ [c2])) as -> by (rewrite map_app; reflexivity).
        now rewrite pta_init_colls.
      * rewrite <- map_app, pta_init_colls. reflexivity.
    + exfalso. destruct a; [destruct Hcx; congruence|discriminate].
Qed.

Lemma pta_sum_in_order_lem :
  forall a b : psum, psum_good (PAdd a b) ->
    psum_eval (PAdd a b) = Ok (PArr (flat_map p_models (pleaves a ++ pleaves b))).
Proof.
  intros a b H. destruct (psum_eval_good _ H) as (o & Ho & _ & ->). exact Ho.
Qed.

Lemma pta_sum_model_plus_array_raises_lem :
  forall (c : coll) (l : list coll), pta_add (PColl c) (PArr l) = Err AttributeError.
Proof. reflexivity. Qed.

Lemma pta_sum_foreign_lem :
  forall a : pobj, a <> PElse -> pta_add a PElse = Err AttributeError.
Proof.
  intros [c|l|] H; simpl; [reflexivity| |congruence].
  assert (pta_init (map PColl l ++ [PElse]) = Err AttributeError) as ->; auto.
  clear. induction l as [|c l IH]; simpl; auto. now rewrite IH.
Qed.

Lemma pta_getitem_lem :
  forall (l : list coll) (k : pkey),
    match k with
    | KInt z =>
        let n := Z.of_nat (length l) in
        ((0 <= z < n)%Z -> exists c, nth_error l (Z.to_nat z) = Some c /\ pta_getitem l k = Ok c) /\
        ((- n <= z < 0)%Z -> exists c, nth_error l (Z.to_nat (z + n)) = Some c /\ pta_getitem l k = Ok c) /\
        ((z < - n \/ n <= z)%Z -> pta_getitem l k = Err IndexError)
    | KName s =>
        (forall c, pta_getitem l k = Ok c <->
           exists l1 l2, l = l1 ++ c :: l2 /\ co_psr c = s /\ forall c', In c' l1 -> co_psr c' <> s) /\
        (pta_getitem l k = Err KeyError <-> forall c, In c l -> co_psr c <> s)
    end.
Proof.
  intros l [z|s]; simpl.
  - unfold py_index. set (n := Z.of_nat (length l)).
    assert (forall i, (0 <= i < n)%Z -> exists c, nth_error l (Z.to_nat i) = Some c) as Hnth.
    { intros i Hi. destruct (nth_error l (Z.to_nat i)) eqn:E; eauto.
      apply nth_error_None in E. unfold n in Hi. lia. }
    repeat split.
    + intros H. destruct (Hnth z) as [c Hc]; [lia|]. exists c. split; auto.
      replace (z <? 0)%Z with false by lia.
      replace ((0 <=? z) && (z <? n))%Z with true by lia. now rewrite Hc.
    + intros H. destruct (Hnth (z + n)%Z) as [c Hc]; [lia|]. exists c. split; auto.
      replace (z <? 0)%Z with true by lia.
      replace ((0 <=? z + n) && (z + n <? n))%Z with true by lia. now rewrite Hc.
    + intros H. destruct (Z.ltb_spec z 0).
      * replace ((0 <=? z + n) && (z + n <? n))%Z with false by lia. reflexivity.
      * replace ((0 <=? z) && (z <? n))%Z with false by lia. reflexivity.
  - induction l as [|c l [IH1 IH2]]; simpl.
    + split; [split; [discriminate|]|split; [tauto|auto]].
      intros (l1 & l2 & E & _). destruct l1; discriminate.
    + destruct (String.eqb_spec (co_psr c) s) as [E|E].
      * split.
        -- intros c0. split.
           ++ intros H; injection H as <-. exists [], l. repeat split; auto; simpl; tauto.
           ++ intros (l1 & l2 & El & Ec & Hn). destruct l1 as [|x l1]; [simpl in El; congruence|].
              injection El as -> El. exfalso. apply (Hn x); [now left|assumption].
        -- split; [discriminate|]. intros H. exfalso. now apply (H c); [left|].
      * split.
        -- intros c0. rewrite IH1. split.
           ++ intros (l1 & l2 & -> & Ec & Hn). exists (c :: l1), l2. repeat split; auto.
              intros c' [<-|Hi]; auto.
           ++ intros (l1 & l2 & El & Ec & Hn). destruct l1 as [|x l1]; [injection El as -> ->; tauto|].
              injection El as -> ->. exists l1, l2. repeat split; auto. intros. apply Hn. now right.
        -- rewrite IH2. split; intros H c'; [intros [<-|Hi]; auto|intros Hi; apply H; now right].
Qed.

(** * C15 *)
Definition sd_step (st : list string * dict string sigi) (s : sigi) :=
  let (sig_list, d) := st in
  if existsb (String.eqb (si_name s)) sig_list then (sig_list, d)
  else (sig_list ++ [si_name s], dset string_dec d (si_name s) s).

Lemma sd_fold l : forall pre sl d,
  sl = dkeys d -> NoDup sl ->
  (forall n, In n sl <-> In n (map si_name pre)) ->
  (forall n s, dget string_dec d n = Some s -> find (fun x => String.eqb (si_name x) n) pre = Some s) ->
  let d' := snd (fold_left sd_step l (sl, d)) in
  NoDup (dkeys d') /\
  (forall n, In n (dkeys d') <-> In n (map si_name (pre ++ l))) /\
  (forall n s, dget string_dec d' n = Some s -> find (fun x => String.eqb (si_name x) n) (pre ++ l) = Some s).
Proof.
  assert (forall (f : sigi -> bool) a b, find f (a ++ b) = match find f a with Some x => Some x | None => find f b end) as find_app.
  { intros f a b. induction a as [|x a IH]; simpl; auto. now destruct (f x). }
  induction l as [|s l IH]; intros pre sl d Hsl ND Hin Hget; simpl.
  - subst. rewrite app_nil_r. auto.
  - assert (pre ++ s :: l = (pre ++ [s]) ++ l) as -> by now rewrite <- app_assoc.
    destruct (existsb (String.eqb (si_name s)) sl) eqn:E.
    + apply existsb_exists in E as (x & Hx & Ex). apply String.eqb_eq in Ex. subst x.
      apply IH; auto.
      * intros n. rewrite map_app, in_app_iff, Hin. simpl. split; [tauto|].
        intros [H|[<-|[]]]; auto. now apply Hin.
      * intros n s0 H. rewrite find_app. now rewrite (Hget _ _ H).
    + assert (~ In (si_name s) sl) as Hn.
      { intros Hi. assert (existsb (String.eqb (si_name s)) sl = true); [|congruence].
        apply existsb_exists. exists (si_name s). split; auto. apply String.eqb_refl. }
      rewrite dset_new by (rewrite <- Hsl; assumption).
      apply IH.
      * unfold dkeys. rewrite map_app. fold (dkeys d). now rewrite Hsl.
      * now apply NoDup_snoc.
      * intros n. rewrite in_app_iff, map_app, in_app_iff, Hin. reflexivity.
      * intros n s0 H. rewrite find_app.
        rewrite <- (dset_new string_dec) in H by (rewrite <- Hsl; assumption).
        rewrite dget_dset in H. destruct (string_dec n (si_name s)) as [->|ne].
        -- injection H as <-.
           destruct (find (fun x => String.eqb (si_name x) (si_name s)) pre) eqn:Ef.
           ++ exfalso. apply find_some in Ef as [Hi Eq]. apply String.eqb_eq in Eq.
              apply Hn, Hin. rewrite <- Eq. now apply in_map.
           ++ simpl. now rewrite String.eqb_refl.
        -- now rewrite (Hget _ _ H).
Qed.

Lemma get_signal_first_lem :
  forall (l : list coll) (name : string),
    let sigs := flat_map co_signals l in
    (forall s, get_signal l name = Ok s <->
       exists l1 l2, sigs = l1 ++ s :: l2 /\ si_name s = name /\ forall s', In s' l1 -> si_name s' <> name) /\
    (get_signal l name = Err KeyError <-> forall s, In s sigs -> si_name s <> name) /\
    NoDup (dkeys (set_signal_dict l)) /\
    (forall n, In n (dkeys (set_signal_dict l)) <-> exists s, In s sigs /\ si_name s = n).
Proof.
  intros l name sigs.
  assert (forall (n : string) (s : sigi), dget string_dec [] n = Some s ->
            find (fun x => String.eqb (si_name x) n) [] = Some s) as H0 by discriminate.
  pose proof (sd_fold sigs [] [] [] eq_refl (NoDup_nil _) (fun n => iff_refl _) H0) as (ND & Hin & Hget).
  cbn [app] in Hin, Hget.
  change (snd (fold_left sd_step sigs ([], []))) with (set_signal_dict l) in *.
  assert (forall n, get_signal l n = match find (fun x => String.eqb (si_name x) n) sigs with Some s => Ok s | None => Err KeyError end) as Hg.
  { intros n. unfold get_signal, dgetE.
    destruct (dget string_dec (set_signal_dict l) n) as [s|] eqn:E.
    - now rewrite (Hget _ _ E).
    - apply dget_None_notin in E. rewrite Hin in E.
      destruct (find _ sigs) as [s|] eqn:Ef; auto. exfalso. apply E.
      apply find_some in Ef as [Hi Eq]. apply String.eqb_eq in Eq. subst n. now apply in_map. }
  rewrite Hg. clear Hg.
  assert (forall n, In n (map si_name sigs) <-> exists s, In s sigs /\ si_name s = n) as Hmap.
  { intros n. rewrite in_map_iff. split; intros (s & A & B); eauto. }
  split; [|split; [|split]].
  - intros s. clearbody sigs. clear. induction sigs as [|x l IH]; simpl.
    + split; [discriminate|]. intros (l1 & l2 & E & _). destruct l1; discriminate.
    + destruct (String.eqb_spec (si_name x) name) as [E|E].
      * split.
        -- intros H; injection H as <-. exists [], l. repeat split; auto; simpl; tauto.
        -- intros (l1 & l2 & El & Ec & Hn). destruct l1 as [|y l1]; [simpl in El; congruence|].
           injection El as -> El. exfalso. apply (Hn y); [now left|assumption].
      * rewrite IH. split.
        -- intros (l1 & l2 & -> & Ec & Hn). exists (x :: l1), l2. repeat split; auto.
           intros c' [<-|Hi]; auto.
        -- intros (l1 & l2 & El & Ec & Hn). destruct l1 as [|y l1]; [injection El as -> ->; tauto|].
           injection El as -> ->. exists l1, l2. repeat split; auto. intros. apply Hn. now right.
  - clearbody sigs. clear. induction sigs as [|x l IH]; simpl; [tauto|].
    destruct (String.eqb_spec (si_name x) name) as [E|E].
    + split; [discriminate|]. intros H. exfalso. now apply (H x); [left|].
    + rewrite IH. split; intros H s; [intros [<-|Hi]; auto|intros Hi; apply H; now right].
  - exact ND.
  - intros n. rewrite <- Hmap. apply Hin.
Qed.

(** * C43 *)
Definition cs_inner (s : sigi) (c : coll) (d : dict nat (dict nat nat)) :=
  if si_common s && negb (si_coeff s) then
    let inner := match dget Nat.eq_dec d (si_class s) with Some x => x | None => [] end in
    dset Nat.eq_dec d (si_class s) (dset Nat.eq_dec inner (si_id s) (co_id c))
  else d.

Definition cs_ok (s : sigi) := si_common s && negb (si_coeff s) = true.

(** [seen K i]: a counted signal of class K with identity i. *)
Definition cs_inv (d : dict nat (dict nat nat)) (seen : list sigi) : Prop :=
  NoDup (dkeys d) /\
  (forall K inner, dget Nat.eq_dec d K = Some inner ->
     NoDup (dkeys inner) /\ forall i, In i (dkeys inner) <-> exists s, In s seen /\ si_class s = K /\ si_id s = i) /\
  (forall s, In s seen -> In (si_class s) (dkeys d)).

Lemma cs_inner_inv s c d seen :
  cs_inv d seen -> cs_ok s -> cs_inv (cs_inner s c d) (seen ++ [s]).
Proof.
  intros (ND & Hk & Hs) Hok. unfold cs_inner. rewrite Hok.
  split; [now apply dset_NoDup|]. split.
  - intros K inner. rewrite dget_dset. destruct (Nat.eq_dec K (si_class s)) as [->|n].
    + intros H; injection H as <-.
      destruct (dget Nat.eq_dec d (si_class s)) as [inner|] eqn:E.
      * destruct (Hk _ _ E) as [NDi Hi]. split; [now apply dset_NoDup|].
        intros i. rewrite dset_keys_in, Hi. split.
        -- intros [->|(s0 & A & B)]; [exists s|exists s0]; rewrite in_app_iff; simpl; tauto.
        -- intros (s0 & A & B & C). apply in_app_iff in A as [A|[<-|[]]]; [right; eauto|left; auto].
      * split; [repeat constructor; simpl; tauto|]. intros i. simpl. split.
        -- intros [<-|[]]. exists s. rewrite in_app_iff; simpl; tauto.
        -- intros (s0 & A & B & C). apply in_app_iff in A as [A|[<-|[]]]; [|left; auto].
           exfalso. apply Hs in A. rewrite B in A. apply dget_None_notin in E. tauto.
    + intros H. destruct (Hk _ _ H) as [NDi Hi]. split; auto. intros i. rewrite Hi. split.
      * intros (s0 & A & B). exists s0. rewrite in_app_iff. tauto.
      * intros (s0 & A & B & C). apply in_app_iff in A as [A|[<-|[]]]; [eauto|congruence].
  - intros s0 A. rewrite dset_keys_in. apply in_app_iff in A as [A|[<-|[]]]; auto.
Qed.

Lemma cs_sigs_inv sigs c d seen :
  cs_inv d seen ->
  cs_inv (fold_left (fun d s => cs_inner s c d) sigs d)
    (seen ++ filter (fun s => si_common s && negb (si_coeff s)) sigs).
Proof.
  revert d seen. induction sigs as [|s l IH]; intros d seen H; simpl; [now rewrite app_nil_r|].
  destruct (si_common s && negb (si_coeff s)) eqn:E.
  - assert (seen ++ s :: filter (fun s => si_common s && negb (si_coeff s)) l =
            (seen ++ [s]) ++ filter (fun s => si_common s && negb (si_coeff s)) l) as -> by now rewrite <- app_assoc.
    apply IH. now apply cs_inner_inv.
  - apply IH. unfold cs_inner. now rewrite E.
Qed.

Definition cs_seen (l : list coll) : list sigi :=
  flat_map (fun c => if co_basis c then filter (fun s => si_common s && negb (si_coeff s)) (co_signals c) else []) l.

Lemma cs_all_inv l d seen :
  cs_inv d seen ->
  cs_inv (fold_left (fun d (c : coll) => if co_basis c then
            fold_left (fun d s => cs_inner s c d) (co_signals c) d else d) l d)
    (seen ++ cs_seen l).
Proof.
  revert d seen. induction l as [|c l IH]; intros d seen H; simpl; [now rewrite app_nil_r|].
  destruct (co_basis c); simpl; auto.
  rewrite app_assoc. apply IH. now apply cs_sigs_inv.
Qed.

Lemma correlated_branch_lem :
  forall l : list coll,
    correlated_branch l = true <->
    exists c1 c2 s1 s2,
      In c1 l /\ In c2 l /\ co_basis c1 = true /\ co_basis c2 = true /\
      In s1 (co_signals c1) /\ In s2 (co_signals c2) /\
      si_class s1 = si_class s2 /\ si_id s1 <> si_id s2 /\
      (si_common s1 = true /\ si_coeff s1 = false) /\ (si_common s2 = true /\ si_coeff s2 = false).
Proof.
  intros l.
  assert (cs_inv (commonsignals_all l) (cs_seen l)) as (ND & Hk & Hs).
  { unfold commonsignals_all. change (cs_seen l) with ([] ++ cs_seen l). apply cs_all_inv.
    split; [constructor|]. split; [discriminate|simpl; tauto]. }
  assert (forall s, In s (cs_seen l) <-> exists c, In c l /\ co_basis c = true /\ In s (co_signals c) /\
            si_common s = true /\ si_coeff s = false) as Hseen.
  { intros s. unfold cs_seen. rewrite in_flat_map. split.
    - intros (c & Hc & H). exists c. destruct (co_basis c); [|destruct H].
      apply filter_In in H as [H E]. apply andb_true_iff in E as [E1 E2]. apply negb_true_iff in E2. tauto.
    - intros (c & Hc & Hb & Hin & E1 & E2). exists c. split; auto. rewrite Hb.
      apply filter_In. rewrite E1, E2. auto. }
  assert (correlated_branch l = match filter (fun kv : nat * dict nat nat => Nat.ltb 1 (length (snd kv))) (commonsignals_all l) with [] => false | _ => true end) as -> by reflexivity.
  split.
  - destruct (filter (fun kv : nat * dict nat nat => Nat.ltb 1 (length (snd kv))) (commonsignals_all l)) as [|[K inner] t] eqn:E; [discriminate|]. intros _.
    assert (In (K, inner) (filter (fun kv : nat * dict nat nat => Nat.ltb 1 (length (snd kv))) (commonsignals_all l))) as Hin
      by (rewrite E; now left).
    apply filter_In in Hin as [Hin Hl]. simpl in Hl. apply Nat.ltb_lt in Hl.
    apply (In_dget Nat.eq_dec) in Hin; auto. destruct (Hk _ _ Hin) as [NDi Hi].
    unfold dkeys in *. destruct inner as [|[i1 x1] [|[i2 x2] t2]]; simpl in Hl; try lia.
    simpl in NDi. inversion NDi as [|? ? Hni _]; subst.
    destruct (proj1 (Hi i1)) as (s1 & A1 & B1 & C1); [now left|].
    destruct (proj1 (Hi i2)) as (s2 & A2 & B2 & C2); [right; now left|].
    apply Hseen in A1 as (c1 & ? & ? & ? & ? & ?). apply Hseen in A2 as (c2 & ? & ? & ? & ? & ?).
    exists c1, c2, s1, s2. repeat split; auto; try congruence.
    intros E0. apply Hni. simpl. left. congruence.
  - intros (c1 & c2 & s1 & s2 & Hc1 & Hc2 & Hb1 & Hb2 & Hs1 & Hs2 & HK & Hid & [? ?] & [? ?]).
    assert (In s1 (cs_seen l)) as A1 by (apply Hseen; eauto 8).
    assert (In s2 (cs_seen l)) as A2 by (apply Hseen; eauto 8).
    pose proof (Hs _ A1) as HKin. apply (in_dget_Some Nat.eq_dec) in HKin as [inner Hg].
    destruct (Hk _ _ Hg) as [NDi Hi].
    assert (In (si_class s1, inner) (filter (fun kv : nat * dict nat nat => Nat.ltb 1 (length (snd kv))) (commonsignals_all l))) as Hin.
    { apply filter_In. split; [eapply dget_In; eauto|]. simpl. apply Nat.ltb_lt.
      assert (In (si_id s1) (dkeys inner)) as I1 by (apply Hi; eauto).
      assert (In (si_id s2) (dkeys inner)) as I2 by (apply Hi; exists s2; auto).
      unfold dkeys in *. destruct inner as [|[i1 x1] [|y t]]; simpl in *; [tauto| |lia].
      destruct I1 as [?|[]], I2 as [?|[]]. congruence. }
    destruct (filter (fun kv : nat * dict nat nat => Nat.ltb 1 (length (snd kv))) (commonsignals_all l)); [destruct Hin|reflexivity].
Qed.

(** * C16 *)
Section Const.
  Context {V : Type}.
  Variable d : dict string V.

  (** All entries of an array, in order. *)
  Definition all_entries (l : list (list (list pentry))) : list pentry := concat (concat l).

  Lemma sig_set_default_app (a b : list pentry) (h : cheap V) :
    sig_set_default d (a ++ b) h = sig_set_default d b (sig_set_default d a h).
  Proof. unfold sig_set_default. now rewrite fold_left_app. Qed.

  Lemma pta_set_default_flat l (h : cheap V) :
    pta_set_default d l h = sig_set_default d (all_entries l) h.
  Proof.
    unfold pta_set_default, all_entries. revert h.
    induction l as [|sc l IH]; intros h; simpl; auto.
    rewrite IH, concat_app, sig_set_default_app. f_equal. clear.
    revert h. induction sc as [|s sc IH]; intros h; simpl; auto.
    now rewrite IH, sig_set_default_app.
  Qed.

  Lemma sig_set_default_other es (h : cheap V) i :
    (forall n, In (EConst i n) es -> dget string_dec d n = None) ->
    sig_set_default d es h i = h i.
  Proof.
    unfold sig_set_default. revert h. induction es as [|e es IH]; intros h H; simpl; auto.
    rewrite IH by (intros n Hn; apply H; now right).
    destruct e as [|j n]; auto. destruct (dget string_dec d n) eqn:E; auto.
    unfold hset. destruct (Nat.eqb_spec i j) as [->|]; auto.
    rewrite (H n) in E by now left. discriminate.
  Qed.

  Lemma sig_set_default_set es (h : cheap V) i n v :
    (forall n', In (EConst i n') es -> n' = n) -> In (EConst i n) es ->
    dget string_dec d n = Some v ->
    sig_set_default d es h i = Some v.
  Proof.
    intros Hn Hin Hv. unfold sig_set_default.
    assert (forall es h, (forall n', In (EConst i n') es -> n' = n) -> h i = Some v \/ In (EConst i n) es ->
              fold_left (fun h e => match e with EVar _ => h | EConst i n =>
                match dget string_dec d n with Some v => hset h i (Some v) | None => h end end) es h i = Some v) as HH.
    { clear es h Hn Hin. induction es as [|e es IH]; intros h Hn Hor; simpl; [destruct Hor as [?|[]]; auto|].
      apply IH; [intros; apply Hn; now right|].
      destruct e as [m|j m].
      - destruct Hor as [?|[H|?]]; auto. discriminate.
      - destruct (Nat.eq_dec j i) as [->|ne].
        + left. assert (m = n) as -> by (apply Hn; now left). rewrite Hv. unfold hset. now rewrite Nat.eqb_refl.
        + destruct Hor as [Hh|[H|Hi]]; auto; [|injection H; congruence].
          left. destruct (dget string_dec d m); auto. unfold hset.
          destruct (Nat.eqb_spec i j); congruence. }
    apply HH; auto.
  Qed.
End Const.

Lemma set_default_exact_lem :
  forall (V : Type) (d : dict string V) (l : list (list (list pentry))) (h : cheap V),
    (* a constant object has one name *)
    (forall i n n', In (EConst i n) (all_entries l) -> In (EConst i n') (all_entries l) -> n = n') ->
    let h' := pta_set_default d l h in
    (forall i n v, In (EConst i n) (all_entries l) -> dget string_dec d n = Some v -> h' i = Some v) /\
    (forall i, (forall n, In (EConst i n) (all_entries l) -> dget string_dec d n = None) -> h' i = h i) /\
    (forall i, pta_set_default d l h' i = h' i).
Proof.
  intros V d l h Hn h'. unfold h'. rewrite !pta_set_default_flat.
  set (es := all_entries l) in *. split; [|split].
  - intros i n v Hin Hv. eapply sig_set_default_set; eauto.
  - intros i H. now apply sig_set_default_other.
  - intros i.
    destruct (existsb (fun e => match e with EConst j n => Nat.eqb i j && (match dget string_dec d n with Some _ => true | None => false end) | EVar _ => false end) es) eqn:E.
    + apply existsb_exists in E as ([m|j n] & Hin & E); [discriminate|].
      apply andb_true_iff in E as [E1 E2]. apply Nat.eqb_eq in E1. subst j.
      destruct (dget string_dec d n) as [v|] eqn:Ev; [|discriminate].
      rewrite !(sig_set_default_set d es _ i n v); auto; intros; eapply Hn; eauto.
    + apply sig_set_default_other. intros n Hin.
      destruct (dget string_dec d n) eqn:Ev; auto.
      exfalso. assert (existsb (fun e => match e with EConst j n => Nat.eqb i j && (match dget string_dec d n with Some _ => true | None => false end) | EVar _ => false end) es = true); [|congruence].
      apply existsb_exists. exists (EConst i n). split; auto. now rewrite Nat.eqb_refl, Ev.
Qed.
