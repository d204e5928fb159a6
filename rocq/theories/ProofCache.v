(** Proofs about the caching decorators. *)
From Coq Require Import String Bool Arith Lia List.
From Verif Require Import PyBase ProofBase ModelCache.
Import ListNotations.

(** * Keys *)
Section Keys.
  Context {num : Type}.

  Definition kv_of (v : pyval num) : option (kval num) :=
    match v with Sc x => Some (KSc x) | Vec l => Some (KTup l) | Nd _ => None end.

  Lemma cache_key_entries names (p : params num) k :
    cache_key num names p = Ok k ->
    forall n kv, In (n, kv) k <->
      In n names /\ exists v, dget string_dec p n = Some v /\ kv_of v = Some kv.
  Proof.
    revert k. induction names as [|a ns IH]; simpl; intros k H n kv.
    - injection H as <-. simpl. firstorder.
    - destruct (dget string_dec p a) as [v|] eqn:E.
      + assert (exists kv0 k', kv_of v = Some kv0 /\ cache_key num ns p = Ok k' /\ k = (a, kv0) :: k')
          as (kv0 & k' & E0 & E1 & ->).
        { destruct v; try discriminate; unfold rmap in H;
            destruct (cache_key num ns p) as [k'|]; try discriminate;
            injection H as <-; simpl; eauto. }
        specialize (IH _ E1). simpl. rewrite IH. split.
        * intros [Heq|[Hin Hv]]; [|tauto].
          injection Heq as <- <-. split; eauto.
        * intros [[<-|Hin] (v' & Hv & Hkv)]; [|right; eauto].
          left. rewrite E in Hv. injection Hv as <-. rewrite E0 in Hkv. congruence.
      + rewrite (IH _ H). split.
        * intros [? ?]; tauto.
        * intros [[<-|Hin] (v' & Hv & Hkv)]; [congruence|eauto].
  Qed.

  Lemma cache_key_nond names (p : params num) k :
    cache_key num names p = Ok k ->
    forall n v, In n names -> dget string_dec p n = Some v -> exists kv, kv_of v = Some kv.
  Proof.
    revert k. induction names as [|a ns IH]; simpl; intros k H n v Hin Hv; [tauto|].
    destruct (dget string_dec p a) as [v0|] eqn:E.
    - assert (exists kv0 k', kv_of v0 = Some kv0 /\ cache_key num ns p = Ok k') as (kv0 & k' & E0 & E1).
      { destruct v0; try discriminate; unfold rmap in H;
          destruct (cache_key num ns p) as [k'|]; try discriminate; simpl; eauto. }
      destruct Hin as [<-|Hin]; eauto.
      rewrite E in Hv. injection Hv as <-. eauto.
    - destruct Hin as [<-|Hin]; [congruence|eauto].
  Qed.

  (** Equal keys mean equal values of all named parameters. *)
  Lemma cache_key_inj names (p p' : params num) k :
    cache_key num names p = Ok k -> cache_key num names p' = Ok k ->
    forall n, In n names -> dget string_dec p n = dget string_dec p' n.
  Proof.
    intros H H' n Hin.
    assert (forall q q' : params num, cache_key num names q = Ok k -> cache_key num names q' = Ok k ->
              forall v, dget string_dec q n = Some v -> dget string_dec q' n = Some v) as HH.
    { intros q q' Hq Hq' v Hv.
      destruct (cache_key_nond _ _ _ Hq _ _ Hin Hv) as [kv Hkv].
      assert (In (n, kv) k) as HI by (apply (cache_key_entries _ _ _ Hq); eauto).
      apply (cache_key_entries _ _ _ Hq') in HI as (_ & v' & Hv' & Hkv').
      rewrite Hv'. f_equal. destruct v, v'; simpl in *; congruence. }
    destruct (dget string_dec p n) eqn:E.
    - symmetry. eapply (HH p p'); eauto.
    - destruct (dget string_dec p' n) eqn:E'; auto.
      exfalso. specialize (HH _ _ H' H _ E'). congruence.
  Qed.

  Lemma cache_key_ext names (p p' : params num) :
    (forall n, In n names -> dget string_dec p n = dget string_dec p' n) ->
    cache_key num names p = cache_key num names p'.
  Proof.
    induction names as [|a ns IH]; simpl; intros H; auto.
    rewrite <- (H a) by now left.
    rewrite IH by (intros; apply H; now right). reflexivity.
  Qed.
End Keys.

Section Cache.
  Context {num : Type}.
  Variable num_eq_dec : forall x y : num, {x = y} + {x <> y}.
  Notation keyd := (key_eq_dec num_eq_dec).

  (** * Transparency (C01) *)
  Section Transparent.
    Context {S B : Type}.
    Variables (names : list string) (limit : nat).
    Variable func : params num -> S -> S * result B.
    Variable val : params num -> option B.
    Hypothesis func_val : forall p s v, snd (func p s) = Ok v -> val p = Some v.
    Hypothesis val_names : forall p p',
      (forall n, In n names -> dget string_dec p n = dget string_dec p' n) -> val p = val p'.

    Definition cinv (c : cstate B) : Prop :=
      NoDup (dkeys (cmap c)) /\
      forall k v, dget keyd (cmap c) k = Some v ->
        forall p, cache_key num names p = Ok k -> val p = Some v.

    Lemma cevict_sub (c : cstate B) : NoDup (dkeys (cmap c)) ->
      NoDup (dkeys (cmap (cevict num_eq_dec limit c))) /\
      forall k v, dget keyd (cmap (cevict num_eq_dec limit c)) k = Some v -> dget keyd (cmap c) k = Some v.
    Proof.
      intros ND. unfold cevict. destruct (Nat.ltb _ _); auto.
      destruct (clist c); auto. simpl. split; [now apply dpop_NoDup|].
      intros. eapply dget_dpop_Some; eauto.
    Qed.

    Lemma cache_call_transparent p c s c' s' r :
      cinv c -> cache_call num_eq_dec names limit func p (c, s) = ((c', s'), r) ->
      cinv c' /\ (forall v, r = Ok v -> val p = Some v).
    Proof.
      intros [ND Hv]. unfold cache_call.
      destruct (cache_key num names p) as [k|e] eqn:Ek.
      2:{ intros H; injection H as <- <- <-. split; [split; auto|discriminate]. }
      destruct (dmem keyd (cmap c) k) eqn:Em.
      - intros H; injection H as <- <- <-. split; [split; auto|].
        unfold dgetE. destruct (dget keyd (cmap c) k) eqn:Eg; [|discriminate].
        intros v H; injection H as <-. eauto.
      - destruct (func p s) as [s1 [v|e]] eqn:Ef.
        + assert (val p = Some v) as Hvp by (eapply func_val; rewrite Ef; reflexivity).
          assert (cinv (CState (dset keyd (cmap c) k v) (clist c ++ [k]))) as Hi.
          { split; simpl; [now apply dset_NoDup|].
            intros k2 v2. rewrite dget_dset. destruct (keyd k2 k) as [->|n]; [|apply Hv].
            intros H; injection H as <-. intros p2 Hp2. rewrite <- Hvp. apply val_names.
            eapply cache_key_inj; eauto. }
          destruct Hi as [ND2 Hv2].
          destruct (cevict_sub _ ND2) as [ND3 Hs].
          intros H; injection H as <- <- <-. split.
          * split; auto. intros. eapply Hv2; eauto.
          * unfold dgetE. destruct (dget _ _ k) eqn:Eg; [|discriminate].
            intros v0 H; injection H as <-. eapply Hv2; eauto.
        + intros H; injection H as <- <- <-. split; [split; auto|discriminate].
    Qed.

    Lemma crun_transparent h c s :
      cinv c ->
      Forall (fun rec => forall v, r_out rec = Ok v -> val (r_params rec) = Some v)
             (snd (crun num_eq_dec names limit func h (c, s))).
    Proof.
      revert c s. induction h as [|[p|g] h IH]; cbn [crun]; intros c s Hc; [constructor| |].
      - destruct (cache_call _ names limit func p (c, s)) as [[c1 s1] r] eqn:E.
        specialize (IH c1 s1).
        destruct (crun num_eq_dec names limit func h (c1, s1)) as [o2 rs]. cbn [snd] in *.
        destruct (cache_call_transparent _ _ _ _ _ _ Hc E) as [Hc1 Hr].
        constructor; auto.
      - apply IH. assumption.
    Qed.

    Lemma cinv_empty : cinv cempty.
    Proof. split; [constructor|discriminate]. Qed.
  End Transparent.

  (** * The bound (C02) *)
  Section Bound.
    Context {S B : Type}.
    Variables (names : list string) (limit : nat).
    Variable func : params num -> S -> S * result B.

    (** last [n] elements *)
    Definition lastn {A} (n : nat) (l : list A) : list A := skipn (length l - n) l.

    Lemma lastn_snoc_le {A} n (l : list A) x : length l < n -> lastn n (l ++ [x]) = lastn n l ++ [x].
    Proof.
      intros H. unfold lastn. rewrite app_length. simpl.
      replace (length l + 1 - n) with 0 by lia. replace (length l - n) with 0 by lia. reflexivity.
    Qed.

    Lemma lastn_snoc {A} n (l : list A) x : 0 < n ->
      lastn n (l ++ [x]) = if Nat.ltb n (length (lastn n l ++ [x])) then tl (lastn n l ++ [x]) else lastn n l ++ [x].
    Proof.
      intros Hn. unfold lastn. rewrite !app_length, skipn_length. simpl.
      destruct (Nat.ltb_spec n (length l - (length l - n) + 1)) as [H|H].
      - assert (n <= length l) as Hl by lia.
        replace (length l + 1 - n) with (1 + (length l - n)) by lia.
        rewrite skipn_app.
        assert (length (skipn (length l - n) l) = n) as HL by (rewrite skipn_length; lia).
        replace (1 + (length l - n) - length l) with 0 by lia. simpl.
        destruct (skipn (length l - n) l) as [|y t] eqn:Es; [simpl in HL; lia|].
        change (skipn (1 + (length l - n)) l ++ [x] = t ++ [x]). f_equal.
        replace (1 + (length l - n)) with ((length l - n) + 1) by lia.
        assert (forall a b (q : list A), skipn (a + b) q = skipn b (skipn a q)) as Hss.
        { clear. induction a; intros b q; simpl; auto. destruct q; simpl; auto.
          now rewrite skipn_nil. }
        rewrite Hss, Es. reflexivity.
      - replace (length l + 1 - n) with 0 by lia. replace (length l - n) with 0 by lia. reflexivity.
    Qed.

    Lemma lastn_length {A} n (l : list A) : length (lastn n l) <= n.
    Proof. unfold lastn. rewrite skipn_length. lia. Qed.

    Lemma lastn_In {A} n (l : list A) x : In x (lastn n l) -> In x l.
    Proof.
      unfold lastn. intros H. rewrite <- (firstn_skipn (length l - n) l). apply in_or_app. now right.
    Qed.

    (** Keys of the calls that ran the underlying function. *)
    Fixpoint eval_keys (rs : list (crec (num:=num) S B)) : list (key num) :=
      match rs with
      | [] => []
      | r :: rs' =>
          if r_eval r then
            match cache_key num names (r_params r) with
            | Ok k => k :: eval_keys rs'
            | Err _ => eval_keys rs'
            end
          else eval_keys rs'
      end.

    Definition binv (log : list (key num)) (c : cstate B) : Prop :=
      dkeys (cmap c) = clist c /\ NoDup (clist c) /\ clist c = lastn limit log.

    Hypothesis limit_pos : 0 < limit.

    Lemma cache_call_binv log p c s c' s' r :
      binv log c ->
      cache_call num_eq_dec names limit func p (c, s) = ((c', s'), r) ->
      (would_eval num_eq_dec names p c = true -> is_ok r = true) ->
      binv (log ++ eval_keys [CRec p (c, s) r (would_eval num_eq_dec names p c)]) c'.
    Proof.
      intros (HK & ND & HL). unfold cache_call, would_eval. simpl.
      destruct (cache_key num names p) as [k|e] eqn:Ek.
      2:{ intros H _; injection H as <- <- <-. rewrite app_nil_r. repeat split; auto. }
      destruct (dmem keyd (cmap c) k) eqn:Em; simpl.
      - intros H _; injection H as <- <- <-. rewrite app_nil_r. repeat split; auto.
      - destruct (func p s) as [s1 [v|e]] eqn:Ef.
        2:{ intros H; injection H as <- <- <-. simpl. intros HH. discriminate HH; auto. }
        intros H _; injection H as <- <- <-.
        apply dmem_false in Em.
        assert (dkeys (dset keyd (cmap c) k v) = clist c ++ [k]) as HK2.
        { rewrite dset_new by assumption. unfold dkeys. rewrite map_app. simpl.
          fold (dkeys (cmap c)). now rewrite HK. }
        assert (NoDup (clist c ++ [k])) as ND2 by (apply NoDup_snoc; rewrite <- ?HK; auto; now rewrite HK).
        unfold binv, cevict. simpl. rewrite lastn_snoc by assumption. rewrite <- HL.
        destruct (Nat.ltb limit (length (clist c ++ [k]))); simpl.
        + destruct (clist c ++ [k]) as [|k0 rest] eqn:El; simpl; [destruct (clist c); discriminate|].
          inversion ND2; subst. repeat split; auto.
          destruct (dset keyd (cmap c) k v) as [|[k1 v1] d] eqn:Ed; [discriminate|].
          injection HK2 as -> HK2. simpl. destruct (keyd k0 k0); congruence.
        + repeat split; auto.
    Qed.

    Lemma crun_binv h log c s :
      binv log c ->
      (forall r, In r (snd (crun num_eq_dec names limit func h (c, s))) -> r_eval r = true -> is_ok (r_out r) = true) ->
      binv (log ++ eval_keys (snd (crun num_eq_dec names limit func h (c, s))))
           (fst (fst (crun num_eq_dec names limit func h (c, s)))).
    Proof.
      revert log c s. induction h as [|[p|g] h IH]; cbn [crun]; intros log c s Hb Hok.
      - simpl. now rewrite app_nil_r.
      - destruct (cache_call _ names limit func p (c, s)) as [[c1 s1] r] eqn:E.
        specialize (IH (log ++ eval_keys [CRec p (c, s) r (would_eval num_eq_dec names p c)]) c1 s1).
        destruct (crun num_eq_dec names limit func h (c1, s1)) as [[c2 s2] rs]. cbn [fst snd] in *.
        rewrite <- app_assoc in IH.
        assert (forall a l, eval_keys [a] ++ eval_keys l = eval_keys (a :: l)) as Hcat.
        { intros a l; simpl. destruct (r_eval a); auto. now destruct (cache_key num names (r_params a)). }
        rewrite Hcat in IH. apply IH.
        + eapply cache_call_binv; eauto. intros He.
          apply (Hok (CRec p (c, s) r (would_eval num_eq_dec names p c))); simpl; auto.
        + intros r0 Hr0. apply Hok. now right.
      - apply IH; auto.
    Qed.

    Lemma binv_empty : binv [] cempty.
    Proof. repeat split. constructor. Qed.

    Lemma binv_bound log c : binv log c -> length (cmap c) <= limit.
    Proof.
      intros (HK & ND & HL).
      assert (length (cmap c) = length (dkeys (cmap c))) as -> by (unfold dkeys; now rewrite map_length).
      rewrite HK, HL. apply lastn_length.
    Qed.

    (** After a call that returned [v], the same call returns [v] again without
        evaluating, whatever happened to the rest of the object. *)
    Lemma cache_call_repeat p c s c' s' v (s2 : S) :
      cache_call num_eq_dec names limit func p (c, s) = ((c', s'), Ok v) ->
      would_eval num_eq_dec names p c' = false /\
      cache_call num_eq_dec names limit func p (c', s2) = ((c', s2), Ok v).
    Proof.
      unfold cache_call, would_eval.
      destruct (cache_key num names p) as [k|e] eqn:Ek; [|discriminate].
      assert (forall cc : cstate B, dgetE keyd (cmap cc) k = Ok v -> dmem keyd (cmap cc) k = true) as Hm.
      { intros cc. unfold dgetE, dmem. now destruct (dget keyd (cmap cc) k). }
      destruct (dmem keyd (cmap c) k) eqn:Em.
      - intros H; injection H as <- <- H. rewrite Em, H. auto.
      - destruct (func p s) as [s1 [v1|e]] eqn:Ef; intros H; [|discriminate].
        injection H as <- <- H. rewrite (Hm _ H), H. auto.
    Qed.

    (** A call whose evaluation succeeds returns the computed value, unless the
        key itself is the oldest entry of an overfull list (C87). *)
    Lemma cache_call_fresh_value p c s s1 v k :
      cache_key num names p = Ok k -> dmem keyd (cmap c) k = false ->
      func p s = (s1, Ok v) ->
      (NoDup (dkeys (cmap c))) ->
      snd (cache_call num_eq_dec names limit func p (c, s)) =
        (if Nat.ltb limit (length (clist c ++ [k]))
         then if keyd k (hd k (clist c ++ [k])) then Err KeyError else Ok v
         else Ok v).
    Proof.
      intros Ek Em Ef ND. unfold cache_call. rewrite Ek, Em, Ef. simpl.
      unfold cevict. simpl.
      destruct (Nat.ltb limit (length (clist c ++ [k]))); simpl.
      - destruct (clist c ++ [k]) as [|k0 rest] eqn:El; [destruct (clist c); discriminate|].
        simpl. unfold dgetE. destruct (keyd k k0) as [->|n].
        + rewrite dget_dpop_same; auto. now apply dset_NoDup.
        + rewrite dget_dpop_other by assumption. now rewrite dget_dset_same.
      - unfold dgetE. now rewrite dget_dset_same.
    Qed.

    (** Without raising evaluations in the past, a successful evaluation returns. *)
    Lemma binv_fresh_value log p c s s1 v k :
      binv log c -> cache_key num names p = Ok k -> dmem keyd (cmap c) k = false ->
      func p s = (s1, Ok v) ->
      snd (cache_call num_eq_dec names limit func p (c, s)) = Ok v.
    Proof.
      intros (HK & ND & HL) Ek Em Ef.
      rewrite (cache_call_fresh_value _ _ _ _ _ _ Ek Em Ef) by now rewrite HK.
      apply dmem_false in Em. rewrite HK in Em.
      destruct (Nat.ltb_spec limit (length (clist c ++ [k]))) as [Hl|Hl]; auto.
      destruct (clist c) as [|k0 l] eqn:El; simpl in *; [lia|].
      destruct (keyd k k0) as [->|n]; auto. tauto.
    Qed.
  End Bound.

  (** * Limit one (C03) *)
  Section LimitOne.
    Context {S B : Type}.
    Variable names : list string.
    Variable func : params num -> S -> S * result B.
    Variable built : params num -> S -> Prop.
    Hypothesis func_built : forall p s s' v, func p s = (s', Ok v) -> built p s'.
    Hypothesis built_names : forall p p' s,
      (forall n, In n names -> dget string_dec p n = dget string_dec p' n) -> built p s -> built p' s.

    Definition binv1 (o : cstate B * S) : Prop :=
      dkeys (cmap (fst o)) = clist (fst o) /\
      ((clist (fst o) = []) \/
       exists k, clist (fst o) = [k] /\ forall p, cache_key num names p = Ok k -> built p (snd o)).

    Lemma cache_call_binv1 p o o' r :
      binv1 o -> cache_call num_eq_dec names 1 func p o = (o', r) ->
      (would_eval num_eq_dec names p (fst o) = true -> is_ok r = true) ->
      binv1 o' /\ (is_ok r = true -> built p (snd o')).
    Proof.
      destruct o as [c s]. intros [HK Hl]. unfold cache_call, would_eval. simpl in *.
      destruct (cache_key num names p) as [k|e] eqn:Ek.
      2:{ intros H _; injection H as <- <-. split; [split; auto|discriminate]. }
      destruct (dmem keyd (cmap c) k) eqn:Em; simpl.
      - intros H _; injection H as <- <-. split; [split; auto|]. intros _. simpl.
        apply dmem_true in Em. rewrite HK in Em. destruct Hl as [Hl|(k0 & Hl & Hb)].
        + rewrite Hl in Em. destruct Em.
        + rewrite Hl in Em. destruct Em as [->|[]]. auto.
      - destruct (func p s) as [s1 [v|e]] eqn:Ef.
        2:{ intros H Hok; injection H as <- <-. simpl in Hok. specialize (Hok eq_refl). discriminate. }
        intros H _; injection H as <- <-.
        apply dmem_false in Em. pose proof (func_built _ _ _ _ Ef) as Hb1.
        assert (forall p', cache_key num names p' = Ok k -> built p' s1) as Hb2.
        { intros p' Hp'. apply (built_names p); auto. eapply cache_key_inj; eauto. }
        split; [|auto]. unfold binv1, cevict. simpl.
        destruct Hl as [Hl|(k0 & Hl & Hb)]; rewrite Hl in *; simpl.
        + destruct (cmap c) as [|x d] eqn:Ed; [|discriminate]. simpl. split; auto.
          right. exists k. auto.
        + destruct (cmap c) as [|[kx vx] d] eqn:Ed; [discriminate|].
          unfold dkeys in HK. simpl in HK. injection HK as -> HK.
          destruct d; [|discriminate]. simpl.
          destruct (keyd k k0) as [->|n]; [exfalso; apply Em; now left|]. simpl.
          destruct (keyd k0 k0); [|congruence]. simpl. split; auto. right. exists k. auto.
    Qed.

    Lemma crun_binv1 h o :
      binv1 o ->
      (forall r, In r (snd (crun num_eq_dec names 1 func h o)) -> r_eval r = true -> is_ok (r_out r) = true) ->
      (forall g, In (Touch g) h -> forall p s, built p s -> built p (g s)) ->
      binv1 (fst (crun num_eq_dec names 1 func h o)).
    Proof.
      revert o. induction h as [|[p|g] h IH]; cbn [crun]; intros o Hb Hok Ht; auto.
      - destruct (cache_call _ names 1 func p o) as [o1 r] eqn:E.
        specialize (IH o1). destruct (crun num_eq_dec names 1 func h o1) as [o2 rs].
        cbn [fst snd] in *. apply IH.
        + eapply cache_call_binv1; eauto. intros He.
          apply (Hok (CRec p o r (would_eval num_eq_dec names p (fst o)))); simpl; auto.
        + intros r0 Hr0. apply Hok. now right.
        + intros g Hg. apply Ht. now right.
      - apply IH; auto.
        + destruct o as [c s]; destruct Hb as [HK Hl]; split; simpl in *; auto.
          destruct Hl as [Hl|(k & Hl & Hp)]; [now left|right]. exists k. split; auto.
        + intros g' Hg. apply Ht. now right.
    Qed.

    Lemma crun_app h1 h2 o :
      crun num_eq_dec names 1 func (h1 ++ h2) o =
      (fst (crun num_eq_dec names 1 func h2 (fst (crun num_eq_dec names 1 func h1 o))),
       snd (crun num_eq_dec names 1 func h1 o) ++
       snd (crun num_eq_dec names 1 func h2 (fst (crun num_eq_dec names 1 func h1 o)))).
    Proof.
      revert o. induction h1 as [|[p|g] h1 IH]; intros o; cbn [crun app].
      - simpl. now destruct (crun _ _ _ _ h2 o).
      - destruct (cache_call _ names 1 func p o) as [o1 r]. rewrite IH.
        now destruct (crun num_eq_dec names 1 func h1 o1).
      - apply IH.
    Qed.

    Lemma limit_one_last h p s o' rs :
      crun num_eq_dec names 1 func (h ++ [Call p]) (cempty, s) = (o', rs) ->
      (forall r, In r rs -> r_eval r = true -> is_ok (r_out r) = true) ->
      (forall g, In (Touch g) h -> forall p s, built p s -> built p (g s)) ->
      (forall k, cache_key num names p = Err k -> False) ->
      built p (snd o').
    Proof.
      intros HR Hok Ht Hk. rewrite crun_app in HR. injection HR as <- <-.
      set (o1 := fst (crun num_eq_dec names 1 func h (cempty, s))) in *.
      assert (binv1 o1) as Hb.
      { apply crun_binv1; auto.
        - split; simpl; auto.
        - intros r Hr. apply Hok. apply in_or_app. now left. }
      cbn [crun] in *.
      destruct (cache_call _ names 1 func p o1) as [o2 r] eqn:E. cbn [fst snd] in *.
      assert (would_eval num_eq_dec names p (fst o1) = true -> is_ok r = true) as He.
      { intros He. apply (Hok (CRec p o1 r (would_eval num_eq_dec names p (fst o1)))); simpl; auto.
        apply in_or_app. right. now left. }
      destruct (cache_call_binv1 _ _ _ _ Hb E He) as [_ HH]. apply HH.
      destruct (would_eval num_eq_dec names p (fst o1)) eqn:Ew; auto.
      unfold would_eval in Ew. unfold cache_call in E. destruct o1 as [c1 s1]. simpl in Ew.
      destruct (cache_key num names p) as [k|e] eqn:Ek; [|now destruct (Hk e)].
      apply negb_false_iff in Ew. rewrite Ew in E. injection E as <- <-.
      unfold dmem in Ew. unfold dgetE. destruct (dget keyd (cmap c1) k); auto.
    Qed.
  End LimitOne.
End Cache.

Section Touches.
  Context {num : Type}.
  Variable num_eq_dec : forall x y : num, {x = y} + {x <> y}.
  Notation keyd := (key_eq_dec num_eq_dec).
  Context {S B : Type}.
  Variables (names : list string) (limit : nat).
  Variable func : params num -> S -> S * result B.

  (** A call that evaluates returns what the function gives in the present state. *)
  Lemma cache_call_miss_current p c s v :
    NoDup (dkeys (cmap c)) ->
    would_eval num_eq_dec names p c = true ->
    snd (cache_call num_eq_dec names limit func p (c, s)) = Ok v ->
    snd (func p s) = Ok v.
  Proof.
    intros ND. unfold would_eval. destruct (cache_key num names p) as [k|e] eqn:Ek; [|discriminate].
    intros Em. apply negb_true_iff in Em.
    destruct (func p s) as [s1 [w|e]] eqn:Ef.
    - rewrite (cache_call_fresh_value _ _ _ _ _ _ _ _ _ _ Ek Em Ef ND).
      destruct (Nat.ltb limit (length (clist c ++ [k]))); auto.
      destruct (keyd k (hd k (clist c ++ [k]))); auto. discriminate.
    - unfold cache_call. rewrite Ek, Em, Ef. simpl. discriminate.
  Qed.
End Touches.

(** * Memoisation by identity (C07) *)
Section MemoProof.
  Variables Obj B : Type.
  Implicit Types h : heap Obj.

  (** [h2] keeps every object of [h1] unchanged. *)
  Definition hextends (h1 h2 : heap Obj) : Prop :=
    forall a c, h1 a = Some c -> h2 a = Some c.

  (** The argument is a live object, and so are its elements. *)
  Definition live (h : heap Obj) (a : nat) : Prop :=
    match h a with
    | Some (CSeq l) => forall x, In x l -> h x <> None
    | Some (CObj _) => True
    | None => False
    end.

  Variable method : heap Obj -> nat -> result B.
  (** The method reads only its argument and the argument's elements. *)
  Hypothesis method_ext : forall h1 h2 a, hextends h1 h2 -> live h1 a -> method h1 a = method h2 a.
  (** and a sequence only through its elements. *)
  Hypothesis method_seq : forall h a b l, h a = Some (CSeq l) -> h b = Some (CSeq l) ->
    method h a = method h b.

  Fixpoint growing (h0 : heap Obj) (hist : list (heap Obj * nat)) : Prop :=
    match hist with
    | [] => True
    | (h, a) :: rest => hextends h0 h /\ live h a /\ growing h rest
    end.

  Definition slot_ok h (slot : option (nat * B)) : Prop :=
    match slot with
    | None => True
    | Some (k, v) => live h k /\ method h k = Ok v
    end.

  Lemma live_ext h1 h2 a : hextends h1 h2 -> live h1 a -> live h2 a.
  Proof.
    unfold live. intros He. destruct (h1 a) as [[l|o]|] eqn:E; [| |tauto].
    - rewrite (He _ _ E). intros H x Hx Hn. specialize (H x Hx).
      destruct (h1 x) eqn:Ex; [|congruence]. apply He in Ex. congruence.
    - now rewrite (He _ _ E).
  Qed.

  Lemma keycheck_sound h k a : live h k -> live h a -> keycheck Obj h k a = true -> method h k = method h a.
  Proof.
    unfold live, keycheck. destruct (h k) as [[l|o]|] eqn:Ek; [| |tauto].
    - intros _. destruct (h a) as [[l2|o2]|] eqn:Ea; try discriminate. intros _ H.
      apply andb_true_iff in H as [HL H]. apply Nat.eqb_eq in HL.
      apply combine_same_eq in H; auto. subst. eapply method_seq; eauto.
    - intros _ _ H. apply Nat.eqb_eq in H. now subst.
  Qed.

  Lemma mrun_transparent hist h0 slot :
    slot_ok h0 slot -> growing h0 hist ->
    mrun Obj B method hist slot = map (fun ha => method (fst ha) (snd ha)) hist.
  Proof.
    revert h0 slot. induction hist as [|[h a] rest IH]; intros h0 slot Hs Hg; simpl; auto.
    destruct Hg as (He & Hl & Hg).
    assert (slot_ok h slot) as Hs'.
    { destruct slot as [[k v]|]; simpl in *; auto. destruct Hs as [Hk Hm]. split.
      - eapply live_ext; eauto.
      - rewrite <- Hm. symmetry. now apply method_ext. }
    unfold memoized.
    assert (forall sl r, (match method h a with Ok v => (Some (a, v), Ok v) | Err e => (slot, Err e) end) = (sl, r) ->
              r = method h a /\ slot_ok h sl) as Hmiss.
    { intros sl r. destruct (method h a) as [v|e] eqn:Em; intros H; injection H as <- <-; split; simpl; auto. }
    destruct slot as [[k v]|].
    - destruct (keycheck Obj h k a) eqn:Ec.
      + f_equal; [|eapply IH; eauto]. destruct Hs' as [Hk Hm]. rewrite <- Hm. now apply keycheck_sound.
      + destruct (match method h a with Ok _ => _ | _ => _ end) as [sl r] eqn:E.
        destruct (Hmiss _ _ eq_refl) as [-> Hsl]. f_equal. eapply IH; eauto.
    - destruct (match method h a with Ok _ => _ | _ => _ end) as [sl r] eqn:E.
      destruct (Hmiss _ _ eq_refl) as [-> Hsl]. f_equal. eapply IH; eauto.
  Qed.
End MemoProof.
