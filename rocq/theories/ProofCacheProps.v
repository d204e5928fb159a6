(** The statements about caches in the form used by PropCache.v. *)
From Coq Require Import String Bool Arith Lia List ZArith.
From Verif Require Import PyBase ProofBase ModelCache ProofCache.
Import ListNotations.
Open Scope string_scope.
Open Scope list_scope.

(** C01 *)
Lemma cache_transparent_lem :
  forall (num : Type) (num_eq_dec : forall x y : num, {x = y} + {x <> y})
    (S B : Type) (names : list string) (limit : nat)
    (func : params num -> S -> S * result B) (val : params num -> option B),
    (* a successful evaluation gives [val], which depends on the named parameters only *)
    (forall p s v, snd (func p s) = Ok v -> val p = Some v) ->
    (forall p p', (forall n, In n names -> dget string_dec p n = dget string_dec p' n) -> val p = val p') ->
    forall (h : list (event S)) (s0 : S) (r : crec S B) (v : B),
      In r (snd (crun num_eq_dec names limit func h (cempty, s0))) ->
      r_out r = Ok v ->
      val (r_params r) = Some v /\
      (forall s w, snd (func (r_params r) s) = Ok w -> w = v).
Proof.
  intros num dec S B names limit func val Hf Hn h s0 r v Hin Hr.
  assert (val (r_params r) = Some v) as E.
  { pose proof (crun_transparent dec names limit func val Hf Hn h cempty s0 (cinv_empty dec names val)) as HH.
    rewrite Forall_forall in HH. now apply (HH r). }
  split; auto. intros s w Hw. apply Hf in Hw. congruence.
Qed.

(** C01, companion: no call of a history in which nothing raises is refused. *)
Lemma cache_returns_when_nothing_raises_lem :
  forall (num : Type) (num_eq_dec : forall x y : num, {x = y} + {x <> y})
    (S B : Type) (names : list string) (limit : nat)
    (func : params num -> S -> S * result B),
    0 < limit ->
    (forall p s, exists v, snd (func p s) = Ok v) ->
    forall (h : list (event S)) (s0 : S) (r : crec S B),
      In r (snd (crun num_eq_dec names limit func h (cempty, s0))) ->
      is_ok (r_out r) = is_ok (cache_key num names (r_params r)).
Proof.
  intros num dec S B names limit func Hl Hf h s0.
  assert (forall c log s r, binv limit log c ->
            In r (snd (crun dec names limit func h (c, s))) ->
            is_ok (r_out r) = is_ok (cache_key num names (r_params r))) as HH.
  { clear s0. induction h as [|[p|g] h IH]; cbn [crun]; intros c log s r Hb.
    - simpl. tauto.
    - destruct (cache_call dec names limit func p (c, s)) as [[c1 s1] r1] eqn:E.
      assert (is_ok r1 = is_ok (cache_key num names p)) as Hr1.
      { destruct (cache_key num names p) as [k|e] eqn:Ek.
        - destruct (dmem (key_eq_dec dec) (cmap c) k) eqn:Em.
          + unfold cache_call in E. rewrite Ek, Em in E. injection E as <- <- <-.
            unfold dmem in Em. unfold dgetE. now destruct (dget _ (cmap c) k).
          + destruct (func p s) as [s2 [v|e]] eqn:Ef.
            * pose proof (binv_fresh_value dec names limit func Hl _ _ _ _ _ _ _ Hb Ek Em Ef) as HH.
              rewrite E in HH. simpl in HH. now rewrite HH.
            * exfalso. destruct (Hf p s) as [v Hv]. rewrite Ef in Hv. discriminate.
        - unfold cache_call in E. rewrite Ek in E. now injection E as <- <- <-. }
      assert (would_eval dec names p c = true -> is_ok r1 = true) as Hok.
      { unfold would_eval. destruct (cache_key num names p); [now rewrite Hr1|discriminate]. }
      pose proof (cache_call_binv dec names limit func Hl _ _ _ _ _ _ _ Hb E Hok) as Hb1.
      specialize (IH c1 _ s1 r Hb1). destruct (crun dec names limit func h (c1, s1)) as [o2 rs].
      cbn [snd] in *. intros [<-|Hin]; simpl; auto.
    - simpl. eauto. }
  intros r Hin. eapply HH; eauto. apply binv_empty.
Qed.

(** C02 *)
Lemma cache_bound_lem :
  forall (num : Type) (num_eq_dec : forall x y : num, {x = y} + {x <> y})
    (S B : Type) (names : list string) (limit : nat)
    (func : params num -> S -> S * result B),
    0 < limit ->
    forall (h : list (event S)) (s0 : S) (o : cstate B * S) (rs : list (crec S B)),
      crun num_eq_dec names limit func h (cempty, s0) = (o, rs) ->
      (forall r, In r rs -> r_eval r = true -> is_ok (r_out r) = true) ->
      (* at most [limit] results *)
      length (cmap (fst o)) <= limit /\
      (* one per key, for exactly the last [limit] evaluated keys, which are distinct *)
      dkeys (cmap (fst o)) = lastn limit (eval_keys names rs) /\
      NoDup (dkeys (cmap (fst o))).
Proof.
  intros num dec S B names limit func Hl h s0 o rs Hrun Hok.
  pose proof (crun_binv dec names limit func Hl h [] cempty s0 (binv_empty limit)) as HH.
  rewrite Hrun in HH. simpl in HH. specialize (HH Hok).
  split; [eapply binv_bound; eauto|]. destruct HH as (HK & ND & HL).
  rewrite HK. split; auto.
Qed.

(** C02, second half: a repeated call does not evaluate. *)
Lemma cache_repeat_hits_lem :
  forall (num : Type) (num_eq_dec : forall x y : num, {x = y} + {x <> y})
    (S B : Type) (names : list string) (limit : nat)
    (func func2 : params num -> S -> S * result B)
    (p p2 : params num) (o o' : cstate B * S) (v : B) (s2 : S),
      cache_call num_eq_dec names limit func p o = (o', Ok v) ->
      (forall n, In n names -> dget string_dec p n = dget string_dec p2 n) ->
      (* the object changed and even the function replaced in between *)
      cache_call num_eq_dec names limit func2 p2 (fst o', s2) = ((fst o', s2), Ok v).
Proof.
  intros num dec S B names limit func func2 p p2 [c s] [c' s'] v s2 E Hn.
  destruct (cache_call_repeat dec names limit func _ _ _ _ _ _ s2 E) as [Hw Hc].
  simpl. unfold cache_call in *. rewrite <- (cache_key_ext _ _ _ Hn).
  unfold would_eval in Hw. destruct (cache_key num names p) as [k|e]; [|discriminate].
  apply negb_false_iff in Hw. rewrite Hw in *. exact Hc.
Qed.

(** ** Witnesses use integer valued parameters. *)
Definition zp (l : list (string * Z)) : params Z := map (fun kv => (fst kv, Sc (snd kv))) l.

(** C02: with failures the number of held results is not bounded by the limit.
    A function that works only once the object is ready. *)
Definition needs_ready (p : params Z) (ready : bool) : bool * result Z :=
  (ready, if ready then Ok 1%Z else Err TypeError).


Definition xcall (n : nat) : event (num:=Z) bool := Call (zp [("x", Z.of_nat n)]).

Lemma crun_app2 {num} (dec : forall x y : num, {x = y} + {x <> y}) {S B} names limit
    (func : params num -> S -> S * result B) h1 h2 o :
  fst (crun dec names limit func (h1 ++ h2) o) =
  fst (crun dec names limit func h2 (fst (crun dec names limit func h1 o))).
Proof.
  revert o. induction h1 as [|[p|g] h1 IH]; intros o; cbn [crun app]; auto.
  destruct (cache_call dec names limit func p o) as [o1 r].
  specialize (IH o1). destruct (crun dec names limit func (h1 ++ h2) o1).
  destruct (crun dec names limit func h1 o1). exact IH.
Qed.

Definition xkey (n : nat) : key Z := [("x", KSc (Z.of_nat n))].

Lemma xkey_inj a b : xkey a = xkey b -> a = b.
Proof. intros H. injection H as H. lia. Qed.

Lemma xfail n k (l : list (key Z)) :
  fst (crun Z.eq_dec ["x"] k needs_ready (repeat (xcall 0) n) (CState [] l, false)) =
  (CState [] (l ++ repeat (xkey 0) n), false).
Proof.
  revert l. induction n as [|n IH]; intros l; [simpl; now rewrite app_nil_r|].
  cbn [repeat crun xcall].
  change (cache_call Z.eq_dec ["x"] k needs_ready (zp [("x", Z.of_nat 0)]) (CState [] l, false))
    with ((CState [] (l ++ [xkey 0]), false) : cstate Z * bool, Err TypeError : result Z).
  cbv iota beta. specialize (IH (l ++ [xkey 0])).
  destruct (crun Z.eq_dec ["x"] k needs_ready (repeat (xcall 0) n) (CState [] (l ++ [xkey 0]), false)).
  cbn [fst] in *. rewrite IH. now rewrite <- app_assoc.
Qed.

Lemma xsucc limit n j d :
  limit < S n -> j <= n -> dkeys d = map xkey (seq 1 (n - j)) ->
  exists d', dkeys d' = map xkey (seq 1 n) /\
  fst (crun Z.eq_dec ["x"] limit needs_ready (map xcall (seq (S (n - j)) j))
        (CState d (repeat (xkey 0) j ++ map xkey (seq 1 (n - j))), true)) =
  (CState d' (map xkey (seq 1 n)), true).
Proof.
  intros Hl. revert d. induction j as [|j IH]; intros d Hj Hd.
  - exists d. rewrite Nat.sub_0_r in *. split; auto.
  - set (m := n - S j) in *.
    assert (n - j = S m) as Hm by lia.
    assert (~ In (xkey (S m)) (dkeys d)) as Hni.
    { rewrite Hd. intros H. apply in_map_iff in H as (x & Hx & Hin). apply xkey_inj in Hx.
      apply in_seq in Hin. lia. }
    cbn [seq map crun xcall].
    unfold cache_call at 1.
    change (cache_key Z ["x"] (zp [("x", Z.of_nat (S m))])) with (Ok (xkey (S m))).
    cbv iota beta. cbn [cmap clist].
    destruct (dmem (key_eq_dec Z.eq_dec) d (xkey (S m))) eqn:Em; [apply dmem_true in Em; tauto|].
    cbn [needs_ready]. cbv iota beta zeta.
    assert (dset (key_eq_dec Z.eq_dec) d (xkey (S m)) 1%Z = d ++ [(xkey (S m), 1%Z)]) as Hset by now apply dset_new.
    unfold cevict. cbn [clist cmap]. rewrite Hset.
    assert (Nat.ltb limit (length ((repeat (xkey 0) (S j) ++ map xkey (seq 1 m)) ++ [xkey (S m)])) = true) as ->.
    { apply Nat.ltb_lt. rewrite !app_length, repeat_length, map_length, seq_length. simpl. lia. }
    cbn [repeat app]. cbv iota beta.
    assert (~ In (xkey 0) (dkeys (d ++ [(xkey (S m), 1%Z)]))) as Hn0.
    { unfold dkeys. rewrite map_app. fold (dkeys d). rewrite Hd. intros H. apply in_app_iff in H as [H|[H|[]]].
      - apply in_map_iff in H as (x & Hx & Hin). apply xkey_inj in Hx. apply in_seq in Hin. lia.
      - apply xkey_inj in H. lia. }
    rewrite dpop_notin by assumption.
    destruct (IH (d ++ [(xkey (S m), 1%Z)])) as (d' & Hd' & Hrun); [lia| |].
    { unfold dkeys. rewrite map_app. fold (dkeys d). rewrite Hd, Hm, seq_S, map_app. reflexivity. }
    exists d'. split; auto. rewrite Hm in Hrun.
    rewrite seq_S, map_app, app_assoc in Hrun. simpl (map xkey [1 + m]) in Hrun.
    rewrite <- Hrun. now destruct (crun _ _ _ _ _ _).
Qed.

Lemma cache_bound_with_failures_refuted_lem :
  forall limit : nat, 0 < limit ->
  forall bound : nat, exists h : list (event bool),
    bound < length (cmap (fst (fst (crun Z.eq_dec ["x"] limit needs_ready h (cempty, false))))).
Proof.
  intros limit Hl bound. set (n := S (bound + limit)).
  exists (repeat (xcall 0) n ++ [Touch (fun _ => true)] ++ map xcall (seq (S (n - n)) n)).
  rewrite !crun_app2. unfold cempty. rewrite xfail. cbn [crun fst snd app].
  destruct (xsucc limit n n []) as (d' & Hd' & Hrun); [lia|lia|now rewrite Nat.sub_diag|].
  rewrite Nat.sub_diag in *. simpl (map xkey (seq 1 0)) in Hrun. rewrite app_nil_r in Hrun.
  rewrite Hrun. cbn [fst cmap].
  assert (length d' = length (dkeys d')) as -> by (unfold dkeys; now rewrite map_length).
  rewrite Hd', map_length, seq_length. lia.
Qed.

(** C03 *)
Definition gp_built {num F L} (bases : list (string * (params num -> result (F * L))))
    (p : params num) (s : gpstate F L) : Prop :=
  (* blocks and labels are those of the bases at [p], in order *)
  exists bl, rmapM (fun kf => rmap (fun x => (fst kf, x)) (snd kf p)) bases = Ok bl /\
    gp_basis s = map (fun kx => (fst kx, fst (snd kx))) bl /\
    gp_labels s = map (fun kx => (fst kx, snd (snd kx))) bl.

Lemma build_loop_spec {num F L} (bases : list (string * (params num -> result (F * L)))) p labels acc labels' blocks :
  NoDup (map fst labels ++ map fst bases) ->
  build_loop bases p labels acc = (labels', Ok blocks) ->
  exists bl, rmapM (fun kf => rmap (fun x => (fst kf, x)) (snd kf p)) bases = Ok bl /\
    blocks = acc ++ map (fun kx => (fst kx, fst (snd kx))) bl /\
    labels' = labels ++ map (fun kx => (fst kx, snd (snd kx))) bl.
Proof.
  revert labels acc. induction bases as [|[k f] rest IH]; intros labels acc ND; simpl.
  - intros H; injection H as <- <-. exists []. rewrite !app_nil_r. auto.
  - destruct (f p) as [[b l]|e] eqn:Ef; [|discriminate]. simpl in *. intros H.
    assert (~ In k (dkeys labels)) as Hk.
    { intros Hin. apply NoDup_remove_2 in ND. apply ND. apply in_or_app. now left. }
    rewrite dset_new in H by assumption.
    apply IH in H.
    + destruct H as (bl & -> & -> & ->). simpl. eexists. split; [reflexivity|].
      simpl. now rewrite <- !app_assoc.
    + rewrite map_app. simpl. rewrite <- app_assoc. exact ND.
Qed.

Lemma basis_builder_latest_lem :
  forall (num : Type) (num_eq_dec : forall x y : num, {x = y} + {x <> y}) (F L : Type)
    (bases : list (string * (params num -> result (F * L)))) (names : list string),
    NoDup (map fst bases) ->
    (* the bases depend on the parameters through the names in [basis_params] *)
    (forall kf p p', In kf bases ->
       (forall n, In n names -> dget string_dec p n = dget string_dec p' n) -> snd kf p = snd kf p') ->
    forall (h : list (event (gpstate F L))) (p : params num) (s0 : gpstate F L) o rs,
      crun num_eq_dec names 1 (construct_basis bases) (h ++ [Call p]) (cempty, s0) = (o, rs) ->
      (forall g, ~ In (Touch g) h) ->
      (forall r, In r rs -> r_eval r = true -> is_ok (r_out r) = true) ->
      is_ok (cache_key num names p) = true ->
      gp_built bases p (snd o).
Proof.
  intros num dec F L bases names ND Hn h p s0 o rs Hrun Ht Hok Hk.
  eapply (limit_one_last dec names (construct_basis bases) (gp_built bases)); eauto.
  - intros q s s' v. unfold construct_basis.
    destruct (build_loop bases q [] []) as [labels [blocks|e]] eqn:E; [|discriminate].
    intros H; injection H as <- <-. apply build_loop_spec in E; [|exact ND].
    destruct E as (bl & E1 & -> & ->). exists bl. simpl. auto.
  - intros q q' s Hqq (bl & E1 & E2 & E3). exists bl. split; auto. rewrite <- E1.
    assert (forall kf, In kf bases -> snd kf q = snd kf q') as HH by (intros; eapply Hn; eauto).
    clear -HH. induction bases as [|kf bases IH]; simpl; auto.
    rewrite (HH kf) by now left. rewrite IH; auto. intros. apply HH. now right.
  - intros g Hg. now apply Ht in Hg.
  - intros e He. rewrite He in Hk. discriminate.
Qed.

(** A GP with two selections; the second basis rejects x = 2. *)
Definition two_bases : list (string * (params Z -> result (Z * Z))) :=
  [("a", fun p => match dget string_dec p "x" with Some (Sc x) => Ok (x, x) | _ => Err KeyError end);
   ("b", fun p => match dget string_dec p "x" with
                  | Some (Sc 2%Z) => Err ValueError
                  | Some (Sc x) => Ok (x, x) | _ => Err KeyError end)].

Lemma basis_builder_latest_refuted_lem :
  exists (h : list (event (gpstate Z Z))) (p : params Z) (s0 : gpstate Z Z),
    (forall g, ~ In (Touch g) h) /\
    let run := crun Z.eq_dec ["x"] 1 (construct_basis two_bases) (h ++ [Call p]) (cempty, s0) in
    (* the last call returns normally, but the object does not describe [p] *)
    (exists r, last (snd run) r = CRec p (r_before r) (Ok tt) false /\ In r (snd run)) /\
    ~ gp_built two_bases p (snd (fst run)).
Proof.
  exists [Call (zp [("x", 1%Z)]); Call (zp [("x", 2%Z)])], (zp [("x", 1%Z)]), (GPState [] []).
  split; [simpl; intuition discriminate|].
  cbv zeta. split.
  - eexists. split; [|right; right; left; reflexivity]. vm_compute. reflexivity.
  - intros (bl & E1 & E2 & E3). vm_compute in E1. injection E1 as <-. vm_compute in E3. discriminate.
Qed.

(** C04 *)
Lemma constants_set_before_use_aux :
  forall (num : Type) (num_eq_dec : forall x y : num, {x = y} + {x <> y}) (B : Type)
    (names : list string) (limit : nat) (body : (string -> option (pyval num)) -> result B)
    (consts : dict string (option (pyval num))) (qs : list (params num)) (ps : list (params num)),
    (* [body] reads the varying parameters in [names] and the constants *)
    (forall f g, (forall n, In n names \/ In n (dkeys consts) -> f n = g n) -> body f = body g) ->
    (* the dictionaries passed later do not override constants *)
    (forall p n, In p ps -> In n (dkeys consts) -> ~ In n names -> dget string_dec p n = None) ->
    let consts' := fold_left (fun c q => set_defaults q c) qs consts in
    forall r v,
      In r (snd (crun num_eq_dec names limit (reads_get body)
                  (map (fun q => Touch (set_defaults q)) qs ++ map Call ps) (cempty, consts))) ->
      r_out r = Ok v -> body (sget (r_params r) consts') = Ok v.
Proof.
  intros num dec B names limit body consts qs ps Hbody Hov consts' r9 v9.
  assert (forall c s, snd (crun dec names limit (reads_get body)
             (map (fun q => Touch (set_defaults q)) qs ++ map Call ps) (c, s)) =
            snd (crun dec names limit (reads_get body) (map Call ps)
             (c, fold_left (fun c q => set_defaults q c) qs s))) as Hpre.
  { clear. induction qs as [|q qs IH]; intros c s; simpl; auto. }
  rewrite Hpre. fold consts'. clear Hpre.
  assert (dkeys consts' = dkeys consts) as Hkeys.
  { unfold consts'. clear. revert consts. induction qs as [|q qs IH]; intros c; simpl; auto.
    rewrite IH. unfold dkeys, set_defaults. rewrite map_map. apply map_ext.
    intros [k o]. simpl. now destruct (dget string_dec q k). }
  clearbody consts'.
  (* the state never changes, so the value depends on the key only *)
  set (val := fun p => body (sget p consts')).
  assert (forall p p', In p ps -> In p' ps ->
            (forall n, In n names -> dget string_dec p n = dget string_dec p' n) -> val p = val p') as Hval.
  { intros p p' Hp Hp' Hpp. apply Hbody. intros n Hn. unfold sget.
    destruct (in_dec string_dec n names) as [Hi|Hi].
    - now rewrite Hpp.
    - destruct Hn as [Hn|Hn]; [tauto|]. rewrite !Hov; auto. }
  assert (forall (ps1 : list (params num)) c,
    (forall p, In p ps1 -> In p ps) ->
    (NoDup (dkeys (cmap c)) /\
     forall k v, dget (key_eq_dec dec) (cmap c) k = Some v ->
       exists p, In p ps /\ cache_key num names p = Ok k /\ val p = Ok v) ->
    forall r v, In r (snd (crun dec names limit (reads_get body) (map Call ps1) (c, consts'))) ->
      r_out r = Ok v -> val (r_params r) = Ok v) as HH.
  { induction ps1 as [|p ps1 IH]; intros c Hsub [ND Hc] r0 v0; cbn [map crun]; [simpl; tauto|].
    destruct (cache_call dec names limit (reads_get body) p (c, consts')) as [[c1 s1] r1] eqn:E.
    assert (s1 = consts' /\
      (NoDup (dkeys (cmap c1)) /\
       forall k v, dget (key_eq_dec dec) (cmap c1) k = Some v ->
         exists p, In p ps /\ cache_key num names p = Ok k /\ val p = Ok v) /\
      (forall v, r1 = Ok v -> val p = Ok v)) as (-> & Hc1 & Hr1).
    { unfold cache_call in E. destruct (cache_key num names p) as [k|e] eqn:Ek.
      2:{ injection E as <- <- <-. repeat split; auto. discriminate. }
      assert (In p ps) as Hp by (apply Hsub; now left).
      destruct (dmem (key_eq_dec dec) (cmap c) k) eqn:Em.
      - injection E as <- <- <-. repeat split; auto. unfold dgetE.
        destruct (dget _ (cmap c) k) eqn:Eg; [|discriminate]. intros v H; injection H as <-.
        destruct (Hc _ _ Eg) as (p' & Hp' & Hk' & Hv'). rewrite <- Hv'. apply Hval; auto.
        eapply cache_key_inj; eauto.
      - unfold reads_get in E. fold (val p) in E. destruct (val p) as [w|e] eqn:Ew.
        + assert (NoDup (dkeys (dset (key_eq_dec dec) (cmap c) k w))) as ND2 by now apply dset_NoDup.
          destruct (cevict_sub dec limit (CState (dset (key_eq_dec dec) (cmap c) k w) (clist c ++ [k])) ND2) as [ND3 Hs].
          simpl in Hs. injection E as <- <- <-. split; auto. split; [split; auto|].
          * intros k2 v2 H2. apply Hs in H2. rewrite dget_dset in H2.
            destruct (key_eq_dec dec k2 k) as [->|n]; [|eauto]. injection H2 as <-. eauto.
          * unfold dgetE. destruct (dget _ _ k) eqn:Eg; [|discriminate]. intros v H; injection H as <-.
            apply Hs in Eg. rewrite dget_dset_same in Eg. congruence.
        + injection E as <- <- <-. repeat split; auto; discriminate. }
    specialize (IH c1 (fun q Hq => Hsub q (or_intror Hq)) Hc1).
    destruct (crun dec names limit (reads_get body) (map Call ps1) (c1, consts')) as [o2 rs].
    cbn [snd] in *. intros [<-|Hin]; simpl; eauto. }
  intros Hin Hr. eapply (HH ps cempty); eauto. split; [constructor|discriminate].
Qed.

(** C04: a miss always uses the present constants. *)
Lemma constants_used_on_miss_aux :
  forall (num : Type) (num_eq_dec : forall x y : num, {x = y} + {x <> y}) (B : Type)
    (names : list string) (limit : nat) (body : (string -> option (pyval num)) -> result B)
    (p : params num) (c : cstate B) (consts : dict string (option (pyval num))) (v : B),
    NoDup (dkeys (cmap c)) ->
    would_eval num_eq_dec names p c = true ->
    snd (cache_call num_eq_dec names limit (reads_get body) p (c, consts)) = Ok v ->
    body (sget p consts) = Ok v.
Proof.
  intros. eapply (cache_call_miss_current num_eq_dec names limit (reads_get body)); eauto.
Qed.

(** The value a signal should use for a name: the one in the dictionary of the
    call, else for a constant the one it was last set to, else the one it had. *)
Definition last_value {num} (qs : list (params num)) (n : string) : option (pyval num) :=
  match filter (fun q => dmem string_dec q n) (rev qs) with
  | q :: _ => dget string_dec q n
  | [] => None
  end.
Definition current {num} (p : params num) (qs : list (params num))
    (consts : dict string (option (pyval num))) (n : string) : option (pyval num) :=
  match dget string_dec p n with
  | Some v => Some v
  | None => match dget string_dec consts n with
            | None => None
            | Some o => match last_value qs n with Some v => Some v | None => o end
            end
  end.

Lemma dget_set_defaults : forall num (q : params num) consts n,
  dget string_dec (set_defaults q consts) n =
  match dget string_dec consts n with
  | None => None
  | Some o => match dget string_dec q n with Some v => Some (Some v) | None => Some o end
  end.
Proof.
  intros num q consts n. induction consts as [|[k o] c IH]; simpl; auto.
  destruct (dget string_dec q k) as [v|] eqn:E; simpl; destruct (string_dec n k) as [->|Hn]; auto; now rewrite E.
Qed.

Lemma current_ok : forall num (p : params num) qs consts n,
  sget p (fold_left (fun c q => set_defaults q c) qs consts) n = current p qs consts n.
Proof.
  intros num p qs consts n. unfold sget, current. destruct (dget string_dec p n); auto.
  assert (dget string_dec (fold_left (fun c q => set_defaults q c) qs consts) n =
    match dget string_dec consts n with
    | None => None
    | Some o => Some (match last_value qs n with Some v => Some v | None => o end)
    end) as ->; [|now destruct (dget string_dec consts n)].
  induction qs as [|q qs IH] using rev_ind; simpl.
  - unfold last_value. simpl. destruct (dget string_dec consts n); auto.
  - rewrite fold_left_app. simpl. rewrite dget_set_defaults, IH.
    assert (last_value (qs ++ [q]) n = match dget string_dec q n with Some v => Some v | None => last_value qs n end) as ->.
    { unfold last_value. rewrite rev_app_distr. simpl. unfold dmem. destruct (dget string_dec q n) eqn:Eq; auto. }
    destruct (dget string_dec consts n), (dget string_dec q n); auto.
Qed.

Lemma constants_set_before_use_lem :
  forall (num : Type) (num_eq_dec : forall x y : num, {x = y} + {x <> y}) (B : Type)
    (names : list string) (limit : nat) (body : (string -> option (pyval num)) -> result B)
    (consts : dict string (option (pyval num))) (qs : list (params num)) (ps : list (params num)),
    (* [body] reads the varying parameters in [names] and the constants *)
    (forall f g, (forall n, In n names \/ In n (dkeys consts) -> f n = g n) -> body f = body g) ->
    (* the dictionaries passed later do not override constants *)
    (forall p n, In p ps -> In n (dkeys consts) -> ~ In n names -> dget string_dec p n = None) ->
    forall r v,
      In r (snd (crun num_eq_dec names limit (reads_get body)
                  (map (fun q => Touch (set_defaults q)) qs ++ map Call ps) (cempty, consts))) ->
      r_out r = Ok v -> body (current (r_params r) qs consts) = Ok v.
Proof.
  intros num dec B names limit body consts qs ps Hb Hp r v Hin Hr.
  rewrite <- (constants_set_before_use_aux num dec B names limit body consts qs ps Hb Hp r v Hin Hr).
  apply Hb. intros n _. symmetry. apply current_ok.
Qed.

Lemma constants_used_on_miss_lem :
  forall (num : Type) (num_eq_dec : forall x y : num, {x = y} + {x <> y}) (B : Type)
    (names : list string) (limit : nat) (body : (string -> option (pyval num)) -> result B)
    (p : params num) (c : cstate B) (consts : dict string (option (pyval num))) (qs : list (params num)) (v : B),
    (forall f g, (forall n, f n = g n) -> body f = body g) ->
    NoDup (dkeys (cmap c)) ->
    would_eval num_eq_dec names p c = true ->
    (* the constants were set by [qs], whenever that was *)
    snd (cache_call num_eq_dec names limit (reads_get body) p
           (c, fold_left (fun cs q => set_defaults q cs) qs consts)) = Ok v ->
    body (current p qs consts) = Ok v.
Proof.
  intros num dec B names limit body p c consts qs v Hb ND Hw Hc.
  rewrite <- (constants_used_on_miss_aux num dec B names limit body p c _ v ND Hw Hc).
  apply Hb. intros n. symmetry. apply current_ok.
Qed.

(** White noise with a constant efac: variance = efac. *)
Definition const_body (get : string -> option (pyval Z)) : result Z :=
  match get "efac" with Some (Sc x) => Ok x | _ => Err TypeError end.

Lemma constants_take_effect_refuted_lem :
  exists (consts : dict string (option (pyval Z))) (q : params Z) (p : params Z),
    let run := crun Z.eq_dec [] 2 (reads_get const_body)
                 [Call p; Touch (set_defaults q); Call p] (cempty, consts) in
    exists r old new, nth_error (snd run) 1 = Some r /\ r_out r = Ok old /\
      const_body (current p [q] consts) = Ok new /\ old <> new.
Proof.
  exists [("efac", Some (Sc 1%Z))], (zp [("efac", 3%Z)]), [].
  eexists _, 1%Z, 3%Z. repeat split; try discriminate.
Qed.

(** C05 *)
Lemma shared_array_same_key_lem :
  forall (num : Type) (num_eq_dec : forall x y : num, {x = y} + {x <> y}) (A : Type)
    (names : list string) (limit : nat) (wf : params num -> A) (p : params num) (o : cstate unit * A),
    NoDup (dkeys (cmap (fst o))) ->
    would_eval num_eq_dec names p (fst o) = true ->
    (* when the call evaluates, the returned reference shows the delay at [p] *)
    shared_read (fst (cache_call num_eq_dec names limit (shared_write wf) p o)) = wf p.
Proof.
  intros num dec A names limit wf p [c s] _. unfold would_eval, cache_call, shared_read, shared_write. simpl.
  destruct (cache_key num names p) as [k|e]; [|discriminate].
  intros Hm. apply negb_true_iff in Hm. rewrite Hm. reflexivity.
Qed.

Lemma cached_results_change_refuted_lem :
  (* one signal: the second of three results read through the reference, and the
     first result re-read later *)
  (exists (wf : params Z -> Z) (p1 p2 : params Z) (s0 : Z),
     (forall p p', dget string_dec p "a" = dget string_dec p' "a" -> wf p = wf p') /\
     let o1 := fst (cache_call Z.eq_dec ["a"] 2 (shared_write wf) p1 (cempty, s0)) in
     let o2 := fst (cache_call Z.eq_dec ["a"] 2 (shared_write wf) p2 o1) in
     let (o3, r3) := cache_call Z.eq_dec ["a"] 2 (shared_write wf) p1 o2 in
     shared_read o1 = wf p1 /\ r3 = Ok tt /\ shared_read o3 <> wf p1) /\
  (* a collection: the third delay is not the sum of the signals' delays *)
  (exists (wf g : params Z -> Z) (p1 p2 p3 : params Z) (s0 : Z),
     (forall p p', dget string_dec p "a" = dget string_dec p' "a" -> wf p = wf p') /\
     (forall p p', dget string_dec p "b" = dget string_dec p' "b" -> g p = g p') /\
     let call := ephem_coll_delay Z.eq_dec Z.add ["a"] ["b"] wf g in
     let o1 := fst (call p1 (cempty, (cempty, s0))) in
     let o2 := fst (call p2 o1) in
     exists d, snd (call p3 o2) = Ok d /\ d <> (wf p3 + g p3)%Z).
Proof.
  set (rd := fun (n : string) (p : params Z) =>
    match dget string_dec p n with Some (Sc x) => x | _ => 0%Z end).
  assert (forall n p p', dget string_dec p n = dget string_dec p' n -> rd n p = rd n p') as Hrd.
  { intros n p p' H. unfold rd. now rewrite H. }
  split.
  - exists (rd "a"), (zp [("a", 1%Z)]), (zp [("a", 2%Z)]), 0%Z.
    split; [apply Hrd|]. vm_compute. repeat split; discriminate.
  - exists (rd "a"), (rd "b"), (zp [("a", 1%Z); ("b", 10%Z)]), (zp [("a", 2%Z); ("b", 10%Z)]),
      (zp [("a", 1%Z); ("b", 20%Z)]), 0%Z.
    split; [apply Hrd|]. split; [apply Hrd|]. vm_compute. eexists; split; [reflexivity|discriminate].
Qed.

(** C06 *)
Lemma collection_delay_is_sum_aux :
  forall (num : Type) (num_eq_dec : forall x y : num, {x = y} + {x <> y}) (D : Type)
    (zeroD : D) (addD : D -> D -> D) (l : list (csig D)),
    (* every signal's delay depends on what it declares, and basis signals that
       produce a delay have no varying basis parameters; the others give a
       constant delay (python 0 or None) *)
    (forall s, In s l ->
       exists names, (forall p p', (forall n, In n names -> dget string_dec p n = dget string_dec p' n) ->
                        cs_delay s p = cs_delay s p') /\
       match cs_type s with
       | DeterministicT => names = cs_delay_params s
       | BasisT | CommonBasisT => names = (cs_basis_params s ++ cs_delay_params s)%list /\
           (cs_basis_params s = [] \/ forall p p', cs_delay s p = cs_delay s p')
       | _ => names = []
       end) ->
    forall (h : list (event unit)) (r : crec unit D) (v : D),
      In r (snd (crun num_eq_dec (delay_params l) 2
                   (fun p s => (s, delay_sum zeroD addD l p)) h (cempty, tt))) ->
      r_out r = Ok v ->
      delay_sum zeroD addD l (r_params r) = Ok v.
Proof.
  intros num dec D zeroD addD l Hl h r v Hin Hr.
  assert (forall p p', (forall n, In n (delay_params l) -> dget string_dec p n = dget string_dec p' n) ->
            delay_sum zeroD addD l p = delay_sum zeroD addD l p') as Hdep.
  { intros p p' Hpp. unfold delay_sum. f_equal.
    assert (forall s, In s l -> cs_delay s p = cs_delay s p') as HH.
    { intros s Hs. destruct (Hl s Hs) as (names & Hn & Ht).
      assert (forall n, In n (cs_delay_params s) ->
                match cs_type s with WhiteT | OtherT => False | _ => True end ->
                dget string_dec p n = dget string_dec p' n) as Hd.
      { intros n Hi Hty. apply Hpp. unfold delay_params. apply in_flat_map. exists s. split; auto.
        destruct (cs_type s); tauto. }
      destruct (cs_type s) eqn:Et.
      - apply Hn. subst. simpl. tauto.
      - destruct Ht as [-> [H0|H0]]; auto. apply Hn. rewrite H0. simpl. auto.
      - destruct Ht as [-> [H0|H0]]; auto. apply Hn. rewrite H0. simpl. auto.
      - apply Hn. subst. auto.
      - apply Hn. subst. simpl. tauto. }
    clear -HH. induction l as [|s l IH]; simpl; auto.
    rewrite (HH s) by now left. rewrite IH; auto. intros. apply HH. now right. }
  destruct (cache_transparent_lem num dec unit D (delay_params l) 2
               (fun p s => (s, delay_sum zeroD addD l p))
               (fun p => match delay_sum zeroD addD l p with Ok x => Some x | Err _ => None end))
    with (h := h) (s0 := tt) (r := r) (v := v) as [HH _]; auto.
  - intros p s x. simpl. now intros ->.
  - intros p p' Hpp. now rewrite (Hdep p p' Hpp).
  - destruct (delay_sum zeroD addD l (r_params r)); congruence.
Qed.

Lemma collection_delay_is_sum_lem :
  forall (num : Type) (num_eq_dec : forall x y : num, {x = y} + {x <> y}) (D : Type)
    (zeroD : D) (addD : D -> D -> D) (l : list (csig D)),
    (* every signal's delay depends on what it declares, and basis signals that
       produce a delay have no varying basis parameters; the others give a
       constant delay (python 0 or None) *)
    (forall s, In s l ->
       exists names, (forall p p', (forall n, In n names -> dget string_dec p n = dget string_dec p' n) ->
                        cs_delay s p = cs_delay s p') /\
       match cs_type s with
       | DeterministicT => names = cs_delay_params s
       | BasisT | CommonBasisT => names = (cs_basis_params s ++ cs_delay_params s)%list /\
           (cs_basis_params s = [] \/ forall p p', cs_delay s p = cs_delay s p')
       | _ => names = []
       end) ->
    forall (h : list (event unit)) (r : crec unit D) (v : D),
      In r (snd (crun num_eq_dec (delay_params l) 2
                   (fun p s => (s, delay_sum zeroD addD l p)) h (cempty, tt))) ->
      r_out r = Ok v ->
      (* python's [sum] of the delays of all the signals at these parameters *)
      exists ds, Forall2 (fun s d => cs_delay s (r_params r) = Ok d) l ds /\ v = fold_left addD ds zeroD.
Proof.
  intros num dec D zeroD addD l Hl h r v Hin Hr.
  pose proof (collection_delay_is_sum_aux num dec D zeroD addD l Hl h r v Hin Hr) as E.
  unfold delay_sum, rmap, rbind in E. destruct (rmapM _ l) as [ds|e] eqn:Em; [|discriminate].
  injection E as E. exists ds. split; [|now rewrite <- E]. clear -Em.
  revert ds Em. induction l as [|s l IH]; simpl; intros ds E; [injection E as <-; constructor|].
  destruct (cs_delay s (r_params r)) as [d|e] eqn:Es; [|discriminate]. simpl in E.
  destruct (rmapM _ l) as [ds'|e]; [|discriminate]. simpl in E. injection E as <-. constructor; auto.
Qed.

(** A Fourier GP with sampled coefficients: basis scaled by [b], coefficient [c]. *)
Definition coeff_gp : csig (num:=Z) Z :=
  CSig BasisT [] ["b"] ["c"]
    (fun p => match dget string_dec p "b", dget string_dec p "c" with
              | Some (Sc b), Some (Sc c) => Ok (b * c)%Z
              | _, _ => Err KeyError end).

Lemma collection_delay_stale_refuted_lem :
  exists p1 p2 : params Z,
    let o1 := fst (coll_get_delay Z.eq_dec 0%Z Z.add [coeff_gp] p1 (cempty, tt)) in
    exists d d', snd (coll_get_delay Z.eq_dec 0%Z Z.add [coeff_gp] p2 o1) = Ok d /\
      cs_delay coeff_gp p2 = Ok d' /\ d <> d'.
Proof.
  exists (zp [("b", 1%Z); ("c", 5%Z)]), (zp [("b", 2%Z); ("c", 5%Z)]).
  vm_compute. eexists _, _. repeat split; discriminate.
Qed.

(** C07 *)
Lemma memo_by_id_transparent_lem :
  forall (Obj B : Type) (method : heap Obj -> nat -> result B),
    (* the method reads its argument and the argument's elements, and a
       sequence only through its elements *)
    (forall h1 h2 a, hextends Obj h1 h2 -> live Obj h1 a -> method h1 a = method h2 a) ->
    (forall h a b l, h a = Some (CSeq l) -> h b = Some (CSeq l) -> method h a = method h b) ->
    forall (h0 : heap Obj) (hist : list (heap Obj * nat)),
      (* objects are created but never modified *)
      growing Obj h0 hist ->
      mrun Obj B method hist None = map (fun ha => method (fst ha) (snd ha)) hist.
Proof.
  intros Obj B method H1 H2 h0 hist Hg. eapply mrun_transparent; eauto. exact I.
Qed.

Definition mread (h : heap Z) (a : nat) : result Z :=
  match h a with
  | Some (CObj x) => Ok x
  | Some (CSeq l) => Ok (fold_right Z.add 0%Z
                          (map (fun x => match h x with Some (CObj z) => z | _ => 0%Z end) l))
  | None => Err OtherError
  end.

Lemma memo_by_id_mutation_refuted_lem :
  exists hist : list (heap Z * nat),
    mrun Z Z mread hist None <> map (fun ha => mread (fst ha) (snd ha)) hist.
Proof.
  exists [((fun a => if Nat.eqb a 0 then Some (CObj 1%Z) else None), 0);
          ((fun a => if Nat.eqb a 0 then Some (CObj 2%Z) else None), 0)].
  vm_compute. discriminate.
Qed.

(** C87 *)
Lemma retry_without_failures_lem :
  forall (num : Type) (num_eq_dec : forall x y : num, {x = y} + {x <> y})
    (S B : Type) (names : list string) (limit : nat) (func : params num -> S -> S * result B)
    (h : list (event S)) (s0 : S) o rs p s1 v,
    0 < limit ->
    crun num_eq_dec names limit func h (cempty, s0) = (o, rs) ->
    (* no evaluation raised so far *)
    (forall r, In r rs -> r_eval r = true -> is_ok (r_out r) = true) ->
    would_eval num_eq_dec names p (fst o) = true ->
    func p (snd o) = (s1, Ok v) ->
    snd (cache_call num_eq_dec names limit func p o) = Ok v.
Proof.
  intros num dec S B names limit func h s0 [c s] rs p s1 v Hl Hrun Hok Hw Hf.
  pose proof (crun_binv dec names limit func Hl h [] cempty s0 (binv_empty limit)) as HH.
  rewrite Hrun in HH. simpl in HH. specialize (HH Hok).
  unfold would_eval in Hw. cbn [fst snd] in *. destruct (cache_key num names p) as [k|] eqn:Ek; [|discriminate].
  apply negb_true_iff in Hw. eapply binv_fresh_value; eauto.
Qed.

Lemma retry_after_failure_refuted_lem :
  forall limit : nat, 0 < limit ->
  exists (h : list (event bool)) (p : params Z),
    let o := fst (crun Z.eq_dec ["x"] limit needs_ready h (cempty, false)) in
    (* the evaluation succeeds ... *)
    snd (needs_ready p (snd o)) = Ok 1%Z /\
    would_eval Z.eq_dec ["x"] p (fst o) = true /\
    (* ... but the call raises *)
    snd (cache_call Z.eq_dec ["x"] limit needs_ready p o) = Err KeyError.
Proof.
  intros limit Hl.
  exists (repeat (xcall 0) limit ++ [Touch (fun _ => true)]), (zp [("x", Z.of_nat 0)]).
  cbv zeta. rewrite crun_app2. unfold cempty. rewrite xfail. cbn [crun fst snd app].
  split; [reflexivity|]. split; [reflexivity|].
  erewrite cache_call_fresh_value with (k := xkey 0); try reflexivity.
  2: constructor.
  cbn [clist]. rewrite app_length, repeat_length. simpl length.
  replace (Nat.ltb limit (limit + 1)) with true by (symmetry; apply Nat.ltb_lt; lia).
  destruct limit as [|m]; [lia|]. simpl hd.
  destruct (key_eq_dec Z.eq_dec (xkey 0) (xkey 0)); congruence.
Qed.
