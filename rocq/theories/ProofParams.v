(** Proofs about parameter lists, vectors and priors. *)
From Coq Require Import String Bool Arith Lia List Permutation Sorted Reals Lra.
From Verif Require Import PyBase ProofBase ModelParams.
Import ListNotations.
Open Scope string_scope.
Open Scope list_scope.

(** * C10 *)

(** [reach p x]: x is p or a (hyper)parameter of the prior of p, at any depth;
    constants are not followed. *)
Inductive reach : par -> par -> Prop :=
| reach_self : forall i n s pr, reach (Par i n s pr) (Par i n s pr)
| reach_hyper : forall i n s pr kw q x, In (kw, q) pr -> reach q x -> reach (Par i n s pr) x.

Lemma reach_nonconst p x : reach p x -> is_const x = false.
Proof. induction 1; auto. Qed.

Section ParInd.
  Variable P : par -> Prop.
  Hypothesis HC : forall i n, P (Cst i n).
  Hypothesis HP : forall i n s pr, (forall kw q, In (kw, q) pr -> P q) -> P (Par i n s pr).
  Fixpoint par_rect' (p : par) : P p :=
    match p with
    | Cst i n => HC i n
    | Par i n s pr =>
        HP i n s pr
          ((fix go (l : list (string * par)) : forall kw q, In (kw, q) l -> P q :=
              match l return forall kw q, In (kw, q) l -> P q with
              | [] => fun _ _ H => match H with end
              | (k, q0) :: l' => fun kw q H =>
                  match H with
                  | or_introl E => eq_ind q0 P (par_rect' q0) q (f_equal snd E)
                  | or_intror H' => go l' kw q H'
                  end
              end) pr)
    end.
End ParInd.

Lemma par_params_reach p x : In x (par_params p) <-> reach p x.
Proof.
  revert x. induction p as [i n|i n s pr IH] using par_rect'; intros x.
  - simpl. split; [tauto|]. intros H. inversion H.
  - cbn [par_params]. set (go := fix go l := match l with [] => _ | _ => _ end).
    assert (forall l, (forall kw q, In (kw, q) l -> forall x, In x (par_params q) <-> reach q x) ->
              forall x, In x (go l) <-> exists kw q, In (kw, q) l /\ reach q x) as Hgo.
    { induction l as [|[k q] l IHl]; simpl; intros Hl y.
      - split; [tauto|]. intros (? & ? & [] & _).
      - rewrite in_app_iff, IHl by (intros; eapply Hl; eauto).
        assert (In y (if is_const q then [] else par_params q) <-> reach q y) as ->.
        { destruct (is_const q) eqn:E.
          - destruct q; [discriminate|]. simpl. split; [tauto|]. intros H; inversion H.
          - eapply Hl. now left. }
        split.
        + intros [H|(kw & q' & Hin & Hr)]; [exists k, q; auto|exists kw, q'; auto].
        + intros (kw & q' & [E|Hin] & Hr); [injection E as <- <-; now left|right; eauto]. }
    split.
    + intros [<-|H]; [constructor|].
      apply filter_In in H as [H _]. apply Hgo in H; auto.
      destruct H as (kw & q & Hin & Hr). econstructor; eauto.
    + intros H. inversion H; subst; [now left|]. right.
      apply filter_In. split; [apply Hgo; eauto|]. apply reach_nonconst in H6. now rewrite H6.
Qed.

Lemma name_le_sle p q : name_le p q = sle (par_name p) (par_name q).
Proof. reflexivity. Qed.

(** Sets of objects. *)
Definition same_id (p q : par) := par_id p = par_id q.

Lemma set_fold_spec l : forall s,
  NoDup (map par_id s) ->
  (forall x y, In x (s ++ l) -> In y (s ++ l) -> par_id x = par_id y -> x = y) ->
  NoDup (map par_id (fold_left set_add l s)) /\
  forall x, In x (fold_left set_add l s) <-> In x s \/ In x l.
Proof.
  induction l as [|p l IH]; intros s ND Hid; simpl.
  - split; auto. tauto.
  - assert (In p (s ++ p :: l)) as Hp by (apply in_or_app; right; now left).
    unfold set_add at 2 4. destruct (existsb (fun q => Nat.eqb (par_id q) (par_id p)) s) eqn:E.
    + apply existsb_exists in E as (q & Hq & E). apply Nat.eqb_eq in E.
      assert (q = p) as -> by (apply Hid; auto; apply in_or_app; now left).
      destruct (IH s ND) as [H1 H2].
      { intros x y Hx Hy. apply Hid; apply in_app_iff; [apply in_app_iff in Hx|apply in_app_iff in Hy]; simpl; tauto. }
      split; auto. intros x. rewrite H2. split; [tauto|]. intros [?|[<-|?]]; auto.
    + destruct (IH (s ++ [p])) as [H1 H2].
      * rewrite map_app. apply NoDup_snoc; auto. intros Hin. apply in_map_iff in Hin as (q & Eq & Hq).
        assert (existsb (fun q => Nat.eqb (par_id q) (par_id p)) s = true); [|congruence].
        apply existsb_exists. exists q. split; auto. now apply Nat.eqb_eq.
      * intros x y Hx Hy. rewrite <- app_assoc in Hx, Hy. simpl in Hx, Hy. now apply Hid.
      * split; auto. intros x. rewrite H2, in_app_iff. simpl. tauto.
Qed.

Lemma pta_params_lem :
  forall (enum : list par -> list par) (l : list collection),
    (* the set is iterated in some order *)
    (forall s, Permutation (enum s) s) ->
    (* one identity is one object *)
    (forall c1 s1 k1 p1 x c2 s2 k2 p2 y,
       In c1 l -> In s1 c1 -> In (k1, p1) s1 -> reach p1 x ->
       In c2 l -> In s2 c2 -> In (k2, p2) s2 -> reach p2 y -> par_id x = par_id y -> x = y) ->
    let ps := pta_params enum l in
    (* complete and nothing else *)
    (forall x, In x ps <-> exists c s k p, In c l /\ In s c /\ In (k, p) s /\ reach p x) /\
    (* each object once *)
    NoDup (map par_id ps) /\ NoDup ps /\
    (* ascending names *)
    StronglySorted (fun p q => sle (par_name p) (par_name q) = true) ps /\
    (* no constants *)
    (forall x, In x ps -> is_const x = false).
Proof.
  intros enum l He Hid ps.
  assert (forall c x, In c l -> In x (coll_params enum c) <-> exists s k, In s c /\ In (k, x) s /\ is_const x = false) as Hcoll.
  { intros c x Hc. unfold coll_params. rewrite (isort_perm name_le), He.
    assert (forall y, In y (flat_map signal_params c) <-> exists s k, In s c /\ In (k, y) s /\ is_const y = false) as Hfm.
    { intros y. rewrite in_flat_map. unfold signal_params. split.
      - intros (s & Hs & H). apply filter_In in H as [H E]. apply in_map_iff in H as ([k q] & <- & H).
        exists s, k. apply negb_true_iff in E. auto.
      - intros (s & k & Hs & Hk & E). exists s. split; auto. apply filter_In. rewrite E. split; auto.
        now apply (in_map snd) in Hk. }
    destruct (set_fold_spec (flat_map signal_params c) []) as [_ H]; [constructor| |].
    - simpl. intros a b Ha Hb. apply Hfm in Ha as (s1 & k1 & ? & ? & Ea), Hb as (s2 & k2 & ? & ? & Eb).
      apply (Hid c s1 k1 a a c s2 k2 b b); auto; destruct a, b; try discriminate; constructor.
    - rewrite H. simpl. rewrite Hfm. tauto. }
  assert (forall x, In x (flat_map par_params (flat_map (coll_params enum) l)) <->
            exists c s k p, In c l /\ In s c /\ In (k, p) s /\ reach p x) as Hall.
  { intros x. rewrite in_flat_map. split.
    - intros (p & Hp & Hx). apply in_flat_map in Hp as (c & Hc & Hp). apply Hcoll in Hp as (s & k & Hs & Hk & _); auto.
      apply par_params_reach in Hx. eauto 8.
    - intros (c & s & k & p & Hc & Hs & Hk & Hr). exists p. split; [|now apply par_params_reach].
      apply in_flat_map. exists c. split; auto. apply Hcoll; auto. exists s, k. repeat split; auto.
      inversion Hr; reflexivity. }
  destruct (set_fold_spec (flat_map par_params (flat_map (coll_params enum) l)) []) as [ND Hin]; [constructor| |].
  { simpl. intros a b Ha Hb. apply Hall in Ha as (c1 & s1 & k1 & p1 & ? & ? & ? & ?), Hb as (c2 & s2 & k2 & p2 & ? & ? & ? & ?).
    eauto. }
  assert (Permutation ps (fold_left set_add (flat_map par_params (flat_map (coll_params enum) l)) [])) as HP.
  { unfold ps, pta_params. rewrite isort_perm. apply He. }
  assert (forall x, In x ps <-> exists c s k p, In c l /\ In s c /\ In (k, p) s /\ reach p x) as HIN.
  { intros x. rewrite HP, Hin, Hall. simpl. tauto. }
  assert (NoDup (map par_id ps)) as NDid.
  { eapply Permutation_NoDup; [|exact ND]. apply Permutation_map. now symmetry. }
  split; [exact HIN|]. split; [exact NDid|]. split; [eapply NoDup_map_inv; exact NDid|]. split.
  - apply (isort_sorted name_le).
    + intros x y. rewrite !name_le_sle. apply sle_total.
    + intros x y z. rewrite !name_le_sle. apply sle_trans.
  - intros x Hx. apply HIN in Hx as (c & s & k & p & _ & _ & _ & Hr). eapply reach_nonconst; eauto.
Qed.

(** * C11 *)
Section Vec.
  Context {num : Type}.
  Implicit Types (ps : list par) (xs : list num).

  Definition total ps := fold_right (fun p n => width p + n) 0 ps.

  Lemma names_of_length p : length (names_of p) = width p.
  Proof. unfold names_of, width. destruct (par_size p) as [[|n]|]; auto. now rewrite map_length, seq_length. Qed.

  Lemma param_names_length ps : length (param_names ps) = total ps.
  Proof. induction ps as [|p ps IH]; simpl; auto. unfold param_names in *. simpl. rewrite app_length, names_of_length, IH. reflexivity. Qed.

  Lemma width_pos p : 0 < width p.
  Proof. unfold width. destruct (par_size p) as [[|n]|]; lia. Qed.

  (** The block of a parameter starting at [ct]. *)
  Definition block (p : par) (ct : nat) xs : option (pval num) :=
    if Nat.ltb 1 (width p) then Some (PV (slice ct (ct + width p) xs))
    else option_map PS (nth_error xs ct).

  Lemma slice_eq a n xs : slice a (a + n) xs = firstn n (skipn a xs).
  Proof. unfold slice. f_equal. lia. Qed.

  Lemma block_list p ct xs v : ct + width p <= length xs -> block p ct xs = Some v ->
    pval_list v = slice ct (ct + width p) xs.
  Proof.
    unfold block. intros Hl. pose proof (width_pos p) as Hw. destruct (Nat.ltb_spec 1 (width p)) as [H|H].
    - intros E; injection E as <-. reflexivity.
    - replace (width p) with 1 by lia. destruct (nth_error xs ct) as [x|] eqn:E; [|discriminate].
      intros E2; injection E2 as <-. rewrite slice_eq. simpl.
      apply nth_error_split in E as (l1 & l2 & -> & <-).
      rewrite skipn_app, Nat.sub_diag, skipn_all. reflexivity.
  Qed.

  Lemma map_params_loop_spec ps : forall ct xs ret,
    NoDup (map par_name ps) -> (forall p, In p ps -> ~ In (par_name p) (dkeys ret)) ->
    ct + total ps <= length xs ->
    exists d, map_params_loop ps ct xs ret = Ok (ret ++ d) /\ dkeys d = map par_name ps /\
      forall l1 p l2, ps = l1 ++ p :: l2 ->
        exists v, dget string_dec d (par_name p) = Some v /\ block p (ct + total l1) xs = Some v.
  Proof.
    induction ps as [|p ps IH]; intros ct xs ret ND Hret Hlen; simpl.
    - exists []. rewrite app_nil_r. repeat split; auto. intros [|] ? ? H; discriminate.
    - inversion ND as [|? ? Hn ND']; subst. simpl in Hlen.
      assert (exists v, block p ct xs = Some v) as [v Hv].
      { unfold block. destruct (Nat.ltb 1 (width p)); eauto.
        destruct (nth_error xs ct) eqn:E; simpl; eauto. apply nth_error_None in E.
        pose proof (width_pos p). lia. }
      assert (map_params_loop (p :: ps) ct xs ret =
              map_params_loop ps (ct + width p) xs (ret ++ [(par_name p, v)])) as E.
      { simpl. unfold block in Hv. rewrite <- (dset_new string_dec) by (apply Hret; now left).
        destruct (Nat.ltb 1 (width p)).
        - now injection Hv as <-.
        - destruct (nth_error xs ct); [|discriminate]. now injection Hv as <-. }
      simpl in E. rewrite E. clear E.
      destruct (IH (ct + width p) xs (ret ++ [(par_name p, v)])) as (d & Hd & Hk & Hb); auto.
      + intros q Hq. unfold dkeys. rewrite map_app. rewrite in_app_iff. simpl. intros [H|[H|[]]].
        * apply (Hret q); [now right|assumption].
        * apply Hn. rewrite H. now apply in_map.
      + lia.
      + exists ((par_name p, v) :: d). rewrite Hd, <- app_assoc. simpl. unfold dkeys in *. simpl. rewrite Hk.
        repeat split; auto.
        intros l1 q l2 Hs. destruct l1 as [|q1 l1]; simpl in Hs; injection Hs as -> Hs.
        * exists v. simpl. destruct (string_dec (par_name q) (par_name q)); [|congruence].
          rewrite Nat.add_0_r. auto.
        * destruct (Hb l1 q l2 Hs) as (w & Hw & Hbl). exists w. simpl.
          destruct (string_dec (par_name q) (par_name q1)) as [E|E].
          -- exfalso. apply Hn. rewrite <- E. apply in_map. rewrite Hs. apply in_or_app. right. now left.
          -- rewrite Nat.add_assoc. auto.
  Qed.

  Lemma flatten_blocks ps : forall ct xs d,
    ct + total ps <= length xs ->
    (forall l1 p l2, ps = l1 ++ p :: l2 ->
        exists v, dget string_dec d (par_name p) = Some v /\ block p (ct + total l1) xs = Some v) ->
    flatten ps d = Ok (firstn (total ps) (skipn ct xs)).
  Proof.
    induction ps as [|p ps IH]; intros ct xs d Hlen Hb; simpl; auto.
    simpl in Hlen. destruct (Hb [] p ps eq_refl) as (v & Hv & Hbl). simpl in Hbl. rewrite Nat.add_0_r in Hbl.
    unfold dgetE. rewrite Hv. simpl. rewrite (IH (ct + width p) xs d).
    - simpl. f_equal. assert (ct + width p <= length xs) as HLe by lia. rewrite (block_list _ _ _ _ HLe Hbl), slice_eq.
      replace (skipn (ct + width p) xs) with (skipn (width p) (skipn ct xs)).
      + set (ys := skipn ct xs). rewrite <- (firstn_skipn (width p) ys) at 3.
        rewrite firstn_app. f_equal.
        * rewrite firstn_firstn. f_equal. lia.
        * f_equal. rewrite firstn_length. unfold ys. rewrite skipn_length. lia.
      + clear. revert xs. induction ct as [|ct IH]; intros xs; simpl; auto.
        destruct xs; simpl; auto. now destruct (width p).
    - lia.
    - intros l1 q l2 Hs. destruct (Hb (p :: l1) q l2) as (w & Hw & H); [now rewrite Hs|].
      exists w. split; auto. simpl in H. now rewrite <- Nat.add_assoc.
  Qed.
End Vec.

Lemma map_params_lossless_lem :
  forall (num : Type) (ps : list par) (xs : list num),
    NoDup (map par_name ps) ->
    length xs = length (param_names ps) ->
    exists d, map_params ps xs = Ok d /\
      dkeys d = map par_name ps /\
      (* each parameter gets the entries at the positions of its names, as a
         float if it has one name and as a vector otherwise *)
      (forall l1 p l2, ps = l1 ++ p :: l2 ->
         exists v, dget string_dec d (par_name p) = Some v /\
           pval_list v = firstn (length (names_of p)) (skipn (length (param_names l1)) xs) /\
           (length (names_of p) = 1 <-> exists x, v = PS x)) /\
      (* and reading back gives the vector *)
      flatten ps d = Ok xs.
Proof.
  intros num ps xs ND HL. rewrite param_names_length in HL.
  destruct (map_params_loop_spec ps 0 xs [] ND) as (d & Hd & Hk & Hb); [simpl; tauto|simpl; lia|].
  exists d. split; [exact Hd|]. split; auto. split.
  - intros l1 p l2 Hs. destruct (Hb l1 p l2 Hs) as (v & Hv & Hbl). simpl in Hbl.
    exists v. split; auto. rewrite names_of_length, param_names_length.
    assert (total ps = total l1 + (width p + total l2)) as Ht.
    { rewrite Hs. clear. induction l1 as [|q l1 IH]; simpl; auto. rewrite IH. lia. }
    split.
    + assert (0 + total l1 + width p <= length xs) as HLe by lia. simpl in HLe. rewrite (block_list _ _ _ _ HLe Hbl). apply slice_eq.
    + unfold block in Hbl. pose proof (width_pos p). destruct (Nat.ltb_spec 1 (width p)).
      * injection Hbl as <-. split; [lia|intros [? ?]; discriminate].
      * destruct (nth_error xs (total l1)); [|discriminate]. injection Hbl as <-. split; [eauto|lia].
  - rewrite (flatten_blocks ps 0 xs d); simpl; auto; [|lia]. f_equal. rewrite <- HL. apply firstn_all.
Qed.

(** Entry by entry: the value found under the i-th flattened name is the i-th entry. *)
Lemma map_params_too_long_lem :
  forall (num : Type) (ps : list par) (xs extra : list num),
    length xs = length (param_names ps) ->
    map_params ps (xs ++ extra) = map_params ps xs.
Proof.
  intros num ps xs extra HL. rewrite param_names_length in HL. unfold map_params.
  assert (forall ps ct ret, ct + total ps <= length xs ->
            map_params_loop ps ct (xs ++ extra) ret = map_params_loop ps ct xs ret) as HH.
  { clear. induction ps as [|p ps IH]; intros ct ret H; simpl; auto. simpl in H. pose proof (width_pos p).
    destruct (Nat.ltb 1 (width p)).
    - rewrite !slice_eq. rewrite skipn_app.
      rewrite firstn_app.
      replace (width p - length (skipn ct xs)) with 0 by (rewrite skipn_length; lia).
      simpl. rewrite app_nil_r. apply IH. lia.
    - rewrite nth_error_app1 by lia. destruct (nth_error xs ct); auto. apply IH. lia. }
  apply HH. simpl. lia.
Qed.

Lemma map_params_too_short_refuted_lem :
  (* one entry missing: no error, and a vector of the wrong length *)
  exists (ps : list par) (xs : list nat) d l,
    S (length xs) = length (param_names ps) /\ map_params ps xs = Ok d /\
    dget string_dec d "v"%string = Some (PV l) /\ length l = 2 /\
    (exists p, In p ps /\ par_name p = "v"%string /\ par_size p = Some 3).
Proof.
  exists [Par 0 "a" None []; Par 1 "v" (Some 3) []], [1; 2; 3], [("a"%string, PS 1); ("v"%string, PV [2; 3])], [2; 3].
  repeat split. eexists; split; [right; left; reflexivity|auto].
Qed.

Lemma map_params_too_short_scalar_lem :
  forall (num : Type) (ps : list par) (p : par) (xs : list num),
    width p = 1 -> length xs = length (param_names ps) ->
    map_params (ps ++ [p]) xs = Err IndexError.
Proof.
  intros num ps p xs Hw HL. rewrite param_names_length in HL. unfold map_params.
  assert (forall ps ct ret, ct + total ps = length xs ->
            map_params_loop (ps ++ [p]) ct xs ret = Err IndexError) as HH; [|apply HH; simpl; lia].
  clear -Hw. induction ps as [|q ps IH]; intros ct ret H; simpl.
  - rewrite Hw. simpl. simpl in H. destruct (nth_error xs ct) eqn:E; auto.
    assert (nth_error xs ct <> None) as HN by congruence. apply nth_error_Some in HN. lia.
  - simpl in H. destruct (Nat.ltb 1 (width q)); [apply IH; lia|].
    destruct (nth_error xs ct); auto. apply IH. lia.
Qed.

(** * C12 *)
Lemma in_names_of p x : In x (names_of p) <->
  (exists n i, par_size p = Some (S n) /\ i < S n /\ x = append (par_name p) (append "_" (str_of_nat i))) \/
  ((par_size p = None \/ par_size p = Some 0) /\ x = par_name p).
Proof.
  unfold names_of. destruct (par_size p) as [[|n]|].
  - simpl. split; [intros [<-|[]]; right; auto|intros [(? & ? & ? & _)|[_ ->]]; [discriminate|auto]].
  - rewrite in_map_iff. split.
    + intros (i & <- & Hi). apply in_seq in Hi. left. exists n, i. repeat split; auto; lia.
    + intros [(m & i & E & Hi & ->)|[[E|E] _]]; try discriminate. injection E as <-. exists i. split; auto. apply in_seq. lia.
  - simpl. split; [intros [<-|[]]; right; auto|intros [(? & ? & ? & _)|[_ ->]]; [discriminate|auto]].
Qed.

Lemma names_of_NoDup p : NoDup (names_of p).
Proof.
  unfold names_of. destruct (par_size p) as [[|n]|]; try (repeat constructor; simpl; tauto).
  apply FinFun.Injective_map_NoDup; [|apply seq_NoDup].
  intros i j H. apply last_us_inj in H as [_ H]; try apply str_of_nat_no_us. now apply str_of_nat_inj.
Qed.

Lemma param_names_unique_lem :
  forall ps : list par,
    NoDup (map par_name ps) ->
    (* no scalar parameter is called like an element of a vector parameter *)
    (forall p q n i, In p ps -> In q ps -> par_size p = Some (S n) -> i < S n ->
       par_size q = None \/ par_size q = Some 0 ->
       par_name q <> append (par_name p) (append "_" (str_of_nat i))) ->
    NoDup (param_names ps).
Proof.
  induction ps as [|p ps IH]; intros ND Hcol; [constructor|].
  inversion ND as [|? ? Hn ND']; subst. unfold param_names. simpl.
  assert (forall x, In x (names_of p) -> ~ In x (param_names ps)) as Hdisj.
  { intros x Hx Hin. apply in_flat_map in Hin as (q & Hq & Hxq).
    assert (par_name q <> par_name p) as Hne by (intros E; apply Hn; rewrite <- E; now apply in_map).
    apply in_names_of in Hx as [(n & i & Es & Hi & ->)|[Es ->]];
      apply in_names_of in Hxq as [(m & j & Es' & Hj & E)|[Es' E]].
    - apply last_us_inj in E as [E _]; try apply str_of_nat_no_us. congruence.
    - apply (Hcol p q n i) ; simpl; auto.
    - apply (Hcol q p m j); simpl; auto.
    - congruence. }
  assert (NoDup (param_names ps)) as NDp.
  { apply IH; auto. intros. eapply Hcol; simpl; eauto. }
  clear -Hdisj NDp. unfold param_names in *. pose proof (names_of_NoDup p) as NDn.
  induction (names_of p) as [|x l IHl]; simpl; auto.
  inversion NDn; subst. constructor.
  - rewrite in_app_iff. intros [H|H]; auto. apply (Hdisj x); auto. now left.
  - apply IHl; auto. intros y Hy. apply Hdisj. now right.
Qed.

Lemma param_names_unique_refuted_lem :
  exists ps : list par, NoDup (map par_name ps) /\ ~ NoDup (param_names ps).
Proof.
  exists [Par 0 "a" (Some 2) []; Par 1 "a_1" None []]. split.
  - repeat constructor; simpl; intuition discriminate.
  - vm_compute. intros H. inversion H as [|? ? _ H2]; subst. inversion H2; subst. simpl in *. tauto.
Qed.

(** * C13 *)
Section PriorProofs.
  Open Scope R_scope.
  Lemma fold_ladd_shift l : forall a, fold_left ladd l a = ladd a (lsum l).
  Proof.
    assert (forall a b c, ladd a (ladd b c) = ladd (ladd a b) c) as Hassoc.
    { intros [x|] [y|] [z|]; simpl; auto. now rewrite Rplus_assoc. }
    assert (forall a, ladd (Fin 0) a = a) as H0 by (intros [x|]; simpl; auto; now rewrite Rplus_0_l).
    unfold lsum. induction l as [|x l IH]; intros a; cbn [fold_left].
    - destruct a; simpl; auto. now rewrite Rplus_0_r.
    - rewrite IH, (IH (ladd (Fin 0) x)), H0. now rewrite Hassoc.
  Qed.

  Lemma lsum_cons x l : lsum (x :: l) = ladd x (lsum l).
  Proof. unfold lsum at 1. simpl. rewrite fold_ladd_shift. destruct x; simpl; auto. now rewrite Rplus_0_l. Qed.

  Lemma lexp_ladd a b : lexp (ladd a b) = lexp a * lexp b.
  Proof. destruct a, b; simpl; try ring. now rewrite exp_plus. Qed.

  Lemma lexp_lsum l : lexp (lsum l) = fold_right Rmult 1 (map lexp l).
  Proof.
    induction l as [|x l IH]; [simpl; apply exp_0|]. rewrite lsum_cons, lexp_ladd, IH. reflexivity.
  Qed.

  Lemma lexp_llog x : 0 <= x -> lexp (llog x) = x.
  Proof.
    intros H. unfold llog. destruct (Rlt_dec 0 x) as [Hp|Hp]; simpl; [now apply exp_ln|lra].
  Qed.

  Lemma lsum_NegInf l : lsum l = NegInf <-> In NegInf l.
  Proof.
    induction l as [|x l IH]; [simpl; split; [discriminate|tauto]|].
    rewrite lsum_cons. simpl. rewrite <- IH. destruct x, (lsum l); simpl; split; auto; try discriminate; try tauto.
    intros [?|?]; discriminate.
  Qed.

  Lemma lsum_logs l : (forall x, In x l -> 0 <= x) ->
    lexp (lsum (map llog l)) = fold_right Rmult 1 l.
  Proof.
    intros H. rewrite lexp_lsum, map_map. f_equal.
    induction l as [|x l IH]; simpl; auto. rewrite lexp_llog by (apply H; now left).
    f_equal. apply IH. intros. apply H. now right.
  Qed.
End PriorProofs.

Definition prod_list (l : list R) : R := fold_right Rmult 1%R l.
Definition dens_ok (x : dens) : Prop := match x with DPrior l => forall y, In y l -> (0 <= y)%R | DLog _ => True end.

Lemma rmapM_Ok {A B} (f : A -> result B) l ys :
  rmapM f l = Ok ys <-> length ys = length l /\ forall i x y, nth_error l i = Some x -> nth_error ys i = Some y -> f x = Ok y.
Proof.
  revert ys. induction l as [|x l IH]; intros ys; simpl.
  - split; [intros H; injection H as <-; split; auto; intros [|]; discriminate|].
    intros [H _]. destruct ys; [auto|discriminate].
  - destruct (f x) as [y|e] eqn:Ef; simpl.
    + destruct (rmapM f l) as [ys'|e] eqn:El; simpl.
      * split.
        -- intros H; injection H as <-. destruct (proj1 (IH ys') eq_refl) as [HL HH]. split; [simpl; auto|].
           intros [|i] a b; simpl; [intros E1 E2; congruence|apply HH].
        -- intros [HL HH]. destruct ys as [|b ys]; [discriminate|]. simpl in HL.
           assert (Ok ys' = Ok ys) as E.
           { apply IH. split; [auto|]. intros i a c Ha Hc. apply (HH (S i)); auto. }
           injection E as ->. specialize (HH 0 x b eq_refl eq_refl). congruence.
      * split; [discriminate|]. intros [HL HH]. destruct ys as [|b ys]; [discriminate|]. simpl in HL.
        exfalso. assert (@Err (list B) e = Ok ys); [|discriminate]. apply IH. split; auto.
        intros i a c Ha Hc. apply (HH (S i)); auto.
    + split; [discriminate|]. intros [HL HH]. destruct ys as [|b ys]; [discriminate|].
      specialize (HH 0 x b eq_refl eq_refl). congruence.
Qed.

Lemma lnprior_is_log_of_density_lem :
  forall (eval_prior : par -> pval R -> dict string (pval R) -> result dens)
    (ps : list par) (d : dict string (pval R)) (pdfs : list R),
    (* densities are not negative *)
    (forall p v x, eval_prior p v d = Ok x -> dens_ok x) ->
    (* every parameter's density at its value in the dictionary *)
    rmapM (fun p => get_pdf eval_prior p d) ps = Ok pdfs ->
    exists r, lnprior_dict eval_prior ps d = Ok r /\
      lexp r = prod_list pdfs /\
      (r = NegInf <-> exists p, In p ps /\ get_logpdf eval_prior p d = Ok NegInf) /\
      (r = NegInf -> prod_list pdfs = 0%R) /\
      (forall y, r = Fin y -> y = ln (prod_list pdfs)).
Proof.
  intros ev ps d pdfs Hnn Hpdf. unfold lnprior_dict.
  assert (exists ls, rmapM (fun p => get_logpdf ev p d) ps = Ok ls /\ map lexp ls = pdfs /\
            (In NegInf ls <-> exists p, In p ps /\ get_logpdf ev p d = Ok NegInf)) as (ls & Hls & Hm & Hin).
  { revert pdfs Hpdf. induction ps as [|p ps IH]; simpl; intros pdfs H.
    - injection H as <-. exists []. repeat split; auto; [intros []|intros (? & [] & _)].
    - unfold get_pdf at 1 in H. unfold get_logpdf at 1.
      destruct (dgetE string_dec d (par_name p)) as [v|e] eqn:Ev; [|discriminate]. simpl in *.
      destruct (ev p v d) as [x|e] eqn:Ex; [|discriminate]. simpl in *.
      destruct (rmapM (fun p => get_pdf ev p d) ps) as [pdfs'|e] eqn:E; [|discriminate]. simpl in H.
      destruct (IH pdfs' eq_refl) as (ls & -> & Hm & Hin). simpl. injection H as <-.
      eexists. split; [reflexivity|]. simpl. rewrite Hm. split.
      + f_equal. specialize (Hnn _ _ _ Ex). destruct x as [l|y]; simpl; auto. now rewrite lsum_logs.
      + rewrite Hin. split.
        * intros [H|(q & Hq & Eq)]; [exists p|exists q]; split; auto.
          unfold get_logpdf. rewrite Ev. simpl. rewrite Ex. simpl. now rewrite H.
        * intros (q & [<-|Hq] & Eq); [left|right; eauto].
          unfold get_logpdf in Eq. rewrite Ev in Eq. simpl in Eq. rewrite Ex in Eq. simpl in Eq. now injection Eq. }
  exists (lsum ls). rewrite Hls. simpl.
  assert (lexp (lsum ls) = prod_list pdfs) as HE by (rewrite lexp_lsum, Hm; reflexivity).
  split; auto. split; auto. split; [rewrite lsum_NegInf; exact Hin|]. split.
  - intros E. rewrite <- HE, E. reflexivity.
  - intros y E. rewrite <- HE, E. simpl. now rewrite ln_exp.
Qed.

(** Dictionary and vector calling styles agree. *)
Lemma lnprior_vector_dict_lem :
  forall (eval_prior : par -> pval R -> dict string (pval R) -> result dens)
    (ps : list par) (d : dict string (pval R)) (xs : list R),
    NoDup (map par_name ps) ->
    (* the prior of a parameter of the array reads only parameters of the array *)
    (forall p v d1 d2, In p ps ->
       (forall q, In q ps -> dget string_dec d1 (par_name q) = dget string_dec d2 (par_name q)) ->
       eval_prior p v d1 = eval_prior p v d2) ->
    (* the dictionary gives floats to scalars and vectors of the right length to
       vectors, and the vector is the dictionary read in parameter order *)
    (forall p, In p ps -> exists v, dget string_dec d (par_name p) = Some v /\
       length (pval_list v) = width p /\ (width p = 1 -> exists x, v = PS x) /\ (1 < width p -> exists l, v = PV l)) ->
    flatten ps d = Ok xs ->
    lnprior_vec eval_prior ps xs = lnprior_dict eval_prior ps d.
Proof.
  intros ev ps d xs ND Hloc Hshape Hflat.
  assert (length xs = length (param_names ps)) as HL.
  { rewrite param_names_length. clear -Hshape Hflat. revert xs Hflat.
    induction ps as [|p ps IH]; simpl; intros xs H; [now injection H as <-|].
    destruct (Hshape p) as (v & Hv & Hl & _); [now left|]. unfold dgetE in H. rewrite Hv in H. simpl in H.
    destruct (flatten ps d) as [ys|e] eqn:E; [|discriminate]. simpl in H. injection H as <-.
    rewrite app_length, Hl. f_equal. apply IH; auto. intros. apply Hshape. now right. }
  destruct (map_params_lossless_lem R ps xs ND HL) as (d2 & Hd2 & Hk & Hb & Hf).
  unfold lnprior_vec. rewrite Hd2. simpl.
  assert (forall q, In q ps -> dget string_dec d2 (par_name q) = dget string_dec d (par_name q)) as Heq.
  { intros q Hq. apply in_split in Hq as (l1 & l2 & Hs).
    destruct (Hb l1 q l2 Hs) as (v2 & Hv2 & Hl2 & Hsc).
    assert (In q ps) as Hq by (rewrite Hs; apply in_or_app; right; now left).
    destruct (Hshape q Hq) as (v & Hv & Hlv & Hs1 & HsV). rewrite Hv2, Hv. f_equal.
    assert (pval_list v2 = pval_list v) as Hpl.
    { rewrite Hl2. clear -Hs Hflat Hv Hlv Hshape. subst ps. revert xs Hflat.
      rewrite names_of_length.
      assert (forall l, (forall p, In p l -> exists v, dget string_dec d (par_name p) = Some v /\ length (pval_list v) = width p) ->
                forall xs rest, flatten (l ++ rest) d = Ok xs -> exists ys zs, flatten l d = Ok ys /\ flatten rest d = Ok zs /\ xs = ys ++ zs /\ length ys = total l) as Happ.
      { induction l as [|p l IH]; simpl; intros Hsh xs rest H.
        - exists [], xs. auto.
        - destruct (Hsh p) as (w & Hw & Hlw); [now left|]. unfold dgetE in *. rewrite Hw in *. simpl in *.
          destruct (flatten (l ++ rest) d) as [ys|e] eqn:E; [|discriminate]. simpl in H. injection H as <-.
          destruct (IH (fun q Hq => Hsh q (or_intror Hq)) _ _ E) as (ys1 & zs & E1 & E2 & -> & HLy).
          rewrite E1. simpl. exists (pval_list w ++ ys1), zs. rewrite app_length, Hlw, HLy, app_assoc. auto. }
      intros xs Hflat. destruct (Happ l1) with (xs := xs) (rest := q :: l2) as (ys & zs & E1 & E2 & -> & HLy); auto.
      { intros p Hp. destruct (Hshape p) as (w & A & B & _); [apply in_or_app; now left|]. eauto. }
      rewrite param_names_length, <- HLy, skipn_app, skipn_all, Nat.sub_diag. simpl.
      simpl in E2. unfold dgetE in E2. rewrite Hv in E2. simpl in E2.
      destruct (flatten l2 d) as [us|e]; [|discriminate]. simpl in E2. injection E2 as <-.
      rewrite <- Hlv, firstn_app, firstn_all, Nat.sub_diag. simpl. now rewrite app_nil_r. }
    rewrite names_of_length in Hsc. pose proof (width_pos q).
    destruct (Nat.eq_dec (width q) 1) as [E1|E1].
    - destruct (proj1 Hsc E1) as [x2 ->]. destruct (Hs1 E1) as [x ->]. simpl in Hpl. congruence.
    - destruct (HsV ltac:(lia)) as [l ->]. destruct v2 as [x2|l2']; [exfalso; apply E1; apply Hsc; eauto|].
      simpl in Hpl. congruence. }
  unfold lnprior_dict. f_equal.
  assert (forall l, (forall p, In p l -> In p ps) ->
            rmapM (fun p => get_logpdf ev p d2) l = rmapM (fun p => get_logpdf ev p d) l) as HH.
  { induction l as [|p l IH]; simpl; intros Hsub; auto. rewrite IH by (intros; apply Hsub; now right).
    assert (In p ps) as Hp by (apply Hsub; now left).
    assert (get_logpdf ev p d2 = get_logpdf ev p d) as ->; auto.
    unfold get_logpdf, dgetE. rewrite (Heq p Hp). destruct (dget string_dec d (par_name p)); auto. simpl.
    f_equal. apply Hloc; auto. }
  apply HH. auto.
Qed.

(** * C14 *)
Lemma hypercube_quantiles_partial_lem :
  forall (num : Type) (ppf : par -> pval num -> dict string (pval num) -> result (pval num))
    (q : par -> pval num -> pval num) (ps : list par) (xs : list num),
    NoDup (map par_name ps) -> length xs = length (param_names ps) ->
    (* no prior refers to other parameters *)
    (forall p v d, In p ps -> ppf p v d = Ok (q p v)) ->
    exists d, map_params ps xs = Ok d /\
      hypercube ppf ps xs =
        Ok (concat (map (fun p => match dget string_dec d (par_name p) with
                                  | Some v => pval_list (q p v) | None => [] end) ps)) /\
      (forall p, In p ps -> dget string_dec d (par_name p) <> None).
Proof.
  intros num ppf q ps xs ND HL Hq.
  destruct (map_params_lossless_lem num ps xs ND HL) as (d & Hd & Hk & Hb & Hf).
  exists d. split; auto.
  assert (forall p, In p ps -> dget string_dec d (par_name p) <> None) as Hne.
  { intros p Hp. apply in_split in Hp as (l1 & l2 & Hs). destruct (Hb l1 p l2 Hs) as (v & -> & _). discriminate. }
  split; auto. unfold hypercube. rewrite Hd. simpl.
  assert (forall l, (forall p, In p l -> In p ps) ->
    rmapM (fun p => rbind (dgetE string_dec d (par_name p)) (fun v => rmap pval_list (ppf p v d))) l =
    Ok (map (fun p => match dget string_dec d (par_name p) with Some v => pval_list (q p v) | None => [] end) l)) as HH.
  { induction l as [|p l IH]; simpl; intros Hs; auto. rewrite IH by (intros; apply Hs; now right).
    unfold dgetE. assert (In p ps) as Hp by (apply Hs; now left).
    destruct (dget string_dec d (par_name p)) as [v|] eqn:E; [|now apply Hne in E]. simpl. rewrite Hq; auto. }
  rewrite HH; auto.
Qed.

(** mu is uniform on [10, 20] (over the integers, quantile 10 + 10 u), and x is
    mu + u. *)
Definition hier_ppf (p : par) (v : pval nat) (d : dict string (pval nat)) : result (pval nat) :=
  match v with
  | PS u => if String.eqb (par_name p) "x" then
              match dget string_dec d "mu" with Some (PS m) => Ok (PS (m + u)) | _ => Err KeyError end
            else Ok (PS (10 + 10 * u))
  | PV _ => Err ValueError
  end.
Definition hier_mu := Par 0 "mu" None [].
Definition hier_x := Par 1 "x" None [("mu"%string, hier_mu)].

Lemma hypercube_hierarchical_refuted_lem :
  exists (ps : list par) (xs out : list nat) (dout : dict string (pval nat)),
    hypercube hier_ppf ps xs = Ok out /\ map_params ps out = Ok dout /\
    (* x is not the quantile of its prior at the transformed mu *)
    ~ (exists du v u, map_params ps xs = Ok du /\ dget string_dec du "x" = Some u /\
         dget string_dec dout "x" = Some v /\ hier_ppf hier_x u dout = Ok v).
Proof.
  exists [hier_mu; hier_x], [1; 0], [20; 1], [("mu"%string, PS 20); ("x"%string, PS 1)].
  split; [reflexivity|]. split; [reflexivity|].
  intros (du & v & u & E1 & E2 & E3 & E4). vm_compute in E1. injection E1 as <-.
  vm_compute in E2. injection E2 as <-. vm_compute in E3. injection E3 as <-. vm_compute in E4. discriminate.
Qed.

(** * C86 *)
Lemma summary_counts_lem :
  forall (include : bool) (ps : list par) (l : list (string * collection)),
    let s := summary include (length (param_names ps)) l in
    s_varying s = length (param_names ps) /\
    s_total s = s_varying s + s_fixed s /\
    s_pulsars s = length l /\
    (* listed: one per constant entry of a signal; not listed: zero *)
    (include = true -> s_fixed s = length (filter is_const (map snd (concat (concat (map snd l)))))) /\
    (include = false -> s_fixed s = 0).
Proof.
  intros include ps l s. subst s. unfold summary. simpl. repeat split; auto; intros ->; auto.
  now rewrite flat_map_concat_map.
Qed.

Lemma summary_fixed_count_refuted_lem :
  exists (l : list (string * collection)),
    (* there is a constant, but the total without listing does not count it *)
    length (filter is_const (map snd (concat (concat (map snd l))))) = 1 /\
    s_fixed (summary false 0 l) = 0 /\
    (* and a parameter common to two pulsars is counted twice *)
    exists (l2 : list (string * collection)) (p : par),
      (forall q, In q (map snd (concat (concat (map snd l2)))) -> q = p) /\
      s_common (summary true 1 l2) = 2.
Proof.
  exists [("J1"%string, [[("efac"%string, Cst 0 "J1_efac")]])].
  split; [reflexivity|]. split; [reflexivity|].
  set (p := Par 0 "gw_log10_A" None []).
  exists [("J1"%string, [[("A"%string, p)]]); ("J2"%string, [[("A"%string, p)]])], p. split.
  - simpl. intuition.
  - reflexivity.
Qed.
