(** Proofs about the loading and saving of pulsars. *)
From Coq Require Import Ascii String Bool Arith Lia List.
From Verif Require Import PyBase ProofBase ModelFiles.
Import ListNotations.
Open Scope string_scope.
Open Scope list_scope.

(** ** C83 Tim files *)
Section Tim.
(** What a tim file means: lines with a TOA, and lines that include another
    file. *)
Variable is_toa : string -> bool.
Variable includes : string -> option string.
Variable fs : string -> option (list string).
(** The number of TOAs of a file, and of lines. *)
Inductive toas_of : string -> nat -> Prop :=
| toas_file f lines n : fs f = Some lines -> toas_lines lines n -> toas_of f n
with toas_lines : list string -> nat -> Prop :=
| toas_nil : toas_lines [] 0
| toas_include ln ls f a b : includes ln = Some f -> toas_of f a -> toas_lines ls b -> toas_lines (ln :: ls) (a + b)
| toas_line ln ls b : includes ln = None -> toas_lines ls b -> toas_lines (ln :: ls) ((if is_toa ln then 1 else 0) + b).
(** Include lines are written as the code expects. *)
Definition includes_plain : Prop := forall ln f, includes ln = Some f ->
  substring_of "INCLUDE" ln = true /\ starts_with "C" ln = false /\ last_word ln = Ok f.
(** TOA lines are not blank and do not look like comments. *)
Definition toas_plain : Prop := forall ln, is_toa ln = true -> not_blank ln = true /\ starts_with "C" ln = false.
(** A file with an INCLUDE line has no TOA of its own. *)
Definition not_mixed : Prop := forall f lines ln ln', fs f = Some lines -> In ln lines -> In ln' lines ->
  substring_of "INCLUDE" ln = true -> starts_with "C" ln = false -> is_toa ln' = true -> includes ln' <> None.

Lemma total_In (l : list nat) x : In x l -> x <= total l.
Proof. induction l as [|y l IH]; intros []; simpl; [lia|]. apply IH in H; lia. Qed.
Lemma maxobs_bound : includes_plain -> toas_plain -> not_mixed ->
  forall fuel f n m, toas_of f n -> get_maxobs fs fuel f = Ok m -> n <= m.
Proof.
  intros ip tp nm. induction fuel as [|fuel IH]; intros f n m h e; [discriminate|].
  inversion h as [f' lines n' ef hl]; subst. simpl in e. rewrite ef in e.
  set (ls := filter (fun ln => negb (starts_with "C" ln)) lines) in *.
  destruct (existsb (substring_of "INCLUDE") ls) eqn:X.
  - assert (mix : forall ln, In ln lines -> is_toa ln = true -> includes ln <> None).
    { apply existsb_exists in X. destruct X as [ln [i s]]. apply filter_In in i. destruct i as [i c].
      intros ln' i' t. apply (nm f lines ln ln' ef i i' s); [now apply negb_true_iff|exact t]. }
    destruct (rmapM _ _) as [ms|err] eqn:R; [|discriminate]. injection e as <-.
    unfold ls in R. clear X ls ef h nm. revert n ms hl R. induction lines as [|ln lines IHl]; intros n ms hl R.
    + inversion hl; subst. lia.
    + assert (mix' : forall ln, In ln lines -> is_toa ln = true -> includes ln <> None) by (intros; apply mix; [now right|assumption]).
      simpl in R. inversion hl as [|ln' ls' g a b ei ha hb|ln' ls' b ei hb]; subst.
      * destruct (ip ln g ei) as [s1 [s2 s3]]. rewrite s2 in R. simpl in R. rewrite s1 in R. simpl in R. rewrite s3 in R. simpl in R.
        destruct (get_maxobs fs fuel g) as [x|] eqn:G; [|discriminate]. simpl in R.
        destruct (rmapM _ _) as [xs|] eqn:R'; [|discriminate]. injection R as <-. simpl.
        assert (a <= x) by (eapply IH; eauto). assert (b <= total xs) by (eapply IHl; eauto). lia.
      * assert (t : is_toa ln = false).
        { destruct (is_toa ln) eqn:T; [|reflexivity]. exfalso. now apply (mix ln (or_introl eq_refl) T). }
        rewrite t. simpl. destruct (negb (starts_with "C" ln)); simpl in R; [|eapply IHl; eauto].
        destruct (substring_of "INCLUDE" ln); simpl in R; [|eapply IHl; eauto].
        destruct (rbind (last_word ln) (get_maxobs fs fuel)) as [x|]; [|discriminate]. simpl in R.
        destruct (rmapM _ _) as [xs|] eqn:R'; [|discriminate]. injection R as <-. simpl.
        assert (b <= total xs) by (eapply IHl; eauto). lia.
  - injection e as <-.
    assert (no : forall ln, In ln lines -> includes ln = None).
    { intros ln i. destruct (includes ln) as [g|] eqn:E; [|reflexivity]. destruct (ip ln g E) as [s1 [s2 s3]].
      assert (existsb (substring_of "INCLUDE") ls = true); [|congruence]. apply existsb_exists. exists ln. split; [|exact s1].
      apply filter_In. now rewrite s2. }
    unfold ls. clear X ls ef h nm. revert n hl. induction lines as [|ln lines IHl]; intros n hl.
    + inversion hl; subst. simpl; lia.
    + assert (no' : forall ln, In ln lines -> includes ln = None) by (intros; apply no; now right).
      inversion hl as [|ln' ls' g a b ei ha hb|ln' ls' b ei hb]; subst; [rewrite (no ln (or_introl eq_refl)) in ei; discriminate|].
      specialize (IHl no' b hb). destruct (is_toa ln) eqn:T.
      * destruct (tp ln T) as [t1 t2]. simpl. rewrite t2. simpl. rewrite t1. simpl. lia.
      * simpl. destruct (negb (starts_with "C" ln)); simpl; [|exact IHl]. destruct (not_blank ln); simpl; lia.
Qed.
(** Every INCLUDE line the code follows is one. *)
Definition includes_known : Prop := forall f lines ln, fs f = Some lines -> In ln lines ->
  substring_of "INCLUDE" ln = true -> starts_with "C" ln = false -> exists g, includes ln = Some g.
Lemma maxobs_mono fuel : forall f m fuel', get_maxobs fs fuel f = Ok m -> fuel <= fuel' -> get_maxobs fs fuel' f = Ok m.
Proof.
  induction fuel as [|fuel IH]; intros f m fuel' e le; [discriminate|]. destruct fuel' as [|fuel']; [lia|].
  simpl in *. destruct (fs f) as [lines|]; [|discriminate]. destruct (existsb _ _); [|exact e].
  destruct (rmapM _ _) as [ms|err] eqn:R; [|discriminate]. injection e as <-.
  assert (q : forall l xs, rmapM (fun ln => rbind (last_word ln) (get_maxobs fs fuel)) l = Ok xs -> rmapM (fun ln => rbind (last_word ln) (get_maxobs fs fuel')) l = Ok xs).
  { clear R. induction l as [|ln l IHl]; intros xs R; [exact R|].
    simpl in R |- *. destruct (last_word ln) as [w|]; [|discriminate]. simpl in R |- *.
    destruct (get_maxobs fs fuel w) as [x|] eqn:G; [|discriminate]. rewrite (IH _ _ fuel' G) by lia. simpl in R |- *.
    destruct (rmapM (fun ln => rbind (last_word ln) (get_maxobs fs fuel)) l) as [ys|] eqn:R'; [|discriminate]. injection R as <-.
    now rewrite (IHl ys eq_refl). }
  now rewrite (q _ _ R).
Qed.
Scheme toas_of_min := Minimality for toas_of Sort Prop
  with toas_lines_min := Minimality for toas_lines Sort Prop.
Combined Scheme toas_ind from toas_of_min, toas_lines_min.
Lemma maxobs_terminates : includes_plain -> includes_known -> forall f n, toas_of f n -> exists fuel m, get_maxobs fs fuel f = Ok m.
Proof.
  intros ip ik.
  apply (toas_of_min (fun f n => exists fuel m, get_maxobs fs fuel f = Ok m)
    (fun lines n => forall f0 lines0, fs f0 = Some lines0 -> (forall ln, In ln lines -> In ln lines0) ->
       exists fuel ms, rmapM (fun ln => rbind (last_word ln) (get_maxobs fs fuel)) (filter (substring_of "INCLUDE") (filter (fun ln => negb (starts_with "C" ln)) lines)) = Ok ms)).
  - intros f lines n ef hl IH. destruct (IH f lines ef (fun _ i => i)) as [fuel [ms e]].
    exists (S fuel). simpl. rewrite ef. destruct (existsb _ _); [rewrite e|]; eexists; reflexivity.
  - intros f0 l0 _ _. exists 0, []. reflexivity.
  - intros ln ls g a b ei ha [fu1 [m1 e1]] hb IH f0 l0 e0 sub.
    destruct (IH f0 l0 e0) as [fu2 [ms e2]]; [intros x i; apply sub; now right|].
    exists (Nat.max fu1 fu2). destruct (ip ln g ei) as [s1 [s2 s3]]. simpl. rewrite s2. simpl. rewrite s1. simpl. rewrite s3. simpl.
    rewrite (maxobs_mono _ _ _ (Nat.max fu1 fu2) e1) by lia. simpl.
    assert (q : forall l xs, rmapM (fun ln => rbind (last_word ln) (get_maxobs fs fu2)) l = Ok xs -> rmapM (fun ln => rbind (last_word ln) (get_maxobs fs (Nat.max fu1 fu2))) l = Ok xs).
    { induction l as [|x l IHl]; intros xs R; [exact R|]. simpl in *. destruct (last_word x) as [w|]; [|discriminate]. simpl in *.
      destruct (get_maxobs fs fu2 w) as [y|] eqn:G; [|discriminate]. rewrite (maxobs_mono _ _ _ (Nat.max fu1 fu2) G) by lia. simpl in *.
      destruct (rmapM _ l) as [ys|] eqn:R'; [|discriminate]. now rewrite (IHl ys eq_refl). }
    rewrite (q _ _ e2). eexists; reflexivity.
  - intros ln ls b ei hb IH f0 l0 e0 sub.
    destruct (IH f0 l0 e0) as [fu2 [ms e2]]; [intros x i; apply sub; now right|].
    exists fu2, ms. simpl. destruct (starts_with "C" ln) eqn:C; simpl; [exact e2|]. destruct (substring_of "INCLUDE" ln) eqn:I; simpl; [|exact e2].
    destruct (ik f0 l0 ln e0 (sub ln (or_introl eq_refl)) I C) as [g eg]. congruence.
Qed.
End Tim.
Lemma get_maxobs_bound_partial_lem : forall is_toa includes fs, includes_plain includes -> toas_plain is_toa -> not_mixed is_toa includes fs ->
  forall fuel f n m, toas_of is_toa includes fs f n -> get_maxobs fs fuel f = Ok m -> n <= m.
Proof. exact maxobs_bound. Qed.
Lemma get_maxobs_terminates_lem : forall is_toa includes fs, includes_plain includes -> includes_known includes fs ->
  forall f n, toas_of is_toa includes fs f n ->
  exists fuel m, get_maxobs fs fuel f = Ok m /\ forall fuel', fuel <= fuel' -> get_maxobs fs fuel' f = Ok m.
Proof.
  intros is_toa includes fs ip ik f n h. destruct (maxobs_terminates is_toa includes fs ip ik f n h) as [fuel [m e]].
  exists fuel, m. split; [exact e|]. intros fuel'. now apply maxobs_mono.
Qed.
(** Files that include each other in a cycle. *)
Lemma get_maxobs_cycle_lem : forall (fs : string -> option (list string)) (cyc : string -> Prop),
  (forall f, cyc f -> exists lines ln g, fs f = Some lines /\ In ln lines /\ starts_with "C" ln = false /\
     substring_of "INCLUDE" ln = true /\ last_word ln = Ok g /\ cyc g) ->
  forall fuel f, cyc f -> exists e, get_maxobs fs fuel f = Err e.
Proof.
  intros fs cyc h. induction fuel as [|fuel IH]; intros f c; [now exists RecursionError|].
  destruct (h f c) as [lines [ln [g [ef [i [s1 [s2 [s3 cg]]]]]]]]. simpl. rewrite ef.
  assert (i' : In ln (filter (fun ln => negb (starts_with "C" ln)) lines)) by (apply filter_In; now rewrite s1).
  assert (X : existsb (substring_of "INCLUDE") (filter (fun ln => negb (starts_with "C" ln)) lines) = true) by (apply existsb_exists; eauto).
  rewrite X. assert (i2 : In ln (filter (substring_of "INCLUDE") (filter (fun ln => negb (starts_with "C" ln)) lines))) by (apply filter_In; auto).
  destruct (IH g cg) as [e eg].
  match goal with |- exists e, rmap _ (rmapM _ ?l) = _ => assert (R : exists e, rmapM (fun ln => rbind (last_word ln) (get_maxobs fs fuel)) l = Err e);
    [revert i2; generalize l as k|destruct R as [e' ->]; now exists e'] end.
  induction k as [|x k IHk]; intros []; simpl.
  - subst x. rewrite s3. simpl. rewrite eg. now exists e.
  - destruct (rbind (last_word x) (get_maxobs fs fuel)) as [y|e0]; simpl; [|now exists e0].
    destruct (IHk H) as [e1 ->]. now exists e1.
Qed.
(** Witnesses *)
Definition wit_toa (s : string) : bool := substring_of "1440" s.
Definition wit_inc (s : string) : option string :=
  if starts_with "INCLUDE" s then match last_word s with Ok w => Some w | Err _ => None end else None.
Definition wit_fs (f : string) : option (list string) :=
  if String.eqb f "mixed.tim" then Some ["FORMAT 1"; "p1 1440 53000.1 1.0 gbt"; "p2 1440 53000.2 1.0 gbt"; "INCLUDE b.tim"] else
  if String.eqb f "plain.tim" then Some ["C comment"; "INCLUDE b.tim"; "INCLUDE b.tim"] else
  if String.eqb f "b.tim" then Some ["FORMAT 1"; "p3 1440 53000.3 1.0 gbt"; ""] else
  if String.eqb f "c.tim" then Some ["Cal1 1440 53000.3 1.0 gbt"] else
  if String.eqb f "loop.tim" then Some ["INCLUDE loop.tim"] else None.
Ltac toas_tac := repeat first [eapply toas_file; [reflexivity|] | apply toas_nil
  | eapply toas_include; [reflexivity| |] | eapply (toas_line wit_toa wit_inc wit_fs); [reflexivity|]].
Lemma ex_count : toas_of wit_toa wit_inc wit_fs "plain.tim" 2 /\ get_maxobs wit_fs 5 "plain.tim" = Ok 4 /\
  get_maxobs wit_fs 1000 "loop.tim" = Err RecursionError.
Proof.
  split; [|split; reflexivity].
  assert (b : toas_of wit_toa wit_inc wit_fs "b.tim" 1).
  { eapply toas_file; [reflexivity|]. apply (toas_line wit_toa wit_inc wit_fs "FORMAT 1" _ 1); [reflexivity|].
    apply (toas_line wit_toa wit_inc wit_fs "p3 1440 53000.3 1.0 gbt" _ 0); [reflexivity|].
    apply (toas_line wit_toa wit_inc wit_fs "" _ 0); [reflexivity|]. apply toas_nil. }
  eapply toas_file; [reflexivity|]. apply (toas_line wit_toa wit_inc wit_fs "C comment" _ 2); [reflexivity|].
  apply (toas_include wit_toa wit_inc wit_fs _ _ "b.tim" 1 1); [reflexivity|exact b|].
  apply (toas_include wit_toa wit_inc wit_fs _ _ "b.tim" 1 0); [reflexivity|exact b|apply toas_nil].
Qed.
Lemma get_maxobs_mixed_refuted_lem : exists is_toa includes fs f n m, includes_known includes fs /\
  toas_of is_toa includes fs f n /\ get_maxobs fs 5 f = Ok m /\ m < n.
Proof.
  exists wit_toa, wit_inc, (fun f => if String.eqb f "mixed.tim" then Some ["FORMAT 1"; "p1 1440 53000.1 1.0 gbt"; "p2 1440 53000.2 1.0 gbt"; "p4 1440 53000.3 1.0 gbt"; "INCLUDE b.tim"] else
     if String.eqb f "b.tim" then Some ["FORMAT 1"; "p3 1440 53000.3 1.0 gbt"] else None), "mixed.tim", 4, 2.
  split; [|split; [|split; [reflexivity|lia]]].
  - intros f lines ln. destruct (String.eqb f "mixed.tim").
    + intros [= <-] i. repeat (destruct i as [<-|i]; [simpl; try discriminate; intros _ _; eexists; reflexivity|]). destruct i.
    + destruct (String.eqb f "b.tim"); [|discriminate]. intros [= <-] i. repeat (destruct i as [<-|i]; [simpl; try discriminate|]). destruct i.
  - set (fs := fun f => _).
    assert (b : toas_of wit_toa wit_inc fs "b.tim" 1).
    { eapply toas_file; [reflexivity|]. apply (toas_line wit_toa wit_inc fs "FORMAT 1" _ 1); [reflexivity|].
      apply (toas_line wit_toa wit_inc fs "p3 1440 53000.3 1.0 gbt" _ 0); [reflexivity|]. apply toas_nil. }
    eapply toas_file; [reflexivity|]. apply (toas_line wit_toa wit_inc fs "FORMAT 1" _ 4); [reflexivity|].
    apply (toas_line wit_toa wit_inc fs "p1 1440 53000.1 1.0 gbt" _ 3); [reflexivity|].
    apply (toas_line wit_toa wit_inc fs "p2 1440 53000.2 1.0 gbt" _ 2); [reflexivity|].
    apply (toas_line wit_toa wit_inc fs "p4 1440 53000.3 1.0 gbt" _ 1); [reflexivity|].
    apply (toas_include wit_toa wit_inc fs _ _ "b.tim" 1 0); [reflexivity|exact b|apply toas_nil].
Qed.
Lemma get_maxobs_comment_refuted_lem : exists is_toa includes fs f n m, includes_known includes fs /\ not_mixed is_toa includes fs /\
  toas_of is_toa includes fs f n /\ get_maxobs fs 5 f = Ok m /\ m < n.
Proof.
  exists wit_toa, wit_inc, (fun f => if String.eqb f "c.tim" then Some ["Cal1 1440 53000.3 1.0 gbt"] else None), "c.tim", 1, 0.
  split; [|split; [|split; [|split; [reflexivity|lia]]]].
  - intros f lines ln. destruct (String.eqb f "c.tim"); [|discriminate]. intros [= <-] [<-|[]]. simpl. discriminate.
  - intros f lines ln ln'. destruct (String.eqb f "c.tim"); [|discriminate]. intros [= <-] [<-|[]] _. simpl. discriminate.
  - eapply toas_file; [reflexivity|]. apply (toas_line wit_toa wit_inc _ "Cal1 1440 53000.3 1.0 gbt" _ 0); [reflexivity|]. apply toas_nil.
Qed.

(** ** C85 Distances *)
Lemma pdist_own_lem : forall D (default : D) pdict c s, c = "J"%char \/ c = "B"%char ->
  pdist default pdict (String c s) = Ok (match dget string_dec pdict (String c s) with Some d => d | None => default end).
Proof. intros D default pdict c s [-> | ->]; simpl; destruct (dget _ _ _); reflexivity. Qed.
Lemma pdist_prefixed_lem : forall D (default : D) pdict c s, c <> "J"%char -> c <> "B"%char ->
  pdist default pdict (String c s) = Ok (match dget string_dec pdict (append "J" (String c s)), dget string_dec pdict (append "B" (String c s)) with
    | Some d, _ => d | None, Some d => d | None, None => default end).
Proof.
  intros D default pdict c s nj nb. unfold pdist. destruct (Ascii.eqb_spec c "J") as [|_]; [easy|]. destruct (Ascii.eqb_spec c "B") as [|_]; [easy|].
  simpl. destruct (dget string_dec pdict (String "J" (String c s))); [reflexivity|]. destruct (dget string_dec pdict (String "B" (String c s))); reflexivity.
Qed.
Lemma pdist_fails_lem : forall D (default : D) pdict name e, pdist default pdict name = Err e <-> name = "" /\ e = IndexError.
Proof.
  intros D default pdict [|c s] e; simpl; [split; [intros [= <-]; auto|intros [_ ->]; reflexivity]|]. split; [|intros [[=] _]].
  destruct (negb _); repeat match goal with |- context [dget string_dec ?d ?k] => destruct (dget string_dec d k) end; discriminate.
Qed.

(** ** C84 Working directory *)
Section Cwd.
Context {P : Type}.
Definition keeps {X} (m : io X) : Prop := forall d, snd (m d) = d.
Variables has_pint has_t2 : bool.
Variable isfile : string -> string -> bool.
Variable enter : string -> string -> option string.
Variable dir_of : string -> string.
Variable rf : string -> io P.
Variable get_count : io nat.
Variable tempo_load : nat -> io unit.
Variable pint_load : option string -> io unit.
Variables (from_pint from_tempo new_tempo new_pint : io P).
Notation load := (load has_pint has_t2 isfile enter dir_of rf get_count tempo_load pint_load from_pint from_tempo new_tempo new_pint).
Lemma finally_restores {X} (m : io X) cwd d : (forall d, enter d cwd = Some cwd) -> finally m (chdir enter cwd) d = (fst (m d), cwd).
Proof. intros h. unfold finally, chdir. destruct (m d) as [r d']. now rewrite h. Qed.
Lemma load_cwd cwd args filepath package clk bipm :
  (forall d, enter d cwd = Some cwd) -> (forall f, keeps (rf f)) -> keeps from_pint -> keeps from_tempo ->
  snd (load args filepath package clk bipm cwd) = cwd.
Proof.
  intros h k1 k2 k3. unfold ModelFiles.load. destruct (strings _ args) as [|f fs]; [|apply k1].
  destruct (match filepath with Some "" => None | x => x end) as [f|]; [apply k1|].
  destruct (has_pint && existsb is_toas args && existsb is_model args); [apply k2|].
  destruct (has_t2 && existsb is_tempo args); [apply k3|].
  destruct (strings _ args) as [|par ps]; [reflexivity|]. destruct (strings _ args) as [|tim ts]; [reflexivity|].
  unfold bind at 1; cbn [getcwd]. destruct (negb (isfile cwd par) || negb (isfile cwd tim)); [reflexivity|].
  unfold bind at 1. destruct (option_map lower package) as [t|]; cbn [ret].
  - unfold bind at 1; cbn [getcwd]. now rewrite finally_restores.
  - destruct has_t2; cbn [ret]; [unfold bind at 1; cbn [getcwd]; now rewrite finally_restores|].
    destruct has_pint; cbn [ret]; [unfold bind at 1; cbn [getcwd]; now rewrite finally_restores|]. reflexivity.
Qed.
End Cwd.
Lemma load_restores_directory_lem : forall P has_pint has_t2 isfile enter dir_of (rf : string -> io P) get_count tempo_load pint_load from_pint from_tempo new_tempo new_pint
  cwd args filepath package clk bipm,
  (forall d, enter d cwd = Some cwd) -> (forall f, keeps (rf f)) -> keeps from_pint -> keeps from_tempo ->
  snd (load has_pint has_t2 isfile enter dir_of rf get_count tempo_load pint_load from_pint from_tempo new_tempo new_pint args filepath package clk bipm cwd) = cwd.
Proof. intros. now apply load_cwd. Qed.
(** Which loader runs, and where. *)
(** The names of the two files end as they have to, and neither is a feather file. *)
Definition par_tim (par tim : string) : Prop :=
  ext par = "par" /\ (ext tim = "tim" \/ ext tim = "toa") /\ ends_with ".feather" par = false /\ ends_with ".feather" tim = false.
Lemma par_tim_strings par tim : par_tim par tim ->
  strings (ends_with ".feather") [AStr par; AStr tim] = [] /\
  strings (fun s => String.eqb (ext s) "par") [AStr par; AStr tim] = [par] /\
  strings (fun s => String.eqb (ext s) "tim" || String.eqb (ext s) "toa") [AStr par; AStr tim] = [tim].
Proof.
  intros [e1 [e2 [e3 e4]]]. unfold strings; simpl. rewrite e1, e3, e4. destruct e2 as [-> | ->]; repeat split.
Qed.
Lemma load_tempo_directory_lem : forall P has_pint isfile enter dir_of (rf : string -> io P) get_count tempo_load pint_load from_pint from_tempo new_tempo new_pint
  cwd d par tim package clk bipm,
  par_tim par tim -> isfile cwd par = true -> isfile cwd tim = true ->
  (forall d, enter d cwd = Some cwd) -> enter cwd (dir_of tim) = Some d ->
  package = None \/ (exists t, package = Some t /\ lower t = "tempo2") ->
  load has_pint true isfile enter dir_of rf get_count tempo_load pint_load from_pint from_tempo new_tempo new_pint [AStr par; AStr tim] None package clk bipm cwd
  = (fst (bind get_count (fun n => bind (tempo_load (n + 100)) (fun _ => new_tempo)) d), cwd).
Proof.
  intros P has_pint isfile enter dir_of rf get_count tempo_load pint_load from_pint from_tempo new_tempo new_pint cwd d par tim package clk bipm pt f1 f2 h ed pk.
  destruct (par_tim_strings par tim pt) as [s1 [s2 s3]]. unfold load. rewrite s1, s2, s3. cbn [existsb is_toas is_model is_tempo orb]. rewrite !andb_false_r. cbn [andb].
  unfold bind at 1; cbn [getcwd]. rewrite f1, f2. cbn [negb orb].
  assert (e : exists t, option_map lower package = t /\ (t = None \/ t = Some "tempo2")).
  { destruct pk as [-> |[t [-> e]]]; [exists None; auto|]. exists (Some "tempo2"); simpl; rewrite e; auto. }
  destruct e as [t [-> et]].
  unfold bind at 1. assert (q : (match t with Some t0 => ret t0 | None => ret "tempo2" end) cwd = (Ok "tempo2", cwd)) by (destruct et as [-> | ->]; reflexivity).
  rewrite q. unfold bind at 1; cbn [getcwd]. rewrite finally_restores by exact h. f_equal. f_equal.
  unfold bind at 1, chdir. rewrite ed. reflexivity.
Qed.
Lemma load_pint_directory_lem : forall P has_t2 isfile enter dir_of (rf : string -> io P) get_count tempo_load pint_load from_pint from_tempo new_tempo new_pint
  cwd d par tim package bipm,
  par_tim par tim -> isfile cwd par = true -> isfile cwd tim = true ->
  (forall d, enter d cwd = Some cwd) -> enter cwd (dir_of tim) = Some d -> lower package = "pint" ->
  load true has_t2 isfile enter dir_of rf get_count tempo_load pint_load from_pint from_tempo new_tempo new_pint [AStr par; AStr tim] None (Some package) None bipm cwd
  = (match fst (pint_load bipm d) with Ok _ => fst (new_pint cwd) | Err e => Err e end, cwd).
Proof.
  intros P has_t2 isfile enter dir_of rf get_count tempo_load pint_load from_pint from_tempo new_tempo new_pint cwd d par tim package bipm pt f1 f2 h ed pk.
  destruct (par_tim_strings par tim pt) as [s1 [s2 s3]]. unfold load. rewrite s1, s2, s3. cbn [existsb is_toas is_model is_tempo orb]. rewrite !andb_false_r. cbn [andb].
  unfold bind at 1; cbn [getcwd]. rewrite f1, f2. cbn [negb orb option_map]. rewrite pk.
  unfold bind at 1; cbn [ret]. unfold bind at 1; cbn [getcwd]. rewrite finally_restores by exact h. f_equal.
  unfold bind at 1, chdir at 1. rewrite ed. replace (String.eqb (lower "pint") "tempo2") with false by reflexivity. replace (String.eqb (lower "pint") "pint") with true by reflexivity.
  cbn [negb]. unfold bind at 1; cbn [ret]. unfold bind at 1. destruct (pint_load bipm d) as [[[]|e] d']; cbn [fst]; [|reflexivity].
  unfold bind, chdir. rewrite h. reflexivity.
Qed.
(** A character that does not occur. *)
Definition without (c : ascii) (s : string) : Prop := forall i, String.get i s <> Some c.
Lemma without_tail c x s : without c (String x s) -> x <> c /\ without c s.
Proof. intros h. split; [intros ->; apply (h 0); reflexivity|intros i; apply (h (S i))]. Qed.
Lemma app_one w x s : append (append w (String x EmptyString)) s = append w (String x s).
Proof. induction w as [|y w IH]; cbn; [reflexivity|now rewrite IH]. Qed.
Lemma split_without c s : without c s -> forall w, split_from c w s = [append w s].
Proof.
  induction s as [|x s IH]; intros h w; cbn [split_from].
  - f_equal. induction w; cbn; [reflexivity|now rewrite <- IHw].
  - apply without_tail in h. destruct h as [n h]. destruct (Ascii.eqb_spec x c); [contradiction|]. rewrite IH by exact h. now rewrite app_one.
Qed.
Lemma split_at c s t : without c s -> forall w, split_from c w (append s (String c t)) = append w s :: split_from c "" t.
Proof.
  induction s as [|x s IH]; intros h w; cbn [append split_from].
  - rewrite Ascii.eqb_refl. f_equal. clear. induction w; cbn; [reflexivity|now rewrite <- IHw].
  - apply without_tail in h. destruct h as [n h]. destruct (Ascii.eqb_spec x c); [contradiction|]. rewrite IH by exact h. now rewrite app_one.
Qed.
Lemma without_app c s t : without c s -> without c t -> without c (append s t).
Proof.
  induction s as [|x s IH]; intros h1 h2; [exact h2|]. apply without_tail in h1. destruct h1 as [n h1]. intros [|i]; cbn; [now intros [= ->]|now apply IH].
Qed.
Lemma drop_last v x : String.substring 0 (String.length (append v (String x EmptyString)) - 1) (append v (String x EmptyString)) = v.
Proof.
  assert (L : forall v, String.length (append v (String x EmptyString)) = S (String.length v)) by (clear; induction v as [|y v IH]; cbn; [reflexivity|now rewrite IH]).
  rewrite L. cbn [Nat.sub]. rewrite Nat.sub_0_r. clear L.
  induction v as [|y v IH]; cbn; [reflexivity|now rewrite IH].
Qed.
Lemma load_pint_clock_lem : forall P has_t2 isfile enter dir_of (rf : string -> io P) get_count tempo_load pint_load from_pint from_tempo new_tempo new_pint
  cwd par tim package,
  par_tim par tim -> isfile cwd par = true -> isfile cwd tim = true ->
  (forall d, enter d cwd = Some cwd) -> enter cwd (dir_of tim) <> None -> lower package = "pint" ->
  let go clk bipm := load true has_t2 isfile enter dir_of rf get_count tempo_load pint_load from_pint from_tempo new_tempo new_pint [AStr par; AStr tim] None (Some package) clk bipm cwd in
  (forall clk v, go clk (Some v) = go None (Some v)) /\
  (forall name v, without "(" name -> without "(" v -> go (Some (append name (append "(" (append v ")")))) None = go None (Some v)) /\
  (forall clk, without "(" clk -> go (Some clk) None = (Err IndexError, cwd)).
Proof.
  intros P has_t2 isfile enter dir_of rf get_count tempo_load pint_load from_pint from_tempo new_tempo new_pint cwd par tim package pt f1 f2 h ed pk.
  destruct (par_tim_strings par tim pt) as [s1 [s2 s3]]. intros go.
  assert (E : forall clk bipm, go clk bipm = (fst (bind (chdir enter (dir_of tim)) (fun _ => bind (match clk, bipm with
                 | Some c, None => match split_on "(" c with
                                   | _ :: v :: _ => ret (Some (String.substring 0 (String.length v - 1) v))
                                   | _ => raise IndexError end
                 | _, _ => ret bipm end) (fun bipm =>
           bind (pint_load bipm) (fun _ => bind (chdir enter cwd) (fun _ => new_pint)))) cwd), cwd)).
  { intros clk bipm. unfold go, load. rewrite s1, s2, s3. cbn [existsb is_toas is_model is_tempo orb]. rewrite !andb_false_r. cbn [andb].
    unfold bind at 1; cbn [getcwd]. rewrite f1, f2. cbn [negb orb option_map]. rewrite pk.
    unfold bind at 1; cbn [ret]. unfold bind at 1; cbn [getcwd]. rewrite finally_restores by exact h. reflexivity. }
  destruct (enter cwd (dir_of tim)) as [d|] eqn:ed'; [|easy]. split; [|split].
  - intros clk v. rewrite !E. destruct clk; reflexivity.
  - intros name v hn hv. rewrite !E. unfold split_on. cbn [append]. rewrite (split_at "(") by exact hn. rewrite split_without.
    + cbn [append]. rewrite drop_last. reflexivity.
    + apply without_app; [exact hv|]. intros [|[|i]]; discriminate.
  - intros clk hc. rewrite E. unfold split_on. rewrite split_without by exact hc. unfold bind at 1, chdir. rewrite ed'. reflexivity.
Qed.
Lemma load_missing_lem : forall P has_pint has_t2 isfile enter dir_of (rf : string -> io P) get_count tempo_load pint_load from_pint from_tempo new_tempo new_pint
  cwd par tim package clk bipm, par_tim par tim -> isfile cwd par = false \/ isfile cwd tim = false ->
  load has_pint has_t2 isfile enter dir_of rf get_count tempo_load pint_load from_pint from_tempo new_tempo new_pint [AStr par; AStr tim] None package clk bipm cwd
  = (Err IOError, cwd).
Proof.
  intros P has_pint has_t2 isfile enter dir_of rf get_count tempo_load pint_load from_pint from_tempo new_tempo new_pint cwd par tim package clk bipm pt f.
  destruct (par_tim_strings par tim pt) as [s1 [s2 s3]]. unfold load. rewrite s1, s2, s3. cbn [existsb is_toas is_model is_tempo orb]. rewrite !andb_false_r. cbn [andb].
  unfold bind at 1; cbn [getcwd]. destruct f as [-> | ->]; cbn [negb orb]; [reflexivity|]. rewrite orb_true_r. reflexivity.
Qed.
Lemma load_nothing_lem : forall P has_pint has_t2 isfile enter dir_of (rf : string -> io P) get_count tempo_load pint_load from_pint from_tempo new_tempo new_pint
  cwd package clk bipm,
  load has_pint has_t2 isfile enter dir_of rf get_count tempo_load pint_load from_pint from_tempo new_tempo new_pint [] None package clk bipm cwd = (Err ValueError, cwd).
Proof. intros. unfold load. simpl. rewrite !andb_false_r. reflexivity. Qed.

(** ** C82 Feather tables *)
Lemma dset_notin {W} (d : list (string * W)) k v : ~ In k (dkeys d) -> dset string_dec d k v = d ++ [(k, v)].
Proof.
  induction d as [|[q w] d IH]; simpl; intros h; [reflexivity|]. destruct (string_dec k q) as [->|ne]; [tauto|]. rewrite IH; tauto.
Qed.
Lemma dupdate_app {W} (l : list (string * W)) : forall d, NoDup (dkeys (d ++ l)) -> dupdate string_dec d l = d ++ l.
Proof.
  unfold dupdate, dkeys. induction l as [|[k v] l IH]; intros d nd; simpl; [now rewrite app_nil_r|].
  rewrite map_app in nd. simpl in nd. rewrite dset_notin.
  - rewrite IH; [now rewrite <- app_assoc|]. rewrite <- app_assoc. simpl. now rewrite map_app.
  - apply NoDup_remove_2 in nd. intros i; apply nd, in_or_app; now left.
Qed.
Lemma dget_items {W} (d : list (string * W)) k v : NoDup (dkeys d) -> In (k, v) d -> dget string_dec d k = Some v.
Proof.
  induction d as [|[q w] d IH]; simpl; intros nd i; [destruct i|]. inversion nd as [|? ? ni nd']; subst.
  destruct (string_dec k q) as [e|ne]; destruct i as [i|i].
  - injection i as -> ->. reflexivity.
  - exfalso; apply ni. subst k. apply in_map_iff. now exists (q, v).
  - injection i as -> ->. easy.
  - now apply IH.
Qed.
Lemma col_items {C J} (t : table C J) (l : list (string * C)) : NoDup (dkeys (t_cols t)) -> (forall kv, In kv l -> In kv (t_cols t)) ->
  rmapM (col t) (map fst l) = Ok (map snd l).
Proof.
  intros nd. induction l as [|[k v] l IH]; intros sub; simpl; [reflexivity|].
  unfold col at 1, dgetE. rewrite (dget_items _ k v nd (sub _ (or_introl eq_refl))). simpl.
  rewrite IH; [reflexivity|]. intros kv i; apply sub; now right.
Qed.
Lemma filter_all {X} (f : X -> bool) l : (forall x, In x l -> f x = true) -> filter f l = l.
Proof. induction l as [|x l IH]; intros h; simpl; [reflexivity|]. rewrite (h x (or_introl eq_refl)), IH; [reflexivity|]. intros y i; apply h; now right. Qed.
Lemma filter_none {X} (f : X -> bool) l : (forall x, In x l -> f x = false) -> filter f l = [].
Proof. induction l as [|x l IH]; intros h; simpl; [reflexivity|]. rewrite (h x (or_introl eq_refl)). apply IH. intros y i; apply h; now right. Qed.
Lemma append_assoc a b c : append (append a b) c = append a (append b c).
Proof. induction a as [|x a IH]; simpl; [reflexivity|now rewrite IH]. Qed.
Lemma append_nil_r a : append a "" = a.
Proof. induction a as [|x a IH]; simpl; [reflexivity|now rewrite IH]. Qed.
Lemma append_inj a b c : append a b = append a c -> b = c.
Proof. induction a as [|x a IH]; simpl; [auto|]. intros [= h]; auto. Qed.

(** *** Splitting at underscores *)
Lemma split_join s : forall w, join_us (split_from "_" w s) = append w s.
Proof.
  induction s as [|x s IH]; intros w; simpl; [now rewrite append_nil_r|].
  destruct (Ascii.eqb_spec x "_") as [->|ne].
  - assert (e : split_from "_" "" s <> []) by (clear; generalize ""; induction s as [|y s IH]; intros w; simpl; [discriminate|destruct (Ascii.eqb y "_"); [discriminate|apply IH]]).
    specialize (IH ""). simpl in IH. destruct (split_from "_" "" s) as [|a l]; [easy|].
    change (append w (append "_" (join_us (a :: l))) = append w (String "_" s)). rewrite IH. reflexivity.
  - rewrite IH, append_assoc. reflexivity.
Qed.
Lemma split_us x y : no_us x = true -> forall w, split_from "_" w (append x (append "_" y)) = append w x :: split_from "_" "" y.
Proof.
  induction x as [|c x IH]; intros h w; simpl in *; [now rewrite append_nil_r|].
  apply andb_prop in h. destruct h as [h1 h2]. apply negb_true_iff in h1. rewrite h1, (IH h2), append_assoc. reflexivity.
Qed.
Lemma split_no x : no_us x = true -> forall w, split_from "_" w x = [append w x].
Proof.
  induction x as [|c x IH]; intros h w; simpl in *; [now rewrite append_nil_r|].
  apply andb_prop in h. destruct h as [h1 h2]. apply negb_true_iff in h1. rewrite h1, (IH h2), append_assoc. reflexivity.
Qed.
Lemma all_but_first_flag k : all_but_first (append "flags_" k) = k.
Proof.
  unfold all_but_first, split_on. change (append "flags_" k) with (append "flags" (append "_" k)). rewrite split_us by reflexivity.
  simpl. apply split_join.
Qed.
Definition row_name (i : nat) : string := append "planetssb_" (str_of_nat i).
Definition cell_name (i j : nat) : string := append "planetssb_" (append (str_of_nat i) (append "_" (str_of_nat j))).
Lemma all_but_last_cell i j : all_but_last (cell_name i j) = row_name i.
Proof.
  unfold all_but_last, split_on, cell_name, row_name.
  change (append "planetssb_" (append (str_of_nat i) (append "_" (str_of_nat j)))) with
    (append "planetssb" (append "_" (append (str_of_nat i) (append "_" (str_of_nat j))))).
  rewrite split_us by reflexivity. rewrite split_us by apply str_of_nat_no_us. rewrite split_no by apply str_of_nat_no_us. reflexivity.
Qed.
Lemma digit_names i i' s : i < 10 -> i' < 10 ->
  starts_with (row_name i) (append "planetssb_" (append (str_of_nat i') (append "_" s))) = Nat.eqb i i'.
Proof.
  intros h h'. do 10 (destruct i as [|i]; [do 10 (destruct i' as [|i']; [reflexivity|]); lia|]). lia.
Qed.
Lemma names_sorted n : n <= 10 -> isort sle (map row_name (seq 0 n)) = map row_name (seq 0 n).
Proof. intros h. do 11 (destruct n as [|n]; [reflexivity|]). lia. Qed.
Lemma row_name_inj i i' : row_name i = row_name i' -> i = i'.
Proof. unfold row_name. intros h. apply append_inj in h. now apply str_of_nat_inj. Qed.
Lemma cell_name_inj i j i' j' : cell_name i j = cell_name i' j' -> i = i' /\ j = j'.
Proof.
  intros h. split; [apply row_name_inj; rewrite <- (all_but_last_cell i j), <- (all_but_last_cell i' j'); now rewrite h|].
  unfold cell_name in h. apply append_inj, last_us_inj in h; try apply str_of_nat_no_us. now apply str_of_nat_inj.
Qed.

(** *** Items *)
Section Items.
Context {C : Type}.
Lemma number_from {X} (l : list X) : forall s, map fst (combine (seq s (length l)) l) = seq s (length l) /\ map snd (combine (seq s (length l)) l) = l.
Proof. induction l as [|x l IH]; intros s; simpl; [auto|]. destruct (IH (S s)) as [h1 h2]. now rewrite h1, h2. Qed.
Lemma number_fst {X} (l : list X) : map fst (number l) = seq 0 (length l).
Proof. apply number_from. Qed.
Lemma number_snd {X} (l : list X) : map snd (number l) = l.
Proof. apply number_from. Qed.
Lemma number_in {X} (l : list X) i x : In (i, x) (number l) -> i < length l.
Proof. intros h. apply (in_map fst) in h. rewrite number_fst in h. apply in_seq in h. simpl in h; lia. Qed.
Lemma vector_keys v (cs : list C) : map fst (vector_items (v, cs)) = map (fun i => append v (append "_" (str_of_nat i))) (seq 0 (length cs)).
Proof. unfold vector_items. rewrite map_map. cbn [fst snd]. rewrite <- (map_map fst (fun i => append v (append "_" (str_of_nat i)))). cbn [fst snd]. now rewrite number_fst. Qed.
Lemma vector_vals v (cs : list C) : map snd (vector_items (v, cs)) = cs.
Proof. unfold vector_items. rewrite map_map. cbn [fst snd]. apply number_snd. Qed.
Lemma vector_nodup v (cs : list C) : NoDup (map fst (vector_items (v, cs))).
Proof.
  rewrite vector_keys. generalize (seq_NoDup (length cs) 0). generalize (seq 0 (length cs)) as l.
  induction l as [|i l IH]; intros nd; simpl; constructor; inversion nd as [|? ? ni nd']; subst; [|auto].
  intros h. apply in_map_iff in h. destruct h as [i' [e ii]]. apply append_inj in e. injection e as e. apply str_of_nat_inj in e. congruence.
Qed.
(** The tensor's items by rows. *)
Definition row_items (ir : nat * list C) : list (string * C) := map (fun jc => (cell_name (fst ir) (fst jc), snd jc)) (number (snd ir)).
Lemma tensor_rows rows : tensor_items "planetssb" rows = flat_map row_items (number rows).
Proof. reflexivity. Qed.
Lemma row_keys i (r : list C) : map fst (row_items (i, r)) = map (cell_name i) (seq 0 (length r)).
Proof. unfold row_items. rewrite map_map. cbn [fst snd]. rewrite <- (map_map fst (cell_name i)). now rewrite number_fst. Qed.
Lemma row_vals i (r : list C) : map snd (row_items (i, r)) = r.
Proof. unfold row_items. rewrite map_map. cbn [fst snd]. apply number_snd. Qed.
Lemma in_row x ir : In x (map fst (row_items ir)) -> exists j, x = cell_name (fst ir) j.
Proof. destruct ir as [i r]. rewrite row_keys. intros h. apply in_map_iff in h. destruct h as [j [<- _]]. eauto. Qed.
Lemma flat_keys {X} (f : X -> list (string * C)) l : map fst (flat_map f l) = flat_map (fun x => map fst (f x)) l.
Proof. induction l as [|x l IH]; simpl; [reflexivity|]. now rewrite map_app, IH. Qed.
Lemma NoDup_app_intro {X} (a b : list X) : NoDup a -> NoDup b -> (forall x, In x a -> ~ In x b) -> NoDup (a ++ b).
Proof.
  induction a as [|x a IH]; intros na nb d; simpl; [exact nb|]. inversion na as [|? ? ni na']; subst. constructor.
  - intros i. apply in_app_or in i. destruct i as [i|i]; [tauto|]. now apply (d x (or_introl eq_refl)).
  - apply IH; auto. intros y i; apply d; now right.
Qed.
Lemma tensor_nodup rows : NoDup (map fst (tensor_items (C := C) "planetssb" rows)).
Proof.
  rewrite tensor_rows, flat_keys. unfold number. generalize 0 as s. induction rows as [|r rows IH]; intros s; [constructor|]. cbn [length seq combine flat_map].
  apply NoDup_app_intro; [|apply IH|].
  - rewrite row_keys. generalize (seq_NoDup (length r) 0). generalize (seq 0 (length r)) as l.
    induction l as [|j l IHl]; intros nd; simpl; constructor; inversion nd as [|? ? ni nd']; subst; [|auto].
    intros h. apply in_map_iff in h. destruct h as [j' [e ij]]. apply cell_name_inj in e. destruct e; congruence.
  - intros x i1 i2. apply in_row in i1. destruct i1 as [j ->]. apply in_flat_map in i2. destruct i2 as [[i r'] [i2 i3]].
    apply in_row in i3. destruct i3 as [j' e]. apply cell_name_inj in e. destruct e as [e _]. cbn [fst] in e. subst i.
    apply in_combine_l, in_seq in i2. lia.
Qed.
Lemma tensor_keys_in x rows : In x (map fst (tensor_items (C := C) "planetssb" rows)) -> exists i j, i < length rows /\ x = cell_name i j.
Proof.
  rewrite tensor_rows, flat_keys. intros h. apply in_flat_map in h. destruct h as [[i r] [h1 h2]]. apply in_row in h2. destruct h2 as [j ->].
  exists i, j; split; [now apply number_in in h1|reflexivity].
Qed.
(** The names of the rows. *)
Lemma tensor_row_names (rows : list (list C)) : (forall r, In r rows -> r <> []) ->
  nodup string_dec (map all_but_last (map fst (tensor_items "planetssb" rows))) = map row_name (seq 0 (length rows)).
Proof.
  rewrite tensor_rows, flat_keys. unfold number. generalize 0 as s. induction rows as [|r rows IH]; intros s h; [reflexivity|].
  cbn [length seq combine flat_map map]. rewrite map_app.
  assert (e : map all_but_last (map fst (row_items (s, r))) = repeat (row_name s) (length r)).
  { rewrite row_keys, map_map. generalize 0 as k. induction r as [|x r IHr]; intros k; simpl; [reflexivity|].
    rewrite all_but_last_cell. f_equal. clear. generalize (S k) as q. induction r as [|x r IHr]; intros q; simpl; [reflexivity|]. now rewrite all_but_last_cell, IHr. }
  rewrite e. set (rest := map all_but_last _).
  assert (ni : ~ In (row_name s) rest).
  { unfold rest. intros i. apply in_map_iff in i. destruct i as [x [e1 i]]. apply in_flat_map in i. destruct i as [[i r'] [h1 h2]].
    apply in_row in h2. destruct h2 as [j ->]. rewrite all_but_last_cell in e1. apply row_name_inj in e1. cbn [fst] in e1. subst i.
    apply in_combine_l, in_seq in h1. lia. }
  assert (rep : forall m l, ~ In (row_name s) l -> nodup string_dec (repeat (row_name s) (S m) ++ l) = row_name s :: nodup string_dec l).
  { clear. intros m l ni. induction m as [|m IHm]; [cbn [repeat app nodup]; destruct (in_dec string_dec (row_name s) l); [easy|reflexivity]|].
    change (repeat (row_name s) (S (S m)) ++ l) with (row_name s :: (repeat (row_name s) (S m) ++ l)). cbn [nodup].
    destruct (in_dec string_dec (row_name s) (repeat (row_name s) (S m) ++ l)) as [_|n]; [exact IHm|]. exfalso; apply n. now left. }
  destruct r as [|x r]; [exfalso; now apply (h [] (or_introl eq_refl))|]. cbn [length]. rewrite rep by exact ni. f_equal.
  apply IH. intros q i; apply h; now right.
Qed.
(** The columns of one row. *)
Lemma tensor_row_keys (rows : list (list C)) i r : length rows <= 10 -> nth_error rows i = Some r ->
  filter (starts_with (row_name i)) (map fst (tensor_items "planetssb" rows)) = map fst (row_items (i, r)).
Proof.
  intros le e. rewrite tensor_rows, flat_keys. unfold number.
  assert (gen : forall rows s i r, s + length rows <= 10 -> nth_error rows i = Some r ->
    filter (starts_with (row_name (s + i))) (flat_map (fun x => map fst (row_items x)) (combine (seq s (length rows)) rows)) = map fst (row_items (s + i, r))).
  { clear. induction rows as [|r0 rows IH]; intros s i r le e; [destruct i; discriminate|]. cbn [length seq combine flat_map]. cbn [length] in le.
    rewrite filter_app.
    assert (part : forall s', s' < 10 -> forall r', filter (starts_with (row_name (s + i))) (map fst (row_items (s', r'))) = if Nat.eqb (s + i) s' then map fst (row_items (s', r')) else []).
    { intros s' ls r'. assert (lt : s + i < 10) by (assert (i < length (r0 :: rows)) by (apply nth_error_Some; congruence); simpl in *; lia).
      destruct (Nat.eqb_spec (s + i) s') as [ee|ne].
      - apply filter_all. intros x ix. apply in_row in ix. destruct ix as [j ->]. unfold cell_name. rewrite digit_names by assumption. now apply Nat.eqb_eq.
      - apply filter_none. intros x ix. apply in_row in ix. destruct ix as [j ->]. unfold cell_name. rewrite digit_names by assumption. now apply Nat.eqb_neq. }
    rewrite part by lia. destruct i as [|i].
    - rewrite Nat.add_0_r, Nat.eqb_refl. injection e as ->. rewrite filter_none; [now rewrite app_nil_r|].
      intros x ix. apply in_flat_map in ix. destruct ix as [[q r'] [h1 h2]]. apply in_row in h2. destruct h2 as [j ->].
      apply in_combine_l, in_seq in h1. cbn [fst]. unfold cell_name. rewrite digit_names by lia. apply Nat.eqb_neq. lia.
    - destruct (Nat.eqb_spec (s + S i) s) as [ee|_]; [lia|]. cbn [app]. replace (s + S i) with (S s + i) by lia. apply IH; [lia|exact e]. }
  apply (gen rows 0 i r); [lia|exact e].
Qed.
End Items.

Lemma save_feather_fails_lem : forall C J (p : arrays C J), save_feather p = Err AttributeError.
Proof. reflexivity. Qed.

(** The pulsar has all the arrays, each vector and tensor row at least one
    column, and the tensor at most ten rows of one length. *)
Definition saveable {C J} (p : arrays C J) : Prop :=
  map fst (a_columns p) = ["toas"; "stoas"; "toaerrs"; "residuals"; "freqs"; "backend_flags"; "telescope"] /\
  map fst (a_vectors p) = ["Mmat"; "sunssb"; "pos_t"] /\ (forall v cs, In (v, cs) (a_vectors p) -> cs <> []) /\
  1 <= length (a_planets p) <= 10 /\ (exists m, 1 <= m /\ forall r, In r (a_planets p) -> length r = m) /\
  NoDup (map fst (a_flags p)).
Lemma flag_keys {C} (fs : list (string * C)) : map fst (flag_items fs) = map (append "flags_") (map fst fs).
Proof. unfold flag_items. now rewrite !map_map. Qed.
Lemma flag_nodup {C} (fs : list (string * C)) : NoDup (map fst fs) -> NoDup (map fst (flag_items fs)).
Proof.
  rewrite flag_keys. generalize (map fst fs) as l. induction l as [|k l IH]; intros nd; simpl; constructor; inversion nd as [|? ? ni nd']; subst; [|auto].
  intros i. apply in_map_iff in i. destruct i as [k2 [e i]]. injection e as ->. easy.
Qed.
Lemma read_saved_lem : forall C J (p : arrays C J), saveable p ->
  exists meta, read_feather (save_with metadata p) = Ok (a_columns p, a_vectors p, a_planets p, a_flags p, meta, t_noise (save_with metadata p)) /\
  (forall n, In n ["name"; "dm"; "dmx"; "pdist"; "pos"; "phi"; "theta"] -> dget string_dec meta n = dget string_dec (a_meta p) n) /\
  (forall n, dget string_dec meta n <> None -> In n ["name"; "dm"; "dmx"; "pdist"; "pos"; "phi"; "theta"]).
Proof.
  intros C J p [h1 [h2 [h3 [h4 [[m [m1 hm]] nf]]]]].
  destruct p as [cols vecs planets flags nm meta noise]. cbn [a_columns a_vectors a_planets a_flags a_name a_meta a_noise] in *.
  destruct vecs as [|[v1 M] [|[v2 S] [|[v3 Q] [|? ?]]]]; try discriminate. injection h2 as -> -> ->.
  set (K1 := vector_items ("Mmat", M)). set (K2 := vector_items ("sunssb", S)). set (K3 := vector_items ("pos_t", Q)).
  set (K4 := tensor_items "planetssb" planets). set (K5 := flag_items flags).
  assert (in1 : forall x, In x (map fst K1) -> exists i, x = append "Mmat_" (str_of_nat i)) by (unfold K1; rewrite vector_keys; intros x i; apply in_map_iff in i; destruct i as [i [<- _]]; eexists; reflexivity).
  assert (in2 : forall x, In x (map fst K2) -> exists i, x = append "sunssb_" (str_of_nat i)) by (unfold K2; rewrite vector_keys; intros x i; apply in_map_iff in i; destruct i as [i [<- _]]; eexists; reflexivity).
  assert (in3 : forall x, In x (map fst K3) -> exists i, x = append "pos_t_" (str_of_nat i)) by (unfold K3; rewrite vector_keys; intros x i; apply in_map_iff in i; destruct i as [i [<- _]]; eexists; reflexivity).
  assert (in4 : forall x, In x (map fst K4) -> exists i s, i < length planets /\ x = append "planetssb_" (append (str_of_nat i) (append "_" s))).
  { unfold K4; intros x i; apply tensor_keys_in in i. destruct i as [i [j [l ->]]]. exists i, (str_of_nat j). split; [exact l|reflexivity]. }
  assert (in5 : forall x, In x (map fst K5) -> exists k, x = append "flags_" k) by (unfold K5; rewrite flag_keys; intros x i; apply in_map_iff in i; destruct i as [k [<- _]]; eauto).
  assert (in0 : forall x, In x (map fst cols) -> In x ["toas"; "stoas"; "toaerrs"; "residuals"; "freqs"; "backend_flags"; "telescope"]) by (now rewrite h1).
  assert (nd : NoDup (dkeys (((cols ++ K1 ++ K2 ++ K3) ++ K4) ++ K5))).
  { unfold dkeys. rewrite !map_app. repeat apply NoDup_app_intro; try apply vector_nodup; try apply tensor_nodup; try (now apply flag_nodup).
    - rewrite h1. repeat (constructor; [simpl; intuition discriminate|]). constructor.
    - intros x i j. apply in2 in i. apply in3 in j. destruct i as [i ->], j as [j e]. discriminate.
    - intros x i j. apply in1 in i. destruct i as [i ->]. apply in_app_or in j. destruct j as [j|j]; [apply in2 in j|apply in3 in j]; destruct j as [j e]; discriminate.
    - intros x i j. apply in0 in i. rewrite !in_app_iff in j. destruct j as [j|[j|j]]; [apply in1 in j|apply in2 in j|apply in3 in j]; destruct j as [j ->];
        simpl in i; intuition discriminate.
    - intros x i j. apply in4 in j. destruct j as [i' [s [_ ->]]]. rewrite !in_app_iff in i. destruct i as [i|[i|[i|i]]];
        [apply in0 in i; simpl in i; intuition discriminate|apply in1 in i|apply in2 in i|apply in3 in i]; destruct i as [i e]; discriminate.
    - intros x i j. apply in5 in j. destruct j as [k ->]. rewrite !in_app_iff in i. destruct i as [[i|[i|[i|i]]]|i];
        [apply in0 in i; simpl in i; intuition discriminate|apply in1 in i|apply in2 in i|apply in3 in i|apply in4 in i]; [destruct i as [i e]; discriminate..|].
      destruct i as [i [s [_ e]]]; discriminate. }
  assert (pd : pydict (Arrays cols [("Mmat", M); ("sunssb", S); ("pos_t", Q)] planets flags nm meta noise) = ((cols ++ K1 ++ K2 ++ K3) ++ K4) ++ K5).
  { unfold pydict. cbn [a_columns a_vectors a_planets a_flags flat_map]. rewrite app_nil_r. fold K1 K2 K3 K4 K5.
    assert (sub : forall a b : list (string * C), NoDup (dkeys (a ++ b)) -> NoDup (dkeys a)).
    { intros a b. unfold dkeys. rewrite map_app. generalize (map fst a) as x, (map fst b) as y. clear. induction x as [|k x IH]; intros y nd; [constructor|].
      simpl in nd. inversion nd as [|? ? ni nd']; subst. constructor; [intros i; apply ni, in_or_app; now left|now apply (IH y)]. }
    rewrite (dupdate_app (K1 ++ K2 ++ K3)) by (now apply sub in nd; apply sub in nd).
    rewrite (dupdate_app K4) by (now apply sub in nd). now rewrite dupdate_app. }
  set (t := save_with metadata _). assert (tc : t_cols t = ((cols ++ K1 ++ K2 ++ K3) ++ K4) ++ K5) by exact pd.
  assert (ndt : NoDup (dkeys (t_cols t))) by now rewrite tc.
  assert (ks : forall pre, keys_with pre t = (filter (starts_with pre) (map fst cols) ++ filter (starts_with pre) (map fst K1) ++ filter (starts_with pre) (map fst K2) ++ filter (starts_with pre) (map fst K3)) ++ filter (starts_with pre) (map fst K4) ++ filter (starts_with pre) (map fst K5)).
  { intros pre. unfold keys_with, dkeys. rewrite tc, !map_app, !filter_app. now rewrite <- !app_assoc. }
  unfold read_feather.
  (* columns *)
  assert (b : flat_map (fun n => match dget string_dec (t_cols t) n with Some c => [(n, c)] | None => [] end) columns = cols).
  { assert (sub : forall kv, In kv cols -> In kv (t_cols t)) by (intros kv i; rewrite tc, !in_app_iff; tauto).
    unfold columns. rewrite <- h1. clear -sub ndt. clearbody t. induction cols as [|[k v] cols IH]; [reflexivity|]. cbn [map flat_map fst].
    rewrite (dget_items _ k v ndt (sub _ (or_introl eq_refl))). cbn [app]. f_equal. apply IH. intros kv i; apply sub; now right. }
  rewrite b.
  (* vectors *)
  assert (f0 : forall pre, (forall x, In x ["toas"; "stoas"; "toaerrs"; "residuals"; "freqs"; "backend_flags"; "telescope"] -> starts_with pre x = false) -> filter (starts_with pre) (map fst cols) = []) by (intros pre h; apply filter_none; intros x i; now apply h, in0).
  assert (no : forall pre l (g : list (string * C)), (forall x, In x (map fst g) -> exists i : nat, x = append l (str_of_nat i)) -> (forall s, starts_with pre (append l s) = false) -> filter (starts_with pre) (map fst g) = []).
  { intros pre l g h1' h2'. apply filter_none. intros x i. apply h1' in i. destruct i as [i ->]. apply h2'. }
  assert (k1 : keys_with "Mmat" t = map fst K1).
  { rewrite ks, f0 by (intros x i; repeat (destruct i as [<-|i]; [reflexivity|]); destruct i).
    rewrite (filter_all _ (map fst K1)) by (intros x i; apply in1 in i; destruct i as [i ->]; reflexivity).
    rewrite (no "Mmat" "sunssb_" K2 in2), (no "Mmat" "pos_t_" K3 in3) by reflexivity.
    rewrite (filter_none _ (map fst K4)) by (intros x i; apply in4 in i; destruct i as [i [s [_ ->]]]; reflexivity).
    rewrite (filter_none _ (map fst K5)) by (intros x i; apply in5 in i; destruct i as [k ->]; reflexivity).
    cbn [app]. now rewrite !app_nil_r. }
  assert (k2 : keys_with "sunssb" t = map fst K2).
  { rewrite ks, f0 by (intros x i; repeat (destruct i as [<-|i]; [reflexivity|]); destruct i).
    rewrite (filter_all _ (map fst K2)) by (intros x i; apply in2 in i; destruct i as [i ->]; reflexivity).
    rewrite (no "sunssb" "Mmat_" K1 in1), (no "sunssb" "pos_t_" K3 in3) by reflexivity.
    rewrite (filter_none _ (map fst K4)) by (intros x i; apply in4 in i; destruct i as [i [s [_ ->]]]; reflexivity).
    rewrite (filter_none _ (map fst K5)) by (intros x i; apply in5 in i; destruct i as [k ->]; reflexivity).
    cbn [app]. now rewrite !app_nil_r. }
  assert (k3 : keys_with "pos_t" t = map fst K3).
  { rewrite ks, f0 by (intros x i; repeat (destruct i as [<-|i]; [reflexivity|]); destruct i).
    rewrite (filter_all _ (map fst K3)) by (intros x i; apply in3 in i; destruct i as [i ->]; reflexivity).
    rewrite (no "pos_t" "Mmat_" K1 in1), (no "pos_t" "sunssb_" K2 in2) by reflexivity.
    rewrite (filter_none _ (map fst K4)) by (intros x i; apply in4 in i; destruct i as [i [s [_ ->]]]; reflexivity).
    rewrite (filter_none _ (map fst K5)) by (intros x i; apply in5 in i; destruct i as [k ->]; reflexivity).
    cbn [app]. now rewrite !app_nil_r. }
  assert (k4 : keys_with "planetssb" t = map fst K4).
  { rewrite ks, f0 by (intros x i; repeat (destruct i as [<-|i]; [reflexivity|]); destruct i).
    rewrite (no "planetssb" "Mmat_" K1 in1), (no "planetssb" "sunssb_" K2 in2), (no "planetssb" "pos_t_" K3 in3) by reflexivity.
    rewrite (filter_all _ (map fst K4)) by (intros x i; apply in4 in i; destruct i as [i [s [_ ->]]]; reflexivity).
    rewrite (filter_none _ (map fst K5)) by (intros x i; apply in5 in i; destruct i as [k ->]; reflexivity).
    cbn [app]. now rewrite !app_nil_r. }
  assert (k5 : keys_with "flags_" t = map fst K5).
  { rewrite ks, f0 by (intros x i; repeat (destruct i as [<-|i]; [reflexivity|]); destruct i).
    rewrite (no "flags_" "Mmat_" K1 in1), (no "flags_" "sunssb_" K2 in2), (no "flags_" "pos_t_" K3 in3) by reflexivity.
    rewrite (filter_none _ (map fst K4)) by (intros x i; apply in4 in i; destruct i as [i [s [_ ->]]]; reflexivity).
    rewrite (filter_all _ (map fst K5)) by (intros x i; apply in5 in i; destruct i as [k ->]; destruct k; reflexivity).
    reflexivity. }
  assert (sb : forall g, (g = K1 \/ g = K2 \/ g = K3 \/ g = K4 \/ g = K5) -> forall kv, In kv g -> In kv (t_cols t)).
  { intros g hg kv i. rewrite tc, !in_app_iff. repeat (destruct hg as [->|hg]; [tauto|]). rewrite hg in i. tauto. }
  assert (st : forall v cs, In (v, cs) [("Mmat", M); ("sunssb", S); ("pos_t", Q)] -> stack cs = Ok cs).
  { intros v cs i. apply h3 in i. destruct cs; [easy|reflexivity]. }
  unfold vector_columns. cbn [rmapM].
  rewrite k1, (col_items t K1 ndt) by (apply sb; auto). unfold K1 at 1. rewrite vector_vals. cbn [rbind].
  rewrite k2, (col_items t K2 ndt) by (apply sb; auto). unfold K2 at 1. rewrite vector_vals. cbn [rbind].
  rewrite k3, (col_items t K3 ndt) by (apply sb; auto). unfold K3 at 1. rewrite vector_vals. cbn [rbind].
  rewrite (st "Mmat" M), (st "sunssb" S), (st "pos_t" Q) by (simpl; auto). cbn [rmap rbind].
  (* planets *)
  rewrite k4. unfold K4 at 1. rewrite tensor_row_names by (intros r i e; apply hm in i; rewrite e in i; simpl in i; lia).
  rewrite names_sorted by lia.
  assert (pl : rmapM (fun r => rmapM (col t) (keys_with r t)) (map row_name (seq 0 (length planets))) = Ok planets).
  { assert (one : forall i r, nth_error planets i = Some r -> rmapM (col t) (keys_with (row_name i) t) = Ok r).
    { intros i r e. assert (li : i < length planets) by (apply nth_error_Some; congruence).
      assert (kr : keys_with (row_name i) t = map fst (row_items (i, r))).
      { rewrite ks. unfold row_name. rewrite f0 by (intros x ix; repeat (destruct ix as [<-|ix]; [reflexivity|]); destruct ix).
        rewrite (no _ "Mmat_" K1 in1), (no _ "sunssb_" K2 in2), (no _ "pos_t_" K3 in3) by reflexivity.
        rewrite (filter_none _ (map fst K5)) by (intros x ix; apply in5 in ix; destruct ix as [k ->]; reflexivity).
        fold (row_name i). unfold K4. rewrite (tensor_row_keys planets i r) by (lia || exact e). cbn [app]. now rewrite app_nil_r. }
      rewrite kr, (col_items t (row_items (i, r)) ndt); [now rewrite row_vals|].
      intros kv ik. apply (sb K4); [tauto|]. unfold K4. rewrite tensor_rows. apply in_flat_map. exists (i, r). split; [|exact ik].
      unfold number. clear -e. revert i e. assert (g : forall s i, nth_error planets i = Some r -> In (s + i, r) (combine (seq s (length planets)) planets)).
      { induction planets as [|r0 planets IH]; intros s [|i] e; try discriminate; simpl in *; [injection e as ->; left; f_equal; lia|].
        right. replace (s + Datatypes.S i) with (Datatypes.S s + i) by lia. now apply IH. }
      intros i e. apply (g 0 i e). }
    clear -one. clearbody t. assert (g : forall s pls, (forall i r, nth_error pls i = Some r -> rmapM (col t) (keys_with (row_name (s + i)) t) = Ok r) ->
      rmapM (fun r => rmapM (col t) (keys_with r t)) (map row_name (seq s (length pls))) = Ok pls).
    { intros s pls; revert s. induction pls as [|r pls IH]; intros s h; [reflexivity|]. cbn [length seq map rmapM].
      assert (e := h 0 r eq_refl). rewrite Nat.add_0_r in e. rewrite e. cbn [rbind]. rewrite IH; [reflexivity|].
      intros i r' e'. specialize (h (Datatypes.S i) r' e'). now rewrite Nat.add_succ_r in h. }
    apply g. exact one. }
  rewrite pl. cbn [rbind].
  assert (s2 : stack2 planets = Ok planets).
  { destruct planets as [|r planets]; [simpl in h4; lia|]. unfold stack2.
    assert (e : forallb (fun r' => Nat.eqb (length r') (length r)) planets = true).
    { apply forallb_forall. intros r' i. apply Nat.eqb_eq. rewrite (hm r' (or_intror i)), (hm r (or_introl eq_refl)). reflexivity. }
    rewrite e. destruct (Nat.eqb_spec (length r) 0) as [z|_]; [|reflexivity]. rewrite (hm r (or_introl eq_refl)) in z. lia. }
  rewrite s2. cbn [rbind]. rewrite k5.
  assert (fl : rmapM (fun k => rmap (pair (all_but_first k)) (col t k)) (map fst K5) = Ok flags).
  { assert (sub : forall kv, In kv K5 -> In kv (t_cols t)) by (apply sb; tauto).
    unfold K5 in *. clear -sub ndt. clearbody t. induction flags as [|[k v] flags IH]; [reflexivity|]. cbn [flag_items map fst rmapM] in *.
    unfold col at 1, dgetE. rewrite (dget_items _ _ v ndt (sub (append "flags_" k, v) (or_introl eq_refl))). cbn [rmap rbind].
    unfold flag_items in IH. rewrite IH by (intros kv i; apply sub; now right). cbn [rbind]. now rewrite all_but_first_flag. }
  rewrite fl. cbn [rbind]. rewrite (dupdate_app flags []) by exact nf. cbn [app].
  eexists. split; [reflexivity|].
  set (mt := t_meta t).
  assert (mm : forall names n, dget string_dec (flat_map (fun n => match dget string_dec mt n with Some v => [(n, v)] | None => [] end) names) n = if in_dec string_dec n names then dget string_dec mt n else None).
  { induction names as [|k names IH]; intros n; [reflexivity|]. cbn [flat_map].
    destruct (dget string_dec mt k) as [v|] eqn:E; cbn [app dget].
    - destruct (string_dec n k) as [->|ne]; [destruct (in_dec string_dec k (k :: names)) as [_|q]; [now rewrite E|exfalso; apply q; now left]|].
      rewrite IH. destruct (in_dec string_dec n names), (in_dec string_dec n (k :: names)); try reflexivity; simpl in *; intuition congruence.
    - rewrite IH. destruct (in_dec string_dec n names), (in_dec string_dec n (k :: names)); try reflexivity; simpl in *; intuition congruence. }
  assert (mm2 : forall names n, dget string_dec (flat_map (fun n => match dget string_dec meta n with Some v => [(n, v)] | None => [] end) names) n = if in_dec string_dec n names then dget string_dec meta n else None).
  { induction names as [|k names IH]; intros n; [reflexivity|]. cbn [flat_map].
    destruct (dget string_dec meta k) as [v|] eqn:E; cbn [app dget].
    - destruct (string_dec n k) as [->|ne]; [destruct (in_dec string_dec k (k :: names)) as [_|q]; [now rewrite E|exfalso; apply q; now left]|].
      rewrite IH. destruct (in_dec string_dec n names), (in_dec string_dec n (k :: names)); try reflexivity; simpl in *; intuition congruence.
    - rewrite IH. destruct (in_dec string_dec n names), (in_dec string_dec n (k :: names)); try reflexivity; simpl in *; intuition congruence. }
  split.
  - intros n i. rewrite mm. destruct (in_dec string_dec n metadata) as [_|q]; [|exfalso; apply q, i].
    unfold mt, t, save_with. cbn [t_meta a_meta]. rewrite mm2. destruct (in_dec string_dec n metadata) as [_|q]; [reflexivity|exfalso; apply q, i].
  - intros n ne. rewrite mm in ne. destruct (in_dec string_dec n metadata) as [i|q]; [exact i|easy].
Qed.
Lemma read_noise_lem : forall C J (p : arrays C J) d, a_noise p = Some d -> d <> [] ->
  exists d', t_noise (save_with metadata p) = Some d' /\ forall k v, In (k, v) d' <-> In (k, v) d /\ String.prefix (a_name p) k = true.
Proof.
  intros C J p d e n. unfold save_with. cbn [t_noise]. rewrite e. destruct d as [|x d]; [easy|].
  eexists; split; [reflexivity|]. intros k v. exact (filter_In (fun kv => starts_with (a_name p) (fst kv)) (k, v) (x :: d)).
Qed.
(** Eleven rows. *)
Definition wit_ar (n : nat) : arrays nat nat :=
  Arrays (map (fun k => (k, 0)) columns) [("Mmat", [1; 2]); ("sunssb", [3]); ("pos_t", [4])] (map (fun i => [i; i]) (seq 0 n)) [("f", 5); ("my_flag_", 6)] "J1" [("name", 1)] (Some [("J1_efac", 1); ("J2_efac", 2)]).
Lemma read_many_rows_refuted_lem : exists p : arrays nat nat,
  length (a_planets p) = 11 /\ (forall r, In r (a_planets p) -> length r = 2) /\ read_feather (save_with metadata p) = Err ValueError.
Proof.
  exists (wit_ar 11). split; [reflexivity|]. split; [|vm_compute; reflexivity].
  intros r i. cbn [a_planets wit_ar] in i. apply in_map_iff in i. destruct i as [k [<- _]]. reflexivity.
Qed.
Lemma wit_ar_saveable : saveable (wit_ar 9).
Proof.
  split; [reflexivity|]. split; [reflexivity|]. split; [|split; [|split]].
  - intros v cs i. simpl in i. intuition (congruence || discriminate).
  - split; apply Nat.leb_le; reflexivity.
  - exists 2. split; [lia|]. intros r i. cbn [a_planets wit_ar] in i. apply in_map_iff in i. destruct i as [k [<- _]]. reflexivity.
  - repeat (constructor; [simpl; intuition discriminate|]). constructor.
Qed.
(** A file including another twice satisfies every hypothesis on counting. *)
Definition ok_toa (s : string) : bool := wit_toa s && (not_blank s && negb (starts_with "C" s)).
Definition ok_inc (s : string) : option string :=
  if substring_of "INCLUDE" s && negb (starts_with "C" s) then match last_word s with Ok w => Some w | Err _ => None end else None.
Definition ok_fs (f : string) : option (list string) :=
  if String.eqb f "plain.tim" then Some ["C comment"; "INCLUDE b.tim"; "INCLUDE b.tim"] else
  if String.eqb f "b.tim" then Some ["FORMAT 1"; "p3 1440 53000.3 1.0 gbt"; ""] else None.
Lemma ok_satisfies : includes_plain ok_inc /\ toas_plain ok_toa /\ not_mixed ok_toa ok_inc ok_fs /\ includes_known ok_inc ok_fs /\
  toas_of ok_toa ok_inc ok_fs "plain.tim" 2 /\ get_maxobs ok_fs 5 "plain.tim" = Ok 4.
Proof.
  split; [|split; [|split; [|split; [|split; [|reflexivity]]]]].
  - intros ln f. unfold ok_inc. destruct (substring_of "INCLUDE" ln) eqn:E1, (starts_with "C" ln) eqn:E2; try discriminate. simpl.
    destruct (last_word ln) eqn:E3; [|discriminate]. intros [= ->]. now rewrite <- E3.
  - intros ln. unfold ok_toa. destruct (not_blank ln) eqn:E1, (starts_with "C" ln) eqn:E2; rewrite ?andb_false_r; try discriminate. auto.
  - intros f lines ln ln' e i i' a b c. unfold ok_fs in e. destruct (String.eqb f "plain.tim").
    + injection e as <-. repeat (destruct i' as [<-|i']; [try discriminate c|]). destruct i'.
    + destruct (String.eqb f "b.tim"); [|discriminate]. injection e as <-. repeat (destruct i as [<-|i]; [discriminate a|]). destruct i.
  - intros f lines ln e i a b. unfold ok_fs in e. destruct (String.eqb f "plain.tim").
    + injection e as <-. repeat (destruct i as [<-|i]; [try discriminate a; try discriminate b; eexists; reflexivity|]). destruct i.
    + destruct (String.eqb f "b.tim"); [|discriminate]. injection e as <-. repeat (destruct i as [<-|i]; [discriminate a|]). destruct i.
  - assert (b : toas_of ok_toa ok_inc ok_fs "b.tim" 1).
    { eapply toas_file; [reflexivity|]. apply (toas_line ok_toa ok_inc ok_fs "FORMAT 1" _ 1); [reflexivity|].
      apply (toas_line ok_toa ok_inc ok_fs "p3 1440 53000.3 1.0 gbt" _ 0); [reflexivity|].
      apply (toas_line ok_toa ok_inc ok_fs "" _ 0); [reflexivity|]. apply toas_nil. }
    eapply toas_file; [reflexivity|]. apply (toas_line ok_toa ok_inc ok_fs "C comment" _ 2); [reflexivity|].
    apply (toas_include ok_toa ok_inc ok_fs _ _ "b.tim" 1 1); [reflexivity|exact b|].
    apply (toas_include ok_toa ok_inc ok_fs _ _ "b.tim" 1 0); [reflexivity|exact b|apply toas_nil].
Qed.
