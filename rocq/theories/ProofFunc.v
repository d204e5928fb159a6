(** Proofs about parameter functions. *)
From Coq Require Import String Bool Arith List Lia.
From Verif Require Import PyBase ProofBase ModelFunc.
Import ListNotations.
Open Scope string_scope.
Open Scope list_scope.

Lemma mem_strP x l : mem_str x l = true <-> In x l.
Proof.
  unfold mem_str; rewrite existsb_exists; split.
  - intros [y [iy e]]; apply String.eqb_eq in e; subst; exact iy.
  - intros i; exists x; split; [exact i|apply String.eqb_refl].
Qed.
Lemma mem_str_false x l : mem_str x l = false <-> ~ In x l.
Proof. rewrite <- mem_strP; destruct (mem_str x l); split; congruence. Qed.

Lemma NoDup_app_l {A} {l l' : list A} : NoDup (l ++ l') -> NoDup l.
Proof.
  induction l as [|x l IH]; simpl; intros nd; [constructor|]; inversion nd as [|y m ni nd']; subst.
  constructor; [|now apply IH]. intros i; apply ni, in_or_app; now left.
Qed.

Section Func.
Variable V : Type.
Variable attr : V -> string -> option V.
Variable masked : V -> V -> V.
Notation sdict := (dict string V).
Notation dget := (dget string_dec).
Notation dset := (dset string_dec).
Notation dmem := (dmem string_dec).
Notation dpop := (dpop string_dec).

(** ** Calls depend on the keyword dictionary as a map *)
Definition same_map (d d' : sdict) : Prop := forall k, dget d k = dget d' k.
Lemma same_keys d d' : same_map d d' -> forall k, In k (dkeys d) <-> In k (dkeys d').
Proof.
  intros s k; split; intros i.
  - destruct (in_dget_Some string_dec _ _ i) as [v e]; rewrite (s k) in e; exact (dget_Some_in _ _ _ _ e).
  - destruct (in_dget_Some string_dec _ _ i) as [v e]; rewrite <- (s k) in e; exact (dget_Some_in _ _ _ _ e).
Qed.
Lemma same_mem d d' k : same_map d d' -> dmem d k = dmem d' k.
Proof. intros s; unfold PyBase.dmem; now rewrite (s k). Qed.
Lemma same_pop d d' k : NoDup (dkeys d) -> NoDup (dkeys d') -> same_map d d' -> same_map (dpop d k) (dpop d' k).
Proof.
  intros n n' s k2; destruct (string_dec k2 k) as [->|ne].
  - now rewrite !dget_dpop_same.
  - now rewrite !dget_dpop_other.
Qed.
Lemma bind_ext names : forall dfl args (d d' : sdict), same_map d d' -> bind names dfl args d = bind names dfl args d'.
Proof.
  induction names as [|x ns IH]; intros [|df dfl] args d d' s; try reflexivity.
  cbn [bind]; rewrite (same_mem _ _ x s), (s x).
  destruct args as [|a args]; rewrite ?(IH dfl [] _ _ s), ?(IH dfl args _ _ s); reflexivity.
Qed.
Lemma call_py_ext (f : pyfun V) args (d d' : sdict) : same_map d d' -> call_py f args d = call_py f args d'.
Proof.
  intros s; unfold call_py; rewrite (bind_ext _ _ _ _ _ s).
  replace (forallb (fun k => mem_str k (pf_args f)) (dkeys d)) with (forallb (fun k => mem_str k (pf_args f)) (dkeys d')); [reflexivity|].
  apply eq_true_iff_eq; rewrite !forallb_forall; split; intros h k i; apply h; now apply (same_keys _ _ s).
Qed.
Lemma sel_call_ext (f : pyfun V) args (d d' : sdict) : NoDup (dkeys d) -> NoDup (dkeys d') -> same_map d d' ->
  sel_call attr masked f args d = sel_call attr masked f args d'.
Proof.
  intros n n' s; unfold sel_call.
  assert (s1 := same_pop _ _ "mask" n n' s).
  rewrite (s "mask"), (s1 "psr"), (same_mem _ _ "psr" s1).
  assert (e : forall p l, flat_map (fun a => if dmem (dpop d "mask") a then [] else
      match attr p a with Some v => [domask masked (dget d' "mask") v] | None => [] end) l =
      flat_map (fun a => if dmem (dpop d' "mask") a then [] else
      match attr p a with Some v => [domask masked (dget d' "mask") v] | None => [] end) l).
  { intros p l; apply flat_map_ext; intros a; now rewrite (same_mem _ _ a s1). }
  destruct (dget (dpop d' "mask") "psr") as [p|]; rewrite ?e;
    destruct (dmem (dpop d' "mask") "psr" && negb (mem_str "psr" (pf_args f)));
    apply call_py_ext; try exact s1; apply same_pop; auto; now apply dpop_NoDup.
Qed.

(** ** Initialisation *)
Definition own_par (name fname : string) (k : string) (a : arg V) : option (par V) :=
  let pn := us_name [name; fname; k] in
  match a with
  | AParC prior => Some (Par pn (inst prior pn None))
  | ACstC v => Some (Cst pn (v pn))
  | AInst p => Some p
  | _ => None
  end.
Definition nested_of (name fname : string) (psr : option V) (k : string) (a : arg V) : option (fobj V) :=
  match a with
  | AFunC g => Some (inst g (us_name [name; fname; k]) psr)
  | AFun o => Some o
  | _ => None
  end.
Definition init_step (name fname : string) (psr : option V)
    (st : list (string * par V) * list (string * V) * list (string * fobj V)) (ka : string * arg V) :=
  let '(ps, defs, fns) := st in
  match own_par name fname (fst ka) (snd ka) with
  | Some p => (dset ps (fst ka) p, defs, fns)
  | None =>
      match nested_of name fname psr (fst ka) (snd ka) with
      | Some o => (dupdate string_dec ps (fo_params o), defs, dset fns (fst ka) o)
      | None => match snd ka with AVal v => (ps, dset defs (fst ka) v, fns) | _ => st end
      end
  end.
Definition init_run name fname psr kws st := fold_left (init_step name fname psr) kws st.
Lemma fold_left_ext {A B} (f g : A -> B -> A) l : (forall a b, f a b = g a b) -> forall a, fold_left f l a = fold_left g l a.
Proof. intros h; induction l as [|x l IH]; intros a; simpl; [reflexivity|now rewrite h]. Qed.
Lemma inst_run f fname kws name psr :
  inst (FC f fname kws) name psr =
  let st := init_run name fname psr kws ([], [], []) in
  FObj (us_name [name; fname]) f psr (map fst kws) (fst (fst st)) (snd (fst st)) (snd st).
Proof.
  unfold init_run; cbn [inst]; cbv zeta.
  erewrite (fold_left_ext _ (init_step name fname psr)); [reflexivity|].
  intros [[ps defs] fns] [k a]; unfold init_step, own_par, nested_of; simpl; destruct a; reflexivity.
Qed.

Definition arg_val (a : arg V) : option V := match a with AVal v => Some v | _ => None end.
Lemma dget_dupdate_none (ps q : list (string * par V)) k : dget q k = None -> dget (dupdate string_dec ps q) k = dget ps k.
Proof.
  unfold dupdate; revert ps; induction q as [|[k' p] q IH]; intros ps h; simpl in *; [reflexivity|].
  destruct (string_dec k k') as [->|ne]; [discriminate|].
  rewrite IH by exact h. now apply dget_dset_other.
Qed.

Lemma run_defs name fname psr kws : forall ps defs fns k, NoDup (dkeys kws) ->
  dget (snd (fst (init_run name fname psr kws (ps, defs, fns)))) k =
  match dget kws k with Some (AVal v) => Some v | _ => dget defs k end.
Proof.
  induction kws as [|[k' a] kws IH]; intros ps defs fns k nd; [reflexivity|].
  inversion nd as [|x l ni nd']; subst.
  unfold init_run; cbn [fold_left]; fold (init_run name fname psr kws (init_step name fname psr (ps, defs, fns) (k', a))).
  unfold init_step at 1; cbn [fst snd].
  destruct (string_dec k k') as [->|ne].
  - assert (g0 : dget kws k' = None) by (now apply dget_None_notin).
    cbn [PyBase.dget]; destruct (string_dec k' k') as [_|c]; [|now destruct c].
    destruct a; unfold own_par, nested_of; cbn; fold (init_run name fname psr); rewrite IH by exact nd'; rewrite g0; try reflexivity.
    now rewrite dget_dset_same.
  - cbn [PyBase.dget]; destruct (string_dec k k') as [c|_]; [now destruct ne|].
    destruct a; unfold own_par, nested_of; cbn; rewrite IH by exact nd'; try reflexivity.
    now rewrite dget_dset_other.
Qed.

Lemma run_fns name fname psr kws : forall ps defs fns k, NoDup (dkeys kws) ->
  dget (snd (init_run name fname psr kws (ps, defs, fns))) k =
  match dget kws k with
  | Some a => match nested_of name fname psr k a with Some o => Some o | None => dget fns k end
  | None => dget fns k end.
Proof.
  induction kws as [|[k' a] kws IH]; intros ps defs fns k nd; [reflexivity|].
  inversion nd as [|x l ni nd']; subst.
  unfold init_run; cbn [fold_left]; fold (init_run name fname psr kws (init_step name fname psr (ps, defs, fns) (k', a))).
  unfold init_step at 1; cbn [fst snd].
  destruct (string_dec k k') as [->|ne].
  - assert (g0 : dget kws k' = None) by (now apply dget_None_notin).
    cbn [PyBase.dget]; destruct (string_dec k' k') as [_|c]; [|now destruct c].
    destruct a; unfold own_par, nested_of; cbn; rewrite IH by exact nd'; rewrite g0; try reflexivity; now rewrite dget_dset_same.
  - cbn [PyBase.dget]; destruct (string_dec k k') as [c|_]; [now destruct ne|].
    destruct a; unfold own_par, nested_of; cbn; rewrite IH by exact nd'; try reflexivity; unfold nested_of;
    now rewrite dget_dset_other.
Qed.

Lemma run_params name fname psr kws : forall ps defs fns k, NoDup (dkeys kws) ->
  (forall k' a o, In (k', a) kws -> nested_of name fname psr k' a = Some o -> ~ In k (dkeys (fo_params o))) ->
  dget (fst (fst (init_run name fname psr kws (ps, defs, fns)))) k =
  match dget kws k with
  | Some a => match own_par name fname k a with Some p => Some p | None => dget ps k end
  | None => dget ps k end.
Proof.
  induction kws as [|[k' a] kws IH]; intros ps defs fns k nd ap; [reflexivity|].
  inversion nd as [|x l ni nd']; subst.
  assert (ap' : forall k' a o, In (k', a) kws -> nested_of name fname psr k' a = Some o -> ~ In k (dkeys (fo_params o)))
    by (intros k1 a1 o1 i1; apply (ap k1 a1 o1); now right).
  assert (ap0 := fun o => ap k' a o (or_introl eq_refl)).
  unfold init_run; cbn [fold_left]; fold (init_run name fname psr kws (init_step name fname psr (ps, defs, fns) (k', a))).
  unfold init_step at 1; cbn [fst snd].
  destruct (string_dec k k') as [->|ne].
  - assert (g0 : dget kws k' = None) by (now apply dget_None_notin).
    cbn [PyBase.dget]; destruct (string_dec k' k') as [_|c]; [|now destruct c].
    destruct a; unfold own_par, nested_of in *; cbn in *; rewrite IH by assumption; rewrite g0; rewrite ?dget_dset_same; try reflexivity.
    + apply dget_dupdate_none, dget_None_notin; now apply ap0.
    + apply dget_dupdate_none, dget_None_notin; now apply ap0.
  - cbn [PyBase.dget]; destruct (string_dec k k') as [c|_]; [now destruct ne|].
    destruct a; unfold nested_of in *; cbn in *; rewrite IH by assumption; rewrite ?dget_dset_other by exact ne; try reflexivity.
    + rewrite (proj2 (dget_None_notin string_dec (fo_params (inst c (us_name [name; fname; k']) psr)) k)) || idtac.
      rewrite dget_dupdate_none; [reflexivity|]. apply dget_None_notin; now apply ap0.
    + rewrite dget_dupdate_none; [reflexivity|]. apply dget_None_notin; now apply ap0.
Qed.

(** ** The loop of a call *)
(** A nested function shares no keyword with the function it is given to: neither
    one of its own nor one of the parameters it has (its nested functions' included). *)
Definition apart (c : fclass V) (name : string) (psr : option V) : Prop :=
  match c with
  | FC f fname kws =>
      forall k a o, In (k, a) kws -> nested_of name fname psr k a = Some o ->
      forall k', In k' (dkeys kws) -> ~ In k' (fo_kws o) /\ ~ In k' (dkeys (fo_params o))
  end.

Definition only (l : list string) (kw : sdict) : sdict := filter (fun kv => mem_str (fst kv) l) kw.
Definition nested_of_obj (params : sdict) (fns : list (string * fobj V)) :=
  map (fun kf => (fst kf, (fo_kws (snd kf), fun kw' => call attr masked (snd kf) [] kw' params None))) fns.

(** What a keyword that is not given is bound to. *)
Definition slot (params : sdict) ps defs nested (kw : sdict) (k : string) : result (option V) :=
  match dget ps k with
  | Some p => Ok (match dget params (par_name p) with Some v => Some v | None => par_value p end)
  | None =>
      match dget defs k with
      | Some v => Ok (Some v)
      | None =>
          match dget nested k with
          | Some (fkws, ev) => rmap Some (ev (only fkws kw))
          | None => Ok None
          end
      end
  end.
Definition added (kw : sdict) (rv : string -> option V) (ks : list string) : sdict :=
  flat_map (fun k => if dmem kw k then [] else match rv k with Some v => [(k, v)] | None => [] end) ks.
Lemma added_keys kw rv ks k : In k (dkeys (added kw rv ks)) -> In k ks /\ ~ In k (dkeys kw).
Proof.
  unfold added, dkeys; rewrite in_map_iff; intros [[k' v] [<- h]]; apply in_flat_map in h; destruct h as [x [ix h]]; simpl.
  destruct (dmem kw x) eqn:E; [destruct h|].
  destruct (rv x); [|destruct h]; destruct h as [h|[]]; injection h as <- <-; split; [exact ix|].
  now apply dmem_false in E.
Qed.
Lemma added_NoDup kw rv ks : NoDup ks -> NoDup (dkeys (added kw rv ks)).
Proof.
  induction ks as [|k ks IH]; intros nd; [constructor|]; inversion nd as [|x l ni nd']; subst.
  unfold added; cbn [flat_map]; fold (added kw rv ks).
  destruct (dmem kw k); [now apply IH|]; destruct (rv k); [|now apply IH].
  cbn; constructor; [|now apply IH]. intros i; apply ni; now apply (added_keys kw rv ks).
Qed.
Lemma dget_app (d d' : sdict) k : dget (d ++ d') k = match dget d k with Some v => Some v | None => dget d' k end.
Proof. induction d as [|[k' v] d IH]; simpl; [reflexivity|]. destruct (string_dec k k'); [reflexivity|exact IH]. Qed.
Lemma dget_added kw rv ks k : NoDup ks -> ~ In k (dkeys kw) ->
  dget (added kw rv ks) k = if mem_str k ks then rv k else None.
Proof.
  intros nd nk; induction ks as [|k' ks IH]; [reflexivity|]; inversion nd as [|x l ni nd']; subst.
  unfold added; cbn [flat_map]; fold (added kw rv ks); rewrite dget_app, IH by exact nd'.
  unfold mem_str; cbn [existsb]; fold (mem_str k ks).
  destruct (String.eqb_spec k k') as [->|ne].
  - rewrite (proj2 (dmem_false string_dec kw k') nk); simpl.
    destruct (rv k') eqn:E; cbn; [destruct (string_dec k' k') as [_|c]; [reflexivity|now destruct c]|].
    now destruct (mem_str k' ks).
  - simpl. destruct (dmem kw k'); [reflexivity|].
    destruct (rv k') eqn:E; cbn; [|reflexivity].
    destruct (string_dec k k') as [c|_]; [now destruct ne|reflexivity].
Qed.
Lemma filter_app_none {A} (p : A -> bool) l l' : (forall x, In x l' -> p x = false) -> filter p (l ++ l') = filter p l.
Proof.
  intros h; rewrite filter_app.
  replace (filter p l') with (@nil A); [now rewrite app_nil_r|].
  induction l' as [|x l' IH]; simpl; [reflexivity|].
  rewrite h by now left. apply IH; intros y iy; apply h; now right.
Qed.

Section Loop.
Variables (params : sdict) (ps : list (string * par V)) (defs : list (string * V))
  (nested : list (string * (list string * (sdict -> result V)))) (own : list string) (kw : sdict).
Hypothesis sep : forall k fkws ev, dget nested k = Some (fkws, ev) -> forall k', In k' own -> ~ In k' fkws.

Lemma fill_step rv done k : NoDup (k :: done) -> incl (k :: done) own ->
  fill_kw params ps defs nested (@Ok sdict (kw ++ added kw rv done)) k =
  if dmem kw k then @Ok sdict (kw ++ added kw rv done) else
  rmap (fun o => (kw ++ added kw rv done) ++ match o with Some v => [(k, v)] | None => [] end) (slot params ps defs nested kw k).
Proof.
  intros nd inc; inversion nd as [|x l ni nd']; subst.
  assert (nk : ~ In k (dkeys (added kw rv done))) by (intros i; apply ni; now apply (added_keys kw rv done)).
  assert (mE : dmem (kw ++ added kw rv done) k = dmem kw k).
  { unfold PyBase.dmem; rewrite dget_app; destruct (dget kw k); [reflexivity|].
    now rewrite (proj2 (dget_None_notin string_dec _ _) nk). }
  unfold fill_kw; cbn [rbind]; rewrite mE; destruct (dmem kw k) eqn:mk; [reflexivity|].
  assert (new : forall v, dset (kw ++ added kw rv done) k v = (kw ++ added kw rv done) ++ [(k, v)]).
  { intros v; apply dset_new; apply dmem_false in mE; exact mE. }
  unfold slot; destruct (dget ps k) as [p|].
  - destruct (dget params (par_name p)); [now rewrite new|]. destruct (par_value p); simpl; [now rewrite new|now rewrite app_nil_r].
  - destruct (dget defs k); [now rewrite new|].
    destruct (dget nested k) as [[fkws ev]|] eqn:E; [|simpl; now rewrite app_nil_r].
    assert (f0 : filter (fun kv => mem_str (fst kv) fkws) (kw ++ added kw rv done) = only fkws kw).
    { apply filter_app_none; intros [k' v'] i; simpl; apply mem_str_false.
      apply (sep k fkws ev E); apply inc; right; apply (added_keys kw rv done), in_map_iff; now exists (k', v'). }
    rewrite f0; destruct (ev (only fkws kw)); simpl; [now rewrite new|reflexivity].
Qed.
Lemma added_snoc rv done k : added kw rv (done ++ [k]) =
  added kw rv done ++ (if dmem kw k then [] else match rv k with Some v => [(k, v)] | None => [] end).
Proof. unfold added; rewrite flat_map_app; simpl; now rewrite app_nil_r. Qed.

Lemma added_perm_step rv done k : NoDup (k :: done) -> incl (k :: done) own ->
  (dmem kw k = false -> slot params ps defs nested kw k = Ok (rv k)) ->
  fill_kw params ps defs nested (@Ok sdict (kw ++ added kw rv done)) k = @Ok sdict (kw ++ added kw rv (done ++ [k])).
Proof.
  intros nd inc h; rewrite fill_step by assumption; rewrite added_snoc.
  destruct (dmem kw k) eqn:mk; [now rewrite app_nil_r|].
  rewrite h by reflexivity; simpl; now rewrite app_assoc.
Qed.
Lemma loop_ok rv ks : forall done, NoDup (done ++ ks) -> incl (done ++ ks) own ->
  (forall k, In k ks -> ~ In k (dkeys kw) -> slot params ps defs nested kw k = Ok (rv k)) ->
  fold_left (fill_kw params ps defs nested) ks (@Ok sdict (kw ++ added kw rv done)) = @Ok sdict (kw ++ added kw rv (done ++ ks)).
Proof.
  induction ks as [|k ks IH]; intros done nd inc h; [now rewrite app_nil_r|].
  cbn [fold_left]; rewrite added_perm_step.
  - replace (done ++ k :: ks) with ((done ++ [k]) ++ ks) in * by now rewrite <- app_assoc.
    apply IH; [exact nd|exact inc|]. intros k' i'; apply h; now right.
  - constructor; [|exact (NoDup_app_l nd)].
    intros i; apply (NoDup_remove_2 _ _ _ nd); apply in_or_app; now left.
  - intros x [<-|i]; apply inc; apply in_or_app; [right; now left|now left].
  - intros mk; apply h; [now left|]. now apply dmem_false in mk.
Qed.
Lemma loop_stop e ks : fold_left (fill_kw params ps defs nested) ks (Err e) = Err e.
Proof. induction ks; simpl; [reflexivity|assumption]. Qed.
Lemma loop_err rv ks1 k e ks2 : NoDup (ks1 ++ k :: ks2) -> incl (ks1 ++ k :: ks2) own ->
  (forall k, In k ks1 -> ~ In k (dkeys kw) -> slot params ps defs nested kw k = Ok (rv k)) ->
  ~ In k (dkeys kw) -> slot params ps defs nested kw k = Err e ->
  fold_left (fill_kw params ps defs nested) (ks1 ++ k :: ks2) (@Ok sdict kw) = Err e.
Proof.
  intros nd inc h nk se; rewrite fold_left_app.
  assert (l1 := loop_ok rv ks1 []); change (added kw rv []) with (@nil (string * V)) in l1; rewrite app_nil_r in l1; cbn [app] in l1; rewrite l1; clear l1.
  - cbn [fold_left]; rewrite fill_step.
    + rewrite (proj2 (dmem_false string_dec kw k) nk), se; simpl; apply loop_stop.
    + constructor; [|exact (NoDup_app_l nd)].
      intros i; apply (NoDup_remove_2 _ _ _ nd); apply in_or_app; now left.
    + intros x [<-|i]; apply inc; apply in_or_app; [right; now left|now left].
  - exact (NoDup_app_l nd).
  - intros x i; apply inc; apply in_or_app; now left.
  - exact h.
Qed.
End Loop.

(** ** Calls *)
Definition ok_val {A} (r : result A) : option A := match r with Ok v => Some v | Err _ => None end.
Definition or_else {A} (x y : option A) : option A := match x with Some v => Some v | None => y end.
(** The binding of each keyword: given explicitly; else for a parameter its entry
    in [params] under its full name; else the value of a constant, the default,
    or the value of the function given for it; and the pulsar for "psr". *)
Definition resolve (c : fclass V) (name : string) (psr : option V) (kw params : sdict) (k : string) : option V :=
  match c with
  | FC f fname kws =>
      let full := us_name [name; fname; k] in
      if admitted f (map fst kws) k then
        or_else (dget kw k)
        (or_else
          (match dget kws k with
           | Some (AParC _) => dget params full
           | Some (ACstC v) => or_else (dget params full) (Some (v full))
           | Some (AInst (Par n _)) => dget params n
           | Some (AInst (Cst n v)) => or_else (dget params n) (Some v)
           | Some (AVal v) => Some v
           | Some (AFunC (FC g gname gkws)) =>
               ok_val (call attr masked (inst (FC g gname gkws) full psr) [] (only (map fst gkws) kw) params None)
           | Some (AFun o) => ok_val (call attr masked o [] (only (fo_kws o) kw) params None)
           | None => None
           end)
          (if string_dec k "psr" then psr else None))
      else None
  end.

Lemma dget_map {A B} (g : A -> B) (d : list (string * A)) k :
  dget (map (fun kv => (fst kv, g (snd kv))) d) k = option_map g (dget d k).
Proof. induction d as [|[k' v] d IH]; simpl; [reflexivity|]. destruct (string_dec k k'); [reflexivity|exact IH]. Qed.
Lemma dget_filter {A} (p : string -> bool) (d : list (string * A)) k :
  dget (filter (fun kv => p (fst kv)) d) k = if p k then dget d k else None.
Proof.
  induction d as [|[k' v] d IH]; simpl; [now destruct (p k)|].
  destruct (p k') eqn:pk; simpl; destruct (string_dec k k') as [->|ne]; rewrite ?pk; try reflexivity; try exact IH.
  now rewrite IH, pk.
Qed.
Lemma filter_keys_NoDup {A} (p : string -> bool) (d : list (string * A)) : NoDup (dkeys d) -> NoDup (dkeys (filter (fun kv => p (fst kv)) d)).
Proof.
  induction d as [|[k v] d IH]; intros nd; [constructor|]; inversion nd as [|x l ni nd']; subst; simpl.
  destruct (p k); [|now apply IH]. constructor; [|now apply IH].
  intros i; apply ni; apply in_map_iff in i; destruct i as [[k' v'] [e i]]; apply filter_In in i.
  apply in_map_iff; exists (k', v'); tauto.
Qed.
Lemma NoDup_app_disj {A} (l l' : list A) : NoDup l -> NoDup l' -> (forall x, In x l -> ~ In x l') -> NoDup (l ++ l').
Proof.
  induction l as [|x l IH]; intros n n' h; [exact n'|]; inversion n as [|y m ni nd]; subst; simpl; constructor.
  - intros i; apply in_app_or in i; destruct i as [i|i]; [now apply ni|apply (h x); [now left|exact i]].
  - apply IH; auto. intros y iy; apply h; now right.
Qed.

Section Call.
Variables (f : pyfun V) (fname : string) (kws : list (string * arg V)) (name : string) (psr : option V) (kw params : sdict).
Hypotheses (nd : NoDup (dkeys kws)) (ndk : NoDup (dkeys kw)) (ap : apart (FC f fname kws) name psr).
Let st := init_run name fname psr kws ([], [], []).
Let ps := fst (fst st).
Let defs := snd (fst st).
Let fns := snd st.
Let nested := nested_of_obj params fns.

Definition named (k : string) (o : fobj V) : Prop := exists a, In (k, a) kws /\ nested_of name fname psr k a = Some o.
Definition slot_spec (k : string) : result (option V) :=
  match dget kws k with
  | Some a =>
      match own_par name fname k a with
      | Some p => Ok (or_else (dget params (par_name p)) (par_value p))
      | None =>
          match nested_of name fname psr k a with
          | Some o => rmap Some (call attr masked o [] (only (fo_kws o) kw) params None)
          | None => Ok (arg_val a)
          end
      end
  | None => Ok None
  end.
Lemma nested_get k : dget nested k =
  match dget kws k with
  | Some a => match nested_of name fname psr k a with
              | Some o => Some (fo_kws o, fun kw' => call attr masked o [] kw' params None) | None => None end
  | None => None end.
Proof.
  unfold nested, nested_of_obj.
  rewrite (dget_map (fun o => (fo_kws o, fun kw' => call attr masked o [] kw' params None))).
  unfold fns, st; rewrite run_fns by exact nd.
  destruct (dget kws k) as [a|]; [|reflexivity]. now destruct (nested_of name fname psr k a).
Qed.
Lemma slotE k : In k (dkeys kws) -> slot params ps defs nested kw k = slot_spec k.
Proof.
  intros ik; unfold slot, slot_spec.
  assert (pE : dget ps k = match dget kws k with Some a => own_par name fname k a | None => None end).
  { unfold ps, st; rewrite run_params; [|exact nd|].
    - destruct (dget kws k) as [a|]; [|reflexivity]. now destruct (own_par name fname k a).
    - intros k' a o i e; exact (proj2 (ap _ _ _ i e k ik)). }
  rewrite pE, nested_get; unfold defs, st; rewrite run_defs by exact nd.
  destruct (dget kws k) as [a|]; [|reflexivity].
  destruct a; simpl; try reflexivity.
Qed.
Lemma sep_nested k fkws ev : dget nested k = Some (fkws, ev) -> forall k', In k' (dkeys kws) -> ~ In k' fkws.
Proof.
  rewrite nested_get; destruct (dget kws k) as [a|] eqn:E; [|discriminate].
  destruct (nested_of name fname psr k a) as [o|] eqn:N; [|discriminate].
  intros [= <- <-] k' i'; exact (proj1 (ap _ _ _ (dget_In _ _ _ _ E) N k' i')).
Qed.

Hypothesis fine : forall k o, named k o -> ~ In k (dkeys kw) -> exists v, call attr masked o [] (only (fo_kws o) kw) params None = Ok v.
Definition rv (k : string) : option V := match slot_spec k with Ok x => x | Err _ => None end.
Lemma slot_rv k : In k (dkeys kws) -> ~ In k (dkeys kw) -> slot params ps defs nested kw k = Ok (rv k).
Proof.
  intros ik nk; rewrite slotE by exact ik; unfold rv, slot_spec.
  destruct (dget kws k) as [a|] eqn:E; [|reflexivity].
  destruct (own_par name fname k a); [reflexivity|].
  destruct (nested_of name fname psr k a) as [o|] eqn:N; [|reflexivity].
  destruct (fine k o) as [v e]; [exists a; split; [exact (dget_In _ _ _ _ E)|exact N]|exact nk|].
  now rewrite e.
Qed.
Lemma rv_resolve k : ~ In k (dkeys kw) -> admitted f (map fst kws) k = true ->
  or_else (rv k) (if string_dec k "psr" then psr else None) = resolve (FC f fname kws) name psr kw params k.
Proof.
  intros nk ad; unfold resolve; rewrite ad, (proj2 (dget_None_notin string_dec kw k) nk); cbn [or_else].
  f_equal; unfold rv, slot_spec; destruct (dget kws k) as [a|]; [|reflexivity].
  destruct a as [pr|v|[n pr|n v]|[g gn gk]|o|v]; cbn [own_par nested_of arg_val]; try reflexivity.
  - cbn [par_value]; simpl; now destruct (dget params (us_name [name; fname; k])).
  - cbn [par_name par_value]; now destruct (dget params n).
  - replace (fo_kws (inst (FC g gn gk) (us_name [name; fname; k]) psr)) with (map fst gk) by (now rewrite inst_run).
    now destruct (call attr masked (inst (FC g gn gk) (us_name [name; fname; k]) psr) [] (only (map fst gk) kw) params None).
  - now destruct (call attr masked o [] (only (fo_kws o) kw) params None).
Qed.

Definition passed : sdict :=
  filter (fun kv => admitted f (map fst kws) (fst kv))
    (let kw1 := kw ++ added kw rv (map fst kws) in
     match psr with Some p => if dmem kw1 "psr" then kw1 else dset kw1 "psr" p | None => kw1 end).
Lemma kw1_NoDup : NoDup (dkeys (kw ++ added kw rv (map fst kws))).
Proof.
  unfold dkeys; rewrite map_app; apply NoDup_app_disj; [exact ndk|apply added_NoDup; exact nd|].
  intros x i j; apply (added_keys kw rv (map fst kws)) in j; tauto.
Qed.
Lemma passed_NoDup : NoDup (dkeys passed).
Proof.
  unfold passed; apply filter_keys_NoDup; cbv zeta.
  destruct psr; [|exact kw1_NoDup]. destruct (dmem _ "psr"); [exact kw1_NoDup|]. apply dset_NoDup, kw1_NoDup.
Qed.
Lemma kw1_get k : dget (kw ++ added kw rv (map fst kws)) k = or_else (dget kw k) (rv k).
Proof.
  rewrite dget_app; destruct (dget kw k) eqn:E; [reflexivity|]; cbn [or_else].
  apply dget_None_notin in E; rewrite dget_added by assumption.
  destruct (mem_str k (map fst kws)) eqn:M; [reflexivity|].
  apply mem_str_false in M; unfold rv, slot_spec.
  now rewrite (proj2 (dget_None_notin string_dec kws k) M).
Qed.
Lemma passed_get k : dget passed k = resolve (FC f fname kws) name psr kw params k.
Proof.
  unfold passed; rewrite dget_filter; destruct (admitted f (map fst kws) k) eqn:ad; [|unfold resolve; now rewrite ad].
  cbv zeta; set (kw1 := kw ++ added kw rv (map fst kws)).
  assert (g : dget (match psr with Some p => if dmem kw1 "psr" then kw1 else dset kw1 "psr" p | None => kw1 end) k =
              or_else (dget kw1 k) (if string_dec k "psr" then psr else None)).
  { destruct psr as [p|]; [|destruct (string_dec k "psr"), (dget kw1 k); reflexivity].
    destruct (dmem kw1 "psr") eqn:M.
    - apply dmem_true in M; destruct (string_dec k "psr") as [->|ne]; [|now destruct (dget kw1 k)].
      destruct (in_dget_Some string_dec _ _ M) as [v ->]; reflexivity.
    - apply dmem_false in M; destruct (string_dec k "psr") as [->|ne].
      + rewrite dget_dset_same, (proj2 (dget_None_notin string_dec _ _) M); reflexivity.
      + rewrite dget_dset_other by exact ne; now destruct (dget kw1 k). }
  etransitivity; [exact g|]; unfold kw1; rewrite kw1_get.
  destruct (dget kw k) eqn:E; [cbn [or_else]; unfold resolve; now rewrite ad, E|].
  cbn [or_else]; apply rv_resolve; [now apply dget_None_notin in E|exact ad].
Qed.
Lemma call_inst args func : call attr masked (inst (FC f fname kws) name psr) args kw params func =
  match func with Some g => call_py g args passed | None => sel_call attr masked f args passed end.
Proof.
  rewrite inst_run; cbv zeta; cbn [call]; fold st ps defs fns; fold (nested_of_obj params fns); fold nested.
  assert (l := loop_ok params ps defs nested (dkeys kws) kw sep_nested rv (map fst kws) []).
  change (added kw rv []) with (@nil (string * V)) in l; rewrite app_nil_r in l; cbn [app] in l; rewrite l.
  - reflexivity.
  - exact nd.
  - apply incl_refl.
  - intros k i nk; now apply slot_rv.
Qed.
End Call.

Lemma function_call_sec f fname kws name psr kw params args func d :
  NoDup (dkeys kws) -> NoDup (dkeys kw) -> apart (FC f fname kws) name psr ->
  (forall k o, named fname kws name psr k o -> ~ In k (dkeys kw) ->
    exists v, call attr masked o [] (only (fo_kws o) kw) params None = Ok v) ->
  NoDup (dkeys d) -> (forall k, dget d k = resolve (FC f fname kws) name psr kw params k) ->
  call attr masked (inst (FC f fname kws) name psr) args kw params func =
  match func with Some g => call_py g args d | None => sel_call attr masked f args d end.
Proof.
  intros h1 h2 h3 h4 nd he; rewrite call_inst by assumption.
  assert (s : same_map (passed f fname kws name psr kw params) d) by (intros k; rewrite he; now apply passed_get).
  destruct func; [now apply call_py_ext|apply sel_call_ext; auto; now apply passed_NoDup].
Qed.

Lemma function_call_err_sec f fname l1 k a l2 name psr kw params args func o e :
  let kws := l1 ++ (k, a) :: l2 in
  NoDup (dkeys kws) -> apart (FC f fname kws) name psr ->
  nested_of name fname psr k a = Some o -> ~ In k (dkeys kw) ->
  call attr masked o [] (only (fo_kws o) kw) params None = Err e ->
  (forall k o, named fname l1 name psr k o -> ~ In k (dkeys kw) ->
    exists v, call attr masked o [] (only (fo_kws o) kw) params None = Ok v) ->
  call attr masked (inst (FC f fname kws) name psr) args kw params func = Err e.
Proof.
  intros kws nd ap N nk ce fine.
  assert (kE : map fst kws = map fst l1 ++ k :: map fst l2) by (unfold kws; now rewrite map_app).
  rewrite inst_run; cbv zeta; cbn [call]; fold (nested_of_obj params (snd (init_run name fname psr kws ([], [], [])))).
  assert (l := loop_err params (fst (fst (init_run name fname psr kws ([], [], [])))) (snd (fst (init_run name fname psr kws ([], [], []))))
    (nested_of_obj params (snd (init_run name fname psr kws ([], [], [])))) (dkeys kws) kw
    (sep_nested f fname kws name psr params nd ap) (rv fname kws name psr kw params) (map fst l1) k e (map fst l2)).
  rewrite <- kE in l; rewrite l; clear l; [reflexivity|exact nd|apply incl_refl| |exact nk|].
  - intros k' i' nk'; rewrite (slotE f) by (try assumption; unfold dkeys; rewrite kE; apply in_or_app; now left).
    unfold rv, slot_spec; destruct (dget kws k') as [a'|] eqn:E; [|reflexivity].
    destruct (own_par name fname k' a'); [reflexivity|].
    destruct (nested_of name fname psr k' a') as [o'|] eqn:N'; [|reflexivity].
    destruct (fine k' o') as [v ev]; [|exact nk'|now rewrite ev].
    exists a'; split; [|exact N'].
    apply dget_In in E; unfold kws in E; apply in_app_or in E; destruct E as [E|[E|E]]; [exact E| |].
    + injection E as <- <-. exfalso. unfold dkeys in nd; rewrite kE in nd; apply NoDup_remove_2 in nd; apply nd, in_or_app; now left.
    + exfalso. assert (i2 : In k' (map fst l2)) by (apply in_map_iff; now exists (k', a')).
      apply in_split in i'; destruct i' as [u [w e1]].
      unfold dkeys in nd; rewrite kE, e1, <- app_assoc in nd; cbn [app] in nd.
      apply NoDup_remove_2 in nd; apply nd, in_or_app; right; apply in_or_app; right; now right.
  - rewrite (slotE f) by (try assumption; unfold dkeys; rewrite kE; apply in_or_app; right; now left).
    unfold slot_spec; rewrite (In_dget string_dec kws k a nd); [|unfold kws; apply in_or_app; right; now left].
    replace (own_par name fname k a) with (@None (par V)); [|destruct a; simpl in *; congruence].
    now rewrite N, ce.
Qed.

(** ** Names and the list of parameters *)
Lemma append_inj x y z : append x y = append x z -> y = z.
Proof. induction x as [|c x IH]; simpl; [auto|]. intros [= h]; now apply IH. Qed.
Lemma us_name_inj a b k k' : k <> "" -> k' <> "" -> us_name [a; b; k] = us_name [a; b; k'] -> k = k'.
Proof.
  intros nk nk'; unfold us_name; cbn [filter].
  apply String.eqb_neq in nk, nk'; rewrite nk, nk'; cbn [negb].
  destruct (a =? "")%string, (b =? "")%string; cbn [negb join_us]; intros h.
  - exact h.
  - now apply append_inj, append_inj in h.
  - now apply append_inj, append_inj in h.
  - now apply append_inj, append_inj, append_inj, append_inj in h.
Qed.

Lemma function_names_sec f fname kws name psr : NoDup (dkeys kws) -> apart (FC f fname kws) name psr ->
  let o := inst (FC f fname kws) name psr in
  fo_name o = us_name [name; fname] /\ fo_psr o = psr /\
  (forall k prior, In (k, AParC prior) kws -> exists p, dget (fo_params o) k = Some p /\ par_name p = us_name [name; fname; k] /\ par_value p = None /\ In p (fo_pars o)) /\
  (forall k v, In (k, ACstC v) kws -> dget (fo_params o) k = Some (Cst (us_name [name; fname; k]) (v (us_name [name; fname; k])))) /\
  (forall k p, In (k, AInst p) kws -> dget (fo_params o) k = Some p) /\
  (forall k k' p p', k <> "" -> k' <> "" -> (exists q, In (k, AParC q) kws) -> (exists q, In (k', AParC q) kws) ->
    dget (fo_params o) k = Some p -> dget (fo_params o) k' = Some p' -> par_name p = par_name p' -> k = k').
Proof.
  intros nd ap o.
  assert (g : forall k a, In (k, a) kws -> dget (fo_params o) k = own_par name fname k a).
  { intros k a i; unfold o; rewrite inst_run; cbv zeta; cbn [fo_params]; rewrite run_params; [|exact nd|].
    - rewrite (In_dget string_dec kws k a nd i); now destruct (own_par name fname k a).
    - intros k' a' o' i' e'; apply (ap k' a' o' i' e'); apply in_map_iff; now exists (k, a). }
  split; [unfold o; now rewrite inst_run|]. split; [unfold o; now rewrite inst_run|].
  split.
  { intros k prior i; assert (h := g _ _ i); cbn [own_par] in h; eexists; split; [exact h|]; split; [reflexivity|]; split; [reflexivity|].
    unfold fo_pars; apply in_flat_map; eexists; split; [exact (dget_In _ _ _ _ h)|].
    cbn [snd is_cst par_pars]. destruct (inst prior (us_name [name; fname; k]) None). now left. }
  split; [intros k v i; now rewrite (g _ _ i)|]. split; [intros k p i; now rewrite (g _ _ i)|].
  intros k k' p p' nk nk' [q i] [q' i'] e e'; rewrite (g _ _ i) in e; rewrite (g _ _ i') in e'.
  injection e as <-; injection e' as <-; cbn [par_name]; now apply us_name_inj.
Qed.

Lemma dget_dupdate_in (ps q : list (string * par V)) k p : NoDup (dkeys q) -> dget q k = Some p -> dget (dupdate string_dec ps q) k = Some p.
Proof.
  unfold dupdate; revert ps; induction q as [|[k' p'] q IH]; intros ps nd h; simpl in *; [discriminate|].
  inversion nd as [|x l ni nd']; subst.
  destruct (string_dec k k') as [->|ne].
  - injection h as ->. assert (e := dget_dupdate_none (dset ps k' p) q k'); unfold dupdate in e; rewrite e.
    + apply dget_dset_same.
    + now apply dget_None_notin.
  - now apply IH.
Qed.
Lemma init_run_app name fname psr l l' st : init_run name fname psr (l ++ l') st = init_run name fname psr l' (init_run name fname psr l st).
Proof. unfold init_run; apply fold_left_app. Qed.
Lemma keep_param name fname psr l : forall st k p,
  ~ In k (dkeys l) -> (forall k' a o, In (k', a) l -> nested_of name fname psr k' a = Some o -> ~ In k (dkeys (fo_params o))) ->
  dget (fst (fst st)) k = Some p -> dget (fst (fst (init_run name fname psr l st))) k = Some p.
Proof.
  induction l as [|[k' a] l IH]; intros [[ps defs] fns] k p nk ap h; [exact h|].
  unfold init_run; cbn [fold_left]; fold (init_run name fname psr l (init_step name fname psr (ps, defs, fns) (k', a))).
  apply IH.
  - intros i; apply nk; now right.
  - intros k1 a1 o1 i1; apply (ap k1 a1 o1); now right.
  - assert (ne : k <> k') by (intros ->; apply nk; now left).
    assert (ap0 := fun o => ap k' a o (or_introl eq_refl)).
    unfold init_step; cbn [fst snd] in *; destruct a; cbn in *; rewrite ?dget_dset_other by exact ne; try exact h.
    + rewrite dget_dupdate_none; [exact h|]. apply dget_None_notin; now apply ap0.
    + rewrite dget_dupdate_none; [exact h|]. apply dget_None_notin; now apply ap0.
Qed.
Lemma nested_listed_sec f fname l1 k a l2 name psr o :
  let kws := l1 ++ (k, a) :: l2 in
  NoDup (dkeys kws) -> apart (FC f fname kws) name psr ->
  nested_of name fname psr k a = Some o -> NoDup (dkeys (fo_params o)) ->
  (forall k' a' o', In (k', a') (l1 ++ l2) -> nested_of name fname psr k' a' = Some o' ->
    forall x, In x (dkeys (fo_params o)) -> ~ In x (dkeys (fo_params o'))) ->
  (forall x p, dget (fo_params o) x = Some p -> dget (fo_params (inst (FC f fname kws) name psr)) x = Some p) /\
  incl (fo_pars o) (fo_pars (inst (FC f fname kws) name psr)).
Proof.
  intros kws nd ap N ndo dis.
  assert (g : forall x p, dget (fo_params o) x = Some p -> dget (fo_params (inst (FC f fname kws) name psr)) x = Some p).
  { intros x p h; rewrite inst_run; cbv zeta; cbn [fo_params].
    assert (ix := dget_Some_in _ _ _ _ h).
    assert (nx : ~ In x (dkeys kws)).
    { assert (ik : In (k, a) kws) by (unfold kws; apply in_or_app; right; now left).
      intros i; generalize (ap k a o ik N); intros h'; now apply (h' x i). }
    unfold kws; rewrite init_run_app; unfold init_run at 1; cbn [fold_left].
    fold (init_run name fname psr l2 (init_step name fname psr (init_run name fname psr l1 ([], [], [])) (k, a))).
    apply keep_param.
    - intros i; apply nx; unfold kws, dkeys; rewrite map_app; apply in_or_app; right; now right.
    - intros k' a' o' i' e'; apply (dis k' a' o'); [apply in_or_app; now right|exact e'|exact ix].
    - destruct (init_run name fname psr l1 ([], [], [])) as [[ps defs] fns]; unfold init_step; cbn [fst snd].
      replace (own_par name fname k a) with (@None (par V)); [|destruct a; simpl in *; congruence].
      rewrite N; cbn [fst]; now apply dget_dupdate_in. }
  split; [exact g|].
  intros q iq; unfold fo_pars in *; apply in_flat_map in iq; destruct iq as [[x p] [i h]].
  apply in_flat_map; exists (x, p); split; [|exact h].
  apply (dget_In string_dec), g, (In_dget string_dec); assumption.
Qed.

(** ** Arguments taken from the pulsar *)
Lemma bind_vals names : forall dfl args (kw : sdict) vals,
  length dfl = length names -> length vals = length names -> length args <= length names ->
  (forall i x, nth_error names i = Some x ->
    if (i <? length args)%nat then nth_error args i = nth_error vals i /\ dget kw x = None
    else or_else (dget kw x) (nth i dfl None) = nth_error vals i) ->
  bind names dfl args kw = Ok vals.
Proof.
  induction names as [|x ns IH]; intros [|d dfl] args kw [|v vals] l1 l2 l3 h; try discriminate.
  - destruct args; [reflexivity|simpl in l3; lia].
  - cbn [bind]; assert (h0 := h 0 x eq_refl). destruct args as [|a args].
    + cbn in h0. assert (r : bind ns dfl [] kw = Ok vals).
      { apply IH; [now injection l1|now injection l2|simpl; lia|].
        intros i y e; exact (h (S i) y e). }
      destruct (dget kw x) as [u|]; cbn [or_else] in h0.
      * injection h0 as ->; now rewrite r.
      * destruct d as [u|]; [|discriminate]; injection h0 as ->; now rewrite r.
    + cbn in h0; destruct h0 as [e0 g0]; injection e0 as ->.
      unfold PyBase.dmem; rewrite g0.
      rewrite (IH dfl args kw vals); [reflexivity|now injection l1|now injection l2|simpl in l3; lia|].
      intros i y e; exact (h (S i) y e).
Qed.
(** The value an argument is meant to have. *)
Definition meant (f : pyfun V) (args : list V) (kw : sdict) (p : V) (i : nat) (x : string) : option V :=
  if (i <? length args)%nat then nth_error args i
  else or_else (dget kw x) (or_else (option_map (domask masked (dget kw "mask")) (attr p x)) (nth i (pf_dflts f) None)).
Lemma dflts_length (f : pyfun V) : length (pf_defs f) <= length (pf_args f) -> length (pf_dflts f) = length (pf_args f).
Proof. intros h; unfold pf_dflts; rewrite app_length, repeat_length, map_length; lia. Qed.

Lemma selection_binding_sec f args kw p r1 r2 vals :
  NoDup (pf_args f) -> length (pf_defs f) <= length (pf_args f) -> length args <= length (pf_args f) -> NoDup (dkeys kw) ->
  dget kw "psr" = Some p -> ~ In "mask" (pf_args f) ->
  (forall k, In k (dkeys kw) -> In k (skipn (length args) (pf_args f)) \/ k = "psr" \/ k = "mask") ->
  (In "psr" (pf_args f) -> In "psr" (skipn (length args) (pf_args f))) ->
  skipn (length args) (pf_args f) = r1 ++ r2 ->
  (forall x, In x r1 -> ~ In x (dkeys kw) /\ attr p x <> None) ->
  (forall x, In x r2 -> In x (dkeys kw) \/ attr p x = None) ->
  length vals = length (pf_args f) ->
  (forall i x, nth_error (pf_args f) i = Some x -> nth_error vals i = meant f args kw p i x) ->
  sel_call attr masked f args kw = pf_body f vals.
Proof.
  intros nda ld la ndk gp nm kin pin rE h1 h2 lv hv.
  assert (npm : "psr" <> "mask") by discriminate.
  unfold sel_call; set (kw1 := dpop kw "mask").
  assert (k1 : forall x, x <> "mask" -> dget kw1 x = dget kw x) by (intros x ne; now apply dget_dpop_other).
  assert (gp1 : dget kw1 "psr" = Some p) by (rewrite k1; assumption).
  assert (m1 : dmem kw1 "psr" = true) by (unfold PyBase.dmem; now rewrite gp1).
  rewrite gp1, m1; cbn [andb].
  set (kw2 := if negb (mem_str "psr" (pf_args f)) then dpop kw1 "psr" else kw1).
  assert (nd1 : NoDup (dkeys kw1)) by now apply dpop_NoDup.
  assert (k2 : forall x, In x (pf_args f) -> dget kw2 x = dget kw x).
  { intros x ix; assert (x <> "mask") by congruence.
    unfold kw2; destruct (mem_str "psr" (pf_args f)) eqn:M; cbn [negb]; [now apply k1|].
    rewrite dget_dpop_other; [now apply k1|]. intros ->; apply mem_str_false in M; contradiction. }
  assert (keys2 : forallb (fun k => mem_str k (pf_args f)) (dkeys kw2) = true).
  { apply forallb_forall; intros k i; apply mem_strP.
    assert (sk : forall y, In y (skipn (length args) (pf_args f)) -> In y (pf_args f)).
    { intros y iy; rewrite <- (firstn_skipn (length args) (pf_args f)); apply in_or_app; now right. }
    unfold kw2 in i; destruct (mem_str "psr" (pf_args f)) eqn:M; cbn [negb] in i.
    - unfold kw1 in i; apply (dpop_keys string_dec) in i; [|exact ndk]; destruct i as [i ne].
      destruct (kin k i) as [h|[->|e]]; [now apply sk|now apply mem_strP|congruence].
    - apply (dpop_keys string_dec) in i; [|exact nd1]; destruct i as [i ne].
      unfold kw1 in i; apply (dpop_keys string_dec) in i; [|exact ndk]; destruct i as [i ne'].
      destruct (kin k i) as [h|[e|e]]; [now apply sk|congruence|congruence]. }
  set (take := fun a => if dmem kw1 a then [] else match attr p a with Some v => [domask masked (dget kw "mask") v] | None => [] end).
  assert (t1 : forall l, incl l r1 -> length (flat_map take l) = length l /\
     forall i x, nth_error l i = Some x -> nth_error (flat_map take l) i = option_map (domask masked (dget kw "mask")) (attr p x)).
  { induction l as [|y l IH]; intros inc; [split; [reflexivity|intros [|i] x; discriminate]|].
    assert (iy : In y r1) by (apply inc; now left).
    destruct (h1 y iy) as [ny ay].
    assert (ty : exists v, attr p y = Some v /\ take y = [domask masked (dget kw "mask") v]).
    { unfold take; destruct (attr p y) as [v|] eqn:E; [|congruence]. exists v; split; [reflexivity|].
      assert (y <> "mask"). { intros ->; apply nm. rewrite <- (firstn_skipn (length args) (pf_args f)), rE; apply in_or_app; right; apply in_or_app; now left. }
      unfold PyBase.dmem; rewrite k1 by assumption; now rewrite (proj2 (dget_None_notin string_dec kw y) ny). }
    destruct ty as [v [av tv]]; cbn [flat_map]; rewrite tv; cbn [app].
    destruct IH as [IH1 IH2]; [intros z iz; apply inc; now right|].
    split; [cbn [length]; now rewrite IH1|].
    intros [|i] x; cbn [nth_error]; [intros [= <-]; now rewrite av|apply IH2]. }
  assert (t2 : forall l, incl l r2 -> flat_map take l = []).
  { induction l as [|y l IH]; intros inc; [reflexivity|]. cbn [flat_map]; rewrite IH by (intros z iz; apply inc; now right).
    rewrite app_nil_r; unfold take.
    assert (iy : In y r2) by (apply inc; now left).
    assert (y <> "mask"). { intros ->; apply nm. rewrite <- (firstn_skipn (length args) (pf_args f)), rE; apply in_or_app; right; apply in_or_app; now right. }
    destruct (h2 y iy) as [iy'|e]; [|rewrite e; now destruct (dmem kw1 y)].
    apply (in_dget_Some string_dec) in iy'; destruct iy' as [v e]; unfold PyBase.dmem; now rewrite k1, e. }
  assert (tE : flat_map take (skipn (length args) (pf_args f)) = flat_map take r1) by (rewrite rE, flat_map_app, (t2 r2), app_nil_r; auto using incl_refl).
  destruct (t1 r1 (incl_refl _)) as [T1 T2].
  assert (lr : length (pf_args f) = length args + length r1 + length r2).
  { rewrite <- (firstn_skipn (length args) (pf_args f)) at 1; rewrite rE, !app_length, firstn_length; lia. }
  assert (targs : (if (length args <? length (pf_args f))%nat then args ++ flat_map take (skipn (length args) (pf_args f)) else args) = args ++ flat_map take r1).
  { rewrite tE; destruct (Nat.ltb_spec (length args) (length (pf_args f))); [reflexivity|].
    assert (r1 = []) as -> by (destruct r1; [reflexivity|simpl in lr; lia]). simpl; now rewrite app_nil_r. }
  fold take; rewrite targs; unfold call_py; rewrite keys2.
  rewrite (bind_vals _ _ _ _ vals); [reflexivity|now apply dflts_length|exact lv|rewrite app_length, T1; lia|].
  intros i x e; rewrite app_length, T1, (hv i x e); unfold meant.
  assert (ix : In x (pf_args f)) by exact (nth_error_In _ _ e).
  assert (rest : length args <= i -> nth_error (r1 ++ r2) (i - length args) = Some x).
  { intros le; rewrite <- rE. rewrite <- (firstn_skipn (length args) (pf_args f)), nth_error_app2 in e by (rewrite firstn_length; lia).
    rewrite firstn_length in e. replace (i - Nat.min (length args) (length (pf_args f))) with (i - length args) in e by lia. exact e. }
  destruct (Nat.ltb_spec i (length args)) as [lt|ge].
  - assert (c : (i <? length args + length r1)%nat = true) by (apply Nat.ltb_lt; lia); rewrite c.
    split; [now apply nth_error_app1|].
    rewrite k2 by exact ix. apply dget_None_notin; intros ik.
    assert (xi : In x (skipn (length args) (pf_args f)) -> False).
    { intros iss. rewrite <- (firstn_skipn (length args) (pf_args f)) in nda, e.
      rewrite nth_error_app1 in e by (rewrite firstn_length; lia). apply nth_error_In in e.
      apply in_split in e; destruct e as [u [w ew]]; rewrite ew, <- app_assoc in nda; cbn [app] in nda.
      apply NoDup_remove_2 in nda; apply nda, in_or_app; right; apply in_or_app; now right. }
    destruct (kin x ik) as [h|[-> | ->]]; [now apply xi|apply xi, pin; exact ix|contradiction].
  - assert (rx := rest ge).
    destruct (Nat.ltb_spec i (length args + length r1)) as [lt|ge2].
    + rewrite nth_error_app1 in rx by lia.
      destruct (h1 x (nth_error_In _ _ rx)) as [nx ax].
      assert (gx : dget kw x = None) by now apply dget_None_notin.
      split; [|rewrite k2; assumption].
      rewrite nth_error_app2 by lia; rewrite (T2 _ _ rx), gx; cbn [or_else].
      destruct (attr p x); [reflexivity|congruence].
    + rewrite nth_error_app2 in rx by lia.
      rewrite k2 by exact ix.
      destruct (h2 x (nth_error_In _ _ rx)) as [ik|ax].
      * apply (in_dget_Some string_dec) in ik; destruct ik as [v ->]; reflexivity.
      * rewrite ax; reflexivity.
Qed.

(** ** The decorator *)
Definition required (f : pyfun V) : list string := firstn (length (pf_args f) - length (pf_defs f)) (pf_args f).
Lemma get_funcargs_split (f : pyfun V) : fst (get_funcargs f) = required f /\ fst (get_funcargs f) ++ snd (get_funcargs f) = pf_args f.
Proof.
  unfold get_funcargs, required; destruct (pf_defs f) as [|d ds] eqn:E.
  - cbn [fst snd length]; rewrite Nat.sub_0_r, firstn_all, app_nil_r; auto.
  - cbn [fst snd]; split; [reflexivity|apply firstn_skipn].
Qed.
Definition supplied (f : pyfun V) (args : list V) (kws : list (string * arg V)) : Prop :=
  forall x, In x (required f) -> In x (firstn (length args) (required f)) \/ In x (dkeys kws).
Definition numeric (kws : list (string * arg V)) (kv : sdict) : Prop := kws = map (fun x => (fst x, AVal (snd x))) kv.
Lemma plain_numeric kv : plain_kw (map (fun x : string * V => (fst x, AVal (snd x))) kv) = kv.
Proof. unfold plain_kw; induction kv as [|[k v] kv IH]; simpl; [reflexivity|now rewrite IH]. Qed.
Lemma decorated_sec f args kws :
  (forall kv, supplied f args kws -> numeric kws kv -> decorated f args kws = inl (call_py f args kv)) /\
  (~ supplied f args kws \/ (forall kv, ~ numeric kws kv) -> decorated f args kws = inr (FC f "" kws)).
Proof.
  assert (sE : forallb (fun a => mem_str a (firstn (length args) (fst (get_funcargs f))) || mem_str a (dkeys kws)) (fst (get_funcargs f)) = true <-> supplied f args kws).
  { rewrite (proj1 (get_funcargs_split f)); unfold supplied; rewrite forallb_forall; split; intros h x i; specialize (h x i).
    - apply orb_true_iff in h; rewrite !mem_strP in h; exact h.
    - apply orb_true_iff; rewrite !mem_strP; exact h. }
  unfold decorated; split.
  - intros kv s n; rewrite (proj2 sE s); cbn [negb]; unfold numeric in n; subst kws.
    replace (existsb _ _) with false; [f_equal; f_equal; apply plain_numeric|].
    symmetry; apply not_true_iff_false; rewrite existsb_exists; intros [ka [i c]].
    apply in_map_iff in i; destruct i as [kv1 [<- _]]; discriminate.
  - destruct (forallb _ _) eqn:F; cbn [negb]; [|reflexivity].
    intros [ns|nn]; [exfalso; apply ns; now apply sE|].
    destruct (existsb (fun ka => composable (snd ka)) kws) eqn:X; [reflexivity|].
    exfalso; apply (nn (plain_kw kws)); clear - X; unfold numeric, plain_kw.
    induction kws as [|[k a] kws IH]; [reflexivity|]; cbn [existsb] in X; apply orb_false_iff in X; destruct X as [x X].
    destruct a; try discriminate; cbn; f_equal; now apply IH.
Qed.

(** Keywords now, arguments later. *)
Lemma currying_sec f kv name args kw params :
  NoDup (dkeys kv) -> NoDup (dkeys kw) -> incl (dkeys kw) (pf_args f) ->
  ~ In "psr" (dkeys kv ++ dkeys kw) -> ~ In "mask" (dkeys kv ++ dkeys kw) ->
  call attr masked (inst (FC f "" (map (fun x => (fst x, AVal (snd x))) kv)) name None) args kw params None =
  call_py f args (dupdate string_dec kv kw).
Proof.
  intros nv nw inc np nm.
  set (kws := map (fun x => (fst x, AVal (snd x))) kv).
  assert (kk : dkeys kws = dkeys kv) by (unfold kws, dkeys; rewrite map_map; now apply map_ext).
  assert (un : forall (l d : sdict), NoDup (dkeys d) -> NoDup (dkeys (dupdate string_dec d l))).
  { unfold dupdate; induction l as [|[k v] l IH]; intros d h; simpl; [exact h|]. now apply IH, dset_NoDup. }
  assert (ug : forall (l d : sdict) k, NoDup (dkeys l) -> dget (dupdate string_dec d l) k = or_else (dget l k) (dget d k)).
  { unfold dupdate; induction l as [|[k' v] l IH]; intros d k h; simpl; [reflexivity|].
    inversion h as [|x y ni nd']; subst; rewrite IH by exact nd'; rewrite dget_dset.
    destruct (string_dec k k') as [->|ne]; [|reflexivity].
    now rewrite (proj2 (dget_None_notin string_dec l k') ni). }
  assert (nonest : forall k o, ~ named "" kws name None k o).
  { intros k o [a [i e]]; unfold kws in i; apply in_map_iff in i; destruct i as [x [[= <- <-] _]]; discriminate. }
  rewrite (function_call_sec f "" kws name None kw params args None (dupdate string_dec kv kw)).
  - unfold sel_call.
    assert (no : forall k, ~ In k (dkeys kv ++ dkeys kw) -> ~ In k (dkeys (dupdate string_dec kv kw))).
    { intros k h i; apply (in_dget_Some string_dec) in i; destruct i as [v e]; rewrite ug in e by exact nw.
      apply h, in_or_app; destruct (dget kw k) eqn:E.
      - right; exact (dget_Some_in _ _ _ _ E).
      - left; exact (dget_Some_in _ _ _ _ e). }
    rewrite (dpop_notin string_dec _ "mask") by (now apply no).
    unfold PyBase.dmem; rewrite (proj2 (dget_None_notin string_dec _ _) (no "psr" np)); cbn [andb].
    now destruct (length args <? length (pf_args f))%nat.
  - now rewrite kk.
  - exact nw.
  - intros k a o i e; exfalso; apply (nonest k o); now exists a.
  - intros k o h; exfalso; exact (nonest k o h).
  - now apply un.
  - intros k; rewrite ug by exact nw; unfold resolve.
    assert (kg : dget kws k = option_map (@AVal V) (dget kv k)) by (unfold kws; apply dget_map).
    unfold admitted; change (map fst kws) with (dkeys kws); rewrite kk, kg.
    destruct (dget kw k) as [v|] eqn:E; cbn [or_else].
    + apply dget_Some_in in E; apply inc, mem_strP in E; rewrite E, orb_true_r; reflexivity.
    + destruct (dget kv k) as [v|] eqn:E'; cbn [option_map or_else].
      * apply dget_Some_in, mem_strP in E'; now rewrite E'.
      * destruct (string_dec k "psr"), (mem_str k (dkeys kv) || _ || _); reflexivity.
Qed.
End Func.

Arguments nested_of {V}.
Arguments apart {V}.
Arguments only {V}.
Arguments resolve {V}.
Arguments named {V}.
Arguments meant {V}.
Arguments required {V}.
Arguments supplied {V}.
Arguments numeric {V}.

(** ** The statements *)
Lemma function_call_lem :
  forall (V : Type) (attr : V -> string -> option V) (masked : V -> V -> V) (f : pyfun V) fname kws name psr kw params args func,
  NoDup (dkeys kws) -> NoDup (dkeys kw) -> apart (FC f fname kws) name psr ->
  (forall k o, named fname kws name psr k o -> ~ In k (dkeys kw) ->
    exists v, call attr masked o [] (only (fo_kws o) kw) params None = Ok v) ->
  (exists d, NoDup (dkeys d) /\ forall k, dget string_dec d k = resolve attr masked (FC f fname kws) name psr kw params k) /\
  (forall d, NoDup (dkeys d) -> (forall k, dget string_dec d k = resolve attr masked (FC f fname kws) name psr kw params k) ->
    call attr masked (inst (FC f fname kws) name psr) args kw params func =
    match func with Some g => call_py g args d | None => sel_call attr masked f args d end).
Proof.
  intros V attr masked f fname kws name psr kw params args func h1 h2 h3 h4; split.
  - exists (passed V attr masked f fname kws name psr kw params); split; [now apply passed_NoDup|now apply passed_get].
  - intros d; now apply function_call_sec.
Qed.

Lemma function_call_raises_lem :
  forall (V : Type) (attr : V -> string -> option V) (masked : V -> V -> V) (f : pyfun V) fname l1 k a l2 name psr kw params args func o e,
  let kws := l1 ++ (k, a) :: l2 in
  NoDup (dkeys kws) -> apart (FC f fname kws) name psr ->
  nested_of name fname psr k a = Some o -> ~ In k (dkeys kw) ->
  call attr masked o [] (only (fo_kws o) kw) params None = Err e ->
  (forall k o, named fname l1 name psr k o -> ~ In k (dkeys kw) ->
    exists v, call attr masked o [] (only (fo_kws o) kw) params None = Ok v) ->
  call attr masked (inst (FC f fname kws) name psr) args kw params func = Err e.
Proof. intros; now apply function_call_err_sec with (o := o). Qed.

Lemma function_names_lem :
  forall (V : Type) (f : pyfun V) fname kws name psr, NoDup (dkeys kws) -> apart (FC f fname kws) name psr ->
  let o := inst (FC f fname kws) name psr in
  fo_name o = us_name [name; fname] /\ fo_psr o = psr /\
  (forall k prior, In (k, AParC prior) kws -> exists p, dget string_dec (fo_params o) k = Some p /\ par_name p = us_name [name; fname; k] /\ par_value p = None /\ In p (fo_pars o)) /\
  (forall k v, In (k, ACstC v) kws -> dget string_dec (fo_params o) k = Some (Cst (us_name [name; fname; k]) (v (us_name [name; fname; k])))) /\
  (forall k p, In (k, AInst p) kws -> dget string_dec (fo_params o) k = Some p) /\
  (forall k k' p p', k <> "" -> k' <> "" -> (exists q, In (k, AParC q) kws) -> (exists q, In (k', AParC q) kws) ->
    dget string_dec (fo_params o) k = Some p -> dget string_dec (fo_params o) k' = Some p' -> par_name p = par_name p' -> k = k').
Proof. intros; now apply function_names_sec. Qed.

Lemma nested_listed_lem :
  forall (V : Type) (f : pyfun V) fname l1 k a l2 name psr o,
  let kws := l1 ++ (k, a) :: l2 in
  NoDup (dkeys kws) -> apart (FC f fname kws) name psr ->
  nested_of name fname psr k a = Some o -> NoDup (dkeys (fo_params o)) ->
  (forall k' a' o', In (k', a') (l1 ++ l2) -> nested_of name fname psr k' a' = Some o' ->
    forall x, In x (dkeys (fo_params o)) -> ~ In x (dkeys (fo_params o'))) ->
  (forall x p, dget string_dec (fo_params o) x = Some p -> dget string_dec (fo_params (inst (FC f fname kws) name psr)) x = Some p) /\
  incl (fo_pars o) (fo_pars (inst (FC f fname kws) name psr)).
Proof. intros; now apply nested_listed_sec with (o := o). Qed.

Lemma selection_binding_lem :
  forall (V : Type) (attr : V -> string -> option V) (masked : V -> V -> V) (f : pyfun V) args kw p r1 r2 vals,
  NoDup (pf_args f) -> length (pf_defs f) <= length (pf_args f) -> length args <= length (pf_args f) -> NoDup (dkeys kw) ->
  dget string_dec kw "psr" = Some p -> ~ In "mask" (pf_args f) ->
  (forall k, In k (dkeys kw) -> In k (skipn (length args) (pf_args f)) \/ k = "psr" \/ k = "mask") ->
  (In "psr" (pf_args f) -> In "psr" (skipn (length args) (pf_args f))) ->
  skipn (length args) (pf_args f) = r1 ++ r2 ->
  (forall x, In x r1 -> ~ In x (dkeys kw) /\ attr p x <> None) ->
  (forall x, In x r2 -> In x (dkeys kw) \/ attr p x = None) ->
  length vals = length (pf_args f) ->
  (forall i x, nth_error (pf_args f) i = Some x -> nth_error vals i = meant attr masked f args kw p i x) ->
  sel_call attr masked f args kw = pf_body f vals.
Proof. intros V attr masked f args kw p r1 r2 vals; intros; now apply (selection_binding_sec V attr masked f args kw p r1 r2 vals). Qed.

Lemma decorated_lem :
  forall (V : Type) (f : pyfun V) args kws,
  (forall kv, supplied f args kws -> numeric kws kv -> decorated f args kws = inl (call_py f args kv)) /\
  (~ supplied f args kws \/ (forall kv, ~ numeric kws kv) -> decorated f args kws = inr (FC f "" kws)).
Proof. intros V f args kws; apply decorated_sec. Qed.

Lemma currying_lem :
  forall (V : Type) (attr : V -> string -> option V) (masked : V -> V -> V) (f : pyfun V) kv name args kw params,
  NoDup (dkeys kv) -> NoDup (dkeys kw) -> incl (dkeys kw) (pf_args f) ->
  ~ In "psr" (dkeys kv ++ dkeys kw) -> ~ In "mask" (dkeys kv ++ dkeys kw) ->
  call attr masked (inst (FC f "" (map (fun x => (fst x, AVal (snd x))) kv)) name None) args kw params None =
  call_py f args (dupdate string_dec kv kw).
Proof. intros; now apply currying_sec. Qed.

Lemma get_funcargs_lem :
  forall (V : Type) (f : pyfun V),
  fst (get_funcargs f) ++ snd (get_funcargs f) = pf_args f /\
  (length (pf_defs f) <= length (pf_args f) -> length (snd (get_funcargs f)) = length (pf_defs f)).
Proof.
  intros V f; destruct (get_funcargs_split V f) as [e1 e2]; split; [exact e2|].
  intros h; assert (l := f_equal (@length string) e2); rewrite app_length, e1 in l; unfold required in l; rewrite firstn_length in l; lia.
Qed.

(** ** Clashing keywords *)
Definition first_of (l : list nat) : result nat := match l with v :: _ => Ok v | [] => Err TypeError end.
Definition second_of (l : list nat) : result nat := match l with _ :: v :: _ => Ok v | _ => Err TypeError end.
Definition no_attr (p : nat) (x : string) : option nat := None.
Definition no_mask (m v : nat) : nat := v.
Definition flat : fclass nat := FC (PyFun ["x"] [] first_of) "" [].
(** f(a, s) and g(a) *)
Definition f_a : pyfun nat := PyFun ["a"; "s"] [] first_of.
Definition f_s : pyfun nat := PyFun ["a"; "s"] [] second_of.
Definition g_a : pyfun nat := PyFun ["a"] [] first_of.

Lemma nested_takes_outer_refuted_lem :
  exists (f g : pyfun nat) (prior : fclass nat) (params : dict string nat),
  let c := FC f "" [("a", AParC prior); ("s", AFunC (FC g "" [("a", AParC prior)]))] in
  let o := inst c "x" None in
  dget string_dec params "x_a" = Some 1 /\ dget string_dec params "x_s_a" = Some 2 /\
  pf_args f = ["a"; "s"] /\ (forall u v, pf_body f [u; v] = Ok u) /\
  call no_attr no_mask o [] [] params None = Ok 2 /\
  ~ In "x_a" (map (@par_name nat) (fo_pars o)).
Proof.
  exists f_a, g_a, flat, [("x_a", 1); ("x_s_a", 2)]; cbv zeta.
  split; [reflexivity|]. split; [reflexivity|]. split; [reflexivity|]. split; [reflexivity|].
  split; [reflexivity|]. cbv; intros [h|[]]; discriminate.
Qed.
Lemma nested_unlisted_refuted_lem :
  exists (f g : pyfun nat) (prior : fclass nat),
  let c := FC f "" [("s", AFunC (FC g "" [("a", AParC prior)])); ("a", AParC prior)] in
  let o := inst c "x" None in
  (forall params, (forall n, In n (dkeys params) <-> In n (map (@par_name nat) (fo_pars o))) ->
    call no_attr no_mask o [] [] params None = Err TypeError) /\
  call no_attr no_mask o [] [] [("x_a", 1); ("x_s_a", 2)] None = Ok 2.
Proof.
  exists f_s, g_a, flat; cbv zeta; split; [|reflexivity].
  intros params h.
  assert (g1 : dget string_dec params "x_s_a" = None).
  { apply dget_None_notin; intros i; apply h in i; cbv in i; destruct i as [i|[]]; discriminate. }
  assert (g2 : exists v, dget string_dec params "x_a" = Some v).
  { apply (in_dget_Some string_dec), h; now left. }
  destruct g2 as [v g2].
  set (o := inst _ _ _); cbv in o; subst o.
  cbn [call map fold_left fst snd fo_kws]; unfold fill_kw.
  cbn [rbind dmem dget string_dec par_name par_value].
  cbn. rewrite g2, g1. reflexivity.
Qed.
Lemma outer_replaces_nested_refuted_lem :
  exists (f g : pyfun nat) (prior : fclass nat) (params : dict string nat),
  let c := FC f "" [("a", AParC prior); ("s", AFunC (FC g "" [("a", AVal 5)]))] in
  pf_args f = ["a"; "s"] /\ (forall u v, pf_body f [u; v] = Ok v) /\
  call no_attr no_mask (inst (FC g "" [("a", AVal 5)]) "x_s" None) [] [] params None = Ok 5 /\
  call no_attr no_mask (inst c "x" None) [] [] params None = Ok 1.
Proof.
  exists f_s, g_a, flat, [("x_a", 1)]; cbv zeta.
  split; [reflexivity|]. split; [reflexivity|]. split; reflexivity.
Qed.

(** Two parameters of one function under one name. *)
Lemma function_names_nested_refuted_lem :
  exists (f g : pyfun nat) (prior : fclass nat),
  let o := inst (FC f "" [("a_b", AParC prior); ("a", AFunC (FC g "" [("b", AParC prior)]))]) "x" None in
  exists p q, dget string_dec (fo_params o) "a_b" = Some p /\ dget string_dec (fo_params o) "b" = Some q /\ par_name p = par_name q /\ par_value p = None /\ par_value q = None.
Proof.
  exists (PyFun ["a_b"; "a"] [] first_of), (PyFun ["b"] [] first_of), flat; cbv zeta.
  eexists; eexists; split; [reflexivity|]. split; [reflexivity|]. split; [reflexivity|]. split; reflexivity.
Qed.

(** f(toas, nmodes = 30, freqs = 7): the pulsar's freqs go to nmodes. *)
Definition demo_attr (p : nat) (x : string) : option nat :=
  if String.eqb x "toas" then Some 1 else if String.eqb x "freqs" then Some 2 else None.
Lemma selection_shift_refuted_lem :
  exists (f : pyfun nat) (p : nat),
  pf_args f = ["toas"; "nmodes"; "freqs"] /\ pf_dflts f = [None; Some 30; Some 7] /\
  (forall a b c, pf_body f [a; b; c] = Ok b) /\
  demo_attr p "nmodes" = None /\ demo_attr p "freqs" = Some 2 /\
  sel_call demo_attr no_mask f [] [("psr", p)] = Ok 2.
Proof.
  exists (PyFun ["toas"; "nmodes"; "freqs"] [30; 7] second_of), 0.
  repeat (split; [reflexivity|]). reflexivity.
Qed.

Lemma us_name_form_lem :
  forall a b c, a <> "" -> b <> "" -> c <> "" ->
  us_name [a; b; c] = (a ++ "_" ++ b ++ "_" ++ c)%string /\ us_name [a; ""; c] = (a ++ "_" ++ c)%string /\
  us_name [""; b; c] = (b ++ "_" ++ c)%string /\ us_name [""; ""; c] = c /\ us_name [a; b] = (a ++ "_" ++ b)%string /\ us_name [a; ""] = a.
Proof.
  intros a b c na nb nc; apply String.eqb_neq in na, nb, nc; unfold us_name; cbn [filter]; rewrite na, nb, nc; cbn [negb String.eqb join_us].
  repeat split; reflexivity.
Qed.

(** ** Examples *)
Definition ex_kws : list (string * arg nat) :=
  [("a", AParC flat); ("s", AFunC (FC (PyFun ["toas"; "b"; "n"] [] (fun l => match l with [t; b; n] => Ok (t + b * n) | _ => Err ValueError end)) ""
     [("b", AParC flat); ("n", AVal 3)])); ("c", ACstC (fun _ => 4)); ("e", AVal 5)].
Definition ex_f : pyfun nat :=
  PyFun ["toas"; "a"; "s"; "c"; "e"] [6] (fun l => match l with [t; a; s; c; e] => Ok (t + 10 * a + 100 * s + c + e) | _ => Err ValueError end).
Lemma ex_apart : apart (FC ex_f "" ex_kws) "x" (Some 0).
Proof.
  intros k a o i e k' i'; cbn in i.
  destruct i as [[= <- <-]|[[= <- <-]|[[= <- <-]|[[= <- <-]|[]]]]]; cbn in e; try discriminate; injection e as <-.
  cbn in i' |- *; split; intros j; repeat (destruct i' as [<-|i']; [repeat (destruct j as [j|j]; [discriminate|]); exact j|]); exact i'.
Qed.
Lemma ex_nodup : NoDup (dkeys ex_kws).
Proof. cbn; repeat constructor; cbn; intuition discriminate. Qed.

(** The parameters of a function: those of its keywords and nested functions, and
    the hyperparameters of their priors. *)
Inductive depends {V : Type} : fobj V -> par V -> Prop :=
| dep_own o k p : In (k, p) (fo_params o) -> par_value p = None -> depends o p
| dep_hyper o k n prior q : In (k, Par n prior) (fo_params o) -> depends prior q -> depends o q.
Lemma par_pars_dep {V} : forall p q : par V, In q (par_pars p) ->
  par_value q = None /\ (q = p \/ exists n prior, p = Par n prior /\ depends prior q).
Proof.
  fix rec 1. intros [n [nm f psr kws ps defs fns]|n v] q h; [|destruct h]. cbn [par_pars] in h. destruct h as [<-|h]; [split; [reflexivity|now left]|].
  apply filter_In in h. destruct h as [h _].
  assert (g : exists k p', In (k, p') ps /\ par_value q = None /\ (q = p' \/ exists n prior, p' = Par n prior /\ depends prior q)).
  { clear n nm f psr kws defs fns. induction ps as [|[k p'] ps IH]; [destruct h|]. cbn [flat_map snd] in h. apply in_app_or in h. destruct h as [h|h].
    - exists k, p'. split; [now left|]. apply rec. destruct p'; [exact h|destruct h].
    - destruct (IH h) as [k2 [p2 [i r]]]. exists k2, p2. split; [now right|exact r]. }
  destruct g as [k [p' [i [e r]]]]. split; [exact e|]. right. exists n, (FObj nm f psr kws ps defs fns). split; [reflexivity|].
  destruct r as [->|[n' [prior [-> d]]]]; [now apply (dep_own _ k)|now apply (dep_hyper _ k n' prior)].
Qed.
Lemma function_parameters_lem : forall (V : Type) (o : fobj V) q, In q (fo_pars o) <-> depends o q.
Proof.
  intros V o q. unfold fo_pars. split.
  - intros h. apply in_flat_map in h. destruct h as [[k p] [i h]]. cbn [snd] in h. destruct (is_cst p); [destruct h|].
    apply par_pars_dep in h. destruct h as [e [->|[n [prior [-> d]]]]]; [now apply (dep_own _ k)|now apply (dep_hyper _ k n prior)].
  - induction 1 as [o k p i e|o k n prior q i d IH]; apply in_flat_map.
    + exists (k, p). split; [exact i|]. destruct p as [n [? ? ? ? ? ? ?]|n v]; [now left|discriminate].
    + exists (k, Par n prior). split; [exact i|]. cbn [snd is_cst]. apply in_flat_map in IH. destruct IH as [[k' p'] [i' h]].
      destruct prior as [nm f psr kws ps defs fns]. cbn [par_pars]. right. apply filter_In. split; [apply in_flat_map; now exists (k', p')|].
      cbn [snd] in h. destruct (is_cst p') eqn:E; [destruct h|]. apply par_pars_dep in h. destruct h as [h _]. now destruct q.
Qed.
