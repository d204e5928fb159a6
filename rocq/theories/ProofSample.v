(** Proofs about joint sampling. *)
From Coq Require Import String Bool Arith Lia List.
From Verif Require Import PyBase ProofBase ModelParams ProofParams ModelSample.
Import ListNotations.
Open Scope string_scope.
Open Scope list_scope.

Section Sample.
Context {V S : Type}.
Variable draw : S -> par -> list (string * option V) -> result (V * S).
Notation dict := (dict string V).

Definition step (fuel : nat) (st : result (dict * S)) (p : par) : result (dict * S) :=
  rbind st (fun '(ret, s) =>
    if is_const p then Err AttributeError else
    rbind (sample_from draw fuel (tl (par_params p)) s []) (fun '(d, s) =>
      let ret := dupdate string_dec ret d in
      rbind (draw s p (hyper_values ret p)) (fun '(v, s) =>
        Ok (dset string_dec ret (par_name p) v, s)))).
Lemma sample_from_S fuel ps s ret : sample_from draw (Datatypes.S fuel) ps s ret = fold_left (step fuel) ps (Ok (ret, s)).
Proof. reflexivity. Qed.
Lemma fold_err fuel ps e : fold_left (step fuel) ps (Err e) = Err e.
Proof. induction ps as [|p ps IH]; [reflexivity|exact IH]. Qed.

(** ** The fuel is enough *)
Lemma depth_reach p x : reach p x -> 1 <= par_depth x <= par_depth p /\ (x = p \/ par_depth x < par_depth p).
Proof.
  induction 1 as [i n s pr|i n s pr kw q x i' r IH].
  - cbn; split; [lia|now left].
  - assert (par_depth q < par_depth (Par i n s pr)).
    { cbn [par_depth]. clear - i'. induction pr as [|[k p] pr IH]; [destruct i'|].
      cbn [fold_right snd]. destruct i' as [[= -> ->]|i']; [lia|]. specialize (IH i'); lia. }
    lia.
Qed.
Lemma tl_params p x : In x (tl (par_params p)) -> exists kw q, In (kw, q) (par_prior p) /\ reach q x.
Proof.
  destruct p as [i n s pr|i n]; [|now cbn]. cbn [par_params tl par_prior].
  intros h; apply filter_In in h; destruct h as [h _].
  induction pr as [|[k q] pr IH]; [destruct h|]. cbn in h; apply in_app_or in h; destruct h as [h|h].
  - exists k, q; split; [now left|]. destruct (is_const q); [destruct h|now apply par_params_reach].
  - destruct (IH h) as (kw & q' & i1 & r); exists kw, q'; split; [now right|exact r].
Qed.
Lemma tl_depth p x : In x (tl (par_params p)) -> par_depth x < par_depth p.
Proof.
  intros h; apply tl_params in h; destruct h as (kw & q & i & r).
  destruct p as [id n s pr|id n]; [|destruct i]. cbn [par_prior] in i.
  destruct (depth_reach _ _ r) as [l _].
  assert (r' : reach (Par id n s pr) q \/ is_const q = true).
  { destruct q; [left|now right]. econstructor; [exact i|constructor]. }
  assert (par_depth q < par_depth (Par id n s pr)); [|lia].
  clear - i. cbn [par_depth]. induction pr as [|[k p] pr IH]; [destruct i|].
  cbn [fold_right snd]. destruct i as [[= -> ->]|i]; [lia|]. specialize (IH i); lia.
Qed.
Lemma fuel_enough : forall n m ps s ret, (forall p, In p ps -> par_depth p <= n) -> n <= m ->
  (forall p, In p ps -> is_const p = false) ->
  sample_from draw m ps s ret = sample_from draw n ps s ret.
Proof.
  induction n as [|n IH]; intros m ps s ret hd hm hc.
  - destruct ps as [|p ps]; [now destruct m|].
    assert (h := hd p (or_introl eq_refl)); assert (c := hc p (or_introl eq_refl)).
    destruct p; [cbn in h; lia|discriminate].
  - destruct m as [|m]; [lia|]. rewrite !sample_from_S.
    generalize (Ok (ret, s)); induction ps as [|p ps IHp]; intros st; [reflexivity|].
    cbn [fold_left]. rewrite IHp; [|intros q i; apply hd; now right|intros q i; apply hc; now right].
    f_equal. unfold step; destruct st as [[r t]|e]; [|reflexivity]; cbn [rbind].
    destruct (is_const p); [reflexivity|].
    rewrite (IH m (tl (par_params p)) t []); [reflexivity| |lia|].
    + intros q i; apply tl_depth in i; specialize (hd p (or_introl eq_refl)); lia.
    + intros q i; apply tl_params in i; destruct i as (kw & q' & _ & r'). exact (reach_nonconst _ _ r').
Qed.

(** ** Keys *)
Lemma dupdate_keys (d e : dict) k : In k (dkeys (dupdate string_dec d e)) <-> In k (dkeys d) \/ In k (dkeys e).
Proof.
  unfold dupdate; revert d; induction e as [|[k' v] e IH]; intros d; simpl; [tauto|].
  rewrite IH, dset_keys_in. intuition congruence.
Qed.
Lemma dupdate_NoDup (d e : dict) : NoDup (dkeys d) -> NoDup (dkeys (dupdate string_dec d e)).
Proof. unfold dupdate; revert d; induction e as [|[k' v] e IH]; intros d h; simpl; [exact h|]. now apply IH, dset_NoDup. Qed.
Lemma dget_dupdate (d e : dict) k : NoDup (dkeys e) ->
  dget string_dec (dupdate string_dec d e) k = match dget string_dec e k with Some v => Some v | None => dget string_dec d k end.
Proof.
  unfold dupdate; revert d; induction e as [|[k' v] e IH]; intros d h; simpl; [reflexivity|].
  inversion h as [|x y ni nd']; subst; rewrite IH by exact nd'.
  destruct (string_dec k k') as [->|ne].
  - rewrite (proj2 (dget_None_notin string_dec e k') ni). apply dget_dset_same.
  - now rewrite dget_dset_other.
Qed.
Lemma reach_trans p q : reach p q -> forall r, reach q r -> reach p r.
Proof. induction 1; intros r h; [exact h|econstructor; eauto]. Qed.
Lemma tl_reach p x : In x (tl (par_params p)) -> reach p x.
Proof.
  intros h; apply tl_params in h; destruct h as (kw & q & i & r). destruct p; [|destruct i]. econstructor; eauto.
Qed.
Lemma reach_tl p x : reach p x -> x = p \/ In x (tl (par_params p)).
Proof.
  intros h; assert (i := proj2 (par_params_reach p x) h). destruct p as [id n s pr|id n]; [|inversion h].
  cbn [par_params] in i; destruct i as [<-|i]; [now left|right; exact i].
Qed.
Lemma step_inv n ret s p r t : step n (Ok (ret, s)) p = Ok (r, t) ->
  is_const p = false /\ exists d1 s1 v, sample_from draw n (tl (par_params p)) s [] = Ok (d1, s1) /\
  draw s1 p (hyper_values (dupdate string_dec ret d1) p) = Ok (v, t) /\ r = dset string_dec (dupdate string_dec ret d1) (par_name p) v.
Proof.
  unfold step; cbn [rbind]. destruct (is_const p); [discriminate|].
  destruct (sample_from draw n (tl (par_params p)) s []) as [[d1 s1]|e1] eqn:E1; [|discriminate]; cbn [rbind].
  destruct (draw s1 p (hyper_values (dupdate string_dec ret d1) p)) as [[v s2]|e2] eqn:E2; [|discriminate]; cbn [rbind].
  intros [= <- <-]; split; [reflexivity|]. now exists d1, s1, v.
Qed.
Lemma fold_inv n p ps ret s d s' : fold_left (step n) (p :: ps) (Ok (ret, s)) = Ok (d, s') ->
  exists r t, step n (Ok (ret, s)) p = Ok (r, t) /\ fold_left (step n) ps (Ok (r, t)) = Ok (d, s').
Proof.
  cbn [fold_left]; destruct (step n (Ok (ret, s)) p) as [[r t]|e]; [|rewrite fold_err; discriminate].
  intros h; now exists r, t.
Qed.
Lemma nonconst_self p : is_const p = false -> reach p p.
Proof. destruct p; [constructor|discriminate]. Qed.

Lemma sample_from_keys : forall n ps s ret d s', sample_from draw n ps s ret = Ok (d, s') ->
  forall k, In k (dkeys d) <-> In k (dkeys ret) \/ exists p x, In p ps /\ reach p x /\ par_name x = k.
Proof.
  induction n as [|n IH]; intros ps s ret d s' h k.
  - destruct ps; [|discriminate]. injection h as <- _. split; [now left|]. intros [i|(p & x & [] & _)]; exact i.
  - rewrite sample_from_S in h. revert ret s h; induction ps as [|p ps IHp]; intros ret s h.
    + injection h as <- _. split; [now left|]. intros [i|(p & x & [] & _)]; exact i.
    + apply fold_inv in h; destruct h as (r & t & E & h).
      rewrite (IHp r t h). clear IHp h.
      apply step_inv in E; destruct E as (C & d1 & s1 & v & E1 & _ & ->).
      rewrite dset_keys_in, dupdate_keys, (IH _ _ _ _ _ E1 k). clear IH E1.
      split.
      * intros [[e|[i|[[]|(q & x & i & r' & e)]]]|(q & x & i & r')].
        -- right; exists p, p; split; [now left|]. split; [now apply nonconst_self|now symmetry].
        -- now left.
        -- right; exists p, x; split; [now left|]. split; [|exact e]. apply reach_trans with q; [now apply tl_reach|exact r'].
        -- right; exists q, x; split; [now right|exact r'].
      * intros [i|(q & x & [->|i] & r' & e)].
        -- left; right; now left.
        -- left. destruct (reach_tl _ _ r') as [->|i]; [left; now symmetry|].
           right; right; right; exists x, x; split; [exact i|]. split; [apply nonconst_self, (reach_nonconst _ _ r')|exact e].
        -- right; exists q, x; split; [exact i|]. now split.
Qed.
Lemma sample_from_NoDup : forall n ps s ret d s', sample_from draw n ps s ret = Ok (d, s') -> NoDup (dkeys ret) -> NoDup (dkeys d).
Proof.
  intros [|n] ps s ret d s' h nd.
  - destruct ps; [|discriminate]. now injection h as <- _.
  - rewrite sample_from_S in h. revert ret s h nd; induction ps as [|p ps IHp]; intros ret s h nd.
    + now injection h as <- _.
    + apply fold_inv in h; destruct h as (r & t & E & h). apply (IHp r t h).
      apply step_inv in E; destruct E as (C & d1 & s1 & v & E1 & _ & ->). now apply dset_NoDup, dupdate_NoDup.
Qed.

(** ** Consistency *)
(** [x] was drawn given the values in [d]. *)
Definition drawn (d : dict) (x : par) : Prop :=
  exists s v s', draw s x (hyper_values d x) = Ok (v, s') /\ dget string_dec d (par_name x) = Some v.
Definition shallow (p : par) : Prop :=
  forall kw q kw' q', In (kw, q) (par_prior p) -> In (kw', q') (par_prior q) -> is_const q' = true.
Definition one_name (p : par) : Prop := forall x y, reach p x -> reach p y -> par_name x = par_name y -> x = y.
Definition apart_names (p p' : par) : Prop := forall x y, reach p x -> reach p' y -> par_name x <> par_name y.
Definition constants_apart (ps : list par) : Prop :=
  forall p x kw c, In p ps -> reach p x -> In (kw, c) (par_prior x) -> is_const c = true ->
  forall p' y, In p' ps -> reach p' y -> par_name y <> par_name c.

Lemma hyper_values_ext (d d' : dict) x : (forall kw q, In (kw, q) (par_prior x) -> dget string_dec d (par_name q) = dget string_dec d' (par_name q)) ->
  hyper_values d x = hyper_values d' x.
Proof. intros h; unfold hyper_values; apply map_ext_in; intros [kw q] i; cbn [fst snd]; now rewrite (h kw q i). Qed.
Lemma drawn_ext d d' x : drawn d x -> dget string_dec d' (par_name x) = dget string_dec d (par_name x) ->
  (forall kw q, In (kw, q) (par_prior x) -> dget string_dec d' (par_name q) = dget string_dec d (par_name q)) -> drawn d' x.
Proof.
  intros (s & v & s' & e1 & e2) h1 h2; exists s, v, s'; split; [|now rewrite h1].
  now rewrite (hyper_values_ext d' d x h2).
Qed.

(** Parameters without hyperparameters. *)
Lemma flat_sample n hs0 : forall hs s ret d s',
  incl hs hs0 ->
  (forall h, In h hs0 -> is_const h = false /\ tl (par_params h) = []) ->
  (forall h h', In h hs0 -> In h' hs0 -> par_name h = par_name h' -> h = h') ->
  (forall h kw c h', In h hs0 -> In (kw, c) (par_prior h) -> In h' hs0 -> par_name h' <> par_name c) ->
  sample_from draw n hs s ret = Ok (d, s') ->
  (forall k, In k (dkeys ret) -> exists h, In h hs0 /\ drawn ret h /\ par_name h = k) ->
  forall k, In k (dkeys d) -> exists h, In h hs0 /\ drawn d h /\ par_name h = k.
Proof.
  destruct n as [|n]; intros hs s ret d s' inc flat one cst h inv.
  { destruct hs; [|discriminate]. now injection h as <- _. }
  rewrite sample_from_S in h. revert s ret h inv inc; induction hs as [|p hs IH]; intros s ret h inv inc.
  { now injection h as <- _. }
  apply fold_inv in h; destruct h as (r & t & E & h).
  assert (ip : In p hs0) by (apply inc; now left).
  apply (IH t r h); [|intros q i; apply inc; now right].
  apply step_inv in E; destruct E as (C & d1 & s1 & v & E1 & E2 & ->).
  rewrite (proj2 (flat p ip)) in E1.
  assert (e1 : d1 = []) by (destruct n; now injection E1 as <- _). subst d1; change (dupdate string_dec ret []) with ret in *.
  intros k i; rewrite dset_keys_in in i.
  assert (other : forall q, In q hs0 -> forall kw c, In (kw, c) (par_prior q) ->
            dget string_dec (dset string_dec ret (par_name p) v) (par_name c) = dget string_dec ret (par_name c)).
  { intros q iq kw c ic; apply dget_dset_other. intros e; apply (cst q kw c p iq ic ip); now symmetry. }
  destruct (string_dec k (par_name p)) as [e|ne].
  - exists p; split; [exact ip|]. split; [|now symmetry].
    exists s1, v, t; split; [|apply dget_dset_same].
    rewrite <- E2; f_equal; apply hyper_values_ext; intros kw c ic; apply (other p ip kw c ic).
  - destruct i as [e|i]; [contradiction|]. destruct (inv k i) as (q & iq & dq & e).
    exists q; split; [exact iq|]. split; [|exact e].
    apply (drawn_ext ret); [exact dq| |intros kw c ic; apply (other q iq kw c ic)].
    apply dget_dset_other; congruence.
Qed.

Lemma shallow_tl p h : shallow p -> In h (tl (par_params p)) -> exists kw, In (kw, h) (par_prior p) /\ tl (par_params h) = [].
Proof.
  intros sh i; apply tl_params in i; destruct i as (kw & q & i & r).
  inversion r as [id n s pr e1 e2|id n s pr kw' q' x i' r' e1 e2]; subst.
  - exists kw; split; [exact i|].
    destruct (tl (par_params _)) as [|y l] eqn:E; [reflexivity|]. exfalso.
    assert (iy : In y (tl (par_params (Par id n s pr)))) by (rewrite E; now left).
    apply tl_params in iy; destruct iy as (kw2 & q2 & i2 & r2).
    assert (c := sh kw _ kw2 q2 i i2). destruct q2; [discriminate|]. inversion r2.
  - exfalso. assert (c := sh kw _ kw' q' i i'). destruct q'; [discriminate|]. inversion r'.
Qed.

Lemma sample_step n ps0 p ret s r t :
  In p ps0 -> shallow p -> one_name p -> constants_apart ps0 ->
  (forall k, In k (dkeys ret) -> exists p' y, In p' ps0 /\ reach p' y /\ par_name y = k) ->
  step n (Ok (ret, s)) p = Ok (r, t) ->
  (forall x, reach p x -> drawn r x) /\
  (forall k, (forall x, reach p x -> par_name x <> k) -> dget string_dec r k = dget string_dec ret k) /\
  (forall k, In k (dkeys r) -> exists p' y, In p' ps0 /\ reach p' y /\ par_name y = k).
Proof.
  intros ip sh one cst inv E.
  apply step_inv in E; destruct E as (C & d1 & s1 & v & E1 & E2 & ->).
  assert (nd1 := sample_from_NoDup _ _ _ _ _ _ E1 (NoDup_nil _)).
  assert (k1 := sample_from_keys _ _ _ _ _ _ E1).
  assert (pp := nonconst_self p C).
  assert (keys : forall k, In k (dkeys (dset string_dec (dupdate string_dec ret d1) (par_name p) v)) ->
     exists p' y, In p' ps0 /\ reach p' y /\ par_name y = k).
  { intros k i; rewrite dset_keys_in, dupdate_keys, k1 in i.
    destruct i as [->|[i|[[]|(q & x & i & rx & e)]]].
    - exists p, p; auto.
    - now apply inv.
    - exists p, x; split; [exact ip|]. split; [|exact e]. apply reach_trans with q; [now apply tl_reach|exact rx]. }
  assert (fresh : forall x kw c, reach p x -> In (kw, c) (par_prior x) -> is_const c = true ->
     dget string_dec (dset string_dec (dupdate string_dec ret d1) (par_name p) v) (par_name c) = None).
  { intros x kw c rx ic cc; apply dget_None_notin; intros i; destruct (keys _ i) as (p' & y & i1 & i2 & e).
    exact (cst p x kw c ip rx ic cc p' y i1 i2 e). }
  assert (hyp : forall h, In h (tl (par_params p)) -> h <> p).
  { intros h i ->; apply tl_depth in i; lia. }
  split; [|split; [|exact keys]].
  - intros x rx; destruct (reach_tl _ _ rx) as [->|ix].
    + exists s1, v, t; split; [|apply dget_dset_same]. rewrite <- E2; f_equal.
      apply hyper_values_ext; intros kw q iq. apply dget_dset_other; intros e.
      destruct q as [id n0 sz pr|id n0].
      * assert (rq : reach p (Par id n0 sz pr)) by (destruct p; [|destruct iq]; econstructor; [exact iq|constructor]).
        assert (c := one _ _ rq pp e). assert (l := depth_reach _ _ rq).
        rewrite c in iq; destruct p; [|destruct iq]. cbn [par_prior] in iq.
        assert (contra : forall (pr : list (string * par)) kw q, In (kw, q) pr -> par_depth q < par_depth (Par n1 s0 o pr)).
        { clear; intros pr kw q i; cbn [par_depth]; induction pr as [|[k p] pr IH]; [destruct i|].
          cbn [fold_right snd]; destruct i as [[= -> ->]|i]; [lia|]. specialize (IH i); lia. }
        specialize (contra _ _ _ iq); lia.
      * exact (cst p p kw (Cst id n0) ip pp iq eq_refl p p ip pp (eq_sym e)).
    + destruct (shallow_tl p x sh ix) as (kw0 & i0 & t0).
      assert (inner : forall k, In k (dkeys d1) -> exists h, In h (tl (par_params p)) /\ drawn d1 h /\ par_name h = k).
      { apply (flat_sample n (tl (par_params p)) (tl (par_params p)) s [] d1 s1 (incl_refl _)); [| | |exact E1|intros k []].
        - intros h ih; split; [exact (reach_nonconst _ _ (tl_reach _ _ ih))|]. now destruct (shallow_tl p h sh ih) as (_ & _ & e).
        - intros h h' ih ih'; apply one; now apply tl_reach.
        - intros h kw c h' ih ic ih'. destruct (shallow_tl p h sh ih) as (kw1 & i1 & _).
          apply (cst p h kw c ip (tl_reach _ _ ih) ic (sh _ _ _ _ i1 ic) p h' ip (tl_reach _ _ ih')). }
      assert (kx : In (par_name x) (dkeys d1)).
      { apply k1; right; exists x, x; split; [exact ix|]. split; [apply nonconst_self, (reach_nonconst _ _ rx)|reflexivity]. }
      destruct (inner _ kx) as (h & ih & dh & eh).
      assert (h = x) by (apply one; [now apply tl_reach|exact rx|exact eh]); subst h.
      apply (drawn_ext d1); [exact dh| |].
      * rewrite dget_dset_other, dget_dupdate by (try exact nd1; intros e; apply (hyp x ix), one; assumption).
        apply (in_dget_Some string_dec) in kx; destruct kx as [w ->]; reflexivity.
      * intros kw q iq. assert (cq := sh _ _ _ _ i0 iq). rewrite (fresh x kw q rx iq cq). symmetry.
        apply dget_None_notin; intros i; apply k1 in i; destruct i as [[]|(h & y & i1 & r1 & e)].
        apply (cst p x kw q ip rx iq cq p y ip); [|exact e]. apply reach_trans with h; [now apply tl_reach|exact r1].
  - intros k hk; rewrite dget_dset_other, dget_dupdate by (try exact nd1; intros e; apply (hk p pp); now symmetry).
    rewrite (proj2 (dget_None_notin string_dec d1 k)); [reflexivity|].
    intros i; apply k1 in i; destruct i as [[]|(h & y & i1 & r1 & e)].
    apply (hk y); [|exact e]. apply reach_trans with h; [now apply tl_reach|exact r1].
Qed.

Lemma sample_run n ps0 : forall ps done ret s d s', ps0 = done ++ ps ->
  (forall p, In p ps0 -> shallow p /\ one_name p) -> constants_apart ps0 -> ForallOrdPairs apart_names ps0 ->
  (forall k, In k (dkeys ret) -> exists p' y, In p' ps0 /\ reach p' y /\ par_name y = k) ->
  (forall p x, In p done -> reach p x -> drawn ret x) ->
  fold_left (step n) ps (Ok (ret, s)) = Ok (d, s') ->
  forall p x, In p ps0 -> reach p x -> drawn d x.
Proof.
  induction ps as [|p ps IH]; intros done ret s d s' e0 hp cst ap inv dr h.
  - injection h as <- _. rewrite app_nil_r in e0; subst ps0; exact dr.
  - apply fold_inv in h; destruct h as (r & t & E & h).
    assert (ip : In p ps0) by (rewrite e0; apply in_or_app; right; now left).
    destruct (hp p ip) as [sh one].
    destruct (sample_step n ps0 p ret s r t ip sh one cst inv E) as (D & K & Q).
    apply (IH (done ++ [p]) r t d s'); try assumption.
    + now rewrite <- app_assoc.
    + intros q x iq rx; apply in_app_or in iq; destruct iq as [iq|[<-|[]]]; [|now apply D].
      assert (aqp : apart_names q p).
      { rewrite e0 in ap. clear - ap iq. induction done as [|y done IHd]; [destruct iq|].
        cbn [app] in ap; inversion ap as [|a l fa ap' ea]; subst. destruct iq as [->|iq]; [|now apply IHd].
        rewrite Forall_forall in fa; apply fa, in_or_app; right; now left. }
      assert (iq0 : In q ps0) by (rewrite e0; apply in_or_app; now left).
      apply (drawn_ext ret); [now apply (dr q)| |].
      * apply K; intros y ry ey; exact (aqp x y rx ry (eq_sym ey)).
      * intros kw c ic; apply K; intros y ry ey. destruct c as [id nm sz pr|id nm].
        -- apply (aqp (Par id nm sz pr) y); [|exact ry|now symmetry].
           apply reach_trans with x; [exact rx|]. destruct x; [|destruct ic]. econstructor; [exact ic|constructor].
        -- exact (cst q x kw (Cst id nm) iq0 rx ic eq_refl p y ip ry ey).
Qed.
End Sample.

Lemma depth_max ps : forall p, In p ps -> par_depth p <= fold_right (fun p m => Nat.max (par_depth p) m) 0 ps.
Proof. induction ps as [|q ps IH]; intros p []; simpl; [subst; lia|]. specialize (IH p H); lia. Qed.

Lemma sample_keys_lem :
  forall (V S : Type) (draw : S -> par -> list (string * option V) -> result (V * S)) ps s d s',
  sample draw ps s = Ok (d, s') ->
  NoDup (dkeys d) /\ forall k, In k (dkeys d) <-> exists p x, In p ps /\ reach p x /\ par_name x = k.
Proof.
  intros V S draw ps s d s' h; split; [exact (sample_from_NoDup draw _ _ _ _ _ _ h (NoDup_nil _))|].
  intros k; rewrite (sample_from_keys draw _ _ _ _ _ _ h k); simpl; tauto.
Qed.

Lemma sample_fuel_lem :
  forall (V S : Type) (draw : S -> par -> list (string * option V) -> result (V * S)) ps s n,
  (forall p, In p ps -> is_const p = false) -> (forall p, In p ps -> par_depth p <= n) ->
  sample_from draw n ps s [] = sample draw ps s.
Proof.
  intros V S draw ps s n hc hn; unfold sample.
  set (m := fold_right _ _ _).
  assert (m <= n) by (unfold m; clear - hn; induction ps as [|p ps IH]; simpl; [lia|]; apply Nat.max_lub; [apply hn; now left|apply IH; intros q i; apply hn; now right]).
  apply fuel_enough; [|assumption|exact hc]. exact (depth_max ps).
Qed.

Lemma sample_consistent_partial_lem :
  forall (V S : Type) (draw : S -> par -> list (string * option V) -> result (V * S)) ps s d s',
  sample draw ps s = Ok (d, s') ->
  (forall p, In p ps -> shallow p /\ one_name p) -> ForallOrdPairs apart_names ps -> constants_apart ps ->
  forall p x, In p ps -> reach p x -> drawn draw d x.
Proof.
  intros V S draw ps s d s' h hp ap cst. unfold sample in h. destruct (fold_right _ _ _) as [|n].
  - destruct ps; [intros p x []|discriminate].
  - rewrite sample_from_S in h. apply (sample_run draw n ps ps [] [] s d s'); try assumption; try reflexivity.
    + intros k [].
    + intros p x [].
Qed.

(** ** Witnesses: a generator that counts its draws; a parameter with a
    hyperparameter is set to the value of that. *)
Definition counting (s : nat) (p : par) (hs : list (string * option nat)) : result (nat * nat) :=
  Ok (match hs with (_, Some v) :: _ => v | _ => s end, s + 1).
Definition hyp : par := Par 1 "h" None [].
Definition par_a : par := Par 2 "a" None [("mu", hyp)].
Definition par_b : par := Par 3 "b" None [("mu", hyp)].
Definition hyp2 : par := Par 4 "g" None [("mu", hyp)].
Definition par_c : par := Par 5 "c" None [("mu", hyp2)].

Lemma not_drawn (d : dict string nat) x : (forall s v s', counting s x (hyper_values d x) = Ok (v, s') -> dget string_dec d (par_name x) <> Some v) -> ~ drawn counting d x.
Proof. intros h (s & v & s' & e1 & e2). exact (h s v s' e1 e2). Qed.

Lemma sample_shared_refuted_lem :
  exists ps d s', sample counting ps 0 = Ok (d, s') /\
  (forall p, In p ps -> shallow p /\ one_name p) /\ (exists p, In p ps /\ ~ drawn counting d p).
Proof.
  exists [par_a; par_b]; eexists; eexists; split; [reflexivity|]; split.
  - assert (g : forall i n x, reach (Par i n None [("mu", hyp)]) x -> x = Par i n None [("mu", hyp)] \/ x = hyp).
    { intros i n x r; inversion r as [|? ? ? ? kw q y iq rq]; subst; [now left|].
      destruct iq as [[= <- <-]|[]]. inversion rq as [|? ? ? ? kw' q' y' iq']; subst; [now right|destruct iq']. }
    assert (g2 : forall i n, n <> "h" -> shallow (Par i n None [("mu", hyp)]) /\ one_name (Par i n None [("mu", hyp)])).
    { intros i n ne; split; [intros kw q kw' q' [[= <- <-]|[]] []|].
      intros x y rx ry; destruct (g _ _ _ rx) as [-> | ->], (g _ _ _ ry) as [-> | ->]; cbn; congruence. }
    intros p [<-|[<-|[]]]; apply g2; discriminate.
  - exists par_a; split; [now left|]. apply not_drawn; cbn; intros s v s' [= <- <-]; discriminate.
Qed.
Lemma sample_chain_refuted_lem :
  exists p d s', sample counting [p] 0 = Ok (d, s') /\ one_name p /\ ~ (forall x, reach p x -> drawn counting d x).
Proof.
  exists par_c; eexists; eexists; split; [reflexivity|]; split.
  - assert (g : forall x, reach par_c x -> x = par_c \/ x = hyp2 \/ x = hyp).
    { intros x r; inversion r as [|? ? ? ? kw q y iq rq]; subst; [now left|].
      destruct iq as [[= <- <-]|[]]. inversion rq as [|? ? ? ? kw' q' y' iq' rq']; subst; [now right; left|].
      destruct iq' as [[= <- <-]|[]]. inversion rq' as [|? ? ? ? kw2 q2 y2 iq2]; subst; [now right; right|destruct iq2]. }
    intros x y rx ry; destruct (g _ rx) as [->|[-> | ->]], (g _ ry) as [->|[-> | ->]]; cbn; congruence.
  - intros h. assert (r : reach par_c hyp2) by (eapply reach_hyper; [now left|constructor]).
    revert r; intros r; apply h in r; revert r. apply not_drawn; cbn; intros s v s' [= <- <-]; discriminate.
Qed.
(** The parameter list of an array holds its hyperparameters too. *)
Lemma sample_array_refuted_lem :
  exists (l : list collection) d s', sample counting (pta_params (fun x => x) l) 0 = Ok (d, s') /\
  (forall c sg k p, In c l -> In sg c -> In (k, p) sg -> shallow p) /\
  exists p, In p (pta_params (fun x => x) l) /\ ~ drawn counting d p.
Proof.
  exists [[[("x", par_a)]]]; eexists; eexists; split; [reflexivity|]; split.
  - intros c sg k p [<-|[]] [<-|[]] [[= <- <-]|[]] kw q kw' q' [[= <- <-]|[]] [].
  - exists par_a; split; [now left|]. apply not_drawn; cbn; intros s v s' [= <- <-]; discriminate.
Qed.

Definition par_e : par := Par 6 "e" None [("mu", Par 7 "e_mu" None []); ("sigma", Cst 8 "e_sigma")].
Lemma ex_sample : exists d s', sample counting [par_a; par_e] 0 = Ok (d, s') /\
  (forall p, In p [par_a; par_e] -> shallow p /\ one_name p) /\ ForallOrdPairs apart_names [par_a; par_e] /\ constants_apart [par_a; par_e] /\
  d = [("h", 0); ("a", 0); ("e_mu", 2); ("e", 2)].
Proof.
  assert (ga : forall x, reach par_a x -> x = par_a \/ x = hyp).
  { intros x r; inversion r as [|? ? ? ? kw q y iq rq]; subst; [now left|].
    destruct iq as [[= <- <-]|[]]. inversion rq as [|? ? ? ? kw' q' y' iq']; subst; [now right|destruct iq']. }
  assert (ge : forall x, reach par_e x -> x = par_e \/ x = Par 7 "e_mu" None []).
  { intros x r; inversion r as [|? ? ? ? kw q y iq rq]; subst; [now left|].
    destruct iq as [[= <- <-]|[[= <- <-]|[]]]; inversion rq as [|? ? ? ? kw' q' y' iq']; subst; [now right|destruct iq']. }
  eexists; eexists; split; [reflexivity|]; split; [|split; [|split; [|reflexivity]]].
  - intros p [<-|[<-|[]]]; split.
    + intros kw q kw' q' [[= <- <-]|[]] [].
    + intros x y rx ry; destruct (ga _ rx) as [-> | ->], (ga _ ry) as [-> | ->]; cbn; congruence.
    + intros kw q kw' q' [[= <- <-]|[[= <- <-]|[]]] [].
    + intros x y rx ry; destruct (ge _ rx) as [-> | ->], (ge _ ry) as [-> | ->]; cbn; congruence.
  - repeat constructor. intros x y rx ry; destruct (ga _ rx) as [-> | ->], (ge _ ry) as [-> | ->]; discriminate.
  - intros p x kw c [<-|[<-|[]]] rx ic cc p' y [<-|[<-|[]]] ry;
      [destruct (ga _ rx) as [-> | ->]|destruct (ga _ rx) as [-> | ->]|destruct (ge _ rx) as [-> | ->]|destruct (ge _ rx) as [-> | ->]];
      cbn in ic; repeat (destruct ic as [[= <- <-]|ic]; [try discriminate|]); try destruct ic;
      [destruct (ga _ ry) as [-> | ->]|destruct (ge _ ry) as [-> | ->]]; discriminate.
Qed.
