(** Proofs that the signals of the package behave in a collection as ProofColl.v asks for. *)
From Coq Require Import String Bool Arith List Reals Lia.
From Verif Require Import PyBase ProofBase ModelSelect ModelFunc ModelCache ProofCache ModelGp ProofGp ModelColl ProofColl ModelSigs.
Import ListNotations.
Open Scope nat_scope.
Open Scope string_scope.
Open Scope list_scope.

(** * Specification *)
(** The collection of some signals *)
Definition coll_of (fns : nat -> fob * fob) (c : list desc * dval) : coll sst (list R) dval fmat sprior := Coll (map (sg_of fns) (fst c)) (snd c).
(** No value is given for a constant of a function *)
Definition spares (p : params R) (o : fob) : Prop := forall q, In q (pars_of o) -> is_cst q = true -> dget string_dec p (par_name q) = None.
Notation pbeh := (beh sst (list R) dval fmat sprior).
Definition keep (s : sst) (names : list string) (limit : nat) (v : params R -> result (list R)) (dom : params R -> Prop) : Prop :=
  exists c, s = SArr c /\ good dom names limit v c.

(** How the signals of an array are made; the functions take no other functions as
    arguments, and the basis of sampled coefficients has no parameters that vary. *)
Definition made (fns : nat -> fob * fob) (d : desc) : Prop :=
  match d with
  | DWhite f | DDet f _ => exists fn name psrname psr masks, NoDup (dkeys masks) /\ no_functions fn /\ new_fsel fn name psrname psr masks = Ok f
  | DGp g _ => exists priorfn basisfn name psrname psr masks s, NoDup (dkeys masks) /\ no_functions basisfn /\ new_gp priorfn basisfn false name psrname psr masks = Ok (g, s)
  | DSampled g s _ => exists priorfn basisfn name psrname psr masks, NoDup (dkeys masks) /\ no_functions basisfn /\
      new_gp priorfn basisfn true name psrname psr masks = Ok (g, s) /\ ModelGp.basis_params g = []
  | DCommon c _ cls _ => exists basisfn given name psrname psr, no_functions basisfn /\ c = new_cgp basisfn (fst (fns cls)) (snd (fns cls)) given name psrname psr
  end.
(** The functions whose results are cached *)
Definition functions_of (d : desc) : list fob :=
  match d with
  | DWhite f | DDet f _ => map snd (f_fn f)
  | DGp g _ | DSampled g _ _ => map snd (g_bases g)
  | DCommon c _ _ _ => [c_basis c]
  end.
(** Parameters an array may be asked for *)
Definition fair (a : list (list desc)) (p : params R) : Prop :=
  flat_values p /\ forall ds d o, In ds a -> In d ds -> In o (functions_of d) -> spares p o.
(** The signal by itself: what it answers if it is asked first *)
Definition alone (fns : nat -> fob * fob) (d : desc) : pbeh :=
  let m := sg_of fns d in let s := start_of d in
  Beh (fun p => snd (s_ndiag m p s)) (fun p => snd (s_delay m p s)) (fun p => snd (s_basis m p s)) (fun p => snd (s_phi m p s)) (fun p => snd (s_prior m p s))
    (fun _ => True) (fun _ _ => True).
(** The prior of the labels of the first signal's basis times the correlation of the
    positions *)
Definition cross_of (fns : nat -> fob * fob) (a : list (list desc)) (cls : nat) (ij ij' : nat * nat) (p : params R) : result gv :=
  let at_ ij := match nth_error a (fst ij) with Some ds => nth_error ds (snd ij) | None => None end in
  match at_ ij, at_ ij' with
  | Some (DCommon c pos _ _), Some (DCommon _ pos' _ _) =>
      rbind (gcall (c_basis c) [] [] p) (fun v => match v with
        | GPair _ labels => rbind (gcall (fst (fns cls)) [labels] [] p) (fun a => rbind (gcall (snd (fns cls)) [pos; pos'] [] p) (gtimes a))
        | _ => Err TypeError end)
  | _, _ => Err AttributeError
  end.

Section Signals.
Variable dom : params R -> Prop.
Hypothesis dom_flat : forall p, dom p -> flat_values p.

(** * A method that is cached with limit one and leaves something behind *)
Section Once.
Variables (S : Type) (names : list string) (func : params R -> S -> S * result unit) (start : S).
Hypothesis indep : forall p s s' b, func p s = (b, Ok tt) -> func p s' = (b, Ok tt).
Hypothesis dep : forall p p' s, dom p -> dom p' -> agree names p p' -> func p s = func p' s.
Definition kept (s : cstate (num := R) unit * S) : Prop :=
  wf_cache 1 (fst s) /\ forall k v, In (k, v) (cmap (fst s)) -> exists p, dom p /\ cache_key R names p = Ok k /\ func p start = (snd s, Ok tt).
Lemma kept_start s : kept (cempty, s).
Proof. split; [apply wf_empty|intros k v []]. Qed.
Lemma once_ok p b s : kept s -> dom p -> func p start = (b, Ok tt) ->
  exists s', cache_call Req_EM_T names 1 func p s = (s', Ok tt) /\ kept s' /\ snd s' = b.
Proof.
  destruct s as [c s]; intros [w H] dp hb; cbn [fst snd] in *; destruct (cache_key_total names p (dom_flat p dp)) as [k ek].
  destruct (cache_ok names 1 func c s p k tt b w (le_n 1) ek (indep _ _ s _ hb)) as [(v & i & e)|(c' & e & w' & h1 & h2)].
  - destruct (H _ _ i) as (p0 & d0 & e0 & es); exists (c, s); split; [rewrite e; now destruct v|]; split; [now split|]; cbn [snd].
    rewrite (dep p0 p start d0 dp) in es by (intros n i'; now apply (cache_key_inj names p0 p k)); congruence.
  - exists (c', b); split; [exact e|]; split; [|reflexivity]; split; [exact w'|]; cbn [fst snd]; intros k' v' i.
    assert (k' = k).
    { destruct w' as (w1 & _ & w3); destruct c' as [m l]; cbn [cmap clist] in *; subst l; rewrite map_length in w3; destruct m as [|x [|y m]]; cbn in w3; [destruct h2| |lia].
      destruct h2 as [h2|[]], i as [i|[]]; congruence. }
    subst k'; now exists p.
Qed.
Lemma once_rev p s s' r : kept s -> dom p -> cache_call Req_EM_T names 1 func p s = (s', Ok r) -> func p start = (snd s', Ok tt).
Proof.
  destruct s as [c s]; intros [w H] dp; cbn [fst snd] in *; unfold cache_call; destruct (cache_key R names p) as [k|e] eqn:ek; [|discriminate].
  destruct (dmem (key_eq_dec Req_EM_T) (cmap c) k) eqn:E.
  - apply dmem_true in E; destruct (in_dget_Some (key_eq_dec Req_EM_T) _ _ E) as [v0 g]; unfold dgetE; rewrite g; intros [= <- _]; cbn [snd].
    apply dget_In in g; destruct (H _ _ g) as (p0 & d0 & e0 & es); rewrite <- es; apply dep; [assumption..|]; intros n i; symmetry; now apply (cache_key_inj names p0 p k).
  - destruct (func p s) as [b [[]|e]] eqn:F; [|discriminate]; intros [= <- _]; cbn [snd]; now apply indep with s.
Qed.
Lemma once_fresh p s r : cache_call Req_EM_T names 1 func p (cempty, start) = (s, Ok r) -> func p start = (snd s, Ok tt).
Proof.
  unfold cache_call; destruct (cache_key R names p) as [k|]; [|discriminate]; cbn [cmap clist dmem dget cempty].
  destruct (func p start) as [b [u|e]] eqn:E; [|discriminate]; unfold cevict; cbn.
  destruct (key_eq_dec Req_EM_T k k); cbn; intros [= <- _]; now destruct u.
Qed.
End Once.

(** * A method that returns an array *)
Lemma cache2_fresh {S B} names limit (func : params R -> S -> S * result B) p s x : 1 <= limit -> dom p ->
  func p s = (fst (func p s), Ok x) -> snd (cache_call Req_EM_T names limit func p (cempty, s)) = Ok x.
Proof.
  intros l1 dp e; destruct (cache_key_total names p (dom_flat p dp)) as [k ek].
  destruct (cache_ok names limit func cempty s p k x _ (wf_empty limit) l1 ek e) as [(v & [] & _)|(c' & e' & _)]; now rewrite e'.
Qed.
Lemma array_answers {B} (wrap : list R -> B) names body : (forall p p', dom p -> dom p' -> agree names p p' -> body p = body p') ->
  answers dom (fun s => keep s names 2 body dom) (fun _ _ => True) (cached_array wrap names body) (fun p => rmap (fun x => Some (wrap x)) (body p)).
Proof.
  intros dep p s x dp (c & -> & w & g) e; apply rmap_inv in e as (y & e & <-); destruct (cache_key_total names p (dom_flat p dp)) as [k ek].
  destruct (cache_ok names 2 (fun p (u : unit) => (u, body p)) c tt p k y tt w (le_S _ _ (le_n 1)) ek) as [(v & i & e')|(c' & e' & w' & h1 & _)]; [now rewrite e| |]; unfold gparams in e'; cbn [cached_array]; rewrite e'.
  - destruct (g _ _ i) as (p0 & d0 & e0 & ey); replace v with y; [exists (SArr c); split; [reflexivity|]; split; [now exists c|exact I]|].
    rewrite (dep p0 p d0 dp) in ey; [congruence|]; intros n i'; now apply (cache_key_inj names p0 p k).
  - exists (SArr c'); split; [reflexivity|]; split; [|exact I]; exists c'; split; [reflexivity|]; split; [exact w'|]; intros k' v' i; destruct (h1 _ _ i) as [i'|[-> ->]]; [now apply g|now exists p].
Qed.

(** * Functions by selection *)
Definition fsel_spared (f : fsel) (p : params R) : Prop := forall k o, In (k, o) (f_fn f) -> spares p o.
Section Fsel.
Variables (fn : fcl) (name psrname : string) (psr : gv) (masks : dict string mask) (f : fsel).
Hypothesis nd : NoDup (dkeys masks).
Hypothesis nf : no_functions fn.
Hypothesis ef : new_fsel fn name psrname psr masks = Ok f.
Hypothesis spared : forall p, dom p -> fsel_spared f p.
Notation o_at k := (inst fn (pname psrname name k) (Some psr)).

Lemma f_shape : f_keys f = sorted_keys masks /\ f_fn f = map (fun k => (k, o_at k)) (f_keys f) /\
  f_params f = fold_left (fun d key => fold_left (fun d q => dset string_dec d (par_name q) q) (pars_of (o_at key)) d) (f_keys f) [].
Proof.
  unfold new_fsel in ef; apply rmap_inv in ef as (ms & e & <-); cbn; split; [reflexivity|]; split; [|reflexivity].
  rewrite fold_dset; [reflexivity|]; cbn; now apply keys_nd.
Qed.
Lemma in_fold_par (qs : list (par gv)) : forall d x q0, In (x, q0) (fold_left (fun d q => dset string_dec d (par_name q) q) qs d) ->
  (In q0 qs /\ par_name q0 = x) \/ In (x, q0) d.
Proof.
  induction qs as [|q qs IH]; intros d x q0 h; [now right|]; cbn [fold_left] in h; apply IH in h as [[h1 h2]|h]; [left; split; [now right|exact h2]|].
  apply dset_In in h as [[-> ->]|h]; [left; split; [now left|reflexivity]|now right].
Qed.
Lemma par_kept (qs : list (par gv)) : forall d x, In x (map (@par_name _) qs) \/ In x (dkeys d) -> In x (dkeys (fold_left (fun d q => dset string_dec d (par_name q) q) qs d)).
Proof.
  induction qs as [|q qs IH]; intros d x [h|h]; cbn [fold_left]; [destruct h|exact h| |]; apply IH.
  - destruct h as [<-|h]; [right; apply dset_keys_in; now left|now left].
  - right; apply dset_keys_in; now right.
Qed.
Lemma in_fold_params keys : forall d x q0, In (x, q0) (fold_left (fun d key => fold_left (fun d q => dset string_dec d (par_name q) q) (pars_of (o_at key)) d) keys d) ->
  (par_name q0 = x /\ exists k, In k keys /\ In q0 (pars_of (o_at k))) \/ In (x, q0) d.
Proof.
  induction keys as [|k keys IH]; intros d x q0 h; [now right|]; cbn [fold_left] in h; apply IH in h as [(h1 & k0 & h2 & h3)|h].
  - left; split; [exact h1|]; exists k0; split; [now right|exact h3].
  - apply in_fold_par in h as [[h1 h2]|h]; [left; split; [exact h2|]; exists k; split; [now left|exact h1]|now right].
Qed.
Lemma params_kept keys : forall d x, (exists k q, In k keys /\ In q (pars_of (o_at k)) /\ par_name q = x) \/ In x (dkeys d) ->
  In x (dkeys (fold_left (fun d key => fold_left (fun d q => dset string_dec d (par_name q) q) (pars_of (o_at key)) d) keys d)).
Proof.
  induction keys as [|k keys IH]; intros d x [(k0 & q & i & iq & e)|h]; cbn [fold_left]; [destruct i| exact h | |]; apply IH.
  - destruct i as [<-|i]; [right; apply par_kept; left; rewrite <- e; now apply in_map|left; now exists k0, q].
  - right; apply par_kept; now right.
Qed.
Lemma f_spared k p : dom p -> In k (f_keys f) -> spares p (o_at k).
Proof. intros dp i; destruct f_shape as (_ & e & _); apply (spared p dp k); rewrite e; apply in_map_iff; now exists k. Qed.
Lemma f_values p p' : dom p -> dom p' -> agree (f_names f) p p' -> forall k q, In k (f_keys f) -> In q (pars_of (o_at k)) -> value_of p q = value_of p' q.
Proof.
  intros dp dp' h k q ik iq; unfold value_of; replace (dget string_dec p' (par_name q)) with (dget string_dec p (par_name q)); [reflexivity|].
  destruct f_shape as (_ & _ & ep).
  assert (ip : In (par_name q) (dkeys (f_params f))) by (rewrite ep; apply params_kept; left; now exists k, q).
  unfold dkeys in ip; apply in_map_iff in ip as ([x q0] & e & ip); cbn in e; subst x; pose proof ip as ip'; rewrite ep in ip; apply in_fold_params in ip as [(e0 & k0 & ik0 & iq0)|[]].
  destruct (is_cst q0) eqn:ec.
  - rewrite <- e0; rewrite (f_spared k0 p dp ik0 q0 iq0 ec), (f_spared k0 p' dp' ik0 q0 iq0 ec); reflexivity.
  - apply h; unfold f_names; rewrite <- e0; apply in_map, filter_In; split; [|now rewrite ec].
    unfold dvals; apply in_map_iff; now exists (par_name q, q0).
Qed.
Lemma fold_left_ext {A B} (g h : A -> B -> A) : forall l a, (forall a b, In b l -> g a b = h a b) -> fold_left g l a = fold_left h l a.
Proof. induction l as [|b l IH]; intros a H; [reflexivity|]; cbn; rewrite (H a b (or_introl eq_refl)); apply IH; intros; apply H; now right. Qed.
Lemma f_fn_ext p p' args kw key : dom p -> dom p' -> agree (f_names f) p p' -> In key (f_keys f) ->
  rbind (dgetE string_dec (f_fn f) key) (fun o => gcall o args kw p) = rbind (dgetE string_dec (f_fn f) key) (fun o => gcall o args kw p').
Proof.
  intros dp dp' h i; destruct f_shape as (_ & e & _); unfold dgetE; rewrite e, (get_map _ _ _ i); cbn [rbind]; apply gcall_ext; [exact nf|]; intros q; now apply (f_values p p' dp dp' h key).
Qed.
Lemma rbind_assoc {A B C} (x : result A) (g : A -> result B) (h : B -> result C) : rbind x (fun a => rbind (g a) h) = rbind (rbind x g) h.
Proof. now destruct x. Qed.
Lemma white_dep p p' : dom p -> dom p' -> agree (f_names f) p p' -> white_body f p = white_body f p'.
Proof.
  intros dp dp' h; unfold white_body; f_equal; apply fold_left_ext; intros [ret|e] [k m] i; [|reflexivity]; cbn [rbind fst snd].
  rewrite !rbind_assoc; do 2 f_equal; apply f_fn_ext; [assumption..|]; now apply in_combine_l in i.
Qed.
Lemma det_dep n p p' : dom p -> dom p' -> agree (f_names f) p p' -> det_body f n p = det_body f n p'.
Proof.
  intros dp dp' h; unfold det_body; apply fold_left_ext; intros [ret|e] [k m] i; [|reflexivity]; cbn [rbind fst snd].
  rewrite !rbind_assoc; f_equal; apply f_fn_ext; [assumption..|]; now apply in_combine_l in i.
Qed.
End Fsel.

(** * Gaussian processes *)
(** What a signal with these functions answers first *)
Definition gp_spared (g : gp) (p : params R) : Prop := forall k o, In (k, o) (g_bases g) -> spares p o.
Section Gp.
Variables (priorfn basisfn : fcl) (name psrname : string) (psr : gv) (masks : dict string mask) (g : gp).
Hypothesis nd : NoDup (dkeys masks).
Hypothesis nf : no_functions basisfn.
Notation selected := (selected name psrname psr).
Hypothesis gk : g_keys g = sorted_keys masks.
Hypothesis gb : g_bases g = map (fun k => (k, selected basisfn k)) (g_keys g).
Hypothesis spared : forall p, dom p -> gp_spared g p.

Lemma gp_param k q : In k (g_keys g) -> In q (pars_of (selected basisfn k)) -> is_cst q = false -> In (par_name q) (basis_params g).
Proof.
  intros ik iq nc; unfold basis_params; apply in_flat_map; exists (selected basisfn k); split.
  - rewrite gb; unfold dvals; rewrite map_map; apply in_map_iff; exists k; split; [reflexivity|exact ik].
  - apply in_map_iff; exists q; split; [reflexivity|]; unfold fo_pars.
    unfold pars_of, dvals in iq; apply in_map_iff in iq as (ka & e & i); apply in_flat_map; exists ka; split; [exact i|]; rewrite e, nc.
    destruct q as [x pr|x v]; [|discriminate]; cbn [par_pars]; destruct pr; now left.
Qed.
Lemma gp_values p p' : dom p -> dom p' -> agree (basis_params g) p p' -> forall k q, In k (g_keys g) -> In q (pars_of (selected basisfn k)) -> value_of p q = value_of p' q.
Proof.
  intros dp dp' h k q ik iq; unfold value_of; replace (dget string_dec p' (par_name q)) with (dget string_dec p (par_name q)); [reflexivity|].
  assert (ib : In (k, selected basisfn k) (g_bases g)) by (rewrite gb; apply in_map_iff; now exists k).
  destruct (is_cst q) eqn:ec; [now rewrite (spared p dp _ _ ib q iq ec), (spared p' dp' _ _ ib q iq ec)|apply h; now apply (gp_param k)].
Qed.
Lemma eval_ext p p' : dom p -> dom p' -> agree (basis_params g) p p' -> forall kms labels acc, (forall km, In km kms -> In (fst km) (g_keys g)) ->
  eval_bases g p kms labels acc = eval_bases g p' kms labels acc.
Proof.
  intros dp dp' h; induction kms as [|[k m] kms IH]; intros labels acc H; [reflexivity|]; cbn [eval_bases].
  unfold dgetE; rewrite gb, (get_map _ _ _ (H (k, m) (or_introl eq_refl))); cbn [rbind].
  unfold ProofGp.selected; rewrite (gcall_ext basisfn _ _ _ _ p p' nf); [|intros q; now apply (gp_values p p' dp dp' h k q (H (k, m) (or_introl eq_refl)))].
  destruct (rbind _ unpack) as [[F lab]|e]; [|reflexivity]; apply IH; intros; apply H; now right.
Qed.
Lemma build_dep p p' s : dom p -> dom p' -> agree (basis_params g) p p' -> build g p s = build g p' s.
Proof.
  intros dp dp' h; unfold build; rewrite (eval_ext p p' dp dp' h); [reflexivity|]; intros [k m] i; now apply in_combine_l in i.
Qed.
Lemma build_indep p s s' b : build g p s = (b, Ok tt) -> build g p s' = (b, Ok tt).
Proof.
  unfold build; destruct (eval_bases g p _ [] []) as [labels [bs|e]]; [|discriminate].
  destruct (rbind _ _) as [[nc n]|e]; [|discriminate]; destruct (put_blocks _ _ _ _ _) as [[B sl] r]; auto.
Qed.
Notation gkept := (kept built (basis_params g) (build g) unbuilt).
Lemma gp_construct p b s : gkept s -> dom p -> build g p unbuilt = (b, Ok tt) -> exists s', construct g p s = (s', Ok tt) /\ gkept s' /\ snd s' = b.
Proof. apply once_ok; [exact build_indep|exact build_dep]. Qed.
Lemma gp_fresh p s r : construct g p (cempty, unbuilt) = (s, Ok r) -> build g p unbuilt = (snd s, Ok tt).
Proof. apply once_fresh. Qed.
Lemma gp_rev p s s' r : gkept s -> dom p -> construct g p s = (s', Ok r) -> build g p unbuilt = (snd s', Ok tt).
Proof. apply once_rev; [exact build_indep|exact build_dep]. Qed.
Definition gp_beh : pbeh :=
  Beh (fun _ => Ok None) (fun _ => Ok (Some DZero))
    (fun p => rmap Some (snd (ModelGp.get_basis g p (cempty, unbuilt)))) (fun p => rmap PSel (snd (ModelGp.get_phi g p (cempty, unbuilt))))
    (fun _ => Ok 0%R) (fun s => exists c b, s = SGp (c, b) /\ gkept b) (fun _ _ => True).
Lemma const_answers {B} (inv : sst -> Prop) (f : params R -> sst -> sst * result B) x : (forall p s, f p s = (s, Ok x)) -> answers dom inv (fun _ _ => True) f (fun _ => Ok x).
Proof. intros H p s y dp hi [= <-]; exists s; rewrite H; auto. Qed.
Lemma gp_sound comb : sound dom (gp_sg g comb) gp_beh.
Proof.
  constructor; cbn [gp_sg gp_beh s_ndiag s_delay s_basis s_phi s_prior s_type s_wp s_bp s_dp b_ndiag b_delay b_basis b_phi b_prior b_inv b_at].
  - now apply const_answers.
  - now apply const_answers.
  - intros p s x dp (c & b & -> & hk) e; apply rmap_inv in e as (y & e & <-); unfold ModelGp.get_basis in e.
    destruct (construct g p (cempty, unbuilt)) as [s0 [u|er]] eqn:E; [|discriminate]; cbn [snd rbind] in e; apply gp_fresh in E.
    destruct (gp_construct p (snd s0) b hk dp E) as (s' & ec & hk' & es); exists (SGp (c, s')); unfold ModelGp.get_basis; rewrite ec; cbn [rbind]; rewrite es, e.
    split; [reflexivity|]; split; [now exists c, s'|exact I].
  - intros p s x dp (c & b & -> & hk) e; apply rmap_inv in e as (y & e & <-); unfold ModelGp.get_phi in e.
    destruct (construct g p (cempty, unbuilt)) as [s0 [u|er]] eqn:E; [|discriminate]; cbn [snd rbind] in e; apply gp_fresh in E.
    destruct (gp_construct p (snd s0) b hk dp E) as (s' & ec & hk' & es); exists (SGp (c, s')); unfold ModelGp.get_phi; rewrite ec; cbn [rbind]; rewrite es, e.
    split; [reflexivity|]; split; [now exists c, s'|exact I].
  - now apply const_answers.
  - reflexivity.
  - reflexivity.
  - intros p p' dp dp' h; f_equal; unfold ModelGp.get_basis, construct, cache_call.
    rewrite (build_dep p p' unbuilt dp dp' h).
    replace (cache_key R (basis_params g) p') with (cache_key R (basis_params g) p); [reflexivity|].
    clear - h; unfold agree in h; induction (basis_params g) as [|n l IH]; [reflexivity|]; cbn [cache_key].
    rewrite <- (h n (or_introl eq_refl)), IH by (intros; apply h; now right); reflexivity.
Qed.

(** ** With sampled coefficients *)
Variable b0 : bstate.
Hypothesis kb0 : gkept b0.
Hypothesis coefs_named : forall k cf, dget string_dec (g_coefs g) k = Some cf -> In (cf_name cf) (delay_params g).
Notation dnames := (basis_params g ++ delay_params g).
Definition body0 (p : params R) : result (list R) := snd (delay_body g p b0).
Lemma fill_ext' p p' : agree (delay_params g) p p' -> forall sl c, fill_coefs g p sl c = fill_coefs g p' sl c.
Proof.
  intros h; induction sl as [|[k [a b]] sl IH]; intros c; [reflexivity|]; cbn [fill_coefs]; unfold dgetE; destruct (dget string_dec (g_coefs g) k) as [cf|] eqn:E; [|reflexivity]; cbn [rbind].
  rewrite <- (h _ (coefs_named k cf E)); destruct (dget string_dec p (cf_name cf)) as [[x|l|l]|]; try reflexivity; destruct (Nat.eqb _ _); [apply IH|reflexivity].
Qed.
Lemma key_ext names (p p' : params R) : agree names p p' -> cache_key R names p = cache_key R names p'.
Proof.
  intros h; unfold agree in h; induction names as [|n l IH]; [reflexivity|]; cbn [cache_key].
  rewrite <- (h n (or_introl eq_refl)), IH by (intros; apply h; now right); reflexivity.
Qed.
Lemma construct_ext p p' s : dom p -> dom p' -> agree (basis_params g) p p' -> construct g p s = construct g p' s.
Proof. intros dp dp' h; destruct s as [c b]; unfold construct, cache_call; now rewrite (build_dep p p' b dp dp' h), (key_ext _ p p' h). Qed.
Lemma body_dep p p' : dom p -> dom p' -> agree dnames p p' -> body0 p = body0 p'.
Proof.
  intros dp dp' h; assert (h1 : agree (basis_params g) p p') by (intros x i; apply h, in_or_app; now left); assert (h2 : agree (delay_params g) p p') by (intros x i; apply h, in_or_app; now right).
  unfold body0, delay_body; rewrite (construct_ext p p' _ dp dp' h1); destruct (construct g p' b0) as [s' r]; cbn [snd].
  destruct r as [u|e]; [|reflexivity]; cbn [rbind]; destruct (attribute (ModelGp.b_basis (snd s'))) as [nB|e]; [|reflexivity]; cbn [rbind]; destruct (attribute (b_slices (snd s'))) as [sl|e]; [|reflexivity]; cbn [rbind].
  now rewrite (fill_ext' p p' h2).
Qed.
Lemma body_ok p x b : gkept b -> dom p -> body0 p = Ok x -> exists b', delay_body g p b = (b', Ok x) /\ gkept b'.
Proof.
  intros hk dp e; unfold body0, delay_body in e; destruct (construct g p b0) as [s0 [u|er]] eqn:E; [|discriminate]; cbn [snd rbind] in e; apply (gp_rev p b0 s0 u kb0 dp) in E.
  destruct (gp_construct p (snd s0) b hk dp E) as (s' & ec & hk' & es); exists s'; unfold delay_body; rewrite ec; cbn [rbind]; rewrite es, e; now split.
Qed.
Lemma cache_fresh {S B} names limit (func : params R -> S -> S * result B) p s x : 1 <= limit ->
  snd (cache_call Req_EM_T names limit func p (cempty, s)) = Ok x -> snd (func p s) = Ok x.
Proof.
  intros l1; unfold cache_call; destruct (cache_key R names p) as [k|] eqn:ek; [|discriminate]; cbn [cmap clist dmem dget cempty].
  destruct (func p s) as [b [y|e]] eqn:E; [|discriminate]; unfold cevict; cbn [clist cmap dset].
  destruct (Nat.ltb_spec limit (length ([] ++ [k]))) as [lt|ge]; [cbn in lt; lia|]; cbn [cmap]; unfold dgetE; cbn [dget]; destruct (key_eq_dec Req_EM_T k k); [cbn; auto|congruence].
Qed.
Definition sampled_beh : pbeh :=
  Beh (fun _ => Ok None) (fun p => rmap (fun d => Some (DArr d)) (snd (ModelGp.get_delay g p (cempty, b0))))
    (fun _ => Ok None) (fun _ => Ok PNone)
    (fun _ => Ok 0%R) (fun s => exists c b, s = SGp (c, b) /\ gkept b /\ good dom dnames 2 body0 c) (fun _ _ => True).
Lemma sampled_answers : answers dom (b_inv sampled_beh) (fun _ _ => True) (s_delay (sampled_sg g true)) (b_delay sampled_beh).
Proof.
  intros p s x dp (c & b & -> & hk & w & hg) e; apply rmap_inv in e as (y & e & <-); apply (cache_fresh dnames 2 (delay_body g)) in e; [|lia]; fold (body0 p) in e.
  destruct (cache_key_total dnames p (dom_flat p dp)) as [k ek]; destruct (body_ok p y b hk dp e) as (b' & eb & hk'); cbn [s_delay sampled_sg]; unfold ModelGp.get_delay.
  destruct (cache_ok dnames 2 (delay_body g) c b p k y b' w (le_S _ _ (le_n 1)) ek eb) as [(v & i & e')|(c' & e' & w' & h1 & _)]; rewrite e'.
  - destruct (hg _ _ i) as (p0 & d0 & e0 & ey); replace v with y; [exists (SGp (c, b)); split; [reflexivity|]; split; [now exists c, b|exact I]|].
    rewrite (body_dep p0 p d0 dp) in ey; [congruence|]; intros n i'; now apply (cache_key_inj dnames p0 p k).
  - exists (SGp (c', b')); split; [reflexivity|]; split; [|exact I]; exists c', b'; split; [reflexivity|]; split; [exact hk'|]; split; [exact w'|]; intros k' v' i; destruct (h1 _ _ i) as [i'|[-> ->]]; [now apply hg|now exists p].
Qed.
(** The collection keys on the coefficients alone. *)
Hypothesis fixed : basis_params g = [].
Lemma sampled_sound comb : sound dom (sampled_sg g comb) sampled_beh.
Proof.
  constructor; cbn [sampled_sg sampled_beh s_ndiag s_delay s_basis s_phi s_prior s_type s_wp s_bp s_dp b_ndiag b_delay b_basis b_phi b_prior b_inv b_at].
  - now apply const_answers.
  - exact sampled_answers.
  - now apply const_answers.
  - now apply const_answers.
  - now apply const_answers.
  - reflexivity.
  - intros p p' dp dp' h; f_equal; assert (h' : agree dnames p p') by (rewrite fixed; exact h).
    unfold ModelGp.get_delay, cache_call; rewrite (key_ext _ p p' h').
    pose proof (body_dep p p' dp dp' h') as eb; unfold body0 in eb; unfold delay_body in *; rewrite (construct_ext p p' _ dp dp') in *; [|intros x i; apply h', in_or_app; now left..].
    destruct (construct g p' b0) as [s' r]; cbn [snd] in eb; now rewrite eb.
  - reflexivity.
Qed.
End Gp.

(** * Common processes *)
Section Common.
Variables (basisfn : fcl) (c : cgp) (pr orf : fob) (nm : string) (psr : gv) (pos : gv) (cls : nat).
Hypothesis nf : no_functions basisfn.
Hypothesis cb : c_basis c = inst basisfn nm (Some psr).
Hypothesis spared : forall p, dom p -> spares p (c_basis c).
Lemma c_indep p s s' b : c_build c p s = (b, Ok tt) -> c_build c p s' = (b, Ok tt).
Proof. unfold c_build; destruct (rbind _ unpack); [auto|discriminate]. Qed.
Lemma c_dep p p' s : dom p -> dom p' -> agree (c_basis_params c) p p' -> c_build c p s = c_build c p' s.
Proof.
  intros dp dp' h; unfold c_build; replace (gcall (c_basis c) [] [] p') with (gcall (c_basis c) [] [] p); [reflexivity|]; rewrite cb; apply gcall_ext; [exact nf|]; rewrite <- cb; intros q iq.
  unfold value_of; replace (dget string_dec p' (par_name q)) with (dget string_dec p (par_name q)); [reflexivity|].
  destruct (is_cst q) eqn:ec; [now rewrite (spared p dp q iq ec), (spared p' dp' q iq ec)|]; apply h; unfold c_basis_params; apply in_map_iff; exists q; split; [reflexivity|].
  unfold fo_pars; unfold pars_of, dvals in iq; apply in_map_iff in iq as (ka & e0 & i); apply in_flat_map; exists ka; split; [exact i|]; rewrite e0, ec.
  destruct q as [x q0|x v]; [|discriminate]; cbn [par_pars]; destruct q0; now left.
Qed.
Notation ckept := (kept (option (gv * gv)) (c_basis_params c) (c_build c) None).
Definition c_inv' (s : sst) : Prop := exists s0, s = SCom pos s0 /\ ckept s0.
Definition c_at (p : params R) (s : sst) : Prop := exists s0, s = SCom pos s0 /\ c_build c p None = (snd s0, Ok tt).
Lemma c_construct' p b s : ckept s -> dom p -> c_build c p None = (b, Ok tt) -> exists s', c_construct c p s = (s', Ok tt) /\ ckept s' /\ snd s' = b.
Proof. apply once_ok; [exact c_indep|exact c_dep]. Qed.
Definition common_beh (comb : bool) : pbeh :=
  let m := common_sg c pr orf cls comb in let s := SCom pos (cempty, None) in
  Beh (fun p => snd (s_ndiag m p s)) (fun p => snd (s_delay m p s)) (fun p => snd (s_basis m p s)) (fun p => snd (s_phi m p s)) (fun p => snd (s_prior m p s)) c_inv' c_at.
Lemma common_sound comb : sound dom (common_sg c pr orf cls comb) (common_beh comb).
Proof.
  constructor; unfold common_beh; cbn [common_sg s_ndiag s_delay s_basis s_phi s_prior s_type s_wp s_bp s_dp b_ndiag b_delay b_basis b_phi b_prior b_inv b_at].
  - now apply const_answers.
  - now apply const_answers.
  - intros p s x dp (s0 & -> & hk) e; destruct (c_construct c p (cempty, None)) as [s1 [u|er]] eqn:E; [|discriminate]; cbn [snd rbind] in e; apply (once_fresh _ (c_basis_params c) (c_build c) None) in E.
    destruct (c_construct' p (snd s1) s0 hk dp E) as (s' & ec & hk' & es); exists (SCom pos s'); rewrite ec; cbn [rbind]; rewrite es, e.
    split; [reflexivity|]; split; [now exists s'|exact I].
  - intros p s x dp (s0 & -> & hk) e; destruct (c_construct c p (cempty, None)) as [s1 [u|er]] eqn:E; [|discriminate]; cbn [snd rbind] in e; apply (once_fresh _ (c_basis_params c) (c_build c) None) in E.
    destruct (c_construct' p (snd s1) s0 hk dp E) as (s' & ec & hk' & es); exists (SCom pos s'); rewrite ec; cbn [rbind]; rewrite es, e.
    split; [reflexivity|]; split; [now exists s'|]; exists s'; split; [reflexivity|now rewrite es].
  - now apply const_answers.
  - reflexivity.
  - reflexivity.
  - intros p p' dp dp' h; unfold c_construct, cache_call; now rewrite (key_ext _ p p' h), (c_dep p p' None dp dp' h).
Qed.
End Common.

(** * White noise and deterministic signals *)
Definition arr_beh (m : psig) (names : list string) (body : params R -> result (list R)) : pbeh :=
  let s := SArr cempty in
  Beh (fun p => snd (s_ndiag m p s)) (fun p => snd (s_delay m p s)) (fun p => snd (s_basis m p s)) (fun p => snd (s_phi m p s)) (fun p => snd (s_prior m p s))
    (fun s => keep s names 2 body dom) (fun _ _ => True).
Lemma arr_fresh {B} (wrap : list R -> B) names body p x : snd (cached_array wrap names body p (SArr cempty)) = Ok x -> rmap (fun y => Some (wrap y)) (body p) = Ok x.
Proof.
  cbn [cached_array]; pose proof (fun y => cache_fresh names 2 (fun p (u : unit) => (u, body p)) p tt y (le_S _ _ (le_n 1))) as H.
  destruct (cache_call _ _ _ _ _ _) as [[c u] [y|e]]; [|discriminate]; cbn [snd rmap] in *; now rewrite (H y eq_refl).
Qed.
Lemma arr_answers {B} (wrap : list R -> B) names body : (forall p p', dom p -> dom p' -> agree names p p' -> body p = body p') ->
  answers dom (fun s => keep s names 2 body dom) (fun _ _ => True) (cached_array wrap names body) (fun p => snd (cached_array wrap names body p (SArr cempty))).
Proof. intros dep p s x dp hi e; apply (array_answers wrap names body dep p s x dp hi); now apply (arr_fresh wrap names body). Qed.
Lemma arr_dep {B} (wrap : list R -> B) names body : (forall p p', dom p -> dom p' -> agree names p p' -> body p = body p') ->
  forall p p', dom p -> dom p' -> agree names p p' -> snd (cached_array wrap names body p (SArr cempty)) = snd (cached_array wrap names body p' (SArr cempty)).
Proof. intros dep p p' dp dp' h; cbn [cached_array]; unfold cache_call; now rewrite (key_ext _ p p' h), (dep p p' dp dp' h). Qed.
Lemma white_sound fn name psrname psr masks f : NoDup (dkeys masks) -> no_functions fn -> new_fsel fn name psrname psr masks = Ok f -> (forall p, dom p -> fsel_spared f p) ->
  sound dom (white_sg f) (arr_beh (white_sg f) (f_names f) (white_body f)).
Proof.
  intros nd nf ef sp; pose proof (white_dep fn name psrname psr masks f nd nf ef sp) as dep.
  constructor; unfold arr_beh; cbn [white_sg s_ndiag s_delay s_basis s_phi s_prior s_type s_wp s_bp s_dp b_ndiag b_delay b_basis b_phi b_prior b_inv b_at]; try reflexivity; try (now apply const_answers).
  - now apply arr_answers.
  - now apply arr_dep.
Qed.
Lemma det_sound fn name psrname psr masks f n : NoDup (dkeys masks) -> no_functions fn -> new_fsel fn name psrname psr masks = Ok f -> (forall p, dom p -> fsel_spared f p) ->
  sound dom (det_sg f n) (arr_beh (det_sg f n) (f_names f) (det_body f n)).
Proof.
  intros nd nf ef sp; pose proof (det_dep fn name psrname psr masks f nd nf ef sp n) as dep.
  constructor; unfold arr_beh; cbn [det_sg s_ndiag s_delay s_basis s_phi s_prior s_type s_wp s_bp s_dp b_ndiag b_delay b_basis b_phi b_prior b_inv b_at]; try reflexivity; try (now apply const_answers).
  - now apply arr_answers.
  - now apply arr_dep.
Qed.

(** * All of them *)
Variable fns : nat -> fob * fob.
Hypothesis dom_nil : dom [].
Definition inv_of (d : desc) : sst -> Prop :=
  match d with
  | DWhite f => fun s => keep s (f_names f) 2 (white_body f) dom
  | DDet f n => fun s => keep s (f_names f) 2 (det_body f n) dom
  | DGp g _ => fun s => exists c b, s = SGp (c, b) /\ kept built (ModelGp.basis_params g) (build g) unbuilt b
  | DSampled g s0 _ => fun s => exists c b, s = SGp (c, b) /\ kept built (ModelGp.basis_params g) (build g) unbuilt b /\
      good dom (ModelGp.basis_params g ++ ModelGp.delay_params g) 2 (fun p => snd (delay_body g p (snd s0))) c
  | DCommon c pos _ _ => c_inv' c pos
  end.
Definition at_of (d : desc) : params R -> sst -> Prop := match d with DCommon c pos _ _ => c_at c pos | _ => fun _ _ => True end.
Definition beh_of (d : desc) : pbeh :=
  let b := alone fns d in Beh (b_ndiag b) (b_delay b) (b_basis b) (b_phi b) (b_prior b) (inv_of d) (at_of d).
Lemma eval_coefs g cs p : forall kms l a, eval_bases (GP (g_name g) (g_keys g) (g_masks g) (g_prior g) (g_bases g) (g_params g) cs) p kms l a = eval_bases g p kms l a.
Proof. induction kms as [|[k m] kms IH]; intros l a; [reflexivity|]; cbn [eval_bases g_bases]; destruct (rbind _ _) as [[F lab]|e]; [apply IH|reflexivity]. Qed.
Lemma build_coefs g cs p s : build (GP (g_name g) (g_keys g) (g_masks g) (g_prior g) (g_bases g) (g_params g) cs) p s = build g p s.
Proof. unfold build; rewrite eval_coefs; reflexivity. Qed.
Lemma sampled_start priorfn basisfn name psrname psr masks g s : NoDup (dkeys masks) -> no_functions basisfn -> new_gp priorfn basisfn true name psrname psr masks = Ok (g, s) ->
  (forall p, dom p -> gp_spared g p) ->
  g_keys g = sorted_keys masks /\ g_bases g = map (fun k => (k, selected name psrname psr basisfn k)) (g_keys g) /\
  (forall k cf, dget string_dec (g_coefs g) k = Some cf -> In (cf_name cf) (ModelGp.delay_params g)) /\
  exists b, s = (cempty, b) /\ kept built (ModelGp.basis_params g) (build g) unbuilt b.
Proof.
  intros nd nf e sp; unfold new_gp in e; apply rbind_inv in e as (g0 & e0 & e); cbv iota in e.
  destruct (gp_coefficients name psrname g0) as [s1 r] eqn:E; apply rmap_inv in e as (g1 & er & [= <- <-]); subst r.
  destruct (functions_spec priorfn basisfn name psrname psr masks nd g0 e0) as (gk & gm & gpr & gb & gc & gq).
  unfold gp_coefficients in E; destruct (construct g0 [] (cempty, unbuilt)) as [b r] eqn:Ec; injection E as <- er.
  apply rbind_inv in er as (u & -> & er); apply rbind_inv in er as (sl & esl & er); apply rmap_inv in er as (cs & ecs & <-).
  cbn [g_keys g_bases g_coefs] in *; split; [exact gk|]; split; [exact gb|]; split.
  - intros k cf h; apply dget_In in h; apply filter_In; split.
    + unfold param_names; cbn [g_coefs]; apply in_or_app; right; apply in_map_iff; now exists (k, cf).
    + apply rmapM_ok in ecs; assert (exists n, cf_name cf = append n "_coefficients") as [n ->]; [|apply substring_suffix].
      clear - ecs h; induction ecs as [|a b' l l' hab F IH]; [destruct h|]; destruct h as [->|h]; [|now apply IH].
      apply rbind_inv in hab as (pr & _ & hab); apply rbind_inv in hab as (ba & _ & hab); apply rbind_inv in hab as (slc & _ & hab); apply rmap_inv in hab as (ar & _ & [= _ <-]); cbn [cf_name]; now exists (pname psrname name a).
  - exists b; split; [reflexivity|].
    assert (sp0 : forall p, dom p -> gp_spared g0 p) by (intros p dp; exact (sp p dp)).
    assert (K : kept built (ModelGp.basis_params g0) (build g0) unbuilt b).
    { destruct u; pose proof (gp_fresh g0 [] b tt Ec) as hb.
      destruct (gp_construct basisfn name psrname psr g0 nf gb sp0 [] (snd b) (cempty, unbuilt) (kept_start _ _ _ _ _) dom_nil hb) as (s' & ec & hk & _); rewrite Ec in ec; now injection ec as <-. }
    destruct K as [w K]; split; [exact w|]; intros k v i; destruct (K k v i) as (p & dp & e1 & e2); exists p; split; [exact dp|]; split; [exact e1|]; now rewrite build_coefs.
Qed.
Lemma desc_sound d : made fns d -> (forall p o, dom p -> In o (functions_of d) -> spares p o) -> sound dom (sg_of fns d) (beh_of d) /\ inv_of d (start_of d).
Proof.
  destruct d as [f|f n|g comb|g s comb|c pos cls comb]; cbn [made functions_of sg_of inv_of start_of]; intros m sp.
  - destruct m as (fn & name & psrname & psr & masks & nd & nf & ef); assert (sp' : forall p, dom p -> fsel_spared f p) by (intros p dp k o i; apply (sp p o dp), in_map_iff; now exists (k, o)).
    split; [exact (white_sound fn name psrname psr masks f nd nf ef sp')|]; exists cempty; split; [reflexivity|apply good_empty].
  - destruct m as (fn & name & psrname & psr & masks & nd & nf & ef); assert (sp' : forall p, dom p -> fsel_spared f p) by (intros p dp k o i; apply (sp p o dp), in_map_iff; now exists (k, o)).
    split; [exact (det_sound fn name psrname psr masks f n nd nf ef sp')|]; exists cempty; split; [reflexivity|apply good_empty].
  - destruct m as (priorfn & basisfn & name & psrname & psr & masks & s & nd & nf & e); assert (sp' : forall p, dom p -> gp_spared g p) by (intros p dp k o i; apply (sp p o dp), in_map_iff; now exists (k, o)).
    unfold new_gp in e; apply rbind_inv in e as (g0 & e0 & [= -> _]); destruct (functions_spec priorfn basisfn name psrname psr masks nd g e0) as (gk & gm & gpr & gb & _).
    split; [|exists cempty, (cempty, unbuilt); split; [reflexivity|apply kept_start]].
    destruct (gp_sound basisfn name psrname psr g nf gb sp' comb) as [h1 h2 h3 h4 h5 h6 h7 h8].
    assert (eb : forall p, snd (s_basis (gp_sg g comb) p (SGp (cempty, (cempty, unbuilt)))) = b_basis (gp_beh g) p) by (intros p; cbn; now destruct (ModelGp.get_basis g p (cempty, unbuilt))).
    assert (ep : forall p, snd (s_phi (gp_sg g comb) p (SGp (cempty, (cempty, unbuilt)))) = b_phi (gp_beh g) p) by (intros p; cbn; now destruct (ModelGp.get_phi g p (cempty, unbuilt))).
    constructor; cbn [beh_of alone b_ndiag b_delay b_basis b_phi b_prior b_inv b_at inv_of at_of sg_of start_of].
    + exact h1.
    + exact h2.
    + intros p s0 x dp hi ex; rewrite eb in ex; now apply h3.
    + intros p s0 x dp hi ex; rewrite ep in ex; now apply h4.
    + exact h5.
    + exact h6.
    + exact h7.
    + intros p p' dp dp' h; rewrite !eb; now apply h8.
  - destruct m as (priorfn & basisfn & name & psrname & psr & masks & nd & nf & e & fx); assert (sp' : forall p, dom p -> gp_spared g p) by (intros p dp k o i; apply (sp p o dp), in_map_iff; now exists (k, o)).
    destruct (sampled_start priorfn basisfn name psrname psr masks g s nd nf e sp') as (gk & gb & gc & b & -> & hk).
    split; [|exists cempty, b; split; [reflexivity|]; split; [exact hk|apply good_empty]].
    destruct (sampled_sound basisfn name psrname psr g nf gb sp' b hk gc fx comb) as [h1 h2 h3 h4 h5 h6 h7 h8].
    assert (eb : forall p, snd (s_delay (sampled_sg g comb) p (SGp (cempty, b))) = b_delay (sampled_beh g b) p) by (intros p; cbn [s_delay sampled_sg b_delay sampled_beh]; now destruct (ModelGp.get_delay g p (cempty, b))).
    constructor; cbn [beh_of alone b_ndiag b_delay b_basis b_phi b_prior b_inv b_at inv_of at_of sg_of start_of].
    + exact h1.
    + intros p s0 x dp hi ex; rewrite eb in ex; now apply h2.
    + exact h3.
    + exact h4.
    + exact h5.
    + exact h6.
    + intros p p' dp dp' h; rewrite !eb; now apply h7.
    + exact h8.
  - destruct m as (basisfn & given & name & psrname & psr & nf & ->); split; [|exists (cempty, None); split; [reflexivity|apply kept_start]].
    apply (common_sound basisfn _ _ _ (join_us [psrname; name]) psr pos cls nf); [reflexivity|]; intros p dp; apply (sp p _ dp); now left.
Qed.
End Signals.

(** * Arrays *)
Section Erase.
Variables (I Ph X Y Q L LS : Type) (op : ops sst (list R) dval fmat I sprior Ph gv X Y Q L LS) (vc : nat -> nat * nat -> nat * nat -> params R -> result gv).
Notation pmodel := (ProofColl.model sst (list R) dval fmat sprior).
Definition erase (b : pbeh) : pbeh := Beh (b_ndiag b) (b_delay b) (b_basis b) (b_phi b) (b_prior b) (fun _ => True) (fun _ _ => True).
Definition bare (c : pmodel) : pmodel := (fst c, map erase (snd c)).
Lemma rmapM_map' {A B C} (f : B -> result C) (g : A -> B) l : rmapM f (map g l) = rmapM (fun x => f (g x)) l.
Proof. induction l as [|x l IH]; [reflexivity|]; cbn [map rmapM]; now rewrite IH. Qed.
Lemma rmapM_ext' {A C} (f g : A -> result C) l : (forall x, f x = g x) -> rmapM f l = rmapM g l.
Proof. intros H; induction l as [|x l IH]; [reflexivity|]; cbn [rmapM]; now rewrite H, IH. Qed.
Lemma bare_layout c : v_layout _ _ _ _ _ _ _ _ _ _ _ _ _ op (bare c) = v_layout _ _ _ _ _ _ _ _ _ _ _ _ _ op c.
Proof. unfold v_layout, bare; cbn [fst snd]; now rewrite rmapM_map'. Qed.
Lemma bare_over {A} (f : pbeh -> I -> A -> result A) : (forall b i a, f (erase b) i a = f b i a) -> forall bs is a,
  v_over _ _ _ _ _ _ f (combine (map erase bs) is) a = v_over _ _ _ _ _ _ f (combine bs is) a.
Proof.
  intros H; induction bs as [|b bs IH]; intros [|[i|] is] a; try reflexivity; cbn [map combine v_over]; [|apply IH].
  rewrite H; destruct (f b i a); [apply IH|reflexivity].
Qed.
Lemma bare_ndiag c p : v_ndiag _ _ _ _ _ _ _ _ _ _ _ _ _ op (bare c) p = v_ndiag _ _ _ _ _ _ _ _ _ _ _ _ _ op c p.
Proof. unfold v_ndiag, bare; cbn [snd]; now rewrite rmapM_map'. Qed.
Lemma bare_delay c p : v_delay _ _ _ _ _ _ _ _ _ _ _ _ _ op (bare c) p = v_delay _ _ _ _ _ _ _ _ _ _ _ _ _ op c p.
Proof. unfold v_delay, bare; cbn [snd]; now rewrite rmapM_map'. Qed.
Lemma bare_detres c p : v_detres _ _ _ _ _ _ _ _ _ _ _ _ _ op (bare c) p = v_detres _ _ _ _ _ _ _ _ _ _ _ _ _ op c p.
Proof. unfold v_detres; now rewrite bare_delay. Qed.
Lemma bare_basis c p : v_basis _ _ _ _ _ _ _ _ _ _ _ _ _ op (bare c) p = v_basis _ _ _ _ _ _ _ _ _ _ _ _ _ op c p.
Proof.
  unfold v_basis; rewrite bare_layout; destruct (v_layout _ _ _ _ _ _ _ _ _ _ _ _ _ op c) as [[is [F0|]]|e]; try reflexivity; cbn [rbind snd fst bare].
  f_equal; now apply bare_over.
Qed.
Lemma bare_phi c p : v_phi _ _ _ _ _ _ _ _ _ _ _ _ _ op (bare c) p = v_phi _ _ _ _ _ _ _ _ _ _ _ _ _ op c p.
Proof.
  unfold v_phi; rewrite bare_layout; destruct (v_layout _ _ _ _ _ _ _ _ _ _ _ _ _ op c) as [[is [F0|]]|e]; try reflexivity; cbn [rbind snd fst bare].
  f_equal; now apply bare_over.
Qed.
Lemma bare_TNr c p : v_TNr _ _ _ _ _ _ _ _ _ _ _ _ _ op (bare c) p = v_TNr _ _ _ _ _ _ _ _ _ _ _ _ _ op c p.
Proof. unfold v_TNr; now rewrite bare_basis, bare_ndiag, bare_detres. Qed.
Lemma bare_TNT c p : v_TNT _ _ _ _ _ _ _ _ _ _ _ _ _ op (bare c) p = v_TNT _ _ _ _ _ _ _ _ _ _ _ _ _ op c p.
Proof. unfold v_TNT; now rewrite bare_basis, bare_ndiag. Qed.
Lemma bare_rNr c p : v_rNr _ _ _ _ _ _ _ _ _ _ _ _ _ op (bare c) p = v_rNr _ _ _ _ _ _ _ _ _ _ _ _ _ op c p.
Proof. unfold v_rNr; now rewrite bare_ndiag, bare_detres. Qed.
Lemma bare_prior c p : v_prior _ _ _ _ _ (bare c) p = v_prior _ _ _ _ _ c p.
Proof. unfold v_prior, bare; cbn [snd]; now rewrite rmapM_map'. Qed.
Lemma bare_ask a q : v_ask op vc (map bare a) q = v_ask op vc a q.
Proof.
  destruct q as [method p|i w p|i j w p]; cbn [v_ask].
  - f_equal; unfold v_like, v_phiinv; rewrite !rmapM_map', map_map.
    now rewrite (rmapM_ext' _ _ a (fun c => bare_TNr c p)), (rmapM_ext' _ _ a (fun c => bare_TNT c p)), (rmapM_ext' _ _ a (fun c => bare_phi c p)), (rmapM_ext' _ _ a bare_layout), (rmapM_ext' _ _ a (fun c => bare_rNr c p)), (rmapM_ext' _ _ a (fun c => bare_prior c p)).
  - rewrite nth_error_map; destruct (nth_error a i) as [c|]; [|reflexivity]; cbn [option_map].
    now rewrite bare_ndiag, bare_delay, bare_detres, bare_basis, bare_phi, bare_TNr, bare_TNT, bare_rNr, bare_prior.
  - rewrite nth_error_map; destruct (nth_error a i) as [c|]; [|reflexivity]; cbn [option_map bare snd]; rewrite nth_error_map; destruct (nth_error (snd c) j) as [b|]; reflexivity.
Qed.
End Erase.

Lemma signals_history_lem : forall (I Ph X Y Q L LS : Type) (op : ops sst (list R) dval fmat I sprior Ph gv X Y Q L LS) (fns : nat -> fob * fob) (a : list (list desc * dval)) (l : list ask) rs,
  (forall cls s s' p, phicross op cls s s' p = common_cross fns cls s s' p) ->
  (forall c d, In c a -> In d (fst c) -> made fns d) ->
  Forall2 (fun q r => fair (map fst a) (ask_params q) /\ v_ask op (cross_of fns (map fst a)) (map (fun c => (coll_of fns c, map (alone fns) (fst c))) a) q = Ok r) l rs ->
  run op (map (coll_of fns) a) l (new_pta (map (fun c => map start_of (fst c)) a)) = map Ok rs.
Proof.
  intros I Ph X Y Q L LS op fns a l rs hx hm hl; set (dom := fair (map fst a)).
  set (a' := map (fun c => (coll_of fns c, map (beh_of dom fns) (fst c))) a : list (ProofColl.model sst (list R) dval fmat sprior)).
  assert (df : forall p, dom p -> flat_values p) by (intros p h; exact (proj1 h)).
  assert (dn : dom []) by (split; [intros n x; discriminate|]; intros ds d o _ _ _ q _ _; reflexivity).
  assert (sd : forall c d, In c a -> In d (fst c) -> sound dom (sg_of fns d) (beh_of dom fns d) /\ inv_of dom d (start_of d)).
  { intros c d ic id; apply (desc_sound dom df fns dn d (hm c d ic id)); intros p o [_ h] io; apply (h (fst c) d o); [now apply in_map|exact id|exact io]. }
  assert (fa : map fst a' = map (coll_of fns) a) by (unfold a'; rewrite map_map; reflexivity).
  assert (ba : map (bare) a' = map (fun c => (coll_of fns c, map (alone fns) (fst c))) a).
  { unfold a'; rewrite map_map; apply map_ext; intros c; unfold bare; cbn [fst snd]; f_equal; rewrite map_map; apply map_ext; intros d; reflexivity. }
  rewrite <- fa; apply (array_history_lem _ _ _ _ _ _ _ _ _ _ _ _ _ op dom (cross_of fns (map fst a)) df dn a').
  - unfold a'; apply Forall_forall; intros c ic; apply in_map_iff in ic as (c0 & <- & ic); unfold sound_coll; cbn [fst snd coll_of c_sigs].
    pose proof (fun d => sd c0 d ic) as h; clear - h; induction (fst c0) as [|d ds IH]; constructor; [apply h; now left|apply IH; intros; apply h; now right].
  - assert (at_spec : forall ij m b, beh_at a' ij = Some (m, b) -> exists ds d, nth_error (map fst a) (fst ij) = Some ds /\ nth_error ds (snd ij) = Some d /\ m = sg_of fns d /\ b = beh_of dom fns d).
    { intros [i j] m b; unfold beh_at, a'; cbn [fst snd]; rewrite !nth_error_map; destruct (nth_error a i) as [c|]; [|discriminate]; cbn [option_map fst snd coll_of c_sigs]; rewrite !nth_error_map.
      destruct (nth_error (fst c) j) as [d|] eqn:E; [|discriminate]; intros [= <- <-]; exists (fst c), d; auto. }
    split.
    + intros ij m b k x h hk hb; destruct (at_spec ij m b h) as (ds & d & _ & _ & -> & ->); destruct d as [f|f n|g comb|g s comb|c pos cls comb]; try discriminate.
      cbn [beh_of alone b_basis sg_of common_sg s_basis start_of] in hb; destruct (c_construct c [] (cempty, None)) as [s' r]; cbn [snd] in hb.
      apply rbind_inv in hb as (u & _ & hb); apply rbind_inv in hb as (y & _ & hb); apply rmap_inv in hb as (z & _ & <-); discriminate.
    + intros ij ij' m m' b b' k p s s' x h h' hk hk' hb hb' hv; rewrite hx.
      destruct (at_spec ij m b h) as (ds & d & e1 & e2 & -> & ->); destruct (at_spec ij' m' b' h') as (ds' & d' & e1' & e2' & -> & ->).
      destruct d as [f|f n|g comb|g s1 comb|c pos cls comb]; try discriminate; destruct d' as [f|f n|g comb0|g s1 comb0|c' pos' cls' comb']; try discriminate.
      injection hk as <-; unfold cross_of in hv; rewrite e1, e2, e1', e2' in hv; cbn in hb, hb'; destruct hb as (s0 & -> & hb), hb' as (s0' & -> & _); cbn [common_cross].
      unfold c_build in hb; destruct (gcall (c_basis c) [] [] p) as [v|e]; [|discriminate]; cbn [rbind] in hb, hv; destruct v as [v|nc rows|F labels|mk|at_|]; try discriminate.
      cbn [unpack] in hb; injection hb as hb; rewrite <- hb; cbn [attribute rbind snd]; exact hv.
  - unfold a'; assert (h : forall c, In c a -> Forall2 (fun b s => b_inv b s) (map (beh_of dom fns) (fst c)) (map start_of (fst c))).
    { intros c ic; pose proof (fun d => sd c d ic) as h; clear - h; induction (fst c) as [|d ds IH]; constructor; [apply (h d); now left|apply IH; intros; apply h; now right]. }
    clearbody dom; clear - h; induction a as [|c a IH]; cbn [map]; [apply Forall2_nil|apply Forall2_cons; [apply h; now left|apply IH; intros; apply h; now right]].
  - clear - hl ba; induction hl as [|q r l rs [h1 h2] hl IH]; constructor; [|exact IH]; split; [exact h1|]; rewrite <- ba in h2; now rewrite bare_ask in h2.
Qed.
