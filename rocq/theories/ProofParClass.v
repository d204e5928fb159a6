(** Proofs about parameter classes. *)
From Coq Require Import Reals String Bool Arith List Lra Lia.
From Verif Require Import PyBase ProofBase ModelFunc ProofFunc ModelParClass.
Import ListNotations.
Open Scope string_scope.
Open Scope list_scope.

(** ** The density and its logarithm *)
(** What the function of the density returns for the value and keywords: finite
    densities, zero included, or their logarithms. *)
Definition density (x : xr) : Prop := exists r, x = Fin r /\ (0 <= r)%R.
Definition log_density (x : xr) : Prop := x <> NaN.
Definition each (P : xr -> Prop) (v : pv) : Prop :=
  match v with PNum x => P x | PArr l => Forall P l | _ => False end.
Definition proper (p : param) (value : pv) (kw : dict string pv) (params : option (dict string pv)) : Prop :=
  forall v d, the_value p value params = Ok v ->
  match pm_dist p with
  | inl prior => fcall prior [v] kw params None = Ok d -> each density d
  | inr logprior => fcall logprior [v] kw params None = Ok d -> each log_density d
  end.

Lemma xlog_exp x : log_density x -> xlog (xexp x) = x.
Proof.
  destruct x as [r| |]; intros h; cbn [xexp xlog]; [| |now elim h].
  - destruct (Rlt_dec 0 (exp r)) as [h1|n]; [now rewrite ln_exp|elim n; apply exp_pos].
  - destruct (Rlt_dec 0 0) as [l|_]; [lra|]; destruct (Req_EM_T 0 0); [reflexivity|lra].
Qed.
Lemma xexp_log x : density x -> xexp (xlog x) = x.
Proof.
  intros [r [-> h]]; cbn [xlog]; destruct (Rlt_dec 0 r) as [l|n]; cbn [xexp]; [now rewrite exp_ln|].
  destruct (Req_EM_T r 0) as [->|ne]; [reflexivity|lra].
Qed.
Lemma log_is x : density x -> log_density (xlog x).
Proof. intros [r [-> h]]; cbn [xlog]; destruct (Rlt_dec 0 r), (Req_EM_T r 0); try discriminate; lra. Qed.
Lemma exp_is x : log_density x -> density (xexp x).
Proof.
  destruct x as [r| |]; intros h; [exists (exp r)|exists 0%R|now elim h]; (split; [reflexivity|]); [apply Rlt_le, exp_pos|lra].
Qed.
Lemma xlog_mul x y : density x -> density y -> xlog (xmul x y) = xadd (xlog x) (xlog y).
Proof.
  intros [r [-> hr]] [s [-> hs]]; cbn [xmul xlog].
  destruct (Rlt_dec 0 r) as [l|n]; destruct (Rlt_dec 0 s) as [l'|n'].
  - destruct (Rlt_dec 0 (r * s)) as [h|h]; [cbn [xadd]; now rewrite ln_mult|elim h; now apply Rmult_lt_0_compat].
  - replace s with 0%R by lra; rewrite Rmult_0_r; destruct (Rlt_dec 0 0); [lra|]; destruct (Req_EM_T 0 0); [reflexivity|lra].
  - replace r with 0%R by lra; rewrite Rmult_0_l; destruct (Rlt_dec 0 0); [lra|]; destruct (Req_EM_T 0 0); [reflexivity|lra].
  - replace r with 0%R by lra; replace s with 0%R by lra; rewrite Rmult_0_l; destruct (Rlt_dec 0 0); [lra|]; destruct (Req_EM_T 0 0); [reflexivity|lra].
Qed.
Lemma mul_is x y : density x -> density y -> density (xmul x y).
Proof. intros [r [-> hr]] [s [-> hs]]; exists (r * s)%R; split; [reflexivity|now apply Rmult_le_pos]. Qed.
Lemma one_is : density (Fin 1).
Proof. exists 1%R; split; [reflexivity|lra]. Qed.
Lemma prod_is l : Forall density l -> density (fold_right xmul (Fin 1) l).
Proof. induction 1; [apply one_is|now apply mul_is]. Qed.
Lemma log_prod l : Forall density l -> xlog (fold_right xmul (Fin 1) l) = fold_right xadd (Fin 0) (map xlog l).
Proof.
  induction 1 as [|x l hx hl IH]; cbn [fold_right map].
  - cbn [xlog]; destruct (Rlt_dec 0 1); [now rewrite ln_1|lra].
  - rewrite xlog_mul by (try exact hx; now apply prod_is); now rewrite IH.
Qed.
Lemma map_log_exp l : Forall log_density l -> map xlog (map xexp l) = l.
Proof. induction 1; cbn [map]; [reflexivity|]; rewrite xlog_exp by assumption; now f_equal. Qed.
Lemma map_exp_is l : Forall log_density l -> Forall density (map xexp l).
Proof. induction 1; constructor; [now apply exp_is|assumption]. Qed.

Definition logs (d l : result pv) : Prop :=
  match d, l with Ok d, Ok l => np_log d = Ok l /\ np_exp l = Ok d | Err e, Err e' => e = e' | _, _ => False end.
Lemma pdf_logpdf_lem : forall p value kw params, proper p value kw params -> logs (get_pdf p value kw params) (get_logpdf p value kw params).
Proof.
  intros p value kw params pr; unfold get_pdf, get_logpdf, proper in *.
  destruct (the_value p value params) as [v|e]; [|reflexivity]; cbn [rbind].
  assert (pr' := fun d => pr v d eq_refl); clear pr.
  destruct (pm_dist p) as [f|f].
  - destruct (fcall f [v] kw params None) as [d|e]; [|reflexivity].
    assert (pr := pr' d eq_refl); clear pr'; destruct d as [|x|l|n]; try contradiction; cbn [each] in pr; cbn [rbind np_log elementwise];
      destruct (pm_size p) as [s|]; cbn [np_sum np_prod reduce logs np_log np_exp elementwise]; rewrite ?xexp_log, ?map_map by assumption; try (now split).
    + rewrite log_prod by assumption; split; [reflexivity|].
      rewrite <- log_prod by assumption; rewrite xexp_log; [reflexivity|now apply prod_is].
    + split; [reflexivity|]; do 2 f_equal; transitivity (map (fun x => x) l); [|apply map_id].
      apply map_ext_in; intros x i; apply xexp_log; rewrite Forall_forall in pr; now apply pr.
  - destruct (fcall f [v] kw params None) as [d|e]; [|reflexivity].
    assert (pr := pr' d eq_refl); clear pr'; destruct d as [|x|l|n]; try contradiction; cbn [each] in pr; cbn [rbind np_exp elementwise];
      destruct (pm_size p) as [s|]; cbn [np_sum np_prod reduce logs np_log np_exp elementwise]; rewrite ?xlog_exp by assumption; try (now split).
    + assert (e : xlog (fold_right xmul (Fin 1) (map xexp l)) = fold_right xadd (Fin 0) l).
      { rewrite log_prod by (now apply map_exp_is); now rewrite map_log_exp. }
      split; [now rewrite e|]; rewrite <- e, xexp_log; [reflexivity|now apply prod_is, map_exp_is].
    + rewrite map_log_exp by assumption; now split.
Qed.

(** ** The value from [params] *)
Lemma value_lookup_lem : forall p kw params,
  match dget string_dec params (pm_name p) with
  | Some v => v <> PNone ->
      get_logpdf p PNone kw (Some params) = get_logpdf p v kw (Some params) /\
      get_pdf p PNone kw (Some params) = get_pdf p v kw (Some params) /\
      get_ppf p PNone kw (Some params) = get_ppf p v kw (Some params)
  | None =>
      get_logpdf p PNone kw (Some params) = Err KeyError /\ get_pdf p PNone kw (Some params) = Err KeyError /\
      (pm_ppf p <> None -> get_ppf p PNone kw (Some params) = Err KeyError)
  end.
Proof.
  intros p kw params; unfold get_logpdf, get_pdf, get_ppf, the_value, dgetE.
  destruct (dget string_dec params (pm_name p)) as [v|].
  - intros ne; destruct v; [now elim ne|..]; repeat split; reflexivity.
  - split; [reflexivity|split; [reflexivity|]]; intros ne; destruct (pm_ppf p); [reflexivity|now elim ne].
Qed.

(** ** Classes *)
Lemma user_parameter_lem : forall prior logprior sampler ppf size name,
  let r := new_param (UserParameter prior logprior sampler ppf size) name in
  (prior = None -> logprior = None -> r = Err AttributeError) /\
  (forall f, prior = Some f -> exists p, r = Ok p /\ pm_name p = name /\ pm_size p = size /\ pm_dist p = inl (inst f name None)) /\
  (forall f, prior = None -> logprior = Some f -> exists p, r = Ok p /\ pm_name p = name /\ pm_size p = size /\ pm_dist p = inr (inst f name None)) /\
  (forall p, r = Ok p ->
    (ppf = None -> forall v kw params, get_ppf p v kw params = Err NotImplementedError) /\
    (sampler = None -> forall kw params, sample_par p kw params = Err AttributeError) /\
    (forall q v kw params, ppf = Some q -> v <> PNone -> get_ppf p v kw params = fcall (inst q name None) [v] kw params None)).
Proof.
  intros prior logprior sampler ppf size name r; repeat apply conj.
  - intros -> ->; reflexivity.
  - intros f ->; eexists; repeat split.
  - intros f -> ->; eexists; repeat split.
  - intros p e; assert (h : pm_ppf p = option_map (fun q => inst q name None) ppf /\ pm_sampler p = sampler).
    { unfold r, UserParameter in e; destruct prior, logprior; cbn in e; inversion e; now split. }
    destruct h as [h1 h2]; repeat split.
    + intros -> v kw params; unfold get_ppf; now rewrite h1.
    + intros -> kw params; unfold sample_par; now rewrite h2.
    + intros q v kw params -> ne; unfold get_ppf; rewrite h1; cbn [option_map]; destruct v; [now elim ne|..]; reflexivity.
Qed.
Lemma gp_coefficients_lem : forall logprior size name p, new_param (GPCoefficients logprior size) name = Ok p ->
  (forall kw params, sample_par p kw params = Err AttributeError) /\
  (forall v kw params, get_ppf p v kw params = Err NotImplementedError) /\
  pm_name p = name /\ pm_size p = size /\ pm_dist p = inr (inst logprior name None).
Proof. intros logprior size name p e; inversion e; repeat split. Qed.

(** ** Samplers *)
(** What the class of a parameter says the keywords of its density are. *)
Definition simple (a : arg pv) : Prop := match a with AFunC _ | AFun _ => False | _ => True end.
Definition keyword (name k : string) (a : arg pv) (params : dict string pv) : option pv :=
  match a with
  | AVal v => Some v
  | ACstC v => match dget string_dec params (us_name [name; k]) with Some u => Some u | None => Some (v (us_name [name; k])) end
  | AParC _ => dget string_dec params (us_name [name; k])
  | AInst q => match dget string_dec params (par_name q) with Some u => Some u | None => par_value q end
  | _ => None
  end.

Lemma bind_missing {V} names : forall dfl (kw : dict string V) k, NoDup names -> length dfl = length names ->
  In (k, None) (combine names dfl) -> dget string_dec kw k = None -> exists e, bind names dfl [] kw = Err e.
Proof.
  induction names as [|x names IH]; intros [|d dfl] kw k nd len i hk; cbn in i, len; try contradiction; try discriminate.
  cbn [bind]; destruct i as [e|i].
  - injection e as -> ->; rewrite hk; now exists TypeError.
  - inversion nd; subst; destruct (IH dfl kw k) as [e he]; try assumption; [now injection len|].
    rewrite he; destruct (dget string_dec kw x); [now exists e|]; destruct d; [now exists e|now exists TypeError].
Qed.

Lemma sampler_size_lem : forall p g kw params, pm_sampler p = Some g -> ~ In "size" (pf_args g) ->
  (forall v, sample_par p kw params <> Ok v).
Proof.
  intros p g kw params hs ni v; unfold sample_par; rewrite hs.
  destruct (dmem string_dec kw (pm_name p)); [discriminate|]; destruct (dmem string_dec kw "size") eqn:ek; [discriminate|].
  set (o := match pm_dist p with inl prior => prior | inr logprior => logprior end); clearbody o.
  set (d := match params with Some d => d | None => [] end).
  unfold fcall; fold d; destruct o as [n f psr kws ps defs fns]; cbn [call].
  set (nested := map _ fns); clearbody nested.
  assert (K : forall l r kw1, fold_left (fill_kw d ps defs nested) l r = Ok kw1 ->
    exists kw0, r = Ok kw0 /\ forall x, In x (dkeys kw0) -> In x (dkeys kw1)).
  { induction l as [|x l IH]; intros r kw1 h; cbn [fold_left] in h; [exists kw1; now split|].
    destruct (IH _ _ h) as [kw0 [e0 h0]]; destruct r as [kw'|e]; [|discriminate].
    exists kw'; split; [reflexivity|]; intros y iy; apply h0; unfold fill_kw in e0; cbn [rbind] in e0.
    destruct (dmem string_dec kw' x); [now inversion e0; subst|].
    assert (A : forall z, In y (dkeys (dset string_dec kw' x z))) by (intros z; apply dset_keys_in; now right).
    destruct (dget string_dec ps x) as [q|]; [destruct (dget string_dec d (par_name q)) as [u|]; [inversion e0; apply A|];
      destruct (par_value q); inversion e0; subst; [apply A|assumption]|].
    destruct (dget string_dec defs x); [inversion e0; apply A|].
    destruct (dget string_dec nested x) as [[fk ev]|]; [|now inversion e0; subst].
    destruct (ev _); [|discriminate]; inversion e0; apply A. }
  destruct (fold_left _ kws _) as [kw1|e] eqn:e1; [|discriminate]; cbn [rbind].
  destruct (K _ _ _ e1) as [kw0 [e0 h0]]; injection e0 as <-.
  assert (i1 : In "size" (dkeys kw1)) by (apply h0, dset_keys_in; now left).
  set (kw2 := match psr with Some _ => _ | None => _ end).
  assert (i2 : In "size" (dkeys kw2)).
  { unfold kw2; destruct psr as [q|]; [|assumption]; destruct (dmem string_dec kw1 "psr"); [assumption|]; apply dset_keys_in; now right. }
  unfold call_py.
  assert (i3 : In "size" (dkeys (filter (fun kv => admitted f kws (fst kv)) kw2))).
  { unfold dkeys in *; apply in_map_iff in i2; destruct i2 as [[k w] [e i]]; cbn in e; subst k; apply in_map_iff.
    exists ("size", w); split; [reflexivity|]; apply filter_In; split; [assumption|]; cbn [fst]; unfold admitted.
    apply orb_true_intro; right; reflexivity. }
  destruct (forallb _ _) eqn:ef; [|discriminate].
  rewrite forallb_forall in ef; specialize (ef _ i3); apply mem_strP in ef; now elim ni.
Qed.
(** The sampler gets the keywords the density has, and the size. *)
Lemma us_name_mid name k : us_name [name; ""; k] = us_name [name; k].
Proof. unfold us_name; cbn [filter]; destruct (String.eqb name ""); reflexivity. Qed.
Lemma sampler_keywords_lem : forall f kws logprior g ppf size name params p d,
  new_param (UserParameter (Some (FC f "" kws)) logprior (Some g) ppf size) name = Ok p ->
  NoDup (dkeys kws) -> (forall k a, In (k, a) kws -> simple a) -> NoDup (dkeys d) ->
  (forall k, dget string_dec d k =
    if string_dec k "size" then Some (match size with None => PNone | Some n => PNum (Fin (INR n)) end)
    else match dget string_dec kws k with Some a => keyword name k a params | None => None end) ->
  sample_par p [] (Some params) = call_py g [] d.
Proof.
  intros f kws logprior g ppf size name params p d ep nd sm ndd hd.
  cbn in ep; injection ep as <-; unfold sample_par; cbn [pm_sampler pm_name pm_dist pm_size dmem dget dset]; unfold fcall.
  assert (sn : forall k a o, In (k, a) kws -> nested_of name "" None k a = Some o -> False).
  { intros k a o i e; specialize (sm k a i); destruct a; try contradiction; discriminate. }
  refine (proj2 (function_call_lem pv _ _ f "" kws name None [("size", size_value size)] params [] (Some g) nd _ _ _) d ndd _).
  - repeat constructor; intros [].
  - intros k a o i e; exfalso; exact (sn k a o i e).
  - intros k o [a [i e]] _; exfalso; exact (sn k a o i e).
  - intros k; rewrite hd; unfold resolve, admitted; rewrite us_name_mid.
    cbn [PyBase.dget]; destruct (string_dec k "size") as [->|ne].
    + change (mem_str "size" ["psr"; "mask"; "size"]) with true; now rewrite orb_true_r.
    + destruct (dget string_dec kws k) as [a|] eqn:ea.
      * assert (i : In k (map fst kws)) by (apply dget_Some_in in ea; exact ea).
        apply mem_strP in i; rewrite i; cbn [orb or_else].
        assert (sa : simple a) by (apply (sm k), (dget_In string_dec); exact ea).
        destruct a as [c|v|[n q|n v]|c|o|v]; try contradiction; cbn [keyword or_else par_name par_value];
          destruct (string_dec k "psr"); cbn [or_else]; try (destruct (dget string_dec params _)); reflexivity.
      * cbn [or_else]; destruct (string_dec k "psr"); destruct (_ || _)%bool; reflexivity.
Qed.

(** ** Uniform *)
Definition outcome (a b : option pv) (f : pv -> pv -> result pv) : result pv :=
  match a, b with Some a, Some b => f a b | _, _ => Err TypeError end.
Definition no_psr : pv -> string -> option pv := fun _ _ => None.
Lemma uniform_call f name pmin pmax params v :
  (f = UniformPrior_py \/ f = UniformPPF_py) -> simple pmin -> simple pmax ->
  fcall (inst (FC f "" [("pmin", pmin); ("pmax", pmax)]) name None) [v] [] (Some params) None =
  outcome (keyword name "pmin" pmin params) (keyword name "pmax" pmax params) (fun a b => pf_body f [v; a; b]).
Proof.
  intros hf sa sb; unfold fcall.
  assert (un : forall k, us_name [name; ""; k] = us_name [name; k]) by (intros; apply us_name_mid).
  destruct pmin as [c|u|[n q|n u]|c|o|u], pmax as [c'|u'|[n' q'|n' u']|c'|o'|u']; try contradiction;
    cbn [inst fold_left fst snd]; rewrite ?un; cbn [keyword par_name par_value];
    destruct hf as [-> | ->];
    cbn -[us_name uniform_prior broadcast];
    repeat match goal with |- context [PyBase.dget string_dec params ?n] => destruct (PyBase.dget string_dec params n) eqn:?; cbn -[us_name uniform_prior broadcast] end;
    try reflexivity.
Qed.
Definition uniform_par rng pmin pmax size name : param :=
  Param name size (inl (inst (FC UniformPrior_py "" [("pmin", pmin); ("pmax", pmax)]) name None))
    (Some (inst (FC UniformPPF_py "" [("pmin", pmin); ("pmax", pmax)]) name None)) (Some (UniformSampler_py rng)).
Lemma new_uniform rng pmin pmax size name : new_param (Uniform rng pmin pmax size) name = Ok (uniform_par rng pmin pmax size name).
Proof. reflexivity. Qed.
Lemma uniform_sampler_call rng name pmin pmax params size p :
  simple pmin -> simple pmax -> new_param (Uniform rng pmin pmax size) name = Ok p ->
  sample_par p [] (Some params) =
  outcome (keyword name "pmin" pmin params) (keyword name "pmax" pmax params) (fun a b => rng a b (size_value size)).
Proof.
  intros sa sb e; rewrite new_uniform in e; injection e as <-; unfold uniform_par; unfold sample_par; cbn [pm_sampler pm_name pm_dist pm_size]; unfold fcall.
  assert (un : forall k, us_name [name; ""; k] = us_name [name; k]) by (intros; apply us_name_mid).
  destruct pmin as [c|u|[n q|n u]|c|o|u], pmax as [c'|u'|[n' q'|n' u']|c'|o'|u']; try contradiction;
    cbn [inst fold_left fst snd]; rewrite ?un; cbn [keyword par_name par_value];
    cbn -[us_name uniform_prior broadcast];
    repeat match goal with |- context [PyBase.dget string_dec params ?n] => destruct (PyBase.dget string_dec params n) eqn:?; cbn -[us_name uniform_prior broadcast] end;
    try reflexivity.
Qed.

(** A bound for [n] entries: one number for all, or one each. *)
Definition bound (v : option pv) (n : nat) (l : list R) : Prop :=
  (exists a, v = Some (PNum (Fin a)) /\ l = repeat a n) \/ (v = Some (PArr (map Fin l)) /\ length l = n).
Definition inside (x : R) (ab : R * R) : Prop := (fst ab <= x <= snd ab)%R.

Lemma uniform1_in x a b : (a < b)%R -> (a <= x <= b)%R -> uniform1 (Fin x) (Fin a) (Fin b) = Fin (/ (b - a)).
Proof.
  intros h [h1 h2]; unfold uniform1; destruct (Req_EM_T (b - a) 0); [lra|]; cbn [xle].
  destruct (Rle_dec a x), (Rle_dec x b); try lra; cbn [andb]; f_equal; field; lra.
Qed.
Lemma uniform1_out x a b : (a < b)%R -> ~ (a <= x <= b)%R -> uniform1 (Fin x) (Fin a) (Fin b) = Fin 0.
Proof.
  intros h ni; unfold uniform1; destruct (Req_EM_T (b - a) 0); [lra|]; cbn [xle].
  destruct (Rle_dec a x), (Rle_dec x b); try (elim ni; lra); cbn [andb]; f_equal; field; lra.
Qed.
Lemma xlog_in a b : (a < b)%R -> xlog (Fin (/ (b - a))) = Fin (- ln (b - a)).
Proof.
  intros h; cbn [xlog]; assert (h' : (0 < / (b - a))%R) by (apply Rinv_0_lt_compat; lra).
  destruct (Rlt_dec 0 (/ (b - a))); [|lra]; rewrite ln_Rinv by lra; reflexivity.
Qed.
Lemma xlog_0 : xlog (Fin 0) = MInf.
Proof. cbn [xlog]; destruct (Rlt_dec 0 0); [lra|]; destruct (Req_EM_T 0 0); [reflexivity|lra]. Qed.

Lemma uniform_scalar_lem : forall rng pmin pmax name params a b p, simple pmin -> simple pmax ->
  new_param (Uniform rng pmin pmax None) name = Ok p ->
  keyword name "pmin" pmin params = Some (PNum (Fin a)) -> keyword name "pmax" pmax params = Some (PNum (Fin b)) -> (a < b)%R ->
  forall x, ((a <= x <= b)%R -> get_logpdf p (PNum (Fin x)) [] (Some params) = Ok (PNum (Fin (- ln (b - a))))) /\
            ((x < a)%R \/ (b < x)%R -> get_logpdf p (PNum (Fin x)) [] (Some params) = Ok (PNum MInf)).
Proof.
  intros rng pmin pmax name params a b p sa sb e ka kb h x; rewrite new_uniform in e; injection e as <-; unfold uniform_par.
  unfold get_logpdf; cbn [the_value rbind pm_dist pm_size]; rewrite uniform_call by (auto; now left); rewrite ka, kb.
  cbn [outcome pf_body UniformPrior_py]; unfold uniform_prior; destruct (Req_EM_T (b - a) 0); [lra|].
  cbn [broadcast]; split; intros hx; cbn [rbind np_log elementwise].
  - now rewrite uniform1_in, xlog_in.
  - rewrite uniform1_out, xlog_0 by (try exact h; lra); reflexivity.
Qed.

Lemma uniform_bounds_lem : forall rng pmin pmax name params a b p, simple pmin -> simple pmax ->
  new_param (Uniform rng pmin pmax None) name = Ok p ->
  keyword name "pmin" pmin params = Some (PNum (Fin a)) -> keyword name "pmax" pmax params = Some (PNum (Fin b)) ->
  forall x, (a = b -> get_logpdf p (PNum (Fin x)) [] (Some params) = Err ZeroDivisionError /\ get_pdf p (PNum (Fin x)) [] (Some params) = Err ZeroDivisionError) /\
            ((b < a)%R -> get_logpdf p (PNum (Fin x)) [] (Some params) = Ok (PNum MInf) /\ get_pdf p (PNum (Fin x)) [] (Some params) = Ok (PNum (Fin 0))).
Proof.
  intros rng pmin pmax name params a b p sa sb e ka kb x; rewrite new_uniform in e; injection e as <-; unfold uniform_par.
  unfold get_logpdf, get_pdf; cbn [the_value rbind pm_dist pm_size]; rewrite uniform_call by (auto; now left); rewrite ka, kb.
  cbn [outcome pf_body UniformPrior_py]; unfold uniform_prior; split; intros h.
  - destruct (Req_EM_T (b - a) 0); [split; reflexivity|lra].
  - destruct (Req_EM_T (b - a) 0); [lra|]; cbn [broadcast rbind np_log elementwise].
    assert (z : uniform1 (Fin x) (Fin a) (Fin b) = Fin 0).
    { unfold uniform1; destruct (Req_EM_T (b - a) 0); [lra|]; cbn [xle]; destruct (Rle_dec a x), (Rle_dec x b); try lra; cbn [andb]; f_equal; field; lra. }
    rewrite z, xlog_0; split; reflexivity.
Qed.

Lemma map_repeat_fin a n : repeat (Fin a) n = map Fin (repeat a n).
Proof. induction n; cbn; [reflexivity|]; now f_equal. Qed.
Lemma entries_bound v n l : bound (Some v) n l -> entries n v = Ok (map Fin l).
Proof.
  intros [[a [e ->]]|[e <-]]; injection e as ->; cbn [entries]; [now rewrite map_repeat_fin|].
  now rewrite map_length, Nat.eqb_refl.
Qed.
Lemma uniform_array va vb l la lb : bound (Some va) (length l) la -> bound (Some vb) (length l) lb ->
  uniform_prior (PArr (map Fin l)) va vb = Ok (PArr (map3 uniform1 (map Fin l) (map Fin la) (map Fin lb))).
Proof.
  intros ha hb; unfold uniform_prior, broadcast; rewrite map_length.
  rewrite (entries_bound _ _ _ ha), (entries_bound _ _ _ hb); cbn [entries]; rewrite map_length, Nat.eqb_refl; reflexivity.
Qed.
Lemma bound_length v n l : bound v n l -> length l = n.
Proof. intros [[a [_ ->]]|[_ h]]; [apply repeat_length|exact h]. Qed.
Definition log_widths (la lb : list R) : R := fold_right Rplus 0%R (map (fun ab => ln (snd ab - fst ab)) (combine la lb)).

Lemma uniform1_flat x a : uniform1 x (Fin a) (Fin a) = NaN.
Proof. unfold uniform1; destruct (Req_EM_T (a - a) 0); [reflexivity|lra]. Qed.
Lemma xadd_nan x : xadd x NaN = NaN.
Proof. now destruct x. Qed.
Lemma uniform_vector_bounds_lem : forall rng pmin pmax n name params l la lb p, simple pmin -> simple pmax ->
  new_param (Uniform rng pmin pmax (Some n)) name = Ok p ->
  bound (keyword name "pmin" pmin params) (length l) la -> bound (keyword name "pmax" pmax params) (length l) lb ->
  Exists (fun ab => fst ab = snd ab) (combine la lb) -> get_logpdf p (PArr (map Fin l)) [] (Some params) = Ok (PNum NaN).
Proof.
  intros rng pmin pmax n name params l la lb p sa sb e ka kb h; rewrite new_uniform in e; injection e as <-; unfold uniform_par.
  unfold get_logpdf; cbn [the_value rbind pm_dist pm_size]; rewrite uniform_call by (auto; now left).
  destruct (keyword name "pmin" pmin params) as [va|]; [|destruct ka as [[a [c _]]|[c _]]; discriminate].
  destruct (keyword name "pmax" pmax params) as [vb|]; [|destruct kb as [[a [c _]]|[c _]]; discriminate].
  cbn [outcome pf_body UniformPrior_py]; rewrite (uniform_array va vb l la lb ka kb).
  cbn [rbind np_log elementwise np_sum reduce]; do 2 f_equal.
  pose proof (bound_length _ _ _ ka) as la'; pose proof (bound_length _ _ _ kb) as lb'; clear ka kb.
  revert la lb h la' lb'; induction l as [|x l IH]; intros la lb h la' lb'.
  - destruct la, lb; try discriminate; inversion h.
  - destruct la as [|a la], lb as [|b lb]; try discriminate; cbn [combine] in h; cbn [map map3 fold_right]; inversion h as [ab r h1|ab r h1]; subst.
    + cbn [fst snd] in h1; subst b; now rewrite uniform1_flat.
    + rewrite (IH la lb h1 (f_equal pred la') (f_equal pred lb')); apply xadd_nan.
Qed.

Lemma uniform_vector_lem : forall rng pmin pmax n name params l la lb p, simple pmin -> simple pmax ->
  new_param (Uniform rng pmin pmax (Some n)) name = Ok p ->
  bound (keyword name "pmin" pmin params) (length l) la -> bound (keyword name "pmax" pmax params) (length l) lb ->
  Forall (fun ab => (fst ab < snd ab)%R) (combine la lb) ->
  (Forall2 inside l (combine la lb) -> get_logpdf p (PArr (map Fin l)) [] (Some params) = Ok (PNum (Fin (- log_widths la lb)))) /\
  (~ Forall2 inside l (combine la lb) -> get_logpdf p (PArr (map Fin l)) [] (Some params) = Ok (PNum MInf)).
Proof.
  intros rng pmin pmax n name params l la lb p sa sb e ka kb h; rewrite new_uniform in e; injection e as <-; unfold uniform_par.
  unfold get_logpdf; cbn [the_value rbind pm_dist pm_size]; rewrite uniform_call by (auto; now left).
  destruct (keyword name "pmin" pmin params) as [va|]; [|destruct ka as [[a [c _]]|[c _]]; discriminate].
  destruct (keyword name "pmax" pmax params) as [vb|]; [|destruct kb as [[a [c _]]|[c _]]; discriminate].
  cbn [outcome pf_body UniformPrior_py]; rewrite (uniform_array va vb l la lb ka kb).
  cbn [rbind np_log elementwise np_sum reduce].
  pose proof (bound_length _ _ _ ka) as la'; pose proof (bound_length _ _ _ kb) as lb'; clear ka kb.
  revert la lb h la' lb'; induction l as [|x l IH]; intros la lb h la' lb'.
  - destruct la, lb; try discriminate; cbn; split; [intros _; unfold log_widths; cbn; do 3 f_equal; lra|].
    intros c; elim c; constructor.
  - destruct la as [|a la], lb as [|b lb]; try discriminate; cbn [combine] in h; inversion h as [|ab r h1 h2]; subst; cbn [fst snd] in h1.
    destruct (IH la lb h2 (f_equal pred la') (f_equal pred lb')) as [I1 I2].
    cbn [combine map map3 fold_right]; split.
    + intros f2; inversion f2 as [|x' ab l' r' i1 i2]; subst; unfold inside in i1; cbn [fst snd] in i1.
      rewrite uniform1_in, xlog_in by assumption; specialize (I1 i2); injection I1 as ->; cbn [xadd].
      unfold log_widths; cbn [combine map fold_right fst snd]; do 3 f_equal; ring.
    + intros nf; destruct (Rle_dec a x) as [h3|h3]; [destruct (Rle_dec x b) as [h4|h4]|].
      * rewrite uniform1_in, xlog_in by (try assumption; now split).
        rewrite (f_equal (fun r => match r with Ok (PNum y) => y | _ => NaN end) (I2 (fun f2 => nf (Forall2_cons (R := inside) x (a, b) (conj h3 h4) f2)))).
        reflexivity.
      * rewrite uniform1_out, xlog_0 by (try assumption; lra).
        assert (D : Forall2 inside l (combine la lb) \/ ~ Forall2 inside l (combine la lb)).
        { clear -l; generalize (combine la lb) as m; induction l as [|y l IHl]; intros [|c m]; try (right; intros w; now inversion w); [left; constructor|].
          unfold inside at 1 2; destruct (Rle_dec (fst c) y), (Rle_dec y (snd c)), (IHl m); try (right; intros w; inversion w; subst; tauto).
          left; constructor; [now split|assumption]. }
        destruct D as [D|D]; [specialize (I1 D); injection I1 as ->|specialize (I2 D); injection I2 as ->]; reflexivity.
      * rewrite uniform1_out, xlog_0 by (try assumption; lra).
        assert (D : Forall2 inside l (combine la lb) \/ ~ Forall2 inside l (combine la lb)).
        { clear -l; generalize (combine la lb) as m; induction l as [|y l IHl]; intros [|c m]; try (right; intros w; now inversion w); [left; constructor|].
          unfold inside at 1 2; destruct (Rle_dec (fst c) y), (Rle_dec y (snd c)), (IHl m); try (right; intros w; inversion w; subst; tauto).
          left; constructor; [now split|assumption]. }
        destruct D as [D|D]; [specialize (I1 D); injection I1 as ->|specialize (I2 D); injection I2 as ->]; reflexivity.
Qed.

Lemma uniform_quantiles_lem : forall rng pmin pmax size name params a b p, simple pmin -> simple pmax ->
  new_param (Uniform rng pmin pmax size) name = Ok p ->
  keyword name "pmin" pmin params = Some (PNum (Fin a)) -> keyword name "pmax" pmax params = Some (PNum (Fin b)) -> (a < b)%R ->
  (forall q, (0 <= q <= 1)%R -> get_ppf p (PNum (Fin q)) [] (Some params) = Ok (PNum (Fin (a + (b - a) * q)))) /\
  (forall l, Forall (fun q => (0 <= q <= 1)%R) l -> get_ppf p (PArr (map Fin l)) [] (Some params) = Ok (PArr (map (fun q => Fin (a + (b - a) * q)) l))).
Proof.
  intros rng pmin pmax size name params a b p sa sb e ka kb h; rewrite new_uniform in e; injection e as <-; unfold uniform_par.
  assert (P : forall q, (0 <= q <= 1)%R -> ppf1 (Fin q) (Fin a) (Fin b) = Fin (a + (b - a) * q)).
  { intros q [h1 h2]; cbn [ppf1]; destruct (Rlt_dec 0 (b - a)); [|lra]; destruct (Rle_dec 0 q), (Rle_dec q 1); try lra; reflexivity. }
  unfold get_ppf; cbn [pm_ppf the_value rbind]; split.
  - intros q hq; rewrite uniform_call by (auto; now right); rewrite ka, kb; cbn [outcome pf_body UniformPPF_py broadcast]; now rewrite P.
  - intros l hl; rewrite uniform_call by (auto; now right); rewrite ka, kb; cbn [outcome pf_body UniformPPF_py]; unfold broadcast.
    cbn [entries]; rewrite Nat.eqb_refl, map_length; cbn [rbind rmap]; do 2 f_equal.
    induction hl as [|q l hq hl IH]; cbn [map length repeat map3]; [reflexivity|]; now rewrite P, IH.
Qed.

Lemma uniform_sampling_lem : forall rng pmin pmax size name params p, simple pmin -> simple pmax ->
  new_param (Uniform rng pmin pmax size) name = Ok p ->
  (forall va vb, keyword name "pmin" pmin params = Some va -> keyword name "pmax" pmax params = Some vb ->
    sample_par p [] (Some params) = rng va vb (match size with None => PNone | Some n => PNum (Fin (INR n)) end)) /\
  (keyword name "pmin" pmin params = None \/ keyword name "pmax" pmax params = None ->
    sample_par p [] (Some params) = Err TypeError /\
    (forall v, v <> PNone -> get_logpdf p v [] (Some params) = Err TypeError /\ get_pdf p v [] (Some params) = Err TypeError /\
                             get_ppf p v [] (Some params) = Err TypeError)).
Proof.
  intros rng pmin pmax size name params p sa sb e; split.
  - intros va vb ka kb; rewrite (uniform_sampler_call rng name pmin pmax params size p sa sb e), ka, kb; reflexivity.
  - intros k; assert (O : forall f, outcome (keyword name "pmin" pmin params) (keyword name "pmax" pmax params) f = Err TypeError).
    { intros f; destruct k as [-> | ->]; [reflexivity|]; now destruct (keyword name "pmin" pmin params). }
    rewrite (uniform_sampler_call rng name pmin pmax params size p sa sb e), O; split; [reflexivity|].
    intros v nv; rewrite new_uniform in e; injection e as <-; unfold uniform_par; unfold get_logpdf, get_pdf, get_ppf, the_value; cbn [pm_dist pm_ppf].
    destruct v; [now elim nv|..]; cbn [rbind]; rewrite !uniform_call by (auto; now (left + right)); rewrite !O; repeat split.
Qed.

(** The value [params] has for the parameter itself does not matter. *)
Definition separate (a : arg pv) (name : string) : Prop := match a with AInst q => par_name q <> name | _ => True end.
Lemma us_name_longer name k : k <> "" -> name <> "" -> us_name [name; k] <> name.
Proof.
  intros hk hn e; unfold us_name in e; cbn [filter] in e.
  destruct (String.eqb_spec name ""); [contradiction|]; destruct (String.eqb_spec k ""); [contradiction|]; cbn in e.
  assert (L : String.length (name ++ "_" ++ k)%string = String.length name) by (exact (f_equal String.length e)).
  assert (A : forall s t, String.length (s ++ t)%string = String.length s + String.length t) by (induction s; intros; cbn; [reflexivity|]; now rewrite IHs).
  rewrite !A in L; cbn in L; lia.
Qed.
Lemma resample_lem : forall rng pmin pmax size name params v p, simple pmin -> simple pmax -> separate pmin name -> separate pmax name -> name <> "" ->
  new_param (Uniform rng pmin pmax size) name = Ok p ->
  sample_par p [] (Some (dset string_dec params name v)) = sample_par p [] (Some params) /\
  (forall kw prm, In name (dkeys kw) -> sample_par p kw prm = Err ValueError).
Proof.
  intros rng pmin pmax size name params v p sa sb pa pb hn e.
  assert (K : forall k a, k <> "" -> simple a -> separate a name -> keyword name k a (dset string_dec params name v) = keyword name k a params).
  { intros k a hk ha hs; destruct a as [c|u|q|c|o|u]; try contradiction; cbn [keyword]; try reflexivity;
      rewrite dget_dset_other; try reflexivity; try (now apply us_name_longer); exact hs. }
  split.
  - rewrite !(uniform_sampler_call rng name pmin pmax _ size p sa sb e); rewrite !K; try assumption; try discriminate; reflexivity.
  - intros kw prm i; rewrite new_uniform in e; injection e as <-; unfold uniform_par; unfold sample_par; cbn [pm_sampler pm_name].
    apply (dmem_true string_dec) in i; now rewrite i.
Qed.

(** ** Claims that fail *)
(** The sampler of the documentation: the arguments of the density. *)
Lemma same_arguments_refuted_lem : exists prior sampler name p,
  new_param (UserParameter (Some (FC prior "" [("a", AVal (PNum (Fin 1)))])) None (Some sampler) None None) name = Ok p /\
  pf_args sampler = pf_args prior /\ (exists v, call_py sampler [PNum (Fin 3)] [("a", PNum (Fin 1))] = Ok v) /\
  sample_par p [] None = Err TypeError.
Proof.
  exists (PyFun ["value"; "a"] [] (fun l => match l with [v; a] => Ok (PNum (Fin 1)) | _ => Err TypeError end)).
  exists (PyFun ["value"; "a"] [] (fun l => match l with [v; a] => Ok a | _ => Err TypeError end)).
  exists "x"; eexists; split; [reflexivity|]; repeat split; eexists; reflexivity.
Qed.
Lemma vector_length_refuted_lem : exists rng n name p l x, n <> length l /\
  new_param (Uniform rng (AVal (PNum (Fin 0))) (AVal (PNum (Fin 1))) (Some n)) name = Ok p /\
  get_logpdf p (PArr (map Fin l)) [] None = Ok (PNum (Fin 0)) /\ get_logpdf p (PNum (Fin x)) [] None = Ok (PNum (Fin 0)).
Proof.
  assert (z : (- ln (1 - 0) = 0)%R) by (replace (1 - 0)%R with 1%R by ring; rewrite ln_1; ring).
  exists (fun _ _ _ => Ok PNone), 3, "x"; eexists; exists [(1/2)%R], (1/2)%R; split; [discriminate|]; split; [reflexivity|].
  split.
  - unfold get_logpdf; cbn [the_value rbind pm_dist pm_size]; cbn -[uniform1 Rlt_dec Rle_dec Req_EM_T xlog xadd].
    rewrite uniform1_in, xlog_in, z by lra; cbn [xadd]; do 3 f_equal; lra.
  - unfold get_logpdf; cbn [the_value rbind pm_dist pm_size]; cbn -[uniform1 Rlt_dec Rle_dec Req_EM_T xlog xadd].
    destruct (Req_EM_T (1 - 0) 0); [lra|]; cbn -[uniform1 xlog]; rewrite uniform1_in, xlog_in, z by lra; reflexivity.
Qed.
