(** Proofs about the names of parameters. *)
From Coq Require Import Reals String.
From mathcomp Require Import all_ssreflect all_algebra.
From Verif Require Import RStruct PyBase ProofBase ModelSelect ProofSelect ModelFunc ModelCache ModelGp ProofGp ModelColl ModelSigs ProofSigs ModelArray ModelSized ProofSized ModelKinds ProofKinds ModelDefault ProofDefault ModelNames.
Set Implicit Arguments.
Unset Strict Implicit.
Unset Printing Implicit Defensive.
Local Open Scope seq_scope.

(** * Specification *)
(** What a keyword is called, if it is a parameter *)
Definition named (a : arg gv) (n x : string) : Prop :=
  match a with AParC _ => x = n | AInst (Par n' _) => x = n' | _ => False end.
(** The parameters of a function of a class made under the name [nm]: keywords are parameters,
    constants or numbers, each once *)
Definition class_named (c : fcl) (nm x : string) : Prop := let '(FC f fname kws) := c in exists k a, List.In (k, a) kws /\ named a (us_name [:: nm; fname; k]) x.
Definition simple_class (c : fcl) : Prop := no_functions c /\ let '(FC f fname kws) := c in List.NoDup (dkeys kws).
Definition kind_named (k : pkind) (n x : string) : Prop := if k is Varies then x = n else False.
Definition src_named (fns : nat -> fob * fob) (s : wsrc) (x : string) : Prop :=
  match s with
  | Plain (White fn name psrname psr masks) | Plain (Determ fn name psrname psr masks _) =>
      exists2 k, List.In k (dkeys masks) & class_named fn (us_name [:: psrname; name; k]) x
  | Plain (Proc priorfn basisfn name psrname psr masks _) =>
      exists2 k, List.In k (dkeys masks) & class_named priorfn (us_name [:: psrname; name; k]) x \/ class_named basisfn (us_name [:: psrname; name; k]) x
  | Plain (Sampled priorfn basisfn name psrname psr masks _) =>
      exists2 k, List.In k (dkeys masks) & [\/ class_named priorfn (us_name [:: psrname; name; k]) x, class_named basisfn (us_name [:: psrname; name; k]) x | x = append (us_name [:: psrname; name; k]) "_coefficients"]
  | Plain (Common basisfn name psrname psr _ cls _) =>
      (exists2 q, List.In q (pars_of (fns cls).1) \/ List.In q (pars_of (fns cls).2) & is_cst q = false /\ par_name q = x) \/ class_named basisfn (join_us [:: psrname; name]) x
  | Ecorr _ kind psrname _ masks => exists2 k, List.In k (dkeys masks) & kind_named kind (ecorr_param psrname k) x
  | Margin _ _ _ _ => False
  | Wideband efac equad jump jref _ _ _ psrname _ _ sel jsel =>
      (exists2 k, List.In k (dkeys sel) & kind_named efac (us_name [:: psrname; k; "dmefac"%string]) x \/ if equad is Some e then kind_named e (us_name [:: psrname; k; "log10_dmequad"%string]) x else False) \/
      exists2 k, List.In k (dkeys jsel) /\ jref <> Some k & if jump is Some j then kind_named j (us_name [:: psrname; k; "dmjump"%string]) x else False
  end.
(** The functions are plain, and no name is that of a constant and of a parameter *)
Definition simple_src (fns : nat -> fob * fob) (s : wsrc) : Prop :=
  match s with
  | Plain (White fn name psrname psr masks) | Plain (Determ fn name psrname psr masks _) =>
      simple_class fn /\ clear [seq selected name psrname psr fn k | k <- dkeys masks]
  | Plain (Proc priorfn basisfn name psrname psr masks _) | Plain (Sampled priorfn basisfn name psrname psr masks _) =>
      [/\ simple_class priorfn, simple_class basisfn & clear (flatten [seq [:: selected name psrname psr priorfn k; selected name psrname psr basisfn k] | k <- dkeys masks])]
  | Plain (Common basisfn name psrname psr _ cls _) =>
      simple_class basisfn /\ clear [:: (fns cls).1; (fns cls).2; inst basisfn (join_us [:: psrname; name]) (Some psr)]
  | _ => True
  end.

(** * Parameters of functions *)
Definition par_of (a : arg gv) (pn : string) (q : par gv) : Prop :=
  match a with AParC c => q = Par pn (inst c pn None) | ACstC v => q = Cst pn (v pn) | AInst p => q = p | _ => False end.
Lemma in_vals (d : dict string (par gv)) q : List.In q (dvals d) <-> exists k, List.In (k, q) d.
Proof.
split=> [/(proj1 (List.in_map_iff _ _ _)) [[k q'] [/= <- i]]|[k i]]; [by exists k|exact: (List.in_map snd _ _ i)].
Qed.
Lemma in_dset (d : dict string (par gv)) k p x q : List.NoDup (dkeys d) -> (List.In (x, q) (dset string_dec d k p) <-> (x = k /\ q = p) \/ (x <> k /\ List.In (x, q) d)).
Proof.
elim: d => [|[k' p'] d IH] /= nd; first by split=> [[[<- <-]|//]|[[-> ->]|[]//]]; left.
inversion nd as [|? ? ni nd']; subst; case: string_dec => [e|ne] /=.
  subst k'; split=> [[[<- <-]|i]|[[-> ->]|[n [[e' _]|i]]]]; try by left.
  - right; split; [|by right] => e; subst x; apply: ni; exact: (List.in_map fst _ _ i).
  - by case: n.
  - by right.
rewrite IH //; split=> [[[<- <-]|[[-> ->]|[n i]]]|[[-> ->]|[n [[<- <-]|i]]]]; try by [left|right; left|right; right].
- by right; split; [move=> e; apply: ne|left].
- by right; split; [|right].
Qed.
Lemma fresh_params nm fname psr kws : forall st, List.NoDup (dkeys kws) -> List.Forall (fun ka : string * arg gv => match ka.2 with AFunC _ | AFun _ => False | _ => True end) kws ->
  List.NoDup (dkeys st.1.1) -> (forall k, List.In k (dkeys kws) -> ~ List.In k (dkeys st.1.1)) ->
  forall x q, List.In (x, q) (List.fold_left (kw_step nm fname psr) kws st).1.1 <-> List.In (x, q) st.1.1 \/ exists2 a, List.In (x, a) kws & par_of a (us_name [:: nm; fname; x]) q.
Proof.
elim: kws => [|[k a] kws IH] [[ps defs] fs] nd pl nds fr x q /=; first by split=> [|[//|[a []]]]; left.
inversion nd as [|? ? ni nd']; subst; inversion pl as [|? ? h1 h2]; subst; cbn [fst snd] in *.
have nk : ~ List.In k (dkeys ps) by apply: fr; left.
have main st' : (forall y r, List.In (y, r) st'.1.1 <-> List.In (y, r) ps \/ (y = k /\ par_of a (us_name [:: nm; fname; y]) r)) -> List.NoDup (dkeys st'.1.1) -> (forall y, List.In y (dkeys st'.1.1) -> y = k \/ List.In y (dkeys ps)) ->
  (List.In (x, q) (List.fold_left (kw_step nm fname psr) kws st').1.1 <-> List.In (x, q) ps \/ exists2 a0, (k, a) = (x, a0) \/ List.In (x, a0) kws & par_of a0 (us_name [:: nm; fname; x]) q).
  move=> hs nds' ks; rewrite IH //; last by move=> y iy /ks [e|i]; [subst y; apply: ni|apply: (fr y) => //; right].
  split.
  - case=> [/hs [i|[-> hp]]|[a0 i hp]]; [by left|by right; exists a => //; left|by right; exists a0 => //; right].
  - case=> [i|[a0 [[<- <-]|i] hp]]; [by left; apply/hs; left|by left; apply/hs; right|by right; exists a0].
have set_ok p : par_of a (us_name [:: nm; fname; k]) = eq^~ p -> (forall y r, List.In (y, r) (dset string_dec ps k p) <-> List.In (y, r) ps \/ (y = k /\ par_of a (us_name [:: nm; fname; y]) r)).
  move=> e y r; rewrite in_dset //; split=> [[[-> ->]|[n i]]|[i|[-> hp]]]; [by right; rewrite e|by left| |by left; rewrite e in hp].
  by right; split=> // e'; subst y; apply: nk; exact: (List.in_map fst _ _ i).
have keys_ok p y : List.In y (dkeys (dset string_dec ps k p)) -> y = k \/ List.In y (dkeys ps).
  by move/(proj1 (dset_keys_in _ _ _ _ _)) => [->|i]; [left|right].
have nd_ok p : List.NoDup (dkeys (dset string_dec ps k p)) by exact: dset_NoDup.
case: a h1 main set_ok {pl nd fr} => [c|v|p|c|o|v] //= _ main set_ok; try (apply: main; [by apply: set_ok|exact: nd_ok|exact: keys_ok]).
apply: main => //= [y r|y]; [by split=> [i|[i|[]//]]; [left|]|by right].
Qed.
Lemma inst_pars c nm psr q : simple_class c -> (List.In q (pars_of (inst c nm psr)) <-> let '(FC f fname kws) := c in exists k a, List.In (k, a) kws /\ par_of a (us_name [:: nm; fname; k]) q).
Proof.
case: c => f fname kws [nf nd]; rewrite inst_step /pars_of /= in_vals; split.
- by case=> k /(proj1 (@fresh_params nm fname psr kws ([::], [::], [::]) nd nf (List.NoDup_nil _) (fun _ _ h => h) _ _)) [//|[a i h]]; exists k, a.
- by case=> k [a [i h]]; exists k; apply/(@fresh_params nm fname psr kws ([::], [::], [::]) nd nf (List.NoDup_nil _) (fun _ _ h => h)); right; exists a.
Qed.
Lemma inst_named c nm psr x : simple_class c -> ((exists2 q, List.In q (pars_of (inst c nm psr)) & is_cst q = false /\ par_name q = x) <-> class_named c nm x).
Proof.
move=> pc; split.
- case=> q /(proj1 (inst_pars _ _ _ pc)); case: c {pc} => f fname kws [k [a [i h]]] [nc <-]; exists k, a; split=> //.
  by case: a h {i} => [c|v|[n p|n v]|c|o|v] //= e; subst q.
- case: c pc => f fname kws pc [k [a [i h]]]; move: (i); case: a h {i} => [c|v|[n p|n v]|c|o|v] //= e i; subst x.
  + by exists (Par (us_name [:: nm; fname; k]) (inst c (us_name [:: nm; fname; k]) None)) => //; apply/(inst_pars _ _ _ pc); exists k, (AParC c).
  + by exists (Par n p) => //; apply/(inst_pars _ _ _ pc); exists k, (AInst (Par n p)).
Qed.

(** * Parameters of signals *)
Lemma in_filter (T : Type) (P : pred T) l x : List.In x (filter P l) <-> List.In x l /\ P x.
Proof. exact: List.filter_In. Qed.
Lemma in_map (T U : Type) (f : T -> U) l y : List.In y [seq f x | x <- l] <-> exists2 x, List.In x l & f x = y.
Proof. by rewrite (List.in_map_iff f l y); split=> [[x [h i]]|[x i h]]; exists x. Qed.
Lemma in_flatten (T U : Type) (f : T -> seq U) l y : List.In y (flatten [seq f x | x <- l]) <-> exists2 x, List.In x l & List.In y (f x).
Proof. by split; [exact: in_flat_inv|case=> x; exact: in_flat]. Qed.
Lemma in_names ps x : List.In x (nonconstant ps) <-> exists2 q, List.In q (dvals ps) & is_cst q = false /\ par_name q = x.
Proof.
rewrite /nonconstant in_map; split=> [[q /in_filter [i /negbTE c] e]|[q i [c e]]]; exists q => //.
by apply/in_filter; rewrite c.
Qed.
Lemma names_all os x : clear os -> (List.In x (nonconstant (all_params (flatten [seq pars_of o | o <- os]))) <->
  exists2 o, List.In o os & exists2 q, List.In q (pars_of o) & is_cst q = false /\ par_name q = x).
Proof.
move=> cl; rewrite in_names; split.
- case=> q /in_vals [k h] c; case: (in_fold_par _ _ _ _ h) => [[/in_flatten [o io iq] e]|[]]; exists o => //; by exists q.
- case=> o io [q iq [c e]].
  have ik : List.In (par_name q) (dkeys (all_params (flatten [seq pars_of o | o <- os]))).
    by apply: par_kept; left; apply: List.in_map; apply/in_flatten; exists o.
  have [[y q0] [/= ey iq0]] := proj1 (List.in_map_iff _ _ _) ik; subst y.
  have [[/in_flatten [o' io' iq'] e0]|[]] := in_fold_par _ _ _ _ iq0.
  exists q0; first by apply/in_vals; exists (par_name q).
  by split; [rewrite (cl o' o q0 q)|rewrite e0].
Qed.
Lemma in_sorted (masks : dict string mask) k : List.In k (sorted_keys masks) <-> List.In k (dkeys masks).
Proof.
by split=> i; [apply: (Permutation.Permutation_in _ _ i)|apply: (Permutation.Permutation_in _ (Permutation.Permutation_sym _) i)]; exact: isort_perm.
Qed.
Lemma fsel_names fn name psrname psr masks f x : simple_class fn -> clear [seq selected name psrname psr fn k | k <- dkeys masks] ->
  new_fsel fn name psrname psr masks = Ok f -> (List.In x (nonconstant (f_params f)) <-> exists2 k, List.In k (dkeys masks) & class_named fn (us_name [:: psrname; name; k]) x).
Proof.
move=> pc cl; rewrite /new_fsel; case: (rmapM _ _) => //= ms -[<-] /=; rewrite fold_keys.
have cl' : clear [seq selected name psrname psr fn k | k <- sorted_keys masks] by apply: clear_sub cl => o /in_map [k /in_sorted ik <-]; apply/in_map; exists k.
have -> : [seq pars_of (inst fn (pname psrname name k) (Some psr)) | k <- sorted_keys masks] = [seq pars_of o | o <- [seq selected name psrname psr fn k | k <- sorted_keys masks]] by rewrite -map_comp.
rewrite (names_all _ cl'); split.
- by case=> o /in_map [k /in_sorted ik <-] h; exists k => //; apply/(inst_named _ (Some psr) _ pc).
- by case=> k /in_sorted ik /(inst_named _ (Some psr) _ pc) h; exists (selected name psrname psr fn k) => //; apply/in_map; exists k.
Qed.
Lemma functions_names priorfn basisfn name psrname psr masks g x : simple_class priorfn -> simple_class basisfn ->
  clear (flatten [seq [:: selected name psrname psr priorfn k; selected name psrname psr basisfn k] | k <- dkeys masks]) ->
  gp_functions priorfn basisfn name psrname psr masks = Ok g ->
  (List.In x (nonconstant (g_params g)) <-> exists2 k, List.In k (dkeys masks) & class_named priorfn (us_name [:: psrname; name; k]) x \/ class_named basisfn (us_name [:: psrname; name; k]) x).
Proof.
move=> pp pb cl; rewrite /gp_functions; case: (rmapM _ _) => //= ms -[<-] /=.
pose two k := [:: selected name psrname psr priorfn k; selected name psrname psr basisfn k].
have cl' : clear (flatten [seq two k | k <- sorted_keys masks]) by apply: clear_sub cl => o /in_flatten [k /in_sorted ik h]; apply/in_flatten; exists k.
rewrite (fold_keys (fun key => (pars_of _ ++ pars_of _)%list)).
have -> : flatten [seq (pars_of (inst priorfn (pname psrname name k) (Some psr)) ++ pars_of (inst basisfn (pname psrname name k) (Some psr)))%list | k <- sorted_keys masks] =
  flatten [seq pars_of o | o <- flatten [seq two k | k <- sorted_keys masks]].
  by elim: (sorted_keys masks) => //= k l ->; rewrite -catA.
rewrite (names_all _ cl'); split.
- case=> o /in_flatten [k /in_sorted ik [<-|[<-|//]]] h; exists k => //; [left; exact/(inst_named _ (Some psr) _ pp)|right; exact/(inst_named _ (Some psr) _ pb)].
- case=> k /in_sorted ik [/(inst_named _ (Some psr) _ pp)|/(inst_named _ (Some psr) _ pb)] h.
  + by exists (selected name psrname psr priorfn k) => //; apply/in_flatten; exists k => //; left.
  + by exists (selected name psrname psr basisfn k) => //; apply/in_flatten; exists k => //; right; left.
Qed.
Lemma gp_names priorfn basisfn name psrname psr masks g s x : simple_class priorfn -> simple_class basisfn ->
  clear (flatten [seq [:: selected name psrname psr priorfn k; selected name psrname psr basisfn k] | k <- dkeys masks]) ->
  new_gp priorfn basisfn false name psrname psr masks = Ok (g, s) ->
  (List.In x (nonconstant (g_params g)) <-> exists2 k, List.In k (dkeys masks) & class_named priorfn (us_name [:: psrname; name; k]) x \/ class_named basisfn (us_name [:: psrname; name; k]) x).
Proof. by move=> pp pb cl; rewrite /new_gp; case E: (gp_functions _ _ _ _ _ _) => [g0|] //= -[<- _]; exact: functions_names E. Qed.
Lemma coef_names priorfn basisfn name psrname psr masks g s x : simple_class priorfn -> simple_class basisfn ->
  clear (flatten [seq [:: selected name psrname psr priorfn k; selected name psrname psr basisfn k] | k <- dkeys masks]) ->
  new_gp priorfn basisfn true name psrname psr masks = Ok (g, s) ->
  (List.In x (nonconstant (g_params g) ++ [seq cf_name kc.2 | kc <- g_coefs g]) <-> exists2 k, List.In k (dkeys masks) &
    [\/ class_named priorfn (us_name [:: psrname; name; k]) x, class_named basisfn (us_name [:: psrname; name; k]) x | x = append (us_name [:: psrname; name; k]) "_coefficients"]).
Proof.
move=> pp pb cl; rewrite /new_gp; case E: (gp_functions _ _ _ _ _ _) => [g0|] //=.
have kg : g_keys g0 = sorted_keys masks by move: E; rewrite /gp_functions; case: (rmapM _ _) => //= ms -[<-].
case C: (gp_coefficients name psrname g0) => [s1 r]; apply: rmapI => g1 er [<- _]; subst r.
move: C; rewrite /gp_coefficients; case: construct => b r [_]; apply: rbindI => u _; apply: rbindI => sl _; apply: rmapI => cs ec <- /=.
have -> : [seq cf_name kc.2 | kc <- cs] = [seq append (us_name [:: psrname; name; k]) "_coefficients" | k <- sorted_keys masks].
  rewrite -kg; elim: (g_keys g0) cs ec => [|k l IH] cs; first by case=> <-.
  cbn [rmapM]; apply: rbindI => kc; apply: rbindI => pr _; apply: rbindI => ba _; apply: rbindI => sc _; apply: rmapI => args _ <-; apply: rbindI => cs' /IH e [<-].
  by rewrite /= e.
rewrite -[_ ++ _]/(List.app _ _) List.in_app_iff (functions_names x pp pb cl E) in_map; split.
- by case=> [[k ik [h|h]]|[k /in_sorted ik <-]]; exists k => //; [apply: Or31|apply: Or32|apply: Or33].
- by case=> k ik [h|h|->]; [left; exists k => //; left|left; exists k => //; right|right; exists k => //; apply/in_sorted].
Qed.
Lemma select_names psrname masks suffix x : List.In x (dvals (selection_call psrname masks suffix).1) <-> exists2 k, List.In k (dkeys masks) & x = join_us [:: psrname; sel_kname k suffix].
Proof.
rewrite /selection_call.
have gen : forall l (st : dict string string * dict string mask), (forall a b, List.In (a, b) st.1 -> b = join_us [:: psrname; a]) ->
  let st' := List.fold_left (fun st kv => (dset string_dec st.1 (sel_kname kv.1 suffix) (join_us [:: psrname; sel_kname kv.1 suffix]), dset string_dec st.2 (sel_kname kv.1 suffix) kv.2)) l st in
  (forall a b, List.In (a, b) st'.1 -> b = join_us [:: psrname; a]) /\
  forall a, List.In a (dkeys st'.1) <-> List.In a (dkeys st.1) \/ exists2 k, List.In k (dkeys l) & a = sel_kname k suffix.
  elim=> [|[k mk] l IH] st h /=; first by split=> // a; split=> [|[//|[k []]]]; left.
  have hs : forall a b, List.In (a, b) (dset string_dec st.1 (sel_kname k suffix) (join_us [:: psrname; sel_kname k suffix])) -> b = join_us [:: psrname; a].
    by move=> a b i; case: (ProofGp.dset_In _ _ _ _ _ i) => [[-> ->]|/h].
  have [h1 h2] := IH (dset string_dec st.1 (sel_kname k suffix) (join_us [:: psrname; sel_kname k suffix]), dset string_dec st.2 (sel_kname k suffix) mk) hs.
  split=> // a; rewrite h2 /= dset_keys_in; split.
  + by case=> [[->|i]|[k' i ->]]; [right; exists k => //; left|left|right; exists k' => //; right].
  + by case=> [i|[k' [<-|i] ->]]; [left; right|left; left|right; exists k'].
have [h1 h2] := gen masks ([::], [::]) (fun _ _ h => match h with end); split.
- move/(proj1 (List.in_map_iff _ _ _)) => [[a b] [/= <- i]]; have /(proj1 (h2 a)) := List.in_map fst _ _ i; case=> [//|[k ik ea]].
  by exists k => //; rewrite (h1 _ _ i) ea.
- case=> k ik ->; have /(proj2 (h2 _)) : List.In (sel_kname k suffix) (dkeys (@nil (string * string))) \/ exists2 k0, List.In k0 (dkeys masks) & sel_kname k suffix = sel_kname k0 suffix by right; exists k.
  move/(proj1 (List.in_map_iff _ _ _)) => [[a b] [ea i]]; have {}ea : a = sel_kname k suffix := ea.
  rewrite -ea -(h1 _ _ i); exact: (List.in_map snd _ _ i).
Qed.
Lemma wide_names psrname suffix kind masks x : List.In x [seq y.1.1 | y <- wide_pars psrname suffix kind masks & varying_kind y] <->
  exists2 k, List.In k (dkeys masks) & kind_named (kind k) (us_name [:: psrname; k; suffix]) x.
Proof.
have inm km : List.In km (isort (fun x y => sle x.1 y.1) masks) <-> List.In km masks.
  by split=> i; [apply: (Permutation.Permutation_in _ _ i)|apply: (Permutation.Permutation_in _ (Permutation.Permutation_sym _) i)]; exact: isort_perm.
rewrite in_map; split.
- case=> y /in_filter [/in_map [km /inm ikm <-]]; rewrite /varying_kind /= => vk <-; exists km.1; first exact: (List.in_map fst _ _ ikm).
  by rewrite /kind_named; case: (kind km.1) vk.
- case=> k /(proj1 (List.in_map_iff _ _ _)) [km [<- ikm]] h; exists (us_name [:: psrname; km.1; suffix], kind km.1, km.2); last by move: h; rewrite /kind_named; case: (kind km.1).
  by apply/in_filter; split; [apply/in_map; exists km => //; apply/inm|move: h; rewrite /varying_kind /kind_named /=; case: (kind km.1)].
Qed.

Section Signal.
Variables (argsort : seq R -> seq nat) (fns : nat -> fob * fob).
Lemma sig_names s d x : simple_src fns s -> new_wsig argsort fns s = Ok d -> (List.In x (signal_names fns d) <-> src_named fns s x).
Proof.
case: s => [[fn name psrname psr masks|fn name psrname psr masks n|priorfn basisfn name psrname psr masks comb|priorfn basisfn name psrname psr masks comb|basisfn name psrname psr pos cls comb]|block kind psrname toas masks|basisfn name psrname psr|efac equad jump jref priorfn basisfn name psrname psr q sel jsel]; cbn [simple_src new_wsig new_sig] => //.
- by case=> nf cl; case E: (new_fsel _ _ _ _ _) => [f|] // -[<-]; exact: (fsel_names x nf cl E).
- by case=> nf cl; case E: (new_fsel _ _ _ _ _) => [f|] // -[<-]; exact: (fsel_names x nf cl E).
- by case=> nf nb cl; case E: (new_gp _ _ _ _ _ _ _) => [[g s]|] // -[<-]; exact: (gp_names x nf nb cl E).
- by case=> nf nb cl; case E: (new_gp _ _ _ _ _ _ _) => [[g s]|] // -[<-]; exact: (coef_names x nf nb cl E).
- case=> nf cl [<-]; rewrite [signal_names _ _]/(nonconstant (all_params _)) (names_all x cl); cbn [src_named]; split.
  + case=> o [<-|[<-|[<-|[]]]] [q iq h]; [by left; exists q; [left|]|by left; exists q; [right|]|right].
    by apply/(inst_named (join_us [:: psrname; name]) (Some psr) x nf); exists q.
  + case=> [[q [iq|iq] h]|/(inst_named _ (Some psr) _ nf) h].
    * by exists (fns cls).1; [left|exists q].
    * by exists (fns cls).2; [right; left|exists q].
    * by exists (inst basisfn (join_us [:: psrname; name]) (Some psr)); [right; right; left|].
- move=> _; rewrite /new_ecorr; case E: (selection_call _ _ _) => [ps ms]; case: (ecorr_idxs _ _ _) => //= idxs -[<-] /=.
  have := select_names psrname masks "log10_ecorr" x; rewrite E /= => h.
  case: kind => [|v] /=; last by split=> // -[k].
  exact: h.
- by move=> _ [<-].
move=> _; case: (new_gp priorfn basisfn false name psrname psr (everywhere q)) => [[g s]|e] //; cbn [rbind fst]; rewrite /new_wide; case: ifP => // _.
case: (ModelWide.wb_init _ _ _ _ _) => //= bins -[<-]; cbn [signal_names src_named wd_efacs wd_equads wd_jumps].
have spl (l l' : seq (string * pkind * mask)) : List.In x [seq y.1.1 | y <- l ++ l' & varying_kind y] <-> List.In x [seq y.1.1 | y <- l & varying_kind y] \/ List.In x [seq y.1.1 | y <- l' & varying_kind y].
  by rewrite filter_cat map_cat; exact: List.in_app_iff.
rewrite !spl wide_names.
have -> : List.In x [seq y.1.1 | y <- (if equad is Some k then wide_pars psrname "log10_dmequad" (fun _ => k) sel else [::]) & varying_kind y] <->
  exists2 k, List.In k (dkeys sel) & if equad is Some e then kind_named e (us_name [:: psrname; k; "log10_dmequad"%string]) x else False.
  by case: equad => [e|]; [exact: wide_names|split=> // -[]].
have -> : List.In x [seq y.1.1 | y <- (if jump is Some k then wide_pars psrname "dmjump" (fun key => if jref is Some r then if String.eqb key r then Fixed (fun _ => Some 0%R) else k else k) jsel else [::]) & varying_kind y] <->
  exists2 k, List.In k (dkeys jsel) /\ jref <> Some k & if jump is Some j then kind_named j (us_name [:: psrname; k; "dmjump"%string]) x else False.
  case: jump => [j|]; last by split=> // -[].
  rewrite wide_names; case: jref => [r|]; last by split=> [[k i h]|[k [i _] h]]; exists k.
  split=> [[k i]|[k [i ne] h]].
  + by case: (String.eqb_spec k r) => // ne h; exists k => //; split=> // -[e]; apply: ne.
  + by exists k => //; case: (String.eqb_spec k r) => // e; case: ne; rewrite e.
by split=> [[[k i h]|[[k i h]|h]]|[[k i [h|h]]|h]]; [left; exists k => //; left|left; exists k => //; right|right|left; exists k|right; left; exists k|right; right].
Qed.
End Signal.
Lemma parameter_names_lem argsort fns (arr : seq (seq wsrc * seq R)) dss : (forall c s, List.In c arr -> List.In s c.1 -> simple_src fns s) ->
  new_warray argsort fns arr = Ok dss ->
  forall x, List.In x (array_names fns dss) <-> exists c s, [/\ List.In c arr, List.In s c.1 & src_named fns s x].
Proof.
move=> hp h x; rewrite /array_names; rewrite /new_warray in h; elim: arr dss hp h => [|c arr IH] dss hp /=.
  by case=> <-; split=> // -[c [s []]].
case E: (rmapM _ c.1) => [ds|] //=; case E2: (rmapM _ arr) => [dss'|] //= -[<-] /=.
rewrite -[_ ++ _]/(List.app _ _) List.in_app_iff (IH dss') //; last by move=> c' s i; apply: hp; right.
have -> : List.In x (flatten [seq signal_names fns d | d <- ds]) <-> exists2 s, List.In s c.1 & src_named fns s x.
  have {hp}hp : forall s, List.In s c.1 -> simple_src fns s by move=> s; apply: hp; left.
  elim: (c.1) ds hp E {E2 IH} => [|s ss IH] ds hp /=; first by case=> <-; split=> // -[].
  case E: (new_wsig argsort fns s) => [d|] //=; case E2: (rmapM _ ss) => [ds'|] //= -[<-] /=.
  rewrite -[_ ++ _]/(List.app _ _) List.in_app_iff (IH ds') //; last by move=> s' i; apply: hp; right.
  rewrite (sig_names x (hp s (or_introl erefl)) E); split=> [[h|[s' i h]]|[s' [<-|i] h]]; [by exists s; [left|]|by exists s'; [right|]|by left|by right; exists s'].
split=> [[[s i h]|[c' [s [i i' h]]]]|[c' [s [[<-|i] i' h]]]]; [by exists c, s; split; [left| |]|by exists c', s; split; [right| |]|by left; exists s|by right; exists c', s].
Qed.

(** * Values of constants do not change names *)
Lemma names_set D (ps : dict string (par gv)) : nonconstant [seq (kq.1, set_par D kq.2) | kq <- ps] = nonconstant ps.
Proof.
rewrite /nonconstant -[[seq (_, _) | _ <- _]]/(hmap (set_par D) _) hmap_vals.
by elim: (dvals ps) => //= q l IH; rewrite set_cst; case: (is_cst q) => //=; rewrite set_name IH.
Qed.
Lemma kinds_set D l : [seq x.1.1 | x <- [seq (x.1.1, set_kind D x.1.2, x.2) | x <- l] & varying_kind x] = [seq x.1.1 | x <- l & varying_kind x].
Proof. by elim: l => //= -[[n k] mk] l IH; rewrite /varying_kind /=; case: k => /= *; rewrite IH. Qed.
Lemma signal_set D fns d : signal_names (set_fns D fns) (set_wdesc D fns d) = signal_names fns d.
Proof.
case: d => [[f|f n|g comb|g s comb|c pos cls comb]|e|o|g w]; cbn [set_wdesc set_desc signal_names plain_names].
- exact: names_set.
- exact: names_set.
- exact: names_set.
- by rewrite /set_gp; cbn [g_params g_coefs]; rewrite names_set -map_comp.
- rewrite /set_com; cbn [c_basis]; rewrite -![com_params _]/(all_params _) -![nonconstant _]/(free_names _); apply: eq_free.
  by rewrite /= !cats0 !map_cat /set_fns /= !view_set.
- by case: e => b n k ps idxs /=; case: k.
- by [].
- rewrite /set_wide; cbn [wd_efacs wd_equads wd_jumps]; by rewrite !filter_cat !map_cat !kinds_set.
Qed.
Lemma defaults_names_lem : forall D fns dss, array_names (set_defaults D fns dss).1 (set_defaults D fns dss).2 = array_names fns dss.
Proof.
move=> D fns dss; rewrite /array_names /set_defaults; cbn [fst snd]; rewrite -map_comp; congr flatten; apply: eq_map => ds /=.
by rewrite -map_comp; congr flatten; apply: eq_map => d /=; rewrite signal_set.
Qed.
