(** Proofs about [set_default_params]. *)
From Coq Require Import Reals String.
From mathcomp Require Import all_ssreflect all_algebra.
From Verif Require Import RStruct PyBase ProofBase ModelSelect ProofSelect ModelFunc ModelCache ModelGp ProofGp ModelColl ModelSigs ProofSigs ModelArray ModelSized ProofSized ModelKinds ProofKinds ModelDefault.
Set Implicit Arguments.
Unset Strict Implicit.
Unset Printing Implicit Defensive.
Local Open Scope seq_scope.

(** * Specification *)
(** Keywords, functions and signals as they would be made with the values of the dictionary
    for the constants it names *)
Definition default (D : dict string R) (name : string) (v : gv) : gv := if dget string_dec D name is Some x then GV (Sc x) else v.
Definition par_with (D : dict string R) (q : par gv) : par gv := if q is Cst n v then Cst n (default D n v) else q.
Fixpoint fob_with (D : dict string R) (o : fob) : fob :=
  let '(FObj n f psr kws ps defs fns) := o in
  FObj n f psr kws (List.map (fun kq => (fst kq, par_with D (snd kq))) ps) defs (List.map (fun ko => (fst ko, fob_with D (snd ko))) fns).
Fixpoint class_with (D : dict string R) (c : fcl) : fcl :=
  let '(FC f fname kws) := c in
  FC f fname (List.map (fun ka => (fst ka, match snd ka with
    | ACstC v => ACstC (fun n => default D n (v n))
    | AInst q => AInst (par_with D q)
    | AFunC g => AFunC (class_with D g)
    | AFun o => AFun (fob_with D o)
    | AParC g => AParC g
    | AVal v => AVal v
    end)) kws).
Definition arg_with (D : dict string R) (a : arg gv) : arg gv :=
  match a with
  | ACstC v => ACstC (fun n => default D n (v n))
  | AInst q => AInst (par_with D q)
  | AFunC g => AFunC (class_with D g)
  | AFun o => AFun (fob_with D o)
  | AParC g => AParC g
  | AVal v => AVal v
  end.
Definition kind_with (D : dict string R) (k : pkind) : pkind := if k is Fixed v then Fixed (fun n => if dget string_dec D n is Some x then Some x else v n) else k.
Definition src_with (D : dict string R) (s : wsrc) : wsrc :=
  match s with
  | Plain (White fn name psrname psr masks) => Plain (White (class_with D fn) name psrname psr masks)
  | Plain (Determ fn name psrname psr masks n) => Plain (Determ (class_with D fn) name psrname psr masks n)
  | Plain (Proc priorfn basisfn name psrname psr masks comb) => Plain (Proc (class_with D priorfn) (class_with D basisfn) name psrname psr masks comb)
  | Plain (Common basisfn name psrname psr pos cls comb) => Plain (Common (class_with D basisfn) name psrname psr pos cls comb)
  | Ecorr block kind psrname toas masks => Ecorr block (kind_with D kind) psrname toas masks
  | Wideband efac equad jump jref priorfn basisfn name psrname psr q sel jsel =>
      Wideband (kind_with D efac) (omap (kind_with D) equad) (omap (kind_with D) jump) jref priorfn basisfn name psrname psr q sel jsel
  | _ => s
  end.
(** No name is that of a constant and of a parameter. *)
Definition clear (os : seq fob) : Prop :=
  forall o o' q q', List.In o os -> List.In o' os -> List.In q (pars_of o) -> List.In q' (pars_of o') -> par_name q = par_name q' -> is_cst q = is_cst q'.
(** The constants of a function and of the functions it takes, and functions that show them
    all among their parameters: a function taken as keyword has its parameters under their own
    keywords there, where another one may take their place. *)
Fixpoint csts (o : fob) : seq string :=
  let '(FObj _ _ _ _ ps _ fns) := o in
  (List.map (@par_name _) (List.filter (@is_cst _) (dvals ps)) ++ flatten (List.map (fun ko => csts (snd ko)) fns))%list.
Definition shown (c : fcl) : Prop := forall nm psr n, List.In n (csts (inst c nm psr)) -> exists2 q, List.In q (pars_of (inst c nm psr)) & is_cst q /\ par_name q = n.
(** Signals for which it does not matter when the constants get their values: constants are
    shown, coefficients are not sampled, and DM jumps have no reference (which is a
    constant of its own) *)
Definition settable (fns : nat -> fob * fob) (s : wsrc) : Prop :=
  match s with
  | Plain (White fn name psrname psr masks) | Plain (Determ fn name psrname psr masks _) =>
      shown fn /\ clear [seq selected name psrname psr fn k | k <- dkeys masks]
  | Plain (Proc priorfn basisfn name psrname psr masks _) =>
      [/\ shown priorfn, shown basisfn & clear (flatten [seq [:: selected name psrname psr priorfn k; selected name psrname psr basisfn k] | k <- dkeys masks])]
  | Plain (Common basisfn name psrname psr _ cls _) =>
      shown basisfn /\ clear [:: (fns cls).1; (fns cls).2; inst basisfn (join_us [:: psrname; name]) (Some psr)]
  | Plain (Sampled _ _ _ _ _ _ _) => False
  | Wideband _ _ (Some _) (Some _) _ _ _ _ _ _ _ _ => False
  | _ => True
  end.
(** * Dictionaries *)
Section Dicts.
Variables (A B : Type) (h : A -> B).
Definition hmap (d : dict string A) : dict string B := [seq (x.1, h x.2) | x <- d].
Lemma hmap_dset d k v : hmap (dset string_dec d k v) = dset string_dec (hmap d) k (h v).
Proof. by elim: d => //= -[k' v'] d IH /=; case: string_dec => //= ne; rewrite IH. Qed.
Lemma hmap_fold (T : Type) (key : T -> string) (f : T -> A) l : forall d, hmap (List.fold_left (fun d x => dset string_dec d (key x) (f x)) l d) =
  List.fold_left (fun d x => dset string_dec d (key x) (h (f x))) l (hmap d).
Proof. by elim: l => //= x l IH d; rewrite IH hmap_dset. Qed.
Lemma hmap_vals d : dvals (hmap d) = [seq h x | x <- dvals d].
Proof. by rewrite /dvals -[@List.map]/@map -!map_comp. Qed.
Lemma hmap_dupdate d d2 : hmap (dupdate string_dec d d2) = dupdate string_dec (hmap d) (hmap d2).
Proof. by rewrite /dupdate; elim: d2 d => //= -[k v] d2 IH d; rewrite IH hmap_dset. Qed.
End Dicts.
(** * Functions that take functions *)
Fixpoint fcl_rec' (P : fcl -> Prop) (h : forall f fname kws, (forall k g, List.In (k, AFunC g) kws -> P g) -> P (FC f fname kws)) (c : fcl) : P c.
Proof.
refine (match c with FC f fname kws => h f fname kws _ end).
induction kws as [|[k a] l IHl]; intros k' g hin; [destruct hin|]; destruct hin as [e|i]; [|exact (IHl _ _ i)].
destruct a; try discriminate e; injection e as _ e'; rewrite <- e'; exact (fcl_rec' P h _).
Defined.
Fixpoint fob_rec' (P : fob -> Prop) (h : forall n f psr kws ps defs fns, (forall k o, List.In (k, o) fns -> P o) -> P (FObj n f psr kws ps defs fns)) (o : fob) : P o.
Proof.
refine (match o with FObj n f psr kws ps defs fns => h n f psr kws ps defs fns _ end).
induction fns as [|[k a] l IHl]; intros k' g hin; [destruct hin|]; destruct hin as [e|i]; [|exact (IHl _ _ i)].
injection e as _ e'; rewrite <- e'; exact (fob_rec' P h _).
Defined.
Lemma class_withE D f fname kws : class_with D (FC f fname kws) = FC f fname [seq (ka.1, arg_with D ka.2) | ka <- kws].
Proof. by rewrite /=; congr FC; apply: eq_map => -[k a] /=; case: a. Qed.
Lemma fob_withE D o : fob_with D o = set_fob D o.
Proof.
elim/fob_rec': o => n f psr kws ps defs fns H /=; congr FObj.
by elim: fns H => //= -[k o] l IH H; rewrite (H k o) ?IH //=; [move=> k' o' i; apply: (H k' o'); right|left].
Qed.
Lemma dget_filter (P : pred (string * R)) (D : dict string R) n : (forall x, P (n, x)) -> dget string_dec [seq kv <- D | P kv] n = dget string_dec D n.
Proof.
move=> h; elim: D => //= -[k x] D IH /=; case: string_dec => [e|ne]; first by subst k; rewrite h /=; case: string_dec.
by case: (P _) => //=; case: string_dec.
Qed.
Section Set1.
Variable D : dict string R.
Lemma set_name q : par_name (set_par D q) = par_name q. Proof. by case: q. Qed.
Lemma set_cst q : is_cst (set_par D q) = is_cst q. Proof. by case: q. Qed.
Lemma set_pars o : pars_of (set_fob D o) = [seq set_par D q | q <- pars_of o].
Proof. by case: o => n f psr kws ps defs fns; exact: hmap_vals. Qed.
Lemma set_params o : fo_params (set_fob D o) = hmap (set_par D) (fo_params o). Proof. by case: o. Qed.
Lemma set_inst c nm psr : set_fob D (inst c nm psr) = inst (class_with D c) nm psr.
Proof.
elim/fcl_rec': c nm psr => f fname kws H nm psr; rewrite class_withE !inst_step /=.
pose k3 := fun st : list (string * par gv) * list (string * gv) * list (string * fobj gv) => (hmap (set_par D) st.1.1, st.1.2, hmap (set_fob D) st.2).
have key st : k3 (List.fold_left (kw_step nm fname psr) kws st) = List.fold_left (kw_step nm fname psr) [seq (ka.1, arg_with D ka.2) | ka <- kws] (k3 st).
  elim: kws st H => //= -[k a] l IH st H; rewrite IH; last by move=> k' g i; apply: (H k' g); right.
  congr (List.fold_left _ _ _); case: st => [[ps defs] fs]; case: a H => [c|v|q|c|o|v] //= H; rewrite /k3 /= ?hmap_dset //.
  - by rewrite hmap_dupdate -set_params (H k c) //; left.
  - by rewrite hmap_dupdate -set_params fob_withE.
have := key ([::], [::], [::]); rewrite /k3 /=; case: (List.fold_left _ _ _) => -[a b] c /= <- /=.
by rewrite -![@List.map]/@map -map_comp.
Qed.
End Set1.
Lemma set_agree D D' o : (forall n, List.In n (csts o) -> dget string_dec D n = dget string_dec D' n) -> set_fob D o = set_fob D' o.
Proof.
elim/fob_rec': o => n f psr kws ps defs fns H h /=.
have e1 : [seq (kq.1, set_par D kq.2) | kq <- ps] = [seq (kq.1, set_par D' kq.2) | kq <- ps].
  have : forall n, List.In n (List.map (@par_name _) (List.filter (@is_cst _) (dvals ps))) -> dget string_dec D n = dget string_dec D' n by move=> x i; apply: h => /=; apply: List.in_or_app; left.
  elim: ps {h} => //= -[k q] ps IH h; rewrite IH; last by move=> x i; apply: h; case: (is_cst q) => //=; right.
  by congr cons; congr pair; case: q h => //= n' v h; rewrite (h n') //; left.
rewrite e1; congr FObj.
have : forall n, List.In n (flatten (List.map (fun ko => csts (snd ko)) fns)) -> dget string_dec D n = dget string_dec D' n by move=> x i; apply: h => /=; apply: List.in_or_app; right.
elim: fns H {h} => //= -[k o] fns IH H h; rewrite IH; first last.
- by move=> x i; apply: h; apply: List.in_or_app; right.
- by move=> k' o' i; apply: (H k' o'); right.
by rewrite (H k o) //=; [left|move=> x i; apply: h; apply: List.in_or_app; left].
Qed.
Lemma plain_csts c nm psr : no_functions c -> csts (inst c nm psr) = List.map (@par_name _) (List.filter (@is_cst _) (pars_of (inst c nm psr))).
Proof. by case: c => f fname kws h; rewrite inst_step /= step_fns //= List.app_nil_r. Qed.
Lemma plain_shown c : no_functions c -> shown c.
Proof.
move=> h nm psr n; rewrite plain_csts // => /(proj1 (List.in_map_iff _ _ _)) [q [e /(proj1 (List.filter_In _ _ _)) [i cq]]]; by exists q.
Qed.
Lemma reach_get D ps n q : List.In q (dvals ps) -> is_cst q -> par_name q = n -> dget string_dec (reach D ps) n = dget string_dec D n.
Proof.
move=> i c e; apply: dget_filter => x /=; elim: (dvals ps) i => //= q' l IH [->|/IH ->]; last by rewrite orbT.
by rewrite c e String.eqb_refl.
Qed.
(** What a signal reaches of the constants of its functions *)
Definition all_params (l : seq (par gv)) : dict string (par gv) := List.fold_left (fun d q => dset string_dec d (par_name q) q) l [::].
Lemma reach_all D (l : seq (par gv)) q : List.In q l -> is_cst q -> (forall q', List.In q' l -> par_name q' = par_name q -> is_cst q') ->
  dget string_dec (reach D (all_params l)) (par_name q) = dget string_dec D (par_name q).
Proof.
move=> i c u; have ik : List.In (par_name q) (dkeys (all_params l)) by apply: par_kept; left; exact: List.in_map.
have [[x q0] [/= ex iq]] := proj1 (List.in_map_iff _ _ _) ik; subst x.
have [[i0 e0]|[]] := in_fold_par _ _ _ _ iq.
apply: (@reach_get D (all_params l) (par_name q) q0) => //; last exact: u.
exact: (List.in_map snd _ _ iq).
Qed.
Lemma in_flat (T U : Type) (f : T -> seq U) x y l : List.In x l -> List.In y (f x) -> List.In y (flatten [seq f x | x <- l]).
Proof. by elim: l => //= z l IH [->|i] h; apply: List.in_or_app; [left|right; exact: IH]. Qed.
Lemma in_flat_inv (T U : Type) (f : T -> seq U) y l : List.In y (flatten [seq f x | x <- l]) -> exists2 x, List.In x l & List.In y (f x).
Proof. by elim: l => //= z l IH /(List.in_app_or _ _ _) [h|/IH [x ix h]]; [exists z => //; left|exists x => //; right]. Qed.
Lemma reach_set D os o : clear os -> List.In o os -> (forall n, List.In n (csts o) -> exists2 q, List.In q (pars_of o) & is_cst q /\ par_name q = n) ->
  set_fob (reach D (all_params (flatten [seq pars_of o | o <- os]))) o = set_fob D o.
Proof.
move=> cl io fo; apply: set_agree => n /fo [q iq [c <-]]; apply: reach_all => //; first exact: (@in_flat _ _ pars_of _ _ _ io iq).
by move=> q' i0 e; have [o' io' iq'] := @in_flat_inv _ _ pars_of _ _ i0; rewrite (cl o' o q' q).
Qed.
Lemma reach_par D os o q : clear os -> List.In o os -> List.In q (pars_of o) -> set_par (reach D (all_params (flatten [seq pars_of o | o <- os]))) q = set_par D q.
Proof.
move=> cl io iq; case: q iq => //= n v iq; rewrite (@reach_all D _ (Cst n v)) //; first exact: (@in_flat _ _ pars_of _ _ _ io iq).
by move=> q' i0 e; have [o' io' iq'] := @in_flat_inv _ _ pars_of _ _ i0; rewrite (cl o' o q' (Cst n v)).
Qed.
Lemma all_set D l : [seq (kq.1, set_par D kq.2) | kq <- all_params l] = all_params [seq set_par D q | q <- l].
Proof.
rewrite /all_params -[LHS]/(hmap _ _) hmap_fold /=; elim: l [::] => //= q l IH d; rewrite IH; congr (List.fold_left _ _ _).
by rewrite set_name.
Qed.

(** * Signals *)
Section Signals.
Variables (D : dict string R) (argsort : seq R -> seq nat) (fns : nat -> fob * fob).
Lemma fold_keys (h : string -> seq (par gv)) keys : forall d, List.fold_left (fun d key => List.fold_left (fun d q => dset string_dec d (par_name q) q) (h key) d) keys d =
  List.fold_left (fun d q => dset string_dec d (par_name q) q) (flatten [seq h k | k <- keys]) d.
Proof. by elim: keys => //= k keys IH d; rewrite IH -[_ ++ _]/(List.app _ _) List.fold_left_app. Qed.
Lemma keys_in (masks : dict string mask) k : List.In k (sorted_keys masks) -> List.In k (dkeys masks).
Proof. by move=> i; apply: (Permutation.Permutation_in _ _ i); exact: isort_perm. Qed.
Lemma eq_dict (A : Type) (h h' : string -> A) keys d : (forall k, List.In k keys -> h k = h' k) ->
  List.fold_left (fun d key => dset string_dec d key (h key)) keys d = List.fold_left (fun d key => dset string_dec d key (h' key)) keys d.
Proof. by elim: keys d => //= k keys IH d e; rewrite (e k (or_introl erefl)) IH // => k' i; apply: e; right. Qed.
Lemma eq_flat (T U : Type) (f g : T -> seq U) l : (forall x, List.In x l -> f x = g x) -> flatten [seq f x | x <- l] = flatten [seq g x | x <- l].
Proof. by elim: l => //= x l IH e; rewrite (e x (or_introl erefl)) IH // => y i; apply: e; right. Qed.
Lemma map_flat (T U V : Type) (g : U -> V) (f : T -> seq U) l : [seq g y | y <- flatten [seq f x | x <- l]] = flatten [seq [seq g y | y <- f x] | x <- l].
Proof. by elim: l => //= x l IH; rewrite map_cat IH. Qed.
Lemma clear_sub os os' : (forall o, List.In o os' -> List.In o os) -> clear os -> clear os'.
Proof. by move=> s c o o' q q' /s i /s i'; exact: c. Qed.
(** Dictionaries of functions and of parameters made for each selection *)
Section Dict.
Variables (c : fcl) (nm : string -> string) (psr : gv) (keys : seq string) (D' : dict string R).
Hypothesis (nf : shown c) (eD : forall k, List.In k keys -> set_fob D' (inst c (nm k) (Some psr)) = set_fob D (inst c (nm k) (Some psr))).
Lemma set_dict : [seq (ko.1, set_fob D' ko.2) | ko <- List.fold_left (fun d key => dset string_dec d key (inst c (nm key) (Some psr))) keys [::]] =
  List.fold_left (fun d key => dset string_dec d key (inst (class_with D c) (nm key) (Some psr))) keys [::].
Proof. by rewrite -[LHS]/(hmap _ _) hmap_fold /=; apply: eq_dict => k ik; rewrite eD // set_inst. Qed.
End Dict.
Lemma set_fsel_made fn name psrname psr masks f : shown fn -> clear [seq selected name psrname psr fn k | k <- dkeys masks] ->
  new_fsel fn name psrname psr masks = Ok f -> new_fsel (class_with D fn) name psrname psr masks = Ok (set_fsel D f).
Proof.
move=> nf cl; rewrite /new_fsel; case: (rmapM _ _) => //= ms -[<-]; rewrite /set_fsel /=; congr Ok.
pose ps : dict string (par gv) := List.fold_left (fun d key => List.fold_left (fun d q => dset string_dec d (par_name q) q) (pars_of (inst fn (pname psrname name key) (Some psr))) d) (sorted_keys masks) [::]; rewrite -/ps.
have eps : ps = all_params (flatten [seq pars_of o | o <- [seq selected name psrname psr fn k | k <- sorted_keys masks]]) by rewrite /ps fold_keys -map_comp.
have cl' : clear [seq selected name psrname psr fn k | k <- sorted_keys masks].
  by apply: clear_sub cl => o /(proj1 (List.in_map_iff _ _ _)) [k [<- ik]]; apply: List.in_map; exact: keys_in.
have er k : List.In k (sorted_keys masks) -> set_fob (reach D ps) (selected name psrname psr fn k) = set_fob D (selected name psrname psr fn k).
  by move=> ik; rewrite eps; apply: reach_set => //; [exact: List.in_map|by move=> n; exact: nf].
congr FSel; first by rewrite -(set_dict (D' := reach D ps)).
rewrite fold_keys {2}eps all_set /all_params; congr (List.fold_left _ _ _); rewrite -map_comp map_flat.
apply: eq_flat => k ik /=; rewrite -[inst (class_with D fn) _ _](set_inst D) // -/(selected name psrname psr fn k) -er // set_pars //.
Qed.
Lemma set_gp_made priorfn basisfn name psrname psr masks g s : shown priorfn -> shown basisfn ->
  clear (flatten [seq [:: selected name psrname psr priorfn k; selected name psrname psr basisfn k] | k <- dkeys masks]) ->
  new_gp priorfn basisfn false name psrname psr masks = Ok (g, s) -> new_gp (class_with D priorfn) (class_with D basisfn) false name psrname psr masks = Ok (set_gp D g, s).
Proof.
move=> nf nb cl; rewrite /new_gp /gp_functions; case: (rmapM _ _) => //= ms -[<- <-]; rewrite /set_gp /=; congr (Ok (_, _)).
set os := flatten [seq [:: selected name psrname psr priorfn k; selected name psrname psr basisfn k] | k <- sorted_keys masks].
pose ps : dict string (par gv) := List.fold_left (fun d key => List.fold_left (fun d q => dset string_dec d (par_name q) q) (pars_of (inst priorfn (pname psrname name key) (Some psr)) ++ pars_of (inst basisfn (pname psrname name key) (Some psr)))%list d) (sorted_keys masks) [::]; rewrite -/ps.
have eps : ps = all_params (flatten [seq pars_of o | o <- os]).
  rewrite /ps (fold_keys (fun key => (pars_of _ ++ pars_of _)%list)) /all_params; congr (List.fold_left _ _ _).
  by rewrite /os; elim: (sorted_keys masks) => //= k l ->; rewrite -catA.
have cl' : clear os.
  pose two k := [:: selected name psrname psr priorfn k; selected name psrname psr basisfn k].
  by apply: clear_sub cl => o io; have [k ik io'] := @in_flat_inv _ _ two _ _ io; apply: (@in_flat _ _ two k) => //; exact: keys_in.
have e1 k : List.In k (sorted_keys masks) -> set_fob (reach D ps) (selected name psrname psr priorfn k) = set_fob D (selected name psrname psr priorfn k).
  by move=> ik; rewrite eps; apply: reach_set => //; [apply: (@in_flat _ _ (fun k => [:: _; _]) k) => //; left|by move=> n; exact: nf].
have e2 k : List.In k (sorted_keys masks) -> set_fob (reach D ps) (selected name psrname psr basisfn k) = set_fob D (selected name psrname psr basisfn k).
  by move=> ik; rewrite eps; apply: reach_set => //; [apply: (@in_flat _ _ (fun k => [:: _; _]) k) => //; right; left|by move=> n; exact: nb].
congr GP; [by rewrite -(set_dict (D' := reach D ps))|by rewrite -(set_dict (D' := reach D ps))|].
rewrite (fold_keys (fun key => (pars_of _ ++ pars_of _)%list)) {2}/ps (fold_keys (fun key => (pars_of _ ++ pars_of _)%list)) -/(all_params _) all_set /all_params; congr (List.fold_left _ _ _); rewrite map_flat.
apply: eq_flat => k ik /=; rewrite -[inst (class_with D priorfn) _ _](set_inst D) // -[inst (class_with D basisfn) _ _](set_inst D) // -[RHS]/(List.map _ (List.app _ _)) List.map_app.
by rewrite -/(selected name psrname psr priorfn k) -/(selected name psrname psr basisfn k) -e1 // -e2 // !set_pars.
Qed.

(** Names of the parameters that are not constant *)
Definition view (q : par gv) : string * bool := (par_name q, is_cst q).
Definition free_names (d : dict string (par gv)) : seq string := List.map (@par_name _) (List.filter (fun p => negb (is_cst p)) (dvals d)).
Lemma free_namesE l : free_names (all_params l) = [seq x.1 | x <- [seq y <- dvals (List.fold_left (fun d x => dset string_dec d x.1 x) [seq view q | q <- l] [::]) | ~~ y.2]].
Proof.
have -> : List.fold_left (fun d x => dset string_dec d x.1 x) [seq view q | q <- l] [::] = hmap view (all_params l).
  by rewrite /all_params hmap_fold /=; elim: l [::] => //= q l IH d; rewrite IH.
by rewrite hmap_vals /free_names; elim: (dvals _) => //= q d; case: (is_cst q) => //= ->.
Qed.
Lemma eq_free l l' : [seq view q | q <- l] = [seq view q | q <- l'] -> free_names (all_params l) = free_names (all_params l').
Proof. by move=> e; rewrite !free_namesE e. Qed.
Lemma view_set D' o : [seq view q | q <- pars_of (set_fob D' o)] = [seq view q | q <- pars_of o].
Proof. by rewrite set_pars -map_comp; apply: eq_map => q; rewrite /view /= set_name set_cst. Qed.
Lemma set_com_made basisfn name psrname psr cls : shown basisfn -> clear [:: (fns cls).1; (fns cls).2; inst basisfn (join_us [:: psrname; name]) (Some psr)] ->
  new_cgp (class_with D basisfn) (set_fns D fns cls).1 (set_fns D fns cls).2 None name psrname psr = set_com D (fns cls) (new_cgp basisfn (fns cls).1 (fns cls).2 None name psrname psr).
Proof.
move=> nf cl; rewrite /new_cgp /set_com; cbn [c_basis c_names c_coef].
rewrite -(set_inst D) //; congr CGP.
  by rewrite -[com_params _]/(all_params _) reach_set //; [right; right; left|by move=> n; exact: nf].
rewrite -![List.map _ (List.filter _ _)]/(free_names _); congr (_ ++ _)%list.
by rewrite -![List.fold_left _ _ _]/(all_params _); apply: eq_free; rewrite -![List.app _ _]/(_ ++ _) !map_cat !view_set.
Qed.
Lemma set_sig_made s d : settable fns s -> new_wsig argsort fns s = Ok d -> new_wsig argsort (set_fns D fns) (src_with D s) = Ok (set_wdesc D fns d).
Proof.
case: s => [[fn name psrname psr masks|fn name psrname psr masks n|priorfn basisfn name psrname psr masks comb|?????? comb|basisfn name psrname psr pos cls comb]|block kind psrname toas masks|basisfn name psrname psr|efac equad jump jref priorfn basisfn name psrname psr q sel jsel]; cbn [settable src_with new_wsig new_sig] => //.
- by case=> nf cl; case E: (new_fsel _ _ _ _ _) => [f|] // -[<-]; rewrite (set_fsel_made _ _ E).
- by case=> nf cl; case E: (new_fsel _ _ _ _ _) => [f|] // -[<-]; rewrite (set_fsel_made _ _ E).
- by case=> nf nb cl; case E: (new_gp _ _ _ _ _ _ _) => [[g s]|] // -[<-]; rewrite (set_gp_made _ _ _ E).
- by case=> nf cl [<-]; rewrite set_com_made.
- by move=> _; rewrite /new_ecorr; case: selection_call => ps ms; case: (ecorr_idxs _ _ _) => //= idxs -[<-].
- by move=> _ [<-].
move=> hj; case: (new_gp priorfn basisfn false name psrname psr (everywhere q)) => [[g s]|e] //; cbn [rbind fst]; rewrite /new_wide; case: ifP => // _.
have -> : isSome (omap (kind_with D) jump) = isSome jump by case: jump {hj}.
have par suffix (k k' : string -> pkind) m : (forall key, k' key = set_kind D (k key)) ->
  wide_pars psrname suffix k' m = [seq (x.1.1, set_kind D x.1.2, x.2) | x <- wide_pars psrname suffix k m].
  by move=> e; rewrite /wide_pars -map_comp; apply: eq_map => km /=; rewrite e.
case: (ModelWide.wb_init _ _ _ _ _) => //= bins -[<-]; rewrite /set_wide /=; congr (Ok (WWideband _ _)).
have e1 : wide_pars psrname "dmefac" (fun _ => kind_with D efac) sel = [seq (x.1.1, set_kind D x.1.2, x.2) | x <- wide_pars psrname "dmefac" (fun _ => efac) sel] by exact: par.
have e2 : (if omap (kind_with D) equad is Some k then wide_pars psrname "log10_dmequad" (fun _ => k) sel else [::]) =
  [seq (x.1.1, set_kind D x.1.2, x.2) | x <- if equad is Some k then wide_pars psrname "log10_dmequad" (fun _ => k) sel else [::]].
  by case: (equad) => //= k; exact: par.
rewrite e1 e2; congr Wide; case: jump hj => [k|] //=; case: jref => //= _; exact: par.
Qed.
Lemma set_sigs_made ss ds : (forall s, List.In s ss -> settable fns s) -> rmapM (new_wsig argsort fns) ss = Ok ds ->
  rmapM (new_wsig argsort (set_fns D fns)) [seq src_with D s | s <- ss] = Ok [seq set_wdesc D fns d | d <- ds].
Proof.
elim: ss ds => [|s ss IH] ds h /=; first by case=> <-.
case E: (new_wsig argsort fns s) => [d|] //=; case E2: (rmapM _ ss) => [ds'|] //= -[<-].
by rewrite (set_sig_made _ E) /=; [rewrite (IH ds') // => x ix; apply: h; right|apply: h; left].
Qed.
End Signals.
Lemma defaults_made_lem D argsort fns (arr : seq (seq wsrc * seq R)) dss : (forall c s, List.In c arr -> List.In s c.1 -> settable fns s) ->
  new_warray argsort fns arr = Ok dss ->
  new_warray argsort (set_defaults D fns dss).1 [seq ([seq src_with D s | s <- c.1], c.2) | c <- arr] = Ok (set_defaults D fns dss).2.
Proof.
rewrite /new_warray /set_defaults /=; elim: arr dss => [|c arr IH] dss h /=; first by case=> <-.
case E: (rmapM _ c.1) => [ds|] //=; case E2: (rmapM _ arr) => [dss'|] //= -[<-].
by rewrite (set_sigs_made D _ E) /=; [rewrite (IH dss') // => c' s ic; apply: h; right|move=> s; apply: h; left].
Qed.
