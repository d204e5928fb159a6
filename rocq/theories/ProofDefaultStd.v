(** The standard model with a dictionary of values for its constants. *)
From Coq Require Import Reals String ZArith.
From mathcomp Require Import all_ssreflect all_algebra.
From Verif Require Import RStruct PyBase ProofBase ModelSelect ProofSelect ModelFunc ModelCache ModelGp ProofGp ModelLinalg ProofLinalg ModelNoise ProofNoise ModelLike ProofLike ModelKernel ProofKernel ModelPhi ModelColl ProofColl ModelEcorr ProofEcorr ModelSigs ProofSigs ModelArray ProofArray ModelSized ProofSized ModelKinds ProofKinds ModelStandard ProofStdFn ProofStandard ModelDefault ProofDefault.
Set Implicit Arguments.
Unset Strict Implicit.
Unset Printing Implicit Defensive.
Import GRing.Theory.
Local Open Scope seq_scope.
Local Open Scope ring_scope.

(** * Specification *)
(** The model made with the values of the dictionary for the constants it names *)
Definition shape_with (D : dict string R) (s : shape) : shape :=
  match s with Power a b => Power (arg_with D a) (arg_with D b) | Free a => Free (arg_with D a) | Prior fn => Prior (class_with D fn) end.
Definition std_with (D : dict string R) (m : standard) : standard :=
  Standard (arg_with D (m_efac m)) (omap (arg_with D) (m_equad m)) (omap (arg_with D) (m_tnequad m)) (omap (kind_with D) (m_ecorr m))
    [seq Process (c_name c) (c_colour c) (shape_with D (c_shape c)) (c_n c) (c_T c) (c_sel c) | c <- m_procs m]
    (m_orf m) (shape_with D (m_gwshape m)) (m_gw m) (m_Tgw m).
(** Spectra other than power laws and free spectra show the constants of the functions they
    take, and their constants do not have the names of parameters *)
Definition known_shape (s : shape) : Prop := if s is Prior _ then False else True.
Definition settable_shape (s : shape) (insts : fcl -> seq fob) : Prop := if s is Prior fn then shown fn /\ clear (insts fn) else True.
Definition known_shapes (m : standard) (ps : seq psrdata) : Prop :=
  settable_shape (m_gwshape m) (fun fn => [:: inst fn "gw" None]) /\
  forall d c, List.In d ps -> List.In c (m_procs m) -> settable_shape (c_shape c) (fun fn => [seq selected (c_name c) (d_name d) (d_gv d) fn k | k <- dkeys (c_sel c d)]).

(** * Names of constants are not those of parameters *)
Definition parted (p : params R) (o : fob) : Prop := forall q, List.In q (pars_of o) -> is_cst q = ~~ isSome (dget string_dec p (par_name q)).
Lemma parted_clear p os : (forall o, List.In o os -> parted p o) -> clear os.
Proof. by move=> h o o' q q' /h h1 /h h2 /h1 -> /h2 -> ->. Qed.
Lemma parted1 D p a nm psr f k x : arg_has p (arg_with D a) (us_name [:: nm; k]) x -> parted p (inst (FC f "" [:: (k, a)]) nm psr).
Proof.
rewrite -(us_name_mid nm k); case: a => [c|v|[n c|n v]|c|o|v] //=; move=> h q; rewrite /pars_of /=; case=> // <- /=;
  by [rewrite h|case: h => _ ->].
Qed.
Lemma parted2 D p a b nm psr f k k' x y : k <> k' -> arg_has p (arg_with D a) (us_name [:: nm; k]) x -> arg_has p (arg_with D b) (us_name [:: nm; k']) y ->
  parted p (inst (FC f "" [:: (k, a); (k', b)]) nm psr).
Proof.
rewrite -(us_name_mid nm k) -(us_name_mid nm k') => ne.
case: a => [c|v|[n c|n v]|c|o|v] //=; case: b => [c'|v'|[n' c'|n' v']|c'|o'|v'] //= h h' q; rewrite /pars_of /=;
  repeat (case: string_dec => [e|_] //=);
  move=> i; repeat (case: i => [<-|i] //=); by [rewrite ?h ?h'|case: h => _ ->|case: h' => _ ->].
Qed.
Lemma parted_colour (S : Type) (seeded : Z -> S) next p c n T nm psr : parted p (inst (colour_class seeded next c n T) nm psr).
Proof. by case: c => [||[x|]]. Qed.
Lemma parted_orf p f nm psr : parted p (inst (FC f "" [::]) nm psr). Proof. by []. Qed.
Lemma no_colour (S : Type) (seeded : Z -> S) next c n T : no_functions (colour_class seeded next c n T).
Proof. by case: c => [||[x|]]; repeat constructor. Qed.
Lemma no2 f k k' p D a b n n' x y : arg_has p (arg_with D a) n x -> arg_has p (arg_with D b) n' y -> no_functions (FC f "" [:: (k, a); (k', b)]).
Proof. by case: a => [c|v|[? c|? v]|c|o|v] //; case: b => [c'|v'|[? c'|? v']|c'|o'|v'] // _ _; repeat constructor. Qed.
Lemma no1 f k p D a n x : arg_has p (arg_with D a) n x -> no_functions (FC f "" [:: (k, a)]).
Proof. by case: a => [c|v|[? c|? v]|c|o|v] // _; repeat constructor. Qed.
Lemma parted1v D p a nm psr f k l : arg_vec p (arg_with D a) (us_name [:: nm; k]) l -> parted p (inst (FC f "" [:: (k, a)]) nm psr).
Proof.
rewrite -(us_name_mid nm k); case: a => [c|v|[n c|n v]|c|o|v] //=; move=> h q; rewrite /pars_of /=; case=> // <- /=;
  by [rewrite h|case: h => _ ->].
Qed.
Lemma no1v f k p D a n l : arg_vec p (arg_with D a) n l -> no_functions (FC f "" [:: (k, a)]).
Proof. by case: a => [c|v|[? c|? v]|c|o|v] // _; repeat constructor. Qed.
Lemma no_shape p D s name psr T n A g rho : known_shape s -> shape_has p (shape_with D s) name psr T n A g rho -> no_functions (spectrum s).
Proof.
case: s => [a b|a|fn] //= _; last by move=> h; exact (no1v free_fn "log10_rho" h).
case=> h1 h2; exact (no2 powerlaw_fn "log10_A" "gamma" h1 h2).
Qed.
Lemma parted_shape p D s name psr psr' T n A g rho : known_shape s -> shape_has p (shape_with D s) name psr T n A g rho -> parted p (inst (spectrum s) (us_name name) psr').
Proof.
case: s => [a b|a|fn] //= _; rewrite -!us_name_nested; last by move=> h; exact (@parted1v D p a (us_name name) psr' free_fn "log10_rho"%string _ h).
case=> h1 h2; exact (@parted2 D p a b (us_name name) psr' powerlaw_fn "log10_A"%string "gamma"%string A g ltac:(by []) h1 h2).
Qed.
Lemma plain_no1 f k a : plain_arg a -> no_functions (FC f "" [:: (k, a)]).
Proof. by case: a => [c|v|[? c|? v]|c|o|v] // _; repeat constructor. Qed.
Lemma plain_no2 f k k' a b : plain_arg a -> plain_arg b -> no_functions (FC f "" [:: (k, a); (k', b)]).
Proof. by case: a => [c|v|[? c|? v]|c|o|v] //; case: b => [c'|v'|[? c'|? v']|c'|o'|v'] // _ _; repeat constructor. Qed.
Lemma plain_with D a : plain_arg (arg_with D a) -> plain_arg a.
Proof. by case: a => [c|v|[n q|n v]|c|o|v]. Qed.

Lemma in_app4 (A : Type) (x : A) a b c d : List.In x (List.app a (List.app b (List.app c d))) -> List.In x a \/ List.In x b \/ List.In x c \/ List.In x d.
Proof. by move=> i; have [|i1] := List.in_app_or _ _ _ i; [left|have [|i2] := List.in_app_or _ _ _ i1; [right; left|have [|] := List.in_app_or _ _ _ i2; right; right; [left|right]]]. Qed.
(** * The model *)
Section Std.
Variables (S : Type) (seeded : Z -> S) (next : S -> R * S) (argsort : seq R -> seq nat) (D : dict string R) (m : standard) (ps : seq psrdata) (span : R).
Lemma sources_with : [seq ([seq src_with D s | s <- c.1], c.2) | c <- std_array seeded next m span ps] = std_array seeded next (std_with D m) span ps.
Proof.
rewrite /std_array -![@List.map]/@map -map_comp; apply: eq_map => d /=; congr pair.
rewrite /std_signals -![@List.map]/@map; cbn [m_efac m_equad m_tnequad m_ecorr m_procs m_orf std_with m_gw].
rewrite -![@List.app]/@cat [RHS]/= !map_cat; congr (_ :: _ :: (_ ++ (_ ++ (_ ++ _)))).
- by rewrite /= /measurement_noise; case: (m_equad m).
- rewrite -!map_comp; apply: eq_map => c /=; rewrite /std_process /coloured_gp /fourier_gp; by case: (c_shape c) => [a b|a|fn]; case: (c_colour c) => [||[x|]].
- by case: (m_orf m).
- by case: (m_ecorr m).
- by case: (m_tnequad m).
Qed.
Lemma gw_clear p T A g rho : settable_shape (m_gwshape m) (fun fn => [:: inst fn "gw" None]) -> shape_has p (shape_with D (m_gwshape m)) [:: "gw"%string] None T (m_gw m) A g rho ->
  shown (spectrum (m_gwshape m)) /\ clear [:: inst (spectrum (m_gwshape m)) "gw" None].
Proof.
move=> ks h; have [kk|[fn e]] : known_shape (m_gwshape m) \/ exists fn, m_gwshape m = Prior fn by case: (m_gwshape m) => [a b|a|fn]; [left|left|right; exists fn].
  split; [exact: (plain_shown (no_shape kk h))|].
  by apply: (@parted_clear p) => o [<-|//]; exact: (@parted_shape p D _ [:: "gw"%string] None None _ _ _ _ _ kk h).
by rewrite e in ks *.
Qed.
Lemma settable_std p v c s (Tr : psrdata -> process -> string -> R) : known_shapes m ps -> (forall d c, List.In d ps -> List.In c (m_procs m) -> c_sel c d <> [::] /\ forall k, List.In k (dkeys (c_sel c d)) -> spans (c_T c) (sel_toas d (sel_mask (c_sel c d) k)) (Tr d c k)) -> (m_orf m -> common_span (m_Tgw m) [seq d_toas d | d <- ps] = Ok span) -> keys_ok (std_with D m) -> given (std_with D m) ps p v -> List.In c (std_array seeded next m span ps) -> List.In s c.1 -> settable (std_fns m) s.
Proof.
move=> [kg kc] hT hS [_ pe pq pt] [_ [gw [gp gg]]] /(proj1 (List.in_map_iff _ _ _)) [d [<- id]]; cbn [fst]; rewrite /std_signals; cbn [std_with m_efac m_equad m_tnequad] in pe, pq, pt.
move=> i; have [[<-|[<-|[]]]|[|[|]]] := in_app4 i; last move=> i'; last have [|] := List.in_app_or _ _ _ i'.
- by [].
- rewrite /measurement_noise; cbn [settable]; split.
    apply: plain_shown; move: pq; case: (m_equad m) => [q|] /= pq; [exact (plain_no2 combined_fn "efac" "log10_t2equad" (plain_with pe) (plain_with pq))|exact (plain_no1 efac_fn "efac" (plain_with pe))].
  apply: (@parted_clear p) => o /(proj1 (List.in_map_iff _ _ _)) [k [<- ik]]; have [h1 h2 _ _ _] := gw d k id ik; move: h1 h2; cbn [std_with m_efac m_equad].
  have e x : us_name [:: d_name d; k; x] = us_name [:: us_name [:: d_name d; ""%string; k]; x] by rewrite us_name_nested /= /us_name /=.
  case: (m_equad m) => [q|] /= h1 h2; rewrite /selected.
    by apply: (@parted2 D p _ _ _ _ _ _ _ (v_efac v (d_name d) k) (v_equad v (d_name d) k)) => //; rewrite -e.
  by apply: (@parted1 D p _ _ _ _ _ (v_efac v (d_name d) k)); rewrite -e.
- move/(proj1 (List.in_map_iff _ _ _)) => [c0 [<- ic]].
  have [ne hk] := hT d c0 id ic.
  have h1 k ik := gp d (Process (c_name c0) (c_colour c0) (shape_with D (c_shape c0)) (c_n c0) (c_T c0) (c_sel c0)) k _ id (List.in_map _ _ _ ic) ik (hk k ik).
  cbn [c_shape c_name c_n] in h1.
  have H : settable (std_fns m) (Plain (Proc (spectrum (c_shape c0)) (colour_class seeded next (c_colour c0) (c_n c0) (match c_T c0 with Some T => num T | None => none end)) (c_name c0) (d_name d) (d_gv d) (c_sel c0 d) true)).
    have [nf cl] : shown (spectrum (c_shape c0)) /\ clear [seq selected (c_name c0) (d_name d) (d_gv d) (spectrum (c_shape c0)) k | k <- dkeys (c_sel c0 d)].
      have ks := kc d c0 id ic; have [kk|[fn e]] : known_shape (c_shape c0) \/ exists fn, c_shape c0 = Prior fn by case: (c_shape c0) => [a b|a|fn]; [left|left|right; exists fn].
        split; first by case e: (c_sel c0 d) ne => [|[k0 mk] l] // _; exact: (plain_shown (no_shape kk (h1 k0 ltac:(by rewrite e; left)))).
        apply: (@parted_clear p) => o /(proj1 (List.in_map_iff _ _ _)) [k [<- ik]]; rewrite /selected.
        exact (@parted_shape p D _ [:: d_name d; c_name c0; k] _ (Some (d_gv d)) _ _ _ _ _ kk (h1 k ik)).
      by rewrite e in ks *.
    cbn [settable]; split; [exact: nf|exact: (plain_shown (@no_colour _ _ _ _ _ _))|].
    have ih (l : seq string) o q : List.In q (pars_of o) -> List.In o (flatten [seq [:: selected (c_name c0) (d_name d) (d_gv d) (spectrum (c_shape c0)) k; selected (c_name c0) (d_name d) (d_gv d) (colour_class seeded next (c_colour c0) (c_n c0) (match c_T c0 with Some T => num T | None => none end)) k] | k <- l]) ->
      List.In o [seq selected (c_name c0) (d_name d) (d_gv d) (spectrum (c_shape c0)) k | k <- l].
      by move=> iq; elim: l => [|k l IH] //= [<-|[e|/IH]]; [left|move: iq; rewrite -e; case: (c_colour c0) => [||[x|]]|right].
    by move=> o o' q q' io io' iq iq'; apply: (cl o o' q q' _ _ iq iq'); [exact: (ih _ o q)|exact: (ih _ o' q')].
  by move: H; rewrite /std_process /coloured_gp /fourier_gp; case: (c_colour c0).
- case mo: (m_orf m) => [k|] //; case=> [<-|//]; rewrite /fourier_common; cbn [settable]; split; first exact: (plain_shown (@no_colour _ seeded next Achromatic _ _)).
  have mo1 : m_orf m by rewrite mo.
  have h1 := gg span mo1 (hS mo1).
  have [_ cl] := gw_clear kg h1.
  move=> o o' q q' [<-|[<-|[<-|//]]] [<-|[<-|[<-|//]]] //; apply: cl; by left.
- by case: (m_ecorr m) => // k [<-|//].
- case et: (m_tnequad m) pt => [a|] //= pt [<-|//]; rewrite /tnequad_noise; cbn [settable]; split; first exact (plain_shown (plain_no1 tnequad_fn "log10_tnequad" (plain_with pt))).
  apply: (@parted_clear p) => o /(proj1 (List.in_map_iff _ _ _)) [k [<- ik]]; have [_ _ _ h _] := gw d k id ik; move: h; cbn [std_with m_tnequad]; rewrite et /selected => h.
  by apply: (@parted1 D p _ _ _ _ _ (v_tnequad v (d_name d) k)); rewrite us_name_nested /=; move: h; rewrite /us_name /=.
Qed.
Lemma fns_with p v : known_shapes m ps -> m_orf m -> common_span (m_Tgw m) [seq d_toas d | d <- ps] = Ok span -> given (std_with D m) ps p v -> set_fns D (std_fns m) = std_fns (std_with D m).
Proof.
move=> [kg _] mo hS [_ [_ [_ /(_ span mo hS) h1]]]; cbn [std_with m_gwshape m_gw] in h1.
have [nf cl0] := gw_clear kg h1.
rewrite /set_fns /std_fns; cbn [fst snd std_with m_gwshape m_orf].
set o1 := inst (spectrum _) "gw" None; set o2 := inst _ "gw" None.
have cl : clear [:: o1; o2] by move=> o o' q q' [<-|[<-|//]] [<-|[<-|//]] //; apply: cl0; by left.
have -> : set_fob (reach D (com_params [:: o1; o2])) o1 = inst (spectrum (shape_with D (m_gwshape m))) "gw" None.
  rewrite -[com_params _]/(all_params _) reach_set //; [|by left|by move=> n; exact: nf].
  have -> : spectrum (shape_with D (m_gwshape m)) = class_with D (spectrum (m_gwshape m)) by case: (m_gwshape m).
  exact: set_inst.
by [].
Qed.
Lemma colls_with fns (dss : seq (seq wdesc)) : warray_colls fns dss (std_array seeded next (std_with D m) span ps) = warray_colls fns dss (std_array seeded next m span ps).
Proof. by rewrite /warray_colls /std_array -![@List.map]/@map; elim: ps dss => [|d l IH] [|ds dss] //=; rewrite IH. Qed.
End Std.
Lemma standard_defaults_lem : forall (S : Type) (seeded : Z -> S) (next : S -> R * S) (argsort : seq R -> seq nat) (hash : forall n, 'cV[R]_n -> nat) (svd : forall k, 'M[R]_k -> 'M[R]_k * 'cV[R]_k)
  (D : dict string R) (m : standard) (ps : seq psrdata) (span : R) (Tr : psrdata -> process -> string -> R) dss, known_shapes m ps -> m_orf m <> None -> std_ok argsort hash (std_with D m) ps span Tr ->
  new_warray argsort (std_fns m) (std_array seeded next m span ps) = Ok dss ->
  exists epochs : values -> forall d, seq (seq 'I_(size (d_toas d)) * R), (forall v d, List.In d ps -> epochs_ok m v (epochs v d)) /\
  forall l : seq (string * params R * values), (forall t, List.In t l -> known_method t.1.1 /\ given (std_with D m) ps t.1.2 t.2) ->
    let a := set_defaults D (std_fns m) dss in
    run (z_ops hash svd (wcross a.1)) (warray_colls a.1 a.2 (std_array seeded next m span ps)) [seq ALike t.1.1 t.1.2 | t <- l] (warray_start a.2) =
    [seq Ok (RLike (Fin (std_term (std_with D m) span Tr t.2 (epochs t.2) ps))) | t <- l].
Proof.
move=> S seeded next argsort hash svd D m ps span Tr dss ks mo' ok md; have mo : m_orf m by case: (m_orf m) mo'.
have [dss' [md' [epochs [he H]]]] := @standard_likelihood_lem S seeded next argsort hash svd (std_with D m) ps span Tr mo' ok.
exists epochs; split; first by move=> v d id; have := he v d id; rewrite /epochs_ok /=; case: (m_ecorr m).
case=> [//|t l] h a; have [_ g] := h t (or_introl erefl); have [kk cm pk] := ok; have [_ _ hS _ _] := cm mo.
have hT d c : List.In d ps -> List.In c (m_procs m) -> c_sel c d <> [::] /\ forall k, List.In k (dkeys (c_sel c d)) -> spans (c_T c) (sel_toas d (sel_mask (c_sel c d) k)) (Tr d (Process (c_name c) (c_colour c) (shape_with D (c_shape c)) (c_n c) (c_T c) (c_sel c)) k).
  by move=> hd hc; have [_ _ _ h4 _] := pk d hd; have [ne _ _ sp] := h4 _ (List.in_map _ _ _ hc); split=> // k hk; have [] := sp k hk.
have ef := fns_with ks mo hS g.
have := @defaults_made_lem D argsort _ _ _ (fun c s => @settable_std S seeded next D m ps span _ _ c s (fun d c => Tr d (Process (c_name c) (c_colour c) (shape_with D (c_shape c)) (c_n c) (c_T c) (c_sel c))) ks hT (fun _ => hS) kk g) md.
rewrite -/a sources_with [a.1]ef md' => -[ed].
by have e2 : a.2 = dss' := esym ed; rewrite e2 -(colls_with seeded next D) H.
Qed.
Lemma noise_defaults_lem : forall (S : Type) (seeded : Z -> S) (next : S -> R * S) (argsort : seq R -> seq nat) (hash : forall n, 'cV[R]_n -> nat) (svd : forall k, 'M[R]_k -> 'M[R]_k * 'cV[R]_k)
  (D : dict string R) (m : standard) (ps : seq psrdata) (span : R) (Tr : psrdata -> process -> string -> R) dss, known_shapes m ps -> m_orf m = None -> m_gwshape m = Power (AVal none) (AVal none) ->
  std_ok argsort hash (std_with D m) ps span Tr -> new_warray argsort (std_fns m) (std_array seeded next m span ps) = Ok dss ->
  exists epochs : values -> forall d, seq (seq 'I_(size (d_toas d)) * R), (forall v d, List.In d ps -> epochs_ok m v (epochs v d)) /\
  forall l : seq (string * params R * values), (forall t, List.In t l -> known_method t.1.1 /\ given (std_with D m) ps t.1.2 t.2) ->
    let a := set_defaults D (std_fns m) dss in
    run (z_ops hash svd (wcross a.1)) (warray_colls a.1 a.2 (std_array seeded next m span ps)) [seq ALike t.1.1 t.1.2 | t <- l] (warray_start a.2) =
    [seq Ok (RLike (Fin (\sum_(d <- ps) own_term (std_with D m) span Tr t.2 (epochs t.2 d)))) | t <- l].
Proof.
move=> S seeded next argsort hash svd D m ps span Tr dss ks mo eA ok md.
have [dss' [md' [epochs [he H]]]] := @noise_likelihood_lem S seeded next argsort hash svd (std_with D m) ps span Tr mo ok.
exists epochs; split; first by move=> v d id; have := he v d id; rewrite /epochs_ok /=; case: (m_ecorr m).
case=> [//|t l] h a; have [_ g] := h t (or_introl erefl); have [kk cm pk] := ok.
have hT d c : List.In d ps -> List.In c (m_procs m) -> c_sel c d <> [::] /\ forall k, List.In k (dkeys (c_sel c d)) -> spans (c_T c) (sel_toas d (sel_mask (c_sel c d) k)) (Tr d (Process (c_name c) (c_colour c) (shape_with D (c_shape c)) (c_n c) (c_T c) (c_sel c)) k).
  by move=> hd hc; have [_ _ _ h4 _] := pk d hd; have [ne _ _ sp] := h4 _ (List.in_map _ _ _ hc); split=> // k hk; have [] := sp k hk.
have hS : m_orf m -> common_span (m_Tgw m) [seq d_toas d | d <- ps] = Ok span by rewrite mo.
have ef : set_fns D (std_fns m) = std_fns (std_with D m) by rewrite /set_fns /std_fns /= eA mo.
have := @defaults_made_lem D argsort _ _ _ (fun c s => @settable_std S seeded next D m ps span _ _ c s (fun d c => Tr d (Process (c_name c) (c_colour c) (shape_with D (c_shape c)) (c_n c) (c_T c) (c_sel c))) ks hT hS kk g) md.
rewrite -/a sources_with [a.1]ef md' => -[ed].
by have e2 : a.2 = dss' := esym ed; rewrite e2 -(colls_with seeded next D) H.
Qed.
