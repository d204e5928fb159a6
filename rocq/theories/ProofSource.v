(** The likelihood of arrays made from sources, and an example. *)
From Coq Require Import Reals String Lra.
From mathcomp Require Import all_ssreflect all_algebra.
From mathcomp.zify Require Import zify.
From Verif Require Import RStruct PyBase ProofBase ModelSelect ModelFunc ModelCache ModelGp ProofGp ModelLinalg ProofLinalg ModelNoise ProofNoise ModelLike ProofLike ModelKernel ProofKernel ModelPhi ModelColl ProofColl ModelSigs ProofSigs ModelArray ProofArray ProofJoint ProofCorr ProofArrayEx ModelSized ProofSrc ProofSized.
Set Implicit Arguments.
Unset Strict Implicit.
Unset Printing Implicit Defensive.
Import GRing.Theory Num.Theory Order.TTheory.
Local Open Scope seq_scope.
Local Open Scope ring_scope.

(** * Specification *)
(** The common process of class [k0] of a pulsar: its place among the signals, its basis
    and its prior *)
Definition member (fns : nat -> fob * fob) (p : params R) (k0 K : nat) (phi : 'cV[R]_K) (c : seq src * seq R) (x : cpsr K) : Prop :=
  exists basisfn name psrname psr pos comb rows lab phil,
    List.nth_error c.1 (cp_j x) = Some (Common basisfn name psrname psr pos k0 comb) /\
    gcall (inst basisfn (join_us [:: psrname; name]) (Some psr)) [::] [::] p = Ok (GPair (GMat K rows) lab) /\
    cp_F x = \matrix_(i, j) nth 0 (nth [::] rows i) j /\
    gcall (fns k0).1 [:: lab] [::] p = Ok (GV (Vec phil)) /\ List.length phil = K /\ phi = \col_j nth 0 phil j.
(** No other signal of the pulsar is common. *)
Definition sole (k0 K : nat) (c : seq src * seq R) (x : cpsr K) : Prop :=
  forall j s, List.nth_error c.1 j = Some s -> source_class s = if Nat.eqb j (cp_j x) then Some k0 else None.
(** The correlation of two pulsars is that of their positions. *)
Definition correlation (fns : nat -> fob * fob) (arr : seq (seq src * seq R)) (p : params R) (k0 : nat) (orf : nat -> nat -> R) (xs : seq (nat * nat)) : Prop :=
  forall x y b nm pn psr pos cb b' nm' pn' psr' pos' cb', List.In x xs -> List.In y xs -> (x.1 <= y.1)%N ->
    source_at arr x = Some (Common b nm pn psr pos k0 cb) -> source_at arr y = Some (Common b' nm' pn' psr' pos' k0 cb') ->
    gcall (fns k0).2 [:: pos; pos'] [::] p = Ok (GV (Sc (orf x.1 y.1))).

Section Main.
Variables (hash : forall n, 'cV[R]_n -> nat) (svd : forall k, 'M[R]_k -> 'M[R]_k * 'cV[R]_k).
Variables (fns : nat -> fob * fob) (arr : seq (seq src * seq R)) (dss : seq (seq desc)).
Hypothesis pr : forall c s, List.In c arr -> List.In s c.1 -> proper s.
Hypothesis made_dss : new_array fns arr = Ok dss.
Notation dom := (permitted fns arr).
Notation ms := (models fns arr dss).
Notation op := (z_ops hash svd (cross_z fns)).
Lemma ask_all (T : Type) (l : seq T) (method : T -> string) (par : T -> params R) (val : T -> lval) :
  (forall t, List.In t l -> dom (par t) /\ v_like op (crossz_of fns dss) ms (method t) (par t) = Ok (val t)) ->
  run op (array_colls fns dss arr) [seq ALike (method t) (par t) | t <- l] (array_start dss) = [seq Ok (RLike (val t)) | t <- l].
Proof.
move=> H; rewrite -models_fst.
transitivity (List.map Ok [seq RLike (val t) | t <- l] : seq (result (ans nz dz fz pz phz out (R * R) lval))); last by elim: (l) => [|t l0 IH] //=; congr cons.
apply: (@array_history_lem _ _ _ _ _ _ _ _ _ _ _ _ _ op dom (crossz_of fns dss) (@dom_flat fns arr) (@dom_nil fns arr) ms).
- exact: models_sound.
- exact: models_commons.
- exact: models_inv.
- by elim: l H => [|t l IH] H; constructor; [have [h e] := H t (or_introl erefl); split=> //=; rewrite e|apply: IH => t' i; apply: H; right].
Qed.
Lemma seen_models p (qs : seq psr_model) : dom p -> List.Forall2 (fun c q => psr_adds fns p c (pm q) /\ good_psr hash q) arr qs ->
  List.Forall2 (fun m q => psr_seen p m (pm q) /\ good_psr hash q) ms qs.
Proof.
move=> dp S; have S1 : List.Forall2 (fun c v => psr_adds fns p c v) arr [seq pm q | q <- qs] by elim: S => [|c q l l' [h _] _ IH]; constructor.
have S2 : List.Forall (good_psr hash) qs by elim: {S1} S => [|c q l l' [_ h] _ IH]; constructor.
have := models_seen pr made_dss dp S1; move: {S S1} ms => M; elim: qs M S2 => [|q qs IH] M S2 H; inversion_clear H; first by constructor.
by inversion_clear S2; constructor=> //; apply: IH.
Qed.
Lemma sources_value method p qs : alone_in arr -> dom p -> known_method method -> List.Forall2 (fun c q => psr_adds fns p c (pm q) /\ good_psr hash q) arr qs ->
  v_like op (crossz_of fns dss) ms method p = Ok (Fin (\sum_(q <- qs) psr_term q)).
Proof.
move=> al dp km S; have S' := seen_models dp S.
apply: (like_value svd (cross_z fns) (@dom_nil fns arr) dp (crossz_of fns dss) (models_sound pr made_dss) _ S' km).
move=> ij ij' m m' b b' k /(models_at made_dss) [s [d [e _ es -> _]]] /(models_at made_dss) [s' [d' [e' _ es' -> _]]].
rewrite (sized_class es) (sized_class es'); exact: al.
Qed.
Lemma nth_F2 (A B : Type) (P : A -> B -> Prop) l m i x : List.Forall2 P l m -> List.nth_error l i = Some x -> exists y, List.nth_error m i = Some y /\ P x y.
Proof. by move=> F; elim: F i => [|a b l' m' h _ IH] [|i] //=; [move=> [<-]; exists b|exact: IH]. Qed.
Lemma nth_add n p ss (ws : seq (view n)) j s : all_add fns p ss ws -> List.nth_error ss j = Some s -> exists w, List.nth_error ws j = Some w /\ adds fns p s w.
Proof. by move=> F; elim: F j => [|a b l' m' h _ IH] [|j] //=; [move=> [<-]; exists b|exact: IH]. Qed.
Lemma col_prior K (l : seq R) : List.length l = K -> existT phi_t (size l) (PhiD (to_col l)) = existT phi_t K (PhiD (\col_(j < K) nth 0 l j)).
Proof. by move=> <-. Qed.
Lemma in_nth (A : Type) (l : seq A) x : List.In x l -> exists i, List.nth_error l i = Some x.
Proof. exact: List.In_nth_error. Qed.
Lemma adds_vector n p ss (ws : seq (view n)) : all_add fns p ss ws -> forall s, List.In s (pmap (@w_basis n) ws) -> is_vector (bphi s).
Proof.
elim=> [|s w l l' [_ h] _ IH] //= b; case E: (w_basis w) => [bs|] /=; last exact: IH.
case=> [<-|]; last exact: IH.
case: s h => [fn name psrname psr masks|fn name psrname psr masks m|priorfn basisfn name psrname psr masks comb|priorfn basisfn name psrname psr masks comb|basisfn name psrname psr pos cls comb].
- by move=> [val [_ [_ e]]]; move: E; rewrite e.
- by move=> [val [d [_ [_ [_ e]]]]]; move: E; rewrite e.
- by move=> [bl [bl0 [phis [_ [_ [_ [_ e]]]]]]]; move: E; rewrite e /= => -[<-].
- by move=> [bl [bl0 [cs [_ [_ [_ e]]]]]]; move: E; rewrite e.
- by move=> [nc [rows [lab [rows0 [lab0 [phi [x [_ [_ [_ [_ [_ [_ [_ [_ [_ e]]]]]]]]]]]]]]]]; move: E; rewrite e /= => -[<-].
Qed.
Lemma sources_correlated method p k0 K (orf : nat -> nat -> R) (phi : 'cV[R]_K) (xs : seq (cpsr K)) : dom p -> known_method method ->
  List.Forall2 (fun c x => [/\ psr_adds fns p c (pm (cp_q x)), good_psr hash (cp_q x), member fns p k0 phi c x & sole k0 c x]) arr xs ->
  [seq cp_i x | x <- xs] = iota 0 (size xs) -> (1 < size xs)%N -> correlation fns arr p k0 orf [seq (cp_i x, cp_j x) | x <- xs] ->
  posdef (\matrix_(i < size xs, j < size xs) orf i j) -> (forall k, 0 < phi k ord0) ->
  v_like op (crossz_of fns dss) ms method p = Ok (Fin (joint_term orf phi xs)).
Proof.
move=> dp km S num two co pG pp.
have S1 : List.Forall2 (fun c q => psr_adds fns p c (pm q) /\ good_psr hash q) arr [seq cp_q x | x <- xs] by elim: S {num two co pG} => [|c x l l' [h1 h2 _ _] _ IH]; constructor.
have idx x i : List.nth_error xs i = Some x -> cp_i x = i.
  move=> e; have := erefl (List.nth_error [seq cp_i x | x <- xs] i); rewrite {1}num List.nth_error_map e /=.
  have lt : (i < size xs)%coq_nat by apply/List.nth_error_Some; rewrite e.
  have -> : List.nth_error (iota 0 (size xs)) i = Some i; last by move=> [].
  move: lt; clear; move: (size xs) => m; rewrite -[in RHS](add0n i); elim: m i (0%N) => [|m IH] [|i] o lt /=; try lia; first by rewrite addn0.
  by rewrite IH ?addSnnS //; lia.
have at_ x : List.In x xs -> exists c, [/\ List.nth_error arr (cp_i x) = Some c, psr_adds fns p c (pm (cp_q x)), member fns p k0 phi c x & sole k0 c x].
  move=> hx; have [i e] := in_nth hx; have ei := idx _ _ e.
  have F : List.Forall2 (fun x c => [/\ psr_adds fns p c (pm (cp_q x)), good_psr hash (cp_q x), member fns p k0 phi c x & sole k0 c x]) xs arr.
    by elim: S {num two co pG S1 idx e ei} => [|a b l l' h _ IH]; constructor.
  by have [c [ec [h1 h2 h3 h4]]] := nth_F2 F e; exists c; rewrite ei.
have place x : List.In x xs -> forall b nm pn psr pos cb, source_at arr (cp_i x, cp_j x) = Some (Common b nm pn psr pos k0 cb) ->
    gcall (fns k0).2 [:: pos; pos] [::] p = Ok (GV (Sc (orf (cp_i x) (cp_i x)))).
  by move=> hx b nm pn psr pos cb e; apply: (co _ _ _ _ _ _ _ _ _ _ _ _ _ _ _ _ (leqnn _) e e); exact: (in_seq_map (fun x => (cp_i x, cp_j x))).
have com x : List.In x xs -> has_common orf phi x.
  move=> hx; have [c [ec [_ [_ ha]] [b [nm [pn [psr [pos [cb [rows [lab [phil [es [eb [eF [ep [lp ephi]]]]]]]]]]]]]] _]] := at_ x hx.
  have [w [ew [_ [nc [rows' [lab' [rows0 [lab0 [phi' [y [e1 [_ [_ [_ [_ [_ [e2 [_ [e3 e4]]]]]]]]]]]]]]]]]]] := nth_add ha es.
  have sx : source_at arr (cp_i x, cp_j x) = Some (Common b nm pn psr pos k0 cb) by rewrite /source_at /= ec.
  move: (place x hx _ _ _ _ _ _ sx); rewrite e3 => -[ey].
  move: e1; rewrite eb => -[enc erows elab]; subst nc rows' lab'; move: e2; rewrite ep => -[ephil]; subst phi'.
  exists w; eexists; eexists; split; first exact: ew.
  rewrite e4 /= eF; congr (Some (BSig _ (PhiD _) _ _)).
  by apply/matrixP=> i j; rewrite ephi !mxE ey mulrC.
have S2 : List.Forall2 (fun c x => [/\ psr_seen p c (pm (cp_q x)), good_psr hash (cp_q x), has_common orf phi x & one_common k0 c x]) ms xs.
  have H1 := seen_models dp S1.
  have H2 : List.Forall2 (fun m c => forall x : cpsr K, sole k0 c x -> one_common k0 m x) ms arr.
    apply: (models_ind made_dss) => c ds ic F x so j m /=; rewrite List.nth_error_map.
    case e: (List.nth_error ds j) => [d|] //= [<-].
    have F' : List.Forall2 (fun d s => new_sig fns s = Ok d) ds c.1 by elim: F => [|a b l l' h _ IH]; constructor.
    by have [s [es hs]] := nth_F2 F' e; rewrite (sized_class hs); exact: so.
  have H3 : List.Forall2 (fun (c : seq src * seq R) x => has_common orf phi x /\ sole k0 c x) arr xs.
    elim: S com {num two co pG S1 idx at_ place H1} => [|c x l l' [_ _ _ h] _ IH] com; constructor; first by split=> //; apply: com; left.
    by apply: IH => y hy; apply: com; right.
  move: {S S1 num two co pG idx at_ place com} ms H1 H2 => M H1 H2.
  elim: H2 xs H1 H3 => [|m c l l' h _ IH] ys H1 H3; first by inversion_clear H3; constructor.
  inversion H3 as [|? y ? ys' hcs H3']; subst ys; inversion H1 as [|? ? ? ? hpg H1']; subst.
  by case: hcs hpg => hc hs [hp hg]; constructor; [split=> //; apply: h|exact: IH].
apply: (corr_value svd (cross_z fns) (@dom_nil fns arr) dp (models_sound pr made_dss) S2 num two _ pG pp km).
- move=> x y hx hy lt.
  have [c [ec ha [b [nm [pn [psr [pos [cb [rows [lab [phil [es [eb [eF [ep [lp ephi]]]]]]]]]]]]]] _]] := at_ x hx.
  have [c' [ec' ha' [b' [nm' [pn' [psr' [pos' [cb' [rows' [lab' [phil' [es' _]]]]]]]]]] _]] := at_ y hy.
  have sx : source_at arr (cp_i x, cp_j x) = Some (Common b nm pn psr pos k0 cb) by rewrite /source_at /= ec.
  have sy : source_at arr (cp_i y, cp_j y) = Some (Common b' nm' pn' psr' pos' k0 cb') by rewrite /source_at /= ec'.
  have eo := co _ _ _ _ _ _ _ _ _ _ _ _ _ _ (in_seq_map (fun x => (cp_i x, cp_j x)) hx) (in_seq_map (fun x => (cp_i x, cp_j x)) hy) (ltnW lt) sx sy.
  have D ij s : source_at arr ij = Some s -> exists d, desc_at dss ij = Some d /\ new_sig fns s = Ok d.
    rewrite /source_at /desc_at; case ei: List.nth_error => [a|] // ej.
    have [ds [-> F]] := nth_F2 (made_pairs made_dss) ei; by have [d [-> h]] := nth_F2 F ej; exists d.
  have [d [ed /= [hd]]] := D _ _ sx; have [d' [ed' /= [hd']]] := D _ _ sy.
  rewrite /crossz_of ed ed' -hd -hd'; cbn [c_basis new_cgp]; rewrite eb; cbn [rbind]; rewrite ep; cbn [rbind]; rewrite eo /=.
  by rewrite (col_prior lp) -ephi.
- right=> x s hx; have [c [_ [_ [_ ha]] _ _]] := at_ x hx; exact: adds_vector ha s.
Qed.
End Main.

Lemma signals_likelihood_lem : forall (hash : forall n, 'cV[R]_n -> nat) (svd : forall k, 'M[R]_k -> 'M[R]_k * 'cV[R]_k) (fns : nat -> fob * fob)
  (arr : seq (seq src * seq R)) (dss : seq (seq desc)) (l : seq (string * params R * seq psr_model)),
  (forall c s, List.In c arr -> List.In s c.1 -> proper s) -> new_array fns arr = Ok dss -> alone_in arr ->
  (forall t, List.In t l -> [/\ known_method t.1.1, permitted fns arr t.1.2 & List.Forall2 (fun c q => psr_adds fns t.1.2 c (pm q) /\ good_psr hash q) arr t.2]) ->
  run (z_ops hash svd (cross_z fns)) (array_colls fns dss arr) [seq ALike t.1.1 t.1.2 | t <- l] (array_start dss) =
  [seq Ok (RLike (Fin (\sum_(q <- t.2) psr_term q))) | t <- l].
Proof.
move=> hash svd fns arr dss l pr md al H; refine (@ask_all hash svd fns arr dss pr md _ l (fun t => t.1.1) (fun t => t.1.2) (fun t => Fin (\sum_(q <- t.2) psr_term q)) _) => t ht.
by have [km dp S] := H t ht; split=> //; exact: (sources_value svd pr md al dp km S).
Qed.
Lemma signals_correlated_lem : forall (hash : forall n, 'cV[R]_n -> nat) (svd : forall k, 'M[R]_k -> 'M[R]_k * 'cV[R]_k) (fns : nat -> fob * fob)
  (arr : seq (seq src * seq R)) (dss : seq (seq desc)) (k0 K : nat) (l : seq (string * params R * (nat -> nat -> R) * 'cV[R]_K * seq (cpsr K))),
  (forall c s, List.In c arr -> List.In s c.1 -> proper s) -> new_array fns arr = Ok dss -> (1 < size arr)%N ->
  (forall method p orf phi xs, List.In (method, p, orf, phi, xs) l ->
    [/\ known_method method, permitted fns arr p,
        List.Forall2 (fun c x => [/\ psr_adds fns p c (pm (cp_q x)), good_psr hash (cp_q x), member fns p k0 phi c x & sole k0 c x]) arr xs,
        [seq cp_i x | x <- xs] = iota 0 (size xs) /\ correlation fns arr p k0 orf [seq (cp_i x, cp_j x) | x <- xs]
      & posdef (\matrix_(i < size xs, j < size xs) orf i j) /\ forall k, 0 < phi k ord0]) ->
  run (z_ops hash svd (cross_z fns)) (array_colls fns dss arr) [seq ALike t.1.1.1.1 t.1.1.1.2 | t <- l] (array_start dss) =
  [seq Ok (RLike (Fin (joint_term t.1.1.2 t.1.2 t.2))) | t <- l].
Proof.
move=> hash svd fns arr dss k0 K l pr md two H; refine (@ask_all hash svd fns arr dss pr md _ l (fun t => t.1.1.1.1) (fun t => t.1.1.1.2) (fun t => Fin (joint_term t.1.1.2 t.1.2 t.2)) _).
move=> [[[[method p] orf] phi] xs] ht; have [km dp S [num co] [pG pp]] := H _ _ _ _ _ ht; split=> //=.
apply: (sources_correlated svd pr md dp km S num _ co pG pp).
by have <- : size arr = size xs by elim: S => [//|a b l' m' _ _ /= ->].
Qed.

(** * Example *)
(** Pulsars with two TOAs: white noise with a parameter for each of two selections, a
    deterministic signal for one of them, a process linear in time, one with sampled
    coefficients, and one that is common to pulsars. *)
Definition z_var : fcl := FC (PyFun [:: "errs"; "efac"]%string [:: GV (Sc 1)]
  (fun l => match l with [:: GV (Vec es); GV (Sc e)] => Ok (GV (Vec [seq e * e + s | s <- es])) | _ => Err ValueError end)) "" [:: ("efac"%string, AParC w_density)].
Definition z_wave : fcl := FC (PyFun [:: "toas"; "amp"]%string [:: GV (Sc 1)]
  (fun l => match l with [:: GV (Vec ts); GV (Sc a)] => Ok (GV (Vec [seq a * t | t <- ts])) | _ => Err ValueError end)) "" [:: ("amp"%string, AParC w_density)].
Definition z_basis : fcl := FC (PyFun [:: "toas"]%string [::]
  (fun l => match l with [:: GV (Vec ts)] => Ok (GPair (GMat 1 [seq [:: t] | t <- ts]) (GV (Vec [:: 1]))) | _ => Err ValueError end)) "" [::].
Definition z_prior : fcl := FC (PyFun [:: "f"; "a"]%string [:: GV (Sc 1)]
  (fun l => match l with [:: GV (Vec f); GV (Sc a)] => Ok (GV (Vec [seq x + a * a | x <- f])) | _ => Err TypeError end)) "" [:: ("a"%string, AParC w_density)].
Definition z_orf : fcl := FC (PyFun [:: "pos1"; "pos2"]%string [::]
  (fun l => match l with [:: GV (Vec [:: a; b]); GV (Vec [:: c; d])] => Ok (GV (Sc (2%:R^-1 + 2%:R^-1 * (a * c + b * d)))) | _ => Err TypeError end)) "" [::].
Definition z_fns (_ : nat) : fob * fob := (inst z_prior "gw" None, inst z_orf "gw" None).
Definition z_psr : gv := GPsr [:: ("toas"%string, GV (Vec [:: 3%:R; 5%:R])); ("errs"%string, GV (Vec [:: 1; 2%:R]))].
Definition z_masks : dict string mask := [:: ("b"%string, [:: false; true]); ("a"%string, [:: true; false])].
Definition z_late : dict string mask := [:: ("b"%string, [:: false; true])].
Definition z_all : dict string mask := [:: (""%string, [:: true; true])].
Definition z_own (psr : string) : seq src :=
  [:: White z_var "" psr z_psr z_masks; Determ z_wave "det" psr z_psr z_late 2; Proc z_prior z_basis "red" psr z_psr z_all true; Sampled z_prior z_basis "dm" psr z_psr z_all true].
Definition z_com (psr : string) (pos : seq R) : src := Common z_basis "gw" psr z_psr (GV (Vec pos)) 0 true.
Definition z_one : seq (seq src * seq R) := [:: (z_own "A" ++ [:: z_com "A" [:: 1; 0]], [:: 7%:R; 8%:R]); (z_own "B", [:: 9%:R; 6%:R])].
Definition z_two : seq (seq src * seq R) := [:: (z_own "A" ++ [:: z_com "A" [:: 1; 0]], [:: 7%:R; 8%:R]); (z_own "B" ++ [:: z_com "B" [:: 0; 1]], [:: 9%:R; 6%:R])].
Definition z_p (q : R * R * R * R) : params R :=
  [:: ("A_a_efac"%string, Sc q.1.1.1); ("A_b_efac"%string, Sc q.1.1.2); ("A_det_b_amp"%string, Sc q.1.1.2); ("A_red_a"%string, Sc q.1.2); ("A_dm_coefficients"%string, Vec [:: q.2]);
      ("B_a_efac"%string, Sc q.1.1.1); ("B_b_efac"%string, Sc q.1.1.2); ("B_det_b_amp"%string, Sc q.1.1.2); ("B_red_a"%string, Sc q.1.2); ("B_dm_coefficients"%string, Vec [:: q.2]);
      ("gw_a"%string, Sc q.2)].
Definition z_F : 'M[R]_(2, 1) := \matrix_(i, j) nth 0 [:: 3%:R; 5%:R] i.
Definition z_noise (q : R * R * R * R) : nobj 2 := NVec (\col_i nth 0 [:: q.1.1.1 * q.1.1.1 + 1; q.1.1.2 * q.1.1.2 + 2%:R] i).
Definition z_view (q : R * R * R * R) : seq (view 2) :=
  [:: View (Some (z_noise q)) (Some None) None 0; View None (Some (Some (\col_i nth 0 [:: 0; q.1.1.2 * 5%:R] i))) None 0;
      View None (Some None) (Some (BSig z_F (PhiD (const_mx (1 + q.1.2 * q.1.2))) false true)) 0; View None (Some (Some (\col_i nth 0 [:: 3%:R * q.2; 5%:R * q.2] i))) None 0].
Definition z_view_com (q : R * R * R * R) : view 2 := View None (Some None) (Some (BSig z_F (PhiD (const_mx (1 + q.2 * q.2))) false true)) 0.
Definition z_model (q : R * R * R * R) (res : seq R) (com : bool) : psr_model :=
  @PsrModel (@PsrView 2 (\col_i nth 0 res i) (z_view q ++ (if com then [:: z_view_com q] else [::]))) (z_noise q).
Definition z_cpsr (q : R * R * R * R) (res : seq R) (i : nat) : cpsr 1 := @CPsr 1 (z_model q res true) i 4 z_F.
Definition z_dss (arr : seq (seq src * seq R)) : seq (seq desc) := if new_array z_fns arr is Ok dss then dss else [::].

Lemma z_flat q : flat_values (z_p q).
Proof. by apply: w_flat => x l H; repeat (destruct H as [H|H]; [discriminate|]); destruct H. Qed.
Lemma z_proper psr s : psr = "A"%string \/ psr = "B"%string -> List.In s (z_own psr) \/ (exists pos, s = z_com psr pos) -> proper s.
Proof.
have nd3 : List.NoDup (dkeys z_all) by repeat (apply List.NoDup_cons; [cbn; intuition discriminate|]); apply List.NoDup_nil.
move=> hp [|[pos ->]]; last by repeat constructor.
move=> h; do 4?(case: h => [<-|h]) => //; try (split; [repeat (apply List.NoDup_cons; [cbn; intuition discriminate|]); apply List.NoDup_nil|by repeat constructor]).
split=> //; split; first by repeat constructor.
split; first by repeat constructor.
split; last by move=> k [<-|//].
by case: hp => -> k k' q q' [<-|//] [<-|//] i i' e; cbn in i, i'; destruct i as [<-|[]], i' as [<-|[]].
Qed.
Ltac no_constants ho :=
  cbn in ho; repeat (destruct ho as [<-|ho]; [let r := fresh in let i := fresh in let c := fresh in intros r i c; cbn in i; repeat (destruct i as [<-|i]; [discriminate c|]); destruct i|]); destruct ho.
Lemma z_objects psr s : psr = "A"%string \/ psr = "B"%string -> List.In s (z_own psr) \/ (exists pos, s = z_com psr pos) -> forall q o, List.In o (objects z_fns s) -> spares (z_p q) o.
Proof.
move=> hp [|[pos ->]] => [h|] q o ho; last by case: hp ho => -> ho; no_constants ho.
by case: hp h => -> h; do 4?(case: h ho => [<-|h] ho) => //; no_constants ho.
Qed.
Lemma z_in (l : seq (seq src * seq R)) c s : (l = z_one \/ l = z_two) -> List.In c l -> List.In s c.1 ->
  exists psr, (psr = "A"%string \/ psr = "B"%string) /\ (List.In s (z_own psr) \/ exists pos, s = z_com psr pos).
Proof.
have h psr pos : List.In s (z_own psr ++ [:: z_com psr pos]) -> List.In s (z_own psr) \/ exists pos, s = z_com psr pos.
  by move=> hi; do 4!(case: hi => [<-|hi]; first by left; cbn; tauto); case: hi => [<-|//]; right; exists pos.
move=> [->|->] [<-|[<-|//]] hs.
- by exists "A"%string; split; [left|exact: (h _ [:: 1; 0])].
- by exists "B"%string; split; [right|left].
- by exists "A"%string; split; [left|exact: (h _ [:: 1; 0])].
- by exists "B"%string; split; [right|exact: (h _ [:: 0; 1])].
Qed.
Lemma z_permitted l q : (l = z_one \/ l = z_two) -> permitted z_fns l (z_p q).
Proof. by move=> hl; split=> [|c s o hc hs ho]; [exact: z_flat|have [psr [hp h]] := z_in hl hc hs; exact: (z_objects hp h)]. Qed.
Lemma z_made l : (l = z_one \/ l = z_two) -> new_array z_fns l = Ok (z_dss l).
Proof. by case=> ->. Qed.
Definition z_blk : blk := Blk "" [:: true; true] 1 [:: [:: 3%:R]; [:: 5%:R]] (GV (Vec [:: 1])).
Lemma ord2 (P : 'I_2 -> Prop) : P ord0 -> P (fintype.lift ord0 ord0) -> forall i, P i.
Proof. by move=> h0 h1 i; case: (unliftP ord0 i) => [j ->|-> //]; rewrite (ord1 j). Qed.
Lemma z_blocks name psr p : (forall k, List.In k (dkeys z_all) -> gcall (selected name psr z_psr z_basis k) [::] [:: ("mask"%string, GMask [:: true; true])] p = Ok (GPair (GMat 1 [:: [:: 3%:R]; [:: 5%:R]]) (GV (Vec [:: 1])))) ->
  flat_values p -> blocks_at z_basis name psr z_psr z_all 2 p [:: z_blk].
Proof.
move=> h f; split=> //; split=> //; split=> // b [<-|//]; split=> //; split=> //; split; last by split=> //; repeat constructor.
by apply: h; left.
Qed.
Lemma z_row_of : (\matrix_(i < 2, j < 1) nth 0 (row_of [:: z_blk] i) j) = z_F.
Proof. by apply/matrixP => i j; rewrite !mxE (ord1 j); move: i; apply: ord2. Qed.
Lemma z_adds psr q : psr = "A"%string \/ psr = "B"%string -> all_add z_fns (z_p q) (z_own psr) (z_view q).
Proof.
move=> hp; constructor; [|constructor; [|constructor; [|constructor; [|exact: add_nil]]]]; split=> //.
- exists (fun k i => (if String.eqb k "a" then q.1.1.1 * q.1.1.1 + nth 0 [:: 1; 2%:R] i else q.1.1.2 * q.1.1.2 + nth 0 [:: 1; 2%:R] i)); split=> //; split.
  + by move=> k m [[<- <-]|[[<- <-]|//]]; split=> //; case: hp => ->; (eexists; split; [reflexivity|split=> // [[|[|i]]] // lt]); exfalso; lia.
  + congr View; congr Some; congr NVec; apply/matrixP=> i j; rewrite !mxE; move: i; apply: ord2; cbn; Lra.lra.
- exists (fun k i => q.1.1.2 * 5%:R), (\col_i nth 0 [:: 0; q.1.1.2 * 5%:R] i); split=> //; split.
  + move=> k m [[<- <-]|//]; split=> //; case: hp => ->; (eexists; split; [reflexivity|by split=> // [[|[|[|i]]]] // h]).
  + split=> //; apply: ord2; rewrite mxE /=; split=> //; try (by move=> ? ? [[<- <-]|//]).
    by move=> h; have := h _ _ (or_introl erefl).
- exists [:: z_blk], [:: z_blk], [:: [:: 1 + q.1.2 * q.1.2]].
  split; first by (apply: z_blocks; last exact: z_flat); move=> k [<-|//]; case: hp => ->.
  split; first by (apply: z_blocks; last by move=> n l e; discriminate e); move=> k [<-|//]; case: hp => ->.
  split=> //; split; first by constructor=> //; split=> //; case: hp => ->.
  have -> : (\matrix_(i, j) nth 0 (row_of [:: z_blk] i) j : 'M[R]_(2, ProofGp.columns [:: z_blk])) = z_F by exact: z_row_of.
  have -> : (\col_j nth 0 (List.concat [:: [:: 1 + q.1.2 * q.1.2]]) j : 'cV[R]_(ProofGp.columns [:: z_blk])) = const_mx (1 + q.1.2 * q.1.2).
    by apply/matrixP=> i j; rewrite !mxE; have -> : val i = 0%N by case: i => [[|i] //].
  by [].
- exists [:: z_blk], [:: z_blk], [:: [:: q.2]].
  split; first by (apply: z_blocks; last exact: z_flat); move=> k [<-|//]; case: hp => ->.
  split; first by (apply: z_blocks; last by move=> n l e; discriminate e); move=> k [<-|//]; case: hp => ->.
  split; first by constructor=> //; split=> //; case: hp => ->.
  congr View; congr Some; congr Some; apply/matrixP=> i j; rewrite !mxE; move: i; apply: ord2; cbn; Lra.lra.
Qed.
Definition z_pos (pos : seq R) : Prop := pos = [:: 1; 0] \/ pos = [:: 0; 1].
Lemma z_adds_com psr pos q : psr = "A"%string \/ psr = "B"%string -> z_pos pos -> adds z_fns (z_p q) (z_com psr pos) (z_view_com q).
Proof.
move=> hp ho; split=> //.
exists 1%N, [:: [:: 3%:R]; [:: 5%:R]], (GV (Vec [:: 1])), [:: [:: 3%:R]; [:: 5%:R]], (GV (Vec [:: 1])), [:: 1 + q.2 * q.2], 1.
do 3!(split; first by [case: hp => ->|repeat constructor]).
do 3!(split; first by [case: hp => ->|repeat constructor]).
split=> //; split=> //; split.
  have hh : 2%:R^-1 + 2%:R^-1 = 1 :> R by rewrite -mulr2n -[X in X = _]mulr_natl mulfV // pnatr_eq0.
  case: ho => ->.
    transitivity (Ok (GV (Sc (2%:R^-1 + 2%:R^-1 * (1 * 1 + 0 * 0)))) : result gv) => //; congr (Ok (GV (Sc _))).
    by rewrite mulr1 mulr0 addr0 mulr1.
  transitivity (Ok (GV (Sc (2%:R^-1 + 2%:R^-1 * (0 * 0 + 1 * 1)))) : result gv) => //; congr (Ok (GV (Sc _))).
  by rewrite mulr1 mulr0 add0r mulr1.
congr View; congr Some.
have -> : (\matrix_(i < 2, j < 1) nth 0 (nth [::] [:: [:: 3%:R]; [:: 5%:R]] i) j) = z_F.
  by apply/matrixP => i j; rewrite !mxE (ord1 j); move: i; apply: ord2.
have -> : (\col_(j < 1) (nth 0 [:: 1 + q.2 * q.2] j * 1) : 'cV[R]_1) = const_mx (1 + q.2 * q.2).
  by apply/matrixP=> i j; rewrite !mxE (ord1 i) mulr1.
by [].
Qed.
Lemma z_good hash q res com : good_psr hash (z_model q res com).
Proof.
have pos (x : R) (y : nat) : 0 < x * x + y.+1%:R by apply: ltr_paddl; [exact: sqr_ge0|exact: ltr0Sn].
have posl (x : R) : 0 < 1 + x * x by rewrite addrC; exact: (pos x 0%N).
have pN : proper_noise (z_noise q) by move=> j; rewrite mxE; move: j; apply: ord2; [exact: (pos _ 0%N)|exact: (pos _ 1%N)].
have ok : ProofEcorr.coll_ok (@hash 2%N) (pmap (@w_basis 2%N) (z_view q ++ (if com then [:: z_view_com q] else [::]))).
  have same s : List.In s (pmap (@w_basis 2%N) (z_view q ++ (if com then [:: z_view_com q] else [::]))) -> exists x, 0 < x /\ s = BSig z_F (PhiD (const_mx x)) false true.
    by case: com => [[<-|[<-|//]]|[<-|//]]; (eexists; split; last reflexivity); exact: posl.
  have inc x : x \in flatten [seq ProofKernel.columns s | s <- pmap (@w_basis 2%N) (z_view q ++ (if com then [:: z_view_com q] else [::]))] -> x = col ord0 z_F.
    case: com {same} => /=; rewrite ?cats0 ?mem_cat /ProofKernel.columns; [move=> /orP [|]|]; move=> /mapP [k _ ->]; by rewrite (ord1 k).
  split.
  + by move=> x y /inc -> /inc ->.
  + by case: com {same inc}.
  + by case: com {same inc} => /=; rewrite /no_repeats /= /ProofKernel.columns /= enum_ordS enum_ord0.
  + by case: com {same inc}.
  + by move=> s /same [x [x0 ->]] /=; apply: diag_posdef => j; rewrite mxE.
split=> //.
- case: com {ok}; rewrite /noises /= /ModelNoise.get_ndiag /=; congr (Ok (NVec _)); by apply/matrixP=> i0 j0; rewrite !mxE addr0.
- by have [] := plain_noise pN.
Qed.
Lemma all_add_cat n fns p ss ss' (ws ws' : seq (view n)) : all_add fns p ss ws -> all_add fns p ss' ws' -> all_add fns p (ss ++ ss') (ws ++ ws').
Proof. by move=> F F'; elim: F => [//|s w l m h _ IH] /=; constructor. Qed.
Lemma z_psr_adds psr pos q res com : psr = "A"%string \/ psr = "B"%string -> z_pos pos -> List.length res = 2%N ->
  psr_adds z_fns (z_p q) (z_own psr ++ (if com then [:: z_com psr pos] else [::]), res) (pm (z_model q res com)).
Proof.
move=> hp ho e; split=> //; split; first by move=> i; rewrite mxE.
apply: all_add_cat; first exact: z_adds.
by case: com; constructor; [exact: z_adds_com|exact: add_nil].
Qed.
(** Any sequence of likelihoods, without and with correlations *)
Lemma z_likelihood : forall hash svd l,
  run (z_ops hash svd (cross_z z_fns)) (array_colls z_fns (z_dss z_one) z_one) [seq ALike "partition" (z_p q) | q <- l] (array_start (z_dss z_one)) =
  [seq Ok (RLike (Fin (psr_term (z_model q [:: 7%:R; 8%:R] true) + psr_term (z_model q [:: 9%:R; 6%:R] false)))) | q <- l].
Proof.
move=> hash svd l.
have := @signals_likelihood_lem hash svd z_fns z_one (z_dss z_one) [seq ("partition"%string, z_p q, [:: z_model q [:: 7%:R; 8%:R] true; z_model q [:: 9%:R; 6%:R] false]) | q <- l].
rewrite -!map_comp => H; rewrite [LHS]H //.
- by apply: eq_map => q /=; rewrite !big_cons big_nil addr0.
- by move=> c s hc hs; have [psr [hp h]] := z_in (or_introl erefl) hc hs; exact: (z_proper hp h).
- by move=> ij ij' s s' k; destruct ij as [[|[|i]] [|[|[|[|[|j]]]]]]; cbn; intros E; try discriminate; try (destruct i; discriminate); try (destruct j; discriminate); injection E as <-;
     destruct ij' as [[|[|i']] [|[|[|[|[|j']]]]]]; cbn; intros E'; try discriminate; try (destruct i'; discriminate); try (destruct j'; discriminate); injection E' as <-; cbn; intros; try discriminate.
move=> t ht; have [q ->] : exists q, t = ("partition"%string, z_p q, [:: z_model q [:: 7%:R; 8%:R] true; z_model q [:: 9%:R; 6%:R] false]).
  by elim: l ht {H} => [//|q l IH] [<-|/IH //]; exists q.
split=> //.
- exact: (z_permitted q (or_introl erefl)).
- constructor; first by split; [exact: (@z_psr_adds "A" [:: 1; 0] q [:: 7%:R; 8%:R] true (or_introl erefl) (or_introl erefl) erefl)|exact: z_good].
  constructor=> //; by split; [exact: (@z_psr_adds "B" [:: 0; 1] q [:: 9%:R; 6%:R] false (or_intror erefl) (or_intror erefl) erefl)|exact: z_good].
Qed.
Lemma z_correlated : forall hash svd l,
  run (z_ops hash svd (cross_z z_fns)) (array_colls z_fns (z_dss z_two) z_two) [seq ALike "cliques" (z_p q) | q <- l] (array_start (z_dss z_two)) =
  [seq Ok (RLike (Fin (joint_term y_orf (const_mx (1 + q.2 * q.2)) [:: z_cpsr q [:: 7%:R; 8%:R] 0; z_cpsr q [:: 9%:R; 6%:R] 1]))) | q <- l].
Proof.
move=> hash svd l.
have := @signals_correlated_lem hash svd z_fns z_two (z_dss z_two) 0 1 [seq ("cliques"%string, z_p q, y_orf, const_mx (1 + q.2 * q.2) : 'cV[R]_1, [:: z_cpsr q [:: 7%:R; 8%:R] 0; z_cpsr q [:: 9%:R; 6%:R] 1]) | q <- l].
rewrite -!map_comp => H; rewrite [LHS]H //.
- by move=> c s hc hs; have [psr [hp h]] := z_in (or_intror erefl) hc hs; exact: (z_proper hp h).
move=> method p orf phi xs ht; have [q [-> -> -> -> ->]] : exists q, (method, p, orf, phi, xs) = ("cliques"%string, z_p q, y_orf, const_mx (1 + q.2 * q.2) : 'cV[R]_1, [:: z_cpsr q [:: 7%:R; 8%:R] 0; z_cpsr q [:: 9%:R; 6%:R] 1]).
  by elim: l ht {H} => [//|q l IH] [<-|/IH //]; exists q.
have mem psr pos res i : psr = "A"%string \/ psr = "B"%string -> member z_fns (z_p q) 0 (const_mx (1 + q.2 * q.2)) (z_own psr ++ [:: z_com psr pos], res) (z_cpsr q res i).
  move=> hp; exists z_basis, "gw"%string, psr, z_psr, (GV (Vec pos)), true, [:: [:: 3%:R]; [:: 5%:R]], (GV (Vec [:: 1])), [:: 1 + q.2 * q.2].
  split=> //; split; first by case: hp => ->.
  split; first by apply/matrixP => a b; rewrite !mxE (ord1 b); move: a; apply: ord2.
  split=> //; split=> //; by apply/matrixP=> a b; rewrite !mxE (ord1 a).
have sol psr pos res i : sole 0 (z_own psr ++ [:: z_com psr pos], res) (z_cpsr q res i).
  by move=> j s; destruct j as [|[|[|[|[|j]]]]]; cbn; intros E; try (injection E as <-; reflexivity); destruct j; discriminate.
split=> //.
- exact: (z_permitted q (or_intror erefl)).
- constructor.
    split; [exact: (@z_psr_adds "A" [:: 1; 0] q [:: 7%:R; 8%:R] true (or_introl erefl) (or_introl erefl) erefl)|exact: z_good|exact: mem (or_introl erefl)|exact: sol].
  constructor=> //; split; [exact: (@z_psr_adds "B" [:: 0; 1] q [:: 9%:R; 6%:R] true (or_intror erefl) (or_intror erefl) erefl)|exact: z_good|exact: mem (or_intror erefl)|exact: sol].
- split=> // x y b nm pn ps pos cb b' nm' pn' ps' pos' cb'.
  have hh : 2%:R^-1 + 2%:R^-1 = 1 :> R by rewrite -mulr2n -[X in X = _]mulr_natl mulfV // pnatr_eq0.
  have ob a c d e : gcall (z_fns 0).2 [:: GV (Vec [:: a; c]); GV (Vec [:: d; e])] [::] (z_p q) = Ok (GV (Sc (2%:R^-1 + 2%:R^-1 * (a * d + c * e)))) by [].
  move=> [<-|[<-|//]] [<-|[<-|//]] //= _ [_ _ _ _ <- _] [_ _ _ _ <- _]; rewrite ob /y_orf /=; congr (Ok (GV (Sc _))); by rewrite ?mulr1 ?mulr0 ?mul0r ?addr0 ?add0r ?mulr0 ?mulr1 ?addr0.
- split; first exact: y_orf_posdef.
  by move=> k; rewrite mxE; apply: ltr_paddr; [exact: sqr_ge0|exact: ltr01].
Qed.
