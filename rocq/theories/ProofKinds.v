(** Proofs about arrays with ECORR noise, marginalised and wideband timing models. *)
From Coq Require Import Reals String.
From mathcomp Require Import all_ssreflect all_algebra.
From mathcomp.zify Require Import zify.
From Verif Require Import RStruct PyBase ProofBase ModelSelect ProofSelect ProofQuant ModelFunc ModelCache ProofCache ModelGp ProofGp ModelLinalg ProofLinalg ModelNoise ProofNoise ModelLike ProofLike ModelKernel ProofKernel ModelPhi ModelColl ProofColl ModelSigs ProofSigs ModelArray ProofArray ProofJoint ProofCorr ModelSized ProofSrc ProofSized ProofSource ModelEcorr ModelWide ProofWide ModelKinds ProofClasses ProofShare ProofMulti ProofMany.
Set Implicit Arguments.
Unset Strict Implicit.
Unset Printing Implicit Defensive.
Import GRing.Theory Num.Theory Order.TTheory.
Local Open Scope seq_scope.
Local Open Scope ring_scope.

(** * Specification *)
Definition ecorr_param (psrname key : string) : string := join_us [:: psrname; sel_kname key "log10_ecorr"].
(** A selection of all TOAs *)
Definition every_toa (q : wide_psr) : dict string mask := [:: (""%string, nseq (size (q_stoas q)) true)].
Definition wproper (s : wsrc) : Prop :=
  match s with
  | Plain s => proper s
  | Ecorr _ _ _ _ masks => List.NoDup (dkeys masks)
  | Margin _ _ _ _ => True
  | Wideband _ _ _ _ priorfn basisfn name psrname psr q _ _ => proper (Proc priorfn basisfn name psrname psr (every_toa q) false)
  end.
(** Parameters: no lists of lists, and no values for constants *)
Definition fair_to (fns : nat -> fob * fob) (s : wsrc) (p : params R) : Prop :=
  match s with
  | Plain s => forall o, List.In o (objects fns s) -> spares p o
  | Ecorr _ (Fixed _) psrname _ masks => forall k, List.In k (dkeys masks) -> dget string_dec p (ecorr_param psrname k) = None
  | Wideband _ _ _ _ priorfn basisfn name psrname psr q _ _ => forall o, List.In o (objects fns (Proc priorfn basisfn name psrname psr (every_toa q) false)) -> spares p o
  | _ => True
  end.
Definition wpermitted (fns : nat -> fob * fob) (arr : seq (seq wsrc * seq R)) (p : params R) : Prop :=
  flat_values p /\ forall c s, List.In c arr -> List.In s c.1 -> fair_to fns s p.
(** The selections by the names of their ECORR parameters (without the pulsar's name) *)
Definition ecorr_key_name (key : string) : string := sel_kname key "log10_ecorr".
Definition ecorr_masks (masks : dict string mask) : dict string mask := [seq (ecorr_key_name km.1, km.2) | km <- masks].
(** The value of a parameter of a wideband timing model, given or fixed *)
Definition wide_has (p : params R) (kind : pkind) (name : string) (x : R) : Prop :=
  dget string_dec p name = Some (Sc x) \/ (dget string_dec p name = None /\ (exists2 v, kind = Fixed v & v name = Some x)).
(** The sum over the selections of a function of their values at a TOA *)
Definition wide_at (val : string -> R) (masks : dict string mask) (i : nat) : R := \sum_(km <- masks) val km.1 * (nth false km.2 i)%:R.
Definition jump_kind (jump : pkind) (jref : option string) (key : string) : pkind := if jref is Some r then if string_dec r key then Fixed (fun _ => Some 0) else jump else jump.
(** DMs and their uncertainties as measured, with jumps, factors and added noise *)
Definition wide_dms n (p : params R) (efac : pkind) (equad jump : option pkind) (jref : option string) (psrname : string) (q : wide_psr) (sel jsel : dict string mask) (dm dme : 'cV[R]_n) : Prop :=
  exists ef eq ju : string -> R,
    [/\ (forall k, List.In k (dkeys sel) -> wide_has p efac (us_name [:: psrname; k; "dmefac"%string]) (ef k)),
        (if equad is Some kind then forall k, List.In k (dkeys sel) -> wide_has p kind (us_name [:: psrname; k; "log10_dmequad"%string]) (eq k) else True),
        (if jump is Some kind then forall k, List.In k (dkeys jsel) -> wide_has p (jump_kind kind jref k) (us_name [:: psrname; k; "dmjump"%string]) (ju k) else True) &
        forall i : 'I_n, dm i ord0 = (if jump is Some _ then wide_at ju jsel i else 0) + nth 0 (q_dm q) i /\
          dme i ord0 = sqrt (wide_at ef sel i ^+ 2 * (nth 0 (q_dmerr q) i ^+ 2 + (if equad is Some _ then wide_at (fun k => Rpower 10 (eq k)) sel i else 0) ^+ 2))%R].
(** What a signal adds to the model of a pulsar with [n] TOAs *)
Definition wadds n (argsort : seq R -> seq nat) (fns : nat -> fob * fob) (p : params R) (s : wsrc) (w : view n) : Prop :=
  match s with
  | Plain s => adds fns p s w
  | Ecorr block kind psrname toas masks => List.length toas = n /\ masks <> [::] /\ exists val bs N,
      (forall k, List.In k (dkeys masks) ->
         match kind with Varies => dget string_dec p (ecorr_param psrname k) = Some (Sc (val (ecorr_key_name k))) | Fixed v => v (ecorr_param psrname k) = Some (val (ecorr_key_name k)) end) /\
      ecorr_kernel argsort n toas (ecorr_masks masks) val = Ok bs /\ ecorr_noise (if block then BlockM else ShermanMorrisonM) bs = Ok N /\
      w = View (Some N) (Some None) None 0
  | Margin basisfn name psrname psr => exists nc rows lab,
      gcall (inst basisfn (join_us [:: psrname; name]) (Some psr)) [::] [::] [::] = Ok (GPair (GMat nc rows) lab) /\
      List.length rows = n /\ List.Forall (fun r => List.length r = nc) rows /\
      w = View (Some (NMarg (\matrix_(i < n, j < nc) nth 0 (nth [::] rows i) j) (NScal 0))) (Some None) None 0
  | Wideband efac equad jump jref priorfn basisfn name psrname psr q sel jsel => exists bl bl0 bins (dm dme : 'cV[R]_n) lp, let masks := every_toa q in
      blocks_at basisfn name psrname psr masks n p bl /\ blocks_at basisfn name psrname psr masks n [::] bl0 /\
      ProofGp.columns bl = size (q_fitpars q) /\ ProofGp.columns bl0 = size (q_fitpars q) /\ size (q_stoas q) = n /\
      wide_dms p efac equad jump jref psrname q sel jsel dm dme /\
      wb_init (\col_(i < n) nth 0 (q_stoas q) i) (q_fitpars q) (dkeys jsel) (isSome jump) (q_dmx q) = Ok bins /\ wb_logprior bins dm dme = Ok lp /\
      w = View None (Some (Some (wb_delay bins dm dme (q_dmpar q) (\col_i nth 0 (q_freqs q) i))))
            (Some (@BSig n (size (q_fitpars q)) (\matrix_(i, j) nth 0 (row_of bl i) j) (PhiD (wb_phi bins dme (size (q_fitpars q))))
               (has depends [seq selected name psrname psr basisfn k | k <- dkeys masks]) false)) lp
  end.
Inductive all_wadd n (argsort : seq R -> seq nat) (fns : nat -> fob * fob) (p : params R) : seq wsrc -> seq (view n) -> Prop :=
| wadd_nil : all_wadd argsort fns p [::] [::]
| wadd_cons s w ss ws : wadds argsort fns p s w -> all_wadd argsort fns p ss ws -> all_wadd argsort fns p (s :: ss) (w :: ws).
(** Sources and residuals of a pulsar with its model *)
Definition psr_wadds (argsort : seq R -> seq nat) (fns : nat -> fob * fob) (p : params R) (c : seq wsrc * seq R) (v : psr_view) : Prop :=
  List.length c.2 = v_n v /\ (forall i : 'I_(v_n v), v_res v i ord0 = nth 0 c.2 i) /\ all_wadd argsort fns p c.1 (v_sigs v).
Definition wclass (s : wsrc) : option nat := if s is Plain s then source_class s else None.
Definition wsource_at (arr : seq (seq wsrc * seq R)) (ij : nat * nat) : option wsrc := if List.nth_error arr ij.1 is Some c then List.nth_error c.1 ij.2 else None.
(** No common process is in two pulsars. *)
Definition walone (arr : seq (seq wsrc * seq R)) : Prop :=
  forall ij ij' s s' k, wsource_at arr ij = Some s -> wsource_at arr ij' = Some s' -> wclass s = Some k -> wclass s' = Some k -> ij = ij'.
(** The array object of the sources *)
Definition new_warray (argsort : seq R -> seq nat) (fns : nat -> fob * fob) (arr : seq (seq wsrc * seq R)) : result (seq (seq wdesc)) := rmapM (fun c => rmapM (new_wsig argsort fns) c.1) arr.
Definition warray_colls (fns : nat -> fob * fob) (dss : seq (seq wdesc)) (arr : seq (seq wsrc * seq R)) : seq (coll wst nz dz fz pz) :=
  [seq wcoll fns x.1 x.2.2 | x <- zip dss arr].
Definition warray_start (dss : seq (seq wdesc)) : pobj wst nz dz fz (seq nat) out (R * R) := new_pta [seq [seq wstart_of d | d <- ds] | ds <- dss].
(** The common processes of a pulsar: their places among the signals, bases and priors *)
Definition wmember (fns : nat -> fob * fob) (p : params R) (K : nat -> nat) (phi : forall k, 'cV[R]_(K k)) (c : seq wsrc * seq R) (x : mpsr K) : Prop :=
  forall k j, mp_j x k = Some j -> exists basisfn name psrname psr pos comb rows lab phil,
    List.nth_error c.1 j = Some (Plain (Common basisfn name psrname psr pos k comb)) /\
    gcall (inst basisfn (join_us [:: psrname; name]) (Some psr)) [::] [::] p = Ok (GPair (GMat (K k) rows) lab) /\
    mp_F x k = \matrix_(i, j) nth 0 (nth [::] rows i) j /\
    gcall (fns k).1 [:: lab] [::] p = Ok (GV (Vec phil)) /\ List.length phil = K k /\ phi k = \col_j nth 0 phil j.
(** The other signals of the pulsar are not common. *)
Definition wothers (K : nat -> nat) (c : seq wsrc * seq R) (x : mpsr K) : Prop :=
  forall j s k, List.nth_error c.1 j = Some s -> wclass s = Some k -> mp_j x k = Some j.
(** The correlation of two pulsars is that of their positions. *)
Definition wcorrelation (fns : nat -> fob * fob) (arr : seq (seq wsrc * seq R)) (p : params R) (K : nat -> nat) (orf : nat -> nat -> nat -> R) (xs : seq (mpsr K)) : Prop :=
  forall (x y : mpsr K) k i j b nm pn psr pos cb b' nm' pn' psr' pos' cb', List.In x xs -> List.In y xs -> (mp_i x <= mp_i y)%N -> mp_j x k = Some i -> mp_j y k = Some j ->
    wsource_at arr (mp_i x, i) = Some (Plain (Common b nm pn psr pos k cb)) -> wsource_at arr (mp_i y, j) = Some (Plain (Common b' nm' pn' psr' pos' k cb')) ->
    gcall (fns k).2 [:: pos; pos'] [::] p = Ok (GV (Sc (orf k (mp_i x) (mp_i y)))).

(** * Noise signals with a cache *)
Section Noise.
Variable dom : params R -> Prop.
Hypothesis dom_flat : forall p, dom p -> flat_values p.
Definition noise_beh (names : seq string) (body : params R -> result nz) : beh wst nz dz fz pz :=
  Beh (fun p => rmap Some (body p)) (fun _ => Ok (Some DzZero)) (fun _ => Ok None) (fun _ => Err TypeError) (fun _ => Ok 0)
    (fun s => exists c, s = WNoise c /\ good dom names 2 body c) (fun _ _ => True).
Lemma noise_sound names body : (forall p p', dom p -> dom p' -> agree names p p' -> body p = body p') -> sound dom (noise_sg names body) (noise_beh names body).
Proof.
move=> dep; constructor; try (by move=> p s x dp hi; cbn [b_delay b_basis b_phi b_prior noise_beh] => // -[<-]; exists s); try by [].
  move=> p s x dp [c [-> [w g]]] e; cbn [s_ndiag noise_sg]; have [y [ey <-]] := rmap_inv _ _ _ e.
  have [k ek] := cache_key_total names p (dom_flat dp).
  have [|[v [i e']]|[c' [e' [w' [h1 _]]]]] := @cache_ok unit nz names 2 (fun p u => (u, body p)) c tt p k y tt w (le_S _ _ (le_n 1)) ek; first by rewrite ey.
  - have [p0 [d0 [e0 ev]]] := g _ _ i; have -> : y = v.
      by move: ev; rewrite (dep p0 p) // ?ey => [[]|n hn] //; exact: (cache_key_inj names p0 p k).
    by exists (WNoise c); rewrite /gparams in e'; rewrite e'; split=> //; split=> //; exists c.
  - exists (WNoise c'); rewrite /gparams in e'; rewrite e'; split=> //; split=> //; exists c'; split=> //; split=> // k' v' /h1 [/g //|[-> ->]].
    by exists p.
by move=> p p' dp dp' h; cbn [b_ndiag noise_beh]; rewrite (dep p p').
Qed.
Lemma noise_start names body : b_inv (noise_beh names body) (WNoise cempty).
Proof. by exists cempty; split=> //; exact: good_empty. Qed.

(** * Signals as before *)
Definition inside_beh (b : beh sst nz dz fz pz) : beh wst nz dz fz pz :=
  Beh (b_ndiag b) (b_delay b) (b_basis b) (b_phi b) (b_prior b) (fun s => exists s0, s = WOld s0 /\ b_inv b s0) (fun p s => exists s0, s = WOld s0 /\ b_at b p s0).
Lemma up_answers B inv post (f : params R -> sst -> sst * result B) v : answers dom inv post f v ->
  answers dom (fun s => exists s0, s = WOld s0 /\ inv s0) (fun p s => exists s0, s = WOld s0 /\ post p s0) (up f) v.
Proof. by move=> H p s x dp [s0 [-> hi]] e; have [s' [e' [h1 h2]]] := H p s0 x dp hi e; exists (WOld s'); rewrite /= e'; split=> //; split; exists s'. Qed.
Lemma answers_post B St inv (post : params R -> St -> Prop) (f : params R -> St -> St * result B) v : answers dom inv post f v -> answers dom inv (fun _ _ => True) f v.
Proof. by move=> H p s x dp hi e; have [s' [e' [h1 _]]] := H p s x dp hi e; exists s'. Qed.
Lemma inside_sound m b : sound dom m b -> sound dom (inside m) (inside_beh b).
Proof.
by case=> h1 h2 h3 h4 h5 h6 h7 h8; constructor=> //=; try exact: up_answers; apply: answers_post; apply: up_answers; eassumption.
Qed.
End Noise.

(** * ECORR *)
Lemma idxs_keys argsort toas ms idxs : List.NoDup (dkeys ms) -> ecorr_idxs argsort toas ms = Ok idxs -> sorted_keys idxs = sorted_keys ms.
Proof.
move=> nd; rewrite /ecorr_idxs; apply: rmapI => l /rmapM_ok F <-.
have el : List.map fst l = sorted_keys ms.
  elim: F => [|k x ks xs e _ IH] //=; rewrite IH; congr cons.
  by move: e; case: dgetE => //= m; case: ecorr_key => //= z [<-].
have nds : List.NoDup (List.map fst l) by rewrite el; apply: (Permutation.Permutation_NoDup (l := dkeys ms)) => //; apply: Permutation.Permutation_sym; exact: isort_perm.
rewrite dict_of_nodup // {1}/sorted_keys /dkeys el; apply: StronglySorted_isort_id; apply: (isort_sorted sle); [exact: sle_total|exact: sle_trans].
Qed.
Lemma kmasks_nodup masks : List.NoDup (dkeys masks) -> List.NoDup (dkeys (ecorr_masks masks)).
Proof.
have -> : dkeys (ecorr_masks masks) = List.map ecorr_key_name (dkeys masks) by rewrite /dkeys /ecorr_masks -[@map]/List.map !List.map_map.
elim=> [|k l nk _ IH] /=; constructor=> // /List.in_map_iff [k' [e hk]]; by move: nk; rewrite -(sel_kname_inj _ _ _ e).
Qed.
Section EcorrSource.
Variables (argsort : seq R -> seq nat) (block : bool) (kind : pkind) (psrname : string) (toas : seq R) (masks : dict string mask) (e : ecorr).
Hypothesis nd : List.NoDup (dkeys masks).
Hypothesis made : new_ecorr argsort block kind psrname toas masks = Ok e.
Lemma ecorr_shape : exists idxs, ecorr_idxs argsort toas (ecorr_masks masks) = Ok idxs /\
  e = EcorrSig block (size toas) kind [seq (ecorr_key_name km.1, ecorr_param psrname km.1) | km <- masks] idxs.
Proof.
move: made; rewrite /new_ecorr; have := ProofSelect.selection_names_lem psrname "log10_ecorr" masks nd; case: selection_call => ps ms [-> [-> _]].
by apply: rmapI => idxs ei <-; exists idxs.
Qed.
Lemma ecorr_key_in k : List.In k (dkeys masks) -> dget string_dec (e_params e) (ecorr_key_name k) = Some (ecorr_param psrname k).
Proof.
have [idxs [_ ->]] := ecorr_shape; cbn [e_params]; elim: (masks) => //= -[k' m] l IH /=; case: string_dec => [e'|ne].
  by rewrite (sel_kname_inj _ _ _ e').
by case=> [ek|/IH //]; case: ne; rewrite ek.
Qed.
Lemma ecorr_key_out key name : dget string_dec (e_params e) key = Some name -> exists2 k, List.In k (dkeys masks) & name = ecorr_param psrname k.
Proof.
have [idxs [_ ->]] := ecorr_shape; cbn [e_params]; elim: (masks) => //= -[k' m] l IH /=; case: string_dec => [e' [<-]|ne].
  by exists k' => //; left.
by move=> /IH [k hk ->]; exists k => //; right.
Qed.
Lemma ecorr_dep (fns : nat -> fob * fob) p p' : fair_to fns (Ecorr block kind psrname toas masks) p -> fair_to fns (Ecorr block kind psrname toas masks) p' ->
  agree (e_names e) p p' -> ecorr_body e p = ecorr_body e p'.
Proof.
move=> fp fp' h; rewrite /ecorr_body; suff eg : forall key, e_get e p key = e_get e p' key.
  by congr rbind; elim: (sorted_keys _) => //= k l ->; rewrite eg.
move=> key; rewrite /e_get /k_get /dgetE; case E: (dget string_dec (e_params e) key) => [name|] //=.
suff e1 : dget string_dec p name = dget string_dec p' name by rewrite e1.
have [k hk en] := ecorr_key_out E; move: fp fp' h; rewrite /e_names; have [idxs [_ ee]] := ecorr_shape; rewrite ee; cbn [e_kind e_params]; case: (kind) => [|v] /= fp fp' h.
  by apply: h; move: E; rewrite ee; cbn [e_params] => E; exact: (List.in_map snd _ _ (dget_In _ _ _ _ E)).
by rewrite en fp // fp'.
Qed.
Lemma ecorr_value p val n bs N : List.length toas = n -> masks <> [::] ->
  (forall k, List.In k (dkeys masks) -> match kind with Varies => dget string_dec p (ecorr_param psrname k) = Some (Sc (val (ecorr_key_name k))) | Fixed v => v (ecorr_param psrname k) = Some (val (ecorr_key_name k)) end) ->
  (forall k, kind <> Varies -> List.In k (dkeys masks) -> dget string_dec p (ecorr_param psrname k) = None) ->
  ecorr_kernel argsort n toas (ecorr_masks masks) val = Ok bs -> ecorr_noise (if block then BlockM else ShermanMorrisonM) bs = Ok N ->
  ecorr_body e p = Ok (existT nobj n N).
Proof.
move=> en; subst n => ne hv hc; rewrite /ecorr_kernel; have [idxs [ei ee]] := ecorr_shape; rewrite ei; cbn [rmap]; case EJ: (get_jvecs idxs val) => [epochs jvec]; move=> -[ebs] eN.
have keys := idxs_keys (kmasks_nodup nd) ei.
have get key : List.In key (sorted_keys idxs) -> e_get e p key = Ok (val key).
  rewrite keys => hk; have {hk} : List.In key (dkeys (ecorr_masks masks)) by move: hk; apply: Permutation.Permutation_in; exact: isort_perm.
  have -> : dkeys (ecorr_masks masks) = List.map ecorr_key_name (dkeys masks) by rewrite /dkeys /ecorr_masks -[@map]/List.map !List.map_map.
  move=> /List.in_map_iff [k [<- hk]]; rewrite /e_get /k_get /dgetE (ecorr_key_in hk) /=.
  have := hv k hk; have := hc k; rewrite ee /=; case: (kind) => [_ -> //|v h ev]; by rewrite h // ev.
have ev : rmapM (fun key => rmap (pair key) (e_get e p key)) (sorted_keys idxs) = Ok [seq (key, val key) | key <- sorted_keys idxs].
  by elim: (sorted_keys idxs) get => //= k l IH get; rewrite get /=; [rewrite IH // => k' hk'; apply: get; right|left].
have nk : sorted_keys idxs <> [::].
  rewrite keys => e0; have := isort_perm sle (dkeys (ecorr_masks masks)); rewrite -/(sorted_keys _) e0 => /Permutation.Permutation_nil.
  by case: (masks) ne.
rewrite /ecorr_body; have -> : e_idxs e = idxs by rewrite ee.
rewrite ev; cbn [rbind]; case E: (sorted_keys idxs) nk => [//|k0 l0] _; cbn [map]; rewrite -[(k0, val k0) :: _]/[seq (key, val key) | key <- k0 :: l0] -E.
have dg key : List.In key (sorted_keys idxs) -> dget string_dec [seq (key, val key) | key <- sorted_keys idxs] key = Some (val key).
  elim: (sorted_keys idxs) => //= k l IH; case: string_dec => [->|nk] // [ek|/IH //]; by case: nk.
pose f key := if dget string_dec [seq (key, val key) | key <- sorted_keys idxs] key is Some x then x else 0.
have hf key : List.In key (sorted_keys idxs) -> f key = val key by rewrite /f => /dg ->.
rewrite -/f; have -> : get_jvecs idxs f = get_jvecs idxs val.
  rewrite /get_jvecs; congr pair; move: f hf => f; elim: (sorted_keys idxs) => //= k l IH hf; rewrite IH; last by move=> k' hk'; apply: hf; right.
  by rewrite hf //; left.
rewrite EJ; have -> : e_block e = block by rewrite ee.
by rewrite ee; cbn [e_n]; rewrite ebs eN.
Qed.
End EcorrSource.

(** * Wideband timing models *)
Section WideProof.
Variable dom : params R -> Prop.
Hypothesis dom_flat : forall p, dom p -> flat_values p.
Lemma cached_answers O B (inv : O -> Prop) get put names func (v : params R -> result B) :
  (forall o, inv o -> good dom names 2 v (get o)) -> (forall o c, inv o -> good dom names 2 v c -> inv (put o c)) -> (forall o, put o (get o) = o) ->
  (forall p p', dom p -> dom p' -> agree names p p' -> v p = v p') -> answers dom inv (fun _ _ => True) func v ->
  answers dom inv (fun _ _ => True) (cached get put names 2 func) v.
Proof.
move=> hg hp eta dep H p o x dp hi e; have [o1 [e1 [i1 _]]] := H p o x dp hi e.
have [e'|[c [e' gc]]] := @cached_ok dom dom_flat O B get put names 2 func v p x o o1 (hg o hi) (le_S _ _ (le_n 1)) dep dp e e1 (eta o).
  by exists o.
by exists (put o1 c); split=> //; split=> //; exact: hp.
Qed.
Lemma andthen_answers O A B (inv : O -> Prop) f (v : params R -> result A) g (u : params R -> A -> result B) : answers dom inv (fun _ _ => True) f v ->
  (forall a, answers dom inv (fun _ _ => True) (fun p o => g p a o) (fun p => u p a)) -> answers dom inv (fun _ _ => True) (fun p o => andthen (f p o) (g p)) (fun p => rbind (v p) (u p)).
Proof.
move=> H G p o x dp hi e; have [a [ea eu]] := rbind_inv _ _ _ e; have [o1 [e1 [i1 _]]] := H p o a dp hi ea.
by have [o2 [e2 [i2 _]]] := G a p o1 x dp i1 eu; exists o2; rewrite (andthen_ok _ _ _ _ e1).
Qed.
Lemma mapr_answers O A B (inv : O -> Prop) f (v : params R -> result A) (h : A -> B) : answers dom inv (fun _ _ => True) f v ->
  answers dom inv (fun _ _ => True) (fun p o => mapr h (f p o)) (fun p => rmap h (v p)).
Proof. by move=> H p o x dp hi e; have [a [ea <-]] := rmap_inv _ _ _ e; have [o1 [e1 [i1 _]]] := H p o a dp hi ea; exists o1; rewrite /mapr e1. Qed.
Lemma pure_answers O B (inv : O -> Prop) (v : params R -> result B) : answers dom inv (fun _ _ => True) (fun p o => (o, v p)) v.
Proof. by move=> p o x dp hi ->; exists o. Qed.

Variable w : wide.
Notation names := (wide_names w).
Notation col := (as_col (wd_n w)).
Definition vw_dm (p : params R) : result (seq R) := rmap (fun js => as_list (wb_dm js (col (wd_dm w)))) (wide_values w (wd_jumps w) p).
Definition vw_dme (p : params R) : result (seq R) :=
  rbind (wide_values w (wd_efacs w) p) (fun es => rmap (fun qs => as_list (wb_dme es qs (col (wd_dmerr w)))) (wide_values w (wd_equads w) p)).
Definition vw_mean_dm (p : params R) : result (seq R) := rbind (vw_dm p) (fun dm => rmap (fun dme => as_list (wb_mean_dm (wd_bins w) (col dm) (col dme))) (vw_dme p)).
Definition vw_mean_dme (p : params R) : result (seq R) := rmap (fun dme => as_list (wb_mean_dme (wd_bins w) (col dme))) (vw_dme p).
Definition vw_phi (p : params R) : result pz := rmap (fun dme => existT phi_t (wd_m w) (PhiD (wb_phi (wd_bins w) (col dme) (wd_m w)))) (vw_dme p).
Definition vw_delay (p : params R) : result dz := rmap (fun avg => DzVec (wb_delay_of (wd_bins w) (col avg) (wd_dmpar w) (col (wd_freqs w)))) (vw_mean_dm p).
Definition vw_prior (p : params R) : result R :=
  rbind (vw_dm p) (fun dm => rbind (vw_dme p) (fun dme => rbind (vw_mean_dm p) (fun mdm => rbind (vw_mean_dme p) (fun mdme =>
    wb_logprior_of (wd_bins w) (col dm) (col dme) (col mdm) (col mdme))))).
Lemma values_dep l p p' : (forall x, List.In x l -> List.In x.1.1 names) -> agree names p p' -> wide_values w l p = wide_values w l p'.
Proof.
move=> sub ag; rewrite /wide_values; elim: l sub => //= x l IH sub; rewrite IH; last by move=> y iy; apply: sub; right.
by rewrite /k_get ag //; apply: sub; left.
Qed.
Lemma names_in (x : string * pkind * mask) : List.In x (wd_efacs w) \/ List.In x (wd_equads w) \/ List.In x (wd_jumps w) -> List.In x.1.1 names.
Proof.
move=> h; have : List.In x (wd_efacs w ++ wd_equads w ++ wd_jumps w) by rewrite -[cat]/(@List.app _); apply/List.in_app_iff; case: h => h; [left|right; apply/List.in_app_iff].
rewrite /wide_names; elim: (_ ++ _) => //= y l IH [->|/IH]; [by left|by right].
Qed.
Lemma dm_dep p p' : agree names p p' -> vw_dm p = vw_dm p'.
Proof.
by move=> ag; rewrite /vw_dm (values_dep _ ag) // => x ix; apply: names_in; right; right.
Qed.
Lemma dme_dep p p' : agree names p p' -> vw_dme p = vw_dme p'.
Proof.
move=> ag; rewrite /vw_dme (values_dep _ ag); last by move=> x ix; apply: names_in; left.
by rewrite (@values_dep (wd_equads w) _ _ _ ag) // => x ix; apply: names_in; right; left.
Qed.
Lemma mean_dm_dep p p' : agree names p p' -> vw_mean_dm p = vw_mean_dm p'.
Proof. by move=> ag; rewrite /vw_mean_dm (dm_dep ag) (dme_dep ag). Qed.
Lemma mean_dme_dep p p' : agree names p p' -> vw_mean_dme p = vw_mean_dme p'.
Proof. by move=> ag; rewrite /vw_mean_dme (dme_dep ag). Qed.
Lemma phi_dep p p' : agree names p p' -> vw_phi p = vw_phi p'.
Proof. by move=> ag; rewrite /vw_phi (dme_dep ag). Qed.
Lemma delay_dep p p' : agree names p p' -> vw_delay p = vw_delay p'.
Proof. by move=> ag; rewrite /vw_delay (mean_dm_dep ag). Qed.
Lemma prior_dep p p' : agree names p p' -> vw_prior p = vw_prior p'.
Proof. by move=> ag; rewrite /vw_prior (dm_dep ag) (dme_dep ag) (mean_dm_dep ag) (mean_dme_dep ag). Qed.

Variables (m : sg sst nz dz fz pz) (b : beh sst nz dz fz pz).
Record wide_inv (o : wide_st) : Prop := WideInv { wi_base : b_inv b (ws_base o); wi_phi : good dom names 2 vw_phi (ws_phi o); wi_delay : good dom names 2 vw_delay (ws_delay o);
  wi_prior : good dom names 2 vw_prior (ws_prior o); wi_dm : good dom names 2 vw_dm (ws_dm o); wi_dme : good dom names 2 vw_dme (ws_dme o);
  wi_mean_dm : good dom names 2 vw_mean_dm (ws_mean_dm o); wi_mean_dme : good dom names 2 vw_mean_dme (ws_mean_dme o) }.
Notation sure f v := (answers dom wide_inv (fun _ _ => True) f v).
Lemma dm_ok : sure (wide_dm w) vw_dm.
Proof. by apply: cached_answers => [o []|o c []|[]|p p' _ _|] //; [exact: dm_dep|exact: pure_answers]. Qed.
Lemma dme_ok : sure (wide_dme w) vw_dme.
Proof. by apply: cached_answers => [o []|o c []|[]|p p' _ _|] //; [exact: dme_dep|exact: pure_answers]. Qed.
Lemma mean_dm_ok : sure (wide_mean_dm w) vw_mean_dm.
Proof.
apply: cached_answers => [o []|o c []|[]|p p' _ _|] //; first exact: mean_dm_dep.
by apply: andthen_answers => [|a]; [exact: dm_ok|apply: mapr_answers; exact: dme_ok].
Qed.
Lemma mean_dme_ok : sure (wide_mean_dme w) vw_mean_dme.
Proof. by apply: cached_answers => [o []|o c []|[]|p p' _ _|] //; [exact: mean_dme_dep|apply: mapr_answers; exact: dme_ok]. Qed.
Lemma wphi_ok : sure (wide_phi w) vw_phi.
Proof. by apply: cached_answers => [o []|o c []|[]|p p' _ _|] //; [exact: phi_dep|apply: mapr_answers; exact: dme_ok]. Qed.
Lemma wdelay_ok : sure (wide_delay w) vw_delay.
Proof. by apply: cached_answers => [o []|o c []|[]|p p' _ _|] //; [exact: delay_dep|apply: mapr_answers; exact: mean_dm_ok]. Qed.
Lemma wprior_ok : sure (wide_prior w) vw_prior.
Proof.
apply: cached_answers => [o []|o c []|[]|p p' _ _|] //; first exact: prior_dep.
do 4 (apply: andthen_answers => [|?]; [first [exact: dm_ok|exact: dme_ok|exact: mean_dm_ok|exact: mean_dme_ok]|]).
exact: pure_answers.
Qed.
Definition wide_beh : beh wst nz dz fz pz :=
  Beh (b_ndiag b) (fun p => rmap Some (vw_delay p)) (b_basis b) vw_phi vw_prior (fun s => exists o, s = WWide o /\ wide_inv o) (fun _ _ => True).
Lemma own_answers B (f : params R -> wide_st -> wide_st * result B) v : sure f v -> answers dom (fun s => exists o, s = WWide o /\ wide_inv o) (fun _ _ => True) (own f) v.
Proof. by move=> H p s x dp [o [-> hi]] e; have [o' [e' [h1 _]]] := H p o x dp hi e; exists (WWide o'); rewrite /= e'; split=> //; split=> //; exists o'. Qed.
Lemma base_answers B (f : params R -> sst -> sst * result B) v : answers dom (b_inv b) (fun _ _ => True) f v ->
  answers dom (fun s => exists o, s = WWide o /\ wide_inv o) (fun _ _ => True) (of_base f) v.
Proof.
move=> H p s x dp [o [-> [h0 h1 h2 h3 h4 h5 h6 h7]]] e; have [b' [e' [h _]]] := H p (ws_base o) x dp h0 e.
by eexists; rewrite /= e'; split; first reflexivity; split=> //; eexists; split; first reflexivity.
Qed.
Lemma wide_sound : s_type m = BasisT -> sound dom m b -> sound dom (wide_sg w m) wide_beh.
Proof.
move=> et [h1 h2 h3 h4 h5 h6 h7 h8]; constructor=> /=.
- exact: base_answers.
- by apply: own_answers; apply: mapr_answers; exact: wdelay_ok.
- exact: base_answers.
- by apply: own_answers; exact: wphi_ok.
- by apply: own_answers; exact: wprior_ok.
- by move: h6; rewrite et.
- by move=> p p' _ _ ag; rewrite (delay_dep ag).
- by move: h8; rewrite et.
Qed.
End WideProof.

Lemma col_list n (v : 'cV[R]_n) : as_col n (as_list v) = v.
Proof.
apply/matrixP=> i j; rewrite mxE (ord1 j) /as_list (nth_map i) ?size_enum_ord //.
by rewrite nth_ord_enum.
Qed.
Section WideSeen.
Variables (n : nat) (p : params R).
Lemma values_of (w : wide) psrname suffix (kind : string -> pkind) (masks : dict string mask) (val : string -> R) :
  (forall k, List.In k (dkeys masks) -> wide_has p (kind k) (us_name [:: psrname; k; suffix]) (val k)) ->
  wide_values w (wide_pars psrname suffix kind masks) p = Ok [seq (val km.1, fun i : 'I_(wd_n w) => nth false km.2 i) | km <- isort (fun x y => sle x.1 y.1) masks].
Proof.
move=> hv; rewrite /wide_values /wide_pars.
have {hv} : forall km, List.In km (isort (fun x y : string * mask => sle x.1 y.1) masks) -> wide_has p (kind km.1) (us_name [:: psrname; km.1; suffix]) (val km.1).
  move=> km ik; apply: hv; apply: (List.in_map fst); move: ik; apply: Permutation.Permutation_in; exact: isort_perm.
elim: (isort _ _) => //= km l IH hv; rewrite IH; last by move=> x ix; apply: hv; right.
by rewrite /k_get; case: (hv km (or_introl erefl)) => [->|[-> [v -> ->]]].
Qed.
Lemma sum_sel (f : string -> R) (masks : dict string mask) i :
  \sum_(x <- [seq (f km.1, fun i : 'I_n => nth false km.2 i) | km <- isort (fun x y : string * mask => sle x.1 y.1) masks]) x.1 * (x.2 i)%:R = wide_at f masks i.
Proof. by rewrite big_map /wide_at; apply: big_permut; exact: isort_perm. Qed.
End WideSeen.
Lemma proc_cols n priorfn basisfn name psrname psr masks g s0 q bl : proper (Proc priorfn basisfn name psrname psr masks false) ->
  new_gp priorfn basisfn false name psrname psr masks = Ok (g, s0) -> blocks_at basisfn name psrname psr masks n q bl ->
  rbind (snd (let (b', r) := ModelGp.get_basis g q (cempty, unbuilt) in (SGp (cempty, b'), rmap Some r))) (over to_fz) =
    Ok (Some (Fz (\matrix_(i < n, j < ProofGp.columns bl) nth 0 (row_of bl i) j))).
Proof.
move=> [nd nf] eg h; have [_ [g0 [e0 /(_ erefl) eg0]]] := bases_of nd eg; subst g0.
have := proc_basis priorfn basisfn name psrname psr masks n g nd e0 q bl h.
case: ModelGp.get_basis => b' r /= -> /=.
have -> := @to_fz_rows (List.map (row_of bl) (List.seq 0 n)) (ProofGp.columns bl) n.
- rewrite /=; congr (Ok (Some (Fz _))); apply/matrixP=> i j; rewrite !mxE; congr nth.
  rewrite -nth_list (List.nth_indep _ [::] (row_of bl 0)); last by rewrite List.map_length List.seq_length; apply/ssrnat.ltP.
  by rewrite List.map_nth List.seq_nth //; apply/ssrnat.ltP.
- by rewrite List.map_length List.seq_length.
- by move=> r' /List.in_map_iff [t [<- _]]; exact: row_of_length h.
Qed.
Lemma wide_seen argsort dom fns n p (v : view n) efac equad jump jref priorfn basisfn name psrname psr q sel jsel g s0 w :
  proper (Proc priorfn basisfn name psrname psr (everywhere q) false) -> new_gp priorfn basisfn false name psrname psr (everywhere q) = Ok (g, s0) ->
  new_wide efac equad jump jref psrname q sel jsel = Ok w -> wadds argsort fns p (Wideband efac equad jump jref priorfn basisfn name psrname psr q sel jsel) v ->
  seen p (wide_sg w (sized (gp_sg g false))) (wide_beh dom w (sized_beh (beh_of dom fns (DGp g false)))) v.
Proof.
move=> ps eg ew [bl [bl0 [bins [dm [dme [lp [hb [hb0 [ec [ec0 [en [[ef [eq [ju [hef heq hju hd]]]] [eb [el ->]]]]]]]]]]]]]].
subst n; move: ew; rewrite /new_wide; case: ifP => // _; rewrite eb => -[<-] {w}.
set w := Wide _ _ _ _ _ _ _ _ _.
have edm : vw_dm w p = Ok (as_list dm).
  rewrite /vw_dm; have -> : wide_values w (wd_jumps w) p = Ok (if jump is Some _ then [seq (ju km.1, fun i : 'I_(wd_n w) => nth false km.2 i) | km <- isort (fun x y : string * mask => sle x.1 y.1) jsel] else [::]).
    rewrite /w /=; case: (jump) hju => [kind|] // h; apply: (values_of w (kind := fun key => if jref is Some r then if String.eqb key r then Fixed (fun _ => Some 0) else kind else kind)) => k /h; rewrite /jump_kind; case: (jref) => [r|] //.
    by case: string_dec => e1; case: String.eqb_spec => e2 //=; [case: e2|case: e1].
  rewrite /=; congr (Ok (as_list _)); apply/matrixP=> i j; rewrite (ord1 j) !mxE; have [-> _] := hd i; congr (_ + _).
  by case: (jump) => [_|]; [exact: sum_sel|rewrite big_nil].
have edme : vw_dme w p = Ok (as_list dme).
  rewrite /vw_dme /w /=; rewrite -/w; have -> := values_of w (kind := fun _ => efac) hef.
  have -> : wide_values w (if equad is Some k then wide_pars psrname "log10_dmequad" (fun _ => k) sel else [::]) p =
      Ok (if equad is Some _ then [seq (eq km.1, fun i : 'I_(wd_n w) => nth false km.2 i) | km <- isort (fun x y : string * mask => sle x.1 y.1) sel] else [::]).
    by case: (equad) heq => [kind|] // h; exact: (values_of w (kind := fun _ => kind)).
  rewrite /=; congr (Ok (as_list _)); apply/matrixP=> i j; rewrite (ord1 j) !mxE; have [_ ->] := hd i.
  have -> := @sum_sel _ ef sel i; case: (equad) => [k|] /=; last by rewrite expr0n /= addr0.
  rewrite size_map; case: (ltnP 0 (size (isort (fun x y : string * mask => sle x.1 y.1) sel))) => hs.
    by congr (sqrt (_ * (_ + _ ^+ 2)))%R; rewrite big_map -(@sum_sel _ _ sel i) big_map.
  have -> : wide_at (fun k => Rpower 10 (eq k)) sel i = 0; last by rewrite expr0n /= addr0.
  have e0 : isort (fun x y : string * mask => sle x.1 y.1) sel = [::] by apply: size0nil; apply/eqP; rewrite -leqn0.
  by have := isort_perm (fun x y : string * mask => sle x.1 y.1) sel; rewrite e0 => /Permutation.Permutation_nil ->; rewrite /wide_at big_nil.
have emdm : vw_mean_dm w p = Ok (as_list (wb_mean_dm bins dm dme)) by rewrite /vw_mean_dm edm /= edme /= !col_list.
have emdme : vw_mean_dme w p = Ok (as_list (wb_mean_dme bins dme)) by rewrite /vw_mean_dme edme /= !col_list.
have B r c bl' : blocks_at basisfn name psrname psr (everywhere q) (size (q_stoas q)) r bl' -> ProofGp.columns bl' = c ->
    b_basis (wide_beh dom w (sized_beh (beh_of dom fns (DGp g false)))) r = Ok (Some (Fz (\matrix_(i < size (q_stoas q), j < c) nth 0 (row_of bl' i) j))).
  by move=> h <-; have := proc_cols ps eg h.
split=> //.
- by cbn [b_delay wide_beh]; rewrite /vw_delay emdm /= !col_list.
- by cbn [b_prior wide_beh]; rewrite /vw_prior edm /= edme /= emdm /= emdme /= !col_list; exact: el.
- split=> //.
  + exact: B.
  + by cbn [b_phi wide_beh]; rewrite /vw_phi edme /= !col_list.
  + by eexists; exact: (B [::] _ bl0).
  + by case: ps => nd _; exact: (gp_depends nd eg).
Qed.
(** * Arrays *)
Definition wbeh (dom : params R -> Prop) (fns : nat -> fob * fob) (d : wdesc) : beh wst nz dz fz pz :=
  match d with
  | WPlain d => inside_beh (sized_beh (beh_of dom fns d))
  | WEcorr e => noise_beh dom (e_names e) (ecorr_body e)
  | WMargin o => noise_beh dom [::] (margin_body o)
  | WWideband g w => wide_beh dom w (sized_beh (beh_of dom fns (DGp g false)))
  end.
Definition wdesc_at (dss : seq (seq wdesc)) (ij : nat * nat) : option wdesc := if List.nth_error dss ij.1 is Some ds then List.nth_error ds ij.2 else None.
Definition wcross_of (fns : nat -> fob * fob) (dss : seq (seq wdesc)) (cls : nat) (ij ij' : nat * nat) (p : params R) : result cz :=
  match wdesc_at dss ij, wdesc_at dss ij' with
  | Some (WPlain (DCommon c pos _ _)), Some (WPlain (DCommon _ pos' _ _)) =>
      rbind (gcall (c_basis c) [::] [::] p) (fun v => match v with
        | GPair _ labels => rbind (gcall (fst (fns cls)) [:: labels] [::] p) (fun a => rbind (gcall (snd (fns cls)) [:: pos; pos'] [::] p) (fun x =>
            rbind (to_vec a) (fun l => if x is GV (Sc y) then Ok (Cz y (existT phi_t (size l) (PhiD (to_col l)))) else Err TypeError)))
        | _ => Err TypeError end)
  | _, _ => Err AttributeError
  end.
Section Arrays.
Variables (argsort : seq R -> seq nat) (fns : nat -> fob * fob).
Variables (arr : seq (seq wsrc * seq R)) (dss : seq (seq wdesc)).
Hypothesis pr : forall c s, List.In c arr -> List.In s c.1 -> wproper s.
Hypothesis made_dss : new_warray argsort fns arr = Ok dss.
Notation dom := (wpermitted fns arr).
Notation new := (new_wsig argsort fns).
Definition wmodels : seq (coll wst nz dz fz pz * seq (beh wst nz dz fz pz)) :=
  [seq (wcoll fns x.1 x.2.2, [seq wbeh dom fns d | d <- x.1]) | x <- zip dss arr].
Lemma wmodels_fst : List.map fst wmodels = warray_colls fns dss arr.
Proof. by rewrite /wmodels /warray_colls List.map_map. Qed.
Lemma wmade_pairs : List.Forall2 (fun c ds => List.Forall2 (fun s d => new s = Ok d) c.1 ds) arr dss.
Proof.
move/rmapM_ok: made_dss; elim=> [|c ds l l' e _ IH]; constructor=> //.
exact: rmapM_ok.
Qed.
Lemma wdom_flat p : dom p -> flat_values p.
Proof. by case. Qed.
Lemma wdom_nil : dom [::].
Proof. by split=> [|c s _ _] //; case: s => [s o _|b [|v] ps ts ms|f nm ps psr|k1 k2 k3 k4 f1 f2 nm ps psr q m1 m2 o _] //=. Qed.
Lemma wsound_one c s d : List.In c arr -> List.In s c.1 -> new s = Ok d -> sound dom (wsg_of fns d) (wbeh dom fns d) /\ b_inv (wbeh dom fns d) (wstart_of d).
Proof.
move=> ic is_; have ps := pr ic is_; case: s ps is_ => [s|block kind psrname toas masks|basisfn name psrname psr|efac equad jump jref priorfn basisfn name psrname psr q sel jsel] ps is_; rewrite /new_wsig.
- apply: rmapI => d0 e0 <-; have [so hi] : sound dom (sg_of fns d0) (beh_of dom fns d0) /\ inv_of dom d0 (start_of d0).
    apply: desc_sound; [exact: wdom_flat|exact: wdom_nil|exact: source_made ps e0|].
    move=> p o [_ h] io; apply: (h c (Plain s)) => //; exact: source_objects ps e0 o io.
  split; first by apply: inside_sound; exact: sized_sound.
  by exists (start_of d0).
- apply: rmapI => e ee <-; split; last exact: noise_start.
  by apply: noise_sound => [|p p' [_ hp] [_ hp'] ag]; [exact: wdom_flat|apply: (ecorr_dep ps ee (fns := fns)) => //; [exact: (hp c)|exact: (hp' c)]].
- by move=> [<-]; split; [apply: noise_sound; first exact: wdom_flat|exact: noise_start].
- apply: rbindI => -[g s0] eg; apply: rmapI => w _ <-.
  have e0 : new_sig fns (Proc priorfn basisfn name psrname psr (everywhere q) false) = Ok (DGp g false) by rewrite /new_sig eg.
  have [so hi] : sound dom (sg_of fns (DGp g false)) (beh_of dom fns (DGp g false)) /\ inv_of dom (DGp g false) (start_of (DGp g false)).
    apply: desc_sound; [exact: wdom_flat|exact: wdom_nil|exact: source_made ps e0|].
    move=> p o [_ h] io; apply: (h c _ ic is_); exact: source_objects ps e0 o io.
  split; first by apply: (wide_sound wdom_flat w (m := sized (sg_of fns (DGp g false)))) => //; exact: sized_sound.
  by exists (WideSt (start_of (DGp g false)) cempty cempty cempty cempty cempty cempty cempty); split=> //; split; try exact: good_empty; exact: hi.
Qed.
Lemma wmodels_ind (P : (coll wst nz dz fz pz * seq (beh wst nz dz fz pz)) -> seq wsrc * seq R -> Prop) :
  (forall c ds, List.In c arr -> List.Forall2 (fun s d => new s = Ok d) c.1 ds -> P (wcoll fns ds c.2, [seq wbeh dom fns d | d <- ds]) c) -> List.Forall2 P wmodels arr.
Proof.
rewrite /wmodels; move: (fun d => wbeh dom fns d) => f; elim: wmade_pairs => [|c ds l l' e _ IH] h; constructor; first by apply: h => //; left.
by apply: IH => c' ds' i; apply: h; right.
Qed.
Lemma wmodels_sound : List.Forall (sound_coll dom) wmodels.
Proof.
have H : List.Forall2 (fun m (_ : seq wsrc * seq R) => sound_coll dom m) wmodels arr.
  apply: wmodels_ind => c ds ic F; rewrite /sound_coll /=.
  have so s d : List.In s c.1 -> new s = Ok d -> sound dom (wsg_of fns d) (wbeh dom fns d) by move=> is_ e; case: (wsound_one ic is_ e).
  elim: F so => [|s d l l' e _ IH] so; constructor; first by apply: (so s) => //; left.
  by apply: IH => s' d' i; apply: so; right.
move: (sound_coll dom) H => Q; move: wmodels => ms; by elim=> [|m c l l' h _ IH]; constructor.
Qed.
Lemma wmodels_inv : List.Forall2 (fun c ss => List.Forall2 b_inv (snd c) ss) wmodels [seq [seq wstart_of d | d <- ds] | ds <- dss].
Proof.
rewrite /wmodels; pose f d := wbeh dom fns d.
have : forall c s d, List.In c arr -> List.In s c.1 -> new s = Ok d -> b_inv (f d) (wstart_of d) by move=> c s d ic is_ e; case: (wsound_one ic is_ e).
rewrite -/f; move: f => f; elim: wmade_pairs => [|c ds l l' e _ IH] h; constructor; last by apply: IH => c' s d i; apply: h; right.
rewrite /=; have {}h s d : List.In s c.1 -> new s = Ok d -> b_inv (f d) (wstart_of d) by apply: h; left.
elim: e h => [|s d m m' e _ IH'] h; constructor; first by apply: (h s) => //; left.
by apply: IH' => s' d' i; apply: h; right.
Qed.
Lemma wmodels_at ij m b : beh_at wmodels ij = Some (m, b) -> exists s d, [/\ wsource_at arr ij = Some s, wdesc_at dss ij = Some d, new s = Ok d, m = wsg_of fns d & b = wbeh dom fns d].
Proof.
case: ij => i j; pose f d := wbeh dom fns d.
rewrite /wmodels -/f; suff : forall m b, beh_at [seq (wcoll fns x.1 x.2.2, [seq f d | d <- x.1]) | x <- zip dss arr] (i, j) = Some (m, b) ->
    exists s d, [/\ wsource_at arr (i, j) = Some s, wdesc_at dss (i, j) = Some d, new s = Ok d, m = wsg_of fns d & b = f d] by move/(_ m b).
move: f => f {m b} m b; rewrite /beh_at /wsource_at /wdesc_at /=.
elim: wmade_pairs i => [|c ds l l' F _ IH] [|i] //=; last exact: IH.
elim: F {IH} j => [|s d k k' e _ IH'] [|j] //=; last exact: IH'.
by move=> [<- <-]; exists s, d.
Qed.
Lemma wmodels_commons hash svd : sound_commons (z_ops hash svd (wcross fns)) (wcross_of fns dss) wmodels.
Proof.
split.
- move=> ij m b k x /wmodels_at [s [d [_ _ _ -> ->]]]; case: d => [d|e|o|g w] //; case: d => [f|f n|g comb|g s1 comb|c pos cls comb] // _.
  cbn [wbeh inside_beh sized_beh beh_of alone b_basis sg_of common_sg s_basis start_of]; case: (c_construct c [::] (cempty, None)) => s' r e ex; move: e; rewrite ex {ex x}; cbn [snd]; apply: rbindI => y; apply: rbindI => u _; apply: rbindI => y' _.
  by apply: rmapI => z _ <- /=; case: to_fz.
- move=> ij ij' m m' b b' k p s s' x /wmodels_at [s0 [d [_ ed _ -> ->]]] /wmodels_at [s0' [d' [_ ed' _ -> ->]]].
  case: d ed => [d|e|o|g w] //= ed; case: d' ed' => [d'|e'|o'|g' w'] //= ed'.
  case: d ed => [f|f n|g comb|g s1 comb|c pos cls comb] //= ed; case: d' ed' => [f|f n|g comb'|g s1 comb'|c' pos' cls' comb'] //= ed' [<-] [_].
  move=> [t0 [-> [t [-> hb]]]] [t0' [-> [t' [-> _]]]]; rewrite /wcross_of ed ed' /=.
  move: hb; rewrite /c_build; case: gcall => //= v; case: v => [v|nc rows|F labels|mk|at_|] //= [hb].
  by rewrite -hb.
Qed.
Lemma wsource_seen n s d p (w : view n) c : List.In c arr -> List.In s c.1 -> new s = Ok d -> dom p -> wadds argsort fns p s w -> seen p (wsg_of fns d) (wbeh dom fns d) w.
Proof.
move=> ic is_; have ps := pr ic is_; case: s ps is_ => [s|block kind psrname toas masks|basisfn name psrname psr|efac equad jump jref priorfn basisfn name psrname psr q sel jsel] ps is_; rewrite /new_wsig.
- apply: rmapI => d0 e0 <- dp h; exact: (source_seen dom ps e0 (wdom_flat dp) h).
- apply: rmapI => e ee <- dp [en [ne [val [bs [N [hv [ek [eN ->]]]]]]]]; split=> //=.
  rewrite (ecorr_value ps ee en ne hv _ ek eN) // => k nk hk.
  by case: dp => _ /(_ c _ ic is_) /=; case: (kind) nk => // v _ h; exact: h.
- move=> [<-] dp [nc [rows [lab [eg [el [fr ->]]]]]]; split=> //=; rewrite /margin_body eg /=; subst n.
  have -> // : all (fun r => size r == nc) rows by elim: fr => //= r l /= <- _ ->; rewrite eqxx.
- apply: rbindI => -[g s0] eg; apply: rmapI => w0 ew <- dp h; exact: (wide_seen dom ps eg ew h).
Qed.
Lemma wmodels_seen p qs : dom p -> List.Forall2 (fun c v => psr_wadds argsort fns p c v) arr qs -> List.Forall2 (fun m v => psr_seen p m v) wmodels qs.
Proof.
move=> dp S.
have H : List.Forall2 (fun m c => forall v, psr_wadds argsort fns p c v -> psr_seen p m v) wmodels arr.
  apply: wmodels_ind => c ds ic F v [l [hr hw]]; split=> /=.
    by rewrite (col_vec l); congr DzVec; apply/matrixP=> i j; rewrite mxE (ord1 j) hr.
  have so n s d (w : view n) : List.In s c.1 -> new s = Ok d -> wadds argsort fns p s w -> seen p (wsg_of fns d) (wbeh dom fns d) w.
    by move=> is_ e; exact: wsource_seen ic is_ e dp.
  elim: hw ds F so => [|s w ss ws hs _ IH] ds F so; inversion_clear F as [|? d ? ds' e F']; first exact: seen_nil.
  by apply: seen_cons; [apply: (so _ s) => //; left|apply: IH => // n' s' d' w' i; apply: so; right].
elim: H qs S => [|m c l l' h _ IH] qs S; inversion_clear S as [|? v ? vs h1 h2]; constructor; [exact: h|exact: IH].
Qed.
Lemma wsized_class s d : new s = Ok d -> s_class (wsg_of fns d) = wclass s.
Proof.
case: s => [s|block kind psrname toas masks|basisfn name psrname psr|efac equad jump jref priorfn basisfn name psrname psr q sel jsel]; rewrite /new_wsig.
- by apply: rmapI => d0 /sized_class e <-.
- by apply: rmapI => e _ <-.
- by move=> [<-].
- by apply: rbindI => gs _; apply: rmapI => w _ <-.
Qed.
End Arrays.

(** * Likelihoods *)
Section Main.
Variables (hash : forall n, 'cV[R]_n -> nat) (svd : forall k, 'M[R]_k -> 'M[R]_k * 'cV[R]_k).
Variables (argsort : seq R -> seq nat) (fns : nat -> fob * fob) (arr : seq (seq wsrc * seq R)) (dss : seq (seq wdesc)).
Hypothesis pr : forall c s, List.In c arr -> List.In s c.1 -> wproper s.
Hypothesis made_dss : new_warray argsort fns arr = Ok dss.
Notation dom := (wpermitted fns arr).
Notation ms := (wmodels fns arr dss).
Notation op := (z_ops hash svd (wcross fns)).
Lemma wask_all (T : Type) (l : seq T) (method : T -> string) (par : T -> params R) (val : T -> lval) :
  (forall t, List.In t l -> dom (par t) /\ v_like op (wcross_of fns dss) ms (method t) (par t) = Ok (val t)) ->
  run op (warray_colls fns dss arr) [seq ALike (method t) (par t) | t <- l] (warray_start dss) = [seq Ok (RLike (val t)) | t <- l].
Proof.
move=> H; rewrite -wmodels_fst.
transitivity (List.map Ok [seq RLike (val t) | t <- l] : seq (result (ans nz dz fz pz phz out (R * R) lval))); last by elim: (l) => [|t l0 IH] //=; congr cons.
apply: (@array_history_lem _ _ _ _ _ _ _ _ _ _ _ _ _ op dom (wcross_of fns dss) (@wdom_flat fns arr) (@wdom_nil fns arr) ms).
- exact: (wmodels_sound pr made_dss).
- exact: (wmodels_commons made_dss).
- exact: (wmodels_inv pr made_dss).
- by elim: l H => [|t l IH] H; constructor; [have [h e] := H t (or_introl erefl); split=> //=; rewrite e|apply: IH => t' i; apply: H; right].
Qed.
Lemma wseen_models p (qs : seq psr_model) : dom p -> List.Forall2 (fun c q => psr_wadds argsort fns p c (pm q) /\ good_psr hash q) arr qs ->
  List.Forall2 (fun m q => psr_seen p m (pm q) /\ good_psr hash q) ms qs.
Proof.
move=> dp S; have S1 : List.Forall2 (fun c v => psr_wadds argsort fns p c v) arr [seq pm q | q <- qs] by elim: S => [|c q l l' [h _] _ IH]; constructor.
have S2 : List.Forall (good_psr hash) qs by elim: {S1} S => [|c q l l' [_ h] _ IH]; constructor.
have := wmodels_seen pr made_dss dp S1; move: {S S1} ms => M; elim: qs M S2 => [|q qs IH] M S2 H; inversion_clear H; first by constructor.
by inversion_clear S2; constructor=> //; apply: IH.
Qed.
Lemma wsources_value method p qs : walone arr -> dom p -> known_method method -> List.Forall2 (fun c q => psr_wadds argsort fns p c (pm q) /\ good_psr hash q) arr qs ->
  v_like op (wcross_of fns dss) ms method p = Ok (Fin (\sum_(q <- qs) psr_term q)).
Proof.
move=> al dp km S; have S' := wseen_models dp S.
apply: (like_value svd (wcross fns) (@wdom_nil fns arr) dp (wcross_of fns dss) (wmodels_sound pr made_dss) _ S' km).
move=> ij ij' m m' b b' k /(wmodels_at made_dss) [s [d [e _ es -> _]]] /(wmodels_at made_dss) [s' [d' [e' _ es' -> _]]].
rewrite (wsized_class es) (wsized_class es'); exact: al.
Qed.
Lemma nth_wadd n p ss (ws : seq (view n)) j s : all_wadd argsort fns p ss ws -> List.nth_error ss j = Some s -> exists w, List.nth_error ws j = Some w /\ wadds argsort fns p s w.
Proof. by move=> F; elim: F j => [|a b l' m' h _ IH] [|j] //=; [move=> [<-]; exists b|exact: IH]. Qed.
Lemma wsources_classes method p K (orf : nat -> nat -> nat -> R) (phi : forall k, 'cV[R]_(K k)) (xs : seq (mpsr K)) ks : dom p ->
  List.Forall2 (fun c x => [/\ psr_wadds argsort fns p c (pm (mp_q x)), good_psr hash (mp_q x), has_process x, wmember fns p phi c x & wothers c x]) arr xs ->
  [seq mp_i x | x <- xs] = iota 0 (size xs) -> uniq ks -> (forall x k, List.In x xs -> mp_j x k -> k \in ks) -> (exists k, (1 < size (members xs k))%N) ->
  wcorrelation fns arr p orf xs -> (forall k, k \in ks -> posdef (\matrix_(i < size xs, j < size xs) orf k i j) /\ forall i, 0 < phi k i ord0) ->
  method_for method xs ->
  v_like op (wcross_of fns dss) ms method p = Ok (Fin (many_term orf phi xs ks)).
Proof.
move=> dp S num uk allk two co pG meth.
have S1 : List.Forall2 (fun c q => psr_wadds argsort fns p c (pm q) /\ good_psr hash q) arr [seq mp_q x | x <- xs] by elim: S {num two co pG allk meth} => [|c x l l' [h1 h2 _ _ _] _ IH]; constructor.
have idx x i : List.nth_error xs i = Some x -> mp_i x = i.
  move=> e; have := erefl (List.nth_error [seq mp_i x | x <- xs] i); rewrite {1}num List.nth_error_map e /=.
  have lt : (i < size xs)%coq_nat by apply/List.nth_error_Some; rewrite e.
  have -> : List.nth_error (iota 0 (size xs)) i = Some i; last by move=> [].
  move: lt; clear; move: (size xs) => m; rewrite -[in RHS](add0n i); elim: m i (0%N) => [|m IH] [|i] o lt /=; try lia; first by rewrite addn0.
  by rewrite IH ?addSnnS //; lia.
have at_ x : List.In x xs -> exists c, [/\ List.nth_error arr (mp_i x) = Some c, psr_wadds argsort fns p c (pm (mp_q x)), wmember fns p phi c x & wothers c x].
  move=> hx; have [i e] := in_nth hx; have ei := idx _ _ e.
  have F : List.Forall2 (fun x c => [/\ psr_wadds argsort fns p c (pm (mp_q x)), good_psr hash (mp_q x), has_process x, wmember fns p phi c x & wothers c x]) xs arr.
    by elim: S {num two co pG S1 idx e ei allk meth} => [|a b l l' h _ IH]; constructor.
  by have [c [ec [h1 h2 h3 h4 h5]]] := nth_F2 F e; exists c; rewrite ei.
have place x k j : List.In x xs -> mp_j x k = Some j -> forall b nm pn psr pos cb, wsource_at arr (mp_i x, j) = Some (Plain (Common b nm pn psr pos k cb)) ->
    gcall (fns k).2 [:: pos; pos] [::] p = Ok (GV (Sc (orf k (mp_i x) (mp_i x)))).
  by move=> hx ej b nm pn psr pos cb e; exact: (co _ _ _ _ _ _ _ _ _ _ _ _ _ _ _ _ _ hx hx (leqnn _) ej ej e e).
have com x : List.In x xs -> has_commons orf phi x.
  move=> hx k j ej; have [c [ec [_ [_ ha]] /(_ k j ej) [b [nm [pn [psr [pos [cb [rows [lab [phil [es [eb [eF [ep [lp ephi]]]]]]]]]]]]]] _]] := at_ x hx.
  have [w [ew [_ [nc [rows' [lab' [rows0 [lab0 [phi' [y [e1 [_ [_ [_ [_ [_ [e2 [_ [e3 e4]]]]]]]]]]]]]]]]]]] := nth_wadd ha es.
  have sx : wsource_at arr (mp_i x, j) = Some (Plain (Common b nm pn psr pos k cb)) by rewrite /wsource_at /= ec.
  move: (place x k j hx ej _ _ _ _ _ _ sx); rewrite e3 => -[ey].
  move: e1; rewrite eb => -[enc erows elab]; subst nc rows' lab'; move: e2; rewrite ep => -[ephil]; subst phi'.
  exists w; eexists; eexists; split; first exact: ew.
  rewrite e4 /= eF; congr (Some (BSig _ (PhiD _) _ _)).
  by apply/matrixP=> i j'; rewrite ephi !mxE ey mulrC.
have S2 : List.Forall2 (fun c x => [/\ psr_seen p c (pm (mp_q x)), good_psr hash (mp_q x), has_process x, has_commons orf phi x & all_commons c x]) ms xs.
  have H1 := wseen_models dp S1.
  have H2 : List.Forall2 (fun m c => forall x : mpsr K, wmember fns p phi c x -> wothers c x -> all_commons m x) ms arr.
    apply: (wmodels_ind made_dss) => c ds ic F x mb ot j m k /=; rewrite List.nth_error_map.
    case e: (List.nth_error ds j) => [d|] //= [<-].
    have F' : List.Forall2 (fun d s => new_wsig argsort fns s = Ok d) ds c.1 by elim: F => [|a b l l' h _ IH]; constructor.
    have [s [es hs]] := nth_F2 F' e; rewrite (wsized_class hs); split=> [|/mb [b [nm [pn [psr [pos [cb [rows [lab [phil [es' _]]]]]]]]]]]; first exact: ot.
    by move: es'; rewrite es => -[->].
  have H3 : List.Forall2 (fun (c : seq wsrc * seq R) x => [/\ has_process x, has_commons orf phi x, wmember fns p phi c x & wothers c x]) arr xs.
    elim: S com {num two co pG S1 idx at_ place H1 allk meth} => [|c x l l' [_ _ h1 h2 h3] _ IH] com; constructor; first by split=> //; apply: com; left.
    by apply: IH => y hy; apply: com; right.
  move: {S S1 num two co pG idx at_ place com allk meth} ms H1 H2 => M H1 H2.
  elim: H2 xs H1 H3 => [|m c l l' h _ IH] ys H1 H3; first by inversion_clear H3; constructor.
  inversion H3 as [|? y ? ys' hcs H3']; subst ys; inversion H1 as [|? ? ? ? hpg H1']; subst.
  by case: hcs hpg => h1 h2 h3 h4 [hp hg]; constructor; [split=> //; apply: h|exact: IH].
apply: (many_value svd (wcross fns) (@wdom_nil fns arr) dp (v_cross := wcross_of fns dss) (wmodels_sound pr made_dss) S2 num uk allk two _ pG meth).
move=> x y k i j hx hy lt ei ej.
have [c [ec ha /(_ k i ei) [b [nm [pn [psr [pos [cb [rows [lab [phil [es [eb [eF [ep [lp ephi]]]]]]]]]]]]]] _]] := at_ x hx.
have [c' [ec' ha' /(_ k j ej) [b' [nm' [pn' [psr' [pos' [cb' [rows' [lab' [phil' [es' _]]]]]]]]]] _]] := at_ y hy.
have sx : wsource_at arr (mp_i x, i) = Some (Plain (Common b nm pn psr pos k cb)) by rewrite /wsource_at /= ec.
have sy : wsource_at arr (mp_i y, j) = Some (Plain (Common b' nm' pn' psr' pos' k cb')) by rewrite /wsource_at /= ec'.
have eo := co _ _ _ _ _ _ _ _ _ _ _ _ _ _ _ _ _ hx hy (ltnW lt) ei ej sx sy.
have D ij s : wsource_at arr ij = Some s -> exists d, wdesc_at dss ij = Some d /\ new_wsig argsort fns s = Ok d.
  rewrite /wsource_at /wdesc_at; case e1: List.nth_error => [a|] // e2.
  have [ds [-> F]] := nth_F2 (wmade_pairs made_dss) e1; by have [d [-> h]] := nth_F2 F e2; exists d.
have [d [ed /= [hd]]] := D _ _ sx; have [d' [ed' /= [hd']]] := D _ _ sy.
rewrite /wcross_of ed ed' -hd -hd'; cbn [c_basis new_cgp]; rewrite eb; cbn [rbind]; rewrite ep; cbn [rbind]; rewrite eo /=.
by rewrite (col_prior lp) -ephi.
Qed.
End Main.

Lemma kinds_likelihood_lem : forall (hash : forall n, 'cV[R]_n -> nat) (svd : forall k, 'M[R]_k -> 'M[R]_k * 'cV[R]_k) (argsort : seq R -> seq nat) (fns : nat -> fob * fob)
  (arr : seq (seq wsrc * seq R)) (dss : seq (seq wdesc)) (l : seq (string * params R * seq psr_model)),
  (forall c s, List.In c arr -> List.In s c.1 -> wproper s) -> new_warray argsort fns arr = Ok dss -> walone arr ->
  (forall t, List.In t l -> [/\ known_method t.1.1, wpermitted fns arr t.1.2 & List.Forall2 (fun c q => psr_wadds argsort fns t.1.2 c (pm q) /\ good_psr hash q) arr t.2]) ->
  run (z_ops hash svd (wcross fns)) (warray_colls fns dss arr) [seq ALike t.1.1 t.1.2 | t <- l] (warray_start dss) =
  [seq Ok (RLike (Fin (\sum_(q <- t.2) psr_term q))) | t <- l].
Proof.
move=> hash svd argsort fns arr dss l pr md al H; refine (@wask_all hash svd argsort fns arr dss pr md _ l (fun t => t.1.1) (fun t => t.1.2) (fun t => Fin (\sum_(q <- t.2) psr_term q)) _) => t ht.
by have [km dp S] := H t ht; split=> //; exact: (wsources_value svd pr md al dp km S).
Qed.
Lemma kinds_classes_lem : forall (hash : forall n, 'cV[R]_n -> nat) (svd : forall k, 'M[R]_k -> 'M[R]_k * 'cV[R]_k) (argsort : seq R -> seq nat) (fns : nat -> fob * fob)
  (arr : seq (seq wsrc * seq R)) (dss : seq (seq wdesc)) (K : nat -> nat) (ks : seq nat)
  (l : seq (string * params R * (nat -> nat -> nat -> R) * (forall k, 'cV[R]_(K k)) * seq (mpsr K))),
  (forall c s, List.In c arr -> List.In s c.1 -> wproper s) -> new_warray argsort fns arr = Ok dss -> uniq ks ->
  (forall method p orf phi xs, List.In (method, p, orf, phi, xs) l ->
    [/\ method_for method xs, wpermitted fns arr p,
        List.Forall2 (fun c x => [/\ psr_wadds argsort fns p c (pm (mp_q x)), good_psr hash (mp_q x), has_process x, wmember fns p phi c x & wothers c x]) arr xs,
        [/\ [seq mp_i x | x <- xs] = iota 0 (size xs), (forall x k, List.In x xs -> mp_j x k -> k \in ks), (exists k, (1 < size (members xs k))%N) & wcorrelation fns arr p orf xs]
      & forall k, k \in ks -> posdef (\matrix_(i < size xs, j < size xs) orf k i j) /\ forall i, 0 < phi k i ord0]) ->
  run (z_ops hash svd (wcross fns)) (warray_colls fns dss arr) [seq ALike t.1.1.1.1 t.1.1.1.2 | t <- l] (warray_start dss) =
  [seq Ok (RLike (Fin (many_term t.1.1.2 t.1.2 t.2 ks))) | t <- l].
Proof.
move=> hash svd argsort fns arr dss K ks l pr md uk H; refine (@wask_all hash svd argsort fns arr dss pr md _ l (fun t => t.1.1.1.1) (fun t => t.1.1.1.2) (fun t => Fin (many_term t.1.1.2 t.1.2 t.2 ks)) _).
move=> [[[[method p] orf] phi] xs] ht; have [km dp S [num allk two co] pG] := H _ _ _ _ _ ht; split=> //=.
exact: (wsources_classes svd pr md dp S num uk allk two co pG km).
Qed.
