(** Proofs about the likelihood of arrays with several classes of common signals. *)
From Coq Require Import Reals String.
From mathcomp Require Import all_ssreflect all_algebra.
From Verif Require Import RStruct PyBase ModelCache ModelLinalg ProofLinalg ModelNoise ProofNoise ModelLike ProofLike ModelKernel ProofKernel ModelPhi ProofPhi ModelColl ProofColl ProofCommons ModelEcorr ProofEcorr ModelArray ProofJoint ProofArray ProofCorr ProofClasses.
Set Implicit Arguments.
Unset Strict Implicit.
Unset Printing Implicit Defensive.
Import GRing.Theory Num.Theory Order.TTheory.
Local Open Scope seq_scope.
Local Open Scope ring_scope.

(** * The prior of a collection as a sum over its signals *)
Definition sel n N (x : bsig n * seq nat) : 'M[R]_(bk x.1, N) := \matrix_(u, a) (nth 0%N x.2 u == a)%:R.
Definition sig_quad n N (x : bsig n * seq nat) (v : 'cV[R]_N) : R := quad (phi_mx (bphi x.1)) (sel N x *m v).
Lemma sel_emx n N (x : bsig n * seq nat) (f : 'I_(bk x.1) -> 'I_N) : x.2 = at_pos f -> sel N x = emx f.
Proof. by move=> e; apply/matrixP=> c a; rewrite !mxE e nth_at_pos eq_sym; congr (_%:R); rewrite eq_sym. Qed.
Section Fold.
Variables (n N : nat) (TT : 'M[R]_(n, N)).
Notation step := (fun r (si : bsig n * seq nat) => rbind r (fun phi => kadd phi (bphi si.1) (KArr si.2))).
Lemma fold_sum l : forall K0 : kmat N, List.Forall (placed TT) l ->
  exists K1, foldl step (Ok K0) l = Ok K1 /\ forall v, quad (phi_mx (kphi K1)) v = quad (phi_mx (kphi K0)) v + \sum_(x <- l) sig_quad x v.
Proof.
elim: l => [|x l IH] K0 H; first by exists K0; split=> // v; rewrite big_nil addr0.
inversion_clear H as [|? ? Hx Hl]; have [f [fi ex k0 hF]] := Hx.
have [r [er hr]] := kadd_mx K0 (bphi x.1) fi k0.
rewrite /= ex er; have [K1 [-> h1]] := IH r Hl.
by exists K1; split=> // v; rewrite h1 hr quadD quad_congr big_cons -addrA /sig_quad (sel_emx ex).
Qed.
End Fold.
Lemma coll_all n (hash : 'cV[R]_n -> nat) (sigs : seq (bsig n)) : coll_ok hash sigs -> (0 < size sigs)%N ->
  exists T K,
  [/\ coll_basis hash sigs = Ok (Some T), coll_phi hash sigs = Ok (Some K), T *m phi_mx (kphi K) *m T^T = coll_cov sigs & posdef (phi_mx (kphi K))] /\
  (forall t s, (t < size sigs)%N -> nth (no_sig n) sigs t = s ->
    let x := (s, nth [::] (combine_idx hash sigs) t) in
    [/\ uniq x.2, size x.2 = bk s, all (fun c => c < combine_ncol hash sigs)%N x.2, bF s = T *m (sel _ x)^T & (0 < bk s)%N]) /\
  (forall v, quad (phi_mx (kphi K)) v = \sum_(t <- iota 0 (size sigs)) sig_quad (nth (no_sig n) sigs t, nth [::] (combine_idx hash sigs) t) v) /\
  ((forall s, List.In s sigs -> is_vector (bphi s)) -> is_vector (kphi K) /\ forall i, kcl K i = None).
Proof.
move=> [nc ff nr pos P] s0.
have [TT pl] := placed_all nc ff nr pos.
have [T [eT hT]] := basis_fold 0 pl.
have [hl [cc [er ec]]] := run_idx hash sigs; have [sz _ cov _] := ProofKernel.layout er.
have TE : T = TT by apply/matrixP=> i c; rewrite hT -/unzip2 unzip2_zip ?sz // cov -ec ltn_ord.
have [T' [K' [eT' [eK' cv]]]] := combine_covariance_lem nc ff nr pos s0.
have eT2 : coll_basis hash sigs = Ok (Some T) by rewrite coll_basisE // eT.
move: eT'; rewrite eT2 => -[?]; subst T'.
have [K [eK pd]] := combine_posdef_lem nc ff nr pos s0 P.
move: eK'; rewrite eK => -[?]; subst K'.
have szz : size (zip sigs (combine_idx hash sigs)) = size sigs by rewrite size_zip sz minnn.
exists T, K; split=> //; split; last split.
- move=> t s lt es; have ltz : (t < size (zip sigs (combine_idx hash sigs)))%N by rewrite szz.
  have := forall_nth (no_sig n, [::]) pl ltz; rewrite nth_zip ?sz // es => -[f [fi /= ei k0 hF]]; split=> //=.
  + by rewrite ei map_inj_uniq ?enum_uniq // => a b /val_inj /fi.
  + by rewrite ei size_map size_enum_ord.
  + by rewrite ei; apply/allP=> c /mapP [a _ ->]; exact: ltn_ord.
  + by rewrite (sel_emx (x := (s, _)) ei) TE; exact: (placed_F (x := (s, nth [::] (combine_idx hash sigs) t))).
- move=> v; have [K1 [e1 h1]] := fold_sum (kzeros _) pl.
  move: eK; rewrite coll_phiE // e1 => -[<-]; rewrite h1.
  have -> : quad (phi_mx (kphi (kzeros (combine_ncol hash sigs)))) v = 0 by rewrite /= trmx0 linear0 /quad mulmx0 mul0mx mxE.
  rewrite add0r (big_nth (no_sig n, [::])) szz /index_iota subn0; apply: eq_big_seq => t _; by rewrite nth_zip ?sz.
- move=> vec; have VV : List.Forall (fun x : bsig n * seq nat => is_vector (bphi x.1)) (zip sigs (combine_idx hash sigs)).
    exact: (@in_zip _ _ sigs (combine_idx hash sigs) (fun s : bsig n => is_vector (bphi s))).
  have [|//|K1 [e1 [h1 h2]]] := fold_vector (K0 := kzeros _) pl VV; first by [].
  by move: eK; rewrite coll_phiE // e1 => -[<-].
Qed.
(** A sum over some of the numbers below [m] *)
Lemma sum_le (s : seq nat) m (f : nat -> R) : uniq s -> all (fun t => t < m)%N s -> (forall t, (t < m)%N -> 0 <= f t) -> \sum_(t <- s) f t <= \sum_(t <- iota 0 m) f t.
Proof.
move=> us al f0; have pe : perm_eq s [seq t <- iota 0 m | t \in s].
  apply: uniq_perm => //; first by rewrite filter_uniq ?iota_uniq.
  by move=> t; rewrite mem_filter mem_iota /= add0n; case h: (t \in s) => //=; rewrite (allP al).
rewrite (perm_big _ pe) /= big_filter big_mkcond /=; rewrite big_seq [X in _ <= X]big_seq; apply: ler_sum => t.
by rewrite mem_iota add0n /= => /f0 h; case: ifP.
Qed.
Lemma pmap_lt (A B : Type) (f : A -> option B) (l : seq A) j j' w s : (j < j')%N -> List.nth_error l j = Some w -> f w = Some s ->
  (size (pmap f (take j l)) < size (pmap f (take j' l)))%N.
Proof.
elim: l j j' => [|x l IH] [|j] [|j'] //= h; first by move=> [->] ->.
by move=> e1 e2; have := IH j j' h e1 e2; case: (f x).
Qed.

(** * Pulsars with common processes *)
(** A pulsar, its number in the array, the number of its process of each class and the basis of
    this process *)
Record mpsr (K : nat -> nat) := MPsr { mp_q : psr_model; mp_i : nat; mp_j : nat -> option nat; mp_F : forall c, 'M[R]_(v_n (pm mp_q), K c) }.

Section Multi.
Variables (hash : forall n, 'cV[R]_n -> nat) (K : nat -> nat) (orf : nat -> nat -> nat -> R) (phi : forall c, 'cV[R]_(K c)).
Local Notation mpsr := (mpsr K).
Local Notation D c := (diag_mx (phi c)^T).
Definition at_class (x : mpsr) (c j : nat) : cpsr (K c) := @CPsr (K c) (mp_q x) (mp_i x) j (mp_F x c).
(** The process of class [c] has the prior [phi c], times the overlap of the pulsar with itself. *)
Definition has_commons (x : mpsr) : Prop := forall c j, mp_j x c = Some j -> has_common (orf c) (phi c) (at_class x c j).
Definition yn (x : mpsr) : nat := v_n (pm (mp_q x)).
Definition yk (x : mpsr) : nat := combine_ncol (@hash _) (processes (pm (mp_q x))).
Definition yT (x : mpsr) : 'M[R]_(yn x, yk x) := if coll_basis (@hash _) (processes (pm (mp_q x))) is Ok (Some T) then T else 0.
Definition yK (x : mpsr) : kmat (yk x) := if coll_phi (@hash _) (processes (pm (mp_q x))) is Ok (Some X) then X else kzeros _.
Definition ypos (x : mpsr) (j : nat) : nat := size (pmap (@w_basis _) (take j (v_sigs (pm (mp_q x))))).
Definition yidx (x : mpsr) (c : nat) : seq nat := if mp_j x c is Some j then nth [::] (combine_idx (@hash _) (processes (pm (mp_q x)))) (ypos x j) else [::].
Definition yS (c : nat) (x : mpsr) : 'M[R]_(K c, yk x) := if mp_j x c is Some _ then \matrix_(u, a) (nth 0%N (yidx x c) u == a)%:R else 0.

Lemma full_many x cs : has_commons x -> good_psr hash (mp_q x) -> (0 < size (processes (pm (mp_q x))))%N -> uniq cs ->
  (forall c d j, mp_j x c = Some j -> mp_j x d = Some j -> c = d) ->
  [/\ coll_basis (@hash _) (processes (pm (mp_q x))) = Ok (Some (yT x)), coll_phi (@hash _) (processes (pm (mp_q x))) = Ok (Some (yK x)),
      yT x *m phi_mx (kphi (yK x)) *m (yT x)^T = coll_cov (processes (pm (mp_q x))) & posdef (phi_mx (kphi (yK x)))] /\
  (forall c, mp_j x c -> [/\ uniq (yidx x c), size (yidx x c) = K c, all (fun a => a < yk x)%N (yidx x c), mp_F x c = yT x *m (yS c x)^T & (0 < K c)%N]) /\
  (forall v, \sum_(c <- cs) (if mp_j x c then orf c (mp_i x) (mp_i x) * quad (D c) (yS c x *m v) else 0) <= quad (phi_mx (kphi (yK x))) v) /\
  ((forall s, List.In s (processes (pm (mp_q x))) -> is_vector (bphi s)) -> is_vector (kphi (yK x)) /\ forall i, kcl (yK x) i = None).
Proof.
move=> hc [_ _ cok _] s0 ucs inj.
have [T [X [[eT eX cv pd] [at_t [qs vec]]]]] := coll_all cok s0.
have TE : yT x = T by rewrite /yT eT.
have XE : yK x = X by rewrite /yK eX.
rewrite TE XE; split=> //; split; last split=> //.
  move=> c ec; have [j ej] : exists j, mp_j x c = Some j by case: (mp_j x c) ec => // j _; exists j.
  have [w [par [comb [/= e1 e2]]]] := hc c j ej; have [lt es] := pmap_at (no_sig _) e1 e2.
  have [/= h1 h2 h3 h4 h5] := at_t _ _ lt es; rewrite /yidx /yS ej /yidx ej; split=> //.
move=> v; rewrite qs -big_mkcond /=.
pose pos c := if mp_j x c is Some j then ypos x j else 0%N.
have inp c : mp_j x c -> [/\ (pos c < size (processes (pm (mp_q x))))%N
    & orf c (mp_i x) (mp_i x) * quad (D c) (yS c x *m v) = sig_quad (nth (no_sig _) (processes (pm (mp_q x))) (pos c), nth [::] (combine_idx (@hash _) (processes (pm (mp_q x)))) (pos c)) v].
  rewrite /pos /yS /yidx; case ej: (mp_j x c) => [j|] // _.
  have [w [par [comb [/= e1 e2]]]] := hc c j ej; have [lt es] := pmap_at (no_sig _) e1 e2; split=> //.
  have [/= h1 h2 h3 h4 h5] := at_t _ _ lt es.
  rewrite -[pmap _ _]/(processes (pm (mp_q x))) -/(ypos x j) in es.
  by rewrite /sig_quad es /= linearZ /= linearZ /= /quad -scalemxAr -scalemxAl [RHS]mxE.
have ge t : (t < size (processes (pm (mp_q x))))%N -> 0 <= sig_quad (nth (no_sig _) (processes (pm (mp_q x))) t, nth [::] (combine_idx (@hash _) (processes (pm (mp_q x)))) t) v.
  move=> lt; apply: posdef_ge0; case: cok => _ _ _ _ P; apply: P; exact: nth_InP.
rewrite -big_filter.
have -> : \sum_(c <- [seq c <- cs | mp_j x c]) orf c (mp_i x) (mp_i x) * quad (D c) (yS c x *m v) =
    \sum_(t <- [seq pos c | c <- cs & mp_j x c]) sig_quad (nth (no_sig _) (processes (pm (mp_q x))) t, nth [::] (combine_idx (@hash _) (processes (pm (mp_q x)))) t) v.
  by rewrite big_map; apply: eq_big_seq => c; rewrite mem_filter => /andP[/inp [_ ->]].
apply: sum_le => //.
  rewrite map_inj_in_uniq ?filter_uniq // => c d; rewrite !mem_filter => /andP[jc _] /andP[jd _]; rewrite /pos.
  case ec: (mp_j x c) jc => [i|] // _; case ed: (mp_j x d) jd => [j|] // _ e.
  have [w [p1 [c1 [/= e1 e2]]]] := hc c i ec; have [w' [p2 [c2 [/= e3 e4]]]] := hc d j ed.
  case: (ltngtP i j) => h.
  - by have := pmap_lt h e1 e2; rewrite -!/(ypos _ _) e ltnn.
  - by have := pmap_lt h e3 e4; rewrite -!/(ypos _ _) e ltnn.
  - by apply: inj ec _; rewrite h.
by apply/allP => t /mapP [c]; rewrite mem_filter => /andP[/inp [h _] _] ->.
Qed.

(** ** The prior of the array *)
Definition yphi (x : mpsr) : option phz := Some (existT kmat (yk x) (yK x)).
Definition yphis (xs : seq mpsr) : phis_t := [seq yphi x | x <- xs].
Lemma yphis_size xs : psize (yphis xs) = gtot yk xs.
Proof. by elim: xs => //= x xs IH; rewrite /psize /= -/(psize _) IH. Qed.
Lemma yblock_map xs : castmx (yphis_size xs, yphis_size xs) (block_diag phi_mx (yphis xs)) = gbdiag (fun x => phi_mx (kphi (yK x))) xs.
Proof.
elim: xs => [|x xs IH]; first by rewrite /= castmx_id.
by rewrite /= (cast_block (yphis_size xs)) IH.
Qed.
Definition placed_in (c : nat) (x : mpsr) : Prop := mp_j x c -> [/\ uniq (yidx x c), size (yidx x c) = K c & all (fun a => a < yk x)%N (yidx x c)].
Lemma place_entry c x0 xs : List.Forall (placed_in c) xs ->
  forall i (r : 'I_(gtot yk xs)) (u : 'I_(K c)), (i < size xs)%N ->
  gplace (yS c) xs i r u = if mp_j (nth x0 xs i) c then ((first_row (yphis xs) i + nth 0%N (yidx (nth x0 xs i) c) u)%N == r :> nat)%:R else 0.
Proof.
elim: xs => [|x xs IH] H [|i] r u //= lt; inversion H as [|? ? Hx Hl]; subst.
  rewrite first_row0 add0n mxE; case: (@splitP (yk x) _ r) => a ->; rewrite mxE.
    by rewrite /yS; case: (mp_j x c) => [j|]; rewrite mxE.
  move: Hx; rewrite /placed_in; case: (mp_j x c) => [j|] //= /(_ isT) [un sz al].
  case: eqP => // e; have := all_nthP 0%N al u; rewrite sz => /(_ (ltn_ord u)).
  by rewrite e ltnNge leq_addr.
rewrite mxE first_cons /=; case: (@splitP (yk x) _ r) => a ->; last by rewrite IH // -addnA eqn_add2l.
by rewrite mxE; case: (mp_j _ _) => [j|] //=; case: eqP => // e; have := ltn_ord a; rewrite -e -addnA ltnNge leq_addr.
Qed.

(** ** Sums over pairs *)
Lemma pairs_filter (T : Type) (P : pred T) (g : T -> T -> R) (s : seq T) :
  \sum_(p <- pairs [seq x <- s | P x]) g p.1 p.2 = \sum_(p <- pairs s) (if P p.1 && P p.2 then g p.1 p.2 else 0).
Proof.
elim: s => [|x s IH] /=; first by rewrite !big_nil.
rewrite big_cat big_map /= -IH; case: (P x) => /=.
  by rewrite big_cat big_map /= big_filter big_mkcond.
by rewrite big1_eq add0r.
Qed.
Lemma pairs_nth (T : Type) (x0 : T) (s : seq T) : pairs s = [seq (nth x0 s p.1, nth x0 s p.2) | p <- pairs (iota 0 (size s))].
Proof. by rewrite -{1}(mkseq_nth x0 s) /mkseq pairs_map. Qed.
Lemma uniq_filter_map (T : Type) (P : pred T) (f : T -> nat) (s : seq T) : uniq [seq f x | x <- s] -> uniq [seq f x | x <- s & P x].
Proof.
elim: s => //= x s IH /andP[n u]; case: (P x) => //=; last exact: IH.
rewrite IH // andbT; apply: contra n; elim: (s) => //= y l IH2; case: (P y) => /=; rewrite !inE => h; last by rewrite IH2 ?orbT.
by case/orP: h => [->//|/IH2 ->]; rewrite orbT.
Qed.
Lemma in_filterP (T : Type) (P : pred T) (s : seq T) x : List.In x [seq y <- s | P y] -> List.In x s /\ P x.
Proof.
elim: s => //= y s IH; case e: (P y) => /=; last by move=> /IH [h1 h2]; split=> //; right.
by move=> [<-|/IH [h1 h2]]; split=> //; [left|right].
Qed.
Lemma gjoint_sum (T : Type) (f : T -> nat) (A : nat -> forall x, 'M[R]_(f x)) (B : nat -> forall x y, 'M[R]_(f x, f y)) (cs : seq nat) l :
  \sum_(c <- cs) gjoint (A c) (B c) l = gjoint (fun x => \sum_(c <- cs) A c x) (fun x y => \sum_(c <- cs) B c x y) l.
Proof.
elim: cs => [|c cs IH].
  rewrite big_nil; transitivity (gjoint (fun x : T => 0 : 'M[R]_(f x)) (fun x y => 0) l); last by apply: eq_gjoint => *; rewrite big_nil.
  by rewrite -gbdiag_joint; elim: l => //= x l <-; rewrite block_mx0.
rewrite big_cons IH gjointD; apply: eq_gjoint => *; by rewrite big_cons.
Qed.

(** ** One class *)
Definition ymem (c a : nat) (x : mpsr) : member nat := @Member nat (mp_i x) (yidx x c) (K c) (PhiD (phi c)) a.
Definition members (xs : seq mpsr) (c : nat) : seq mpsr := [seq x <- xs | mp_j x c].
Definition cross_block (c : nat) (x y : mpsr) : 'M[R]_(yk x, yk y) := orf c (mp_i x) (mp_i y) *: ((yS c x)^T *m D c *m yS c y).
Definition class_mx (xs : seq mpsr) (c : nat) : 'M[R]_(gtot yk xs) := gjoint (fun x => 0) (cross_block c) xs.
Section Class.
Variables (xs : seq mpsr) (c : nat) (x0 : mpsr).
Hypothesis num : [seq mp_i x | x <- xs] = iota 0 (size xs).
Hypothesis pl : List.Forall (placed_in c) xs.
Lemma ynum_nth i : (i < size xs)%N -> mp_i (nth x0 xs i) = i.
Proof. by move=> lt; have := congr1 (fun s => nth 0%N s i) num; rewrite (nth_map x0) // nth_iota. Qed.
Lemma ynum_in x : List.In x xs -> (mp_i x < size xs)%N /\ nth x0 xs (mp_i x) = x.
Proof.
move=> /(List.In_nth xs x x0) [i [/ssrnat.ltP li e]].
have e' : nth x0 xs i = x by rewrite -e; elim: (xs) i {li e} => [|y l IH] [|i] //=.
by rewrite -e' ynum_nth.
Qed.
Definition pair_entry (i j : 'I_(gtot yk xs)) (x y : mpsr) : R :=
  orf c (mp_i x) (mp_i y) * (gplace (yS c) xs (mp_i x) *m D c *m (gplace (yS c) xs (mp_i y))^T + gplace (yS c) xs (mp_i y) *m D c *m (gplace (yS c) xs (mp_i x))^T : 'M[R]_(gtot yk xs)) i j.
Lemma place_none i : (i < size xs)%N -> mp_j (nth x0 xs i) c = None -> gplace (yS c) xs i = 0.
Proof. by move=> li e; apply/matrixP => r u; rewrite (place_entry x0 pl) // e mxE. Qed.
Lemma class_mxE i j : class_mx xs c i j = \sum_(p <- pairs (members xs c)) pair_entry i j p.1 p.2.
Proof.
have sD : sym (D c) by rewrite /sym tr_diag_mx.
have := place_joint (yS c) (orf c) sD (o := 0%N) num; rewrite -/(cross_block c) -[gjoint _ _ _]/(class_mx xs c) => <-.
rewrite /members pairs_filter (pairs_nth x0 xs) big_map summxE; apply: eq_big_seq => -[a b] /mem_pairs [_ ab lb] /=.
rewrite add0n in lb; have la := ltn_trans ab lb; rewrite /pair_entry !ynum_nth // mxE !add0n.
case ea: (mp_j (nth x0 xs a) c) => [ja|] /=; last by rewrite (place_none la ea) !mul0mx trmx0 !mulmx0 addr0 mxE mulr0.
by case eb: (mp_j (nth x0 xs b) c) => [jb|] //=; rewrite (place_none lb eb) !mul0mx trmx0 !mulmx0 addr0 mxE mulr0.
Qed.
Lemma class_mx0 : (size (members xs c) <= 1)%N -> class_mx xs c = 0.
Proof.
by move=> h; apply/matrixP => i j; rewrite class_mxE mxE; case: (members xs c) h => [|x [|y l]] //= _; rewrite big_nil.
Qed.
Variable orf' : nat -> nat -> R.
Local Notation ms := (members xs c).
Hypothesis orfE : forall a b, (a < b)%N -> (b < size ms)%N -> orf' a b = orf c (mp_i (nth x0 ms a)) (mp_i (nth x0 ms b)).
Definition class_of : csclass nat := CsClass orf' [seq ymem c a (nth x0 ms a) | a <- iota 0 (size ms)].
Lemma mem_at a : (a < size ms)%N -> List.In (nth x0 ms a) xs /\ mp_j (nth x0 ms a) c.
Proof. move=> la; have := nth_InP x0 la; exact: in_filterP. Qed.
Lemma placed_at a : (a < size ms)%N -> [/\ uniq (yidx (nth x0 ms a) c), size (yidx (nth x0 ms a) c) = K c & all (fun b => b < yk (nth x0 ms a))%N (yidx (nth x0 ms a) c)].
Proof. by move=> la; have [h1 h2] := mem_at la; move/List.Forall_forall: pl => /(_ _ h1); exact. Qed.
Lemma class_of_good : (1 < size ms)%N -> good_class (yphis xs) class_of.
Proof.
move=> two; split=> /=; first by rewrite size_map size_iota.
- rewrite -map_comp; have -> : [seq mb_psr (ymem c a (nth x0 ms a)) | a <- iota 0 (size ms)] = [seq mp_i x | x <- ms].
    by rewrite -[in RHS](mkseq_nth x0 ms) /mkseq -map_comp.
  by apply: uniq_filter_map; rewrite num iota_uniq.
- apply/List.Forall_map/List.Forall_forall => a /in_mem; rewrite mem_iota add0n => /andP[_ la].
  have [h1 h2] := mem_at la; have [li ei] := ynum_in h1; have [un sz al] := placed_at la; split=> //=; first by rewrite size_map.
  by rewrite (nth_map x0) // ei.
- by exists (K c); apply/List.Forall_map/List.Forall_forall.
Qed.
Lemma class_of_terms (i j : 'I_(gtot yk xs)) : class_terms (yphis xs) class_of i j = class_mx xs c i j.
Proof.
rewrite class_mxE /class_terms /= pairs_map big_map (pairs_nth x0 ms) big_map.
apply: eq_big_seq => -[a b] /mem_pairs [_ ab]; rewrite add0n => lb; have la := ltn_trans ab lb.
rewrite /cross_terms /pair_entry /= /rows /= orfE //; congr (_ * _).
rewrite [RHS]mxE; under eq_bigr => u _ do under eq_bigr => v _ do rewrite mulrDr.
under eq_bigr do rewrite big_split /=.
rewrite big_split /=.
have H : forall a b, (a < size ms)%N -> (b < size ms)%N ->
    \sum_(u < K c) \sum_(v < K c) D c u v * ((nth 0%N [seq (first_row (yphis xs) (mp_i (nth x0 ms a)) + x)%N | x <- yidx (nth x0 ms a) c] u == i) && (nth 0%N [seq (first_row (yphis xs) (mp_i (nth x0 ms b)) + x)%N | x <- yidx (nth x0 ms b) c] v == j))%:R
    = (gplace (yS c) xs (mp_i (nth x0 ms a)) *m D c *m (gplace (yS c) xs (mp_i (nth x0 ms b)))^T) i j.
  move=> {ab la lb}a {}b la lb; have [_ sa _] := placed_at la; have [_ sb _] := placed_at lb.
  have [ha ja] := mem_at la; have [hb jb] := mem_at lb; have [lia eia] := ynum_in ha; have [lib eib] := ynum_in hb.
  rewrite [RHS]mxE; under [RHS]eq_bigr => v _ do rewrite mxE mulr_suml.
  rewrite exchange_big /=; apply: eq_bigr => u _; apply: eq_bigr => v _.
  rewrite !mxE !(place_entry x0 pl) // eia eib ja jb !(nth_map 0%N) ?sa ?sb //.
  by case: (_ == i :> nat); case: (_ == j :> nat); rewrite ?mulr1 ?mulr0 ?mul1r ?mul0r ?mulr1 ?mulr0.
by congr (_ + _); apply: H.
Qed.
End Class.

(** ** All classes *)
Lemma many_phi xs x0 (ks cs : seq nat) (orf' : nat -> nat -> nat -> R) :
  [seq mp_i x | x <- xs] = iota 0 (size xs) -> (forall c, List.Forall (placed_in c) xs) -> uniq ks -> uniq cs ->
  (forall c, c \in ks -> (1 < size (members xs c))%N) -> (forall c, (1 < size (members xs c))%N -> c \in ks) -> {subset ks <= cs} ->
  (forall c a b, c \in ks -> (a < b)%N -> (b < size (members xs c))%N -> orf' c a b = orf c (mp_i (nth x0 (members xs c) a)) (mp_i (nth x0 (members xs c) b))) ->
  exists Phi cc, ModelPhi.get_phi (yphis xs) [seq class_of xs c x0 (orf' c) | c <- ks] = Ok (Phi, cc) /\
  castmx (yphis_size xs, yphis_size xs) Phi = gjoint (fun x => phi_mx (kphi (yK x))) (fun x y => \sum_(c <- cs) cross_block c x y) xs.
Proof.
move=> num pl uk uc two all2 sub orfE.
have good : List.Forall (@good_class nat (yphis xs)) [seq class_of xs c x0 (orf' c) | c <- ks].
  by apply/List.Forall_map/List.Forall_forall => c /in_mem hc; apply: class_of_good => //; exact: two.
have [Phi [cc [e1 [_ h]]]] := get_phiE good.
exists Phi, cc; split=> //.
rewrite (@eq_gjoint _ _ _ _ (fun x => phi_mx (kphi (yK x)) + \sum_(c <- cs) 0) (fun x y => 0 + \sum_(c <- cs) cross_block c x y)); first last.
- by move=> x y _ _; rewrite add0r.
- by move=> x _; rewrite big1_eq addr0.
rewrite -gjointD -gbdiag_joint -yblock_map -gjoint_sum -/(class_mx xs).
apply/matrixP=> i j; rewrite castmxE h [RHS]mxE castmxE; congr (_ + _).
rewrite big_map summxE.
have e c : c \in ks -> class_terms (yphis xs) (class_of xs c x0 (orf' c)) (cast_ord (esym (yphis_size xs)) i) (cast_ord (esym (yphis_size xs)) j) = class_mx xs c i j.
  move=> hc; rewrite -(class_of_terms (x0 := x0) num (pl c) (orf' := orf' c)) // => a b; exact: orfE.
rewrite (eq_big_seq _ e).
have pe : perm_eq ks [seq c <- cs | c \in ks].
  apply: uniq_perm; rewrite ?filter_uniq // => c; rewrite mem_filter; case hc: (c \in ks) => //=; by rewrite sub.
rewrite (perm_big _ pe) /= big_filter big_mkcond /=; apply: eq_bigr => c _; case: ifP => // nc.
rewrite -[gjoint _ _ _]/(class_mx xs c) (class_mx0 x0) ?mxE //; by rewrite leqNgt; apply/negP => /all2; rewrite nc.
Qed.
Lemma quad_sum (cs : seq nat) m (A : nat -> 'M[R]_m) v : quad (\sum_(c <- cs) A c) v = \sum_(c <- cs) quad (A c) v.
Proof. by elim: cs => [|c cs IH]; rewrite ?big_nil ?big_cons ?quadD ?IH //; rewrite /quad mulmx0 mul0mx mxE. Qed.
Lemma gbdiag_sum (T : Type) (f : T -> nat) (A : nat -> forall x, 'M[R]_(f x)) (cs : seq nat) l : \sum_(c <- cs) gbdiag (A c) l = gbdiag (fun x => \sum_(c <- cs) A c x) l.
Proof.
under eq_bigr do rewrite gbdiag_joint; rewrite gbdiag_joint gjoint_sum; by apply: eq_gjoint => *; rewrite ?big1_eq.
Qed.
Lemma many_posdef xs (cs : seq nat) : [seq mp_i x | x <- xs] = iota 0 (size xs) ->
  (forall c, c \in cs -> posdef (\matrix_(i < size xs, j < size xs) orf c i j) /\ forall k, 0 < phi c k ord0) ->
  (forall x, List.In x xs -> posdef (phi_mx (kphi (yK x))) /\ forall v, \sum_(c <- cs) (if mp_j x c then orf c (mp_i x) (mp_i x) * quad (D c) (yS c x *m v) else 0) <= quad (phi_mx (kphi (yK x))) v) ->
  posdef (gjoint (fun x => phi_mx (kphi (yK x))) (fun x y => \sum_(c <- cs) cross_block c x y) xs).
Proof.
move=> num pG H; have pk c : c \in cs -> posdef (gkron (@mp_i K) (orf c) (phi c) xs).
  by move=> /pG [h1 h2]; exact: (kron_posdef (o := 0%N) num h1 h2).
pose E c x := (yS c x)^T *m (orf c (mp_i x) (mp_i x) *: D c) *m yS c x.
have EE c x v : quad (E c x) v = if mp_j x c then orf c (mp_i x) (mp_i x) * quad (D c) (yS c x *m v) else 0.
  rewrite /E quad_congr /quad -scalemxAr -scalemxAl [LHS]mxE -[(_ *m _ *m _) _ _]/(quad (D c) (yS c x *m v)).
  by case ej: (mp_j x c) => [j|] //=; rewrite /yS ej mul0mx /quad mulmx0 mxE mulr0.
pose W c := gbdiag (yS c) xs; pose Q c := (W c)^T *m gkron (@mp_i K) (orf c) (phi c) xs *m W c.
have QE c : Q c = gjoint (E c) (cross_block c) xs.
  rewrite /Q /W -{2}[gbdiag (yS c) xs]trmxK gbdiag_tr gjoint_mul; apply: eq_gjoint => [x _|x y _ _]; rewrite trmxK //.
  by rewrite /cross_block -scalemxAr -scalemxAl.
set G := gjoint _ _ _.
have eG : G = gbdiag (fun x => phi_mx (kphi (yK x)) - \sum_(c <- cs) E c x) xs + \sum_(c <- cs) Q c.
  rewrite (eq_bigr _ (fun c _ => QE c)) gjoint_sum gbdiag_joint gjointD; apply: eq_gjoint => [x _|x y _ _]; first by rewrite subrK.
  by rewrite add0r.
have qQ c v : quad (Q c) v = quad (gkron (@mp_i K) (orf c) (phi c) xs) (W c *m v) by exact: quad_congr.
have ge v : 0 <= quad (gbdiag (fun x => phi_mx (kphi (yK x)) - \sum_(c <- cs) E c x) xs) v.
  apply: gquad_ge0 => x hx w; rewrite quadB quad_sum subr_ge0; have [_ h] := H x hx.
  by apply: le_trans (h w); rewrite le_eqVlt; apply/orP; left; apply/eqP; apply: eq_bigr => c _; rewrite EE.
have geQ c v : c \in cs -> 0 <= quad (Q c) v by move=> /pk hp; rewrite qQ; exact: posdef_ge0.
split; first by apply: gjoint_sym => x /H [[]].
move=> v nv; rewrite eG quadD quad_sum; case: (boolP (all (fun c => W c *m v == 0) cs)) => [/allP z|].
  have -> : gbdiag (fun x => phi_mx (kphi (yK x)) - \sum_(c <- cs) E c x) xs = gbdiag (fun x => phi_mx (kphi (yK x))) xs - \sum_(c <- cs) (W c)^T *m gbdiag (fun x => orf c (mp_i x) (mp_i x) *: D c) xs *m W c.
    rewrite gbdiagB -gbdiag_sum; congr (_ - _); apply: eq_bigr => c _; by rewrite /W gbdiag_tr !gbdiag_mul.
  rewrite quadB quad_sum big_seq big1 ?subr0 => [|c /z /eqP e]; last by rewrite quad_congr e /quad mulmx0 mxE.
  rewrite [X in _ < _ + X]big_seq [X in _ < _ + X]big1 ?addr0 => [|c /z /eqP e]; last by rewrite qQ e /quad mulmx0 mxE.
  by have [_] : posdef (gbdiag (fun x => phi_mx (kphi (yK x))) xs) by [apply: gposdef => x /H []]; exact.
rewrite -has_predC => /hasP [c hc /= nz]; apply: ltr_paddl => //.
rewrite (big_rem c) //=; apply: ltr_paddr; last by rewrite qQ; have [_] := pk c hc; exact.
rewrite big_seq; apply: sumr_ge0 => d /mem_rem; exact: geQ.
Qed.
End Multi.
