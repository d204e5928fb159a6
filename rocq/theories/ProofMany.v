(** Proofs about the likelihood of arrays with several classes of common signals: the value. *)
From Coq Require Import Reals String.
From mathcomp Require Import all_ssreflect all_algebra.
From Verif Require Import RStruct PyBase ModelCache ModelLinalg ProofLinalg ModelNoise ProofNoise ModelLike ProofLike ModelKernel ProofKernel ModelPhi ProofPhi ModelColl ProofColl ProofCommons ModelEcorr ProofEcorr ModelArray ProofJoint ProofArray ProofCorr ProofClasses ProofShare ProofMulti.
Set Implicit Arguments.
Unset Strict Implicit.
Unset Printing Implicit Defensive.
Import GRing.Theory Num.Theory Order.TTheory.
Local Open Scope seq_scope.
Local Open Scope ring_scope.

Lemma filter_same (T : Type) (P Q : pred T) s : (forall x, List.In x s -> P x = Q x) -> [seq x <- s | P x] = [seq x <- s | Q x].
Proof. by elim: s => //= x s IH h; rewrite h ?IH //; [move=> y hy; apply: h; right|left]. Qed.
Lemma rmapM_cat (A B : Type) (f : A -> result B) l l' m m' : rmapM f l = Ok m -> rmapM f l' = Ok m' -> rmapM f (l ++ l') = Ok (m ++ m').
Proof.
elim: l m => [|x l IH] m /=; first by move=> [<-].
by case: (f x) => //= y; case e: (rmapM f l) => [m1|] //= -[<-] /(IH _ e) ->.
Qed.

Lemma sorted_filter_map (T : Type) (P : pred T) (f : T -> nat) (s : seq T) : sorted ltn [seq f x | x <- s] -> sorted ltn [seq f x | x <- s & P x].
Proof.
elim: s => //= x s IH; rewrite (path_sortedE ltn_trans) => /andP[al srt]; case: (P x) => /=; last exact: IH.
rewrite (path_sortedE ltn_trans) IH // andbT; move: al; rewrite !all_map all_filter; apply: sub_all => y /= ->; exact: implybT.
Qed.

Section Many.
Variables (hash : forall n, 'cV[R]_n -> nat) (K : nat -> nat) (orf : nat -> nat -> nat -> R) (phi : forall c, 'cV[R]_(K c)).
Local Notation mpsr := (mpsr K).
Local Notation D c := (diag_mx (phi c)^T).
(** The processes of two classes have no column in common in pulsar [x]. *)
Definition apart (x : mpsr) (c d : nat) : Prop := forall j j', mp_j x c = Some j -> mp_j x d = Some j' -> forall u v, col u (mp_F x c) <> col v (mp_F x d).
(** Signal number [j] has a fixed basis and shares its columns. *)
Definition sharing (x : mpsr) (j : nat) : Prop := exists w s, [/\ List.nth_error (v_sigs (pm (mp_q x))) j = Some w, w_basis w = Some s, bpar s = false & bcomb s].
(** Pulsar [x] has processes of both classes, with the same columns, or of none of them. *)
Definition alike (x : mpsr) (c d : nat) : Prop := isSome (mp_j x c) = isSome (mp_j x d) /\
  forall j j', mp_j x c = Some j -> mp_j x d = Some j' ->
    [/\ forall (u : 'I_(K c)) (v : 'I_(K d)), val u = val v -> col u (mp_F x c) = col v (mp_F x d), sharing x j & sharing x j'].
Definition separate (xs : seq mpsr) (c d : nat) : Prop :=
  (forall x, List.In x xs -> apart x c d) \/ (K c = K d /\ forall x, List.In x xs -> alike x c d).

Notation yk := (yk hash).
Notation yT := (@yT hash K).
Notation yK := (@yK hash K).
Notation yidx := (@yidx hash K).
Notation yS := (@yS hash K).
Notation yphis := (yphis hash).
Notation placed_in := (@placed_in hash K).
Notation has_commons := (has_commons orf phi).
Notation cross_block := (@cross_block hash K orf phi).
Notation class_of := (@class_of hash K phi).

Lemma alike_idx x c d : has_commons x -> coll_ok (@hash _) (processes (pm (mp_q x))) -> K c = K d -> alike x c d -> yidx x c = yidx x d.
Proof.
move=> hc [nc ff nr pos P] eK [h1 h2]; move: h1; rewrite /ProofMulti.yidx.
case ec: (mp_j x c) => [i|]; case ed: (mp_j x d) => [j|] // _.
have [w [p1 [c1 [/= e1 e2]]]] := hc c i ec; have [w' [p2 [c2 [/= e3 e4]]]] := hc d j ed.
have [hcol [v [s [f1 f2 f3 f4]]] [v' [s' [f5 f6 f7 f8]]]] := h2 _ _ ec ed.
rewrite f1 in e1; case: e1 => e1; subst w; rewrite f2 in e2; case: e2 => e2.
rewrite f5 in e3; case: e3 => e3; subst w'; rewrite f6 in e4; case: e4 => e4.
have [lt es] := pmap_at (no_sig _) f1 f2; have [lt' es'] := pmap_at (no_sig _) f5 f6.
rewrite -/(processes _) -/(ypos x i) in lt es; rewrite -/(processes _) -/(ypos x j) in lt' es'.
have [_ [sz _]] := combine_layout_lem (@hash _) (processes (pm (mp_q x))).
have s1 := sz _ lt; have s2 := sz _ lt'; rewrite es e2 /= in s1; rewrite es' e4 /= in s2.
apply: (@eq_from_nth _ 0%N); rewrite s1 ?s2 // => a la; have la' : (a < K d)%N by rewrite -eK.
apply: combine_shared_lem => //; rewrite ?es ?es' ?f3 ?f7 ?f4 ?f8 ?e2 ?e4 //.
rewrite (nth_columns (s := BSig (mp_F x c) _ _ _) (Ordinal la)) (nth_columns (s := BSig (mp_F x d) _ _ _) (Ordinal la')) /=.
exact: hcol.
Qed.
Lemma col_sel c x (u : 'I_(K c)) (a : 'I_(yk x)) : mp_j x c -> nth 0%N (yidx x c) u = a -> col u (yT x *m (yS c x)^T) = col a (yT x).
Proof.
rewrite /ProofMulti.yS => ej ea; case: (mp_j x c) ej ea => // j _ ea; apply/matrixP => i z; rewrite !mxE (bigD1 a) //= big1 => [|b nb].
  by rewrite addr0 !mxE ea eqxx mulr1.
by rewrite !mxE ea eq_sym -[(b == a :> nat)]/(b == a) (negbTE nb) mulr0.
Qed.

Section Align.
Variables (xs : seq mpsr) (x0 : mpsr) (orf' : nat -> nat -> nat -> R) (ks : seq nat).
Hypothesis num : [seq mp_i x | x <- xs] = iota 0 (size xs).
Hypothesis pl : forall c, List.Forall (placed_in c) xs.
Hypothesis hF : forall x c, List.In x xs -> mp_j x c -> mp_F x c = yT x *m (yS c x)^T.
Hypothesis hI : forall x c d, List.In x xs -> K c = K d -> alike x c d -> yidx x c = yidx x d.
Hypothesis two : forall c, c \in ks -> (1 < size (members xs c))%N.
Hypothesis sep : forall c d, c \in ks -> d \in ks -> c <> d -> separate xs c d.
Local Notation cls c := (class_of xs c x0 (orf' c)).
Lemma cls_good c : c \in ks -> good_class (yphis xs) (cls c).
Proof. by move=> hc; apply: class_of_good => //; exact: two. Qed.
Lemma cls_k c m : List.In m (cs_mem (cls c)) -> mb_k m = K c.
Proof. by move=> /List.in_map_iff [a [<- _]]. Qed.
Lemma cls_mem c m : List.In m (cs_mem (cls c)) -> exists x, [/\ List.In x xs, mp_j x c, mb_psr m = mp_i x & mb_idx m = yidx x c].
Proof.
move=> /List.in_map_iff [a [<- /in_mem]]; rewrite mem_iota add0n => la; have [h1 h2] := mem_at x0 la.
by exists (nth x0 (members xs c) a).
Qed.
Lemma cls_tie c k : tie (yphis xs) (cls c) k = [seq nth 0%N [seq (first_row (yphis xs) (mp_i x) + y)%N | y <- yidx x c] k | x <- members xs c].
Proof.
by rewrite /tie /= -map_comp -[in RHS](mkseq_nth x0 (members xs c)) /mkseq -map_comp.
Qed.
Lemma cls_aligned : aligned (yphis xs) [seq cls c | c <- ks].
Proof.
move=> C C' t u r /List.in_map_iff [c [<- /in_mem hc]] /List.in_map_iff [d [<- /in_mem hd]].
case: (altP (c =P d)) => [<-|/eqP ne].
  by move=> h1 h2 h3 h4; apply: (aligned1 (cls_good hc) _ _ h1 h2 h3 h4); left.
rewrite (tiesP _ (cls_good hc) (@cls_k c)) (tiesP _ (cls_good hd) (@cls_k d)).
move=> /mapP [k]; rewrite mem_iota add0n => /andP [_ lk] -> /mapP [l]; rewrite mem_iota add0n => /andP [_ ll] -> r1 r2.
have [m1 [h1 e1]] := tie_in r1; have [m2 [h2 e2]] := tie_in r2.
have [_ _ g1 _] := cls_good hc; have [_ _ g2 _] := cls_good hd.
have [|||ep ei] := @row_same nat (yphis xs) m1 m2 k l (forall_in g1 h1) (forall_in g2 h2); rewrite ?(cls_k h1) ?(cls_k h2) // -?e1 //.
have [x [ix jx px qx]] := cls_mem h1; have [y [iy jy py qy]] := cls_mem h2.
have exy : y = x by rewrite -(proj2 (ynum_in x0 num ix)) -(proj2 (ynum_in x0 num iy)) -px -py ep.
subst y; rewrite qx qy in ei.
case: (sep hc hd ne) => [ap|[eK al]].
  move: (jx) (jy); case ejc: (mp_j x c) => [i|] // _; case ejd: (mp_j x d) => [j|] // _.
  case: (ap x ix _ _ ejc ejd (Ordinal lk) (Ordinal ll)).
  have /List.Forall_forall /(_ _ ix) /(_ jx) [_ sz alx] := pl c.
  have la : (nth 0%N (yidx x c) k < yk x)%N by apply: (allP alx); rewrite mem_nth ?sz.
  by rewrite !hF // (@col_sel c x (Ordinal lk) (Ordinal la)) // (@col_sel d x (Ordinal ll) (Ordinal la)).
have em : members xs c = members xs d by apply: filter_same => z /al [].
have ex z : List.In z xs -> yidx z c = yidx z d by move=> iz; apply: hI => //; exact: al.
have ekl : k = l.
  have /List.Forall_forall /(_ _ ix) /(_ jx) [un sz _] := pl c.
  by move: ei; rewrite -(ex x ix) => /eqP; rewrite nth_uniq ?sz // ?eK // => /eqP.
rewrite ekl => z; rewrite !cls_tie em; congr (_ \in _).
have : forall z, List.In z (members xs d) -> yidx z c = yidx z d by move=> w hw; have [iw _] := in_filterP hw; exact: ex.
by elim: (members xs d) => //= w s IH h; rewrite h ?IH //; [move=> w' hw'; apply: h; right|left].
Qed.
End Align.

(** ** The terms of the classes *)
Definition place (c : nat) (x : mpsr) : nat * nat := (mp_i x, if mp_j x c is Some j then j else 0%N).
Definition places (xs : seq mpsr) (c : nat) : seq (nat * nat) := [seq place c x | x <- members xs c].
Definition ypri (c : nat) : pz := existT phi_t (K c) (PhiD (phi c)).
Definition yterms (xs : seq mpsr) (c : nat) : seq cz := [seq Cz (orf c (mp_i p.1) (mp_i p.2)) (ypri c) | p <- pairs (members xs c)].
Lemma places_fromE xs c o : [seq mp_i x | x <- xs] = iota o (size xs) -> places_from o [seq mp_j x c | x <- xs] = places xs c.
Proof.
rewrite /places /members /places_from; elim: xs o => [|x xs IH] o //= [e1 e2]; rewrite IH //.
by case e: (mp_j x c) => [j|] //=; rewrite /place e e1.
Qed.
Section Terms.
Variables (xs : seq mpsr) (x0 : mpsr) (c : nat) (ls : seq (ModelColl.layout fz (seq nat))).
Local Notation ms := (members xs c).
Hypothesis two : (1 < size ms)%N.
Hypothesis cols : forall x, List.In x ms -> nth None (nth ([::], None) ls (mp_i x)).1 (place c x).2 = Some (yidx x c).
Lemma yterms_size : size (pairs_of (places xs c)) = size (yterms xs c).
Proof. by rewrite pairs_ofE /places pairs_map !size_map. Qed.
Lemma ypair_termsE a b : (a < b)%N -> (b < size ms)%N -> pair_terms (places xs c) (yterms xs c) a b = Some (Cz (orf c (mp_i (nth x0 ms a)) (mp_i (nth x0 ms b))) (ypri c)).
Proof.
move=> ab lb; have h : (a, b) \in pairs (iota 0 (size ms)) by apply: pairs_in.
rewrite /pair_terms size_map pairs_ofE /yterms (pairs_nth x0 ms) -map_comp size_map index_mem h; congr Some.
by rewrite (nth_map (0, 0)%N) ?index_mem // nth_index.
Qed.
Lemma ypair_termsN a b : (size ms <= b)%N -> pair_terms (places xs c) (yterms xs c) a b = None.
Proof.
move=> h; rewrite /pair_terms size_map pairs_ofE /yterms (pairs_nth x0 ms) -map_comp size_map index_mem; case: ifP => // /mem_pairs [_ _].
by rewrite add0n ltnNge h.
Qed.
Lemma yclass_zE : class_z ls (places xs c) (yterms xs c) = class_of xs c x0 (cs_orf (class_z ls (places xs c) (yterms xs c))).
Proof.
rewrite {1}/class_z; congr CsClass; rewrite size_map.
have -> : zip (iota 0 (size ms)) (places xs c) = [seq (a, place c (nth x0 ms a)) | a <- iota 0 (size ms)].
  by rewrite /places -{2}(mkseq_nth x0 ms) /mkseq -map_comp zip_self.
rewrite -map_comp; apply/eq_in_map => a; rewrite mem_iota add0n /= => la.
have := cols (nth_InP x0 la); rewrite /place /= => ->.
rewrite /ymem; case: (ltnP a.+1 (size ms)) => h; first by rewrite ypair_termsE.
rewrite ypair_termsN //; rewrite ypair_termsE //.
by case: a la h => // _; rewrite leqNgt two.
Qed.
Lemma yclass_orf a b : (a < b)%N -> (b < size ms)%N -> cs_orf (class_z ls (places xs c) (yterms xs c)) a b = orf c (mp_i (nth x0 ms a)) (mp_i (nth x0 ms b)).
Proof. by move=> ab lb; rewrite /= ypair_termsE. Qed.
End Terms.
Lemma classes_zE xs ls ks : classes_z ls [seq (c, places xs c) | c <- ks] (flatten [seq yterms xs c | c <- ks]) = [seq class_z ls (places xs c) (yterms xs c) | c <- ks].
Proof. by elim: ks => //= c ks IH; rewrite yterms_size take_size_cat // drop_size_cat // IH. Qed.

(** ** The likelihood *)
(** The covariance of two different pulsars is the sum over the classes they both have. *)
Definition many_term (xs : seq mpsr) (cs : seq nat) : R :=
  density_tm (gstack (fun x => v_res (pm (mp_q x)) - delay_sum (pm (mp_q x))) xs)
    (gjoint (fun x => cov_of (pm_N (mp_q x)) + coll_cov (processes (pm (mp_q x))))
      (fun x y => \sum_(c <- cs) (if mp_j x c && mp_j y c then orf c (mp_i x) (mp_i y) *: (mp_F x c *m D c *m (mp_F y c)^T) else 0)) xs)
    (gbdiag (fun x => tm_M (pm_N (mp_q x))) xs)
  - 2%:R^-1 * ((\sum_(x <- xs) tm_k (pm_N (mp_q x)))%:R * ln (pow 10 40)) + \sum_(x <- xs) prior_sum (pm (mp_q x)).
(** What a method needs for the classes: "sparse" nothing, "cliques" processes with equal or
    different columns, "partition" one class *)
Definition method_for (method : string) (xs : seq mpsr) : Prop :=
  method = "sparse"%string \/
  (forall x s, List.In x xs -> List.In s (processes (pm (mp_q x))) -> is_vector (bphi s)) /\
  (method = "cliques"%string /\ (forall c d, (1 < size (members xs c))%N -> (1 < size (members xs d))%N -> c <> d -> separate xs c d) \/
   known_method method /\ forall c d, (1 < size (members xs c))%N -> (1 < size (members xs d))%N -> c = d).
Definition yreal (x : mpsr) : pulsar :=
  Pulsar (pm_N (mp_q x)) (v_res (pm (mp_q x)) - delay_sum (pm (mp_q x))) true (yT x) (kphi (yK x)) (prior_sum (pm (mp_q x))).

Variables (svd : forall k, 'M[R]_k -> 'M[R]_k * 'cV[R]_k) (St : Type) (cross : nat -> St -> St -> params R -> result cz).
Notation op := (z_ops hash svd cross).
Notation model := (model St nz dz fz pz).
Variable dom : params R -> Prop.
Hypothesis dom_nil : dom [::].
Variable p : params R.
Hypothesis dp : dom p.
Variable v_cross : nat -> nat * nat -> nat * nat -> params R -> result cz.
(** The signals with a class, and no others, are the common processes. *)
Definition all_commons (c : model) (x : mpsr) : Prop :=
  forall j m k, List.nth_error (c_sigs (fst c)) j = Some m -> s_class m = Some k <-> mp_j x k = Some j.
Definition has_process (x : mpsr) : Prop := (0 < size (processes (pm (mp_q x))))%N.

Lemma seen_nth (c : model) (x : mpsr) j : psr_seen p c (pm (mp_q x)) -> (j < List.length (v_sigs (pm (mp_q x))))%coq_nat -> exists m, List.nth_error (c_sigs (fst c)) j = Some m.
Proof.
case=> _ hs lt; have : (j < List.length (c_sigs (fst c)))%coq_nat.
  by have -> : List.length (c_sigs (fst c)) = List.length (v_sigs (pm (mp_q x))) by elim: hs => //= *; congr _.+1.
by move/List.nth_error_Some; case: (List.nth_error _ _) => // m _; exists m.
Qed.
Lemma common_lt (x : mpsr) c j : has_commons x -> mp_j x c = Some j -> (j < List.length (v_sigs (pm (mp_q x))))%coq_nat.
Proof. by move=> hc ej; have [w [par [comb [/= e1 _]]]] := hc c j ej; apply/List.nth_error_Some; rewrite e1. Qed.
Lemma commons_inj (c : model) (x : mpsr) : psr_seen p c (pm (mp_q x)) -> has_commons x -> all_commons c x -> forall k k' j, mp_j x k = Some j -> mp_j x k' = Some j -> k = k'.
Proof.
move=> S hc ac k k' j ek ek'; have [m em] := seen_nth S (common_lt hc ek).
have [_ h1] := ac _ _ k em; have [_ h2] := ac _ _ k' em; by move: (h1 ek); rewrite (h2 ek') => -[].
Qed.
Lemma many_parts (c : model) (x : mpsr) : sound_coll dom c -> psr_seen p c (pm (mp_q x)) -> good_psr hash (mp_q x) -> has_process x -> has_commons x -> all_commons c x ->
  [/\ v_TNr op c p = psr_TNr (yreal x), v_TNT op c p = psr_TNT (yreal x), v_rNr op c p = psr_rNr (yreal x), v_prior c p = Ok (prior_sum (pm (mp_q x)))
    & v_phi op c p = Ok (yphi hash x)] /\
  exists l, v_layout op c = Ok l /\ snd l <> None /\ forall k, mp_j x k -> nth None l.1 (place k x).2 = Some (yidx x k).
Proof.
move=> ok S g hp h ac; have [eN gN cok sh] := g; have ne := noises_pos eN gN.
have [[e1 e2 _ _] _] := full_many h g hp (isT : uniq [::]) (commons_inj S h ac).
have made : coll_pulsar (@hash _) (pm_N (mp_q x)) (v_res (pm (mp_q x)) - delay_sum (pm (mp_q x))) (processes (pm (mp_q x))) (prior_sum (pm (mp_q x))) = Ok (yreal x).
  by rewrite /coll_pulsar e1 /= e2.
have [h1 h2 h3 h4 _] := psr_parts svd cross dom_nil dp S ok eN ne made.
split; first by split=> //; rewrite (psr_phiE hash svd cross dom_nil dp S ok) e2.
have [ii [el [ei esh]]] := psr_layout hash svd cross dom_nil dp S ok.
exists (ii, if processes (pm (mp_q x)) is [::] then None else Some (Fz (0 : 'M[R]_(yn x, yk x)))); split=> //; split.
  by move: hp; rewrite /has_process; case: (processes _).
move=> k; rewrite /place /ProofMulti.yidx; case ek: (mp_j x k) => [j|] // _ /=.
have [w [par [comb [/= ew eb]]]] := h k j ek.
by rewrite (shape_at esh ew eb) ei.
Qed.
Lemma yreal_good (x : mpsr) : good_psr hash (mp_q x) -> has_process x -> [/\ good_noise (psr_N (yreal x)), good_shape (yreal x) & psr_hasT (yreal x)].
Proof.
move=> g hp; have [eN gN cok sh] := g; split=> // _; rewrite /=; case: (pm_N (mp_q x)) sh => // ? ? sh.
have s0 : processes (pm (mp_q x)) <> [::] by move: hp; rewrite /has_process; case: (processes _).
have := coll_ncol_pos (@hash _) s0; case: cok => _ _ _ pos _ /(_ pos).
by move: sh; rewrite /ProofMulti.yk; case: (combine_ncol _ _) => [|[|?]].
Qed.

Lemma many_value (a : seq model) (xs : seq mpsr) cs method : List.Forall (sound_coll dom) a ->
  List.Forall2 (fun c x => [/\ psr_seen p c (pm (mp_q x)), good_psr hash (mp_q x), has_process x, has_commons x & all_commons c x]) a xs ->
  [seq mp_i x | x <- xs] = iota 0 (size xs) -> uniq cs -> (forall x c, List.In x xs -> mp_j x c -> c \in cs) -> (exists c, (1 < size (members xs c))%N) ->
  (forall x y c i j, List.In x xs -> List.In y xs -> (mp_i x < mp_i y)%N -> mp_j x c = Some i -> mp_j y c = Some j ->
     v_cross c (mp_i x, i) (mp_i y, j) p = Ok (Cz (orf c (mp_i x) (mp_i y)) (ypri c))) ->
  (forall c, c \in cs -> posdef (\matrix_(i < size xs, j < size xs) orf c i j) /\ forall k, 0 < phi c k ord0) ->
  method_for method xs ->
  v_like op v_cross a method p = Ok (Fin (many_term xs cs)).
Proof.
move=> ok S num uc allc [c0 two0] cr pG meth.
have x0 : mpsr by move: two0; case: (members xs c0).
have F : forall x, List.In x xs -> [/\ good_psr hash (mp_q x), has_process x, has_commons x & forall k k' j, mp_j x k = Some j -> mp_j x k' = Some j -> k = k'].
  elim: S => //= c x a' xs' [s g hp h ac] _ IH y [<-|/IH] //; split=> //; exact: commons_inj s h ac.
have PT : List.Forall2 (fun c x => [/\ v_TNr op c p = psr_TNr (yreal x), v_TNT op c p = psr_TNT (yreal x), v_rNr op c p = psr_rNr (yreal x), v_prior c p = Ok (prior_sum (pm (mp_q x)))
    & v_phi op c p = Ok (yphi hash x)] /\
  exists l, v_layout op c = Ok l /\ snd l <> None /\ forall k, mp_j x k -> nth None l.1 (place k x).2 = Some (yidx x k)) a xs.
  elim: S ok {num allc two0 cr pG meth F} => // c x a' xs' [h1 h2 h3 h4 h5] _ IH ok; inversion ok; subst; constructor; last exact: IH.
  exact: many_parts.
have [ls [el [sl [hl cols0]]]] : exists ls, rmapM (v_layout op) a = Ok ls /\ size ls = size xs /\ List.Forall (fun l : ModelColl.layout fz (seq nat) => snd l <> None) ls /\
    forall i, (i < size xs)%N -> forall k, mp_j (nth x0 xs i) k -> nth None (nth ([::], None) ls i).1 (place k (nth x0 xs i)).2 = Some (yidx (nth x0 xs i) k).
  elim: PT => [|c x a' xs' [_ [l [e1 [e2 e3]]]] _ [ls [h1 [h2 [h3 h4]]]]]; first by exists [::].
  exists (l :: ls); rewrite /= e1 /= h1; split=> //; split; first by rewrite h2.
  by split; [constructor|case].
have cols c x : List.In x (members xs c) -> nth None (nth ([::], None) ls (mp_i x)).1 (place c x).2 = Some (yidx x c).
  move=> hx; have [ix jx] := in_filterP hx; have [li ei] := ynum_in x0 num ix.
  by have := cols0 _ li c; rewrite ei; exact.
have ep : rmapM (fun c => v_phi op c p) a = Ok (yphis xs) by apply: rmapM_seen; elim: PT => //= c x a' xs' [[]] *; constructor.
have sza : size a = size xs by elim: S => //= *; congr _.+1.
have [ks [uk [ec ink]]] : exists ks, uniq ks /\ commons_of (List.map fst a) ls = [seq (c, places xs c) | c <- ks] /\ forall c, (c \in ks) = (1 < size (members xs c))%N.
  have h1 : List.length ls = List.length (List.map fst a) by rewrite List.map_length -[List.length a]/(size a) sza.
  have h2 k : List.Forall2 (fun (c : coll St nz dz fz pz) t => (forall j m, List.nth_error (c_sigs c) j = Some m -> (s_class m = Some k <-> t = Some j)) /\ (forall j, t = Some j -> (j < List.length (c_sigs c))%coq_nat))
      (List.map fst a) [seq mp_j x k | x <- xs].
    elim: S => //= c x a' xs' [[e1 hs] _ _ hc ac] _ IH; constructor=> //; split=> [j m em|j ej]; first exact: ac.
    have [m em] := seen_nth (conj e1 hs) (common_lt hc ej).
    by apply/List.nth_error_Some; rewrite em.
  have [ks [nd [e1 e2]]] := commons_many _ _ _ _ _ _ _ _ (fun k => [seq mp_j x k | x <- xs]) h1 h2 hl.
  have pE c := places_fromE c num.
  exists ks; split; last split.
  - elim: nd => //= x l nx _ ->; rewrite andbT; apply/negP => xi; apply: nx.
    by elim: l xi => //= y l IH; rewrite inE => /orP[/eqP ->|/IH]; [left|right].
  - by rewrite e1; apply: eq_map => c; rewrite pE.
  - move=> c; have := e2 c; rewrite pE -[List.length (places xs c)]/(size (places xs c)) size_map => -[h3 h4].
    apply/idP/idP => [ci|/ssrnat.ltP /h4 /in_mem //]; apply/ssrnat.ltP/h3.
    by elim: (ks) ci => //= y l IH; rewrite inE => /orP[/eqP ->|/IH]; [left|right].
have et : rmapM (fun kp : nat * ((nat * nat) * (nat * nat)) => v_cross kp.1 kp.2.1 kp.2.2 p)
    (List.flat_map (fun kl : nat * seq (nat * nat) => List.map (pair kl.1) (pairs_of kl.2)) [seq (c, places xs c) | c <- ks]) = Ok (flatten [seq yterms xs c | c <- ks]).
  elim: (ks) => //= c l IH; apply: rmapM_cat => //.
  rewrite pairs_ofE /places pairs_map -[List.map]/(@map) -map_comp /yterms (pairs_nth x0 (members xs c)) -!map_comp.
  have : forall ij, ij \in pairs (iota 0 (size (members xs c))) -> (ij.1 < ij.2)%N && (ij.2 < size (members xs c))%N.
    by move=> [i j] /mem_pairs [_ h1 h2]; rewrite h1.
  elim: (pairs _) => //= -[i j] l' IH' h; have /= /andP[ij lj] := h (i, j) (mem_head _ _).
  rewrite IH'; last by move=> ij' hi; apply: h; rewrite inE hi orbT.
  have [ix jx] := mem_at x0 (ltn_trans ij lj); have [iy jy] := mem_at x0 lj.
  have lt : (mp_i (nth x0 (members xs c) i) < mp_i (nth x0 (members xs c) j))%N.
    have srt : sorted ltn [seq mp_i x | x <- members xs c] by apply: sorted_filter_map; rewrite num iota_ltn_sorted.
    by have := sorted_ltn_nth ltn_trans 0%N srt; move=> /(_ i j); rewrite !inE !size_map => /(_ (ltn_trans ij lj) lj ij); rewrite !(nth_map x0) // (ltn_trans ij lj).
  rewrite /place; move: (jx) (jy); case e1: (mp_j _ c) => [jx'|] // _; case e2: (mp_j _ c) => [jy'|] // _.
  by rewrite (cr _ _ _ _ _ ix iy lt e1 e2).
rewrite /v_like (rmapM_same (g := psr_TNr) (l' := [seq yreal x | x <- xs])); last first.
  by elim: PT => //= c x a' xs' [[]] *; constructor.
rewrite [X in rbind _ (fun _ => rbind X _)](rmapM_same (g := psr_TNT) (l' := [seq yreal x | x <- xs])); last first.
  by elim: PT => //= c x a' xs' [[]] *; constructor.
have -> : rmapM (fun c => v_rNr op c p) a = rmapM psr_rNr [seq yreal x | x <- xs].
  by apply: rmapM_same; elim: PT => //= c x a' xs' [[]] *; constructor.
have -> : rmapM (fun c => v_prior c p) a = Ok [seq ModelLike.psr_prior P | P <- [seq yreal x | x <- xs]].
  by apply: rmapM_seen; elim: PT => //= c x a' xs' [[]] *; constructor.
have gd : forall P, List.In P [seq yreal x | x <- xs] -> good_noise (psr_N P) /\ good_shape P /\ psr_hasT P.
  by move=> P /List.in_map_iff [x [<- /F [g hp _ _]]]; have [] := yreal_good g hp.
have pl c : List.Forall (placed_in c) xs.
  apply/List.Forall_forall => x /F [g hp h inj] jc; have [_ [H _]] := full_many h g hp (isT : uniq [::]) inj.
  by have [] := H c jc.
have hF x c : List.In x xs -> mp_j x c -> mp_F x c = yT x *m (yS c x)^T.
  by move=> /F [g hp h inj] jc; have [_ [H _]] := full_many h g hp (isT : uniq [::]) inj; have [] := H c jc.
have hI x c d : List.In x xs -> K c = K d -> alike x c d -> yidx x c = yidx x d.
  by move=> /F [[_ _ cok _] hp h inj] eK al; exact: alike_idx h cok eK al.
pose orf' c := cs_orf (class_z ls (places xs c) (yterms xs c)).
have two c : c \in ks -> (1 < size (members xs c))%N by rewrite ink.
have sub : {subset ks <= cs}.
  move=> c /two; case e: (members xs c) => [|x l] // _; have [|ix jx] := in_filterP (P := fun x => mp_j x c) (s := xs) (x := x); last exact: allc ix jx.
  by rewrite -/(members xs c) e; left.
have [Phi [cc [ePhi eG]]] := @many_phi hash K orf phi xs x0 ks cs orf' num pl uk uc two (fun c h => etrans (ink c) h) sub (fun c a b hc => @yclass_orf xs x0 c ls a b).
have pPhi : posdef Phi.
  apply: (posdef_cast (e := yphis_size hash xs)); rewrite eG; apply: many_posdef => // x /F [g hp h inj].
  by have [[_ _ _ ?] [_ [? _]]] := full_many h g hp uc inj.
have eI : ModelPhi.get_phiinv (yphis xs) svd (classes_z ls [seq (c, places xs c) | c <- ks] (flatten [seq yterms xs c | c <- ks])) method = Ok (invmx Phi, ln (\det Phi)).
  have -> : classes_z ls [seq (c, places xs c) | c <- ks] (flatten [seq yterms xs c | c <- ks]) = [seq class_of xs c x0 (orf' c) | c <- ks].
    by rewrite classes_zE; apply/eq_in_map => c hc; exact: yclass_zE (two c hc) (cols c).
  case: meth => [->|[vec meth]]; first exact: (sparse_inverse_lem svd ePhi pPhi).
  have V : forall i x, nth None (yphis xs) i = Some x -> is_vector (kphi (projT2 x)) /\ forall a, kcl (projT2 x) a = None.
    move=> i x; case: (ltnP i (size xs)) => li; last by rewrite nth_default // size_map.
    rewrite (nth_map x0) // => -[<-]; have hx := nth_InP x0 li; have [g hp h inj] := F _ hx; have [_ [_ [_ hv]]] := full_many h g hp uc inj.
    by apply: hv => s hs; exact: vec hx hs.
  have os : own_separated (yphis xs).
    by move=> i x a0 b0 /V [h _] ab; case: (kphi (projT2 x)) h => // v _; rewrite phi_mxD (negbTE ab) eqxx.
  have gct : good_count (yphis xs) by move=> i x a0 c1 /V [_ ->].
  have fr (C : csclass nat) : free_columns (yphis xs) C by move=> m x a0 _ /V [_ h] _.
  have vp c : vector_prior (class_of xs c x0 (orf' c)) by move=> m /List.in_map_iff [x [<- _]].
  case: meth => [[-> sp]|[km one]].
    rewrite /ModelPhi.get_phiinv /=; apply: (cliques_vector_lem _ gct os _ _ _ ePhi pPhi).
    - by apply/List.Forall_map/List.Forall_forall => c /in_mem hc; apply: class_of_good num (pl c) _ (two c hc).
    - by move=> C _.
    - by move=> C /List.in_map_iff [c [<- _]].
    - by apply: cls_aligned => // c d /two hc /two hd; exact: sp.
  have ek : ks = [:: c0].
    have hc0 : c0 \in ks by rewrite ink.
    case: (ks) uk hc0 two => [|k [|k' l]] //= uk' hc0 two'; first by move: hc0; rewrite inE => /eqP ->.
    have e : k = k' by apply: one; apply: two'; rewrite !inE eqxx ?orbT.
    by move: uk'; rewrite e inE eqxx.
  move: ePhi; rewrite ek -[[seq _ | c <- [:: c0]]]/[:: class_of xs c0 x0 (orf' c0)] => ePhi; apply: (methods_agree_lem svd (class_of_good phi x0 num (pl c0) (orf' c0) two0) (vp c0) os (fr _) gct ePhi pPhi).
  by move: km => /or3P[] /String.eqb_eq ->; [left|right; left|right; right].
have km : known_method method.
  by case: meth => [->//|[_ [[-> //]|[]]]].
have [k1 [kl ek]] : exists k1 kl, ks = k1 :: kl by case: (ks) (ink c0) => [|k1 kl]; [rewrite two0|exists k1, kl].
have -> : v_phiinv op v_cross a method p = Ok (@QBig [seq psz o | o <- yphis xs] (invmx Phi) (ln (\det Phi))).
  by rewrite /v_phiinv ep el /= ec et /= /z_invert km; move: eI; rewrite ek /= => ->.
pose ps := [seq yreal x | x <- xs]; rewrite -/ps.
have eks : [seq psz o | o <- yphis xs] = [seq psr_k P | P <- ps] by rewrite /ProofMulti.yphis /ps -!map_comp.
have e : sumn [seq psz o | o <- yphis xs] = tot_k ps by rewrite eks; elim: (ps) => //= P l ->.
have pPhi' : posdef (castmx (e, e) Phi) by apply: (posdef_cast (e := esym e)); rewrite castmx_comp castmx_id.
have eL := correlated_marginalised_lem gd pPhi'; rewrite -inv_cast det_cast in eL.
have [TNrs [TNTs [rr [eT [eTT er]]]]] : exists TNrs TNTs rr, rmapM psr_TNr ps = Ok TNrs /\ rmapM psr_TNT ps = Ok TNTs /\ rmapM psr_rNr ps = Ok rr.
  move: eL; rewrite /loglike_correlated /pieces !mapR_rmapM -/ps.
  case: (rmapM _ ps) => [TNrs|] //=; case: (rmapM _ ps) => [TNTs|] //=; case: (rmapM _ ps) => [rr|] //= _.
  by exists TNrs, TNTs, rr.
transitivity (z_finish TNrs TNTs (@QBig [seq psz o | o <- yphis xs] (invmx Phi) (ln (\det Phi))) rr [seq ModelLike.psr_prior P | P <- ps]).
  by rewrite eT eTT er.
rewrite (finish_big _ _ e eks eT eTT er) eL; congr (Ok (Fin _)).
rewrite (density_map (T := mpsr) (h := yreal) (G := gjoint (fun x => phi_mx (kphi (yK x))) (fun x y => \sum_(c <- cs) cross_block c x y) xs)); last first.
  by rewrite castmx_comp -eG; exact: cast_same.
rewrite /many_term !big_map; congr (_ - _ + _).
congr (density_tm _ _ _); rewrite gjoint_mul [gbdiag _ _]gbdiag_joint gjointD; apply: eq_gjoint => [x /F [g hp h inj]|x y hx hy].
  by have [[_ _ -> _] _] := full_many h g hp uc inj.
rewrite add0r mulmx_sumr mulmx_suml; apply: eq_bigr => c _; rewrite /ProofMulti.cross_block -scalemxAr -scalemxAl.
case jx: (mp_j x c) => [i|] /=; last by rewrite {1}/ProofMulti.yS jx trmx0 !mul0mx mulmx0 mul0mx scaler0.
case jy: (mp_j y c) => [j|] /=; last by rewrite {2}/ProofMulti.yS jy mulmx0 mulmx0 mul0mx scaler0.
by rewrite (hF x c hx) ?jx // (hF y c hy) ?jy // trmx_mul trmxK !mulmxA.
Qed.
End Many.
