(** ECORR as noise and as a Gaussian process: the same covariance and likelihood. *)
From Coq Require Import Reals Lra Lia ZArith String.
From mathcomp Require Import all_ssreflect all_algebra.
From mathcomp Require Import zify.
From Verif Require Import RStruct PyBase ModelLinalg ProofLinalg ModelNoise ProofNoise ModelLike ProofLike ModelKernel ProofKernel ModelSelect ProofSelect ProofQuant ProofEpoch ModelEcorr.
Set Implicit Arguments.
Unset Strict Implicit.
Unset Printing Implicit Defensive.
Import GRing.Theory Num.Theory Order.TTheory.
Local Open Scope ring_scope.

(** * The prior of a collection is positive definite if those of its signals are *)
Section Pos.
Variables (n N : nat) (TT : 'M[R]_(n, N)).
Lemma phi_fold_pos l : forall K0 : kmat N, List.Forall (placed TT) l ->
  List.Forall (fun x : bsig n * seq nat => posdef (phi_mx (bphi x.1))) l ->
  sym (phi_mx (kphi K0)) -> (forall v, 0 <= quad (phi_mx (kphi K0)) v) ->
  exists K1, foldl (fun r (si : bsig n * seq nat) => rbind r (fun phi => kadd phi (bphi si.1) (KArr si.2))) (Ok K0) l = Ok K1
    /\ sym (phi_mx (kphi K1)) /\ (forall v, 0 <= quad (phi_mx (kphi K1)) v)
    /\ forall v, quad (phi_mx (kphi K1)) v = 0 -> quad (phi_mx (kphi K0)) v = 0 /\
         forall c : 'I_N, val c \in flatten [seq x.2 | x <- l] -> v c ord0 = 0.
Proof.
elim: l => [|x l IH] K0 H HP s0 p0; first by exists K0; split=> //; split=> //; split=> // v ->.
inversion_clear H as [|? ? Hx Hl]; inversion_clear HP as [|? ? Px Pl]; have [f [fi ex k0 hF]] := Hx.
have [r [er hr]] := kadd_mx K0 (bphi x.1) fi k0.
have sr : sym (phi_mx (kphi r)).
  by rewrite hr /sym linearD /= s0; congr (_ + _); rewrite !trmx_mul trmxK (proj1 Px) mulmxA.
have qr v : quad (phi_mx (kphi r)) v = quad (phi_mx (kphi K0)) v + quad (phi_mx (bphi x.1)) (emx f *m v).
  by rewrite hr quadD quad_congr.
have pr v : 0 <= quad (phi_mx (kphi r)) v by rewrite qr addr_ge0 // posdef_ge0.
rewrite /= ex er; have [K1 [-> [s1 [p1 h1]]]] := IH r Hl Pl sr pr.
exists K1; split=> //; split=> //; split=> // v /h1 [rz lz].
have/eqP := rz; rewrite qr paddr_eq0 //; last exact: posdef_ge0.
move=> /andP[/eqP -> /eqP z]; split=> // c.
rewrite mem_cat => /orP[|/lz //]; rewrite in_at_pos => /existsP[a /eqP <-].
have: emx f *m v = 0.
  by apply/eqP; apply/negPn/negP=> nz; have := (proj2 Px) _ nz; rewrite z ltxx.
move/matrixP/(_ a ord0); rewrite !mxE (bigD1 (f a)) //= big1 => [|i ia]; last by rewrite mxE eq_sym (negbTE ia) mul0r.
by rewrite mxE eqxx mul1r addr0.
Qed.
End Pos.

Lemma combine_posdef_lem : forall n (hash : 'cV[R]_n -> nat) (sigs : seq (bsig n)),
  no_collision hash sigs -> fixed_first sigs -> no_repeats sigs ->
  all (fun s => (0 < bk s)%N) sigs -> (0 < size sigs)%N -> (forall s, List.In s sigs -> posdef (phi_mx (bphi s))) ->
  exists phi, coll_phi hash sigs = Ok (Some phi) /\ posdef (phi_mx (kphi phi)).
Proof.
move=> n hash sigs nc ff nr pos s0 P; have [TT pl] := placed_all nc ff nr pos.
have [hl [cc [er ec]]] := run_idx hash sigs; have [sz _ cov _] := layout er.
have PP : List.Forall (fun x : bsig n * seq nat => posdef (phi_mx (bphi x.1))) (zip sigs (combine_idx hash sigs)).
  apply/List.Forall_forall=> -[s i] /= h; apply: P; move: h; elim: (sigs) (combine_idx hash sigs) => [|a l IH] [|b m] //=.
  by case=> [[-> _]|/IH]; [left|right].
have z0 : phi_mx (kphi (kzeros (combine_ncol hash sigs))) = 0 by rewrite /= trmx0 linear0.
have [||K [eK [sK [pK hK]]]] := @phi_fold_pos _ _ TT _ (kzeros _) pl PP.
- by rewrite z0 /sym trmx0.
- by move=> v; rewrite z0 /quad mulmx0 mul0mx mxE.
exists K; rewrite coll_phiE // eK; split=> //; split=> // x x0.
rewrite lt_neqAle pK andbT eq_sym; apply/negP=> /eqP /hK [_ z].
case/eqP: x0; apply/matrixP=> i j; rewrite (ord1 j) mxE; apply: z.
by rewrite -/unzip2 unzip2_zip ?sz // cov -ec ltn_ord.
Qed.

(** * Lists and matrices *)
Lemma iota_seq a k : List.seq a k = iota a k.
Proof. by elim: k a => [|k IH] a //=; rewrite IH. Qed.
Lemma filterE (T : Type) (P : pred T) (l : seq T) : List.filter P l = filter P l.
Proof. by elim: l => [|x l IH] //=; rewrite IH. Qed.
Lemma nthE (T : Type) (x : T) l i : List.nth i l x = nth x l i.
Proof. by elim: l i => [|y l IH] [|i] //=. Qed.
Lemma lengthE (T : Type) (l : seq T) : List.length l = size l.
Proof. by []. Qed.
Lemma inE_list (T : eqType) (x : T) l : List.In x l <-> x \in l.
Proof.
elim: l => [|y l IH] //=; rewrite inE; split=> [[->|/IH ->]|/orP[/eqP ->|/IH h]]; rewrite ?eqxx ?orbT //; [by left|by right].
Qed.
Lemma sel_toasE n (m : mask) U x : size m = n ->
  [seq val i | i <- sel_toas (ecorr_sel n m U x)] = List.filter (fun j => List.nth (j - 0) m false) (List.seq 0 (List.length m)).
Proof.
move=> sm; rewrite filterE iota_seq lengthE sm -val_enum_ord filter_map; congr map; apply: eq_filter => i /=.
by rewrite subn0.
Qed.
Section Ords.
Variable n : nat.
Definition ords (e : seq nat) : seq 'I_n := pmap insub e.
Lemma mem_ords (e : seq nat) (i : 'I_n) : (i \in ords e) = (val i \in e).
Proof. by rewrite /ords mem_pmap_sub. Qed.
Lemma size_ords (e : seq nat) : all (fun i => i < n)%N e -> size (ords e) = size e.
Proof. by move=> al; rewrite /ords size_pmap_sub; apply/eqP; rewrite -all_count. Qed.
Lemma uniq_ords (e : seq nat) : uniq e -> uniq (ords e).
Proof. exact: pmap_sub_uniq. Qed.
End Ords.

Lemma nth_errorE (T : Type) (x : T) l i : (i < size l)%N -> List.nth_error l i = Some (nth x l i).
Proof. by elim: l i => [|y l IH] [|i] //= h; exact: IH. Qed.
Lemma NoDupE (T : eqType) (l : seq T) : List.NoDup l -> uniq l.
Proof. by elim=> [|x l' nx _ IH] //=; rewrite IH andbT; apply/negP=> /inE_list. Qed.

Lemma sel_cov argsort toas n (m : mask) U es x : size m = n -> key_epochs argsort toas m U es ->
  let b := ecorr_sel n m U x in
  size (sel_toas b) = sb_m b /\ size es = sb_k b /\
  (sel_pick b)^T *m (sb_F b *m phi_mx (sb_phi b) *m (sb_F b)^T) *m sel_pick b = ecorr_cov [seq (ords n e, Rpower 10 (2 * x)) | e <- es].
Proof.
move=> sm [_ [HL [Hn [He [Hr _]]]]] b.
have szb : size (sel_toas b) = sb_m b.
  rewrite -(size_map val) (sel_toasE _ _ sm) /= HL -(filter_count m 0); by [].
split=> //; split; first by rewrite /= Hn.
have [g [gi eg -> gm]] := toas_fun szb.
apply/matrixP=> i k; rewrite [RHS]mxE big_map /=.
have fst_out (j : 'I_n) e : e \in es -> List.nth j m false = false -> j \in ords n e = false.
  move=> ein jm; apply/negP; rewrite mem_ords => jin.
  by have [_] := Hr e j ((inE_list _ _).2 ein) ((inE_list _ _).2 jin); rewrite jm.
case mi: (sb_mask b i); last first.
  rewrite emx_entry_l ?gm ?mi // big_seq_cond big1 // => e /and4P[ein _ ie _].
  by move: ie; rewrite (fst_out i e ein).
case mk: (sb_mask b k); last first.
  rewrite emx_entry_r ?gm ?mk // big_seq_cond big1 // => e /and4P[ein _ _ ke].
  by move: ke; rewrite (fst_out k e ein).
have rk (j : 'I_n) : sb_mask b j -> exists2 a : 'I_(sb_m b), val a = rank m j & g a = j.
  move=> mj; have lj : (j < List.length m)%coq_nat by rewrite lengthE sm; have := ltn_ord j; lia.
  have [e1 l1] := rank_filter m j 0 lj mj.
  have l2 : (rank m j < sb_m b)%N by rewrite -szb -(size_map val) (sel_toasE _ _ sm); apply/ssrnat.ltP.
  exists (Ordinal l2) => //; apply: ord_inj.
  have <- : nth 0%N (at_pos g) (Ordinal l2) = val (g (Ordinal l2)) by exact: nth_at_pos.
  by rewrite -eg (sel_toasE _ _ sm) /= -nthE e1; lia.
have [a ea ga] := rk i mi; have [a' ea' ga'] := rk k mk.
rewrite -{1}ga -{1}ga' emx_entry_in // mxE.
transitivity (\sum_(c < sb_k b) (if (i \in ords n (nth [::] es c)) && (k \in ords n (nth [::] es c)) then Rpower 10 (2 * x) else 0)).
  apply: eq_bigr => c _; rewrite mxE (bigD1 c) //= big1 => [|d dc]; last by rewrite !mxE (negbTE dc) mulr0n mulr0.
  have cl : (c < size es)%N by rewrite -lengthE -Hn.
  have [_ [_ H]] := He c _ (nth_errorE [::] cl).
  have li : (i < List.length m)%coq_nat by rewrite lengthE sm; have := ltn_ord i; have := ltn_ord k; lia.
  have lk : (k < List.length m)%coq_nat by rewrite lengthE sm; have := ltn_ord i; have := ltn_ord k; lia.
  rewrite !mxE eqxx mulr1n addr0 !mul1r ea ea' !mem_ords.
  have Hi := H i li; have Hk := H k lk; rewrite /= in mi mk; rewrite mi in Hi; rewrite mk in Hk.
  rewrite /ProofQuant.entry in Hi Hk.
  case: Hi => -[] // _ [] [/inE_list hi ->]; case: Hk => -[] // _ [] [/inE_list hk ->].
  - by rewrite hi hk /= mul1r mulr1.
  - by rewrite (introF idP hk) andbF mulr0.
  - by rewrite (introF idP hi) !mul0r.
  - by rewrite (introF idP hi) !mul0r.
rewrite [RHS]big_mkcond (big_nth [::]) big_mkord.
have -> : sb_k b = size es by rewrite /= Hn.
apply: eq_bigr => c _; have [ND [L2 _]] := He c _ (nth_errorE [::] (ltn_ord c)).
rewrite size_ords; last first.
  apply/allP=> j jin; have [lt _] := Hr _ j ((inE_list _ _).2 (mem_nth [::] (ltn_ord c))) ((inE_list _ _).2 jin).
  by apply/ssrnat.ltP; rewrite -sm.
by rewrite (_ : (1 < size _)%N = true) //; apply/ssrnat.ltP.
Qed.

Definition ecorr_ok argsort (toas : seq R) (masks : dict string mask) : Prop :=
  argsort_ok argsort /\ List.NoDup (dkeys masks) /\ masks_fit masks (size toas) /\
  (forall k, List.In k (dkeys masks) -> exists i, selects masks k i) /\
  (forall k k' i, selects masks k i -> selects masks k' i -> k = k').

Lemma flat_mapE (S T : Type) (f : S -> seq T) l : List.flat_map f l = flatten [seq f x | x <- l].
Proof. by elim: l => [|x l IH] //=; rewrite IH. Qed.
Lemma zip_flat (S T : Type) (f : S -> seq T) (g : S -> R) l :
  zip (flatten [seq f x | x <- l]) (flatten [seq [seq g x | _ <- f x] | x <- l]) = flatten [seq [seq (e, g x) | e <- f x] | x <- l].
Proof.
elim: l => [|x l IH] //=; rewrite zip_cat ?size_map // IH; congr (_ ++ _).
by elim: (f x) => [|e es IHe] //=; rewrite IHe.
Qed.
Lemma nth_InP (T : Type) (x0 : T) l p : (p < size l)%N -> List.In (nth x0 l p) l.
Proof. by elim: l p => [|x l IH] [|p] //= h; [left|right; apply: IH]. Qed.
Lemma NoDup_nth (T : Type) (x0 : T) l p q : List.NoDup l -> (p < size l)%N -> (q < size l)%N -> nth x0 l p = nth x0 l q -> p = q.
Proof.
move=> nd; elim: nd p q => [|x l' nx _ IH] [|p] [|q] //= hp hq e.
- by case: nx; rewrite e; apply: nth_InP.
- by case: nx; rewrite -e; apply: nth_InP.
- by rewrite (IH p q).
Qed.
Lemma eq_map_In (S T : Type) (f g : S -> T) l : (forall x, List.In x l -> f x = g x) -> [seq f x | x <- l] = [seq g x | x <- l].
Proof. by elim: l => [|x l IH] //= h; rewrite h; [rewrite IH // => y hy; apply: h; right|left]. Qed.
Lemma big_flatten_map (S : Type) (I : Type) (l : seq S) (f : S -> seq I) (P : pred I) (F : I -> R) :
  \sum_(i <- flatten [seq f x | x <- l] | P i) F i = \sum_(x <- l) \sum_(i <- f x | P i) F i.
Proof. by elim: l => [|x l IH] /=; rewrite ?big_nil // big_cat IH big_cons. Qed.
Lemma uniq_flatten (T : eqType) (ll : seq (seq T)) : (forall p, (p < size ll)%N -> uniq (nth [::] ll p)) ->
  (forall p q x, (p < size ll)%N -> (q < size ll)%N -> x \in nth [::] ll p -> x \in nth [::] ll q -> p = q) -> uniq (flatten ll).
Proof.
elim: ll => [|l ll IH] //= H1 H2; rewrite cat_uniq (H1 0%N) // IH; last first.
- by move=> p q x hp hq xp xq; have [] := H2 p.+1 q.+1 x hp hq xp xq.
- by move=> p hp; exact: (H1 p.+1).
rewrite andbT; apply/hasPn=> x /flattenP[l' /(nthP [::]) [p hp <-]] xp; apply/negP=> xl.
by have := H2 0%N p.+1 x isT hp xl xp.
Qed.
Lemma flatten2 (T : Type) (lll : seq (seq (seq T))) : flatten (flatten lll) = flatten [seq flatten l | l <- lll].
Proof. by elim: lll => [|l lll IH] //=; rewrite flatten_cat IH. Qed.
Lemma ecorr_same_covariance_lem : forall argsort toas masks value, ecorr_ok argsort toas masks ->
  exists bs s, ecorr_kernel argsort (size toas) toas masks value = Ok bs /\ ecorr_gp argsort (size toas) toas masks value = Ok s /\
    bF s *m phi_mx (bphi s) *m (bF s)^T = ecorr_cov bs /\
    [/\ bk s = size bs, bpar s = false, posdef (phi_mx (bphi s)) & uniq (columns s)] /\
    [/\ (forall b, b \in bs -> 0 < b.2), (forall b, b \in bs -> 1 < size b.1)%N & disjoint_epochs [seq b.1 | b <- bs]].
Proof.
move=> argsort toas masks value; case=> Ha [ND [Hfit [Hne Hdis]]]; set n := size toas.
have [fm [fU [fes [idxs [HK [HI HJ]]]]]] := ecorr_lists argsort toas masks value Ha ND Hfit Hne.
have NDK : List.NoDup (sorted_keys masks).
  apply: (Permutation.Permutation_NoDup (l := dkeys masks)) => //; apply: Permutation.Permutation_sym; exact: sorted_keys_perm.
set K := sorted_keys masks in HK HJ NDK *; set J := fun k => Rpower 10 (2 * value k).
pose bs := flatten [seq [seq (ords n e, J k) | e <- fes k] | k <- K].
pose sels := [seq ecorr_sel n (fm k) (fU k) (value k) | k <- K].
have eK : ecorr_kernel argsort n toas masks value = Ok bs.
  rewrite /ecorr_kernel HI /rmap /rbind HJ !flat_mapE map_flatten -map_comp.
  have -> : [seq List.map (fun _ : seq nat => Rpower 10 (2 * value k)) (fes k) | k <- K] = [seq [seq J k | _ <- [seq ords n e | e <- fes k]] | k <- K].
    by apply: eq_map => k; rewrite -map_comp.
  rewrite (zip_flat (fun k => [seq ords n e | e <- fes k])); congr (Ok (flatten _)); apply: eq_map => k.
  by rewrite -map_comp.
have KS p : (p < size K)%N -> let k := nth ""%string K p in
    [/\ dget string_dec masks k = Some (fm k), size (fm k) = n & key_epochs argsort toas (fm k) (fU k) (fes k)].
  by move=> lt k; have [h1 [h2 h3]] := HK k (nth_InP ""%string lt).
have eS : ecorr_sels argsort n toas masks value = Ok sels.
  rewrite /ecorr_sels -/K (rmapM_ext_Ok _ (fun k => ecorr_sel n (fm k) (fU k) (value k))) // => k /HK [h1 [h2 [h3 _]]].
  by rewrite /dgetE h1 /= h3.
have nS p : (p < size K)%N -> nth (no_sel n) sels p = let k := nth ""%string K p in ecorr_sel n (fm k) (fU k) (value k).
  by move=> lt; rewrite (nth_map ""%string).
have sS : size sels = size K by rewrite size_map.
have shp : sel_shapes sels.
  apply/(all_nthP (no_sel n)) => p; rewrite sS => lt; rewrite nS //=; have [_ sm ke] := KS p lt.
  by have [-> _] := sel_cov (value (nth ""%string K p)) sm ke.
have vec : all (fun b : selblk n => (0 < sb_k b)%N || is_vector (sb_phi b)) sels.
  by apply/(all_nthP (no_sel n)) => p; rewrite sS => lt; rewrite nS //= orbT.
have vf : vectors_first sels (is_vector (kphi (kzeros (sel_ncol sels)))).
  apply/orP; right=> /=; apply/(pairwiseP (no_sel n)) => p q; rewrite !inE sS => lp lq _; by rewrite !nS.
have bo : blocks_only (bs := sels) (phi_mx (kphi (kzeros (sel_ncol sels)))).
  by move=> p q C D c d *; rewrite /= trmx0 linear0 mxE.
have [T [r [eT [er [cov _]]]]] := selected_covariance_lem shp vec vf bo.
have [T' [eT' HT]] := selected_basis_lem shp; have TE : T' = T by move: eT'; rewrite eT => -[].
subst T'; have [r' [er' [_ [hv Hphi]]]] := selected_prior_lem vec vf bo.
have rE : r' = r by move: er'; rewrite er => -[].
subst r'; exists bs, (BSig T (kphi r) false true); split=> //; split.
  by rewrite /ecorr_gp eS /= eT /= er.
have SC p (lt : (p < size K)%N) := sel_cov (value (nth ""%string K p)) (let: And3 _ sm _ := KS p lt in sm) (let: And3 _ _ ke := KS p lt in ke).
have hs p : (p < size K)%N -> size (fes (nth ""%string K p)) = ncols (fU (nth ""%string K p)).
  by move=> lt; have [_ [h _]] := SC p lt.
have ncE : sel_ncol sels = size bs.
  rewrite /sel_ncol /bs size_flatten /shape -!map_comp; congr sumn; apply: eq_map_In => k /HK [_ [_ [_ [_ [h _]]]]] /=.
  by rewrite size_map h.
split=> /=.
  rewrite cov; transitivity (\sum_(k <- K) ecorr_cov [seq (ords n e, J k) | e <- fes k]).
    pose G p := let b := nth (no_sel n) sels p in (sel_pick b)^T *m (sb_F b *m phi_mx (sb_phi b) *m (sb_F b)^T) *m sel_pick b.
    rewrite -(big_mkord xpredT G) sS (big_nth ""%string) big_nat [RHS]big_nat; apply: eq_bigr => p /andP[_ lt].
    by rewrite /G nS //; have [_ [_ ->]] := SC p lt.
  apply/matrixP=> i k; rewrite summxE mxE /bs big_flatten_map; apply: eq_bigr => key _; by rewrite mxE.
have Tent (C : 'I_(sel_ncol sels)) p c (i : 'I_n) : (p < size K)%N -> (c < size (fes (nth ""%string K p)))%N -> val C = (sel_first sels p + c)%N ->
    T i C = (i \in ords n (nth [::] (fes (nth ""%string K p)) c))%:R.
  move=> lt lc eC; have lp : (p < size sels)%N by rewrite sS.
  have := HT p lp; rewrite nS //=; set k := nth ""%string K p; have [_ sm ke] := KS p lt; rewrite -/k in sm ke lc * => H.
  have [_ [HL [Hn [He [Hr _]]]]] := ke.
  have lc' : (c < ncols (fU k))%N by rewrite Hn.
  have [h0 h1] := H (Ordinal lc') C i eC.
  have [_ [_ He']] := He c _ (nth_errorE [::] lc).
  have li : (i < List.length (fm k))%coq_nat by rewrite lengthE sm; have := ltn_ord i; lia.
  case: (He' i li) => [[mi h]|[mi /inE_list h]]; last by rewrite h0 // mem_ords (introF idP h).
  have [e1 l1] := rank_filter (fm k) i 0 li mi.
  have l2 : (rank (fm k) i < List.length (fU k))%N by rewrite HL -(filter_count (fm k) 0); apply/ssrnat.ltP.
  rewrite (h1 (Ordinal l2)); last first.
    rewrite (sel_toasE (fU k) (value k) sm) /= (set_nth_default 0%N); last exact/ssrnat.ltP.
    by rewrite -nthE e1; lia.
  rewrite mxE /= mem_ords; rewrite /ProofQuant.entry in h.
  by case: h => -[/inE_list h ->]; [rewrite h|rewrite (introF idP h)].
have find (C : 'I_(sel_ncol sels)) : exists p c, [/\ (p < size K)%N, (c < size (fes (nth ""%string K p)))%N & val C = (sel_first sels p + c)%N].
  have [p [c [lp lc eC]]] := sel_find (ltn_ord C); exists p, c; rewrite -sS; split=> //.
  rewrite sS in lp; move: lc; rewrite nS //=; by rewrite hs.
have inR p c i : (p < size K)%N -> (c < size (fes (nth ""%string K p)))%N -> i \in nth [::] (fes (nth ""%string K p)) c ->
    (i < n)%N /\ selects masks (nth ""%string K p) i.
  move=> lp lc ii; have [dg sm [_ [_ [_ [_ [Hr _]]]]]] := KS p lp.
  have [l1 l2] := Hr _ i ((inE_list _ _).2 (mem_nth [::] lc)) ((inE_list _ _).2 ii).
  split; first by move: l1; rewrite lengthE sm => /ssrnat.ltP.
  by exists (fm (nth ""%string K p)); split=> //; apply/nth_true_error.
have same p c q d i : (p < size K)%N -> (c < size (fes (nth ""%string K p)))%N -> (q < size K)%N -> (d < size (fes (nth ""%string K q)))%N ->
    i \in nth [::] (fes (nth ""%string K p)) c -> i \in nth [::] (fes (nth ""%string K q)) d -> p = q /\ c = d.
  move=> lp lc lq ld i1 i2; have [_ s1] := inR p c i lp lc i1; have [_ s2] := inR q d i lq ld i2.
  have pq : p = q by exact: (NoDup_nth NDK lp lq (Hdis _ _ i s1 s2)).
  subst q; split=> //; have [_ _ [_ [_ [_ [_ [_ H]]]]]] := KS p lp.
  by apply: (H c d _ _ i (nth_errorE [::] lc) (nth_errorE [::] ld)); apply/inE_list.
have two p c : (p < size K)%N -> (c < size (fes (nth ""%string K p)))%N -> uniq (nth [::] (fes (nth ""%string K p)) c) /\ (1 < size (nth [::] (fes (nth ""%string K p)) c))%N.
  move=> lp lc; have [_ _ [_ [_ [_ [H _]]]]] := KS p lp.
  have [h1 [h2 _]] := H c _ (nth_errorE [::] lc); split; first exact: NoDupE.
  exact/ssrnat.ltP.
split.
  split=> //.
  - have: is_vector (kphi r) by rewrite hv /=; apply/(all_nthP (no_sel n)) => p; rewrite sS => lt; rewrite nS.
    case e: (kphi r) => [w|//] _.
    rewrite -/(diag _) /=; apply: diag_posdef => C; have [p [c [lp lc eC]]] := find C.
    have := Hphi p; rewrite sS nS // => /(_ lp) H.
    have lc' : (c < ncols (fU (nth ""%string K p)))%N by rewrite -hs.
    have := H (Ordinal lc') (Ordinal lc') C C eC eC; rewrite e !phi_mxD !eqxx => ->.
    rewrite !mxE mul1r; apply/RltP; exact: exp_pos.
  - rewrite /columns map_inj_uniq ?enum_uniq // => C D /matrixP e.
    have [p [c [lp lc eC]]] := find C; have [q [d [lq ld eD]]] := find D.
    have [_ sz] := two p c lp lc.
    have i0 : nth 0%N (nth [::] (fes (nth ""%string K p)) c) 0 \in nth [::] (fes (nth ""%string K p)) c by apply: mem_nth; apply: ltnW.
    have [li _] := inR p c _ lp lc i0.
    have := e (Ordinal li) ord0; rewrite !mxE /= (Tent C p c) // (Tent D q d) // !mem_ords /= i0.
    case i1: (_ \in _); last by move/eqP; rewrite oner_eq0.
    have [pq cd] := same p c q d _ lp lc lq ld i0 i1; subst q d.
    by move=> _; apply: ord_inj; rewrite [LHS]eC [RHS]eD.
have bsP b : b \in bs -> exists p c, [/\ (p < size K)%N, (c < size (fes (nth ""%string K p)))%N & b = (ords n (nth [::] (fes (nth ""%string K p)) c), J (nth ""%string K p))].
  case/flattenP=> l; case/(nthP [::]) => p; rewrite size_map => lp <-; rewrite (nth_map ""%string) // => /mapP[e ein ->].
  by exists p, (index e (fes (nth ""%string K p))); split=> //; rewrite ?index_mem ?nth_index.
have alr p c : (p < size K)%N -> (c < size (fes (nth ""%string K p)))%N -> all (fun i => i < n)%N (nth [::] (fes (nth ""%string K p)) c).
  by move=> lp lc; apply/allP=> i /(inR p c i lp lc) [].
split.
- by move=> b /bsP [p [c [_ _ ->]]]; apply/RltP; exact: exp_pos.
- by move=> b /bsP [p [c [lp lc ->]]] /=; rewrite size_ords ?alr //; case: (two p c lp lc).
- rewrite /disjoint_epochs.
  have -> : [seq b.1 | b <- bs] = flatten [seq [seq ords n e | e <- fes k] | k <- K].
    by rewrite /bs map_flatten -map_comp; congr flatten; apply: eq_map => k /=; rewrite -map_comp.
  have mem p x : (p < size K)%N -> x \in flatten [seq ords n e | e <- fes (nth ""%string K p)] ->
      exists2 c, (c < size (fes (nth ""%string K p)))%N & val x \in nth [::] (fes (nth ""%string K p)) c.
    move=> lp /flattenP[l /mapP[e ein ->]]; rewrite mem_ords => xe.
    by exists (index e (fes (nth ""%string K p))); rewrite ?index_mem ?nth_index.
  rewrite flatten2 -map_comp; apply: uniq_flatten => [p|p q x]; rewrite !size_map => lp.
    rewrite (nth_map ""%string) //=; apply: uniq_flatten => [c|c d x]; rewrite !size_map => lc.
      by rewrite (nth_map [::]) // uniq_ords //; case: (two p c lp lc).
    move=> ld; rewrite !(nth_map [::]) // !mem_ords => xc xd.
    by case: (same p c p d (val x) lp lc lp ld xc xd).
  move=> lq; rewrite !(nth_map ""%string) //= => /(mem p x lp) [c lc xc] /(mem q x lq) [d ld xd].
  by case: (same p c q d (val x) lp lc lq ld xc xd).
Qed.

(** * The noise with and without ECORR *)
Definition wrap n (tm : seq (nobj n)) (N : nobj n) : nobj n := if tm is [:: NMarg k M _] then NMarg M N else N.
Definition white_sum n (vs : seq 'cV[R]_n) : 'cV[R]_n := \sum_(v <- vs) v.
Lemma vplus_sum n (vs : seq 'cV[R]_n) v : foldl (@vplus n) (NVec v) vs = NVec (v + white_sum vs).
Proof.
rewrite /white_sum; elim: vs v => [|w vs IH] v /=; first by rewrite big_nil addr0.
by rewrite IH big_cons addrA.
Qed.
Lemma vplus_all n (vs : seq 'cV[R]_n) : vs <> [::] -> foldl (@vplus n) (NScal 0) vs = NVec (white_sum vs).
Proof. by case: vs => [//|v vs] _ /=; rewrite vplus_sum /white_sum big_cons. Qed.
Lemma white_pos n (vs : seq 'cV[R]_n) : vs <> [::] -> (forall v, v \in vs -> forall i, 0 < v i ord0) -> forall i, 0 < white_sum vs i ord0.
Proof.
move=> v0 P i; rewrite /white_sum; elim: vs v0 P => [//|v [|w vs] IH] _ P; first by rewrite big_seq1; apply: P; rewrite inE.
rewrite big_cons mxE addr_gt0 //; first by apply: P; rewrite inE eqxx.
by apply: IH => // u hu; apply: P; rewrite inE hu orbT.
Qed.

Definition timing_noise n (tm : seq (nobj n)) : Prop :=
  tm = [::] \/ exists k (M : 'M[R]_(n, k)), full_rank M /\ tm = [:: NMarg M (NScal 0)].

Lemma ndiag_value n (vs1 vs2 vs3 : seq 'cV[R]_n) tm (e : nobj n) F : (0 < n)%N ->
  (forall v, v \in vs1 ++ vs2 ++ vs3 -> posv v) -> vs1 ++ vs2 ++ vs3 <> [::] -> timing_noise tm -> ecorr_like e F ->
  get_ndiag ([seq NVec v | v <- vs1] ++ tm ++ [seq NVec v | v <- vs2 ++ vs3]) = Ok (wrap tm (NVec (white_sum (vs1 ++ vs2 ++ vs3)))) /\
  get_ndiag ([seq NVec v | v <- vs1] ++ tm ++ [seq NVec v | v <- vs2] ++ e :: [seq NVec v | v <- vs3]) = Ok (wrap tm (F (NVec (white_sum (vs1 ++ vs2 ++ vs3))))).
Proof.
move=> n0 P v0 Ht EF.
have P1 : forall v, v \in vs1 -> posv v by move=> v H; apply: P; rewrite mem_cat H.
have P2 : forall v, v \in vs2 -> posv v by move=> v H; apply: P; rewrite !mem_cat H orbT.
have P3 : forall v, v \in vs3 -> posv v by move=> v H; apply: P; rewrite !mem_cat H !orbT.
have F1 : flatv (NScal 0 : nobj n) by left.
rewrite -(vplus_all v0) !foldl_cat /get_ndiag -/(@stepf n) !foldl_cat !map_cat !foldl_cat.
rewrite (fold_frame (@frame_id n) F1 P1); set x1 := foldl (@vplus n) (NScal 0) vs1.
have Fx1 : flatv x1 by apply: flatv_fold.
set x2 := foldl (@vplus n) x1 vs2.
have Fx2 : flatv x2 by apply: flatv_fold.
case: Ht => [->|[k [M [_ ->]]]] /=.
  rewrite !(fold_frame (@frame_id n) Fx1 P2) -/x2 (fold_frame (@frame_id n) Fx2 P3); split=> //=.
  by have [-> fF] := add_ecorr n0 EF Fx2; rewrite (fold_frame fF Fx2 P3).
rewrite (add_marg n0 M Fx1) !(fold_frame (frame_marg M (@frame_id n)) Fx1 P2) -/x2.
rewrite (fold_frame (frame_marg M (@frame_id n)) Fx2 P3); split=> //=.
have [E fF] := add_ecorr n0 EF Fx2.
have Em := nadd_marg_ecorr M x2 EF; rewrite /= in Em; rewrite Em E /= (fold_frame (frame_marg M fF) Fx2 P3).
by [].
Qed.

Lemma ecorr_noise_value n meth (bs : seq (seq 'I_n * R)) (v : 'cV[R]_n) : (0 < n)%N -> (meth = BlockM -> bs <> [::]) ->
  (forall i, 0 < v i ord0) -> (forall b, b \in bs -> 0 < b.2) -> disjoint_epochs [seq b.1 | b <- bs] ->
  exists e F, ecorr_noise meth bs = Ok e /\ ecorr_like e F /\ proper_noise (F (NVec v)) /\ inner_cov (F (NVec v)) = Some (diag_cov v + ecorr_cov bs)
    /\ (meth <> BlockM -> if F (NVec v) is NBlk _ _ then False else True).
Proof.
move=> n0 bs0 v0 j0 D; case: meth bs0 => bs0.
- by exists (ecorr_sm bs), (NSM bs); split=> //; split; first by left; exists bs.
- exists (NSp (ecorr_cov bs)), (spf (ecorr_cov bs)); rewrite /= ecorr_sparseE //; split=> //; split; first by right; right; exists (ecorr_cov bs).
  rewrite addrC -diag_covE -smcovE; split=> //; exact: smcov_posdef.
- have N : ecorr_blocks bs <> [::] by case: (bs) (bs0 erefl).
  exists (NBlk (ecorr_blocks bs) (NScal 0)), (NBlk (ecorr_blocks bs)); rewrite /= /ecorr_block /= eqxx; split=> //; split.
    by right; left; exists (ecorr_blocks bs).
  rewrite block_cov_ecorr //; split=> //; split=> //; split=> //; split; first by rewrite ecorr_blocks_idx.
  split=> [b /mapP[c _ ->] /=|b bb _]; last exact: ecorr_block_posdef bb.
  by apply/matrixP=> i j; rewrite !mxE.
Qed.

(** * The pulsar of a collection *)
(** What the combination of the signals' columns needs, with proper priors. *)
Definition coll_ok n (hash : 'cV[R]_n -> nat) (sigs : seq (bsig n)) : Prop :=
  [/\ no_collision hash sigs, fixed_first sigs, no_repeats sigs, all (fun s => (0 < bk s)%N) sigs
    & forall s, List.In s sigs -> posdef (phi_mx (bphi s))].
Definition coll_cov n (sigs : seq (bsig n)) : 'M[R]_n := \sum_(s <- sigs) bF s *m phi_mx (bphi s) *m (bF s)^T.
Lemma coll_ncol_pos n (hash : 'cV[R]_n -> nat) (sigs : seq (bsig n)) : sigs <> [::] -> all (fun s => (0 < bk s)%N) sigs -> (0 < combine_ncol hash sigs)%N.
Proof.
move=> s0 pos; have sz : (0 < size sigs)%N by case: (sigs) s0.
have [_ [h1 h2]] := combine_layout_lem hash sigs.
have := h1 0%N sz; have := all_nthP (no_sig n) pos 0%N sz.
case e : (nth [::] (combine_idx hash sigs) 0) => [|c l] /= kp hk; first by rewrite -hk in kp.
have lc : (c < combine_ncol hash sigs)%N by apply/h2; exists 0%N; rewrite e mem_head.
exact: leq_ltn_trans lc.
Qed.
(** What the likelihood of a pulsar depends on. *)
Lemma coll_value n (hash : 'cV[R]_n -> nat) (N : nobj n) r sigs prior : coll_ok hash sigs ->
  exists k b (T : 'M[R]_(n, k)) phi, coll_pulsar hash N r sigs prior = Ok (Pulsar N r b T phi prior) /\
    (b -> k = combine_ncol hash sigs /\ sigs <> [::]) /\
    psr_cov (Pulsar N r b T phi prior) = cov_of N + coll_cov sigs /\ good_prior (Pulsar N r b T phi prior).
Proof.
case=> nc ff nr pos P; rewrite /coll_pulsar /coll_cov; case e: sigs => [|s l].
  by exists 0%N, false, 0, (PhiD 0); split=> //; split=> //; split=> //; rewrite /psr_cov /= big_nil addr0.
have s0 : (0 < size sigs)%N by rewrite e.
have [T [phi [eT [eP h]]]] := combine_covariance_lem nc ff nr pos s0.
have [phi' [eP' pd]] := combine_posdef_lem nc ff nr pos s0 P.
move: eP'; rewrite eP => -[pp]; subst phi'; rewrite -e eT eP /=.
exists (combine_ncol hash sigs), true, T, (kphi phi); split=> //; split=> [_|]; first by split=> //; rewrite e.
by split=> //; rewrite /psr_cov /= h.
Qed.

Lemma cov_of_wrap n tm (N : nobj n) : timing_noise tm -> (if N is NMarg _ _ _ then False else True) -> cov_of (wrap tm N) = cov_of N.
Proof. by case=> [->//|[k [M [_ ->]]]] /=; case: N. Qed.
Lemma wrap_good n tm (N : nobj n) : timing_noise tm -> proper_noise N -> good_noise (wrap tm N).
Proof.
by case=> [->|[k [M [fr ->]]]] pN /=; [case: (plain_noise pN)|split].
Qed.
Definition tm_term n (N : nobj n) (r : 'cV[R]_n) C (prior : R) : R :=
  density_tm r C (tm_M N) - 2%:R^-1 * ((tm_k N)%:R * ln (pow 10 40)) + prior.
Lemma tm_term_wrap n tm (N N' : nobj n) r C prior : timing_noise tm -> proper_noise N -> proper_noise N' ->
  tm_term (wrap tm N) r C prior = tm_term (wrap tm N') r C prior.
Proof.
case=> [->|[k [M [_ ->]]]] pN pN' //=.
have [_ e _] := plain_noise pN; have [_ e' _] := plain_noise pN'.
by rewrite /tm_term !density_tm0 // e e'.
Qed.
Lemma like_swap svd ps1 ps2 p q : psr_n p = psr_n q ->
  (forall x, List.In x (ps1 ++ ps2) -> good_noise (psr_N x) /\ good_shape x /\ good_prior x) ->
  (good_noise (psr_N p) /\ good_shape p /\ good_prior p) -> (good_noise (psr_N q) /\ good_shape q /\ good_prior q) ->
  tm_term (psr_N p) (psr_r p) (psr_cov p) (psr_prior p) = tm_term (psr_N q) (psr_r q) (psr_cov q) (psr_prior q) ->
  loglike svd (ps1 ++ p :: ps2) = loglike svd (ps1 ++ q :: ps2) /\ exists a, loglike svd (ps1 ++ p :: ps2) = Ok (Fin a).
Proof.
move=> _ H hp hq e.
have HH y : (good_noise (psr_N y) /\ good_shape y /\ good_prior y) ->
    forall x, List.In x (ps1 ++ y :: ps2) -> good_noise (psr_N x) /\ good_shape x /\ good_prior x.
  move=> hy x hx; case: (List.in_app_or _ _ _ hx) => [h|/= [<- //|h]]; apply: H; apply: List.in_or_app; by [left|right].
rewrite !likelihood_marginalised_lem; [|exact: HH|exact: HH].
split; last by eexists.
congr (Ok (Fin _)); rewrite !big_cat !big_cons /=; congr (_ + (_ + _)); exact: e.
Qed.

Lemma ecorr_same_likelihood_lem : forall svd argsort toas masks value meth (hash : 'cV[R]_(size toas) -> nat)
    (vs1 vs2 vs3 : seq 'cV[R]_(size toas)) tm r sigs1 sigs2 prior ps1 ps2 s bs e,
  ecorr_ok argsort toas masks -> (0 < size toas)%N ->
  ecorr_gp argsort (size toas) toas masks value = Ok s -> ecorr_kernel argsort (size toas) toas masks value = Ok bs ->
  ecorr_noise meth bs = Ok e -> bs <> [::] ->
  (forall v, v \in vs1 ++ vs2 ++ vs3 -> forall i, 0 < v i ord0) -> vs1 ++ vs2 ++ vs3 <> [::] -> timing_noise tm ->
  no_collision hash (sigs1 ++ s :: sigs2) -> fixed_first (sigs1 ++ s :: sigs2) -> coll_ok hash (sigs1 ++ sigs2) ->
  (meth = BlockM -> combine_ncol hash (sigs1 ++ sigs2) <> 1%N) ->
  (forall x, List.In x (ps1 ++ ps2) -> good_noise (psr_N x) /\ good_shape x /\ good_prior x) ->
  exists p q,
    rbind (get_ndiag ([seq NVec v | v <- vs1] ++ tm ++ [seq NVec v | v <- vs2 ++ vs3]))
      (fun N => coll_pulsar hash N r (sigs1 ++ s :: sigs2) prior) = Ok p /\
    rbind (get_ndiag ([seq NVec v | v <- vs1] ++ tm ++ [seq NVec v | v <- vs2] ++ e :: [seq NVec v | v <- vs3]))
      (fun N => coll_pulsar hash N r (sigs1 ++ sigs2) prior) = Ok q /\
    loglike svd (ps1 ++ p :: ps2) = loglike svd (ps1 ++ q :: ps2) /\
    exists a, loglike svd (ps1 ++ p :: ps2) = Ok (Fin a).
Proof.
move=> svd argsort toas masks value meth hash vs1 vs2 vs3 tm r sigs1 sigs2 prior ps1 ps2 s bs e ok n0 es ebs ee bs0 vp v0 Ht nc ff ck kB Hps.
have [bs' [s' [e1 [e2 [ecov [[sk sp spd su] [bp bl bd]]]]]]] := ecorr_same_covariance_lem value ok.
move: e1 e2; rewrite es ebs => -[?] [?]; subst bs' s'.
set v := white_sum (vs1 ++ vs2 ++ vs3).
have vpos : forall i, 0 < v i ord0 by exact: white_pos.
have [e' [F [ee' [EF [pF [cF nB]]]]]] := ecorr_noise_value (meth := meth) n0 (fun _ => bs0) vpos bp bd.
move: ee'; rewrite ee => -[?]; subst e'.
have [-> ->] := ndiag_value n0 vp v0 Ht EF; rewrite -/v /=.
have [nc2 _ nr2 pos2 P2] := ck.
have ck1 : coll_ok hash (sigs1 ++ s :: sigs2).
  split=> //.
  - by move: nr2; rewrite /no_repeats !all_cat /= su !orbT.
  - by move: pos2; rewrite !all_cat /= sk; case: (bs) bs0.
  - move=> t ht; case: (List.in_app_or _ _ _ ht) => [h|/= [<- //|h]]; apply: P2; apply: List.in_or_app; by [left|right].
have [k1 [b1 [T1 [phi1 [-> [h1 [c1 g1]]]]]]] := coll_value (wrap tm (NVec v)) r prior ck1.
have [k2 [b2 [T2 [phi2 [-> [h2 [c2 g2]]]]]]] := coll_value (wrap tm (F (NVec v))) r prior ck.
eexists; eexists; split; first by []; split; first by [].
have pV : proper_noise (NVec v) by [].
apply: like_swap => //.
- split; first exact: wrap_good.
  by split=> // _; case: Ht => [->|[k [M [_ ->]]]].
- split; first exact: wrap_good.
  split=> // hb; case: Ht => [->|[k [M [_ ->]]]] //=.
  case eF: (F (NVec v)) => // [x y]; have [-> s0] := h2 hb; have := coll_ncol_pos hash s0 pos2.
  have mB : meth = BlockM by move: nB; rewrite eF; case: (meth) => // /(_ _) [].
  by have := kB mB; lia.
rewrite c1 c2 /= (@tm_term_wrap _ tm (F (NVec v)) (NVec v)) //; congr tm_term.
rewrite !cov_of_wrap //; last by move: pF; case: (F (NVec v)).
have -> : cov_of (F (NVec v)) = diag_cov v + ecorr_cov bs.
  by have [_ _ h] := plain_noise pF; move: cF; rewrite h => -[->].
rewrite /coll_cov !big_cat big_cons /= ecov -[RHS]addrA; congr (_ + _); exact: addrCA.
Qed.

(** * Without any epoch *)
Section NoColumn.
Variables (n N : nat).
Local Notation stepT := (fun r (si : bsig n * seq nat) => rbind r (fun T : 'M[R]_(n, N) => assign_cols T (bF si.1) si.2)).
Lemma assign_err l e : foldl stepT (Err e) l = Err e.
Proof. by elim: l. Qed.
Lemma assign_nil (T : 'M[R]_(n, N)) (s : bsig n) : assign_cols T (bF s) [::] = Err IndexError.
Proof. by []. Qed.
Lemma fold_empty (sigs : seq (bsig n)) idxs p r0 T : size idxs = size sigs -> (p < size sigs)%N -> nth [::] idxs p = [::] ->
  foldl stepT r0 (zip sigs idxs) <> Ok T.
Proof.
elim: sigs idxs p r0 => [|s sigs IH] [|i idxs] [|p] r0 //= [sz] lt e.
  by rewrite e; case: r0 => [T0|x] /=; rewrite assign_err.
exact: IH sz lt e.
Qed.
End NoColumn.
Lemma empty_idx n (hash : 'cV[R]_n -> nat) (sigs1 sigs2 : seq (bsig n)) s : bk s = 0%N ->
  nth [::] (combine_idx hash (sigs1 ++ s :: sigs2)) (size sigs1) = [::].
Proof.
move=> k0; have [_ [h _]] := combine_layout_lem hash (sigs1 ++ s :: sigs2).
have := h (size sigs1); rewrite nth_cat ltnn subnn /= k0 => H; apply: size0nil; apply: H.
by rewrite size_cat /= addnS ltnS leq_addr.
Qed.
Lemma coll_no_column_lem : forall n (hash : 'cV[R]_n -> nat) (N : nobj n) r (sigs1 sigs2 : seq (bsig n)) s prior, bk s = 0%N ->
  (forall p, coll_pulsar hash N r (sigs1 ++ s :: sigs2) prior <> Ok p) /\ coll_pulsar hash N r (s :: sigs2) prior = Err IndexError.
Proof.
move=> n hash N r sigs1 sigs2 s prior k0.
have lt : (size sigs1 < size (sigs1 ++ s :: sigs2))%N by rewrite size_cat /= addnS ltnS leq_addr.
split=> [p|].
  rewrite /coll_pulsar coll_basisE; last exact: leq_ltn_trans lt.
  have [sz _] := combine_layout_lem hash (sigs1 ++ s :: sigs2).
  case eF: (foldl _ _ _) => [T|x] //=; case: (fold_empty sz lt (empty_idx hash sigs1 sigs2 k0) eF).
rewrite /coll_pulsar coll_basisE //.
have [sz _] := combine_layout_lem hash (s :: sigs2); have := empty_idx hash [::] sigs2 k0; rewrite /=.
by case: (combine_idx hash (s :: sigs2)) sz => [//|i l] _ /= ->; rewrite assign_err.
Qed.
Lemma ecorr_no_epochs_lem : forall svd argsort toas masks value meth (hash : 'cV[R]_(size toas) -> nat)
    (v r : 'cV[R]_(size toas)) sigs prior ps1 ps2 e,
  ecorr_ok argsort toas masks -> (0 < size toas)%N -> ecorr_kernel argsort (size toas) toas masks value = Ok [::] ->
  (forall i, 0 < v i ord0) -> coll_ok hash sigs -> meth <> BlockM -> ecorr_noise meth [::] = Ok e ->
  (forall x, List.In x (ps1 ++ ps2) -> good_noise (psr_N x) /\ good_shape x /\ good_prior x) ->
  (exists s, ecorr_gp argsort (size toas) toas masks value = Ok s /\
     forall N sigs1 sigs2, (forall p, coll_pulsar hash N r (sigs1 ++ s :: sigs2) prior <> Ok p) /\
       coll_pulsar hash N r (s :: sigs2) prior = Err IndexError) /\
  exists p q, coll_pulsar hash (NVec v) r sigs prior = Ok p /\
    rbind (get_ndiag [:: NVec v; e]) (fun N => coll_pulsar hash N r sigs prior) = Ok q /\
    loglike svd (ps1 ++ p :: ps2) = loglike svd (ps1 ++ q :: ps2) /\ exists a, loglike svd (ps1 ++ p :: ps2) = Ok (Fin a).
Proof.
move=> svd argsort toas masks value meth hash v r sigs prior ps1 ps2 e ok n0 ebs vp ck mB ee Hps.
split.
  have [bs' [s' [e1 [e2 [_ [[sk _ _ _] _]]]]]] := ecorr_same_covariance_lem value ok.
  move: e1; rewrite ebs => -[?]; subst bs'; exists s'; split=> // N sigs1 sigs2; exact: coll_no_column_lem.
have [e' [F [ee' [EF [pF [cF nB]]]]]] := @ecorr_noise_value _ meth [::] v n0 (fun h => match mB h with end) vp (fun b h => match Bool.diff_false_true h with end) isT.
move: ee'; rewrite ee => -[?]; subst e'.
have t0 : timing_noise ([::] : seq (nobj (size toas))) by left.
have vs : forall w, w \in [:: v] ++ [::] ++ [::] -> posv w by move=> w; rewrite inE => /eqP ->.
have vn : [:: v] ++ [::] ++ [::] <> [::] by [].
have [_ h] := ndiag_value n0 vs vn t0 EF; rewrite /= in h; rewrite h /= /white_sum big_seq1.
have [k1 [b1 [T1 [phi1 [-> [h1 [c1 g1]]]]]]] := coll_value (NVec v) r prior ck.
have [k2 [b2 [T2 [phi2 [-> [h2 [c2 g2]]]]]]] := coll_value (F (NVec v)) r prior ck.
eexists; eexists; split; first by []; split; first by [].
have pV : proper_noise (NVec v) by [].
apply: like_swap => //.
- by split; first exact: (wrap_good t0).
- split; first exact: (wrap_good t0).
  by split=> // hb /=; move: (nB mB); case: (F (NVec v)).
rewrite c1 c2 /= (@tm_term_wrap _ [::] (F (NVec v)) (NVec v)) //; congr tm_term.
have -> : cov_of (F (NVec v)) = diag_cov v + ecorr_cov [::].
  by have [_ _ h'] := plain_noise pF; move: cF; rewrite h' => -[->].
congr (_ + _); rewrite /cov_of /= -[LHS]addr0; congr (_ + _); apply/matrixP=> i j; by rewrite !mxE big_nil.
Qed.

(** * Runs *)
Definition ex_toas : seq R := [:: 5; 5; 5; 5; 5]%coqR.
Definition ex_masks : dict string mask :=
  [:: ("B"%string, [:: false; true; true; false; true]); ("A"%string, [:: true; false; false; true; false])].
Lemma ex_ecorr_ok : ecorr_ok argsort_ins ex_toas ex_masks.
Proof.
split; first exact: argsort_ins_ok.
split; first by constructor; [case=> // -[]|constructor; [case|constructor]].
split; first by move=> k m /=; repeat (case: string_dec => _ //=; first by case=> <-).
split=> [k [<-|[<-|[]]]|k k' i [m [h1 h2]] [m' [h1' h2']]].
- by exists 1%N, [:: false; true; true; false; true].
- by exists 0%N, [:: true; false; false; true; false].
simpl in *; repeat match goal with H : context [string_dec ?a ?b] |- _ => destruct (string_dec a b); subst end; try congruence;
  injection h1 as <-; injection h1' as <-; clear -h2 h2'; do 6 (destruct i as [|i]; simpl in *; try congruence).
Qed.
Lemma ex_one_ok (x : R) : ecorr_ok argsort_ins [:: x] [:: ("A"%string, [:: true])].
Proof.
split; first exact: argsort_ins_ok.
split; first by constructor; [case|constructor].
split; first by move=> k m /=; case: string_dec => _ //= [<-].
split=> [k [<-|[]]|k k' i [m [h1 h2]] [m' [h1' h2']]]; first by exists 0%N, [:: true].
by move: h1 h1' => /=; repeat (case: string_dec => [<-|_] //=).
Qed.
Lemma ex_one_kernel x value : ecorr_kernel argsort_ins 1 [:: x] [:: ("A"%string, [:: true])] value = Ok [::].
Proof.
have [bs [s [e1 [_ [_ [_ [_ h2 h3]]]]]]] := ecorr_same_covariance_lem value (ex_one_ok x); rewrite e1; congr Ok.
case: bs h2 h3 {e1} => [//|b bs] h2; rewrite /disjoint_epochs /= cat_uniq => /andP[u _].
by have := max_card (mem b.1); rewrite (card_uniqP u) card_ord => h; have := h2 b (mem_head _ _); rewrite ltnNge h.
Qed.

Definition ex_value (k : string) : R := if string_dec k "A"%string then (-7)%coqR else (-6)%coqR.
Definition ex_extra : bsig 5 := @BSig 5 2 (\matrix_(i, j) (i * j.+1)%:R) (PhiD (const_mx 1)) false false.
Lemma ex_extra_ncol (hash : 'cV[R]_5 -> nat) : combine_ncol hash [:: ex_extra] = 2%N.
Proof.
rewrite /combine_ncol /combine_idx /=.
have -> : enum 'I_2 = [:: ord0; lift ord0 ord0] by rewrite enum_ordSl; congr (_ :: _); rewrite enum_ordSl enum_ord0.
by [].
Qed.
Lemma ex_kernel : exists b bs, ecorr_kernel argsort_ins (size ex_toas) ex_toas ex_masks ex_value = Ok (b :: bs).
Proof.
do 2 eexists; rewrite /ecorr_kernel.
have -> : ecorr_idxs argsort_ins ex_toas ex_masks = Ok [:: ("A"%string, [:: [:: 0; 3]]); ("B"%string, [:: [:: 1; 2; 4]])]%N.
  unfold ecorr_idxs, sorted_keys. simpl. unfold ecorr_key, quant_matrix, buckets, argsort_ins, Rleb. simpl.
  rdec. unfold Rltb. rdec. reflexivity.
by rewrite /rmap /rbind /get_jvecs /sorted_keys /=.
Qed.
Lemma ex_same_lem : exists s b bs (hash : 'cV[R]_5 -> nat),
  ecorr_ok argsort_ins ex_toas ex_masks /\ ecorr_gp argsort_ins 5 ex_toas ex_masks ex_value = Ok s /\
  ecorr_kernel argsort_ins 5 ex_toas ex_masks ex_value = Ok (b :: bs) /\
  no_collision hash [:: s; ex_extra] /\ fixed_first [:: s; ex_extra] /\ coll_ok hash [:: ex_extra] /\
  combine_ncol hash [:: ex_extra] = 2%N.
Proof.
have [b [bs eb]] := ex_kernel.
have [bs' [s [e1 [e2 [_ [[_ sp _ _] _]]]]]] := ecorr_same_covariance_lem ex_value ex_ecorr_ok.
move: e1; rewrite eb => -[?]; subst bs'.
pose cs := flatten [seq columns t | t <- [:: s; ex_extra]]; pose hash x := index x cs.
have inj x y : x \in cs -> y \in cs -> hash x = hash y -> x = y by move=> hx hy e; rewrite -(nth_index 0 hx) -/(hash x) e nth_index.
exists s, b, bs, hash; split; first exact: ex_ecorr_ok.
split=> //; split=> //; split; first exact: inj.
split; first by rewrite /fixed_first /= sp.
split; last exact: ex_extra_ncol.
split=> //.
- by move=> x y hx hy; apply: inj; rewrite /cs /= mem_cat; apply/orP; right.
- by move=> t [<-|//]; rewrite /=; apply: diag_posdef => i; rewrite mxE ltr01.
Qed.
Lemma ecorr_same_refuted_lem : forall svd value, exists argsort toas masks (hash : 'cV[R]_(size toas) -> nat) (v r : 'cV[R]_(size toas)) s q a,
  ecorr_ok argsort toas masks /\ (0 < size toas)%N /\ (forall i, 0 < v i ord0) /\
  ecorr_gp argsort (size toas) toas masks value = Ok s /\ coll_pulsar hash (NVec v) r [:: s] 0 = Err IndexError /\
  rbind (ecorr_kernel argsort (size toas) toas masks value) (fun bs =>
  rbind (ecorr_noise ShermanMorrisonM bs) (fun e =>
  rbind (get_ndiag [:: NVec v; e]) (fun N => coll_pulsar hash N r [::] 0))) = Ok q /\
  loglike svd [:: q] = Ok (Fin a).
Proof.
move=> svd value; pose t := [:: 0 : R]; pose v : 'cV[R]_(size t) := const_mx 1; pose h (x : 'cV[R]_(size t)) := 0%N.
have ck : coll_ok h [::] by [].
have vp : forall i, 0 < v i ord0 by move=> i; rewrite mxE ltr01.
have mB : ShermanMorrisonM <> BlockM by [].
have ps0 : forall x, List.In x ([::] ++ [::]) -> good_noise (psr_N x) /\ good_shape x /\ good_prior x by [].
have [[s [es H]] [p [q [ep [eq [e1 [a ea]]]]]]] := @ecorr_no_epochs_lem svd argsort_ins t _ value ShermanMorrisonM h v v [::] 0 [::] [::] _ (ex_one_ok 0) isT (ex_one_kernel 0 value) vp ck mB erefl ps0.
exists argsort_ins, t, [:: ("A"%string, [:: true])], h, v, v, s, q, a; split; first exact: ex_one_ok.
split=> //; split=> //; split=> //; split; first by case: (H (NVec v) [::] [::]).
by rewrite (ex_one_kernel 0 value); split=> //; rewrite -ea; symmetry.
Qed.
