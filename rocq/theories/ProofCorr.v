(** Proofs about the likelihood of arrays with common signals. *)
From Coq Require Import Reals String.
From mathcomp Require Import all_ssreflect all_algebra.
From Verif Require Import RStruct PyBase ModelCache ModelLinalg ProofLinalg ModelNoise ProofNoise ModelLike ProofLike ModelKernel ProofKernel ModelPhi ProofPhi ModelColl ProofColl ProofCommons ModelEcorr ProofEcorr ModelArray ProofJoint ProofArray.
Set Implicit Arguments.
Unset Strict Implicit.
Unset Printing Implicit Defensive.
Import GRing.Theory Num.Theory Order.TTheory.
Local Open Scope seq_scope.
Local Open Scope ring_scope.

(** * The prior of a collection and one of its signals *)
Section Fold.
Variables (n N : nat) (TT : 'M[R]_(n, N)).
Notation step := (fun r (si : bsig n * seq nat) => rbind r (fun phi => kadd phi (bphi si.1) (KArr si.2))).
Lemma fold_ge l : forall K0 : kmat N, List.Forall (placed TT) l ->
  List.Forall (fun x : bsig n * seq nat => posdef (phi_mx (bphi x.1))) l ->
  exists K1, foldl step (Ok K0) l = Ok K1 /\ forall v, quad (phi_mx (kphi K0)) v <= quad (phi_mx (kphi K1)) v.
Proof.
elim: l => [|x l IH] K0 H HP; first by exists K0.
inversion_clear H as [|? ? Hx Hl]; inversion_clear HP as [|? ? Px Pl]; have [f [fi ex k0 hF]] := Hx.
have [r [er hr]] := kadd_mx K0 (bphi x.1) fi k0.
rewrite /= ex er; have [K1 [-> h1]] := IH r Hl Pl.
by exists K1; split=> // v; apply: le_trans (h1 v); rewrite hr quadD quad_congr ler_addl; exact: posdef_ge0.
Qed.
Lemma fold_split l1 l2 x (f : 'I_(bk x.1) -> 'I_N) : List.Forall (placed TT) (l1 ++ x :: l2) ->
  List.Forall (fun x : bsig n * seq nat => posdef (phi_mx (bphi x.1))) (l1 ++ x :: l2) ->
  injective f -> x.2 = at_pos f -> (0 < bk x.1)%N ->
  exists K1, foldl step (Ok (kzeros N)) (l1 ++ x :: l2) = Ok K1 /\ forall v, quad (phi_mx (bphi x.1)) (emx f *m v) <= quad (phi_mx (kphi K1)) v.
Proof.
move=> /List.Forall_app [H1 H] /List.Forall_app [P1 HP]; inversion_clear H as [|? ? Hx Hl]; inversion_clear HP as [|? ? Px Pl] => fi ex k0.
have [K1 [e1 h1]] := fold_ge (kzeros N) H1 P1; rewrite foldl_cat e1 /= ex.
have [r [er hr]] := kadd_mx K1 (bphi x.1) fi k0; rewrite er.
have [K2 [-> h2]] := fold_ge r Hl Pl; exists K2; split=> // v; apply: le_trans (h2 v).
rewrite hr quadD quad_congr ler_addr; apply: le_trans (h1 v).
by rewrite /= trmx0 linear0 /quad mulmx0 mul0mx mxE.
Qed.
(** Vector priors leave no cliques. *)
Lemma fold_vector l : forall K0 : kmat N, List.Forall (placed TT) l -> List.Forall (fun x : bsig n * seq nat => is_vector (bphi x.1)) l ->
  is_vector (kphi K0) -> (forall i, kcl K0 i = None) ->
  exists K1, foldl step (Ok K0) l = Ok K1 /\ is_vector (kphi K1) /\ forall i, kcl K1 i = None.
Proof.
elim: l => [|x l IH] K0 H HP v0 c0; first by exists K0.
inversion_clear H as [|? ? Hx Hl]; inversion_clear HP as [|? ? Px Pl]; have [f [fi ex k0 hF]] := Hx.
have [r [er hr]] := kadd_mx K0 (bphi x.1) fi k0.
have [vr cr] : is_vector (kphi r) /\ forall i, kcl r i = None.
  move: er v0 c0; rewrite /kadd /kput /kpromote; case: (bphi x.1) Px => [w _|] //; clear.
  by case: K0 => [[v|A] cl ct] //=; do 2?case: ifP => // _; move=> [<-].
rewrite /= ex er; exact: IH.
Qed.
End Fold.

Lemma in_mem (l : seq nat) i : List.In i l -> i \in l.
Proof. by elim: l => //= x l IH; rewrite inE => -[->|/IH ->]; rewrite ?eqxx ?orbT. Qed.
Lemma in_zip (A B : Type) (s : seq A) (t : seq B) (P : A -> Prop) : (forall x, List.In x s -> P x) -> List.Forall (fun x : A * B => P x.1) (zip s t).
Proof.
elim: s t => [|a l IH] [|b m] //= h; constructor=> /=; first by apply: h; left.
by apply: IH => x hx; apply: h; right.
Qed.
Lemma nth_split (A : Type) (x0 : A) s t : (t < size s)%N -> s = take t s ++ nth x0 s t :: drop t.+1 s.
Proof. by move=> lt; rewrite -{1}(cat_take_drop t s) (drop_nth x0). Qed.
Lemma forall_nth (A : Type) (x0 : A) (P : A -> Prop) s t : List.Forall P s -> (t < size s)%N -> P (nth x0 s t).
Proof. by move=> H; elim: H t => [//|x l px _ IH] [|k] //=; exact: IH. Qed.

(** The basis and the prior of a collection, with the place of its signal number [t] *)
Lemma coll_full n (hash : 'cV[R]_n -> nat) (sigs : seq (bsig n)) t s : coll_ok hash sigs -> (t < size sigs)%N -> nth (no_sig n) sigs t = s ->
  exists T K (f : 'I_(bk s) -> 'I_(combine_ncol hash sigs)),
  [/\ coll_basis hash sigs = Ok (Some T), coll_phi hash sigs = Ok (Some K), T *m phi_mx (kphi K) *m T^T = coll_cov sigs & posdef (phi_mx (kphi K))] /\
  [/\ injective f, nth [::] (combine_idx hash sigs) t = at_pos f, bF s = T *m (emx f)^T & forall v, quad (phi_mx (bphi s)) (emx f *m v) <= quad (phi_mx (kphi K)) v] /\
  ((forall s, List.In s sigs -> is_vector (bphi s)) -> is_vector (kphi K) /\ forall i, kcl K i = None).
Proof.
move=> [nc ff nr pos P] lt es; have s0 : (0 < size sigs)%N by exact: leq_ltn_trans lt.
have [TT pl] := placed_all nc ff nr pos.
have [T [eT hT]] := basis_fold 0 pl.
have [hl [cc [er ec]]] := run_idx hash sigs; have [sz _ cov _] := ProofKernel.layout er.
have TE : T = TT by apply/matrixP=> i c; rewrite hT -/unzip2 unzip2_zip ?sz // cov -ec ltn_ord.
have [T' [K' [eT' [eK' cv]]]] := combine_covariance_lem nc ff nr pos s0.
have eT2 : coll_basis hash sigs = Ok (Some T) by rewrite coll_basisE // eT.
move: eT'; rewrite eT2 => -[?]; subst T'.
have [K [eK pd]] := combine_posdef_lem nc ff nr pos s0 P.
move: eK'; rewrite eK => -[?]; subst K'.
have szz : size (zip sigs (combine_idx hash sigs)) = size sigs by rewrite size_zip sz minnn.
have ltz : (t < size (zip sigs (combine_idx hash sigs)))%N by rewrite szz.
have := forall_nth (no_sig n, [::]) pl ltz; rewrite nth_zip ?sz // es => -[f [fi ei k0 hF]].
have PP : List.Forall (fun x : bsig n * seq nat => posdef (phi_mx (bphi x.1))) (zip sigs (combine_idx hash sigs)) by exact: (@in_zip _ _ sigs (combine_idx hash sigs) (fun s : bsig n => posdef (phi_mx (bphi s)))).
exists T, K, f; split=> //; split.
  split=> //; first by rewrite TE; exact: (placed_F (x := (s, nth [::] (combine_idx hash sigs) t))).
  have ez := nth_split (no_sig n, [::]) ltz; rewrite nth_zip ?sz // es in ez.
  have := @fold_split n _ TT (take t (zip sigs (combine_idx hash sigs))) (drop t.+1 (zip sigs (combine_idx hash sigs))) (s, nth [::] (combine_idx hash sigs) t) f.
  rewrite -ez => /(_ pl PP fi ei k0) [K1 [e1 h1]].
  by move: eK; rewrite coll_phiE // e1 => -[<-].
move=> vec; have VV : List.Forall (fun x : bsig n * seq nat => is_vector (bphi x.1)) (zip sigs (combine_idx hash sigs)).
  exact: (@in_zip _ _ sigs (combine_idx hash sigs) (fun s : bsig n => is_vector (bphi s))).
have [|//|K1 [e1 [h1 h2]]] := fold_vector (K0 := kzeros _) pl VV; first by [].
by move: eK; rewrite coll_phiE // e1 => -[<-].
Qed.

(** * Pulsars with a common process *)
(** A pulsar, its number in the array, the number of the common process among its signals
    and the basis of this process *)
Record cpsr (K : nat) := CPsr { cp_q : psr_model; cp_i : nat; cp_j : nat; cp_F : 'M[R]_(v_n (pm cp_q), K) }.

Lemma pmap_at (A B : Type) (f : A -> option B) d l : forall j w s, List.nth_error l j = Some w -> f w = Some s ->
  (size (pmap f (take j l)) < size (pmap f l))%N /\ nth d (pmap f l) (size (pmap f (take j l))) = s.
Proof.
elim: l => [|x l IH] [|j] w s //=; first by move=> [->] ->.
by move=> e1 e2; case: (f x) => [y|] /=; exact: IH e1 e2.
Qed.
Lemma shape_at n (l : seq (view n)) : forall ii j w s, shape ii l -> List.nth_error l j = Some w -> w_basis w = Some s ->
  nth None ii j = Some (nth [::] (somes ii) (size (pmap (@w_basis n) (take j l)))).
Proof.
elim: l => [|x l IH] [|i ii] [|j] w s //= [] h e; rewrite /somes /= -/(somes ii).
  by move=> [ew] es; move: h; rewrite ew es; case: i.
by move=> e1 e2; rewrite (IH _ _ _ _ e e1 e2); case: i h => [i|]; case: (w_basis x).
Qed.

Section Corr.
Variables (hash : forall n, 'cV[R]_n -> nat) (K : nat) (orf : nat -> nat -> R) (phi : 'cV[R]_K).
Local Notation cpsr := (cpsr K).
Local Notation D := (diag_mx phi^T).
(** The process has the prior [phi], times the overlap of the pulsar with itself. *)
Definition has_common (x : cpsr) : Prop := exists w par comb,
  List.nth_error (v_sigs (pm (cp_q x))) (cp_j x) = Some w /\ w_basis w = Some (BSig (cp_F x) (PhiD (orf (cp_i x) (cp_i x) *: phi)) par comb).

Definition xn (x : cpsr) : nat := v_n (pm (cp_q x)).
Definition xk (x : cpsr) : nat := combine_ncol (@hash _) (processes (pm (cp_q x))).
Definition xT (x : cpsr) : 'M[R]_(xn x, xk x) := if coll_basis (@hash _) (processes (pm (cp_q x))) is Ok (Some T) then T else 0.
Definition xK (x : cpsr) : kmat (xk x) := if coll_phi (@hash _) (processes (pm (cp_q x))) is Ok (Some X) then X else kzeros _.
Definition xidx (x : cpsr) : seq nat := nth [::] (combine_idx (@hash _) (processes (pm (cp_q x)))) (size (pmap (@w_basis _) (take (cp_j x) (v_sigs (pm (cp_q x)))))).
Definition xS (x : cpsr) : 'M[R]_(K, xk x) := \matrix_(c, a) (nth 0%N (xidx x) c == a)%:R.
Lemma full x : has_common x -> good_psr hash (cp_q x) ->
  [/\ coll_basis (@hash _) (processes (pm (cp_q x))) = Ok (Some (xT x)), coll_phi (@hash _) (processes (pm (cp_q x))) = Ok (Some (xK x)),
      xT x *m phi_mx (kphi (xK x)) *m (xT x)^T = coll_cov (processes (pm (cp_q x))) & posdef (phi_mx (kphi (xK x)))] /\
  [/\ [/\ uniq (xidx x), size (xidx x) = K & all (fun c => c < xk x)%N (xidx x)], cp_F x = xT x *m (xS x)^T,
      (0 < K)%N & forall v, orf (cp_i x) (cp_i x) * quad D (xS x *m v) <= quad (phi_mx (kphi (xK x))) v] /\
  ((forall s, List.In s (processes (pm (cp_q x))) -> is_vector (bphi s)) -> is_vector (kphi (xK x)) /\ forall i, kcl (xK x) i = None).
Proof.
move=> [w [par [comb [e1 e2]]]] [_ _ cok _].
have [lt es] := pmap_at (no_sig _) e1 e2.
have [T [X [f [[eT eX cv pd] [[fi ei hF le] vec]]]]] := coll_full cok lt es.
have TE : xT x = T by rewrite /xT eT.
have XE : xK x = X by rewrite /xK eX.
have IE : xidx x = at_pos f by [].
have SE : xS x = emx f by apply/matrixP=> c a; rewrite !mxE IE nth_at_pos eq_sym; congr (_%:R); rewrite eq_sym.
rewrite TE XE SE; split=> //; split; last exact: vec.
split; first split.
- by rewrite IE map_inj_uniq ?enum_uniq // => a b /val_inj /fi.
- by rewrite IE size_map size_enum_ord.
- by rewrite IE; apply/allP=> c /mapP [a _ ->]; exact: ltn_ord.
- exact: hF.
- by case: cok => _ _ _ pos _; have := all_nth (no_sig _) pos lt; rewrite es.
- move=> v; apply: le_trans (le v); rewrite /= !linearZ /= /quad -scalemxAr -scalemxAl [X in _ <= X]mxE; exact: lexx.
Qed.

(** ** Sizes *)
Lemma cast_block a m m' (e : m = m') (e1 : (a + m = a + m')%N) (A : 'M[R]_a) (X : 'M[R]_m) :
  castmx (e1, e1) (block_mx A 0 0 X) = block_mx A 0 0 (castmx (e, e) X).
Proof. by case: m' / e e1 => e1; rewrite !castmx_id. Qed.
Lemma cast_rect a b m m' n n' (e : m = m') (f : n = n') (e1 : (a + m = a + m')%N) (f1 : (b + n = b + n')%N) (A : 'M[R]_(a, b)) (X : 'M[R]_(m, n)) :
  castmx (e1, f1) (block_mx A 0 0 X) = block_mx A 0 0 (castmx (e, f) X).
Proof. by case: m' / e e1 => e1; case: n' / f f1 => f1; rewrite !castmx_id. Qed.
Lemma cast_col a m m' (e : m = m') (e1 : (a + m = a + m')%N) (u : 'cV[R]_a) (x : 'cV[R]_m) :
  castmx (e1, erefl) (col_mx u x) = col_mx u (castmx (e, erefl) x).
Proof. by case: m' / e e1 => e1; rewrite !castmx_id. Qed.
Section Map.
Variables (T : Type) (h : T -> pulsar).
Lemma tot_map f l : tot f [seq h x | x <- l] = gtot (fun x => f (h x)) l.
Proof. by elim: l => //= x l ->. Qed.
Lemma bdiag_map f g (A : forall p, 'M[R]_(f p, g p)) l : castmx (tot_map f l, tot_map g l) (bdiag A [seq h x | x <- l]) = gbdiag (fun x => A (h x)) l.
Proof.
elim: l => [|x l IH]; first by rewrite /= castmx_id.
by rewrite /= (cast_rect (tot_map f l) (tot_map g l)) IH.
Qed.
Lemma stack_map f (u : forall p, 'cV[R]_(f p)) l : castmx (tot_map f l, erefl) (stack u [seq h x | x <- l]) = gstack (fun x => u (h x)) l.
Proof.
elim: l => [|x l IH]; first by rewrite /= castmx_id.
by rewrite /= (cast_col (tot_map f l)) IH.
Qed.
Lemma density_cast n n' m m' (e : n = n') (f : m = m') (r : 'cV[R]_n) C (M : 'M[R]_(n, m)) :
  density_tm (castmx (e, erefl) r) (castmx (e, e) C) (castmx (e, f) M) = density_tm r C M.
Proof. by case: n' / e; case: m' / f; rewrite !castmx_id. Qed.
Lemma cov_cast n n' m m' (e : n = n') (f : m = m') C (A : 'M[R]_(n, m)) P :
  castmx (e, e) (C + A *m P *m A^T) = castmx (e, e) C + castmx (e, f) A *m castmx (f, f) P *m (castmx (e, f) A)^T.
Proof. by case: n' / e; case: m' / f; rewrite !castmx_id. Qed.
(** The log density of the pulsars, over the list they come from *)
Lemma density_map l (Phi : 'M[R]_(tot_k [seq h x | x <- l])) (G : 'M[R]_(gtot (fun x => psr_k (h x)) l)) :
  castmx (tot_map psr_k l, tot_map psr_k l) Phi = G ->
  density_tm (all_r [seq h x | x <- l]) (all_C [seq h x | x <- l] + all_T [seq h x | x <- l] *m Phi *m (all_T [seq h x | x <- l])^T) (all_M [seq h x | x <- l]) =
  density_tm (gstack (fun x => psr_r (h x)) l) (gbdiag (fun x => cov_of (psr_N (h x))) l + gbdiag (fun x => psr_T (h x)) l *m G *m (gbdiag (fun x => psr_T (h x)) l)^T)
    (gbdiag (fun x => tm_M (psr_N (h x))) l).
Proof.
move=> <-; rewrite -stack_map -(bdiag_map (fun p => cov_of (psr_N p))) -(bdiag_map psr_T) -(bdiag_map (fun p => tm_M (psr_N p))) -cov_cast density_cast.
by [].
Qed.
End Map.

(** ** The rest of the likelihood for one matrix *)
Lemma z_block_same ps os : forall (e : sumn [seq psr_k p | p <- ps] = tot_k ps), z_block [seq psr_k p | p <- ps] os = rmap (castmx (esym e, esym e)) (block_TNT ps os).
Proof.
elim: ps os => [|P ps IH] os e; first by rewrite /= castmx_id.
case: os => [|[o|] os] //=; case: (out_mx _ _) => [A|] //=.
have e' : sumn [seq psr_k p | p <- ps] = tot_k ps by apply/eqP; have /eqP := e; rewrite /= eqn_add2l.
rewrite (IH os e'); case: (block_TNT ps os) => [B|] //=; congr Ok.
by rewrite (cast_block (esym e') (esym e)).
Qed.
Lemma z_concat_same ps os : forall (e : sumn [seq psr_k p | p <- ps] = tot_k ps), z_concat [seq psr_k p | p <- ps] os = rmap (castmx (esym e, erefl)) (concat_TNr ps os).
Proof.
elim: ps os => [|P ps IH] os e; first by rewrite /= castmx_id.
case: os => [|[o|] os] //=; case: (out_vec _ _ _) => [A|] //=.
have e' : sumn [seq psr_k p | p <- ps] = tot_k ps by apply/eqP; have /eqP := e; rewrite /= eqn_add2l.
rewrite (IH os e'); case: (concat_TNr ps os) => [B|] //=; congr Ok.
by rewrite (cast_col (esym e') (esym e)).
Qed.
Lemma finish_cast n m (e : n = m) (A P : 'M[R]_m) (b : 'cV[R]_m) (P' : 'M[R]_n) ll ld : castmx (e, e) P' = P ->
  (if chol (castmx (esym e, esym e) A + P') is Some U
   then Fin (ll + 2%:R^-1 * (dot (castmx (esym e, erefl) b) (cho_solve U (castmx (esym e, erefl) b)) - cho_logdet U - ld)) else NegInf) =
  (if chol (A + P) is Some U then Fin (ll + 2%:R^-1 * (dot b (cho_solve U b) - cho_logdet U - ld)) else NegInf).
Proof. by case: m / e A P b => A P b <-; rewrite !castmx_id. Qed.
Lemma finish_big ps TNrs TNTs rr ks (P : 'M[R]_(sumn ks)) ld (e : sumn ks = tot_k ps) : ks = [seq psr_k p | p <- ps] ->
  rmapM psr_TNr ps = Ok TNrs -> rmapM psr_TNT ps = Ok TNTs -> rmapM psr_rNr ps = Ok rr ->
  z_finish TNrs TNTs (QBig P ld) rr [seq ModelLike.psr_prior p | p <- ps] = loglike_correlated (castmx (e, e) P) ld.
Proof.
move=> ek; case: _ / (esym ek) P e => P e e1 e2 e3.
rewrite /loglike_correlated /pieces !mapR_rmapM e1 e2 e3 /= (z_block_same TNTs e) (z_concat_same TNrs e).
case: (block_TNT ps TNTs) => [A|] //=; case: (concat_TNr ps TNrs) => [b|] //=; congr Ok.
by rewrite -(finish_cast A b _ _ (erefl (castmx (e, e) P))) !big_map.
Qed.

(** ** The prior of the array *)
Definition xphi (x : cpsr) : option phz := Some (existT kmat (xk x) (xK x)).
Definition xphis (xs : seq cpsr) : phis_t := [seq xphi x | x <- xs].
Lemma xphis_size xs : psize (xphis xs) = gtot xk xs.
Proof. by elim: xs => //= x xs IH; rewrite /psize /= -/(psize _) IH. Qed.
Lemma block_map xs : castmx (xphis_size xs, xphis_size xs) (block_diag phi_mx (xphis xs)) = gbdiag (fun x => phi_mx (kphi (xK x))) xs.
Proof.
elim: xs => [|x xs IH]; first by rewrite /= castmx_id.
by rewrite /= (cast_block (xphis_size xs)) IH.
Qed.
Lemma gplace_entry x0 xs : List.Forall (fun x => [/\ uniq (xidx x), size (xidx x) = K & all (fun c => c < xk x)%N (xidx x)]) xs ->
  forall i (r : 'I_(gtot xk xs)) (c : 'I_K), (i < size xs)%N ->
  gplace xS xs i r c = ((first_row (xphis xs) i + nth 0%N (xidx (nth x0 xs i)) c)%N == r :> nat)%:R.
Proof.
elim: xs => [|x xs IH] H [|i] r c //= lt; inversion H as [|? ? [un sz al] Hl]; subst.
  rewrite first_row0 add0n mxE; case: (@splitP (xk x) _ r) => a ->; first by rewrite !mxE.
  rewrite mxE; case: eqP => // e; have := all_nthP 0%N al c; rewrite sz => /(_ (ltn_ord c)).
  by rewrite e ltnNge leq_addr.
rewrite mxE first_cons /=; case: (@splitP (xk x) _ r) => a ->; last by rewrite IH // -addnA eqn_add2l.
by rewrite mxE; case: eqP => // e; have := ltn_ord a; rewrite -e -addnA ltnNge leq_addr.
Qed.
Lemma mem_pairs o m i j : (i, j) \in pairs (iota o m) -> [/\ (o <= i)%N, (i < j)%N & (j < o + m)%N].
Proof.
elim: m o => //= m IH o; rewrite mem_cat => /orP[/mapP [y]|/IH [h1 h2 h3]].
  by rewrite mem_iota => /andP[h1 h2] [-> ->]; rewrite addnS; split.
by rewrite addnS -addSn; split=> //; exact: ltnW.
Qed.

Definition xmem (x : cpsr) : member nat := @Member nat (cp_i x) (xidx x) K (PhiD phi) (cp_i x).
Section Class.
Variables (xs : seq cpsr) (orf' : nat -> nat -> R).
Hypothesis num : [seq cp_i x | x <- xs] = iota 0 (size xs).
Hypothesis placed_ok : List.Forall (fun x => [/\ uniq (xidx x), size (xidx x) = K & all (fun c => c < xk x)%N (xidx x)]) xs.
Hypothesis orfE : forall i j, (i < j)%N -> (j < size xs)%N -> orf' i j = orf i j.
Hypothesis two : (1 < size xs)%N.
Local Notation c := (CsClass orf' [seq xmem x | x <- xs]).
Lemma num_nth x0 i : (i < size xs)%N -> cp_i (nth x0 xs i) = i.
Proof. by move=> lt; have := congr1 (fun s => nth 0%N s i) num; rewrite (nth_map x0) // nth_iota. Qed.
Lemma xmem_nth x0 : [seq xmem x | x <- xs] = [seq xmem (nth x0 xs i) | i <- iota 0 (size xs)].
Proof. by rewrite -{1}(mkseq_nth x0 xs) /mkseq -map_comp. Qed.
Lemma class_good : good_class (xphis xs) c.
Proof.
split=> /=; first by rewrite size_map.
- by rewrite -map_comp -[[seq _ | _ <- _]]/[seq cp_i x | x <- xs] num iota_uniq.
- have x0 : cpsr by case: xs two.
  have H : forall i, (i < size xs)%N -> good_member (xphis xs) (xmem (nth x0 xs i)).
    move=> i lt; have [un sz al] := forall_nth x0 placed_ok lt; split=> //=; rewrite (num_nth _ lt); first by rewrite size_map.
    by rewrite (nth_map x0).
  rewrite (xmem_nth x0); apply/List.Forall_map/List.Forall_forall => i /in_mem; rewrite mem_iota => /H; exact.
- by exists K; apply/List.Forall_map; elim: (xs) => [|x l IH]; constructor.
Qed.
Lemma class_phi : exists Phi cc, ModelPhi.get_phi (xphis xs) [:: c] = Ok (Phi, cc) /\
  castmx (xphis_size xs, xphis_size xs) Phi =
  gjoint (fun x => phi_mx (kphi (xK x))) (fun x y => orf (cp_i x) (cp_i y) *: ((xS x)^T *m D *m xS y)) xs.
Proof.
have x0 : cpsr by case: xs two.
have [Phi [cc [e1 [_ h]]]] := get_phiE (List.Forall_cons _ class_good (List.Forall_nil _)).
exists Phi, cc; split=> //.
have sD : sym D by rewrite /sym tr_diag_mx.
have := place_joint xS orf sD (o := 0%N) num; rewrite -[gjoint _ _ _]/(gjoint (fun x => 0) (fun x y => orf (cp_i x) (cp_i y) *: ((xS x)^T *m D *m xS y)) xs) => pj.
rewrite (@eq_gjoint _ _ _ _ (fun x => phi_mx (kphi (xK x)) + 0) (fun x y => 0 + orf (cp_i x) (cp_i y) *: ((xS x)^T *m D *m xS y))); first last.
- by move=> x y _ _; rewrite add0r.
- by move=> x _; rewrite addr0.
rewrite -gjointD -gbdiag_joint -block_map -pj.
apply/matrixP=> i j; rewrite castmxE h [RHS]mxE castmxE; congr (_ + _).
rewrite big_seq1 /class_terms /= (xmem_nth x0) pairs_map big_map summxE.
apply: eq_big_seq => -[a b] /mem_pairs [_ ab lb]; have la := ltn_trans ab lb.
rewrite add0n in lb la *; rewrite /cross_terms /= /rows /= !num_nth // orfE // add0n mxE; congr (_ * _).
rewrite [RHS]mxE; under eq_bigr => u _ do under eq_bigr => v _ do rewrite mulrDr.
under eq_bigr do rewrite big_split /=.
rewrite big_split /=.
have H : forall a b, (a < size xs)%N -> (b < size xs)%N ->
    \sum_(u < K) \sum_(v < K) D u v * ((nth 0%N [seq (first_row (xphis xs) a + x)%N | x <- xidx (nth x0 xs a)] u == i) && (nth 0%N [seq (first_row (xphis xs) b + x)%N | x <- xidx (nth x0 xs b)] v == j))%:R
    = (gplace xS xs a *m D *m (gplace xS xs b)^T) i j.
  move=> {ab la lb}a {}b la lb; have [_ sa _] := forall_nth x0 placed_ok la; have [_ sb _] := forall_nth x0 placed_ok lb.
  rewrite [RHS]mxE; under [RHS]eq_bigr => v _ do rewrite mxE mulr_suml.
  rewrite exchange_big /=; apply: eq_bigr => u _; apply: eq_bigr => v _.
  rewrite !mxE !(gplace_entry x0 placed_ok) // !(nth_map 0%N) ?sa ?sb //.
  by case: (_ == i :> nat); case: (_ == j :> nat); rewrite ?mulr1 ?mulr0 ?mul1r ?mul0r ?mulr1 ?mulr0.
by congr (_ + _); apply: H.
Qed.
End Class.

(** ** Positivity *)
Lemma gquad (T : Type) (f : T -> nat) (A : forall x, 'M[R]_(f x)) x l (v : 'cV[R]_(f x + gtot f l)) :
  quad (gbdiag A (x :: l)) v = quad (A x) (usubmx v) + quad (gbdiag A l) (dsubmx v).
Proof.
by rewrite -{1}[v]vsubmxK /= -[X in block_mx _ _ X _]trmx0 quad_block mulmx0 mul0mx mxE mul0rn add0r.
Qed.
Lemma gquad_ge0 (T : Type) (f : T -> nat) (A : forall x, 'M[R]_(f x)) l : (forall x, List.In x l -> forall v, 0 <= quad (A x) v) -> forall v, 0 <= quad (gbdiag A l) v.
Proof.
elim: l => [|x l IH] h v; first by rewrite /quad /= mulmx0 mul0mx mxE.
by rewrite gquad addr_ge0 //; [apply: h; left|apply: IH => y hy; apply: h; right].
Qed.
Lemma gposdef (T : Type) (f : T -> nat) (A : forall x, 'M[R]_(f x)) l : (forall x, List.In x l -> posdef (A x)) -> posdef (gbdiag A l).
Proof.
elim: l => [|x l IH] h; first by split=> [|v]; [rewrite /sym trmx0|rewrite [v]flatmx0 eqxx].
have [s1 p1] := h x (or_introl erefl); have [s2 p2] : posdef (gbdiag A l) by apply: IH => y hy; apply: h; right.
split; first by rewrite /sym /= tr_block_mx !trmx0 s1 s2.
move=> v nv; rewrite gquad; case: (altP (usubmx v =P 0)) => [e|/p1 h1].
  have n2 : dsubmx v != 0 by apply: contra nv => /eqP e2; rewrite -[v]vsubmxK e e2 col_mx0.
  by rewrite e {1}/quad mulmx0 mxE add0r p2.
apply: ltr_paddr => //; case: (altP (dsubmx v =P 0)) => [->|/p2 /ltW //]; by rewrite /quad mulmx0 mxE.
Qed.
Lemma gbdiag_tr (T : Type) (f g : T -> nat) (A : forall x, 'M[R]_(f x, g x)) l : (gbdiag A l)^T = gbdiag (fun x => (A x)^T) l.
Proof. by elim: l => [|x l IH] /=; rewrite ?trmx0 // tr_block_mx !trmx0 IH. Qed.
Lemma gbdiag_mul (T : Type) (f g h : T -> nat) (A : forall x, 'M[R]_(f x, g x)) (B : forall x, 'M[R]_(g x, h x)) l : gbdiag A l *m gbdiag B l = gbdiag (fun x => A x *m B x) l.
Proof. by elim: l => [|x l IH] /=; rewrite ?mulmx0 // mulmx_block !mulmx0 !mul0mx !addr0 !add0r IH. Qed.
Lemma gbdiagB (T : Type) (f g : T -> nat) (A B : forall x, 'M[R]_(f x, g x)) l : gbdiag (fun x => A x - B x) l = gbdiag A l - gbdiag B l.
Proof. by elim: l => [|x l IH] /=; rewrite ?subr0 // opp_block_mx add_block_mx !subr0 IH. Qed.
Lemma quadB n (A B : 'M[R]_n) x : quad (A - B) x = quad A x - quad B x.
Proof. by rewrite quadD; congr (_ + _); rewrite /quad mulmxN mulNmx mxE. Qed.
Lemma joint_posdef xs : [seq cp_i x | x <- xs] = iota 0 (size xs) -> posdef (\matrix_(i < size xs, j < size xs) orf i j) -> (forall k, 0 < phi k ord0) ->
  (forall x, List.In x xs -> posdef (phi_mx (kphi (xK x))) /\ forall v, orf (cp_i x) (cp_i x) * quad D (xS x *m v) <= quad (phi_mx (kphi (xK x))) v) ->
  posdef (gjoint (fun x => phi_mx (kphi (xK x))) (fun x y => orf (cp_i x) (cp_i y) *: ((xS x)^T *m D *m xS y)) xs).
Proof.
move=> num pG pp H; have pk := kron_posdef (o := 0%N) num pG pp.
pose E x := (xS x)^T *m (orf (cp_i x) (cp_i x) *: D) *m xS x.
have sD : sym D by rewrite /sym tr_diag_mx.
have EE x v : quad (E x) v = orf (cp_i x) (cp_i x) * quad D (xS x *m v).
  by rewrite /E quad_congr /quad -scalemxAr -scalemxAl [LHS]mxE.
set G := gjoint _ _ _; set W := gbdiag xS xs.
have eG : G = gbdiag (fun x => phi_mx (kphi (xK x)) - E x) xs + W^T *m gkron (@cp_i K) orf phi xs *m W.
  rewrite /W -{2}[gbdiag xS xs]trmxK gbdiag_tr gjoint_mul gbdiag_joint gjointD; apply: eq_gjoint => [x _|x y _ _].
    by rewrite trmxK subrK.
  by rewrite trmxK add0r -scalemxAr -scalemxAl.
have qW v : quad (W^T *m gkron (@cp_i K) orf phi xs *m W) v = quad (gkron (@cp_i K) orf phi xs) (W *m v).
  exact: quad_congr.
have ge v : 0 <= quad (gbdiag (fun x => phi_mx (kphi (xK x)) - E x) xs) v.
  by apply: gquad_ge0 => x hx w; rewrite quadB EE subr_ge0; case: (H x hx).
split; first by apply: gjoint_sym => x /H [[]].
move=> v nv; rewrite eG quadD qW; case: (altP (W *m v =P 0)) => [e|/(proj2 pk) h]; last exact: ltr_paddl.
have -> : gbdiag (fun x => phi_mx (kphi (xK x)) - E x) xs = gbdiag (fun x => phi_mx (kphi (xK x))) xs - W^T *m gbdiag (fun x => orf (cp_i x) (cp_i x) *: D) xs *m W.
  by rewrite /W gbdiag_tr !gbdiag_mul gbdiagB.
rewrite quadB quad_congr e [quad _ 0]/quad mulmx0 mxE subr0 [quad _ 0]/quad mulmx0 mxE addr0.
by have [_] : posdef (gbdiag (fun x => phi_mx (kphi (xK x))) xs) by [apply: gposdef => x /H []]; exact.
Qed.

(** ** The terms of the class *)
Lemma pairs_ofE (T : Type) (l : seq T) : pairs_of l = pairs l.
Proof. by elim: l => //= x l ->. Qed.
Lemma pairs_in o m i j : (o <= i)%N -> (i < j)%N -> (j < o + m)%N -> (i, j) \in pairs (iota o m).
Proof.
elim: m o => [|m IH] o oi ij jm /=; first by move: (leq_ltn_trans oi (ltn_trans ij jm)); rewrite addn0 ltnn.
rewrite mem_cat; case: (ltngtP o i) oi => // [lt|e] _; last first.
  by subst i; apply/orP; left; apply/mapP; exists j => //; rewrite mem_iota ij addSn -addnS.
by apply/orP; right; apply: IH => //; rewrite addSn -addnS.
Qed.
Section Terms.
Variables (xs : seq cpsr) (ls : seq (ModelColl.layout fz (seq nat))).
Hypothesis num : [seq cp_i x | x <- xs] = iota 0 (size xs).
Hypothesis two : (1 < size xs)%N.
Hypothesis cols : forall x0 i, (i < size xs)%N -> nth None (nth ([::], None) ls i).1 (cp_j (nth x0 xs i)) = Some (xidx (nth x0 xs i)).
Definition xpri : pz := existT phi_t K (PhiD phi).
Definition xterms : seq cz := [seq Cz (orf ij.1 ij.2) xpri | ij <- pairs (iota 0 (size xs))].
Definition xplaces : seq (nat * nat) := [seq (cp_i x, cp_j x) | x <- xs].
Lemma pair_termsE i j : (i < j)%N -> (j < size xs)%N -> pair_terms xplaces xterms i j = Some (Cz (orf i j) xpri).
Proof.
move=> ij lj; have h : (i, j) \in pairs (iota 0 (size xs)) by apply: pairs_in.
rewrite /pair_terms size_map pairs_ofE /xterms size_map index_mem h; congr Some.
by rewrite (nth_map (0, 0)%N) ?index_mem // nth_index.
Qed.
Lemma pair_termsN i : (size xs <= i)%N -> forall j, pair_terms xplaces xterms j i = None.
Proof.
move=> h j; rewrite /pair_terms size_map pairs_ofE /xterms size_map index_mem; case: ifP => // /mem_pairs [_ _].
by rewrite add0n ltnNge h.
Qed.
Lemma zip_self (B : Type) (f : nat -> B) l : zip l [seq f i | i <- l] = [seq (i, f i) | i <- l].
Proof. by elim: l => //= i l ->. Qed.
Lemma xplaces_nth x0 : xplaces = [seq (i, cp_j (nth x0 xs i)) | i <- iota 0 (size xs)].
Proof.
rewrite /xplaces -{1}(mkseq_nth x0 xs) /mkseq -map_comp; apply/eq_in_map => i; rewrite mem_iota add0n /= => li.
by rewrite num_nth.
Qed.
Lemma class_zE : class_z ls xplaces xterms = CsClass (cs_orf (class_z ls xplaces xterms)) [seq xmem x | x <- xs].
Proof.
have x0 : cpsr by case: xs two.
rewrite {1}/class_z; congr CsClass; rewrite (xmem_nth xs x0) size_map [X in zip _ X](xplaces_nth x0) zip_self -map_comp.
apply/eq_in_map => i; rewrite mem_iota add0n /= => li.
rewrite cols // /xmem num_nth //; case: (ltnP i.+1 (size xs)) => h; first by rewrite pair_termsE.
rewrite pair_termsN //; rewrite pair_termsE //.
by case: i li h => // _; rewrite leqNgt two.
Qed.
Lemma class_orf i j : (i < j)%N -> (j < size xs)%N -> cs_orf (class_z ls xplaces xterms) i j = orf i j.
Proof. by move=> ij lj; rewrite /= pair_termsE. Qed.
End Terms.

(** ** The likelihood *)
Definition joint_term (xs : seq cpsr) : R :=
  density_tm (gstack (fun x => v_res (pm (cp_q x)) - delay_sum (pm (cp_q x))) xs)
    (gjoint (fun x => cov_of (pm_N (cp_q x)) + coll_cov (processes (pm (cp_q x)))) (fun x y => orf (cp_i x) (cp_i y) *: (cp_F x *m D *m (cp_F y)^T)) xs)
    (gbdiag (fun x => tm_M (pm_N (cp_q x))) xs)
  - 2%:R^-1 * ((\sum_(x <- xs) tm_k (pm_N (cp_q x)))%:R * ln (pow 10 40)) + \sum_(x <- xs) prior_sum (pm (cp_q x)).
Definition real (x : cpsr) : pulsar :=
  Pulsar (pm_N (cp_q x)) (v_res (pm (cp_q x)) - delay_sum (pm (cp_q x))) true (xT x) (kphi (xK x)) (prior_sum (pm (cp_q x))).

Variables (svd : forall k, 'M[R]_k -> 'M[R]_k * 'cV[R]_k) (St : Type) (cross : nat -> St -> St -> params R -> result cz).
Notation op := (z_ops hash svd cross).
Notation model := (model St nz dz fz pz).
Variable dom : params R -> Prop.
Hypothesis dom_nil : dom [::].
Variable p : params R.
Hypothesis dp : dom p.
Variable v_cross : nat -> nat * nat -> nat * nat -> params R -> result cz.
Variable k0 : nat.
(** The common process is the one signal of its pulsar that has a class. *)
Definition one_common (c : model) (x : cpsr) : Prop := forall j m, List.nth_error (c_sigs (fst c)) j = Some m -> s_class m = if Nat.eqb j (cp_j x) then Some k0 else None.

Lemma cast_same n m (e e' : n = m) (A : 'M[R]_n) : castmx (e, e) A = castmx (e', e') A.
Proof. by rewrite (eq_irrelevance e e'). Qed.
Lemma inv_cast n m (e : n = m) (A : 'M[R]_n) : castmx (e, e) (invmx A) = invmx (castmx (e, e) A).
Proof. by case: m / e; rewrite !castmx_id. Qed.
Lemma det_cast n m (e : n = m) (A : 'M[R]_n) : \det (castmx (e, e) A) = \det A.
Proof. by case: m / e; rewrite !castmx_id. Qed.
Lemma posdef_cast n m (e : n = m) (A : 'M[R]_n) : posdef (castmx (e, e) A) -> posdef A.
Proof. by case: m / e; rewrite !castmx_id. Qed.

Lemma real_made x : good_psr hash (cp_q x) -> has_common x ->
  coll_pulsar (@hash _) (pm_N (cp_q x)) (v_res (pm (cp_q x)) - delay_sum (pm (cp_q x))) (processes (pm (cp_q x))) (prior_sum (pm (cp_q x))) = Ok (real x).
Proof. by move=> g h; have [[e1 e2 _ _] _] := full h g; rewrite /coll_pulsar e1 /= e2. Qed.
Lemma real_parts (c : model) x : sound_coll dom c -> psr_seen p c (pm (cp_q x)) -> good_psr hash (cp_q x) -> has_common x ->
  [/\ v_TNr op c p = psr_TNr (real x), v_TNT op c p = psr_TNT (real x), v_rNr op c p = psr_rNr (real x), v_prior c p = Ok (prior_sum (pm (cp_q x)))
    & v_phi op c p = Ok (xphi x)] /\
  exists l, v_layout op c = Ok l /\ snd l <> None /\ nth None l.1 (cp_j x) = Some (xidx x).
Proof.
move=> ok S g h; have [eN gN cok sh] := g; have ne := noises_pos eN gN.
have [[e1 e2 _ _] _] := full h g.
have [h1 h2 h3 h4 _] := psr_parts svd cross dom_nil dp S ok eN ne (real_made g h).
split; first by split=> //; rewrite (psr_phiE hash svd cross dom_nil dp S ok) e2.
have [ii [el [ei esh]]] := psr_layout hash svd cross dom_nil dp S ok.
exists (ii, if processes (pm (cp_q x)) is [::] then None else Some (Fz (0 : 'M[R]_(xn x, xk x)))); split=> //.
have [w [par [comb [ew eb]]]] := h; split=> /=.
  have [lt _] := pmap_at (no_sig _) ew eb; have {lt} : (0 < size (processes (pm (cp_q x))))%N := leq_ltn_trans (leq0n _) lt.
  by case: (processes _).
by rewrite (shape_at esh ew eb) ei.
Qed.
Lemma real_good x : good_psr hash (cp_q x) -> has_common x -> [/\ good_noise (psr_N (real x)), good_shape (real x) & psr_hasT (real x)].
Proof.
move=> g h; have [eN gN cok sh] := g; split=> // _; rewrite /=; case: (pm_N (cp_q x)) sh => // ? ? sh.
have [[_ _ _ _] [[[un sz al] _ K0 _] _]] := full h g.
have : (0 < xk x)%N by case: (xidx x) sz al => [e|c l _ /andP[/(leq_ltn_trans (leq0n _))]] //; move: K0; rewrite -e.
by move: sh; rewrite /xk; case: (combine_ncol _ _) => [|[|?]].
Qed.
Lemma corr_value (a : seq model) xs method : List.Forall (sound_coll dom) a ->
  List.Forall2 (fun c x => [/\ psr_seen p c (pm (cp_q x)), good_psr hash (cp_q x), has_common x & one_common c x]) a xs ->
  [seq cp_i x | x <- xs] = iota 0 (size xs) -> (1 < size xs)%N ->
  (forall x y, List.In x xs -> List.In y xs -> (cp_i x < cp_i y)%N -> v_cross k0 (cp_i x, cp_j x) (cp_i y, cp_j y) p = Ok (Cz (orf (cp_i x) (cp_i y)) xpri)) ->
  posdef (\matrix_(i < size xs, j < size xs) orf i j) -> (forall k, 0 < phi k ord0) ->
  known_method method -> method = "sparse"%string \/ (forall x s, List.In x xs -> List.In s (processes (pm (cp_q x))) -> is_vector (bphi s)) ->
  v_like op v_cross a method p = Ok (Fin (joint_term xs)).
Proof.
move=> ok S num two cr pG pp km meth.
have x0 : cpsr by case: (xs) two.
have F : forall x, List.In x xs -> good_psr hash (cp_q x) /\ has_common x.
  by elim: S => //= c x a' xs' [_ g h _] _ IH y [<-|/IH].
have PT : List.Forall2 (fun c x => [/\ v_TNr op c p = psr_TNr (real x), v_TNT op c p = psr_TNT (real x), v_rNr op c p = psr_rNr (real x), v_prior c p = Ok (prior_sum (pm (cp_q x)))
    & v_phi op c p = Ok (xphi x)] /\
  exists l, v_layout op c = Ok l /\ snd l <> None /\ nth None l.1 (cp_j x) = Some (xidx x)) a xs.
  elim: S ok {num two cr pG meth F} => // c x a' xs' [h1 h2 h3 h4] _ IH ok; inversion ok; subst; constructor; last exact: IH.
  exact: real_parts.
have [ls [el [sl [hl cols]]]] : exists ls, rmapM (v_layout op) a = Ok ls /\ size ls = size xs /\ List.Forall (fun l : ModelColl.layout fz (seq nat) => snd l <> None) ls /\
    forall i, (i < size xs)%N -> nth None (nth ([::], None) ls i).1 (cp_j (nth x0 xs i)) = Some (xidx (nth x0 xs i)).
  elim: PT => [|c x a' xs' [_ [l [e1 [e2 e3]]]] _ [ls [h1 [h2 [h3 h4]]]]]; first by exists [::].
  exists (l :: ls); rewrite /= e1 /= h1; split=> //; split; first by rewrite h2.
  by split; [constructor|case].
have ep : rmapM (fun c => v_phi op c p) a = Ok (xphis xs) by apply: rmapM_seen; elim: PT => //= c x a' xs' [[]] *; constructor.
have sza : size a = size xs by elim: S => //= *; congr _.+1.
have ec : commons_of (List.map fst a) ls = [:: (k0, xplaces xs)].
  have e1 : List.combine (List.seq 0 (List.length (List.map fst a))) [seq cp_j x | x <- xs] = xplaces xs.
    rewrite List.map_length -[List.length a]/(size a) sza; move: num; rewrite /xplaces; move: 0%N.
    by elim: (xs) => //= x l IH o [-> /IH ->].
  have sm : List.length (List.map fst a) = size xs by rewrite List.map_length.
  have h2 : (1 < List.length (List.map fst a))%coq_nat by rewrite sm; apply/ssrnat.ltP.
  have h3 : List.length ls = List.length (List.map fst a) by rewrite sm.
  suff h4 : List.Forall2 (fun (c : coll St nz dz fz pz) t => (forall j m, List.nth_error (c_sigs c) j = Some m -> s_class m = if Nat.eqb j t then Some k0 else None) /\ (t < List.length (c_sigs c))%coq_nat)
      (List.map fst a) [seq cp_j x | x <- xs] by rewrite (commons_one _ _ _ _ _ _ _ _ _ _ h3 h4 hl h2) e1.
  elim: S => //= c x a' xs' [[_ hs] _ [w [par [comb [ew _]]]] h1] _ IH; constructor=> //; split; first exact: h1.
  have -> : List.length (c_sigs (fst c)) = List.length (v_sigs (pm (cp_q x))) by elim: hs => //= *; congr _.+1.
  by apply/List.nth_error_Some; rewrite ew.
have et : rmapM (fun kp : nat * ((nat * nat) * (nat * nat)) => v_cross kp.1 kp.2.1 kp.2.2 p) [seq (k0, ij) | ij <- pairs_of (xplaces xs)] = Ok (xterms xs).
  rewrite pairs_ofE (xplaces_nth num x0) pairs_map -map_comp /xterms.
  have : forall ij, ij \in pairs (iota 0 (size xs)) -> (ij.1 < ij.2)%N && (ij.2 < size xs)%N.
    by move=> [i j] /mem_pairs [_ h1 h2]; rewrite h1.
  elim: (pairs _) => //= -[i j] l IH h; have /= /andP[ij lj] := h (i, j) (mem_head _ _).
  rewrite IH; last by move=> ij' hi; apply: h; rewrite inE hi orbT.
  have := cr (nth x0 xs i) (nth x0 xs j) (nth_InP _ (ltn_trans ij lj)) (nth_InP _ lj).
  by rewrite !(num_nth num) // ?(ltn_trans ij lj) // => ->.
rewrite /v_like (rmapM_same (g := psr_TNr) (l' := [seq real x | x <- xs])); last first.
  by elim: PT => //= c x a' xs' [[]] *; constructor.
rewrite [X in rbind _ (fun _ => rbind X _)](rmapM_same (g := psr_TNT) (l' := [seq real x | x <- xs])); last first.
  by elim: PT => //= c x a' xs' [[]] *; constructor.
have -> : rmapM (fun c => v_rNr op c p) a = rmapM psr_rNr [seq real x | x <- xs].
  by apply: rmapM_same; elim: PT => //= c x a' xs' [[]] *; constructor.
have -> : rmapM (fun c => v_prior c p) a = Ok [seq ModelLike.psr_prior P | P <- [seq real x | x <- xs]].
  by apply: rmapM_seen; elim: PT => //= c x a' xs' [[]] *; constructor.
have gd : forall P, List.In P [seq real x | x <- xs] -> good_noise (psr_N P) /\ good_shape P /\ psr_hasT P.
  by move=> P /List.in_map_iff [x [<- /F [g h]]]; have [] := real_good g h.
have pl : List.Forall (fun x => [/\ uniq (xidx x), size (xidx x) = K & all (fun c => c < xk x)%N (xidx x)]) xs.
  by apply/List.Forall_forall => x /F [g h]; have [_ [[] ]] := full h g.
have [Phi [cc [ePhi eG]]] := class_phi num pl (fun i j h1 h2 => class_orf ls h1 h2) two.
have pPhi : posdef Phi.
  apply: (posdef_cast (e := xphis_size xs)); rewrite eG; apply: joint_posdef => // x /F [g h].
  by have [[_ _ _ ?] [[_ _ _ ?] _]] := full h g.
have eI : ModelPhi.get_phiinv (xphis xs) svd (classes_z ls [:: (k0, xplaces xs)] (xterms xs)) method = Ok (invmx Phi, ln (\det Phi)).
  have -> : classes_z ls [:: (k0, xplaces xs)] (xterms xs) = [:: CsClass (cs_orf (class_z ls (xplaces xs) (xterms xs))) [seq xmem x | x <- xs]].
    have tk : take (size (pairs_of (xplaces xs))) (xterms xs) = xterms xs.
      by rewrite take_oversize // pairs_ofE (xplaces_nth num x0) pairs_map /xterms !size_map.
    have cols' y i : (i < size xs)%N -> nth None (nth ([::], None) ls i).1 (cp_j (nth y xs i)) = Some (xidx (nth y xs i)).
      by move=> li; rewrite (set_nth_default x0) // cols.
    by rewrite /classes_z tk {1}(class_zE num two cols').
  case: meth => [->|vec]; first exact: (sparse_inverse_lem svd ePhi pPhi).
  have V : forall i x, nth None (xphis xs) i = Some x -> is_vector (kphi (projT2 x)) /\ forall a, kcl (projT2 x) a = None.
    move=> i x; case: (ltnP i (size xs)) => li; last by rewrite nth_default // size_map.
    rewrite (nth_map x0) // => -[<-]; have hx := nth_InP x0 li; have [g h] := F _ hx; have [_ [_ hv]] := full h g.
    by apply: hv => s hs; exact: vec hx hs.
  apply: (methods_agree_lem _ (class_good _ num pl two) _ _ _ _ ePhi pPhi).
  - by move=> m /List.in_map_iff [x [<- _]].
  - move=> i x a0 b0 /V [h _] ab; case: (kphi (projT2 x)) h => // v _; by rewrite phi_mxD (negbTE ab) eqxx.
  - by move=> m x a0 _ /V [_ h] _.
  - by move=> i x a0 c0 /V [_ ->].
  - by move: km => /or3P[] /String.eqb_eq ->; [left|right; left|right; right].
rewrite /v_phiinv ep el /= ec /= List.app_nil_r et /= /z_invert km /= eI /=.
pose ps := [seq real x | x <- xs]; rewrite -/ps.
have ek : [seq psz o | o <- xphis xs] = [seq psr_k P | P <- ps] by rewrite /xphis /ps -!map_comp.
have e : sumn [seq psz o | o <- xphis xs] = tot_k ps by rewrite ek; elim: (ps) => //= P l ->.
have pPhi' : posdef (castmx (e, e) Phi) by apply: (posdef_cast (e := esym e)); rewrite castmx_comp castmx_id.
have eL := correlated_marginalised_lem gd pPhi'; rewrite -inv_cast det_cast in eL.
have [TNrs [TNTs [rr [eT [eTT er]]]]] : exists TNrs TNTs rr, rmapM psr_TNr ps = Ok TNrs /\ rmapM psr_TNT ps = Ok TNTs /\ rmapM psr_rNr ps = Ok rr.
  move: eL; rewrite /loglike_correlated /pieces !mapR_rmapM -/ps.
  case: (rmapM _ ps) => [TNrs|] //=; case: (rmapM _ ps) => [TNTs|] //=; case: (rmapM _ ps) => [rr|] //= _.
  by exists TNrs, TNTs, rr.
transitivity (z_finish TNrs TNTs (@QBig [seq psz o | o <- xphis xs] (invmx Phi) (ln (\det Phi))) rr [seq ModelLike.psr_prior P | P <- ps]).
  by rewrite eT eTT er.
rewrite (finish_big _ _ e ek eT eTT er) eL; congr (Ok (Fin _)).
rewrite (density_map (T := cpsr) (h := real) (G := gjoint (fun x => phi_mx (kphi (xK x))) (fun x y => orf (cp_i x) (cp_i y) *: ((xS x)^T *m D *m xS y)) xs)); last first.
  by rewrite castmx_comp -eG; exact: cast_same.
rewrite /joint_term !big_map; congr (_ - _ + _).
congr (density_tm _ _ _); rewrite gjoint_mul [gbdiag _ _]gbdiag_joint gjointD; apply: eq_gjoint => [x /F [g h]|x y /F [g h] /F [g' h']].
  by have [[_ _ -> _] _] := full h g.
have [_ [[_ -> _ _] _]] := full h g; have [_ [[_ -> _ _] _]] := full h' g'.
by rewrite add0r -scalemxAr -scalemxAl trmx_mul trmxK !mulmxA.
Qed.
End Corr.
