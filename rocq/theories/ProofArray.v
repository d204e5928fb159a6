(** Proofs about the likelihood of arrays of signals. *)
From Coq Require Import Reals String.
From mathcomp Require Import all_ssreflect all_algebra.
From Verif Require Import RStruct PyBase ModelCache ModelLinalg ProofLinalg ModelNoise ProofNoise ModelLike ProofLike ModelKernel ProofKernel ModelPhi ModelColl ProofColl ProofCommons ModelEcorr ProofEcorr ModelArray.
Set Implicit Arguments.
Unset Strict Implicit.
Unset Printing Implicit Defensive.
Import GRing.Theory Num.Theory Order.TTheory.
Local Open Scope seq_scope.
Local Open Scope ring_scope.
Arguments v_over {St N D F I P A} f l a.
Arguments v_layout {St N D F I P Ph C X Y Q L LS} op c.
Arguments v_basis {St N D F I P Ph C X Y Q L LS} op c p.
Arguments v_phi {St N D F I P Ph C X Y Q L LS} op c p.
Arguments v_ndiag {St N D F I P Ph C X Y Q L LS} op c p.
Arguments v_delay {St N D F I P Ph C X Y Q L LS} op c p.
Arguments v_detres {St N D F I P Ph C X Y Q L LS} op c p.
Arguments v_TNr {St N D F I P Ph C X Y Q L LS} op c p.
Arguments v_TNT {St N D F I P Ph C X Y Q L LS} op c p.
Arguments v_rNr {St N D F I P Ph C X Y Q L LS} op c p.
Arguments v_prior {St N D F P} c p.
Arguments v_phiinv {St N D F I P Ph C X Y Q L LS} op v_cross a method p.
Arguments v_like {St N D F I P Ph C X Y Q L LS} op v_cross a method p.

(** * Specification *)
(** What a signal adds to the model of a pulsar with [n] TOAs: noise, a delay (if any, the
    number zero or an array), a Gaussian process, and the log prior of its coefficients *)
Record view (n : nat) := View { w_noise : option (nobj n); w_delay : option (option 'cV[R]_n); w_basis : option (bsig n); w_prior : R }.
(** A pulsar: its residuals and signals *)
Record psr_view := PsrView { v_n : nat; v_res : 'cV[R]_v_n; v_sigs : seq (view v_n) }.
Definition dz_of n (d : option 'cV[R]_n) : dz := if d is Some v then DzVec v else DzZero.
Definition noises (v : psr_view) : seq (nobj (v_n v)) := pmap (@w_noise _) (v_sigs v).
Definition processes (v : psr_view) : seq (bsig (v_n v)) := pmap (@w_basis _) (v_sigs v).
Definition delay_sum (v : psr_view) : 'cV[R]_(v_n v) := \sum_(w <- v_sigs v) (if w_delay w is Some (Some d) then d else 0).
Definition prior_sum (v : psr_view) : R := \sum_(w <- v_sigs v) w_prior w.

Section Seen.
Variable St : Type.
Notation sg := (sg St nz dz fz pz).
Notation beh := (beh St nz dz fz pz).
Notation model := (model St nz dz fz pz).
(** The right answers of a signal for the parameters [p] are those of the view. The basis
    without parameters has as many rows and columns. *)
Definition seen n (p : params R) (m : sg) (b : beh) (w : view n) : Prop :=
  [/\ b_ndiag b p = Ok (omap (existT nobj n) (w_noise w)), b_delay b p = Ok (omap (@dz_of n) (w_delay w)), b_prior b p = Ok (w_prior w)
    & if w_basis w is Some s then
        [/\ b_basis b p = Ok (Some (Fz (bF s))), b_phi b p = Ok (existT phi_t (bk s) (bphi s)),
            exists F0 : 'M[R]_(n, bk s), b_basis b [::] = Ok (Some (Fz F0)),
            bpar s = (if s_bp m is [::] then false else true) & bcomb s = s_combine m]
      else b_basis b [::] = Ok None].
Inductive all_seen n (p : params R) : list sg -> list beh -> seq (view n) -> Prop :=
| seen_nil : all_seen p [::] [::] [::]
| seen_cons m b w ms bs ws : seen p m b w -> all_seen p ms bs ws -> all_seen p (m :: ms) (b :: bs) (w :: ws).
Definition psr_seen (p : params R) (c : model) (v : psr_view) : Prop :=
  c_res (fst c) = DzVec (v_res v) /\ all_seen p (c_sigs (fst c)) (snd c) (v_sigs v).
(** No two signals of an array are instances of the same common signal. *)
Definition no_pairs (a : seq model) : Prop :=
  forall ij ij' m m' b b' k, beh_at a ij = Some (m, b) -> beh_at a ij' = Some (m', b') ->
    s_class m = Some k -> s_class m' = Some k -> ij = ij'.
End Seen.

(** * Sizes *)
Lemma resize_same (T : nat -> Type) n (x : T n) : resize n x = Ok x.
Proof. by rewrite /resize; case: eqP => // e; rewrite (eq_irrelevance e erefl). Qed.
Lemma rmapM_resize n (l : seq (nobj n)) : rmapM (fun x : nz => resize n (projT2 x)) [seq existT nobj n x | x <- l] = Ok l.
Proof. by elim: l => //= x l ->; rewrite resize_same. Qed.
Lemma nz_sum_same n (l : seq (nobj n)) : l <> [::] -> nz_sum [seq existT nobj n x | x <- l] = rmap (existT nobj n) (ModelNoise.get_ndiag l).
Proof.
case: l => // x l _; rewrite /nz_sum /=.
by have := rmapM_resize (x :: l); rewrite /= => ->.
Qed.
Lemma somes_omap A B (f : A -> B) C (g : C -> option A) (l : seq C) : somes [seq omap f (g x) | x <- l] = [seq f x | x <- pmap g l].
Proof. by elim: l => //= x l IH; rewrite /somes /= -/(somes _) IH; case: (g x). Qed.

Lemma rmapM_seen A B (f : A -> result B) (l : seq A) (r : seq B) : List.Forall2 (fun x y => f x = Ok y) l r -> rmapM f l = Ok r.
Proof. by elim=> //= x y l' r' -> _ ->. Qed.
Lemma sum_left (l : seq R) : List.fold_left Rplus l 0%R = (\sum_(x <- l) x)%R.
Proof.
suff H : forall (a : R), List.fold_left Rplus l a = (a + \sum_(x <- l) x)%R by rewrite H add0r.
by elim: l => [|x l IH] a; rewrite ?big_nil ?addr0 // big_cons /= IH addrA.
Qed.

Definition fz_mx n k (F : fz) : 'M[R]_(n, k) :=
  match fz_n F =P n, fz_k F =P k with
  | ReflectT e, ReflectT e' => castmx (e, e') (fz_A F)
  | _, _ => 0
  end.
Lemma fz_mxE n k (A : 'M[R]_(n, k)) : fz_mx n k (Fz A) = A.
Proof. by rewrite /fz_mx /=; case: eqP => // e; case: eqP => // e'; rewrite castmx_id. Qed.
Lemma fz_inj n k (A B : 'M[R]_(n, k)) : Ok (Some (Fz A)) = Ok (Some (Fz B)) -> A = B.
Proof.
move=> e; have := congr1 (fun r => if r is Ok (Some F) then fz_mx n k F else 0) e.
by rewrite !fz_mxE.
Qed.

Section Psr.
Variables (hash : forall n, 'cV[R]_n -> nat) (svd : forall k, 'M[R]_k -> 'M[R]_k * 'cV[R]_k).
Variables (St : Type) (cross : nat -> St -> St -> params R -> result cz).
Notation op := (z_ops hash svd cross).
Notation sg := (sg St nz dz fz pz).
Notation beh := (beh St nz dz fz pz).
Notation model := (model St nz dz fz pz).
Variable dom : params R -> Prop.
Hypothesis dom_nil : dom [::].
Variable p : params R.
Hypothesis dp : dom p.

Section One.
Variables (n : nat) (ms : list sg) (bs : list beh) (ws : seq (view n)).
Hypothesis S : all_seen p ms bs ws.
Hypothesis ok : List.Forall2 (sound dom) ms bs.

Lemma get_F2 (B : Type) (f : beh -> result B) (g : view n -> B) : (forall m b w, seen p m b w -> f b = Ok (g w)) -> rmapM f bs = Ok [seq g w | w <- ws].
Proof. by move=> H; apply: rmapM_seen; elim: S => //= m b w ms' bs' ws' s _ IH; constructor=> //; exact: H s. Qed.

Lemma one_noise : pmap (@w_noise n) ws <> [::] ->
  rbind (rmapM (fun b => b_ndiag b p) bs) (fun l => nz_sum (somes l)) = rmap (existT nobj n) (ModelNoise.get_ndiag (pmap (@w_noise n) ws)).
Proof.
move=> ne; rewrite (get_F2 (g := fun w => omap (existT nobj n) (w_noise w))) /=; last by move=> m b w [].
by rewrite somes_omap nz_sum_same.
Qed.
Definition dsum (l : seq (view n)) : 'cV[R]_n := \sum_(w <- l) (if w_delay w is Some (Some d) then d else 0).
Lemma one_delay : exists d, rbind (rmapM (fun b => b_delay b p) bs) (fun l => dz_sum (somes l)) = Ok d /\
  forall r : 'cV[R]_n, dz_minus (DzVec r) d = Ok (DzVec (r - dsum ws)).
Proof.
rewrite (get_F2 (g := fun w => omap (@dz_of n) (w_delay w))) /=; last by move=> m b w [].
rewrite somes_omap /dz_sum.
have H : forall l (a : option 'cV[R]_n), exists d, foldl (fun acc x => rbind acc (fun a => dz_add a x)) (Ok (dz_of a)) [seq dz_of x | x <- pmap (@w_delay n) l] = Ok (@dz_of n d) /\
    (if d is Some d then d else 0) = (if a is Some a then a else 0) + dsum l.
  elim=> [|w l IH] a; first by exists a; rewrite /dsum big_nil addr0.
  rewrite /dsum big_cons -/(dsum l) /=; case ew: (w_delay w) => [x|] /=; last by have [d [e h]] := IH a; exists d; rewrite add0r.
  case: a x ew => [a|] [x|] ew /=; rewrite ?resize_same /=.
  - by have [d [e h]] := IH (Some (a + x)); exists d; split=> //; rewrite h addrA.
  - by have [d [e h]] := IH (Some a); exists d; split=> //; rewrite h add0r.
  - by have [d [e h]] := IH (Some x); exists d; split=> //; rewrite h add0r.
  - by have [d [e h]] := IH None; exists d; split=> //; rewrite h !add0r.
have [d [e h]] := H ws None; exists (dz_of d); split; first exact: e.
by move=> r; rewrite add0r in h; case: d h {e} => [d|] /= <-; rewrite ?resize_same ?subr0.
Qed.
Lemma one_prior : rmap (fun l => List.fold_left Rplus l 0%R) (rmapM (fun b => b_prior b p) bs) = Ok (\sum_(w <- ws) w_prior w)%R.
Proof.
rewrite (get_F2 (g := @w_prior n)) /=; last by move=> m b w [].
by rewrite sum_left big_map.
Qed.

(** The column layout *)
Definition shape (ii : seq (option (seq nat))) (l : seq (view n)) : Prop := [seq isSome i | i <- ii] = [seq isSome (w_basis w) | w <- l].
Lemma lay_loopE : exists fs, rmapM (fun b => b_basis b [::]) bs = Ok fs /\
  forall n0 hl cc ix ids, exists hl' cc' ii,
    lay_loop op (List.combine ms fs) (n0, (hl, cc), ix) =
      ((if pmap (@w_basis n) ws is [::] then n0 else n, (hl', cc'), ix ++ flatten (somes ii)), ii) /\
    foldl (sig_step (hash (n := n))) (hl, cc, ids) (pmap (@w_basis n) ws) = (hl', cc', ids ++ somes ii) /\ shape ii ws.
Proof.
elim: S ok => [|m b w ms' bs' ws' s _ IH] o.
  by exists [::]; split=> // n0 hl cc ix ids; exists hl, cc, [::]; rewrite /= !cats0.
inversion o as [|m0 b0 ms0 bs0 o1 o2]; subst; have [fs [ef IHs]] := IH o2.
case: s => _ _ _; case ew: (w_basis w) => [s|] /=; last first.
  move=> eb; exists (None :: fs); rewrite eb /= ef; split=> // n0 hl cc ix ids.
  have [hl' [cc' [ii [e1 [e2 e3]]]]] := IHs n0 hl cc ix ids; exists hl', cc', (None :: ii); rewrite /= e1 ew /=; split=> //; split=> //.
  by rewrite /shape /= ew e3.
case=> eb _ [F0 eF] ep ec; exists (Some (Fz F0) :: fs); rewrite eF /= ef; split=> // n0 hl cc ix ids.
have eF0 : bpar s = false -> F0 = bF s.
  move=> hp; have : b_basis b p = b_basis b [::].
    apply: (dep_basis _ _ _ _ _ _ _ _ o1) => // x; case: (s_bp m) ep => [|? ?]; last by rewrite hp.
    by case: (s_type m).
  by rewrite eb eF => /fz_inj.
rewrite -ep -ec ew /=; case ep': (bpar s) => /=.
  have [hl' [cc' [ii [e1 [e2 e3]]]]] := IHs n hl (cc + bk s)%N (ix ++ iota cc (bk s)) (rcons ids (iota cc (bk s))).
  exists hl', cc', (Some (iota cc (bk s)) :: ii); rewrite e1 e2 -cats1 -!catA; split; first by case: (pmap _ _).
  by split=> //; rewrite /shape /= ew e3.
rewrite (eF0 ep'); case: (foldl _ _ _) => [[hl1 cc1] idx1].
have [hl' [cc' [ii [e1 [e2 e3]]]]] := IHs n hl1 cc1 (ix ++ idx1) (rcons ids idx1).
exists hl', cc', (Some idx1 :: ii); rewrite e1 e2 -cats1 -!catA; split; first by case: (pmap _ _).
by split=> //; rewrite /shape /= ew e3.
Qed.
Lemma one_layout : exists fs ii, rmapM (fun b => b_basis b [::]) bs = Ok fs /\
  ModelColl.columns op (List.combine ms fs) = (ii, if pmap (@w_basis n) ws is [::] then None else Some (Fz (0 : 'M[R]_(n, combine_ncol (hash (n := n)) (pmap (@w_basis n) ws))))) /\
  somes ii = combine_idx (hash (n := n)) (pmap (@w_basis n) ws) /\ shape ii ws.
Proof.
have [fs [ef H]] := lay_loopE; have [hl [cc [ii [e1 [e2 e3]]]]] := H 0%N [::] 0%N [::] [::].
exists fs, ii; split=> //; rewrite /ModelColl.columns /= e1 /combine_ncol /combine_idx e2 /= /lz_end /=; split=> //.
have ez : size (somes ii) = size (pmap (@w_basis n) ws).
  elim: (ws) (ii) e3 => [|w l IH] [|i ii'] //= [] h /IH; rewrite /somes /= -/(somes ii') => e.
  by case: i h => [i|]; case: (w_basis w) => //= ?; rewrite e.
by case: (somes ii) (pmap (@w_basis n) ws) ez => [|i l] [|s sigs].
Qed.
(** The loop over the columns *)
Lemma v_overE A B (f : beh -> seq nat -> A -> result A) (g : bsig n -> seq nat -> B -> result B) (c : B -> A) :
  (forall m b w s i x, seen p m b w -> w_basis w = Some s -> f b i (c x) = rmap c (g s i x)) ->
  forall ii x, shape ii ws ->
  v_over f (List.combine bs ii) (c x) = rmap c (foldl (fun r si => rbind r (g si.1 si.2)) (Ok x) (zip (pmap (@w_basis n) ws) (somes ii))).
Proof.
move=> H; elim: S => [|m b w ms' bs' ws' s _ IH] [|i ii] x //= [] h e.
rewrite /somes /= -/(somes ii); case: i h => [i|]; case ew: (w_basis w) => [t|] //= _; last exact: IH.
rewrite (H _ _ _ _ _ _ s ew); case: (g t i x) => [y|err] /=; first exact: IH.
by elim: (zip _ _).
Qed.
Lemma one_basis : forall ii, shape ii ws -> forall k (T : 'M[R]_(n, k)),
  v_over (fun b i T => rbind (b_basis b p) (fun x => match x with Some x => fz_place T i x | None => Err TypeError end)) (List.combine bs ii) (Fz T) =
  rmap (fun X => Fz X) (foldl (fun r si => rbind r (fun T => assign_cols T (bF si.1) si.2)) (Ok T) (zip (pmap (@w_basis n) ws) (somes ii))).
Proof.
move=> ii sh k T; rewrite (v_overE (c := fun X => Fz X) (g := fun s i T => assign_cols T (bF s) i)) // => m b w s i x [_ _ _ h] ew.
by move: h; rewrite ew => -[-> _ _ _ _] /=; rewrite /fz_place resize_same.
Qed.
Lemma one_phi : forall ii, shape ii ws -> forall k (K : kmat k),
  v_over (fun b i K => rbind (b_phi b p) (fun x => phz_add K x i)) (List.combine bs ii) (existT kmat k K) =
  rmap (existT kmat k) (foldl (fun r si => rbind r (fun phi => kadd phi (bphi si.1) (KArr si.2))) (Ok K) (zip (pmap (@w_basis n) ws) (somes ii))).
Proof.
move=> ii sh k K; rewrite (v_overE (c := existT kmat k) (g := fun s i K => kadd K (bphi s) (KArr i))) // => m b w s i x [_ _ _ h] ew.
by move: h; rewrite ew => -[_ -> _ _ _].
Qed.
End One.

Variables (c : model) (v : psr_view).
Hypotheses (S : psr_seen p c v) (ok : sound_coll dom c).
Notation n := (v_n v).
Notation sigs := (processes v).
Variables (N : nobj n).
Hypothesis eN : ModelNoise.get_ndiag (noises v) = Ok N.
Hypothesis ne : noises v <> [::].
Lemma psr_ndiag : v_ndiag op c p = Ok (existT nobj n N).
Proof. by case: S => _ s; rewrite /v_ndiag (one_noise s ne) eN. Qed.
Lemma psr_detres : v_detres op c p = Ok (DzVec (v_res v - delay_sum v)).
Proof. by case: S => er s; rewrite /v_detres /v_delay; have [d [-> h]] := one_delay s; rewrite /= er h. Qed.
Lemma psr_prior : v_prior c p = Ok (prior_sum v).
Proof. by case: S => _ s; rewrite /v_prior (one_prior s). Qed.
Lemma psr_layout : exists ii, v_layout op c =
    Ok (ii, if sigs is [::] then None else Some (Fz (0 : 'M[R]_(n, combine_ncol (@hash n) sigs)))) /\
  somes ii = combine_idx (@hash n) sigs /\ shape ii (v_sigs v).
Proof.
case: S => _ s; have [fs [ii [e1 [e2 e3]]]] := one_layout s ok.
by exists ii; rewrite /v_layout e1 /= e2.
Qed.
Lemma psr_basis : v_basis op c p = rmap (omap (fun X => Fz X)) (coll_basis (@hash n) sigs).
Proof.
have [ii [e1 [e2 e3]]] := psr_layout; rewrite /v_basis e1 /= /coll_basis -e2; case: S => _ s.
rewrite -/(processes v); case E : sigs => [|t l] //=; rewrite (one_basis s e3) -/(processes v) E.
by case: (foldl _ _ _).
Qed.
Lemma psr_phiE : v_phi op c p = rmap (omap (existT kmat _)) (coll_phi (@hash n) sigs).
Proof.
have [ii [e1 [e2 e3]]] := psr_layout; rewrite /v_phi e1 /= /coll_phi -e2; case: S => _ s.
case E : sigs => [|t l] //=; rewrite /phz_new /= (one_phi s e3) -/(processes v) E.
by case: (foldl _ _ _).
Qed.
Variable P : pulsar.
Hypothesis eP : coll_pulsar (@hash n) N (v_res v - delay_sum v) sigs (prior_sum v) = Ok P.
Lemma psr_parts : [/\ v_TNr op c p = psr_TNr P, v_TNT op c p = psr_TNT P, v_rNr op c p = psr_rNr P, v_prior c p = Ok (ModelLike.psr_prior P)
  & exists K, v_phi op c p = Ok K /\ if K is Some K then psr_hasT P /\ exists e : projT1 K = psr_k P, eq_rect _ phi_t (kphi (projT2 K)) _ e = psr_phi P else psr_hasT P = false].
Proof.
rewrite /v_TNr /v_TNT /v_rNr psr_basis psr_ndiag psr_detres psr_prior psr_phiE /=.
move: eP; rewrite /coll_pulsar.
case E : sigs => [|t l].
  by move=> [<-]; split=> //=; [rewrite /z_rNr /= resize_same|exists None].
rewrite -E; have -> : coll_basis (@hash n) sigs = rmap Some (foldl (fun r si => rbind r (fun T => assign_cols T (bF si.1) si.2)) (Ok 0) (zip sigs (combine_idx (@hash n) sigs))) by rewrite E.
have -> : coll_phi (@hash n) sigs = rmap Some (foldl (fun r si => rbind r (fun phi => kadd phi (bphi si.1) (KArr si.2))) (Ok (kzeros _)) (zip sigs (combine_idx (@hash n) sigs))) by rewrite E.
case: (foldl _ _ _) => [T|] //=; case: (foldl _ _ _) => [phi|] //= [<-]; split=> //=.
- by rewrite /z_TNr /= !resize_same /= /psr_TNr /=; case: (solve _ _ _ _).
- by rewrite /z_TNT /= !resize_same /= /psr_TNT /=; case: (solve _ _ _ _).
- by rewrite /z_rNr /= resize_same.
- by eexists; split; [reflexivity|split=> //; exists erefl].
Qed.
End Psr.

(** * Arrays without common signals *)
(** A pulsar with the noise object its noises add up to *)
Record psr_model := PsrModel { pm : psr_view; pm_N : nobj (v_n pm) }.
Definition good_psr (hash : forall n, 'cV[R]_n -> nat) (q : psr_model) : Prop :=
  [/\ ModelNoise.get_ndiag (noises (pm q)) = Ok (pm_N q), good_noise (pm_N q), coll_ok (@hash _) (processes (pm q))
    & if pm_N q is NBlk _ _ then combine_ncol (@hash _) (processes (pm q)) <> 1%N else True].
(** The log density of a pulsar's residuals *)
Definition psr_term (q : psr_model) : R :=
  density_tm (v_res (pm q) - delay_sum (pm q)) (cov_of (pm_N q) + coll_cov (processes (pm q))) (tm_M (pm_N q))
  - 2%:R^-1 * ((tm_k (pm_N q))%:R * ln (pow 10 40)) + prior_sum (pm q).

Section Arr.
Variables (hash : forall n, 'cV[R]_n -> nat) (svd : forall k, 'M[R]_k -> 'M[R]_k * 'cV[R]_k).
Variables (St : Type) (cross : nat -> St -> St -> params R -> result cz).
Notation op := (z_ops hash svd cross).
Notation model := (model St nz dz fz pz).
Variable dom : params R -> Prop.
Hypothesis dom_nil : dom [::].
Variable p : params R.
Hypothesis dp : dom p.
Variable v_cross : nat -> nat * nat -> nat * nat -> params R -> result cz.

Definition same_phi (K : option phz) (P : pulsar) : Prop :=
  if K is Some K then psr_hasT P /\ exists e : projT1 K = psr_k P, eq_rect _ phi_t (kphi (projT2 K)) _ e = psr_phi P else psr_hasT P = false.
Lemma noises_pos v N : ModelNoise.get_ndiag (noises v) = Ok N -> good_noise N -> noises v <> [::].
Proof. by move=> e [h _]; case: (noises v) e => // -[e]; move: h; rewrite -e. Qed.
Lemma psr_made (c : model) q : psr_seen p c (pm q) -> good_psr hash q -> sound_coll dom c ->
  exists P K, [/\ v_TNr op c p = psr_TNr P, v_TNT op c p = psr_TNT P, v_rNr op c p = psr_rNr P, v_prior c p = Ok (ModelLike.psr_prior P)
      & v_phi op c p = Ok K /\ same_phi K P] /\
    [/\ good_noise (psr_N P), good_shape P, good_prior P & density_tm (psr_r P) (psr_cov P) (tm_M (psr_N P)) - 2%:R^-1 * ((tm_k (psr_N P))%:R * ln (pow 10 40)) + ModelLike.psr_prior P = psr_term q].
Proof.
move=> S [eN gN cok sh] ok; have ne := noises_pos eN gN.
have [k [b [T [phi [eP [hb [cov gp]]]]]]] := coll_value (pm_N q) (v_res (pm q) - delay_sum (pm q)) (prior_sum (pm q)) cok.
have [h1 h2 h3 h4 [K [h5 h6]]] := psr_parts svd cross dom_nil dp S ok eN ne eP.
eexists; exists K; split; first by split; eassumption || split; eassumption.
split=> //; last by rewrite cov.
move=> hT; rewrite /=; have [ek s0] := hb hT; subst k; case: (pm_N q) sh => // ? ?.
have := coll_ncol_pos (@hash _) s0; case: cok => _ _ _ pos _ /(_ pos).
by case: (combine_ncol _ _) => [|[|?]].
Qed.

Lemma mapR_rmapM A B (f : A -> result B) l : mapR f l = rmapM f l.
Proof. by elim: l => //= x l ->. Qed.
Lemma loop_same ps phis : List.Forall2 same_phi phis ps -> forall TNrs TNTs acc,
  rmapM psr_TNr ps = Ok TNrs -> rmapM psr_TNT ps = Ok TNTs ->
  z_loop (zip TNrs (zip TNTs [seq omap (fun K : phz => existT (fun k => (phi_t k * R)%type) (projT1 K) (kinv svd (kphi (projT2 K)))) o | o <- phis])) acc =
  loop svd (zip ps (zip TNrs TNTs)) acc.
Proof.
elim=> [|K P phis' ps' h _ IH] TNrs TNTs acc /=; first by move=> [<-] [<-].
case e1: (psr_TNr P) => [x|] //=; case e2: (psr_TNT P) => [y|] //=; case E1: (rmapM _ ps') => [xs|] //=; case E2: (rmapM _ ps') => [ys|] //= [<-] [<-] /=.
move: e1 e2; rewrite /psr_TNr /psr_TNT; case: K h => [K|] /=; last first.
  by move=> -> [<-] _; exact: IH.
case=> -> [e eK]; case: (solve _ _ _ _) => [x'|] //= [<-]; case: (solve _ _ _ _) => [y'|] //= [<-] /=.
rewrite -eK; case: P e {eK} => n' k' N' r' h' T' phi' pr' /= e; subst k' => /=.
by case: (term _ _ _) => [[t|]|] //=; rewrite IH.
Qed.
Lemma rmapM_same A B C (f : A -> result C) (g : B -> result C) l l' : List.Forall2 (fun x y => f x = g y) l l' -> rmapM f l = rmapM g l'.
Proof. by elim=> //= x y m m' -> _ ->. Qed.
Lemma F2_impl A B (Q Q' : A -> B -> Prop) l l' : (forall x y, Q x y -> Q' x y) -> List.Forall2 Q l l' -> List.Forall2 Q' l l'.
Proof. by move=> h; elim; constructor=> //; exact: h. Qed.

Lemma like_value (a : seq model) qs method : List.Forall (sound_coll dom) a -> no_pairs a ->
  List.Forall2 (fun c q => psr_seen p c (pm q) /\ good_psr hash q) a qs -> known_method method ->
  v_like op v_cross a method p = Ok (Fin (\sum_(q <- qs) psr_term q)).
Proof.
move=> ok np S km.
have [ps [F1 [F2 et]]] : exists ps, List.Forall2 (fun (c : model) P => exists K, [/\ v_TNr op c p = psr_TNr P, v_TNT op c p = psr_TNT P, v_rNr op c p = psr_rNr P, v_prior c p = Ok (ModelLike.psr_prior P)
      & v_phi op c p = Ok K /\ same_phi K P]) a ps /\
    (forall P, List.In P ps -> good_noise (psr_N P) /\ good_shape P /\ good_prior P) /\
    \sum_(q <- qs) psr_term q = \sum_(P <- ps) (density_tm (psr_r P) (psr_cov P) (tm_M (psr_N P)) - 2%:R^-1 * ((tm_k (psr_N P))%:R * ln (pow 10 40)) + ModelLike.psr_prior P).
  elim: S ok {np} => [|c q a' qs' [s g] _ IH] ok; first by exists [::]; split=> //; split=> //; rewrite !big_nil.
  inversion ok as [|c0 a0 o1 o2]; subst; have [ps [f1 [f2 e]]] := IH o2; have [P [K [h1 [g1 g2 g3 g4]]]] := psr_made s g o1.
  exists (P :: ps); split; first by constructor=> //; exists K.
  by split; [move=> P' /= [<- //|]; exact: f2|rewrite !big_cons e g4].
have eL := likelihood_marginalised_lem svd F2; rewrite -et in eL.
have [phis [ep sp]] : exists phis, rmapM (fun c => v_phi op c p) a = Ok phis /\ List.Forall2 same_phi phis ps.
  elim: F1 => [|c P a' ps' [K [_ _ _ _ [e1 e2]]] _ [phis [e3 e4]]]; first by exists [::].
  by exists (K :: phis); rewrite /= e1 /= e3; split=> //; constructor.
have [ls el] : exists ls, rmapM (v_layout op) a = Ok ls.
  elim: S ok {np F1 ep} => [|c q a' qs' [s g] _ IH] ok; first by exists [::].
  inversion ok as [|c0 a0 o1 o2]; subst; have [ls e] := IH o2; have [ii [e1 _]] := psr_layout hash svd cross dom_nil dp s o1.
  by eexists; rewrite /= e1 /= e.
rewrite /v_like (rmapM_same (g := psr_TNr) (l' := ps)); last by apply: F2_impl F1 => c P [K []].
rewrite [X in rbind _ (fun _ => rbind X _)](rmapM_same (g := psr_TNT) (l' := ps)); last by apply: F2_impl F1 => c P [K []].
have -> : rmapM (fun c => v_rNr op c p) a = rmapM psr_rNr ps by apply: rmapM_same; apply: F2_impl F1 => c P [K []].
have -> : rmapM (fun c => v_prior c p) a = Ok [seq ModelLike.psr_prior P | P <- ps].
  by apply: rmapM_seen; elim: F1 => //= c P a' ps' [K [_ _ _ e _]] _; constructor.
move: eL; rewrite /loglike /pieces !mapR_rmapM.
case eT: (rmapM psr_TNr ps) => [TNrs|] //=; case eTT: (rmapM psr_TNT ps) => [TNTs|] //=; case er: (rmapM psr_rNr ps) => [rr|] //= eL.
rewrite /v_phiinv ep el /= commons_none //=.
- by rewrite /z_invert km /= big_map (loop_same sp _ eT eTT).
- by elim: ok => //= c a' h _ IH; constructor=> //; elim: h => //= *; congr _.+1.
Qed.
End Arr.
