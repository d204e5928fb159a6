(** Arrays with several classes of common signals evaluated several times, and an example. *)
From Coq Require Import Reals String.
From mathcomp Require Import all_ssreflect all_algebra.
From Verif Require Import RStruct PyBase ModelCache ModelGp ProofGp ModelLinalg ProofLinalg ModelNoise ProofNoise ModelLike ProofLike ModelKernel ProofKernel ModelPhi ProofPhi ModelColl ProofColl ProofCommons ModelEcorr ProofEcorr ModelArray ProofJoint ProofArray ProofCorr ProofArrayEx ProofClasses ProofShare ProofMulti ProofMany.
Set Implicit Arguments.
Unset Strict Implicit.
Unset Printing Implicit Defensive.
Import GRing.Theory Num.Theory Order.TTheory.
Local Open Scope seq_scope.
Local Open Scope ring_scope.

Lemma array_classes_lem : forall (hash : forall n, 'cV[R]_n -> nat) (svd : forall k, 'M[R]_k -> 'M[R]_k * 'cV[R]_k) (St : Type)
  (cross : nat -> St -> St -> params R -> result cz) (dom : params R -> Prop) (v_cross : nat -> nat * nat -> nat * nat -> params R -> result cz),
  (forall p, dom p -> flat_values p) -> dom [::] ->
  forall (a : seq (coll St nz dz fz pz * seq (beh St nz dz fz pz))) (sss : seq (seq St)) l rs method p
    (K : nat -> nat) (orf : nat -> nat -> nat -> R) (phi : forall c, 'cV[R]_(K c)) (xs : seq (mpsr K)) (cs : seq nat),
  List.Forall (sound_coll dom) a -> sound_commons (z_ops hash svd cross) v_cross a -> List.Forall2 (fun c ss => List.Forall2 b_inv (snd c) ss) a sss ->
  List.Forall2 (fun q r => dom (ask_params q) /\ v_ask (z_ops hash svd cross) v_cross a q = Ok r) l rs ->
  dom p ->
  List.Forall2 (fun c x => [/\ psr_seen p c (pm (mp_q x)), good_psr hash (mp_q x), has_process x, has_commons orf phi x & all_commons c x]) a xs ->
  [seq mp_i x | x <- xs] = iota 0 (size xs) -> uniq cs -> (forall x c, List.In x xs -> mp_j x c -> c \in cs) -> (exists c, (1 < size (members xs c))%N) ->
  (forall x y c i j, List.In x xs -> List.In y xs -> (mp_i x < mp_i y)%N -> mp_j x c = Some i -> mp_j y c = Some j ->
     v_cross c (mp_i x, i) (mp_i y, j) p = Ok (Cz (orf c (mp_i x) (mp_i y)) (existT phi_t (K c) (PhiD (phi c))))) ->
  (forall c, c \in cs -> posdef (\matrix_(i < size xs, j < size xs) orf c i j) /\ forall k, 0 < phi c k ord0) ->
  method_for method xs ->
  run (z_ops hash svd cross) (List.map fst a) (l ++ [:: ALike method p]) (new_pta sss) = List.map Ok (rs ++ [:: RLike (Fin (many_term orf phi xs cs))]).
Proof.
move=> hash svd St cross dom v_cross df dn a sss l rs method p K orf phi xs cs ok okc inv hl dp S num uc ac two cr pG meth.
by apply: (past_value df dn ok okc inv hl dp); exact: (many_value svd cross dn dp ok S num uc ac two cr pG meth).
Qed.

(** * Example *)
(** Three pulsars with white noise of variance [e^2 + 1]. The first two share a process
    linear in the number of the TOA, with prior [g^2 + 1] and correlation 1/2. The first and
    the third share a constant, with prior [d^2 + 1] and correlation 1/3. *)
Definition m_name (c : nat) : string := if c is 0 then "g" else "d".
Definition m_F (c : nat) : 'M[R]_(3, 1) := if c is 0 then y_F else const_mx 1.
Definition m_val (q : R * R * R) (c : nat) : R := if c is 0 then q.2 else q.1.2.
Definition m_noise : beh unit nz dz fz pz :=
  y_beh (fun p => rmap (fun e => Some (existT nobj 3%N (y_noise e))) (y_par p "e")) (fun _ => Ok None) (fun _ => Ok None) (fun _ => Err NotImplementedError).
Definition m_beh (c : nat) : beh unit nz dz fz pz :=
  y_beh (fun _ => Ok None) (fun _ => Ok None) (fun _ => Ok (Some (Fz (m_F c)))) (fun p => rmap (fun g => existT phi_t 1%N (PhiD (y_phi g))) (y_par p (m_name c))).
Definition m_coll (cs : seq nat) (i : nat) : coll unit nz dz fz pz * seq (beh unit nz dz fz pz) :=
  (Coll (y_sg WhiteT [:: "e"%string] None m_noise :: [seq y_sg CommonBasisT [::] (Some c) (m_beh c) | c <- cs]) (DzVec (y_res i)), m_noise :: [seq m_beh c | c <- cs]).
Definition m_array : seq (coll unit nz dz fz pz * seq (beh unit nz dz fz pz)) := [:: m_coll [:: 0%N; 1%N] 0%N; m_coll [:: 0%N] 1%N; m_coll [:: 1%N] 2%N].
Definition m_start : seq (seq unit) := [:: [:: tt; tt; tt]; [:: tt; tt]; [:: tt; tt]].
Definition m_orf (c i j : nat) : R := if i == j then 1 else c.+2%:R^-1.
Definition m_cross (c : nat) (_ _ : unit) (p : params R) : result cz := rmap (fun g => Cz c.+2%:R^-1 (existT phi_t 1%N (PhiD (y_phi g)))) (y_par p (m_name c)).
Definition m_vcross (c : nat) (_ _ : nat * nat) (p : params R) : result cz := rmap (fun g => Cz c.+2%:R^-1 (existT phi_t 1%N (PhiD (y_phi g)))) (y_par p (m_name c)).
Definition m_hash (n : nat) (v : 'cV[R]_n) : nat := v == const_mx 1.
Definition m_view (q : R * R * R) (cs : seq nat) (i : nat) : psr_view :=
  @PsrView 3%N (y_res i) (View (Some (y_noise q.1.1)) None None 0 :: [seq View None None (Some (BSig (m_F c) (PhiD (y_phi (m_val q c))) false false)) 0 | c <- cs]).
Definition m_model (q : R * R * R) (cs : seq nat) (i : nat) : psr_model := @PsrModel (m_view q cs i) (y_noise q.1.1).
Definition m_psr (q : R * R * R) (cs : seq nat) (i : nat) : mpsr (fun _ => 1%N) :=
  @MPsr (fun _ => 1%N) (m_model q cs i) i (fun c => if c \in cs then Some (index c cs).+1 else None) m_F.
Definition m_xs (q : R * R * R) : seq (mpsr (fun _ => 1%N)) := [:: m_psr q [:: 0%N; 1%N] 0%N; m_psr q [:: 0%N] 1%N; m_psr q [:: 1%N] 2%N].

Lemma m_sound cs i : (forall c, c \in cs -> (c < 2)%N) -> sound_coll flat_values (m_coll cs i).
Proof.
move=> hc; have A (B : Type) (f : params R -> result B) : answers flat_values (fun _ => True) (fun _ _ => True) (fun p (s : unit) => (s, f p)) f by move=> p s x _ _ e; exists s; rewrite e.
have P n p p' : agree [:: n] p p' -> y_par p n = y_par p' n by move=> h; rewrite /y_par h //; left.
constructor; first by split=> //; try exact: A; move=> p p' _ _ /= /P ->.
elim: cs {hc} => [|c cs IH] /=; first exact: List.Forall2_nil.
by apply: List.Forall2_cons IH; split=> //; try exact: A; move=> p p' _ _ /= /P ->.
Qed.
Lemma m_all : List.Forall (sound_coll flat_values) m_array.
Proof. by constructor; [|constructor; [|constructor=> //]]; apply: m_sound => c; rewrite !inE => h; do ?[case/orP: h => h]; rewrite (eqP h). Qed.
Lemma m_inv : List.Forall2 (fun (c : coll unit nz dz fz pz * seq (beh unit nz dz fz pz)) ss => List.Forall2 b_inv (snd c) ss) m_array m_start.
Proof. by do 3!(constructor; first by repeat constructor). Qed.
Lemma m_beh_at ij m b k : beh_at m_array ij = Some (m, b) -> s_class m = Some k -> b = m_beh k.
Proof.
destruct ij as [[|[|[|i]]] [|[|[|j]]]]; cbn; intros H; try discriminate; try (destruct i; discriminate); try (destruct j; discriminate);
  injection H as <- <-; cbn; intros; try discriminate; try (destruct j; discriminate); congruence.
Qed.
Lemma m_commons svd : sound_commons (z_ops m_hash svd m_cross) m_vcross m_array.
Proof.
split=> //.
by move=> ij m b k x /m_beh_at h /h -> [<-].
Qed.
Lemma m_seen q cs i : psr_seen (y_p q) (m_coll cs i) (m_view q cs i).
Proof.
split=> //; constructor; first by split.
elim: cs => [|c cs IH] /=; first exact: seen_nil.
apply: seen_cons IH; split=> //=; split=> //; last by exists (m_F c).
by case: c.
Qed.
Lemma m_col (k : 'I_1) c : col k (m_F c) = m_F c.
Proof. by apply/matrixP=> i j; rewrite mxE (ord1 k) (ord1 j). Qed.
Lemma m_neq : m_F 0 <> m_F 1.
Proof. by move=> /matrixP /(_ (inord 1) ord0); rewrite !mxE inordK // => /(@eqP _ (2%:R : R) 1%:R); rewrite eqr_nat. Qed.
Lemma m_good q cs i : cs = [:: 0%N; 1%N] \/ cs = [:: 0%N] \/ cs = [:: 1%N] -> good_psr m_hash (m_model q cs i).
Proof.
move=> hcs; have pos (x : R) : 0 < x * x + 1 by apply: ltr_paddl; [exact: sqr_ge0|exact: ltr01].
have ps : processes (m_view q cs i) = [seq BSig (m_F c) (PhiD (y_phi (m_val q c))) false false | c <- cs].
  by rewrite /processes /=; elim: (cs) => //= c l ->.
have colE c (s : 'cV[R]_3) : s \in ProofKernel.columns (BSig (m_F c) (PhiD (y_phi (m_val q c))) false false) -> s = m_F c.
  by rewrite /ProofKernel.columns /= => /mapP [k _ ->]; exact: m_col.
split=> //.
- have -> : noises (pm (m_model q cs i)) = [:: y_noise q.1.1] by rewrite /noises /=; congr (_ :: _); elim: (cs).
  rewrite /ModelNoise.get_ndiag /=; congr (Ok (NVec _)); by apply/matrixP=> i0 j0; rewrite !mxE; exact: addr0.
- by have [] : [/\ good_noise (y_noise q.1.1), tm_k (y_noise q.1.1) = 0%N & inner_cov (y_noise q.1.1) = Some (cov_of (y_noise q.1.1))] by apply: plain_noise => j; rewrite mxE.
- rewrite /= ps; split.
  + have H (s : 'cV[R]_3) : s \in flatten [seq ProofKernel.columns s0 | s0 <- [seq BSig (m_F c) (PhiD (y_phi (m_val q c))) false false | c <- cs]] -> s = m_F 0 \/ s = m_F 1.
      case: hcs => [->|[->|->]]; rewrite /= ?cats0 ?mem_cat.
      + by case/orP=> h; [rewrite (colE 0%N s h)|rewrite (colE 1%N s h)]; auto.
      + by move=> h; rewrite (colE 0%N s h); auto.
      + by move=> h; rewrite (colE 1%N s h); auto.
    move=> x y /H hx /H hy; rewrite /m_hash; case: hx hy => -> [] -> //.
      by rewrite eqxx; case: eqP => // /m_neq.
    by rewrite eqxx; case: eqP => // /m_neq.
  + by case: hcs => [->|[->|->]].
  + by case: hcs => [->|[->|->]].
  + by case: hcs => [->|[->|->]].
  + by move=> s /List.in_map_iff [c [<- _]]; apply: diag_posdef => j; rewrite !mxE.
Qed.
Lemma m_orf_posdef c : posdef (\matrix_(i < 3, j < 3) m_orf c i j).
Proof.
pose h : R := c.+2%:R^-1; have h0 : 0 < h by rewrite invr_gt0 ltr0n.
have h1 : 0 < 1 - h by rewrite subr_gt0 invf_lt1 ?ltr0n // ltr1n.
have -> : \matrix_(i < 3, j < 3) m_orf c i j = diag (const_mx (1 - h)) + h *: ((const_mx 1 : 'rV[R]_3)^T *m const_mx 1).
  apply/matrixP=> i j; rewrite !mxE big_ord_recl big_ord0 !mxE addr0 !mulr1 /m_orf -val_eqE /=.
  case: eqP => _; rewrite ?mulr1n ?mulr0n ?add0r //.
  by rewrite subrK.
apply: posdefD.
- by apply: diag_posdef => j; rewrite mxE.
- by rewrite /sym linearZ /= trmx_mul trmxK.
- move=> x; rewrite /ProofLinalg.quad -scalemxAr -scalemxAl mxE; apply: mulr_ge0; first exact: ltW.
  by have := quad_gram (const_mx 1 : 'rV[R]_3) x; rewrite /ProofLinalg.quad => ->; exact: sqnorm_ge0.
Qed.
Lemma m_classes : forall svd l,
  run (z_ops m_hash svd m_cross) (List.map fst m_array) [seq ALike "cliques" (y_p q) | q <- l] (new_pta m_start) =
  List.map Ok [seq RLike (Fin (many_term m_orf (fun c => y_phi (m_val q c)) (m_xs q) [:: 0%N; 1%N])) | q <- l].
Proof.
move=> svd l; apply: (@array_history_lem _ _ _ _ _ _ _ _ _ _ _ _ _ (z_ops m_hash svd m_cross) flat_values m_vcross) => //.
- exact: m_all.
- exact: m_commons.
- exact: m_inv.
elim: l => //= q l IH; constructor=> //; split; first exact: y_flat.
have two c : (1 < size (members (m_xs q) c))%N -> c = 0%N \/ c = 1%N.
  by case: c => [|[|c]]; [left|right|].
have S : List.Forall2 (fun c x => [/\ psr_seen (y_p q) c (pm (mp_q x)), good_psr m_hash (mp_q x), has_process x, has_commons m_orf (fun c => y_phi (m_val q c)) x & all_commons c x]) m_array (m_xs q).
  have H cs i : cs = [:: 0%N; 1%N] \/ cs = [:: 0%N] \/ cs = [:: 1%N] ->
     [/\ psr_seen (y_p q) (m_coll cs i) (pm (mp_q (m_psr q cs i))), good_psr m_hash (mp_q (m_psr q cs i)), has_process (m_psr q cs i), has_commons m_orf (fun c => y_phi (m_val q c)) (m_psr q cs i) & all_commons (m_coll cs i) (m_psr q cs i)].
    move=> hcs; split; [exact: m_seen|exact: m_good| | |].
    + by case: hcs => [->|[->|->]].
    + move=> c j /=; case ci: (c \in cs) => // -[<-].
      exists (View None None (Some (BSig (m_F c) (PhiD (y_phi (m_val q c))) false false)) 0), false, false; split.
        by rewrite /=; elim: (cs) ci => //= d l' IHl; rewrite inE; case: (altP (c =P d)) => [->|ne] /=; [rewrite eqxx|rewrite eq_sym (negbTE ne) => /IHl].
      by rewrite /= /m_orf eqxx scale1r.
    + move=> j m k; case: hcs => [->|[->|->]]; destruct j as [|[|[|j]]]; cbn; try (by destruct j); intros [= <-]; cbn; destruct k as [|[|k]]; rewrite /=; try (by split; congruence).
  by do 3!(constructor; first by apply: H; auto).
rewrite /= (many_value svd m_cross (dom := flat_values) (cs := [:: 0%N; 1%N]) (fun _ _ e => ltac:(discriminate e)) (@y_flat q) m_all S (v_cross := m_vcross)) //.
- by move=> x c; rewrite /List.In => -[<-|[<-|[<-|//]]] /=; case: ifP => //; rewrite !inE => h _; rewrite ?h ?orbT.
- by exists 0%N.
- move=> x y c i j hx hy lt; move: hx hy lt; rewrite /List.In => -[<-|[<-|[<-|//]]] [<-|[<-|[<-|//]]] //= _; by case: c => [|[|c]].
- move=> c _; split; first exact: m_orf_posdef.
  by move=> k; rewrite mxE; apply: ltr_paddl; [exact: sqr_ge0|exact: ltr01].
- right; split.
    move=> x s hx; move: s; case: hx => [e|[e|[e|//]]]; destruct e => s; rewrite /processes /=.
    - by case=> [<-|[<-|//]].
    - by case=> [<-|//].
    - by case=> [<-|//].
  left; split=> // c d /two hc /two hd ne; left => x hx.
  have N (u v : 'I_1) : col u (m_F c) <> col v (m_F d).
    by rewrite !m_col; case: hc hd ne => -> [] -> // _; [|move/esym]; exact: m_neq.
  by case: hx => [e|[e|[e|//]]]; destruct e => i j _ _ u v; exact: N.
Qed.
