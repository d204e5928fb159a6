(** Arrays evaluated several times, and an example. *)
From Coq Require Import Reals String.
From mathcomp Require Import all_ssreflect all_algebra.
From Verif Require Import RStruct PyBase ModelCache ModelGp ProofGp ModelLinalg ProofLinalg ModelNoise ProofNoise ModelLike ProofLike ModelKernel ProofKernel ModelPhi ProofPhi ModelColl ProofColl ProofCommons ModelEcorr ProofEcorr ModelArray ProofJoint ProofArray ProofCorr.
Set Implicit Arguments.
Unset Strict Implicit.
Unset Printing Implicit Defensive.
Import GRing.Theory Num.Theory Order.TTheory.
Local Open Scope seq_scope.
Local Open Scope ring_scope.

Section Past.
Variables (hash : forall n, 'cV[R]_n -> nat) (svd : forall k, 'M[R]_k -> 'M[R]_k * 'cV[R]_k).
Variables (St : Type) (cross : nat -> St -> St -> params R -> result cz) (dom : params R -> Prop) (v_cross : nat -> nat * nat -> nat * nat -> params R -> result cz).
Notation op := (z_ops hash svd cross).
Notation model := (coll St nz dz fz pz * seq (beh St nz dz fz pz))%type.
Hypotheses (dom_flat : forall p, dom p -> flat_values p) (dom_nil : dom [::]).
Variables (a : seq model) (sss : seq (seq St)).
Hypotheses (ok : List.Forall (sound_coll dom) a) (okc : sound_commons op v_cross a) (inv : List.Forall2 (fun c ss => List.Forall2 b_inv (snd c) ss) a sss).
Lemma past_value l rs method p x : List.Forall2 (fun q r => dom (ask_params q) /\ v_ask op v_cross a q = Ok r) l rs -> dom p ->
  v_like op v_cross a method p = Ok x ->
  run op (List.map fst a) (l ++ [:: ALike method p]) (new_pta sss) = List.map Ok (rs ++ [:: RLike x]).
Proof.
move=> hl dp e; apply: (@array_history_lem _ _ _ _ _ _ _ _ _ _ _ _ _ op dom v_cross) => //.
by apply: List.Forall2_app => //; constructor=> //; split=> //; rewrite /= e.
Qed.
End Past.

Lemma array_likelihood_lem : forall (hash : forall n, 'cV[R]_n -> nat) (svd : forall k, 'M[R]_k -> 'M[R]_k * 'cV[R]_k) (St : Type)
  (cross : nat -> St -> St -> params R -> result cz) (dom : params R -> Prop) (v_cross : nat -> nat * nat -> nat * nat -> params R -> result cz),
  (forall p, dom p -> flat_values p) -> dom [::] ->
  forall (a : seq (coll St nz dz fz pz * seq (beh St nz dz fz pz))) (sss : seq (seq St)) l rs method p (qs : seq psr_model),
  List.Forall (sound_coll dom) a -> sound_commons (z_ops hash svd cross) v_cross a -> List.Forall2 (fun c ss => List.Forall2 b_inv (snd c) ss) a sss ->
  List.Forall2 (fun q r => dom (ask_params q) /\ v_ask (z_ops hash svd cross) v_cross a q = Ok r) l rs ->
  dom p -> known_method method -> no_pairs a -> List.Forall2 (fun c q => psr_seen p c (pm q) /\ good_psr hash q) a qs ->
  run (z_ops hash svd cross) (List.map fst a) (l ++ [:: ALike method p]) (new_pta sss) = List.map Ok (rs ++ [:: RLike (Fin (\sum_(q <- qs) psr_term q))]).
Proof.
move=> hash svd St cross dom v_cross df dn a sss l rs method p qs ok okc inv hl dp km np S.
by apply: (past_value df dn ok okc inv hl dp); exact: (like_value svd cross dn dp v_cross ok np S km).
Qed.

Lemma array_correlated_lem : forall (hash : forall n, 'cV[R]_n -> nat) (svd : forall k, 'M[R]_k -> 'M[R]_k * 'cV[R]_k) (St : Type)
  (cross : nat -> St -> St -> params R -> result cz) (dom : params R -> Prop) (v_cross : nat -> nat * nat -> nat * nat -> params R -> result cz),
  (forall p, dom p -> flat_values p) -> dom [::] ->
  forall (a : seq (coll St nz dz fz pz * seq (beh St nz dz fz pz))) (sss : seq (seq St)) l rs method p (k0 K : nat) (orf : nat -> nat -> R) (phi : 'cV[R]_K) (xs : seq (cpsr K)),
  List.Forall (sound_coll dom) a -> sound_commons (z_ops hash svd cross) v_cross a -> List.Forall2 (fun c ss => List.Forall2 b_inv (snd c) ss) a sss ->
  List.Forall2 (fun q r => dom (ask_params q) /\ v_ask (z_ops hash svd cross) v_cross a q = Ok r) l rs ->
  dom p -> known_method method ->
  List.Forall2 (fun c x => [/\ psr_seen p c (pm (cp_q x)), good_psr hash (cp_q x), has_common orf phi x & one_common k0 c x]) a xs ->
  [seq cp_i x | x <- xs] = iota 0 (size xs) -> (1 < size xs)%N ->
  (forall x y, List.In x xs -> List.In y xs -> (cp_i x < cp_i y)%N ->
     v_cross k0 (cp_i x, cp_j x) (cp_i y, cp_j y) p = Ok (Cz (orf (cp_i x) (cp_i y)) (existT phi_t K (PhiD phi)))) ->
  posdef (\matrix_(i < size xs, j < size xs) orf i j) -> (forall k, 0 < phi k ord0) ->
  method = "sparse"%string \/ (forall x s, List.In x xs -> List.In s (processes (pm (cp_q x))) -> is_vector (bphi s)) ->
  run (z_ops hash svd cross) (List.map fst a) (l ++ [:: ALike method p]) (new_pta sss) = List.map Ok (rs ++ [:: RLike (Fin (joint_term orf phi xs))]).
Proof.
move=> hash svd St cross dom v_cross df dn a sss l rs method p k0 K orf phi xs ok okc inv hl dp km S num two cr pG pp meth.
by apply: (past_value df dn ok okc inv hl dp); exact: (corr_value svd cross dn dp ok S num two cr pG pp km meth).
Qed.

(** * Example *)
(** Two pulsars with three TOAs each. White noise of variance [e^2 + 1], a constant delay
    [d], and a process linear in the number of the TOA with prior [g^2 + 1], correlated by
    one half. The signals have no state. *)
Definition y_par (p : params R) (name : string) : result R := if dget string_dec p name is Some (Sc x) then Ok x else Err KeyError.
Definition y_noise (e : R) : nobj 3 := NVec (const_mx (e * e + 1)).
Definition y_delay (d : R) : 'cV[R]_3 := const_mx d.
Definition y_F : 'M[R]_(3, 1) := \col_i i.+1%:R.
Definition y_phi (g : R) : 'cV[R]_1 := const_mx (g * g + 1).
Definition y_beh (nd : params R -> result (option nz)) (de : params R -> result (option dz)) (ba : params R -> result (option fz)) (ph : params R -> result pz) : beh unit nz dz fz pz :=
  Beh nd de ba ph (fun _ => Ok 0%R) (fun _ => True) (fun _ _ => True).
Definition y_sg (ty : sigtype) (names : list string) (cls : option nat) (b : beh unit nz dz fz pz) : sg unit nz dz fz pz :=
  Sg ty (if ty is WhiteT then names else [::]) [::] (if ty is DeterministicT then names else [::]) false cls
    (fun p s => (s, b_ndiag b p)) (fun p s => (s, b_delay b p)) (fun p s => (s, b_basis b p)) (fun p s => (s, b_phi b p)) (fun p s => (s, b_prior b p)).
Definition y_behs : seq (beh unit nz dz fz pz) :=
  [:: y_beh (fun p => rmap (fun e => Some (existT nobj 3%N (y_noise e))) (y_par p "e")) (fun _ => Ok None) (fun _ => Ok None) (fun _ => Err NotImplementedError);
      y_beh (fun _ => Ok None) (fun p => rmap (fun d => Some (DzVec (y_delay d))) (y_par p "d")) (fun _ => Ok None) (fun _ => Err NotImplementedError);
      y_beh (fun _ => Ok None) (fun _ => Ok None) (fun _ => Ok (Some (Fz y_F))) (fun p => rmap (fun g => existT phi_t 1%N (PhiD (y_phi g))) (y_par p "g"))].
Definition y_res (i : nat) : 'cV[R]_3 := const_mx i%:R.
Definition y_coll (cls : option nat) (i : nat) : coll unit nz dz fz pz * seq (beh unit nz dz fz pz) :=
  (Coll [:: y_sg WhiteT [:: "e"%string] None (nth (y_beh (fun _ => Ok None) (fun _ => Ok None) (fun _ => Ok None) (fun _ => Err NotImplementedError)) y_behs 0%N);
            y_sg DeterministicT [:: "d"%string] None (nth (y_beh (fun _ => Ok None) (fun _ => Ok None) (fun _ => Ok None) (fun _ => Err NotImplementedError)) y_behs 1%N);
            y_sg CommonBasisT [::] cls (nth (y_beh (fun _ => Ok None) (fun _ => Ok None) (fun _ => Ok None) (fun _ => Err NotImplementedError)) y_behs 2%N)] (DzVec (y_res i)), y_behs).
Definition y_array (cls : option nat) : seq (coll unit nz dz fz pz * seq (beh unit nz dz fz pz)) := [:: y_coll cls 0%N; y_coll cls 1%N].
Definition y_start : seq (seq unit) := [:: [:: tt; tt; tt]; [:: tt; tt; tt]].
Definition y_p (q : R * R * R) : params R := [:: ("e"%string, Sc q.1.1); ("d"%string, Sc q.1.2); ("g"%string, Sc q.2)].
Definition y_orf (i j : nat) : R := if i == j then 1 else 2%:R^-1.
Definition y_cross (_ : nat) (_ _ : unit) (p : params R) : result cz := rmap (fun g => Cz 2%:R^-1 (existT phi_t 1%N (PhiD (y_phi g)))) (y_par p "g").
Definition y_vcross (_ : nat) (_ _ : nat * nat) (p : params R) : result cz := rmap (fun g => Cz 2%:R^-1 (existT phi_t 1%N (PhiD (y_phi g)))) (y_par p "g").
(** What the signals add for the parameters *)
Definition y_view (q : R * R * R) (i : nat) : psr_view :=
  @PsrView 3%N (y_res i) [:: View (Some (y_noise q.1.1)) None None 0; View None (Some (Some (y_delay q.1.2))) None 0; View None None (Some (BSig y_F (PhiD (y_phi q.2)) false false)) 0].
Definition y_model (q : R * R * R) (i : nat) : psr_model := @PsrModel (y_view q i) (y_noise q.1.1).
Definition y_cpsr (q : R * R * R) (i : nat) : cpsr 1 := @CPsr 1%N (y_model q i) i 2%N y_F.

Lemma y_flat q : flat_values (y_p q).
Proof. by move=> n l; rewrite /=; do 3?case: string_dec => // _. Qed.
Lemma y_sound cls i : sound_coll flat_values (y_coll cls i).
Proof.
have A (B : Type) (f : params R -> result B) : answers flat_values (fun _ => True) (fun _ _ => True) (fun p (s : unit) => (s, f p)) f by move=> p s x _ _ e; exists s; rewrite e.
have P n p p' : agree [:: n] p p' -> y_par p n = y_par p' n by move=> h; rewrite /y_par h //; left.
by constructor; [|constructor; [|constructor; [|constructor]]]; split=> //; try exact: A; move=> p p' _ _ /= /P ->.
Qed.
Lemma y_all cls : List.Forall (sound_coll flat_values) (y_array cls).
Proof. by constructor; [|constructor=> //]; exact: y_sound. Qed.
Lemma y_inv cls : List.Forall2 (fun (c : coll unit nz dz fz pz * seq (beh unit nz dz fz pz)) ss => List.Forall2 b_inv (snd c) ss) (y_array cls) y_start.
Proof. by do 2!(constructor; first by repeat constructor). Qed.
Lemma y_beh_at cls ij m b k : beh_at (y_array cls) ij = Some (m, b) -> s_class m = Some k ->
  exists2 i, (i < 2)%N & ij = (i, 2)%N /\ b = nth b y_behs 2%N.
Proof.
destruct ij as [[|[|i]] [|[|[|j]]]]; cbn; intros H; try discriminate; try (destruct i; discriminate); try (destruct j; discriminate);
  injection H as <- <-; cbn; intros; try discriminate; [exists 0%N|exists 1%N]; done.
Qed.
Lemma y_commons hash svd cls : sound_commons (z_ops hash svd y_cross) y_vcross (y_array cls).
Proof.
split.
  by move=> ij m b k x /y_beh_at h /h [i _ [_ ->]] [<-].
by [].
Qed.
Lemma y_seen cls q i : psr_seen (y_p q) (y_coll cls i) (y_view q i).
Proof.
split=> //; constructor; first by split.
constructor; first by split.
constructor; last by constructor.
by split=> //=; split=> //; exists y_F.
Qed.
Lemma y_good hash q i : good_psr hash (y_model q i).
Proof.
have pos (x : R) : 0 < x * x + 1 by apply: ltr_paddl; [exact: sqr_ge0|exact: ltr01].
split=> //.
- rewrite /noises /= /ModelNoise.get_ndiag /=; congr (Ok (NVec _)); by apply/matrixP=> i0 j0; rewrite !mxE; exact: addr0.
- by have [] : [/\ good_noise (y_noise q.1.1), tm_k (y_noise q.1.1) = 0%N & inner_cov (y_noise q.1.1) = Some (cov_of (y_noise q.1.1))] by apply: plain_noise => j; rewrite mxE.
- split=> //.
  + move=> x y; rewrite /processes /= cats0 /ProofKernel.columns /=.
    by move=> /mapP [k _ ->] /mapP [k' _ ->] _; rewrite (ord1 k) (ord1 k').
  + by move=> s [<-|//] /=; apply: diag_posdef => j; rewrite !mxE.
Qed.
Lemma y_orf_posdef : posdef (\matrix_(i < 2, j < 2) y_orf i j).
Proof.
pose h : R := 2%:R^-1; have h0 : 0 < h by rewrite invr_gt0 ltr0n.
have -> : \matrix_(i < 2, j < 2) y_orf i j = diag (const_mx h) + h *: ((const_mx 1 : 'rV[R]_2)^T *m const_mx 1).
  apply/matrixP=> i j; rewrite !mxE big_ord_recl big_ord0 !mxE addr0 !mulr1 /y_orf -val_eqE /=.
  case: eqP => _; rewrite ?mulr1n ?mulr0n ?add0r //.
  by rewrite -mulr2n -mulr_natl mulfV // pnatr_eq0.
apply: posdefD.
- by apply: diag_posdef => j; rewrite mxE.
- by rewrite /sym linearZ /= trmx_mul trmxK.
- move=> x; rewrite /ProofLinalg.quad -scalemxAr -scalemxAl mxE; apply: mulr_ge0; first exact: ltW.
  by have := quad_gram (const_mx 1 : 'rV[R]_2) x; rewrite /ProofLinalg.quad => ->; exact: sqnorm_ge0.
Qed.
(** Any sequence of likelihoods, without and with correlations *)
Lemma y_likelihood : forall hash svd l,
  run (z_ops hash svd y_cross) (List.map fst (y_array None)) [seq ALike "cliques" (y_p q) | q <- l] (new_pta y_start) =
  List.map Ok [seq RLike (Fin (psr_term (y_model q 0) + psr_term (y_model q 1))) | q <- l].
Proof.
move=> hash svd l; apply: (@array_history_lem _ _ _ _ _ _ _ _ _ _ _ _ _ (z_ops hash svd y_cross) flat_values y_vcross) => //.
- exact: y_all.
- exact: y_commons.
- exact: y_inv.
elim: l => //= q l IH; constructor=> //; split; first exact: y_flat.
have S : List.Forall2 (fun c m => psr_seen (y_p q) c (pm m) /\ good_psr hash m) (y_array None) [:: y_model q 0; y_model q 1].
  by do 2!(constructor; first by split; [exact: y_seen|exact: y_good]).
have np : no_pairs (y_array None).
  by move=> ij ij' m m' b b' k; destruct ij as [[|[|i]] [|[|[|j]]]]; cbn; intros H; try discriminate; try (destruct i; discriminate); try (destruct j; discriminate); injection H as <- <-; cbn; intros; discriminate.
by rewrite /= (like_value svd y_cross (dom := flat_values) (fun _ _ e => ltac:(discriminate e)) (@y_flat q) y_vcross (y_all _) np S) ?big_cons ?big_nil ?addr0 //; right; left.
Qed.
Lemma y_correlated : forall hash svd l,
  run (z_ops hash svd y_cross) (List.map fst (y_array (Some 0%N))) [seq ALike "partition" (y_p q) | q <- l] (new_pta y_start) =
  List.map Ok [seq RLike (Fin (joint_term y_orf (y_phi q.2) [:: y_cpsr q 0; y_cpsr q 1])) | q <- l].
Proof.
move=> hash svd l; apply: (@array_history_lem _ _ _ _ _ _ _ _ _ _ _ _ _ (z_ops hash svd y_cross) flat_values y_vcross) => //.
- exact: y_all.
- exact: y_commons.
- exact: y_inv.
elim: l => //= q l IH; constructor=> //; split; first exact: y_flat.
have S : List.Forall2 (fun c x => [/\ psr_seen (y_p q) c (pm (cp_q x)), good_psr hash (cp_q x), has_common y_orf (y_phi q.2) x & one_common 0 c x]) (y_array (Some 0%N)) [:: y_cpsr q 0; y_cpsr q 1].
  have one i : one_common 0 (y_coll (Some 0%N) i) (y_cpsr q i) by move=> [|[|[|[|j]]]] m //= [<-].
  have com i : has_common y_orf (y_phi q.2) (y_cpsr q i).
    by eexists; exists false; exists false; split; first reflexivity; rewrite /= /y_orf eqxx scale1r.
  by do 2!(constructor; first by split; [exact: y_seen|exact: y_good|exact: com|exact: one]).
rewrite /= (corr_value svd y_cross (dom := flat_values) (fun _ _ e => ltac:(discriminate e)) (@y_flat q) (y_all _) S (v_cross := y_vcross)) //.
- move=> x y; rewrite /List.In => [[<-|[<-|//]]] [<-|[<-|//]] //.
- exact: y_orf_posdef.
- by move=> k; rewrite mxE; apply: ltr_paddl; [exact: sqr_ge0|exact: ltr01].
- by right=> x s hx; move: s; case: hx => [<-|[<-|//]] s [<-|//].
Qed.
