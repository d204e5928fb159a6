(** Block matrices over lists, and their positivity. *)
From Coq Require Import Reals.
From mathcomp Require Import all_ssreflect all_algebra.
From Verif Require Import RStruct PyBase ModelLinalg ProofLinalg ModelNoise ProofNoise ModelLike ProofLike ModelKernel ProofKernel ModelPhi ProofPhi.
Set Implicit Arguments.
Unset Strict Implicit.
Unset Printing Implicit Defensive.
Import GRing.Theory Num.Theory Order.TTheory.
Local Open Scope ring_scope.

(** * Specification *)
(** Sizes, vectors and matrices of the elements of a list, put together: one below the
    other, as blocks of a diagonal, as one row of blocks; and a symmetric matrix with given
    diagonal blocks [A x] and blocks [B x y] for [x] before [y] *)
Section Defs.
Variable T : Type.
Fixpoint gtot (f : T -> nat) (l : seq T) : nat := if l is x :: l then (f x + gtot f l)%N else 0%N.
Fixpoint gstack (f : T -> nat) (u : forall x, 'cV[R]_(f x)) (l : seq T) : 'cV[R]_(gtot f l) :=
  match l return 'cV[R]_(gtot f l) with [::] => 0 | x :: l => col_mx (u x) (gstack u l) end.
Fixpoint gbdiag (f g : T -> nat) (A : forall x, 'M[R]_(f x, g x)) (l : seq T) : 'M[R]_(gtot f l, gtot g l) :=
  match l return 'M[R]_(gtot f l, gtot g l) with [::] => 0 | x :: l => block_mx (A x) 0 0 (gbdiag A l) end.
Fixpoint gside (m : nat) (g : T -> nat) (B : forall y, 'M[R]_(m, g y)) (l : seq T) : 'M[R]_(m, gtot g l) :=
  match l return 'M[R]_(m, gtot g l) with [::] => 0 | y :: l => row_mx (B y) (gside B l) end.
Fixpoint gjoint (f : T -> nat) (A : forall x, 'M[R]_(f x)) (B : forall x y, 'M[R]_(f x, f y)) (l : seq T) : 'M[R]_(gtot f l) :=
  match l return 'M[R]_(gtot f l) with [::] => 0 | x :: l => block_mx (A x) (gside (B x) l) (gside (B x) l)^T (gjoint A B l) end.
End Defs.

(** * Algebra *)
Section Alg.
Variable T : Type.
Implicit Type l : seq T.
Lemma gside_mul m m' f g (U : 'M[R]_(m', m)) (B : forall y : T, 'M[R]_(m, g y)) (V : forall y, 'M[R]_(f y, g y)) l :
  U *m gside B l *m (gbdiag V l)^T = gside (fun y => U *m B y *m (V y)^T) l.
Proof.
elim: l => [|y l IH] /=; first by rewrite trmx0 mulmx0.
by rewrite tr_block_mx !trmx0 mul_mx_row mul_row_block !mulmx0 addr0 add0r IH.
Qed.
Lemma gjoint_mul f g (U : forall x : T, 'M[R]_(g x, f x)) A B l :
  gbdiag U l *m gjoint A B l *m (gbdiag U l)^T = gjoint (fun x => U x *m A x *m (U x)^T) (fun x y => U x *m B x y *m (U y)^T) l.
Proof.
elim: l => [|x l IH] /=; first by rewrite !mul0mx.
rewrite mulmx_block tr_block_mx !trmx0 !mul0mx !addr0 !add0r mulmx_block !mulmx0 !addr0 !add0r IH -gside_mul.
by rewrite !trmx_mul trmxK mulmxA.
Qed.
Lemma gjointD f A B A' B' l : gjoint (f := f) A B l + gjoint A' B' l = gjoint (fun x : T => A x + A' x) (fun x y => B x y + B' x y) l.
Proof.
elim: l => [|x l IH] /=; first by rewrite addr0.
have sD : gside (B x) l + gside (B' x) l = gside (fun y => B x y + B' x y) l.
  by elim: l {IH} => [|y l IH] /=; rewrite ?addr0 // add_row_mx IH.
by rewrite add_block_mx IH -sD linearD.
Qed.
Lemma gside0 m g l : gside (fun y : T => 0 : 'M[R]_(m, g y)) l = 0.
Proof. by elim: l => //= y l ->; rewrite row_mx0. Qed.
Lemma gbdiag_joint f A l : gbdiag A l = gjoint (f := f) A (fun x y : T => 0) l.
Proof. by elim: l => //= x l ->; rewrite gside0 trmx0. Qed.
Lemma eq_gside m g (B B' : forall y : T, 'M[R]_(m, g y)) l : (forall y, List.In y l -> B y = B' y) -> gside B l = gside B' l.
Proof. by elim: l => //= y l IH h; rewrite h ?IH //; [move=> z hz; apply: h; right|left]. Qed.
Lemma eq_gjoint f A B A' B' l : (forall x : T, List.In x l -> A x = A' x) -> (forall x y, List.In x l -> List.In y l -> B x y = B' x y) ->
  gjoint (f := f) A B l = gjoint A' B' l.
Proof.
elim: l => //= x l IH ha hb; rewrite ha; last by left.
rewrite (@eq_gside _ _ (B x) (B' x)); last by move=> y hy; apply: hb; [left|right].
by rewrite IH // => [y hy|y z hy hz]; [apply: ha; right|apply: hb; right].
Qed.
Lemma gjoint_sym f A B l : (forall x : T, List.In x l -> sym (A x)) -> sym (gjoint (f := f) A B l).
Proof.
elim: l => [|x l IH] h; first by rewrite /sym trmx0.
have := h x (or_introl erefl); have := IH (fun y hy => h y (or_intror hy)); rewrite /sym /= => s1 s2.
by rewrite tr_block_mx trmxK s1 s2.
Qed.

(** ** A place for each element *)
Section Place.
Variables (K : nat) (k : T -> nat) (S : forall x, 'M[R]_(K, k x)).
Fixpoint gplace l (i : nat) : 'M[R]_(gtot k l, K) :=
  match l return 'M[R]_(gtot k l, K) with
  | [::] => 0
  | x :: l => if i is i'.+1 then col_mx 0 (gplace l i') else col_mx (S x)^T 0
  end.
Variables (orf : nat -> nat -> R) (phi : 'M[R]_K).
Hypothesis sphi : sym phi.
Variable num : T -> nat.
Definition pair_mx N (E : nat -> 'M[R]_(N, K)) (ij : nat * nat) : 'M[R]_N :=
  orf ij.1 ij.2 *: (E ij.1 *m phi *m (E ij.2)^T + E ij.2 *m phi *m (E ij.1)^T).
Lemma pairs_map (A B : Type) (h : A -> B) (s : seq A) : pairs [seq h x | x <- s] = [seq (h p.1, h p.2) | p <- pairs s].
Proof.
elim: s => //= x s IH; rewrite map_cat IH; congr (_ ++ _).
by rewrite -!map_comp.
Qed.
Lemma col_quad a b a' b' (A : 'M[R]_(a, K)) (B : 'M[R]_(b, K)) (C : 'M[R]_(a', K)) (D : 'M[R]_(b', K)) :
  col_mx A B *m phi *m (col_mx C D)^T = block_mx (A *m phi *m C^T) (A *m phi *m D^T) (B *m phi *m C^T) (B *m phi *m D^T).
Proof. by rewrite mul_col_mx tr_col_mx mul_col_row. Qed.
(** The pairs of places are the blocks beside the diagonal. *)
Lemma place_joint l o : [seq num x | x <- l] = iota o (size l) ->
  \sum_(ij <- pairs (iota 0 (size l))) orf (o + ij.1) (o + ij.2) *: (gplace l ij.1 *m phi *m (gplace l ij.2)^T + gplace l ij.2 *m phi *m (gplace l ij.1)^T)
  = gjoint (fun x => 0) (fun x y => orf (num x) (num y) *: ((S x)^T *m phi *m S y)) l.
Proof.
elim: l o => [|x l IH] o /=; first by rewrite big_nil.
case=> ex el; rewrite big_cat /= big_map.
have -> : iota 1 (size l) = [seq i.+1 | i <- iota 0 (size l)] by rewrite (iotaDl 1).
rewrite pairs_map !big_map -(IH o.+1) //.
have e1 : \sum_(i <- iota 0 (size l)) orf (o + 0) (o + i.+1) *: (col_mx (S x)^T 0 *m phi *m (col_mx 0 (gplace l i))^T + col_mx 0 (gplace l i) *m phi *m (col_mx (S x)^T 0)^T)
   = block_mx 0 (\sum_(i <- iota 0 (size l)) orf o (o + i.+1) *: ((S x)^T *m phi *m (gplace l i)^T))
       (\sum_(i <- iota 0 (size l)) orf o (o + i.+1) *: ((S x)^T *m phi *m (gplace l i)^T))^T 0.
  elim: (iota 0 (size l)) => [|i s IHs]; first by rewrite !big_nil trmx0 block_mx0.
  rewrite !big_cons IHs !col_quad !trmx0 !mulmx0 !mul0mx ?mulmx0 add_block_mx !addr0 !add0r addn0 scale_block_mx !scaler0 add_block_mx !addr0.
  congr (block_mx _ _ _ _); rewrite linearD linearZ /=; congr (_ *: _ + _).
  by rewrite !trmx_mul !trmxK sphi mulmxA.
have e2 : \sum_(j <- pairs (iota 0 (size l))) orf (o + j.1.+1) (o + j.2.+1) *: (col_mx (0 : 'M[R]_(k x, K)) (gplace l j.1) *m phi *m (col_mx (0 : 'M[R]_(k x, K)) (gplace l j.2))^T + col_mx (0 : 'M[R]_(k x, K)) (gplace l j.2) *m phi *m (col_mx (0 : 'M[R]_(k x, K)) (gplace l j.1))^T)
  = block_mx 0 0 0 (\sum_(j <- pairs (iota 0 (size l))) orf (o.+1 + j.1) (o.+1 + j.2) *: (gplace l j.1 *m phi *m (gplace l j.2)^T + gplace l j.2 *m phi *m (gplace l j.1)^T)).
  elim: (pairs _) => [|j s IHs]; first by rewrite !big_nil block_mx0.
  rewrite !big_cons IHs !col_quad !trmx0 !mulmx0 !mul0mx ?mulmx0 add_block_mx !addr0 scale_block_mx !scaler0 add_block_mx !addr0.
  by rewrite !addnS !addSn.
rewrite e1 e2 add_block_mx !addr0 !add0r.
have e3 : forall o', [seq num x | x <- l] = iota o'.+1 (size l) ->
    \sum_(i <- iota 0 (size l)) orf o (o' + i.+1) *: ((S x)^T *m phi *m (gplace l i)^T) = gside (fun y => orf (num x) (num y) *: ((S x)^T *m phi *m S y)) l.
  rewrite ex; elim: l {IH e1 e2 el} => [|y l IH] o' /=; first by rewrite big_nil.
  case=> ey el; rewrite big_cons (iotaDl 1) big_map.
  rewrite tr_col_mx trmxK trmx0 mul_mx_row mulmx0 scale_row_mx scaler0 addn1 ey.
  rewrite -(IH o'.+1) //.
  have -> : \sum_(j <- iota 0 (size l)) orf o (o' + (1 + j).+1) *: ((S x)^T *m phi *m (col_mx (0 : 'M[R]_(k y, K)) (gplace l j))^T)
     = row_mx 0 (\sum_(j <- iota 0 (size l)) orf o (o'.+1 + j.+1) *: ((S x)^T *m phi *m (gplace l j)^T)).
    elim: (iota _ _) => [|j s IHs]; first by rewrite !big_nil row_mx0.
    rewrite !big_cons IHs tr_col_mx trmx0 mul_mx_row mulmx0 scale_row_mx scaler0 add_row_mx addr0.
    by rewrite !addnS !addSn ?add0n ?add1n.
  by rewrite add_row_mx addr0 add0r.
by rewrite (e3 o).
Qed.
End Place.
End Alg.

(** * Positivity *)
Section Kron.
Variables (T : Type) (K : nat) (num : T -> nat) (orf : nat -> nat -> R) (phi : 'cV[R]_K).
Local Notation D := (diag_mx phi^T).
Definition gkron (l : seq T) : 'M[R]_(gtot (fun _ => K) l) :=
  gjoint (fun x => orf (num x) (num x) *: D) (fun x y => orf (num x) (num y) *: D) l.
Fixpoint gpart (l : seq T) : 'cV[R]_(gtot (fun _ => K) l) -> nat -> 'cV[R]_K :=
  match l return 'cV[R]_(gtot (fun _ => K) l) -> nat -> 'cV[R]_K with
  | [::] => fun _ _ => 0
  | x :: l => fun v i => if i is i'.+1 then @gpart l (dsubmx (m1 := K) v) i' else usubmx (m1 := K) v
  end.
Definition ip (u w : 'cV[R]_K) : R := \sum_k phi k ord0 * (u k ord0 * w k ord0).
Lemma ipE u w : (u^T *m D *m w) ord0 ord0 = ip u w.
Proof.
rewrite mxE; apply: eq_bigr => k _; rewrite mul_mx_diag !mxE; by rewrite mulrCA mulrA.
Qed.
Lemma ipC u w : ip u w = ip w u.
Proof. by apply: eq_bigr => k _; rewrite [u k _ * _]mulrC. Qed.
Lemma side_sum l o x (u : 'cV[R]_K) (w : 'cV[R]_(gtot (fun _ => K) l)) : [seq num y | y <- l] = iota o (size l) ->
  (u^T *m gside (fun y => orf x (num y) *: D) l *m w) ord0 ord0 = \sum_(j < size l) orf x (o + j)%N * ip u (gpart w j).
Proof.
elim: l o w => [|y l IH] o w /=; first by rewrite big_ord0 mulmx0 mul0mx mxE.
case=> ey el; rewrite big_ord_recl /= addn0 -ey -{1}[w]vsubmxK mul_mx_row mul_row_col mxE -scalemxAr -scalemxAl [X in X + _]mxE ipE; congr (_ + _).
rewrite (IH o.+1) //; apply: eq_bigr => j _; by rewrite ey /bump /= addSnnS.
Qed.
Lemma quad_block a b (A : 'M[R]_a) (B : 'M[R]_(a, b)) (C : 'M[R]_b) u w :
  quad (block_mx A B B^T C) (col_mx u w) = quad A u + ((u^T *m B *m w) ord0 ord0 *+ 2 + quad C w).
Proof.
rewrite /quad tr_col_mx mul_row_block mul_row_col !mulmxDl [LHS]mxE [X in X + _]mxE [X in _ + X]mxE mulr2n -!addrA; congr (_ + _).
have -> : w^T *m B^T *m u = (u^T *m B *m w)^T by rewrite !trmx_mul trmxK mulmxA.
by rewrite [X in X + _]mxE.
Qed.
Lemma kron_quad l o (v : 'cV[R]_(gtot (fun _ => K) l)) : [seq num y | y <- l] = iota o (size l) ->
  (forall i j, (i < size l)%N -> (j < size l)%N -> orf (o + i)%N (o + j)%N = orf (o + j)%N (o + i)%N) ->
  quad (gkron l) v = \sum_(i < size l) \sum_(j < size l) orf (o + i)%N (o + j)%N * ip (gpart v i) (gpart v j).
Proof.
rewrite /gkron; elim: l o v => [|x l IH] o v /=; first by rewrite big_ord0 /quad mulmx0 mul0mx mxE.
case=> ex el so; rewrite -{1}[v]vsubmxK quad_block (side_sum _ _ _ el) (IH o.+1) //; last first.
  by move=> i j hi hj; rewrite !addSnnS; apply: so.
set u := usubmx _; set w := dsubmx _; rewrite big_ord_recl big_ord_recl /= addn0.
have -> : quad (orf (num x) (num x) *: D) u = orf o o * ip u u.
  by rewrite /quad -scalemxAr -scalemxAl mxE ipE ex.
rewrite -addrA; congr (_ + _); rewrite ex mulr2n -addrA; congr (_ + _).
  by apply: eq_bigr => j _; rewrite addSnnS.
rewrite -big_split /=; apply: eq_bigr => i _; rewrite big_ord_recl /= addn0; congr (_ + _).
  have := so 0%N i.+1 (ltn0Sn _) (ltn_ord i); rewrite addn0 addSnnS => ->; by rewrite ipC.
by apply: eq_bigr => j _; rewrite /bump /= !addSnnS.
Qed.
Lemma gpart0 l (v : 'cV[R]_(gtot (fun _ => K) l)) : (forall i, (i < size l)%N -> gpart v i = 0) -> v = 0.
Proof.
elim: l v => [|x l IH] v h; first by apply/matrixP => -[].
have h0 : usubmx v = 0 := h 0%N (ltn0Sn _).
have h1 : dsubmx v = 0 by apply: IH => i lt; exact: (h i.+1).
by rewrite -[v]vsubmxK h0 h1 col_mx0.
Qed.
Lemma kron_posdef l o : [seq num y | y <- l] = iota o (size l) -> posdef (\matrix_(i < size l, j < size l) orf (o + i)%N (o + j)%N) ->
  (forall k, 0 < phi k ord0) -> posdef (gkron l).
Proof.
move=> el [sG pG] pp; set G := matrix_of_fun _ _ in sG pG.
have so i j : (i < size l)%N -> (j < size l)%N -> orf (o + i)%N (o + j)%N = orf (o + j)%N (o + i)%N.
  by move=> li lj; move/matrixP/(_ (Ordinal lj) (Ordinal li)): sG; rewrite !mxE.
split; first by apply: gjoint_sym => x _; rewrite /sym linearZ /= tr_diag_mx.
move=> v v0.
have e : quad (gkron l) v = \sum_k phi k ord0 * quad G (\col_i gpart v i k ord0).
  rewrite (kron_quad _ el so) /ip.
  transitivity (\sum_(i < size l) \sum_(j < size l) \sum_k phi k ord0 * (orf (o + i)%N (o + j)%N * (gpart v i k ord0 * gpart v j k ord0))).
    by apply: eq_bigr => i _; apply: eq_bigr => j _; rewrite mulr_sumr; apply: eq_bigr => k _; rewrite mulrCA.
  transitivity (\sum_k \sum_(j < size l) \sum_(i < size l) phi k ord0 * (orf (o + i)%N (o + j)%N * (gpart v i k ord0 * gpart v j k ord0))).
    rewrite exchange_big /= [RHS]exchange_big /=; apply: eq_bigr => j _; exact: exchange_big.
  apply: eq_bigr => k _; rewrite /quad mxE mulr_sumr; apply: eq_bigr => j _; rewrite !mxE mulr_suml mulr_sumr; apply: eq_bigr => i _.
  by rewrite !mxE; congr (_ * _); rewrite mulrA [orf _ _ * _]mulrC.
have ge k : 0 <= phi k ord0 * quad G (\col_i gpart v i k ord0) by apply: mulr_ge0; [exact: ltW|exact: posdef_ge0].
rewrite e lt_neqAle sumr_ge0 ?andbT; last by move=> k _; exact: ge.
apply: contraNneq v0 => z; apply/eqP/gpart0 => i li; apply/matrixP => k j; rewrite (ord1 j) mxE.
have /eqP := esym z; rewrite psumr_eq0 => [/allP /(_ k)|k' _]; last exact: ge.
rewrite mem_index_enum => /(_ isT) /eqP /eqP; rewrite mulf_eq0 (negbTE (lt0r_neq0 (pp k))) /= => /eqP qz.
have : (\col_(i < size l) gpart v i k ord0) = 0.
  by apply/eqP; apply/negPn/negP => nz; have := pG _ nz; rewrite qz ltxx.
by move/matrixP/(_ (Ordinal li) ord0); rewrite !mxE.
Qed.
End Kron.
