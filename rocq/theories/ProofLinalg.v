(** Lemmas of linear algebra. *)
From Coq Require Import Reals Lra.
From mathcomp Require Import all_ssreflect all_algebra.
From Verif Require Import RStruct ModelLinalg.
Set Implicit Arguments.
Unset Strict Implicit.
Unset Printing Implicit Defensive.
Import GRing.Theory Num.Theory Order.TTheory.
Local Open Scope ring_scope.

(** * Specification *)

(** Quadratic form and positive definite matrices. *)
Definition quad (n : nat) (A : 'M[R]_n) (x : 'cV[R]_n) : R := (x^T *m A *m x) ord0 ord0.
Definition sym (n : nat) (A : 'M[R]_n) : Prop := A^T = A.
Definition posdef (n : nat) (A : 'M[R]_n) : Prop :=
  sym A /\ forall x : 'cV[R]_n, x != 0 -> 0 < quad A x.

(** * Logarithms *)
Lemma lnM (x y : R) : 0 < x -> 0 < y -> ln (x * y) = ln x + ln y.
Proof. by move=> /RltP x0 /RltP y0; exact: ln_mult. Qed.
Lemma lnV (x : R) : 0 < x -> ln (x^-1) = - ln x.
Proof. by move=> /RltP x0; exact: ln_Rinv. Qed.
Lemma ln_prod (I : Type) (r : seq I) (P : pred I) (f : I -> R) :
  (forall i, P i -> 0 < f i) ->
  0 < \prod_(i <- r | P i) f i /\ ln (\prod_(i <- r | P i) f i) = \sum_(i <- r | P i) ln (f i).
Proof.
move=> f0; elim: r => [|i r [IH1 IH2]]; first by rewrite !big_nil ltr01; split=> //; exact: ln_1.
rewrite !big_cons; case: ifP => // Pi; split; first by rewrite mulr_gt0 ?f0.
by rewrite lnM ?IH2 ?f0.
Qed.

(** * Block elimination, Woodbury, determinants, over any field *)
Section Field.
Variable F : fieldType.

Lemma det_block_l m n (A : 'M[F]_m) (B : 'M[F]_(m, n)) (C : 'M[F]_(n, m)) (D : 'M[F]_n) :
  A \in unitmx -> \det (block_mx A B C D) = \det A * \det (D - C *m invmx A *m B).
Proof.
move=> uA.
have -> : block_mx A B C D =
  block_mx 1%:M 0 (C *m invmx A) 1%:M *m block_mx A B 0 (D - C *m invmx A *m B).
  by rewrite mulmx_block !mul1mx !mul0mx !addr0 mulmxKV // addrC subrK.
by rewrite det_mulmx det_lblock det_ublock !det1 !mul1r.
Qed.

Lemma det_block_r m n (A : 'M[F]_m) (B : 'M[F]_(m, n)) (C : 'M[F]_(n, m)) (D : 'M[F]_n) :
  D \in unitmx -> \det (block_mx A B C D) = \det D * \det (A - B *m invmx D *m C).
Proof.
move=> uD.
have -> : block_mx A B C D =
  block_mx 1%:M (B *m invmx D) 0 1%:M *m block_mx (A - B *m invmx D *m C) 0 C D.
  by rewrite mulmx_block !mul1mx !mul0mx !add0r mulmxKV // subrK.
by rewrite det_mulmx det_lblock det_ublock !det1 !mul1r mulrC.
Qed.

Section Woodbury.
Variables (n m : nat) (N : 'M[F]_n) (T : 'M[F]_(n, m)) (P : 'M[F]_m) (V : 'M[F]_(m, n)).
Let S : 'M[F]_m := invmx P + V *m invmx N *m T.
Hypotheses (uN : N \in unitmx) (uP : P \in unitmx).

Lemma det_woodbury : \det (N + T *m P *m V) = \det N * \det P * \det S.
Proof.
have uP' : invmx P \in unitmx by rewrite unitmx_inv.
have := det_block_l (- T) V (invmx P) uN.
rewrite (det_block_r N (- T) V uP') invmxK !mulNmx opprK => H.
have dP : \det P * \det (invmx P) = 1 by rewrite -det_mulmx mulmxV // det1.
rewrite -[LHS]mul1r -dP -mulrA H mulmxN opprK /S.
by rewrite mulrCA mulrA.
Qed.

Lemma woodbury : S \in unitmx ->
  invmx (N + T *m P *m V) = invmx N - invmx N *m T *m invmx S *m V *m invmx N.
Proof.
move=> uS.
have uC : N + T *m P *m V \in unitmx.
  by rewrite unitmxE det_woodbury !unitrM -!unitmxE uN uP uS.
suff H : (N + T *m P *m V) *m (invmx N - invmx N *m T *m invmx S *m V *m invmx N) = 1%:M.
  by rewrite -[RHS](mulKmx uC) H mulmx1.
have key : P *m (V *m invmx N *m T) *m invmx S = P - invmx S.
  have -> : V *m invmx N *m T = S - invmx P by rewrite /S addrAC subrr add0r.
  by rewrite mulmxBr mulmxV // mulmxBl mulmxK // mul1mx.
rewrite mulmxDl mulmxBr mulmxV // mulmxBr.
rewrite !mulmxA mulmxV // mul1mx.
have -> : T *m P *m V *m invmx N *m T *m invmx S *m V *m invmx N =
          T *m (P *m (V *m invmx N *m T) *m invmx S) *m V *m invmx N by rewrite !mulmxA.
rewrite key mulmxBr !mulmxBl opprB.
set a := T *m invmx S *m V *m invmx N; set b := T *m P *m V *m invmx N.
by rewrite [b + _]addrCA subrr addr0 subrK.
Qed.
End Woodbury.

(** One more rank-one term. *)
Lemma det_rank1 n (A : 'M[F]_n) (u w : 'cV[F]_n) (j : F) :
  A \in unitmx -> A *m w = u ->
  \det (A + j *: (u *m u^T)) = \det A * (1 + j * (u^T *m w) ord0 ord0).
Proof.
move=> uA Aw.
have := det_block_l (- u) (j *: u^T) (1%:M : 'M_1) uA.
rewrite (det_block_r A (- u) (j *: u^T) (unitmx1 _ _)) invmx1 mulmx1 det1 mul1r mulNmx opprK -scalemxAr => ->.
congr (_ * _); rewrite mulmxN opprK -mulmxA -Aw mulKmx // -scalemxAl det_mx11 mxE [in X in _ + X]mxE.
by rewrite mxE eqxx.
Qed.
End Field.

(** * Positive definite matrices *)
Lemma sqrt_gt0 (x : R) : 0 < x -> 0 < sqrt x.
Proof. by move=> /RltP x0; apply/RltP/sqrt_lt_R0. Qed.
Lemma sqrt_mul (x : R) : 0 < x -> sqrt x * sqrt x = x.
Proof. by move=> /RltP x0; apply: sqrt_sqrt; apply: Rlt_le. Qed.

Lemma mx11_eq (F : ringType) (A B : 'M[F]_1) : A ord0 ord0 = B ord0 ord0 -> A = B.
Proof. by move=> H; apply/matrixP => i j; rewrite !ord1. Qed.

Lemma scalar11 (F : ringType) n (a : F) (v : 'rV[F]_n) : (a%:M : 'M_1) *m v = a *: v.
Proof. exact: mul_scalar_mx. Qed.

Lemma quad_tr n (A : 'M[R]_n) (x : 'cV[R]_n) : quad A^T x = quad A x.
Proof.
rewrite /quad -[in RHS](trmxK (x^T *m A *m x)).
by rewrite [RHS]mxE !trmx_mul trmxK mulmxA.
Qed.

Definition sqnorm n (x : 'cV[R]_n) : R := \sum_i x i ord0 ^+ 2.
Lemma sqnormE n (x : 'cV[R]_n) : (x^T *m x) ord0 ord0 = sqnorm x.
Proof. by rewrite mxE; apply: eq_bigr => i _; rewrite mxE expr2. Qed.
Lemma sqnorm_ge0 n (x : 'cV[R]_n) : 0 <= sqnorm x.
Proof. by apply: sumr_ge0 => i _; exact: sqr_ge0. Qed.
Lemma sqnorm_eq0 n (x : 'cV[R]_n) : sqnorm x = 0 -> x = 0.
Proof.
move=> /eqP; rewrite psumr_eq0; last by move=> i _; exact: sqr_ge0.
move=> /allP H; apply/colP => i; rewrite mxE.
by have := H i (mem_index_enum i); rewrite sqrf_eq0 => /eqP.
Qed.
Lemma sqnorm_gt0 n (x : 'cV[R]_n) : x != 0 -> 0 < sqnorm x.
Proof. by move=> x0; rewrite lt_neqAle sqnorm_ge0 andbT eq_sym; apply: contraNneq x0 => /sqnorm_eq0 ->. Qed.

Lemma quad_gram n k (U : 'M[R]_(k, n)) (x : 'cV[R]_n) : quad (U^T *m U) x = sqnorm (U *m x).
Proof. by rewrite /quad -sqnormE trmx_mul !mulmxA. Qed.

Lemma posdef_gram n k (U : 'M[R]_(k, n)) : (forall x : 'cV_n, U *m x = 0 -> x = 0) -> posdef (U^T *m U).
Proof.
move=> inj; split; first by rewrite /sym trmx_mul trmxK.
move=> x x0; rewrite quad_gram; apply: sqnorm_gt0; apply: contraNneq x0 => /inj ->.
by [].
Qed.

Lemma posdef_unit n (A : 'M[R]_n) : posdef A -> A \in unitmx.
Proof.
move=> [sA pA]; rewrite -row_free_unit -kermx_eq0; apply/eqP/row_matrixP => i.
rewrite row0; set v := row i (kermx A).
have vA : v *m A = 0 by apply/sub_kermxP; exact: row_sub.
apply/eqP; apply: contraT => v0.
have := pA v^T; rewrite -(inj_eq (@trmx_inj _ _ _)) trmxK trmx0 v0 => /(_ isT).
by rewrite /quad trmxK vA mul0mx mxE ltxx.
Qed.

Lemma posdef1 n : posdef (1%:M : 'M[R]_n).
Proof.
split; first exact: trmx1.
by move=> x x0; rewrite /quad mulmx1 sqnormE sqnorm_gt0.
Qed.

Lemma quadD n (A B : 'M[R]_n) x : quad (A + B) x = quad A x + quad B x.
Proof. by rewrite /quad mulmxDr mulmxDl mxE. Qed.

Lemma posdefD n (A B : 'M[R]_n) : posdef A -> sym B -> (forall x, 0 <= quad B x) -> posdef (A + B).
Proof.
move=> [sA pA] sB pB; split; first by rewrite /sym linearD /= sA sB.
by move=> x x0; rewrite quadD ltr_paddr // pA.
Qed.

Lemma quad_congr n k (A : 'M[R]_n) (T : 'M[R]_(n, k)) x : quad (T^T *m A *m T) x = quad A (T *m x).
Proof. by rewrite /quad trmx_mul !mulmxA. Qed.

Lemma posdef_ge0 n (A : 'M[R]_n) x : posdef A -> 0 <= quad A x.
Proof.
move=> [_ pA]; case: (x =P 0) => [->|/eqP x0]; last exact/ltW/pA.
by rewrite /quad mulmx0 mxE.
Qed.

Lemma posdef_congr n k (A : 'M[R]_n) (T : 'M[R]_(n, k)) :
  posdef A -> (forall x : 'cV_k, T *m x = 0 -> x = 0) -> posdef (T^T *m A *m T).
Proof.
move=> [sA pA] inj; split; first by rewrite /sym !trmx_mul trmxK sA mulmxA.
by move=> x x0; rewrite quad_congr pA //; apply: contraNneq x0 => /inj ->.
Qed.

Lemma sym_inv n (A : 'M[R]_n) : sym A -> sym (invmx A).
Proof. by move=> sA; rewrite /sym trmx_inv sA. Qed.

Lemma posdef_inv n (A : 'M[R]_n) : posdef A -> posdef (invmx A).
Proof.
move=> pA; have uA := posdef_unit pA; have [sA _] := pA.
have -> : invmx A = (invmx A)^T *m A *m invmx A.
  by rewrite trmx_inv sA mulVmx // mul1mx.
by apply: posdef_congr => // x /(congr1 (mulmx A)); rewrite mulKVmx // mulmx0.
Qed.

(** * Cholesky *)
Lemma chol_block n (A : 'M[R]_(1 + n)) U : chol A = Some U ->
  exists U' : 'M[R]_n, let s := sqrt (A ord0 ord0) in
    0 < A ord0 ord0 /\ chol (drsubmx A - (s^-1 *: ursubmx A)^T *m (s^-1 *: ursubmx A)) = Some U' /\
    U = block_mx (s%:M : 'M_1) (s^-1 *: ursubmx A) 0 U'.
Proof.
rewrite /=; case: ifP => // a0; case E: (chol _) => [U'|] // [<-]; exists U'; split=> //.
Qed.

Lemma chol_spec n : forall (A U : 'M[R]_n), chol A = Some U ->
  (forall i j : 'I_n, (j < i)%N -> U i j = 0) /\ (forall i, 0 < U i i) /\
  (forall i j : 'I_n, (i <= j)%N -> (U^T *m U) i j = A i j).
Proof.
elim: n => [|n IH] A U.
  by move=> _; split; [case|split; case].
move=> /(@chol_block n A) [U' /= [a0 [/IH [H1 [H2 H3]] ->]]] {IH U}.
set s := sqrt _ in H1 H2 H3 *; set v := s^-1 *: _ in H1 H2 H3 *.
have s0 : 0 < s by exact: sqrt_gt0.
have ss : s * s = A ord0 ord0 by exact: sqrt_mul.
split; [|split].
- move=> i j; case: (split_ordP (i : 'I_(1 + n))) => i' ->; case: (split_ordP (j : 'I_(1 + n))) => j' -> //=.
  + by rewrite !ord1 ltnn.
  + by rewrite !ord1.
  + by rewrite (@block_mxEdl _ 1 n 1 n) mxE.
  + by rewrite ltn_add2l (@block_mxEdr _ 1 n 1 n) => /H1.
- move=> i; case: (split_ordP (i : 'I_(1 + n))) => i' ->; first by rewrite (@block_mxEul _ 1 n 1 n) !ord1 mxE eqxx.
  by rewrite (@block_mxEdr _ 1 n 1 n).
- move=> i j; rewrite (@tr_block_mx _ 1 n 1 n) (@mulmx_block _ 1 n 1 n 1 n) !trmx0 !mul0mx !mulmx0 !addr0.
  case: (split_ordP (i : 'I_(1 + n))) => i' ->; case: (split_ordP (j : 'I_(1 + n))) => j' -> //= ij.
  + rewrite (@block_mxEul _ 1 n 1 n) !ord1 tr_scalar_mx -scalar_mxM mxE eqxx ss.
    by congr (A _ _); apply/val_inj.
  + rewrite (@block_mxEur _ 1 n 1 n) tr_scalar_mx scalar11 /v scalerA mulfV ?gt_eqF // scale1r mxE mxE.
    by congr (A _ _); apply/val_inj; rewrite /= ?ord1.
  + by rewrite !ord1 in ij.
  + rewrite ltn_add2l in ij || rewrite leq_add2l in ij.
    by rewrite (@block_mxEdr _ 1 n 1 n) [LHS]mxE H3 // !mxE addrC subrK.
Qed.

Lemma sym_upper n (A B : 'M[R]_n) : sym A -> sym B ->
  (forall i j : 'I_n, (i <= j)%N -> A i j = B i j) -> A = B.
Proof.
move=> sA sB H; apply/matrixP => i j; case: (leqP i j) => [/H //|/ltnW ji].
by rewrite -sA -sB !mxE H.
Qed.

Lemma chol_gram n (A U : 'M[R]_n) : sym A -> chol A = Some U -> U^T *m U = A.
Proof.
move=> sA /chol_spec [_ [_ H]]; apply: sym_upper => //.
by rewrite /sym trmx_mul trmxK.
Qed.

Lemma chol_det n (A U : 'M[R]_n) : chol A = Some U -> \det U = \prod_i U i i.
Proof.
move=> /chol_spec [H _]; rewrite -det_tr det_trig; first by apply: eq_bigr => i _; rewrite mxE.
by apply/is_trig_mxP => i j ij; rewrite mxE H.
Qed.

Lemma chol_det_gt0 n (A U : 'M[R]_n) : chol A = Some U -> 0 < \det U.
Proof.
move=> H; rewrite (chol_det H); have [_ [U0 _]] := chol_spec H.
by apply: prodr_gt0 => i _.
Qed.

Lemma chol_unit n (A U : 'M[R]_n) : chol A = Some U -> U \in unitmx.
Proof. by move=> /chol_det_gt0 H; rewrite unitmxE unitfE gt_eqF. Qed.

Lemma chol_posdef n (A U : 'M[R]_n) : sym A -> chol A = Some U -> posdef A.
Proof.
move=> sA H; rewrite -(chol_gram sA H); apply: posdef_gram => x Ux.
by rewrite -[x](mulKmx (chol_unit H)) Ux mulmx0.
Qed.

Lemma posdef_chol n (A : 'M[R]_n) : posdef A -> exists U, chol A = Some U.
Proof.
elim: n A => [|n IH] A pA; first by exists 0.
have [sA qA] := pA.
pose a := A ord0 ord0.
have a0 : 0 < a.
  have := qA (delta_mx ord0 ord0); rewrite /quad trmx_delta -rowE mxE => H.
  have d0 : (delta_mx ord0 ord0 : 'cV[R]_(n.+1)) != 0.
    by apply/eqP => /matrixP /(_ ord0 ord0) /eqP; rewrite !mxE !eqxx oner_eq0.
  move: (H d0); rewrite (bigD1 ord0) //= !mxE !eqxx mulr1 big1 ?addr0 //.
  by move=> k /negbTE k0; rewrite !mxE k0 mulr0.
rewrite [chol A]/= -/a a0.
set s := sqrt a; set v : 'rV_n := s^-1 *: _.
have s0 : 0 < s by exact: sqrt_gt0.
have ss : s * s = a by exact: sqrt_mul.
pose b : 'rV_n := @ursubmx _ 1 n 1 n A.
pose D : 'M_n := @drsubmx _ 1 n 1 n A.
have AE : A = block_mx (a%:M : 'M_1) b b^T D :> 'M_(1 + n).
  rewrite -[LHS](@submxK _ 1 n 1 n) /b /D; congr block_mx.
    by apply: mx11_eq; rewrite !mxE eqxx mulr1n /a; congr (A _ _); apply/val_inj.
  by apply/matrixP => i j; rewrite !mxE -[in LHS]sA mxE.
have vv : v^T *m v = a^-1 *: (b^T *m b).
  have -> : v = s^-1 *: b by [].
  have -> : (s^-1 *: b)^T = s^-1 *: b^T by rewrite linearZ.
  by rewrite -scalemxAl -scalemxAr scalerA -invfM ss.
have Ds : sym D by rewrite /sym /D trmx_drsub sA.
suff pS : posdef (drsubmx (A : 'M_(1 + n)) - v^T *m v).
  by have [U ->] := IH _ pS; eexists.
rewrite -/D vv; split.
  by rewrite /sym linearB /= Ds linearZ /= trmx_mul trmxK.
move=> y y0; pose x : 'cV_(1 + n) := col_mx (- a^-1 *: (b *m y)) y.
have x0 : x != 0.
  by apply: contraNneq y0 => x0; rewrite -[y](@col_mxKd _ 1 n _ (- a^-1 *: (b *m y))) -/x x0 linear0.
suff <- : quad A x = quad (D - a^-1 *: (b^T *m b)) y by exact: qA.
rewrite /quad AE /x (@tr_col_mx _ 1 n 1) (@mul_row_block _ 1 1 n 1 n) (@mul_row_col _ 1 1 n 1).
set t := b *m y.
have E1 : (- a^-1 *: t)^T *m (a%:M : 'M_1) + y^T *m b^T = 0.
  rewrite linearZ /= mul_mx_scalar scalerA mulrN mulfV ?gt_eqF // scaleN1r.
  by rewrite -trmx_mul -/t addNr.
have E2 : (- a^-1 *: t)^T = - a^-1 *: t^T by rewrite linearZ.
rewrite E1 mul0mx add0r E2 -scalemxAl mulmxDl mulmxBr mulmxBl [in LHS]addrC.
rewrite -scalemxAr -!scalemxAl scaleNr; by rewrite /t trmx_mul !mulmxA.
Qed.

Theorem chol_posdefP n (A : 'M[R]_n) : sym A -> (exists U, chol A = Some U) <-> posdef A.
Proof.
move=> sA; split; last exact: posdef_chol.
by case=> U; exact: chol_posdef.
Qed.

Lemma chol_none n (A : 'M[R]_n) : sym A -> ~ posdef A -> chol A = None.
Proof. by move=> sA nA; case E: (chol A) => [U|] //; case: nA; exact: chol_posdef E. Qed.

Lemma cho_solveE n k (A U : 'M[R]_n) (b : 'M[R]_(n, k)) :
  sym A -> chol A = Some U -> cho_solve U b = invmx A *m b.
Proof.
move=> sA H; have uU := chol_unit H.
rewrite /cho_solve -(chol_gram sA H) mulmxA; congr (_ *m _).
have uUt : U^T \in unitmx by rewrite unitmx_tr.
rewrite -[RHS]mul1mx -[in RHS](mulVmx uU) -!mulmxA; congr (_ *m _).
rewrite -[RHS]mul1mx -[in RHS](mulVmx uUt) -!mulmxA.
rewrite [U^T *m (U *m _)]mulmxA mulmxV ?mulmx1 //.
by rewrite unitmx_mul uUt.
Qed.

Lemma posdef_det n (A : 'M[R]_n) : posdef A -> 0 < \det A.
Proof.
move=> pA; have [U H] := posdef_chol pA; rewrite -(chol_gram pA.1 H) det_mulmx det_tr.
by rewrite mulr_gt0 // (chol_det_gt0 H).
Qed.

Lemma cho_logdetE n (A U : 'M[R]_n) : sym A -> chol A = Some U -> cho_logdet U = ln (\det A).
Proof.
move=> sA H; rewrite -(chol_gram sA H) det_mulmx det_tr lnM ?(chol_det_gt0 H) //.
rewrite (chol_det H).
have [_ [U0 _]] := chol_spec H.
have [_ ->] := @ln_prod 'I_n (index_enum _) xpredT (fun i => U i i) (fun i _ => U0 i).
by rewrite /cho_logdet -big_split /=; apply: eq_bigr => i _; rewrite mulr_natl mulr2n.
Qed.
