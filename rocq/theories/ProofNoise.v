(** Proofs about the white-noise matrix objects. *)
From Coq Require Import Reals Lra.
From mathcomp Require Import all_ssreflect all_algebra.
From Verif Require Import RStruct PyBase ModelLinalg ProofLinalg ModelNoise.
Set Implicit Arguments.
Unset Strict Implicit.
Unset Printing Implicit Defensive.
Import GRing.Theory Num.Theory Order.TTheory.
Local Open Scope ring_scope.

(** * Specifications *)

(** What [solve] must return for a covariance [C], by argument shapes. *)
Definition exact_solve (n : nat) (C : 'M[R]_n) (other : arr n) (l : option (arr n)) : out :=
  match other, l with
  | A1 x, None => OV (vec (invmx C *m x))
  | A2 _ X, None => OM (rows (invmx C *m X))
  | A1 x, Some (A1 y) => OS ((y^T *m invmx C *m x) ord0 ord0)
  | A1 x, Some (A2 _ Z) => OV (vec (Z^T *m invmx C *m x))
  | A2 _ X, Some (A1 y) => OV (vec (y^T *m invmx C *m X)^T)
  | A2 _ X, Some (A2 _ Z) => OM (rows (Z^T *m invmx C *m X))
  end.
Definition exact_ret (n : nat) (C : 'M[R]_n) other l (ld : bool) : result (out * option R) :=
  Ok (exact_solve C other l, if ld then Some (ln (\det C)) else None).

(** Independent noise: variances on the diagonal. *)
Definition diag_cov (n : nat) (v : 'cV[R]_n) : 'M[R]_n := \matrix_(i, k) (if i == k then v i ord0 else 0).
(** Epoch-correlated noise: [j] on all pairs of TOAs of an epoch of more than one TOA. *)
Definition ecorr_cov (n : nat) (bs : seq (seq 'I_n * R)) : 'M[R]_n :=
  \matrix_(i, k) \sum_(b <- bs | [&& (1 < size b.1)%N, i \in b.1 & k \in b.1]) b.2.
(** No TOA belongs to two epochs, nor twice to one. *)
Definition disjoint_epochs (n : nat) (es : seq (seq 'I_n)) : Prop := uniq (flatten es).

(** * Diagonal noise *)
Section Diag.
Variable n : nat.
Implicit Types (v x y : 'cV[R]_n).

Lemma dotE x y : dot x y = (x^T *m y) ord0 ord0.
Proof. by rewrite /dot mxE; apply: eq_bigr => i _; rewrite mxE. Qed.

Lemma diag_covE v : diag_cov v = diag v.
Proof. by apply/matrixP => i k; rewrite !mxE; case: eqP => [->|_]; rewrite ?mulr1n ?mulr0n. Qed.

Lemma diag_vec_div k v (X : 'M[R]_(n, k)) : (forall i, v i ord0 != 0) -> diag v *m vec_div X v = X.
Proof.
move=> v0; apply/matrixP => i j; rewrite /diag mul_diag_mx !mxE.
by rewrite mulrCA mulfV ?mulr1.
Qed.

Lemma det_diagv v : \det (diag v) = \prod_i v i ord0.
Proof. by rewrite /diag det_diag; apply: eq_bigr => i _; rewrite mxE. Qed.

Lemma diag_unit v : (forall i, v i ord0 != 0) -> diag v \in unitmx.
Proof. by move=> v0; rewrite unitmxE det_diagv unitfE; apply/prodf_neq0 => i _. Qed.

Lemma vec_divE k v (X : 'M[R]_(n, k)) : (forall i, v i ord0 != 0) -> vec_div X v = invmx (diag v) *m X.
Proof. by move=> v0; rewrite -{2}(diag_vec_div X v0) mulKmx ?diag_unit. Qed.

Lemma pos_neq0 v : (forall i, 0 < v i ord0) -> forall i, v i ord0 != 0.
Proof. by move=> H i; rewrite gt_eqF. Qed.

Lemma vec_logdetE v : (forall i, 0 < v i ord0) -> vec_logdet v = ln (\det (diag v)).
Proof. by move=> v0; rewrite det_diagv /vec_logdet; case: (@ln_prod _ (index_enum _) xpredT (fun i => v i ord0)). Qed.

Lemma diag_sym v : sym (diag v).
Proof. by rewrite /sym /diag tr_diag_mx. Qed.

Lemma diag_posdef v : (forall i, 0 < v i ord0) -> posdef (diag v).
Proof.
move=> v0; split=> [|x x0]; first exact: diag_sym.
have Q : quad (diag v) x = \sum_i v i ord0 * (x i ord0 ^+ 2).
  rewrite /quad /diag -mulmxA mul_diag_mx mxE; apply: eq_bigr => i _.
  by rewrite !mxE mulrCA expr2.
rewrite Q; have [i xi] : exists i, x i ord0 != 0.
  apply/existsP; apply: contraR x0; rewrite negb_exists => /forallP H.
  by apply/eqP/colP => i; rewrite mxE; apply/eqP; move: (H i); rewrite negbK.
rewrite (bigD1 i) //= ltr_paddr //.
  by apply: sumr_ge0 => k _; rewrite mulr_ge0 ?sqr_ge0 // ltW.
by rewrite mulr_gt0 // lt_neqAle eq_sym sqrf_eq0 xi sqr_ge0.
Qed.
End Diag.

(** Turning [left_dot] into the exact products. *)
Lemma left_dotE n (C : 'M[R]_n) (other : arr n) l (m : arr n) : sym C ->
  m = (match other with A1 x => A1 (invmx C *m x) | A2 _ X => A2 (invmx C *m X) end) ->
  left_dot l m = exact_solve C other l.
Proof.
move=> sC ->; case: other => [x|k X]; case: l => [[y|l Z]|] //=.
- by rewrite dotE mulmxA.
- by rewrite mulmxA.
- by congr (OV (vec _)); rewrite !trmx_mul trmxK mulmxA.
- by rewrite mulmxA.
Qed.

Lemma diag_solve_lem : forall n (v : 'cV[R]_n) other left ld, (forall i, 0 < v i ord0) ->
  solve (NVec v) other left ld = exact_ret (diag_cov v) other (left_of other left) ld.
Proof.
move=> n v other left ld v0; rewrite /exact_ret diag_covE /=.
have -> : left_dot (left_of other left) (arr_div other v) = exact_solve (diag v) other (left_of other left).
  apply: left_dotE; first exact: diag_sym.
  by case: other => [x|k X] /=; rewrite vec_divE //; exact: pos_neq0.
by case: ld; rewrite /with_logdet /= ?vec_logdetE.
Qed.

(** * ShermanMorrison *)
Section SMproof.
Variable n : nat.
Variable v : 'cV[R]_n.
Hypothesis v0 : forall i, 0 < v i ord0.
Implicit Types (x y : 'cV[R]_n) (bs : seq (seq 'I_n * R)).

Definition ucol (idx : seq 'I_n) : 'cV[R]_n := \col_i (i \in idx)%:R.
Definition smcov bs : 'M[R]_n :=
  diag v + \sum_(b <- bs | (1 < size b.1)%N) b.2 *: (ucol b.1 *m (ucol b.1)^T).

Lemma smcovE bs : smcov bs = diag_cov v + ecorr_cov bs.
Proof.
rewrite /smcov diag_covE; congr (_ + _); apply/matrixP => i k.
rewrite summxE !mxE.
rewrite [RHS]big_mkcondr /=; apply: eq_bigr => b _.
by rewrite !mxE big_ord1 !mxE; case: (i \in b.1); case: (k \in b.1); rewrite ?mulr1 ?mul0r ?mulr0.
Qed.

Lemma smcov_rcons bs b : smcov (rcons bs b) =
  if (1 < size b.1)%N then smcov bs + b.2 *: (ucol b.1 *m (ucol b.1)^T) else smcov bs.
Proof.
rewrite /smcov -cats1 big_cat /= big_cons big_nil; case: ifP => _; by rewrite ?addr0 ?addrA.
Qed.

Lemma nidotE idx x : uniq idx -> nidot v idx x = ((ucol idx)^T *m vec_div x v) ord0 ord0.
Proof.
move=> U; rewrite /nidot big_uniq //= mxE [RHS]big_mkcond /= big_mkcond /=; apply: eq_bigr => i _.
by rewrite !mxE; case: (i \in idx); rewrite ?mul1r ?mul0r // mulrC.
Qed.
Lemma nisumE idx : uniq idx -> nisum v idx = ((ucol idx)^T *m vec_div (ucol idx) v) ord0 ord0.
Proof.
move=> U; rewrite -nidotE // /nisum /nidot; apply: eq_big_seq => i H.
by rewrite mxE H mulr1.
Qed.
Lemma nisum_ge0 idx : 0 <= nisum v idx.
Proof. by rewrite /nisum; apply: sumr_ge0 => i _; rewrite invr_ge0 ltW. Qed.

Definition sm_step (x Nx : 'cV[R]_n) (b : seq 'I_n * R) : 'cV[R]_n :=
  if (1 < size b.1)%N then Nx - (beta v b.1 b.2 * nidot v b.1 x) *: vec_div (ucol b.1) v else Nx.
Lemma sm_D1_rcons bs b x : sm_D1 (rcons bs b) v x = sm_step x (sm_D1 bs v x) b.
Proof.
rewrite /sm_D1 foldl_rcons /sm_step; case: ifP => // _; apply/colP => i; rewrite !mxE.
by case: (i \in b.1); rewrite ?mul1r ?mul0r ?mulr0 ?subr0.
Qed.

Definition smok bs := uniq (flatten [seq b.1 | b <- bs]) /\ (forall b, b \in bs -> 0 < b.2).
Lemma smok_rcons bs b : smok (rcons bs b) ->
  [/\ smok bs, uniq b.1, 0 < b.2 & forall i, i \in b.1 -> i \notin flatten [seq c.1 | c <- bs]].
Proof.
case; rewrite map_rcons flatten_rcons cat_uniq => /and3P [U1 H U2] J; split=> //.
- by split=> // c cb; apply: J; rewrite mem_rcons in_cons cb orbT.
- by apply: J; rewrite mem_rcons mem_head.
- by move=> i ib; apply: contra H => ic; apply/hasP; exists i.
Qed.

Lemma ucol_dot idx x y : (forall i, i \in idx -> x i ord0 = y i ord0) ->
  ((ucol idx)^T *m x) ord0 ord0 = ((ucol idx)^T *m y) ord0 ord0.
Proof.
move=> H; rewrite !mxE; apply: eq_bigr => i _; rewrite !mxE.
by case: (boolP (i \in idx)) => I; rewrite ?mul0r // !mul1r H.
Qed.

Lemma scalar_col k (a : R) (u : 'cV[R]_k) : u *m (a%:M : 'M_1) = a *: u.
Proof. by rewrite mul_mx_scalar. Qed.
Lemma mx11_scal (A : 'M[R]_1) : A = (A ord0 ord0)%:M.
Proof. by rewrite {1}[A]mx11_scalar. Qed.

Lemma rank1_mul k (j : R) (u z : 'cV[R]_k) : (j *: (u *m u^T)) *m z = (j * (u^T *m z) ord0 ord0) *: u.
Proof. by rewrite -scalemxAl -mulmxA {1}[u^T *m z]mx11_scal scalar_col scalerA. Qed.

Lemma sm_inv bs : smok bs ->
  [/\ forall x, smcov bs *m sm_D1 bs v x = x,
      forall x i, i \notin flatten [seq b.1 | b <- bs] -> sm_D1 bs v x i ord0 = x i ord0 / v i ord0,
      forall idx, (forall i, i \in idx -> i \notin flatten [seq b.1 | b <- bs]) ->
        smcov bs *m vec_div (ucol idx) v = ucol idx
    & 0 < \det (smcov bs) /\ sm_logdet bs v = ln (\det (smcov bs))].
Proof.
elim/last_ind: bs => [|bs b IH] ok.
  split=> [x|x i _|idx _|].
  - by rewrite /smcov big_nil addr0 /sm_D1 /= diag_vec_div //; exact: pos_neq0.
  - by rewrite /sm_D1 /= mxE.
  - by rewrite /smcov big_nil addr0 diag_vec_div //; exact: pos_neq0.
  - rewrite /smcov big_nil addr0 /sm_logdet /= det_diagv; split; first by apply: prodr_gt0.
    by case: (@ln_prod _ (index_enum _) xpredT (fun i => v i ord0)).
have [okb U J D] := smok_rcons ok; have [I1 I2 I3 [I4 I5]] := IH okb.
set idx := b.1 in U D *; set j := b.2 in J *.
have w : smcov bs *m vec_div (ucol idx) v = ucol idx by apply: I3.
set s := nisum v idx.
have s0 : 0 <= s by apply: nisum_ge0.
have b0 : 0 < s + j^-1 by rewrite ltr_paddl // invr_gt0.
have j0 : j != 0 by rewrite gt_eqF.
have B : beta v idx j * (1 + j * s) = j.
  rewrite /beta -/s; apply: (mulfI (lt0r_neq0 b0)).
  by rewrite mulrA mulfV ?lt0r_neq0 // mul1r mulrDl mulVf // addrC mulrC.
rewrite smcov_rcons; split.
- move=> x; rewrite sm_D1_rcons /sm_step -/idx -/j; case: ifP => _ //.
  rewrite mulmxDl mulmxBr I1 -scalemxAr w.
  set a := _ * nidot v idx x.
  have E1 : (ucol idx)^T *m sm_D1 bs v x = (nidot v idx x)%:M.
    rewrite [LHS]mx11_scal nidotE //; congr (_%:M); apply: ucol_dot => i ii.
    by rewrite I2 ?D // mxE.
  have E2 : (ucol idx)^T *m vec_div (ucol idx) v = s%:M.
    by rewrite [LHS]mx11_scal -nisumE.
  rewrite rank1_mul mulmxBr E1 -scalemxAr E2 -addrA -[RHS]addr0; congr (_ + _).
  rewrite !mxE eqxx !mulr1n -scaleNr -scalerDl; apply/eqP; rewrite scaler_eq0; apply/orP; left.
  have -> : - a + j * (nidot v idx x - a * s) = nidot v idx x * (j - beta v idx j * (1 + j * s)).
    by rewrite /a; ring_R.
  by rewrite B subrr mulr0.
- move=> x i; rewrite map_rcons flatten_rcons mem_cat negb_or => /andP [i1 i2].
  rewrite sm_D1_rcons /sm_step -/idx; case: ifP => _; last exact: I2.
  by rewrite !mxE I2 // (negbTE i2) mul0r mulr0 subr0.
- move=> idx' D'.
  have D1 : forall i, i \in idx' -> i \notin flatten [seq c.1 | c <- bs].
    by move=> i /D'; rewrite map_rcons flatten_rcons mem_cat negb_or => /andP [].
  have D2 : forall i, i \in idx' -> i \notin idx.
    by move=> i /D'; rewrite map_rcons flatten_rcons mem_cat negb_or => /andP [].
  case: ifP => _; last exact: I3.
  rewrite mulmxDl I3 // -scalemxAl -mulmxA -/idx.
  have -> : (ucol idx)^T *m vec_div (ucol idx') v = 0.
    rewrite [LHS]mx11_scal mxE big1 ?raddf0 // => i _; rewrite !mxE.
    case: (boolP (i \in idx')) => [/D2 /negbTE ->|_]; first by rewrite mul0r.
    by rewrite mul0r mulr0.
  by rewrite mulmx0 scaler0 addr0.
- have EL : sm_logdet (rcons bs b) v = if (1 < size idx)%N then sm_logdet bs v + (ln j - ln (beta v idx j)) else sm_logdet bs v.
    by rewrite /sm_logdet foldl_rcons.
  rewrite EL -/idx -/j; case: ifP => _ //.
  have uC : smcov bs \in unitmx by rewrite unitmxE unitfE lt0r_neq0.
  rewrite (det_rank1 j uC w) -nisumE // -/s.
  have p : 0 < 1 + j * s by rewrite ltr_paddr ?ltr01 ?mulr_ge0 ?(ltW J).
  split; first by rewrite mulr_gt0.
  rewrite I5 lnM //; congr (_ + _).
  have -> : ln (beta v idx j) = - ln (s + j^-1) by rewrite /beta -/s lnV.
  rewrite opprK -lnM //; congr ln; by rewrite RmultE mulrDr mulfV // addrC.
Qed.

Lemma smcov_unit bs : smok bs -> smcov bs \in unitmx.
Proof. by move=> /sm_inv [_ _ _ [D _]]; rewrite unitmxE unitfE lt0r_neq0. Qed.

Lemma smcov_sym bs : sym (smcov bs).
Proof.
rewrite /sym /smcov linearD /= diag_sym; congr (_ + _).
rewrite linear_sum /=; apply: eq_bigr => b _.
by rewrite linearZ /= trmx_mul trmxK.
Qed.

Lemma sm_D1E bs x : smok bs -> sm_D1 bs v x = invmx (smcov bs) *m x.
Proof.
move=> ok; have [H _ _ _] := sm_inv ok; by rewrite -{2}(H x) mulKmx ?smcov_unit.
Qed.

Lemma sm_1D1E bs x y : smok bs -> sm_1D1 bs v x y = dot y (sm_D1 bs v x).
Proof.
elim/last_ind: bs => [|bs b IH] ok; first by [].
have [okb U _ _] := smok_rcons ok.
rewrite sm_D1_rcons /sm_step /sm_1D1 foldl_rcons -/(sm_1D1 bs v x y) IH //; case: ifP => // _.
have -> : forall z c w, dot y (z - c *: w) = dot y z - c * dot y w.
  by move=> z c w; rewrite !dotE mulmxBr -scalemxAr !mxE.
congr (_ - _ * _); rewrite nidotE // !mxE; apply: eq_bigr => i _; rewrite !mxE.
by rewrite [RHS]mulrCA.
Qed.

Lemma sm_2D2_entry bs k l (X : 'M[R]_(n, l)) (Z : 'M[R]_(n, k)) p q :
  sm_2D2 bs v X Z p q = sm_1D1 bs v (col q X) (col p Z).
Proof.
elim/last_ind: bs => [|bs b IH].
  rewrite /sm_2D2 /sm_1D1 /= mxE /dot; apply: eq_bigr => i _; rewrite !mxE.
  by rewrite -mulrA; congr (_ * _); rewrite mulrC.
rewrite /sm_2D2 /sm_1D1 !foldl_rcons -/(sm_2D2 bs v X Z) -/(sm_1D1 bs v _ _); case: ifP => // _.
by rewrite mxE IH -mulrA (mulrC (nidot _ _ (col p Z))).
Qed.

Lemma sm_2D2E bs k l (X : 'M[R]_(n, l)) (Z : 'M[R]_(n, k)) : smok bs ->
  sm_2D2 bs v X Z = Z^T *m invmx (smcov bs) *m X.
Proof.
move=> ok; apply/matrixP => p q; rewrite sm_2D2_entry sm_1D1E // sm_D1E // dotE -mulmxA.
rewrite [LHS]mxE [RHS]mxE; apply: eq_bigr => i _; rewrite !mxE; congr (_ * _).
by apply: eq_bigr => m _; rewrite !mxE.
Qed.
End SMproof.

Lemma sherman_morrison_solve_lem : forall n (v : 'cV[R]_n) (bs : seq (seq 'I_n * R)) other left ld,
  (forall i, 0 < v i ord0) -> (forall b, b \in bs -> 0 < b.2) ->
  disjoint_epochs [seq b.1 | b <- bs] ->
  (forall k (X : 'M[R]_(n, k)), other = A2 X -> left <> LNone) ->
  solve (NSM bs (NVec v)) other left ld
    = exact_ret (diag_cov v + ecorr_cov bs) other (left_of other left) ld.
Proof.
move=> n v bs other left ld v0 j0 D S.
have ok : smok bs by split.
have LD : logdet_of (NSM bs (NVec v)) = Ok (ln (\det (smcov v bs))).
  by have [_ _ _ [_ H]] := sm_inv v0 ok; rewrite /= H.
rewrite /exact_ret -smcovE /solve LD.
have E : match other, left_of other left with
        | A1 x, None => Ok (OV (vec (sm_D1 bs v x)))
        | A1 x, Some (A1 y) => Ok (OS (sm_1D1 bs v x y))
        | A1 x, Some (A2 _ Z) => Ok (OV (vec (Z^T *m sm_D1 bs v x)))
        | A2 _ X, None => Err NotImplementedError
        | A2 _ X, Some (A2 _ Z) => Ok (OM (rows (sm_2D2 bs v X Z)))
        | A2 _ X, Some (A1 y) => Ok (OV (vec (X^T *m sm_D1 bs v y)))
        end = Ok (exact_solve (smcov v bs) other (left_of other left)).
  case: other S => [x|k X] S; case: left S => [| |[y|l Z]] S //=.
  - by rewrite sm_D1E.
  - by rewrite sm_1D1E // sm_D1E // dotE mulmxA.
  - by rewrite sm_1D1E // sm_D1E // dotE mulmxA.
  - by rewrite sm_D1E // mulmxA.
  - by have := S k X erefl erefl.
  - by rewrite sm_2D2E.
  - by rewrite sm_D1E // !trmx_mul trmxK (sym_inv (smcov_sym v bs)).
  - by rewrite sm_2D2E.
by rewrite E; case: ld.
Qed.

(** * BlockMatrix *)

(** A block per epoch of more than one TOA, on the rows and columns of its TOAs. *)
Definition block_cov (n : nat) (bs : blocks n) : 'M[R]_n :=
  \matrix_(i, k) \sum_(b <- bs | (1 < size (projT1 b))%N)
    \sum_(a | tnth (in_tuple (projT1 b)) a == i) \sum_(c | tnth (in_tuple (projT1 b)) c == k) projT2 b a c.

Section Blockproof.
Variable n : nat.
Variable v : 'cV[R]_n.
Hypothesis v0 : forall i, 0 < v i ord0.
Local Notation blk := {idx : seq 'I_n & 'M[R]_(size idx)}.
Implicit Types (bs : blocks n) (b : blk) (idx : seq 'I_n).

Definition sel idx : 'M[R]_(size idx, n) := \matrix_(a, i) (tnth (in_tuple idx) a == i)%:R.
Lemma take_rowsE k idx (X : 'M[R]_(n, k)) : take_rows idx X = sel idx *m X.
Proof.
apply/matrixP => a j; rewrite !mxE (bigD1 (tnth (in_tuple idx) a)) //= mxE eqxx mul1r.
rewrite big1 ?addr0 // => i ia; by rewrite mxE eq_sym (negbTE ia) mul0r.
Qed.
Lemma sel_selT idx : uniq idx -> sel idx *m (sel idx)^T = 1%:M.
Proof.
move=> U; rewrite -take_rowsE; apply/matrixP => a c; rewrite !mxE.
have x0 := tnth (in_tuple idx) a; rewrite !(tnth_nth x0) /= nth_uniq //.
by rewrite eq_sym -val_eqE.
Qed.
Lemma sel_disj idx idx' : (forall i, i \in idx -> i \notin idx') -> sel idx *m (sel idx')^T = 0.
Proof.
move=> D; rewrite -take_rowsE; apply/matrixP => a c; rewrite !mxE.
case: eqP => // E; have := D _ (mem_tnth a (in_tuple idx)).
by rewrite -E; have -> : tnth (in_tuple idx') c \in idx' by exact: (mem_tnth c (in_tuple idx')).
Qed.
Definition dsub idx : 'M[R]_(size idx) := diag (take_rows idx v).
Lemma sel_diag idx : sel idx *m diag v = dsub idx *m sel idx.
Proof.
rewrite -take_rowsE /dsub /diag mul_diag_mx; apply/matrixP => a i; rewrite !mxE.
by case: eqP => [->|_]; rewrite ?mulr1n ?mulr1 ?mulr0n ?mulr0 // eqxx mulr1.
Qed.
Lemma take_pos idx a : 0 < take_rows idx v a ord0.
Proof. by rewrite mxE. Qed.
Lemma dsub_unit idx : dsub idx \in unitmx.
Proof. by apply: diag_unit => a; rewrite gt_eqF ?take_pos. Qed.
Lemma dv_unit : diag v \in unitmx.
Proof. by apply: diag_unit; exact: pos_neq0. Qed.
Lemma sel_diagV idx : sel idx *m invmx (diag v) = invmx (dsub idx) *m sel idx.
Proof.
apply: (can_inj (mulKmx (dsub_unit idx))); rewrite mulmxA -sel_diag mulKVmx ?dsub_unit //.
by rewrite mulmxK ?dv_unit.
Qed.
Lemma blk_sumE idx (B : 'M[R]_(size idx)) : blk_sum v B = B + dsub idx.
Proof. by []. Qed.

Definition bcov bs : 'M[R]_n :=
  diag v + \sum_(b <- bs | (1 < size (projT1 b))%N) (sel (projT1 b))^T *m projT2 b *m sel (projT1 b).
Lemma bcovE bs : bcov bs = diag_cov v + block_cov bs.
Proof.
rewrite /bcov diag_covE; congr (_ + _); apply/matrixP => i k; rewrite summxE mxE.
apply: eq_bigr => b _; set T := in_tuple _.
rewrite -mulmxA mxE [RHS]big_mkcond /=; apply: eq_bigr => a _.
rewrite !mxE; case: eqP => _; rewrite ?mul0r // mul1r [RHS]big_mkcond /=.
by apply: eq_bigr => c _; rewrite mxE; case: eqP; rewrite ?mulr1 ?mulr0.
Qed.
Definition qmat b : 'M[R]_(size (projT1 b)) := invmx (blk_sum v (projT2 b)) - invmx (dsub (projT1 b)).
Definition cinv bs : 'M[R]_n :=
  invmx (diag v) + \sum_(b <- bs | (1 < size (projT1 b))%N) (sel (projT1 b))^T *m qmat b *m sel (projT1 b).

Definition flat bs := flatten [seq projT1 b | b <- bs].
Definition blkok bs := uniq (flat bs) /\
  (forall b, b \in bs -> (1 < size (projT1 b))%N -> posdef (blk_sum v (projT2 b))).
Lemma blkok_rcons bs b : blkok (rcons bs b) ->
  [/\ blkok bs, uniq (projT1 b), (1 < size (projT1 b))%N -> posdef (blk_sum v (projT2 b))
    & forall i, i \in projT1 b -> i \notin flat bs].
Proof.
rewrite /blkok /flat; case; rewrite map_rcons flatten_rcons cat_uniq => /and3P [U1 H U2] J; split=> //.
- by split=> // c cb; apply: J; rewrite mem_rcons in_cons cb orbT.
- by apply: J; rewrite mem_rcons mem_head.
- by move=> i ib; apply: contra H => ic; apply/hasP; exists i.
Qed.
Lemma in_flat bs b i : b \in bs -> i \in projT1 b -> i \in flat bs.
Proof. by move=> H1 H2; apply/flattenP; exists (projT1 b) => //; apply: map_f. Qed.

(** A product with the selection of untouched rows only sees the diagonal. *)
Lemma sel_sum bs idx (Q : forall b, 'M[R]_(size (projT1 b))) : (forall i, i \in idx -> i \notin flat bs) ->
  sel idx *m (\sum_(b <- bs | (1 < size (projT1 b))%N) (sel (projT1 b))^T *m Q b *m sel (projT1 b)) = 0.
Proof.
move=> D; rewrite mulmx_sumr big_seq_cond big1 // => b /andP [bb _].
rewrite !mulmxA sel_disj ?mul0mx // => i /D; apply: contra; exact: in_flat.
Qed.
Lemma sel_sumr bs idx (Q : forall b, 'M[R]_(size (projT1 b))) : (forall i, i \in idx -> i \notin flat bs) ->
  (\sum_(b <- bs | (1 < size (projT1 b))%N) (sel (projT1 b))^T *m Q b *m sel (projT1 b)) *m (sel idx)^T = 0.
Proof.
move=> D; rewrite mulmx_suml big_seq_cond big1 // => b /andP [bb _].
rewrite -!mulmxA (_ : sel (projT1 b) *m (sel idx)^T = 0) ?mulmx0 //.
apply: sel_disj => i ib; apply/negP => /D /negP; apply; exact: in_flat ib.
Qed.
Lemma sel_cinv bs idx : (forall i, i \in idx -> i \notin flat bs) ->
  sel idx *m cinv bs = invmx (dsub idx) *m sel idx.
Proof. by move=> D; rewrite /cinv mulmxDr sel_diagV (sel_sum (fun b => qmat b) D) addr0. Qed.
Lemma bcov_selT bs idx : (forall i, i \in idx -> i \notin flat bs) ->
  bcov bs *m (sel idx)^T = (sel idx)^T *m dsub idx.
Proof.
move=> D; rewrite /bcov mulmxDl (sel_sumr (fun b => projT2 b) D) addr0.
by rewrite -[LHS]trmxK trmx_mul trmxK diag_sym sel_diag trmx_mul /dsub diag_sym.
Qed.
Lemma bcov_rcons bs b : bcov (rcons bs b) =
  if (1 < size (projT1 b))%N then bcov bs + (sel (projT1 b))^T *m projT2 b *m sel (projT1 b) else bcov bs.
Proof. by rewrite /bcov -cats1 big_cat /= big_cons big_nil; case: ifP => _; rewrite ?addr0 ?addrA. Qed.
Lemma cinv_rcons bs b : cinv (rcons bs b) =
  if (1 < size (projT1 b))%N then cinv bs + (sel (projT1 b))^T *m qmat b *m sel (projT1 b) else cinv bs.
Proof. by rewrite /cinv -cats1 big_cat /= big_cons big_nil; case: ifP => _; rewrite ?addr0 ?addrA. Qed.

Lemma det_sylvester (F : fieldType) m k (A : 'M[F]_m) (U : 'M[F]_(m, k)) (V : 'M[F]_(k, m)) :
  A \in unitmx -> \det (A + U *m V) = \det A * \det (1%:M + V *m invmx A *m U).
Proof.
move=> uA; have := det_block_l (- U) V (1%:M : 'M[F]_k) uA.
rewrite mulmxN opprK => <-.
by rewrite (det_block_r A (- U) V (unitmx1 _ _)) invmx1 mulmx1 mulNmx opprK det1 mul1r.
Qed.

Lemma inv_swap (F : fieldType) p m (C : 'M[F]_p) (D : 'M[F]_m) (X : 'M[F]_(p, m)) :
  C \in unitmx -> D \in unitmx -> C *m X = X *m D -> invmx C *m X = X *m invmx D.
Proof. by move=> uC uD H; rewrite -[RHS](mulKmx uC) (mulmxA C) H mulmxK. Qed.

Lemma blk_step (F : fieldType) p m (C W : 'M[F]_p) (E : 'M[F]_(m, p)) (B D S : 'M[F]_m) :
  S = B + D -> S \in unitmx -> D \in unitmx -> C *m W = 1%:M -> E *m E^T = 1%:M ->
  E *m W = invmx D *m E -> C *m E^T = E^T *m D ->
  (C + E^T *m B *m E) *m (W + E^T *m (invmx S - invmx D) *m E) = 1%:M.
Proof.
move=> SE uS uD CW EE EW CE; set Q := invmx S - invmx D.
have HQ : D *m Q + B *m (invmx D + Q) = 0.
  rewrite [B *m _]mulmxDr addrCA -mulmxDl (addrC D) -SE mulmxBr mulmxV // SE mulmxDl mulmxV //.
  by rewrite addrA subrr.
move: Q HQ => Q HQ.
rewrite mulmxDl !mulmxDr CW !mulmxA CE -[RHS]addr0 -addrA; congr (_ + _).
rewrite -[_ *m E *m W]mulmxA EW -[_ *m E *m E^T]mulmxA EE mulmx1 !mulmxA -!mulmxDl.
by rewrite -!mulmxA -!mulmxDr HQ mulmx0 mul0mx.
Qed.

Lemma blk_inv bs : blkok bs ->
  [/\ bcov bs *m cinv bs = 1%:M, 0 < \det (bcov bs)
    & ln (\det (bcov bs)) = \sum_i ln (v i ord0) +
        \sum_(b <- bs | (1 < size (projT1 b))%N)
          (ln (\det (blk_sum v (projT2 b))) - ln (\det (dsub (projT1 b))))].
Proof.
elim/last_ind: bs => [|bs b IH] ok.
  rewrite /bcov /cinv !big_nil !addr0 mulmxV ?dv_unit // det_diagv.
  have [p1 p2] := @ln_prod _ (index_enum _) xpredT (fun i => v i ord0) (fun i _ => v0 i).
  by split.
have [okb U P D] := blkok_rcons ok; have [I1 I2 I3] := IH okb.
rewrite bcov_rcons cinv_rcons -cats1 big_cat /= big_cons big_nil; case: ifP => S; last first.
  by rewrite addr0.
have := P S; clear P.
rewrite /qmat; case: b D U S ok => idx B /= D U S ok P.
set E := sel idx; set Sb := blk_sum v B in P *; set Db := dsub idx.
have uS : Sb \in unitmx by apply: posdef_unit.
have uD : Db \in unitmx by apply: dsub_unit.
have E1 : E *m E^T = 1%:M by apply: sel_selT.
have E2 : E *m cinv bs = invmx Db *m E by apply: sel_cinv.
have E3 : bcov bs *m E^T = E^T *m Db by apply: bcov_selT.
have uC : bcov bs \in unitmx by rewrite unitmxE unitfE lt0r_neq0.
have SE : Sb = B + Db by [].
split.
- by apply: blk_step.
- rewrite -mulmxA det_sylvester // -!mulmxA.
  have E4 : invmx (bcov bs) *m E^T = E^T *m invmx Db.
    exact: inv_swap.
  rewrite E4 [E *m _]mulmxA E1 mul1mx.
  have -> : 1%:M + B *m invmx Db = Sb *m invmx Db by rewrite SE mulmxDl mulmxV // addrC.
  rewrite det_mulmx det_inv mulr_gt0 // mulr_gt0 ?posdef_det // invr_gt0 posdef_det //.
  by apply: diag_posdef => a; apply: take_pos.
- rewrite -mulmxA det_sylvester // -!mulmxA.
  have E4 : invmx (bcov bs) *m E^T = E^T *m invmx Db.
    exact: inv_swap.
  rewrite E4 [E *m _]mulmxA E1 mul1mx.
  have -> : 1%:M + B *m invmx Db = Sb *m invmx Db by rewrite SE mulmxDl mulmxV // addrC.
  have d1 : 0 < \det Sb by apply: posdef_det.
  have d2 : 0 < \det Db by apply: posdef_det; apply: diag_posdef => a; apply: take_pos.
  rewrite det_mulmx det_inv lnM //; last by rewrite mulr_gt0 // invr_gt0.
  rewrite I3 lnM // ?invr_gt0 // lnV // addr0 -addrA; congr (_ + _).
Qed.

Lemma bcov_inv bs : blkok bs -> cinv bs = invmx (bcov bs).
Proof.
move=> ok; have [H _ _] := blk_inv ok; have [_ uB] := mulmx1_unit H.
have [uA _] := mulmx1_unit H.
by rewrite -[LHS](mulKmx uA) H mulmx1.
Qed.
End Blockproof.

Section BlockSolve.
Variable n : nat.
Variable v : 'cV[R]_n.
Hypothesis v0 : forall i, 0 < v i ord0.
Local Notation blk := {idx : seq 'I_n & 'M[R]_(size idx)}.
Implicit Types (bs : blocks n) (b : blk) (idx : seq 'I_n).

Definition bsol b k (X : 'M[R]_(n, k)) : 'M[R]_(size (projT1 b), k) :=
  (if (1 < size (projT1 b))%N then invmx (blk_sum v (projT2 b)) else invmx (dsub v (projT1 b)))
    *m (sel (projT1 b) *m X).
Lemma take_div idx k (X : 'M[R]_(n, k)) :
  vec_div (take_rows idx X) (take_rows idx v) = invmx (dsub v idx) *m (sel idx *m X).
Proof. by rewrite vec_divE ?(take_rowsE idx X) // => a; rewrite gt_eqF // mxE. Qed.
Lemma blk_solve_ok b k (X : 'M[R]_(n, k)) : ((1 < size (projT1 b))%N -> posdef (blk_sum v (projT2 b))) ->
  blk_solve v (projT2 b) X = Ok (bsol b X).
Proof.
move=> P; rewrite /blk_solve /bsol; case: ifP => S; last by rewrite take_div.
have p := P S; have [U HU] := posdef_chol p; rewrite HU; congr Ok.
by rewrite take_rowsE; apply: cho_solveE HU; case: p.
Qed.
Lemma blk_solve_none b k (X : 'M[R]_(n, k)) : sym (projT2 b) -> (1 < size (projT1 b))%N ->
  ~ posdef (blk_sum v (projT2 b)) -> blk_solve v (projT2 b) X = Err LinAlgError.
Proof.
move=> sB S P; rewrite /blk_solve S chol_none //.
by rewrite /sym linearD /= sB tr_diag_mx.
Qed.

Lemma diag_split bs k l (Z : 'M[R]_(n, k)) (X : 'M[R]_(n, l)) : uniq (flat bs) ->
  Z^T *m invmx (diag v) *m X =
  \sum_(b <- bs) (take_rows (projT1 b) Z)^T *m (invmx (dsub v (projT1 b)) *m (sel (projT1 b) *m X))
  + (take_rows (rest_idx bs) Z)^T *m vec_div (take_rows (rest_idx bs) X) (take_rows (rest_idx bs) v).
Proof.
move=> U; apply/matrixP => p q.
pose F i := Z i p * (X i q / v i ord0).
have T idx : ((take_rows idx Z)^T *m (invmx (dsub v idx) *m (sel idx *m X))) p q = \sum_(i <- idx) F i.
  by rewrite -take_div mxE [RHS]big_tnth; apply: eq_bigr => a _; rewrite !mxE.
rewrite [RHS]mxE summxE (eq_bigr _ (fun b _ => T (projT1 b))) take_div T.
rewrite -mulmxA -vec_divE; last exact: pos_neq0.
have -> : (Z^T *m vec_div X v) p q = \sum_i F i.
  by rewrite mxE; apply: eq_bigr => i _; rewrite !mxE.
have -> : \sum_(b <- bs) \sum_(i <- projT1 b) F i = \sum_(i <- flat bs) F i.
  by rewrite /flat big_flatten big_map.
rewrite -big_cat; apply: perm_big; apply: uniq_perm.
- exact: index_enum_uniq.
- rewrite cat_uniq U filter_uniq ?enum_uniq // andbT /=.
  by apply/hasPn => i; rewrite mem_filter => /andP [].
- by move=> i; rewrite mem_index_enum mem_cat mem_filter mem_enum /=; case: (boolP (i \in flat bs)); rewrite ?andbT.
Qed.

Lemma blk_ZNX_ok bs k l (X : 'M[R]_(n, l)) (Z : 'M[R]_(n, k)) : blkok v bs ->
  blk_ZNX bs v X Z = Ok (Z^T *m invmx (bcov v bs) *m X).
Proof.
move=> ok; rewrite -(bcov_inv v0 ok) /blk_ZNX.
have -> : foldl (fun acc b => rbind acc (fun ZNX =>
                rmap (fun bx => ZNX + (take_rows (projT1 b) Z)^T *m bx) (blk_solve v (projT2 b) X)))
           (Ok 0) bs = Ok (\sum_(b <- bs) (take_rows (projT1 b) Z)^T *m bsol b X).
  elim/last_ind: bs ok => [|bs b IH] ok; first by rewrite big_nil.
  have [okb _ P _] := blkok_rcons ok.
  by rewrite foldl_rcons IH //= blk_solve_ok //= -cats1 big_cat /= big_cons big_nil addr0.
case: ok => U _; rewrite /=; congr Ok.
rewrite /cinv mulmxDr mulmxDl (diag_split _ _ U) addrAC; congr (_ + _).
rewrite mulmx_sumr mulmx_suml [X in _ = _ + X]big_mkcond -big_split /=.
apply: eq_bigr => b _; rewrite /bsol; case: ifP => _; last by rewrite addr0.
rewrite take_rowsE trmx_mul /qmat mulmxBr mulmxBl mulmxBr mulmxBl -!mulmxA.
by rewrite addrCA subrr addr0.
Qed.

Lemma put_rowsE idx k (Y : 'M[R]_(size idx, k)) (W : 'M[R]_(n, k)) : uniq idx ->
  put_rows Y W = W + (sel idx)^T *m (Y - sel idx *m W).
Proof.
move=> U; apply/matrixP => i j; rewrite !mxE; case: pickP => [a /eqP ai|H].
  rewrite (bigD1 a) //= big1 => [|c ca].
    rewrite !mxE ai eqxx mul1r addr0 (bigD1 i) //= big1 => [|m mi].
      by rewrite mxE ai eqxx mul1r addr0 addrCA subrr addr0.
    by rewrite mxE ai eq_sym (negbTE mi) mul0r.
  rewrite !mxE -ai; case: eqP => [E|_]; last by rewrite mul0r.
  case/eqP: ca; apply/val_inj/eqP; have x0 := i.
  by rewrite -(nth_uniq x0 (ltn_ord c) (ltn_ord a) U) -!(tnth_nth x0 (in_tuple idx)) E.
by rewrite big1 ?addr0 // => a _; rewrite !mxE H mul0r.
Qed.

Lemma blk_NX_ok bs k (X : 'M[R]_(n, k)) : blkok v bs -> blk_NX bs v X = Ok (invmx (bcov v bs) *m X).
Proof.
move=> ok; rewrite -(bcov_inv v0 ok); elim/last_ind: bs ok => [|bs b IH] ok.
  by rewrite /blk_NX /= vec_divE ?/cinv ?big_nil ?addr0 //; exact: pos_neq0.
have [okb U P D] := blkok_rcons ok; rewrite /blk_NX foldl_rcons -/(blk_NX bs v X) IH //= cinv_rcons.
case: ifP => S //; rewrite (blk_solve_ok _ P) /=; congr Ok.
rewrite put_rowsE // /bsol S [RHS]mulmxDl; congr (_ + _).
by rewrite (mulmxA (sel _)) (sel_cinv v0 D) -!mulmxA -mulmxBl.
Qed.

Lemma det_dsub idx : \det (dsub v idx) = \prod_a take_rows idx v a ord0.
Proof. by rewrite /dsub det_diagv. Qed.
Lemma ln_det_dsub idx : ln (\det (dsub v idx)) = \sum_(i <- idx) ln (v i ord0).
Proof.
rewrite det_dsub [RHS]big_tnth.
have [_ ->] := @ln_prod _ (index_enum _) xpredT (fun a => take_rows idx v a ord0) (fun a _ => take_pos v0 a).
by apply: eq_bigr => a _; rewrite mxE.
Qed.

Lemma blk_logdet_ok bs : blkok v bs -> blk_logdet bs v = Ok (ln (\det (bcov v bs))).
Proof.
move=> ok; have [_ _ ->] := blk_inv v0 ok.
have F : forall c, foldl (fun acc b => rbind acc (fun ld =>
             if (1 < size (projT1 b))%N then
               if chol (blk_sum v (projT2 b)) is Some U then Ok (ld + cho_logdet U) else Err LinAlgError
             else Ok (ld + \sum_(i <- projT1 b) ln (v i ord0)))) (Ok c) bs
   = Ok (c + \sum_(b <- bs) (if (1 < size (projT1 b))%N then ln (\det (blk_sum v (projT2 b)))
                             else \sum_(i <- projT1 b) ln (v i ord0))).
  move=> c; elim/last_ind: bs ok => [|bs b IH] ok; first by rewrite big_nil addr0.
  have [okb _ P _] := blkok_rcons ok.
  rewrite foldl_rcons IH //= -cats1 big_cat /= big_cons big_nil addr0; case: ifP => S.
    have p := P S; have [U HU] := posdef_chol p; rewrite HU; congr Ok.
    by rewrite -addrA; congr (_ + (_ + _)); apply: cho_logdetE HU; case: p.
  by rewrite addrA.
rewrite /blk_logdet F; congr Ok; case: ok => U _.
have -> : \sum_i ln (v i ord0) = \sum_(i <- rest_idx bs) ln (v i ord0) + \sum_(b <- bs) \sum_(i <- projT1 b) ln (v i ord0).
  rewrite addrC.
  have -> : \sum_(b <- bs) \sum_(i <- projT1 b) ln (v i ord0) = \sum_(i <- flat bs) ln (v i ord0).
    by rewrite /flat big_flatten big_map.
  rewrite -big_cat; apply: perm_big; apply: uniq_perm.
  - exact: index_enum_uniq.
  - rewrite cat_uniq U filter_uniq ?enum_uniq // andbT /=.
    by apply/hasPn => i; rewrite mem_filter => /andP [].
  - by move=> i; rewrite mem_index_enum mem_cat mem_filter mem_enum /=; case: (boolP (i \in flat bs)); rewrite ?andbT.
rewrite -addrA; congr (_ + _); rewrite [X in _ = _ + X]big_mkcond -big_split /=.
apply: eq_bigr => b _; case: ifP => _; last by rewrite addr0.
by rewrite ln_det_dsub addrCA subrr addr0.
Qed.

(** A block that is not positive definite stops every computation. *)
Lemma foldl_err (A T : Type) (f : A -> T -> result A) e (s : seq T) :
  foldl (fun acc x => rbind acc (fun a => f a x)) (Err e) s = Err e.
Proof. by elim: s. Qed.
Lemma blk_fail (A : Type) (f : A -> blk -> result A) bs a0 :
  (forall b, b \in bs -> sym (projT2 b)) ->
  (exists b, b \in bs /\ (1 < size (projT1 b))%N /\ ~ posdef (blk_sum v (projT2 b))) ->
  (forall b a, (1 < size (projT1 b))%N -> chol (blk_sum v (projT2 b)) = None -> f a b = Err LinAlgError) ->
  (forall b a, ((1 < size (projT1 b))%N -> posdef (blk_sum v (projT2 b))) -> is_ok (f a b)) ->
  foldl (fun acc b => rbind acc (fun a => f a b)) (Ok a0) bs = Err LinAlgError.
Proof.
move=> sB [b0 [Hb0 [S0 P0]]] F1 F2; elim: bs a0 sB Hb0 => [//|b bs IH] a0 sB Hb0 /=.
have sb : sym (projT2 b) by apply: sB; rewrite mem_head.
have ss : sym (blk_sum v (projT2 b)) by rewrite /sym linearD /= sb tr_diag_mx.
case C : (chol (blk_sum v (projT2 b))) => [U|].
  have p := chol_posdef ss C.
  have := F2 b a0 (fun _ => p); case: (f a0 b) => // a1 _.
  apply: IH => [c cb|]; first by apply: sB; rewrite in_cons cb orbT.
  by move: Hb0; rewrite in_cons => /orP [/eqP E|//]; case: P0; rewrite E.
case: (boolP (1 < size (projT1 b))%N) => S; first by rewrite F1 // foldl_err.
have := F2 b a0 (fun H => False_ind _ (negP S H)); case: (f a0 b) => // a1 _.
apply: IH => [c cb|]; first by apply: sB; rewrite in_cons cb orbT.
by move: Hb0; rewrite in_cons => /orP [/eqP E|//]; rewrite E (negbTE S) in S0.
Qed.
End BlockSolve.

Lemma size_rows k l (X : 'M[R]_(k, l)) : size (rows X) = k.
Proof. by rewrite size_map size_enum_ord. Qed.
Lemma enum_I1 : enum 'I_1 = [:: ord0].
Proof.
have E0 : enum 'I_0 = [::] by apply: size0nil; rewrite size_enum_ord.
by rewrite enum_ordS E0.
Qed.
Lemma rows_cv k (x : 'cV[R]_k) : rows x = [seq [:: c] | c <- vec x].
Proof.
by rewrite /rows /vec -map_comp; apply: eq_map => i /=; rewrite enum_I1.
Qed.
Lemma flatten_single (T : Type) (s : seq T) : flatten [seq [:: c] | c <- s] = s.
Proof. by elim: s => //= c s ->. Qed.
Lemma squeeze_cv k (x : 'cV[R]_k) : k != 1%N -> squeeze x = OV (vec x).
Proof.
move=> k1; have S := size_rows x; rewrite /squeeze; have F := flatten_single (vec x).
rewrite -rows_cv in F; move: S F; case: (rows x) => [|r [|r' rs]] //=; first by move=> _ <-.
- by move=> E; rewrite -E in k1.
- by move=> _ <-.
Qed.
Lemma squeeze_mx k l (X : 'M[R]_(k, l)) : k != 1%N -> l != 1%N -> squeeze X = OM (rows X).
Proof.
move=> k1 l1; have := size_rows X; rewrite /squeeze (negbTE l1).
by case: (rows X) => [|r [|r' rs]] //= E; rewrite -E in k1.
Qed.
Lemma blk_ret_big k l (X : 'M[R]_(k, l)) : (1 < k)%N -> blk_ret X = Ok (squeeze X).
Proof.
move=> k1; have := size_rows X; rewrite /blk_ret; case: (rows X) => [|r [|r' rs]] //= E; try by rewrite -E in k1.
by case: r => [|x [|x' r]].
Qed.
Lemma rows11 (X : 'M[R]_1) : rows X = [:: [:: X ord0 ord0]].
Proof. by rewrite rows_cv /vec enum_I1. Qed.

(** The shapes for which squeezing does not drop a needed axis. *)
Definition regular_shapes (n : nat) (other : arr n) (l : option (arr n)) : Prop :=
  match other, l with
  | A1 _, None => n <> 1%N
  | A2 k _, None => n <> 1%N /\ k <> 1%N
  | A1 _, Some (A1 _) => True
  | A1 _, Some (A2 k _) => (1 < k)%N
  | A2 l _, Some (A2 k _) => (1 < k)%N /\ l <> 1%N
  | A2 _ _, Some (A1 _) => False
  end.

Lemma blockmatrix_solve_lem : forall n (v : 'cV[R]_n) (bs : blocks n) other left ld,
  (0 < n)%N -> (forall i, 0 < v i ord0) -> disjoint_epochs [seq projT1 b | b <- bs] ->
  (forall b, b \in bs -> (1 < size (projT1 b))%N -> posdef (blk_sum v (projT2 b))) ->
  regular_shapes other (left_of other left) ->
  solve (NBlk bs (NVec v)) other left ld
    = exact_ret (diag_cov v + block_cov bs) other (left_of other left) ld.
Proof.
move=> n v bs other left ld n0 v0 D P S.
have ok : blkok v bs by split.
have vn : (v == 0) = false by apply/negbTE/eqP => E; have := v0 (Ordinal n0); rewrite E mxE ltxx.
rewrite /exact_ret -bcovE /= vn (blk_logdet_ok v0 ok).
have E : match other, left_of other left with
        | A1 x, None => rmap (fun X => squeeze X) (blk_NX bs v x)
        | A2 _ X, None => rmap (fun X => squeeze X) (blk_NX bs v X)
        | A1 x, Some (A1 y) => rbind (blk_ZNX bs v x y) (fun X => blk_ret X)
        | A1 x, Some (A2 _ Z) => rbind (blk_ZNX bs v x Z) (fun X => blk_ret X)
        | A2 _ X, Some (A1 y) => rbind (blk_ZNX bs v X y) (fun X => blk_ret X)
        | A2 _ X, Some (A2 _ Z) => rbind (blk_ZNX bs v X Z) (fun X => blk_ret X)
        end = Ok (exact_solve (bcov v bs) other (left_of other left)).
  case: other S => [x|k X]; case: left => [| |[y|l Z]] S //=.
  - by rewrite blk_NX_ok //= squeeze_cv //; apply/eqP.
  - by rewrite blk_ZNX_ok //= /blk_ret rows11.
  - by rewrite blk_ZNX_ok //= /blk_ret rows11.
  - by rewrite blk_ZNX_ok //= blk_ret_big // squeeze_cv //; move: S; rewrite /=; case: (l) => [|[|l']].
  - by case: S => S1 S2; rewrite blk_NX_ok //= squeeze_mx //; apply/eqP.
  - by case: S => S1 S2; rewrite blk_ZNX_ok //= blk_ret_big // squeeze_mx //; apply/eqP.
  - case: S => S1 S2; rewrite blk_ZNX_ok //= blk_ret_big // squeeze_mx //; last by apply/eqP.
    by move: S1; rewrite /=; case: (l) => [|[|l']].
by rewrite E; case: ld.
Qed.

Lemma posvec_neq0 n (v : 'cV[R]_n) : (0 < n)%N -> (forall i, 0 < v i ord0) -> (v == 0) = false.
Proof. by move=> n0 v0; apply/negbTE/eqP => E; have := v0 (Ordinal n0); rewrite E mxE ltxx. Qed.

Lemma blockmatrix_not_posdef_lem : forall n (v : 'cV[R]_n) (bs : blocks n) other left ld,
  (0 < n)%N -> (forall i, 0 < v i ord0) -> (forall b, b \in bs -> sym (projT2 b)) ->
  (exists b, b \in bs /\ (1 < size (projT1 b))%N /\ ~ posdef (blk_sum v (projT2 b))) ->
  solve (NBlk bs (NVec v)) other left ld = Err LinAlgError.
Proof.
move=> n v bs other left ld n0 v0 sB H; rewrite /= posvec_neq0 //.
have Z : forall k l (X : 'M[R]_(n, l)) (Z : 'M[R]_(n, k)), blk_ZNX bs v X Z = Err LinAlgError.
  move=> k l X Z; rewrite /blk_ZNX (@blk_fail n v _ (fun ZNX b => rmap (fun bx => ZNX + (take_rows (projT1 b) Z)^T *m bx) (blk_solve v (projT2 b) X))) //.
    by move=> b a S C; rewrite /blk_solve S C.
  by move=> b a P; rewrite blk_solve_ok.
have N : forall k (X : 'M[R]_(n, k)), blk_NX bs v X = Err LinAlgError.
  move=> k X; rewrite /blk_NX (@blk_fail n v _ (fun NX b => if (1 < size (projT1 b))%N then rmap (fun Y => put_rows Y NX) (blk_solve v (projT2 b) X) else Ok NX)) //.
    by move=> b a S C; rewrite /blk_solve S C.
  by move=> b a P; case: ifP => // S; rewrite blk_solve_ok.
by case: other => [x|k X]; case: (left_of _ _) => [[y|l Y]|]; rewrite ?Z ?N.
Qed.

(** The shape quirk: a two-dimensional right array with a one-dimensional left
    array gives a row, which [float] refuses. *)
Lemma rows_row l (X : 'M[R]_(1, l)) : rows X = [:: [seq X ord0 j | j <- enum 'I_l]].
Proof. by rewrite /rows enum_I1. Qed.
Lemma blockmatrix_row_raises_lem : forall n k (v : 'cV[R]_n) (bs : blocks n) (X : 'M[R]_(n, k)) y ld,
  (0 < n)%N -> (forall i, 0 < v i ord0) -> disjoint_epochs [seq projT1 b | b <- bs] ->
  (forall b, b \in bs -> (1 < size (projT1 b))%N -> posdef (blk_sum v (projT2 b))) -> k <> 1%N ->
  solve (NBlk bs (NVec v)) (A2 X) (LArr (A1 y)) ld = Err TypeError.
Proof.
move=> n k v bs X y ld n0 v0 D P k1; rewrite /= posvec_neq0 //.
have ok : blkok v bs by split.
rewrite blk_ZNX_ok //= /blk_ret rows_row.
set r := [seq _ | _ <- _]; have S : size r = k by rewrite size_map size_enum_ord.
by case: r S => [|a [|b r]] //= E; case: k1.
Qed.

(** Without any epoch the block method refuses the diagonal noise. *)
Lemma blockmatrix_no_epoch_lem : forall n (v : 'cV[R]_n), (0 < n)%N -> (forall i, 0 < v i ord0) ->
  (forall o, ecorr_block [::] = Ok o -> get_ndiag [:: NVec v; o] = Err ValueError) /\
  (forall o, ecorr_block [::] = Ok o -> get_ndiag [:: o; NVec v] = Err ValueError).
Proof.
move=> n v n0 v0; have Z : const_mx 0 = 0 :> 'cV[R]_n by apply/colP => i; rewrite !mxE.
split=> o; rewrite /ecorr_block /= eqxx => [[<-]]; rewrite /get_ndiag /= ?eqxx /=.
  by rewrite Z addr0 posvec_neq0 //= ?Z ?add0r posvec_neq0.
by rewrite RplusE addr0 eqxx /= Z addr0 posvec_neq0.
Qed.

(** * The three ECORR methods *)
Lemma block_cov_ecorr n (bs : seq (seq 'I_n * R)) : disjoint_epochs [seq b.1 | b <- bs] ->
  block_cov (ecorr_blocks bs) = ecorr_cov bs.
Proof.
move=> D; apply/matrixP => i k; rewrite !mxE big_map /= [RHS]big_seq_cond [LHS]big_seq_cond.
rewrite [LHS]big_mkcondr [RHS]big_mkcondr /=; apply: eq_bigr => b bb.
case: ifP => //= S.
have U : uniq b.1.
  move: D; rewrite /disjoint_epochs; elim: bs bb => [//|c bs IH] /=; rewrite cat_uniq in_cons => H /and3P [U1 _ U2].
  by case/orP: H => [/eqP -> //|]; move/IH; apply.
have C : forall j (w : 'I_n -> R) , \sum_(a | tnth (in_tuple b.1) a == j) w (tnth (in_tuple b.1) a) = if j \in b.1 then w j else 0.
  move=> j w; transitivity (\sum_(x <- b.1 | x == j) w x); first by rewrite [RHS]big_tnth.
  rewrite -big_filter.
  case: (boolP (j \in b.1)) => J.
    rewrite (_ : [seq x <- b.1 | x == j] = [:: j]) ?big_seq1 //.
    by rewrite -(filter_pred1_uniq U J).
  rewrite (_ : [seq x <- b.1 | x == j] = [::]) ?big_nil //.
  by apply/eqP; rewrite -(negbK (_ == _)) -has_filter; apply/hasPn => x xb; apply: contraNneq J => <-.
rewrite (eq_bigr (fun a => if k \in b.1 then b.2 else 0)).
  rewrite (C i (fun _ => if k \in b.1 then b.2 else 0)).
  by case: (i \in b.1).
move=> a _; rewrite -(C k (fun _ => b.2)); by apply: eq_bigr => c _; rewrite mxE.
Qed.

Lemma ecorr_cov_rcons n (bs : seq (seq 'I_n * R)) b i k : ecorr_cov (rcons bs b) i k =
  ecorr_cov bs i k + if [&& (1 < size b.1)%N, i \in b.1 & k \in b.1] then b.2 else 0.
Proof. by rewrite !mxE -cats1 big_cat /= big_cons big_nil; case: ifP; rewrite ?addr0. Qed.
Lemma ecorr_cov_out n (bs : seq (seq 'I_n * R)) i k :
  i \notin flatten [seq b.1 | b <- bs] -> ecorr_cov bs i k = 0.
Proof.
move=> H; rewrite mxE big_seq_cond big1 // => b /andP [bb /and3P [_ ib _]].
by case/negP: H; apply/flattenP; exists b.1 => //; apply: map_f.
Qed.
Lemma ecorr_sparseE n (bs : seq (seq 'I_n * R)) : disjoint_epochs [seq b.1 | b <- bs] ->
  ecorr_sparse bs = NSp (ecorr_cov bs).
Proof.
move=> D; congr NSp; rewrite /disjoint_epochs in D; elim/last_ind: bs D => [|bs b IH].
  by move=> _; apply/matrixP => i k; rewrite !mxE big_nil.
rewrite map_rcons flatten_rcons cat_uniq => /and3P [U1 H U2].
rewrite foldl_rcons IH //; apply/matrixP => i k; rewrite ecorr_cov_rcons.
case: ifP => S; last by rewrite addr0.
rewrite mxE; case: ifP => [/andP [ib kb]|_]; last by rewrite addr0.
rewrite ecorr_cov_out ?add0r //; apply: contra H => ic; by apply/hasP; exists i.
Qed.

Lemma sparse_solve_lem : forall n (A : 'M[R]_n) other left ld, sym A ->
  (posdef A -> solve (NSp A) other left ld = exact_ret A other (left_of other left) ld) /\
  (~ posdef A -> solve (NSp A) other left ld = Err CholmodError).
Proof.
move=> n A other left ld sA; split=> P; last by rewrite /solve chol_none.
have [U HU] := posdef_chol P; rewrite /solve HU /exact_ret.
rewrite (@left_dotE n A other); [|exact: sA|by case: other => [x|k X]; rewrite (cho_solveE _ sA HU)].
by rewrite /with_logdet /= HU (cho_logdetE sA HU); case: ld.
Qed.

(** Diagonal plus ECORR is positive definite. *)
Lemma rank1_ge0 n (j : R) (u : 'cV[R]_n) x : 0 <= j -> 0 <= quad (j *: (u *m u^T)) x.
Proof.
move=> j0; rewrite /quad -mulmxA rank1_mul -scalemxAr mxE -mulrA mulr_ge0 //.
have -> : (x^T *m u) ord0 ord0 = (u^T *m x) ord0 ord0.
  by rewrite !mxE; apply: eq_bigr => i _; rewrite !mxE mulrC.
by rewrite -expr2 sqr_ge0.
Qed.
Lemma smcov_posdef n (v : 'cV[R]_n) bs : (forall i, 0 < v i ord0) -> (forall b, b \in bs -> 0 < b.2) ->
  posdef (smcov v bs).
Proof.
move=> v0 j0; rewrite /smcov; elim: bs j0 => [|b bs IH] j0; first by rewrite big_nil addr0; exact: diag_posdef.
rewrite big_cons; have P : posdef (smcov v bs) by apply: IH => c cb; apply: j0; rewrite in_cons cb orbT.
case: ifP => _ //; rewrite addrCA addrC; apply: posdefD => //.
- by rewrite /sym linearZ /= trmx_mul trmxK.
- by move=> x; apply: rank1_ge0; apply/ltW/j0; rewrite mem_head.
Qed.
Lemma ones_rank1 m (j : R) : (const_mx j : 'M[R]_m) = j *: ((const_mx 1 : 'cV_m) *m (const_mx 1 : 'cV_m)^T).
Proof. by apply/matrixP => i k; rewrite !mxE big_ord1 !mxE !mulr1. Qed.
Lemma ecorr_block_posdef n (v : 'cV[R]_n) bs : (forall i, 0 < v i ord0) -> (forall b, b \in bs -> 0 < b.2) ->
  forall b, b \in ecorr_blocks bs -> posdef (blk_sum v (projT2 b)).
Proof.
move=> v0 j0 b /mapP [c cb ->] /=; rewrite /blk_sum addrC ones_rank1; apply: posdefD.
- by apply: diag_posdef => a; rewrite mxE.
- by rewrite /sym linearZ /= trmx_mul trmxK.
- by move=> x; apply: rank1_ge0; apply/ltW/j0.
Qed.
Lemma ecorr_blocks_idx n (bs : seq (seq 'I_n * R)) : [seq projT1 b | b <- ecorr_blocks bs] = [seq b.1 | b <- bs].
Proof. by rewrite -map_comp. Qed.

Lemma const0 n k : (const_mx 0 : 'M[R]_(n, k)) = 0. Proof. by apply/matrixP => i j; rewrite !mxE. Qed.

(** Diagonal noise followed or preceded by ECORR, by each of the methods. *)
Lemma ecorr_methods_lem : forall n (v : 'cV[R]_n) (bs : seq (seq 'I_n * R)) other left ld (swap : bool),
  (0 < n)%N -> (forall i, 0 < v i ord0) -> (forall b, b \in bs -> 0 < b.2) ->
  disjoint_epochs [seq b.1 | b <- bs] ->
  let white o := get_ndiag (if swap then [:: o; NVec v] else [:: NVec v; o]) in
  let C := diag_cov v + ecorr_cov bs in
  [/\ (forall k (X : 'M[R]_(n, k)), other = A2 X -> left <> LNone) ->
        rbind (white (ecorr_sm bs)) (fun o => solve o other left ld) = exact_ret C other (left_of other left) ld,
      rbind (white (ecorr_sparse bs)) (fun o => solve o other left ld) = exact_ret C other (left_of other left) ld
    & bs <> [::] -> regular_shapes other (left_of other left) ->
        rbind (rbind (ecorr_block bs) white) (fun o => solve o other left ld) = exact_ret C other (left_of other left) ld].
Proof.
move=> n v bs other left ld swap n0 v0 j0 D white C.
have V := posvec_neq0 n0 v0.
split.
- move=> S; have -> : white (ecorr_sm bs) = Ok (NSM bs (NVec v)).
    rewrite /white /get_ndiag /ecorr_sm; case: (swap) => /=.
      by rewrite eqxx /= RplusE addr0 const0 addr0.
    by rewrite const0 addr0 V add0r.
  exact: sherman_morrison_solve_lem.
- have -> : white (ecorr_sparse bs) = Ok (NSp (smcov v bs)).
    rewrite /white /get_ndiag ecorr_sparseE // smcovE; case: (swap) => /=.
      by rewrite eqxx /= diag_covE addrC.
    by rewrite const0 addr0 diag_covE addrC.
  rewrite /C -smcovE; have [H _] := @sparse_solve_lem n (smcov v bs) other left ld (smcov_sym v bs).
  exact: H (smcov_posdef v0 j0).
- move=> bs0 S; have -> : rbind (ecorr_block bs) white = Ok (NBlk (ecorr_blocks bs) (NVec v)).
    have N : nilp (ecorr_blocks bs) = false by case: (bs) bs0.
    rewrite /ecorr_block /= eqxx /white /get_ndiag; case: (swap) => /=.
      by rewrite eqxx /= RplusE addr0 eqxx /= const0 addr0 V N.
    by rewrite const0 addr0 V add0r V N.
  rewrite /C -block_cov_ecorr //.
  apply: blockmatrix_solve_lem => //; first by rewrite ecorr_blocks_idx.
  by move=> b bb _; apply: ecorr_block_posdef bb.
Qed.

(** * Overlapping epochs *)
Lemma vec_inj k (x y : 'cV[R]_k) : vec x = vec y -> x = y.
Proof.
move=> E; apply/colP => i; have := congr1 (fun s => nth 0 s i) E.
have N : forall z : 'cV[R]_k, nth 0 (vec z) i = z i ord0.
  by move=> z; rewrite /vec (nth_map i) ?size_enum_ord // nth_ord_enum.
by rewrite !N.
Qed.

Definition ov_v : 'cV[R]_3 := const_mx 1.
Definition ov_bs : seq (seq 'I_3 * R) := [:: ([:: inord 0; inord 1], 1); ([:: inord 1; inord 2], 1)].
Definition ov_x : 'cV[R]_3 := \col_i (if i == inord 0 then 1 else 0).

Lemma sherman_morrison_overlapping_lem : exists n (v : 'cV[R]_n) (bs : seq (seq 'I_n * R)) other left ld,
  (forall i, 0 < v i ord0) /\ (forall b, b \in bs -> 0 < b.2) /\ (forall b, b \in bs -> uniq b.1) /\
  (forall k (X : 'M[R]_(n, k)), other = A2 X -> left <> LNone) /\
  solve (NSM bs (NVec v)) other left ld
    <> exact_ret (diag_cov v + ecorr_cov bs) other (left_of other left) ld.
Proof.
exists 3%N, ov_v, ov_bs, (A1 ov_x), LNone, false.
have V : forall i, 0 < ov_v i ord0 by move=> i; rewrite mxE ltr01.
have J : forall b, b \in ov_bs -> 0 < b.2.
  by move=> b; rewrite !inE => /orP [] /eqP ->; rewrite /= ltr01.
have i01 : (inord 0 == inord 1 :> 'I_3) = false by rewrite -val_eqE /= !inordK.
have i12 : (inord 1 == inord 2 :> 'I_3) = false by rewrite -val_eqE /= !inordK.
have i02 : (inord 0 == inord 2 :> 'I_3) = false by rewrite -val_eqE /= !inordK.
split=> //; split=> //; split.
  by move=> b; rewrite !inE => /orP [] /eqP -> /=; rewrite inE ?i01 ?i12.
split=> // -[] E.
have uC := posdef_unit (smcov_posdef V J).
have := congr1 (fun z => smcov ov_v ov_bs *m z) (vec_inj E); rewrite -smcovE mulKVmx //.
have i10 : (inord 1 == inord 0 :> 'I_3) = false by rewrite eq_sym.
have i20 : (inord 2 == inord 0 :> 'I_3) = false by rewrite eq_sym.
have i21 : (inord 2 == inord 1 :> 'I_3) = false by rewrite eq_sym.
have S3 : forall F : 'I_3 -> R, \sum_i F i = F (inord 0) + F (inord 1) + F (inord 2).
  move=> F; rewrite !big_ord_recr big_ord0 /= add0r.
  by congr (F _ + F _ + F _); apply/val_inj; rewrite /= inordK.
have C0 : smcov ov_v ov_bs (inord 2) (inord 0) = 0.
  by rewrite smcovE !mxE /ov_bs !big_cons !big_nil /= !inE i20 i21 i01 i02 /= andbF addr0.
have C1 : smcov ov_v ov_bs (inord 2) (inord 1) = 1.
  by rewrite smcovE !mxE /ov_bs !big_cons !big_nil /= !inE !eqxx i20 i21 /= add0r addr0.
have N1 : nidot ov_v [:: inord 0; inord 1] ov_x = 1.
  by rewrite /nidot !big_cons !big_nil !mxE eqxx i10 mulr1 mulr0 !addr0 invr1.
have N2 : nidot ov_v [:: inord 1; inord 2] ov_x = 0.
  by rewrite /nidot !big_cons !big_nil !mxE i10 i20 !mulr0 !addr0.
have B1 : beta ov_v [:: inord 0; inord 1] 1 = (1 + 1 + 1)^-1.
  by rewrite /beta /nisum !big_cons !big_nil !mxE invr1 addr0.
have Y1 : sm_D1 ov_bs ov_v ov_x (inord 1) ord0 = - (1 + 1 + 1)^-1.
  by rewrite /sm_D1 /ov_bs /= !mxE !inE eqxx orbT /= N1 N2 B1 i10 invr1 ?mul0r ?mulr1 ?mulr0 ?mul0r ?subr0 ?sub0r.
have Y2 : sm_D1 ov_bs ov_v ov_x (inord 2) ord0 = 0.
  by rewrite /sm_D1 /ov_bs /= !mxE !inE eqxx i20 i21 /= N2 ?i20 ?mul0r ?mulr0 ?mul0r ?subr0.
move=> H0; have := congr1 (fun z : 'cV[R]_3 => z (inord 2) ord0) H0; clear H0.
have -> : ov_x (inord 2) ord0 = 0 by rewrite mxE i20.
rewrite mxE S3 C0 C1 Y1 Y2 mul0r mul1r mulr0 add0r addr0.
move/eqP; rewrite oppr_eq0 invr_eq0 => /eqP H1; have : (1 + 1 + 1 : R)%coqR = 0%coqR by []; lra.
Qed.

(** * Sums of noise components *)
Section Sums.
Variable n : nat.
Implicit Types (o a b : nobj n).

(** The noise components that white signals produce. *)
Definition component o : Prop :=
  match o with
  | NVec _ | NSp _ => True
  | NSM _ (NScal c) | NBlk _ (NScal c) | NMarg _ _ (NScal c) => c = 0
  | _ => False
  end.
(** Their covariances (that of a marginalised timing model is zero: the
    marginalisation is recorded separately by [timing]). *)
Definition component_cov o : 'M[R]_n :=
  match o with
  | NVec v => diag_cov v
  | NSM bs _ => ecorr_cov bs
  | NBlk bs _ => block_cov bs
  | NSp A => A
  | _ => 0
  end.
Definition timing o : seq {k : nat & 'M[R]_(n, k)} := if o is NMarg k M _ then [:: existT _ k M] else [::].

(** What an object without marginalisation stands for. *)
Definition inner_cov o : option 'M[R]_n :=
  match o with
  | NScal c => if c == 0 then Some 0 else None
  | NVec v => Some (diag_cov v)
  | NSM bs (NScal c) => if c == 0 then Some (ecorr_cov bs) else None
  | NSM bs (NVec v) => Some (diag_cov v + ecorr_cov bs)
  | NBlk bs (NScal c) => if c == 0 then Some (block_cov bs) else None
  | NBlk bs (NVec v) => Some (diag_cov v + block_cov bs)
  | NSp A => Some A
  | _ => None
  end.
Definition meaning o : option (seq {k : nat & 'M[R]_(n, k)} * 'M[R]_n) :=
  match o with
  | NMarg k M N => omap (fun C => ([:: existT _ k M], C)) (inner_cov N)
  | _ => omap (fun C => ([::], C)) (inner_cov o)
  end.

(** Malformed objects. *)
Definition bad0 o : bool :=
  match o with
  | NObjs => true
  | NSM _ (NScal _) | NSM _ (NVec _) => false
  | NSM _ _ => true
  | NBlk _ NObjs => true
  | _ => false
  end.
Definition bad o : bool := match o with NMarg _ _ (NMarg _ _ _) => true | NMarg _ _ N => bad0 N | _ => bad0 o end.

Lemma diag_covD (v w : 'cV[R]_n) : diag_cov (v + w) = diag_cov v + diag_cov w.
Proof. by apply/matrixP => i k; rewrite !mxE; case: eqP; rewrite ?addr0. Qed.

Lemma nadd_not_flat a b o : nadd a b = Ok o -> (forall c, a <> NScal c) -> (forall v, a <> NVec v) ->
  (forall c, o <> NScal c) /\ (forall v, o <> NVec v).
Proof.
case: a => [c|v|bs nv|bs nv|A|k M N|] /= H Hc Hv; try by [have := Hc c|have := Hv v].
- by move: H; case: (nadd nv b) => //= x [<-].
- move: H; case: (nadd nv b) => //= x; rewrite /mk_block.
  by case: x => [c|w|? ?|? ?|?|? ? ?|] //=; try (case: ifP => // _); move=> [<-].
- move: H; case: b => [c|w|? ?|? ?|B|k M N|] //=; try by move=> [<-].
  + by case: ifP => // _ [<-].
  + by case: (addSp N A) => //= x [<-].
- move: H; case: b => [c|w|? ?|? ?|B|k' M' N'|] //=; try by (case: (nadd N _) => //= x [<-]).
  by case: ifP => // _ [<-].
- by move: H => [<-].
Qed.

Lemma bad0_nadd a b o : bad0 a -> nadd a b = Ok o -> bad0 o.
Proof.
case: a => [c|v|bs nv|bs nv|A|k M N|] //=.
- move=> B; case E : (nadd nv b) => [x|//] [<-] /=.
  have [H1 H2] := nadd_not_flat E (fun c H => ltac:(by move: B; rewrite H)) (fun v H => ltac:(by move: B; rewrite H)).
  by case: x E H1 H2 => [c|w|? ?|? ?|?|? ? ?|] //= _ H1 H2; [have := H1 c|have := H2 w].
- by case: nv => //= _ [<-].
- by move=> _ [<-].
Qed.

(** Adding one more component without timing model. *)
Lemma nadd_inner a b C o : inner_cov a = Some C -> component b -> timing b = [::] -> nadd a b = Ok o ->
  (if o is NMarg _ _ _ then False else True) /\ (bad0 o \/ inner_cov o = Some (C + component_cov b)).
Proof.
case: a => [c|v|bs nv|bs nv|A|k M N|] //=.
- case: eqP => // -> [<-]; case: b => [c'|w|bs nv|bs nv|B|k M N|] //= Hb _.
  + by move=> [<-] /=; split=> //; right; rewrite const0 addr0 add0r.
  + by case: nv Hb => // c' -> /=; rewrite ?eqxx /= => [[<-]] /=; split=> //; right; rewrite ?RplusE ?addr0 ?eqxx add0r.
  + case: nv Hb => // c' -> /=; rewrite ?eqxx /= ?RplusE ?addr0 ?eqxx => [[<-]] /=.
    by split=> //; right; rewrite ?eqxx add0r.
  + by rewrite ?eqxx => [[<-]] /=; split=> //; right; rewrite add0r.
- move=> [<-]; case: b => [c'|w|bs nv|bs nv|B|k M N|] //= Hb _.
  + by move=> [<-] /=; split=> //; right; rewrite diag_covD.
  + case: nv Hb => // c' -> /=; case: ifP => _ /= [<-] /=; first by split=> //; left.
    by split=> //; right; rewrite const0 add0r.
  + case: nv Hb => // c' -> /=; case: ifP => V /=; first by move=> [<-] /=; split=> //; left.
    by rewrite const0 add0r; case: ifP => // _ [<-] /=; split=> //; right.
  + by move=> [<-] /=; split=> //; right; rewrite diag_covE addrC.
- case: nv => [c|v| | | | |] //=.
  + case: eqP => // -> [<-] Hb T; case E : (match b with NSM _ _ | NBlk _ _ | NSp _ => _ | _ => _ end) => [x|//] [<-] /=.
    split=> //; case: b Hb T E => [c'|w|bs' nv|bs' nv|B|k M N|] //= Hb _.
    * by move=> [<-] /=; right; rewrite const0 addr0 addrC.
    * by case: nv Hb => // c' -> /=; rewrite ?eqxx /= => [[<-]]; left.
    * by case: nv Hb => // c' -> /=; rewrite ?eqxx /= ?RplusE ?addr0 ?eqxx => [[<-]]; left.
    * by rewrite ?eqxx => [[<-]]; left.
  + move=> [<-] Hb T; case E : (match b with NScal _ => _ | _ => _ end) => [x|//] [<-] /=.
    split=> //; case: b Hb T E => [c'|w|bs' nv|bs' nv|B|k M N|] //= Hb _.
    * by move=> [<-] /=; right; rewrite diag_covD addrAC.
    * by case: nv Hb => // c' -> /=; case: ifP => _ /= [<-]; left.
    * case: nv Hb => // c' -> /=; case: ifP => V /=; first by move=> [<-]; left.
      by case: ifP => // _ [<-]; left.
    * by move=> [<-]; left.
- case: nv => [c|v| | | | |] //=.
  + case: eqP => // -> [<-] Hb T.
    case: b Hb T => [c'|w|bs' nv|bs' nv|B|k M N|] //= Hb _.
    * rewrite const0 addr0; case: ifP => // _ [<-] /=; split=> //; right; by rewrite addrC.
    * by case: nv Hb => // c' -> /=; rewrite ?eqxx.
    * by case: nv Hb => // c' -> /=; rewrite ?eqxx /= ?RplusE ?addr0 ?eqxx.
    * by rewrite ?eqxx.
  + move=> [<-] Hb T.
    case: b Hb T => [c'|w|bs' nv|bs' nv|B|k M N|] //= Hb _.
    * case: ifP => // _ [<-] /=; split=> //; right; by rewrite diag_covD addrAC.
    * by case: nv Hb => // c' -> /=; case: ifP => _ //= [<-]; split=> //; left.
    * case: nv Hb => // c' -> /=; case: ifP => V /=; first by move=> [<-]; split=> //; left.
      by case: ifP.
- move=> [<-]; case: b => [c'|w|bs nv|bs nv|B|k M N|] //= Hb _.
  + by move=> [<-] /=; split=> //; right; rewrite diag_covE.
  + by move=> [<-] /=; split=> //; right.
Qed.

(** Adding the timing model. *)
Lemma nadd_timing a k (M : 'M[R]_(n, k)) C o : inner_cov a = Some C -> nadd a (NMarg M (NScal 0)) = Ok o ->
  bad o \/ meaning o = Some ([:: existT _ k M], C).
Proof.
case: a => [c|v|bs nv|bs nv|A|k' M' N'|] //=.
- by case: eqP => // _ [<-]; rewrite ?eqxx => [[<-]] /=; right; rewrite ?eqxx.
- by move=> [<-]; case: ifP => _ [<-] /=; [left|right; rewrite const0 add0r].
- case: nv => [c|v| | | | |] //=.
  + by case: eqP => // _ _; rewrite ?eqxx => [[<-]]; left.
  + by move=> _; case: ifP => _ /= [<-]; left.
- case: nv => [c|v| | | | |] //=.
  + by case: eqP => // _ _; rewrite ?eqxx.
  + by move=> _; case: ifP => _ //= [<-]; left.
- by move=> [<-]; rewrite ?eqxx /= => [[<-]]; right.
Qed.

Lemma solve_bad o other left ld : bad o -> 
  solve o other left ld = Err TypeError \/ solve o other left ld = Err ValueError.
Proof.
case: o => [c|v|bs nv|bs nv|A|k M N|] //=; try by left.
- by case: nv => //=; left.
- by case: nv => //=; left.
- move=> B.
  have S11 y x : solve11 N y x = Err TypeError by move: B; case: (N) => //= ? [].
  have S21 j (Z : 'M_(n, j)) x : solve21 N Z x = Err TypeError by move: B; case: (N) => //= ? [].
  have S22 j l (Z : 'M_(n, j)) (X : 'M_(n, l)) : solve22 N Z X = Err TypeError by move: B; case: (N) => //= ? [].
  rewrite /marg_solve /marg_rr /marg_Tr /marg_LT /marg_11.
  by case: other => [x|j X]; case: left => [| |[y|l Z]]; rewrite ?S11 ?S21 ?S22 /=; auto.
Qed.

Lemma timing_comp b : component b -> timing b <> [::] -> exists k (M : 'M[R]_(n, k)), b = NMarg M (NScal 0).
Proof. by case: b => [c|v|bs nv|bs nv|A|k M N|] //=; case: N => // c -> _; exists k, M. Qed.

Lemma meaning_cases a t C : meaning a = Some (t, C) ->
  (inner_cov a = Some C /\ t = [::]) \/
  (exists k (M : 'M[R]_(n, k)) N, a = NMarg M N /\ inner_cov N = Some C /\ t = [:: existT _ k M]).
Proof.
case: a => [c|v|bs nv|bs nv|A|k M N|] //=.
- by case: ifP => //= _ [<- <-]; left.
- by move=> [<- <-]; left.
- by case: nv => //= [c|v]; [case: ifP => //= _|]; move=> [<- <-]; left.
- by case: nv => //= [c|v]; [case: ifP => //= _|]; move=> [<- <-]; left.
- by move=> [<- <-]; left.
- by case E : (inner_cov N) => [C'|//] [<- <-]; right; exists k, M, N.
Qed.
Lemma meaning_inner o C : (if o is NMarg _ _ _ then False else True) -> inner_cov o = Some C ->
  meaning o = Some ([::], C).
Proof. by case: o => // [c|v|bs nv|bs nv|A] _ H; rewrite /meaning H. Qed.

Lemma nadd_step a b t C o : meaning a = Some (t, C) -> component b -> nadd a b = Ok o ->
  bad o \/ meaning o = Some (t ++ timing b, C + component_cov b).
Proof.
move=> Ma Cb H; case: (timing b =P [::]) => [T|/(timing_comp Cb) [k [M Eb]]].
- case: (meaning_cases Ma) => [[Ia ->]|[k [M [N [Ea [I ->]]]]]].
    have [NM [B|I]] := nadd_inner Ia Cb T H; [left; by case: o NM B {H}|right].
    by rewrite T /= (meaning_inner NM I).
  have : exists o', nadd N b = Ok o' /\ o = NMarg M o'.
    move: H Cb T; rewrite Ea; case: b => [c|v|bs nv|bs nv|A|k' M' N'|] //= H Hb Tb;
      by move: H; case: (nadd N _) => //= x [<-]; exists x.
  case=> o' [E' ->]; have [NM [B|I']] := nadd_inner I Cb T E'.
    by left; move: NM B; case: (o').
  by right; rewrite /= I' T.
- subst b; case: (meaning_cases Ma) => [[Ia ->]|[k' [M' [N [Ea _]]]]].
    by have [B|I] := nadd_timing Ia H; [left|right; rewrite /= addr0].
  by move: H; rewrite Ea.
Qed.

Lemma bad_nadd a b o : bad a -> nadd a b = Ok o -> bad o.
Proof.
case: a => [c|v|bs nv|bs nv|A|k M N|] // B H.
- have := bad0_nadd (a := NSM bs nv) B H; move: H => /=; case: (nadd nv b) => //= x [<-] //.
- have := bad0_nadd (a := NBlk bs nv) B H; move: H => /=; case: (nadd nv b) => //= x.
  by rewrite /mk_block; case: x => [c|w|? ?|? ?|?|? ? ?|] //=; try (case: ifP => // _); move=> [<-].
- have : (exists o', nadd N b = Ok o' /\ o = NMarg M o') \/ o = NMarg M N.
    move: H; case: b => [c|v|bs nv|bs nv|A|k' M' N'|] //=;
      try by (case: (nadd N _) => //= x [<-]; left; exists x).
    by case: ifP => // _ [<-]; right.
  case=> [[o' [E ->]]|-> //].
  case: N B {H} E => [c|v|bs nv|bs nv|A|k' M' N'|] //= B E.
  + have := bad0_nadd (a := NSM bs nv) B E; by case: (o').
  + have := bad0_nadd (a := NBlk bs nv) B E; by case: (o').
  + move: E; case: b => [c|v|bs nv|bs nv|A|k'' M'' N''|] //=;
      try by (case: (nadd N' _) => //= x [<-]).
    by case: ifP => // _ [<-].
  + by move: E => [<-].
- by move: H => /= [<-].
Qed.
End Sums.

Lemma noise_sum_inv n (l : seq (nobj n)) o :
  (forall b, List.In b l -> component b) -> get_ndiag l = Ok o ->
  bad o \/ meaning o = Some (flatten [seq timing b | b <- l], \sum_(b <- l) component_cov b).
Proof.
elim/last_ind: l o => [|l b IH] o CL.
  by rewrite /get_ndiag => [[<-]]; right; rewrite /= eqxx big_nil.
rewrite /get_ndiag foldl_rcons -/(get_ndiag l); case E : (get_ndiag l) => [a|//] /= H.
have CL' : forall b, List.In b l -> component b.
  move=> c cl; apply: CL; rewrite -cats1; exact/(List.in_or_app l [:: b])/or_introl.
have Cb : component b.
  by apply: CL; rewrite -cats1; apply/(List.in_or_app l [:: b]); right; left.
case: (IH a CL' E) => [B|M]; first by left; apply: bad_nadd B H.
have [B|M'] := nadd_step M Cb H; [by left|right].
by rewrite M' map_rcons flatten_rcons -cats1 big_cat /= big_cons big_nil addr0.
Qed.

Lemma noise_sum_lem : forall n (l : seq (nobj n)) o,
  (forall b, List.In b l -> component b) -> get_ndiag l = Ok o ->
  meaning o = Some (flatten [seq timing b | b <- l], \sum_(b <- l) component_cov b) \/
  (forall other left ld, solve o other left ld = Err TypeError \/ solve o other left ld = Err ValueError).
Proof.
move=> n l o CL H; case: (noise_sum_inv CL H) => [B|M]; [right=> *; exact: solve_bad|by left].
Qed.

(** The orders of components that work, and one that does not. *)
Section Layouts.
Variable n : nat.
Hypothesis n0 : (0 < n)%N.
Implicit Types (o a b x : nobj n).
Definition posv (v : 'cV[R]_n) : Prop := forall i, 0 < v i ord0.

Definition flatv x : Prop := x = NScal 0 \/ exists v, posv v /\ x = NVec v.
Definition vplus x (w : 'cV[R]_n) : nobj n := if x is NVec v then NVec (v + w) else NVec w.
Lemma flatv_vplus x w : flatv x -> posv w -> flatv (vplus x w).
Proof.
case=> [->|[v [v0 ->]]] w0; right; first by exists w.
by exists (v + w); split=> // i; rewrite mxE addr_gt0.
Qed.
Definition frame (F : nobj n -> nobj n) : Prop :=
  forall x w, flatv x -> posv w -> nadd (F x) (NVec w) = Ok (F (vplus x w)).
Definition stepf (acc : result (nobj n)) b := rbind acc (fun a => nadd a b).
Lemma stepf_err e l : foldl stepf (Err e) l = Err e.
Proof. by elim: l. Qed.
Lemma get_ndiagE l : get_ndiag l = foldl stepf (Ok (NScal 0)) l.
Proof. by []. Qed.
Lemma fold_frame F (vs : seq 'cV[R]_n) x : frame F -> flatv x -> (forall v, v \in vs -> posv v) ->
  foldl stepf (Ok (F x)) [seq NVec v | v <- vs] = Ok (F (foldl vplus x vs)).
Proof.
move=> fF; elim: vs x => [//|w vs IH] x fx P /=.
have w0 : posv w by apply: P; rewrite mem_head.
rewrite fF //; apply: IH; first exact: flatv_vplus.
by move=> v vv; apply: P; rewrite in_cons vv orbT.
Qed.
Lemma flatv_fold (vs : seq 'cV[R]_n) x : flatv x -> (forall v, v \in vs -> posv v) -> flatv (foldl vplus x vs).
Proof.
elim: vs x => [//|w vs IH] x fx P /=; apply: IH.
  by apply: flatv_vplus => //; apply: P; rewrite mem_head.
by move=> v vv; apply: P; rewrite in_cons vv orbT.
Qed.

Definition spf (A : 'M[R]_n) x : nobj n := NSp (A + if x is NVec v then diag v else 0).
Lemma diagD (v w : 'cV[R]_n) : diag (v + w) = diag v + diag w.
Proof. by rewrite -!diag_covE diag_covD. Qed.

Lemma frame_id : frame id.
Proof. by move=> x w [->|[v [v0 ->]]] w0 /=; rewrite ?const0 ?addr0. Qed.
Lemma frame_sm bs : frame (NSM bs).
Proof. by move=> x w [->|[v [v0 ->]]] w0 /=; rewrite ?const0 ?addr0. Qed.
Lemma frame_blk (bs : blocks n) : bs <> [::] -> frame (NBlk bs).
Proof.
move=> H; have N : nilp bs = false by case: (bs) H.
by move=> x w [->|[v [v0 ->]]] w0 /=; rewrite N ?const0 ?addr0 andbF.
Qed.
Lemma frame_sp A : frame (spf A).
Proof. by move=> x w [->|[v [v0 ->]]] w0 /=; rewrite /spf ?addr0 // diagD addrA. Qed.
Lemma frame_marg k (M : 'M[R]_(n, k)) F : frame F -> frame (fun x => NMarg M (F x)).
Proof. by move=> fF x w fx w0 /=; rewrite fF. Qed.

(** A correlated component and the frame it makes. *)
Definition ecorr_like (e : nobj n) (F : nobj n -> nobj n) : Prop :=
  (exists bs, e = NSM bs (NScal 0) /\ F = NSM bs) \/
  (exists bs, bs <> [::] /\ e = NBlk bs (NScal 0) /\ F = NBlk bs) \/
  (exists A, e = NSp A /\ F = spf A).
Lemma add_ecorr e F x : ecorr_like e F -> flatv x -> nadd x e = Ok (F x) /\ frame F.
Proof.
case=> [[bs [-> ->]]|[[bs [H [-> ->]]]|[A [-> ->]]]].
- split; last exact: frame_sm.
  case: H => [->|[v [v0 ->]]] /=; first by rewrite eqxx /= RplusE addr0.
  by rewrite posvec_neq0 // const0 add0r.
- have N : nilp bs = false by case: (bs) H.
  split; last exact: frame_blk.
  case: H0 => [->|[v [v0 ->]]] /=; first by rewrite eqxx /= RplusE addr0 eqxx.
  by rewrite posvec_neq0 // const0 add0r N andbF.
- split; last exact: frame_sp.
  case: H => [->|[v [v0 ->]]] /=; first by rewrite eqxx /spf addr0.
  by [].
Qed.
Lemma add_marg k (M : 'M[R]_(n, k)) x : flatv x -> nadd x (NMarg M (NScal 0)) = Ok (NMarg M x).
Proof.
case=> [->|[v [v0 ->]]] /=; first by rewrite eqxx.
by rewrite posvec_neq0 // const0 add0r.
Qed.
Lemma ecorr_not_bad e F x : ecorr_like e F -> flatv x -> bad0 (F x) = false.
Proof. by case=> [[bs [_ ->]]|[[bs [_ [_ ->]]]|[A [_ ->]]]] [->|[v [_ ->]]]. Qed.
Lemma ecorr_not_marg e F x : ecorr_like e F -> if F x is NMarg _ _ _ then False else True.
Proof. by case=> [[bs [_ ->]]|[[bs [_ [_ ->]]]|[A [_ ->]]]]. Qed.
Lemma nadd_marg_ecorr k (M : 'M[R]_(n, k)) N e F : ecorr_like e F -> nadd (NMarg M N) e = rmap (NMarg M) (nadd N e).
Proof. by case=> [[bs [-> _]]|[[bs [_ [-> _]]]|[A [-> _]]]]. Qed.
End Layouts.

(** Components that behave as ECORR does: Sherman-Morrison, blocks (at least
    one), or sparse. *)
Definition correlated (n : nat) (e : nobj n) : Prop :=
  match e with NSM _ (NScal c) => c = 0 | NBlk bs (NScal c) => c = 0 /\ bs <> [::] | NSp _ => True | _ => False end.
Lemma correlated_frame n (e : nobj n) : correlated e -> exists F, ecorr_like e F.
Proof.
case: e => [c|v|bs nv|bs nv|A|k M N|] //=.
- by case: nv => // c ->; exists (NSM bs); left; exists bs.
- by case: nv => // c [-> H]; exists (NBlk bs); right; left; exists bs.
- by move=> _; exists (spf A); right; right; exists A.
Qed.

Lemma noise_layouts_lem : forall n (vs1 vs2 vs3 : seq 'cV[R]_n) (e : seq (nobj n)) (tm : seq (nobj n)),
  (0 < n)%N -> (forall v, v \in vs1 ++ vs2 ++ vs3 -> forall i, 0 < v i ord0) ->
  (e = [::] \/ exists e0, correlated e0 /\ e = [:: e0]) ->
  (tm = [::] \/ exists k (M : 'M[R]_(n, k)), tm = [:: NMarg M (NScal 0)]) ->
  let l := [seq NVec v | v <- vs1] ++ tm ++ [seq NVec v | v <- vs2] ++ e ++ [seq NVec v | v <- vs3] in
  exists o, get_ndiag l = Ok o /\
    meaning o = Some (flatten [seq timing b | b <- l], \sum_(b <- l) component_cov b).
Proof.
move=> n vs1 vs2 vs3 e tm n0 P He Ht l.
have P1 : forall v, v \in vs1 -> posv v by move=> v H; apply: P; rewrite mem_cat H.
have P2 : forall v, v \in vs2 -> posv v by move=> v H; apply: P; rewrite !mem_cat H orbT.
have P3 : forall v, v \in vs3 -> posv v by move=> v H; apply: P; rewrite !mem_cat H !orbT.
have CL : forall b, List.In b l -> component b.
  have CV : forall vs b, List.In b [seq NVec v | v <- vs] -> @component n b.
    by elim=> [//|v vs IH] b /= [<- //|]; exact: IH.
  rewrite /l => b /(List.in_app_or _ _ _) [/CV //|].
  move=> /(List.in_app_or _ _ _) [|].
    by case: Ht => [->|[k [M ->]]] //= [<-|//].
  move=> /(List.in_app_or _ _ _) [/CV //|].
  move=> /(List.in_app_or _ _ _) [|/CV //].
  case: He => [->|[e0 [C ->]]] //= [<-|//].
  by move: C; case: (e0) => //= ? [] // c [].
have F1 : flatv (NScal 0 : nobj n) by left.
set x1 := foldl (@vplus n) (NScal 0) vs1.
have Fx1 : flatv x1 by apply: flatv_fold.
set x2 := foldl (@vplus n) x1 vs2.
have Fx2 : flatv x2 by apply: flatv_fold.
set x3 := foldl (@vplus n) x2 vs3.
have Fx3 : flatv x3 by apply: flatv_fold.
suff [o [H B]] : exists o, get_ndiag l = Ok o /\ bad o = false.
  exists o; split=> //; by case: (noise_sum_inv CL H); rewrite ?B.
rewrite /get_ndiag -/(@stepf n) /l !foldl_cat (fold_frame (@frame_id n) F1 P1) -/x1.
case: Ht => [->|[k [M ->]]] /=.
  rewrite (fold_frame (@frame_id n) Fx1 P2) -/x2.
  case: He => [->|[e0 [/correlated_frame [F EF] ->]]] /=.
    rewrite (fold_frame (@frame_id n) Fx2 P3) -/x3; eexists; split=> //.
    by case: Fx3 => [->|[v [_ ->]]].
  have [-> fF] := add_ecorr n0 EF Fx2.
  rewrite (fold_frame fF Fx2 P3) -/x3; eexists; split=> //.
  have := ecorr_not_marg x3 EF; have := ecorr_not_bad EF Fx3; rewrite /bad.
  by case: (F x3).
rewrite (add_marg n0 M Fx1) (fold_frame (frame_marg M (@frame_id n)) Fx1 P2) -/x2.
case: He => [->|[e0 [/correlated_frame [F EF] ->]]] /=.
  rewrite (fold_frame (frame_marg M (@frame_id n)) Fx2 P3) -/x3; eexists; split=> //.
  by case: Fx3 => [->|[v [_ ->]]].
have [E fF] := add_ecorr n0 EF Fx2.
have Em := nadd_marg_ecorr M x2 EF; rewrite /= in Em; rewrite Em E /= (fold_frame (frame_marg M fF) Fx2 P3) -/x3; eexists; split=> //.
have := ecorr_not_marg x3 EF; have := ecorr_not_bad EF Fx3; rewrite /bad.
by case: (F x3).
Qed.

Lemma mk_block_blk n (bs : blocks n) x y : mk_block bs x = Ok y -> exists z, y = NBlk bs z.
Proof.
by case: x => [c|v|? ?|? ?|?|? ? ?|] //=; try (case: ifP => // _); move=> [<-]; eexists.
Qed.
(** Sherman-Morrison ECORR before the marginalised timing model. *)
Lemma ecorr_before_marginalizing_lem : forall n (l1 l2 l3 : seq (nobj n)) bs k (M : 'M[R]_(n, k)) o,
  get_ndiag (l1 ++ NSM bs (NScal 0) :: l2 ++ NMarg M (NScal 0) :: l3) = Ok o ->
  forall other left ld, solve o other left ld = Err TypeError \/ solve o other left ld = Err ValueError.
Proof.
move=> n l1 l2 l3 bs k M o; rewrite get_ndiagE.
pose sm (a : nobj n) := bad a || match a with NSM _ _ | NMarg _ _ _ => true | _ => false end.
have smK a b c : sm a -> nadd a b = Ok c -> sm c.
  move=> /orP [B|S] H; apply/orP; first by left; apply: bad_nadd B H.
  case: a S H => // [bs' nv|k' M' N] _ /=.
    by case: (nadd nv b) => //= x [<-]; right.
  case: b => [c'|v|bs' nv|bs' nv|A|k'' M'' N''|] //=; try by (case: (nadd N _) => //= x [<-]; right).
  by case: ifP => // _ [<-]; right.
have smF l a c : sm a -> foldl (@stepf n) (Ok a) l = Ok c -> sm c.
  elim: l a => [|b l IH] a S /=; first by move=> [<-].
  case E : (nadd a b) => [x|e]; last by rewrite (stepf_err e).
  exact/IH/(smK a b).
have bF l a c : bad a -> foldl (@stepf n) (Ok a) l = Ok c -> bad c.
  elim: l a => [|b l IH] a S /=; first by move=> [<-].
  case E : (nadd a b) => [x|e]; last by rewrite stepf_err.
  exact/IH/(bad_nadd S E).
move=> H other left ld; apply: solve_bad; move: H.
rewrite foldl_cat; case: (foldl _ _ l1) => [a|e]; last by rewrite stepf_err.
rewrite /=; case E : (nadd a _) => [b|e]; last by rewrite stepf_err.
have sb : sm b.
  move: E; case: a => [c|v|bs' nv|bs' nv|A|k' M' N|] //=.
  - by case: ifP => // _ [<-].
  - by case: ifP => _ /= [<-].
  - by case: (nadd nv _) => //= x [<-]; rewrite /sm /= orbT.
  - case: nv => [c|v|bs'' nv|bs'' nv|A|k' M' N|] /=.
    + by case: ifP.
    + by case: ifP => //= _ [<-].
    + by case: (nadd nv _).
    + case: (nadd nv _) => //= x; case Ey : (mk_block _ x) => [y|//] /=.
      by have [z ->] := mk_block_blk Ey.
    + by [].
    + by case: (nadd N _).
    + by move=> [<-].
  - by case: (nadd N _) => //= x [<-]; rewrite /sm /= orbT.
  - by move=> [<-].
rewrite foldl_cat; case E2 : (foldl _ _ l2) => [c|e]; last by rewrite stepf_err.
have sc := smF _ _ _ sb E2.
rewrite /=; case E3 : (nadd c _) => [d|e]; last by rewrite stepf_err.
apply: bF; case/orP: sc => [B|]; first exact: bad_nadd B E3.
case: c E2 E3 => //= [bs' nv] _.
case E4 : (nadd nv _) => [x|//] [<-] _ /=.
have : (forall c, x <> NScal c) /\ (forall v, x <> NVec v).
  case: nv E4 => [c|v|? ?|? ?|?|? ? ?|] E4; try by apply: nadd_not_flat E4 _ _.
  - by move: E4 => /=; case: ifP => // _ [<-].
  - by move: E4 => /=; case: ifP => _ [<-].
by case=> H1 H2; case: x E4 H1 H2 => // [c|v] _ H1 H2; [have := H1 c|have := H2 v].
Qed.

(** * The marginalised timing model *)

(** A noise object that computes with covariance [C]. *)
Definition solves (n : nat) (N : nobj n) (C : 'M[R]_n) : Prop :=
  posdef C /\
  (forall y x, solve11 N y x = Ok ((y^T *m invmx C *m x) ord0 ord0)) /\
  (forall k (Z : 'M[R]_(n, k)) x, solve21 N Z x = Ok (Z^T *m invmx C *m x)) /\
  (forall k l (Z : 'M[R]_(n, k)) (X : 'M[R]_(n, l)), solve22 N Z X = Ok (Z^T *m invmx C *m X)) /\
  logdet_of N = Ok (ln (\det C)).

(** The inner noise objects of positive variances. *)
Definition proper_noise (n : nat) (N : nobj n) : Prop :=
  match N with
  | NVec v => forall i, 0 < v i ord0
  | NSM bs (NVec v) => (forall i, 0 < v i ord0) /\ (forall b, b \in bs -> 0 < b.2) /\ disjoint_epochs [seq b.1 | b <- bs]
  | NBlk bs (NVec v) => (0 < n)%N /\ (forall i, 0 < v i ord0) /\ disjoint_epochs [seq projT1 b | b <- bs] /\
      (forall b, b \in bs -> sym (projT2 b)) /\
      (forall b, b \in bs -> (1 < size (projT1 b))%N -> posdef (blk_sum v (projT2 b)))
  | NSp A => posdef A
  | _ => False
  end.

Lemma block_cov_sym n (bs : blocks n) : (forall b, b \in bs -> sym (projT2 b)) -> sym (block_cov bs).
Proof.
move=> sB; apply/matrixP => i k; rewrite !mxE big_seq_cond [RHS]big_seq_cond; apply: eq_bigr => b /andP [bb _].
rewrite exchange_big /=; apply: eq_bigr => a _; apply: eq_bigr => c _.
by rewrite -[in RHS](sB b bb) mxE.
Qed.

Lemma posdef_step p m (C : 'M[R]_p) (E : 'M[R]_(m, p)) (B D S : 'M[R]_m) :
  S = B + D -> posdef S -> posdef C -> sym B -> E *m E^T = 1%:M -> C *m E^T = E^T *m D ->
  posdef (C + E^T *m B *m E).
Proof.
move=> SE pS pC sB EE CE.
have sC' : sym (C + E^T *m B *m E).
  by case: pC => sC _; rewrite /sym linearD /= sC !trmx_mul trmxK sB mulmxA.
split=> // x x0; set C' := C + _ in sC' *.
set w := E *m x; set y := x - E^T *m w.
have Ey : E *m y = 0 by rewrite /y mulmxBr mulmxA EE mul1mx subrr.
have Ex : x = E^T *m w + y by rewrite /y addrC subrK.
clearbody y; clearbody w.
have C'E : C' *m E^T = E^T *m S.
  by rewrite /C' mulmxDl CE -mulmxA EE mulmx1 -mulmxDr addrC -SE.
have C'y : C' *m y = C *m y by rewrite /C' mulmxDl -mulmxA Ey mulmx0 addr0.
clearbody C'.
have Q : quad C' x = quad S w + quad C y.
  have Et : x^T = w^T *m E + y^T by rewrite {1}Ex linearD /= trmx_mul trmxK.
  have Er : C' *m x = E^T *m S *m w + C *m y by rewrite {1}Ex mulmxDr mulmxA C'E C'y.
  have yE : y^T *m E^T = 0 by rewrite -trmx_mul Ey trmx0.
  rewrite /quad -mulmxA Er Et mulmxDl !mulmxDr -!mulmxA (mulmxA E E^T) EE mul1mx (mulmxA y^T E^T) yE mul0mx.
  have -> : w^T *m (E *m (C *m y)) = 0.
    have -> : E *m (C *m y) = (y^T *m (C *m E^T))^T.
      by rewrite !trmx_mul !trmxK mulmxA; case: pC => -> _.
    by rewrite CE mulmxA yE mul0mx trmx0 mulmx0.
  by rewrite addr0 add0r mxE.
rewrite Q; case: (w =P 0) => [w0|/eqP w0].
  have y0 : y != 0 by apply: contra x0 => /eqP y0; rewrite Ex w0 y0 mulmx0 addr0.
  by rewrite ltr_paddl ?posdef_ge0 //; case: pC => _; apply.
by rewrite ltr_paddr ?posdef_ge0 //; case: pS => _; apply.
Qed.
Lemma bcov_posdef n (v : 'cV[R]_n) bs : (forall i, 0 < v i ord0) -> blkok v bs ->
  (forall b, b \in bs -> sym (projT2 b)) -> posdef (bcov v bs).
Proof.
move=> v0; elim/last_ind: bs => [|bs b IH] ok sB.
  by rewrite /bcov big_nil addr0; exact: diag_posdef.
have [okb U P D] := blkok_rcons ok; rewrite bcov_rcons.
have pC : posdef (bcov v bs) by apply: IH => // c cb; apply: sB; rewrite mem_rcons in_cons cb orbT.
case: ifP => // S; apply: (posdef_step (D := dsub v (projT1 b)) (S := blk_sum v (projT2 b))) => //.
- exact: P.
- by apply: sB; rewrite mem_rcons mem_head.
- exact: sel_selT.
- exact: bcov_selT.
Qed.

Lemma proper_solves n (N : nobj n) : proper_noise N -> exists C, inner_cov N = Some C /\ solves N C.
Proof.
case: N => [c|v|bs nv|bs nv|A|k M N|] //=.
- move=> v0; exists (diag_cov v); split=> //; rewrite diag_covE.
  have p := diag_posdef v0; have E := vec_divE (k := _) _ (pos_neq0 v0).
  split=> //; split=> [y x|] /=; first by rewrite dotE E mulmxA.
  split=> [k Z x|]; first by rewrite E mulmxA.
  split=> [k l Z X|]; first by rewrite E mulmxA.
  by rewrite vec_logdetE.
- case: nv => //= v [v0 [j0 D]]; exists (diag_cov v + ecorr_cov bs); split=> //; rewrite -smcovE.
  have ok : smok bs by split.
  split; first exact: smcov_posdef.
  split=> [y x|] /=; first by rewrite sm_1D1E // sm_D1E // dotE mulmxA.
  split=> [k Z x|]; first by rewrite sm_D1E // mulmxA.
  split=> [k l Z X|]; first by rewrite sm_2D2E.
  by have [_ _ _ [_ H]] := sm_inv v0 ok; rewrite H.
- case: nv => //= v [n0 [v0 [D [sB P]]]]; exists (diag_cov v + block_cov bs); split=> //.
  have ok : blkok v bs by split.
  have V := posvec_neq0 n0 v0.
  rewrite -bcovE; split; last first.
    rewrite /= V; split=> [y x|] /=; first by rewrite blk_ZNX_ok.
    split=> [k Z x|]; first by rewrite blk_ZNX_ok.
    split=> [k l Z X|]; first by rewrite blk_ZNX_ok.
    by rewrite blk_logdet_ok.
  exact: bcov_posdef.
- move=> P; exists A; split=> //; split=> //.
  have [U HU] := posdef_chol P; have [sA _] := P.
  rewrite /= HU; split=> [y x|] /=; first by rewrite (cho_solveE _ sA HU) dotE mulmxA.
  split=> [k Z x|]; first by rewrite (cho_solveE _ sA HU) mulmxA.
  split=> [k l Z X|]; first by rewrite (cho_solveE _ sA HU) mulmxA.
  by rewrite (cho_logdetE sA HU).
Qed.

(** The projected inverse covariance. *)
Definition proj_inv (n k : nat) (C : 'M[R]_n) (M : 'M[R]_(n, k)) : 'M[R]_n :=
  invmx C - invmx C *m M *m invmx (M^T *m invmx C *m M) *m M^T *m invmx C.
Definition full_rank (n k : nat) (M : 'M[R]_(n, k)) : Prop := forall x : 'cV[R]_k, M *m x = 0 -> x = 0.

Section Marg.
Variables (n k : nat) (C : 'M[R]_n) (M : 'M[R]_(n, k)) (N : nobj n).
Hypotheses (SN : solves N C) (FR : full_rank M).
Let S := M^T *m invmx C *m M.
Lemma MNM_posdef : posdef S.
Proof. by case: SN => pC _; apply: posdef_congr => //; exact: posdef_inv. Qed.
Lemma marg_cf_ok : exists U, marg_cf M N = Ok U /\ chol S = Some U.
Proof.
have [U HU] := posdef_chol MNM_posdef; exists U.
by case: SN => _ [_ [_ [S22 _]]]; rewrite /marg_cf S22 /= -/S HU.
Qed.
Lemma S_sym : sym S. Proof. by case: MNM_posdef. Qed.
Lemma iC_sym : (invmx C)^T = invmx C. Proof. by case: SN => [[sC _] _]; exact: sym_inv. Qed.

Lemma proj_formula l m (L : 'M[R]_(n, l)) (T : 'M[R]_(n, m)) :
  L^T *m proj_inv C M *m T =
  L^T *m invmx C *m T - (M^T *m invmx C *m L)^T *m (invmx S *m (M^T *m invmx C *m T)).
Proof.
rewrite /proj_inv -/S mulmxBr mulmxBl !trmx_mul iC_sym trmxK; congr (_ - _); by rewrite !mulmxA.
Qed.

Lemma marg_rr_ok r : marg_rr M N r = Ok ((r^T *m proj_inv C M *m r) ord0 ord0).
Proof.
have [U [E HU]] := marg_cf_ok; case: SN => _ [S11 [S21 _]].
rewrite /marg_rr S11 S21 E /= (cho_solveE _ S_sym HU) dotE proj_formula; by rewrite !mxE.
Qed.
Lemma marg_11_ok y x : marg_11 M N y x = Ok ((y^T *m proj_inv C M *m x) ord0 ord0).
Proof.
have [U [E HU]] := marg_cf_ok; case: SN => _ [S11 [S21 _]].
rewrite /marg_11 S11 !S21 E /= (cho_solveE _ S_sym HU) dotE proj_formula; by rewrite !mxE.
Qed.
Lemma marg_Tr_ok l (T : 'M[R]_(n, l)) r : marg_Tr M N T r = Ok (T^T *m proj_inv C M *m r).
Proof.
have [U [E HU]] := marg_cf_ok; case: SN => _ [S11 [S21 [S22 _]]].
rewrite /marg_Tr !S21 S22 E /= (cho_solveE _ S_sym HU) proj_formula; congr (Ok (_ - _)).
by rewrite trmx_mul (sym_inv S_sym) [RHS]mulmxA.
Qed.
Lemma marg_LT_ok l m (L : 'M[R]_(n, l)) (T : 'M[R]_(n, m)) : marg_LT M N L T = Ok (L^T *m proj_inv C M *m T).
Proof.
have [U [E HU]] := marg_cf_ok; case: SN => _ [S11 [S21 [S22 _]]].
by rewrite /marg_LT !S22 E /= (cho_solveE _ S_sym HU) proj_formula.
Qed.
Lemma marg_logdet_ok :
  marg_logdet M N = Ok (ln (\det C) + ln (\det S) + k%:R * ln (pow 10 40)).
Proof.
have [U [E HU]] := marg_cf_ok; case: SN => _ [_ [_ [_ LD]]].
by rewrite /marg_logdet LD E /= (cho_logdetE S_sym HU).
Qed.
Lemma proj_M : proj_inv C M *m M = 0.
Proof.
rewrite /proj_inv mulmxBl -!mulmxA (mulmxA M^T) -/S mulVmx ?mulmx1 ?subrr //.
exact: (posdef_unit MNM_posdef).
Qed.
End Marg.

(** Products with a given matrix in place of the inverse covariance. *)
Definition product_with (n : nat) (P : 'M[R]_n) (other left : arr n) : out :=
  match other, left with
  | A1 x, A1 y => OS ((y^T *m P *m x) ord0 ord0)
  | A1 x, A2 _ Z => OV (vec (Z^T *m P *m x))
  | A2 _ X, A1 y => OV (vec (y^T *m P *m X)^T)
  | A2 _ X, A2 _ Z => OM (rows (Z^T *m P *m X))
  end.
(** The documented argument shapes: both one-dimensional, both two-dimensional,
    or a vector with a matrix on the left. *)
Definition marg_shapes (n : nat) (other left : arr n) : bool :=
  match other, left with A2 _ _, A1 _ => false | _, _ => true end.

Lemma marginalizing_solve_lem : forall n k (M : 'M[R]_(n, k)) (N : nobj n),
  proper_noise N -> full_rank M ->
  exists C, inner_cov N = Some C /\ posdef C /\ posdef (M^T *m invmx C *m M) /\
    (forall other ld, solve (NMarg M N) other LSame ld =
       Ok (product_with (proj_inv C M) other other,
           if other is A1 _ then
             if ld then Some (ln (\det C) + ln (\det (M^T *m invmx C *m M)) + k%:R * ln (pow 10 40)) else None
           else None)) /\
    (forall other left ld, marg_shapes other left ->
       solve (NMarg M N) other (LArr left) ld = Ok (product_with (proj_inv C M) other left, None)) /\
    (forall other left ld, ~~ marg_shapes other left -> solve (NMarg M N) other (LArr left) ld = Err ValueError) /\
    (forall other ld, solve (NMarg M N) other LNone ld = Err ValueError).
Proof.
move=> n k M N PN FR; have [C [IC SN]] := proper_solves PN; exists C; split=> //.
split; first by case: SN.
split; first exact: MNM_posdef SN FR.
split.
  case=> [x|l X] ld /=; last by rewrite (marg_LT_ok SN FR).
  by rewrite (marg_rr_ok SN FR) (marg_logdet_ok SN FR); case: ld.
split; first by case=> [x|l X] [y|m Y] ld //= _; rewrite ?(marg_11_ok SN FR) ?(marg_Tr_ok SN FR) ?(marg_LT_ok SN FR).
by split=> [[x|l X] [y|m Y] ld|[x|l X] ld].
Qed.

(** Residuals that differ by a timing-model offset are not distinguished. *)
Lemma marginalizing_invariance_lem : forall n k (M : 'M[R]_(n, k)) (N : nobj n) (r : 'cV[R]_n) (x : 'cV[R]_k) ld,
  proper_noise N -> full_rank M ->
  solve (NMarg M N) (A1 (r + M *m x)) LSame ld = solve (NMarg M N) (A1 r) LSame ld /\
  (forall left, solve (NMarg M N) (A1 (r + M *m x)) (LArr left) ld = solve (NMarg M N) (A1 r) (LArr left) ld) /\
  (exists d, solve (NMarg M N) (A1 (M *m x)) LSame ld = Ok (OS 0, d)) /\
  (forall l (T : 'M[R]_(n, l)), solve (NMarg M N) (A1 (M *m x)) (LArr (A2 T)) ld = Ok (OV (nseq l 0), None)).
Proof.
move=> n k M N r x ld PN FR; have [C [_ SN]] := proper_solves PN.
have PM z : proj_inv C M *m (z + M *m x) = proj_inv C M *m z.
  by rewrite mulmxDr mulmxA (proj_M SN FR) mul0mx addr0.
have PM0 : proj_inv C M *m (M *m x) = 0 by rewrite mulmxA (proj_M SN FR) mul0mx.
have PMt : (r + M *m x)^T *m proj_inv C M = r^T *m proj_inv C M.
  have sP : (proj_inv C M)^T = proj_inv C M.
    have sS := S_sym SN FR; have sC := iC_sym SN.
    by rewrite /proj_inv linearB /= !trmx_mul !trmxK sC (sym_inv sS) !mulmxA.
  by apply: (can_inj trmxK); rewrite !trmx_mul !trmxK sP PM.
split.
  by rewrite /= !(marg_rr_ok SN FR) PMt -!mulmxA PM.
split; first by case=> [y|l T] /=; rewrite ?(marg_11_ok SN FR) ?(marg_Tr_ok SN FR) -!mulmxA PM.
split.
  by rewrite /= (marg_rr_ok SN FR) -mulmxA PM0 mulmx0 mxE /with_logdet /= (marg_logdet_ok SN FR); case: ld => /=; eexists.
move=> l T; rewrite /= (marg_Tr_ok SN FR) -mulmxA PM0 mulmx0 /=; congr (Ok (OV _, _)).
have Z : forall q : seq 'I_l, [seq (0 : 'cV[R]_l) i ord0 | i <- q] = nseq (size q) 0.
  by elim=> //= i q ->; rewrite mxE.
by rewrite /vec Z size_enum_ord.
Qed.

(** Columns that are not independent are refused. *)
Lemma marginalizing_rank_deficient_lem : forall n k (M : 'M[R]_(n, k)) (N : nobj n) other ld,
  proper_noise N -> ~ full_rank M -> solve (NMarg M N) other LSame ld = Err CholmodError.
Proof.
move=> n k M N other ld PN FR; have [C [_ SN]] := proper_solves PN.
have [pC [S11 [S21 [S22 LD]]]] := SN.
have Ecf : marg_cf M N = Err CholmodError.
  rewrite /marg_cf S22 /= chol_none //.
    by rewrite /sym !trmx_mul trmxK (iC_sym SN) mulmxA.
  move=> [_ H]; apply: FR => x Mx; case: (x =P 0) => // /eqP /H.
  by rewrite quad_congr Mx /quad trmx0 !mul0mx mxE ltxx.
by case: other => [x|l X]; rewrite /= /marg_rr /marg_LT ?S11 ?S21 ?S22 Ecf.
Qed.

(** Sums with a marginalised timing model. *)
Lemma marginalizing_add_lem : forall n k (M : 'M[R]_(n, k)) (N : nobj n),
  (forall k' (M' : 'M[R]_(n, k')) N', nadd (NMarg M N) (NMarg M' N') = Err ValueError) /\
  nadd (NMarg M N) (NScal 0) = Ok (NMarg M N) /\ nadd (NScal 0) (NMarg M N) = Ok (NMarg M N) /\
  (forall c, c <> 0 -> nadd (NMarg M N) (NScal c) = Err TypeError /\ nadd (NScal c) (NMarg M N) = Err TypeError).
Proof.
move=> n k M N /=; rewrite eqxx; do 3 (split=> //).
by move=> c c0; case: eqP.
Qed.

Lemma inner_addV n (N : nobj n) C v N' : inner_cov N = Some C ->
  (addV N v = Ok N' \/ nadd N (NVec v) = Ok N') -> inner_cov N' = Some (C + diag_cov v).
Proof.
case: N => [c|w|bs nv|bs nv|A|k M N|] //=.
- by case: eqP => // -> [<-] [] [<-] /=; rewrite const0 ?addr0 ?add0r.
- by move=> [<-] [] [<-] /=; rewrite diag_covD.
- case: nv => [c|w| | | | |] //=.
  + by case: eqP => // -> [<-] [] [<-] /=; rewrite const0 ?add0r ?addr0 addrC.
  + by move=> [<-] [] [<-] /=; rewrite diag_covD addrAC.
- case: nv => [c|w| | | | |] //=.
  + by case: eqP => // -> [<-] []; rewrite const0 ?add0r ?addr0; case: ifP => // _ [<-] /=; rewrite addrC.
  + by move=> [<-] []; case: ifP => // _ [<-] /=; rewrite diag_covD addrAC.
- by move=> [<-] [] [<-] /=; rewrite diag_covE.
Qed.
Lemma marginalizing_add_vector_lem : forall n k (M : 'M[R]_(n, k)) (N : nobj n) C (v : 'cV[R]_n),
  v <> 0 -> inner_cov N = Some C ->
  (forall o, nadd (NVec v) (NMarg M N) = Ok o \/ nadd (NMarg M N) (NVec v) = Ok o ->
     exists N', o = NMarg M N' /\ inner_cov N' = Some (C + diag_cov v)) /\
  ((if N is NBlk bs _ then bs <> [::] else True) ->
     exists o o', nadd (NVec v) (NMarg M N) = Ok o /\ nadd (NMarg M N) (NVec v) = Ok o').
Proof.
move=> n k M N C v v0 I; have /negPf Ev : v != 0 by apply/eqP.
split=> [o|].
- rewrite /= Ev => H.
  have [N' [HN' ->]] : exists N', (addV N v = Ok N' \/ nadd N (NVec v) = Ok N') /\ o = NMarg M N'.
    case: H; first by case E : (addV N v) => [N'|e] //= [<-]; exists N'; split=> //; left.
    by case E : (nadd N (NVec v)) => [N'|e] //= [<-]; exists N'; split=> //; right.
  by exists N'; split=> //; exact: inner_addV I HN'.
- rewrite /= Ev; case: N I => [c|w|bs nv|bs nv|A|k' M' N'|] //=; try by (do 2 eexists; split).
  + by case: nv => [c|w| | | | |] //= _ _; do 2 eexists; split.
  + move=> I b0; have eb : nilp bs = false by case: (bs) b0.
    by case: nv I => [c|w| | | | |] //= I; rewrite eb ?andbF; do 2 eexists; split.
Qed.

(** * A concrete case: three TOAs, the first two in one epoch *)
Definition ex_v : 'cV[R]_3 := \col_i (i.+1)%:R.
Definition ex_bs : seq (seq 'I_3 * R) := [:: ([:: inord 0; inord 1], 2%:R)].
Definition ex_M : 'M[R]_(3, 1) := const_mx 1.
Lemma ex_v_pos : forall i, 0 < ex_v i ord0.
Proof. by move=> i; rewrite mxE ltr0Sn. Qed.
Lemma ex_bs_pos : forall b, b \in ex_bs -> 0 < b.2.
Proof. by move=> b; rewrite inE => /eqP ->; rewrite /= ltr0Sn. Qed.
Lemma ex_disjoint : disjoint_epochs [seq b.1 | b <- ex_bs].
Proof. by rewrite /disjoint_epochs /= inE -val_eqE /= !inordK. Qed.
Lemma ex_disjoint_blocks : disjoint_epochs [seq projT1 b | b <- ecorr_blocks ex_bs].
Proof. by rewrite ecorr_blocks_idx; exact: ex_disjoint. Qed.
Lemma ex_block_posdef : forall b, b \in ecorr_blocks ex_bs -> (1 < size (projT1 b))%N -> posdef (blk_sum ex_v (projT2 b)).
Proof. by move=> b bb _; apply: ecorr_block_posdef bb; [exact: ex_v_pos|exact: ex_bs_pos]. Qed.
Lemma ex_proper : proper_noise (NSM ex_bs (NVec ex_v)).
Proof. by split; [exact: ex_v_pos|split; [exact: ex_bs_pos|exact: ex_disjoint]]. Qed.
Lemma ex_full_rank : full_rank ex_M.
Proof.
move=> x /colP /(_ ord0); rewrite !mxE big_ord1 mxE mul1r => H.
by apply/colP => i; rewrite [i]ord1 H mxE.
Qed.
Definition bad_block : blocks 3 := [:: existT (fun idx : seq 'I_3 => 'M[R]_(size idx)) [:: inord 0; inord 1] (const_mx (- 5%:R))].
Lemma posdef_entry n (A : 'M[R]_n) (i : 'I_n) : posdef A -> 0 < A i i.
Proof.
move=> [_ H]; have e0 : (delta_mx i 0 : 'cV[R]_n) != 0.
  by apply/eqP => /colP /(_ i); rewrite !mxE !eqxx => /eqP; rewrite oner_eq0.
by have := H _ e0; rewrite /quad trmx_delta -rowE -colE !mxE.
Qed.
Lemma ex_bad_block : exists b, b \in bad_block /\ (1 < size (projT1 b))%N /\ ~ posdef (blk_sum ex_v (projT2 b)).
Proof.
eexists; split; first exact: mem_head.
split=> // /(posdef_entry (Ordinal (isT : (0 < 2)%N))).
rewrite !mxE eqxx mulr1n (_ : tnth _ _ = inord 0) // inordK //.
by rewrite addrC subr_gt0 ltr_nat.
Qed.
Lemma ex_layout : (0 < 3)%N /\ (forall v, v \in [:: ex_v] ++ [::] ++ [:: ex_v] -> forall i, 0 < v i ord0) /\
  correlated (ecorr_sm ex_bs).
Proof. by split=> //; split=> // v; rewrite !inE orbb => /eqP ->; exact: ex_v_pos. Qed.
Lemma ex_bad_order : exists o, get_ndiag [:: NVec ex_v; ecorr_sm ex_bs; NMarg ex_M (NScal 0)] = Ok o.
Proof.
eexists; rewrite /get_ndiag /= const0 addr0 (posvec_neq0 _ ex_v_pos) //= add0r (posvec_neq0 _ ex_v_pos) //=.
Qed.
Lemma ex_rank_deficient : ~ full_rank (0 : 'M[R]_(3, 1)).
Proof.
move=> /(_ (const_mx 1)); rewrite mul0mx => /(_ erefl) /colP /(_ ord0); rewrite !mxE => /eqP; by rewrite oner_eq0.
Qed.

(** Shapes that are refused whatever the noise is. *)
Lemma marginalizing_shapes_lem : forall n k (M : 'M[R]_(n, k)) (N : nobj n) ld,
  (forall other, solve (NMarg M N) other LNone ld = Err ValueError) /\
  (forall l (X : 'M[R]_(n, l)) y, solve (NMarg M N) (A2 X) (LArr (A1 y)) ld = Err ValueError).
Proof. by move=> n k M N ld; split=> // -[]. Qed.
Lemma ex_add_vector : ex_v <> 0 /\ inner_cov (NSp (diag_cov ex_v)) = Some (diag_cov ex_v).
Proof. by split=> // /matrixP /(_ ord0 ord0); rewrite !mxE => /eqP; rewrite oner_eq0. Qed.
