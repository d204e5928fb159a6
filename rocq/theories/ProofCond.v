(** Proofs about conditional coefficients. *)
From Coq Require Import Reals Ascii String Lra.
From mathcomp Require Import all_ssreflect all_algebra.
From mathcomp Require Import fingroup perm zify.
From Verif Require ProofSelect.
From Verif Require Import RStruct PyBase ProofBase ModelLinalg ProofLinalg ModelNoise ProofNoise ModelLike ProofLike ModelKernel ProofKernel ModelCond.
Set Implicit Arguments.
Unset Strict Implicit.
Unset Printing Implicit Defensive.
Import GRing.Theory Num.Theory Order.TTheory.
Local Open Scope ring_scope.

(** * Factorisations *)
Lemma chol_lower_ok k (S : 'M[R]_k) : posdef S -> exists L, [/\ chol_lower S = Some L, L *m L^T = S & L \in unitmx].
Proof.
move=> pS; have [U HU] := posdef_chol pS; exists U^T; split; last by rewrite unitmx_tr (chol_unit HU).
  by rewrite /chol_lower (proj1 pS) HU.
by rewrite trmxK; exact: chol_gram (proj1 pS) HU.
Qed.
Lemma inv_gram k (L : 'M[R]_k) : L \in unitmx -> invmx (L *m L^T) = invmx L^T *m invmx L.
Proof.
move=> uL; have uT : L^T \in unitmx by rewrite unitmx_tr.
have u : L *m L^T \in unitmx by rewrite unitmx_mul uL.
by rewrite -[RHS](mulKmx u) -!mulmxA (mulmxA L^T) mulmxV // mul1mx mulmxV // mulmx1.
Qed.
Lemma trmx_invmx k (L : 'M[R]_k) : (invmx L)^T = invmx L^T. Proof. exact: trmx_inv. Qed.

(** A method that is exact on a system: the mean solves it and the variates are
    given the covariance [V]. *)
Definition exact_on (m : method) k (S V : 'M[R]_k) : Prop :=
  exists W : 'M[R]_k, W *m W^T = V /\ forall b, m k S b = Ok (invmx S *m b, W).

Lemma cholesky_exact k (S : 'M[R]_k) : posdef S -> exact_on m_cholesky S (invmx S).
Proof.
move=> pS; have [L [E G uL]] := chol_lower_ok pS; exists (invmx L^T); split.
  by rewrite trmx_invmx trmxK -inv_gram // G.
by move=> b; rewrite /m_cholesky E /cho_solve_lower mulmxA -inv_gram // G.
Qed.

Section Sparse.
Variable ordering : forall k, 'M[R]_k -> 'S_k.
Notation perm_of S := (perm_mx (ordering S) : 'M[R]_ _).
Lemma perm_orth k (s : 'S_k) : (perm_mx s : 'M[R]_k) *m (perm_mx s)^T = 1%:M.
Proof. by rewrite tr_perm_mx -perm_mxM mulgV perm_mx1. Qed.
Lemma perm_orthT k (s : 'S_k) : (perm_mx s : 'M[R]_k)^T *m perm_mx s = 1%:M.
Proof. exact/mulmx1C/perm_orth. Qed.

Lemma sparse_factor_ok k (S : 'M[R]_k) : posdef S -> exists L,
  [/\ sparse_factor ordering S = Some (perm_mx (ordering S), L), L \in unitmx &
      invmx L^T *m invmx L = perm_mx (ordering S) *m invmx S *m (perm_mx (ordering S))^T].
Proof.
move=> pS; set P := perm_mx _.
have PP : P *m P^T = 1%:M by exact: perm_orth.
have PP' : P^T *m P = 1%:M by exact: perm_orthT.
have pA : posdef (P *m S *m P^T).
  rewrite -{1}[P]trmxK; apply: posdef_congr => // x Px.
  by rewrite -[x]mul1mx -PP -mulmxA Px mulmx0.
have [L [E G uL]] := chol_lower_ok pA; exists L; split=> //; first by rewrite /sparse_factor -/P E.
rewrite -inv_gram // G.
have uA := posdef_unit pA; rewrite -[RHS](mulKmx uA) -[LHS]mulmx1; congr (_ *m _).
by rewrite -!mulmxA (mulmxA P^T P) PP' mul1mx (mulmxA S) mulmxV ?posdef_unit // mul1mx PP.
Qed.

Lemma sparse_mean k (S : 'M[R]_k) L b : posdef S ->
  invmx L^T *m invmx L = perm_mx (ordering S) *m invmx S *m (perm_mx (ordering S))^T ->
  ModelCond.sparse_solve (perm_mx (ordering S), L) b = invmx S *m b.
Proof.
move=> pS E; rewrite /ModelCond.sparse_solve /cho_solve_lower /= [invmx L^T *m _]mulmxA E.
by rewrite !mulmxA perm_orthT mul1mx -!mulmxA (mulmxA _^T) perm_orthT mul1mx.
Qed.

Lemma sparse_exact k (S : 'M[R]_k) : posdef S -> exact_on (m_sparse ordering) S (invmx S).
Proof.
move=> pS; have [L [E uL G]] := sparse_factor_ok pS.
exists ((perm_mx (ordering S))^T *m invmx L^T); split.
  rewrite trmx_mul trmx_invmx !trmxK mulmxA -(mulmxA _ (invmx L^T)) G.
  by rewrite !mulmxA perm_orthT mul1mx -mulmxA perm_orthT mulmx1.
by move=> b; rewrite /m_sparse E sparse_mean.
Qed.

Lemma sparse_coef_exact k (S : 'M[R]_k) : posdef S ->
  exact_on (m_sparse_coef ordering) S (perm_mx (ordering S) *m invmx S *m (perm_mx (ordering S))^T).
Proof.
move=> pS; have [L [E uL G]] := sparse_factor_ok pS.
exists (invmx L)^T; split; first by rewrite trmxK trmx_invmx.
by move=> b; rewrite /m_sparse_coef E sparse_mean.
Qed.
End Sparse.

(** What [scipy.linalg.svd] returns. *)
Definition svd2_ok (svd2 : forall k, 'M[R]_k -> option ('M[R]_k * 'cV[R]_k)) k (A : 'M[R]_k) : Prop :=
  exists u s (vh : 'M[R]_k), svd2 _ A = Some (u, s) /\ A = u *m diag_mx s^T *m vh /\
    u^T *m u = 1%:M /\ vh *m vh^T = 1%:M /\ (forall i, 0 <= s i ord0).

(** Positive definite square roots are unique. *)
Lemma tr_quad k l (A : 'M[R]_k) (D : 'M[R]_(k, l)) : \tr (D^T *m A *m D) = \sum_j quad A (col j D).
Proof.
apply: eq_bigr => j _; rewrite /quad tr_col -row_mul !mxE.
by apply: eq_bigr => i _; rewrite !mxE.
Qed.
Lemma posdef_root k (A B : 'M[R]_k) : posdef A -> posdef B -> A *m A = B *m B -> A = B.
Proof.
move=> pA pB E; pose D := A - B.
have SD : A *m D + D *m B = 0.
  by rewrite /D mulmxBr mulmxBl E addrA subrK subrr.
have T0 : \tr (D^T *m A *m D) + \tr (D *m B *m D^T) = 0.
  rewrite [X in _ + X]mxtrace_mulC mulmxA -mulmxA -[X in _ + \tr X]mulmxA -mxtraceD -mulmxDr.
  by rewrite SD mulmx0 mxtrace0.
have g1 : 0 <= \tr (D^T *m A *m D) by rewrite tr_quad sumr_ge0 // => j _; exact: posdef_ge0.
have g2 : 0 <= \tr (D *m B *m D^T) by rewrite -{1}[D]trmxK tr_quad sumr_ge0 // => j _; exact: posdef_ge0.
have : \tr (D^T *m A *m D) = 0.
  apply/eqP; rewrite eq_le g1 andbT -T0 ler_addl //.
rewrite tr_quad => /eqP; rewrite psumr_eq0; last by move=> j _; exact: posdef_ge0.
move=> /allP H; apply/eqP; rewrite -subr_eq0 -/D; apply/eqP/matrixP => i j.
have Dj : col j D = 0.
  apply/eqP; apply: contraT => n0; have := proj2 pA _ n0.
  by have /= := H j (mem_index_enum j) => /eqP ->; rewrite ltxx.
by have := congr1 (fun X : 'cV[R]_k => X i ord0) Dj; rewrite !mxE.
Qed.

Lemma svd_posdef svd2 k (S : 'M[R]_k) : posdef S -> svd2_ok svd2 S ->
  exists u s, [/\ svd2 _ S = Some (u, s), u *m u^T = 1%:M, u^T *m u = 1%:M, forall i, 0 < s i ord0 &
    S = u *m diag s *m u^T].
Proof.
move=> pS [u [s [vh [E [EA [uu [vv s0]]]]]]]; exists u, s.
have uu' : u *m u^T = 1%:M by exact: mulmx1C.
have uS := posdef_unit pS.
have us : diag_mx s^T \in unitmx.
  move: uS; rewrite EA !unitmxE !det_mulmx !unitfE => /negP h; apply/negP => /eqP E0.
  by apply: h; rewrite E0 mulr0 mul0r.
have sp i : 0 < s i ord0.
  rewrite lt_neqAle s0 andbT eq_sym; apply/eqP => si.
  by move: us; rewrite unitmxE det_diag (bigD1 i) //= mxE si mul0r unitr0.
split=> //; apply: posdef_root => //.
  rewrite -{1}[u]trmxK; apply: posdef_congr; first exact: diag_posdef.
  by move=> x ux; rewrite -[x]mul1mx -uu' -mulmxA ux mulmx0.
rewrite -{2}(proj1 pS) {1 2}EA !trmx_mul [(diag_mx _)^T]tr_diag_mx -!mulmxA (mulmxA vh) vv mul1mx.
by rewrite (mulmxA u^T u) uu mul1mx.
Qed.

Lemma svd_parts k (u : 'M[R]_k) (s : 'cV[R]_k) : u *m u^T = 1%:M -> u^T *m u = 1%:M -> (forall i, 0 < s i ord0) ->
  (forall b, svd_mean (u, s) b = invmx (u *m diag s *m u^T) *m b) /\
  svd_scale (u, s) *m (svd_scale (u, s))^T = invmx (u *m diag s *m u^T).
Proof.
move=> uu' uu sp; pose t : 'cV[R]_k := \col_i (s i ord0)^-1.
have st : diag s *m diag t = 1%:M.
  apply/matrixP => i j; rewrite /diag mul_diag_mx !mxE; case: eqP => [->|_]; last by rewrite mulr0.
  by rewrite mulr1n divff // gt_eqF.
have I : (u *m diag s *m u^T) *m (u *m diag t *m u^T) = 1%:M.
  by rewrite -!mulmxA (mulmxA u^T u) uu mul1mx (mulmxA (diag s)) st mul1mx.
have [uA _] := mulmx1_unit I.
have -> : invmx (u *m diag s *m u^T) = u *m diag t *m u^T.
  by rewrite -[RHS](mulKmx uA) I mulmx1.
split=> [b|].
  rewrite /svd_mean /= -!mulmxA; congr (_ *m _); apply/matrixP => i j.
  by rewrite [j]ord1 /diag mul_diag_mx !mxE mulrC.
have -> : svd_scale (u, s) = u *m diag (\col_i sqrt (1 / s i ord0)%R).
  by apply/matrixP => i j; rewrite /diag mul_mx_diag !mxE.
rewrite trmx_mul [(diag _)^T]tr_diag_mx -!mulmxA; congr (_ *m _); rewrite mulmxA; congr (_ *m _).
apply/matrixP => i j; rewrite /diag mul_diag_mx !mxE; case: eqP => [->|_]; last by rewrite !mulr0n mulr0.
rewrite !mulr1n div1r; apply: sqrt_mul; by rewrite invr_gt0.
Qed.
Lemma svd_exact svd2 k (S : 'M[R]_k) : posdef S -> svd2_ok svd2 S -> exact_on (m_svd svd2) S (invmx S).
Proof.
move=> pS ok; have [u [s [E uu' uu sp ES]]] := svd_posdef pS ok.
have [M C] := svd_parts uu' uu sp; exists (svd_scale (u, s)); split=> [|b]; first by rewrite C -ES.
by rewrite /m_svd E M -ES.
Qed.
Lemma svd_qr_exact svd2 qr k (S : 'M[R]_k) : posdef S -> svd2_ok svd2 S -> exact_on (m_svd_qr svd2 qr) S (invmx S).
Proof.
move=> pS ok; have [u [s [E uu' uu sp ES]]] := svd_posdef pS ok.
have [M C] := svd_parts uu' uu sp; exists (svd_scale (u, s)); split=> [|b]; first by rewrite C -ES.
by rewrite /m_svd_qr E M -ES.
Qed.
(** What [scipy.linalg.qr] returns. *)
Definition qr_ok (qr : forall k, 'M[R]_k -> 'M[R]_k * 'M[R]_k) k (A : 'M[R]_k) : Prop :=
  A = (qr _ A).1 *m (qr _ A).2 /\ (qr _ A).1^T *m (qr _ A).1 = 1%:M.
Lemma qr_exact svd2 qr k (S : 'M[R]_k) : posdef S -> svd2 k S = None -> qr_ok qr S -> svd2_ok svd2 (invmx S) ->
  exact_on (m_svd_qr svd2 qr) S S.
Proof.
move=> pS N [EQ QQ] ok; have uS := posdef_unit pS.
have uR : (qr _ S).2 \in unitmx.
  by move: uS; rewrite {1}EQ unitmx_mul => /andP[].
have Ei : invmx (qr _ S).2 *m (qr _ S).1^T = invmx S.
  have I : invmx (qr k S).2 *m (qr k S).1^T *m S = 1%:M.
    by rewrite {3}EQ !mulmxA -(mulmxA _ _^T) QQ mulmx1 mulVmx.
  by rewrite -[LHS](mulmxK uS) I mul1mx.
have [u [s [E uu' uu sp ES]]] := svd_posdef (posdef_inv pS) ok.
have [_ C] := svd_parts uu' uu sp; exists (svd_scale (u, s)); split; first by rewrite C -ES invmxK.
by move=> b; rewrite /m_svd_qr N uR Ei E.
Qed.

(** * The conditional coefficients *)
(** The prior of all pulsars without common signals. *)
Definition all_phi ps : 'M[R]_(tot_k ps) := bdiag (fun p => phi_mx (psr_phi p)) ps.
(** The inverse noise covariance, with the timing model projected out if it is
    marginalised. *)
Definition all_P ps := proj_inv (all_C ps) (all_M ps).
(** The matrix [T^T N^-1 T + Phi^-1] and the vector [T^T N^-1 r]. *)
Definition precision ps (Phi : 'M[R]_(tot_k ps)) : 'M[R]_(tot_k ps) := (all_T ps)^T *m all_P ps *m all_T ps + invmx Phi.
Definition weighted ps : 'cV[R]_(tot_k ps) := (all_T ps)^T *m all_P ps *m all_r ps.
(** Minus twice the log density of residuals and coefficients, up to a constant. *)
Definition misfit ps (Phi : 'M[R]_(tot_k ps)) (c : 'cV[R]_(tot_k ps)) : R :=
  (quad (all_P ps) (all_r ps - all_T ps *m c) + quad (invmx Phi) c)%R.

Lemma bdiag_add f g (A B : forall p, 'M[R]_(f p, g p)) ps : bdiag A ps + bdiag B ps = bdiag (fun p => A p + B p) ps.
Proof. elim: ps => [|p ps IH] /=; first by rewrite addr0. by rewrite add_block_mx IH !addr0. Qed.

Section Coefs.
Variable svd : forall k, 'M[R]_k -> 'M[R]_k * 'cV[R]_k.

Lemma cond_pieces_ok ps : (forall p, List.In p ps -> good p) -> cond_pieces ps = Ok (map TNr_of ps, map TNT_of ps).
Proof.
move=> H; rewrite /cond_pieces (@mapR_ok _ _ _ TNr_of) /=; last by move=> p hp; rewrite psr_TNr_ok //; exact: H.
by rewrite (@mapR_ok _ _ _ TNT_of) //= => p hp; rewrite psr_TNT_ok //; exact: H.
Qed.

Definition shifted k (x : 'cV[R]_k) (W : 'M[R]_k) (z : option 'cV[R]_k) : 'cV[R]_k := if z is Some y then x + W *m y else x.

Lemma separate_ok m (V : forall p, 'M[R]_(psr_k p)) ps :
  (forall p, List.In p ps -> psr_hasT p /\ exact_on m (psr_Sigma svd p) (V p)) ->
  exists W : 'M[R]_(tot_k ps), W *m W^T = bdiag V ps /\ forall z,
    cond_separate svd m (zip (map TNr_of ps) (map TNT_of ps)) z =
    Ok (shifted (stack (fun p => invmx (psr_Sigma svd p) *m psr_b p) ps) W z).
Proof.
elim: ps => [|p ps IH] H.
  exists 0; split=> [|z]; first by rewrite mul0mx.
  by rewrite /=; congr Ok; apply/matrixP => -[].
have [|W' [EW HW]] := IH; first by move=> q hq; apply: H; right.
have [h [Wp [Ep Hp]]] := H p (or_introl erefl).
exists (block_mx Wp 0 0 W'); split.
  by rewrite tr_block_mx !trmx0 mulmx_block !mul0mx !mulmx0 !addr0 !add0r Ep EW.
move=> z; rewrite /= {1 2}/TNr_of {1 2}/TNT_of h out_mxE out_vecE; cbn [rbind].
rewrite -/(psr_Sigma svd p) Hp; cbn [rbind]; rewrite HW; cbn [rbind]; congr Ok.
case: z => [z|//] /=; rewrite -{3}[z]vsubmxK mul_block_col !mul0mx addr0 add0r add_col_mx //.
Qed.

Lemma sigma_bdiag ps : (forall p, List.In p ps -> good p /\ posdef (phi_mx (psr_phi p))) ->
  [/\ bdiag (psr_Sigma svd) ps = precision (all_phi ps),
      forall p, List.In p ps -> posdef (psr_Sigma svd p),
      stack (fun p => invmx (psr_Sigma svd p) *m psr_b p) ps = invmx (precision (all_phi ps)) *m weighted ps &
      posdef (precision (all_phi ps)) /\ invmx (precision (all_phi ps)) = bdiag (fun p => invmx (psr_Sigma svd p)) ps].
Proof.
move=> H.
have HC p : List.In p ps -> posdef (cov_of (psr_N p)) /\ full_rank (tm_M (psr_N p)).
  by case/H => -[[PN FR] _] _; split=> //; exact: good_posdef.
have EP : all_P ps = bdiag psr_P ps by exact: bdiag_proj.
have E : bdiag (psr_Sigma svd) ps = precision (all_phi ps).
  rewrite /precision EP /all_T bdiag_tr !bdiag_mul.
  have [_ ->] := @bdiag_inv _ (fun p => phi_mx (psr_phi p)) ps (fun p hp => posdef_unit (proj2 (H p hp))).
  rewrite bdiag_add; apply: eq_bdiag => p hp.
  by rewrite /psr_Sigma; have [-> _] := kinv_posdef_lem svd (proj2 (H p hp)).
have pS p : List.In p ps -> posdef (psr_Sigma svd p).
  move=> hp; have [pC FR] := HC p hp; rewrite /psr_Sigma.
  have [-> _] := kinv_posdef_lem svd (proj2 (H p hp)).
  by apply: S_posdef => //; exact: (proj2 (H p hp)).
have I := @bdiag_inv _ (psr_Sigma svd) ps (fun p hp => posdef_unit (pS p hp)).
split=> //; rewrite -E; last by split; [exact: bdiag_posdef|exact: (proj2 I)].
rewrite (proj2 I) /weighted EP /all_T bdiag_tr bdiag_mul /all_r bdiag_stack bdiag_stack.
by [].
Qed.

Lemma coefs_separate msep mjoint ps (V : forall p, 'M[R]_(psr_k p)) :
  (forall p, List.In p ps -> good p /\ psr_hasT p /\ posdef (phi_mx (psr_phi p))) ->
  (forall p, List.In p ps -> posdef (psr_Sigma svd p) -> exact_on msep (psr_Sigma svd p) (V p)) ->
  exists W : 'M[R]_(tot_k ps), W *m W^T = bdiag V ps /\ forall z,
    coefs svd msep mjoint None z = Ok (shifted (invmx (precision (all_phi ps)) *m weighted ps) W z).
Proof.
move=> H HV; have [|E pS Es _] := @sigma_bdiag ps; first by move=> p /H [? []].
have [|W [EW HW]] := @separate_ok msep V ps.
  by move=> p hp; have [_ [h _]] := H p hp; split=> //; apply: HV => //; exact: pS.
exists W; split=> // z; rewrite /coefs cond_pieces_ok /=; last by move=> p /H [].
by rewrite HW Es.
Qed.

Lemma coefs_joint msep mjoint ps (Phi V : 'M[R]_(tot_k ps)) :
  (forall p, List.In p ps -> good p /\ psr_hasT p) -> posdef Phi ->
  (posdef (precision Phi) -> exact_on mjoint (precision Phi) V) ->
  posdef (precision Phi) /\
  exists W : 'M[R]_(tot_k ps), W *m W^T = V /\ forall z,
    coefs svd msep mjoint (Some (invmx Phi)) z = Ok (shifted (invmx (precision Phi) *m weighted ps) W z).
Proof.
move=> H pPhi HV.
have HC p : List.In p ps -> posdef (cov_of (psr_N p)) /\ full_rank (tm_M (psr_N p)).
  by case/H => -[[PN FR] _] _; split=> //; exact: good_posdef.
have pC : posdef (all_C ps) by apply: bdiag_posdef => p /HC [].
have FR : full_rank (all_M ps) by apply: bdiag_full_rank => p /HC [].
have EP : all_P ps = bdiag psr_P ps by exact: bdiag_proj.
have pS : posdef (precision Phi) by exact: S_posdef.
split=> //; have [W [EW HW]] := HV pS; exists W; split=> // z.
rewrite /coefs cond_pieces_ok /=; last by move=> p /H [].
rewrite /cond_joint /= concat_TNr_ok /=; last by move=> p /H [].
rewrite block_TNT_ok /=; last by move=> p /H [].
have -> : bdiag psr_TPT ps = (all_T ps)^T *m all_P ps *m all_T ps by rewrite EP /all_T bdiag_tr !bdiag_mul.
have -> : stack psr_b ps = weighted ps by rewrite /weighted EP /all_T /all_r bdiag_tr bdiag_mul bdiag_stack.
by rewrite -/(precision Phi) HW.
Qed.
End Coefs.

Lemma cross_sym k l (P : 'M[R]_k) (x : 'cV[R]_k) (y : 'M[R]_(k, l)) (d : 'cV[R]_l) : sym P ->
  (x^T *m P *m (y *m d)) ord0 ord0 = (d^T *m (y^T *m P *m x)) ord0 ord0.
Proof.
move=> sP; have -> : x^T *m P *m (y *m d) = (d^T *m (y^T *m P *m x))^T.
  by rewrite !trmx_mul sP !trmxK !mulmxA.
by rewrite mxE.
Qed.
Lemma misfit_shift ps (Phi : 'M[R]_(tot_k ps)) (b c : 'cV[R]_(tot_k ps)) : sym (all_P ps) -> sym (invmx Phi) ->
  precision Phi *m b = weighted ps -> misfit Phi c = misfit Phi b + quad (precision Phi) (c - b).
Proof.
move=> sP sQ Sb; rewrite /misfit.
set T := all_T ps; set P := all_P ps in sP *; set Q := invmx Phi in sQ *; set r := all_r ps.
have [d ->] : exists d, c = b + d by exists (c - b); rewrite addrC subrK.
have -> : b + d - b = d by rewrite addrC addKr.
have -> : r - T *m (b + d) = (r - T *m b) + - (T *m d) by rewrite mulmxDr opprD addrA.
have Qb : Q *m b = T^T *m P *m (r - T *m b).
  apply/eqP; rewrite mulmxBr eq_sym subr_eq -[T^T *m P *m r]Sb /precision mulmxDl -/T -/P -/Q addrC.
  by rewrite !mulmxA.
rewrite [quad P (r - _ + _)]quad_addx // [quad Q (b + d)]quad_addx //.
have -> : ((r - T *m b)^T *m P *m - (T *m d)) ord0 ord0 = - (d^T *m (T^T *m P *m (r - T *m b))) ord0 ord0.
  by rewrite mulmxN [LHS]mxE cross_sym.
have -> : quad P (- (T *m d)) = quad P (T *m d) by rewrite -scaleN1r quad_scale sqrrN expr1n mul1r.
have -> : (b^T *m Q *m d) ord0 ord0 = (d^T *m (T^T *m P *m (r - T *m b))) ord0 ord0.
  by rewrite -[d in LHS]mul1mx cross_sym // trmx1 mul1mx Qb.
have -> : quad (precision Phi) d = quad P (T *m d) + quad Q d.
  by rewrite /precision quadD -(quad_congr P T d).
move: (quad P (r - _)) (quad P (T *m d)) (quad Q b) (quad Q d) (_ ord0 ord0) => x1 x2 x3 x4 x5.
by ring_R.
Qed.

(** * Statements: mean and covariance *)
(** A pulsar whose coefficients can be computed. *)
Definition ready (p : pulsar) : Prop := good_noise (psr_N p) /\ good_shape p /\ psr_hasT p.
(** [Phi] is the prior used: of the pulsars on their own, or of the array. *)
Definition prior_used ps (common : option 'M[R]_(tot_k ps)) (Phi : 'M[R]_(tot_k ps)) : Prop :=
  match common with
  | None => (forall p, List.In p ps -> posdef (phi_mx (psr_phi p))) /\ Phi = all_phi ps
  | Some X => posdef Phi /\ X = invmx Phi
  end.
(** [b] solves the system and is the unique minimum of the misfit. *)
Definition posterior_mean ps (Phi : 'M[R]_(tot_k ps)) (b : 'cV[R]_(tot_k ps)) : Prop :=
  precision Phi *m b = weighted ps /\
  (forall c, misfit Phi b <= misfit Phi c) /\ (forall c, misfit Phi c = misfit Phi b -> c = b).

Lemma precision_posdef ps (Phi : 'M[R]_(tot_k ps)) : (forall p, List.In p ps -> ready p) -> posdef Phi ->
  [/\ posdef (precision Phi), sym (all_P ps) & sym (invmx Phi)].
Proof.
move=> H pPhi.
have HC p : List.In p ps -> posdef (cov_of (psr_N p)) /\ full_rank (tm_M (psr_N p)).
  by case/H => -[PN FR] _; split=> //; exact: good_posdef.
have pC : posdef (all_C ps) by apply: bdiag_posdef => p /HC [].
have FR : full_rank (all_M ps) by apply: bdiag_full_rank => p /HC [].
split; first exact: S_posdef.
  by apply: proj_inv_sym; case: pC.
by apply: sym_inv; case: pPhi.
Qed.
Lemma prior_posdef ps common (Phi : 'M[R]_(tot_k ps)) : prior_used common Phi -> posdef Phi.
Proof. by case: common => [X|] [H E] //; rewrite E; exact: bdiag_posdef. Qed.

Lemma mean_is_posterior ps (Phi : 'M[R]_(tot_k ps)) : (forall p, List.In p ps -> ready p) -> posdef Phi ->
  posterior_mean Phi (invmx (precision Phi) *m weighted ps).
Proof.
move=> H pPhi; have [pS sP sQ] := precision_posdef H pPhi.
set b := _ *m _; have E : precision Phi *m b = weighted ps by rewrite /b mulKVmx // posdef_unit.
split=> //; split=> c.
  by rewrite (misfit_shift c sP sQ E) -{1}[misfit Phi b]addr0 ler_add2l; exact: posdef_ge0.
rewrite (misfit_shift c sP sQ E) => /eqP; rewrite -subr_eq0 addrC addKr => q0.
apply/eqP; rewrite -subr_eq0; apply: contraT => n0.
by have := proj2 pS _ n0; rewrite (eqP q0) ltxx.
Qed.

(** The vector without and with variates. *)
Definition draws_with ps (f : option 'cV[R]_(tot_k ps) -> result 'cV[R]_(tot_k ps)) (b : 'cV[R]_(tot_k ps)) (V : 'M[R]_(tot_k ps)) : Prop :=
  f None = Ok b /\ exists W, W *m W^T = V /\ forall z, f (Some z) = Ok (b + W *m z).

Lemma conditional_coefficients_lem : forall svd ordering ps common (Phi : 'M[R]_(tot_k ps)),
  (forall p, List.In p ps -> ready p) -> prior_used common Phi ->
  exists b, posterior_mean Phi b /\ draws_with (cond_coefs svd ordering common) b (invmx (precision Phi)).
Proof.
move=> svd ordering ps common Phi H PU; have pPhi := prior_posdef PU.
exists (invmx (precision Phi) *m weighted ps); split; first exact: mean_is_posterior.
case: common PU => [X|] [HP E].
  have [||_ [W [EW HW]]] := @coefs_joint svd m_cholesky (m_sparse ordering) ps Phi (invmx (precision Phi)) _ pPhi.
  - by move=> p /H [? [? ?]].
  - exact: sparse_exact.
  by rewrite /cond_coefs E; split; [exact: (HW None)|exists W; split=> // z; exact: (HW (Some z))].
have Hp p : List.In p ps -> good p /\ psr_hasT p /\ posdef (phi_mx (psr_phi p)).
  by move=> hp; have [? [? ?]] := H p hp; split=> //; split=> //; exact: HP.
have [|_ _ _ [_ EV]] := @sigma_bdiag svd ps; first by move=> p /Hp [? []].
have [|W [EW HW]] := @coefs_separate svd m_cholesky (m_sparse ordering) ps (fun p => invmx (psr_Sigma svd p)) Hp.
  by move=> p _; exact: cholesky_exact.
rewrite E; split; first exact: (HW None).
by exists W; split=> [|z]; [rewrite EV|exact: (HW (Some z))].
Qed.

Lemma get_coefficients_separate_lem : forall svd svd2 qr ordering sparse ps,
  (forall p, List.In p ps -> ready p /\ posdef (phi_mx (psr_phi p)) /\ svd2_ok svd2 (psr_Sigma svd p)) ->
  exists b, posterior_mean (all_phi ps) b /\
    draws_with (get_coefs svd svd2 qr ordering sparse None) b (invmx (precision (all_phi ps))).
Proof.
move=> svd svd2 qr ordering sparse ps H.
exists (invmx (precision (all_phi ps)) *m weighted ps); split.
  by apply: mean_is_posterior; [move=> p /H []|apply: bdiag_posdef => p /H [_ []]].
have Hp p : List.In p ps -> good p /\ psr_hasT p /\ posdef (phi_mx (psr_phi p)).
  by move=> hp; have [[? [? ?]] [? _]] := H p hp.
have [|_ _ _ [_ EV]] := @sigma_bdiag svd ps; first by move=> p /Hp [? []].
have [|W [EW HW]] := @coefs_separate svd (m_svd_qr svd2 qr) (if sparse then m_sparse_coef ordering else m_svd svd2) ps
  (fun p => invmx (psr_Sigma svd p)) Hp.
  by move=> p /H [_ [_ ok]] pS; exact: svd_qr_exact.
split; first exact: (HW None).
by exists W; split=> [|z]; [rewrite EV|exact: (HW (Some z))].
Qed.
Lemma get_coefficients_joint_lem : forall svd svd2 qr ordering ps (Phi : 'M[R]_(tot_k ps)),
  (forall p, List.In p ps -> ready p) -> posdef Phi -> svd2_ok svd2 (precision Phi) ->
  exists b, posterior_mean Phi b /\
    draws_with (get_coefs svd svd2 qr ordering false (Some (invmx Phi))) b (invmx (precision Phi)).
Proof.
move=> svd svd2 qr ordering ps Phi H pPhi ok.
exists (invmx (precision Phi) *m weighted ps); split; first exact: mean_is_posterior.
have [||_ [W [EW HW]]] := @coefs_joint svd (m_svd_qr svd2 qr) (m_svd svd2) ps Phi (invmx (precision Phi)) _ pPhi.
- by move=> p /H [? [? ?]].
- by move=> pS; exact: svd_exact.
by split; [exact: (HW None)|exists W; split=> // z; exact: (HW (Some z))].
Qed.
(** The sparse branch of get_coefficients forgets the ordering. *)
Lemma get_coefficients_sparse_lem : forall svd svd2 qr (ordering : forall k, 'M[R]_k -> 'S_k) ps (Phi : 'M[R]_(tot_k ps)),
  (forall p, List.In p ps -> ready p) -> posdef Phi ->
  let P := perm_mx (ordering _ (precision Phi)) : 'M[R]_(tot_k ps) in
  exists b, posterior_mean Phi b /\
    draws_with (get_coefs svd svd2 qr ordering true (Some (invmx Phi))) b (P *m invmx (precision Phi) *m P^T).
Proof.
move=> svd svd2 qr ordering ps Phi H pPhi P.
exists (invmx (precision Phi) *m weighted ps); split; first exact: mean_is_posterior.
have [||_ [W [EW HW]]] := @coefs_joint svd (m_svd_qr svd2 qr) (m_sparse_coef ordering) ps Phi (P *m invmx (precision Phi) *m P^T) _ pPhi.
- by move=> p /H [? [? ?]].
- by move=> pS; exact: sparse_coef_exact.
by split; [exact: (HW None)|exists W; split=> // z; exact: (HW (Some z))].
Qed.
(** The QR fallback scales by the wrong power. *)
Lemma get_coefficients_qr_lem : forall svd (svd2 : forall k, 'M[R]_k -> option ('M[R]_k * 'cV[R]_k)) qr ordering sparse p,
  ready p -> posdef (phi_mx (psr_phi p)) ->
  svd2 _ (psr_Sigma svd p) = None -> qr_ok qr (psr_Sigma svd p) -> svd2_ok svd2 (invmx (psr_Sigma svd p)) ->
  exists b, posterior_mean (all_phi [:: p]) b /\
    draws_with (get_coefs svd svd2 qr ordering sparse None) b (precision (all_phi [:: p])).
Proof.
move=> svd svd2 qr ordering sparse p Rp pphi N Q ok.
exists (invmx (precision (all_phi [:: p])) *m weighted [:: p]); split.
  by apply: mean_is_posterior; [move=> q [<-|[]]|apply: (@bdiag_posdef psr_k (fun p => phi_mx (psr_phi p)) [:: p]) => q [<-|[]]].
have Hp q : List.In q [:: p] -> good q /\ psr_hasT q /\ posdef (phi_mx (psr_phi q)).
  by case=> [<-|[]]; case: Rp => ? [].
have [|E _ _ _] := @sigma_bdiag svd [:: p]; first by move=> q /Hp [? []].
have [|W [EW HW]] := @coefs_separate svd (m_svd_qr svd2 qr) (if sparse then m_sparse_coef ordering else m_svd svd2) [:: p]
  (psr_Sigma svd) Hp.
  by move=> q [<-|[]] pS; exact: qr_exact.
split; first exact: (HW None).
by exists W; split=> [|z]; [rewrite EW E|exact: (HW (Some z))].
Qed.

(** ** Witnesses *)
Lemma draws_unique ps f (b : 'cV[R]_(tot_k ps)) V V' : draws_with f b V -> draws_with f b V' -> V = V'.
Proof.
move=> [_ [W [<- HW]]] [_ [W' [<- HW']]]; suff -> : W = W' by [].
apply/matrixP=> i j; have := HW (delta_mx j ord0); rewrite HW' => -[] /addrI /(congr1 (fun X : 'cV[R]_(tot_k ps) => X i ord0)).
rewrite !mxE (bigD1 j) //= [X in _ = X](bigD1 j) //= !big1 => [|c cj|c cj]; rewrite ?mxE ?eqxx ?(negbTE cj) ?mulr0 //.
by rewrite !mulr1 !addr0.
Qed.

(** One TOA, one column. *)
Definition psr1 : pulsar := @Pulsar 1 1 (NVec (const_mx 1)) 0 true 1%:M (PhiD (const_mx 1)) 0.
Lemma psr1_ready : ready psr1.
Proof.
split; last by [].
have [] := @plain_noise 1 (NVec (const_mx 1)) _ => //.
by move=> i; rewrite mxE ltr01.
Qed.
Lemma diag_cov1 : diag_cov (const_mx 1 : 'cV[R]_1) = 1%:M.
Proof. by apply/matrixP=> i j; rewrite !mxE !ord1. Qed.
Lemma psr1_P : psr_P psr1 = 1%:M.
Proof. by rewrite /psr_P proj_inv0 /cov_of /= diag_cov1 invmx1. Qed.
Lemma psr1_phi : phi_mx (psr_phi psr1) = 1%:M.
Proof. by apply/matrixP=> i j; rewrite !mxE !ord1. Qed.
Lemma psr1_Sigma svd : psr_Sigma svd psr1 = (2%:R)%:M.
Proof.
rewrite /psr_Sigma /psr_TPT psr1_P /= !mulmx1 trmx1.
by apply/matrixP=> i j; rewrite !mxE !ord1 /= invr1.
Qed.
Lemma psr1_posdef : posdef (phi_mx (psr_phi psr1)).
Proof. rewrite psr1_phi; exact: posdef1. Qed.

Definition svd2_bad k (A : 'M[R]_k) : option ('M[R]_k * 'cV[R]_k) :=
  if A == (2%:R)%:M then None else Some (1%:M, \col_i A i i).
Definition qr_trivial k (A : 'M[R]_k) : 'M[R]_k * 'M[R]_k := (1%:M, A).
Lemma two_neq_half : (2%:R : R) <> 2%:R^-1.
Proof.
move=> E; have : (2%:R * 2%:R : R) = 1 by rewrite {2}E divff // pnatr_eq0.
by rewrite -natrM => /eqP; rewrite (eqr_nat _ 4 1).
Qed.
Lemma psr1_svd : svd2_ok svd2_bad (invmx (psr_Sigma ex_svd psr1)).
Proof.
rewrite psr1_Sigma invmx_scalar; exists 1%:M, (const_mx 2%:R^-1), 1%:M.
split; [|split; [|split; [|split]]].
- rewrite /svd2_bad; case: eqP => [/matrixP /(_ ord0 ord0)|_].
    by rewrite !mxE /= => /esym /two_neq_half.
  by congr (Some (_, _)); apply/matrixP=> i j; rewrite !mxE !ord1.
- by rewrite mul1mx mulmx1; apply/matrixP=> i j; rewrite !mxE !ord1.
- by rewrite trmx1 mulmx1.
- by rewrite trmx1 mulmx1.
- by move=> i; rewrite mxE invr_ge0 ler0n.
Qed.
Lemma get_coefficients_qr_refuted_lem : exists svd svd2 qr ordering p b,
  ready p /\ posdef (phi_mx (psr_phi p)) /\ qr_ok qr (psr_Sigma svd p) /\ posterior_mean (all_phi [:: p]) b /\
  get_coefs svd svd2 qr ordering false None None = Ok b /\
  (forall V, draws_with (get_coefs svd svd2 qr ordering false None) b V -> V <> invmx (precision (all_phi [:: p]))).
Proof.
exists ex_svd, svd2_bad, qr_trivial, (fun k _ => 1%g), psr1.
have Q : qr_ok qr_trivial (psr_Sigma ex_svd psr1).
  by split; rewrite /qr_trivial /= ?mul1mx // trmx1 mulmx1.
have N : svd2_bad (psr_Sigma ex_svd psr1) = None by rewrite /svd2_bad psr1_Sigma eqxx.
have [b [PM D]] := @get_coefficients_qr_lem ex_svd svd2_bad qr_trivial (fun k _ => 1%g) false psr1
  psr1_ready psr1_posdef N Q psr1_svd.
exists b; split; first exact: psr1_ready.
split; first exact: psr1_posdef.
do 2 (split=> //); split; first exact: (proj1 D).
move=> V /(draws_unique D) <-.
have [|<- _ _ [_ ->]] := @sigma_bdiag ex_svd [:: psr1].
  by move=> q [<-|[]]; split; [case: psr1_ready => ? []|exact: psr1_posdef].
rewrite /= psr1_Sigma invmx_scalar => /eq_block_mx [] /matrixP /(_ ord0 ord0); rewrite !mxE /= => /two_neq_half.
by [].
Qed.

(** Two pulsars of that kind with a joint prior. *)
Definition two : seq pulsar := [:: psr1; psr1].
Definition precs : 'rV[R]_2 := \row_i (i.+1)%:R.
Definition Phi2 : 'M[R]_2 := invmx (diag_mx precs).
Lemma precs_pos (i : 'I_2) : 0 < precs ord0 i. Proof. by rewrite mxE ltr0Sn. Qed.
Lemma diag_precs_posdef : posdef (diag_mx precs).
Proof. by rewrite -[precs]trmxK; apply: diag_posdef => i; rewrite mxE; exact: precs_pos. Qed.
Lemma Phi2_posdef : posdef Phi2. Proof. exact: posdef_inv diag_precs_posdef. Qed.
Lemma two_precision : @precision two Phi2 = 1%:M + diag_mx precs.
Proof.
have EC : all_C two = 1%:M.
  have := @bdiag_1 (fun=> 1%N) two; rewrite /= => <-.
  by rewrite /all_C /= /cov_of /= diag_cov1.
have ET : all_T two = 1%:M by exact: (@bdiag_1 (fun=> 1%N) two).
have EP : all_P two = 1%:M.
  rewrite /all_P EC; have -> : all_M two = (0 : 'M[R]_(2, 0)) by apply/matrixP=> i [].
  by rewrite proj_inv0 invmx1.
by rewrite /precision EP ET trmx1 !mulmx1 /Phi2 invmxK.
Qed.
Lemma two_ready : forall p, List.In p two -> ready p.
Proof. by move=> p [<-|[<-|[]]]; exact: psr1_ready. Qed.
Lemma get_coefficients_sparse_refuted_lem :
  exists svd svd2 qr (ordering : forall k, 'M[R]_k -> 'S_k) ps (Phi : 'M[R]_(tot_k ps)) b,
  (forall p, List.In p ps -> ready p) /\ posdef Phi /\ posterior_mean Phi b /\
  get_coefs svd svd2 qr ordering true (Some (invmx Phi)) None = Ok b /\
  (forall V, draws_with (get_coefs svd svd2 qr ordering true (Some (invmx Phi))) b V -> V <> invmx (precision Phi)).
Proof.
pose od := fun k (_ : 'M[R]_k) => perm (@rev_ord_inj k).
exists ex_svd, svd2_bad, qr_trivial, od, two, Phi2.
have [b [PM D]] := @get_coefficients_sparse_lem ex_svd svd2_bad qr_trivial od two Phi2 two_ready Phi2_posdef.
exists b; split; first exact: two_ready.
split; first exact: Phi2_posdef.
split=> //; split; first exact: (proj1 D).
move=> V /(draws_unique D) <-.
have [pS _ _] := precision_posdef two_ready Phi2_posdef.
set S := precision _ in pS *; set s := od _ S => E.
have uS := posdef_unit pS.
have X : (perm_mx s *m S *m (perm_mx s)^T) *m (perm_mx s *m invmx S *m (perm_mx s)^T) = 1%:M.
  by rewrite -!mulmxA (mulmxA _^T) perm_orthT mul1mx (mulmxA S) mulmxV // mul1mx perm_orth.
have {X E} : perm_mx s *m S *m (perm_mx s)^T = S.
  by rewrite -[LHS](mulmxKV uS) -[X in _ *m X *m _ = _]E X mul1mx.
rewrite tr_perm_mx -row_permE -col_permE => /matrixP /(_ ord0 ord0).
rewrite /S two_precision !mxE !permE /= !mulr1n => /addrI /eqP; rewrite (eqr_nat _ _ 1).
by [].
Qed.

(** * Attribution *)
Section Fresh.
Context {n : nat} (hash : 'cV[R]_n -> nat).
Lemma cols_fresh comb (cs : seq 'cV[R]_n) : forall hl cc idx0 hl' cc' idx,
  foldl (col_step hash comb) (hl, cc, idx0) cs = (hl', cc', idx) ->
  (cc' <= cc + size cs)%N /\ (cc' = cc + size cs -> idx = idx0 ++ iota cc (size cs))%N.
Proof.
elim: cs => [|c cs IH] hl cc idx0 hl' cc' idx /=; first by case=> _ <- <-; rewrite addn0 cats0.
case: ifP => _ /IH [le eqn]; first by split; [lia|move=> e; lia].
split; first by lia.
by move=> e; rewrite eqn ?addSn ?e -?addSnnS // -cats1 -catA -?addn1.
Qed.
Definition widths (sigs : seq (bsig n)) : nat := (\sum_(s <- sigs) bk s)%N.
Lemma run_fresh sigs : forall hl cc idxs, run hash sigs = (hl, cc, idxs) ->
  (cc <= widths sigs)%N /\
  (cc = widths sigs -> idxs = [seq iota (widths (take i sigs)) (nth 0%N [seq bk s | s <- sigs] i) | i <- iota 0 (size sigs)]).
Proof.
elim/last_ind: sigs => [|sigs s IH] hl cc idxs; first by case=> _ <- <-; rewrite /widths big_nil.
rewrite run_rcons; case er: (run hash sigs) => [[hl0 cc0] idxs0]; have [le eqn] := IH _ _ _ er.
have wE : widths (rcons sigs s) = (widths sigs + bk s)%N by rewrite /widths -cats1 big_cat big_seq1.
have tailE ix : idxs0 = [seq iota (widths (take i sigs)) (nth 0%N [seq bk s0 | s0 <- sigs] i) | i <- iota 0 (size sigs)] ->
    ix = iota (widths sigs) (bk s) ->
    rcons idxs0 ix = [seq iota (widths (take i (rcons sigs s))) (nth 0%N [seq bk s0 | s0 <- rcons sigs s] i)
                     | i <- iota 0 (size (rcons sigs s))].
  move=> -> ->; rewrite size_rcons -addn1 iotaD map_cat /= -cats1; congr (_ ++ _).
    apply/eq_in_map => i; rewrite mem_iota add0n => /andP [_ lt]; rewrite -cats1 takel_cat ?(ltnW lt) //.
    by rewrite map_cat nth_cat size_map lt.
  by rewrite add0n -cats1 takel_cat // take_size map_cat nth_cat size_map ltnn subnn.
case bp: (bpar s).
  rewrite /sig_step bp => -[_ <- <-]; rewrite wE; split; first by lia.
  by move=> e; apply: tailE; [apply: eqn; lia|congr iota; lia].
have [hl' [cc' [idx [E ->]]]] := sig_stepE hash hl0 cc0 idxs0 (negbT bp); case=> _ <- <-; rewrite wE.
have [le' eqn'] := cols_fresh E; rewrite size_map size_enum_ord in le' eqn'; split; first by lia.
move=> e; apply: tailE; first by apply: eqn; lia.
by rewrite eqn' ?cat0s; [congr iota; lia|lia].
Qed.
Lemma idx_sizes sigs : size (flatten (combine_idx hash sigs)) = widths sigs.
Proof.
have [hl [cc [er _]]] := run_idx hash sigs; have [sz _ _ szs] := layout er.
rewrite size_flatten /shape sumnE big_map /widths (big_nth [::]) (big_nth (no_sig n)) sz !big_mkord.
by apply: eq_bigr => i _; apply: szs.
Qed.
Lemma unshared_width sigs : uniq (flatten (combine_idx hash sigs)) = (combine_ncol hash sigs == widths sigs).
Proof.
rewrite -idx_sizes /combine_ncol; set l := flatten _; apply/idP/eqP => [/undup_id -> //|e].
by apply: negbNE; rewrite -ltn_size_undup e ltnn.
Qed.
Lemma shared_less sigs : (combine_ncol hash sigs <= widths sigs)%N.
Proof. by rewrite -idx_sizes /combine_ncol size_undup. Qed.
Lemma unshared_idx l1 s l2 : uniq (flatten (combine_idx hash (l1 ++ s :: l2))) ->
  nth [::] (combine_idx hash (l1 ++ s :: l2)) (size l1) = iota (widths l1) (bk s).
Proof.
rewrite unshared_width => /eqP e; have [hl [cc [er ec]]] := run_idx hash (l1 ++ s :: l2).
have [_ h] := run_fresh er; rewrite h -?ec // (nth_map 0%N) ?size_iota ?size_cat /= ?nth_iota ?add0n; try lia.
by rewrite take_size_cat // map_cat nth_cat size_map ltnn subnn.
Qed.
End Fresh.

Definition item : Type := string * nat * (seq R -> cval).
Definition out_key (gp : bool) (nm : string) : string := if gp then nm else append nm "_coefficients".
Definition out_val (gp : bool) n (F : bsig n) (x : seq R) : cval := CArr (if gp then dot_rows (bF F) x else x).
Definition item_of (gp : bool) (counts : stype -> bool) n (s : asig n) : option item :=
  if counts (a_type s) then omap (fun F => (out_key gp (a_name s), bk F, @out_val gp n F)) (a_basis s) else None.
Fixpoint put_items (b : seq R) (d : cdict) (m : nat) (L : seq item) : cdict :=
  if L is it :: L' then put_items b (cput d it.1.1 (it.2 (take it.1.2 (drop m b)))) (m + it.1.2) L' else d.
Definition item_width (L : seq item) : nat := (\sum_(it <- L) it.1.2)%N.

(** Signals of the types looked at have a basis. *)
Definition has_bases (counts : stype -> bool) n (l : seq (asig n)) : Prop :=
  forall s, List.In s l -> counts (a_type s) -> isSome (a_basis s).
Definition items gp counts n (l : seq (asig n)) : seq item := pmap (@item_of gp counts n) l.

Lemma put_err b gp counts n (l : seq (asig n)) e :
  foldl (@put_signal b gp [::] None counts n) (Err e) l = Err e.
Proof. by elim: l. Qed.
Lemma put_signalE b gp (counts : stype -> bool) n (s : asig n) d m : (counts (a_type s) -> isSome (a_basis s)) ->
  put_signal b gp [::] None counts (Ok (d, m)) s =
  if item_of gp counts s is Some it then
    if (size b < m + it.1.2)%N then Err IndexError
    else Ok (cput d it.1.1 (it.2 (take it.1.2 (drop m b))), (m + it.1.2)%N)
  else Ok (d, m).
Proof.
rewrite /put_signal /item_of; cbn [rbind]; case ct: (counts (a_type s)) => // /(_ isT).
case eb: (a_basis s) => [F|//] _; rewrite andbF; cbn [rbind negb omap obind oapp fst snd].
by rewrite addnC /out_key /out_val; case: ltnP => // _; case: gp.
Qed.
Lemma put_signalsE b gp counts n (l : seq (asig n)) : has_bases counts l -> forall d m, (m <= size b)%N ->
  foldl (@put_signal b gp [::] None counts n) (Ok (d, m)) l =
  if (m + item_width (items gp counts l) <= size b)%N
  then Ok (put_items b d m (items gp counts l), (m + item_width (items gp counts l))%N) else Err IndexError.
Proof.
elim: l => [|s l IH] hb d m le; first by rewrite /item_width big_nil addn0 le.
have hb' : has_bases counts l by move=> x ix; apply: hb; right.
rewrite -[foldl _ _ _]/(foldl (@put_signal b gp [::] None counts n) (@put_signal b gp [::] None counts n (Ok (d, m)) s) l).
rewrite put_signalE; last by apply: hb; left.
case ei: (item_of gp counts s) => [it|]; last by rewrite IH // /items /= ei.
have -> : items gp counts (s :: l) = it :: items gp counts l by rewrite /items /= ei.
rewrite /item_width big_cons -/(item_width _) addnA.
case: ltnP => lt; first by rewrite put_err leqNgt (leq_trans lt) // leq_addr.
by rewrite IH.
Qed.
Definition all_items gp counts (ps : seq {n : nat & seq (asig n)}) : seq item :=
  flatten [seq items gp counts (projT2 p) | p <- ps].
Lemma put_items_cat b d m L1 L2 : put_items b d m (L1 ++ L2) = put_items b (put_items b d m L1) (m + item_width L1) L2.
Proof.
elim: L1 d m => [|it L1 IH] d m /=; first by rewrite /item_width big_nil addn0.
by rewrite IH /item_width big_cons addnA.
Qed.
Lemma item_width_cat L1 L2 : item_width (L1 ++ L2) = (item_width L1 + item_width L2)%N.
Proof. by rewrite /item_width big_cat. Qed.
Definition all_bases (ps : seq {n : nat & seq (asig n)}) : Prop := forall p, List.In p ps -> has_bases is_gp (projT2 p).
Lemma attributeE b gp ps : all_bases ps -> attribute b gp [::] None ps =
  if (item_width (all_items gp is_gp ps) <= size b)%N then Ok (put_items b [::] 0 (all_items gp is_gp ps)) else Err IndexError.
Proof.
move=> hb; rewrite /attribute.
suff H d m : (m <= size b)%N ->
    foldl (fun st (p : {n : nat & seq (asig n)}) => foldl (@put_signal b gp [::] None is_gp (projT1 p)) st (projT2 p)) (Ok (d, m)) ps =
    if (m + item_width (all_items gp is_gp ps) <= size b)%N
    then Ok (put_items b d m (all_items gp is_gp ps), (m + item_width (all_items gp is_gp ps))%N) else Err IndexError.
  by rewrite (H _ _ (leq0n _)) add0n; case: ifP.
elim: ps hb d m => [|p ps IH] hb d m le; first by rewrite /all_items /item_width /= big_nil addn0 le.
have hb' : all_bases ps by move=> x ix; apply: hb; right.
rewrite [foldl _ _ _]/= put_signalsE //; last by apply: hb; left.
rewrite /all_items /= -/(all_items _ _ _) item_width_cat addnA.
case: ifP => [le'|/negbT]; first by rewrite IH // put_items_cat.
rewrite -ltnNge => lt; rewrite leqNgt (leq_trans lt) ?leq_addr //=.
by elim: (ps) => //= q qs IHq; rewrite put_err.
Qed.
Lemma put_items_other b k L : ~ List.In k [seq it.1.1 | it <- L] -> forall d m,
  dget string_dec (put_items b d m L) k = dget string_dec d k.
Proof.
elim: L => [//|it L IH] ni d m /=.
rewrite IH; last by move=> i; apply: ni; right.
by rewrite /cput dget_dset_other // => e; apply: ni; left.
Qed.
Lemma put_items_get b d m L1 (it : item) L2 : ~ List.In it.1.1 [seq i.1.1 | i <- L2] ->
  dget string_dec (put_items b d m (L1 ++ it :: L2)) it.1.1 =
  Some (it.2 (take it.1.2 (drop (m + item_width L1) b))).
Proof. by move=> ni; rewrite put_items_cat /= put_items_other // /cput dget_dset_same. Qed.

Lemma dget_dupdate V (e : dict string V) : List.NoDup (dkeys e) -> forall d k,
  dget string_dec (dupdate string_dec d e) k = if dget string_dec e k is Some v then Some v else dget string_dec d k.
Proof.
elim: e => [//|[k0 v0] e IH] nd d k; have [ni nd'] : ~ List.In k0 (dkeys e) /\ List.NoDup (dkeys e) by move: nd => /List.NoDup_cons_iff.
rewrite -[dupdate _ _ _]/(dupdate string_dec (dset string_dec d k0 v0) e) IH //.
cbn [dget]; case: (string_dec k k0) => [->|ne]; last by rewrite dget_dset_other.
by rewrite (proj2 (dget_None_notin string_dec e k0)) // dget_dset_same.
Qed.
Lemma put_items_nodup b L : forall d m, List.NoDup (dkeys d) -> List.NoDup (dkeys (put_items b d m L)).
Proof. by elim: L => [//|it L IH] d m nd; apply: IH; apply: dset_NoDup. Qed.

Definition bases n (l : seq (asig n)) : seq (bsig n) := pmap (@a_basis n) l.
(** The GP signals are those with a basis. *)
Definition typed n (l : seq (asig n)) : Prop := forall s, List.In s l -> is_gp (a_type s) = isSome (a_basis s).
Definition gp_names (counts : stype -> bool) (ps : seq {n : nat & seq (asig n)}) : seq string :=
  flatten [seq [seq a_name s | s <- projT2 p & counts (a_type s)] | p <- ps].
Definition columns_used (hash : forall n, 'cV[R]_n -> nat) (ps : seq {n : nat & seq (asig n)}) : nat :=
  (\sum_(p <- ps) combine_ncol (@hash (projT1 p)) (bases (projT2 p)))%N.
(** No two columns of the signals of a pulsar are stored at the same place. *)
Definition unshared (hash : forall n, 'cV[R]_n -> nat) n (l : seq (asig n)) : bool :=
  uniq (flatten (combine_idx (@hash n) (bases l))).
(** The entries of [b] that multiply the columns of the signal after [l1] in a
    pulsar with signals [l], the pulsars before it being [p1]. *)
Definition own_entries (hash : forall n, 'cV[R]_n -> nat) (b : seq R) (p1 : seq {n : nat & seq (asig n)}) n (l l1 : seq (asig n)) : seq R :=
  [seq nth 0 b (columns_used hash p1 + x)%N | x <- nth [::] (combine_idx (@hash n) (bases l)) (size (bases l1))].

Lemma typed_bases n (l : seq (asig n)) : typed l -> has_bases is_gp l.
Proof. by move=> t s i; rewrite t. Qed.
Lemma typed_cons n (s : asig n) l : typed (s :: l) -> is_gp (a_type s) = isSome (a_basis s) /\ typed l.
Proof. by move=> t; split; [apply: t; left|move=> x i; apply: t; right]. Qed.
Lemma typed_catl n (l1 l2 : seq (asig n)) : typed (l1 ++ l2) -> typed l1.
Proof. by move=> t s i; apply: t; apply/List.in_or_app; left. Qed.
Lemma items_width gp n (l : seq (asig n)) : typed l -> item_width (items gp is_gp l) = widths (bases l).
Proof.
elim: l => [|s l IH]; first by rewrite /item_width /widths !big_nil.
case/typed_cons; rewrite /items /bases /= /item_of => -> /IH; rewrite /items /bases.
by case: (a_basis s) => [F|] //=; rewrite /item_width /widths !big_cons /= => ->.
Qed.
Lemma items_keys gp counts n (l : seq (asig n)) : has_bases counts l ->
  [seq it.1.1 | it <- items gp counts l] = [seq out_key gp x | x <- [seq a_name s | s <- l & counts (a_type s)]].
Proof.
elim: l => [//|s l IH] hb; have hb' : has_bases counts l by move=> x ix; apply: hb; right.
rewrite /items /= /item_of; have := hb s (or_introl erefl); case: (counts (a_type s)) => [/(_ isT)|_]; last exact: IH.
by case: (a_basis s) => [F|//] _ /=; rewrite -IH.
Qed.
Lemma all_items_keys gp counts ps : (forall p, List.In p ps -> has_bases counts (projT2 p)) ->
  [seq it.1.1 | it <- all_items gp counts ps] = [seq out_key gp x | x <- gp_names counts ps].
Proof.
elim: ps => [//|p ps IH] hb; rewrite /all_items /gp_names /= !map_cat; congr (_ ++ _).
  by apply: items_keys; apply: hb; left.
by apply: IH => q iq; apply: hb; right.
Qed.
Lemma all_items_cat gp counts ps1 ps2 : all_items gp counts (ps1 ++ ps2) = all_items gp counts ps1 ++ all_items gp counts ps2.
Proof. by rewrite /all_items map_cat flatten_cat. Qed.
Lemma items_cat gp counts n (l1 l2 : seq (asig n)) : items gp counts (l1 ++ l2) = items gp counts l1 ++ items gp counts l2.
Proof. by rewrite /items pmap_cat. Qed.
Lemma all_width gp hash ps : (forall p, List.In p ps -> typed (projT2 p)) ->
  (columns_used hash ps <= item_width (all_items gp is_gp ps))%N /\
  (columns_used hash ps = item_width (all_items gp is_gp ps) <-> forall p, List.In p ps -> unshared hash (projT2 p)).
Proof.
elim: ps => [|p ps IH] t; first by rewrite /columns_used /item_width !big_nil.
have [le eqn] := IH (fun q iq => t q (or_intror iq)); have tp := t p (or_introl erefl).
rewrite /all_items /= -/(all_items _ _ _) item_width_cat (items_width _ tp) /columns_used big_cons -/(columns_used _ _).
have le1 := shared_less (@hash _) (bases (projT2 p)).
split; first by lia.
split=> [e q [<-|iq]|h].
- by rewrite /unshared unshared_width; apply/eqP; lia.
- by move: q iq; apply/eqn; lia.
- have := h p (or_introl erefl); rewrite /unshared unshared_width => /eqP ->.
  by congr addn; apply/eqn => q iq; apply: h; right.
Qed.
Lemma NoDup_out_key gp (l : seq string) : List.NoDup l -> List.NoDup [seq out_key gp x | x <- l].
Proof.
apply: FinFun.Injective_map_NoDup => x y; rewrite /out_key; case: gp => //; exact: ProofSelect.append_inj_r.
Qed.
Lemma take_dropE (b : seq R) m k : (m + k <= size b)%N -> take k (drop m b) = [seq nth 0 b x | x <- iota m k].
Proof.
move=> le; have sz : size (take k (drop m b)) = k by rewrite size_takel // size_drop leq_subRL; lia.
apply: (@eq_from_nth _ 0); first by rewrite sz size_map size_iota.
by rewrite sz => i lt; rewrite nth_take // nth_drop (nth_map 0%N) ?size_iota // nth_iota.
Qed.
Lemma own_entriesE gp hash b p1 n (l1 l2 : seq (asig n)) s F : a_basis s = Some F ->
  (forall p, List.In p p1 -> typed (projT2 p) /\ unshared hash (projT2 p)) -> typed (l1 ++ s :: l2) -> unshared hash (l1 ++ s :: l2) ->
  (columns_used hash p1 + combine_ncol (@hash n) (bases (l1 ++ s :: l2)) <= size b)%N ->
  own_entries hash b p1 (l1 ++ s :: l2) l1 =
  take (bk F) (drop (item_width (all_items gp is_gp p1) + item_width (items gp is_gp l1)) b).
Proof.
move=> eb h1 t u le; have tl := typed_catl t.
have bE : bases (l1 ++ s :: l2) = bases l1 ++ F :: bases l2 by rewrite /bases pmap_cat /= eb.
have cE : columns_used hash p1 = item_width (all_items gp is_gp p1).
  by apply/(proj2 (all_width gp hash (fun p ip => proj1 (h1 p ip)))) => p ip; case: (h1 p ip).
rewrite /own_entries bE unshared_idx -?bE // items_width // -cE take_dropE.
  by rewrite iotaDl -map_comp.
move: u le; rewrite /unshared unshared_width => /eqP ->; rewrite bE /widths big_cat big_cons /=; lia.
Qed.

Lemma attribution_lem : forall (hash : forall n, 'cV[R]_n -> nat) (ps : seq {n : nat & seq (asig n)}) (b : seq R) (gp : bool),
  (forall p, List.In p ps -> typed (projT2 p)) -> List.NoDup (gp_names is_gp ps) ->
  size b = columns_used hash ps -> (forall p, List.In p ps -> unshared hash (projT2 p)) ->
  exists d, attribute b gp [::] None ps = Ok d /\
    (forall k, List.In k (dkeys d) <-> exists x, List.In x (gp_names is_gp ps) /\ k = out_key gp x) /\
    forall p1 n (l1 : seq (asig n)) s F l2 p2,
      ps = p1 ++ existT (fun n => seq (asig n)) n (l1 ++ s :: l2) :: p2 -> a_basis s = Some F ->
      dget string_dec d (out_key gp (a_name s)) = Some (out_val gp F (own_entries hash b p1 (l1 ++ s :: l2) l1)).
Proof.
move=> hash ps b gp t nd sz u; have hb : all_bases ps by move=> p ip; apply: typed_bases; apply: t.
have wE : columns_used hash ps = item_width (all_items gp is_gp ps) by apply/(proj2 (all_width gp hash t)).
rewrite attributeE // -wE sz leqnn; eexists; split; first by []; split.
  have kE : forall k, List.In k (dkeys (put_items b [::] 0 (all_items gp is_gp ps))) <-> List.In k [seq it.1.1 | it <- all_items gp is_gp ps].
    move=> k; suff H L d m : List.In k (dkeys (put_items b d m L)) <-> List.In k (dkeys d) \/ List.In k [seq it.1.1 | it <- L].
      by rewrite H /=; tauto.
    elim: L d m => [|it L IH] d m /=; first by tauto.
    rewrite IH /cput dset_keys_in; split=> [[[->|h]|h]|[h|[<-|h]]]; tauto.
  move=> k; rewrite kE all_items_keys // List.in_map_iff; split=> -[x [h1 h2]]; exists x; split=> //; by rewrite ?h1 ?h2.
move=> p1 n l1 s F l2 p2 e eb.
have ts : typed (l1 ++ s :: l2) by apply: (t (existT _ n (l1 ++ s :: l2))); rewrite e; apply/List.in_or_app; right; left.
have us : unshared hash (l1 ++ s :: l2) by apply: (u (existT _ n (l1 ++ s :: l2))); rewrite e; apply/List.in_or_app; right; left.
have ct : is_gp (a_type s) by rewrite ts ?eb //; apply/List.in_or_app; right; left.
have iE : item_of gp is_gp s = Some (out_key gp (a_name s), bk F, @out_val gp n F) by rewrite /item_of ct eb.
rewrite (@own_entriesE gp hash b p1 n l1 l2 s F) //; first last.
- by rewrite sz e /columns_used big_cat big_cons /=; lia.
- by move=> p ip; split; [apply: t|apply: u]; rewrite e; apply/List.in_or_app; left.
pose it : item := (out_key gp (a_name s), bk F, @out_val gp n F).
have aE : all_items gp is_gp ps = (all_items gp is_gp p1 ++ items gp is_gp l1) ++ it :: (items gp is_gp l2 ++ all_items gp is_gp p2).
  rewrite e all_items_cat /all_items /= items_cat -!catA; congr (_ ++ (_ ++ _)).
  by rewrite /items /= iE.
have nd' : List.NoDup [seq i.1.1 | i <- all_items gp is_gp ps] by rewrite all_items_keys //; apply: NoDup_out_key.
rewrite aE (@put_items_get b [::] 0 _ it) ?add0n ?item_width_cat //.
rewrite aE map_cat in nd'; have ni := List.NoDup_remove_2 _ _ _ nd'; by move=> i; apply: ni; apply/List.in_or_app; right.
Qed.

Lemma attribution_shared_lem : forall (hash : forall n, 'cV[R]_n -> nat) (ps : seq {n : nat & seq (asig n)}) (b : seq R) (gp : bool),
  (forall p, List.In p ps -> typed (projT2 p)) -> size b = columns_used hash ps ->
  (exists p, List.In p ps /\ ~~ unshared hash (projT2 p)) ->
  attribute b gp [::] None ps = Err IndexError /\ forall d0, attribute_joint d0 b ps = Err IndexError.
Proof.
move=> hash ps b gp t sz nu; suff e g : attribute b g [::] None ps = Err IndexError by split=> [|d0]; rewrite /attribute_joint e.
move: nu => [p [ip nu]]; have hb : all_bases ps by move=> q iq; apply: typed_bases; apply: t.
have [le eqn] := all_width g hash t; rewrite attributeE // sz; case: ifP => // le'.
have /eqn /(_ p ip) : columns_used hash ps = item_width (all_items g is_gp ps) by lia.
by rewrite (negbTE nu).
Qed.

Lemma attribution_joint_lem : forall (hash : forall n, 'cV[R]_n -> nat) (ps : seq {n : nat & seq (asig n)}) (b : seq R) (d0 : cdict),
  (forall p, List.In p ps -> typed (projT2 p)) -> List.NoDup (gp_names is_gp ps) -> size b = columns_used hash ps ->
  (forall p, List.In p ps -> unshared hash (projT2 p)) ->
  exists d, attribute_joint d0 b ps = Ok d /\
    (forall k, (forall x, List.In x (gp_names is_gp ps) -> k <> append x "_coefficients") -> dget string_dec d k = dget string_dec d0 k) /\
    forall p1 n (l1 : seq (asig n)) s F l2 p2,
      ps = p1 ++ existT (fun n => seq (asig n)) n (l1 ++ s :: l2) :: p2 -> a_basis s = Some F ->
      dget string_dec d (append (a_name s) "_coefficients") = Some (CArr (own_entries hash b p1 (l1 ++ s :: l2) l1)).
Proof.
move=> hash ps b d0 t nd sz u.
have [d [e [ks vs]]] := attribution_lem false t nd sz u.
have ndk : List.NoDup (dkeys d).
  move: e; rewrite attributeE; last by move=> p ip; apply: typed_bases; apply: t.
  by case: ifP => // _ [<-]; apply: put_items_nodup; constructor.
rewrite /attribute_joint e; eexists; split; first by []; split.
  move=> k h; rewrite dget_dupdate // (proj2 (dget_None_notin string_dec d k)) //.
  by move/ks => [x [ix ek]]; apply: (h x ix).
by move=> p1 n l1 s F l2 p2 ep eb; rewrite dget_dupdate // (vs _ _ _ _ _ _ _ ep eb).
Qed.

Lemma basis_has n (l : seq (asig n)) : typed l -> has_bases only_basis l.
Proof. by move=> t s i; rewrite -t //; case: (a_type s). Qed.
Lemma basis_width n (l : seq (asig n)) : (item_width (items false only_basis l) <= item_width (items false is_gp l))%N.
Proof.
elim: l => [//|s l IH]; rewrite /items /= /item_of; case: (a_type s) => //=; rewrite -/(items _ _ _) //.
- by case: (a_basis s) => [F|] //=; rewrite /item_width !big_cons leq_add2l.
- by case: (a_basis s) => [F|] //=; rewrite /item_width big_cons (leq_trans IH) // leq_addl.
Qed.
Lemma no_common_items n (l : seq (asig n)) : (forall x, List.In x l -> a_type x <> TCommon) ->
  items false only_basis l = items false is_gp l.
Proof.
elim: l => [//|s l IH] h; have := h s (or_introl erefl); rewrite /items /= /item_of -!/(items _ _ _) IH; last by move=> x i; apply: h; right.
by case: (a_type s).
Qed.
Lemma updates_get V (E : seq (dict string V)) : forall d k, (forall e, List.In e E -> List.NoDup (dkeys e) /\ ~ List.In k (dkeys e)) ->
  dget string_dec (foldl (dupdate string_dec) d E) k = dget string_dec d k.
Proof.
elim: E => [//|e E IH] d k h; rewrite [foldl _ _ _]/= IH; last by move=> x i; apply: h; right.
by have [nd ni] := h e (or_introl erefl); rewrite dget_dupdate // (proj2 (dget_None_notin string_dec e k)).
Qed.
Definition piece (pb : {n : nat & seq (asig n)} * seq R) : cdict := put_items pb.2 [::] 0 (items false only_basis (projT2 pb.1)).
Definition enough (pb : {n : nat & seq (asig n)} * seq R) : Prop :=
  typed (projT2 pb.1) /\ (item_width (items false only_basis (projT2 pb.1)) <= size pb.2)%N.
Lemma separateE d0 pbs : (forall pb, List.In pb pbs -> enough pb) ->
  attribute_separate d0 pbs = Ok (foldl (dupdate string_dec) d0 [seq piece pb | pb <- pbs]).
Proof.
rewrite /attribute_separate; elim: pbs d0 => [//|pb pbs IH] d0 h; rewrite [LHS]/= [RHS]/=.
have [t le] := h pb (or_introl erefl); rewrite put_signalsE ?add0n ?le //; last exact: basis_has.
by apply: IH => x i; apply: h; right.
Qed.
Lemma piece_keys pb k : typed (projT2 pb.1) -> List.In k (dkeys (piece pb)) ->
  exists x, List.In x [seq a_name s | s <- projT2 pb.1 & only_basis (a_type s)] /\ k = append x "_coefficients".
Proof.
move=> t; have := items_keys false (basis_has t); rewrite /piece; set L := items _ _ _ => kE.
have H d m : List.In k (dkeys (put_items pb.2 d m L)) -> List.In k (dkeys d) \/ List.In k [seq it.1.1 | it <- L].
  elim: (L) d m => [|it L' IH] d m /=; first by tauto.
  by case/IH => [|h]; rewrite ?dset_keys_in; [case=> [->|h]; tauto|tauto].
by case/H => // ; rewrite kE List.in_map_iff => -[x [<- ix]]; exists x.
Qed.

Lemma attribution_separate_lem : forall (hash : forall n, 'cV[R]_n -> nat) (pbs : seq ({n : nat & seq (asig n)} * seq R)) (d0 : cdict),
  (forall pb, List.In pb pbs -> typed (projT2 pb.1) /\ unshared hash (projT2 pb.1) /\
     size pb.2 = combine_ncol (@hash (projT1 pb.1)) (bases (projT2 pb.1))) ->
  List.NoDup (gp_names only_basis [seq pb.1 | pb <- pbs]) ->
  exists d, attribute_separate d0 pbs = Ok d /\
    (forall k, (forall x, List.In x (gp_names only_basis [seq pb.1 | pb <- pbs]) -> k <> append x "_coefficients") ->
       dget string_dec d k = dget string_dec d0 k) /\
    forall q1 n (l1 : seq (asig n)) s F l2 b q2,
      pbs = q1 ++ (existT (fun n => seq (asig n)) n (l1 ++ s :: l2), b) :: q2 -> a_type s = TBasis -> a_basis s = Some F ->
      (forall x, List.In x l1 -> a_type x <> TCommon) ->
      dget string_dec d (append (a_name s) "_coefficients") = Some (CArr (own_entries hash b [::] (l1 ++ s :: l2) l1)).
Proof.
move=> hash pbs d0 h nd.
have en : forall pb, List.In pb pbs -> enough pb.
  move=> pb ip; have [t [u sz]] := h pb ip; split=> //; apply: leq_trans (basis_width _) _.
  by rewrite items_width // sz; move: u; rewrite /unshared unshared_width => /eqP ->.
have ndp : forall pb, List.NoDup (dkeys (piece pb)) by move=> pb; apply: put_items_nodup; constructor.
rewrite separateE //; eexists; split; first by []; split.
  move=> k hk; apply: updates_get => e; rewrite List.in_map_iff => -[pb [<- ip]]; split=> //.
  case/piece_keys; first by case: (h pb ip).
  move=> x [ix]; apply: hk; rewrite /gp_names; elim: (pbs) ip {h nd en} => //= q qs IH [->|i]; apply/List.in_or_app; [by left|right].
  exact: IH.
move=> q1 n l1 s F l2 b q2 e ty eb nc.
have [/= t [u sz]] := h (existT _ n (l1 ++ s :: l2), b) ltac:(rewrite e; apply/List.in_or_app; right; left; exact: erefl).
rewrite e map_cat foldl_cat [foldl _ _ (_ :: _)]/=.
set nm := a_name s in nd *.
have nd1 : ~ List.In nm ([seq a_name s0 | s0 <- l2 & only_basis (a_type s0)] ++ gp_names only_basis [seq pb.1 | pb <- q2]).
  have eL : gp_names only_basis [seq pb.1 | pb <- pbs] =
      (gp_names only_basis [seq pb.1 | pb <- q1] ++ [seq a_name s0 | s0 <- l1 & only_basis (a_type s0)]) ++
      nm :: ([seq a_name s0 | s0 <- l2 & only_basis (a_type s0)] ++ gp_names only_basis [seq pb.1 | pb <- q2]).
    by rewrite e /gp_names !map_cat flatten_cat /= filter_cat map_cat /= ty /= -!catA.
  rewrite eL in nd; have ni := List.NoDup_remove_2 _ _ _ nd; by move=> i; apply: ni; apply/List.in_or_app; right.
have inj : injective (fun x => append x "_coefficients") by move=> x y; apply: ProofSelect.append_inj_r.
rewrite updates_get; last first.
  move=> e'; rewrite List.in_map_iff => -[pb [<- ip]]; split=> //; case/piece_keys.
    by have [] := h pb ltac:(rewrite e; apply/List.in_or_app; right; right; exact: ip).
  move=> x [ix] /inj ex; apply: nd1; apply/List.in_or_app; right; rewrite ex /gp_names.
  by elim: (q2) ip {e nd en h} => //= q qs IH [->|i]; apply/List.in_or_app; [left|right; apply: IH].
rewrite dget_dupdate //.
have iE : item_of false only_basis s = Some (out_key false nm, bk F, @out_val false n F) by rewrite /item_of ty eb.
pose it : item := (out_key false nm, bk F, @out_val false n F).
have aE : items false only_basis (l1 ++ s :: l2) = items false only_basis l1 ++ it :: items false only_basis l2.
  by rewrite items_cat; congr (_ ++ _); rewrite /items /= iE.
have tl := typed_catl t.
rewrite /piece /= aE (@put_items_get b [::] 0 _ it) ?add0n /=; last first.
  rewrite items_keys; last by apply: basis_has => x i; apply: t; apply/List.in_or_app; right; right.
  rewrite List.in_map_iff => -[x [/inj ex ix]]; apply: nd1; apply/List.in_or_app; left; by rewrite -ex.
rewrite /out_val no_common_items // (@own_entriesE false hash b [::] n l1 l2 s F) //.
  by rewrite /item_width big_nil add0n.
by rewrite /columns_used big_nil add0n sz.
Qed.

Lemma put_signal_plain b gp tms fp counts n (s : asig n) st : substring_of "timing_model" (a_name s) = false ->
  put_signal b gp tms fp counts st s = put_signal b gp [::] None counts st s.
Proof. by move=> e; rewrite /put_signal e. Qed.
Lemma put_plain b gp tms fp counts n (l : seq (asig n)) :
  (forall x, List.In x l -> substring_of "timing_model" (a_name x) = false) -> forall st,
  foldl (@put_signal b gp tms fp counts n) st l = foldl (@put_signal b gp [::] None counts n) st l.
Proof.
elim: l => [//|s l IH] h st.
rewrite -[LHS]/(foldl (@put_signal b gp tms fp counts n) (put_signal b gp tms fp counts st s) l).
rewrite -[RHS]/(foldl (@put_signal b gp [::] None counts n) (put_signal b gp [::] None counts st s) l).
by rewrite put_signal_plain ?IH //; [move=> x i; apply: h; right|apply: h; left].
Qed.
Lemma put_items_skip b L k2 : forall d d' m, dget string_dec d k2 = dget string_dec d' k2 ->
  dget string_dec (put_items b d m L) k2 = dget string_dec (put_items b d' m L) k2.
Proof.
elim: L => [//|it L IH] d d' m e /=; apply: IH; rewrite /cput.
by case: (string_dec k2 it.1.1) => [->|n2]; [rewrite !dget_dset_same|rewrite !dget_dset_other].
Qed.

(** The name of the entry of a timing-model parameter. *)
Definition tm_key (gp : bool) (nm t : string) : string := out_key gp (append (head_us nm) (append "_" t)).
Lemma timing_attribution_lem : forall (hash : forall n, 'cV[R]_n -> nat) n (l1 : seq (asig n)) s (F : bsig n) l2 (b : seq R) (gp : bool)
    (fp : seq string) (t : string) (j : 'I_(bk F)),
  typed (l1 ++ s :: l2) -> unshared hash (l1 ++ s :: l2) -> size b = combine_ncol (@hash n) (bases (l1 ++ s :: l2)) ->
  a_basis s = Some F -> substring_of "timing_model" (a_name s) = true ->
  (forall x, List.In x (l1 ++ l2) -> substring_of "timing_model" (a_name x) = false) ->
  find_str t fp = Some (j : nat) ->
  (forall x, List.In x (l1 ++ s :: l2) -> is_gp (a_type x) -> tm_key gp (a_name s) t <> out_key gp (a_name x)) ->
  exists d d', attribute b gp [:: t] (Some fp) [:: existT (fun n => seq (asig n)) n (l1 ++ s :: l2)] = Ok d /\
    attribute b gp [::] None [:: existT (fun n => seq (asig n)) n (l1 ++ s :: l2)] = Ok d' /\
    (forall k, k <> tm_key gp (a_name s) t -> dget string_dec d k = dget string_dec d' k) /\
    dget string_dec d (tm_key gp (a_name s) t) =
      let c := nth 0 (own_entries hash b [::] (l1 ++ s :: l2) l1) j in
      Some (if gp then CArr (scale_col (bF F) j c) else CNum c).
Proof.
move=> hash n l1 s F l2 b gp fp t j ty us sz eb es nots ej nk.
have ct : is_gp (a_type s) by rewrite ty ?eb //; apply/List.in_or_app; right; left.
pose it : item := (out_key gp (a_name s), bk F, @out_val gp n F).
have iE : item_of gp is_gp s = Some it by rewrite /item_of ct eb.
have aE : items gp is_gp (l1 ++ s :: l2) = items gp is_gp l1 ++ it :: items gp is_gp l2.
  by rewrite items_cat; congr (_ ++ _); rewrite /items /= iE.
have wE : size b = item_width (items gp is_gp (l1 ++ s :: l2)).
  by rewrite sz items_width //; move: us; rewrite /unshared unshared_width => /eqP.
set w1 := item_width (items gp is_gp l1); set w2 := item_width (items gp is_gp l2).
have wE' : size b = (w1 + bk F + w2)%N by rewrite wE aE item_width_cat /item_width big_cons addnA.
have ty1 := typed_catl ty.
have ty2 : typed l2 by move=> x i; apply: ty; apply/List.in_or_app; right; right.
have p1 x : List.In x l1 -> substring_of "timing_model" (a_name x) = false by move=> i; apply: nots; apply/List.in_or_app; left.
have p2 x : List.In x l2 -> substring_of "timing_model" (a_name x) = false by move=> i; apply: nots; apply/List.in_or_app; right.
have e' : attribute b gp [::] None [:: existT (fun n => seq (asig n)) n (l1 ++ s :: l2)] =
    Ok (put_items b [::] 0 (items gp is_gp (l1 ++ s :: l2))).
  rewrite attributeE; last by move=> p [<-|//]; apply: typed_bases.
  by rewrite /all_items /= cats0 wE leqnn.
pose c := nth 0 (own_entries hash b [::] (l1 ++ s :: l2) l1) j.
have cE : nth 0 b (w1 + j) = c.
  rewrite /c (@own_entriesE gp hash b [::] n l1 l2 s F) //; last by rewrite /columns_used big_nil add0n sz.
  by rewrite /item_width big_nil add0n nth_take ?ltn_ord // nth_drop.
pose v := if gp then CArr (scale_col (bF F) j c) else CNum c.
pose d1 := put_items b [::] 0 (items gp is_gp l1).
pose d2 := put_items b (cput (cput d1 (tm_key gp (a_name s) t) v) it.1.1 (it.2 (take it.1.2 (drop w1 b)))) (w1 + bk F) (items gp is_gp l2).
exists d2, (put_items b [::] 0 (items gp is_gp (l1 ++ s :: l2))); split; [|split; [exact: e'|split]].
- rewrite /attribute; cbn [foldl projT1 projT2].
  rewrite foldl_cat (@put_plain b gp [:: t] (Some fp) is_gp n l1 p1) (@put_signalsE b gp is_gp n l1 (typed_bases ty1)) //.
  rewrite add0n -/w1 -/d1 (_ : (w1 <= size b)%N = true); last by rewrite wE'; lia.
  rewrite -[foldl _ _ (s :: l2)]/(foldl (@put_signal b gp [:: t] (Some fp) is_gp n)
            (@put_signal b gp [:: t] (Some fp) is_gp n (Ok (d1, w1)) s) l2).
  have -> : @put_signal b gp [:: t] (Some fp) is_gp n (Ok (d1, w1)) s =
      Ok (cput (cput d1 (tm_key gp (a_name s) t) v) it.1.1 (it.2 (take it.1.2 (drop w1 b))), (w1 + bk F)%N).
    rewrite /put_signal; cbn [rbind]; rewrite ct eb es; cbn [negb].
    rewrite (_ : (size b < bk F + w1)%N = false); last by rewrite wE'; lia.
    rewrite [size [:: t]]/= andTb; cbn [foldl]; rewrite {1}/put_tm; cbn [rbind]; rewrite ej cE.
    have lt : (w1 + j < size b)%N by rewrite wE'; have := ltn_ord j; lia.
    rewrite lt valK /tm_key /out_key /v.
    cbn [it fst snd]; rewrite /out_key /out_val; by case: (gp).
  rewrite (@put_plain b gp [:: t] (Some fp) is_gp n l2 p2) (@put_signalsE b gp is_gp n l2 (typed_bases ty2)); last by rewrite wE'; lia.
  by rewrite -/w2 wE' leqnn.
- move=> k ne; rewrite aE put_items_cat /d2 /= add0n -/w1; apply: put_items_skip.
  rewrite /cput; case: (string_dec k (out_key gp (a_name s))) => [->|n2]; first by rewrite !dget_dset_same.
  by rewrite !(@dget_dset_other _ _ _ _ (out_key gp (a_name s)) k) // dget_dset_other.
- rewrite /d2 put_items_other.
    rewrite /cput dget_dset_other ?dget_dset_same //; apply: nk => //; by apply/List.in_or_app; right; left.
  rewrite items_keys; last exact: typed_bases.
  rewrite List.in_map_iff => -[nm [e]]; rewrite List.in_map_iff => -[x [ex]].
  rewrite -[filter _ _]/(List.filter _ _) List.filter_In => -[ix gx]; apply: (nk x) => //; last by rewrite -e ex.
  by apply/List.in_or_app; right; right.
Qed.

(** * Disagreements *)
Definition sig_c : asig 1 := ASig "P_gw"%string TCommon (Some (BSig (const_mx 1 : 'M_(1, 1)) (PhiD (const_mx 1)) false false)).
Definition sig_r : asig 1 := ASig "P_red"%string TBasis (Some (BSig (const_mx 2 : 'M_(1, 1)) (PhiD (const_mx 1)) false false)).
Definition sig_t : asig 1 := ASig "P_timing_model"%string TBasis (Some (BSig (const_mx 3 : 'M_(1, 1)) (PhiD (const_mx 1)) false false)).
Definition hash0 (n : nat) (c : 'cV[R]_n) : nat := 0.
Lemma idx_two (s1 s2 : bsig 1) : bk s1 = 1%N -> bk s2 = 1%N -> bpar s1 = false -> bpar s2 = false -> bcomb s1 = false -> bcomb s2 = false ->
  combine_idx (@hash0 1) [:: s1; s2] = [:: [:: 0%N]; [:: 1%N]].
Proof.
case: s1 => k1 F1 ? p1 c1; case: s2 => k2 F2 ? p2 c2 /= e1 e2 -> -> -> ->; subst k1 k2; rewrite /combine_idx /= !enum_ordSl /=.
have e0 : enum 'I_0 = [::] by apply: size0nil; rewrite size_enum_ord.
by rewrite e0 /sig_step /= enum_ordSl /= e0.
Qed.
Lemma attribution_separate_refuted_lem :
  exists (hash : forall n, 'cV[R]_n -> nat) n (l1 : seq (asig n)) s F l2 (b : seq R) d,
    typed (l1 ++ s :: l2) /\ unshared hash (l1 ++ s :: l2) /\ size b = combine_ncol (@hash n) (bases (l1 ++ s :: l2)) /\
    List.NoDup [seq a_name x | x <- l1 ++ s :: l2] /\ a_type s = TBasis /\ a_basis s = Some F /\
    attribute_separate [::] [:: (existT (fun n => seq (asig n)) n (l1 ++ s :: l2), b)] = Ok d /\
    dget string_dec d (append (a_name s) "_coefficients") <> Some (CArr (own_entries hash b [::] (l1 ++ s :: l2) l1)) /\
    exists x, List.In x l1 /\ is_gp (a_type x) /\ dget string_dec d (append (a_name x) "_coefficients") = None.
Proof.
exists hash0, 1%N, [:: sig_c], sig_r, (BSig (const_mx 2 : 'M_(1, 1)) (PhiD (const_mx 1)) false false), [::], [:: 5%:R; 7%:R].
have iE : combine_idx (@hash0 1) (bases [:: sig_c; sig_r]) = [:: [:: 0%N]; [:: 1%N]] by apply: idx_two.
eexists; split; first by move=> x [<-|[<-|//]].
split; first by rewrite /unshared iE.
split; first by rewrite /combine_ncol iE.
split; first by repeat constructor => //=; intuition discriminate.
split=> //; split=> //; split; first by [].
split; last by exists sig_c; split; [left|].
rewrite /own_entries iE /columns_used big_nil /= => -[e].
have : (5%:R : R) = 7%:R by [].
by move/eqP; rewrite eqr_nat.
Qed.
(** Parameter [B] has its column in the basis (column 0, as [A] is excluded),
    but is given the coefficient of the red noise. *)
Lemma timing_attribution_refuted_lem :
  exists (hash : forall n, 'cV[R]_n -> nat) n (l1 : seq (asig n)) s F l2 (b : seq R) (fp : seq string) (t : string) (excl : seq nat) d,
    typed (l1 ++ s :: l2) /\ unshared hash (l1 ++ s :: l2) /\ size b = combine_ncol (@hash n) (bases (l1 ++ s :: l2)) /\
    List.NoDup [seq a_name x | x <- l1 ++ s :: l2] /\ a_basis s = Some F /\ substring_of "timing_model" (a_name s) = true /\
    (forall x, List.In x (l1 ++ l2) -> substring_of "timing_model" (a_name x) = false) /\
    bk F = size [seq i <- iota 0 (size fp) | i \notin excl] /\
    attribute b false [:: t] (Some fp) [:: existT (fun n => seq (asig n)) n (l1 ++ s :: l2)] = Ok d /\
    exists j, find_str t fp = Some j /\ j \in [seq i <- iota 0 (size fp) | i \notin excl] /\
      dget string_dec d (tm_key false (a_name s) t) <>
      Some (CNum (nth 0 (own_entries hash b [::] (l1 ++ s :: l2) l1) (index j [seq i <- iota 0 (size fp) | i \notin excl]))).
Proof.
exists hash0, 1%N, [::], sig_t, (BSig (const_mx 3 : 'M_(1, 1)) (PhiD (const_mx 1)) false false), [:: sig_r], [:: 5%:R; 7%:R],
  [:: "A"%string; "B"%string], "B"%string, [:: 0%N].
have iE : combine_idx (@hash0 1) (bases [:: sig_t; sig_r]) = [:: [:: 0%N]; [:: 1%N]] by apply: idx_two.
eexists; split; first by move=> x [<-|[<-|//]].
split; first by rewrite /unshared iE.
split; first by rewrite /combine_ncol iE.
split; first by repeat constructor => //=; intuition discriminate.
split=> //; split=> //; split; first by move=> x [<-|//].
split=> //; split; first by [].
exists 1%N; split=> //; split=> //.
rewrite /own_entries iE /columns_used big_nil /= => -[e].
have : (7%:R : R) = 5%:R by [].
by move/eqP; rewrite eqr_nat.
Qed.

(** * Sampled coefficients *)
(** The log density of a Gaussian vector of mean 0, with its constants. *)
Definition log_gaussian k (x : 'cV[R]_k) (V : 'M[R]_k) : R :=
  (- 2%:R^-1 * (quad (invmx V) x + ln (\det V) + k%:R * ln (2%:R * PI)))%R.
Lemma log_gaussianE k (x : 'cV[R]_k) (V : 'M[R]_k) : log_gaussian x V = (density x V - 2%:R^-1 * (k%:R * ln (2%:R * PI)))%R.
Proof. by rewrite /log_gaussian /density; move: (quad _ _) (ln (\det _)) (_ * ln _) => a b c; ring_R. Qed.

Lemma coefficient_prior_lem : forall svd k (c : 'cV[R]_k) (phi : phi_t k), posdef (phi_mx phi) ->
  coef_logprior svd c phi = log_gaussian c (phi_mx phi).
Proof.
move=> svd k c [v|A] pd; rewrite /coef_logprior /log_gaussian.
  have pv := diag_posdef_inv pd.
  have -> : quad (invmx (phi_mx (PhiD v))) c = \sum_i c i ord0 * c i ord0 / v i ord0.
    have [<- _] := kinv_posdef_lem svd pd; rewrite /kinv [(_, _).1]/= phi_diagE /quad /diag mul_mx_diag.
    by rewrite [LHS]mxE; apply: eq_bigr => i _; rewrite !mxE -mulrA [_^-1 * _]mulrC mulrA.
  have -> : ln (\det (phi_mx (PhiD v))) = \sum_i ln (v i ord0) by have [_ <-] := kinv_posdef_lem svd pd.
  by move: (\sum_i _) (\sum_i ln _) (_ * ln _) => a b d; ring_R.
have [e1 e2] := kinv_posdef_lem svd pd; rewrite /= in e1 e2 *.
rewrite e1 e2 mulmxA -/(quad _ _).
by move: (quad _ _) (ln (\det _)) (_ * ln _) => a b d; ring_R.
Qed.

Section Square.
Variables (n m k : nat) (C : 'M[R]_n) (M : 'M[R]_(n, m)) (T : 'M[R]_(n, k)) (Phi : 'M[R]_k).
Hypotheses (pC : posdef C) (FR : full_rank M) (pPhi : posdef Phi).
Let P := proj_inv C M.
Let S := T^T *m P *m T + invmx Phi.
Lemma square_tm r c :
  density_tm (r - T *m c) C M + density c Phi =
  density_tm r (C + T *m Phi *m T^T) M + density (c - invmx S *m (T^T *m P *m r)) (invmx S).
Proof.
have pS : posdef S by exact: S_posdef.
have pG : posdef (C + T *m Phi *m T^T) by exact: gp_cov_posdef.
have sP : sym P by apply: proj_inv_sym; case: pC.
have sS := proj1 pS; have uS := posdef_unit pS.
rewrite /density_tm /density invmxK det_inv lnV ?(posdef_det pS) //.
rewrite -(gp_proj T pC FR pPhi) -/P -/S [quad (P - _) r]quad_sub [quad (_ *m P) r]quad_step //.
set b := T^T *m P *m r.
have -> : quad P (r - T *m c) = quad P r + (-2%:R) * (c^T *m b) ord0 ord0 + quad (T^T *m P *m T) c.
  rewrite quad_addx // -scaleN1r quad_scale sqrrN expr1n mul1r quad_congr.
  rewrite -scalemxAr [X in _ + _ * X + _]mxE cross_sym // -/b.
  by move: (quad P r) (quad P _) (_ ord0 ord0) => x y z; ring_R.
have -> : quad S (c - invmx S *m b) = quad S c + (-2%:R) * (c^T *m b) ord0 ord0 + quad (invmx S) b.
  rewrite quad_addx // -scaleN1r quad_scale sqrrN expr1n mul1r.
  rewrite -scalemxAr [X in _ + _ * X + _]mxE -[c^T *m S *m _]mulmxA mulKVmx //.
  have -> : quad S (invmx S *m b) = quad (invmx S) b.
    by rewrite -[S in quad S _]invmxK quad_invmx ?unitmx_inv //; exact: sym_inv.
  by move: (quad S c) (quad _ b) (_ ord0 ord0) => x y z; ring_R.
have -> : quad S c = quad (T^T *m P *m T) c + quad (invmx Phi) c by rewrite -quadD.
have := gp_det T pC FR pPhi; rewrite -/P -/S.
move/(congr1 ln); rewrite lnM ?(posdef_det pG) ?(posdef_det (S0_posdef pG FR)) //.
have dC := posdef_det pC; have dS := posdef_det pS; have dP := posdef_det pPhi; have dM := posdef_det (S0_posdef pC FR).
rewrite lnM ?mulr_gt0 // lnM ?mulr_gt0 // lnM //.
move: (ln (\det (C + _))) (ln (\det (M^T *m invmx (C + _) *m M))) (quad P r) (quad (T^T *m P *m T) c) (quad (invmx Phi) c) (quad (invmx S) b)
  (ln (\det S)) (ln (\det C)) (ln (\det (M^T *m invmx C *m M))) (ln (\det Phi)) ((c^T *m b) ord0 ord0) => a1 a2 q1 q2 q3 q4 l1 l2 l3 l4 x e.
have -> : a1 = l2 + l3 + l1 + l4 - a2 by rewrite -e addrK.
by ring_R.
Qed.
End Square.

(** Precision and mean of the coefficients of [F] given the residuals, the rest
    of the model having covariance [C] and timing model [M]. *)
Definition coef_precision n k m (C : 'M[R]_n) (M : 'M[R]_(n, m)) (F : 'M[R]_(n, k)) (Phi : 'M[R]_k) : 'M[R]_k :=
  F^T *m proj_inv C M *m F + invmx Phi.
Definition coef_mean n k m (C : 'M[R]_n) (M : 'M[R]_(n, m)) (F : 'M[R]_(n, k)) (Phi : 'M[R]_k) (r : 'cV[R]_n) : 'cV[R]_k :=
  invmx (coef_precision C M F Phi) *m (F^T *m proj_inv C M *m r).

Lemma coefficient_marginal_lem : forall svd n k k0 (N : nobj n) r (F : 'M[R]_(n, k)) phi (T0 : 'M[R]_(n, k0)) phi0 prior c,
  good_noise N -> (if N is NBlk _ _ then (1 < k)%N else True) -> posdef (phi_mx phi) ->
  exists a b,
    loglike svd [:: Pulsar N (r - F *m c) false T0 phi0 prior] = Ok (Fin a) /\
    loglike svd [:: Pulsar N r true F phi prior] = Ok (Fin b) /\
    (a + coef_logprior svd c phi)%R =
    (b + log_gaussian (c - coef_mean (cov_of N) (tm_M N) F (phi_mx phi) r) (invmx (coef_precision (cov_of N) (tm_M N) F (phi_mx phi))))%R.
Proof.
move=> svd n k k0 N r F phi T0 phi0 prior c gN sh pd.
have e1 := @single_value svd (Pulsar N (r - F *m c) false T0 phi0 prior); rewrite {}e1; [|by split|by []].
have e2 := @single_value svd (Pulsar N r true F phi prior); rewrite {}e2; [|by split|by []].
eexists; eexists; split; [reflexivity|split; [reflexivity|]].
rewrite /psr_cov /= coefficient_prior_lem // !log_gaussianE.
have pC := good_posdef gN; have FR := proj2 gN.
have := square_tm F pC FR pd r c; rewrite -/(coef_precision _ _ _ _) -/(coef_mean _ _ _ _ _).
move: (density_tm _ _ _) (density_tm _ _ _) (density _ _) (density _ _) (_ * ln (2%:R * PI)) (_ * ln (pow 10 40)) => a b d e x y E.
have -> : b = a + d - e by rewrite -E addrK.
by ring_R.
Qed.

Lemma coefficient_marginal_gp_lem : forall svd n k l (N : nobj n) r (F : 'M[R]_(n, k)) phi (T : 'M[R]_(n, l)) phiT phi' prior c,
  good_noise N -> (if N is NBlk _ _ then (1 < l)%N else True) -> posdef (phi_mx phi) -> posdef (phi_mx phiT) ->
  phi_mx phi' = block_mx (phi_mx phiT) 0 0 (phi_mx phi) ->
  let C := cov_of N + T *m phi_mx phiT *m T^T in
  exists a b,
    loglike svd [:: Pulsar N (r - F *m c) true T phiT prior] = Ok (Fin a) /\
    loglike svd [:: Pulsar N r true (row_mx T F) phi' prior] = Ok (Fin b) /\
    (a + coef_logprior svd c phi)%R =
    (b + log_gaussian (c - coef_mean C (tm_M N) F (phi_mx phi) r) (invmx (coef_precision C (tm_M N) F (phi_mx phi))))%R.
Proof.
move=> svd n k l N r F phi T phiT phi' prior c gN sh pd pdT e C.
have gp' : posdef (phi_mx phi') by rewrite e; exact: block_posdef.
have e1 := @single_value svd (Pulsar N (r - F *m c) true T phiT prior); rewrite {}e1; [|by split|by []].
have e2 := @single_value svd (Pulsar N r true (row_mx T F) phi' prior); rewrite {}e2; [| |by []]; last first.
  by split=> // _ /=; case: (N) sh => //= _ _; exact: ltn_addr.
eexists; eexists; split; [reflexivity|split; [reflexivity|]].
rewrite /psr_cov /= coefficient_prior_lem // !log_gaussianE.
have pC0 := good_posdef gN; have FR := proj2 gN.
have pC : posdef C by exact: gp_cov_posdef.
have -> : cov_of N + row_mx T F *m phi_mx phi' *m (row_mx T F)^T = C + F *m phi_mx phi *m F^T.
  by rewrite e mul_row_block !mulmx0 addr0 add0r tr_row_mx mul_row_col addrA.
have := square_tm F pC FR pd r c; rewrite -/(coef_precision _ _ _ _) -/(coef_mean _ _ _ _ _).
move: (density_tm _ _ _) (density_tm _ _ _) (density _ _) (density _ _) (_ * ln (2%:R * PI)) (_ * ln (pow 10 40)) => a b d f x y E.
have -> : b = a + d - f by rewrite -E addrK.
by ring_R.
Qed.

(** The coefficient delay. *)
Lemma put_slices n (bs : seq (selblk n)) : forall (xs : seq (seq R)) N off (c0 : 'cV[R]_N),
  [seq size x | x <- xs] = [seq sb_k b | b <- bs] -> (off + sel_ncol bs <= N)%N ->
  foldl (fun r slx => rbind r (fun c => put_slice c slx.1.1 slx.1.2 slx.2)) (Ok c0) (zip (sel_slices off bs) xs) =
  Ok (\col_i (if (off <= i < off + sel_ncol bs)%N then nth 0 (flatten xs) (i - off)%N else c0 i ord0)).
Proof.
elim: bs => [|b bs IH] [|x xs] N off c0 //.
  move=> _ _; rewrite /sel_ncol /= addn0; congr Ok; apply/matrixP => i j; rewrite mxE (ord1 j).
  by rewrite ltnNge andbN.
rewrite /= => -[ex exs]; rewrite /sel_ncol /= -/(sel_ncol bs) => le.
have w : (minn (sb_k b + off) N - minn off N)%N = size x by lia.
have mo : minn off N = off by lia.
rewrite /put_slice w eqxx mo; cbn [orb]; rewrite IH //; last by lia.
congr Ok; apply/matrixP => i j; rewrite !mxE nth_cat.
rewrite -{}ex in le w *.
have [h1|[h2|[h3|h4]]] : (i < off)%N \/ (off <= i < size x + off)%N \/ (size x + off <= i < off + (size x + sel_ncol bs))%N \/ (off + (size x + sel_ncol bs) <= i)%N by lia.
- rewrite !ifF //; lia.
- rewrite ifF; last by lia.
  by rewrite !ifT //; lia.
- rewrite ifT; last by lia.
  rewrite ifT; last by lia.
  by rewrite ifF; [congr (nth _ _ _); lia|lia].
- rewrite !ifF //; lia.
Qed.
Lemma coefficient_delay_lem : forall n (bs : seq (selblk n)) (xs : seq (seq R)), sel_shapes bs ->
  [seq size x | x <- xs] = [seq sb_k b | b <- bs] ->
  exists F, sel_basis bs = Ok F /\ coef_delay bs xs = Ok (F *m \col_i nth 0 (flatten xs) i).
Proof.
move=> n bs xs sh e; have [F [eF _]] := selected_basis_lem sh; exists F; split=> //.
rewrite /coef_delay eF; cbn [rbind]; rewrite put_slices //; cbn [rbind]; congr (Ok (F *m _)).
by apply/matrixP => i j; rewrite !mxE ltn_ord subn0.
Qed.

(** * The hypotheses are satisfiable *)
Definition svd2_diag k (A : 'M[R]_k) : option ('M[R]_k * 'cV[R]_k) := Some (1%:M, \col_i A i i).
Lemma svd2_diag_ok k (v : 'cV[R]_k) : (forall i, 0 <= v i ord0) -> svd2_ok svd2_diag (diag_mx v^T).
Proof.
move=> pv; exists 1%:M, v, 1%:M; split; [|split; [|split; [|split]]] => //.
- by congr (Some (_, _)); apply/matrixP=> i j; rewrite !mxE eqxx mulr1n ord1.
- by rewrite mul1mx mulmx1.
- by rewrite trmx1 mulmx1.
- by rewrite trmx1 mulmx1.
Qed.
Lemma ex_cond_separate : forall p, List.In p two -> ready p /\ posdef (phi_mx (psr_phi p)) /\ svd2_ok svd2_diag (psr_Sigma ex_svd p).
Proof.
move=> p [<-|[<-|[]]]; (split; [exact: psr1_ready|split; [exact: psr1_posdef|]]).
all: rewrite psr1_Sigma (_ : (2%:R)%:M = diag_mx (const_mx 2%:R)^T); last by apply/matrixP => i j; rewrite !mxE !ord1.
all: by apply: svd2_diag_ok => i; rewrite mxE ler0n.
Qed.
Lemma ex_cond_joint : (forall p, List.In p two -> ready p) /\ @prior_used two (Some (invmx Phi2)) Phi2 /\ posdef (Phi2 : 'M[R]_(tot_k two)) /\
  svd2_ok svd2_diag (@precision two Phi2).
Proof.
split; first exact: two_ready.
split; first by split; [exact: Phi2_posdef|].
split; first exact: Phi2_posdef.
rewrite two_precision (_ : 1%:M + diag_mx precs = diag_mx (\col_i (1 + precs ord0 i))^T).
  by apply: svd2_diag_ok => i; rewrite !mxE; apply: addr_ge0; [exact: ler01|exact: ler0n].
by apply/matrixP => i j; rewrite !mxE; case: eqP => _ /=; rewrite ?mulr1n ?mulr0n ?addr0.
Qed.
Lemma ex_cond_qr : ready psr1 /\ posdef (phi_mx (psr_phi psr1)) /\ svd2_bad (psr_Sigma ex_svd psr1) = None /\
  qr_ok qr_trivial (psr_Sigma ex_svd psr1) /\ svd2_ok svd2_bad (invmx (psr_Sigma ex_svd psr1)).
Proof.
split; first exact: psr1_ready.
split; first exact: psr1_posdef.
split; first by rewrite /svd2_bad psr1_Sigma eqxx.
split; last exact: psr1_svd.
by split; rewrite /qr_trivial /= ?mul1mx // trmx1 mulmx1.
Qed.

Definition ex_arr : seq {n : nat & seq (asig n)} :=
  [:: existT (fun n => seq (asig n)) 1%N [:: sig_c; sig_r]; existT (fun n => seq (asig n)) 1%N [:: ASig "Q_noise"%string TOther None; ASig "Q_red"%string TBasis (a_basis sig_r)]].
Lemma idx_one (s1 : bsig 1) : bk s1 = 1%N -> bpar s1 = false -> combine_idx (@hash0 1) [:: s1] = [:: [:: 0%N]].
Proof.
case: s1 => k1 F1 ? p1 c1 /= e1 ->; subst k1; rewrite /combine_idx /= !enum_ordSl /=.
have e0 : enum 'I_0 = [::] by apply: size0nil; rewrite size_enum_ord.
by rewrite e0 /= andbF.
Qed.
Lemma ex_attribution : (forall p, List.In p ex_arr -> typed (projT2 p)) /\ List.NoDup (gp_names is_gp ex_arr) /\
  size [:: 5%:R; 7%:R; 11%:R : R] = columns_used hash0 ex_arr /\ forall p, List.In p ex_arr -> unshared hash0 (projT2 p).
Proof.
have i1 : combine_idx (@hash0 1) (bases [:: sig_c; sig_r]) = [:: [:: 0%N]; [:: 1%N]] by apply: idx_two.
have i2 : combine_idx (@hash0 1) (bases [:: ASig "Q_noise"%string TOther None; ASig "Q_red"%string TBasis (a_basis sig_r)]) = [:: [:: 0%N]] by apply: idx_one.
split; first by move=> p [<-|[<-|[]]] s [<-|[<-|[]]].
split; first by repeat constructor => //=; intuition discriminate.
split; first by rewrite /columns_used /ex_arr !big_cons big_nil [projT2 _]/= [projT2 (existT _ _ _)]/= /combine_ncol i1 i2.
by move=> p [<-|[<-|[]]]; rewrite /unshared /= ?i1 ?i2.
Qed.
Definition ex_share : seq (asig 1) :=
  [:: ASig "P_a"%string TBasis (Some (BSig (const_mx 1 : 'M_(1, 1)) (PhiD (const_mx 1)) false true));
      ASig "P_b"%string TBasis (Some (BSig (const_mx 1 : 'M_(1, 1)) (PhiD (const_mx 1)) false true))].
Lemma ex_attribution_shared : let ps := [:: existT (fun n => seq (asig n)) 1%N ex_share] in
  (forall p, List.In p ps -> typed (projT2 p)) /\ size [:: 5%:R : R] = columns_used hash0 ps /\
  exists p, List.In p ps /\ ~~ unshared hash0 (projT2 p).
Proof.
have i1 : combine_idx (@hash0 1) (bases ex_share) = [:: [:: 0%N]; [:: 0%N]].
  rewrite /combine_idx /= !enum_ordSl /=.
  have e0 : enum 'I_0 = [::] by apply: size0nil; rewrite size_enum_ord.
  by rewrite e0 /sig_step /= enum_ordSl /= e0.
split; first by move=> p [<-|[]] s [<-|[<-|[]]].
split; first by rewrite /columns_used big_seq1 [projT2 _]/= /combine_ncol i1.
by exists (existT (fun n => seq (asig n)) 1%N ex_share); split; [left|rewrite /unshared [projT2 _]/= i1].
Qed.
Lemma ex_attribution_separate : let pbs := [:: (existT (fun n => seq (asig n)) 1%N [:: sig_r; sig_c], [:: 5%:R; 7%:R : R])] in
  (forall pb, List.In pb pbs -> typed (projT2 pb.1) /\ unshared hash0 (projT2 pb.1) /\
     size pb.2 = combine_ncol (@hash0 (projT1 pb.1)) (bases (projT2 pb.1))) /\
  List.NoDup (gp_names only_basis [seq pb.1 | pb <- pbs]).
Proof.
have i1 : combine_idx (@hash0 1) (bases [:: sig_r; sig_c]) = [:: [:: 0%N]; [:: 1%N]] by apply: idx_two.
split; last by repeat constructor => //=; intuition discriminate.
move=> pb [<-|[]]; split; first by move=> s [<-|[<-|[]]].
by rewrite /unshared /combine_ncol [projT2 _]/= i1.
Qed.
Lemma ex_timing_attribution : let l := [:: sig_t; sig_r] in
  typed l /\ unshared hash0 l /\ size [:: 5%:R; 7%:R : R] = combine_ncol (@hash0 1) (bases l) /\
  substring_of "timing_model" (a_name sig_t) = true /\ substring_of "timing_model" (a_name sig_r) = false /\
  find_str "A"%string [:: "A"%string] = Some 0%N /\
  forall x, List.In x l -> is_gp (a_type x) -> tm_key false (a_name sig_t) "A" <> out_key false (a_name x).
Proof.
have i1 : combine_idx (@hash0 1) (bases [:: sig_t; sig_r]) = [:: [:: 0%N]; [:: 1%N]] by apply: idx_two.
split; first by move=> s [<-|[<-|[]]].
split; first by rewrite /unshared i1.
split; first by rewrite /combine_ncol i1.
do 3 (split=> //).
by move=> x [<-|[<-|[]]].
Qed.
Lemma ex_coef_delay : sel_shapes (n := 2) [:: SelBlk (fun _ => true) (const_mx 1 : 'M[R]_(2, 3)) (PhiD 0)].
Proof. by rewrite /sel_shapes /sel_toas /= filter_predT size_enum_ord. Qed.
Lemma ex_coef_marginal : good_noise (NMarg ex_M (NSM ex_bs (NVec ex_v))) /\ posdef (phi_mx ex_phi).
Proof. by split; [have [] := ex_psrs_good (or_introl erefl)|exact: ex_phi_posdef]. Qed.
