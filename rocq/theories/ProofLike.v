(** Proofs about the likelihood and the inversion of prior matrices. *)
From Coq Require Import Reals Lra.
From mathcomp Require Import all_ssreflect all_algebra.
From Verif Require Import RStruct PyBase ModelLinalg ProofLinalg ModelNoise ProofNoise ModelLike.
Set Implicit Arguments.
Unset Strict Implicit.
Unset Printing Implicit Defensive.
Import GRing.Theory Num.Theory Order.TTheory.
Local Open Scope ring_scope.
(** * Projecting out timing parameters commutes with adding a Gaussian process *)
Lemma proj_inv_sym n m (C : 'M[R]_n) (M : 'M[R]_(n, m)) : sym C -> sym (proj_inv C M).
Proof.
move=> sC; have sI := sym_inv sC.
have sS : sym (M^T *m invmx C *m M) by rewrite /sym !trmx_mul trmxK sI mulmxA.
by rewrite /sym /proj_inv linearB /= !trmx_mul !trmxK sI (sym_inv sS) !mulmxA.
Qed.

Section Gauss.
Variables (n m : nat) (C : 'M[R]_n) (M : 'M[R]_(n, m)).
Hypotheses (pC : posdef C) (FR : full_rank M).
Let S0 := M^T *m invmx C *m M.
Let P := proj_inv C M.
Let uC := posdef_unit pC.

Lemma S0_posdef : posdef S0.
Proof. by apply: posdef_congr => //; exact: posdef_inv. Qed.
Lemma P_sym : sym P. Proof. by apply: proj_inv_sym; case: pC. Qed.
Lemma P_M : P *m M = 0.
Proof.
rewrite /P /proj_inv mulmxBl -!mulmxA (mulmxA M^T) -/S0 mulVmx ?mulmx1 ?subrr //.
exact: (posdef_unit S0_posdef).
Qed.
Lemma M_P : M^T *m P = 0.
Proof. by rewrite -[LHS]trmxK trmx_mul trmxK P_sym P_M trmx0. Qed.
Lemma C_P : C *m P = 1%:M - M *m (invmx S0 *m M^T *m invmx C).
Proof. by rewrite /P /proj_inv mulmxBr mulmxV // !mulmxA mulmxV // mul1mx. Qed.
Lemma P_C_P : P *m C *m P = P.
Proof. by rewrite -mulmxA C_P mulmxBr mulmx1 mulmxA P_M mul0mx subr0. Qed.
Lemma P_ge0 x : 0 <= quad P x.
Proof.
rewrite -P_C_P; have -> : P *m C *m P = P^T *m C *m P by rewrite P_sym.
by rewrite quad_congr; exact: posdef_ge0.
Qed.

(** The characterisation of the projected inverse. *)
Lemma proj_inv_unique (Q : 'M[R]_n) (X : 'M[R]_(m, n)) :
  C *m Q = 1%:M - M *m X -> M^T *m Q = 0 -> Q = P.
Proof.
move=> CQ MQ.
have EQ : Q = invmx C - invmx C *m M *m X by rewrite -[Q](mulKmx uC) CQ mulmxBr mulmx1 mulmxA.
have EX : X = invmx S0 *m (M^T *m invmx C).
  have : M^T *m invmx C - S0 *m X = 0 by rewrite -MQ EQ mulmxBr !mulmxA.
  by move=> /subr0_eq ->; rewrite mulKmx //; exact: posdef_unit S0_posdef.
by rewrite EQ EX /P /proj_inv !mulmxA.
Qed.

End Gauss.

Section GaussT.
Variables (n m k : nat) (C : 'M[R]_n) (M : 'M[R]_(n, m)) (T : 'M[R]_(n, k)) (Phi : 'M[R]_k).
Hypotheses (pC : posdef C) (FR : full_rank M) (pPhi : posdef Phi).
Let P := proj_inv C M.
Let Sg := C + T *m Phi *m T^T.
Let S := T^T *m P *m T + invmx Phi.

Lemma gp_cov_posdef : posdef Sg.
Proof.
apply: posdefD => //; first by rewrite /sym !trmx_mul trmxK (proj1 pPhi) mulmxA.
move=> x; rewrite -[X in quad (X *m _ *m _)]trmxK quad_congr; exact: posdef_ge0.
Qed.
Lemma S_posdef : posdef S.
Proof.
rewrite /S addrC; apply: posdefD; first exact: posdef_inv.
  by rewrite /sym !trmx_mul trmxK (P_sym M pC) mulmxA.
by move=> x; rewrite quad_congr; exact: P_ge0.
Qed.

Lemma gp_proj : P - P *m T *m invmx S *m T^T *m P = proj_inv Sg M.
Proof.
have uS := posdef_unit S_posdef; have uPhi := posdef_unit pPhi.
set X0 := invmx (M^T *m invmx C *m M) *m M^T *m invmx C.
apply: (@proj_inv_unique n m Sg M gp_cov_posdef FR _ (X0 *m (1%:M - T *m invmx S *m T^T *m P))); last first.
  by rewrite mulmxBr !mulmxA (M_P pC FR) !mul0mx subrr.
have CP := C_P M pC.
have TPT : T^T *m P *m T = S - invmx Phi by rewrite /S addrK.
have -> : P - P *m T *m invmx S *m T^T *m P = P *m (1%:M - T *m invmx S *m T^T *m P).
  by rewrite mulmxBr mulmx1 !mulmxA.
set W := 1%:M - _.
have E : T^T *m P *m W = invmx Phi *m invmx S *m T^T *m P.
  rewrite /W mulmxBr mulmx1 !mulmxA TPT mulmxBl mulmxBl mulmxBl mulmxV // mul1mx.
  by rewrite opprB addrC subrK.
rewrite /Sg mulmxDl mulmxA CP mulmxBl mul1mx.
have -> : T *m Phi *m T^T *m (P *m W) = T *m Phi *m (T^T *m P *m W) by rewrite !mulmxA.
rewrite E !mulmxA (mulmxK uPhi).
by rewrite /W addrAC subrK.
Qed.

Lemma gp_det :
  \det Sg * \det (M^T *m invmx Sg *m M) = \det C * \det (M^T *m invmx C *m M) * \det S * \det Phi.
Proof.
have uC := posdef_unit pC; have uPhi := posdef_unit pPhi.
pose A := invmx Phi + T^T *m invmx C *m T.
have pA : posdef A.
  apply: posdefD; first exact: posdef_inv.
    by rewrite /sym !trmx_mul trmxK (sym_inv (proj1 pC)) mulmxA.
  by move=> x; rewrite quad_congr; exact: posdef_ge0 (posdef_inv pC).
have uA := posdef_unit pA; have uS0 := posdef_unit (S0_posdef pC FR).
have D1 : \det Sg = \det C * \det Phi * \det A by exact: det_woodbury.
have W1 : invmx Sg = invmx C - invmx C *m T *m invmx A *m T^T *m invmx C by exact: woodbury.
have := det_block_l (T^T *m invmx C *m M) (M^T *m invmx C *m T) (M^T *m invmx C *m M) uA.
rewrite (det_block_r A _ _ uS0).
have -> : M^T *m invmx C *m M - M^T *m invmx C *m T *m invmx A *m (T^T *m invmx C *m M) = M^T *m invmx Sg *m M.
  by rewrite W1 mulmxBr mulmxBl !mulmxA.
have -> : A - T^T *m invmx C *m M *m invmx (M^T *m invmx C *m M) *m (M^T *m invmx C *m T) = S.
  by rewrite /A /S /P /proj_inv mulmxBr mulmxBl !mulmxA [RHS]addrC addrA.
move=> H; rewrite D1 -mulrA -H; set a := \det C; set b := \det _; set c := \det _; set d := \det _.
by rewrite -!mulrA; congr (_ * _); rewrite mulrC -!mulrA.
Qed.
End GaussT.
(** * How much a wide prior differs from projecting out *)
Lemma hadamard n (A : 'M[R]_n) : posdef A -> \det A <= \prod_i A i i.
Proof.
move=> pA; have [U HU] := posdef_chol pA; have G := chol_gram (proj1 pA) HU.
rewrite -{1}G det_mulmx det_tr (chol_det HU) -big_split /=.
apply: ler_prod => i _; rewrite -[A]G !mxE (bigD1 i) //= mxE.
have H0 : 0 <= \sum_(j < n | j != i) U^T i j * U j i.
  by apply: sumr_ge0 => j _; rewrite mxE -expr2 sqr_ge0.
by rewrite -expr2 sqr_ge0 ler_addl H0.
Qed.

Lemma ln_le_sub1 (x : R) : 0 < x -> ln x <= x - 1.
Proof.
move=> /RltP x0; apply/RleP; rewrite -RminusE -R1E.
have := exp_ineq1_le (ln x); rewrite exp_ln //; lra.
Qed.
Lemma ln_leP (x y : R) : 0 < x -> x <= y -> ln x <= ln y.
Proof.
move=> /RltP x0 /RleP xy; apply/RleP; case: xy => [H|->]; last by right.
by left; exact: ln_increasing.
Qed.

Lemma quad_invmx n (A : 'M[R]_n) x : sym A -> A \in unitmx -> quad (invmx A) (A *m x) = quad A x.
Proof. by move=> sA uA; rewrite /quad trmx_mul sA mulmxK // mulmxA. Qed.
Lemma quad_addx n (A : 'M[R]_n) x y : sym A ->
  quad A (x + y) = quad A x + 2%:R * (x^T *m A *m y) ord0 ord0 + quad A y.
Proof.
move=> sA; rewrite /quad [(x + y)^T]linearD /= !mulmxDl !mulmxDr [LHS]mxE [X in X + _]mxE [X in _ + X]mxE.
have -> : (y^T *m A *m x) ord0 ord0 = (x^T *m A *m y) ord0 ord0.
  transitivity ((y^T *m A *m x)^T ord0 ord0); first by rewrite [in RHS]mxE.
  by rewrite !trmx_mul trmxK sA mulmxA.
by rewrite mulr2n mulrDl mul1r !addrA.
Qed.
Lemma quad_scale n (A : 'M[R]_n) a x : quad A (a *: x) = a ^+ 2 * quad A x.
Proof. by rewrite /quad [(a *: x)^T]linearZ /= -!scalemxAl -scalemxAr mxE mxE mulrA. Qed.
Lemma quad_scalar n (a : R) x : quad (a%:M : 'M[R]_n) x = a * sqnorm x.
Proof. by rewrite /quad -mulmxA mul_scalar_mx -scalemxAr mxE sqnormE. Qed.

Section Shift.
Variables (n : nat) (S : 'M[R]_n) (mu : R).
Hypotheses (pS : posdef S) (mu0 : 0 < mu).
Let D := S + mu%:M.
Lemma scalar_sym (a : R) : sym (a%:M : 'M[R]_n). Proof. exact: tr_scalar_mx. Qed.
Lemma D_posdef : posdef D.
Proof.
apply: posdefD => //; first exact: scalar_sym.
by move=> x; rewrite quad_scalar mulr_ge0 ?sqnorm_ge0 // ltW.
Qed.
Lemma shift_quad (b : 'cV[R]_n) :
  0 <= quad (invmx S) b - quad (invmx D) b <= mu * sqnorm (invmx S *m b).
Proof.
have uS := posdef_unit pS; have uD := posdef_unit D_posdef.
have sS := proj1 pS; have sD : sym D := proj1 D_posdef.
have SD : S *m D = D *m S by rewrite /D mulmxDr mulmxDl mul_scalar_mx mul_mx_scalar.
set c := invmx S *m b; have Eb : b = S *m c by rewrite /c mulKVmx.
set e := invmx D *m c; have Ec : c = D *m e by rewrite /e mulKVmx.
have De : D *m e = S *m e + mu *: e by rewrite /D mulmxDl mul_scalar_mx.
have E1 : quad (invmx S) b = quad S (S *m e) + 2%:R * (mu * sqnorm (S *m e)) + mu ^+ 2 * quad S e.
  rewrite Eb quad_invmx // Ec De quad_addx // quad_scale -scalemxAr mxE.
  by rewrite -sqnormE !trmx_mul sS !mulmxA.
have E2 : quad (invmx D) b = quad S (S *m e) + mu * sqnorm (S *m e).
  by rewrite Eb Ec mulmxA SD -mulmxA quad_invmx // /D quadD quad_scalar.
have q1 x : sqnorm x = quad (1%:M : 'M_n) x by rewrite quad_scalar mul1r.
have E3 : sqnorm c = sqnorm (S *m e) + 2%:R * (mu * quad S e) + mu ^+ 2 * sqnorm e.
  rewrite Ec De !q1 quad_addx; last exact: scalar_sym.
  by rewrite quad_scale mulmx1 -scalemxAr mxE trmx_mul sS.
have h1 := sqnorm_ge0 (S *m e); have h2 := posdef_ge0 e pS; have h3 := sqnorm_ge0 e.
rewrite E1 E2 E3.
move: (sqnorm (S *m e)) (quad S e) (sqnorm e) (quad S (S *m e)) h1 h2 h3 => x y z w h1 h2 h3.
have -> : w + 2%:R * (mu * x) + mu ^+ 2 * y - (w + mu * x) = mu * (x + mu * y) by ring_R.
rewrite mulr_ge0 ?(ltW mu0) ?addr_ge0 ?mulr_ge0 ?(ltW mu0) //= ler_pmul2l //.
rewrite -subr_ge0.
have -> : x + 2%:R * (mu * y) + mu ^+ 2 * z - (x + mu * y) = mu * y + mu ^+ 2 * z by ring_R.
by rewrite addr_ge0 ?mulr_ge0 ?sqr_ge0 ?(ltW mu0).
Qed.

Lemma shift_det : 0 <= ln (\det D) - ln (\det S) <= mu * \tr (invmx S).
Proof.
have uS := posdef_unit pS; have sS := proj1 pS.
have pI := posdef_inv pS; have dS := posdef_det pS.
pose E : 'M[R]_n := 1%:M + mu *: invmx S.
have DE : D = S *m E by rewrite /D /E mulmxDr mulmx1 -scalemxAr mulmxV // scalemx1.
have pE : posdef E.
  apply: posdefD; first exact: posdef1.
    by rewrite /sym linearZ /= (proj1 pI).
  by move=> x; rewrite /quad -scalemxAr -scalemxAl mxE mulr_ge0 ?(ltW mu0) //; exact: posdef_ge0.
have dE := posdef_det pE.
have -> : ln (\det D) - ln (\det S) = ln (\det E) by rewrite DE det_mulmx lnM // addrAC subrr add0r.
have uE := posdef_unit pE; have pV := posdef_inv pE.
apply/andP; split.
  have dV : \det (invmx E) <= 1.
    apply: le_trans (hadamard pV) _.
    rewrite [X in _ <= X](_ : 1 = \prod_(i < n) 1); last by rewrite big1.
    apply: ler_prod => i _; rewrite (ltW (posdef_entry i pV)) /=.
    pose e : 'cV[R]_n := invmx E *m delta_mx i 0; have Ee : E *m e = delta_mx i 0 by rewrite /e mulKVmx.
    have -> : invmx E i i = quad E e.
      by rewrite -(quad_invmx _ (proj1 pE)) // Ee /quad trmx_delta -rowE -colE !mxE.
    have : sqnorm (E *m e) = 1.
      rewrite Ee /sqnorm (bigD1 i) //= mxE !eqxx expr1n big1 ?addr0 //.
      by move=> j ji; rewrite mxE (negbTE ji) expr0n.
    move=> <-; rewrite -subr_ge0.
    have -> : sqnorm (E *m e) - quad E e = mu * (quad (invmx S) e + mu * sqnorm (invmx S *m e)).
      have q1 x : sqnorm x = quad (1%:M : 'M_n) x by rewrite quad_scalar mul1r.
      have -> : E *m e = e + mu *: (invmx S *m e) by rewrite /E mulmxDl mul1mx -scalemxAl.
      rewrite !q1 quad_addx; last exact: scalar_sym.
      have cross : (e^T *m (mu *: (invmx S *m e))) ord0 ord0 = mu * quad (invmx S) e.
        by rewrite -scalemxAr mxE mulmxA.
      rewrite quad_scale mulmx1 cross /E quadD.
      have -> : quad (mu *: invmx S) e = mu * quad (invmx S) e by rewrite /quad -scalemxAr -scalemxAl mxE.
      by move: (quad 1%:M e) (quad 1%:M _) (quad (invmx S) e) => a b c; ring_R.
    by rewrite mulr_ge0 ?(ltW mu0) // addr_ge0 ?mulr_ge0 ?(ltW mu0) ?sqnorm_ge0 //; exact: posdef_ge0.
  have -> : \det E = (\det (invmx E))^-1 by rewrite det_inv invrK.
  by rewrite lnV ?(posdef_det pV) // oppr_ge0; apply: le_trans (ln_le_sub1 (posdef_det pV)) _; rewrite subr_le0.
apply: le_trans (ln_leP dE (hadamard pE)) _.
rewrite (proj2 (ln_prod _ _)); last by move=> i _; exact: posdef_entry.
rewrite /mxtrace mulr_sumr; apply: ler_sum => i _.
apply: le_trans (ln_le_sub1 (posdef_entry i pE)) _.
by rewrite /E !mxE eqxx addrAC subrr add0r.
Qed.
End Shift.

Section Wide.
Variables (n m : nat) (C : 'M[R]_n) (M : 'M[R]_(n, m)) (mu : R).
Hypotheses (pC : posdef C) (FR : full_rank M) (mu0 : 0 < mu).
Let S0 := M^T *m invmx C *m M.
Let Cw := C + M *m (mu^-1)%:M *m M^T.
Lemma wide_S : invmx (mu^-1)%:M + M^T *m invmx C *m M = S0 + mu%:M.
Proof. by rewrite invmx_scalar invrK addrC. Qed.
Lemma muM_unit : (mu^-1)%:M \in @unitmx R_fieldType m.
Proof. by rewrite unitmxE det_scalar unitrX // unitrV unitfE gt_eqF. Qed.

Lemma wide_quad r :
  0 <= quad (invmx Cw) r - quad (proj_inv C M) r <= mu * sqnorm (invmx S0 *m M^T *m invmx C *m r).
Proof.
have uC := posdef_unit pC; have pS := S0_posdef pC FR.
have W : invmx Cw = invmx C - invmx C *m M *m invmx (S0 + mu%:M) *m M^T *m invmx C.
  rewrite -wide_S; apply: woodbury => //; first exact: muM_unit.
  by rewrite wide_S; exact: posdef_unit (D_posdef pS mu0).
have E X : quad (invmx C - invmx C *m M *m X *m M^T *m invmx C) r =
  quad (invmx C) r - quad X (M^T *m invmx C *m r).
  rewrite /quad mulmxBr mulmxBl [LHS]mxE [X in _ + X]mxE; congr (_ - _).
  by rewrite !trmx_mul trmxK (sym_inv (proj1 pC)) !mulmxA.
rewrite W /proj_inv !E opprB addrC subrKA.
by have := shift_quad pS mu0 (M^T *m invmx C *m r); rewrite !mulmxA.
Qed.
Lemma wide_det :
  0 <= ln (\det Cw) - (ln (\det C) + ln (\det S0) - m%:R * ln mu) <= mu * \tr (invmx S0).
Proof.
have uC := posdef_unit pC; have pS := S0_posdef pC FR; have pD := D_posdef pS mu0.
have -> : \det Cw = \det C * \det ((mu^-1)%:M : 'M[R]_m) * \det (S0 + mu%:M).
  by rewrite -wide_S; apply: det_woodbury => //; exact: muM_unit.
have dC := posdef_det pC; have dD := posdef_det pD.
have mV : 0 < mu^-1 by rewrite invr_gt0.
rewrite det_scalar lnM //; last by rewrite mulr_gt0 // exprn_gt0.
rewrite lnM // ?exprn_gt0 //.
have -> : ln (mu^-1 ^+ m) = - (m%:R * ln mu).
  elim: (m) => [|j IH]; first by rewrite expr0 mul0r oppr0 -R1E ln_1.
  by rewrite exprS lnM ?exprn_gt0 // IH lnV // -[j.+1]add1n natrD mulrDl mul1r opprD.
have := shift_det pS mu0.
move: (ln (\det (S0 + _))) (ln (\det S0)) (ln (\det C)) (m%:R * ln mu) => a b c d.
by have -> : c + - d + a - (c + b - d) = a - b by ring_R.
Qed.
End Wide.
(** * Specification of the likelihood *)

(** The noise object without its marginalised timing model, the design matrix of
    that timing model (no columns if there is none) and the noise covariance. *)
Definition core n (N : nobj n) : nobj n := if N is NMarg _ _ N' then N' else N.
Definition tm_k n (N : nobj n) : nat := if N is NMarg k _ _ then k else 0%N.
Definition tm_M n (N : nobj n) : 'M[R]_(n, tm_k N) :=
  match N return 'M[R]_(n, tm_k N) with NMarg k M _ => M | _ => 0 end.
Definition cov_of n (N : nobj n) : 'M[R]_n := if inner_cov (core N) is Some C then C else 0.
Definition marginalised n (N : nobj n) : bool := if N is NMarg _ _ _ then true else false.

(** The log density of a Gaussian vector, without the multiples of [ln (2 pi)]. *)
Definition density n (r : 'cV[R]_n) (Sg : 'M[R]_n) : R :=
  (- 2%:R^-1 * (quad (invmx Sg) r + ln (\det Sg)))%R.
(** The same integrated over offsets [M x] with a flat density for [x]. *)
Definition density_tm n m (r : 'cV[R]_n) (Sg : 'M[R]_n) (M : 'M[R]_(n, m)) : R :=
  (- 2%:R^-1 * (quad (proj_inv Sg M) r + ln (\det Sg) + ln (\det (M^T *m invmx Sg *m M))))%R.

(** Noise of positive variances, with timing-model columns that are independent. *)
Definition good_noise n (N : nobj n) : Prop := proper_noise (core N) /\ full_rank (tm_M N).
(** A basis in a shape the noise object's products keep (see C29). *)
Definition good_shape (p : pulsar) : Prop :=
  psr_hasT p -> if psr_N p is NBlk _ _ then (1 < psr_k p)%N else True.
Definition good_prior (p : pulsar) : Prop := psr_hasT p -> posdef (phi_mx (psr_phi p)).

(** Noise plus Gaussian process. *)
Definition psr_cov (p : pulsar) : 'M[R]_(psr_n p) :=
  if psr_hasT p then cov_of (psr_N p) + psr_T p *m phi_mx (psr_phi p) *m (psr_T p)^T else cov_of (psr_N p).

(** * What the likelihood collects from a pulsar *)
Section Outputs.
Variables (n : nat) (N : nobj n).
Hypothesis G : good_noise N.
Let C := cov_of N.
Let M := tm_M N.
Let P := proj_inv C M.
Let L := ln (\det C) + ln (\det (M^T *m invmx C *m M)) + (tm_k N)%:R * ln (pow 10 40).

Lemma proj_inv0 (C' : 'M[R]_n) (M' : 'M[R]_(n, 0)) : proj_inv C' M' = invmx C'.
Proof.
rewrite /proj_inv [X in _ - X *m _](_ : _ = 0) ?mul0mx ?subr0 //.
by rewrite [M'](_ : _ = 0) ?trmx0 ?mulmx0 ?mul0mx //; apply/matrixP => i [].
Qed.
Lemma ln_det0 (A : 'M[R]_0) : ln (\det A) = 0.
Proof. by rewrite det_mx00 -R1E ln_1. Qed.

Lemma good_posdef : posdef C.
Proof.
rewrite /C /cov_of; have [C0 [-> [pC _]]] := proper_solves (proj1 G).
exact: pC.
Qed.

Lemma proper_shapes other left ld : proper_noise N -> left <> LNone ->
  (if N is NBlk _ _ then regular_shapes other (left_of other left) else True) ->
  solve N other left ld = exact_ret C other (left_of other left) ld.
Proof.
rewrite /C /cov_of; case: N => [c|v|bs o|bs o|A|k M0 o|] //=.
- by move=> v0 _ _; rewrite -[RHS]diag_solve_lem.
- by case: o => //= v [v0 [j0 D]] nl _; rewrite -[RHS]sherman_morrison_solve_lem.
- by case: o => //= v [n0 [v0 [D [sB Pb]]]] nl rs; rewrite -[RHS]blockmatrix_solve_lem.
- by move=> pA _ _; rewrite -[RHS](proj1 (sparse_solve_lem _ _ _ (proj1 pA)) pA).
Qed.
Lemma not_marg : marginalised N = false -> [/\ core N = N, proper_noise N, P = invmx C & L = ln (\det C)].
Proof.
case: G; rewrite /P /L /M; case: N => [c|v|bs o|bs o|A|k M0 o|] //= PN _ _;
  by rewrite proj_inv0 ln_det0 mul0r !addr0.
Qed.
Lemma marg_outputs : marginalised N ->
  [/\ forall r, solve N (A1 r) LSame true = Ok (OS (quad P r), Some L),
      forall r k (T : 'M[R]_(n, k)), solve N (A1 r) (LArr (A2 T)) false = Ok (OV (vec (T^T *m P *m r)), None) &
      forall k (T : 'M[R]_(n, k)), solve N (A2 T) LSame false = Ok (OM (rows (T^T *m P *m T)), None)].
Proof.
case: G; rewrite /P /L /M /C /cov_of; case: N => [c|v|bs o|bs o|A|k M0 o|] //= PN FR _.
have [C0 [-> [_ [_ [S1 [S2 _]]]]]] := marginalizing_solve_lem PN FR.
split=> [r|r l T|l T]; first by have /= := S1 (A1 r) true; move=> ->.
  by have /= := S2 (A1 r) (A2 T) false; move=> ->.
by have /= := S1 (A2 T) false; move=> ->.
Qed.

Lemma rNr_ok r : solve N (A1 r) LSame true = Ok (OS (quad P r), Some L).
Proof.
case E: (marginalised N); first by have [-> _ _] := marg_outputs E.
by have [_ PN -> ->] := not_marg E; rewrite proper_shapes //; case: (N).
Qed.
Lemma TNr_ok r k (T : 'M[R]_(n, k)) : (if N is NBlk _ _ then (1 < k)%N else True) ->
  solve N (A1 r) (LArr (A2 T)) false = Ok (OV (vec (T^T *m P *m r)), None).
Proof.
move=> k1; case E: (marginalised N); first by have [_ -> _] := marg_outputs E.
have [_ PN -> _] := not_marg E; rewrite proper_shapes //; by case: (N) k1.
Qed.
Lemma TNT_ok k (T : 'M[R]_(n, k)) : (if N is NBlk _ _ then (1 < k)%N else True) ->
  solve N (A2 T) LSame false = Ok (OM (rows (T^T *m P *m T)), None).
Proof.
move=> k1; case E: (marginalised N); first by have [_ _ ->] := marg_outputs E.
have [_ PN -> _] := not_marg E; rewrite proper_shapes //.
by case: (N) k1 => //= bs o k1; split=> // ek; rewrite ek in k1.
Qed.
End Outputs.

Lemma out_vecE e k (x : 'cV[R]_k) : out_vec e k (OV (vec x)) = Ok x.
Proof.
rewrite /out_vec /vec size_map size_enum_ord eqxx; congr Ok; apply/matrixP => i j.
by rewrite !mxE (nth_map i) ?size_enum_ord // nth_ord_enum [j]ord1.
Qed.
Lemma out_mxE k (X : 'M[R]_k) : out_mx k (OM (rows X)) = Ok X.
Proof.
rewrite /out_mx /rows size_map size_enum_ord eqxx /= all_map.
rewrite (eq_all (a2 := predT)) ?all_predT; last by move=> i; rewrite /= size_map size_enum_ord eqxx.
congr Ok; apply/matrixP => i j; rewrite !mxE (nth_map i) ?size_enum_ord // nth_ord_enum.
by rewrite (nth_map j) ?size_enum_ord // nth_ord_enum.
Qed.

Lemma phi_diagE k (v : 'cV[R]_k) : phi_mx (PhiD v) = diag v. Proof. by []. Qed.
Lemma diag_posdef_inv k (v : 'cV[R]_k) : posdef (diag v) -> forall i, 0 < v i ord0.
Proof. by move=> pv i; have := posdef_entry i pv; rewrite /diag !mxE eqxx mulr1n. Qed.

Lemma kinv_posdef_lem : forall svd k (phi : phi_t k), posdef (phi_mx phi) ->
  phi_mx (kinv svd phi).1 = invmx (phi_mx phi) /\ (kinv svd phi).2 = ln (\det (phi_mx phi)).
Proof.
move=> svd k [v|A] pA /=.
  have v0 := diag_posdef_inv pA; split; last exact: vec_logdetE.
  rewrite -[LHS]mulmx1 -(mulmxV (posdef_unit pA)) mulmxA -[RHS]mul1mx; congr (_ *m _).
  apply/matrixP => i j; rewrite mul_diag_mx !mxE; case: eqP => [->|_]; last by rewrite mulr0n mulr0.
  by rewrite mulr1n mulVf // gt_eqF.
have [U HU] := posdef_chol pA; rewrite HU /=.
by rewrite (cho_solveE _ (proj1 pA) HU) mulmx1 (cho_logdetE (proj1 pA) HU).
Qed.
Lemma kinv_sym svd k (phi : phi_t k) : sym (phi_mx phi) -> sym (phi_mx (kinv svd phi).1).
Proof.
case: phi => [v|A] sA /=; first exact: diag_sym.
case E: (chol A) => [U|] /=.
  by rewrite (cho_solveE _ sA E) mulmx1; exact: sym_inv.
set u := (svd _ A).1; set s := (svd _ A).2.
have -> : \matrix_(i, j) (u i j / s j ord0) = u *m diag_mx (\row_j (s j ord0)^-1).
  by apply/matrixP => i j; rewrite mul_mx_diag !mxE.
by rewrite /sym !trmx_mul trmxK tr_diag_mx mulmxA.
Qed.

(** * The likelihood without common signals *)
Section Independent.
Variable svd : forall k, 'M[R]_k -> 'M[R]_k * 'cV[R]_k.

Definition psr_P (p : pulsar) : 'M[R]_(psr_n p) := proj_inv (cov_of (psr_N p)) (tm_M (psr_N p)).
Definition psr_L (p : pulsar) : R :=
  (ln (\det (cov_of (psr_N p)))
   + ln (\det ((tm_M (psr_N p))^T *m invmx (cov_of (psr_N p)) *m tm_M (psr_N p)))
   + (tm_k (psr_N p))%:R * ln (pow 10 40))%R.
(** What Sigma is to be: the basis products of the noise plus the inverse prior. *)
Definition psr_TPT (p : pulsar) : 'M[R]_(psr_k p) := (psr_T p)^T *m psr_P p *m psr_T p.
Definition psr_b (p : pulsar) : 'cV[R]_(psr_k p) := (psr_T p)^T *m psr_P p *m psr_r p.
Definition psr_Sigma (p : pulsar) : 'M[R]_(psr_k p) := psr_TPT p + phi_mx (kinv svd (psr_phi p)).1.
Definition psr_term (p : pulsar) : option R :=
  if psr_hasT p then
    omap (fun U => 2%:R^-1 * (dot (psr_b p) (cho_solve U (psr_b p)) - cho_logdet U - (kinv svd (psr_phi p)).2))
         (chol (psr_Sigma p))
  else Some 0.

Definition good (p : pulsar) : Prop := good_noise (psr_N p) /\ good_shape p.
Lemma psr_rNr_ok p : good p -> psr_rNr p = Ok (quad (psr_P p) (psr_r p), psr_L p).
Proof. by case=> G _; rewrite /psr_rNr rNr_ok. Qed.
Lemma psr_TNr_ok p : good p -> psr_TNr p = Ok (if psr_hasT p then Some (OV (vec (psr_b p))) else None).
Proof. by case=> G S; rewrite /psr_TNr; case: ifP => // h; rewrite TNr_ok //; exact: S. Qed.
Lemma psr_TNT_ok p : good p -> psr_TNT p = Ok (if psr_hasT p then Some (OM (rows (psr_TPT p))) else None).
Proof. by case=> G S; rewrite /psr_TNT; case: ifP => // h; rewrite TNT_ok //; exact: S. Qed.

Lemma mapR_ok (A B : Type) (f : A -> result B) (g : A -> B) l :
  (forall x, List.In x l -> f x = Ok (g x)) -> mapR f l = Ok (map g l).
Proof.
elim: l => //= x l IH H; rewrite H /=; last by left.
by rewrite IH //= => y yl; apply: H; right.
Qed.

Definition base (ps : seq pulsar) : R :=
  (- 2%:R^-1 * (\sum_(p <- ps) (quad (psr_P p) (psr_r p) + psr_L p)) + \sum_(p <- ps) psr_prior p)%R.
Definition TNr_of p := if psr_hasT p then Some (OV (vec (psr_b p))) else None.
Definition TNT_of p := if psr_hasT p then Some (OM (rows (psr_TPT p))) else None.
Lemma pieces_ok ps : (forall p, List.In p ps -> good p) ->
  pieces ps = Ok (map TNr_of ps, map TNT_of ps, base ps).
Proof.
move=> H; rewrite /pieces (@mapR_ok _ _ _ TNr_of) /=; last by move=> p hp; rewrite psr_TNr_ok //; exact: H.
rewrite (@mapR_ok _ _ _ TNT_of) /=; last by move=> p hp; rewrite psr_TNT_ok //; exact: H.
rewrite (@mapR_ok _ _ _ (fun p => (quad (psr_P p) (psr_r p), psr_L p))) /=; last first.
  by move=> p hp; rewrite psr_rNr_ok //; exact: H.
by rewrite big_map.
Qed.

Lemma term_ok p : psr_hasT p ->
  term (OV (vec (psr_b p))) (OM (rows (psr_TPT p))) (kinv svd (psr_phi p)) = Ok (psr_term p).
Proof.
move=> h; rewrite /term out_mxE out_vecE /= /psr_term h -/(psr_Sigma p).
by case: (chol _).
Qed.
Lemma loop_ok ps acc (x : pulsar -> R) : (forall p, List.In p ps -> psr_term p = Some (x p)) ->
  loop svd (zip ps (zip (map TNr_of ps) (map TNT_of ps))) acc = Ok (Fin (acc + \sum_(p <- ps) x p)%R).
Proof.
elim: ps acc => [|p ps IH] acc H /=; first by rewrite big_nil addr0.
have IH' a := IH a (fun q hq => H q (or_intror hq)); have Hp := H p (or_introl erefl).
rewrite big_cons addrA {1}/TNr_of {1}/TNT_of; case h: (psr_hasT p).
  by rewrite term_ok // Hp /= IH'.
by rewrite IH'; move: Hp; rewrite /psr_term h => -[<-]; rewrite addr0.
Qed.
Lemma loop_neg ps acc p : List.In p ps -> psr_term p = None ->
  loop svd (zip ps (zip (map TNr_of ps) (map TNT_of ps))) acc = Ok NegInf.
Proof.
elim: ps acc => [|q ps IH] acc //= [->|hp] E; rewrite {1}/TNr_of {1}/TNT_of.
  by move: (E); rewrite /psr_term; case h: (psr_hasT p) => // _; rewrite term_ok // E.
case h: (psr_hasT q); last exact: IH.
by rewrite term_ok //; case: (psr_term q) => [x|] //=; exact: IH.
Qed.

Lemma psr_cov_posdef p : good p -> good_prior p -> posdef (psr_cov p).
Proof.
move=> [G _] GP; rewrite /psr_cov; case: ifP => h; last exact: good_posdef.
by apply: gp_cov_posdef; [exact: good_posdef|exact: GP].
Qed.

(** One pulsar. *)
Lemma quad_sub n (A B : 'M[R]_n) x : quad (A - B) x = quad A x - quad B x.
Proof. by rewrite /quad mulmxBr mulmxBl mxE [X in _ + X]mxE. Qed.
Lemma quad_step n k (P : 'M[R]_n) (T : 'M[R]_(n, k)) (B : 'M[R]_k) r : sym P ->
  quad (P *m T *m B *m T^T *m P) r = quad B (T^T *m P *m r).
Proof. by move=> sP; rewrite /quad !trmx_mul trmxK sP !mulmxA. Qed.

Lemma psr_value p : good p -> good_prior p -> exists x, psr_term p = Some x /\
  - 2%:R^-1 * (quad (psr_P p) (psr_r p) + psr_L p) + x =
  density_tm (psr_r p) (psr_cov p) (tm_M (psr_N p)) - 2%:R^-1 * ((tm_k (psr_N p))%:R * ln (pow 10 40)).
Proof.
move=> [G _] GP; have pC := good_posdef G; have FR := proj2 G.
rewrite /psr_term /psr_cov; case h: (psr_hasT p); last first.
  exists 0; split=> //; rewrite addr0 /density_tm /psr_P /psr_L.
  move: (_%:R * ln (pow 10 40)) (quad _ _) (ln (\det (cov_of _))) (ln (\det (_ *m _))) => a b c d.
  by ring_R.
have pPhi := GP h; have [K1 K2] := kinv_posdef_lem svd pPhi.
have S_E : psr_Sigma p = (psr_T p)^T *m psr_P p *m psr_T p + invmx (phi_mx (psr_phi p)) by rewrite /psr_Sigma K1.
have pS : posdef (psr_Sigma p) by rewrite S_E; exact: S_posdef.
have [U HU] := posdef_chol pS; rewrite HU [omap _ _]/=; eexists; split; first by reflexivity.
rewrite (cho_logdetE (proj1 pS) HU) (cho_solveE _ (proj1 pS) HU) K2.
rewrite /density_tm -(gp_proj (psr_T p) pC FR pPhi) -/(psr_P p) -S_E [quad (psr_P p - _) _]quad_sub [quad (_ *m psr_P p) _]quad_step; last by apply: proj_inv_sym; case: pC.
rewrite -/(psr_b p) dotE mulmxA -/(quad _ (psr_b p)).
have := gp_det (psr_T p) pC FR pPhi; rewrite -/(psr_P p) -S_E => D.
set Sg := cov_of _ + _ in D *; have pG : posdef Sg by exact: gp_cov_posdef.
have := congr1 ln D; rewrite lnM ?(posdef_det pG) ?(posdef_det (S0_posdef pG FR)) //.
have dC := posdef_det pC; have dS := posdef_det pS; have dP := posdef_det pPhi.
have dM := posdef_det (S0_posdef pC FR).
rewrite lnM ?mulr_gt0 // lnM ?mulr_gt0 // lnM // /psr_L.
move: (_%:R * ln (pow 10 40)) (ln (\det Sg)) (ln (\det ((tm_M (psr_N p))^T *m invmx Sg *m tm_M (psr_N p)))) (quad (psr_P p) _) (quad (invmx (psr_Sigma p)) _) (ln (\det (psr_Sigma p)))
  (ln (\det (cov_of _))) (ln (\det ((tm_M (psr_N p))^T *m invmx (cov_of (psr_N p)) *m tm_M (psr_N p)))) (ln (\det (phi_mx _))) => j a b c d e f g i ab.
have {a ab} -> : a = f + g + e + i - b by rewrite -ab addrK.
by ring_R.
Qed.

Lemma likelihood_value ps : (forall p, List.In p ps -> good p /\ good_prior p) ->
  loglike svd ps = Ok (Fin (\sum_(p <- ps)
    (density_tm (psr_r p) (psr_cov p) (tm_M (psr_N p)) - 2%:R^-1 * ((tm_k (psr_N p))%:R * ln (pow 10 40))
     + psr_prior p))%R).
Proof.
move=> H; rewrite /loglike pieces_ok /=; last by move=> p /H [].
pose x p := odflt 0 (psr_term p).
rewrite (@loop_ok _ _ x); last first.
  by move=> p /H [g gp]; have [y [E _]] := psr_value g gp; rewrite /x E.
congr (Ok (Fin _)); rewrite /base addrAC mulr_sumr -!big_split /=.
elim: ps H => [|p ps IH] H; first by rewrite !big_nil.
rewrite !big_cons IH; last by move=> q hq; apply: H; right.
have [g gp] := H p (or_introl erefl); have [y [E V]] := psr_value g gp.
by rewrite /x E /= V.
Qed.
End Independent.

(** * The likelihood with common signals *)

(** Block diagonals and stacked vectors over the pulsars. *)
Definition tot (f : pulsar -> nat) (ps : seq pulsar) : nat := foldr (fun p k => (f p + k)%N) 0%N ps.
Fixpoint bdiag (f g : pulsar -> nat) (A : forall p, 'M[R]_(f p, g p)) (ps : seq pulsar) : 'M[R]_(tot f ps, tot g ps) :=
  match ps return 'M[R]_(tot f ps, tot g ps) with
  | [::] => 0
  | p :: ps' => block_mx (A p) 0 0 (bdiag A ps')
  end.
Fixpoint stack (f : pulsar -> nat) (x : forall p, 'cV[R]_(f p)) (ps : seq pulsar) : 'cV[R]_(tot f ps) :=
  match ps return 'cV[R]_(tot f ps) with
  | [::] => 0
  | p :: ps' => col_mx (x p) (stack x ps')
  end.

Section BlockMx.
Lemma bdiag_mul f g h (A : forall p, 'M[R]_(f p, g p)) (B : forall p, 'M[R]_(g p, h p)) ps :
  bdiag A ps *m bdiag B ps = bdiag (fun p => A p *m B p) ps.
Proof.
elim: ps => [|p ps IH] /=; first by rewrite mul0mx.
by rewrite mulmx_block !mul0mx !mulmx0 !addr0 !add0r IH.
Qed.
Lemma bdiag_tr f g (A : forall p, 'M[R]_(f p, g p)) ps : (bdiag A ps)^T = bdiag (fun p => (A p)^T) ps.
Proof. by elim: ps => [|p ps IH] /=; rewrite ?trmx0 // tr_block_mx !trmx0 IH. Qed.
Lemma bdiag_stack f g (A : forall p, 'M[R]_(f p, g p)) (x : forall p, 'cV[R]_(g p)) ps :
  bdiag A ps *m stack x ps = stack (fun p => A p *m x p) ps.
Proof.
elim: ps => [|p ps IH] /=; first by rewrite mul0mx.
by rewrite mul_block_col !mul0mx addr0 add0r IH.
Qed.
Lemma stack_dot f (x y : forall p, 'cV[R]_(f p)) ps :
  ((stack x ps)^T *m stack y ps) ord0 ord0 = \sum_(p <- ps) ((x p)^T *m y p) ord0 ord0.
Proof.
elim: ps => [|p ps IH] /=; first by rewrite big_nil trmx0 mul0mx mxE.
by rewrite tr_col_mx mul_row_col mxE IH big_cons.
Qed.
Lemma bdiag_quad f (A : forall p, 'M[R]_(f p)) (x : forall p, 'cV[R]_(f p)) ps :
  quad (bdiag A ps) (stack x ps) = \sum_(p <- ps) quad (A p) (x p).
Proof.
rewrite /quad -mulmxA bdiag_stack stack_dot; apply: eq_bigr => p _; by rewrite mulmxA.
Qed.
Lemma eq_bdiag f g (A B : forall p, 'M[R]_(f p, g p)) ps : (forall p, List.In p ps -> A p = B p) -> bdiag A ps = bdiag B ps.
Proof.
elim: ps => //= p ps IH H; rewrite H ?IH //; last by left.
by move=> q hq; apply: H; right.
Qed.
Lemma bdiag_det f (A : forall p, 'M[R]_(f p)) ps : \det (bdiag A ps) = \prod_(p <- ps) \det (A p).
Proof.
elim: ps => [|p ps IH] /=; first by rewrite big_nil det_mx00.
by rewrite det_ublock IH big_cons.
Qed.
Lemma bdiag_lndet f (A : forall p, 'M[R]_(f p)) ps : (forall p, List.In p ps -> 0 < \det (A p)) ->
  0 < \det (bdiag A ps) /\ ln (\det (bdiag A ps)) = \sum_(p <- ps) ln (\det (A p)).
Proof.
elim: ps => [|p ps IH] /= H; first by rewrite big_nil ln_det0 det_mx00 ltr01.
have [] := IH (fun q hq => H q (or_intror hq)); have Hp := H p (or_introl erefl).
by rewrite det_ublock big_cons => h E; rewrite lnM // E mulr_gt0.
Qed.
Lemma bdiag_1 f ps : bdiag (fun p => 1%:M : 'M[R]_(f p)) ps = 1%:M.
Proof.
elim: ps => [|p ps IH] /=; first by apply/matrixP => i [].
by rewrite IH -scalar_mx_block.
Qed.
Lemma bdiag_inv f (A : forall p, 'M[R]_(f p)) ps : (forall p, List.In p ps -> A p \in unitmx) ->
  bdiag A ps \in unitmx /\ invmx (bdiag A ps) = bdiag (fun p => invmx (A p)) ps.
Proof.
move=> U; have E : bdiag A ps *m bdiag (fun p => invmx (A p)) ps = 1%:M.
  rewrite bdiag_mul -bdiag_1; apply: eq_bdiag => p hp; by rewrite mulmxV // U.
have [u _] := mulmx1_unit E; split=> //.
by rewrite -[RHS](mulKmx u) E mulmx1.
Qed.
Lemma bdiag_sub f g (A B : forall p, 'M[R]_(f p, g p)) ps :
  bdiag A ps - bdiag B ps = bdiag (fun p => A p - B p) ps.
Proof.
elim: ps => [|p ps IH] /=; first by rewrite subr0.
by rewrite opp_block_mx add_block_mx IH !oppr0 !addr0.
Qed.
Lemma bdiag_quad_gen f (A : forall p, 'M[R]_(f p)) ps (x : 'cV[R]_(tot f ps)) :
  (forall p, List.In p ps -> posdef (A p)) -> x != 0 -> 0 < quad (bdiag A ps) x.
Proof.
elim: ps x => [|p ps IH] /= x H.
  by move=> /eqP; case; apply/matrixP => -[].
rewrite -[x]vsubmxK; set y := usubmx x; set z := dsubmx x.
have -> : quad (block_mx (A p) 0 0 (bdiag A ps)) (col_mx y z) = quad (A p) y + quad (bdiag A ps) z.
  rewrite /quad tr_col_mx mul_row_block !mulmx0 add0r addr0 mul_row_col.
  by rewrite [LHS]mxE.
have pA := H p (or_introl erefl).
have zge : 0 <= quad (bdiag A ps) z.
  case: (eqVneq z 0) => [->|z0]; first by rewrite /quad mulmx0 mxE.
  by apply/ltW/IH => // q hq; apply: H; right.
case: (eqVneq y 0) => [->|y0 _].
  rewrite [quad (A p) 0]/quad mulmx0 mxE add0r => xn0; apply: IH; first by move=> q hq; apply: H; right.
  by apply: contraNneq xn0 => ->; rewrite col_mx0.
by apply: ltr_paddr => //; exact: (proj2 pA).
Qed.
Lemma bdiag_posdef f (A : forall p, 'M[R]_(f p)) ps : (forall p, List.In p ps -> posdef (A p)) -> posdef (bdiag A ps).
Proof.
move=> H; split; last by move=> x; exact: bdiag_quad_gen.
by rewrite /sym bdiag_tr; apply: eq_bdiag => p /H [].
Qed.
Lemma bdiag_full_rank f g (M : forall p, 'M[R]_(f p, g p)) ps : (forall p, List.In p ps -> full_rank (M p)) ->
  full_rank (bdiag M ps).
Proof.
elim: ps => [|p ps IH] /= H x; first by move=> _; apply/matrixP => -[].
rewrite -[x]vsubmxK mul_block_col !mul0mx addr0 add0r -[0]vsubmxK => /eq_col_mx [].
rewrite !linear0 => /(H p (or_introl erefl)) -> /IH ->; first by rewrite col_mx0.
by move=> q hq; apply: H; right.
Qed.
Lemma bdiag_proj f g (C : forall p, 'M[R]_(f p)) (M : forall p, 'M[R]_(f p, g p)) ps :
  (forall p, List.In p ps -> posdef (C p) /\ full_rank (M p)) ->
  proj_inv (bdiag C ps) (bdiag M ps) = bdiag (fun p => proj_inv (C p) (M p)) ps.
Proof.
move=> H; rewrite /proj_inv bdiag_tr.
have [_ ->] := @bdiag_inv f C ps (fun p hp => posdef_unit (proj1 (H p hp))).
rewrite !bdiag_mul.
have [_ ->] := @bdiag_inv g (fun p => (M p)^T *m invmx (C p) *m M p) ps (fun p hp =>
  posdef_unit (S0_posdef (proj1 (H p hp)) (proj2 (H p hp)))).
by rewrite !bdiag_mul bdiag_sub.
Qed.
End BlockMx.

Section Correlated.
Definition all_C ps := bdiag (fun p => cov_of (psr_N p)) ps.
Definition all_M ps := bdiag (fun p => tm_M (psr_N p)) ps.
Definition all_T ps : 'M[R]_(tot psr_n ps, tot_k ps) := bdiag psr_T ps.
Definition all_r ps := stack psr_r ps.

Lemma block_TNT_ok ps : (forall p, List.In p ps -> psr_hasT p) ->
  block_TNT ps (map TNT_of ps) = Ok (bdiag psr_TPT ps).
Proof.
elim: ps => //= p ps IH H; rewrite {1}/TNT_of H ?out_mxE; last by left.
by rewrite IH // => q hq; apply: H; right.
Qed.
Lemma concat_TNr_ok ps : (forall p, List.In p ps -> psr_hasT p) ->
  concat_TNr ps (map TNr_of ps) = Ok (stack psr_b ps).
Proof.
elim: ps => //= p ps IH H; rewrite {1}/TNr_of H ?out_vecE; last by left.
by rewrite IH // => q hq; apply: H; right.
Qed.

Lemma correlated_gen ps (phiinv : 'M[R]_(tot_k ps)) ld :
  (forall p, List.In p ps -> good p /\ psr_hasT p) ->
  loglike_correlated phiinv ld =
    Ok (if chol (bdiag psr_TPT ps + phiinv) is Some U
        then Fin (base ps + 2%:R^-1 * (dot (stack psr_b ps) (cho_solve U (stack psr_b ps)) - cho_logdet U - ld))%R
        else NegInf).
Proof.
move=> H; rewrite /loglike_correlated pieces_ok /=; last by move=> p /H [].
rewrite block_TNT_ok /=; last by move=> p /H [].
by rewrite concat_TNr_ok //= => p /H [].
Qed.

Lemma correlated_value ps (Phi : 'M[R]_(tot_k ps)) :
  (forall p, List.In p ps -> good p /\ psr_hasT p) -> posdef Phi ->
  loglike_correlated (invmx Phi) (ln (\det Phi)) =
    Ok (Fin (density_tm (all_r ps) (all_C ps + all_T ps *m Phi *m (all_T ps)^T) (all_M ps)
             - 2%:R^-1 * ((\sum_(p <- ps) tm_k (psr_N p))%:R * ln (pow 10 40)) + \sum_(p <- ps) psr_prior p)%R).
Proof.
move=> H pPhi; rewrite correlated_gen //.
have HC p : List.In p ps -> posdef (cov_of (psr_N p)) /\ full_rank (tm_M (psr_N p)).
  by case/H => -[[PN FR] _] _; split=> //; exact: good_posdef.
have pC : posdef (all_C ps) by apply: bdiag_posdef => p /HC [].
have FR : full_rank (all_M ps) by apply: bdiag_full_rank => p /HC [].
pose P := proj_inv (all_C ps) (all_M ps).
have EP : P = bdiag psr_P ps by exact: bdiag_proj.
have ET : bdiag psr_TPT ps = (all_T ps)^T *m P *m all_T ps by rewrite EP bdiag_tr !bdiag_mul.
have Eb : stack psr_b ps = (all_T ps)^T *m P *m all_r ps by rewrite EP bdiag_tr bdiag_mul bdiag_stack.
set S := bdiag psr_TPT ps + invmx Phi.
have ES : S = (all_T ps)^T *m P *m all_T ps + invmx Phi by rewrite /S ET.
have pS : posdef S by rewrite ES; exact: S_posdef.
have [U HU] := posdef_chol pS; rewrite HU; congr (Ok (Fin _)).
rewrite (cho_logdetE (proj1 pS) HU) (cho_solveE _ (proj1 pS) HU) Eb.
have := gp_det (all_T ps) pC FR pPhi; rewrite -/P -ES.
rewrite /density_tm -(gp_proj (all_T ps) pC FR pPhi) -/P -ES.
rewrite [quad (P - _) _]quad_sub [quad (_ *m P) _]quad_step; last by apply: proj_inv_sym; case: pC.
set Sg := all_C ps + _; have pG : posdef Sg by exact: gp_cov_posdef.
move=> D; have := congr1 ln D; rewrite lnM ?(posdef_det pG) ?(posdef_det (S0_posdef pG FR)) //.
have dC := posdef_det pC; have dS := posdef_det pS; have dP := posdef_det pPhi.
have dM := posdef_det (S0_posdef pC FR).
rewrite lnM ?mulr_gt0 // lnM ?mulr_gt0 // lnM //.
rewrite dotE (mulmxA _ (invmx S)) -/(quad (invmx S) _).
have -> : base ps = - 2%:R^-1 * (quad P (all_r ps) + (ln (\det (all_C ps)) +
   ln (\det ((all_M ps)^T *m invmx (all_C ps) *m all_M ps)) + (\sum_(p <- ps) tm_k (psr_N p))%:R * ln (pow 10 40)))
   + \sum_(p <- ps) psr_prior p.
  rewrite /base; congr (_ * _ + _); rewrite big_split /= EP bdiag_quad; congr (_ + _).
  rewrite /psr_L !big_split; congr (_ + _ + _).
  - by have [_ <-] := bdiag_lndet (fun p hp => posdef_det (proj1 (HC p hp))).
  - have [_ <-] := bdiag_lndet (fun p hp => posdef_det (S0_posdef (proj1 (HC p hp)) (proj2 (HC p hp)))).
    rewrite /all_M bdiag_tr /all_C (proj2 (bdiag_inv (fun p hp => posdef_unit (proj1 (HC p hp))))).
    by rewrite !bdiag_mul.
  - by rewrite -mulr_suml natr_sum.
move: (_%:R * ln (pow 10 40)) (\sum_(p <- ps) psr_prior p) (ln (\det Sg)) (ln (\det ((all_M ps)^T *m invmx Sg *m all_M ps))) (quad P _) (quad (invmx S) _)
  (ln (\det S)) (ln (\det (all_C ps))) (ln (\det ((all_M ps)^T *m invmx (all_C ps) *m all_M ps))) (ln (\det Phi)) => j w a b c d e f g i ab.
have {a ab} -> : a = f + g + e + i - b by rewrite -ab addrK.
by ring_R.
Qed.
End Correlated.

(** * Statements about the likelihood *)
Lemma density_tm0 n m (r : 'cV[R]_n) (Sg : 'M[R]_n) (M : 'M[R]_(n, m)) : m = 0%N -> density_tm r Sg M = density r Sg.
Proof. by move=> m0; move: M; rewrite m0 => M; rewrite /density_tm /density proj_inv0 ln_det0 addr0. Qed.
Lemma plain_noise n (N : nobj n) : proper_noise N -> [/\ good_noise N, tm_k N = 0%N & inner_cov N = Some (cov_of N)].
Proof.
move=> PN; have [C [IC _]] := proper_solves PN.
have M0 : core N = N /\ tm_k N = 0%N by case: (N) PN.
case: M0 => cN kN; split=> //; last by rewrite /cov_of cN IC.
split; first by rewrite cN.
by rewrite /full_rank; move: (tm_M N); rewrite kN => M x _; apply/matrixP => -[].
Qed.

Lemma likelihood_density_lem : forall svd ps,
  (forall p, List.In p ps -> proper_noise (psr_N p) /\ good_shape p /\ good_prior p) ->
  loglike svd ps = Ok (Fin (\sum_(p <- ps) (density (psr_r p) (psr_cov p) + psr_prior p))%R).
Proof.
move=> svd ps H; rewrite likelihood_value; last first.
  by move=> p /H [PN [S GP]]; have [G _ _] := plain_noise PN.
congr (Ok (Fin _)); elim: ps H => [|p ps IH] H; first by rewrite !big_nil.
rewrite !big_cons IH; last by move=> q hq; apply: H; right.
have [PN _] := H p (or_introl erefl); have [_ k0 _] := plain_noise PN.
by rewrite density_tm0 // k0 mul0r mulr0 subr0.
Qed.
Lemma likelihood_marginalised_lem : forall svd ps,
  (forall p, List.In p ps -> good_noise (psr_N p) /\ good_shape p /\ good_prior p) ->
  loglike svd ps = Ok (Fin (\sum_(p <- ps)
    (density_tm (psr_r p) (psr_cov p) (tm_M (psr_N p))
     - 2%:R^-1 * ((tm_k (psr_N p))%:R * ln (pow 10 40)) + psr_prior p))%R).
Proof. by move=> svd ps H; apply: likelihood_value => p /H [G [S GP]]. Qed.

(** Pulsars without a basis. *)
Lemma likelihood_no_basis_lem : forall svd ps1 p ps2, psr_hasT p = false ->
  (forall q, List.In q (ps1 ++ p :: ps2) -> proper_noise (psr_N q) /\ good_shape q /\ good_prior q) ->
  exists a, loglike svd (ps1 ++ ps2) = Ok (Fin a) /\
    loglike svd (ps1 ++ p :: ps2) =
      Ok (Fin (a + (density (psr_r p) (cov_of (psr_N p)) + psr_prior p))%R).
Proof.
move=> svd ps1 p ps2 h H.
have H' q : List.In q (ps1 ++ ps2) -> proper_noise (psr_N q) /\ good_shape q /\ good_prior q.
  move=> hq; apply: H; apply: List.in_or_app; case: (List.in_app_or _ _ _ hq); [left|right; right] => //.
eexists; split; first exact: likelihood_density_lem.
rewrite likelihood_density_lem // !big_cat big_cons /=; congr (Ok (Fin _)).
have -> : psr_cov p = cov_of (psr_N p) by rewrite /psr_cov h.
by rewrite addrCA addrC.
Qed.
Lemma correlated_no_basis_lem : forall ps p, List.In p ps -> psr_hasT p = false ->
  forall (phiinv : 'M[R]_(tot_k ps)) ld, exists e, loglike_correlated phiinv ld = Err e.
Proof.
move=> ps p hp h phiinv ld; rewrite /loglike_correlated.
case E: (pieces ps) => [[[TNrs TNTs] b]|e] /=; last by exists e.
have ET : mapR psr_TNT ps = Ok TNTs.
  move: E; rewrite /pieces; case: (mapR psr_TNr ps) => //= x.
  by case: (mapR psr_TNT ps) => //= y; case: (mapR psr_rNr ps) => //= z [_ <-].
case B: (block_TNT ps TNTs) => [M|e] /=; last by exists e.
exfalso; clear -hp h ET B; elim: ps TNTs M hp ET B => //= q ps IH Os M hp.
case hq: (psr_TNT q) => [o|] //=; case hm: (mapR psr_TNT ps) => [os|] //= -[<-] /=.
case: hp => [eq|hp]; first by have {}hq : psr_TNT p = Ok o by [rewrite -eq]; move: hq; rewrite /psr_TNT h => -[<-].
case: o hq => // o hq; case: (out_mx _ _) => //= A; case hb: (block_TNT ps os) => [B|] //= _.
exact: IH hp hm hb.
Qed.

(** Failed factorisations. *)
Lemma likelihood_neginf_lem : forall svd ps,
  (forall p, List.In p ps -> good_noise (psr_N p) /\ good_shape p /\ sym (phi_mx (psr_phi p))) ->
  ((forall p, List.In p ps -> psr_hasT p -> posdef (psr_Sigma svd p)) ->
     exists x, loglike svd ps = Ok (Fin x)) /\
  ((exists p, List.In p ps /\ psr_hasT p /\ ~ posdef (psr_Sigma svd p)) -> loglike svd ps = Ok NegInf).
Proof.
move=> svd ps H; rewrite /loglike pieces_ok /=; last by move=> p /H [? []].
split=> [A|[p [hp [h np]]]].
  rewrite (@loop_ok svd _ _ (fun p => odflt 0 (psr_term svd p))); first by eexists.
  move=> p hp; rewrite /psr_term; case h: (psr_hasT p) => //.
  by have [U ->] := posdef_chol (A p hp h).
apply: (@loop_neg _ _ _ p) => //; rewrite /psr_term h chol_none //.
have [[PN FR] [_ sphi]] := H p hp; have pC : posdef (cov_of (psr_N p)) by exact: good_posdef.
rewrite /sym linearD /= (kinv_sym svd sphi) /psr_TPT !trmx_mul trmxK.
by rewrite (proj_inv_sym _ (proj1 pC)) mulmxA.
Qed.

Lemma correlated_density_lem : forall ps (Phi : 'M[R]_(tot_k ps)),
  (forall p, List.In p ps -> proper_noise (psr_N p) /\ good_shape p /\ psr_hasT p) -> posdef Phi ->
  loglike_correlated (invmx Phi) (ln (\det Phi)) =
    Ok (Fin (density (all_r ps) (all_C ps + all_T ps *m Phi *m (all_T ps)^T) + \sum_(p <- ps) psr_prior p)%R).
Proof.
move=> ps Phi H pPhi; rewrite correlated_value //; last first.
  by move=> p /H [PN [S h]]; have [G _ _] := plain_noise PN.
have t0 : tot (fun p => tm_k (psr_N p)) ps = 0%N.
  elim: ps H {Phi pPhi} => //= p ps IH H; have [PN _] := H p (or_introl erefl).
  have [_ -> _] := plain_noise PN; rewrite add0n; apply: IH => q hq; apply: H; by right.
have s0 : (\sum_(p <- ps) tm_k (psr_N p) = 0)%N by rewrite -[RHS]t0 /tot unlock.
by rewrite density_tm0 // s0 mul0r mulr0 subr0.
Qed.
Lemma correlated_marginalised_lem : forall ps (Phi : 'M[R]_(tot_k ps)),
  (forall p, List.In p ps -> good_noise (psr_N p) /\ good_shape p /\ psr_hasT p) -> posdef Phi ->
  loglike_correlated (invmx Phi) (ln (\det Phi)) =
    Ok (Fin (density_tm (all_r ps) (all_C ps + all_T ps *m Phi *m (all_T ps)^T) (all_M ps)
             - 2%:R^-1 * ((\sum_(p <- ps) tm_k (psr_N p))%:R * ln (pow 10 40)) + \sum_(p <- ps) psr_prior p)%R).
Proof. by move=> ps Phi H pPhi; apply: correlated_value => // p /H [G [S h]]. Qed.
Lemma correlated_neginf_lem : forall ps (phiinv : 'M[R]_(tot_k ps)) ld,
  (forall p, List.In p ps -> good_noise (psr_N p) /\ good_shape p /\ psr_hasT p) -> sym phiinv ->
  let Sigma := (all_T ps)^T *m proj_inv (all_C ps) (all_M ps) *m all_T ps + phiinv in
  (posdef Sigma -> exists x, loglike_correlated phiinv ld = Ok (Fin x)) /\
  (~ posdef Sigma -> loglike_correlated phiinv ld = Ok NegInf).
Proof.
move=> ps phiinv ld H sphi Sigma.
have HC p : List.In p ps -> posdef (cov_of (psr_N p)) /\ full_rank (tm_M (psr_N p)).
  by case/H => G _; split; [exact: good_posdef|exact: (proj2 G)].
have E : bdiag psr_TPT ps + phiinv = Sigma.
  by rewrite /Sigma /all_C /all_M bdiag_proj // /all_T bdiag_tr !bdiag_mul.
have sC : sym (all_C ps) by rewrite /sym /all_C bdiag_tr; apply: eq_bdiag => p /HC [[]].
have sS : sym Sigma.
  by rewrite /sym /Sigma linearD /= sphi !trmx_mul trmxK (proj_inv_sym _ sC) mulmxA.
rewrite correlated_gen; last by move=> p /H [G [S h]].
rewrite E; split=> [pS|np]; last by rewrite chol_none.
by have [U ->] := posdef_chol pS; eexists.
Qed.

(** A basis of one column with the block-matrix noise. *)
Lemma term_scalar a b (pl : phi_t 1 * R) : posdef (const_mx a + phi_mx pl.1) -> term (OS b) (OS a) pl = Err IndexError.
Proof. by move=> pS; rewrite /term /out_mx /out_vec; cbn [rbind]; have [U ->] := posdef_chol pS. Qed.
Lemma block_one_column_lem : forall svd n bs v r (T : 'M[R]_(n, 1)) phi prior,
  proper_noise (NBlk bs (NVec v)) -> posdef (phi_mx phi) ->
  loglike svd [:: Pulsar (NBlk bs (NVec v)) r true T phi prior] = Err IndexError.
Proof.
move=> svd n bs v r T phi prior PN pPhi; have [G _ IC] := plain_noise PN.
have pC := good_posdef G; have C_E : cov_of (NBlk bs (NVec v)) = bcov v bs by rewrite bcovE.
rewrite C_E in pC; have [n0 [v0 [D [sB P]]]] := PN.
have ok : blkok v bs by split.
have V := posvec_neq0 n0 v0.
have ret1 (X : 'M[R]_1) : blk_ret X = Ok (OS (X ord0 ord0)) by rewrite /blk_ret rows11.
rewrite /loglike /pieces /=.
have -> : psr_TNr (Pulsar (NBlk bs (NVec v)) r true T phi prior) =
   Ok (Some (OS ((T^T *m invmx (bcov v bs) *m r) ord0 ord0))).
  by rewrite /psr_TNr /= V blk_ZNX_ok //= ret1.
rewrite /= /psr_TNT [solve _ _ _ _]/= V blk_ZNX_ok //= ret1 /=.
rewrite /psr_rNr [solve _ _ _ _]/= V blk_ZNX_ok //= ret1 /= blk_logdet_ok //=.
have EX : const_mx ((T^T *m invmx (bcov v bs) *m T) ord0 ord0) = T^T *m invmx (bcov v bs) *m T.
  by apply/matrixP => i j; rewrite [i]ord1 [j]ord1 [LHS]mxE.
have pS : posdef (T^T *m invmx (bcov v bs) *m T + invmx (phi_mx phi)).
  rewrite addrC; apply: posdefD; first exact: posdef_inv.
    by rewrite /sym !trmx_mul trmxK (sym_inv (proj1 pC)) mulmxA.
  by move=> x; rewrite quad_congr; apply: posdef_ge0; exact: posdef_inv.
rewrite (@term_scalar _ _ (kinv svd phi)) //.
by rewrite (proj1 (kinv_posdef_lem svd pPhi)) EX.
Qed.

(** * Marginalising against an explicit wide prior *)
Lemma explicit_cov n k m (C : 'M[R]_n) (T : 'M[R]_(n, k)) (M : 'M[R]_(n, m)) (Phi : 'M[R]_k) (lam : R) :
  C + row_mx M T *m block_mx lam%:M 0 0 Phi *m (row_mx M T)^T = (C + T *m Phi *m T^T) + M *m lam%:M *m M^T.
Proof.
rewrite mul_row_block !mulmx0 addr0 add0r tr_row_mx mul_row_col -addrA; congr (_ + _).
by rewrite addrC.
Qed.
(** The size of the least-squares timing solution plus the trace of its covariance. *)
Definition tm_size n m (r : 'cV[R]_n) (C : 'M[R]_n) (M : 'M[R]_(n, m)) : R :=
  (sqnorm (invmx (M^T *m invmx C *m M) *m M^T *m invmx C *m r) + \tr (invmx (M^T *m invmx C *m M)))%R.
Lemma wide_density n m (r : 'cV[R]_n) (C : 'M[R]_n) (M : 'M[R]_(n, m)) lam : posdef C -> full_rank M -> 0 < lam ->
  0 <= density_tm r C M - density r (C + M *m lam%:M *m M^T) - 2%:R^-1 * (m%:R * ln lam)
    <= (2%:R * lam)^-1 * tm_size r C M.
Proof.
move=> pC FR l0; set S := M^T *m invmx C *m M; have m0 : 0 < lam^-1 by rewrite invr_gt0.
have := wide_quad pC FR m0 r; have := wide_det pC FR m0.
rewrite invrK lnV // /tm_size /density_tm /density -/S invfM.
set Cw := C + _ *m _ *m _.
move: (quad (invmx Cw) r) (quad (proj_inv C M) _) (ln (\det Cw)) (ln (\det C)) (ln (\det S)) (sqnorm _) (\tr _) => a b c d e g h.
have -> : - 2%:R^-1 * (b + d + e) - - 2%:R^-1 * (a + c) - 2%:R^-1 * (m%:R * ln lam) =
  2%:R^-1 * ((a - b) + (c - (d + e - m%:R * - ln lam))) by ring_R.
move=> /andP [c0 c1] /andP [a0 a1]; have h0 : (0 : R) <= 2%:R^-1 by rewrite invr_ge0 ler0n.
apply/andP; split; first by apply: mulr_ge0 => //; apply: addr_ge0.
have -> : 2%:R^-1 / lam * (g + h) = 2%:R^-1 * (lam^-1 * g + lam^-1 * h) by ring_R.
by apply: ler_wpmul2l => //; apply: ler_add.
Qed.

Lemma single_value svd p : good p -> good_prior p ->
  loglike svd [:: p] = Ok (Fin (density_tm (psr_r p) (psr_cov p) (tm_M (psr_N p))
    - 2%:R^-1 * ((tm_k (psr_N p))%:R * ln (pow 10 40)) + psr_prior p)%R).
Proof. by move=> g gp; rewrite likelihood_value ?big_seq1 // => q [<-|[]]. Qed.
Lemma single_plain svd p : proper_noise (psr_N p) -> good_shape p -> good_prior p ->
  loglike svd [:: p] = Ok (Fin (density (psr_r p) (psr_cov p) + psr_prior p)%R).
Proof. by move=> g gs gp; rewrite likelihood_density_lem ?big_seq1 // => q [<-|[]]. Qed.

Lemma block_posdef m k (A : 'M[R]_m) (B : 'M[R]_k) : posdef A -> posdef B -> posdef (block_mx A 0 0 B).
Proof.
move=> pA pB; split; first by rewrite /sym tr_block_mx !trmx0 (proj1 pA) (proj1 pB).
move=> x; rewrite -[x]vsubmxK; set y := usubmx x; set z := dsubmx x => x0.
have -> : quad (block_mx A 0 0 B) (col_mx y z) = quad A y + quad B z.
  by rewrite /quad tr_col_mx mul_row_block !mulmx0 add0r addr0 mul_row_col [LHS]mxE.
case: (eqVneq y 0) => [y0|y0].
  have z0 : z != 0 by apply: contraNneq x0 => ->; rewrite y0 col_mx0.
  by apply: ltr_paddl; [exact: posdef_ge0|exact: (proj2 pB)].
by apply: ltr_paddr; [exact: posdef_ge0|exact: (proj2 pA)].
Qed.
Lemma scalar_posdef m (lam : R) : 0 < lam -> posdef (lam%:M : 'M[R]_m).
Proof.
move=> l0; split; first exact: scalar_sym.
by move=> x x0; rewrite quad_scalar mulr_gt0 // sqnorm_gt0.
Qed.

Lemma marginalised_explicit_gp_lem : forall svd n m k (N : nobj n) (M : 'M[R]_(n, m)) r (T : 'M[R]_(n, k)) phi phi' prior lam,
  0 < lam -> proper_noise N -> full_rank M -> (if N is NBlk _ _ then (1 < m + k)%N else True) ->
  posdef (phi_mx phi) -> phi_mx phi' = block_mx lam%:M 0 0 (phi_mx phi) ->
  exists a b,
    loglike svd [:: Pulsar (NMarg M N) r true T phi prior] = Ok (Fin a) /\
    loglike svd [:: Pulsar N r true (row_mx M T) phi' prior] = Ok (Fin b) /\
    0 <= (a + 2%:R^-1 * (m%:R * ln (pow 10 40))) - (b + 2%:R^-1 * (m%:R * ln lam))
      <= (2%:R * lam)^-1 * tm_size r (cov_of N + T *m phi_mx phi *m T^T) M.
Proof.
move=> svd n m k N M r T phi phi' prior lam l0 PN FR sh pPhi E.
have [G k0 IC] := plain_noise PN; have cE : cov_of (NMarg M N) = cov_of N by rewrite {1}/cov_of /= IC.
have pC : posdef (cov_of N) by exact: good_posdef.
eexists; eexists; split; first by apply: single_value; [split|].
split.
  apply: single_plain => //.
  by move=> _; rewrite [psr_phi _]/= E; apply: block_posdef => //; exact: scalar_posdef.
rewrite /psr_cov; cbn [psr_hasT psr_N psr_T psr_phi psr_r psr_prior tm_k tm_M psr_n]; rewrite cE E explicit_cov.
set Sg := cov_of N + _; have pS : posdef Sg by exact: gp_cov_posdef.
have := wide_density r pS FR l0.
move: (density _ _) (density_tm _ _ _) (tm_size _ _ _) => a b c.
move: (m%:R * ln (pow 10 40)) => d.
by have -> : b - 2%:R^-1 * d + prior + 2%:R^-1 * d - (a + prior + 2%:R^-1 * (m%:R * ln lam)) = b - a - 2%:R^-1 * (m%:R * ln lam) by ring_R.
Qed.
Lemma marginalised_explicit_lem : forall svd n m k (N : nobj n) (M : 'M[R]_(n, m)) r (T : 'M[R]_(n, k)) phi phi' prior lam,
  0 < lam -> proper_noise N -> full_rank M -> (if N is NBlk _ _ then (1 < m)%N else True) ->
  phi_mx phi' = lam%:M ->
  exists a b,
    loglike svd [:: Pulsar (NMarg M N) r false T phi prior] = Ok (Fin a) /\
    loglike svd [:: Pulsar N r true M phi' prior] = Ok (Fin b) /\
    0 <= (a + 2%:R^-1 * (m%:R * ln (pow 10 40))) - (b + 2%:R^-1 * (m%:R * ln lam))
      <= (2%:R * lam)^-1 * tm_size r (cov_of N) M.
Proof.
move=> svd n m k N M r T phi phi' prior lam l0 PN FR sh E.
have [G k0 IC] := plain_noise PN; have cE : cov_of (NMarg M N) = cov_of N by rewrite {1}/cov_of /= IC.
have pC : posdef (cov_of N) by exact: good_posdef.
eexists; eexists; split; first by apply: single_value; [split|].
split.
  apply: single_plain => //.
  by move=> _; rewrite [psr_phi _]/= E; exact: scalar_posdef.
rewrite /psr_cov; cbn [psr_hasT psr_N psr_T psr_phi psr_r psr_prior tm_k tm_M psr_n]; rewrite cE E.
have := wide_density r pC FR l0.
move: (density _ _) (density_tm _ _ _) (tm_size _ _ _) => a b c.
move: (m%:R * ln (pow 10 40)) => d.
by have -> : b - 2%:R^-1 * d + prior + 2%:R^-1 * d - (a + prior + 2%:R^-1 * (m%:R * ln lam)) = b - a - 2%:R^-1 * (m%:R * ln lam) by ring_R.
Qed.

(** The two agree in the limit of a wide prior. *)
Lemma marginalised_limit_lem : forall svd n m k (N : nobj n) (M : 'M[R]_(n, m)) r (T : 'M[R]_(n, k)) phi prior eps,
  0 < eps -> proper_noise N -> full_rank M -> (if N is NBlk _ _ then (1 < m + k)%N else True) -> posdef (phi_mx phi) ->
  exists a lam0, 0 < lam0 /\
    loglike svd [:: Pulsar (NMarg M N) r true T phi prior] = Ok (Fin a) /\
    forall lam, lam0 <= lam -> exists b,
      loglike svd [:: Pulsar N r true (row_mx M T) (PhiM (block_mx lam%:M 0 0 (phi_mx phi))) prior] = Ok (Fin b) /\
      `|(a + 2%:R^-1 * (m%:R * ln (pow 10 40))) - (b + 2%:R^-1 * (m%:R * ln lam))| <= eps.
Proof.
move=> svd n m k N M r T phi prior eps e0 PN FR sh pPhi.
set C := cov_of N + T *m phi_mx phi *m T^T.
have [G _ _] := plain_noise PN; have pC : posdef (cov_of N) by exact: good_posdef.
have pS : posdef C by exact: gp_cov_posdef.
set B := tm_size r C M.
have B0 : 0 <= B.
  rewrite /B /tm_size addr_ge0 ?sqnorm_ge0 // /mxtrace sumr_ge0 // => i _.
  by apply/ltW/posdef_entry; apply: posdef_inv; exact: S0_posdef.
pose lam0 : R := (B + 1) / eps.
have l0 : 0 < lam0 by rewrite divr_gt0 // ltr_paddl // ltr01.
have [a [b0 [Ea [_ _]]]] := @marginalised_explicit_gp_lem svd n m k N M r T phi
  (PhiM (block_mx lam0%:M 0 0 (phi_mx phi))) prior lam0 l0 PN FR sh pPhi erefl.
exists a, lam0; split=> //; split=> // lam ll.
have l1 : 0 < lam by exact: lt_le_trans ll.
have [a' [b [Ea' [Eb /andP [b1 b2]]]]] := @marginalised_explicit_gp_lem svd n m k N M r T phi
  (PhiM (block_mx lam%:M 0 0 (phi_mx phi))) prior lam l1 PN FR sh pPhi erefl.
have ea : a' = a by move: Ea'; rewrite Ea => -[].
rewrite ea in b1 b2.
exists b; split=> //; rewrite ger0_norm //; apply: le_trans b2 _; rewrite -/C -/B.
rewrite mulrC ler_pdivr_mulr; last by rewrite mulr_gt0 // ltr0n.
move: ll; rewrite /lam0 ler_pdivr_mulr // => ll.
have h : lam * eps <= eps * (2%:R * lam).
  by rewrite mulrC ler_pmul2l // ler_pemull ?(ltW l1) // ler1n.
by apply: le_trans h; apply: le_trans ll; rewrite ler_addl ler01.
Qed.

(** * KernelMatrix.inv on a matrix that is not positive definite *)
(** What [np.linalg.svd] returns: orthogonal factors and non-negative values. *)
Definition svd_spec (svd : forall k, 'M[R]_k -> 'M[R]_k * 'cV[R]_k) k (A : 'M[R]_k) : Prop :=
  exists vh : 'M[R]_k, A = (svd _ A).1 *m diag_mx ((svd _ A).2)^T *m vh /\
    (svd _ A).1^T *m (svd _ A).1 = 1%:M /\ vh *m vh^T = 1%:M /\ (forall i, 0 <= (svd _ A).2 i ord0).

Lemma kinv_fallback_lem : forall svd k (A : 'M[R]_k), sym A -> A \in unitmx -> ~ posdef A -> svd_spec svd A ->
  exists B, (kinv svd (PhiM A)).1 = PhiM B /\ posdef B /\ B *m B = invmx A *m invmx A /\
    B <> invmx A /\ (kinv svd (PhiM A)).2 = - ln (\det B).
Proof.
move=> svd k A sA uA np [vh [EA [uu [vv s0]]]]; rewrite /= (chol_none sA np) /=.
set u := (svd _ A).1 in EA uu *; set s := (svd _ A).2 in EA s0 *.
have uu' : u *m u^T = 1%:M by exact: mulmx1C.
have us : diag_mx s^T \in unitmx.
  move: uA; rewrite EA !unitmxE !det_mulmx !unitfE => /negP h; apply/negP => /eqP E.
  by apply: h; rewrite E mulr0 mul0r.
have sp i : 0 < s i ord0.
  rewrite lt_neqAle s0 andbT eq_sym; apply/eqP => si.
  by move: us; rewrite unitmxE det_diag (bigD1 i) //= mxE si mul0r unitr0.
pose t : 'cV[R]_k := \col_i (s i ord0)^-1.
have tp i : 0 < t i ord0 by rewrite mxE invr_gt0.
have -> : \matrix_(i, j) (u i j / s j ord0) = u *m diag t.
  by apply/matrixP => i j; rewrite /diag mul_mx_diag !mxE.
have st : diag s *m diag t = 1%:M.
  apply/matrixP => i j; rewrite /diag mul_diag_mx !mxE; case: eqP => [->|_]; last by rewrite mulr0.
  by rewrite mulr1n divff // gt_eqF.
have ts : diag t *m diag s = 1%:M by exact: mulmx1C.
have pB : posdef (u *m diag t *m u^T).
  rewrite -{1}[u]trmxK; apply: posdef_congr; first exact: diag_posdef.
  by move=> x ux; rewrite -[x]mul1mx -uu' -mulmxA ux mulmx0.
have vv' : vh^T *m vh = 1%:M by exact: mulmx1C.
have AA : A *m A = u *m diag s *m diag s *m u^T.
  rewrite -{2}sA {1 2}EA !trmx_mul [(diag_mx _)^T]tr_diag_mx -!mulmxA (mulmxA vh) vv mul1mx.
  by [].
have BB : (u *m diag t *m u^T) *m (u *m diag t *m u^T) *m (A *m A) = 1%:M.
  rewrite AA -!mulmxA (mulmxA u^T) uu mul1mx (mulmxA u^T) uu mul1mx.
  by rewrite (mulmxA (diag t) (diag s)) ts mul1mx (mulmxA (diag t) (diag s)) ts mul1mx.
exists (u *m diag t *m u^T); split=> //; split=> //; split.
  have I : A *m A *m (invmx A *m invmx A) = 1%:M by rewrite mulmxA mulmxK // mulmxV.
  by rewrite -[LHS]mulmx1 -I mulmxA BB mul1mx.
split.
  move=> E; apply: np; rewrite -[A]invmxK -E; exact: posdef_inv.
have dB : \det (u *m diag t *m u^T) = \det (diag t).
  rewrite !det_mulmx mulrAC; have := congr1 (fun X => \det X) uu'; rewrite det_mulmx det1 => ->.
  by rewrite mul1r.
rewrite dB -(vec_logdetE tp) /vec_logdet -sumrN; apply: eq_bigr => i _.
by rewrite mxE lnV ?opprK.
Qed.

(** * Examples *)
Definition ex_T : 'M[R]_(3, 2) := \matrix_(i, j) (i.+1 * j.+1)%:R.
Definition ex_phi : phi_t 2 := PhiD (\col_i (i.+1)%:R).
Definition ex_r : 'cV[R]_3 := \col_i (i + 1)%:R.
Lemma ex_phi_posdef : posdef (phi_mx ex_phi).
Proof. by apply: diag_posdef => i; rewrite mxE ltr0n. Qed.
Definition ex_psr : pulsar := Pulsar (NSM ex_bs (NVec ex_v)) ex_r true ex_T ex_phi 0.
Definition ex_psr_white : pulsar := Pulsar (NVec ex_v) ex_r false ex_T ex_phi 0.
Definition ex_psr_tm : pulsar := Pulsar (NMarg ex_M (NSM ex_bs (NVec ex_v))) ex_r true ex_T ex_phi 0.

Lemma ex_T_rank : full_rank ex_M. Proof. exact: ex_full_rank. Qed.
Lemma ex_psrs_proper : forall p, List.In p [:: ex_psr; ex_psr_white; ex_psr] ->
  proper_noise (psr_N p) /\ good_shape p /\ good_prior p.
Proof.
have E : proper_noise (psr_N ex_psr) /\ good_shape ex_psr /\ good_prior ex_psr.
  by split; [exact: ex_proper|split=> // _; exact: ex_phi_posdef].
by move=> p [<-|[<-|[<-|[]]]] //; split; first exact: ex_v_pos.
Qed.
Lemma ex_psrs_good : forall p, List.In p [:: ex_psr_tm; ex_psr_white; ex_psr] ->
  good_noise (psr_N p) /\ good_shape p /\ good_prior p.
Proof.
have [pp [ps pr]] := ex_psrs_proper (or_introl erefl).
have [wp [ws wr]] := ex_psrs_proper (or_intror (or_introl erefl)).
move=> p [<-|[<-|[<-|[]]]].
- by split; [split; [exact: ex_proper|exact: ex_full_rank]|split=> // _; exact: ex_phi_posdef].
- by have [G _ _] := plain_noise wp.
- by have [G _ _] := plain_noise pp.
Qed.
Lemma ex_corr : (forall p, List.In p [:: ex_psr; ex_psr] -> proper_noise (psr_N p) /\ good_shape p /\ psr_hasT p) /\
  posdef (1%:M + const_mx 1 : 'M[R]_(tot_k [:: ex_psr; ex_psr])).
Proof.
split.
  have [pp [ps pr]] := ex_psrs_proper (or_introl erefl).
  by move=> p [<-|[<-|[]]].
apply: posdefD; first exact: posdef1.
  by apply/matrixP => i j; rewrite !mxE.
by move=> x; rewrite (ones_rank1 _ 1); apply: rank1_ge0; exact: ler01.
Qed.
Lemma ex_corr_tm : (forall p, List.In p [:: ex_psr_tm; ex_psr] -> good_noise (psr_N p) /\ good_shape p /\ psr_hasT p) /\
  posdef (1%:M + const_mx 1 : 'M[R]_(tot_k [:: ex_psr_tm; ex_psr])).
Proof.
split; last exact: (proj2 ex_corr).
have [g1 [s1 _]] := ex_psrs_good (or_introl erefl).
have [g2 [s2 _]] := ex_psrs_good (or_intror (or_intror (or_introl erefl))).
by move=> p [<-|[<-|[]]].
Qed.
Lemma ex_block_noise : proper_noise (NBlk (ecorr_blocks ex_bs) (NVec ex_v)).
Proof.
split=> //; split; first exact: ex_v_pos; split; first exact: ex_disjoint_blocks.
split; last exact: ex_block_posdef.
by move=> b /mapP [x _ ->]; rewrite /sym /=; apply/matrixP => i j; rewrite !mxE.
Qed.
(** A prior that is not positive definite and the failure it causes. *)
Definition neg_psr : pulsar :=
  @Pulsar 3 1 (NVec ex_v) ex_r true 0 (PhiD (const_mx (- 1))) 0.
Lemma ex_neg svd : (forall p, List.In p [:: ex_psr; neg_psr] -> good_noise (psr_N p) /\ good_shape p /\ sym (phi_mx (psr_phi p))) /\
  exists p, List.In p [:: ex_psr; neg_psr] /\ psr_hasT p /\ ~ posdef (psr_Sigma svd p).
Proof.
split.
  move=> p [<-|[<-|[]]].
    have [G _ _] := plain_noise ex_proper; split=> //; split=> //; exact: diag_sym.
  have [G _ _] := @plain_noise 3 (NVec ex_v) ex_v_pos; split=> //; split=> //; exact: diag_sym.
exists neg_psr; split; first by right; left.
split=> // pS; have := posdef_entry ord0 pS.
rewrite /psr_Sigma /psr_TPT /neg_psr /= trmx0 !mul0mx add0r !mxE /= mulr1n.
by rewrite invrN invr1 oppr_gt0 ltNge ler01.
Qed.
Definition ex_svd k (A : 'M[R]_k) : 'M[R]_k * 'cV[R]_k := ((- 1)%:M, const_mx 1).
Lemma ex_indefinite : let A : 'M[R]_2 := (- 1)%:M in sym A /\ A \in unitmx /\ ~ posdef A /\ svd_spec ex_svd A.
Proof.
split; first exact: tr_scalar_mx.
split; first by rewrite unitmxE det_scalar unitrX // unitrN unitr1.
split; first by move=> /(posdef_entry ord0); rewrite !mxE /= mulr1n oppr_gt0 ltNge ler01.
exists 1%:M; rewrite /=; split.
  rewrite mulmx1 (_ : diag_mx _ = 1%:M) ?mulmx1 //.
  by apply/matrixP => i j; rewrite !mxE.
split; first by rewrite tr_scalar_mx -scalar_mxM mulrNN mulr1.
by split=> [|i]; [rewrite trmx1 mulmx1|rewrite mxE ler01].
Qed.
