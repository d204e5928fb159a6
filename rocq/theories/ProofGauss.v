(** Proofs about normal priors with a covariance matrix. *)
From Coq Require Import Reals Lra.
From mathcomp Require Import all_ssreflect all_algebra.
From Verif Require Import RStruct PyBase ModelPrior ModelGauss ProofLinalg ProofLike.
Set Implicit Arguments.
Unset Strict Implicit.
Unset Printing Implicit Defensive.
Import GRing.Theory Num.Theory Order.TTheory.
Local Open Scope ring_scope.

Lemma twopi_gt0 : 0 < (2 * PI)%coqR :> R.
Proof. apply/RltP; have h := PI_RGT_0; change (0 < 2 * PI)%coqR; lra. Qed.
Lemma det_scaled n (A : 'M[R]_n) (a : R) : \det (a *: A) = a ^+ n * \det A.
Proof. exact: detZ. Qed.
(** The value for a matrix with positive determinant. *)
Lemma normal_mxE n (v mu : 'cV[R]_n) sigma : 0 < \det sigma ->
  NormalPriorMx v mu sigma = Ok (Some (exp (- (1 / 2) * quad (invmx sigma) (v - mu)) / sqrt ((2 * PI) ^ n * \det sigma))%coqR).
Proof.
move=> d0; have u : sigma \in unitmx by rewrite unitmxE unitfE gt_eqF.
have pd : 0 < \det ((2 * PI)%coqR *: sigma) by rewrite detZ mulr_gt0 // exprn_gt0 // twopi_gt0.
rewrite /NormalPriorMx u /=; case: ifP => [/rltbP l|_].
  by move/RltP: pd => l'; exfalso; apply: (Rlt_asym _ _ l l').
have -> : \det ((2 * PI)%coqR *: sigma) = ((2 * PI) ^ n * \det sigma)%coqR.
  by rewrite detZ; congr (_ * _); elim: (n) => [|k IH]; rewrite ?expr0 // exprS IH.
by rewrite /quad mulmxA.
Qed.
Lemma normal_mx_singular_lem : forall n (v mu : 'cV[R]_n) sigma, \det sigma = 0 -> NormalPriorMx v mu sigma = Err LinAlgError.
Proof. by move=> n v mu sigma e; rewrite /NormalPriorMx unitmxE unitfE e eqxx. Qed.

Lemma exp_sum (I : Type) (r : seq I) (F : I -> R) : exp (\sum_(i <- r) F i) = \prod_(i <- r) exp (F i).
Proof. by elim: r => [|i r IH]; rewrite ?big_nil ?exp_0 // !big_cons -IH; exact: exp_plus. Qed.
Lemma sqrt_prod (I : Type) (r : seq I) (F : I -> R) : (forall i, 0 <= F i) -> sqrt (\prod_(i <- r) F i) = \prod_(i <- r) sqrt (F i).
Proof.
move=> h; elim: r => [|i r IH]; rewrite ?big_nil ?sqrt_1 // !big_cons -IH; apply: sqrt_mult; first exact/RleP.
by apply/RleP; apply: prodr_ge0 => k _; exact: h.
Qed.
Lemma inv_diag n (d : 'rV[R]_n) : (forall i, d ord0 i != 0) -> invmx (diag_mx d) = diag_mx (map_mx (fun x => x^-1) d).
Proof.
move=> h. have e : diag_mx (map_mx (fun x => x^-1) d) *m diag_mx d = 1%:M.
  by apply/matrixP=> i j; rewrite mulmx_diag !mxE; case: eqP => [->|_]; rewrite ?mulr0n // !mulr1n mulVf ?h.
have u : diag_mx d \in unitmx by rewrite unitmxE det_diag unitfE; apply/prodf_neq0 => k _; exact: h.
by rewrite -[invmx _]mul1mx -e mulmxK.
Qed.
Lemma normal_mx_diag_lem : forall n (v mu : 'cV[R]_n) (s : 'rV[R]_n), (forall i, 0 < s ord0 i) ->
  NormalPriorMx v mu (diag_mx (\row_i s ord0 i ^+ 2)) = Ok (Some (\prod_i NormalPrior (v i ord0) (mu i ord0) (s ord0 i))).
Proof.
move=> n v mu s h; set d := \row_i _.
have dp i : 0 < d ord0 i by rewrite mxE exprn_gt0.
have dd : \det (diag_mx d) = \prod_i (s ord0 i ^+ 2) by rewrite det_diag; apply: eq_bigr => i _; rewrite mxE.
rewrite normal_mxE; last by rewrite dd prodr_gt0 // => i _; rewrite exprn_gt0.
congr (Ok (Some _)). rewrite inv_diag; last by move=> i; rewrite gt_eqF.
have -> : quad (diag_mx (map_mx (fun x => x^-1) d)) (v - mu) = \sum_i (v i ord0 - mu i ord0) ^+ 2 / s ord0 i ^+ 2.
  rewrite /quad -mulmxA mul_diag_mx mxE; apply: eq_bigr => i _; rewrite !mxE. by rewrite [_^-1 * _]mulrC mulrA expr2.
have -> : ((2 * PI) ^ n * \det (diag_mx d))%coqR = \prod_i ((2 * PI)%coqR * s ord0 i ^+ 2).
  rewrite big_split /= prodr_const card_ord dd; congr (_ * _). by elim: (n) => [|k IH]; rewrite ?expr0 // exprS -IH.
rewrite sqrt_prod; last by move=> i; rewrite mulr_ge0 ?exprn_ge0 // ltW // ?twopi_gt0.
rewrite RmultE RdivE RoppE -[(- _) * _]/((- (1 / 2)%coqR) * _) mulr_sumr exp_sum -prodf_div.
apply: eq_bigr => i _; rewrite /NormalPrior; congr (exp _ / sqrt _).
- rewrite !expr2 /= !Rmult_1_r; move: (v i ord0) (mu i ord0) (s ord0 i) => a b c; rewrite -!coqRE /Rdiv; ring_R.
- by rewrite expr2 /= Rmult_1_r.
Qed.
Lemma sqrt_sqr_abs (a b : R) : sqrt (a * a * b)%coqR = (Rabs a * sqrt b)%coqR.
Proof. by rewrite sqrt_mult_alt ?sqrt_Rsqr_abs //; exact: Rle_0_sqr. Qed.
Lemma inv_mul n (A B : 'M[R]_n) : A \in unitmx -> B \in unitmx -> invmx (A *m B) = invmx B *m invmx A.
Proof.
move=> uA uB; have u : A *m B \in unitmx by rewrite unitmx_mul uA.
by rewrite -[RHS](mulmxK u) !mulmxA mulmxKV // mulVmx // mul1mx.
Qed.
(** A change of variables. *)
Lemma normal_mx_linear_lem : forall n (A : 'M[R]_n) (v mu : 'cV[R]_n) sigma p, A \in unitmx -> 0 < \det sigma ->
  NormalPriorMx v mu sigma = Ok (Some p) ->
  NormalPriorMx (A *m v) (A *m mu) (A *m sigma *m A^T) = Ok (Some (p / `|\det A|)).
Proof.
move=> n A v mu sigma p uA ds; rewrite normal_mxE // => -[<-].
have us : sigma \in unitmx by rewrite unitmxE unitfE gt_eqF.
have uT : A^T \in unitmx by rewrite unitmx_tr.
have dA : \det A != 0 by rewrite -unitfE -unitmxE.
have de : \det (A *m sigma *m A^T) = \det A * \det A * \det sigma by rewrite !det_mulmx det_tr mulrAC.
rewrite normal_mxE; last by rewrite de mulr_gt0 // -expr2 exprn_even_gt0 //= dA orbT.
congr (Ok (Some _)). rewrite de.
have -> : ((2 * PI) ^ n * (\det A * \det A * \det sigma))%coqR = (\det A * \det A * ((2 * PI) ^ n * \det sigma))%coqR by ring_R.
rewrite sqrt_sqr_abs.
have -> : quad (invmx (A *m sigma *m A^T)) (A *m v - A *m mu) = quad (invmx sigma) (v - mu).
  rewrite -mulmxBr; set x := v - mu. rewrite !inv_mul ?unitmx_mul ?uA ?us //.
  by rewrite /quad trmx_mul !mulmxA mulmxKV // mulmxK.
rewrite !coqRE invfM mulrA mulrAC. by rewrite -[Rabs _]/(`|\det A|) mulrAC.
Qed.
Lemma normal_mx_shape_lem : forall n (mu d : 'cV[R]_n) sigma, posdef sigma ->
  NormalPriorMx (mu + d) mu sigma = NormalPriorMx (mu - d) mu sigma /\
  (d != 0 -> exists p q, NormalPriorMx (mu + d) mu sigma = Ok (Some p) /\ NormalPriorMx mu mu sigma = Ok (Some q) /\ 0 < p < q) /\
  exists p, NormalPriorMx (mu + d) mu sigma = Ok (Some p) /\
    ln p = - (1 / 2)%coqR * (quad (invmx sigma) d + ln (\det sigma) + n%:R * ln (2 * PI)%coqR).
Proof.
move=> n mu d sigma ps; have ds := posdef_det ps; have pi := posdef_inv ps.
have sq : (0 < sqrt ((2 * PI) ^ n * \det sigma))%coqR.
  apply: sqrt_lt_R0; apply: Rmult_lt_0_compat; last exact/RltP. by apply: pow_lt; apply/RltP; exact: twopi_gt0.
split; [|split].
- rewrite !normal_mxE //; have -> : mu + d - mu = d by rewrite addrAC subrr add0r.
  have -> : mu - d - mu = - d by rewrite addrAC subrr add0r. by rewrite -scaleN1r quad_scale sqrrN expr1n mul1r.
- move=> nz; rewrite !normal_mxE //; have -> : mu + d - mu = d by rewrite addrAC subrr add0r.
  do 2!eexists; split; [reflexivity|]; split; [reflexivity|]. rewrite subrr.
  have q0 : quad (invmx sigma) (0 : 'cV[R]_n) = 0 by rewrite /quad mulmx0 mxE.
  have qd : 0 < quad (invmx sigma) d by apply: (proj2 pi).
  rewrite q0; apply/andP; split; apply/RltP.
  + by apply: Rdiv_lt_0_compat => //; exact: exp_pos.
  + apply: Rmult_lt_compat_r; first exact: Rinv_0_lt_compat. apply: exp_increasing.
    have qd' : (0 < quad (invmx sigma) d)%coqR by exact/RltP. change (- (1 / 2) * quad (invmx sigma) d < - (1 / 2) * 0)%coqR. lra.
- rewrite normal_mxE //; have -> : mu + d - mu = d by rewrite addrAC subrr add0r.
  eexists; split; [reflexivity|]. rewrite /Rdiv ln_mult; [|exact: exp_pos|exact: Rinv_0_lt_compat]. rewrite ln_exp ln_Rinv //.
  have pp : (0 < (2 * PI) ^ n)%coqR by apply: pow_lt; apply/RltP; exact: twopi_gt0.
  have -> : ln (sqrt ((2 * PI) ^ n * \det sigma)) = (/ 2 * (ln (\det sigma) + n%:R * ln (2 * PI)))%coqR.
    have e : ln ((2 * PI) ^ n * \det sigma) = (2 * ln (sqrt ((2 * PI) ^ n * \det sigma)))%coqR.
      rewrite -{1}[((2 * PI) ^ n * \det sigma)%coqR]sqrt_sqrt; last by apply/RleP; rewrite ltW //; apply/RltP/Rmult_lt_0_compat => //; exact/RltP.
      by rewrite ln_mult //; ring.
    have e2 : ln ((2 * PI) ^ n * \det sigma) = (n%:R * ln (2 * PI) + ln (\det sigma))%coqR.
      rewrite ln_mult //; last exact/RltP. congr (_ + _).
      elim: (n) => [|k IH]; first by rewrite /= ln_1; symmetry; exact: Rmult_0_l.
      rewrite /= ln_mult; [|by apply/RltP; exact: twopi_gt0|by apply: pow_lt; apply/RltP; exact: twopi_gt0].
      rewrite IH mulrSr; move: (k%:R : R) => w; move: (ln (2 * PI)%coqR) => y; rewrite !coqRE; ring_R.
    have : (2 * ln (sqrt ((2 * PI) ^ n * \det sigma)) = n%:R * ln (2 * PI) + ln (\det sigma))%coqR by rewrite -e -e2.
    by move=> k; lra.
  rewrite -!coqRE. move: (quad _ _) (ln (\det sigma)) (R1 *+ n) (ln (2 * PI)%coqR) => a b c e; field_R.
Qed.
