(** The real numbers of the standard library as a mathcomp real field, so that
    mathcomp's matrices can be used over them. Nothing here models code. *)
From Coq Require Import Reals Lra Epsilon.
From mathcomp Require Import all_ssreflect all_algebra.
Set Implicit Arguments.
Unset Strict Implicit.
Unset Printing Implicit Defensive.
Delimit Scope R_scope with coqR.
Delimit Scope ring_scope with R.
Local Open Scope R_scope.

Definition eqr (x y : R) : bool := if Req_EM_T x y is left _ then true else false.
Lemma eqrP : Equality.axiom eqr.
Proof. by move=> x y; apply: (iffP idP); rewrite /eqr; case: Req_EM_T. Qed.
Definition R_eqMixin := EqMixin eqrP.
Canonical R_eqType := Eval hnf in EqType R R_eqMixin.

Definition pickR (P : pred R) (n : nat) : option R :=
  let x := epsilon (inhabits R0) (fun x => P x) in if P x then Some x else None.
Lemma pickR_some P n x : pickR P n = Some x -> P x.
Proof. by rewrite /pickR; case: (boolP (P _)) => // Px [<-]. Qed.
Lemma pickR_ex (P : pred R) : (exists x, P x) -> exists n, pickR P n.
Proof. by rewrite /pickR => /(epsilon_spec (inhabits R0) (fun x => P x)) ->; exists 0%N. Qed.
Lemma pickR_ext (P Q : pred R) : P =1 Q -> pickR P =1 pickR Q.
Proof.
move=> PEQ n; rewrite /pickR; set u := epsilon _ _; set v := epsilon _ _.
suff -> : u = v by rewrite PEQ.
rewrite /u /v; congr epsilon.
apply: FunctionalExtensionality.functional_extensionality => x; by rewrite PEQ.
Qed.
Definition R_choiceMixin : choiceMixin R := Choice.Mixin pickR_some pickR_ex pickR_ext.
Canonical R_choiceType := Eval hnf in ChoiceType R R_choiceMixin.

Lemma RplusA : associative Rplus. Proof. by move=> *; rewrite Rplus_assoc. Qed.
Definition R_zmodMixin := ZmodMixin RplusA Rplus_comm Rplus_0_l Rplus_opp_l.
Canonical R_zmodType := Eval hnf in ZmodType R R_zmodMixin.

Lemma RmultA : associative Rmult. Proof. by move=> *; rewrite Rmult_assoc. Qed.
Lemma R1_neq_0 : R1 != R0. Proof. by apply/eqP/R1_neq_R0. Qed.
Definition R_ringMixin := RingMixin RmultA Rmult_1_l Rmult_1_r Rmult_plus_distr_r Rmult_plus_distr_l R1_neq_0.
Canonical R_ringType := Eval hnf in RingType R R_ringMixin.
Canonical R_comRingType := Eval hnf in ComRingType R Rmult_comm.

Definition unit_R (r : R) := r != R0.
Lemma RmultRinv : {in unit_R, left_inverse R1 Rinv Rmult}.
Proof. by move=> x /eqP /Rinv_l. Qed.
Lemma RinvRmult : {in unit_R, right_inverse R1 Rinv Rmult}.
Proof. by move=> x /eqP /Rinv_r. Qed.
Lemma intro_unit_R x y : y * x = 1 /\ x * y = 1 -> unit_R x.
Proof. move=> [yx _]; apply/eqP => x0; move: yx; rewrite x0 Rmult_0_r => E; lra. Qed.
Lemma Rinv_out : {in predC unit_R, Rinv =1 id}.
Proof. by move=> x /negPn /eqP ->; rewrite Rinv_0. Qed.
Definition R_unitRingMixin := UnitRingMixin RmultRinv RinvRmult intro_unit_R Rinv_out.
Canonical R_unitRingType := Eval hnf in UnitRingType R R_unitRingMixin.
Canonical R_comUnitRingType := Eval hnf in [comUnitRingType of R].
Lemma R_idomainMixin (x y : R) : x * y = 0 -> (x == R0) || (y == R0).
Proof. by move=> /Rmult_integral [->|->]; rewrite eqxx ?orbT. Qed.
Canonical R_idomainType := Eval hnf in IdomainType R R_idomainMixin.
Lemma R_fieldMixin : GRing.Field.mixin_of R_unitRingType. Proof. by []. Qed.
Canonical R_fieldType := Eval hnf in FieldType R R_fieldMixin.

Definition rleb (x y : R) : bool := if Rle_dec x y is left _ then true else false.
Definition rltb (x y : R) : bool := if Rlt_dec x y is left _ then true else false.
Lemma rlebP x y : reflect (x <= y) (rleb x y).
Proof. by rewrite /rleb; apply: (iffP idP); case: Rle_dec. Qed.
Lemma rltbP x y : reflect (x < y) (rltb x y).
Proof. by rewrite /rltb; apply: (iffP idP); case: Rlt_dec. Qed.
Lemma rleb_norm_add x y : rleb (Rabs (x + y)) (Rabs x + Rabs y).
Proof. by apply/rlebP/Rabs_triang. Qed.
Lemma addr_rgtb0 x y : rltb 0 x -> rltb 0 y -> rltb 0 (x + y).
Proof. by move=> /rltbP hx /rltbP hy; apply/rltbP; lra. Qed.
Lemma rnorm0_eq0 x : Rabs x = 0 -> x = 0.
Proof. by move=> H; case: (Req_EM_T x 0) => // /Rabs_no_R0. Qed.
Lemma rleb_leVge x y : rleb 0 x -> rleb 0 y -> rleb x y || rleb y x.
Proof. by move=> _ _; apply/orP; case: (Rle_dec x y) => H; [left|right]; apply/rlebP; lra. Qed.
Lemma rnormM : {morph Rabs : x y / x * y}.
Proof. exact: Rabs_mult. Qed.
Lemma rleb_def x y : rleb x y = (Rabs (y - x) == y - x).
Proof.
apply/idP/eqP => [/rlebP H|E]; first by rewrite Rabs_pos_eq //; lra.
by apply/rlebP; have := Rabs_pos (y - x); lra.
Qed.
Lemma rltb_def x y : rltb x y = (y != x) && rleb x y.
Proof.
apply/idP/andP => [/rltbP H|[/eqP H /rlebP H2]].
- by split; [apply/eqP; lra|apply/rlebP; lra].
- by apply/rltbP; lra.
Qed.
Definition R_numMixin := NumMixin rleb_norm_add addr_rgtb0 rnorm0_eq0 rleb_leVge rnormM rleb_def rltb_def.
Canonical R_porderType := POrderType ring_display R R_numMixin.
Canonical R_numDomainType := NumDomainType R R_numMixin.
Canonical R_normedZmodType := NormedZmodType R R R_numMixin.
Lemma R_total : totalPOrderMixin R_porderType.
Proof. by move=> x y; apply/orP; case: (Rle_dec x y) => H; [left|right]; apply/rlebP; lra. Qed.
Canonical R_latticeType := LatticeType R R_total.
Canonical R_distrLatticeType := DistrLatticeType R R_total.
Canonical R_orderType := OrderType R R_total.
Canonical R_numFieldType := [numFieldType of R].
Canonical R_realDomainType := [realDomainType of R].
Canonical R_realFieldType := [realFieldType of R].

(** Both views of the operations. *)
Lemma RleP x y : reflect (Rle x y) (x <= y)%R. Proof. exact: rlebP. Qed.
Lemma RltP x y : reflect (Rlt x y) (x < y)%R. Proof. exact: rltbP. Qed.
Lemma RplusE x y : Rplus x y = (x + y)%R. Proof. by []. Qed.
Lemma RminusE x y : Rminus x y = (x - y)%R. Proof. by []. Qed.
Lemma RoppE x : Ropp x = (- x)%R. Proof. by []. Qed.
Lemma RmultE x y : Rmult x y = (x * y)%R. Proof. by []. Qed.
Lemma RinvE x : Rinv x = (x^-1)%R. Proof. by []. Qed.
Lemma RdivE x y : Rdiv x y = (x / y)%R. Proof. by []. Qed.
Lemma R0E : R0 = 0%R. Proof. by []. Qed.
Lemma R1E : R1 = 1%R. Proof. by []. Qed.
Definition coqRE := (RplusE, RminusE, RoppE, RmultE, RinvE, RdivE, R0E, R1E).

(** [ring], [field] and [lra] on goals in mathcomp notations. *)
Ltac reifyR e :=
  lazymatch e with
  | @GRing.add _ ?a ?b => let a := reifyR a in let b := reifyR b in constr:(Rplus a b)
  | @GRing.mul _ ?a ?b => let a := reifyR a in let b := reifyR b in constr:(Rmult a b)
  | @GRing.opp _ ?a => let a := reifyR a in constr:(Ropp a)
  | @GRing.inv _ ?a => let a := reifyR a in constr:(Rinv a)
  | @GRing.one _ => constr:(R1)
  | @GRing.zero _ => constr:(R0)
  | @GRing.exp _ ?a 2 => let a := reifyR a in constr:(Rmult a a)
  | @GRing.natmul _ ?a 2 => let a := reifyR a in constr:(Rplus a a)
  | _ => constr:((e : R))
  end.
Ltac eqR := lazymatch goal with |- @eq _ ?a ?b =>
  let a := reifyR a in let b := reifyR b in change (@eq R a b) end.
Ltac ring_R := eqR; ring.
Ltac field_R := eqR; field.
