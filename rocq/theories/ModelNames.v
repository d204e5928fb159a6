(** The parameters of the signals of an array: [Signal.params] (enterprise/signals/signal_base.py
    L98-101) of the signals of ModelKinds.v, by name, pulsar by pulsar. Sorting and removing
    repetitions (L286-294, L825-827) is in ModelParams.v; the parameters of the priors, which are
    added there, are left out here. *)
From Coq Require Import Reals String.
From mathcomp Require Import all_ssreflect all_algebra.
From Verif Require Import RStruct PyBase ModelSelect ModelFunc ModelCache ModelGp ModelColl ModelSigs ModelArray ModelSized ModelKinds ModelDefault.
Set Implicit Arguments.
Unset Strict Implicit.
Unset Printing Implicit Defensive.
Local Open Scope seq_scope.

Definition nonconstant (ps : dict string (par gv)) : seq string := [seq par_name q | q <- dvals ps & ~~ is_cst q].
(** gp_signals.py L304-309: a common process has the parameters of its class and of its basis
    (no coefficients here, L313) *)
Definition plain_names (fns : nat -> fob * fob) (d : desc) : seq string :=
  match d with
  | DWhite f | DDet f _ => nonconstant (f_params f)
  | DGp g _ => nonconstant (g_params g)
  | DSampled g _ _ => nonconstant (g_params g) ++ [seq cf_name kc.2 | kc <- g_coefs g]
  | DCommon c _ cls _ => nonconstant (com_params [:: (fns cls).1; (fns cls).2; c_basis c])
  end.
(** white_signals.py L204-230; gp_signals.py L808 (none) and L568-592 *)
Definition varying_kind (x : string * pkind * mask) : bool := if x.1.2 is Varies then true else false.
Definition signal_names (fns : nat -> fob * fob) (d : wdesc) : seq string :=
  match d with
  | WPlain d => plain_names fns d
  | WEcorr e => if e_kind e is Varies then dvals (e_params e) else [::]
  | WMargin _ => [::]
  | WWideband _ w => [seq x.1.1 | x <- wd_efacs w ++ wd_equads w ++ wd_jumps w & varying_kind x]
  end.
Definition array_names (fns : nat -> fob * fob) (dss : seq (seq wdesc)) : seq string :=
  flatten [seq flatten [seq signal_names fns d | d <- ds] | ds <- dss].
