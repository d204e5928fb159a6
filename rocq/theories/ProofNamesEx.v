(** An array with sampled coefficients. *)
From Coq Require Import Reals String ZArith.
From mathcomp Require Import all_ssreflect all_algebra.
From Verif Require Import RStruct PyBase ProofBase ModelSelect ProofQuant ModelFunc ModelCache ModelGp ProofGp ModelColl ProofColl ProofCollEx ModelSigs ProofSigs ModelArray ModelSized ModelKinds ProofKinds ModelDefault ProofDefault ModelNames ProofNames.
Set Implicit Arguments.
Unset Strict Implicit.
Unset Printing Implicit Defensive.
Local Open Scope seq_scope.

Definition n_src : wsrc := Plain (Sampled w_prior y_basis "gp" "psr" w_psr x_masks true).
Lemma sampled_names_ex : simple_src x_fns n_src /\
  exists dss, new_warray argsort_ins x_fns [:: ([:: n_src], [::])] = Ok dss /\ forall x, List.In x (array_names x_fns dss) <-> x = "psr_gp_x"%string \/ x = "psr_gp_coefficients"%string.
Proof.
have h : simple_src x_fns n_src.
  split; [by split; [repeat constructor|constructor]|by split; [repeat constructor|repeat constructor; case]|].
  by move=> o o' q q' [<-|[<-|//]] [<-|[<-|//]] //= [<-|//] [<-|//].
split=> //; eexists; split; first reflexivity.
move=> x; rewrite (parameter_names_lem (arr := [:: ([:: n_src], [::])]) (argsort := argsort_ins)); [|by move=> c s [<-|//] [<-|//]|reflexivity].
split.
- by case=> c [s [[<-|//] [<-|//] [k [<-|//] [[k' [a [[]]]]|[k' [a [[[<- <-]|[]] ->]]]|->]]]]; [left|right].
- move=> e; exists ([:: n_src], [::]), n_src; split; [by left|by left|exists ""%string; first by left].
  by case: e => ->; [apply: Or32; eexists; eexists; split; [left|]|apply: Or33].
Qed.
