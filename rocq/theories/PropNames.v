From Coq Require Import Reals String ZArith.
From mathcomp Require Import all_ssreflect all_algebra.
From Verif Require Import RStruct PyBase ModelSelect ProofQuant ModelFunc ModelGp ProofGp ModelColl ProofCollEx ModelSigs ModelArray ModelSized ModelKinds ProofKinds ModelStandard ProofStandard ProofStandardEx ModelDefault ProofDefaultEx ModelNames ProofNames ProofNamesStd ProofNamesEx.
Set Implicit Arguments.
Unset Strict Implicit.
Unset Printing Implicit Defensive.
Local Open Scope seq_scope.

(** C125: the parameters of an array are exactly those its description asks for, under the
    names made of pulsar, signal, label of the selection, function and keyword, or their own
    if they were made before; constants, numbers and the DM jump of the reference are none
    ([src_named]). Sampled coefficients are parameters next to the hyperparameters. Functions do
    not take functions, and no name is both that of a constant and of a parameter of the same
    signal ([simple_src]). *)
Theorem parameter_names : forall argsort fns (arr : seq (seq wsrc * seq R)) dss, (forall c s, List.In c arr -> List.In s c.1 -> simple_src fns s) ->
  new_warray argsort fns arr = Ok dss ->
  forall x, List.In x (array_names fns dss) <-> exists c s, [/\ List.In c arr, List.In s c.1 & src_named fns s x].
Proof. exact parameter_names_lem. Qed.
Print Assumptions parameter_names.
Example parameter_names_example : forall c o S (seeded : Z -> S) next,
  (forall x s, List.In x (std_array seeded next (e_m c o) 4%coqR [:: s_A; s_B]) -> List.In s x.1 -> simple_src (std_fns (e_m c o)) s) /\
  (exists dss, new_warray argsort_ins (std_fns (e_m c o)) (std_array seeded next (e_m c o) 4%coqR [:: s_A; s_B]) = Ok dss).
Proof. exact (fun c o S seeded next => conj (proj1 (proj2 (standard_names_ex c o seeded next))) (proj1 (proj2 (proj2 (standard_names_ex c o seeded next))))). Qed.
(** Sampled coefficients on a basis with a parameter *)
Example parameter_names_sampled : simple_src x_fns n_src /\
  exists dss, new_warray argsort_ins x_fns [:: ([:: n_src], [::])] = Ok dss /\ forall x, List.In x (array_names x_fns dss) <-> x = "psr_gp_x"%string \/ x = "psr_gp_coefficients"%string.
Proof. exact sampled_names_ex. Qed.

(** C125: those of the standard model of C120: EFAC, EQUAD, TNEQUAD and ECORR of each backend
    of each pulsar, the keywords of the spectrum of each process for each of its selections,
    and those of the common process, once for all pulsars ([std_named]). *)
Theorem standard_names : forall (S : Type) (seeded : Z -> S) (next : S -> R * S) argsort (m : standard) span ps dss, simple_class (spectrum (m_gwshape m)) ->
  (forall c s, List.In c (std_array seeded next m span ps) -> List.In s c.1 -> simple_src (std_fns m) s) ->
  new_warray argsort (std_fns m) (std_array seeded next m span ps) = Ok dss ->
  forall x, List.In x (array_names (std_fns m) dss) <-> exists2 d, List.In d ps & std_named m d x.
Proof. exact standard_names_lem. Qed.
Print Assumptions standard_names.
(** Only red noise has parameters that are not constants *)
Example standard_names_example : forall c o S (seeded : Z -> S) next, simple_class (spectrum (m_gwshape (e_m c o))) /\
  (forall x s, List.In x (std_array seeded next (e_m c o) 4%coqR [:: s_A; s_B]) -> List.In s x.1 -> simple_src (std_fns (e_m c o)) s) /\
  (exists dss, new_warray argsort_ins (std_fns (e_m c o)) (std_array seeded next (e_m c o) 4%coqR [:: s_A; s_B]) = Ok dss) /\
  forall x, (exists2 d, List.In d [:: s_A; s_B] & std_named (e_m c o) d x) <-> List.In x [:: "A_red_noise_log10_A"; "A_red_noise_gamma"; "B_red_noise_log10_A"; "B_red_noise_gamma"]%string.
Proof. exact standard_names_ex. Qed.

(** C125: a noise dictionary changes none of the names, nor their order: a constant stays one
    and a parameter is not fixed by an entry of its name. *)
Theorem defaults_names : forall D fns dss, array_names (set_defaults D fns dss).1 (set_defaults D fns dss).2 = array_names fns dss.
Proof. exact defaults_names_lem. Qed.
Print Assumptions defaults_names.
(** The dictionary has an entry for a parameter of red noise, among those that change constants *)
Example defaults_names_example : forall c o S (seeded : Z -> S) next, List.In "A_red_noise_gamma"%string (dkeys e_D) /\
  exists dss, new_warray argsort_ins (std_fns (e_m c o)) (std_array seeded next (e_m c o) 4%coqR [:: s_A; s_B]) = Ok dss /\ List.In "A_red_noise_gamma"%string (array_names (std_fns (e_m c o)) dss).
Proof. exact defaults_names_ex. Qed.
