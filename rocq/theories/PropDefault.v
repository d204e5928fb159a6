From Coq Require Import Reals String ZArith.
From mathcomp Require Import all_ssreflect all_algebra.
From Verif Require Import RStruct PyBase ModelSelect ProofSelect ModelFunc ModelCache ModelGp ProofGp ModelLinalg ProofLinalg ModelLike ModelColl ProofQuant ModelEcorr ProofEcorr ModelSigs ModelArray ModelSized ModelKinds ProofKinds ModelStandard ProofStdFn ProofStandard ProofStandardEx ModelDefault ProofDefault ProofDefaultStd ProofDefaultEx.
Set Implicit Arguments.
Unset Strict Implicit.
Unset Printing Implicit Defensive.
Import GRing.Theory Num.Theory Order.TTheory.
Local Open Scope seq_scope.
Local Open Scope ring_scope.

(** C122: [PTA.set_default_params] with a noise dictionary, before the first evaluation,
    gives the array that would have been made with the values of the dictionary for the
    constants it names: constants it does not name keep their values, parameters and numbers
    do not change, and other entries have no effect. Functions may take functions whose
    constants no other keyword hides ([shown]); coefficients are not sampled, no name is both
    that of a constant and of a parameter of the same signal, and DM jumps have no reference ([settable]). *)
Theorem defaults_made : forall D argsort fns (arr : seq (seq wsrc * seq R)) dss, (forall c s, List.In c arr -> List.In s c.1 -> settable fns s) ->
  new_warray argsort fns arr = Ok dss ->
  new_warray argsort (set_defaults D fns dss).1 [seq ([seq src_with D s | s <- c.1], c.2) | c <- arr] = Ok (set_defaults D fns dss).2.
Proof. exact defaults_made_lem. Qed.
Print Assumptions defaults_made.
Example defaults_made_example : forall c o S (seeded : Z -> S) next, (exists dss, new_warray argsort_ins (std_fns (e_m c o)) (std_array seeded next (e_m c o) 4%coqR [:: s_A; s_B]) = Ok dss) /\
  forall x s, List.In x (std_array seeded next (e_m c o) 4%coqR [:: s_A; s_B]) -> List.In s x.1 -> settable (std_fns (e_m c o)) s.
Proof. exact defaults_made_ex. Qed.

(** C122: the prior and the correlation function of a common process get the values of the
    dictionary as well. *)
Theorem defaults_common : forall D fns (dss : seq (seq wdesc)) cls prior orf name, fns cls = (inst prior name None, inst orf name None) -> shown prior -> shown orf ->
  clear [:: inst prior name None; inst orf name None] -> (set_defaults D fns dss).1 cls = (inst (class_with D prior) name None, inst (class_with D orf) name None).
Proof. exact defaults_common_lem. Qed.
Print Assumptions defaults_common.
(** A dictionary that changes both functions; the amplitude of the power law is a function *)
Example defaults_common_example : shown c_prior /\ shown c_orf /\ clear [:: inst c_prior "gw" None; inst c_orf "gw" None] /\
  let D := [:: ("gw_a", 2); ("gw_log10_A_x", -15)]%string%coqR in class_with D c_prior <> c_prior /\ class_with D c_orf <> c_orf.
Proof. exact defaults_common_ex. Qed.

(** C122: a constant that another keyword hides keeps its value, whatever the dictionary says:
    two functions given as keywords have parameters of the same keyword. *)
Theorem hidden_defaults_refuted : exists (D : dict string R) prior orf, clear [:: inst prior "gw" None; inst orf "gw" None] /\
  forall (fns : nat -> fob * fob) (dss : seq (seq wdesc)), fns 0%N = (inst prior "gw" None, inst orf "gw" None) ->
  gcall ((set_defaults D fns dss).1 0%N).1 [::] [::] [::] = gcall (inst prior "gw" None) [::] [::] [::] /\
  gcall (inst prior "gw" None) [::] [::] [::] <> gcall (inst (class_with D prior) "gw" None) [::] [::] [::].
Proof. exact hidden_defaults_refuted_lem. Qed.
Print Assumptions hidden_defaults_refuted.

(** C122: the standard model of C120 made with constants, with the values of a noise
    dictionary set afterwards: each of any sequence of likelihoods is the log density of all
    residuals with these values ([std_with], [given]). *)
Theorem standard_defaults : forall (S : Type) (seeded : Z -> S) (next : S -> R * S) (argsort : seq R -> seq nat) (hash : forall n, 'cV[R]_n -> nat) (svd : forall k, 'M[R]_k -> 'M[R]_k * 'cV[R]_k)
  (D : dict string R) (m : standard) (ps : seq psrdata) (span : R) (Tr : psrdata -> process -> string -> R) dss, known_shapes m ps -> m_orf m <> None -> std_ok argsort hash (std_with D m) ps span Tr ->
  new_warray argsort (std_fns m) (std_array seeded next m span ps) = Ok dss ->
  exists epochs : values -> forall d, seq (seq 'I_(size (d_toas d)) * R), (forall v d, List.In d ps -> epochs_ok m v (epochs v d)) /\
  forall l : seq (string * params R * values), (forall t, List.In t l -> known_method t.1.1 /\ given (std_with D m) ps t.1.2 t.2) ->
    let a := set_defaults D (std_fns m) dss in
    run (z_ops hash svd (wcross a.1)) (warray_colls a.1 a.2 (std_array seeded next m span ps)) [seq ALike t.1.1 t.1.2 | t <- l] (warray_start a.2) =
    [seq Ok (RLike (Fin (std_term (std_with D m) span Tr t.2 (epochs t.2) ps))) | t <- l].
Proof. exact standard_defaults_lem. Qed.
Print Assumptions standard_defaults.
(** EFAC, EQUAD, ECORR, the amplitudes of dispersion noise and of the common process are
    constants; the dictionary has their values but for the EFAC of the first pulsar, which
    keeps that given to the factory, and has others that belong to no constant *)
Example standard_defaults_example : forall c o, known_shapes (e_m c o) [:: s_A; s_B] /\ std_ok argsort_ins s_hash (std_with e_D (e_m c o)) [:: s_A; s_B] 4%coqR (fun _ _ _ => 4%coqR) /\
  (forall S (seeded : Z -> S) next, exists dss, new_warray argsort_ins (std_fns (e_m c o)) (std_array seeded next (e_m c o) 4%coqR [:: s_A; s_B]) = Ok dss) /\
  (forall v, e_v v -> given (std_with e_D (e_m c o)) [:: s_A; s_B] (e_p v) v) /\ e_v e_values.
Proof. exact (fun c o => conj (e_known c o) (conj (e_ok c o) (conj (e_made c o) (conj (e_given c o) e_values_ok)))). Qed.

(** The common process has a turnover whose amplitude is a constant *)
Example standard_defaults_turnover : forall c, known_shapes (u_m c) [:: s_A; s_B] /\ std_ok argsort_ins s_hash (std_with u_D (u_m c)) [:: s_A; s_B] 4%coqR (fun _ _ _ => 4%coqR) /\
  forall v x, e_v v -> v_gwrho v = u_rho x -> given (std_with u_D (u_m c)) [:: s_A; s_B] (("gw_lf0"%string, Sc x) :: e_p v) v.
Proof. exact (fun c => conj (u_known c) (conj (u_ok c) (@u_given c))). Qed.

(** C122: the same without the common process, whose keywords are not used. *)
Theorem noise_defaults : forall (S : Type) (seeded : Z -> S) (next : S -> R * S) (argsort : seq R -> seq nat) (hash : forall n, 'cV[R]_n -> nat) (svd : forall k, 'M[R]_k -> 'M[R]_k * 'cV[R]_k)
  (D : dict string R) (m : standard) (ps : seq psrdata) (span : R) (Tr : psrdata -> process -> string -> R) dss, known_shapes m ps -> m_orf m = None -> m_gwshape m = Power (AVal none) (AVal none) ->
  std_ok argsort hash (std_with D m) ps span Tr -> new_warray argsort (std_fns m) (std_array seeded next m span ps) = Ok dss ->
  exists epochs : values -> forall d, seq (seq 'I_(size (d_toas d)) * R), (forall v d, List.In d ps -> epochs_ok m v (epochs v d)) /\
  forall l : seq (string * params R * values), (forall t, List.In t l -> known_method t.1.1 /\ given (std_with D m) ps t.1.2 t.2) ->
    let a := set_defaults D (std_fns m) dss in
    run (z_ops hash svd (wcross a.1)) (warray_colls a.1 a.2 (std_array seeded next m span ps)) [seq ALike t.1.1 t.1.2 | t <- l] (warray_start a.2) =
    [seq Ok (RLike (Fin (\sum_(d <- ps) own_term (std_with D m) span Tr t.2 (epochs t.2 d)))) | t <- l].
Proof. exact noise_defaults_lem. Qed.
Print Assumptions noise_defaults.
Example noise_defaults_example : forall c, known_shapes (e_m c None) [:: s_A; s_B] /\ m_orf (e_m c None) = None /\ m_gwshape (e_m c None) = Power (AVal none) (AVal none).
Proof. exact (fun c => conj (e_known c None) (conj erefl erefl)). Qed.

(** C122: why the dictionary must come first. Once a white noise signal has answered, values
    set for its constants are not seen by further calls with the same parameters, whatever
    happened before. *)
Theorem late_defaults : forall D f p s s' x, s_ndiag (white_sg f) p s = (s', Ok x) -> s_ndiag (white_sg (set_fsel D f)) p s' = (s', Ok x).
Proof. exact late_defaults_lem. Qed.
Print Assumptions late_defaults.
Example late_defaults_example : exists f p s s' x, s_ndiag (white_sg f) p s = (s', Ok x).
Proof. exact late_defaults_ex. Qed.
(** So that a signal whose constants are set after an evaluation differs from one made with
    the values. *)
Theorem late_defaults_refuted : exists D fn name psrname psr masks f f' p x y,
  new_fsel fn name psrname psr masks = Ok f /\ new_fsel (class_with D fn) name psrname psr masks = Ok f' /\
  (s_ndiag (white_sg (set_fsel D f)) p (s_ndiag (white_sg f) p (SArr cempty)).1).2 = Ok (Some x) /\
  (s_ndiag (white_sg f') p (SArr cempty)).2 = Ok (Some y) /\ x <> y.
Proof. exact late_defaults_refuted_lem. Qed.
Print Assumptions late_defaults_refuted.
