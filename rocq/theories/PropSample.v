(** Joint sampling of parameters and their hyperparameters.
    Only theorem statements live here; the proofs are in ProofSample.v. *)
From Coq Require Import String Bool Arith List.
From Verif Require Import PyBase ModelParams ProofParams ModelSample ProofSample.
Import ListNotations.
Open Scope string_scope.
Open Scope list_scope.

(** C63: one value for every parameter and hyperparameter; each is drawn given
    the returned values of its hyperparameters if these have none themselves and
    no two listed parameters share any. It is not if two parameters share a
    hyperparameter, if a hyperparameter has a hyperparameter, or if the
    hyperparameters are listed too, as in the parameter list of an array. *)
Theorem sample_keys :
  forall (V S : Type) (draw : S -> par -> list (string * option V) -> result (V * S)) ps s d s',
  sample draw ps s = Ok (d, s') ->
  NoDup (dkeys d) /\ forall k, In k (dkeys d) <-> exists p x, In p ps /\ reach p x /\ par_name x = k.
Proof. exact sample_keys_lem. Qed.
Print Assumptions sample_keys.
Theorem sample_fuel :
  forall (V S : Type) (draw : S -> par -> list (string * option V) -> result (V * S)) ps s n,
  (forall p, In p ps -> is_const p = false) -> (forall p, In p ps -> par_depth p <= n) ->
  sample_from draw n ps s [] = sample draw ps s.
Proof. exact sample_fuel_lem. Qed.
Print Assumptions sample_fuel.
Theorem sample_consistent_partial :
  forall (V S : Type) (draw : S -> par -> list (string * option V) -> result (V * S)) ps s d s',
  sample draw ps s = Ok (d, s') ->
  (forall p, In p ps -> shallow p /\ one_name p) -> ForallOrdPairs apart_names ps -> constants_apart ps ->
  forall p x, In p ps -> reach p x -> drawn draw d x.
Proof. exact sample_consistent_partial_lem. Qed.
Print Assumptions sample_consistent_partial.
Theorem sample_shared_refuted :
  exists ps d s', sample counting ps 0 = Ok (d, s') /\
  (forall p, In p ps -> shallow p /\ one_name p) /\ (exists p, In p ps /\ ~ drawn counting d p).
Proof. exact sample_shared_refuted_lem. Qed.
Print Assumptions sample_shared_refuted.
Theorem sample_chain_refuted :
  exists p d s', sample counting [p] 0 = Ok (d, s') /\ one_name p /\ ~ (forall x, reach p x -> drawn counting d x).
Proof. exact sample_chain_refuted_lem. Qed.
Print Assumptions sample_chain_refuted.
Theorem sample_array_refuted :
  exists (l : list collection) d s', sample counting (pta_params (fun x => x) l) 0 = Ok (d, s') /\
  (forall c sg k p, In c l -> In sg c -> In (k, p) sg -> shallow p) /\
  exists p, In p (pta_params (fun x => x) l) /\ ~ drawn counting d p.
Proof. exact sample_array_refuted_lem. Qed.
Print Assumptions sample_array_refuted.
Example sample_satisfiable : exists d s', sample counting [par_a; par_e] 0 = Ok (d, s') /\
  (forall p, In p [par_a; par_e] -> shallow p /\ one_name p) /\ ForallOrdPairs apart_names [par_a; par_e] /\ constants_apart [par_a; par_e] /\
  d = [("h", 0); ("a", 0); ("e_mu", 2); ("e", 2)].
Proof. exact ex_sample. Qed.
