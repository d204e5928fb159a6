From Coq Require Import Reals ZArith String Bool Arith List Lra Lia.
From Verif Require Import PyBase ModelCache ModelBases ModelOrf ModelCommon ProofCommon.
Import ListNotations.
Open Scope list_scope.
Open Scope R_scope.

(** C55: when all signals are made before the first evaluation, every signal uses the
    frequencies of the span of all TOAs. *)
Theorem common_span : forall (G : Type) (seeded : Z -> G) next u, factory u = Ok u -> u_Tspan u = None -> forall news evals g k F ff,
  Forall is_new news -> Forall (fun a => ~ is_new a) evals ->
  stored k (run seeded next u (news ++ evals) (start g)) = Ok (F, ff) ->
  exists T, is_span (arrived news) T /\ exists p o, In (Eval k p) evals /\ u_opts u p = Ok o /\ ff = rep 2 (frequencies o T).
Proof. exact common_span_lem. Qed.
Print Assumptions common_span.
Theorem same_frequencies : forall (G : Type) (seeded : Z -> G) next u o, factory u = Ok u -> u_Tspan u = None -> (forall p, u_opts u p = Ok o) ->
  forall news evals g k1 F1 ff1 k2 F2 ff2, Forall is_new news -> Forall (fun a => ~ is_new a) evals ->
  let w := run seeded next u (news ++ evals) (start g) in
  stored k1 w = Ok (F1, ff1) -> stored k2 w = Ok (F2, ff2) ->
  ff1 = ff2 /\ forall T, is_span (arrived news) T -> ff1 = rep 2 (frequencies o T).
Proof. exact same_frequencies_lem. Qed.
Print Assumptions same_frequencies.
(** C55: they are those of the parameters asked for, if no evaluation has failed. *)
Theorem current_basis : forall (G : Type) (seeded : Z -> G) next u, factory u = Ok u -> u_Tspan u = None ->
  (forall p p', (forall n, In n (u_names u) -> dget string_dec p n = dget string_dec p' n) -> u_opts u p = u_opts u p') ->
  forall news evals g k p, Forall is_new news -> Forall (fun a => ~ is_new a) evals ->
  succeeds seeded next u (evals ++ [Eval k p]) (run seeded next u news (start g)) ->
  exists T o F, is_span (arrived news) T /\ u_opts u p = Ok o /\
    stored k (run seeded next u (news ++ evals ++ [Eval k p]) (start g)) = Ok (F, rep 2 (frequencies o T)).
Proof. exact current_basis_lem. Qed.
Print Assumptions current_basis.
(** C55: evaluations succeed and give the basis for the TOAs of their pulsar. *)
Theorem evaluations_succeed : forall (G : Type) (seeded : Z -> G) next u o, factory u = Ok u -> u_Tspan u = None -> (forall p, u_opts u p = Ok o) ->
  (forall l, o_modes o <> Some (PyList l)) ->
  forall news evals g k toas pos p key, Forall is_new news -> Forall (fun a => toas_of a <> []) news -> Forall (fun a => ~ is_new a) evals ->
  nth_error news k = Some (New toas pos) -> cache_key R (u_names u) p = Ok key ->
  exists F T g', snd (get_basis seeded next u k p (run seeded next u (news ++ evals) (start g))) = Ok F /\
    is_span (arrived news) T /\ fst (create_red seeded next toas (with_span o T) g') = Ok (F, rep 2 (frequencies o T)).
Proof. exact evaluations_succeed_lem. Qed.
Print Assumptions evaluations_succeed.
(** C55: then the correlations are symmetric, as the process needs. *)
Theorem phicross_symmetric : forall (G : Type) (seeded : Z -> G) next u o, factory u = Ok u -> u_Tspan u = None -> (forall p, u_opts u p = Ok o) ->
  forall prior orf, (forall x y : vec, orf x y = orf y x) ->
  forall news evals g k1 b1 k2 b2 p, Forall is_new news -> Forall (fun a => ~ is_new a) evals ->
  let w := run seeded next u (news ++ evals) (start g) in
  stored k1 w = Ok b1 -> stored k2 w = Ok b2 ->
  get_phicross prior orf k1 k2 p w = get_phicross prior orf k2 k1 p w /\ exists l, get_phicross prior orf k1 k2 p w = Ok l.
Proof. exact phicross_symmetric_lem. Qed.
Print Assumptions phicross_symmetric.
(** C55: the prior of a signal, and its correlation with another, is that of these
    frequencies times the overlap of the positions. *)
Theorem phi_values : forall (G : Type) (seeded : Z -> G) next u o, factory u = Ok u -> u_Tspan u = None -> (forall p, u_opts u p = Ok o) ->
  (forall l, o_modes o <> Some (PyList l)) ->
  forall prior orf news evals g k toas pos p key, Forall is_new news -> Forall (fun a => toas_of a <> []) news -> Forall (fun a => ~ is_new a) evals ->
  nth_error news k = Some (New toas pos) -> cache_key R (u_names u) p = Ok key ->
  let w := run seeded next u (news ++ evals) (start g) in
  exists T, is_span (arrived news) T /\
    snd (get_phi seeded next u prior orf k p w) = Ok (map (fun x => x * orf pos pos) (prior (rep 2 (frequencies o T)) p)) /\
    forall k' toas' pos', nth_error news k' = Some (New toas' pos') ->
      get_phicross prior orf k k' p (fst (get_phi seeded next u prior orf k p w)) = Ok (map (fun x => x * orf pos pos') (prior (rep 2 (frequencies o T)) p)).
Proof. exact phi_values_lem. Qed.
Print Assumptions phi_values.
(** C55: in any order, a signal holds the frequencies of the span at one of its
    evaluations; an explicit span is used always. *)
Theorem basis_history : forall (G : Type) (seeded : Z -> G) next u, factory u = Ok u -> u_coef u = false -> forall ops g k F ff,
  stored k (run seeded next u ops (start g)) = Ok (F, ff) ->
  exists before p after o T, ops = before ++ Eval k p :: after /\ u_opts u p = Ok o /\
    (u_Tspan u = Some T \/ u_Tspan u = None /\ is_span (arrived before) T) /\ ff = rep 2 (frequencies o T) /\
    exists toas g', In toas (flat_map (fun a => match a with New toas _ => [toas] | Eval _ _ => [] end) before) /\
      fst (create_red seeded next toas (with_span o T) g') = Ok (F, ff).
Proof. exact basis_history_lem. Qed.
Print Assumptions basis_history.
Theorem explicit_span : forall (G : Type) (seeded : Z -> G) next u T o, u_Tspan u = Some T -> (forall p, u_opts u p = Ok o) ->
  forall ops g k F ff, stored k (run seeded next u ops (start g)) = Ok (F, ff) -> ff = rep 2 (frequencies o T).
Proof. exact explicit_span_lem. Qed.
Print Assumptions explicit_span.
(** C55: with an evaluation before the last pulsar, or a class used for two arrays, the
    frequencies are others; evaluating again does not help. *)
Theorem interleaved_refuted : exists before pulsar k1 k2, let w := run (fun z => z) (fun s => (0, s)) plain (before ++ [pulsar; Eval k2 []; Eval k1 []]) (start 0%Z) in
  exists F1 f1 F2 f2, stored k1 w = Ok (F1, f1) /\ stored k2 w = Ok (F2, f2) /\ f1 <> f2 /\
  get_phicross (fun f _ => f) (fun _ _ => 1) k1 k2 [] w <> get_phicross (fun f _ => f) (fun _ _ => 1) k2 k1 [] w.
Proof. exact interleaved_refuted_lem. Qed.
Print Assumptions interleaved_refuted.
Theorem reused_class_refuted : exists news1 news2 k F ff T, Forall is_new news1 /\ Forall is_new news2 /\
  stored k (run (fun z => z) (fun s => (0, s)) plain (news1 ++ news2 ++ [Eval k []]) (start 0%Z)) = Ok (F, ff) /\ (length news1 <= k)%nat /\
  is_span (arrived news2) T /\ ff <> rep 2 (frequencies (Opts 1 None false None None None false None) T).
Proof. exact reused_class_refuted_lem. Qed.
Print Assumptions reused_class_refuted.
(** C55: exceptions. *)
Theorem span_needed : forall u, (factory u = Err ValueError <-> u_coef u = true /\ u_Tspan u = None) /\ (factory u = Err ValueError \/ factory u = Ok u).
Proof. exact factory_lem. Qed.
Print Assumptions span_needed.
Theorem no_toas : forall (G : Type) (seeded : Z -> G) next u pos w, factory u = Ok u -> u_Tspan u = None -> create seeded next u [] pos w = (w, Err ValueError).
Proof. exact no_toas_lem. Qed.
Print Assumptions no_toas.
Theorem unevaluated : forall (G : Type) (seeded : Z -> G) next u, factory u = Ok u -> u_coef u = false -> forall ops g k1 k2 p prior orf,
  (forall q, ~ In (Eval k1 q) ops) -> forall l, get_phicross prior orf k1 k2 p (run seeded next u ops (start g)) <> Ok l.
Proof. exact unevaluated_lem. Qed.
Print Assumptions unevaluated.
Example common_satisfiable : factory plain = Ok plain /\ u_Tspan plain = None /\ (forall p, u_opts plain p = Ok (Opts 1 None false None None None false None)) /\
  Forall is_new [New [0; 1] origin; New [1; 3] origin] /\ Forall (fun a => ~ is_new a) [Eval 0 []; Eval 1 []] /\
  succeeds (fun z => z) (fun s => (0, s)) plain ([Eval 0 []] ++ [Eval 1 []]) (run (fun z => z) (fun s => (0, s)) plain [New [0; 1] origin; New [1; 3] origin] (start 0%Z)) /\
  exists F1 F2 f, let w := run (fun z => z) (fun s => (0, s)) plain ([New [0; 1] origin; New [1; 3] origin] ++ [Eval 0 []; Eval 1 []]) (start 0%Z) in
    stored 0 w = Ok (F1, f) /\ stored 1 w = Ok (F2, f) /\ f <> [] /\ F1 <> F2.
Proof.
  split; [reflexivity|]. split; [reflexivity|]. split; [reflexivity|]. split; [repeat constructor|]. split; [repeat constructor; intros []|].
  split; [cbv - [Req_EM_T Rmax Rmin Rplus Rminus Rmult Rdiv Rinv Ropp IZR sin cos PI INR]; auto|].
  cbv - [Req_EM_T Rmax Rmin Rplus Rminus Rmult Rdiv Rinv Ropp IZR sin cos PI INR]. do 3 eexists. split; [reflexivity|]. split; [reflexivity|]. split; [discriminate|].
  intros [= H _ _ _]. revert H.
  assert (E : Rmin (Rmin 0 1) (Rmin 1 3) = 0) by (rewrite (Rmin_left 0 1), (Rmin_left 1 3), (Rmin_left 0 1) by lra; reflexivity).
  assert (E' : Rmax (Rmax 0 1) (Rmax 1 3) = 3) by (rewrite (Rmax_right 0 1), (Rmax_right 1 3), (Rmax_right 1 3) by lra; reflexivity).
  rewrite E, E'. replace (2 * PI * 0 * (1 * 1 / (3 - 0)) + 0) with 0 by field. rewrite sin_0.
  assert (P := PI_RGT_0). assert (0 < sin (2 * PI * 1 * (1 * 1 / (3 - 0)) + 0)) by (apply sin_gt_0; lra). lra.
Qed.
