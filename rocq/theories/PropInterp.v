(** Bases for linear interpolation and for timing models.
    Only theorem statements live here; the proofs are in ProofInterp.v. *)
From Coq Require Import Reals ZArith Bool Arith List Lra Lia.
From Verif Require Import PyBase ProofBase ModelBases ModelSpectra ModelInterp ProofBases ProofInterp.
Import ListNotations.
Open Scope list_scope.
Open Scope R_scope.

(** C71: with two different TOAs the basis has a hat function for each node; the
    nodes are steps from the first TOA and within one step of some TOA; rows lie in
    [0,1], sum to one and reproduce every affine function. *)
Theorem linear_interp : forall toas dt, 0 < dt -> (exists a b, In a toas /\ In b toas /\ a < b) ->
  exists x, linear_interp_basis toas dt = Ok (map (fun t => map (fun y => Rmax 0 (1 - Rabs (t - y) / dt)) x) toas, x) /\
  (exists lo, In lo toas /\ (forall t, In t toas -> lo <= t) /\ forall y, In y x -> exists i : nat, y = lo + INR i * dt) /\
  (forall y, In y x -> exists t, In t toas /\ Rabs (t - y) < dt) /\
  forall t, In t toas -> let row := map (fun y => Rmax 0 (1 - Rabs (t - y) / dt)) x in
  Forall (fun r => 0 <= r <= 1) row /\ rsum row = 1 /\ forall c d, rsum (map (fun p => fst p * (c + d * snd p)) (combine row x)) = c + d * t.
Proof. exact linear_interp_lem. Qed.
Print Assumptions linear_interp.
(** C71: without two different TOAs there is no node and no column, so that rows do not
    sum to one. *)
Theorem linear_interp_empty : forall t n dt, 0 < dt -> linear_interp_basis (repeat t (S n)) dt = Ok (repeat [] (S n), []).
Proof. exact linear_interp_empty_lem. Qed.
Print Assumptions linear_interp_empty.
Theorem linear_interp_refuted : exists toas dt, 0 < dt /\ toas <> [] /\ linear_interp_basis toas dt = Ok ([[]], []).
Proof. exact linear_interp_refuted_lem. Qed.
Print Assumptions linear_interp_refuted.
Example linear_interp_satisfiable : 0 < 2 /\ exists a b, In a [0; 1; 5 / 2] /\ In b [0; 1; 5 / 2] /\ a < b.
Proof. split; [lra|]. exists 0, 1. cbn. repeat split; try tauto; lra. Qed.

(** C72: what is excluded; excluding everything raises. *)
Theorem excluded : forall M ex,
  (forall c, In c (kept M ex) <-> exists j, (j < length M)%nat /\ (forall e, ex = Some e -> ~ In j e) /\ nth j M [] = c) /\
  (kept M ex <> [] -> unnormed_tm_basis M ex = Ok (kept M ex, 1)) /\
  (kept M ex = [] -> M <> [] -> unnormed_tm_basis M ex = Err IndexError).
Proof. exact excluded_lem. Qed.
Print Assumptions excluded.
(** C72: normalised columns are zero or of length one, and span what the kept columns
    span. With norms of the user the columns are divided by them. *)
Theorem normed_span : forall M ex N w, normed_tm_basis M None ex = Ok (N, w) ->
  w = 1 /\ length N = length (kept M ex) /\
  (forall j, (j < length N)%nat -> let c := nth j (kept M ex) [] in let d := nth j N [] in length d = length c /\
     (Forall (fun x => x = 0) c -> Forall (fun x => x = 0) d) /\ (~ Forall (fun x => x = 0) c -> rsum (map (fun x => x ^ 2) d) = 1 /\ exists s, 0 < s /\ c = map (fun x => s * x) d)) /\
  forall v, in_span N v <-> in_span (kept M ex) v.
Proof. exact normed_span_lem. Qed.
Print Assumptions normed_span.
Theorem given_norms : forall M n ex, length n = length (kept M ex) -> kept M ex <> [] ->
  exists N, normed_tm_basis M (Some n) ex = Ok (N, 1) /\ length N = length (kept M ex) /\
  (forall i j, (j < length N)%nat -> entry_of N i j = if Req_EM_T (nth j n 0) 0 then 0 else entry_of (kept M ex) i j / nth j n 0) /\
  (Forall (fun x => x <> 0) n -> forall v, in_span N v <-> in_span (kept M ex) v).
Proof. exact given_norms_lem. Qed.
Print Assumptions given_norms.
(** C72: the left singular vectors span the kept columns, and nothing else if no
    singular value vanishes. *)
Theorem svd_span : forall svd M ex u w, svd_tm_basis svd M ex = Ok (u, w) -> svd_of (kept M ex) u (snd (svd (kept M ex))) ->
  w = map (fun _ => 1) u /\ (forall v, in_span (kept M ex) v -> in_span u v) /\
  (Forall (fun x => 0 < x) (snd (svd (kept M ex))) -> forall v, in_span u v -> in_span (kept M ex) v).
Proof. exact svd_span_lem. Qed.
Print Assumptions svd_span.
(** C72: TimingModel refuses singular vectors with norms other than the default; all
    other options span the kept columns, and have weights of one. *)
Theorem timing_refused : forall svd nm ex use_svd, (exists e, timing_basis svd use_svd nm ex = Err e) <-> use_svd = true /\ nm <> NTrue.
Proof. exact timing_refused_lem. Qed.
Print Assumptions timing_refused.
Theorem timing_span : forall svd use_svd nm ex f M B w, timing_basis svd use_svd nm ex = Ok f -> f M = Ok (B, w) ->
  (use_svd = true -> svd_of (kept M ex) B (snd (svd (kept M ex))) /\ Forall (fun x => 0 < x) (snd (svd (kept M ex)))) ->
  (forall n, use_svd = false -> nm = NGiven n -> Forall (fun x => x <> 0) n) ->
  (forall v, in_span B v <-> in_span (kept M ex) v) /\
  match w with inl x => x = 1 | inr l => l = map (fun _ => 1) B end.
Proof. exact timing_span_lem. Qed.
Print Assumptions timing_span.
Example timing_span_given : exists f B w, timing_basis (fun M => (M, [])) false (NGiven [2; 5]) (Some [1%nat]) = Ok f /\ f [[1; 2]; [7; 7]; [0; 3]] = Ok (B, w) /\
  forall v, in_span B v <-> in_span [[1; 2]; [0; 3]] v.
Proof.
  set (M := [[1; 2]; [7; 7]; [0; 3]] : columns); destruct (normed_tm_basis M (Some [2; 5]) (Some [1%nat])) as [[N x]|] eqn:E; [|cbn in E; discriminate].
  eexists; exists N, (inl x); split; [reflexivity|]; split; [cbv beta; now rewrite E|].
  refine (proj1 (timing_span (fun M => (M, [])) false (NGiven [2; 5]) (Some [1%nat]) _ M N (inl x) eq_refl _ _ _)); [cbv beta; now rewrite E|discriminate|].
  intros n _ e; injection e as <-; repeat constructor; lra.
Qed.
(** C72: of a degenerate design matrix the singular vectors span more than the timing model,
    unlike the normalised columns. *)
Theorem svd_rank_refuted : exists svd M f B w v, timing_basis svd true NTrue None = Ok f /\ f M = Ok (B, w) /\
  svd_of (kept M None) B (snd (svd (kept M None))) /\ in_span B v /\ ~ in_span (kept M None) v /\
  exists g N w', timing_basis svd false NTrue None = Ok g /\ g M = Ok (N, w') /\ ~ in_span N v.
Proof. exact svd_rank_refuted_lem. Qed.
Print Assumptions svd_rank_refuted.
(** C72: stabilised design matrices. Columns of zeros become nan. *)
Theorem stable_fast : forall svd M, Forall (fun c => ~ Forall (fun x => x = 0) c) M ->
  exists N, normed_tm_basis M None None = Ok (N, 1) /\ stable_matrix svd M true = map (map Some) N.
Proof. exact stable_fast_lem. Qed.
Print Assumptions stable_fast.
Theorem stable_zero : forall svd M j, (j < length M)%nat -> Forall (fun x => x = 0) (nth j M []) ->
  nth j (stable_matrix svd M true) [] = map (fun _ => None) (nth j M []).
Proof. exact stable_zero_lem. Qed.
Print Assumptions stable_zero.
Theorem stable_slow : forall svd M U S, svd M = (U, S) -> svd_of M (firstn (length S) U) S -> Forall (fun x => 0 < x) S ->
  exists N, stable_matrix svd M false = map (map Some) N /\ length N = length S /\ forall v, in_span N v <-> in_span M v.
Proof. exact stable_slow_lem. Qed.
Print Assumptions stable_slow.
Theorem tm_weights : forall M ex norm B w, (unnormed_tm_basis M ex = Ok (B, w) \/ normed_tm_basis M norm ex = Ok (B, w)) -> tm_prior w = 10 ^ 40.
Proof. exact tm_weights_lem. Qed.
Print Assumptions tm_weights.
Example normed_satisfiable : exists N, normed_tm_basis [[3; 4]; [1; 0]; [0; 0]] None (Some [1%nat]) = Ok (N, 1) /\ kept [[3; 4]; [1; 0]; [0; 0]] (Some [1%nat]) = [[3; 4]; [0; 0]] /\ nth 0 N [] = [3 / 5; 4 / 5] /\ nth 1 N [] = [0; 0].
Proof.
  destruct (normed_tm_basis [[3; 4]; [1; 0]; [0; 0]] None (Some [1%nat])) as [[N w]|e] eqn:E; [|cbn in E; discriminate].
  cbn [normed_tm_basis exclude rbind filter seq length existsb Nat.eqb orb negb map nth combine fst snd] in E. unfold norm2 in E. cbn [map fold_right] in E.
  replace (3 ^ 2 + (4 ^ 2 + 0)) with (5 * 5) in E by ring. replace (0 ^ 2 + (0 ^ 2 + 0)) with 0 in E by ring. rewrite sqrt_square, sqrt_0 in E by lra.
  destruct (Req_EM_T 5 0); [lra|]. destruct (Req_EM_T 0 0); [|lra]. injection E as <- <-. exists [[3 / 5; 4 / 5]; [0; 0]]. repeat split.
Qed.
