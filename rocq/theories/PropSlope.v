(** Slopes of the spectra of gp_priors.py.
    Only theorem statements live here; the proofs are in ProofSlope.v. *)
From Coq Require Import Reals List.
From Verif Require Import PyBase ModelSpectra ProofSpectra ProofSlope.
Import ListNotations.
Open Scope R_scope.

(** C124: each spectrum is a density times the distances of frequencies ([density]); the
    slope of the density on logarithmic scales ([log_slope]) is - gamma for a power law. A
    turnover changes it by 2 beta kappa far below the bend; a turnover with a knee by kappa far
    below the bend and by 2 delta far above the knee. *)
Theorem powerlaw_slope : forall log10_A gamma, exists S,
  density (fun f => powerlaw f log10_A gamma 2) S /\ forall f, 0 < f -> log_slope S f (- gamma).
Proof. exact powerlaw_slope_lem. Qed.
Print Assumptions powerlaw_slope.
Theorem turnover_slope : forall log10_A gamma lf0 kappa beta, exists S,
  density (fun f => turnover f log10_A gamma lf0 kappa beta) S /\
  forall f, 0 < f -> let x := Rpower (Rpower 10 lf0 / f) kappa in log_slope S f (- gamma + 2 * beta * kappa * (x / (1 + x))).
Proof. exact turnover_slope_lem. Qed.
Print Assumptions turnover_slope.
Theorem knee_slope : forall log10_A gamma lfb lfk kappa delta, exists S,
  density (fun f => turnover_knee f log10_A gamma lfb lfk kappa delta) S /\
  forall f, 0 < f -> let x := Rpower (Rpower 10 lfb / f) kappa in let y := f / Rpower 10 lfk in
  log_slope S f (- gamma + (2 * delta * (y / (1 + y)) + kappa * (x / (1 + x)))).
Proof. exact knee_slope_lem. Qed.
Print Assumptions knee_slope.
(** C124: a broken power law has the mean of both slopes with weights that are equal at the
    break; the slope is that of gamma far below the break, that of delta far above, and nearer to
    gamma exactly below the break. *)
Theorem broken_slope : forall log10_A gamma delta log10_fb kappa, kappa <> 0 -> exists S,
  density (fun f => broken_powerlaw f log10_A gamma delta log10_fb kappa) S /\
  forall f, 0 < f -> let x := Rpower (f / Rpower 10 log10_fb) (1 / kappa) in
  log_slope S f (- (gamma * (1 / (1 + x)) + delta * (x / (1 + x)))).
Proof. exact broken_slope_lem. Qed.
Print Assumptions broken_slope.
Theorem broken_limits : forall log10_A gamma delta log10_fb kappa S, 0 < kappa -> density (fun f => broken_powerlaw f log10_A gamma delta log10_fb kappa) S ->
  forall eps, 0 < eps -> exists low high, 0 < low /\ 0 < high /\ forall f s, log_slope S f s ->
  (0 < f < low -> Rabs (s + gamma) < eps) /\ (high < f -> Rabs (s + delta) < eps).
Proof. exact broken_limits_lem. Qed.
Print Assumptions broken_limits.
Theorem broken_sides : forall log10_A gamma delta log10_fb kappa S f s, 0 < kappa -> gamma <> delta ->
  density (fun f => broken_powerlaw f log10_A gamma delta log10_fb kappa) S -> 0 < f -> log_slope S f s ->
  (f < Rpower 10 log10_fb <-> Rabs (s + gamma) < Rabs (s + delta)).
Proof. exact broken_sides_lem. Qed.
Print Assumptions broken_sides.
(** The density and the slope that the hypotheses ask for *)
Example broken_limits_example : exists S, density (fun f => broken_powerlaw f (-15) (13 / 3) 0 (-8) (1 / 10)) S /\ log_slope S (Rpower 10 (-8)) (- (13 / 6)).
Proof. exact broken_limits_ex. Qed.
(** The docstring (L126-128) has it the other way round: gamma for frequencies above the
    break, delta below. *)
Theorem broken_documented_refuted : exists log10_A gamma delta log10_fb kappa, 0 < kappa /\
  forall S, density (fun f => broken_powerlaw f log10_A gamma delta log10_fb kappa) S ->
  ~ (forall eps, 0 < eps -> exists high, 0 < high /\ forall f s, high < f -> log_slope S f s -> Rabs (s + gamma) < eps).
Proof. exact broken_documented_refuted_lem. Qed.
Print Assumptions broken_documented_refuted.
