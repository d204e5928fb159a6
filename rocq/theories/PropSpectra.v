(** Prior variances of Fourier coefficients.
    Only theorem statements live here; the proofs are in ProofSpectra.v. *)
From Coq Require Import Reals ZArith Bool Arith List Lra Lia.
From Verif Require Import PyBase ProofBase ModelBases ModelSpectra ProofBases ProofSpectra.
Import ListNotations.
Open Scope list_scope.
Open Scope R_scope.

(** C68: a power law gives each column its density times the distance to the previous
    frequency, from zero; the other spectra are multiples of it. *)
Theorem powerlaw_variance : forall c g log10_A gamma, (1 <= c)%nat -> Forall (fun x => 0 < x) g ->
  exists phi, powerlaw (flat_map (fun x => repeat x c) g) log10_A gamma c = Ok phi /\ length phi = (c * length g)%nat /\
  forall i r, (i < length g)%nat -> (r < c)%nat ->
  nth (c * i + r) phi 0 = Rpower 10 (2 * log10_A) / (12 * PI ^ 2) * Rpower (31557600 * nth i g 0) (- gamma) * 31557600 ^ 3 * (nth i g 0 - nth i (0 :: g) 0).
Proof. exact powerlaw_variance_lem. Qed.
Print Assumptions powerlaw_variance.
Theorem turnover_shape : forall g log10_A gamma lf0 kappa beta, Forall (fun x => 0 < x) g ->
  times (fun x => Rpower (1 + Rpower (Rpower 10 lf0 / x) kappa) (- (2 * beta))) (twice g) (turnover (twice g) log10_A gamma lf0 kappa beta) (powerlaw (twice g) log10_A gamma 2).
Proof. exact turnover_shape_lem. Qed.
Print Assumptions turnover_shape.
Theorem turnover_knee_shape : forall g log10_A gamma lfb lfk kappa delta, Forall (fun x => 0 < x) g ->
  times (fun x => Rpower (1 + x / Rpower 10 lfk) (2 * delta) / (1 + Rpower (Rpower 10 lfb / x) kappa)) (twice g)
    (turnover_knee (twice g) log10_A gamma lfb lfk kappa delta) (powerlaw (twice g) log10_A gamma 2).
Proof. exact turnover_knee_shape_lem. Qed.
Print Assumptions turnover_knee_shape.
Theorem broken_powerlaw_shape : forall g log10_A gamma delta log10_fb kappa, kappa <> 0 -> Forall (fun x => 0 < x) g ->
  times (fun x => Rpower (1 + Rpower (x / Rpower 10 log10_fb) (1 / kappa)) (kappa * (gamma - delta))) (twice g)
    (broken_powerlaw (twice g) log10_A gamma delta log10_fb kappa) (powerlaw (twice g) log10_A gamma 2).
Proof. exact broken_powerlaw_shape_lem. Qed.
Print Assumptions broken_powerlaw_shape.
Theorem amplitude : forall g log10_A gamma d, Forall (fun x => 0 < x) g ->
  times (fun _ => Rpower 10 (2 * d)) (twice g) (powerlaw (twice g) (log10_A + d) gamma 2) (powerlaw (twice g) log10_A gamma 2).
Proof. exact amplitude_lem. Qed.
Print Assumptions amplitude.
Theorem slope : forall g log10_A gamma d, Forall (fun x => 0 < x) g ->
  times (fun x => Rpower (31557600 * x) (- d)) (twice g) (powerlaw (twice g) log10_A (gamma + d) 2) (powerlaw (twice g) log10_A gamma 2).
Proof. exact slope_lem. Qed.
Print Assumptions slope.
(** C68: with increasing frequencies all variances are positive, one for each column
    and equal for the columns of a frequency; a repeated frequency has variance zero, a
    decreasing one a negative variance. *)
Theorem spectra_positive : forall g r, increasing g -> spectrum (twice g) r ->
  exists phi, r = Ok phi /\ length phi = length (twice g) /\ Forall (fun x => 0 < x) phi /\
  forall i, (i < length g)%nat -> nth (2 * i) phi 0 = nth (2 * i + 1) phi 0.
Proof. exact spectra_positive_lem. Qed.
Print Assumptions spectra_positive.
Theorem repeated_frequency : forall g r i, Forall (fun x => 0 < x) g -> spectrum (twice g) r -> (i < length g)%nat ->
  exists phi, r = Ok phi /\
  (nth i g 0 = nth i (0 :: g) 0 -> nth (2 * i) phi 0 = 0 /\ nth (2 * i + 1) phi 0 = 0) /\
  (nth i g 0 < nth i (0 :: g) 0 -> nth (2 * i) phi 0 < 0 /\ nth (2 * i + 1) phi 0 < 0).
Proof. exact repeated_frequency_lem. Qed.
Print Assumptions repeated_frequency.
Theorem free_spectrum_values : forall f rho, exists phi, free_spectrum f rho = Ok phi /\ length phi = (2 * length rho)%nat /\
  Forall (fun x => 0 < x) phi /\
  forall i, (i < length rho)%nat -> nth (2 * i) phi 0 = Rpower 10 (nth i rho 0) ^ 2 /\ nth (2 * i + 1) phi 0 = Rpower 10 (nth i rho 0) ^ 2.
Proof. exact free_spectrum_lem. Qed.
Print Assumptions free_spectrum_values.
Theorem t_process_values : forall g log10_A gamma alphas, increasing g -> length alphas = length g -> Forall (fun x => 0 < x) alphas ->
  exists phi phi0, t_process (twice g) log10_A gamma (Some alphas) = Ok phi /\ t_process_adapt (twice g) log10_A gamma (Each alphas) = Ok phi /\
  powerlaw (twice g) log10_A gamma 2 = Ok phi0 /\ length phi = length (twice g) /\ Forall (fun x => 0 < x) phi /\
  forall i, (i < length g)%nat -> nth (2 * i) phi 0 = nth (2 * i) phi0 0 * nth i alphas 0 /\ nth (2 * i + 1) phi 0 = nth (2 * i) phi 0.
Proof. exact t_process_lem. Qed.
Print Assumptions t_process_values.
Theorem t_process_one : forall g log10_A gamma n alpha, (n < length g)%nat ->
  exists phi phi0, t_process_adapt (twice g) log10_A gamma (At (Z.of_nat n) alpha) = Ok phi /\ powerlaw (twice g) log10_A gamma 2 = Ok phi0 /\ length phi = length phi0 /\
  forall j, nth j phi 0 = nth j phi0 0 * if orb (Nat.eqb j (2 * n)) (Nat.eqb j (2 * n + 1)) then alpha else 1.
Proof. exact t_process_one_lem. Qed.
Print Assumptions t_process_one.
Theorem t_process_range : forall g log10_A gamma (n : Z) alpha, (Z.of_nat (length g) <= n \/ n < - Z.of_nat (length g))%Z ->
  t_process_adapt (twice g) log10_A gamma (At n alpha) = Err IndexError.
Proof. exact t_process_range_lem. Qed.
Print Assumptions t_process_range.
Theorem genmodes_weights : forall g log10_A gamma w, length w = length g -> Forall (fun x => 0 < x) g ->
  exists phi, powerlaw_genmodes (twice g) log10_A gamma 2 (Some w) = Ok phi /\ length phi = length (twice g) /\
  forall i, (i < length g)%nat -> nth (2 * i) phi 0 = Rpower 10 (2 * log10_A) / (12 * PI ^ 2) * Rpower (31557600 * nth i g 0) (- gamma) * 31557600 ^ 3 * nth i w 0 ^ 2
    /\ nth (2 * i + 1) phi 0 = nth (2 * i) phi 0.
Proof. exact genmodes_weights_lem. Qed.
Print Assumptions genmodes_weights.
Theorem infinitepower_values : forall f, infinitepower f = Ok (repeat (10 ^ 40) (length f)).
Proof. exact infinitepower_lem. Qed.
Print Assumptions infinitepower_values.
Theorem indivisible : forall f c log10_A gamma, (2 <= length f)%nat -> (length f mod c <> 0)%nat -> powerlaw f log10_A gamma c = Err ValueError.
Proof. exact indivisible_lem. Qed.
Print Assumptions indivisible.
Example spectra_satisfiable : increasing [1; 2; 5 / 2] /\ spectrum (twice [1; 2; 5 / 2]) (powerlaw (twice [1; 2; 5 / 2]) (-14) (13 / 3) 2)
  /\ exists phi, powerlaw (twice [1; 2; 5 / 2]) (-14) (13 / 3) 2 = Ok phi /\ length phi = 6%nat.
Proof.
  split; [intros [|[|[|i]]] h; cbn in *; try lra; lia|]. split; [constructor|]. destruct (powerlaw_variance_lem 2 [1; 2; 5 / 2] (-14) (13 / 3)) as [phi [e [l _]]]; [lia|repeat constructor; lra|].
  exists phi. split; [exact e|exact l].
Qed.

(** C66: the GP of a Fourier basis with any of these spectra is stationary. *)
Theorem fourier_gp : forall (S : Type) (seeded : Z -> S) next toas o s F ff s' r,
  create_red seeded next toas o s = (Ok (F, ff), s') -> spectrum ff r ->
  exists phi, r = Ok phi /\ length phi = length ff /\
  forall i k, (i < length toas)%nat -> (k < length toas)%nat ->
  wsum phi (nth i F []) (nth k F [])
  = rsum (map (fun j => nth (2 * j) phi 0 * cos (2 * PI * nth (2 * j) ff 0 * (nth i toas 0 - nth k toas 0))) (seq 0 (length ff / 2))).
Proof. exact fourier_gp_lem. Qed.
Print Assumptions fourier_gp.
Example fourier_gp_satisfiable : exists F ff phi, create_red (fun _ => tt) (fun s => (1 / 2, s)) [1; 3] (Opts 2 (Some 4) false None None None true None) tt = (Ok (F, ff), tt)
  /\ powerlaw ff 0 3 2 = Ok phi /\ spectrum ff (Ok phi).
Proof.
  do 2 eexists. destruct (powerlaw_variance_lem 2 [1 * INR 1 / 4; 1 * INR 2 / 4] 0 3) as [phi [e _]]; [lia|repeat constructor; cbn; lra|]. exists phi. split; [reflexivity|]. split; [exact e|].
  rewrite <- e. constructor.
Qed.

(** C96: with six columns for each frequency and the default of two components, four of
    the six variances are zero. *)
Theorem six_columns : forall g log10_A gamma, Forall (fun x => 0 < x) g ->
  exists phi, powerlaw (flat_map (fun x => repeat x 6) g) log10_A gamma 2 = Ok phi /\ length phi = (6 * length g)%nat /\
  forall i r, (i < length g)%nat -> (2 <= r < 6)%nat -> nth (6 * i + r) phi 0 = 0.
Proof. exact six_columns_lem. Qed.
Print Assumptions six_columns.
