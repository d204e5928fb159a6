From Coq Require Import Reals String ZArith.
From mathcomp Require Import all_ssreflect all_algebra.
From Verif Require Import RStruct PyBase ModelFunc ModelCache ModelGp ModelLinalg ProofLinalg ModelLike ModelColl ProofQuant ModelEcorr ProofEcorr ModelArray ModelSized ModelKinds ProofKinds ModelStandard ProofStdFn ProofStandard ProofStandardEx ProofBare.
Set Implicit Arguments.
Unset Strict Implicit.
Unset Printing Implicit Defensive.
Import GRing.Theory Num.Theory Order.TTheory.
Local Open Scope seq_scope.
Local Open Scope ring_scope.

(** C120: the model of a gravitational-wave background as it is usually built. Every pulsar
    has a marginalised timing model, EFAC (and EQUAD, TNEQUAD, ECORR) by selection, processes
    (red noise, dispersion, or chromatic noise), by selection or of all TOAs, and a common process with Hellings-Downs,
    dipole or monopole correlations. The class factories make the
    array, and each of any sequence of likelihoods, by whatever method, is the log density of
    all residuals together:
    - the variance of a TOA is efac^2 (sigma^2 + 10^(2 log10_t2equad)) with EQUAD and efac^2
      sigma^2 without, with the parameters of its selection, plus 10^(2 log10_tnequad) with
      TNEQUAD;
    - TOAs in the same epoch of a selection ([epochs_ok]) share 10^(2 log10_ecorr);
    - processes add the sum over the frequencies k/T of their variance ([variance]: that of a
      power law A^2/(12 pi^2) (f yr)^-gamma yr^3 / T, that of a free spectrum 10^(2
      log10_rho_k), or what another prior function returns) times cos (2 pi f (t - t')): within a pulsar for its own, between the TOAs that a
      selection of the process has both, with the parameters of that selection, T by default
      being the time between its first and last TOAs, and times the factors (1400/nu)^2
      or (1400/nu)^idx of both radio frequencies ([tint]); between all for the common process,
      times the correlation of their positions ([correlation]; that of a pulsar with itself is 1,
      or 1 + 1e-5 for dipole and monopole);
    - the parameters of the timing models are integrated out.
    Each keyword of the factories is a class or an instance of a parameter, a constant or a
    number; parameters have the names documented ([given], [shape_has], [arg_has]). *)
Theorem standard_likelihood : forall (S : Type) (seeded : Z -> S) (next : S -> R * S) (argsort : seq R -> seq nat) (hash : forall n, 'cV[R]_n -> nat) (svd : forall k, 'M[R]_k -> 'M[R]_k * 'cV[R]_k)
  (m : standard) (ps : seq psrdata) (span : R) (Tr : psrdata -> process -> string -> R), m_orf m <> None -> std_ok argsort hash m ps span Tr ->
  exists dss, new_warray argsort (std_fns m) (std_array seeded next m span ps) = Ok dss /\
  exists epochs : values -> forall d, seq (seq 'I_(ntoas d) * R), (forall v d, List.In d ps -> epochs_ok m v (epochs v d)) /\
  forall l : seq (string * params R * values), (forall t, List.In t l -> known_method t.1.1 /\ given m ps t.1.2 t.2) ->
    run (z_ops hash svd (wcross (std_fns m))) (warray_colls (std_fns m) dss (std_array seeded next m span ps)) [seq ALike t.1.1 t.1.2 | t <- l] (warray_start dss) =
    [seq Ok (RLike (Fin (std_term m span Tr t.2 (epochs t.2) ps))) | t <- l].
Proof. exact standard_likelihood_lem. Qed.
Print Assumptions standard_likelihood.
(** Two pulsars in perpendicular directions with three TOAs, two of them simultaneous, an
    offset as timing model, and one frequency for red noise, dispersion noise with a free
    spectrum in each of two bands, and common process; the amplitude of the latter is a parameter made before, the
    exponent is 13/3 *)
Example standard_likelihood_example : forall c, std_ok argsort_ins s_hash (s_m c (Some Hd)) [:: s_A; s_B] 4%coqR (fun _ _ _ => 4%coqR) /\
  forall v, v_efac v "A" "f" <> 0 -> v_efac v "B" "f" <> 0 -> v_gwg v = (13 / 3)%coqR -> given (s_m c (Some Hd)) [:: s_A; s_B] (s_p v) v.
Proof. exact (fun c => conj (s_ok c (Some Hd)) (@s_given c (Some Hd))). Qed.
(** The same with a turnover in the spectrum of the common process *)
Example standard_likelihood_turnover : (forall c, std_ok argsort_ins s_hash (t_m c) [:: s_A; s_B] 4%coqR (fun _ _ _ => 4%coqR)) /\
  exists rho, forall c v, v_efac v "A" "f" <> 0 -> v_efac v "B" "f" <> 0 -> v_gwrho v = rho -> given (t_m c) [:: s_A; s_B] (s_p v) v.
Proof. exact (conj t_ok t_given). Qed.

(** C120: prior functions that return one of the spectra of gp_priors.py (C68; power laws, with
    turnover, knee or break, their t-process variants) at the frequencies of the process are
    covered: their variances are positive and the same for sine and cosine. *)
Theorem standard_shapes : forall n p fn name psr T A g r, (0 < T)%coqR ->
  ProofSpectra.spectrum (ProofSpectra.twice (List.map (fun k => (INR k / T)%coqR) (List.seq 1 n))) r ->
  gcall (inst fn (us_name name) psr) [:: GV (Vec (ProofSpectra.twice (List.map (fun k => (INR k / T)%coqR) (List.seq 1 n))))] [::] p = rmap (fun x => GV (Vec x)) r ->
  exists rho, shape_has p (Prior fn) name psr T n A g rho /\ r = Ok (ProofSpectra.twice (List.map rho (List.seq 1 n))).
Proof. exact shape_spectrum_lem. Qed.
Print Assumptions standard_shapes.
Example standard_shapes_example : exists rho, forall p A g T, T = 4%coqR -> shape_has p (m_gwshape (t_m (FC turnover_fn "" [::]))) [:: "gw"%string] None T 1 A g rho.
Proof. exact t_shape. Qed.

(** C121: the same without the common process, for any number of pulsars: each of any
    sequence of likelihoods is the sum over the pulsars of the log density of their
    residuals. Processes of several pulsars have a common spectrum when their keywords are
    instances of parameters. *)
Theorem noise_likelihood : forall (S : Type) (seeded : Z -> S) (next : S -> R * S) (argsort : seq R -> seq nat) (hash : forall n, 'cV[R]_n -> nat) (svd : forall k, 'M[R]_k -> 'M[R]_k * 'cV[R]_k)
  (m : standard) (ps : seq psrdata) (span : R) (Tr : psrdata -> process -> string -> R), m_orf m = None -> std_ok argsort hash m ps span Tr ->
  exists dss, new_warray argsort (std_fns m) (std_array seeded next m span ps) = Ok dss /\
  exists epochs : values -> forall d, seq (seq 'I_(ntoas d) * R), (forall v d, List.In d ps -> epochs_ok m v (epochs v d)) /\
  forall l : seq (string * params R * values), (forall t, List.In t l -> known_method t.1.1 /\ given m ps t.1.2 t.2) ->
    run (z_ops hash svd (wcross (std_fns m))) (warray_colls (std_fns m) dss (std_array seeded next m span ps)) [seq ALike t.1.1 t.1.2 | t <- l] (warray_start dss) =
    [seq Ok (RLike (Fin (\sum_(d <- ps) own_term m span Tr t.2 (epochs t.2 d)))) | t <- l].
Proof. exact noise_likelihood_lem. Qed.
Print Assumptions noise_likelihood.
Example noise_likelihood_example : forall c, std_ok argsort_ins s_hash (s_m c None) [:: s_A; s_B] 4%coqR (fun _ _ _ => 4%coqR) /\
  forall v, v_efac v "A" "f" <> 0 -> v_efac v "B" "f" <> 0 -> v_gwg v = (13 / 3)%coqR -> given (s_m c None) [:: s_A; s_B] (s_p v) v.
Proof. exact (fun c => conj (s_ok c None) (@s_given c None)). Qed.

(** C120: without a time span in the model, that of the common process is the longest time
    between two TOAs of the array, of whatever pulsars. *)
Theorem standard_span : forall ls, ls <> [::] -> (forall l, List.In l ls -> l <> [::]) -> exists s, common_span None ls = Ok s /\
  (exists t t', List.In t (List.concat ls) /\ List.In t' (List.concat ls) /\ s = (t - t')%coqR) /\
  forall t t', List.In t (List.concat ls) -> List.In t' (List.concat ls) -> (t - t' <= s)%coqR.
Proof. exact standard_span_lem. Qed.
Print Assumptions standard_span.
Example standard_span_example : (forall l, List.In l [:: [:: 1; 3]; [:: 2]]%coqR -> l <> [::]) /\ List.In 3%coqR (List.concat [:: [:: 1; 3]; [:: 2]])%coqR.
Proof. exact s_span. Qed.

(** C120: the time span given when the basis is called is that of the basis, whatever the
    class was made with. *)
Theorem standard_keyword : forall S (seeded : Z -> S) next n d Tspan T nm p,
  gcall (inst (plain_class seeded next n (span_gv Tspan)) nm (Some (d_gv d))) [::] [:: ("Tspan"%string, num T)] p =
  gcall (inst (plain_class seeded next n (num T)) nm (Some (d_gv d))) [::] [::] p.
Proof. exact standard_keyword_lem. Qed.
Print Assumptions standard_keyword.

(** C120: the bases as they are when made without keywords: 30 frequencies k/T over the time
    span of the TOAs, sines and cosines in turn, times the factor of the radio frequency
    ([tint]; the index is 4 unless given). *)
Theorem standard_bases : forall S (seeded : Z -> S) next d c nm p T, ModelBases.extent (d_toas d) = Ok T -> List.length (d_freqs d) = List.length (d_toas d) ->
  exists M fs, gcall (inst (bare_class seeded next c) nm (Some (d_gv d))) [::] [::] p = Ok (GPair (GMat 60 M) (GV (Vec fs))) /\
  List.length M = List.length (d_toas d) /\
  (forall i j, lt i (List.length (d_toas d)) -> lt j 60 ->
     List.nth j (List.nth i M [::]) 0%coqR = ((if Nat.even j then sin else cos) (2 * PI * List.nth i (d_toas d) 0 * (INR (Nat.div2 j + 1) / T)) * tint c (List.nth i (d_freqs d) 0))%coqR) /\
  forall k, lt k 30 -> List.nth (2 * k)%coq_nat fs 0%coqR = (INR (k + 1)%coq_nat / T)%coqR /\ List.nth ((2 * k)%coq_nat + 1)%coq_nat fs 0%coqR = (INR (k + 1)%coq_nat / T)%coqR.
Proof. exact standard_bases_lem. Qed.
Print Assumptions standard_bases.
Example standard_bases_example : ModelBases.extent [:: 3; 1; 2]%coqR = Ok (3 - 1)%coqR.
Proof. exact standard_bases_ex. Qed.
