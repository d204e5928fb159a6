(** Prior distributions.
    Only theorem statements live here; the proofs are in ProofPrior.v. *)
From Coq Require Import Reals Bool List Arith Lra Lia.
From Coquelicot Require Import Coquelicot.
From Verif Require Import PyBase ModelPrior ProofPrior.
Import ListNotations.
Open Scope list_scope.
Open Scope R_scope.

(** C56: the uniform density is nonnegative, zero outside, proportional to length
    inside and of total one; the quantile function inverts the distribution function;
    samples lie in the support and have that distribution function. *)
Theorem uniform_density : forall pmin pmax, pmin < pmax -> exists f,
  (forall v, UniformPrior v pmin pmax = Ok (f v)) /\ (forall v, 0 <= f v) /\ (forall v, v < pmin \/ pmax < v -> f v = 0) /\
  (forall a b, a <= pmin -> pmax <= b -> is_RInt f a b 1) /\
  (forall a b, pmin <= a <= pmax -> pmin <= b <= pmax -> is_RInt f a b ((b - a) / (pmax - pmin))).
Proof. exact uniform_density_lem. Qed.
Print Assumptions uniform_density.
Theorem uniform_quantile : forall pmin pmax f a, pmin < pmax -> (forall v, UniformPrior v pmin pmax = Ok (f v)) -> a <= pmin ->
  (forall q, 0 <= q <= 1 -> exists x, UniformPPF q pmin pmax = Some x /\ pmin <= x <= pmax /\ is_RInt f a x q) /\
  (forall x q, pmin <= x <= pmax -> is_RInt f a x q -> UniformPPF q pmin pmax = Some x) /\
  (forall q, q < 0 \/ 1 < q -> UniformPPF q pmin pmax = None).
Proof. exact uniform_quantile_lem. Qed.
Print Assumptions uniform_quantile.
Theorem uniform_sampler : forall pmin pmax f a u, pmin < pmax -> (forall v, UniformPrior v pmin pmax = Ok (f v)) -> a <= pmin -> 0 <= u < 1 ->
  pmin <= UniformSampler u pmin pmax < pmax /\
  (forall x q, pmin <= x -> is_RInt f a x q -> (UniformSampler u pmin pmax <= x <-> u <= q)).
Proof. exact uniform_sampler_lem. Qed.
Print Assumptions uniform_sampler.
Theorem uniform_degenerate : forall pmin pmax, pmax <= pmin ->
  (forall q, UniformPPF q pmin pmax = None) /\ (forall v, UniformPrior v pmin pmin = Err ZeroDivisionError) /\
  (pmax < pmin -> forall v, UniformPrior v pmin pmax = Ok 0).
Proof. exact uniform_degenerate_lem. Qed.
Print Assumptions uniform_degenerate.
Example uniform_satisfiable : exists f, (forall v, UniformPrior v (-1) 3 = Ok (f v)) /\ f 0 = / 4 /\ UniformPPF (1 / 2) (-1) 3 = Some 1.
Proof.
  destruct (uniform_density_lem (-1) 3) as [f [h _]]; [lra|]. exists f. split; [exact h|]. split.
  - specialize (h 0). rewrite uniform_val, num_in in h by lra. injection h as <-. lra.
  - destruct (uniform_quantile_lem (-1) 3 f (-1)) as [_ [q _]]; [lra|exact h|lra|]. apply q; [lra|].
    destruct (uniform_density_lem (-1) 3) as [f' [h' [_ [_ [_ k]]]]]; [lra|]. apply (is_RInt_ext f').
    + intros x _. specialize (h x). specialize (h' x). congruence.
    + replace (1 / 2) with ((1 - -1) / (3 - -1)) by lra. apply k; lra.
Qed.

(** C57: the same for the linear-exponential prior, which is the logarithm of a
    uniform variable; bounds in the wrong order raise in density and sampler, for
    every component of a vector. *)
Theorem linexp_density : forall pmin pmax, pmin < pmax -> exists f,
  (forall v, LinearExpPrior v pmin pmax = Ok (f v)) /\ (forall v, 0 <= f v) /\ (forall v, v < pmin \/ pmax < v -> f v = 0) /\
  (forall a b, a <= pmin -> pmax <= b -> is_RInt f a b 1).
Proof. exact linexp_density_lem. Qed.
Print Assumptions linexp_density.
Theorem linexp_pushforward : forall pmin pmax f g, pmin < pmax ->
  (forall v, LinearExpPrior v pmin pmax = Ok (f v)) -> (forall v, UniformPrior v (Rpower 10 pmin) (Rpower 10 pmax) = Ok (g v)) ->
  forall a b, exists p, is_RInt f a b p /\ is_RInt g (Rpower 10 a) (Rpower 10 b) p.
Proof. exact linexp_pushforward_lem. Qed.
Print Assumptions linexp_pushforward.
Theorem linexp_quantile : forall pmin pmax f a, pmin < pmax -> (forall v, LinearExpPrior v pmin pmax = Ok (f v)) -> a <= pmin ->
  (forall q, 0 <= q <= 1 -> exists x, LinearExpPPF q pmin pmax = Some x /\ pmin <= x <= pmax /\ is_RInt f a x q) /\
  (forall x q, pmin <= x <= pmax -> is_RInt f a x q -> LinearExpPPF q pmin pmax = Some x) /\
  (forall q, q < 0 \/ 1 < q -> LinearExpPPF q pmin pmax = None).
Proof. exact linexp_quantile_lem. Qed.
Print Assumptions linexp_quantile.
Theorem linexp_sampler : forall pmin pmax f a u, pmin < pmax -> (forall v, LinearExpPrior v pmin pmax = Ok (f v)) -> a <= pmin -> 0 <= u < 1 ->
  exists s, LinearExpSampler u pmin pmax = Ok s /\ pmin <= s < pmax /\
  (forall x q, pmin <= x -> is_RInt f a x q -> (s <= x <-> u <= q)).
Proof. exact linexp_sampler_lem. Qed.
Print Assumptions linexp_sampler.
Theorem linexp_degenerate : forall pmin pmax, pmax <= pmin ->
  (forall v, LinearExpPrior v pmin pmax = Err ValueError) /\ (forall u, LinearExpSampler u pmin pmax = Err ValueError) /\
  (forall q, LinearExpPPF q pmin pmax = None).
Proof. exact linexp_degenerate_lem. Qed.
Print Assumptions linexp_degenerate.
Theorem linexp_vector : forall values us pmins pmaxs, length values = length pmins -> length us = length pmins -> length pmaxs = length pmins ->
  ((exists i, (i < length pmins)%nat /\ nth i pmaxs 0 <= nth i pmins 0) ->
     LinearExpPriors values pmins pmaxs = Err ValueError /\ LinearExpSamplers us pmins pmaxs = Err ValueError) /\
  ((forall i, (i < length pmins)%nat -> nth i pmins 0 < nth i pmaxs 0) -> exists ps ss,
     LinearExpPriors values pmins pmaxs = Ok ps /\ LinearExpSamplers us pmins pmaxs = Ok ss /\ length ps = length pmins /\ length ss = length pmins /\
     forall i, (i < length pmins)%nat -> LinearExpPrior (nth i values 0) (nth i pmins 0) (nth i pmaxs 0) = Ok (nth i ps 0) /\
       LinearExpSampler (nth i us 0) (nth i pmins 0) (nth i pmaxs 0) = Ok (nth i ss 0)).
Proof. exact linexp_vector_lem. Qed.
Print Assumptions linexp_vector.
Example linexp_satisfiable : LinearExpPPF 0 (-3) 2 = Some (-3) /\ LinearExpPriors [0; 1] [2; 0] [1; 3] = Err ValueError.
Proof.
  split.
  - destruct (linexp_density_lem (-3) 2) as [f [h [_ [_ k]]]]; [lra|]. apply (linexp_quantile_lem (-3) 2 f (-3)); [lra|exact h|lra|lra|apply @is_RInt_point].
  - apply (linexp_vector_lem [0; 1] [0; 0] [2; 0] [1; 3]); [reflexivity..|]. exists 0%nat. simpl. split; [lia|lra].
Qed.

(** C58: the truncated normal density is positive inside and zero outside the open
    interval, has total one, is the normal density conditioned on the interval and
    does not depend on where the normalisation is computed; the sampler returns the
    first draws inside the bounds, each component from draws of its own. *)
Theorem trunc_density : forall mu sigma pmin pmax, 0 < sigma -> pmin < pmax ->
  let f v := TruncNormalPrior v mu sigma pmin pmax None in
  (forall v, pmin < v < pmax -> 0 < f v) /\ (forall v, v <= pmin \/ pmax <= v -> f v = 0) /\
  (forall a b, a <= pmin -> pmax <= b -> is_RInt f a b 1) /\
  is_RInt_gen f (Rbar_locally m_infty) (Rbar_locally p_infty) 1.
Proof. exact trunc_density_lem. Qed.
Print Assumptions trunc_density.
Theorem trunc_conditional : forall mu sigma pmin pmax a b, 0 < sigma -> pmin < pmax -> pmin <= a <= pmax -> pmin <= b <= pmax ->
  exists p q, is_RInt (fun v => NormalPrior v mu sigma) pmin pmax p /\ 0 < p /\ is_RInt (fun v => NormalPrior v mu sigma) a b q /\
  is_RInt (fun v => TruncNormalPrior v mu sigma pmin pmax None) a b (q / p).
Proof. exact trunc_conditional_lem. Qed.
Print Assumptions trunc_conditional.
Theorem trunc_class : forall mu sigma pmin pmax value m s a b,
  (forall x, mu = Some x -> x = m) -> (forall x, sigma = Some x -> x = s) -> (forall x, pmin = Some x -> x = a) -> (forall x, pmax = Some x -> x = b) ->
  TruncNormal_pdf mu sigma pmin pmax value m s a b = TruncNormalPrior value m s a b None.
Proof. exact trunc_class_lem. Qed.
Print Assumptions trunc_class.
Theorem trunc_scalar_draws : forall fuel mu sigma pmin pmax g k x,
  trunc_scalar fuel mu sigma pmin pmax g k = Some x <->
  exists j, (k <= j <= k + fuel)%nat /\ x = mu + sigma * g j /\ pmin <= x <= pmax /\
    forall i, (k <= i < j)%nat -> ~ (pmin <= mu + sigma * g i <= pmax).
Proof. exact trunc_scalar_lem. Qed.
Print Assumptions trunc_scalar_draws.
Theorem trunc_vector_draws : forall fuel mu sigma pmin pmax n g l, trunc_vector fuel mu sigma pmin pmax n g = Some (Ok l) ->
  length l = n /\ (forall i, (i < n)%nat -> at_ pmin i <= nth i l 0 <= at_ pmax i) /\
  (forall i, (i < n)%nat -> at_ pmin i <= at_ mu i + at_ sigma i * g i <= at_ pmax i -> nth i l 0 = at_ mu i + at_ sigma i * g i) /\
  exists idx, length idx = n /\ NoDup idx /\ forall i, (i < n)%nat -> nth i l 0 = at_ mu i + at_ sigma i * g (nth i idx 0%nat).
Proof. exact trunc_vector_lem. Qed.
Print Assumptions trunc_vector_draws.
Theorem trunc_terminates : forall mu sigma pmin pmax n g K, fits n mu -> fits n sigma -> fits n pmin -> fits n pmax -> same_kind mu sigma ->
  (forall i j, (i < n)%nat -> (K <= j)%nat -> at_ pmin i <= at_ mu i + at_ sigma i * g j <= at_ pmax i) ->
  exists l, trunc_vector (S K) mu sigma pmin pmax n g = Some (Ok l).
Proof. exact trunc_terminates_lem. Qed.
Print Assumptions trunc_terminates.
Theorem trunc_mixed_refuted : exists mu sigma pmin pmax n g, fits n mu /\ fits n sigma /\ fits n pmin /\ fits n pmax /\
  at_ pmin 0 < at_ pmax 0 /\ forall fuel, trunc_vector (S fuel) mu sigma pmin pmax n g = Some (Err TypeError).
Proof. exact trunc_mixed_refuted_lem. Qed.
Print Assumptions trunc_mixed_refuted.
Example trunc_satisfiable : trunc_scalar 3 0 1 (-1) 1 (fun k => match k with O => 2 | _ => 0 end) 0 = Some (0 + 1 * 0) /\
  exists l, trunc_vector 2 (Ve [0; 1]) (Ve [1; 2]) (Sc (-1)) (Ve [1; 2]) 2 (fun k => match k with O => 2 | _ => 0 end) = Some (Ok l).
Proof.
  split.
  - apply trunc_scalar_lem. exists 1%nat. repeat split; try lia; try lra. intros i hi. assert (i = 0%nat) by lia. subst i. simpl. lra.
  - apply trunc_terminates_lem; try reflexivity. intros i j hi hj. destruct j as [|j]; [lia|]. destruct i as [|[|i]]; simpl; try lra; lia.
Qed.

(** C59: the scalar normal density is positive, of total one, symmetric, maximal at
    the mean, and has a quadratic logarithm. *)
Theorem normal_density : forall mu sigma, 0 < sigma ->
  (forall v, 0 < NormalPrior v mu sigma) /\
  is_RInt_gen (fun v => NormalPrior v mu sigma) (Rbar_locally m_infty) (Rbar_locally p_infty) 1.
Proof. exact normal_density_lem. Qed.
Print Assumptions normal_density.
Theorem normal_shape : forall mu sigma, 0 < sigma ->
  (forall d, NormalPrior (mu + d) mu sigma = NormalPrior (mu - d) mu sigma) /\
  (forall v, v <> mu -> NormalPrior v mu sigma < NormalPrior mu mu sigma) /\
  (forall v, ln (NormalPrior v mu sigma) = - (1 / 2) * ((v - mu) / sigma) ^ 2 - ln (sigma * sqrt (2 * PI))).
Proof. exact normal_shape_lem. Qed.
Print Assumptions normal_shape.
(** C59: samples and quantiles are those of the standard normal, moved and scaled, and
    so are the probabilities of intervals. *)
Theorem normal_distribution : forall mu sigma, 0 < sigma ->
  (forall a b p, is_RInt (fun v => NormalPrior v 0 1) a b p ->
   is_RInt (fun v => NormalPrior v mu sigma) (NormalSampler a mu sigma) (NormalSampler b mu sigma) p) /\
  (forall g x, exists z, NormalSampler z mu sigma = x /\ (NormalSampler g mu sigma <= x <-> g <= z)) /\
  (forall n quantile q p, (n < 2)%nat -> is_RInt (fun v => NormalPrior v 0 1) 0 (quantile q) p ->
   exists x, NormalPPF n quantile q mu sigma = Ok x /\ is_RInt (fun v => NormalPrior v mu sigma) mu x p).
Proof. exact normal_distribution_lem. Qed.
Print Assumptions normal_distribution.
Theorem normal_ppf : forall n quantile v mu sigma, (2 <= n)%nat -> NormalPPF n quantile v mu sigma = Err NotImplementedError.
Proof. exact normal_ppf_lem. Qed.
Print Assumptions normal_ppf.
