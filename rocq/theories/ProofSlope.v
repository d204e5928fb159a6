(** Slopes of the spectra of ModelSpectra.v. *)
From Coquelicot Require Import Coquelicot.
From Coq Require Import Reals List Lra Lia.
From Verif Require Import PyBase ModelBases ModelSpectra ProofBases ProofSpectra.
Import ListNotations.
Open Scope list_scope.
Open Scope R_scope.

(** The variances are those of the density [S]: each of the two columns of a frequency has
    its density times the distance to the frequency before, from zero. *)
Definition density (call : list R -> result (list R)) (S : R -> R) : Prop :=
  forall g, Forall (fun x => 0 < x) g -> exists phi, call (twice g) = Ok phi /\ length phi = (2 * length g)%nat /\
  forall i, (i < length g)%nat ->
    nth (2 * i) phi 0 = S (nth i g 0) * (nth i g 0 - nth i (0 :: g) 0) /\ nth (2 * i + 1) phi 0 = S (nth i g 0) * (nth i g 0 - nth i (0 :: g) 0).
(** The slope [s] of a positive density at a frequency, both on logarithmic scales *)
Definition log_slope (S : R -> R) (f s : R) : Prop := 0 < S f /\ derivable_pt_lim (fun u => ln (S (exp u))) (ln f) s.

Definition pl_density (A g f : R) : R := Rpower 10 (2 * A) / (12 * PI ^ 2) * Rpower (31557600 * f) (- g) * 31557600 ^ 3.
Lemma pl_dens : forall A g, density (fun f => powerlaw f A g 2) (pl_density A g).
Proof.
  intros A g l hl. destruct (powerlaw_variance_lem 2 l A g ltac:(lia) hl) as [phi [e [n v]]].
  exists phi. split; [exact e|]. split; [exact n|]. intros i hi. unfold pl_density. split.
  - rewrite <- (v i 0%nat hi) by lia. f_equal. lia.
  - rewrite <- (v i 1%nat hi) by lia. reflexivity.
Qed.
Lemma times_dens : forall k A g call, (forall l, Forall (fun x => 0 < x) l -> times k (twice l) (call (twice l)) (powerlaw (twice l) A g 2)) ->
  density call (fun f => pl_density A g f * k f).
Proof.
  intros k A g call h l hl. destruct (h l hl) as [phi [phi0 [e [e0 [n [n0 v]]]]]]. destruct (pl_dens A g l hl) as [p [e1 [n1 v1]]].
  rewrite e1 in e0. injection e0 as <-. exists phi. split; [exact e|].
  assert (nt : length (twice l) = (2 * length l)%nat) by (rewrite twice_rep, rep_length; reflexivity).
  split; [now rewrite n|]. intros i hi. destruct (v1 i hi) as [a b]. destruct (rep2_nth l i 0) as [c d]. rewrite <- twice_rep in c, d.
  split; rewrite v by lia.
  - rewrite a, c. ring.
  - rewrite b, d. ring.
Qed.

Lemma pl_log : forall A g u, ln (pl_density A g (exp u)) = ln (Rpower 10 (2 * A) / (12 * PI ^ 2) * 31557600 ^ 3) + - g * (ln 31557600 + u).
Proof.
  intros A g u. unfold pl_density. pose proof (exp_pos u). pose proof PI_RGT_0 as hp.
  replace (Rpower 10 (2 * A) / (12 * PI ^ 2) * Rpower (31557600 * exp u) (- g) * 31557600 ^ 3) with (Rpower 10 (2 * A) / (12 * PI ^ 2) * 31557600 ^ 3 * Rpower (31557600 * exp u) (- g)) by ring.
  rewrite ln_mult.
  - f_equal. unfold Rpower. rewrite ln_exp, ln_mult, ln_exp by lra. reflexivity.
  - apply Rmult_lt_0_compat; [|lra]. apply Rdiv_lt_0_compat; [apply exp_pos|]. apply Rmult_lt_0_compat; [lra|]. now apply pow_lt.
  - apply exp_pos.
Qed.
Lemma pl_pos : forall A g f, 0 < pl_density A g f.
Proof.
  intros A g f. pose proof PI_RGT_0 as hp. unfold pl_density. apply Rmult_lt_0_compat; [|lra]. apply Rmult_lt_0_compat; [|apply exp_pos].
  apply Rdiv_lt_0_compat; [apply exp_pos|]. apply Rmult_lt_0_compat; [lra|]. now apply pow_lt.
Qed.
Lemma slope_of : forall A g (k : R -> R) (h : R -> R) f s, 0 < f -> 0 < k f -> (forall u, 0 < k (exp u)) -> (forall u, ln (k (exp u)) = h u) ->
  is_derive h (ln f) s -> log_slope (fun f => pl_density A g f * k f) f (- g + s).
Proof.
  intros A g k h f s hf kf kp e d. split; [apply Rmult_lt_0_compat; [apply pl_pos|exact kf]|].
  apply is_derive_Reals. apply (is_derive_ext (fun u => (ln (Rpower 10 (2 * A) / (12 * PI ^ 2) * 31557600 ^ 3) + - g * (ln 31557600 + u)) + h u)).
  - intros u. symmetry. rewrite ln_mult, pl_log, e; [reflexivity|apply pl_pos|apply kp].
  - apply (is_derive_plus (K := R_AbsRing) (V := R_NormedModule)); [|exact d]. auto_derive; [exact I|ring].
Qed.

Lemma powerlaw_slope_lem : forall log10_A gamma, exists S, density (fun f => powerlaw f log10_A gamma 2) S /\ forall f, 0 < f -> log_slope S f (- gamma).
Proof.
  intros A g. exists (pl_density A g). split; [apply pl_dens|]. intros f hf.
  assert (h : log_slope (fun f => pl_density A g f * 1) f (- g + 0)).
  { apply (slope_of A g (fun _ => 1) (fun _ => 0)); try lra; [intros _; lra|intros _; apply ln_1|]. auto_derive; [exact I|ring]. }
  destruct h as [a b]. split; [now rewrite Rmult_1_r in a|]. rewrite Rplus_0_r in b. apply is_derive_Reals. apply is_derive_Reals in b.
  eapply is_derive_ext; [|exact b]. intros u. cbn. now rewrite Rmult_1_r.
Qed.

Lemma pos1 : forall z, 0 < 1 + exp z.
Proof. intros z. pose proof (exp_pos z). lra. Qed.
Lemma one_plus : forall x e, 0 < 1 + Rpower x e.
Proof. intros x e. assert (0 < Rpower x e) by apply exp_pos. lra. Qed.
Lemma turnover_slope_lem : forall log10_A gamma lf0 kappa beta, exists S,
  density (fun f => turnover f log10_A gamma lf0 kappa beta) S /\
  forall f, 0 < f -> let x := Rpower (Rpower 10 lf0 / f) kappa in log_slope S f (- gamma + 2 * beta * kappa * (x / (1 + x))).
Proof.
  intros A g lf0 kappa beta. eexists. split; [apply times_dens; intros l hl; now apply turnover_shape_lem|]. intros f hf x.
  apply (slope_of A g _ (fun u => - (2 * beta) * ln (1 + exp (kappa * (lf0 * ln 10 - u))))); [exact hf|apply exp_pos|intros u; apply exp_pos| |].
  - intros u. unfold Rpower at 1. rewrite ln_exp. do 3 f_equal. unfold Rpower. f_equal. unfold Rdiv. rewrite ln_mult, ln_exp, ln_Rinv, ln_exp; [ring|apply exp_pos|apply exp_pos|apply Rinv_0_lt_compat, exp_pos].
  - assert (ex : x = exp (kappa * (lf0 * ln 10 - ln f))).
    { unfold x, Rpower. f_equal. unfold Rdiv. rewrite ln_mult, ln_exp, ln_Rinv; [ring|exact hf|apply exp_pos|now apply Rinv_0_lt_compat]. }
    auto_derive.
    + apply pos1.
    + rewrite ex. unfold Rminus. field. apply Rgt_not_eq, pos1.
Qed.
Lemma knee_slope_lem : forall log10_A gamma lfb lfk kappa delta, exists S,
  density (fun f => turnover_knee f log10_A gamma lfb lfk kappa delta) S /\
  forall f, 0 < f -> let x := Rpower (Rpower 10 lfb / f) kappa in let y := f / Rpower 10 lfk in
  log_slope S f (- gamma + (2 * delta * (y / (1 + y)) + kappa * (x / (1 + x)))).
Proof.
  intros A g lfb lfk kappa delta. eexists. split; [apply times_dens; intros l hl; now apply turnover_knee_shape_lem|]. intros f hf x y.
  assert (yp : forall f, 0 < f -> 0 < 1 + f / Rpower 10 lfk).
  { intros z hz. assert (0 < z / Rpower 10 lfk) by (apply Rdiv_lt_0_compat; [exact hz|apply exp_pos]). lra. }
  apply (slope_of A g _ (fun u => 2 * delta * ln (1 + exp u / Rpower 10 lfk) - ln (1 + exp (kappa * (lfb * ln 10 - u))))); [exact hf| | | |].
  - apply Rdiv_lt_0_compat; [apply exp_pos|apply one_plus].
  - intros u. apply Rdiv_lt_0_compat; [apply exp_pos|apply one_plus].
  - intros u. unfold Rdiv at 1. rewrite ln_mult, ln_Rinv by (apply one_plus || apply exp_pos || apply Rinv_0_lt_compat, one_plus). unfold Rpower at 1. rewrite ln_exp. unfold Rminus. do 4 f_equal.
    unfold Rpower. f_equal. unfold Rdiv. rewrite ln_mult, ln_exp, ln_Rinv, ln_exp; [ring|apply exp_pos|apply exp_pos|apply Rinv_0_lt_compat, exp_pos].
  - assert (ex : x = exp (kappa * (lfb * ln 10 - ln f))).
    { unfold x, Rpower. f_equal. unfold Rdiv. rewrite ln_mult, ln_exp, ln_Rinv; [ring|exact hf|apply exp_pos|now apply Rinv_0_lt_compat]. }
    pose proof (yp f hf). assert (0 < Rpower 10 lfk) by apply exp_pos. auto_derive.
    + rewrite exp_ln by exact hf. repeat split; try lra. apply pos1.
    + rewrite exp_ln by exact hf. rewrite ex. unfold y, Rminus. field. repeat split; try lra. apply Rgt_not_eq, pos1.
Qed.
Lemma broken_slope_lem : forall log10_A gamma delta log10_fb kappa, kappa <> 0 -> exists S,
  density (fun f => broken_powerlaw f log10_A gamma delta log10_fb kappa) S /\
  forall f, 0 < f -> let x := Rpower (f / Rpower 10 log10_fb) (1 / kappa) in
  log_slope S f (- (gamma * (1 / (1 + x)) + delta * (x / (1 + x)))).
Proof.
  intros A g delta fb kappa hk. eexists. split; [apply times_dens; intros l hl; now apply broken_powerlaw_shape_lem|]. intros f hf x.
  assert (ex : x = exp (1 / kappa * (ln f - fb * ln 10))).
  { unfold x, Rpower. f_equal. unfold Rdiv. rewrite ln_mult, ln_Rinv, ln_exp; [ring|apply exp_pos|exact hf|apply Rinv_0_lt_compat, exp_pos]. }
  assert (hx : 0 < x) by (rewrite ex; apply exp_pos).
  replace (- (g * (1 / (1 + x)) + delta * (x / (1 + x)))) with (- g + (g - delta) * (x / (1 + x))) by (field; lra).
  apply (slope_of A g _ (fun u => kappa * (g - delta) * ln (1 + exp (1 / kappa * (u - fb * ln 10))))); [exact hf|apply exp_pos|intros u; apply exp_pos| |].
  - intros u. unfold Rpower at 1. rewrite ln_exp. do 3 f_equal. unfold Rpower. f_equal. unfold Rdiv. rewrite ln_mult, ln_Rinv, !ln_exp; [ring|apply exp_pos|apply exp_pos|apply Rinv_0_lt_compat, exp_pos].
  - rewrite ex. auto_derive.
    + apply pos1.
    + unfold Rminus. field. split; [apply Rgt_not_eq, pos1|exact hk].
Qed.

(** ** Far from the break *)
Lemma density_one : forall call S S' f, density call S -> density call S' -> 0 < f -> S f = S' f.
Proof.
  intros call S S' f d d' hf. destruct (d [f] ltac:(repeat constructor; exact hf)) as [phi [e [_ v]]]. destruct (d' [f] ltac:(repeat constructor; exact hf)) as [phi' [e' [_ v']]].
  rewrite e in e'. injection e' as <-. destruct (v 0%nat ltac:(cbn; lia)) as [a _]. destruct (v' 0%nat ltac:(cbn; lia)) as [b _]. rewrite a in b. cbn in b.
  apply (Rmult_eq_reg_r (f - 0)); [exact b|lra].
Qed.
Lemma slope_one : forall call S S' f s s', density call S -> density call S' -> 0 < f -> log_slope S f s -> log_slope S' f s' -> s = s'.
Proof.
  intros call S S' f s s' d d' hf [_ a] [_ b]. apply is_derive_Reals in a. apply is_derive_Reals in b.
  apply (is_derive_ext _ (fun u => ln (S' (exp u)))) in a; [|intros u; f_equal; apply (density_one call); [exact d|exact d'|apply exp_pos]].
  apply is_derive_unique in a. apply is_derive_unique in b. now rewrite <- a, <- b.
Qed.
Lemma broken_is : forall log10_A gamma delta log10_fb kappa S f s, kappa <> 0 -> density (fun f => broken_powerlaw f log10_A gamma delta log10_fb kappa) S -> 0 < f -> log_slope S f s ->
  let x := Rpower (f / Rpower 10 log10_fb) (1 / kappa) in s = - (gamma * (1 / (1 + x)) + delta * (x / (1 + x))).
Proof.
  intros A g d fb kappa S f s hk hS hf hs. destruct (broken_slope_lem A g d fb kappa hk) as [S' [h1 h2]]. exact (slope_one _ _ _ f _ _ hS h1 hf hs (h2 f hf)).
Qed.
Lemma ratio_log : forall f fb kappa, 0 < f -> Rpower (f / Rpower 10 fb) (1 / kappa) = exp ((ln f - fb * ln 10) / kappa).
Proof.
  intros f fb kappa hf. unfold Rpower. f_equal. unfold Rdiv. rewrite ln_mult, ln_Rinv, ln_exp; [ring|apply exp_pos|exact hf|apply Rinv_0_lt_compat, exp_pos].
Qed.
Lemma broken_limits_lem : forall log10_A gamma delta log10_fb kappa S, 0 < kappa -> density (fun f => broken_powerlaw f log10_A gamma delta log10_fb kappa) S ->
  forall eps, 0 < eps -> exists low high, 0 < low /\ 0 < high /\ forall f s, log_slope S f s ->
  (0 < f < low -> Rabs (s + gamma) < eps) /\ (high < f -> Rabs (s + delta) < eps).
Proof.
  intros A g d fb kappa S hk hS eps he. set (c := Rabs (g - d)). assert (hc : 0 <= c) by apply Rabs_pos.
  set (e := eps / (c + 1)). assert (he' : 0 < e) by (apply Rdiv_lt_0_compat; lra). assert (ec : c * e < eps).
  { unfold e. apply (Rmult_lt_reg_r (c + 1)); [lra|]. replace (c * (eps / (c + 1)) * (c + 1)) with (c * eps) by (field; lra). nra. }
  exists (exp (fb * ln 10 + kappa * ln e)), (exp (fb * ln 10 - kappa * ln e)). split; [apply exp_pos|]. split; [apply exp_pos|]. intros f s hs. split; intros hf.
  - destruct hf as [hf hl]. pose proof (broken_is _ _ _ _ _ S f s (Rgt_not_eq _ _ hk) hS hf hs) as es. cbv zeta in es. rewrite ratio_log in es by exact hf. set (x := exp _) in es.
    assert (hx : 0 < x) by apply exp_pos. assert (hxe : x < e).
    { unfold x. rewrite <- (exp_ln e) by exact he'. apply exp_increasing. apply (Rmult_lt_reg_r kappa); [exact hk|]. unfold Rdiv. rewrite Rmult_assoc, Rinv_l, Rmult_1_r by lra.
      assert (ln f < fb * ln 10 + kappa * ln e) by (rewrite <- (ln_exp (fb * ln 10 + kappa * ln e)); now apply ln_increasing). lra. }
    replace (s + g) with ((g - d) * (x / (1 + x))) by (rewrite es; field; lra). rewrite Rabs_mult. fold c. rewrite Rabs_pos_eq by (apply Rlt_le, Rdiv_lt_0_compat; lra).
    assert (x / (1 + x) <= x). { apply (Rmult_le_reg_r (1 + x)); [lra|]. replace (x / (1 + x) * (1 + x)) with x by (field; lra). nra. }
    nra.
  - assert (hp : 0 < f) by (pose proof (exp_pos (fb * ln 10 - kappa * ln e)); lra). pose proof (broken_is _ _ _ _ _ S f s (Rgt_not_eq _ _ hk) hS hp hs) as es. cbv zeta in es. rewrite ratio_log in es by exact hp. set (x := exp _) in es.
    assert (hx : 0 < x) by apply exp_pos. assert (hxe : / e < x).
    { unfold x. rewrite <- (exp_ln (/ e)) by now apply Rinv_0_lt_compat. apply exp_increasing. rewrite ln_Rinv by exact he'. apply (Rmult_lt_reg_r kappa); [exact hk|]. unfold Rdiv. rewrite Rmult_assoc, Rinv_l, Rmult_1_r by lra.
      assert (fb * ln 10 - kappa * ln e < ln f) by (rewrite <- (ln_exp (fb * ln 10 - kappa * ln e)); apply ln_increasing; [apply exp_pos|exact hf]). lra. }
    replace (s + d) with ((d - g) * (1 / (1 + x))) by (rewrite es; field; lra). rewrite Rabs_mult, Rabs_minus_sym. fold c. rewrite Rabs_pos_eq by (apply Rlt_le, Rdiv_lt_0_compat; lra).
    assert (1 / (1 + x) <= e).
    { apply (Rmult_le_reg_r (1 + x)); [lra|]. replace (1 / (1 + x) * (1 + x)) with 1 by (field; lra). apply (Rmult_lt_compat_l e) in hxe; [|exact he']. rewrite Rinv_r in hxe by lra. nra. }
    nra.
Qed.
Lemma broken_sides_lem : forall log10_A gamma delta log10_fb kappa S f s, 0 < kappa -> gamma <> delta -> density (fun f => broken_powerlaw f log10_A gamma delta log10_fb kappa) S ->
  0 < f -> log_slope S f s -> (f < Rpower 10 log10_fb <-> Rabs (s + gamma) < Rabs (s + delta)).
Proof.
  intros A g d fb kappa S f s hk hn hS hf hs. pose proof (broken_is _ _ _ _ _ S f s (Rgt_not_eq _ _ hk) hS hf hs) as es. cbv zeta in es. rewrite ratio_log in es by exact hf. set (x := exp _) in es.
  assert (hx : 0 < x) by apply exp_pos. assert (hc : 0 < Rabs (g - d)) by (apply Rabs_pos_lt; lra).
  replace (s + g) with ((g - d) * (x / (1 + x))) by (rewrite es; field; lra). replace (s + d) with ((d - g) * (1 / (1 + x))) by (rewrite es; field; lra).
  rewrite !Rabs_mult, (Rabs_minus_sym d g), !(Rabs_pos_eq (_ / (1 + x))) by (apply Rlt_le, Rdiv_lt_0_compat; lra).
  assert (e1 : Rabs (g - d) * (x / (1 + x)) < Rabs (g - d) * (1 / (1 + x)) <-> x < 1).
  { assert (hi : 0 < / (1 + x)) by (apply Rinv_0_lt_compat; lra). unfold Rdiv. split; intros h.
    - apply Rmult_lt_reg_l in h; [|exact hc]. now apply Rmult_lt_reg_r in h.
    - apply Rmult_lt_compat_l; [exact hc|]. now apply Rmult_lt_compat_r. }
  assert (e2 : x < 1 <-> ln f < fb * ln 10).
  { unfold x. rewrite <- exp_0. assert (hi : 0 < / kappa) by now apply Rinv_0_lt_compat. split; intros h.
    - apply exp_lt_inv in h. unfold Rdiv in h. assert (ln f - fb * ln 10 < 0) by (apply (Rmult_lt_reg_r (/ kappa)); [exact hi|now rewrite Rmult_0_l]). lra.
    - apply exp_increasing. unfold Rdiv. rewrite <- (Rmult_0_l (/ kappa)). apply Rmult_lt_compat_r; [exact hi|lra]. }
  rewrite e1, e2. unfold Rpower. split; intros h.
  - rewrite <- (ln_exp (fb * ln 10)). now apply ln_increasing.
  - rewrite <- (exp_ln f) by exact hf. now apply exp_increasing.
Qed.
Lemma broken_documented_refuted_lem : exists log10_A gamma delta log10_fb kappa, 0 < kappa /\ forall S, density (fun f => broken_powerlaw f log10_A gamma delta log10_fb kappa) S ->
  ~ (forall eps, 0 < eps -> exists high, 0 < high /\ forall f s, high < f -> log_slope S f s -> Rabs (s + gamma) < eps).
Proof.
  exists (-15), (13 / 3), 0, (-8), (1 / 10). split; [lra|]. intros S hS h. destruct (h 1 ltac:(lra)) as [hi [hp hh]].
  destruct (broken_limits_lem (-15) (13 / 3) 0 (-8) (1 / 10) S ltac:(lra) hS 1 ltac:(lra)) as [lo [hi' [_ [hp' hl]]]].
  destruct (broken_slope_lem (-15) (13 / 3) 0 (-8) (1 / 10) ltac:(lra)) as [S' [d' s']]. specialize (s' (hi + hi') ltac:(lra)). cbv zeta in s'.
  set (s := - _) in s'. assert (hs : log_slope S (hi + hi') s).
  { destruct s' as [a b]. split; [now rewrite (density_one _ S S' _ hS d') by lra|]. apply is_derive_Reals. apply is_derive_Reals in b. eapply is_derive_ext; [|exact b]. intros u. cbn. f_equal.
    symmetry. apply (density_one _ S S' _ hS d'), exp_pos. }
  specialize (hh (hi + hi') s ltac:(lra) hs). destruct (hl _ _ hs) as [_ h2]. specialize (h2 ltac:(lra)). apply Rabs_def2 in hh. apply Rabs_def2 in h2. lra.
Qed.
Lemma broken_limits_ex : exists S, density (fun f => broken_powerlaw f (-15) (13 / 3) 0 (-8) (1 / 10)) S /\ log_slope S (Rpower 10 (-8)) (- (13 / 6)).
Proof.
  destruct (broken_slope_lem (-15) (13 / 3) 0 (-8) (1 / 10) ltac:(lra)) as [S [d s]]. exists S. split; [exact d|]. specialize (s (Rpower 10 (-8)) ltac:(apply exp_pos)). cbv zeta in s.
  assert (p : 0 < Rpower 10 (-8)) by apply exp_pos. replace (Rpower 10 (-8) / Rpower 10 (-8)) with 1 in s by (field; lra).
  replace (Rpower 1 (1 / (1 / 10))) with 1 in s by (unfold Rpower; rewrite ln_1, Rmult_0_r, exp_0; reflexivity).
  replace (- (13 / 6)) with (- (13 / 3 * (1 / (1 + 1)) + 0 * (1 / (1 + 1)))) by field. exact s.
Qed.
