(** Proofs about priors: densities integrate to one, quantile functions invert the
    distribution functions, samplers stay in the support. *)
From Coq Require Import Reals Bool List Arith Lra Lia.
From Coquelicot Require Import Coquelicot.
From Verif Require Import PyBase ModelPrior.
Import ListNotations.
Open Scope list_scope.
Open Scope bool_scope.
Open Scope R_scope.

Lemma lebP x y : leb x y = true <-> x <= y.
Proof. unfold leb. destruct (Rle_dec x y); split; (easy || lra). Qed.
Lemma ltbP x y : ltb x y = true <-> x < y.
Proof. unfold ltb. destruct (Rlt_dec x y); split; (easy || lra). Qed.
Lemma lebF x y : leb x y = false <-> y < x.
Proof. unfold leb. destruct (Rle_dec x y); split; (easy || lra). Qed.
Lemma ltbF x y : ltb x y = false <-> y <= x.
Proof. unfold ltb. destruct (Rlt_dec x y); split; (easy || lra). Qed.

(** ** Integrals of a function cut to an interval *)
Definition clamp (lo hi x : R) : R := Rmax lo (Rmin x hi).
Lemma clamp_in lo hi x : lo <= x <= hi -> clamp lo hi x = x.
Proof. intros h. unfold clamp. rewrite Rmin_left, Rmax_right; lra. Qed.
Lemma clamp_lo lo hi x : lo <= hi -> x <= lo -> clamp lo hi x = lo.
Proof. intros h1 h. unfold clamp. rewrite Rmin_left, Rmax_left; lra. Qed.
Lemma clamp_hi lo hi x : lo <= hi -> hi <= x -> clamp lo hi x = hi.
Proof. intros h1 h. unfold clamp. rewrite Rmin_right, Rmax_right; lra. Qed.
Lemma is_RInt_zero g a b : (forall x, Rmin a b < x < Rmax a b -> g x = 0) -> is_RInt g a b 0.
Proof.
  intros h. apply (is_RInt_ext (fun _ => 0)); [intros x hx; symmetry; auto|].
  evar_last; [apply @is_RInt_const|]. exact (Rmult_0_r (b - a)).
Qed.
Lemma cut_integral (F f g : R -> R) lo hi : lo <= hi ->
  (forall x, lo <= x <= hi -> is_derive F x (f x)) -> (forall x, lo <= x <= hi -> continuous f x) ->
  (forall x, lo < x < hi -> g x = f x) -> (forall x, x < lo \/ hi < x -> g x = 0) ->
  forall a b, is_RInt g a b (F (clamp lo hi b) - F (clamp lo hi a)).
Proof.
  intros le hd hc hin hout.
  assert (mid : forall x, lo <= x <= hi -> is_RInt g lo x (F x - F lo)).
  { intros x hx. apply (is_RInt_ext f).
    - rewrite Rmin_left, Rmax_right by lra. intros y hy. symmetry. apply hin; lra.
    - apply (is_RInt_derive F f); rewrite Rmin_left, Rmax_right by lra; intros y hy; [apply hd|apply hc]; lra. }
  assert (P : forall x, is_RInt g lo x (F (clamp lo hi x) - F lo)).
  { intros x. destruct (Rle_lt_dec x lo) as [l|l]; [|destruct (Rle_lt_dec x hi) as [l'|l']].
    - rewrite clamp_lo by lra. rewrite Rminus_eq_0. apply is_RInt_zero. rewrite Rmin_right, Rmax_left by lra. intros y hy. apply hout; lra.
    - rewrite clamp_in by lra. apply mid; lra.
    - rewrite clamp_hi by lra. replace (F hi - F lo) with (plus (F hi - F lo) 0) by (unfold plus; simpl; ring).
      apply (is_RInt_Chasles g lo hi x); [apply mid; lra|]. apply is_RInt_zero. rewrite Rmin_left, Rmax_right by lra. intros y hy. apply hout; lra. }
  intros a b. replace (F (clamp lo hi b) - F (clamp lo hi a)) with (plus (opp (F (clamp lo hi a) - F lo)) (F (clamp lo hi b) - F lo))
    by (unfold plus, opp; simpl; ring).
  apply (is_RInt_Chasles g a lo b); [|apply P]. apply @is_RInt_swap. apply P.
Qed.
Lemma is_RInt_inj f a b (x y : R) : is_RInt f a b x -> is_RInt f a b y -> x = y.
Proof. intros h1 h2. rewrite <- (is_RInt_unique _ _ _ _ h1). now apply is_RInt_unique. Qed.

(** ** Uniform *)
Lemma uniform_val v pmin pmax : pmin < pmax -> UniformPrior v pmin pmax = Ok (num (leb pmin v && leb v pmax) / (pmax - pmin)).
Proof. intros lt. unfold UniformPrior. destruct (Req_EM_T _ _); [lra|reflexivity]. Qed.
Lemma num_in pmin pmax v : pmin <= v <= pmax -> num (leb pmin v && leb v pmax) = 1.
Proof. intros [h1 h2]. apply lebP in h1, h2. now rewrite h1, h2. Qed.
Lemma num_out pmin pmax v : v < pmin \/ pmax < v -> num (leb pmin v && leb v pmax) = 0.
Proof. intros [h|h]; apply lebF in h; rewrite h; [reflexivity|now rewrite andb_false_r]. Qed.
Lemma uniform_cdf pmin pmax f : pmin < pmax -> (forall v, UniformPrior v pmin pmax = Ok (f v)) ->
  forall a b, is_RInt f a b ((clamp pmin pmax b - clamp pmin pmax a) / (pmax - pmin)).
Proof.
  intros lt h a b. replace ((clamp pmin pmax b - clamp pmin pmax a) / (pmax - pmin)) with
    ((fun x => x / (pmax - pmin)) (clamp pmin pmax b) - (fun x => x / (pmax - pmin)) (clamp pmin pmax a)) by (simpl; field; lra).
  assert (e : forall v, f v = num (leb pmin v && leb v pmax) / (pmax - pmin)).
  { intros v. specialize (h v). rewrite uniform_val in h by exact lt. now injection h. }
  apply (cut_integral (fun x => x / (pmax - pmin)) (fun _ => / (pmax - pmin))); try lra.
  - intros x _. auto_derive; [lra|ring].
  - intros x _. apply continuous_const.
  - intros x hx. rewrite e, num_in by lra. lra.
  - intros x hx. rewrite e, num_out by exact hx. lra.
Qed.
Lemma uniform_density_lem : forall pmin pmax, pmin < pmax -> exists f,
  (forall v, UniformPrior v pmin pmax = Ok (f v)) /\ (forall v, 0 <= f v) /\ (forall v, v < pmin \/ pmax < v -> f v = 0) /\
  (forall a b, a <= pmin -> pmax <= b -> is_RInt f a b 1) /\
  (forall a b, pmin <= a <= pmax -> pmin <= b <= pmax -> is_RInt f a b ((b - a) / (pmax - pmin))).
Proof.
  intros pmin pmax lt. exists (fun v => num (leb pmin v && leb v pmax) / (pmax - pmin)).
  assert (h : forall v, UniformPrior v pmin pmax = Ok (num (leb pmin v && leb v pmax) / (pmax - pmin))) by (intros v; now apply uniform_val).
  assert (I := uniform_cdf pmin pmax _ lt h). split; [exact h|]. split; [|split; [|split]].
  - intros v. unfold num. destruct (_ && _); [|lra]. apply Rlt_le. apply Rdiv_lt_0_compat; lra.
  - intros v hv. rewrite num_out by exact hv. lra.
  - intros a b ha hb. specialize (I a b). rewrite (clamp_lo _ _ a), (clamp_hi _ _ b) in I by lra. now replace ((pmax - pmin) / (pmax - pmin)) with 1 in I by (field; lra).
  - intros a b ha hb. specialize (I a b). now rewrite !clamp_in in I by lra.
Qed.
Lemma uniform_quantile_lem : forall pmin pmax f a, pmin < pmax -> (forall v, UniformPrior v pmin pmax = Ok (f v)) -> a <= pmin ->
  (forall q, 0 <= q <= 1 -> exists x, UniformPPF q pmin pmax = Some x /\ pmin <= x <= pmax /\ is_RInt f a x q) /\
  (forall x q, pmin <= x <= pmax -> is_RInt f a x q -> UniformPPF q pmin pmax = Some x) /\
  (forall q, q < 0 \/ 1 < q -> UniformPPF q pmin pmax = None).
Proof.
  intros pmin pmax f a lt h ha. assert (I := fun x => uniform_cdf pmin pmax _ lt h a x). rewrite (clamp_lo _ _ a) in I by lra.
  assert (pp : forall q, 0 <= q <= 1 -> UniformPPF q pmin pmax = Some (pmin + (pmax - pmin) * q)).
  { intros q [h1 h2]. unfold UniformPPF, uniform_ppf. apply lebP in h1, h2. rewrite h1, h2.
    destruct (ltb 0 (pmax - pmin)) eqn:E; [reflexivity|]. apply ltbF in E. lra. }
  split; [|split].
  - intros q hq. exists (pmin + (pmax - pmin) * q). assert (0 <= (pmax - pmin) * q <= pmax - pmin) by (split; [apply Rmult_le_pos; lra|]; rewrite <- (Rmult_1_r (pmax - pmin)) at 2; apply Rmult_le_compat_l; lra).
    split; [now apply pp|]. split; [lra|]. specialize (I (pmin + (pmax - pmin) * q)). rewrite clamp_in in I by lra.
    replace q with ((pmin + (pmax - pmin) * q - pmin) / (pmax - pmin)) at 2 by (field; lra). exact I.
  - intros x q hx hq. specialize (I x). rewrite clamp_in in I by exact hx. assert (e := is_RInt_inj _ _ _ _ _ I hq). subst q. rewrite pp.
    + f_equal. field. lra.
    + split; [apply Rmult_le_pos; [lra|apply Rlt_le, Rinv_0_lt_compat; lra]|]. apply Rmult_le_reg_r with (pmax - pmin); [lra|]. field_simplify; lra.
  - intros q hq. unfold UniformPPF, uniform_ppf. destruct (ltb _ _); [|reflexivity]. destruct hq as [hq|hq]; apply lebF in hq; rewrite hq; [reflexivity|now rewrite andb_false_r].
Qed.
Lemma uniform_sampler_lem : forall pmin pmax f a u, pmin < pmax -> (forall v, UniformPrior v pmin pmax = Ok (f v)) -> a <= pmin -> 0 <= u < 1 ->
  pmin <= UniformSampler u pmin pmax < pmax /\
  (forall x q, pmin <= x -> is_RInt f a x q -> (UniformSampler u pmin pmax <= x <-> u <= q)).
Proof.
  intros pmin pmax f a u lt h ha hu. assert (I := fun x => uniform_cdf pmin pmax _ lt h a x). rewrite (clamp_lo _ _ a) in I by lra.
  unfold UniformSampler. assert (p0 : 0 <= (pmax - pmin) * u) by (apply Rmult_le_pos; lra).
  assert (p1 : (pmax - pmin) * u < pmax - pmin) by (rewrite <- (Rmult_1_r (pmax - pmin)) at 2; apply Rmult_lt_compat_l; lra).
  split; [lra|]. intros x q hx hq. specialize (I x). assert (e := is_RInt_inj _ _ _ _ _ I hq).
  assert (key : u <= q <-> (pmax - pmin) * u <= clamp pmin pmax x - pmin).
  { replace (clamp pmin pmax x - pmin) with ((pmax - pmin) * q) by (subst q; field; lra).
    split; intros k; [apply Rmult_le_compat_l; lra|]. apply Rmult_le_reg_l with (pmax - pmin); lra. }
  rewrite key. destruct (Rlt_le_dec x pmax) as [l'|l'].
  - rewrite clamp_in by lra. lra.
  - rewrite clamp_hi by lra. lra.
Qed.
Lemma uniform_degenerate_lem : forall pmin pmax, pmax <= pmin ->
  (forall q, UniformPPF q pmin pmax = None) /\ (forall v, UniformPrior v pmin pmin = Err ZeroDivisionError) /\
  (pmax < pmin -> forall v, UniformPrior v pmin pmax = Ok 0).
Proof.
  intros pmin pmax le. split; [|split].
  - intros q. unfold UniformPPF, uniform_ppf. destruct (ltb _ _) eqn:E; [apply ltbP in E; lra|reflexivity].
  - intros v. unfold UniformPrior. destruct (Req_EM_T _ _); [reflexivity|lra].
  - intros lt v. unfold UniformPrior. destruct (Req_EM_T _ _); [lra|]. rewrite num_out by lra. f_equal. unfold Rdiv. ring.
Qed.

(** ** LinearExp *)
Lemma ln10_pos : 0 < ln 10.
Proof. rewrite <- ln_1. apply ln_increasing; lra. Qed.
Lemma pow10_lt x y : x < y <-> pow10 x < pow10 y.
Proof.
  unfold pow10. split; intros h; [apply Rpower_lt; lra|]. destruct (Rlt_le_dec x y) as [l|l]; [exact l|].
  assert (Rpower 10 y <= Rpower 10 x) by (apply Rle_Rpower; lra). lra.
Qed.
Lemma pow10_le x y : x <= y <-> pow10 x <= pow10 y.
Proof. split; intros h; apply Rnot_lt_le; intros k; apply pow10_lt in k; lra. Qed.
Lemma pow10_pos x : 0 < pow10 x.
Proof. apply exp_pos. Qed.
Lemma log10_pow10 x : log10 (pow10 x) = x.
Proof. unfold log10, pow10, Rpower. rewrite ln_exp. field. generalize ln10_pos; lra. Qed.
Lemma pow10_log10 y : 0 < y -> pow10 (log10 y) = y.
Proof. intros h. unfold log10, pow10, Rpower. replace (ln y / ln 10 * ln 10) with (ln y) by (field; generalize ln10_pos; lra). now apply exp_ln. Qed.
Lemma linexp_val v pmin pmax : pmin < pmax ->
  LinearExpPrior v pmin pmax = Ok (num (leb pmin v && leb v pmax) * ln 10 * pow10 v / (pow10 pmax - pow10 pmin)).
Proof. intros lt. unfold LinearExpPrior. destruct (leb pmax pmin) eqn:E; [apply lebP in E; lra|reflexivity]. Qed.
Lemma linexp_cdf pmin pmax f : pmin < pmax -> (forall v, LinearExpPrior v pmin pmax = Ok (f v)) ->
  forall a b, is_RInt f a b ((pow10 (clamp pmin pmax b) - pow10 (clamp pmin pmax a)) / (pow10 pmax - pow10 pmin)).
Proof.
  intros lt h a b. assert (D := proj1 (pow10_lt _ _) lt). set (d := pow10 pmax - pow10 pmin). assert (hd : 0 < d) by (unfold d; lra).
  replace ((pow10 (clamp pmin pmax b) - pow10 (clamp pmin pmax a)) / d) with
    ((fun x => pow10 x / d) (clamp pmin pmax b) - (fun x => pow10 x / d) (clamp pmin pmax a)) by (simpl; field; lra).
  assert (e : forall v, f v = num (leb pmin v && leb v pmax) * ln 10 * pow10 v / d).
  { intros v. specialize (h v). rewrite linexp_val in h by exact lt. now injection h. }
  apply (cut_integral (fun x => pow10 x / d) (fun x => ln 10 * pow10 x / d)); try lra.
  - intros x _. unfold pow10, Rpower. auto_derive; [lra|]. field. lra.
  - intros x _. apply (ex_derive_continuous (fun x => ln 10 * pow10 x / d)). unfold pow10, Rpower. auto_derive. lra.
  - intros x hx. rewrite e, num_in by lra. now rewrite Rmult_1_l.
  - intros x hx. rewrite e, num_out by exact hx. unfold Rdiv. ring.
Qed.
Lemma linexp_density_lem : forall pmin pmax, pmin < pmax -> exists f,
  (forall v, LinearExpPrior v pmin pmax = Ok (f v)) /\ (forall v, 0 <= f v) /\ (forall v, v < pmin \/ pmax < v -> f v = 0) /\
  (forall a b, a <= pmin -> pmax <= b -> is_RInt f a b 1).
Proof.
  intros pmin pmax lt. assert (D := proj1 (pow10_lt _ _) lt).
  exists (fun v => num (leb pmin v && leb v pmax) * ln 10 * pow10 v / (pow10 pmax - pow10 pmin)).
  assert (h : forall v, LinearExpPrior v pmin pmax = Ok (num (leb pmin v && leb v pmax) * ln 10 * pow10 v / (pow10 pmax - pow10 pmin))) by (intros v; now apply linexp_val).
  assert (I := linexp_cdf pmin pmax _ lt h). split; [exact h|]. split; [|split].
  - intros v. assert (0 < ln 10 * pow10 v / (pow10 pmax - pow10 pmin)).
    { apply Rdiv_lt_0_compat; [apply Rmult_lt_0_compat; [apply ln10_pos|apply pow10_pos]|lra]. }
    unfold num. destruct (_ && _); [rewrite Rmult_1_l; lra|]. unfold Rdiv. rewrite !Rmult_0_l. lra.
  - intros v hv. rewrite num_out by exact hv. unfold Rdiv. ring.
  - intros a b ha hb. specialize (I a b). rewrite (clamp_lo _ _ a), (clamp_hi _ _ b) in I by lra.
    replace ((pow10 pmax - pow10 pmin) / (pow10 pmax - pow10 pmin)) with 1 in I by (field; lra). exact I.
Qed.
(** The logarithm of a uniform variable: each interval has the probability of its
    image. *)
Lemma clamp_pow10 lo hi x : lo <= hi -> clamp (pow10 lo) (pow10 hi) (pow10 x) = pow10 (clamp lo hi x).
Proof.
  intros le. assert (mono : forall x y, x <= y -> pow10 x <= pow10 y) by (intros p q [l|e]; [apply Rlt_le; now apply (proj1 (pow10_lt p q))|subst; lra]).
  destruct (Rle_lt_dec x lo) as [l|l]; [|destruct (Rle_lt_dec x hi) as [l'|l']].
  - rewrite !clamp_lo; auto.
  - rewrite !clamp_in; auto; try lra. split; apply mono; lra.
  - rewrite !clamp_hi; auto; try lra. apply mono; lra.
Qed.
Lemma linexp_pushforward_lem : forall pmin pmax f g, pmin < pmax ->
  (forall v, LinearExpPrior v pmin pmax = Ok (f v)) -> (forall v, UniformPrior v (Rpower 10 pmin) (Rpower 10 pmax) = Ok (g v)) ->
  forall a b, exists p, is_RInt f a b p /\ is_RInt g (Rpower 10 a) (Rpower 10 b) p.
Proof.
  intros pmin pmax f g lt hf hg a b. eexists. split; [now apply (linexp_cdf pmin pmax f lt hf)|].
  assert (I := uniform_cdf (pow10 pmin) (pow10 pmax) g (proj1 (pow10_lt _ _) lt) hg (pow10 a) (pow10 b)).
  now rewrite !clamp_pow10 in I by lra.
Qed.
Lemma linexp_quantile_lem : forall pmin pmax f a, pmin < pmax -> (forall v, LinearExpPrior v pmin pmax = Ok (f v)) -> a <= pmin ->
  (forall q, 0 <= q <= 1 -> exists x, LinearExpPPF q pmin pmax = Some x /\ pmin <= x <= pmax /\ is_RInt f a x q) /\
  (forall x q, pmin <= x <= pmax -> is_RInt f a x q -> LinearExpPPF q pmin pmax = Some x) /\
  (forall q, q < 0 \/ 1 < q -> LinearExpPPF q pmin pmax = None).
Proof.
  intros pmin pmax f a lt h ha. assert (D := proj1 (pow10_lt _ _) lt). assert (hg := fun v => uniform_val v _ _ D).
  assert (U := uniform_quantile_lem (pow10 pmin) (pow10 pmax) _ (pow10 pmin) D hg (Rle_refl _)). destruct U as [U1 [U2 U3]].
  assert (I := fun x => linexp_cdf pmin pmax _ lt h a x). rewrite (clamp_lo _ _ a) in I by lra.
  assert (back : forall y, pow10 pmin <= y <= pow10 pmax -> pmin <= log10 y <= pmax /\ pow10 (log10 y) = y).
  { intros y hy. assert (0 < y) by (generalize (pow10_pos pmin); lra). assert (e := pow10_log10 y H). split; [|exact e].
    split; apply Rnot_lt_le; intros k; apply pow10_lt in k; lra. }
  split; [|split].
  - intros q hq. destruct (U1 q hq) as [y [e [hy i]]]. exists (log10 y). destruct (back y hy) as [hl pe].
    split; [|split; [exact hl|]].
    + unfold LinearExpPPF. unfold UniformPPF in e. now rewrite e.
    + specialize (I (log10 y)). rewrite clamp_in, pe in I by exact hl.
      assert (J := uniform_cdf (pow10 pmin) (pow10 pmax) _ D hg (pow10 pmin) y). rewrite !clamp_in in J by lra.
      now rewrite (is_RInt_inj _ _ _ _ _ i J).
  - intros x q hx hq. specialize (I x). rewrite clamp_in in I by exact hx. assert (e := is_RInt_inj _ _ _ _ _ I hq).
    assert (hp : pow10 pmin <= pow10 x <= pow10 pmax) by (split; apply Rnot_lt_le; intros k; apply pow10_lt in k; lra).
    assert (J := uniform_cdf (pow10 pmin) (pow10 pmax) _ D hg (pow10 pmin) (pow10 x)). rewrite !clamp_in in J by lra.
    rewrite e in J. apply U2 in J; [|exact hp]. unfold UniformPPF in J. unfold LinearExpPPF. rewrite J. simpl. now rewrite log10_pow10.
  - intros q hq. specialize (U3 q hq). unfold UniformPPF in U3. unfold LinearExpPPF. now rewrite U3.
Qed.
Lemma linexp_sampler_lem : forall pmin pmax f a u, pmin < pmax -> (forall v, LinearExpPrior v pmin pmax = Ok (f v)) -> a <= pmin -> 0 <= u < 1 ->
  exists s, LinearExpSampler u pmin pmax = Ok s /\ pmin <= s < pmax /\
  (forall x q, pmin <= x -> is_RInt f a x q -> (s <= x <-> u <= q)).
Proof.
  intros pmin pmax f a u lt h ha hu. assert (D := proj1 (pow10_lt _ _) lt). assert (hg := fun v => uniform_val v _ _ D).
  assert (I := fun x => linexp_cdf pmin pmax _ lt h a x). rewrite (clamp_lo _ _ a) in I by lra.
  destruct (uniform_sampler_lem _ _ _ (pow10 pmin) u D hg (Rle_refl _) hu) as [S1 S2].
  set (y := UniformSampler u (pow10 pmin) (pow10 pmax)) in *. assert (hy : 0 < y) by (generalize (pow10_pos pmin); lra).
  assert (pe := pow10_log10 y hy). exists (log10 y). split; [|split].
  - unfold LinearExpSampler. destruct (leb pmax pmin) eqn:E; [apply lebP in E; lra|reflexivity].
  - split; [apply Rnot_lt_le; intros k; apply pow10_lt in k; lra|]. apply pow10_lt. lra.
  - intros x q hx hq. assert (px : pow10 pmin <= pow10 x) by (apply Rnot_lt_le; intros k; apply pow10_lt in k; lra).
    specialize (S2 (pow10 x) q px). rewrite <- S2.
    + rewrite (pow10_le (log10 y) x), pe. reflexivity.
    + assert (J := uniform_cdf (pow10 pmin) (pow10 pmax) _ D hg (pow10 pmin) (pow10 x)). rewrite clamp_pow10, (clamp_in _ _ (pow10 pmin)) in J by lra.
      specialize (I x). now rewrite <- (is_RInt_inj _ _ _ _ _ I hq).
Qed.
Lemma linexp_degenerate_lem : forall pmin pmax, pmax <= pmin ->
  (forall v, LinearExpPrior v pmin pmax = Err ValueError) /\ (forall u, LinearExpSampler u pmin pmax = Err ValueError) /\
  (forall q, LinearExpPPF q pmin pmax = None).
Proof.
  intros pmin pmax le. assert (e := proj2 (lebP _ _) le). unfold LinearExpPrior, LinearExpSampler. rewrite e. repeat split.
  intros q. unfold LinearExpPPF, uniform_ppf. destruct (ltb _ _) eqn:E; [|reflexivity]. apply ltbP in E. assert (pow10 pmin < pow10 pmax) by lra. apply pow10_lt in H. lra.
Qed.
(** Vectors: every component like a scalar, and one bad component raises. *)
Lemma anyb_map {X} (p : X -> bool) l : anyb (map p l) = true <-> exists x, In x l /\ p x = true.
Proof.
  induction l as [|x l IH]; simpl; [split; [discriminate|intros [? [[] _]]]|]. rewrite orb_true_iff, IH. split.
  - intros [h|[y [h1 h2]]]; eauto.
  - intros [y [[->|h1] h2]]; eauto.
Qed.
Lemma nth_map_lt {X Y} (F : X -> Y) l i d d' : (i < length l)%nat -> nth i (map F l) d = F (nth i l d').
Proof. intros h. rewrite (nth_indep _ d (F d')) by (now rewrite map_length). apply map_nth. Qed.
Lemma linexp_vector_lem : forall values us pmins pmaxs, length values = length pmins -> length us = length pmins -> length pmaxs = length pmins ->
  ((exists i, (i < length pmins)%nat /\ nth i pmaxs 0 <= nth i pmins 0) ->
     LinearExpPriors values pmins pmaxs = Err ValueError /\ LinearExpSamplers us pmins pmaxs = Err ValueError) /\
  ((forall i, (i < length pmins)%nat -> nth i pmins 0 < nth i pmaxs 0) -> exists ps ss,
     LinearExpPriors values pmins pmaxs = Ok ps /\ LinearExpSamplers us pmins pmaxs = Ok ss /\ length ps = length pmins /\ length ss = length pmins /\
     forall i, (i < length pmins)%nat -> LinearExpPrior (nth i values 0) (nth i pmins 0) (nth i pmaxs 0) = Ok (nth i ps 0) /\
       LinearExpSampler (nth i us 0) (nth i pmins 0) (nth i pmaxs 0) = Ok (nth i ss 0)).
Proof.
  intros values us pmins pmaxs l1 l2 l3. split.
  - intros [i [hi le]]. assert (e : anyb (map (fun p => leb (snd p) (fst p)) (combine pmins pmaxs)) = true).
    { apply anyb_map. exists (nth i pmins 0, nth i pmaxs 0). split; [|now apply lebP]. rewrite <- combine_nth by congruence.
      apply nth_In. rewrite combine_length. lia. }
    unfold LinearExpPriors, LinearExpSamplers. now rewrite e.
  - intros h. assert (e : anyb (map (fun p => leb (snd p) (fst p)) (combine pmins pmaxs)) = false).
    { apply not_true_iff_false. intros k. apply anyb_map in k. destruct k as [[x y] [k1 k2]]. apply (In_nth _ _ (0, 0)) in k1.
      destruct k1 as [i [k1 k3]]. rewrite combine_nth in k3 by congruence. injection k3 as <- <-. apply lebP in k2. rewrite combine_length in k1.
      specialize (h i). cbn [fst snd] in k2. assert (hi : (i < length pmins)%nat) by lia; specialize (h hi); lra. }
    unfold LinearExpPriors, LinearExpSamplers. rewrite e. do 2 eexists. split; [reflexivity|]. split; [reflexivity|].
    split; [rewrite map_length, !combine_length; lia|]. split; [rewrite map_length, !combine_length; lia|].
    intros i hi. assert (lt := h i hi). unfold LinearExpPrior, LinearExpSampler. destruct (leb _ _) eqn:E; [apply lebP in E; lra|]. clear E.
    assert (len1 : (i < length (combine values (combine pmins pmaxs)))%nat) by (rewrite !combine_length; lia).
    assert (len2 : (i < length (combine us (combine pmins pmaxs)))%nat) by (rewrite !combine_length; lia).
    split; f_equal.
    + set (F := fun vp : R * (R * R) => _). rewrite (nth_map_lt F _ i 0 (0, (0, 0))) by assumption.
      rewrite !combine_nth by (rewrite ?combine_length; lia). reflexivity.
    + set (F := fun vp : R * (R * R) => _). rewrite (nth_map_lt F _ i 0 (0, (0, 0))) by assumption.
      rewrite !combine_nth by (rewrite ?combine_length; lia). reflexivity.
Qed.

(** ** The Gaussian integral *)
Definition gauss (t : R) : R := exp (- t ^ 2).
Lemma gauss_cont t : continuous gauss t.
Proof. apply (ex_derive_continuous gauss). unfold gauss. auto_derive. exact I. Qed.
Lemma gauss_int a b : ex_RInt gauss a b.
Proof. apply (ex_RInt_continuous gauss). intros; apply gauss_cont. Qed.
Lemma gauss_pos t : 0 < gauss t.
Proof. apply exp_pos. Qed.
Definition G (x : R) : R := RInt gauss 0 x.
Lemma G_int x : is_RInt gauss 0 x (G x).
Proof. apply (RInt_correct gauss), gauss_int. Qed.
Lemma G_derive (x : R) : is_derive G x (gauss x).
Proof.
  apply (is_derive_RInt gauss G 0 x); [|apply gauss_cont]. exists (mkposreal 1 Rlt_0_1). intros y _. apply G_int.
Qed.
Lemma G_lt x y : x < y -> G x < G y.
Proof.
  intros lt. assert (0 < RInt gauss x y) by (apply RInt_gt_0; [exact lt|intros; apply gauss_pos|intros; apply gauss_cont]).
  assert (e := RInt_Chasles gauss 0 x y (gauss_int _ _) (gauss_int _ _)). unfold plus in e; simpl in e. unfold G. lra.
Qed.
Lemma G_0 : G 0 = 0.
Proof. unfold G. now rewrite RInt_point. Qed.
Lemma G_odd x : G (- x) = - G x.
Proof.
  assert (i : is_RInt gauss 0 (- x) (- G x)).
  { assert (h := is_RInt_comp_lin gauss (-1) 0 0 (-x) (G (-1 * - x + 0))).
    assert (e1 : -1 * 0 + 0 = 0) by ring. rewrite e1 in h.
    assert (h2 : is_RInt gauss 0 (-1 * - x + 0) (G (-1 * - x + 0))) by apply G_int. specialize (h h2).
    apply (is_RInt_opp (fun y => scal (-1) (gauss (-1 * y + 0)))) in h. replace (-1 * - x + 0) with x in h by ring.
    apply (is_RInt_ext _ gauss _ _ _) in h; [exact h|]. intros t _. unfold opp, scal; simpl; unfold mult; simpl. unfold gauss.
    replace ((-1 * t + 0) ^ 2) with (t ^ 2) by ring. ring. }
  unfold G at 1. now apply is_RInt_unique.
Qed.
Definition kern (x t : R) : R := exp (- x ^ 2 * (1 + t ^ 2)) / (1 + t ^ 2).
Definition K (x : R) : R := RInt (kern x) 0 1.
Lemma one_sq t : 0 < 1 + t ^ 2.
Proof. generalize (pow2_ge_0 t); lra. Qed.
Lemma kern_cont x t : continuous (kern x) t.
Proof. apply (ex_derive_continuous (kern x)). unfold kern. auto_derive. generalize (one_sq t); simpl; lra. Qed.
Lemma kern_int x a b : ex_RInt (kern x) a b.
Proof. apply (ex_RInt_continuous (kern x)). intros; apply kern_cont. Qed.
Lemma kern_derive (x t : R) : is_derive (fun u => kern u t) x (-2 * x * exp (- x ^ 2 * (1 + t ^ 2))).
Proof. unfold kern. assert (h := one_sq t). auto_derive; [lra|]. simpl. field. simpl in h; lra. Qed.
Lemma K_derive (x : R) : is_derive K x (-2 * gauss x * G x).
Proof.
  assert (d := is_derive_RInt_param kern 0 1 x).
  replace (-2 * gauss x * G x) with (RInt (fun t => Derive (fun u => kern u t) x) 0 1).
  - apply d; clear d.
    + exists (mkposreal 1 Rlt_0_1). intros y _ t _. eexists. apply kern_derive.
    + intros t _. apply (continuity_2d_pt_ext (fun u v => (-2 * u) * exp (- u ^ 2 * (1 + v ^ 2)))).
      * intros u v. symmetry. apply is_derive_unique, kern_derive.
      * apply continuity_2d_pt_mult.
        { apply continuity_2d_pt_mult; [apply continuity_2d_pt_const|apply continuity_2d_pt_id1]. }
        apply (continuity_1d_2d_pt_comp exp (fun u v => - u ^ 2 * (1 + v ^ 2))).
        { apply derivable_continuous_pt, derivable_pt_exp. }
        apply continuity_2d_pt_mult.
        { apply continuity_2d_pt_opp. apply (continuity_2d_pt_ext (fun u v => u * u)); [intros; ring|]. apply continuity_2d_pt_mult; apply continuity_2d_pt_id1. }
        { apply continuity_2d_pt_plus; [apply continuity_2d_pt_const|]. apply (continuity_2d_pt_ext (fun u v => v * v)); [intros; ring|]. apply continuity_2d_pt_mult; apply continuity_2d_pt_id2. }
    + exists (mkposreal 1 Rlt_0_1). intros y _. apply (kern_int y).
  - clear d. assert (h := is_RInt_comp_lin gauss x 0 0 1 (G (x * 1 + 0))). replace (x * 0 + 0) with 0 in h by ring.
    assert (h2 : is_RInt gauss 0 (x * 1 + 0) (G (x * 1 + 0))) by apply G_int. specialize (h h2). clear h2.
    rewrite Rmult_1_r, Rplus_0_r in h.
    apply (is_RInt_scal _ _ _ (-2 * gauss x)) in h. apply is_RInt_unique. evar_last.
    { eapply is_RInt_ext; [|exact h]. intros t _. cbv beta. etransitivity; [|symmetry; exact (is_derive_unique _ _ _ (kern_derive x t))].
      unfold scal; simpl; unfold mult; simpl. unfold gauss.
      simpl. replace (- (x * (x * 1)) * (1 + t * (t * 1))) with (- (x * (x * 1)) + - ((x * t + 0) * ((x * t + 0) * 1))) by ring. rewrite exp_plus. ring. }
    unfold scal; simpl; unfold mult; simpl. ring.
Qed.
Lemma K_0 : K 0 = PI / 4.
Proof.
  unfold K. apply is_RInt_unique. replace (PI / 4) with (minus (atan 1) (atan 0)) by (unfold minus, plus, opp; simpl; rewrite atan_1, atan_0; lra).
  apply (is_RInt_ext (fun t => / (1 + t ^ 2))).
  - intros t _. change (@eq R (/ (1 + t ^ 2)) (kern 0 t)). unfold kern. replace (- 0 ^ 2 * (1 + t ^ 2)) with 0 by (simpl; ring). rewrite exp_0. field. generalize (one_sq t); lra.
  - apply (is_RInt_derive atan (fun t => / (1 + t ^ 2))).
    + intros t _. apply is_derive_Reals. apply derivable_pt_lim_atan.
    + intros t _. apply (ex_derive_continuous (fun t => / (1 + t ^ 2))). auto_derive. generalize (one_sq t); simpl; lra.
Qed.
Lemma gauss_square x : G x ^ 2 + K x = PI / 4.
Proof.
  set (H := fun y => G y ^ 2 + K y).
  assert (d : forall y, is_derive H y 0).
  { intros y. unfold H. evar_last; [apply @is_derive_plus; [apply is_derive_pow, G_derive|apply K_derive]|]. unfold plus; simpl. ring. }
  assert (e : H x = H 0).
  { destruct (MVT_gen H 0 x (fun _ => 0)) as [c [_ e]]; [intros y _; apply d|intros y _; apply derivable_continuous_pt; exists 0; apply is_derive_Reals, d|]. lra. }
  unfold H in e. rewrite e, G_0, K_0. simpl. lra.
Qed.
Lemma K_bound x : 0 <= K x <= gauss x.
Proof.
  split.
  - apply RInt_ge_0; [lra|apply kern_int|]. intros t _. apply Rlt_le, Rdiv_lt_0_compat; [apply exp_pos|apply one_sq].
  - replace (gauss x) with (RInt (fun _ => gauss x) 0 1) by (rewrite RInt_const; unfold scal; simpl; unfold mult; simpl; ring).
    apply RInt_le; [lra|apply kern_int|apply ex_RInt_const|]. intros t _. unfold kern, gauss.
    apply Rmult_le_reg_r with (1 + t ^ 2); [apply one_sq|]. unfold Rdiv. rewrite Rmult_assoc, Rinv_l by (generalize (one_sq t); lra). rewrite Rmult_1_r.
    assert (l : exp (- x ^ 2 * (1 + t ^ 2)) <= exp (- x ^ 2)).
    { assert (q : - x ^ 2 * (1 + t ^ 2) <= - x ^ 2) by (assert (0 <= x ^ 2 * t ^ 2) by (apply Rmult_le_pos; apply pow2_ge_0); lra).
      destruct q as [q|q]; [left; now apply exp_increasing|rewrite q; lra]. }
    assert (0 < exp (- x ^ 2)) by apply exp_pos. generalize (pow2_ge_0 t); intros.
    assert (0 <= exp (- x ^ 2) * t ^ 2) by (apply Rmult_le_pos; lra). lra.
Qed.
Lemma gauss_limit : is_lim G p_infty (sqrt PI / 2).
Proof.
  assert (le : forall x, 0 <= x -> G x = sqrt (PI / 4 - K x)).
  { intros x hx. assert (0 <= G x) by (destruct hx as [hx|<-]; [generalize (G_lt _ _ hx); rewrite G_0; lra|rewrite G_0; lra]).
    rewrite <- (gauss_square x). replace (G x ^ 2 + K x - K x) with (G x ^ 2) by ring. now rewrite sqrt_pow2. }
  assert (lk : is_lim K p_infty 0).
  { apply (is_lim_le_le_loc (fun _ => 0) gauss).
    - exists 0. intros x _. apply K_bound.
    - apply is_lim_const.
    - unfold gauss. apply (is_lim_comp exp (fun t => - t ^ 2) p_infty 0 m_infty).
      + apply is_lim_exp_m.
      + evar_last; [apply is_lim_opp; apply (is_lim_ext (fun t => t * t)); [intros; simpl; ring|]; apply is_lim_mult; [apply is_lim_id|apply is_lim_id|exact I]|]. reflexivity.
      + exists 0. intros y _. discriminate. }
  apply (is_lim_ext_loc (fun x => sqrt (PI / 4 - K x))).
  - exists 0. intros x hx. symmetry; apply le; lra.
  - replace (sqrt PI / 2) with (sqrt (PI / 4 - 0)).
    + apply (is_lim_comp_continuous (fun x => PI / 4 - K x) sqrt); [|apply continuous_sqrt].
      apply is_lim_minus'; [apply is_lim_const|exact lk].
    + rewrite Rminus_0_r. replace (PI / 4) with (PI * (/ 2) ^ 2) by (simpl; field). rewrite sqrt_mult by (generalize PI_RGT_0; simpl; lra). rewrite sqrt_pow2 by lra. reflexivity.
Qed.
(** ** Whole-line integrals *)
Lemma whole_line (f F : R -> R) (l L : R) : (forall a b, is_RInt f a b (F b - F a)) -> is_lim F m_infty l -> is_lim F p_infty L ->
  is_RInt_gen f (Rbar_locally m_infty) (Rbar_locally p_infty) (L - l).
Proof.
  intros h hl hL P [eps hP]. assert (e2 : 0 < eps / 2) by (destruct eps as [eps he]; simpl; lra). unfold filtermapi.
  apply (Filter_prod _ _ _ (fun a => Rabs (F a - l) < eps / 2) (fun b => Rabs (F b - L) < eps / 2)).
  - apply (hl (fun y => Rabs (y - l) < eps / 2)). exists (mkposreal _ e2). intros y hy. exact hy.
  - apply (hL (fun y => Rabs (y - L) < eps / 2)). exists (mkposreal _ e2). intros y hy. exact hy.
  - intros a b ha hb. simpl. exists (F b - F a). split; [apply h|]. apply hP. unfold ball; simpl; unfold AbsRing_ball, abs, minus, plus, opp; simpl.
    replace (F b - F a + - (L - l)) with ((F b - L) + - (F a - l)) by ring. eapply Rle_lt_trans; [apply Rabs_triang|]. rewrite Rabs_Ropp. lra.
Qed.
Lemma total_of_cut (f : R -> R) lo hi (p : R) : (forall a b, a <= lo -> hi <= b -> is_RInt f a b p) ->
  is_RInt_gen f (Rbar_locally m_infty) (Rbar_locally p_infty) p.
Proof.
  intros h P hP. unfold filtermapi. apply (Filter_prod _ _ _ (fun a => a <= lo) (fun b => hi <= b)).
  - exists lo. intros; lra.
  - exists hi. intros; lra.
  - intros a b ha hb. exists p. split; [now apply h|]. now apply locally_singleton.
Qed.

(** ** Normal and truncated normal *)
Lemma sqrt2_pos : 0 < sqrt 2.
Proof. apply sqrt_lt_R0; lra. Qed.
Lemma sqrtPI_pos : 0 < sqrt PI.
Proof. apply sqrt_lt_R0, PI_RGT_0. Qed.
Definition zed (mu sigma x : R) : R := (x - mu) / sigma / sqrt 2.
Lemma zed_square mu sigma x : sigma <> 0 -> zed mu sigma x ^ 2 = (1 / 2) * ((x - mu) / sigma) ^ 2.
Proof.
  intros h. unfold zed. assert (e : sqrt 2 ^ 2 = 2) by (simpl; rewrite Rmult_1_r; apply sqrt_sqrt; lra).
  replace (((x - mu) / sigma / sqrt 2) ^ 2) with (((x - mu) / sigma) ^ 2 / sqrt 2 ^ 2) by (field; split; [exact h|generalize sqrt2_pos; lra]). rewrite e. field. exact h.
Qed.
Lemma G_zed (mu sigma x : R) : sigma <> 0 ->
  is_derive (fun y => G (zed mu sigma y)) x (/ (sigma * sqrt 2) * exp (- (1 / 2) * ((x - mu) / sigma) ^ 2)).
Proof.
  intros h. assert (s2 := sqrt2_pos).
  replace (exp (- (1 / 2) * ((x - mu) / sigma) ^ 2)) with (gauss (zed mu sigma x)) by (unfold gauss; rewrite zed_square by exact h; f_equal; ring).
  apply (is_derive_comp G (zed mu sigma)); [apply G_derive|]. unfold zed. auto_derive; [lra|]. field. lra.
Qed.
Lemma zed_lt mu sigma x y : 0 < sigma -> x < y -> zed mu sigma x < zed mu sigma y.
Proof. intros h l. unfold zed, Rdiv. repeat apply Rmult_lt_compat_r; try apply Rinv_0_lt_compat; try lra. apply sqrt2_pos. Qed.
Lemma bell_cont (c mu sigma x : R) : sigma <> 0 -> continuous (fun y => c * exp (- (1 / 2) * ((y - mu) / sigma) ^ 2)) x.
Proof. intros h. apply (ex_derive_continuous (fun y => c * exp (- (1 / 2) * ((y - mu) / sigma) ^ 2))). auto_derive. exact I. Qed.
Lemma erfG x : erf x = 2 / sqrt PI * G x.
Proof. reflexivity. Qed.
Lemma sqrt_2PI : sqrt (2 * PI) = sqrt 2 * sqrt PI.
Proof. apply sqrt_mult; generalize PI_RGT_0; lra. Qed.

Lemma normal_val v mu sigma : 0 < sigma -> NormalPrior v mu sigma = / (sigma * sqrt (2 * PI)) * exp (- (1 / 2) * ((v - mu) / sigma) ^ 2).
Proof.
  intros h. unfold NormalPrior. assert (p := PI_RGT_0). rewrite sqrt_mult by (try (apply pow2_ge_0); lra). rewrite sqrt_pow2 by lra.
  replace (- (1 / 2) * (v - mu) ^ 2 / sigma ^ 2) with (- (1 / 2) * ((v - mu) / sigma) ^ 2) by (field; lra). 
  assert (0 < sqrt (2 * PI)) by (apply sqrt_lt_R0; lra). field. split; lra.
Qed.
Lemma normal_cdf mu sigma : 0 < sigma -> forall a b,
  is_RInt (fun v => NormalPrior v mu sigma) a b (/ sqrt PI * G (zed mu sigma b) - / sqrt PI * G (zed mu sigma a)).
Proof.
  intros h a b. assert (s2 := sqrt2_pos). assert (sp := sqrtPI_pos).
  apply (is_RInt_ext (fun v => / (sigma * sqrt (2 * PI)) * exp (- (1 / 2) * ((v - mu) / sigma) ^ 2))).
  { intros v _. symmetry. now apply normal_val. }
  apply (is_RInt_derive (fun v => / sqrt PI * G (zed mu sigma v))).
  - intros x _. evar_last; [apply is_derive_scal, G_zed; lra|]. rewrite sqrt_2PI. field. repeat split; lra.
  - intros x _. apply (bell_cont (/ (sigma * sqrt (2 * PI)))). lra.
Qed.
Lemma G_m : is_lim G m_infty (- (sqrt PI / 2)).
Proof.
  apply (is_lim_ext (fun x => - G (- x))); [intros x; rewrite G_odd; ring|].
  apply (is_lim_opp (fun x => G (- x)) m_infty (sqrt PI / 2)).
  apply (is_lim_comp G (fun x => - x) m_infty (sqrt PI / 2) p_infty gauss_limit).
  - apply (is_lim_opp (fun x => x) m_infty m_infty). apply is_lim_id.
  - exists 0. intros; discriminate.
Qed.
Lemma zed_lin mu sigma x : sigma <> 0 -> zed mu sigma x = / (sigma * sqrt 2) * x + - (mu / (sigma * sqrt 2)).
Proof. intros h. unfold zed. field. generalize sqrt2_pos; lra. Qed.
Lemma normal_density_lem : forall mu sigma, 0 < sigma ->
  (forall v, 0 < NormalPrior v mu sigma) /\
  is_RInt_gen (fun v => NormalPrior v mu sigma) (Rbar_locally m_infty) (Rbar_locally p_infty) 1.
Proof.
  intros mu sigma h. assert (p := PI_RGT_0). assert (sp := sqrtPI_pos). assert (s2 := sqrt2_pos). split.
  - intros v. unfold NormalPrior. apply Rdiv_lt_0_compat; [apply exp_pos|]. apply sqrt_lt_R0. assert (0 < sigma ^ 2) by (apply pow_lt; exact h). 
    apply Rmult_lt_0_compat; lra.
  - replace 1 with ((/ sqrt PI * (sqrt PI / 2)) - (/ sqrt PI * - (sqrt PI / 2))) by (field; lra).
    assert (w : 0 < / (sigma * sqrt 2)) by (apply Rinv_0_lt_compat, Rmult_lt_0_compat; lra).
    apply (whole_line _ (fun x => / sqrt PI * G (zed mu sigma x))); [now apply normal_cdf| |].
    + apply (is_lim_scal_l (fun x => G (zed mu sigma x)) (/ sqrt PI) m_infty (- (sqrt PI / 2))).
      apply (is_lim_ext (fun x => G (/ (sigma * sqrt 2) * x + - (mu / (sigma * sqrt 2))))); [intros x; rewrite <- zed_lin; [reflexivity|lra]|].
      apply is_lim_comp_lin; [|lra]. replace (Rbar_plus (Rbar_mult (/ (sigma * sqrt 2)) m_infty) (- (mu / (sigma * sqrt 2)))) with m_infty; [exact G_m|].
      unfold Rbar_mult, Rbar_mult'. destruct (Rle_dec 0 (/ (sigma * sqrt 2))) as [q|q]; [|lra]. destruct (Rle_lt_or_eq_dec 0 _ q) as [q'|q']; [reflexivity|lra].
    + apply (is_lim_scal_l (fun x => G (zed mu sigma x)) (/ sqrt PI) p_infty (sqrt PI / 2)).
      apply (is_lim_ext (fun x => G (/ (sigma * sqrt 2) * x + - (mu / (sigma * sqrt 2))))); [intros x; rewrite <- zed_lin; [reflexivity|lra]|].
      apply is_lim_comp_lin; [|lra]. replace (Rbar_plus (Rbar_mult (/ (sigma * sqrt 2)) p_infty) (- (mu / (sigma * sqrt 2)))) with p_infty; [exact gauss_limit|].
      unfold Rbar_mult, Rbar_mult'. destruct (Rle_dec 0 (/ (sigma * sqrt 2))) as [q|q]; [|lra]. destruct (Rle_lt_or_eq_dec 0 _ q) as [q'|q']; [reflexivity|lra].
Qed.
Lemma normal_shape_lem : forall mu sigma, 0 < sigma ->
  (forall d, NormalPrior (mu + d) mu sigma = NormalPrior (mu - d) mu sigma) /\
  (forall v, v <> mu -> NormalPrior v mu sigma < NormalPrior mu mu sigma) /\
  (forall v, ln (NormalPrior v mu sigma) = - (1 / 2) * ((v - mu) / sigma) ^ 2 - ln (sigma * sqrt (2 * PI))).
Proof.
  intros mu sigma h. assert (p := PI_RGT_0). assert (0 < sqrt (2 * PI)) by (apply sqrt_lt_R0; lra).
  assert (w : 0 < / (sigma * sqrt (2 * PI))) by (apply Rinv_0_lt_compat, Rmult_lt_0_compat; lra). split; [|split].
  - intros d. rewrite !normal_val by exact h. do 2 f_equal. field. lra.
  - intros v ne. rewrite !normal_val by exact h. apply Rmult_lt_compat_l; [exact w|]. apply exp_increasing.
    assert (0 < ((v - mu) / sigma) ^ 2). { apply pow2_gt_0. intros e. apply ne. apply (f_equal (fun t => t * sigma)) in e. unfold Rdiv in e. rewrite Rmult_assoc, Rinv_l in e; lra. }
    replace ((mu - mu) / sigma) with 0 by (field; lra). simpl in *. lra.
  - intros v. rewrite normal_val by exact h. rewrite ln_mult by (try apply exp_pos; exact w). rewrite ln_exp, ln_Rinv by (apply Rmult_lt_0_compat; lra). ring.
Qed.
Lemma normal_distribution_lem : forall mu sigma, 0 < sigma ->
  (forall a b p, is_RInt (fun v => NormalPrior v 0 1) a b p ->
   is_RInt (fun v => NormalPrior v mu sigma) (NormalSampler a mu sigma) (NormalSampler b mu sigma) p) /\
  (forall g x, exists z, NormalSampler z mu sigma = x /\ (NormalSampler g mu sigma <= x <-> g <= z)) /\
  (forall n quantile q p, (n < 2)%nat -> is_RInt (fun v => NormalPrior v 0 1) 0 (quantile q) p ->
   exists x, NormalPPF n quantile q mu sigma = Ok x /\ is_RInt (fun v => NormalPrior v mu sigma) mu x p).
Proof.
  intros mu sigma h.
  assert (A : forall a b p, is_RInt (fun v => NormalPrior v 0 1) a b p -> is_RInt (fun v => NormalPrior v mu sigma) (mu + sigma * a) (mu + sigma * b) p).
  { intros a b p hp. pose proof (normal_cdf 0 1 ltac:(lra) a b) as c. apply (is_RInt_unique (V := R_CompleteNormedModule)) in c. apply (is_RInt_unique (V := R_CompleteNormedModule)) in hp. rewrite hp in c.
    pose proof (normal_cdf mu sigma h (mu + sigma * a) (mu + sigma * b)) as d. rewrite c.
    assert (z : forall t, zed mu sigma (mu + sigma * t) = zed 0 1 t) by (intros t; unfold zed; pose proof sqrt2_pos; field; lra). rewrite !z in d. exact d. }
  split; [exact A|]. split.
  - intros g x. exists ((x - mu) / sigma). unfold NormalSampler. split; [field; lra|]. split; intros hh.
    + apply Rmult_le_reg_l with sigma; [exact h|]. replace (sigma * ((x - mu) / sigma)) with (x - mu) by (field; lra). lra.
    + apply Rmult_le_compat_l with (r := sigma) in hh; [|lra]. replace (sigma * ((x - mu) / sigma)) with (x - mu) in hh by (field; lra). lra.
  - intros n quantile q p hn hp. unfold NormalPPF. destruct (Nat.leb_spec 2 n); [lia|]. eexists. split; [reflexivity|]. apply A in hp. now rewrite Rmult_0_r, Rplus_0_r in hp.
Qed.
Lemma normal_ppf_lem : forall n quantile v mu sigma, (2 <= n)%nat -> NormalPPF n quantile v mu sigma = Err NotImplementedError.
Proof. intros n quantile v mu sigma h. unfold NormalPPF. apply Nat.leb_le in h. now rewrite h. Qed.

(** Truncated normal *)
Lemma tnum_in pmin pmax v : pmin < v < pmax -> num (ltb pmin v && ltb v pmax) = 1.
Proof. intros [h1 h2]. apply ltbP in h1, h2. now rewrite h1, h2. Qed.
Lemma tnum_out pmin pmax v : v <= pmin \/ pmax <= v -> num (ltb pmin v && ltb v pmax) = 0.
Proof. intros [h|h]; apply ltbF in h; rewrite h; [reflexivity|now rewrite andb_false_r]. Qed.
Lemma trunc_norm_val mu sigma pmin pmax : 0 < sigma -> pmin < pmax ->
  trunc_norm mu sigma pmin pmax = / (sigma * sqrt 2) / (G (zed mu sigma pmax) - G (zed mu sigma pmin)) /\ G (zed mu sigma pmin) < G (zed mu sigma pmax).
Proof.
  intros h lt. assert (l := G_lt _ _ (zed_lt mu sigma _ _ h lt)). split; [|exact l]. unfold trunc_norm. rewrite !erfG, sqrt_2PI. fold (zed mu sigma pmax) (zed mu sigma pmin).
  assert (s2 := sqrt2_pos). assert (sp := sqrtPI_pos).
  replace (2 / sqrt PI * G (zed mu sigma pmax) - 2 / sqrt PI * G (zed mu sigma pmin)) with (2 / sqrt PI * (G (zed mu sigma pmax) - G (zed mu sigma pmin))) by ring.
  field. repeat split; lra.
Qed.
Lemma trunc_cdf mu sigma pmin pmax : 0 < sigma -> pmin < pmax -> forall a b,
  is_RInt (fun v => TruncNormalPrior v mu sigma pmin pmax None) a b
    ((G (zed mu sigma (clamp pmin pmax b)) - G (zed mu sigma (clamp pmin pmax a))) / (G (zed mu sigma pmax) - G (zed mu sigma pmin))).
Proof.
  intros h lt a b. destruct (trunc_norm_val mu sigma pmin pmax h lt) as [e l]. set (D := G (zed mu sigma pmax) - G (zed mu sigma pmin)) in *.
  assert (hD : 0 < D) by (unfold D; lra). assert (s2 := sqrt2_pos).
  replace ((G (zed mu sigma (clamp pmin pmax b)) - G (zed mu sigma (clamp pmin pmax a))) / D) with
    ((fun x => / D * G (zed mu sigma x)) (clamp pmin pmax b) - (fun x => / D * G (zed mu sigma x)) (clamp pmin pmax a)) by (simpl; field; lra).
  apply (cut_integral (fun x => / D * G (zed mu sigma x)) (fun v => trunc_norm mu sigma pmin pmax * exp (- (1 / 2) * ((v - mu) / sigma) ^ 2))); try lra.
  - intros x _. evar_last; [apply is_derive_scal, G_zed; lra|]. rewrite e. field. repeat split; lra.
  - intros x _. apply bell_cont. lra.
  - intros x hx. unfold TruncNormalPrior. rewrite tnum_in by exact hx. ring.
  - intros x hx. unfold TruncNormalPrior. rewrite tnum_out by lra. ring.
Qed.
Lemma trunc_density_lem : forall mu sigma pmin pmax, 0 < sigma -> pmin < pmax ->
  let f v := TruncNormalPrior v mu sigma pmin pmax None in
  (forall v, pmin < v < pmax -> 0 < f v) /\ (forall v, v <= pmin \/ pmax <= v -> f v = 0) /\
  (forall a b, a <= pmin -> pmax <= b -> is_RInt f a b 1) /\
  is_RInt_gen f (Rbar_locally m_infty) (Rbar_locally p_infty) 1.
Proof.
  intros mu sigma pmin pmax h lt f. destruct (trunc_norm_val mu sigma pmin pmax h lt) as [e l]. assert (s2 := sqrt2_pos).
  assert (tot : forall a b, a <= pmin -> pmax <= b -> is_RInt f a b 1).
  { intros a b ha hb. assert (c := trunc_cdf mu sigma pmin pmax h lt a b). rewrite (clamp_lo _ _ a), (clamp_hi _ _ b) in c by lra.
    replace ((G (zed mu sigma pmax) - G (zed mu sigma pmin)) / (G (zed mu sigma pmax) - G (zed mu sigma pmin))) with 1 in c by (field; lra). exact c. }
  split; [|split; [|split; [exact tot|exact (total_of_cut f pmin pmax 1 tot)]]].
  - intros v hv. unfold f, TruncNormalPrior. rewrite tnum_in by exact hv. rewrite e, Rmult_1_r. apply Rmult_lt_0_compat; [|apply exp_pos].
    apply Rdiv_lt_0_compat; [apply Rinv_0_lt_compat, Rmult_lt_0_compat; lra|lra].
  - intros v hv. unfold f, TruncNormalPrior. rewrite tnum_out by exact hv. ring.
Qed.
(** The density is the normal density conditioned on the interval. *)
Lemma trunc_conditional_lem : forall mu sigma pmin pmax a b, 0 < sigma -> pmin < pmax -> pmin <= a <= pmax -> pmin <= b <= pmax ->
  exists p q, is_RInt (fun v => NormalPrior v mu sigma) pmin pmax p /\ 0 < p /\ is_RInt (fun v => NormalPrior v mu sigma) a b q /\
  is_RInt (fun v => TruncNormalPrior v mu sigma pmin pmax None) a b (q / p).
Proof.
  intros mu sigma pmin pmax a b h lt ha hb. assert (l := G_lt _ _ (zed_lt mu sigma _ _ h lt)). assert (sp := sqrtPI_pos).
  do 2 eexists. split; [now apply normal_cdf|]. split; [|split; [now apply normal_cdf|]].
  - assert (0 < / sqrt PI) by now apply Rinv_0_lt_compat. assert (0 < / sqrt PI * (G (zed mu sigma pmax) - G (zed mu sigma pmin))) by (apply Rmult_lt_0_compat; lra). lra.
  - assert (c := trunc_cdf mu sigma pmin pmax h lt a b). rewrite !clamp_in in c by lra. evar_last; [exact c|]. cbv beta. field. split; lra.
Qed.
Lemma trunc_class_lem : forall mu sigma pmin pmax value m s a b,
  (forall x, mu = Some x -> x = m) -> (forall x, sigma = Some x -> x = s) -> (forall x, pmin = Some x -> x = a) -> (forall x, pmax = Some x -> x = b) ->
  TruncNormal_pdf mu sigma pmin pmax value m s a b = TruncNormalPrior value m s a b None.
Proof.
  intros mu sigma pmin pmax value m s a b h1 h2 h3 h4. unfold TruncNormal_pdf, class_norm.
  destruct mu as [x1|], sigma as [x2|], pmin as [x3|], pmax as [x4|]; try reflexivity.
  now rewrite (h1 _ eq_refl), (h2 _ eq_refl), (h3 _ eq_refl), (h4 _ eq_refl).
Qed.
(** ** Rejection sampling *)
Lemma outside_false pmin pmax x : orb (ltb pmax x) (ltb x pmin) = false <-> pmin <= x <= pmax.
Proof. rewrite orb_false_iff, !ltbF. tauto. Qed.
Lemma trunc_scalar_lem : forall fuel mu sigma pmin pmax g k x,
  trunc_scalar fuel mu sigma pmin pmax g k = Some x <->
  exists j, (k <= j <= k + fuel)%nat /\ x = mu + sigma * g j /\ pmin <= x <= pmax /\
    forall i, (k <= i < j)%nat -> ~ (pmin <= mu + sigma * g i <= pmax).
Proof.
  intros fuel mu sigma pmin pmax g. induction fuel as [|fuel IH]; intros k x; cbn [trunc_scalar].
  - destruct (orb _ _) eqn:E.
    + split; [discriminate|]. intros [j [hj [e [hx _]]]]. assert (j = k) by lia. subst j x. apply outside_false in hx. congruence.
    + apply outside_false in E. split.
      * intros [= <-]. exists k. repeat split; try lia; lra.
      * intros [j [hj [e _]]]. assert (j = k) by lia. now subst.
  - destruct (orb _ _) eqn:E.
    + rewrite IH. split; intros [j [hj [e [hx h]]]].
      * exists j. split; [lia|]. split; [exact e|]. split; [exact hx|]. intros i hi. destruct (Nat.eq_dec i k) as [->|ne]; [|apply h; lia].
        intros c. apply outside_false in c. congruence.
      * exists j. destruct (Nat.eq_dec j k) as [->|ne].
        { subst x. apply outside_false in hx. congruence. }
        split; [lia|]. split; [exact e|]. split; [exact hx|]. intros i hi. apply h; lia.
    + apply outside_false in E. split.
      * intros [= <-]. exists k. repeat split; try lia; lra.
      * intros [j [hj [e [hx h]]]]. destruct (Nat.eq_dec j k) as [->|ne]; [now subst|]. exfalso. apply (h k); [lia|exact E].
Qed.
Lemma anyb_false l : anyb l = false <-> forall b, In b l -> b = false.
Proof.
  induction l as [|b l IH]; simpl; [split; [intros _ ? []|reflexivity]|]. rewrite orb_false_iff, IH. split.
  - intros [-> h] c [<-|i]; auto.
  - intros h. split; [apply h; now left|]. intros c i; apply h; now right.
Qed.
Lemma mask_len samp pmin pmax : length (mask_of samp pmin pmax) = length samp.
Proof. unfold mask_of. rewrite map_length, combine_length, seq_length. lia. Qed.
Lemma mask_nth samp pmin pmax i : (i < length samp)%nat ->
  nth i (mask_of samp pmin pmax) false = orb (ltb (at_ pmax i) (nth i samp 0)) (ltb (nth i samp 0) (at_ pmin i)).
Proof.
  intros h. unfold mask_of. rewrite (nth_map_lt _ _ i false (0%nat, 0)) by (rewrite combine_length, seq_length; lia).
  rewrite combine_nth by apply seq_length. cbn [fst snd]. now rewrite seq_nth by exact h.
Qed.
Lemma mask_all samp pmin pmax : anyb (mask_of samp pmin pmax) = false <-> forall i, (i < length samp)%nat -> at_ pmin i <= nth i samp 0 <= at_ pmax i.
Proof.
  rewrite anyb_false. split.
  - intros h i hi. apply outside_false. rewrite <- mask_nth by exact hi. apply h, nth_In. now rewrite mask_len.
  - intros h b ib. apply (In_nth _ _ false) in ib. destruct ib as [i [hi <-]]. rewrite mask_len in hi. rewrite mask_nth by exact hi. now apply outside_false, h.
Qed.
Lemma trunc_loop_in fuel : forall samp mu sigma pmin pmax g k l, trunc_loop fuel samp mu sigma pmin pmax g k = Some (Ok l) ->
  anyb (mask_of l pmin pmax) = false.
Proof.
  induction fuel as [|fuel IH]; intros samp mu sigma pmin pmax g k l; cbn [trunc_loop]; destruct (anyb (mask_of samp pmin pmax)) eqn:E; try discriminate;
    try (now intros [= <-]).
  destruct mu as [m|m], sigma as [s|s]; try discriminate; try apply IH. destruct (Nat.eqb _ _); [apply IH|discriminate].
Qed.
(** Where the current values come from. *)
Definition drawn (mu sigma : arg) (g : nat -> R) (off : nat) (samp : list R) (idx : list nat) : Prop :=
  length idx = length samp /\ forall i, (i < length samp)%nat -> nth i samp 0 = at_ mu (off + i) + at_ sigma (off + i) * g (nth i idx 0%nat).
Lemma redraw_spec mu sigma g : forall mask samp off k k0 idx, length mask = length samp -> drawn mu sigma g off samp idx -> NoDup idx ->
  (forall j, In j idx -> (j < k0)%nat) -> (k0 <= k)%nat ->
  let r := redraw off mask samp mu sigma g k in
  length (fst r) = length samp /\ (k <= snd r)%nat /\ (anyb mask = true -> k < snd r)%nat /\
  (forall i, (i < length samp)%nat -> nth i mask false = false -> nth i (fst r) 0 = nth i samp 0) /\
  (forall i, (i < length samp)%nat -> nth i mask false = true -> exists j, (k <= j)%nat /\ nth i (fst r) 0 = at_ mu (off + i) + at_ sigma (off + i) * g j) /\
  exists idx', drawn mu sigma g off (fst r) idx' /\ NoDup idx' /\ forall j, In j idx' -> In j idx \/ (k <= j < snd r)%nat.
Proof.
  induction mask as [|b mask IH]; intros samp off k k0 idx hl [d1 d2] nd lt le; destruct samp as [|x samp]; try discriminate.
  - cbn. split; [reflexivity|]. split; [lia|]. split; [discriminate|]. split; [intros; lia|]. split; [intros; lia|].
    exists []. split; [split; [reflexivity|cbn; intros; lia]|]. split; [constructor|intros j []].
  - destruct idx as [|q idx]; [discriminate|]. injection hl as hl. injection d1 as d1. inversion nd as [|? ? ni nd']; subst.
    assert (dr : drawn mu sigma g (S off) samp idx).
    { split; [exact d1|]. intros i hi. assert (h := d2 (S i)). cbn [nth length] in h. rewrite h by lia. now replace (off + S i)%nat with (S off + i)%nat by lia. }
    assert (lt' : forall j, In j idx -> (j < k0)%nat) by (intros j i; apply lt; now right).
    cbn [redraw]. destruct b.
    + destruct (IH samp (S off) (S k) k0 idx hl dr nd' lt') as [r1 [r2 [r3 [r4 [r4' [idx' [r5 [r6 r7]]]]]]]]; [lia|].
      set (r := redraw (S off) mask samp mu sigma g (S k)) in *. cbn [fst snd length].
      split; [lia|]. split; [lia|]. split; [intros; lia|]. split; [|split].
      * intros [|i] hi e; [discriminate|]. cbn [nth]. apply r4; [lia|exact e].
      * intros [|i] hi e; [exists k; split; [lia|]; cbn [nth]; now rewrite Nat.add_0_r|]. destruct (r4' i) as [j [hj ej]]; [lia|exact e|].
        exists j. split; [lia|]. cbn [nth]. rewrite ej. now replace (off + S i)%nat with (S off + i)%nat by lia.
      * exists (k :: idx'). split; [|split].
        { split; [cbn; f_equal; apply r5|]. intros [|i] hi; cbn [nth]; [now rewrite Nat.add_0_r|]. cbn [length] in hi. destruct r5 as [_ r5]. rewrite r5 by lia.
          now replace (off + S i)%nat with (S off + i)%nat by lia. }
        { constructor; [|exact r6]. intros i. apply r7 in i. destruct i as [i|i]; [apply lt' in i|]; lia. }
        { intros j [<-|i]; [right; lia|]. apply r7 in i. destruct i as [i|i]; [left; now right|right; lia]. }
    + destruct (IH samp (S off) k k0 idx hl dr nd' lt' le) as [r1 [r2 [r3 [r4 [r4' [idx' [r5 [r6 r7]]]]]]]].
      set (r := redraw (S off) mask samp mu sigma g k) in *. cbn [fst snd length anyb orb].
      split; [lia|]. split; [lia|]. split; [exact r3|]. split; [|split].
      * intros [|i] hi e; [reflexivity|]. cbn [nth]. apply r4; [lia|exact e].
      * intros [|i] hi e; [discriminate|]. destruct (r4' i) as [j [hj ej]]; [lia|exact e|].
        exists j. split; [lia|]. cbn [nth]. rewrite ej. now replace (off + S i)%nat with (S off + i)%nat by lia.
      * exists (q :: idx'). split; [|split].
        { split; [cbn; f_equal; apply r5|]. intros [|i] hi; cbn [nth]; [now specialize (d2 0%nat ltac:(cbn; lia))|]. cbn [length] in hi. destruct r5 as [_ r5]. rewrite r5 by lia.
          now replace (off + S i)%nat with (S off + i)%nat by lia. }
        { constructor; [|exact r6]. intros i. apply r7 in i. destruct i as [i|i]; [tauto|]. assert (q < k0)%nat by (apply lt; now left). lia. }
        { intros j [<-|i]; [left; now left|]. apply r7 in i. destruct i as [i|i]; [left; now right|right; lia]. }
Qed.
Lemma trunc_loop_spec fuel : forall samp mu sigma pmin pmax g k idx l, drawn mu sigma g 0 samp idx -> NoDup idx -> (forall j, In j idx -> (j < k)%nat) ->
  trunc_loop fuel samp mu sigma pmin pmax g k = Some (Ok l) ->
  length l = length samp /\ (forall i, (i < length samp)%nat -> at_ pmin i <= nth i samp 0 <= at_ pmax i -> nth i l 0 = nth i samp 0) /\
  exists idx', drawn mu sigma g 0 l idx' /\ NoDup idx'.
Proof.
  assert (step : forall fuel samp mu sigma pmin pmax g k idx l, drawn mu sigma g 0 samp idx -> NoDup idx -> (forall j, In j idx -> (j < k)%nat) ->
    (forall samp mu sigma pmin pmax g k idx l, drawn mu sigma g 0 samp idx -> NoDup idx -> (forall j, In j idx -> (j < k)%nat) ->
      trunc_loop fuel samp mu sigma pmin pmax g k = Some (Ok l) ->
      length l = length samp /\ (forall i, (i < length samp)%nat -> at_ pmin i <= nth i samp 0 <= at_ pmax i -> nth i l 0 = nth i samp 0) /\
      exists idx', drawn mu sigma g 0 l idx' /\ NoDup idx') ->
    trunc_loop fuel (fst (redraw 0 (mask_of samp pmin pmax) samp mu sigma g k)) mu sigma pmin pmax g (snd (redraw 0 (mask_of samp pmin pmax) samp mu sigma g k)) = Some (Ok l) ->
    length l = length samp /\ (forall i, (i < length samp)%nat -> at_ pmin i <= nth i samp 0 <= at_ pmax i -> nth i l 0 = nth i samp 0) /\
    exists idx', drawn mu sigma g 0 l idx' /\ NoDup idx').
  { clear. intros fuel samp mu sigma pmin pmax g k idx l d nd lt IH e.
    destruct (redraw_spec mu sigma g (mask_of samp pmin pmax) samp 0 k k idx (mask_len _ _ _) d nd lt (le_n _)) as [r1 [r2 [r3 [r4 [_ [idx' [r5 [r6 r7]]]]]]]].
    set (r := redraw 0 _ samp mu sigma g k) in *.
    destruct (IH (fst r) mu sigma pmin pmax g (snd r) idx' l r5 r6) as [h1 [h2 h3]]; [|exact e|].
    - intros j i. apply r7 in i. destruct i as [i|i]; [apply lt in i|]; lia.
    - split; [congruence|]. split; [|exact h3]. intros i hi hin.
      assert (m : nth i (mask_of samp pmin pmax) false = false) by (rewrite mask_nth by exact hi; now apply outside_false).
      rewrite <- (r4 i hi m). apply h2; [congruence|]. now rewrite r4. }
  induction fuel as [|fuel IH]; intros samp mu sigma pmin pmax g k idx l d nd lt; cbn [trunc_loop]; destruct (anyb (mask_of samp pmin pmax)) eqn:E; try discriminate.
  - intros [= <-]. split; [reflexivity|]. split; [auto|]. now exists idx.
  - destruct mu as [m|m], sigma as [s|s]; try discriminate; try (destruct (Nat.eqb _ _); [|discriminate]); now apply (step fuel _ _ _ _ _ _ _ idx).
  - intros [= <-]. split; [reflexivity|]. split; [auto|]. now exists idx.
Qed.
Definition fits (n : nat) (a : arg) : Prop := match a with Sc _ => True | Ve l => length l = n end.
Lemma fits_b n a : match len a with None => true | Some k => Nat.eqb k n end = true <-> fits n a.
Proof. destruct a; simpl; [tauto|apply Nat.eqb_eq]. Qed.
Lemma init_drawn mu sigma g n : drawn mu sigma g 0 (map (fun i => at_ mu i + at_ sigma i * g i) (seq 0 n)) (seq 0 n).
Proof.
  split; [now rewrite map_length|]. intros i hi. rewrite map_length, seq_length in hi. rewrite (nth_map_lt _ _ i 0 0%nat) by (now rewrite seq_length).
  now rewrite !seq_nth by exact hi.
Qed.
Lemma trunc_vector_lem : forall fuel mu sigma pmin pmax n g l, trunc_vector fuel mu sigma pmin pmax n g = Some (Ok l) ->
  length l = n /\ (forall i, (i < n)%nat -> at_ pmin i <= nth i l 0 <= at_ pmax i) /\
  (forall i, (i < n)%nat -> at_ pmin i <= at_ mu i + at_ sigma i * g i <= at_ pmax i -> nth i l 0 = at_ mu i + at_ sigma i * g i) /\
  exists idx, length idx = n /\ NoDup idx /\ forall i, (i < n)%nat -> nth i l 0 = at_ mu i + at_ sigma i * g (nth i idx 0%nat).
Proof.
  intros fuel mu sigma pmin pmax n g l e. unfold trunc_vector in e. destruct (_ && _ && _ && _); [|discriminate].
  assert (hin := trunc_loop_in _ _ _ _ _ _ _ _ _ e). rewrite mask_all in hin.
  assert (lt : forall j, In j (seq 0 n) -> (j < n)%nat) by (intros j i; apply in_seq in i; lia).
  destruct (trunc_loop_spec _ _ _ _ _ _ _ _ (seq 0 n) _ (init_drawn mu sigma g n) (seq_NoDup _ _) lt e) as [h1 [h2 [idx [h3 h4]]]].
  rewrite map_length, seq_length in h1, h2. split; [exact h1|]. rewrite h1 in hin. split; [exact hin|]. split.
  - intros i hi. specialize (h2 i hi). assert (e2 : nth i (map (fun i => at_ mu i + at_ sigma i * g i) (seq 0 n)) 0 = at_ mu i + at_ sigma i * g i).
    { rewrite (nth_map_lt _ _ i 0 0%nat) by (now rewrite seq_length). now rewrite seq_nth by exact hi. }
    rewrite e2 in h2. exact h2.
  - exists idx. destruct h3 as [h3 h5]. rewrite h1 in h3, h5. repeat split; auto.
Qed.
Definition same_kind (a b : arg) : Prop := match a, b with Sc _, Sc _ | Ve _, Ve _ => True | _, _ => False end.
Lemma trunc_terminates_lem : forall mu sigma pmin pmax n g K, fits n mu -> fits n sigma -> fits n pmin -> fits n pmax -> same_kind mu sigma ->
  (forall i j, (i < n)%nat -> (K <= j)%nat -> at_ pmin i <= at_ mu i + at_ sigma i * g j <= at_ pmax i) ->
  exists l, trunc_vector (S K) mu sigma pmin pmax n g = Some (Ok l).
Proof.
  intros mu sigma pmin pmax n g K f1 f2 f3 f4 sk h. unfold trunc_vector. rewrite !(proj2 (fits_b n _)) by assumption. cbn [andb].
  assert (gen : forall fuel samp k idx, length samp = n -> drawn mu sigma g 0 samp idx -> NoDup idx -> (forall j, In j idx -> (j < k)%nat) -> (K - k < fuel)%nat ->
    exists l, trunc_loop fuel samp mu sigma pmin pmax g k = Some (Ok l)).
  { induction fuel as [|fuel IH]; intros samp k idx hl d nd lt hf; [lia|]. cbn [trunc_loop]. destruct (anyb _) eqn:E; [|eauto].
    destruct (redraw_spec mu sigma g (mask_of samp pmin pmax) samp 0 k k idx (mask_len _ _ _) d nd lt (le_n _)) as [r1 [r2 [r3 [r4 [r4' [idx' [r5 [r6 r7]]]]]]]].
    set (r := redraw 0 _ samp mu sigma g k) in *. specialize (r3 E).
    assert (go : exists l, trunc_loop fuel (fst r) mu sigma pmin pmax g (snd r) = Some (Ok l)).
    { destruct (le_lt_dec K k) as [lk|lk].
      - assert (fin : anyb (mask_of (fst r) pmin pmax) = false).
        { apply mask_all. intros i hi. rewrite r1 in hi. destruct (nth i (mask_of samp pmin pmax) false) eqn:M.
          - destruct (r4' i hi M) as [j [hj ->]]. cbn [Nat.add]. apply h; lia.
          - rewrite r4 by assumption. rewrite mask_nth in M by exact hi. now apply outside_false. }
        exists (fst r). destruct fuel; cbn [trunc_loop]; now rewrite fin.
      - apply (IH (fst r) (snd r) idx'); [congruence|exact r5|exact r6| |lia]. intros j i. apply r7 in i. destruct i as [i|i]; [apply lt in i|]; lia. }
    destruct mu, sigma; try (now destruct sk); exact go. }
  apply (gen (S K) _ n (seq 0 n)); [now rewrite map_length, seq_length|apply init_drawn|apply seq_NoDup| |lia].
  intros j i. apply in_seq in i. lia.
Qed.
(** An array of means with one deviation raises as soon as a value is redrawn. *)
Lemma trunc_mixed_refuted_lem : exists mu sigma pmin pmax n g, fits n mu /\ fits n sigma /\ fits n pmin /\ fits n pmax /\
  at_ pmin 0 < at_ pmax 0 /\ forall fuel, trunc_vector (S fuel) mu sigma pmin pmax n g = Some (Err TypeError).
Proof.
  exists (Ve [0]), (Sc 1), (Sc (-1)), (Sc 1), 1%nat, (fun _ => 2). repeat split; simpl; try lra. intros fuel. unfold trunc_vector. simpl.
  unfold mask_of. simpl. assert (e : ltb 1 (0 + 1 * 2) = true) by (apply ltbP; lra). now rewrite e.
Qed.
