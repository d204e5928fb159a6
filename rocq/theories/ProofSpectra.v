(** Proofs about the prior variances of Fourier coefficients. *)
From Coq Require Import Reals ZArith String Bool Arith List Lra Lia.
From Verif Require Import PyBase ProofBase ModelBases ModelSpectra ProofBases.
Import ListNotations.
Open Scope list_scope.
Open Scope R_scope.

(** ** Lists *)
Lemma stride_skip {X} : forall c (x : X) k l, stride c k (repeat x k ++ l) = stride c 0 l.
Proof. induction k as [|k IH]; intros l; [reflexivity|]. cbn [repeat app stride]. apply IH. Qed.
Lemma stride_rep {X} : forall c (g : list X), (1 <= c)%nat -> stride c 0 (rep c g) = g.
Proof.
  intros c g hc. induction g as [|x g IH]; [reflexivity|]. cbn [rep flat_map]. destruct c as [|c]; [lia|]. cbn [repeat app stride]. f_equal.
  replace (S c - 1)%nat with c by lia. rewrite stride_skip. exact IH.
Qed.
Lemma diffs_length : forall l p, length (diffs p l) = length l.
Proof. induction l as [|x l IH]; intros p; [reflexivity|]. cbn. now rewrite IH. Qed.
Lemma diffs_nth : forall l p i, (i < length l)%nat -> nth i (diffs p l) 0 = nth i l 0 - nth i (p :: l) 0.
Proof. induction l as [|x l IH]; intros p i h; [cbn in h; lia|]. destruct i; [reflexivity|]. cbn [diffs nth]. apply IH. cbn in h. lia. Qed.
Lemma rep_nth {X} : forall c (l : list X) i r d, (r < c)%nat -> nth (c * i + r) (rep c l) d = nth i l d.
Proof.
  intros c l. induction l as [|x l IH]; intros i r d h.
  - cbn. destruct i; destruct (c * _ + r)%nat; reflexivity.
  - cbn [rep flat_map]. destruct i.
    + rewrite Nat.mul_0_r, Nat.add_0_l, app_nth1 by (now rewrite repeat_length). clear - h. revert r h. induction c; intros r h; [lia|]. destruct r; [reflexivity|]. cbn. specialize (IHc r ltac:(lia)). exact IHc.
    + rewrite app_nth2 by (rewrite repeat_length; lia). rewrite repeat_length. replace (c * S i + r - c)%nat with (c * i + r)%nat by lia. cbn [nth]. now apply IH.
Qed.
Lemma map_repeat' {X Y} : forall (h : X -> Y) x c, map h (repeat x c) = repeat (h x) c.
Proof. intros h x c. induction c; [reflexivity|]. cbn. now rewrite IHc. Qed.
Lemma rep_map {X Y} : forall (h : X -> Y) c l, map h (rep c l) = rep c (map h l).
Proof. intros h c l. induction l as [|x l IH]; [reflexivity|]. cbn [rep flat_map map]. rewrite map_app, map_repeat'. f_equal. exact IH. Qed.
Lemma rep_combine {X Y} : forall c (a : list X) (b : list Y), length a = length b -> combine (rep c a) (rep c b) = rep c (combine a b).
Proof.
  intros c a. induction a as [|x a IH]; intros [|y b] e; try discriminate; [reflexivity|]. cbn [rep flat_map combine].
  assert (A : forall c (u : list X) (v : list Y), combine (repeat x c ++ u) (repeat y c ++ v) = repeat (x, y) c ++ combine u v).
  { intros c0 u v. induction c0 as [|c0 IHc]; [reflexivity|]. cbn. now rewrite IHc. }
  rewrite A. f_equal. apply IH. cbn in e. lia.
Qed.
Lemma bmul_eq : forall a b, length a = length b -> bmul a b = Ok (map (fun xy => fst xy * snd xy) (combine a b)).
Proof. intros a b e. unfold bmul. now rewrite e, Nat.eqb_refl. Qed.
Lemma bmul_rep : forall (h : R -> R) c g (w : list R), length w = length g -> bmul (map h (rep c g)) (rep c w) = Ok (rep c (map (fun xw => h (fst xw) * snd xw) (combine g w))).
Proof.
  intros h c g w e. rewrite bmul_eq by (rewrite map_length, !rep_length; lia). f_equal. rewrite rep_map, rep_combine by (now rewrite map_length). rewrite rep_map. f_equal.
  clear c. revert w e. induction g as [|x g IH]; intros [|y w] e; try discriminate; [reflexivity|]. cbn. f_equal. apply IH. cbn in e. lia.
Qed.
(** Densities times widths. *)
Definition spec (h : R -> R) (g : list R) : list R := map (fun xw => h (fst xw) * snd xw) (combine g (diffs 0 g)).
Lemma spec_length : forall h g, length (spec h g) = length g.
Proof. intros h g. unfold spec. rewrite map_length, combine_length, diffs_length. lia. Qed.
Lemma spec_nth : forall h g i, (i < length g)%nat -> nth i (spec h g) 0 = h (nth i g 0) * (nth i g 0 - nth i (0 :: g) 0).
Proof.
  intros h g i hi. unfold spec. rewrite (nth_map_in _ _ _ _ (0, 0)) by (rewrite combine_length, diffs_length; lia). rewrite combine_nth by (now rewrite diffs_length). cbn [fst snd]. now rewrite diffs_nth.
Qed.
Lemma widths_rep : forall c g, (1 <= c)%nat -> widths (rep c g) c = Ok (rep c (diffs 0 g)).
Proof. intros c g hc. unfold widths. rewrite stride_rep by exact hc. destruct c; [lia|reflexivity]. Qed.
Lemma powerlaw_rep : forall c g A gam, (1 <= c)%nat -> powerlaw (rep c g) A gam c = Ok (rep c (spec (pl A gam) g)).
Proof. intros c g A gam hc. unfold powerlaw. rewrite widths_rep by exact hc. cbn [rbind]. rewrite bmul_rep by apply diffs_length. reflexivity. Qed.
Definition dens (hcf : R -> R) (x : R) : R := (hcf x) ^ 2 / 12 / PI ^ 2 / x ^ 3.
Lemma strain_rep : forall g hcf, from_strain (rep 2 g) hcf = Ok (rep 2 (spec (dens hcf) g)).
Proof. intros g hcf. unfold from_strain. rewrite widths_rep by lia. cbn [rbind]. rewrite bmul_rep by apply diffs_length. reflexivity. Qed.

(** ** Entries *)
Lemma entry : forall c h g i r, (i < length g)%nat -> (r < c)%nat -> nth (c * i + r) (rep c (spec h g)) 0 = h (nth i g 0) * (nth i g 0 - nth i (0 :: g) 0).
Proof. intros c h g i r hi hr. rewrite rep_nth by exact hr. now apply spec_nth. Qed.
Lemma powerlaw_variance_lem : forall c g log10_A gamma, (1 <= c)%nat -> Forall (fun x => 0 < x) g ->
  exists phi, powerlaw (flat_map (fun x => repeat x c) g) log10_A gamma c = Ok phi /\ length phi = (c * length g)%nat /\
  forall i r, (i < length g)%nat -> (r < c)%nat ->
  nth (c * i + r) phi 0 = Rpower 10 (2 * log10_A) / (12 * PI ^ 2) * Rpower (31557600 * nth i g 0) (- gamma) * 31557600 ^ 3 * (nth i g 0 - nth i (0 :: g) 0).
Proof.
  intros c g A gam hc hg. eexists. split; [now apply powerlaw_rep|]. split; [now rewrite rep_length, spec_length|]. intros i r hi hr. rewrite entry by assumption. f_equal.
  assert (hx : 0 < nth i g 0) by (rewrite Forall_forall in hg; apply hg; now apply nth_In).
  unfold pl, p10. assert (e1 : Rpower 10 A ^ 2 = Rpower 10 (2 * A)) by (rewrite <- Rpower_pow by apply exp_pos; rewrite Rpower_mult; f_equal; cbn; ring). rewrite e1.
  assert (e2 : Rpower fyr (gam - 3) = Rpower 31557600 (- gam) * 31557600 ^ 3).
  { rewrite <- Rpower_pow by lra. rewrite <- Rpower_plus. unfold fyr, Rpower. f_equal. unfold Rdiv. rewrite Rmult_1_l, ln_Rinv by lra. cbn [INR]. ring. }
  rewrite e2, <- Rpower_mult_distr by lra. field. apply PI_neq0.
Qed.
(** ** Shapes relative to the power law *)
Lemma nth_pair : forall (h : R -> R) g i, (i < length g)%nat -> nth (2 * i) (rep 2 (spec h g)) 0 = h (nth i g 0) * (nth i g 0 - nth i (0 :: g) 0) /\
  nth (2 * i + 1) (rep 2 (spec h g)) 0 = h (nth i g 0) * (nth i g 0 - nth i (0 :: g) 0).
Proof. intros h g i hi. split; [|now apply entry; try lia]. rewrite <- (Nat.add_0_r (2 * i)). now apply entry; try lia. Qed.
Lemma half_pow : forall x y, 0 < x -> Rpower x (y / 2) ^ 2 = Rpower x y.
Proof. intros x y h. rewrite <- Rpower_pow by apply exp_pos. rewrite Rpower_mult. f_equal. cbn [INR]. field. Qed.
Lemma dens_pl : forall A gam k x, 0 < x -> dens (fun x => p10 A * Rpower (x / fyr) ((3 - gam) / 2) * k x) x = pl A gam x * (k x) ^ 2.
Proof.
  intros A gam k x hx. unfold dens, pl. assert (hf : 0 < fyr) by (unfold fyr; lra). assert (hq : 0 < x / fyr) by (apply Rdiv_lt_0_compat; assumption).
  replace ((p10 A * Rpower (x / fyr) ((3 - gam) / 2) * k x) ^ 2) with (p10 A ^ 2 * (Rpower (x / fyr) ((3 - gam) / 2)) ^ 2 * k x ^ 2) by ring. rewrite half_pow by exact hq.
  assert (e : Rpower (x / fyr) (3 - gam) = Rpower fyr (gam - 3) * Rpower x (- gam) * x ^ 3).
  { rewrite <- (Rpower_pow 3 x) by exact hx. rewrite Rmult_assoc, <- Rpower_plus. unfold Rdiv, Rpower. rewrite ln_mult, ln_Rinv by (try assumption; now apply Rinv_0_lt_compat). rewrite <- exp_plus. f_equal. cbn [INR]. ring. }
  rewrite e. field. split; [apply PI_neq0|lra].
Qed.
Lemma spec_ext : forall h h' g, Forall (fun x => 0 < x) g -> (forall x, 0 < x -> h x = h' x) -> spec h g = spec h' g.
Proof.
  intros h h' g hg e. unfold spec. apply map_ext_in. intros [x w] i. cbn. apply in_combine_l in i. rewrite Forall_forall in hg. now rewrite e by (apply hg; exact i).
Qed.
(** Each entry of [r] is that of [r0] times [k] of its frequency. *)
Definition times (k : R -> R) (f : list R) (r r0 : result (list R)) : Prop :=
  exists phi phi0, r = Ok phi /\ r0 = Ok phi0 /\ length phi = length f /\ length phi0 = length f /\
  forall j, (j < length f)%nat -> nth j phi 0 = nth j phi0 0 * k (nth j f 0).
Lemma times_rep : forall k h h0 g, Forall (fun x => 0 < x) g -> (forall x, 0 < x -> h x = h0 x * k x) -> times k (rep 2 g) (Ok (rep 2 (spec h g))) (Ok (rep 2 (spec h0 g))).
Proof.
  intros k h h0 g hg e. eexists _, _. split; [reflexivity|]. split; [reflexivity|]. rewrite !rep_length, !spec_length. split; [reflexivity|]. split; [reflexivity|].
  intros j hj. assert (exists i, (i < length g)%nat /\ (j = 2 * i \/ j = 2 * i + 1)%nat) as [i [hi ji]].
  { exists (j / 2)%nat. pose proof (Nat.div_mod j 2 ltac:(lia)). pose proof (Nat.mod_upper_bound j 2 ltac:(lia)). split; lia. }
  assert (hx : 0 < nth i g 0) by (rewrite Forall_forall in hg; apply hg; now apply nth_In).
  destruct (nth_pair h g i hi) as [a b]. destruct (nth_pair h0 g i hi) as [a0 b0]. destruct (rep2_nth g i 0) as [c d]. destruct ji as [->| ->]; rewrite ?a, ?a0, ?b, ?b0, ?c, ?d, e by exact hx; ring.
Qed.
Definition twice (g : list R) : list R := flat_map (fun x => [x; x]) g.
Lemma twice_rep : forall g, twice g = rep 2 g.
Proof. reflexivity. Qed.
Lemma turnover_shape_lem : forall g log10_A gamma lf0 kappa beta, Forall (fun x => 0 < x) g ->
  times (fun x => Rpower (1 + Rpower (Rpower 10 lf0 / x) kappa) (- (2 * beta))) (twice g) (turnover (twice g) log10_A gamma lf0 kappa beta) (powerlaw (twice g) log10_A gamma 2).
Proof.
  intros g A gam lf0 kappa beta hg. rewrite twice_rep, powerlaw_rep by lia. unfold turnover. rewrite strain_rep. apply times_rep; [exact hg|]. intros x hx.
  transitivity (dens (fun x => p10 A * Rpower (x / fyr) ((3 - gam) / 2) * / Rpower (1 + Rpower (p10 lf0 / x) kappa) beta) x); [reflexivity|]. rewrite (dens_pl A gam (fun x => / Rpower (1 + Rpower (p10 lf0 / x) kappa) beta)) by exact hx. f_equal.
  rewrite <- Rpower_Ropp. rewrite <- Rpower_pow by apply exp_pos. rewrite Rpower_mult. f_equal. cbn [INR]. ring.
Qed.
Lemma turnover_knee_shape_lem : forall g log10_A gamma lfb lfk kappa delta, Forall (fun x => 0 < x) g ->
  times (fun x => Rpower (1 + x / Rpower 10 lfk) (2 * delta) / (1 + Rpower (Rpower 10 lfb / x) kappa)) (twice g)
    (turnover_knee (twice g) log10_A gamma lfb lfk kappa delta) (powerlaw (twice g) log10_A gamma 2).
Proof.
  intros g A gam lfb lfk kappa delta hg. rewrite twice_rep, powerlaw_rep by lia. unfold turnover_knee. rewrite strain_rep. apply times_rep; [exact hg|]. intros x hx.
  set (k := fun x => Rpower (1 + x / p10 lfk) delta / sqrt (1 + Rpower (p10 lfb / x) kappa)).
  transitivity (dens (fun x => p10 A * Rpower (x / fyr) ((3 - gam) / 2) * k x) x); [unfold dens, k; do 4 f_equal; field; apply Rgt_not_eq, sqrt_lt_R0; assert (0 < Rpower (p10 lfb / x) kappa) by apply exp_pos; lra|].
  rewrite dens_pl by exact hx. f_equal. unfold k. fold (p10 lfb) (p10 lfk). assert (hq : 0 < 1 + Rpower (p10 lfb / x) kappa) by (assert (0 < Rpower (p10 lfb / x) kappa) by apply exp_pos; lra).
  revert hq. generalize (1 + Rpower (p10 lfb / x) kappa). intros q hq. replace (Rpower (1 + x / p10 lfk) (2 * delta)) with (Rpower (1 + x / p10 lfk) delta ^ 2).
  - pose proof (sqrt_lt_R0 q hq). rewrite <- (sqrt_sqrt q) at 2 by lra. field. lra.
  - rewrite <- Rpower_pow by apply exp_pos. rewrite Rpower_mult. f_equal. cbn [INR]. ring.
Qed.
Lemma broken_powerlaw_shape_lem : forall g log10_A gamma delta log10_fb kappa, kappa <> 0 -> Forall (fun x => 0 < x) g ->
  times (fun x => Rpower (1 + Rpower (x / Rpower 10 log10_fb) (1 / kappa)) (kappa * (gamma - delta))) (twice g)
    (broken_powerlaw (twice g) log10_A gamma delta log10_fb kappa) (powerlaw (twice g) log10_A gamma 2).
Proof.
  intros g A gam delta fb kappa hk hg. rewrite twice_rep, powerlaw_rep by lia. unfold broken_powerlaw. rewrite strain_rep. apply times_rep; [exact hg|]. intros x hx.
  rewrite (dens_pl A gam (fun x => Rpower (1 + Rpower (x / p10 fb) (1 / kappa)) (kappa * (gam - delta) / 2))) by exact hx. f_equal. apply half_pow. fold (p10 fb). assert (0 < Rpower (x / p10 fb) (1 / kappa)) by apply exp_pos. lra.
Qed.
Lemma amplitude_lem : forall g log10_A gamma d, Forall (fun x => 0 < x) g ->
  times (fun _ => Rpower 10 (2 * d)) (twice g) (powerlaw (twice g) (log10_A + d) gamma 2) (powerlaw (twice g) log10_A gamma 2).
Proof.
  intros g A gam d hg. rewrite twice_rep, !powerlaw_rep by lia. apply times_rep; [exact hg|]. intros x hx. unfold pl, p10. rewrite Rpower_plus.
  replace (Rpower 10 (2 * d)) with (Rpower 10 d ^ 2) by (rewrite <- Rpower_pow by apply exp_pos; rewrite Rpower_mult; f_equal; cbn [INR]; ring). field. apply PI_neq0.
Qed.
(** The slope. *)
Lemma slope_lem : forall g log10_A gamma d, Forall (fun x => 0 < x) g ->
  times (fun x => Rpower (31557600 * x) (- d)) (twice g) (powerlaw (twice g) log10_A (gamma + d) 2) (powerlaw (twice g) log10_A gamma 2).
Proof.
  intros g A gam d hg. rewrite twice_rep, !powerlaw_rep by lia. apply times_rep; [exact hg|]. intros x hx. unfold pl.
  replace (gam + d - 3) with ((gam - 3) + d) by ring. replace (- (gam + d)) with (- gam + - d) by ring. rewrite !Rpower_plus.
  replace (Rpower (31557600 * x) (- d)) with (Rpower fyr d * Rpower x (- d)); [field; apply PI_neq0|].
  rewrite <- Rpower_mult_distr by lra. f_equal. unfold fyr, Rpower. f_equal. unfold Rdiv. rewrite Rmult_1_l, ln_Rinv by lra. ring.
Qed.

(** ** Positive variances *)
(** Strictly increasing positive frequencies. *)
Definition increasing (g : list R) : Prop := forall i, (i < length g)%nat -> nth i (0 :: g) 0 < nth i g 0.
Lemma increasing_pos : forall g, increasing g -> Forall (fun x => 0 < x) g.
Proof.
  intros g h. apply Forall_forall. intros x i. apply (In_nth _ _ 0) in i. destruct i as [i [hi <-]]. revert hi. induction i as [|i IH]; intros hi; [now apply (h 0%nat)|].
  apply Rlt_trans with (nth i g 0); [apply IH; lia|now apply (h (S i))].
Qed.
(** The spectra that give one value per column. *)
Inductive spectrum (f : list R) : result (list R) -> Prop :=
| sp_powerlaw A gamma : spectrum f (powerlaw f A gamma 2)
| sp_turnover A gamma lf0 kappa beta : spectrum f (turnover f A gamma lf0 kappa beta)
| sp_turnover_knee A gamma lfb lfk kappa delta : spectrum f (turnover_knee f A gamma lfb lfk kappa delta)
| sp_broken_powerlaw A gamma delta fb kappa : kappa <> 0 -> spectrum f (broken_powerlaw f A gamma delta fb kappa)
| sp_t_process A gamma : spectrum f (t_process f A gamma None)
| sp_t_process_adapt A gamma : spectrum f (t_process_adapt f A gamma NoAdapt)
| sp_genmodes A gamma : spectrum f (powerlaw_genmodes f A gamma 2 None).
Lemma pl_pos : forall A gam x, 0 < x -> 0 < pl A gam x.
Proof.
  intros A gam x hx. unfold pl. pose proof PI_RGT_0. assert (0 < p10 A) by apply exp_pos. assert (0 < Rpower fyr (gam - 3)) by apply exp_pos. assert (0 < Rpower x (- gam)) by apply exp_pos.
  assert (0 < PI ^ 2) by (apply pow_lt; lra). assert (0 < p10 A ^ 2) by (now apply pow_lt). assert (0 < 12) by lra.
  repeat (first [assumption | apply Rmult_lt_0_compat | apply Rinv_0_lt_compat]).
Qed.
Lemma dens_pos : forall hcf x, 0 < x -> hcf x <> 0 -> 0 < dens hcf x.
Proof.
  intros hcf x hx h. unfold dens. pose proof PI_RGT_0. assert (0 < hcf x ^ 2) by (rewrite <- Rsqr_pow2; now apply Rsqr_pos_lt). assert (0 < PI ^ 2) by (apply pow_lt; lra). assert (0 < x ^ 3) by (now apply pow_lt).
  assert (0 < 12) by lra. repeat (first [assumption | apply Rmult_lt_0_compat | apply Rinv_0_lt_compat]).
Qed.
Lemma bmul_ones : forall (f : list R) p, length p = length f -> bmul p (map (fun _ => 1) f) = Ok p.
Proof.
  intros f p e. rewrite bmul_eq by (now rewrite map_length). f_equal. revert p e. induction f as [|x f IH]; intros [|y p] e; try discriminate; [reflexivity|]. cbn. f_equal; [ring|]. apply IH. cbn in e. lia.
Qed.
Lemma spectrum_inv : forall g r, spectrum (rep 2 g) r -> exists h, (forall x, 0 < x -> 0 < h x) /\ r = Ok (rep 2 (spec h g)).
Proof.
  intros g r [A gam|A gam lf0 kappa beta|A gam lfb lfk kappa delta|A gam delta fb kappa hk|A gam|A gam|A gam].
  - exists (pl A gam). split; [apply pl_pos|now rewrite powerlaw_rep by lia].
  - eexists. split; [|unfold turnover; rewrite strain_rep; reflexivity]. intros x hx. apply dens_pos; [exact hx|]. apply Rgt_not_eq. unfold p10. repeat apply Rmult_lt_0_compat; try apply exp_pos. apply Rinv_0_lt_compat, exp_pos.
  - eexists. split; [|unfold turnover_knee; rewrite strain_rep; reflexivity]. intros x hx. apply dens_pos; [exact hx|]. apply Rgt_not_eq. unfold p10. repeat apply Rmult_lt_0_compat; try apply exp_pos.
    apply Rinv_0_lt_compat, sqrt_lt_R0. assert (0 < Rpower (Rpower 10 lfb / x) kappa) by apply exp_pos. lra.
  - eexists. split; [|unfold broken_powerlaw; rewrite strain_rep; reflexivity]. intros x hx. apply dens_pos; [exact hx|]. apply Rgt_not_eq. unfold p10. repeat apply Rmult_lt_0_compat; apply exp_pos.
  - exists (pl A gam). split; [apply pl_pos|]. unfold t_process. rewrite powerlaw_rep by lia. cbn [rbind]. apply bmul_ones. now rewrite !rep_length, spec_length.
  - exists (pl A gam). split; [apply pl_pos|]. unfold t_process_adapt. cbn [rbind]. rewrite powerlaw_rep by lia. cbn [rbind]. apply bmul_ones. now rewrite !rep_length, spec_length.
  - exists (pl A gam). split; [apply pl_pos|]. unfold powerlaw_genmodes. rewrite widths_rep by lia. cbn [rbind]. rewrite bmul_rep by apply diffs_length. reflexivity.
Qed.
Lemma Forall_rep {X} : forall (P : X -> Prop) c l, Forall P l -> Forall P (rep c l).
Proof. intros P c l h. apply Forall_forall. intros x i. unfold rep in i. apply in_flat_map in i. destruct i as [y [i j]]. apply repeat_spec in j. subst. rewrite Forall_forall in h. now apply h. Qed.
Lemma spec_pos : forall h g, increasing g -> (forall x, 0 < x -> 0 < h x) -> Forall (fun x => 0 < x) (spec h g).
Proof.
  intros h g hi hh. apply Forall_forall. intros x i. apply (In_nth _ _ 0) in i. destruct i as [i [li <-]]. rewrite spec_length in li. rewrite spec_nth by exact li.
  apply Rmult_lt_0_compat; [apply hh; pose proof (increasing_pos g hi) as p; rewrite Forall_forall in p; apply p; now apply nth_In|specialize (hi i li); lra].
Qed.
Lemma spectra_positive_lem : forall g r, increasing g -> spectrum (twice g) r ->
  exists phi, r = Ok phi /\ length phi = length (twice g) /\ Forall (fun x => 0 < x) phi /\
  forall i, (i < length g)%nat -> nth (2 * i) phi 0 = nth (2 * i + 1) phi 0.
Proof.
  intros g r hi hs. rewrite twice_rep in *. apply spectrum_inv in hs. destruct hs as [h [hh ->]]. eexists. split; [reflexivity|]. split; [now rewrite !rep_length, spec_length|].
  split; [apply Forall_rep; now apply spec_pos|]. intros i li. destruct (nth_pair h g i li) as [-> ->]. reflexivity.
Qed.
Lemma repeated_frequency_lem : forall g r i, Forall (fun x => 0 < x) g -> spectrum (twice g) r -> (i < length g)%nat ->
  exists phi, r = Ok phi /\
  (nth i g 0 = nth i (0 :: g) 0 -> nth (2 * i) phi 0 = 0 /\ nth (2 * i + 1) phi 0 = 0) /\
  (nth i g 0 < nth i (0 :: g) 0 -> nth (2 * i) phi 0 < 0 /\ nth (2 * i + 1) phi 0 < 0).
Proof.
  intros g r i hg hs hi. rewrite twice_rep in *. apply spectrum_inv in hs. destruct hs as [h [hh ->]]. eexists. split; [reflexivity|]. destruct (nth_pair h g i hi) as [-> ->].
  assert (0 < h (nth i g 0)) by (apply hh; rewrite Forall_forall in hg; apply hg; now apply nth_In). split; [intros e; rewrite e, Rminus_diag_eq by reflexivity; split; ring|]. intros l. split; nra.
Qed.
Lemma free_spectrum_lem : forall f rho, exists phi, free_spectrum f rho = Ok phi /\ length phi = (2 * length rho)%nat /\
  Forall (fun x => 0 < x) phi /\
  forall i, (i < length rho)%nat -> nth (2 * i) phi 0 = Rpower 10 (nth i rho 0) ^ 2 /\ nth (2 * i + 1) phi 0 = Rpower 10 (nth i rho 0) ^ 2.
Proof.
  intros f rho. eexists. split; [reflexivity|]. split; [now rewrite rep_length, map_length|]. split.
  - apply Forall_rep, Forall_forall. intros x i. apply in_map_iff in i. destruct i as [y [<- _]]. apply exp_pos.
  - intros i hi. destruct (rep2_nth (map (fun r => p10 (2 * r)) rho) i 0) as [-> ->]. rewrite (nth_map_in _ _ _ _ 0) by exact hi.
    assert (e : p10 (2 * nth i rho 0) = Rpower 10 (nth i rho 0) ^ 2) by (rewrite <- Rpower_pow by apply exp_pos; rewrite Rpower_mult; unfold p10; f_equal; cbn [INR]; ring). now rewrite e.
Qed.
Lemma t_process_lem : forall g log10_A gamma alphas, increasing g -> length alphas = length g -> Forall (fun x => 0 < x) alphas ->
  exists phi phi0, t_process (twice g) log10_A gamma (Some alphas) = Ok phi /\ t_process_adapt (twice g) log10_A gamma (Each alphas) = Ok phi /\
  powerlaw (twice g) log10_A gamma 2 = Ok phi0 /\ length phi = length (twice g) /\ Forall (fun x => 0 < x) phi /\
  forall i, (i < length g)%nat -> nth (2 * i) phi 0 = nth (2 * i) phi0 0 * nth i alphas 0 /\ nth (2 * i + 1) phi 0 = nth (2 * i) phi 0.
Proof.
  intros g A gam al hi la ha. rewrite twice_rep. unfold t_process, t_process_adapt. rewrite powerlaw_rep by lia. cbn [rbind].
  set (v := spec (pl A gam) g). assert (lv : length v = length al) by (unfold v; rewrite spec_length; congruence).
  assert (E : bmul (rep 2 v) (rep 2 al) = Ok (rep 2 (map (fun xw => fst xw * snd xw) (combine v al)))).
  { rewrite <- (map_id (rep 2 v)). rewrite (bmul_rep (fun x => x)) by congruence. reflexivity. }
  rewrite E. eexists _, _. split; [reflexivity|]. split; [reflexivity|]. split; [reflexivity|]. split; [rewrite !rep_length, map_length, combine_length, lv, la; lia|].
  assert (pv : Forall (fun x => 0 < x) v) by (apply spec_pos; [exact hi|apply pl_pos]). split.
  - apply Forall_rep, Forall_forall. intros x i. apply in_map_iff in i. destruct i as [[a b] [<- i]]. cbn. rewrite Forall_forall in pv, ha. apply Rmult_lt_0_compat; [apply pv; eapply in_combine_l; exact i|apply ha; eapply in_combine_r; exact i].
  - intros i li. destruct (rep2_nth v i 0) as [-> _]. destruct (rep2_nth (map (fun xw => fst xw * snd xw) (combine v al)) i 0) as [-> ->]. split; [|reflexivity].
    rewrite (nth_map_in _ _ _ _ (0, 0)) by (rewrite combine_length, lv, la; lia). rewrite combine_nth by exact lv. reflexivity.
Qed.
Lemma put_nth_length {X} : forall (v : list X) k x, length (put_nth v k x) = length v.
Proof. induction v as [|y v IH]; intros [|k] x; cbn; auto. Qed.
Lemma put_nth_nth {X} : forall (v : list X) k x j d, (k < length v)%nat -> nth j (put_nth v k x) d = if Nat.eqb j k then x else nth j v d.
Proof. induction v as [|y v IH]; intros [|k] x [|j] d h; cbn in *; try lia; try reflexivity. apply IH. lia. Qed.
Lemma put_at_nonneg {X} : forall (v : list X) k x, (k < length v)%nat -> put_at v (Z.of_nat k) x = Ok (put_nth v k x).
Proof.
  intros v k x h. unfold put_at. destruct (Z.ltb_spec (Z.of_nat k) 0); [lia|]. destruct (Z.leb_spec (Z.of_nat (length v)) (Z.of_nat k)); [lia|]. destruct (Z.ltb_spec (Z.of_nat k) 0); [lia|].
  cbn [orb]. now rewrite Nat2Z.id.
Qed.
Lemma t_process_one_lem : forall g log10_A gamma n alpha, (n < length g)%nat ->
  exists phi phi0, t_process_adapt (twice g) log10_A gamma (At (Z.of_nat n) alpha) = Ok phi /\ powerlaw (twice g) log10_A gamma 2 = Ok phi0 /\ length phi = length phi0 /\
  forall j, nth j phi 0 = nth j phi0 0 * if orb (Nat.eqb j (2 * n)) (Nat.eqb j (2 * n + 1)) then alpha else 1.
Proof.
  intros g A gam n al hn. rewrite twice_rep. unfold t_process_adapt. rewrite powerlaw_rep by lia. set (ph := rep 2 (spec (pl A gam) g)). set (one := map (fun _ => 1) (rep 2 g)).
  assert (lp : length ph = (2 * length g)%nat) by (unfold ph; now rewrite rep_length, spec_length). assert (lo : length one = (2 * length g)%nat) by (unfold one; now rewrite map_length, rep_length).
  replace (2 * Z.of_nat n)%Z with (Z.of_nat (2 * n)) by lia. replace (Z.of_nat (2 * n) + 1)%Z with (Z.of_nat (2 * n + 1)) by lia. rewrite put_at_nonneg by lia. cbn [rbind]. rewrite put_at_nonneg by (rewrite put_nth_length; lia). cbn [rbind].
  set (m := put_nth (put_nth one (2 * n) al) (2 * n + 1) al). assert (lm : length m = (2 * length g)%nat) by (unfold m; now rewrite !put_nth_length).
  rewrite bmul_eq by congruence. eexists _, _. split; [reflexivity|]. split; [reflexivity|]. split; [rewrite map_length, combine_length; lia|]. intros j.
  destruct (Nat.lt_ge_cases j (2 * length g)) as [hj|hj].
  - rewrite (nth_map_in _ _ _ _ (0, 0)) by (rewrite combine_length; lia). rewrite combine_nth by congruence. cbn [fst snd]. f_equal. unfold m. rewrite put_nth_nth by (rewrite put_nth_length; lia). rewrite put_nth_nth by lia.
    destruct (Nat.eqb_spec j (2 * n + 1)); [destruct (Nat.eqb j (2 * n)); reflexivity|]. destruct (Nat.eqb_spec j (2 * n)); [reflexivity|]. unfold one. now rewrite (nth_map_in _ _ _ _ 0) by (now rewrite rep_length).
  - rewrite !nth_overflow; [ring|lia|rewrite map_length, combine_length; lia].
Qed.
Lemma t_process_range_lem : forall g log10_A gamma (n : Z) alpha, (Z.of_nat (length g) <= n \/ n < - Z.of_nat (length g))%Z ->
  t_process_adapt (twice g) log10_A gamma (At n alpha) = Err IndexError.
Proof.
  intros g A gam n al h. rewrite twice_rep. unfold t_process_adapt, put_at. rewrite map_length, rep_length. replace (Z.of_nat (2 * length g)) with (2 * Z.of_nat (length g))%Z by lia.
  destruct (Z.ltb_spec (2 * n) 0).
  - destruct (Z.ltb_spec (2 * n + 2 * Z.of_nat (length g)) 0); [reflexivity|lia].
  - destruct (Z.ltb_spec (2 * n) 0); [lia|]. destruct (Z.leb_spec (2 * Z.of_nat (length g)) (2 * n)); [reflexivity|lia].
Qed.
(** Weights instead of widths. *)
Lemma genmodes_weights_lem : forall g log10_A gamma w, length w = length g -> Forall (fun x => 0 < x) g ->
  exists phi, powerlaw_genmodes (twice g) log10_A gamma 2 (Some w) = Ok phi /\ length phi = length (twice g) /\
  forall i, (i < length g)%nat -> nth (2 * i) phi 0 = Rpower 10 (2 * log10_A) / (12 * PI ^ 2) * Rpower (31557600 * nth i g 0) (- gamma) * 31557600 ^ 3 * nth i w 0 ^ 2
    /\ nth (2 * i + 1) phi 0 = nth (2 * i) phi 0.
Proof.
  intros g A gam w lw hg. rewrite twice_rep. unfold powerlaw_genmodes. cbn [rbind]. rewrite bmul_rep by (now rewrite map_length). eexists. split; [reflexivity|]. split; [rewrite !rep_length, map_length, combine_length, map_length; lia|].
  intros i hi. match goal with |- context [rep 2 ?v] => destruct (rep2_nth v i 0) as [-> ->] end. split; [|reflexivity].
  rewrite (nth_map_in _ _ _ _ (0, 0)) by (rewrite combine_length, map_length; lia). rewrite combine_nth by (now rewrite map_length). cbn [fst snd]. rewrite (nth_map_in _ _ _ _ 0) by congruence. f_equal.
  assert (hx : 0 < nth i g 0) by (rewrite Forall_forall in hg; apply hg; now apply nth_In).
  destruct (powerlaw_variance_lem 1 [nth i g 0] A gam ltac:(lia) ltac:(now constructor)) as [p [e1 [_ e2]]]. specialize (e2 0%nat 0%nat ltac:(cbn; lia) ltac:(lia)).
  change (flat_map _ _) with (rep 1 [nth i g 0]) in e1. rewrite powerlaw_rep in e1 by lia. injection e1 as <-. cbn in e2. apply (Rmult_eq_reg_r (nth i g 0 - 0)); [|lra]. exact e2.
Qed.
Lemma infinitepower_lem : forall f, infinitepower f = Ok (repeat (10 ^ 40) (length f)).
Proof. intros f. unfold infinitepower. f_equal. induction f as [|x f IH]; [reflexivity|]. cbn [map repeat length]. now rewrite IH. Qed.

(** ** Wrong numbers of columns per frequency *)
Lemma stride_length {X} : forall c (l : list X) k, (1 <= c)%nat -> (k < c)%nat -> (length (stride c k l) * c >= length l - k)%nat /\ (length (stride c k l) * c < length l - k + c)%nat.
Proof.
  intros c l. induction l as [|x l IH]; intros k hc hk; [cbn; lia|]. cbn [stride length]. destruct k as [|k].
  - cbn [length]. specialize (IH (c - 1)%nat hc ltac:(lia)). revert IH. generalize (length (stride c (c - 1) l)). intros m IH. destruct (Nat.lt_ge_cases (length l) (c - 1)); [|lia]. destruct m; lia.
  - specialize (IH k hc ltac:(lia)). lia.
Qed.
Lemma indivisible_lem : forall f c log10_A gamma, (2 <= length f)%nat -> (length f mod c <> 0)%nat -> powerlaw f log10_A gamma c = Err ValueError.
Proof.
  intros f c A gam hf hm. unfold powerlaw, widths. destruct c as [|c]; [reflexivity|]. cbn [rbind].
  set (w := rep (S c) _). assert (lw : (length w = S c * length (stride (S c) 0 f))%nat) by (unfold w; now rewrite rep_length, diffs_length).
  destruct (stride_length (S c) f 0 ltac:(lia) ltac:(lia)) as [s1 s2]. unfold bmul. rewrite map_length.
  destruct (Nat.eqb_spec (length f) (length w)) as [e|e].
  - exfalso. apply hm. rewrite e, lw, Nat.mul_comm. apply Nat.mod_mul. lia.
  - destruct f as [|x [|y f]]; [cbn in hf; lia|cbn in hf; lia|]. cbn [map]. destruct w as [|a [|b w]]; [reflexivity| |reflexivity]. cbn [length] in *. lia.
Qed.
Lemma six_columns_lem : forall g log10_A gamma, Forall (fun x => 0 < x) g ->
  exists phi, powerlaw (flat_map (fun x => repeat x 6) g) log10_A gamma 2 = Ok phi /\ length phi = (6 * length g)%nat /\
  forall i r, (i < length g)%nat -> (2 <= r < 6)%nat -> nth (6 * i + r) phi 0 = 0.
Proof.
  intros g A gam hg. assert (E : flat_map (fun x => repeat x 6) g = rep 2 (rep 3 g)) by (clear; induction g as [|x g IH]; [reflexivity|]; cbn in *; now rewrite IH).
  rewrite E, powerlaw_rep by lia. eexists. split; [reflexivity|]. split; [rewrite rep_length, spec_length, rep_length; lia|]. intros i r hi hr.
  assert (exists a b, r = (2 * a + b)%nat /\ (1 <= a < 3)%nat /\ (b < 2)%nat) as [a [b [-> [ha hb]]]].
  { exists (r / 2)%nat, (r mod 2)%nat. pose proof (Nat.div_mod r 2 ltac:(lia)). pose proof (Nat.mod_upper_bound r 2 ltac:(lia)). lia. }
  replace (6 * i + (2 * a + b))%nat with (2 * (3 * i + a) + b)%nat by lia. rewrite entry by (try rewrite rep_length; lia).
  rewrite rep_nth by lia. destruct a as [|a]; [lia|]. replace (3 * i + S a)%nat with (S (3 * i + a)) by lia. cbn [nth]. rewrite rep_nth by lia. ring.
Qed.

(** ** A stationary Gaussian process *)
Lemma fourier_gp_lem : forall (S : Type) (seeded : Z -> S) next toas o s F ff s' r,
  create_red seeded next toas o s = (Ok (F, ff), s') -> spectrum ff r ->
  exists phi, r = Ok phi /\ length phi = length ff /\
  forall i k, (i < length toas)%nat -> (k < length toas)%nat ->
  wsum phi (nth i F []) (nth k F [])
  = rsum (map (fun j => nth (2 * j) phi 0 * cos (2 * PI * nth (2 * j) ff 0 * (nth i toas 0 - nth k toas 0))) (seq 0 (length ff / 2))).
Proof.
  intros S seeded next toas o s F ff s' r h hs. pose proof h as h0. apply red_inv in h0. destruct h0 as [T [f [ph [_ [_ [_ [_ [_ [_ eff]]]]]]]]]. rewrite eff in hs.
  apply spectrum_inv in hs. destruct hs as [d [_ ->]]. eexists. split; [reflexivity|]. assert (l : length (rep 2 (spec d f)) = length ff) by (now rewrite eff, !rep_length, spec_length). split; [exact l|].
  apply (stationary_lem S seeded next toas o s F ff s' _ h l). intros j _. destruct (rep2_nth (spec d f) j 0) as [-> ->]. reflexivity.
Qed.
