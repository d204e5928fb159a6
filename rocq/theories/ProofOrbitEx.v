From Coq Require Import Reals ZArith Bool Arith List Lra Lia.
From Coq Require Import Ranalysis5.
From Coquelicot Require Import Coquelicot.
From Verif Require Import PyBase ModelCw ProofOrbit.
Import ListNotations.
Open Scope list_scope.
Open Scope R_scope.

(** ** Solutions exist *)
Lemma affine_derive : forall (P : R -> R) t d A c B, is_derive P t d -> is_derive (fun t => A + c * (B - P t)) t (c * - d).
Proof.
  intros P t d A c B H. assert (X : ex_derive P t) by (eexists; exact H). assert (V : Derive (fun x => P x) t = d) by (apply is_derive_unique; exact H).
  auto_derive; [exact X|]. rewrite V. ring.
Qed.
(** Constant eccentricity: the closed form *)
Lemma orbit_constant_exists_lem : forall mc e0 F0 phase0 b, 0 < mc -> 0 <= e0 < 1 -> 0 < F0 ->
  let m := mc * (GMsun / c_light ^ 3) in
  let k := 48 / (5 * PI * m ^ 2) * Rpower (2 * PI * m) (11 / 3) * enhancement e0 in
  b < 3 / (8 * k) * Rpower F0 (- (8 / 3)) ->
  exists F phase, inspiral0 F phase mc e0 0 b /\ F 0 = F0 /\ phase 0 = phase0.
Proof.
  intros mc e0 F0 phase0 b HM He HF m k Hb. assert (KE : k = rate mc e0) by reflexivity. assert (KP : 0 < k) by (rewrite KE; now apply rate_pos). clearbody k.
  set (F := fun t => Rpower (Rpower F0 (- (8 / 3)) - 8 / 3 * k * t) (- (3 / 8))).
  exists F, (fun t => phase0 + 6 * PI / (5 * k) * (Rpower F0 (- (5 / 3)) - Rpower (F t) (- (5 / 3)))).
  assert (P0 : F 0 = F0). { unfold F. rewrite Rmult_0_r, Rminus_0_r, Rpower_mult. replace (- (8 / 3) * - (3 / 8)) with 1 by field. now apply Rpower_1. }
  split; [|split; [exact P0|rewrite P0; ring]].
  intros t Ht. assert (FP : 0 < F t) by apply Rpower_pos. split; [exact FP|]. unfold constecc_eqns. do 2 eexists. split; [reflexivity|].
  assert (IP : 0 < Rpower F0 (- (8 / 3)) - 8 / 3 * k * t).
  { assert (8 / 3 * k * t < Rpower F0 (- (8 / 3))); [|lra]. apply Rle_lt_trans with (8 / 3 * k * b); [apply Rmult_le_compat_l; lra|].
    replace (Rpower F0 (- (8 / 3))) with (8 / 3 * k * (3 / (8 * k) * Rpower F0 (- (8 / 3)))) by (field; lra). apply Rmult_lt_compat_l; [lra|exact Hb]. }
  assert (D : is_derive F t (k * Rpower (F t) (11 / 3))).
  { replace (k * Rpower (F t) (11 / 3)) with (- (3 / 8) * Rpower (Rpower F0 (- (8 / 3)) - 8 / 3 * k * t) (- (3 / 8) - 1) * (- (8 / 3 * k))).
    - unfold F. apply (power_derive (fun t => Rpower F0 (- (8 / 3)) - 8 / 3 * k * t)); [exact IP|]. auto_derive; [exact I|ring].
    - unfold F. rewrite Rpower_mult. replace (- (3 / 8) * (11 / 3)) with (- (3 / 8) - 1) by field. field. }
  split; [rewrite Fdot_rate by assumption; rewrite <- KE; exact D|].
  assert (D2 : is_derive (fun t => Rpower (F t) (- (5 / 3))) t (- (5 / 3) * Rpower (F t) (- (5 / 3) - 1) * (k * Rpower (F t) (11 / 3)))) by now apply power_derive.
  replace (2 * PI * F t) with (6 * PI / (5 * k) * (- (- (5 / 3) * Rpower (F t) (- (5 / 3) - 1) * (k * Rpower (F t) (11 / 3))))).
  - apply (affine_derive (fun t => Rpower (F t) (- (5 / 3)))). exact D2.
  - replace (6 * PI / (5 * k) * - (- (5 / 3) * Rpower (F t) (- (5 / 3) - 1) * (k * Rpower (F t) (11 / 3)))) with (2 * PI * (Rpower (F t) (- (5 / 3) - 1) * Rpower (F t) (11 / 3))) by (field; lra).
    rewrite <- Rpower_plus. replace (- (5 / 3) - 1 + 11 / 3) with 1 by field. rewrite Rpower_1 by exact FP. ring.
Qed.

(** An increasing differentiable function has a differentiable inverse *)
Section Inverse.
Variables (G g : R -> R) (lb ub : R).
Hypothesis LU : lb < ub.
Hypothesis GD : forall x, lb <= x <= ub -> is_derive G x (g x).
Hypothesis GP : forall x, lb <= x <= ub -> 0 < g x.
Lemma G_incr : forall x y, lb <= x -> x < y -> y <= ub -> G x < G y.
Proof.
  intros x y Hx Hxy Hy. destruct (MVT_gen G x y g) as (c & Hc & E).
  - rewrite Rmin_left, Rmax_right by lra. intros z Hz. apply GD. lra.
  - rewrite Rmin_left, Rmax_right by lra. intros z Hz. apply continuity_pt_filterlim. apply (ex_derive_continuous G z). eexists. apply GD. lra.
  - rewrite Rmin_left, Rmax_right in Hc by lra. assert (P : 0 < g c) by (apply GP; lra). nra.
Qed.
Lemma G_cont : forall x, lb <= x <= ub -> continuity_pt G x.
Proof. intros x Hx. apply continuity_pt_filterlim. apply (ex_derive_continuous G x). eexists. now apply GD. Qed.
Lemma G_inv : forall y, G lb <= y <= G ub -> {x | lb <= x <= ub /\ G x = y}.
Proof. intros y Hy. exact (f_interv_is_interv G lb ub y LU Hy G_cont). Qed.
Definition inv (y : R) : R :=
  match Rle_dec (G lb) y with left p => match Rle_dec y (G ub) with left q => proj1_sig (G_inv y (conj p q)) | right _ => lb end | right _ => lb end.
Lemma inv_spec : forall y, G lb <= y <= G ub -> lb <= inv y <= ub /\ G (inv y) = y.
Proof. intros y [H1 H2]. unfold inv. destruct (Rle_dec (G lb) y); [|contradiction]. destruct (Rle_dec y (G ub)); [|contradiction]. exact (proj2_sig (G_inv y (conj r r0))). Qed.
Lemma inv_cont : forall y, G lb < y < G ub -> continuity_pt inv y.
Proof.
  apply (continuity_pt_recip_interv G inv lb ub LU G_incr).
  - intros x H1 H2. unfold comp, id. apply inv_spec. now split.
  - intros x H1 H2. apply inv_spec. now split.
  - exact G_cont.
Qed.
Lemma inv_derive : forall y, G lb < y < G ub -> is_derive inv y (/ g (inv y)).
Proof.
  intros y Hy. assert (HS := inv_spec y ltac:(lra)). destruct HS as [HB HE].
  assert (PP := GP _ HB). pose proof (G_incr lb ub ltac:(lra) LU ltac:(lra)) as GLU.
  destruct (inv_spec (G lb) ltac:(lra)) as [L1 L2]. destruct (inv_spec (G ub) ltac:(lra)) as [U1 U2].
  assert (MON : forall x z, lb <= x <= ub -> lb <= z <= ub -> G x <= G z -> x <= z) by (intros x z Hx Hz Hl; destruct (Rle_or_lt x z) as [H|H]; [exact H|]; pose proof (G_incr z x ltac:(lra) H ltac:(lra)); lra).
  assert (Prf : forall a, inv (G lb) <= a <= inv (G ub) -> derivable_pt G a) by (intros a Ha; exists (g a); apply is_derive_Reals, GD; lra).
  assert (INC : inv (G lb) <= inv y <= inv (G ub)) by (split; apply MON; lra).
  assert (V : derive_pt G (inv y) (Prf (inv y) INC) = g (inv y)) by (apply derive_pt_eq_0, is_derive_Reals, GD, HB).
  assert (L : derivable_pt_lim inv y (1 / derive_pt G (inv y) (Prf (inv y) INC))).
  { apply (derivable_pt_lim_recip_interv G inv (G lb) (G ub) y Prf).
    - now apply inv_cont.
    - lra.
    - exact Hy.
    - intros x Hx. unfold comp, id. apply inv_spec. exact Hx.
    - rewrite V. lra. }
  apply is_derive_Reals in L. rewrite V in L. replace (/ g (inv y)) with (1 / g (inv y)) by (unfold Rdiv; ring). exact L.
Qed.
End Inverse.

(** Changing eccentricity: frequency as a function of eccentricity, time as an integral over it *)
Definition lnh (e : R) : R := 18 / 19 * ln e + (- 3 / 2) * ln (1 - e ^ 2) + 1305 / 2299 * ln (1 + 121 / 304 * e ^ 2).
Definition Fof (K e : R) : R := K * exp (- lnh e).
Lemma peters_Fof : forall K e, peters (Fof K e) e = K.
Proof. intros K e. unfold peters, Fof, lnh, Rpower. rewrite exp_Ropp, !exp_plus. pose proof (exp_pos (18 / 19 * ln e)). pose proof (exp_pos (-3 / 2 * ln (1 - e ^ 2))). pose proof (exp_pos (1305 / 2299 * ln (1 + 121 / 304 * e ^ 2))). field. lra. Qed.
Lemma Fof_peters : forall F e, Fof (peters F e) e = F.
Proof. intros F e. unfold peters, Fof, lnh, Rpower. rewrite exp_Ropp, !exp_plus. pose proof (exp_pos (18 / 19 * ln e)). pose proof (exp_pos (-3 / 2 * ln (1 - e ^ 2))). pose proof (exp_pos (1305 / 2299 * ln (1 + 121 / 304 * e ^ 2))). field. lra. Qed.
Lemma Fof_derive : forall K e mc, 0 < K -> 0 < mc -> 0 < e < 1 -> is_derive (Fof K) e (get_Fdot (Fof K e) mc e / get_edot (Fof K e) mc e).
Proof.
  intros K e mc HK HM He. assert (FP : 0 < Fof K e) by (apply Rmult_lt_0_compat; [exact HK|apply exp_pos]).
  pose proof Tsun_pos as HT. assert (Hm : 0 < mc * Tsun) by (apply Rmult_lt_0_compat; assumption). pose proof PI_RGT_0.
  rewrite Fdot_form by lra. unfold get_edot. cbv zeta. set (m := mc * Tsun) in *. set (f := Fof K e) in *.
  pose proof (Rpower_pos (1 - e ^ 2) (5 / 2)). pose proof (Rpower_pos (2 * PI * m * f) (8 / 3)). set (y := Rpower (1 - e ^ 2) (5 / 2)) in *. set (x := Rpower (2 * PI * m * f) (8 / 3)) in *.
  assert (DL : is_derive lnh e (18 / 19 / e + 3 * e / (1 - e ^ 2) + 1305 / 2299 * (121 / 152 * e) / (1 + 121 / 304 * e ^ 2))).
  { unfold lnh. auto_derive; [repeat split; nra|]. field. repeat split; nra. }
  assert (D : is_derive (Fof K) e (- (18 / 19 / e + 3 * e / (1 - e ^ 2) + 1305 / 2299 * (121 / 152 * e) / (1 + 121 / 304 * e ^ 2)) * f)).
  { unfold f, Fof. assert (X : ex_derive lnh e) by (eexists; exact DL). assert (V : Derive (fun x => lnh x) e = _) by (apply is_derive_unique; exact DL). auto_derive; [exact X|]. rewrite V. ring. }
  replace (f * (96 / (5 * m) * x * ((1 + 73 / 24 * e ^ 2 + 37 / 96 * e ^ 4) / ((1 - e ^ 2) * y))) / (-304 / (15 * m) * x * e * (1 + 121 / 304 * e ^ 2) / y)) with (- (18 / 19 / e + 3 * e / (1 - e ^ 2) + 1305 / 2299 * (121 / 152 * e) / (1 + 121 / 304 * e ^ 2)) * f); [exact D|].
  clearbody x y m f. field. repeat split; try lra; nra.
Qed.
(** Time per eccentricity, along decreasing eccentricity *)
Definition slow (K mc e : R) : R := - / get_edot (Fof K e) mc e.
Lemma Fof_pos : forall K e, 0 < K -> 0 < Fof K e.
Proof. intros K e H. apply Rmult_lt_0_compat; [exact H|apply exp_pos]. Qed.
Lemma edot_neg : forall F mc e, 0 < F -> 0 < mc -> 0 < e < 1 -> get_edot F mc e < 0.
Proof. intros F mc e HF HM He. destruct (orbit_signs_lem F mc 1 e HF HM ltac:(lra) ltac:(lra)) as (_ & LE & NE & _). assert (get_edot F mc e <> 0) by (intros Z; apply NE in Z; lra). lra. Qed.
Lemma slow_cont : forall K mc e, 0 < K -> 0 < mc -> 0 < e < 1 -> continuous (slow K mc) e.
Proof.
  intros K mc e HK HM He. apply (ex_derive_continuous (slow K mc) e). unfold slow, get_edot. cbv zeta. pose proof (Fof_pos K e HK) as FP. pose proof Tsun_pos as HT. pose proof PI_RGT_0. pose proof (edot_neg _ mc e FP HM He) as EN. unfold get_edot in EN. cbv zeta in EN.
  assert (X : ex_derive (Fof K) e) by (eexists; now apply (Fof_derive K e mc)). set (HH := Fof K) in *. clearbody HH. unfold Rpower in *. assert (0 < mc * Tsun) by (apply Rmult_lt_0_compat; assumption).
  auto_derive. repeat split; try exact X; try nra; try (apply Rgt_not_eq, exp_pos); repeat (lra || apply Rmult_lt_0_compat); try lra.
  apply Rlt_not_eq. exact EN.
Qed.
Lemma integral_derive : forall (h : R -> R) l u x0 t, (forall s, l < s < u -> continuous h s) -> l < x0 < u -> l < t < u -> is_derive (fun t => RInt h x0 t) t (h t).
Proof.
  intros h l u x0 t HC H0 Ht. apply (is_derive_RInt h (fun t => RInt h x0 t) x0 t); [|now apply HC].
  assert (E : 0 < Rmin (t - l) (u - t)) by (apply Rmin_glb_lt; lra). exists (mkposreal _ E). intros s Hs. change (Rabs (s - t) < Rmin (t - l) (u - t)) in Hs.
  assert (S1 : Rabs (s - t) < t - l) by (eapply Rlt_le_trans; [exact Hs|apply Rmin_l]). assert (S2 : Rabs (s - t) < u - t) by (eapply Rlt_le_trans; [exact Hs|apply Rmin_r]).
  apply Rabs_def2 in S1. apply Rabs_def2 in S2. apply (RInt_correct h x0 s). apply ex_RInt_continuous. intros z Hz. apply HC.
  split; [eapply Rlt_le_trans; [|apply Hz]; apply Rmin_glb_lt; lra|eapply Rle_lt_trans; [apply Hz|]; apply Rmax_lub_lt; lra].
Qed.
Lemma inspiral_exists_lem : forall mc q F0 e0 gamma0 phase0, 0 < mc -> 0 < F0 -> 0 < e0 < 1 ->
  exists b F e gamma phase, 0 < b /\ inspiral F e gamma phase mc q (- b) b /\ F 0 = F0 /\ e 0 = e0 /\ gamma 0 = gamma0 /\ phase 0 = phase0.
Proof.
  intros mc q F0 e0 gamma0 phase0 HM HF0 He0. set (K := peters F0 e0).
  assert (HK : 0 < K) by (unfold K, peters; repeat (assumption || apply Rpower_pos || apply Rmult_lt_0_compat)).
  set (lb := e0 / 2). set (ub := (1 + e0) / 2). set (G := (fun x => RInt (slow K mc) e0 x) : R -> R).
  assert (LU : lb < ub) by (unfold lb, ub; lra).
  assert (RG : forall x, lb <= x <= ub -> 0 < x < 1) by (unfold lb, ub; intros; lra).
  assert (GD : forall x, lb <= x <= ub -> is_derive G x (slow K mc x)). { intros x Hx. apply (integral_derive (slow K mc) 0 1 e0 x); [|lra|now apply RG]. intros s Hs. now apply slow_cont. }
  assert (GP : forall x, lb <= x <= ub -> 0 < slow K mc x). { intros x Hx. unfold slow. pose proof (edot_neg (Fof K x) mc x (Fof_pos K x HK) HM (RG x Hx)) as N. apply Ropp_0_gt_lt_contravar. now apply Rinv_lt_0_compat. }
  assert (G0 : G e0 = 0) by (unfold G; exact (RInt_point e0 (slow K mc))).
  pose proof (G_incr G (slow K mc) lb ub GD GP) as INC.
  assert (GL : G lb < 0) by (rewrite <- G0; apply INC; unfold lb, ub; lra). assert (GU : 0 < G ub) by (rewrite <- G0; apply INC; unfold lb, ub; lra).
  set (E := inv G (slow K mc) lb ub LU GD).
  assert (ES : forall y, G lb <= y <= G ub -> lb <= E y <= ub /\ G (E y) = y) by (intros; now apply inv_spec).
  assert (E0 : E 0 = e0). { destruct (ES 0 ltac:(lra)) as [B1 B2]. destruct (Rtotal_order (E 0) e0) as [H|[H|H]]; [|exact H|]; exfalso.
    - pose proof (INC (E 0) e0 ltac:(lra) H ltac:(unfold ub; lra)). lra. - pose proof (INC e0 (E 0) ltac:(unfold lb; lra) H ltac:(lra)). lra. }
  set (c := Rmin (G ub) (- G lb)). assert (CP : 0 < c) by (apply Rmin_glb_lt; lra). assert (C1 : c <= G ub) by apply Rmin_l. assert (C2 : c <= - G lb) by apply Rmin_r. clearbody c.
  set (e := fun t => E (- t)). set (F := fun t => Fof K (e t)).
  assert (ER : forall t, - c < t < c -> 0 < e t < 1) by (intros t Ht; apply RG, (ES (- t)); lra).
  assert (FP : forall t, 0 < F t) by (intros t; now apply Fof_pos).
  assert (ED : forall t, - c < t < c -> is_derive e t (get_edot (F t) mc (e t))).
  { intros t Ht. assert (D : is_derive E (- t) (/ slow K mc (E (- t)))) by (apply inv_derive; [exact GP|lra]).
    replace (get_edot (F t) mc (e t)) with (- 1 * / slow K mc (E (- t))).
    - apply (is_derive_comp E (fun t => - t) t _ (- 1)); [exact D|]. auto_derive; [exact I|ring].
    - unfold slow. fold (e t). fold (F t). pose proof (edot_neg (F t) mc (e t) (FP t) HM (ER t Ht)). field. lra. }
  assert (FD : forall t, - c < t < c -> is_derive F t (get_Fdot (F t) mc (e t))).
  { intros t Ht. pose proof (edot_neg (F t) mc (e t) (FP t) HM (ER t Ht)). replace (get_Fdot (F t) mc (e t)) with (get_edot (F t) mc (e t) * (get_Fdot (F t) mc (e t) / get_edot (F t) mc (e t))) by (field; lra).
    apply (is_derive_comp (Fof K) e t); [apply Fof_derive; auto|now apply ED]. }
  assert (PC : forall s, - c < s < c -> continuous (fun t => 2 * PI * F t) s).
  { intros s Hs. apply (ex_derive_continuous (fun t => 2 * PI * F t) s). assert (X : ex_derive F s) by (eexists; now apply FD). auto_derive. exact X. }
  assert (GC : forall s, - c < s < c -> continuous (fun t => get_gammadot (F t) mc q (e t)) s).
  { intros s Hs. apply (ex_derive_continuous (fun t => get_gammadot (F t) mc q (e t)) s). assert (X : ex_derive F s) by (eexists; now apply FD). assert (Y : ex_derive e s) by (eexists; now apply ED).
    pose proof (ER s Hs) as HE. pose proof (FP s) as HF. pose proof Tsun_pos as HT. pose proof PI_RGT_0 as HP. clearbody F e.
    unfold get_gammadot. cbv zeta. set (m := Rpower ((1 + q) ^ 2 / q) (3 / 5) * (mc * Tsun)). assert (M : 0 < m) by (unfold m; repeat (assumption || apply Rpower_pos || apply Rmult_lt_0_compat)). clearbody m. unfold Rpower.
    auto_derive. repeat split; try exact X; try exact Y; try nra; repeat (lra || apply Rmult_lt_0_compat). }
  exists (c / 2), F, e, (fun t => gamma0 + RInt (fun t => get_gammadot (F t) mc q (e t)) 0 t), (fun t => phase0 + RInt (fun t => 2 * PI * F t) 0 t).
  split; [lra|]. split.
  - intros t Ht. split; [apply FP|]. split; [apply ER; lra|]. unfold ecc_eqns. do 4 eexists. split; [reflexivity|]. split; [apply FD; lra|]. split; [apply ED; lra|].
    assert (PL : forall (h : R -> R) a d, is_derive h t d -> is_derive (fun t => a + h t) t d).
    { intros h a d D. replace d with (0 + d) by ring. apply (@is_derive_plus R_AbsRing R_NormedModule (fun _ => a) h t 0 d); [apply @is_derive_const|exact D]. }
    split; apply PL.
    + apply (integral_derive (fun t => get_gammadot (F t) mc q (e t)) (- c) c 0 t); [exact GC|lra|lra].
    + apply (integral_derive (fun t => 2 * PI * F t) (- c) c 0 t); [exact PC|lra|lra].
  - assert (e 0 = e0) by (unfold e; rewrite Ropp_0; exact E0). split; [unfold F; rewrite H; apply Fof_peters|]. split; [exact H|]. split; [rewrite (RInt_point 0 (fun t => get_gammadot (F t) mc q (e t)))|rewrite (RInt_point 0 (fun t => 2 * PI * F t))]; apply Rplus_0_r.
Qed.
