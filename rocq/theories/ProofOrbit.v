From Coq Require Import Reals ZArith Bool Arith List Lra Lia.
From Coquelicot Require Import Coquelicot.
From Verif Require Import PyBase ModelCw.
Import ListNotations.
Open Scope list_scope.
Open Scope R_scope.

(** ** Specification *)
(** Frequency and eccentricity along an inspiral (Peters 1964, 5.11, with Kepler's law) *)
Definition peters (F e : R) : R := F * Rpower e (18 / 19) * Rpower (1 - e ^ 2) (- 3 / 2) * Rpower (1 + 121 / 304 * e ^ 2) (1305 / 2299).
(** Enhancement of the radiated power by eccentricity (Peters and Mathews 1963) *)
Definition enhancement (e : R) : R := (1 + 73 / 24 * e ^ 2 + 37 / 96 * e ^ 4) / Rpower (1 - e ^ 2) (7 / 2).
(** A solution of the equations of the code on [a, b] *)
Definition inspiral (F e gamma phase : R -> R) (mc q a b : R) : Prop :=
  forall t, a <= t <= b -> 0 < F t /\ 0 < e t < 1 /\ exists dF de dg dp, ecc_eqns (F t) (e t) (gamma t) (phase t) mc q = [dF; de; dg; dp] /\
    is_derive F t dF /\ is_derive e t de /\ is_derive gamma t dg /\ is_derive phase t dp.
Definition inspiral0 (F phase : R -> R) (mc e0 a b : R) : Prop :=
  forall t, a <= t <= b -> 0 < F t /\ exists dF dp, constecc_eqns (F t) (phase t) mc e0 = [dF; dp] /\ is_derive F t dF /\ is_derive phase t dp.

Lemma Tsun_pos : 0 < Tsun.
Proof. unfold Tsun, GMsun, c_light. apply Rdiv_lt_0_compat; lra. Qed.
Lemma Rpower_pos : forall x y, 0 < Rpower x y.
Proof. intros. apply exp_pos. Qed.
(** [X] collects the powers *)
Lemma Fdot_form : forall F mc e, 0 < F -> 0 < mc -> 0 <= e < 1 ->
  get_Fdot F mc e = F * (96 / (5 * (mc * Tsun)) * Rpower (2 * PI * (mc * Tsun) * F) (8 / 3) * ((1 + 73 / 24 * e ^ 2 + 37 / 96 * e ^ 4) / ((1 - e ^ 2) * Rpower (1 - e ^ 2) (5 / 2)))).
Proof.
  intros F mc e HF HM He. unfold get_Fdot. pose proof Tsun_pos as HT. pose proof PI_RGT_0 as HP. set (m := mc * Tsun). assert (0 < m) by (apply Rmult_lt_0_compat; assumption). cbv zeta. fold m.
  replace (11 / 3) with (8 / 3 + 1) by field. replace (7 / 2) with (1 + 5 / 2) by field. assert (W : 0 < 2 * PI * m * F) by (repeat (lra || apply Rmult_lt_0_compat)). assert (W2 : 0 < 1 - e ^ 2) by nra. rewrite !Rpower_plus, (Rpower_1 _ W), (Rpower_1 _ W2).
  pose proof (Rpower_pos (1 - e ^ 2) (5 / 2)). field. repeat split; try lra; nra.
Qed.
Lemma peters_lem : forall F e gamma phase mc q a b, 0 < mc -> a < b -> inspiral F e gamma phase mc q a b -> peters (F b) (e b) = peters (F a) (e a).
Proof.
  intros F e gamma phase mc q a b HM AB HI.
  set (L := fun t => ln (F t) + 18 / 19 * ln (e t) + (- 3 / 2) * ln (1 - e t ^ 2) + 1305 / 2299 * ln (1 + 121 / 304 * e t ^ 2)).
  assert (PL : forall t, a <= t <= b -> peters (F t) (e t) = exp (L t)).
  { intros t Ht. destruct (HI t Ht) as (HF & He & _). unfold L, peters, Rpower. rewrite !exp_plus, exp_ln by exact HF. reflexivity. }
  rewrite !PL by lra. f_equal. symmetry. apply (eq_is_derive L a b); [|exact AB]. intros t Ht. destruct (HI t Ht) as (HF & He & dF & de & dg & dp & EQ & D1 & D2 & _). unfold ecc_eqns in EQ. injection EQ as EF EE EG EP.
  match goal with |- is_derive ?g t _ => cut (is_derive g t 0); [intros X; exact X|] end. unfold L.
  assert (X1 : ex_derive F t) by (eexists; exact D1). assert (X2 : ex_derive e t) by (eexists; exact D2).
  assert (V1 : Derive (fun x => F x) t = dF) by (apply is_derive_unique; exact D1). assert (V2 : Derive (fun x => e x) t = de) by (apply is_derive_unique; exact D2).
  auto_derive; [repeat split; try assumption; try lra; nra|]. rewrite V1, V2, <- EF, <- EE. rewrite Fdot_form by lra. unfold get_edot. cbv zeta.
  pose proof Tsun_pos as HT. set (m := mc * Tsun). assert (0 < m) by (apply Rmult_lt_0_compat; assumption).
  pose proof (Rpower_pos (1 - e t ^ 2) (5 / 2)). set (y := Rpower (1 - e t ^ 2) (5 / 2)) in *. set (x := Rpower (2 * PI * m * F t) (8 / 3)). set (u := e t) in *. set (f := F t) in *. clearbody x y u f m.
  match goal with |- _ = ?z => change z with 0 end. field. repeat split; try lra; nra.
Qed.
Lemma orbit_signs_lem : forall F mc q e, 0 < F -> 0 < mc -> 0 < q -> 0 <= e < 1 ->
  0 < get_Fdot F mc e /\ get_edot F mc e <= 0 /\ (get_edot F mc e = 0 <-> e = 0) /\ 0 < get_gammadot F mc q e.
Proof.
  intros F mc q e HF HM HQ He. pose proof Tsun_pos as HT. pose proof PI_RGT_0 as HP.
  assert (Hm : 0 < mc * Tsun) by (apply Rmult_lt_0_compat; assumption).
  assert (E2 : 0 < 1 - e ^ 2) by nra.
  split; [|split; [|split]].
  - rewrite Fdot_form by assumption. repeat (lra || apply Rpower_pos || apply Rdiv_lt_0_compat || apply Rmult_lt_0_compat || nra).
  - unfold get_edot. cbv zeta. set (m := mc * Tsun) in *. pose proof (Rpower_pos (2 * PI * m * F) (8 / 3)). pose proof (Rpower_pos (1 - e ^ 2) (5 / 2)).
    replace (-304 / (15 * m) * Rpower (2 * PI * m * F) (8 / 3) * e * (1 + 121 / 304 * e ^ 2) / Rpower (1 - e ^ 2) (5 / 2))
      with (- (304 / (15 * m) * Rpower (2 * PI * m * F) (8 / 3) * (1 + 121 / 304 * e ^ 2) / Rpower (1 - e ^ 2) (5 / 2) * e)) by (field; lra).
    apply Rge_le, Ropp_0_le_ge_contravar. apply Rmult_le_pos; [|lra]. apply Rlt_le. repeat (lra || apply Rdiv_lt_0_compat || apply Rmult_lt_0_compat || nra).
  - unfold get_edot. cbv zeta. set (m := mc * Tsun) in *. pose proof (Rpower_pos (2 * PI * m * F) (8 / 3)). pose proof (Rpower_pos (1 - e ^ 2) (5 / 2)).
    replace (-304 / (15 * m) * Rpower (2 * PI * m * F) (8 / 3) * e * (1 + 121 / 304 * e ^ 2) / Rpower (1 - e ^ 2) (5 / 2))
      with (- (304 / (15 * m) * Rpower (2 * PI * m * F) (8 / 3) * (1 + 121 / 304 * e ^ 2) / Rpower (1 - e ^ 2) (5 / 2) * e)) by (field; lra).
    assert (K : 0 < 304 / (15 * m) * Rpower (2 * PI * m * F) (8 / 3) * (1 + 121 / 304 * e ^ 2) / Rpower (1 - e ^ 2) (5 / 2)) by (repeat (lra || apply Rdiv_lt_0_compat || apply Rmult_lt_0_compat || nra)).
    set (k := 304 / (15 * m) * Rpower (2 * PI * m * F) (8 / 3) * (1 + 121 / 304 * e ^ 2) / Rpower (1 - e ^ 2) (5 / 2)) in *. clearbody k. split; [intros Z; nra|intros ->; ring].
  - unfold get_gammadot. cbv zeta. set (x := Rpower (2 * PI * F * (Rpower ((1 + q) ^ 2 / q) (3 / 5) * (mc * Tsun))) (2 / 3)). assert (0 < x) by apply Rpower_pos. clearbody x.
    assert (0 < 26 - 15 * e ^ 2) by nra. apply Rmult_lt_0_compat; [repeat (lra || apply Rdiv_lt_0_compat || apply Rmult_lt_0_compat)|]. assert (0 < 25 / 100 * x / (1 - e ^ 2) * (26 - 15 * e ^ 2)) by (repeat (lra || apply Rdiv_lt_0_compat || apply Rmult_lt_0_compat)). lra.
Qed.
(** A circular orbit chirps as the quadrupole formula says, with [f = 2 F]; eccentricity speeds it up *)
Lemma orbit_chirp_lem : forall F mc e, 0 < F -> 0 < mc -> 0 <= e < 1 ->
  2 * get_Fdot F mc e = 96 / 5 * Rpower PI (8 / 3) * Rpower (mc * (GMsun / c_light ^ 3)) (5 / 3) * Rpower (2 * F) (11 / 3) * enhancement e.
Proof.
  intros F mc e HF HM He. unfold get_Fdot, enhancement. cbv zeta. fold Tsun. pose proof Tsun_pos as HT. pose proof PI_RGT_0 as HP. set (m := mc * Tsun). assert (Hm : 0 < m) by (apply Rmult_lt_0_compat; assumption).
  replace (2 * PI * m * F) with (PI * (m * (2 * F))) by ring. rewrite <- (Rpower_mult_distr PI), <- (Rpower_mult_distr m) by (repeat (lra || apply Rmult_lt_0_compat)).
  replace (Rpower PI (11 / 3)) with (Rpower PI (8 / 3) * PI) by (rewrite <- (Rpower_1 PI HP) at 2; rewrite <- Rpower_plus; f_equal; field).
  replace (Rpower m (11 / 3)) with (Rpower m (5 / 3) * m ^ 2) by (rewrite <- (Rpower_pow 2 m Hm); rewrite <- Rpower_plus; f_equal; cbn; field).
  pose proof (Rpower_pos (1 - e ^ 2) (7 / 2)). field. lra.
Qed.
Lemma enhancement_incr_lem : forall e e', 0 <= e -> e < e' -> e' < 1 -> enhancement e < enhancement e'.
Proof.
  intros e e' H0 H1 H2. unfold enhancement. assert (S : e ^ 2 < e' ^ 2) by nra. assert (S4 : e ^ 4 < e' ^ 4) by (replace (e ^ 4) with ((e ^ 2) ^ 2) by ring; replace (e' ^ 4) with ((e' ^ 2) ^ 2) by ring; pose proof (pow2_ge_0 e); nra).
  assert (P : Rpower (1 - e' ^ 2) (7 / 2) <= Rpower (1 - e ^ 2) (7 / 2)) by (apply Rle_Rpower_l; [lra|nra]).
  pose proof (Rpower_pos (1 - e' ^ 2) (7 / 2)). pose proof (Rpower_pos (1 - e ^ 2) (7 / 2)).
  apply Rlt_le_trans with ((1 + 73 / 24 * e' ^ 2 + 37 / 96 * e' ^ 4) / Rpower (1 - e ^ 2) (7 / 2)).
  - apply Rmult_lt_compat_r; [now apply Rinv_0_lt_compat|lra].
  - apply Rmult_le_compat_l; [nra|]. now apply Rinv_le_contravar.
Qed.
(** The total mass from chirp mass and mass ratio *)
Lemma orbit_precession_lem : forall F m1 m2 e, 0 < F -> 0 < m1 -> 0 < m2 ->
  let chirp := Rpower (m1 * m2) (3 / 5) / Rpower (m1 + m2) (1 / 5) in
  let x := Rpower (2 * PI * F * ((m1 + m2) * (GMsun / c_light ^ 3))) (2 / 3) in
  get_gammadot F chirp (m2 / m1) e = 6 * PI * F * x / (1 - e ^ 2) * (1 + x / (4 * (1 - e ^ 2)) * (26 - 15 * e ^ 2)) /\
  get_gammadot F chirp (m1 / m2) e = get_gammadot F chirp (m2 / m1) e.
Proof.
  intros F m1 m2 e HF H1 H2 chirp x. fold Tsun in x.
  assert (M : forall a b, 0 < a -> 0 < b -> Rpower ((1 + b / a) ^ 2 / (b / a)) (3 / 5) * (Rpower (a * b) (3 / 5) / Rpower (a + b) (1 / 5) * Tsun) = (a + b) * Tsun).
  { intros a b Ha Hb. replace ((1 + b / a) ^ 2 / (b / a)) with ((a + b) ^ 2 * / (a * b)) by (field; lra). assert (Hab : 0 < a * b) by (apply Rmult_lt_0_compat; assumption).
    rewrite <- Rpower_mult_distr; [|apply pow_lt; lra|now apply Rinv_0_lt_compat]. rewrite <- (Rpower_pow 2 (a + b)) by lra. rewrite Rpower_mult.
    replace (Rpower (/ (a * b)) (3 / 5)) with (/ Rpower (a * b) (3 / 5)) by (unfold Rpower; rewrite ln_Rinv by assumption; rewrite <- exp_Ropp; f_equal; ring).
    pose proof (Rpower_pos (a * b) (3 / 5)). pose proof (Rpower_pos (a + b) (1 / 5)).
    replace (Rpower (a + b) (INR 2 * (3 / 5))) with ((a + b) * Rpower (a + b) (1 / 5)) by (rewrite <- (Rpower_1 (a + b)) at 1 by lra; rewrite <- Rpower_plus; f_equal; cbn; field).
    field. lra. }
  assert (G : forall q, Rpower ((1 + q) ^ 2 / q) (3 / 5) * (chirp * Tsun) = (m1 + m2) * Tsun -> get_gammadot F chirp q e = 6 * PI * F * x / (1 - e ^ 2) * (1 + x / (4 * (1 - e ^ 2)) * (26 - 15 * e ^ 2))).
  { intros q E. unfold get_gammadot. cbv zeta. rewrite E. fold x. unfold Rdiv. rewrite Rinv_mult. f_equal. f_equal. f_equal. replace (25 * / 100) with (/ 4) by field. ring. }
  split; [apply G, M; assumption|]. rewrite !G; [reflexivity|apply M; assumption|]. rewrite (Rplus_comm m1 m2). rewrite <- (M m2 m1) by assumption. unfold chirp. rewrite (Rmult_comm m1 m2), (Rplus_comm m1 m2). reflexivity.
Qed.
(** Constant eccentricity *)
Definition rate (mc e0 : R) : R := 48 / (5 * PI * (mc * Tsun) ^ 2) * Rpower (2 * PI * (mc * Tsun)) (11 / 3) * enhancement e0.
Lemma rate_pos : forall mc e0, 0 < mc -> 0 <= e0 < 1 -> 0 < rate mc e0.
Proof.
  intros mc e0 HM He. unfold rate, enhancement. pose proof Tsun_pos. pose proof PI_RGT_0. assert (0 < mc * Tsun) by (apply Rmult_lt_0_compat; assumption).
  repeat (lra || apply Rpower_pos || apply pow_lt || apply Rdiv_lt_0_compat || apply Rmult_lt_0_compat || nra).
Qed.
Lemma Fdot_rate : forall F mc e0, 0 < F -> 0 < mc -> 0 <= e0 < 1 -> get_Fdot F mc e0 = rate mc e0 * Rpower F (11 / 3).
Proof.
  intros F mc e0 HF HM He. unfold get_Fdot, rate, enhancement. cbv zeta. pose proof Tsun_pos. pose proof PI_RGT_0. assert (0 < mc * Tsun) by (apply Rmult_lt_0_compat; assumption).
  rewrite <- (Rpower_mult_distr (2 * PI * (mc * Tsun)) F) by (repeat (lra || apply Rmult_lt_0_compat)). pose proof (Rpower_pos (1 - e0 ^ 2) (7 / 2)). field. lra.
Qed.
Lemma power_derive : forall (F : R -> R) t d p, 0 < F t -> is_derive F t d -> is_derive (fun t => Rpower (F t) p) t (p * Rpower (F t) (p - 1) * d).
Proof.
  intros F t d p HF HD. unfold Rpower at 1. assert (X1 : ex_derive F t) by (eexists; exact HD). assert (V1 : Derive (fun x => F x) t = d) by (apply is_derive_unique; exact HD).
  auto_derive; [split; [exact X1|split; [exact HF|exact I]]|]. rewrite V1. replace (Rpower (F t) (p - 1)) with (exp (p * ln (F t)) * / F t).
  - ring.
  - unfold Rminus. rewrite Rpower_plus, Rpower_Ropp, Rpower_1 by exact HF. reflexivity.
Qed.
Lemma orbit_constant_lem : forall F phase mc e0 a b, 0 < mc -> 0 <= e0 < 1 -> a < b -> inspiral0 F phase mc e0 a b ->
  let m := mc * (GMsun / c_light ^ 3) in
  let k := 48 / (5 * PI * m ^ 2) * Rpower (2 * PI * m) (11 / 3) * enhancement e0 in
  0 < k /\
  Rpower (F b) (- (8 / 3)) = Rpower (F a) (- (8 / 3)) - 8 / 3 * k * (b - a) /\
  phase b - phase a = 6 * PI / (5 * k) * (Rpower (F a) (- (5 / 3)) - Rpower (F b) (- (5 / 3))) /\
  b - a < 3 / (8 * k) * Rpower (F a) (- (8 / 3)).
Proof.
  intros F phase mc e0 a b HM He AB HI m k. assert (KE : k = rate mc e0) by reflexivity. assert (KP : 0 < k) by (rewrite KE; now apply rate_pos). clearbody k. subst k. set (k := rate mc e0) in *.
  assert (D : forall t, a <= t <= b -> is_derive F t (k * Rpower (F t) (11 / 3)) /\ is_derive phase t (2 * PI * F t) /\ 0 < F t).
  { intros t Ht. destruct (HI t Ht) as (HF & dF & dp & EQ & D1 & D2). unfold constecc_eqns in EQ. injection EQ as EF EP. rewrite Fdot_rate in EF by assumption. subst. auto. }
  assert (E1 : Rpower (F b) (- (8 / 3)) = Rpower (F a) (- (8 / 3)) - 8 / 3 * k * (b - a)).
  { assert (E : (fun t => Rpower (F t) (- (8 / 3)) + 8 / 3 * k * t) a = (fun t => Rpower (F t) (- (8 / 3)) + 8 / 3 * k * t) b); [|lra].
    apply (eq_is_derive (fun t => Rpower (F t) (- (8 / 3)) + 8 / 3 * k * t)); [|exact AB]. intros t Ht. destruct (D t Ht) as (D1 & _ & HF). match goal with |- is_derive ?g t _ => cut (is_derive g t 0); [intros X; exact X|] end.
    replace 0 with (- (8 / 3) * Rpower (F t) (- (8 / 3) - 1) * (k * Rpower (F t) (11 / 3)) + 8 / 3 * k).
    - apply (@is_derive_plus R_AbsRing R_NormedModule (fun t => Rpower (F t) (- (8 / 3))) (fun t => 8 / 3 * k * t) t _ (8 / 3 * k)); [now apply power_derive|]. auto_derive; [exact I|ring].
    - replace (11 / 3) with (- (- (8 / 3) - 1)) by field. rewrite Rpower_Ropp. pose proof (Rpower_pos (F t) (- (8 / 3) - 1)). field. lra. }
  assert (E2 : phase b - phase a = 6 * PI / (5 * k) * (Rpower (F a) (- (5 / 3)) - Rpower (F b) (- (5 / 3)))).
  { assert (E : (fun t => phase t + 6 * PI / (5 * k) * Rpower (F t) (- (5 / 3))) a = (fun t => phase t + 6 * PI / (5 * k) * Rpower (F t) (- (5 / 3))) b); [|cbv beta in E; lra].
    apply (eq_is_derive (fun t => phase t + 6 * PI / (5 * k) * Rpower (F t) (- (5 / 3)))); [|exact AB]. intros t Ht. destruct (D t Ht) as (D1 & D2 & HF). match goal with |- is_derive ?g t _ => cut (is_derive g t 0); [intros X; exact X|] end.
    replace 0 with (2 * PI * F t + 6 * PI / (5 * k) * (- (5 / 3) * Rpower (F t) (- (5 / 3) - 1) * (k * Rpower (F t) (11 / 3)))).
    - apply (@is_derive_plus R_AbsRing R_NormedModule phase (fun t => 6 * PI / (5 * k) * Rpower (F t) (- (5 / 3))) t (2 * PI * F t) _); [exact D2|]. apply is_derive_scal. now apply power_derive.
    - replace (6 * PI / (5 * k) * (- (5 / 3) * Rpower (F t) (- (5 / 3) - 1) * (k * Rpower (F t) (11 / 3)))) with (- 2 * PI * (Rpower (F t) (- (5 / 3) - 1) * Rpower (F t) (11 / 3))) by (field; lra).
      rewrite <- Rpower_plus. replace (- (5 / 3) - 1 + 11 / 3) with 1 by field. rewrite Rpower_1 by exact HF. ring. }
  repeat split; try assumption. pose proof (Rpower_pos (F b) (- (8 / 3))) as PB.
  apply Rmult_lt_reg_l with (8 / 3 * k); [lra|]. replace (8 / 3 * k * (3 / (8 * k) * Rpower (F a) (- (8 / 3)))) with (Rpower (F a) (- (8 / 3))) by (field; lra). lra.
Qed.
(** It stays between its ends *)
Lemma orbit_monotone_lem : forall F e gamma phase mc q a b, 0 < mc -> 0 < q -> a < b -> inspiral F e gamma phase mc q a b ->
  F a < F b /\ e b < e a /\ gamma a < gamma b /\ phase a < phase b.
Proof.
  intros F e gamma phase mc q a b HM HQ AB HI. pose proof PI_RGT_0 as HP.
  assert (INC : forall (g g' : R -> R), (forall t, a <= t <= b -> is_derive g t (g' t) /\ 0 < g' t) -> g a < g b).
  { intros g g' H. destruct (MVT_gen g a b g') as (c & Hc & E).
    - rewrite Rmin_left, Rmax_right by lra. intros x Hx. apply H. lra.
    - rewrite Rmin_left, Rmax_right by lra. intros x Hx. apply continuity_pt_filterlim. apply (ex_derive_continuous g x). eexists. apply H. lra.
    - rewrite Rmin_left, Rmax_right in Hc by lra. destruct (H c Hc) as [_ P]. nra. }
  assert (S : forall t, a <= t <= b -> is_derive F t (get_Fdot (F t) mc (e t)) /\ is_derive e t (get_edot (F t) mc (e t)) /\ is_derive gamma t (get_gammadot (F t) mc q (e t)) /\ is_derive phase t (2 * PI * F t) /\ 0 < F t /\ 0 < e t < 1).
  { intros t Ht. destruct (HI t Ht) as (HF & He & dF & de & dg & dp & EQ & D1 & D2 & D3 & D4). unfold ecc_eqns in EQ. injection EQ as EF EE EG EP. subst. exact (conj D1 (conj D2 (conj D3 (conj D4 (conj HF He))))). }
  repeat split.
  - apply (INC F (fun t => get_Fdot (F t) mc (e t))). intros t Ht. destruct (S t Ht) as (D1 & _ & _ & _ & HF & He). split; [exact D1|]. destruct (orbit_signs_lem (F t) mc q (e t) HF HM HQ ltac:(lra)) as (S1 & _ & _ & S4). assumption.
  - assert (- e a < - e b); [|lra]. apply (INC (fun t => - e t) (fun t => - get_edot (F t) mc (e t))). intros t Ht. destruct (S t Ht) as (_ & D1 & _ & _ & HF & He). split; [now apply @is_derive_opp|].
    destruct (orbit_signs_lem (F t) mc q (e t) HF HM HQ ltac:(lra)) as (_ & LE & NE & _). assert (get_edot (F t) mc (e t) <> 0) by (intros Z; apply NE in Z; lra). lra.
  - apply (INC gamma (fun t => get_gammadot (F t) mc q (e t))). intros t Ht. destruct (S t Ht) as (_ & _ & D1 & _ & HF & He). split; [exact D1|]. destruct (orbit_signs_lem (F t) mc q (e t) HF HM HQ ltac:(lra)) as (S1 & _ & _ & S4). assumption.
  - apply (INC phase (fun t => 2 * PI * F t)). intros t Ht. destruct (S t Ht) as (_ & _ & _ & D1 & HF & He). split; [exact D1|]. nra.
Qed.
