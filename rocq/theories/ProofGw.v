From Coq Require Import Reals Ratan Bool Arith List Lra Lia.
From Verif Require Import PyBase ModelBases ModelOrf ModelGw.
Import ListNotations.
Open Scope list_scope.
Open Scope R_scope.

(** The direction of the source. *)
Definition source (theta phi : R) : vec := (sin theta * cos phi, sin theta * sin phi, cos theta).

Lemma sq1 : forall x, sin x * sin x = 1 - cos x * cos x.
Proof. intros x. generalize (sin2_cos2 x). unfold Rsqr. lra. Qed.
(** Coordinates of a vector in the frame of the wave. *)
Lemma power_id : forall pos theta phi, dot pos pos = 1 ->
  dot (gw_m theta phi) pos ^ 2 + dot (gw_n theta phi) pos ^ 2 = 1 - dot (gw_omhat theta phi) pos ^ 2.
Proof.
  intros [[x y] z] t f H. cbn in *.
  set (st := sin t). set (ct := cos t). set (sf := sin f). set (cf := cos f).
  assert (A : st * st = 1 - ct * ct) by apply sq1. assert (B : sf * sf = 1 - cf * cf) by apply sq1.
  clearbody st ct sf cf.
  assert (E : (sf * x + - cf * y + 0 * z) ^ 2 + (- ct * cf * x + - ct * sf * y + st * z) ^ 2 + (- st * cf * x + - st * sf * y + - ct * z) ^ 2
            = (sf * sf + cf * cf * (ct * ct + st * st)) * (x * x) + (cf * cf + sf * sf * (ct * ct + st * st)) * (y * y) + (ct * ct + st * st) * (z * z)
              + 2 * x * y * (sf * cf * (ct * ct + st * st - 1))) by ring.
  rewrite A, B in E. 
  replace (ct * ct + (1 - ct * ct)) with 1 in E by ring.
  replace (1 - cf * cf + cf * cf * 1) with 1 in E by ring.
  replace (cf * cf + (1 - cf * cf) * 1) with 1 in E by ring. lra.
Qed.
Lemma omhat_source : forall theta phi pos, dot (gw_omhat theta phi) pos = - dot (source theta phi) pos.
Proof. intros t f [[x y] z]. cbn. ring. Qed.

Lemma antenna_power_lem : forall pos theta phi, dot pos pos = 1 -> dot (source theta phi) pos <> 1 ->
  let mu := dot (source theta phi) pos in
  exists fplus fcross, antenna_pattern pos theta phi = (fplus, fcross, mu) /\
  fplus ^ 2 + fcross ^ 2 = ((1 + mu) / 2) ^ 2 /\ Rabs fplus <= 1 /\ Rabs fcross <= 1.
Proof.
  intros pos t f U N mu. unfold antenna_pattern. rewrite omhat_source. fold mu.
  assert (P := power_id pos t f U). rewrite omhat_source in P. fold mu in P.
  assert (N' : mu <> 1) by exact N. clearbody mu.
  set (a := dot (gw_m t f) pos) in *. set (b := dot (gw_n t f) pos) in *. clearbody a b. cbv zeta.
  assert (M : -1 <= mu <= 1) by nra.
  exists (1 / 2 * (a ^ 2 - b ^ 2) / (1 + - mu)), (a * b / (1 + - mu)).
  assert (Q : (1 / 2 * (a ^ 2 - b ^ 2) / (1 + - mu)) ^ 2 + (a * b / (1 + - mu)) ^ 2 = ((1 + mu) / 2) ^ 2).
  { transitivity (((a ^ 2 + b ^ 2) / (1 - mu)) ^ 2 / 4). { field. lra. } rewrite P. field. lra. }
  assert (Z : forall x y, x ^ 2 + y ^ 2 = ((1 + mu) / 2) ^ 2 -> Rabs x <= 1).
  { intros x y E. apply Rabs_le. assert (x ^ 2 <= 1) by nra. nra. }
  split; [f_equal; ring|]. split; [exact Q|]. split; [exact (Z _ _ Q)|]. rewrite Rplus_comm in Q. exact (Z _ _ Q).
Qed.

(** A pulsar at an angle [alpha] from the direction of travel, [beta] from the first axis. *)
Definition seen (theta phi alpha beta : R) : vec :=
  let m := (sin phi, - cos phi, 0) in
  let n := (- cos theta * cos phi, - cos theta * sin phi, sin theta) in
  let o := (- (sin theta * cos phi), - (sin theta * sin phi), - cos theta) in
  let '(m1, m2, m3) := m in let '(n1, n2, n3) := n in let '(o1, o2, o3) := o in
  let a := sin alpha * cos beta in let b := sin alpha * sin beta in let c := cos alpha in
  (a * m1 + b * n1 + c * o1, a * m2 + b * n2 + c * o2, a * m3 + b * n3 + c * o3).
Lemma frame : forall t f al be,
  dot (gw_m t f) (seen t f al be) = sin al * cos be /\ dot (gw_n t f) (seen t f al be) = sin al * sin be /\
  dot (gw_omhat t f) (seen t f al be) = cos al.
Proof.
  intros t f al be. cbn. set (a := sin al * cos be). set (b := sin al * sin be). set (c := cos al).
  assert (A := sq1 t). assert (B := sq1 f).
  set (st := sin t) in *. set (ct := cos t) in *. set (sf := sin f) in *. set (cf := cos f) in *.
  clearbody a b c st ct sf cf. repeat split.
  - transitivity (a * (sf * sf + cf * cf)); [ring|]. rewrite B. ring.
  - transitivity (b * (ct * ct * (sf * sf + cf * cf) + st * st) + c * st * ct * (sf * sf + cf * cf - 1)); [ring|]. rewrite B, A. ring.
  - transitivity (c * (st * st * (sf * sf + cf * cf) + ct * ct) + b * st * ct * (sf * sf + cf * cf - 1)); [ring|]. rewrite B, A. ring.
Qed.
Lemma antenna_angles_lem : forall theta phi alpha beta, cos alpha <> -1 ->
  antenna_pattern (seen theta phi alpha beta) theta phi =
    ((1 - cos alpha) / 2 * cos (2 * beta), (1 - cos alpha) / 2 * sin (2 * beta), - cos alpha).
Proof.
  intros t f al be N. unfold antenna_pattern. destruct (frame t f al be) as [-> [-> ->]].
  rewrite cos_2a, sin_2a. assert (A := sq1 al). set (sa := sin al) in *. set (ca := cos al) in *. clearbody sa ca.
  set (cb := cos be). set (sb := sin be).
  assert (D : 1 + ca <> 0) by lra.
  f_equal. f_equal.
  - transitivity ((sa * sa) * (cb * cb - sb * sb) / (2 * (1 + ca))); [field; exact D|]. rewrite A. field. exact D.
  - transitivity ((sa * sa) * (sb * cb) / (1 + ca)); [field; exact D|]. rewrite A. field. exact D.
Qed.

Lemma heaviside_mult : forall x, heaviside x * x = if Rle_dec x 0 then 0 else x.
Proof. intros x. unfold heaviside. destruct (Rlt_dec x 0), (Rle_dec x 0), (Req_EM_T x 0); lra. Qed.
Lemma bwm_lem : forall toas pos log10_h cos_gwtheta gwphi gwpol t0 pattern,
  let fpc := match pattern with Some f => f pos (acos cos_gwtheta) gwphi | None => fst (antenna_pattern pos (acos cos_gwtheta) gwphi) end in
  bwm_delay toas pos log10_h cos_gwtheta gwphi gwpol t0 pattern =
  map (fun t => if Rle_dec t (t0 * 86400) then 0
                else (cos (2 * gwpol) * fst fpc + sin (2 * gwpol) * snd fpc) * Rpower 10 log10_h * (t - t0 * 86400)) toas.
Proof.
  intros toas pos h c ph po t0 pat fpc. unfold bwm_delay. fold fpc. destruct fpc as [fp fc]. cbn [fst snd].
  apply map_ext. intros t. rewrite Rmult_assoc, heaviside_mult. unfold p10.
  destruct (Rle_dec (t - t0 * 86400) 0), (Rle_dec t (t0 * 86400)); try lra; ring.
Qed.
Lemma bound_pol : forall p fp fc r, 0 <= r -> fp ^ 2 + fc ^ 2 = r ^ 2 -> Rabs (cos p * fp + sin p * fc) <= r.
Proof.
  intros p fp fc r R0 E. assert (S := sq1 p). set (c := cos p) in *. set (s := sin p) in *. clearbody c s.
  assert (Q : (c * fp + s * fc) ^ 2 <= r ^ 2). { rewrite <- E. replace ((c * fp + s * fc) ^ 2) with ((c * c + s * s) * (fp ^ 2 + fc ^ 2) - (c * fc - s * fp) ^ 2) by ring. rewrite S. assert (0 <= (c * fc - s * fp) ^ 2) by apply pow2_ge_0. lra. }
  apply Rabs_le. nra.
Qed.
Lemma bwm_bounded_lem : forall toas pos log10_h cos_gwtheta gwphi gwpol t0, dot pos pos = 1 -> dot (source (acos cos_gwtheta) gwphi) pos <> 1 ->
  Forall2 (fun t d => Rabs d <= Rpower 10 log10_h * Rmax 0 (t - t0 * 86400)) toas
    (bwm_delay toas pos log10_h cos_gwtheta gwphi gwpol t0 None).
Proof.
  intros toas pos h c ph po t0 U N. rewrite bwm_lem.
  destruct (antenna_power_lem pos (acos c) ph U N) as [fp [fc [E [P [B1 B2]]]]]. rewrite E. cbn [fst snd].
  assert (M : 0 <= (1 + dot (source (acos c) ph) pos) / 2 <= 1).
  { assert (X := power_id pos (acos c) ph U). rewrite omhat_source in X. nra. }
  assert (K := bound_pol (2 * po) fp fc _ (proj1 M) P).
  assert (H0 : 0 < Rpower 10 h) by apply exp_pos.
  induction toas as [|t toas IH]; constructor; [|exact IH].
  destruct (Rle_dec t (t0 * 86400)) as [L|L].
  - rewrite Rabs_R0. apply Rmult_le_pos; [lra|apply Rmax_l].
  - rewrite !Rabs_mult, (Rabs_right (Rpower 10 h)) by lra. rewrite (Rabs_right (t - t0 * 86400)) by lra.
    rewrite Rmax_right by lra.
    set (x := Rabs _) in *. rewrite Rmult_assoc. assert (0 <= Rpower 10 h * (t - t0 * 86400)) by (apply Rmult_le_pos; lra). nra.
Qed.
(** The source seen from its cosine. *)
Lemma bwm_source_lem : forall c phi, -1 <= c <= 1 -> source (acos c) phi = (sqrt (1 - c ^ 2) * cos phi, sqrt (1 - c ^ 2) * sin phi, c).
Proof. intros c p H. unfold source. rewrite sin_acos, cos_acos by exact H. unfold Rsqr. replace (1 - c * c) with (1 - c ^ 2) by ring. reflexivity. Qed.
(** Neighbouring times have neighbouring delays, and strains scale delays. *)
Lemma bwm_lipschitz_lem : forall t t' pos log10_h cos_gwtheta gwphi gwpol t0 d d', dot pos pos = 1 -> dot (source (acos cos_gwtheta) gwphi) pos <> 1 ->
  bwm_delay [t; t'] pos log10_h cos_gwtheta gwphi gwpol t0 None = [d; d'] -> Rabs (d - d') <= Rpower 10 log10_h * Rabs (t - t').
Proof.
  intros t t' pos h c ph po t0 d d' U N. rewrite bwm_lem.
  destruct (antenna_power_lem pos (acos c) ph U N) as [fp [fc [E [P [B1 B2]]]]]. rewrite E. cbn [fst snd map].
  assert (M : 0 <= (1 + dot (source (acos c) ph) pos) / 2 <= 1).
  { assert (X := power_id pos (acos c) ph U). rewrite omhat_source in X. nra. }
  assert (K := bound_pol (2 * po) fp fc _ (proj1 M) P).
  assert (H0 : 0 < Rpower 10 h) by apply exp_pos. set (H := Rpower 10 h) in *. clearbody H.
  set (s := cos (2 * po) * fp + sin (2 * po) * fc) in *. clearbody s. set (T := t0 * 86400). clearbody T.
  intros Q. injection Q as <- <-.
  assert (K' : Rabs s <= 1) by lra.
  destruct (Rle_dec t T) as [a|a], (Rle_dec t' T) as [b|b].
  - replace (0 - 0) with 0 by ring. rewrite Rabs_R0. apply Rmult_le_pos; [lra|apply Rabs_pos].
  - replace (0 - s * H * (t' - T)) with (- (s * (H * (t' - T)))) by ring. rewrite Rabs_Ropp, Rabs_mult, (Rabs_right (H * _)) by nra.
    rewrite Rabs_minus_sym, (Rabs_right (t' - t)) by lra. assert (0 <= H * (t' - T)) by nra. nra.
  - replace (s * H * (t - T) - 0) with (s * (H * (t - T))) by ring. rewrite Rabs_mult, (Rabs_right (H * _)) by nra.
    rewrite (Rabs_right (t - t')) by lra. assert (0 <= H * (t - T)) by nra. nra.
  - replace (s * H * (t - T) - s * H * (t' - T)) with (s * (H * (t - t'))) by ring. rewrite !Rabs_mult, (Rabs_right H) by lra.
    assert (0 <= H * Rabs (t - t')) by (apply Rmult_le_pos; [lra|apply Rabs_pos]). nra.
Qed.
Lemma bwm_strain_lem : forall toas pos log10_h cos_gwtheta gwphi gwpol t0 pattern a,
  bwm_delay toas pos (log10_h + a) cos_gwtheta gwphi gwpol t0 pattern =
  map (Rmult (Rpower 10 a)) (bwm_delay toas pos log10_h cos_gwtheta gwphi gwpol t0 pattern).
Proof.
  intros. rewrite !bwm_lem, map_map. apply map_ext. intros t. rewrite Rpower_plus. destruct (Rle_dec _ _); ring.
Qed.
