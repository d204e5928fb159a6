(** Proofs about how pulsars are made. *)
From Coq Require Import Reals String Bool Arith List Lra Lia.
From Verif Require Import PyBase ProofBase ModelOrf ModelEphem ModelBuild.
Import ListNotations.
Open Scope nat_scope.
Open Scope string_scope.
Open Scope list_scope.

(** ** Positions *)
Lemma pos_angles_lem : forall raj decj,
  get_pos raj decj = ((sin (theta raj decj) * cos (phi raj decj))%R, (sin (theta raj decj) * sin (phi raj decj))%R, cos (theta raj decj)) /\
  dot (get_pos raj decj) (get_pos raj decj) = 1%R.
Proof.
  intros a d; unfold get_pos, theta, phi, dot; split.
  - rewrite cos_shift, sin_shift; f_equal; f_equal; ring.
  - pose proof (sin2_cos2 a) as h1; pose proof (sin2_cos2 d) as h2; unfold Rsqr in *.
    transitivity ((sin a * sin a + cos a * cos a) * (cos d * cos d) + sin d * sin d)%R; [ring|]; rewrite h1; lra.
Qed.
Lemma pos_separation_lem : forall a d a' d',
  dot (get_pos a d) (get_pos a' d') = (sin d * sin d' + cos d * cos d' * cos (a - a'))%R.
Proof. intros; unfold get_pos, dot; rewrite cos_minus; ring. Qed.

Lemma pos_injective_lem : forall a d a' d', (- (PI / 2) < d < PI / 2)%R -> (- (PI / 2) < d' < PI / 2)%R ->
  (0 <= a < 2 * PI)%R -> (0 <= a' < 2 * PI)%R -> get_pos a d = get_pos a' d' -> a = a' /\ d = d'.
Proof.
  intros a d a' d' hd hd' ha ha' e; unfold get_pos in e; injection e as e1 e2 e3.
  assert (ed : d = d').
  { destruct (Rtotal_order d d') as [l|[q|g]]; [|exact q|].
    - pose proof (sin_increasing_1 d d'); lra.
    - pose proof (sin_increasing_1 d' d); lra. }
  subst d'; split; [|reflexivity].
  assert (c : (cos d <> 0)%R) by (apply Rgt_not_eq, cos_gt_0; lra).
  apply Rmult_eq_reg_r in e1; [|exact c]; apply Rmult_eq_reg_r in e2; [|exact c].
  assert (s0 : (cos (a - a') = 1)%R) by (rewrite cos_minus, e1, e2; pose proof (sin2_cos2 a') as h; unfold Rsqr in h; lra).
  assert (hs : (sin ((a - a') / 2) = 0)%R).
  { assert (h : (cos (a - a') = 1 - 2 * (sin ((a - a') / 2) * sin ((a - a') / 2)))%R).
    { replace (a - a')%R with (2 * ((a - a') / 2))%R at 1 by field; rewrite cos_2a_sin; ring. }
    rewrite s0 in h; assert (q : (sin ((a - a') / 2) * sin ((a - a') / 2) = 0)%R) by lra.
    apply Rmult_integral in q; tauto. }
  destruct (Rtotal_order a a') as [l|[q|g]]; [|exact q|]; exfalso.
  - assert (z : (sin ((a' - a) / 2) = 0)%R) by (replace ((a' - a) / 2)%R with (- ((a - a') / 2))%R by field; rewrite sin_neg, hs; ring).
    pose proof (sin_gt_0 ((a' - a) / 2)); lra.
  - pose proof (sin_gt_0 ((a - a') / 2)); lra.
Qed.

(** Every direction has sky coordinates. *)
Definition angles (v : vec) : R * R :=
  let '(x, y, z) := v in
  let r := sqrt (1 - Rsqr z) in
  (if Req_EM_T r 0 then 0%R else if Rle_dec 0 y then acos (x / r) else (- acos (x / r))%R, asin z).
Lemma pos_surjective_lem : forall v, dot v v = 1%R -> exists a d, (- PI / 2 <= d <= PI / 2)%R /\ get_pos a d = v /\ (a, d) = angles v.
Proof.
  intros [[x y] z] h; unfold dot in h.
  assert (hz : (-1 <= z <= 1)%R) by (split; nra).
  pose proof (pow2_ge_0 x) as hx2; pose proof (pow2_ge_0 y) as hy2.
  assert (h1 : (0 <= 1 - Rsqr z)%R) by (unfold Rsqr; nra).
  set (r := sqrt (1 - Rsqr z)).
  assert (hr : (r * r = x * x + y * y)%R) by (unfold r; rewrite sqrt_sqrt by exact h1; unfold Rsqr; lra).
  assert (r0 : (0 <= r)%R) by apply sqrt_pos.
  do 2 eexists; split; [|split; [|reflexivity]]; [pose proof (asin_bound z); lra|].
  unfold get_pos; rewrite sin_asin, cos_asin by exact hz; fold r.
  destruct (Req_EM_T r 0) as [e|ne].
  - rewrite e in *; assert (x = 0%R) by nra; assert (y = 0%R) by nra; subst x y; f_equal; f_equal; ring.
  - assert (hq : (-1 <= x / r <= 1)%R).
    { assert (-r <= x <= r)%R by (split; nra); split; [apply Rmult_le_reg_r with r|apply Rmult_le_reg_r with r]; try lra; unfold Rdiv; rewrite Rmult_assoc, Rinv_l by exact ne; lra. }
    assert (hs : (sqrt (1 - Rsqr (x / r)) * r = Rabs y)%R).
    { replace r with (sqrt (r * r)) at 2 by (now apply sqrt_square).
      rewrite <- sqrt_mult_alt by (unfold Rsqr; nra).
      replace ((1 - Rsqr (x / r)) * (r * r))%R with (Rsqr y) by (unfold Rsqr, Rdiv; field_simplify; [nra|exact ne]).
      apply sqrt_Rsqr_abs. }
    destruct (Rle_dec 0 y) as [p|n].
    + rewrite cos_acos, sin_acos by exact hq; rewrite hs, Rabs_pos_eq by exact p; f_equal; f_equal; unfold Rdiv; rewrite Rmult_assoc, Rinv_l by exact ne; ring.
    + rewrite cos_neg, sin_neg, cos_acos, sin_acos by exact hq; rewrite Ropp_mult_distr_l_reverse, hs, Rabs_left by lra; f_equal; f_equal; [unfold Rdiv; rewrite Rmult_assoc, Rinv_l by exact ne|]; ring.
Qed.

(** The directions of tempo2 agree with the position. [frame] says that the object has one
    pair of coordinates, equatorial or ecliptic. *)
Definition coordinates (t : t2pars) (lon lat : R) : Prop :=
  if mem "RAJ" (t_fit t ++ t_set t)
  then mem "ELAT" (t_fit t ++ t_set t) = false /\ dget string_dec (t_val t) "RAJ" = Some lon /\ dget string_dec (t_val t) "DECJ" = Some lat
  else mem "ELAT" (t_fit t ++ t_set t) = true /\ dget string_dec (t_val t) "ELONG" = Some lon /\ dget string_dec (t_val t) "ELAT" = Some lat.
(** pyephem's conversion to J2000 is the rotation by the obliquity. *)
Definition exact_j2000 (ephem : epoch -> R -> R -> R * R) : Prop :=
  forall l b, get_pos (fst (ephem J2000 l b)) (snd (ephem J2000 l b)) = mulv M_ecl (get_pos l b).

Lemma map_repeat {A B} (f : A -> B) x n : map f (repeat x n) = repeat (f x) n.
Proof. induction n; cbn; [reflexivity|]; now rewrite IHn. Qed.
Lemma position_agrees_lem : forall ephem name t lon lat n, coordinates t lon lat -> exact_j2000 ephem -> substring_of "B" name = false ->
  exists a d, t2_radec ephem name t = Ok (a, d) /\ t2_pos_t t (repeat (get_pos lon lat) n) = repeat (get_pos a d) n.
Proof.
  intros ephem name t lon lat n hc he hb; unfold coordinates in hc; unfold t2_radec, t2_pos_t, t2_ecliptic, dgetE.
  destruct (mem "RAJ" _); destruct hc as [h1 [h2 h3]]; rewrite h1, h2, h3; cbn [rbind rmap].
  - exists lon, lat; split; reflexivity.
  - unfold radec_from_ecliptic; rewrite hb; exists (fst (ephem J2000 lon lat)), (snd (ephem J2000 lon lat)).
    split; [now rewrite <- surjective_pairing|]; unfold ecl2eq_vec; rewrite map_repeat; now rewrite he.
Qed.
(** With a B in the name they do not, but for directions which do not precess. *)
Lemma position_B_lem : forall ephem name t lon lat n, coordinates t lon lat -> mem "RAJ" (t_fit t ++ t_set t) = false ->
  exact_j2000 ephem -> substring_of "B" name = true -> n <> 0%nat ->
  exists a d, t2_radec ephem name t = Ok (a, d) /\ (a, d) = ephem B1950 lon lat /\
    (t2_pos_t t (repeat (get_pos lon lat) n) = repeat (get_pos a d) n <->
     get_pos a d = get_pos (fst (ephem J2000 lon lat)) (snd (ephem J2000 lon lat))).
Proof.
  intros ephem name t lon lat n hc hr he hb hn; unfold coordinates in hc; rewrite hr in hc; destruct hc as [h1 [h2 h3]].
  unfold t2_radec, t2_pos_t, t2_ecliptic, dgetE; rewrite hr, h1, h2, h3; cbn [rbind].
  unfold radec_from_ecliptic; rewrite hb; exists (fst (ephem B1950 lon lat)), (snd (ephem B1950 lon lat)).
  split; [now rewrite <- surjective_pairing|]; split; [now rewrite <- surjective_pairing|].
  unfold ecl2eq_vec; rewrite map_repeat, he; split; intros e.
  - destruct n as [|n]; [now elim hn|]; exact (eq_sym (f_equal (hd (get_pos lon lat)) e)).
  - now rewrite e.
Qed.

(** Conversions: exact for J2000, and with an equinox turned by one fiftieth of a radian for 1950 *)
Lemma rotate_pos a d z : mulv ((cos z, - sin z, 0), (sin z, cos z, 0), (0, 0, 1))%R (get_pos a d) = get_pos (a + z) d.
Proof. unfold mulv, dot, get_pos; rewrite cos_plus, sin_plus; f_equal; [f_equal; ring|ring]. Qed.
Definition ex_ephem (e : epoch) (l b : R) : R * R :=
  let '(a, d) := angles (mulv M_ecl (get_pos l b)) in match e with J2000 => (a, d) | B1950 => ((a + 1 / 50)%R, d) end.
Lemma unit_ecl v : dot (mulv M_ecl v) (mulv M_ecl v) = dot v v.
Proof.
  destruct v as [[x y] z]; unfold M_ecl, mulv, dot; pose proof (sin2_cos2 e_ecl) as h; unfold Rsqr in h.
  set (c := cos e_ecl) in *; set (s := sin e_ecl) in *; clearbody c s.
  transitivity (x * x + (s * s + c * c) * (y * y + z * z))%R; [ring|]; rewrite h; ring.
Qed.
Lemma ex_exact : exact_j2000 ex_ephem.
Proof.
  intros l b; destruct (pos_surjective_lem (mulv M_ecl (get_pos l b))) as [a [d [_ [e1 e2]]]].
  - rewrite unit_ecl; apply pos_angles_lem.
  - unfold ex_ephem; rewrite <- e2; exact e1.
Qed.
Lemma ex_precesses : get_pos (fst (ex_ephem B1950 0 0)) (snd (ex_ephem B1950 0 0)) <> get_pos (fst (ex_ephem J2000 0 0)) (snd (ex_ephem J2000 0 0)).
Proof.
  pose proof (ex_exact 0 0)%R as h.
  assert (f : fst (ex_ephem B1950 0 0) = (fst (ex_ephem J2000 0 0) + 1 / 50)%R /\ snd (ex_ephem B1950 0 0) = snd (ex_ephem J2000 0 0)).
  { unfold ex_ephem; destruct (angles _); split; reflexivity. }
  destruct f as [f1 f2]; rewrite f1, f2, <- rotate_pos, h.
  unfold M_ecl, mulv, dot, get_pos; rewrite sin_0, cos_0; intros e.
  apply (f_equal (fun v : vec => let '(x, y, z) := v in y)) in e; cbv beta iota in e.
  pose proof (sin_gt_0 (1/50)); pose proof PI2_1; lra.
Qed.

Lemma cluster_epoch_refuted_lem : exists name, String.prefix "J" name = true /\
  forall ephem l b, radec_from_ecliptic ephem name (Some l) (Some b) = ephem B1950 l b.
Proof. exists "J0024-7204B"; split; [reflexivity|]; intros; reflexivity. Qed.
Lemma radec_missing_lem : forall ephem name l, radec_from_ecliptic ephem name None l = (0, 0)%R /\ radec_from_ecliptic ephem name l None = (0, 0)%R.
Proof. intros; split; [reflexivity|]; now destruct l. Qed.

Lemma pint_radec_lem : forall ephem name raj decj elong elat,
  (forall a d, raj = Some a -> decj = Some d -> pint_radec ephem name raj decj elong elat = Ok (a, d)) /\
  (raj = None \/ decj = None ->
    (forall l b, elong = Some l -> elat = Some b ->
      pint_radec ephem name raj decj elong elat = Ok (if substring_of "B" name then ephem B1950 l b else ephem J2000 l b)) /\
    (elong = None \/ elat = None -> pint_radec ephem name raj decj elong elat = Err AttributeError)).
Proof.
  intros ephem name raj decj elong elat; unfold pint_radec, radec_from_ecliptic; split; [intros a d -> ->; reflexivity|].
  intros h; replace (match raj with Some a => match decj with Some d => _ | None => _ end | None => _ end)
    with (match elong with Some l => match elat with Some b => Ok (ephem (if substring_of "B" name then B1950 else J2000) l b) | None => Err AttributeError end | None => Err AttributeError end).
  - split; [intros l b -> ->; now destruct (substring_of "B" name)|intros [-> | ->]; [reflexivity|now destruct elong]].
  - destruct h as [-> | ->]; [reflexivity|now destruct raj].
Qed.

(** ** DMX *)
Lemma memP x l : mem x l = true <-> In x l.
Proof.
  unfold mem; rewrite existsb_exists; split.
  - intros [y [i e]]; apply String.eqb_eq in e; now subst.
  - intros i; exists x; split; [exact i|apply String.eqb_refl].
Qed.
Lemma mem_false x l : mem x l = false <-> ~ In x l.
Proof. rewrite <- memP; destruct (mem x l); split; congruence. Qed.

Definition dmx_step (entry : string -> result dmx_entry) := fun st par => rbind st (fun d => rmap (dset string_dec d par) (entry par)).
Lemma dmx_stop entry l e : fold_left (dmx_step entry) l (Err e) = Err e.
Proof. induction l; [reflexivity|exact IHl]. Qed.
Lemma dmx_fold entry l : forall d d', fold_left (dmx_step entry) l (Ok d) = Ok d' -> forall k,
  (In k l -> exists x, entry k = Ok x /\ dget string_dec d' k = Some x) /\
  (~ In k l -> dget string_dec d' k = dget string_dec d k).
Proof.
  induction l as [|p l IH]; intros d d' e k; cbn [fold_left] in e.
  - injection e as <-; split; [intros []|reflexivity].
  - unfold dmx_step in e at 2; cbn [rbind] in e; destruct (entry p) as [x|er] eqn:ep; [|cbn in e; now rewrite dmx_stop in e].
    cbn [rmap rbind] in e; destruct (IH _ _ e k) as [h1 h2]; split.
    + intros i; destruct (in_dec string_dec k l) as [j|nj]; [now apply h1|].
      destruct i as [<-|i]; [|contradiction]; exists x; split; [exact ep|]; rewrite h2 by exact nj; apply dget_dset_same.
    + intros ni; rewrite h2 by (intros j; apply ni; now right); apply dget_dset_other; intros <-; apply ni; now left.
Qed.
Lemma dmx_fold_err entry l : forall d e, fold_left (dmx_step entry) l (Ok d) = Err e -> exists k, In k l /\ entry k = Err e.
Proof.
  induction l as [|p l IH]; intros d e h; cbn [fold_left] in h; [discriminate|].
  unfold dmx_step in h at 2; cbn [rbind] in h; destruct (entry p) as [x|er] eqn:ep.
  - destruct (IH _ _ h) as [k [i hk]]; exists k; split; [now right|exact hk].
  - cbn in h; rewrite dmx_stop in h; injection h as ->; exists p; split; [now left|exact ep].
Qed.
Lemma dmx_dict_spec entry pars o : dmx_dict entry pars = Ok o ->
  match o with
  | Some d => forall k, (In k pars /\ substring_of "DMX_" k = true -> exists x, entry k = Ok x /\ dget string_dec d k = Some x) /\
                        (~ (In k pars /\ substring_of "DMX_" k = true) -> dget string_dec d k = None)
  | None => forall k, In k pars -> substring_of "DMX_" k = false
  end.
Proof.
  unfold dmx_dict; fold (dmx_step entry); intros e.
  destruct (fold_left (dmx_step entry) (filter (substring_of "DMX_") pars) (Ok [])) as [d|er] eqn:ef; [|discriminate].
  pose proof (dmx_fold _ _ _ _ ef) as h; cbn in e; injection e as <-; destruct d as [|kx d].
  - intros k i; destruct (substring_of "DMX_" k) eqn:ek; [|reflexivity]; destruct (h k) as [h1 _].
    destruct h1 as [x [_ c]]; [apply filter_In; now split|discriminate].
  - intros k; destruct (h k) as [h1 h2]; split.
    + intros [i j]; apply h1, filter_In; now split.
    + intros ni; rewrite h2; [reflexivity|]; intros i; apply ni; now apply filter_In in i.
Qed.

Definition pint_val (model : dict string pint_par) (name : string) : option R :=
  match dget string_dec model name with Some p => pp_value p | None => None end.
Lemma pint_float_ok model name v : pint_float model name = Ok v <-> pint_val model name = Some v.
Proof.
  unfold pint_float, pint_val, dgetE; destruct (dget string_dec model name) as [p|]; cbn [rbind]; [|split; discriminate].
  destruct (pp_value p); split; congruence.
Qed.
Definition is_entry (val : string -> option R) (err : option R) (k : string) (x : dmx_entry) : Prop :=
  val k = Some (x_val x) /\ x_err x = err /\ val (range_name "R1" k) = Some (x_r1 x) /\ val (range_name "R2" k) = Some (x_r2 x).
Definition lookup {A} (d : option (dict string A)) (k : string) : option A := match d with Some d => dget string_dec d k | None => None end.

Lemma pint_dmx_lem : forall model dm o, NoDup (dkeys model) -> pint_set_dm model = Ok (dm, o) ->
  dm = pint_val model "DM" /\
  (forall k p, dget string_dec model k = Some p -> substring_of "DMX_" k = true -> pp_frozen p = false ->
    exists x, lookup o k = Some x /\ is_entry (pint_val model) (pp_unc p) k x /\ x_fit x = true) /\
  (forall k, (forall p, dget string_dec model k = Some p -> substring_of "DMX_" k = true -> pp_frozen p = true) -> lookup o k = None) /\
  o <> Some [].
Proof.
  intros model dm o nd e; unfold pint_set_dm in e.
  set (pars := map fst (filter (fun kp => negb (pp_frozen (snd kp))) model)) in *.
  destruct (if dmem string_dec model "DM" then _ else _) as [m|er] eqn:em; [|discriminate]; cbn [rbind] in e.
  destruct (dmx_dict _ pars) as [d|er] eqn:ed; [|discriminate]; cbn in e; injection e as <- <-.
  assert (P : forall k, In k pars <-> exists p, dget string_dec model k = Some p /\ pp_frozen p = false).
  { intros k; unfold pars; rewrite in_map_iff; split.
    - intros [[k' p] [ek i]]; cbn in ek; subst k'; apply filter_In in i; destruct i as [i h]; exists p; split.
      + now apply In_dget.
      + cbn in h; now destruct (pp_frozen p).
    - intros [p [h f]]; exists (k, p); split; [reflexivity|]; apply filter_In; split; [now apply (dget_In string_dec)|cbn; now rewrite f]. }
  pose proof (dmx_dict_spec _ _ _ ed) as h; split; [|split; [|split]].
  - unfold dmem in em; unfold pint_val; destruct (dget string_dec model "DM") as [p|] eqn:edm; [|now injection em as <-].
    unfold pint_float, dgetE in em; rewrite edm in em; cbn in em; destruct (pp_value p); [now injection em as <-|discriminate].
  - intros k p hk hx hf; assert (ik : In k pars) by (apply P; now exists p).
    destruct d as [d|]; [|rewrite (h k ik) in hx; discriminate].
    destruct (proj1 (h k) (conj ik hx)) as [x [ex gx]]; exists x; split; [exact gx|].
    unfold is_entry.
    destruct (pint_float model k) as [v|] eqn:e1; [|discriminate]; cbn [rbind] in ex.
    unfold dgetE in ex; rewrite hk in ex; cbn [rbind] in ex.
    destruct (pint_float model (range_name "R1" k)) as [r1|] eqn:e2; [|discriminate]; cbn [rbind] in ex.
    destruct (pint_float model (range_name "R2" k)) as [r2|] eqn:e3; [|discriminate]; cbn [rbind] in ex.
    injection ex as <-; cbn [x_val x_err x_r1 x_r2 x_fit].
    rewrite <- !pint_float_ok, e1, e2, e3; split; [repeat split|now apply memP].
  - intros k hk; destruct d as [d|]; [|reflexivity]; cbn [lookup]; apply (proj2 (h k)); intros [ik hx].
    apply P in ik; destruct ik as [p [hp hf]]; rewrite (hk p hp hx) in hf; discriminate.
  - unfold dmx_dict in ed; destruct (fold_left _ _ _) as [[|y d']|]; cbn in ed; [injection ed as <-; discriminate|injection ed as <-; discriminate|discriminate].
Qed.

Lemma t2_dmx_lem : forall t dm o, t2_set_dm t = Ok (dm, o) ->
  (In "DM" (t_set t) -> dm <> None /\ dm = dget string_dec (t_val t) "DM") /\ (~ In "DM" (t_set t) -> dm = None) /\
  (forall k, In k (t_set t) -> substring_of "DMX_" k = true ->
    exists x, lookup o k = Some x /\ is_entry (dget string_dec (t_val t)) (dget string_dec (t_err t) k) k x /\ x_fit x = true) /\
  (forall k, ~ (In k (t_set t) /\ substring_of "DMX_" k = true) -> lookup o k = None).
Proof.
  intros t dm o e; unfold t2_set_dm in e.
  destruct (if mem "DM" (t_set t) then _ else _) as [m|er] eqn:em; [|discriminate]; cbn [rbind] in e.
  destruct (dmx_dict _ (t_set t)) as [d|er] eqn:ed; [|discriminate]; cbn in e; injection e as <- <-.
  pose proof (dmx_dict_spec _ _ _ ed) as h; split; [|split; [|split]].
  - intros i; apply memP in i; rewrite i in em; unfold dgetE in em; destruct (dget string_dec (t_val t) "DM"); [|discriminate].
    cbn in em; injection em as <-; split; [discriminate|reflexivity].
  - intros i; apply mem_false in i; rewrite i in em; now injection em as <-.
  - intros k ik hx; destruct d as [d|]; [|rewrite (h k ik) in hx; discriminate].
    destruct (proj1 (h k) (conj ik hx)) as [x [ex gx]]; exists x; split; [exact gx|]; unfold is_entry, dgetE in *.
    destruct (dget string_dec (t_val t) k); [|discriminate]; cbn [rbind] in ex.
    destruct (dget string_dec (t_err t) k); [|discriminate]; cbn [rbind] in ex.
    destruct (dget string_dec (t_val t) (range_name "R1" k)); [|discriminate]; cbn [rbind] in ex.
    destruct (dget string_dec (t_val t) (range_name "R2" k)); [|discriminate]; cbn [rbind] in ex.
    injection ex as <-; cbn; split; [repeat split|now apply memP].
  - intros k hk; destruct d as [d|]; [|reflexivity]; now apply (proj2 (h k)).
Qed.
(** Hence "fit" does not say whether the parameter is fitted. *)
Lemma fit_refuted_lem : exists t dm o k x, t2_set_dm t = Ok (dm, Some o) /\ ~ In k (t_fit t) /\ dget string_dec o k = Some x /\ x_fit x = true.
Proof.
  exists (T2Pars ["DMX_0001"; "DMXR1_0001"; "DMXR2_0001"] [] [("DMX_0001", 0%R); ("DMXR1_0001", 55000%R); ("DMXR2_0001", 55007%R)] [("DMX_0001", 1%R)]).
  do 2 eexists; exists "DMX_0001"; eexists; split; [reflexivity|]; split; [intros []|]; split; reflexivity.
Qed.
(** PINT's parameters that are not fitted are missing. *)
Lemma frozen_refuted_lem : exists model k p, dget string_dec model k = Some p /\ substring_of "DMX_" k = true /\ pp_value p <> None /\
  exists dm, pint_set_dm model = Ok (dm, None).
Proof.
  exists [("DMX_0001", PintPar true (Some 1%R) None); ("DMXR1_0001", PintPar true (Some 55000%R) None); ("DMXR2_0001", PintPar true (Some 55007%R) None)].
  exists "DMX_0001"; eexists; split; [reflexivity|]; split; [reflexivity|]; split; [discriminate|]; eexists; reflexivity.
Qed.

Lemma setpars_lem : forall all fit p, In p (setpars all fit) <-> In p all /\ ~ In p fit.
Proof.
  intros; unfold setpars; rewrite filter_In, negb_true_iff, mem_false; reflexivity.
Qed.

(** ** Flags *)
Lemma set_nth_length {A} (l : list A) : forall i x, length (set_nth l i x) = length l.
Proof. induction l as [|y l IH]; intros [|i] x; cbn; [reflexivity..|now rewrite IH]. Qed.
Lemma set_nth_same {A} (l : list A) : forall i x d, i < length l -> nth i (set_nth l i x) d = x.
Proof. induction l as [|y l IH]; intros [|i] x d h; cbn in *; try lia; [reflexivity|]; apply IH; lia. Qed.
Lemma set_nth_other {A} (l : list A) : forall i j x d, i <> j -> nth j (set_nth l i x) d = nth j l d.
Proof. induction l as [|y l IH]; intros [|i] [|j] x d h; cbn; try reflexivity; try lia; apply IH; lia. Qed.

(** What [flags[k][i]] is, if the first [m] TOAs are done and [part] of the next. *)
Definition flag_at (flags : dict string (list string)) (k : string) (i : nat) : string :=
  match dget string_dec flags k with Some l => nth i l "" | None => "" end.
Definition good (n : nat) (flags : dict string (list string)) : Prop := forall k l, dget string_dec flags k = Some l -> length l = n.
Lemma add_one n flags i k v : good n flags -> i < n ->
  let fl := if dmem string_dec flags k then flags else dset string_dec flags k (repeat "" n) in
  let fl' := match dget string_dec fl k with Some l => dset string_dec fl k (set_nth l i v) | None => fl end in
  good n fl' /\ (forall k', dmem string_dec fl' k' = (if string_dec k' k then true else dmem string_dec flags k')) /\
  flag_at fl' k i = v /\ (forall k' j, k' <> k \/ j <> i -> flag_at fl' k' j = flag_at flags k' j).
Proof.
  intros g hi fl fl'.
  assert (G : exists l, dget string_dec fl k = Some l /\ length l = n /\ (forall j, nth j l "" = flag_at flags k j) /\ (forall k', k' <> k -> dget string_dec fl k' = dget string_dec flags k')).
  { unfold fl, dmem, flag_at; destruct (dget string_dec flags k) as [l|] eqn:e.
    - exists l; repeat split; [exact e|exact (g _ _ e)].
    - exists (repeat "" n); rewrite dget_dset_same, repeat_length; repeat split.
      + intros j; apply nth_repeat.
      + intros k' ne; now apply dget_dset_other. }
  destruct G as [l [e [len [hl ho]]]]; unfold fl'; rewrite e; repeat split.
  - intros k' l' e'; destruct (string_dec k' k) as [->|ne].
    + rewrite dget_dset_same in e'; injection e' as <-; now rewrite set_nth_length.
    + rewrite dget_dset_other in e' by exact ne; rewrite ho in e' by exact ne; exact (g _ _ e').
  - intros k'; unfold dmem; destruct (string_dec k' k) as [->|ne]; [now rewrite dget_dset_same|].
    rewrite dget_dset_other by exact ne; now rewrite ho.
  - unfold flag_at; rewrite dget_dset_same; apply set_nth_same; now rewrite len.
  - intros k' j h; unfold flag_at at 1; destruct (string_dec k' k) as [->|ne].
    + rewrite dget_dset_same, set_nth_other, hl by (destruct h; [contradiction|auto]); reflexivity.
    + rewrite dget_dset_other, ho by exact ne; reflexivity.
Qed.
Lemma add_flags_spec n i (o : dict string string) : i < n -> NoDup (dkeys o) -> forall flags, good n flags ->
  let fl := add_flags n flags (i, o) in
  good n fl /\ (forall k, dmem string_dec fl k = orb (dmem string_dec flags k) (dmem string_dec o k)) /\
  (forall k, flag_at fl k i = match dget string_dec o k with Some v => v | None => flag_at flags k i end) /\
  (forall k j, j <> i -> flag_at fl k j = flag_at flags k j).
Proof.
  intros hi; unfold add_flags; cbn [fst snd]; induction o as [|[k v] o IH]; intros nd flags g; cbn [fold_left].
  - repeat split; [exact g|]; intros k; unfold dmem at 3; cbn; now rewrite orb_false_r.
  - cbn [dkeys map fst] in nd; inversion nd as [|x y ni nd']; subst.
    destruct (add_one n flags i k v g hi) as [g1 [m1 [s1 o1]]]; cbn [fst snd].
    set (f1 := match dget string_dec _ k with Some l => _ | None => _ end) in *.
    destruct (IH nd' f1 g1) as [g2 [m2 [s2 o2]]]; repeat split.
    + exact g2.
    + intros k'; rewrite m2, m1; unfold dmem at 4; cbn [dget]; destruct (string_dec k' k) as [->|ne]; [now rewrite orb_true_r|reflexivity].
    + intros k'; rewrite s2; cbn [dget]; destruct (string_dec k' k) as [->|ne].
      * rewrite (proj2 (dget_None_notin string_dec o k)) by exact ni; exact s1.
      * destruct (dget string_dec o k'); [reflexivity|]; apply o1; now left.
    + intros k' j hj; rewrite o2 by exact hj; apply o1; now right.
Qed.
Lemma pint_flags_lem : forall obs, (forall o, In o obs -> NoDup (dkeys o)) ->
  (forall k, In k (dkeys (pint_flags obs)) <-> exists o, In o obs /\ In k (dkeys o)) /\
  (forall k l, dget string_dec (pint_flags obs) k = Some l -> length l = length obs /\
    forall i o, nth_error obs i = Some o -> nth_error l i = Some (match dget string_dec o k with Some v => v | None => "" end)).
Proof.
  intros obs hnd.
  assert (K : forall l m flags, m + length l = length obs -> (forall o, In o l -> NoDup (dkeys o)) -> good (length obs) flags ->
    (forall k j, m <= j -> flag_at flags k j = "") ->
    let fl := fold_left (add_flags (length obs)) (combine (seq m (length l)) l) flags in
    good (length obs) fl /\ (forall k, dmem string_dec fl k = true <-> dmem string_dec flags k = true \/ exists o, In o l /\ In k (dkeys o)) /\
    (forall k j, j < m -> flag_at fl k j = flag_at flags k j) /\
    (forall k j o, nth_error l j = Some o -> flag_at fl k (m + j) = match dget string_dec o k with Some v => v | None => "" end)).
  { induction l as [|o l IH]; intros m flags hm nd g z; cbn [length seq combine fold_left].
    - repeat split; [exact g|tauto|intros [h|[o [[] _]]]; exact h|intros k [|j] o h; discriminate].
    - cbn [length] in hm.
      destruct (add_flags_spec (length obs) m o ltac:(lia) (nd o (or_introl eq_refl)) flags g) as [g1 [m1 [s1 o1]]].
      destruct (IH (S m) (add_flags (length obs) flags (m, o))) as [g2 [m2 [s2 n2]]]; [lia|intros x i; apply nd; now right|exact g1| |].
      { intros k j hj; rewrite o1 by lia; apply z; lia. }
      repeat apply conj.
      + exact g2.
      + intros k; rewrite m2, m1, orb_true_iff; split.
        * intros [[h|h]|[x [i j]]]; [now left|right; exists o; split; [now left|now apply (dmem_true string_dec)]|right; exists x; split; [now right|exact j]].
        * intros [h|[x [[<-|i] j]]]; [now left; left|left; right; now apply (dmem_true string_dec)|right; now exists x].
      + intros k j hj; rewrite s2 by lia; apply o1; lia.
      + intros k [|j] x hx; cbn in hx.
        * injection hx as <-; rewrite Nat.add_0_r, s2 by lia; rewrite s1; now rewrite z.
        * rewrite <- Nat.add_succ_comm; now apply n2. }
  destruct (K obs 0 [] eq_refl hnd) as [g [m [_ n]]]; [intros k l c; discriminate|reflexivity|].
  fold (pint_flags obs) in *; split.
  - intros k; rewrite <- (dmem_true string_dec), m; split; [intros [c|h]; [discriminate|exact h]|now right].
  - intros k l e; split; [exact (g _ _ e)|]; intros i o ho; specialize (n k i o ho); unfold flag_at in n; cbn in n; rewrite e in n.
    rewrite <- n; apply nth_error_nth'; rewrite (g _ _ e); apply nth_error_Some; congruence.
Qed.

(** ** The solar system *)
Definition pint_planets : list (nat * string) :=
  [(2, "obs_earth_pos"); (4, "obs_jupiter_pos"); (5, "obs_saturn_pos"); (6, "obs_uranus_pos"); (7, "obs_neptune_pos")]%nat.
(** A coordinate of a vector *)
Definition coord (v : vec) (c : nat) : R := let '(x, y, z) := v in match c with O => x | S O => y | _ => z end.
Definition entry (p : list (list six)) (i j c : nat) : option R := nth c (nth j (nth i p []) []) None.
Lemma coord_vlist (u v : vec) c : c < 3 -> nth c (vlist (vscale (/ clight) (vadd u v)) ++ nan3) None = Some ((coord u c + coord v c) / 299792458)%R.
Proof.
  destruct u as [[x y] z], v as [[x' y'] z']; unfold clight; intros hc.
  destruct c as [|[|[|c]]]; [..|lia]; cbn; f_equal; unfold Rdiv; apply Rmult_comm.
Qed.
Lemma pint_planetssb_lem : forall table n obs, dget string_dec table "ssb_obs_pos" = Some obs -> length obs = n ->
  (forall j k, In (j, k) pint_planets -> exists l, dget string_dec table k = Some l /\ length l = n) ->
  exists p, pint_planetssb true table n = Ok (Some p) /\ length p = n /\
  forall i, i < n ->
    (forall j k l c, In (j, k) pint_planets -> dget string_dec table k = Some l -> c < 3 ->
      entry p i j c = Some ((coord (nth i l (0, 0, 0)%R) c + coord (nth i obs (0, 0, 0)%R) c) / 299792458)%R) /\
    (forall j c, ~ (c < 3 /\ In j (map fst pint_planets)) -> entry p i j c = None).
Proof.
  intros table n obs ho lo hp.
  assert (S : forall j k l, In (j, k) pint_planets -> dget string_dec table k = Some l -> ssb_lsec table k = Ok (map (fun pq => vscale (/ clight) (vadd (fst pq) (snd pq))) (combine l obs)) /\ length l = n).
  { intros j k l i e; unfold ssb_lsec, dgetE; rewrite e, ho; split; [reflexivity|].
    destruct (hp j k i) as [l' [e' h]]; congruence. }
  assert (I : forall j k, In (j, k) pint_planets -> True) by auto.
  destruct (hp 2 "obs_earth_pos"%string) as [e [he le]]; [cbn; tauto|].
  destruct (hp 4 "obs_jupiter_pos"%string) as [u [hu lu]]; [cbn; tauto|].
  destruct (hp 5 "obs_saturn_pos"%string) as [s [hs ls]]; [cbn; tauto|].
  destruct (hp 6 "obs_uranus_pos"%string) as [r [hr lr]]; [cbn; tauto|].
  destruct (hp 7 "obs_neptune_pos"%string) as [w [hw lw]]; [cbn; tauto|].
  unfold pint_planetssb; cbn [negb].
  rewrite (proj1 (S 2 _ e ltac:(cbn; tauto) he)), (proj1 (S 4 _ u ltac:(cbn; tauto) hu)), (proj1 (S 5 _ s ltac:(cbn; tauto) hs)),
    (proj1 (S 6 _ r ltac:(cbn; tauto) hr)), (proj1 (S 7 _ w ltac:(cbn; tauto) hw)); cbn [rbind].
  eexists; split; [reflexivity|]; split; [now rewrite map_length, seq_length|]; intros i hi.
  set (row := fun i : nat => _ :: _).
  assert (N : nth i (map row (seq 0 n)) [] = row i).
  { rewrite (nth_indep _ [] (row 0)) by (rewrite map_length, seq_length; exact hi); rewrite map_nth, seq_nth by exact hi; reflexivity. }
  assert (V : forall l c, length l = n -> c < 3 ->
    nth c (vlist (nth i (map (fun pq => vscale (/ clight) (vadd (fst pq) (snd pq))) (combine l obs)) (0, 0, 0)%R) ++ nan3) None =
    Some ((coord (nth i l (0, 0, 0)%R) c + coord (nth i obs (0, 0, 0)%R) c) / 299792458)%R).
  { intros l c hl hc.
    set (g := fun pq : vec * vec => vscale (/ clight) (vadd (fst pq) (snd pq))).
    rewrite (nth_indep _ (0, 0, 0)%R (g ((0, 0, 0)%R, (0, 0, 0)%R))) by (rewrite map_length, combine_length; lia).
    rewrite map_nth, combine_nth by (exact (eq_trans hl (eq_sym lo))); unfold g; cbn [fst snd].
    exact (coord_vlist _ _ c hc). }
  split.
  - intros j k l c ijk hk hc; unfold entry; rewrite N.
    repeat (destruct ijk as [[= <- <-]|ijk]; [rewrite hk in *; cbn [nth row]; match goal with h : Some l = Some ?x |- _ => injection h as -> end; now apply V|]); destruct ijk.
  - intros j c nj; unfold entry; rewrite N; unfold row; cbn in nj.
    assert (A : forall x, ~ (c < 3) -> nth c (vlist x ++ nan3) None = None).
    { intros [[x y] z] h; destruct c as [|[|[|[|[|[|[|c]]]]]]]; try lia; reflexivity. }
    destruct j as [|[|[|[|[|[|[|[|[|j]]]]]]]]]; cbn [nth];
      try (apply A; intros h; apply nj; split; [exact h|tauto]);
      try (destruct c as [|[|[|[|[|[|[|c]]]]]]]; reflexivity).
    destruct j; destruct c; reflexivity.
Qed.
Lemma pint_planets_missing_lem : forall table n k j, In (j, k) pint_planets -> dget string_dec table k = None ->
  dget string_dec table "ssb_obs_pos" <> None ->
  pint_planetssb true table n = Err ValueError /\ pint_planetssb false table n = Ok None.
Proof.
  intros table n k j i e ho; split; [|reflexivity]; unfold pint_planetssb; cbn [negb].
  assert (S : forall k', ssb_lsec table k' = Err ValueError \/ exists l, ssb_lsec table k' = Ok l).
  { intros k'; unfold ssb_lsec, dgetE; destruct (dget string_dec table k'); [|now left].
    destruct (dget string_dec table "ssb_obs_pos"); [right; eexists; reflexivity|now elim ho]. }
  assert (Z : ssb_lsec table k = Err ValueError) by (unfold ssb_lsec; now rewrite e).
  destruct (S "obs_earth_pos") as [q1|[l1 q1]]; rewrite q1; cbn [rbind]; [reflexivity|].
  destruct (S "obs_jupiter_pos") as [q2|[l2 q2]]; rewrite q2; cbn [rbind]; [reflexivity|].
  destruct (S "obs_saturn_pos") as [q3|[l3 q3]]; rewrite q3; cbn [rbind]; [reflexivity|].
  destruct (S "obs_uranus_pos") as [q4|[l4 q4]]; rewrite q4; cbn [rbind]; [reflexivity|].
  destruct (S "obs_neptune_pos") as [q5|[l5 q5]]; rewrite q5; cbn [rbind]; [reflexivity|].
  repeat (destruct i as [[= <- <-]|i]; [congruence|]); destruct i.
Qed.

Lemma nth_map_seq {A} (g : nat -> A) n i d : i < n -> nth i (map g (seq 0 n)) d = g i.
Proof. intros h; rewrite (nth_indep _ d (g 0)) by (rewrite map_length, seq_length; exact h); rewrite map_nth, seq_nth by exact h; reflexivity. Qed.
Lemma pint_sunssb_lem : forall table n obs l, dget string_dec table "ssb_obs_pos" = Some obs -> dget string_dec table "obs_sun_pos" = Some l ->
  length obs = n -> length l = n ->
  exists p, pint_sunssb true table n = Ok (Some p) /\ length p = n /\ pint_sunssb false table n = Ok None /\
  forall i c, i < n ->
    (c < 3 -> nth c (nth i p []) None = Some ((coord (nth i l (0, 0, 0)%R) c + coord (nth i obs (0, 0, 0)%R) c) / 299792458)%R) /\
    (3 <= c < 6 -> nth c (nth i p []) None = Some 0%R).
Proof.
  intros table n obs l ho hl lo ll; unfold pint_sunssb; cbn [negb]; unfold ssb_lsec, dgetE; rewrite hl, ho; cbn [rbind rmap].
  eexists; split; [reflexivity|]; split; [now rewrite map_length, seq_length|]; split; [reflexivity|]; intros i c hi.
  unfold six; rewrite (nth_map_seq _ n i [] hi); set (g := fun pq : vec * vec => vscale (/ clight) (vadd (fst pq) (snd pq))).
  rewrite (nth_indep _ (0, 0, 0)%R (g ((0, 0, 0)%R, (0, 0, 0)%R))) by (rewrite map_length, combine_length; lia).
  rewrite map_nth, combine_nth by (exact (eq_trans ll (eq_sym lo))); unfold g; cbn [fst snd]; split; intros hc.
  - rewrite <- (coord_vlist _ _ c hc); destruct (vscale _ _) as [[x y] z]; destruct c as [|[|[|c]]]; [reflexivity..|lia].
  - destruct (vscale _ _) as [[x y] z]; destruct c as [|[|[|[|[|[|c]]]]]]; try lia; reflexivity.
Qed.

(** tempo2: the planets do not depend on the corrections of the planets' masses, which the
    object loses. *)
Definition planet_masses : list string :=
  ["DMASSPLANET1"; "DMASSPLANET2"; "DMASSPLANET3"; "DMASSPLANET4"; "DMASSPLANET5"; "DMASSPLANET6"; "DMASSPLANET7"; "DMASSPLANET8"; "DMASSPLANET9"].
Definition same_but_masses (v v' : dict string R) : Prop := forall k, ~ In k planet_masses -> dget string_dec v k = dget string_dec v' k.
Definition looks (eng : tempo2) : Prop := forall v v', (forall k, dget string_dec v k = dget string_dec v' k) ->
  e_toas eng v = e_toas eng v' /\ (forall j, e_planet eng v j = e_planet eng v' j) /\ e_pos eng v = e_pos eng v'.
Lemma zeroed ks : forall v k, dget string_dec (fold_left (fun d k => dset string_dec d k 0%R) ks v) k = if in_dec string_dec k ks then Some 0%R else dget string_dec v k.
Proof.
  induction ks as [|x ks IH]; intros v k; cbn [fold_left]; [reflexivity|]; rewrite IH.
  destruct (in_dec string_dec k ks) as [i|ni], (in_dec string_dec k (x :: ks)) as [i'|ni']; try reflexivity.
  - elim ni'; now right.
  - destruct i' as [->|c]; [apply dget_dset_same|contradiction].
  - apply dget_dset_other; intros ->; apply ni'; now left.
Qed.
Lemma t2_planets_lem : forall eng t t', looks eng -> t_set t = t_set t' -> t_fit t = t_fit t' -> same_but_masses (t_val t) (t_val t') ->
  let '((_, pl, pos), _) := t2_pulsar eng true t in let '((_, pl', pos'), _) := t2_pulsar eng true t' in pl = pl' /\ pos = pos'.
Proof.
  intros eng t t' hl hs hf hv; unfold t2_pulsar, t2_planetssb; cbn [negb].
  assert (e : forall k, dget string_dec (fold_left (fun d k => dset string_dec d k 0%R) mass_names (t_val t)) k =
                        dget string_dec (fold_left (fun d k => dset string_dec d k 0%R) mass_names (t_val t')) k).
  { intros k; rewrite !zeroed; destruct (in_dec string_dec k mass_names); [reflexivity|now apply hv]. }
  destruct (hl _ _ e) as [_ [h1 h2]]; unfold t2_pos_t, t2_ecliptic; cbn [t_fit t_set]; rewrite hs, hf, h2; split; [|reflexivity].
  f_equal; apply map_ext; intros j; now rewrite h1.
Qed.
Lemma t2_masses_lem : forall eng planets t out t', t2_pulsar eng planets t = (out, t') ->
  t_set t' = t_set t /\ t_fit t' = t_fit t /\ t_err t' = t_err t /\ same_but_masses (t_val t) (t_val t') /\
  (forall k, In k planet_masses -> dget string_dec (t_val t') k = if planets then Some 0%R else dget string_dec (t_val t) k).
Proof.
  intros eng planets t out t' e; assert (e' : t' = snd (t2_pulsar eng planets t)) by (now rewrite e); subst t'; clear e.
  unfold t2_pulsar, t2_planetssb; destruct planets; cbn [negb snd t_set t_fit t_err t_val]; repeat split; try reflexivity.
  - intros k ni; rewrite zeroed; destruct (in_dec string_dec k mass_names); [contradiction|reflexivity].
  - intros k i; rewrite zeroed; destruct (in_dec string_dec k mass_names); [reflexivity|contradiction].
Qed.
Lemma t2_solar_system_lem : forall eng t toas pl pos t', t2_pulsar eng true t = ((toas, pl, pos), t') ->
  let ecl := In "ELAT" (t_fit t) \/ In "ELAT" (t_set t) in
  toas = map (fun x => 86400 * x)%R (e_toas eng (t_val t)) /\
  (ecl -> pos = ecl2eq_vec (e_pos eng (t_val t'))) /\ (~ ecl -> pos = e_pos eng (t_val t')) /\
  exists p, pl = Some p /\ length p = 9 /\ forall j, j < 9 ->
    (ecl -> map fst (nth j p []) = ecl2eq_vec (map fst (e_planet eng (t_val t') j)) /\ map snd (nth j p []) = ecl2eq_vec (map snd (e_planet eng (t_val t') j))) /\
    (~ ecl -> nth j p [] = e_planet eng (t_val t') j).
Proof.
  intros eng t toas pl pos t' e ecl.
  assert (M : t2_ecliptic t = true <-> ecl) by (unfold t2_ecliptic, ecl; rewrite memP, in_app_iff; reflexivity).
  unfold t2_pulsar, t2_planetssb in e; cbn [negb] in e; set (v := fold_left _ mass_names (t_val t)) in *.
  assert (et : t' = T2Pars (t_set t) (t_fit t) v (t_err t)) by (symmetry; exact (f_equal snd e)).
  assert (e1 := f_equal (fun x => fst (fst (fst x))) e); assert (e2 := f_equal (fun x => snd (fst (fst x))) e); assert (e3 := f_equal (fun x => snd (fst x)) e).
  cbn [fst snd] in e1, e2, e3; clear e; rewrite et; cbn [t_val]; unfold t2_pos_t in e3; change (t2_ecliptic _) with (t2_ecliptic t) in e3.
  assert (N : forall j, j < 9 -> forall g : nat -> list (vec * vec), nth j (map g (seq 0 9)) [] = g j).
  { intros j hj g; rewrite (nth_indep _ [] (g 0)) by (rewrite map_length, seq_length; exact hj); rewrite map_nth, seq_nth by exact hj; reflexivity. }
  split; [now rewrite <- e1|]; split; [intros h; apply M in h; now rewrite h in e3|]; split.
  { intros h; destruct (t2_ecliptic t) eqn:q; [elim h; now apply M|now rewrite <- e3]. }
  eexists; split; [symmetry; exact e2|]; split; [now rewrite map_length, seq_length|]; intros j hj; rewrite (N j hj); split.
  - intros h; apply M in h; rewrite h; unfold ecl2eq_vec; rewrite !map_map; split; reflexivity.
  - intros h; destruct (t2_ecliptic t) eqn:q; [elim h; now apply M|]; apply map_id.
Qed.
(** Two pulsars made of one object need not have the same TOAs. *)
Lemma second_pulsar_refuted_lem : exists eng t, looks eng /\
  let '((toas, _, _), t') := t2_pulsar eng true t in let '((toas', _, _), _) := t2_pulsar eng true t' in toas <> toas'.
Proof.
  exists (Tempo2 (fun v => match dget string_dec v "DMASSPLANET5" with Some m => [m] | None => [0%R] end) (fun _ _ => []) (fun _ => [])).
  exists (T2Pars [] [] [("DMASSPLANET5", 1%R)] []); split.
  - intros v v' h; cbn; rewrite h; repeat split.
  - cbn; intros e; injection e as e; lra.
Qed.
Lemma second_pulsar_lem : forall eng t, looks eng -> (forall k, In k planet_masses -> dget string_dec (t_val t) k = Some 0%R) ->
  let '(out, t') := t2_pulsar eng true t in fst (t2_pulsar eng true t') = out.
Proof.
  intros eng t hl hz; unfold t2_pulsar, t2_planetssb; cbn [negb t_val t_set t_fit t_err fst].
  set (v := fold_left _ mass_names (t_val t)).
  assert (e1 : forall k, dget string_dec v k = dget string_dec (t_val t) k).
  { intros k; unfold v; rewrite zeroed; destruct (in_dec string_dec k mass_names); [symmetry; now apply hz|reflexivity]. }
  assert (e2 : forall k, dget string_dec (fold_left (fun d k => dset string_dec d k 0%R) mass_names v) k = dget string_dec v k).
  { intros k; rewrite zeroed; unfold v; rewrite zeroed; destruct (in_dec string_dec k mass_names); reflexivity. }
  destruct (hl _ _ e1) as [h1 _]; destruct (hl _ _ e2) as [_ [h2 h3]]; rewrite h1, h3; unfold t2_pos_t, t2_ecliptic; cbn [t_fit t_set].
  f_equal; f_equal; f_equal; apply map_ext; intros j; now rewrite h2.
Qed.

(** ** Attributes that can be dropped *)
Inductive pint_state : attrs -> Prop :=
| ps_new drop : pint_state (new_pint drop)
| ps_drop a : pint_state a -> pint_state (fst (drop_pintpsr a))
| ps_pickle a : pint_state a -> pint_state (fst (pint_drop_not_picklable a)).
Definition pint_states : list attrs := [[]; ["model"; "parfile"; "pint_toas"; "timfile"]; ["parfile"; "timfile"]].
Lemma pint_states_ok a : pint_state a -> In a pint_states.
Proof.
  induction 1 as [[]|a h IH|a h IH]; cbn; [tauto..| |]; destruct IH as [<-|[<-|[<-|[]]]]; cbn; tauto.
Qed.
Lemma pint_picklable_lem : forall a, pint_state a ->
  snd (pint_drop_not_picklable a) = None /\
  ~ In "model" (fst (pint_drop_not_picklable a)) /\ ~ In "pint_toas" (fst (pint_drop_not_picklable a)) /\
  (forall k, In k (fst (pint_drop_not_picklable a)) <-> In k a /\ k <> "model" /\ k <> "pint_toas").
Proof.
  intros a h; apply pint_states_ok in h; destruct h as [<-|[<-|[<-|[]]]]; cbn; (split; [reflexivity|]); (split; [intuition discriminate|]); (split; [intuition discriminate|]);
    intros k; split; intros q; repeat (destruct q as [<-|q]; [repeat split; try tauto; discriminate|]); try contradiction; intuition (subst; tauto).
Qed.
Lemma drop_pintpsr_lem : forall a, pint_state a ->
  (snd (drop_pintpsr a) = None <-> In "model" a) /\ (In "model" a -> fst (drop_pintpsr a) = []) /\
  (~ In "model" a -> drop_pintpsr a = (a, Some AttributeError)).
Proof.
  intros a h; apply pint_states_ok in h; destruct h as [<-|[<-|[<-|[]]]]; cbn; repeat split; try discriminate; try tauto; try (intuition discriminate).
Qed.
Lemma drop_twice_refuted_lem : exists a, pint_state a /\ snd (drop_pintpsr a) = Some AttributeError /\ a = fst (drop_pintpsr (new_pint false)) /\
  snd (drop_tempopsr (new_t2 true)) = Some AttributeError.
Proof. eexists; split; [apply ps_drop, (ps_new false)|]; repeat split. Qed.
Lemma t2_picklable_lem : forall a, snd (t2_drop_not_picklable a) = None /\
  (forall k, In k (fst (t2_drop_not_picklable a)) <-> In k a /\ k <> "t2pulsar").
Proof.
  intros a; unfold t2_drop_not_picklable; cbn [dels]; unfold del.
  destruct (mem "t2pulsar" a) eqn:e; cbn [suppress_attribute fst snd]; split; try reflexivity.
  - intros k; rewrite filter_In, negb_true_iff, String.eqb_neq; reflexivity.
  - apply mem_false in e; intros k; split; [|tauto]; intros i; split; [exact i|intros ->; contradiction].
Qed.
