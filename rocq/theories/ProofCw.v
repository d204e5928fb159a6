From Coq Require Import Reals ZArith Bool Arith List Lra Lia.
From Coquelicot Require Import Coquelicot.
From Verif Require Import PyBase ModelCw.
Import ListNotations.
Open Scope list_scope.
Open Scope R_scope.

(** ** Specification *)
(** The strain of an eccentric binary with precessing periastron (Taylor et al. 2016,
    equations 21 and 22): [A] is the amplitude, [l] the mean anomaly, [g] the angle of
    periastron. *)
Section Spec.
Variable jn : Z -> R -> R.
Definition ta (A e : R) (n : nat) : R :=
  let k := Z.of_nat n in let x := INR n * e in
  - INR n * A * (jn (k - 2) x - 2 * e * jn (k - 1) x + 2 / INR n * jn k x + 2 * e * jn (k + 1) x - jn (k + 2) x).
Definition tb (A e : R) (n : nat) : R :=
  let k := Z.of_nat n in let x := INR n * e in
  - INR n * A * sqrt (1 - e ^ 2) * (jn (k - 2) x - 2 * jn k x + jn (k + 2) x).
Definition tc (A e : R) (n : nat) : R := 2 * A * jn (Z.of_nat n) (INR n * e).
Definition hplus (A e inc l g : R) (n : nat) : R :=
  - (1 + cos inc ^ 2) * (ta A e n * cos (INR n * l) * cos (2 * g) - tb A e n * sin (INR n * l) * sin (2 * g))
  + (1 - cos inc ^ 2) * (tc A e n * cos (INR n * l)).
Definition hcross (A e inc l g : R) (n : nat) : R :=
  2 * cos inc * (tb A e n * sin (INR n * l) * cos (2 * g) + ta A e n * cos (INR n * l) * sin (2 * g)).
End Spec.
Definition total (f : nat -> R) (ns : list nat) : R := fold_right Rplus 0 (map f ns).
(** The amplitude: half of a given strain amplitude, or from mass and distance in seconds. *)
Definition amplitude (h0 : option R) (mc dl F : R) : R :=
  let c := 299792458 in let sun := 1327124400 * 10 ^ 11 / c ^ 3 in let megaparsec := 10 ^ 6 * (648000 / PI * 149597870700) / c in
  match h0 with Some h => h / 2 | None => Rpower (mc * sun) (5 / 3) * Rpower (2 * PI * F) (2 / 3) / (dl * megaparsec) end.
(** No resonance between orbit and precession. *)
Definition nonresonant (F gammadot : R) (ns : list nat) : Prop :=
  forall n, In n ns -> INR n * (2 * PI * F) - 2 * gammadot <> 0 /\ INR n * (2 * PI * F) + 2 * gammadot <> 0.

(** ** One harmonic *)
Lemma amplitude_code : forall h0 mc dl F, amplitude h0 mc dl F = match h0 with Some h => h / 2 | None => Rpower (mc * Tsun) (5 / 3) * Rpower (2 * PI * F) (2 / 3) / (dl * (Mpc / c_light)) end.
Proof.
  intros [h|] mc dl F; [reflexivity|]. unfold amplitude. cbv zeta. replace (10 ^ 6 * (648000 / PI * 149597870700) / 299792458) with (Mpc / c_light); [reflexivity|]. unfold Mpc, AU, c_light. pose proof PI_RGT_0. field. lra.
Qed.
Lemma an_value : forall jn n mc dl h0 F e, is_array mc = false -> is_array dl = false ->
  get_an jn n mc dl h0 F e = (ta jn (amplitude h0 (content mc) (content dl) F) e n, (mc, dl)).
Proof.
  intros jn n mc dl h0 F e M D. unfold get_an, scale_in_place. rewrite M, D. cbv zeta. f_equal. rewrite amplitude_code. unfold ta. cbv zeta. destruct h0; [unfold Rdiv; ring|]. unfold Rdiv. ring.
Qed.
Lemma bn_value : forall jn n mc dl h0 F e, is_array mc = false -> is_array dl = false ->
  get_bn jn n mc dl h0 F e = (tb jn (amplitude h0 (content mc) (content dl) F) e n, (mc, dl)).
Proof.
  intros jn n mc dl h0 F e M D. unfold get_bn, scale_in_place. rewrite M, D. cbv zeta. f_equal. rewrite amplitude_code. unfold tb. cbv zeta. destruct h0; unfold Rdiv; ring.
Qed.
Lemma cn_value : forall jn n mc dl h0 F e, is_array mc = false -> is_array dl = false ->
  get_cn jn n mc dl h0 F e = (tc jn (amplitude h0 (content mc) (content dl) F) e n / (INR n * (2 * PI * F)), (mc, dl)).
Proof.
  intros jn n mc dl h0 F e M D. unfold get_cn, scale_in_place. rewrite M, D. cbv zeta. f_equal. rewrite amplitude_code. unfold tc. cbv zeta. f_equal. destruct h0; [field|unfold Rdiv; ring].
Qed.
(** The wave of one harmonic with the coefficients of the specification *)
Definition wave_n (jn : Z -> R -> R) (A F e l0 gamma gammadot inc t : R) (n : nat) : R * R :=
  harmonic n (ta jn A e n) (tb jn A e n) (tc jn A e n / (INR n * (2 * PI * F))) F t l0 gamma gammadot inc.
Lemma scross_value : forall jn nmax mc dl h0 F e t l0 gamma gammadot inc, is_array mc = false -> is_array dl = false -> nmax <> 0%nat ->
  splus_scross jn nmax mc dl h0 F e t l0 gamma gammadot inc =
  Ok ((map (fun tt => total (fun n => fst (wave_n jn (amplitude h0 (content mc) (content dl) F) F e l0 gamma gammadot inc tt n)) (seq 1 (nmax - 1))) t,
       map (fun tt => total (fun n => snd (wave_n jn (amplitude h0 (content mc) (content dl) F) F e l0 gamma gammadot inc tt n)) (seq 1 (nmax - 1))) t), (mc, dl)).
Proof.
  intros jn nmax mc dl h0 F e t l0 gamma gammadot inc M D N. unfold splus_scross, all_harmonics.
  rewrite (an_value jn 1) by assumption. cbn [snd]. rewrite (bn_value jn 1) by assumption. cbn [snd]. rewrite (cn_value jn 1) by assumption. cbn [snd].
  apply Nat.eqb_neq in N. rewrite N. set (A := amplitude h0 (content mc) (content dl) F).
  assert (T : forall (p : R * R -> R) tt ns, fold_right Rplus 0 (map p (map (fun '(n, (a, (b, c))) => harmonic n a b c F tt l0 gamma gammadot inc)
      (combine ns (combine (map (fun n => fst (get_an jn n mc dl h0 F e)) ns) (combine (map (fun n => fst (get_bn jn n mc dl h0 F e)) ns) (map (fun n => fst (get_cn jn n mc dl h0 F e)) ns)))))) =
    total (fun n => p (wave_n jn A F e l0 gamma gammadot inc tt n)) ns).
  { intros p tt ns. unfold total. induction ns as [|n ns IH]; [reflexivity|]. cbn [map combine fold_right]. rewrite IH. f_equal. rewrite an_value, bn_value, cn_value by assumption. reflexivity. }
  rewrite (map_ext _ _ (fun tt => T fst tt (seq 1 (nmax - 1)))), (map_ext _ _ (fun tt => T snd tt (seq 1 (nmax - 1)))). reflexivity.
Qed.
(** Addition theorems *)
Lemma wave_closed : forall n a b c F t l0 gamma gammadot inc,
  let l := INR n * (l0 + 2 * PI * F * t) in let g := 2 * (gamma + gammadot * t) in
  let dm := INR n * (2 * PI * F) - 2 * gammadot in let dp := INR n * (2 * PI * F) + 2 * gammadot in
  harmonic n a b c F t l0 gamma gammadot inc =
  (- (1 / 2) * (1 + cos inc ^ 2) * ((a - b) * (sin (l - g) / dm) + (a + b) * (sin (l + g) / dp)) + (1 - cos inc ^ 2) * c * sin l,
   cos inc * ((a - b) * (cos (l - g) / dm) - (a + b) * (cos (l + g) / dp))).
Proof.
  intros. unfold harmonic. fold l. fold g. fold dm. fold dp. rewrite sin_plus, sin_minus, cos_plus, cos_minus. f_equal; unfold Rdiv; ring.
Qed.
Lemma wave_derive : forall jn A F e l0 gamma gammadot inc n t, F <> 0 -> n <> 0%nat ->
  INR n * (2 * PI * F) - 2 * gammadot <> 0 -> INR n * (2 * PI * F) + 2 * gammadot <> 0 ->
  let l := l0 + 2 * PI * F * t in let g := gamma + gammadot * t in
  is_derive (fun t => fst (wave_n jn A F e l0 gamma gammadot inc t n)) t (hplus jn A e inc l g n) /\
  is_derive (fun t => snd (wave_n jn A F e l0 gamma gammadot inc t n)) t (hcross jn A e inc l g n).
Proof.
  intros jn A F e l0 gamma gammadot inc n t HF Hn Hm Hp l g. unfold hplus, hcross.
  assert (Hw : INR n * (2 * PI * F) <> 0). { apply Rmult_integral_contrapositive. split; [now apply not_0_INR|]. pose proof PI_RGT_0. apply Rmult_integral_contrapositive. split; [lra|exact HF]. }
  set (a := ta jn A e n). set (b := tb jn A e n). set (c := tc jn A e n).
  assert (E : forall t, wave_n jn A F e l0 gamma gammadot inc t n = harmonic n a b (c / (INR n * (2 * PI * F))) F t l0 gamma gammadot inc) by reflexivity.
  split.
  - apply is_derive_ext with (fun t => - (1 / 2) * (1 + cos inc ^ 2) * ((a - b) * (sin (INR n * (l0 + 2 * PI * F * t) - 2 * (gamma + gammadot * t)) / (INR n * (2 * PI * F) - 2 * gammadot))
      + (a + b) * (sin (INR n * (l0 + 2 * PI * F * t) + 2 * (gamma + gammadot * t)) / (INR n * (2 * PI * F) + 2 * gammadot))) + (1 - cos inc ^ 2) * (c / (INR n * (2 * PI * F))) * sin (INR n * (l0 + 2 * PI * F * t))).
    { intros s. rewrite E, wave_closed. reflexivity. }
    auto_derive; [repeat split; assumption|]. fold l. fold g.
    replace (INR n * l + - (2 * g)) with (INR n * l - 2 * g) by ring. rewrite cos_plus, cos_minus.
    set (x := INR n) in *. clearbody x. field. repeat split; try assumption; try (pose proof PI_RGT_0; lra).
    intros Hx. apply Hw. rewrite Hx. ring.
  - apply is_derive_ext with (fun t => cos inc * ((a - b) * (cos (INR n * (l0 + 2 * PI * F * t) - 2 * (gamma + gammadot * t)) / (INR n * (2 * PI * F) - 2 * gammadot))
      - (a + b) * (cos (INR n * (l0 + 2 * PI * F * t) + 2 * (gamma + gammadot * t)) / (INR n * (2 * PI * F) + 2 * gammadot)))).
    { intros s. rewrite E, wave_closed. reflexivity. }
    auto_derive; [repeat split; assumption|]. fold l. fold g.
    replace (INR n * l + - (2 * g)) with (INR n * l - 2 * g) by ring. rewrite sin_plus, sin_minus.
    set (x := INR n) in *. clearbody x. field. repeat split; try assumption.
Qed.
Lemma total_derive : forall (f : R -> nat -> R) (d : nat -> R) ns t, (forall n, In n ns -> is_derive (fun t => f t n) t (d n)) ->
  is_derive (fun t => total (f t) ns) t (total d ns).
Proof.
  intros f d ns t. induction ns as [|n ns IH]; intros H; unfold total; cbn [map fold_right].
  - apply @is_derive_const.
  - apply @is_derive_plus; [apply H; now left|]. apply IH. intros; apply H; now right.
Qed.
(** ** C102 *)
Lemma cw_strain_lem : forall jn nmax mc dl h0 F e l0 gamma gammadot inc, F <> 0 -> nmax <> 0%nat -> nonresonant F gammadot (seq 1 (nmax - 1)) ->
  exists splus scross,
  (forall ts, splus_scross jn nmax (Cell false mc) (Cell false dl) h0 F e ts l0 gamma gammadot inc = Ok ((map splus ts, map scross ts), (Cell false mc, Cell false dl))) /\
  forall t, let l := l0 + 2 * PI * F * t in let g := gamma + gammadot * t in
  is_derive splus t (total (hplus jn (amplitude h0 mc dl F) e inc l g) (seq 1 (nmax - 1))) /\
  is_derive scross t (total (hcross jn (amplitude h0 mc dl F) e inc l g) (seq 1 (nmax - 1))).
Proof.
  intros jn nmax mc dl h0 F e l0 gamma gammadot inc HF HN NR. eexists. eexists. split.
  - intros ts. rewrite scross_value by (try reflexivity; exact HN). cbn [content]. reflexivity.
  - intros t l g. cbv beta. split.
    + apply (total_derive (fun t n => fst (wave_n jn (amplitude h0 mc dl F) F e l0 gamma gammadot inc t n))). intros n Hn. destruct (NR n Hn). apply in_seq in Hn. apply wave_derive; try assumption. lia.
    + apply (total_derive (fun t n => snd (wave_n jn (amplitude h0 mc dl F) F e l0 gamma gammadot inc t n))). intros n Hn. destruct (NR n Hn). apply in_seq in Hn. apply wave_derive; try assumption. lia.
Qed.
(** A circular orbit. *)
Definition bessel_at_zero (jn : Z -> R -> R) : Prop := jn 0%Z 0 = 1 /\ forall k, k <> 0%Z -> jn k 0 = 0.
Lemma ta_circular : forall jn A n, bessel_at_zero jn -> n <> 0%nat -> ta jn A 0 n = (if Nat.eqb n 2 then - 2 * A else 0) /\ tb jn A 0 n = (if Nat.eqb n 2 then - 2 * A else 0) /\ tc jn A 0 n = 0.
Proof.
  intros jn A n [J0 JK] Hn. unfold ta, tb, tc. rewrite !Rmult_0_r. replace (1 - 0 ^ 2) with 1 by ring. rewrite sqrt_1.
  rewrite !(JK (Z.of_nat n)) by lia. rewrite (JK (Z.of_nat n + 2)%Z) by lia. destruct (Nat.eqb_spec n 2) as [->|N].
  - change (Z.of_nat 2 - 2)%Z with 0%Z. rewrite J0. cbn [INR]. repeat split; field; lra.
  - rewrite (JK (Z.of_nat n - 2)%Z) by lia. repeat split; ring.
Qed.
Lemma total_two : forall f ns, NoDup ns -> (forall n, In n ns -> n <> 2%nat -> f n = 0) -> total f ns = if existsb (Nat.eqb 2) ns then f 2%nat else 0.
Proof.
  intros f ns. induction ns as [|n ns IH]; intros ND H; [reflexivity|]. inversion ND as [|? ? N1 N2]; subst. unfold total in *. cbn [map fold_right existsb]. rewrite IH; [|exact N2|intros; apply H; [now right|assumption]].
  destruct (Nat.eqb_spec 2 n) as [<-|N].
  - cbn [orb]. destruct (existsb (Nat.eqb 2) ns) eqn:E; [|ring]. exfalso. apply existsb_exists in E as (x & Hx & Ex). apply Nat.eqb_eq in Ex. subst x. contradiction.
  - cbn [orb]. rewrite (H n) by (try (now left); congruence). ring.
Qed.
Lemma cw_circular_lem : forall jn nmax mc dl h0 F ts l0 gamma gammadot inc, bessel_at_zero jn -> (3 <= nmax)%nat ->
  let A := amplitude h0 mc dl F in
  let phase t := 2 * (l0 + 2 * PI * F * t + (gamma + gammadot * t)) in
  let rate := 2 * (2 * PI * F) + 2 * gammadot in
  splus_scross jn nmax (Cell false mc) (Cell false dl) h0 F 0 ts l0 gamma gammadot inc =
  Ok ((map (fun t => 2 * A * (1 + cos inc ^ 2) * (sin (phase t) / rate)) ts, map (fun t => 4 * A * cos inc * (cos (phase t) / rate)) ts), (Cell false mc, Cell false dl)).
Proof.
  intros jn nmax mc dl h0 F ts l0 gamma gammadot inc HB HN A phase rate. rewrite scross_value by (try reflexivity; lia). cbn [content]. fold A.
  assert (Z : forall t n, In n (seq 1 (nmax - 1)) -> n <> 2%nat -> wave_n jn A F 0 l0 gamma gammadot inc t n = (0, 0)).
  { intros t n Hn N2. apply in_seq in Hn. unfold wave_n. destruct (ta_circular jn A n HB ltac:(lia)) as (-> & -> & ->). apply Nat.eqb_neq in N2. rewrite N2, wave_closed. unfold Rdiv. f_equal; ring. }
  assert (T : forall t, wave_n jn A F 0 l0 gamma gammadot inc t 2 = (2 * A * (1 + cos inc ^ 2) * (sin (phase t) / rate), 4 * A * cos inc * (cos (phase t) / rate))).
  { intros t. unfold wave_n. destruct (ta_circular jn A 2 HB ltac:(lia)) as (-> & -> & ->). cbn [Nat.eqb]. rewrite wave_closed. cbn [INR].
    replace ((1 + 1) * (l0 + 2 * PI * F * t) + 2 * (gamma + gammadot * t)) with (phase t) by (unfold phase; ring). replace ((1 + 1) * (2 * PI * F) + 2 * gammadot) with rate by (unfold rate; ring). unfold Rdiv. replace (-2 * A - -2 * A) with 0 by ring. rewrite !Rmult_0_l, Rmult_0_r. generalize (sin (phase t) * / rate) (cos (phase t) * / rate). intros u v. f_equal; field. }
  assert (IN : existsb (Nat.eqb 2) (seq 1 (nmax - 1)) = true) by (apply existsb_exists; exists 2%nat; split; [apply in_seq; lia|reflexivity]).
  do 3 f_equal; apply map_ext; intros t; rewrite total_two; try apply seq_NoDup; try (rewrite IN, T; reflexivity); intros n Hn N2; rewrite Z by assumption; reflexivity.
Qed.
(** Only [nmax - 1] harmonics. *)
Lemma cw_harmonics_lem : forall jn nmax mc dl h0 F e ts l0 gamma gammadot inc, nmax <> 0%nat ->
  exists sp sc sp' sc', splus_scross jn nmax (Cell false mc) (Cell false dl) h0 F e ts l0 gamma gammadot inc = Ok ((sp, sc), (Cell false mc, Cell false dl)) /\
  splus_scross jn (S nmax) (Cell false mc) (Cell false dl) h0 F e ts l0 gamma gammadot inc = Ok ((sp', sc'), (Cell false mc, Cell false dl)) /\
  forall i t, nth_error ts i = Some t -> let n := nmax in
    let l := INR n * (l0 + 2 * PI * F * t) in let g := 2 * (gamma + gammadot * t) in
    let A := amplitude h0 mc dl F in let a := ta jn A e n in let b := tb jn A e n in
    let dm := INR n * (2 * PI * F) - 2 * gammadot in let dp := INR n * (2 * PI * F) + 2 * gammadot in
    nth i sp' 0 = nth i sp 0 + (- (1 / 2) * (1 + cos inc ^ 2) * ((a - b) * (sin (l - g) / dm) + (a + b) * (sin (l + g) / dp)) + (1 - cos inc ^ 2) * (tc jn A e n / (INR n * (2 * PI * F))) * sin l) /\
    nth i sc' 0 = nth i sc 0 + cos inc * ((a - b) * (cos (l - g) / dm) - (a + b) * (cos (l + g) / dp)).
Proof.
  intros jn nmax mc dl h0 F e ts l0 gamma gammadot inc HN. do 4 eexists. split; [apply scross_value; (reflexivity || exact HN)|]. split; [apply scross_value; (reflexivity || lia)|]. cbn [content].
  intros i t Ht. cbv zeta.
  assert (NTH : forall f : R -> R, nth i (map f ts) 0 = f t).
  { intros f. rewrite (nth_indep _ 0 (f 0)) by (rewrite map_length; apply nth_error_Some; congruence). rewrite map_nth. f_equal. now apply nth_error_nth. }
  rewrite !NTH. replace (S nmax - 1)%nat with (S (nmax - 1)) by lia. rewrite seq_S. replace (1 + (nmax - 1))%nat with nmax by lia.
  assert (SUM : forall f ns n, total f (ns ++ [n]) = total f ns + f n). { intros f ns n. unfold total. rewrite map_app, fold_right_app. cbn. induction ns as [|x ns IH]; cbn; lra. }
  rewrite !SUM. unfold wave_n. rewrite wave_closed. cbn [fst snd]. split; reflexivity.
Qed.
Lemma cw_harmonics_refuted_lem : forall jn mc dl h0 F ts l0 gamma gammadot inc, bessel_at_zero jn ->
  splus_scross jn 2 (Cell false mc) (Cell false dl) h0 F 0 ts l0 gamma gammadot inc = Ok ((map (fun _ => 0) ts, map (fun _ => 0) ts), (Cell false mc, Cell false dl)).
Proof.
  intros jn mc dl h0 F ts l0 gamma gammadot inc HB. rewrite scross_value by (try reflexivity; lia). cbn [content]. set (A := amplitude h0 mc dl F).
  assert (Z : forall t, wave_n jn A F 0 l0 gamma gammadot inc t 1 = (0, 0)).
  { intros t. unfold wave_n. destruct (ta_circular jn A 1 HB ltac:(lia)) as (-> & -> & ->). cbn [Nat.eqb]. rewrite wave_closed. unfold Rdiv. f_equal; ring. }
  do 3 f_equal; apply map_ext; intros t; unfold total; cbn [Nat.sub seq map fold_right]; rewrite Z; cbn; ring.
Qed.
Lemma cw_nothing_lem : forall jn mc dl h0 F e ts l0 gamma gammadot inc, splus_scross jn 0 mc dl h0 F e ts l0 gamma gammadot inc = Err ValueError.
Proof. intros. unfold splus_scross, all_harmonics. destruct (snd (get_an _ _ _ _ _ _ _)) as [mc1 dl1]. destruct (snd (get_bn _ _ _ _ _ _ _)) as [mc2 dl2]. destruct (snd (get_cn _ _ _ _ _ _ _)) as [mc3 dl3]. reflexivity. Qed.
(** Symmetries. *)
Lemma cw_symmetry_lem : forall jn nmax mc dl h0 F e ts l0 gamma gammadot inc, nmax <> 0%nat ->
  exists sp sc, splus_scross jn nmax (Cell false mc) (Cell false dl) h0 F e ts l0 gamma gammadot inc = Ok ((sp, sc), (Cell false mc, Cell false dl)) /\
  (* seen from below *)
  splus_scross jn nmax (Cell false mc) (Cell false dl) h0 F e ts l0 gamma gammadot (PI - inc) = Ok ((sp, map Ropp sc), (Cell false mc, Cell false dl)) /\
  (* a whole orbit later, or with periastron and apastron exchanged twice *)
  splus_scross jn nmax (Cell false mc) (Cell false dl) h0 F e ts (l0 + 2 * PI) gamma gammadot inc = Ok ((sp, sc), (Cell false mc, Cell false dl)) /\
  splus_scross jn nmax (Cell false mc) (Cell false dl) h0 F e ts l0 (gamma + PI) gammadot inc = Ok ((sp, sc), (Cell false mc, Cell false dl)) /\
  (* edge-on *)
  (cos inc = 0 -> sc = map (fun _ => 0) ts).
Proof.
  intros jn nmax mc dl h0 F e ts l0 gamma gammadot inc HN. do 2 eexists. split; [apply scross_value; (reflexivity || exact HN)|]. rewrite !scross_value by (reflexivity || exact HN). cbn [content].
  set (A := amplitude h0 mc dl F).
  assert (TE : forall f g ns, (forall n, f n = g n) -> total f ns = total g ns) by (intros f g ns H; unfold total; f_equal; apply map_ext; exact H).
  assert (SP : forall x n, sin (x + 2 * INR n * PI) = sin x /\ cos (x + 2 * INR n * PI) = cos x) by (intros x n; split; [apply sin_period|apply cos_period]).
  assert (S2 : forall x, sin (x + 2 * PI) = sin x /\ cos (x + 2 * PI) = cos x) by (intros x; pose proof (SP x 1%nat) as [H1 H2]; cbn [INR] in H1, H2; rewrite Rmult_1_r in H1, H2; now split).
  assert (CI : cos (PI - inc) = - cos inc) by (rewrite cos_minus, cos_PI, sin_PI; ring).
  split; [|split; [|split]].
  - do 2 f_equal; apply f_equal2; [apply map_ext|rewrite map_map; apply map_ext]; intros t.
    + apply TE. intros n. unfold wave_n. rewrite !wave_closed. cbn [fst]. rewrite CI. ring.
    + transitivity (total (fun n => - snd (wave_n jn A F e l0 gamma gammadot inc t n)) (seq 1 (nmax - 1))).
      * apply TE. intros n. unfold wave_n. rewrite !wave_closed. cbn [snd]. rewrite CI. ring.
      * unfold total. induction (seq 1 (nmax - 1)) as [|n ns IH]; cbn [map fold_right]; [ring|]. rewrite IH. ring.
  - assert (W : forall t n, wave_n jn A F e (l0 + 2 * PI) gamma gammadot inc t n = wave_n jn A F e l0 gamma gammadot inc t n).
    { intros t n. unfold wave_n. rewrite !wave_closed. replace (INR n * (l0 + 2 * PI + 2 * PI * F * t)) with (INR n * (l0 + 2 * PI * F * t) + 2 * INR n * PI) by ring.
      set (l := INR n * (l0 + 2 * PI * F * t)). set (g := 2 * (gamma + gammadot * t)).
      replace (l + 2 * INR n * PI - g) with (l - g + 2 * INR n * PI) by ring. replace (l + 2 * INR n * PI + g) with (l + g + 2 * INR n * PI) by ring.
      rewrite !(proj1 (SP _ n)), !(proj2 (SP _ n)). reflexivity. }
    do 2 f_equal; apply f_equal2; apply map_ext; intros t; apply TE; intros n; now rewrite W.
  - assert (W : forall t n, wave_n jn A F e l0 (gamma + PI) gammadot inc t n = wave_n jn A F e l0 gamma gammadot inc t n).
    { intros t n. unfold wave_n. rewrite !wave_closed. set (l := INR n * (l0 + 2 * PI * F * t)). set (g := 2 * (gamma + gammadot * t)).
      replace (2 * (gamma + PI + gammadot * t)) with (g + 2 * PI) by (unfold g; ring). replace (l + (g + 2 * PI)) with (l + g + 2 * PI) by ring.
      rewrite !(proj1 (S2 _)), !(proj2 (S2 _)).
      assert (M1 : sin (l - (g + 2 * PI)) = sin (l - g)) by (rewrite <- (proj1 (S2 (l - (g + 2 * PI)))); f_equal; ring).
      assert (M2 : cos (l - (g + 2 * PI)) = cos (l - g)) by (rewrite <- (proj2 (S2 (l - (g + 2 * PI)))); f_equal; ring).
      rewrite M1, M2. reflexivity. }
    do 2 f_equal; apply f_equal2; apply map_ext; intros t; apply TE; intros n; now rewrite W.
  - intros HC. apply map_ext. intros t. unfold total. induction (seq 1 (nmax - 1)) as [|n ns IH]; [reflexivity|]. cbn [map fold_right]. rewrite IH. unfold wave_n. rewrite wave_closed. cbn [snd]. rewrite HC. ring.
Qed.
(** Without a strain amplitude it is computed from mass and distance. *)
Lemma cw_amplitude_lem : forall jn nmax mc dl h0 F e ts l0 gamma gammadot inc,
  h0 = 2 * amplitude None mc dl F ->
  splus_scross jn nmax (Cell false mc) (Cell false dl) None F e ts l0 gamma gammadot inc = splus_scross jn nmax (Cell false mc) (Cell false dl) (Some h0) F e ts l0 gamma gammadot inc.
Proof.
  intros jn nmax mc dl h0 F e ts l0 gamma gammadot inc E. destruct (Nat.eq_dec nmax 0) as [->|N]; [rewrite !cw_nothing_lem; reflexivity|]. rewrite !scross_value by (reflexivity || exact N). cbn [content].
  replace (amplitude None mc dl F) with (amplitude (Some h0) mc dl F); [reflexivity|]. rewrite E. unfold amplitude at 1. field.
Qed.
(** A mass given as an array is overwritten: afterwards it is in seconds cubed. *)
Lemma cw_mass_array_refuted_lem : forall jn mc dl h0 F e ts l0 gamma gammadot inc nmax, nmax <> 0%nat -> mc <> 0 ->
  exists w mc', splus_scross jn nmax (Cell true mc) (Cell false dl) h0 F e ts l0 gamma gammadot inc = Ok (w, (mc', Cell false dl)) /\ content mc' = mc * Tsun ^ 3 /\ mc' <> Cell true mc.
Proof.
  intros jn mc dl h0 F e ts l0 gamma gammadot inc nmax HN HM. apply Nat.eqb_neq in HN. unfold splus_scross, all_harmonics, get_an, get_bn, get_cn, scale_in_place. cbn [is_array content fst snd]. rewrite HN. do 2 eexists. split; [reflexivity|]. split; [cbn; ring|].
  intros E. injection E as E. assert (T : 0 < Tsun < 1). { unfold Tsun, GMsun, c_light. split; [apply Rdiv_lt_0_compat; lra|]. apply Rmult_lt_reg_r with (299792458 ^ 3); [lra|]. unfold Rdiv. rewrite Rmult_assoc, Rinv_l by lra. lra. }
  set (s := Tsun) in *. clearbody s. assert (T2 : s * s < 1) by nra. assert (T3 : s * s * s < 1) by nra. assert (Z : mc * (1 - s * s * s) = 0) by lra. apply Rmult_integral in Z. destruct Z; [contradiction|lra].
Qed.
(** ... and the waveform is that of another binary already at the first call. *)
Lemma cw_mass_wave_refuted_lem : forall jn mc dl F inc nmax, bessel_at_zero jn -> 0 < mc -> 0 < dl -> 0 < F -> (3 <= nmax)%nat ->
  exists s s' w w' o o', splus_scross jn nmax (Cell false mc) (Cell false dl) None F 0 [0] 0 (PI / 4) 0 inc = Ok (([s], w), o) /\
  splus_scross jn nmax (Cell true mc) (Cell false dl) None F 0 [0] 0 (PI / 4) 0 inc = Ok (([s'], w'), o') /\ 0 < s /\ s' = Rpower Tsun (5 / 3) * s /\ s' < s.
Proof.
  intros jn mc dl F inc nmax HB M D HF HN. pose proof (cw_circular_lem jn nmax mc dl None F [0] 0 (PI / 4) 0 inc HB HN) as C. cbv zeta in C. cbn [map] in C.
  replace (2 * (0 + 2 * PI * F * 0 + (PI / 4 + 0 * 0))) with (PI / 2) in C by field. rewrite sin_PI2, cos_PI2 in C.
  do 6 eexists. split; [exact C|]. clear C.
  assert (T : 0 < Tsun < 1). { unfold Tsun, GMsun, c_light. split; [apply Rdiv_lt_0_compat; lra|]. apply Rmult_lt_reg_r with (299792458 ^ 3); [lra|]. unfold Rdiv. rewrite Rmult_assoc, Rinv_l by lra. lra. }
  assert (P : 0 < Rpower Tsun (5 / 3) < 1). { split; [apply exp_pos|]. unfold Rpower. apply Rlt_le_trans with (exp 0); [|rewrite exp_0; lra]. apply exp_increasing. assert (ln Tsun < 0) by (rewrite <- ln_1; apply ln_increasing; lra). nra. }
  pose proof PI_RGT_0 as HPI.
  set (A := amplitude None mc dl F). set (A' := Rpower Tsun (5 / 3) * A).
  assert (AP : 0 < A). { unfold A. rewrite amplitude_code. apply Rdiv_lt_0_compat; [apply Rmult_lt_0_compat; apply exp_pos|]. unfold Mpc, AU, c_light. repeat (lra || apply Rdiv_lt_0_compat || apply Rmult_lt_0_compat). }
  split.
  - unfold splus_scross, all_harmonics.
    rewrite (map_ext (fun n => fst (get_an jn n (Cell true mc) (Cell false dl) None F 0)) (fun n => ta jn A 0 n)); [|intros n; unfold get_an, scale_in_place; cbn [is_array content fst snd]; unfold ta, A; rewrite amplitude_code; cbv zeta; unfold Rdiv; ring].
    cbn [get_an scale_in_place is_array content fst snd].
    rewrite (map_ext (fun n => fst (get_bn jn n (Cell true (mc * Tsun)) (Cell false dl) None F 0)) (fun n => tb jn A' 0 n)).
    2:{ intros n. unfold get_bn, scale_in_place. cbn [is_array content fst snd]. unfold tb, A', A. rewrite amplitude_code. cbv zeta. rewrite <- (Rpower_mult_distr (mc * Tsun) Tsun) by (repeat (lra || apply Rmult_lt_0_compat)). unfold Rdiv. ring. }
    cbn [get_bn scale_in_place is_array content fst snd].
    set (A'' := Rpower (mc * Tsun * Tsun * Tsun) (5 / 3) * Rpower (2 * PI * F) (2 / 3) / (dl * (Mpc / c_light))).
    rewrite (map_ext (fun n => fst (get_cn jn n (Cell true (mc * Tsun * Tsun)) (Cell false dl) None F 0)) (fun n => tc jn A'' 0 n / (INR n * (2 * PI * F)))).
    2:{ intros n. unfold get_cn, scale_in_place. cbn [is_array content fst snd]. unfold tc, A''. cbv zeta. unfold Rdiv. ring. }
    cbn [get_cn scale_in_place is_array content fst snd]. assert (N0 : Nat.eqb nmax 0 = false) by (apply Nat.eqb_neq; lia). rewrite N0. cbn [map].
    assert (S : forall ns, map (fun '(n, (a, (b, c))) => harmonic n a b c F 0 0 (PI / 4) 0 inc) (combine ns (combine (map (fun n => ta jn A 0 n) ns) (combine (map (fun n => tb jn A' 0 n) ns) (map (fun n => tc jn A'' 0 n / (INR n * (2 * PI * F))) ns))))
       = map (fun n => harmonic n (ta jn A 0 n) (tb jn A' 0 n) (tc jn A'' 0 n / (INR n * (2 * PI * F))) F 0 0 (PI / 4) 0 inc) ns) by (intros ns; induction ns as [|n ns IH]; [reflexivity|]; cbn [map combine]; rewrite IH; reflexivity).
    rewrite S. clear S. rewrite !map_map.
    pose proof (total_two (fun n => fst (harmonic n (ta jn A 0 n) (tb jn A' 0 n) (tc jn A'' 0 n / (INR n * (2 * PI * F))) F 0 0 (PI / 4) 0 inc)) (seq 1 (nmax - 1)) (seq_NoDup _ _)) as TT.
    unfold total in TT. rewrite TT; clear TT.
    2:{ intros n Hn N2. apply in_seq in Hn. destruct (ta_circular jn A n HB ltac:(lia)) as (-> & _ & _). destruct (ta_circular jn A' n HB ltac:(lia)) as (_ & -> & _). destruct (ta_circular jn A'' n HB ltac:(lia)) as (_ & _ & ->).
        apply Nat.eqb_neq in N2. rewrite N2, wave_closed. cbn [fst]. unfold Rdiv. ring. }
    assert (IN : existsb (Nat.eqb 2) (seq 1 (nmax - 1)) = true) by (apply existsb_exists; exists 2%nat; split; [apply in_seq; lia|reflexivity]). rewrite IN. reflexivity.
  - fold A. fold A'. destruct (ta_circular jn A 2 HB ltac:(lia)) as (-> & _ & _). destruct (ta_circular jn A' 2 HB ltac:(lia)) as (_ & -> & _). rewrite (proj2 (proj2 (ta_circular jn _ 2 HB ltac:(lia)))). cbn [Nat.eqb]. rewrite wave_closed. cbn [fst INR].
    replace ((1 + 1) * (0 + 2 * PI * F * 0) - 2 * (PI / 4 + 0 * 0)) with (- (PI / 2)) by field. replace ((1 + 1) * (0 + 2 * PI * F * 0) + 2 * (PI / 4 + 0 * 0)) with (PI / 2) by field. rewrite sin_neg, sin_PI2.
    set (k := Rpower Tsun (5 / 3)) in *. set (c := cos inc). 
    assert (SP : 0 < 2 * A * (1 + c ^ 2) * (1 / (2 * (2 * PI * F) + 2 * 0))). { apply Rmult_lt_0_compat; [nra|]. apply Rdiv_lt_0_compat; nra. }
    assert (SE : - (1 / 2) * (1 + c ^ 2) * ((-2 * A - -2 * A') * (-1 / ((1 + 1) * (2 * PI * F) - 2 * 0)) + (-2 * A + -2 * A') * (1 / ((1 + 1) * (2 * PI * F) + 2 * 0))) + (1 - c ^ 2) * (0 / ((1 + 1) * (2 * PI * F))) * sin ((1 + 1) * (0 + 2 * PI * F * 0))
       = k * (2 * A * (1 + c ^ 2) * (1 / (2 * (2 * PI * F) + 2 * 0)))). { unfold A'. field. lra. }
    split; [exact SP|]. split; [exact SE|]. eapply Rle_lt_trans; [apply Req_le; exact SE|]. set (s := 2 * A * (1 + c ^ 2) * (1 / (2 * (2 * PI * F) + 2 * 0))) in *. clearbody s. clear SE. nra.
Qed.
(** The Bessel functions of integer order satisfy [bessel_at_zero]. *)
Definition bessel (k : Z) (x : R) : R := / PI * RInt (fun s => cos (IZR k * s - x * sin s)) 0 PI.
Lemma bessel_zero : bessel_at_zero bessel.
Proof.
  pose proof PI_RGT_0 as HP. unfold bessel. split.
  - rewrite (RInt_ext _ (fun _ => 1)); [rewrite RInt_const|intros x _; replace (0 * x - 0 * sin x) with 0 by ring; apply cos_0].
    unfold scal, mult; cbn. unfold mult; cbn. field. lra.
  - intros k HK. assert (NZ : IZR k <> 0) by (apply not_0_IZR; exact HK).
    rewrite (RInt_ext _ (fun s => cos (IZR k * s))); [|intros x _; f_equal; ring].
    rewrite (is_RInt_unique _ 0 PI (minus (sin (IZR k * PI) / IZR k) (sin (IZR k * 0) / IZR k))).
    + rewrite Rmult_0_r, sin_0. replace (sin (IZR k * PI)) with 0 by (symmetry; apply sin_eq_0_1; now exists k). unfold minus, plus, opp; cbn. field. lra.
    + apply (is_RInt_derive (fun s => sin (IZR k * s) / IZR k) (fun s => cos (IZR k * s)) 0 PI).
      * intros x _. auto_derive; [exact I|]. field. exact NZ.
      * intros x _. apply (ex_derive_continuous (fun s => cos (IZR k * s)) x). auto_derive. exact I.
Qed.
