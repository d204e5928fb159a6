From Coq Require Import Reals Bool Arith List Lra Lia.
From Verif Require Import PyBase ProofBase ModelBases ModelOrf ModelEphem.
Import ListNotations.
Open Scope list_scope.
Open Scope R_scope.

Ltac vecs := intros; repeat match goal with v : vec |- _ => destruct v as [[? ?] ?] end; cbn; unfold vec in *.
Ltac veq := vecs; repeat (f_equal; try ring).

(** ** Rotations *)
Lemma sq1 : forall x, sin x * sin x = 1 - cos x * cos x.
Proof. intros x. generalize (sin2_cos2 x). unfold Rsqr. lra. Qed.
(** Rotations about the three axes. *)
Definition rotx (a : R) (v : vec) : vec := let '(x, y, z) := v in (x, cos a * y - sin a * z, sin a * y + cos a * z).
Definition roty (a : R) (v : vec) : vec := let '(x, y, z) := v in (cos a * x + sin a * z, y, cos a * z - sin a * x).
Definition rotz (a : R) (v : vec) : vec := let '(x, y, z) := v in (cos a * x - sin a * y, sin a * x + cos a * y, z).
Definition obliquity : R := 2343704 / 100000 * PI / 180.

Lemma euler_lem : forall z y x v, mulv (euler z y x) v = rotx x (roty y (rotz z v)).
Proof. veq. Qed.
Lemma ecl_map : forall v, mulv M_ecl v = rotx obliquity v.
Proof. intros [[x y] z]. unfold M_ecl, e_ecl. fold obliquity. cbn. unfold vec. repeat (f_equal; try ring). Qed.
Lemma eq_map : forall v, mulv (tr3 M_ecl) v = rotx (- obliquity) v.
Proof. intros [[x y] z]. unfold M_ecl, e_ecl. fold obliquity. cbn. rewrite cos_neg, sin_neg. unfold vec. repeat (f_equal; try ring). Qed.
Lemma ecl_lem : forall l, ecl2eq_vec l = map (rotx obliquity) l /\ eq2ecl_vec l = map (rotx (- obliquity)) l.
Proof. intros l. split; apply map_ext; [exact ecl_map|exact eq_map]. Qed.

Lemma rotx_plus : forall a b v, rotx a (rotx b v) = rotx (a + b) v.
Proof. vecs. rewrite cos_plus, sin_plus. repeat (f_equal; try ring). Qed.
Lemma roty_plus : forall a b v, roty a (roty b v) = roty (a + b) v.
Proof. vecs. rewrite cos_plus, sin_plus. repeat (f_equal; try ring). Qed.
Lemma rotz_plus : forall a b v, rotz a (rotz b v) = rotz (a + b) v.
Proof. vecs. rewrite cos_plus, sin_plus. repeat (f_equal; try ring). Qed.
Lemma rotx_0 : forall v, rotx 0 v = v.
Proof. vecs. rewrite cos_0, sin_0. repeat (f_equal; try ring). Qed.
Lemma roty_0 : forall v, roty 0 v = v.
Proof. vecs. rewrite cos_0, sin_0. repeat (f_equal; try ring). Qed.
Lemma rotz_0 : forall v, rotz 0 v = v.
Proof. vecs. rewrite cos_0, sin_0. repeat (f_equal; try ring). Qed.
Ltac iso a := vecs; assert (S := sq1 a); set (c := cos a) in *; set (s := sin a) in *; clearbody c s.
Lemma rotx_dot : forall a v w, dot (rotx a v) (rotx a w) = dot v w.
Proof. intros a v w. iso a. match goal with |- ?l = _ => ring_simplify l end. replace (s ^ 2) with (1 - c * c) by (rewrite <- S; ring). ring. Qed.
Lemma roty_dot : forall a v w, dot (roty a v) (roty a w) = dot v w.
Proof. intros a v w. iso a. match goal with |- ?l = _ => ring_simplify l end. replace (s ^ 2) with (1 - c * c) by (rewrite <- S; ring). ring. Qed.
Lemma rotz_dot : forall a v w, dot (rotz a v) (rotz a w) = dot v w.
Proof. intros a v w. iso a. match goal with |- ?l = _ => ring_simplify l end. replace (s ^ 2) with (1 - c * c) by (rewrite <- S; ring). ring. Qed.
Lemma rotx_add : forall a v w, rotx a (vadd v w) = vadd (rotx a v) (rotx a w).
Proof. veq. Qed.

Lemma ecl_inverse_lem : forall l, eq2ecl_vec (ecl2eq_vec l) = l /\ ecl2eq_vec (eq2ecl_vec l) = l.
Proof.
  intros l. assert (E := fun l => proj1 (ecl_lem l)). assert (Q := fun l => proj2 (ecl_lem l)).
  rewrite !E, !Q, !map_map. split; rewrite <- (map_id l) at 2; apply map_ext; intros v; rewrite rotx_plus; [replace (- obliquity + obliquity) with 0 by ring|replace (obliquity + - obliquity) with 0 by ring]; apply rotx_0.
Qed.
Definition det3 (M : mat3) : R :=
  let '((a, b, c), (d, e, f), (g, h, i)) := M in a * (e * i - f * h) - b * (d * i - f * g) + c * (d * h - e * g).
Definition id3 : mat3 := ((1, 0, 0), (0, 1, 0), (0, 0, 1)).
Lemma euler_orthogonal_lem : forall z y x, mul3 (euler z y x) (tr3 (euler z y x)) = id3 /\ mul3 (tr3 (euler z y x)) (euler z y x) = id3 /\ det3 (euler z y x) = 1.
Proof.
  intros z y x. unfold euler, id3. cbn.
  assert (X := sq1 x). assert (Y := sq1 y). assert (Z := sq1 z).
  set (cx := cos x) in *. set (sx := sin x) in *. set (cy := cos y) in *. set (sy := sin y) in *. set (cz := cos z) in *. set (sz := sin z) in *.
  clearbody cx sx cy sy cz sz. 
  assert (X' : sx ^ 2 = 1 - cx * cx) by (rewrite <- X; ring). assert (Y' : sy ^ 2 = 1 - cy * cy) by (rewrite <- Y; ring). assert (Z' : sz ^ 2 = 1 - cz * cz) by (rewrite <- Z; ring).
  repeat split; unfold vec; repeat f_equal; match goal with |- ?l = _ => ring_simplify l end; rewrite ?X', ?Y', ?Z'; ring.
Qed.
(** What [ss_framerotate] does to one position. *)
Definition moved (x y angle : R) (offset : option vec) (equatorial : bool) (v : vec) : vec :=
  let inner v := let w := rotx x (roty y (rotz angle v)) in match offset with Some o => vadd o w | None => w end in
  if equatorial then rotx obliquity (inner (rotx (- obliquity) v)) else inner v.
Lemma map_combine_r : forall {A B C} (f : B -> C) (a : list A) b, combine a (map f b) = map (fun p => (fst p, f (snd p))) (combine a b).
Proof. intros A B C f a. induction a as [|x a IH]; intros [|y b]; cbn; f_equal; auto. Qed.
Lemma framerotate_lem : forall mjd planet x y z dz offset equatorial,
  ss_framerotate mjd planet x y z dz offset equatorial =
  map (fun tp => moved x y (z + dz * ((fst tp - 55197) / (36525 / 100))) offset equatorial (snd tp)) (combine mjd planet).
Proof.
  intros mjd pl x y z dz o e. unfold ss_framerotate, moved. destruct e, o as [o|]; cbn [negb].
  - rewrite (proj2 (ecl_lem _)), (proj1 (ecl_lem _)), map_combine_r, !map_map. apply map_ext. intros [t v]. cbn [fst snd]. rewrite euler_lem.
    replace (dz * (t - 55197) / (36525 / 100)) with (dz * ((t - 55197) / (36525 / 100))) by (field). reflexivity.
  - rewrite (proj2 (ecl_lem _)), (proj1 (ecl_lem _)), map_combine_r, !map_map. apply map_ext. intros [t v]. cbn [fst snd]. rewrite euler_lem.
    replace (dz * (t - 55197) / (36525 / 100)) with (dz * ((t - 55197) / (36525 / 100))) by (field). reflexivity.
  - rewrite !map_map. apply map_ext. intros [t v]. cbn [fst snd]. rewrite euler_lem.
    replace (dz * (t - 55197) / (36525 / 100)) with (dz * ((t - 55197) / (36525 / 100))) by (field). reflexivity.
  - apply map_ext. intros [t v]. cbn [fst snd]. rewrite euler_lem.
    replace (dz * (t - 55197) / (36525 / 100)) with (dz * ((t - 55197) / (36525 / 100))) by (field). reflexivity.
Qed.
Lemma moved_dot : forall x y a e v w, dot (moved x y a None e v) (moved x y a None e w) = dot v w.
Proof. intros. unfold moved. destruct e; rewrite ?rotx_dot, ?roty_dot, ?rotz_dot, ?rotx_dot; reflexivity. Qed.
Lemma moved_0 : forall e v, moved 0 0 0 None e v = v.
Proof. intros e v. unfold moved. rewrite !rotx_0. destruct e; rewrite !roty_0, !rotz_0; [|reflexivity]. rewrite rotx_plus. replace (obliquity + - obliquity) with 0 by ring. apply rotx_0. Qed.
Lemma snd_combine : forall {A B} (a : list A) (b : list B), length a = length b -> map snd (combine a b) = b.
Proof. intros A B a. induction a as [|x a IH]; intros [|y b] H; try discriminate; [reflexivity|]. cbn. f_equal. apply IH. injection H; auto. Qed.
Lemma frame_lengths_lem : forall mjd planet x y z dz equatorial, length mjd = length planet ->
  Forall2 (fun v w => dot w w = dot v v) planet (ss_framerotate mjd planet x y z dz None equatorial).
Proof.
  intros mjd pl x y z dz e H. rewrite framerotate_lem. revert pl H. induction mjd as [|t mjd IH]; intros [|p pl] H; try discriminate; constructor.
  - cbn [fst snd]. apply moved_dot.
  - apply IH. injection H; auto.
Qed.
Lemma frame_identity_lem : forall mjd planet equatorial, length mjd = length planet ->
  ss_framerotate mjd planet 0 0 0 0 None equatorial = planet.
Proof.
  intros mjd pl e H. rewrite framerotate_lem. rewrite <- (snd_combine mjd pl H) at 2. apply map_ext. intros [t v]. cbn [fst snd].
  replace (0 + 0 * ((t - 55197) / (36525 / 100))) with 0 by ring. apply moved_0.
Qed.

(** ** Interpolation *)
(** Sample points in order. *)
Fixpoint increasing (l : list R) : Prop :=
  match l with x :: (y :: _) as l' => x < y /\ increasing l' | _ => True end.
Definition ipl (x : R) (xp : list R) (fp : list vec) : vec :=
  match combine xp fp with [] => (0, 0, 0) | (x0, v0) :: l => if Rlt_dec x x0 then v0 else interp_from x x0 v0 l end.
Lemma interp_ipl : forall x xp fp, length xp = length fp -> xp <> [] -> interp x xp fp = Ok (ipl x xp fp).
Proof.
  intros x xp fp H N. unfold interp, ipl. rewrite H, Nat.eqb_refl. cbn [negb].
  destruct xp as [|x0 xp]; [congruence|]. destruct fp as [|v0 fp]; [discriminate|]. reflexivity.
Qed.
Lemma vscale_vscale : forall a b v, vscale a (vscale b v) = vscale (a * b) v.
Proof. veq. Qed.
Lemma vscale_vadd : forall a v w, vscale a (vadd v w) = vadd (vscale a v) (vscale a w).
Proof. veq. Qed.
Lemma from_scale : forall a x l x0 v0, interp_from x x0 (vscale a v0) (map (fun p => (fst p, vscale a (snd p))) l) = vscale a (interp_from x x0 v0 l).
Proof.
  intros a x l. induction l as [|[x1 v1] l IH]; intros x0 v0; [reflexivity|]. cbn. destruct (Rlt_dec x x1); [|apply IH].
  set (s := (x - x0) / (x1 - x0)). clearbody s. veq.
Qed.
Lemma ipl_scale : forall a x xp fp, ipl x xp (map (vscale a) fp) = vscale a (ipl x xp fp).
Proof.
  intros a x xp fp. unfold ipl. rewrite map_combine_r. destruct (combine xp fp) as [|[x0 v0] l]; cbn.
  - unfold vec. repeat (f_equal; try ring).
  - destruct (Rlt_dec x x0); [reflexivity|]. apply from_scale.
Qed.
Lemma from_add : forall x xp fp fp' x0 v0 v0', length xp = length fp -> length xp = length fp' ->
  interp_from x x0 (vadd v0 v0') (combine xp (map (fun pq => vadd (fst pq) (snd pq)) (combine fp fp')))
  = vadd (interp_from x x0 v0 (combine xp fp)) (interp_from x x0 v0' (combine xp fp')).
Proof.
  intros x xp. induction xp as [|x1 xp IH]; intros [|v1 fp] [|v1' fp'] x0 v0 v0' H H'; try discriminate; [reflexivity|].
  cbn. destruct (Rlt_dec x x1); [|apply IH; cbn in H, H'; lia].
  set (s := (x - x0) / (x1 - x0)). clearbody s. clear. veq.
Qed.
Lemma ipl_add : forall x xp fp fp', length xp = length fp -> length xp = length fp' ->
  ipl x xp (map (fun pq => vadd (fst pq) (snd pq)) (combine fp fp')) = vadd (ipl x xp fp) (ipl x xp fp').
Proof.
  intros x [|x0 xp] [|v0 fp] [|v0' fp'] H H'; try discriminate; cbn.
  - unfold vec. repeat (f_equal; try ring).
  - unfold ipl. cbn. destruct (Rlt_dec x x0); [reflexivity|]. apply from_add; cbn in H, H'; lia.
Qed.

Lemma increasing_cons : forall x y l, increasing (x :: y :: l) <-> x < y /\ increasing (y :: l).
Proof. reflexivity. Qed.
Lemma inc_le : forall l x y, increasing (x :: l) -> In y l -> x < y.
Proof.
  induction l as [|z l IH]; intros x y H Q; [destruct Q|]. apply increasing_cons in H. destruct Q as [<-|Q]; [apply H|].
  apply Rlt_trans with z; [apply H|]. apply IH; [apply H|exact Q].
Qed.
Lemma from_at : forall l x0 v0, increasing (x0 :: map fst l) -> interp_from x0 x0 v0 l = v0.
Proof.
  intros [|[x1 v1] l] x0 v0 H; [reflexivity|]. cbn [map fst] in H. apply increasing_cons in H. destruct H as [H _]. cbn. destruct (Rlt_dec x0 x1) as [L|L]; [|lra].
  replace ((x0 - x0) / (x1 - x0)) with 0 by (field; lra). veq.
Qed.
Lemma last_in : forall {X} (l : list X) x d, In (last (x :: l) d) (x :: l).
Proof. intros X l. induction l as [|y l IH]; intros x d; [left; reflexivity|]. right. apply IH. Qed.
Lemma from_spec : forall l x0 v0 x, increasing (x0 :: map fst l) -> x0 <= x ->
  (last (x0 :: map fst l) 0 <= x -> interp_from x x0 v0 l = last (v0 :: map snd l) (0, 0, 0)) /\
  forall i, (i < length l)%nat -> let a := nth i (x0 :: map fst l) 0 in let b := nth (S i) (x0 :: map fst l) 0 in a <= x <= b ->
    interp_from x x0 v0 l = vadd (vscale ((b - x) / (b - a)) (nth i (v0 :: map snd l) (0, 0, 0))) (vscale ((x - a) / (b - a)) (nth (S i) (v0 :: map snd l) (0, 0, 0))).
Proof.
  induction l as [|[x1 v1] l IH]; intros x0 v0 x H L.
  - split; [reflexivity|]. intros i Hi. cbn in Hi. lia.
  - cbn [map fst snd] in H |- *. apply increasing_cons in H. destruct H as [H1 H2]. cbn [interp_from]. destruct (Rlt_dec x x1) as [Q|Q].
    + split.
      * intros C. exfalso. change (last (x1 :: map fst l) 0 <= x) in C. destruct (last_in (map fst l) x1 0) as [E|E]; [lra|].
        assert (X := inc_le _ _ _ H2 E). lra.
      * intros [|i] Hi B.
        -- cbn in B |- *. assert (D : x1 - x0 <> 0) by lra. clear - D.
           destruct v0 as [[a1 a2] a3], v1 as [[b1 b2] b3]. cbn. unfold vec. f_equal; [f_equal|]; field; exact D.
        -- exfalso. destruct B as [B _]. assert (A : x1 <= nth (S i) (x0 :: x1 :: map fst l) 0). { cbn [nth]. destruct i as [|i]; [lra|]. apply Rlt_le, (inc_le (map fst l)); [exact H2|]. apply nth_In. rewrite map_length. cbn in Hi. lia. }
           lra.
    + destruct (IH x1 v1 x H2) as [I1 I2]; [lra|]. split; [exact I1|].
      intros [|i] Hi B.
      * cbn in B |- *. assert (x = x1) by lra. subst x. rewrite (from_at l x1 v1 H2).
        replace ((x1 - x1) / (x1 - x0)) with 0 by (field; lra). replace ((x1 - x0) / (x1 - x0)) with 1 by (field; lra). veq.
      * apply I2; [cbn in Hi; lia|exact B].
Qed.
(** Piecewise linear, constant outside of the sample points. *)
Lemma interp_lem : forall xp fp, length xp = length fp -> xp <> [] -> increasing xp -> forall x,
  exists v, interp x xp fp = Ok v /\
  (x <= hd 0 xp -> v = hd (0, 0, 0) fp) /\ (last xp 0 <= x -> v = last fp (0, 0, 0)) /\
  forall i, (S i < length xp)%nat -> let a := nth i xp 0 in let b := nth (S i) xp 0 in a <= x <= b ->
    v = vadd (vscale ((b - x) / (b - a)) (nth i fp (0, 0, 0))) (vscale ((x - a) / (b - a)) (nth (S i) fp (0, 0, 0))).
Proof.
  intros xp fp H N I x. exists (ipl x xp fp). split; [apply interp_ipl; assumption|].
  destruct xp as [|x0 xp]; [congruence|]. destruct fp as [|v0 fp]; [discriminate|]. cbn [hd length] in *.
  assert (L : length xp = length fp) by lia.
  assert (F : map fst (combine xp fp) = xp). { clear - L. revert fp L. induction xp as [|y xp IH]; intros [|w fp] L; try discriminate; [reflexivity|]. cbn. f_equal. apply IH. cbn in L; lia. }
  assert (G := snd_combine xp fp L). unfold ipl. cbn [combine].
  assert (C : length (combine xp fp) = length xp) by (rewrite combine_length; lia).
  revert F G C. generalize (combine xp fp) as l. intros l <- <- C.
  destruct (Rlt_dec x x0) as [Q|Q].
  - split; [reflexivity|]. split.
    + intros D. exfalso. destruct (last_in (map fst l) x0 0) as [E|E]; [lra|]. assert (X := inc_le _ _ _ I E). lra.
    + intros i Hi [B _]. exfalso. assert (x0 <= nth i (x0 :: map fst l) 0). { destruct i as [|i]; [cbn; lra|]. cbn [nth]. apply Rlt_le, (inc_le (map fst l)); [exact I|]. apply nth_In. lia. } lra.
  - destruct (from_spec l x0 v0 x I) as [S1 S2]; [lra|]. split.
    + intros D. assert (x = x0) by lra. subst x. apply from_at. exact I.
    + split; [exact S1|]. intros i Hi. apply S2. rewrite map_length in Hi. lia.
Qed.

(** ** The delay *)
(** Samples for each of the elements, none missing. *)
Definition sampled (n : nat) (ob : orbits) : Prop :=
  ob_times ob <> [] /\ n <> 0%nat /\ length (ob_orbit ob) = n /\ Forall (fun o => length o = length (ob_times ob)) (ob_orbit ob).
Definition fits (e : list R) (ob : option orbits) : Prop :=
  Forall (fun x => x = 0) e \/ exists o, ob = Some o /\ sampled (length e) o.
Definition value (r : result vec) : vec := match r with Ok v => v | Err _ => (0, 0, 0) end.
Definition pull (e : list R) (ob : option orbits) (t : R) (n : vec) : R :=
  match ob with
  | None => 0
  | Some ob => fold_right Rplus 0 (map (fun eo => fst eo * dot (value (interp t (ob_times ob) (snd eo))) n) (combine e (ob_orbit ob)))
  end.
(** Minus the change of the position of the earth along the line of sight, without drift. *)
Definition shift (k : corrections) (jup sat : option orbits) (t : R) (p : planets) (n : vec) : R :=
  k_jupiter k * dot (pl_jupiter p) n + k_saturn k * dot (pl_saturn p) n + k_uranus k * dot (pl_uranus p) n + k_neptune k * dot (pl_neptune p) n
  + 9547918983127075 / 10 ^ 19 * pull (k_jup_orb k) jup (t / 86400) n + 28588567008942334 / 10 ^ 20 * pull (k_sat_orb k) sat (t / 86400) n.

Lemma combine_orbits_cons : forall a e o orbit, orbit <> [] -> length e = length orbit ->
  combine_orbits (a :: e) (o :: orbit) = map (fun pq => vadd (fst pq) (snd pq)) (combine (map (vscale a) o) (combine_orbits e orbit)).
Proof.
  intros a e o orbit N H. destruct orbit as [|o' orbit]; [congruence|]. destruct e as [|a' e]; [discriminate|].
  cbn [combine_orbits]. set (r := combine_orbits (a' :: e) (o' :: orbit)). change (map (fun pq => vadd (vscale a (fst pq)) (snd pq)) (combine o r) = map (fun pq => vadd (fst pq) (snd pq)) (combine (map (vscale a) o) r)).
  clearbody r. revert r. induction o as [|v o IH]; intros [|w r]; cbn; f_equal. apply IH.
Qed.
Lemma dot_vadd : forall u v w, dot (vadd u v) w = dot u w + dot v w.
Proof. vecs. ring. Qed.
Lemma dot_vscale : forall a v w, dot (vscale a v) w = a * dot v w.
Proof. vecs. ring. Qed.
Lemma orbits_ipl : forall times, times <> [] -> forall e orbit, length e = length orbit -> e <> [] -> Forall (fun o => length o = length times) orbit ->
  length (combine_orbits e orbit) = length times /\
  forall t n, dot (ipl t times (combine_orbits e orbit)) n = fold_right Rplus 0 (map (fun eo => fst eo * dot (value (interp t times (snd eo))) n) (combine e orbit)).
Proof.
  intros times T e. induction e as [|a e IH]; intros orbit H N F; [congruence|]. destruct orbit as [|o orbit]; [discriminate|].
  apply Forall_cons_iff in F. destruct F as [F1 F]. destruct orbit as [|o' orbit].
  - destruct e; [|discriminate]. cbn [combine_orbits combine map fold_right fst snd]. split; [rewrite map_length; exact F1|].
    intros t n. rewrite ipl_scale, dot_vscale, interp_ipl by auto. cbn [value]. ring.
  - assert (L : length e = length (o' :: orbit)) by (cbn in H |- *; lia).
    destruct (IH (o' :: orbit) L) as [I1 I2]; [intros ->; discriminate|exact F|].
    rewrite combine_orbits_cons by (try discriminate; exact L). split.
    + rewrite map_length, combine_length, map_length, I1, F1. lia.
    + intros t n. rewrite ipl_add by (rewrite ?map_length; auto). rewrite dot_vadd, I2, ipl_scale, dot_vscale.
      cbn [combine map fold_right fst snd]. rewrite (interp_ipl t times o) by auto. reflexivity.
Qed.
Lemma pull_zero : forall e ob t n, Forall (fun x => x = 0) e -> pull e ob t n = 0.
Proof.
  intros e [ob|] t n F; [|reflexivity]. cbn. generalize (ob_orbit ob) as l. induction e as [|a e IH]; intros [|o l]; try reflexivity.
  apply Forall_cons_iff in F. destruct F as [-> F]. cbn [combine map fold_right fst snd]. rewrite IH by exact F. ring.
Qed.
Lemma any_false : forall e, any_nonzero e = false -> Forall (fun x => x = 0) e.
Proof. induction e as [|a e IH]; intros H; constructor; cbn in H; destruct (Req_EM_T a 0); try discriminate; auto. Qed.
Lemma any_zero : forall e, Forall (fun x => x = 0) e -> any_nonzero e = false.
Proof. induction 1 as [|a e -> F IH]; [reflexivity|]. cbn. destruct (Req_EM_T 0 0); [exact IH|congruence]. Qed.
Lemma rmapM_ok : forall {A B} (f : A -> result B) g l, (forall x, f x = Ok (g x)) -> rmapM f l = Ok (map g l).
Proof. intros A B f g l H. induction l as [|x l IH]; [reflexivity|]. cbn. rewrite H. cbn. rewrite IH. reflexivity. Qed.
Lemma orbit_shift_ok : forall mjd mass e ob, fits e ob ->
  exists g, orbit_shift mjd mass e ob = Ok (map g mjd) /\ forall t n, dot (g t) n = mass * pull e ob t n.
Proof.
  intros mjd mass e ob F. unfold orbit_shift. destruct (any_nonzero e) eqn:A.
  - destruct F as [F|F]; [rewrite (any_zero e F) in A; discriminate|]. destruct F as [o [-> F]]. rename o into ob. destruct F as [T [N0 [L F]]].
    assert (N : e <> []) by (intros ->; apply N0; reflexivity).
    rewrite L, Nat.eqb_refl. cbn [negb].
    destruct (orbits_ipl _ T e (ob_orbit ob) (eq_sym L) N F) as [I1 I2].
    exists (fun t => ipl t (ob_times ob) (map (vscale mass) (combine_orbits e (ob_orbit ob)))). split.
    + apply rmapM_ok. intros t. apply interp_ipl; [rewrite map_length; auto|exact T].
    + intros t n. rewrite ipl_scale, dot_vscale, I2. reflexivity.
  - exists (fun _ => (0, 0, 0)). split; [reflexivity|]. intros t n. rewrite pull_zero by (apply any_false; exact A). vecs. ring.
Qed.
Lemma delay_lem : forall toas pl pos k jup sat equatorial, length pl = length toas -> length pos = length toas -> fits (k_jup_orb k) jup -> fits (k_sat_orb k) sat ->
  ephem_delay toas pl pos k jup sat equatorial =
  Ok (map (fun q => let '(t, (p, n)) := q in
        dot (pl_earth p) n - dot (moved 0 0 (k_drift k * ((t / 86400 - 55197) / (36525 / 100))) None equatorial (pl_earth p)) n
        - shift k jup sat t p n) (combine toas (combine pl pos))).
Proof.
  intros toas pl pos k jup sat e L1 L2 FJ FS. unfold ephem_delay.
  destruct (orbit_shift_ok (map (fun t => t / 86400) toas) (9547918983127075 / 10 ^ 19) _ _ FJ) as [g1 [-> G1]].
  destruct (orbit_shift_ok (map (fun t => t / 86400) toas) (28588567008942334 / 10 ^ 20) _ _ FS) as [g2 [-> G2]].
  cbn [rbind]. apply f_equal. rewrite framerotate_lem. unfold shift.
  set (c1 := 9547918983127075 / 10 ^ 19) in *. set (c2 := 28588567008942334 / 10 ^ 20) in *. clearbody c1 c2.
  revert pl pos L1 L2. induction toas as [|t toas IH]; intros [|p pl] [|n pos] L1 L2; try discriminate; [reflexivity|].
  cbn [map combine fst snd]. f_equal.
  - rewrite !dot_vadd, !dot_vscale, G1, G2. rewrite Rplus_0_l. ring.
  - apply IH; cbn in L1, L2; lia.
Qed.
Lemma missing_lem : forall toas pl pos k sat equatorial, any_nonzero (k_jup_orb k) = true -> ephem_delay toas pl pos k None sat equatorial = Err ValueError.
Proof. intros. unfold ephem_delay, orbit_shift at 1. rewrite H. reflexivity. Qed.
Lemma delay_zero_lem : forall toas pl pos k jup sat equatorial, length pl = length toas -> length pos = length toas ->
  k_drift k = 0 -> k_jupiter k = 0 -> k_saturn k = 0 -> k_uranus k = 0 -> k_neptune k = 0 ->
  Forall (fun x => x = 0) (k_jup_orb k) -> Forall (fun x => x = 0) (k_sat_orb k) ->
  ephem_delay toas pl pos k jup sat equatorial = Ok (map (fun _ => 0) toas).
Proof.
  intros toas pl pos k jup sat e L1 L2 D A B C E FJ FS. rewrite delay_lem by (try assumption; left; assumption). apply f_equal.
  unfold shift. rewrite D, A, B, C, E. clear -FJ FS L1 L2. revert pl pos L1 L2. induction toas as [|t toas IH]; intros [|p pl] [|n pos] L1 L2; try discriminate; [reflexivity|].
  cbn [combine map]. f_equal; [|apply IH; cbn in L1, L2; lia].
  rewrite !pull_zero by assumption. rewrite Rmult_0_l, moved_0. ring.
Qed.
(** Corrections combined. *)
Definition mixl (a b : R) (l l' : list R) : list R := map (fun xy => a * fst xy + b * snd xy) (combine l l').
Definition mix (a : R) (k : corrections) (b : R) (k' : corrections) : corrections :=
  Corrections (a * k_drift k + b * k_drift k') (a * k_jupiter k + b * k_jupiter k') (a * k_saturn k + b * k_saturn k')
    (a * k_uranus k + b * k_uranus k') (a * k_neptune k + b * k_neptune k') (mixl a b (k_jup_orb k) (k_jup_orb k')) (mixl a b (k_sat_orb k) (k_sat_orb k')).
Lemma mixl_fits : forall a b l l' ob, length l = length l' -> fits l ob -> fits l' ob -> fits (mixl a b l l') ob.
Proof.
  intros a b l l' ob L [F|[o [E F]]] G.
  - destruct G as [G|[o [E G]]].
    + left. clear - F G. unfold mixl. revert l' G. induction F as [|x l -> F IH]; intros l' G; [constructor|]. destruct G as [|y l' -> G]; [constructor|].
      cbn. constructor; [ring|]. apply IH. exact G.
    + right. exists o. split; [exact E|]. unfold mixl. rewrite map_length, combine_length, L, Nat.min_id. exact G.
  - right. exists o. split; [exact E|]. unfold mixl. rewrite map_length, combine_length, <- L, Nat.min_id. exact F.
Qed.
Lemma pull_mix : forall a b l l' ob t n, length l = length l' -> pull (mixl a b l l') ob t n = a * pull l ob t n + b * pull l' ob t n.
Proof.
  intros a b l l' [ob|] t n; [|intros; cbn; ring]. cbn. generalize (ob_orbit ob) as os. revert l'. induction l as [|x l IH]; intros [|x' l'] os L; try discriminate; cbn [combine map mixl].
  - cbn. ring.
  - destruct os as [|o os]; [cbn; ring|]. cbn [mixl combine map fold_right fst snd]. unfold mixl in IH. unfold mixl. cbn [combine map fold_right fst snd]. rewrite IH by (cbn in L; lia). ring.
Qed.
Lemma delay_linear_lem : forall toas pl pos k k' jup sat equatorial a b, length pl = length toas -> length pos = length toas ->
  k_drift k = 0 -> k_drift k' = 0 -> length (k_jup_orb k) = length (k_jup_orb k') -> length (k_sat_orb k) = length (k_sat_orb k') ->
  fits (k_jup_orb k) jup -> fits (k_sat_orb k) sat -> fits (k_jup_orb k') jup -> fits (k_sat_orb k') sat ->
  exists d d', ephem_delay toas pl pos k jup sat equatorial = Ok d /\ ephem_delay toas pl pos k' jup sat equatorial = Ok d' /\
    length d = length toas /\ length d' = length toas /\
    ephem_delay toas pl pos (mix a k b k') jup sat equatorial = Ok (map (fun xy => a * fst xy + b * snd xy) (combine d d')).
Proof.
  intros toas pl pos k k' jup sat e a b L1 L2 D D' J S F1 F2 F3 F4.
  eexists. eexists. split; [apply delay_lem; assumption|]. split; [apply delay_lem; assumption|].
  split; [rewrite map_length, !combine_length; lia|]. split; [rewrite map_length, !combine_length; lia|].
  rewrite delay_lem; try assumption; try (apply mixl_fits; assumption).
  apply f_equal. rewrite D, D'. unfold mix. cbn [k_drift]. rewrite D, D'.
  clear L1 L2. generalize (combine toas (combine pl pos)) as l. induction l as [|[t [p n]] l IH]; [reflexivity|]. cbn [combine map fst snd]. f_equal; [|exact IH].
  unfold shift. cbn [k_jupiter k_saturn k_uranus k_neptune k_jup_orb k_sat_orb]. rewrite !pull_mix by assumption.
  replace (a * 0 + b * 0) with 0 by ring. rewrite !Rmult_0_l, !moved_0.
  set (c1 := 9547918983127075 / 10 ^ 19). set (c2 := 28588567008942334 / 10 ^ 20). ring.
Qed.
(** The drift is an angle, so that the delay is not linear in it. *)
Lemma drift_refuted_lem : exists toas pl pos r d d2, ephem_delay toas pl pos (Corrections r 0 0 0 0 [] []) None None true = Ok [d] /\
  ephem_delay toas pl pos (Corrections (2 * r) 0 0 0 0 [] []) None None true = Ok [d2] /\ d2 <> 2 * d.
Proof.
  set (v := (0, 0, 0) : vec). exists [(55197 + 36525 / 100) * 86400], [Planets (1, 0, 0) v v v v], [(1, 0, 0)], PI.
  eexists. eexists. rewrite !delay_lem by (try reflexivity; left; constructor). cbn [combine map]. split; [reflexivity|]. split; [reflexivity|].
  cbn [k_drift]. unfold shift, pull. cbn [k_jupiter k_saturn k_uranus k_neptune k_jup_orb k_sat_orb pl_earth].
  replace (((55197 + 36525 / 100) * 86400 / 86400 - 55197) / (36525 / 100)) with 1 by field. rewrite !Rmult_1_r.
  unfold moved. cbn. rewrite cos_0, sin_0, cos_PI, sin_PI, cos_2PI, sin_2PI, cos_neg, sin_neg. lra.
Qed.

(** ** The design matrix *)
Definition on (sg : option R) : bool := match sg with Some x => if Req_EM_T x 0 then false else true | None => false end.
Definition amount (sg : option R) : R := match sg with Some x => x | None => 0 end.
(** The coefficients that belong to corrections, and the deviations. *)
Definition chosen {X} (b : bool) (l : list X) : list X := if b then l else [].
Definition coefficients (s : sigmas) (k : corrections) : list R :=
  chosen (on (s_drift s)) [k_drift k] ++ chosen (on (s_jupiter s)) [k_jupiter k] ++ chosen (on (s_saturn s)) [k_saturn k] ++
  chosen (on (s_uranus s)) [k_uranus k] ++ chosen (on (s_neptune s)) [k_neptune k] ++
  chosen (on (s_jup_orb s)) (k_jup_orb k) ++ chosen (on (s_sat_orb s)) (k_sat_orb k).
Definition deviations (s : sigmas) : list R :=
  chosen (on (s_drift s)) [amount (s_drift s)] ++ chosen (on (s_jupiter s)) [amount (s_jupiter s)] ++ chosen (on (s_saturn s)) [amount (s_saturn s)] ++
  chosen (on (s_uranus s)) [amount (s_uranus s)] ++ chosen (on (s_neptune s)) [amount (s_neptune s)] ++
  chosen (on (s_jup_orb s)) (repeat (amount (s_jup_orb s)) 6) ++ chosen (on (s_sat_orb s)) (repeat (amount (s_sat_orb s)) 6).
Definition lincomb (c : list R) (F : list (list R)) (i : nat) : R := fold_right Rplus 0 (map (fun cf => fst cf * nth i (snd cf) 0) (combine c F)).

Definition column (zs : list (R * (planets * vec))) (k : corrections) (jup sat : option orbits) : list R :=
  map (fun q => let '(t, (p, n)) := q in
    (dot (pl_earth p) n - dot (moved 0 0 (k_drift k * ((t / 86400 - 55197) / (36525 / 100))) None true (pl_earth p)) n - shift k jup sat t p n) / dpar) zs.
Lemma dpar_pos : dpar <> 0.
Proof. unfold dpar. lra. Qed.
Lemma rmapM_map : forall {A B} (f : A -> result B) g l, Forall (fun x => f x = Ok (g x)) l -> rmapM f l = Ok (map g l).
Proof. intros A B f g l H. induction H as [|x l H F IH]; [reflexivity|]. cbn. rewrite H. cbn. rewrite IH. reflexivity. Qed.
Lemma lincomb_app : forall c c' F F' i, length c = length F -> lincomb (c ++ c') (F ++ F') i = lincomb c F i + lincomb c' F' i.
Proof.
  intros c. unfold lincomb. induction c as [|x c IH]; intros c' [|f F] F' i L; try discriminate; cbn [combine map fold_right app].
  - ring.
  - rewrite IH by (cbn in L; lia). ring.
Qed.
Definition block (s : option R) (ks : list (corrections * option orbits * option orbits)) : list ((corrections * option orbits * option orbits) * R) :=
  match s with Some x => if Req_EM_T x 0 then [] else map (fun k => (k, x)) ks | None => [] end.
Lemma block_chosen : forall s ks, block s ks = chosen (on s) (map (fun k => (k, amount s)) ks).
Proof. intros [x|] ks; [|reflexivity]. cbn. destruct (Req_EM_T x 0); reflexivity. Qed.
Definition masses : list corrections := let z := repeat 0 6 in
  [Corrections dpar 0 0 0 0 z z; Corrections 0 dpar 0 0 0 z z; Corrections 0 0 dpar 0 0 z z; Corrections 0 0 0 dpar 0 z z; Corrections 0 0 0 0 dpar z z].
Definition jups (jup sat : orbits) := map (fun i => (Corrections 0 0 0 0 0 (unit6 i) (repeat 0 6), Some jup, Some sat)) (seq 0 6).
Definition sats (jup sat : orbits) := map (fun i => (Corrections 0 0 0 0 0 (repeat 0 6) (unit6 i), Some jup, Some sat)) (seq 0 6).
Definition all_cols (s : sigmas) (jup sat : orbits) :=
  block (s_drift s) [(nth 0 masses (Corrections 0 0 0 0 0 [] []), None, None)] ++
  block (s_jupiter s) [(nth 1 masses (Corrections 0 0 0 0 0 [] []), None, None)] ++
  block (s_saturn s) [(nth 2 masses (Corrections 0 0 0 0 0 [] []), None, None)] ++
  block (s_uranus s) [(nth 3 masses (Corrections 0 0 0 0 0 [] []), None, None)] ++
  block (s_neptune s) [(nth 4 masses (Corrections 0 0 0 0 0 [] []), None, None)] ++
  block (s_jup_orb s) (jups jup sat) ++ block (s_sat_orb s) (sats jup sat).
Lemma basis_unfold : forall toas pl pos s jup sat, ephem_basis toas pl pos s jup sat =
  rmap (fun cols => (cols, map snd (all_cols s jup sat)))
    (rmapM (fun kx => rmap (map (fun d => d / dpar)) (let '(k, j, o) := fst kx in ephem_delay toas pl pos k j o true)) (all_cols s jup sat)).
Proof. reflexivity. Qed.
Definition okay (jup sat : orbits) (k : corrections * option orbits * option orbits) : Prop := let '(c, j, o) := k in fits (k_jup_orb c) j /\ fits (k_sat_orb c) o.
Lemma zeros6 : Forall (fun x => x = 0) (repeat 0 6).
Proof. cbn. repeat constructor. Qed.
Lemma block_okay : forall jup sat s ks, Forall (okay jup sat) ks -> Forall (fun kx => okay jup sat (fst kx)) (block s ks).
Proof. intros jup sat s ks F. rewrite block_chosen. destruct (on s); cbn; [|constructor]. apply Forall_map. eapply Forall_impl; [|exact F]. auto. Qed.
Lemma all_okay : forall s jup sat, sampled 6 jup -> sampled 6 sat -> Forall (fun kx => okay jup sat (fst kx)) (all_cols s jup sat).
Proof.
  intros s jup sat J S. unfold all_cols. rewrite !Forall_app.
  assert (Z : forall ob, fits (repeat 0 6) ob) by (intros ob; left; exact zeros6).
  repeat match goal with |- _ /\ _ => split end; apply block_okay; try (constructor; [split; apply Z|constructor]);
    (unfold jups, sats; apply Forall_map; apply Forall_forall; intros i _; split; cbn [k_jup_orb k_sat_orb]; try apply Z; right; eexists; split; [reflexivity|assumption]).
Qed.
Lemma basis_columns : forall toas pl pos s jup sat, length pl = length toas -> length pos = length toas -> sampled 6 jup -> sampled 6 sat ->
  ephem_basis toas pl pos s jup sat =
  Ok (map (fun kx => let '(k, j, o) := fst kx in column (combine toas (combine pl pos)) k j o) (all_cols s jup sat), map snd (all_cols s jup sat)).
Proof.
  intros toas pl pos s jup sat L1 L2 J S. rewrite basis_unfold.
  rewrite (rmapM_map _ (fun kx => let '(k, j, o) := fst kx in column (combine toas (combine pl pos)) k j o)); [reflexivity|].
  eapply Forall_impl; [|apply all_okay; eassumption]. intros [[[k j] o] x] [F1 F2]. cbn [fst]. rewrite delay_lem by assumption. cbn [rmap]. unfold column. rewrite map_map.
  apply f_equal. apply map_ext. intros [t [p n]]. reflexivity.
Qed.
Definition cols_of (zs : list (R * (planets * vec))) (l : list ((corrections * option orbits * option orbits) * R)) := map (fun kx => let '(k, j, o) := fst kx in column zs k j o) l.
Lemma nth_column : forall zs k j o i t p n, nth_error zs i = Some (t, (p, n)) ->
  nth i (column zs k j o) 0 = (dot (pl_earth p) n - dot (moved 0 0 (k_drift k * ((t / 86400 - 55197) / (36525 / 100))) None true (pl_earth p)) n - shift k j o t p n) / dpar.
Proof. intros zs k j o i t p n H. unfold column. apply nth_error_nth. erewrite map_nth_error by exact H. reflexivity. Qed.
Lemma lincomb_chosen : forall b c F i, lincomb (chosen b c) (chosen b F) i = if b then lincomb c F i else 0.
Proof. intros [|] c F i; reflexivity. Qed.
Lemma cols_block : forall zs s ks, cols_of zs (block s ks) = chosen (on s) (map (fun k => let '(c, j, o) := k in column zs c j o) ks).
Proof. intros zs s ks. rewrite block_chosen. destruct (on s); [|reflexivity]. cbn. unfold cols_of. rewrite map_map. reflexivity. Qed.
Lemma pull_unit : forall e ob t n, length e = 6%nat -> sampled 6 ob ->
  fold_right Rplus 0 (map (fun ei => fst ei * (pull (unit6 (snd ei)) (Some ob) t n / dpar)) (combine e (seq 0 6))) = pull e (Some ob) t n.
Proof.
  intros e ob t n L [_ [_ [O _]]]. assert (D := dpar_pos). destruct ob as [ti os]. cbn in O. unfold pull. cbn [ob_times ob_orbit].
  do 6 (destruct e as [|? e]; [discriminate|]). destruct e; [|discriminate]. do 6 (destruct os as [|? os]; [discriminate|]). destruct os; [|discriminate].
  cbn [combine seq map fold_right fst snd unit6 Nat.eqb].
  repeat match goal with |- context[dot (value ?x) n] => let d := fresh in set (d := dot (value x) n); clearbody d end. field. exact D.
Qed.
Lemma combine_map_r : forall {A B C} (f : B -> C) (a : list A) b, combine a (map f b) = map (fun p => (fst p, f (snd p))) (combine a b).
Proof. intros A B C f a. induction a as [|x a IH]; intros [|y b]; cbn; f_equal; auto. Qed.
Lemma sum_scale : forall {A} c (f g : A -> R) l, (forall x, f x = c * g x) -> fold_right Rplus 0 (map f l) = c * fold_right Rplus 0 (map g l).
Proof. intros A c f g l H. induction l as [|x l IH]; cbn; [ring|]. rewrite H, IH. ring. Qed.
Lemma basis_delay_lem : forall toas pl pos s jup sat k, length pl = length toas -> length pos = length toas -> sampled 6 jup -> sampled 6 sat ->
  length (k_jup_orb k) = 6%nat -> length (k_sat_orb k) = 6%nat -> k_drift k = 0 ->
  (on (s_jupiter s) = false -> k_jupiter k = 0) -> (on (s_saturn s) = false -> k_saturn k = 0) ->
  (on (s_uranus s) = false -> k_uranus k = 0) -> (on (s_neptune s) = false -> k_neptune k = 0) ->
  (on (s_jup_orb s) = false -> Forall (fun x => x = 0) (k_jup_orb k)) -> (on (s_sat_orb s) = false -> Forall (fun x => x = 0) (k_sat_orb k)) ->
  exists F d, ephem_basis toas pl pos s jup sat = Ok (F, deviations s) /\
    ephem_delay toas pl pos k (Some jup) (Some sat) true = Ok d /\ length d = length toas /\ length F = length (coefficients s k) /\
    forall i, (i < length toas)%nat -> nth i d 0 = lincomb (coefficients s k) F i.
Proof.
  intros toas pl pos s jup sat k L1 L2 J S N1 N2 D Kj Ks Ku Kn Ko Kp. set (zs := combine toas (combine pl pos)).
  assert (LZ : length zs = length toas) by (unfold zs; rewrite !combine_length; lia).
  exists (cols_of zs (all_cols s jup sat)).
  exists (map (fun q => let '(t, (p, n)) := q in dot (pl_earth p) n - dot (moved 0 0 (k_drift k * ((t / 86400 - 55197) / (36525 / 100))) None true (pl_earth p)) n - shift k (Some jup) (Some sat) t p n) zs).
  split; [|split; [|split; [|split]]].
  - rewrite basis_columns by assumption. fold zs. unfold cols_of. apply f_equal. f_equal. unfold all_cols, deviations. rewrite !block_chosen.
    destruct (on (s_drift s)), (on (s_jupiter s)), (on (s_saturn s)), (on (s_uranus s)), (on (s_neptune s)), (on (s_jup_orb s)), (on (s_sat_orb s)); reflexivity.
  - apply delay_lem; try assumption; right; eexists; (split; [reflexivity|]); [rewrite N1|rewrite N2]; assumption.
  - rewrite map_length. exact LZ.
  - unfold cols_of, all_cols, coefficients. rewrite map_length, !block_chosen, !app_length.
    destruct (on (s_drift s)), (on (s_jupiter s)), (on (s_saturn s)), (on (s_uranus s)), (on (s_neptune s)), (on (s_jup_orb s)), (on (s_sat_orb s)); cbn [chosen]; rewrite ?N1, ?N2; reflexivity.
  - intros i Hi. destruct (nth_error zs i) as [[t [p n]]|] eqn:E; [|apply nth_error_None in E; lia].
    assert (X : nth i (map (fun q => let '(t, (p, n)) := q in dot (pl_earth p) n - dot (moved 0 0 (k_drift k * ((t / 86400 - 55197) / (36525 / 100))) None true (pl_earth p)) n - shift k (Some jup) (Some sat) t p n) zs) 0
      = - shift k (Some jup) (Some sat) t p n).
    { apply nth_error_nth. erewrite map_nth_error by exact E. apply f_equal. rewrite D, Rmult_0_l, moved_0. ring. }
    rewrite X. clear X. unfold all_cols, coefficients, cols_of. rewrite !map_app. fold (cols_of zs (block (s_drift s) [(nth 0 masses (Corrections 0 0 0 0 0 [] []), None, None)])).
    change (map (fun kx => let '(k, j, o) := fst kx in column zs k j o)) with (cols_of zs).
    rewrite !cols_block.
    assert (LC : forall (b : bool) (c : R) (f : list R), length (chosen b [c]) = length (chosen b [f])) by (intros [|] c f; reflexivity).
    cbn [map]. rewrite !lincomb_app by first [apply LC|destruct (on (s_jup_orb s)); [cbn [chosen]; rewrite N1; reflexivity|reflexivity]].
    rewrite !lincomb_chosen. assert (P := dpar_pos).
    assert (Z : forall k0 (v : vec), k0 = 0 -> dot v n - dot (moved 0 0 (k0 * ((t / 86400 - 55197) / (36525 / 100))) None true v) n = 0).
    { intros k0 v ->. rewrite Rmult_0_l, moved_0. ring. }
    set (c1 := 9547918983127075 / 10 ^ 19). set (c2 := 28588567008942334 / 10 ^ 20).
    assert (M : forall c k0 f, nth i f 0 = k0 -> lincomb [c] [f] i = c * k0) by (intros c k0 f <-; unfold lincomb; cbn; ring).
    assert (E1 : (if on (s_drift s) then lincomb [k_drift k] [column zs (nth 0 masses (Corrections 0 0 0 0 0 [] [])) None None] i else 0) = 0).
    { destruct (on (s_drift s)); [|reflexivity]. rewrite (M _ _ _ eq_refl), D. ring. }
    assert (Hs : forall a b c d, shift (Corrections 0 a b c d (repeat 0 6) (repeat 0 6)) None None t p n = a * dot (pl_jupiter p) n + b * dot (pl_saturn p) n + c * dot (pl_uranus p) n + d * dot (pl_neptune p) n).
    { intros. unfold shift, pull. cbn [k_jupiter k_saturn k_uranus k_neptune]. ring. }
    assert (E2 : (if on (s_jupiter s) then lincomb [k_jupiter k] [column zs (nth 1 masses (Corrections 0 0 0 0 0 [] [])) None None] i else 0) = - (k_jupiter k * dot (pl_jupiter p) n)).
    { destruct (on (s_jupiter s)) eqn:O; [|rewrite Kj by reflexivity; ring]. rewrite (M _ _ _ (nth_column _ _ _ _ _ _ _ _ E)). cbn [nth masses]. rewrite Z by reflexivity. rewrite Hs. field. exact P. }
    assert (E3 : (if on (s_saturn s) then lincomb [k_saturn k] [column zs (nth 2 masses (Corrections 0 0 0 0 0 [] [])) None None] i else 0) = - (k_saturn k * dot (pl_saturn p) n)).
    { destruct (on (s_saturn s)) eqn:O; [|rewrite Ks by reflexivity; ring]. rewrite (M _ _ _ (nth_column _ _ _ _ _ _ _ _ E)). cbn [nth masses]. rewrite Z by reflexivity. rewrite Hs. field. exact P. }
    assert (E4 : (if on (s_uranus s) then lincomb [k_uranus k] [column zs (nth 3 masses (Corrections 0 0 0 0 0 [] [])) None None] i else 0) = - (k_uranus k * dot (pl_uranus p) n)).
    { destruct (on (s_uranus s)) eqn:O; [|rewrite Ku by reflexivity; ring]. rewrite (M _ _ _ (nth_column _ _ _ _ _ _ _ _ E)). cbn [nth masses]. rewrite Z by reflexivity. rewrite Hs. field. exact P. }
    assert (E5 : (if on (s_neptune s) then lincomb [k_neptune k] [column zs (nth 4 masses (Corrections 0 0 0 0 0 [] [])) None None] i else 0) = - (k_neptune k * dot (pl_neptune p) n)).
    { destruct (on (s_neptune s)) eqn:O; [|rewrite Kn by reflexivity; ring]. rewrite (M _ _ _ (nth_column _ _ _ _ _ _ _ _ E)). cbn [nth masses]. rewrite Z by reflexivity. rewrite Hs. field. exact P. }
    assert (E6 : (if on (s_jup_orb s) then lincomb (k_jup_orb k) (map (fun k0 => let '(c, j, o) := k0 in column zs c j o) (jups jup sat)) i else 0) = - (c1 * pull (k_jup_orb k) (Some jup) (t / 86400) n)).
    { destruct (on (s_jup_orb s)) eqn:O; [|rewrite (pull_zero _ _ _ _ (Ko eq_refl)); ring].
      unfold lincomb, jups. rewrite map_map, combine_map_r, map_map. rewrite <- (pull_unit _ _ _ _ N1 J).
      rewrite Ropp_mult_distr_l. apply sum_scale. intros [a j]. cbn [fst snd]. rewrite (nth_column _ _ _ _ _ _ _ _ E), Z by reflexivity.
      unfold shift. cbn [k_jupiter k_saturn k_uranus k_neptune k_jup_orb k_sat_orb]. fold c1 c2. rewrite (pull_zero (repeat 0 6)) by exact zeros6. field. exact P. }
    assert (E7 : (if on (s_sat_orb s) then lincomb (k_sat_orb k) (map (fun k0 => let '(c, j, o) := k0 in column zs c j o) (sats jup sat)) i else 0) = - (c2 * pull (k_sat_orb k) (Some sat) (t / 86400) n)).
    { destruct (on (s_sat_orb s)) eqn:O; [|rewrite (pull_zero _ _ _ _ (Kp eq_refl)); ring].
      unfold lincomb, sats. rewrite map_map, combine_map_r, map_map. rewrite <- (pull_unit _ _ _ _ N2 S).
      rewrite Ropp_mult_distr_l. apply sum_scale. intros [a j]. cbn [fst snd]. rewrite (nth_column _ _ _ _ _ _ _ _ E), Z by reflexivity.
      unfold shift. cbn [k_jupiter k_saturn k_uranus k_neptune k_jup_orb k_sat_orb]. fold c1 c2. rewrite (pull_zero (repeat 0 6)) by exact zeros6. field. exact P. }
    rewrite E1, E2, E3, E4, E5, E6, E7. unfold shift. fold c1 c2. ring.
Qed.
Lemma spectrum_lem : forall sg, ephem_spectrum sg = map (fun x => x * x) sg.
Proof. intros sg. apply map_ext. intros x. ring. Qed.
