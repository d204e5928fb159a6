(** Proofs about overlap reduction functions. *)
From Coq Require Import Reals ZArith Bool Arith List Lra Lia.
From Verif Require Import PyBase ProofBase ModelBases ModelSpectra ModelOrf ProofBases ProofSpectra.
Import ListNotations.
Open Scope list_scope.
Open Scope R_scope.

Lemma reqb_spec : forall x y, reflect (x = y) (reqb x y).
Proof. intros x y. unfold reqb. destruct (Req_EM_T x y); now constructor. Qed.
Lemma same_pos_spec : forall p q, reflect (p = q) (same_pos p q).
Proof.
  intros [[a b] c] [[x y] z]. cbn. destruct (reqb_spec a x), (reqb_spec b y), (reqb_spec c z); cbn; constructor; congruence.
Qed.
Lemma same_pos_sym : forall p q, same_pos p q = same_pos q p.
Proof. intros p q. destruct (same_pos_spec p q), (same_pos_spec q p); congruence. Qed.
Lemma dot_sym : forall p q, dot p q = dot q p.
Proof. intros [[a b] c] [[x y] z]. cbn. ring. Qed.
Lemma unit_dot : forall p q, dot p p = 1 -> dot q q = 1 -> -1 <= dot p q <= 1.
Proof. intros [[a b] c] [[x y] z]. cbn. intros h1 h2.
  pose proof (pow2_ge_0 (a - x)). pose proof (pow2_ge_0 (b - y)). pose proof (pow2_ge_0 (c - z)).
  pose proof (pow2_ge_0 (a + x)). pose proof (pow2_ge_0 (b + y)). pose proof (pow2_ge_0 (c + z)). split; lra.
Qed.
Lemma unit_dot_one : forall p q, dot p p = 1 -> dot q q = 1 -> dot p q = 1 -> p = q.
Proof.
  intros [[a b] c] [[x y] z]. cbn. intros h1 h2 h3. assert (h : (a - x) ^ 2 + (b - y) ^ 2 + (c - z) ^ 2 = 0) by (cbn; lra).
  
  pose proof (pow2_ge_0 (a - x)). pose proof (pow2_ge_0 (b - y)). pose proof (pow2_ge_0 (c - z)).
  assert (z0 : forall t, t ^ 2 = 0 -> t = 0) by (intros t e; destruct (Req_dec t 0); [assumption|exfalso; apply (pow_nonzero t 2); assumption]).
  assert (a - x = 0) by (apply z0; lra). assert (b - y = 0) by (apply z0; lra). assert (c - z = 0) by (apply z0; lra). f_equal; [f_equal|]; lra.
Qed.

(** ** Symmetry and bounds *)
Lemma orf_symmetric_lem : forall p q,
  hd_orf p q = hd_orf q p /\ dipole_orf p q = dipole_orf q p /\ monopole_orf p q = monopole_orf q p.
Proof. intros p q. unfold hd_orf, dipole_orf, monopole_orf. rewrite (same_pos_sym p q), (dot_sym p q). repeat split. Qed.
Lemma anis_symmetric_lem : forall p q params basis na psrs lmax,
  (forall a i j, (i < length psrs)%nat -> (j < length psrs)%nat -> basis a i j = basis a j i) ->
  anis_orf p q params basis na psrs lmax = anis_orf q p params basis na psrs lmax.
Proof.
  intros p q params basis na psrs lmax h. unfold anis_orf.
  assert (B : forall l p i k, first_at l p k = Ok i -> (i < k + length l)%nat).
  { clear. induction l as [|x l IH]; intros p i k; cbn; [discriminate|]. destruct (same_pos x p); [intros [= <-]; lia|]. intros e. apply IH in e. lia. }
  assert (E : forall l p k e, first_at l p k = Err e -> e = IndexError).
  { clear. induction l as [|x l IH]; intros p k e; cbn; [now intros [= <-]|]. destruct (same_pos x p); [discriminate|apply IH]. }
  destruct (first_at psrs p 0) as [i|e1] eqn:E1, (first_at psrs q 0) as [j|e2] eqn:E2; cbn [rbind]; try reflexivity.
  - apply B in E1, E2. destruct (if Nat.ltb 0 lmax then _ else _) as [rest|]; cbn [rbind]; [|reflexivity]. f_equal.
    assert (G : forall (clm : nat -> R) l z, fold_left (fun s a => s + clm a * basis a i j) l z = fold_left (fun s a => s + clm a * basis a j i) l z).
    { intros clm l. induction l as [|a l IH]; intros z; [reflexivity|]. cbn [fold_left]. rewrite (h a i j) by lia. apply IH. }
    apply (G (fun a => nth a (2 * sqrt PI :: rest) 0)).
  - apply E in E1. apply E in E2. now subst.
Qed.
Lemma xlnx_low : forall x c, 0 < x -> 0 < c -> x * (1 + ln c) - c <= x * ln x.
Proof.
  intros x c hx hc. assert (h : ln (c / x) <= c / x - 1).
  { assert (0 < c / x) by (now apply Rdiv_lt_0_compat). pose proof (exp_ineq1_le (ln (c / x))) as e. rewrite exp_ln in e by assumption. lra. }
  unfold Rdiv in h. rewrite ln_mult, ln_Rinv in h by (try assumption; now apply Rinv_0_lt_compat).
  assert (x * (ln c + - ln x) <= x * (c * / x - 1)) by (apply Rmult_le_compat_l; lra). replace (x * (c * / x - 1)) with (c - x) in H by (field; lra). lra.
Qed.
Lemma ln_nonpos : forall x, 0 < x <= 1 -> ln x <= 0.
Proof. intros x [h1 [h2|h2]]; [left; rewrite <- ln_1; now apply ln_increasing|right; rewrite h2; apply ln_1]. Qed.
Lemma omc2_range : forall p q, dot p p = 1 -> dot q q = 1 -> p <> q -> 0 < (1 - dot p q) / 2 <= 1.
Proof.
  intros p q h1 h2 h. pose proof (unit_dot p q h1 h2). assert (dot p q <> 1) by (intros e; apply h; now apply unit_dot_one). lra.
Qed.
Lemma hd_value : forall p q, p <> q -> hd_orf p q = let x := (1 - dot p q) / 2 in 3 / 2 * x * ln x - 1 / 4 * x + 1 / 2.
Proof. intros p q h. unfold hd_orf. destruct (same_pos_spec p q); [contradiction|reflexivity]. Qed.
Lemma exp_56 : exp (- (5 / 6)) <= 7 / 15.
Proof.
  assert (h : 15 / 7 <= exp (5 / 6)).
  { replace (5 / 6) with (5 / 12 + 5 / 12) by field. rewrite exp_plus. replace (5 / 12) with (5 / 24 + 5 / 24) by field. rewrite exp_plus. replace (5 / 24) with (5 / 48 + 5 / 48) by field. rewrite exp_plus.
    pose proof (exp_ineq1_le (5 / 48)) as e. set (u := exp (5 / 48)) in *. clearbody u. assert (h1 : 1.21 <= u * u) by nra. assert (h2 : 1.464 <= u * u * (u * u)) by nra. nra. }
  rewrite exp_Ropp. apply Rmult_le_reg_l with (exp (5 / 6)); [apply exp_pos|]. rewrite Rinv_r by (apply Rgt_not_eq, exp_pos). lra.
Qed.
Lemma hd_bounds_lem : forall p q, dot p p = 1 -> dot q q = 1 ->
  (p <> q -> 1 / 2 - 3 / 2 * exp (- (5 / 6)) <= hd_orf p q <= 1 / 2) /\ (p = q -> hd_orf p q = 1) /\ - (1 / 5) <= hd_orf p q <= 1.
Proof.
  intros p q h1 h2. assert (A : p <> q -> 1 / 2 - 3 / 2 * exp (- (5 / 6)) <= hd_orf p q <= 1 / 2).
  { intros h. rewrite hd_value by exact h. cbv zeta. pose proof (omc2_range p q h1 h2 h) as r. set (x := (1 - dot p q) / 2) in *. clearbody x. split.
    - pose proof (xlnx_low x (exp (- (5 / 6))) ltac:(lra) (exp_pos _)) as l. rewrite ln_exp in l. lra.
    - pose proof (ln_nonpos x r). nra. }
  assert (B : p = q -> hd_orf p q = 1) by (intros ->; unfold hd_orf; destruct (same_pos_spec q q); [reflexivity|contradiction]).
  split; [exact A|]. split; [exact B|]. destruct (same_pos_spec p q) as [e|e]; [rewrite B by exact e; lra|]. specialize (A e). pose proof exp_56. lra.
Qed.
(** The lower bound is attained. *)
Lemma hd_minimum_lem : exists p q, dot p p = 1 /\ dot q q = 1 /\ p <> q /\ hd_orf p q = 1 / 2 - 3 / 2 * exp (- (5 / 6)).
Proof.
  set (c := exp (- (5 / 6))). assert (hc : 0 < c) by apply exp_pos. assert (hc1 : c <= 7 / 15) by apply exp_56. set (u := 1 - 2 * c).
  assert (hu : 0 <= 1 - u * u) by (unfold u; nra). exists (1, 0, 0), (u, sqrt (1 - u * u), 0).
  assert (ne : (1, 0, 0) <> (u, sqrt (1 - u * u), 0)) by (intros [= e _]; unfold u in e; lra).
  split; [cbn; lra|]. split; [cbn; rewrite sqrt_sqrt by exact hu; lra|]. split; [exact ne|]. rewrite hd_value by exact ne. cbv zeta.
  replace ((1 - dot (1, 0, 0) (u, sqrt (1 - u * u), 0)) / 2) with c by (cbn; unfold u; field). unfold c at 2. rewrite ln_exp. field.
Qed.
Lemma hd_limit_lem : forall eps, 0 < eps -> exists delta, 0 < delta /\
  forall p q, dot p p = 1 -> dot q q = 1 -> p <> q -> 1 - dot p q < delta -> Rabs (hd_orf p q - 1 / 2) < eps.
Proof.
  intros eps he. set (y := Rmin 1 (eps / 4)). assert (hy : 0 < y <= 1) by (unfold y; split; [apply Rmin_glb_lt; lra|apply Rmin_l]). assert (hy2 : y <= eps / 4) by apply Rmin_r.
  exists (2 * (y * y)). split; [nra|]. intros p q h1 h2 h hd. rewrite hd_value by exact h. cbv zeta. pose proof (omc2_range p q h1 h2 h) as r. set (x := (1 - dot p q) / 2) in *.
  assert (hx : x < y * y) by (unfold x; lra). clearbody x. pose proof (ln_nonpos x r) as l.
  assert (hs : 0 < sqrt x) by (apply sqrt_lt_R0; lra). assert (hss : sqrt x * sqrt x = x) by (apply sqrt_sqrt; lra).
  assert (hsy : sqrt x < y) by (apply Rsqr_incrst_0; unfold Rsqr; lra).
  assert (k : - (2 * sqrt x) <= x * ln x).
  { assert (e : ln x = 2 * ln (sqrt x)) by (rewrite <- hss at 1; rewrite ln_mult by assumption; ring). rewrite e.
    pose proof (xlnx_low (sqrt x) 1 hs ltac:(lra)) as b. rewrite ln_1 in b. assert (b2 : sqrt x * ln (sqrt x) >= - 1) by lra.
    set (s := sqrt x) in *. clearbody s. set (m := ln s) in *. clearbody m. clear e l. rewrite <- hss. replace (s * s * (2 * m)) with (2 * s * (s * m)) by ring. nra. }
  assert (x <= sqrt x) by nra. assert (x * ln x <= 0) by nra. apply Rabs_def1; nra.
Qed.
Lemma orf_diagonal_lem : forall p, hd_orf p p = 1 /\ dipole_orf p p = 1 + / 100000 /\ monopole_orf p p = 1 + / 100000.
Proof. intros p. unfold hd_orf, dipole_orf, monopole_orf. destruct (same_pos_spec p p); [repeat split|contradiction]. Qed.
Lemma orf_distinct_lem : forall p q, p <> q -> dipole_orf p q = dot p q /\ monopole_orf p q = 1.
Proof. intros p q h. unfold dipole_orf, monopole_orf. destruct (same_pos_spec p q); [contradiction|split; reflexivity]. Qed.
Lemma anis_isotropic_lem : forall p q params basis na psrs i j, (1 <= na)%nat -> NoDup psrs -> nth_error psrs i = Some p -> nth_error psrs j = Some q ->
  anis_orf p q params basis na psrs 0 = Ok (2 * sqrt PI * basis 0%nat i j).
Proof.
  intros p q params basis na psrs i j hn nd hi hj.
  assert (F : forall l p i k, NoDup l -> nth_error l i = Some p -> first_at l p k = Ok (k + i)%nat).
  { clear. induction l as [|x l IH]; intros p [|i] k nd h; try discriminate; cbn in *.
    - injection h as ->. destruct (same_pos_spec p p); [f_equal; lia|contradiction].
    - inversion nd; subst. destruct (same_pos_spec x p); [subst; exfalso; apply nth_error_In in h; contradiction|]. rewrite (IH p i) by assumption. f_equal. lia. }
  unfold anis_orf. rewrite (F _ _ i), (F _ _ j) by assumption. cbn [rbind Nat.ltb Nat.leb]. cbv zeta. rewrite Nat.min_l by lia. cbn. f_equal. ring.
Qed.

(** ** Correlation matrices *)
(** [sum_a sum_b x_a x_b orf(p_a, p_b)] for coefficients [x] at positions [p] *)
Definition form (orf : vec -> vec -> R) (l : list (R * vec)) : R :=
  rsum (map (fun a => rsum (map (fun b => fst a * fst b * orf (snd a) (snd b)) l)) l).
Lemma rsum_plus {X} : forall (f g : X -> R) l, rsum (map (fun x => f x + g x) l) = rsum (map f l) + rsum (map g l).
Proof. intros f g l. induction l as [|x l IH]; cbn; [ring|]. unfold rsum in IH. rewrite IH. ring. Qed.
Lemma rsum_scal {X} : forall c (f : X -> R) l, rsum (map (fun x => c * f x) l) = c * rsum (map f l).
Proof. intros c f l. induction l as [|x l IH]; cbn; [ring|]. unfold rsum in IH. rewrite IH. ring. Qed.
Lemma rsum_zero {X} : forall (f : X -> R) l, (forall x, In x l -> f x = 0) -> rsum (map f l) = 0.
Proof. intros f l h. induction l as [|x l IH]; cbn; [reflexivity|]. unfold rsum in IH. rewrite IH by (intros; apply h; now right). rewrite h by now left. ring. Qed.
Lemma rsum_pos {X} : forall (f : X -> R) l, (forall x, In x l -> 0 <= f x) -> 0 <= rsum (map f l).
Proof. intros f l h. induction l as [|x l IH]; cbn; [lra|]. specialize (IH ltac:(intros; apply h; now right)). specialize (h x ltac:(now left)). unfold rsum in IH. lra. Qed.
Lemma rsum_pos_strict {X} : forall (f : X -> R) l a, (forall x, In x l -> 0 <= f x) -> In a l -> 0 < f a -> 0 < rsum (map f l).
Proof.
  intros f l a h i p. induction l as [|x l IH]; [destruct i|]. cbn. pose proof (rsum_pos f l ltac:(intros; apply h; now right)) as q. unfold rsum in *. destruct i as [->|i]; [lra|].
  specialize (IH ltac:(intros; apply h; now right) i). specialize (h x ltac:(now left)). lra.
Qed.
(** A product kernel plus a diagonal. *)
Lemma form_split : forall (orf k : vec -> vec -> R) (d : vec -> R) l, NoDup (map snd l) ->
  (forall p q, In p (map snd l) -> In q (map snd l) -> orf p q = k p q + if same_pos p q then d p else 0) ->
  form orf l = form k l + rsum (map (fun a => d (snd a) * (fst a) ^ 2) l).
Proof.
  intros orf k d l nd h. unfold form. rewrite <- rsum_plus. apply rsum_ext. intros a ia.
  transitivity (rsum (map (fun b => fst a * fst b * k (snd a) (snd b) + fst a * fst b * (if same_pos (snd a) (snd b) then d (snd a) else 0)) l)).
  { apply rsum_ext. intros b ib. rewrite h by (now apply in_map). ring. }
  rewrite rsum_plus. f_equal. clear h. revert nd ia. induction l as [|c l IH]; intros nd ia; [destruct ia|]. cbn [map] in *. inversion nd; subst. cbn [rsum fold_right]. destruct ia as [->|ia].
  - destruct (same_pos_spec (snd a) (snd a)); [|contradiction]. fold (rsum (map (fun b => fst a * fst b * (if same_pos (snd a) (snd b) then d (snd a) else 0)) l)).
    rewrite rsum_zero; [ring|]. intros b ib. destruct (same_pos_spec (snd a) (snd b)) as [eb|]; [|ring]. exfalso. apply H1. rewrite eb. now apply in_map.
  - destruct (same_pos_spec (snd a) (snd c)) as [e|]; [exfalso; apply H1; rewrite <- e; now apply in_map|]. specialize (IH H2 ia). unfold rsum in IH. rewrite IH. ring.
Qed.
Lemma monopole_positive_lem : forall l, NoDup (map snd l) -> (exists a, In a l /\ fst a <> 0) -> 0 < form monopole_orf l.
Proof.
  intros l nd [a [ia ha]]. rewrite (form_split monopole_orf (fun _ _ => 1) (fun _ => / 100000)) by (try exact nd; intros p q _ _; unfold monopole_orf; destruct (same_pos p q); ring).
  assert (e : form (fun _ _ => 1) l = rsum (map fst l) * rsum (map fst l)).
  { unfold form. rewrite <- rsum_scal. apply rsum_ext. intros b _. rewrite Rmult_comm, <- rsum_scal. apply rsum_ext. intros c _. ring. }
  rewrite e. apply Rplus_le_lt_0_compat; [apply Rle_0_sqr|]. apply (rsum_pos_strict _ _ a); [|exact ia|].
  - intros x _. apply Rmult_le_pos; [lra|apply pow2_ge_0].
  - apply Rmult_lt_0_compat; [lra|]. rewrite <- Rsqr_pow2. now apply Rsqr_pos_lt.
Qed.
Lemma dipole_positive_lem : forall l, NoDup (map snd l) -> (forall a, In a l -> dot (snd a) (snd a) = 1) -> (exists a, In a l /\ fst a <> 0) -> 0 < form dipole_orf l.
Proof.
  intros l nd un [a [ia ha]]. rewrite (form_split dipole_orf dot (fun _ => / 100000)); [|exact nd|].
  - assert (e : form dot l = rsum (map (fun a => fst a * fst (fst (snd a))) l) ^ 2 + rsum (map (fun a => fst a * snd (fst (snd a))) l) ^ 2 + rsum (map (fun a => fst a * snd (snd a)) l) ^ 2).
    { unfold form. transitivity (rsum (map (fun a => fst a * fst (fst (snd a)) * rsum (map (fun b => fst b * fst (fst (snd b))) l) + fst a * snd (fst (snd a)) * rsum (map (fun b => fst b * snd (fst (snd b))) l) + fst a * snd (snd a) * rsum (map (fun b => fst b * snd (snd b)) l)) l)).
      - apply rsum_ext. intros [x [[p q] r]] _. cbn [fst snd]. rewrite <- !rsum_scal, <- !rsum_plus. apply rsum_ext. intros [y [[u v] w]] _. cbn. ring.
      - rewrite !rsum_plus. assert (c : forall (f : R * vec -> R) s, rsum (map (fun a => f a * s) l) = s * rsum (map f l)) by (intros f s; rewrite <- rsum_scal; apply rsum_ext; intros; ring). rewrite (c (fun a => fst a * fst (fst (snd a)))), (c (fun a => fst a * snd (fst (snd a)))), (c (fun a => fst a * snd (snd a))). unfold vec in *. ring. }
    rewrite e. apply Rplus_le_lt_0_compat.
    + repeat apply Rplus_le_le_0_compat; apply pow2_ge_0.
    + apply (rsum_pos_strict _ _ a); [|exact ia|].
      * intros x _. apply Rmult_le_pos; [lra|apply pow2_ge_0].
      * apply Rmult_lt_0_compat; [lra|]. rewrite <- Rsqr_pow2. now apply Rsqr_pos_lt.
  - intros p q hp hq. unfold dipole_orf. destruct (same_pos_spec p q) as [->|]; [|ring]. apply in_map_iff in hq. destruct hq as [b [<- ib]]. rewrite un by exact ib. reflexivity.
Qed.
Lemma same_position_singular_lem : forall (orf : vec -> vec -> R) ps i j p, (i < j)%nat -> nth_error ps i = Some p -> nth_error ps j = Some p ->
  exists x : nat -> R, x i <> 0 /\ forall q, rsum (map (fun k => orf q (nth k ps (0, 0, 0)) * x k) (seq 0 (length ps))) = 0.
Proof.
  intros orf ps i j p hij hi hj. exists (fun k => if Nat.eqb k i then 1 else if Nat.eqb k j then -1 else 0). split; [rewrite Nat.eqb_refl; lra|]. intros q.
  assert (li : (i < length ps)%nat) by (apply nth_error_Some; congruence). assert (lj : (j < length ps)%nat) by (apply nth_error_Some; congruence).
  apply nth_error_nth with (d := (0, 0, 0)) in hi, hj.
  transitivity (rsum (map (fun k => (if Nat.eqb k i then orf q p else 0) + (if Nat.eqb k j then - orf q p else 0)) (seq 0 (length ps)))).
  { apply rsum_ext. intros k _. destruct (Nat.eqb_spec k i) as [->|]; [rewrite hi; destruct (Nat.eqb_spec i j); [lia|ring]|]. destruct (Nat.eqb_spec k j) as [->|]; [rewrite hj; ring|ring]. }
  rewrite rsum_plus. assert (S1 : forall v m n, (m < n)%nat -> rsum (map (fun k => if Nat.eqb k m then v else 0) (seq 0 n)) = v).
  { intros v m n. revert m. induction n as [|n IH]; intros m h; [lia|]. rewrite sum_seq. destruct m as [|m]; [rewrite rsum_zero; [cbn; ring|reflexivity]|]. cbn [Nat.eqb]. rewrite IH by lia. ring. }
  rewrite !S1 by assumption. ring.
Qed.

(** ** The ephemeris basis *)
Lemma row_triples : forall (p q : list R) w a b, length a = length w -> length b = length w -> length p = 3%nat -> length q = 3%nat ->
  wsum (rep 3 w) (flat_map (fun x => map (fun c => x * c) p) a) (flat_map (fun x => map (fun c => x * c) q) b)
  = dot (nth 0 p 0, nth 1 p 0, nth 2 p 0) (nth 0 q 0, nth 1 q 0, nth 2 q 0) * wsum w a b.
Proof.
  intros p q w a b la lb lp lq. destruct p as [|p0 [|p1 [|p2 [|]]]]; try discriminate. destruct q as [|q0 [|q1 [|q2 [|]]]]; try discriminate. cbn [nth].
  revert a b la lb. induction w as [|x w IH]; intros [|y a] [|z b] la lb; try discriminate; [cbn; ring|].
  change (rep 3 (x :: w)) with (x :: x :: x :: rep 3 w). cbn [flat_map map app wsum]. rewrite IH by (cbn in *; lia). cbn [dot]. ring.
Qed.
Lemma rep_rep : forall (v : list R), rep 6 v = rep 3 (rep 2 v).
Proof. induction v as [|x v IH]; [reflexivity|]. rewrite rep2_cons. change (rep 6 (x :: v)) with (x :: x :: x :: x :: x :: x :: rep 6 v). rewrite IH. reflexivity. Qed.
Lemma red_default : forall (S : Type) (seeded : Z -> S) next toas n T (s : S),
  let o := Opts n (Some T) false None None None false None in
  create_red seeded next toas o s = (Ok (map (fourier_row (frequencies o T) (repeat 0 n)) toas, rep 2 (frequencies o T)), s).
Proof. reflexivity. Qed.
Lemma ephemeris_dipole_lem : forall (S : Type) (seeded : Z -> S) next toas1 toas2 a b c x y z n T log10_A gamma s1 s2,
  exists F1 F2 G1 G2 ff gg phi psi,
  create_ephem seeded next toas1 [a; b; c] n (Some T) s1 = (Ok (F1, ff), s1) /\ create_ephem seeded next toas2 [x; y; z] n (Some T) s2 = (Ok (F2, ff), s2) /\
  create_red seeded next toas1 (Opts n (Some T) false None None None false None) s1 = (Ok (G1, gg), s1) /\
  create_red seeded next toas2 (Opts n (Some T) false None None None false None) s2 = (Ok (G2, gg), s2) /\
  powerlaw ff log10_A gamma 6 = Ok phi /\ powerlaw gg log10_A gamma 2 = Ok psi /\
  forall i k, (i < length toas1)%nat -> (k < length toas2)%nat ->
  wsum phi (nth i F1 []) (nth k F2 []) = dot (a, b, c) (x, y, z) * wsum psi (nth i G1 []) (nth k G2 []).
Proof.
  intros S seeded next toas1 toas2 a b c x y z n T A gam s1 s2. unfold create_ephem. rewrite !red_default. set (f := frequencies _ _). cbn [fst snd rbind length Nat.eqb].
  do 8 eexists. do 4 (split; [reflexivity|]). rewrite evens_rep. split; [apply powerlaw_rep; lia|]. split; [apply powerlaw_rep; lia|].
  intros i k hi hk. rewrite !map_map, !(nth_map_in _ _ _ [] 0) by assumption. rewrite rep_rep.
  assert (L : forall fs ps t, length ps = length fs -> length (fourier_row fs ps t) = (2 * length fs)%nat).
  { intros fs ps t. unfold fourier_row. revert ps. induction fs as [|g fs IH]; intros [|p ps] e; try discriminate; [reflexivity|]. cbn in *. rewrite IH; lia. }
  assert (lf : length f = n) by (unfold f; now rewrite frequencies_length).
  rewrite row_triples; try reflexivity; rewrite L, rep_length, spec_length; try reflexivity; now rewrite repeat_length.
Qed.
Lemma ephemeris_position_lem : forall (S : Type) (seeded : Z -> S) next toas pos n T s, length pos <> 3%nat -> length pos <> 1%nat ->
  fst (create_ephem seeded next toas pos n (Some T) s) = Err ValueError.
Proof. 
  intros S seeded next toas pos n T s h h1. unfold create_ephem. rewrite red_default. cbn [fst snd rbind]. apply Nat.eqb_neq in h.
  destruct pos as [|p [|q pos]]; [reflexivity|contradiction h1; reflexivity|]. now rewrite h.
 Qed.

Lemma fold_sum_from : forall (f : nat -> R) l s, fold_left (fun s a => s + f a) l s = s + rsum (map f l).
Proof. intros f l. induction l as [|a l IH]; intros s; cbn [fold_left]; [cbn; ring|]. rewrite IH. unfold rsum. cbn [map fold_right]. ring. Qed.
Lemma first_at_nth : forall l p i k, NoDup l -> nth_error l i = Some p -> first_at l p k = Ok (k + i)%nat.
Proof.
  induction l as [|x l IH]; intros p [|i] k nd h; try discriminate; cbn in *.
  - injection h as ->. destruct (same_pos_spec p p); [f_equal; lia|contradiction].
  - inversion nd; subst. destruct (same_pos_spec x p); [subst; exfalso; apply nth_error_In in h; contradiction|]. rewrite (IH p i) by assumption. f_equal. lia.
Qed.
Lemma anis_value_lem : forall p q params basis na psrs lmax i j, (1 <= lmax)%nat -> NoDup psrs -> nth_error psrs i = Some p -> nth_error psrs j = Some q ->
  let n := ((lmax + 1) * (lmax + 1))%nat in (n <= na)%nat ->
  (length params = (n - 1)%nat -> anis_orf p q params basis na psrs lmax =
     Ok (2 * sqrt PI * basis 0%nat i j + rsum (map (fun a => nth a params 0 * basis (S a) i j) (seq 0 (n - 1))))) /\
  (forall x, params = [x] -> anis_orf p q params basis na psrs lmax = Ok (2 * sqrt PI * basis 0%nat i j + x * rsum (map (fun a => basis (S a) i j) (seq 0 (n - 1))))) /\
  (length params <> (n - 1)%nat -> length params <> 1%nat -> anis_orf p q params basis na psrs lmax = Err ValueError).
Proof.
  intros p q params basis na psrs lmax i j Hl N Hi Hj n Hn.
  assert (F : forall m x, nth_error psrs m = Some x -> first_at psrs x 0 = Ok m) by (intros m x Hx; now rewrite (first_at_nth psrs x m 0)).
  assert (Hn1 : (1 < n)%nat) by (unfold n; nia).
  assert (G : forall rest, (length rest = n - 1)%nat -> fold_left (fun s a => s + nth a (2 * sqrt PI :: rest) 0 * basis a i j) (seq 0 (Nat.min n na)) 0 = 2 * sqrt PI * basis 0%nat i j + rsum (map (fun a => nth a rest 0 * basis (S a) i j) (seq 0 (n - 1)))).
  { intros rest Hr. rewrite Nat.min_l by exact Hn. destruct n as [|m]; [lia|]. cbn [seq fold_left]. rewrite fold_sum_from. replace (S m - 1)%nat with m by lia. rewrite <- seq_shift, map_map. cbn [nth]. ring. }
  assert (L : Nat.ltb 0 lmax = true) by (apply Nat.ltb_lt; lia).
  unfold anis_orf. rewrite (F i p Hi), (F j q Hj). cbn [rbind]. fold n. rewrite L. unfold fill. split; [|split].
  - intros E. rewrite E, Nat.eqb_refl. cbn [rbind]. now rewrite G.
  - intros x ->. destruct (Nat.eqb_spec (length [x]) (n - 1)) as [E|E]; cbn [rbind].
    + rewrite G by exact E. cbn in E. rewrite <- E. unfold rsum. cbn. do 2 f_equal. ring.
    + rewrite G by apply repeat_length. do 2 f_equal. rewrite <- rsum_scal. apply rsum_ext. intros a Ha. apply in_seq in Ha. rewrite (nth_indep _ 0 x) by (rewrite repeat_length; lia). now rewrite nth_repeat.
  - intros E1 E2. destruct (Nat.eqb_spec (length params) (n - 1)); [contradiction|]. destruct params as [|x [|y r]]; cbn in *; [reflexivity|lia|reflexivity].
Qed.
