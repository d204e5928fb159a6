(** Proofs about Fourier bases. *)
From Coq Require Import Reals ZArith String Bool Arith List Lra Lia.
From Verif Require Import PyBase ProofBase ModelBases.
Import ListNotations.
Open Scope list_scope.
Open Scope R_scope.

Definition rsum (l : list R) : R := fold_right Rplus 0 l.
(** [sum_j w_j a_j b_j] *)
Fixpoint wsum (w a b : list R) : R :=
  match w, a, b with x :: w', y :: a', z :: b' => x * y * z + wsum w' a' b' | _, _, _ => 0 end.

(** ** Lists *)
Lemma rsum_ext {X} : forall (f g : X -> R) l, (forall x, In x l -> f x = g x) -> rsum (map f l) = rsum (map g l).
Proof. intros f g l h. f_equal. now apply map_ext_in. Qed.
Lemma sum_seq : forall (g : nat -> R) n, rsum (map g (seq 0 (S n))) = g 0%nat + rsum (map (fun i => g (S i)) (seq 0 n)).
Proof. intros g n. cbn [seq map rsum fold_right]. f_equal. now rewrite <- seq_shift, map_map. Qed.
Lemma rep_length {X} : forall c (l : list X), length (rep c l) = (c * length l)%nat.
Proof. intros c l. induction l as [|x l IH]; cbn; [lia|]. rewrite app_length, repeat_length. unfold rep in IH. rewrite IH. lia. Qed.
Lemma rep2_cons {X} : forall (x : X) l, rep 2 (x :: l) = x :: x :: rep 2 l.
Proof. reflexivity. Qed.
Lemma rep2_firstn {X} : forall m (l : list X), rep 2 (firstn m l) = firstn (2 * m) (rep 2 l).
Proof.
  intros m l. revert m. induction l as [|x l IH]; intros m; [now rewrite firstn_nil, firstn_nil|].
  destruct m; [reflexivity|]. replace (2 * S m)%nat with (S (S (2 * m))) by lia. cbn [firstn]. rewrite !rep2_cons. cbn [firstn]. now rewrite <- IH.
Qed.
Lemma rep2_nth {X} : forall (l : list X) i d, nth (2 * i) (rep 2 l) d = nth i l d /\ nth (2 * i + 1) (rep 2 l) d = nth i l d.
Proof.
  intros l. induction l as [|x l IH]; intros i d.
  - assert (E : forall k, nth k (@nil X) d = d) by (intros [|k]; reflexivity). cbn [rep flat_map]. rewrite !E. split; reflexivity.
  - rewrite rep2_cons. destruct i; [split; reflexivity|]. replace (2 * S i)%nat with (S (S (2 * i))) by lia. replace (S (S (2 * i)) + 1)%nat with (S (S (2 * i + 1))) by lia.
    cbn [nth]. apply IH.
Qed.
Lemma pairs_rep {X} : forall (l : list X) n d, length l = (2 * n)%nat ->
  (forall i, (i < n)%nat -> nth (2 * i) l d = nth (2 * i + 1) l d) -> l = rep 2 (evens l).
Proof.
  intros l n d. revert l. induction n as [|n IH]; intros l e h.
  - destruct l; [reflexivity|discriminate].
  - destruct l as [|x [|y l]]; try (cbn in e; lia). cbn [evens]. rewrite rep2_cons. assert (h0 : x = y) by apply (h 0%nat ltac:(lia)). subst y. do 2 f_equal.
    apply IH; [cbn in e; lia|]. intros i hi. specialize (h (S i) ltac:(lia)). replace (2 * S i)%nat with (S (S (2 * i))) in h by lia.
    replace (S (S (2 * i)) + 1)%nat with (S (S (2 * i + 1))) in h by lia. exact h.
Qed.
Lemma evens_rep {X} : forall l : list X, evens (rep 2 l) = l.
Proof. induction l as [|x l IH]; [reflexivity|]. rewrite rep2_cons. cbn [evens]. now rewrite IH. Qed.
Lemma evens_length {X} : forall n (l : list X), length l = (2 * n)%nat -> length (evens l) = n.
Proof. induction n as [|n IH]; intros [|x [|y l]] e; cbn in e; try lia; [reflexivity|]. cbn [evens length]. rewrite IH; lia. Qed.
Lemma evens_nth {X} : forall n (l : list X) i d, length l = (2 * n)%nat -> nth i (evens l) d = nth (2 * i) l d.
Proof.
  induction n as [|n IH]; intros [|x [|y l]] i d e; cbn in e; try lia; [destruct i; cbn; [reflexivity|now destruct i]|].
  destruct i; [reflexivity|]. replace (2 * S i)%nat with (S (S (2 * i))) by lia. cbn [evens nth]. apply IH. lia.
Qed.

(** ** Rows *)
Lemma row_cons : forall f fs p ps t, fourier_row (f :: fs) (p :: ps) t = sin (2 * PI * t * f + p) :: cos (2 * PI * t * f + p) :: fourier_row fs ps t.
Proof. reflexivity. Qed.
Lemma row_length : forall fs ps t, length ps = length fs -> length (fourier_row fs ps t) = (2 * length fs)%nat.
Proof. induction fs as [|f fs IH]; intros [|p ps] t e; try discriminate; [reflexivity|]. rewrite row_cons. cbn [length]. rewrite IH; cbn in e; lia. Qed.
Lemma row_nth : forall fs ps t i, length ps = length fs -> (i < length fs)%nat ->
  nth (2 * i) (fourier_row fs ps t) 0 = sin (2 * PI * t * nth i fs 0 + nth i ps 0) /\
  nth (2 * i + 1) (fourier_row fs ps t) 0 = cos (2 * PI * t * nth i fs 0 + nth i ps 0).
Proof.
  induction fs as [|f fs IH]; intros [|p ps] t i e hi; try discriminate; [cbn in hi; lia|]. rewrite row_cons. destruct i; [split; reflexivity|].
  replace (2 * S i)%nat with (S (S (2 * i))) by lia. replace (S (S (2 * i)) + 1)%nat with (S (S (2 * i + 1))) by lia. cbn [nth]. apply IH; cbn in e, hi; lia.
Qed.
Lemma row_firstn : forall m fs ps t, fourier_row (firstn m fs) (firstn m ps) t = firstn (2 * m) (fourier_row fs ps t).
Proof.
  induction m as [|m IH]; intros [|f fs] [|p ps] t; try reflexivity. replace (2 * S m)%nat with (S (S (2 * m))) by lia. cbn [firstn]. rewrite !row_cons. cbn [firstn]. now rewrite IH.
Qed.
Lemma row_sum : forall v fs ps qs t u, length fs = length v -> length ps = length v -> length qs = length v ->
  wsum (rep 2 v) (fourier_row fs ps t) (fourier_row fs qs u)
  = rsum (map (fun j => nth j v 0 * cos (2 * PI * nth j fs 0 * (t - u) + (nth j ps 0 - nth j qs 0))) (seq 0 (length v))).
Proof.
  induction v as [|x v IH]; intros [|f fs] [|p ps] [|q qs] t u e1 e2 e3; try discriminate; [reflexivity|].
  rewrite rep2_cons, !row_cons. cbn [wsum length]. rewrite sum_seq. cbn [nth]. rewrite IH by (cbn in *; lia). rewrite <- Rplus_assoc. f_equal.
  replace (2 * PI * f * (t - u) + (p - q)) with ((2 * PI * t * f + p) - (2 * PI * u * f + q)) by ring. rewrite cos_minus. ring.
Qed.

(** ** Draws *)
Section Draws.
Context {S : Type}.
Variable seeded : Z -> S.
Variable next : S -> R * S.
Lemma draws_length : forall n s, length (fst (draws next n s)) = n.
Proof. induction n as [|n IH]; intros s; cbn [draws]; [reflexivity|]. destruct (next s) as [u s1]. specialize (IH s1). destruct (draws next n s1). cbn in *. lia. Qed.
Lemma draws_firstn : forall m n s, (m <= n)%nat -> fst (draws next m s) = firstn m (fst (draws next n s)).
Proof.
  induction m as [|m IH]; intros n s h; [reflexivity|]. destruct n; [lia|]. cbn [draws]. destruct (next s) as [u s1]. specialize (IH n s1 ltac:(lia)).
  destruct (draws next m s1), (draws next n s1). cbn in *. now rewrite IH.
Qed.
Lemma uniform_length : forall a b n s, length (fst (uniform next a b n s)) = n.
Proof. intros a b n s. unfold uniform. pose proof (draws_length n s) as e. destruct (draws next n s). cbn in *. now rewrite map_length. Qed.
Lemma uniform_firstn : forall a b m n s, (m <= n)%nat -> fst (uniform next a b m s) = firstn m (fst (uniform next a b n s)).
Proof. intros a b m n s h. unfold uniform. pose proof (draws_firstn m n s h) as e. destruct (draws next m s), (draws next n s). cbn in *. now rewrite firstn_map, e. Qed.

Lemma phases_length : forall o toas n s ph s', phases seeded next o toas n s = (Ok ph, s') -> length ph = n.
Proof.
  intros o toas n s ph s'. unfold phases. destruct (o_pseed o) as [p|].
  - destruct toas as [|t0 toas]; [discriminate|]. pose proof (uniform_length 0 (2 * PI) n (seeded (trunc (t0 / 17) + p))) as e. destruct (uniform _ _ _ _ _). intros [= <- _]. exact e.
  - destruct (o_pshift o); [|intros [= <- _]; apply repeat_length]. pose proof (uniform_length 0 (2 * PI) n s) as e. destruct (uniform _ _ _ _ _). intros [= <- _]. exact e.
Qed.
Lemma repeat_firstn {X} : forall (x : X) m n, (m <= n)%nat -> repeat x m = firstn m (repeat x n).
Proof. induction m as [|m IH]; intros [|n] h; try lia; [reflexivity|reflexivity|]. cbn. now rewrite <- IH by lia. Qed.
Lemma phases_firstn : forall o o' toas m n s ph s', (m <= n)%nat -> o_pshift o' = o_pshift o -> o_pseed o' = o_pseed o ->
  phases seeded next o toas n s = (Ok ph, s') -> exists s'', phases seeded next o' toas m s = (Ok (firstn m ph), s'').
Proof.
  intros o o' toas m n s ph s' h e1 e2. unfold phases. rewrite e1, e2. destruct (o_pseed o) as [p|].
  - destruct toas as [|t0 toas]; [discriminate|]. pose proof (uniform_firstn 0 (2 * PI) m n (seeded (trunc (t0 / 17) + p)) h) as e.
    destruct (uniform _ _ _ m _) as [l1 s1], (uniform _ _ _ n _) as [l2 s2]. cbn in e. intros [= <- _]. exists s1. now rewrite e.
  - destruct (o_pshift o); [|intros [= <- _]; exists s; now rewrite <- repeat_firstn].
    pose proof (uniform_firstn 0 (2 * PI) m n s h) as e.
    destruct (uniform _ _ _ m _) as [l1 s1], (uniform _ _ _ n _) as [l2 s2]. cbn in e. intros [= <- _]. exists s1. now rewrite e.
Qed.

Lemma frequencies_length : forall o T, o_modes o = None -> length (frequencies o T) = o_nmodes o.
Proof.
  intros o T e. unfold frequencies. rewrite e.
  assert (L : forall a b n, length (linspace a b n) = n).
  { intros a b [|[|n]]; [reflexivity|reflexivity|]. unfold linspace. now rewrite map_length, seq_length. }
  destruct (o_fmin o), (o_fmax o), (o_logf o); unfold logspace; rewrite ?map_length, ?L, ?seq_length; reflexivity.
Qed.
(** What a successful call returns. *)
Lemma red_inv : forall toas o s F ff s', create_red seeded next toas o s = (Ok (F, ff), s') ->
  exists T f ph, (o_Tspan o = Some T \/ o_Tspan o = None /\ extent toas = Ok T) /\
  f = frequencies o T /\ length ph = length f /\
  phases seeded next o toas (length f) s = (Ok ph, s') /\ (forall l, o_modes o <> Some (PyList l)) /\
  F = map (fourier_row f ph) toas /\ ff = rep 2 f.
Proof.
  intros toas o s F ff s'. unfold create_red.
  destruct (match o_Tspan o with Some T => Ok T | None => extent toas end) as [T|] eqn:E; [|discriminate]. cbv zeta.
  assert (en : match o_modes o with Some _ => length (frequencies o T) | None => o_nmodes o end = length (frequencies o T)).
  { destruct (o_modes o) eqn:E'; [reflexivity|]. symmetry. now apply frequencies_length. }
  rewrite en. destruct (phases seeded next o toas _ s) as [[ph|] s1] eqn:EP; [|discriminate].
  intros h. exists T, (frequencies o T), ph. split; [destruct (o_Tspan o) as [T0|]; [left; congruence|right; now split]|]. split; [reflexivity|].
  split; [now apply phases_length in EP|].
  destruct (o_modes o) as [[l|l]|]; try discriminate; injection h as <- <- <-; repeat split; auto; discriminate.
Qed.
End Draws.

(** ** Shape and entries *)
Lemma nth_map_in {X Y} : forall (g : X -> Y) l k d d', (k < length l)%nat -> nth k (map g l) d = g (nth k l d').
Proof. intros g l. induction l as [|x l IH]; intros k d d' h; [cbn in h; lia|]. destruct k; [reflexivity|]. cbn. apply IH. cbn in h. lia. Qed.
Definition nmodes_of (o : opts) : nat :=
  match o_modes o with Some (NpArray l) | Some (PyList l) => length l | None => o_nmodes o end.
Lemma frequencies_count : forall o T, length (frequencies o T) = nmodes_of o.
Proof.
  intros o T. unfold nmodes_of. destruct (o_modes o) as [[l|l]|] eqn:E; [unfold frequencies; now rewrite E|unfold frequencies; now rewrite E|now apply frequencies_length].
Qed.
Lemma phases_none : forall (S : Type) (seeded : Z -> S) next o toas n s ph s', o_pshift o = false -> o_pseed o = None ->
  phases seeded next o toas n s = (Ok ph, s') -> ph = repeat 0 n /\ s' = s.
Proof. intros S seeded next o toas n s ph s' e1 e2. unfold phases. rewrite e1, e2. intros [= <- <-]. now split. Qed.
Lemma nth_repeat0 : forall i n, nth i (repeat 0 n) 0 = 0.
Proof. intros i n. revert i. induction n; intros [|i]; cbn; auto. Qed.
Lemma basis_shape_lem : forall (S : Type) (seeded : Z -> S) next toas o s F ff s',
  create_red seeded next toas o s = (Ok (F, ff), s') ->
  let n := match o_modes o with Some (NpArray l) | Some (PyList l) => length l | None => o_nmodes o end in
  length F = length toas /\ length ff = (2 * n)%nat /\
  (forall i, (i < n)%nat -> nth (2 * i) ff 0 = nth (2 * i + 1) ff 0) /\
  exists ph, length ph = n /\ (o_pshift o = false -> o_pseed o = None -> ph = repeat 0 n) /\
  forall k, (k < length toas)%nat -> length (nth k F []) = (2 * n)%nat /\
  forall i, (i < n)%nat ->
  nth (2 * i) (nth k F []) 0 = sin (2 * PI * nth k toas 0 * nth (2 * i) ff 0 + nth i ph 0) /\
  nth (2 * i + 1) (nth k F []) 0 = cos (2 * PI * nth k toas 0 * nth (2 * i) ff 0 + nth i ph 0).
Proof.
  intros S seeded next toas o s F ff s' h n. apply red_inv in h. destruct h as [T [f [ph [_ [ef [ep [hp [_ [eF eff]]]]]]]]].
  assert (en : length f = n) by (subst f; apply frequencies_count). clearbody n. subst ff F.
  rewrite map_length, rep_length, en. split; [reflexivity|]. split; [reflexivity|]. split; [intros i _; now destruct (rep2_nth f i 0) as [-> ->]|].
  exists ph. split; [congruence|]. split; [intros a b; rewrite en in hp; now apply (phases_none _ seeded next o toas n s ph s')|].
  intros k hk. rewrite (nth_map_in _ _ _ _ 0) by exact hk. split; [rewrite row_length by exact ep; now rewrite en|].
  intros i hi. destruct (rep2_nth f i 0) as [-> _]. apply row_nth; congruence.
Qed.
Lemma extent_spec_lem : forall toas T, extent toas = Ok T ->
  exists a b, In a toas /\ In b toas /\ (forall t, In t toas -> a <= t <= b) /\ T = b - a.
Proof.
  intros [|t l] T; [discriminate|]. intros [= <-].
  assert (M : forall l t, (In (fold_left Rmax l t) (t :: l)) /\ forall u, In u (t :: l) -> u <= fold_left Rmax l t).
  { clear. induction l as [|x l IH]; intros t; cbn [fold_left]; [split; [now left|intros u [->|[]]; lra]|].
    destruct (IH (Rmax t x)) as [i b]. pose proof (Rmax_l t x). pose proof (Rmax_r t x). split.
    - destruct i as [e|i]; [rewrite <- e; unfold Rmax; destruct (Rle_dec t x); [right; now left|now left]|right; now right].
    - intros u [->|[->|hu]]; [eapply Rle_trans; [eassumption|]; apply b; now left|eapply Rle_trans; [eassumption|]; apply b; now left|apply b; now right]. }
  assert (m : forall l t, (In (fold_left Rmin l t) (t :: l)) /\ forall u, In u (t :: l) -> fold_left Rmin l t <= u).
  { clear. induction l as [|x l IH]; intros t; cbn [fold_left]; [split; [now left|intros u [->|[]]; lra]|].
    destruct (IH (Rmin t x)) as [i b]. pose proof (Rmin_l t x). pose proof (Rmin_r t x). split.
    - destruct i as [e|i]; [rewrite <- e; unfold Rmin; destruct (Rle_dec t x); [now left|right; now left]|right; now right].
    - intros u [->|[->|hu]]; [eapply Rle_trans; [|eassumption]; apply b; now left|eapply Rle_trans; [|eassumption]; apply b; now left|apply b; now right]. }
  exists (fold_left Rmin l t), (fold_left Rmax l t). destruct (M l t), (m l t). repeat split; auto.
Qed.
Definition span_of (toas : list R) (o : opts) (T : R) : Prop := o_Tspan o = Some T \/ o_Tspan o = None /\ extent toas = Ok T.
Lemma span_fun : forall toas o T T', span_of toas o T -> span_of toas o T' -> T = T'.
Proof. intros toas o T T' [a|[a b]] [c|[c d]]; congruence. Qed.
Lemma default_frequencies_lem : forall (S : Type) (seeded : Z -> S) next toas o s F ff s' T,
  o_modes o = None -> o_fmin o = None -> o_fmax o = None -> o_logf o = false -> T <> 0 ->
  o_Tspan o = Some T \/ o_Tspan o = None /\ extent toas = Ok T ->
  create_red seeded next toas o s = (Ok (F, ff), s') ->
  forall i, (i < o_nmodes o)%nat -> nth (2 * i) ff 0 = INR (i + 1) / T.
Proof.
  intros S seeded next toas o s F ff s' T e1 e2 e3 e4 _ hT h i hi. apply red_inv in h. destruct h as [T' [f [ph [hT' [ef [_ [_ [_ [_ eff]]]]]]]]].
  assert (T' = T) by (now apply (span_fun toas o)). subst T' ff f. destruct (rep2_nth (frequencies o T) i 0) as [-> _]. unfold frequencies. rewrite e1, e2, e3, e4.
  rewrite (nth_map_in _ _ _ _ 0%nat) by (now rewrite seq_length). rewrite seq_nth by exact hi. rewrite Rmult_1_l. do 2 f_equal. lia.
Qed.
Lemma linspace_nth : forall a b n i, (2 <= n)%nat -> (i < n)%nat -> nth i (linspace a b n) 0 = a + INR i * ((b - a) / INR (n - 1)).
Proof.
  intros a b [|[|n]] i hn hi; try lia. unfold linspace. rewrite (nth_map_in _ _ _ _ 0%nat) by (now rewrite seq_length). rewrite seq_nth by exact hi. reflexivity.
Qed.
Lemma spaced_frequencies_lem : forall (S : Type) (seeded : Z -> S) next toas o s F ff s' T,
  o_modes o = None -> (o_logf o = true \/ o_fmin o <> None \/ o_fmax o <> None) -> T <> 0 -> (2 <= o_nmodes o)%nat ->
  o_Tspan o = Some T \/ o_Tspan o = None /\ extent toas = Ok T ->
  create_red seeded next toas o s = (Ok (F, ff), s') ->
  let a := match o_fmin o with Some x => x | None => 1 / T end in
  let b := match o_fmax o with Some x => x | None => INR (o_nmodes o) / T end in
  forall i, (i < o_nmodes o)%nat ->
  (o_logf o = false -> nth (2 * i) ff 0 = a + INR i / INR (o_nmodes o - 1) * (b - a)) /\
  (o_logf o = true -> 0 < a -> 0 < b -> nth (2 * i) ff 0 = a * Rpower (b / a) (INR i / INR (o_nmodes o - 1))).
Proof.
  intros S seeded next toas o s F ff s' T e1 e2 _ hn hT h a b i hi. apply red_inv in h. destruct h as [T' [f [ph [hT' [ef [_ [_ [_ [_ eff]]]]]]]]].
  assert (T' = T) by (now apply (span_fun toas o)). subst T' ff. destruct (rep2_nth f i 0) as [-> _].
  assert (ef' : f = if o_logf o then logspace (lg10 a) (lg10 b) (o_nmodes o) else linspace a b (o_nmodes o)).
  { rewrite ef. unfold frequencies. rewrite e1. unfold a, b. destruct (o_fmin o), (o_fmax o), (o_logf o); try reflexivity. exfalso. destruct e2 as [e2|[e2|e2]]; congruence. }
  assert (n0 : INR (o_nmodes o - 1) <> 0) by (apply not_0_INR; lia).
  clear ef. rewrite ef'. clearbody a b. split; intros e; rewrite e.
  - rewrite linspace_nth by assumption. field. exact n0.
  - intros ha hb. unfold logspace. rewrite (nth_map_in _ _ _ _ 0).
    + rewrite linspace_nth by assumption. unfold p10, lg10. unfold Rpower at 1.
      assert (hl : ln 10 <> 0) by (assert (0 < ln 10) by (rewrite <- ln_1; apply ln_increasing; lra); lra).
      replace ((ln a / ln 10 + INR i * ((ln b / ln 10 - ln a / ln 10) / INR (o_nmodes o - 1))) * ln 10)
        with (ln a + INR i / INR (o_nmodes o - 1) * (ln b - ln a)) by (field; split; assumption).
      rewrite exp_plus, exp_ln by exact ha. f_equal. unfold Rpower. f_equal. f_equal. unfold Rdiv. rewrite ln_mult, ln_Rinv; [reflexivity|exact ha|exact hb|now apply Rinv_0_lt_compat].
    + assert (L : length (linspace (lg10 a) (lg10 b) (o_nmodes o)) = o_nmodes o) by (destruct (o_nmodes o) as [|[|m]]; try lia; unfold linspace; now rewrite map_length, seq_length). now rewrite L.
Qed.
Lemma default_is_linspace_lem : forall n T pshift pseed, T <> 0 ->
  forall (S : Type) (seeded : Z -> S) next toas s,
  create_red seeded next toas (Opts n (Some T) false (Some (1 / T)) (Some (INR n / T)) None pshift pseed) s
  = create_red seeded next toas (Opts n (Some T) false None None None pshift pseed) s.
Proof.
  intros n T pshift pseed hT S seeded next toas s.
  assert (E : frequencies (Opts n (Some T) false (Some (1 / T)) (Some (INR n / T)) None pshift pseed) T = frequencies (Opts n (Some T) false None None None pshift pseed) T).
  { unfold frequencies. cbn [o_modes o_fmin o_fmax o_logf o_nmodes]. destruct n as [|[|n]].
    - reflexivity.
    - cbn. f_equal. field. exact hT.
    - unfold linspace. rewrite <- (seq_shift (Datatypes.S (Datatypes.S n)) 0), map_map. apply map_ext. intros i. rewrite !S_INR.
      assert (INR n + 1 <> 0) by (pose proof (pos_INR n); lra). field. split; assumption. }
  unfold create_red. cbn [o_Tspan o_modes]. rewrite E. reflexivity.
Qed.

(** ** Nesting *)
Definition with_n (o : opts) (m : nat) : opts :=
  Opts m (o_Tspan o) (o_logf o) (o_fmin o) (o_fmax o) (o_modes o) (o_pshift o) (o_pseed o).
Lemma bases_nest_lem : forall (S : Type) (seeded : Z -> S) next toas o s F ff s' m,
  o_modes o = None -> o_fmin o = None -> o_fmax o = None -> o_logf o = false -> (m <= o_nmodes o)%nat ->
  create_red seeded next toas o s = (Ok (F, ff), s') ->
  exists s'', create_red seeded next toas (Opts m (o_Tspan o) false None None None (o_pshift o) (o_pseed o)) s
              = (Ok (map (firstn (2 * m)) F, firstn (2 * m) ff), s'').
Proof.
  intros S seeded next toas o s F ff s' m e1 e2 e3 e4 hm h. apply red_inv in h. destruct h as [T [f [ph [hT [ef [ep [hp [_ [eF eff]]]]]]]]].
  set (o' := Opts m _ _ _ _ _ _ _).
  assert (ln : length f = o_nmodes o) by (subst f; now apply frequencies_length). rewrite ln in hp.
  destruct (phases_firstn seeded next o o' toas m _ s ph s' hm eq_refl eq_refl hp) as [s'' hp']. exists s''.
  assert (fm : frequencies o' T = firstn m f).
  { subst f. unfold frequencies. rewrite e1, e2, e3, e4. cbn [o' o_modes o_fmin o_fmax o_logf o_nmodes]. rewrite firstn_map. f_equal.
    clear - hm. revert hm. generalize (o_nmodes o) 1%nat. induction m as [|m IH]; intros n k h; [reflexivity|]. destruct n; [lia|]. cbn. f_equal. apply IH. lia. }
  unfold create_red. replace (match o_Tspan o' with Some T0 => Ok T0 | None => extent toas end) with (Ok T) by (cbn; destruct hT as [->|[-> ->]]; reflexivity).
  cbv zeta. rewrite fm. cbn [o' o_modes]. change (o_nmodes _) with m. rewrite hp'. subst F ff. rewrite map_map, rep2_firstn. do 3 f_equal. apply map_ext. intros t. apply row_firstn.
Qed.

(** ** Explicit frequencies *)
Lemma explicit_frequencies_lem : forall (S : Type) (seeded : Z -> S) next toas o s F ff s' l,
  o_modes o = Some (NpArray l) -> create_red seeded next toas o s = (Ok (F, ff), s') -> ff = flat_map (fun f => [f; f]) l.
Proof.
  intros S seeded next toas o s F ff s' l e h. apply red_inv in h. destruct h as [T [f [ph [_ [ef [_ [_ [_ [_ ->]]]]]]]]]. subst f. unfold frequencies. rewrite e. reflexivity.
Qed.
Lemma list_frequencies_lem : forall (S : Type) (seeded : Z -> S) next toas o s l, toas <> [] ->
  o_modes o = Some (PyList l) -> fst (create_red seeded next toas o s) = Err TypeError.
Proof.
  intros S seeded next toas o s l h e. unfold create_red. rewrite e. destruct toas as [|t toas]; [contradiction|].
  destruct (o_Tspan o); cbn [extent]; unfold phases; destruct (o_pseed o), (o_pshift o); try (destruct (uniform _ _ _ _ _)); reflexivity.
Qed.
Lemma list_frequencies_refuted_lem : exists toas l, let o m := Opts 2 (Some 1) false None None (Some m) false None in
  (exists r, fst (create_red (fun _ => tt) (fun s => (0, s)) toas (o (NpArray l)) tt) = Ok r) /\
  fst (create_red (fun _ => tt) (fun s => (0, s)) toas (o (PyList l)) tt) = Err TypeError.
Proof. exists [1; 2], [1; 2]. split; [eexists; reflexivity|reflexivity]. Qed.

(** ** Covariances *)
Lemma frequencies_eq : forall o o' T, o_nmodes o' = o_nmodes o -> o_logf o' = o_logf o -> o_fmin o' = o_fmin o -> o_fmax o' = o_fmax o -> o_modes o' = o_modes o ->
  frequencies o' T = frequencies o T.
Proof. intros o o' T e1 e2 e3 e4 e5. unfold frequencies. now rewrite e1, e2, e3, e4, e5. Qed.
Lemma stationary_lem : forall (S : Type) (seeded : Z -> S) next toas o s F ff s' phi,
  create_red seeded next toas o s = (Ok (F, ff), s') ->
  length phi = length ff -> (forall j, (2 * j < length ff)%nat -> nth (2 * j) phi 0 = nth (2 * j + 1) phi 0) ->
  forall i k, (i < length toas)%nat -> (k < length toas)%nat ->
  wsum phi (nth i F []) (nth k F [])
  = rsum (map (fun j => nth (2 * j) phi 0 * cos (2 * PI * nth (2 * j) ff 0 * (nth i toas 0 - nth k toas 0))) (seq 0 (length ff / 2))).
Proof.
  intros S seeded next toas o s F ff s' phi h lp hp i k hi hk. apply red_inv in h. destruct h as [T [f [ph [_ [_ [ep [_ [_ [eF eff]]]]]]]]].
  assert (lff : length ff = (2 * length f)%nat) by (subst ff; apply rep_length). rewrite lff in *.
  rewrite (Nat.mul_comm 2), Nat.div_mul by lia.
  assert (hp' : forall j, (j < length f)%nat -> nth (2 * j) phi 0 = nth (2 * j + 1) phi 0) by (intros j hj; apply hp; lia).
  rewrite (pairs_rep phi (length f) 0 lp hp'). set (v := evens phi). assert (lv : length v = length f) by (now apply evens_length).
  subst F ff. rewrite !(nth_map_in _ _ _ [] 0) by assumption. rewrite row_sum by congruence. rewrite lv. apply rsum_ext. intros j hj. apply in_seq in hj.
  destruct (rep2_nth v j 0) as [-> _]. destruct (rep2_nth f j 0) as [-> _]. now rewrite (Rminus_diag_eq (nth j ph 0)), Rplus_0_r by reflexivity.
Qed.
Lemma cross_covariance_lem : forall (S : Type) (seeded : Z -> S) next toas1 toas2 o s1 s2 F1 F2 ff s1' s2' phi,
  create_red seeded next toas1 o s1 = (Ok (F1, ff), s1') -> create_red seeded next toas2 o s2 = (Ok (F2, ff), s2') ->
  length phi = length ff -> (forall j, (2 * j < length ff)%nat -> nth (2 * j) phi 0 = nth (2 * j + 1) phi 0) ->
  exists p1 p2 : nat -> R, (o_pshift o = false -> o_pseed o = None -> forall j, p1 j = 0 /\ p2 j = 0) /\
  forall i k, (i < length toas1)%nat -> (k < length toas2)%nat ->
  wsum phi (nth i F1 []) (nth k F2 [])
  = rsum (map (fun j => nth (2 * j) phi 0 * cos (2 * PI * nth (2 * j) ff 0 * (nth i toas1 0 - nth k toas2 0) + (p1 j - p2 j))) (seq 0 (length ff / 2))).
Proof.
  intros S seeded next toas1 toas2 o s1 s2 F1 F2 ff s1' s2' phi h1 h2 lp hp.
  apply red_inv in h1. destruct h1 as [T1 [f1 [ph1 [_ [_ [ep1 [hp1 [_ [eF1 eff1]]]]]]]]]. apply red_inv in h2. destruct h2 as [T2 [f2 [ph2 [_ [_ [ep2 [hp2 [_ [eF2 eff2]]]]]]]]].
  assert (ef : f2 = f1) by (rewrite <- (evens_rep f1), <- (evens_rep f2); congruence). subst f2. rename f1 into f.
  exists (fun j => nth j ph1 0), (fun j => nth j ph2 0). split.
  { intros a b j. destruct (phases_none _ _ _ _ _ _ _ _ _ a b hp1) as [-> _]. destruct (phases_none _ _ _ _ _ _ _ _ _ a b hp2) as [-> _]. now rewrite nth_repeat0. }
  intros i k hi hk. assert (lff : length ff = (2 * length f)%nat) by (rewrite eff1; apply rep_length). rewrite lff in *.
  rewrite (Nat.mul_comm 2), Nat.div_mul by lia.
  assert (hp' : forall j, (j < length f)%nat -> nth (2 * j) phi 0 = nth (2 * j + 1) phi 0) by (intros j hj; apply hp; lia).
  rewrite (pairs_rep phi (length f) 0 lp hp'). set (v := evens phi). assert (lv : length v = length f) by (now apply evens_length).
  rewrite eF1, eF2, eff1. rewrite !(nth_map_in _ _ _ [] 0) by assumption. rewrite row_sum by congruence. rewrite lv. apply rsum_ext. intros j hj. apply in_seq in hj.
  destruct (rep2_nth v j 0) as [-> _]. destruct (rep2_nth f j 0) as [-> _]. reflexivity.
Qed.
Lemma extent_shift : forall c toas, extent (map (Rplus c) toas) = extent toas.
Proof.
  intros c [|t l]; [reflexivity|]. cbn [map extent]. f_equal.
  assert (A : forall l t, fold_left Rmax (map (Rplus c) l) (c + t) = c + fold_left Rmax l t).
  { clear. induction l as [|x l IH]; intros t; [reflexivity|]. cbn. rewrite <- IH. f_equal. unfold Rmax. destruct (Rle_dec (c + t) (c + x)), (Rle_dec t x); lra. }
  assert (B : forall l t, fold_left Rmin (map (Rplus c) l) (c + t) = c + fold_left Rmin l t).
  { clear. induction l as [|x l IH]; intros t; [reflexivity|]. cbn. rewrite <- IH. f_equal. unfold Rmin. destruct (Rle_dec (c + t) (c + x)), (Rle_dec t x); lra. }
  rewrite A, B. ring.
Qed.
Lemma shifts_lem : forall (S : Type) (seeded : Z -> S) next toas c o o' s F ff s' t F' ff' t' phi,
  o_nmodes o' = o_nmodes o -> o_Tspan o' = o_Tspan o -> o_logf o' = o_logf o -> o_fmin o' = o_fmin o -> o_fmax o' = o_fmax o -> o_modes o' = o_modes o ->
  create_red seeded next toas o s = (Ok (F, ff), s') ->
  create_red seeded next (map (Rplus c) toas) o' t = (Ok (F', ff'), t') ->
  length phi = length ff -> (forall j, (2 * j < length ff)%nat -> nth (2 * j) phi 0 = nth (2 * j + 1) phi 0) ->
  ff' = ff /\ forall i k, (i < length toas)%nat -> (k < length toas)%nat ->
  wsum phi (nth i F' []) (nth k F' []) = wsum phi (nth i F []) (nth k F []).
Proof.
  intros S seeded next toas c o o' s F ff s' t F' ff' t' phi e1 e2 e3 e4 e5 e6 h h' lp hp.
  assert (eff : ff' = ff).
  { apply red_inv in h, h'. destruct h as [T [f [ph [hT [ef [_ [_ [_ [_ eff]]]]]]]]]. destruct h' as [T' [f' [ph' [hT' [ef' [_ [_ [_ [_ eff']]]]]]]]].
    assert (T' = T) by (rewrite e2, extent_shift in hT'; now apply (span_fun toas o)). subst. now rewrite (frequencies_eq o o'). }
  split; [exact eff|]. subst ff'. intros i k hi hk.
  rewrite (stationary_lem _ _ _ _ _ _ _ _ _ phi h lp hp i k hi hk), (stationary_lem _ _ _ _ _ _ _ _ _ phi h' lp hp i k) by (now rewrite map_length).
  apply rsum_ext. intros j _. rewrite !(nth_map_in _ toas _ 0 0) by assumption. do 2 f_equal. ring.
Qed.

(** ** Seeds *)
Lemma seeded_basis_lem : forall (S : Type) (seeded : Z -> S) next toas o p s s', o_pseed o = Some p -> toas <> [] ->
  create_red seeded next toas o s = create_red seeded next toas o s'.
Proof.
  intros S seeded next toas o p s s' e h. destruct toas as [|t toas]; [contradiction|]. unfold create_red, phases. rewrite e.
  destruct (o_Tspan o); reflexivity.
Qed.
Lemma trunc_nonneg : forall (m : Z) x, (0 <= m)%Z -> IZR m <= x < IZR m + 1 -> trunc x = m.
Proof.
  intros m x h0 h. apply IZR_le in h0. unfold trunc. destruct (Rle_dec 0 x); [|lra]. destruct (base_Int_part x).
  assert (IZR (Int_part x) < IZR (m + 1)) by (rewrite plus_IZR; lra). apply lt_IZR in H1.
  assert (IZR m < IZR (Int_part x + 1)) by (rewrite plus_IZR; lra). apply lt_IZR in H2. lia.
Qed.
Lemma same_seed_lem : forall (S : Type) (seeded : Z -> S) next t1 l1 t2 l2 o p (m : Z) s1 s2 F1 F2 ff s1' s2' phi,
  o_pseed o = Some p -> (0 <= m)%Z -> 17 * IZR m <= t1 < 17 * (IZR m + 1) -> 17 * IZR m <= t2 < 17 * (IZR m + 1) ->
  create_red seeded next (t1 :: l1) o s1 = (Ok (F1, ff), s1') -> create_red seeded next (t2 :: l2) o s2 = (Ok (F2, ff), s2') ->
  length phi = length ff -> (forall j, (2 * j < length ff)%nat -> nth (2 * j) phi 0 = nth (2 * j + 1) phi 0) ->
  forall i k, (i < length (t1 :: l1))%nat -> (k < length (t2 :: l2))%nat ->
  wsum phi (nth i F1 []) (nth k F2 [])
  = rsum (map (fun j => nth (2 * j) phi 0 * cos (2 * PI * nth (2 * j) ff 0 * (nth i (t1 :: l1) 0 - nth k (t2 :: l2) 0))) (seq 0 (length ff / 2))).
Proof.
  intros S seeded next t1 l1 t2 l2 o p m s1 s2 F1 F2 ff s1' s2' phi ep hm h1 h2 c1 c2 lp hp i k hi hk.
  apply red_inv in c1. destruct c1 as [T1 [f1 [ph1 [_ [_ [ep1 [hp1 [_ [eF1 eff1]]]]]]]]]. apply red_inv in c2. destruct c2 as [T2 [f2 [ph2 [_ [_ [ep2 [hp2 [_ [eF2 eff2]]]]]]]]].
  assert (ef : f2 = f1) by (rewrite <- (evens_rep f1), <- (evens_rep f2); congruence). subst f2. rename f1 into f.
  assert (ph2 = ph1).
  { unfold phases in hp1, hp2. rewrite ep in hp1, hp2. rewrite (trunc_nonneg m) in hp1, hp2 by (assumption || lra). congruence. }
  subst ph2. assert (lff : length ff = (2 * length f)%nat) by (rewrite eff1; apply rep_length). rewrite lff in *.
  rewrite (Nat.mul_comm 2), Nat.div_mul by lia.
  assert (hp' : forall j, (j < length f)%nat -> nth (2 * j) phi 0 = nth (2 * j + 1) phi 0) by (intros j hj; apply hp; lia).
  rewrite (pairs_rep phi (length f) 0 lp hp'). set (v := evens phi). assert (lv : length v = length f) by (now apply evens_length).
  rewrite eF1, eF2, eff1. rewrite !(nth_map_in _ _ _ [] 0) by assumption. rewrite row_sum by congruence. rewrite lv. apply rsum_ext. intros j hj. apply in_seq in hj.
  destruct (rep2_nth v j 0) as [-> _]. destruct (rep2_nth f j 0) as [-> _]. now rewrite (Rminus_diag_eq (nth j ph1 0)), Rplus_0_r by reflexivity.
Qed.

(** ** Row scalings *)
(** [F] is [F0] with row [k] multiplied by [d k]. *)
Definition scaled (F F0 : mat) (d : nat -> R) : Prop :=
  length F = length F0 /\ forall k, (k < length F0)%nat -> length (nth k F []) = length (nth k F0 []) /\
  forall j, nth j (nth k F []) 0 = d k * nth j (nth k F0 []) 0.
Lemma nth_mul : forall c r j, nth j (map (fun x => x * c) r) 0 = c * nth j r 0.
Proof. intros c r. induction r as [|x r IH]; intros [|j]; cbn; try ring. apply IH. Qed.
Lemma scale_rows_spec : forall F0 d F, scale_rows F0 d = Ok F -> length d = length F0 /\ scaled F F0 (fun k => nth k d 0).
Proof.
  intros F0 d F. unfold scale_rows. destruct (Nat.eqb_spec (length F0) (length d)) as [e|]; [|discriminate]. intros [= <-].
  split; [congruence|]. split; [rewrite map_length, combine_length, e; lia|]. intros k hk.
  rewrite (nth_map_in _ _ _ [] ([], 0)) by (rewrite combine_length, e; lia). rewrite combine_nth by exact e. cbn [fst snd]. rewrite map_length. split; [reflexivity|]. apply nth_mul.
Qed.
Lemma with_rows_spec : forall (S : Type) (r : result (mat * list R) * S) d F ff s', with_rows r d = (Ok (F, ff), s') ->
  exists F0, r = (Ok (F0, ff), s') /\ length d = length F0 /\ scaled F F0 (fun k => nth k d 0).
Proof.
  intros S [[[F0 f0]|e] s] d F ff s'; unfold with_rows; cbn [fst snd rbind]; [|discriminate].
  destruct (scale_rows F0 d) as [F1|] eqn:E; cbn; [|discriminate]. intros [= <- <- <-]. exists F0. apply scale_rows_spec in E. split; [reflexivity|exact E].
Qed.
Lemma scaled_ext : forall F F0 d d', (forall k, (k < length F0)%nat -> d k = d' k) -> scaled F F0 d -> scaled F F0 d'.
Proof. intros F F0 d d' h [a b]. split; [exact a|]. intros k hk. destruct (b k hk) as [c e]. split; [exact c|]. intros j. now rewrite e, h. Qed.
Lemma red_rows : forall (S : Type) (seeded : Z -> S) next toas o s F ff s', create_red seeded next toas o s = (Ok (F, ff), s') -> length F = length toas.
Proof. intros S seeded next toas o s F ff s' h. apply red_inv in h. destruct h as [T [f [ph [_ [_ [_ [_ [_ [-> _]]]]]]]]]. apply map_length. Qed.

Lemma dm_basis_lem : forall (S : Type) (seeded : Z -> S) next toas freqs fref o s F ff s', Forall (fun nu => 0 < nu) freqs ->
  create_dm seeded next toas freqs fref o s = (Ok (F, ff), s') ->
  exists F0, create_red seeded next toas (Opts (o_nmodes o) (o_Tspan o) (o_logf o) (o_fmin o) (o_fmax o) (o_modes o) (o_pshift o) None) s = (Ok (F0, ff), s') /\
  length freqs = length toas /\ scaled F F0 (fun k => (fref / nth k freqs 0) ^ 2).
Proof.
  intros S seeded next toas freqs fref o s F ff s' _ h. apply with_rows_spec in h. destruct h as [F0 [e [l c]]]. exists F0. split; [exact e|].
  rewrite map_length in l. pose proof (red_rows _ _ _ _ _ _ _ _ _ e) as l'. split; [congruence|]. revert c. apply scaled_ext. intros k hk. now rewrite (nth_map_in _ _ _ 0 0) by congruence.
Qed.
Lemma chromatic_basis_lem : forall (S : Type) (seeded : Z -> S) next toas freqs idx o s F ff s', Forall (fun nu => 0 < nu) freqs ->
  create_chromatic seeded next toas freqs idx o s = (Ok (F, ff), s') ->
  exists F0, create_red seeded next toas (Opts (o_nmodes o) (o_Tspan o) (o_logf o) (o_fmin o) (o_fmax o) (o_modes o) false None) s = (Ok (F0, ff), s') /\
  length freqs = length toas /\ scaled F F0 (fun k => Rpower (1400 / nth k freqs 0) idx).
Proof.
  intros S seeded next toas freqs idx o s F ff s' _ h. apply with_rows_spec in h. destruct h as [F0 [e [l c]]]. exists F0. split; [exact e|].
  rewrite map_length in l. pose proof (red_rows _ _ _ _ _ _ _ _ _ e) as l'. split; [congruence|]. revert c. apply scaled_ext. intros k hk. now rewrite (nth_map_in _ _ _ 0 0) by congruence.
Qed.
Lemma temponest_basis_lem : forall (S : Type) (seeded : Z -> S) next toas freqs fref idx o s F ff s', 0 < fref -> Forall (fun nu => 0 < nu) freqs ->
  create_dm_tn seeded next toas freqs fref idx o s = (Ok (F, ff), s') ->
  exists F0, create_red seeded next toas (Opts (o_nmodes o) (o_Tspan o) (o_logf o) (o_fmin o) (o_fmax o) (o_modes o) (o_pshift o) None) s = (Ok (F0, ff), s') /\
  length freqs = length toas /\
  scaled F F0 (fun k => sqrt 12 * PI / (1400 ^ 2 * (241 / 1000000)) * Rpower (fref / nth k freqs 0) idx).
Proof.
  intros S seeded next toas freqs fref idx o s F ff s' _ _ h. apply with_rows_spec in h. destruct h as [F0 [e [l c]]]. exists F0. split; [exact e|].
  rewrite map_length in l. pose proof (red_rows _ _ _ _ _ _ _ _ _ e) as l'. split; [congruence|]. revert c. apply scaled_ext. intros k hk. rewrite (nth_map_in _ _ _ 0 0) by congruence.
  unfold dm_tn_factor. field.
Qed.
Lemma envelope_basis_lem : forall (S : Type) (seeded : Z -> S) next toas log10_Amp log10_Q t0 o s F ff s',
  create_env seeded next toas log10_Amp log10_Q t0 o s = (Ok (F, ff), s') ->
  exists F0, create_red seeded next toas (Opts (o_nmodes o) (o_Tspan o) (o_logf o) (o_fmin o) (o_fmax o) (o_modes o) false None) s = (Ok (F0, ff), s') /\
  scaled F F0 (fun k => Rpower 10 log10_Amp * exp (- (1 / 2) * ((nth k toas 0 - t0) / (Rpower 10 log10_Q * 86400)) ^ 2)).
Proof.
  intros S seeded next toas log10_Amp log10_Q t0 o s F ff s' h. apply with_rows_spec in h. destruct h as [F0 [e [l c]]]. exists F0. split; [exact e|].
  pose proof (red_rows _ _ _ _ _ _ _ _ _ e) as l'. revert c. apply scaled_ext. intros k hk. rewrite (nth_map_in _ _ _ 0 0) by congruence.
  unfold p10. do 2 f_equal. assert (0 < Rpower 10 log10_Q) by apply exp_pos. field. lra.
Qed.
(** The same radio frequency everywhere; equal bases. *)
Lemma scale_ones : forall F d, length d = length F -> Forall (fun x => x = 1) d -> scale_rows F d = Ok F.
Proof.
  intros F d e h. unfold scale_rows. rewrite e, Nat.eqb_refl. f_equal. revert d e h. induction F as [|r F IH]; intros [|x d] e h; try discriminate; [reflexivity|].
  inversion h; subst. cbn [combine map fst snd]. f_equal; [|apply IH; [cbn in e; congruence|assumption]].
  rewrite <- (map_id r) at 2. apply map_ext. intros y. ring.
Qed.
Lemma pow_Rpower2 : forall x, 0 < x -> Rpower x 2 = x ^ 2.
Proof. intros x h. replace 2 with (INR 2) by reflexivity. now apply Rpower_pow. Qed.
Lemma chromatic_is_dm_lem : forall (S : Type) (seeded : Z -> S) next toas freqs o s, Forall (fun nu => 0 < nu) freqs -> o_pshift o = false ->
  create_chromatic seeded next toas freqs 2 o s = create_dm seeded next toas freqs 1400 o s.
Proof.
  intros S seeded next toas freqs o s h e. unfold create_chromatic, create_dm, no_seed, no_shift. rewrite e. f_equal. apply map_ext_in. intros nu i. rewrite Forall_forall in h. specialize (h nu i). apply pow_Rpower2.
  apply Rmult_lt_0_compat; [lra|now apply Rinv_0_lt_compat].
Qed.
Lemma dm_at_reference_lem : forall (S : Type) (seeded : Z -> S) next toas fref o s, 0 < fref -> o_pseed o = None ->
  create_dm seeded next toas (map (fun _ => fref) toas) fref o s = create_red seeded next toas o s.
Proof.
  intros S seeded next toas fref o s h e. unfold create_dm.
  assert (eo : no_seed o = o) by (destruct o; cbn in *; now subst). rewrite eo.
  destruct (create_red seeded next toas o s) as [[[F ff]|e1] s1] eqn:E; [|reflexivity]. unfold with_rows. cbn [fst snd rbind].
  rewrite scale_ones; [reflexivity|rewrite !map_length; now rewrite (red_rows _ _ _ _ _ _ _ _ _ E)|].
  rewrite map_map. apply Forall_forall. intros x hx. apply in_map_iff in hx. destruct hx as [y [<- _]]. field. lra.
Qed.
Lemma general_plain_lem : forall (S : Type) (seeded : Z -> S) next toas freqs flags flagname flagval idx tndm psrTspan o s,
  flagval = None \/ flagval = Some ""%string -> idx = None \/ idx = Some 0 ->
  create_general seeded next toas freqs flags flagname flagval idx tndm psrTspan o s = create_red seeded next toas o s.
Proof.
  intros S seeded next toas freqs flags flagname flagval idx tndm psrTspan o s hf hi. unfold create_general.
  replace (match flagval with Some ""%string => None | x => x end) with (@None string) by (destruct hf as [->| ->]; reflexivity). cbv zeta.
  assert (eo : Opts (o_nmodes o) (o_Tspan o) (o_logf o) (o_fmin o) (o_fmax o) (o_modes o) (o_pshift o) (o_pseed o) = o) by (now destruct o). rewrite eo.
  assert (ei : match idx with None => create_red seeded next toas o s
               | Some i => if Req_EM_T i 0 then create_red seeded next toas o s else with_rows (create_red seeded next toas o s) (map (fun nu => if tndm then dm_tn_factor (1400 / nu) i else Rpower (1400 / nu) i) freqs) end
             = create_red seeded next toas o s).
  { destruct hi as [->| ->]; [reflexivity|]. destruct (Req_EM_T 0 0); [reflexivity|contradiction]. }
  rewrite ei. destruct (create_red seeded next toas o s) as [[[F ff]|e1] s1]; reflexivity.
Qed.
Lemma general_chromatic_lem : forall (S : Type) (seeded : Z -> S) next toas freqs flags flagname idx tndm psrTspan o s,
  idx <> 0 -> o_pshift o = false -> o_pseed o = None ->
  create_general seeded next toas freqs flags flagname None (Some idx) tndm psrTspan o s
  = if tndm then create_dm_tn seeded next toas freqs 1400 idx o s else create_chromatic seeded next toas freqs idx o s.
Proof.
  intros S seeded next toas freqs flags flagname idx tndm psrTspan o s hi e1 e2. unfold create_general. cbv zeta.
  destruct (Req_EM_T idx 0); [contradiction|]. unfold create_dm_tn, create_chromatic, no_seed, no_shift. rewrite e1, e2.
  destruct tndm; match goal with |- context [with_rows ?r ?d] => destruct (with_rows r d) as [[[F ff]|e] s1]; reflexivity end.
Qed.
Lemma general_flag_lem : forall (S : Type) (seeded : Z -> S) next toas freqs flags flagname v values idx tndm (psrTspan : bool) T o s F ff s',
  v <> ""%string -> dget string_dec flags flagname = Some values -> length values = length toas ->
  (if psrTspan then T = o_Tspan o
   else exists T0, T = Some T0 /\ extent (map (fun k => nth k toas 0) (filter (fun k => String.eqb (nth k values ""%string) v) (seq 0 (length toas)))) = Ok T0) ->
  create_general seeded next toas freqs flags flagname (Some v) idx tndm psrTspan o s = (Ok (F, ff), s') ->
  exists F0, create_general seeded next toas freqs flags flagname None idx tndm psrTspan
               (Opts (o_nmodes o) T (o_logf o) (o_fmin o) (o_fmax o) (o_modes o) (o_pshift o) (o_pseed o)) s = (Ok (F0, ff), s') /\
  length F = length F0 /\
  forall k j, (k < length toas)%nat -> nth j (nth k F []) 0 = if String.eqb (nth k values ""%string) v then nth j (nth k F0 []) 0 else 0.
Proof.
  intros S seeded next toas freqs flags flagname v values idx tndm psrTspan T o s F ff s' hv hg lv hT. unfold create_general.
  cbv zeta. replace (match v with ""%string => None | String _ _ => Some v end) with (Some v) by (destruct v; [contradiction|reflexivity]).
  unfold dgetE. rewrite hg. cbn [rmap rbind].
  assert (sel : select_where (map (fun x => String.eqb x v) values) toas = map (fun k => nth k toas 0) (filter (fun k => String.eqb (nth k values ""%string) v) (seq 0 (length toas)))).
  { clear - lv. revert values lv. unfold select_where. induction toas as [|t toas IH]; intros [|x values] lv; try discriminate; [reflexivity|]. cbn [map combine filter snd length seq nth].
    specialize (IH values ltac:(cbn in lv; lia)). rewrite <- seq_shift.
    assert (fs : forall (P : nat -> bool) l, filter P (map Datatypes.S l) = map Datatypes.S (filter (fun k => P (Datatypes.S k)) l)).
    { intros P l. induction l as [|y l IHl]; [reflexivity|]. cbn. destruct (P (Datatypes.S y)); cbn; now rewrite IHl. }
    destruct (String.eqb x v); cbn [map fst nth]; rewrite fs, map_map, IH; reflexivity. }
  assert (eT : (if psrTspan then Ok (o_Tspan o) else rmap Some (extent (select_where (map (fun x => String.eqb x v) values) toas))) = Ok T).
  { rewrite sel. destruct psrTspan; [now subst T|]. destruct hT as [T0 [-> ->]]. reflexivity. }
  rewrite eT. cbn [o_Tspan o_nmodes o_logf o_fmin o_fmax o_modes o_pshift o_pseed].
  match goal with |- context [fst ?r] => destruct r as [[[F0 f0]|e] s1] end; cbn [fst snd]; [|discriminate]. intros h. apply with_rows_spec in h. destruct h as [F1 [e [l c]]]. injection e as <- <- <-.
  exists F0. split; [reflexivity|]. rewrite !map_length in l. destruct c as [a b]. split; [exact a|]. intros k j hk. destruct (b k ltac:(congruence)) as [_ c]. rewrite c, (nth_map_in _ _ _ 0 false) by (rewrite map_length; congruence).
  rewrite (nth_map_in _ _ _ false ""%string) by congruence. destruct (String.eqb _ v); ring.
Qed.
Lemma index_zero_differs_lem : exists toas freqs o, let nx (s : unit) := (0, s) in let sd (_ : Z) := tt in
  o_pshift o = false /\ o_pseed o = None /\
  exists F F' f, create_general sd nx toas freqs [] ""%string None (Some 0) true true o tt = (Ok (F, f), tt) /\
  create_dm_tn sd nx toas freqs 1400 0 o tt = (Ok (F', f), tt) /\ nth 1 (nth 0 F []) 0 <> nth 1 (nth 0 F' []) 0.
Proof.
  exists [0], [1400], (Opts 1 (Some 1) false None None None false None). cbv zeta. split; [reflexivity|]. split; [reflexivity|].
  eexists _, _, _. split; [rewrite general_plain_lem by auto; reflexivity|]. split; [reflexivity|].
  cbn. rewrite !Rmult_0_r, !Rmult_0_l, Rplus_0_r, cos_0, Rmult_1_l. unfold dm_tn_factor. replace (1400 / 1400) with 1 by field.
  unfold Rpower. rewrite Rmult_0_l, exp_0. assert (sqrt 12 < 4) by (rewrite <- (sqrt_Rsqr 4) by lra; apply sqrt_lt_1; unfold Rsqr; lra). pose proof PI_4. pose proof PI_RGT_0. pose proof (sqrt_pos 12).
  assert (sqrt 12 * PI <= 16) by nra. intros e. assert (1 < 1); [|lra]. rewrite e at 1.
  replace (1 * sqrt 12 * PI / 1400 / 1400 / (241 / 1000000)) with (sqrt 12 * PI * (1 / 1400 / 1400 / (241 / 1000000))) by field. lra.
Qed.
