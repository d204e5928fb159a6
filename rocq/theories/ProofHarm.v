From Coq Require Import Reals ZArith Bool Arith List Lra Lia.
From Verif Require Import PyBase ProofBase ModelBases ModelOrf ModelHarm.
Import ListNotations.
Open Scope list_scope.
Open Scope R_scope.

Definition rsum (l : list R) : R := fold_right Rplus 0 l.
Lemma rsum_cons : forall x l, rsum (x :: l) = x + rsum l.
Proof. reflexivity. Qed.
Lemma rsum_app : forall a b, rsum (a ++ b) = rsum a + rsum b.
Proof. intros a b. unfold rsum. induction a as [|x a IH]; cbn; [ring|]. rewrite IH. ring. Qed.
Lemma fold_plus : forall {A} (f : A -> R) l a, fold_left (fun h x => h + f x) l a = a + rsum (map f l).
Proof. intros A f l. induction l as [|x l IH]; intros a; cbn; [ring|]. rewrite IH. unfold rsum. ring. Qed.

(** ** Indices *)
Lemma even_prod : forall k m, (m < k)%nat -> exists q, (m * (2 * k - 1 - m) = 2 * q)%nat.
Proof.
  intros k m H. destruct (Nat.Even_or_Odd m) as [[q ->]|[q E]].
  - exists (q * (2 * k - 1 - 2 * q))%nat. lia.
  - exists (m * (k - 1 - q))%nat. replace (2 * k - 1 - m)%nat with (2 * (k - 1 - q))%nat by lia. lia.
Qed.
Lemma getidx2 : forall k l m, (m < k)%nat -> (2 * getidx k l m = m * (2 * k - 1 - m) + 2 * l)%nat.
Proof.
  intros k l m H. unfold getidx. destruct (even_prod k m H) as [q E]. rewrite E.
  rewrite (Nat.mul_comm 2 q), Nat.div_mul by lia. lia.
Qed.
Lemma getsize2 : forall k, (2 * getsize k = k * (k + 1))%nat.
Proof.
  intros k. unfold getsize. assert (E : exists q, (k * (k + 1) = 2 * q)%nat).
  { destruct (Nat.Even_or_Odd k) as [[q ->]|[q ->]]; [exists (q * (2 * q + 1))%nat; lia|exists ((2 * q + 1) * (q + 1))%nat; lia]. }
  destruct E as [q E]. rewrite E, (Nat.mul_comm 2 q), Nat.div_mul by lia. lia.
Qed.
Lemma row_mono : forall k l m l' m', (m < m')%nat -> (m <= l < k)%nat -> (m' <= l' < k)%nat -> (getidx k l m < getidx k l' m')%nat.
Proof.
  intros k l m l' m' H L L'. assert (A := getidx2 k l m ltac:(lia)). assert (B := getidx2 k l' m' ltac:(lia)).
  enough (m * (2 * k - 1 - m) + 2 * l < m' * (2 * k - 1 - m') + 2 * l')%nat by lia.
  destruct (Nat.le_exists_sub (m + 1) m') as [d [-> _]]; [lia|].
  destruct (Nat.le_exists_sub (d + (m + 1) + 1) k) as [e [-> _]]; [lia|].
  replace (2 * (e + (d + (m + 1) + 1)) - 1 - m)%nat with (2 * e + 2 * d + m + 3)%nat by lia.
  replace (2 * (e + (d + (m + 1) + 1)) - 1 - (d + (m + 1)))%nat with (2 * e + d + m + 2)%nat by lia.
  assert (I : ((d + (m + 1)) * (2 * e + d + m + 2) + 2 * (d + (m + 1)) =
               m * (2 * e + 2 * d + m + 3) + 2 * (e + d + m + 1) + (2 * (d * e) + d * d + 3 * d + 2))%nat) by ring.
  revert I. generalize ((d + (m + 1)) * (2 * e + d + m + 2))%nat (m * (2 * e + 2 * d + m + 3))%nat (d * e)%nat (d * d)%nat. intros. lia.
Qed.
Lemma getidx_inj : forall k l m l' m', (m <= l < k)%nat -> (m' <= l' < k)%nat -> getidx k l m = getidx k l' m' -> l = l' /\ m = m'.
Proof.
  intros k l m l' m' L L' E. destruct (lt_eq_lt_dec m m') as [[H|H]|H].
  - assert (X := row_mono k l m l' m' H L L'). lia.
  - subst m'. unfold getidx in E. lia.
  - assert (X := row_mono k l' m' l m H L' L). lia.
Qed.
Lemma getidx_lt : forall k l m, (m <= l < k)%nat -> (getidx k l m < getsize k)%nat.
Proof.
  intros k l m L. assert (A := getidx2 k l m ltac:(lia)). assert (B := getsize2 k).
  enough (m * (2 * k - 1 - m) + 2 * l < k * (k + 1))%nat by lia.
  destruct (Nat.le_exists_sub (m + 1) k) as [d [-> _]]; [lia|].
  replace (2 * (d + (m + 1)) - 1 - m)%nat with (2 * d + m + 1)%nat by lia. nia.
Qed.
Lemma getidx_onto : forall k a, (a < getsize k)%nat -> exists l m, (m <= l < k)%nat /\ getidx k l m = a.
Proof.
  intros k a H. assert (B := getsize2 k).
  assert (G : forall n, (n <= k)%nat -> (2 * a < n * (2 * k + 1 - n))%nat -> exists l m, (m <= l < k)%nat /\ getidx k l m = a).
  { induction n as [|n IH]; intros N C; [lia|].
    destruct (le_lt_dec (n * (2 * k + 1 - n)) (2 * a)) as [D|D]; [|apply IH; [lia|exact D]].
    exists (a - n * (2 * k - 1 - n) / 2)%nat, n. destruct (even_prod k n) as [q E]; [lia|].
    destruct (Nat.le_exists_sub (n + 1) k) as [d [Q _]]; [lia|]. subst k.
    replace (2 * (d + (n + 1)) - 1 - n)%nat with (2 * d + n + 1)%nat in * by lia.
    replace (2 * (d + (n + 1)) + 1 - n)%nat with (2 * d + n + 3)%nat in * by lia.
    replace (2 * (d + (n + 1)) + 1 - S n)%nat with (2 * d + n + 2)%nat in * by lia.
    assert (X : (n * (2 * d + n + 1) / 2 = q)%nat) by (rewrite E, (Nat.mul_comm 2 q); apply Nat.div_mul; lia).
    rewrite X. split; [nia|]. unfold getidx. replace (2 * (d + (n + 1)) - 1 - n)%nat with (2 * d + n + 1)%nat by lia. rewrite X. nia. }
  apply (G k); [lia|]. replace (2 * k + 1 - k)%nat with (k + 1)%nat by lia. lia.
Qed.

(** ** The order of the coefficients *)
Definition pos (lm : nat * Z) : nat := (fst lm * fst lm + Z.to_nat (snd lm + Z.of_nat (fst lm)))%nat.
Lemma lms_S : forall k, lms (S k) = lms k ++ map (fun i => (k, (Z.of_nat i - Z.of_nat k)%Z)) (seq 0 (2 * k + 1)).
Proof. intros k. unfold lms. rewrite seq_S, flat_map_app. cbn [flat_map plus]. rewrite app_nil_r. reflexivity. Qed.
Lemma seq_shift_by : forall b n s, map (fun i => (b + i)%nat) (seq s n) = seq (b + s) n.
Proof. intros b n. induction n as [|n IH]; intros s; [reflexivity|]. cbn [seq map]. f_equal. rewrite IH. f_equal. lia. Qed.
Lemma lms_pos : forall k, map pos (lms k) = seq 0 (k * k).
Proof.
  induction k as [|k IH]; [reflexivity|]. rewrite lms_S, map_app, IH, map_map.
  replace (S k * S k)%nat with (k * k + (2 * k + 1))%nat by lia. rewrite (seq_app (k * k) (2 * k + 1)). f_equal.
  rewrite (map_ext_in _ (fun i => (k * k + i)%nat)).
  - rewrite seq_shift_by. f_equal. lia.
  - intros i Hi. unfold pos. cbn [fst snd]. f_equal. lia.
Qed.
Lemma lms_length : forall k, length (lms k) = (k * k)%nat.
Proof. intros k. rewrite <- (map_length pos), lms_pos. apply seq_length. Qed.
Lemma lms_nodup : forall k, NoDup (lms k).
Proof. intros k. apply (NoDup_map_inv pos). rewrite lms_pos. apply seq_NoDup. Qed.
Lemma lms_in : forall k l m, In (l, m) (lms k) <-> (l < k)%nat /\ (Z.abs_nat m <= l)%nat.
Proof.
  intros k l m. unfold lms. rewrite in_flat_map. split.
  - intros [x [H1 H2]]. apply in_seq in H1. apply in_map_iff in H2. destruct H2 as [i [E H2]]. apply in_seq in H2. injection E as -> <-. lia.
  - intros [H1 H2]. exists l. split; [apply in_seq; lia|]. apply in_map_iff. exists (Z.to_nat (m + Z.of_nat l)). split; [f_equal; lia|]. apply in_seq. lia.
Qed.
Lemma lms_nth : forall k lm, In lm (lms k) -> nth_error (lms k) (pos lm) = Some lm.
Proof.
  intros k lm H. apply In_nth_error in H. destruct H as [j H]. enough (pos lm = j) by congruence.
  assert (J : (j < k * k)%nat). { rewrite <- lms_length. apply nth_error_Some. congruence. }
  assert (X := map_nth_error pos _ _ H). rewrite lms_pos in X. rewrite (nth_error_nth' _ 0%nat) in X by (rewrite seq_length; exact J). rewrite seq_nth in X by exact J. injection X as X. lia.
Qed.
(** The coefficient of an order in a list. *)
Definition coef (clm : list R) (lm : nat * Z) : R := nth (pos lm) clm 0.
Lemma coef_list : forall k clm, length clm = (k * k)%nat -> map (coef clm) (lms k) = clm.
Proof.
  intros k clm L. unfold coef. rewrite <- (map_map pos (fun j => nth j clm 0)), lms_pos, <- L. clear.
  apply (nth_ext _ _ 0 0); [rewrite map_length; apply seq_length|]. intros n H. rewrite map_length, seq_length in H.
  rewrite (nth_indep _ 0 ((fun j => nth j clm 0) 0%nat)) by (rewrite map_length, seq_length; exact H).
  rewrite (map_nth (fun j => nth j clm 0)). rewrite seq_nth by exact H. reflexivity.
Qed.
Lemma coef_map : forall k f lm, In lm (lms k) -> coef (map f (lms k)) lm = f lm.
Proof. intros k f lm H. unfold coef. apply nth_error_nth. apply map_nth_error. apply lms_nth. exact H. Qed.
Lemma combine_map_self : forall {A B} (f : A -> B) l, combine l (map f l) = map (fun x => (x, f x)) l.
Proof. intros A B f l. induction l as [|x l IH]; cbn; f_equal; auto. Qed.
Lemma combine_firstn_l : forall {A B} (a : list A) (b : list B), combine a b = combine a (firstn (length a) b).
Proof. intros A B a. induction a as [|x a IH]; intros [|y b]; cbn; f_equal; auto. Qed.

(** ** The coefficients of healpy *)
Definition almidx (k : nat) (lm : nat * Z) : nat := getidx k (fst lm) (Z.abs_nat (snd lm)).
Lemma add_at_length : forall l i x, length (add_at l i x) = length l.
Proof. induction l as [|a l IH]; intros [|i] x; cbn; auto. Qed.
Lemma nth_add_at : forall l i x a, (a < length l)%nat -> nth a (add_at l i x) (0, 0) = if Nat.eqb i a then cadd (nth a l (0, 0)) x else nth a l (0, 0).
Proof.
  induction l as [|c l IH]; intros [|i] x [|a] H; cbn in H; try lia; try reflexivity. cbn [add_at nth Nat.eqb]. apply IH. lia.
Qed.
Definition hits (f : (nat * Z) * R -> R) (k a : nat) (L : list ((nat * Z) * R)) : R := rsum (map (fun lmc => if Nat.eqb (almidx k (fst lmc)) a then f lmc else 0) L).
Lemma fold_add : forall k L init a, (a < length init)%nat ->
  let r := fold_left (fun alm lmc => add_at alm (getidx k (fst (fst lmc)) (Z.abs_nat (snd (fst lmc)))) (term (snd (fst lmc)) (snd lmc))) L init in
  length r = length init /\
  nth a r (0, 0) = cadd (nth a init (0, 0)) (hits (fun lmc => fst (term (snd (fst lmc)) (snd lmc))) k a L, hits (fun lmc => snd (term (snd (fst lmc)) (snd lmc))) k a L).
Proof.
  intros k L. induction L as [|[[l m] c] L IH]; intros init a H.
  - cbn. split; [reflexivity|]. destruct (nth a init (0, 0)) as [x y]. unfold cadd, hits. cbn. f_equal; ring.
  - cbn [fold_left fst snd]. destruct (IH (add_at init (getidx k l (Z.abs_nat m)) (term m c)) a) as [I1 I2]; [rewrite add_at_length; exact H|].
    split; [rewrite I1; apply add_at_length|]. rewrite I2, nth_add_at by exact H. unfold hits. cbn [map]. rewrite !rsum_cons. cbn [fst snd].
    change (almidx k (l, m)) with (getidx k l (Z.abs_nat m)).
    set (s1 := rsum _). set (s2 := rsum _). destruct (Nat.eqb (getidx k l (Z.abs_nat m)) a); destruct (nth a init (0, 0)) as [x y]; destruct (term m c) as [u v]; unfold cadd; cbn [fst snd]; f_equal; ring.
Qed.
Lemma sum_zero : forall {A} (f : A -> R) L, (forall x, In x L -> f x = 0) -> rsum (map f L) = 0.
Proof. intros A f L W. induction L as [|x L IH]; [reflexivity|]. cbn [map]. rewrite rsum_cons, IH, W; [ring|left; reflexivity|]. intros y I. apply W. right. exact I. Qed.
Lemma sum_unique : forall (f : nat * Z -> R) L lm0, NoDup L -> In lm0 L -> (forall lm, In lm L -> lm <> lm0 -> f lm = 0) -> rsum (map f L) = f lm0.
Proof.
  intros f L lm0 N. induction N as [|lm L Q N IH]; intros I Z; [destruct I|]. cbn [map]. rewrite rsum_cons. destruct I as [->|I].
  - rewrite sum_zero; [ring|]. intros x X. apply Z; [right; exact X|intros ->; tauto].
  - rewrite (Z lm); [|left; reflexivity|intros ->; tauto]. rewrite IH; [ring|exact I|]. intros x X. apply Z. right. exact X.
Qed.
Lemma abs_opp : forall m, Z.abs_nat (- Z.of_nat m) = m.
Proof. intros m. lia. Qed.
Lemma alm_fold : forall k clm, length clm = (k * k)%nat ->
  almFromClm clm = fold_left (fun alm lmc => add_at alm (getidx k (fst (fst lmc)) (Z.abs_nat (snd (fst lmc)))) (term (snd (fst lmc)) (snd lmc)))
    (map (fun lm => (lm, coef clm lm)) (lms k)) (repeat (0, 0) (getsize k)).
Proof.
  intros k clm L. unfold almFromClm. rewrite L, Nat.sqrt_square. rewrite <- (combine_map_self (coef clm)), (coef_list k clm L). reflexivity.
Qed.
Lemma alm_nth : forall k clm l m, length clm = (k * k)%nat -> (m <= l < k)%nat ->
  nth (getidx k l m) (almFromClm clm) (0, 0) =
  if Nat.eqb m 0 then (coef clm (l, 0%Z), 0) else (coef clm (l, Z.of_nat m) / sqrt 2, - (coef clm (l, (- Z.of_nat m)%Z) / sqrt 2)).
Proof.
  intros k clm l m L H. rewrite (alm_fold k clm L).
  destruct (fold_add k (map (fun lm => (lm, coef clm lm)) (lms k)) (repeat (0, 0) (getsize k)) (getidx k l m)) as [_ E]; [rewrite repeat_length; apply getidx_lt; exact H|].
  rewrite E. clear E. rewrite nth_repeat. unfold hits. rewrite !map_map. cbn [fst snd].
  assert (U : forall lm, In lm (lms k) -> Nat.eqb (almidx k lm) (getidx k l m) = true -> fst lm = l /\ Z.abs_nat (snd lm) = m).
  { intros [l' m'] I Q. apply Nat.eqb_eq in Q. apply lms_in in I. unfold almidx in Q. cbn [fst snd] in *. apply getidx_inj in Q; lia. }
  assert (I0 : In (l, Z.of_nat m) (lms k)) by (apply lms_in; lia). assert (I1 : In (l, (- Z.of_nat m)%Z) (lms k)) by (apply lms_in; lia).
  rewrite (sum_unique _ _ (l, Z.of_nat m) (lms_nodup k) I0).
  2:{ intros lm I D. destruct (Nat.eqb (almidx k lm) (getidx k l m)) eqn:Q; [|reflexivity]. destruct (U lm I Q) as [U1 U2]. destruct lm as [l' m']. cbn [fst snd] in *. subst l'.
      unfold term. destruct (m' =? 0)%Z eqn:Q1; [exfalso; apply D; f_equal; lia|]. destruct (m' <? 0)%Z eqn:Q2; [reflexivity|exfalso; apply D; f_equal; lia]. }
  rewrite (sum_unique _ _ (l, (- Z.of_nat m)%Z) (lms_nodup k) I1).
  2:{ intros lm I D. destruct (Nat.eqb (almidx k lm) (getidx k l m)) eqn:Q; [|reflexivity]. destruct (U lm I Q) as [U1 U2]. destruct lm as [l' m']. cbn [fst snd] in *. subst l'.
      unfold term. destruct (m' =? 0)%Z eqn:Q1; [reflexivity|]. destruct (m' <? 0)%Z eqn:Q2; [exfalso; apply D; f_equal; lia|reflexivity]. }
  unfold almidx. cbn [fst snd]. rewrite abs_opp, Zabs2Nat.id, Nat.eqb_refl. unfold cadd, term. cbn [fst snd].
  destruct (Nat.eqb m 0) eqn:M.
  - apply Nat.eqb_eq in M. subst m. cbn. f_equal; ring.
  - apply Nat.eqb_neq in M. destruct (Z.of_nat m =? 0)%Z eqn:Q; [lia|]. destruct (Z.of_nat m <? 0)%Z eqn:Q2; [lia|].
    destruct (- Z.of_nat m =? 0)%Z eqn:Q3; [lia|]. destruct (- Z.of_nat m <? 0)%Z eqn:Q4; [|lia]. cbn [fst snd]. f_equal; ring.
Qed.
Lemma alm_length : forall k clm, length clm = (k * k)%nat -> length (almFromClm clm) = getsize k.
Proof.
  intros k clm L. rewrite (alm_fold k clm L). generalize (map (fun lm => (lm, coef clm lm)) (lms k)) as M. intros M.
  rewrite <- (repeat_length (0, 0) (getsize k)) at 2. generalize (repeat (0, 0) (getsize k)) as init. induction M as [|x M IH]; intros init; [reflexivity|]. cbn [fold_left]. rewrite IH. apply add_at_length.
Qed.
Lemma solve_size : forall k, ((Nat.sqrt (1 + 8 * getsize k) - 1) / 2 = k)%nat.
Proof.
  intros k. assert (B := getsize2 k). replace (1 + 8 * getsize k)%nat with ((2 * k + 1) * (2 * k + 1))%nat by nia.
  rewrite Nat.sqrt_square. replace (2 * k + 1 - 1)%nat with (k * 2)%nat by lia. apply Nat.div_mul. lia.
Qed.
Lemma sqrt2 : sqrt 2 <> 0.
Proof. apply Rgt_not_eq, sqrt_lt_R0. lra. Qed.
Lemma clm_roundtrip_lem : forall k clm, length clm = (k * k)%nat -> clmFromAlm (almFromClm clm) = Ok clm.
Proof.
  intros k clm L. unfold clmFromAlm. rewrite (alm_length k clm L), solve_size, Nat.eqb_refl. apply f_equal.
  transitivity (map (coef clm) (lms k)); [|apply coef_list; exact L]. apply map_ext_in. intros [l m] I. apply lms_in in I. cbn [fst snd].
  rewrite (alm_nth k clm l (Z.abs_nat m) L) by lia. assert (S := sqrt2). unfold back.
  destruct (m =? 0)%Z eqn:M.
  - replace (Nat.eqb (Z.abs_nat m) 0) with true by (symmetry; apply Nat.eqb_eq; lia). cbn. f_equal. f_equal. lia.
  - replace (Nat.eqb (Z.abs_nat m) 0) with false by (symmetry; apply Nat.eqb_neq; lia). destruct (m <? 0)%Z eqn:N; cbn [fst snd].
    + replace (- Z.of_nat (Z.abs_nat m))%Z with m by lia. field. exact S.
    + replace (Z.of_nat (Z.abs_nat m))%Z with m by lia. field. exact S.
Qed.
Lemma alm_roundtrip_lem : forall k (alm : list complex), length alm = getsize k -> (forall l, (l < k)%nat -> snd (nth (getidx k l 0) alm (0, 0)) = 0) ->
  exists clm, clmFromAlm alm = Ok clm /\ length clm = (k * k)%nat /\ almFromClm clm = alm.
Proof.
  intros k alm L Z0. unfold clmFromAlm. rewrite L, solve_size, Nat.eqb_refl. eexists. split; [reflexivity|].
  set (f := fun lm : nat * Z => back (snd lm) (nth (getidx k (fst lm) (Z.abs_nat (snd lm))) alm (0, 0))).
  assert (LC : length (map f (lms k)) = (k * k)%nat) by (rewrite map_length; apply lms_length). split; [exact LC|].
  apply (@nth_ext complex _ _ (0, 0) (0, 0)); [rewrite (alm_length k _ LC); symmetry; exact L|]. rewrite (alm_length k _ LC). intros a A.
  destruct (getidx_onto k a A) as [l [m [H <-]]]. rewrite (alm_nth k _ l m LC H). assert (S := sqrt2).
  destruct (Nat.eqb m 0) eqn:M.
  - apply Nat.eqb_eq in M. subst m. rewrite coef_map by (apply lms_in; lia). unfold f, back. cbn [fst snd Z.abs_nat Z.eqb]. assert (Q := Z0 l ltac:(lia)). destruct (nth (getidx k l 0) alm (0, 0)) as [x y]. cbn in Q |- *. subst y. reflexivity.
  - apply Nat.eqb_neq in M. rewrite !coef_map by (apply lms_in; lia). unfold f, back. cbn [fst snd].
    rewrite abs_opp, Zabs2Nat.id. destruct (Z.of_nat m =? 0)%Z eqn:Q; [lia|]. destruct (Z.of_nat m <? 0)%Z eqn:Q2; [lia|].
    destruct (- Z.of_nat m =? 0)%Z eqn:Q3; [lia|]. destruct (- Z.of_nat m <? 0)%Z eqn:Q4; [|lia].
    destruct (nth (getidx k l m) alm (0, 0)) as [x y]. cbn [fst snd]. f_equal; field; exact S.
Qed.
(** Other lengths. *)
Lemma clm_surplus_lem : forall k clm, (k * k <= length clm < (k + 1) * (k + 1))%nat -> almFromClm clm = almFromClm (firstn (k * k) clm).
Proof.
  intros k clm H. unfold almFromClm. assert (E : Nat.sqrt (length clm) = k) by (apply Nat.sqrt_unique; unfold Nat.square; lia).
  rewrite E, firstn_length, Nat.min_l, Nat.sqrt_square by lia. rewrite combine_firstn_l, lms_length. reflexivity.
Qed.
Lemma alm_shape_lem : forall alm, (forall k, length alm <> (k * (k + 1) / 2)%nat) -> clmFromAlm alm = Err ValueError.
Proof. intros alm H. unfold clmFromAlm. destruct (Nat.eqb _ _) eqn:E; [|reflexivity]. apply Nat.eqb_eq in E. destruct (H _ E). Qed.

(** ** Maps *)
Definition conj (a : complex) : complex := (fst a, - snd a).
(** The symmetry of spherical harmonics. *)
Definition harmonic (Y : Z -> nat -> R -> R -> complex) : Prop := forall m l phi theta, Y (- m)%Z l phi theta = cscale (if Z.even m then 1 else -1) (conj (Y m l phi theta)).
Lemma sgn_sq : forall m, sgn m * sgn m = 1.
Proof. intros m. unfold sgn. destruct (Z.even m); ring. Qed.
Lemma sgn_opp : forall m, sgn (- m) = sgn m.
Proof. intros m. unfold sgn. rewrite Z.even_opp. reflexivity. Qed.
Lemma two_sqrt : 2 / sqrt 2 = sqrt 2.
Proof. assert (S := sqrt2). assert (Q := sqrt_sqrt 2 ltac:(lra)). apply (Rmult_eq_reg_r (sqrt 2)); [|exact S]. rewrite Q. field. exact S. Qed.
Lemma real_harm_lem : forall Y, harmonic Y -> forall m l phi theta,
  real_sph_harm Y m l phi theta =
  if (m =? 0)%Z then fst (Y m l phi theta) else if (0 <? m)%Z then sqrt 2 * fst (Y m l phi theta) else sqrt 2 * snd (Y (- m)%Z l phi theta).
Proof.
  intros Y H m l ph th. unfold real_sph_harm. assert (S := sqrt2).
  destruct (0 <? m)%Z eqn:P.
  - replace (m =? 0)%Z with false by lia. rewrite H. change (if Z.even m then 1 else -1) with (sgn m). destruct (Y m l ph th) as [x y]. unfold cscale, cadd, conj. cbn [fst snd].
    transitivity (1 / sqrt 2 * (x + (sgn m * sgn m) * x)); [ring|]. rewrite sgn_sq. transitivity (2 / sqrt 2 * x); [field; exact S|rewrite two_sqrt; reflexivity].
  - destruct (m =? 0)%Z eqn:Q; [apply Z.eqb_eq in Q; subst m; reflexivity|].
    rewrite <- (Z.opp_involutive m) at 3. rewrite (H (- m)%Z). change (if Z.even (- m) then 1 else -1) with (sgn (- m)). rewrite sgn_opp. destruct (Y (- m)%Z l ph th) as [x y]. unfold cscale, csub, cmul, conj. cbn [fst snd].
    transitivity (1 / sqrt 2 * (y + (sgn m * sgn m) * y)); [ring|]. rewrite sgn_sq. transitivity (2 / sqrt 2 * y); [field; exact S|rewrite two_sqrt; reflexivity].
Qed.
Lemma map_seq_S : forall {A} (f : nat -> A) n s, map f (seq (S s) n) = map (fun i => f (S i)) (seq s n).
Proof. intros A f n s. rewrite <- seq_shift, map_map. reflexivity. Qed.
Lemma sym_sum : forall (g : Z -> R) n, rsum (map (fun i => g (Z.of_nat i - Z.of_nat n)%Z) (seq 0 (2 * n + 1))) = g 0%Z + rsum (map (fun m => g (Z.of_nat (S m)) + g (- Z.of_nat (S m))%Z) (seq 0 n)).
Proof.
  intros g n. induction n as [|n IH]; [cbn; ring|].
  replace (2 * S n + 1)%nat with (S (S (2 * n + 1))) by lia. rewrite (seq_S (S (2 * n + 1)) 0), map_app, rsum_app. change (seq 0 (S (2 * n + 1))) with (0%nat :: seq 1 (2 * n + 1)). cbn [map plus]. rewrite !rsum_cons, map_seq_S.
  rewrite (map_ext _ (fun i => g (Z.of_nat i - Z.of_nat n)%Z)) by (intros i; f_equal; lia). rewrite IH.
  rewrite (seq_S n 0), map_app, rsum_app. cbn [map plus]. rewrite !rsum_cons. change (rsum []) with 0.
  replace (Z.of_nat 0 - Z.of_nat (S n))%Z with (- Z.of_nat (S n))%Z by lia. replace (Z.of_nat (S (2 * n + 1)) - Z.of_nat (S n))%Z with (Z.of_nat (S n)) by lia. ring.
Qed.
Lemma rsum_flat : forall {A B} (f : B -> R) (g : A -> list B) l, rsum (map f (flat_map g l)) = rsum (map (fun x => rsum (map f (g x))) l).
Proof. intros A B f g l. induction l as [|x l IH]; [reflexivity|]. cbn [flat_map map]. rewrite map_app, rsum_app, rsum_cons, IH. reflexivity. Qed.
Lemma fold_ext : forall {A B} (f g : A -> B -> A) l a, (forall x y, f x y = g x y) -> fold_left f l a = fold_left g l a.
Proof. intros A B f g l. induction l as [|x l IH]; intros a H; [reflexivity|]. cbn. rewrite H. apply IH. exact H. Qed.
(** The sum that a map of coefficients is. *)
Lemma map_sum : forall Y k clm pixels, length clm = (k * k)%nat ->
  mapFromClm Y clm pixels = map (fun pt => rsum (map (fun lm => coef clm lm * real_sph_harm Y (snd lm) (fst lm) (fst pt) (snd pt)) (lms k))) pixels.
Proof.
  intros Y k clm pixels L. unfold mapFromClm. rewrite L, Nat.sqrt_square. apply map_ext. intros [ph th]. cbn [fst snd].
  rewrite (fold_plus (fun lmc => snd lmc * real_sph_harm Y (snd (fst lmc)) (fst (fst lmc)) ph th)).
  rewrite <- (coef_list k clm L) at 1. rewrite combine_map_self, map_map. cbn [fst snd]. ring.
Qed.
Lemma maps_agree_lem : forall Y, harmonic Y -> forall k clm pixels, length clm = (k * k)%nat -> mapFromClm_fast Y clm pixels = mapFromClm Y clm pixels.
Proof.
  intros Y H k clm pixels L. rewrite (map_sum Y k clm pixels L). unfold mapFromClm_fast, alm2map. rewrite L, Nat.sqrt_square.
  apply map_ext. intros [ph th]. cbn [fst snd].
  rewrite (fold_ext _ (fun h l => h + rsum (map (fun m => (if Nat.eqb m 0 then 1 else 2) * fst (cmul (nth (getidx k l m) (almFromClm clm) (0, 0)) (Y (Z.of_nat m) l ph th))) (seq 0 (l + 1))))) by (intros h l; apply fold_plus).
  rewrite fold_plus, Rplus_0_l. unfold lms. rewrite rsum_flat. f_equal. apply map_ext_in. intros l I. apply in_seq in I.
  rewrite map_map. cbn [fst snd]. rewrite (sym_sum (fun m => coef clm (l, m) * real_sph_harm Y m l ph th) l).
  rewrite Nat.add_1_r. cbn [seq map]. rewrite rsum_cons, map_seq_S. f_equal.
  - rewrite (alm_nth k clm l 0 L) by lia. cbn [Nat.eqb Z.of_nat]. rewrite real_harm_lem by exact H. cbn. ring.
  - f_equal. apply map_ext_in. intros m M. apply in_seq in M. rewrite (alm_nth k clm l (S m) L) by lia. cbn [Nat.eqb]. rewrite !real_harm_lem by exact H.
    assert (B1 : (Z.of_nat (S m) =? 0)%Z = false) by (apply Z.eqb_neq; lia). assert (B2 : (0 <? Z.of_nat (S m))%Z = true) by (apply Z.ltb_lt; lia).
    assert (B3 : (- Z.of_nat (S m) =? 0)%Z = false) by (apply Z.eqb_neq; lia). assert (B4 : (0 <? - Z.of_nat (S m))%Z = false) by (apply Z.ltb_ge; lia).
    rewrite B1, B2, B3, B4. rewrite Z.opp_involutive. destruct (Y (Z.of_nat (S m)) l ph th) as [x y]. unfold cmul. cbn [fst snd].
    set (c := coef clm (l, Z.of_nat (S m))). set (d := coef clm (l, (- Z.of_nat (S m))%Z)).
    transitivity (2 / sqrt 2 * (c * x + d * y)); [field; exact sqrt2|rewrite two_sqrt; ring].
Qed.

(** ** Correlations *)
Definition entry (M : list (list R)) (i j : nat) : R := nth j (nth i M []) 0.
Lemma nth_seq_combine : forall {A} (l : list A) i d, (i < length l)%nat -> nth i (combine (seq 0 (length l)) l) (0%nat, d) = (i, nth i l d).
Proof. intros A l i d H. rewrite combine_nth by apply seq_length. rewrite seq_nth by exact H. reflexivity. Qed.
(** The power of a map seen by two pulsars, plus then cross. *)
Definition power (h a b : list R) : R := rsum (map (fun i => nth i h 0 * (nth (2 * i) a 0 * nth (2 * i) b 0 + nth (2 * i + 1) a 0 * nth (2 * i + 1) b 0)) (seq 0 (length h))).
Lemma power_rdot : forall h a b, length a = (2 * length h)%nat -> length b = (2 * length h)%nat ->
  rdot (map (fun fs => fst fs * snd fs) (combine a (flat_map (fun x => [x; x]) h))) b = power h a b.
Proof.
  intros h. unfold rdot, power. fold rsum. change (fold_right Rplus 0) with rsum. induction h as [|x h IH]; intros a b A B.
  - destruct a; [reflexivity|discriminate].
  - destruct a as [|a1 [|a2 a]]; try (cbn in A; lia). destruct b as [|b1 [|b2 b]]; try (cbn in B; lia).
    cbn [flat_map app combine map fst snd length seq]. rewrite !rsum_cons, map_seq_S.
    specialize (IH a b ltac:(cbn in A; lia) ltac:(cbn in B; lia)). change (flat_map (fun x => [x; x]) h) with (flat_map (fun x => [x; x]) h) in *. rewrite IH.
    cbn [nth]. replace (2 * 0)%nat with 0%nat by lia. cbn [nth plus].
    rewrite (map_ext (fun i => nth i h 0 * (nth (2 * S i) (a1 :: a2 :: a) 0 * nth (2 * S i) (b1 :: b2 :: b) 0 + nth (2 * S i + 1) (a1 :: a2 :: a) 0 * nth (2 * S i + 1) (b1 :: b2 :: b) 0))
       (fun i => nth i h 0 * (nth (2 * i) a 0 * nth (2 * i) b 0 + nth (2 * i + 1) a 0 * nth (2 * i + 1) b 0))).
    + ring.
    + intros i. replace (2 * S i)%nat with (S (S (2 * i))) by lia. reflexivity.
Qed.
Lemma nth_map' : forall {A B} (f : A -> B) l i d d', (i < length l)%nat -> nth i (map f l) d = f (nth i l d').
Proof. intros A B f l i d d' H. rewrite (nth_indep _ d (f d')) by (rewrite map_length; exact H). apply map_nth. Qed.
Lemma getCov_entry : forall h F i j, Forall (fun r => length r = (2 * length h)%nat) F -> (i < length F)%nat -> (j < length F)%nat ->
  entry (getCov h F) i j = (if Nat.eqb i j then 2 else 1) * power h (nth i F []) (nth j F []).
Proof.
  intros h F i j W I J. unfold entry, getCov. rewrite Forall_forall in W.
  assert (LX : length (combine (seq 0 (length F)) F) = length F) by (rewrite combine_length, seq_length; lia).
  rewrite (nth_map' _ _ i _ (0%nat, [])) by (rewrite LX; exact I). rewrite (nth_map' _ _ j _ (0%nat, [])) by (rewrite LX; exact J).
  rewrite !nth_seq_combine by assumption. cbn [fst snd]. rewrite power_rdot by (apply W, nth_In; assumption). cbv zeta. destruct (Nat.eqb i j); ring.
Qed.
Lemma rsum_ext : forall {A} (f g : A -> R) l, (forall x, In x l -> f x = g x) -> rsum (map f l) = rsum (map g l).
Proof. intros A f g l H. f_equal. apply map_ext_in. exact H. Qed.
Lemma rsum_plus : forall {A} (f g : A -> R) l, rsum (map (fun x => f x + g x) l) = rsum (map f l) + rsum (map g l).
Proof. intros A f g l. induction l as [|x l IH]; [cbn; ring|]. cbn [map]. rewrite !rsum_cons, IH. ring. Qed.
Lemma rsum_scal : forall {A} c (f : A -> R) l, rsum (map (fun x => c * f x) l) = c * rsum (map f l).
Proof. intros A c f l. induction l as [|x l IH]; [cbn; ring|]. cbn [map]. rewrite !rsum_cons, IH. ring. Qed.
Lemma rsum_swap : forall {A B} (f : A -> B -> R) l l', rsum (map (fun x => rsum (map (f x) l')) l) = rsum (map (fun y => rsum (map (fun x => f x y) l)) l').
Proof.
  intros A B f l l'. induction l as [|x l IH].
  - cbn [map]. change (rsum []) with 0. rewrite sum_zero; [reflexivity|]. intros y _. reflexivity.
  - cbn [map]. rewrite rsum_cons, IH, <- rsum_plus. apply rsum_ext. intros y _. rewrite rsum_cons. reflexivity.
Qed.
Lemma rsum_nonneg : forall {A} (f : A -> R) l, (forall x, In x l -> 0 <= f x) -> 0 <= rsum (map f l).
Proof. intros A f l. induction l as [|x l IH]; intros H; [cbn; lra|]. cbn [map]. rewrite rsum_cons. apply Rplus_le_le_0_compat; [apply H; left; reflexivity|apply IH; intros y Y; apply H; right; exact Y]. Qed.
Lemma rsum_square : forall {A} (f : A -> R) l, rsum (map (fun x => rsum (map (fun y => f x * f y) l)) l) = rsum (map f l) ^ 2.
Proof.
  intros A f l. rewrite (rsum_ext _ (fun x => rsum (map f l) * f x)) by (intros x _; rewrite rsum_scal; ring).
  rewrite rsum_scal. ring.
Qed.

Lemma power_sym : forall h a b, power h a b = power h b a.
Proof. intros h a b. apply rsum_ext. intros i _. ring. Qed.
Lemma cov_lem : forall h F, Forall (fun r => length r = (2 * length h)%nat) F ->
  length (getCov h F) = length F /\ Forall (fun r => length r = length F) (getCov h F) /\
  forall i j, (i < length F)%nat -> (j < length F)%nat ->
    let seen := fun p => nth (2 * p) (nth i F []) 0 * nth (2 * p) (nth j F []) 0 + nth (2 * p + 1) (nth i F []) 0 * nth (2 * p + 1) (nth j F []) 0 in
    entry (getCov h F) i j = (if Nat.eqb i j then 2 else 1) * rsum (map (fun p => nth p h 0 * seen p) (seq 0 (length h))) /\
    entry (getCov h F) i j = entry (getCov h F) j i.
Proof.
  intros h F W. split; [|split].
  - unfold getCov. rewrite map_length, combine_length, seq_length. lia.
  - apply Forall_forall. intros r I. unfold getCov in I. apply in_map_iff in I. destruct I as [x [<- _]]. rewrite map_length, combine_length, seq_length. lia.
  - intros i j I J. split; [apply getCov_entry; assumption|]. rewrite !getCov_entry by assumption. rewrite power_sym, Nat.eqb_sym. reflexivity.
Qed.
Lemma cov_positive_lem : forall h F x, Forall (fun r => length r = (2 * length h)%nat) F -> (forall p, 0 <= nth p h 0) ->
  0 <= rsum (map (fun i => rsum (map (fun j => x i * x j * entry (getCov h F) i j) (seq 0 (length F)))) (seq 0 (length F))).
Proof.
  intros h F x W P. set (N := seq 0 (length F)). set (M := seq 0 (length h)).
  assert (B : forall i, In i N -> (i < length F)%nat) by (intros i I; apply in_seq in I; lia).
  assert (E : rsum (map (fun i => rsum (map (fun j => x i * x j * entry (getCov h F) i j) N)) N)
    = rsum (map (fun p => nth p h 0 * (rsum (map (fun i => x i * nth (2 * p) (nth i F []) 0) N) ^ 2 + rsum (map (fun i => x i * nth (2 * p + 1) (nth i F []) 0) N) ^ 2)) M)
      + rsum (map (fun i => x i ^ 2 * power h (nth i F []) (nth i F [])) N)).
  { transitivity (rsum (map (fun i => rsum (map (fun j => x i * x j * power h (nth i F []) (nth j F [])) N)) N) + rsum (map (fun i => x i ^ 2 * power h (nth i F []) (nth i F [])) N)).
    - rewrite <- rsum_plus. apply rsum_ext. intros i I.
      assert (D : rsum (map (fun j => if Nat.eqb i j then x i ^ 2 * power h (nth i F []) (nth i F []) else 0) N) = x i ^ 2 * power h (nth i F []) (nth i F [])).
      { clear - I. assert (ND : NoDup N) by apply seq_NoDup. induction ND as [|y N Q ND IH]; [destruct I|]. cbn [map]. rewrite rsum_cons. destruct I as [->|I].
        - rewrite Nat.eqb_refl, sum_zero; [ring|]. intros z Z. destruct (Nat.eqb i z) eqn:C; [apply Nat.eqb_eq in C; subst; tauto|reflexivity].
        - destruct (Nat.eqb i y) eqn:C; [apply Nat.eqb_eq in C; subst; tauto|]. rewrite IH by exact I. ring. }
      rewrite <- D, <- rsum_plus. apply rsum_ext. intros j J. rewrite getCov_entry by auto. destruct (Nat.eqb i j) eqn:C; [|ring]. apply Nat.eqb_eq in C. subst j. ring.
    - f_equal. unfold power.
      rewrite (rsum_ext _ (fun i => rsum (map (fun p => rsum (map (fun j => nth p h 0 * ((x i * nth (2 * p) (nth i F []) 0) * (x j * nth (2 * p) (nth j F []) 0) + (x i * nth (2 * p + 1) (nth i F []) 0) * (x j * nth (2 * p + 1) (nth j F []) 0))) N)) M))).
      + rewrite rsum_swap. apply rsum_ext. intros p _. rewrite <- !rsum_square.
        rewrite <- rsum_plus, <- rsum_scal. apply rsum_ext. intros i _. rewrite <- rsum_plus, <- rsum_scal. apply rsum_ext. intros j _. ring.
      + intros i _. rewrite <- rsum_swap. apply rsum_ext. intros j _. rewrite <- rsum_scal. apply rsum_ext. intros p _. ring. }
  rewrite E. apply Rplus_le_le_0_compat; apply rsum_nonneg.
  - intros p _. apply Rmult_le_pos; [apply P|]. apply Rplus_le_le_0_compat; apply pow2_ge_0.
  - intros i _. apply Rmult_le_pos; [apply pow2_ge_0|]. unfold power. apply rsum_nonneg. intros p _. apply Rmult_le_pos; [apply P|]. nra.
Qed.

Lemma response_length : forall psrs pixels, Forall (fun r => length r = (2 * length pixels)%nat) (signal_response psrs pixels).
Proof.
  intros psrs pixels. unfold signal_response. apply Forall_forall. intros r I. apply in_map_iff in I. destruct I as [pp [<- _]].
  generalize (length pixels) at 1 2 as n. intros n. induction pixels as [|g pixels IH]; [reflexivity|]. cbn [flat_map app length]. rewrite IH. lia.
Qed.
Lemma map_length_fast : forall Y clm pixels, length (mapFromClm_fast Y clm pixels) = length pixels.
Proof. intros. unfold mapFromClm_fast, alm2map. apply map_length. Qed.
Lemma coef_unit : forall k i lm, In lm (lms k) -> (i < k * k)%nat -> coef (unit_vector (k * k) i) lm = if Nat.eqb (pos lm) i then 1 else 0.
Proof.
  intros k i lm H I. unfold coef, unit_vector. assert (P : (pos lm < k * k)%nat).
  { assert (X := in_map pos _ _ H). rewrite lms_pos in X. apply in_seq in X. lia. }
  rewrite (nth_map' _ _ _ _ 0%nat) by (rewrite seq_length; exact P). rewrite seq_nth by exact P. reflexivity.
Qed.
Lemma nth_pix : forall Y, harmonic Y -> forall k clm pixels p, length clm = (k * k)%nat -> (p < length pixels)%nat ->
  nth p (mapFromClm_fast Y clm pixels) 0 = rsum (map (fun lm => coef clm lm * real_sph_harm Y (snd lm) (fst lm) (fst (nth p pixels (0, 0))) (snd (nth p pixels (0, 0)))) (lms k)).
Proof. intros Y H k clm pixels p L P. rewrite (maps_agree_lem Y H k clm pixels L), (map_sum Y k clm pixels L). rewrite (nth_map' _ _ _ _ (0, 0)) by exact P. reflexivity. Qed.
Lemma unit_length : forall n i, length (unit_vector n i) = n.
Proof. intros. unfold unit_vector. rewrite map_length. apply seq_length. Qed.
(** A map is the sum of the maps of its coefficients. *)
Lemma map_units : forall Y, harmonic Y -> forall k clm pixels p, length clm = (k * k)%nat -> (p < length pixels)%nat ->
  nth p (mapFromClm_fast Y clm pixels) 0 = rsum (map (fun a => nth a clm 0 * nth p (mapFromClm_fast Y (unit_vector (k * k) a) pixels) 0) (seq 0 (k * k))).
Proof.
  intros Y H k clm pixels p L P. rewrite (nth_pix Y H k clm pixels p L P).
  rewrite <- lms_pos, map_map. apply rsum_ext. intros lm I.
  assert (Q : (pos lm < k * k)%nat). { assert (X := in_map pos _ _ I). rewrite lms_pos in X. apply in_seq in X. lia. }
  rewrite (nth_pix Y H k _ pixels p (unit_length _ _) P). change (nth (pos lm) clm 0) with (coef clm lm). f_equal.
  rewrite (sum_unique _ _ lm (lms_nodup k) I).
  - rewrite coef_unit by assumption. rewrite Nat.eqb_refl. ring.
  - intros lm' I' D. rewrite coef_unit by assumption. destruct (Nat.eqb (pos lm') (pos lm)) eqn:C; [|ring].
    exfalso. apply D. apply Nat.eqb_eq in C. assert (X := lms_nth k lm I). assert (X' := lms_nth k lm' I'). rewrite C in X'. congruence.
Qed.
Lemma power_ext : forall h h' a b, length h = length h' -> (forall p, (p < length h)%nat -> nth p h 0 = nth p h' 0) -> power h a b = power h' a b.
Proof. intros h h' a b L H. unfold power. rewrite <- L. apply rsum_ext. intros p I. apply in_seq in I. rewrite H by lia. reflexivity. Qed.
Lemma anis_basis_lem : forall Y, harmonic Y -> forall psrs lmax pixels, let B := anis_basis Y psrs lmax pixels in let n := ((lmax + 1) * (lmax + 1))%nat in
  length B = n /\ forall clm i j, length clm = n -> (i < length psrs)%nat -> (j < length psrs)%nat ->
  rsum (map (fun a => nth a clm 0 * entry (nth a B []) i j) (seq 0 n)) = entry (getCov (mapFromClm_fast Y clm pixels) (signal_response psrs pixels)) i j.
Proof.
  intros Y H psrs lmax pixels B n. assert (LB : length B = n) by (unfold B, anis_basis; rewrite map_length, seq_length; apply lms_length). split; [exact LB|].
  intros clm i j L I J. set (F := signal_response psrs pixels).
  assert (LF : length F = length psrs) by apply map_length.
  assert (W : forall c, Forall (fun r => length r = (2 * length (mapFromClm_fast Y c pixels))%nat) F) by (intros c; rewrite map_length_fast; apply response_length).
  rewrite getCov_entry by (try apply W; lia).
  rewrite (rsum_ext _ (fun a => (if Nat.eqb i j then 2 else 1) * (nth a clm 0 * power (mapFromClm_fast Y (unit_vector n a) pixels) (nth i F []) (nth j F [])))).
  - rewrite rsum_scal. f_equal. unfold power. rewrite map_length_fast.
    rewrite (rsum_ext _ (fun a => rsum (map (fun p => nth a clm 0 * (nth p (mapFromClm_fast Y (unit_vector n a) pixels) 0 *
      (nth (2 * p) (nth i F []) 0 * nth (2 * p) (nth j F []) 0 + nth (2 * p + 1) (nth i F []) 0 * nth (2 * p + 1) (nth j F []) 0))) (seq 0 (length pixels))))) by (intros a _; rewrite rsum_scal, map_length_fast; reflexivity).
    rewrite rsum_swap. apply rsum_ext. intros p P. apply in_seq in P. rewrite (map_units Y H (lmax + 1) clm pixels p L) by lia. fold n.
    rewrite (Rmult_comm (rsum _)), <- rsum_scal. apply rsum_ext. intros a _. ring.
  - intros a A. apply in_seq in A. unfold B, anis_basis. rewrite (nth_map' _ _ a _ 0%nat) by (rewrite seq_length, lms_length; fold n; lia).
    rewrite seq_nth by (rewrite lms_length; fold n; lia). cbn [plus]. fold n F. rewrite getCov_entry by (try apply W; lia). ring.
Qed.
Lemma anis_orf_lem : forall Y, harmonic Y -> forall psrs lmax pixels pos1 pos2 params psrs_pos i j,
  (0 < lmax)%nat -> length params = ((lmax + 1) * (lmax + 1) - 1)%nat -> length psrs_pos = length psrs ->
  first_at psrs_pos pos1 0 = Ok i -> first_at psrs_pos pos2 0 = Ok j -> (i < length psrs)%nat -> (j < length psrs)%nat ->
  let B := anis_basis Y psrs lmax pixels in
  anis_orf pos1 pos2 params (fun a x y => entry (nth a B []) x y) (length B) psrs_pos lmax =
  Ok (entry (getCov (mapFromClm_fast Y (2 * sqrt PI :: params) pixels) (signal_response psrs pixels)) i j).
Proof.
  intros Y H psrs lmax pixels pos1 pos2 params psrs_pos i j P L LP E1 E2 I J B.
  destruct (anis_basis_lem Y H psrs lmax pixels) as [LB S]. unfold anis_orf. rewrite E1, E2. cbn [rbind].
  replace (Nat.ltb 0 lmax) with true by (symmetry; apply Nat.ltb_lt; exact P). unfold fill. rewrite L, Nat.eqb_refl. cbn [rbind]. apply f_equal.
  unfold B. rewrite LB, Nat.min_id. rewrite fold_plus, Rplus_0_l. apply S; [|assumption|assumption]. cbn [length]. rewrite L. lia.
Qed.

(** ** The response of one pulsar *)
Definition toward (phi theta : R) : vec := (cos phi * sin theta, sin phi * sin theta, cos theta).
Lemma response_power_lem : forall pphi ptheta gwphi gwtheta n, (0 < n)%nat -> dot (toward gwphi gwtheta) (toward pphi ptheta) <> -1 ->
  response pphi ptheta gwphi gwtheta n true ^ 2 + response pphi ptheta gwphi gwtheta n false ^ 2
  = 3 / 2 / INR n * ((1 - dot (toward gwphi gwtheta) (toward pphi ptheta)) / 2) ^ 2.
Proof.
  intros pf pt f t n N D. unfold response.
  set (p := (cos pf * sin pt, sin pf * sin pt, cos pt)). change (toward pf pt) with p in *.
  assert (U : dot p p = 1).
  { unfold p. cbn. assert (A := sin2_cos2 pf). assert (B := sin2_cos2 pt). unfold Rsqr in *.
    transitivity ((sin pf * sin pf + cos pf * cos pf) * (sin pt * sin pt) + cos pt * cos pt); [ring|]. rewrite A. lra. }
  assert (O : dot (- sin t * cos f, - sin t * sin f, - cos t) p = - dot (toward f t) p) by (destruct p as [[x y] z]; cbn; ring).
  rewrite O. set (mu := dot (toward f t) p) in *.
  assert (E : dot (- sin f, cos f, 0) p ^ 2 + dot (- cos f * cos t, - cos t * sin f, sin t) p ^ 2 = 1 - mu ^ 2).
  { unfold mu, toward. clear - U. destruct p as [[x y] z]. cbn in *. assert (A := sin2_cos2 t). assert (B := sin2_cos2 f). unfold Rsqr in *.
    set (st := sin t) in *. set (ct := cos t) in *. set (sf := sin f) in *. set (cf := cos f) in *. clearbody st ct sf cf.
    assert (A' : st * st = 1 - ct * ct) by lra. assert (B' : sf * sf = 1 - cf * cf) by lra.
    assert (E : (- sf * x + cf * y + 0 * z) ^ 2 + (- cf * ct * x + - ct * sf * y + st * z) ^ 2 + (cf * st * x + sf * st * y + ct * z) ^ 2
            = (sf * sf + cf * cf * (ct * ct + st * st)) * (x * x) + (cf * cf + sf * sf * (ct * ct + st * st)) * (y * y) + (ct * ct + st * st) * (z * z)
              + 2 * x * y * (sf * cf * (ct * ct + st * st - 1))) by ring.
    rewrite A', B' in E. replace (ct * ct + (1 - ct * ct)) with 1 in E by ring. replace (1 - cf * cf + cf * cf * 1) with 1 in E by ring.
    replace (cf * cf + (1 - cf * cf) * 1) with 1 in E by ring. lra. }
  clearbody mu. set (a := dot (- sin f, cos f, 0) p) in *. set (b := dot (- cos f * cos t, - cos t * sin f, sin t) p) in *. clearbody a b.
  assert (C : (sqrt (3 / 2) / sqrt (INR n)) ^ 2 = 3 / 2 / INR n).
  { assert (0 < INR n) by (apply lt_0_INR; exact N). unfold Rdiv. rewrite Rpow_mult_distr, pow_inv, !pow2_sqrt by lra. reflexivity. }
  set (c := sqrt (3 / 2) / sqrt (INR n)) in *. rewrite <- C. clearbody c.
  transitivity (c ^ 2 * ((a ^ 2 + b ^ 2) / (1 + mu)) ^ 2 / 4); [field; lra|]. rewrite E. field. lra.
Qed.
Lemma response_lem : forall psrs pixels i p, (i < length psrs)%nat -> (p < length pixels)%nat ->
  let F := signal_response psrs pixels in let s := nth i psrs (0, 0) in let g := nth p pixels (0, 0) in
  nth (2 * p) (nth i F []) 0 = response (fst s) (snd s) (fst g) (snd g) (length pixels) true /\
  nth (2 * p + 1) (nth i F []) 0 = response (fst s) (snd s) (fst g) (snd g) (length pixels) false.
Proof.
  intros psrs pixels i p I P. cbv zeta. unfold signal_response. rewrite (nth_map' _ _ i _ (0, 0)) by exact I. generalize (nth i psrs (0, 0)) as s. intros s.
  generalize (length pixels) at 1 2 3 4 5 6 as n. intros n. revert p P. induction pixels as [|g pixels IH]; intros p P; [cbn in P; lia|].
  cbn [flat_map app]. destruct p as [|p]; [split; reflexivity|]. cbn in P. replace (2 * S p)%nat with (S (S (2 * p))) by lia. cbn [nth plus]. apply IH. lia.
Qed.
Lemma map_response_lem : forall psrs h F pixels, Forall (fun r => length r = (2 * length h)%nat) F ->
  forall i j, (i < length F)%nat -> (j < length F)%nat ->
    let seen := fun p => nth (2 * p) (nth i F []) 0 * nth (2 * p) (nth j F []) 0 + nth (2 * p + 1) (nth i F []) 0 * nth (2 * p + 1) (nth j F []) 0 in
    entry (orfFromMap_fast psrs h (Some F) pixels) i j = (if Nat.eqb i j then 2 else 1) * rsum (map (fun p => nth p h 0 * seen p) (seq 0 (length h))).
Proof. intros psrs h F pixels W i j I J. exact (proj1 (proj2 (proj2 (cov_lem h F W)) i j I J)). Qed.
