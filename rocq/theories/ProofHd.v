(** The Hellings-Downs matrix is positive definite. *)
From Coq Require Import Reals ZArith Bool Arith List Lra Lia.
From Verif Require Import PyBase ProofBase ModelBases ModelSpectra ModelOrf ProofBases ProofSpectra ProofOrf.
Import ListNotations.
Open Scope list_scope.
Open Scope R_scope.

(** ** Convolutions with binomial coefficients *)
Definition conv (f g : nat -> R) (n : nat) : R := sum_f_R0 (fun i => C n i * f i * g (n - i)%nat) n.
Lemma fact_pos : forall n, 0 < INR (fact n).
Proof. intros. apply INR_fact_lt_0. Qed.
Lemma C0 : forall n, C n 0 = 1.
Proof. intros. unfold C. rewrite Nat.sub_0_r. cbn. pose proof (fact_pos n). field. lra. Qed.
Lemma Cn : forall n, C n n = 1.
Proof. intros. unfold C. rewrite Nat.sub_diag. cbn. pose proof (fact_pos n). field. lra. Qed.
Lemma conv_ext : forall f f' g g' n, (forall i, (i <= n)%nat -> f i = f' i) -> (forall i, (i <= n)%nat -> g i = g' i) -> conv f g n = conv f' g' n.
Proof. intros f f' g g' n Hf Hg. unfold conv. apply sum_eq. intros i Hi. rewrite Hf, Hg by lia. reflexivity. Qed.
Lemma conv_pow : forall x y n, conv (fun i => x ^ i) (fun i => y ^ i) n = (x + y) ^ n.
Proof. intros. unfold conv. now rewrite binomial. Qed.
(** Pascal's rule for convolutions *)
Lemma conv_S : forall f g n, conv f g (S n) = conv (fun i => f (S i)) g n + conv f (fun i => g (S i)) n.
Proof.
  intros f g n. unfold conv. destruct n as [|n].
  - cbn [sum_f_R0]. rewrite !C0, !Cn. cbn [Nat.sub]. ring.
  - rewrite (decomp_sum _ (S (S n))) by lia. cbn [pred]. rewrite C0. rewrite tech5. rewrite Cn.
    rewrite (decomp_sum (fun i => C (S n) i * f i * g (S (S n - i)))) by lia. cbn [pred]. rewrite C0.
    rewrite (tech5 (fun i => C (S n) i * f (S i) * g (S n - i)%nat)). rewrite Cn.
    replace (sum_f_R0 (fun i => C (S (S n)) (S i) * f (S i) * g (S (S n) - S i)%nat) n)
      with (sum_f_R0 (fun i => C (S n) i * f (S i) * g (S n - i)%nat) n + sum_f_R0 (fun i => C (S n) (S i) * f (S i) * g (S (S n - S i))) n).
    + rewrite !Nat.sub_diag, !Nat.sub_0_r. ring.
    + rewrite <- plus_sum. apply sum_eq. intros i Hi. rewrite <- (pascal (S n) i) by lia.
      replace (S (S n) - S i)%nat with (S n - i)%nat by lia. replace (S (S n - S i)) with (S n - i)%nat by lia. ring.
Qed.
Fixpoint rising (x : R) (n : nat) : R := match n with 0%nat => 1 | S n => rising x n * (x + 2 * INR n) end.
Lemma rising_pos : forall x n, 0 < x -> 0 < rising x n.
Proof. intros x n Hx. induction n as [|n IH]; cbn; [lra|]. pose proof (pos_INR n). apply Rmult_lt_0_compat; lra. Qed.
Lemma conv_rising : forall x y n, conv (rising x) (rising y) n = rising (x + y) n.
Proof.
  intros x y n. induction n as [|n IH]; [unfold conv; cbn; rewrite C0; ring|]. rewrite conv_S. cbn [rising]. rewrite <- IH.
  unfold conv. rewrite Rmult_comm, scal_sum, <- plus_sum. apply sum_eq. intros i Hi. rewrite minus_INR by exact Hi. ring.
Qed.
Lemma rising_first : forall x n, rising x (S n) = x * rising (x + 2) n.
Proof. intros x n. induction n as [|n IH]; [cbn; ring|]. cbn [rising] in *. rewrite IH, S_INR. ring. Qed.
Lemma rising_up : forall x n, (x + 2 * INR n) * rising x n = x * rising (x + 2) n.
Proof. intros. rewrite <- rising_first. cbn. ring. Qed.

(** Gaussian moments: zero for odd orders. *)
Definition moment (n : nat) : R := if Nat.even n then rising 1 (Nat.div2 n) else 0.
Definition half (u : nat -> R) (n : nat) : R := moment n * u (Nat.div2 n).
Lemma even_2 : forall i, Nat.even (2 * i) = true.
Proof. intros. apply Nat.even_spec. now exists i. Qed.
Lemma odd_2 : forall i, Nat.even (S (2 * i)) = false.
Proof. intros. rewrite Nat.even_succ, <- Nat.negb_even, even_2. reflexivity. Qed.
Lemma moment_even : forall i, moment (2 * i) = rising 1 i.
Proof. intros. unfold moment. now rewrite even_2, Nat.div2_double. Qed.
Lemma moment_odd : forall i, moment (S (2 * i)) = 0.
Proof. intros. unfold moment. now rewrite odd_2. Qed.
Lemma moment_SS : forall n, moment (S (S n)) = INR (S n) * moment n.
Proof.
  intros n. unfold moment. cbn [Nat.even Nat.div2]. destruct (Nat.even n) eqn:E; [|ring]. cbn [rising].
  apply Nat.even_spec in E as [k ->]. rewrite Nat.div2_double, S_INR, mult_INR. cbn [INR]. ring.
Qed.
Lemma half_even : forall u i, half u (2 * i) = rising 1 i * u i.
Proof. intros. unfold half. now rewrite moment_even, Nat.div2_double. Qed.
Lemma half_odd : forall u i, half u (S (2 * i)) = 0.
Proof. intros. unfold half. rewrite moment_odd. ring. Qed.
Lemma fact_even : forall n, INR (fact (2 * n)) = 2 ^ n * INR (fact n) * rising 1 n.
Proof.
  induction n as [|n IH]; [cbn; ring|]. replace (2 * S n)%nat with (S (S (2 * n))) by lia. rewrite !fact_simpl, !mult_INR, IH, !S_INR, mult_INR. cbn [rising pow INR]. ring.
Qed.
Lemma C_even : forall n i, (i <= n)%nat -> C (2 * n) (2 * i) * rising 1 i * rising 1 (n - i) = rising 1 n * C n i.
Proof.
  intros n i H. unfold C. replace (2 * n - 2 * i)%nat with (2 * (n - i))%nat by lia. rewrite !fact_even.
  replace (2 ^ n) with (2 ^ i * 2 ^ (n - i)) by (rewrite <- pow_add; f_equal; lia).
  pose proof (rising_pos 1 n Rlt_0_1). pose proof (rising_pos 1 i Rlt_0_1). pose proof (rising_pos 1 (n - i) Rlt_0_1).
  pose proof (fact_pos n). pose proof (fact_pos i). pose proof (fact_pos (n - i)).
  assert (2 ^ i <> 0) by (apply pow_nonzero; lra). assert (2 ^ (n - i) <> 0) by (apply pow_nonzero; lra). field. repeat split; lra.
Qed.
Lemma sum_even : forall f n, (forall i, f (S (2 * i)) = 0) -> sum_f_R0 f (2 * n) = sum_f_R0 (fun i => f (2 * i)%nat) n.
Proof.
  intros f n H. induction n as [|n IH]; [reflexivity|]. replace (2 * S n)%nat with (S (S (2 * n))) by lia.
  rewrite !tech5, IH, H. replace (2 * S n)%nat with (S (S (2 * n))) by lia. ring.
Qed.
(** Convolving halves convolves what they are halves of. *)
Lemma conv_half : forall u v n, conv (half u) (half v) n = half (conv u v) n.
Proof.
  intros u v n. destruct (Nat.Even_or_Odd n) as [[m ->]|[m ->]].
  - rewrite half_even. unfold conv. rewrite sum_even.
    + rewrite scal_sum. apply sum_eq. intros i Hi. replace (2 * m - 2 * i)%nat with (2 * (m - i))%nat by lia. rewrite !half_even.
      pose proof (C_even m i Hi) as E. replace (C m i * u i * v (m - i)%nat * rising 1 m) with (rising 1 m * C m i * u i * v (m - i)%nat) by ring.
      rewrite <- E. ring.
    + intros i. rewrite half_odd. ring.
  - replace (2 * m + 1)%nat with (S (2 * m)) by lia. rewrite half_odd. unfold conv. rewrite (sum_eq _ (fun _ => 0)); [rewrite sum_cte; ring|].
    intros i Hi. destruct (Nat.Even_or_Odd i) as [[k ->]|[k ->]].
    + replace (S (2 * m) - 2 * k)%nat with (S (2 * (m - k))) by lia. rewrite half_odd. ring.
    + replace (2 * k + 1)%nat with (S (2 * k)) by lia. rewrite half_odd. ring.
Qed.
(** Lowering the first factor. *)
Lemma conv_lower : forall f f' g n, f 0%nat = 0 -> (forall i, (i <= n)%nat -> f (S i) = INR (S i) * f' i) -> conv f g (S n) = INR (S n) * conv f' g n.
Proof.
  intros f f' g n H0 H. unfold conv. rewrite decomp_sum by lia. cbn [pred]. rewrite H0, Rmult_0_r, Rmult_0_l, Rplus_0_l, scal_sum.
  apply sum_eq. intros i Hi. rewrite H by exact Hi. replace (S n - S i)%nat with (n - i)%nat by lia.
  replace (C (S n) (S i) * (INR (S i) * f' i) * g (n - i)%nat) with (C (S n) (S i) * INR (S i) * f' i * g (n - i)%nat) by ring.
  replace (C (S n) (S i) * INR (S i)) with (C n i * INR (S n)); [ring|]. unfold C. replace (S n - S i)%nat with (n - i)%nat by lia.
  rewrite !fact_simpl, !mult_INR. pose proof (fact_pos n). pose proof (fact_pos i). pose proof (fact_pos (n - i)). pose proof (pos_INR i). rewrite (S_INR i) in *.
  field. repeat split; lra.
Qed.

(** ** A scalar product of functions of three exponents *)
Definition triple : Type := nat -> nat -> nat -> R.
Definition bracket (k : nat) (f g : triple) : R :=
  sum_f_R0 (fun i => C k i * sum_f_R0 (fun j => C (k - i) j * (f i j (k - i - j)%nat * g i j (k - i - j)%nat)) (k - i)) k.
Definition mono (p : vec) : triple := fun i j l => let '(a, b, c) := p in a ^ i * b ^ j * c ^ l.
Lemma C_pos : forall n i, 0 < C n i.
Proof. intros. unfold C. pose proof (fact_pos n). pose proof (fact_pos i). pose proof (fact_pos (n - i)). apply Rdiv_lt_0_compat; [lra|apply Rmult_lt_0_compat; lra]. Qed.
Lemma bracket_prod : forall k f g F1 F2 F3, (forall i j l, f i j l * g i j l = F1 i * F2 j * F3 l) -> bracket k f g = conv F1 (conv F2 F3) k.
Proof.
  intros k f g F1 F2 F3 H. unfold bracket, conv. apply sum_eq. intros i Hi. rewrite Rmult_assoc. f_equal. rewrite scal_sum. apply sum_eq. intros j Hj. rewrite H. ring.
Qed.
Lemma bracket_mono : forall k p q, bracket k (mono p) (mono q) = dot p q ^ k.
Proof.
  intros k [[a b] c] [[x y] z]. rewrite (bracket_prod k _ _ (fun i => (a * x) ^ i) (fun i => (b * y) ^ i) (fun i => (c * z) ^ i)).
  - rewrite (conv_ext _ (fun i => (a * x) ^ i) _ (fun i => (b * y + c * z) ^ i)); [|reflexivity|intros; apply conv_pow].
    rewrite conv_pow. cbn. f_equal. ring.
  - intros i j l. cbn. rewrite !Rpow_mult_distr. ring.
Qed.
Lemma bracket_comb : forall k f g h a b, bracket k (fun i j l => a * f i j l + b * g i j l) h = a * bracket k f h + b * bracket k g h.
Proof.
  intros. unfold bracket. rewrite !scal_sum, <- plus_sum. apply sum_eq. intros i Hi.
  transitivity (C k i * (a * sum_f_R0 (fun j => C (k - i) j * (f i j (k - i - j)%nat * h i j (k - i - j)%nat)) (k - i) +
                         b * sum_f_R0 (fun j => C (k - i) j * (g i j (k - i - j)%nat * h i j (k - i - j)%nat)) (k - i))); [|ring].
  f_equal. rewrite !scal_sum, <- plus_sum. apply sum_eq. intros j Hj. ring.
Qed.
Lemma bracket_sym : forall k f g, bracket k f g = bracket k g f.
Proof. intros. unfold bracket. apply sum_eq. intros i Hi. f_equal. apply sum_eq. intros j Hj. ring. Qed.
Lemma bracket_pos : forall k f, 0 <= bracket k f f.
Proof.
  intros. unfold bracket. apply cond_pos_sum. intros i. apply Rmult_le_pos; [apply Rlt_le, C_pos|]. apply cond_pos_sum. intros j.
  apply Rmult_le_pos; [apply Rlt_le, C_pos|]. apply Rle_0_sqr.
Qed.
(** Cauchy and Schwarz. *)
Lemma bracket_cauchy : forall k f g, bracket k f g * bracket k f g <= bracket k f f * bracket k g g.
Proof.
  intros k f g. assert (H : forall s, 0 <= bracket k f f - 2 * s * bracket k f g + s * s * bracket k g g).
  { intros s. replace (bracket k f f - 2 * s * bracket k f g + s * s * bracket k g g) with
      (bracket k (fun i j l => 1 * f i j l + - s * g i j l) (fun i j l => 1 * f i j l + - s * g i j l)); [apply bracket_pos|].
    rewrite bracket_comb, (bracket_sym k f), (bracket_sym k g), !bracket_comb, (bracket_sym k g f). ring. }
  pose proof (bracket_pos k g) as Hg. destruct (Req_dec (bracket k g g) 0) as [E|N].
  - assert (E' : bracket k f g = 0); [|rewrite E', E; lra]. set (x := bracket k f g) in *. set (a := bracket k f f) in *. rewrite E in H. clearbody x a.
    destruct (Req_dec x 0) as [|Nx]; [assumption|]. specialize (H ((a + 1) / (2 * x))). exfalso.
    replace (a - 2 * ((a + 1) / (2 * x)) * x + (a + 1) / (2 * x) * ((a + 1) / (2 * x)) * 0) with (-1) in H by (field; exact Nx). lra.
  - set (x := bracket k f g) in *. set (a := bracket k f f) in *. set (b := bracket k g g) in *. clearbody x a b. specialize (H (x / b)).
    replace (a - 2 * (x / b) * x + x / b * (x / b) * b) with ((a * b - x * x) / b) in H by (field; exact N). 
    assert (0 < b) by lra. assert (0 <= (a * b - x * x) / b * b) by (apply Rmult_le_pos; lra). replace ((a * b - x * x) / b * b) with (a * b - x * x) in H1 by (field; exact N). lra.
Qed.

(** ** Removing averages *)
#[local] Instance Rle_transitive : RelationClasses.Transitive Rle := Rle_trans.
Definition comb (l : list (R * vec)) : triple := fun i j k => rsum (map (fun a => fst a * mono (snd a) i j k) l).
Lemma bracket_zero : forall k g, bracket k (fun _ _ _ => 0) g = 0.
Proof.
  intros. unfold bracket. rewrite (sum_eq _ (fun _ => 0)); [rewrite sum_cte; ring|]. intros i _.
  rewrite (sum_eq _ (fun _ => 0)); [rewrite sum_cte; ring|]. intros; ring.
Qed.
Lemma bracket_ext : forall k f f' g, (forall i j l, f i j l = f' i j l) -> bracket k f g = bracket k f' g.
Proof. intros k f f' g H. unfold bracket. apply sum_eq. intros i _. f_equal. apply sum_eq. intros j _. now rewrite H. Qed.
Lemma bracket_list : forall k g l, bracket k (comb l) g = rsum (map (fun a => fst a * bracket k (mono (snd a)) g) l).
Proof.
  intros k g l. induction l as [|a l IH]; [apply bracket_zero|].
  rewrite (bracket_ext k _ (fun i j m => fst a * mono (snd a) i j m + 1 * comb l i j m)); [|intros; unfold comb, rsum; cbn [map fold_right]; ring].
  rewrite bracket_comb, IH. unfold rsum; cbn [map fold_right]. ring.
Qed.
Lemma form_bracket : forall k l, form (fun p q => dot p q ^ k) l = bracket k (comb l) (comb l).
Proof.
  intros k l. rewrite bracket_list. unfold form. apply rsum_ext. intros a _. rewrite bracket_sym, bracket_list, <- rsum_scal. apply rsum_ext. intros b _.
  rewrite bracket_mono, dot_sym. ring.
Qed.
Lemma pow_moment : forall x i, x ^ i * moment i = half (fun h => (x * x) ^ h) i.
Proof.
  intros x i. unfold half. destruct (Nat.Even_or_Odd i) as [[k ->]|[k ->]].
  - rewrite Nat.div2_double, pow_mult. replace (x ^ 2) with (x * x) by ring. ring.
  - replace (2 * k + 1)%nat with (S (2 * k)) by lia. rewrite moment_odd. ring.
Qed.
Lemma half_ext : forall u v n, (forall i, u i = v i) -> half u n = half v n.
Proof. intros u v n H. unfold half. now rewrite H. Qed.
Definition mean : triple := fun i j l => moment i * moment j * moment l.
Lemma mean_point : forall k p, dot p p = 1 -> bracket k (mono p) mean = moment k.
Proof.
  intros k [[a b] c] H. cbn in H.
  rewrite (bracket_prod k _ _ (half (fun h => (a * a) ^ h)) (half (fun h => (b * b) ^ h)) (half (fun h => (c * c) ^ h))).
  - rewrite (conv_ext _ (half (fun h => (a * a) ^ h)) _ (half (fun h => (b * b + c * c) ^ h))).
    + rewrite conv_half. unfold half. rewrite conv_pow. replace (a * a + (b * b + c * c)) with 1 by lra. rewrite pow1. ring.
    + reflexivity.
    + intros i _. rewrite conv_half. apply half_ext. intros. apply conv_pow.
  - intros i j l. unfold mono, mean. rewrite <- !pow_moment. ring.
Qed.
Lemma moment_sq : forall i, moment i * moment i = half (rising 1) i.
Proof.
  intros i. unfold half. destruct (Nat.Even_or_Odd i) as [[k ->]|[k ->]].
  - now rewrite Nat.div2_double, moment_even.
  - replace (2 * k + 1)%nat with (S (2 * k)) by lia. rewrite moment_odd. ring.
Qed.
Lemma mean_mean : forall k, bracket k mean mean = half (rising 3) k.
Proof.
  intros k. rewrite (bracket_prod k _ _ (half (rising 1)) (half (rising 1)) (half (rising 1))).
  - rewrite (conv_ext _ (half (rising 1)) _ (half (rising 2))).
    + rewrite conv_half. apply half_ext. intros i. rewrite conv_rising. f_equal; lra.
    + reflexivity.
    + intros i _. rewrite conv_half. apply half_ext. intros j. rewrite conv_rising. f_equal; lra.
  - intros i j l. unfold mean. rewrite <- !moment_sq. ring.
Qed.
Definition unit_all (l : list (R * vec)) : Prop := forall a, In a l -> dot (snd a) (snd a) = 1.
Lemma form_one : forall l, form (fun _ _ => 1) l = rsum (map fst l) * rsum (map fst l).
Proof.
  intros l. unfold form. rewrite <- rsum_scal. apply rsum_ext. intros a _. rewrite (Rmult_comm _ (fst a)), <- rsum_scal. apply rsum_ext. intros b _. ring.
Qed.
Lemma even_kernel : forall h l, unit_all l -> 0 <= form (fun p q => dot p q ^ (2 * h)) l - / (2 * INR h + 1) * form (fun _ _ => 1) l.
Proof.
  intros h l U. rewrite form_bracket, form_one. pose proof (bracket_cauchy (2 * h) (comb l) mean) as Q.
  rewrite mean_mean, half_even in Q.
  assert (E : bracket (2 * h) (comb l) mean = rising 1 h * rsum (map fst l)).
  { rewrite bracket_list, <- rsum_scal. apply rsum_ext. intros a Ha. rewrite mean_point by now apply U. rewrite moment_even. ring. }
  rewrite E in Q. set (s := rsum (map fst l)) in *. set (x := bracket (2 * h) (comb l) (comb l)) in *. clearbody s x.
  assert (P1 := rising_pos 1 h Rlt_0_1). assert (F := rising_up 1 h). replace (1 + 2) with 3 in F by lra. rewrite Rmult_1_l in F. rewrite <- F in Q.
  set (m := rising 1 h) in *. clearbody m. pose proof (pos_INR h). set (n := INR h) in *. clearbody n.
  assert (Q' : s * s <= x * (1 + 2 * n)).
  { apply (Rmult_le_reg_l (m * m)); [now apply Rmult_lt_0_compat|]. transitivity (m * s * (m * s)); [right; ring|]. etransitivity; [exact Q|right; ring]. }
  assert (0 < 2 * n + 1) by lra. apply (Rmult_le_reg_l (2 * n + 1)); [assumption|]. rewrite Rmult_0_r, Rmult_minus_distr_l, <- Rmult_assoc, Rinv_r by lra. lra.
Qed.

Definition lean : triple := fun i j l => moment (S i) * moment j * moment l.
Definition first (p : vec) : R := let '(a, _, _) := p in a.
Lemma lean_point : forall k p, dot p p = 1 -> bracket (S k) (mono p) lean = INR (S k) * first p * moment k.
Proof.
  intros k [[a b] c] H. cbn in H.
  rewrite (bracket_prod (S k) _ _ (fun i => a ^ i * moment (S i)) (half (fun h => (b * b) ^ h)) (half (fun h => (c * c) ^ h))).
  - rewrite (conv_lower _ (fun i => a * half (fun h => (a * a) ^ h) i)).
    + rewrite (conv_ext _ (fun i => a * half (fun h => (a * a) ^ h) i) _ (half (fun h => (b * b + c * c) ^ h))).
      * replace (conv (fun i => a * half (fun h => (a * a) ^ h) i) (half (fun h => (b * b + c * c) ^ h)) k)
          with (a * conv (half (fun h => (a * a) ^ h)) (half (fun h => (b * b + c * c) ^ h)) k).
        -- rewrite conv_half. unfold half. rewrite conv_pow. replace (a * a + (b * b + c * c)) with 1 by lra. rewrite pow1. cbn [first]. ring.
        -- unfold conv. rewrite scal_sum. apply sum_eq. intros; ring.
      * reflexivity.
      * intros i _. rewrite conv_half. apply half_ext. intros. apply conv_pow.
    + cbn. unfold moment. cbn. ring.
    + intros i _. rewrite moment_SS, <- pow_moment. cbn [pow]. ring.
  - intros i j l. unfold mono, lean. rewrite <- !pow_moment. ring.
Qed.
Lemma lean_lean : forall k, bracket (S k) lean lean = INR (S k) * half (rising 5) k.
Proof.
  intros k. rewrite (bracket_prod (S k) _ _ (fun i => moment (S i) * moment (S i)) (half (rising 1)) (half (rising 1))).
  - rewrite (conv_lower _ (half (rising 3))).
    + rewrite (conv_ext _ (half (rising 3)) _ (half (rising 2))).
      * rewrite conv_half. f_equal. apply half_ext. intros i. rewrite conv_rising. f_equal; lra.
      * reflexivity.
      * intros i _. rewrite conv_half. apply half_ext. intros j. rewrite conv_rising. f_equal; lra.
    + unfold moment. cbn. ring.
    + intros i _. rewrite !moment_SS. unfold half. destruct (Nat.Even_or_Odd i) as [[m ->]|[m ->]].
      * rewrite moment_even, Nat.div2_double. assert (F := rising_up 1 m). replace (1 + 2) with 3 in F by lra. rewrite Rmult_1_l in F. rewrite <- F.
        rewrite S_INR, mult_INR. cbn [INR]. ring.
      * replace (2 * m + 1)%nat with (S (2 * m)) by lia. rewrite moment_odd. ring.
  - intros i j l. unfold lean. rewrite <- !moment_sq. ring.
Qed.
Lemma odd_first : forall h l, unit_all l -> 3 * (rsum (map (fun a => fst a * first (snd a)) l) * rsum (map (fun a => fst a * first (snd a)) l)) <= (2 * INR h + 3) * form (fun p q => dot p q ^ S (2 * h)) l.
Proof.
  intros h l U. rewrite form_bracket. pose proof (bracket_cauchy (S (2 * h)) (comb l) lean) as Q. rewrite lean_lean, half_even in Q.
  set (s := rsum (map (fun a => fst a * first (snd a)) l)).
  assert (E : bracket (S (2 * h)) (comb l) lean = INR (S (2 * h)) * rising 1 h * s).
  { unfold s. rewrite bracket_list, <- rsum_scal. apply rsum_ext. intros a Ha. rewrite lean_point by now apply U. rewrite moment_even. ring. }
  rewrite E in Q. set (x := bracket _ (comb l) (comb l)) in *. clearbody s x.
  assert (F1 := rising_up 1 h). assert (F3 := rising_up 3 h). replace (1 + 2) with 3 in F1 by lra. replace (3 + 2) with 5 in F3 by lra.
  assert (N : INR (S (2 * h)) = 1 + 2 * INR h) by (rewrite S_INR, mult_INR; cbn [INR]; ring). rewrite N in Q. rewrite Rmult_1_l in F1. rewrite F1 in Q.
  pose proof (pos_INR h). set (n := INR h) in *. clearbody n. assert (P1 := rising_pos 1 h Rlt_0_1). assert (P3 := rising_pos 3 h ltac:(lra)).
  set (m := rising 1 h) in *. set (m3 := rising 3 h) in *. set (m5 := rising 5 h) in *. clearbody m m3 m5.
  apply (Rmult_le_reg_l (m3 * m3)); [now apply Rmult_lt_0_compat|].
  assert (Q' : m3 * s * (m3 * s) <= x * (m3 * m5)) by (etransitivity; [exact Q|right; rewrite <- F1; ring]).
  assert (G : m3 * (3 * m5) = (3 + 2 * n) * (m3 * m3)) by (rewrite <- F3; ring). transitivity (3 * (x * (m3 * m5))); [transitivity (3 * (m3 * s * (m3 * s))); [right; ring|lra]|].
  right. transitivity (x * (m3 * (3 * m5))); [ring|]. rewrite G. ring.
Qed.

(** A reflection makes any direction the first one. *)
Definition minus (p q : vec) : vec := let '(a, b, c) := p in let '(x, y, z) := q in (a - x, b - y, c - z).
Definition scale (s : R) (p : vec) : vec := let '(a, b, c) := p in (s * a, s * b, s * c).
Lemma reflect_exists : forall e, dot e e = 1 -> exists r : vec -> vec, (forall p q, dot (r p) (r q) = dot p q) /\ forall p, first (r p) = dot e p.
Proof.
  intros [[a b] c] H. cbn in H. destruct (Req_dec a 1) as [->|N].
  - assert (b = 0) by nra. assert (c = 0) by nra. subst. exists (fun p => p). split; [reflexivity|]. intros [[x y] z]. cbn. ring.
  - exists (fun p => let '(x, y, z) := p in let t := ((a - 1) * x + b * y + c * z) / (1 - a) in (x - t * (a - 1), y - t * b, z - t * c)).
    assert (E : b * b + c * c = 1 - a * a) by lra.
    split.
    + intros [[x y] z] [[x' y'] z']. cbn. set (t := ((a - 1) * x + b * y + c * z) / (1 - a)). set (t' := ((a - 1) * x' + b * y' + c * z') / (1 - a)).
      assert (T : (a - 1) * x + b * y + c * z = t * (1 - a)) by (unfold t; field; lra). assert (T' : (a - 1) * x' + b * y' + c * z' = t' * (1 - a)) by (unfold t'; field; lra).
      clearbody t t'.
      transitivity (x * x' + y * y' + z * z' - t * ((a - 1) * x' + b * y' + c * z') - t' * ((a - 1) * x + b * y + c * z) + t * t' * ((a - 1) * (a - 1) + (b * b + c * c))); [ring|].
      rewrite T, T', E. ring.
    + intros [[x y] z]. cbn. field. lra.
Qed.
Definition vsum (l : list (R * vec)) : vec := (rsum (map (fun a => fst a * (let '(x, _, _) := snd a in x)) l), rsum (map (fun a => fst a * (let '(_, y, _) := snd a in y)) l), rsum (map (fun a => fst a * (let '(_, _, z) := snd a in z)) l)).
Lemma vsum_dot : forall l p, dot p (vsum l) = rsum (map (fun a => fst a * dot p (snd a)) l).
Proof.
  intros l [[a b] c]. unfold vsum. induction l as [|[w [[x y] z]] l IH]; cbn in *; [ring|]. unfold rsum in *.
  rewrite <- IH. ring.
Qed.
Lemma form_dot : forall l, form dot l = dot (vsum l) (vsum l).
Proof.
  intros l. unfold form. rewrite vsum_dot. apply rsum_ext. intros a _. rewrite (dot_sym (vsum l)), vsum_dot, <- rsum_scal. apply rsum_ext. intros; ring.
Qed.
Lemma dot_pos : forall p, 0 <= dot p p.
Proof. intros [[a b] c]. cbn. nra. Qed.
Lemma scale_dot : forall s p q, dot (scale s p) q = s * dot p q.
Proof. intros s [[a b] c] [[x y] z]. cbn. ring. Qed.
Lemma form_map : forall (k : vec -> vec -> R) r l, (forall p q, k (r p) (r q) = k p q) -> form k (map (fun a => (fst a, r (snd a))) l) = form k l.
Proof. intros k r l H. unfold form. rewrite map_map. apply rsum_ext. intros a _. rewrite map_map. apply rsum_ext. intros b _. cbn. now rewrite H. Qed.
Lemma odd_kernel : forall h l, unit_all l -> 0 <= form (fun p q => dot p q ^ S (2 * h)) l - 3 / (2 * INR h + 3) * form dot l.
Proof.
  intros h l U. pose proof (pos_INR h) as Ph. set (X := form (fun p q => dot p q ^ S (2 * h)) l).
  assert (Q : 3 * form dot l <= (2 * INR h + 3) * X).
  { rewrite form_dot. pose proof (dot_pos (vsum l)) as P. destruct (Req_dec (dot (vsum l) (vsum l)) 0) as [E|N].
    - rewrite E. unfold X. rewrite form_bracket. pose proof (bracket_pos (S (2 * h)) (comb l)). nra.
    - set (N2 := dot (vsum l) (vsum l)) in *. assert (S2 : sqrt N2 * sqrt N2 = N2) by (apply sqrt_sqrt; exact P).
      assert (S0 : 0 < sqrt N2) by (apply sqrt_lt_R0; lra).
      destruct (reflect_exists (scale (/ sqrt N2) (vsum l))) as (r & R1 & R2).
      { rewrite scale_dot, dot_sym, scale_dot. fold N2. rewrite <- S2 at 3. field. lra. }
      pose (l' := map (fun a => (fst a, r (snd a))) l).
      assert (U' : unit_all l'). { intros a Ha. apply in_map_iff in Ha as (b & <- & Hb). cbn. rewrite R1. now apply U. }
      pose proof (odd_first h l' U') as Q. replace (form (fun p q => dot p q ^ S (2 * h)) l') with X in Q by (symmetry; apply (form_map (fun p q => dot p q ^ S (2 * h))); intros; now rewrite R1).
      replace (rsum (map (fun a => fst a * first (snd a)) l')) with (sqrt N2) in Q; [rewrite S2 in Q; exact Q|].
      unfold l'. rewrite map_map. rewrite (rsum_ext _ (fun a => fst a * dot (scale (/ sqrt N2) (vsum l)) (snd a))) by (intros; cbn [fst snd]; now rewrite R2).
      rewrite <- vsum_dot, scale_dot. fold N2. rewrite <- S2 at 3. field. lra. }
  apply (Rmult_le_reg_l (2 * INR h + 3)); [lra|]. rewrite Rmult_0_r. replace ((2 * INR h + 3) * (X - 3 / (2 * INR h + 3) * form dot l)) with ((2 * INR h + 3) * X - 3 * form dot l) by (field; lra). lra.
Qed.
