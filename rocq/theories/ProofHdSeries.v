(** The Hellings-Downs curve as a series of positive kernels. *)
From Coq Require Import Reals ZArith Bool Arith List Lra Lia.
From Coquelicot Require Import Coquelicot.
From Verif Require Import PyBase ProofBase ModelBases ModelSpectra ModelOrf ProofBases ProofSpectra ProofOrf ProofHd.
Import ListNotations.
Open Scope list_scope.
Open Scope R_scope.

(** ** The series *)
Fixpoint psum (f : nat -> R) (n : nat) : R := match n with O => 0 | S m => psum f m + f m end.
Lemma psum_ext : forall f g n, (forall h, f h = g h) -> psum f n = psum g n.
Proof. intros f g n H. induction n; cbn; [reflexivity|]. now rewrite IHn, H. Qed.
Lemma psum_lin : forall f g a b n, psum (fun h => a * f h + b * g h) n = a * psum f n + b * psum g n.
Proof. intros. induction n; cbn; [ring|]. rewrite IHn. ring. Qed.
Lemma psum_derive : forall (f f' : nat -> R -> R) n s, (forall h, is_derive (f h) s (f' h s)) -> is_derive (fun t => psum (fun h => f h t) n) s (psum (fun h => f' h s) n).
Proof.
  intros f f' n s H. induction n as [|n IH]; cbn [psum]; [apply (is_derive_const 0)|].
  apply (is_derive_plus (fun t => psum (fun h => f h t) n) (f n)); [exact IH|apply H].
Qed.
Lemma INR_S_pos : forall n, 0 < INR n + 1.
Proof. intros n. pose proof (pos_INR n). lra. Qed.
Lemma pow_derive : forall c n s, 0 < c -> is_derive (fun t => t ^ (S n) / (c * (INR n + 1))) s (s ^ n / c).
Proof.
  intros c n s Hc. pose proof (INR_S_pos n). auto_derive; [exact I|]. change (match n with O => 1 | S _ => INR n + 1 end) with (INR (S n)). rewrite S_INR. field. split; lra.
Qed.
Definition P (k : nat) : R := 2 * INR k.
Definition Aterm (h : nat) (u : R) : R := u ^ (2 * h + 2) / ((P h + 1) * (P h + 2)) + u ^ (2 * h + 3) / ((P h + 2) * (P h + 3)).
Definition Bterm (h : nat) (u : R) : R := u ^ (2 * h + 1) / (P h + 1) + u ^ (2 * h + 2) / (P h + 2).
Definition Gterm (h : nat) (u : R) : R := u ^ (2 * h) + u ^ (2 * h + 1).
Definition An (n : nat) (u : R) : R := psum (fun h => Aterm h u) n.
Definition Bn (n : nat) (u : R) : R := psum (fun h => Bterm h u) n.
Definition Gn (n : nat) (u : R) : R := psum (fun h => Gterm h u) n.
Lemma P_pos : forall h, 0 <= P h.
Proof. intros h. unfold P. pose proof (pos_INR h). lra. Qed.
Lemma INR_P : forall h k, INR (2 * h + k) = P h + INR k.
Proof. intros. unfold P. rewrite plus_INR, mult_INR. cbn [INR]. ring. Qed.
Lemma A_derive : forall n s, is_derive (An n) s (Bn n s).
Proof.
  intros n s. apply (psum_derive Aterm Bterm). intros h. unfold Aterm, Bterm. pose proof (P_pos h).
  apply (is_derive_plus (fun u => u ^ (2 * h + 2) / ((P h + 1) * (P h + 2))) (fun u => u ^ (2 * h + 3) / ((P h + 2) * (P h + 3)))).
  - replace (2 * h + 2)%nat with (S (2 * h + 1)) by lia. replace (P h + 2) with (INR (2 * h + 1) + 1) by (rewrite INR_P; cbn; ring). apply pow_derive; lra.
  - replace (2 * h + 3)%nat with (S (2 * h + 2)) by lia. replace (P h + 3) with (INR (2 * h + 2) + 1) by (rewrite INR_P; cbn; ring). apply pow_derive; lra.
Qed.
Lemma B_derive : forall n s, is_derive (Bn n) s (Gn n s).
Proof.
  intros n s. apply (psum_derive Bterm Gterm). intros h. unfold Bterm, Gterm. pose proof (P_pos h).
  apply (is_derive_plus (fun u => u ^ (2 * h + 1) / (P h + 1)) (fun u => u ^ (2 * h + 2) / (P h + 2))).
  - replace (2 * h + 1)%nat with (S (2 * h)) by lia. replace (P h + 1) with (1 * (INR (2 * h) + 1)) by (unfold P; rewrite mult_INR; cbn; ring).
    replace (s ^ (2 * h)) with (s ^ (2 * h) / 1) by field. apply pow_derive; lra.
  - replace (2 * h + 2)%nat with (S (2 * h + 1)) by lia. replace (P h + 2) with (1 * (INR (2 * h + 1) + 1)) by (rewrite INR_P; cbn; ring).
    replace (s ^ (2 * h + 1)) with (s ^ (2 * h + 1) / 1) by field. apply pow_derive; lra.
Qed.
Lemma G_sum : forall n s, (1 - s) * Gn n s = 1 - s ^ (2 * n).
Proof.
  intros n s. unfold Gn. induction n as [|n IH]; [cbn; ring|]. cbn [psum]. rewrite Rmult_plus_distr_l, IH. unfold Gterm.
  replace (2 * S n)%nat with (2 * n + 2)%nat by lia. rewrite !pow_add. ring.
Qed.
Definition fl (u : R) : R := (1 - u) * ln (1 - u) + u.
Definition d0 (n : nat) (u : R) : R := fl u - An n u.
Definition d1 (n : nat) (u : R) : R := - ln (1 - u) - Bn n u.
Lemma d0_derive : forall n s, s < 1 -> is_derive (d0 n) s (d1 n s).
Proof.
  intros n s H. apply (is_derive_minus fl (An n)); [|apply A_derive]. unfold fl. auto_derive; [lra|]. fold (1 - s). set (L := ln (1 - s)). field. lra.
Qed.
Lemma d1_derive : forall n s, s < 1 -> is_derive (d1 n) s (s ^ (2 * n) / (1 - s)).
Proof.
  intros n s H. replace (s ^ (2 * n) / (1 - s)) with (/ (1 - s) - Gn n s).
  - apply (is_derive_minus (fun u => - ln (1 - u)) (Bn n)); [|apply B_derive]. auto_derive; [lra|]. field. lra.
  - pose proof (G_sum n s) as E. replace (s ^ (2 * n)) with (1 - (1 - s) * Gn n s) by lra. field. lra.
Qed.
Lemma psum_zero : forall f n, (forall h, f h = 0) -> psum f n = 0.
Proof. intros f n H. induction n; cbn; [reflexivity|]. rewrite IHn, H. ring. Qed.
Lemma d0_0 : forall n, d0 n 0 = 0.
Proof.
  intros n. unfold d0, fl, An. rewrite psum_zero; [replace (1 - 0) with 1 by ring; rewrite ln_1; ring|]. intros h. unfold Aterm.
  rewrite !pow_i by lia. unfold Rdiv. ring.
Qed.
Lemma d1_0 : forall n, d1 n 0 = 0.
Proof.
  intros n. unfold d1, Bn. rewrite psum_zero; [replace (1 - 0) with 1 by ring; rewrite ln_1; ring|]. intros h. unfold Bterm.
  rewrite !pow_i by lia. unfold Rdiv. ring.
Qed.
Lemma rises : forall (F F' : R -> R) a b, a <= b -> (forall t, a <= t <= b -> is_derive F t (F' t)) -> (forall t, a <= t <= b -> 0 <= F' t) -> F a <= F b.
Proof.
  intros F F' a b Hab HD HP. destruct (MVT_gen F a b F') as (c & Hc & E).
  - intros x Hx. rewrite Rmin_left, Rmax_right in Hx by lra. apply HD. lra.
  - intros x Hx. rewrite Rmin_left, Rmax_right in Hx by lra. apply continuity_pt_filterlim. apply (ex_derive_continuous F). eexists. apply HD. lra.
  - rewrite Rmin_left, Rmax_right in Hc by lra. specialize (HP c Hc). nra.
Qed.
Lemma even_pow : forall s n, 0 <= s ^ (2 * n).
Proof. intros. rewrite pow_mult. apply pow_le. nra. Qed.
Lemma d1_bound_pos : forall n s v, 0 <= s <= v -> v < 1 -> 0 <= d1 n s <= / (1 - v) / (P n + 1).
Proof.
  intros n s v [H0 Hv] H1. pose proof (P_pos n). assert (0 < / (1 - v)) by (apply Rinv_0_lt_compat; lra). split.
  - rewrite <- (d1_0 n). apply (rises (d1 n) (fun t => t ^ (2 * n) / (1 - t))); [exact H0| |]; intros t Ht.
    + apply d1_derive. lra.
    + pose proof (even_pow t n). apply Rmult_le_pos; [assumption|]. left. apply Rinv_0_lt_compat. lra.
  - assert (Q : 0 - d1 n 0 <= / (1 - v) * (s ^ S (2 * n) / (1 * (INR (2 * n) + 1))) - d1 n s).
    { replace 0 with (/ (1 - v) * (0 ^ S (2 * n) / (1 * (INR (2 * n) + 1)))) at 1 by (rewrite pow_i by lia; unfold Rdiv; ring).
      apply (rises (fun t => / (1 - v) * (t ^ S (2 * n) / (1 * (INR (2 * n) + 1))) - d1 n t) (fun t => / (1 - v) * (t ^ (2 * n) / 1) - t ^ (2 * n) / (1 - t))); [exact H0| |]; intros t Ht.
      - apply (is_derive_minus (fun t => / (1 - v) * (t ^ S (2 * n) / (1 * (INR (2 * n) + 1)))) (d1 n)); [|apply d1_derive; lra].
        apply (is_derive_scal (fun t => t ^ S (2 * n) / (1 * (INR (2 * n) + 1)))). apply pow_derive; lra.
      - pose proof (even_pow t n). assert (/ (1 - t) <= / (1 - v)) by (apply Rinv_le_contravar; lra). unfold Rdiv. rewrite Rinv_1, Rmult_1_r.
        rewrite (Rmult_comm (/ (1 - v))). rewrite <- Rmult_minus_distr_l. apply Rmult_le_pos; lra. }
    rewrite d1_0 in Q. assert (E : INR (2 * n) = P n) by (unfold P; rewrite mult_INR; cbn; ring). rewrite E in Q.
    assert (S1 : s ^ S (2 * n) <= 1). { rewrite <- (pow1 (S (2 * n))). apply pow_incr. lra. }
    assert (T : / (1 - v) * (s ^ S (2 * n) / (1 * (P n + 1))) <= / (1 - v) / (P n + 1)).
    { unfold Rdiv. apply Rmult_le_compat_l; [lra|]. rewrite Rmult_1_l. assert (0 < / (P n + 1)) by (apply Rinv_0_lt_compat; lra). rewrite <- (Rmult_1_l (/ (P n + 1))) at 2. apply Rmult_le_compat_r; lra. }
    lra.
Qed.
Lemma d1_bound_neg : forall n s, -1 <= s <= 0 -> - / (P n + 1) <= d1 n s <= 0.
Proof.
  intros n s [H0 H1]. pose proof (P_pos n). split.
  - assert (Q : s ^ S (2 * n) / (1 * (INR (2 * n) + 1)) - d1 n s <= 0 - d1 n 0).
    { replace 0 with (0 ^ S (2 * n) / (1 * (INR (2 * n) + 1))) at 1 by (rewrite pow_i by lia; unfold Rdiv; ring).
      apply (rises (fun t => t ^ S (2 * n) / (1 * (INR (2 * n) + 1)) - d1 n t) (fun t => t ^ (2 * n) / 1 - t ^ (2 * n) / (1 - t))); [exact H1| |]; intros t Ht.
      - apply (is_derive_minus (fun t => t ^ S (2 * n) / (1 * (INR (2 * n) + 1))) (d1 n)); [|apply d1_derive; lra]. apply pow_derive; lra.
      - pose proof (even_pow t n). assert (/ (1 - t) <= / 1) by (apply Rinv_le_contravar; lra). unfold Rdiv. 
        rewrite <- Rmult_minus_distr_l. apply Rmult_le_pos; lra. }
    rewrite d1_0 in Q. assert (E : INR (2 * n) = P n) by (unfold P; rewrite mult_INR; cbn; ring). rewrite E in Q.
    assert (S1 : -1 <= s ^ S (2 * n)).
    { assert (A : Rabs (s ^ S (2 * n)) <= 1); [|apply Rabs_le_between in A; lra]. rewrite <- RPow_abs, <- (pow1 (S (2 * n))). apply pow_incr. split; [apply Rabs_pos|]. apply Rabs_le. lra. }
    assert (0 < / (P n + 1)) by (apply Rinv_0_lt_compat; lra). unfold Rdiv in Q. rewrite Rmult_1_l in Q. nra.
  - rewrite <- (d1_0 n). apply (rises (d1 n) (fun t => t ^ (2 * n) / (1 - t))); [exact H1| |]; intros t Ht.
    + apply d1_derive. lra.
    + pose proof (even_pow t n). apply Rmult_le_pos; [assumption|]. left. apply Rinv_0_lt_compat. lra.
Qed.
Lemma d0_bound : forall u, -1 <= u < 1 -> exists c, forall n, Rabs (d0 n u) <= c / (P n + 1).
Proof.
  intros u Hu.
  assert (M : forall n, exists s, Rmin 0 u <= s <= Rmax 0 u /\ d0 n u = d1 n s * u).
  { intros n. destruct (MVT_gen (d0 n) 0 u (d1 n)) as (s & Hs & E).
    - intros x Hx. apply d0_derive. unfold Rmax in Hx. destruct (Rle_dec 0 u); lra.
    - intros x Hx. apply continuity_pt_filterlim, (ex_derive_continuous (d0 n)). eexists. apply d0_derive. unfold Rmax in Hx. destruct (Rle_dec 0 u); lra.
    - exists s. split; [exact Hs|]. rewrite d0_0 in E. lra. }
  destruct (Rle_dec 0 u) as [Hp|Hn].
  - exists (/ (1 - u)). intros n. destruct (M n) as (s & Hs & ->). rewrite Rmin_left, Rmax_right in Hs by lra. pose proof (d1_bound_pos n s u ltac:(lra) ltac:(lra)) as D.
    rewrite Rabs_mult, !Rabs_right by lra. nra.
  - exists 1. intros n. destruct (M n) as (s & Hs & ->). rewrite Rmin_right, Rmax_left in Hs by lra. pose proof (d1_bound_neg n s ltac:(lra)) as D.
    rewrite Rabs_mult, (Rabs_left u) by lra. rewrite Rabs_left1 by lra. unfold Rdiv. nra.
Qed.
Lemma cv_bound : forall (f : nat -> R) x c, (forall n, Rabs (f n - x) <= c / (P n + 1)) -> Un_cv f x.
Proof.
  intros f x c H e He. unfold R_dist. destruct (Rle_dec c 0) as [Hc|Hc].
  - exists 0%nat. intros n _. eapply Rle_lt_trans; [apply H|]. pose proof (P_pos n). assert (0 < / (P n + 1)) by (apply Rinv_0_lt_compat; lra). unfold Rdiv. nra.
  - destruct (archimed_cor1 (e / c)) as (N & HN & HN0); [apply Rdiv_lt_0_compat; lra|]. exists N. intros n Hn. eapply Rle_lt_trans; [apply H|]. apply le_INR in Hn. unfold P. pose proof (pos_INR N).
    assert (0 < 2 * INR n + 1) by lra. apply (Rmult_lt_reg_r (2 * INR n + 1)); [assumption|]. unfold Rdiv. rewrite Rmult_assoc, Rinv_l, Rmult_1_r by lra.
    apply lt_0_INR in HN0. assert (c < e * INR N). { apply (Rmult_lt_compat_r (c * INR N)) in HN; [|apply Rmult_lt_0_compat; lra]. replace (/ INR N * (c * INR N)) with c in HN by (field; lra). replace (e / c * (c * INR N)) with (e * INR N) in HN by (field; lra). exact HN. } nra.
Qed.
Lemma A_limit : forall u, -1 <= u < 1 -> Un_cv (fun n => An n u) (fl u).
Proof.
  intros u Hu. destruct (d0_bound u Hu) as [c Hc]. apply (cv_bound _ _ c). intros n. rewrite Rabs_minus_sym. apply Hc.
Qed.
Lemma A_one : forall n, An n 1 = 1 - / (P n + 1).
Proof.
  intros n. unfold An. induction n as [|n IH]; [unfold P; cbn; field|]. cbn [psum]. rewrite IH. unfold Aterm. rewrite !pow1. unfold P. rewrite S_INR. pose proof (pos_INR n). field. repeat split; lra.
Qed.
Lemma inv_cv : forall c, Un_cv (fun n => / (P n + 1)) 0 /\ Un_cv (fun n => c / (P n + 3)) 0.
Proof.
  intros c. split.
  - apply (cv_bound _ _ 1). intros n. pose proof (P_pos n). rewrite Rminus_0_r, Rabs_right; [unfold Rdiv; lra|]. left. apply Rinv_0_lt_compat. lra.
  - apply (cv_bound _ _ (Rabs c)). intros n. pose proof (P_pos n). rewrite Rminus_0_r. unfold Rdiv. rewrite Rabs_mult. apply Rmult_le_compat_l; [apply Rabs_pos|].
    rewrite Rabs_right; [apply Rinv_le_contravar; lra|]. left. apply Rinv_0_lt_compat. lra.
Qed.
Definition an (n : nat) : R := psum (fun h => / ((P h + 1) * (P h + 2) * (P h + 3))) n.
Definition bn (n : nat) : R := psum (fun h => 3 / ((P h + 2) * (P h + 3) * (P h + 5))) n.
Lemma an_A : forall n, an n = / 2 * An n (-1).
Proof.
  intros n. unfold an, An. induction n as [|n IH]; cbn [psum]; [ring|]. rewrite IH. unfold Aterm. pose proof (P_pos n).
  assert (E : (-1) ^ (2 * n) = 1) by (rewrite pow_mult; replace ((-1) ^ 2) with 1 by ring; apply pow1). rewrite !pow_add, E. cbn [pow]. field. repeat split; lra.
Qed.
Lemma bn_an : forall n, bn n = / 2 * (1 - / (P n + 1)) - an n - / 2 * (/ 3 - / (P n + 3)).
Proof.
  intros n. unfold an, bn. induction n as [|n IH]; cbn [psum]; [unfold P; cbn; field|]. rewrite IH. unfold P. rewrite S_INR. pose proof (pos_INR n). field. repeat split; lra.
Qed.
Lemma cv_ext : forall (f g : nat -> R) x, (forall n, f n = g n) -> Un_cv f x -> Un_cv g x.
Proof. intros f g x H Hf e He. destruct (Hf e He) as [N HN]. exists N. intros n Hn. rewrite <- H. now apply HN. Qed.
Lemma cv_const : forall x, Un_cv (fun _ => x) x.
Proof. intros x e He. exists 0%nat. intros n _. unfold R_dist. rewrite Rminus_diag_eq by reflexivity. rewrite Rabs_R0. exact He. Qed.
Lemma cv_scal : forall c f x, Un_cv f x -> Un_cv (fun n => c * f n) (c * x).
Proof. intros c f x H. apply (CV_mult (fun _ => c) f); [apply cv_const|exact H]. Qed.
Lemma an_limit : Un_cv an (ln 2 - / 2).
Proof.
  apply (cv_ext (fun n => / 2 * An n (-1))); [intros; now rewrite an_A|]. replace (ln 2 - / 2) with (/ 2 * fl (-1)); [|unfold fl; replace (1 - -1) with 2 by lra; lra].
  apply cv_scal, A_limit. lra.
Qed.
Lemma bn_limit : Un_cv bn (5 / 6 - ln 2).
Proof.
  apply (cv_ext (fun n => (/ 2 * (1 - / (P n + 1)) - an n) - / 2 * (/ 3 - 1 / (P n + 3)))); [intros n; rewrite bn_an; unfold Rdiv; now rewrite Rmult_1_l|].
  replace (5 / 6 - ln 2) with ((/ 2 * (1 - 0) - (ln 2 - / 2)) - / 2 * (/ 3 - 0)) by lra.
  apply (CV_minus (fun n => / 2 * (1 - / (P n + 1)) - an n)); [apply (CV_minus (fun n => / 2 * (1 - / (P n + 1))))|].
  - apply cv_scal, CV_minus; [apply cv_const|apply (inv_cv 1)].
  - apply an_limit.
  - apply cv_scal, CV_minus; [apply cv_const|apply (inv_cv 1)].
Qed.
Definition Kn (n : nat) (u : R) : R := 3 / 4 * (An n u - an n - u * bn n).
Definition Kl (u : R) : R := 3 / 4 * ((if Req_EM_T u 1 then 1 else fl u) - (ln 2 - / 2) - u * (5 / 6 - ln 2)).
Lemma Kn_limit : forall u, -1 <= u <= 1 -> Un_cv (fun n => Kn n u) (Kl u).
Proof.
  intros u Hu. unfold Kn, Kl. apply cv_scal. apply (CV_minus (fun n => An n u - an n)); [apply (CV_minus (fun n => An n u)); [|apply an_limit]|apply cv_scal, bn_limit].
  destruct (Req_EM_T u 1) as [->|N]; [|apply A_limit; lra].
  apply (cv_ext (fun n => 1 - / (P n + 1))); [intros; now rewrite A_one|]. assert (Q : Un_cv (fun n => 1 - / (P n + 1)) (1 - 0)) by (apply CV_minus; [apply cv_const|apply (inv_cv 1)]). rewrite Rminus_0_r in Q. exact Q.
Qed.
Lemma Kl_one : Kl 1 = / 2.
Proof. unfold Kl. destruct (Req_EM_T 1 1); [field|contradiction]. Qed.
Lemma Kl_other : forall u, -1 <= u < 1 -> Kl u = let x := (1 - u) / 2 in 3 / 2 * x * ln x - x / 4 + / 2.
Proof.
  intros u Hu. unfold Kl. destruct (Req_EM_T u 1); [lra|]. cbv zeta. unfold fl. replace (1 - u) with (2 * ((1 - u) / 2)) at 2 by field. rewrite ln_mult by lra. set (L := ln ((1 - u) / 2)). set (M := ln 2). field.
Qed.

(** ** The correlation matrix *)
Definition Tterm (h : nat) (u : R) : R := (u ^ (2 * S h) - / (2 * INR (S h) + 1)) / ((P h + 1) * (P h + 2)) + (u ^ S (2 * S h) - 3 / (2 * INR (S h) + 3) * u) / ((P h + 2) * (P h + 3)).
Lemma Kn_terms : forall n u, Kn n u = 3 / 4 * psum (fun h => Tterm h u) n.
Proof.
  intros n u. unfold Kn, An, an, bn. f_equal. induction n as [|n IH]; cbn [psum]; [ring|]. rewrite <- IH. unfold Tterm, Aterm.
  replace (2 * S n)%nat with (2 * n + 2)%nat by lia. replace (S (2 * n + 2))%nat with (2 * n + 3)%nat by lia. unfold P. rewrite S_INR. pose proof (pos_INR n). field. repeat split; lra.
Qed.
Lemma form_lin : forall (f g : vec -> vec -> R) a b l, form (fun p q => a * f p q + b * g p q) l = a * form f l + b * form g l.
Proof.
  intros f g a b l. unfold form. rewrite <- !rsum_scal, <- rsum_plus. apply rsum_ext. intros x _. rewrite <- !rsum_scal, <- rsum_plus. apply rsum_ext. intros y _. ring.
Qed.
Lemma form_ext : forall (f g : vec -> vec -> R) l, (forall a b, In a l -> In b l -> f (snd a) (snd b) = g (snd a) (snd b)) -> form f l = form g l.
Proof. intros f g l H. unfold form. apply rsum_ext. intros a Ha. apply rsum_ext. intros b Hb. now rewrite H. Qed.
Lemma Kn_pos : forall n l, unit_all l -> 0 <= form (fun p q => Kn n (dot p q)) l.
Proof.
  intros n l U. rewrite (form_ext _ (fun p q => 3 / 4 * psum (fun h => Tterm h (dot p q)) n + 0 * 0)); [|intros; rewrite Kn_terms; ring].
  rewrite (form_lin (fun p q => psum (fun h => Tterm h (dot p q)) n) (fun _ _ => 0)). rewrite Rmult_0_l, Rplus_0_r. apply Rmult_le_pos; [lra|].
  induction n as [|n IH]; cbn [psum].
  - right. symmetry. unfold form. apply rsum_zero. intros a _. apply rsum_zero. intros; ring.
  - rewrite (form_ext _ (fun p q => 1 * psum (fun h => Tterm h (dot p q)) n + 1 * Tterm n (dot p q))) by (intros; ring).
    rewrite (form_lin (fun p q => psum (fun h => Tterm h (dot p q)) n) (fun p q => Tterm n (dot p q))). rewrite !Rmult_1_l. apply Rplus_le_le_0_compat; [exact IH|].
    pose proof (P_pos n). unfold Tterm.
    rewrite (form_ext _ (fun p q => / ((P n + 1) * (P n + 2)) * (1 * dot p q ^ (2 * S n) + - / (2 * INR (S n) + 1) * 1) + / ((P n + 2) * (P n + 3)) * (1 * dot p q ^ S (2 * S n) + - (3 / (2 * INR (S n) + 3)) * dot p q)))
      by (intros; unfold Rdiv; ring).
    rewrite (form_lin (fun p q => 1 * dot p q ^ (2 * S n) + - / (2 * INR (S n) + 1) * 1) (fun p q => 1 * dot p q ^ S (2 * S n) + - (3 / (2 * INR (S n) + 3)) * dot p q)).
    rewrite (form_lin (fun p q => dot p q ^ (2 * S n)) (fun _ _ => 1)), (form_lin (fun p q => dot p q ^ S (2 * S n)) dot).
    pose proof (even_kernel (S n) l U). pose proof (odd_kernel (S n) l U). apply Rplus_le_le_0_compat; apply Rmult_le_pos; try (left; apply Rinv_0_lt_compat; nra); lra.
Qed.
Lemma rsum_cv : forall {X} (f : nat -> X -> R) (g : X -> R) (l : list X), (forall x, In x l -> Un_cv (fun n => f n x) (g x)) -> Un_cv (fun n => rsum (map (f n) l)) (rsum (map g l)).
Proof.
  intros X f g l. induction l as [|x l IH]; intros H; [apply (cv_const 0)|]. unfold rsum in *. cbn [map fold_right]. apply (CV_plus (fun n => f n x)); [apply H; now left|apply IH; intros; apply H; now right].
Qed.
Lemma Kl_pos : forall l, unit_all l -> 0 <= form (fun p q => Kl (dot p q)) l.
Proof.
  intros l U. assert (H : Un_cv (fun n => form (fun p q => Kn n (dot p q)) l) (form (fun p q => Kl (dot p q)) l)).
  { unfold form. apply (rsum_cv (fun n a => rsum (map (fun b => fst a * fst b * Kn n (dot (snd a) (snd b))) l))). intros a Ha.
    apply (rsum_cv (fun n b => fst a * fst b * Kn n (dot (snd a) (snd b)))). intros b Hb. apply cv_scal, Kn_limit, unit_dot; now apply U. }
  destruct (Rle_lt_dec 0 (form (fun p q => Kl (dot p q)) l)) as [G|G]; [exact G|]. exfalso.
  destruct (H _ (Ropp_0_gt_lt_contravar _ G)) as [N HN]. specialize (HN N (le_n _)). unfold R_dist in HN. apply Rabs_lt_between in HN. pose proof (Kn_pos N l U). lra.
Qed.
Lemma hd_split : forall p q, dot p p = 1 -> dot q q = 1 -> hd_orf p q = Kl (dot p q) + (if same_pos p q then / 2 else 0).
Proof.
  intros p q Hp Hq. pose proof (unit_dot p q Hp Hq) as U. unfold hd_orf. destruct (same_pos_spec p q) as [<-|N].
  - rewrite Hp, Kl_one. field.
  - assert (D : dot p q <> 1) by (intros E; apply N; now apply unit_dot_one). rewrite Kl_other by lra. cbv zeta. field.
Qed.
Lemma form_hd : forall l, unit_all l -> form hd_orf l = form (fun p q => Kl (dot p q)) l + form (fun p q => if same_pos p q then / 2 else 0) l.
Proof.
  intros l U. rewrite (form_ext _ (fun p q => 1 * Kl (dot p q) + 1 * (if same_pos p q then / 2 else 0))).
  - rewrite (form_lin (fun p q => Kl (dot p q)) (fun p q => if same_pos p q then / 2 else 0)). ring.
  - intros a b Ha Hb. rewrite hd_split by now apply U. ring.
Qed.
Lemma rsum_exchange : forall {A B} (f : A -> B -> R) l l', rsum (map (fun x => rsum (map (f x) l')) l) = rsum (map (fun y => rsum (map (fun x => f x y) l)) l').
Proof.
  intros A B f l l'. induction l as [|x l IH].
  - symmetry. apply rsum_zero. reflexivity.
  - change (rsum (map (fun x => rsum (map (f x) l')) (x :: l))) with (rsum (map (f x) l') + rsum (map (fun x => rsum (map (f x) l')) l)). rewrite IH, <- rsum_plus. apply rsum_ext. reflexivity.
Qed.
Lemma rsum_pick : forall p (ps : list vec) (f : vec -> R), NoDup ps -> In p ps -> rsum (map (fun q => if same_pos p q then f q else 0) ps) = f p.
Proof.
  intros p ps f. induction ps as [|q ps IH]; intros N I; [contradiction|]. inversion_clear N as [|? ? N1 N2].
  change (rsum (map (fun q => if same_pos p q then f q else 0) (q :: ps))) with ((if same_pos p q then f q else 0) + rsum (map (fun q => if same_pos p q then f q else 0) ps)).
  destruct (same_pos_spec p q) as [<-|D].
  - rewrite rsum_zero; [ring|]. intros r Hr. destruct (same_pos_spec p r) as [<-|]; [contradiction|reflexivity].
  - destruct I as [->|I]; [contradiction|]. rewrite IH by assumption. ring.
Qed.
Definition vec_dec (p q : vec) : {p = q} + {p <> q}.
Proof. destruct (same_pos_spec p q); [now left|now right]. Defined.
Lemma same_kernel : forall l, 0 <= form (fun p q => if same_pos p q then 1 else 0) l.
Proof.
  intros l. set (ps := nodup vec_dec (map snd l)). set (w := fun p => rsum (map (fun b : R * vec => fst b * (if same_pos p (snd b) then 1 else 0)) l)).
  replace (form (fun p q => if same_pos p q then 1 else 0) l) with (rsum (map (fun p => w p * w p) ps)).
  - apply rsum_pos. intros p _. nra.
  - symmetry. unfold form. rewrite (rsum_ext _ (fun a => rsum (map (fun p => if same_pos (snd a) p then fst a * w p else 0) ps))).
    + rewrite rsum_exchange. apply rsum_ext. intros p _. transitivity (w p * rsum (map (fun b : R * vec => fst b * (if same_pos p (snd b) then 1 else 0)) l)); [|reflexivity]. rewrite <- rsum_scal. apply rsum_ext. intros a _. rewrite same_pos_sym. destruct (same_pos p (snd a)); ring.
    + intros a Ha. rewrite (rsum_pick (snd a) ps (fun p => fst a * w p)).
      * unfold w. rewrite <- rsum_scal. apply rsum_ext. intros b _. ring.
      * apply NoDup_nodup.
      * apply nodup_In. now apply in_map.
Qed.
Lemma hd_semidefinite_lem : forall l, (forall a, In a l -> dot (snd a) (snd a) = 1) -> 0 <= form hd_orf l.
Proof.
  intros l U. rewrite form_hd by exact U. pose proof (Kl_pos l U) as K. pose proof (same_kernel l) as S.
  rewrite (form_ext (fun p q => if same_pos p q then / 2 else 0) (fun p q => / 2 * (if same_pos p q then 1 else 0) + 0 * 0)) by (intros a b _ _; destruct (same_pos (snd a) (snd b)); ring).
  rewrite (form_lin (fun p q => if same_pos p q then 1 else 0) (fun _ _ => 0)). lra.
Qed.
Lemma hd_definite_lem : forall l, NoDup (map snd l) -> (forall a, In a l -> dot (snd a) (snd a) = 1) -> 1 / 2 * rsum (map (fun a => fst a * fst a) l) <= form hd_orf l.
Proof.
  intros l N U. rewrite (form_split hd_orf (fun p q => Kl (dot p q)) (fun _ => / 2) l N).
  - pose proof (Kl_pos l U). rewrite <- rsum_scal. rewrite (rsum_ext (fun a : R * vec => 1 / 2 * (fst a * fst a)) (fun a => / 2 * fst a ^ 2)) by (intros; field). lra.
  - intros p q Hp Hq. apply in_map_iff in Hp as (a & <- & Ha). apply in_map_iff in Hq as (b & <- & Hb). apply hd_split; now apply U.
Qed.
(** No constant above one half will do. *)
Lemma hd_sharp_lem : forall eps, 0 < eps -> exists l, NoDup (map snd l) /\ (forall a, In a l -> dot (snd a) (snd a) = 1) /\
  0 < rsum (map (fun a => fst a * fst a) l) /\ form hd_orf l < (1 / 2 + eps) * rsum (map (fun a => fst a * fst a) l).
Proof.
  intros eps He. destruct (hd_limit_lem eps He) as (d & Hd & L).
  pose (t := Rmin (d / 4) (/ 2)). assert (Ht : 0 < t <= / 2 /\ t < d) by (unfold t, Rmin; destruct (Rle_dec (d / 4) (/ 2)); lra).
  pose (u := 1 - t). assert (Hs : 0 <= 1 - u * u) by (unfold u; nra).
  pose (p := (1, 0, 0) : vec). pose (q := (u, sqrt (1 - u * u), 0) : vec).
  assert (Hp : dot p p = 1) by (cbn; ring). assert (Hq : dot q q = 1) by (cbn; rewrite sqrt_sqrt by exact Hs; ring).
  assert (Hpq : dot p q = u) by (cbn; ring). assert (N : p <> q). { intros E. injection E. intros. unfold u in *. lra. }
  specialize (L p q Hp Hq N). rewrite Hpq in L. specialize (L ltac:(unfold u; lra)). apply Rabs_lt_between in L.
  exists [(1, p); (-1, q)]. split; [|split; [|split]].
  - cbn. repeat constructor; cbn; intuition.
  - intros a [<-|[<-|[]]]; assumption.
  - unfold rsum. cbn [map fst fold_right]. lra.
  - unfold form, rsum. cbn [map fst snd fold_right]. destruct (orf_diagonal_lem p) as (-> & _). destruct (orf_diagonal_lem q) as (-> & _).
    destruct (orf_symmetric_lem q p) as (-> & _). lra.
Qed.
(** A process with the Hellings-Downs correlations and non-negative powers. *)
Lemma hd_process_lem : forall (ps : list vec) (phi : list R) (x : nat -> nat -> R), NoDup ps -> (forall p, In p ps -> dot p p = 1) -> (forall v, In v phi -> 0 <= v) ->
  let n := seq 0 (length ps) in let fs := seq 0 (length phi) in
  1 / 2 * rsum (map (fun k => nth k phi 0 * rsum (map (fun a => x a k * x a k) n)) fs)
  <= rsum (map (fun a => rsum (map (fun b => rsum (map (fun k => x a k * (hd_orf (nth a ps (0, 0, 0)) (nth b ps (0, 0, 0)) * nth k phi 0) * x b k) fs)) n)) n).
Proof.
  intros ps phi x N U V n fs.
  apply Rle_trans with (rsum (map (fun k => nth k phi 0 * form hd_orf (map (fun a => (x a k, nth a ps (0, 0, 0))) n)) fs)).
  - rewrite <- rsum_scal. assert (M : forall {X} (f g : X -> R) l, (forall z, In z l -> f z <= g z) -> rsum (map f l) <= rsum (map g l)).
    { intros X f g l H. induction l as [|z l IH]; [apply Rle_refl|]. unfold rsum in *. cbn [map fold_right]. apply Rplus_le_compat; [apply H; now left|apply IH; intros; apply H; now right]. }
    apply M. intros k Hk. apply in_seq in Hk. pose proof (V (nth k phi 0) ltac:(apply nth_In; lia)) as P0.
    assert (E : map snd (map (fun a => (x a k, nth a ps (0, 0, 0))) n) = ps).
    { rewrite map_map. cbn [snd]. unfold n. apply nth_ext with (0, 0, 0) (0, 0, 0); [now rewrite map_length, seq_length|]. intros i Hi. rewrite map_length, seq_length in Hi.
      rewrite (nth_indep _ _ (nth 0%nat ps (0, 0, 0))) by (now rewrite map_length, seq_length). rewrite (map_nth (fun a => nth a ps (0, 0, 0)) (seq 0 (length ps)) 0%nat). now rewrite seq_nth. }
    pose proof (hd_definite_lem (map (fun a => (x a k, nth a ps (0, 0, 0))) n)) as Q. rewrite E in Q. specialize (Q N).
    assert (UU : forall a, In a (map (fun a => (x a k, nth a ps (0, 0, 0))) n) -> dot (snd a) (snd a) = 1).
    { intros a Ha. apply U. rewrite <- E. now apply in_map. }
    specialize (Q UU). rewrite map_map in Q. cbn [fst] in Q. apply (Rmult_le_compat_l _ _ _ P0) in Q. lra.
  - right. unfold form. symmetry.
    rewrite (rsum_ext _ (fun a => rsum (map (fun k => rsum (map (fun b => x a k * (hd_orf (nth a ps (0, 0, 0)) (nth b ps (0, 0, 0)) * nth k phi 0) * x b k) n)) fs))) by (intros; apply rsum_exchange).
    rewrite rsum_exchange. apply rsum_ext. intros k _. rewrite map_map, <- rsum_scal. apply rsum_ext. intros a _. rewrite map_map, <- rsum_scal. apply rsum_ext. intros b _. cbn [fst snd]. ring.
Qed.
