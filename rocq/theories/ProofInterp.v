(** Proofs about bases for linear interpolation and for timing models. *)
From Coq Require Import Reals ZArith Bool Arith List Lra Lia.
From Verif Require Import PyBase ProofBase ModelBases ModelSpectra ModelInterp ProofBases ProofSpectra.
Import ListNotations.
Open Scope list_scope.
Open Scope R_scope.

(** [sum_j row_j x_j] *)
Definition lin (row x : list R) : R := rsum (map (fun p => fst p * snd p) (combine row x)).
(** The hat of width [dt] around a node [y]. *)
Definition hat (dt t y : R) : R := Rmax 0 (1 - Rabs (t - y) / dt).

Lemma ceil_spec : forall x, x <= IZR (ceil x) < x + 1.
Proof. intros x. unfold ceil. rewrite opp_IZR. destruct (base_Int_part (- x)). lra. Qed.
Lemma fold_min_le : forall l t, fold_left Rmin l t <= t /\ forall u, In u l -> fold_left Rmin l t <= u.
Proof.
  induction l as [|v l IH]; intros t; [split; [apply Rle_refl|intros u []]|]. cbn. destruct (IH (Rmin t v)) as [h1 h2]. split.
  - eapply Rle_trans; [exact h1|apply Rmin_l].
  - intros u [<-|hu]; [eapply Rle_trans; [exact h1|apply Rmin_r]|now apply h2].
Qed.
Lemma fold_max_le : forall l t, t <= fold_left Rmax l t /\ forall u, In u l -> u <= fold_left Rmax l t.
Proof.
  induction l as [|v l IH]; intros t; [split; [apply Rle_refl|intros u []]|]. cbn. destruct (IH (Rmax t v)) as [h1 h2]. split.
  - eapply Rle_trans; [apply Rmax_l|exact h1].
  - intros u [<-|hu]; [eapply Rle_trans; [apply Rmax_r|exact h1]|now apply h2].
Qed.
Lemma between_spec : forall a b t, reflect (a <= t <= b) (between a b t).
Proof. intros a b t. unfold between. destruct (Rle_dec a t), (Rle_dec t b); cbn; constructor; lra. Qed.

(** ** One row *)
Section Row.
Variables (lo dt : R) (K : nat).
Hypothesis hdt : 0 < dt.
Let x := map (fun i => lo + INR i * dt) (seq 0 K).
Lemma node : forall i, (i < K)%nat -> nth i x 0 = lo + INR i * dt.
Proof. intros i h. unfold x. rewrite (nth_map_in _ _ _ _ 0%nat) by (now rewrite seq_length). now rewrite seq_nth. Qed.
Definition two (i : nat) (t : R) : list R :=
  put_nth (put_nth (repeat 0 K) i ((t - nth (S i) x 0) / (nth i x 0 - nth (S i) x 0))) (S i) ((t - nth i x 0) / (nth (S i) x 0 - nth i x 0)).
Lemma two_nth : forall i t j, (S i < K)%nat -> nth j (two i t) 0 =
  if Nat.eqb j (S i) then (t - nth i x 0) / dt else if Nat.eqb j i then (nth (S i) x 0 - t) / dt else 0.
Proof.
  intros i t j h. unfold two. rewrite !node, S_INR by lia. rewrite !put_nth_nth by (rewrite ?put_nth_length, repeat_length; lia).
  destruct (Nat.eqb j (S i)); [field; lra|]. destruct (Nat.eqb j i); [field; lra|].
  destruct (Nat.lt_ge_cases j K); [now apply nth_repeat|rewrite nth_overflow by (rewrite repeat_length; lia); reflexivity].
Qed.
Lemma two_length : forall i t, length (two i t) = K.
Proof. intros. unfold two. now rewrite !put_nth_length, repeat_length. Qed.
Lemma list_ext : forall (a b : list R), length a = length b -> (forall j, nth j a 0 = nth j b 0) -> a = b.
Proof. intros a b e h. apply (nth_ext a b 0 0 e). intros n _. apply h. Qed.
Lemma loop : forall t m, (m < K)%nat -> lo <= t ->
  let row := fold_left (fun row ii => fill_row x ii t row) (seq 0 m) (repeat 0 K) in
  (m <> 0%nat -> t <= nth m x 0 -> exists i, (i < m)%nat /\ nth i x 0 <= t <= nth (S i) x 0 /\ row = two i t) /\
  (m = 0%nat \/ nth m x 0 < t -> row = repeat 0 K).
Proof.
  intros t m. induction m as [|m IH]; intros hm ht; cbv zeta; [split; [easy|reflexivity]|].
  specialize (IH ltac:(lia) ht). cbv zeta in IH. destruct IH as [IH1 IH2].
  rewrite seq_S, fold_left_app. cbn [fold_left Nat.add]. set (row := fold_left _ (seq 0 m) _) in *.
  assert (hx : nth (S m) x 0 = nth m x 0 + dt) by (rewrite !node, S_INR by lia; ring).
  unfold fill_row at 1 2. destruct (between_spec (nth m x 0) (nth (S m) x 0) t) as [hb|hb].
  - split; [|intros [?|?]; [lia|lra]]. intros _ _. exists m. split; [lia|]. split; [exact hb|].
    destruct m as [|m]; [rewrite IH2 by (now left); reflexivity|].
    destruct (Rle_lt_dec t (nth (S m) x 0)) as [l|l]; [|rewrite IH2 by (now right); reflexivity].
    destruct (IH1 ltac:(lia) l) as [i [hi [hb2 er]]]. assert (ei : i = m).
    { destruct (Nat.eq_dec i m); [assumption|]. exfalso. assert (e1 : t = nth (S m) x 0) by lra. rewrite node in hb2, e1 by lia. rewrite !node in hb2 by lia. rewrite e1 in hb2.
      assert (INR (S i) < INR (S m)) by (apply lt_INR; lia). nra. }
    subst i. rewrite er. apply list_ext; [now rewrite !put_nth_length, !two_length|]. intros j.
    rewrite two_nth by lia. rewrite !put_nth_nth by (rewrite ?put_nth_length, two_length; lia). rewrite two_nth by lia.
    assert (e1 : t = nth (S m) x 0) by lra. assert (hx' : nth (S m) x 0 = nth m x 0 + dt) by (rewrite !node, S_INR by lia; ring).
    destruct (Nat.eqb_spec j (S (S m))); [rewrite hx; f_equal; ring|]. destruct (Nat.eqb_spec j (S m)) as [->|].
    + rewrite hx, e1. field. lra.
    + destruct (Nat.eqb_spec j m); [|reflexivity]. rewrite e1. field. lra.
  - assert (hm0 : nth m x 0 = lo + INR m * dt) by (apply node; lia).
    split.
    + intros _ l. assert (l' : t <= nth m x 0) by lra. assert (m <> 0%nat) by (intros ->; cbn in hm0; lra).
      destruct (IH1 H l') as [i [hi h]]. exists i. split; [lia|exact h].
    + intros [?|l]; [lia|]. apply IH2. right. lra.
Qed.
Lemma two_hat : forall i t, (S i < K)%nat -> nth i x 0 <= t <= nth (S i) x 0 -> two i t = map (hat dt t) x.
Proof.
  intros i t hi hb. apply list_ext; [unfold x; now rewrite two_length, !map_length, seq_length|]. intros j. rewrite two_nth by exact hi.
  assert (hx : nth (S i) x 0 = nth i x 0 + dt) by (rewrite !node, S_INR by lia; ring).
  assert (D : forall a b, a / dt - b / dt = (a - b) / dt) by (intros; field; lra).
  assert (P : forall a, 0 <= a -> 0 <= a / dt) by (intros; apply Rmult_le_pos; [assumption|left; now apply Rinv_0_lt_compat]).
  assert (one : 1 = dt / dt) by (field; lra).
  destruct (Nat.lt_ge_cases j K) as [lj|lj].
  - rewrite (nth_map_in _ _ _ _ 0) by (unfold x; now rewrite map_length, seq_length). unfold hat. rewrite one, D.
    destruct (Nat.eqb_spec j (S i)) as [->|n1]; [|destruct (Nat.eqb_spec j i) as [->|n2]].
    + rewrite Rabs_left1 by lra. rewrite Rmax_right by (apply P; lra). f_equal. lra.
    + rewrite Rabs_right by lra. rewrite Rmax_right by (apply P; lra). f_equal. lra.
    + rewrite Rmax_left; [reflexivity|]. assert (dt - Rabs (t - nth j x 0) <= 0).
      { destruct (Nat.lt_ge_cases j i) as [l|l].
        - rewrite (node i) in hb by lia. rewrite (node j) by lia. assert (INR (S j) <= INR i) by (apply le_INR; lia). rewrite S_INR in H. rewrite Rabs_right; nra.
        - rewrite hx in hb. rewrite (node i) in hb by lia. rewrite (node j) by lia. assert (INR (S (S i)) <= INR j) by (apply le_INR; lia). rewrite !S_INR in H. rewrite Rabs_left1; nra. }
      assert (0 <= (- (dt - Rabs (t - nth j x 0))) / dt) by (apply P; lra). replace (- (dt - Rabs (t - nth j x 0)) / dt) with (- ((dt - Rabs (t - nth j x 0)) / dt)) in H0 by (field; lra). lra.
  - rewrite (nth_overflow (map _ _)) by (unfold x; rewrite !map_length, seq_length; lia). destruct (Nat.eqb_spec j (S i)); [lia|]. destruct (Nat.eqb_spec j i); [lia|reflexivity].
Qed.
End Row.

(** ** Sums of a row *)
Lemma lin_put : forall v y k a, (k < length v)%nat -> length y = length v -> lin (put_nth v k a) y = lin v y + (a - nth k v 0) * nth k y 0.
Proof.
  unfold lin. induction v as [|b v IH]; intros [|c y] k a h e; cbn in h, e; try lia. destruct k as [|k]; cbn; [ring|]. unfold rsum in IH. rewrite IH by lia. ring.
Qed.
Lemma lin_zero : forall n y, lin (repeat 0 n) y = 0.
Proof. unfold lin. induction n as [|n IH]; intros [|c y]; cbn; try reflexivity. unfold rsum in IH. rewrite IH. ring. Qed.
Lemma rsum_put : forall v k a, (k < length v)%nat -> rsum (put_nth v k a) = rsum v + (a - nth k v 0).
Proof. unfold rsum. induction v as [|b v IH]; intros k a h; cbn in h; [lia|]. destruct k as [|k]; cbn; [ring|]. rewrite IH by lia. ring. Qed.
Lemma rsum_repeat0 : forall n, rsum (repeat 0 n) = 0.
Proof. unfold rsum. induction n; cbn; [reflexivity|]. rewrite IHn. ring. Qed.
Lemma two_sums : forall lo dt K i t, 0 < dt -> (S i < K)%nat -> let x := map (fun i => lo + INR i * dt) (seq 0 K) in
  rsum (two lo dt K i t) = 1 /\ lin (two lo dt K i t) x = t.
Proof.
  intros lo dt K i t hdt hi x. assert (e0 : nth i x 0 = lo + INR i * dt) by (apply node; lia). assert (e1 : nth (S i) x 0 = lo + INR (S i) * dt) by (apply node; lia). rewrite S_INR in e1.
  assert (lx : length x = K) by (unfold x; now rewrite map_length, seq_length).
  assert (z : forall j, nth j (repeat 0 K) 0 = 0) by (intros j; destruct (Nat.lt_ge_cases j K); [now apply nth_repeat|apply nth_overflow; now rewrite repeat_length]).
  unfold two. fold x. rewrite e0, e1. rewrite rsum_put, lin_put by (rewrite ?put_nth_length, repeat_length; lia). rewrite rsum_put, lin_put by (rewrite repeat_length; lia).
  rewrite put_nth_nth by (rewrite repeat_length; lia). destruct (Nat.eqb_spec (S i) i); [lia|]. rewrite !z, rsum_repeat0, lin_zero, e0, e1. split; field; lra.
Qed.

Lemma lin_affine : forall row y c d, length row = length y -> rsum (map (fun p => fst p * (c + d * snd p)) (combine row y)) = c * rsum row + d * lin row y.
Proof.
  unfold lin, rsum. induction row as [|r row IH]; intros [|v y] c d e; try discriminate; cbn; [ring|]. rewrite IH by (cbn in e; lia). ring.
Qed.

(** ** Masks *)
Lemma keep_map {X Y} : forall (f : X -> Y) m l, keep m (map f l) = map f (keep m l).
Proof. unfold keep. intros f m. induction m as [|b m IH]; intros [|a l]; cbn; try reflexivity. destruct b; cbn; now rewrite IH. Qed.
Lemma keep_sums : forall m row y, length m = length row -> length y = length row -> (forall j, nth j m true = false -> nth j row 0 = 0) ->
  rsum (keep m row) = rsum row /\ lin (keep m row) (keep m y) = lin row y.
Proof.
  unfold keep, lin, rsum. induction m as [|b m IH]; intros [|a row] [|c y] e1 e2 h; cbn in e1, e2; try discriminate; [split; reflexivity|].
  destruct (IH row y ltac:(lia) ltac:(lia) (fun j hj => h (S j) hj)) as [i1 i2]. cbn. destruct b; cbn; rewrite ?i1, ?i2; [split; reflexivity|].
  specialize (h 0%nat eq_refl). cbn in h. rewrite h. split; ring.
Qed.
Lemma column_sum_zero : forall M j, Forall (Forall (fun v => 0 <= v)) M -> column_sum M j = 0 -> forall row, In row M -> nth j row 0 = 0.
Proof.
  unfold column_sum. induction M as [|r M IH]; intros j h e row; [intros []|]. inversion h; subst. cbn in e.
  assert (p : forall r', Forall (fun v => 0 <= v) r' -> 0 <= nth j r' 0).
  { intros r' hr. destruct (Nat.lt_ge_cases j (length r')); [apply (proj1 (Forall_forall _ _) hr); now apply nth_In|rewrite nth_overflow by assumption; lra]. }
  assert (q : 0 <= fold_right Rplus 0 (map (fun row => nth j row 0) M)).
  { clear - H2 p. induction M as [|r M IH]; cbn; [lra|]. inversion H2; subst. specialize (IH H3). specialize (p r H1). lra. }
  specialize (p r H1). intros [<-|hi]; [lra|]. apply (IH j H2); [lra|exact hi].
Qed.

(** ** The basis *)
Lemma loop_rows : forall x toas l (M : list (list R)), length M = length toas ->
  fold_left (fun M ii => map (fun tr => fill_row x ii (fst tr) (snd tr)) (combine toas M)) l M
  = map (fun tr => fold_left (fun row ii => fill_row x ii (fst tr) row) l (snd tr)) (combine toas M).
Proof.
  intros x toas l. induction l as [|a l IH]; intros M e; cbn [fold_left].
  - revert toas e. induction M as [|r M IH]; intros [|t toas] e; try discriminate; [reflexivity|]. cbn. f_equal. apply IH. cbn in e. lia.
  - rewrite IH by (rewrite map_length, combine_length; lia). clear IH. revert toas e. induction M as [|r M IH]; intros [|t toas] e; try discriminate; [reflexivity|].
    cbn. f_equal. apply IH. cbn in e. lia.
Qed.
Lemma nonzero_term {X} : forall (f : X -> R) l, fold_right Rplus 0 (map f l) <> 0 -> exists t, In t l /\ f t <> 0.
Proof.
  intros f l. induction l as [|t l IH]; cbn; intros h; [now elim h|]. destruct (Req_dec (f t) 0) as [z|z]; [|exists t; split; [now left|exact z]].
  rewrite z, Rplus_0_l in h. destruct (IH h) as [u [hu zu]]. exists u. split; [now right|exact zu].
Qed.
Lemma hat_nonneg : forall dt t y, 0 <= hat dt t y.
Proof. intros. apply Rmax_l. Qed.
Lemma hat_le_one : forall dt t y, 0 < dt -> hat dt t y <= 1.
Proof. intros dt t y h. apply Rmax_lub; [lra|]. assert (0 <= Rabs (t - y) / dt) by (apply Rmult_le_pos; [apply Rabs_pos|left; now apply Rinv_0_lt_compat]). lra. Qed.
Lemma linear_interp_lem : forall toas dt, 0 < dt -> (exists a b, In a toas /\ In b toas /\ a < b) ->
  exists x, linear_interp_basis toas dt = Ok (map (fun t => map (fun y => Rmax 0 (1 - Rabs (t - y) / dt)) x) toas, x) /\
  (exists lo, In lo toas /\ (forall t, In t toas -> lo <= t) /\ forall y, In y x -> exists i : nat, y = lo + INR i * dt) /\
  (forall y, In y x -> exists t, In t toas /\ Rabs (t - y) < dt) /\
  forall t, In t toas -> let row := map (fun y => Rmax 0 (1 - Rabs (t - y) / dt)) x in
  Forall (fun r => 0 <= r <= 1) row /\ rsum row = 1 /\ forall c d, rsum (map (fun p => fst p * (c + d * snd p)) (combine row x)) = c + d * t.
Proof.
  intros toas dt hdt [a [b [ia [ib ab]]]]. destruct toas as [|t0 toas]; [destruct ia|]. unfold linear_interp_basis, rmin, rmax. cbn [rbind]. set (ts := t0 :: toas) in *.
  set (lo := fold_left Rmin toas t0). set (hi := fold_left Rmax toas t0).
  assert (R : forall t, In t ts -> lo <= t <= hi).
  { intros t [<-|h]; destruct (fold_min_le toas t0) as [m1 m2], (fold_max_le toas t0) as [n1 n2]; split; [exact m1|exact n1|now apply m2|now apply n2]. }
  assert (ilo : In lo ts) by (unfold lo, ts; clear; revert t0; induction toas as [|v l IH]; intros t0; [now left|]; cbn [fold_left]; destruct (IH (Rmin t0 v)) as [e|h];
    [unfold Rmin in *; destruct (Rle_dec t0 v); [left; exact e|right; left; exact e]|right; right; exact h]).
  assert (lh : lo < hi) by (destruct (R a ia), (R b ib); lra).
  unfold arange. destruct (Req_EM_T dt 0); [lra|]. cbn [rbind]. set (K := Z.to_nat (ceil ((hi + dt - lo) / dt))).
  assert (hK : (2 <= K)%nat /\ hi <= lo + INR (K - 1) * dt).
  { destruct (ceil_spec ((hi + dt - lo) / dt)) as [c1 _]. set (z := ceil ((hi + dt - lo) / dt)) in *. assert (e : (hi + dt - lo) / dt = (hi - lo) / dt + 1) by (field; lra). rewrite e in c1.
    assert (p : 0 < (hi - lo) / dt) by (apply Rdiv_lt_0_compat; lra).
    assert (hz : (2 <= z)%Z) by (assert (IZR 1 < IZR z) by lra; apply lt_IZR in H; lia).
    assert (hk : (2 <= K)%nat) by (unfold K; lia). split; [exact hk|]. rewrite INR_IZR_INZ, Nat2Z.inj_sub by lia. replace (Z.of_nat K) with z by (unfold K; lia). rewrite minus_IZR. change (IZR (Z.of_nat 1)) with 1.
    assert ((hi - lo) / dt * dt <= (IZR z - 1) * dt) by (apply Rmult_le_compat_r; lra). replace ((hi - lo) / dt * dt) with (hi - lo) in H by (field; lra). lra. }
  destruct hK as [hK hi']. set (x := map (fun i => lo + INR i * dt) (seq 0 K)). assert (lx : length x = K) by (unfold x; now rewrite map_length, seq_length).
  assert (E : forall t, In t ts -> exists i, (S i < K)%nat /\ fold_left (fun row ii => fill_row x ii t row) (seq 0 (K - 1)) (repeat 0 K) = two lo dt K i t /\ two lo dt K i t = map (hat dt t) x).
  { intros t it. destruct (loop lo dt K hdt t (K - 1) ltac:(lia) (proj1 (R t it))) as [L _]. destruct (L ltac:(lia)) as [i [hi0 [hb er]]].
    - rewrite node by lia. destruct (R t it). lra.
    - exists i. split; [lia|]. split; [exact er|]. apply two_hat; [exact hdt|lia|exact hb]. }
  rewrite lx. rewrite loop_rows by (now rewrite map_length).
  assert (EM : map (fun tr => fold_left (fun row ii => fill_row x ii (fst tr) row) (seq 0 (K - 1)) (snd tr)) (combine ts (map (fun _ => repeat 0 K) ts)) = map (fun t => map (hat dt t) x) ts).
  { assert (G : forall l, incl l ts -> map (fun tr => fold_left (fun row ii => fill_row x ii (fst tr) row) (seq 0 (K - 1)) (snd tr)) (combine l (map (fun _ => repeat 0 K) l)) = map (fun t => map (hat dt t) x) l).
    { induction l as [|t l IH]; intros hl; [reflexivity|]. cbn [map combine fst snd]. f_equal; [destruct (E t (hl t (or_introl eq_refl))) as [i [_ [-> ->]]]; reflexivity|]. apply IH. intros u hu. apply hl. now right. }
    apply G, incl_refl. }
  rewrite EM. set (M := map (fun t => map (hat dt t) x) ts). set (idx := map (fun j => nonzero (column_sum M j)) (seq 0 K)).
  assert (pos : Forall (Forall (fun v => 0 <= v)) M) by (apply Forall_forall; intros r hr; apply in_map_iff in hr; destruct hr as [t [<- _]]; apply Forall_forall; intros v hv; apply in_map_iff in hv; destruct hv as [y [<- _]]; apply hat_nonneg).
  exists (keep idx x). split; [|split; [|split]].
  - f_equal. f_equal. unfold M. rewrite map_map. apply map_ext. intros t. rewrite keep_map. reflexivity.
  - exists lo. split; [exact ilo|]. split; [intros t it; apply (R t it)|]. intros y hy. unfold keep in hy. apply in_map_iff in hy. destruct hy as [[y' b'] [ey hy]]. cbn in ey. subst y'. apply filter_In in hy. destruct hy as [hy _].
    apply in_combine_l in hy. unfold x in hy. apply in_map_iff in hy. destruct hy as [i [<- _]]. now exists i.
  - intros y hy. unfold keep in hy. apply in_map_iff in hy. destruct hy as [[y' b'] [ey hy]]. cbn in ey. subst y'. apply filter_In in hy. destruct hy as [hy hb']. cbn in hb'. subst b'.
    apply (In_nth _ _ (0, true)) in hy. destruct hy as [j [hj ej]]. rewrite combine_length in hj. assert (li : length idx = K) by (unfold idx; now rewrite map_length, seq_length).
    rewrite combine_nth in ej by congruence. injection ej as e1 e2. unfold idx in e2. rewrite (nth_map_in _ _ _ _ 0%nat) in e2 by (rewrite seq_length; lia). rewrite seq_nth in e2 by lia. change (0 + j)%nat with j in e2.
    assert (ne : column_sum M j <> 0) by (unfold nonzero in e2; destruct (Req_EM_T (column_sum M j) 0); [discriminate|assumption]).
    assert (X : exists t, In t ts /\ hat dt t y <> 0).
    { unfold column_sum, M in ne. rewrite map_map in ne. apply nonzero_term in ne. destruct ne as [t [it ht]]. exists t. split; [exact it|]. rewrite (nth_map_in _ _ _ _ 0) in ht by lia.
      rewrite <- e1. exact ht. }
    destruct X as [t [it ht]]. exists t. split; [exact it|]. unfold hat in ht. destruct (Rlt_le_dec (Rabs (t - y)) dt) as [l|l]; [exact l|]. exfalso. apply ht. apply Rmax_left.
    assert (1 <= Rabs (t - y) / dt) by (apply Rmult_le_reg_r with dt; [exact hdt|]; unfold Rdiv; rewrite Rmult_assoc, Rinv_l by lra; lra). lra.
  - intros t it. set (row := map (fun y => Rmax 0 (1 - Rabs (t - y) / dt)) (keep idx x)). assert (er : row = keep idx (map (hat dt t) x)) by (rewrite keep_map; reflexivity).
    assert (K1 : rsum row = rsum (map (hat dt t) x) /\ lin row (keep idx x) = lin (map (hat dt t) x) x).
    { rewrite er. apply keep_sums; [unfold idx; now rewrite !map_length, seq_length|now rewrite map_length|]. intros j hj.
      assert (lj : (j < K)%nat) by (destruct (Nat.lt_ge_cases j K); [assumption|rewrite nth_overflow in hj by (unfold idx; rewrite map_length, seq_length; lia); discriminate]).
      unfold idx in hj. rewrite (nth_map_in _ _ _ _ 0%nat) in hj by (rewrite seq_length; lia). rewrite seq_nth in hj by lia. change (0 + j)%nat with j in hj. unfold nonzero in hj. destruct (Req_EM_T (column_sum M j) 0) as [z|]; [|discriminate].
      apply (column_sum_zero M j pos z). unfold M. apply in_map_iff. now exists t. }
    destruct (E t it) as [i [hi0 [_ e2]]]. destruct (two_sums lo dt K i t hdt hi0) as [s1 s2]. fold x in s2. rewrite e2 in s1, s2. rewrite s1, s2 in K1. destruct K1 as [k1 k2].
    split; [|split; [exact k1|]].
    + apply Forall_forall. intros v hv. unfold row in hv. apply in_map_iff in hv. destruct hv as [y [<- _]]. split; [apply hat_nonneg|now apply hat_le_one].
    + intros c d. rewrite lin_affine by (unfold row; now rewrite map_length). rewrite k1, k2. ring.
Qed.
Lemma linear_interp_empty_lem : forall t n dt, 0 < dt -> linear_interp_basis (repeat t (S n)) dt = Ok (repeat [] (S n), []).
Proof.
  intros t n dt hdt. unfold linear_interp_basis, rmin, rmax. cbn [repeat].
  assert (m1 : fold_left Rmin (repeat t n) t = t) by (induction n; cbn; [reflexivity|]; rewrite Rmin_left by lra; exact IHn).
  assert (m2 : fold_left Rmax (repeat t n) t = t) by (clear m1; induction n; cbn; [reflexivity|]; rewrite Rmax_left by lra; exact IHn).
  rewrite m1, m2. cbn [rbind]. unfold arange. destruct (Req_EM_T dt 0); [lra|]. replace ((t + dt - t) / dt) with 1 by (field; lra).
  assert (e : ceil 1 = 1%Z).
  { destruct (ceil_spec 1). assert (IZR (ceil 1) < IZR 2) by lra. apply lt_IZR in H1. assert (IZR 0 < IZR (ceil 1)) by lra. apply lt_IZR in H2. lia. }
  rewrite e. change (Z.to_nat 1) with 1%nat. cbn [rbind seq map length Nat.sub fold_left]. f_equal.
  assert (z : column_sum (map (fun _ : R => repeat 0 1) (t :: repeat t n)) 0 = 0).
  { unfold column_sum. rewrite map_map. cbn [repeat nth]. clear. generalize (t :: repeat t n). intros l. induction l; cbn; [reflexivity|]. rewrite IHl. ring. }
  cbn [repeat map] in z |- *. rewrite z. unfold nonzero. destruct (Req_EM_T 0 0); [|lra]. unfold keep. cbn. f_equal. f_equal. rewrite map_map. clear. induction n; cbn; [reflexivity|]. now f_equal.
Qed.
Lemma linear_interp_refuted_lem : exists toas dt, 0 < dt /\ toas <> [] /\ linear_interp_basis toas dt = Ok ([[]], []).
Proof. exists [3], 1. split; [lra|]. split; [discriminate|]. apply (linear_interp_empty_lem 3 0 1). lra. Qed.

(** ** Timing-model bases *)
Definition sumto (n : nat) (f : nat -> R) : R := rsum (map f (seq 0 n)).
Definition entry_of (M : columns) (i j : nat) : R := nth i (nth j M []) 0.
(** [v] is a combination of the columns. *)
Definition in_span (M : columns) (v : nat -> R) : Prop :=
  exists c : nat -> R, forall i, v i = sumto (length M) (fun j => c j * entry_of M i j).
(** The columns whose index is not excluded. *)
Definition kept (M : columns) (ex : option (list nat)) : columns :=
  map (fun j => nth j M []) (filter (fun j => negb (existsb (Nat.eqb j) (match ex with Some e => e | None => [] end))) (seq 0 (length M))).
Lemma sumto_S : forall n f, sumto (S n) f = sumto n f + f n.
Proof. intros n f. unfold sumto. rewrite seq_S, map_app. cbn. unfold rsum. rewrite fold_right_app. cbn. assert (G : forall l a, fold_right Rplus a l = fold_right Rplus 0 l + a) by (induction l as [|x l IH]; intros a; cbn; [ring|rewrite IH; ring]). rewrite G. ring. Qed.
Lemma sumto_ext : forall n f g, (forall j, (j < n)%nat -> f j = g j) -> sumto n f = sumto n g.
Proof. intros n f g h. unfold sumto. apply rsum_ext. intros j hj. apply in_seq in hj. apply h. lia. Qed.
Lemma sumto_scal : forall n c f, sumto n (fun j => c * f j) = c * sumto n f.
Proof. induction n as [|n IH]; intros c f; [unfold sumto; cbn; ring|]. rewrite !sumto_S, IH. ring. Qed.
Lemma sumto_plus : forall n f g, sumto n (fun j => f j + g j) = sumto n f + sumto n g.
Proof. induction n as [|n IH]; intros f g; [unfold sumto; cbn; ring|]. rewrite !sumto_S, IH. ring. Qed.
Lemma sumto_swap : forall m n f, sumto m (fun i => sumto n (fun j => f i j)) = sumto n (fun j => sumto m (fun i => f i j)).
Proof.
  induction m as [|m IH]; intros n f.
  - transitivity (sumto n (fun _ => 0 * 0)); [rewrite sumto_scal; unfold sumto at 1; cbn; ring|]. apply sumto_ext. intros. unfold sumto. cbn. ring.
  - rewrite sumto_S, IH, <- sumto_plus. apply sumto_ext. intros j _. now rewrite sumto_S.
Qed.
Lemma sumto_delta : forall n k f, (k < n)%nat -> sumto n (fun j => (if Nat.eqb j k then 1 else 0) * f j) = f k.
Proof.
  induction n as [|n IH]; intros k f h; [lia|]. rewrite sumto_S. destruct (Nat.eqb_spec n k) as [->|ne].
  - replace (sumto k _) with 0; [ring|]. symmetry. transitivity (sumto k (fun _ => 0 * 0)); [|rewrite sumto_scal; ring]. apply sumto_ext. intros j hj. destruct (Nat.eqb_spec j k); [lia|ring].
  - rewrite IH by lia. ring.
Qed.
Lemma kept_all : forall M, kept M None = M.
Proof.
  intros M. unfold kept. cbn [existsb negb].
  assert (F : forall (l : list nat), filter (fun _ => true) l = l) by (induction l as [|a l IH]; cbn; [reflexivity|now rewrite IH]). rewrite F.
  apply (nth_ext _ _ [] []); [now rewrite map_length, seq_length|]. intros n h. rewrite map_length, seq_length in h. rewrite (nth_map_in _ _ _ _ 0%nat) by (now rewrite seq_length). now rewrite seq_nth.
Qed.
Lemma exclude_kept : forall M ex, exclude M ex = match ex with None | Some [] => Ok M | _ => match kept M ex with [] => Err IndexError | K => Ok K end end.
Proof.
  intros M ex. destruct ex as [[|a e]|]; try reflexivity. unfold exclude, kept.
  destruct (filter _ (seq 0 (length M))) as [|i l]; reflexivity.
Qed.
Lemma exclude_inv : forall M ex K, exclude M ex = Ok K -> K = kept M ex.
Proof.
  intros M ex K. rewrite exclude_kept. destruct ex as [[|a e]|]; [intros [= <-]; symmetry; apply (kept_all M)| |intros [= <-]; symmetry; apply kept_all].
  destruct (kept M (Some (a :: e))); congruence.
Qed.
Lemma excluded_lem : forall M ex,
  (forall c, In c (kept M ex) <-> exists j, (j < length M)%nat /\ (forall e, ex = Some e -> ~ In j e) /\ nth j M [] = c) /\
  (kept M ex <> [] -> unnormed_tm_basis M ex = Ok (kept M ex, 1)) /\
  (kept M ex = [] -> M <> [] -> unnormed_tm_basis M ex = Err IndexError).
Proof.
  intros M ex.
  assert (X : forall j, negb (existsb (Nat.eqb j) (match ex with Some e => e | None => [] end)) = true <-> forall e, ex = Some e -> ~ In j e).
  { intros j. rewrite negb_true_iff. split.
    - intros h e -> hi. assert (t : existsb (Nat.eqb j) e = true) by (apply existsb_exists; exists j; split; [exact hi|apply Nat.eqb_refl]). congruence.
    - intros h. destruct ex as [e|]; [|reflexivity]. destruct (existsb (Nat.eqb j) e) eqn:E; [|reflexivity]. apply existsb_exists in E. destruct E as [k [hk ek]]. apply Nat.eqb_eq in ek. subst k. now elim (h e eq_refl). }
  split; [|split].
  - intros c. unfold kept. rewrite in_map_iff. split.
    + intros [j [<- hj]]. apply filter_In in hj. destruct hj as [hj hx]. apply in_seq in hj. exists j. split; [lia|]. split; [now apply X|reflexivity].
    + intros [j [hj [hx <-]]]. exists j. split; [reflexivity|]. apply filter_In. split; [apply in_seq; lia|now apply X].
  - intros h. unfold unnormed_tm_basis. rewrite exclude_kept. destruct ex as [[|a e]|]; cbn [rmap].
    + f_equal. f_equal. symmetry. apply (kept_all M).
    + destruct (kept M (Some (a :: e))); [contradiction|reflexivity].
    + f_equal. f_equal. symmetry. apply kept_all.
  - intros h n. unfold unnormed_tm_basis. rewrite exclude_kept. destruct ex as [[|a e]|].
    + rewrite <- (kept_all M) in n. contradiction.
    + now rewrite h.
    + rewrite kept_all in h. contradiction.
Qed.
Lemma sq_sum_nonneg : forall c, 0 <= rsum (map (fun x => x ^ 2) c).
Proof. unfold rsum. induction c as [|x c IH]; cbn [map fold_right]; [lra|]. pose proof (pow2_ge_0 x). lra. Qed.
Lemma sq_sum_zero : forall c, rsum (map (fun x => x ^ 2) c) = 0 -> map (fun _ => 0) c = c.
Proof.
  unfold rsum. induction c as [|x c IH]; intros h; [reflexivity|]. cbn [map fold_right] in h. pose proof (sq_sum_nonneg c) as p. unfold rsum in p. pose proof (pow2_ge_0 x). cbn [map]. rewrite IH by lra. f_equal.
  destruct (Req_dec x 0) as [|n]; [auto|]. exfalso. apply (pow_nonzero x 2 n). lra.
Qed.
(** Columns multiplied by nonzero numbers span the same space. *)
Lemma span_scaled : forall (M N : columns) (d : nat -> R), length N = length M -> (forall j, (j < length M)%nat -> d j <> 0) ->
  (forall i j, (j < length M)%nat -> entry_of N i j = entry_of M i j / d j) -> forall v, in_span N v <-> in_span M v.
Proof.
  intros M N d l hd h v. split; intros [c hc].
  - exists (fun j => c j / d j). intros i. rewrite hc, l. apply sumto_ext. intros j hj. rewrite h by exact hj. field. now apply hd.
  - exists (fun j => c j * d j). intros i. rewrite hc, l. apply sumto_ext. intros j hj. rewrite h by exact hj. field. now apply hd.
Qed.
Lemma normed_columns : forall (K : columns) (n : list R), length n = length K ->
  let N := map (fun cn : list R * R => if Req_EM_T (snd cn) 0 then map (fun _ => 0) (fst cn) else map (fun x => x / snd cn) (fst cn)) (combine K n) in
  length N = length K /\ forall j, (j < length K)%nat -> nth j N [] = if Req_EM_T (nth j n 0) 0 then map (fun _ => 0) (nth j K []) else map (fun x => x / nth j n 0) (nth j K []).
Proof.
  intros K n e N. split; [unfold N; rewrite map_length, combine_length; lia|]. intros j hj. unfold N. rewrite (nth_map_in _ _ _ _ ([], 0)) by (rewrite combine_length; lia). rewrite combine_nth by (now symmetry). reflexivity.
Qed.
Lemma nth_map0 : forall (f : R -> R) c i, f 0 = 0 -> nth i (map f c) 0 = f (nth i c 0).
Proof. intros f c i h. rewrite <- h at 1. apply map_nth. Qed.
Lemma normed_span_lem : forall M ex N w, normed_tm_basis M None ex = Ok (N, w) ->
  w = 1 /\ length N = length (kept M ex) /\
  (forall j, (j < length N)%nat -> let c := nth j (kept M ex) [] in let d := nth j N [] in length d = length c /\
     (Forall (fun x => x = 0) c -> Forall (fun x => x = 0) d) /\ (~ Forall (fun x => x = 0) c -> rsum (map (fun x => x ^ 2) d) = 1 /\ exists s, 0 < s /\ c = map (fun x => s * x) d)) /\
  forall v, in_span N v <-> in_span (kept M ex) v.
Proof.
  intros M ex N w. unfold normed_tm_basis. destruct (exclude M ex) as [K|] eqn:E; [|discriminate]. cbn [rbind]. apply exclude_inv in E. rewrite <- E.
  rewrite map_length, Nat.eqb_refl. intros [= <- <-]. destruct (normed_columns K (map norm2 K) ltac:(now rewrite map_length)) as [lN hN]. cbv zeta in *.
  set (N := map _ (combine K (map norm2 K))) in *. clearbody N.
  assert (nn : forall j, (j < length K)%nat -> nth j (map norm2 K) 0 = sqrt (rsum (map (fun x => x ^ 2) (nth j K [])))) by (intros j hj; now rewrite (nth_map_in _ _ _ _ [])).
  split; [reflexivity|]. split; [exact lN|]. split.
  - intros j hj. rewrite lN in hj. rewrite hN, nn by exact hj. set (c := nth j K []). pose proof (sq_sum_nonneg c) as p.
    destruct (Req_EM_T (sqrt (rsum (map (fun x => x ^ 2) c))) 0) as [z|z].
    + apply sqrt_eq_0 in z; [|exact p]. apply sq_sum_zero in z. split; [apply map_length|]. split; [intros _; apply Forall_forall; intros x hx; apply in_map_iff in hx; destruct hx as [y [<- _]]; reflexivity|].
      intros n. exfalso. apply n. rewrite <- z. apply Forall_forall. intros x hx. apply in_map_iff in hx. destruct hx as [y [<- _]]. reflexivity.
    + set (s := sqrt _) in *. assert (hs : 0 < s) by (pose proof (sqrt_pos (rsum (map (fun x => x ^ 2) c))); unfold s in *; lra). split; [apply map_length|]. split.
      * intros h. exfalso. apply z. unfold s. replace (rsum (map (fun x => x ^ 2) c)) with 0; [apply sqrt_0|]. clear - h. unfold rsum. induction h as [|x l e _ IH]; cbn [map fold_right]; [reflexivity|]. rewrite <- IH, e. ring.
      * intros _. split.
        -- rewrite map_map. transitivity (rsum (map (fun x => / s ^ 2 * x ^ 2) c)); [apply rsum_ext; intros; field; lra|].
           assert (G : forall k l, rsum (map (fun x => k * x ^ 2) l) = k * rsum (map (fun x => x ^ 2) l)) by (unfold rsum; clear; intros k; induction l as [|x l IH]; cbn [map fold_right]; [ring|rewrite IH; ring]).
           rewrite G. replace (rsum (map (fun x => x ^ 2) c)) with (s * s) by (apply sqrt_sqrt; exact p). field. lra.
        -- exists s. split; [exact hs|]. rewrite map_map. transitivity (map (fun x => x) c); [now rewrite map_id|]. apply map_ext. intros x. field. lra.
  - set (d := fun j => if Req_EM_T (nth j (map norm2 K) 0) 0 then 1 else nth j (map norm2 K) 0). apply (span_scaled K N d lN).
    + intros j hj. unfold d. destruct (Req_EM_T (nth j (map norm2 K) 0) 0); [lra|assumption].
    + intros i j hj. unfold entry_of, d. rewrite hN by exact hj. destruct (Req_EM_T (nth j (map norm2 K) 0) 0) as [z|z].
      * rewrite nn in z by exact hj. apply sqrt_eq_0 in z; [|apply sq_sum_nonneg]. apply sq_sum_zero in z. rewrite z. field.
      * rewrite nth_map0; [reflexivity|]. unfold Rdiv. ring.
Qed.
Lemma given_norms_lem : forall M n ex, length n = length (kept M ex) -> kept M ex <> [] ->
  exists N, normed_tm_basis M (Some n) ex = Ok (N, 1) /\ length N = length (kept M ex) /\
  (forall i j, (j < length N)%nat -> entry_of N i j = if Req_EM_T (nth j n 0) 0 then 0 else entry_of (kept M ex) i j / nth j n 0) /\
  (Forall (fun x => x <> 0) n -> forall v, in_span N v <-> in_span (kept M ex) v).
Proof.
  intros M n ex ln hk. destruct (excluded_lem M ex) as [_ [U _]]. specialize (U hk). unfold unnormed_tm_basis in U. destruct (exclude M ex) as [K|] eqn:E; [|discriminate]. injection U as U. rewrite <- U in *.
  unfold normed_tm_basis. rewrite E. cbn [rbind]. rewrite ln, Nat.eqb_refl. eexists. split; [reflexivity|]. destruct (normed_columns K n ln) as [lN hN]. cbv zeta in *. set (N := map _ (combine K n)) in *. clearbody N.
  assert (D : forall i j, (j < length N)%nat -> entry_of N i j = if Req_EM_T (nth j n 0) 0 then 0 else entry_of K i j / nth j n 0).
  { intros i j hj. rewrite lN in hj. unfold entry_of. rewrite hN by exact hj. destruct (Req_EM_T (nth j n 0) 0); [rewrite (nth_map0 (fun _ => 0)); reflexivity|]. rewrite (nth_map0 (fun x => x / nth j n 0)); [reflexivity|unfold Rdiv; ring]. }
  split; [exact lN|]. split; [exact D|]. intros hn. apply (span_scaled K N (fun j => nth j n 0) lN).
  - intros j hj. apply (proj1 (Forall_forall _ _) hn). apply nth_In. lia.
  - intros i j hj. rewrite D by lia. destruct (Req_EM_T (nth j n 0) 0) as [z|]; [|reflexivity]. exfalso. apply (proj1 (Forall_forall _ _) hn (nth j n 0)); [apply nth_In; lia|exact z].
Qed.
(** What [np.linalg.svd(M, full_matrices=False)] promises about [u] and [s]. *)
Definition svd_of (M u : columns) (s : list R) : Prop :=
  length u = length s /\ Forall (fun x => 0 <= x) s /\
  exists V : nat -> nat -> R,
  (forall k l, (k < length s)%nat -> (l < length s)%nat -> sumto (length M) (fun j => V k j * V l j) = if Nat.eqb k l then 1 else 0) /\
  forall i j, (j < length M)%nat -> entry_of M i j = sumto (length s) (fun l => entry_of u i l * nth l s 0 * V l j).
Lemma svd_span_lem : forall svd M ex u w, svd_tm_basis svd M ex = Ok (u, w) -> svd_of (kept M ex) u (snd (svd (kept M ex))) ->
  w = map (fun _ => 1) u /\ (forall v, in_span (kept M ex) v -> in_span u v) /\
  (Forall (fun x => 0 < x) (snd (svd (kept M ex))) -> forall v, in_span u v -> in_span (kept M ex) v).
Proof.
  intros svd M ex u w. unfold svd_tm_basis. destruct (exclude M ex) as [K|] eqn:E; [|discriminate]. apply exclude_inv in E. rewrite <- E. clear E. cbn [rmap].
  destruct (svd K) as [u' s]. cbn [snd]. intros [= -> <-] [lu [_ [V [hV hM]]]]. split.
  { clear - lu. revert s lu. induction u as [|a u IH]; intros [|b s] e; try discriminate; [reflexivity|]. cbn. f_equal. apply IH. cbn in e. lia. }
  split.
  - intros v [c hc]. exists (fun l => nth l s 0 * sumto (length K) (fun j => c j * V l j)). intros i. rewrite hc, lu.
    transitivity (sumto (length K) (fun j => sumto (length s) (fun l => c j * (entry_of u i l * nth l s 0 * V l j)))); [apply sumto_ext; intros j hj; rewrite hM by exact hj; now rewrite <- sumto_scal|].
    rewrite sumto_swap. apply sumto_ext. intros l hl. transitivity (entry_of u i l * nth l s 0 * sumto (length K) (fun j => c j * V l j)); [|ring]. rewrite <- sumto_scal. apply sumto_ext. intros. ring.
  - intros hs v [c hc]. exists (fun j => sumto (length s) (fun l => c l / nth l s 0 * V l j)). intros i. rewrite hc, lu. symmetry.
    transitivity (sumto (length K) (fun j => sumto (length s) (fun l => sumto (length s) (fun l' => c l / nth l s 0 * (entry_of u i l' * nth l' s 0) * (V l j * V l' j))))).
    { apply sumto_ext. intros j hj. rewrite hM by exact hj. rewrite Rmult_comm, <- sumto_scal. apply sumto_ext. intros l _. rewrite Rmult_comm, <- sumto_scal. apply sumto_ext. intros. ring. }
    rewrite sumto_swap. apply sumto_ext. intros l hl. rewrite sumto_swap.
    transitivity (sumto (length s) (fun l' => (if Nat.eqb l' l then 1 else 0) * (c l / nth l s 0 * (entry_of u i l' * nth l' s 0)))).
    { apply sumto_ext. intros l' hl'. rewrite sumto_scal, hV by assumption. rewrite (Nat.eqb_sym l' l). ring. }
    rewrite sumto_delta by exact hl. field. intros z. assert (0 < nth l s 0) by (apply (proj1 (Forall_forall _ _) hs); now apply nth_In). lra.
Qed.
Lemma tm_weights_lem : forall M ex norm B w, (unnormed_tm_basis M ex = Ok (B, w) \/ normed_tm_basis M norm ex = Ok (B, w)) -> tm_prior w = 10 ^ 40.
Proof.
  intros M ex norm B w h. assert (e : w = 1).
  { destruct h as [h|h]; [unfold unnormed_tm_basis in h; destruct (exclude M ex); [now injection h|discriminate]|]. unfold normed_tm_basis in h. destruct (exclude M ex) as [v|]; [cbn [rbind] in h|discriminate].
    destruct (Nat.eqb _ (length v)); [now injection h|]. destruct (Nat.eqb _ 1); discriminate. }
  subst w. unfold tm_prior. ring.
Qed.

(** * Options of the timing model *)
Lemma timing_refused_lem : forall svd nm ex use_svd, (exists e, timing_basis svd use_svd nm ex = Err e) <-> use_svd = true /\ nm <> NTrue.
Proof.
  intros svd nm ex [|]; (split; [intros [e h]; destruct nm; cbn in h; try discriminate; split; try reflexivity; try congruence|]).
  - intros [_ h]; destruct nm; [congruence|eexists; reflexivity|eexists; reflexivity].
  - intros [h _]; discriminate.
Qed.
Lemma timing_span_lem : forall svd use_svd nm ex f M B w, timing_basis svd use_svd nm ex = Ok f -> f M = Ok (B, w) ->
  (use_svd = true -> svd_of (kept M ex) B (snd (svd (kept M ex))) /\ Forall (fun x => 0 < x) (snd (svd (kept M ex)))) ->
  (forall n, use_svd = false -> nm = NGiven n -> Forall (fun x => x <> 0) n) ->
  (forall v, in_span B v <-> in_span (kept M ex) v) /\
  match w with inl x => x = 1 | inr l => l = map (fun _ => 1) B end.
Proof.
  intros svd use_svd nm ex f M B w e; destruct use_svd, nm as [| |n]; cbn in e; try discriminate; injection e as <-; intros h hs hn.
  - destruct (svd_tm_basis svd M ex) as [[u x]|] eqn:E; [|discriminate]; cbn in h; injection h as <- <-.
    destruct (hs eq_refl) as [h1 h2]; destruct (svd_span_lem svd M ex u x E h1) as (e1 & e2 & e3); split; [|exact e1]; intros v; split; [now apply e3|apply e2].
  - destruct (normed_tm_basis M None ex) as [[u x]|] eqn:E; [|discriminate]; cbn in h; injection h as <- <-.
    destruct (normed_span_lem M ex u x E) as (e1 & _ & _ & e2); now split.
  - unfold unnormed_tm_basis in h; destruct (exclude M ex) as [K|] eqn:E; [|discriminate]; cbn in h; injection h as <- <-; apply exclude_inv in E; subst K; now split.
  - destruct (normed_tm_basis M (Some n) ex) as [[u x]|] eqn:E; [|discriminate]; cbn in h; injection h as <- <-.
    assert (E' := E); unfold normed_tm_basis in E; destruct (exclude M ex) as [K|] eqn:EK; [|discriminate]; apply exclude_inv in EK; cbn [rbind] in E.
    destruct (Nat.eqb_spec (length n) (length K)) as [el|ne]; [|destruct (Nat.eqb (length n) 1); discriminate].
    injection E as eu ex'; split; [|now symmetry]; rewrite EK in el.
    destruct (kept M ex) as [|c0 K0] eqn:EE.
    + subst K; cbn in eu; subst u; intros v; reflexivity.
    + rewrite <- EE in *; destruct (given_norms_lem M n ex el) as (N & eN & _ & _ & hN); [rewrite EE; discriminate|].
      rewrite eN in E'; injection E' as <- _; apply hN; now apply hn.
Qed.
Lemma svd_rank_refuted_lem : exists svd M f B w v, timing_basis svd true NTrue None = Ok f /\ f M = Ok (B, w) /\
  svd_of (kept M None) B (snd (svd (kept M None))) /\ in_span B v /\ ~ in_span (kept M None) v /\
  exists g N w', timing_basis svd false NTrue None = Ok g /\ g M = Ok (N, w') /\ ~ in_span N v.
Proof.
  set (I2 := [[1; 0]; [0; 1]] : columns); set (M := [[1; 0]; [0; 0]] : columns).
  assert (hs : ~ in_span M (fun i => if Nat.eqb i 1 then 1 else 0)).
  { intros [c h]; specialize (h 1%nat); unfold sumto, rsum, entry_of, M in h; cbn in h; lra. }
  assert (ek : kept M None = M) by reflexivity.
  exists (fun _ => (I2, [1; 0])), M; do 2 eexists; exists (inr [1; 1]), (fun i => if Nat.eqb i 1 then 1 else 0).
  split; [reflexivity|]; split; [reflexivity|]; rewrite ek; split; [|split; [|split; [exact hs|]]].
  - split; [reflexivity|]; split; [repeat constructor; cbn; lra|]; exists (fun k j => if Nat.eqb k j then 1 else 0); split.
    + intros [|[|k]] [|[|l]] hk hl; cbn in hk, hl; try lia; unfold sumto, rsum; cbn; lra.
    + intros i [|[|j]] hj; cbn in hj; try lia; unfold sumto, rsum, entry_of, M, I2; cbn; destruct i as [|[|i]]; cbn; try lra; destruct i; lra.
  - exists (fun j => if Nat.eqb j 1 then 1 else 0); intros i; unfold sumto, rsum, entry_of, I2; cbn; destruct i as [|[|i]]; cbn; try lra; destruct i; lra.
  - destruct (normed_tm_basis M None None) as [[N x]|] eqn:E; [|cbn in E; discriminate]; exists (fun M => rmap (fun Bw => (fst Bw, inl (snd Bw))) (normed_tm_basis M None None)), N, (inl x).
    split; [reflexivity|]; split; [now rewrite E|]; intros h; apply hs; destruct (normed_span_lem M None N x E) as (_ & _ & _ & e2); now apply e2.
Qed.
Lemma norm2_zero c : norm2 c = 0 <-> Forall (fun x => x = 0) c.
Proof.
  assert (p : forall l, 0 <= fold_right Rplus 0 (map (fun x => x ^ 2) l)) by (induction l as [|x l IH]; cbn [map fold_right]; [lra|]; pose proof (pow2_ge_0 x); lra).
  unfold norm2; split.
  - intros h; apply sqrt_eq_0 in h; [|apply p]; revert h; induction c as [|x c IH]; [constructor|]; intros h; cbn [map fold_right] in h.
    specialize (p c); pose proof (pow2_ge_0 x); constructor; [|apply IH; lra]; apply Rsqr_0_uniq; unfold Rsqr; lra.
  - intros h; replace (fold_right Rplus 0 (map (fun x => x ^ 2) c)) with 0; [apply sqrt_0|]; induction h as [|x l -> h IH]; cbn [map fold_right]; [reflexivity|]; rewrite <- IH; ring.
Qed.
Lemma stable_fast_lem : forall svd M, Forall (fun c => ~ Forall (fun x => x = 0) c) M ->
  exists N, normed_tm_basis M None None = Ok (N, 1) /\ stable_matrix svd M true = map (map Some) N.
Proof.
  intros svd M h; unfold normed_tm_basis; cbn [exclude rbind]; rewrite map_length, Nat.eqb_refl; eexists; split; [reflexivity|].
  unfold stable_matrix; induction h as [|c M hc h IH]; [reflexivity|]; cbn [map combine fst snd]; f_equal; [|exact IH].
  destruct (Req_EM_T (norm2 c) 0) as [e|ne]; [elim hc; now apply norm2_zero|]; rewrite map_map; reflexivity.
Qed.
Lemma stable_zero_lem : forall svd M j, (j < length M)%nat -> Forall (fun x => x = 0) (nth j M []) ->
  nth j (stable_matrix svd M true) [] = map (fun _ => None) (nth j M []).
Proof.
  intros svd M j hj hz; unfold stable_matrix.
  rewrite (nth_indep _ [] (map (fun x => if Req_EM_T (norm2 []) 0 then None else Some (x / norm2 [])) [])) by (now rewrite map_length).
  rewrite (map_nth (fun c => map (fun x => if Req_EM_T (norm2 c) 0 then None else Some (x / norm2 c)) c)).
  apply map_ext; intros x; destruct (Req_EM_T (norm2 (nth j M [])) 0) as [_|ne]; [reflexivity|]; elim ne; now apply norm2_zero.
Qed.
Lemma stable_slow_lem : forall svd M U S, svd M = (U, S) -> svd_of M (firstn (length S) U) S -> Forall (fun x => 0 < x) S ->
  exists N, stable_matrix svd M false = map (map Some) N /\ length N = length S /\ forall v, in_span N v <-> in_span M v.
Proof.
  intros svd M U S e h p; unfold stable_matrix; rewrite e; exists (firstn (length S) U); split; [reflexivity|]; split; [exact (proj1 h)|]; intros v.
  assert (K : kept M None = M).
  { unfold kept; assert (E : exclude M None = Ok M) by reflexivity; apply exclude_inv in E; symmetry; exact E. }
  destruct (svd_span_lem (fun _ => (firstn (length S) U, S)) M None (firstn (length S) U) (map (fun _ => 1) S)) as (_ & h1 & h2); [reflexivity|now rewrite K|].
  rewrite K in h1, h2; split; [now apply h2|apply h1].
Qed.
