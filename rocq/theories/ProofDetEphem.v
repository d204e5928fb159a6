From Coq Require Import String Bool Arith Lia ZArith List Permutation Sorted Reals Lra.
From Verif Require Import PyBase ProofBase ModelSelect ModelFunc ModelOrf ModelEphem ModelDet ProofSelect ProofQuant ProofEphem.
Import ListNotations.
Open Scope list_scope.
Open Scope nat_scope.

(** ** Epochs *)
Definition rows (n : nat) (b : list nat) : list nat := filter (fun i => existsb (Nat.eqb i) b) (seq 0 n).
Lemma rows_in : forall n b i, In i (rows n b) <-> i < n /\ In i b.
Proof.
  intros n b i. unfold rows. rewrite filter_In, in_seq, existsb_exists. split.
  - intros [H (x & Hx & E)]. apply Nat.eqb_eq in E. subst x. split; [lia|exact Hx].
  - intros [H1 H2]. split; [lia|]. exists i. split; [exact H2|apply Nat.eqb_refl].
Qed.
Lemma part_bounds : forall toas dt bs b i, partition_ok toas dt bs -> In b bs -> In i b -> i < length toas.
Proof.
  intros toas dt bs b i (HP & _) Hb Hi. assert (H : In i (concat bs)) by (apply in_concat; now exists b). eapply Permutation_in in H; [|exact HP]. apply in_seq in H. lia.
Qed.
Lemma part_NoDup : forall bs (b : list nat), NoDup (concat bs) -> In b bs -> NoDup b.
Proof.
  induction bs as [|x bs IH]; intros b H Hb; [contradiction|]. cbn in H. destruct Hb as [->|Hb]; [|apply IH; [|exact Hb]].
  - clear IH. induction b as [|y b IH]; [constructor|]. cbn in H. inversion H as [|? ? H1 H2]; subst. constructor; [|now apply IH]. intros Hi. apply H1, in_or_app. now left.
  - clear - H. induction x as [|y x IH]; [exact H|]. cbn in H. inversion H; subst. now apply IH.
Qed.
Lemma rows_perm : forall toas dt bs b, partition_ok toas dt bs -> In b bs -> Permutation (rows (length toas) b) b.
Proof.
  intros toas dt bs b HP Hb. assert (ND : NoDup (concat bs)) by (destruct HP as (HP & _); eapply Permutation_NoDup; [symmetry; exact HP|apply seq_NoDup]).
  apply NoDup_Permutation; [apply NoDup_filter, seq_NoDup|now apply (part_NoDup bs)|]. intros i. rewrite rows_in. split; [tauto|]. intros H. split; [|exact H]. eapply part_bounds; eassumption.
Qed.
Lemma rmapM_okl : forall {A B} (f : A -> result B) (g : A -> B) l, (forall x, In x l -> f x = Ok (g x)) -> rmapM f l = Ok (map g l).
Proof. intros A B f g l. induction l as [|x l IH]; intros H; [reflexivity|]. cbn [rmapM map]. rewrite (H x) by now left. cbn [rbind]. rewrite IH by (intros; apply H; now right). reflexivity. Qed.
Lemma nth_map_seq : forall {A} (l : list A) d, map (fun j => nth j l d) (seq 0 (length l)) = l.
Proof.
  intros A l d. apply nth_ext with d d; [now rewrite map_length, seq_length|]. intros i Hi. rewrite map_length, seq_length in Hi.
  rewrite (nth_indep _ d (nth (length l) l d)) by (now rewrite map_length, seq_length). rewrite (map_nth (fun j => nth j l d)), seq_nth by exact Hi. reflexivity.
Qed.
Lemma filter_all : forall {A} (p : A -> bool) l, (forall x, In x l -> p x = true) -> filter p l = l.
Proof. intros A p l. induction l as [|x l IH]; intros H; [reflexivity|]. cbn. rewrite (H x) by now left. f_equal. apply IH. intros; apply H; now right. Qed.
Lemma epochs_ok : forall argsort toas, argsort_ok argsort -> toas <> [] ->
  exists bs, buckets argsort toas 1 = Ok bs /\ partition_ok toas 1 bs /\ epochs argsort toas = Ok (map (rows (length toas)) bs).
Proof.
  intros argsort toas HA HT. destruct (buckets_ok argsort toas 1 HA Rlt_0_1 HT) as (bs & Hb & _ & HP). exists bs. split; [exact Hb|]. split; [exact HP|].
  unfold epochs, quant_matrix. rewrite Hb. cbn [rmap rbind].
  assert (F : filter (fun ind : list nat => 1 <=? length ind) bs = bs). { apply filter_all. intros b Hin. destruct HP as (_ & HP & _). destruct (HP b Hin) as (f & r & -> & _). reflexivity. }
  rewrite F. clear F. set (n := length toas). assert (Hn : n <> 0) by (unfold n; destruct toas; [congruence|discriminate]).
  set (U := map (fun i => map (fun l => if existsb (Nat.eqb i) l then 1%Z else 0%Z) bs) (seq 0 n)).
  assert (NC : ncols U = length bs). { unfold U. destruct n; [congruence|]. cbn. apply map_length. }
  rewrite NC. unfold quant2ind.
  assert (COL : forall j, j < length bs -> quant2ind_col false (ModelSelect.column U j) = Ok (EArr (rows n (nth j bs [])))).
  { intros j Hj. assert (EC : ModelSelect.column U j = map (fun i => if existsb (Nat.eqb i) (nth j bs []) then 1%Z else 0%Z) (seq 0 n)).
    { unfold ModelSelect.column, U. rewrite map_map. apply map_ext. intros i. rewrite (nth_indep _ 0%Z ((fun l => if existsb (Nat.eqb i) l then 1%Z else 0%Z) [])) by now rewrite map_length. apply (map_nth (fun l => if existsb (Nat.eqb i) l then 1%Z else 0%Z)). }
    assert (EF : flatnonzero (ModelSelect.column U j) = rows n (nth j bs [])).
    { unfold flatnonzero. rewrite EC, map_length, seq_length. unfold rows. apply filter_ext_in. intros i Hi. apply in_seq in Hi.
      rewrite (nth_indep _ 0%Z ((fun i => if existsb (Nat.eqb i) (nth j bs []) then 1%Z else 0%Z) n)) by (rewrite map_length, seq_length; lia).
      rewrite (map_nth (fun i => if existsb (Nat.eqb i) (nth j bs []) then 1%Z else 0%Z)), seq_nth by lia. cbn [plus]. destruct (existsb (Nat.eqb i) (nth j bs [])); reflexivity. }
    unfold quant2ind_col. rewrite EF. assert (NE : rows n (nth j bs []) <> []).
    { assert (Hin : In (nth j bs []) bs) by now apply nth_In. pose proof (rows_perm toas 1 bs _ HP Hin) as PM. destruct HP as (_ & HP & _). destruct (HP _ Hin) as (f & r & E & _). rewrite E in PM |- *. fold n in PM. intros E'. rewrite E' in PM. now apply Permutation_nil in PM. }
    destruct (rows n (nth j bs [])) as [|e0 l]; [congruence|]. rewrite orb_true_r. reflexivity. }
  rewrite (rmapM_okl _ (fun j => EArr (rows n (nth j bs [])))) by (intros j Hj; apply COL; apply in_seq in Hj; lia).
  cbn [rmap]. rewrite map_map. cbn [indices_from_slice]. f_equal. rewrite <- (nth_map_seq bs []) at 2. now rewrite map_map.
Qed.

(** ** Filling in *)
Lemma set_at_length : forall l i x, length (set_at i x l) = length l.
Proof. induction l as [|y l IH]; intros [|i] x; cbn; auto. Qed.
Lemma set_at_nth : forall l i x j, i < length l -> nth j (set_at i x l) 0%R = if Nat.eqb i j then x else nth j l 0%R.
Proof.
  induction l as [|y l IH]; intros i x j Hi; [cbn in Hi; lia|]. destruct i as [|i]; cbn [set_at].
  - destruct j; reflexivity.
  - destruct j as [|j]; [reflexivity|]. cbn [nth]. rewrite IH by (cbn in Hi; lia). reflexivity.
Qed.
Lemma fill_one : forall sc x d, (forall i, In i sc -> i < length d) ->
  let d' := fold_left (fun d i => set_at i x d) sc d in
  length d' = length d /\ forall j, (In j sc -> nth j d' 0%R = x) /\ (~ In j sc -> nth j d' 0%R = nth j d 0%R).
Proof.
  induction sc as [|i sc IH]; intros x d H; cbn [fold_left].
  - split; [reflexivity|]. intros j. split; [intros []|reflexivity].
  - destruct (IH x (set_at i x d)) as [L V]; [intros k Hk; rewrite set_at_length; apply H; now right|]. rewrite set_at_length in L. split; [exact L|]. intros j. destruct (V j) as [V1 V2].
    destruct (in_dec Nat.eq_dec j sc) as [Hj|Hj]; [split; [auto|intros N; exfalso; apply N; now right]|]. rewrite V2 by exact Hj. rewrite set_at_nth by (apply H; now left).
    destruct (Nat.eqb_spec i j) as [->|n]; split; auto.
    + intros N. exfalso. apply N. now left.
    + intros [->|Hi]; [congruence|contradiction].
Qed.
Lemma fill_all : forall (h : list nat -> R) bs d, NoDup (concat bs) -> (forall i, In i (concat bs) -> i < length d) ->
  let d' := fold_left (fun d sv => fold_left (fun d i => set_at i (snd sv) d) (fst sv) d) (combine bs (map h bs)) d in
  length d' = length d /\ forall j, (forall b, In b bs -> In j b -> nth j d' 0%R = h b) /\ (~ In j (concat bs) -> nth j d' 0%R = nth j d 0%R).
Proof.
  intros h bs. induction bs as [|b bs IH]; intros d ND HB; cbn [fold_left combine map fst snd].
  - split; [reflexivity|]. intros j. split; [intros b []|reflexivity].
  - cbn in ND, HB. destruct (fill_one b (h b) d) as [L V]; [intros i Hi; apply HB, in_or_app; now left|].
    assert (DJ : forall j, In j b -> ~ In j (concat bs)). { intros j Hj. clear - ND Hj. induction b as [|y b IH]; [contradiction|]. cbn in ND. inversion ND as [|? ? N1 N2]; subst. destruct Hj as [->|Hj]; [|now apply IH]. intros Hi. apply N1, in_or_app. now right. }
    destruct (IH (fold_left (fun d i => set_at i (h b) d) b d)) as [L' V'].
    + clear - ND. induction b as [|y b IH]; [exact ND|]. cbn in ND. inversion ND; subst. now apply IH.
    + intros i Hi. rewrite L. apply HB, in_or_app. now right.
    + split; [congruence|]. intros j. destruct (V' j) as [V1 V2]. destruct (V j) as [W1 W2]. split.
      * intros b' [<-|Hb'] Hj; [|now apply V1]. rewrite V2 by now apply DJ. now apply W1.
      * intros N. rewrite V2 by (intros Hi; apply N, in_or_app; now right). apply W2. intros Hi. apply N, in_or_app. now left.
Qed.

(** ** The signal *)
Definition entry_delay (k : corrections) (jup sat : option orbits) (t : R) (p : planets) (n : vec) : R :=
  (dot (pl_earth p) n - dot (moved 0 0 (k_drift k * ((t / 86400 - 55197) / (36525 / 100))) None true (pl_earth p)) n - shift k jup sat t p n)%R.
Lemma delay_entries : forall toas pl pos k jup sat, length pl = length toas -> length pos = length toas -> fits (k_jup_orb k) jup -> fits (k_sat_orb k) sat ->
  ephem_delay toas pl pos k jup sat true = Ok (map (fun q => entry_delay k jup sat (fst q) (fst (snd q)) (snd (snd q))) (combine toas (combine pl pos))).
Proof. intros. rewrite delay_lem by assumption. f_equal. apply map_ext. intros (t & p & n). reflexivity. Qed.
Definition planets_at (x : R) (toas : list R) (pl : list planets) : planets :=
  Planets (ipl x toas (map pl_earth pl)) (ipl x toas (map pl_jupiter pl)) (ipl x toas (map pl_saturn pl)) (ipl x toas (map pl_uranus pl)) (ipl x toas (map pl_neptune pl)).
Lemma interp_planets_ok : forall x toas pl, length pl = length toas -> toas <> [] -> interp_planets x toas pl = Ok (planets_at x toas pl).
Proof. intros x toas pl HL HT. unfold interp_planets. rewrite !interp_ipl by (try assumption; now rewrite map_length). reflexivity. Qed.
Definition mean_toa (toas : list R) (b : list nat) : R := mean (map (fun i => nth i toas 0%R) b).
Lemma sum_perm : forall l l' : list R, Permutation l l' -> fold_right Rplus 0%R l = fold_right Rplus 0%R l'.
Proof. intros l l' H. induction H; cbn; try lra. Qed.
Lemma mean_perm : forall toas b b', Permutation b b' -> mean_toa toas b = mean_toa toas b'.
Proof. intros toas b b' H. unfold mean_toa, mean. rewrite (sum_perm _ _ (Permutation_map _ H)), !map_length, (Permutation_length H). reflexivity. Qed.
Definition epoch_delay (toas : list R) (pl : list planets) (pos : list vec) (k : corrections) (jup sat : option orbits) (b : list nat) : R :=
  let x := mean_toa toas b in entry_delay k jup sat x (planets_at x toas pl) (ipl x toas pos).
Lemma concat_rows : forall toas dt bs, partition_ok toas dt bs -> Permutation (concat (map (rows (length toas)) bs)) (concat bs).
Proof.
  intros toas dt bs HP. assert (H : forall b, In b bs -> Permutation (rows (length toas) b) b) by (intros b Hb; now apply (rows_perm toas dt bs)). clear HP. induction bs as [|b bs IH]; [constructor|].
  cbn. apply Permutation_app; [apply H; now left|apply IH; intros; apply H; now right].
Qed.
Lemma signal_ok : forall argsort toas pl pos k jup sat, argsort_ok argsort -> toas <> [] -> length pl = length toas -> length pos = length toas ->
  fits (k_jup_orb k) jup -> fits (k_sat_orb k) sat ->
  exists bs l, partition_ok toas 1 bs /\ length l = length toas /\
  (forall b i, In b bs -> In i b -> nth i l 0%R = epoch_delay toas pl pos k jup sat b) /\
  forall delay0, length delay0 = length toas -> ephem_signal argsort true toas pl pos k jup sat delay0 = Ok l.
Proof.
  intros argsort toas pl pos k jup sat HA HT LP LV FJ FS. destruct (epochs_ok argsort toas HA HT) as (bs & Hb & HP & HE). exists bs.
  set (h := epoch_delay toas pl pos k jup sat).
  set (F := fun d0 => fold_left (fun d sv => fold_left (fun d i => set_at i (snd sv) d) (fst sv) d) (combine (map (rows (length toas)) bs) (map h (map (rows (length toas)) bs))) d0).
  assert (PR : Permutation (concat (map (rows (length toas)) bs)) (seq 0 (length toas))) by (etransitivity; [now apply (concat_rows toas 1)|now destruct HP]).
  assert (SG : forall d0, ephem_signal argsort true toas pl pos k jup sat d0 = Ok (F d0)).
  { intros d0. unfold ephem_signal. rewrite HE. cbn [rbind]. cbv zeta.
    rewrite (rmapM_okl _ (fun x => planets_at x toas pl)) by (intros x _; now apply interp_planets_ok). cbn [rbind].
    rewrite (rmapM_okl _ (fun x => ipl x toas pos)) by (intros x _; apply interp_ipl; [now symmetry|assumption]). cbn [rbind].
    rewrite delay_entries by (try assumption; now rewrite !map_length). cbn [rbind]. f_equal. unfold F. f_equal. f_equal. generalize (map (rows (length toas)) bs). intros us. induction us as [|u us IH]; [reflexivity|]. cbn [map combine fst snd]. f_equal. exact IH. }
  assert (SP : forall d0, length d0 = length toas -> length (F d0) = length toas /\ forall b i, In b bs -> In i b -> nth i (F d0) 0%R = h b).
  { intros d0 L0. destruct (fill_all h (map (rows (length toas)) bs) d0) as [L V].
    - eapply Permutation_NoDup; [symmetry; exact PR|apply seq_NoDup].
    - intros i Hi. eapply Permutation_in in Hi; [|exact PR]. apply in_seq in Hi. lia.
    - split; [unfold F; congruence|]. intros b i Hin Hi. destruct (V i) as [V1 _]. unfold F. rewrite (V1 (rows (length toas) b)).
      + unfold h, epoch_delay. rewrite (mean_perm toas (rows (length toas) b) b); [reflexivity|]. now apply (rows_perm toas 1 bs).
      + now apply in_map.
      + apply rows_in. split; [eapply part_bounds; eassumption|exact Hi]. }
  exists (F (repeat 0%R (length toas))). destruct (SP (repeat 0%R (length toas)) (repeat_length _ _)) as [L1 V1]. split; [exact HP|]. split; [exact L1|]. split; [exact V1|].
  intros d0 L0. rewrite SG. f_equal. destruct (SP d0 L0) as [L2 V2]. apply nth_ext with 0%R 0%R; [congruence|]. intros i Hi. rewrite L2 in Hi.
  assert (Hin : In i (concat bs)) by (destruct HP as (HP & _); eapply Permutation_in; [symmetry; exact HP|apply in_seq; lia]). apply in_concat in Hin as (b & Hbb & Hib). now rewrite (V1 b i), (V2 b i).
Qed.

(** ** C101 *)
Lemma ephem_epochs_lem : forall argsort toas pl pos k jup sat, argsort_ok argsort -> toas <> [] -> length pl = length toas -> length pos = length toas ->
  fits (k_jup_orb k) jup -> fits (k_sat_orb k) sat ->
  exists bs l, partition_ok toas 1 bs /\ length l = length toas /\
  (forall delay0, length delay0 = length toas -> ephem_signal argsort true toas pl pos k jup sat delay0 = Ok l) /\
  forall b i, In b bs -> In i b -> exists p v,
    let x := (fold_right Rplus 0 (map (fun i => nth i toas 0%R) b) / INR (length b))%R in
    interp_planets x toas pl = Ok p /\ interp x toas pos = Ok v /\ ephem_delay [x] [p] [v] k jup sat true = Ok [nth i l 0%R].
Proof.
  intros argsort toas pl pos k jup sat HA HT LP LV FJ FS. destruct (signal_ok argsort toas pl pos k jup sat HA HT LP LV FJ FS) as (bs & l & HP & LL & VV & SG).
  exists bs, l. split; [exact HP|]. split; [exact LL|]. split; [exact SG|]. intros b i Hb Hi. set (x := mean_toa toas b). exists (planets_at x toas pl), (ipl x toas pos).
  assert (EX : (fold_right Rplus 0 (map (fun i => nth i toas 0%R) b) / INR (length b))%R = x) by (unfold x, mean_toa, mean; now rewrite map_length).
  rewrite EX. cbv zeta. split; [now apply interp_planets_ok|]. split; [apply interp_ipl; [now symmetry|assumption]|]. rewrite delay_entries by (try assumption; reflexivity). cbn [combine map fst snd]. rewrite (VV b i Hb Hi). reflexivity.
Qed.

(** At a TOA that is later than all before and earlier than all after it, the sample itself. *)
Lemma from_own : forall l x0 v0 i x v, nth_error l i = Some (x, v) -> (forall j q, j <= i -> nth_error l j = Some q -> (fst q <= x)%R) ->
  (forall j q, i < j -> nth_error l j = Some q -> (x < fst q)%R) -> interp_from x x0 v0 l = v.
Proof.
  induction l as [|[x1 v1] l IH]; intros x0 v0 i x v Hi HB HA; [destruct i; discriminate|]. cbn [interp_from].
  pose proof (HB 0 (x1, v1) (Nat.le_0_l _) eq_refl) as H1. cbn in H1. destruct (Rlt_dec x x1); [lra|].
  destruct i as [|i].
  - injection Hi as <- <-. destruct l as [|[x2 v2] l]; [reflexivity|]. cbn [interp_from]. pose proof (HA 1 (x2, v2) Nat.lt_0_1 eq_refl) as H2. cbn in H2. destruct (Rlt_dec x1 x2); [|lra].
    destruct v1 as [[a b] c], v2 as [[d e] f]. cbn. replace ((x1 - x1) / (x2 - x1))%R with 0%R by (field; lra). f_equal; [f_equal|]; ring.
  - apply (IH x1 v1 i); [exact Hi| |]; intros j q Hj Hq.
    + apply (HB (S j) q); [lia|exact Hq].
    + apply (HA (S j) q); [lia|exact Hq].
Qed.
Lemma nth_lt : forall {A} (l : list A) j q, nth_error l j = Some q -> j < length l.
Proof. intros A l j q H. apply nth_error_Some. congruence. Qed.
Lemma ipl_own : forall xp fp i, length fp = length xp -> i < length xp -> (forall j, j < i -> (nth j xp 0 <= nth i xp 0)%R) -> (forall j, i < j < length xp -> (nth i xp 0 < nth j xp 0)%R) ->
  ipl (nth i xp 0%R) xp fp = nth i fp (0, 0, 0)%R.
Proof.
  intros xp fp i HL Hi HB HA. unfold ipl. assert (NE : forall j, j < length xp -> nth_error (combine xp fp) j = Some (nth j xp 0%R, nth j fp (0, 0, 0)%R)).
  { intros j Hj. rewrite (nth_error_nth' _ (0%R, (0, 0, 0)%R)) by (rewrite combine_length; lia). rewrite combine_nth by (symmetry; exact HL). reflexivity. }
  pose proof (NE i Hi) as Ei. pose proof (NE 0 ltac:(lia)) as E0. destruct (combine xp fp) as [|[x0 v0] l] eqn:EC; [destruct i; discriminate|]. injection E0 as Ex0 Ev0.
  assert (LC : length l + 1 = length xp) by (apply (f_equal (@length _)) in EC; rewrite combine_length in EC; cbn in EC; lia).
  destruct i as [|i].
  - subst x0 v0. destruct (Rlt_dec (nth 0 xp 0%R) (nth 0 xp 0%R)); [reflexivity|]. destruct l as [|[x1 v1] l]; [reflexivity|]. pose proof (NE 1 ltac:(cbn in LC; lia)) as E1. cbn in E1. injection E1 as Ex1 Ev1.
    cbn [interp_from]. pose proof (HA 1 ltac:(cbn in LC; lia)) as H1. subst x1 v1. destruct (Rlt_dec (nth 0 xp 0%R) (nth 1 xp 0%R)); [|contradiction].
    destruct (nth 0 fp (0, 0, 0)%R) as [[a b] c], (nth 1 fp (0, 0, 0)%R) as [[d e] f]. cbn [vadd vscale]. replace ((nth 0 xp 0 - nth 0 xp 0) / (nth 1 xp 0 - nth 0 xp 0))%R with 0%R by (field; lra). f_equal; [f_equal|]; ring.
  - pose proof (HB 0 ltac:(lia)) as H0. rewrite <- Ex0 in H0. destruct (Rlt_dec (nth (S i) xp 0%R) x0); [lra|]. apply (from_own l x0 v0 i); [exact Ei| |]; intros j q Hj Hq.
    + pose proof (nth_lt l j q Hq) as Lj. pose proof (NE (S j) ltac:(lia)) as Ej. cbn in Ej. assert (Eq : Some q = Some (nth (S j) xp 0%R, nth (S j) fp (0, 0, 0)%R)) by (transitivity (nth_error l j); [symmetry; exact Hq|exact Ej]). injection Eq as ->. cbn [fst]. destruct (Nat.eq_dec j i) as [->|nji]; [cbn; lra|]. apply (HB (S j)). lia.
    + pose proof (nth_lt l j q Hq) as Lj. pose proof (NE (S j) ltac:(lia)) as Ej. cbn in Ej. assert (Eq : Some q = Some (nth (S j) xp 0%R, nth (S j) fp (0, 0, 0)%R)) by (transitivity (nth_error l j); [symmetry; exact Hq|exact Ej]). injection Eq as ->. cbn [fst]. apply (HA (S j)). lia.
Qed.
Definition in_order (toas : list R) : Prop := forall i j, i < j < length toas -> (nth i toas 0 <= nth j toas 0)%R.
Definition isolated (toas : list R) (i : nat) : Prop := forall j, j < length toas -> j <> i -> (1 <= Rabs (nth j toas 0 - nth i toas 0))%R.
Lemma nth_map2 : forall {A} (f : A -> vec) l i d, i < length l -> nth i (map f l) (0, 0, 0)%R = f (nth i l d).
Proof. intros A f l i d Hi. rewrite (nth_indep _ (0, 0, 0)%R (f d)) by now rewrite map_length. apply map_nth. Qed.
Lemma ephem_isolated_lem : forall argsort toas pl pos k jup sat delay0, argsort_ok argsort -> in_order toas -> length pl = length toas -> length pos = length toas -> length delay0 = length toas ->
  fits (k_jup_orb k) jup -> fits (k_sat_orb k) sat -> toas <> [] ->
  exists l direct, ephem_signal argsort true toas pl pos k jup sat delay0 = Ok l /\ ephem_signal argsort false toas pl pos k jup sat delay0 = Ok direct /\
  (forall i, i < length toas -> isolated toas i -> nth i l 0%R = nth i direct 0%R) /\
  ((forall i, i < length toas -> isolated toas i) -> l = direct).
Proof.
  intros argsort toas pl pos k jup sat delay0 HA HO LP LV LD FJ FS HT. destruct (signal_ok argsort toas pl pos k jup sat HA HT LP LV FJ FS) as (bs & l & HP & LL & VV & SG).
  exists l. eexists. split; [now apply SG|]. split; [cbn [ephem_signal]; now apply delay_entries|].
  set (direct := map _ _). assert (DL : length direct = length toas) by (unfold direct; rewrite map_length, !combine_length; lia).
  assert (ISO : forall i, i < length toas -> isolated toas i -> nth i l 0%R = nth i direct 0%R).
  { intros i Hi IS. assert (Hin : In i (concat bs)) by (destruct HP as (HP & _); eapply Permutation_in; [symmetry; exact HP|apply in_seq; lia]). apply in_concat in Hin as (b & Hb & Hib).
    assert (EB : b = [i]).
    { pose proof HP as (PM & HF & _). destruct (HF b Hb) as (f & r & -> & Hr). assert (ND : NoDup (f :: r)) by (apply (part_NoDup bs); [eapply Permutation_NoDup; [symmetry; exact PM|apply seq_NoDup]|exact Hb]).
      assert (OUT : forall j, In j (f :: r) -> j = i).
      { assert (Ef : f = i). { destruct (Nat.eq_dec f i) as [|n]; [assumption|exfalso]. pose proof (IS f (part_bounds toas 1 bs _ f HP Hb (or_introl eq_refl)) n) as A. pose proof (Hr i Hib) as B. revert A. unfold Rabs. destruct (Rcase_abs _); lra. }
        subst f. intros j Hj. destruct (Nat.eq_dec j i) as [|n]; [assumption|exfalso]. pose proof (IS j (part_bounds toas 1 bs _ j HP Hb Hj) n) as A. pose proof (Hr j Hj) as B. revert A. unfold Rabs. destruct (Rcase_abs _); lra. }
      rewrite (OUT f) in * by now left. destruct r as [|y r]; [reflexivity|]. exfalso. inversion ND as [|? ? N1 N2]; subst. apply N1. rewrite <- (OUT y) at 1 by (right; now left). now left. }
    subst b. rewrite (VV [i] i Hb (or_introl eq_refl)). unfold epoch_delay. cbv zeta. assert (EX : mean_toa toas [i] = nth i toas 0%R) by (unfold mean_toa, mean; cbn; field). rewrite EX.
    assert (OWN : forall fp, length fp = length toas -> ipl (nth i toas 0%R) toas fp = nth i fp (0, 0, 0)%R).
    { intros fp HL. apply ipl_own; try assumption.
      - intros j Hj. apply HO. lia.
      - intros j Hj. pose proof (HO i j Hj) as A. pose proof (IS j ltac:(lia) ltac:(lia)) as B. revert B. unfold Rabs. destruct (Rcase_abs _); lra. }
    unfold direct. set (dp := (Planets (0, 0, 0) (0, 0, 0) (0, 0, 0) (0, 0, 0) (0, 0, 0))%R).
    set (f := fun q : R * (planets * vec) => entry_delay k jup sat (fst q) (fst (snd q)) (snd (snd q))).
    rewrite (nth_indep (map f (combine toas (combine pl pos))) 0%R (f (0%R, (dp, (0, 0, 0)%R)))) by (rewrite map_length, !combine_length; lia). rewrite (map_nth f), combine_nth by (rewrite combine_length; lia). rewrite combine_nth by (etransitivity; [exact LP|symmetry; exact LV]). unfold f. cbn [fst snd].
    f_equal; [|now apply OWN]. unfold planets_at. rewrite !OWN by now rewrite map_length. rewrite !(nth_map2 _ pl i dp) by lia. destruct (nth i pl dp); reflexivity. }
  split; [exact ISO|]. intros AI. apply nth_ext with 0%R 0%R; [congruence|]. intros i Hi. apply ISO; [lia|]. apply AI. lia.
Qed.
Lemma ephem_none_lem : forall argsort pl pos k jup sat delay0, argsort_ok argsort -> ephem_signal argsort true [] pl pos k jup sat delay0 = Err IndexError.
Proof.
  intros argsort pl pos k jup sat delay0 HA. unfold ephem_signal, epochs, quant_matrix, buckets. destruct (HA []) as [HP _]. cbn in HP. apply Permutation_sym, Permutation_nil in HP. rewrite HP. reflexivity.
Qed.
Lemma ephem_daily_refuted_lem : exists toas, (forall t t', In t toas -> In t' toas -> (Rabs (t - t') <= 2)%R) /\
  forall argsort, argsort_ok argsort -> exists us, epochs argsort toas = Ok us /\ forall u, In u us -> ~ (In 0 u /\ In 1 u).
Proof.
  exists [0%R; 2%R]. split.
  - intros t t' Ht Ht'. cbn in Ht, Ht'. destruct Ht as [<-|[<-|[]]], Ht' as [<-|[<-|[]]]; unfold Rabs; destruct (Rcase_abs _); lra.
  - intros argsort HA. destruct (epochs_ok argsort [0%R; 2%R] HA) as (bs & _ & (_ & HF & _) & HE); [discriminate|]. eexists. split; [exact HE|].
    intros u Hu [H0 H1]. apply in_map_iff in Hu as (b & <- & Hb). apply rows_in in H0 as [_ H0]. apply rows_in in H1 as [_ H1]. destruct (HF b Hb) as (f & r & -> & Hr).
    pose proof (Hr _ H0) as A0. pose proof (Hr _ H1) as A1. cbn in A0, A1. lra.
Qed.
