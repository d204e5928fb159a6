(** Proofs about selections and pulsar-bound functions. *)
From Coq Require Import Ascii String Bool Arith Lia ZArith List Permutation Sorted Reals Lra.
From Verif Require Import PyBase ProofBase ModelSelect.
Import ListNotations.
Open Scope string_scope.
Open Scope list_scope.

(** * Specification *)

(** TOA number [i] is in the mask labelled [k]. *)
Definition selects (d : dict string mask) (k : string) (i : nat) : Prop :=
  exists m, dget string_dec d k = Some m /\ nth_error m i = Some true.
(** Every mask has an entry per TOA. *)
Definition masks_fit (d : dict string mask) (n : nat) : Prop :=
  forall k m, dget string_dec d k = Some m -> length m = n.
(** [b] occurs in [s]. *)
Definition occurs (b s : string) : Prop := exists p q, s = append p (append b q).

(** * np.unique and dict comprehensions *)
Lemma dict_of_app {V} (l : list (string * V)) : forall acc,
  NoDup (dkeys acc ++ map fst l) ->
  fold_left (fun d kv => dset string_dec d (fst kv) (snd kv)) l acc = acc ++ l.
Proof.
  induction l as [|[k v] l IH]; intros acc ND; simpl; [now rewrite app_nil_r|].
  simpl in ND. rewrite dset_new.
  - rewrite IH; [now rewrite <- app_assoc|]. unfold dkeys in *. rewrite map_app. simpl. now rewrite <- app_assoc.
  - apply NoDup_remove_2 in ND. rewrite in_app_iff in ND. tauto.
Qed.

Lemma dict_of_nodup {V} (l : list (string * V)) : NoDup (map fst l) -> dict_of l = l.
Proof. intros H. unfold dict_of. rewrite dict_of_app; auto. Qed.

Lemma dupdate_nil {V} (l : dict string V) : NoDup (dkeys l) -> dupdate string_dec [] l = l.
Proof. intros H. unfold dupdate. rewrite dict_of_app; auto. Qed.

Lemma dedup_in x l : In x (dedup l) <-> In x l.
Proof.
  induction l as [|a [|b l] IH]; [reflexivity|reflexivity|].
  change (dedup (a :: b :: l)) with (if String.eqb a b then dedup (b :: l) else a :: dedup (b :: l)).
  destruct (String.eqb_spec a b) as [->|n].
  - rewrite IH. simpl. tauto.
  - simpl (In x (a :: dedup (b :: l))). rewrite IH. simpl. tauto.
Qed.

Lemma dedup_sorted l : StronglySorted (fun a b => sle a b = true) l ->
  NoDup (dedup l) /\ StronglySorted (fun a b => sle a b = true) (dedup l).
Proof.
  induction l as [|a [|b l] IH]; intros H; [split; constructor| |].
  - split; repeat constructor. simpl. tauto.
  - change (dedup (a :: b :: l)) with (if String.eqb a b then dedup (b :: l) else a :: dedup (b :: l)).
    inversion H as [|? ? HS HF]; subst. destruct (IH HS) as [ND SS].
    destruct (String.eqb_spec a b) as [->|n]; auto. split.
    + constructor; auto. rewrite dedup_in. intros [->|Hin]; [congruence|].
      apply n. inversion HS as [|? ? _ HF2]; subst. inversion HF; subst.
      rewrite Forall_forall in HF2. apply sle_antisym; [assumption|exact (HF2 a Hin)].
    + constructor; auto. rewrite Forall_forall in *. intros x Hx. apply HF. apply (proj1 (dedup_in x (b :: l))) in Hx. exact Hx.
Qed.

Lemma np_unique_in x l : In x (np_unique l) <-> In x l.
Proof.
  unfold np_unique. rewrite dedup_in. split; apply Permutation_in; [|symmetry]; apply isort_perm.
Qed.
Lemma np_unique_sorted l : NoDup (np_unique l) /\ StronglySorted (fun a b => sle a b = true) (np_unique l).
Proof. apply dedup_sorted, isort_sorted; [apply sle_total|apply sle_trans]. Qed.

Lemma dget_map_self {V} (f : string -> V) l k :
  dget string_dec (map (fun v => (v, f v)) l) k = if in_dec string_dec k l then Some (f k) else None.
Proof.
  induction l as [|x l IH]; simpl; auto. destruct (string_dec k x) as [->|n]; simpl.
  - destruct (string_dec x x); [|congruence]. reflexivity.
  - rewrite IH. destruct (string_dec x k); [congruence|]. now destruct (in_dec string_dec k l).
Qed.

Lemma nth_error_map_Some {A B} (f : A -> B) l i y :
  nth_error (map f l) i = Some y <-> exists x, nth_error l i = Some x /\ f x = y.
Proof.
  rewrite nth_error_map. destruct (nth_error l i) as [x|]; simpl.
  - split; [intros H; injection H as <-; eauto|]. intros (x' & E & <-). now injection E as ->.
  - split; [discriminate|]. intros (? & ? & _). discriminate.
Qed.

(** Masks by value, for the distinct values satisfying [P]. *)
Definition by_values (P : string -> bool) (flags : list string) : dict string mask :=
  dict_of (map (fun v => (v, eq_mask flags v)) (filter P (np_unique flags))).

Lemma by_values_eq P flags :
  by_values P flags = map (fun v => (v, eq_mask flags v)) (filter P (np_unique flags)).
Proof.
  apply dict_of_nodup. rewrite map_map. simpl. rewrite map_id. apply NoDup_filter, np_unique_sorted.
Qed.

Lemma by_values_keys P flags : dkeys (by_values P flags) = filter P (np_unique flags).
Proof. rewrite by_values_eq. unfold dkeys. rewrite map_map. simpl. apply map_id. Qed.

Lemma by_values_get P flags k m : dget string_dec (by_values P flags) k = Some m <->
  m = eq_mask flags k /\ In k flags /\ P k = true.
Proof.
  rewrite by_values_eq, dget_map_self.
  destruct (in_dec string_dec k (filter P (np_unique flags))) as [H|H]; rewrite filter_In, np_unique_in in H.
  - split; [intros E; injection E as <-; tauto|]. intros (-> & _). reflexivity.
  - split; [discriminate|tauto].
Qed.

Lemma by_values_selects P flags k i :
  selects (by_values P flags) k i <-> nth_error flags i = Some k /\ P k = true.
Proof.
  unfold selects. split.
  - intros (m & Hm & Hi). apply by_values_get in Hm as (-> & Hin & HP).
    unfold eq_mask in Hi. apply nth_error_map_Some in Hi as (x & Hx & E). apply String.eqb_eq in E. now subst.
  - intros (Hi & HP). exists (eq_mask flags k). split.
    + apply by_values_get. split; auto. split; auto. eapply nth_error_In; eauto.
    + unfold eq_mask. apply nth_error_map_Some. exists k. split; auto. apply String.eqb_refl.
Qed.

Lemma by_backend_values flags : by_backend flags = by_values (fun _ => true) flags.
Proof.
  unfold by_backend, by_values. f_equal. f_equal. induction (np_unique flags); simpl; congruence.
Qed.

Lemma by_matching_values cb flags : by_matching cb flags = by_values (matches cb) flags.
Proof. reflexivity. Qed.

(** * C17 *)
Lemma by_backend_partition_lem :
  forall flags : list string,
    let d := by_backend flags in
    masks_fit d (length flags) /\
    (* a TOA is in the mask labelled v exactly if its flag is v *)
    (forall k i, selects d k i <-> nth_error flags i = Some k) /\
    (* every TOA is in exactly one mask, no mask is empty *)
    (forall i, i < length flags -> exists! k, selects d k i) /\
    (forall k, In k (dkeys d) -> exists i, selects d k i) /\
    (* labels are the distinct flags in ascending order *)
    NoDup (dkeys d) /\ StronglySorted (fun a b => sle a b = true) (dkeys d).
Proof.
  intros flags d. unfold d. rewrite by_backend_values.
  assert (forall k i, selects (by_values (fun _ => true) flags) k i <-> nth_error flags i = Some k) as HS.
  { intros. rewrite by_values_selects. tauto. }
  split.
  { intros k m H. apply by_values_get in H as (-> & _). unfold eq_mask. apply map_length. }
  split; auto. split.
  { intros i Hi. destruct (nth_error flags i) as [k|] eqn:E; [|apply nth_error_None in E; lia].
    exists k. split; [now apply HS|]. intros k' H. apply HS in H. congruence. }
  split.
  { intros k H. rewrite by_values_keys in H. apply filter_In in H as [H _]. apply (proj1 (np_unique_in k flags)) in H.
    apply In_nth_error in H as [i Hi]. exists i. now apply HS. }
  rewrite by_values_keys.
  assert (filter (fun _ : string => true) (np_unique flags) = np_unique flags) as ->.
  { induction (np_unique flags); simpl; congruence. }
  apply np_unique_sorted.
Qed.

Lemma by_flag_lem :
  forall (name : string) (flags : dict string (list string)),
    (forall fl, dget string_dec flags name = Some fl -> by_flag name flags = Ok (by_backend fl)) /\
    (dget string_dec flags name = None -> by_flag name flags = Err KeyError).
Proof. intros name flags. unfold by_flag, dgetE. split; intros; now rewrite ?H. Qed.

Lemma no_selection_partition_lem :
  forall toas : list R,
    masks_fit (no_selection toas) (length toas) /\
    (forall i, i < length toas -> selects (no_selection toas) "" i) /\
    dkeys (no_selection toas) = [""].
Proof.
  intros toas. unfold no_selection. split; [|split; auto].
  - intros k m. simpl. destruct (string_dec k ""); [|discriminate]. intros H; injection H as <-. apply map_length.
  - intros i Hi. exists (map (fun _ => true) toas). split; [reflexivity|].
    destruct (nth_error toas i) eqn:E; [|apply nth_error_None in E; lia].
    apply nth_error_map_Some. eauto.
Qed.

Lemma Rleb_true x y : Rleb x y = true <-> (x <= y)%R.
Proof. unfold Rleb. destruct (Rle_dec x y); split; intros; try assumption; try reflexivity; try discriminate; tauto. Qed.
Lemma Rltb_true x y : Rltb x y = true <-> (x < y)%R.
Proof. unfold Rltb. destruct (Rlt_dec x y); split; intros; try assumption; try reflexivity; try discriminate; tauto. Qed.

Lemma rmax_spec l : forall x, In (rmax x l) (x :: l) /\ forall y, In y (x :: l) -> (y <= rmax x l)%R.
Proof.
  induction l as [|a l IH]; intros x; simpl.
  - split; auto. intros y [<-|[]]. lra.
  - destruct (IH (Rmax x a)) as [H1 H2]. split.
    + destruct H1 as [H1|H1]; [|auto]. unfold rmax in *. rewrite <- H1.
      unfold Rmax. destruct (Rle_dec x a); auto.
    + intros y Hy. change (rmax x (a :: l)) with (rmax (Rmax x a) l).
      assert (Rmax x a <= rmax (Rmax x a) l)%R as H3 by (apply H2; now left).
      destruct Hy as [<-|[<-|Hy]].
      * eapply Rle_trans; [apply Rmax_l|exact H3].
      * eapply Rle_trans; [apply Rmax_r|exact H3].
      * apply H2. now right.
Qed.

Lemma rmin_spec l : forall x, In (rmin x l) (x :: l) /\ forall y, In y (x :: l) -> (rmin x l <= y)%R.
Proof.
  induction l as [|a l IH]; intros x; simpl.
  - split; auto. intros y [<-|[]]. lra.
  - destruct (IH (Rmin x a)) as [H1 H2]. split.
    + destruct H1 as [H1|H1]; [|auto]. unfold rmin in *. rewrite <- H1.
      unfold Rmin. destruct (Rle_dec x a); auto.
    + intros y Hy. change (rmin x (a :: l)) with (rmin (Rmin x a) l).
      assert (rmin (Rmin x a) l <= Rmin x a)%R as H3 by (apply H2; now left).
      destruct Hy as [<-|[<-|Hy]].
      * eapply Rle_trans; [exact H3|apply Rmin_l].
      * eapply Rle_trans; [exact H3|apply Rmin_r].
      * apply H2. now right.
Qed.

Lemma cut_half_partition_lem :
  forall toas : list R,
    (toas = [] -> cut_half toas = Err ValueError) /\
    (toas <> [] ->
     exists d lo hi, cut_half toas = Ok d /\
       (* lo and hi are the first and last time *)
       (In lo toas /\ In hi toas /\ forall t, In t toas -> (lo <= t <= hi)%R) /\
       masks_fit d (length toas) /\ dkeys d = ["t1"; "t2"] /\
       (forall i, selects d "t1" i <-> exists t, nth_error toas i = Some t /\ (t - lo <= hi - t)%R) /\
       (forall i, selects d "t2" i <-> exists t, nth_error toas i = Some t /\ (t - lo > hi - t)%R) /\
       (forall i, i < length toas -> exists! k, selects d k i) /\
       (* only the second half can be empty, namely if all times are equal *)
       (exists i, selects d "t1" i) /\
       ((exists i, selects d "t2" i) <-> (lo < hi)%R)).
Proof.
  intros toas. split; [now intros ->|]. intros Hne. destruct toas as [|x l]; [congruence|].
  set (hi := rmax x l). set (lo := rmin x l).
  destruct (rmax_spec l x) as [Hhi Hhi2]. destruct (rmin_spec l x) as [Hlo Hlo2].
  fold hi in Hhi, Hhi2. fold lo in Hlo, Hlo2.
  set (mid := ((hi + lo) / 2)%R).
  exists [("t1", map (fun t => Rleb t mid) (x :: l)); ("t2", map (fun t => Rltb mid t) (x :: l))], lo, hi.
  set (d := [("t1", map (fun t => Rleb t mid) (x :: l)); ("t2", map (fun t => Rltb mid t) (x :: l))]).
  assert (forall i, selects d "t1" i <-> exists t, nth_error (x :: l) i = Some t /\ (t - lo <= hi - t)%R) as H1.
  { intros i. unfold selects. split.
    - intros (m & Hm & Hi). assert (m = map (fun t => Rleb t mid) (x :: l)) as -> by (cbn in Hm; simpl; congruence).
      apply nth_error_map_Some in Hi as (t & Ht & E). apply Rleb_true in E. exists t. split; auto. unfold mid in E. lra.
    - intros (t & Ht & E). exists (map (fun t => Rleb t mid) (x :: l)). split; [reflexivity|].
      apply nth_error_map_Some. exists t. split; auto. apply Rleb_true. unfold mid. lra. }
  assert (forall i, selects d "t2" i <-> exists t, nth_error (x :: l) i = Some t /\ (t - lo > hi - t)%R) as H2.
  { intros i. unfold selects. split.
    - intros (m & Hm & Hi). assert (m = map (fun t => Rltb mid t) (x :: l)) as -> by (cbn in Hm; simpl; congruence).
      apply nth_error_map_Some in Hi as (t & Ht & E). apply Rltb_true in E. exists t. split; auto. unfold mid in E. lra.
    - intros (t & Ht & E). exists (map (fun t => Rltb mid t) (x :: l)). split; [reflexivity|].
      apply nth_error_map_Some. exists t. split; auto. apply Rltb_true. unfold mid. lra. }
  split; [reflexivity|]. split; [auto|]. split.
  { intros k m. unfold d. cbn -[map]. destruct (string_dec k "t1").
    - intros E; injection E as <-. simpl. f_equal. apply map_length.
    - destruct (string_dec k "t2"); [|discriminate]. intros E; injection E as <-. simpl. f_equal. apply map_length. }
  split; [reflexivity|]. split; auto. split; auto. split; [|split].
  - intros i Hi. destruct (nth_error (x :: l) i) as [t|] eqn:E; [|apply nth_error_None in E; lia].
    destruct (Rle_dec (t - lo) (hi - t)) as [Hc|Hc].
    + exists "t1". split; [apply H1; eauto|]. intros k (m & Hm & Hk).
      unfold d in Hm. cbn -[map] in Hm. destruct (string_dec k "t1"); [auto|].
      destruct (string_dec k "t2") as [->|]; [|discriminate].
      assert (selects d "t2" i) as Hs by (exists m; split; auto).
      apply H2 in Hs as (t' & Ht' & Hgt). rewrite E in Ht'. injection Ht' as <-. lra.
    + exists "t2". split; [apply H2; exists t; split; auto; lra|]. intros k (m & Hm & Hk).
      unfold d in Hm. cbn -[map] in Hm. destruct (string_dec k "t1") as [->|].
      * assert (selects d "t1" i) as Hs by (exists m; split; auto).
        apply H1 in Hs as (t' & Ht' & Hgt). rewrite E in Ht'. injection Ht' as <-. lra.
      * destruct (string_dec k "t2"); [auto|discriminate].
  - destruct (In_nth_error _ _ Hlo) as [i Hi]. exists i. apply H1. exists lo. split; auto.
    specialize (Hhi2 lo Hlo). lra.
  - split.
    + intros (i & Hi). apply H2 in Hi as (t & Ht & Hgt). apply nth_error_In in Ht.
      specialize (Hlo2 t Ht). specialize (Hhi2 t Ht). lra.
    + intros Hlt. destruct (In_nth_error _ _ Hhi) as [i Hi]. exists i. apply H2. exists hi. split; auto. lra.
Qed.

(** * C18 *)
Lemma prefix_spec b s : String.prefix b s = true <-> exists q, s = append b q.
Proof.
  revert s. induction b as [|c b IH]; intros s; simpl.
  - split; [exists s; reflexivity|]. destruct s; auto.
  - destruct s as [|d s]; [split; [discriminate|intros [q H]; discriminate]|]. simpl.
    destruct (ascii_dec c d) as [->|n].
    + rewrite IH. split; intros [q H]; exists q; [now rewrite H|now injection H].
    + split; [discriminate|]. intros [q H]. injection H as -> _. congruence.
Qed.

Lemma substring_of_spec b s : substring_of b s = true <-> occurs b s.
Proof.
  induction s as [|c s IH]; cbn [substring_of]; rewrite orb_true_iff, prefix_spec.
  - split.
    + intros [[q H]|H]; [exists "", q; exact H|discriminate].
    + intros (p & q & H). destruct p; simpl in H; [left; eauto|discriminate].
  - rewrite IH. split.
    + intros [[q H]|(p & q & H)]; [exists "", q; exact H|exists (String c p), q; simpl; now rewrite H].
    + intros (p & q & H). destruct p as [|d p]; simpl in H; [left; eauto|].
      injection H as -> H. right. now exists p, q.
Qed.

Lemma filtered_backends_lem :
  forall (cb : list string) (flags : list string) (d : dict string mask),
    custom_backends (Some cb) flags = d \/ (cb = ngb /\ nanograv_backends flags = d) ->
    masks_fit d (length flags) /\
    (forall k i, selects d k i <-> nth_error flags i = Some k /\ exists b, In b cb /\ occurs b k) /\
    (* pairwise disjoint, none empty *)
    (forall k k' i, selects d k i -> selects d k' i -> k = k') /\
    (forall k, In k (dkeys d) -> exists i, selects d k i) /\
    (* the union is the set of matching TOAs *)
    (forall i, (exists k, selects d k i) <->
       exists f b, nth_error flags i = Some f /\ In b cb /\ occurs b f).
Proof.
  intros cb flags d Hd.
  assert (d = by_values (matches cb) flags) as ->.
  { destruct Hd as [<-|[-> <-]]; reflexivity. }
  assert (forall k, matches cb k = true <-> exists b, In b cb /\ occurs b k) as HM.
  { intros k. unfold matches. rewrite existsb_exists. split; intros (b & Hb & H); exists b; split; auto; now apply substring_of_spec. }
  assert (forall k i, selects (by_values (matches cb) flags) k i <-> nth_error flags i = Some k /\ exists b, In b cb /\ occurs b k) as HS.
  { intros. rewrite by_values_selects, HM. tauto. }
  split; [intros k m H; apply by_values_get in H as (-> & _); unfold eq_mask; apply map_length|].
  split; auto. split; [|split].
  - intros k k' i H H'. apply HS in H as [H _], H' as [H' _]. congruence.
  - intros k H. rewrite by_values_keys in H. apply filter_In in H as [H E]. apply (proj1 (np_unique_in k flags)) in H.
    apply In_nth_error in H as [i Hi]. exists i. apply by_values_selects. auto.
  - intros i. split.
    + intros (k & H). apply HS in H as (Hi & b & Hb & Ho). eauto.
    + intros (f & b & Hi & Hb & Ho). exists f. apply HS. eauto.
Qed.

Lemma custom_backends_none_lem :
  forall flags : list string, custom_backends None flags = by_backend flags.
Proof. reflexivity. Qed.

Lemma custom_backends_keys cb flags : NoDup (dkeys (custom_backends cb flags)).
Proof.
  destruct cb; simpl; [|rewrite by_backend_values]; [change (by_matching l flags) with (by_values (matches l) flags)|];
    rewrite by_values_keys; apply NoDup_filter, np_unique_sorted.
Qed.

(** What the documentation says a one-flag dictionary recovers. *)
Lemma custom_backends_dict_single_lem :
  forall (bf : list string) (flags : dict string (list string)) (toas : list R) (cb : option (list string)),
    custom_backends_dict (CBDict [("backend", cb)]) bf flags toas = Ok (custom_backends cb bf) /\
    (forall name fl, name <> "backend" -> dget string_dec flags name = Some fl ->
       custom_backends_dict (CBDict [(name, cb)]) bf flags toas = Ok (custom_backends cb fl)) /\
    (forall name, name <> "backend" -> dget string_dec flags name = None ->
       custom_backends_dict (CBDict [(name, cb)]) bf flags toas = Err KeyError) /\
    custom_backends_dict CBNone bf flags toas = Ok (no_selection toas).
Proof.
  intros bf flags toas cb. split; [|split; [|split; auto]].
  - simpl. now rewrite dupdate_nil by apply custom_backends_keys.
  - intros name fl Hn Hf. simpl. destruct (String.eqb_spec name "backend"); [congruence|].
    unfold dgetE. rewrite Hf. simpl. now rewrite dupdate_nil by apply custom_backends_keys.
  - intros name Hn Hf. simpl. destruct (String.eqb_spec name "backend"); [congruence|].
    unfold dgetE. now rewrite Hf.
Qed.

Lemma custom_backends_dict_overlap_refuted_lem :
  exists (bf : list string) (flags : dict string (list string)) (toas : list R)
    (cb : dict string (option (list string))) (d : dict string mask) (i : nat),
    custom_backends_dict (CBDict cb) bf flags toas = Ok d /\
    selects d "20CM" i /\ selects d "PDFB" i.
Proof.
  exists ["x"], [("B", ["20CM"]); ("be", ["PDFB"])], [0%R], [("B", None); ("be", None)],
    [("20CM", [true]); ("PDFB", [true])], 0.
  split; [reflexivity|]. split; eexists; split; reflexivity.
Qed.

(** The documented list of five names does not recover nanograv_backends. *)
Lemma nanograv_recovery_refuted_lem :
  exists flags : list string,
    custom_backends (Some ["ASP"; "GASP"; "GUPPI"; "PUPPI"; "YUPPI"]) flags <> nanograv_backends flags.
Proof. exists ["CHIME"]. vm_compute. discriminate. Qed.

(** * C19 *)
Lemma band_mask_true freqs lo hi i :
  nth_error (band_mask freqs (lo, hi)) i = Some true <->
  exists f, nth_error freqs i = Some f /\ (lo <= f < hi)%R.
Proof.
  unfold band_mask. rewrite nth_error_map_Some. split; intros (f & Hf & H); exists f; split; auto.
  - apply andb_true_iff in H as [H1 H2]. apply Rleb_true in H1. apply Rltb_true in H2. simpl in *. auto.
  - apply andb_true_iff. simpl. rewrite Rleb_true, Rltb_true. auto.
Qed.

Lemma by_freq_band_lem :
  forall (bands : option (dict string (R * R))) (freqs : list R),
    let bs := match bands with Some b => b | None => default_bands end in
    NoDup (dkeys bs) ->
    let d := by_freq_band bands freqs in
    masks_fit d (length freqs) /\
    (forall k i, selects d k i <->
       exists lo hi f, dget string_dec bs k = Some (lo, hi) /\ nth_error freqs i = Some f /\ (lo <= f < hi)%R) /\
    (* a band is returned exactly if some TOA is in it *)
    (forall k, In k (dkeys d) <->
       exists lo hi f, dget string_dec bs k = Some (lo, hi) /\ In f freqs /\ (lo <= f < hi)%R).
Proof.
  intros bands freqs bs ND d.
  set (ne := fun kv : string * (R * R) => existsb (fun x : bool => x) (band_mask freqs (snd kv))).
  assert (d = map (fun kv => (fst kv, band_mask freqs (snd kv))) (filter ne bs)) as Hd.
  { unfold d, by_freq_band. fold bs. apply dict_of_nodup. rewrite map_map. simpl.
    clear -ND. unfold dkeys in ND. induction bs as [|[k b] l IH]; simpl; [constructor|].
    simpl in ND. inversion ND; subst. destruct (ne (k, b)); simpl; auto. constructor; auto.
    intros H. apply H1. apply in_map_iff in H as ([k' b'] & E & H). simpl in E. subst k'.
    apply filter_In in H as [H _]. now apply (in_map fst) in H. }
  assert (NoDup (dkeys d)) as NDd.
  { rewrite Hd. unfold dkeys. rewrite map_map. simpl.
    clear -ND. unfold dkeys in ND. induction bs as [|[k b] l IH]; simpl; [constructor|].
    simpl in ND. inversion ND; subst. destruct (ne (k, b)); simpl; auto. constructor; auto.
    intros H. apply H1. apply in_map_iff in H as ([k' b'] & E & H). simpl in E. subst k'.
    apply filter_In in H as [H _]. now apply (in_map fst) in H. }
  assert (forall k m, dget string_dec d k = Some m <->
            exists b, dget string_dec bs k = Some b /\ m = band_mask freqs b /\ ne (k, b) = true) as Hget.
  { intros k m. split.
    - intros H. apply dget_In in H. rewrite Hd in H. apply in_map_iff in H as ([k' b] & E & H). simpl in E.
      injection E as -> <-. apply filter_In in H as [H Hn]. exists b. split; [now apply In_dget|auto].
    - intros (b & Hb & -> & Hn). apply In_dget; auto. rewrite Hd. apply in_map_iff. exists (k, b). split; auto.
      apply filter_In. split; auto. eapply dget_In; eauto. }
  assert (forall k b i, nth_error (band_mask freqs b) i = Some true -> ne (k, b) = true) as Hne.
  { intros k b i H. unfold ne. apply existsb_exists. exists true. split; auto. simpl. eapply nth_error_In; eauto. }
  split.
  { intros k m H. apply Hget in H as (b & _ & -> & _). unfold band_mask. apply map_length. }
  split.
  - intros k i. split.
    + intros (m & Hm & Hi). apply Hget in Hm as ([lo hi] & Hb & -> & _).
      apply band_mask_true in Hi as (f & Hf & H). exists lo, hi, f. auto.
    + intros (lo & hi & f & Hb & Hf & H). exists (band_mask freqs (lo, hi)).
      assert (nth_error (band_mask freqs (lo, hi)) i = Some true) as Hi by (apply band_mask_true; eauto).
      split; auto. apply Hget. exists (lo, hi). split; auto. split; auto. eapply Hne; eauto.
  - intros k. split.
    + intros H. apply (in_dget_Some string_dec) in H as [m Hm]. apply Hget in Hm as ([lo hi] & Hb & -> & Hn).
      unfold ne in Hn. apply existsb_exists in Hn as ([|] & Hin & E); [|discriminate]. simpl in Hin.
      apply In_nth_error in Hin as [i Hi]. apply band_mask_true in Hi as (f & Hf & H).
      exists lo, hi, f. split; auto. split; auto. eapply nth_error_In; eauto.
    + intros (lo & hi & f & Hb & Hf & H). apply In_nth_error in Hf as [i Hi].
      assert (nth_error (band_mask freqs (lo, hi)) i = Some true) as Hm by (apply band_mask_true; eauto).
      apply (dget_Some_in string_dec) with (v := band_mask freqs (lo, hi)). apply Hget.
      exists (lo, hi). split; auto. split; auto. eapply Hne; eauto.
Qed.

Lemma default_bands_nodup : NoDup (dkeys default_bands).
Proof. repeat constructor; simpl; intuition discriminate. Qed.

Lemma default_bands_cover_lem :
  forall (freqs : list R) (i : nat) (f : R),
    nth_error freqs i = Some f ->
    ((0 <= f < 10000)%R -> exists! k, selects (by_freq_band None freqs) k i) /\
    ((f < 0 \/ 10000 <= f)%R -> ~ exists k, selects (by_freq_band None freqs) k i).
Proof.
  intros freqs i f Hf. destruct (by_freq_band_lem None freqs default_bands_nodup) as (_ & HS & _).
  assert (forall k, selects (by_freq_band None freqs) k i ->
            (k = "Band.1" /\ 0 <= f < 1000)%R \/ (k = "Band.2" /\ 1000 <= f < 2000)%R \/
            (k = "Band.3" /\ 2000 <= f < 3000)%R \/ (k = "Band.4" /\ 3000 <= f < 10000)%R) as Hk.
  { intros k H. apply HS in H as (lo & hi & f' & Hb & Hf' & H). rewrite Hf in Hf'. injection Hf' as <-.
    apply dget_In in Hb. unfold default_bands in Hb.
    destruct Hb as [E|[E|[E|[E|[]]]]]; injection E as <- <- <-; tauto. }
  split.
  - intros H.
    assert (exists k, selects (by_freq_band None freqs) k i) as [k Hs].
    { destruct (Rlt_dec f 1000); [exists "Band.1"|destruct (Rlt_dec f 2000); [exists "Band.2"|
        destruct (Rlt_dec f 3000); [exists "Band.3"|exists "Band.4"]]];
      apply HS; do 2 eexists; exists f; (split; [reflexivity|]); (split; [exact Hf|]); lra. }
    exists k. split; auto. intros k' Hs'. apply Hk in Hs, Hs'.
    destruct Hs as [[-> ?]|[[-> ?]|[[-> ?]|[-> ?]]]], Hs' as [[-> ?]|[[-> ?]|[[-> ?]|[-> ?]]]]; auto; lra.
  - intros H (k & Hs). apply Hk in Hs. lra.
Qed.

(** * C20, C21 *)

(** The entries of an array at the selected positions, in order. *)
Definition restricted {A} (l : list A) (m : mask) (r : list A) : Prop :=
  exists idx, StronglySorted lt idx /\ (forall i, In i idx <-> nth_error m i = Some true) /\
    map Some r = map (nth_error l) idx.

Lemma take_mask_restricted {A} (l : list A) : forall m, length m = length l -> restricted l m (take_mask l m).
Proof.
  induction l as [|x l IH]; intros [|b m] H; try discriminate; unfold restricted.
  - exists []. split; [constructor|]. split; auto. intros [|i]; simpl; split; [tauto|discriminate|tauto|discriminate].
  - destruct (IH m) as (idx & HS & Hin & Hm); [simpl in H; lia|].
    assert (StronglySorted lt (map S idx)) as HS2.
    { clear -HS. induction HS; simpl; constructor; auto. rewrite Forall_forall in *.
      intros y Hy. apply in_map_iff in Hy as (z & <- & Hz). specialize (H z Hz). lia. }
    assert (forall i, In (S i) (map S idx) <-> nth_error m i = Some true) as Hin2.
    { intros i. rewrite <- Hin, in_map_iff. split; [intros (z & E & Hz); injection E as <-; auto|eauto]. }
    assert (~ In 0 (map S idx)) as H0 by (rewrite in_map_iff; intros (z & E & _); discriminate).
    assert (map Some (take_mask l m) = map (nth_error (x :: l)) (map S idx)) as Hm2.
    { rewrite map_map. simpl. exact Hm. }
    destruct b; simpl.
    + exists (0 :: map S idx). split; [|split].
      * constructor; auto. rewrite Forall_forall. intros y Hy. apply in_map_iff in Hy as (z & <- & _). lia.
      * intros [|i]; simpl; [tauto|]. rewrite <- Hin2. split; [intros [E|?]; [discriminate|auto]|auto].
      * simpl. now rewrite Hm2.
    + exists (map S idx). split; auto. split; auto. intros [|i]; simpl; [|apply Hin2].
      split; [tauto|discriminate].
Qed.

Section BindProofs.
  Context {A B : Type}.
  Notation attr := (attr A B).

  Lemma append_attrs_block psr m kwargs M : forall targs (vals : list attr),
    length vals = length M ->
    (forall i n v, nth_error M i = Some n -> nth_error vals i = Some v ->
       ~ In n (dkeys kwargs) /\ exists a, dget string_dec psr n = Some a /\ mask_attr m a = Ok v) ->
    append_attrs psr m kwargs M targs = Ok (targs ++ vals).
  Proof.
    induction M as [|n M IH]; intros targs vals HL H; simpl.
    - destruct vals; [|discriminate]. now rewrite app_nil_r.
    - destruct vals as [|v vals]; [discriminate|].
      destruct (H 0 n v eq_refl eq_refl) as (Hk & a & Ha & Hv).
      assert (dmem string_dec kwargs n = false) as -> by now apply dmem_false.
      unfold dmem. rewrite Ha. simpl. rewrite Hv. simpl.
      rewrite (IH (targs ++ [v]) vals); [now rewrite <- app_assoc|simpl in HL; lia|].
      intros i n' v' H1 H2. apply (H (S i)); auto.
  Qed.

  Lemma append_attrs_app psr m kwargs M R : forall (targs : list attr),
    append_attrs psr m kwargs (M ++ R) targs =
    rbind (append_attrs psr m kwargs M targs) (append_attrs psr m kwargs R).
  Proof.
    induction M as [|n M IH]; intros targs; simpl; auto.
    destruct (negb (dmem string_dec kwargs n) && dmem string_dec psr n); auto.
    destruct (dget string_dec psr n); auto. destruct (mask_attr m a); simpl; auto.
  Qed.

  Lemma append_attrs_none psr m kwargs R : forall (targs : list attr),
    (forall n, In n R -> In n (dkeys kwargs) \/ dget string_dec psr n = None) ->
    append_attrs psr m kwargs R targs = Ok targs.
  Proof.
    induction R as [|n R IH]; intros targs H; simpl; auto.
    destruct (H n) as [Hk|Hp]; [now left| |].
    - apply (dmem_true string_dec) in Hk. rewrite Hk. simpl. apply IH. intros; apply H; now right.
    - unfold dmem at 2. rewrite Hp. rewrite andb_false_r. apply IH. intros; apply H; now right.
  Qed.

  Lemma bind_pos_ok (f : list string) : forall (t : list attr), length t <= length f ->
    exists b, bind_pos f t = Ok b /\ dkeys b = firstn (length t) f /\
      (forall i v, nth_error t i = Some v -> exists n, nth_error f i = Some n /\ nth_error b i = Some (n, v)).
  Proof.
    induction f as [|n f IH]; intros [|v t] H; simpl in *; try lia.
    - exists []. repeat split; auto. intros [|]; discriminate.
    - exists []. repeat split; auto. intros [|]; discriminate.
    - destruct (IH t) as (b & Hb & Hk & Hn); [lia|]. rewrite Hb. simpl. exists ((n, v) :: b). split; auto.
      split; [unfold dkeys in *; simpl; now rewrite Hk|].
      intros [|i] w E; simpl in *; [injection E as <-; eauto|auto].
  Qed.

  Lemma bind_pos_keys (f : list string) : forall (t : list attr) b, bind_pos f t = Ok b -> dkeys b = firstn (length t) f.
  Proof.
    induction f as [|n f IH]; intros [|v t] b H; cbn [bind_pos] in H; try discriminate; try (injection H as <-; reflexivity).
    destruct (bind_pos f t) as [b'|] eqn:E; [|discriminate]. simpl in H. injection H as <-.
    unfold dkeys in *. simpl. f_equal. now apply IH.
  Qed.

  Lemma bind_kw_keep f kw : forall (b b2 : dict string attr) k v,
    bind_kw f b kw = Ok b2 -> dget string_dec b k = Some v -> dget string_dec b2 k = Some v.
  Proof.
    induction kw as [|[k' v'] kw IH]; intros b b2 k v H Hg; simpl in H.
    - injection H as <-. auto.
    - destruct (existsb (String.eqb k') f); [|discriminate]. destruct (dmem string_dec b k'); [discriminate|].
      eapply IH; [exact H|]. clear -Hg. induction b as [|[x y] b IH]; simpl in *; [discriminate|].
      destruct (string_dec k x); auto.
  Qed.

  Lemma bind_def_keep f defs : forall (b b2 : dict string attr) k v,
    bind_def f defs b = Ok b2 -> dget string_dec b k = Some v -> dget string_dec b2 k = Some v.
  Proof.
    induction f as [|n f IH]; intros b b2 k v H Hg; simpl in H.
    - injection H as <-. auto.
    - destruct (dmem string_dec b n); [eapply IH; eauto|].
      destruct (dget string_dec defs n); [|discriminate]. eapply IH; [exact H|].
      clear -Hg. induction b as [|[x y] b IH]; simpl in *; [discriminate|]. destruct (string_dec k x); auto.
  Qed.
End BindProofs.

(** The attributes the pulsar provides stand in one block right after the
    positional arguments. *)
Lemma bound_attributes_partial_lem :
  forall (A B : Type) (funcargs pos M R : list string) (defaults psr kwargs bound : dict string (attr A B))
    (m : option mask) (args : list (attr A B)),
    funcargs = pos ++ M ++ R -> NoDup funcargs -> length args = length pos ->
    (* M: not given by the caller and provided by the pulsar; R: the opposite *)
    (forall n, In n M -> ~ In n (dkeys kwargs) /\ exists a v, dget string_dec psr n = Some a /\ mask_attr m a = Ok v) ->
    (forall n, In n R -> In n (dkeys kwargs) \/ dget string_dec psr n = None) ->
    selection_wrapper funcargs defaults psr m args kwargs = Ok bound ->
    (* every argument not given by the caller that the pulsar has is bound to
       the pulsar's attribute of that name *)
    (forall n a, ~ In n pos -> In n funcargs -> ~ In n (dkeys kwargs) -> dget string_dec psr n = Some a ->
       exists v, mask_attr m a = Ok v /\ dget string_dec bound n = Some v) /\
    (* and the caller's arguments are bound as given *)
    (forall i n v, nth_error pos i = Some n -> nth_error args i = Some v -> dget string_dec bound n = Some v) /\
    (forall n v, dget string_dec kwargs n = Some v -> dget string_dec bound n = Some v).
Proof.
  intros A B funcargs pos M R defaults psr kwargs bound m args Hf ND HL HM HR Hw.
  assert (exists vals : list (attr A B), length vals = length M /\
    forall i n v, nth_error M i = Some n -> nth_error vals i = Some v ->
       ~ In n (dkeys kwargs) /\ exists a, dget string_dec psr n = Some a /\ mask_attr m a = Ok v) as (vals & HLv & Hvals).
  { clear -HM. induction M as [|n M IH].
    - exists []. split; auto. intros [|]; discriminate.
    - destruct IH as (vals & HLv & Hv); [intros; apply HM; now right|].
      destruct (HM n) as (Hk & a & v & Ha & Hm); [now left|]. exists (v :: vals). split; [simpl; auto|].
      intros [|i] n' v' E1 E2; simpl in *; [injection E1 as <-; injection E2 as <-; eauto|eauto]. }
  unfold selection_wrapper in Hw.
  assert ((if Nat.ltb (length args) (length funcargs) then append_attrs psr m kwargs (skipn (length args) funcargs) args else Ok args) = Ok (args ++ vals)) as E.
  { rewrite HL, Hf. rewrite skipn_app, skipn_all, Nat.sub_diag. simpl.
    destruct (Nat.ltb_spec (length pos) (length (pos ++ M ++ R))) as [Hlt|Hge].
    - rewrite append_attrs_app, (append_attrs_block psr m kwargs M args vals); auto. simpl.
      now apply append_attrs_none.
    - rewrite !app_length in Hge. destruct vals as [|v vals]; [now rewrite app_nil_r|].
      simpl in HLv. lia. }
  rewrite E in Hw. simpl in Hw. unfold py_call in Hw.
  destruct (bind_pos_ok funcargs (args ++ vals)) as (b & Hb & Hk & Hn).
  { rewrite Hf, !app_length. lia. }
  rewrite Hb in Hw. simpl in Hw.
  destruct (bind_kw funcargs b kwargs) as [b2|e] eqn:E2; [|discriminate]. simpl in Hw.
  assert (NoDup (dkeys b)) as NDb.
  { rewrite Hk. clear -ND. rewrite <- (firstn_skipn (length (args ++ vals)) funcargs) in ND.
    revert ND. generalize (skipn (length (args ++ vals)) funcargs). intros l2.
    induction (firstn (length (args ++ vals)) funcargs) as [|x l IH]; simpl; intros ND; [constructor|].
    inversion ND; subst. constructor; auto. intros H. apply H1. apply in_or_app. now left. }
  assert (forall i n v, nth_error funcargs i = Some n -> nth_error (args ++ vals) i = Some v -> dget string_dec bound n = Some v) as Hpos.
  { intros i n v H1 H2. destruct (Hn i v H2) as (n' & H3 & H4).
    assert (n' = n) by congruence. subst n'.
    apply nth_error_In in H4. apply (In_dget string_dec) in H4; auto.
    eapply bind_def_keep; [exact Hw|]. eapply bind_kw_keep; eauto. }
  split; [|split].
  - intros n a Hnp Hin Hnk Ha. rewrite Hf in Hin. apply in_app_iff in Hin as [Hin|Hin]; [tauto|].
    apply in_app_iff in Hin as [Hin|Hin].
    + apply In_nth_error in Hin as [i Hi].
      assert (exists v, nth_error vals i = Some v) as [v Hv].
      { destruct (nth_error vals i) eqn:Ev; eauto. apply nth_error_None in Ev.
        assert (nth_error M i <> None) by congruence. apply nth_error_Some in H. lia. }
      destruct (Hvals i n v Hi Hv) as (_ & a' & Ha' & Hm). rewrite Ha in Ha'. injection Ha' as <-.
      exists v. split; auto. apply (Hpos (length pos + i)).
      * rewrite Hf, nth_error_app2 by lia. replace (length pos + i - length pos) with i by lia.
        rewrite nth_error_app1; auto. apply nth_error_Some. congruence.
      * rewrite nth_error_app2 by lia. now replace (length pos + i - length args) with i by lia.
    + destruct (HR n Hin) as [?|E']; [tauto|congruence].
  - intros i n v H1 H2. apply (Hpos i).
    + rewrite Hf, nth_error_app1; auto. apply nth_error_Some. congruence.
    + rewrite nth_error_app1; auto. apply nth_error_Some. congruence.
  - intros n v Hkv.
    assert (dget string_dec b2 n = Some v) as H2; [|eapply bind_def_keep; eauto].
    clear -E2 Hkv. revert b E2. induction kwargs as [|[k w] kw IH]; intros b E2; [discriminate|].
    simpl in E2, Hkv. destruct (existsb (String.eqb k) funcargs); [|discriminate].
    destruct (dmem string_dec b k) eqn:Ed; [discriminate|].
    destruct (string_dec n k) as [->|Hne]; [|eauto]. injection Hkv as ->.
    eapply bind_kw_keep; [exact E2|]. apply (dmem_false string_dec) in Ed.
    rewrite <- (dset_new string_dec) by auto. apply dget_dset_same.
Qed.

(** A gap: the function's second argument has a default and is no attribute of
    the pulsar, so the third argument's attribute lands in the second. *)
Lemma bound_attributes_gap_refuted_lem :
  exists (funcargs : list string) (defaults psr bound : dict string (attr nat nat)),
    NoDup funcargs /\
    selection_wrapper funcargs defaults psr None [] [] = Ok bound /\
    dget string_dec psr "freqs" = Some (AArr [1400]) /\
    dget string_dec bound "freqs" <> Some (AArr [1400]) /\
    dget string_dec bound "nmodes" = Some (AArr [1400]).
Proof.
  exists ["toas"; "nmodes"; "freqs"], [("nmodes", AObj 30); ("freqs", AObj 0)],
    [("toas", AArr [5]); ("freqs", AArr [1400])],
    [("toas", AArr [5]); ("nmodes", AArr [1400]); ("freqs", AObj 0)].
  split; [repeat constructor; simpl; intuition discriminate|]. split; [reflexivity|].
  split; [reflexivity|]. split; [discriminate|reflexivity].
Qed.

(** A gap made by a keyword of the caller raises. *)
Lemma bound_attributes_keyword_gap_lem :
  forall (A B : Type) (pos R : list string) (g n : string)
    (defaults psr kwargs : dict string (attr A B)) (m : option mask) (args : list (attr A B)) (a : attr A B),
    NoDup (pos ++ g :: n :: R) -> length args = length pos ->
    In g (dkeys kwargs) -> ~ In n (dkeys kwargs) -> dget string_dec psr n = Some a ->
    selection_wrapper (pos ++ g :: n :: R) defaults psr m args kwargs = Err TypeError.
Proof.
  intros A B pos R g n defaults psr kwargs m args a ND HL Hg Hn Ha.
  unfold selection_wrapper. set (fa := pos ++ g :: n :: R).
  assert (Nat.ltb (length args) (length fa) = true) as ->.
  { apply Nat.ltb_lt. unfold fa. rewrite app_length. simpl. lia. }
  rewrite HL. unfold fa at 1. rewrite skipn_app, skipn_all, Nat.sub_diag. simpl.
  assert (dmem string_dec kwargs g = true) as -> by now apply dmem_true.
  assert (dmem string_dec kwargs n = false) as -> by now apply dmem_false.
  unfold dmem. rewrite Ha. simpl.
  assert (forall e, mask_attr m a = Err e -> e = TypeError) as He.
  { destruct a, m; simpl; intros e; try discriminate; try congruence. destruct (Nat.eqb _ _); discriminate. }
  destruct (mask_attr m a) as [v|e] eqn:Ev; simpl; [|now rewrite (He e)].
  assert (forall R (t : list (attr A B)), (exists t', append_attrs psr m kwargs R t = Ok (t ++ t')) \/ append_attrs psr m kwargs R t = Err TypeError) as HR.
  { clear. intros L. induction L as [|x L IH]; intros t; simpl; [left; exists []; now rewrite app_nil_r|].
    destruct (negb (dmem string_dec kwargs x) && dmem string_dec psr x); auto.
    destruct (dget string_dec psr x) as [b|]; auto.
    destruct (mask_attr m b) as [v|e] eqn:Ev; simpl.
    - destruct (IH (t ++ [v])) as [[t' H]|H]; auto. left. exists (v :: t'). rewrite H. now rewrite <- app_assoc.
    - right. destruct b, m; simpl in Ev; try discriminate; try congruence. destruct (Nat.eqb _ _); discriminate. }
  destruct (HR R (args ++ [v])) as [[t' E0]|E0]; rewrite E0; [|reflexivity]. simpl. unfold py_call.
  destruct (bind_pos fa ((args ++ [v]) ++ t')) as [b|e] eqn:Eb; simpl.
  - assert (In g (dkeys b)) as Hgb.
    { rewrite (bind_pos_keys _ _ _ Eb). unfold fa. rewrite !app_length, HL, <- Nat.add_assoc. simpl.
      rewrite firstn_app_2. apply in_or_app. right. now left. }
    assert (bind_kw fa b kwargs = Err TypeError) as ->; [|reflexivity].
    clear -Hg Hgb. revert b Hgb. induction kwargs as [|[k w] kw IH]; intros b Hgb; [destruct Hg|]. simpl.
    destruct (existsb (String.eqb k) fa); auto.
    destruct (dmem string_dec b k) eqn:E; auto. destruct Hg as [E'|Hg].
    + simpl in E'. subst k. apply (dmem_false string_dec) in E. tauto.
    + apply IH; auto. unfold dkeys. rewrite map_app, in_app_iff. now left.
  - f_equal. clear -Eb. revert Eb. generalize ((args ++ [v]) ++ t'). generalize fa.
    induction fa0 as [|x f IH]; intros [|y l]; simpl; try discriminate; try congruence.
    destruct (bind_pos f l) eqn:E; simpl; [discriminate|]. intros H. injection H as <-. eauto.
Qed.

Lemma masked_attribute_lem :
  forall (A B : Type) (m : mask) (a : attr A B),
    match a with
    | AArr l =>
        (length l = length m -> exists r, mask_attr (Some m) a = Ok (AArr r) /\ restricted l m r) /\
        (length l <> length m -> mask_attr (Some m) a = Ok a)
    | AZero _ => mask_attr (Some m) a = Err TypeError
    | AObj _ => mask_attr (Some m) a = Ok a
    end.
Proof.
  intros A B m [l|x|b]; simpl; auto. split.
  - intros H. rewrite <- H, Nat.eqb_refl. eexists. split; [reflexivity|]. now apply take_mask_restricted.
  - intros H. destruct (Nat.eqb_spec (length m) (length l)); congruence.
Qed.

Lemma unmasked_attribute_lem :
  forall (A B : Type) (a : attr A B), (forall x, a <> AZero x) -> mask_attr None a = Ok a.
Proof. intros A B [l|x|b] H; simpl; auto. now destruct (H x). Qed.

(** A position vector has three entries whatever the number of TOAs; with three
    TOAs it is cut. *)
Lemma masked_position_refuted_lem :
  exists (m : mask) (pos r : list nat),
    length pos = 3 /\ mask_attr (B := nat) (Some m) (AArr pos) = Ok (AArr r) /\ r <> pos.
Proof. exists [true; false; true], [1; 2; 3], [1; 3]. repeat split. discriminate. Qed.

(** * C22 *)
Lemma append_assoc a b c : append (append a b) c = append a (append b c).
Proof. induction a; simpl; congruence. Qed.
Lemma append_length a b : String.length (append a b) = String.length a + String.length b.
Proof. induction a; simpl; auto. Qed.
Lemma append_inj_r a b c : append a c = append b c -> a = b.
Proof.
  revert b. induction a as [|x a IH]; intros [|y b] H; auto.
  - apply (f_equal String.length) in H. simpl in H. rewrite append_length in H. lia.
  - apply (f_equal String.length) in H. simpl in H. rewrite append_length in H. lia.
  - simpl in H. injection H as -> H. f_equal. auto.
Qed.
Lemma append_inj_l a b c : append a b = append a c -> b = c.
Proof. induction a; simpl; auto. intros H. injection H. auto. Qed.

Lemma sel_kname_inj k k' p : sel_kname k p = sel_kname k' p -> k = k'.
Proof.
  unfold sel_kname. destruct (String.eqb_spec k "") as [->|n], (String.eqb_spec k' "") as [->|n']; auto; simpl; intros H.
  - apply (f_equal String.length) in H. rewrite append_length in H. simpl in H. lia.
  - apply (f_equal String.length) in H. rewrite append_length in H. simpl in H. lia.
  - eapply append_inj_r; eauto.
Qed.

Lemma selection_names_lem :
  forall (psrname parname : string) (masks : dict string mask),
    NoDup (dkeys masks) ->
    let (params, kmasks) := selection_call psrname masks parname in
    (* one entry per mask, in order, each with the mask of its key *)
    kmasks = map (fun kv => (sel_kname (fst kv) parname, snd kv)) masks /\
    params = map (fun kv => (sel_kname (fst kv) parname, append psrname (append "_" (sel_kname (fst kv) parname)))) masks /\
    (* all names different *)
    NoDup (dkeys params) /\ NoDup (dvals params) /\
    (* the names *)
    (forall k, k <> "" -> sel_kname k parname = append k (append "_" parname)) /\ sel_kname "" parname = parname.
Proof.
  intros psrname parname masks ND.
  set (fk := fun kv : string * mask => (sel_kname (fst kv) parname, snd kv)).
  set (fp := fun kv : string * mask => (sel_kname (fst kv) parname, append psrname (append "_" (sel_kname (fst kv) parname)))).
  assert (selection_call psrname masks parname = (map fp masks, map fk masks)) as ->.
  { unfold selection_call. rewrite <- (app_nil_l (map fp masks)), <- (app_nil_l (map fk masks)).
    assert (forall (a : dict string string) (b : dict string mask),
      (forall k, In k (dkeys masks) -> ~ In (sel_kname k parname) (dkeys a) /\ ~ In (sel_kname k parname) (dkeys b)) ->
      fold_left (fun st kv => let kname := sel_kname (fst kv) parname in let pname := join_us [psrname; kname] in
       (dset string_dec (fst st) kname pname, dset string_dec (snd st) kname (snd kv))) masks (a, b) = (a ++ map fp masks, b ++ map fk masks)) as HH.
    { induction masks as [|[k m] l IH]; intros a b Hab; simpl; [now rewrite !app_nil_r|].
      unfold dkeys in ND. simpl in ND. inversion ND as [|? ? Hk ND']; subst.
      destruct (Hab k) as [Ha Hb]; [now left|].
      rewrite !dset_new by auto. rewrite IH; auto.
      - rewrite <- !app_assoc. reflexivity.
      - intros k' Hk'. destruct (Hab k') as [Ha' Hb']; [now right|].
        unfold dkeys. rewrite !map_app, !in_app_iff. simpl.
        assert (sel_kname k parname <> sel_kname k' parname) as Hne.
        { intros E. apply sel_kname_inj in E. subst k'. auto. }
        intuition. }
    apply HH. intros k Hk. simpl. tauto. }
  split; [reflexivity|]. split; [reflexivity|].
  assert (NoDup (map (fun k => sel_kname k parname) (dkeys masks))) as NDk.
  { clear -ND. induction (dkeys masks) as [|k l IH]; simpl; constructor; inversion ND; subst; auto.
    intros H. apply in_map_iff in H as (k' & E & Hk'). apply sel_kname_inj in E. now subst. }
  split; [|split; [|split]].
  - unfold dkeys in *. rewrite map_map in *. exact NDk.
  - unfold dvals, dkeys in *. rewrite map_map in *. simpl in *.
    clear -NDk. induction masks as [|[k m] l IH]; simpl in *; constructor; inversion NDk; subst; auto.
    intros H. apply H1. apply in_map_iff in H as ([k' m'] & E & Hin). simpl in E.
    apply append_inj_l in E. change "_" with (append "_" "") in E. simpl in E. injection E as E.
    apply in_map_iff. exists (k', m'). auto.
  - intros k Hk. unfold sel_kname. destruct (String.eqb_spec k ""); [congruence|reflexivity].
  - reflexivity.
Qed.

(** Evaluates comparisons of concrete numbers. *)
Ltac nodec a := lazymatch a with context [Rle_dec] => fail | context [Rlt_dec] => fail | _ => idtac end.
Ltac rdec :=
  repeat (match goal with
          | |- context [Rlt_dec ?a ?b] => nodec a; nodec b; destruct (Rlt_dec a b); try (exfalso; lra)
          | |- context [Rle_dec ?a ?b] => nodec a; nodec b; destruct (Rle_dec a b); try (exfalso; lra)
          end; simpl).
