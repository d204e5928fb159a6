(** Proofs about epoch quantisation, ECORR epochs and white variances. *)
From Coq Require Import String Bool Arith Lia ZArith List Permutation Sorted Reals Lra.
From Verif Require Import PyBase ProofBase ModelSelect ProofSelect.
Import ListNotations.
Open Scope string_scope.
Open Scope list_scope.

(** * Specification *)

(** [order] sorts [toas]. *)
Definition sorts (toas : list R) (order : list nat) : Prop :=
  Permutation order (seq 0 (length toas)) /\
  StronglySorted (fun i j => (nth i toas 0 <= nth j toas 0)%R) order.
Definition argsort_ok (argsort : list R -> list nat) : Prop := forall toas, sorts toas (argsort toas).

(** Entry of a matrix given by rows. *)
Definition entry (U : list (list Z)) (i j : nat) : Z := nth j (nth i U []) 0%Z.

(** * The bucket loop *)
Section Loop.
  Variable toas : list R.
  Variable dt : R.
  Notation t i := (nth i toas 0%R).

  (** Buckets, latest first. *)
  Fixpoint good (l : list (list nat)) : Prop :=
    match l with
    | [] => True
    | b :: l' =>
        (exists f r, b = f :: r /\ forall i, In i b -> (0 <= t i - t f < dt)%R) /\
        (match l' with [] => True | b' :: _ => (dt <= t (hd 0%nat b) - t (hd 0%nat b'))%R end) /\
        good l'
    end.

  Lemma bucket_loop_inv order : forall ref b done,
    (0 < dt)%R ->
    ref <> [] -> hd 0%R ref = t (hd 0%nat b) -> good (b :: done) ->
    StronglySorted (fun i j => (t i <= t j)%R) (hd 0 b :: order) ->
    good (rev (bucket_loop toas dt order ref (b :: done))) /\
    concat (bucket_loop toas dt order ref (b :: done)) = concat (rev (b :: done)) ++ order.
  Proof.
    induction order as [|i order IH]; intros ref b done Hdt Hr Hh Hg HS.
    - cbn [bucket_loop]. rewrite rev_involutive, app_nil_r. auto.
    - cbn [bucket_loop]. destruct Hg as ((f & r & -> & Hb) & Hp & Hd). cbn [hd] in *.
      inversion HS as [|? ? HS2 HF]; subst. inversion HS2 as [|? ? HS3 HF2]; subst. inversion HF as [|? ? Hfi HF3]; subst.
      destruct (Rltb (t i - hd 0%R ref) dt) eqn:E.
      + apply Rltb_true in E. cbn [hd tl].
        destruct (IH ref ((f :: r) ++ [i]) done) as [H1 H2]; auto.
        * split; [|split; auto]. exists f, (r ++ [i]). split; auto. intros k Hk.
          apply in_app_iff in Hk as [Hk|[<-|[]]]; auto. rewrite Hh in E. lra.
        * simpl. constructor; auto.
        * split; auto. rewrite H2. cbn [rev]. rewrite !concat_app. simpl. rewrite !app_nil_r, <- !app_assoc. simpl. rewrite <- app_assoc. reflexivity.
      + assert (~ (t i - hd 0%R ref < dt)%R) as Hge.
        { intros Hlt. apply Rltb_true in Hlt. congruence. }
        destruct (IH (t i :: ref) [i] ((f :: r) :: done)) as [H1 H2]; auto; try discriminate.
        * split; [|split].
          -- exists i, []. split; auto. intros k [<-|[]]. lra.
          -- simpl. rewrite Hh in Hge. lra.
          -- split; [exists f, r; auto|]. auto.
        * split; auto. rewrite H2. cbn [rev]. rewrite !concat_app. simpl. rewrite !app_nil_r, <- !app_assoc. reflexivity.
  Qed.

  Lemma good_spec l : good l ->
    (forall b, In b l -> exists f r, b = f :: r /\ forall i, In i b -> (0 <= t i - t f < dt)%R) /\
    (forall l1 b b' l2, rev l = l1 ++ b :: b' :: l2 -> (dt <= t (hd 0%nat b') - t (hd 0%nat b))%R).
  Proof.
    induction l as [|b l IH]; simpl; intros H.
    - split; [tauto|]. intros [|? l1] b b' l2 E; [discriminate|]. discriminate.
    - destruct H as (Hb & Hp & Hg). destruct (IH Hg) as [H1 H2]. split.
      + intros b0 [<-|Hin]; auto.
      + intros l1 b0 b' l2 E.
        destruct (exists_last (l := b' :: l2)) as (l3 & z & Ez); [discriminate|].
        destruct l3 as [|y l3].
        * simpl in Ez. injection Ez as -> ->. 
          change [z] with ([] ++ [z]) in E. rewrite app_comm_cons, app_assoc in E.
          apply app_inj_tail in E as [E ->]. destruct l as [|b1 l]; [destruct l1; discriminate|].
          simpl in E. apply app_inj_tail in E as [_ ->]. exact Hp.
        * simpl in Ez. injection Ez as -> ->. 
          rewrite app_comm_cons, app_comm_cons, app_assoc in E. apply app_inj_tail in E as [E _].
          eapply H2. exact E.
  Qed.

  (** Starts of different buckets, not only of neighbours. *)
  Lemma starts_apart bs : (0 < dt)%R ->
    (forall l1 b b' l2, bs = l1 ++ b :: b' :: l2 -> (dt <= t (hd 0%nat b') - t (hd 0%nat b))%R) ->
    forall l1 b l2 b' l3, bs = l1 ++ b :: l2 ++ b' :: l3 -> (dt <= t (hd 0%nat b') - t (hd 0%nat b))%R.
  Proof.
    intros Hdt H l1 b l2. revert l1 b. induction l2 as [|c l2 IH]; intros l1 b b' l3 E; simpl in E.
    - eauto.
    - pose proof (H l1 b c (l2 ++ b' :: l3) E) as H1.
      assert (dt <= t (hd 0%nat b') - t (hd 0%nat c))%R as H2.
      { apply (IH (l1 ++ [b]) c b' l3). rewrite <- app_assoc. exact E. }
      lra.
  Qed.
End Loop.

Definition partition_ok (toas : list R) (dt : R) (bs : list (list nat)) : Prop :=
  Permutation (concat bs) (seq 0 (length toas)) /\
  (forall b, In b bs -> exists f r, b = f :: r /\
     forall i, In i b -> (0 <= nth i toas 0 - nth f toas 0 < dt)%R) /\
  (forall l1 b l2 b' l3, bs = l1 ++ b :: l2 ++ b' :: l3 ->
     (dt <= nth (hd 0%nat b') toas 0 - nth (hd 0%nat b) toas 0)%R).

Lemma buckets_ok argsort toas dt :
  argsort_ok argsort -> (0 < dt)%R -> toas <> [] ->
  exists bs, buckets argsort toas dt = Ok bs /\ concat bs = argsort toas /\ partition_ok toas dt bs.
Proof.
  intros Ha Hdt Hne. destruct (Ha toas) as [HP HS]. unfold buckets.
  destruct (argsort toas) as [|i order] eqn:E.
  - exfalso. apply Permutation_length in HP. rewrite seq_length in HP. destruct toas; [congruence|discriminate].
  - destruct (bucket_loop_inv toas dt order [nth i toas 0%R] [i] []) as [Hg Hc]; auto; try discriminate.
    { simpl. repeat split; auto. exists i, []. split; auto. intros k [<-|[]]. lra. }
    eexists. split; [reflexivity|]. apply good_spec in Hg as [Hg1 Hg2]. rewrite rev_involutive in Hg2.
    split; [exact Hc|]. split; [rewrite Hc; exact HP|]. split.
    + intros b Hb. apply Hg1. now apply in_rev in Hb.
    + eapply starts_apart; eauto.
Qed.

Lemma entry_map {A} (f : nat -> A -> Z) n (cols : list A) i j c :
  i < n -> nth_error cols j = Some c ->
  entry (map (fun i => map (f i) cols) (seq 0 n)) i j = f i c.
Proof.
  intros Hi Hj. unfold entry. 
  rewrite (nth_indep _ [] (map (f 0) cols)) by (rewrite map_length, seq_length; lia).
  rewrite (map_nth (fun i => map (f i) cols)), seq_nth by lia. simpl.
  rewrite (nth_indep _ 0%Z (f i c)) by (rewrite map_length; apply nth_error_Some; congruence).
  rewrite map_nth. f_equal. now apply nth_error_nth.
Qed.

Lemma existsb_nat i l : existsb (Nat.eqb i) l = true <-> In i l.
Proof.
  rewrite existsb_exists. split; [intros (x & Hx & E); apply Nat.eqb_eq in E; now subst|].
  intros H. exists i. split; auto. apply Nat.eqb_refl.
Qed.

Lemma disjoint_buckets {A} (bs : list (list A)) j j' b b' x :
  NoDup (concat bs) -> nth_error bs j = Some b -> nth_error bs j' = Some b' -> In x b -> In x b' -> j = j'.
Proof.
  revert j j'. induction bs as [|c bs IH]; intros j j' ND Hj Hj' Hx Hx'; [now destruct j|].
  simpl in ND.
  assert (forall y, In y c -> ~ In y (concat bs)) as Hd.
  { clear -ND. induction c as [|z c IH]; [simpl; tauto|]. simpl in ND. inversion ND; subst.
    intros y [<-|Hy]; [intros H; apply H1; apply in_or_app; now right|now apply IH]. }
  assert (NoDup (concat bs)) as ND2.
  { clear -ND. induction c; auto. inversion ND; auto. }
  destruct j as [|j], j' as [|j']; simpl in *; auto.
  - injection Hj as <-. exfalso. apply (Hd x Hx). apply in_concat. exists b'. split; auto. eapply nth_error_In; eauto.
  - injection Hj' as <-. exfalso. apply (Hd x Hx'). apply in_concat. exists b. split; auto. eapply nth_error_In; eauto.
Qed.

Lemma NoDup_concat_filter {A} (P : list A -> bool) bs : NoDup (concat bs) -> NoDup (concat (filter P bs)).
Proof.
  induction bs as [|c bs IH]; simpl; auto. intros ND.
  assert (NoDup (concat bs)) as ND2.
  { clear -ND. induction c; auto. inversion ND; auto. }
  destruct (P c); auto. simpl. specialize (IH ND2).
  assert (forall y, In y (concat (filter P bs)) -> In y (concat bs)) as Hs.
  { intros y Hy. apply in_concat in Hy as (b & Hb & Hy). apply filter_In in Hb as [Hb _]. apply in_concat. eauto. }
  clear IH ND2 Hs. induction c as [|z c IHc]; simpl in *.
  - clear -ND. induction bs as [|b bs IH]; simpl; [constructor|]. simpl in ND.
    assert (NoDup (concat bs)) as ND2 by (clear -ND; induction b; auto; inversion ND; auto).
    destruct (P b); auto. simpl. induction b as [|x b IHb]; simpl in *; auto.
    inversion ND; subst. constructor; auto. rewrite in_app_iff in *. intros [H|H]; [tauto|].
    apply H1. right. apply in_concat in H as (e & He & H). apply filter_In in He as [He _]. apply in_concat. eauto.
  - inversion ND; subst. constructor; auto. rewrite in_app_iff in *. intros [H|H]; [tauto|].
    apply H1. right. apply in_concat in H as (e & He & H). apply filter_In in He as [He _]. apply in_concat. eauto.
Qed.

Lemma partition_NoDup toas dt bs : partition_ok toas dt bs -> NoDup (concat bs).
Proof. intros (H & _). eapply Permutation_NoDup; [symmetry; exact H|apply seq_NoDup]. Qed.

(** * C24 *)
Lemma quantisation_partition_lem :
  forall (argsort : list R -> list nat) (toas : list R) (dt : R) (nmin : nat),
    argsort_ok argsort -> (0 < dt)%R -> toas <> [] ->
    exists (bs : list (list nat)) (U : list (list Z)),
      (* buckets before the size filter: every TOA in exactly one, within dt of
         its bucket's first TOA, starts at least dt apart *)
      buckets argsort toas dt = Ok bs /\ partition_ok toas dt bs /\
      (forall i, i < length toas -> exists! j, exists b, nth_error bs j = Some b /\ In i b) /\
      (* the matrix: one row per TOA, one column per bucket with nmin TOAs *)
      quant_matrix argsort toas dt nmin = Ok U /\
      length U = length toas /\
      (let cols := filter (fun b => Nat.leb nmin (length b)) bs in
       (forall row, In row U -> length row = length cols) /\
       (forall i j b, i < length toas -> nth_error cols j = Some b ->
          (entry U i j = 1%Z /\ In i b) \/ (entry U i j = 0%Z /\ ~ In i b)) /\
       (* disjoint supports *)
       (forall i j j', i < length toas -> j < length cols -> j' < length cols ->
          entry U i j <> 0%Z -> entry U i j' <> 0%Z -> j = j')).
Proof.
  intros argsort toas dt nmin Ha Hdt Hne.
  destruct (buckets_ok argsort toas dt Ha Hdt Hne) as (bs & Hb & Hc & HP).
  pose proof (partition_NoDup _ _ _ HP) as ND.
  exists bs. eexists. split; [exact Hb|]. split; [exact HP|]. split.
  { intros i Hi. destruct HP as (Hperm & _).
    assert (In i (concat bs)) as Hin.
    { eapply Permutation_in; [symmetry; exact Hperm|]. apply in_seq. lia. }
    apply in_concat in Hin as (b & Hbin & Hib). apply In_nth_error in Hbin as [j Hj]. exists j. split; [eauto|].
    intros j' (b' & Hj' & Hib'). eapply disjoint_buckets; eauto. }
  unfold quant_matrix. rewrite Hb. simpl. split; [reflexivity|].
  split; [rewrite map_length, seq_length; reflexivity|].
  set (cols := filter (fun b => Nat.leb nmin (length b)) bs). cbv zeta. split; [|].
  { intros row Hr. apply in_map_iff in Hr as (i & <- & _). apply map_length. }
  assert (forall i j b, i < length toas -> nth_error cols j = Some b ->
          (entry (map (fun i => map (fun l => if existsb (Nat.eqb i) l then 1%Z else 0%Z) cols) (seq 0 (length toas))) i j = 1%Z /\ In i b) \/
          (entry (map (fun i => map (fun l => if existsb (Nat.eqb i) l then 1%Z else 0%Z) cols) (seq 0 (length toas))) i j = 0%Z /\ ~ In i b)) as Hent.
  { intros i j b Hi Hj.
    rewrite (entry_map (fun i (l : list nat) => if existsb (Nat.eqb i) l then 1%Z else 0%Z) _ _ _ _ _ Hi Hj).
    destruct (existsb (Nat.eqb i) b) eqn:E; [left|right]; split; auto.
    - now apply existsb_nat.
    - intros H. apply existsb_nat in H. congruence. }
  split; auto. intros i j j' Hi Hj Hj' H H'.
  destruct (nth_error cols j) as [b|] eqn:Ej; [|apply nth_error_None in Ej; lia].
  destruct (nth_error cols j') as [b'|] eqn:Ej'; [|apply nth_error_None in Ej'; lia].
  destruct (Hent i j b Hi Ej) as [[_ Hib]|[? _]]; [|tauto].
  destruct (Hent i j' b' Hi Ej') as [[_ Hib']|[? _]]; [|tauto].
  eapply (disjoint_buckets cols); eauto. apply NoDup_concat_filter. exact ND.
Qed.

Lemma quantisation_empty_lem :
  forall (argsort : list R -> list nat) (dt : R) (nmin : nat),
    argsort_ok argsort -> quant_matrix argsort [] dt nmin = Err IndexError.
Proof.
  intros argsort dt nmin Ha. unfold quant_matrix, buckets.
  destruct (Ha []) as [HP _]. simpl in HP. apply Permutation_sym, Permutation_nil in HP. now rewrite HP.
Qed.

(** A sorting function exists. *)
Definition argsort_ins (toas : list R) : list nat :=
  isort (fun i j => Rleb (nth i toas 0%R) (nth j toas 0%R)) (seq 0 (length toas)).
Lemma argsort_ins_ok : argsort_ok argsort_ins.
Proof.
  intros toas. split; [apply isort_perm|].
  assert (StronglySorted (fun i j => Rleb (nth i toas 0%R) (nth j toas 0%R) = true) (argsort_ins toas)) as H.
  { apply (isort_sorted (fun i j => Rleb (nth i toas 0%R) (nth j toas 0%R))).
    - intros x y. rewrite !Rleb_true. lra.
    - intros x y z. rewrite !Rleb_true. lra. }
  induction H; constructor; auto. eapply Forall_impl; [|exact H0]. intros b Hb. now apply Rleb_true in Hb.
Qed.

(** * C25 *)
Lemma sorted_perm_unique (l1 l2 : list R) :
  StronglySorted Rle l1 -> StronglySorted Rle l2 -> Permutation l1 l2 -> l1 = l2.
Proof.
  revert l2. induction l1 as [|x l1 IH]; intros l2 S1 S2 HP.
  - apply Permutation_nil in HP. now subst.
  - destruct l2 as [|y l2]; [apply Permutation_sym, Permutation_nil in HP; discriminate|].
    inversion S1 as [|? ? S1' F1]; subst. inversion S2 as [|? ? S2' F2]; subst.
    assert (x = y) as ->.
    { rewrite Forall_forall in F1, F2.
      assert (In x (y :: l2)) as Hx by (eapply Permutation_in; [exact HP|now left]).
      assert (In y (x :: l1)) as Hy by (eapply Permutation_in; [symmetry; exact HP|now left]).
      destruct Hx as [Hx|Hx]; auto. destruct Hy as [Hy|Hy]; auto.
      apply Rle_antisym; auto. }
    f_equal. apply IH; auto. eapply Permutation_cons_inv; eauto.
Qed.

Fixpoint vloop (dt : R) (vals : list R) (ref : list R) (ind : list (list R)) : list (list R) :=
  match vals with
  | [] => rev ind
  | v :: vals' => if Rltb (v - hd 0 ref)%R dt then vloop dt vals' ref ((hd [] ind ++ [v]) :: tl ind)
                  else vloop dt vals' (v :: ref) ([v] :: ind)
  end.

Lemma vloop_spec toas dt order : forall ref ind,
  map (map (fun i => nth i toas 0%R)) (bucket_loop toas dt order ref ind) =
  vloop dt (map (fun i => nth i toas 0%R) order) ref (map (map (fun i => nth i toas 0%R)) ind).
Proof.
  induction order as [|i order IH]; intros ref ind; simpl; [now rewrite map_rev|].
  destruct (Rltb (nth i toas 0 - hd 0 ref)%R dt).
  - rewrite IH. f_equal. destruct ind as [|b ind]; simpl; [reflexivity|]. now rewrite map_app.
  - now rewrite IH.
Qed.

Definition vbuckets (dt : R) (vals : list R) : list (list R) :=
  match vals with [] => [] | v :: vals' => vloop dt vals' [v] [[v]] end.

Lemma buckets_values argsort toas dt bs : buckets argsort toas dt = Ok bs ->
  map (map (fun i => nth i toas 0%R)) bs = vbuckets dt (map (fun i => nth i toas 0%R) (argsort toas)).
Proof.
  unfold buckets, vbuckets. destruct (argsort toas) as [|i order]; [discriminate|].
  intros H. injection H as <-. simpl. now rewrite vloop_spec.
Qed.

Lemma map_nth_seq {A} (l : list A) d : map (fun i => nth i l d) (seq 0 (length l)) = l.
Proof.
  induction l as [|x l IH]; simpl; auto. f_equal. rewrite <- seq_shift, map_map. exact IH.
Qed.

Lemma argsort_values argsort toas : argsort_ok argsort ->
  let vs := map (fun i => nth i toas 0%R) (argsort toas) in
  StronglySorted Rle vs /\ Permutation vs toas.
Proof.
  intros Ha vs. destruct (Ha toas) as [HP HS]. split.
  - unfold vs. clear -HS. induction HS; simpl; constructor; auto. rewrite Forall_forall in *.
    intros x Hx. apply in_map_iff in Hx as (i & <- & Hi). auto.
  - unfold vs. rewrite HP. now rewrite map_nth_seq.
Qed.

Lemma bucket_member toas dt bs j b i :
  partition_ok toas dt bs -> nth_error bs j = Some b -> i < length toas ->
  In i b <-> In (nth i toas 0%R) (map (fun i => nth i toas 0%R) b).
Proof.
  intros HP Hj Hi. split; [intros H; now apply (in_map (fun i => nth i toas 0%R)) in H|].
  intros H. apply in_map_iff in H as (k & Ek & Hk).
  destruct HP as (Hperm & Hin & Hst).
  assert (In i (concat bs)) as Hc by (eapply Permutation_in; [symmetry; exact Hperm|]; apply in_seq; lia).
  apply in_concat in Hc as (b' & Hb' & Hib'). apply In_nth_error in Hb' as [j' Hj'].
  destruct (Nat.eq_dec j j') as [->|Hne]; [congruence|exfalso].
  assert (Hin' := Hin). 
  assert (In b bs) as Hbb by (eapply nth_error_In; eauto).
  assert (In b' bs) as Hbb' by (eapply nth_error_In; eauto).
  destruct (Hin b Hbb) as (f & r & -> & Hf). destruct (Hin b' Hbb') as (f' & r' & -> & Hf').
  specialize (Hf k Hk). specialize (Hf' i Hib').
  assert (forall p q bp bq, p < q -> nth_error bs p = Some bp -> nth_error bs q = Some bq ->
    (dt <= nth (hd 0%nat bq) toas 0 - nth (hd 0%nat bp) toas 0)%R) as Hapart.
  { intros p q bp bq Hpq Hp Hq. apply nth_error_split in Hp as (l1 & l2 & -> & <-).
    rewrite nth_error_app2 in Hq by lia.
    destruct (q - length l1) as [|q'] eqn:Eq; [lia|]. simpl in Hq. apply nth_error_split in Hq as (l3 & l4 & -> & _).
    eapply Hst. reflexivity. }
  destruct (Nat.lt_total j j') as [Hlt|[?|Hlt]]; [|congruence|].
  - specialize (Hapart j j' _ _ Hlt Hj Hj'). simpl in Hapart. rewrite Ek in Hf. lra.
  - specialize (Hapart j' j _ _ Hlt Hj' Hj). simpl in Hapart. rewrite Ek in Hf. lra.
Qed.

Lemma quantisation_order_independent_lem :
  forall (argsort argsort' : list R -> list nat) (toas : list R) (p : list nat) (dt : R) (nmin : nat),
    argsort_ok argsort -> argsort_ok argsort' -> (0 < dt)%R -> toas <> [] ->
    Permutation p (seq 0 (length toas)) ->
    let toas' := map (fun i => nth i toas 0%R) p in
    exists U U',
      quant_matrix argsort toas dt nmin = Ok U /\
      quant_matrix argsort' toas' dt nmin = Ok U' /\
      U' = map (fun i => nth i U []) p.
Proof.
  intros as1 as2 toas p dt nmin Ha1 Ha2 Hdt Hne Hp toas'.
  assert (length toas' = length toas) as HL.
  { unfold toas'. rewrite map_length. apply Permutation_length in Hp. now rewrite seq_length in Hp. }
  assert (toas' <> []) as Hne'.
  { intros E. rewrite E in HL. destruct toas; [congruence|discriminate]. }
  assert (Permutation toas' toas) as HPt.
  { unfold toas'. rewrite Hp. now rewrite map_nth_seq. }
  destruct (buckets_ok as1 toas dt Ha1 Hdt Hne) as (bs & Hb & _ & HP).
  destruct (buckets_ok as2 toas' dt Ha2 Hdt Hne') as (bs' & Hb' & _ & HP').
  assert (map (map (fun i => nth i toas 0%R)) bs = map (map (fun i => nth i toas' 0%R)) bs') as HV.
  { rewrite (buckets_values _ _ _ _ Hb), (buckets_values _ _ _ _ Hb'). f_equal.
    destruct (argsort_values as1 toas Ha1) as [S1 P1]. destruct (argsort_values as2 toas' Ha2) as [S2 P2].
    apply sorted_perm_unique; auto. rewrite P1, P2. now symmetry. }
  unfold quant_matrix. rewrite Hb, Hb'. simpl. do 2 eexists. split; [reflexivity|]. split; [reflexivity|].
  rewrite HL.
  assert (forall k i, nth_error p k = Some i -> i < length toas) as Hpi.
  { intros k i H. apply nth_error_In in H. eapply Permutation_in in H; [|exact Hp]. apply in_seq in H. lia. }
  assert (length p = length toas) as HLp by (apply Permutation_length in Hp; now rewrite seq_length in Hp).
  rewrite <- HLp.
  apply nth_ext with (d := []) (d' := []); [now rewrite !map_length, seq_length|].
  intros k Hk. rewrite map_length, seq_length in Hk.
  destruct (nth_error p k) as [i|] eqn:Ei; [|apply nth_error_None in Ei; lia].
  pose proof (Hpi k i Ei) as Hi.
  set (row := fun (c : list (list nat)) (i : nat) => map (fun l => if existsb (Nat.eqb i) l then 1%Z else 0%Z) c).
  set (c' := filter (fun ind => Nat.leb nmin (length ind)) bs').
  set (c := filter (fun ind => Nat.leb nmin (length ind)) bs).
  rewrite (nth_indep _ [] (row c' 0)) by (rewrite map_length, seq_length; lia).
  rewrite (map_nth (row c')), seq_nth by lia. simpl (0 + k).
  rewrite (nth_indep _ [] (nth 0 (map (row c) (seq 0 (length p))) [])) by (rewrite map_length; lia).
  rewrite (map_nth (fun i => nth i (map (row c) (seq 0 (length p))) [])).
  rewrite (nth_error_nth p k _ Ei).
  rewrite (nth_indep _ [] (row c 0)) by (rewrite map_length, seq_length; lia).
  rewrite (map_nth (row c)), seq_nth by lia. simpl (0 + i).
  unfold row, c, c'.
  assert (nth k toas' 0%R = nth i toas 0%R) as Et.
  { unfold toas'. rewrite (nth_indep _ 0%R (nth 0 toas 0%R)) by (rewrite map_length; lia).
    rewrite (map_nth (fun i => nth i toas 0%R)). now rewrite (nth_error_nth p k _ Ei). }
  assert (k < length toas') as Hk' by lia.
  (* bucket by bucket *)
  assert (forall j b b', nth_error bs j = Some b -> nth_error bs' j = Some b' ->
     length b = length b' /\ existsb (Nat.eqb i) b = existsb (Nat.eqb k) b') as Hbk.
  { intros j b b' Hj Hj'.
    assert (map (fun i => nth i toas 0%R) b = map (fun i => nth i toas' 0%R) b') as E.
    { assert (nth_error (map (map (fun i => nth i toas 0%R)) bs) j = nth_error (map (map (fun i => nth i toas' 0%R)) bs') j) as E by now rewrite HV.
      rewrite !nth_error_map, Hj, Hj' in E. now injection E. }
    split; [apply (f_equal (@length R)) in E; now rewrite !map_length in E|].
    pose proof (bucket_member _ _ _ _ _ i HP Hj Hi) as H1.
    pose proof (bucket_member _ _ _ _ _ k HP' Hj' Hk') as H2.
    rewrite E in H1. rewrite Et in H2.
    apply eq_true_iff_eq. rewrite !existsb_nat. tauto. }
  assert (length bs = length bs') as HLb by (apply (f_equal (@length _)) in HV; now rewrite !map_length in HV).
  clear -Hbk HLb. revert bs' HLb Hbk. induction bs as [|b bs IH]; intros [|b' bs'] HLb Hbk; try discriminate; auto.
  simpl. destruct (Hbk 0 b b' eq_refl eq_refl) as [HL He]. rewrite HL.
  assert (map (fun l => if existsb (Nat.eqb k) l then 1%Z else 0%Z) (filter (fun ind => Nat.leb nmin (length ind)) bs') =
          map (fun l => if existsb (Nat.eqb i) l then 1%Z else 0%Z) (filter (fun ind => Nat.leb nmin (length ind)) bs)) as E.
  { apply IH; [simpl in HLb; lia|]. intros j x x' Hx Hx'. apply (Hbk (S j)); auto. }
  destruct (Nat.leb nmin (length b')); auto. simpl. now rewrite He, E.
Qed.

(** * C26 *)
Lemma flatnonzero_spec col :
  StronglySorted lt (flatnonzero col) /\
  forall i, In i (flatnonzero col) <-> i < length col /\ nth i col 0%Z <> 0%Z.
Proof.
  split.
  - unfold flatnonzero. generalize 0. generalize (length col). intros n.
    induction n as [|n IH]; intros a; simpl; [constructor|].
    destruct (negb (Z.eqb (nth a col 0%Z) 0)); auto. constructor; auto.
    rewrite Forall_forall. intros x Hx. apply filter_In in Hx as [Hx _]. apply in_seq in Hx. lia.
  - intros i. unfold flatnonzero. rewrite filter_In, in_seq, negb_true_iff, Z.eqb_neq. intuition lia.
Qed.

Lemma sorted_contiguous l : forall e0, StronglySorted lt (e0 :: l) ->
  length (e0 :: l) <= last (e0 :: l) 0 - e0 + 1 /\
  (last (e0 :: l) 0 - e0 + 1 = length (e0 :: l) -> e0 :: l = seq e0 (length (e0 :: l))).
Proof.
  induction l as [|e1 l IH]; intros e0 HS.
  - simpl. split; [lia|auto].
  - inversion HS as [|? ? HS' HF]; subst. destruct (IH e1 HS') as [H1 H2].
    change (last (e0 :: e1 :: l) 0) with (last (e1 :: l) 0).
    assert (e0 < e1) as Hlt by (inversion HF; auto).
    assert (e1 <= last (e1 :: l) 0) as Hle.
    { destruct l as [|e2 l]; [simpl; lia|]. simpl in H1. change (last (e1 :: e2 :: l) 0) with (last (e2 :: l) 0) in *.
      assert (In (last (e2 :: l) 0) (e2 :: l)) as Hin.
      { clear. generalize e2. induction l as [|x l IH]; intros y; [now left|]. right. apply IH. }
      inversion HS' as [|? ? _ HF2]; subst. rewrite Forall_forall in HF2. specialize (HF2 _ Hin). lia. }
    split; [simpl in *; lia|]. intros E.
    change (length (e0 :: e1 :: l)) with (S (length (e1 :: l))) in *.
    cbn [seq]. f_equal. rewrite H2 by lia. replace e1 with (S e0) by lia. now rewrite seq_length.
Qed.

Lemma contiguous_last n : forall a, 0 < n -> last (seq a n) 0 = a + n - 1.
Proof.
  induction n as [|n IH]; intros a H; [lia|]. destruct n as [|n]; [simpl; lia|].
  change (last (seq a (S (S n))) 0) with (last (seq (S a) (S n)) 0). rewrite IH; lia.
Qed.

Lemma quant2ind_lem :
  forall (as_slice : bool) (col : list Z),
    let rows := flatnonzero col in
    (* the increasing list of rows with a nonzero entry *)
    (StronglySorted lt rows /\ forall i, In i rows <-> i < length col /\ nth i col 0%Z <> 0%Z) /\
    (rows = [] -> quant2ind_col as_slice col = Err IndexError) /\
    (rows <> [] -> exists e, quant2ind_col as_slice col = Ok e /\ indices_from_slice e = rows /\
       (* a slice exactly when asked for and contiguous *)
       ((exists a b, e = ESlice a b) <-> as_slice = true /\ exists a n, rows = seq a n)).
Proof.
  intros as_slice col rows. pose proof (flatnonzero_spec col) as HF. fold rows in HF.
  split; auto. unfold quant2ind_col. fold rows. split; [now intros ->|].
  intros Hne. destruct rows as [|e0 l] eqn:E; [congruence|]. destruct HF as [HS _].
  destruct (sorted_contiguous l e0 HS) as [H1 H2].
  destruct (Nat.eqb_spec (last (e0 :: l) 0 - e0 + 1) (length (e0 :: l))) as [Hc|Hc].
  - cbn [negb orb]. destruct as_slice.
    + eexists. split; [reflexivity|]. split.
      * cbn [indices_from_slice]. transitivity (seq e0 (length (e0 :: l))); [f_equal; destruct l; simpl in *; lia|symmetry; auto].
      * split; [|eauto]. intros _. split; auto. exists e0, (length (e0 :: l)). auto.
    + eexists. split; [reflexivity|]. split; auto. split; [intros (? & ? & ?); discriminate|intros [? _]; discriminate].
  - cbn [negb orb]. eexists. split; [reflexivity|]. split; auto. split; [intros (? & ? & ?); discriminate|].
    intros (_ & a & n & En). exfalso. apply Hc. rewrite En, seq_length.
    assert (0 < n) as Hn by (destruct n; [discriminate|lia]).
    assert (e0 = a) as -> by (destruct n; [discriminate|]; now injection En).
    rewrite contiguous_last; lia.
Qed.

(** * C27 *)

(** Number of selected TOAs before position i. *)
Fixpoint rank (m : mask) (i : nat) : nat :=
  match m, i with b :: m', S i' => (if b : bool then 1 else 0) + rank m' i' | _, _ => 0 end.

Lemma take_mask_rank {A} (d : A) : forall (l : list A) m i, length m = length l -> nth i m false = true ->
  nth (rank m i) (take_mask l m) d = nth i l d /\ rank m i < length (take_mask l m).
Proof.
  induction l as [|x l IH]; intros [|b m] i HL Hi; try discriminate; [destruct i; discriminate|].
  destruct i as [|i]; simpl in Hi.
  - subst b. simpl. split; [auto|lia].
  - simpl in HL. destruct (IH m i) as [H1 H2]; [lia|auto|].
    destruct b; simpl; rewrite H1; split; auto; lia.
Qed.

Lemma spread_length m nn : forall Um, length (spread m nn Um) = length m.
Proof. induction m as [|[|] m IH]; intros [|r Um]; simpl; auto. Qed.

Lemma spread_nth m nn : forall Um i j, length Um = length (filter (fun b => b) m) ->
  nth j (nth i (spread m nn Um) []) 0%Z = if nth i m false then nth j (nth (rank m i) Um []) 0%Z else 0%Z.
Proof.
  assert (forall j, nth j (repeat 0%Z nn) 0%Z = 0%Z) as H0.
  { intros j. revert nn. induction j; intros [|nn]; simpl; auto. }
  induction m as [|b m IH]; intros Um i j HL; [now destruct i, j|].
  destruct b; simpl in HL.
  - destruct Um as [|r Um]; [discriminate|]. destruct i as [|i]; simpl; auto.
  - destruct i as [|i]; simpl; [apply H0|apply IH; auto].
Qed.

Lemma take_mask_length {A} : forall (l : list A) m, length m = length l -> length (take_mask l m) = length (filter (fun b => b) m).
Proof.
  induction l as [|x l IH]; intros [|b m] H; try discriminate; auto. simpl in H. destruct b; simpl; auto.
Qed.

Lemma rank_inj m i k : nth i m false = true -> nth k m false = true -> rank m i = rank m k -> i = k.
Proof.
  revert i k. induction m as [|b m IH]; intros i k Hi Hk E; [destruct i; discriminate|].
  destruct i as [|i], k as [|k]; simpl in *; auto.
  - subst b. discriminate.
  - subst b. discriminate.
  - f_equal. apply IH; auto. destruct b; simpl in E; lia.
Qed.

Lemma sorted_lt_NoDup l : StronglySorted lt l -> NoDup l.
Proof.
  induction 1; constructor; auto. rewrite Forall_forall in H0. intros H1. specialize (H0 _ H1). lia.
Qed.

Lemma rmapM_ext_Ok {A B} (f : A -> result B) (g : A -> B) l :
  (forall x, In x l -> f x = Ok (g x)) -> rmapM f l = Ok (map g l).
Proof.
  induction l as [|x l IH]; intros H; simpl; auto. rewrite (H x) by now left. simpl.
  rewrite IH by (intros; apply H; now right). reflexivity.
Qed.

(** The epochs of one selection. *)
Definition epochs_ok (toas : list R) (m : mask) (es : list (list nat)) : Prop :=
  (forall e, In e es ->
     StronglySorted lt e /\ 2 <= length e /\
     (forall i, In i e -> nth_error m i = Some true) /\
     (forall i k, In i e -> In k e -> (Rabs (nth i toas 0 - nth k toas 0) < 1)%R)) /\
  (forall j j' e e' i, nth_error es j = Some e -> nth_error es j' = Some e' -> In i e -> In i e' -> j = j') /\
  (* simultaneous TOAs share an epoch *)
  (forall i k, i <> k -> nth_error m i = Some true -> nth_error m k = Some true -> nth i toas 0%R = nth k toas 0%R ->
     exists e, In e es /\ In i e /\ In k e).

Lemma nth_true_error m i : nth i m false = true <-> nth_error m i = Some true.
Proof.
  revert i. induction m as [|b m IH]; intros [|i]; simpl; try (split; discriminate); auto.
  split; congruence.
Qed.

Lemma ecorr_key_ok argsort toas m :
  argsort_ok argsort -> length m = length toas ->
  ((exists i, nth_error m i = Some true) ->
   exists es, ecorr_key argsort toas m = Ok es /\ epochs_ok toas m es) /\
  ((~ exists i, nth_error m i = Some true) -> ecorr_key argsort toas m = Err IndexError).
Proof.
  intros Ha HL. set (ts := take_mask toas m). split.
  - intros (i0 & Hi0). apply nth_true_error in Hi0.
    assert (ts <> []) as Hne.
    { destruct (take_mask_rank 0%R toas m i0 HL Hi0) as [_ H]. fold ts in H. intros E. rewrite E in H. simpl in H. lia. }
    destruct (quantisation_partition_lem argsort ts 1 2 Ha Rlt_0_1 Hne) as (bs & Um & Hb & HP & _ & HU & HLU & Hrows & Hent & Hdisj).
    set (cols := filter (fun b => Nat.leb 2 (length b)) bs) in *.
    assert (ncols Um = length cols) as Hnc.
    { unfold ncols. destruct Um as [|r Um]; [destruct ts; [congruence|discriminate]|]. apply Hrows. now left. }
    assert (length Um = length (filter (fun b => b) m)) as HLm.
    { rewrite HLU. unfold ts. now apply take_mask_length. }
    unfold ecorr_key. fold ts. rewrite HU. simpl. rewrite Hnc.
    set (S := spread m (length cols) Um).
    assert (forall i j, nth i (column S j) 0%Z = if nth i m false then entry Um (rank m i) j else 0%Z) as Hcol.
    { intros i j. unfold column. destruct (Nat.lt_ge_cases i (length S)) as [Hi|Hi].
      - rewrite (nth_indep _ 0%Z (nth j [] 0%Z)) by (rewrite map_length; lia).
        rewrite (map_nth (fun row => nth j row 0%Z)). unfold S, entry. now apply spread_nth.
      - rewrite nth_overflow by (rewrite map_length; lia).
        unfold S in Hi. rewrite spread_length in Hi. rewrite (nth_overflow m) by lia. reflexivity. }
    assert (forall j, length (column S j) = length m) as HLc.
    { intros j. unfold column. rewrite map_length. apply spread_length. }
    (* rows of column j *)
    assert (forall j b, nth_error cols j = Some b -> forall i,
              In i (flatnonzero (column S j)) <-> nth_error m i = Some true /\ In (rank m i) b) as Hfn.
    { intros j b Hj i. rewrite (proj2 (flatnonzero_spec (column S j))), HLc, Hcol.
      destruct (nth i m false) eqn:Em.
      - destruct (take_mask_rank 0%R toas m i HL Em) as [_ Hr]. fold ts in Hr.
        assert (i < length m) as Him.
        { destruct (Nat.lt_ge_cases i (length m)); auto. rewrite nth_overflow in Em by lia. discriminate. }
        rewrite <- nth_true_error, Em.
        destruct (Hent (rank m i) j b Hr Hj) as [[-> H]|[-> H]]; intuition lia.
      - rewrite <- nth_true_error, Em. split; [lia|intros [? _]; discriminate]. }
    (* columns are non-empty *)
    assert (forall j b, nth_error cols j = Some b -> forall r, In r b -> exists i, nth_error m i = Some true /\ rank m i = r) as Hsurj.
    { intros j b Hj r Hr.
      assert (r < length ts) as Hrl.
      { destruct HP as (Hperm & _). assert (In r (concat bs)) as H.
        { apply in_concat. exists b. split; auto. apply nth_error_In in Hj. now apply filter_In in Hj as [? _]. }
        eapply Permutation_in in H; [|exact Hperm]. apply in_seq in H. lia. }
      unfold ts in Hrl. clear -Hrl HL. revert m HL r Hrl.
      induction toas as [|x l IH]; intros [|b m] HL r Hrl; try discriminate; [simpl in Hrl; lia|].
      simpl in HL. destruct b; simpl in Hrl.
      - destruct r as [|r]; [exists 0; auto|]. destruct (IH m ltac:(lia) r ltac:(lia)) as (i & Hi & E).
        exists (S i). simpl. auto.
      - destruct (IH m ltac:(lia) r Hrl) as (i & Hi & E). exists (S i). simpl. auto. }
    assert (forall j b, nth_error cols j = Some b -> exists e0 e1 e, flatnonzero (column S j) = e0 :: e1 :: e) as Hne2.
    { intros j b Hj.
      assert (2 <= length b) as Hlb.
      { apply nth_error_In in Hj. apply filter_In in Hj as [_ H]. now apply Nat.leb_le in H. }
      assert (NoDup b) as NDb.
      { pose proof (partition_NoDup _ _ _ HP) as ND. apply nth_error_In in Hj. apply filter_In in Hj as [Hj _].
        apply in_split in Hj as (l1 & l2 & ->). rewrite concat_app in ND. simpl in ND. clear -ND.
        induction (concat l1); simpl in *; [|inversion ND; auto].
        induction b; [constructor|]. simpl in ND. inversion ND; subst. constructor; auto. intros H; apply H1. apply in_or_app; now left. }
      destruct b as [|r0 [|r1 b]]; simpl in Hlb; try lia.
      destruct (Hsurj j _ Hj r0) as (i0' & Hi0' & E0); [now left|].
      destruct (Hsurj j _ Hj r1) as (i1 & Hi1 & E1); [right; now left|].
      assert (i0' <> i1) as Hni. { intros ->. inversion NDb; subst. apply H1. left. congruence. }
      assert (In i0' (flatnonzero (column S j))) as F0 by (apply (Hfn j _ Hj); split; auto; rewrite E0; now left).
      assert (In i1 (flatnonzero (column S j))) as F1 by (apply (Hfn j _ Hj); split; auto; rewrite E1; right; now left).
      destruct (flatnonzero (column S j)) as [|a [|b' l]]; eauto.
      - destruct F0.
      - destruct F0 as [<-|[]], F1 as [<-|[]]. congruence. }
    assert (quant2ind false (length cols) S = Ok (map (fun j => EArr (flatnonzero (column S j))) (seq 0 (length cols)))) as HQ.
    { unfold quant2ind. apply rmapM_ext_Ok. intros j Hj. apply in_seq in Hj.
      destruct (nth_error cols j) as [b|] eqn:Ej; [|apply nth_error_None in Ej; lia].
      destruct (Hne2 j b Ej) as (e0 & e1 & e & E). unfold quant2ind_col. rewrite E.
      now rewrite orb_true_r. }
    exists (map (fun j => flatnonzero (column S j)) (seq 0 (length cols))).
    split; [rewrite HQ; simpl; rewrite map_map; reflexivity|]. split; [|split].
    + intros e He. apply in_map_iff in He as (j & <- & Hj). apply in_seq in Hj.
      destruct (nth_error cols j) as [b|] eqn:Ej; [|apply nth_error_None in Ej; lia].
      split; [apply flatnonzero_spec|]. split; [destruct (Hne2 j b Ej) as (? & ? & ? & ->); simpl; lia|].
      split; [intros i Hi; now apply (Hfn j b Ej) in Hi|].
      intros i k Hi Hk. apply (Hfn j b Ej) in Hi as [Hi Hib], Hk as [Hk Hkb].
      apply nth_true_error in Hi, Hk.
      destruct (take_mask_rank 0%R toas m i HL Hi) as [Ei _]. destruct (take_mask_rank 0%R toas m k HL Hk) as [Ek _].
      destruct HP as (_ & Hin & _). assert (In b bs) as Hbb.
      { apply nth_error_In in Ej. now apply filter_In in Ej as [? _]. }
      destruct (Hin b Hbb) as (f & r & -> & Hf). pose proof (Hf _ Hib) as F1. pose proof (Hf _ Hkb) as F2.
      fold ts in Ei, Ek. rewrite Ei in F1. rewrite Ek in F2. apply Rabs_def1; lra.
    + intros j j' e e' i Hj Hj' Hi Hi'.
      rewrite nth_error_map in Hj, Hj'.
      destruct (nth_error (seq 0 (length cols)) j) as [q|] eqn:Eq; [|discriminate].
      destruct (nth_error (seq 0 (length cols)) j') as [q'|] eqn:Eq'; [|discriminate].
      simpl in Hj, Hj'. injection Hj as <-. injection Hj' as <-.
      assert (q = j /\ j < length cols) as [-> Hjl].
      { assert (nth_error (seq 0 (length cols)) j <> None) as HN by congruence. apply nth_error_Some in HN. rewrite seq_length in HN.
        split; auto. apply nth_error_nth with (d := 0) in Eq. rewrite seq_nth in Eq by lia. simpl in Eq. congruence. }
      assert (q' = j' /\ j' < length cols) as [-> Hjl'].
      { assert (nth_error (seq 0 (length cols)) j' <> None) as HN by congruence. apply nth_error_Some in HN. rewrite seq_length in HN.
        split; auto. apply nth_error_nth with (d := 0) in Eq'. rewrite seq_nth in Eq' by lia. simpl in Eq'. congruence. }
      destruct (nth_error cols j) as [b|] eqn:Ej; [|apply nth_error_None in Ej; lia].
      destruct (nth_error cols j') as [b'|] eqn:Ej'; [|apply nth_error_None in Ej'; lia].
      apply (Hfn j b Ej) in Hi as [Hi Hib]. apply (Hfn j' b' Ej') in Hi' as [_ Hib'].
      eapply (disjoint_buckets cols); eauto. apply NoDup_concat_filter. eapply partition_NoDup; eauto.
    + intros i k Hik Hi Hk Et. pose proof Hi as Hi'. pose proof Hk as Hk'. apply nth_true_error in Hi', Hk'.
      destruct (take_mask_rank 0%R toas m i HL Hi') as [Ei Li]. destruct (take_mask_rank 0%R toas m k HL Hk') as [Ek Lk].
      fold ts in Ei, Li, Ek, Lk.
      assert (In (rank m i) (concat bs)) as Hc.
      { destruct HP as (Hperm & _). eapply Permutation_in; [symmetry; exact Hperm|]. apply in_seq. lia. }
      apply in_concat in Hc as (b & Hbb & Hib). apply In_nth_error in Hbb as [j Hj].
      assert (In (rank m k) b) as Hkb.
      { apply (bucket_member _ _ _ _ _ (rank m k) HP Hj Lk). rewrite Ek, <- Et, <- Ei.
        now apply (in_map (fun i => nth i ts 0%R)). }
      assert (In b cols) as Hbc.
      { apply filter_In. split; [eapply nth_error_In; eauto|]. apply Nat.leb_le.
        destruct b as [|x [|y b]]; simpl; try lia; [destruct Hib|].
        destruct Hib as [Hx|[]], Hkb as [Hy|[]]. exfalso. apply Hik. apply (rank_inj m); auto. congruence. }
      apply In_nth_error in Hbc as [q Hq]. exists (flatnonzero (column S q)). split.
      * apply in_map_iff. exists q. split; auto. apply in_seq. split; [lia|]. simpl. apply nth_error_Some. congruence.
      * split; apply (Hfn q b Hq); auto.
  - intros Hno. unfold ecorr_key. fold ts.
    assert (ts = []) as ->.
    { unfold ts. clear -Hno HL. revert m HL Hno. induction toas as [|x l IH]; intros [|b m] HL Hno; try discriminate; auto.
      destruct b; [exfalso; apply Hno; exists 0; reflexivity|]. simpl. apply IH; [simpl in HL; lia|].
      intros (i & Hi). apply Hno. exists (S i). exact Hi. }
    now rewrite quantisation_empty_lem.
Qed.

Lemma sorted_keys_perm {V} (d : dict string V) : Permutation (sorted_keys d) (dkeys d).
Proof. apply isort_perm. Qed.

Lemma StronglySorted_isort_id l : StronglySorted (fun a b => sle a b = true) l -> isort sle l = l.
Proof.
  induction 1 as [|x l HS IH HF]; simpl; auto. rewrite IH. destruct l as [|y l]; simpl; auto.
  inversion HF; subst. now rewrite H1.
Qed.

Lemma ecorr_epochs_lem :
  forall (argsort : list R -> list nat) (toas : list R) (masks : dict string mask) (value : string -> R),
    argsort_ok argsort -> NoDup (dkeys masks) -> masks_fit masks (length toas) ->
    (* no empty selection; selections pairwise disjoint *)
    (forall k, In k (dkeys masks) -> exists i, selects masks k i) ->
    (forall k k' i, selects masks k i -> selects masks k' i -> k = k') ->
    exists idxs epochs jvec,
      ecorr_idxs argsort toas masks = Ok idxs /\ get_jvecs idxs value = (epochs, jvec) /\
      length jvec = length epochs /\
      (* every epoch belongs to one selection, whose TOAs it groups, and carries
         that selection's value *)
      (forall j e, nth_error epochs j = Some e ->
         exists k, In k (dkeys masks) /\ nth_error jvec j = Some (Rpower 10 (2 * value k)) /\
           (forall i, In i e -> selects masks k i) /\
           StronglySorted lt e /\ 2 <= length e /\
           (forall i i', In i e -> In i' e -> (Rabs (nth i toas 0 - nth i' toas 0) < 1)%R)) /\
      (* no TOA in two epochs *)
      (forall j j' e e' i, nth_error epochs j = Some e -> nth_error epochs j' = Some e' -> In i e -> In i e' -> j = j') /\
      (* simultaneous TOAs of a selection share an epoch *)
      (forall k i i', i <> i' -> selects masks k i -> selects masks k i' -> nth i toas 0%R = nth i' toas 0%R ->
         exists e, In e epochs /\ In i e /\ In i' e).
Proof.
  intros argsort toas masks value Ha ND Hfit Hne Hdis.
  assert (forall k, In k (dkeys masks) -> exists m es, dget string_dec masks k = Some m /\ ecorr_key argsort toas m = Ok es /\ epochs_ok toas m es) as Hkey.
  { intros k Hk. destruct (Hne k Hk) as (i & m & Hm & Hi).
    destruct (ecorr_key_ok argsort toas m Ha (Hfit k m Hm)) as [H _].
    destruct H as (es & He & Ho); eauto. }
  set (fes := fun k => match dget string_dec masks k with
                       | Some m => match ecorr_key argsort toas m with Ok es => es | Err _ => [] end | None => [] end).
  assert (forall k, In k (dkeys masks) -> exists m, dget string_dec masks k = Some m /\ ecorr_key argsort toas m = Ok (fes k) /\ epochs_ok toas m (fes k)) as Hfes.
  { intros k Hk. destruct (Hkey k Hk) as (m & es & Hm & He & Ho). exists m. unfold fes. rewrite Hm, He. auto. }
  assert (NoDup (sorted_keys masks)) as NDs.
  { eapply Permutation_NoDup; [symmetry; apply sorted_keys_perm|exact ND]. }
  assert (forall k, In k (sorted_keys masks) -> In k (dkeys masks)) as Hin.
  { intros k. apply Permutation_in, sorted_keys_perm. }
  assert (ecorr_idxs argsort toas masks = Ok (map (fun k => (k, fes k)) (sorted_keys masks))) as HI.
  { unfold ecorr_idxs. rewrite (rmapM_ext_Ok _ (fun k => (k, fes k))).
    - simpl. f_equal. apply dict_of_nodup. rewrite map_map. simpl. now rewrite map_id.
    - intros k Hk. destruct (Hfes k (Hin k Hk)) as (m & Hm & He & _). unfold dgetE. rewrite Hm. simpl. now rewrite He. }
  set (idxs := map (fun k => (k, fes k)) (sorted_keys masks)) in *.
  assert (dkeys idxs = sorted_keys masks) as Hdk.
  { unfold idxs, dkeys. rewrite map_map. simpl. apply map_id. }
  assert (sorted_keys idxs = sorted_keys masks) as Hsk.
  { unfold sorted_keys at 1. rewrite Hdk. apply StronglySorted_isort_id.
    apply (isort_sorted sle); [apply sle_total|apply sle_trans]. }
  set (K := sorted_keys masks) in *.
  assert (get_jvecs idxs value = (flat_map fes K, flat_map (fun k => map (fun _ => Rpower 10 (2 * value k)) (fes k)) K)) as HJ.
  { unfold get_jvecs. rewrite Hsk.
    assert (forall k, In k K -> (match dget string_dec idxs k with Some l => l | None => [] end) = fes k) as Hg.
    { intros k Hk. unfold idxs. rewrite dget_map_self. destruct (in_dec string_dec k K); tauto. }
    clearbody idxs. clear -Hg. f_equal; induction K as [|k K IH]; simpl; auto;
      rewrite Hg by (now left); f_equal; apply IH; intros; apply Hg; now right. }
  exists idxs, (flat_map fes K), (flat_map (fun k => map (fun _ => Rpower 10 (2 * value k)) (fes k)) K).
  split; auto. split; auto.
  (* position j of the concatenation *)
  assert (forall j e, nth_error (flat_map fes K) j = Some e ->
            exists K1 k K2 q, K = K1 ++ k :: K2 /\ nth_error (fes k) q = Some e /\ j = length (flat_map fes K1) + q) as Hpos.
  { clear. induction K as [|k K IH]; intros j e Hj; [now destruct j|]. simpl in Hj.
    destruct (Nat.lt_ge_cases j (length (fes k))) as [H|H].
    - rewrite nth_error_app1 in Hj by auto. exists [], k, K, j. auto.
    - rewrite nth_error_app2 in Hj by auto. destruct (IH _ _ Hj) as (K1 & k' & K2 & q & -> & Hq & E).
      exists (k :: K1), k', K2, q. split; auto. split; auto. simpl. rewrite app_length. lia. }
  assert (forall L, length (flat_map (fun k => map (fun _ : list nat => Rpower 10 (2 * value k)) (fes k)) L) = length (flat_map fes L)) as HLL.
  { induction L as [|k L IH]; simpl; auto. rewrite !app_length, map_length, IH. reflexivity. }
  split; [apply HLL|]. split; [|split].
  - intros j e Hj. destruct (Hpos j e Hj) as (K1 & k & K2 & q & EK & Hq & Ej).
    assert (In k (dkeys masks)) as Hk by (apply Hin; rewrite EK; apply in_or_app; right; now left).
    destruct (Hfes k Hk) as (m & Hm & _ & Ho1 & _). exists k. split; auto. split.
    + rewrite EK, flat_map_app, nth_error_app2; rewrite HLL; [|lia]. replace (j - length (flat_map fes K1)) with q by lia.
      simpl. assert (q < length (fes k)) as Hql by (apply nth_error_Some; congruence).
      rewrite nth_error_app1 by (rewrite map_length; auto). now rewrite nth_error_map, Hq.
    + destruct (Ho1 e (nth_error_In _ _ Hq)) as (A & B & C & D).
      split; [intros i Hi; exists m; split; auto|auto].
  - intros j j' e e' i Hj Hj' Hi Hi'.
    destruct (Hpos j e Hj) as (K1 & k & K2 & q & EK & Hq & Ej).
    destruct (Hpos j' e' Hj') as (K1' & k' & K2' & q' & EK' & Hq' & Ej').
    assert (In k (dkeys masks)) as Hk by (apply Hin; rewrite EK; apply in_or_app; right; now left).
    assert (In k' (dkeys masks)) as Hk' by (apply Hin; rewrite EK'; apply in_or_app; right; now left).
    destruct (Hfes k Hk) as (m & Hm & _ & Ho1 & Ho2 & _). destruct (Hfes k' Hk') as (m' & Hm' & _ & Ho1' & _).
    assert (k = k') as <-.
    { apply (Hdis k k' i); [exists m|exists m']; split; auto.
      - now apply (Ho1 e (nth_error_In _ _ Hq)).
      - now apply (Ho1' e' (nth_error_In _ _ Hq')). }
    assert (K1 = K1') as <-.
    { clear -EK EK' NDs. rewrite EK in *. clear EK. revert K1' EK' NDs. induction K1 as [|a K1 IH]; intros [|b K1'] E ND; auto.
      - simpl in E. injection E as -> ->. inversion ND; subst. exfalso. apply H1. apply in_or_app. right. now left.
      - simpl in E. injection E as -> <-. inversion ND; subst. exfalso. apply H1. apply in_or_app. right. now left.
      - simpl in E. injection E as -> E. f_equal. inversion ND; auto. }
    rewrite Ej, Ej'. f_equal. eapply Ho2; eauto.
  - intros k i i' Hii Hs Hs' Et. destruct Hs as (m & Hm & Hi). destruct Hs' as (m2 & Hm2 & Hi').
    rewrite Hm in Hm2. injection Hm2 as <-.
    assert (In k (dkeys masks)) as Hk by (eapply dget_Some_in; eauto).
    destruct (Hfes k Hk) as (m2 & Hm2 & _ & _ & _ & Ho3). rewrite Hm in Hm2. injection Hm2 as <-.
    destruct (Ho3 i i' Hii Hi Hi' Et) as (e & He & A & B). exists e. split; auto.
    apply in_flat_map. exists k. split; auto. eapply Permutation_in; [symmetry; apply sorted_keys_perm|exact Hk].
Qed.

Lemma ecorr_empty_selection_lem :
  forall (argsort : list R -> list nat) (toas : list R) (k : string) (m : mask),
    argsort_ok argsort -> length m = length toas -> (~ exists i, nth_error m i = Some true) ->
    ecorr_idxs argsort toas [(k, m)] = Err IndexError.
Proof.
  intros argsort toas k m Ha HL Hno. unfold ecorr_idxs, dgetE. simpl.
  destruct (string_dec k k); [|congruence]. simpl.
  destruct (ecorr_key_ok argsort toas m Ha HL) as [_ H]. now rewrite H.
Qed.

(** * C23 *)
Definition rsum (l : list R) : R := fold_right Rplus 0%R l.

Lemma rsum_perm l l' : Permutation l l' -> rsum l = rsum l'.
Proof. induction 1; simpl; lra. Qed.

Lemma nth_map2 {A B} (f : A -> B -> R) l : forall m i a b, length l = length m -> i < length l ->
  nth i (map2 f l m) 0%R = f (nth i l a) (nth i m b).
Proof.
  induction l as [|x l IH]; intros [|y m] i a b HL Hi; simpl in *; try lia.
  destruct i; auto. apply IH; lia.
Qed.
Lemma map2_length {A B C} (f : A -> B -> C) l : forall m, length l = length m -> length (map2 f l m) = length l.
Proof. induction l as [|x l IH]; intros [|y m] H; simpl in *; try lia. rewrite IH; lia. Qed.

(** Contribution of selection [k] at TOA [i]. *)
Definition contrib (vfn : string -> list R) (masks : dict string mask) (i : nat) (k : string) : R :=
  match dget string_dec masks k with
  | Some m => if nth i m false then nth i (vfn k) 0%R else 0%R
  | None => 0%R
  end.

Lemma white_ndiag_sum_lem :
  forall (vfn : string -> list R) (masks : dict string mask) (n : nat),
    NoDup (dkeys masks) -> masks <> [] -> masks_fit masks n -> (forall k, length (vfn k) = n) ->
    exists l, white_ndiag vfn masks = BVec l /\ length l = n /\
      (* sum of the variances of the selections containing the TOA *)
      (forall i, i < n -> nth i l 0%R = rsum (map (contrib vfn masks i) (dkeys masks))) /\
      (* for disjoint selections: the variance of the TOA's own one *)
      ((forall k k' i, selects masks k i -> selects masks k' i -> k = k') ->
       forall k i, selects masks k i -> nth i l 0%R = nth i (vfn k) 0%R) /\
      (* and zero if no selection contains it *)
      (forall i, i < n -> (forall k, ~ selects masks k i) -> nth i l 0%R = 0%R).
Proof.
  intros vfn masks n ND Hne Hfit Hv.
  set (step := fun ret key =>
       match dget string_dec masks key with
       | Some m => badd ret (map2 (fun v (b : bool) => v * (if b then 1 else 0))%R (vfn key) m)
       | None => ret
       end).
  assert (forall K l, (forall k, In k K -> In k (dkeys masks)) -> length l = n ->
    exists l', fold_left step K (BVec l) = BVec l' /\ length l' = n /\
      forall i, i < n -> nth i l' 0%R = (nth i l 0 + rsum (map (contrib vfn masks i) K))%R) as Hfold.
  { induction K as [|k K IH]; intros l Hin HL; simpl.
    - exists l. repeat split; auto. intros. lra.
    - destruct (in_dget_Some string_dec masks k) as [m Hm]; [apply Hin; now left|].
      unfold step at 2. rewrite Hm. simpl.
      assert (length (map2 (fun v (b : bool) => v * (if b then 1 else 0))%R (vfn k) m) = n) as HL2.
      { rewrite map2_length; [apply Hv|rewrite Hv; symmetry; eapply Hfit; eauto]. }
      destruct (IH (map2 Rplus l (map2 (fun v (b : bool) => v * (if b then 1 else 0))%R (vfn k) m))) as (l' & E & HL' & Hn).
      + intros; apply Hin; now right.
      + rewrite map2_length; lia.
      + exists l'. split; [exact E|]. split; auto. intros i Hi. rewrite Hn by auto.
        rewrite (nth_map2 _ _ _ _ 0%R 0%R) by lia.
        rewrite (nth_map2 (fun v (b : bool) => v * (if b then 1 else 0))%R (vfn k) m i 0%R false); [|rewrite Hv; symmetry; eapply Hfit; eauto|rewrite Hv; auto].
        unfold contrib at 2. rewrite Hm. destruct (nth i m false); lra. }
  assert (exists l, white_ndiag vfn masks = BVec l /\ length l = n /\
      forall i, i < n -> nth i l 0%R = rsum (map (contrib vfn masks i) (dkeys masks))) as (l & HE & HL & Hsum).
  { unfold white_ndiag. fold step.
    pose proof (isort_perm sle (dkeys masks)) as HP.
    destruct (isort sle (dkeys masks)) as [|k K] eqn:EK.
    { apply Permutation_nil in HP. destruct masks; [congruence|discriminate]. }
    assert (forall k', In k' (k :: K) -> In k' (dkeys masks)) as Hin by (intros k'; now apply Permutation_in).
    simpl. destruct (in_dget_Some string_dec masks k) as [m Hm]; [apply Hin; now left|].
    unfold step at 2. rewrite Hm. cbn [badd].
    assert (length (map2 (fun v (b : bool) => v * (if b then 1 else 0))%R (vfn k) m) = n) as HL2.
    { rewrite map2_length; [apply Hv|rewrite Hv; symmetry; eapply Hfit; eauto]. }
    destruct (Hfold K (map (Rplus 0) (map2 (fun v (b : bool) => v * (if b then 1 else 0))%R (vfn k) m))) as (l & E & HL & Hn).
    { intros; apply Hin; now right. }
    { now rewrite map_length. }
    exists l. split; auto. split; auto. intros i Hi. rewrite Hn by auto.
    rewrite <- (rsum_perm _ _ (Permutation_map (contrib vfn masks i) HP)). simpl. f_equal.
    rewrite (nth_indep _ 0%R (0 + 0)%R) by (rewrite map_length; lia). rewrite map_nth.
    rewrite (nth_map2 (fun v (b : bool) => v * (if b then 1 else 0))%R (vfn k) m i 0%R false); [|rewrite Hv; symmetry; eapply Hfit; eauto|rewrite Hv; auto].
    unfold contrib. rewrite Hm. destruct (nth i m false); lra. }
  exists l. split; auto. split; auto. split; auto.
  assert (forall k i, contrib vfn masks i k <> 0%R -> selects masks k i) as Hc0.
  { intros k i H. unfold contrib in H. destruct (dget string_dec masks k) as [m|] eqn:E; [|lra].
    destruct (nth i m false) eqn:En; [|lra]. exists m. split; auto. now apply nth_true_error. }
  split.
  - intros Hdis k i Hs. destruct (Hs) as (m & Hm & Hi).
    assert (i < n) as Hin.
    { rewrite <- (Hfit k m Hm). apply nth_error_Some. congruence. }
    rewrite Hsum by auto.
    assert (In k (dkeys masks)) as Hk by (eapply dget_Some_in; eauto).
    assert (contrib vfn masks i k = nth i (vfn k) 0%R) as Ec.
    { unfold contrib. rewrite Hm. apply nth_true_error in Hi. now rewrite Hi. }
    rewrite <- Ec.
    assert (forall L, (forall k', In k' L -> k' <> k) -> rsum (map (contrib vfn masks i) L) = 0%R) as Hz.
    { induction L as [|k' L IH]; simpl; intros HL'; auto. rewrite IH by (intros; apply HL'; now right).
      destruct (Req_dec (contrib vfn masks i k') 0) as [->|Hn0]; [lra|].
      exfalso. apply (HL' k'); [now left|]. eapply Hdis; eauto. }
    apply in_split in Hk as (L1 & L2 & EL). rewrite EL in *. rewrite map_app. simpl.
    assert (forall A B, rsum (A ++ B) = (rsum A + rsum B)%R) as Happ.
    { clear. induction A as [|a A IH]; intros B; simpl; [lra|]. rewrite IH. lra. }
    apply NoDup_remove_2 in ND. rewrite Happ. simpl.
    rewrite !Hz; [lra| |]; intros k' Hk' ->; apply ND; apply in_or_app; auto.
  - intros i Hi Hno. rewrite Hsum by auto.
    clear -Hc0 Hno. induction (dkeys masks) as [|k K IH]; simpl; auto. rewrite IH.
    destruct (Req_dec (contrib vfn masks i k) 0) as [->|Hn0]; [lra|]. apply Hc0 in Hn0. now apply Hno in Hn0.
Qed.

Lemma efac_ndiag_nth toaerrs e i : i < length toaerrs ->
  nth i (efac_ndiag toaerrs e) 0%R = (e ^ 2 * nth i toaerrs 0 ^ 2)%R.
Proof.
  intros H. unfold efac_ndiag. rewrite (nth_indep _ 0%R (e ^ 2 * 0 ^ 2)%R) by (rewrite map_length; lia).
  apply (map_nth (fun s => (e ^ 2 * s ^ 2)%R)).
Qed.
Lemma combined_ndiag_nth toaerrs e q i : i < length toaerrs ->
  nth i (combined_ndiag toaerrs e q) 0%R = (e ^ 2 * (nth i toaerrs 0 ^ 2 + Rpower 10 (2 * q)))%R.
Proof.
  intros H. unfold combined_ndiag. rewrite (nth_indep _ 0%R (e ^ 2 * (0 ^ 2 + Rpower 10 (2 * q)))%R) by (rewrite map_length; lia).
  apply (map_nth (fun s => (e ^ 2 * (s ^ 2 + Rpower 10 (2 * q)))%R)).
Qed.
Lemma tnequad_ndiag_nth (toas : list R) q i : i < length toas ->
  nth i (tnequad_ndiag toas q) 0%R = Rpower 10 (2 * q).
Proof.
  intros H. unfold tnequad_ndiag. rewrite (nth_indep _ 0%R (1 * Rpower 10 (2 * q))%R) by (rewrite map_length; lia).
  rewrite (map_nth (fun _ : R => (1 * Rpower 10 (2 * q))%R) toas 0%R). ring.
Qed.

Lemma Rpower_pos x y : (0 < Rpower x y)%R.
Proof. unfold Rpower. apply exp_pos. Qed.

Lemma measurement_noise_lem :
  forall (toaerrs toas : list R) (efac q : string -> R) (masks : dict string mask),
    NoDup (dkeys masks) -> masks <> [] -> masks_fit masks (length toas) -> length toaerrs = length toas ->
    (forall k k' i, selects masks k i -> selects masks k' i -> k = k') ->
    exists l1 l2 l3,
      measurement_noise toaerrs efac None masks = BVec l1 /\
      measurement_noise toaerrs efac (Some q) masks = BVec l2 /\
      tnequad_noise toas q masks = BVec l3 /\
      forall k i, selects masks k i ->
        let s := nth i toaerrs 0%R in
        nth i l1 0%R = ((efac k * s) ^ 2)%R /\
        nth i l2 0%R = ((efac k * s) ^ 2 + (efac k * Rpower 10 (q k)) ^ 2)%R /\
        nth i l3 0%R = ((Rpower 10 (q k)) ^ 2)%R /\
        (0 < nth i l3 0)%R /\
        (efac k <> 0%R -> (0 < nth i l2 0)%R /\ ((0 < s)%R -> (0 < nth i l1 0)%R)).
Proof.
  intros toaerrs toas efac q masks ND Hne Hfit HL Hdis. rewrite <- HL in Hfit.
  destruct (white_ndiag_sum_lem (fun k => efac_ndiag toaerrs (efac k)) masks (length toaerrs)) as (l1 & E1 & _ & _ & H1 & _); auto.
  { intros; unfold efac_ndiag; apply map_length. }
  destruct (white_ndiag_sum_lem (fun k => combined_ndiag toaerrs (efac k) (q k)) masks (length toaerrs)) as (l2 & E2 & _ & _ & H2 & _); auto.
  { intros; unfold combined_ndiag; apply map_length. }
  destruct (white_ndiag_sum_lem (fun k => tnequad_ndiag toas (q k)) masks (length toaerrs)) as (l3 & E3 & _ & _ & H3 & _); auto.
  { intros; unfold tnequad_ndiag; rewrite map_length; auto. }
  exists l1, l2, l3. split; auto. split; auto. split; auto.
  intros k i Hs s. specialize (H1 Hdis k i Hs). specialize (H2 Hdis k i Hs). specialize (H3 Hdis k i Hs).
  assert (i < length toaerrs) as Hi.
  { destruct Hs as (m & Hm & Hi). rewrite <- (Hfit k m Hm). apply nth_error_Some. congruence. }
  rewrite efac_ndiag_nth in H1 by auto. rewrite combined_ndiag_nth in H2 by auto. rewrite tnequad_ndiag_nth in H3 by lia.
  assert (Rpower 10 (2 * q k) = (Rpower 10 (q k)) ^ 2)%R as E10.
  { replace (2 * q k)%R with (q k + q k)%R by ring. rewrite Rpower_plus. ring. }
  pose proof (Rpower_pos 10 (q k)) as Hp. fold s in H1, H2.
  rewrite H1, H2, H3, E10. split; [ring|]. split; [ring|]. split; [reflexivity|]. split; [now apply pow_lt|].
  intros He. assert (0 < efac k ^ 2)%R as He2 by (rewrite <- Rsqr_pow2; now apply Rsqr_pos_lt).
  split.
  - apply Rmult_lt_0_compat; auto. pose proof (pow2_ge_0 s). pose proof (pow_lt _ 2 Hp). lra.
  - intros Hs0. apply Rmult_lt_0_compat; auto. now apply pow_lt.
Qed.
