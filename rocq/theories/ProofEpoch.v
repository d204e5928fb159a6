(** The epochs of EcorrKernelNoise and the columns of the quantisation matrices, key by
    key, for ProofEcorr.v. *)
From Coq Require Import String Bool Arith Lia ZArith List Permutation Sorted Reals Lra.
From Verif Require Import PyBase ProofBase ModelSelect ProofSelect ProofQuant.
Import ListNotations.
Open Scope string_scope.
Open Scope list_scope.

Lemma rmapM_inv {A B} (f : A -> result B) : forall l r, rmapM f l = Ok r -> Forall2 (fun x y => f x = Ok y) l r.
Proof.
  induction l as [|x l IH]; intros r H; cbn in H; [injection H as <-; constructor|].
  destruct (f x) as [y|e] eqn:E; [|discriminate]. cbn in H. destruct (rmapM f l) as [ys|e]; [|discriminate]. cbn in H. injection H as <-. constructor; auto.
Qed.
(** What is common to both models for one selection: the matrix, and the rows of its
    columns. *)
Definition key_epochs (argsort : list R -> list nat) (toas : list R) (m : mask) (U : list (list Z)) (es : list (list nat)) : Prop :=
  quant_matrix argsort (take_mask toas m) 1 2 = Ok U /\ length U = length (filter (fun b => b) m) /\ ncols U = length es /\
  (forall c e, nth_error es c = Some e -> NoDup e /\ 2 <= length e /\ forall i, i < length m ->
     (nth i m false = true /\ (In i e /\ entry U (rank m i) c = 1%Z \/ ~ In i e /\ entry U (rank m i) c = 0%Z)) \/ (nth i m false = false /\ ~ In i e)) /\
  (forall e i, In e es -> In i e -> i < length m /\ nth i m false = true) /\
  (forall j j' e e' i, nth_error es j = Some e -> nth_error es j' = Some e' -> In i e -> In i e' -> j = j').

Lemma sorted_NoDup l : StronglySorted lt l -> NoDup l.
Proof. induction 1 as [|x l H IH F]; constructor; auto. intros Hx. rewrite Forall_forall in F. specialize (F x Hx). lia. Qed.
Lemma key_epochs_ok argsort toas m : argsort_ok argsort -> length m = length toas -> (exists i, nth_error m i = Some true) ->
  exists U es, ecorr_key argsort toas m = Ok es /\ key_epochs argsort toas m U es.
Proof.
  intros Ha HL Hex. destruct (proj1 (ecorr_key_ok argsort toas m Ha HL) Hex) as (es & He & Ho1 & Ho2 & _).
  assert (take_mask toas m <> []) as Hne.
  { destruct Hex as (i & Hi). apply nth_true_error in Hi. destruct (take_mask_rank 0%R toas m i HL Hi) as [_ H]. intros E. rewrite E in H. simpl in H. lia. }
  destruct (quantisation_partition_lem argsort (take_mask toas m) 1 2 Ha Rlt_0_1 Hne) as (bs & U & _ & _ & _ & HU & HLU & Hrows & Hent & _).
  exists U, es. split; [exact He|].
  assert (length U = length (filter (fun b => b) m)) as HLm by (rewrite HLU; now apply take_mask_length).
  assert (ncols U = length (filter (fun b => Nat.leb 2 (length b)) bs)) as Hnc.
  { unfold ncols. destruct U as [|r U]; [destruct (take_mask toas m); [congruence|discriminate]|]. apply Hrows. now left. }
  unfold ecorr_key in He. rewrite HU in He. cbn [rbind] in He.
  destruct (quant2ind false (ncols U) (spread m (ncols U) U)) as [qs|] eqn:EQ; [|discriminate]. cbn [rmap rbind] in He. injection He as He.
  apply rmapM_inv in EQ.
  assert (forall c e, nth_error es c = Some e -> e = flatnonzero (column (spread m (ncols U) U) c) /\ c < ncols U) as Hes.
  { intros c e Hc. rewrite <- He, nth_error_map in Hc. destruct (nth_error qs c) as [q|] eqn:Eq; [|discriminate]. cbn in Hc. injection Hc as <-.
    assert (exists x, nth_error (seq 0 (ncols U)) c = Some x /\ quant2ind_col false (column (spread m (ncols U) U) x) = Ok q) as (x & Hx & Hq).
    { clear -EQ Eq. revert c Eq. induction EQ as [|x y l l' H _ IH]; intros [|c] Eq; try discriminate; [injection Eq as ->; exists x; auto|]. apply IH. exact Eq. }
    assert (c < ncols U) as Hcl by (rewrite <- (seq_length (ncols U) 0); apply nth_error_Some; congruence).
    assert (x = c) as ->. { apply nth_error_nth with (d := 0) in Hx. rewrite seq_nth in Hx by auto. cbn in Hx. congruence. }
    split; auto. unfold quant2ind_col in Hq. destruct (flatnonzero (column (spread m (ncols U) U) c)) as [|a l]; [discriminate|]. rewrite orb_true_r in Hq. injection Hq as <-. reflexivity. }
  assert (length es = ncols U) as HLe.
  { rewrite <- He, map_length. clear -EQ. rewrite <- (seq_length (ncols U) 0) at 1. induction EQ; cbn; congruence. }
  split; [exact HU|]. split; [exact HLm|]. split; [congruence|]. split; [|split; [|exact Ho2]].
  - intros c e Hc. destruct (Ho1 e (nth_error_In _ _ Hc)) as (A & B & C & D). split; [now apply sorted_NoDup|]. split; [exact B|].
    intros i Hi. destruct (Hes c e Hc) as [E Hcl].
    assert (length (column (spread m (ncols U) U) c) = length m) as HLc by (unfold column; rewrite map_length; apply spread_length).
    assert (nth i (column (spread m (ncols U) U) c) 0%Z = if nth i m false then entry U (rank m i) c else 0%Z) as Hn.
    { unfold column. rewrite (nth_indep _ 0%Z (nth c [] 0%Z)) by (rewrite map_length, spread_length; lia). rewrite (map_nth (fun row => nth c row 0%Z)). now apply spread_nth. }
    assert (In i e <-> nth i (column (spread m (ncols U) U) c) 0%Z <> 0%Z) as Hin.
    { rewrite E, (proj2 (flatnonzero_spec _)), HLc. tauto. }
    rewrite Hn in Hin. destruct (nth i m false) eqn:Em; [left|right; tauto]. split; auto.
    destruct (take_mask_rank 0%R toas m i HL Em) as [_ Hr]. rewrite Hnc in Hcl.
    destruct (nth_error (filter (fun b => Nat.leb 2 (length b)) bs) c) as [b|] eqn:Eb; [|apply nth_error_None in Eb; lia].
    destruct (Hent (rank m i) c b Hr Eb) as [[E1 _]|[E0 _]]; rewrite E1 in * || rewrite E0 in *; [left|right]; intuition lia.
  - intros e i Hie Hi. destruct (Ho1 e Hie) as (_ & _ & C & _). specialize (C i Hi). split; [apply nth_error_Some; congruence|now apply nth_true_error].
Qed.

(** All selections in sorted order. *)
Lemma ecorr_lists argsort toas masks value :
  argsort_ok argsort -> NoDup (dkeys masks) -> masks_fit masks (length toas) ->
  (forall k, In k (dkeys masks) -> exists i, selects masks k i) ->
  exists (fm : string -> mask) (fU : string -> list (list Z)) (fes : string -> list (list nat)) idxs,
    (forall k, In k (sorted_keys masks) -> dget string_dec masks k = Some (fm k) /\ length (fm k) = length toas /\ key_epochs argsort toas (fm k) (fU k) (fes k)) /\
    ecorr_idxs argsort toas masks = Ok idxs /\
    get_jvecs idxs value = (flat_map fes (sorted_keys masks), flat_map (fun k => map (fun _ => Rpower 10 (2 * value k)) (fes k)) (sorted_keys masks)).
Proof.
  intros Ha ND Hfit Hne.
  set (fm := fun k => match dget string_dec masks k with Some m => m | None => [] end).
  set (fU := fun k => match quant_matrix argsort (take_mask toas (fm k)) 1 2 with Ok U => U | Err _ => [] end).
  set (fes := fun k => match ecorr_key argsort toas (fm k) with Ok es => es | Err _ => [] end).
  assert (forall k, In k (sorted_keys masks) -> In k (dkeys masks)) as Hin by (intros k; apply Permutation_in, sorted_keys_perm).
  assert (forall k, In k (sorted_keys masks) -> dget string_dec masks k = Some (fm k) /\ length (fm k) = length toas /\ ecorr_key argsort toas (fm k) = Ok (fes k) /\ key_epochs argsort toas (fm k) (fU k) (fes k)) as Hk.
  { intros k H. destruct (Hne k (Hin k H)) as (i & m & Hm & Hi). assert (fm k = m) as Em by (unfold fm; now rewrite Hm). rewrite Em.
    destruct (key_epochs_ok argsort toas m Ha (Hfit k m Hm)) as (U & es & He & HK); [eauto|].
    unfold fes, fU. rewrite Em, He, (proj1 HK). split; auto. split; [now apply (Hfit k)|]. auto. }
  exists fm, fU, fes, (map (fun k => (k, fes k)) (sorted_keys masks)). split; [intros k H; destruct (Hk k H) as (A & B & _ & C); auto|].
  assert (NoDup (sorted_keys masks)) as NDs by (eapply Permutation_NoDup; [symmetry; apply sorted_keys_perm|exact ND]).
  split.
  - unfold ecorr_idxs. rewrite (rmapM_ext_Ok _ (fun k => (k, fes k))).
    + simpl. f_equal. apply dict_of_nodup. rewrite map_map. simpl. now rewrite map_id.
    + intros k H. destruct (Hk k H) as (Hm & _ & He & _). unfold dgetE. rewrite Hm. simpl. now rewrite He.
  - set (idxs := map (fun k => (k, fes k)) (sorted_keys masks)) in *.
    assert (dkeys idxs = sorted_keys masks) as Hdk by (unfold idxs, dkeys; rewrite map_map; simpl; apply map_id).
    assert (sorted_keys idxs = sorted_keys masks) as Hsk.
    { unfold sorted_keys at 1. rewrite Hdk. apply StronglySorted_isort_id. apply (isort_sorted sle); [apply sle_total|apply sle_trans]. }
    unfold get_jvecs. rewrite Hsk. set (K := sorted_keys masks) in *.
    assert (forall k, In k K -> (match dget string_dec idxs k with Some l => l | None => [] end) = fes k) as Hg.
    { intros k H. unfold idxs. rewrite dget_map_self. destruct (in_dec string_dec k K); tauto. }
    clearbody idxs. clear -Hg. f_equal; induction K as [|k K IH]; simpl; auto; rewrite Hg by (now left); f_equal; apply IH; intros; apply Hg; now right.
Qed.
(** The position of a selected TOA among the selected ones. *)
Lemma rank_filter m : forall i a, i < length m -> nth i m false = true ->
  nth (rank m i) (filter (fun j => nth (j - a) m false) (seq a (length m))) 0 = i + a /\ rank m i < length (filter (fun j => nth (j - a) m false) (seq a (length m))) .
Proof.
  induction m as [|b m IH]; intros i a Hi Em; [cbn in Hi; lia|].
  cbn [length seq filter]. rewrite Nat.sub_diag. cbn [nth].
  assert (filter (fun j => match j - a with 0 => b | S m0 => nth m0 m false end) (seq (S a) (length m)) = filter (fun j => nth (j - S a) m false) (seq (S a) (length m))) as EF.
  { apply filter_ext_in. intros j Hj. apply in_seq in Hj. destruct (j - a) as [|d] eqn:E; [lia|]. replace (j - S a) with d by lia. reflexivity. }
  destruct i as [|i]; cbn [nth] in Em.
  - subst b. cbn. split; [reflexivity|lia].
  - cbn in Hi. destruct (IH i (S a) ltac:(lia) Em) as [A B]. cbn [rank]. destruct b; cbn [nth length plus] in *; rewrite EF in *; [split; [rewrite A; lia|lia]|]. split; [rewrite A; lia|exact B].
Qed.
Lemma filter_count (m : mask) : forall a, length (filter (fun j => nth (j - a) m false) (seq a (length m))) = length (filter (fun b => b) m).
Proof.
  induction m as [|b m IH]; intros a; [reflexivity|]. cbn [length seq filter]. rewrite Nat.sub_diag. cbn [nth].
  assert (filter (fun j => match j - a with 0 => b | S m0 => nth m0 m false end) (seq (S a) (length m)) = filter (fun j => nth (j - S a) m false) (seq (S a) (length m))) as EF.
  { apply filter_ext_in. intros j Hj. apply in_seq in Hj. destruct (j - a) as [|d] eqn:E; [lia|]. replace (j - S a) with d by lia. reflexivity. }
  destruct b; cbn [length]; rewrite EF, IH; reflexivity.
Qed.
