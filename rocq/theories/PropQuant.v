(** Properties C23-C27: white variances, epoch quantisation, ECORR epochs. *)
From Coq Require Import String Bool Arith Lia ZArith List Permutation Sorted Reals Lra.
From Verif Require Import PyBase ProofBase ModelSelect ProofSelect ProofQuant.
Import ListNotations.
Open Scope string_scope.
Open Scope list_scope.

(** C23: Each TOA's white variance comes from its own selection. *)
Theorem white_ndiag_sum :
  forall (vfn : string -> list R) (masks : dict string mask) (n : nat),
    NoDup (dkeys masks) -> masks <> [] -> masks_fit masks n -> (forall k, length (vfn k) = n) ->
    exists l, white_ndiag vfn masks = BVec l /\ length l = n /\
      (* sum of the variances of the selections containing the TOA *)
      (forall i, i < n -> nth i l 0%R = rsum (map (contrib vfn masks i) (dkeys masks))) /\
      (* for disjoint selections: the variance of the TOA's own one *)
      ((forall k k' i, selects masks k i -> selects masks k' i -> k = k') ->
       forall k i, selects masks k i -> nth i l 0%R = nth i (vfn k) 0%R) /\
      (* and zero if no selection contains it *)
      (forall i, i < n -> (forall k, ~ selects masks k i) -> nth i l 0%R = 0%R).
Proof. exact white_ndiag_sum_lem. Qed.
Print Assumptions white_ndiag_sum.

Theorem measurement_noise_formula :
  forall (toaerrs toas : list R) (efac q : string -> R) (masks : dict string mask),
    NoDup (dkeys masks) -> masks <> [] -> masks_fit masks (length toas) -> length toaerrs = length toas ->
    (forall k k' i, selects masks k i -> selects masks k' i -> k = k') ->
    exists l1 l2 l3,
      measurement_noise toaerrs efac None masks = BVec l1 /\
      measurement_noise toaerrs efac (Some q) masks = BVec l2 /\
      tnequad_noise toas q masks = BVec l3 /\
      forall k i, selects masks k i ->
        let s := nth i toaerrs 0%R in
        nth i l1 0%R = ((efac k * s) ^ 2)%R /\
        nth i l2 0%R = ((efac k * s) ^ 2 + (efac k * Rpower 10 (q k)) ^ 2)%R /\
        nth i l3 0%R = ((Rpower 10 (q k)) ^ 2)%R /\
        (0 < nth i l3 0)%R /\
        (efac k <> 0%R -> (0 < nth i l2 0)%R /\ ((0 < s)%R -> (0 < nth i l1 0)%R)).
Proof. exact measurement_noise_lem. Qed.
Print Assumptions measurement_noise_formula.
Example measurement_noise_example :
  let masks := [("B", [false; true; true]); ("A", [true; false; false])] in
  NoDup (dkeys masks) /\ masks_fit masks 3 /\
  (forall k k' i, selects masks k i -> selects masks k' i -> k = k') /\ selects masks "B" 2.
Proof.
  cbv zeta. split; [repeat constructor; simpl; intuition discriminate|]. split; [|split].
  - intros k m. simpl. destruct (string_dec k "B"); [intros H; now injection H as <-|].
    destruct (string_dec k "A"); [intros H; now injection H as <-|discriminate].
  - intros k k' i (m & Hm & Hi) (m' & Hm' & Hi'). simpl in Hm, Hm'.
    destruct (string_dec k "B"), (string_dec k "A"), (string_dec k' "B"), (string_dec k' "A"); subst; try congruence;
      exfalso; injection Hm as <-; injection Hm' as <-; destruct i as [|[|[|i]]]; simpl in *; try discriminate; now destruct i.
  - exists [false; true; true]. split; reflexivity.
Qed.

(** C24: Epoch quantisation partitions the TOAs into short epochs. *)
Theorem quantisation_partition :
  forall (argsort : list R -> list nat) (toas : list R) (dt : R) (nmin : nat),
    argsort_ok argsort -> (0 < dt)%R -> toas <> [] ->
    exists (bs : list (list nat)) (U : list (list Z)),
      (* buckets before the size filter: every TOA in exactly one, within dt of
         its bucket's first TOA, starts at least dt apart *)
      buckets argsort toas dt = Ok bs /\ partition_ok toas dt bs /\
      (forall i, i < length toas -> exists! j, exists b, nth_error bs j = Some b /\ In i b) /\
      (* the matrix: one row per TOA, one column per bucket with nmin TOAs *)
      quant_matrix argsort toas dt nmin = Ok U /\
      length U = length toas /\
      (let cols := filter (fun b => Nat.leb nmin (length b)) bs in
       (forall row, In row U -> length row = length cols) /\
       (forall i j b, i < length toas -> nth_error cols j = Some b ->
          (entry U i j = 1%Z /\ In i b) \/ (entry U i j = 0%Z /\ ~ In i b)) /\
       (* disjoint supports *)
       (forall i j j', i < length toas -> j < length cols -> j' < length cols ->
          entry U i j <> 0%Z -> entry U i j' <> 0%Z -> j = j')).
Proof. exact quantisation_partition_lem. Qed.
Print Assumptions quantisation_partition.

Theorem quantisation_empty :
  forall (argsort : list R -> list nat) (dt : R) (nmin : nat),
    argsort_ok argsort -> quant_matrix argsort [] dt nmin = Err IndexError.
Proof. exact quantisation_empty_lem. Qed.
Print Assumptions quantisation_empty.
(** A sorting function, and a run with TOAs out of order and a single one. *)
Example quantisation_example :
  argsort_ok argsort_ins /\
  buckets argsort_ins [5; 1; 9; 3/2; 5]%R 1 = Ok [[1; 3]; [0; 4]; [2]] /\
  quant_matrix argsort_ins [5; 1; 9; 3/2; 5]%R 1 2 = Ok [[0; 1]; [1; 0]; [0; 0]; [1; 0]; [0; 1]]%Z.
Proof.
  assert (buckets argsort_ins [5; 1; 9; 3/2; 5]%R 1 = Ok [[1; 3]; [0; 4]; [2]]) as E.
  { unfold buckets, argsort_ins, Rleb. simpl. rdec. unfold Rltb. rdec. reflexivity. }
  split; [exact argsort_ins_ok|]. split; [exact E|]. unfold quant_matrix. rewrite E. reflexivity.
Qed.

(** C25: Epoch quantisation does not depend on TOA order. *)
Theorem quantisation_order_independent :
  forall (argsort argsort' : list R -> list nat) (toas : list R) (p : list nat) (dt : R) (nmin : nat),
    argsort_ok argsort -> argsort_ok argsort' -> (0 < dt)%R -> toas <> [] ->
    Permutation p (seq 0 (length toas)) ->
    let toas' := map (fun i => nth i toas 0%R) p in
    exists U U',
      quant_matrix argsort toas dt nmin = Ok U /\
      quant_matrix argsort' toas' dt nmin = Ok U' /\
      U' = map (fun i => nth i U []) p.
Proof. exact quantisation_order_independent_lem. Qed.
Print Assumptions quantisation_order_independent.
(** Holds also with equal TOAs and different sorting functions. *)
Example quantisation_order_independent_example :
  argsort_ok argsort_ins /\ ([5; 1; 5]%R <> []) /\ Permutation [2; 0; 1] (seq 0 (length [5; 1; 5]%R)).
Proof.
  split; [exact argsort_ins_ok|]. split; [discriminate|]. simpl.
  apply perm_trans with [0; 2; 1]; [apply perm_swap|apply perm_skip, perm_swap].
Qed.

(** C26: Index lists recovered from a quantisation matrix are the epochs. *)
Theorem quant2ind_spec :
  forall (as_slice : bool) (col : list Z),
    let rows := flatnonzero col in
    (* the increasing list of rows with a nonzero entry *)
    (StronglySorted lt rows /\ forall i, In i rows <-> i < length col /\ nth i col 0%Z <> 0%Z) /\
    (rows = [] -> quant2ind_col as_slice col = Err IndexError) /\
    (rows <> [] -> exists e, quant2ind_col as_slice col = Ok e /\ indices_from_slice e = rows /\
       (* a slice exactly when asked for and contiguous *)
       ((exists a b, e = ESlice a b) <-> as_slice = true /\ exists a n, rows = seq a n)).
Proof. exact quant2ind_lem. Qed.
Print Assumptions quant2ind_spec.
Example quant2ind_example :
  quant2ind true 3 [[1; 0; 1]; [1; 0; 0]; [0; 1; 1]]%Z = Ok [ESlice 0 2; ESlice 2 3; EArr [0; 2]] /\
  quant2ind_col true [0; 0]%Z = Err IndexError.
Proof. split; reflexivity. Qed.

(** C27: ECORR epochs of different selections never overlap. *)
Theorem ecorr_epochs :
  forall (argsort : list R -> list nat) (toas : list R) (masks : dict string mask) (value : string -> R),
    argsort_ok argsort -> NoDup (dkeys masks) -> masks_fit masks (length toas) ->
    (* no empty selection; selections pairwise disjoint *)
    (forall k, In k (dkeys masks) -> exists i, selects masks k i) ->
    (forall k k' i, selects masks k i -> selects masks k' i -> k = k') ->
    exists idxs epochs jvec,
      ecorr_idxs argsort toas masks = Ok idxs /\ get_jvecs idxs value = (epochs, jvec) /\
      length jvec = length epochs /\
      (* every epoch belongs to one selection, whose TOAs it groups, and carries
         that selection's value *)
      (forall j e, nth_error epochs j = Some e ->
         exists k, In k (dkeys masks) /\ nth_error jvec j = Some (Rpower 10 (2 * value k)) /\
           (forall i, In i e -> selects masks k i) /\
           StronglySorted lt e /\ 2 <= length e /\
           (forall i i', In i e -> In i' e -> (Rabs (nth i toas 0 - nth i' toas 0) < 1)%R)) /\
      (* no TOA in two epochs *)
      (forall j j' e e' i, nth_error epochs j = Some e -> nth_error epochs j' = Some e' -> In i e -> In i e' -> j = j') /\
      (* simultaneous TOAs of a selection share an epoch *)
      (forall k i i', i <> i' -> selects masks k i -> selects masks k i' -> nth i toas 0%R = nth i' toas 0%R ->
         exists e, In e epochs /\ In i e /\ In i' e).
Proof. exact ecorr_epochs_lem. Qed.
Print Assumptions ecorr_epochs.
Example ecorr_epochs_example :
  let toas := [5; 5; 5; 5; 5]%R in
  let masks := [("B", [false; true; true; false; true]); ("A", [true; false; false; true; false])] in
  ecorr_idxs argsort_ins toas masks = Ok [("A", [[0; 3]]); ("B", [[1; 2; 4]])].
Proof.
  cbv zeta. unfold ecorr_idxs, sorted_keys. simpl. unfold ecorr_key, quant_matrix, buckets, argsort_ins, Rleb. simpl.
  rdec. unfold Rltb. rdec. reflexivity.
Qed.

Theorem ecorr_empty_selection :
  forall (argsort : list R -> list nat) (toas : list R) (k : string) (m : mask),
    argsort_ok argsort -> length m = length toas -> (~ exists i, nth_error m i = Some true) ->
    ecorr_idxs argsort toas [(k, m)] = Err IndexError.
Proof. exact ecorr_empty_selection_lem. Qed.
Print Assumptions ecorr_empty_selection.
Example ecorr_empty_selection_example : ~ exists i, nth_error [false; false] i = Some true.
Proof. intros [[|[|[|i]]] H]; discriminate. Qed.
