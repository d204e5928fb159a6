(** KernelMatrix, the combined basis and prior of a pulsar, and the basis and
    prior of a GP with selections.
    Only theorem statements live here; the proofs are in ProofKernel.v. *)
From Coq Require Import Reals.
From mathcomp Require Import all_ssreflect all_algebra.
From Verif Require Import RStruct PyBase ModelLinalg ProofLinalg ModelNoise ProofNoise ModelLike ModelKernel ProofKernel.
Set Implicit Arguments.
Unset Strict Implicit.
Unset Printing Implicit Defensive.
Import GRing.Theory Num.Theory Order.TTheory.
Local Open Scope ring_scope.

(** C32: the combined basis and prior have the covariance of the separate ones. *)
Theorem combine_covariance : forall n (hash : 'cV[R]_n -> nat) (sigs : seq (bsig n)),
  no_collision hash sigs -> fixed_first sigs -> no_repeats sigs ->
  all (fun s => (0 < bk s)%N) sigs -> (0 < size sigs)%N ->
  exists T phi, coll_basis hash sigs = Ok (Some T) /\ coll_phi hash sigs = Ok (Some phi) /\
    T *m phi_mx (kphi phi) *m T^T = \sum_(s <- sigs) bF s *m phi_mx (bphi s) *m (bF s)^T.
Proof. exact combine_covariance_lem. Qed.
Print Assumptions combine_covariance.
Example combine_covariance_satisfiable : no_collision hash1 sigs_ok /\ fixed_first sigs_ok /\ no_repeats sigs_ok /\
  all (fun s => (0 < bk s)%N) sigs_ok /\ (0 < size sigs_ok)%N /\
  combine_idx hash1 sigs_ok = [:: [:: 0%N]; [:: 0%N]; [:: 1%N]].
Proof. exact ex_combine. Qed.
(** Each of the three provisos is needed: a varying basis before a sharing
    signal, colliding hashes, and repeated columns break it. *)
Theorem combine_order_refuted : exists n (hash : 'cV[R]_n -> nat) (sigs : seq (bsig n)) T phi,
  (no_collision hash sigs /\ no_repeats sigs /\ all (fun s => (0 < bk s)%N) sigs)
  /\ coll_basis hash sigs = Ok (Some T) /\ coll_phi hash sigs = Ok (Some phi)
  /\ T *m phi_mx (kphi phi) *m T^T <> \sum_(s <- sigs) bF s *m phi_mx (bphi s) *m (bF s)^T.
Proof. exact combine_order_refuted_lem. Qed.
Print Assumptions combine_order_refuted.
Theorem combine_collision_refuted : exists n (hash : 'cV[R]_n -> nat) (sigs : seq (bsig n)) T phi,
  (fixed_first sigs /\ no_repeats sigs /\ all (fun s => (0 < bk s)%N) sigs)
  /\ coll_basis hash sigs = Ok (Some T) /\ coll_phi hash sigs = Ok (Some phi)
  /\ T *m phi_mx (kphi phi) *m T^T <> \sum_(s <- sigs) bF s *m phi_mx (bphi s) *m (bF s)^T.
Proof. exact combine_collision_refuted_lem. Qed.
Print Assumptions combine_collision_refuted.
Theorem combine_repeats_refuted : exists n (hash : 'cV[R]_n -> nat) (sigs : seq (bsig n)) T phi,
  (no_collision hash sigs /\ fixed_first sigs /\ all (fun s => (0 < bk s)%N) sigs)
  /\ coll_basis hash sigs = Ok (Some T) /\ coll_phi hash sigs = Ok (Some phi)
  /\ T *m phi_mx (kphi phi) *m T^T <> \sum_(s <- sigs) bF s *m phi_mx (bphi s) *m (bF s)^T.
Proof. exact combine_repeats_refuted_lem. Qed.
Print Assumptions combine_repeats_refuted.

(** C33: the column maps use exactly the columns of the combined basis. *)
Theorem combine_layout : forall n (hash : 'cV[R]_n -> nat) (sigs : seq (bsig n)),
  let idxs := combine_idx hash sigs in
  size idxs = size sigs
  /\ (forall p, (p < size sigs)%N -> size (nth [::] idxs p) = bk (nth (no_sig n) sigs p))
  /\ (forall c, (c < combine_ncol hash sigs)%N <-> exists p, (p < size sigs)%N /\ c \in nth [::] idxs p).
Proof. exact combine_layout_lem. Qed.
Print Assumptions combine_layout.
(** A signal without repeated columns occupies distinct columns. *)
Theorem combine_distinct : forall n (hash : 'cV[R]_n -> nat) (sigs : seq (bsig n)) p,
  no_collision hash sigs -> (p < size sigs)%N ->
  [|| bpar (nth (no_sig n) sigs p), ~~ bcomb (nth (no_sig n) sigs p) | uniq (columns (nth (no_sig n) sigs p))] ->
  uniq (nth [::] (combine_idx hash sigs) p).
Proof. exact combine_distinct_lem. Qed.
Print Assumptions combine_distinct.
Example combine_distinct_satisfiable : no_collision hash1 sigs_ok /\ (1 < size sigs_ok)%N /\
  uniq (columns (nth (no_sig 1) sigs_ok 1)).
Proof. exact (conj (proj1 ex_combine) (conj isT ex_distinct)). Qed.
(** Columns are shared only with a later combining signal of fixed basis, and
    then have equal contents. *)
Theorem combine_sharing : forall n (hash : 'cV[R]_n -> nat) (sigs : seq (bsig n)) p q a b,
  (p < q)%N -> (q < size sigs)%N ->
  (a < bk (nth (no_sig n) sigs p))%N -> (b < bk (nth (no_sig n) sigs q))%N ->
  nth 0%N (nth [::] (combine_idx hash sigs) p) a = nth 0%N (nth [::] (combine_idx hash sigs) q) b ->
  (bpar (nth (no_sig n) sigs q) = false /\ bcomb (nth (no_sig n) sigs q))
  /\ (no_collision hash sigs -> fixed_first sigs ->
      nth 0 (columns (nth (no_sig n) sigs p)) a = nth 0 (columns (nth (no_sig n) sigs q)) b).
Proof. exact combine_sharing_lem. Qed.
Print Assumptions combine_sharing.
Example combine_sharing_satisfiable : (0 < 1)%N /\ (1 < size sigs_ok)%N /\
  nth 0%N (nth [::] (combine_idx hash1 sigs_ok) 0) 0 = nth 0%N (nth [::] (combine_idx hash1 sigs_ok) 1) 0.
Proof. exact ex_sharing. Qed.
(** With a varying basis in front, columns of different contents are shared. *)
Theorem combine_sharing_refuted : exists n (hash : 'cV[R]_n -> nat) (sigs : seq (bsig n)) p q a b,
  no_collision hash sigs /\ (p < q)%N /\ (q < size sigs)%N
  /\ (a < bk (nth (no_sig n) sigs p))%N /\ (b < bk (nth (no_sig n) sigs q))%N
  /\ nth 0%N (nth [::] (combine_idx hash sigs) p) a = nth 0%N (nth [::] (combine_idx hash sigs) q) b
  /\ nth 0 (columns (nth (no_sig n) sigs p)) a <> nth 0 (columns (nth (no_sig n) sigs q)) b.
Proof. exact combine_sharing_refuted_lem. Qed.
Print Assumptions combine_sharing_refuted.

(** C52: [add] and [set] at distinct positions. *)
Theorem kernel_add : forall N k (self : kmat N) (other : phi_t k) (f : 'I_k -> 'I_N),
  injective f -> (0 < k)%N ->
  exists r, kadd self other (KArr (at_pos f)) = Ok r
    /\ (forall a b, phi_mx (kphi r) (f a) (f b) = phi_mx (kphi self) (f a) (f b) + phi_mx other a b)
    /\ (forall i j, (forall a, f a <> i) \/ (forall b, f b <> j) -> phi_mx (kphi r) i j = phi_mx (kphi self) i j)
    /\ is_vector (kphi r) = is_vector (kphi self) && is_vector other.
Proof. exact kernel_add_lem. Qed.
Print Assumptions kernel_add.
Theorem kernel_set : forall N k (self : kmat N) (other : phi_t k) (f : 'I_k -> 'I_N),
  injective f -> (0 < k)%N ->
  exists r, kset self other (KArr (at_pos f)) = Ok r
    /\ (forall a b, phi_mx (kphi r) (f a) (f b) =
          if [&& is_vector other, ~~ is_vector (kphi self) & a != b]
          then phi_mx (kphi self) (f a) (f b) else phi_mx other a b)
    /\ (forall i j, (forall a, f a <> i) \/ (forall b, f b <> j) -> phi_mx (kphi r) i j = phi_mx (kphi self) i j)
    /\ is_vector (kphi r) = is_vector (kphi self) && is_vector other.
Proof. exact kernel_set_lem. Qed.
Print Assumptions kernel_set.
Example kernel_positions_satisfiable : injective (fun a : 'I_2 => lift (@ord0 2) a) /\ (0 < 2)%N.
Proof. exact ex_positions. Qed.
(** With a slice: the same, except that a vector added to a matrix fills the
    whole block. *)
Theorem kernel_slice : forall N k off (self : kmat N) (other : phi_t k),
  (k + off <= N)%N -> (0 < k)%N ->
  exists r s, kadd self other (KSlice off (k + off)) = Ok r /\ kset self other (KSlice off (k + off)) = Ok s
    /\ (forall (a b : 'I_k) (i j : 'I_N), val i = (off + a)%N -> val j = (off + b)%N ->
        if is_vector other && ~~ is_vector (kphi self)
        then phi_mx (kphi r) i j = phi_mx (kphi self) i j + phi_mx other b b /\ phi_mx (kphi s) i j = phi_mx other b b
        else phi_mx (kphi r) i j = phi_mx (kphi self) i j + phi_mx other a b /\ phi_mx (kphi s) i j = phi_mx other a b)
    /\ (forall i j : 'I_N, ~~ ((off <= i < k + off)%N && (off <= j < k + off)%N) ->
        phi_mx (kphi r) i j = phi_mx (kphi self) i j /\ phi_mx (kphi s) i j = phi_mx (kphi self) i j).
Proof. exact kernel_slice_lem. Qed.
Print Assumptions kernel_slice.
Theorem kernel_slice_diagonal_refuted : exists N k off (self : kmat N) (other : phi_t k) r (i j : 'I_N),
  (k + off <= N)%N /\ is_vector other /\ kadd self other (KSlice off (k + off)) = Ok r
  /\ i <> j /\ phi_mx (kphi r) i j <> phi_mx (kphi self) i j.
Proof. exact kernel_slice_diagonal_refuted_lem. Qed.
Print Assumptions kernel_slice_diagonal_refuted.

(** C54: the basis of a GP with selections has one block of columns for each
    selection, which is its basis on the selected TOAs and zero elsewhere. *)
Theorem selected_basis : forall n (bs : seq (selblk n)), sel_shapes bs ->
  exists T, sel_basis bs = Ok T /\
  forall p, (p < size bs)%N -> let b := nth (no_sel n) bs p in
  forall (c : 'I_(sb_k b)) (C : 'I_(sel_ncol bs)) i, val C = (sel_first bs p + c)%N ->
    (sb_mask b i = false -> T i C = 0)
    /\ forall a, nth n [seq val i | i <- sel_toas b] (val a) = i -> T i C = sb_F b a c.
Proof. exact selected_basis_lem. Qed.
Print Assumptions selected_basis.
(** Its prior is block diagonal with the selections' priors. *)
Theorem selected_prior : forall n (bs : seq (selblk n)) (self : kmat (sel_ncol bs)),
  all (fun b => (0 < sb_k b)%N || is_vector (sb_phi b)) bs -> vectors_first bs (is_vector (kphi self)) ->
  blocks_only (phi_mx (kphi self)) ->
  exists r, sel_phi self = Ok r /\ blocks_only (phi_mx (kphi r))
  /\ is_vector (kphi r) = is_vector (kphi self) && all (fun b => is_vector (sb_phi b)) bs
  /\ forall p, (p < size bs)%N -> let b := nth (no_sel n) bs p in
     forall (c d : 'I_(sb_k b)) (C D : 'I_(sel_ncol bs)),
       val C = (sel_first bs p + c)%N -> val D = (sel_first bs p + d)%N ->
       phi_mx (kphi r) C D = phi_mx (sb_phi b) c d.
Proof. exact selected_prior_lem. Qed.
Print Assumptions selected_prior.
(** The covariance is the sum of those of the selections, and vanishes between
    TOAs without a common selection. *)
Theorem selected_covariance : forall n (bs : seq (selblk n)) (self : kmat (sel_ncol bs)),
  sel_shapes bs -> all (fun b => (0 < sb_k b)%N || is_vector (sb_phi b)) bs ->
  vectors_first bs (is_vector (kphi self)) -> blocks_only (phi_mx (kphi self)) ->
  exists T r, sel_basis bs = Ok T /\ sel_phi self = Ok r
  /\ T *m phi_mx (kphi r) *m T^T =
     \sum_(p < size bs) (let b := nth (no_sel n) bs p in
        (sel_pick b)^T *m (sb_F b *m phi_mx (sb_phi b) *m (sb_F b)^T) *m sel_pick b)
  /\ forall i j, (forall p, (p < size bs)%N -> ~~ (sb_mask (nth (no_sel n) bs p) i && sb_mask (nth (no_sel n) bs p) j)) ->
     (T *m phi_mx (kphi r) *m T^T) i j = 0.
Proof. exact selected_covariance_lem. Qed.
Print Assumptions selected_covariance.
Example selected_satisfiable : sel_shapes mixed_sel /\ all (fun b => (0 < sb_k b)%N || is_vector (sb_phi b)) mixed_sel /\
  vectors_first mixed_sel (is_vector (kphi (kzeros (sel_ncol mixed_sel)))) /\
  blocks_only (bs := mixed_sel) (phi_mx (kphi (kzeros (sel_ncol mixed_sel)))).
Proof. exact ex_selected. Qed.
(** Mixing vector and matrix priors, the first call is right and the second is
    not, because the array kept from the first call is already a matrix. *)
Theorem selected_prior_second_call_refuted : exists n (bs : seq (selblk n)) r r2 (C D : 'I_(sel_ncol bs)) (c d : 'I_(sb_k (nth (no_sel n) bs 0))),
  sel_phi (kzeros (sel_ncol bs)) = Ok r /\ sel_phi r = Ok r2
  /\ val C = (sel_first bs 0 + c)%N /\ val D = (sel_first bs 0 + d)%N
  /\ phi_mx (kphi r) C D = phi_mx (sb_phi (nth (no_sel n) bs 0)) c d
  /\ phi_mx (kphi r2) C D <> phi_mx (sb_phi (nth (no_sel n) bs 0)) c d.
Proof. exact selected_prior_second_call_refuted_lem. Qed.
Print Assumptions selected_prior_second_call_refuted.
