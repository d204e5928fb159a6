(** C116: the likelihood of an array with several classes of common signals, each of them
    in some of the pulsars. *)
From Coq Require Import Reals String.
From mathcomp Require Import all_ssreflect all_algebra.
From Verif Require Import RStruct PyBase ModelCache ModelGp ProofGp ModelLinalg ProofLinalg ModelNoise ProofNoise ModelLike ProofLike ModelKernel ProofKernel ModelPhi ProofPhi ModelColl ProofColl ModelArray ProofArray ProofJoint ProofCorr ProofArrayEx ProofShare ProofMulti ProofMany ProofManyEx.
Import GRing.Theory Num.Theory.
Local Open Scope seq_scope.
Local Open Scope ring_scope.

(** C116: pulsar [x] has the signal number [mp_j x c] of class [c], if any, with the basis
    [mp_F x c]; the class has the prior [phi c] and the correlations [orf c]. After any
    questions [l], the likelihood is the log density of all residuals, where the covariance
    of two pulsars is the sum of orf(i,j) F_i phi F_j^T over the classes that both have. *)
Theorem array_classes : forall (hash : forall n, 'cV[R]_n -> nat) (svd : forall k, 'M[R]_k -> 'M[R]_k * 'cV[R]_k) (St : Type)
  (cross : nat -> St -> St -> params R -> result cz) (dom : params R -> Prop) (v_cross : nat -> nat * nat -> nat * nat -> params R -> result cz),
  (forall p, dom p -> flat_values p) -> dom [::] ->
  forall (a : seq (coll St nz dz fz pz * seq (beh St nz dz fz pz))) (sss : seq (seq St)) l rs method p
    (K : nat -> nat) (orf : nat -> nat -> nat -> R) (phi : forall c, 'cV[R]_(K c)) (xs : seq (mpsr K)) (cs : seq nat),
  List.Forall (sound_coll dom) a -> sound_commons (z_ops hash svd cross) v_cross a -> List.Forall2 (fun c ss => List.Forall2 b_inv (snd c) ss) a sss ->
  List.Forall2 (fun q r => dom (ask_params q) /\ v_ask (z_ops hash svd cross) v_cross a q = Ok r) l rs ->
  dom p ->
  List.Forall2 (fun c x => [/\ psr_seen p c (pm (mp_q x)), good_psr hash (mp_q x), has_process x, has_commons orf phi x & all_commons c x]) a xs ->
  [seq mp_i x | x <- xs] = iota 0 (size xs) -> uniq cs -> (forall x c, List.In x xs -> mp_j x c -> c \in cs) -> (exists c, (1 < size (members xs c))%N) ->
  (forall x y c i j, List.In x xs -> List.In y xs -> (mp_i x < mp_i y)%N -> mp_j x c = Some i -> mp_j y c = Some j ->
     v_cross c (mp_i x, i) (mp_i y, j) p = Ok (Cz (orf c (mp_i x) (mp_i y)) (existT phi_t (K c) (PhiD (phi c))))) ->
  (forall c, c \in cs -> posdef (\matrix_(i < size xs, j < size xs) orf c i j) /\ forall k, 0 < phi c k ord0) ->
  method_for method xs ->
  run (z_ops hash svd cross) (List.map fst a) (l ++ [:: ALike method p]) (new_pta sss) = List.map Ok (rs ++ [:: RLike (Fin (many_term orf phi xs cs))]).
Proof. exact array_classes_lem. Qed.
Print Assumptions array_classes.
(** Three pulsars, two classes: one in the first and second, one in the first and third *)
Example array_classes_example : forall svd (l : seq (R * R * R)),
  run (z_ops m_hash svd m_cross) (List.map fst m_array) [seq ALike "cliques" (y_p q) | q <- l] (new_pta m_start) =
  List.map Ok [seq RLike (Fin (many_term m_orf (fun c => y_phi (m_val q c)) (m_xs q) [:: 0%N; 1%N])) | q <- l].
Proof. exact m_classes. Qed.

(** C33: equal columns of two combining signals with fixed bases are one column of the
    combined basis. *)
Theorem combine_shared : forall n (hash : 'cV[R]_n -> nat) (sigs : seq (bsig n)) p q a b,
  fixed_first sigs -> (p < size sigs)%N -> (q < size sigs)%N ->
  bpar (nth (no_sig n) sigs p) = false -> bcomb (nth (no_sig n) sigs p) -> bpar (nth (no_sig n) sigs q) = false -> bcomb (nth (no_sig n) sigs q) ->
  (a < bk (nth (no_sig n) sigs p))%N -> (b < bk (nth (no_sig n) sigs q))%N ->
  nth 0 (ProofKernel.columns (nth (no_sig n) sigs p)) a = nth 0 (ProofKernel.columns (nth (no_sig n) sigs q)) b ->
  nth 0%N (nth [::] (combine_idx hash sigs) p) a = nth 0%N (nth [::] (combine_idx hash sigs) q) b.
Proof. exact combine_shared_lem. Qed.
Print Assumptions combine_shared.
Example combine_shared_satisfiable : fixed_first sigs_ok /\ nth (no_sig 1) sigs_ok 0 = nth (no_sig 1) sigs_ok 1 /\
  bpar (nth (no_sig 1) sigs_ok 0) = false /\ bcomb (nth (no_sig 1) sigs_ok 0) /\ (0 < bk (nth (no_sig 1) sigs_ok 0))%N.
Proof. exact ex_shared. Qed.
