(** Model of the prior matrix of an array of pulsars and of its inversion:
    PTA._get_slices, get_phi, get_phiinv and the clique bookkeeping
    (enterprise/signals/signal_base.py L407-673), with get_phicross of
    BasisCommonGP (gp_signals.py L404-409). Numbers are exact reals. *)
From Coq Require Import Reals String.
From mathcomp Require Import all_ssreflect all_algebra.
From Verif Require Import RStruct PyBase ModelLinalg ModelNoise ModelLike ModelKernel.
Set Implicit Arguments.
Unset Strict Implicit.
Unset Printing Implicit Defensive.
Import GRing.Theory Num.Theory Order.TTheory.
Local Open Scope ring_scope.

(** * The pulsars' own priors *)

(** [signalcollection.get_phi(params)] of each pulsar: None without basis. *)
Definition phis_t : Type := seq (option {k : nat & kmat k}).
Definition psz (o : option {k : nat & kmat k}) : nat := if o is Some p then projT1 p else 0.
Definition psize (phis : phis_t) : nat := sumn [seq psz o | o <- phis].

(** L407-415 [_get_slices], from offset [off]. *)
Fixpoint slices (off : nat) (phis : phis_t) : seq (nat * nat) :=
  if phis is o :: r then (off, (off + psz o)%N) :: slices (off + psz o) r else [::].

Definition dense (phis : phis_t) : bool :=
  has (fun o => if o is Some p then (if kphi (projT2 p) is PhiM _ then true else false) else false) phis.

(** [sl.block_diag] of given blocks; pulsars without basis are skipped. *)
Fixpoint block_diag (f : forall k, phi_t k -> 'M[R]_k) (phis : phis_t) : 'M[R]_(psize phis) :=
  match phis with
  | [::] => 0
  | None :: r => block_diag f r
  | Some p :: r => block_mx (f _ (kphi (projT2 p))) 0 0 (block_diag f r)
  end.
(** [np.concatenate] of given vectors. *)
Fixpoint concat (f : forall k, phi_t k -> 'cV[R]_k) (phis : phis_t) : 'cV[R]_(psize phis) :=
  match phis with
  | [::] => 0
  | None :: r => concat f r
  | Some p :: r => col_mx (f _ (kphi (projT2 p))) (concat f r)
  end.
(** [np.diag(phi) if phi.ndim == 2 else phi] *)
Definition phi_vec (k : nat) (phi : phi_t k) : 'cV[R]_k :=
  match phi with PhiD v => v | PhiM A => \col_i A i i end.

(** * Numpy operations on the big matrix *)
Section Arrays.
Variable N : nat.

(** [A[p1, p2] += v]: pairs of positions, the last one counting if repeated. *)
Definition last_pair (k : nat) (p1 p2 : seq nat) (i j : nat) : option 'I_k :=
  [pick a : 'I_k | (nth 0%N p1 a == i) && (nth 0%N p2 a == j) &&
     [forall b : 'I_k, (a < b)%N ==> ~~ ((nth 0%N p1 b == i) && (nth 0%N p2 b == j))]].
Definition put_pair (op : R -> R -> R) (k : nat) (A : 'M[R]_N) (p1 p2 : seq nat) (v : 'cV[R]_k) : 'M[R]_N :=
  \matrix_(i, j) (if last_pair k p1 p2 i j is Some a then op (A i j) (v a ord0) else A i j).
(** [A[np.ix_(p1, p2)] += X] *)
Definition put_block (op : R -> R -> R) (k : nat) (A : 'M[R]_N) (p1 p2 : seq nat) (X : 'M[R]_k) : 'M[R]_N :=
  \matrix_(i, j) (match last_at k p1 i, last_at k p2 j with Some a, Some b => op (A i j) (X a b) | _, _ => A i j end).

(** L530-547: a clique. [np.linalg.inv] raises for a singular matrix. *)
Definition sub_mx (idx : seq 'I_N) (A : 'M[R]_N) : 'M[R]_(size idx) :=
  \matrix_(a, b) A (tnth (in_tuple idx) a) (tnth (in_tuple idx) b).
Definition put_mx (idx : seq 'I_N) (B : 'M[R]_(size idx)) (A : 'M[R]_N) : 'M[R]_N :=
  \matrix_(i, j) (match [pick a | tnth (in_tuple idx) a == i], [pick b | tnth (in_tuple idx) b == j] with
                  | Some a, Some b => B a b | _, _ => A i j end).
Definition clique (cl : 'I_N -> option nat) (c : option nat) : seq 'I_N := [seq i <- enum 'I_N | cl i == c].
Definition inv_clique (cl : 'I_N -> option nat) (st : result ('M[R]_N * R)) (c : nat) : result ('M[R]_N * R) :=
  rbind st (fun s =>
    let idx := clique cl (Some c) in
    if idx is [::] then Ok s else
    let B := sub_mx idx s.1 in
    if B \in unitmx then Ok (put_mx (invmx B) s.1, (s.2 + ln `|\det B|)%R) else Err LinAlgError).
(** L518-556 [get_phiinv_byfreq_cliques(logdet=True)] on the result of
    [get_phi]. Diagonal terms that are not positive give infinities or NaN in
    numpy and are not followed. *)
Definition inv_cliques (Phi : 'M[R]_N) (cl : 'I_N -> option nat) (count : nat) : result ('M[R]_N * R) :=
  rbind (foldl (inv_clique cl) (Ok (Phi, 0%R)) (iota 0 count)) (fun s =>
    Ok (\matrix_(i, j) (if (i == j) && (cl i == None) then (s.1 i i)^-1 else s.1 i j),
        (s.2 + \sum_(i <- clique cl None) ln (s.1 i i))%R)).
End Arrays.

(** * Common signals *)

(** A prior times a number. *)
Definition phi_scale (k : nat) (c : R) (phi : phi_t k) : phi_t k :=
  match phi with PhiD v => PhiD (c *: v) | PhiM A => PhiM (c *: A) end.

Section Common.
(** Sky positions. *)
Variable pos : Type.

(** An instance of a common signal: its pulsar, its columns [csc._idx[cs]], the
    prior evaluated at its own labels, and the pulsar's position. *)
Record member := Member { mb_psr : nat; mb_idx : seq nat; mb_k : nat; mb_prior : phi_t mb_k; mb_pos : pos }.
(** A class of common signals with its instances (at least two). *)
Record csclass := CsClass { cs_orf : pos -> pos -> R; cs_mem : seq member }.

(** gp_signals.py L404-409 [get_phicross(signal1, signal2)]. *)
Definition phicross (c : csclass) (m1 m2 : member) : phi_t (mb_k m1) :=
  phi_scale (cs_orf c (mb_pos m1) (mb_pos m2)) (mb_prior m1).

Section Phi.
Variable phis : phis_t.
Notation N := (psize phis).

Definition slice_of (m : member) : nat * nat := nth (0%N, 0%N) (slices 0 phis) (mb_psr m).
(** Rows of the big matrix used by an instance. *)
Definition gpos (m : member) : seq nat := [seq ((slice_of m).1 + x)%N | x <- mb_idx m].
Definition in_slice (m : member) : bool := all (fun x => (slice_of m).1 + x < (slice_of m).2)%N (mb_idx m).

(** L658-668, one pair. *)
Definition add_pair (c : csclass) (Phi : 'M[R]_N) (m12 : member * member) : result 'M[R]_N :=
  let: (m1, m2) := m12 in
  let p1 := gpos m1 in let p2 := gpos m2 in
  if ~~ (in_slice m1 && in_slice m2) then Err IndexError else
  match phicross c m1 m2 with
  | PhiD v =>
      if size p1 != size p2 then Err IndexError
      else if size p1 != mb_k m1 then Err ValueError
      else Ok (put_pair (fun x y => x + y)%R (put_pair (fun x y => x + y)%R Phi p1 p2 v) p2 p1 v)
  | PhiM X =>
      if (size p1 != mb_k m1) || (size p2 != mb_k m1) then Err ValueError
      else Ok (put_block (fun x y => x + y)%R (put_block (fun x y => x + y)%R Phi p1 p2 X) p2 p1 X)
  end.

(** [itertools.combinations(csdict.items(), 2)] *)
Fixpoint pairs (T : Type) (l : seq T) : seq (T * T) :=
  if l is x :: r then [seq (x, y) | y <- r] ++ pairs r else [::].

(** L569-605 [_setcliques(slices, csdict)]: one row of [idxmatrix] after the
    other. Rows of different lengths cannot be made an array. As in
    [KernelMatrix._setcliques], L586-590 and L601-605 assign nothing. *)
Definition set_row (st : result (('I_N -> option nat) * nat)) (row : seq nat) :
    result (('I_N -> option nat) * nat) :=
  rbind st (fun cc => if has (leq N) row then Err IndexError else ksetcliques cc.1 cc.2 row).
Definition set_cliques (cc : ('I_N -> option nat) * nat) (c : csclass) : result (('I_N -> option nat) * nat) :=
  if cs_mem c is m0 :: _ then
    let K := size (mb_idx m0) in
    if has (fun m => size (mb_idx m) != K) (cs_mem c) then Err ValueError
    else foldl set_row (Ok cc) [seq [seq nth 0%N (gpos m) r | m <- cs_mem c] | r <- iota 0 K]
  else Ok cc.

(** L609-624 [_setpulsarcliques(slices, phis)]. *)
Definition set_pulsar_clique (off k : nat) (cl : 'I_k -> option nat) (cc : ('I_N -> option nat) * nat) (clindex : nat) :
    ('I_N -> option nat) * nat :=
  let hit (i : 'I_N) := [exists a : 'I_k, (cl a == Some clindex) && (off + a == i)%N] in
  if [exists a, cl a == Some clindex] then ((fun i => if hit i then Some cc.2 else cc.1 i), cc.2.+1) else cc.
Definition set_pulsar_cliques : ('I_N -> option nat) * nat :=
  foldl (fun cc (so : (nat * nat) * option {k : nat & kmat k}) =>
           if so.2 is Some p then
             foldl (set_pulsar_clique so.1.1 (kcl (projT2 p))) cc (iota 0 (kcount (projT2 p)))
           else cc)
        ((fun _ => None), 0%N) (zip (slices 0 phis) phis).

(** L631-636 *)
Definition Phi0 : 'M[R]_N :=
  if dense phis then block_diag phi_mx phis else diag_mx (concat phi_vec phis)^T.

(** L626-671 [get_phi(params, cliques=True)] with common signals [cs]: the
    matrix, [_cliques] and [_clcount]. *)
Definition get_phi (cs : seq csclass) : result ('M[R]_N * (('I_N -> option nat) * nat)) :=
  foldl (fun st c => rbind st (fun s =>
           rbind (set_cliques s.2 c) (fun cc =>
           rbind (foldl (fun r m12 => rbind r (fun Phi => add_pair c Phi m12)) (Ok s.1) (pairs (cs_mem c)))
                 (fun Phi => Ok (Phi, cc)))))
        (Ok (Phi0, set_pulsar_cliques)) cs.

(** * Inversion *)

(** L518-519 *)
Definition phiinv_cliques (cs : seq csclass) : result ('M[R]_N * R) :=
  rbind (get_phi cs) (fun s => inv_cliques s.1 s.2.1 s.2.2).

(** L427-439 [get_phiinv_sparse(logdet=True)]; sksparse raises CholmodError for
    a matrix that is not positive definite. *)
Definition phiinv_sparse (cs : seq csclass) : result ('M[R]_N * R) :=
  rbind (get_phi cs) (fun s =>
    if chol s.1 is Some U then Ok (cho_solve U 1%:M, cho_logdet U) else Err CholmodError).

(** * Partition *)
Section Partition.
Variable svd : forall k, 'M[R]_k -> 'M[R]_k * 'cV[R]_k.

(** L451-464, with [logdet=True]: the inverse and log-determinant before the
    common signals, and the diagonal. *)
Definition phidiag : 'cV[R]_N := concat phi_vec phis.
Definition part0 : 'M[R]_N * R :=
  if dense phis then
    (block_diag (fun k phi => phi_mx (kinv svd phi).1) phis,
     (\sum_(o <- phis) (if o is Some p then (kinv svd (kphi (projT2 p))).2 else 0))%R)
  else (diag_mx (\row_i (phidiag i ord0)^-1), (\sum_i ln (phidiag i ord0))%R).

(** The array [invert] of shape (K, m, m). *)
Record inverter := Inverter { iv_K : nat; iv_m : nat; iv : 'I_iv_K -> 'M[R]_iv_m }.
(** [invert[:, i, j] += v]; broadcasting of a single value is not modelled. *)
Definition iv_add (A : inverter) (i j : nat) (k : nat) (v : 'cV[R]_k) : result inverter :=
  if ~~ ((i < iv_m A) && (j < iv_m A))%N then Err IndexError
  else if k != iv_K A then Err ValueError
  else Ok (@Inverter (iv_K A) (iv_m A) (fun r => \matrix_(a, b)
         (if (a == i :> nat) && (b == j :> nat) then iv r a b + (if insub (val r) is Some r' then v r' ord0 else 0) else iv r a b)%R)).

(** [phidiag[slices[csc]][idx]] *)
Definition diag_at (m : member) : 'cV[R]_(size (mb_idx m)) :=
  \col_a (if insub (nth 0%N (gpos m) a) is Some i then phidiag i ord0 else 0).

(** L470-499: state is [invert] (None at first), the length of the last
    [crossdiag], and [ld]. *)
Definition pstate : Type := (option inverter * nat * R)%type.
Definition part_pair (c : csclass) (nm : nat) (i : nat) (m1 : member) (st : result pstate) (jm : nat * member) : result pstate :=
  rbind st (fun s =>
    if (jm.1 <= i)%N then Ok s else
    let k := mb_k m1 in
    let A := if s.1.1 is Some A then A else @Inverter k nm (fun _ => 0) in
    match phicross c m1 jm.2 with
    | PhiM _ => Err NotImplementedError
    | PhiD v => rbind (iv_add A i jm.1 v) (fun A1 => rbind (iv_add A1 jm.1 i v) (fun A2 => Ok (Some A2, k, s.2)))
    end).
Definition part_member (c : csclass) (st : result pstate) (im : nat * member) : result pstate :=
  let ms := cs_mem c in
  rbind (foldl (part_pair c (size ms) im.1 im.2) st (zip (iota 0 (size ms)) ms)) (fun s =>
    if s.1.1 is Some A then
      if ~~ in_slice im.2 then Err IndexError else
      rbind (iv_add A im.1 im.1 (diag_at im.2)) (fun A' =>
        Ok (Some A', s.1.2, (s.2 - \sum_a ln (diag_at im.2 a ord0))%R))
    else Err TypeError).
Definition part_class (st : result pstate) (c : csclass) : result pstate :=
  foldl (part_member c) st (zip (iota 0 (size (cs_mem c))) (cs_mem c)).

(** L493-499: invert the [kk] slices. *)
Definition part_invert (A : inverter) (st : result (('I_(iv_K A) -> 'M[R]_(iv_m A)) * R)) (k : nat) :
    result (('I_(iv_K A) -> 'M[R]_(iv_m A)) * R) :=
  rbind st (fun s =>
    if insub k is Some r then
      if chol (s.1 r) is Some U then
        Ok ((fun r' => if r' == r then cho_solve U 1%:M else s.1 r'), (s.2 + cho_logdet U)%R)
      else Err LinAlgError
    else Err IndexError).

(** L501-511: write back into the rows of the first class. *)
Definition part_write (K m : nat) (f : 'I_K -> 'M[R]_m) (i : nat) (m1 : member) (st : result 'M[R]_N) (jm : nat * member) :
    result 'M[R]_N :=
  rbind st (fun P =>
    if (jm.1 < i)%N then Ok P else
    let p1 := gpos m1 in let p2 := gpos jm.2 in
    if ~~ (in_slice m1 && in_slice jm.2) || (size p1 != size p2) then Err IndexError
    else if size p1 != K then Err ValueError
    else if insub i is Some i' then if insub jm.1 is Some j' then
      let v : 'cV[R]_K := \col_r f r i' j' in
      Ok (put_pair (fun _ y => y) (put_pair (fun _ y => y) P p1 p2 v) p2 p1 v)
    else Err IndexError else Err IndexError).

(** L441-516 [get_phiinv_byfreq_partition(logdet=True)] with common signals. *)
Definition phiinv_partition (cs : seq csclass) : result ('M[R]_N * R) :=
  rbind (foldl part_class (Ok (None, 0%N, part0.2)) cs) (fun s =>
    match s.1.1, cs with
    | Some A, c0 :: _ =>
        rbind (foldl (@part_invert A) (Ok (@iv A, s.2)) (iota 0 s.1.2)) (fun t =>
          let ms := zip (iota 0 (size (cs_mem c0))) (cs_mem c0) in
          rbind (foldl (fun st im => foldl (part_write t.1 im.1 im.2) st ms) (Ok part0.1) ms) (fun P => Ok (P, t.2)))
    | _, _ => Err TypeError
    end).

(** L417-425 [get_phiinv(logdet=True, method=...)] with common signals. *)
Definition get_phiinv (cs : seq csclass) (method : string) : result ('M[R]_N * R) :=
  if String.eqb method "cliques" then phiinv_cliques cs
  else if String.eqb method "partition" then phiinv_partition cs
  else if String.eqb method "sparse" then phiinv_sparse cs
  else Err NotImplementedError.
End Partition.
End Phi.
End Common.
