(** Model of KernelMatrix (enterprise/signals/utils.py L229-285; [inv] is in
    ModelLike), of the combined basis and prior of a signal collection
    (signal_base.py L877-977) and of the basis and prior of a GP with a
    selection (gp_signals.py L91-115, L174-180). Numbers are exact reals. *)
From Coq Require Import Reals.
From mathcomp Require Import all_ssreflect all_algebra.
From Verif Require Import RStruct PyBase ModelLinalg ModelNoise ModelLike.
Set Implicit Arguments.
Unset Strict Implicit.
Unset Printing Implicit Defensive.
Import GRing.Theory Num.Theory Order.TTheory.
Local Open Scope ring_scope.

(** * Assignment through index arrays *)

(** An index: an integer array or a slice. *)
Inductive kidx : Type := KArr of seq nat | KSlice of nat & nat.

(** The positions an index selects in an axis of length [N]; numpy clips slices. *)
Definition kpos (N : nat) (idx : kidx) : seq nat :=
  match idx with KArr s => s | KSlice a b => iota (minn a N) (minn b N - minn a N) end.

(** [x[pos] = y]: the element of [y] that ends at position [c]; with repeated
    positions numpy keeps the last one written (also for [x[pos] += y], which
    reads all of [x[pos]] first). *)
Definition last_at (k : nat) (pos : seq nat) (c : nat) : option 'I_k :=
  [pick a : 'I_k | (nth 0%N pos a == c) && [forall b : 'I_k, (a < b)%N ==> (nth 0%N pos b != c)]].

(** Whether [x[idx]] accepts [k] values on an axis of length [N]. An empty
    index array is an array of doubles ([np.array([])]), which numpy refuses.
    Broadcasting of a single value over several positions is not modelled. *)
Definition idx_check (N k : nat) (idx : kidx) : option exn :=
  match idx with
  | KArr s => if (s == [::]) || has (leq N) s then Some IndexError
              else if size s != k then Some ValueError else None
  | KSlice _ _ => if size (kpos N idx) != k then Some ValueError else None
  end.

(** * KernelMatrix *)

(** The array, and, if it is a matrix, [_cliques] (None is -1) and [_clcount]. *)
Record kmat (N : nat) := KMat { kphi : phi_t N; kcl : 'I_N -> option nat; kcount : nat }.

(** utils.py L230-240 [KernelMatrix(init)] for an integer and for an array. *)
Definition knew (N : nat) (phi : phi_t N) : kmat N := KMat phi (fun _ => None) 0.
Definition kzeros (N : nat) : kmat N := knew (PhiD 0).

Definition omax (a b : option nat) : option nat :=
  match a, b with Some x, Some y => Some (maxn x y) | Some x, None => Some x | None, _ => b end.

(** L243-253 [_setcliques(idxs)], on the positions of [idxs]. L253 passes a
    python set to [np.in1d], which makes it an array holding the set itself, so
    that no clique number is found in it and nothing is assigned. *)
Definition ksetcliques (N : nat) (cl : 'I_N -> option nat) (count : nat) (pos : seq nat) :
    result (('I_N -> option nat) * nat) :=
  match [seq cl i | i <- enum 'I_N & val i \in pos] with
  | [::] => Err ValueError
  | c :: cs =>
      match foldl omax c cs with
      | None => Ok ((fun i : 'I_N => if val i \in pos then Some count else cl i), count.+1)
      | Some m => Ok ((fun i : 'I_N => if val i \in pos then Some m else cl i), count)
      end
  end.

(** L256-257 and L272-273. *)
Definition kpromote (N k : nat) (self : kmat N) (other : phi_t k) : kmat N :=
  match kphi self, other with
  | PhiD _, PhiM _ => knew (PhiM (phi_mx (kphi self)))
  | _, _ => self
  end.

(** L255-269 [add] ([op] is addition) and L271-285 [set] ([op] is its second
    argument). For a matrix and a vector, [self[idx, idx]] is the diagonal at
    the positions of an index array, but the whole block for a slice, over
    whose rows the vector is broadcast. *)
Definition kput (op : R -> R -> R) (N k : nat) (self0 : kmat N) (other : phi_t k) (idx : kidx) :
    result (kmat N) :=
  let self := kpromote self0 other in
  let pos := kpos N idx in
  let upd x a := if a is Some y then op x y else x in
  match kphi self, other with
  | PhiD v, PhiD w =>
      if idx_check N k idx is Some e then Err e
      else Ok (KMat (PhiD (\col_i upd (v i ord0) (omap (fun a => w a ord0) (last_at k pos i)))) (kcl self) (kcount self))
  | PhiM A, PhiD w =>
      if idx_check N k idx is Some e then Err e
      else Ok (KMat (PhiM (\matrix_(i, j)
             (if (match idx with KArr _ => i == j | KSlice _ _ => val i \in pos end)
              then upd (A i j) (omap (fun a => w a ord0) (last_at k pos j)) else A i j))) (kcl self) (kcount self))
  | PhiM A, PhiM B =>
      match idx with
      | KArr s => if (s == [::]) || has (leq N) s then Err IndexError else
          rbind (ksetcliques (kcl self) (kcount self) pos) (fun cc =>
          if size s != k then Err ValueError else
          Ok (KMat (PhiM (\matrix_(i, j)
             upd (A i j) (if last_at k pos i is Some a then omap (fun b => B a b) (last_at k pos j) else None)))
             cc.1 cc.2))
      | KSlice _ _ =>
          rbind (ksetcliques (kcl self) (kcount self) pos) (fun cc =>
          if size pos != k then Err ValueError else
          Ok (KMat (PhiM (\matrix_(i, j)
             upd (A i j) (if last_at k pos i is Some a then omap (fun b => B a b) (last_at k pos j) else None)))
             cc.1 cc.2))
      end
  | PhiD v, PhiM _ => Ok self
  end.
Definition kadd := kput (fun x y => x + y)%R.
Definition kset := kput (fun _ y => y).

(** * The combined basis of a signal collection *)

(** A signal with a basis ([get_basis() is not None]), at given parameters: the
    basis and prior, whether it has varying basis parameters, and
    [basis_combine]. The number of columns must not depend on the parameters. *)
Record bsig (n : nat) := BSig
  { bk : nat; bF : 'M[R]_(n, bk); bphi : phi_t bk; bpar : bool; bcomb : bool }.

Section Combine.
Variable n : nat.
(** [hash(column.tobytes())] *)
Variable hash : 'cV[R]_n -> nat.

(** signal_base.py L897-912, one turn: [hashlist], [cc] and [idx[signal]]. *)
Definition col_step (comb : bool) (st : seq nat * nat * seq nat) (c : 'cV[R]_n) : seq nat * nat * seq nat :=
  let: (hl, cc, idx) := st in
  let h := hash c in
  if comb && (h \in hl) then (hl, cc, rcons idx (index h hl))
  else (rcons hl h, cc.+1, rcons idx cc).

(** L888-917, one turn for a signal with a basis. *)
Definition sig_step (st : seq nat * nat * seq (seq nat)) (s : bsig n) : seq nat * nat * seq (seq nat) :=
  let: (hl, cc, idxs) := st in
  if bpar s then (hl, (cc + bk s)%N, rcons idxs (iota cc (bk s)))
  else let: (hl', cc', idx) := foldl (col_step (bcomb s)) (hl, cc, [::]) [seq col j (bF s) | j <- enum 'I_(bk s)] in
       (hl', cc', rcons idxs idx).

(** L877-923 [_combine_basis_columns]: the column maps of the signals with a
    basis, in order, and the number of columns of [_Fmat]. *)
Definition combine_idx (sigs : seq (bsig n)) : seq (seq nat) := (foldl sig_step ([::], 0%N, [::]) sigs).2.
Definition combine_ncol (sigs : seq (bsig n)) : nat := size (undup (flatten (combine_idx sigs))).

(** [Fmat[:, idx] = F] *)
Definition assign_cols (N k : nat) (T : 'M[R]_(n, N)) (F : 'M[R]_(n, k)) (s : seq nat) : result 'M[R]_(n, N) :=
  if idx_check N k (KArr s) is Some e then Err e
  else Ok (\matrix_(i, c) (if last_at k s c is Some a then F i a else T i c)).

(** L951-961 [get_basis]; None if no signal has a basis. *)
Definition coll_basis (sigs : seq (bsig n)) : result (option 'M[R]_(n, combine_ncol sigs)) :=
  if sigs is [::] then Ok None else
  rmap Some (foldl (fun r si => rbind r (fun T => assign_cols T (bF si.1) si.2))
                   (Ok 0) (zip sigs (combine_idx sigs))).

(** L967-977 [get_phi]. *)
Definition coll_phi (sigs : seq (bsig n)) : result (option (kmat (combine_ncol sigs))) :=
  if sigs is [::] then Ok None else
  rmap Some (foldl (fun r si => rbind r (fun phi => kadd phi (bphi si.1) (KArr si.2)))
                   (Ok (kzeros _)) (zip sigs (combine_idx sigs))).
End Combine.

(** * A GP with a selection *)

(** One selection: its mask, its basis (called with the mask: one row per
    selected TOA) and its prior. *)
Record selblk (n : nat) := SelBlk
  { sb_mask : pred 'I_n; sb_m : nat; sb_k : nat; sb_F : 'M[R]_(sb_m, sb_k); sb_phi : phi_t sb_k }.

Section SelGP.
Variable n : nat.

(** gp_signals.py L102-115: number of columns and slices, in sorted key order. *)
Definition sel_ncol (bs : seq (selblk n)) : nat := sumn [seq sb_k b | b <- bs].
Fixpoint sel_slices (off : nat) (bs : seq (selblk n)) : seq (nat * nat) :=
  if bs is b :: bs' then (off, (sb_k b + off)%N) :: sel_slices (sb_k b + off) bs' else [::].

(** L113 [self._basis[mask, a:b] = Fmat] *)
Definition assign_block (N : nat) (T : 'M[R]_(n, N)) (b : selblk n) (sl : nat * nat) : result 'M[R]_(n, N) :=
  let rws := [seq val i | i <- enum 'I_n & sb_mask b i] in
  let cls := kpos N (KSlice sl.1 sl.2) in
  if (size rws != sb_m b) || (size cls != sb_k b) then Err ValueError
  else Ok (\matrix_(i, c)
             (match last_at (sb_m b) rws i, last_at (sb_k b) cls c with
              | Some p, Some q => sb_F b p q | _, _ => T i c end)).

(** L97-115 [_construct_basis]; the new [_phi] is [kzeros]. *)
Definition sel_basis (bs : seq (selblk n)) : result 'M[R]_(n, sel_ncol bs) :=
  foldl (fun r bl => rbind r (fun T => assign_block T bl.1 bl.2)) (Ok 0) (zip bs (sel_slices 0 bs)).

(** L174-180 [get_phi], given the [_phi] left by the last call. *)
Definition sel_phi (bs : seq (selblk n)) (self : kmat (sel_ncol bs)) : result (kmat (sel_ncol bs)) :=
  foldl (fun r bl => rbind r (fun phi => kset phi (sb_phi bl.1) (KSlice bl.2.1 bl.2.2)))
        (Ok self) (zip bs (sel_slices 0 bs)).
End SelGP.
