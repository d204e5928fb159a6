(** Model of the white-noise matrix objects: ndarray_alt, ShermanMorrison,
    BlockMatrix, csc_matrix_alt (enterprise/signals/signal_base.py L1074-1334)
    and MarginalizingNmat (gp_signals.py L822-887), with their [__add__],
    [__radd__] and [solve]. Numbers are exact reals; [n] is the number of TOAs. *)
From Coq Require Import Reals.
From mathcomp Require Import all_ssreflect all_algebra.
From Verif Require Import RStruct PyBase ModelLinalg.
Set Implicit Arguments.
Unset Strict Implicit.
Unset Printing Implicit Defensive.
Import GRing.Theory Num.Theory Order.TTheory.
Local Open Scope ring_scope.

(** A numpy array with a first axis of length [n], one- or two-dimensional. *)
Inductive arr (n : nat) : Type := A1 of 'cV[R]_n | A2 (k : nat) of 'M[R]_(n, k).
Arguments A2 {n k} _.

(** A returned number, vector or matrix (by rows). *)
Inductive out : Type := OS of R | OV of seq R | OM of seq (seq R).
Definition vec (k : nat) (x : 'cV[R]_k) : seq R := [seq x i ord0 | i <- enum 'I_k].
Definition rows (k l : nat) (X : 'M[R]_(k, l)) : seq (seq R) :=
  [seq [seq X i j | j <- enum 'I_l] | i <- enum 'I_k].
Definition ret (n : nat) (a : arr n) : out := match a with A1 x => OV (vec x) | A2 _ X => OM (rows X) end.

(** The argument [left_array]: absent, the same object as the other argument,
    or another array. *)
Inductive larr (n : nat) : Type := LNone | LSame | LArr of arr n.
Arguments LNone {n}.
Arguments LSame {n}.
Definition left_of (n : nat) (a : arr n) (l : larr n) : option (arr n) :=
  match l with LNone => None | LSame => Some a | LArr b => Some b end.

Definition dot (n : nat) (x y : 'cV[R]_n) : R := \sum_i x i ord0 * y i ord0.

(** [np.dot(left_array.T, mult)] if there is a left array, else [mult]. *)
Definition left_dot (n : nat) (l : option (arr n)) (mult : arr n) : out :=
  match l, mult with
  | None, _ => ret mult
  | Some (A1 y), A1 m => OS (dot y m)
  | Some (A1 y), A2 _ m => OV (vec (m^T *m y))
  | Some (A2 _ Z), A1 m => OV (vec (Z^T *m m))
  | Some (A2 _ Z), A2 _ m => OM (rows (Z^T *m m))
  end.

(** * ndarray_alt *)

(** signal_base.py L1125-1128: division of vectors and of rows. *)
Definition vec_div (n k : nat) (X : 'M[R]_(n, k)) (v : 'cV[R]_n) : 'M[R]_(n, k) :=
  \matrix_(i, j) (X i j / v i ord0).
Definition arr_div (n : nat) (a : arr n) (v : 'cV[R]_n) : arr n :=
  match a with A1 x => A1 (vec_div x v) | A2 _ X => A2 (vec_div X v) end.
(** L1132 *)
Definition vec_logdet (n : nat) (v : 'cV[R]_n) : R := \sum_i ln (v i ord0).

(** * ShermanMorrison *)
Section SM.
Variable n : nat.
Variables (bs : seq (seq 'I_n * R)) (nvec : 'cV[R]_n).

(** [np.einsum("i->", niblock)] and [np.dot(niblock, xblock)]. *)
Definition nisum (idx : seq 'I_n) : R := \sum_(i <- idx) (nvec i ord0)^-1.
Definition nidot (idx : seq 'I_n) (x : 'cV[R]_n) : R := \sum_(i <- idx) (nvec i ord0)^-1 * x i ord0.
Definition beta (idx : seq 'I_n) (jv : R) : R := (nisum idx + jv^-1)^-1.

(** signal_base.py L1255-1265 [_solve_D1]; [bs] is [zip(self._idxs, self._jvec)]. *)
Definition sm_D1 (x : 'cV[R]_n) : 'cV[R]_n :=
  foldl (fun (Nx : 'cV[R]_n) b =>
           if (1 < size b.1)%N then
             \col_i (if i \in b.1 then Nx i ord0 - beta b.1 b.2 * nidot b.1 x * (nvec i ord0)^-1
                     else Nx i ord0)
           else Nx)
        (vec_div x nvec) bs.

(** L1267-1281 [_solve_1D1]. *)
Definition sm_1D1 (x y : 'cV[R]_n) : R :=
  foldl (fun yNx b =>
           if (1 < size b.1)%N then yNx - beta b.1 b.2 * nidot b.1 x * nidot b.1 y else yNx)
        (dot y (vec_div x nvec)) bs.

(** L1283-1298 [_solve_2D2]. *)
Definition sm_2D2 (k l : nat) (X : 'M[R]_(n, l)) (Z : 'M[R]_(n, k)) : 'M[R]_(k, l) :=
  foldl (fun (ZNX : 'M[R]_(k, l)) b =>
           if (1 < size b.1)%N then
             \matrix_(p, q) (ZNX p q - beta b.1 b.2 * (nidot b.1 (col p Z) * nidot b.1 (col q X)))
           else ZNX)
        (\matrix_(p, q) (\sum_i (Z i p / nvec i ord0) * X i q)) bs.

(** L1300-1310 [_get_logdet]. *)
Definition sm_logdet : R :=
  foldl (fun ld b => if (1 < size b.1)%N then ld + (ln b.2 - ln (beta b.1 b.2)) else ld)
        (\sum_i ln (nvec i ord0)) bs.
End SM.

(** * BlockMatrix *)
Section Block.
Variable n : nat.
(** A list of epochs with their blocks. *)
Definition blocks := seq {idx : seq 'I_n & 'M[R]_(size idx)}.
Variables (bs : blocks) (nvec : 'cV[R]_n).

(** [X[idx, :]] and [nvec[idx]] *)
Definition take_rows (k : nat) (idx : seq 'I_n) (X : 'M[R]_(n, k)) : 'M[R]_(size idx, k) :=
  \matrix_(a, j) X (tnth (in_tuple idx) a) j.

(** L1142-1147: indices in no block. *)
Definition rest_idx : seq 'I_n := [seq i <- enum 'I_n | i \notin flatten [seq projT1 b | b <- bs]].

(** [block + np.diag(self._nvec[idx])] *)
Definition blk_sum (idx : seq 'I_n) (B : 'M[R]_(size idx)) : 'M[R]_(size idx) :=
  B + diag_mx (take_rows idx nvec)^T.

(** L1171-1184: [bx] for one block. *)
Definition blk_solve (idx : seq 'I_n) (B : 'M[R]_(size idx)) (k : nat) (X : 'M[R]_(n, k))
    : result 'M[R]_(size idx, k) :=
  if (1 < size idx)%N then
    if chol (blk_sum B) is Some U then Ok (cho_solve U (take_rows idx X)) else Err LinAlgError
  else Ok (vec_div (take_rows idx X) (take_rows idx nvec)).

(** L1160-1186 [_solve_ZNX] before the final squeeze. *)
Definition blk_ZNX (k l : nat) (X : 'M[R]_(n, l)) (Z : 'M[R]_(n, k)) : result 'M[R]_(k, l) :=
  rmap (fun ZNX => ZNX +
          (take_rows rest_idx Z)^T *m vec_div (take_rows rest_idx X) (take_rows rest_idx nvec))
    (foldl (fun acc (b : {idx : seq 'I_n & 'M[R]_(size idx)}) =>
              rbind acc (fun ZNX =>
                rmap (fun bx => ZNX + (take_rows (projT1 b) Z)^T *m bx) (blk_solve (projT2 b) X)))
           (Ok 0) bs).

(** L1188-1202 [_solve_NX] before the final squeeze: [NX[idx] = ...]. *)
Definition put_rows (k : nat) (idx : seq 'I_n) (Y : 'M[R]_(size idx, k)) (X : 'M[R]_(n, k)) : 'M[R]_(n, k) :=
  \matrix_(i, j) (if [pick a | tnth (in_tuple idx) a == i] is Some a then Y a j else X i j).
Definition blk_NX (k : nat) (X : 'M[R]_(n, k)) : result 'M[R]_(n, k) :=
  foldl (fun acc (b : {idx : seq 'I_n & 'M[R]_(size idx)}) =>
           rbind acc (fun NX =>
             if (1 < size (projT1 b))%N then rmap (fun Y => put_rows Y NX) (blk_solve (projT2 b) X) else Ok NX))
        (Ok (vec_div X nvec)) bs.

(** L1204-1219 [_get_logdet]. *)
Definition blk_logdet : result R :=
  foldl (fun acc (b : {idx : seq 'I_n & 'M[R]_(size idx)}) =>
           rbind acc (fun ld =>
             if (1 < size (projT1 b))%N then
               if chol (blk_sum (projT2 b)) is Some U then Ok (ld + cho_logdet U) else Err LinAlgError
             else Ok (ld + \sum_(i <- projT1 b) ln (nvec i ord0))))
        (Ok (\sum_(i <- rest_idx) ln (nvec i ord0))) bs.
End Block.

(** [squeeze] of a two-dimensional array. *)
Definition squeeze (k l : nat) (X : 'M[R]_(k, l)) : out :=
  match rows X with
  | [:: r] => if r is [:: x] then OS x else OV r
  | rs => if l == 1%N then OV (flatten rs) else OM rs
  end.
(** L1186: [ZNX.squeeze() if len(ZNX) > 1 else float(ZNX)] *)
Definition blk_ret (k l : nat) (X : 'M[R]_(k, l)) : result out :=
  match rows X with
  | [:: [:: x]] => Ok (OS x)
  | [::] | [:: _] => Err TypeError
  | _ => Ok (squeeze X)
  end.

(** * Noise objects *)
Section Objects.
Variable n : nat.

Inductive nobj : Type :=
| NScal of R                                    (* an int or float *)
| NVec of 'cV[R]_n                              (* ndarray_alt *)
| NSM of seq (seq 'I_n * R) & nobj              (* ShermanMorrison, with its nvec *)
| NBlk of blocks n & nobj                       (* BlockMatrix, with its nvec *)
| NSp of 'M[R]_n                                (* csc_matrix_alt *)
| NMarg (k : nat) of 'M[R]_(n, k) & nobj        (* MarginalizingNmat(Mmat, Nmat) *)
| NObjs.                                        (* a numpy array of objects *)

(** signal_base.py L1137-1147 [BlockMatrix.__init__]: [np.any(nvec != 0)] is
    true for an object, whose [len] raises TypeError, and raises ValueError for
    a sparse matrix; [np.concatenate] of no slices raises ValueError. *)
Definition mk_block (bs : blocks n) (nvec : nobj) : result nobj :=
  match nvec with
  | NScal c => if c == 0 then Ok (NBlk bs nvec) else Err TypeError
  | NVec v => if (v != 0) && nilp bs then Err ValueError else Ok (NBlk bs nvec)
  | NSp _ => Err ValueError
  | NSM _ _ | NBlk _ _ | NMarg _ _ _ => Err TypeError
  | NObjs => Ok (NBlk bs nvec)
  end.

Definition diag (v : 'cV[R]_n) : 'M[R]_n := diag_mx v^T.

(** [a + v] for an array [v] on the right. *)
Fixpoint addV (a : nobj) (v : 'cV[R]_n) : result nobj :=
  match a with
  | NScal c => Ok (NVec (const_mx c + v))
  | NVec w => Ok (NVec (w + v))
  | NSM bs nv => rmap (NSM bs) (addV nv v)                 (* L1244-1246 *)
  | NBlk bs nv => rbind (addV nv v) (mk_block bs)          (* L1149-1151 *)
  | NSp A => Ok (NSp (A + diag v))                         (* L1079-1086 *)
  | NMarg k M N => rmap (NMarg M) (addV N v)               (* gp_signals.py L830-831 *)
  | NObjs => Ok NObjs
  end.

(** [a + c] for a number [c] on the right. *)
Fixpoint addS (a : nobj) (c : R) : result nobj :=
  match a with
  | NScal d => Ok (NScal (d + c))
  | NVec w => Ok (NVec (w + const_mx c))
  | NSM bs nv => rmap (NSM bs) (addS nv c)
  | NBlk bs nv => rbind (addS nv c) (mk_block bs)
  | NSp A => if c == 0 then Ok (NSp A) else Err NotImplementedError
  | NMarg _ _ _ => if c == 0 then Ok a else Err TypeError  (* gp_signals.py L832-835 *)
  | NObjs => Ok NObjs
  end.

(** [a + A] for a sparse matrix [A] on the right. *)
Fixpoint addSp (a : nobj) (A : 'M[R]_n) : result nobj :=
  match a with
  | NScal c => if c == 0 then Ok (NSp A) else Err TypeError  (* A.__radd__, L1091-1095 *)
  | NVec v => Ok (NSp (A + diag v))                          (* numpy defers to A.__radd__ *)
  | NSM bs nv => rmap (NSM bs) (addSp nv A)
  | NBlk bs nv => rbind (addSp nv A) (mk_block bs)
  | NSp B => Ok (NSp (B + A))
  | NMarg k M N => rmap (NMarg M) (addSp N A)
  | NObjs => Ok NObjs
  end.

(** python's [a + b]. Between an ndarray_alt and an object numpy adds element by
    element, which raises TypeError in [__radd__] as soon as an element is not
    zero; ndarray_alt.__add__ (L1117-1122) then returns [b + a]. An array of
    zeros instead becomes an array of objects (from then on not followed
    further). *)
Fixpoint nadd (a b : nobj) : result nobj :=
  match a with
  | NScal c =>
      match b with
      | NSM _ _ | NBlk _ _ | NSp _ => if c == 0 then addS b c else Err TypeError
      | _ => addS b c
      end
  | NVec v =>
      match b with
      | NScal c => Ok (NVec (v + const_mx c))
      | NVec w => Ok (NVec (v + w))
      | NSp A => Ok (NSp (A + diag v))
      | NSM _ _ | NBlk _ _ | NMarg _ _ _ => if v == 0 then Ok NObjs else addV b v
      | NObjs => Ok NObjs
      end
  | NSM bs nv => rmap (NSM bs) (nadd nv b)
  | NBlk bs nv => rbind (nadd nv b) (mk_block bs)
  | NSp A =>
      match b with
      | NScal c => if c == 0 then Ok a else Err NotImplementedError
      | NVec v => Ok (NSp (A + diag v))
      | NSp B => Ok (NSp (A + B))
      | NSM _ _ | NBlk _ _ => Err ValueError   (* their __radd__: truth value of [A == 0] *)
      | NMarg k M N => rmap (NMarg M) (addSp N A)
      | NObjs => Ok NObjs
      end
  | NMarg k M N =>                              (* gp_signals.py L827-838 *)
      match b with
      | NMarg _ _ _ => Err ValueError
      | NScal c => if c == 0 then Ok a else Err TypeError
      | _ => rmap (NMarg M) (nadd N b)
      end
  | NObjs => Ok NObjs
  end.

(** white_signals.py L255-287: what the methods of EcorrKernelNoise return for
    epochs with their squared amplitudes. [np.ix_] assignments overwrite; the
    block method builds [np.ones((nb, nb)) * jv]. *)
Definition ecorr_sm (bs : seq (seq 'I_n * R)) : nobj := NSM bs (NScal 0).
Definition ecorr_blocks (bs : seq (seq 'I_n * R)) : blocks n :=
  [seq existT (fun idx : seq 'I_n => 'M[R]_(size idx)) b.1 (const_mx b.2) | b <- bs].
Definition ecorr_block (bs : seq (seq 'I_n * R)) : result nobj := mk_block (ecorr_blocks bs) (NScal 0).
Definition ecorr_sparse (bs : seq (seq 'I_n * R)) : nobj :=
  NSp (foldl (fun (Ns : 'M[R]_n) b =>
                if (1 < size b.1)%N then
                  \matrix_(i, k) (if (i \in b.1) && (k \in b.1) then b.2 else Ns i k)
                else Ns) 0 bs).

(** signal_base.py L933-936 [SignalCollection.get_ndiag]: [sum] of the signals'
    matrices, starting from the integer 0. *)
Definition get_ndiag (l : seq nobj) : result nobj :=
  foldl (fun acc b => rbind acc (fun a => nadd a b)) (Ok (NScal 0)) l.

(** * solve *)

(** The products the objects compute: [y^T N^-1 x], [Z^T N^-1 x], [Z^T N^-1 X]
    and the log determinant. An object whose [nvec] is not an array cannot
    divide by it or index it: TypeError. *)
Definition solve11 (o : nobj) (y x : 'cV[R]_n) : result R :=
  match o with
  | NVec v => Ok (dot y (vec_div x v))
  | NSM bs (NVec v) => Ok (sm_1D1 bs v x y)
  | NBlk bs (NVec v) => if v == 0 then Err AttributeError
                        else rmap (fun X : 'M_1 => X ord0 ord0) (blk_ZNX bs v x y)
  | NSp A => if chol A is Some U then Ok (dot y (cho_solve U x)) else Err CholmodError
  | NScal _ => Err AttributeError
  | _ => Err TypeError
  end.
Definition solve21 (o : nobj) (k : nat) (Z : 'M[R]_(n, k)) (x : 'cV[R]_n) : result 'cV[R]_k :=
  match o with
  | NVec v => Ok (Z^T *m vec_div x v)
  | NSM bs (NVec v) => Ok (Z^T *m sm_D1 bs v x)
  | NBlk bs (NVec v) => if v == 0 then Err AttributeError else blk_ZNX bs v x Z
  | NSp A => if chol A is Some U then Ok (Z^T *m cho_solve U x) else Err CholmodError
  | NScal _ => Err AttributeError
  | _ => Err TypeError
  end.
Definition solve22 (o : nobj) (k l : nat) (Z : 'M[R]_(n, k)) (X : 'M[R]_(n, l)) : result 'M[R]_(k, l) :=
  match o with
  | NVec v => Ok (Z^T *m vec_div X v)
  | NSM bs (NVec v) => Ok (sm_2D2 bs v X Z)
  | NBlk bs (NVec v) => if v == 0 then Err AttributeError else blk_ZNX bs v X Z
  | NSp A => if chol A is Some U then Ok (Z^T *m cho_solve U X) else Err CholmodError
  | NScal _ => Err AttributeError
  | _ => Err TypeError
  end.
Definition logdet_of (o : nobj) : result R :=
  match o with
  | NVec v => Ok (vec_logdet v)
  | NSM bs (NVec v) => Ok (sm_logdet bs v)
  | NBlk bs (NVec v) => if v == 0 then Err AttributeError else blk_logdet bs v
  | NSp A => if chol A is Some U then Ok (cho_logdet U) else Err CholmodError
  | NScal _ => Err AttributeError
  | _ => Err TypeError
  end.

Definition with_logdet (b : bool) (ld : result R) (r : result out) : result (out * option R) :=
  rbind r (fun x => if b then rmap (fun d => (x, Some d)) ld else Ok (x, None)).

(** gp_signals.py L860-887 [MarginalizingNmat.solve]; [MNr], [MNF], [MNMMNF]
    (L844-857) are recomputed, their memoisation being modelled elsewhere. *)
Section Marg.
Variables (k : nat) (M : 'M[R]_(n, k)) (N : nobj).
(** L841-844 [cf] *)
Definition marg_cf : result 'M[R]_k :=
  rbind (solve22 N M M) (fun MNM => if chol MNM is Some U then Ok U else Err CholmodError).
(** [self.Mprior] *)
Definition marg_prior : R := k%:R * ln (pow 10 40).

Definition marg_rr (r : 'cV[R]_n) : result R :=
  rbind (solve11 N r r) (fun rNr => rbind (solve21 N M r) (fun MNr => rbind marg_cf (fun cf =>
    Ok (rNr - dot MNr (cho_solve cf MNr))))).
Definition marg_logdet : result R :=
  rbind (logdet_of N) (fun ld => rbind marg_cf (fun cf => Ok (ld + cho_logdet cf + marg_prior))).
Definition marg_Tr (l : nat) (T : 'M[R]_(n, l)) (r : 'cV[R]_n) : result 'cV[R]_l :=
  rbind (solve21 N T r) (fun TNr => rbind marg_cf (fun cf =>
    rbind (solve22 N M T) (fun MNF => rbind (solve21 N M r) (fun MNr =>
      Ok (TNr - (cho_solve cf MNF)^T *m MNr))))).
Definition marg_LT (l m : nat) (L : 'M[R]_(n, l)) (T : 'M[R]_(n, m)) : result 'M[R]_(l, m) :=
  rbind (solve22 N L T) (fun LNT => rbind marg_cf (fun cf =>
    rbind (solve22 N M L) (fun MNL => rbind (solve22 N M T) (fun MNF =>
      Ok (LNT - MNL^T *m cho_solve cf MNF))))).
Definition marg_11 (y x : 'cV[R]_n) : result R :=
  rbind (solve11 N y x) (fun yNx => rbind marg_cf (fun cf =>
    rbind (solve21 N M y) (fun MNy => rbind (solve21 N M x) (fun MNx =>
      Ok (yNx - dot MNy (cho_solve cf MNx)))))).

Definition marg_solve (right : arr n) (left : larr n) (ld : bool) : result (out * option R) :=
  match right, left with
  | A1 r, LSame => with_logdet ld marg_logdet (rmap OS (marg_rr r))
  | A1 r, LArr (A2 _ T) => rmap (fun x => (OV (vec x), None)) (marg_Tr T r)
  | A2 _ T, LSame => rmap (fun X => (OM (rows X), None)) (marg_LT T T)
  | A1 x, LArr (A1 y) => rmap (fun z => (OS z, None)) (marg_11 y x)
  | A2 _ T, LArr (A2 _ L) => rmap (fun X => (OM (rows X), None)) (marg_LT L T)
  | _, _ => Err ValueError
  end.
End Marg.

(** [o.solve(other, left_array, logdet)]: signal_base.py L1097-1103, L1124-1133,
    L1221-1232, L1312-1334. *)
Definition solve (o : nobj) (other : arr n) (left : larr n) (ld : bool) : result (out * option R) :=
  let l := left_of other left in
  match o with
  | NVec v => with_logdet ld (logdet_of o) (Ok (left_dot l (arr_div other v)))
  | NSp A =>
      if chol A is Some U then
        with_logdet ld (logdet_of o)
          (Ok (left_dot l (match other with A1 x => A1 (cho_solve U x) | A2 _ X => A2 (cho_solve U X) end)))
      else Err CholmodError
  | NSM bs (NVec v) =>
      with_logdet ld (logdet_of o)
        match other, l with
        | A1 x, None => Ok (OV (vec (sm_D1 bs v x)))
        | A1 x, Some (A1 y) => Ok (OS (sm_1D1 bs v x y))
        | A1 x, Some (A2 _ Z) => Ok (OV (vec (Z^T *m sm_D1 bs v x)))
        | A2 _ X, None => Err NotImplementedError
        | A2 _ X, Some (A2 _ Z) => Ok (OM (rows (sm_2D2 bs v X Z)))
        | A2 _ X, Some (A1 y) => Ok (OV (vec (X^T *m sm_D1 bs v y)))
        end
  | NBlk bs (NVec v) =>
      if v == 0 then Err AttributeError else
      with_logdet ld (logdet_of o)
        match other, l with
        | A1 x, None => rmap (fun X => squeeze X) (blk_NX bs v x)
        | A2 _ X, None => rmap (fun X => squeeze X) (blk_NX bs v X)
        | A1 x, Some (A1 y) => rbind (blk_ZNX bs v x y) (fun X => blk_ret X)
        | A1 x, Some (A2 _ Z) => rbind (blk_ZNX bs v x Z) (fun X => blk_ret X)
        | A2 _ X, Some (A1 y) => rbind (blk_ZNX bs v X y) (fun X => blk_ret X)
        | A2 _ X, Some (A2 _ Z) => rbind (blk_ZNX bs v X Z) (fun X => blk_ret X)
        end
  | NMarg k M N => marg_solve M N other left ld
  | NScal _ => Err AttributeError
  | _ => Err TypeError
  end.
End Objects.
Arguments NScal {n} _.
Arguments NObjs {n}.
