(** The arithmetic of collections and arrays (enterprise/signals/signal_base.py L776-1006,
    L180-264, L415-673) for the objects of ModelColl.v: noise objects, delays, bases,
    priors and results carry their sizes, and arrays of different sizes are refused. The
    operations are those of ModelNoise.v, ModelKernel.v, ModelPhi.v and ModelLike.v.
    Numbers are exact reals. *)
From Coq Require Import Reals String.
From mathcomp Require Import all_ssreflect all_algebra.
From Verif Require Import RStruct PyBase ModelCache ModelLinalg ModelNoise ModelLike ModelKernel ModelPhi ModelColl.
Set Implicit Arguments.
Unset Strict Implicit.
Unset Printing Implicit Defensive.
Import GRing.Theory Num.Theory Order.TTheory.
Local Open Scope seq_scope.
Local Open Scope ring_scope.

(** A value of size [n] as one of size [m]; arrays of different lengths are refused. *)
Definition resize (T : nat -> Type) (n m : nat) (x : T n) : result (T m) :=
  if n =P m is ReflectT e then Ok (eq_rect n T x m e) else Err ValueError.

(** A noise object, a delay (the number zero or an array), a basis, a prior of a signal, a
    prior of a pulsar and a cross term: the overlap times the prior *)
Definition nz : Type := {n : nat & nobj n}.
Inductive dz : Type := DzZero | DzVec (n : nat) of 'cV[R]_n.
Record fz := Fz { fz_n : nat; fz_k : nat; fz_A : 'M[R]_(fz_n, fz_k) }.
Definition pz : Type := {k : nat & phi_t k}.
Definition phz : Type := {k : nat & kmat k}.
Record cz := Cz { cz_orf : R; cz_prior : pz }.
(** Inverses: of each pulsar's prior, or of the prior of the array with the numbers of
    columns of the pulsars *)
Inductive qz : Type :=
| QList of seq (option {k : nat & (phi_t k * R)%type})
| QBig (ks : seq nat) of 'M[R]_(sumn ks) & R.

(** [sum(ndiag ...)] (L936), starting from the number zero *)
Definition nz_sum (l : seq nz) : result nz :=
  let n := if l is x :: _ then projT1 x else 0%N in
  rbind (rmapM (fun x : nz => resize n (projT2 x)) l) (fun l => rmap (existT nobj n) (ModelNoise.get_ndiag l)).
(** [sum(delay ...)] (L941) *)
Definition dz_add (a b : dz) : result dz :=
  match a, b with
  | DzZero, _ => Ok b
  | _, DzZero => Ok a
  | DzVec n v, DzVec _ w => rmap (fun w => DzVec (v + w)) (resize (T := fun n => 'cV[R]_n) n w)
  end.
Definition dz_sum (l : seq dz) : result dz := foldl (fun acc x => rbind acc (fun a => dz_add a x)) (Ok DzZero) l.
(** L945; residuals are an array. *)
Definition dz_minus (r d : dz) : result dz :=
  match r, d with
  | DzZero, _ => Err TypeError
  | DzVec n v, DzZero => Ok r
  | DzVec n v, DzVec _ w => rmap (fun w => DzVec (v - w)) (resize (T := fun n => 'cV[R]_n) n w)
  end.

Section Arith.
(** [hash(column.tobytes())] and [np.linalg.svd] *)
Variable hash : forall n, 'cV[R]_n -> nat.
Variable svd : forall k, 'M[R]_k -> 'M[R]_k * 'cV[R]_k.

(** L887-923: [nrow], [hashlist], [cc] and all indices *)
Definition lz : Type := (nat * (seq nat * nat) * seq nat)%type.
Definition lz_step (st : lz) (F : fz) (par comb : bool) : lz * seq nat :=
  let: (_, (hl, cc), ix) := st in
  if par then ((fz_n F, (hl, (cc + fz_k F)%N), ix ++ iota cc (fz_k F)), iota cc (fz_k F))
  else let: (hl', cc', idx) := foldl (col_step (@hash _) comb) (hl, cc, [::]) [seq col j (fz_A F) | j <- enum 'I_(fz_k F)] in
       ((fz_n F, (hl', cc'), ix ++ idx), idx).
Definition lz_end (st : lz) : fz := Fz (0 : 'M[R]_(st.1.1, size (undup st.2))).
(** L955, L959 *)
Definition fz_zeros (F : fz) : fz := Fz (0 : 'M[R]_(fz_n F, fz_k F)).
Definition fz_place (T : fz) (idx : seq nat) (F : fz) : result fz :=
  rbind (resize (T := fun n => 'M[R]_(n, fz_k F)) (fz_n T) (fz_A F)) (fun A => rmap (fun X => Fz X) (assign_cols (fz_A T) A idx)).
(** L971, L975 *)
Definition phz_new (F : fz) : phz := existT kmat (fz_k F) (kzeros (fz_k F)).
Definition phz_add (K : phz) (phi : pz) (idx : seq nat) : result phz :=
  rmap (existT kmat (projT1 K)) (kadd (projT2 K) (projT2 phi) (KArr idx)).
(** L988, L996, L1002 *)
Definition array_of (n : nat) (r : dz) : result 'cV[R]_n :=
  if r is DzVec m v then resize (T := fun n => 'cV[R]_n) n v else Err TypeError.
Definition z_TNr (N : nz) (r : dz) (T : fz) : result out :=
  rbind (resize (fz_n T) (projT2 N)) (fun N => rbind (array_of (fz_n T) r) (fun r =>
  rmap (fun x => x.1) (solve N (A1 r) (LArr (A2 (fz_A T))) false))).
Definition z_TNT (N : nz) (T : fz) : result out :=
  rbind (resize (fz_n T) (projT2 N)) (fun N => rmap (fun x => x.1) (solve N (A2 (fz_A T)) LSame false)).
Definition z_rNr (N : nz) (r : dz) : result (R * R) :=
  rbind (array_of (projT1 N) r) (fun r =>
  rbind (solve (projT2 N) (A1 r) LSame true) (fun x => if x is (OS q, Some ld) then Ok (q, ld) else Err TypeError)).

(** L415-425 *)
Definition known_method (method : string) : bool :=
  [|| String.eqb method "cliques", String.eqb method "partition" | String.eqb method "sparse"].
(** The common signals of a class with the cross terms of its pairs (L635 in the order of
    [pairs_of]): columns from the layouts, priors and overlaps from the terms. Positions
    are the numbers of the signals in the class. The prior of the last signal is asked for
    by no pair; it is filled in from the pair with the first. *)
Definition pair_terms (ms : seq (nat * nat)) (xs : seq cz) (i j : nat) : option cz :=
  let ijs := pairs_of (iota 0 (size ms)) in
  if (index (i, j) ijs < size xs)%N then Some (nth (Cz 0 (existT phi_t 0%N (PhiD 0))) xs (index (i, j) ijs)) else None.
Definition class_z (ls : seq (layout fz (seq nat))) (ms : seq (nat * nat)) (xs : seq cz) : csclass nat :=
  CsClass (fun i j => if pair_terms ms xs i j is Some x then cz_orf x else 0)
    [seq (let a := im.1 in let ij := im.2 in
          let idx := if nth None (nth ([::], None) ls ij.1).1 ij.2 is Some s then s else [::] in
          let x := if pair_terms ms xs a a.+1 is Some x then cz_prior x
                   else if pair_terms ms xs 0 a is Some x then cz_prior x else existT phi_t 0%N (PhiD 0) in
          @Member nat ij.1 idx (projT1 x) (projT2 x) a)
     | im <- zip (iota 0 (size ms)) ms].
Fixpoint classes_z (ls : seq (layout fz (seq nat))) (cs : seq (nat * seq (nat * nat))) (xs : seq cz) : seq (csclass nat) :=
  if cs is (_, ms) :: cs' then
    let k := size (pairs_of ms) in class_z ls ms (take k xs) :: classes_z ls cs' (drop k xs)
  else [::].
(** L415-533: without common signals a list, with them one matrix *)
Definition z_invert (method : string) (ls : seq (layout fz (seq nat))) (phis : seq (option phz)) (cs : seq (nat * seq (nat * nat))) (xs : seq cz) : result qz :=
  if ~~ known_method method then Err NotImplementedError
  else if cs is [::] then Ok (QList [seq omap (fun K : phz => existT (fun k => (phi_t k * R)%type) (projT1 K) (kinv svd (kphi (projT2 K)))) o | o <- phis])
  else rmap (fun x => @QBig [seq psz o | o <- phis] x.1 x.2) (ModelPhi.get_phiinv phis svd (classes_z ls cs xs) method).

(** L247-262 *)
Fixpoint z_loop (l : seq (option out * (option out * option {k : nat & (phi_t k * R)%type}))) (acc : R) : result lval :=
  match l with
  | [::] => Ok (Fin acc)
  | (None, _) :: l => z_loop l acc
  | (Some TNr, (Some TNT, Some pl)) :: l => rbind (term TNr TNT (projT2 pl)) (fun t => if t is Some x then z_loop l (acc + x) else Ok NegInf)
  | _ :: _ => Err TypeError
  end.
(** L187-195 for given numbers of columns *)
Fixpoint z_block (ks : seq nat) : seq (option out) -> result 'M[R]_(sumn ks) :=
  match ks return seq (option out) -> result 'M[R]_(sumn ks) with
  | [::] => fun _ => Ok 0
  | k :: ks => fun os =>
      if os is Some o :: os then rbind (out_mx k o) (fun A => rmap (fun B => block_mx A 0 0 B) (z_block ks os)) else Err TypeError
  end.
Fixpoint z_concat (ks : seq nat) : seq (option out) -> result 'cV[R]_(sumn ks) :=
  match ks return seq (option out) -> result 'cV[R]_(sumn ks) with
  | [::] => fun _ => Ok 0
  | k :: ks => fun os =>
      if os is Some o :: os then rbind (out_vec ValueError k o) (fun a => rmap (fun b => col_mx a b) (z_concat ks os)) else Err ValueError
  end.
(** L208-264 *)
Definition z_finish (TNrs TNTs : seq (option out)) (q : qz) (rr : seq (R * R)) (pri : seq R) : result lval :=
  let ll := - 2%:R^-1 * (\sum_(x <- rr) (x.1 + x.2)) + \sum_(x <- pri) x in
  match q with
  | QList l => z_loop (zip TNrs (zip TNTs l)) ll
  | QBig ks P ld =>
      rbind (z_block ks TNTs) (fun TNT => rbind (z_concat ks TNrs) (fun TNr =>
      Ok (if chol (TNT + P) is Some U
          then Fin (ll + 2%:R^-1 * (dot TNr (cho_solve U TNr) - cho_logdet U - ld)) else NegInf)))
  end.

Definition z_ops (St : Type) (cross : nat -> St -> St -> params R -> result cz) :
    ops St nz dz fz (seq nat) pz phz cz out (R * R) qz lval lz :=
  Ops nz_sum dz_sum dz_minus (0%N, ([::], 0%N), [::]) lz_step lz_end fz_zeros fz_place phz_new phz_add z_TNr z_TNT z_rNr cross z_invert z_finish.
End Arith.
