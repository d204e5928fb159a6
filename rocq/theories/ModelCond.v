(** Model of the coefficients of Gaussian processes given the data
    (enterprise/signals/utils.py L37-226: ConditionalGP and get_coefficients)
    and of GPs whose coefficients are sampled (gp_signals.py L122-149). Numbers
    are exact reals. *)
From Coq Require Import Reals Ascii String.
From mathcomp Require Import all_ssreflect all_algebra.
From mathcomp Require Import fingroup perm.
From Verif Require Import RStruct PyBase ModelLinalg ModelNoise ModelLike ModelKernel.
Set Implicit Arguments.
Unset Strict Implicit.
Unset Printing Implicit Defensive.
Import GRing.Theory Num.Theory Order.TTheory.
Local Open Scope ring_scope.

(** * Factorisations *)

(** [np.tril(sl.cho_factor(A, lower=True)[0])]: Cholesky's algorithm on the
    diagonal and the entries below it. *)
Definition chol_lower (k : nat) (A : 'M[R]_k) : option 'M[R]_k := omap (@trmx _ k k) (chol A^T).
(** [sl.cho_solve((L, True), b)] *)
Definition cho_solve_lower (k : nat) (L : 'M[R]_k) (b : 'cV[R]_k) : 'cV[R]_k := invmx L^T *m (invmx L *m b).

Section Cond.
(** [np.linalg.svd] inside KernelMatrix.inv. *)
Variable svd : forall k, 'M[R]_k -> 'M[R]_k * 'cV[R]_k.
(** [scipy.linalg.svd]: the left factor and the singular values; None for the
    LinAlgError raised when it does not converge. *)
Variable svd2 : forall k, 'M[R]_k -> option ('M[R]_k * 'cV[R]_k).
(** [scipy.linalg.qr] *)
Variable qr : forall k, 'M[R]_k -> 'M[R]_k * 'M[R]_k.
(** The ordering sksparse chooses to keep the factor sparse. *)
Variable ordering : forall k, 'M[R]_k -> 'S_k.

(** sksparse [cholesky(A)]: the permutation matrix [P] and [L] with
    [L L^T = P A P^T]. *)
Definition sparse_factor (k : nat) (A : 'M[R]_k) : option ('M[R]_k * 'M[R]_k) :=
  let P := perm_mx (ordering A) in omap (fun L => (P, L)) (chol_lower (P *m A *m P^T)).
(** [ch(b)] *)
Definition sparse_solve (k : nat) (ch : 'M[R]_k * 'M[R]_k) (b : 'cV[R]_k) : 'cV[R]_k :=
  ch.1^T *m cho_solve_lower ch.2 (ch.1 *m b).

(** * The conditional coefficients *)

(** The lists [TNrs] and [TNTs]. *)
Definition cond_pieces (ps : seq pulsar) : result (seq (option out) * seq (option out)) :=
  rbind (mapR psr_TNr ps) (fun TNrs => rbind (mapR psr_TNT ps) (fun TNTs => Ok (TNrs, TNTs))).

(** One way of turning a system and its right-hand side into a mean and the
    matrix applied to standard normal variates. *)
Definition method : Type := forall k, 'M[R]_k -> 'cV[R]_k -> result ('cV[R]_k * 'M[R]_k).

(** utils.py L68-70 and L91 *)
Definition m_cholesky : method := fun k S b =>
  if chol_lower S is Some L then Ok (cho_solve_lower L b, invmx L^T) else Err LinAlgError.
(** L61-62 and L84: [ch.apply_Pt(ch.solve_Lt(x))] *)
Definition m_sparse : method := fun k S b =>
  if sparse_factor S is Some ch then Ok (sparse_solve ch b, ch.1^T *m invmx ch.2^T) else Err CholmodError.
(** L153-155: [Li = inv(ch.L()).T] *)
Definition m_sparse_coef : method := fun k S b =>
  if sparse_factor S is Some ch then Ok (sparse_solve ch b, (invmx ch.2)^T) else Err CholmodError.
(** L160-162: [mn = u (u^T b / s)], [Li = u * sqrt(1/s)] *)
Definition svd_mean (k : nat) (us : 'M[R]_k * 'cV[R]_k) (b : 'cV[R]_k) : 'cV[R]_k :=
  us.1 *m (\col_i ((us.1^T *m b) i ord0 / us.2 i ord0)).
Definition svd_scale (k : nat) (us : 'M[R]_k * 'cV[R]_k) : 'M[R]_k :=
  \matrix_(i, j) (us.1 i j * sqrt (1 / us.2 j ord0)%R).
Definition m_svd : method := fun k S b =>
  if svd2 S is Some us then Ok (svd_mean us b, svd_scale us) else Err LinAlgError.
(** L194-203: with the QR decomposition if the SVD does not converge *)
Definition m_svd_qr : method := fun k S b =>
  if svd2 S is Some us then Ok (svd_mean us b, svd_scale us) else
  let qr := qr S in
  if qr.2 \in unitmx then
    let Sigi := invmx qr.2 *m qr.1^T in
    if svd2 Sigi is Some us then Ok (Sigi *m b, svd_scale us) else Err LinAlgError
  else Err LinAlgError.

(** No common signals: one pulsar after the other (L65-73, L90-94 and
    L189-206). [z] is None without [variance], else the variates of all pulsars
    in order. A pulsar without basis has no prior to ask for its shape. *)
Fixpoint cond_separate (m : method) (ps : seq pulsar) :
    seq (option out * option out) -> option 'cV[R]_(tot_k ps) -> result 'cV[R]_(tot_k ps) :=
  match ps return seq (option out * option out) -> option 'cV[R]_(tot_k ps) -> result 'cV[R]_(tot_k ps) with
  | [::] => fun _ _ => Ok 0
  | p :: ps' => fun os z =>
      match os with
      | (Some TNr, Some TNT) :: os' =>
          rbind (out_mx (psr_k p) TNT) (fun A =>
          rbind (out_vec ValueError (psr_k p) TNr) (fun b =>
          rbind (m _ (A + phi_mx (kinv svd (psr_phi p)).1) b) (fun ml =>
          rbind (cond_separate m os' (omap (@dsubmx _ (psr_k p) (tot_k ps') 1) z)) (fun rest =>
            Ok (col_mx (if omap (@usubmx _ (psr_k p) (tot_k ps') 1) z is Some x then ml.1 + ml.2 *m x else ml.1) rest)))))
      | _ => Err AttributeError
      end
  end.

(** Common signals (L55-63, L80-84 and L148-165), with the inverse of the big
    prior matrix. *)
Definition cond_joint (m : method) (ps : seq pulsar) (phiinv : 'M[R]_(tot_k ps)) (os : seq (option out) * seq (option out))
    (z : option 'cV[R]_(tot_k ps)) : result 'cV[R]_(tot_k ps) :=
  rbind (concat_TNr ps os.1) (fun b =>
  rbind (block_TNT ps os.2) (fun A =>
  rbind (m _ (A + phiinv) b) (fun ml => Ok (if z is Some x then ml.1 + ml.2 *m x else ml.1)))).

(** [common] is the inverse prior matrix if there are common signals. *)
Definition coefs (msep mjoint : method) (ps : seq pulsar) (common : option 'M[R]_(tot_k ps)) (z : option 'cV[R]_(tot_k ps)) :
    result 'cV[R]_(tot_k ps) :=
  rbind (cond_pieces ps) (fun os =>
    if common is Some phiinv then cond_joint mjoint phiinv os z
    else cond_separate msep (zip os.1 os.2) z).
(** The vector [b] of ConditionalGP and of get_coefficients. *)
Definition cond_coefs := coefs m_cholesky m_sparse.
Definition get_coefs (common_sparse : bool) := coefs m_svd_qr (if common_sparse then m_sparse_coef else m_svd).
End Cond.

(** * Attributing the coefficients to signals *)

(** [signal_type]: "basis", "common basis", anything else. *)
Inductive stype : Type := TBasis | TCommon | TOther.
(** A signal of a pulsar; [get_basis()] may be None. *)
Record asig (n : nat) := ASig { a_name : string; a_type : stype; a_basis : option (bsig n) }.
Definition is_gp (t : stype) : bool := match t with TOther => false | _ => true end.

(** A value of the returned dictionary: an array or a number. *)
Inductive cval : Type := CArr of seq R | CNum of R.
Definition cdict : Type := dict string cval.
Definition cput (d : cdict) (k : string) (v : cval) : cdict := dset string_dec d k v.

(** [list.index] *)
Fixpoint find_str (x : string) (l : seq string) : option nat :=
  if l is y :: l' then if string_dec x y then Some 0%N else omap S (find_str x l') else None.
(** [s.split("_")[0]] *)
Fixpoint head_us (s : string) : string :=
  match s with
  | EmptyString => EmptyString
  | String c s' => if Ascii.eqb c "_"%char then EmptyString else String c (head_us s')
  end.

(** [np.dot(F, x)], [F[:, j] * x] *)
Definition dot_rows (n k : nat) (F : 'M[R]_(n, k)) (x : seq R) : seq R :=
  [seq \sum_(j < k) F i j * nth 0 x j | i <- enum 'I_n].
Definition scale_col (n k : nat) (F : 'M[R]_(n, k)) (j : 'I_k) (x : R) : seq R := [seq F i j * x | i <- enum 'I_n].

Section Attribute.
(** The coefficient vector, [gp], [tm_params] and [list(psr.fitpars)] (None if
    [psr] is None). *)
Variables (b : seq R) (gp : bool) (tm_params : seq string) (fitpars : option (seq string)).

(** utils.py L108-119, one timing-model parameter. *)
Definition put_tm (n : nat) (s : asig n) (F : bsig n) (ntot : nat) (fp : seq string) (st : result cdict) (tm : string) :
    result cdict :=
  rbind st (fun d =>
    if find_str tm fp is Some j then
      let save := append (head_us (a_name s)) (append "_" tm) in
      if gp then
        if insub j is Some j' then
          if (ntot + j < size b)%N then Ok (cput d save (CArr (scale_col (bF F) j' (nth 0 b (ntot + j)%N)))) else Err IndexError
        else Err IndexError
      else if (ntot + j < size b)%N then Ok (cput d (append save "_coefficients") (CNum (nth 0 b (ntot + j)%N)))
      else Err IndexError
    else Err ValueError).

(** L97-127, one signal; [counts] says which types are looked at. *)
Definition put_signal (counts : stype -> bool) (n : nat) (st : result (cdict * nat)) (s : asig n) : result (cdict * nat) :=
  rbind st (fun dn => let: (d, ntot) := dn in
    if ~~ counts (a_type s) then Ok dn else
    if a_basis s is Some F then
      let nb := bk F in
      if (size b < nb + ntot)%N then Err IndexError else
      rbind (if substring_of "timing_model" (a_name s) && (0 < size tm_params)%N then
               if fitpars is Some fp then foldl (put_tm s F ntot fp) (Ok d) tm_params else Err ValueError
             else Ok d) (fun d' =>
        let x := take nb (drop ntot b) in
        Ok (if gp then cput d' (a_name s) (CArr (dot_rows (bF F) x))
            else cput d' (append (a_name s) "_coefficients") (CArr x), (ntot + nb)%N))
    else Err AttributeError).

(** L94-127: all signals of all pulsars. *)
Definition attribute (ps : seq {n : nat & seq (asig n)}) : result cdict :=
  rmap fst (foldl (fun st p => foldl (@put_signal is_gp (projT1 p)) st (projT2 p)) (Ok ([::], 0%N)) ps).
End Attribute.

(** L166-185 of get_coefficients with common signals; [d0] is [params.copy()]. *)
Definition attribute_joint (d0 : cdict) (b : seq R) (ps : seq {n : nat & seq (asig n)}) : result cdict :=
  rmap (dupdate string_dec d0) (attribute b false [::] None ps).

(** L207-220 of get_coefficients without common signals: the vector of each
    pulsar on its own, and only the signals of type "basis". *)
Definition only_basis (t : stype) : bool := match t with TBasis => true | _ => false end.
Definition attribute_separate (d0 : cdict) (pbs : seq ({n : nat & seq (asig n)} * seq R)) : result cdict :=
  foldl (fun st pb => rbind st (fun d =>
           rmap (fun dn => dupdate string_dec d dn.1)
                (foldl (@put_signal pb.2 false [::] None only_basis (projT1 pb.1)) (Ok ([::], 0%N)) (projT2 pb.1))))
        (Ok d0) pbs.

(** * Sampled coefficients *)

(** gp_signals.py L122-133 [_get_coefficient_logprior]. *)
Definition coef_logprior (svd : forall k, 'M[R]_k -> 'M[R]_k * 'cV[R]_k) (k : nat) (c : 'cV[R]_k) (phi : phi_t k) : R :=
  (match phi with
   | PhiD v => - 2%:R^-1 * (\sum_i c i ord0 * c i ord0 / v i ord0) - 2%:R^-1 * (\sum_i ln (v i ord0))
               - 2%:R^-1 * (k%:R * ln (2%:R * PI))
   | PhiM _ => let il := kinv svd phi in
               - 2%:R^-1 * (c^T *m (phi_mx il.1 *m c)) ord0 ord0 - 2%:R^-1 * il.2 - 2%:R^-1 * (k%:R * ln (2%:R * PI))
   end)%R.

(** [c[a:b] = x] for an array [x], which numpy repeats if it has one element. *)
Definition put_slice (N : nat) (c : 'cV[R]_N) (a b : nat) (x : seq R) : result 'cV[R]_N :=
  let w := (minn b N - minn a N)%N in
  if (size x == w) || (size x == 1%N) then
    Ok (\col_i (if (minn a N <= i < minn a N + w)%N then nth 0 x (if size x == w then i - minn a N else 0)%N else c i ord0))
  else Err ValueError.

(** L140-149 [get_delay]: the values of the coefficient parameters of the
    selections, in order. *)
Definition coef_delay (n : nat) (bs : seq (selblk n)) (xs : seq (seq R)) : result 'cV[R]_n :=
  rbind (sel_basis bs) (fun F =>
  rbind (foldl (fun r slx => rbind r (fun c => put_slice c slx.1.1 slx.1.2 slx.2)) (Ok 0) (zip (sel_slices 0 bs) xs))
        (fun c => Ok (F *m c))).
