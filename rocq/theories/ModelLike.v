(** Model of the likelihood (enterprise/signals/signal_base.py L180-264), of the
    quantities of a pulsar it uses (L961-1004) and of KernelMatrix.inv
    (utils.py L288-309). Numbers are exact reals. *)
From Coq Require Import Reals.
From mathcomp Require Import all_ssreflect all_algebra.
From Verif Require Import RStruct PyBase ModelLinalg ModelNoise.
Set Implicit Arguments.
Unset Strict Implicit.
Unset Printing Implicit Defensive.
Import GRing.Theory Num.Theory Order.TTheory.
Local Open Scope ring_scope.

(** * KernelMatrix *)

(** A prior covariance: a vector of variances or a matrix. *)
Inductive phi_t (k : nat) : Type := PhiD of 'cV[R]_k | PhiM of 'M[R]_k.

(** [np.diag(phi) if phi.ndim == 1 else phi] *)
Definition phi_mx (k : nat) (phi : phi_t k) : 'M[R]_k :=
  match phi with PhiD v => diag_mx v^T | PhiM A => A end.

Section Inv.
(** [np.linalg.svd]: the left factor and the singular values. *)
Variable svd : forall k, 'M[R]_k -> 'M[R]_k * 'cV[R]_k.

(** utils.py L288-309 [KernelMatrix.inv(logdet=True)]. A zero variance gives an
    infinite inverse in numpy and is not modelled. *)
Definition kinv (k : nat) (phi : phi_t k) : phi_t k * R :=
  match phi with
  | PhiD v => (PhiD (\col_i (v i ord0)^-1), \sum_i ln (v i ord0))
  | PhiM A =>
      if chol A is Some U then (PhiM (cho_solve U 1%:M), cho_logdet U)
      else let us := svd A in
           (PhiM ((\matrix_(i, j) (us.1 i j / us.2 j ord0)) *m us.1^T), \sum_i ln (us.2 i ord0))
  end.
End Inv.

(** * Pulsars *)

(** A signal collection at given parameters: its noise object, its residuals
    minus deterministic delays, whether some signal provides a basis
    ([_Fmat is not None]), the basis, its prior, and [get_logsignalprior]. *)
Record pulsar := Pulsar
  { psr_n : nat; psr_k : nat; psr_N : nobj psr_n; psr_r : 'cV[R]_psr_n; psr_hasT : bool;
    psr_T : 'M[R]_(psr_n, psr_k); psr_phi : phi_t psr_k; psr_prior : R }.

(** signal_base.py L981-988 [get_TNr], L990-996 [get_TNT] and L998-1002
    [get_rNr_logdet]; None for a pulsar without basis. *)
Definition psr_TNr (p : pulsar) : result (option out) :=
  if psr_hasT p then
    rmap (fun x => Some x.1) (solve (psr_N p) (A1 (psr_r p)) (LArr (A2 (psr_T p))) false)
  else Ok None.
Definition psr_TNT (p : pulsar) : result (option out) :=
  if psr_hasT p then rmap (fun x => Some x.1) (solve (psr_N p) (A2 (psr_T p)) LSame false) else Ok None.
Definition psr_rNr (p : pulsar) : result (R * R) :=
  rbind (solve (psr_N p) (A1 (psr_r p)) LSame true)
    (fun x => if x is (OS q, Some ld) then Ok (q, ld) else Err TypeError).

(** Using a returned array as a vector of length [k] (a number has no shape to
    compare) or adding it to a [k] by [k] matrix (a number is added to every
    entry). *)
Definition out_vec (e : exn) (k : nat) (o : out) : result 'cV[R]_k :=
  match o with
  | OV l => if size l == k then Ok (\col_i nth 0 l i) else Err ValueError
  | OS _ => Err e
  | OM _ => Err ValueError
  end.
Definition out_mx (k : nat) (o : out) : result 'M[R]_k :=
  match o with
  | OM rs => if (size rs == k) && all (fun r => size r == k) rs
             then Ok (\matrix_(i, j) nth 0 (nth [::] rs i) j) else Err ValueError
  | OS x => Ok (const_mx x)
  | OV _ => Err ValueError
  end.

(** A log likelihood: a number or minus infinity. *)
Inductive lval : Type := Fin of R | NegInf.

Fixpoint mapR (A B : Type) (f : A -> result B) (l : seq A) : result (seq B) :=
  if l is x :: l' then rbind (f x) (fun y => rbind (mapR f l') (fun ys => Ok (y :: ys))) else Ok [::].

(** * The likelihood *)

(** L248-262, one turn of the loop: None is [return -np.inf]. *)
Definition term (k : nat) (TNr TNT : out) (pl : phi_t k * R) : result (option R) :=
  rbind (out_mx k TNT) (fun M =>
    if chol (M + phi_mx pl.1) is Some U then
      rbind (out_vec IndexError k TNr) (fun b =>
        Ok (Some (2%:R^-1 * (dot b (cho_solve U b) - cho_logdet U - pl.2))))
    else Ok None).

Section Like.
Variable svd : forall k, 'M[R]_k -> 'M[R]_k * 'cV[R]_k.

Fixpoint loop (ps : seq (pulsar * (option out * option out))) (acc : R) : result lval :=
  match ps with
  | [::] => Ok (Fin acc)
  | (p, (Some TNr, Some TNT)) :: ps' =>
      rbind (term TNr TNT (kinv svd (psr_phi p)))
        (fun t => if t is Some x then loop ps' (acc + x) else Ok NegInf)
  | (_, (None, _)) :: ps' => loop ps' acc                  (* L249-250 *)
  | (_, (Some _, None)) :: _ => Err TypeError
  end.

(** L197-220: what is computed before either branch. *)
Definition pieces (ps : seq pulsar) : result (seq (option out) * seq (option out) * R) :=
  rbind (mapR psr_TNr ps) (fun TNrs =>
  rbind (mapR psr_TNT ps) (fun TNTs =>
  rbind (mapR psr_rNr ps) (fun rr =>
    Ok (TNrs, TNTs, - 2%:R^-1 * (\sum_(x <- rr) (x.1 + x.2)) + \sum_(p <- ps) psr_prior p)))).

(** L247-264: no common signals. *)
Definition loglike (ps : seq pulsar) : result lval :=
  rbind (pieces ps) (fun x => loop (zip ps (zip x.1.1 x.1.2)) x.2).
End Like.

(** L225-245: common signals, with the inverse and log determinant of the big
    prior matrix. Block diagonals and concatenations of something that is None
    raise (L187-195). The sparse and the dense branch compute the same. *)
Definition tot_k (ps : seq pulsar) : nat := foldr (fun p k => (psr_k p + k)%N) 0%N ps.
Fixpoint block_TNT (ps : seq pulsar) : seq (option out) -> result 'M[R]_(tot_k ps) :=
  match ps return seq (option out) -> result 'M[R]_(tot_k ps) with
  | [::] => fun _ => Ok 0
  | p :: ps' => fun os =>
      if os is Some o :: os' then
        rbind (out_mx (psr_k p) o) (fun A => rbind (block_TNT ps' os') (fun B => Ok (block_mx A 0 0 B)))
      else Err TypeError
  end.
Fixpoint concat_TNr (ps : seq pulsar) : seq (option out) -> result 'cV[R]_(tot_k ps) :=
  match ps return seq (option out) -> result 'cV[R]_(tot_k ps) with
  | [::] => fun _ => Ok 0
  | p :: ps' => fun os =>
      if os is Some o :: os' then
        rbind (out_vec ValueError (psr_k p) o)
          (fun a => rbind (concat_TNr ps' os') (fun b => Ok (col_mx a b)))
      else Err ValueError
  end.
Definition loglike_correlated (ps : seq pulsar) (phiinv : 'M[R]_(tot_k ps)) (logdet_phi : R) : result lval :=
  rbind (pieces ps) (fun x =>
  rbind (block_TNT ps x.1.2) (fun TNT =>
  rbind (concat_TNr ps x.1.1) (fun TNr =>
    Ok (if chol (TNT + phiinv) is Some U
        then Fin (x.2 + 2%:R^-1 * (dot TNr (cho_solve U TNr) - cho_logdet U - logdet_phi))
        else NegInf)))).
