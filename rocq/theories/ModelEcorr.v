(** ECORR as a Gaussian process (enterprise/signals/gp_signals.py L254-281:
    [ecorr_basis_prior] and [EcorrBasisModel]) and as noise (white_signals.py L208-294),
    both made of the same TOAs, selections and parameters, and the pulsars they give.
    Numbers are exact reals. *)
From Coq Require Import Reals ZArith String.
From mathcomp Require Import all_ssreflect all_algebra.
From Verif Require Import RStruct PyBase ModelLinalg ModelNoise ModelLike ModelKernel ModelSelect.
Set Implicit Arguments.
Unset Strict Implicit.
Unset Printing Implicit Defensive.
Import GRing.Theory Num.Theory Order.TTheory.
Local Open Scope ring_scope.

(** gp_signals.py L255-259 [ecorr_basis_prior] *)
Definition ecorr_basis_prior (k : nat) (weights : 'cV[R]_k) (log10_ecorr : R) : 'cV[R]_k :=
  \col_i (weights i ord0 * Rpower 10 (2 * log10_ecorr)).

Section Ecorr.
(** [np.argsort] *)
Variable argsort : list R -> list nat.
Variable n : nat.

(** One selection: the quantisation matrix of the selected TOAs with weights of one
    (utils.py L758-782) and its prior. *)
Definition ecorr_sel (m : mask) (U : list (list Z)) (log10_ecorr : R) : selblk n :=
  @SelBlk n (fun i => List.nth i m false) (List.length U) (ncols U)
    (\matrix_(i, j) IZR (List.nth j (List.nth i U [::]) Z0))
    (PhiD (ecorr_basis_prior (const_mx 1) log10_ecorr)).
(** L266-277 with L97-115 of [BasisGP]: the selections in the order of their keys;
    [value key] is the value of the parameter of a selection. The basis has no parameters. *)
Definition ecorr_sels (toas : list R) (masks : dict string mask) (value : string -> R) : result (seq (selblk n)) :=
  rmapM (fun key => rbind (dgetE string_dec masks key) (fun m =>
           rmap (fun U => ecorr_sel m U (value key)) (quant_matrix argsort (take_mask toas m) 1 2)))
        (sorted_keys masks).
Definition ecorr_gp (toas : list R) (masks : dict string mask) (value : string -> R) : result (bsig n) :=
  rbind (ecorr_sels toas masks value) (fun bs =>
  rbind (sel_basis bs) (fun T =>
  rmap (fun phi => BSig T (kphi phi) false true) (sel_phi (kzeros (sel_ncol bs))))).

(** white_signals.py L208-230 and L289-294: the epochs with their variances. *)
Definition ecorr_kernel (toas : list R) (masks : dict string mask) (value : string -> R) : result (seq (seq 'I_n * R)) :=
  rmap (fun idxs => let (epochs, jvec) := get_jvecs idxs value in
                    zip [seq pmap insub e | e <- epochs] jvec)
       (ecorr_idxs argsort toas masks).
End Ecorr.

(** white_signals.py L239-249 [get_ndiag] by method; the package of the fast
    Sherman-Morrison method is not modelled. *)
Inductive ecorr_method : Type := ShermanMorrisonM | SparseM | BlockM.
Definition ecorr_noise (n : nat) (meth : ecorr_method) (bs : seq (seq 'I_n * R)) : result (nobj n) :=
  match meth with
  | ShermanMorrisonM => Ok (ecorr_sm bs)
  | SparseM => Ok (ecorr_sparse bs)
  | BlockM => ecorr_block bs
  end.

(** signal_base.py L951-977: the pulsar of a signal collection with noise [N], residuals
    [r] and processes [sigs]. *)
Definition coll_pulsar (n : nat) (hash : 'cV[R]_n -> nat) (N : nobj n) (r : 'cV[R]_n) (sigs : seq (bsig n)) (prior : R) : result pulsar :=
  rbind (coll_basis hash sigs) (fun T =>
  rmap (fun phi =>
    match T, phi with
    | Some T, Some phi => Pulsar N r true T (kphi phi) prior
    | _, _ => Pulsar N r false (0 : 'M[R]_(n, 0)) (PhiD 0) prior
    end) (coll_phi hash sigs)).
