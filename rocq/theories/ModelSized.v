(** The signals of ModelSigs.v with the arrays of ModelArray.v: what a signal returns, with
    its size. Signals are made as their classes do it (enterprise/signals/white_signals.py
    L39-51, deterministic_signals.py L23-40, gp_signals.py L41-83, L296-335). *)
From Coq Require Import Reals String.
From mathcomp Require Import all_ssreflect all_algebra.
From Verif Require Import RStruct PyBase ModelSelect ModelFunc ModelCache ModelGp ModelLinalg ModelNoise ModelLike ModelKernel ModelPhi ModelColl ModelSigs ModelArray.
Set Implicit Arguments.
Unset Strict Implicit.
Unset Printing Implicit Defensive.
Import GRing.Theory.
Local Open Scope seq_scope.
Local Open Scope ring_scope.

(** ** Arrays *)
Definition to_col (l : seq R) : 'cV[R]_(size l) := \col_i nth 0 l i.
Definition to_nz (l : seq R) : nz := existT nobj (size l) (NVec (to_col l)).
Definition to_dz (d : dval) : dz := if d is DArr l then DzVec (to_col l) else DzZero.
(** Matrices are not ragged. *)
Definition to_fz (F : fmat) : result fz :=
  if all (fun r => size r == F.1) F.2 then Ok (Fz (\matrix_(i < size F.2, j < F.1) nth 0 (nth [::] F.2 i) j)) else Err ValueError.
(** A prior as a vector; matrices are not followed. *)
Definition to_vec (v : gv) : result (seq R) := if v is GV (Vec l) then Ok l else Err OtherError.
(** gp_signals.py L115 and L178-182: [KernelMatrix(nbasis)] and [self._phi.set(phislc, slc)];
    the last slice ends at [nbasis]. *)
Definition to_pz (q : sprior) : result pz :=
  match q with
  | PSel l =>
      let k := (last (0, 0, GObj)%N l).1.2 in
      rmap (fun K => existT phi_t k (kphi K))
        (foldl (fun acc x => rbind acc (fun K : kmat k => rbind (to_vec x.2) (fun v => kset K (PhiD (to_col v)) (KSlice x.1.1 x.1.2)))) (Ok (kzeros k)) l)
  | PCom v => rmap (fun l => existT phi_t (size l) (PhiD (to_col l))) (to_vec v)
  | PNone => Err TypeError
  end.
(** gp_signals.py L404-409: prior and correlation, which are multiplied when the array's
    prior is put together *)
Definition cross_z (fns : nat -> fob * fob) (cls : nat) (s1 s2 : sst) (p : params R) : result cz :=
  match s1, s2 with
  | SCom pos1 s1, SCom pos2 _ =>
      rbind (attribute (snd s1)) (fun b =>
      rbind (gcall (fst (fns cls)) [:: snd b] [::] p) (fun a => rbind (gcall (snd (fns cls)) [:: pos1; pos2] [::] p) (fun x =>
      rbind (to_vec a) (fun l => if x is GV (Sc y) then Ok (Cz y (existT phi_t (size l) (PhiD (to_col l)))) else Err TypeError))))
  | _, _ => Err AttributeError
  end.

(** ** Signals *)
Definition conv {A B} (f : A -> result B) (x : sst * result A) : sst * result B := (x.1, rbind x.2 f).
Definition over {A B} (f : A -> result B) (o : option A) : result (option B) := if o is Some a then rmap Some (f a) else Ok None.
Definition sized (m : psig) : sg sst nz dz fz pz :=
  Sg (s_type m) (s_wp m) (s_bp m) (s_dp m) (s_combine m) (s_class m)
    (fun p s => conv (over (fun l => Ok (to_nz l))) (s_ndiag m p s)) (fun p s => conv (over (fun d => Ok (to_dz d))) (s_delay m p s))
    (fun p s => conv (over to_fz) (s_basis m p s)) (fun p s => conv to_pz (s_phi m p s)) (s_prior m).

(** ** What arrays are made of *)
(** White noise, a deterministic signal, Gaussian processes with marginalised and with
    sampled coefficients, each with its functions, names, the pulsar and its selections, and
    a member of a common process *)
Inductive src : Type :=
| White (fn : fcl) (name psrname : string) (psr : gv) (masks : dict string mask)
| Determ (fn : fcl) (name psrname : string) (psr : gv) (masks : dict string mask) (ntoas : nat)
| Proc (priorfn basisfn : fcl) (name psrname : string) (psr : gv) (masks : dict string mask) (comb : bool)
| Sampled (priorfn basisfn : fcl) (name psrname : string) (psr : gv) (masks : dict string mask) (comb : bool)
| Common (basisfn : fcl) (name psrname : string) (psr pos : gv) (cls : nat) (comb : bool).
Definition new_sig (fns : nat -> fob * fob) (s : src) : result desc :=
  match s with
  | White fn name psrname psr masks => rmap DWhite (new_fsel fn name psrname psr masks)
  | Determ fn name psrname psr masks n => rmap (fun f => DDet f n) (new_fsel fn name psrname psr masks)
  | Proc priorfn basisfn name psrname psr masks comb => rmap (fun gs => DGp gs.1 comb) (new_gp priorfn basisfn false name psrname psr masks)
  | Sampled priorfn basisfn name psrname psr masks comb => rmap (fun gs => DSampled gs.1 gs.2 comb) (new_gp priorfn basisfn true name psrname psr masks)
  | Common basisfn name psrname psr pos cls comb => Ok (DCommon (new_cgp basisfn (fst (fns cls)) (snd (fns cls)) None name psrname psr) pos cls comb)
  end.
(** A collection for one pulsar's residuals *)
Definition sized_coll (fns : nat -> fob * fob) (ds : seq desc) (res : seq R) : coll sst nz dz fz pz :=
  Coll [seq sized (sg_of fns d) | d <- ds] (DzVec (to_col res)).
