(** [set_default_params] of signals, collections and arrays (enterprise/signals/signal_base.py
    L123-133, L365-367, L873-875), on the signals of ModelKinds.v: constants with a name in the
    dictionary get its value. Messages are left out; values are numbers.
    Two constants of a signal with the same name are taken for one. *)
From Coq Require Import Reals String.
From mathcomp Require Import all_ssreflect all_algebra.
From Verif Require Import RStruct PyBase ModelSelect ModelFunc ModelCache ModelGp ModelColl ModelSigs ModelArray ModelSized ModelKinds.
Set Implicit Arguments.
Unset Strict Implicit.
Unset Printing Implicit Defensive.
Local Open Scope seq_scope.

(** A constant keeps its value unless the dictionary has one (L126-129); functions share the
    constants with the signal they belong to. *)
Section Set_.
Variable D : dict string R.
Definition set_par (q : par gv) : par gv := if q is Cst n v then Cst n (if dget string_dec D n is Some x then GV (Sc x) else v) else q.
Fixpoint set_fob (o : fob) : fob :=
  match o with FObj n f psr kws ps defs fns =>
    FObj n f psr kws [seq (kq.1, set_par kq.2) | kq <- ps] defs (map (fun kf => (fst kf, set_fob (snd kf))) fns) end.
Definition set_kind (k : pkind) : pkind := if k is Fixed v then Fixed (fun n => if dget string_dec D n is Some x then Some x else v n) else k.
Definition set_coef (c : coef) : coef := Coef (cf_name c) (cf_size c) [seq (kq.1, set_par kq.2) | kq <- cf_args c].
End Set_.
(** L125-126: the entries that name constants among [_params] *)
Definition reach (D : dict string R) (ps : dict string (par gv)) : dict string R :=
  [seq kv <- D | has (fun q => is_cst q && String.eqb (par_name q) kv.1) (dvals ps)].

(** The signals *)
Definition set_fsel (D : dict string R) (f : fsel) : fsel :=
  let D := reach D (f_params f) in
  FSel (f_keys f) (f_masks f) [seq (ko.1, set_fob D ko.2) | ko <- f_fn f] [seq (kq.1, set_par D kq.2) | kq <- f_params f].
Definition set_gp (D : dict string R) (g : gp) : gp :=
  let D := reach D (g_params g) in
  GP (g_name g) (g_keys g) (g_masks g) [seq (ko.1, set_fob D ko.2) | ko <- g_prior g] [seq (ko.1, set_fob D ko.2) | ko <- g_bases g]
    [seq (kq.1, set_par D kq.2) | kq <- g_params g] [seq (kc.1, set_coef D kc.2) | kc <- g_coefs g].
(** gp_signals.py L304-309: the parameters of a common process: those of prior and
    correlation, which belong to the class, and those of the basis *)
Definition com_params (os : seq fob) : dict string (par gv) :=
  List.fold_left (fun d p => dset string_dec d (par_name p) p) (flatten [seq pars_of o | o <- os]) [::].
Definition set_com (D : dict string R) (fn : fob * fob) (c : cgp) : cgp :=
  CGP (set_fob (reach D (com_params [:: fn.1; fn.2; c_basis c])) (c_basis c)) (c_names c) (c_coef c).
(** The functions of the class; one without members would not be set, but is not asked
    either. *)
Definition set_fns (D : dict string R) (fns : nat -> fob * fob) (cls : nat) : fob * fob :=
  let D := reach D (com_params [:: (fns cls).1; (fns cls).2]) in (set_fob D (fns cls).1, set_fob D (fns cls).2).
Definition set_desc (D : dict string R) (fns : nat -> fob * fob) (d : desc) : desc :=
  match d with
  | DWhite f => DWhite (set_fsel D f)
  | DDet f n => DDet (set_fsel D f) n
  | DGp g comb => DGp (set_gp D g) comb
  | DSampled g s comb => DSampled (set_gp D g) s comb
  | DCommon c pos cls comb => DCommon (set_com D (fns cls) c) pos cls comb
  end.
(** A marginalised timing model has no [_params] (gp_signals.py L808), a wideband timing
    model only those of the DMs, not those of its base class (L568). All the constants that
    ECORR noise and wideband timing models ask for are among their [_params]. *)
Definition set_wide (D : dict string R) (w : wide) : wide :=
  let set l := [seq (x.1.1, set_kind D x.1.2, x.2) | x <- l] in
  @Wide (wd_n w) (wd_m w) (set (wd_efacs w)) (set (wd_equads w)) (set (wd_jumps w)) (wd_freqs w) (wd_dm w) (wd_dmerr w) (wd_dmpar w) (wd_bins w).
Definition set_wdesc (D : dict string R) (fns : nat -> fob * fob) (d : wdesc) : wdesc :=
  match d with
  | WPlain d => WPlain (set_desc D fns d)
  | WEcorr e => WEcorr (EcorrSig (e_block e) (e_n e) (set_kind D (e_kind e)) (e_params e) (e_idxs e))
  | WMargin o => WMargin o
  | WWideband g w => WWideband g (set_wide D w)
  end.
(** L365-367, L873-875; the array is described by the functions of its classes and by its
    signals, pulsar by pulsar. *)
Definition set_defaults (D : dict string R) (fns : nat -> fob * fob) (dss : seq (seq wdesc)) : (nat -> fob * fob) * seq (seq wdesc) :=
  (set_fns D fns, [seq [seq set_wdesc D fns d | d <- ds] | ds <- dss]).
