(** Signals with their own methods as members of a collection: EcorrKernelNoise
    (enterprise/signals/white_signals.py L199-294), MarginalizingTimingModel
    (gp_signals.py L791-819) and WidebandTimingModel (L522-771), next to the signals of
    ModelSized.v. *)
From Coq Require Import Reals String.
From mathcomp Require Import all_ssreflect all_algebra.
From Verif Require Import RStruct PyBase ModelSelect ModelFunc ModelCache ModelGp ModelLinalg ModelNoise ModelLike ModelKernel ModelPhi ModelColl ModelSigs ModelArray ModelSized ModelEcorr ModelWide.
Set Implicit Arguments.
Unset Strict Implicit.
Unset Printing Implicit Defensive.
Import GRing.Theory.
Local Open Scope seq_scope.
Local Open Scope ring_scope.

(** What a wideband timing model keeps: that of its base class and a cache for each of its
    methods; arrays over TOAs are kept as lists. *)
Record wide_st := WideSt { ws_base : sst; ws_phi : cstate (num := R) pz; ws_delay : cstate (num := R) dz; ws_prior : cstate (num := R) R;
  ws_dm : cstate (num := R) (seq R); ws_dme : cstate (num := R) (seq R); ws_mean_dm : cstate (num := R) (seq R); ws_mean_dme : cstate (num := R) (seq R) }.
(** What a signal keeps: that of ModelSigs.v, the cache of [get_ndiag], or the above *)
Inductive wst : Type := WOld (s : sst) | WNoise (c : cstate (num := R) nz) | WWide (o : wide_st).
Definition wsig : Type := sg wst nz dz fz pz.
Definition up {B} (f : params R -> sst -> sst * result B) (p : params R) (s : wst) : wst * result B :=
  if s is WOld s then let (s', r) := f p s in (WOld s', r) else (s, Err AttributeError).
Definition inside (m : sg sst nz dz fz pz) : wsig :=
  Sg (s_type m) (s_wp m) (s_bp m) (s_dp m) (s_combine m) (s_class m) (up (s_ndiag m)) (up (s_delay m)) (up (s_basis m)) (up (s_phi m)) (up (s_prior m)).
(** A noise signal whose [get_ndiag] is cached with limit two (white_signals.py L238,
    gp_signals.py L815); the other methods are those of [Signal] (signal_base.py L145-173). *)
Definition noise_sg (names : seq string) (body : params R -> result nz) : wsig :=
  Sg WhiteT names [::] [::] false None
    (fun p s => if s is WNoise c then
                  let '((c', _), r) := cache_call Req_EM_T names 2 (fun p u => (u, body p)) p (c, tt) in (WNoise c', rmap Some r)
                else (s, Err AttributeError))
    (fun _ s => (s, Ok (Some DzZero))) (fun _ s => (s, Ok None)) (fun _ s => (s, Err TypeError)) (fun _ s => (s, Ok 0)).

(** What [log10_ecorr(name)] makes: a parameter, or a constant that may have no value yet;
    values by the names of the constants, as in ModelFunc.v *)
Inductive pkind : Type := Varies | Fixed (v : string -> option R).
(** [params[x.name] if x.name in params else x.value] as a number (signal_base.py L115,
    gp_signals.py L695, L709, L715); arrays as values are not followed. *)
Definition k_get (kind : pkind) (p : params R) (name : string) : result R :=
  match dget string_dec p name with
  | Some (Sc x) => Ok x
  | Some _ => Err OtherError
  | None => match kind with Varies => Err AttributeError | Fixed v => if v name is Some x then Ok x else Err TypeError end
  end.

(** ** ECORR *)
(** [_params] with the parameters' names, and [_idxs]; with [block], the method "block",
    otherwise "sherman-morrison", which also stands for "fast-sherman-morrison" without
    its package (L245-248). The method "sparse" changes the matrix it returned before
    (C05) and is not followed. *)
Record ecorr := EcorrSig { e_block : bool; e_n : nat; e_kind : pkind; e_params : dict string string; e_idxs : dict string (seq (seq nat)) }.
(** white_signals.py L204-230 *)
Definition new_ecorr (argsort : seq R -> seq nat) (block : bool) (kind : pkind) (psrname : string) (toas : seq R) (masks : dict string mask) : result ecorr :=
  let (ps, ms) := selection_call psrname masks "log10_ecorr" in
  rmap (EcorrSig block (size toas) kind ps) (ecorr_idxs argsort toas ms).
(** L233-236 and signal_base.py L97-99 *)
Definition e_names (e : ecorr) : seq string := if e_kind e is Varies then dvals (e_params e) else [::].
(** signal_base.py L112-116 [get] *)
Definition e_get (e : ecorr) (p : params R) (key : string) : result R :=
  rbind (dgetE string_dec (e_params e) key) (fun name =>
    k_get (e_kind e) p name).
(** L268-270, L276-294; [np.concatenate] of nothing raises. *)
Definition ecorr_body (e : ecorr) (p : params R) : result nz :=
  rbind (rmapM (fun key => rmap (pair key) (e_get e p key)) (sorted_keys (e_idxs e))) (fun vals =>
    if vals is [::] then Err ValueError else
    let (epochs, jvec) := get_jvecs (e_idxs e) (fun key => if dget string_dec vals key is Some x then x else 0) in
    rmap (existT nobj (e_n e)) (ecorr_noise (if e_block e then BlockM else ShermanMorrisonM) (zip [seq pmap insub ep | ep <- epochs] jvec))).

(** ** Marginalised timing models *)
(** gp_signals.py L815-817: the basis function is called without parameters. *)
Definition margin_body (o : fob) (p : params R) : result nz :=
  rbind (gcall o [::] [::] [::]) (fun v =>
    match v with
    | GPair (GMat nc rows) _ =>
        if all (fun r => size r == nc) rows
        then Ok (existT nobj (size rows) (NMarg (\matrix_(i < size rows, j < nc) nth 0 (nth [::] rows i) j) (NScal 0)))
        else Err ValueError
    | _ => Err TypeError
    end).

(** ** Wideband timing models *)
(** [n] TOAs, [m] fitted parameters, the parameters with their masks in the order of the
    labels, the data and the DMX intervals (gp_signals.py L551-636) *)
Record wide := Wide { wd_n : nat; wd_m : nat; wd_efacs : seq (string * pkind * mask); wd_equads : seq (string * pkind * mask); wd_jumps : seq (string * pkind * mask);
  wd_freqs : seq R; wd_dm : seq R; wd_dmerr : seq R; wd_dmpar : R; wd_bins : seq (dmx_bin wd_n) }.
(** What it reads of the pulsar: [stoas], [freqs], the flags "pp_dm" and "pp_dme", [dm],
    [fitpars] and [dmx] *)
Record wide_psr := WidePsr { q_stoas : seq R; q_freqs : seq R; q_dm : seq R; q_dmerr : seq R; q_dmpar : R; q_fitpars : seq string; q_dmx : dict string dmx_par }.
(** L571-573, L579-581, L588-592: a parameter for every label in order *)
Definition wide_pars (psrname suffix : string) (kind : string -> pkind) (masks : dict string mask) : seq (string * pkind * mask) :=
  [seq (us_name [:: psrname; km.1; suffix], kind km.1, km.2) | km <- isort (fun x y => sle x.1 y.1) masks].
(** L551-636. Data and masks of other lengths than [stoas], which a [Pulsar] does not have,
    are refused at once (numpy would refuse them when they meet). *)
Definition new_wide (efac : pkind) (equad jump : option pkind) (jref : option string) (psrname : string) (q : wide_psr) (sel jsel : dict string mask) : result wide :=
  let n := size (q_stoas q) in
  if ~~ ((size (q_freqs q) == n) && (size (q_dm q) == n) && (size (q_dmerr q) == n) && all (fun km => size km.2 == n) (sel ++ jsel)) then Err ValueError else
  rmap (fun bins => @Wide n (size (q_fitpars q)) (wide_pars psrname "dmefac" (fun _ => efac) sel)
      (if equad is Some k then wide_pars psrname "log10_dmequad" (fun _ => k) sel else [::])
      (if jump is Some k then wide_pars psrname "dmjump" (fun key => if jref is Some r then if String.eqb key r then Fixed (fun _ => Some 0) else k else k) jsel else [::])
      (q_freqs q) (q_dm q) (q_dmerr q) (q_dmpar q) bins)
    (wb_init (\col_(i < n) nth 0 (q_stoas q) i) (q_fitpars q) (dkeys jsel) (isSome jump) (q_dmx q)).
Section Wideband.
Variable w : wide.
Definition as_list n (v : 'cV[R]_n) : seq R := [seq v i ord0 | i <- enum 'I_n].
Definition as_col n (l : seq R) : 'cV[R]_n := \col_(i < n) nth 0 l i.
Notation col := (as_col (wd_n w)).
(** L638-645 [delay_params] *)
Definition wide_names : seq string := [seq x.1.1 | x <- wd_efacs w ++ wd_equads w ++ wd_jumps w].
(** The values with their masks (L694-697, L708-711, L714-717) *)
Definition wide_values (l : seq (string * pkind * mask)) (p : params R) : result (seq (R * pred 'I_(wd_n w))) :=
  rmapM (fun x => rmap (fun v => (v, fun i : 'I_(wd_n w) => nth false x.2 i)) (k_get x.1.2 p x.1.1)) l.
(** L689-700 *)
Definition wide_dm : params R -> wide_st -> wide_st * result (seq R) :=
  cached ws_dm (fun o c => WideSt (ws_base o) (ws_phi o) (ws_delay o) (ws_prior o) c (ws_dme o) (ws_mean_dm o) (ws_mean_dme o)) wide_names 2
    (fun p o => (o, rmap (fun js => as_list (wb_dm js (col (wd_dm w)))) (wide_values (wd_jumps w) p))).
(** L702-722 *)
Definition wide_dme : params R -> wide_st -> wide_st * result (seq R) :=
  cached ws_dme (fun o c => WideSt (ws_base o) (ws_phi o) (ws_delay o) (ws_prior o) (ws_dm o) c (ws_mean_dm o) (ws_mean_dme o)) wide_names 2
    (fun p o => (o, rbind (wide_values (wd_efacs w) p) (fun es => rmap (fun qs => as_list (wb_dme es qs (col (wd_dmerr w)))) (wide_values (wd_equads w) p)))).
(** L724-736 *)
Definition wide_mean_dm : params R -> wide_st -> wide_st * result (seq R) :=
  cached ws_mean_dm (fun o c => WideSt (ws_base o) (ws_phi o) (ws_delay o) (ws_prior o) (ws_dm o) (ws_dme o) c (ws_mean_dme o)) wide_names 2
    (fun p o => andthen (wide_dm p o) (fun dm o => mapr (fun dme => as_list (wb_mean_dm (wd_bins w) (col dm) (col dme))) (wide_dme p o))).
(** L738-751 *)
Definition wide_mean_dme : params R -> wide_st -> wide_st * result (seq R) :=
  cached ws_mean_dme (fun o c => WideSt (ws_base o) (ws_phi o) (ws_delay o) (ws_prior o) (ws_dm o) (ws_dme o) (ws_mean_dm o) c) wide_names 2
    (fun p o => mapr (fun dme => as_list (wb_mean_dme (wd_bins w) (col dme))) (wide_dme p o)).
(** L647-662 *)
Definition wide_phi : params R -> wide_st -> wide_st * result pz :=
  cached ws_phi (fun o c => WideSt (ws_base o) c (ws_delay o) (ws_prior o) (ws_dm o) (ws_dme o) (ws_mean_dm o) (ws_mean_dme o)) wide_names 2
    (fun p o => mapr (fun dme => existT phi_t (wd_m w) (PhiD (wb_phi (wd_bins w) (col dme) (wd_m w)))) (wide_dme p o)).
(** L668-687 *)
Definition wide_delay : params R -> wide_st -> wide_st * result dz :=
  cached ws_delay (fun o c => WideSt (ws_base o) (ws_phi o) c (ws_prior o) (ws_dm o) (ws_dme o) (ws_mean_dm o) (ws_mean_dme o)) wide_names 2
    (fun p o => mapr (fun avg => DzVec (wb_delay_of (wd_bins w) (col avg) (wd_dmpar w) (col (wd_freqs w)))) (wide_mean_dm p o)).
(** L753-771 *)
Definition wide_prior : params R -> wide_st -> wide_st * result R :=
  cached ws_prior (fun o c => WideSt (ws_base o) (ws_phi o) (ws_delay o) c (ws_dm o) (ws_dme o) (ws_mean_dm o) (ws_mean_dme o)) wide_names 2
    (fun p o => andthen (wide_dm p o) (fun dm o => andthen (wide_dme p o) (fun dme o => andthen (wide_mean_dm p o) (fun mdm o =>
       andthen (wide_mean_dme p o) (fun mdme o => (o, wb_logprior_of (wd_bins w) (col dm) (col dme) (col mdm) (col mdme))))))).
(** The class (L542-549): what it does not define is that of [BasisGP] *)
Definition of_base {B} (f : params R -> sst -> sst * result B) (p : params R) (s : wst) : wst * result B :=
  if s is WWide o then let (b, r) := f p (ws_base o) in (WWide (WideSt b (ws_phi o) (ws_delay o) (ws_prior o) (ws_dm o) (ws_dme o) (ws_mean_dm o) (ws_mean_dme o)), r)
  else (s, Err AttributeError).
Definition own {B} (f : params R -> wide_st -> wide_st * result B) (p : params R) (s : wst) : wst * result B :=
  if s is WWide o then let (o', r) := f p o in (WWide o', r) else (s, Err AttributeError).
Definition wide_sg (m : sg sst nz dz fz pz) : wsig :=
  Sg BasisT (s_wp m) (s_bp m) wide_names false None (of_base (s_ndiag m)) (own (fun p o => mapr Some (wide_delay p o))) (of_base (s_basis m)) (own wide_phi) (own wide_prior).
End Wideband.

(** ** What arrays are made of *)
Inductive wsrc : Type :=
| Plain (s : src)
| Ecorr (block : bool) (kind : pkind) (psrname : string) (toas : seq R) (masks : dict string mask)
| Margin (basisfn : fcl) (name psrname : string) (psr : gv)
| Wideband (efac : pkind) (equad jump : option pkind) (jref : option string) (priorfn basisfn : fcl) (name psrname : string) (psr : gv) (q : wide_psr) (sel jsel : dict string mask).
Inductive wdesc : Type := WPlain (d : desc) | WEcorr (e : ecorr) | WMargin (o : fob) | WWideband (g : gp) (w : wide).
(** [Selection(selections.no_selection)], the selection of the base class (gp_signals.py L22) *)
Definition everywhere (q : wide_psr) : dict string mask := [:: (""%string, nseq (size (q_stoas q)) true)].
Definition new_wsig (argsort : seq R -> seq nat) (fns : nat -> fob * fob) (s : wsrc) : result wdesc :=
  match s with
  | Plain s => rmap WPlain (new_sig fns s)
  | Ecorr block kind psrname toas masks => rmap WEcorr (new_ecorr argsort block kind psrname toas masks)
  | Margin basisfn name psrname psr => Ok (WMargin (inst basisfn (join_us [:: psrname; name]) (Some psr)))
  | Wideband efac equad jump jref priorfn basisfn name psrname psr q sel jsel =>
      rbind (new_gp priorfn basisfn false name psrname psr (everywhere q)) (fun gs => rmap (WWideband gs.1) (new_wide efac equad jump jref psrname q sel jsel))
  end.
Definition wsg_of (fns : nat -> fob * fob) (d : wdesc) : wsig :=
  match d with
  | WPlain d => inside (sized (sg_of fns d))
  | WEcorr e => noise_sg (e_names e) (ecorr_body e)
  | WMargin o => noise_sg [::] (margin_body o)
  | WWideband g w => wide_sg w (sized (gp_sg g false))
  end.
Definition wstart_of (d : wdesc) : wst :=
  match d with
  | WPlain d => WOld (start_of d)
  | WEcorr _ | WMargin _ => WNoise cempty
  | WWideband g _ => WWide (WideSt (start_of (DGp g false)) cempty cempty cempty cempty cempty cempty cempty)
  end.
Definition wcoll (fns : nat -> fob * fob) (ds : seq wdesc) (res : seq R) : coll wst nz dz fz pz :=
  Coll [seq wsg_of fns d | d <- ds] (DzVec (to_col res)).
(** gp_signals.py L404-409 *)
Definition wcross (fns : nat -> fob * fob) (cls : nat) (s1 s2 : wst) (p : params R) : result cz :=
  match s1, s2 with WOld s1, WOld s2 => cross_z fns cls s1 s2 p | _, _ => Err AttributeError end.
