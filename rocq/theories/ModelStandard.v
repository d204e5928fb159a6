(** The standard model of pulsar timing arrays: the functions and class factories of
    enterprise/signals that are used to describe it, as sources of arrays (ModelKinds.v).
    Numbers are reals, None is [GObj], True and False are 1 and 0. *)
From Coq Require Import String Bool Arith ZArith List Reals.
From Verif Require Import PyBase ModelSelect ModelFunc ModelCache ModelGp ModelBases ModelSpectra ModelOrf ModelInterp ModelSized ModelKinds.
Import ListNotations.
Open Scope string_scope.
Open Scope list_scope.
Open Scope R_scope.

(** ** Functions *)
Definition num (x : R) : gv := GV (Sc x).
Definition none : gv := GObj.
Definition truthy (v : gv) : bool := match v with GV (Sc x) => if Req_EM_T x 0 then false else true | GObj => false | _ => true end.
Definition or_none {A} (f : gv -> result A) (v : gv) : result (option A) := match v with GObj => Ok None | _ => rmap Some (f v) end.
Definition as_num (v : gv) : result R := match v with GV (Sc x) => Ok x | _ => Err TypeError end.
Definition as_array (v : gv) : result seqn := match v with GV (Vec l) => Ok (NpArray l) | _ => Err TypeError end.

(** white_signals.py L68-70 [efac_ndiag], L73-75 [combined_ndiag] *)
Definition efac_fn : pyfun gv := PyFun ["toaerrs"; "efac"] [num 1]
  (fun l => match l with [GV (Vec es); GV (Sc f)] => Ok (GV (Vec (map (fun e => f ^ 2 * e ^ 2) es))) | _ => Err TypeError end).
Definition combined_fn : pyfun gv := PyFun ["toaerrs"; "efac"; "log10_t2equad"] [num 1; num (-8)]
  (fun l => match l with
            | [GV (Vec es); GV (Sc f); GV (Sc q)] => Ok (GV (Vec (map (fun e => f ^ 2 * (e ^ 2 + Rpower 10 (2 * q))) es)))
            | _ => Err TypeError end).
(** white_signals.py L100-102 [tnequad_ndiag] *)
Definition tnequad_fn : pyfun gv := PyFun ["toas"; "log10_tnequad"] [num (-8)]
  (fun l => match l with [GV (Vec ts); GV (Sc q)] => Ok (GV (Vec (map (fun _ => 1 * Rpower 10 (2 * q)) ts))) | _ => Err TypeError end).
(** gp_priors.py L13-19 [powerlaw] *)
Definition powerlaw_fn : pyfun gv := PyFun ["f"; "log10_A"; "gamma"; "components"] [num (-16); num 5; num 2]
  (fun l => match l with
            | [GV (Vec f); GV (Sc A); GV (Sc g); GV (Sc c)] => rmap (fun r => GV (Vec r)) (powerlaw f A g (Z.to_nat (Int_part c)))
            | _ => Err TypeError end).
(** gp_priors.py L22-26 [turnover] *)
Definition turnover_fn : pyfun gv := PyFun ["f"; "log10_A"; "gamma"; "lf0"; "kappa"; "beta"] [num (-15); num (433 / 100); num (-17 / 2); num (10 / 3); num (1 / 2)]
  (fun l => match l with
            | [GV (Vec f); GV (Sc A); GV (Sc g); GV (Sc lf0); GV (Sc kappa); GV (Sc beta)] => rmap (fun r => GV (Vec r)) (turnover f A g lf0 kappa beta)
            | _ => Err TypeError end).
(** gp_priors.py L98-117 [turnover_knee] *)
Definition knee_fn : pyfun gv := PyFun ["f"; "log10_A"; "gamma"; "lfb"; "lfk"; "kappa"; "delta"] []
  (fun l => match l with
            | [GV (Vec f); GV (Sc A); GV (Sc g); GV (Sc lfb); GV (Sc lfk); GV (Sc kappa); GV (Sc delta)] => rmap (fun r => GV (Vec r)) (turnover_knee f A g lfb lfk kappa delta)
            | _ => Err TypeError end).
(** gp_priors.py L120-139 [broken_powerlaw] *)
Definition broken_fn : pyfun gv := PyFun ["f"; "log10_A"; "gamma"; "delta"; "log10_fb"; "kappa"] [num (1 / 10)]
  (fun l => match l with
            | [GV (Vec f); GV (Sc A); GV (Sc g); GV (Sc delta); GV (Sc fb); GV (Sc kappa)] => rmap (fun r => GV (Vec r)) (broken_powerlaw f A g delta fb kappa)
            | _ => Err TypeError end).
(** gp_priors.py L29-38 [free_spectrum]; a number is an array of one entry for
    [np.repeat]. *)
Definition free_fn : pyfun gv := PyFun ["f"; "log10_rho"] [none]
  (fun l => match l with
            | [GV (Vec f); GV (Vec rho)] => rmap (fun r => GV (Vec r)) (free_spectrum f rho)
            | [GV (Vec f); GV (Sc r)] => rmap (fun r => GV (Vec r)) (free_spectrum f [r])
            | _ => Err TypeError end).
(** utils.py L845-871 [hd_orf], [dipole_orf], [monopole_orf] *)
Inductive orf_kind : Type := Hd | Dipole | Monopole.
Definition orf_of (k : orf_kind) : vec -> vec -> R := match k with Hd => hd_orf | Dipole => dipole_orf | Monopole => monopole_orf end.
Definition as_vec (l : list R) : result vec := match l with [a; b; c] => Ok (a, b, c) | _ => Err ValueError end.
Definition orf_fn (k : orf_kind) : pyfun gv := PyFun ["pos1"; "pos2"] []
  (fun l => match l with
            | [GV (Vec x); GV (Vec y)] => rbind (as_vec x) (fun x => rmap (fun y => num (orf_of k x y)) (as_vec y))
            | _ => Err TypeError end).
(** gp_bases.py L25-91 [createfourierdesignmatrix_red]. Phases drawn without a seed are not
    a function of the arguments and are not followed. *)
Definition red_fn {S : Type} (seeded : Z -> S) (next : S -> R * S) : pyfun gv :=
  PyFun ["toas"; "nmodes"; "Tspan"; "logf"; "fmin"; "fmax"; "pshift"; "modes"; "pseed"]
    [num 30; none; num 0; none; none; num 0; none; none]
    (fun l => match l with
      | [GV (Vec toas); GV (Sc n); T; logf; fmin; fmax; pshift; modes; pseed] =>
          rbind (or_none as_num T) (fun T => rbind (or_none as_num fmin) (fun fmin => rbind (or_none as_num fmax) (fun fmax =>
          rbind (or_none as_array modes) (fun modes => rbind (or_none as_num pseed) (fun pseed =>
          let seed := option_map trunc pseed in
          if truthy pshift && negb (match seed with Some _ => true | None => false end) then Err OtherError else
          rmap (fun Ff => GPair (GMat (length (snd Ff)) (fst Ff)) (GV (Vec (snd Ff))))
            (fst (create_red seeded next toas (Opts (Z.to_nat (Int_part n)) T (truthy logf) fmin fmax modes (truthy pshift) seed) (seeded 0%Z))))))))
      | _ => Err TypeError end).
(** gp_bases.py L94-127 [createfourierdesignmatrix_dm], L261-292
    [createfourierdesignmatrix_chromatic]; the former has no seed, so that phases are not
    followed. *)
Definition dm_fn {S : Type} (seeded : Z -> S) (next : S -> R * S) : pyfun gv :=
  PyFun ["toas"; "freqs"; "nmodes"; "Tspan"; "pshift"; "fref"; "logf"; "fmin"; "fmax"; "modes"]
    [num 30; none; num 0; num 1400; num 0; none; none; none]
    (fun l => match l with
      | [GV (Vec toas); GV (Vec freqs); GV (Sc n); T; pshift; GV (Sc fref); logf; fmin; fmax; modes] =>
          rbind (or_none as_num T) (fun T => rbind (or_none as_num fmin) (fun fmin => rbind (or_none as_num fmax) (fun fmax =>
          rbind (or_none as_array modes) (fun modes =>
          if truthy pshift then Err OtherError else
          rmap (fun Ff => GPair (GMat (length (snd Ff)) (fst Ff)) (GV (Vec (snd Ff))))
            (fst (create_dm seeded next toas freqs fref (Opts (Z.to_nat (Int_part n)) T (truthy logf) fmin fmax modes false None) (seeded 0%Z)))))))
      | _ => Err TypeError end).
Definition chromatic_fn {S : Type} (seeded : Z -> S) (next : S -> R * S) : pyfun gv :=
  PyFun ["toas"; "freqs"; "nmodes"; "Tspan"; "logf"; "fmin"; "fmax"; "idx"; "modes"]
    [num 30; none; num 0; none; none; num 4; none]
    (fun l => match l with
      | [GV (Vec toas); GV (Vec freqs); GV (Sc n); T; logf; fmin; fmax; GV (Sc idx); modes] =>
          rbind (or_none as_num T) (fun T => rbind (or_none as_num fmin) (fun fmin => rbind (or_none as_num fmax) (fun fmax =>
          rbind (or_none as_array modes) (fun modes =>
          rmap (fun Ff => GPair (GMat (length (snd Ff)) (fst Ff)) (GV (Vec (snd Ff))))
            (fst (create_chromatic seeded next toas freqs idx (Opts (Z.to_nat (Int_part n)) T (truthy logf) fmin fmax modes false None) (seeded 0%Z)))))))
      | _ => Err TypeError end).
(** utils.py L900-914 [normed_tm_basis]; other norms than None and excluded columns are
    those of ModelInterp.v and not followed here. *)
Definition to_columns (nc : nat) (rows : list (list R)) : columns := map (fun j => map (fun r => nth j r 0) rows) (seq 0 nc).
Definition to_rows (n : nat) (M : columns) : list (list R) := map (fun i => map (fun c => nth i c 0) M) (seq 0 n).
Definition normed_fn : pyfun gv := PyFun ["Mmat"; "norm"; "idx_exclude"] [none; none]
  (fun l => match l with
            | [GMat nc rows; GObj; GObj] =>
                rmap (fun Mw => GPair (GMat (length (fst Mw)) (to_rows (length rows) (fst Mw))) (num (snd Mw))) (normed_tm_basis (to_columns nc rows) None None)
            | _ => Err OtherError end).

(** ** Class factories *)
(** white_signals.py L78-97 [MeasurementNoise] *)
Definition measurement_noise (efac : arg gv) (equad : option (arg gv)) (name psrname : string) (psr : gv) (masks : dict string mask) : wsrc :=
  Plain (White (match equad with
                | None => FC efac_fn "" [("efac", efac)]
                | Some q => FC combined_fn "" [("efac", efac); ("log10_t2equad", q)] end) name psrname psr masks).
(** white_signals.py L105-116 [TNEquadNoise] *)
Definition tnequad_noise (tnequad : arg gv) (name psrname : string) (psr : gv) (masks : dict string mask) : wsrc :=
  Plain (White (FC tnequad_fn "" [("log10_tnequad", tnequad)]) name psrname psr masks).
(** gp_signals.py L219-230 with the defaults, L790-817 [MarginalizingTimingModel] *)
Definition timing_model (psrname : string) (psr : gv) : wsrc :=
  Margin (FC normed_fn "" [("idx_exclude", AVal none)]) "marginalizing_linear_timing_model" psrname psr.
(** The basis function of gp_signals.py L206-208 and L433-435 *)
Definition fourier_class {S : Type} (seeded : Z -> S) (next : S -> R * S) (components : nat) (Tspan logf fmin fmax modes pshift pseed : gv) : fcl :=
  FC (red_fn seeded next) "" [("nmodes", AVal (num (INR components))); ("Tspan", AVal Tspan); ("logf", AVal logf); ("fmin", AVal fmin); ("fmax", AVal fmax);
    ("modes", AVal modes); ("pshift", AVal pshift); ("pseed", AVal pseed)].
Definition plain_class {S : Type} (seeded : Z -> S) (next : S -> R * S) (components : nat) (Tspan : gv) : fcl :=
  fourier_class seeded next components Tspan (num 0) none none none (num 0) none.
(** gp_signals.py L188-216 [FourierBasisGP] with the default options *)
Definition fourier_gp {S : Type} (seeded : Z -> S) (next : S -> R * S) (spectrum : fcl) (components : nat) (Tspan : option R) (name psrname : string) (psr : gv) (masks : dict string mask) : wsrc :=
  Plain (Proc spectrum (plain_class seeded next components (match Tspan with Some T => num T | None => none end)) name psrname psr masks true).
(** gp_signals.py L24-185 [BasisGP] with the default options and the bases above, with
    keywords [nmodes], [Tspan] and, if given, [idx] *)
Inductive colour : Type := Achromatic | Dispersive | Chromatic (idx : option R).
Definition colour_class {S : Type} (seeded : Z -> S) (next : S -> R * S) (c : colour) (components : nat) (Tspan : gv) : fcl :=
  match c with
  | Achromatic => plain_class seeded next components Tspan
  | Dispersive => FC (dm_fn seeded next) "" [("nmodes", AVal (num (INR components))); ("Tspan", AVal Tspan)]
  | Chromatic None => FC (chromatic_fn seeded next) "" [("nmodes", AVal (num (INR components))); ("Tspan", AVal Tspan)]
  | Chromatic (Some x) => FC (chromatic_fn seeded next) "" [("nmodes", AVal (num (INR components))); ("Tspan", AVal Tspan); ("idx", AVal (num x))]
  end.
Definition coloured_gp {S : Type} (seeded : Z -> S) (next : S -> R * S) (spectrum : fcl) (c : colour) (components : nat) (Tspan : option R) (name psrname : string) (psr : gv) (masks : dict string mask) : wsrc :=
  match c with
  | Achromatic => fourier_gp seeded next spectrum components Tspan name psrname psr masks
  | _ => Plain (Proc spectrum (colour_class seeded next c components (match Tspan with Some T => num T | None => none end)) name psrname psr masks true)
  end.
(** gp_signals.py L448-461: the time span, from the TOAs of all pulsars the class was given
    unless it was set *)
Definition common_span (Tspan : option R) (toas : list (list R)) : result R :=
  match Tspan with
  | Some T => Ok T
  | None =>
      rbind (rmapM (fun l => match l with [] => Err ValueError | t :: l => Ok (fold_left Rmin l t, fold_left Rmax l t) end) toas) (fun mm =>
        match mm with [] => Err ValueError | x :: mm => Ok (fold_left Rmax (map snd mm) (snd x) - fold_left Rmin (map fst mm) (fst x)) end)
  end.
(** gp_signals.py L411-464 [FourierBasisCommonGP] with the default options; [span] is the
    keyword [Tspan] of the call in L461. *)
Definition fourier_common {S : Type} (seeded : Z -> S) (next : S -> R * S) (components : nat) (span : R) (name psrname : string) (psr pos : gv) (cls : nat) : wsrc :=
  Plain (Common (plain_class seeded next components (num span)) name psrname psr pos cls true).

(** ** The standard model *)
(** What the signals read of a pulsar, and its selections (by backend) *)
Record psrdata := PsrData { d_name : string; d_toas : list R; d_errs : list R; d_freqs : list R; d_pos : vec; d_res : list R;
  d_masks : dict string mask; d_nfit : nat; d_Mmat : list (list R) }.
Definition pos_list (v : vec) : list R := let '(a, b, c) := v in [a; b; c].
Definition d_gv (d : psrdata) : gv :=
  GPsr [("toas", GV (Vec (d_toas d))); ("toaerrs", GV (Vec (d_errs d))); ("freqs", GV (Vec (d_freqs d))); ("pos", GV (Vec (pos_list (d_pos d)))); ("Mmat", GMat (d_nfit d) (d_Mmat d))].
(** The keywords given to the factories (classes or instances of parameters, constants or
    numbers), numbers of frequencies and time spans: of a process of each pulsar, and of the
    model, whose common process may be missing. Processes have a selection, which gives masks
    for each pulsar; [no_selection] is the default. *)
Inductive shape : Type := Power (A g : arg gv) | Free (rho : arg gv) | Prior (fn : fcl).
Definition no_selection (d : psrdata) : dict string mask := [("", repeat true (length (d_toas d)))].
Record process := Process { c_name : string; c_colour : colour; c_shape : shape; c_n : nat; c_T : option R; c_sel : psrdata -> dict string mask }.
Record standard := Standard { m_efac : arg gv; m_equad : option (arg gv); m_tnequad : option (arg gv); m_ecorr : option pkind; m_procs : list process;
  m_orf : option orf_kind; m_gwshape : shape; m_gw : nat; m_Tgw : option R }.
Section Standard.
Context {S : Type}.
Variables (seeded : Z -> S) (next : S -> R * S) (m : standard) (span : R).
(** The prior functions: a power law, a free spectrum, or any other *)
Definition spectrum (s : shape) : fcl :=
  match s with
  | Power A g => FC powerlaw_fn "" [("log10_A", A); ("gamma", g)]
  | Free rho => FC free_fn "" [("log10_rho", rho)]
  | Prior fn => fn
  end.
Definition std_process (d : psrdata) (c : process) : wsrc :=
  coloured_gp seeded next (spectrum (c_shape c)) (c_colour c) (c_n c) (c_T c) (c_name c) (d_name d) (d_gv d) (c_sel c d).
Definition std_signals (d : psrdata) : list wsrc :=
  [timing_model (d_name d) (d_gv d);
   measurement_noise (m_efac m) (m_equad m) "" (d_name d) (d_gv d) (d_masks d)] ++
  map (std_process d) (m_procs m) ++
  match m_orf m with Some _ => [fourier_common seeded next (m_gw m) span "gw" (d_name d) (d_gv d) (GV (Vec (pos_list (d_pos d)))) 0] | None => [] end ++
  match m_ecorr m with Some kind => [Ecorr false kind (d_name d) (d_toas d) (d_masks d)] | None => [] end ++
  match m_tnequad m with Some a => [tnequad_noise a "" (d_name d) (d_gv d) (d_masks d)] | None => [] end.
(** gp_signals.py L293-294: prior and correlation of the common process *)
Definition std_fns (_ : nat) : fob * fob :=
  (inst (spectrum (m_gwshape m)) "gw" None, inst (FC (match m_orf m with Some k => orf_fn k | None => orf_fn Hd end) "" []) "gw" None).
Definition std_array (ps : list psrdata) : list (list wsrc * list R) := map (fun d => (std_signals d, d_res d)) ps.
End Standard.
