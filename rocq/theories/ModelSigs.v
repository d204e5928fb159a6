(** The signals of the package as members of a collection (ModelColl.v): white noise
    (enterprise/signals/white_signals.py L29-65), deterministic signals
    (deterministic_signals.py L14-53), Gaussian processes with marginalised and with
    sampled coefficients (gp_signals.py L24-185) and common processes with marginalised
    coefficients (gp_signals.py L270-411). Functions and values are those of ModelGp.v. *)
From Coq Require Import String Bool Arith List Reals.
From Verif Require Import PyBase ModelSelect ModelFunc ModelCache ModelGp ModelColl.
Import ListNotations.
Open Scope nat_scope.
Open Scope string_scope.
Open Scope list_scope.

(** What a signal keeps between calls: the caches and the basis of a Gaussian process, those
    of a common process with its [_psrpos], or the cache of one method *)
Inductive sst : Type := SGp (s : gstate) | SCom (pos : gv) (s : cstateC) | SArr (c : cstate (num := R) (list R)).
(** A basis with its number of columns; the number 0 or an array; a prior by slices, one
    for all columns, or None *)
Definition fmat : Type := nat * list (list R).
Inductive dval : Type := DZero | DArr (d : list R).
Inductive sprior : Type := PSel (l : list ((nat * nat) * gv)) | PCom (v : gv) | PNone.
Definition psig : Type := sg sst (list R) dval fmat sprior.

(** signal_base.py L145-173: what a signal answers that does not define a method *)
Definition no_ndiag (p : params R) (s : sst) : sst * result (option (list R)) := (s, Ok None).
Definition no_delay (p : params R) (s : sst) : sst * result (option dval) := (s, Ok (Some DZero)).
Definition no_basis (p : params R) (s : sst) : sst * result (option fmat) := (s, Ok None).
Definition no_phi (p : params R) (s : sst) : sst * result sprior := (s, Ok PNone).
Definition no_prior (p : params R) (s : sst) : sst * result R := (s, Ok 0%R).

(** ** One function for each selection *)
(** white_signals.py L42-51 and deterministic_signals.py L26-40: the functions by
    selection, and [_params] *)
Record fsel := FSel { f_keys : list string; f_masks : list mask; f_fn : dict string fob; f_params : dict string (par gv) }.
Definition new_fsel (fn : fcl) (name psrname : string) (psr : gv) (masks : dict string mask) : result fsel :=
  let keys := sorted_keys masks in
  let o key := inst fn (pname psrname name key) (Some psr) in
  rmap (fun ms => FSel keys ms
      (fold_left (fun d key => dset string_dec d key (o key)) keys [])
      (fold_left (fun d key => fold_left (fun d q => dset string_dec d (par_name q) q) (pars_of (o key)) d) keys []))
    (rmapM (dgetE string_dec masks) keys).
(** white_signals.py L54-56 [ndiag_params] and deterministic_signals.py L42-45
    [delay_params] *)
Definition f_names (f : fsel) : list string := map (@par_name _) (filter (fun q => negb (is_cst q)) (dvals (f_params f))).
(** A method of one array, cached with limit two (white_signals.py L58,
    deterministic_signals.py L47) *)
Definition cached_array {B} (wrap : list R -> B) (names : list string) (body : params R -> result (list R)) (p : params R) (s : sst) : sst * result (option B) :=
  match s with
  | SArr c => let '((c', _), r) := cache_call Req_EM_T names 2 (fun p u => (u, body p)) p (c, tt) in (SArr c', rmap (fun x => Some (wrap x)) r)
  | _ => (s, Err AttributeError)
  end.

(** *** White noise *)
(** white_signals.py L62 [self._ndiag[key](params=params) * mask] *)
Definition times_mask (v : gv) (m : mask) : result (list R) :=
  match v with
  | GV (Sc x) => Ok (map (fun b : bool => if b then x else 0%R) m)
  | GV (Vec l) => if Nat.eqb (length l) (length m) then Ok (map (fun xb : R * bool => if snd xb then fst xb else 0%R) (combine l m)) else Err ValueError
  | _ => Err TypeError
  end.
(** [ret += ...]; None is the number 0. *)
Definition plus_array (ret : option (list R)) (x : list R) : result (option (list R)) :=
  match ret with
  | None => Ok (Some x)
  | Some y => if Nat.eqb (length y) (length x) then Ok (Some (map2 Rplus y x)) else Err ValueError
  end.
(** L59-63, undecorated; without selections the noise would be the number 0, which is not
    followed. *)
Definition white_body (f : fsel) (p : params R) : result (list R) :=
  rbind (fold_left (fun acc km => rbind acc (fun ret =>
      rbind (dgetE string_dec (f_fn f) (fst km)) (fun o => rbind (gcall o [] [] p) (fun v => rbind (times_mask v (snd km)) (plus_array ret)))))
    (combine (f_keys f) (f_masks f)) (Ok None)) (fun ret => match ret with Some x => Ok x | None => Err OtherError end).
Definition white_sg (f : fsel) : psig :=
  Sg WhiteT (f_names f) [] [] false None (cached_array (fun x => x) (f_names f) (white_body f)) no_delay no_basis no_phi no_prior.

(** *** Deterministic signals *)
(** [delay[mask] = ...] (deterministic_signals.py L50) *)
Fixpoint put_at (d : list R) (m : mask) (x : list R) : list R :=
  match d, m with
  | y :: d, true :: m => match x with v :: x => v :: put_at d m x | [] => y :: d end
  | y :: d, false :: m => y :: put_at d m x
  | _, _ => d
  end.
Definition assign (d : list R) (m : mask) (v : gv) : result (list R) :=
  if negb (Nat.eqb (length m) (length d)) then Err IndexError else
  match v with
  | GV (Sc x) => Ok (put_at d m (repeat x (count m)))
  | GV (Vec [x]) => Ok (put_at d m (repeat x (count m)))
  | GV (Vec l) => if Nat.eqb (length l) (count m) then Ok (put_at d m l) else Err ValueError
  | _ => Err TypeError
  end.
(** L48-51, undecorated *)
Definition det_body (f : fsel) (ntoas : nat) (p : params R) : result (list R) :=
  fold_left (fun acc km => rbind acc (fun d =>
      rbind (dgetE string_dec (f_fn f) (fst km)) (fun o => rbind (gcall o [] [("mask", GMask (snd km))] p) (assign d (snd km)))))
    (combine (f_keys f) (f_masks f)) (Ok (repeat 0%R ntoas)).
Definition det_sg (f : fsel) (ntoas : nat) : psig :=
  Sg DeterministicT [] [] (f_names f) false None no_ndiag (cached_array DArr (f_names f) (det_body f ntoas)) no_basis no_phi no_prior.

(** ** Gaussian processes *)
(** gp_signals.py L160-183: marginalised coefficients *)
Definition gp_sg (g : gp) (comb : bool) : psig :=
  Sg BasisT [] (basis_params g) [] comb None no_ndiag no_delay
    (fun p s => match s with SGp (c, b) => let (b', r) := ModelGp.get_basis g p b in (SGp (c, b'), rmap Some r) | _ => (s, Err AttributeError) end)
    (fun p s => match s with SGp (c, b) => let (b', r) := ModelGp.get_phi g p b in (SGp (c, b'), rmap PSel r) | _ => (s, Err AttributeError) end)
    no_prior.
(** gp_signals.py L120-158: sampled coefficients *)
Definition sampled_sg (g : gp) (comb : bool) : psig :=
  Sg BasisT [] (basis_params g) (delay_params g) comb None no_ndiag
    (fun p s => match s with SGp s => let (s', r) := ModelGp.get_delay g p s in (SGp s', rmap (fun d => Some (DArr d)) r) | _ => (s, Err AttributeError) end)
    no_basis no_phi no_prior.

(** ** Common processes *)
(** [prior * orf] (gp_signals.py L402, L409) *)
Definition gtimes (a b : gv) : result gv :=
  match a, b with
  | GV (Vec l), GV (Sc x) => Ok (GV (Vec (map (fun y => Rmult y x) l)))
  | GV (Sc y), GV (Sc x) => Ok (GV (Sc (Rmult y x)))
  | _, _ => Err TypeError
  end.
(** The prior of the labels times the correlation of two positions *)
Definition com_prior (pr orf : fob) (labels pos1 pos2 : gv) (p : params R) : result gv :=
  rbind (gcall pr [labels] [] p) (fun a => rbind (gcall orf [pos1; pos2] [] p) (gtimes a)).
(** gp_signals.py L384-402, for the class with number [cls] *)
Definition common_sg (c : cgp) (pr orf : fob) (cls : nat) (comb : bool) : psig :=
  Sg CommonBasisT [] (c_basis_params c) [] comb (Some cls) no_ndiag no_delay
    (fun p s => match s with
      | SCom pos s => let (s', r) := c_construct c p s in
          (SCom pos s', rbind r (fun _ => rbind (attribute (snd s')) (fun b => rmap Some (as_mat (fst b)))))
      | _ => (s, Err AttributeError) end)
    (fun p s => match s with
      | SCom pos s => let (s', r) := c_construct c p s in
          (SCom pos s', rbind r (fun _ => rbind (attribute (snd s')) (fun b => rmap PCom (com_prior pr orf (snd b) pos pos p))))
      | _ => (s, Err AttributeError) end)
    no_prior.
(** gp_signals.py L404-409: the labels the first signal happens to hold; [fns] are [_prior]
    and [_orf] of the classes. *)
Definition common_cross (fns : nat -> fob * fob) (cls : nat) (s1 s2 : sst) (p : params R) : result gv :=
  match s1, s2 with
  | SCom pos1 s1, SCom pos2 _ => rbind (attribute (snd s1)) (fun b => com_prior (fst (fns cls)) (snd (fns cls)) (snd b) pos1 pos2 p)
  | _, _ => Err AttributeError
  end.

(** ** Arrays of these signals *)
(** A signal with what it was made of; the state is the one a signal with sampled
    coefficients is made in (L68-72), [pos] is [_psrpos] (L325), [cls] the class. *)
Inductive desc : Type :=
| DWhite (f : fsel) | DDet (f : fsel) (ntoas : nat) | DGp (g : gp) (comb : bool) | DSampled (g : gp) (s : gstate) (comb : bool)
| DCommon (c : cgp) (pos : gv) (cls : nat) (comb : bool).
Definition sg_of (fns : nat -> fob * fob) (d : desc) : psig :=
  match d with
  | DWhite f => white_sg f
  | DDet f n => det_sg f n
  | DGp g comb => gp_sg g comb
  | DSampled g _ comb => sampled_sg g comb
  | DCommon c _ cls comb => common_sg c (fst (fns cls)) (snd (fns cls)) cls comb
  end.
Definition start_of (d : desc) : sst :=
  match d with
  | DWhite _ | DDet _ _ => SArr cempty
  | DGp _ _ => SGp (cempty, (cempty, unbuilt))
  | DSampled _ s _ => SGp s
  | DCommon _ pos _ _ => SCom pos (cempty, None)
  end.
