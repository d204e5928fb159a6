(** Gaussian process signals as objects (enterprise/signals/gp_signals.py L24-185: [BasisGP]):
    names and parameters, basis, prior, sampled coefficients and the caches between
    calls. Prior and basis functions are those of ModelFunc.v over a concrete type of
    values, [cache_call] is that of ModelCache.v.
    The sampled coefficients of [BasisCommonGP] (L296-380) follow.
    Doubles are reals. *)
From Coq Require Import String Bool Arith List Reals.
From Verif Require Import PyBase ModelSelect ModelFunc ModelCache.
Import ListNotations.
Open Scope string_scope.
Open Scope list_scope.

(** ** Values *)
(** Parameter values (numbers and arrays), matrices with their number of columns, pairs,
    masks, pulsars with their attributes, and other objects. *)
Inductive gv : Type :=
| GV (v : pyval R)
| GMat (nc : nat) (rows : list (list R))
| GPair (a b : gv)
| GMask (m : mask)
| GPsr (attrs : list (string * gv))
| GObj.
(** selections.py L14-17, L39-45: attributes of a pulsar; those as long as the mask are
    masked. *)
Definition gv_attr (p : gv) (a : string) : option gv := match p with GPsr d => dget string_dec d a | _ => None end.
Definition gv_masked (m v : gv) : gv :=
  match m, v with
  | GMask mk, GV (Vec l) => if Nat.eqb (length mk) (length l) then GV (Vec (take_mask l mk)) else v
  | GMask mk, GMat nc rows => if Nat.eqb (length mk) (length rows) then GMat nc (take_mask rows mk) else v
  | _, _ => v
  end.
Notation fcl := (fclass gv).
Notation fob := (fobj gv).
Definition gparams := params R.
(** The values given to a signal, as python objects *)
Definition lift (p : gparams) : dict string gv := map (fun kv => (fst kv, GV (snd kv))) p.
Definition gcall (o : fob) (args : list gv) (kw : dict string gv) (p : gparams) : result gv :=
  call gv_attr gv_masked o args kw (lift p) None.

(** ** Construction *)
(** A vector of coefficients: its name, size and the parameters its density is given
    (L73-80) *)
Record coef := Coef { cf_name : string; cf_size : nat; cf_args : list (string * par gv) }.
Record gp := GP {
  g_name : string; g_keys : list string; g_masks : list mask;
  g_prior : dict string fob; g_bases : dict string fob;
  g_params : dict string (par gv); g_coefs : dict string coef }.
(** L55-56: the name under which the functions of a selection are instantiated *)
Definition pname (psrname name key : string) : string := us_name [psrname; name; key].
(** the parameters of a prior and a basis, in order *)
Definition pars_of (o : fob) : list (par gv) := dvals (fo_params o).
(** L41-62 *)
Definition gp_functions (priorfn basisfn : fcl) (name psrname : string) (psr : gv) (masks : dict string mask) : result gp :=
  let keys := sorted_keys masks in
  rmap (fun ms =>
    let prior key := inst priorfn (pname psrname name key) (Some psr) in
    let basis key := inst basisfn (pname psrname name key) (Some psr) in
    GP (append psrname (append "_" name)) keys ms
      (fold_left (fun d key => dset string_dec d key (prior key)) keys [])
      (fold_left (fun d key => dset string_dec d key (basis key)) keys [])
      (fold_left (fun d key => fold_left (fun d p => dset string_dec d (par_name p) p) (pars_of (prior key) ++ pars_of (basis key)) d) keys [])
      [])
  (rmapM (dgetE string_dec masks) keys).

(** ** The basis *)
(** The attributes [_labels], [_basis] (with its number of columns) and [_slices]; None
    before they exist *)
Record built := Built { b_labels : option (dict string gv); b_basis : option (nat * list (list R)); b_slices : option (dict string (nat * nat)) }.
Definition unbuilt : built := Built None None None.
(** L85-91 [basis_params] *)
Definition basis_params (g : gp) : list string :=
  flat_map (fun o => map (@par_name _) (fo_pars o)) (dvals (g_bases g)).
(** L100: unpacking the result of a basis function *)
Definition unpack (v : gv) : result (gv * gv) := match v with GPair F labels => Ok (F, labels) | _ => Err TypeError end.
(** [F.shape[1]]; arrays are not ragged *)
Definition as_mat (F : gv) : result (nat * list (list R)) :=
  match F with
  | GMat nc rows => if forallb (fun r => Nat.eqb (length r) nc) rows then Ok (nc, rows) else Err ValueError
  | GV (Vec _) => Err IndexError
  | _ => Err AttributeError
  end.
(** L98-100: the loop over the selections; [_labels] is filled while it runs. *)
Fixpoint eval_bases (g : gp) (p : gparams) (kms : list (string * mask)) (labels : dict string gv) (acc : list (string * gv))
    : dict string gv * result (list (string * gv)) :=
  match kms with
  | [] => (labels, Ok acc)
  | (key, m) :: kms =>
      match rbind (dgetE string_dec (g_bases g) key) (fun o => rbind (gcall o [] [("mask", GMask m)] p) unpack) with
      | Err e => (labels, Err e)
      | Ok (F, lab) => eval_bases g p kms (dset string_dec labels key lab) (dset string_dec acc key F)
      end
  end.
(** L113 [self._basis[mask, a : a + n] = F]. A single row is not stretched. *)
Definition count (m : mask) : nat := length (filter (fun b => b) m).
Fixpoint put_rows (B : list (list R)) (m : mask) (F : list (list R)) (a n : nat) : list (list R) :=
  match B, m with
  | row :: B', true :: m' =>
      match F with
      | f :: F' => (firstn a row ++ f ++ skipn (a + n) row) :: put_rows B' m' F' a n
      | [] => row :: put_rows B' m' [] a n
      end
  | row :: B', false :: m' => row :: put_rows B' m' F a n
  | _, _ => B
  end.
Definition put_block (B : list (list R)) (m : mask) (F : list (list R)) (a n : nat) : result (list (list R)) :=
  if negb (Nat.eqb (length m) (length B)) then Err IndexError
  else if negb (Nat.eqb (length F) (count m)) then Err ValueError
  else Ok (put_rows B m F a n).
(** L108-115 *)
Fixpoint put_blocks (bs : dict string gv) (kms : list (string * mask)) (B : list (list R)) (slices : dict string (nat * nat)) (nctot : nat)
    : (list (list R) * dict string (nat * nat)) * result unit :=
  match kms with
  | [] => ((B, slices), Ok tt)
  | (key, m) :: kms =>
      match rbind (dgetE string_dec bs key) (fun F => rbind (as_mat F) (fun nF => rmap (pair (fst nF)) (put_block B m (snd nF) nctot (fst nF)))) with
      | Err e => ((B, slices), Err e)
      | Ok (nn, B') => put_blocks bs kms B' (dset string_dec slices key (nctot, nn + nctot)) (nctot + nn)
      end
  end.
(** L97-115: the undecorated [_construct_basis] *)
Definition build (g : gp) (p : gparams) (s : built) : built * result unit :=
  let kms := combine (g_keys g) (g_masks g) in
  let (labels, r) := eval_bases g p kms [] [] in
  match r with
  | Err e => (Built (Some labels) (b_basis s) (b_slices s), Err e)
  | Ok bs =>
      match rbind (rmapM as_mat (dvals bs)) (fun l => match g_masks g with [] => Err IndexError | m :: _ => Ok (list_sum (map fst l), length m) end) with
      | Err e => (Built (Some labels) (b_basis s) (b_slices s), Err e)
      | Ok (nc, n) =>
          let '((B, slices), r) := put_blocks bs kms (repeat (repeat 0%R nc) n) [] 0 in
          (Built (Some labels) (Some (nc, B)) (Some slices), r)
      end
  end.

(** The object between calls: the cache of [get_delay], that of [_construct_basis] and what
    the latter leaves behind *)
Definition bstate : Type := cstate (num := R) unit * built.
Definition gstate : Type := cstate (num := R) (list R) * bstate.
(** L96: cached with limit one *)
Definition construct (g : gp) (p : gparams) (s : bstate) : bstate * result unit :=
  cache_call Req_EM_T (basis_params g) 1 (build g) p s.
Definition attribute {A} (x : option A) : result A := match x with Some v => Ok v | None => Err AttributeError end.

(** ** With marginalised coefficients (L160-183) *)
(** L169-172 [get_basis] *)
Definition get_basis (g : gp) (p : gparams) (s : bstate) : bstate * result (nat * list (list R)) :=
  let (s', r) := construct g p s in (s', rbind r (fun _ => attribute (b_basis (snd s')))).
(** L174-180 [get_phi]: the priors with their slices, which [KernelMatrix.set] then puts
    together (ModelKernel.v) *)
Definition get_phi (g : gp) (p : gparams) (s : bstate) : bstate * result (list ((nat * nat) * gv)) :=
  let (s', r) := construct g p s in
  (s', rbind r (fun _ => rbind (attribute (b_slices (snd s'))) (rmapM (fun ks : string * (nat * nat) =>
         rbind (dgetE string_dec (g_prior g) (fst ks)) (fun o =>
         rbind (attribute (b_labels (snd s'))) (fun labels =>
         rbind (dgetE string_dec labels (fst ks)) (fun lab =>
         rmap (pair (snd ks)) (gcall o [lab] [] p)))))))).

(** ** With sampled coefficients (L64-83, L120-158) *)
(** L68-83; [self._params] is that of the hyperparameters (one that is named like a vector
    of coefficients is not followed). *)
Definition gp_coefficients (name psrname : string) (g : gp) : gstate * result gp :=
  let (s, r) := construct g [] (cempty, unbuilt) in
  ((cempty, s), rbind r (fun _ => rbind (attribute (b_slices (snd s))) (fun slices =>
    rmap (fun cs => GP (g_name g) (g_keys g) (g_masks g) (g_prior g) (g_bases g) (g_params g) cs)
      (rmapM (fun key =>
         rbind (dgetE string_dec (g_prior g) key) (fun pr => rbind (dgetE string_dec (g_bases g) key) (fun ba =>
         rbind (dgetE string_dec slices key) (fun slc =>
         rmap (fun args => (key, Coef (append (pname psrname name key) "_coefficients") (snd slc - fst slc) args))
           (rmapM (fun p => rmap (pair (par_name p)) (dgetE string_dec (g_params g) (par_name p))) (pars_of pr ++ pars_of ba))))))
       (g_keys g))))).
Definition new_gp (priorfn basisfn : fcl) (coefficients : bool) (name psrname : string) (psr : gv) (masks : dict string mask) : result (gp * gstate) :=
  rbind (gp_functions priorfn basisfn name psrname psr masks) (fun g =>
    if coefficients then let (s, r) := gp_coefficients name psrname g in rmap (fun g => (g, s)) r
    else Ok (g, (cempty, (cempty, unbuilt)))).
(** signal_base.py L98-101 and L136-138: the names of the parameters, and those of them
    that name coefficients *)
Definition param_names (g : gp) : list string :=
  map (@par_name _) (filter (fun p => negb (is_cst p)) (dvals (g_params g))) ++ map (fun kc => cf_name (snd kc)) (g_coefs g).
Definition delay_params (g : gp) : list string := filter (substring_of "_coefficients") (param_names g).

(** parameter.py L536-571 for the function of L76: the values of its parameters by name.
    Constants are numbers or arrays. *)
Fixpoint own_values (args : list (string * par gv)) (p : gparams) : result gparams :=
  match args with
  | [] => Ok []
  | (n, q) :: args =>
      rbind (own_values args p) (fun d =>
      match dget string_dec p n with
      | Some v => Ok ((n, v) :: d)
      | None => match par_value q with Some (GV v) => Ok ((n, v) :: d) | Some _ => Err TypeError | None => Ok d end
      end)
  end.
Definition rsum (l : list R) : R := fold_right Rplus 0%R l.
Fixpoint map2 (f : R -> R -> R) (x y : list R) : list R := match x, y with a :: x', b :: y' => f a b :: map2 f x' y' | _, _ => [] end.
Section Density.
(** the density for a covariance matrix (L130-133; C53) *)
Variable dense : list R -> nat -> list (list R) -> result (option R).
(** numpy's broadcasting of [c * c / phi] *)
Definition broadcast (c l : list R) : result (list R * list R) :=
  if Nat.eqb (length c) (length l) then Ok (c, l) else
  match c, l with
  | _, [x] => Ok (c, repeat x (length c))
  | [x], _ => Ok (repeat x (length l), l)
  | _, _ => Err ValueError
  end.
(** L125-133; None is nan or infinite. *)
Definition coef_density (c : list R) (phi : gv) : result (option R) :=
  match phi with
  | GV (Vec l) => rbind (broadcast c l) (fun cl =>
      if existsb (fun x => if Rlt_dec 0 x then false else true) l then Ok None
      else Ok (Some (- / 2 * rsum (map2 (fun a b => a * a / b) (fst cl) (snd cl)) - / 2 * rsum (map ln l) - / 2 * INR (length l) * ln (2 * PI))%R))
  | GMat nc rows => dense c nc rows
  | GV _ => Err ValueError
  | _ => Err AttributeError
  end.
(** L122-133, and parameter.py L61-74 [get_logpdf] of the coefficients of [key] with
    their value in [p]; [timing] for the timing model, whose density is one (L246-251). *)
Definition coef_logpdf (timing : bool) (g : gp) (key : string) (p : gparams) (s : gstate) : gstate * result (option R) :=
  match rbind (dgetE string_dec (g_coefs g) key) (fun cf =>
        rbind (dgetE string_dec p (cf_name cf)) (fun c => rmap (pair c) (own_values (cf_args cf) p))) with
  | Err e => (s, Err e)
  | Ok (c, d) =>
      if timing then (s, Ok (Some 0%R)) else
      let (bs, r) := construct g d (snd s) in
      ((fst s, bs), rbind r (fun _ =>
        rbind (dgetE string_dec (g_prior g) key) (fun o =>
        rbind (attribute (b_labels (snd bs))) (fun labels =>
        rbind (dgetE string_dec labels key) (fun lab =>
        rbind (gcall o [lab] [] d) (fun phi =>
        match c with Vec l => coef_density l phi | _ => Err ValueError end))))))
  end.
End Density.
(** L141-149, the undecorated [get_delay] with sampled coefficients. Coefficients have no
    [value] of their own; a single one is not stretched. *)
Fixpoint fill_coefs (g : gp) (p : gparams) (slices : list (string * (nat * nat))) (c : list R) : result (list R) :=
  match slices with
  | [] => Ok c
  | (key, (a, b)) :: slices =>
      rbind (dgetE string_dec (g_coefs g) key) (fun cf =>
      match dget string_dec p (cf_name cf) with
      | None => Err AttributeError
      | Some (Vec l) => if Nat.eqb (length l) (b - a) then fill_coefs g p slices (firstn a c ++ l ++ skipn b c) else Err ValueError
      | Some _ => Err ValueError
      end)
  end.
Definition dot (x y : list R) : R := rsum (map2 Rmult x y).
Definition delay_body (g : gp) (p : gparams) (s : bstate) : bstate * result (list R) :=
  let (s', r) := construct g p s in
  (s', rbind r (fun _ =>
       rbind (attribute (b_basis (snd s'))) (fun nB =>
       rbind (attribute (b_slices (snd s'))) (fun slices =>
       rmap (fun c => map (fun row => dot row c) (snd nB)) (fill_coefs g p slices (repeat 0%R (fst nB))))))).
(** L140: cached with limit two *)
Definition get_delay (g : gp) (p : gparams) (s : gstate) : gstate * result (list R) :=
  cache_call Req_EM_T (basis_params g ++ delay_params g) 2 (delay_body g) p s.

(** ** Programs *)
(** What is asked of a signal one after the other; an exception leaves the object as it is
    then. A signal with sampled coefficients has no basis and prior of its own, and one
    without has no delay (L151-167). *)
Inductive ask := ABasis (p : gparams) | APhi (p : gparams) | ADelay (p : gparams) | ALogpdf (key : string) (p : gparams).
Inductive answer := RNone | RZero | RBasis (nc : nat) (B : list (list R)) | RPhi (l : list ((nat * nat) * gv)) | RDelay (d : list R) | RLogpdf (x : option R).
Section Run.
Variable dense : list R -> nat -> list (list R) -> result (option R).
Variables (sampled timing : bool) (g : gp).
Definition respond (s : gstate) (a : ask) : gstate * result answer :=
  match a with
  | ABasis p => if sampled then (s, Ok RNone) else let (b, r) := get_basis g p (snd s) in ((fst s, b), rmap (fun nB => RBasis (fst nB) (snd nB)) r)
  | APhi p => if sampled then (s, Ok RNone) else let (b, r) := get_phi g p (snd s) in ((fst s, b), rmap RPhi r)
  | ADelay p => if sampled then let (s, r) := get_delay g p s in (s, rmap RDelay r) else (s, Ok RZero)
  | ALogpdf key p => if sampled then let (s, r) := coef_logpdf dense timing g key p s in (s, rmap RLogpdf r) else (s, Err KeyError)
  end.
Fixpoint run (l : list ask) (s : gstate) : list (result answer) :=
  match l with
  | [] => []
  | a :: l => let (s', r) := respond s a in r :: run l s'
  end.
End Run.

(** ** The sampled coefficients of a common process (L296-380) *)
(** The basis function, the names of the parameters that are not constant, and the name
    of the coefficients *)
Record cgp := CGP { c_basis : fob; c_names : list string; c_coef : string }.
(** L296-335; [given] is the name of the user's parameter, if one is given (L315-321). *)
Definition new_cgp (basisfn : fcl) (prior orf : fob) (given : option string) (name psrname : string) (psr : gv) : cgp :=
  let pn := join_us [psrname; name] in
  let o := inst basisfn pn (Some psr) in
  let cn := match given with Some n => n | None => append pn "_coefficients" end in
  let d := fold_left (fun d p => dset string_dec d (par_name p) p) (pars_of prior ++ pars_of orf ++ pars_of o) [] in
  CGP o (map (@par_name _) (filter (fun p => negb (is_cst p)) (dvals d)) ++ [cn]) cn.
(** L345-347: the undecorated [_construct_basis] *)
Definition c_build (c : cgp) (p : gparams) (s : option (gv * gv)) : option (gv * gv) * result unit :=
  match rbind (gcall (c_basis c) [] [] p) unpack with
  | Err e => (s, Err e)
  | Ok x => (Some x, Ok tt)
  end.
Definition c_basis_params (c : cgp) : list string := map (@par_name _) (fo_pars (c_basis c)).
(** L358-360 *)
Definition c_delay_params (c : cgp) : list string := filter (substring_of "_coefficients") (c_names c).
Definition cstateC : Type := cstate (num := R) unit * option (gv * gv).
Definition c_construct (c : cgp) (p : gparams) (s : cstateC) : cstateC * result unit :=
  cache_call Req_EM_T (c_basis_params c) 1 (c_build c) p s.
(** L362-368, undecorated; coefficients have no [value] of their own. *)
Definition c_delay_body (c : cgp) (p : gparams) (s : cstateC) : cstateC * result (list R) :=
  let (s', r) := c_construct c p s in
  (s', rbind r (fun _ => rbind (attribute (snd s')) (fun b => rbind (as_mat (fst b)) (fun nB =>
       match dget string_dec p (c_coef c) with
       | None => Err AttributeError
       | Some (Vec l) => if Nat.eqb (length l) (fst nB) then Ok (map (fun row => dot row l) (snd nB)) else Err ValueError
       | Some _ => Err ValueError
       end)))).
Definition c_get_delay (c : cgp) (p : gparams) (s : cstate (num := R) (list R) * cstateC) :=
  cache_call Req_EM_T (c_basis_params c ++ c_delay_params c) 2 (c_delay_body c) p s.
Fixpoint c_run (c : cgp) (l : list gparams) (s : cstate (num := R) (list R) * cstateC) : list (result (list R)) :=
  match l with
  | [] => []
  | p :: l => let (s', r) := c_get_delay c p s in r :: c_run c l s'
  end.
(** L312-313: the basis is made once at first. *)
Definition c_start (c : cgp) : result (cstate (num := R) (list R) * cstateC) :=
  let (s, r) := c_construct c [] (cempty, None) in rmap (fun _ => (cempty, s)) r.
