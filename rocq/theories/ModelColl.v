(** Collections of signals and arrays of pulsars as objects
    (enterprise/signals/signal_base.py L776-1004, L180-264, L342-400, L415-673): the
    cached methods of a collection, the column layout it keeps, the list of common
    signals an array keeps, and the order in which the likelihood asks for them.
    Arithmetic on arrays is taken from a record of operations (it is modelled in
    ModelNoise.v, ModelKernel.v, ModelPhi.v and ModelLike.v); [cache_call] is that of
    ModelCache.v. *)
From Coq Require Import String Bool Arith List Reals.
From Verif Require Import PyBase ModelCache.
Import ListNotations.
Set Implicit Arguments.
Unset Strict Implicit.
Open Scope nat_scope.
Open Scope list_scope.

(** A method call leaves the object in a new state, also if it raises. *)
Definition andthen {O A B} (x : O * result A) (f : A -> O -> O * result B) : O * result B :=
  match snd x with Ok a => f a (fst x) | Err e => (fst x, Err e) end.
(** [[f(x) for x in l]] over objects [l] with their states: stops at an exception. *)
Fixpoint each {M S B} (f : M -> S -> S * result B) (l : list M) (ss : list S) : list S * result (list B) :=
  match l, ss with
  | m :: l, s :: ss =>
      let (s', r) := f m s in
      match r with
      | Err e => (s' :: ss, Err e)
      | Ok b => let (ss', rs) := each f l ss in (s' :: ss', rmap (cons b) rs)
      end
  | _, _ => (ss, Ok [])
  end.
(** A cached method of an object that keeps the cache in one of its attributes *)
Definition cached {O B} (get : O -> cstate (num := R) B) (put : O -> cstate B -> O) (names : list string) (limit : nat)
    (func : params R -> O -> O * result B) (p : params R) (o : O) : O * result B :=
  let '((c, o1), r) := cache_call Req_EM_T names limit func p (get o, o) in (put o1 c, r).
Definition somes {A} (l : list (option A)) : list A := flat_map (fun x => match x with Some a => [a] | None => [] end) l.

Section Objects.
(** The states of signals, noise objects, delays and residuals, bases, column indices,
    priors of signals, of pulsars and between signals, results, and what L887 keeps while
    columns are combined *)
Variables St N D F I P Ph C X Y Q L LS : Type.

(** A signal: its type, the names its cached methods are keyed on, whether its basis is
    combined, its class if it is a common signal without coefficients (L388), and its
    methods *)
Record sg := Sg {
  s_type : sigtype; s_wp : list string; s_bp : list string; s_dp : list string; s_combine : bool; s_class : option nat;
  s_ndiag : params R -> St -> St * result (option N);
  s_delay : params R -> St -> St * result (option D);
  s_basis : params R -> St -> St * result (option F);
  s_phi : params R -> St -> St * result P;
  s_prior : params R -> St -> St * result R }.
(** [_metasignals] and [_residuals] *)
Record coll := Coll { c_sigs : list sg; c_res : D }.
(** [_idx], for each signal if it has a basis, and [_Fmat] *)
Definition layout : Type := list (option I) * option F.

(** Operations on arrays: [sum] of noises (L936) and delays (L941), residuals minus delay
    (L945), one turn of the loop L888-917 over bases with [bool(basis_params)] and
    [basis_combine], the array of L922-923, [np.zeros_like] (L955), [Fmat[:, idx] = F] (L959), [KernelMatrix(_Fmat.shape[1])]
    (L971), [phi.add(..., idx)] (L975), the three [solve] (L988, L996, L1002),
    [get_phicross] of two signals of a class, the inversion of the prior for a method
    (L415-533, given the layouts, the priors, the common signals and their cross terms) and
    the sum of the likelihood (L208-264) *)
Record ops := Ops {
  sum_noise : list N -> result N; sum_delay : list D -> result D; minus : D -> D -> result D;
  lay_start : LS; lay_step : LS -> F -> bool -> bool -> LS * I; lay_end : LS -> F;
  zeros_like : F -> F; place : F -> I -> F -> result F;
  kernel : F -> Ph; kernel_add : Ph -> P -> I -> result Ph;
  solve_TNr : N -> D -> F -> result X; solve_TNT : N -> F -> result X; solve_rNr : N -> D -> result Y;
  phicross : nat -> St -> St -> params R -> result C;
  invert : string -> list layout -> list (option Ph) -> list (nat * list (nat * nat)) -> list C -> result Q;
  finish : list (option X) -> list (option X) -> Q -> list Y -> list R -> result L }.
Variable op : ops.

(** ** A collection *)
(** L796-815 *)
Definition names_of (m : sg) : csig (num := R) unit := CSig (s_type m) (s_wp m) (s_bp m) (s_dp m) (fun _ => Ok tt).
Definition white_names (c : coll) : list string := white_params (map names_of (c_sigs c)).
Definition basis_names (c : coll) : list string := basis_params (map names_of (c_sigs c)).
Definition delay_names (c : coll) : list string := delay_params (map names_of (c_sigs c)).

(** The object between calls: its signals, [_idx] and [_Fmat] if they exist, and the
    caches *)
Record cobj := CObj {
  o_sigs : list St; o_lay : option layout;
  o_ndiag : cstate (num := R) N; o_delay : cstate (num := R) D; o_detres : cstate (num := R) D; o_basis : cstate (num := R) (option F);
  o_TNr : cstate (num := R) (option X); o_TNT : cstate (num := R) (option X); o_rNr : cstate (num := R) Y }.
(** L783-790 *)
Definition new_coll (ss : list St) : cobj := CObj ss None cempty cempty cempty cempty cempty cempty cempty.
Definition put_sigs (o : cobj) (ss : list St) : cobj := CObj ss (o_lay o) (o_ndiag o) (o_delay o) (o_detres o) (o_basis o) (o_TNr o) (o_TNT o) (o_rNr o).
Definition put_lay (o : cobj) (l : layout) : cobj := CObj (o_sigs o) (Some l) (o_ndiag o) (o_delay o) (o_detres o) (o_basis o) (o_TNr o) (o_TNT o) (o_rNr o).
Definition put_ndiag (o : cobj) c := CObj (o_sigs o) (o_lay o) c (o_delay o) (o_detres o) (o_basis o) (o_TNr o) (o_TNT o) (o_rNr o).
Definition put_delay (o : cobj) c := CObj (o_sigs o) (o_lay o) (o_ndiag o) c (o_detres o) (o_basis o) (o_TNr o) (o_TNT o) (o_rNr o).
Definition put_detres (o : cobj) c := CObj (o_sigs o) (o_lay o) (o_ndiag o) (o_delay o) c (o_basis o) (o_TNr o) (o_TNT o) (o_rNr o).
Definition put_basis (o : cobj) c := CObj (o_sigs o) (o_lay o) (o_ndiag o) (o_delay o) (o_detres o) c (o_TNr o) (o_TNT o) (o_rNr o).
Definition put_TNr (o : cobj) c := CObj (o_sigs o) (o_lay o) (o_ndiag o) (o_delay o) (o_detres o) (o_basis o) c (o_TNT o) (o_rNr o).
Definition put_TNT (o : cobj) c := CObj (o_sigs o) (o_lay o) (o_ndiag o) (o_delay o) (o_detres o) (o_basis o) (o_TNr o) c (o_rNr o).
Definition put_rNr (o : cobj) c := CObj (o_sigs o) (o_lay o) (o_ndiag o) (o_delay o) (o_detres o) (o_basis o) (o_TNr o) (o_TNT o) c.
(** One method of all the signals *)
Definition all_sigs {B} (c : coll) (f : sg -> St -> St * result B) (o : cobj) : cobj * result (list B) :=
  let (ss, r) := each f (c_sigs c) (o_sigs o) in (put_sigs o ss, r).

(** L933-936 *)
Definition get_ndiag (c : coll) : params R -> cobj -> cobj * result N :=
  cached o_ndiag put_ndiag (white_names c) 2 (fun p o =>
    andthen (all_sigs c (fun m => s_ndiag m p) o) (fun l o => (o, sum_noise op (somes l)))).
(** L938-941 *)
Definition get_delay (c : coll) : params R -> cobj -> cobj * result D :=
  cached o_delay put_delay (delay_names c) 2 (fun p o =>
    andthen (all_sigs c (fun m => s_delay m p) o) (fun l o => (o, sum_delay op (somes l)))).
(** L943-945 *)
Definition get_detres (c : coll) : params R -> cobj -> cobj * result D :=
  cached o_detres put_detres (delay_names c) 2 (fun p o =>
    andthen (get_delay c p o) (fun d o => (o, minus op (c_res c) d))).
(** L887-923 [_combine_basis_columns], given the signals' bases *)
Fixpoint lay_loop (l : list (sg * option F)) (st : LS) : LS * list (option I) :=
  match l with
  | [] => (st, [])
  | (_, None) :: l => let (st, is) := lay_loop l st in (st, None :: is)
  | (m, Some b) :: l =>
      let (st, i) := lay_step op st b (match s_bp m with [] => false | _ => true end) (s_combine m) in
      let (st, is) := lay_loop l st in (st, Some i :: is)
  end.
Definition columns (l : list (sg * option F)) : layout :=
  let (st, is) := lay_loop l (lay_start op) in
  (is, match somes is with [] => None | _ => Some (lay_end op st) end).
(** L925-931: [_idx] and [_Fmat] are made from the bases without parameters when they are
    first needed (L877-923) *)
Definition get_layout (c : coll) (o : cobj) : cobj * result layout :=
  match o_lay o with
  | Some l => (o, Ok l)
  | None =>
      andthen (all_sigs c (fun m => s_basis m []) o) (fun bs o =>
        let l := columns (combine (c_sigs c) bs) in (put_lay o l, Ok l))
  end.
(** L957-959 and L973-975: a loop over the signals that have columns, with what has been
    put together so far *)
Fixpoint over_columns {A} (f : sg -> I -> A -> St -> St * result A) (l : list (sg * option I)) (ss : list St) (a : A) : list St * result A :=
  match l, ss with
  | (m, None) :: l, s :: ss => let (ss', r) := over_columns f l ss a in (s :: ss', r)
  | (m, Some i) :: l, s :: ss =>
      let (s', r) := f m i a s in
      match r with
      | Err e => (s' :: ss, Err e)
      | Ok a => let (ss', r) := over_columns f l ss a in (s' :: ss', r)
      end
  | _, _ => (ss, Ok a)
  end.
(** L950-961 *)
Definition get_basis (c : coll) : params R -> cobj -> cobj * result (option F) :=
  cached o_basis put_basis (basis_names c) 1 (fun p o =>
    andthen (get_layout c o) (fun l o =>
    match snd l with
    | None => (o, Ok None)
    | Some F0 =>
        let (ss, r) := over_columns (fun m i T s => andthen (s_basis m p s) (fun b s =>
          (s, match b with Some b => place op T i b | None => Err TypeError end))) (combine (c_sigs c) (fst l)) (o_sigs o) (zeros_like op F0) in
        (put_sigs o ss, rmap Some r)
    end)).
(** L967-977 *)
Definition get_phi (c : coll) (p : params R) (o : cobj) : cobj * result (option Ph) :=
  andthen (get_layout c o) (fun l o =>
  match snd l with
  | None => (o, Ok None)
  | Some F0 =>
      let (ss, r) := over_columns (fun m i K s => andthen (s_phi m p s) (fun ph s => (s, kernel_add op K ph i)))
        (combine (c_sigs c) (fst l)) (o_sigs o) (kernel op F0) in
      (put_sigs o ss, rmap Some r)
  end).
(** L979-988 *)
Definition get_TNr (c : coll) : params R -> cobj -> cobj * result (option X) :=
  cached o_TNr put_TNr (basis_names c ++ white_names c ++ delay_names c) 2 (fun p o =>
    andthen (get_basis c p o) (fun T o =>
    match T with
    | None => (o, Ok None)
    | Some T => andthen (get_ndiag c p o) (fun Nv o => andthen (get_detres c p o) (fun res o => (o, rmap Some (solve_TNr op Nv res T))))
    end)).
(** L990-996 *)
Definition get_TNT (c : coll) : params R -> cobj -> cobj * result (option X) :=
  cached o_TNT put_TNT (basis_names c ++ white_names c) 2 (fun p o =>
    andthen (get_basis c p o) (fun T o =>
    match T with
    | None => (o, Ok None)
    | Some T => andthen (get_ndiag c p o) (fun Nv o => (o, rmap Some (solve_TNT op Nv T)))
    end)).
(** L998-1002 *)
Definition get_rNr (c : coll) : params R -> cobj -> cobj * result Y :=
  cached o_rNr put_rNr (white_names c ++ delay_names c) 2 (fun p o =>
    andthen (get_ndiag c p o) (fun Nv o => andthen (get_detres c p o) (fun res o => (o, solve_rNr op Nv res)))).
(** L1005-1006 *)
Definition get_logsignalprior (c : coll) (p : params R) (o : cobj) : cobj * result R :=
  andthen (all_sigs c (fun m => s_prior m p) o) (fun l o => (o, Ok (fold_left Rplus l 0%R))).

(** ** An array *)
(** The collections, and [_cs] if it exists: for each class its signals, as numbers of
    collection and signal *)
Definition commons : Type := list (nat * list (nat * nat)).
Record pobj := PObj { p_colls : list cobj; p_cs : option commons }.
Definition new_pta (sss : list (list St)) : pobj := PObj (map new_coll sss) None.
(** [[sc.method(params) for sc in self._signalcollections]] (L342-374, L434, L614) *)
Definition all_colls {B} (a : list coll) (f : coll -> cobj -> cobj * result B) (o : pobj) : pobj * result (list B) :=
  let (os, r) := each f a (p_colls o) in (PObj os (p_cs o), r).
(** L376-396 [_commonsignals]: asks each collection for [_Fmat]. *)
Definition add_common (d : commons) (x : nat * (nat * nat)) : commons :=
  dset Nat.eq_dec d (fst x) (match dget Nat.eq_dec d (fst x) with Some l => l | None => [] end ++ [snd x]).
Definition class_list (a : list coll) (ls : list layout) : list (nat * (nat * nat)) :=
  flat_map (fun icl : nat * (coll * layout) => let '(i, (c, l)) := icl in
    match snd l with
    | None => []
    | Some _ => flat_map (fun jm : nat * sg => match s_class (snd jm) with Some k => [(k, (i, fst jm))] | None => [] end)
                  (combine (seq 0 (length (c_sigs c))) (c_sigs c))
    end) (combine (seq 0 (length a)) (combine a ls)).
Definition commons_of (a : list coll) (ls : list layout) : commons :=
  filter (fun kl : nat * list (nat * nat) => Nat.ltb 1 (length (snd kl))) (fold_left add_common (class_list a ls) []).
Definition get_commons (a : list coll) (o : pobj) : pobj * result commons :=
  match p_cs o with
  | Some cs => (o, Ok cs)
  | None => andthen (all_colls a get_layout o) (fun ls o => (PObj (p_colls o) (Some (commons_of a ls)), Ok (commons_of a ls)))
  end.
(** L635 [itertools.combinations(csdict.items(), 2)]; the loops of L465-468 visit the same
    pairs in the same order. *)
Fixpoint pairs_of {A} (l : list A) : list (A * A) :=
  match l with [] => [] | x :: l => map (pair x) l ++ pairs_of l end.
Definition state_at (o : pobj) (ij : nat * nat) : option St :=
  match nth_error (p_colls o) (fst ij) with Some c => nth_error (o_sigs c) (snd ij) | None => None end.
(** L638: the cross terms, in order *)
Definition crosses (cs : commons) (p : params R) (o : pobj) : result (list C) :=
  rmapM (fun kp : nat * ((nat * nat) * (nat * nat)) =>
    match state_at o (fst (snd kp)), state_at o (snd (snd kp)) with
    | Some s1, Some s2 => phicross op (fst kp) s1 s2 p
    | _, _ => Err KeyError
    end) (flat_map (fun kl : nat * list (nat * nat) => map (pair (fst kl)) (pairs_of (snd kl))) cs).
(** L415-533, L613-653 *)
Definition get_phiinv (a : list coll) (method : string) (p : params R) (o : pobj) : pobj * result Q :=
  andthen (all_colls a (fun c => get_phi c p) o) (fun phis o =>
  andthen (get_commons a o) (fun cs o =>
  andthen (all_colls a get_layout o) (fun ls o =>
  (o, rbind (crosses cs p o) (fun xs => invert op method ls phis cs xs))))).
(** L197-264 for parameters given as a dictionary *)
Definition lnlikelihood (a : list coll) (method : string) (p : params R) (o : pobj) : pobj * result L :=
  andthen (all_colls a (fun c => get_TNr c p) o) (fun TNrs o =>
  andthen (all_colls a (fun c => get_TNT c p) o) (fun TNTs o =>
  andthen (get_phiinv a method p o) (fun q o =>
  andthen (all_colls a (fun c => get_rNr c p) o) (fun rNrs o =>
  andthen (all_colls a (fun c => get_logsignalprior c p) o) (fun pri o =>
  (o, finish op TNrs TNTs q rNrs pri)))))).

(** ** Programs *)
(** What is asked of the array, of one of its pulsars or of one of its signals, one after
    the other *)
Inductive which := WNdiag | WDelay | WDetres | WBasis | WPhi | WTNr | WTNT | WrNr | WPrior.
Inductive ask := ALike (method : string) (p : params R) | AColl (i : nat) (w : which) (p : params R) | ASig (i j : nat) (w : which) (p : params R).
Inductive ans := RLike (x : L) | RNoise (x : N) | RDelay (x : D) | RBasis (x : option F) | RPhi (x : option Ph) | RX (x : option X) | RY (x : Y) | RPrior (x : R)
  | RSNoise (x : option N) | RSDelay (x : option D) | RSPhi (x : P).
Definition mapr {O A B} (f : A -> B) (x : O * result A) : O * result B := (fst x, rmap f (snd x)).
Definition ask_coll (c : coll) (w : which) (p : params R) (o : cobj) : cobj * result ans :=
  match w with
  | WNdiag => mapr RNoise (get_ndiag c p o)
  | WDelay => mapr RDelay (get_delay c p o)
  | WDetres => mapr RDelay (get_detres c p o)
  | WBasis => mapr RBasis (get_basis c p o)
  | WPhi => mapr RPhi (get_phi c p o)
  | WTNr => mapr RX (get_TNr c p o)
  | WTNT => mapr RX (get_TNT c p o)
  | WrNr => mapr RY (get_rNr c p o)
  | WPrior => mapr RPrior (get_logsignalprior c p o)
  end.
Definition ask_sig (m : sg) (w : which) (p : params R) (s : St) : St * result ans :=
  match w with
  | WNdiag => mapr RSNoise (s_ndiag m p s)
  | WDelay => mapr RSDelay (s_delay m p s)
  | WBasis => mapr RBasis (s_basis m p s)
  | WPhi => mapr RSPhi (s_phi m p s)
  | WPrior => mapr RPrior (s_prior m p s)
  | _ => (s, Err AttributeError)
  end.
Fixpoint put_nth {A} (l : list A) (i : nat) (x : A) : list A :=
  match l, i with [], _ => [] | _ :: l, O => x :: l | y :: l, S i => y :: put_nth l i x end.
(** [l[i]] and a method of it *)
Definition at_nth {M S B} (l : list M) (ss : list S) (i : nat) (f : M -> S -> S * result B) : list S * result B :=
  match nth_error l i, nth_error ss i with
  | Some m, Some s => let (s', r) := f m s in (put_nth ss i s', r)
  | _, _ => (ss, Err IndexError)
  end.
Definition respond (a : list coll) (q : ask) (o : pobj) : pobj * result ans :=
  match q with
  | ALike method p => mapr RLike (lnlikelihood a method p o)
  | AColl i w p => let (os, r) := at_nth a (p_colls o) i (fun c => ask_coll c w p) in (PObj os (p_cs o), r)
  | ASig i j w p =>
      let (os, r) := at_nth a (p_colls o) i (fun c o => let (ss, r) := at_nth (c_sigs c) (o_sigs o) j (fun m => ask_sig m w p) in (put_sigs o ss, r)) in
      (PObj os (p_cs o), r)
  end.
Fixpoint run (a : list coll) (l : list ask) (o : pobj) : list (result ans) :=
  match l with
  | [] => []
  | q :: l => let (o', r) := respond a q o in r :: run a l o'
  end.
End Objects.
Arguments new_coll {St N D F I X Y} ss. Arguments new_pta {St N D F I X Y} sss.
Arguments RLike {N D F P Ph X Y L} x. Arguments RNoise {N D F P Ph X Y L} x. Arguments RDelay {N D F P Ph X Y L} x. Arguments RBasis {N D F P Ph X Y L} x.
Arguments RPhi {N D F P Ph X Y L} x. Arguments RX {N D F P Ph X Y L} x. Arguments RY {N D F P Ph X Y L} x. Arguments RPrior {N D F P Ph X Y L} x.
Arguments RSNoise {N D F P Ph X Y L} x. Arguments RSDelay {N D F P Ph X Y L} x. Arguments RSPhi {N D F P Ph X Y L} x.
Arguments ask_sig {St N D F P Ph X Y L} m w p s.
