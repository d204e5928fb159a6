(** Model of selections, pulsar-binding of functions, epoch quantisation and
    white-noise variances (enterprise/signals/selections.py, utils.py L759-815,
    white_signals.py). Times, frequencies and variances are real numbers. *)
From Coq Require Import String Bool Arith ZArith List Reals.
From Verif Require Import PyBase.
Import ListNotations.
Open Scope string_scope.
Open Scope list_scope.

Definition mask := list bool.
Definition Rltb (x y : R) : bool := if Rlt_dec x y then true else false.
Definition Rleb (x y : R) : bool := if Rle_dec x y then true else false.

(** * Selections *)

(** A dict comprehension [{k: v for ...}]. *)
Definition dict_of {V} (l : list (string * V)) : dict string V :=
  fold_left (fun d kv => dset string_dec d (fst kv) (snd kv)) l [].

(** [np.unique] on an array of strings: sorted, duplicates removed. *)
Fixpoint dedup (l : list string) : list string :=
  match l with
  | [] => []
  | x :: l' => match l' with
               | y :: _ => if String.eqb x y then dedup l' else x :: dedup l'
               | [] => [x]
               end
  end.
Definition np_unique (l : list string) : list string := dedup (isort sle l).

(** [flags == val] *)
Definition eq_mask (flags : list string) (v : string) : mask := map (fun f => String.eqb f v) flags.

(** selections.py L130-133 [by_backend] and L144-147 [by_telescope]: the
    argument is the array of flags. *)
Definition by_backend (flags : list string) : dict string mask :=
  dict_of (map (fun v => (v, eq_mask flags v)) (np_unique flags)).

(** selections.py L100-103 [by_band] ("B") and L124-127 [by_frontend] ("fe"):
    the argument is the dictionary of flag arrays. *)
Definition by_flag (name : string) (flags : dict string (list string)) : result (dict string mask) :=
  rmap by_backend (dgetE string_dec flags name).

(** selections.py L158-160 [no_selection]. *)
Definition no_selection (toas : list R) : dict string mask := [("", map (fun _ => true) toas)].

(** selections.py L94-97 [cut_half]; [max] of an empty array raises ValueError. *)
Definition rmax (x : R) (l : list R) : R := fold_left Rmax l x.
Definition rmin (x : R) (l : list R) : R := fold_left Rmin l x.
Definition cut_half (toas : list R) : result (dict string mask) :=
  match toas with
  | [] => Err ValueError
  | x :: l =>
      let midpoint := ((rmax x l + rmin x l) / 2)%R in
      Ok [("t1", map (fun t => Rleb t midpoint) toas); ("t2", map (fun t => Rltb midpoint t) toas)]
  end.

(** selections.py L106-121 [by_freq_band]. *)
Definition default_bands : dict string (R * R) :=
  [("Band.1", (0, 1000)); ("Band.2", (1000, 2000)); ("Band.3", (2000, 3000)); ("Band.4", (3000, 10000))]%R.
Definition band_mask (freqs : list R) (b : R * R) : mask :=
  map (fun f => Rleb (fst b) f && Rltb f (snd b)) freqs.
Definition by_freq_band (bands : option (dict string (R * R))) (freqs : list R) : dict string mask :=
  let bands := match bands with Some b => b | None => default_bands end in
  dict_of (map (fun kv => (fst kv, band_mask freqs (snd kv)))
             (filter (fun kv => existsb (fun x => x) (band_mask freqs (snd kv))) bands)).

(** selections.py L150-155 [by_index]. *)
Definition by_index (name : string) (idx : list nat) (toas : list R) : dict string mask :=
  [(name, map (fun i => existsb (Nat.eqb i) idx) (seq 0 (length toas)))].

(** [any([b in val for b in cb])] *)
Definition matches (cb : list string) (v : string) : bool := existsb (fun b => substring_of b v) cb.

Definition by_matching (cb : list string) (flags : list string) : dict string mask :=
  dict_of (map (fun v => (v, eq_mask flags v)) (filter (matches cb) (np_unique flags))).

(** selections.py L136-141 [nanograv_backends]. *)
Definition ngb : list string := ["ASP"; "GASP"; "GUPPI"; "PUPPI"; "YUPPI"; "CHIME"; "VEGAS"].
Definition nanograv_backends (flags : list string) : dict string mask := by_matching ngb flags.

(** selections.py L163-179 [custom_backends]; a single string counts as a list
    of one ([np.atleast_1d]). *)
Definition custom_backends (cb : option (list string)) (flags : list string) : dict string mask :=
  match cb with
  | Some l => by_matching l flags
  | None => by_backend flags
  end.

(** selections.py L182-221 [custom_backends_dict]. *)
Inductive cbarg : Type :=
| CBList : list string -> cbarg
| CBDict : dict string (option (list string)) -> cbarg
| CBNone : cbarg.
Definition custom_backends_dict (cb : cbarg) (backend_flags : list string)
    (flags : dict string (list string)) (toas : list R) : result (dict string mask) :=
  match cb with
  | CBList l => Ok (by_matching l backend_flags)
  | CBDict d =>
      fold_left
        (fun acc kv =>
           rbind acc (fun fd =>
             if String.eqb (fst kv) "backend" then
               Ok (dupdate string_dec fd (custom_backends (snd kv) backend_flags))
             else
               rbind (dgetE string_dec flags (fst kv)) (fun fl =>
                 Ok (dupdate string_dec fd (custom_backends (snd kv) fl)))))
        d (Ok [])
  | CBNone => Ok (no_selection toas)
  end.

(** * Selection objects *)

(** selections.py L73-86 [Selection.__call__] without [arr]: the parameter
    created for a mask is represented by the name it is given. *)
Definition sel_kname (key parname : string) : string :=
  if String.eqb key "" then parname else join_us [key; parname].
Definition selection_call (psrname : string) (masks : dict string mask) (parname : string)
    : dict string string * dict string mask :=
  fold_left
    (fun st kv =>
       let kname := sel_kname (fst kv) parname in
       let pname := join_us [psrname; kname] in
       (dset string_dec (fst st) kname pname, dset string_dec (snd st) kname (snd kv)))
    masks ([], []).

(** * Binding functions to a pulsar *)
Section Binding.
  Context {A B : Type}.
  (** An attribute or argument value: an array of at least one dimension (with
      its entries along the first axis), a zero-dimensional array, or any other
      object. *)
  Inductive attr : Type := AArr : list A -> attr | AZero : A -> attr | AObj : B -> attr.

  (** [attr[mask]] for a boolean mask of the array's length. *)
  Fixpoint take_mask {T} (l : list T) (m : mask) : list T :=
    match l, m with
    | x :: l', b :: m' => (if b : bool then [x] else []) ++ take_mask l' m'
    | _, _ => []
    end.

  (** selections.py L41-44; [None] is the default [Ellipsis], for which the
      compared length is 0 and indexing changes nothing; [len] of a
      zero-dimensional array raises TypeError. *)
  Definition mask_attr (m : option mask) (a : attr) : result attr :=
    match a with
    | AArr l =>
        match m with
        | None => Ok (AArr l)
        | Some mk => if Nat.eqb (length mk) (length l) then Ok (AArr (take_mask l mk)) else Ok (AArr l)
        end
    | AZero x => Err TypeError
    | AObj b => Ok (AObj b)
    end.

  (** selections.py L38-44: the loop over [funcargs[len(args):]]. *)
  Fixpoint append_attrs (psr : dict string attr) (m : option mask) (kwargs : dict string attr)
      (names : list string) (targs : list attr) : result (list attr) :=
    match names with
    | [] => Ok targs
    | n :: names' =>
        if negb (dmem string_dec kwargs n) && dmem string_dec psr n then
          match dget string_dec psr n with
          | Some a => rbind (mask_attr m a) (fun v => append_attrs psr m kwargs names' (targs ++ [v]))
          | None => append_attrs psr m kwargs names' targs
          end
        else append_attrs psr m kwargs names' targs
    end.

  (** A python call with positional arguments [targs] and keywords [kwargs] of
      a function with parameters [funcargs], some of which have defaults: the
      values the parameters receive. *)
  Fixpoint bind_pos (funcargs : list string) (targs : list attr) : result (dict string attr) :=
    match funcargs, targs with
    | _, [] => Ok []
    | [], _ :: _ => Err TypeError
    | n :: f', v :: t' => rmap (cons (n, v)) (bind_pos f' t')
    end.
  Fixpoint bind_kw (funcargs : list string) (bound kwargs : dict string attr) : result (dict string attr) :=
    match kwargs with
    | [] => Ok bound
    | (k, v) :: kw' =>
        if existsb (String.eqb k) funcargs then
          if dmem string_dec bound k then Err TypeError
          else bind_kw funcargs (bound ++ [(k, v)]) kw'
        else Err TypeError
    end.
  Fixpoint bind_def (funcargs : list string) (defaults bound : dict string attr) : result (dict string attr) :=
    match funcargs with
    | [] => Ok bound
    | n :: f' =>
        if dmem string_dec bound n then bind_def f' defaults bound
        else match dget string_dec defaults n with
             | Some v => bind_def f' defaults (bound ++ [(n, v)])
             | None => Err TypeError
             end
    end.
  Definition py_call (funcargs : list string) (defaults : dict string attr)
      (targs : list attr) (kwargs : dict string attr) : result (dict string attr) :=
    rbind (bind_pos funcargs targs) (fun b =>
    rbind (bind_kw funcargs b kwargs) (fun b2 => bind_def funcargs defaults b2)).

  (** selections.py L27-49 [wrapper]; the pulsar and the mask passed as keywords
      are separate arguments here ([psr] is always given, as by [Selection.masks]
      and [Function.__call__]); a function that itself has an argument "psr"
      receives it among [kwargs]. *)
  Definition selection_wrapper (funcargs : list string) (defaults : dict string attr)
      (psr : dict string attr) (m : option mask) (args : list attr) (kwargs : dict string attr)
      : result (dict string attr) :=
    rbind
      (if Nat.ltb (length args) (length funcargs)
       then append_attrs psr m kwargs (skipn (length args) funcargs) args
       else Ok args)
      (fun targs => py_call funcargs defaults targs kwargs).
End Binding.
Arguments attr : clear implicits.

(** * Epoch quantisation *)
Section Quant.
  (** [np.argsort] (not stable): any sorting permutation. *)
  Variable argsort : list R -> list nat.

  (** utils.py L766-771: the loop, with the two lists kept in reverse so that
      [x[-1]] is the head. *)
  Fixpoint bucket_loop (toas : list R) (dt : R) (order : list nat) (ref : list R) (ind : list (list nat))
      : list (list nat) :=
    match order with
    | [] => rev ind
    | i :: order' =>
        let t := nth i toas 0%R in
        if Rltb (t - hd 0%R ref) dt then
          bucket_loop toas dt order' ref ((hd [] ind ++ [i]) :: tl ind)
        else bucket_loop toas dt order' (t :: ref) ([i] :: ind)
    end.

  (** utils.py L761-771. *)
  Definition buckets (toas : list R) (dt : R) : result (list (list nat)) :=
    match argsort toas with
    | [] => Err IndexError
    | i :: order => Ok (bucket_loop toas dt order [nth i toas 0%R] [[i]])
    end.

  (** utils.py L758-782 [create_quantization_matrix]; rows of 0/1 entries. The
      weights (all ones) are left out. *)
  Definition quant_matrix (toas : list R) (dt : R) (nmin : nat) : result (list (list Z)) :=
    rmap (fun bs =>
            let bs2 := filter (fun ind => Nat.leb nmin (length ind)) bs in
            map (fun i => map (fun l => if existsb (Nat.eqb i) l then 1%Z else 0%Z) bs2)
              (seq 0 (length toas)))
      (buckets toas dt).

  (** [np.flatnonzero] *)
  Definition flatnonzero (col : list Z) : list nat :=
    filter (fun i => negb (Z.eqb (nth i col 0%Z) 0)) (seq 0 (length col)).

  Definition column (U : list (list Z)) (j : nat) : list Z := map (fun row => nth j row 0%Z) U.

  (** utils.py L785-805 [quant2ind]; [ncol] is [U.shape[1]]. *)
  Inductive epind : Type := EArr : list nat -> epind | ESlice : nat -> nat -> epind.
  Definition quant2ind_col (as_slice : bool) (col : list Z) : result epind :=
    let epinds := flatnonzero col in
    match epinds with
    | [] => Err IndexError
    | e0 :: _ =>
        if negb (Nat.eqb (last epinds 0 - e0 + 1) (length epinds)) || negb as_slice then Ok (EArr epinds)
        else Ok (ESlice e0 (last epinds 0 + 1))
    end.
  Definition quant2ind (as_slice : bool) (ncol : nat) (U : list (list Z)) : result (list epind) :=
    rmapM (fun j => quant2ind_col as_slice (column U j)) (seq 0 ncol).

  (** utils.py L808-814 [indices_from_slice]. *)
  Definition indices_from_slice (e : epind) : list nat :=
    match e with EArr l => l | ESlice a b => seq a (b - a) end.

  (** * ECORR epochs *)

  (** [U[mask, netot : nn + netot] = Um] as the block of columns alone: rows of
      [Um] in order at the selected TOAs, zeros elsewhere (white_signals.py
      L218-225). *)
  Fixpoint spread (m : mask) (nn : nat) (Um : list (list Z)) : list (list Z) :=
    match m with
    | [] => []
    | true :: m' => match Um with
                    | r :: Um' => r :: spread m' nn Um'
                    | [] => repeat 0%Z nn :: spread m' nn []
                    end
    | false :: m' => repeat 0%Z nn :: spread m' nn Um
    end.

  Definition ncols (Um : list (list Z)) : nat := match Um with [] => 0 | r :: _ => length r end.

  (** white_signals.py L213-230 for one key: the epoch index lists. *)
  Definition ecorr_key (toas : list R) (m : mask) : result (list (list nat)) :=
    rbind (quant_matrix (take_mask toas m) 1 2) (fun Um =>
      rmap (map indices_from_slice) (quant2ind false (ncols Um) (spread m (ncols Um) Um))).

  (** white_signals.py L208-230: [_idxs]. *)
  Definition sorted_keys {V} (d : dict string V) : list string := isort sle (dkeys d).
  Definition ecorr_idxs (toas : list R) (masks : dict string mask) : result (dict string (list (list nat))) :=
    rmap (@dict_of _)
      (rmapM (fun key => rbind (dgetE string_dec masks key) (fun m =>
                         rmap (pair key) (ecorr_key toas m))) (sorted_keys masks)).

  (** white_signals.py L289-294 [_get_jvecs]; [value key] is [self.get(key, params)]. *)
  Definition get_jvecs (idxs : dict string (list (list nat))) (value : string -> R)
      : list (list nat) * list R :=
    let get k := match dget string_dec idxs k with Some l => l | None => [] end in
    (flat_map get (sorted_keys idxs),
     flat_map (fun k => map (fun _ => Rpower 10 (2 * value k)) (get k)) (sorted_keys idxs)).
End Quant.

(** * White-noise variance *)

(** numpy broadcasting of [+] between a number or array: [ret = 0; ret += x]. *)
Inductive bcast : Type := BSca : R -> bcast | BVec : list R -> bcast.
Fixpoint map2 {A B C} (f : A -> B -> C) (l : list A) (m : list B) : list C :=
  match l, m with x :: l', y :: m' => f x y :: map2 f l' m' | _, _ => [] end.
Definition badd (a : bcast) (v : list R) : bcast :=
  match a with BSca x => BVec (map (Rplus x) v) | BVec l => BVec (map2 Rplus l v) end.

(** white_signals.py L58-63 [WhiteNoise.get_ndiag]; [vfn key] is the variance
    function of the selection evaluated on the whole pulsar. *)
Definition white_ndiag (vfn : string -> list R) (masks : dict string mask) : bcast :=
  fold_left
    (fun ret key =>
       match dget string_dec masks key with
       | Some m => badd ret (map2 (fun v (b : bool) => v * (if b then 1 else 0))%R (vfn key) m)
       | None => ret
       end)
    (isort sle (dkeys masks)) (BSca 0).

(** white_signals.py L68-75 and L100-102. *)
Definition efac_ndiag (toaerrs : list R) (efac : R) : list R :=
  map (fun s => efac ^ 2 * s ^ 2)%R toaerrs.
Definition combined_ndiag (toaerrs : list R) (efac log10_t2equad : R) : list R :=
  map (fun s => efac ^ 2 * (s ^ 2 + Rpower 10 (2 * log10_t2equad)))%R toaerrs.
Definition tnequad_ndiag (toas : list R) (log10_tnequad : R) : list R :=
  map (fun _ => 1 * Rpower 10 (2 * log10_tnequad))%R toas.

(** white_signals.py L78-97 [MeasurementNoise] and L105-115 [TNEquadNoise], with
    the parameter values of each selection. *)
Definition measurement_noise (toaerrs : list R) (efac : string -> R) (equad : option (string -> R))
    (masks : dict string mask) : bcast :=
  white_ndiag
    (fun key => match equad with
                | None => efac_ndiag toaerrs (efac key)
                | Some q => combined_ndiag toaerrs (efac key) (q key)
                end) masks.
Definition tnequad_noise (toas : list R) (q : string -> R) (masks : dict string mask) : bcast :=
  white_ndiag (fun key => tnequad_ndiag toas (q key)) masks.
