(** Model of the data held by a pulsar: sorting, filtering, flags
    (enterprise/pulsar.py L127-163, L186-320). Times, array entries (rows) and
    entries of the design matrix are abstract. *)
From Coq Require Import String Bool Arith List.
From Verif Require Import PyBase.
Import ListNotations.
Open Scope string_scope.
Open Scope list_scope.

(** * numpy indexing *)

(** [a[ix]] for an array of nonnegative indices. *)
Definition take_idx {X} (a : list X) (ix : list nat) : result (list X) :=
  rmapM (fun i => match nth_error a i with Some x => Ok x | None => Err IndexError end) ix.
(** An index attribute: an array of indices, or [slice(None, None, None)]. *)
Definition index : Type := option (list nat).
Definition at_idx {X} (a : list X) (ix : index) : result (list X) :=
  match ix with None => Ok a | Some l => take_idx a l end.
(** [a[mask]] for a boolean mask of the array's length. *)
Definition mask_idx {X} (a : list X) (m : list bool) : result (list X) :=
  if Nat.eqb (length a) (length m) then Ok (map fst (filter snd (combine a m))) else Err IndexError.
(** [v[p] = x] for an index in range *)
Fixpoint set_nth {X} (v : list X) (p : nat) (x : X) : list X :=
  match v, p with
  | [], _ => []
  | _ :: v', 0 => x :: v'
  | y :: v', S p' => y :: set_nth v' p' x
  end.

(** ["..."[:w]] *)
Definition clip (w : nat) (s : string) : string := String.substring 0 w s.
Definition fget {X} (d : list (string * X)) (k : string) : result X := dgetE string_dec d k.

Section Pulsar.
(** Times with their order; entries of the other arrays (numbers, rows or
    strings); entries of the design matrix with the test
    [np.sum(column) != 0.0]. *)
Context {T A D : Type}.
Variable le : T -> T -> bool.
Variable nz : list D -> bool.

(** [np.argsort(toas, kind="mergesort")]: the stable sorting permutation. *)
Definition argsort (toas : list T) : list nat :=
  map snd (isort (fun a b => le (fst a) (fst b)) (combine toas (seq 0 (length toas)))).
(** L131-133: [iisort[p] = ii] for ii, p in enumerate(isort) *)
Definition invert (ix : list nat) : list nat :=
  fold_left (fun v pi => set_nth v (snd pi) (fst pi)) (combine (seq 0 (length ix)) ix) (repeat 0 (length ix)).

(** [_flags]: a record array or a dictionary; a flag's values with the width of
    its string type. *)
Record flag := Flag { fl_width : nat; fl_vals : list string }.
Record psr := Psr {
  p_sort : bool;
  p_toas : list T; p_toaerrs : list A; p_residuals : list A; p_ssbfreqs : list A;
  p_dmat : list (list D);
  p_flags_array : bool; p_flags : list (string * flag);
  p_planetssb : option (list A);
  p_stoas : list A; p_telescope : list A; p_pos_t : list A; p_sunssb : option (list A);
  p_fitpars : list string;
  p_isort : index; p_iisort : index }.

(** L127-136 [sort_data] *)
Definition sort_data (p : psr) : psr :=
  let ix := if p_sort p then Some (argsort (p_toas p)) else None in
  let iix := if p_sort p then Some (invert (argsort (p_toas p))) else None in
  Psr (p_sort p) (p_toas p) (p_toaerrs p) (p_residuals p) (p_ssbfreqs p) (p_dmat p) (p_flags_array p) (p_flags p)
      (p_planetssb p) (p_stoas p) (p_telescope p) (p_pos_t p) (p_sunssb p) (p_fitpars p) ix iix.

(** L186-245, L290-320: the public arrays. *)
Definition toas (p : psr) := at_idx (p_toas p) (p_isort p).
Definition toaerrs (p : psr) := at_idx (p_toaerrs p) (p_isort p).
Definition residuals (p : psr) := at_idx (p_residuals p) (p_isort p).
Definition freqs (p : psr) := at_idx (p_ssbfreqs p) (p_isort p).
Definition Mmat (p : psr) := at_idx (p_dmat p) (p_isort p).
Definition stoas (p : psr) := at_idx (p_stoas p) (p_isort p).
Definition telescope (p : psr) := at_idx (p_telescope p) (p_isort p).
Definition pos_t (p : psr) := at_idx (p_pos_t p) (p_isort p).
(** [None[...]] raises TypeError *)
Definition planetssb (p : psr) := match p_planetssb p with Some a => at_idx a (p_isort p) | None => Err TypeError end.
Definition sunssb (p : psr) := match p_sunssb p with Some a => at_idx a (p_isort p) | None => Err TypeError end.

(** L246-252 [flags], and one flag of it *)
Definition flag_vals (p : psr) (k : string) : result (list string) :=
  rbind (fget (p_flags p) k) (fun f => at_idx (fl_vals f) (p_isort p)).
(** L254-261 [set_flags]; [w] is the width of the type of [values]. *)
Definition set_flags (p : psr) (k : string) (w : nat) (values : list string) : result psr :=
  if p_flags_array p then Err NotImplementedError else
  rmap (fun v =>
    Psr (p_sort p) (p_toas p) (p_toaerrs p) (p_residuals p) (p_ssbfreqs p) (p_dmat p) false
        (dset string_dec (p_flags p) k (Flag w v))
        (p_planetssb p) (p_stoas p) (p_telescope p) (p_pos_t p) (p_sunssb p) (p_fitpars p) (p_isort p) (p_iisort p))
    (at_idx values (p_iisort p)).

(** L263-288 [backend_flags]; assigning to [ret] clips to its width. *)
Definition ret_width (fs : list (string * flag)) : result nat :=
  match fs with [] => Err ValueError | _ => Ok (fold_right Nat.max 0 (map (fun kf => fl_width (snd kf)) fs)) end.
Definition fe_be (w : nat) (ab : string * string) : string :=
  let (a, b) := ab in if negb (String.eqb a "") && negb (String.eqb b "") then clip w (append a (append "_" b)) else "".
(** [ret[:] = values] for arrays of one length *)
Definition assign (ret values : list string) : result (list string) :=
  if Nat.eqb (length values) (length ret) then Ok values else Err ValueError.
Definition backend_flags (p : psr) : result (list string) :=
  let fs := p_flags p in
  rbind (ret_width fs) (fun w =>
  let ret := repeat "" (length (p_toas p)) in
  rbind (match dget string_dec fs "fe", dget string_dec fs "be" with
         | Some fe, Some be => assign ret (map (fe_be w) (combine (fl_vals fe) (fl_vals be)))
         | _, _ => Ok ret end) (fun ret =>
  rbind (fold_left (fun st k => rbind st (fun ret =>
           match dget string_dec fs k with
           | Some f => if Nat.eqb (length (fl_vals f)) (length ret)
                       then Ok (map (fun rv => if String.eqb (snd rv) "" then fst rv else clip w (snd rv)) (combine ret (fl_vals f)))
                       else Err ValueError
           | None => Ok ret end)) ["f"; "i"; "sys"; "g"; "group"] (Ok ret)) (fun ret =>
  at_idx ret (p_isort p)))).

(** * Filtering *)

(** Column [j] of a matrix given by rows, and the columns that are kept. *)
Definition column (m : list (list D)) (j : nat) : list D :=
  flat_map (fun r => match nth_error r j with Some x => [x] | None => [] end) m.
Definition width_of (m : list (list D)) : nat := match m with [] => 0 | r :: _ => length r end.
Definition select {X} (m : list bool) (l : list X) : list X := map fst (filter snd (combine l m)).

(** L138-163 [filter_data] with the times converted to seconds: [bounds] is None
    if neither is given; a missing one of the two raises TypeError (None times a
    number). *)
Definition filter_data (bounds : option (option T * option T)) (p : psr) : result psr :=
  rbind (match bounds with
         | None => Ok (map (fun _ => true) (p_toas p))
         | Some (Some a, Some b) => Ok (map (fun t => le a t && le t b) (p_toas p))
         | Some _ => Err TypeError
         end) (fun mask =>
  rbind (mask_idx (p_toas p) mask) (fun toas' =>
  rbind (mask_idx (p_toaerrs p) mask) (fun toaerrs' =>
  rbind (mask_idx (p_residuals p) mask) (fun residuals' =>
  rbind (mask_idx (p_ssbfreqs p) mask) (fun ssbfreqs' =>
  rbind (mask_idx (p_dmat p) mask) (fun rows =>
  let keep := map (fun j => nz (column rows j)) (seq 0 (width_of (p_dmat p))) in
  let dmat' := map (select keep) rows in
  rbind (rmapM (fun kf => rmap (fun v => (fst kf, Flag (fl_width (snd kf)) v)) (mask_idx (fl_vals (snd kf)) mask)) (p_flags p)) (fun flags' =>
  rbind (match p_planetssb p with
         | None => Ok None
         | Some _ => rbind (planetssb p) (fun a => rmap Some (mask_idx a mask))
         end) (fun planetssb' =>
  Ok (sort_data (Psr (p_sort p) toas' toaerrs' residuals' ssbfreqs' dmat' (p_flags_array p) flags' planetssb'
                     (p_stoas p) (p_telescope p) (p_pos_t p) (p_sunssb p) (p_fitpars p) (p_isort p) (p_iisort p))))))))))).
End Pulsar.
Arguments psr : clear implicits.
