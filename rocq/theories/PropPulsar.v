(** Data of a pulsar: sorting, filtering and flags.
    Only theorem statements live here; the proofs are in ProofPulsar.v. *)
From Coq Require Import String Bool Arith List Permutation Sorted.
From Verif Require Import PyBase ModelPulsar ProofPulsar.
Import ListNotations.
Open Scope string_scope.
Open Scope list_scope.

(** C77: all public arrays are the stored ones under one permutation, which
    sorts the times stably; the inverse permutation undoes it on both sides. *)
Theorem sort_data_permutes : forall T A D (le : T -> T -> bool), order le -> forall p : psr T A D, p_sort p = true ->
  let p' := sort_data le p in let n := length (p_toas p) in
  exists ix iix, p_isort p' = Some ix /\ p_iisort p' = Some iix /\ Permutation ix (seq 0 n) /\
    one_permutation ix p p' /\
    StronglySorted (fun i j => forall x y, nth_error (p_toas p) i = Some x -> nth_error (p_toas p) j = Some y ->
      le x y = true /\ (le y x = true -> i < j)) ix /\
    (exists l, toas p' = Ok l /\ StronglySorted (fun x y => le x y = true) l) /\
    (forall X (a : list X), length a = n -> exists l, at_idx a (p_isort p') = Ok l /\ at_idx l (p_iisort p') = Ok a) /\
    (forall X (a : list X), length a = n -> exists l, at_idx a (p_iisort p') = Ok l /\ at_idx l (p_isort p') = Ok a).
Proof. exact sort_data_permutes_lem. Qed.
Print Assumptions sort_data_permutes.
Theorem sort_data_unsorted : forall T A D (le : T -> T -> bool) (p : psr T A D), p_sort p = false ->
  let p' := sort_data le p in
  toas p' = Ok (p_toas p) /\ toaerrs p' = Ok (p_toaerrs p) /\ residuals p' = Ok (p_residuals p) /\ freqs p' = Ok (p_ssbfreqs p) /\
  Mmat p' = Ok (p_dmat p) /\ stoas p' = Ok (p_stoas p) /\ telescope p' = Ok (p_telescope p) /\ pos_t p' = Ok (p_pos_t p) /\
  (forall X (a : list X), at_idx a (p_isort p') = Ok a /\ at_idx a (p_iisort p') = Ok a).
Proof. exact sort_data_unsorted_lem. Qed.
Print Assumptions sort_data_unsorted.
Theorem sort_data_stored : forall T A D (le : T -> T -> bool) (p : psr T A D),
  let p' := sort_data le p in
  sort_data le p' = p' /\ p_toas p' = p_toas p /\ p_toaerrs p' = p_toaerrs p /\ p_residuals p' = p_residuals p /\
  p_ssbfreqs p' = p_ssbfreqs p /\ p_dmat p' = p_dmat p /\ p_flags p' = p_flags p /\ p_planetssb p' = p_planetssb p.
Proof. exact sort_data_stored_lem. Qed.
Print Assumptions sort_data_stored.
Example sort_data_satisfiable : order Nat.leb /\ p_sort wit = true /\
  toas wit = Ok [1; 2; 3] /\ p_isort wit = Some [1; 2; 0] /\ p_iisort wit = Some [2; 0; 1].
Proof. exact (conj leb_order (conj eq_refl (conj eq_refl (conj eq_refl eq_refl)))). Qed.

(** C78: times, errors, residuals, frequencies, flags and rows of the design
    matrix stay aligned, a second identical filtering changes nothing; the other
    arrays do not. *)
Theorem filter_data_aligned : forall T A D (le : T -> T -> bool) (nz : list D -> bool), order le -> sum_test nz ->
  forall bounds (p : psr T A D), given bounds -> sized p -> consistent le p ->
  exists ts p', toas p = Ok ts /\ filter_data le nz bounds p = Ok p' /\
  let m := map (within le bounds) ts in
  follows m (toas p) (toas p') /\ follows m (toaerrs p) (toaerrs p') /\ follows m (residuals p) (residuals p') /\
  follows m (freqs p) (freqs p') /\
  (forall k, (exists f, dget string_dec (p_flags p) k = Some f) -> follows m (flag_vals p k) (flag_vals p' k)) /\
  (forall k, flag_vals p k = Err KeyError -> flag_vals p' k = Err KeyError) /\
  (exists rows keep, Mmat p = Ok rows /\ Mmat p' = Ok (map (keeping keep) (keeping m rows)) /\
    (forall r, In r rows -> length keep = length r) /\
    (forall j col, map (fun r => nth_error r j) (keeping m rows) = map Some col -> j < length keep -> nth_error keep j = Some (nz col))) /\
  (in_order le p -> p_planetssb p <> None -> follows m (planetssb p) (planetssb p')) /\
  consistent le p' /\ sized p'.
Proof. exact filter_data_aligned_lem. Qed.
Print Assumptions filter_data_aligned.
Theorem filter_data_again : forall T A D (le : T -> T -> bool) (nz : list D -> bool), order le ->
  forall bounds (p p' : psr T A D), given bounds -> sized p -> consistent le p ->
  p_planetssb p = None \/ in_order le p ->
  filter_data le nz bounds p = Ok p' -> filter_data le nz bounds p' = Ok p'.
Proof. exact filter_data_again_lem. Qed.
Print Assumptions filter_data_again.
Theorem filter_data_one_bound : forall T A D (le : T -> T -> bool) (nz : list D -> bool) (p : psr T A D) t,
  filter_data le nz (Some (Some t, None)) p = Err TypeError /\ filter_data le nz (Some (None, Some t)) p = Err TypeError.
Proof. exact filter_data_one_bound_lem. Qed.
Print Assumptions filter_data_one_bound.
Theorem filter_data_other_arrays_refuted : exists (p p' : psr nat nat nat) bounds ts, sized p /\ sized_rest p /\ consistent Nat.leb p /\
  toas p = Ok ts /\ filter_data Nat.leb nzsum bounds p = Ok p' /\
  let m := map (within Nat.leb bounds) ts in
  ~ follows m (stoas p) (stoas p') /\ ~ follows m (telescope p) (telescope p') /\ ~ follows m (pos_t p) (pos_t p') /\
  ~ follows m (sunssb p) (sunssb p') /\ ~ follows m (planetssb p) (planetssb p').
Proof. exact filter_data_other_arrays_refuted_lem. Qed.
Print Assumptions filter_data_other_arrays_refuted.
Example filter_data_satisfiable : order Nat.leb /\ sum_test nzsum /\ sized wit /\ consistent Nat.leb wit /\
  exists p', filter_data Nat.leb nzsum (Some (Some 2, Some 3)) wit = Ok p' /\
  toas p' = Ok [2; 3] /\ residuals p' = Ok [21; 31] /\ flag_vals p' "f" = Ok ["c2"; "c3"] /\ Mmat p' = Ok [[1; 2]; [1; 3]].
Proof. exact (conj leb_order (conj nzsum_test (conj (proj1 wit_ok) (conj (proj2 wit_ok) (ex_intro _ _ (conj eq_refl (conj eq_refl (conj eq_refl (conj eq_refl eq_refl))))))))). Qed.

(** C92: the parameter names are never filtered, so they label the columns only
    if no column is dropped. *)
Theorem filter_data_fitpars : forall T A D (le : T -> T -> bool) (nz : list D -> bool), order le -> sum_test nz ->
  forall bounds (p p' : psr T A D) rows rows', given bounds -> sized p -> consistent le p ->
  filter_data le nz bounds p = Ok p' -> Mmat p = Ok rows -> Mmat p' = Ok rows' ->
  p_fitpars p' = p_fitpars p /\
  ((forall ts j col, toas p = Ok ts -> map (fun r => nth_error r j) (keeping (map (within le bounds) ts) rows) = map Some col -> nz col = true) ->
   forall ts, toas p = Ok ts -> rows' = keeping (map (within le bounds) ts) rows).
Proof. exact filter_data_fitpars_lem. Qed.
Print Assumptions filter_data_fitpars.
Theorem filter_data_fitpars_refuted : exists (p p' : psr nat nat nat) bounds rows rows', sized p /\ consistent Nat.leb p /\
  filter_data Nat.leb nzsum bounds p = Ok p' /\ Mmat p = Ok rows /\ Mmat p' = Ok rows' /\
  (forall r, In r rows -> length r = length (p_fitpars p)) /\
  (exists r, In r rows' /\ length r <> length (p_fitpars p')) /\
  nth_error (p_fitpars p') 0 = Some "DMX" /\ nth_error (p_fitpars p) 1 = Some "Offset" /\
  map (fun r => nth_error r 0) rows' = map (fun r => nth_error r 1) (keeping [false; true; true] rows).
Proof. exact filter_data_fitpars_refuted_lem. Qed.
Print Assumptions filter_data_fitpars_refuted.

(** C79: flags set in time order are read back in time order. *)
Theorem set_flags_read_back : forall T A D (le : T -> T -> bool), order le -> forall (p : psr T A D) k w values,
  consistent le p -> p_flags_array p = false -> length values = length (p_toas p) ->
  exists p', set_flags p k w values = Ok p' /\ flag_vals p' k = Ok values /\
  (forall k', k' <> k -> flag_vals p' k' = flag_vals p k') /\
  toas p' = toas p /\ toaerrs p' = toaerrs p /\ residuals p' = residuals p /\ freqs p' = freqs p /\ Mmat p' = Mmat p /\
  consistent le p'.
Proof. exact set_flags_lem. Qed.
Print Assumptions set_flags_read_back.
Theorem set_flags_lengths : forall T A D (le : T -> T -> bool), order le -> forall (p : psr T A D) k w values,
  consistent le p -> p_flags_array p = false -> p_sort p = true ->
  (length values < length (p_toas p) -> set_flags p k w values = Err IndexError) /\
  (length (p_toas p) <= length values -> exists p', set_flags p k w values = Ok p' /\ flag_vals p' k = Ok (firstn (length (p_toas p)) values)).
Proof. exact set_flags_lengths_lem. Qed.
Print Assumptions set_flags_lengths.
Theorem set_flags_array : forall T A D (p : psr T A D) k w values, p_flags_array p = true ->
  set_flags p k w values = Err NotImplementedError.
Proof. exact set_flags_array_lem. Qed.
Print Assumptions set_flags_array.
Example set_flags_satisfiable : exists p', set_flags wit "f" 2 ["x"; "y"; "z"] = Ok p' /\ flag_vals p' "f" = Ok ["x"; "y"; "z"] /\
  p_flags p' = [("f", Flag 2 ["z"; "x"; "y"])].
Proof. exact (ex_intro _ _ (conj eq_refl (conj eq_refl eq_refl))). Qed.

(** C80: the first nonempty of group, g, sys, i, f and the joined front and back
    end, cut to the widest flag. *)
Theorem backend_flags_precedence : forall T A D (le : T -> T -> bool) (p : psr T A D) w, order le -> consistent le p -> flags_sized p -> flags_fit p ->
  widest (p_flags p) w ->
  exists bf, backend_flags p = Ok bf /\ length bf = length (p_toas p) /\
  forall j, j < length (p_toas p) -> let v := value_at p j in
    nth_error bf j = Some (first_nonempty [v "group"; v "g"; v "sys"; v "i"; v "f"; str_prefix w (joined (v "fe") (v "be"))]) /\
    (String.length (joined (v "fe") (v "be")) <= w ->
     nth_error bf j = Some (first_nonempty [v "group"; v "g"; v "sys"; v "i"; v "f"; joined (v "fe") (v "be")])).
Proof. exact backend_flags_lem. Qed.
Print Assumptions backend_flags_precedence.
Theorem backend_flags_none : forall T A D (p : psr T A D), p_flags p = [] -> backend_flags p = Err ValueError.
Proof. exact backend_flags_none_lem. Qed.
Print Assumptions backend_flags_none.
Theorem backend_flags_joined_refuted : exists (p : psr nat nat nat) bf j, consistent Nat.leb p /\ flags_sized p /\ flags_fit p /\
  backend_flags p = Ok bf /\ j < length (p_toas p) /\ let v := value_at p j in
  nth_error bf j <> Some (first_nonempty [v "group"; v "g"; v "sys"; v "i"; v "f"; joined (v "fe") (v "be")]) /\
  (exists j', value_at p j' "be" <> v "be" /\ nth_error bf j' = nth_error bf j).
Proof. exact backend_flags_joined_refuted_lem. Qed.
Print Assumptions backend_flags_joined_refuted.
Example backend_flags_satisfiable : consistent Nat.leb wit_be /\ backend_flags wit_be = Ok ["a"; "Rcvr"; "Rcvr"] /\ widest (p_flags wit_be) 4.
Proof. exact (conj eq_refl (conj eq_refl (ret_width_widest (p_flags wit_be) 4 eq_refl))). Qed.
