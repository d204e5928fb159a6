(** Files: saving and reading pulsars, counting observations, loading, distances.
    Only theorem statements live here; the proofs are in ProofFiles.v. *)
From Coq Require Import Ascii String Bool Arith Lia List.
From Verif Require Import PyBase ProofBase ModelFiles ProofFiles.
Import ListNotations.
Open Scope string_scope.
Open Scope list_scope.

(** C82: saving always raises; if the list of metadata were found, reading the
    table would give back every array, the flags, the metadata and the noise values
    of the pulsar, for planet tensors of at most ten rows; with eleven it raises. *)
Theorem save_feather_fails : forall C J (p : arrays C J), save_feather p = Err AttributeError.
Proof. exact save_feather_fails_lem. Qed.
Print Assumptions save_feather_fails.
Theorem read_saved : forall C J (p : arrays C J), saveable p ->
  exists meta, read_feather (save_with metadata p) = Ok (a_columns p, a_vectors p, a_planets p, a_flags p, meta, t_noise (save_with metadata p)) /\
  (forall n, In n ["name"; "dm"; "dmx"; "pdist"; "pos"; "phi"; "theta"] -> dget string_dec meta n = dget string_dec (a_meta p) n) /\
  (forall n, dget string_dec meta n <> None -> In n ["name"; "dm"; "dmx"; "pdist"; "pos"; "phi"; "theta"]).
Proof. exact read_saved_lem. Qed.
Print Assumptions read_saved.
Theorem read_noise : forall C J (p : arrays C J) d, a_noise p = Some d -> d <> [] ->
  exists d', t_noise (save_with metadata p) = Some d' /\ forall k v, In (k, v) d' <-> In (k, v) d /\ String.prefix (a_name p) k = true.
Proof. exact read_noise_lem. Qed.
Print Assumptions read_noise.
Theorem read_many_rows_refuted : exists p : arrays nat nat,
  length (a_planets p) = 11 /\ (forall r, In r (a_planets p) -> length r = 2) /\ read_feather (save_with metadata p) = Err ValueError.
Proof. exact read_many_rows_refuted_lem. Qed.
Print Assumptions read_many_rows_refuted.
Example read_saved_satisfiable : saveable (wit_ar 9) /\
  exists d, t_noise (save_with metadata (wit_ar 9)) = Some d /\ d = [("J1_efac", 1)] /\ length (t_cols (save_with metadata (wit_ar 9))) = 31.
Proof. split; [exact wit_ar_saveable|]. eexists; repeat split. Qed.

(** C83: the count bounds the number of observations from above when no file mixes
    observations and inclusions; counting stops on files that include no cycle and
    raises on files that do. Observations beside an inclusion are not counted, and
    observations whose name begins with C neither. *)
Theorem get_maxobs_bound_partial : forall is_toa includes fs, includes_plain includes -> toas_plain is_toa -> not_mixed is_toa includes fs ->
  forall fuel f n m, toas_of is_toa includes fs f n -> get_maxobs fs fuel f = Ok m -> n <= m.
Proof. exact get_maxobs_bound_partial_lem. Qed.
Print Assumptions get_maxobs_bound_partial.
Theorem get_maxobs_terminates : forall is_toa includes fs, includes_plain includes -> includes_known includes fs ->
  forall f n, toas_of is_toa includes fs f n ->
  exists fuel m, get_maxobs fs fuel f = Ok m /\ forall fuel', fuel <= fuel' -> get_maxobs fs fuel' f = Ok m.
Proof. exact get_maxobs_terminates_lem. Qed.
Print Assumptions get_maxobs_terminates.
Theorem get_maxobs_cycle : forall (fs : string -> option (list string)) (cyc : string -> Prop),
  (forall f, cyc f -> exists lines ln g, fs f = Some lines /\ In ln lines /\ starts_with "C" ln = false /\
     substring_of "INCLUDE" ln = true /\ last_word ln = Ok g /\ cyc g) ->
  forall fuel f, cyc f -> exists e, get_maxobs fs fuel f = Err e.
Proof. exact get_maxobs_cycle_lem. Qed.
Print Assumptions get_maxobs_cycle.
Theorem get_maxobs_mixed_refuted : exists is_toa includes fs f n m, includes_known includes fs /\
  toas_of is_toa includes fs f n /\ get_maxobs fs 5 f = Ok m /\ m < n.
Proof. exact get_maxobs_mixed_refuted_lem. Qed.
Print Assumptions get_maxobs_mixed_refuted.
Theorem get_maxobs_comment_refuted : exists is_toa includes fs f n m, includes_known includes fs /\ not_mixed is_toa includes fs /\
  toas_of is_toa includes fs f n /\ get_maxobs fs 5 f = Ok m /\ m < n.
Proof. exact get_maxobs_comment_refuted_lem. Qed.
Print Assumptions get_maxobs_comment_refuted.
Example get_maxobs_satisfiable : includes_plain ok_inc /\ toas_plain ok_toa /\ not_mixed ok_toa ok_inc ok_fs /\ includes_known ok_inc ok_fs /\
  toas_of ok_toa ok_inc ok_fs "plain.tim" 2 /\ get_maxobs ok_fs 5 "plain.tim" = Ok 4.
Proof. exact ok_satisfies. Qed.
Example get_maxobs_cycle_satisfiable : get_maxobs wit_fs 1000 "loop.tim" = Err RecursionError.
Proof. reflexivity. Qed.

(** C84: whatever happens the working directory is restored; tempo2 loads and
    builds the pulsar in the directory of the tim file, PINT loads there and builds
    it in the directory of the caller. *)
Theorem load_restores_directory : forall P has_pint has_t2 isfile enter dir_of (rf : string -> io P) get_count tempo_load pint_load from_pint from_tempo new_tempo new_pint
  cwd args filepath package clk bipm,
  (forall d, enter d cwd = Some cwd) -> (forall f, keeps (rf f)) -> keeps from_pint -> keeps from_tempo ->
  snd (load has_pint has_t2 isfile enter dir_of rf get_count tempo_load pint_load from_pint from_tempo new_tempo new_pint args filepath package clk bipm cwd) = cwd.
Proof. exact load_restores_directory_lem. Qed.
Print Assumptions load_restores_directory.
Theorem load_tempo_directory : forall P has_pint isfile enter dir_of (rf : string -> io P) get_count tempo_load pint_load from_pint from_tempo new_tempo new_pint
  cwd d par tim package clk bipm,
  par_tim par tim -> isfile cwd par = true -> isfile cwd tim = true ->
  (forall d, enter d cwd = Some cwd) -> enter cwd (dir_of tim) = Some d ->
  package = None \/ (exists t, package = Some t /\ lower t = "tempo2") ->
  load has_pint true isfile enter dir_of rf get_count tempo_load pint_load from_pint from_tempo new_tempo new_pint [AStr par; AStr tim] None package clk bipm cwd
  = (fst (bind get_count (fun n => bind (tempo_load (n + 100)) (fun _ => new_tempo)) d), cwd).
Proof. exact load_tempo_directory_lem. Qed.
Print Assumptions load_tempo_directory.
Theorem load_pint_directory : forall P has_t2 isfile enter dir_of (rf : string -> io P) get_count tempo_load pint_load from_pint from_tempo new_tempo new_pint
  cwd d par tim package bipm,
  par_tim par tim -> isfile cwd par = true -> isfile cwd tim = true ->
  (forall d, enter d cwd = Some cwd) -> enter cwd (dir_of tim) = Some d -> lower package = "pint" ->
  load true has_t2 isfile enter dir_of rf get_count tempo_load pint_load from_pint from_tempo new_tempo new_pint [AStr par; AStr tim] None (Some package) None bipm cwd
  = (match fst (pint_load bipm d) with Ok _ => fst (new_pint cwd) | Err e => Err e end, cwd).
Proof. exact load_pint_directory_lem. Qed.
Print Assumptions load_pint_directory.
Theorem load_pint_clock : forall P has_t2 isfile enter dir_of (rf : string -> io P) get_count tempo_load pint_load from_pint from_tempo new_tempo new_pint
  cwd par tim package,
  par_tim par tim -> isfile cwd par = true -> isfile cwd tim = true ->
  (forall d, enter d cwd = Some cwd) -> enter cwd (dir_of tim) <> None -> lower package = "pint" ->
  let go clk bipm := load true has_t2 isfile enter dir_of rf get_count tempo_load pint_load from_pint from_tempo new_tempo new_pint [AStr par; AStr tim] None (Some package) clk bipm cwd in
  (forall clk v, go clk (Some v) = go None (Some v)) /\
  (forall name v, without "(" name -> without "(" v -> go (Some (append name (append "(" (append v ")")))) None = go None (Some v)) /\
  (forall clk, without "(" clk -> go (Some clk) None = (Err IndexError, cwd)).
Proof. exact load_pint_clock_lem. Qed.
Print Assumptions load_pint_clock.
Theorem load_missing : forall P has_pint has_t2 isfile enter dir_of (rf : string -> io P) get_count tempo_load pint_load from_pint from_tempo new_tempo new_pint
  cwd par tim package clk bipm, par_tim par tim -> isfile cwd par = false \/ isfile cwd tim = false ->
  load has_pint has_t2 isfile enter dir_of rf get_count tempo_load pint_load from_pint from_tempo new_tempo new_pint [AStr par; AStr tim] None package clk bipm cwd
  = (Err IOError, cwd).
Proof. exact load_missing_lem. Qed.
Print Assumptions load_missing.
Theorem load_nothing : forall P has_pint has_t2 isfile enter dir_of (rf : string -> io P) get_count tempo_load pint_load from_pint from_tempo new_tempo new_pint
  cwd package clk bipm,
  load has_pint has_t2 isfile enter dir_of rf get_count tempo_load pint_load from_pint from_tempo new_tempo new_pint [] None package clk bipm cwd = (Err ValueError, cwd).
Proof. exact load_nothing_lem. Qed.
Print Assumptions load_nothing.
Example load_satisfiable : par_tim "data/B1855.par" "data/B1855.tim" /\
  load (P := string) true true (fun _ _ => true) (fun _ d => Some d) (fun _ => "data") (fun _ => raise IOError) (ret 5) (fun n => if Nat.eqb n 105 then ret tt else raise ValueError)
    (fun _ => ret tt) (raise TypeError) (raise TypeError) (fun cwd => (Ok cwd, cwd)) (fun cwd => (Ok cwd, cwd)) [AStr "data/B1855.par"; AStr "data/B1855.tim"] None None None None "home"
  = (Ok "data", "home").
Proof. split; [vm_compute; tauto|reflexivity]. Qed.

(** C85: the distance stored for the name, for J or B followed by the name if the
    name starts with neither, and the default otherwise. *)
Theorem pdist_own : forall D (default : D) pdict c s, c = "J"%char \/ c = "B"%char ->
  pdist default pdict (String c s) = Ok (match dget string_dec pdict (String c s) with Some d => d | None => default end).
Proof. exact pdist_own_lem. Qed.
Print Assumptions pdist_own.
Theorem pdist_prefixed : forall D (default : D) pdict c s, c <> "J"%char -> c <> "B"%char ->
  pdist default pdict (String c s) = Ok (match dget string_dec pdict (append "J" (String c s)), dget string_dec pdict (append "B" (String c s)) with
    | Some d, _ => d | None, Some d => d | None, None => default end).
Proof. exact pdist_prefixed_lem. Qed.
Print Assumptions pdist_prefixed.
Theorem pdist_fails : forall D (default : D) pdict name e, pdist default pdict name = Err e <-> name = "" /\ e = IndexError.
Proof. exact pdist_fails_lem. Qed.
Print Assumptions pdist_fails.
Example pdist_satisfiable : pdist (1, 2) [("J1855+0900", (3, 4)); ("B1937+21", (5, 6))] "1937+21" = Ok (5, 6) /\
  pdist (1, 2) [("J1855+0900", (3, 4)); ("B1937+21", (5, 6))] "J0000" = Ok (1, 2).
Proof. split; reflexivity. Qed.
