(** Fourier bases.
    Only theorem statements live here; the proofs are in ProofBases.v. *)
From Coq Require Import Reals ZArith String Bool Arith List Lra Lia.
From Verif Require Import PyBase ProofBase ModelBases ProofBases.
Import ListNotations.
Open Scope list_scope.
Open Scope R_scope.

(** C65: a basis has one row per TOA and a sine and a cosine of 2 pi f t + phase per
    frequency; without a phase option the phases are zero. *)
Theorem basis_shape : forall (S : Type) (seeded : Z -> S) next toas o s F ff s',
  create_red seeded next toas o s = (Ok (F, ff), s') ->
  let n := match o_modes o with Some (NpArray l) | Some (PyList l) => length l | None => o_nmodes o end in
  length F = length toas /\ length ff = (2 * n)%nat /\
  (forall i, (i < n)%nat -> nth (2 * i) ff 0 = nth (2 * i + 1) ff 0) /\
  exists ph, length ph = n /\ (o_pshift o = false -> o_pseed o = None -> ph = repeat 0 n) /\
  forall k, (k < length toas)%nat -> length (nth k F []) = (2 * n)%nat /\
  forall i, (i < n)%nat ->
  nth (2 * i) (nth k F []) 0 = sin (2 * PI * nth k toas 0 * nth (2 * i) ff 0 + nth i ph 0) /\
  nth (2 * i + 1) (nth k F []) 0 = cos (2 * PI * nth k toas 0 * nth (2 * i) ff 0 + nth i ph 0).
Proof. exact basis_shape_lem. Qed.
Print Assumptions basis_shape.
Theorem extent_spec : forall toas T, extent toas = Ok T ->
  exists a b, In a toas /\ In b toas /\ (forall t, In t toas -> a <= t <= b) /\ T = b - a.
Proof. exact extent_spec_lem. Qed.
Print Assumptions extent_spec.
(** C65: the default frequencies are i/T; with limits or logarithmic spacing they run
    evenly from limit to limit; the default spacing is the even spacing from 1/T to n/T. *)
Theorem default_frequencies : forall (S : Type) (seeded : Z -> S) next toas o s F ff s' T,
  o_modes o = None -> o_fmin o = None -> o_fmax o = None -> o_logf o = false -> T <> 0 ->
  o_Tspan o = Some T \/ o_Tspan o = None /\ extent toas = Ok T ->
  create_red seeded next toas o s = (Ok (F, ff), s') ->
  forall i, (i < o_nmodes o)%nat -> nth (2 * i) ff 0 = INR (i + 1) / T.
Proof. exact default_frequencies_lem. Qed.
Print Assumptions default_frequencies.
Theorem spaced_frequencies : forall (S : Type) (seeded : Z -> S) next toas o s F ff s' T,
  o_modes o = None -> (o_logf o = true \/ o_fmin o <> None \/ o_fmax o <> None) -> T <> 0 -> (2 <= o_nmodes o)%nat ->
  o_Tspan o = Some T \/ o_Tspan o = None /\ extent toas = Ok T ->
  create_red seeded next toas o s = (Ok (F, ff), s') ->
  let a := match o_fmin o with Some x => x | None => 1 / T end in
  let b := match o_fmax o with Some x => x | None => INR (o_nmodes o) / T end in
  forall i, (i < o_nmodes o)%nat ->
  (o_logf o = false -> nth (2 * i) ff 0 = a + INR i / INR (o_nmodes o - 1) * (b - a)) /\
  (o_logf o = true -> 0 < a -> 0 < b -> nth (2 * i) ff 0 = a * Rpower (b / a) (INR i / INR (o_nmodes o - 1))).
Proof. exact spaced_frequencies_lem. Qed.
Print Assumptions spaced_frequencies.
Theorem default_is_linspace : forall n T pshift pseed, T <> 0 ->
  forall (S : Type) (seeded : Z -> S) next toas s,
  create_red seeded next toas (Opts n (Some T) false (Some (1 / T)) (Some (INR n / T)) None pshift pseed) s
  = create_red seeded next toas (Opts n (Some T) false None None None pshift pseed) s.
Proof. exact default_is_linspace_lem. Qed.
Print Assumptions default_is_linspace.
(** C65: bases with the default spacing nest. *)
Theorem bases_nest : forall (S : Type) (seeded : Z -> S) next toas o s F ff s' m,
  o_modes o = None -> o_fmin o = None -> o_fmax o = None -> o_logf o = false -> (m <= o_nmodes o)%nat ->
  create_red seeded next toas o s = (Ok (F, ff), s') ->
  exists s'', create_red seeded next toas (Opts m (o_Tspan o) false None None None (o_pshift o) (o_pseed o)) s
              = (Ok (map (firstn (2 * m)) F, firstn (2 * m) ff), s'').
Proof. exact bases_nest_lem. Qed.
Print Assumptions bases_nest.
(** C65: explicit frequencies are used as they are. *)
Theorem explicit_frequencies : forall (S : Type) (seeded : Z -> S) next toas o s F ff s' l,
  o_modes o = Some (NpArray l) -> create_red seeded next toas o s = (Ok (F, ff), s') -> ff = flat_map (fun f => [f; f]) l.
Proof. exact explicit_frequencies_lem. Qed.
Print Assumptions explicit_frequencies.
Example basis_satisfiable : exists F, create_red (fun _ => tt) (fun s => (0, s)) [0; 1 / 4; 1] (Opts 2 (Some 1) false None None None false None) tt = (Ok (F, [1 * 1 / 1; 1 * 1 / 1; 1 * (1 + 1) / 1; 1 * (1 + 1) / 1]), tt)
  /\ nth 0 (nth 1 F []) 0 = 1 /\ nth 1 (nth 0 F []) 0 = 1.
Proof.
  eexists. split; [reflexivity|]. cbn. split.
  - replace (2 * PI * (1 / 4) * (1 * 1 / 1) + 0) with (PI / 2) by field. apply sin_PI2.
  - replace (2 * PI * 0 * (1 * 1 / 1) + 0) with 0 by field. apply cos_0.
Qed.

(** C93: explicit frequencies given as a list raise, whatever the data. *)
Theorem list_frequencies : forall (S : Type) (seeded : Z -> S) next toas o s l, toas <> [] ->
  o_modes o = Some (PyList l) -> fst (create_red seeded next toas o s) = Err TypeError.
Proof. exact list_frequencies_lem. Qed.
Print Assumptions list_frequencies.
Theorem list_frequencies_refuted : exists toas l, let o m := Opts 2 (Some 1) false None None (Some m) false None in
  (exists r, fst (create_red (fun _ => tt) (fun s => (0, s)) toas (o (NpArray l)) tt) = Ok r) /\
  fst (create_red (fun _ => tt) (fun s => (0, s)) toas (o (PyList l)) tt) = Err TypeError.
Proof. exact list_frequencies_refuted_lem. Qed.
Print Assumptions list_frequencies_refuted.

(** C66: with equal variances for the two columns of each frequency the covariance of
    two times depends on their difference only, whatever the phases. *)
Theorem stationary : forall (S : Type) (seeded : Z -> S) next toas o s F ff s' phi,
  create_red seeded next toas o s = (Ok (F, ff), s') ->
  length phi = length ff -> (forall j, (2 * j < length ff)%nat -> nth (2 * j) phi 0 = nth (2 * j + 1) phi 0) ->
  forall i k, (i < length toas)%nat -> (k < length toas)%nat ->
  wsum phi (nth i F []) (nth k F [])
  = rsum (map (fun j => nth (2 * j) phi 0 * cos (2 * PI * nth (2 * j) ff 0 * (nth i toas 0 - nth k toas 0))) (seq 0 (length ff / 2))).
Proof. exact stationary_lem. Qed.
Print Assumptions stationary.
(** C66: between two pulsars, with the phases of each. *)
Theorem cross_covariance : forall (S : Type) (seeded : Z -> S) next toas1 toas2 o s1 s2 F1 F2 ff s1' s2' phi,
  create_red seeded next toas1 o s1 = (Ok (F1, ff), s1') -> create_red seeded next toas2 o s2 = (Ok (F2, ff), s2') ->
  length phi = length ff -> (forall j, (2 * j < length ff)%nat -> nth (2 * j) phi 0 = nth (2 * j + 1) phi 0) ->
  exists p1 p2 : nat -> R, (o_pshift o = false -> o_pseed o = None -> forall j, p1 j = 0 /\ p2 j = 0) /\
  forall i k, (i < length toas1)%nat -> (k < length toas2)%nat ->
  wsum phi (nth i F1 []) (nth k F2 [])
  = rsum (map (fun j => nth (2 * j) phi 0 * cos (2 * PI * nth (2 * j) ff 0 * (nth i toas1 0 - nth k toas2 0) + (p1 j - p2 j))) (seq 0 (length ff / 2))).
Proof. exact cross_covariance_lem. Qed.
Print Assumptions cross_covariance.
(** C66: a common shift of all times and other phase options change nothing. *)
Theorem shifts : forall (S : Type) (seeded : Z -> S) next toas c o o' s F ff s' t F' ff' t' phi,
  o_nmodes o' = o_nmodes o -> o_Tspan o' = o_Tspan o -> o_logf o' = o_logf o -> o_fmin o' = o_fmin o -> o_fmax o' = o_fmax o -> o_modes o' = o_modes o ->
  create_red seeded next toas o s = (Ok (F, ff), s') ->
  create_red seeded next (map (Rplus c) toas) o' t = (Ok (F', ff'), t') ->
  length phi = length ff -> (forall j, (2 * j < length ff)%nat -> nth (2 * j) phi 0 = nth (2 * j + 1) phi 0) ->
  ff' = ff /\ forall i k, (i < length toas)%nat -> (k < length toas)%nat ->
  wsum phi (nth i F' []) (nth k F' []) = wsum phi (nth i F []) (nth k F []).
Proof. exact shifts_lem. Qed.
Print Assumptions shifts.
Example stationary_satisfiable : exists F ff, create_red (fun _ => tt) (fun s => (1 / 2, s)) [1; 3] (Opts 1 None false None None None true None) tt = (Ok (F, ff), tt)
  /\ ff = [1 * 1 / (Rmax 1 3 - Rmin 1 3); 1 * 1 / (Rmax 1 3 - Rmin 1 3)] /\ length F = 2%nat.
Proof. do 2 eexists. split; [reflexivity|]. split; reflexivity. Qed.

(** C94: a seeded basis does not depend on the state of the generator; the state
    afterwards does not either. *)
Theorem seeded_basis : forall (S : Type) (seeded : Z -> S) next toas o p s s', o_pseed o = Some p -> toas <> [] ->
  create_red seeded next toas o s = create_red seeded next toas o s'.
Proof. exact seeded_basis_lem. Qed.
Print Assumptions seeded_basis.
(** C94: two pulsars whose first TOAs fall into the same 17 seconds get the same
    phases, so that their cross covariance is as without phases. *)
Theorem same_seed : forall (S : Type) (seeded : Z -> S) next t1 l1 t2 l2 o p (m : Z) s1 s2 F1 F2 ff s1' s2' phi,
  o_pseed o = Some p -> (0 <= m)%Z -> 17 * IZR m <= t1 < 17 * (IZR m + 1) -> 17 * IZR m <= t2 < 17 * (IZR m + 1) ->
  create_red seeded next (t1 :: l1) o s1 = (Ok (F1, ff), s1') -> create_red seeded next (t2 :: l2) o s2 = (Ok (F2, ff), s2') ->
  length phi = length ff -> (forall j, (2 * j < length ff)%nat -> nth (2 * j) phi 0 = nth (2 * j + 1) phi 0) ->
  forall i k, (i < length (t1 :: l1))%nat -> (k < length (t2 :: l2))%nat ->
  wsum phi (nth i F1 []) (nth k F2 [])
  = rsum (map (fun j => nth (2 * j) phi 0 * cos (2 * PI * nth (2 * j) ff 0 * (nth i (t1 :: l1) 0 - nth k (t2 :: l2) 0))) (seq 0 (length ff / 2))).
Proof. exact same_seed_lem. Qed.
Print Assumptions same_seed.
Example same_seed_satisfiable : exists t1 t2 (m : Z), t1 <> t2 /\ (0 <= m)%Z /\ 17 * IZR m <= t1 < 17 * (IZR m + 1) /\ 17 * IZR m <= t2 < 17 * (IZR m + 1).
Proof. exists 17, 20, 1%Z. repeat split; try lia; lra. Qed.

(** C67: the radio-frequency bases and the enveloped basis multiply the rows of the
    plain basis. *)
Theorem dm_basis : forall (S : Type) (seeded : Z -> S) next toas freqs fref o s F ff s', Forall (fun nu => 0 < nu) freqs ->
  create_dm seeded next toas freqs fref o s = (Ok (F, ff), s') ->
  exists F0, create_red seeded next toas (Opts (o_nmodes o) (o_Tspan o) (o_logf o) (o_fmin o) (o_fmax o) (o_modes o) (o_pshift o) None) s = (Ok (F0, ff), s') /\
  length freqs = length toas /\ scaled F F0 (fun k => (fref / nth k freqs 0) ^ 2).
Proof. exact dm_basis_lem. Qed.
Print Assumptions dm_basis.
Theorem chromatic_basis : forall (S : Type) (seeded : Z -> S) next toas freqs idx o s F ff s', Forall (fun nu => 0 < nu) freqs ->
  create_chromatic seeded next toas freqs idx o s = (Ok (F, ff), s') ->
  exists F0, create_red seeded next toas (Opts (o_nmodes o) (o_Tspan o) (o_logf o) (o_fmin o) (o_fmax o) (o_modes o) false None) s = (Ok (F0, ff), s') /\
  length freqs = length toas /\ scaled F F0 (fun k => Rpower (1400 / nth k freqs 0) idx).
Proof. exact chromatic_basis_lem. Qed.
Print Assumptions chromatic_basis.
Theorem temponest_basis : forall (S : Type) (seeded : Z -> S) next toas freqs fref idx o s F ff s', 0 < fref -> Forall (fun nu => 0 < nu) freqs ->
  create_dm_tn seeded next toas freqs fref idx o s = (Ok (F, ff), s') ->
  exists F0, create_red seeded next toas (Opts (o_nmodes o) (o_Tspan o) (o_logf o) (o_fmin o) (o_fmax o) (o_modes o) (o_pshift o) None) s = (Ok (F0, ff), s') /\
  length freqs = length toas /\
  scaled F F0 (fun k => sqrt 12 * PI / (1400 ^ 2 * (241 / 1000000)) * Rpower (fref / nth k freqs 0) idx).
Proof. exact temponest_basis_lem. Qed.
Print Assumptions temponest_basis.
Theorem envelope_basis : forall (S : Type) (seeded : Z -> S) next toas log10_Amp log10_Q t0 o s F ff s',
  create_env seeded next toas log10_Amp log10_Q t0 o s = (Ok (F, ff), s') ->
  exists F0, create_red seeded next toas (Opts (o_nmodes o) (o_Tspan o) (o_logf o) (o_fmin o) (o_fmax o) (o_modes o) false None) s = (Ok (F0, ff), s') /\
  scaled F F0 (fun k => Rpower 10 log10_Amp * exp (- (1 / 2) * ((nth k toas 0 - t0) / (Rpower 10 log10_Q * 86400)) ^ 2)).
Proof. exact envelope_basis_lem. Qed.
Print Assumptions envelope_basis.
Theorem chromatic_is_dm : forall (S : Type) (seeded : Z -> S) next toas freqs o s, Forall (fun nu => 0 < nu) freqs -> o_pshift o = false ->
  create_chromatic seeded next toas freqs 2 o s = create_dm seeded next toas freqs 1400 o s.
Proof. exact chromatic_is_dm_lem. Qed.
Print Assumptions chromatic_is_dm.
Theorem dm_at_reference : forall (S : Type) (seeded : Z -> S) next toas fref o s, 0 < fref -> o_pseed o = None ->
  create_dm seeded next toas (map (fun _ => fref) toas) fref o s = create_red seeded next toas o s.
Proof. exact dm_at_reference_lem. Qed.
Print Assumptions dm_at_reference.
(** C67: the general basis without options is the plain one, with a nonzero index the
    chromatic or temponest one, and with a flag value the one of the flagged TOAs. *)
Theorem general_plain : forall (S : Type) (seeded : Z -> S) next toas freqs flags flagname flagval idx tndm psrTspan o s,
  flagval = None \/ flagval = Some ""%string -> idx = None \/ idx = Some 0 ->
  create_general seeded next toas freqs flags flagname flagval idx tndm psrTspan o s = create_red seeded next toas o s.
Proof. exact general_plain_lem. Qed.
Print Assumptions general_plain.
Theorem general_chromatic : forall (S : Type) (seeded : Z -> S) next toas freqs flags flagname idx tndm psrTspan o s,
  idx <> 0 -> o_pshift o = false -> o_pseed o = None ->
  create_general seeded next toas freqs flags flagname None (Some idx) tndm psrTspan o s
  = if tndm then create_dm_tn seeded next toas freqs 1400 idx o s else create_chromatic seeded next toas freqs idx o s.
Proof. exact general_chromatic_lem. Qed.
Print Assumptions general_chromatic.
Theorem general_flag : forall (S : Type) (seeded : Z -> S) next toas freqs flags flagname v values idx tndm (psrTspan : bool) T o s F ff s',
  v <> ""%string -> dget string_dec flags flagname = Some values -> length values = length toas ->
  (if psrTspan then T = o_Tspan o
   else exists T0, T = Some T0 /\ extent (map (fun k => nth k toas 0) (filter (fun k => String.eqb (nth k values ""%string) v) (seq 0 (length toas)))) = Ok T0) ->
  create_general seeded next toas freqs flags flagname (Some v) idx tndm psrTspan o s = (Ok (F, ff), s') ->
  exists F0, create_general seeded next toas freqs flags flagname None idx tndm psrTspan
               (Opts (o_nmodes o) T (o_logf o) (o_fmin o) (o_fmax o) (o_modes o) (o_pshift o) (o_pseed o)) s = (Ok (F0, ff), s') /\
  length F = length F0 /\
  forall k j, (k < length toas)%nat -> nth j (nth k F []) 0 = if String.eqb (nth k values ""%string) v then nth j (nth k F0 []) 0 else 0.
Proof. exact general_flag_lem. Qed.
Print Assumptions general_flag.
Example dm_satisfiable : exists F ff, create_dm (fun _ => tt) (fun s => (0, s)) [0; 1] [700; 1400] 1400 (Opts 1 (Some 1) false None None None false None) tt = (Ok (F, ff), tt)
  /\ Forall (fun nu => 0 < nu) [700; 1400] /\ nth 1 (nth 0 F []) 0 = 4.
Proof.
  do 2 eexists. split; [reflexivity|]. split; [repeat constructor; lra|]. cbn.
  replace (2 * PI * 0 * (1 * 1 / 1) + 0) with 0 by field. rewrite cos_0. field.
Qed.
(** C95: an index of zero loses the temponest normalisation. *)
Theorem general_index_refuted : exists toas freqs o, let nx (s : unit) := (0, s) in let sd (_ : Z) := tt in
  o_pshift o = false /\ o_pseed o = None /\
  exists F F' f, create_general sd nx toas freqs [] ""%string None (Some 0) true true o tt = (Ok (F, f), tt) /\
  create_dm_tn sd nx toas freqs 1400 0 o tt = (Ok (F', f), tt) /\ nth 1 (nth 0 F []) 0 <> nth 1 (nth 0 F' []) 0.
Proof. exact index_zero_differs_lem. Qed.
Print Assumptions general_index_refuted.
