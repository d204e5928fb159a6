(** Properties C17-C22: selections and pulsar-bound functions. *)
From Coq Require Import Ascii String Bool Arith Lia ZArith List Permutation Sorted Reals Lra.
From Verif Require Import PyBase ProofBase ModelSelect ProofSelect.
Import ListNotations.
Open Scope string_scope.
Open Scope list_scope.

(** C17: Flag selections partition the TOAs. *)
Theorem by_backend_partition :
  forall flags : list string,
    let d := by_backend flags in
    masks_fit d (length flags) /\
    (* a TOA is in the mask labelled v exactly if its flag is v *)
    (forall k i, selects d k i <-> nth_error flags i = Some k) /\
    (* every TOA is in exactly one mask, no mask is empty *)
    (forall i, i < length flags -> exists! k, selects d k i) /\
    (forall k, In k (dkeys d) -> exists i, selects d k i) /\
    (* labels are the distinct flags in ascending order *)
    NoDup (dkeys d) /\ StronglySorted (fun a b => sle a b = true) (dkeys d).
Proof. exact by_backend_partition_lem. Qed.
Print Assumptions by_backend_partition.
Example by_backend_partition_example :
  by_backend ["GUPPI"; "ASP"; "GUPPI"] = [("ASP", [false; true; false]); ("GUPPI", [true; false; true])].
Proof. reflexivity. Qed.

Theorem by_flag_spec :
  forall (name : string) (flags : dict string (list string)),
    (forall fl, dget string_dec flags name = Some fl -> by_flag name flags = Ok (by_backend fl)) /\
    (dget string_dec flags name = None -> by_flag name flags = Err KeyError).
Proof. exact by_flag_lem. Qed.
Print Assumptions by_flag_spec.
Example by_flag_example :
  by_flag "fe" [("B", ["1"; "2"]); ("fe", ["L"; "L"])] = Ok [("L", [true; true])] /\
  by_flag "fe" [("B", ["1"; "2"])] = Err KeyError.
Proof. split; reflexivity. Qed.

Theorem no_selection_partition :
  forall toas : list R,
    masks_fit (no_selection toas) (length toas) /\
    (forall i, i < length toas -> selects (no_selection toas) "" i) /\
    dkeys (no_selection toas) = [""].
Proof. exact no_selection_partition_lem. Qed.
Print Assumptions no_selection_partition.

Theorem cut_half_partition :
  forall toas : list R,
    (toas = [] -> cut_half toas = Err ValueError) /\
    (toas <> [] ->
     exists d lo hi, cut_half toas = Ok d /\
       (* lo and hi are the first and last time *)
       (In lo toas /\ In hi toas /\ forall t, In t toas -> (lo <= t <= hi)%R) /\
       masks_fit d (length toas) /\ dkeys d = ["t1"; "t2"] /\
       (forall i, selects d "t1" i <-> exists t, nth_error toas i = Some t /\ (t - lo <= hi - t)%R) /\
       (forall i, selects d "t2" i <-> exists t, nth_error toas i = Some t /\ (t - lo > hi - t)%R) /\
       (forall i, i < length toas -> exists! k, selects d k i) /\
       (* only the second half can be empty, namely if all times are equal *)
       (exists i, selects d "t1" i) /\
       ((exists i, selects d "t2" i) <-> (lo < hi)%R)).
Proof. exact cut_half_partition_lem. Qed.
Print Assumptions cut_half_partition.
Example cut_half_example :
  cut_half [1; 2; 5]%R = Ok [("t1", [true; true; false]); ("t2", [false; false; true])].
Proof.
  unfold cut_half, rmax, rmin, Rmax, Rmin, Rleb, Rltb. simpl.
  rdec. reflexivity.
Qed.

(** C18: Filtered flag selections are disjoint and select exactly the matching TOAs. *)
Theorem filtered_backends :
  forall (cb : list string) (flags : list string) (d : dict string mask),
    custom_backends (Some cb) flags = d \/ (cb = ngb /\ nanograv_backends flags = d) ->
    masks_fit d (length flags) /\
    (forall k i, selects d k i <-> nth_error flags i = Some k /\ exists b, In b cb /\ occurs b k) /\
    (* pairwise disjoint, none empty *)
    (forall k k' i, selects d k i -> selects d k' i -> k = k') /\
    (forall k, In k (dkeys d) -> exists i, selects d k i) /\
    (* the union is the set of matching TOAs *)
    (forall i, (exists k, selects d k i) <->
       exists f b, nth_error flags i = Some f /\ In b cb /\ occurs b f).
Proof. exact filtered_backends_lem. Qed.
Print Assumptions filtered_backends.
Example filtered_backends_example :
  nanograv_backends ["Rcvr1_2_GUPPI"; "other"; "L-wide_ASP"; "Rcvr1_2_GUPPI"] =
    [("L-wide_ASP", [false; false; true; false]); ("Rcvr1_2_GUPPI", [true; false; false; true])].
Proof. reflexivity. Qed.

Theorem custom_backends_none :
  forall flags : list string, custom_backends None flags = by_backend flags.
Proof. exact custom_backends_none_lem. Qed.
Print Assumptions custom_backends_none.

Theorem custom_backends_dict_single :
  forall (bf : list string) (flags : dict string (list string)) (toas : list R) (cb : option (list string)),
    custom_backends_dict (CBDict [("backend", cb)]) bf flags toas = Ok (custom_backends cb bf) /\
    (forall name fl, name <> "backend" -> dget string_dec flags name = Some fl ->
       custom_backends_dict (CBDict [(name, cb)]) bf flags toas = Ok (custom_backends cb fl)) /\
    (forall name, name <> "backend" -> dget string_dec flags name = None ->
       custom_backends_dict (CBDict [(name, cb)]) bf flags toas = Err KeyError) /\
    custom_backends_dict CBNone bf flags toas = Ok (no_selection toas).
Proof. exact custom_backends_dict_single_lem. Qed.
Print Assumptions custom_backends_dict_single.

(** Over several flags the masks overlap. *)
Theorem custom_backends_dict_overlap_refuted :
  exists (bf : list string) (flags : dict string (list string)) (toas : list R)
    (cb : dict string (option (list string))) (d : dict string mask) (i : nat),
    custom_backends_dict (CBDict cb) bf flags toas = Ok d /\
    selects d "20CM" i /\ selects d "PDFB" i.
Proof. exact custom_backends_dict_overlap_refuted_lem. Qed.
Print Assumptions custom_backends_dict_overlap_refuted.

(** The list documented in selections.py L172 does not recover nanograv_backends. *)
Theorem nanograv_recovery_refuted :
  exists flags : list string,
    custom_backends (Some ["ASP"; "GASP"; "GUPPI"; "PUPPI"; "YUPPI"]) flags <> nanograv_backends flags.
Proof. exact nanograv_recovery_refuted_lem. Qed.
Print Assumptions nanograv_recovery_refuted.

(** C19: Frequency bands are half open and the default bands cover (0, 10 GHz). *)
Theorem by_freq_band_spec :
  forall (bands : option (dict string (R * R))) (freqs : list R),
    let bs := match bands with Some b => b | None => default_bands end in
    NoDup (dkeys bs) ->
    let d := by_freq_band bands freqs in
    masks_fit d (length freqs) /\
    (forall k i, selects d k i <->
       exists lo hi f, dget string_dec bs k = Some (lo, hi) /\ nth_error freqs i = Some f /\ (lo <= f < hi)%R) /\
    (* a band is returned exactly if some TOA is in it *)
    (forall k, In k (dkeys d) <->
       exists lo hi f, dget string_dec bs k = Some (lo, hi) /\ In f freqs /\ (lo <= f < hi)%R).
Proof. exact by_freq_band_lem. Qed.
Print Assumptions by_freq_band_spec.
Example by_freq_band_example : NoDup (dkeys default_bands).
Proof. exact default_bands_nodup. Qed.

Theorem default_bands_cover :
  forall (freqs : list R) (i : nat) (f : R),
    nth_error freqs i = Some f ->
    ((0 <= f < 10000)%R -> exists! k, selects (by_freq_band None freqs) k i) /\
    ((f < 0 \/ 10000 <= f)%R -> ~ exists k, selects (by_freq_band None freqs) k i).
Proof. exact default_bands_cover_lem. Qed.
Print Assumptions default_bands_cover.
Example default_bands_example :
  by_freq_band None [1400; 430]%R = [("Band.1", [false; true]); ("Band.2", [true; false])].
Proof.
  unfold by_freq_band, band_mask, Rleb, Rltb. simpl.
  rdec. reflexivity.
Qed.

(** C20: Selected functions receive each pulsar attribute under its own name. *)
Theorem bound_attributes_partial :
  forall (A B : Type) (funcargs pos M R : list string) (defaults psr kwargs bound : dict string (attr A B))
    (m : option mask) (args : list (attr A B)),
    funcargs = pos ++ M ++ R -> NoDup funcargs -> length args = length pos ->
    (* M: not given by the caller and provided by the pulsar; R: the opposite *)
    (forall n, In n M -> ~ In n (dkeys kwargs) /\ exists a v, dget string_dec psr n = Some a /\ mask_attr m a = Ok v) ->
    (forall n, In n R -> In n (dkeys kwargs) \/ dget string_dec psr n = None) ->
    selection_wrapper funcargs defaults psr m args kwargs = Ok bound ->
    (* every argument not given by the caller that the pulsar has is bound to
       the pulsar's attribute of that name *)
    (forall n a, ~ In n pos -> In n funcargs -> ~ In n (dkeys kwargs) -> dget string_dec psr n = Some a ->
       exists v, mask_attr m a = Ok v /\ dget string_dec bound n = Some v) /\
    (* and the caller's arguments are bound as given *)
    (forall i n v, nth_error pos i = Some n -> nth_error args i = Some v -> dget string_dec bound n = Some v) /\
    (forall n v, dget string_dec kwargs n = Some v -> dget string_dec bound n = Some v).
Proof. exact bound_attributes_partial_lem. Qed.
Print Assumptions bound_attributes_partial.
Example bound_attributes_example :
  let psr := [("toas", AArr [10; 20]); ("freqs", AArr [1400; 430]); ("name", AObj 7)] in
  ["a"; "toas"; "freqs"; "nmodes"] = ["a"] ++ ["toas"; "freqs"] ++ ["nmodes"] /\
  selection_wrapper ["a"; "toas"; "freqs"; "nmodes"] [("nmodes", AObj 30)] psr (Some [false; true]) [AObj 1] [] =
    Ok [("a", AObj 1); ("toas", AArr [20]); ("freqs", AArr [430]); ("nmodes", AObj 30)].
Proof. split; reflexivity. Qed.

(** An argument with a default that the pulsar does not have shifts the
    attributes after it. *)
Theorem bound_attributes_gap_refuted :
  exists (funcargs : list string) (defaults psr bound : dict string (attr nat nat)),
    NoDup funcargs /\
    selection_wrapper funcargs defaults psr None [] [] = Ok bound /\
    dget string_dec psr "freqs" = Some (AArr [1400]) /\
    dget string_dec bound "freqs" <> Some (AArr [1400]) /\
    dget string_dec bound "nmodes" = Some (AArr [1400]).
Proof. exact bound_attributes_gap_refuted_lem. Qed.
Print Assumptions bound_attributes_gap_refuted.

(** An argument given by keyword before a missing one always raises. *)
Theorem bound_attributes_keyword_gap :
  forall (A B : Type) (pos R : list string) (g n : string)
    (defaults psr kwargs : dict string (attr A B)) (m : option mask) (args : list (attr A B)) (a : attr A B),
    NoDup (pos ++ g :: n :: R) -> length args = length pos ->
    In g (dkeys kwargs) -> ~ In n (dkeys kwargs) -> dget string_dec psr n = Some a ->
    selection_wrapper (pos ++ g :: n :: R) defaults psr m args kwargs = Err TypeError.
Proof. exact bound_attributes_keyword_gap_lem. Qed.
Print Assumptions bound_attributes_keyword_gap.
Example bound_attributes_keyword_gap_example :
  selection_wrapper (A := nat) (B := nat) ["toas"; "nmodes"; "freqs"] [] [("toas", AArr [10; 20]); ("freqs", AArr [1400; 430])] None [AObj 0] [("nmodes", AObj 30)]
  = Err TypeError.
Proof. reflexivity. Qed.

(** C21: Masked attributes are restricted to the selected TOAs. *)
Theorem masked_attribute :
  forall (A B : Type) (m : mask) (a : attr A B),
    match a with
    | AArr l =>
        (length l = length m -> exists r, mask_attr (Some m) a = Ok (AArr r) /\ restricted l m r) /\
        (length l <> length m -> mask_attr (Some m) a = Ok a)
    | AZero _ => mask_attr (Some m) a = Err TypeError
    | AObj _ => mask_attr (Some m) a = Ok a
    end.
Proof. exact masked_attribute_lem. Qed.
Print Assumptions masked_attribute.

Theorem unmasked_attribute :
  forall (A B : Type) (a : attr A B), (forall x, a <> AZero x) -> mask_attr None a = Ok a.
Proof. exact unmasked_attribute_lem. Qed.
Print Assumptions unmasked_attribute.
Example masked_attribute_example :
  mask_attr (A := nat) (B := nat) (Some [true; false; true]) (AArr [1; 2; 3]) = Ok (AArr [1; 3]) /\
  restricted [1; 2; 3] [true; false; true] [1; 3].
Proof. split; [reflexivity|]. exact (take_mask_restricted [1; 2; 3] [true; false; true] eq_refl). Qed.

(** A position vector is masked too when there are three TOAs. *)
Theorem masked_position_refuted :
  exists (m : mask) (pos r : list nat),
    length pos = 3 /\ mask_attr (B := nat) (Some m) (AArr pos) = Ok (AArr r) /\ r <> pos.
Proof. exact masked_position_refuted_lem. Qed.
Print Assumptions masked_position_refuted.

(** C22: Parameters of different selections get different names. *)
Theorem selection_names :
  forall (psrname parname : string) (masks : dict string mask),
    NoDup (dkeys masks) ->
    let (params, kmasks) := selection_call psrname masks parname in
    (* one entry per mask, in order, each with the mask of its key *)
    kmasks = map (fun kv => (sel_kname (fst kv) parname, snd kv)) masks /\
    params = map (fun kv => (sel_kname (fst kv) parname, append psrname (append "_" (sel_kname (fst kv) parname)))) masks /\
    (* all names different *)
    NoDup (dkeys params) /\ NoDup (dvals params) /\
    (* the names *)
    (forall k, k <> "" -> sel_kname k parname = append k (append "_" parname)) /\ sel_kname "" parname = parname.
Proof. exact selection_names_lem. Qed.
Print Assumptions selection_names.
Example selection_names_example :
  selection_call "J1713" [("ASP", [true; false]); ("GASP", [false; true])] "efac" =
    ([("ASP_efac", "J1713_ASP_efac"); ("GASP_efac", "J1713_GASP_efac")],
     [("ASP_efac", [true; false]); ("GASP_efac", [false; true])]).
Proof. reflexivity. Qed.
