(** Deterministic signals (enterprise/signals/deterministic_signals.py): the generic
    signal with one waveform for each selection, and the epoch averages of the
    ephemeris signal. Waveforms are the functions of ModelFunc.v over a concrete type
    of values. Doubles are reals. *)
From Coq Require Import String Bool Arith ZArith List Reals.
From Verif Require Import PyBase ModelSelect ModelFunc ModelOrf ModelEphem.
Import ListNotations.
Open Scope string_scope.
Open Scope list_scope.

(** ** Values *)
(** Numbers, arrays of one dimension, masks, pulsars with their array attributes, and
    other objects. *)
Inductive val : Type :=
| VNum (x : R)
| VArr (l : list R)
| VMask (m : mask)
| VPsr (attrs : dict string (list R))
| VObj.
(** selections.py L14-17 and L39-41: an attribute of a pulsar *)
Definition val_attr (p : val) (a : string) : option val :=
  match p with VPsr d => option_map VArr (dget string_dec d a) | _ => None end.
(** selections.py L42-45: only arrays as long as the mask are masked. *)
Definition val_masked (m v : val) : val :=
  match m, v with
  | VMask mk, VArr l => if Nat.eqb (length mk) (length l) then VArr (take_mask l mk) else v
  | _, _ => v
  end.
Definition wave := fclass val.
Definition wave_call (o : fobj val) (kw params : dict string val) : result val := call val_attr val_masked o [] kw params None.

(** ** The generic signal *)
Record det := Det {
  dt_ntoas : nat; dt_keys : list string; dt_masks : list mask;
  dt_wf : dict string (fobj val); dt_params : dict string (par val) }.
(** L22-38 [__init__] and [_do_selection]; [masks] is [sel.masks] and [ntoas] the
    number of TOAs of the pulsar. *)
Definition det_init (waveform : wave) (name psrname : string) (psr : val) (ntoas : nat) (masks : dict string mask) : result det :=
  let keys := sorted_keys masks in
  rmap (fun ms =>
    let st := fold_left (fun (st : dict string (fobj val) * dict string (par val)) key =>
        let o := inst waveform (us_name [psrname; name; key]) (Some psr) in
        (dset string_dec (fst st) key o,
         fold_left (fun d kp => dset string_dec d (par_name (snd kp)) (snd kp)) (fo_params o) (snd st))) keys ([], []) in
    Det ntoas keys ms (fst st) (snd st))
  (rmapM (dgetE string_dec masks) keys).
(** L40-43 [delay_params] with signal_base.py L98-101 [params] *)
Definition delay_params (d : det) : list string :=
  map (@par_name _) (filter (fun p => negb (is_cst p)) (dvals (dt_params d))).
(** [delay[mask] = value] for a mask as long as the delay: a number or an array of one
    element is repeated. Masks made of indices, and values that are neither numbers nor
    arrays, are not modelled (an error here). *)
Fixpoint put (delay : list R) (m : mask) (v : list R) : list R :=
  match delay, m with
  | x :: delay', true :: m' => match v with y :: v' => y :: put delay' m' v' | [] => x :: put delay' m' [] end
  | x :: delay', false :: m' => x :: put delay' m' v
  | _, _ => delay
  end.
Definition count (m : mask) : nat := length (filter (fun b => b) m).
Definition assign (delay : list R) (m : mask) (v : val) : result (list R) :=
  if negb (Nat.eqb (length m) (length delay)) then Err IndexError else
  match v with
  | VNum x => Ok (put delay m (repeat x (count m)))
  | VArr [x] => Ok (put delay m (repeat x (count m)))
  | VArr l => if Nat.eqb (length l) (count m) then Ok (put delay m l) else Err ValueError
  | _ => Err TypeError
  end.
(** L45-51 [get_delay], without its cache *)
Definition get_delay (d : det) (params : dict string val) : result (list R) :=
  fold_left (fun acc km =>
      rbind acc (fun delay =>
      rbind (dgetE string_dec (dt_wf d) (fst km)) (fun o =>
      rbind (wave_call o [("mask", VMask (snd km))] params) (assign delay (snd km)))))
    (combine (dt_keys d) (dt_masks d)) (Ok (repeat 0%R (dt_ntoas d))).

(** ** The ephemeris signal *)
Section Epochs.
Variable argsort : list R -> list nat.
(** L172-173: the TOAs of each epoch *)
Definition epochs (toas : list R) : result (list (list nat)) :=
  rbind (quant_matrix argsort toas 1 1) (fun U => rmap (map indices_from_slice) (quant2ind false (ncols U) U)).
(** L175 *)
Definition mean (l : list R) : R := (fold_right Rplus 0 l / INR (length l))%R.
(** L178-188: positions interpolated to the mean times; [np.interp] for increasing TOAs.
    The four planets of [planetssb] that the delay does not use are left out. *)
Definition interp_planets (x : R) (toas : list R) (pl : list planets) : result planets :=
  rbind (interp x toas (map pl_earth pl)) (fun e =>
  rbind (interp x toas (map pl_jupiter pl)) (fun j =>
  rbind (interp x toas (map pl_saturn pl)) (fun s =>
  rbind (interp x toas (map pl_uranus pl)) (fun u =>
  rbind (interp x toas (map pl_neptune pl)) (fun n => Ok (Planets e j s u n)))))).
(** L199-200 [self._delay[slc] = val] *)
Fixpoint set_at (i : nat) (x : R) (l : list R) : list R :=
  match l, i with
  | [], _ => []
  | _ :: l', O => x :: l'
  | y :: l', S i' => y :: set_at i' x l'
  end.
(** L168-204 [__init__] and [get_delay] with the waveform's own keywords [k]; [delay0] is
    the array of the previous evaluation, at first zeros, that is overwritten. *)
Definition ephem_signal (use_epoch_toas : bool) (toas : list R) (pl : list planets) (pos : list vec) (k : corrections)
    (jup sat : option orbits) (delay0 : list R) : result (list R) :=
  if use_epoch_toas then
    rbind (epochs toas) (fun uinds =>
    let ave := map (fun sc => mean (map (fun i => nth i toas 0%R) sc)) uinds in
    rbind (rmapM (fun x => interp_planets x toas pl) ave) (fun apl =>
    rbind (rmapM (fun x => interp x toas pos) ave) (fun apos =>
    rbind (ephem_delay ave apl apos k jup sat true) (fun delay =>
    Ok (fold_left (fun d sv => fold_left (fun d i => set_at i (snd sv) d) (fst sv) d) (combine uinds delay) delay0)))))
  else ephem_delay toas pl pos k jup sat true.
End Epochs.
