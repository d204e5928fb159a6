From Coq Require Import String Bool Arith Lia ZArith List Permutation Sorted Reals Lra.
From Verif Require Import PyBase ProofBase ModelSelect ModelFunc ModelOrf ModelEphem ModelDet ProofSelect ProofQuant ProofEphem ProofDet ProofDetEphem.
Import ListNotations.
Open Scope string_scope.
Open Scope list_scope.
Open Scope nat_scope.

(** C99: every TOA gets its share of the waveform of its own selection, and zero
    without one; the last of several keys wins. *)
Theorem det_delay : forall w name psrname psr n masks params v, NoDup (dkeys masks) -> masks_fit masks n ->
  (forall k m, dget string_dec masks k = Some m ->
     wave_call (inst w (us_name [psrname; name; k]) (Some psr)) [("mask", VMask m)] params = Ok (v k) /\ fits_mask (v k) m) ->
  exists d l, det_init w name psrname psr n masks = Ok d /\ get_delay d params = Ok l /\ length l = n /\
  (forall k m i, dget string_dec masks k = Some m -> selects masks k i -> (forall k', selects masks k' i -> sle k' k = true) -> nth i l 0%R = share (v k) m i) /\
  (forall i, (forall k, ~ selects masks k i) -> nth i l 0%R = 0%R).
Proof. exact det_delay_lem. Qed.
Print Assumptions det_delay.
(** C99: a waveform is given the pulsar's arrays at the selected TOAs and the values of
    its parameters. *)
Theorem det_arguments : forall body ats kws attrs nm m params arrays vals, NoDup (ats ++ map fst kws) ->
  ~ In "mask" (ats ++ map fst kws) -> ~ In "psr" (ats ++ map fst kws) ->
  Forall2 (fun a l => dget string_dec attrs a = Some l /\ length l = length m) ats arrays ->
  Forall2 (fun (kp : string * par val) v => dget string_dec params (par_name (snd kp)) = Some v) kws vals ->
  wave_call (inst (FC (PyFun (ats ++ map fst kws) [] body) "" (map (fun kp => (fst kp, AInst (snd kp))) kws)) nm (Some (VPsr attrs))) [("mask", VMask m)] params
  = body (map (fun l => VArr (map snd (filter fst (combine m l)))) arrays ++ vals).
Proof. exact det_arguments_lem. Qed.
Print Assumptions det_arguments.
(** C99: the first failing selection in the order of the keys determines the exception. *)
Theorem det_raises : forall w name psrname psr n masks params v k m e, NoDup (dkeys masks) -> masks_fit masks n -> dget string_dec masks k = Some m ->
  (forall k' m', dget string_dec masks k' = Some m' -> sle k' k = true -> k' <> k ->
     wave_call (inst w (us_name [psrname; name; k']) (Some psr)) [("mask", VMask m')] params = Ok (v k') /\ fits_mask (v k') m') ->
  let out := wave_call (inst w (us_name [psrname; name; k]) (Some psr)) [("mask", VMask m)] params in
  (out = Err e \/ (e = ValueError /\ exists l, out = Ok (VArr l) /\ length l <> 1 /\ length l <> count m)) ->
  exists d, det_init w name psrname psr n masks = Ok d /\ get_delay d params = Err e.
Proof. exact det_raises_lem. Qed.
Print Assumptions det_raises.
(** C99: the parameters are those of the waveforms of all selections, each once. *)
Theorem det_params : forall w name psrname psr n masks,
  (forall p q, wave_pars w name psrname psr masks p -> wave_pars w name psrname psr masks q -> par_name p = par_name q -> p = q) ->
  exists d, det_init w name psrname psr n masks = Ok d /\ NoDup (delay_params d) /\
  (forall x, In x (delay_params d) <-> exists p, wave_pars w name psrname psr masks p /\ is_cst p = false /\ par_name p = x) /\
  (forall p, wave_pars w name psrname psr masks p <-> dget string_dec (dt_params d) (par_name p) = Some p).
Proof. exact det_params_lem. Qed.
Print Assumptions det_params.
Example ramp_example : exists d, det_init ramp "s" "J" ramp_psr 3 ramp_masks = Ok d /\
  get_delay d [("J_s_x_a", VNum 2); ("J_s_y_a", VNum 3)] = Ok [2 * 5; 3 * 6; 2 * 7]%R /\
  get_delay d [("J_s_x_a", VNum 2)] = Err TypeError /\
  delay_params d = ["J_s_x_a"; "J_s_y_a"] /\ NoDup (dkeys ramp_masks) /\ masks_fit ramp_masks 3.
Proof.
  eexists. split; [reflexivity|]. split; [reflexivity|]. split; [reflexivity|]. split; [reflexivity|]. split; [cbn; repeat constructor; cbn; intuition discriminate|].
  intros k m H. cbn in H. destruct (string_dec k "y"); [now injection H as <-|]. destruct (string_dec k "x"); [now injection H as <-|discriminate].
Qed.

(** C100: for functions that work entry by entry, each TOA gets the entry of the
    waveform of its selection at all TOAs. *)
Theorem det_split : forall w name psrname psr n masks params u, NoDup (dkeys masks) -> masks_fit masks n -> plain n w -> neutral n psr ->
  (forall p v, wave_pars w name psrname psr masks p -> dget string_dec params (par_name p) = Some v -> neutral n v) ->
  (forall k, In k (dkeys masks) -> wave_call (inst w (us_name [psrname; name; k]) (Some psr)) [] params = Ok (VArr (u k)) /\ length (u k) = n) ->
  exists d l, det_init w name psrname psr n masks = Ok d /\ get_delay d params = Ok l /\ length l = n /\
  (forall k i, selects masks k i -> (forall k', selects masks k' i -> sle k' k = true) -> nth i l 0%R = nth i (u k) 0%R) /\
  (forall i, (forall k, ~ selects masks k i) -> nth i l 0%R = 0%R).
Proof. exact det_split_lem. Qed.
Print Assumptions det_split.
(** C100: with keywords common to all selections, every way of selecting gives the same delay. *)
Theorem det_split_shared : forall w name psrname psr n masks params nm u, NoDup (dkeys masks) -> masks_fit masks n ->
  (forall i, i < n -> exists k, selects masks k i) -> plain n w -> shared w -> neutral n psr ->
  (forall p v, wave_pars w name psrname psr masks p -> dget string_dec params (par_name p) = Some v -> neutral n v) ->
  wave_call (inst w nm (Some psr)) [] params = Ok (VArr u) -> length u = n ->
  exists d, det_init w name psrname psr n masks = Ok d /\ get_delay d params = Ok u.
Proof. exact det_split_shared_lem. Qed.
Print Assumptions det_split_shared.
Example ramp1_example : plain 3 ramp1 /\ shared ramp1 /\ neutral 3 ramp_psr /\ neutral 3 (VNum 2) /\
  wave_call (inst ramp1 "" (Some ramp_psr)) [] [("a", VNum 2)] = Ok (VArr [2 * 5; 2 * 6; 2 * 7]%R) /\
  exists d, det_init ramp1 "s" "J" ramp_psr 3 ramp_masks = Ok d /\ get_delay d [("a", VNum 2)] = Ok [2 * 5; 2 * 6; 2 * 7]%R.
Proof.
  split; [apply scaled_plain|]. split; [repeat constructor|]. split; [exact I|]. split; [exact I|]. split; [reflexivity|]. eexists. split; reflexivity.
Qed.
(** C100: not with a function inside the function, which is not given the mask. *)
Theorem nested_mask_refuted : exists f g psr masks,
  pointwise 3 f /\ pointwise 3 g /\ NoDup (dkeys masks) /\ masks_fit masks 3 /\ (forall i, i < 3 -> exists k, selects masks k i /\ forall k', selects masks k' i -> k' = k) /\
  let w := FC f "" [("h", AFunC (FC g "" []))] in
  wave_call (inst w "" (Some psr)) [] [] = Ok (VArr [1; 2; 3]%R) /\
  exists d, det_init w "" "" psr 3 masks = Ok d /\ get_delay d [] = Err ValueError.
Proof. exact nested_mask_refuted_lem. Qed.
Print Assumptions nested_mask_refuted.
(** C100: the delay depends on its parameters and the constants only. *)
Theorem det_depends : forall w name psrname psr n masks params params', no_functions w ->
  (forall p q, wave_pars w name psrname psr masks p -> wave_pars w name psrname psr masks q -> par_name p = par_name q -> p = q) ->
  exists d, det_init w name psrname psr n masks = Ok d /\
  ((forall x, In x (delay_params d) -> dget string_dec params x = dget string_dec params' x) ->
   (forall p, wave_pars w name psrname psr masks p -> is_cst p = true -> dget string_dec params (par_name p) = dget string_dec params' (par_name p)) ->
   get_delay d params = get_delay d params').
Proof. exact det_depends_lem. Qed.
Print Assumptions det_depends.
Example ramp_pars : no_functions ramp /\ forall p q, wave_pars ramp "s" "J" ramp_psr ramp_masks p -> wave_pars ramp "s" "J" ramp_psr ramp_masks q -> par_name p = par_name q -> p = q.
Proof.
  split; [repeat constructor|]. intros p q (k & kw & Hk & Hp) (k' & kw' & Hk' & Hq) E. cbn in Hk, Hk'. destruct Hk as [<-|[<-|[]]]; destruct Hk' as [<-|[<-|[]]]; destruct Hp as [Hp|[]]; destruct Hq as [Hq|[]]; injection Hp as <- <-; injection Hq as <- <-; try reflexivity; discriminate.
Qed.
(** C100: the constants are not among the parameters of the delay, though a value given for one is used. *)
Theorem delay_params_refuted : exists w psr params params' l l', no_functions w /\
  exists d, det_init w "" "" psr 1 [("", [true])] = Ok d /\ (forall x, In x (delay_params d) -> dget string_dec params x = dget string_dec params' x) /\
  get_delay d params = Ok l /\ get_delay d params' = Ok l' /\ l <> l'.
Proof. exact delay_params_refuted_lem. Qed.
Print Assumptions delay_params_refuted.

(** C101: with epochs, every TOA gets the delay at the mean time of its epoch, from
    positions interpolated to it, whatever the array held before. *)
Theorem ephem_epochs : forall argsort toas pl pos k jup sat, argsort_ok argsort -> toas <> [] -> length pl = length toas -> length pos = length toas ->
  fits (k_jup_orb k) jup -> fits (k_sat_orb k) sat ->
  exists bs l, partition_ok toas 1 bs /\ length l = length toas /\
  (forall delay0, length delay0 = length toas -> ephem_signal argsort true toas pl pos k jup sat delay0 = Ok l) /\
  forall b i, In b bs -> In i b -> exists p v,
    let x := (fold_right Rplus 0 (map (fun i => nth i toas 0%R) b) / INR (length b))%R in
    interp_planets x toas pl = Ok p /\ interp x toas pos = Ok v /\ ephem_delay [x] [p] [v] k jup sat true = Ok [nth i l 0%R].
Proof. exact ephem_epochs_lem. Qed.
Print Assumptions ephem_epochs.
(** C101: for TOAs a second or more from all others this is the delay without epochs. *)
Theorem ephem_isolated : forall argsort toas pl pos k jup sat delay0, argsort_ok argsort -> in_order toas -> length pl = length toas -> length pos = length toas -> length delay0 = length toas ->
  fits (k_jup_orb k) jup -> fits (k_sat_orb k) sat -> toas <> [] ->
  exists l direct, ephem_signal argsort true toas pl pos k jup sat delay0 = Ok l /\ ephem_signal argsort false toas pl pos k jup sat delay0 = Ok direct /\
  (forall i, i < length toas -> isolated toas i -> nth i l 0%R = nth i direct 0%R) /\
  ((forall i, i < length toas -> isolated toas i) -> l = direct).
Proof. exact ephem_isolated_lem. Qed.
Print Assumptions ephem_isolated.
(** C101: without TOAs the constructor raises IndexError. *)
Theorem ephem_none : forall argsort pl pos k jup sat delay0, argsort_ok argsort -> ephem_signal argsort true [] pl pos k jup sat delay0 = Err IndexError.
Proof. exact ephem_none_lem. Qed.
Print Assumptions ephem_none.
Example ephem_hypotheses : argsort_ok argsort_ins /\ partition_ok [0; 1 / 2; 5]%R 1 [[0; 1]; [2]] /\
  in_order [0; 1 / 2; 5]%R /\ isolated [0; 1 / 2; 5]%R 2 /\ fits [] None /\ fits [1; 2]%R (Some (Orbits [0]%R [[(1, 0, 0)]; [(0, 1, 0)]]%R)).
Proof.
  split; [exact argsort_ins_ok|]. split; [|split; [|split; [|split]]].
  - split; [apply Permutation_refl|]. split.
    + intros b [<-|[<-|[]]]; [exists 0, [1]|exists 2, []]; (split; [reflexivity|]); intros i Hi; cbn in Hi; repeat (destruct Hi as [<-|Hi]; [cbn; lra|]); contradiction.
    + intros l1 b l2 b' l3 E. destruct l1 as [|x l1]; [|destruct l1 as [|y l1]; [|exfalso; cbn in E; injection E as _ _ E; destruct l1; discriminate]].
      * cbn in E. injection E as <- E. destruct l2 as [|y l2]; [|exfalso; cbn in E; injection E as _ E; destruct l2; discriminate]. cbn in E. injection E as <- <-. cbn. lra.
      * exfalso. cbn in E. injection E as _ _ E. destruct l2; discriminate.
  - intros i j H. cbn in H. destruct i as [|[|[|i]]], j as [|[|[|j]]]; try lia; cbn; lra.
  - intros j H N. cbn in H. destruct j as [|[|[|j]]]; try lia; cbn; unfold Rabs; destruct (Rcase_abs _); lra.
  - left. constructor.
  - right. eexists. split; [reflexivity|]. repeat split; try discriminate. repeat constructor.
Qed.
(** C101: the epochs are not days, as the comment in the code says: TOAs two seconds apart are in different ones. *)
Theorem ephem_daily_refuted : exists toas, (forall t t', In t toas -> In t' toas -> (Rabs (t - t') <= 2)%R) /\
  forall argsort, argsort_ok argsort -> exists us, epochs argsort toas = Ok us /\ forall u, In u us -> ~ (In 0 u /\ In 1 u).
Proof. exact ephem_daily_refuted_lem. Qed.
Print Assumptions ephem_daily_refuted.
