From Coq Require Import String Bool Arith Lia ZArith List Permutation Sorted Reals Lra.
From Verif Require Import PyBase ProofBase ModelSelect ModelFunc ModelOrf ModelEphem ModelDet ProofSelect ProofQuant ProofEphem.
Import ListNotations.
Open Scope string_scope.
Open Scope list_scope.
Open Scope nat_scope.

(** ** Specification *)
(** The value for the selected TOA [i]: its own entry of an array, or the number. *)
Definition share (v : val) (m : mask) (i : nat) : R :=
  match v with VNum x => x | VArr [x] => x | VArr l => nth (rank m i) l 0%R | _ => 0%R end.
Definition fits_mask (v : val) (m : mask) : Prop :=
  match v with VNum _ => True | VArr l => length l = count m \/ length l = 1 | _ => False end.
(** The waveform of selection [k]. *)
Definition waveform_of (w : wave) (name psrname : string) (psr : val) (k : string) : fobj val :=
  inst w (us_name [psrname; name; k]) (Some psr).
(** The entries at the selected TOAs, of arrays with an entry per TOA. *)
Definition chosen (m : mask) (l : list R) : list R := map snd (filter fst (combine m l)).
Definition restrict (m : mask) (v : val) : val :=
  match v with VArr l => if Nat.eqb (length l) (length m) then VArr (chosen m l) else v | _ => v end.
(** A function of arrays that works entry by entry. *)
Definition pointwise (n : nat) (f : pyfun val) : Prop :=
  forall m vs l, length m = n -> pf_body f vs = Ok (VArr l) -> length l = n ->
  pf_body f (map (restrict m) vs) = Ok (VArr (chosen m l)).
(** Not an array with an entry per TOA. *)
Definition neutral (n : nat) (v : val) : Prop := match v with VArr l => length l <> n | _ => True end.
(** Keywords that are parameters or values, without functions. *)
Definition plain_arg (n : nat) (a : arg val) : Prop :=
  match a with
  | AParC _ => True | AInst (Par _ _) => True
  | ACstC v => forall name, neutral n (v name)
  | AInst (Cst _ v) | AVal v => neutral n v
  | _ => False
  end.
Definition plain (n : nat) (w : wave) : Prop :=
  let '(FC f fname kws) := w in
  pointwise n f /\ Forall (neutral n) (pf_defs f) /\ Forall (fun ka => plain_arg n (snd ka)) kws /\
  ~ In "mask" (map fst kws) /\ ~ In "mask" (pf_args f).
(** Keywords that have the same meaning in every selection. *)
Definition shared (w : wave) : Prop :=
  let '(FC f fname kws) := w in Forall (fun ka => match snd ka with AInst _ | AVal _ => True | _ => False end) kws.

(** ** Assignments *)
Lemma put_length : forall m d v, length (put d m v) = length d.
Proof. induction m as [|[] m IH]; intros [|x d] v; cbn; auto. destruct v; cbn; now rewrite IH. Qed.
Lemma put_nth : forall m d v i, length m = length d -> length v = count m ->
  nth i (put d m v) 0%R = if nth i m false then nth (rank m i) v 0%R else nth i d 0%R.
Proof.
  induction m as [|[] m IH]; intros [|x d] v i Hl Hv; try discriminate.
  - destruct i; reflexivity.
  - destruct v as [|y v]; [discriminate|]. cbn in Hl, Hv. destruct i as [|i]; [reflexivity|]. cbn. apply IH; unfold count; lia.
  - cbn in Hl, Hv. destruct i as [|i]; [reflexivity|]. cbn. apply IH; unfold count in *; lia.
Qed.
Lemma rank_lt : forall m i, nth i m false = true -> rank m i < count m.
Proof.
  induction m as [|b m IH]; intros [|i] H; try discriminate; cbn in *.
  - subst b. unfold count. cbn. lia.
  - specialize (IH i H). unfold count in *. destruct b; cbn; lia.
Qed.
Lemma assign_spec : forall d m v, length m = length d -> fits_mask v m ->
  exists l, assign d m v = Ok l /\ length l = length d /\ forall i, nth i l 0%R = if nth i m false then share v m i else nth i d 0%R.
Proof.
  intros d m v Hl Hf. unfold assign. rewrite Hl, Nat.eqb_refl. cbn [negb].
  assert (N : forall x, exists l, Ok (put d m (repeat x (count m))) = Ok l /\ length l = length d /\ forall i, nth i l 0%R = if nth i m false then x else nth i d 0%R).
  { intros x. eexists. split; [reflexivity|]. split; [apply put_length|]. intros i. rewrite put_nth; [|assumption|apply repeat_length].
    destruct (nth i m false) eqn:E; [|reflexivity]. rewrite (nth_indep _ 0%R x) by (rewrite repeat_length; now apply rank_lt). apply nth_repeat. }
  destruct v as [x|l| | |]; try contradiction; [apply N|].
  destruct l as [|x [|y l]].
  - destruct Hf as [Hf|Hf]; [|discriminate]. rewrite Hf, Nat.eqb_refl. eexists. split; [reflexivity|]. split; [apply put_length|]. intros i. rewrite put_nth by assumption. reflexivity.
  - apply N.
  - destruct Hf as [Hf|Hf]; [|discriminate]. rewrite Hf, Nat.eqb_refl. eexists. split; [reflexivity|]. split; [apply put_length|]. intros i. rewrite put_nth by assumption. reflexivity.
Qed.

(** ** The loop over selections *)
Definition step (ev : string -> mask -> result val) (acc : result (list R)) (km : string * mask) : result (list R) :=
  rbind acc (fun delay => rbind (ev (fst km) (snd km)) (assign delay (snd km))).
Lemma loop_spec : forall ev w L delay, (forall k m, In (k, m) L -> length m = length delay /\ ev k m = Ok (w k) /\ fits_mask (w k) m) ->
  exists l, fold_left (step ev) L (Ok delay) = Ok l /\ length l = length delay /\
  forall i, nth i l 0%R = fold_left (fun acc km => if nth i (snd km) false then share (w (fst km)) (snd km) i else acc) L (nth i delay 0%R).
Proof.
  intros ev w L. induction L as [|[k m] L IH]; intros delay H; cbn [fold_left].
  - exists delay. repeat split; reflexivity.
  - destruct (H k m (or_introl eq_refl)) as (H1 & H2 & H3). destruct (assign_spec delay m (w k) H1 H3) as (d1 & E1 & L1 & V1).
    unfold step at 2. cbn [fst snd rbind]. rewrite H2. cbn [rbind]. rewrite E1.
    destruct (IH d1) as (l & El & Ll & Vl).
    { intros k' m' Hin. rewrite L1. apply H. now right. }
    exists l. split; [exact El|]. split; [congruence|]. intros i. now rewrite Vl, V1.
Qed.
Lemma loop_err : forall ev L e, fold_left (step ev) L (Err e) = Err e.
Proof. intros ev L e. induction L as [|km L IH]; [reflexivity|]. cbn. exact IH. Qed.
Lemma loop_raises : forall ev w L1 k m L2 e delay, (forall k' m', In (k', m') L1 -> length m' = length delay /\ ev k' m' = Ok (w k') /\ fits_mask (w k') m') ->
  (forall d, length d = length delay -> rbind (ev k m) (assign d m) = Err e) ->
  fold_left (step ev) (L1 ++ (k, m) :: L2) (Ok delay) = Err e.
Proof.
  intros ev w L1 k m L2 e delay H E. destruct (loop_spec ev w L1 delay H) as (l & El & Ll & _).
  transitivity (fold_left (step ev) ((k, m) :: L2) (fold_left (step ev) L1 (Ok delay))); [apply fold_left_app|].
  transitivity (fold_left (step ev) ((k, m) :: L2) (Ok l)); [now f_equal|].
  transitivity (fold_left (step ev) L2 (Err e)); [|apply loop_err]. cbn [fold_left]. f_equal. exact (E l Ll).
Qed.
Lemma last_pick : forall {A} (p : A -> bool) (v : A -> R) L1 x L2 z, p x = true -> (forall y, In y L2 -> p y = false) ->
  fold_left (fun acc y => if p y then v y else acc) (L1 ++ x :: L2) z = v x.
Proof.
  intros A p v L1 x L2 z Hx H2. rewrite fold_left_app. cbn [fold_left]. rewrite Hx. induction L2 as [|y L2 IH]; [reflexivity|]. cbn [fold_left]. rewrite H2 by now left. apply IH. intros; apply H2; now right.
Qed.
Lemma none_pick : forall {A} (p : A -> bool) (v : A -> R) L z, (forall y, In y L -> p y = false) -> fold_left (fun acc y => if p y then v y else acc) L z = z.
Proof. intros A p v L. induction L as [|y L IH]; intros z H; [reflexivity|]. cbn [fold_left]. rewrite H by now left. apply IH. intros; apply H; now right. Qed.

(** ** The constructor *)
Definition mask_of (masks : dict string mask) (k : string) : mask := match dget string_dec masks k with Some m => m | None => [] end.
Lemma sorted_keys_in : forall {V} (d : dict string V) k, In k (sorted_keys d) <-> In k (dkeys d).
Proof. intros V d k. split; apply Permutation_in; [|symmetry]; apply sorted_keys_perm. Qed.
Lemma rmapM_gets : forall (masks : dict string mask) keys, (forall k, In k keys -> In k (dkeys masks)) -> rmapM (dgetE string_dec masks) keys = Ok (map (mask_of masks) keys).
Proof.
  intros masks keys H. induction keys as [|k keys IH]; [reflexivity|]. cbn [rmapM map]. unfold dgetE at 1, mask_of at 1.
  destruct (in_dget_Some string_dec masks k (H k (or_introl eq_refl))) as [m ->]. cbn [rbind]. rewrite IH by (intros; apply H; now right). reflexivity.
Qed.
Definition params_from (o : fobj val) (d : dict string (par val)) : dict string (par val) := fold_left (fun d kp => dset string_dec d (par_name (snd kp)) (snd kp)) (fo_params o) d.
Lemma init_ok : forall w name psrname psr n masks, exists ps,
  det_init w name psrname psr n masks = Ok (Det n (sorted_keys masks) (map (mask_of masks) (sorted_keys masks))
    (fold_left (fun d k => dset string_dec d k (waveform_of w name psrname psr k)) (sorted_keys masks) []) ps) /\
  ps = fold_left (fun d k => params_from (waveform_of w name psrname psr k) d) (sorted_keys masks) [].
Proof.
  intros. eexists. split; [|reflexivity]. unfold det_init. rewrite rmapM_gets by (intros k Hk; now apply sorted_keys_in in Hk). cbn [rmap rbind]. f_equal.
  assert (H : forall keys (a : dict string (fobj val)) (b : dict string (par val)),
    fold_left (fun (st : dict string (fobj val) * dict string (par val)) key =>
      let o := inst w (us_name [psrname; name; key]) (Some psr) in
      (dset string_dec (fst st) key o, fold_left (fun d kp => dset string_dec d (par_name (snd kp)) (snd kp)) (fo_params o) (snd st))) keys (a, b)
    = (fold_left (fun d k => dset string_dec d k (waveform_of w name psrname psr k)) keys a, fold_left (fun d k => params_from (waveform_of w name psrname psr k) d) keys b)).
  { induction keys as [|k keys IH]; intros a b; [reflexivity|]. cbn [fold_left fst snd]. rewrite IH. reflexivity. }
  rewrite H. reflexivity.
Qed.
Lemma wf_get : forall (g : string -> fobj val) keys d k, In k keys \/ dget string_dec d k = Some (g k) ->
  dget string_dec (fold_left (fun d k => dset string_dec d k (g k)) keys d) k = Some (g k).
Proof.
  intros g keys. induction keys as [|x keys IH]; intros d k [H|H]; cbn [fold_left]; try contradiction; [exact H| |]; apply IH.
  - destruct H as [->|H]; [right; apply dget_dset_same|now left].
  - right. destruct (string_dec x k) as [->|n]; [apply dget_dset_same|now rewrite dget_dset_other by congruence].
Qed.
Lemma delay_loop : forall w name psrname psr n masks params, exists d, det_init w name psrname psr n masks = Ok d /\
  get_delay d params = fold_left (step (fun k m => wave_call (waveform_of w name psrname psr k) [("mask", VMask m)] params))
    (map (fun k => (k, mask_of masks k)) (sorted_keys masks)) (Ok (repeat 0%R n)).
Proof.
  intros. destruct (init_ok w name psrname psr n masks) as (ps & -> & _). eexists. split; [reflexivity|]. unfold get_delay. cbn [dt_ntoas dt_keys dt_masks dt_wf].
  assert (E : combine (sorted_keys masks) (map (mask_of masks) (sorted_keys masks)) = map (fun k => (k, mask_of masks k)) (sorted_keys masks)).
  { induction (sorted_keys masks) as [|k l IH]; [reflexivity|]. cbn. now rewrite IH. }
  rewrite E. clear E.
  set (WF := fold_left (fun d k => dset string_dec d k (waveform_of w name psrname psr k)) (sorted_keys masks) []).
  assert (H : forall keys acc, (forall k, In k keys -> In k (sorted_keys masks)) ->
    fold_left (fun acc km => rbind acc (fun delay => rbind (dgetE string_dec WF (fst km)) (fun o => rbind (wave_call o [("mask", VMask (snd km))] params) (assign delay (snd km))))) (map (fun k => (k, mask_of masks k)) keys) acc
    = fold_left (step (fun k m => wave_call (waveform_of w name psrname psr k) [("mask", VMask m)] params)) (map (fun k => (k, mask_of masks k)) keys) acc).
  { induction keys as [|k keys IH]; intros acc Hk; [reflexivity|]. cbn [map fold_left]. rewrite IH by (intros; apply Hk; now right). f_equal. unfold step. cbn [fst snd].
    destruct acc as [delay|e]; [|reflexivity]. cbn [rbind]. unfold dgetE, WF. rewrite wf_get by (left; apply Hk; now left). reflexivity. }
  apply H. auto.
Qed.
Lemma mask_of_get : forall masks k m, dget string_dec masks k = Some m -> mask_of masks k = m.
Proof. intros masks k m H. unfold mask_of. now rewrite H. Qed.

(** ** C99 *)
Lemma det_delay_lem : forall w name psrname psr n masks params v, NoDup (dkeys masks) -> masks_fit masks n ->
  (forall k m, dget string_dec masks k = Some m ->
     wave_call (inst w (us_name [psrname; name; k]) (Some psr)) [("mask", VMask m)] params = Ok (v k) /\ fits_mask (v k) m) ->
  exists d l, det_init w name psrname psr n masks = Ok d /\ get_delay d params = Ok l /\ length l = n /\
  (forall k m i, dget string_dec masks k = Some m -> selects masks k i -> (forall k', selects masks k' i -> sle k' k = true) -> nth i l 0%R = share (v k) m i) /\
  (forall i, (forall k, ~ selects masks k i) -> nth i l 0%R = 0%R).
Proof.
  intros w name psrname psr n masks params v ND HF HE. destruct (delay_loop w name psrname psr n masks params) as (d & Ed & G). exists d.
  set (ev := fun k m => wave_call (waveform_of w name psrname psr k) [("mask", VMask m)] params) in *.
  assert (ND' : NoDup (sorted_keys masks)) by (eapply Permutation_NoDup; [symmetry; apply sorted_keys_perm|exact ND]).
  destruct (loop_spec ev v (map (fun k => (k, mask_of masks k)) (sorted_keys masks)) (repeat 0%R n)) as (l & El & Ll & Vl).
  { intros k m Hin. apply in_map_iff in Hin as (k' & E & Hk). injection E as <- <-. apply (proj1 (sorted_keys_in masks k')) in Hk. destruct (in_dget_Some string_dec masks k' Hk) as [m Hm].
    rewrite (mask_of_get _ _ _ Hm). destruct (HE k' m Hm). rewrite repeat_length. split; [now apply (HF k')|]. split; assumption. }
  rewrite repeat_length in Ll. exists l. split; [exact Ed|]. split; [now rewrite G|]. split; [exact Ll|].
  assert (Z : forall i, nth i (repeat 0%R n) 0%R = 0%R) by (intros i; apply nth_repeat).
  assert (SEL : forall k i, In k (sorted_keys masks) -> nth i (mask_of masks k) false = true -> selects masks k i).
  { intros k i Hk Hi. apply (proj1 (sorted_keys_in masks k)) in Hk. destruct (in_dget_Some string_dec masks k Hk) as [m Hm]. rewrite (mask_of_get _ _ _ Hm) in Hi. exists m. split; [exact Hm|]. now apply nth_true_error. }
  split.
  - intros k m i Hm (m' & Hm' & Hi) Hmax. rewrite Hm in Hm'. injection Hm' as <-. apply nth_true_error in Hi. rewrite Vl, Z.
    assert (Hk : In k (sorted_keys masks)) by (apply sorted_keys_in; now apply dget_Some_in in Hm).
    apply in_split in Hk as (k1 & k2 & E). rewrite E, map_app. cbn [map].
    rewrite (last_pick (fun km => nth i (snd km) false) (fun km => share (v (fst km)) (snd km) i)).
    + cbn [fst snd]. now rewrite (mask_of_get _ _ _ Hm).
    + cbn [snd]. now rewrite (mask_of_get _ _ _ Hm).
    + intros km Hin. apply in_map_iff in Hin as (k' & <- & Hk'). cbn [snd]. destruct (nth i (mask_of masks k') false) eqn:En; [exfalso|reflexivity].
      assert (S' : selects masks k' i) by (apply SEL; [rewrite E; apply in_or_app; right; now right|exact En]).
      assert (Hs : sle k k' = true). { pose proof (isort_sorted sle sle_total sle_trans (dkeys masks)) as SS. fold (sorted_keys masks) in SS. rewrite E in SS. clear - SS Hk'.
        induction k1 as [|x k1 IH]; cbn in SS; inversion SS as [|? ? S1 F1]; subst; [|auto]. rewrite Forall_forall in F1. now apply F1. }
      assert (k' = k) as -> by (apply sle_antisym; [now apply Hmax|exact Hs]). rewrite E in ND'. apply NoDup_remove_2 in ND'. apply ND'. apply in_or_app. now right.
  - intros i Hn. rewrite Vl, Z. apply none_pick with (p := fun km : string * mask => nth i (snd km) false) (v := fun km => share (v (fst km)) (snd km) i).
    intros km Hin. apply in_map_iff in Hin as (k' & <- & Hk'). cbn [snd]. destruct (nth i (mask_of masks k') false) eqn:En; [exfalso|reflexivity]. apply (Hn k'). now apply SEL.
Qed.
Lemma det_raises_lem : forall w name psrname psr n masks params v k m e, NoDup (dkeys masks) -> masks_fit masks n -> dget string_dec masks k = Some m ->
  (forall k' m', dget string_dec masks k' = Some m' -> sle k' k = true -> k' <> k ->
     wave_call (inst w (us_name [psrname; name; k']) (Some psr)) [("mask", VMask m')] params = Ok (v k') /\ fits_mask (v k') m') ->
  let out := wave_call (inst w (us_name [psrname; name; k]) (Some psr)) [("mask", VMask m)] params in
  (out = Err e \/ (e = ValueError /\ exists l, out = Ok (VArr l) /\ length l <> 1 /\ length l <> count m)) ->
  exists d, det_init w name psrname psr n masks = Ok d /\ get_delay d params = Err e.
Proof.
  intros w name psrname psr n masks params v k m e ND HF Hm HE out HO. destruct (delay_loop w name psrname psr n masks params) as (d & Ed & G). exists d. split; [exact Ed|]. rewrite G.
  assert (ND' : NoDup (sorted_keys masks)) by (eapply Permutation_NoDup; [symmetry; apply sorted_keys_perm|exact ND]).
  assert (Hk : In k (sorted_keys masks)) by (apply sorted_keys_in; now apply dget_Some_in in Hm).
  apply in_split in Hk as (k1 & k2 & E). pose proof (isort_sorted sle sle_total sle_trans (dkeys masks)) as SS. fold (sorted_keys masks) in SS. rewrite E in SS, ND' |- *. rewrite map_app. cbn [map].
  apply (loop_raises _ v).
  - intros k' m' Hin. apply in_map_iff in Hin as (x & Ex & Hx). injection Ex as -> <-.
    assert (Hx' : In k' (dkeys masks)) by (apply sorted_keys_in; rewrite E; apply in_or_app; now left).
    destruct (in_dget_Some string_dec masks k' Hx') as [m' Hm']. rewrite (mask_of_get _ _ _ Hm').
    assert (Hne : k' <> k) by (intros ->; apply NoDup_remove_2 in ND'; apply ND'; apply in_or_app; now left).
    assert (Hs : sle k' k = true). { clear - SS Hx. induction k1 as [|x k1 IH]; [contradiction|]. cbn in SS. inversion SS as [|? ? S1 F1]; subst. destruct Hx as [->|Hx]; [|auto]. rewrite Forall_forall in F1. apply F1, in_or_app. right. now left. }
    destruct (HE k' m' Hm' Hs Hne). rewrite repeat_length. split; [now apply (HF k')|]. split; assumption.
  - intros dl Hd. rewrite repeat_length in Hd. rewrite (mask_of_get _ _ _ Hm). unfold waveform_of. fold out.
    destruct HO as [->|(-> & l & -> & H1 & H2)]; [reflexivity|]. cbn [rbind]. unfold assign. rewrite (HF k m Hm), Hd, Nat.eqb_refl. cbn [negb].
    apply Nat.eqb_neq in H2. destruct l as [|x [|y l]]; [|contradiction|]; now rewrite H2.
Qed.

(** ** Parameters *)
Definition wave_pars (w : wave) (name psrname : string) (psr : val) (masks : dict string mask) (p : par val) : Prop :=
  exists k kw, In k (dkeys masks) /\ In (kw, p) (fo_params (inst w (us_name [psrname; name; k]) (Some psr))).
Definition keyed (d : dict string (par val)) : Prop := forall x p, In (x, p) d -> par_name p = x.
Lemma dset_In : forall {V} (d : dict string V) x p y q, In (y, q) (dset string_dec d x p) -> (y = x /\ q = p) \/ In (y, q) d.
Proof.
  intros V. induction d as [|[a b] d IH]; intros x p y q H; cbn in H.
  - destruct H as [H|[]]. left. now injection H as <- <-.
  - destruct (string_dec x a) as [->|n].
    + destruct H as [H|H]; [left; now injection H as <- <-|right; now right].
    + destruct H as [H|H]; [right; now left|]. destruct (IH _ _ _ _ H) as [H'|H']; [now left|right; now right].
Qed.
Lemma params_from_spec : forall (L : list (string * par val)) d, NoDup (dkeys d) -> keyed d ->
  let d' := fold_left (fun d kp => dset string_dec d (par_name (snd kp)) (snd kp)) L d in
  NoDup (dkeys d') /\ keyed d' /\
  (forall x q, In (x, q) d' -> In (x, q) d \/ In q (map snd L)) /\
  (forall q, In q (map snd L) -> In (par_name q) (dkeys d')) /\ (forall x, In x (dkeys d) -> In x (dkeys d')).
Proof.
  induction L as [|[k p] L IH]; intros d ND K; cbn [fold_left map snd].
  - repeat split; auto. intros q [].
  - destruct (IH (dset string_dec d (par_name p) p)) as (A & B & C & D & E).
    + now apply dset_NoDup.
    + intros x q H. apply dset_In in H as [[-> ->]|H]; [reflexivity|now apply K].
    + split; [exact A|]. split; [exact B|]. split; [|split].
      * intros x q H. apply C in H as [H|H]; [|right; now right]. apply dset_In in H as [[-> ->]|H]; [right; now left|now left].
      * intros q [<-|H]; [|now apply D]. apply E. apply dset_keys_in. now left.
      * intros x H. apply E. apply dset_keys_in. now right.
Qed.
Lemma dt_params_spec : forall (g : string -> fobj val) keys d, NoDup (dkeys d) -> keyed d ->
  let d' := fold_left (fun d k => params_from (g k) d) keys d in
  NoDup (dkeys d') /\ keyed d' /\
  (forall x q, In (x, q) d' -> In (x, q) d \/ exists k, In k keys /\ In q (map snd (fo_params (g k)))) /\
  (forall k q, In k keys -> In q (map snd (fo_params (g k))) -> In (par_name q) (dkeys d')) /\ (forall x, In x (dkeys d) -> In x (dkeys d')).
Proof.
  intros g. induction keys as [|k keys IH]; intros d ND K; cbn [fold_left].
  - repeat split; auto. intros k q [].
  - destruct (params_from_spec (fo_params (g k)) d ND K) as (A & B & C & D & E). fold (params_from (g k) d) in A, B, C, D, E.
    destruct (IH _ A B) as (A' & B' & C' & D' & E'). split; [exact A'|]. split; [exact B'|]. split; [|split].
    + intros x q H. apply C' in H as [H|(k' & H1 & H2)]; [|right; exists k'; split; [now right|exact H2]]. apply C in H as [H|H]; [now left|]. right. exists k. split; [now left|exact H].
    + intros k' q [<-|H] Hq; [|now apply (D' k')]. apply E', D, Hq.
    + intros x H. now apply E', E.
Qed.
Lemma det_params_lem : forall w name psrname psr n masks,
  (forall p q, wave_pars w name psrname psr masks p -> wave_pars w name psrname psr masks q -> par_name p = par_name q -> p = q) ->
  exists d, det_init w name psrname psr n masks = Ok d /\ NoDup (delay_params d) /\
  (forall x, In x (delay_params d) <-> exists p, wave_pars w name psrname psr masks p /\ is_cst p = false /\ par_name p = x) /\
  (forall p, wave_pars w name psrname psr masks p <-> dget string_dec (dt_params d) (par_name p) = Some p).
Proof.
  intros w name psrname psr n masks INJ. destruct (init_ok w name psrname psr n masks) as (ps & E & Eps). eexists. split; [exact E|]. cbn [dt_params delay_params]. unfold delay_params. cbn [dt_params].
  destruct (dt_params_spec (waveform_of w name psrname psr) (sorted_keys masks) [] (NoDup_nil _)) as (A & B & C & D & _); [intros x p []|]. rewrite <- Eps in A, B, C, D.
  assert (IN : forall x p, In (x, p) ps -> x = par_name p /\ wave_pars w name psrname psr masks p).
  { intros x p H. split; [symmetry; now apply B|]. destruct (C x p H) as [[]|(k & Hk & Hp)]. apply in_map_iff in Hp as ((kw & q) & Eq & Hq). cbn in Eq. subst q. exists k, kw. split; [now apply sorted_keys_in|exact Hq]. }
  assert (GET : forall p, wave_pars w name psrname psr masks p <-> In (par_name p, p) ps).
  { intros p. split; [|intros H; now apply IN in H]. intros Hp. pose proof Hp as (k & kw & Hk & Hin).
    assert (Hx : In (par_name p) (dkeys ps)) by (apply (D k); [now apply sorted_keys_in|apply in_map_iff; exists (kw, p); now split]).
    apply in_map_iff in Hx as ((y & q) & Ey & Hq). cbn in Ey. subst y. destruct (IN _ _ Hq) as [En Wq]. rewrite (INJ p q Hp Wq En) in Hq |- *. exact Hq. }
  split; [|split].
  - assert (NDm : NoDup (map (@par_name val) (dvals ps))).
    { replace (map (@par_name val) (dvals ps)) with (dkeys ps); [exact A|]. unfold dkeys, dvals. rewrite map_map. apply map_ext_in. intros [x p] H. cbn. symmetry. now apply B. }
    clear - NDm. induction (dvals ps) as [|p l IH]; [constructor|]. cbn in NDm |- *. inversion NDm as [|? ? H1 H2]; subst. destruct (is_cst p); cbn; [now apply IH|]. constructor; [|now apply IH].
    intros H. apply H1. apply in_map_iff in H as (q & Eq & Hq). apply filter_In in Hq as [Hq _]. apply in_map_iff. now exists q.
  - intros x. rewrite in_map_iff. split.
    + intros (p & <- & H). apply filter_In in H as [H N]. apply in_map_iff in H as ((y & q) & Eq & H). cbn in Eq. subst q. exists p. split; [now apply IN in H|]. split; [now destruct (is_cst p)|reflexivity].
    + intros (p & Hp & N & <-). exists p. split; [reflexivity|]. apply filter_In. split; [|now rewrite N]. apply in_map_iff. exists (par_name p, p). split; [reflexivity|]. now apply GET.
  - intros p. rewrite GET. split; [now apply In_dget|]. intros H. now apply (dget_In string_dec).
Qed.

(** ** Waveforms without nested functions *)
Definition no_functions (w : wave) : Prop :=
  let '(FC f fname kws) := w in Forall (fun ka => match snd ka with AFunC _ | AFun _ => False | _ => True end) kws.
Definition kw_step (name fname : string) (psr : option val) := fun (st : list (string * par val) * list (string * val) * list (string * fobj val)) (ka : string * arg val) =>
  let '(ps, defs, fns) := st in
  let pn := us_name [name; fname; fst ka] in
  match snd ka with
  | AParC prior => (dset string_dec ps (fst ka) (Par pn (inst prior pn None)), defs, fns)
  | ACstC v => (dset string_dec ps (fst ka) (Cst pn (v pn)), defs, fns)
  | AInst p => (dset string_dec ps (fst ka) p, defs, fns)
  | AFunC g => let o := inst g pn psr in (dupdate string_dec ps (fo_params o), defs, dset string_dec fns (fst ka) o)
  | AFun o => (dupdate string_dec ps (fo_params o), defs, dset string_dec fns (fst ka) o)
  | AVal v => (ps, dset string_dec defs (fst ka) v, fns)
  end.
Lemma inst_step : forall f fname kws name psr, inst (FC f fname kws) name psr =
  let st := fold_left (kw_step name fname psr) kws ([], [], []) in
  FObj (us_name [name; fname]) f psr (map fst kws) (fst (fst st)) (snd (fst st)) (snd st).
Proof. reflexivity. Qed.
Lemma step_fns : forall name fname psr kws st, Forall (fun ka : string * arg val => match snd ka with AFunC _ | AFun _ => False | _ => True end) kws ->
  snd (fold_left (kw_step name fname psr) kws st) = snd st.
Proof.
  intros name fname psr kws. induction kws as [|[k a] kws IH]; intros [[ps defs] fns] H; [reflexivity|]. inversion H as [|? ? H1 H2]; subst. cbn [fold_left].
  rewrite IH by exact H2. cbn in H1 |- *. destruct a; try contradiction; reflexivity.
Qed.
Definition calm (n : nat) (p : par val) : Prop := match p with Cst _ v => neutral n v | Par _ _ => True end.
Lemma step_calm : forall n name fname psr kws st, Forall (fun ka => plain_arg n (snd ka)) kws ->
  (forall x p, In (x, p) (fst (fst st)) -> calm n p) -> (forall x v, In (x, v) (snd (fst st)) -> neutral n v) ->
  let st' := fold_left (kw_step name fname psr) kws st in
  (forall x p, In (x, p) (fst (fst st')) -> calm n p) /\ (forall x v, In (x, v) (snd (fst st')) -> neutral n v).
Proof.
  intros n name fname psr kws. induction kws as [|[k a] kws IH]; intros [[ps defs] fns] H P D; [now split|]. inversion H as [|? ? H1 H2]; subst. cbn [fold_left].
  apply IH; [exact H2| |]; cbn in H1, P, D |- *; destruct a as [prior|v|[pn prior|pn v]|g|o|v]; try contradiction; cbn; intros x y Hin; try (now apply P in Hin); try (now apply D in Hin);
    apply dset_In in Hin as [[_ ->]|Hin]; try (now apply P in Hin); try (now apply D in Hin); cbn; auto.
Qed.

Lemma chosen_take : forall m l, take_mask l m = chosen m l.
Proof. unfold chosen. induction m as [|[] m IH]; intros [|x l]; try reflexivity; cbn; rewrite IH; reflexivity. Qed.
Lemma masked_restrict : forall m v, val_masked (VMask m) v = restrict m v.
Proof. intros m [x|l|k|a|]; try reflexivity. cbn. rewrite Nat.eqb_sym, chosen_take. reflexivity. Qed.
Lemma masked_neutral : forall n m v, length m = n -> neutral n v -> val_masked (VMask m) v = v.
Proof. intros n m [x|l|k|a|] Hm Hv; try reflexivity. cbn in *. destruct (Nat.eqb_spec (length m) (length l)); [congruence|reflexivity]. Qed.
Definition kws_neutral (n : nat) (kw : dict string val) : Prop := forall x v, In (x, v) kw -> neutral n v.
(** The keywords with no functions, with or without a mask in front. *)
Lemma fill_plain : forall n params ps defs kws kw,
  (forall x p, In (x, p) ps -> calm n p) -> (forall x v, In (x, v) defs -> neutral n v) ->
  (forall x p v, In (x, p) ps -> dget string_dec params (par_name p) = Some v -> neutral n v) -> kws_neutral n kw ->
  exists kw1, fold_left (fill_kw params ps defs []) kws (Ok kw) = Ok kw1 /\ kws_neutral n kw1 /\ (forall x, In x (dkeys kw1) -> In x (dkeys kw) \/ In x kws).
Proof.
  intros n params ps defs kws kw HP HD HQ. revert kw. induction kws as [|k kws IH]; intros kw HK.
  - exists kw. cbn. auto.
  - cbn [fold_left]. unfold fill_kw at 2. cbn [rbind].
    assert (STEP : forall kw', kws_neutral n kw' -> (forall x, In x (dkeys kw') -> In x (dkeys kw) \/ x = k) ->
      exists kw1, fold_left (fill_kw params ps defs []) kws (Ok kw') = Ok kw1 /\ kws_neutral n kw1 /\ (forall x, In x (dkeys kw1) -> In x (dkeys kw) \/ In x (k :: kws))).
    { intros kw' N I. destruct (IH kw' N) as (kw1 & E & N1 & I1). exists kw1. split; [exact E|]. split; [exact N1|]. intros x Hx. destruct (I1 x Hx) as [H|H]; [|right; now right]. destruct (I x H) as [H'| ->]; [now left|right; now left]. }
    assert (SET : forall v, neutral n v -> exists kw1, fold_left (fill_kw params ps defs []) kws (Ok (dset string_dec kw k v)) = Ok kw1 /\ kws_neutral n kw1 /\ (forall x, In x (dkeys kw1) -> In x (dkeys kw) \/ In x (k :: kws))).
    { intros v Hv. apply STEP.
      - intros x u Hin. apply dset_In in Hin as [[_ ->]|Hin]; [exact Hv|now apply HK in Hin].
      - intros x Hin. apply dset_keys_in in Hin as [->|Hin]; [now right|now left]. }
    assert (NOP : exists kw1, fold_left (fill_kw params ps defs []) kws (Ok kw) = Ok kw1 /\ kws_neutral n kw1 /\ (forall x, In x (dkeys kw1) -> In x (dkeys kw) \/ In x (k :: kws))) by (apply STEP; auto).
    destruct (dmem string_dec kw k); [exact NOP|]. destruct (dget string_dec ps k) as [p|] eqn:Ep.
    + apply (dget_In string_dec) in Ep. destruct (dget string_dec params (par_name p)) as [v|] eqn:Ev; [apply SET; eapply HQ; eassumption|].
      destruct p as [pn prior|pn v]; cbn [par_value]; [exact NOP|apply SET]. exact (HP _ _ Ep).
    + destruct (dget string_dec defs k) as [v|] eqn:Ed; [apply SET; apply (dget_In string_dec) in Ed; eapply HD; eassumption|]. exact NOP.
Qed.
Lemma fill_mask : forall (M : val) params ps defs kws (kw : dict string val), ~ In "mask" kws ->
  fold_left (fill_kw params ps defs []) kws (Ok (("mask", M) :: kw)) = rmap (cons ("mask", M)) (fold_left (fill_kw params ps defs []) kws (Ok kw)).
Proof.
  intros M params ps defs kws. induction kws as [|k kws IH]; intros kw H; [reflexivity|]. cbn [fold_left]. unfold fill_kw at 2 4. cbn [rbind].
  assert (Hk : k <> "mask") by (intros ->; apply H; now left). assert (H' : ~ In "mask" kws) by (intros Hi; apply H; now right).
  assert (EM : dmem string_dec (("mask", M) :: kw) k = dmem string_dec kw k) by (unfold dmem; cbn [dget]; destruct (string_dec k "mask"); [contradiction|reflexivity]). rewrite EM.
  assert (ES : forall v, dset string_dec (("mask", M) :: kw) k v = ("mask", M) :: dset string_dec kw k v) by (intros v; cbn [dset]; destruct (string_dec k "mask"); [contradiction|reflexivity]).
  destruct (dmem string_dec kw k); [now apply IH|]. destruct (dget string_dec ps k) as [p|].
  - destruct (dget string_dec params (par_name p)); [rewrite ES; now apply IH|]. destruct (par_value p); [rewrite ES; now apply IH|now apply IH].
  - destruct (dget string_dec defs k); [rewrite ES; now apply IH|]. now apply IH.
Qed.
Lemma bind_masked : forall n m names dfl args kw, length m = n -> kws_neutral n kw -> (forall v, In (Some v) dfl -> neutral n v) ->
  bind names dfl (map (val_masked (VMask m)) args) kw = rmap (map (val_masked (VMask m))) (bind names dfl args kw).
Proof.
  intros n m names. induction names as [|x ns IH]; intros dfl args kw Hm HK HD.
  - destruct args; reflexivity.
  - destruct dfl as [|d ds]; [destruct args; reflexivity|].
    assert (HD' : forall v, In (Some v) ds -> neutral n v) by (intros v Hv; apply HD; now right).
    destruct args as [|a args]; cbn [bind map].
    + assert (N : forall v, neutral n v -> rmap (cons v) (bind ns ds [] kw) = rmap (map (val_masked (VMask m))) (rmap (cons v) (bind ns ds [] kw))).
      { intros v Hv. pose proof (IH ds [] kw Hm HK HD') as E. cbn [map] in E. destruct (bind ns ds [] kw) as [l|e]; [|reflexivity]. cbn [rmap] in E |- *. injection E as E. cbn [map]. rewrite (masked_neutral n m v Hm Hv), <- E. reflexivity. }
      destruct (dget string_dec kw x) as [v|] eqn:Ev; [apply N; apply (dget_In string_dec) in Ev; eapply HK; eassumption|].
      destruct d as [v|]; [|reflexivity]. apply N, HD. now left.
    + destruct (dmem string_dec kw x); [reflexivity|]. rewrite (IH ds args kw Hm HK HD'). destruct (bind ns ds args kw); reflexivity.
Qed.
Lemma dflts_neutral : forall n (f : pyfun val) v, Forall (neutral n) (pf_defs f) -> In (Some v) (pf_dflts f) -> neutral n v.
Proof.
  intros n f v H Hin. unfold pf_dflts in Hin. apply in_app_or in Hin as [Hin|Hin]; [apply repeat_spec in Hin; discriminate|].
  apply in_map_iff in Hin as (u & E & Hu). injection E as ->. rewrite Forall_forall in H. now apply H.
Qed.
Lemma mask_get : forall M (kw : dict string val), dget string_dec (("mask", M) :: kw) "mask" = Some M.
Proof. reflexivity. Qed.
Lemma get_none : forall (kw : dict string val) x, ~ In x (dkeys kw) -> dget string_dec kw x = None.
Proof. intros kw x H. destruct (dget string_dec kw x) eqn:E; [|reflexivity]. apply dget_Some_in in E. contradiction. Qed.
Lemma pop_none : forall (kw : dict string val) x, ~ In x (dkeys kw) -> dpop string_dec kw x = kw.
Proof. induction kw as [|[y v] kw IH]; intros x H; [reflexivity|]. cbn. destruct (string_dec x y) as [->|]; [exfalso; apply H; now left|]. rewrite IH; [reflexivity|]. intros Hi. apply H. now right. Qed.
Lemma pop_in : forall (kw : dict string val) x y v, In (y, v) (dpop string_dec kw x) -> In (y, v) kw.
Proof. induction kw as [|[a b] kw IH]; intros x y v H; [exact H|]. cbn in H. destruct (string_dec x a); [now right|]. destruct H as [H|H]; [now left|right; now apply (IH x)]. Qed.
Lemma sel_masked : forall n m f kw l, length m = n -> pointwise n f -> Forall (neutral n) (pf_defs f) -> kws_neutral n kw -> ~ In "mask" (dkeys kw) ->
  sel_call val_attr val_masked f [] kw = Ok (VArr l) -> length l = n ->
  sel_call val_attr val_masked f [] (("mask", VMask m) :: kw) = Ok (VArr (take_mask l m)).
Proof.
  intros n m f kw l Hm PW HD HK NM HC Hl. unfold sel_call in *. rewrite mask_get. rewrite (get_none kw "mask" NM), (pop_none kw "mask" NM) in HC.
  change (dpop string_dec (("mask", VMask m) :: kw) "mask") with kw. cbv zeta in *.
  set (kw2 := if dmem string_dec kw "psr" && negb (mem_str "psr" (pf_args f)) then dpop string_dec kw "psr" else kw) in *.
  set (t0 := if (length (@nil val) <? length (pf_args f)) then match dget string_dec kw "psr" with Some p => [] ++ flat_map (fun a => if dmem string_dec kw a then [] else match val_attr p a with Some v => [domask val_masked None v] | None => [] end) (skipn (length (@nil val)) (pf_args f)) | None => [] end else []) in *.
  set (t1 := if (length (@nil val) <? length (pf_args f)) then match dget string_dec kw "psr" with Some p => [] ++ flat_map (fun a => if dmem string_dec kw a then [] else match val_attr p a with Some v => [domask val_masked (Some (VMask m)) v] | None => [] end) (skipn (length (@nil val)) (pf_args f)) | None => [] end else []).
  assert (T : t1 = map (val_masked (VMask m)) t0).
  { unfold t0, t1. destruct (length (@nil val) <? length (pf_args f)); [|reflexivity]. destruct (dget string_dec kw "psr") as [p|]; [|reflexivity]. cbn [app domask]. generalize (skipn (length (@nil val)) (pf_args f)). intros L. induction L as [|a L IH]; [reflexivity|].
    cbn [flat_map]. rewrite IH, map_app. f_equal. destruct (dmem string_dec kw a); [reflexivity|]. destruct (val_attr p a); reflexivity. }
  clearbody t0 t1. subst t1. assert (HK2 : kws_neutral n kw2). { unfold kw2. destruct (_ && _); [|exact HK]. intros x v Hin. apply pop_in in Hin. now apply HK in Hin. }
  unfold call_py in *. destruct (forallb _ _); [|discriminate]. rewrite (bind_masked n m _ _ _ _ Hm HK2); [|intros v; now apply dflts_neutral].
  destruct (bind _ _ _ _) as [vs|e]; [|discriminate]. cbn [rbind rmap] in *. rewrite (map_ext _ _ (masked_restrict m)), chosen_take. now apply PW.
Qed.
Lemma masked_call : forall n m w nm psr params l, length m = n -> plain n w -> neutral n psr ->
  (forall x p v, In (x, p) (fo_params (inst w nm (Some psr))) -> dget string_dec params (par_name p) = Some v -> neutral n v) ->
  wave_call (inst w nm (Some psr)) [] params = Ok (VArr l) -> length l = n ->
  wave_call (inst w nm (Some psr)) [("mask", VMask m)] params = Ok (VArr (take_mask l m)).
Proof.
  intros n m [f fname kws] nm psr params l Hm (PW & HD & HA & HM & HM') HP HQ HC Hl. unfold wave_call in *. rewrite inst_step in *. cbv zeta in *. cbn [fo_params] in HQ.
  destruct (step_calm n nm fname (Some psr) kws ([], [], []) HA) as [CP CD]; [intros x p []|intros x v []|].
  assert (NF : snd (fold_left (kw_step nm fname (Some psr)) kws ([], [], [])) = []).
  { rewrite step_fns; [reflexivity|]. eapply Forall_impl; [|exact HA]. intros [k a] Ha. destruct a; cbn in *; auto. }
  destruct (fold_left (kw_step nm fname (Some psr)) kws ([], [], [])) as [[ps defs] fns]. cbn [fst snd] in *. subst fns. cbn [call map] in *.
  destruct (fill_plain n params ps defs (map fst kws) [] CP CD HQ) as (kw1 & E1 & N1 & I1); [intros x v []|].
  rewrite fill_mask by exact HM. rewrite E1 in *. cbn [rmap rbind] in *. cbv zeta in *.
  assert (NM : ~ In "mask" (dkeys kw1)) by (intros Hi; destruct (I1 _ Hi) as [[]|Hi']; contradiction).
  assert (EP : dmem string_dec (("mask", VMask m) :: kw1) "psr" = dmem string_dec kw1 "psr") by reflexivity. rewrite EP.
  set (kw2 := if dmem string_dec kw1 "psr" then kw1 else dset string_dec kw1 "psr" psr) in *.
  assert (E2 : (if dmem string_dec kw1 "psr" return dict string val then ("mask", VMask m) :: kw1 else dset string_dec (("mask", VMask m) :: kw1) "psr" psr) = ("mask", VMask m) :: kw2).
  { unfold kw2. destruct (dmem string_dec kw1 "psr"); reflexivity. }
  rewrite E2. clear E2.
  assert (N2 : kws_neutral n kw2). { unfold kw2. destruct (dmem string_dec kw1 "psr"); [exact N1|]. intros x v Hin. apply dset_In in Hin as [[_ ->]|Hin]; [exact HP|now apply N1 in Hin]. }
  assert (M2 : ~ In "mask" (dkeys kw2)). { unfold kw2. destruct (dmem string_dec kw1 "psr"); [exact NM|]. intros Hi. apply dset_keys_in in Hi as [Hi|Hi]; [discriminate|contradiction]. }
  cbn [filter fst]. replace (admitted f (map fst kws) "mask") with true by (unfold admitted; now rewrite !orb_true_r).
  apply (sel_masked n); try assumption.
  - intros x v Hin. apply filter_In in Hin as [Hin _]. now apply N2 in Hin.
  - intros Hi. apply M2. apply in_map_iff in Hi as ((y & v) & E & Hy). apply filter_In in Hy as [Hy _]. apply in_map_iff. now exists (y, v).
Qed.

(** ** C100 *)
Lemma share_own : forall l m i, length l = count m -> nth i m false = true -> share (VArr l) m i = nth (rank m i) l 0%R.
Proof.
  intros [|x [|y l]] m i Hl Hi; try reflexivity. cbn. pose proof (rank_lt m i Hi) as H. cbn in Hl. assert (rank m i = 0) as -> by lia. reflexivity.
Qed.
Lemma det_split_lem : forall w name psrname psr n masks params u, NoDup (dkeys masks) -> masks_fit masks n -> plain n w -> neutral n psr ->
  (forall p v, wave_pars w name psrname psr masks p -> dget string_dec params (par_name p) = Some v -> neutral n v) ->
  (forall k, In k (dkeys masks) -> wave_call (inst w (us_name [psrname; name; k]) (Some psr)) [] params = Ok (VArr (u k)) /\ length (u k) = n) ->
  exists d l, det_init w name psrname psr n masks = Ok d /\ get_delay d params = Ok l /\ length l = n /\
  (forall k i, selects masks k i -> (forall k', selects masks k' i -> sle k' k = true) -> nth i l 0%R = nth i (u k) 0%R) /\
  (forall i, (forall k, ~ selects masks k i) -> nth i l 0%R = 0%R).
Proof.
  intros w name psrname psr n masks params u ND HF PL HP HQ HU.
  destruct (det_delay_lem w name psrname psr n masks params (fun k => VArr (take_mask (u k) (mask_of masks k))) ND HF) as (d & l & Ed & Gd & Ll & V1 & V2).
  - intros k m Hm. assert (Hk : In k (dkeys masks)) by (eapply dget_Some_in; eassumption). destruct (HU k Hk) as [HC HL]. pose proof (HF k m Hm) as Lm. rewrite (mask_of_get _ _ _ Hm). split.
    + apply (masked_call n); try assumption. intros x p v Hin Hv. apply (HQ p v); [|exact Hv]. exists k, x. now split.
    + cbn. left. rewrite take_mask_length by congruence. reflexivity.
  - exists d, l. split; [exact Ed|]. split; [exact Gd|]. split; [exact Ll|]. split; [|exact V2].
    intros k i (m & Hm & Hi) Hmax. pose proof (HF k m Hm) as Lm. assert (Hk : In k (dkeys masks)) by (eapply dget_Some_in; eassumption). destruct (HU k Hk) as [_ HL].
    rewrite (V1 k m i Hm) by (auto; now exists m). rewrite (mask_of_get _ _ _ Hm). apply nth_true_error in Hi.
    rewrite share_own; [|rewrite take_mask_length by congruence; reflexivity|exact Hi]. apply take_mask_rank; [congruence|exact Hi].
Qed.
Lemma shared_fold : forall nm nm' fname psr kws st, Forall (fun ka : string * arg val => match snd ka with AInst _ | AVal _ => True | _ => False end) kws ->
  fold_left (kw_step nm fname psr) kws st = fold_left (kw_step nm' fname psr) kws st.
Proof.
  intros nm nm' fname psr kws. induction kws as [|[k a] kws IH]; intros st H; [reflexivity|]. inversion H as [|? ? H1 H2]; subst. cbn [fold_left]. rewrite IH by exact H2. f_equal.
  destruct st as [[ps defs] fns]. cbn in H1 |- *. destruct a; try contradiction; reflexivity.
Qed.
Lemma shared_call : forall w nm nm' psr kw params, shared w -> wave_call (inst w nm psr) kw params = wave_call (inst w nm' psr) kw params.
Proof.
  intros [f fname kws] nm nm' psr kw params H. unfold wave_call. rewrite !inst_step. cbv zeta. rewrite (shared_fold nm nm') by exact H. reflexivity.
Qed.
Lemma max_key : forall (P : string -> Prop) keys, (forall k, In k keys -> P k \/ ~ P k) -> (exists k, In k keys /\ P k) ->
  exists k, In k keys /\ P k /\ forall k', In k' keys -> P k' -> sle k' k = true.
Proof.
  intros P keys. induction keys as [|x keys IH]; intros D (k & Hk & Pk); [contradiction|].
  assert (D' : forall k, In k keys -> P k \/ ~ P k) by (intros; apply D; now right).
  assert (E : (exists k, In k keys /\ P k) \/ ~ exists k, In k keys /\ P k).
  { clear - D'. induction keys as [|y keys IH]; [right; intros (k & [] & _)|]. destruct (D' y (or_introl eq_refl)) as [Py|Ny]; [left; exists y; split; [now left|exact Py]|].
    destruct IH as [(k & H1 & H2)|H]; [intros; apply D'; now right|left; exists k; split; [now right|exact H2]|right]. intros (k & [->|H1] & H2); [contradiction|]. apply H. now exists k. }
  destruct (D x (or_introl eq_refl)) as [Px|Nx].
  - destruct E as [E|E].
    + destruct (IH D' E) as (y & Hy & Py & My). destruct (sle x y) eqn:S.
      * exists y. split; [now right|]. split; [exact Py|]. intros k' [<-|Hk'] Pk'; [exact S|now apply My].
      * exists x. split; [now left|]. split; [exact Px|]. intros k' [<-|Hk'] Pk'; [apply sle_refl|]. apply sle_trans with y; [now apply My|]. destruct (sle_total x y) as [T|T]; [congruence|exact T].
    + exists x. split; [now left|]. split; [exact Px|]. intros k' [<-|Hk'] Pk'; [apply sle_refl|]. exfalso. apply E. now exists k'.
  - destruct Hk as [->|Hk]; [contradiction|]. destruct (IH D') as (y & Hy & Py & My); [now exists k|]. exists y. split; [now right|]. split; [exact Py|]. intros k' [<-|Hk'] Pk'; [contradiction|now apply My].
Qed.
Lemma selects_max : forall masks i, (exists k, selects masks k i) -> exists k, selects masks k i /\ forall k', selects masks k' i -> sle k' k = true.
Proof.
  intros masks i (k & Hk). assert (IN : forall k, selects masks k i -> In k (dkeys masks)) by (intros k' (m & Hm & _); eapply dget_Some_in; eassumption).
  destruct (max_key (fun k => selects masks k i) (dkeys masks)) as (y & Hy & Py & My).
  - intros k' _. unfold selects. destruct (dget string_dec masks k') as [m|]; [|right; intros (m & E & _); discriminate].
    destruct (nth_error m i) as [[]|] eqn:E; [left; now exists m|right|right]; intros (m' & E' & E''); injection E' as <-; congruence.
  - exists k. split; [now apply IN|exact Hk].
  - exists y. split; [exact Py|]. intros k' Hk'. apply My; [now apply IN|exact Hk'].
Qed.
Lemma det_split_shared_lem : forall w name psrname psr n masks params nm u, NoDup (dkeys masks) -> masks_fit masks n ->
  (forall i, i < n -> exists k, selects masks k i) -> plain n w -> shared w -> neutral n psr ->
  (forall p v, wave_pars w name psrname psr masks p -> dget string_dec params (par_name p) = Some v -> neutral n v) ->
  wave_call (inst w nm (Some psr)) [] params = Ok (VArr u) -> length u = n ->
  exists d, det_init w name psrname psr n masks = Ok d /\ get_delay d params = Ok u.
Proof.
  intros w name psrname psr n masks params nm u ND HF HS PL SH HP HQ HC HL.
  destruct (det_split_lem w name psrname psr n masks params (fun _ => u) ND HF PL HP HQ) as (d & l & Ed & Gd & Ll & V1 & _).
  - intros k _. split; [|exact HL]. rewrite <- HC. now apply shared_call.
  - exists d. split; [exact Ed|]. rewrite Gd. f_equal. apply nth_ext with 0%R 0%R; [congruence|]. intros i Hi. rewrite Ll in Hi. destruct (selects_max masks i (HS i Hi)) as (k & Hk & Mk). now apply (V1 k).
Qed.

(** ** What the delay depends on *)
Lemma fill_depends : forall params params' (ps : list (string * par val)) defs kws st,
  (forall x p, In (x, p) ps -> dget string_dec params (par_name p) = dget string_dec params' (par_name p)) ->
  fold_left (fill_kw params ps defs []) kws st = fold_left (fill_kw params' ps defs []) kws st.
Proof.
  intros params params' ps defs kws. induction kws as [|k kws IH]; intros st H; [reflexivity|]. cbn [fold_left]. rewrite IH by exact H. f_equal.
  destruct st as [kw|e]; [|reflexivity]. cbn [fill_kw rbind]. destruct (dmem string_dec kw k); [reflexivity|]. destruct (dget string_dec ps k) as [p|] eqn:Ep; [|reflexivity].
  apply (dget_In string_dec) in Ep. now rewrite (H _ _ Ep).
Qed.
Lemma call_depends : forall w nm psr kw params params', no_functions w ->
  (forall x p, In (x, p) (fo_params (inst w nm psr)) -> dget string_dec params (par_name p) = dget string_dec params' (par_name p)) ->
  wave_call (inst w nm psr) kw params = wave_call (inst w nm psr) kw params'.
Proof.
  intros [f fname kws] nm psr kw params params' NF H. unfold wave_call. rewrite inst_step in *. cbv zeta in *. cbn [fo_params] in H.
  assert (E : snd (fold_left (kw_step nm fname psr) kws ([], [], [])) = []) by (rewrite step_fns; [reflexivity|exact NF]).
  destruct (fold_left (kw_step nm fname psr) kws ([], [], [])) as [[ps defs] fns]. cbn [fst snd] in *. subst fns. cbn [call map]. now rewrite (fill_depends params params').
Qed.
Lemma det_depends_lem : forall w name psrname psr n masks params params', no_functions w ->
  (forall p q, wave_pars w name psrname psr masks p -> wave_pars w name psrname psr masks q -> par_name p = par_name q -> p = q) ->
  exists d, det_init w name psrname psr n masks = Ok d /\
  ((forall x, In x (delay_params d) -> dget string_dec params x = dget string_dec params' x) ->
   (forall p, wave_pars w name psrname psr masks p -> is_cst p = true -> dget string_dec params (par_name p) = dget string_dec params' (par_name p)) ->
   get_delay d params = get_delay d params').
Proof.
  intros w name psrname psr n masks params params' NF INJ. destruct (det_params_lem w name psrname psr n masks INJ) as (d & Ed & _ & DP & _). exists d. split; [exact Ed|]. intros H1 H2.
  destruct (delay_loop w name psrname psr n masks params) as (d1 & E1 & G1). destruct (delay_loop w name psrname psr n masks params') as (d2 & E2 & G2).
  rewrite Ed in E1, E2. injection E1 as <-. injection E2 as <-. rewrite G1, G2.
  assert (H : forall keys st, (forall k, In k keys -> In k (dkeys masks)) ->
    fold_left (step (fun k m => wave_call (waveform_of w name psrname psr k) [("mask", VMask m)] params)) (map (fun k => (k, mask_of masks k)) keys) st =
    fold_left (step (fun k m => wave_call (waveform_of w name psrname psr k) [("mask", VMask m)] params')) (map (fun k => (k, mask_of masks k)) keys) st).
  { induction keys as [|k keys IH]; intros st Hk; [reflexivity|]. cbn [map fold_left]. rewrite IH by (intros; apply Hk; now right). f_equal. unfold step. cbn [fst snd]. destruct st as [dl|e]; [|reflexivity]. cbn [rbind]. f_equal.
    apply call_depends; [exact NF|]. intros x p Hin. assert (W : wave_pars w name psrname psr masks p) by (exists k, x; split; [apply Hk; now left|exact Hin]).
    destruct (is_cst p) eqn:C; [now apply H2|]. apply H1, DP. now exists p. }
  apply H. intros k Hk. now apply sorted_keys_in.
Qed.

Definition arr1 (vs : list val) : result val := match vs with [VArr l] => Ok (VArr l) | _ => Err TypeError end.
Lemma arr1_pointwise : forall n x, pointwise n (PyFun [x] [] arr1).
Proof.
  intros n x m vs l Hm Hb Hl. cbn in Hb |- *. unfold arr1 in *. destruct vs as [|v [|? ?]]; try discriminate; destruct v; try discriminate. injection Hb as ->. cbn. rewrite Hm, Hl, Nat.eqb_refl. reflexivity.
Qed.
Lemma nested_mask_refuted_lem : exists f g psr masks,
  pointwise 3 f /\ pointwise 3 g /\ NoDup (dkeys masks) /\ masks_fit masks 3 /\ (forall i, i < 3 -> exists k, selects masks k i /\ forall k', selects masks k' i -> k' = k) /\
  let w := FC f "" [("h", AFunC (FC g "" []))] in
  wave_call (inst w "" (Some psr)) [] [] = Ok (VArr [1; 2; 3]%R) /\
  exists d, det_init w "" "" psr 3 masks = Ok d /\ get_delay d [] = Err ValueError.
Proof.
  exists (PyFun ["h"] [] arr1), (PyFun ["toas"] [] arr1), (VPsr [("toas", [1; 2; 3]%R)]), [("a", [true; true; false]); ("b", [false; false; true])].
  split; [apply arr1_pointwise|]. split; [apply arr1_pointwise|].
  split; [cbn; repeat constructor; cbn; intuition discriminate|].
  split. { intros k m H. cbn in H. destruct (string_dec k "a"); [now injection H as <-|]. destruct (string_dec k "b"); [now injection H as <-|discriminate]. }
  split.
  { assert (S : forall k' i m, dget string_dec [("a", [true; true; false]); ("b", [false; false; true])] k' = Some m -> nth_error m i = Some true -> k' = (if i <? 2 then "a" else "b")).
    { intros k' i m H N. cbn in H. destruct (string_dec k' "a") as [->|]; [injection H as <-; destruct i as [|[|[|[|i]]]]; try discriminate; reflexivity|].
      destruct (string_dec k' "b") as [->|]; [injection H as <-; destruct i as [|[|[|[|i]]]]; try discriminate; reflexivity|discriminate]. }
    intros i Hi. exists (if i <? 2 then "a" else "b"). split; [|intros k' (m & Hm & Hn); now apply (S k' i m)].
    destruct i as [|[|[|i]]]; [| | |lia]; eexists; (split; [reflexivity|reflexivity]). }
  split; [reflexivity|]. eexists. split; reflexivity.
Qed.
Lemma delay_params_refuted_lem : exists w psr params params' l l', no_functions w /\
  exists d, det_init w "" "" psr 1 [("", [true])] = Ok d /\ (forall x, In x (delay_params d) -> dget string_dec params x = dget string_dec params' x) /\
  get_delay d params = Ok l /\ get_delay d params' = Ok l' /\ l <> l'.
Proof.
  exists (FC (PyFun ["c"] [] (fun vs => match vs with [v] => Ok v | _ => Err TypeError end)) "" [("c", ACstC (fun _ => VNum 1))]), VObj, [], [("c", VNum 2)], [1%R], [2%R].
  split; [repeat constructor|]. eexists. split; [reflexivity|]. split; [intros x []|]. split; [reflexivity|]. split; [reflexivity|]. intros H. injection H as H. lra.
Qed.

(** ** What a waveform is given *)
Lemma filter_all_true : forall {A} (p : A -> bool) l, (forall x, In x l -> p x = true) -> filter p l = l.
Proof. intros A p l. induction l as [|x l IH]; intros H; [reflexivity|]. cbn. rewrite (H x) by now left. f_equal. apply IH. intros; apply H; now right. Qed.
Lemma NoDup_app_one : forall {A} (l : list A) x, NoDup l -> ~ In x l -> NoDup (l ++ [x]).
Proof. intros A l x H N. induction l as [|y l IH]; cbn; [constructor; [intros []|constructor]|]. inversion H as [|? ? H1 H2]; subst. constructor; [|apply IH; [exact H2|intros Hi; apply N; now right]].
  intros Hi. apply in_app_or in Hi as [Hi|[<-|[]]]; [contradiction|]. apply N. now left. Qed.
Lemma F2_length : forall {A B} (P : A -> B -> Prop) l l', Forall2 P l l' -> length l = length l'.
Proof. intros A B P l l' H. induction H; cbn; congruence. Qed.
Lemma flat_map_nil : forall {A B} (l : list A) (f : A -> list B), (forall x, In x l -> f x = []) -> flat_map f l = [].
Proof. intros A B l f. induction l as [|x l IH]; intros H; [reflexivity|]. cbn. rewrite (H x) by now left. apply IH. intros; apply H; now right. Qed.
Lemma fill_values : forall params (ps : list (string * par val)) kws vals (kw0 : dict string val), NoDup (map fst kws) ->
  (forall k, In k (map fst kws) -> ~ In k (dkeys kw0)) -> (forall k p, In (k, p) kws -> dget string_dec ps k = Some p) ->
  Forall2 (fun (kp : string * par val) v => dget string_dec params (par_name (snd kp)) = Some v) kws vals ->
  fold_left (fill_kw params ps [] []) (map fst kws) (Ok kw0) = Ok (kw0 ++ combine (map fst kws) vals).
Proof.
  intros params ps kws. induction kws as [|[k p] kws IH]; intros vals kw0 ND NK HP HV; inversion HV as [|? v ? vals' Hv HV']; subst.
  - cbn. now rewrite app_nil_r.
  - cbn [map fst fold_left combine]. cbn in ND. inversion ND as [|? ? N1 N2]; subst.
    assert (Hn : ~ In k (dkeys kw0)) by (apply NK; now left).
    unfold fill_kw at 2. cbn [rbind]. assert (EM : dmem string_dec kw0 k = false) by now apply dmem_false. rewrite EM.
    rewrite (HP k p) by now left. cbn [snd] in Hv. rewrite Hv. rewrite dset_new by exact Hn. rewrite (IH vals').
    + now rewrite <- app_assoc.
    + exact N2.
    + intros k' Hk' Hin. unfold dkeys in Hin. rewrite map_app in Hin. apply in_app_or in Hin as [Hin|[<-|[]]]; [|now apply N1]. apply (NK k'); [now right|exact Hin].
    + intros k' p' Hin. apply HP. now right.
    + exact HV'.
Qed.
Lemma inst_values : forall nm fname psr (kws : list (string * par val)) ps0, NoDup (map fst kws) -> (forall k, In k (map fst kws) -> ~ In k (dkeys ps0)) ->
  fold_left (kw_step nm fname psr) (map (fun kp => (fst kp, AInst (snd kp))) kws) (ps0, [], []) = (ps0 ++ kws, [], []).
Proof.
  intros nm fname psr kws. induction kws as [|[k p] kws IH]; intros ps0 ND NK; [cbn; now rewrite app_nil_r|]. cbn [map fst snd fold_left kw_step]. cbn in ND. inversion ND as [|? ? N1 N2]; subst.
  rewrite dset_new by (apply NK; now left). rewrite IH; [now rewrite <- app_assoc|exact N2|].
  intros k' Hk' Hin. unfold dkeys in Hin. rewrite map_app in Hin. apply in_app_or in Hin as [Hin|[<-|[]]]; [|now apply N1]. apply (NK k'); [now right|exact Hin].
Qed.
Lemma get_combine : forall names (vals : list val) k i, NoDup names -> length vals = length names -> nth_error names i = Some k -> dget string_dec (combine names vals) k = nth_error vals i.
Proof.
  induction names as [|x names IH]; intros [|v vals] k i ND HL Hi; try discriminate; [destruct i; discriminate|]. cbn in HL. inversion ND as [|? ? N1 N2]; subst. cbn [combine dget]. destruct i as [|i].
  - injection Hi as ->. destruct (string_dec k k); [reflexivity|congruence].
  - cbn in Hi |- *. destruct (string_dec k x) as [->|n]; [exfalso; apply N1; eapply nth_error_In; eassumption|]. apply IH; [exact N2|lia|exact Hi].
Qed.
Lemma bind_values : forall names (kw : dict string val) vals, (forall i k, nth_error names i = Some k -> dget string_dec kw k = nth_error vals i) -> length vals = length names ->
  bind names (repeat None (length names)) [] kw = Ok vals.
Proof.
  induction names as [|x names IH]; intros kw [|v vals] H HL; try discriminate; [reflexivity|]. cbn [length repeat bind]. rewrite (H 0 x eq_refl). cbn [nth_error]. rewrite (IH kw vals); [reflexivity| |cbn in HL; lia].
  intros i k Hi. exact (H (S i) k Hi).
Qed.
Lemma bind_both : forall ats names (targs : list val) kw vals, length targs = length ats -> (forall a, In a ats -> dmem string_dec kw a = false) ->
  bind names (repeat None (length names)) [] kw = Ok vals ->
  bind (ats ++ names) (repeat None (length (ats ++ names))) targs kw = Ok (targs ++ vals).
Proof.
  induction ats as [|a ats IH]; intros names [|x targs] kw vals HL HM HB; try discriminate; [exact HB|]. cbn [app length repeat bind]. rewrite HM by now left. rewrite (IH names targs kw vals); [reflexivity|cbn in HL; lia|intros; apply HM; now right|exact HB].
Qed.
Lemma det_arguments_lem : forall body ats kws attrs nm m params arrays vals, NoDup (ats ++ map fst kws) ->
  ~ In "mask" (ats ++ map fst kws) -> ~ In "psr" (ats ++ map fst kws) ->
  Forall2 (fun a l => dget string_dec attrs a = Some l /\ length l = length m) ats arrays ->
  Forall2 (fun (kp : string * par val) v => dget string_dec params (par_name (snd kp)) = Some v) kws vals ->
  wave_call (inst (FC (PyFun (ats ++ map fst kws) [] body) "" (map (fun kp => (fst kp, AInst (snd kp))) kws)) nm (Some (VPsr attrs))) [("mask", VMask m)] params
  = body (map (fun l => VArr (map snd (filter fst (combine m l)))) arrays ++ vals).
Proof.
  intros body ats kws attrs nm m params arrays vals ND NM NP HA HV. unfold wave_call. rewrite inst_step. cbv zeta. set (names := map fst kws) in *.
  assert (NDn : NoDup names) by (clear - ND; induction ats as [|a ats IH]; [exact ND|apply IH; now inversion ND]).
  assert (DJ : forall a, In a ats -> ~ In a names) by (intros a Ha Hn; clear - ND Ha Hn; induction ats as [|x ats IH]; [contradiction|]; cbn in ND; inversion ND as [|? ? N1 N2]; subst; destruct Ha as [->|Ha]; [apply N1, in_or_app; now right|now apply IH]).
  rewrite inst_values; [|exact NDn|intros k _ []]. cbn [app fst snd]. rewrite map_map. cbn [fst]. change (map (fun x : string * par val => fst x) kws) with names.
  cbn [call map]. pose proof (F2_length _ _ _ HV) as LV. assert (LN : length vals = length names) by (unfold names; rewrite map_length; now symmetry).
  unfold names at 1. rewrite (fill_values params kws kws vals); [|exact NDn|intros k Hk [E|[]]; apply NM, in_or_app; right; cbn in E; now subst k| |exact HV].
  2: { intros k p Hin. apply In_dget; [exact NDn|exact Hin]. }
  fold names. cbn [rbind]. cbn [app].
  assert (KP : dkeys (combine names vals) = names). { clear - LN. revert vals LN. induction names as [|x l IH]; intros [|v vs] LN; try discriminate; [reflexivity|]. cbn in LN |- *. f_equal. apply IH. lia. }
  assert (PN : ~ In "psr" (dkeys (("mask", VMask m) :: combine names vals))). { cbn. fold (dkeys (combine names vals)). rewrite KP. intros [E|Hi]; [discriminate|]. apply NP, in_or_app. now right. }
  replace (dmem string_dec (("mask", VMask m) :: combine names vals) "psr") with false by (symmetry; now apply dmem_false).
  rewrite dset_new by exact PN. rewrite filter_all_true.
  2: { intros [k v] Hin. cbn [fst]. unfold admitted. cbn [pf_args]. apply in_app_or in Hin as [[E|Hin]|[E|[]]].
       - injection E as <- <-. now rewrite !orb_true_r.
       - assert (Hk : In k names) by (rewrite <- KP; apply in_map_iff; now exists (k, v)). replace (mem_str k names) with true; [reflexivity|]. symmetry. unfold mem_str. apply existsb_exists. exists k. split; [exact Hk|apply String.eqb_refl].
       - injection E as <- <-. now rewrite !orb_true_r. }
  cbn [app]. unfold sel_call. rewrite mask_get. cbn [pf_args length]. cbv zeta.
  change (dpop string_dec (("mask", VMask m) :: combine names vals ++ [("psr", VPsr attrs)]) "mask") with (combine names vals ++ [("psr", VPsr attrs)]).
  assert (PN' : ~ In "psr" (dkeys (combine names vals))) by (intros Hi; apply PN; now right).
  assert (EP : dget string_dec (combine names vals ++ [("psr", VPsr attrs)]) "psr" = Some (VPsr attrs)).
  { apply In_dget; [|apply in_or_app; right; now left]. unfold dkeys. rewrite map_app. fold (dkeys (combine names vals)). rewrite KP. cbn. apply NoDup_app_one; [exact NDn|]. now rewrite <- KP. }
  rewrite EP.
  assert (PP : dpop string_dec (combine names vals ++ [("psr", VPsr attrs)]) "psr" = combine names vals).
  { clear - PN'. induction (combine names vals) as [|[k v] l IH]; [reflexivity|]. cbn [app dpop]. destruct (string_dec "psr" k) as [<-|n]; [exfalso; apply PN'; now left|]. rewrite IH; [reflexivity|]. intros Hi. apply PN'. now right. }
  assert (MP : dmem string_dec (combine names vals ++ [("psr", VPsr attrs)]) "psr" = true) by (unfold dmem; now rewrite EP).
  assert (MN : mem_str "psr" (ats ++ names) = false). { unfold mem_str. destruct (existsb _ _) eqn:E; [|reflexivity]. apply existsb_exists in E as (y & Hy & Ey). apply String.eqb_eq in Ey. subst y. contradiction. }
  rewrite MP, MN. cbn [andb negb]. rewrite PP. cbn [skipn].
  assert (GM : forall k, dmem string_dec (combine names vals ++ [("psr", VPsr attrs)]) k = true <-> In k names \/ k = "psr").
  { intros k. rewrite dmem_true. unfold dkeys. rewrite map_app, in_app_iff. fold (dkeys (combine names vals)). rewrite KP. cbn. intuition. }
  assert (TG : (if (0 <? length (ats ++ names)) then [] ++ flat_map (fun a => if dmem string_dec (combine names vals ++ [("psr", VPsr attrs)]) a then [] else match val_attr (VPsr attrs) a with Some v => [domask val_masked (Some (VMask m)) v] | None => [] end) (ats ++ names) else [])
      = map (fun l => VArr (map snd (filter fst (combine m l)))) arrays).
  { replace (if (0 <? length (ats ++ names)) then [] ++ flat_map (fun a => if dmem string_dec (combine names vals ++ [("psr", VPsr attrs)]) a then [] else match val_attr (VPsr attrs) a with Some v => [domask val_masked (Some (VMask m)) v] | None => [] end) (ats ++ names) else [])
      with (flat_map (fun a => if dmem string_dec (combine names vals ++ [("psr", VPsr attrs)]) a then [] else match val_attr (VPsr attrs) a with Some v => [domask val_masked (Some (VMask m)) v] | None => [] end) (ats ++ names)) by (destruct (ats ++ names); reflexivity).
    rewrite flat_map_app. rewrite (flat_map_nil names).
    2: { intros a Ha. rewrite (proj2 (GM a) (or_introl Ha)). reflexivity. }
    rewrite app_nil_r. clear - HA DJ NP GM. assert (NA : forall a, In a ats -> dmem string_dec (combine names vals ++ [("psr", VPsr attrs)]) a = false).
    { intros a Ha. destruct (dmem _ _ a) eqn:E; [|reflexivity]. apply GM in E as [E|E]; [exfalso; eapply DJ; eassumption|]. subst a. exfalso. apply NP, in_or_app. now left. }
    clear DJ NP GM. induction HA as [|a l ats arrays [H1 H2] HA IH]; [reflexivity|]. cbn [flat_map map]. rewrite NA by now left. cbn [val_attr]. rewrite H1. cbn [option_map domask]. rewrite masked_restrict. cbn [restrict]. rewrite H2, Nat.eqb_refl. cbn [app]. f_equal. apply IH. intros; apply NA; now right. }
  rewrite TG. unfold call_py. cbn [pf_args].
  replace (forallb (fun k => mem_str k (ats ++ names)) (dkeys (combine names vals))) with true.
  2: { symmetry. apply forallb_forall. rewrite KP. intros k Hk. unfold mem_str. apply existsb_exists. exists k. split; [apply in_or_app; now right|apply String.eqb_refl]. }
  unfold pf_dflts. cbn [pf_args pf_defs length map]. rewrite Nat.sub_0_r, app_nil_r.
  rewrite (bind_both ats names _ _ vals); [reflexivity| | |].
  - rewrite map_length. symmetry. exact (F2_length _ _ _ HA).
  - intros a Ha. apply dmem_false. rewrite KP. now apply DJ.
  - apply bind_values; [|exact LN]. intros i k Hi. now apply get_combine.
Qed.

(** ** Examples *)
(** The TOAs times an amplitude for each selection *)
Definition scaled (vs : list val) : result val := match vs with [VArr l; VNum a] => Ok (VArr (map (Rmult a) l)) | _ => Err TypeError end.
Definition flat : fclass val := FC (PyFun [] [] (fun _ => Err TypeError)) "" [].
Definition ramp : wave := FC (PyFun ["toas"; "a"] [] scaled) "" [("a", AParC flat)].
Definition ramp1 : wave := FC (PyFun ["toas"; "a"] [] scaled) "" [("a", AInst (Par "a" (inst flat "a" None)))].
Definition ramp_psr : val := VPsr [("toas", [5; 6; 7]%R)].
Definition ramp_masks : dict string mask := [("y", [false; true; false]); ("x", [true; false; true])].

Lemma scaled_plain : forall n, plain n ramp /\ plain n ramp1.
Proof.
  assert (H : forall n, pointwise n (PyFun ["toas"; "a"] [] scaled)).
  { intros n m vs l Hm Hb Hl. cbn in Hb |- *. unfold scaled in *. destruct vs as [|v [|v' [|? ?]]]; try discriminate; destruct v; try discriminate; destruct v'; try discriminate. injection Hb as <-. rewrite map_length in Hl. cbn. rewrite Hm, Hl, Nat.eqb_refl. cbn. f_equal. f_equal.
    clear. unfold chosen. revert m. induction l0 as [|y l0 IH]; intros [|[] m]; try reflexivity; cbn; rewrite IH; reflexivity. }
  intros n. split; (split; [apply H|]; split; [constructor|]; split; [repeat constructor|]; split; cbn; intuition discriminate).
Qed.
