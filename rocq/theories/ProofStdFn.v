(** What the functions of ModelStandard.v return. *)
From Coq Require Import String Bool Arith ZArith List Reals Lia Lra.
From Verif Require ProofQuant.
From Verif Require Import PyBase ProofBase ModelSelect ProofSelect ModelFunc ModelCache ModelGp ProofGp ModelBases ModelSpectra ProofBases ProofSpectra ModelOrf ModelInterp ModelSized ProofSigs ModelKinds ModelStandard.
Import ListNotations.
Open Scope string_scope.
Open Scope list_scope.
Open Scope R_scope.

(** * Specification *)
(** The density of the variance of a power law at frequency [f] (in Hz), with the
    amplitude at a frequency of one per year *)
Definition psd (log10_A gamma f : R) : R := Rpower 10 (2 * log10_A) / (12 * PI ^ 2) * Rpower (31557600 * f) (- gamma) * 31557600 ^ 3.
(** The variance at the k-th frequency k/T: of a power law, of a free spectrum with
    [rho k], or [rho k] itself *)
Definition variance (s : shape) (log10_A gamma : R) (rho : nat -> R) (T : R) (k : nat) : R :=
  match s with
  | Power _ _ => psd log10_A gamma (INR k / T) * (1 / T)
  | Free _ => Rpower 10 (2 * rho k)
  | Prior _ => rho k
  end.
(** The covariance of a process with [n] frequencies k/T at a time difference *)
Definition kernel (T : R) (n : nat) (var : nat -> R) (dt : R) : R :=
  ProofBases.rsum (map (fun k => var k * cos (2 * PI * (INR k / T) * dt)) (seq 1 n)).
(** The time span of a process: the one given, or that of the TOAs *)
Definition spans (Tspan : option R) (toas : list R) (T : R) : Prop :=
  match Tspan with Some T' => T' = T | None => extent toas = Ok T end.

(** * Names *)
Lemma us_name_mid name k : us_name [name; ""; k] = us_name [name; k].
Proof. unfold us_name; cbn [filter]; destruct (String.eqb name ""); reflexivity. Qed.
Lemma us_name_nested l x : us_name (us_name l :: x) = us_name (l ++ x).
Proof.
  unfold us_name; rewrite filter_app; cbn [filter].
  set (fl := filter _ l); assert (N : forall s, In s fl -> s <> "") by (intros s hs; apply filter_In in hs; destruct hs as [_ hs]; intros ->; discriminate).
  set (fx := filter _ x); clearbody fx fl; destruct fl as [|a fl]; [reflexivity|].
  assert (ne : String.eqb (join_us (a :: fl)) "" = false).
  { destruct a as [|c a]; [destruct (N ""); [now left|reflexivity]|]; destruct fl; reflexivity. }
  rewrite ne; cbn [negb]; clear ne N; revert a; induction fl as [|b fl IH]; intros a.
  - destruct fx; reflexivity.
  - cbn [app join_us]; specialize (IH b); destruct fx as [|y fx].
    + rewrite app_nil_r; reflexivity.
    + cbn [app join_us] in IH |- *.
      transitivity (append (append a (append "_" (join_us (b :: fl)))) (append "_" (join_us (y :: fx)))); [reflexivity|].
      assert (As : forall u v w, append (append u v) w = append u (append v w)) by (clear; induction u as [|z u IHu]; intros v w; cbn; [reflexivity|now rewrite IHu]).
      rewrite !As; f_equal; rewrite <- IH; reflexivity.
Qed.

(** * Selections of everything *)
Lemma take_all {A} : forall (l : list A) n, length l = n -> take_mask l (repeat true n) = l.
Proof. induction l as [|x l IH]; intros [|n] e; cbn in e |- *; try reflexivity; try discriminate; now rewrite IH by congruence. Qed.
Lemma count_all n : count (repeat true n) = n.
Proof. unfold count; induction n as [|n IH]; [reflexivity|]; cbn; now rewrite IH. Qed.

(** * Calls *)
(** A keyword given to a factory has a value: that of the parameter with the name of the
    instance, of the constant, or the number itself. *)
Definition arg_has (p : params R) (a : arg gv) (name : string) (x : R) : Prop :=
  match a with
  | AParC _ => dget string_dec p name = Some (Sc x)
  | ACstC v => v name = num x /\ dget string_dec p name = None
  | AInst (Par name' _) => dget string_dec p name' = Some (Sc x)
  | AInst (Cst name' v) => v = num x /\ dget string_dec p name' = None
  | AVal v => v = num x
  | _ => False
  end.
Definition arg_vec (p : params R) (a : arg gv) (name : string) (l : list R) : Prop :=
  match a with
  | AParC _ => dget string_dec p name = Some (Vec l)
  | ACstC v => v name = GV (Vec l) /\ dget string_dec p name = None
  | AInst (Par name' _) => dget string_dec p name' = Some (Vec l)
  | AInst (Cst name' v) => v = GV (Vec l) /\ dget string_dec p name' = None
  | AVal v => v = GV (Vec l)
  | _ => False
  end.
(** The keywords of a process have values, by which its variances are given: amplitude and
    exponent of a power law, one number per frequency of a free spectrum, and any other
    function returns [rho k] twice for frequencies k/T given twice. *)
Definition shape_has (p : params R) (s : shape) (name : list string) (psr : option gv) (T : R) (n : nat) (A g : R) (rho : nat -> R) : Prop :=
  match s with
  | Power a b => arg_has p a (us_name (name ++ ["log10_A"])) A /\ arg_has p b (us_name (name ++ ["gamma"])) g
  | Free a => arg_vec p a (us_name (name ++ ["log10_rho"])) (map rho (seq 1 n))
  | Prior fn => (forall k, (1 <= k <= n)%nat -> 0 < rho k) /\
      gcall (inst fn (us_name name) psr) [GV (Vec (rep 2 (map (fun k => INR k / T) (seq 1 n))))] [] p = Ok (GV (Vec (rep 2 (map rho (seq 1 n)))))
  end.
Definition plain_arg (a : arg gv) : Prop := match a with AFunC _ | AFun _ => False | _ => True end.
Definition with_psr (psr : option gv) (kw : dict string gv) : dict string gv :=
  match psr with Some s => if dmem string_dec kw "psr" then kw else dset string_dec kw "psr" s | None => kw end.
Lemma lift_has p n x : dget string_dec p n = Some (Sc x) -> dget string_dec (lift p) n = Some (num x).
Proof. intros h; rewrite dget_lift, h; reflexivity. Qed.
Lemma lift_not p n : dget string_dec p n = None -> dget string_dec (lift p) n = None.
Proof. intros h; rewrite dget_lift, h; reflexivity. Qed.
Ltac arg_cases h a v := destruct a as [?|v|[? ?|? v]|?|?|v]; cbn [arg_has] in h; try contradiction; try match type of h with ?w /\ _ => lazymatch w with _ _ = _ => let e := fresh "ec" in destruct h as [e h] | _ => destruct h as [-> h] end end; try (apply lift_has in h || apply lift_not in h || subst v).
Ltac set_cases := repeat match goal with e : _ _ = num _ |- _ => rewrite e end.
Ltac key_cases := repeat match goal with |- context [string_dec ?x ?y] => destruct (string_dec x y) as [?|?]; try congruence end.
Lemma call1 f k1 a1 nm psr args p x1 : arg_has p a1 (us_name [nm; k1]) x1 ->
  gcall (inst (FC f "" [(k1, a1)]) nm psr) args [] p =
  sel_call gv_attr gv_masked f args (filter (fun kv => ModelFunc.admitted f [k1] (fst kv)) (with_psr psr [(k1, num x1)])).
Proof.
  unfold gcall, inst; rewrite <- (us_name_mid nm k1); intros h1; arg_cases h1 a1 v1;
  cbn [fold_left fst snd map dset call]; unfold fill_kw; cbn [rbind dmem dget dset fst snd par_name par_value]; key_cases; cbn [par_name par_value rbind dset]; try rewrite h1; cbn [par_name par_value rbind dset]; set_cases; reflexivity.
Qed.
Lemma lift_vec p n l : dget string_dec p n = Some (Vec l) -> dget string_dec (lift p) n = Some (GV (Vec l)).
Proof. intros h; rewrite dget_lift, h; reflexivity. Qed.
Lemma call1v f k1 a1 nm psr args p l1 : arg_vec p a1 (us_name [nm; k1]) l1 ->
  gcall (inst (FC f "" [(k1, a1)]) nm psr) args [] p =
  sel_call gv_attr gv_masked f args (filter (fun kv => ModelFunc.admitted f [k1] (fst kv)) (with_psr psr [(k1, GV (Vec l1))])).
Proof.
  unfold gcall, inst; rewrite <- (us_name_mid nm k1); intros h1.
  destruct a1 as [?|v|[? ?|? v]|?|?|v]; cbn [arg_vec] in h1; try contradiction; try match type of h1 with _ /\ _ => destruct h1 as [ec h1] end; try (apply lift_vec in h1 || apply lift_not in h1 || subst v);
  cbn [fold_left fst snd map dset call]; unfold fill_kw; cbn [rbind dmem dget dset fst snd par_name par_value]; key_cases; cbn [par_name par_value rbind dset]; try rewrite h1; cbn [par_name par_value rbind dset]; try rewrite ec; reflexivity.
Qed.
Lemma call2 f k1 k2 a1 a2 nm psr args p x1 x2 : k1 <> k2 -> arg_has p a1 (us_name [nm; k1]) x1 -> arg_has p a2 (us_name [nm; k2]) x2 ->
  gcall (inst (FC f "" [(k1, a1); (k2, a2)]) nm psr) args [] p =
  sel_call gv_attr gv_masked f args (filter (fun kv => ModelFunc.admitted f [k1; k2] (fst kv)) (with_psr psr [(k1, num x1); (k2, num x2)])).
Proof.
  unfold gcall, inst; rewrite <- (us_name_mid nm k1), <- (us_name_mid nm k2); intros ne h1 h2; arg_cases h1 a1 v1; arg_cases h2 a2 v2;
  cbn [fold_left fst snd map dset call]; unfold fill_kw; cbn [rbind dmem dget dset fst snd par_name par_value]; key_cases; cbn [par_name par_value rbind dset dget dmem];
  key_cases; cbn [par_name par_value rbind dset dget dmem]; try rewrite h1; cbn [par_name par_value rbind dset dget dmem]; set_cases; key_cases; cbn [par_name par_value rbind dset dget dmem]; try rewrite h2; cbn [par_name par_value rbind dset dget dmem]; set_cases;
  cbn [par_name par_value rbind dset dget dmem]; key_cases; unfold dmem at 1; cbn [dget]; key_cases; reflexivity.
Qed.
Lemma call_efac d p a nm ef : arg_has p a (us_name [nm; "efac"]) ef ->
  gcall (inst (FC efac_fn "" [("efac", a)]) nm (Some (d_gv d))) [] [] p = Ok (GV (Vec (map (fun e => ef ^ 2 * e ^ 2) (d_errs d)))).
Proof. intros h; erewrite call1 by exact h; reflexivity. Qed.
Lemma call_combined d p a b nm ef eq : arg_has p a (us_name [nm; "efac"]) ef -> arg_has p b (us_name [nm; "log10_t2equad"]) eq ->
  gcall (inst (FC combined_fn "" [("efac", a); ("log10_t2equad", b)]) nm (Some (d_gv d))) [] [] p =
  Ok (GV (Vec (map (fun e => ef ^ 2 * (e ^ 2 + Rpower 10 (2 * eq))) (d_errs d)))).
Proof. intros h1 h2; erewrite call2 by (first [discriminate|exact h1|exact h2]); reflexivity. Qed.
Lemma call_tnequad d p a nm q : arg_has p a (us_name [nm; "log10_tnequad"]) q ->
  gcall (inst (FC tnequad_fn "" [("log10_tnequad", a)]) nm (Some (d_gv d))) [] [] p = Ok (GV (Vec (map (fun _ => 1 * Rpower 10 (2 * q)) (d_toas d)))).
Proof. intros h; erewrite call1 by exact h; reflexivity. Qed.
Lemma call_powerlaw p f a b nm A g : arg_has p a (us_name [nm; "log10_A"]) A -> arg_has p b (us_name [nm; "gamma"]) g ->
  forall psr, psr = None \/ (exists d, psr = Some (d_gv d)) ->
  gcall (inst (spectrum (Power a b)) nm psr) [GV (Vec (rep 2 f))] [] p = Ok (GV (Vec (rep 2 (spec (pl A g) f)))).
Proof.
  intros h1 h2 psr hp; unfold spectrum; erewrite call2 by (first [discriminate|exact h1|exact h2]).
  transitivity (pf_body powerlaw_fn [GV (Vec (rep 2 f)); num A; num g; num 2]).
  - destruct hp as [->|[d ->]]; reflexivity.
  - cbn [pf_body powerlaw_fn num]; replace (Z.to_nat (Int_part 2)) with 2%nat; [now rewrite powerlaw_rep by lia|].
    change 2 with (INR 2); rewrite Int_part_INR; reflexivity.
Qed.
Lemma inst_spares p a nm psr f k x : arg_has p a (us_name [nm; k]) x -> spares p (inst (FC f "" [(k, a)]) nm psr).
Proof.
  rewrite <- (us_name_mid nm k); destruct a as [?|v|[? ?|? v]|?|?|v]; cbn [arg_has]; intros h q hq hc; try contradiction; cbn in hq; try contradiction;
  destruct hq as [<-|[]]; try discriminate hc; exact (proj2 h).
Qed.
Lemma inst_spares2 p a b nm psr f k k' x y : k <> k' -> arg_has p a (us_name [nm; k]) x -> arg_has p b (us_name [nm; k']) y -> spares p (inst (FC f "" [(k, a); (k', b)]) nm psr).
Proof.
  rewrite <- (us_name_mid nm k), <- (us_name_mid nm k'); intros ne h h' q; unfold inst; cbn [fold_left snd fst];
  destruct a as [?|v|[? ?|? v]|?|?|v], b as [?|v'|[? ?|? v']|?|?|v']; cbn [arg_has] in h, h'; try contradiction; cbn [dset fst snd]; key_cases; cbn; intros hq hc; try contradiction;
  repeat match goal with H : _ \/ _ |- _ => destruct H as [<-|H] end; try contradiction; try discriminate hc; tauto.
Qed.
Lemma call_orf k p nm x y : gcall (inst (FC (orf_fn k) "" []) nm None) [GV (Vec (pos_list x)); GV (Vec (pos_list y))] [] p = Ok (GV (Sc (orf_of k x y))).
Proof. destruct x as [[a b] c], y as [[a' b'] c']; reflexivity. Qed.

Section Red.
Context {S : Type}.
Variables (seeded : Z -> S) (next : S -> R * S) (n : nat) (d : psrdata).
Definition freqs (T : R) : list R := map (fun i => 1 * INR i / T) (seq 1 n).
Definition rows (T : R) (toas : list R) : list (list R) := map (fourier_row (freqs T) (repeat 0 n)) toas.
Definition span_gv (Tspan : option R) : gv := match Tspan with Some T => num T | None => none end.
Lemma red_body Tspan T toas : spans Tspan toas T ->
  pf_body (red_fn seeded next) [GV (Vec toas); num (INR n); span_gv Tspan; num 0; none; none; num 0; none; none] =
  Ok (GPair (GMat (2 * n) (rows T toas)) (GV (Vec (rep 2 (freqs T))))).
Proof.
  intros hT; unfold num; cbn [pf_body red_fn none or_none as_num rbind option_map].
  assert (t0 : truthy (GV (Sc 0)) = false) by (cbn; destruct (Req_EM_T 0 0); [reflexivity|lra]).
  assert (eT : or_none as_num (span_gv Tspan) = Ok Tspan) by (destruct Tspan; reflexivity).
  rewrite eT, t0; cbn [rbind andb negb]; rewrite Int_part_INR, Nat2Z.id.
  unfold create_red; cbn [o_Tspan o_modes].
  assert (eS : match Tspan with Some T0 => Ok T0 | None => extent toas end = Ok T) by (destruct Tspan; cbn in hT; [now subst|assumption]).
  rewrite eS; unfold frequencies, phases; cbn [o_modes o_fmin o_fmax o_logf o_nmodes o_pseed o_pshift fst rmap rbind snd].
  assert (l : length (rep 2 (freqs T)) = (2 * n)%nat) by (rewrite rep_length; unfold freqs; now rewrite map_length, seq_length).
  unfold freqs in l; rewrite l; reflexivity.
Qed.
Lemma call_red Tspan T nm p : spans Tspan (d_toas d) T ->
  gcall (inst (plain_class seeded next n (span_gv Tspan)) nm (Some (d_gv d))) [] [] p = Ok (GPair (GMat (2 * n) (rows T (d_toas d))) (GV (Vec (rep 2 (freqs T))))) /\
  gcall (inst (plain_class seeded next n (span_gv Tspan)) nm (Some (d_gv d))) [] [("mask", GMask (repeat true (length (d_toas d))))] p = Ok (GPair (GMat (2 * n) (rows T (d_toas d))) (GV (Vec (rep 2 (freqs T))))).
Proof.
  intros hT; split; rewrite <- (red_body _ _ _ hT); unfold gcall; generalize (lift p); intros P; [reflexivity|].
  transitivity (pf_body (red_fn seeded next) [gv_masked (GMask (repeat true (length (d_toas d)))) (GV (Vec (d_toas d))); num (INR n); span_gv Tspan; num 0; none; none; num 0; none; none]); [reflexivity|].
  cbn [gv_masked]; rewrite repeat_length, Nat.eqb_refl, take_all by reflexivity; reflexivity.
Qed.
(** The factor of the rows by the radio frequency *)
Lemma with_ok : forall (X : Type) (x : X) F ff dl, length dl = length F ->
  with_rows (Ok (F, ff), x) dl = (Ok (map (fun rd => map (fun y => y * snd rd) (fst rd)) (combine F dl), ff), x).
Proof. intros X x F ff dl e; unfold with_rows, scale_rows; cbn [fst snd rbind]; rewrite e, Nat.eqb_refl; reflexivity. Qed.
Definition tint (c : colour) (nu : R) : R :=
  match c with Achromatic => 1 | Dispersive => (1400 / nu) ^ 2 | Chromatic None => Rpower (1400 / nu) 4 | Chromatic (Some x) => Rpower (1400 / nu) x end.
Definition crows (c : colour) (T : R) : list (list R) :=
  match c with Achromatic => rows T (d_toas d) | _ => map (fun rd => map (fun y => y * snd rd) (fst rd)) (combine (rows T (d_toas d)) (map (tint c) (d_freqs d))) end.
Lemma red_made Tspan T : spans Tspan (d_toas d) T -> forall x,
  create_red seeded next (d_toas d) (Opts n Tspan false None None None false None) x = (Ok (rows T (d_toas d), rep 2 (freqs T)), x).
Proof.
  intros hT x; unfold create_red; cbn [o_Tspan o_modes].
  assert (eS : match Tspan with Some T0 => Ok T0 | None => extent (d_toas d) end = Ok T) by (destruct Tspan; cbn in hT; [now subst|assumption]).
  rewrite eS; unfold frequencies, phases; cbn [o_modes o_fmin o_fmax o_logf o_nmodes o_pseed o_pshift fst rmap rbind snd]; reflexivity.
Qed.
Lemma call_colour c Tspan T nm p : spans Tspan (d_toas d) T -> length (d_freqs d) = length (d_toas d) ->
  gcall (inst (colour_class seeded next c n (span_gv Tspan)) nm (Some (d_gv d))) [] [("mask", GMask (repeat true (length (d_toas d))))] p =
  Ok (GPair (GMat (2 * n) (crows c T)) (GV (Vec (rep 2 (freqs T))))).
Proof.
  intros hT lf; assert (t0 : truthy (num 0) = false) by (cbn; destruct (Req_EM_T 0 0); [reflexivity|lra]).
  assert (eT : or_none as_num (span_gv Tspan) = Ok Tspan) by (destruct Tspan; reflexivity).
  assert (lr : length (rep 2 (freqs T)) = (2 * n)%nat) by (rewrite rep_length; unfold freqs; now rewrite map_length, seq_length).
  assert (ls : forall g : R -> R, length (map g (d_freqs d)) = length (rows T (d_toas d))) by (intros g; unfold rows; now rewrite !map_length).
  assert (kt : gv_masked (GMask (repeat true (length (d_toas d)))) (GV (Vec (d_toas d))) = GV (Vec (d_toas d)) /\
               gv_masked (GMask (repeat true (length (d_toas d)))) (GV (Vec (d_freqs d))) = GV (Vec (d_freqs d)))
    by (split; cbn [gv_masked]; [|rewrite lf]; rewrite repeat_length, Nat.eqb_refl, take_all by (reflexivity || assumption); reflexivity).
  destruct kt as [k1 k2].
  assert (chrom : forall x, pf_body (chromatic_fn seeded next) [GV (Vec (d_toas d)); GV (Vec (d_freqs d)); num (INR n); span_gv Tspan; num 0; none; none; num x; none] =
    Ok (GPair (GMat (2 * n) (crows (Chromatic (Some x)) T)) (GV (Vec (rep 2 (freqs T)))))).
  { intros x; cbn [pf_body chromatic_fn]; unfold num at 1 2; cbn [none or_none as_num rbind]; rewrite eT; fold (num 0); rewrite t0; cbn [rbind].
    rewrite Int_part_INR, Nat2Z.id; unfold create_chromatic, no_shift; cbn [o_nmodes o_Tspan o_logf o_fmin o_fmax o_modes].
    rewrite (red_made _ _ hT), with_ok by apply ls; cbn [fst rmap rbind snd]; rewrite lr; reflexivity. }
  destruct c as [| |[x|]]; cbn [colour_class].
  - exact (proj2 (call_red Tspan T nm p hT)).
  - unfold gcall; generalize (lift p); intros P.
    transitivity (pf_body (dm_fn seeded next) [GV (Vec (d_toas d)); GV (Vec (d_freqs d)); num (INR n); span_gv Tspan; num 0; num 1400; num 0; none; none; none]);
      [rewrite <- k1 at 1; rewrite <- k2 at 1; reflexivity|].
    cbn [pf_body dm_fn]; change (num 1400) with (GV (Sc 1400)); change (num (INR n)) with (GV (Sc (INR n))); cbn [none or_none as_num rbind]; rewrite eT, t0; cbn [rbind].
    rewrite Int_part_INR, Nat2Z.id; unfold create_dm, no_seed; cbn [o_nmodes o_Tspan o_logf o_fmin o_fmax o_modes o_pshift].
    rewrite (red_made _ _ hT), with_ok by apply ls; cbn [fst rmap rbind snd]; rewrite lr; reflexivity.
  - rewrite <- chrom; unfold gcall; generalize (lift p); intros P; rewrite <- k1 at 1; rewrite <- k2 at 1; reflexivity.
  - change (crows (Chromatic None) T) with (crows (Chromatic (Some 4)) T); rewrite <- chrom; unfold gcall; generalize (lift p); intros P; rewrite <- k1 at 1; rewrite <- k2 at 1; reflexivity.
Qed.
(** gp_signals.py L461: the time span as a keyword of the call or of the class *)
Lemma call_span Tspan T nm p :
  gcall (inst (plain_class seeded next n (span_gv Tspan)) nm (Some (d_gv d))) [] [("Tspan", num T)] p =
  gcall (inst (plain_class seeded next n (num T)) nm (Some (d_gv d))) [] [] p.
Proof. unfold gcall; generalize (lift p); intros P; reflexivity. Qed.
Lemma rows_shape T toas : length (rows T toas) = length toas /\ Forall (fun r => length r = (2 * n)%nat) (rows T toas).
Proof.
  unfold rows; split; [apply map_length|]; apply Forall_forall; intros r h; apply in_map_iff in h; destruct h as [t [<- _]].
  rewrite row_length by (unfold freqs; now rewrite map_length, seq_length, repeat_length); unfold freqs; now rewrite map_length, seq_length.
Qed.
Lemma rows_entry T toas i j : (i < length toas)%nat -> (j < 2 * n)%nat ->
  nth j (nth i (rows T toas) []) 0 = (if Nat.even j then sin else cos) (2 * PI * nth i toas 0 * (INR (Nat.div2 j + 1) / T)).
Proof.
  intros hi hj; unfold rows; rewrite (nth_map_in _ _ _ [] 0) by assumption.
  assert (lf : length (freqs T) = n) by (unfold freqs; now rewrite map_length, seq_length).
  assert (e : forall k, (k < n)%nat -> nth k (freqs T) 0 = INR (k + 1) / T).
  { intros k hk; unfold freqs; rewrite (nth_map_in _ _ _ 0 0%nat) by (now rewrite seq_length); rewrite seq_nth by assumption.
    rewrite Rmult_1_l; do 2 f_equal; lia. }
  assert (z : forall k, nth k (repeat 0 n) 0 = 0) by (intros k; apply nth_repeat).
  destruct (Nat.even j) eqn:ev.
  - apply Nat.even_spec in ev; destruct ev as [k ->]; rewrite Nat.div2_double.
    assert (hk : (k < n)%nat) by lia.
    destruct (row_nth (freqs T) (repeat 0 n) (nth i toas 0) k) as [-> _]; [now rewrite lf, repeat_length|now rewrite lf|].
    now rewrite e, z, Rplus_0_r by assumption.
  - assert (od : Nat.odd j = true) by (unfold Nat.odd; now rewrite ev); apply Nat.odd_spec in od; destruct od as [k ->].
    assert (hk : (k < n)%nat) by lia.
    destruct (row_nth (freqs T) (repeat 0 n) (nth i toas 0) k) as [_ ->]; [now rewrite lf, repeat_length|now rewrite lf|].
    replace (Nat.div2 (2 * k + 1)) with k by (rewrite Nat.add_1_r; now rewrite Nat.div2_succ_double).
    now rewrite e, z, Rplus_0_r by assumption.
Qed.
Lemma crows_shape c T : length (d_freqs d) = length (d_toas d) -> length (crows c T) = length (d_toas d) /\ Forall (fun r => length r = (2 * n)%nat) (crows c T).
Proof.
  intros lf; destruct (rows_shape T (d_toas d)) as [L F]; destruct c; cbn [crows]; [now split| |];
  (split; [rewrite map_length, combine_length, map_length, L, lf; apply Nat.min_id|]; apply Forall_forall; intros r h; apply in_map_iff in h; destruct h as [[r' x] [<- h]];
   rewrite map_length; apply in_combine_l in h; rewrite Forall_forall in F; exact (F _ h)).
Qed.
Lemma crows_entry c T i j : length (d_freqs d) = length (d_toas d) -> (i < length (d_toas d))%nat -> (j < 2 * n)%nat ->
  nth j (nth i (crows c T) []) 0 = nth j (nth i (rows T (d_toas d)) []) 0 * tint c (nth i (d_freqs d) 0).
Proof.
  intros lf hi hj; destruct (rows_shape T (d_toas d)) as [L F].
  assert (G : nth j (nth i (map (fun rd => map (fun y => y * snd rd) (fst rd)) (combine (rows T (d_toas d)) (map (tint c) (d_freqs d)))) []) 0 =
    nth j (nth i (rows T (d_toas d)) []) 0 * tint c (nth i (d_freqs d) 0)).
  { assert (l : length (map (tint c) (d_freqs d)) = length (rows T (d_toas d))) by now rewrite map_length, L.
    rewrite (nth_map_in _ _ _ [] ([], 0)) by (rewrite combine_length, l, Nat.min_id, L; assumption).
    rewrite combine_nth by (now rewrite l); cbn [fst snd].
    rewrite (nth_map_in _ _ _ 0 0).
    - f_equal; rewrite (nth_map_in _ _ _ 0 0) by (now rewrite lf); reflexivity.
    - rewrite Forall_forall in F; rewrite F; [assumption|]; apply nth_In; now rewrite L. }
  destruct c; [cbn [crows tint]; now rewrite Rmult_1_r|exact G|exact G].
Qed.
Definition powers (var : nat -> R) : list R := rep 2 (map var (seq 1 n)).
Lemma powers_length var : length (powers var) = (2 * n)%nat.
Proof. unfold powers; now rewrite rep_length, map_length, seq_length. Qed.
Lemma power_at T A g k : 0 < T -> (k < n)%nat -> nth k (spec (pl A g) (freqs T)) 0 = psd A g (INR (k + 1) / T) * (1 / T).
Proof.
  intros T0 hk; assert (lf : length (freqs T) = n) by (unfold freqs; now rewrite map_length, seq_length).
  assert (e : forall k, (k < n)%nat -> nth k (freqs T) 0 = INR (k + 1) / T).
  { intros j hj; unfold freqs; rewrite (nth_map_in _ _ _ 0 0%nat) by (now rewrite seq_length); rewrite seq_nth by assumption.
    rewrite Rmult_1_l; do 2 f_equal; lia. }
  assert (pos : Forall (fun x => 0 < x) (freqs T)).
  { apply Forall_forall; intros x hx; unfold freqs in hx; apply in_map_iff in hx; destruct hx as [j [<- hj]]; apply in_seq in hj.
    rewrite Rmult_1_l; apply Rdiv_lt_0_compat; [apply lt_0_INR; lia|assumption]. }
  destruct (powerlaw_variance_lem 1 (freqs T) A g (le_n _) pos) as [phi [e1 [l1 v]]].
  specialize (v k 0%nat); rewrite lf in v; specialize (v hk (le_n _)).
  replace (1 * k + 0)%nat with k in v by lia.
  change (flat_map (fun x => repeat x 1) (freqs T)) with (rep 1 (freqs T)) in e1; rewrite powerlaw_rep in e1 by lia; injection e1 as <-.
  assert (r1 : forall l : list R, rep 1 l = l) by (induction l as [|x l IH]; [reflexivity|]; cbn; f_equal; exact IH).
  rewrite r1 in v; rewrite v, e by assumption.
  unfold psd; f_equal; rewrite plus_INR; cbn [INR].
  destruct k as [|k]; cbn [nth]; [cbn [INR]; unfold Rdiv; ring|].
  rewrite e by lia; rewrite plus_INR, S_INR; cbn [INR]; unfold Rdiv; ring.
Qed.
Lemma powers_power T A g : 0 < T -> rep 2 (spec (pl A g) (freqs T)) = powers (fun k => psd A g (INR k / T) * (1 / T)).
Proof.
  intros T0; unfold powers; f_equal; assert (l : length (spec (pl A g) (freqs T)) = n) by (rewrite spec_length; unfold freqs; now rewrite map_length, seq_length).
  apply (nth_ext _ _ 0 0); [now rewrite map_length, seq_length|]; intros k hk; rewrite l in hk.
  rewrite power_at by assumption; rewrite (nth_map_in _ _ _ 0 0%nat) by (now rewrite seq_length); rewrite seq_nth by assumption; now rewrite Nat.add_comm.
Qed.
Lemma powers_pos var j : (forall k, (1 <= k <= n)%nat -> 0 < var k) -> (j < 2 * n)%nat -> 0 < nth j (powers var) 0.
Proof.
  intros P hj; assert (Q : forall k, (k < n)%nat -> 0 < nth k (map var (seq 1 n)) 0).
  { intros k hk; rewrite (nth_map_in _ _ _ 0 0%nat) by (now rewrite seq_length); rewrite seq_nth by assumption; apply P; lia. }
  unfold powers; set (v := map _ _) in *; destruct (Nat.even j) eqn:ev.
  - apply Nat.even_spec in ev; destruct ev as [k ->]; destruct (rep2_nth v k 0) as [-> _]; apply Q; lia.
  - assert (od : Nat.odd j = true) by (unfold Nat.odd; now rewrite ev); apply Nat.odd_spec in od; destruct od as [k ->].
    destruct (rep2_nth v k 0) as [_ ->]; apply Q; lia.
Qed.
Lemma kernel_sum T var toas toas' i k : (i < length toas)%nat -> (k < length toas')%nat ->
  wsum (powers var) (nth i (rows T toas) []) (nth k (rows T toas') []) = kernel T n var (nth i toas 0 - nth k toas' 0).
Proof.
  intros hi hk; assert (lf : length (freqs T) = n) by (unfold freqs; now rewrite map_length, seq_length).
  assert (lv : length (map var (seq 1 n)) = n) by (now rewrite map_length, seq_length).
  unfold rows; rewrite !(nth_map_in _ _ _ [] 0) by assumption; unfold powers.
  rewrite row_sum by (now rewrite ?lv, ?repeat_length, ?lf).
  unfold kernel; rewrite <- (seq_shift n 0), !map_map, map_length, seq_length; apply ProofBases.rsum_ext; intros j hj; apply in_seq in hj.
  rewrite !nth_repeat, Rminus_0_r, Rplus_0_r.
  rewrite (nth_map_in _ _ _ 0 0%nat) by (rewrite ?seq_length; lia).
  unfold freqs; rewrite (nth_map_in _ _ _ 0 0%nat) by (rewrite seq_length; lia); rewrite !seq_nth by lia; rewrite Rmult_1_l; reflexivity.
Qed.
Lemma psd_pos T A g k : 0 < T -> 0 < psd A g (INR k / T) * (1 / T).
Proof.
  intros T0; apply Rmult_lt_0_compat; [|apply Rdiv_lt_0_compat; lra].
  unfold psd; apply Rmult_lt_0_compat; [apply Rmult_lt_0_compat|apply pow_lt; lra]; [|apply exp_pos].
  apply Rdiv_lt_0_compat; [apply exp_pos|]; apply Rmult_lt_0_compat; [lra|]; apply pow_lt, PI_RGT_0.
Qed.
(** What the prior function returns *)
Lemma call_shape p s name psr T A g rho : 0 < T -> shape_has p s name psr T n A g rho -> psr = None \/ (exists d, psr = Some (d_gv d)) ->
  gcall (inst (spectrum s) (us_name name) psr) [GV (Vec (rep 2 (freqs T)))] [] p = Ok (GV (Vec (powers (variance s A g rho T)))) /\
  forall k, (1 <= k <= n)%nat -> 0 < variance s A g rho T k.
Proof.
  intros T0 h hp; destruct s as [a b|a|fn]; cbn [shape_has] in h.
  - destruct h as [h1 h2]; split; [|intros k _; now apply psd_pos].
    rewrite <- us_name_nested in h1, h2; cbn [variance]; rewrite (call_powerlaw p (freqs T) a b (us_name name) A g h1 h2 psr hp); now rewrite powers_power.
  - split; [|intros k _; apply exp_pos].
    rewrite <- us_name_nested in h; cbn [spectrum variance]; rewrite (call1v _ _ _ _ _ _ _ _ h).
    transitivity (pf_body free_fn [GV (Vec (rep 2 (freqs T))); GV (Vec (map rho (seq 1 n)))]); [destruct hp as [->|[d' ->]]; reflexivity|].
    cbn [pf_body free_fn]; unfold free_spectrum, powers; cbn [rmap rbind]; rewrite map_map; reflexivity.
  - destruct h as [h1 h2]; split; [|exact h1].
    replace (freqs T) with (map (fun k => INR k / T) (seq 1 n)) by (unfold freqs; apply map_ext; intros k; now rewrite Rmult_1_l); exact h2.
Qed.
Lemma spec_even h T : 0 < T -> spec h (map (fun k => INR k / T) (seq 1 n)) = map (fun k => h (INR k / T) * (1 / T)) (seq 1 n).
Proof.
  intros T0; set (q := map (fun k => INR k / T) (seq 1 n)); assert (lq : length q = n) by (unfold q; now rewrite map_length, seq_length).
  assert (at_ : forall k, (k < n)%nat -> nth k q 0 = INR (Datatypes.S k) / T) by (intros k hk; unfold q; rewrite (nth_map_in _ _ _ 0 0%nat) by (now rewrite seq_length); rewrite seq_nth by assumption; reflexivity).
  apply (nth_ext _ _ 0 0); [now rewrite spec_length, lq, map_length, seq_length|]; intros k hk; rewrite spec_length, lq in hk.
  rewrite spec_nth by (now rewrite lq); rewrite at_ by assumption; rewrite (nth_map_in _ _ _ 0 0%nat) by (now rewrite seq_length); rewrite seq_nth by assumption.
  cbn [Nat.add]; f_equal; destruct k as [|k]; cbn [nth]; [cbn [INR]; lra|rewrite at_ by lia; rewrite (S_INR (Datatypes.S k)); field; lra].
Qed.
Lemma shape_spectrum_lem p fn name psr T A g r : 0 < T -> ProofSpectra.spectrum (twice (map (fun k => INR k / T) (seq 1 n))) r ->
  gcall (inst fn (us_name name) psr) [GV (Vec (twice (map (fun k => INR k / T) (seq 1 n))))] [] p = rmap (fun x => GV (Vec x)) r ->
  exists rho, shape_has p (Prior fn) name psr T n A g rho /\ r = Ok (twice (map rho (seq 1 n))).
Proof.
  intros T0 hs hc; rewrite !twice_rep in *; apply spectrum_inv in hs; destruct hs as [h [hh ->]]; rewrite spec_even in hc |- * by assumption.
  exists (fun k => h (INR k / T) * (1 / T)); split; [|reflexivity]; split; [|exact hc].
  intros k hk; apply Rmult_lt_0_compat; [apply hh|]; apply Rdiv_lt_0_compat; try lra; apply lt_0_INR; lia.
Qed.
End Red.

(** * Selections *)
(** A pulsar with the TOAs of a mask alone *)
Definition picked (mk : mask) (d : psrdata) : psrdata :=
  PsrData (d_name d) (take_mask (d_toas d) mk) (d_errs d) (take_mask (d_freqs d) mk) (d_pos d) (d_res d) (d_masks d) (d_nfit d) (d_Mmat d).
Lemma take_len {A} : forall (l : list A) m, length m = length l -> length (take_mask l m) = count m.
Proof.
  unfold count; induction l as [|x l IH]; intros [|b m] e; try discriminate e; [reflexivity|]; cbn [take_mask]; rewrite app_length, IH by now injection e.
  destruct b; reflexivity.
Qed.
Lemma picked_len mk d : length mk = length (d_toas d) -> length (d_freqs d) = length (d_toas d) -> length (d_freqs (picked mk d)) = length (d_toas (picked mk d)).
Proof. intros h1 h2; cbn [picked d_freqs d_toas]; rewrite !take_len by congruence; reflexivity. Qed.
Lemma call_picked {S} (seeded : Z -> S) next n d mk c Tspan T nm p : length mk = length (d_toas d) -> length (d_freqs d) = length (d_toas d) -> spans Tspan (take_mask (d_toas d) mk) T ->
  gcall (inst (colour_class seeded next c n (span_gv Tspan)) nm (Some (d_gv d))) [] [("mask", GMask mk)] p =
  Ok (GPair (GMat (2 * n) (crows n (picked mk d) c T)) (GV (Vec (rep 2 (freqs n T))))).
Proof.
  intros lm lf hT; assert (hT' : spans Tspan (d_toas (picked mk d)) T) by exact hT.
  assert (e : gcall (inst (colour_class seeded next c n (span_gv Tspan)) nm (Some (d_gv d))) [] [("mask", GMask mk)] p =
    gcall (inst (colour_class seeded next c n (span_gv Tspan)) nm (Some (d_gv (picked mk d)))) [] [("mask", GMask (repeat true (length (d_toas (picked mk d)))))] p).
  { assert (kt : gv_masked (GMask mk) (GV (Vec (d_toas d))) = GV (Vec (take_mask (d_toas d) mk)) /\ gv_masked (GMask mk) (GV (Vec (d_freqs d))) = GV (Vec (take_mask (d_freqs d) mk)))
      by (split; cbn [gv_masked]; [|rewrite lf]; rewrite lm, Nat.eqb_refl; reflexivity).
    assert (kp : gv_masked (GMask (repeat true (length (d_toas (picked mk d))))) (GV (Vec (take_mask (d_toas d) mk))) = GV (Vec (take_mask (d_toas d) mk)) /\
                 gv_masked (GMask (repeat true (length (d_toas (picked mk d))))) (GV (Vec (take_mask (d_freqs d) mk))) = GV (Vec (take_mask (d_freqs d) mk)))
      by (assert (l2 := picked_len mk d lm lf); cbn [picked d_toas d_freqs] in l2 |- *; split; cbn [gv_masked]; [|rewrite l2]; rewrite repeat_length, Nat.eqb_refl, take_all by (reflexivity || assumption); reflexivity).
    destruct kt as [k1 k2], kp as [k3 k4]; unfold gcall; generalize (lift p); intros P.
    destruct c as [| |[x|]]; cbn [colour_class].
    - transitivity (pf_body (red_fn seeded next) [gv_masked (GMask mk) (GV (Vec (d_toas d))); num (INR n); span_gv Tspan; num 0; none; none; num 0; none; none]); [reflexivity|].
      rewrite k1; rewrite <- k3 at 1; reflexivity.
    - transitivity (pf_body (dm_fn seeded next) [gv_masked (GMask mk) (GV (Vec (d_toas d))); gv_masked (GMask mk) (GV (Vec (d_freqs d))); num (INR n); span_gv Tspan; num 0; num 1400; num 0; none; none; none]); [reflexivity|].
      rewrite k1, k2; rewrite <- k3 at 1; rewrite <- k4 at 1; reflexivity.
    - transitivity (pf_body (chromatic_fn seeded next) [gv_masked (GMask mk) (GV (Vec (d_toas d))); gv_masked (GMask mk) (GV (Vec (d_freqs d))); num (INR n); span_gv Tspan; num 0; none; none; num x; none]); [reflexivity|].
      rewrite k1, k2; rewrite <- k3 at 1; rewrite <- k4 at 1; reflexivity.
    - transitivity (pf_body (chromatic_fn seeded next) [gv_masked (GMask mk) (GV (Vec (d_toas d))); gv_masked (GMask mk) (GV (Vec (d_freqs d))); num (INR n); span_gv Tspan; num 0; none; none; num 4; none]); [reflexivity|].
      rewrite k1, k2; rewrite <- k3 at 1; rewrite <- k4 at 1; reflexivity. }
  rewrite e; exact (call_colour seeded next n (picked mk d) c Tspan T nm p hT' (picked_len mk d lm lf)).
Qed.
(** The rows of one selection *)
Lemma picked_row n mk d c T i : length mk = length (d_toas d) -> length (d_freqs d) = length (d_toas d) -> nth i mk false = true ->
  nth (ProofQuant.rank mk i) (crows n (picked mk d) c T) [] = nth i (crows n d c T) [].
Proof.
  intros lm lf hi.
  assert (L : (i < length mk)%nat) by (destruct (Nat.lt_ge_cases i (length mk)) as [h|h]; [assumption|rewrite nth_overflow in hi by assumption; discriminate]).
  rewrite lm in L.
  assert (l1 := picked_len mk d lm lf); destruct (ProofQuant.take_mask_rank 0 (d_toas d) mk i lm hi) as [e1 lt]; destruct (ProofQuant.take_mask_rank 0 (d_freqs d) mk i ltac:(congruence) hi) as [e2 _].
  destruct (crows_shape n (picked mk d) c T l1) as [s1 f1]; destruct (crows_shape n d c T lf) as [s2 f2]; rewrite Forall_forall in f1, f2.
  assert (a1 : length (nth (ProofQuant.rank mk i) (crows n (picked mk d) c T) []) = (2 * n)%nat) by (apply f1, nth_In; rewrite s1; exact lt).
  assert (a2 : length (nth i (crows n d c T) []) = (2 * n)%nat) by (apply f2, nth_In; rewrite s2; exact L).
  apply (nth_ext _ _ 0 0); [congruence|]; intros j hj; rewrite a1 in hj.
  rewrite (crows_entry n (picked mk d) c T _ _ l1 lt hj), (crows_entry n d c T _ _ lf L hj), !rows_entry by (assumption || exact lt).
  cbn [picked d_toas d_freqs]; rewrite e1, e2; reflexivity.
Qed.
Lemma wsum_app : forall w a b w' a' b', length a = length w -> length b = length w -> ProofBases.wsum (w ++ w') (a ++ a') (b ++ b') = ProofBases.wsum w a b + ProofBases.wsum w' a' b'.
Proof.
  induction w as [|x w IH]; intros [|y a] [|z b] w' a' b' h1 h2; try discriminate; cbn [app ProofBases.wsum]; [ring|].
  cbn [length] in h1, h2; injection h1 as h1; injection h2 as h2; rewrite IH by assumption; ring.
Qed.
Lemma wsum_zero : forall w k a b, a = repeat 0 k \/ b = repeat 0 k -> ProofBases.wsum w a b = 0.
Proof.
  induction w as [|x w IH]; intros k a b h; [reflexivity|]; destruct a as [|y a]; [reflexivity|]; destruct b as [|z b]; [reflexivity|]; cbn [ProofBases.wsum].
  destruct k as [|k]; [destruct h as [e|e]; discriminate e|]; cbn [repeat] in h.
  rewrite (IH k a b) by (destruct h as [e|e]; injection e as _ e; [left|right]; exact e).
  destruct h as [e|e]; injection e as e _; subst; ring.
Qed.

(** * Timing models *)
Definition norm_of (rows : list (list R)) (j : nat) : R := sqrt (ProofBases.rsum (map (fun r => nth j r 0 ^ 2) rows)).
Lemma call_normed d nm p : exists F,
  gcall (inst (FC normed_fn "" [("idx_exclude", AVal none)]) nm (Some (d_gv d))) [] [] p = Ok (GPair (GMat (d_nfit d) F) (num 1)) /\
  length F = length (d_Mmat d) /\ Forall (fun r => length r = d_nfit d) F /\
  forall i j, (i < length (d_Mmat d))%nat -> (j < d_nfit d)%nat -> norm_of (d_Mmat d) j <> 0 -> nth j (nth i F []) 0 = nth j (nth i (d_Mmat d) []) 0 / norm_of (d_Mmat d) j.
Proof.
  set (nc := d_nfit d); set (M := d_Mmat d).
  set (C := map (fun cn => if Req_EM_T (snd cn) 0 then map (fun _ => 0) (fst cn) else map (fun x => x / snd cn) (fst cn)) (combine (to_columns nc M) (map norm2 (to_columns nc M)))).
  assert (lC : length C = nc) by (unfold C; rewrite map_length, combine_length, map_length, Nat.min_id; unfold to_columns; now rewrite map_length, seq_length).
  exists (to_rows (length M) C); split; [|split; [|split]].
  - transitivity (pf_body normed_fn [GMat nc M; none; none]); [unfold gcall; generalize (lift p); intros P; reflexivity|].
    cbn [pf_body normed_fn none]; unfold normed_tm_basis; cbn [exclude rbind]; rewrite map_length, Nat.eqb_refl; cbn [rmap rbind fst snd].
    fold C; now rewrite lC.
  - unfold to_rows; now rewrite map_length, seq_length.
  - apply Forall_forall; intros r h; apply in_map_iff in h; destruct h as [i [<- _]]; now rewrite map_length, lC.
  - intros i j hi hj nz; unfold to_rows; rewrite (nth_map_in _ _ _ [] 0%nat) by (now rewrite seq_length); rewrite seq_nth by assumption; cbn [Nat.add].
    rewrite (nth_map_in _ _ _ 0 []) by (now rewrite lC); unfold C.
    set (col := map (fun r => nth j r 0) M).
    rewrite (nth_map_in _ _ _ [] ([], 0)) by (now rewrite combine_length, map_length, Nat.min_id; unfold to_columns; rewrite map_length, seq_length).
    rewrite combine_nth by (now rewrite map_length); cbn [fst snd].
    assert (ec : nth j (to_columns nc M) [] = col) by (unfold to_columns; rewrite (nth_map_in _ _ _ [] 0%nat) by (now rewrite seq_length); now rewrite seq_nth by assumption).
    assert (en : nth j (map norm2 (to_columns nc M)) 0 = norm_of M j).
    { rewrite (nth_map_in _ _ _ 0 []) by (unfold to_columns; now rewrite map_length, seq_length); rewrite ec; unfold norm2, norm_of, col; now rewrite map_map. }
    rewrite ec, en; destruct (Req_EM_T (norm_of M j) 0) as [z|_]; [now elim nz|].
    rewrite (nth_map_in _ _ _ 0 0) by (unfold col; now rewrite map_length); unfold col; rewrite (nth_map_in _ _ _ 0 []) by assumption; reflexivity.
Qed.
