(** Proofs about Gaussian process signals. *)
From Coq Require Import String Bool Arith List Reals Lia Lra Permutation.
From Verif Require Import PyBase ProofBase ModelSelect ModelFunc ModelCache ProofCache ProofQuant ProofFunc ModelGp.
Import ListNotations.
Open Scope nat_scope.
Open Scope string_scope.
Open Scope list_scope.

(** * Specification *)
(** A prior or basis function whose arguments are parameters, constants and values, and one
    without constants. *)
Definition no_functions (c : fcl) : Prop :=
  let '(FC _ _ kws) := c in Forall (fun ka => match snd ka with AFunC _ | AFun _ => False | _ => True end) kws.
Definition varying (c : fcl) : Prop :=
  let '(FC _ _ kws) := c in Forall (fun ka => match snd ka with AParC _ | AVal _ | AInst (Par _ _) => True | _ => False end) kws.

(** What a basis function gives for one selection: a matrix with a row for each of its
    TOAs, and labels *)
Record blk := Blk { k_key : string; k_mask : mask; k_nc : nat; k_rows : list (list R); k_lab : gv }.
Definition flat_values (p : gparams) : Prop := forall n l, dget string_dec p n <> Some (Nd l).
Section Spec.
Variables (priorfn basisfn : fcl) (name psrname : string) (psr : gv) (masks : dict string mask) (n : nat).
Definition selected (c : fcl) (key : string) : fob := inst c (us_name [psrname; name; key]) (Some psr).
Definition block_at (p : gparams) (b : blk) : Prop :=
  dget string_dec masks (k_key b) = Some (k_mask b) /\ length (k_mask b) = n /\
  gcall (selected basisfn (k_key b)) [] [("mask", GMask (k_mask b))] p = Ok (GPair (GMat (k_nc b) (k_rows b)) (k_lab b)) /\
  length (k_rows b) = count (k_mask b) /\ Forall (fun r => length r = k_nc b) (k_rows b).
(** One block for each selection, in the order of the keys *)
Definition blocks_at (p : gparams) (bl : list blk) : Prop :=
  flat_values p /\ bl <> [] /\ map k_key bl = isort sle (dkeys masks) /\ forall b, In b bl -> block_at p b.
(** The row of a TOA in a block: that of its number among the selected TOAs *)
Definition row_in (b : blk) (t : nat) : list R :=
  if nth t (k_mask b) false then nth (rank (k_mask b) t) (k_rows b) [] else repeat 0%R (k_nc b).
Definition row_of (bl : list blk) (t : nat) : list R := concat (map (fun b => row_in b t) bl).
Fixpoint intervals (o : nat) (bl : list blk) : list (nat * nat) :=
  match bl with [] => [] | b :: bl => (o, o + k_nc b) :: intervals (o + k_nc b) bl end.
Definition columns (bl : list blk) : nat := list_sum (map k_nc bl).
Definition coef_name (key : string) : string := append (us_name [psrname; name; key]) "_coefficients".

(** The parameters of one selection, and their values alone *)
Definition own_pars (key : string) : list (par gv) := map snd (fo_params (selected priorfn key)) ++ map snd (fo_params (selected basisfn key)).
Definition value_of (p : gparams) (q : par gv) : option gv :=
  match dget string_dec p (par_name q) with Some v => Some (GV v) | None => par_value q end.
Definition restricts (key : string) (p d : gparams) : Prop :=
  (forall q, In q (own_pars key) -> option_map GV (dget string_dec d (par_name q)) = value_of p q) /\
  (forall x, (forall q, In q (own_pars key) -> par_name q <> x) -> dget string_dec d x = None).

Variable dense : list R -> nat -> list (list R) -> result (option R).
Variables sampled timing : bool.
(** The right answer to a question, which depends on the parameters of the question only *)
Definition correct (a : ask) (r : answer) : Prop :=
  match a with
  | ABasis p =>
      if sampled then r = RNone else
      exists bl, blocks_at p bl /\ r = RBasis (columns bl) (map (row_of bl) (seq 0 n))
  | APhi p =>
      if sampled then r = RNone else
      exists bl phis, blocks_at p bl /\ r = RPhi (combine (intervals 0 bl) phis) /\
        Forall2 (fun b phi => gcall (selected priorfn (k_key b)) [k_lab b] [] p = Ok phi) bl phis
  | ADelay p =>
      if sampled then
        exists bl cs, blocks_at p bl /\ Forall2 (fun b c => dget string_dec p (coef_name (k_key b)) = Some (Vec c) /\ length c = k_nc b) bl cs /\
        r = RDelay (map (fun t => rsum (map (fun bc => if nth t (k_mask (fst bc)) false then dot (row_in (fst bc) t) (snd bc) else 0%R) (combine bl cs))) (seq 0 n))
      else r = RZero
  | ALogpdf key p =>
      sampled = true /\ In key (dkeys masks) /\
      exists c d, dget string_dec p (coef_name key) = Some c /\ restricts key p d /\
      if timing then r = RLogpdf (Some 0%R) else
      exists l x b phi, c = Vec l /\ r = RLogpdf x /\ block_at p b /\ k_key b = key /\
        gcall (selected priorfn key) [k_lab b] [] p = Ok phi /\ coef_density dense l phi = Ok x /\ exists bl, blocks_at d bl
  end.
End Spec.

(** * Functions without nested functions *)
Section Plain.
Notation kwst := (list (string * par gv) * list (string * gv) * list (string * fobj gv))%type.
Definition kw_step (name fname : string) (psr : option gv) := fun (st : kwst) (ka : string * arg gv) =>
  let '(ps, defs, fns) := st in
  let pn := us_name [name; fname; fst ka] in
  match snd ka with
  | AParC prior => (dset string_dec ps (fst ka) (Par pn (inst prior pn None)), defs, fns)
  | ACstC v => (dset string_dec ps (fst ka) (Cst pn (v pn)), defs, fns)
  | AInst p => (dset string_dec ps (fst ka) p, defs, fns)
  | AFunC g => let o := inst g pn psr in (dupdate string_dec ps (fo_params o), defs, dset string_dec fns (fst ka) o)
  | AFun o => (dupdate string_dec ps (fo_params o), defs, dset string_dec fns (fst ka) o)
  | AVal v => (ps, dset string_dec defs (fst ka) v, fns)
  end.
Lemma inst_step : forall f fname kws name psr, inst (FC f fname kws) name psr =
  let st := fold_left (kw_step name fname psr) kws ([], [], []) in
  FObj (us_name [name; fname]) f psr (map fst kws) (fst (fst st)) (snd (fst st)) (snd st).
Proof. reflexivity. Qed.
Lemma step_fns : forall name fname psr kws st, Forall (fun ka : string * arg gv => match snd ka with AFunC _ | AFun _ => False | _ => True end) kws ->
  snd (fold_left (kw_step name fname psr) kws st) = snd st.
Proof.
  intros name fname psr kws; induction kws as [|[k a] kws IH]; intros st H; [reflexivity|]; inversion H as [|x l h1 h2]; subst.
  cbn [fold_left]; rewrite IH by exact h2; destruct st as [[ps defs] fns]; destruct a; cbn in h1 |- *; tauto || reflexivity.
Qed.
Lemma dset_In {V} (d : dict string V) x p y q : In (y, q) (dset string_dec d x p) -> (y = x /\ q = p) \/ In (y, q) d.
Proof.
  induction d as [|[z r] d IH]; cbn; [intros [e|[]]; injection e; auto|].
  destruct (string_dec x z) as [->|ne]; cbn; intros [e|i]; [injection e; auto|auto|auto|destruct (IH i); auto].
Qed.
Lemma step_varying : forall name fname psr kws st, Forall (fun ka : string * arg gv => match snd ka with AParC _ | AVal _ | AInst (Par _ _) => True | _ => False end) kws ->
  (forall k p, In (k, p) (fst (fst st)) -> is_cst p = false) -> forall k p, In (k, p) (fst (fst (fold_left (kw_step name fname psr) kws st))) -> is_cst p = false.
Proof.
  intros name fname psr kws; induction kws as [|[k a] kws IH]; intros st H h; [exact h|]; inversion H as [|x l h1 h2]; subst.
  cbn [fold_left]; apply IH; [exact h2|]; destruct st as [[ps defs] fns]; destruct a as [c|v|[x q|x v]|c|o|v]; cbn [snd] in h1; try contradiction; cbn [kw_step fst snd]; intros y r i;
    [apply dset_In in i as [[_ ->]|i]; [reflexivity|exact (h _ _ i)]..|exact (h _ _ i)].
Qed.
Lemma varying_plain c : varying c -> no_functions c.
Proof. destruct c as [f fname kws]; cbn; intros H; eapply Forall_impl; [|exact H]; intros [k [c|v|[x q|x v]|c|o|v]]; cbn; auto. Qed.
Lemma varying_par c key psr : varying c -> forall p, In p (pars_of (inst c key psr)) -> is_cst p = false.
Proof.
  destruct c as [f fname kws]; intros H p i; rewrite inst_step in i; cbn [pars_of fo_params] in i; apply in_map_iff in i as ([k q] & e & i); cbn in e; subst q.
  eapply (step_varying key fname psr kws ([], [], [])); [exact H|intros ? ? []|exact i].
Qed.

(** A call depends on the values of the parameters only. *)
Lemma fill_ext p p' ps defs : (forall k q, In (k, q) ps -> match dget string_dec p (par_name q) with Some v => Some v | None => par_value q end =
    match dget string_dec p' (par_name q) with Some v => Some v | None => par_value q end) ->
  forall st k, fill_kw p ps defs [] st k = @fill_kw gv p' ps defs [] st k.
Proof.
  intros H st k; unfold fill_kw; destruct st as [kw|e]; [cbn [rbind]|reflexivity]; destruct (dmem string_dec kw k); [reflexivity|].
  destruct (dget string_dec ps k) as [q|] eqn:E; [|reflexivity]; apply dget_In in E; specialize (H _ _ E).
  destruct (dget string_dec p (par_name q)), (dget string_dec p' (par_name q)), (par_value q); congruence.
Qed.
Lemma fold_ext {A B} (f g : A -> B -> A) l : (forall a b, f a b = g a b) -> forall a, fold_left f l a = fold_left g l a.
Proof. intros H; induction l as [|b l IH]; intros a; [reflexivity|]; cbn; rewrite H; apply IH. Qed.
Lemma dget_lift p x : dget string_dec (lift p) x = option_map GV (dget string_dec p x).
Proof. induction p as [|[y v] p IH]; [reflexivity|]; cbn; destruct (string_dec x y); [reflexivity|exact IH]. Qed.
Lemma gcall_ext c key psr args kw p p' : no_functions c ->
  (forall q, In q (pars_of (inst c key psr)) -> value_of p q = value_of p' q) ->
  gcall (inst c key psr) args kw p = gcall (inst c key psr) args kw p'.
Proof.
  intros nf H; destruct c as [f fname kws]; unfold gcall; rewrite inst_step in H |- *; cbn [pars_of fo_params] in H.
  pose proof (step_fns key fname psr kws ([], [], []) nf) as e; cbn [snd] in e; cbn [call]; rewrite e; cbn [map].
  set (st := fold_left (kw_step key fname psr) kws ([], [], [])) in *.
  rewrite (fold_ext (fill_kw (lift p) (fst (fst st)) (snd (fst st)) []) (fill_kw (lift p') (fst (fst st)) (snd (fst st)) [])); [reflexivity|].
  intros a b; apply fill_ext; intros k q i; rewrite !dget_lift; assert (h : In q (map snd (fst (fst st)))) by (apply in_map_iff; exists (k, q); now split).
  specialize (H q h); unfold value_of in H; destruct (dget string_dec p (par_name q)), (dget string_dec p' (par_name q)); exact H.
Qed.
End Plain.

(** * The basis *)
Section Basis.
Variables (priorfn basisfn : fcl) (name psrname : string) (psr : gv) (masks : dict string mask) (n : nat).
Hypothesis nd : NoDup (dkeys masks).
Notation selected := (selected name psrname psr).
Notation block_at := (block_at basisfn name psrname psr masks n).
Notation blocks_at := (blocks_at basisfn name psrname psr masks n).

Lemma fold_dset {A} (h : string -> A) keys : forall d, NoDup (dkeys d ++ keys) ->
  fold_left (fun d key => dset string_dec d key (h key)) keys d = d ++ map (fun key => (key, h key)) keys.
Proof.
  induction keys as [|k keys IH]; intros d H; [now rewrite app_nil_r|]; cbn [fold_left map].
  assert (ni : ~ In k (dkeys d)) by (intros i; apply NoDup_remove_2 in H; apply H, in_or_app; now left).
  rewrite dset_new by exact ni; rewrite IH.
  - now rewrite <- app_assoc.
  - unfold dkeys; rewrite map_app; cbn [map fst]; now rewrite <- app_assoc.
Qed.
Lemma keys_nd : NoDup (sorted_keys masks).
Proof. eapply Permutation_NoDup; [symmetry; apply isort_perm|exact nd]. Qed.
Lemma keys_in k : In k (sorted_keys masks) <-> In k (dkeys masks).
Proof. split; apply Permutation_in; [|symmetry]; apply isort_perm. Qed.
Lemma get_map {A} (h : string -> A) keys k : In k keys -> dget string_dec (map (fun key => (key, h key)) keys) k = Some (h k).
Proof. induction keys as [|x keys IH]; [intros []|]; intros i; cbn; destruct (string_dec k x) as [->|ne]; [reflexivity|]; destruct i as [e|i]; [congruence|auto]. Qed.

Lemma rmapM_ok {A B} (h : A -> result B) : forall l l', rmapM h l = Ok l' -> Forall2 (fun a b => h a = Ok b) l l'.
Proof.
  induction l as [|a l IH]; intros l' e; [injection e as <-; constructor|]; cbn in e; destruct (h a) as [b|] eqn:E; [|discriminate]; cbn in e.
  destruct (rmapM h l) as [m|]; [|discriminate]; injection e as <-; constructor; [exact E|now apply IH].
Qed.
Lemma rmapM_map {A B} (h : A -> result B) (w : A -> B) l : (forall a, In a l -> h a = Ok (w a)) -> rmapM h l = Ok (map w l).
Proof. induction l as [|a l IH]; intros H; [reflexivity|]; cbn [rmapM map]; rewrite (H a (or_introl eq_refl)); cbn [rbind]; rewrite IH by (intros; apply H; now right); reflexivity. Qed.

Lemma functions_spec g : gp_functions priorfn basisfn name psrname psr masks = Ok g ->
  g_keys g = sorted_keys masks /\ Forall2 (fun k m => dget string_dec masks k = Some m) (g_keys g) (g_masks g) /\
  g_prior g = map (fun k => (k, selected priorfn k)) (g_keys g) /\ g_bases g = map (fun k => (k, selected basisfn k)) (g_keys g) /\ g_coefs g = [] /\
  g_params g = fold_left (fun d key => fold_left (fun d p => dset string_dec d (par_name p) p) (own_pars priorfn basisfn name psrname psr key) d) (g_keys g) [].
Proof.
  unfold gp_functions; destruct (rmapM _ _) as [ms|] eqn:E; [|discriminate]; intros e; cbn [rmap] in e.
  rewrite !fold_dset in e by (cbn [dkeys map app]; exact keys_nd); cbn [app] in e; apply (f_equal (fun r => match r with Ok x => x | Err _ => g end)) in e; cbv beta iota in e; subst g; cbn [g_keys g_masks g_prior g_bases g_coefs g_params].
  split; [reflexivity|]; split; [|repeat split].
  apply rmapM_ok in E; induction E as [|k m l l' h E IH]; constructor; [|exact IH].
  unfold dgetE in h; destruct (dget string_dec masks k); [now injection h as ->|discriminate].
Qed.

(** Any signal whose functions are those of the selections *)
Variable g : gp.
Hypothesis gk : g_keys g = sorted_keys masks.
Hypothesis gm : Forall2 (fun k m => dget string_dec masks k = Some m) (g_keys g) (g_masks g).
Hypothesis gb : g_bases g = map (fun k => (k, selected basisfn k)) (g_keys g).
Hypothesis gpr : g_prior g = map (fun k => (k, selected priorfn k)) (g_keys g).

Lemma blocks_kms p bl : blocks_at p bl -> combine (g_keys g) (g_masks g) = map (fun b => (k_key b, k_mask b)) bl.
Proof.
  intros (_ & _ & ek & H); assert (h : forall b, In b bl -> dget string_dec masks (k_key b) = Some (k_mask b)) by (intros b i; exact (proj1 (H b i))).
  clear H; change (isort sle (dkeys masks)) with (sorted_keys masks) in ek; rewrite <- gk in ek; revert ek h; clear - gm; revert bl; induction gm as [|k m ks ms e F IH]; intros [|b bl] ek h; try discriminate; [reflexivity|].
  cbn [map] in ek; injection ek as e1 e2; cbn [combine map]; rewrite e1, (IH F bl e2) by (intros; apply h; now right).
  pose proof (h b (or_introl eq_refl)) as h'; rewrite e1 in h'; assert (m = k_mask b) by congruence; congruence.
Qed.
Lemma blocks_keys_nd p bl : blocks_at p bl -> NoDup (map k_key bl).
Proof. intros (_ & _ & ek & _); rewrite ek; exact keys_nd. Qed.
Lemma base_get k : In k (g_keys g) -> dget string_dec (g_bases g) k = Some (selected basisfn k).
Proof. intros i; rewrite gb; now apply get_map. Qed.
Lemma prior_get k : In k (g_keys g) -> dget string_dec (g_prior g) k = Some (selected priorfn k).
Proof. intros i; rewrite gpr; now apply get_map. Qed.

Definition gmat (b : blk) : gv := GMat (k_nc b) (k_rows b).
Lemma eval_ok p : forall bl labels acc, (forall b, In b bl -> In (k_key b) (g_keys g) /\ block_at p b) -> NoDup (map k_key bl) ->
  (forall b, In b bl -> ~ In (k_key b) (dkeys labels) /\ ~ In (k_key b) (dkeys acc)) ->
  eval_bases g p (map (fun b => (k_key b, k_mask b)) bl) labels acc = (labels ++ map (fun b => (k_key b, k_lab b)) bl, Ok (acc ++ map (fun b => (k_key b, gmat b)) bl)).
Proof.
  induction bl as [|b bl IH]; intros labels acc H ndk fr; [now rewrite !app_nil_r|]; cbn [map eval_bases].
  destruct (H b (or_introl eq_refl)) as [ik (_ & _ & e & _)]; unfold dgetE; rewrite (base_get _ ik); cbn [rbind]; rewrite e; cbn [rbind unpack].
  destruct (fr b (or_introl eq_refl)) as [f1 f2]; rewrite !dset_new by assumption; cbn [map] in ndk; inversion ndk as [|x l n1 n2]; subst.
  rewrite IH.
  - now rewrite <- !app_assoc.
  - intros; apply H; now right.
  - exact n2.
  - intros b' i; destruct (fr b' (or_intror i)) as [g1 g2]; unfold dkeys in *; rewrite !map_app, !in_app_iff; cbn [map fst].
    assert (ne : k_key b <> k_key b') by (intros q; apply n1; rewrite q; now apply in_map).
    split; intros [j|[j|[]]]; auto.
Qed.

Lemma as_mat_ok p b : block_at p b -> as_mat (gmat b) = Ok (k_nc b, k_rows b).
Proof.
  intros (_ & _ & _ & _ & F); cbn [as_mat gmat]; replace (forallb _ _) with true; [reflexivity|].
  symmetry; apply forallb_forall; intros r i; apply Nat.eqb_eq; revert r i; now apply Forall_forall.
Qed.

Lemma put_rows_length B : forall m F a k, length (put_rows B m F a k) = length B.
Proof. induction B as [|r B IH]; intros [|[] m] F a k; cbn; auto; destruct F; cbn; now rewrite IH. Qed.
Lemma put_rows_nth B : forall m F a k t, length m = length B -> length F = count m -> t < length B ->
  nth t (put_rows B m F a k) [] = if nth t m false then firstn a (nth t B []) ++ nth (rank m t) F [] ++ skipn (a + k) (nth t B []) else nth t B [].
Proof.
  induction B as [|r B IH]; intros [|b m] F a k t lm lf lt; cbn in lm, lt; try discriminate; [lia|].
  destruct b; unfold count in lf; cbn [filter length] in lf.
  - destruct F as [|f F]; [discriminate|]; destruct t as [|t]; [reflexivity|]; cbn [put_rows nth rank]; rewrite IH by (unfold count; cbn in lf; lia); cbn [nth Nat.add]; reflexivity.
  - destruct t as [|t]; [reflexivity|]; cbn [put_rows nth rank]; rewrite IH by (unfold count; lia); reflexivity.
Qed.
Lemma rank_lt : forall m i, nth i m false = true -> rank m i < count m.
Proof.
  induction m as [|b m IH]; intros [|i] H; try discriminate; cbn in *.
  - subst b; unfold count; cbn; lia.
  - specialize (IH i H); unfold count in *; destruct b; cbn; lia.
Qed.
Lemma row_in_length p b t : block_at p b -> length (row_in b t) = k_nc b.
Proof.
  intros (_ & _ & _ & lr & F); unfold row_in; destruct (nth t (k_mask b) false) eqn:E; [|apply repeat_length].
  rewrite Forall_forall in F; apply F, nth_In; rewrite lr; now apply rank_lt.
Qed.
Lemma row_of_length p bl t : (forall b, In b bl -> block_at p b) -> length (row_of bl t) = columns bl.
Proof.
  unfold row_of, columns; induction bl as [|b bl IH]; intros H; [reflexivity|]; cbn [map concat list_sum fold_right]; rewrite app_length, (row_in_length p b t) by (apply H; now left).
  rewrite IH by (intros; apply H; now right); reflexivity.
Qed.
Lemma columns_app a b : columns (a ++ b) = columns a + columns b.
Proof. unfold columns; now rewrite map_app, list_sum_app. Qed.
Lemma row_of_app a b t : row_of (a ++ b) t = row_of a t ++ row_of b t.
Proof. unfold row_of; now rewrite map_app, concat_app. Qed.

Lemma put_ok p bs : forall rest fin slices, (forall b, In b (fin ++ rest) -> block_at p b) -> (forall b, In b rest -> dget string_dec bs (k_key b) = Some (gmat b)) ->
  NoDup (map k_key rest) -> (forall b, In b rest -> ~ In (k_key b) (dkeys slices)) ->
  put_blocks bs (map (fun b => (k_key b, k_mask b)) rest) (map (fun t => row_of fin t ++ repeat 0%R (columns rest)) (seq 0 n)) slices (columns fin) =
  ((map (row_of (fin ++ rest)) (seq 0 n), slices ++ combine (map k_key rest) (intervals (columns fin) rest)), Ok tt).
Proof.
  induction rest as [|b rest IH]; intros fin slices H hb ndk fr.
  - cbn [map put_blocks combine]; rewrite !app_nil_r; unfold columns at 1; cbn [map list_sum fold_right]; rewrite (map_ext (fun t => row_of fin t ++ repeat 0%R 0) (row_of fin)); [reflexivity|]; intros t; cbn [repeat]; apply app_nil_r.
  - assert (hb' : block_at p b) by (apply H, in_or_app; right; now left); pose proof hb' as (_ & lm & _ & lr & _).
    cbn [map put_blocks]; unfold dgetE; rewrite (hb b (or_introl eq_refl)); cbn [rbind]; rewrite (as_mat_ok p b hb'); cbn [rbind fst snd].
    unfold put_block; rewrite map_length, seq_length, lm, Nat.eqb_refl; cbn [negb]; rewrite lr, Nat.eqb_refl; cbn [negb rmap].
    rewrite dset_new by (apply fr; now left); apply NoDup_cons_iff in ndk as [n1 n2].
    replace (put_rows _ _ _ _ _) with (map (fun t => row_of (fin ++ [b]) t ++ repeat 0%R (columns rest)) (seq 0 n)).
    + assert (ec : columns (fin ++ [b]) = columns fin + k_nc b) by (rewrite columns_app; unfold columns; cbn; lia); rewrite <- ec.
      rewrite IH.
      * rewrite <- !app_assoc; cbn [app combine intervals map]; rewrite ec, (Nat.add_comm (k_nc b)); reflexivity.
      * intros b' i; apply H; rewrite <- app_assoc in i; exact i.
      * intros b' i; apply hb; now right.
      * exact n2.
      * intros b' i; unfold dkeys; rewrite map_app, in_app_iff; cbn [map fst]; intros [j|[j|[]]]; [revert j; apply fr; now right|].
        apply n1; rewrite j; now apply in_map.
    + apply (nth_ext _ _ [] []); [now rewrite put_rows_length, !map_length|]; rewrite map_length, seq_length; intros t ht.
      rewrite put_rows_nth by (rewrite ?map_length, ?seq_length; auto).
      assert (N : forall h : nat -> list R, nth t (map h (seq 0 n)) [] = h t).
      { intros h; rewrite (nth_indep _ [] (h 0)) by (rewrite map_length, seq_length; exact ht); rewrite map_nth, seq_nth by exact ht; reflexivity. }
      rewrite !N, row_of_app, <- app_assoc; unfold row_of at 2; cbn [map concat]; rewrite app_nil_r; unfold row_in.
      assert (lf : length (row_of fin t) = columns fin) by (apply (row_of_length p); intros; apply H, in_or_app; now left).
      assert (cr : columns (b :: rest) = k_nc b + columns rest) by reflexivity.
      destruct (nth t (k_mask b) false).
      * rewrite cr, firstn_app, lf, Nat.sub_diag, firstn_O, app_nil_r, firstn_all2 by lia; f_equal; f_equal.
        rewrite skipn_app, lf, skipn_all2 by lia; replace (columns fin + k_nc b - columns fin) with (k_nc b) by lia; rewrite repeat_app, skipn_app, skipn_all2 by (rewrite repeat_length; lia).
        rewrite repeat_length, Nat.sub_diag; reflexivity.
      * now rewrite cr, repeat_app.
Qed.

Definition result_of (bl : list blk) : built :=
  Built (Some (map (fun b => (k_key b, k_lab b)) bl)) (Some (columns bl, map (row_of bl) (seq 0 n))) (Some (combine (map k_key bl) (intervals 0 bl))).
Lemma build_ok p bl s : blocks_at p bl -> build g p s = (result_of bl, Ok tt).
Proof.
  intros H; pose proof H as (_ & ne & ek & hb); unfold build; rewrite (blocks_kms p bl H).
  assert (ik : forall b, In b bl -> In (k_key b) (g_keys g)) by (intros b i; rewrite gk; unfold sorted_keys; rewrite <- ek; now apply in_map).
  rewrite eval_ok by (auto using (blocks_keys_nd p bl H); cbn; tauto); cbn [app].
  assert (E : rmapM as_mat (dvals (map (fun b => (k_key b, gmat b)) bl)) = Ok (map (fun b => (k_nc b, k_rows b)) bl)).
  { unfold dvals; rewrite map_map; cbn [snd]; clear - hb; induction bl as [|b bl IH]; [reflexivity|]; cbn [map rmapM]; rewrite (as_mat_ok p b) by (apply hb; now left).
    cbn [rbind]; rewrite IH by (intros; apply hb; now right); reflexivity. }
  assert (em : g_masks g = map k_mask bl).
  { transitivity (map snd (combine (g_keys g) (g_masks g))).
    - clear - gm; induction gm as [|k m ks ms h F IH]; [reflexivity|]; cbn [combine map snd]; now rewrite <- (IH F).
    - rewrite (blocks_kms p bl H), map_map; reflexivity. }
  assert (e0 : rbind (Ok (map (fun b => (k_nc b, k_rows b)) bl)) (fun l => match g_masks g with [] => Err IndexError | m :: _ => Ok (list_sum (map fst l), length m) end) = Ok (columns bl, n)).
  { cbn [rbind]; rewrite em, map_map; cbn [fst]; clear - ne hb; destruct bl as [|b0 bl]; [congruence|]; cbn [map]; rewrite (proj1 (proj2 (hb b0 (or_introl eq_refl)))); reflexivity. }
  rewrite E, e0.
  replace (repeat (repeat 0%R (columns bl)) n) with (map (fun t => row_of [] t ++ repeat 0%R (columns bl)) (seq 0 n)).
  2: { clear; generalize 0; induction n as [|k IH]; intros o; [reflexivity|]; cbn [seq map repeat]; now rewrite IH. }
  pose proof (put_ok p (map (fun b => (k_key b, gmat b)) bl) bl [] []) as P; cbn [app] in P; change (columns []) with 0 in P.
  rewrite P; [reflexivity|exact hb| |exact (blocks_keys_nd p bl H)|cbn; tauto].
  intros b i; pose proof (blocks_keys_nd p bl H) as N; clear - i N; revert i N; generalize bl; clear bl; induction bl as [|c bl IH]; [intros []|]; intros [<-|i] N; cbn; inversion N as [|x l n1 n2]; subst.
  - destruct (string_dec (k_key c) (k_key c)); [reflexivity|congruence].
  - destruct (string_dec (k_key b) (k_key c)) as [e|ne]; [elim n1; rewrite <- e; now apply in_map|now apply IH].
Qed.
End Basis.

(** * Histories *)
Lemma substring_suffix b : forall a, substring_of b (append a b) = true.
Proof.
  assert (pr : forall x y, prefix x (append x y) = true).
  { induction x as [|c x IH]; intros y; [now destruct y|]; cbn; destruct (Ascii.ascii_dec c c); [apply IH|congruence]. }
  induction a as [|c a IH]; cbn [append].
  - specialize (pr b EmptyString); replace (append b "") with b in pr by (clear; induction b; cbn; congruence); destruct b; cbn in *; [reflexivity|]; now rewrite pr.
  - cbn [substring_of]; rewrite IH; apply orb_true_r.
Qed.
Lemma cache_key_total names (p : gparams) : flat_values p -> exists k, cache_key R names p = Ok k.
Proof.
  intros H; induction names as [|x names [k IH]]; [now exists []|]; cbn [cache_key]; destruct (dget string_dec p x) as [[y|l|l]|] eqn:E.
  - rewrite IH; eexists; reflexivity.
  - rewrite IH; eexists; reflexivity.
  - elim (H x l E).
  - now exists k.
Qed.
Definition kd := key_eq_dec Req_EM_T.
Definition wf_cache {B} (limit : nat) (c : cstate (num := R) B) : Prop := clist c = map fst (cmap c) /\ NoDup (clist c) /\ length (clist c) <= limit.
Lemma cache_ok {S B} names limit (func : gparams -> S -> S * result B) c s p k v s1 : wf_cache limit c -> 1 <= limit ->
  cache_key R names p = Ok k -> func p s = (s1, Ok v) ->
  (exists v0, In (k, v0) (cmap c) /\ cache_call Req_EM_T names limit func p (c, s) = ((c, s), Ok v0)) \/
  (exists c', cache_call Req_EM_T names limit func p (c, s) = ((c', s1), Ok v) /\ wf_cache limit c' /\
     (forall k' v', In (k', v') (cmap c') -> In (k', v') (cmap c) \/ (k' = k /\ v' = v)) /\ In (k, v) (cmap c')).
Proof.
  intros (e & ndk & le) l1 ek ef; destruct c as [m l]; cbn [cmap clist] in *; unfold cache_call; rewrite ek; cbn [cmap clist]; fold kd.
  destruct (dmem kd m k) eqn:E.
  - left; apply dmem_true in E; destruct (in_dget_Some kd m k E) as [v0 g]; exists v0; split; [exact (dget_In kd _ _ _ g)|].
    unfold dgetE; now rewrite g.
  - right; assert (ni : ~ In k (dkeys m)) by (apply (dmem_false kd); exact E); rewrite ef; unfold cevict; cbn [clist cmap]; fold kd.
    rewrite (dset_new kd) by exact ni; subst l.
    assert (n1 : NoDup (map fst (m ++ [(k, v)]))).
    { rewrite map_app; cbn [map fst]; apply (Permutation_NoDup (Permutation_cons_append _ k)); now constructor. }
    destruct (Nat.ltb_spec limit (length (map fst m ++ [k]))) as [lt|ge].
    + destruct m as [|[k0 v0] m]; [cbn in lt; lia|]; cbn [map fst app].
      cbn [map fst app] in n1; apply NoDup_cons_iff in n1 as [n0 n1].
      cbn [dpop]; destruct (kd k0 k0) as [_|c0]; [|congruence].
      assert (g : dget kd (m ++ [(k, v)]) k = Some v) by (apply In_dget; [exact n1|apply in_or_app; right; now left]).
      eexists; split; [unfold dgetE; cbn [cmap]; rewrite g; reflexivity|]; split; [|split]; cbn [cmap clist].
      * split; cbn [cmap clist]; [now rewrite map_app|]; split; cbn [clist]; [now rewrite map_app in n1|]; rewrite app_length; rewrite map_length in *; cbn in *; lia.
      * intros k' v' i; apply in_app_or in i as [i|[i|[]]]; [left; now right|right; injection i; auto].
      * apply in_or_app; right; now left.
    + assert (g : dget kd (m ++ [(k, v)]) k = Some v) by (apply In_dget; [exact n1|apply in_or_app; right; now left]).
      eexists; split; [unfold dgetE; cbn [cmap]; rewrite g; reflexivity|]; split; [|split]; cbn [cmap clist].
      * split; cbn [cmap clist]; [now rewrite map_app|]; split; cbn [clist]; [now rewrite map_app in n1|exact ge].
      * intros k' v' i; apply in_app_or in i as [i|[i|[]]]; [now left|right; injection i; auto].
      * apply in_or_app; right; now left.
Qed.
Lemma wf_empty {B} limit : wf_cache limit (cempty (B := B)).
Proof. split; [reflexivity|]; split; [constructor|cbn; lia]. Qed.
Section History.
Variables (priorfn basisfn : fcl) (name psrname : string) (psr : gv) (masks : dict string mask) (n : nat).
Hypothesis nd : NoDup (dkeys masks).
Hypothesis np : no_functions priorfn.
Hypothesis vb : varying basisfn.
Notation selected := (selected name psrname psr).
Notation block_at := (block_at basisfn name psrname psr masks n).
Notation blocks_at := (blocks_at basisfn name psrname psr masks n).
Variable g : gp.
Hypothesis gk : g_keys g = sorted_keys masks.
Hypothesis gm : Forall2 (fun k m => dget string_dec masks k = Some m) (g_keys g) (g_masks g).
Hypothesis gb : g_bases g = map (fun k => (k, selected basisfn k)) (g_keys g).
Hypothesis gpr : g_prior g = map (fun k => (k, selected priorfn k)) (g_keys g).

Lemma blocks_key p bl b : blocks_at p bl -> In b bl -> In (k_key b) (dkeys masks).
Proof. intros (_ & _ & ek & _) i; apply (keys_in masks); unfold sorted_keys; rewrite <- ek; now apply in_map. Qed.
Lemma block_eq p p' b b' : k_key b = k_key b' -> block_at p b -> block_at p' b' ->
  (forall q, In q (pars_of (selected basisfn (k_key b))) -> value_of p q = value_of p' q) -> b = b'.
Proof.
  destruct b as [k m c r l], b' as [k' m' c' r' l']; cbn; intros <- (e1 & _ & e2 & _) (f1 & _ & f2 & _) H; cbn in *.
  assert (m' = m) by congruence; subst m'; unfold selected in *; rewrite (gcall_ext basisfn _ _ _ _ p p' (varying_plain _ vb) H) in e2.
  rewrite e2 in f2; injection f2; intros; subst; reflexivity.
Qed.
Lemma blocks_eq p p' bl bl' : blocks_at p bl -> blocks_at p' bl' ->
  (forall k q, In k (dkeys masks) -> In q (pars_of (selected basisfn k)) -> value_of p q = value_of p' q) -> bl = bl'.
Proof.
  intros H H' V; assert (ik : forall b, In b bl -> In (k_key b) (dkeys masks)) by (intros b; apply (blocks_key p bl b H)).
  destruct H as (_ & _ & ek & h), H' as (_ & _ & ek' & h'); rewrite <- ek' in ek; clear ek'; revert bl' ek h'; induction bl as [|b bl IH]; intros [|b' bl'] ek h'; try discriminate; [reflexivity|].
  cbn [map] in ek; injection ek as e1 e2; f_equal.
  - apply (block_eq p p'); [exact e1|apply h; now left|apply h'; now left|]; intros q; apply V, ik; now left.
  - apply IH; [intros; apply h; now right|intros; apply ik; now right|exact e2|intros; apply h'; now right].
Qed.
Lemma basis_param k q : In k (dkeys masks) -> In q (pars_of (selected basisfn k)) -> In (par_name q) (basis_params g).
Proof.
  intros ik iq; unfold basis_params; apply in_flat_map; exists (selected basisfn k); split.
  - rewrite gb; unfold dvals; rewrite map_map; apply in_map_iff; exists k; split; [reflexivity|]; rewrite gk; now apply keys_in.
  - apply in_map_iff; exists q; split; [reflexivity|]; pose proof (varying_par basisfn _ _ vb q iq) as nc; unfold fo_pars.
    unfold pars_of, dvals in iq; apply in_map_iff in iq as (ka & e & i); apply in_flat_map; exists ka; split; [exact i|]; rewrite e, nc.
    destruct q as [x pr|x v]; [|discriminate]; cbn [par_pars]; destruct pr; now left.
Qed.
Lemma key_values p p' k : cache_key R (basis_params g) p = Ok k -> cache_key R (basis_params g) p' = Ok k ->
  forall k q, In k (dkeys masks) -> In q (pars_of (selected basisfn k)) -> value_of p q = value_of p' q.
Proof. intros e e' k0 q ik iq; unfold value_of; now rewrite (cache_key_inj _ p p' k e e' (par_name q) (basis_param k0 q ik iq)). Qed.

(** The basis kept is that of the parameters in the cache. *)
Definition inv_basis (s : bstate) : Prop :=
  wf_cache 1 (fst s) /\ forall k v, In (k, v) (cmap (fst s)) -> exists p bl, cache_key R (basis_params g) p = Ok k /\ blocks_at p bl /\ snd s = result_of n bl.
Lemma inv_basis_start : inv_basis (cempty, unbuilt).
Proof. split; [apply wf_empty|]; intros k v []. Qed.
Lemma construct_ok p bl s : inv_basis s -> blocks_at p bl -> exists s', construct g p s = (s', Ok tt) /\ inv_basis s' /\ snd s' = result_of n bl.
Proof.
  destruct s as [c b]; intros [w H] hb; cbn [fst snd] in *; destruct (cache_key_total (basis_params g) p (proj1 hb)) as [k ek].
  destruct (cache_ok (basis_params g) 1 (build g) c b p k tt (result_of n bl) w (le_n 1) ek (build_ok basisfn name psrname psr masks n nd g gk gm gb p bl b hb)) as [(v & i & e)|(c' & e & w' & h1 & h2)].
  - destruct (H _ _ i) as (p0 & bl0 & e0 & hb0 & es); exists (c, b); split; [unfold construct; rewrite e; now destruct v|]; split; [now split|]; cbn [snd].
    rewrite es; f_equal; apply (blocks_eq p0 p); [exact hb0|exact hb|]; intros k0 q; now apply (key_values p0 p k).
  - exists (c', result_of n bl); split; [exact e|]; split; [|reflexivity]; split; [exact w'|]; cbn [fst snd]; intros k' v' i.
    assert (k' = k).
    { destruct w' as (w1 & _ & w3); destruct c' as [m l]; cbn [cmap clist] in *; subst l; rewrite map_length in w3; destruct m as [|x [|y m]]; cbn in w3; [destruct h2| |lia].
      destruct h2 as [h2|[]], i as [i|[]]; congruence. }
    subst k'; exists p, bl; auto.
Qed.

Lemma basis_ok p bl s : inv_basis s -> blocks_at p bl ->
  exists s', get_basis g p s = (s', Ok (columns bl, map (row_of bl) (seq 0 n))) /\ inv_basis s'.
Proof.
  intros I H; destruct (construct_ok p bl s I H) as (s' & e & I' & es); exists s'; split; [|exact I'].
  unfold get_basis; rewrite e; cbn [rbind]; rewrite es; reflexivity.
Qed.
Lemma label_get bl k : NoDup (map k_key bl) -> forall b, In b bl -> k_key b = k -> dget string_dec (map (fun b => (k_key b, k_lab b)) bl) k = Some (k_lab b).
Proof.
  intros N b i <-; induction bl as [|c bl IH]; [destruct i|]; cbn [map dget] in N |- *; apply NoDup_cons_iff in N as [n1 n2]; destruct (string_dec (k_key b) (k_key c)) as [e|ne].
  - destruct i as [->|i]; [reflexivity|]; elim n1; rewrite <- e; now apply in_map.
  - destruct i as [->|i]; [congruence|auto].
Qed.
Lemma phi_ok p bl phis s : inv_basis s -> blocks_at p bl -> Forall2 (fun b phi => gcall (selected priorfn (k_key b)) [k_lab b] [] p = Ok phi) bl phis ->
  exists s', get_phi g p s = (s', Ok (combine (intervals 0 bl) phis)) /\ inv_basis s'.
Proof.
  intros I H F; destruct (construct_ok p bl s I H) as (s' & e & I' & es); exists s'; split; [|exact I'].
  unfold get_phi; rewrite e; cbn [rbind]; rewrite es; cbn [result_of b_slices b_labels attribute rbind]; f_equal.
  pose proof (blocks_keys_nd basisfn name psrname psr masks n nd p bl H) as N.
  assert (L : forall b, In b bl -> dget string_dec (map (fun b => (k_key b, k_lab b)) bl) (k_key b) = Some (k_lab b)) by (intros b i; now apply label_get).
  assert (P : forall b, In b bl -> dget string_dec (g_prior g) (k_key b) = Some (selected priorfn (k_key b))).
  { intros b i; apply (prior_get priorfn name psrname psr g gpr); rewrite gk; apply keys_in; now apply (blocks_key p bl). }
  revert L; generalize (map (fun b => (k_key b, k_lab b)) bl) as labels; intros labels L; clear - F L P; generalize 0 as o; induction F as [|b phi bl phis h F IH]; intros o; [reflexivity|].
  cbn [map intervals combine rmapM fst snd]; unfold dgetE; rewrite (P b (or_introl eq_refl)); cbn [rbind]; rewrite (L b (or_introl eq_refl)); cbn [rbind]; rewrite h; cbn [rmap rbind].
  unfold dgetE in IH; rewrite IH by (intros; try apply P; try apply L; now right); reflexivity.
Qed.

(** Sampled coefficients *)
Notation own_pars := (own_pars priorfn basisfn name psrname psr).
Notation coef_name := (coef_name name psrname).
Definition with_coefs : Prop := forall k, In k (dkeys masks) ->
  exists sz, dget string_dec (g_coefs g) k = Some (Coef (coef_name k) sz (map (fun q => (par_name q, q)) (own_pars k))).
Hypothesis gc : with_coefs.

Lemma rsum_app a b : rsum (a ++ b) = (rsum a + rsum b)%R.
Proof. unfold rsum; induction a as [|x a IH]; cbn [app fold_right]; [|rewrite IH]; ring. Qed.
Lemma dot_app a b : forall c d, length a = length c -> dot (a ++ b) (c ++ d) = (dot a c + dot b d)%R.
Proof.
  unfold dot; induction a as [|x a IH]; intros [|y c] d e; try discriminate; cbn [app map2]; [unfold rsum at 2; cbn; ring|].
  cbn [rsum fold_right]; fold (rsum (map2 Rmult (a ++ b) (c ++ d))) (rsum (map2 Rmult a c)); rewrite IH by (cbn in e; lia); ring.
Qed.
Lemma dot_zero k : forall c, dot (repeat 0%R k) c = 0%R.
Proof. unfold dot; induction k as [|k IH]; intros [|y c]; try reflexivity; cbn [repeat map2 rsum fold_right]; fold (rsum (map2 Rmult (repeat 0%R k) c)); rewrite IH; ring. Qed.

Lemma fill_ok p : forall bl cs fin, (forall b, In b bl -> In (k_key b) (dkeys masks)) ->
  Forall2 (fun b c => dget string_dec p (coef_name (k_key b)) = Some (Vec c) /\ length c = k_nc b) bl cs ->
  fill_coefs g p (combine (map k_key bl) (intervals (length fin) bl)) (fin ++ repeat 0%R (columns bl)) = Ok (fin ++ concat cs).
Proof.
  intros bl cs fin H F; revert fin; induction F as [|b c bl cs [e l] F IH]; intros fin; [reflexivity|].
  cbn [map intervals combine fill_coefs]; unfold dgetE; destruct (gc (k_key b) (H b (or_introl eq_refl))) as [sz E]; rewrite E; cbn [rbind cf_name]; rewrite e.
  replace (length fin + k_nc b - length fin) with (k_nc b) by lia; rewrite l, Nat.eqb_refl.
  replace (firstn (length fin) (fin ++ repeat 0%R (columns (b :: bl)))) with fin by (rewrite firstn_app, Nat.sub_diag, firstn_O, app_nil_r, firstn_all; reflexivity).
  replace (skipn (length fin + k_nc b) (fin ++ repeat 0%R (columns (b :: bl)))) with (repeat 0%R (columns bl)).
  - cbn [concat]; rewrite app_assoc; replace (length fin + k_nc b) with (length (fin ++ c)) by (rewrite app_length; lia).
    rewrite app_assoc; apply IH; intros; apply H; now right.
  - rewrite skipn_app, skipn_all2 by lia; replace (length fin + k_nc b - length fin) with (k_nc b) by lia; change (columns (b :: bl)) with (k_nc b + columns bl); rewrite repeat_app, skipn_app, skipn_all2 by (rewrite repeat_length; lia).
    rewrite repeat_length, Nat.sub_diag; reflexivity.
Qed.
Definition the_delay (bl : list blk) (cs : list (list R)) : list R :=
  map (fun t => rsum (map (fun bc => if nth t (k_mask (fst bc)) false then dot (row_in (fst bc) t) (snd bc) else 0%R) (combine bl cs))) (seq 0 n).
Definition coefs_at (p : gparams) := Forall2 (fun b c => dget string_dec p (coef_name (k_key b)) = Some (Vec c) /\ length c = k_nc b).
Lemma dot_rows p bl cs t : (forall b, In b bl -> block_at p b) -> coefs_at p bl cs ->
  dot (row_of bl t) (concat cs) = rsum (map (fun bc => if nth t (k_mask (fst bc)) false then dot (row_in (fst bc) t) (snd bc) else 0%R) (combine bl cs)).
Proof.
  intros H F; induction F as [|b c bl cs [_ l] F IH]; [reflexivity|].
  change (row_of (b :: bl) t) with (row_in b t ++ row_of bl t); cbn [concat combine map fst snd]; rewrite dot_app.
  - rewrite IH by (intros; apply H; now right); match goal with |- _ = rsum (?x :: ?l) => change (rsum (x :: l)) with (x + rsum l)%R end; f_equal.
    destruct (nth t (k_mask b) false) eqn:E; [reflexivity|]; unfold row_in; rewrite E; apply dot_zero.
  - rewrite (row_in_length basisfn name psrname psr masks n p b t); [now rewrite l|apply H; now left].
Qed.
Lemma delay_body_ok p bl cs s : inv_basis s -> blocks_at p bl -> coefs_at p bl cs ->
  exists s', delay_body g p s = (s', Ok (the_delay bl cs)) /\ inv_basis s'.
Proof.
  intros I H F; destruct (construct_ok p bl s I H) as (s' & e & I' & es); exists s'; split; [|exact I'].
  unfold delay_body; rewrite e; cbn [rbind]; rewrite es; cbn [result_of b_basis b_slices attribute rbind fst snd]; f_equal.
  pose proof (fill_ok p bl cs [] (fun b i => blocks_key p bl b H i) F) as E; cbn [length app] in E; rewrite E; cbn [rmap]; f_equal.
  rewrite map_map; apply map_ext; intros t; apply (dot_rows p); [exact (proj2 (proj2 (proj2 H)))|exact F].
Qed.

Lemma coef_param k : In k (dkeys masks) -> In (coef_name k) (delay_params g).
Proof.
  intros i; destruct (gc k i) as [sz E]; apply dget_In in E; unfold delay_params; apply filter_In; split; [|apply substring_suffix].
  unfold param_names; apply in_or_app; right; apply in_map_iff; eexists; split; [|exact E]; reflexivity.
Qed.
Definition dnames := basis_params g ++ delay_params g.
Lemma delay_eq p p' k bl cs bl' cs' : cache_key R dnames p = Ok k -> cache_key R dnames p' = Ok k -> blocks_at p bl -> coefs_at p bl cs -> blocks_at p' bl' -> coefs_at p' bl' cs' -> bl = bl' /\ cs = cs'.
Proof.
  intros e e' H F H' F'; assert (bl = bl').
  { apply (blocks_eq p p'); [exact H|exact H'|]; intros k0 q ik iq; unfold value_of.
    rewrite (cache_key_inj _ p p' k e e' (par_name q)); [reflexivity|]; apply in_or_app; left; now apply (basis_param k0). }
  subst bl'; split; [reflexivity|]; assert (ik : forall b, In b bl -> In (k_key b) (dkeys masks)) by (intros b; apply (blocks_key p bl b H)).
  clear H H'; revert cs' F'; induction F as [|b c bl cs [h1 h2] F IH]; intros cs' F'; inversion F' as [|b' c' bl' cs2 [h3 h4] F2]; subst; [reflexivity|]; f_equal.
  - rewrite (cache_key_inj _ p p' k e e') in h1; [congruence|]; apply in_or_app; right; apply coef_param, ik; now left.
  - apply IH; [intros; apply ik; now right|exact F2].
Qed.
Definition inv_all (s : gstate) : Prop :=
  inv_basis (snd s) /\ wf_cache 2 (fst s) /\ forall k v, In (k, v) (cmap (fst s)) -> exists p bl cs, cache_key R dnames p = Ok k /\ blocks_at p bl /\ coefs_at p bl cs /\ v = the_delay bl cs.
Lemma delay_ok p bl cs s : inv_all s -> blocks_at p bl -> coefs_at p bl cs ->
  exists s', get_delay g p s = (s', Ok (the_delay bl cs)) /\ inv_all s'.
Proof.
  destruct s as [c b]; intros (I & w & H) hb F; cbn [fst snd] in *; destruct (cache_key_total dnames p (proj1 hb)) as [k ek].
  destruct (delay_body_ok p bl cs b I hb F) as (b' & ef & I').
  destruct (cache_ok dnames 2 (delay_body g) c b p k _ b' w (le_S _ _ (le_n 1)) ek ef) as [(v & i & e)|(c' & e & w' & h1 & h2)].
  - destruct (H _ _ i) as (p0 & bl0 & cs0 & e0 & hb0 & F0 & ev); destruct (delay_eq p0 p k bl0 cs0 bl cs e0 ek hb0 F0 hb F) as [<- <-]; subst v.
    exists (c, b); split; [exact e|]; now split.
  - exists (c', b'); split; [exact e|]; split; [exact I'|]; split; [exact w'|]; cbn [fst]; intros k' v' i.
    destruct (h1 k' v' i) as [j|[-> ->]]; [exact (H _ _ j)|]; exists p, bl, cs; auto.
Qed.

(** The density of the coefficients *)
Lemma own_ok p d : forall qs, (forall q, In q qs -> option_map GV (dget string_dec d (par_name q)) = value_of p q) ->
  exists d0, own_values (map (fun q => (par_name q, q)) qs) p = Ok d0 /\
    (forall q, In q qs -> dget string_dec d0 (par_name q) = dget string_dec d (par_name q)) /\
    (forall x, (forall q, In q qs -> par_name q <> x) -> dget string_dec d0 x = None).
Proof.
  induction qs as [|q qs IH]; intros H; [exists []; split; [reflexivity|]; split; [intros ? []|reflexivity]|].
  destruct IH as (d0 & e & h1 & h2); [intros; apply H; now right|]; cbn [map own_values]; rewrite e; cbn [rbind].
  pose proof (H q (or_introl eq_refl)) as hq; unfold value_of in hq.
  assert (S : forall v, dget string_dec d (par_name q) = Some v -> (forall q', In q' (q :: qs) -> dget string_dec ((par_name q, v) :: d0) (par_name q') = dget string_dec d (par_name q')) /\
      (forall x, (forall q', In q' (q :: qs) -> par_name q' <> x) -> dget string_dec ((par_name q, v) :: d0) x = None)).
  { intros v ev; split.
    - intros q' i; cbn [dget]; destruct (string_dec (par_name q') (par_name q)) as [eq|ne]; [now rewrite eq|]; destruct i as [->|i]; [congruence|now apply h1].
    - intros x hx; cbn [dget]; destruct (string_dec x (par_name q)) as [->|ne]; [elim (hx q (or_introl eq_refl) eq_refl)|]; apply h2; intros q' i; apply hx; now right. }
  destruct (dget string_dec p (par_name q)) as [v|].
  - destruct (dget string_dec d (par_name q)) as [v'|]; [|discriminate]; injection hq as ->; eexists; split; [reflexivity|]; now apply S.
  - destruct (dget string_dec d (par_name q)) as [v'|] eqn:E; cbn [option_map] in hq; rewrite <- hq.
    + eexists; split; [reflexivity|]; now apply S.
    + exists d0; split; [reflexivity|]; split; [|intros x hx; apply h2; intros q' i; apply hx; now right].
      intros q' [<-|i]; [|now apply h1]; destruct (in_dec string_dec (par_name q) (map (@par_name _) qs)) as [i|ni].
      * apply in_map_iff in i as (q2 & e2 & i); rewrite <- e2; now apply h1.
      * rewrite E; apply h2; intros q2 i e2; apply ni; rewrite <- e2; now apply in_map.
Qed.
Lemma gcall_vals c key args kw p p' : (forall x, dget string_dec p x = dget string_dec p' x) -> no_functions c -> gcall (selected c key) args kw p = gcall (selected c key) args kw p'.
Proof. intros H nf; apply gcall_ext; [exact nf|]; intros q _; unfold value_of; now rewrite H. Qed.
Lemma blocks_ext d d' bl : (forall x, dget string_dec d x = dget string_dec d' x) -> blocks_at d bl -> blocks_at d' bl.
Proof.
  intros H (f & ne & ek & h); split; [intros x l; rewrite <- H; apply f|]; split; [exact ne|]; split; [exact ek|]; intros b i; destruct (h b i) as (h1 & h2 & h3 & h4).
  split; [exact h1|]; split; [exact h2|]; split; [|exact h4]; rewrite <- h3; symmetry; apply gcall_vals; [exact H|now apply varying_plain].
Qed.
Lemma restricts_value key p d q : restricts priorfn basisfn name psrname psr key p d -> In q (own_pars key) -> value_of d q = value_of p q.
Proof.
  intros [h _] i; specialize (h q i); unfold value_of in *; destruct (dget string_dec d (par_name q)); cbn [option_map] in h; [exact h|].
  destruct (dget string_dec p (par_name q)); [discriminate|reflexivity].
Qed.
Section Dense.
Variable dense : list R -> nat -> list (list R) -> result (option R).
Variable timing : bool.
Lemma logpdf_ok key p c d s : inv_all s -> In key (dkeys masks) -> dget string_dec p (coef_name key) = Some c -> restricts priorfn basisfn name psrname psr key p d ->
  forall x, (if timing then x = Some 0%R else exists l b phi, c = Vec l /\ block_at p b /\ k_key b = key /\
        gcall (selected priorfn key) [k_lab b] [] p = Ok phi /\ coef_density dense l phi = Ok x /\ exists bl, blocks_at d bl) ->
  exists s', coef_logpdf dense timing g key p s = (s', Ok x) /\ inv_all s'.
Proof.
  intros I ik ec hd x hx; unfold coef_logpdf, dgetE; destruct (gc key ik) as [sz E]; rewrite E; cbn [rbind cf_name cf_args]; rewrite ec; cbn [rbind].
  destruct (own_ok p d (own_pars key) (proj1 hd)) as (d0 & e0 & h1 & h2); rewrite e0; cbn [rmap].
  destruct timing; [subst x; exists s; now split|]; destruct hx as (l & b & phi & -> & hb & <- & hphi & hx & bl & hbl).
  assert (ed : forall x, dget string_dec d x = dget string_dec d0 x).
  { intros y; destruct (in_dec string_dec y (map (@par_name _) (own_pars (k_key b)))) as [i|ni].
    - apply in_map_iff in i as (q & <- & i); symmetry; now apply h1.
    - assert (no : forall q, In q (own_pars (k_key b)) -> par_name q <> y) by (intros q i e; apply ni; rewrite <- e; now apply in_map).
      rewrite h2 by exact no; exact (proj2 hd y no). }
  destruct I as (I1 & I2); destruct (construct_ok d0 bl (snd s) I1 (blocks_ext d d0 bl ed hbl)) as (s' & e & I' & es); exists (fst s, s'); rewrite e; split; [|now split].
  cbn [rbind]; rewrite es, (prior_get priorfn name psrname psr g gpr) by (rewrite gk; now apply keys_in); cbn [rbind result_of b_labels attribute].
  assert (ib : exists b', In b' bl /\ k_key b' = k_key b).
  { destruct hbl as (_ & _ & ek & _); apply (keys_in masks) in ik; unfold sorted_keys in ik; rewrite <- ek in ik; apply in_map_iff in ik as (b' & e1 & i1); now exists b'. }
  destruct ib as (b' & i' & kb'); assert (b' = b).
  { apply (block_eq d p); [exact kb'|now apply hbl|exact hb|]; intros q i; apply (restricts_value (k_key b)); [exact hd|]; rewrite kb' in i; unfold ProofGp.own_pars; apply in_or_app; now right. }
  subst b'; rewrite (label_get bl (k_key b) (blocks_keys_nd basisfn name psrname psr masks n nd d bl hbl) b i' eq_refl); cbn [rbind].
  replace (gcall (selected priorfn (k_key b)) [k_lab b] [] d0) with (Ok phi); [cbn [rbind]; now rewrite hx|].
  rewrite <- hphi, <- (gcall_vals priorfn _ _ _ d d0 ed np); symmetry; apply gcall_ext; [exact np|]; intros q i; apply (restricts_value (k_key b)); [exact hd|]; unfold ProofGp.own_pars; apply in_or_app; now left.
Qed.
End Dense.
End History.

(** * Programs *)
Section Program.
Variables (priorfn basisfn : fcl) (name psrname : string) (psr : gv) (masks : dict string mask) (n : nat).
Notation selected := (selected name psrname psr).
Notation blocks_at := (blocks_at basisfn name psrname psr masks n).
Notation own_pars := (own_pars priorfn basisfn name psrname psr).
Notation coef_name := (coef_name name psrname).
(** Parameters with one name are the same. *)
Definition unambiguous : Prop := forall k k' q q', In k (dkeys masks) -> In k' (dkeys masks) -> In q (own_pars k) -> In q' (own_pars k') -> par_name q = par_name q' -> q = q'.
Hypothesis nd : NoDup (dkeys masks).

Lemma fold_params : forall (l : list (par gv)) d q, (In q l \/ dget string_dec d (par_name q) = Some q) -> (forall q', In q' l -> par_name q' = par_name q -> q' = q) ->
  dget string_dec (fold_left (fun d p => dset string_dec d (par_name p) p) l d) (par_name q) = Some q.
Proof.
  induction l as [|x l IH]; intros d q h u; [destruct h as [[]|h]; exact h|]; cbn [fold_left]; apply IH; [|intros q' i; apply u; now right].
  destruct (string_dec (par_name x) (par_name q)) as [e|ne].
  - right; rewrite (u x (or_introl eq_refl) e); apply dget_dset_same.
  - destruct h as [[->|i]|e]; [congruence|now left|]; right; rewrite dget_dset_other; [exact e|congruence].
Qed.
Lemma fold_flat keys : forall (d : dict string (par gv)), fold_left (fun d key => fold_left (fun d p => dset string_dec d (par_name p) p) (own_pars key) d) keys d =
  fold_left (fun d p => dset string_dec d (par_name p) p) (flat_map own_pars keys) d.
Proof. induction keys as [|k keys IH]; intros d; [reflexivity|]; cbn [fold_left flat_map]; now rewrite fold_left_app, IH. Qed.

Lemma functions_ok : exists g, gp_functions priorfn basisfn name psrname psr masks = Ok g.
Proof.
  unfold gp_functions; rewrite (rmapM_map _ (fun k => match dget string_dec masks k with Some m => m | None => [] end)); [eexists; reflexivity|].
  intros k i; apply (keys_in masks) in i; destruct (in_dget_Some string_dec masks k i) as [m e]; unfold dgetE; now rewrite e.
Qed.

Definition coefs_of (bl : list blk) : dict string coef :=
  map (fun b => (k_key b, Coef (coef_name (k_key b)) (k_nc b) (map (fun q => (par_name q, q)) (own_pars (k_key b))))) bl.
Lemma slices_get : forall bl o b, NoDup (map k_key bl) -> In b bl -> exists a, dget string_dec (combine (map k_key bl) (intervals o bl)) (k_key b) = Some (a, a + k_nc b).
Proof.
  induction bl as [|c bl IH]; intros o b N i; [destruct i|]; cbn [map intervals combine dget] in *; apply NoDup_cons_iff in N as [n1 n2]; destruct (string_dec (k_key b) (k_key c)) as [e|ne].
  - destruct i as [->|i]; [now exists o|]; elim n1; rewrite <- e; now apply in_map.
  - destruct i as [->|i]; [congruence|]; now apply IH.
Qed.
Lemma rmapM_map2 {A B C} (h : A -> result B) (u : C -> A) (w : C -> B) l : (forall c, In c l -> h (u c) = Ok (w c)) -> rmapM h (map u l) = Ok (map w l).
Proof. induction l as [|c l IH]; intros H; [reflexivity|]; cbn [rmapM map]; rewrite (H c (or_introl eq_refl)); cbn [rbind]; rewrite IH by (intros; apply H; now right); reflexivity. Qed.

Lemma new_sampled bl : varying basisfn -> unambiguous -> blocks_at [] bl ->
  exists g s, new_gp priorfn basisfn true name psrname psr masks = Ok (g, (cempty, s)) /\
    g_keys g = sorted_keys masks /\ Forall2 (fun k m => dget string_dec masks k = Some m) (g_keys g) (g_masks g) /\
    g_prior g = map (fun k => (k, selected priorfn k)) (g_keys g) /\ g_bases g = map (fun k => (k, selected basisfn k)) (g_keys g) /\ g_coefs g = coefs_of bl /\
    g_params g = fold_left (fun d p => dset string_dec d (par_name p) p) (flat_map own_pars (g_keys g)) [] /\
    inv_basis basisfn name psrname psr masks n g s.
Proof.
  intros vb ua H; destruct functions_ok as [g eg]; unfold new_gp; rewrite eg; cbn [rbind].
  destruct (functions_spec priorfn basisfn name psrname psr masks nd g eg) as (gk & gm & gpr & gb & gc & gq); rewrite fold_flat in gq; unfold gp_coefficients.
  destruct (construct_ok basisfn name psrname psr masks n nd vb g gk gm gb [] bl (cempty, unbuilt) (inv_basis_start _ _ _ _ _ _ _) H) as (s & ec & I & es).
  rewrite ec; cbn [rbind]; rewrite es; cbn [result_of b_slices attribute rbind].
  pose proof (blocks_keys_nd basisfn name psrname psr masks n nd [] bl H) as N; pose proof H as (_ & _ & ek & _).
  assert (ek' : g_keys g = map k_key bl) by (rewrite gk; symmetry; exact ek).
  assert (E : rmapM (fun key => rbind (dgetE string_dec (g_prior g) key) (fun pr => rbind (dgetE string_dec (g_bases g) key) (fun ba =>
         rbind (dgetE string_dec (combine (map k_key bl) (intervals 0 bl)) key) (fun slc =>
         rmap (fun args => (key, Coef (append (pname psrname name key) "_coefficients") (snd slc - fst slc) args))
           (rmapM (fun p => rmap (pair (par_name p)) (dgetE string_dec (g_params g) (par_name p))) (pars_of pr ++ pars_of ba))))))
       (g_keys g) = Ok (coefs_of bl)).
  { rewrite ek'; apply rmapM_map2; intros b i; assert (ik : In (k_key b) (g_keys g)) by (rewrite ek'; now apply in_map); unfold dgetE.
    rewrite (prior_get priorfn name psrname psr g gpr _ ik), (base_get basisfn name psrname psr g gb _ ik); cbn [rbind].
    destruct (slices_get bl 0 b N i) as [a e]; rewrite e; cbn [rbind fst snd]; replace (a + k_nc b - a) with (k_nc b) by lia.
    change (pars_of (selected priorfn (k_key b)) ++ pars_of (selected basisfn (k_key b))) with (own_pars (k_key b)).
    rewrite (rmapM_map _ (fun q => (par_name q, q))); [reflexivity|]; intros q iq; replace (dget string_dec (g_params g) (par_name q)) with (Some q); [reflexivity|].
    symmetry; rewrite gq; apply fold_params; [left; apply in_flat_map; now exists (k_key b)|].
    intros q' i' e'; apply in_flat_map in i' as (k' & ik' & i'); rewrite gk in ik, ik'; apply (ua k' (k_key b)); try assumption; now apply keys_in. }
  rewrite E; cbn [rmap]; do 2 eexists; split; [reflexivity|]; cbn [g_keys g_masks g_prior g_bases g_coefs g_params].
  split; [exact gk|]; split; [exact gm|]; split; [exact gpr|]; split; [exact gb|]; split; [reflexivity|]; split; [exact gq|]; exact I.
Qed.
Lemma coefs_get bl b : NoDup (map k_key bl) -> In b bl ->
  dget string_dec (coefs_of bl) (k_key b) = Some (Coef (coef_name (k_key b)) (k_nc b) (map (fun q => (par_name q, q)) (own_pars (k_key b)))).
Proof.
  intros N i; induction bl as [|c bl IH]; [destruct i|]; cbn [coefs_of map dget] in *; apply NoDup_cons_iff in N as [n1 n2]; destruct (string_dec (k_key b) (k_key c)) as [e|ne].
  - destruct i as [->|i]; [reflexivity|]; elim n1; rewrite <- e; now apply in_map.
  - destruct i as [->|i]; [congruence|]; now apply IH.
Qed.

Variable dense : list R -> nat -> list (list R) -> result (option R).
Variables sampled timing : bool.
Lemma gp_history_sec : no_functions priorfn -> varying basisfn -> (sampled = true -> unambiguous /\ exists bl, blocks_at [] bl) ->
  exists g s, new_gp priorfn basisfn sampled name psrname psr masks = Ok (g, s) /\
    forall l rs, Forall2 (correct priorfn basisfn name psrname psr masks n dense sampled timing) l rs -> run dense sampled timing g l s = map Ok rs.
Proof.
  intros np vb hs; destruct sampled eqn:Es.
  - destruct (hs eq_refl) as (ua & bl0 & H0); destruct (new_sampled bl0 vb ua H0) as (g & s & e & gk & gm & gpr & gb & gc & gq & I); exists g, (cempty, s); split; [exact e|].
    assert (wc : with_coefs priorfn basisfn name psrname psr masks g).
    { intros k ik; pose proof H0 as (_ & _ & ek & _); apply (keys_in masks) in ik; unfold sorted_keys in ik; rewrite <- ek in ik; apply in_map_iff in ik as (b & <- & i).
      exists (k_nc b); rewrite gc; apply coefs_get; [exact (blocks_keys_nd basisfn name psrname psr masks n nd [] bl0 H0)|exact i]. }
    assert (I0 : inv_all basisfn name psrname psr masks n g (cempty, s)) by (split; [exact I|]; split; [apply wf_empty|]; intros k v []).
    revert I0; generalize (cempty (num := R) (B := list R), s) as st; intros st I0 l rs F; revert st I0; induction F as [|a r l rs h F IH]; intros st I0; [reflexivity|]; cbn [run map].
    assert (R : exists st', respond dense true timing g st a = (st', Ok r) /\ inv_all basisfn name psrname psr masks n g st').
    { destruct a as [p|p|p|key p]; cbn [correct respond] in h |- *.
      - subst r; now exists st.
      - subst r; now exists st.
      - destruct h as (bl & cs & hb & hc & ->); destruct (delay_ok priorfn basisfn name psrname psr masks n nd vb g gk gm gb wc p bl cs st I0 hb hc) as (st' & e' & I'); exists st'; rewrite e'; now split.
      - destruct h as (_ & ik & c & d & ec & hd & hx).
        assert (X : exists x, r = RLogpdf x /\ if timing then x = Some 0%R else exists l b phi, c = Vec l /\ block_at basisfn name psrname psr masks n p b /\ k_key b = key /\
          gcall (selected priorfn key) [k_lab b] [] p = Ok phi /\ coef_density dense l phi = Ok x /\ exists bl, blocks_at d bl).
        { destruct timing; [exists (Some 0%R); now split|]; destruct hx as (l0 & x & b & phi & h1 & h2 & h3 & h4); exists x; split; [exact h2|]; now exists l0, b, phi. }
        destruct X as (x & -> & X); destruct (logpdf_ok priorfn basisfn name psrname psr masks n nd np vb g gk gm gb gpr wc dense timing key p c d st I0 ik ec hd x X) as (st' & e' & I'); exists st'; rewrite e'; now split. }
    destruct R as (st' & e' & I'); rewrite e'; f_equal; now apply IH.
  - destruct functions_ok as [g eg]; exists g, (cempty, (cempty, unbuilt)); unfold new_gp; rewrite eg; cbn [rbind]; split; [reflexivity|].
    destruct (functions_spec priorfn basisfn name psrname psr masks nd g eg) as (gk & gm & gpr & gb & gc & gq).
    pose proof (inv_basis_start basisfn name psrname psr masks n g) as I0; change (inv_basis basisfn name psrname psr masks n g (snd (cempty (num := R) (B := list R), (cempty (num := R) (B := unit), unbuilt)))) in I0.
    revert I0; generalize (cempty (num := R) (B := list R), (cempty (num := R) (B := unit), unbuilt)) as st; intros st I0 l rs F; revert st I0; induction F as [|a r l rs h F IH]; intros st I0; [reflexivity|]; cbn [run map].
    assert (R : exists st', respond dense false timing g st a = (st', Ok r) /\ inv_basis basisfn name psrname psr masks n g (snd st')).
    { destruct st as [c0 b0]; cbn [snd] in I0; destruct a as [p|p|p|key p]; cbn [correct respond fst snd] in h |- *.
      - destruct h as (bl & hb & ->); destruct (basis_ok basisfn name psrname psr masks n nd vb g gk gm gb p bl b0 I0 hb) as (b' & e' & I'); exists (c0, b'); rewrite e'; now split.
      - destruct h as (bl & phis & hb & -> & hp); destruct (phi_ok priorfn basisfn name psrname psr masks n nd vb g gk gm gb gpr p bl phis b0 I0 hb hp) as (b' & e' & I'); exists (c0, b'); rewrite e'; now split.
      - subst r; now exists (c0, b0).
      - destruct h as [h _]; discriminate. }
    destruct R as (st' & e' & I'); rewrite e'; f_equal; now apply IH.
Qed.
End Program.

(** * Parameters *)
Section Parameters.
Variables (priorfn basisfn : fcl) (name psrname : string) (psr : gv) (masks : dict string mask) (n : nat).
Notation blocks_at := (blocks_at basisfn name psrname psr masks n).
Notation own_pars := (own_pars priorfn basisfn name psrname psr).
Hypothesis nd : NoDup (dkeys masks).
Hypothesis ua : unambiguous priorfn basisfn name psrname psr masks.

Lemma fold_keep : forall (l : list (par gv)) d, NoDup (dkeys d) -> (forall x q, In (x, q) d -> x = par_name q) ->
  let r := fold_left (fun d p => dset string_dec d (par_name p) p) l d in NoDup (dkeys r) /\ (forall x q, In (x, q) r -> x = par_name q /\ (In q l \/ In (x, q) d)).
Proof.
  induction l as [|p l IH]; intros d N H; cbn zeta; cbn [fold_left]; [split; [exact N|]; intros x q i; split; [now apply H|now right]|].
  destruct (IH (dset string_dec d (par_name p) p)) as [h1 h2].
  - now apply dset_NoDup.
  - intros x q i; destruct (dset_In d _ p x q i) as [[-> ->]|j]; [reflexivity|now apply H].
  - split; [exact h1|]; intros x q i; destruct (h2 x q i) as [e [j|j]]; split; try exact e; [left; now right|].
    destruct (dset_In d _ p x q j) as [[_ ->]|k]; [left; now left|now right].
Qed.
(** The hyperparameters are those of all selections, each once; then the vectors of coefficients. *)
Definition hyper (g : gp) : Prop := NoDup (dkeys (g_params g)) /\ forall x q, In (x, q) (g_params g) <-> x = par_name q /\ exists k, In k (dkeys masks) /\ In q (own_pars k).
Lemma hyper_ok g : g_keys g = sorted_keys masks -> g_params g = fold_left (fun d p => dset string_dec d (par_name p) p) (flat_map own_pars (g_keys g)) [] -> hyper g.
Proof.
  intros gk gq; unfold hyper; rewrite gq.
  destruct (fold_keep (flat_map own_pars (g_keys g)) []) as [h1 h2]; [constructor|intros ? ? []|].
  split; [exact h1|]; intros x q; split.
  - intros i; destruct (h2 x q i) as [e [j|[]]]; split; [exact e|]; apply in_flat_map in j as (k & ik & j); exists k; split; [|exact j]; rewrite gk in ik; now apply keys_in.
  - intros [-> (k & ik & j)]; apply (dget_In string_dec); apply fold_params; [left; apply in_flat_map; exists k; split; [rewrite gk; now apply keys_in|exact j]|].
    intros q' i' e'; apply in_flat_map in i' as (k' & ik' & i'); rewrite gk in ik'; apply (ua k' k); try assumption; now apply keys_in.
Qed.
Lemma gp_marginal_parameters : exists g s, new_gp priorfn basisfn false name psrname psr masks = Ok (g, s) /\ hyper g /\ g_coefs g = [].
Proof.
  destruct (functions_ok priorfn basisfn name psrname psr masks) as [g eg]; exists g; unfold new_gp; rewrite eg; cbn [rbind]; eexists; split; [reflexivity|].
  destruct (functions_spec priorfn basisfn name psrname psr masks nd g eg) as (gk & _ & _ & _ & gc & gq); split; [|exact gc]; apply hyper_ok; [exact gk|]; now rewrite fold_flat in gq.
Qed.
Lemma gp_sampled_parameters bl : varying basisfn -> blocks_at [] bl -> exists g s, new_gp priorfn basisfn true name psrname psr masks = Ok (g, s) /\ hyper g /\
  map (fun kc => (fst kc, cf_name (snd kc), cf_size (snd kc))) (g_coefs g) = map (fun b => (k_key b, append (us_name [psrname; name; k_key b]) "_coefficients", k_nc b)) bl.
Proof.
  intros vb H; destruct (new_sampled priorfn basisfn name psrname psr masks n nd bl vb ua H) as (g & s & e & gk & _ & _ & _ & gc & gq & _).
  exists g, (cempty, s); split; [exact e|]; split; [now apply hyper_ok|]; rewrite gc; unfold coefs_of; rewrite map_map; reflexivity.
Qed.
End Parameters.

(** * Names *)
Lemma app_inj_l a : forall b c, append a b = append a c -> b = c.
Proof. induction a as [|x a IH]; cbn; intros b c e; [exact e|]; injection e; auto. Qed.
Lemma app_len a b : String.length (append a b) = String.length a + String.length b.
Proof. induction a as [|x a IH]; cbn; [reflexivity|]; now rewrite IH. Qed.
Lemma app_inj_r b : forall a c, append a b = append c b -> a = c.
Proof.
  induction a as [|x a IH]; intros [|y c] e; cbn in e; try reflexivity.
  - apply (f_equal String.length) in e; cbn in e; rewrite app_len in e; lia.
  - apply (f_equal String.length) in e; cbn in e; rewrite app_len in e; lia.
  - injection e as -> e; f_equal; now apply IH.
Qed.
Lemma us3 a b c : us_name [a; b; c] =
  let ab := if String.eqb a "" then b else if String.eqb b "" then a else append a (append "_" b) in
  if String.eqb c "" then ab else if String.eqb ab "" then c else append ab (append "_" c).
Proof.
  unfold us_name; cbn [filter]; destruct (String.eqb_spec a "") as [->|na], (String.eqb_spec b "") as [->|nb], (String.eqb_spec c "") as [->|nc]; cbn [negb join_us String.eqb]; try reflexivity;
    destruct a as [|x a]; try congruence; try (destruct b as [|y b]; try congruence; reflexivity); try reflexivity.
  cbn [append String.eqb]; f_equal; clear; induction a as [|y a IH]; cbn; [reflexivity|]; now rewrite IH.
Qed.
Lemma us3_last a b c c' : us_name [a; b; c] = us_name [a; b; c'] -> c = c'.
Proof.
  rewrite !us3; cbn zeta; generalize (if String.eqb a "" then b else if String.eqb b "" then a else append a (append "_" b)); intros ab e.
  destruct (String.eqb_spec c "") as [ec|nc], (String.eqb_spec c' "") as [ec'|nc']; destruct (String.eqb_spec ab "") as [eab|nab]; try congruence.
  - apply (f_equal String.length) in e; rewrite app_len in e; cbn in e; lia.
  - apply (f_equal String.length) in e; rewrite app_len in e; cbn in e; lia.
  - apply app_inj_l, app_inj_l in e; exact e.
Qed.
Lemma us3_first a a' b c : us_name [a; b; c] = us_name [a'; b; c] -> a = a'.
Proof.
  assert (A : forall a, us_name [a; b; c] = let bc := us_name [b; c] in if String.eqb a "" then bc else if String.eqb bc "" then a else append a (append "_" bc)).
  { clear; intros a; unfold us_name; cbn [filter]; destruct (String.eqb_spec a "") as [->|na], (String.eqb_spec b "") as [->|nb], (String.eqb_spec c "") as [->|nc]; cbn [negb join_us String.eqb]; try reflexivity.
    - now rewrite (proj2 (String.eqb_neq c "") nc).
    - now rewrite (proj2 (String.eqb_neq b "") nb).
    - destruct b; [congruence|reflexivity]. }
  rewrite !A; cbn zeta; set (bc := us_name [b; c]); clearbody bc; intros e.
  destruct (String.eqb_spec a "") as [ea|na], (String.eqb_spec a' "") as [ea'|na']; destruct (String.eqb_spec bc "") as [eb|nbc]; try congruence.
  - apply (f_equal String.length) in e; rewrite !app_len in e; destruct a'; [congruence|cbn in e; lia].
  - apply (f_equal String.length) in e; rewrite !app_len in e; destruct a; [congruence|cbn in e; lia].
  - now apply app_inj_r in e.
Qed.

Lemma step_names N N' fname psr : N <> N' -> forall kws (st st' : list (string * par gv) * list (string * gv) * list (string * fobj gv)),
  Forall (fun ka : string * arg gv => match snd ka with AFunC _ | AFun _ => False | _ => True end) kws ->
  let R (d d' : list (string * par gv)) := forall kw q q', dget string_dec d kw = Some q -> dget string_dec d' kw = Some q' -> par_name q <> par_name q' \/ q = q' in
  R (fst (fst st)) (fst (fst st')) -> R (fst (fst (fold_left (kw_step N fname psr) kws st))) (fst (fst (fold_left (kw_step N' fname psr) kws st'))).
Proof.
  intros ne; induction kws as [|[k a] kws IH]; intros st st' H R h; [exact h|]; apply Forall_cons_iff in H as [h1 h2]; cbn [fold_left]; apply IH; [exact h2|].
  assert (D : forall d d' p p', R d d' -> (par_name p <> par_name p' \/ p = p') -> R (dset string_dec d k p) (dset string_dec d' k p')).
  { intros d d' p p' r o kw q q'; destruct (string_dec kw k) as [->|nk]; [rewrite !dget_dset_same; intros e e'; injection e as <-; injection e' as <-; exact o|].
    rewrite !dget_dset_other by congruence; apply r. }
  destruct st as [[ps defs] fns], st' as [[ps' defs'] fns']; cbn [fst snd] in h, h1; destruct a; try contradiction; cbn [kw_step fst snd]; try (apply D; [exact h|]); try exact h; [left|left|now right];
    cbn [par_name]; intros e; now apply us3_first in e.
Qed.
Lemma selection_names_lem : forall (c : fcl) name psrname psr k k', no_functions c -> k <> k' ->
  (forall kw q q', dget string_dec (fo_params (selected name psrname psr c k)) kw = Some q -> dget string_dec (fo_params (selected name psrname psr c k')) kw = Some q' -> par_name q <> par_name q' \/ q = q') /\
  coef_name name psrname k <> coef_name name psrname k'.
Proof.
  intros [f fname kws] name psrname psr k k' nf ne; assert (N : us_name [psrname; name; k] <> us_name [psrname; name; k']) by (intros e; now apply us3_last in e).
  split; [|intros e; unfold coef_name in e; now apply app_inj_r in e].
  unfold selected; rewrite !inst_step; cbn [fo_params]; apply (step_names _ _ fname (Some psr) N kws ([], [], []) ([], [], []) nf); intros ? ? ? e; discriminate.
Qed.

(** * Common processes *)
Section Common.
Variables (basisfn : fcl) (prior orf : fob) (given : option string) (name psrname : string) (psr : gv).
Definition c_pname : string := join_us [psrname; name].
Definition c_name : string := match given with Some x => x | None => append c_pname "_coefficients" end.
Definition right_delay (p : gparams) (v : list R) : Prop :=
  flat_values p /\ exists nc rows lab c, gcall (inst basisfn c_pname (Some psr)) [] [] p = Ok (GPair (GMat nc rows) lab) /\ Forall (fun r => length r = nc) rows /\
  dget string_dec p c_name = Some (Vec c) /\ length c = nc /\ v = map (fun row => dot row c) rows.
Notation cg := (new_cgp basisfn prior orf given name psrname psr).
Hypothesis vb : varying basisfn.
Hypothesis named : substring_of "_coefficients" c_name = true.
Notation bas p := (rbind (gcall (inst basisfn c_pname (Some psr)) [] [] p) unpack).

Lemma c_values p p' (names : list string) k : incl (c_basis_params cg) names -> cache_key R names p = Ok k -> cache_key R names p' = Ok k ->
  gcall (inst basisfn c_pname (Some psr)) [] [] p = gcall (inst basisfn c_pname (Some psr)) [] [] p'.
Proof.
  intros inc e e'; apply gcall_ext; [now apply varying_plain|]; intros q iq; unfold value_of; rewrite (cache_key_inj _ p p' k e e' (par_name q)); [reflexivity|]; apply inc.
  unfold c_basis_params; apply in_map_iff; exists q; split; [reflexivity|]; pose proof (varying_par basisfn _ _ vb q iq) as nc.
  cbn [c_basis new_cgp]; unfold fo_pars; unfold pars_of, dvals in iq; apply in_map_iff in iq as (ka & e0 & i); apply in_flat_map; exists ka; split; [exact i|]; rewrite e0, nc.
  destruct q as [x pr|x v]; [|discriminate]; cbn [par_pars]; destruct pr; now left.
Qed.
Definition c_inv (s : cstateC) : Prop := wf_cache 1 (fst s) /\ forall k v, In (k, v) (cmap (fst s)) -> exists p x, cache_key R (c_basis_params cg) p = Ok k /\ bas p = Ok x /\ snd s = Some x.
Lemma c_construct_ok p x s : flat_values p -> c_inv s -> bas p = Ok x -> exists s', c_construct cg p s = (s', Ok tt) /\ c_inv s' /\ snd s' = Some x.
Proof.
  destruct s as [c b]; intros fl [w H] hb; cbn [fst snd] in *; destruct (cache_key_total (c_basis_params cg) p fl) as [k ek].
  assert (ef : c_build cg p b = (Some x, Ok tt)) by (unfold c_build; cbn [c_basis new_cgp]; fold c_pname; now rewrite hb).
  destruct (cache_ok (c_basis_params cg) 1 (c_build cg) c b p k tt (Some x) w (le_n 1) ek ef) as [(v & i & e)|(c' & e & w' & h1 & h2)].
  - destruct (H _ _ i) as (p0 & x0 & e0 & hb0 & es); exists (c, b); split; [unfold c_construct; rewrite e; now destruct v|]; split; [now split|]; cbn [snd].
    rewrite es; f_equal; rewrite (c_values p0 p _ k (incl_refl _) e0 ek), hb in hb0; congruence.
  - exists (c', Some x); split; [exact e|]; split; [|reflexivity]; split; [exact w'|]; cbn [fst snd]; intros k' v' i.
    assert (k' = k).
    { destruct w' as (w1 & _ & w3); destruct c' as [m l]; cbn [cmap clist] in *; subst l; rewrite map_length in w3; destruct m as [|y [|z m]]; cbn in w3; [destruct h2| |lia].
      destruct h2 as [h2|[]], i as [i|[]]; congruence. }
    subst k'; exists p, x; auto.
Qed.
Definition c_dnames := c_basis_params cg ++ c_delay_params cg.
Lemma c_name_in : In c_name c_dnames.
Proof.
  apply in_or_app; right; unfold c_delay_params; apply filter_In; split; [|exact named]; cbn [c_names new_cgp]; apply in_or_app; right; now left.
Qed.
Lemma c_body_ok p v s : right_delay p v -> c_inv s -> exists s', c_delay_body cg p s = (s', Ok v) /\ c_inv s'.
Proof.
  intros (fl & nc & rows & lab & c & e & F & ec & lc & ->) I; destruct (c_construct_ok p (GMat nc rows, lab) s fl I) as (s' & e' & I' & es); [now rewrite e|].
  exists s'; split; [|exact I']; unfold c_delay_body; rewrite e'; cbn [rbind]; rewrite es; cbn [attribute rbind fst as_mat].
  replace (forallb _ rows) with true; [|symmetry; apply forallb_forall; intros r i; apply Nat.eqb_eq; revert r i; now apply Forall_forall].
  cbn [rbind fst snd]; change (c_coef cg) with c_name; rewrite ec, lc, Nat.eqb_refl; reflexivity.
Qed.
Lemma c_delay_eq p p' k v v' : cache_key R c_dnames p = Ok k -> cache_key R c_dnames p' = Ok k -> right_delay p v -> right_delay p' v' -> v = v'.
Proof.
  intros e e' (_ & nc & rows & lab & c & h1 & _ & h2 & _ & ->) (_ & nc' & rows' & lab' & c' & h1' & _ & h2' & _ & ->).
  rewrite (c_values p p' c_dnames k (incl_appl _ (incl_refl _)) e e'), h1' in h1; rewrite (cache_key_inj _ p p' k e e' c_name c_name_in), h2' in h2.
  injection h1 as -> -> ->; injection h2 as ->; reflexivity.
Qed.
Definition c_inv2 (s : cstate (num := R) (list R) * cstateC) : Prop :=
  c_inv (snd s) /\ wf_cache 2 (fst s) /\ forall k v, In (k, v) (cmap (fst s)) -> exists p, cache_key R c_dnames p = Ok k /\ right_delay p v.
Lemma c_delay_ok p v s : right_delay p v -> c_inv2 s -> exists s', c_get_delay cg p s = (s', Ok v) /\ c_inv2 s'.
Proof.
  destruct s as [c b]; intros hv (I & w & H); cbn [fst snd] in *; destruct (cache_key_total c_dnames p (proj1 hv)) as [k ek]; destruct (c_body_ok p v b hv I) as (b' & ef & I').
  destruct (cache_ok c_dnames 2 (c_delay_body cg) c b p k v b' w (le_S _ _ (le_n 1)) ek ef) as [(v0 & i & e)|(c' & e & w' & h1 & h2)].
  - destruct (H _ _ i) as (p0 & e0 & hv0); rewrite (c_delay_eq p0 p k v0 v e0 ek hv0 hv) in e; exists (c, b); split; [exact e|]; now split.
  - exists (c', b'); split; [exact e|]; split; [exact I'|]; split; [exact w'|]; cbn [fst]; intros k' v' i; destruct (h1 k' v' i) as [j|[-> ->]]; [exact (H _ _ j)|]; now exists p.
Qed.
Lemma common_history s : c_start cg = Ok s -> forall l rs, Forall2 right_delay l rs -> c_run cg l s = map Ok rs.
Proof.
  intros es; assert (I : c_inv2 s).
  { unfold c_start in es; assert (f0 : flat_values []) by (intros x l e; discriminate).
    assert (i0 : c_inv (cempty, None)) by (split; [apply wf_empty|]; intros k v []).
    destruct (bas []) as [x|e] eqn:E.
    - destruct (c_construct_ok [] x (cempty, None) f0 i0 E) as (s' & e' & I' & _); rewrite e' in es; cbn [rmap] in es; injection es as <-; split; [exact I'|]; split; [apply wf_empty|]; intros k v [].
    - exfalso; destruct (cache_key_total (c_basis_params cg) [] f0) as [k ek]; unfold c_construct, cache_call in es; rewrite ek in es; cbn [cmap cempty dmem] in es; unfold c_build in es; cbn [c_basis new_cgp] in es; fold c_pname in es; rewrite E in es; discriminate. }
  intros l rs F; revert s es I; intros s _; revert s; induction F as [|p v l rs h F IH]; intros s I; [reflexivity|]; cbn [c_run map].
  destruct (c_delay_ok p v s h I) as (s' & e & I'); rewrite e; f_equal; now apply IH.
Qed.
End Common.

(** * Witnesses *)
(** A basis with one column, the TOAs times [x] (one by default), labelled with [x]; a prior
    that is the label; a density that is not used. *)
Definition w_density : fcl := FC (PyFun ["value"] [] (fun _ => Err ValueError)) "" [].
Definition w_density2 : fcl := FC (PyFun ["value"; "a"] [] (fun _ => Err ValueError)) "" [].
Definition w_basis_f : pyfun gv := PyFun ["toas"; "x"] [GV (Sc 1%R)]
  (fun l => match l with [GV (Vec ts); GV (Sc x)] => Ok (GPair (GMat 1 (map (fun t => [(t * x)%R]) ts)) (GV (Vec [x]))) | _ => Err ValueError end).
Definition w_prior_f : pyfun gv := PyFun ["f"] [] (fun l => match l with [v] => Ok v | _ => Err TypeError end).
Definition w_prior : fcl := FC w_prior_f "" [].
Definition w_basis : fcl := FC w_basis_f "" [("x", AParC w_density)].
Definition w_psr : gv := GPsr [("toas", GV (Vec [3%R; 5%R]))].
Definition w_masks : dict string mask := [("b", [false; true]); ("a", [true; false])].
Definition w_blocks (x y : R) : list blk := [Blk "a" [true; false] 1 [[(3 * x)%R]] (GV (Vec [x])); Blk "b" [false; true] 1 [[(5 * y)%R]] (GV (Vec [y]))].

Lemma w_call_a p : gcall (selected "gp" "psr" w_psr w_basis "a") [] [("mask", GMask [true; false])] p =
  match dget string_dec p "psr_gp_a_x" with None => Ok (GPair (GMat 1 [[(3 * 1)%R]]) (GV (Vec [1%R]))) | Some (Sc x) => Ok (GPair (GMat 1 [[(3 * x)%R]]) (GV (Vec [x]))) | Some _ => Err ValueError end.
Proof.
  unfold gcall, selected; cbn; rewrite dget_lift; destruct (dget string_dec p "psr_gp_a_x") as [[x|l|l]|]; reflexivity.
Qed.
Lemma w_call_b p : gcall (selected "gp" "psr" w_psr w_basis "b") [] [("mask", GMask [false; true])] p =
  match dget string_dec p "psr_gp_b_x" with None => Ok (GPair (GMat 1 [[(5 * 1)%R]]) (GV (Vec [1%R]))) | Some (Sc x) => Ok (GPair (GMat 1 [[(5 * x)%R]]) (GV (Vec [x]))) | Some _ => Err ValueError end.
Proof.
  unfold gcall, selected; cbn; rewrite dget_lift; destruct (dget string_dec p "psr_gp_b_x") as [[x|l|l]|]; reflexivity.
Qed.
Lemma w_prior_call p key lab : gcall (selected "gp" "psr" w_psr w_prior key) [lab] [] p = Ok lab.
Proof. reflexivity. Qed.
Definition w_value (p : gparams) (n : string) : R := match dget string_dec p n with Some (Sc x) => x | _ => 1%R end.
Definition w_scalar (p : gparams) (n : string) : Prop := match dget string_dec p n with Some (Vec _) | Some (Nd _) => False | _ => True end.
Lemma w_blocks_at p : flat_values p -> w_scalar p "psr_gp_a_x" -> w_scalar p "psr_gp_b_x" ->
  blocks_at w_basis "gp" "psr" w_psr w_masks 2 p (w_blocks (w_value p "psr_gp_a_x") (w_value p "psr_gp_b_x")).
Proof.
  intros fl sa sb; split; [exact fl|]; split; [discriminate|]; split; [reflexivity|]; intros b [<-|[<-|[]]]; split; try reflexivity; split; try reflexivity; cbn [k_key k_mask k_nc k_rows k_lab]; (split; [|split; [reflexivity|now repeat constructor]]).
  - rewrite w_call_a; unfold w_scalar, w_value in *; destruct (dget string_dec p "psr_gp_a_x") as [[x|l|l]|]; easy.
  - rewrite w_call_b; unfold w_scalar, w_value in *; destruct (dget string_dec p "psr_gp_b_x") as [[x|l|l]|]; easy.
Qed.
Lemma w_unambiguous : unambiguous w_prior w_basis "gp" "psr" w_psr w_masks.
Proof.
  intros k k' q q' [<-|[<-|[]]] [<-|[<-|[]]] i i' e; cbn in i, i'; destruct i as [<-|[]], i' as [<-|[]]; cbn in e |- *; congruence.
Qed.
Lemma w_varying : varying w_basis.
Proof. repeat constructor. Qed.
Lemma w_plain : no_functions w_prior.
Proof. constructor. Qed.

(** After a basis function has failed *)
Definition w_fail : gparams := [("psr_gp_b_x", Vec [])].
Definition w_none : list R -> nat -> list (list R) -> result (option R) := fun _ _ _ => Err ValueError.
Lemma w_flat p : (forall x l, ~ In (x, Nd l) p) -> flat_values p.
Proof. intros H x l e; apply dget_In in e; exact (H x l e). Qed.
Lemma after_error_refuted_lem : exists priorfn basisfn name psrname psr masks n p p' r g s,
  NoDup (dkeys masks) /\ no_functions priorfn /\ varying basisfn /\ new_gp priorfn basisfn false name psrname psr masks = Ok (g, s) /\
  correct priorfn basisfn name psrname psr masks n w_none false false (APhi p) r /\
  run w_none false false g [APhi p; APhi p'; APhi p] s = [Ok r; Err ValueError; Err KeyError].
Proof.
  exists w_prior, w_basis, "gp", "psr", w_psr, w_masks, 2, [], w_fail, (RPhi [((0, 1), GV (Vec [1%R])); ((1, 2), GV (Vec [1%R]))]); do 2 eexists.
  split; [repeat constructor; cbn; intuition discriminate|]; split; [exact w_plain|]; split; [exact w_varying|]; split; [reflexivity|]; split; [|reflexivity].
  cbn [correct]; exists (w_blocks 1 1), [GV (Vec [1%R]); GV (Vec [1%R])]; split; [|split; [reflexivity|repeat constructor]].
  apply (w_blocks_at []); [apply w_flat; intros x l []|exact I|exact I].
Qed.
(** The density of coefficients is then that of other parameters. *)
Definition w_fail2 : gparams := [("psr_gp_a_x", Sc (exp 2)); ("psr_gp_b_x", Vec [])].
Definition w_coef : gparams := [("psr_gp_a_coefficients", Vec [0%R])].
Lemma w_dens y : (0 < y)%R -> coef_density w_none [0%R] (GV (Vec [y])) = Ok (Some (- / 2 * ln y - / 2 * ln (2 * PI))%R).
Proof.
  intros py; unfold coef_density, broadcast; cbn [length Nat.eqb existsb rbind fst snd]; destruct (Rlt_dec 0 y) as [_|c]; [|lra]; cbn [orb map2 map rsum fold_right INR]; do 2 f_equal; field; lra.
Qed.
Lemma after_error_density_refuted_lem : exists priorfn basisfn name psrname psr masks n key p p' r r' g s,
  NoDup (dkeys masks) /\ no_functions priorfn /\ varying basisfn /\ new_gp priorfn basisfn true name psrname psr masks = Ok (g, s) /\
  correct priorfn basisfn name psrname psr masks n w_none true false (ALogpdf key p) r /\
  run w_none true false g [ALogpdf key p; ADelay p'; ALogpdf key p] s = [Ok r; Err ValueError; Ok r'] /\ r <> r'.
Proof.
  exists w_prior, w_basis, "gp", "psr", w_psr, w_masks, 2, "a", w_coef, w_fail2, (RLogpdf (Some (- / 2 * ln 1 - / 2 * ln (2 * PI))%R)), (RLogpdf (Some (- / 2 * ln (exp 2) - / 2 * ln (2 * PI))%R)); do 2 eexists.
  split; [repeat constructor; cbn; intuition discriminate|]; split; [exact w_plain|]; split; [exact w_varying|]; split; [reflexivity|]; split; [|split].
  - cbn [correct]; split; [reflexivity|]; split; [right; now left|]; exists (Vec [0%R]), []; split; [reflexivity|]; split; [split; [intros q [<-|[]]; reflexivity|reflexivity]|].
    exists [0%R], (Some (- / 2 * ln 1 - / 2 * ln (2 * PI))%R), (Blk "a" [true; false] 1 [[(3 * 1)%R]] (GV (Vec [1%R]))), (GV (Vec [1%R])).
    split; [reflexivity|]; split; [reflexivity|]; split; [|split; [reflexivity|]].
    + apply (w_blocks_at w_coef); [apply w_flat; intros x l [e|[]]; discriminate|exact I|exact I|now left].
    + split; [reflexivity|]; split; [apply w_dens; lra|]; exists (w_blocks 1 1); apply (w_blocks_at []); [apply w_flat; intros x l []|exact I|exact I].
  - transitivity [rmap RLogpdf (coef_density w_none [0%R] (GV (Vec [1%R]))); Err ValueError; rmap RLogpdf (coef_density w_none [0%R] (GV (Vec [exp 2])))]; [reflexivity|].
    rewrite !w_dens; [reflexivity|apply exp_pos|lra].
  - intros e; injection e; rewrite ln_exp, ln_1; lra.
Qed.

(** Constants of a basis *)
Definition w_const : fcl := FC w_basis_f "" [("x", ACstC (fun _ => GV (Sc 2%R)))].
Lemma constant_basis_refuted_lem : exists priorfn basisfn name psrname psr masks p r r' g s,
  NoDup (dkeys masks) /\ no_functions priorfn /\ no_functions basisfn /\ new_gp priorfn basisfn false name psrname psr masks = Ok (g, s) /\
  run w_none false false g [ABasis []; ABasis p] s = [Ok r; Ok r] /\ run w_none false false g [ABasis p] s = [Ok r'] /\ r <> r'.
Proof.
  exists w_prior, w_const, "gp", "psr", w_psr, [("", [true; true])], [("psr_gp_x", Sc 7%R)], (RBasis 1 [[(3 * 2)%R]; [(5 * 2)%R]]), (RBasis 1 [[(3 * 7)%R]; [(5 * 7)%R]]); do 2 eexists.
  split; [repeat constructor; cbn; intuition discriminate|]; split; [exact w_plain|]; split; [repeat constructor|]; split; [reflexivity|]; split; [reflexivity|]; split; [reflexivity|].
  intros e; injection e; lra.
Qed.

(** Parameters that are lost *)
Definition w_two : fcl := FC (PyFun ["f"; "b_c"; "c"] [GV (Sc 1%R); GV (Sc 1%R)] (fun l => match l with v :: _ => Ok v | _ => Err TypeError end)) "" [("b_c", AParC w_density); ("c", AParC w_density2)].
Lemma selection_keyword_refuted_lem : exists priorfn basisfn name psrname psr masks k k' kw kw' q q' g s,
  NoDup (dkeys masks) /\ no_functions priorfn /\ varying basisfn /\ new_gp priorfn basisfn false name psrname psr masks = Ok (g, s) /\
  In k (dkeys masks) /\ In k' (dkeys masks) /\ k <> k' /\ kw <> kw' /\ In (kw, q) (fo_params (selected name psrname psr priorfn k)) /\ In (kw', q') (fo_params (selected name psrname psr priorfn k')) /\
  par_name q = par_name q' /\ In q' (dvals (g_params g)) /\ ~ In q (dvals (g_params g)).
Proof.
  exists w_two, w_basis, "gp", "psr", w_psr, [("a", [true; false]); ("a_b", [false; true])], "a", "a_b", "b_c", "c"; do 4 eexists.
  split; [repeat constructor; cbn; intuition discriminate|]; split; [repeat constructor|]; split; [exact w_varying|]; split; [reflexivity|]; split; [now left|]; split; [right; now left|]; split; [discriminate|]; split; [discriminate|].
  split; [left; reflexivity|]; split; [right; left; reflexivity|]; split; [reflexivity|]; split; [cbn; tauto|].
  cbn; intros H; repeat (destruct H as [H|H]; [discriminate|]); exact H.
Qed.
Definition w_shared : fcl := FC (PyFun ["f"; "x"] [GV (Sc 1%R)] (fun l => match l with v :: _ => Ok v | _ => Err TypeError end)) "" [("x", AParC w_density2)].
Lemma shared_keyword_refuted_lem : exists priorfn basisfn name psrname psr masks kw q q' g s,
  NoDup (dkeys masks) /\ no_functions priorfn /\ varying basisfn /\ new_gp priorfn basisfn false name psrname psr masks = Ok (g, s) /\
  In (kw, q) (fo_params (selected name psrname psr priorfn "")) /\ In (kw, q') (fo_params (selected name psrname psr basisfn "")) /\
  dvals (g_params g) = [q'] /\ q <> q'.
Proof.
  exists w_shared, w_basis, "gp", "psr", w_psr, [("", [true; true])], "x"; do 4 eexists.
  split; [repeat constructor; cbn; intuition discriminate|]; split; [repeat constructor|]; split; [exact w_varying|]; split; [reflexivity|]; split; [left; reflexivity|]; split; [left; reflexivity|]; split; [reflexivity|].
  discriminate.
Qed.

(** Given coefficients *)
Lemma common_given_refuted_lem : exists basisfn prior orf given name psrname psr p p' v v' s,
  let c := new_cgp basisfn prior orf (Some given) name psrname psr in
  varying basisfn /\ c_start c = Ok s /\ right_delay basisfn (Some given) name psrname psr p v /\ right_delay basisfn (Some given) name psrname psr p' v' /\
  c_run c [p; p'] s = [Ok v; Ok v] /\ v <> v'.
Proof.
  exists w_basis, (inst w_prior "gw" None), (inst w_prior "gw" None), "gw_c", "gw", "psr", w_psr, [("gw_c", Vec [1%R])], [("gw_c", Vec [2%R])]; do 3 eexists; cbv zeta.
  split; [exact w_varying|]; split; [reflexivity|].
  assert (D : forall y, right_delay w_basis (Some "gw_c") "gw" "psr" w_psr [("gw_c", Vec [y])] (map (fun row => dot row [y]) [[(3 * 1)%R]; [(5 * 1)%R]])).
  { intros y; split; [apply w_flat; intros x l [e|[]]; discriminate|]; exists 1, [[(3 * 1)%R]; [(5 * 1)%R]], (GV (Vec [1%R])), [y]; split; [reflexivity|]; split; [repeat constructor|]; split; [reflexivity|]; split; reflexivity. }
  split; [apply D|]; split; [apply D|]; split; [reflexivity|]; cbn; intros e; injection e; lra.
Qed.

(** * Statements *)
Lemma gp_history_lem :
  forall priorfn basisfn name psrname psr masks n dense sampled timing, NoDup (dkeys masks) -> no_functions priorfn -> varying basisfn ->
  (sampled = true -> unambiguous priorfn basisfn name psrname psr masks /\ exists bl, blocks_at basisfn name psrname psr masks n [] bl) ->
  exists g s, new_gp priorfn basisfn sampled name psrname psr masks = Ok (g, s) /\
    forall l rs, Forall2 (correct priorfn basisfn name psrname psr masks n dense sampled timing) l rs -> run dense sampled timing g l s = map Ok rs.
Proof. intros priorfn basisfn name psrname psr masks n dense sampled timing nd; exact (gp_history_sec priorfn basisfn name psrname psr masks n nd dense sampled timing). Qed.
Lemma marginal_parameters_lem :
  forall priorfn basisfn name psrname psr masks, NoDup (dkeys masks) -> unambiguous priorfn basisfn name psrname psr masks ->
  exists g s, new_gp priorfn basisfn false name psrname psr masks = Ok (g, s) /\ NoDup (dkeys (g_params g)) /\
    (forall x q, In (x, q) (g_params g) <-> x = par_name q /\ exists k, In k (dkeys masks) /\ In q (own_pars priorfn basisfn name psrname psr k)) /\ g_coefs g = [].
Proof.
  intros priorfn basisfn name psrname psr masks nd ua; destruct (gp_marginal_parameters priorfn basisfn name psrname psr masks nd ua) as (g & s & e & [h1 h2] & h3); exists g, s; exact (conj e (conj h1 (conj h2 h3))).
Qed.
Lemma sampled_parameters_lem :
  forall priorfn basisfn name psrname psr masks n bl, NoDup (dkeys masks) -> unambiguous priorfn basisfn name psrname psr masks ->
  varying basisfn -> blocks_at basisfn name psrname psr masks n [] bl ->
  exists g s, new_gp priorfn basisfn true name psrname psr masks = Ok (g, s) /\ NoDup (dkeys (g_params g)) /\
    (forall x q, In (x, q) (g_params g) <-> x = par_name q /\ exists k, In k (dkeys masks) /\ In q (own_pars priorfn basisfn name psrname psr k)) /\
    map (fun kc => (fst kc, cf_name (snd kc), cf_size (snd kc))) (g_coefs g) = map (fun b => (k_key b, append (us_name [psrname; name; k_key b]) "_coefficients", k_nc b)) bl.
Proof.
  intros priorfn basisfn name psrname psr masks n bl nd ua vb H; destruct (gp_sampled_parameters priorfn basisfn name psrname psr masks n nd ua bl vb H) as (g & s & e & [h1 h2] & h3); exists g, s; exact (conj e (conj h1 (conj h2 h3))).
Qed.
Lemma common_delays_lem :
  forall basisfn prior orf given name psrname psr s, varying basisfn ->
  (forall x, given = Some x -> substring_of "_coefficients" x = true) ->
  c_start (new_cgp basisfn prior orf given name psrname psr) = Ok s ->
  forall l rs, Forall2 (right_delay basisfn given name psrname psr) l rs ->
  c_run (new_cgp basisfn prior orf given name psrname psr) l s = map Ok rs.
Proof.
  intros basisfn prior orf given name psrname psr s vb H e; apply common_history; [exact vb| |exact e]; unfold c_name; destruct given as [x|]; [now apply H|apply substring_suffix].
Qed.

(** * The density of sampled coefficients *)
Definition normal_pdf (x v : R) : R := (exp (- (x * x) / (2 * v)) / sqrt (2 * PI * v))%R.
Lemma normal_pos x v : (0 < v)%R -> (0 < normal_pdf x v)%R.
Proof. intros pv; assert (p := PI_RGT_0); unfold normal_pdf; apply Rdiv_lt_0_compat; [apply exp_pos|]; apply sqrt_lt_R0; apply Rmult_lt_0_compat; lra. Qed.
Lemma normal_ln x v : (0 < v)%R -> ln (normal_pdf x v) = (- / 2 * (x * x / v) - / 2 * ln v - / 2 * ln (2 * PI))%R.
Proof.
  intros pv; assert (p := PI_RGT_0); assert (q : (0 < 2 * PI * v)%R) by (apply Rmult_lt_0_compat; lra); assert (sq := sqrt_lt_R0 _ q).
  unfold normal_pdf, Rdiv; rewrite ln_mult; [|apply exp_pos|now apply Rinv_0_lt_compat]; rewrite ln_exp, ln_Rinv by exact sq.
  assert (h : ln (2 * PI * v) = (2 * ln (sqrt (2 * PI * v)))%R).
  { rewrite <- (sqrt_sqrt (2 * PI * v)) at 1 by lra; rewrite ln_mult by exact sq; ring. }
  rewrite ln_mult in h by lra; replace (ln (sqrt (2 * PI * v))) with ((ln (2 * PI) + ln v) / 2)%R by lra; field; lra.
Qed.
Lemma positive_dec l : Forall (fun v => 0 < v)%R l <-> existsb (fun x => if Rlt_dec 0 x then false else true) l = false.
Proof.
  induction l as [|x l IH]; [split; [reflexivity|constructor]|]; cbn [existsb]; split; [intros h; inversion h; subst|intros h; apply orb_false_iff in h as [h1 h2]; constructor; [|now apply IH]].
  - apply orb_false_iff; split; [destruct (Rlt_dec 0 x); [reflexivity|contradiction]|now apply IH].
  - now destruct (Rlt_dec 0 x).
Qed.
Lemma coefficient_density_lem : forall dense c l,
  (length c = length l -> Forall (fun v => 0 < v)%R l ->
     coef_density dense c (GV (Vec l)) = Ok (Some (ln (fold_right Rmult 1 (map2 normal_pdf c l))))%R) /\
  (length c = length l -> ~ Forall (fun v => 0 < v)%R l -> coef_density dense c (GV (Vec l)) = Ok None) /\
  (length c <> length l -> length c <> 1 -> length l <> 1 -> coef_density dense c (GV (Vec l)) = Err ValueError).
Proof.
  intros dense c l; unfold coef_density, broadcast; split; [|split].
  - intros e pl; rewrite e, Nat.eqb_refl; cbn [rbind fst snd]; rewrite (proj1 (positive_dec l) pl); do 2 f_equal.
    revert c e; induction pl as [|v l pv pl IH]; intros [|x c] e; try discriminate; [cbn; rewrite ln_1; ring|].
    injection e as e; cbn [map2 map rsum fold_right length]; rewrite (ln_mult (normal_pdf x v)); [|now apply normal_pos|].
    2:{ clear - pl; revert c; induction pl as [|v l pv pl IH]; intros [|x c]; cbn; try lra; apply Rmult_lt_0_compat; [now apply normal_pos|apply IH]. }
    rewrite <- (IH c e), normal_ln, S_INR by exact pv; unfold rsum; ring.
  - intros e np; rewrite e, Nat.eqb_refl; cbn [rbind]; destruct (existsb _ l) eqn:h; [reflexivity|]; now destruct np; apply positive_dec.
  - intros ne nc nl; apply Nat.eqb_neq in ne; rewrite ne; destruct c as [|x [|x' c]], l as [|y [|y' l]]; cbn in *; try lia; try discriminate; reflexivity.
Qed.
Lemma broadcast_density_refuted_lem : exists c l x, length c <> length l /\ coef_density (fun _ _ _ => Err ValueError) c (GV (Vec l)) = Ok (Some x) /\
  x <> ln (fold_right Rmult 1 (map (fun y => normal_pdf y (hd 1 l)) c))%R.
Proof.
  exists [0; 0]%R, [1]%R; eexists; split; [discriminate|]; unfold coef_density, broadcast; cbn [length Nat.eqb rbind fst snd existsb repeat].
  destruct (Rlt_dec 0 1) as [_|c]; [|lra]; cbn [orb map2 map rsum fold_right hd INR]; split; [reflexivity|].
  assert (p := normal_pos 0 1 Rlt_0_1); rewrite (ln_mult (normal_pdf 0 1)), (ln_mult (normal_pdf 0 1) 1), !ln_1, normal_ln, ln_1; try lra.
  assert (0 < ln (2 * PI))%R by (rewrite <- ln_1; apply ln_increasing; [lra|]; assert (q := PI_RGT_0); assert (q' := PI2_1); lra).
  intros h; field_simplify in h; lra.
Qed.
