(** What the signals of ModelSized.v return, as lists. *)
From Coq Require Import String Bool Arith List Reals Lia Lra Permutation Sorted.
From Verif Require Import PyBase ProofBase ModelSelect ModelFunc ModelCache ProofCache ProofQuant ModelGp ProofGp ModelColl ProofColl ModelSigs ProofSigs.
Import ListNotations.
Open Scope nat_scope.
Open Scope string_scope.
Open Scope list_scope.

(** * Specification *)
(** A number or an array for all TOAs *)
Definition spread (v : gv) (n : nat) (f : nat -> R) : Prop :=
  match v with
  | GV (Sc x) => forall i, i < n -> f i = x
  | GV (Vec l) => length l = n /\ forall i, i < n -> f i = nth i l 0%R
  | _ => False
  end.
(** A number or an array for the TOAs of a selection *)
Definition filled (v : gv) (m : mask) (f : nat -> R) : Prop :=
  match v with
  | GV (Sc x) => forall i, nth i m false = true -> f i = x
  | GV (Vec l) => length l = count m /\ forall i, nth i m false = true -> f i = nth (rank m i) l 0%R
  | _ => False
  end.
(** The noise of every selection a TOA belongs to, added *)
Definition noise_at (val : string -> nat -> R) (masks : dict string mask) (i : nat) : R :=
  rsum (map (fun km : string * mask => if nth i (snd km) false then val (fst km) i else 0%R) masks).
(** The waveform of the selection a TOA belongs to, the last one if there are several *)
Definition wave_at (val : string -> nat -> R) (masks : dict string mask) (i : nat) (x : R) : Prop :=
  (forall key m, In (key, m) masks -> nth i m false = true ->
     (forall key' m', In (key', m') masks -> nth i m' false = true -> sle key' key = true) -> x = val key i) /\
  ((forall key m, In (key, m) masks -> nth i m false = false) -> x = 0%R).

(** * Functions by selection *)
Section Fsel.
Variables (fn : fcl) (name psrname : string) (psr : gv) (masks : dict string mask) (f : fsel).
Hypothesis nd : NoDup (dkeys masks).
Hypothesis ef : new_fsel fn name psrname psr masks = Ok f.
Notation o_at := (selected name psrname psr fn).

Lemma sel_fn k : In k (f_keys f) -> dget string_dec (f_fn f) k = Some (o_at k).
Proof. intros i; destruct (f_shape (fun _ => False) fn name psrname psr masks f nd ef (fun _ F => match F with end)) as (_ & e & _); rewrite e; now apply get_map. Qed.
Lemma sel_masks : exists ms, combine (f_keys f) (f_masks f) = ms /\ Permutation ms masks /\ map fst ms = sorted_keys masks.
Proof.
  eexists; split; [reflexivity|].
  destruct (f_shape (fun _ => False) fn name psrname psr masks f nd ef (fun _ F => match F with end)) as (ek & _ & _); unfold new_fsel in ef; apply rmap_inv in ef as (ms & e & e'); rewrite <- e'; cbn [f_keys f_masks].
  apply rmapM_ok in e.
  assert (e1 : forall ks ms, Forall2 (fun k m => dgetE string_dec masks k = Ok m) ks ms -> combine ks ms = map (fun k => (k, match dget string_dec masks k with Some m => m | None => [] end)) ks).
  { clear; induction 1 as [|k m ks ms h F IH]; [reflexivity|]; cbn [combine map]; rewrite IH; unfold dgetE in h; destruct (dget string_dec masks k); [injection h as <-; reflexivity|discriminate]. }
  rewrite (e1 _ _ e); split.
  - transitivity (map (fun k => (k, match dget string_dec masks k with Some m => m | None => [] end)) (dkeys masks)); [apply Permutation_map, isort_perm|].
    replace (map _ (dkeys masks)) with masks; [reflexivity|]; clear - nd; unfold dkeys in *; rewrite map_map.
    transitivity (map (fun x : string * mask => x) masks); [now rewrite map_id|]; apply map_ext_in; intros [k m] i; cbn [fst].
    now rewrite (In_dget string_dec masks k m nd i).
  - rewrite map_map; cbn [fst]; apply map_id.
Qed.

(** ** White noise *)
Lemma times_value v m n g : spread v n g -> length m = n -> exists x, times_mask v m = Ok x /\ length x = n /\ forall i, i < n -> nth i x 0%R = if nth i m false then g i else 0%R.
Proof.
  intros h <-; destruct v as [[x|l|l]| | | | |]; try contradiction; cbn [spread times_mask] in *.
  - eexists; split; [reflexivity|]; rewrite map_length; split; [reflexivity|]; intros i li; pose proof (map_nth (fun b : bool => if b then x else 0%R) m false i) as E; cbv beta iota in E; rewrite E.
    destruct (nth i m false); [symmetry; now apply h|reflexivity].
  - destruct h as [el h]; rewrite el, Nat.eqb_refl; eexists; split; [reflexivity|]; rewrite map_length, combine_length, el, Nat.min_id; split; [reflexivity|]; intros i li.
    pose proof (map_nth (fun xb : R * bool => if snd xb then fst xb else 0%R) (combine l m) (0%R, false) i) as E; rewrite combine_nth in E by exact el; cbn [fst snd] in E.
    transitivity (if nth i m false then nth i l 0%R else 0%R); [exact E|]; destruct (nth i m false); [symmetry; now apply h|reflexivity].
Qed.
Lemma map2_nth (g : R -> R -> R) : forall x y i, length x = length y -> i < length x -> nth i (map2 g x y) 0%R = g (nth i x 0%R) (nth i y 0%R).
Proof. induction x as [|a x IH]; intros [|b y] [|i] e l; cbn in *; try lia; try reflexivity; apply IH; lia. Qed.
Lemma map2_length (g : R -> R -> R) : forall x y, length x = length y -> length (map2 g x y) = length x.
Proof. induction x as [|a x IH]; intros [|b y] e; cbn in *; try lia; try reflexivity; now rewrite IH by lia. Qed.
Definition begun (ret : option (list R)) (i : nat) : R := match ret with Some y => nth i y 0%R | None => 0%R end.
Lemma white_fold p n val : forall kms ret,
  (forall k m, In (k, m) kms -> In k (f_keys f) /\ length m = n /\ exists v, gcall (o_at k) [] [] p = Ok v /\ spread v n (val k)) ->
  (forall y, ret = Some y -> length y = n) ->
  exists ret', fold_left (fun acc km => rbind acc (fun ret =>
      rbind (dgetE string_dec (f_fn f) (fst km)) (fun o => rbind (gcall o [] [] p) (fun v => rbind (times_mask v (snd km)) (plus_array ret))))) kms (Ok ret) = Ok ret' /\
    (forall y, ret' = Some y -> length y = n) /\ (ret' = None -> kms = []) /\
    forall i, i < n -> begun ret' i = (begun ret i + noise_at val kms i)%R.
Proof.
  induction kms as [|[k m] kms IH]; intros ret H L.
  - exists ret; split; [reflexivity|]; split; [exact L|]; split; [reflexivity|]; intros i li; unfold noise_at; cbn; ring.
  - destruct (H k m (or_introl eq_refl)) as (ik & lm & v & ev & sv); destruct (times_value v m n (val k) sv lm) as (x & ex & lx & hx).
    assert (E : exists r1, plus_array ret x = Ok (Some r1) /\ length r1 = n /\ forall i, i < n -> nth i r1 0%R = (begun ret i + nth i x 0)%R).
    { destruct ret as [y|]; cbn [plus_array begun].
      - rewrite (L y eq_refl), lx, Nat.eqb_refl; eexists; split; [reflexivity|]; rewrite map2_length by (rewrite (L y eq_refl), lx; reflexivity); split; [exact (L y eq_refl)|].
        intros i li; apply map2_nth; rewrite (L y eq_refl); [now rewrite lx|exact li].
      - exists x; split; [reflexivity|]; split; [exact lx|]; intros i li; ring. }
    destruct E as (r1 & e1 & l1 & h1); destruct (IH (Some r1)) as (ret' & e & l' & ne & h); [intros; apply H; now right|intros y [= <-]; exact l1|].
    exists ret'; cbn [fold_left rbind fst snd]; unfold dgetE at 2; rewrite (sel_fn k ik); cbn [rbind]; rewrite ev; cbn [rbind]; rewrite ex; cbn [rbind]; rewrite e1; split; [exact e|]; split; [exact l'|]; split.
    + intros en; exfalso; revert e; rewrite en; clear; intros e.
      assert (G : forall kms r, fold_left (fun acc km => rbind acc (fun ret => rbind (dgetE string_dec (f_fn f) (fst km)) (fun o => rbind (gcall o [] [] p) (fun v => rbind (times_mask v (snd km)) (plus_array ret))))) kms r = Ok None -> r = Ok None).
      { clear; induction kms as [|km kms IH]; intros r h; [exact h|]; cbn [fold_left] in h; apply IH in h; destruct r as [r|e]; [|discriminate]; exfalso; cbn [rbind] in h.
        apply rbind_inv in h as (o & _ & h); apply rbind_inv in h as (v & _ & h); apply rbind_inv in h as (x & _ & h); destruct r as [y|]; cbn [plus_array] in h; [destruct (Nat.eqb _ _)|]; discriminate. }
      apply G in e; discriminate.
    + intros i li; rewrite (h i li); cbn [begun]; rewrite (h1 i li), (hx i li); unfold noise_at; cbn [map rsum fold_right fst snd]; unfold rsum; ring.
Qed.
Lemma noise_perm val i ms ms' : Permutation ms ms' -> noise_at val ms i = noise_at val ms' i.
Proof. unfold noise_at, rsum; induction 1 as [|x l l' _ IH|x y l|l l' l'' _ IH1 _ IH2]; cbn [map fold_right]; [reflexivity|now rewrite IH|ring|congruence]. Qed.
Lemma white_value p n val : masks <> [] ->
  (forall k m, In (k, m) masks -> length m = n /\ exists v, gcall (o_at k) [] [] p = Ok v /\ spread v n (val k)) ->
  exists x, white_body f p = Ok x /\ length x = n /\ forall i, i < n -> nth i x 0%R = noise_at val masks i.
Proof.
  intros ne H; destruct sel_masks as (ms & em & pm & ks); destruct (white_fold p n val ms None) as (ret' & e & l & hn & h).
  - intros k m i; split; [|apply H; now apply (Permutation_in _ pm)].
    destruct (f_shape (fun _ => False) fn name psrname psr masks f nd ef (fun _ F => match F with end)) as (ek & _ & _); rewrite ek, <- ks; now apply (in_map fst) in i.
  - discriminate.
  - unfold white_body; rewrite em, e; cbn [rbind]; destruct ret' as [x|].
    + exists x; split; [reflexivity|]; split; [exact (l x eq_refl)|]; intros i li; pose proof (h i li) as hi; cbn [begun] in hi; rewrite hi, (noise_perm val i ms masks pm); ring.
    + rewrite (hn eq_refl) in pm; now apply Permutation_nil in pm.
Qed.

(** ** Deterministic signals *)
Lemma put_value : forall d m x i, length m = length d -> length x = count m -> i < length d ->
  nth i (put_at d m x) 0%R = (if nth i m false then nth (rank m i) x 0%R else nth i d 0%R) /\ length (put_at d m x) = length d.
Proof.
  assert (lp : forall d m x, length (put_at d m x) = length d) by (induction d as [|y d IH]; intros [|[|] m] [|v x]; cbn [put_at length]; try reflexivity; now rewrite IH).
  intros d m x i; split; [|apply lp]; revert m x i H H0 H1; induction d as [|y d IH]; intros [|b m] x i lm lx li; cbn in lm; try lia; [cbn in li; lia|].
  destruct b; cbn [count filter length] in lx; cbn [put_at].
  - destruct x as [|v x]; [cbn in lx; lia|]; destruct i as [|i]; [reflexivity|]; cbn [nth rank Nat.add] in *; apply IH; cbn in *; unfold count; lia.
  - destruct i as [|i]; [reflexivity|]; cbn [nth rank Nat.add]; apply IH; cbn in *; unfold count; lia.
Qed.
Lemma assign_value v m g d : filled v m g -> length m = length d ->
  exists d', assign d m v = Ok d' /\ length d' = length d /\ forall i, i < length d -> nth i d' 0%R = if nth i m false then g i else nth i d 0%R.
Proof.
  intros h lm; unfold assign; rewrite lm, Nat.eqb_refl; cbn [negb].
  assert (P : forall x, length x = count m -> (forall i, nth i m false = true -> g i = nth (rank m i) x 0%R) ->
    length (put_at d m x) = length d /\ forall i, i < length d -> nth i (put_at d m x) 0%R = if nth i m false then g i else nth i d 0%R).
  { intros x lx hx; split.
    - destruct d as [|y d]; [now destruct m|]; now apply (put_value (y :: d) m x 0 lm lx); cbn; lia.
    - intros i li; destruct (put_value d m x i lm lx li) as [-> _]; destruct (nth i m false) eqn:E; [symmetry; now apply hx|reflexivity]. }
  destruct v as [[x|l|l]| | | | |]; try contradiction; cbn [filled] in h.
  - exists (put_at d m (repeat x (count m))); split; [reflexivity|]; apply P; [apply repeat_length|]; intros i e; rewrite (h i e); symmetry.
    pose proof (rank_lt m i e) as r; clear - r; revert r; generalize (rank m i) (count m); intros a b; revert a; induction b as [|b IH]; intros [|a] r; cbn; [lia|lia|reflexivity|apply IH; lia].
  - destruct h as [el h]; destruct l as [|x [|y l]].
    + exists (put_at d m []); split; [rewrite <- el; reflexivity|]; apply P; [exact el|exact h].
    + exists (put_at d m (repeat x (count m))); split; [reflexivity|]; apply P; [apply repeat_length|]; intros i e; rewrite (h i e), <- el; reflexivity.
    + exists (put_at d m (x :: y :: l)); rewrite el, Nat.eqb_refl; split; [reflexivity|]; apply P; [exact el|exact h].
Qed.
Lemma det_fold p n val : forall kms d,
  (forall k m, In (k, m) kms -> In k (f_keys f) /\ length m = n /\ exists v, gcall (o_at k) [] [("mask", GMask m)] p = Ok v /\ filled v m (val k)) -> length d = n ->
  exists d', fold_left (fun acc km => rbind acc (fun d =>
      rbind (dgetE string_dec (f_fn f) (fst km)) (fun o => rbind (gcall o [] [("mask", GMask (snd km))] p) (assign d (snd km))))) kms (Ok d) = Ok d' /\ length d' = n /\
    forall i, i < n -> (forall pre k m post, kms = (pre ++ (k, m) :: post)%list -> nth i m false = true -> (forall km, In km post -> nth i (snd km) false = false) -> nth i d' 0%R = val k i) /\
      ((forall km, In km kms -> nth i (snd km) false = false) -> nth i d' 0%R = nth i d 0%R).
Proof.
  induction kms as [|[k m] kms IH]; intros d H L.
  - exists d; split; [reflexivity|]; split; [exact L|]; intros i li; split; [|reflexivity]; intros [|x pre] k m post e; discriminate.
  - destruct (H k m (or_introl eq_refl)) as (ik & lm & v & ev & fv); destruct (assign_value v m (val k) d fv) as (d1 & e1 & l1 & h1); [congruence|].
    destruct (IH d1) as (d' & e & l' & h); [intros; apply H; now right|congruence|].
    exists d'; cbn [fold_left rbind fst snd]; unfold dgetE at 2; rewrite (sel_fn k ik); cbn [rbind]; rewrite ev; cbn [rbind]; rewrite e1; split; [exact e|]; split; [exact l'|].
    intros i li; destruct (h i li) as [ha hb]; split.
    + intros [|x pre] k0 m0 post ee tm no; [|injection ee as <- ee; now apply (ha pre k0 m0 post)].
      injection ee as <- <- <-; rewrite (hb no), h1 by congruence; now rewrite tm.
    + intros no; rewrite hb by (intros; apply no; now right); rewrite h1 by congruence; pose proof (no (k, m) (or_introl eq_refl)) as e0; cbn [snd] in e0; now rewrite e0.
Qed.
Lemma det_value p n val :
  (forall k m, In (k, m) masks -> length m = n /\ exists v, gcall (o_at k) [] [("mask", GMask m)] p = Ok v /\ filled v m (val k)) ->
  exists d, det_body f n p = Ok d /\ length d = n /\ forall i x, i < n -> wave_at val masks i x -> nth i d 0%R = x.
Proof.
  intros H; destruct sel_masks as (ms & em & pm & ks); destruct (det_fold p n val ms (repeat 0%R n)) as (d & e & l & h).
  - intros k m i; split; [|apply H; now apply (Permutation_in _ pm)].
    destruct (f_shape (fun _ => False) fn name psrname psr masks f nd ef (fun _ F => match F with end)) as (ek & _ & _); rewrite ek, <- ks; now apply (in_map fst) in i.
  - apply repeat_length.
  - exists d; unfold det_body; rewrite em; split; [exact e|]; split; [exact l|]; intros i x li [w1 w2]; destruct (h i li) as [ha hb].
    assert (D : (forall km, In km ms -> nth i (snd km) false = false) \/ exists pre k m post, ms = (pre ++ (k, m) :: post)%list /\ nth i m false = true /\ forall km, In km post -> nth i (snd km) false = false).
    { clear; induction ms as [|[k m] ms IH]; [left; intros km []|]; destruct IH as [IH|(pre & k0 & m0 & post & -> & h)].
      - destruct (nth i m false) eqn:E; [right; exists [], k, m, ms; auto|left; intros km [<-|j]; [exact E|now apply IH]].
      - right; now exists ((k, m) :: pre), k0, m0, post. }
    destruct D as [D|(pre & k & m & post & em' & tm & no)].
    + rewrite (hb D), w2; [|intros key m j; apply (D (key, m)); apply (Permutation_in _ (Permutation_sym pm)), j].
      clear; revert i; induction n as [|k IH]; intros [|i]; cbn; auto.
    + rewrite (ha pre k m post em' tm no); symmetry; apply (w1 k m); [apply (Permutation_in _ pm); rewrite em'; apply in_or_app; right; now left|exact tm|].
      intros k' m' j' t'; apply (Permutation_in _ (Permutation_sym pm)) in j'; rewrite em' in j'; apply in_app_or in j' as [j'|[[= <- <-]|j']].
      * assert (S : StronglySorted (fun a b => sle a b = true) (map fst ms)) by (rewrite ks; exact (isort_sorted sle sle_total sle_trans (dkeys masks))).
        rewrite em', map_app in S; cbn [map fst] in S; clear - S j'; induction pre as [|y pre IH]; [destruct j'|]; cbn [map app] in S; apply StronglySorted_inv in S as [S1 S2]; destruct j' as [->|j'].
        -- cbn [fst] in S2; rewrite Forall_forall in S2; apply S2, in_or_app; right; now left.
        -- now apply IH.
      * apply sle_refl.
      * pose proof (no _ j') as q; cbn [snd] in q; congruence.
Qed.
End Fsel.

(** * Gaussian processes *)
Section Proc.
Variables (priorfn basisfn : fcl) (name psrname : string) (psr : gv) (masks : dict string mask) (n : nat) (g : gp).
Hypothesis nd : NoDup (dkeys masks).
Hypothesis eg : gp_functions priorfn basisfn name psrname psr masks = Ok g.
Notation blocks_at := (ProofGp.blocks_at basisfn name psrname psr masks n).
Lemma fresh_construct p bl : blocks_at p bl -> exists c, construct g p (cempty, unbuilt) = ((c, ProofGp.result_of n bl), Ok tt).
Proof.
  intros H; destruct (functions_spec priorfn basisfn name psrname psr masks nd g eg) as (gk & gm & gpr & gb & _).
  pose proof (build_ok basisfn name psrname psr masks n nd g gk gm gb p bl unbuilt H) as hb.
  destruct (cache_key_total (basis_params g) p (proj1 H)) as [k ek].
  destruct (cache_ok (basis_params g) 1 (build g) cempty unbuilt p k tt _ (wf_empty 1) (le_n 1) ek hb) as [(v & [] & _)|(c' & e & _)]; now exists c'.
Qed.
Lemma proc_basis p bl : blocks_at p bl -> snd (ModelGp.get_basis g p (cempty, unbuilt)) = Ok (ProofGp.columns bl, map (row_of bl) (seq 0 n)).
Proof. intros H; destruct (fresh_construct p bl H) as [c e]; unfold ModelGp.get_basis; rewrite e; reflexivity. Qed.
Lemma proc_phi p bl phis : blocks_at p bl -> Forall2 (fun b phi => gcall (selected name psrname psr priorfn (k_key b)) [k_lab b] [] p = Ok phi) bl phis ->
  snd (ModelGp.get_phi g p (cempty, unbuilt)) = Ok (combine (intervals 0 bl) phis).
Proof.
  intros H F; destruct (fresh_construct p bl H) as [c e]; unfold ModelGp.get_phi; rewrite e; cbn [rbind snd]; cbn [ProofGp.result_of b_slices b_labels attribute rbind].
  destruct (functions_spec priorfn basisfn name psrname psr masks nd g eg) as (gk & gm & gpr & gb & _).
  pose proof (blocks_keys_nd basisfn name psrname psr masks n nd p bl H) as N.
  assert (L : forall b, In b bl -> dget string_dec (map (fun b => (k_key b, k_lab b)) bl) (k_key b) = Some (k_lab b)) by (intros b i; now apply label_get).
  assert (P : forall b, In b bl -> dget string_dec (g_prior g) (k_key b) = Some (selected name psrname psr priorfn (k_key b))).
  { intros b i; apply (prior_get priorfn name psrname psr g gpr); rewrite gk; apply keys_in; destruct H as (_ & _ & ek & _).
    assert (In (k_key b) (map k_key bl)) by now apply in_map. rewrite ek in H; eapply Permutation_in; [apply isort_perm|exact H]. }
  revert L; generalize (map (fun b => (k_key b, k_lab b)) bl) as labels; intros labels L; clear - F L P; generalize 0 as o; induction F as [|b phi bl phis h F IH]; intros o; [reflexivity|].
  cbn [map intervals combine rmapM fst snd]; unfold dgetE; rewrite (P b (or_introl eq_refl)); cbn [rbind]; rewrite (L b (or_introl eq_refl)); cbn [rbind]; rewrite h; cbn [rmap rbind].
  unfold dgetE in IH; rewrite IH by (intros; try apply P; try apply L; now right); reflexivity.
Qed.
End Proc.
(** Sampled coefficients *)
Lemma sampled_value priorfn basisfn name psrname psr masks n g s p r :
  NoDup (dkeys masks) -> no_functions priorfn -> varying basisfn -> unambiguous priorfn basisfn name psrname psr masks ->
  (exists bl, blocks_at basisfn name psrname psr masks n [] bl) -> new_gp priorfn basisfn true name psrname psr masks = Ok (g, s) ->
  ProofGp.correct priorfn basisfn name psrname psr masks n (fun _ _ _ => Err ValueError) true false (ModelGp.ADelay p) (ModelGp.RDelay r) ->
  snd (ModelGp.get_delay g p s) = Ok r.
Proof.
  intros nd np vb ua bl e c; destruct (gp_history_lem priorfn basisfn name psrname psr masks n (fun _ _ _ => Err ValueError) true false nd np vb (fun _ => conj ua bl)) as (g' & s' & e' & H).
  rewrite e in e'; injection e' as <- <-; specialize (H [ModelGp.ADelay p] [ModelGp.RDelay r] (Forall2_cons _ _ c (Forall2_nil _))); cbn [ModelGp.run ModelGp.respond] in H.
  destruct (ModelGp.get_delay g p s) as [s' [x|er]]; cbn [rmap map snd] in *; congruence.
Qed.

(** * Common processes *)
Lemma common_construct c p F labels : flat_values p -> gcall (c_basis c) [] [] p = Ok (GPair F labels) ->
  exists k, c_construct c p (cempty, None) = ((k, Some (F, labels)), Ok tt).
Proof.
  intros fl e; assert (hb : c_build c p None = (Some (F, labels), Ok tt)) by (unfold c_build; rewrite e; reflexivity).
  destruct (cache_key_total (c_basis_params c) p fl) as [k ek].
  destruct (cache_ok (c_basis_params c) 1 (c_build c) cempty None p k tt _ (wf_empty 1) (le_n 1) ek hb) as [(v & [] & _)|(c' & e' & _)]; now exists c'.
Qed.
(** * A cached array *)
Lemma array_value {B} (wrap : list R -> B) names body p x : flat_values p -> body p = Ok x -> snd (cached_array wrap names body p (SArr cempty)) = Ok (Some (wrap x)).
Proof.
  intros fl e; destruct (cache_key_total names p fl) as [k ek]; cbn [cached_array].
  destruct (cache_ok names 2 (fun p (u : unit) => (u, body p)) cempty tt p k x tt (wf_empty 2) (le_S _ _ (le_n 1)) ek) as [(v & [] & _)|(c' & e' & _)]; [now rewrite e|].
  unfold gparams in e'; rewrite e'; reflexivity.
Qed.
