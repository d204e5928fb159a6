(** Spectra of processes with keywords: what the functions get. *)
From Coq Require Import String Bool Arith ZArith List Reals Lia Lra.
From Verif Require Import PyBase ProofBase ModelSelect ModelFunc ProofFunc ModelCache ModelGp ProofGp ModelBases ModelSpectra ProofBases ProofSpectra ModelKinds ModelStandard ProofStdFn.
Import ListNotations.
Open Scope string_scope.
Open Scope list_scope.
Open Scope R_scope.

(** * Specification *)
(** The keywords are some of [names], each once; [val] has their values, and the defaults of
    the others, which all have one unless they are [needed] *)
Definition keywords (p : params R) (name : list string) (kws : list (string * arg gv)) (needed : list string) (defaults : list (string * R)) (val : string -> R) : Prop :=
  NoDup (dkeys kws) /\ incl needed (dkeys kws) /\ incl (dkeys kws) (needed ++ dkeys defaults) /\
  (forall k a, In (k, a) kws -> arg_has p a (us_name (name ++ [k])) (val k)) /\
  forall k x, In (k, x) defaults -> ~ In k (dkeys kws) -> val k = x.

(** * Keywords *)
Section Bind.
Variables (val : string -> gv) (kw : dict string gv).
Lemma bind_kws : forall names dfl, length dfl = length names ->
  (forall i x, nth_error names i = Some x -> dget string_dec kw x = Some (val x) \/ dget string_dec kw x = None /\ nth_error dfl i = Some (Some (val x))) ->
  bind names dfl [] kw = Ok (map val names).
Proof.
  induction names as [|x names IH]; intros [|d dfl] e h; try discriminate e; [reflexivity|]; cbn [bind map].
  assert (E : bind names dfl [] kw = Ok (map val names)) by (apply IH; [now injection e|intros i y hy; exact (h (S i) y hy)]).
  destruct (h 0%nat x eq_refl) as [->|[-> hd]]; rewrite ?E; [reflexivity|]; cbn in hd; injection hd as ->; reflexivity.
Qed.
End Bind.
Lemma resolve_arg p a n x : arg_has p a n x -> match a with
  | AParC _ => dget string_dec (lift p) n
  | ACstC v => or_else (dget string_dec (lift p) n) (Some (v n))
  | AInst (Par n' _) => dget string_dec (lift p) n'
  | AInst (Cst n' v) => or_else (dget string_dec (lift p) n') (Some v)
  | AVal v => Some v
  | _ => None end = Some (num x).
Proof.
  destruct a as [?|v|[? ?|? v]|?|?|v]; cbn [arg_has]; intros h; try contradiction; try (now apply lift_has); try (destruct h as [-> h]; apply lift_not in h; rewrite h; reflexivity); subst; reflexivity.
Qed.
Lemma mem_str_in x l : In x l -> mem_str x l = true.
Proof. intros i; apply existsb_exists; exists x; split; [exact i|apply String.eqb_refl]. Qed.
Lemma mem_str_out x l : ~ In x l -> mem_str x l = false.
Proof. intros i; destruct (mem_str x l) eqn:e; [|reflexivity]; exfalso; apply existsb_exists in e; destruct e as [y [hy e]]; apply String.eqb_eq in e; subst y; now apply i. Qed.
Section Call.
Variables (f : pyfun gv) (x0 : string) (rest : list string) (p : params R) (nm : string) (psr : option gv) (kws : list (string * arg gv)) (val : string -> R).
Hypothesis (hf : pf_args f = x0 :: rest) (hn : NoDup (x0 :: rest)).
Hypothesis (hp : psr = None \/ exists d, psr = Some (d_gv d)).
Hypothesis (hr : forall x, In x (x0 :: rest) -> ~ In x ["psr"; "mask"; "toas"; "toaerrs"; "freqs"; "pos"; "Mmat"]).
Hypothesis (nd : NoDup (dkeys kws)) (inc : incl (dkeys kws) rest).
Hypothesis (ha : forall k a, In (k, a) kws -> arg_has p a (us_name [nm; k]) (val k)).
Hypothesis (ld : (length (pf_defs f) <= length rest)%nat).
Hypothesis (hd : forall i x, nth_error rest i = Some x -> ~ In x (dkeys kws) -> nth_error (pf_dflts f) (S i) = Some (Some (num (val x)))).
Let body : dict string gv := map (fun ka => (fst ka, num (val (fst ka)))) kws.
Let full : dict string gv := match psr with Some s => ("psr", s) :: body | None => body end.
Lemma body_keys : dkeys body = dkeys kws.
Proof. unfold body, dkeys; rewrite map_map; reflexivity. Qed.
Lemma body_get k : dget string_dec body k = if in_dec string_dec k (dkeys kws) then Some (num (val k)) else None.
Proof.
  unfold body; clear -kws; induction kws as [|[k' a] l IH]; [reflexivity|]; cbn [map dget fst dkeys].
  destruct (string_dec k k') as [->|n].
  - destruct (in_dec string_dec k' (k' :: map fst l)) as [_|h]; [reflexivity|destruct h; now left].
  - rewrite IH; destruct (in_dec string_dec k (dkeys l)) as [i|i], (in_dec string_dec k (k' :: map fst l)) as [j|j]; try reflexivity; exfalso; [apply j; now right|]; destruct j as [->|j]; [now apply n|now apply i].
Qed.
Lemma not_special k : In k ["psr"; "mask"; "toas"; "toaerrs"; "freqs"; "pos"; "Mmat"] -> ~ In k (dkeys kws).
Proof. intros h i; apply (hr k); [right; now apply inc|exact h]. Qed.
Lemma full_get k : dget string_dec full k = resolve gv_attr gv_masked (FC f "" kws) nm psr [] (lift p) k.
Proof.
  assert (F : dget string_dec full k = or_else (dget string_dec body k) (if string_dec k "psr" then psr else None)).
  { unfold full; destruct psr as [s|]; cbn [dget]; destruct (string_dec k "psr") as [->|n]; try reflexivity.
    - rewrite body_get; destruct (in_dec string_dec "psr" (dkeys kws)) as [i|i]; [exfalso; apply (not_special "psr"); [now left|exact i]|reflexivity].
    - destruct (dget string_dec body k); reflexivity.
    - destruct (dget string_dec body "psr"); reflexivity.
    - destruct (dget string_dec body k); reflexivity. }
  rewrite F, body_get; unfold resolve; cbn [dget or_else].
  destruct (in_dec string_dec k (dkeys kws)) as [i|i].
  - assert (A : ModelFunc.admitted f (map fst kws) k = true).
    { unfold ModelFunc.admitted; replace (mem_str k (map fst kws)) with true; [reflexivity|]; symmetry; now apply mem_str_in. }
    rewrite A; destruct (dget string_dec kws k) as [a|] eqn:e; [|exfalso; apply (dget_None_notin string_dec) in e; now apply e].
    assert (hi := dget_In string_dec _ _ _ e); specialize (ha k a hi); rewrite <- (us_name_mid nm k) in ha; apply resolve_arg in ha.
    destruct a as [?|v|[? ?|? v]|[? ? ?]|?|v]; cbn [or_else]; try discriminate ha; rewrite ha; reflexivity.
  - replace (dget string_dec kws k) with (@None (arg gv)) by (symmetry; now apply dget_None_notin).
    cbn [or_else]; destruct (string_dec k "psr") as [->|n]; [|destruct (ModelFunc.admitted _ _ _); reflexivity].
    unfold ModelFunc.admitted; replace (mem_str "psr" ["psr"; "mask"; "size"]) with true by reflexivity; rewrite !orb_true_r; reflexivity.
Qed.
Lemma attr_none s x : psr = Some s -> In x rest -> gv_attr s x = None.
Proof.
  intros e hx; destruct hp as [e'|[d e']]; rewrite e in e'; [discriminate e'|injection e' as ->].
  unfold gv_attr, d_gv; apply (dget_None_notin string_dec); intros i; apply (hr x); [now right|right; right; exact i].
Qed.
Lemma call_kws a : gcall (inst (FC f "" kws) nm psr) [a] [] p = pf_body f (a :: map (fun x => num (val x)) rest).
Proof.
  assert (nf : NoDup (dkeys full)).
  { unfold full; assert (B := body_keys); assert (N := not_special "psr" (or_introl eq_refl)); rewrite <- B in N; assert (N' := nd); rewrite <- B in N'; destruct psr; [exact (NoDup_cons _ N N')|exact N']. }
  assert (apt : apart (FC f "" kws) nm psr).
  { intros k b o hi hb; specialize (ha k b hi); destruct b; try discriminate hb; contradiction ha. }
  assert (nn : forall k o, named "" kws nm psr k o -> ~ In k (@dkeys string gv []) -> exists v, call gv_attr gv_masked o [] (only (fo_kws o) []) (lift p) None = Ok v).
  { intros k o [b [hi hb]]; specialize (ha k b hi); destruct b; try discriminate hb; contradiction ha. }
  destruct (function_call_lem gv gv_attr gv_masked f "" kws nm psr [] (lift p) [a] None nd (NoDup_nil _) apt nn) as [_ C].
  unfold gcall; rewrite (C full nf full_get); clear C.
  assert (nb : ~ In "psr" (dkeys body)) by (rewrite body_keys; apply not_special; now left).
  assert (nm1 : ~ In "mask" (dkeys body)) by (rewrite body_keys; apply not_special; right; now left).
  assert (nm2 : ~ In "mask" (dkeys full)) by (unfold full; destruct psr; [intros [h|h]; [discriminate h|now apply nm1]|exact nm1]).
  assert (np : mem_str "psr" (pf_args f) = false) by (rewrite hf; apply mem_str_out; intros i; apply (hr "psr" i); now left).
  unfold sel_call; rewrite (dpop_notin string_dec full "mask" nm2), np; cbn [negb]; rewrite andb_true_r.
  assert (T : (if (length [a] <? length (pf_args f))%nat then match dget string_dec full "psr" with
      | Some q => [a] ++ flat_map (fun b => if dmem string_dec full b then [] else match gv_attr q b with Some v => [domask gv_masked (dget string_dec full "mask") v] | None => [] end) (skipn (length [a]) (pf_args f))
      | None => [a] end else [a]) = [a]).
  { assert (A0 := attr_none); destruct (_ <? _)%nat; [|reflexivity]; unfold full at 1; destruct psr as [s|].
    - cbn [dget]; destruct (string_dec "psr" "psr") as [_|n]; [|now destruct n]; rewrite hf; cbn [length skipn].
      replace (flat_map _ rest) with (@nil gv); [reflexivity|]; symmetry; assert (A : forall x, In x rest -> gv_attr s x = None) by (intros x hx; now apply (A0 s x)).
      clear -A; induction rest as [|x l IH]; [reflexivity|]; cbn [flat_map]; rewrite (A x) by (now left); rewrite IH by (intros y hy; apply A; now right); destruct (dmem _ _ _); reflexivity.
    - apply (dget_None_notin string_dec) in nb; rewrite nb; reflexivity. }
  rewrite T; clear T.
  assert (K : (if dmem string_dec full "psr" then dpop string_dec full "psr" else full) = body).
  { unfold full, dmem; destruct psr as [s|]; [cbn [dget dpop]; destruct (string_dec "psr" "psr") as [_|n]; [reflexivity|now destruct n]|].
    apply (dget_None_notin string_dec) in nb; rewrite nb; reflexivity. }
  rewrite K; clear K; unfold call_py.
  assert (I : forallb (fun k => mem_str k (pf_args f)) (dkeys body) = true).
  { apply forallb_forall; intros k hk; rewrite body_keys in hk; rewrite hf; apply mem_str_in; right; now apply inc. }
  rewrite I, hf.
  assert (ldf := dflts_length gv f ltac:(rewrite hf; cbn [length]; lia)); rewrite hf in ldf; destruct (pf_dflts f) as [|d0 dfl]; [discriminate ldf|]; cbn [bind].
  assert (nx : ~ In x0 (dkeys kws)) by (intros i; inversion hn; subst; match goal with h : ~ In x0 rest |- _ => apply h end; now apply inc).
  unfold dmem; rewrite body_get; destruct (in_dec string_dec x0 (dkeys kws)) as [i|_]; [contradiction|].
  rewrite (bind_kws (fun x => num (val x)) body rest dfl); [reflexivity|now injection ldf|].
  intros i x hx; rewrite body_get; destruct (in_dec string_dec x (dkeys kws)) as [j|j]; [now left|right; split; [reflexivity|exact (hd i x hx j)]].
Qed.
End Call.
(** * Spectra *)
Section Spectra.
Variables (n : nat) (T : R).
Hypothesis (T0 : 0 < T).
Local Notation q := (map (fun k => INR k / T) (seq 1 n)).
Lemma q_pos : Forall (fun x => 0 < x) q.
Proof. apply Forall_forall; intros x hx; apply in_map_iff in hx; destruct hx as [k [<- hk]]; apply in_seq in hk; apply Rdiv_lt_0_compat; [apply lt_0_INR; lia|exact T0]. Qed.
Lemma q_freqs : freqs n T = q.
Proof. unfold freqs; apply map_ext; intros k; unfold Rdiv; ring. Qed.
Lemma times_value h r A g : times h (twice q) r (powerlaw (twice q) A g 2) ->
  r = Ok (rep 2 (map (fun k => psd A g (INR k / T) * h (INR k / T) * (1 / T)) (seq 1 n))).
Proof.
  change (twice q) with (rep 2 q); intros [phi [phi0 [-> [e0 [l [l0 e]]]]]]; f_equal.
  rewrite powerlaw_rep in e0 by lia; rewrite <- q_freqs, powers_power in e0 by exact T0; injection e0 as <-.
  assert (lq : length (rep 2 q) = (2 * n)%nat) by (rewrite rep_length, map_length, seq_length; reflexivity); rewrite lq in l, e.
  apply (nth_ext _ _ 0 0); [rewrite l, rep_length, map_length, seq_length; reflexivity|]; intros j hj; rewrite l in hj; rewrite e by exact hj.
  assert (exists i, (i < n)%nat /\ (j = 2 * i \/ j = 2 * i + 1)%nat) as [i [hi ji]].
  { exists (j / 2)%nat; pose proof (Nat.div_mod j 2 ltac:(lia)); pose proof (Nat.mod_upper_bound j 2 ltac:(lia)); split; lia. }
  unfold powers.
  destruct (rep2_nth (map (fun k => psd A g (INR k / T) * (1 / T)) (seq 1 n)) i 0) as [a b], (rep2_nth q i 0) as [c d], (rep2_nth (map (fun k => psd A g (INR k / T) * h (INR k / T) * (1 / T)) (seq 1 n)) i 0) as [u v].
  destruct ji as [-> | ->]; rewrite ?a, ?b, ?c, ?d, ?u, ?v, !(nth_map_in _ _ _ 0 0%nat) by (now rewrite seq_length); ring.
Qed.
Lemma value_pos A g h : (forall x, 0 < x -> 0 < h x) -> forall k, (1 <= k <= n)%nat -> 0 < psd A g (INR k / T) * h (INR k / T) * (1 / T).
Proof.
  intros hh k hk; pose proof (psd_pos T A g k T0); assert (0 < h (INR k / T)) by (apply hh, Rdiv_lt_0_compat; [apply lt_0_INR; lia|exact T0]).
  replace (psd A g (INR k / T) * h (INR k / T) * (1 / T)) with (psd A g (INR k / T) * (1 / T) * h (INR k / T)) by ring; now apply Rmult_lt_0_compat.
Qed.
End Spectra.
Ltac kw_call h val := destruct h as [nd [need [inc [ha dfl]]]];
  match goal with |- gcall (inst (FC ?f "" ?kws) (us_name ?name) ?psr) [?a] [] ?p = _ =>
    rewrite (call_kws f "f" (tl (pf_args f)) p (us_name name) psr kws val); [| reflexivity | repeat (constructor; [cbn; intuition discriminate|]); constructor | assumption
      | intros x i j; cbn in i, j; intuition (subst; discriminate) | exact nd | intros k i; apply inc in i; exact i
      | intros k b i; rewrite us_name_nested; now apply ha | cbn; lia | ]
  end.
Ltac kw_dflt need dfl := intros i x hx hi; do 7 (destruct i as [|i]; [cbn in hx; try discriminate hx; injection hx as <-; first [cbn; do 3 f_equal; symmetry; apply dfl; [cbn; tauto|exact hi]|exfalso; apply hi, need; cbn; tauto]|]); cbn in hx; destruct i; discriminate hx.
Lemma standard_turnover_lem : forall n p name psr T A g kws val, 0 < T -> (psr = None \/ exists d, psr = Some (d_gv d)) ->
  keywords p name kws [] [("log10_A", -15); ("gamma", 433 / 100); ("lf0", -17 / 2); ("kappa", 10 / 3); ("beta", 1 / 2)] val ->
  shape_has p (Prior (FC turnover_fn "" kws)) name psr T n A g
    (fun k => psd (val "log10_A") (val "gamma") (INR k / T) * Rpower (1 + Rpower (Rpower 10 (val "lf0") / (INR k / T)) (val "kappa")) (- (2 * val "beta")) * (1 / T)).
Proof.
  intros n p name psr T A g kws val T0 hp h; split.
  - apply (value_pos n T T0 _ _ (fun x => Rpower (1 + Rpower (Rpower 10 (val "lf0") / x) (val "kappa")) (- (2 * val "beta")))); intros x _; apply exp_pos.
  - kw_call h val; [|kw_dflt need dfl].
    cbn [turnover_fn pf_args pf_body tl map num].
    erewrite (times_value n T T0 _ (turnover _ _ _ _ _ _)) by (apply turnover_shape_lem, q_pos, T0); reflexivity.
Qed.
Lemma standard_knee_lem : forall n p name psr T A g kws val, 0 < T -> (psr = None \/ exists d, psr = Some (d_gv d)) ->
  keywords p name kws ["log10_A"; "gamma"; "lfb"; "lfk"; "kappa"; "delta"] [] val ->
  shape_has p (Prior (FC knee_fn "" kws)) name psr T n A g
    (fun k => psd (val "log10_A") (val "gamma") (INR k / T) * (Rpower (1 + INR k / T / Rpower 10 (val "lfk")) (2 * val "delta") / (1 + Rpower (Rpower 10 (val "lfb") / (INR k / T)) (val "kappa"))) * (1 / T)).
Proof.
  intros n p name psr T A g kws val T0 hp h; split.
  - apply (value_pos n T T0 _ _ (fun x => Rpower (1 + x / Rpower 10 (val "lfk")) (2 * val "delta") / (1 + Rpower (Rpower 10 (val "lfb") / x) (val "kappa")))); intros x _.
    apply Rdiv_lt_0_compat; [apply exp_pos|]; assert (0 < Rpower (Rpower 10 (val "lfb") / x) (val "kappa")) by apply exp_pos; lra.
  - kw_call h val; [|kw_dflt need dfl].
    cbn [knee_fn pf_args pf_body tl map num].
    erewrite (times_value n T T0 _ (turnover_knee _ _ _ _ _ _ _)) by (apply turnover_knee_shape_lem, q_pos, T0); reflexivity.
Qed.
Lemma standard_broken_lem : forall n p name psr T A g kws val, 0 < T -> (psr = None \/ exists d, psr = Some (d_gv d)) ->
  keywords p name kws ["log10_A"; "gamma"; "delta"; "log10_fb"] [("kappa", 1 / 10)] val -> val "kappa" <> 0 ->
  shape_has p (Prior (FC broken_fn "" kws)) name psr T n A g
    (fun k => psd (val "log10_A") (val "gamma") (INR k / T) * Rpower (1 + Rpower (INR k / T / Rpower 10 (val "log10_fb")) (1 / val "kappa")) (val "kappa" * (val "gamma" - val "delta")) * (1 / T)).
Proof.
  intros n p name psr T A g kws val T0 hp h hk; split.
  - apply (value_pos n T T0 _ _ (fun x => Rpower (1 + Rpower (x / Rpower 10 (val "log10_fb")) (1 / val "kappa")) (val "kappa" * (val "gamma" - val "delta")))); intros x _; apply exp_pos.
  - kw_call h val; [|kw_dflt need dfl].
    cbn [broken_fn pf_args pf_body tl map num].
    erewrite (times_value n T T0 _ (broken_powerlaw _ _ _ _ _ _)) by (apply broken_powerlaw_shape_lem; [exact hk|apply q_pos, T0]); reflexivity.
Qed.
(** * Examples *)
Definition kw_val (x y z : R) (k : string) : R :=
  if String.eqb k "log10_A" then x else if String.eqb k "gamma" then 13 / 3 else if String.eqb k "lf0" then y else if String.eqb k "kappa" then z else 1 / 2.
Lemma standard_turnover_ex : forall c x y z, keywords [("gw_log10_A", Sc x); ("gw_kappa", Sc z)] ["gw"]
  [("kappa", AParC c); ("log10_A", AParC c); ("lf0", ACstC (fun _ => num y)); ("gamma", AVal (num (13 / 3)))]
  [] [("log10_A", -15); ("gamma", 433 / 100); ("lf0", -17 / 2); ("kappa", 10 / 3); ("beta", 1 / 2)] (kw_val x y z).
Proof.
  intros c x y z; split; [repeat (constructor; [cbn; intuition discriminate|]); constructor|].
  split; [intros k []|]; split; [intros k i; cbn in *; tauto|].
  split; [intros k a i; cbn in i; repeat (destruct i as [i|i]; [injection i as <- <-; cbn; auto|]); destruct i|].
  intros k v i hi; cbn in i; repeat (destruct i as [i|i]; [injection i as <- <-; first [reflexivity|exfalso; apply hi; cbn; tauto]|]); destruct i.
Qed.
Lemma standard_knee_ex : forall x, keywords [("A_gw_lfk", Sc x)] ["A"; "gw"; ""]
  [("log10_A", AVal (num 0)); ("gamma", AVal (num 0)); ("lfb", AVal (num 0)); ("lfk", AInst (Par "A_gw_lfk" (FObj "" (PyFun [] [] (fun _ => Ok (num 0))) None [] [] [] []))); ("kappa", AVal (num 0)); ("delta", AVal (num 0))]
  ["log10_A"; "gamma"; "lfb"; "lfk"; "kappa"; "delta"] [] (fun k => if String.eqb k "lfk" then x else 0).
Proof.
  intros x; split; [repeat (constructor; [cbn; intuition discriminate|]); constructor|].
  split; [intros k i; exact i|]; split; [intros k i; exact i|].
  split; [|intros k v []]. intros k a i; cbn in i; repeat (destruct i as [i|i]; [injection i as <- <-; cbn; auto|]); destruct i.
Qed.
Lemma standard_broken_ex : exists val, keywords [] ["gw"] [("log10_A", AVal (num 1)); ("gamma", AVal (num 1)); ("delta", AVal (num 1)); ("log10_fb", AVal (num 1))]
  ["log10_A"; "gamma"; "delta"; "log10_fb"] [("kappa", 1 / 10)] val /\ val "kappa" <> 0.
Proof.
  exists (fun k => if String.eqb k "kappa" then 1 / 10 else 1); split; [|cbn; lra].
  split; [repeat (constructor; [cbn; intuition discriminate|]); constructor|].
  split; [intros k i; exact i|]; split; [intros k i; cbn in *; tauto|].
  split; [intros k a i; cbn in i; repeat (destruct i as [i|i]; [injection i as <- <-; cbn; auto|]); destruct i|].
  intros k v [i|[]] _; injection i as <- <-; reflexivity.
Qed.
