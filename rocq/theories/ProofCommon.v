(** Proofs about the correlated Fourier process. *)
From Coq Require Import Reals ZArith String Bool Arith List Lra Lia.
From Verif Require Import PyBase ProofBase ModelCache ProofCache ModelBases ProofBases ModelOrf ModelCommon.
Import ListNotations.
Open Scope list_scope.
Open Scope R_scope.

(** The TOAs of the pulsars that a program has met. *)
Definition arrived (ops : list op) : list R := flat_map (fun a => match a with New toas _ => toas | Eval _ _ => [] end) ops.
Definition is_span (l : list R) (T : R) : Prop := exists a b, In a l /\ In b l /\ (forall t, In t l -> a <= t <= b) /\ T = b - a.
Definition is_new (a : op) : Prop := match a with New _ _ => True | Eval _ _ => False end.

Lemma span_unique : forall l T T', is_span l T -> is_span l T' -> T = T'.
Proof.
  intros l T T' (a & b & Ha & Hb & H & ->) (a' & b' & Ha' & Hb' & H' & ->).
  pose proof (H _ Ha'). pose proof (H _ Hb'). pose proof (H' _ Ha). pose proof (H' _ Hb). lra.
Qed.
Lemma maximum_spec : forall l b, maximum l = Ok b -> In b l /\ forall t, In t l -> t <= b.
Proof.
  intros [|t l] b; [discriminate|]. intros [= <-]. revert t. induction l as [|x l IH]; intros t; cbn [fold_left]; [split; [now left|intros u [->|[]]; lra]|].
  destruct (IH (Rmax t x)) as [i b]. pose proof (Rmax_l t x). pose proof (Rmax_r t x). split.
  - destruct i as [e|i]; [rewrite <- e; unfold Rmax; destruct (Rle_dec t x); [right; now left|now left]|right; now right].
  - intros u [->|[->|hu]]; [eapply Rle_trans; [eassumption|]; apply b; now left|eapply Rle_trans; [eassumption|]; apply b; now left|apply b; now right].
Qed.
Lemma minimum_spec : forall l b, minimum l = Ok b -> In b l /\ forall t, In t l -> b <= t.
Proof.
  intros [|t l] b; [discriminate|]. intros [= <-]. revert t. induction l as [|x l IH]; intros t; cbn [fold_left]; [split; [now left|intros u [->|[]]; lra]|].
  destruct (IH (Rmin t x)) as [i b]. pose proof (Rmin_l t x). pose proof (Rmin_r t x). split.
  - destruct i as [e|i]; [rewrite <- e; unfold Rmin; destruct (Rle_dec t x); [now left|right; now left]|right; now right].
  - intros u [->|[->|hu]]; [eapply Rle_trans; [|eassumption]; apply b; now left|eapply Rle_trans; [|eassumption]; apply b; now left|apply b; now right].
Qed.

(** The lists of first and last TOAs bound what they come from. *)
Definition firsts (l : list R) (m : list R) : Prop := (forall a, In a m -> In a l) /\ (forall t, In t l -> exists a, In a m /\ a <= t).
Definition lasts (l : list R) (m : list R) : Prop := (forall a, In a m -> In a l) /\ (forall t, In t l -> exists a, In a m /\ t <= a).

Section Proofs.
Context {G : Type}.
Variable seeded : Z -> G.
Variable next : G -> R * G.

Lemma construct_cases : forall u tmin tmax p x (g : G) x' g' r, construct seeded next u tmin tmax p x g = ((x', g'), r) ->
  i_toas x' = i_toas x /\ i_pos x' = i_pos x /\
  (i_basis x' = i_basis x \/
   exists T o b, span u tmin tmax = Ok T /\ u_opts u p = Ok o /\ fst (create_red seeded next (i_toas x) (with_span o T) g) = Ok b /\ i_basis x' = Some b).
Proof.
  intros u tmin tmax p x g x' g' r. unfold construct, cache_call.
  destruct (cache_key R (u_names u) p) as [k|e]; [|intros [= <- <- <-]; cbn; auto].
  destruct (dmem _ _ k); [intros [= <- <- <-]; cbn; auto|].
  unfold build. cbn [fst snd]. destruct (span u tmin tmax) as [T|e] eqn:ES; [|intros [= <- <- <-]; cbn; auto].
  destruct (u_opts u p) as [o|e] eqn:EO; [|intros [= <- <- <-]; cbn; auto].
  destruct (create_red seeded next (i_toas x) (with_span o T) g) as [[b|e] g1] eqn:EC; [|intros [= <- <- <-]; cbn; auto].
  intros [= <- <- <-]. cbn [i_toas i_pos i_basis]. split; [reflexivity|]. split; [reflexivity|]. right. exists T, o, b. rewrite EC. auto.
Qed.
Lemma red_labels : forall toas o T (g : G) F ff, fst (create_red seeded next toas (with_span o T) g) = Ok (F, ff) -> ff = rep 2 (frequencies o T).
Proof.
  intros toas o T g F ff H. destruct (create_red seeded next toas (with_span o T) g) as [r g'] eqn:E. cbn in H. subst r.
  apply red_inv in E as (T' & f & ph & [HT|[HT _]] & Hf & _ & _ & _ & _ & ->); [|discriminate]. injection HT as <-. subst f. reflexivity.
Qed.
Lemma nth_put : forall l k x j, (k < length l)%nat -> nth_error (put k x l) j = if Nat.eqb j k then Some x else nth_error l j.
Proof.
  induction l as [|y l IH]; intros k x j H; [cbn in H; lia|].
  destruct k as [|k], j as [|j]; cbn; try reflexivity. apply IH. cbn in H. lia.
Qed.

(** The class attributes after a program. *)
Lemma lists_inv : forall u, factory u = Ok u -> u_Tspan u = None -> forall ops (g : G), let w := run seeded next u ops (start g) in
  firsts (arrived ops) (w_Tmin w) /\ lasts (arrived ops) (w_Tmax w).
Proof.
  intros u HF HT ops g. assert (HC : u_coef u = false). { unfold factory in HF. rewrite HT in HF. destruct (u_coef u); [discriminate|reflexivity]. }
  induction ops as [|a ops IH] using rev_ind; [split; (split; [intros a []|intros t []])|].
  unfold run in *. rewrite fold_left_app. cbn [fold_left]. set (w := fold_left _ ops _) in *. cbv zeta in IH. destruct IH as [[I1 I2] [J1 J2]].
  unfold arrived. rewrite flat_map_app. fold (arrived ops). cbn [flat_map]. rewrite app_nil_r.
  destruct a as [toas pos|k p]; cbn [step].
  - unfold create. rewrite HC, HT. destruct toas as [|t toas].
    + cbn [minimum fst w_Tmin w_Tmax]. rewrite app_nil_r. repeat split; auto.
    + destruct (minimum (t :: toas)) as [a|] eqn:E1; [|discriminate]. destruct (maximum (t :: toas)) as [b|] eqn:E2; [|discriminate].
      apply minimum_spec in E1 as [A1 A2]. apply maximum_spec in E2 as [B1 B2]. cbn [fst w_Tmin w_Tmax].
      split; split; intros x Hx; apply in_app_or in Hx.
      * destruct Hx as [Hx|[<-|[]]]; apply in_or_app; auto.
      * destruct Hx as [Hx|Hx].
        -- destruct (I2 x Hx) as (y & Hy & L). exists y. split; [apply in_or_app; now left|exact L].
        -- exists a. split; [apply in_or_app; right; now left|now apply A2].
      * destruct Hx as [Hx|[<-|[]]]; apply in_or_app; auto.
      * destruct Hx as [Hx|Hx].
        -- destruct (J2 x Hx) as (y & Hy & L). exists y. split; [apply in_or_app; now left|exact L].
        -- exists b. split; [apply in_or_app; right; now left|now apply B2].
  - rewrite app_nil_r. unfold evaluate. destruct (nth_error (w_insts w) k) as [x|]; [|repeat split; auto].
    destruct (construct _ _ _ _ _ _ _) as [[x' g'] r]. cbn. repeat split; auto.
Qed.
Lemma span_inv : forall u, factory u = Ok u -> u_Tspan u = None -> forall ops (g : G) T, let w := run seeded next u ops (start g) in
  span u (w_Tmin w) (w_Tmax w) = Ok T -> is_span (arrived ops) T.
Proof.
  intros u HF HT ops g T w. destruct (lists_inv u HF HT ops g) as [[I1 I2] [J1 J2]]. fold w in I1, I2, J1, J2.
  unfold span. rewrite HT. destruct (maximum (w_Tmax w)) as [b|] eqn:E2; [|discriminate]. destruct (minimum (w_Tmin w)) as [a|] eqn:E1; [|discriminate].
  cbn. intros [= <-]. apply minimum_spec in E1 as [A1 A2]. apply maximum_spec in E2 as [B1 B2].
  exists a, b. split; [auto|]. split; [auto|]. split; [|reflexivity]. intros t Ht.
  destruct (I2 t Ht) as (x & Hx & Lx). destruct (J2 t Ht) as (y & Hy & Ly). specialize (A2 x Hx). specialize (B2 y Hy). lra.
Qed.
End Proofs.

Lemma stored_nth : forall G k (w : @world G) b, stored k w = Ok b -> exists x, nth_error (w_insts w) k = Some x /\ i_basis x = Some b.
Proof. intros G k w b. unfold stored. destruct (nth_error (w_insts w) k) as [x|]; [|discriminate]. destruct (i_basis x) eqn:E; [|discriminate]. intros [= <-]. eauto. Qed.

(** What a signal holds comes from one of its evaluations. *)
Lemma basis_history_lem : forall (G : Type) (seeded : Z -> G) next u, factory u = Ok u -> u_coef u = false -> forall ops g k F ff,
  stored k (run seeded next u ops (start g)) = Ok (F, ff) ->
  exists before p after o T, ops = before ++ Eval k p :: after /\ u_opts u p = Ok o /\
    (u_Tspan u = Some T \/ u_Tspan u = None /\ is_span (arrived before) T) /\ ff = rep 2 (frequencies o T) /\
    exists toas g', In toas (flat_map (fun a => match a with New toas _ => [toas] | Eval _ _ => [] end) before) /\
      fst (create_red seeded next toas (with_span o T) g') = Ok (F, ff).
Proof.
  intros G seeded next u HF HC ops g k F ff H. apply stored_nth in H as (x & Hx & Hb).
  assert (I : forall k x, nth_error (w_insts (run seeded next u ops (start g))) k = Some x ->
    In (i_toas x) (flat_map (fun a => match a with New toas _ => [toas] | Eval _ _ => [] end) ops) /\
    forall F ff, i_basis x = Some (F, ff) ->
    exists before p after o T, ops = before ++ Eval k p :: after /\ u_opts u p = Ok o /\
      (u_Tspan u = Some T \/ u_Tspan u = None /\ is_span (arrived before) T) /\ ff = rep 2 (frequencies o T) /\
      exists toas g', In toas (flat_map (fun a => match a with New toas _ => [toas] | Eval _ _ => [] end) before) /\
        fst (create_red seeded next toas (with_span o T) g') = Ok (F, ff)).
  { clear - HF HC. induction ops as [|a ops IH] using rev_ind; [intros [|k] x; discriminate|].
    pose proof (span_inv seeded next u HF) as HS. unfold run in *. rewrite fold_left_app. cbn [fold_left].
    set (w := fold_left _ ops _) in *. rewrite flat_map_app. cbn [flat_map]. rewrite app_nil_r.
    assert (E : forall k x, nth_error (w_insts w) k = Some x -> 
      In (i_toas x) (flat_map (fun a => match a with New toas _ => [toas] | Eval _ _ => [] end) ops ++ match a with New toas _ => [toas] | Eval _ _ => [] end) /\
      forall F ff, i_basis x = Some (F, ff) ->
      exists before p after o T, ops ++ [a] = before ++ Eval k p :: after /\ u_opts u p = Ok o /\
        (u_Tspan u = Some T \/ u_Tspan u = None /\ is_span (arrived before) T) /\ ff = rep 2 (frequencies o T) /\
        exists toas g', In toas (flat_map (fun a => match a with New toas _ => [toas] | Eval _ _ => [] end) before) /\
          fst (create_red seeded next toas (with_span o T) g') = Ok (F, ff)).
    { intros k x Hx. destruct (IH k x Hx) as [H1 H2]. split; [apply in_or_app; now left|]. intros F ff Hb.
      destruct (H2 F ff Hb) as (be & p & af & o & T & -> & R). exists be, p, (af ++ [a]), o, T. rewrite <- app_assoc. split; [reflexivity|exact R]. }
    destruct a as [toas pos|k0 p]; cbn [step].
    - unfold create. rewrite HC. intros k x.
      assert (Q : nth_error (w_insts w ++ [Inst toas pos cempty None]) k = Some x ->
        nth_error (w_insts w) k = Some x \/ x = Inst toas pos cempty None).
      { intros Hx. destruct (Nat.lt_ge_cases k (length (w_insts w))) as [L|L]; [rewrite nth_error_app1 in Hx by exact L; now left|].
        rewrite nth_error_app2 in Hx by exact L. destruct (k - length (w_insts w))%nat as [|[|n]]; try discriminate. injection Hx as <-. now right. }
      destruct (u_Tspan u); [|destruct (minimum toas); [destruct (maximum toas)|]]; cbn [fst w_insts]; intros Hx;
        try (apply Q in Hx as [Hx| ->]; [|split; [cbn; apply in_or_app; right; now left|discriminate]]); now apply E.
    - unfold evaluate. destruct (nth_error (w_insts w) k0) as [x0|] eqn:E0; [|intros k x Hx; now apply E].
      destruct (construct _ _ _ _ _ _ _) as [[x' g'] r] eqn:EC. cbn [fst w_insts]. intros k x Hx.
      assert (L : (k0 < length (w_insts w))%nat) by (apply nth_error_Some; congruence).
      rewrite nth_put in Hx by exact L. destruct (Nat.eqb_spec k k0) as [->|N]; [|now apply E]. injection Hx as <-.
      apply construct_cases in EC as (C1 & _ & [C2|(T & o & b & C2 & C3 & C4 & C5)]).
      + rewrite C1, C2. now apply E.
      + destruct (E k0 x0 E0) as [H1 _]. rewrite C1. split; [exact H1|]. rewrite C5. intros F ff [= ->].
        exists ops, p, [], o, T. split; [reflexivity|]. split; [exact C3|]. split.
        { destruct (u_Tspan u) as [T0|] eqn:ET; [left; unfold span in C2; rewrite ET in C2; congruence|right; split; [reflexivity|]].
          eapply HS; [reflexivity|exact C2]. }
        split; [now apply red_labels in C4|]. exists (i_toas x0), (w_rng w). split; [|exact C4].
        rewrite app_nil_r in H1. exact H1. }
  destruct (I k x Hx) as [_ I2]. apply (I2 F ff Hb).
Qed.

(** ** First all pulsars, then evaluations *)
Lemma arrived_app : forall l1 l2, arrived (l1 ++ l2) = arrived l1 ++ arrived l2.
Proof. intros. apply flat_map_app. Qed.
Lemma arrived_evals : forall l, Forall (fun a => ~ is_new a) l -> arrived l = [].
Proof. induction l as [|[toas pos|k p] l IH]; intros H; inversion H; subst; [reflexivity|now destruct H2; exact I|]. cbn. now apply IH. Qed.
Lemma split_evals : forall (news evals before : list op) k p after, Forall is_new news -> Forall (fun a => ~ is_new a) evals ->
  news ++ evals = before ++ Eval k p :: after -> exists mid, before = news ++ mid /\ evals = mid ++ Eval k p :: after.
Proof.
  induction news as [|a news IH]; intros evals before k p after Hn He H; [exists before; now split|].
  inversion Hn; subst. destruct before as [|b before]; cbn in H; injection H as -> H.
  - destruct H2.
  - destruct (IH evals before k p after H3 He H) as (mid & -> & ->). now exists mid.
Qed.
Lemma common_span_lem : forall (G : Type) (seeded : Z -> G) next u, factory u = Ok u -> u_Tspan u = None -> forall news evals g k F ff,
  Forall is_new news -> Forall (fun a => ~ is_new a) evals ->
  stored k (run seeded next u (news ++ evals) (start g)) = Ok (F, ff) ->
  exists T, is_span (arrived news) T /\ exists p o, In (Eval k p) evals /\ u_opts u p = Ok o /\ ff = rep 2 (frequencies o T).
Proof.
  intros G seeded next u HF HT news evals g k F ff Hn He H.
  assert (HC : u_coef u = false). { unfold factory in HF. rewrite HT in HF. destruct (u_coef u); [discriminate|reflexivity]. }
  destruct (basis_history_lem G seeded next u HF HC _ _ _ _ _ H) as (be & p & af & o & T & E & HO & HS & HL & _).
  apply split_evals in E as (mid & -> & ->); [|assumption|assumption]. exists T. split.
  - destruct HS as [HS|[_ HS]]; [congruence|]. rewrite arrived_app, (arrived_evals mid), app_nil_r in HS; [exact HS|].
    apply Forall_app in He. tauto.
  - exists p, o. split; [apply in_or_app; right; now left|]. now split.
Qed.
Lemma same_frequencies_lem : forall (G : Type) (seeded : Z -> G) next u o, factory u = Ok u -> u_Tspan u = None -> (forall p, u_opts u p = Ok o) ->
  forall news evals g k1 F1 ff1 k2 F2 ff2, Forall is_new news -> Forall (fun a => ~ is_new a) evals ->
  let w := run seeded next u (news ++ evals) (start g) in
  stored k1 w = Ok (F1, ff1) -> stored k2 w = Ok (F2, ff2) ->
  ff1 = ff2 /\ forall T, is_span (arrived news) T -> ff1 = rep 2 (frequencies o T).
Proof.
  intros G seeded next u o HF HT HO news evals g k1 F1 ff1 k2 F2 ff2 Hn He w H1 H2.
  apply common_span_lem in H1 as (T1 & S1 & p1 & o1 & _ & E1 & ->); [|assumption..].
  apply common_span_lem in H2 as (T2 & S2 & p2 & o2 & _ & E2 & ->); [|assumption..].
  rewrite HO in E1, E2. injection E1 as <-. injection E2 as <-. rewrite (span_unique _ _ _ S1 S2).
  split; [reflexivity|]. intros T ST. now rewrite (span_unique _ _ _ ST S2).
Qed.
Lemma phicross_symmetric_lem : forall (G : Type) (seeded : Z -> G) next u o, factory u = Ok u -> u_Tspan u = None -> (forall p, u_opts u p = Ok o) ->
  forall prior orf, (forall x y : vec, orf x y = orf y x) ->
  forall news evals g k1 b1 k2 b2 p, Forall is_new news -> Forall (fun a => ~ is_new a) evals ->
  let w := run seeded next u (news ++ evals) (start g) in
  stored k1 w = Ok b1 -> stored k2 w = Ok b2 ->
  get_phicross prior orf k1 k2 p w = get_phicross prior orf k2 k1 p w /\ exists l, get_phicross prior orf k1 k2 p w = Ok l.
Proof.
  intros G seeded next u o HF HT HO prior orf Ho news evals g k1 [F1 ff1] k2 [F2 ff2] p Hn He w H1 H2.
  destruct (same_frequencies_lem G seeded next u o HF HT HO news evals g k1 F1 ff1 k2 F2 ff2 Hn He H1 H2) as [E _].
  unfold get_phicross. rewrite H1, H2. cbn [rbind]. apply stored_nth in H1 as (x1 & -> & _). apply stored_nth in H2 as (x2 & -> & _).
  cbn [snd]. rewrite E, Ho. split; [reflexivity|eauto].
Qed.

(** ** Without failures the basis is that of the parameters asked for *)
Fixpoint succeeds {G} (seeded : Z -> G) next u (ops : list op) (w : world) : Prop :=
  match ops with
  | [] => True
  | a :: ops => match a with Eval k p => snd (evaluate seeded next u k p w) = Ok tt | New toas pos => True end /\ succeeds seeded next u ops (step seeded next u w a)
  end.
Lemma news_fresh : forall (G : Type) (seeded : Z -> G) next u, u_coef u = false -> forall news g, Forall is_new news ->
  Forall (fun x => i_cache x = cempty) (w_insts (run seeded next u news (start g))).
Proof.
  intros G seeded next u HC news g. induction news as [|a news IH] using rev_ind; intros H; [constructor|].
  apply Forall_app in H as [H1 H2]. specialize (IH H1). unfold run in *. rewrite fold_left_app. cbn [fold_left]. set (w := fold_left _ news _) in *.
  inversion H2; subst. destruct a as [toas pos|]; [|now destruct H3]. cbn [step]. unfold create. rewrite HC.
  destruct (u_Tspan u); [|destruct (minimum toas); [destruct (maximum toas)|]]; cbn [fst w_insts]; try exact IH; apply Forall_app; split; auto.
Qed.
Lemma put_Forall : forall (P : inst -> Prop) l k x, Forall P l -> P x -> Forall P (put k x l).
Proof. intros P l. induction l as [|y l IH]; intros k x Hl Hx; [destruct k; constructor|]. inversion Hl; subst. destruct k; constructor; auto. Qed.
Lemma current_basis_lem : forall (G : Type) (seeded : Z -> G) next u, factory u = Ok u -> u_Tspan u = None ->
  (forall p p', (forall n, In n (u_names u) -> dget string_dec p n = dget string_dec p' n) -> u_opts u p = u_opts u p') ->
  forall news evals g k p, Forall is_new news -> Forall (fun a => ~ is_new a) evals ->
  succeeds seeded next u (evals ++ [Eval k p]) (run seeded next u news (start g)) ->
  exists T o F, is_span (arrived news) T /\ u_opts u p = Ok o /\
    stored k (run seeded next u (news ++ evals ++ [Eval k p]) (start g)) = Ok (F, rep 2 (frequencies o T)).
Proof.
  intros G seeded next u HF HT Hnames news evals g k p Hn He Hs.
  assert (HC : u_coef u = false). { unfold factory in HF. rewrite HT in HF. destruct (u_coef u); [discriminate|reflexivity]. }
  pose proof (news_fresh G seeded next u HC news g Hn) as Fr. pose proof (span_inv seeded next u HF HT news g) as SI. cbv zeta in SI.
  unfold run. rewrite fold_left_app. fold (run seeded next u news (start g)). set (w0 := run seeded next u news (start g)) in *.
  pose (built := fun (p : rparams) (s : option (mat * list R) * G) => exists T o F, span u (w_Tmin w0) (w_Tmax w0) = Ok T /\ u_opts u p = Ok o /\ fst s = Some (F, rep 2 (frequencies o T))).
  assert (B1 : forall toas p s s' v, build seeded next u (w_Tmin w0) (w_Tmax w0) toas p s = (s', Ok v) -> built p s').
  { intros toas q s s' v. unfold build, built. destruct (span u _ _) as [T|] eqn:E1; [|discriminate]. destruct (u_opts u q) as [o|] eqn:E2; [|discriminate].
    destruct (create_red seeded next toas (with_span o T) (snd s)) as [[[F ff]|] g'] eqn:E3; [|discriminate]. intros [= <- <-].
    exists T, o, F. cbn [fst]. rewrite (red_labels seeded next toas o T (snd s) F ff) by now rewrite E3. auto. }
  assert (B2 : forall p p' s, (forall n, In n (u_names u) -> dget string_dec p n = dget string_dec p' n) -> built p s -> built p' s).
  { intros q q' s Hq (T & o & F & X & Y & Z). exists T, o, F. rewrite <- (Hnames q q' Hq). auto. }
  pose (J := fun x : inst => forall g : G, binv1 (u_names u) built (i_cache x, (i_basis x, g))).
  assert (J0 : Forall J (w_insts w0)).
  { apply Forall_forall. intros x Hx g0. rewrite Forall_forall in Fr. unfold binv1. cbn [fst]. rewrite (Fr x Hx). split; [reflexivity|now left]. }
  assert (K : forall k p w, w_Tmin w = w_Tmin w0 -> w_Tmax w = w_Tmax w0 -> Forall J (w_insts w) -> snd (evaluate seeded next u k p w) = Ok tt ->
    let w' := fst (evaluate seeded next u k p w) in
    w_Tmin w' = w_Tmin w0 /\ w_Tmax w' = w_Tmax w0 /\ Forall J (w_insts w') /\ exists x, nth_error (w_insts w') k = Some x /\ built p (i_basis x, w_rng w')).
  { clear - B1 B2. intros k p w E1 E2 HJ. unfold evaluate. destruct (nth_error (w_insts w) k) as [x|] eqn:Ex; [|discriminate].
    assert (L : (k < length (w_insts w))%nat) by (apply nth_error_Some; congruence).
    assert (Jx : J x) by (rewrite Forall_forall in HJ; apply HJ; eapply nth_error_In; exact Ex).
    unfold construct. rewrite E1, E2. destruct (cache_call _ _ _ _ _ _) as [[c [b g']] r] eqn:EC. cbn [fst snd]. intros ->.
    destruct (cache_call_binv1 Req_EM_T (u_names u) (build seeded next u (w_Tmin w0) (w_Tmax w0) (i_toas x)) built (B1 _) B2 p _ _ _ (Jx _) EC (fun _ => eq_refl)) as [I1 I2].
    cbn [w_Tmin w_Tmax w_insts w_rng]. split; [reflexivity|]. split; [reflexivity|]. split.
    - apply put_Forall; [exact HJ|]. intros g1. unfold binv1 in *. cbn [fst snd i_cache i_basis] in *. destruct I1 as [I1 [I3|(q & I3 & I4)]]; (split; [exact I1|]); [now left|right].
      exists q. split; [exact I3|]. intros p' Hp'. destruct (I4 p' Hp') as (T & o & F & X). exists T, o, F. exact X.
    - eexists. split; [rewrite nth_put by exact L; now rewrite Nat.eqb_refl|]. exact (I2 eq_refl). }
  assert (M : forall evals w, Forall (fun a => ~ is_new a) evals -> w_Tmin w = w_Tmin w0 -> w_Tmax w = w_Tmax w0 -> Forall J (w_insts w) ->
    succeeds seeded next u (evals ++ [Eval k p]) w -> exists x g', nth_error (w_insts (fold_left (step seeded next u) (evals ++ [Eval k p]) w)) k = Some x /\ built p (i_basis x, g')).
  { clear - K. induction evals as [|a evals IH]; intros w He E1 E2 HJ Hs.
    - cbn in Hs. destruct Hs as [Hs _]. destruct (K k p w E1 E2 HJ Hs) as (_ & _ & _ & x & X & Y). cbn [app fold_left step]. eauto.
    - inversion He; subst. destruct a as [toas pos|j q]; [now destruct H1; exact I|]. cbn [app succeeds] in Hs. destruct Hs as [Hs Hr].
      destruct (K j q w E1 E2 HJ Hs) as (X1 & X2 & X3 & _). cbn [app fold_left]. apply IH; auto. }
  destruct (M evals w0 He eq_refl eq_refl J0 Hs) as (x & g' & X & T & o & F & Y1 & Y2 & Y3).
  exists T, o, F. split; [now apply SI|]. split; [exact Y2|]. unfold stored. rewrite X. cbn in Y3. now rewrite Y3.
Qed.

(** ** An explicit time span *)
Lemma explicit_span_lem : forall (G : Type) (seeded : Z -> G) next u T o, u_Tspan u = Some T -> (forall p, u_opts u p = Ok o) ->
  forall ops g k F ff, stored k (run seeded next u ops (start g)) = Ok (F, ff) -> ff = rep 2 (frequencies o T).
Proof.
  intros G seeded next u T o HT HO ops g k F ff H. apply stored_nth in H as (x & Hx & Hb).
  pose (J := fun x => forall F ff, i_basis x = Some (F, ff) -> ff = rep 2 (frequencies o T)).
  assert (C : forall tmin tmax p x (g : G) x' g' r, construct seeded next u tmin tmax p x g = ((x', g'), r) -> J x -> J x').
  { intros tmin tmax p y g1 y' g2 r E Jy. apply construct_cases in E as (_ & _ & [E|(T' & o' & b & E1 & E2 & E3 & E4)]); unfold J; [now rewrite E|].
    unfold span in E1. rewrite HT in E1. injection E1 as <-. rewrite HO in E2. injection E2 as <-. rewrite E4. intros F1 ff1 [= ->]. now apply red_labels in E3. }
  assert (I : Forall J (w_insts (run seeded next u ops (start g)))).
  { clear - C HT. induction ops as [|a ops IH] using rev_ind; [constructor|]. unfold run in *. rewrite fold_left_app. cbn [fold_left]. set (w := fold_left _ ops _) in *.
    destruct a as [toas pos|k p]; cbn [step].
    - unfold create. rewrite HT.
      assert (Jx : J (Inst toas pos cempty None)) by (intros F ff; discriminate).
      destruct (u_coef u); [|cbn [fst w_insts]; apply Forall_app; split; auto].
      destruct (construct _ _ _ _ _ _ _) as [[x' g'] [r|e]] eqn:E; [|exact IH]. apply C in E; [|exact Jx].
      cbn [fst w_insts]. apply Forall_app. split; auto.
    - unfold evaluate. destruct (nth_error (w_insts w) k) as [x|] eqn:Ex; [|exact IH].
      destruct (construct _ _ _ _ _ _ _) as [[x' g'] r] eqn:E. apply C in E; [cbn [fst w_insts]; now apply put_Forall|].
      rewrite Forall_forall in IH. apply IH. eapply nth_error_In; exact Ex. }
  rewrite Forall_forall in I. apply (I x (nth_error_In _ _ Hx) F ff Hb).
Qed.

(** ** Where it goes wrong *)
Definition plain : setup := Setup false None [] (fun _ => Ok (Opts 1 None false None None None false None)).
Definition origin : vec := (0, 0, 0).
Lemma arrived_span : forall a b, a <= b -> is_span [a; b] (b - a).
Proof. intros a b H. exists a, b. split; [now left|]. split; [right; now left|]. split; [|reflexivity]. intros t [<-|[<-|[]]]; lra. Qed.
Lemma maxmin : Rmax 0 1 = 1 /\ Rmin 0 1 = 0 /\ Rmax 0 2 = 2 /\ Rmin 0 2 = 0 /\ Rmax 1 2 = 2 /\ Rmin 0 0 = 0 /\ Rmax 2 1 = 2.
Proof. unfold Rmax, Rmin. repeat match goal with |- context [Rle_dec ?a ?b] => destruct (Rle_dec a b); [|try lra] end; repeat split; lra. Qed.
Lemma interleaved_refuted_lem : exists before pulsar k1 k2, let w := run (fun z => z) (fun s => (0, s)) plain (before ++ [pulsar; Eval k2 []; Eval k1 []]) (start 0%Z) in
  exists F1 f1 F2 f2, stored k1 w = Ok (F1, f1) /\ stored k2 w = Ok (F2, f2) /\ f1 <> f2 /\
  get_phicross (fun f _ => f) (fun _ _ => 1) k1 k2 [] w <> get_phicross (fun f _ => f) (fun _ _ => 1) k2 k1 [] w.
Proof.
  exists [New [0; 1] origin; Eval 0 []], (New [0; 2] origin), 0%nat, 1%nat. destruct maxmin as (M1 & M2 & M3 & M4 & M5 & M6 & M7).
  cbv - [Req_EM_T Rmax Rmin Rplus Rminus Rmult Rdiv Rinv Ropp IZR sin cos PI INR]. rewrite M1, M2, M3, M4, M5, M6.
  do 4 eexists. split; [reflexivity|]. split; [reflexivity|].
  assert (N : 1 * INR 1 / (1 - 0) <> 1 * INR 1 / (2 - 0)) by (cbn; lra).
  split; [intros [= H _]; now apply N|intros [= H _]; apply N; lra].
Qed.
Lemma reused_class_refuted_lem : exists news1 news2 k F ff T, Forall is_new news1 /\ Forall is_new news2 /\
  stored k (run (fun z => z) (fun s => (0, s)) plain (news1 ++ news2 ++ [Eval k []]) (start 0%Z)) = Ok (F, ff) /\ (length news1 <= k)%nat /\
  is_span (arrived news2) T /\ ff <> rep 2 (frequencies (Opts 1 None false None None None false None) T).
Proof.
  exists [New [0; 2] origin], [New [0; 1] origin], 1%nat. destruct maxmin as (M1 & M2 & M3 & M4 & M5 & M6 & M7).
  cbv - [Req_EM_T Rmax Rmin Rplus Rminus Rmult Rdiv Rinv Ropp IZR sin cos PI INR is_new is_span arrived lt not]. rewrite M1, M2, M3, M4, M6, M7.
  do 2 eexists. exists (1 - 0). split; [repeat constructor|]. split; [repeat constructor|]. split; [reflexivity|]. split; [lia|].
  split; [apply arrived_span; lra|]. intros [= H _]. cbn in H. lra.
Qed.

(** ** Exceptions *)
Lemma factory_lem : forall u, (factory u = Err ValueError <-> u_coef u = true /\ u_Tspan u = None) /\ (factory u = Err ValueError \/ factory u = Ok u).
Proof. intros u. unfold factory. destruct (u_coef u), (u_Tspan u); split; auto; split; try discriminate; try tauto; now intros [A B]. Qed.
Lemma no_toas_lem : forall (G : Type) (seeded : Z -> G) next u pos w, factory u = Ok u -> u_Tspan u = None -> create seeded next u [] pos w = (w, Err ValueError).
Proof. intros G seeded next [[] [T|] n o] pos [a b c d]; try discriminate; intros _ H; try discriminate. reflexivity. Qed.
Lemma unevaluated_lem : forall (G : Type) (seeded : Z -> G) next u, factory u = Ok u -> u_coef u = false -> forall ops g k1 k2 p prior orf,
  (forall q, ~ In (Eval k1 q) ops) -> forall l, get_phicross prior orf k1 k2 p (run seeded next u ops (start g)) <> Ok l.
Proof.
  intros G seeded next u HF HC ops g k1 k2 p prior orf H l. unfold get_phicross. destruct (stored k1 _) as [[F ff]|] eqn:E; [|discriminate].
  apply basis_history_lem in E as (be & q & af & o & T & -> & _); [|assumption..]. exfalso. apply (H q). apply in_or_app. right. now left.
Qed.

(** ** Evaluations succeed *)
Definition toas_of (a : op) : list R := match a with New toas _ => toas | Eval _ _ => [] end.
Lemma fold_extent : forall t l, extent (t :: l) = Ok (fold_left Rmax l t - fold_left Rmin l t).
Proof. reflexivity. Qed.
Lemma red_succeeds : forall (G : Type) (seeded : Z -> G) next toas o T g, toas <> [] -> (forall l, o_modes o <> Some (PyList l)) ->
  exists b g', create_red seeded next toas (with_span o T) g = (Ok b, g').
Proof.
  intros G seeded next [|t toas] o T g Ht Hm; [congruence|]. unfold create_red, with_span, phases. cbn [o_Tspan o_modes o_nmodes o_pseed o_pshift].
  destruct (o_modes o) as [[l|l]|] eqn:E; [|now destruct (Hm l)|];
    (destruct (o_pseed o); [destruct (uniform _ _ _ _ _)|destruct (o_pshift o); [destruct (uniform _ _ _ _ _)|]]); eauto.
Qed.
Lemma news_insts : forall (G : Type) (seeded : Z -> G) next u, u_coef u = false -> forall news g, Forall is_new news -> Forall (fun a => toas_of a <> []) news ->
  let w := run seeded next u news (start g) in
  map i_toas (w_insts w) = map toas_of news /\ (u_Tspan u = None -> length (w_Tmin w) = length news /\ length (w_Tmax w) = length news).
Proof.
  intros G seeded next u HC news g. induction news as [|a news IH] using rev_ind; intros H HN; [split; [reflexivity|now split]|].
  apply Forall_app in H as [H1 H2]. apply Forall_app in HN as [N1 N2]. destruct (IH H1 N1) as [I1 I2]. clear IH. unfold run in *. rewrite fold_left_app. cbn [fold_left]. set (w := fold_left _ news _) in *.
  inversion H2; subst. inversion N2; subst. destruct a as [toas pos|]; [|now destruct H3]. cbn [step]. unfold create. rewrite HC. cbn [toas_of] in H5.
  rewrite map_app, !app_length. destruct toas as [|t toas]; [congruence|].
  destruct (u_Tspan u); cbn [minimum maximum fst w_insts w_Tmin w_Tmax]; rewrite map_app, I1; (split; [reflexivity|]); [discriminate|].
  intros E. destruct (I2 E). rewrite !app_length. cbn. lia.
Qed.
Lemma put_map : forall l k x y, nth_error l k = Some y -> i_toas x = i_toas y -> map i_toas (put k x l) = map i_toas l.
Proof. induction l as [|z l IH]; intros [|k] x y H E; try discriminate; cbn in *; [injection H as ->; now rewrite E|f_equal; now apply (IH k x y)]. Qed.
Lemma evaluations_succeed_lem : forall (G : Type) (seeded : Z -> G) next u o, factory u = Ok u -> u_Tspan u = None -> (forall p, u_opts u p = Ok o) ->
  (forall l, o_modes o <> Some (PyList l)) ->
  forall news evals g k toas pos p key, Forall is_new news -> Forall (fun a => toas_of a <> []) news -> Forall (fun a => ~ is_new a) evals ->
  nth_error news k = Some (New toas pos) -> cache_key R (u_names u) p = Ok key ->
  exists F T g', snd (get_basis seeded next u k p (run seeded next u (news ++ evals) (start g))) = Ok F /\
    is_span (arrived news) T /\ fst (create_red seeded next toas (with_span o T) g') = Ok (F, rep 2 (frequencies o T)).
Proof.
  intros G seeded next u o HF HT HO HM news evals g k toas pos p key Hn Hn' He Hk Hp.
  assert (HC : u_coef u = false). { unfold factory in HF. rewrite HT in HF. destruct (u_coef u); [discriminate|reflexivity]. }
  pose proof (news_fresh G seeded next u HC news g Hn) as Fr. pose proof (span_inv seeded next u HF HT news g) as SI. cbv zeta in SI.
  destruct (news_insts G seeded next u HC news g Hn Hn') as [NI NL]. specialize (NL HT).
  assert (FB : Forall (fun x => i_basis x = None) (w_insts (run seeded next u news (start g)))).
  { apply Forall_forall. intros x Hx. apply In_nth_error in Hx as (j & Hj). destruct (i_basis x) as [[F ff]|] eqn:E; [|reflexivity]. exfalso.
    assert (S : stored j (run seeded next u news (start g)) = Ok (F, ff)) by (unfold stored; now rewrite Hj, E).
    apply basis_history_lem in S as (be & q & af & o' & T & -> & _); [|assumption..]. apply Forall_app in Hn as [_ Hn]. inversion Hn; subst. contradiction. }
  unfold run. rewrite fold_left_app. fold (run seeded next u news (start g)). set (w0 := run seeded next u news (start g)) in *.
  assert (HS : exists T, span u (w_Tmin w0) (w_Tmax w0) = Ok T).
  { unfold span. rewrite HT. assert (L : (k < length news)%nat) by (apply nth_error_Some; congruence).
    destruct NL as [L1 L2]. destruct (w_Tmax w0), (w_Tmin w0); cbn in L1, L2; try lia. cbn. eauto. }
  destruct HS as [T HS]. pose proof (SI T HS) as IS.
  pose (J := fun x : inst => i_toas x <> [] /\ ((i_cache x = cempty /\ i_basis x = None) \/
    exists k0 b, i_cache x = CState [(k0, tt)] [k0] /\ i_basis x = Some b /\ exists g', fst (create_red seeded next (i_toas x) (with_span o T) g') = Ok b)).
  assert (J0 : Forall J (w_insts w0)).
  { rewrite Forall_forall in *. intros x Hx. split; [|left; split; [now apply Fr|now apply FB]].
    apply (in_map i_toas) in Hx. rewrite NI in Hx. apply in_map_iff in Hx as (a & <- & Ha). now apply Hn'. }
  assert (C : forall q x (g : G), J x -> let r := construct seeded next u (w_Tmin w0) (w_Tmax w0) q x g in
    J (fst (fst r)) /\ i_toas (fst (fst r)) = i_toas x /\ (forall kk, cache_key R (u_names u) q = Ok kk -> snd r = Ok tt /\ i_basis (fst (fst r)) <> None)).
  { clear - HS HO HM J. intros q x g1 [N Jx]. unfold construct, cache_call. destruct (cache_key R (u_names u) q) as [kk|e].
    2:{ cbn. split; [|split; [reflexivity|discriminate]]. destruct x. split; [exact N|exact Jx]. }
    assert (Bd : build seeded next u (w_Tmin w0) (w_Tmax w0) (i_toas x) q (i_basis x, g1) =
      match create_red seeded next (i_toas x) (with_span o T) g1 with (Err e, g) => ((i_basis x, g), Err e) | (Ok b, g) => ((Some b, g), Ok tt) end).
    { unfold build. rewrite HS, HO. cbn [fst snd]. now destruct (create_red _ _ _ _ _) as [[?|?] ?]. }
    destruct (red_succeeds G seeded next (i_toas x) o T g1 N HM) as (b & g' & EC). rewrite EC in Bd. cbn [fst snd].
    destruct Jx as [[E1 E2]|(k0 & b0 & E1 & E2 & g0 & E3)]; rewrite E1.
    - cbn [cempty cmap clist dmem dget]. unfold dmem. cbn [dget]. rewrite Bd. cbn [app dset]. unfold cevict. cbn [clist cmap length Nat.ltb Nat.leb].
      unfold dgetE. cbn [cmap dget]. destruct (key_eq_dec Req_EM_T kk kk); [|congruence]. cbn [fst snd i_toas i_basis].
      split; [|split; [reflexivity|intros _ _; split; [reflexivity|discriminate]]]. split; [exact N|]. right. exists kk, b. cbn [i_cache i_basis i_toas]. split; [reflexivity|]. split; [reflexivity|]. exists g1. now rewrite EC.
    - cbn [cmap clist]. unfold dmem. cbn [dget]. destruct (key_eq_dec Req_EM_T kk k0) as [->|NE].
      + unfold dgetE. cbn [dget]. destruct (key_eq_dec Req_EM_T k0 k0); [|congruence]. cbn [fst snd i_toas i_basis i_cache].
        split; [|split; [reflexivity|intros _ _; split; [reflexivity|congruence]]]. split; [exact N|]. right. exists k0, b0. cbn [i_cache i_basis i_toas]. split; [reflexivity|]. split; [exact E2|]. eauto.
      + rewrite Bd. cbn [app dset]. destruct (key_eq_dec Req_EM_T kk k0) as [|_]; [congruence|]. cbn [dset]. unfold cevict. cbn [clist cmap length Nat.ltb Nat.leb dpop].
        destruct (key_eq_dec Req_EM_T k0 k0); [|congruence]. destruct (key_eq_dec Req_EM_T k0 kk); [congruence|].
        unfold dgetE. cbn [cmap dget]. destruct (key_eq_dec Req_EM_T kk kk); [|congruence]. cbn [fst snd i_toas i_basis].
        split; [|split; [reflexivity|intros _ _; split; [reflexivity|discriminate]]]. split; [exact N|]. right. exists kk, b. cbn [i_cache i_basis i_toas]. split; [reflexivity|]. split; [reflexivity|]. exists g1. now rewrite EC. }
  assert (M : forall evals w, Forall (fun a => ~ is_new a) evals -> w_Tmin w = w_Tmin w0 -> w_Tmax w = w_Tmax w0 -> Forall J (w_insts w) ->
    let w' := fold_left (step seeded next u) evals w in w_Tmin w' = w_Tmin w0 /\ w_Tmax w' = w_Tmax w0 /\ Forall J (w_insts w') /\ map i_toas (w_insts w') = map i_toas (w_insts w)).
  { clear - C. induction evals as [|[ts ps|j q] evals IH]; intros w H E1 E2 HJ; [cbn; auto| |]; inversion H; subst; [now destruct H2|].
    cbn [fold_left step]. unfold evaluate. destruct (nth_error (w_insts w) j) as [x|] eqn:Ex; [|now apply IH].
    assert (Jx : J x) by (rewrite Forall_forall in HJ; apply HJ; eapply nth_error_In; exact Ex).
    pose proof (C q x (w_rng w) Jx) as Cx. cbv zeta in Cx. rewrite E1, E2. destruct (construct _ _ _ _ _ _ _) as [[x' g'] r]. cbn [fst snd] in *. destruct Cx as (Jx' & Ex' & _).
    set (w1 := World (w_Tmin w0) (w_Tmax w0) (put j x' (w_insts w)) g').
    destruct (IH w1 H3 eq_refl eq_refl (put_Forall J _ j x' HJ Jx')) as (A1 & A2 & A3 & A4). split; [exact A1|]. split; [exact A2|]. split; [exact A3|].
    rewrite A4. cbn [w1 w_insts]. now apply put_map with (y := x). }
  destruct (M evals w0 He eq_refl eq_refl J0) as (M1 & M2 & M3 & M4). set (w := fold_left _ evals w0) in *. clearbody w.
  assert (Ek : exists x, nth_error (w_insts w) k = Some x /\ i_toas x = toas).
  { assert (E : nth_error (map i_toas (w_insts w)) k = Some toas) by (rewrite M4, NI, nth_error_map, Hk; reflexivity).
    rewrite nth_error_map in E. destruct (nth_error (w_insts w) k) as [x|]; [|discriminate]. injection E as <-. eauto. }
  destruct Ek as (x & Ex & Et).
  assert (Jx : J x) by (rewrite Forall_forall in M3; apply M3; eapply nth_error_In; exact Ex).
  pose proof (C p x (w_rng w) Jx) as Cx. cbv zeta in Cx. unfold get_basis, evaluate. rewrite Ex, M1, M2.
  destruct (construct _ _ _ _ _ _ _) as [[x' g'] r]. cbn [fst snd] in *. destruct Cx as ([_ Jx'] & Ex' & Cx). destruct (Cx key Hp) as [-> Nb].
  cbn [rbind]. unfold stored. cbn [w_insts]. rewrite nth_put by (apply nth_error_Some; congruence). rewrite Nat.eqb_refl.
  destruct Jx' as [[_ Z]|(k0 & [F ff] & _ & Eb & g0 & Er)]; [congruence|]. rewrite Eb. cbn [rmap rbind fst]. rewrite Ex', Et in Er.
  pose proof (red_labels seeded next toas o T g0 F ff Er) as ->. exists F, T, g0. auto.
Qed.

(** ** Priors *)
Definition pos_of (a : op) : vec := match a with New _ pos => pos | Eval _ _ => origin end.
Lemma put_pos : forall l k x y, nth_error l k = Some y -> i_pos x = i_pos y -> map i_pos (put k x l) = map i_pos l.
Proof. induction l as [|z l IH]; intros [|k] x y H E; try discriminate; cbn in *; [injection H as ->; now rewrite E|f_equal; now apply (IH k x y)]. Qed.
Lemma news_pos : forall (G : Type) (seeded : Z -> G) next u, u_coef u = false -> forall news g, Forall is_new news -> Forall (fun a => toas_of a <> []) news ->
  map i_pos (w_insts (run seeded next u news (start g))) = map pos_of news.
Proof.
  intros G seeded next u HC news g. induction news as [|a news IH] using rev_ind; intros H HN; [reflexivity|].
  apply Forall_app in H as [H1 H2]. apply Forall_app in HN as [N1 N2]. specialize (IH H1 N1). unfold run in *. rewrite fold_left_app. cbn [fold_left]. set (w := fold_left _ news _) in *.
  inversion H2; subst. inversion N2; subst. destruct a as [toas pos|]; [|now destruct H3]. cbn [step]. unfold create. rewrite HC. cbn [toas_of] in H5.
  rewrite map_app. destruct toas as [|t toas]; [congruence|].
  destruct (u_Tspan u); cbn [minimum maximum fst w_insts w_Tmin w_Tmax]; rewrite map_app, IH; reflexivity.
Qed.
Lemma evals_pos : forall (G : Type) (seeded : Z -> G) next u evals w, Forall (fun a => ~ is_new a) evals ->
  map i_pos (w_insts (fold_left (step seeded next u) evals w)) = map i_pos (w_insts w).
Proof.
  intros G seeded next u evals. induction evals as [|a evals IH]; intros w H; [reflexivity|]. inversion H; subst. cbn [fold_left]. rewrite (IH _ H3). clear IH H H3.
  destruct a as [|k p]; [exfalso; apply H2; exact I|]. cbn [step]. unfold evaluate. destruct (nth_error (w_insts w) k) as [x|] eqn:E; [|reflexivity].
  destruct (construct seeded next u (w_Tmin w) (w_Tmax w) p x (w_rng w)) as [[x' g] r] eqn:C. cbn [fst w_insts]. apply (put_pos _ _ _ _ E).
  unfold construct in C. destruct (cache_call _ _ _ _ _ _) as [[c [b g']] r']. injection C as <- <- <-. reflexivity.
Qed.
Lemma phi_values_lem : forall (G : Type) (seeded : Z -> G) next u o, factory u = Ok u -> u_Tspan u = None -> (forall p, u_opts u p = Ok o) ->
  (forall l, o_modes o <> Some (PyList l)) ->
  forall prior orf news evals g k toas pos p key, Forall is_new news -> Forall (fun a => toas_of a <> []) news -> Forall (fun a => ~ is_new a) evals ->
  nth_error news k = Some (New toas pos) -> cache_key R (u_names u) p = Ok key ->
  let w := run seeded next u (news ++ evals) (start g) in
  exists T, is_span (arrived news) T /\
    snd (get_phi seeded next u prior orf k p w) = Ok (map (fun x => x * orf pos pos) (prior (rep 2 (frequencies o T)) p)) /\
    forall k' toas' pos', nth_error news k' = Some (New toas' pos') ->
      get_phicross prior orf k k' p (fst (get_phi seeded next u prior orf k p w)) = Ok (map (fun x => x * orf pos pos') (prior (rep 2 (frequencies o T)) p)).
Proof.
  intros G seeded next u o HF HT HO HM prior orf news evals g k toas pos p key Hn Hn' He Hk Hp w.
  assert (HC : u_coef u = false). { unfold factory in HF. rewrite HT in HF. destruct (u_coef u); [discriminate|reflexivity]. }
  destruct (evaluations_succeed_lem G seeded next u o HF HT HO HM news evals g k toas pos p key Hn Hn' He Hk Hp) as (F & T & g' & HB & HS & _).
  fold w in HB. exists T. split; [exact HS|]. unfold get_basis in HB. unfold get_phi.
  destruct (evaluate seeded next u k p w) as [w' r] eqn:EV. cbn [fst snd] in *.
  destruct r as [r|]; [|discriminate]. cbn [rbind] in HB. destruct (stored k w') as [[F' ff]|] eqn:ES; [|discriminate]. clear HB.
  assert (EW : w' = run seeded next u (news ++ (evals ++ [Eval k p])) (start g)).
  { rewrite app_assoc. unfold run. rewrite fold_left_app. fold (run seeded next u (news ++ evals) (start g)). fold w. cbn [fold_left step]. now rewrite EV. }
  assert (He' : Forall (fun a => ~ is_new a) (evals ++ [Eval k p])) by (apply Forall_app; split; [exact He|constructor; [intros []|constructor]]).
  assert (EF : ff = rep 2 (frequencies o T)).
  { pose proof ES as ES'. rewrite EW in ES'. apply common_span_lem in ES' as (T1 & S1 & p1 & o1 & _ & E1 & ->); [|assumption..]. rewrite HO in E1. injection E1 as <-. now rewrite (span_unique _ _ _ S1 HS). }
  assert (HP : map i_pos (w_insts w') = map pos_of news).
  { rewrite EW. unfold run. rewrite fold_left_app, evals_pos by exact He'. now apply news_pos. }
  assert (HN : forall j tj pj, nth_error news j = Some (New tj pj) -> exists x, nth_error (w_insts w') j = Some x /\ i_pos x = pj).
  { intros j tj pj H. assert (E : nth_error (map i_pos (w_insts w')) j = Some pj) by (rewrite HP, nth_error_map, H; reflexivity).
    rewrite nth_error_map in E. destruct (nth_error (w_insts w') j) as [x|]; [|discriminate]. injection E as <-. eauto. }
  cbn [rbind snd]. destruct (HN _ _ _ Hk) as (x & Hx & Ex). rewrite Hx, Ex, EF. split; [reflexivity|].
  intros k' toas' pos' Hk'. unfold get_phicross. rewrite ES, Hx. cbn [rbind snd]. destruct (HN _ _ _ Hk') as (x' & Hx' & Ex'). now rewrite Hx', Ex, Ex', EF.
Qed.
