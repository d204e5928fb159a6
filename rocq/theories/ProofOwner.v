(** Proofs about names that two pulsars could share. *)
From Coq Require Import String Ascii List Reals.
From Verif Require Import PyBase ModelSelect ModelFunc ModelGp ModelKinds ModelStandard ProofKinds ProofNames ProofNamesStd.
Import ListNotations.
Local Open Scope string_scope.
Local Open Scope list_scope.

(** * Specification *)
Fixpoint no_underscore (s : string) : Prop := match s with EmptyString => True | String a s => a <> "_"%char /\ no_underscore s end.
Definition white_keywords : list string := ["efac"; "log10_t2equad"; "log10_tnequad"; "log10_ecorr"].

(** * Proof *)
Lemma us3 d k w : d <> "" -> k <> "" -> w <> "" -> us_name [d; k; w] = append d (append "_" (append k (append "_" w))).
Proof.
  intros hd hk hw; unfold us_name; cbn [filter].
  rewrite (proj2 (String.eqb_neq d "") hd), (proj2 (String.eqb_neq k "") hk), (proj2 (String.eqb_neq w "") hw); reflexivity.
Qed.
Lemma first_underscore d d' s s' : no_underscore d -> no_underscore d' -> append d (append "_" s) = append d' (append "_" s') -> d = d' /\ s = s'.
Proof.
  revert d'; induction d as [|a d IH]; intros [|a' d'] h h' e; cbn in e.
  - now injection e.
  - injection e as <- _; destruct h' as [h' _]; now destruct h'.
  - injection e as -> _; destruct h as [h _]; now destruct h.
  - injection e as <- e; destruct h as [_ h], h' as [_ h']; destruct (IH d' h h' e) as [-> ->]; now split.
Qed.
Lemma same_suffix s s' w : append s w = append s' w -> s = s'.
Proof.
  assert (L : forall s w, String.length (append s w) = (String.length s + String.length w)%nat) by (induction s0 as [|a s0 IH]; intros w0; cbn; [reflexivity|now rewrite IH]).
  revert s'; induction s as [|a s IH]; intros [|a' s'] e; [reflexivity| | |].
  - exfalso; apply (f_equal String.length) in e; rewrite !L in e; cbn in e; Lia.lia.
  - exfalso; apply (f_equal String.length) in e; rewrite !L in e; cbn in e; Lia.lia.
  - cbn in e; injection e as <- e; now rewrite (IH _ e).
Qed.
Lemma suffixes s s' w w' : append s w = append s' w' -> (exists t, w = append t w') \/ (exists t, w' = append t w).
Proof.
  revert s'; induction s as [|a s IH]; intros s' e; [left; now exists s'|].
  destruct s' as [|a' s']; [right; now exists (String a s)|]; cbn in e; injection e as _ e; exact (IH _ e).
Qed.
Lemma no_suffix w w' t : In w white_keywords -> In w' white_keywords -> append "_" w = append t (append "_" w') -> w = w'.
Proof.
  intros i i' e; cbn in i, i'.
  repeat (destruct i as [<-|i]); try destruct i; repeat (destruct i' as [<-|i']); try destruct i'; try reflexivity; exfalso;
    repeat (destruct t as [|? t]; cbn in e; try discriminate e; injection e as _ e).
Qed.
Lemma white_names_distinct_lem : forall d d' k k' w w', d <> "" -> d' <> "" -> k <> "" -> k' <> "" -> no_underscore d -> no_underscore d' -> In w white_keywords -> In w' white_keywords ->
  us_name [d; k; w] = us_name [d'; k'; w'] -> d = d' /\ k = k' /\ w = w'.
Proof.
  intros d d' k k' w w' hd hd' hk hk' n n' i i' e.
  assert (ne : forall w, In w white_keywords -> w <> "") by (intros w0 h; cbn in h; repeat (destruct h as [<-|h]; [discriminate|]); destruct h).
  rewrite !us3 in e by auto; apply first_underscore in e as [-> e]; [|assumption|assumption].
  assert (ew : w = w').
  { destruct (suffixes _ _ _ _ e) as [[t h]|[t h]]; [now apply (no_suffix w w' t)|symmetry; now apply (no_suffix w' w t)]. }
  subst w'; apply same_suffix in e; subst k'; repeat split.
Qed.
Lemma ecorr_name_lem : forall d k, d <> "" -> k <> "" -> ecorr_param d k = us_name [d; k; "log10_ecorr"].
Proof. intros d k hd hk; rewrite us3 by (assumption || discriminate); unfold ecorr_param, sel_kname; rewrite (proj2 (String.eqb_neq k "") hk); reflexivity. Qed.
(** * Pulsars whose names share parameters *)
Definition h_psr (name label : string) : psrdata := PsrData name [1%R] [1%R] [1%R] (1, 0, 0)%R [1%R] [(label, [true])] 1 [[1%R]].
Lemma shared_names_refuted_lem : forall c : fcl, exists m d d' x, m_orf m = None /\ m_efac m = AParC c /\ d_name d <> d_name d' /\ std_named m d x /\ std_named m d' x.
Proof.
  intros c; exists (Standard (AParC c) None None None [] None (Power (AVal none) (AVal none)) 1 None), (h_psr "A" "B_c"), (h_psr "A_B" "c"), "A_B_c_efac".
  repeat split; [discriminate| |]; left; (eexists; [left; reflexivity|]); now constructor 1.
Qed.
(** * White noise of the standard model *)
(** The white noise parameters of a backend, none of them an instance made before *)
Definition white_named (m : standard) (d : psrdata) (k x : string) : Prop :=
  named (m_efac m) (us_name [d_name d; k; "efac"]) x \/ if_given (m_equad m) (fun a => named a (us_name [d_name d; k; "log10_t2equad"]) x) \/
  if_given (m_tnequad m) (fun a => named a (us_name [d_name d; k; "log10_tnequad"]) x) \/ if_given (m_ecorr m) (fun kind => kind_named kind (ecorr_param (d_name d) k) x).
Definition own (a : arg gv) : Prop := match a with AInst _ => False | _ => True end.
Definition own_white (m : standard) : Prop := own (m_efac m) /\ (forall a, m_equad m = Some a -> own a) /\ forall a, m_tnequad m = Some a -> own a.
Lemma own_named a n x : own a -> named a n x -> x = n.
Proof. destruct a; cbn; intros h h'; [exact h'|destruct h'|destruct h|destruct h'|destruct h'|destruct h']. Qed.
Lemma white_keyword m d k x : own_white m -> d_name d <> "" -> k <> "" -> white_named m d k x -> exists w, In w white_keywords /\ x = us_name [d_name d; k; w].
Proof.
  intros (h1 & h2 & h3) hd hk [h|[h|[h|h]]].
  - exists "efac"; split; [now left|exact (own_named _ _ _ h1 h)].
  - destruct (m_equad m) as [a|]; [|destruct h]; exists "log10_t2equad"; split; [now right; left|exact (own_named _ _ _ (h2 a eq_refl) h)].
  - destruct (m_tnequad m) as [a|]; [|destruct h]; exists "log10_tnequad"; split; [now right; right; left|exact (own_named _ _ _ (h3 a eq_refl) h)].
  - destruct (m_ecorr m) as [[|v]|]; [|destruct h|destruct h]; exists "log10_ecorr"; split; [now right; right; right; left|].
    rewrite <- ecorr_name_lem by assumption; exact h.
Qed.
Lemma white_owner_lem : forall m d d' k k' x, own_white m -> d_name d <> "" -> d_name d' <> "" -> k <> "" -> k' <> "" -> no_underscore (d_name d) -> no_underscore (d_name d') ->
  white_named m d k x -> white_named m d' k' x -> d_name d = d_name d' /\ k = k'.
Proof.
  intros m d d' k k' x o hd hd' hk hk' n n' h h'.
  destruct (white_keyword _ _ _ _ o hd hk h) as (w & i & ->), (white_keyword _ _ _ _ o hd' hk' h') as (w' & i' & e).
  destruct (white_names_distinct_lem _ _ _ _ _ _ hd hd' hk hk' n n' i i' e) as (e1 & e2 & _); now split.
Qed.
Definition h_m (c : fcl) : standard := Standard (AParC c) (Some (AParC c)) (Some (AParC c)) (Some Varies) [] None (Power (AVal none) (AVal none)) 1 None.
Definition w_c : fcl := FC efac_fn "" [].
Lemma white_owner_ex : forall c, own_white (h_m c) /\ no_underscore "J1713+0747" /\ white_named (h_m c) (h_psr "J1713+0747" "L-wide_ASP") "L-wide_ASP" "J1713+0747_L-wide_ASP_log10_ecorr".
Proof.
  intros c; split; [|split].
  - split; [exact I|split; intros a [= <-]; exact I].
  - cbn; repeat split; discriminate.
  - right; right; right; reflexivity.
Qed.
