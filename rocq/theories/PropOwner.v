From Coq Require Import String Ascii List Reals.
From Verif Require Import PyBase ModelSelect ModelFunc ModelGp ModelKinds ModelStandard ProofKinds ProofNames ProofNamesStd ProofOwner.
Import ListNotations.
Local Open Scope string_scope.
Local Open Scope list_scope.

(** C126: names of white noise parameters tell pulsar, backend and keyword apart if the names
    of pulsars have no underscore, whatever those of backends have. *)
Theorem white_names_distinct : forall d d' k k' w w', d <> "" -> d' <> "" -> k <> "" -> k' <> "" -> no_underscore d -> no_underscore d' -> In w white_keywords -> In w' white_keywords ->
  us_name [d; k; w] = us_name [d'; k'; w'] -> d = d' /\ k = k' /\ w = w'.
Proof. exact white_names_distinct_lem. Qed.
Print Assumptions white_names_distinct.
Example white_names_distinct_example : no_underscore "J1713+0747" /\ us_name ["J1713+0747"; "L-wide_ASP"; "log10_t2equad"] = "J1713+0747_L-wide_ASP_log10_t2equad".
Proof. exact (conj (proj1 (proj2 (white_owner_ex w_c))) eq_refl). Qed.

(** C126: no two backends, of one pulsar or two, share a white noise parameter of the standard
    model (EFAC, EQUAD, TNEQUAD, ECORR), unless the factories were given instances. *)
Theorem white_owner : forall m d d' k k' x, own_white m -> d_name d <> "" -> d_name d' <> "" -> k <> "" -> k' <> "" -> no_underscore (d_name d) -> no_underscore (d_name d') ->
  white_named m d k x -> white_named m d' k' x -> d_name d = d_name d' /\ k = k'.
Proof. exact white_owner_lem. Qed.
Print Assumptions white_owner.
Example white_owner_example : forall c, own_white (h_m c) /\ no_underscore "J1713+0747" /\ white_named (h_m c) (h_psr "J1713+0747" "L-wide_ASP") "L-wide_ASP" "J1713+0747_L-wide_ASP_log10_ecorr".
Proof. exact white_owner_ex. Qed.

(** C126: with underscores two pulsars may share one without any common signal. *)
Theorem shared_names_refuted : forall c : fcl, exists m d d' x, m_orf m = None /\ m_efac m = AParC c /\ d_name d <> d_name d' /\ std_named m d x /\ std_named m d' x.
Proof. exact shared_names_refuted_lem. Qed.
Print Assumptions shared_names_refuted.
