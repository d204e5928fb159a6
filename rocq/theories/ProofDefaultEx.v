(** Values set after an evaluation, and concrete arrays with constants. *)
From Coq Require Import Reals String ZArith Lra.
From mathcomp Require Import all_ssreflect all_algebra.
From Verif Require Import RStruct PyBase ProofBase ModelSelect ProofSelect ProofQuant ModelFunc ModelCache ModelGp ProofGp ModelColl ProofColl ModelEcorr ModelSigs ProofSigs ModelArray ModelSized ModelKinds ProofKinds ProofKindsEx ModelStandard ProofStdFn ProofKeyword ProofStandard ProofStandardEx ModelDefault ProofDefault ProofDefaultStd.
Set Implicit Arguments.
Unset Strict Implicit.
Unset Printing Implicit Defensive.
Import GRing.Theory Num.Theory.
Local Open Scope seq_scope.
Local Open Scope ring_scope.

(** * Values set after an evaluation *)
Lemma set_names D f : f_names (set_fsel D f) = f_names f.
Proof.
rewrite /f_names /set_fsel; cbn [f_params]; set D' := reach _ _; rewrite -[[seq (_, _) | _ <- _]]/(hmap (set_par D') _) hmap_vals.
by elim: (dvals _) => //= q l IH; rewrite set_cst; case: (is_cst q) => //=; rewrite set_name IH.
Qed.
Lemma late_defaults_lem : forall D f p s s' x, s_ndiag (white_sg f) p s = (s', Ok x) -> s_ndiag (white_sg (set_fsel D f)) p s' = (s', Ok x).
Proof.
move=> D f p s s' x; rewrite /white_sg; cbn [s_ndiag]; rewrite set_names; case: s => // c; rewrite /cached_array /cache_call.
case: (cache_key _ _ p) => // k.
have second (c' : cstate (seq R)) v : dgetE (key_eq_dec Req_EM_T) (cmap c') k = Ok v -> dmem (key_eq_dec Req_EM_T) (cmap c') k by rewrite /dgetE /dmem; case: dget.
case M: (dmem _ (cmap c) k).
  by case e: (dgetE _ _ _) => [v|] // [<-] <-; rewrite M e.
case: (white_body f p) => // v; case e: (dgetE _ _ _) => [w|] // [<-] <-.
by rewrite (second _ _ e) e.
Qed.
Definition l_c : fcl := FC efac_fn "" [:: ("efac"%string, ACstC (fun _ => num 1%coqR))].
Definition l_D : dict string R := [:: ("A_f_efac"%string, 2%coqR)].
Definition l_psr : gv := GPsr [:: ("toaerrs"%string, GV (Vec [:: 1%coqR]))].
Lemma late_defaults_refuted_lem : exists D fn name psrname psr masks f f' p x y,
  new_fsel fn name psrname psr masks = Ok f /\ new_fsel (class_with D fn) name psrname psr masks = Ok f' /\
  (s_ndiag (white_sg (set_fsel D f)) p (s_ndiag (white_sg f) p (SArr cempty)).1).2 = Ok (Some x) /\
  (s_ndiag (white_sg f') p (SArr cempty)).2 = Ok (Some y) /\ x <> y.
Proof.
exists l_D, l_c, ""%string, "A"%string, l_psr, [:: ("f"%string, [:: true])]; do 2 eexists; exists [::], [:: (1 ^ 2 * 1 ^ 2)%coqR], [:: (2 ^ 2 * 1 ^ 2)%coqR].
split; first reflexivity; split; first reflexivity.
split; last split.
- set f := FSel _ _ _ _; have e : s_ndiag (white_sg f) [::] (SArr cempty) = (SArr (CState [:: ([::], [:: (1 ^ 2 * 1 ^ 2)%coqR])] [:: [::]]), Ok (Some [:: (1 ^ 2 * 1 ^ 2)%coqR])) by [].
  by rewrite (late_defaults_lem l_D e).
- by [].
- by move=> [] h; move: h; rewrite /=; lra.
Qed.

(** * Two pulsars with constants *)
(** EFAC, EQUAD, TNEQUAD and ECORR are constants, whose values are in the dictionary but for one,
    which was given to the factory; likewise the amplitude of the common process *)
Definition e_m (c : fcl) (o : option orf_kind) : standard :=
  let unset := ACstC (fun _ => none) in
  Standard (ACstC (fun _ => num 1%coqR)) (Some unset) (Some unset) (Some (Fixed (fun _ => None))) [:: s_red c; Process "dm_gp" Dispersive (Power unset (AVal (num 3%coqR))) 1 (Some 4%coqR) (fun _ => s_bands)] o
    (if o then Power (AInst (Cst "log10_A_gw" none)) (AVal (num (13 / 3)%coqR)) else Power (AVal none) (AVal none)) 1 (Some 4%coqR).
Definition e_D : dict string R :=
  [:: ("A_f_log10_t2equad", -6); ("B_f_log10_t2equad", -7); ("A_f_log10_tnequad", -8); ("B_f_log10_tnequad", -9); ("B_f_efac", 2); ("A_f_log10_ecorr", -6); ("B_f_log10_ecorr", -5); ("A_dm_gp_lo_log10_A", -13); ("B_dm_gp_lo_log10_A", -14); ("A_dm_gp_hi_log10_A", -12); ("B_dm_gp_hi_log10_A", -11);
      ("log10_A_gw", -15); ("A_red_noise_gamma", 3); ("C_f_efac", 5)]%string%coqR.
Definition e_p (v : values) : params R :=
  [:: ("A_red_noise_log10_A", Sc (v_A v "A" "red_noise" "")); ("B_red_noise_log10_A", Sc (v_A v "B" "red_noise" "")); ("A_red_noise_gamma", Sc (v_g v "A" "red_noise" "")); ("B_red_noise_gamma", Sc (v_g v "B" "red_noise" ""))]%string.
(** The values of the constants *)
Definition e_v (v : values) : Prop :=
  [/\ v_efac v "A" "f" = 1%coqR /\ v_efac v "B" "f" = 2%coqR, (v_equad v "A" "f" = (-6)%coqR /\ v_equad v "B" "f" = (-7)%coqR) /\ v_tnequad v "A" "f" = (-8)%coqR /\ v_tnequad v "B" "f" = (-9)%coqR, v_ecorr v "A" "f" = (-6)%coqR /\ v_ecorr v "B" "f" = (-5)%coqR,
      (v_A v "A" "dm_gp" "lo" = (-13)%coqR /\ v_A v "B" "dm_gp" "lo" = (-14)%coqR) /\ v_A v "A" "dm_gp" "hi" = (-12)%coqR /\ v_A v "B" "dm_gp" "hi" = (-11)%coqR & (forall k, v_g v "A" "dm_gp" k = 3%coqR /\ v_g v "B" "dm_gp" k = 3%coqR) /\ v_gwA v = (-15)%coqR /\ v_gwg v = (13 / 3)%coqR].
Lemma e_given c o v : e_v v -> given (std_with e_D (e_m c o)) [:: s_A; s_B] (e_p v) v.
Proof.
move=> [[a1 a2] [[b1 b2] [t1 t2]] [c1 c2] [[d1 d2] [d3 d4]] [e [f1 f2]]]; have e1 k := proj1 (e k); have e2 k := proj2 (e k); split; first by move=> n l /=; repeat case: string_dec => [_ //|_].
split.
  move=> d k [<-|[<-|//]] [<-|//]; (split; [rewrite /= ?a1 ?a2; split; reflexivity|rewrite /= ?b1 ?b2; split; reflexivity| |rewrite /= ?t1 ?t2; split; reflexivity|rewrite /= ?c1 ?c2; split; reflexivity]).
    by rewrite a1 /GRing.zero /=; lra.
  by rewrite a2 /GRing.zero /=; lra.
split.
  by move=> d c' k T [<-|[<-|//]] [<-|[<-|//]]; [move=> [<-|//]|move=> [<-|[<-|//]]|move=> [<-|//]|move=> [<-|[<-|//]]]; split=> //=; rewrite ?d1 ?d2 ?d3 ?d4 ?e1 ?e2.
by case: o => [k|//] T _ _; rewrite /= f1 f2.
Qed.
Lemma e_ok c o : std_ok argsort_ins s_hash (std_with e_D (e_m c o)) [:: s_A; s_B] 4%coqR (fun _ _ _ => 4%coqR).
Proof.
have [ky cm psr] := s_ok c o; split=> [|//|d hd].
  by split=> // c' [<-|[<-|//]].
have [h1 h2 h3 h4 h5] := psr d hd; split; [by case: h1|exact: h2|exact: h3| |exact: h5].
by move=> c' [<-|[<-|//]]; [apply: (h4 (s_red c)); left|apply: (h4 (s_dm c)); right; left].
Qed.
Lemma e_made c o S (seeded : Z -> S) next : exists dss, new_warray argsort_ins (std_fns (e_m c o)) (std_array seeded next (e_m c o) 4%coqR [:: s_A; s_B]) = Ok dss.
Proof.
have H : std_ok argsort_ins s_hash (e_m c o) [:: s_A; s_B] 4%coqR (fun _ _ _ => 4%coqR).
  have [ky cm psr] := s_ok c o; split=> [|//|d hd]; first by split=> // c' [<-|[<-|//]].
  have [h1 h2 h3 h4 h5] := psr d hd; split; [by case: h1|exact: h2|exact: h3| |exact: h5].
  by move=> c' [<-|[<-|//]]; [apply: (h4 (s_red c)); left|apply: (h4 (s_dm c)); right; left].
by have [dss h] := std_array_made seeded next H; exists dss.
Qed.
Lemma e_known c o : known_shapes (e_m c o) [:: s_A; s_B].
Proof. by split; [case: o|move=> d c' _ [<-|[<-|//]]]. Qed.
Lemma e_spans c o d c' : List.In d [:: s_A; s_B] -> List.In c' (m_procs (e_m c o)) -> c_sel c' d <> [::] /\ forall k, List.In k (dkeys (c_sel c' d)) -> spans (c_T c') (sel_toas d (sel_mask (c_sel c' d) k)) 4%coqR.
Proof. by move=> _ [<-|[<-|//]]. Qed.
Lemma e_settable c o S (seeded : Z -> S) next v : e_v v -> forall x s, List.In x (std_array seeded next (e_m c o) 4%coqR [:: s_A; s_B]) -> List.In s x.1 -> settable (std_fns (e_m c o)) s.
Proof. by move=> hv x s; have [ky _ _] := e_ok c o; exact: (settable_std (Tr := fun _ _ _ => 4%coqR) (e_known c o) (@e_spans c o) (fun _ => erefl) ky (e_given c o hv)). Qed.
Definition e_values : values :=
  Values (fun d _ => if String.eqb d "A" then 1 else 2)%coqR (fun d _ => if String.eqb d "A" then -6 else -7)%coqR (fun d _ => if String.eqb d "A" then -8 else -9)%coqR (fun d _ => if String.eqb d "A" then -6 else -5)%coqR
    (fun d c k => if String.eqb c "dm_gp" then if String.eqb k "lo" then if String.eqb d "A" then -13 else -14 else if String.eqb d "A" then -12 else -11 else -14)%coqR (fun _ _ _ => 3)%coqR (fun _ _ _ _ => 0)%coqR (-15)%coqR (13 / 3)%coqR (fun _ => 0)%coqR.
Lemma e_values_ok : e_v e_values. Proof. by []. Qed.
Lemma defaults_made_ex : forall c o S (seeded : Z -> S) next, (exists dss, new_warray argsort_ins (std_fns (e_m c o)) (std_array seeded next (e_m c o) 4%coqR [:: s_A; s_B]) = Ok dss) /\
  forall x s, List.In x (std_array seeded next (e_m c o) 4%coqR [:: s_A; s_B]) -> List.In s x.1 -> settable (std_fns (e_m c o)) s.
Proof. by move=> c o S seeded next; split; [exact: e_made|exact: (e_settable e_values_ok)]. Qed.
Lemma late_defaults_ex : exists f p s s' x, s_ndiag (white_sg f) p s = (s', Ok x).
Proof.
have [f ef] : exists f, new_fsel l_c "" "A" l_psr [:: ("f"%string, [:: true])] = Ok f by eexists; reflexivity.
exists f, [::], (SArr cempty), (SArr (CState [:: ([::], [:: (1 ^ 2 * 1 ^ 2)%coqR])] [:: [::]])), (Some [:: (1 ^ 2 * 1 ^ 2)%coqR]); by case: ef => <-.
Qed.
(** * Functions of common processes *)
Lemma defaults_common_lem : forall D fns (dss : seq (seq wdesc)) cls prior orf name, fns cls = (inst prior name None, inst orf name None) -> shown prior -> shown orf ->
  clear [:: inst prior name None; inst orf name None] -> (set_defaults D fns dss).1 cls = (inst (class_with D prior) name None, inst (class_with D orf) name None).
Proof.
move=> D fns dss cls prior orf name e n1 n2 cl; rewrite /set_defaults /set_fns; cbn [fst]; rewrite e; cbn [fst snd].
rewrite -[com_params _]/(all_params (flatten [seq pars_of o | o <- [:: inst prior name None; inst orf name None]])).
by congr pair; rewrite reach_set; first [exact: set_inst|exact: cl|by move=> n; first [exact: n1|exact: n2]|by left|by right; left].
Qed.
Definition c_prior : fcl := FC powerlaw_fn "" [:: ("log10_A", AFunC (FC (PyFun [:: "x"]%string [::] (fun l => Ok (List.hd none l))) "" [:: ("x", ACstC (fun _ => none))]%string)); ("gamma", AVal (num 3%coqR))]%string.
Definition c_orf : fcl := FC (PyFun [:: "pos1"; "pos2"; "a"]%string [:: num 1%coqR] (fun _ => Ok (num 0%coqR))) "" [:: ("a", ACstC (fun _ => none))]%string.
Lemma defaults_common_ex : shown c_prior /\ shown c_orf /\ clear [:: inst c_prior "gw" None; inst c_orf "gw" None] /\
  let D := [:: ("gw_a", 2); ("gw_log10_A_x", -15)]%string%coqR in class_with D c_prior <> c_prior /\ class_with D c_orf <> c_orf.
Proof.
split; first by move=> nm psr n [<-|[<-|//]]; eexists; by [left|].
split; first by move=> nm psr n [<-|//]; eexists; by [left|].
split; first by move=> o o' q q' [<-|[<-|//]] [<-|[<-|//]] [<-|//] [<-|//].
split; rewrite /c_prior /c_orf /= => -[] /(congr1 (fun f => f "gw_a"%string)) //=.
Qed.
(** * Constants that another keyword hides *)
Definition h_fn (k : string) : string * arg gv := (k, AFunC (FC (PyFun [:: "x"]%string [::] (fun l => Ok (List.hd none l))) "" [:: ("x"%string, ACstC (fun _ => num 1%coqR))])).
Definition h_prior : fcl := FC (PyFun [:: "a"; "b"]%string [::] (fun l => Ok (List.hd none l))) "" [:: h_fn "a"; h_fn "b"].
Lemma hidden_defaults_refuted_lem : exists (D : dict string R) prior orf, clear [:: inst prior "gw" None; inst orf "gw" None] /\
  forall (fns : nat -> fob * fob) (dss : seq (seq wdesc)), fns 0%N = (inst prior "gw" None, inst orf "gw" None) ->
  gcall ((set_defaults D fns dss).1 0%N).1 [::] [::] [::] = gcall (inst prior "gw" None) [::] [::] [::] /\
  gcall (inst prior "gw" None) [::] [::] [::] <> gcall (inst (class_with D prior) "gw" None) [::] [::] [::].
Proof.
exists [:: ("gw_a_x"%string, 2%coqR)], h_prior, (FC (PyFun [::] [::] (fun _ => Ok none)) "" [::]); split.
  by move=> o o' q q' [<-|[<-|//]] [<-|[<-|//]] // [<-|//] [<-|//].
move=> fns dss e; rewrite /set_defaults /set_fns; cbn [fst]; rewrite e; split; first by [].
rewrite /gcall /=; case=> h; have := @Rlt_irrefl 1%coqR; lra.
Qed.
(** * A turnover whose amplitude is a constant and whose frequency is a parameter *)
Definition u_fn (c : fcl) : fcl := FC turnover_fn "" [:: ("log10_A", ACstC (fun _ => none)); ("lf0", AParC c)]%string.
Definition u_m (c : fcl) : standard :=
  Standard (m_efac (e_m c None)) (m_equad (e_m c None)) (m_tnequad (e_m c None)) (m_ecorr (e_m c None)) (m_procs (e_m c None)) (Some Hd) (Prior (u_fn c)) 1 (Some 4%coqR).
Definition u_D : dict string R := ("gw_log10_A"%string, (-15)%coqR) :: e_D.
Definition u_val (x : R) (k : string) : R :=
  (if String.eqb k "log10_A" then -15 else if String.eqb k "gamma" then 433 / 100 else if String.eqb k "lf0" then x else if String.eqb k "kappa" then 10 / 3 else 1 / 2)%coqR.
Definition u_rho (x : R) (k : nat) : R :=
  (psd (u_val x "log10_A") (u_val x "gamma") (INR k / 4) * Rpower (1 + Rpower (Rpower 10 (u_val x "lf0") / (INR k / 4)) (u_val x "kappa")) (- (2 * u_val x "beta")) * (1 / 4))%coqR.
Lemma u_keywords c x p : dget string_dec p "gw_lf0"%string = Some (Sc x) -> dget string_dec p "gw_log10_A"%string = None ->
  keywords p [:: "gw"%string] [:: ("log10_A", ACstC (fun n => default u_D n none)); ("lf0", AParC c)]%string [::]
    [:: ("log10_A", -15); ("gamma", 433 / 100); ("lf0", -17 / 2); ("kappa", 10 / 3); ("beta", 1 / 2)]%string%coqR (u_val x).
Proof.
move=> h1 h2; split; first by constructor; [case=> //|constructor; [case|constructor]].
split; first by move=> k [].
split; first by move=> k [<-|[<-|//]]; [left|right; right; left].
split; first by move=> k a [[<- <-]|[[<- <-]|//]].
by move=> k y [[<- <-]|[[<- <-]|[[<- <-]|[[<- <-]|[[<- <-]|//]]]]] // h; case: h; right; left.
Qed.
Lemma u_known c : known_shapes (u_m c) [:: s_A; s_B].
Proof.
split; last by move=> d c' _ [<-|[<-|//]].
by split; [by apply: plain_shown; repeat constructor|move=> o o' q q' [<-|//] [<-|//] [<-|[<-|//]] [<-|[<-|//]]].
Qed.
Lemma u_ok c : std_ok argsort_ins s_hash (std_with u_D (u_m c)) [:: s_A; s_B] 4%coqR (fun _ _ _ => 4%coqR).
Proof.
have [ky cm psr] := s_ok c (Some Hd); split=> [|//|d hd].
  by split=> // c' [<-|[<-|//]].
have [h1 h2 h3 h4 h5] := psr d hd; split; [by case: h1|exact: h2|exact: h3| |exact: h5].
by move=> c' [<-|[<-|//]]; [apply: (h4 (s_red c)); left|apply: (h4 (s_dm c)); right; left].
Qed.
Lemma u_given c v x : e_v v -> v_gwrho v = u_rho x -> given (std_with u_D (u_m c)) [:: s_A; s_B] (("gw_lf0"%string, Sc x) :: e_p v) v.
Proof.
move=> hv er; have [h1 [h2 _]] := e_given c None hv; split; first by move=> n l /=; repeat case: string_dec => [_ //|_].
split; first by move=> d k hd hk; have := h2 d k hd hk; move: hd hk => [<-|[<-|//]] [<-|//].
split.
  move: hv => [_ _ _ [[d1 d2] [d3 d4]] [e _]]; have e1 k := proj1 (e k); have e2 k := proj2 (e k).
  by move=> d c' k T [<-|[<-|//]] [<-|[<-|//]]; [move=> [<-|//]|move=> [<-|[<-|//]]|move=> [<-|//]|move=> [<-|[<-|//]]]; split=> //=; rewrite ?d1 ?d2 ?d3 ?d4 ?e1 ?e2.
move=> T _ [<-]; rewrite er.
have T0 : (0 < 4)%coqR by lra.
have H := (@standard_turnover_lem 1 (("gw_lf0"%string, Sc x) :: e_p v) [:: "gw"%string] None 4%coqR (v_gwA v) (v_gwg v) _ (u_val x) T0 (or_introl erefl) (@u_keywords c x (("gw_lf0"%string, Sc x) :: e_p v) erefl erefl)).
exact H.
Qed.
