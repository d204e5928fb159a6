From Coq Require Import String List Reals.
From Verif Require Import PyBase ModelFunc ModelCache ModelGp ModelBases ModelStandard ProofStdFn ProofKeyword.
Import ListNotations.
Open Scope string_scope.
Open Scope list_scope.
Open Scope R_scope.

(** C123: a spectrum with a turnover ([turnover]) as the spectrum of a process or of a common
    process. Any of its keywords are given, each a class or an instance of a parameter, a
    constant or a number; parameters of classes are named after process and keyword; the others
    have the values of gp_priors.py ([keywords]). Its variance at the frequency k/T is that of
    the power law of amplitude log10_A and exponent gamma times (1 + (10^lf0/f)^kappa)^(-2 beta). *)
Theorem standard_turnover : forall n p name psr T A g kws val, 0 < T -> (psr = None \/ exists d, psr = Some (d_gv d)) ->
  keywords p name kws [] [("log10_A", -15); ("gamma", 433 / 100); ("lf0", -17 / 2); ("kappa", 10 / 3); ("beta", 1 / 2)] val ->
  shape_has p (Prior (FC turnover_fn "" kws)) name psr T n A g
    (fun k => psd (val "log10_A") (val "gamma") (INR k / T) * Rpower (1 + Rpower (Rpower 10 (val "lf0") / (INR k / T)) (val "kappa")) (- (2 * val "beta")) * (1 / T)).
Proof. exact standard_turnover_lem. Qed.
Print Assumptions standard_turnover.
(** Two parameters, a constant and a number; [beta] by default *)
Example standard_turnover_example : forall c x y z, keywords [("gw_log10_A", Sc x); ("gw_kappa", Sc z)] ["gw"]
  [("kappa", AParC c); ("log10_A", AParC c); ("lf0", ACstC (fun _ => num y)); ("gamma", AVal (num (13 / 3)))]
  [] [("log10_A", -15); ("gamma", 433 / 100); ("lf0", -17 / 2); ("kappa", 10 / 3); ("beta", 1 / 2)] (kw_val x y z).
Proof. exact standard_turnover_ex. Qed.

(** C123: the same for a turnover with a knee ([turnover_knee]), whose keywords are all needed. *)
Theorem standard_knee : forall n p name psr T A g kws val, 0 < T -> (psr = None \/ exists d, psr = Some (d_gv d)) ->
  keywords p name kws ["log10_A"; "gamma"; "lfb"; "lfk"; "kappa"; "delta"] [] val ->
  shape_has p (Prior (FC knee_fn "" kws)) name psr T n A g
    (fun k => psd (val "log10_A") (val "gamma") (INR k / T) * (Rpower (1 + INR k / T / Rpower 10 (val "lfk")) (2 * val "delta") / (1 + Rpower (Rpower 10 (val "lfb") / (INR k / T)) (val "kappa"))) * (1 / T)).
Proof. exact standard_knee_lem. Qed.
Print Assumptions standard_knee.
Example standard_knee_example : forall x, keywords [("A_gw_lfk", Sc x)] ["A"; "gw"; ""]
  [("log10_A", AVal (num 0)); ("gamma", AVal (num 0)); ("lfb", AVal (num 0)); ("lfk", AInst (Par "A_gw_lfk" (FObj "" (PyFun [] [] (fun _ => Ok (num 0))) None [] [] [] []))); ("kappa", AVal (num 0)); ("delta", AVal (num 0))]
  ["log10_A"; "gamma"; "lfb"; "lfk"; "kappa"; "delta"] [] (fun k => if String.eqb k "lfk" then x else 0).
Proof. exact standard_knee_ex. Qed.

(** C123: the same for a broken power law ([broken_powerlaw]), where [kappa] can be left out. *)
Theorem standard_broken : forall n p name psr T A g kws val, 0 < T -> (psr = None \/ exists d, psr = Some (d_gv d)) ->
  keywords p name kws ["log10_A"; "gamma"; "delta"; "log10_fb"] [("kappa", 1 / 10)] val -> val "kappa" <> 0 ->
  shape_has p (Prior (FC broken_fn "" kws)) name psr T n A g
    (fun k => psd (val "log10_A") (val "gamma") (INR k / T) * Rpower (1 + Rpower (INR k / T / Rpower 10 (val "log10_fb")) (1 / val "kappa")) (val "kappa" * (val "gamma" - val "delta")) * (1 / T)).
Proof. exact standard_broken_lem. Qed.
Print Assumptions standard_broken.
Example standard_broken_example : exists val, keywords [] ["gw"] [("log10_A", AVal (num 1)); ("gamma", AVal (num 1)); ("delta", AVal (num 1)); ("log10_fb", AVal (num 1))]
  ["log10_A"; "gamma"; "delta"; "log10_fb"] [("kappa", 1 / 10)] val /\ val "kappa" <> 0.
Proof. exact standard_broken_ex. Qed.
