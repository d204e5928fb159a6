(** The classes [Parameter], [GPCoefficients], [UserParameter] and [Uniform]
    (enterprise/signals/parameter.py L39-239): evaluation of the density, its
    logarithm, the quantile function and the sampler of a named parameter. Functions are
    those of ModelFunc.v.
    Numbers are reals, minus infinity and nan; plus infinity counts as nan. Arrays have
    one dimension; numpy's stretching of arrays with one entry is refused. *)
From Coq Require Import Reals String Bool Arith List.
From Verif Require Import PyBase ModelFunc.
Import ListNotations.
Open Scope string_scope.
Open Scope list_scope.

Inductive xr : Type := Fin (x : R) | MInf | NaN.
Inductive pv : Type := PNone | PNum (x : xr) | PArr (l : list xr) | PObj (n : nat).

(** ** numpy *)
Definition xlog (x : xr) : xr :=
  match x with Fin r => if Rlt_dec 0 r then Fin (ln r) else if Req_EM_T r 0 then MInf else NaN | _ => NaN end.
Definition xexp (x : xr) : xr := match x with Fin r => Fin (exp r) | MInf => Fin 0 | NaN => NaN end.
Definition xadd (x y : xr) : xr :=
  match x, y with Fin a, Fin b => Fin (a + b) | NaN, _ => NaN | _, NaN => NaN | _, _ => MInf end.
Definition xmul (x y : xr) : xr := match x, y with Fin a, Fin b => Fin (a * b) | _, _ => NaN end.
Definition elementwise (f : xr -> xr) (v : pv) : result pv :=
  match v with PNum x => Ok (PNum (f x)) | PArr l => Ok (PArr (map f l)) | _ => Err TypeError end.
Definition reduce (f : xr -> xr -> xr) (z : xr) (v : pv) : result pv :=
  match v with PNum x => Ok (PNum x) | PArr l => Ok (PNum (fold_right f z l)) | _ => Err TypeError end.
Definition np_log := elementwise xlog.
Definition np_exp := elementwise xexp.
Definition np_sum := reduce xadd (Fin 0).
Definition np_prod := reduce xmul (Fin 1).

(** ** Parameters *)
(** A parameter class: what [hasattr] finds of [_prior], [_logprior] and [_ppf]; [_sampler]
    may be None. *)
Record pclass := PClass { pc_size : option nat; pc_prior : option (fclass pv); pc_logprior : option (fclass pv);
                          pc_ppf : option (fclass pv); pc_sampler : option (pyfun pv) }.
Record param := Param { pm_name : string; pm_size : option nat; pm_dist : fobj pv + fobj pv;
                        pm_ppf : option (fobj pv); pm_sampler : option (pyfun pv) }.
(** L43-59; [inl] is a density, [inr] its logarithm *)
Definition new_param (c : pclass) (name : string) : result param :=
  let ppf := option_map (fun q => inst q name None) (pc_ppf c) in
  match pc_prior c, pc_logprior c with
  | Some p, _ => Ok (Param name (pc_size c) (inl (inst p name None)) ppf (pc_sampler c))
  | None, Some l => Ok (Param name (pc_size c) (inr (inst l name None)) ppf (pc_sampler c))
  | None, None => Err AttributeError
  end.
(** A call of a function object; those of parameters have no pulsar *)
Definition fcall (o : fobj pv) (args : list pv) (kw : dict string pv) (params : option (dict string pv)) (func : option (pyfun pv)) : result pv :=
  call (fun _ _ => None) (fun _ v => v) o args kw (match params with Some d => d | None => [] end) func.
(** L66-67, L81-82, L111-112 *)
Definition the_value (p : param) (value : pv) (params : option (dict string pv)) : result pv :=
  match value, params with PNone, Some d => dgetE string_dec d (pm_name p) | _, _ => Ok value end.
(** L61-74 *)
Definition get_logpdf (p : param) (value : pv) (kw : dict string pv) (params : option (dict string pv)) : result pv :=
  rbind (the_value p value params) (fun value =>
  rbind (match pm_dist p with inl prior => rbind (fcall prior [value] kw params None) np_log | inr logprior => fcall logprior [value] kw params None end)
    (fun logpdf => match pm_size p with None => Ok logpdf | Some _ => np_sum logpdf end)).
(** L76-89 *)
Definition get_pdf (p : param) (value : pv) (kw : dict string pv) (params : option (dict string pv)) : result pv :=
  rbind (the_value p value params) (fun value =>
  rbind (match pm_dist p with inl prior => fcall prior [value] kw params None | inr logprior => rbind (fcall logprior [value] kw params None) np_exp end)
    (fun pdf => match pm_size p with None => Ok pdf | Some _ => np_prod pdf end)).
(** L91-105 *)
Definition size_value (s : option nat) : pv := match s with None => PNone | Some n => PNum (Fin (INR n)) end.
Definition sample_par (p : param) (kw : dict string pv) (params : option (dict string pv)) : result pv :=
  match pm_sampler p with
  | None => Err AttributeError
  | Some g =>
      if dmem string_dec kw (pm_name p) then Err ValueError
      else if dmem string_dec kw "size" then Err TypeError
      else fcall (match pm_dist p with inl prior => prior | inr logprior => logprior end) [] (dset string_dec kw "size" (size_value (pm_size p))) params (Some g)
  end.
(** L107-114 *)
Definition get_ppf (p : param) (value : pv) (kw : dict string pv) (params : option (dict string pv)) : result pv :=
  match pm_ppf p with
  | None => Err NotImplementedError
  | Some q => rbind (the_value p value params) (fun value => fcall q [value] kw params None)
  end.

(** L145-155 *)
Definition GPCoefficients (logprior : fclass pv) (size : option nat) : pclass := PClass size None (Some logprior) None None.
(** L158-185 *)
Definition UserParameter (prior logprior : option (fclass pv)) (sampler : option (pyfun pv)) (ppf : option (fclass pv)) (size : option nat) : pclass :=
  PClass size prior logprior ppf sampler.

(** ** Uniform *)
(** L201-205: a number, or arrays of one length and numbers. Comparisons with nan are
    false; dividing by zero raises for numbers and gives inf or nan for arrays. *)
Definition xle (x y : xr) : bool :=
  match x, y with NaN, _ => false | _, NaN => false | MInf, _ => true | Fin _, MInf => false | Fin a, Fin b => if Rle_dec a b then true else false end.
Definition uniform1 (x a b : xr) : xr :=
  match a, b with
  | Fin a', Fin b' => if Req_EM_T (b' - a') 0 then NaN else Fin ((if xle a x && xle x b then 1 else 0) / (b' - a'))
  | _, _ => NaN
  end.
Definition entries (n : nat) (v : pv) : result (list xr) :=
  match v with PNum x => Ok (repeat x n) | PArr l => if Nat.eqb (length l) n then Ok l else Err ValueError | _ => Err TypeError end.
Fixpoint map3 (f : xr -> xr -> xr -> xr) (x y z : list xr) : list xr :=
  match x, y, z with a :: x', b :: y', c :: z' => f a b c :: map3 f x' y' z' | _, _, _ => [] end.
Definition broadcast (f : xr -> xr -> xr -> xr) (x y z : pv) : result pv :=
  let n := match x, y, z with PArr l, _, _ => Some (length l) | _, PArr l, _ => Some (length l) | _, _, PArr l => Some (length l) | _, _, _ => None end in
  match n with
  | Some n => rbind (entries n x) (fun x => rbind (entries n y) (fun y => rmap (fun z => PArr (map3 f x y z)) (entries n z)))
  | None => match x, y, z with PNum x, PNum y, PNum z => Ok (PNum (f x y z)) | _, _, _ => Err TypeError end
  end.
Definition uniform_prior (value pmin pmax : pv) : result pv :=
  match value, pmin, pmax with
  | PNum _, PNum (Fin a), PNum (Fin b) => if Req_EM_T (b - a) 0 then Err ZeroDivisionError else broadcast uniform1 value pmin pmax
  | _, _, _ => broadcast uniform1 value pmin pmax
  end.
(** L214-217 with scipy's [uniform.ppf] *)
Definition ppf1 (q a b : xr) : xr :=
  match q, a, b with
  | Fin q, Fin a, Fin b => if Rlt_dec 0 (b - a) then (if Rle_dec 0 q then if Rle_dec q 1 then Fin (a + (b - a) * q) else NaN else NaN) else NaN
  | _, _, _ => NaN
  end.
Definition UniformPrior_py : pyfun pv := PyFun ["value"; "pmin"; "pmax"] [] (fun l => match l with [v; a; b] => uniform_prior v a b | _ => Err TypeError end).
Definition UniformPPF_py : pyfun pv := PyFun ["value"; "pmin"; "pmax"] [] (fun l => match l with [v; a; b] => broadcast ppf1 v a b | _ => Err TypeError end).
(** L208-211; [rng] is numpy's generator *)
Definition UniformSampler_py (rng : pv -> pv -> pv -> result pv) : pyfun pv := PyFun ["pmin"; "pmax"; "size"] [PNone] (fun l => match l with [a; b; n] => rng a b n | _ => Err TypeError end).
(** L220-239 *)
Definition Uniform (rng : pv -> pv -> pv -> result pv) (pmin pmax : arg pv) (size : option nat) : pclass :=
  PClass size (Some (FC UniformPrior_py "" [("pmin", pmin); ("pmax", pmax)])) None
    (Some (FC UniformPPF_py "" [("pmin", pmin); ("pmax", pmax)])) (Some (UniformSampler_py rng)).
