(** Model of WidebandTimingModel (enterprise/signals/gp_signals.py L522-788).
    Numbers are exact reals; the caches of its methods are in
    ModelKinds.v. *)
From Coq Require Import Reals String.
From mathcomp Require Import all_ssreflect all_algebra.
From Verif Require Import RStruct PyBase ModelLinalg ModelCond.
Set Implicit Arguments.
Unset Strict Implicit.
Unset Printing Implicit Defensive.
Import GRing.Theory Num.Theory Order.TTheory.
Local Open Scope ring_scope.

(** An entry of [psr.dmx]: "fit", "DMX", "DMXR1" and "DMXR2". *)
Record dmx_par := DmxPar { d_fit : bool; d_val : R; d_r1 : R; d_r2 : R }.
(** An interval as the signal keeps it: [_dmx], [_dmindex] and [_dmwhich]. *)
Record dmx_bin (n : nat) := DmxBin { b_val : R; b_index : nat; b_which : pred 'I_n }.

Section Init.
Variables (n : nat) (stoas : 'cV[R]_n) (fitpars : seq string).

(** L626: the TOAs of an interval. *)
Definition in_interval (d : dmx_par) : pred 'I_n :=
  fun i => (d_r1 d <= stoas i ord0 / 86400%coqR) && (stoas i ord0 / 86400%coqR < d_r2 d).

(** L616-626, one turn of the loop. *)
Definition add_bin (st : result (seq (dmx_bin n))) (kd : string * dmx_par) : result (seq (dmx_bin n)) :=
  rbind st (fun bins =>
    if ~~ d_fit kd.2 then Err ValueError else
    if find_str kd.1 fitpars is Some j then Ok (rcons bins (DmxBin (d_val kd.2) j (in_interval kd.2)))
    else Err ValueError).

(** L556-636: the refusals of [__init__] in order. [jump_keys] are the labels of
    the jump selection and [has_jump] says that [dmjump] is not None; [dmx] is
    [psr.dmx]. *)
Definition wb_init (jump_keys : seq string) (has_jump : bool) (dmx : dict string dmx_par) : result (seq (dmx_bin n)) :=
  if (if jump_keys is [:: k] then String.eqb k "" else false) && has_jump then Err ValueError else
  rbind (foldl add_bin (Ok [::]) (isort (fun x y => sle x.1 y.1) dmx)) (fun bins =>
    if (\sum_(b <- bins) \sum_i b_which b i)%N != n then Err ValueError else
    if find_str "DM"%string fitpars is Some _ then Err ValueError else Ok bins).
End Init.

Section Methods.
Variables (n : nat) (bins : seq (dmx_bin n)).

(** L692-702 [get_dm]: [jumps] are the values with their masks. *)
Definition wb_dm (jumps : seq (R * pred 'I_n)) (dm : 'cV[R]_n) : 'cV[R]_n :=
  \col_i ((\sum_(jm <- jumps) jm.1 * (jm.2 i)%:R) + dm i ord0).

(** L704-722 [get_dme]: [equads] is empty if there are none. *)
Definition wb_dme (efacs equads : seq (R * pred 'I_n)) (dmerr : 'cV[R]_n) : 'cV[R]_n :=
  \col_i
    (let ef := \sum_(em <- efacs) em.1 * (em.2 i)%:R in
     let eq := \sum_(em <- equads) Rpower 10 em.1 * (em.2 i)%:R in
     if (0 < size equads)%N then sqrt (ef ^+ 2 * (dmerr i ord0 ^+ 2 + eq ^+ 2))%R
     else sqrt (ef ^+ 2 * dmerr i ord0 ^+ 2)%R).

Variables (dm dme : 'cV[R]_n).
(** [np.sum(1.0 / dme[which] ** 2)] *)
Definition weight (w : pred 'I_n) : R := \sum_(i | w i) 1 / (dme i ord0 ^+ 2).

(** [a[which] = x] for every interval in order. *)
Definition fill (x : dmx_bin n -> 'I_n -> R) : 'cV[R]_n :=
  foldl (fun (a : 'cV[R]_n) b => \col_i (if b_which b i then x b i else a i ord0)) 0 bins.

(** L724-736 [get_mean_dm] *)
Definition wb_mean_dm : 'cV[R]_n :=
  fill (fun b _ => (\sum_(i | b_which b i) dm i ord0 / dme i ord0 ^+ 2) / weight (b_which b)).
(** L738-751 [get_mean_dme] *)
Definition wb_mean_dme : 'cV[R]_n := fill (fun b _ => sqrt (1 / weight (b_which b))%R).

(** L655-668 [get_phi]: [m] is [len(psr.fitpars)]. *)
Definition wb_phi (m : nat) : 'cV[R]_m :=
  foldl (fun (phi : 'cV[R]_m) b => \col_j (if (j : nat) == b_index b then 1 / weight (b_which b) else phi j ord0))
        (const_mx (pow 10 40)) bins.

(** L674-687 [get_delay]: [dmpar] is [psr.dm]. *)
Definition dm_const : R := 241%:R / 10%:R ^+ 6.
Definition wb_delay_of (avg : 'cV[R]_n) (dmpar : R) (freqs : 'cV[R]_n) : 'cV[R]_n :=
  \col_i (fill (fun b i => avg i ord0 - (dmpar + b_val b)) i ord0 / (dm_const * freqs i ord0 ^+ 2)).
Definition wb_delay : R -> 'cV[R]_n -> 'cV[R]_n := wb_delay_of wb_mean_dm.

(** [a[which][0]] *)
Definition first_of (a : 'cV[R]_n) (w : pred 'I_n) : result R :=
  if [seq i <- enum 'I_n | w i] is i :: _ then Ok (a i ord0) else Err IndexError.

(** [sum(f(which) for which in self._dmwhich)], where [f] may raise. *)
Definition sum_bins (f : pred 'I_n -> result R) : result R :=
  foldl (fun r b => rbind r (fun x => rmap (fun y => x + y) (f (b_which b)))) (Ok 0) bins.

(** L753-771 [get_logsignalprior] *)
Definition wb_logprior_of (mean_dm mean_dme : 'cV[R]_n) : result R :=
  rbind (sum_bins (fun w => rbind (first_of mean_dm w) (fun a => rmap (fun e => a ^+ 2 / e ^+ 2) (first_of mean_dme w)))) (fun s =>
  rbind (sum_bins (fun w => rmap ln (first_of mean_dme w))) (fun l =>
    Ok (- 2%:R^-1 * (\sum_i dm i ord0 ^+ 2 / dme i ord0 ^+ 2) + 2%:R^-1 * s
        + (- (\sum_i ln (dme i ord0)) + l)))).
Definition wb_logprior : result R := wb_logprior_of wb_mean_dm wb_mean_dme.
End Methods.
