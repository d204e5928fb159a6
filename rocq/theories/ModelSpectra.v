(** Prior variances of Fourier coefficients (enterprise/signals/gp_priors.py).

    Doubles are reals; powers with real exponents agree with the code for
    positive bases, that is for positive frequencies. *)
From Coq Require Import Reals ZArith Bool Arith List.
From Verif Require Import PyBase ModelBases.
Import ListNotations.
Open Scope list_scope.
Open Scope R_scope.

(** enterprise/constants.py L24-26: [yr] and [fyr] *)
Definition fyr : R := 1 / 31557600.
(** [l[::c]]: [k] entries are still to be skipped *)
Fixpoint stride {X} (c k : nat) (l : list X) : list X :=
  match l with
  | [] => []
  | x :: l' => match k with 0%nat => x :: stride c (c - 1) l' | S k' => stride c k' l' end
  end.
(** [np.diff(np.concatenate(([p], l)))] *)
Fixpoint diffs (p : R) (l : list R) : list R :=
  match l with [] => [] | x :: l' => (x - p) :: diffs x l' end.
(** Products of arrays of one dimension: a length of one is stretched. *)
Definition bmul (a b : list R) : result (list R) :=
  if Nat.eqb (length a) (length b) then Ok (map (fun xy => fst xy * snd xy) (combine a b))
  else match a, b with
       | [x], _ => Ok (map (fun y => x * y) b)
       | _, [y] => Ok (map (fun x => x * y) a)
       | _, _ => Err ValueError
       end.
(** A step of zero raises ValueError. *)
Definition widths (f : list R) (c : nat) : result (list R) :=
  match c with 0%nat => Err ValueError | _ => Ok (rep c (diffs 0 (stride c 0 f))) end.

(** L14-19 [powerlaw] *)
Definition pl (log10_A gamma x : R) : R := (p10 log10_A) ^ 2 / 12 / PI ^ 2 * Rpower fyr (gamma - 3) * Rpower x (- gamma).
Definition powerlaw (f : list R) (log10_A gamma : R) (components : nat) : result (list R) :=
  rbind (widths f components) (bmul (map (pl log10_A gamma) f)).
(** the common last line: [hcf**2 / 12 / pi**2 / f**3 * np.repeat(df, 2)] *)
Definition from_strain (f : list R) (hcf : R -> R) : result (list R) :=
  rbind (widths f 2) (bmul (map (fun x => (hcf x) ^ 2 / 12 / PI ^ 2 / x ^ 3) f)).
(** L22-26 [turnover] *)
Definition turnover (f : list R) (log10_A gamma lf0 kappa beta : R) : result (list R) :=
  from_strain f (fun x => p10 log10_A * Rpower (x / fyr) ((3 - gamma) / 2) / Rpower (1 + Rpower (p10 lf0 / x) kappa) beta).
(** L29-38 [free_spectrum] *)
Definition free_spectrum (f log10_rho : list R) : result (list R) :=
  Ok (rep 2 (map (fun r => p10 (2 * r)) log10_rho)).
(** L41-48 [t_process] *)
Definition t_process (f : list R) (log10_A gamma : R) (alphas : option (list R)) : result (list R) :=
  rbind (powerlaw f log10_A gamma 2) (fun p =>
  bmul p (match alphas with None => map (fun _ => 1) f | Some a => rep 2 a end)).
(** [v[k] = x] for an integer [k] *)
Fixpoint put_nth {X} (v : list X) (k : nat) (x : X) : list X :=
  match v, k with [], _ => [] | _ :: v', 0%nat => x :: v' | y :: v', S k' => y :: put_nth v' k' x end.
Definition put_at {X} (v : list X) (k : Z) (x : X) : result (list X) :=
  let k' := if (k <? 0)%Z then (k + Z.of_nat (length v))%Z else k in
  if ((k' <? 0) || (Z.of_nat (length v) <=? k'))%Z then Err IndexError else Ok (put_nth v (Z.to_nat k') x).
(** L51-67 [t_process_adapt]: [nfreq] after rounding; without it [alphas_adapt]
    is an array, with it a number. *)
Inductive adapt := NoAdapt | Each (alphas : list R) | At (nfreq : Z) (alpha : R).
Definition t_process_adapt (f : list R) (log10_A gamma : R) (a : adapt) : result (list R) :=
  rbind (match a with
         | NoAdapt => Ok (map (fun _ => 1) f)
         | Each l => Ok (rep 2 l)
         | At n x => rbind (put_at (map (fun _ => 1) f) (2 * n) x) (fun v => put_at v (2 * n + 1) x)
         end) (fun m =>
  rbind (powerlaw f log10_A gamma 2) (fun p => bmul p m)).
(** L98-117 [turnover_knee] *)
Definition turnover_knee (f : list R) (log10_A gamma lfb lfk kappa delta : R) : result (list R) :=
  from_strain f (fun x => p10 log10_A * Rpower (x / fyr) ((3 - gamma) / 2) * Rpower (1 + x / p10 lfk) delta
                          / sqrt (1 + Rpower (p10 lfb / x) kappa)).
(** L120-139 [broken_powerlaw] *)
Definition broken_powerlaw (f : list R) (log10_A gamma delta log10_fb kappa : R) : result (list R) :=
  from_strain f (fun x => p10 log10_A * Rpower (x / fyr) ((3 - gamma) / 2)
                          * Rpower (1 + Rpower (x / p10 log10_fb) (1 / kappa)) (kappa * (gamma - delta) / 2)).
(** L142-150 [powerlaw_genmodes] *)
Definition powerlaw_genmodes (f : list R) (log10_A gamma : R) (components : nat) (wgts : option (list R)) : result (list R) :=
  rbind (match wgts with Some w => Ok (rep components (map (fun x => x ^ 2) w)) | None => widths f components end)
        (bmul (map (pl log10_A gamma) f)).
(** L153-155 [infinitepower] *)
Definition infinitepower (f : list R) : result (list R) := Ok (map (fun _ => 10 ^ 40) f).
