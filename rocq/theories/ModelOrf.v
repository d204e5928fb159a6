(** Overlap reduction functions (enterprise/signals/utils.py L842-889).
    Positions are vectors of three reals. *)
From Coq Require Import Reals Bool Arith List.
From Verif Require Import PyBase.
Import ListNotations.
Open Scope list_scope.
Open Scope R_scope.

Definition vec : Type := R * R * R.
Definition dot (p q : vec) : R :=
  let '(a, b, c) := p in let '(x, y, z) := q in a * x + b * y + c * z.
Definition reqb (x y : R) : bool := if Req_EM_T x y then true else false.
(** [np.all(pos1 == pos2)] *)
Definition same_pos (p q : vec) : bool :=
  let '(a, b, c) := p in let '(x, y, z) := q in reqb a x && reqb b y && reqb c z.

(** L846-853 [hd_orf]; the logarithm of zero is not modelled. *)
Definition hd_orf (pos1 pos2 : vec) : R :=
  if same_pos pos1 pos2 then 1
  else let omc2 := (1 - dot pos1 pos2) / 2 in 3 / 2 * omc2 * ln omc2 - 1 / 4 * omc2 + 1 / 2.
(** L856-862 [dipole_orf] *)
Definition dipole_orf (pos1 pos2 : vec) : R :=
  if same_pos pos1 pos2 then 1 + / 100000 else dot pos1 pos2.
(** L865-871 [monopole_orf] *)
Definition monopole_orf (pos1 pos2 : vec) : R :=
  if same_pos pos1 pos2 then 1 + / 100000 else 1.

(** [[ii for ii in range(len(l)) if np.all(l[ii] == p)][0]] *)
Fixpoint first_at (l : list vec) (p : vec) (i : nat) : result nat :=
  match l with
  | [] => Err IndexError
  | q :: l' => if same_pos q p then Ok i else first_at l' p (S i)
  end.
(** [clm[1:] = params]: a length of one is stretched *)
Definition fill (n : nat) (params : list R) : result (list R) :=
  if Nat.eqb (length params) n then Ok params
  else match params with [x] => Ok (repeat x n) | _ => Err ValueError end.
(** L874-889 [anis_orf]; [basis a i j] is [anis_basis[a, i, j]], [na] the number
    of its matrices. *)
Definition anis_orf (pos1 pos2 : vec) (params : list R) (basis : nat -> nat -> nat -> R) (na : nat) (psrs_pos : list vec) (lmax : nat) : result R :=
  rbind (first_at psrs_pos pos1 0) (fun i =>
  rbind (first_at psrs_pos pos2 0) (fun j =>
  let n := ((lmax + 1) * (lmax + 1))%nat in
  rbind (if Nat.ltb 0 lmax then fill (n - 1) params else Ok []) (fun rest =>
  let clm := 2 * sqrt PI :: rest in
  Ok (fold_left (fun s a => s + nth a clm 0 * basis a i j) (seq 0 (Nat.min n na)) 0)))).
