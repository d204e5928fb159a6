(** Bases for linear interpolation and for timing models
    (enterprise/signals/utils.py L817-840, L892-927).

    Doubles are reals and arrays are lists. *)
From Coq Require Import Reals ZArith Bool Arith List.
From Verif Require Import PyBase ModelBases ModelSpectra.
Import ListNotations.
Open Scope list_scope.
Open Scope R_scope.

(** [np.arange(a, b, d)]: [ceil((b - a) / d)] points; a step of zero raises *)
Definition ceil (x : R) : Z := Z.opp (Int_part (- x)).
Definition arange (a b d : R) : result (list R) :=
  if Req_EM_T d 0 then Err ZeroDivisionError
  else Ok (map (fun i => a + INR i * d) (seq 0 (Z.to_nat (ceil ((b - a) / d))))).
Definition rmin (l : list R) : result R := match l with [] => Err ValueError | t :: l' => Ok (fold_left Rmin l' t) end.
Definition rmax (l : list R) : result R := match l with [] => Err ValueError | t :: l' => Ok (fold_left Rmax l' t) end.
(** [toas >= a] and [toas <= b] *)
Definition between (a b t : R) : bool := (if Rle_dec a t then true else false) && (if Rle_dec t b then true else false).
(** [l[mask]] for a column mask *)
Definition keep {X} (m : list bool) (l : list X) : list X := map fst (filter snd (combine l m)).
Definition column_sum (M : list (list R)) (j : nat) : R := fold_right Rplus 0 (map (fun row => nth j row 0) M).
Definition nonzero (x : R) : bool := if Req_EM_T x 0 then false else true.

(** L831-834: one pass of the loop, for one row *)
Definition fill_row (x : list R) (ii : nat) (t : R) (row : list R) : list R :=
  let a := nth ii x 0 in
  let b := nth (S ii) x 0 in
  if between a b t then put_nth (put_nth row ii ((t - b) / (a - b))) (S ii) ((t - a) / (b - a)) else row.
(** L817-840 [linear_interp_basis] *)
Definition linear_interp_basis (toas : list R) (dt : R) : result (list (list R) * list R) :=
  rbind (rmin toas) (fun lo =>
  rbind (rmax toas) (fun hi =>
  rbind (arange lo (hi + dt) dt) (fun x =>
  let M0 := map (fun _ => repeat 0 (length x)) toas in
  let M := fold_left (fun M ii => map (fun tr => fill_row x ii (fst tr) (snd tr)) (combine toas M)) (seq 0 (length x - 1)) M0 in
  let idx := map (fun j => nonzero (column_sum M j)) (seq 0 (length x)) in
  Ok (map (keep idx) M, keep idx x)))).

(** A design matrix is the list of its columns. *)
Definition columns := list (list R).
(** [if idx_exclude: Mmat = Mmat[:, idxs]]; an empty index array is an array of
    floats, which raises IndexError. *)
Definition exclude (M : columns) (ex : option (list nat)) : result columns :=
  match ex with
  | None | Some [] => Ok M
  | Some e =>
      match filter (fun i => negb (existsb (Nat.eqb i) e)) (seq 0 (length M)) with
      | [] => Err IndexError
      | idxs => Ok (map (fun i => nth i M []) idxs)
      end
  end.
(** The second component is [np.ones_like(Mmat.shape[1])], the number one. *)
(** L892-897 [unnormed_tm_basis] *)
Definition unnormed_tm_basis (M : columns) (ex : option (list nat)) : result (columns * R) :=
  rmap (fun M => (M, 1)) (exclude M ex).
Definition norm2 (c : list R) : R := sqrt (fold_right Rplus 0 (map (fun x => x ^ 2) c)).
(** L900-914 [normed_tm_basis]; a single norm for several columns divides, but
    then [norm == 0] does not fit as a mask. *)
Definition normed_tm_basis (M : columns) (norm : option (list R)) (ex : option (list nat)) : result (columns * R) :=
  rbind (exclude M ex) (fun M =>
  let norm := match norm with Some n => n | None => map norm2 M end in
  if Nat.eqb (length norm) (length M)
  then Ok (map (fun cn => if Req_EM_T (snd cn) 0 then map (fun _ => 0) (fst cn) else map (fun x => x / snd cn) (fst cn)) (combine M norm), 1)
  else if Nat.eqb (length norm) 1 then Err IndexError else Err ValueError).
(** L917-924 [svd_tm_basis]; [np.linalg.svd] is an oracle giving left singular
    vectors and singular values. *)
Definition svd_tm_basis (svd : columns -> columns * list R) (M : columns) (ex : option (list nat)) : result (columns * list R) :=
  rmap (fun M => let (u, s) := svd M in (u, map (fun _ => 1) s)) (exclude M ex).
(** L927-929 [tm_prior] *)
Definition tm_prior (weight : R) : R := weight * 10 ^ 40.

(** gp_signals.py L219-231 [get_timing_model_basis]: [normed] is True, False or an array of
    norms. The function fails when it is called, the basis it returns when it is evaluated.
    The weights are a number or, for the singular vectors, an array. *)
Inductive normed := NTrue | NFalse | NGiven (norm : list R).
Definition timing_basis (svd : columns -> columns * list R) (use_svd : bool) (nm : normed) (ex : option (list nat))
    : result (columns -> result (columns * (R + list R))) :=
  let number (r : result (columns * R)) : result (columns * (R + list R)) := rmap (fun Bw => (fst Bw, inl (snd Bw))) r in
  if use_svd then
    match nm with
    | NTrue => Ok (fun M => rmap (fun Bw => (fst Bw, inr (snd Bw))) (svd_tm_basis svd M ex))
    | _ => Err ValueError
    end
  else
    match nm with
    | NTrue => Ok (fun M => number (normed_tm_basis M None ex))
    | NGiven n => Ok (fun M => number (normed_tm_basis M (Some n) ex))
    | NFalse => Ok (fun M => number (unnormed_tm_basis M ex))
    end.
(** utils.py L312-334 [create_stabletimingdesignmatrix]; None is nan. [svd] gives all left
    singular vectors ([full_matrices] is true by default) and the singular values. *)
Definition stable_matrix (svd : columns -> columns * list R) (M : columns) (fast : bool) : list (list (option R)) :=
  if fast then map (fun c => map (fun x => if Req_EM_T (norm2 c) 0 then None else Some (x / norm2 c)) c) M
  else let (u, s) := svd M in map (map Some) (firstn (length s) u).
