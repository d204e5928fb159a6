From Coq Require Import Reals ZArith Bool Arith List Lra Lia.
From Verif Require Import PyBase ModelBases ModelOrf ModelHarm ProofHarm.
Import ListNotations.
Open Scope list_scope.
Open Scope R_scope.

(** C76: the conversions between real and complex coefficients are inverse, for complex
    coefficients whose entries of order zero are real. *)
Theorem clm_roundtrip : forall k clm, length clm = (k * k)%nat -> clmFromAlm (almFromClm clm) = Ok clm.
Proof. exact clm_roundtrip_lem. Qed.
Print Assumptions clm_roundtrip.
Theorem alm_roundtrip : forall k (alm : list complex), length alm = getsize k -> (forall l, (l < k)%nat -> snd (nth (getidx k l 0) alm (0, 0)) = 0) ->
  exists clm, clmFromAlm alm = Ok clm /\ length clm = (k * k)%nat /\ almFromClm clm = alm.
Proof. exact alm_roundtrip_lem. Qed.
Print Assumptions alm_roundtrip.
(** C76: other lengths: surplus real coefficients are dropped, and complex coefficients
    that do not fill a triangle are refused. *)
Theorem clm_surplus : forall k clm, (k * k <= length clm < (k + 1) * (k + 1))%nat -> almFromClm clm = almFromClm (firstn (k * k) clm).
Proof. exact clm_surplus_lem. Qed.
Print Assumptions clm_surplus.
Theorem alm_shape : forall alm, (forall k, length alm <> (k * (k + 1) / 2)%nat) -> clmFromAlm alm = Err ValueError.
Proof. exact alm_shape_lem. Qed.
Print Assumptions alm_shape.
Example harm_satisfiable : length [1; 2; 3; 4] = (2 * 2)%nat /\ length [(1, 0); (2, 0); (3, 4)] = getsize 2 /\
  (forall l, (l < 2)%nat -> snd (nth (getidx 2 l 0) [(1, 0); (2, 0); (3, 4)] (0, 0)) = 0) /\
  (2 * 2 <= length [1; 2; 3; 4; 5] < (2 + 1) * (2 + 1))%nat /\ forall k, length [1; 2] <> (k * (k + 1) / 2)%nat.
Proof.
  split; [reflexivity|]. split; [reflexivity|]. split; [intros [|[|l]] H; try lia; reflexivity|]. split; [cbn; lia|].
  intros k E. assert (Q := getsize2 k). unfold getsize in Q. rewrite <- E in Q. destruct k as [|[|[|k]]]; cbn [length] in Q; nia.
Qed.

(** C97: the real harmonics; the quick and the direct way of making a map agree, for
    harmonics with their conjugation symmetry. *)
Theorem real_harm : forall Y, harmonic Y -> forall m l phi theta,
  real_sph_harm Y m l phi theta =
  if (m =? 0)%Z then fst (Y m l phi theta) else if (0 <? m)%Z then sqrt 2 * fst (Y m l phi theta) else sqrt 2 * snd (Y (- m)%Z l phi theta).
Proof. exact real_harm_lem. Qed.
Print Assumptions real_harm.
Theorem maps_agree : forall Y, harmonic Y -> forall k clm pixels, length clm = (k * k)%nat -> mapFromClm_fast Y clm pixels = mapFromClm Y clm pixels.
Proof. exact maps_agree_lem. Qed.
Print Assumptions maps_agree.
(** C97: the correlation of two pulsars is the power of the map seen by both, twice that
    on the diagonal; the matrix is symmetric, and positive for maps without negative
    pixels. *)
Theorem covariance_entries : forall h F, Forall (fun r => length r = (2 * length h)%nat) F ->
  length (getCov h F) = length F /\ Forall (fun r => length r = length F) (getCov h F) /\
  forall i j, (i < length F)%nat -> (j < length F)%nat ->
    let seen := fun p => nth (2 * p) (nth i F []) 0 * nth (2 * p) (nth j F []) 0 + nth (2 * p + 1) (nth i F []) 0 * nth (2 * p + 1) (nth j F []) 0 in
    entry (getCov h F) i j = (if Nat.eqb i j then 2 else 1) * rsum (map (fun p => nth p h 0 * seen p) (seq 0 (length h))) /\
    entry (getCov h F) i j = entry (getCov h F) j i.
Proof. exact cov_lem. Qed.
Print Assumptions covariance_entries.
Theorem covariance_positive : forall h F x, Forall (fun r => length r = (2 * length h)%nat) F -> (forall p, 0 <= nth p h 0) ->
  0 <= rsum (map (fun i => rsum (map (fun j => x i * x j * entry (getCov h F) i j) (seq 0 (length F)))) (seq 0 (length F))).
Proof. exact cov_positive_lem. Qed.
Print Assumptions covariance_positive.
(** C97: a response given by the caller is used instead of that of the positions. *)
Theorem map_response : forall psrs h F pixels, Forall (fun r => length r = (2 * length h)%nat) F ->
  forall i j, (i < length F)%nat -> (j < length F)%nat ->
    let seen := fun p => nth (2 * p) (nth i F []) 0 * nth (2 * p) (nth j F []) 0 + nth (2 * p + 1) (nth i F []) 0 * nth (2 * p + 1) (nth j F []) 0 in
    entry (orfFromMap_fast psrs h (Some F) pixels) i j = (if Nat.eqb i j then 2 else 1) * rsum (map (fun p => nth p h 0 * seen p) (seq 0 (length h))).
Proof. exact map_response_lem. Qed.
Print Assumptions map_response.
(** C97: basis matrices with coefficients add up to the matrix of the map of the
    coefficients, which is what the overlap function uses. *)
Theorem anis_basis_sum : forall Y, harmonic Y -> forall psrs lmax pixels, let B := anis_basis Y psrs lmax pixels in let n := ((lmax + 1) * (lmax + 1))%nat in
  length B = n /\ forall clm i j, length clm = n -> (i < length psrs)%nat -> (j < length psrs)%nat ->
  rsum (map (fun a => nth a clm 0 * entry (nth a B []) i j) (seq 0 n)) = entry (getCov (mapFromClm_fast Y clm pixels) (signal_response psrs pixels)) i j.
Proof. exact anis_basis_lem. Qed.
Print Assumptions anis_basis_sum.
Theorem anis_orf_map : forall Y, harmonic Y -> forall psrs lmax pixels pos1 pos2 params psrs_pos i j,
  (0 < lmax)%nat -> length params = ((lmax + 1) * (lmax + 1) - 1)%nat -> length psrs_pos = length psrs ->
  first_at psrs_pos pos1 0 = Ok i -> first_at psrs_pos pos2 0 = Ok j -> (i < length psrs)%nat -> (j < length psrs)%nat ->
  let B := anis_basis Y psrs lmax pixels in
  anis_orf pos1 pos2 params (fun a x y => entry (nth a B []) x y) (length B) psrs_pos lmax =
  Ok (entry (getCov (mapFromClm_fast Y (2 * sqrt PI :: params) pixels) (signal_response psrs pixels)) i j).
Proof. exact anis_orf_lem. Qed.
Print Assumptions anis_orf_map.
(** C97: the responses: plus and cross alternate, and their total power depends on the
    angle between pulsar and pixel only. *)
Theorem response_layout : forall psrs pixels i p, (i < length psrs)%nat -> (p < length pixels)%nat ->
  let F := signal_response psrs pixels in let s := nth i psrs (0, 0) in let g := nth p pixels (0, 0) in
  nth (2 * p) (nth i F []) 0 = response (fst s) (snd s) (fst g) (snd g) (length pixels) true /\
  nth (2 * p + 1) (nth i F []) 0 = response (fst s) (snd s) (fst g) (snd g) (length pixels) false.
Proof. exact response_lem. Qed.
Print Assumptions response_layout.
Theorem response_power : forall pphi ptheta gwphi gwtheta n, (0 < n)%nat -> dot (toward gwphi gwtheta) (toward pphi ptheta) <> -1 ->
  response pphi ptheta gwphi gwtheta n true ^ 2 + response pphi ptheta gwphi gwtheta n false ^ 2
  = 3 / 2 / INR n * ((1 - dot (toward gwphi gwtheta) (toward pphi ptheta)) / 2) ^ 2.
Proof. exact response_power_lem. Qed.
Print Assumptions response_power.
Definition wave (m : Z) (l : nat) (phi theta : R) : complex :=
  cscale (if (m <? 0)%Z then if Z.even m then 1 else -1 else 1) (cos (IZR m * phi), sin (IZR m * phi)).
Example harmonic_satisfiable : harmonic wave.
Proof.
  intros m l ph th. unfold wave, cscale, conj. cbn [fst snd]. rewrite opp_IZR, Ropp_mult_distr_l_reverse, cos_neg, sin_neg, Z.even_opp.
  destruct (Z.ltb_spec m 0), (Z.ltb_spec (- m) 0); try lia.
  - destruct (Z.even m); f_equal; ring.
  - destruct (Z.even m); f_equal; ring.
  - assert (m = 0%Z) by lia. subst. cbn. f_equal; ring.
Qed.
Example covariance_satisfiable : Forall (fun r => length r = (2 * length [1; 2])%nat) [[1; 2; 3; 4]; [0; 1; 0; 1]] /\ (forall p, 0 <= nth p [1; 2] 0) /\
  entry (getCov [1; 2] [[1; 2; 3; 4]; [0; 1; 0; 1]]) 0 1 = 10 /\ dot (toward 0 0) (toward 0 (PI / 2)) <> -1 /\
  first_at [(1, 0, 0); (0, 1, 0)] (0, 1, 0) 0 = Ok 1%nat.
Proof.
  split; [repeat constructor|]. split; [intros [|[|[|p]]]; cbn; lra|]. split; [cbn; lra|]. split.
  - cbn. rewrite sin_0, cos_0, cos_PI2. lra.
  - cbn. unfold reqb. destruct (Req_EM_T 1 0); [lra|]. destruct (Req_EM_T 0 0); [|lra]. destruct (Req_EM_T 1 1); [|lra]. reflexivity.
Qed.
