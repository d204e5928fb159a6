(** Proofs about wideband timing models in arrays, and an example. *)
From Coq Require Import Reals String.
From mathcomp Require Import all_ssreflect all_algebra.
From mathcomp.zify Require Import zify.
From Verif Require Import RStruct PyBase ProofBase ModelSelect ProofSelect ProofQuant ModelFunc ModelCache ProofCache ModelGp ProofGp ModelLinalg ProofLinalg ModelNoise ProofNoise ModelLike ProofLike ModelKernel ProofKernel ModelPhi ModelColl ProofColl ModelSigs ProofSigs ModelArray ProofArray ProofJoint ProofCorr ProofArrayEx ModelSized ProofSrc ProofSized ProofSource ModelEcorr ProofEcorr ModelCond ModelWide ProofWide ModelKinds ProofClasses ProofShare ProofMulti ProofMany ProofKinds ProofKindsEx.
Set Implicit Arguments.
Unset Strict Implicit.
Unset Printing Implicit Defensive.
Import GRing.Theory Num.Theory Order.TTheory.
Local Open Scope seq_scope.
Local Open Scope ring_scope.

Lemma wide_has_fun p kind name x y : wide_has p kind name x -> wide_has p kind name y -> x = y.
Proof. by case=> [e|[e [v ek ev]]] [e'|[e' [v' ek' ev']]]; [move: e'; rewrite e => -[]|move: e'; rewrite e|move: e'; rewrite e|move: ek' ev'; rewrite ek => -[<-]; rewrite ev => -[]]. Qed.
Lemma wide_at_eq (f g : string -> R) masks i : (forall k, List.In k (dkeys masks) -> f k = g k) -> wide_at f masks i = wide_at g masks i.
Proof.
rewrite /wide_at; elim: masks => [|km l IH] h; first by rewrite !big_nil.
by rewrite !big_cons h ?IH //=; [move=> k ik; apply: h; right|left].
Qed.
Lemma wide_dms_fun n p efac equad jump jref psrname q sel jsel (dm dme dm' dme' : 'cV[R]_n) :
  wide_dms p efac equad jump jref psrname q sel jsel dm dme -> wide_dms p efac equad jump jref psrname q sel jsel dm' dme' -> dm = dm' /\ dme = dme'.
Proof.
move=> [ef [eq [ju [h1 h2 h3 h]]]] [ef' [eq' [ju' [h1' h2' h3' h']]]].
have E1 i : wide_at ef sel i = wide_at ef' sel i by apply: wide_at_eq => k ik; exact: wide_has_fun (h1 k ik) (h1' k ik).
split; apply/matrixP=> i j; rewrite (ord1 j).
- have [-> _] := h i; have [-> _] := h' i; congr (_ + _); case: (jump) h3 h3' => [kind|] // h3 h3'.
  by apply: wide_at_eq => k ik; exact: wide_has_fun (h3 k ik) (h3' k ik).
- have [_ ->] := h i; have [_ ->] := h' i; rewrite E1; case: (equad) h2 h2' => [kind|] // h2 h2'.
  congr (sqrt (_ * (_ + _ ^+ 2)))%R; apply: wide_at_eq => k ik; by rewrite (wide_has_fun (h2 k ik) (h2' k ik)).
Qed.
Lemma coll_cov_posdef n (C : 'M[R]_n) (sigs : seq (bsig n)) : posdef C -> (forall s, List.In s sigs -> posdef (phi_mx (bphi s))) -> posdef (C + coll_cov sigs).
Proof.
rewrite /coll_cov; elim: sigs C => [|s l IH] C pC h; first by rewrite big_nil addr0.
rewrite big_cons addrA; apply: IH => [|t it]; last by apply: h; right.
by apply: gp_cov_posdef => //; apply: h; left.
Qed.
Lemma pmap_In (A B : Type) (f : A -> option B) l y : List.In y (pmap f l) -> exists2 x, List.In x l & f x = Some y.
Proof.
elim: l => //= x l IH; case e: (f x) => [z|] /=; last by move=> h; have [x' h1 h2] := IH h; exists x' => //; right.
by case=> [<-|h]; [exists x => //; left|have [x' h1 h2] := IH h; exists x' => //; right].
Qed.
Lemma kinds_wideband_lem : forall (hash : forall n, 'cV[R]_n -> nat) argsort fns p (q : psr_model) (ws1 ws2 : seq (view (v_n (pm q)))) v (s : bsig (v_n (pm q)))
    efac equad jump jref priorfn basisfn name psrname psr d sel jsel (dm dme : 'cV[R]_(v_n (pm q))) (sign : R),
  let st : 'cV[R]_(v_n (pm q)) := \col_i nth 0 (q_stoas d) i in
  v_sigs (pm q) = ws1 ++ v :: ws2 -> good_psr hash q ->
  wadds argsort fns p (Wideband efac equad jump jref priorfn basisfn name psrname psr d sel jsel) v -> w_basis v = Some s ->
  wide_dms p efac equad jump jref psrname d sel jsel dm dme -> (forall i, 0 < dme i ord0) ->
  List.NoDup (dkeys (q_dmx d)) -> (forall i, intervals st (q_dmx d) i = 1%N) -> (forall k x, List.In (k, x) (q_dmx d) -> exists i, within st i x) ->
  sign * sign = 1 ->
  (forall k x (j : 'I_(bk s)) i, List.In (k, x) (q_dmx d) -> find_str k (q_fitpars d) = Some (j : nat) ->
    bF s i j = sign * (within st i x)%:R / (241%:R / 10%:R ^+ 6 * nth 0 (q_freqs d) i ^+ 2)) ->
  bk s = size (q_fitpars d) /\
  exists (mu : 'cV[R]_(bk s)) (V : 'M[R]_(bk s)), posdef V /\
    forall e : nat -> R,
      (psr_term q + density ((\col_(j < bk s) e j) - mu) V)%R =
      (density_tm (v_res (pm q) - bF s *m \col_(j < bk s) e j - \sum_(w <- ws1 ++ ws2) (if w_delay w is Some (Some x) then x else 0))
         (cov_of (pm_N q) + coll_cov (pmap (@w_basis _) (ws1 ++ ws2))) (tm_M (pm_N q)) - 2%:R^-1 * ((tm_k (pm_N q))%:R * ln (pow 10 40)) +
       \sum_(w <- ws1 ++ ws2) w_prior w +
       \sum_(kd <- q_dmx d) \sum_(i | within st i kd.2) lg (dm i ord0 - (q_dmpar d + d_val kd.2 + sign * e (par_index (q_fitpars d) kd.1))) (dme i ord0 ^+ 2) +
       \sum_(j < bk s | (j : nat) \notin [seq par_index (q_fitpars d) kd.1 | kd <- q_dmx d]) lg (e j) (pow 10 40))%R.
Proof.
move=> hash argsort fns p q ws1 ws2 v s efac equad jump jref priorfn basisfn name psrname psr d sel jsel dm dme sign st eq good wa es hd pos nd ones full ss cols.
case: wa => bl [bl0 [bins [dm' [dme' [lp [_ [_ [_ [_ [en [hd' [eb [el ev]]]]]]]]]]]]].
have [e1 e2] := wide_dms_fun hd' hd; subst dm' dme'.
have {es} es : s = @BSig _ (size (q_fitpars d)) (\matrix_(i, j) nth 0 (row_of bl i) j) (PhiD (wb_phi bins dme (size (q_fitpars d))))
               (has depends [seq selected name psrname psr basisfn k | k <- dkeys (every_toa d)]) false by move: es; rewrite ev => -[].
subst s; cbn [bk bF] in cols; cbn [bk bF]; split=> //.
set M := (\matrix_(i, j) nth 0 (row_of bl i) j) in cols *.
have [_ gN [_ _ _ _ pp] _] := good.
have dE : delay_sum (pm q) = \sum_(w <- ws1 ++ ws2) (if w_delay w is Some (Some x) then x else 0) + wb_delay bins dm dme (q_dmpar d) (\col_i nth 0 (q_freqs d) i).
  by rewrite /delay_sum eq big_cat big_cons ev /= big_cat /= addrA addrAC.
have pE : prior_sum (pm q) = \sum_(w <- ws1 ++ ws2) w_prior w + lp.
  by rewrite /prior_sum eq big_cat big_cons ev /= big_cat /= addrA addrAC.
have sub t : List.In t (pmap (@w_basis _) (ws1 ++ ws2)) -> List.In t (processes (pm q)).
  move=> h0; have [w iw ew] := pmap_In h0; rewrite /processes eq pmap_cat; rewrite -[cat]/(@List.app _) in iw *.
  have inP l : List.In w l -> List.In t (pmap (@w_basis _) l) by elim: l {iw} => //= x l IH [->|/IH h]; [rewrite ew; left|case: (w_basis x) => [y|] //=; right].
  by apply/List.in_app_iff; move: iw => /List.in_app_iff [h|h]; [left; exact: inP|right; apply: inP; right].
have pC : posdef (cov_of (pm_N q) + coll_cov (pmap (@w_basis _) (ws1 ++ ws2))).
  by apply: coll_cov_posdef; [exact: good_posdef|move=> t /sub; exact: pp].
have cE : cov_of (pm_N q) + coll_cov (processes (pm q)) = cov_of (pm_N q) + coll_cov (pmap (@w_basis _) (ws1 ++ ws2)) + M *m phi_mx (PhiD (wb_phi bins dme (size (q_fitpars d)))) *m M^T.
  rewrite -addrA; congr (_ + _); rewrite /coll_cov /processes eq !pmap_cat /= ev /= !big_cat big_cons /=.
  by rewrite -!addrA; congr (_ + _); rewrite addrC.
have [] := @wideband_core _ _ _ (tm_M (pm_N q)) (v_res (pm q) - \sum_(w <- ws1 ++ ws2) (if w_delay w is Some (Some x) then x else 0)) st (q_fitpars d) (dkeys jsel) (isSome jump) (q_dmx d) bins dm dme (q_dmpar d)
  (\col_i nth 0 (q_freqs d) i) M sign eb nd ones full pos pC (proj2 gN) ss.
  by move=> k x j i ik ej; rewrite (cols k x j i ik ej) mxE.
rewrite el => -[elp] _ [mu [V [pV E]]]; exists mu, V; split=> // e; have := E e.
rewrite /psr_term dE pE cE -elp.
set O := \sum_(w <- ws1 ++ ws2) _; set D := wb_delay _ _ _ _ _.
have -> : v_res (pm q) - (O + D) = v_res (pm q) - O - D by rewrite opprD addrA.
have -> : v_res (pm q) - M *m \col_(j < size (q_fitpars d)) e j - O = v_res (pm q) - O - M *m \col_(j < size (q_fitpars d)) e j by rewrite addrAC.
set a := density_tm _ _ _; set b := density_tm _ _ _.
move: (density _ _) (\sum_(kd <- _) _) (\sum_(j < _ | _) _) (\sum_(w <- ws1 ++ ws2) _) => x y z t {}E.
have -> : a = b + y + z - lp - x by move: E; clear; move: a b => a b; rewrite addrAC => /eqP; rewrite -subr_eq => /eqP <-; ring_R.
by rewrite !coqRE; ring_R.
Qed.

(** * Example *)
(** One pulsar with three TOAs: white noise, a wideband timing model with an offset and one
    DMX interval, DMEFAC as a parameter, DMEQUAD constant and a DMJUMP for the third TOA
    relative to the first two, and a process linear in time *)
Definition u_freqs : seq R := [:: 100%:R; 100%:R; 200%:R].
Definition u_psr : gv := GPsr [:: ("toas"%string, GV (Vec k_toas)); ("errs"%string, GV (Vec [:: 1; 1; 2%:R])); ("freqs"%string, GV (Vec u_freqs))].
Definition u_slope (f : R) : R := 1 / (241%:R / 10%:R ^+ 6 * f ^+ 2).
Definition u_basis : fcl := FC (PyFun [:: "freqs"]%string [::]
  (fun l => match l with [:: GV (Vec fs)] => Ok (GPair (GMat 2 [seq [:: 1; u_slope f] | f <- fs]) (GV (Vec [:: 1; 1]))) | _ => Err ValueError end)) "" [::].
Definition u_prior : fcl := FC (PyFun [:: "weights"]%string [::]
  (fun l => match l with [:: GV (Vec ws)] => Ok (GV (Vec [seq w * pow 10 40 | w <- ws])) | _ => Err ValueError end)) "" [::].
Definition u_q : wide_psr := WidePsr k_toas u_freqs [:: 10%:R; 10%:R; 11%:R] [:: 1; 1; 2%:R] 10%:R [:: "Offset"; "DMX_0001"]%string [:: ("DMX_0001"%string, DmxPar true 3%:R (-1) 1)].
Definition u_sel : dict string mask := [:: ("b"%string, [:: false; false; true]); ("a"%string, [:: true; true; false])].
Definition u_wide : wsrc := Wideband Varies (Some (Fixed (fun _ => Some (-3)%coqR))) (Some Varies) (Some "a"%string) u_prior u_basis "tm" "A" u_psr u_q k_all u_sel.
Definition u_arr : seq (seq wsrc * seq R) :=
  [:: ([:: Plain (White z_var "" "A" u_psr k_all); u_wide; Plain (Common z_basis "gw" "A" u_psr (GV (Vec [:: 1; 0])) 0 false)], k_resA)].
(** Parameters: efac, DMEFAC (at least one), DMJUMP and the prior *)
Definition u_p (t : R * R * R * R) : params R :=
  [:: ("A_efac"%string, Sc t.1.1.1); ("A_dmefac"%string, Sc (1 + t.1.1.2 * t.1.1.2)); ("A_b_dmjump"%string, Sc t.1.2); ("gw_a"%string, Sc t.2)].
Definition u_dm (t : R * R * R * R) : 'cV[R]_3 := \col_i nth 0 [:: 10%:R; 10%:R; t.1.2 + 11%:R] i.
Definition u_dme (t : R * R * R * R) : 'cV[R]_3 := \col_i sqrt ((1 + t.1.1.2 * t.1.1.2) ^+ 2 * (nth 0 [:: 1; 1; 2%:R] i ^+ 2 + Rpower 10 (-3)%coqR ^+ 2))%R.
Definition u_st : 'cV[R]_3 := \col_i nth 0 k_toas i.
Definition u_bins : seq (dmx_bin 3) := if wb_init u_st (q_fitpars u_q) (dkeys u_sel) true (q_dmx u_q) is Ok bins then bins else [::].
Definition u_M : 'M[R]_(3, 2) := \matrix_(i, j) nth 0 [:: 1; u_slope (nth 0 u_freqs i)] j.
Definition u_view (t : R * R * R * R) : view 3 :=
  View None (Some (Some (wb_delay u_bins (u_dm t) (u_dme t) 10%:R (\col_i nth 0 u_freqs i)))) (Some (BSig u_M (PhiD (wb_phi u_bins (u_dme t) 2)) false false)) (logprior_value u_bins (u_dm t) (u_dme t)).
Definition u_A (t : R * R * R * R) : psr_model :=
  @PsrModel (@PsrView 3 (\col_i nth 0 k_resA i) [:: View (Some (NVec (k_white t))) (Some None) None 0; u_view t;
    View None (Some None) (Some (BSig (k_F 0) (PhiD (const_mx (1 + t.2 * t.2))) false false)) 0]) (NVec (k_white t)).
Definition u_dss : seq (seq wdesc) := if new_warray argsort_ins k_fns u_arr is Ok dss then dss else [::].
Definition u_hash (n : nat) (v : 'cV[R]_n) : nat := index v [seq \col_i nth 0 l i | l <- [:: [:: 1; 1; 1]; [seq u_slope f | f <- u_freqs]; k_toas]].

Lemma u_within (i : 'I_3) : within u_st i (DmxPar true 3%:R (-1) 1).
Proof.
have H (x : R) : (-1 <= x)%coqR -> (x < 86400)%coqR -> (-1 <= x / 86400%coqR) && (x / 86400%coqR < 1).
  move=> h1 h2; apply/andP; split; [apply/RleP|apply/RltP].
    have h : (-1 <= x / 86400)%coqR by Lra.lra.
    exact: h.
  have h : (x / 86400 < 1)%coqR by Lra.lra.
  exact: h.
by rewrite /within /= mxE; move: i; apply: ord3; apply: H => /=; Lra.lra.
Qed.
Lemma u_one (i : 'I_3) : intervals u_st (q_dmx u_q) i = 1%N.
Proof. by rewrite /intervals /= u_within. Qed.
Lemma u_full k x : List.In (k, x) (q_dmx u_q) -> exists i, within u_st i x.
Proof. by case=> // -[_ <-]; exists ord0; exact: u_within. Qed.
Lemma u_nodup : List.NoDup (dkeys (q_dmx u_q)).
Proof. by constructor; [case|constructor]. Qed.
Lemma u_init : wb_init u_st (q_fitpars u_q) (dkeys u_sel) true (q_dmx u_q) = Ok u_bins.
Proof.
rewrite /u_bins; suff [b ->] : exists bins, wb_init u_st (q_fitpars u_q) (dkeys u_sel) true (q_dmx u_q) = Ok bins by [].
apply/wideband_accept_lem; split; first by case.
split; first by move=> k d [[<- <-]|//]; split=> //; right; left.
split; last by case=> // -[|[]].
by rewrite (eq_bigr (fun _ => 1%N)) ?sum_nat_const ?card_ord // => i _; exact: u_one.
Qed.
Lemma u_dme_pos t i : 0 < u_dme t i ord0.
Proof.
have H (x y z : R) : (0 < z)%coqR -> (0 < sqrt ((1 + x * x) ^+ 2 * (y ^+ 2 + z ^+ 2)))%coqR.
  move=> z0; apply: sqrt_lt_R0; apply/RltP; apply: mulr_gt0.
    by apply: exprn_gt0; apply: ltr_paddr; [exact: sqr_ge0|exact: ltr01].
  by apply: ltr_paddl; [exact: sqr_ge0|apply: exprn_gt0; apply/RltP].
by rewrite mxE; apply/RltP; apply: H; exact: exp_pos.
Qed.
Lemma u_cols k x (j : 'I_2) (i : 'I_3) : List.In (k, x) (q_dmx u_q) -> find_str k (q_fitpars u_q) = Some (j : nat) ->
  u_M i j = 1 * (within u_st i x)%:R / (241%:R / 10%:R ^+ 6 * nth 0 (q_freqs u_q) i ^+ 2).
Proof. by case=> // -[<- <-] /= [ej]; rewrite mxE -ej u_within mulr1. Qed.
Lemma u_core t : wb_logprior u_bins (u_dm t) (u_dme t) = Ok (logprior_value u_bins (u_dm t) (u_dme t)) /\ posdef (phi_mx (PhiD (wb_phi u_bins (u_dme t) 2))).
Proof.
have p1 : posdef (1%:M : 'M[R]_3) by exact: posdef1.
have fr : full_rank (0 : 'M[R]_(3, 0)) by move=> x _; apply/matrixP=> -[].
have [|h1 h2 _] := @wideband_core 3 0 1%:M 0 0 u_st (q_fitpars u_q) (dkeys u_sel) true (q_dmx u_q) u_bins (u_dm t) (u_dme t) 10%:R (\col_i nth 0 u_freqs i) u_M 1 u_init u_nodup u_one u_full (u_dme_pos t) p1 fr (mulr1 1).
  by move=> k x j i ik ej; rewrite (u_cols i ik ej) mxE.
by [].
Qed.
Definition u_blk : blk := Blk "" [:: true; true; true] 2 [seq [:: 1; u_slope f] | f <- u_freqs] (GV (Vec [:: 1; 1])).
Lemma u_blocks p : flat_values p -> blocks_at u_basis "tm" "A" u_psr (every_toa u_q) 3 p [:: u_blk].
Proof. by move=> fp; split=> //; split=> //; split=> // b [<-|//]; split=> //; split=> //; split=> //; split=> //; repeat constructor. Qed.
Lemma u_flat t : flat_values (u_p t).
Proof. by apply: w_flat => x l H; repeat (destruct H as [H|H]; [discriminate|]); destruct H. Qed.
Lemma u_rows : (\matrix_(i < 3, j < 2) nth 0 (row_of [:: u_blk] i) j) = u_M.
Proof. by apply/matrixP=> i j; rewrite !mxE; congr nth; move: i {j}; apply: ord3. Qed.
Lemma u_dms t : wide_dms (u_p t) Varies (Some (Fixed (fun _ => Some (-3)%coqR))) (Some Varies) (Some "a"%string) "A" u_q k_all u_sel (u_dm t) (u_dme t).
Proof.
exists (fun _ => 1 + t.1.1.2 * t.1.1.2), (fun _ => (-3)%coqR), (fun k => if string_dec k "b" then t.1.2 else 0); split.
- by move=> k [<-|//]; left.
- by move=> k [<-|//]; right; split=> //; exists (fun _ => Some (-3)%coqR).
- by move=> k [<-|[<-|//]]; [left|right; split=> //; exists (fun _ => Some 0)].
- move=> i; rewrite !mxE /wide_at; split.
    by rewrite !big_cons big_nil /=; move: i; apply: ord3; rewrite /= ?mulr1 ?mulr0 ?addr0 ?add0r.
  by rewrite !big_seq1 /=; congr (sqrt (_ ^+ 2 * (_ + _ ^+ 2)))%R; move: i; apply: ord3; rewrite /= mulr1.
Qed.
Lemma u_adds t : wadds argsort_ins k_fns (u_p t) u_wide (u_view t).
Proof.
exists [:: u_blk], [:: u_blk], u_bins, (u_dm t), (u_dme t), (logprior_value u_bins (u_dm t) (u_dme t)).
split; first by apply: u_blocks; exact: u_flat.
split; first by apply: u_blocks; exact: flat_nil.
do 3 split=> //; split; first exact: u_dms.
split; first exact: u_init.
split; first by case: (u_core t).
by rewrite /u_view u_rows.
Qed.
Lemma u_adds_A t : psr_wadds argsort_ins k_fns (u_p t) ([:: Plain (White z_var "" "A" u_psr k_all); u_wide; Plain (Common z_basis "gw" "A" u_psr (GV (Vec [:: 1; 0])) 0 false)], k_resA) (pm (u_A t)).
Proof.
split=> //; split; first by move=> i; rewrite mxE.
constructor; last (constructor; first exact: u_adds); last (constructor; last exact: wadd_nil).
- split=> //; exists (fun _ i => t.1.1.1 * t.1.1.1 + nth 0 [:: 1; 1; 2%:R] i); split=> //; split.
    by move=> k m [[<- <-]|//]; split=> //; (eexists; split; [reflexivity|split=> // [[|[|[|i]]]] // lt]); exfalso; lia.
  congr View; congr Some; congr NVec; apply/matrixP=> i j; rewrite !mxE; move: i; apply: ord3; cbn; Lra.lra.
- split=> //; exists 1%N, (k_rows 0), (GV (Vec [:: 1])), (k_rows 0), (GV (Vec [:: 1])), [:: 1 + t.2 * t.2], 1.
  do 6!(split; first by [|repeat constructor]).
  split=> //; split=> //; split.
    rewrite /gcall /=; congr (Ok (GV (Sc _))); by rewrite !mulr0 addr0 mulr1 mulr1 k_half.
  rewrite k_F_rows; congr View; congr (Some (BSig _ (PhiD _) _ _)).
  by apply/matrixP=> i j; rewrite !mxE (ord1 i) mulr1.
Qed.
Lemma u_white_good t : ModelNoise.get_ndiag [:: NVec (k_white t)] = Ok (NVec (k_white t)) /\ good_noise (NVec (k_white t)).
Proof.
have pN : proper_noise (NVec (k_white t)) by exact: k_white_pos.
split; last by case: (plain_noise pN).
have [h1 h2] := k_bs_ok (-6)%coqR; have [_ el] := @block_proper 3 (k_bs (-6)%coqR) (k_white t) isT (fun e => ltac:(discriminate e)) (k_white_pos t) h1 h2.
have [|||h _] := @ndiag_value 3 [:: k_white t] [::] [::] [::] _ _ isT _ _ _ el.
- by move=> v; rewrite !inE => /eqP -> i; exact: k_white_pos.
- by [].
- by left.
by rewrite h k_white_sum.
Qed.
Lemma u_good t : good_psr u_hash (u_A t).
Proof.
have [h1 h2] := u_white_good t; split=> //; split=> //.
- pose L := [seq (\col_i nth 0 l i : 'cV[R]_3) | l <- [:: [:: 1; 1; 1]; [seq u_slope f | f <- u_freqs]; k_toas]].
  have mem s : s \in flatten [seq ProofKernel.columns s0 | s0 <- processes (pm (u_A t))] -> s \in L.
    rewrite /= cats0 mem_cat => /orP [/mapP [u _ ->]|/mapP [u _ ->]].
      have [->|->] : u = ord0 \/ u = (fintype.lift ord0 ord0 : 'I_2) by move: u; apply: ord2; [left|right].
        by rewrite /L !inE; apply/orP; left; apply/eqP/matrixP=> i j; rewrite !mxE; move: i; apply: ord3.
      by rewrite /L !inE; apply/orP; right; apply/orP; left; apply/eqP/matrixP=> i j; rewrite !mxE; move: i; apply: ord3.
    by rewrite /L !inE; apply/orP; right; apply/orP; right; apply/eqP/matrixP=> i j; rewrite !mxE.
  move=> x y /mem hx /mem hy e; have := congr1 (nth 0 L) e; by rewrite !nth_index.
- by move=> s [<-|[<-|//]]; [case: (u_core t)|exact: k_posdef].
Qed.
Lemma u_made : new_warray argsort_ins k_fns u_arr = Ok u_dss.
Proof.
have eN : exists w, new_wide Varies (Some (Fixed (fun _ => Some (-3)%coqR))) (Some Varies) (Some "a"%string) "A" u_q k_all u_sel = Ok w.
  rewrite /new_wide; set b := ~~ _; have -> : b = false by [].
  have := u_init; rewrite /u_st => ->; by eexists.
case: eN => w ew.
have [d ed] : exists d, new_wsig argsort_ins k_fns (Plain (White z_var "" "A" u_psr k_all)) = Ok d by eexists; cbn; reflexivity.
have [d' ed'] : exists d', new_wsig argsort_ins k_fns u_wide = Ok d'.
  by rewrite /u_wide /new_wsig; case eg: new_gp => [gs|//]; rewrite /= ew; eexists.
suff [x ex] : exists x, new_warray argsort_ins k_fns u_arr = Ok x by rewrite /u_dss ex.
by eexists; rewrite /new_warray /u_arr /rmapM; cbn [fst]; rewrite ed ed' /=; reflexivity.
Qed.
Lemma u_proper c s : List.In c u_arr -> List.In s c.1 -> wproper s.
Proof.
case=> // <- h; cbn in h; repeat (destruct h as [<-|h]; [cbn; try exact I; try (split; [|]); first [by repeat constructor | by constructor; [case|constructor]] |]); destruct h.
Qed.
Lemma u_permitted t : wpermitted k_fns u_arr (u_p t).
Proof.
split=> [|c s]; first exact: u_flat.
by case=> // <- h; cbn in h; repeat (destruct h as [<-|h]; [try exact I; try (by move=> k [<-|//]); by move=> o ho; no_constants ho|]); destruct h.
Qed.
Lemma u_likelihood : forall svd l,
  run (z_ops u_hash svd (wcross k_fns)) (warray_colls k_fns u_dss u_arr) [seq ALike "partition" (u_p t) | t <- l] (warray_start u_dss) =
  [seq Ok (RLike (Fin (psr_term (u_A t)))) | t <- l].
Proof.
move=> svd l.
have := @kinds_likelihood_lem u_hash svd argsort_ins k_fns u_arr u_dss [seq ("partition"%string, u_p t, [:: u_A t]) | t <- l].
rewrite -!map_comp => H; rewrite [LHS]H //.
- by apply: eq_map => t /=; rewrite big_seq1.
- exact: u_proper.
- exact: u_made.
- by move=> ij ij' s s' k; destruct ij as [[|i] [|[|[|j]]]]; cbn; intros E; try discriminate; try (destruct i; discriminate); try (destruct j; discriminate); injection E as <-;
     destruct ij' as [[|i'] [|[|[|j']]]]; cbn; intros E'; try discriminate; try (destruct i'; discriminate); try (destruct j'; discriminate); injection E' as <-; cbn; intros; congruence.
move=> x hx; have [t ->] : exists t, x = ("partition"%string, u_p t, [:: u_A t]) by elim: l hx {H} => [//|t l IH] [<-|/IH //]; exists t.
split=> //; first exact: u_permitted.
by constructor=> //; split; [exact: u_adds_A|exact: u_good].
Qed.
Lemma u_wideband : forall t, exists (mu : 'cV[R]_2) (V : 'M[R]_2), posdef V /\
  forall e : nat -> R,
    (psr_term (u_A t) + density ((\col_(j < 2) e j) - mu) V)%R =
    (density_tm ((\col_i nth 0 k_resA i) - u_M *m \col_(j < 2) e j) (diag_cov (k_white t) + k_F 0 *m (const_mx (1 + t.2 * t.2) : 'M[R]_1) *m (k_F 0)^T) (0 : 'M[R]_(3, 0)) +
     \sum_(i < 3) lg (u_dm t i ord0 - (13%:R + e 1%N)) (u_dme t i ord0 ^+ 2) + lg (e 0%N) (pow 10 40))%R.
Proof.
move=> t; pose w1 : view 3 := View (Some (NVec (k_white t))) (Some None) None 0.
pose w2 : view 3 := View None (Some None) (Some (BSig (k_F 0) (PhiD (const_mx (1 + t.2 * t.2))) false false)) 0.
have [_ [mu [V [pV E]]]] := @kinds_wideband_lem u_hash argsort_ins k_fns (u_p t) (u_A t) [:: w1] [:: w2] (u_view t) _ _ _ _ _ _ _ _ _ _ _ _ _ _ _ 1
  erefl (u_good t) (u_adds t) erefl (u_dms t) (u_dme_pos t) u_nodup u_one u_full (mulr1 1) u_cols.
exists mu, V; split=> // e; rewrite (E e) {E}.
have cE : coll_cov (pmap (@w_basis 3) ([:: w1] ++ [:: w2])) = k_F 0 *m (const_mx (1 + t.2 * t.2) : 'M[R]_1) *m (k_F 0)^T.
  rewrite /coll_cov /= big_seq1 /=; congr (_ *m _ *m _); apply/matrixP=> i j; rewrite !mxE (ord1 i) (ord1 j) eqxx; exact: mulr1n.
have dE : \sum_(w <- [:: w1] ++ [:: w2]) (if w_delay w is Some (Some x) then x else 0) = 0 by rewrite !big_cons big_nil !addr0.
have pE : \sum_(w <- [:: w1] ++ [:: w2]) w_prior w = 0 by rewrite !big_cons big_nil /= !addr0.
rewrite cE dE pE.
have sE : \sum_(kd <- q_dmx u_q) \sum_(i < 3 | within u_st i kd.2) lg (u_dm t i ord0 - (q_dmpar u_q + d_val kd.2 + 1 * e (par_index (q_fitpars u_q) kd.1))) (u_dme t i ord0 ^+ 2) =
          \sum_(i < 3) lg (u_dm t i ord0 - (13%:R + e 1%N)) (u_dme t i ord0 ^+ 2).
  rewrite big_seq1; apply: eq_big => [i|i _]; first by rewrite u_within.
  congr (lg (_ - _) _); rewrite /= !coqRE mul1r; congr (_ + _); by rewrite -natrD.
rewrite sE; move: (pow 10 40) => c.
have jE : \sum_(j < 2 | (j : nat) \notin [seq par_index (q_fitpars u_q) kd.1 | kd <- q_dmx u_q]) lg (e j) c = lg (e 0%N) c.
  by rewrite big_mkcond !big_ord_recl big_ord0 /= !addr0.
by rewrite jE subr0 /= !coqRE mul0r mulr0 subr0 addr0.
Qed.
