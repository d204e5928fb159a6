(** What ECORR noise adds to a pulsar, and an array with ECORR noise and a marginalised timing
    model. *)
From Coq Require Import Reals String.
From mathcomp Require Import all_ssreflect all_algebra.
From mathcomp.zify Require Import zify.
From Verif Require Import RStruct PyBase ProofBase ModelSelect ProofSelect ProofQuant ModelFunc ModelCache ProofCache ModelGp ProofGp ModelLinalg ProofLinalg ModelNoise ProofNoise ModelLike ProofLike ModelKernel ProofKernel ModelPhi ModelColl ProofColl ModelEcorr ProofEcorr ModelSigs ProofSigs ModelArray ProofArray ProofJoint ProofCorr ProofArrayEx ModelSized ProofSrc ProofSized ProofSource ModelKinds ProofClasses ProofShare ProofMulti ProofMany ProofKinds.
Set Implicit Arguments.
Unset Strict Implicit.
Unset Printing Implicit Defensive.
Import GRing.Theory Num.Theory Order.TTheory.
Local Open Scope seq_scope.
Local Open Scope ring_scope.

(** * ECORR *)
Lemma kmasks_get masks k : dget string_dec (ecorr_masks masks) (ecorr_key_name k) = dget string_dec masks k.
Proof.
elim: masks => //= -[k' m] l IH /=; case: string_dec => [e|ne]; case: string_dec => [e'|ne'] //.
- by case: ne'; exact: (sel_kname_inj _ _ _ e).
- by case: ne; rewrite e'.
Qed.
Lemma kmasks_inv masks k m : dget string_dec (ecorr_masks masks) k = Some m -> exists2 k', k = ecorr_key_name k' & dget string_dec masks k' = Some m.
Proof.
elim: masks => //= -[k' m'] l IH /=; case: string_dec => [-> [<-]|ne]; first by exists k' => //; case: string_dec.
move=> /IH [k2 e2 h]; exists k2 => //; case: string_dec => // e; by case: ne; rewrite e2 e.
Qed.
Lemma kmasks_selects masks k i : selects (ecorr_masks masks) k i <-> exists2 k', k = ecorr_key_name k' & selects masks k' i.
Proof.
split=> [[m [h1 h2]]|[k' -> [m [h1 h2]]]]; last by exists m; rewrite kmasks_get.
by have [k' e h] := kmasks_inv h1; exists k' => //; exists m.
Qed.
Lemma kmasks_keys masks k : List.In k (dkeys (ecorr_masks masks)) <-> exists2 k', k = ecorr_key_name k' & List.In k' (dkeys masks).
Proof.
have -> : dkeys (ecorr_masks masks) = List.map ecorr_key_name (dkeys masks) by rewrite /dkeys /ecorr_masks -[@map]/List.map !List.map_map.
by rewrite List.in_map_iff; split=> [[k' [<- h]]|[k' -> h]]; exists k'.
Qed.
Lemma kmasks_ok argsort toas masks : ecorr_ok argsort toas masks -> ecorr_ok argsort toas (ecorr_masks masks).
Proof.
case=> ha [nd [fit [ne dis]]]; split=> //; split; first exact: kmasks_nodup.
split; first by move=> k m h; have [k' _ h'] := kmasks_inv h; exact: (fit _ _ h').
split=> [k /kmasks_keys [k' -> /ne [i hi]]|k k' i /kmasks_selects [k1 -> h1] /kmasks_selects [k2 -> h2]].
  by exists i; apply/kmasks_selects; exists k'.
by rewrite (dis _ _ _ h1 h2).
Qed.
Definition ecorr_values (val : string -> R) (masks : dict string mask) (key : string) : R :=
  if dget string_dec [seq (ecorr_key_name km.1, val km.1) | km <- masks] key is Some x then x else 0.
Lemma ecorr_valuesE val masks k : List.In k (dkeys masks) -> ecorr_values val masks (ecorr_key_name k) = val k.
Proof.
rewrite /ecorr_values; elim: (masks) => //= -[k' m] l IH /=; case: string_dec => [e _|ne]; first by rewrite (sel_kname_inj _ _ _ e).
by case=> [e|]; [case: ne; rewrite e|].
Qed.
(** The epochs, with the values of the selections *)
Lemma kinds_epochs argsort toas masks (val : string -> R) : ecorr_ok argsort toas masks ->
  exists bs : seq (seq 'I_(size toas) * R),
    [/\ (forall b, b \in bs -> exists2 k, List.In k (dkeys masks) &
           [/\ b.2 = Rpower 10 (2 * val k), (1 < size b.1)%N, (forall i : 'I_(size toas), i \in b.1 -> selects masks k i) &
               forall i j : 'I_(size toas), i \in b.1 -> j \in b.1 -> (Rabs (nth 0 toas i - nth 0 toas j) < 1)%coqR]),
        disjoint_epochs [seq b.1 | b <- bs],
        (forall k (i j : 'I_(size toas)), i != j -> selects masks k i -> selects masks k j -> nth 0 toas i = nth 0 toas j -> exists2 b, b \in bs & (i \in b.1) && (j \in b.1)) &
        ecorr_kernel argsort (size toas) toas (ecorr_masks masks) (ecorr_values val masks) = Ok bs /\ forall b, b \in bs -> 0 < b.2].
Proof.
move=> ok; set n := size toas.
have ok' := kmasks_ok ok; have [Ha [ND [Hfit [Hne Hdis]]]] := ok'.
have [bs [s [ebs [_ [_ [_ [bp bl bd]]]]]]] := ecorr_same_covariance_lem (ecorr_values val masks) ok'.
have [idxs [epochs [jvec [E1 [E2 [E3 [E4 [_ E6]]]]]]]] := ecorr_epochs_lem argsort toas (ecorr_masks masks) (ecorr_values val masks) Ha ND Hfit Hne Hdis.
have ebs' : bs = zip [seq ords n e | e <- epochs] jvec.
  by move: ebs; rewrite /ecorr_kernel E1 /rmap /rbind E2 => -[<-].
have E3' : size [seq ords n e | e <- epochs] = size jvec by rewrite size_map; exact: esym E3.
have nthE : forall j, (j < size epochs)%N -> List.nth_error epochs j = Some (nth [::] epochs j).
  by move=> j; elim: (epochs) j => [|e l IH] [|j] //= h; exact: IH.
have nthJ : forall j x, List.nth_error jvec j = Some x -> nth 0 jvec j = x.
  by move=> j x; elim: (jvec) j => [|e l IH] [|j] //= h; [case: h|exact: IH].
exists bs; split=> //.
- move=> b hb; have sz := bl _ hb; move: hb; rewrite ebs' => /(nthP ([::], 0)) [j]; rewrite size_zip E3' minnn => lj.
  rewrite nth_zip // => eb; have lj' : (j < size epochs)%N by rewrite -(size_map (ords n)) E3'.
  have [k [/kmasks_keys [k' -> hk] [hj [hs [_ [_ cl]]]]]] := E4 _ _ (nthE _ lj').
  have e1 : b.1 = ords n (nth [::] epochs j) by rewrite -eb /= (nth_map [::]).
  exists k' => //; split=> //.
  + by rewrite -eb /= (nthJ _ _ hj) ecorr_valuesE.
  + move=> i; rewrite e1 mem_ords => /inE_list /hs /kmasks_selects [k2 e2 h2]; by rewrite (sel_kname_inj _ _ _ e2).
  + move=> i i'; rewrite e1 !mem_ords => /inE_list h1 /inE_list h2; have := cl _ _ h1 h2.
    by rewrite -!nth_list.
- move=> k i j ij si sj et.
  have [||||e [he [/inE_list hi /inE_list hj]]] := E6 (ecorr_key_name k) i j.
  + by move=> eij; move/eqP: ij; apply; exact: val_inj.
  + by apply/kmasks_selects; exists k.
  + by apply/kmasks_selects; exists k.
  + by rewrite !nth_list.
  have /(nthP [::]) [j0 lj ej] : e \in epochs by apply/inE_list.
  exists (nth ([::], 0) bs j0); last by rewrite ebs' nth_zip //= (nth_map [::]) // !mem_ords ej hi hj.
  by rewrite ebs'; apply: mem_nth; rewrite size_zip E3' minnn -E3' size_map.
Qed.
Lemma kinds_ecorr_lem : forall argsort fns (block : bool) kind psrname toas masks p (val : string -> R),
  ecorr_ok argsort toas masks -> masks <> [::] ->
  (forall k, List.In k (dkeys masks) -> match kind with Varies => dget string_dec p (ecorr_param psrname k) = Some (Sc (val k)) | Fixed v => v (ecorr_param psrname k) = Some (val k) end) ->
  exists bs : seq (seq 'I_(size toas) * R),
    [/\ (forall b, b \in bs -> exists2 k, List.In k (dkeys masks) &
           [/\ b.2 = Rpower 10 (2 * val k), (1 < size b.1)%N, (forall i : 'I_(size toas), i \in b.1 -> selects masks k i) &
               forall i j : 'I_(size toas), i \in b.1 -> j \in b.1 -> (Rabs (nth 0 toas i - nth 0 toas j) < 1)%coqR]),
        disjoint_epochs [seq b.1 | b <- bs],
        (forall k (i j : 'I_(size toas)), i != j -> selects masks k i -> selects masks k j -> nth 0 toas i = nth 0 toas j -> exists2 b, b \in bs & (i \in b.1) && (j \in b.1)) &
        (block -> bs <> [::]) -> exists2 N, wadds argsort fns p (Ecorr block kind psrname toas masks) (View (Some N) (Some None) None 0) &
          forall (vs1 vs2 vs3 : seq 'cV[R]_(size toas)) tm, (forall v, v \in vs1 ++ vs2 ++ vs3 -> posv v) -> vs1 ++ vs2 ++ vs3 <> [::] -> timing_noise tm ->
            exists2 N', ModelNoise.get_ndiag ([seq NVec v | v <- vs1] ++ tm ++ [seq NVec v | v <- vs2] ++ N :: [seq NVec v | v <- vs3]) = Ok N' &
              good_noise N' /\ cov_of N' = diag_cov (\sum_(v <- vs1 ++ vs2 ++ vs3) v) + ecorr_cov bs].
Proof.
move=> argsort fns block kind psrname toas masks p val ok m0 hv; set n := size toas.
have n0 : (0 < n)%N.
  case: masks m0 ok {hv} => // -[k m] l _ [_ [_ [fit [ne _]]]].
  have [|i [m' [h1 h2]]] := ne k; first by left.
  by have l1 := fit _ _ h1; have := proj1 (List.nth_error_Some m' i); rewrite h2 => /(_ (fun H => ltac:(discriminate))); rewrite l1 -/n; lia.
have [bs [h1 bd h3 [ebs bp]]] := kinds_epochs val ok.
exists bs; split=> //.
move=> b0; pose meth := if block then BlockM else ShermanMorrisonM.
have b0' : meth = BlockM -> bs <> [::] by rewrite /meth; case: (block) b0 => // h _; exact: h.
have [N [F [eN [EF _]]]] : exists e F, ecorr_noise meth bs = Ok e /\ ecorr_like e F /\ True.
  have [|e [F [h4 [h5 _]]]] := @ecorr_noise_value n meth bs (const_mx 1) n0 b0' _ bp bd; first by move=> i; rewrite mxE; exact: ltr01.
  by exists e, F.
exists N.
  by split=> //; split=> //; exists (ecorr_values val masks), bs, N; split=> // k hk; have := hv k hk; rewrite ecorr_valuesE.
move=> vs1 vs2 vs3 tm vp v0 Ht; set v := \sum_(v <- vs1 ++ vs2 ++ vs3) v.
have vpos : forall i, 0 < v i ord0 by exact: white_pos.
have [e' [F' [ee' [EF' [pF [cF _]]]]]] := ecorr_noise_value (meth := meth) n0 b0' vpos bp bd.
move: ee'; rewrite eN => -[?]; subst e'.
have [_ ->] := ndiag_value n0 vp v0 Ht EF'; rewrite -/v; eexists; first by [].
split; first exact: wrap_good.
rewrite cov_of_wrap //; last by move: pF; case: (F' (NVec v)).
by have [_ _ h] := plain_noise pF; move: cF; rewrite h => -[->].
Qed.

(** * Example *)
(** Two pulsars with three TOAs, two of them simultaneous: white noise, ECORR noise with a
    parameter and the marginalised offset in the first, ECORR noise with a constant and the
    block method in the second. Two processes are in both or only in the first: one linear
    and one quadratic in time. *)
Definition k_toas : seq R := [:: 5; 5; 7]%coqR.
Definition k_masks : dict string mask := [:: ("f"%string, [:: true; true; true])].
Definition k_all : dict string mask := [:: (""%string, [:: true; true; true])].
Definition k_psr : gv := GPsr [:: ("toas"%string, GV (Vec k_toas)); ("errs"%string, GV (Vec [:: 1; 1; 2%:R]))].
Definition k_square : fcl := FC (PyFun [:: "toas"]%string [::]
  (fun l => match l with [:: GV (Vec ts)] => Ok (GPair (GMat 1 [seq [:: t * t] | t <- ts]) (GV (Vec [:: 1]))) | _ => Err ValueError end)) "" [::].
Definition k_offset : fcl := FC (PyFun [:: "toas"]%string [::]
  (fun l => match l with [:: GV (Vec ts)] => Ok (GPair (GMat 1 [seq [:: 1] | t <- ts]) (GV (Vec [:: 1]))) | _ => Err ValueError end)) "" [::].
Definition k_name (k : nat) : string := if k is 0 then "gw" else "cw".
Definition k_fns (k : nat) : fob * fob := (inst z_prior (k_name k) None, inst z_orf (k_name k) None).
Definition k_com (psr : string) (pos : seq R) : seq wsrc :=
  [:: Plain (Common z_basis "gw" psr k_psr (GV (Vec pos)) 0 false); Plain (Common k_square "cw" psr k_psr (GV (Vec pos)) 1 false)].
Definition k_ownA : seq wsrc := [:: Plain (White z_var "" "A" k_psr k_all); Margin k_offset "tm" "A" k_psr; Ecorr false Varies "A" k_toas k_masks].
Definition k_ownB : seq wsrc := [:: Plain (White z_var "" "B" k_psr k_all); Ecorr true (Fixed (fun _ => Some (-6)%coqR)) "B" k_toas k_masks].
Definition k_resA : seq R := [:: 7%:R; 8%:R; 1].
Definition k_resB : seq R := [:: 9%:R; 6%:R; 2%:R].
Definition k_one : seq (seq wsrc * seq R) := [:: (k_ownA ++ k_com "A" [:: 1; 0], k_resA); (k_ownB, k_resB)].
Definition k_two : seq (seq wsrc * seq R) := [:: (k_ownA ++ k_com "A" [:: 1; 0], k_resA); (k_ownB ++ k_com "B" [:: 0; 1], k_resB)].
(** Parameters: efac, ECORR and the two priors *)
Definition k_p (q : R * R * R * R) : params R :=
  [:: ("A_efac"%string, Sc q.1.1.1); ("B_efac"%string, Sc q.1.1.1); ("A_f_log10_ecorr"%string, Sc q.1.1.2); ("gw_a"%string, Sc q.1.2); ("cw_a"%string, Sc q.2)].
Definition k_val (q : R * R * R * R) (k : nat) : R := if k is 0 then q.1.2 else q.2.
Definition k_white (q : R * R * R * R) : 'cV[R]_3 := \col_i nth 0 [:: q.1.1.1 * q.1.1.1 + 1; q.1.1.1 * q.1.1.1 + 1; q.1.1.1 * q.1.1.1 + 2%:R] i.
Definition k_bs (x : R) : seq (seq 'I_3 * R) := [:: ([:: inord 0; inord 1], Rpower 10 (2 * x))].
Definition k_M : 'M[R]_(3, 1) := const_mx 1.
Definition k_F (k : nat) : 'M[R]_(3, 1) := \matrix_(i, j) if k is 0 then nth 0 k_toas i else nth 0 k_toas i * nth 0 k_toas i.
Definition k_views (q : R * R * R * R) : seq (view 3) :=
  [seq View None (Some None) (Some (BSig (k_F k) (PhiD (const_mx (1 + k_val q k * k_val q k))) false false)) 0 | k <- [:: 0%N; 1%N]].
Definition k_A (q : R * R * R * R) : psr_model :=
  @PsrModel (@PsrView 3 (\col_i nth 0 k_resA i) ([:: View (Some (NVec (k_white q))) (Some None) None 0; View (Some (NMarg k_M (NScal 0))) (Some None) None 0;
    View (Some (NSM (k_bs q.1.1.2) (NScal 0))) (Some None) None 0] ++ k_views q)) (NMarg k_M (NSM (k_bs q.1.1.2) (NVec (k_white q)))).
Definition k_B (com : bool) (q : R * R * R * R) : psr_model :=
  @PsrModel (@PsrView 3 (\col_i nth 0 k_resB i) ([:: View (Some (NVec (k_white q))) (Some None) None 0; View (Some (NBlk (ecorr_blocks (k_bs (-6)%coqR)) (NScal 0))) (Some None) None 0] ++
    (if com then k_views q else [::]))) (NBlk (ecorr_blocks (k_bs (-6)%coqR)) (NVec (k_white q))).
Definition k_place (i : nat) (k : nat) : option nat := match k with 0 => Some i | 1 => Some i.+1 | _ => None end.
Definition k_xs (q : R * R * R * R) : seq (mpsr (fun _ => 1%N)) :=
  [:: @MPsr (fun _ => 1%N) (k_A q) 0 (k_place 3) k_F; @MPsr (fun _ => 1%N) (k_B true q) 1 (k_place 2) k_F].
Definition k_dss (arr : seq (seq wsrc * seq R)) : seq (seq wdesc) := if new_warray argsort_ins k_fns arr is Ok dss then dss else [::].
Definition k_hash (n : nat) (v : 'cV[R]_n) : nat := index v [seq (if (n == 3)%N then \col_i (if (k == 0)%N then nth 0 k_toas i else nth 0 k_toas i * nth 0 k_toas i) else 0) | k <- iota 0 2].

Lemma k_flat q : flat_values (k_p q).
Proof. by apply: w_flat => x l H; repeat (destruct H as [H|H]; [discriminate|]); destruct H. Qed.
Definition k_src (s : wsrc) : Prop := List.In s (k_ownA ++ k_com "A" [:: 1; 0]) \/ List.In s (k_ownB ++ k_com "B" [:: 0; 1]).
Lemma k_in (l : seq (seq wsrc * seq R)) c s : (l = k_one \/ l = k_two) -> List.In c l -> List.In s c.1 -> k_src s.
Proof.
move=> [->|->] [<-|[<-|//]] hs; rewrite /k_src; auto.
by right; case: hs => [<-|[<-|//]]; cbn; auto.
Qed.
Lemma k_proper s : k_src s -> wproper s.
Proof.
case=> h; cbn in h; repeat (destruct h as [<-|h]; [cbn; try exact I; try (split; [|]); first [by repeat constructor | by constructor; [case|constructor]] |]); destruct h.
Qed.
Lemma k_fair s q : k_src s -> fair_to k_fns s (k_p q).
Proof.
by case=> h; cbn in h; repeat (destruct h as [<-|h]; [try exact I; try (by move=> k [<-|//]); by move=> o ho; no_constants ho|]); destruct h.
Qed.
Lemma k_permitted l q : (l = k_one \/ l = k_two) -> wpermitted k_fns l (k_p q).
Proof. by move=> hl; split=> [|c s hc hs]; [exact: k_flat|apply: k_fair; exact: (k_in hl hc hs)]. Qed.
Lemma k_idxs : ecorr_idxs argsort_ins k_toas (ecorr_masks k_masks) = Ok [:: ("f_log10_ecorr"%string, [:: [:: 0; 1]])]%N.
Proof.
unfold ecorr_idxs, sorted_keys. simpl. unfold ecorr_key, quant_matrix, buckets, argsort_ins, Rleb. simpl.
rdec. unfold Rltb. rdec. reflexivity.
Qed.
Lemma k_made l : (l = k_one \/ l = k_two) -> new_warray argsort_ins k_fns l = Ok (k_dss l).
Proof.
have E block kind psr : new_ecorr argsort_ins block kind psr k_toas k_masks = Ok (EcorrSig block 3 kind [seq (ecorr_key_name km.1, ecorr_param psr km.1) | km <- k_masks] [:: ("f_log10_ecorr"%string, [:: [:: 0; 1]])]%N).
  have nd : List.NoDup (dkeys k_masks) by constructor; [case|constructor].
  have k : forall masks, List.NoDup (dkeys masks) -> forall idxs, ecorr_idxs argsort_ins k_toas (ecorr_masks masks) = Ok idxs ->
      new_ecorr argsort_ins block kind psr k_toas masks = Ok (EcorrSig block 3 kind [seq (ecorr_key_name km.1, ecorr_param psr km.1) | km <- masks] idxs).
    move=> masks hn idxs; rewrite /new_ecorr; have := ProofSelect.selection_names_lem psr "log10_ecorr" masks hn; case: selection_call => ps ms [-> [-> _]].
    by rewrite /ecorr_masks /ecorr_key_name => ->.
  exact: (k _ nd _ k_idxs).
have W psr : exists d, new_wsig argsort_ins k_fns (Plain (White z_var "" psr k_psr k_all)) = Ok d by eexists; cbn; reflexivity.
have [dA eA] := W "A"%string; have [dB eB] := W "B"%string.
move=> hl; suff [x ex] : exists x, new_warray argsort_ins k_fns l = Ok x by rewrite /k_dss ex.
by case: hl => ->; eexists; rewrite /new_warray /k_one /k_two /k_ownA /k_ownB [rmapM _ _]/= ?eA ?eB /= !E; reflexivity.
Qed.

Lemma ord3 (P : 'I_3 -> Prop) : P ord0 -> P (fintype.lift ord0 ord0) -> P (fintype.lift ord0 (fintype.lift ord0 ord0)) -> forall i, P i.
Proof. by move=> h0 h1 h2 i; case: (unliftP ord0 i) => [j ->|-> //]; move: j; apply: ord2. Qed.
Lemma k_kernel val : ecorr_kernel argsort_ins 3 k_toas (ecorr_masks k_masks) val = Ok (k_bs (val "f_log10_ecorr"%string)).
Proof.
rewrite /ecorr_kernel k_idxs /rmap /rbind /get_jvecs /sorted_keys /= /k_bs /=.
have h (i : nat) (lt : (i < 3)%N) : insub i = Some (inord i : 'I_3) by rewrite insubT; congr Some; apply: val_inj; rewrite /= inordK.
by rewrite !h.
Qed.
Lemma k_ecorr block kind psr q x : (kind = Varies /\ psr = "A"%string /\ x = q.1.1.2) \/ kind = Fixed (fun _ => Some x) ->
  wadds argsort_ins k_fns (k_p q) (Ecorr block kind psr k_toas k_masks) (View (Some (if block then NBlk (ecorr_blocks (k_bs x)) (NScal 0) else NSM (k_bs x) (NScal 0))) (Some None) None 0).
Proof.
move=> h; split=> //; split=> //; exists (fun _ => x), (k_bs x), (if block then NBlk (ecorr_blocks (k_bs x)) (NScal 0) else NSM (k_bs x) (NScal 0)).
split; first by case: h => [[-> [-> ->]] k [<-|//]|->].
split; first exact: k_kernel.
by split=> //; case: (block) => //=; rewrite /ecorr_block /mk_block eqxx.
Qed.
Lemma k_white_adds psr q : psr = "A"%string \/ psr = "B"%string -> wadds argsort_ins k_fns (k_p q) (Plain (White z_var "" psr k_psr k_all)) (View (Some (NVec (k_white q))) (Some None) None 0).
Proof.
move=> hp; split=> //.
exists (fun _ i => q.1.1.1 * q.1.1.1 + nth 0 [:: 1; 1; 2%:R] i); split=> //; split.
  by move=> k m [[<- <-]|//]; split=> //; case: hp => ->; (eexists; split; [reflexivity|split=> // [[|[|[|i]]]] // lt]); exfalso; lia.
congr View; congr Some; congr NVec; apply/matrixP=> i j; rewrite !mxE; move: i; apply: ord3; cbn; Lra.lra.
Qed.
Lemma k_margin q : wadds argsort_ins k_fns (k_p q) (Margin k_offset "tm" "A" k_psr) (View (Some (NMarg k_M (NScal 0))) (Some None) None 0).
Proof.
exists 1%N, [:: [:: 1]; [:: 1]; [:: 1]], (GV (Vec [:: 1])); split=> //; split=> //; split; first by repeat constructor.
congr View; congr Some; have -> // : k_M = (\matrix_(i < 3, j < 1) nth 0 (nth [::] [:: [:: 1]; [:: 1]; [:: 1]] i) j).
by apply/matrixP=> i j; rewrite !mxE (ord1 j); move: i; apply: ord3.
Qed.
Definition k_rows (k : nat) : seq (seq R) := [seq [:: if k is 0 then t else t * t] | t <- k_toas].
Lemma k_F_rows k : (\matrix_(i < 3, j < 1) nth 0 (nth [::] (k_rows k) i) j) = k_F k.
Proof. by case: k => [|k]; apply/matrixP => i j; rewrite !mxE (ord1 j); move: i; apply: ord3. Qed.
Lemma k_phi_col (x : R) : (\col_(j < 1) nth 0 [:: x] j : 'cV[R]_1) = const_mx x.
Proof. by apply/matrixP=> i j; rewrite !mxE (ord1 i). Qed.
Lemma k_orf_at k q a c d e : gcall (k_fns k).2 [:: GV (Vec [:: a; c]); GV (Vec [:: d; e])] [::] (k_p q) = Ok (GV (Sc (2%:R^-1 + 2%:R^-1 * (a * d + c * e)))).
Proof. by case: k. Qed.
Lemma k_half : 2%:R^-1 + 2%:R^-1 = 1 :> R.
Proof. by rewrite -mulr2n -[X in X = _]mulr_natl mulfV // pnatr_eq0. Qed.
Lemma k_com_adds psr pos q : psr = "A"%string \/ psr = "B"%string -> z_pos pos -> all_wadd argsort_ins k_fns (k_p q) (k_com psr pos) (k_views q).
Proof.
move=> hp ho; have one : forall k, gcall (k_fns k).2 [:: GV (Vec pos); GV (Vec pos)] [::] (k_p q) = Ok (GV (Sc 1)).
  by move=> k; case: ho => ->; rewrite k_orf_at; congr (Ok (GV (Sc _))); rewrite ?mulr1 ?mulr0 ?addr0 ?add0r ?mulr1 k_half.
have pc (x : R) : (\col_(j < 1) (nth 0 [:: x] j * 1) : 'cV[R]_1) = const_mx x by apply/matrixP=> i j; rewrite !mxE (ord1 i) mulr1.
constructor; [|constructor; [|exact: wadd_nil]]; split=> //.
- exists 1%N, (k_rows 0), (GV (Vec [:: 1])), (k_rows 0), (GV (Vec [:: 1])), [:: 1 + q.1.2 * q.1.2], 1.
  do 6!(split; first by [case: hp => ->|repeat constructor]).
  split=> //; split=> //; split; first exact: one.
  by rewrite k_F_rows pc.
- exists 1%N, (k_rows 1), (GV (Vec [:: 1])), (k_rows 1), (GV (Vec [:: 1])), [:: 1 + q.2 * q.2], 1.
  do 6!(split; first by [case: hp => ->|repeat constructor]).
  split=> //; split=> //; split; first exact: one.
  by rewrite k_F_rows pc.
Qed.
Lemma all_wadd_cat n argsort fns p ss ss' (ws ws' : seq (view n)) : all_wadd argsort fns p ss ws -> all_wadd argsort fns p ss' ws' -> all_wadd argsort fns p (ss ++ ss') (ws ++ ws').
Proof. by move=> F F'; elim: F => [//|s w l m h _ IH] /=; constructor. Qed.
Lemma k_adds_A q : psr_wadds argsort_ins k_fns (k_p q) (k_ownA ++ k_com "A" [:: 1; 0], k_resA) (pm (k_A q)).
Proof.
split=> //; split; first by move=> i; rewrite mxE.
apply: all_wadd_cat; last by apply: k_com_adds; left.
constructor; first by apply: k_white_adds; left.
constructor; first exact: k_margin.
constructor; last exact: wadd_nil.
by apply: (@k_ecorr false Varies "A" q q.1.1.2); left.
Qed.
Lemma k_adds_B com q : psr_wadds argsort_ins k_fns (k_p q) (k_ownB ++ (if com then k_com "B" [:: 0; 1] else [::]), k_resB) (pm (k_B com q)).
Proof.
split=> //; split; first by move=> i; rewrite mxE.
apply: all_wadd_cat; last by case: com; [apply: k_com_adds; right|exact: wadd_nil].
constructor; first by apply: k_white_adds; right.
constructor; last exact: wadd_nil.
by apply: (@k_ecorr true _ "B" q (-6)%coqR); right.
Qed.
Lemma k_white_pos q i : 0 < k_white q i ord0.
Proof.
have pos (x : R) (y : nat) : 0 < x * x + y.+1%:R by apply: ltr_paddl; [exact: sqr_ge0|exact: ltr0Sn].
by rewrite mxE; move: i; apply: ord3; [exact: (pos _ 0%N)|exact: (pos _ 0%N)|exact: (pos _ 1%N)].
Qed.
Lemma k_bs_ok x : (forall b, b \in k_bs x -> 0 < b.2) /\ disjoint_epochs [seq b.1 | b <- k_bs x].
Proof.
split=> [b|]; first by rewrite inE => /eqP -> /=; apply/RltP; exact: exp_pos.
by rewrite /disjoint_epochs /= inE -val_eqE /= !inordK.
Qed.
Lemma block_proper n (bs : seq (seq 'I_n * R)) (v : 'cV[R]_n) : (0 < n)%N -> bs <> [::] -> (forall i, 0 < v i ord0) -> (forall b, b \in bs -> 0 < b.2) -> disjoint_epochs [seq b.1 | b <- bs] ->
  proper_noise (NBlk (ecorr_blocks bs) (NVec v)) /\ ecorr_like (NBlk (ecorr_blocks bs) (NScal 0)) (NBlk (ecorr_blocks bs)).
Proof.
move=> n0 b0 v0 h1 h2; split; last by right; left; exists (ecorr_blocks bs); split=> //; case: (bs) b0.
have [e' [F' [e1 [h3 [h4 _]]]]] := @ecorr_noise_value n BlockM bs v n0 (fun _ => b0) v0 h1 h2.
move: e1; rewrite /= /ecorr_block /mk_block eqxx => -[e1]; subst e'.
by case: h3 h4 => [[bs' [e2 ->]]|[[bs' [_ [e2 ->]]]|[A [e2 _]]]] //; move: e2; generalize (ecorr_blocks bs) => u [->].
Qed.
Lemma k_white_sum q : white_sum ([:: k_white q] ++ [::] ++ [::]) = k_white q.
Proof. by rewrite /white_sum /= big_seq1. Qed.
Lemma k_ndiag_A q : ModelNoise.get_ndiag [:: NVec (k_white q); NMarg k_M (NScal 0); NSM (k_bs q.1.1.2) (NScal 0)] = Ok (NMarg k_M (NSM (k_bs q.1.1.2) (NVec (k_white q)))) /\
  good_noise (NMarg k_M (NSM (k_bs q.1.1.2) (NVec (k_white q)))).
Proof.
have tm : timing_noise [:: NMarg k_M (NScal 0)].
  right; exists 1%N, k_M; split=> // x /matrixP /(_ ord0 ord0); rewrite !mxE big_ord_recl big_ord0 addr0 !mxE mul1r => e.
  by apply/matrixP=> i j; rewrite (ord1 i) (ord1 j) e mxE.
have [h1 h2] := k_bs_ok q.1.1.2; split; last by apply: (wrap_good tm); split=> //; exact: k_white_pos.
have [|||_] := @ndiag_value 3 [:: k_white q] [::] [::] [:: NMarg k_M (NScal 0)] (NSM (k_bs q.1.1.2) (NScal 0)) (NSM (k_bs q.1.1.2)) isT _ _ tm.
- by move=> v; rewrite !inE => /eqP -> i; exact: k_white_pos.
- by [].
- by left; exists (k_bs q.1.1.2).
by rewrite k_white_sum.
Qed.
Lemma k_ndiag_B q : ModelNoise.get_ndiag [:: NVec (k_white q); NBlk (ecorr_blocks (k_bs (-6)%coqR)) (NScal 0)] = Ok (NBlk (ecorr_blocks (k_bs (-6)%coqR)) (NVec (k_white q))) /\
  good_noise (NBlk (ecorr_blocks (k_bs (-6)%coqR)) (NVec (k_white q))).
Proof.
have [h1 h2] := k_bs_ok (-6)%coqR; have [pN el] := @block_proper 3 (k_bs (-6)%coqR) (k_white q) isT (fun e => ltac:(discriminate e)) (k_white_pos q) h1 h2.
split; last by case: (plain_noise pN).
have [|||_] := @ndiag_value 3 [:: k_white q] [::] [::] [::] _ _ isT _ _ _ el.
- by move=> v; rewrite !inE => /eqP -> i; exact: k_white_pos.
- by [].
- by left.
by rewrite k_white_sum.
Qed.

Lemma k_posdef (x : R) : posdef (phi_mx (PhiD (const_mx (1 + x * x) : 'cV[R]_1))).
Proof. by apply: diag_posdef => j; rewrite mxE; apply: ltr_paddr; [exact: sqr_ge0|exact: ltr01]. Qed.
Lemma k_col (u : 'I_1) k : col u (k_F k) = k_F k.
Proof. by apply/matrixP=> i j; rewrite !mxE. Qed.
Lemma k_neq : k_F 0 <> k_F 1.
Proof. move=> /matrixP /(_ ord0 ord0); rewrite !mxE /= => h; have h' : (5 = 5 * 5)%coqR := h; Lra.lra. Qed.
Definition k_bases (q : R * R * R * R) : seq (bsig 3) := [seq BSig (k_F k) (PhiD (const_mx (1 + k_val q k * k_val q k))) false false | k <- [:: 0%N; 1%N]].
Lemma k_coll q : ProofEcorr.coll_ok (@k_hash 3) (k_bases q).
Proof.
split=> //.
- have c k s : s \in ProofKernel.columns (BSig (k_F k) (PhiD (const_mx (1 + k_val q k * k_val q k))) false false) -> s = k_F k.
    by rewrite /ProofKernel.columns /= => /mapP [u _ ->]; exact: k_col.
  have H s : s \in flatten [seq ProofKernel.columns s0 | s0 <- k_bases q] -> s = k_F 0 \/ s = k_F 1.
    by rewrite /= cats0 mem_cat => /orP [h|h]; [rewrite (c 0%N s h)|rewrite (c 1%N s h)]; auto.
  have e0 : k_F 0 = \col_i nth 0 k_toas i by apply/matrixP=> i j; rewrite !mxE.
  have e1 : k_F 1 = \col_i (nth 0 k_toas i * nth 0 k_toas i) by apply/matrixP=> i j; rewrite !mxE.
  have i0 : k_hash (k_F 0) = 0%N by rewrite /k_hash /= e0 eqxx.
  have i1 : k_hash (k_F 1) = 1%N by rewrite /k_hash /= -e0 -e1 eqxx; case: eqP => // /k_neq.
  by move=> x y /H hx /H hy; case: hx hy => -> [] ->; rewrite ?i0 ?i1.
- by move=> s [<-|[<-|//]]; exact: k_posdef.
Qed.
Lemma k_good_A q : good_psr k_hash (k_A q).
Proof. by have [h1 h2] := k_ndiag_A q; split=> //; exact: k_coll. Qed.
Lemma k_good_B com q : good_psr k_hash (k_B com q).
Proof.
have [h1 h2] := k_ndiag_B q; split=> //; first by case: com; exact: h1.
- by case: com; [exact: k_coll|split].
- case: com => //; rewrite /= /combine_ncol /combine_idx /=.
  have E : enum 'I_1 = [:: ord0] by rewrite enum_ordSl enum_ord0.
  by rewrite E /= E.
Qed.
(** Any sequence of likelihoods, without and with correlations *)
Lemma k_likelihood : forall svd l,
  run (z_ops k_hash svd (wcross k_fns)) (warray_colls k_fns (k_dss k_one) k_one) [seq ALike "partition" (k_p q) | q <- l] (warray_start (k_dss k_one)) =
  [seq Ok (RLike (Fin (psr_term (k_A q) + psr_term (k_B false q)))) | q <- l].
Proof.
move=> svd l.
have := @kinds_likelihood_lem k_hash svd argsort_ins k_fns k_one (k_dss k_one) [seq ("partition"%string, k_p q, [:: k_A q; k_B false q]) | q <- l].
rewrite -!map_comp => H; rewrite [LHS]H //.
- by apply: eq_map => q /=; rewrite !big_cons big_nil addr0.
- by move=> c s hc hs; apply: k_proper; exact: (k_in (or_introl erefl) hc hs).
- by apply: k_made; left.
- by move=> ij ij' s s' k; destruct ij as [[|[|i]] [|[|[|[|[|j]]]]]]; cbn; intros E; try discriminate; try (destruct i; discriminate); try (destruct j; discriminate); injection E as <-;
     destruct ij' as [[|[|i']] [|[|[|[|[|j']]]]]]; cbn; intros E'; try discriminate; try (destruct i'; discriminate); try (destruct j'; discriminate); injection E' as <-; cbn; intros; congruence.
move=> t ht; have [q ->] : exists q, t = ("partition"%string, k_p q, [:: k_A q; k_B false q]).
  by elim: l ht {H} => [//|q l IH] [<-|/IH //]; exists q.
split=> //.
- exact: (k_permitted q (or_introl erefl)).
- constructor; first by split; [exact: k_adds_A|exact: k_good_A].
  by constructor=> //; split; [exact: (k_adds_B false)|exact: k_good_B].
Qed.
Lemma k_classes : forall svd l,
  run (z_ops k_hash svd (wcross k_fns)) (warray_colls k_fns (k_dss k_two) k_two) [seq ALike "cliques" (k_p q) | q <- l] (warray_start (k_dss k_two)) =
  [seq Ok (RLike (Fin (many_term (fun _ => y_orf) (fun k => const_mx (1 + k_val q k * k_val q k)) (k_xs q) [:: 0%N; 1%N]))) | q <- l].
Proof.
move=> svd l; pose T q : string * params R * (nat -> nat -> nat -> R) * (forall k : nat, 'cV[R]_1) * seq (mpsr (fun _ => 1%N)) :=
  ("cliques"%string, k_p q, fun _ => y_orf, fun k => const_mx (1 + k_val q k * k_val q k), k_xs q).
have := @kinds_classes_lem k_hash svd argsort_ins k_fns k_two (k_dss k_two) (fun _ => 1%N) [:: 0%N; 1%N] [seq T q | q <- l].
rewrite -!map_comp => H; rewrite [LHS]H //.
- by move=> c s hc hs; apply: k_proper; exact: (k_in (or_intror erefl) hc hs).
- by apply: k_made; right.
move=> method p orf phi xs ht; have [q [-> -> -> -> ->]] : exists q, (method, p, orf, phi, xs) = T q.
  by elim: l ht {H} => [//|q l IH] [<-|/IH //]; exists q.
have two k : (1 < size (members (k_xs q) k))%N -> k = 0%N \/ k = 1%N.
  by case: k => [|[|k]]; [left|right|].
have mem k psr pos : psr = "A"%string \/ psr = "B"%string -> k = 0%N \/ k = 1%N -> exists basisfn name psrname psr' pos' comb rows lab phil,
    List.nth_error (k_com psr pos) k = Some (Plain (Common basisfn name psrname psr' pos' k comb)) /\
    gcall (inst basisfn (join_us [:: psrname; name]) (Some psr')) [::] [::] (k_p q) = Ok (GPair (GMat 1 rows) lab) /\
    k_F k = \matrix_(i, j) nth 0 (nth [::] rows i) j /\
    gcall (k_fns k).1 [:: lab] [::] (k_p q) = Ok (GV (Vec phil)) /\ List.length phil = 1%N /\ (const_mx (1 + k_val q k * k_val q k) : 'cV[R]_1) = \col_j nth 0 phil j.
  move=> hp hk; exists (if k is 0 then z_basis else k_square), (k_name k), psr, k_psr, (GV (Vec pos)), false, (k_rows k), (GV (Vec [:: 1])), [:: 1 + k_val q k * k_val q k].
  by rewrite k_F_rows k_phi_col; case: hk => ->; case: hp => ->.
split=> //.
- right; split.
    by move=> x s hx; move: s; case: hx => [e|[e|//]]; destruct e => s; rewrite /processes /=; case=> [<-|[<-|//]].
  left; split=> // c d /two hc /two hd ne; left => x hx.
  have N (u v : 'I_1) : col u (k_F c) <> col v (k_F d).
    by rewrite !k_col; case: hc hd ne => -> [] -> // _; [|move/esym]; exact: k_neq.
  by case: hx => [e|[e|//]]; destruct e => i j _ _ u v; exact: N.
- exact: (k_permitted q (or_intror erefl)).
- constructor; last constructor=> //.
  + split; [exact: k_adds_A|exact: k_good_A|by []| |].
      by case=> [|[|k]] j //= [<-]; [exact: (mem 0%N "A"%string [:: 1; 0] (or_introl erefl) (or_introl erefl))|exact: (mem 1%N "A"%string [:: 1; 0] (or_introl erefl) (or_intror erefl))].
    by move=> j s k; destruct j as [|[|[|[|[|j]]]]]; cbn; intros E E'; try (injection E as <-; cbn in E'; first [discriminate E' | injection E' as <-; reflexivity]); destruct j; discriminate.
  + split; [exact: (k_adds_B true)|exact: k_good_B|by []| |].
      by case=> [|[|k]] j //= [<-]; [exact: (mem 0%N "B"%string [:: 0; 1] (or_intror erefl) (or_introl erefl))|exact: (mem 1%N "B"%string [:: 0; 1] (or_intror erefl) (or_intror erefl))].
    by move=> j s k; destruct j as [|[|[|[|j]]]]; cbn; intros E E'; try (injection E as <-; cbn in E'; first [discriminate E' | injection E' as <-; reflexivity]); destruct j; discriminate.
- split=> //.
  + by move=> x k; rewrite /List.In => -[<-|[<-|//]]; case: k => [|[|k]].
  + by exists 0%N.
  + move=> x y k i j b nm pn psr pos cb b' nm' pn' psr' pos' cb' hx hy lt hi hj e1 e2.
    have c1 : List.In (mp_i x, pos) [:: (0%N, GV (Vec [:: 1; 0])); (1%N, GV (Vec [:: 0; 1]))].
      by case: hx hi e1 => [<-|[<-|//]]; case: k hj {e2} => [|[|k]] //= _ [<-] [_ _ _ _ <- _]; auto.
    have c2 : List.In (mp_i y, pos') [:: (0%N, GV (Vec [:: 1; 0])); (1%N, GV (Vec [:: 0; 1]))].
      by case: hy hj e2 => [<-|[<-|//]]; case: k hi {e1} => [|[|k]] //= _ [<-] [_ _ _ _ <- _]; auto.
    move: c1 c2; case=> [[<- <-]|[[<- <-]|//]] [[<- <-]|[[<- <-]|//]]; rewrite k_orf_at /y_orf /=; congr (Ok (GV (Sc _)));
      by rewrite ?mulr1 ?mulr0 ?mul0r ?addr0 ?add0r ?mulr0 ?mulr1 ?addr0 ?k_half.
- move=> k _; split; first exact: y_orf_posdef.
  by move=> i; rewrite mxE; apply: ltr_paddr; [exact: sqr_ge0|exact: ltr01].
Qed.
Lemma k_ecorr_ok : ecorr_ok argsort_ins k_toas k_masks /\ k_masks <> [::] /\
  (forall q k, List.In k (dkeys k_masks) -> dget string_dec (k_p q) (ecorr_param "A" k) = Some (Sc q.1.1.2)).
Proof.
split; last by split=> // q k [<-|//].
split; first exact: argsort_ins_ok.
split; first by constructor; [case|constructor].
split; first by move=> k m /=; case: string_dec => _ //= [<-].
split=> [k [<-|[]]|k k' i [m [h1 h2]] [m' [h1' h2']]]; first by exists 0%N, [:: true; true; true].
by move: h1 h1' => /=; repeat (case: string_dec => [<-|_] //=).
Qed.

Lemma kinds_ecorr_empty_lem argsort block kind psrname toas e p :
  new_ecorr argsort block kind psrname toas [::] = Ok e -> ecorr_body e p = Err ValueError.
Proof. by rewrite /new_ecorr /=; case=> <-. Qed.
