(** Proofs about the wideband timing model. *)
From Coq Require Import Reals String Lra.
From mathcomp Require Import all_ssreflect all_algebra.
From mathcomp Require Import zify.
From Verif Require Import RStruct PyBase ProofBase ModelLinalg ProofLinalg ModelNoise ProofNoise ModelLike ProofLike ModelKernel ProofKernel ModelCond ProofCond ModelWide.
Set Implicit Arguments.
Unset Strict Implicit.
Unset Printing Implicit Defensive.
Import GRing.Theory Num.Theory Order.TTheory.
Local Open Scope ring_scope.

(** * Construction *)
(** TOA [i] lies in an interval of days. *)
Definition within n (stoas : 'cV[R]_n) (i : 'I_n) (d : dmx_par) : bool :=
  (d_r1 d <= stoas i ord0 / 86400%coqR) && (stoas i ord0 / 86400%coqR < d_r2 d).
(** The number of intervals a TOA lies in. *)
Definition intervals n (stoas : 'cV[R]_n) (dmx : dict string dmx_par) (i : 'I_n) : nat :=
  count (fun kd => within stoas i kd.2) dmx.
Definition par_index (fitpars : seq string) (k : string) : nat := odflt 0%N (find_str k fitpars).
(** The other demands of the constructor. *)
Definition dmx_listed (fitpars : seq string) (dmx : dict string dmx_par) : Prop :=
  forall k d, List.In (k, d) dmx -> d_fit d /\ List.In k fitpars.
Definition jumps_selected (jump_keys : seq string) (has_jump : bool) : Prop := ~ (jump_keys = [:: ""%string] /\ has_jump).

Lemma find_strP x l : reflect (List.In x l) (isSome (find_str x l)).
Proof.
elim: l => [|y l IH] /=; first by constructor.
case: string_dec => [e|ne] /=; first by constructor; left.
case E: (find_str x l) IH => [j|] /= IH; constructor.
  by right; apply/IH.
by move=> [e|/IH //]; apply: ne.
Qed.
Lemma find_str_lt x l j : find_str x l = Some j -> (j < size l)%N.
Proof.
elim: l j => [|y l IH] j //=; case: string_dec => [e [<-] //|ne].
by case E: (find_str x l) => [i|] //= [<-]; apply: (IH i).
Qed.
Lemma find_str_nth x l j : find_str x l = Some j -> nth ""%string l j = x.
Proof.
elim: l j => [|y l IH] j //=; case: string_dec => [e [<-] //|ne].
by case E: (find_str x l) => [i|] //= [<-]; apply: (IH i).
Qed.

Section Init.
Variables (n : nat) (stoas : 'cV[R]_n) (fitpars : seq string).
Definition bin_of (kd : string * dmx_par) : dmx_bin n :=
  DmxBin (d_val kd.2) (par_index fitpars kd.1) (fun i => within stoas i kd.2).

Lemma foldl_cons (A B : Type) (f : B -> A -> B) b x l : foldl f b (x :: l) = foldl f (f b x) l. Proof. by []. Qed.
Lemma loop_err l : foldl (add_bin stoas fitpars) (Err ValueError) l = Err ValueError.
Proof. by elim: l. Qed.
Lemma loop_ok l : forall bins, dmx_listed fitpars l ->
  foldl (add_bin stoas fitpars) (Ok bins) l = Ok (bins ++ [seq bin_of kd | kd <- l]).
Proof.
elim: l => [|[k d] l IH] bins h; first by rewrite cats0.
have [fd ik] := h k d (or_introl erefl).
rewrite foldl_cons.
have /find_strP := ik; case E: (find_str k fitpars) => [j|] // _.
have -> : add_bin stoas fitpars (Ok bins) (k, d) = Ok (rcons bins (DmxBin (d_val d) j (in_interval stoas d))).
  by rewrite /add_bin /= fd E.
rewrite IH; last by move=> k' d' i'; apply: h; right.
by rewrite cat_rcons /bin_of /par_index /= E.
Qed.
Lemma loop_cases l : forall bins, foldl (add_bin stoas fitpars) (Ok bins) l = Err ValueError \/ dmx_listed fitpars l.
Proof.
elim: l => [|[k d] l IH] bins; first by right=> k d [].
rewrite foldl_cons.
case fd: (d_fit d); last first.
  have -> : add_bin stoas fitpars (Ok bins) (k, d) = Err ValueError by rewrite /add_bin /= fd.
  by left; apply: loop_err.
case E: (find_str k fitpars) => [j|]; last first.
  have -> : add_bin stoas fitpars (Ok bins) (k, d) = Err ValueError by rewrite /add_bin /= fd E.
  by left; apply: loop_err.
have -> : add_bin stoas fitpars (Ok bins) (k, d) = Ok (rcons bins (DmxBin (d_val d) j (in_interval stoas d))).
  by rewrite /add_bin /= fd E.
case: (IH (rcons bins (DmxBin (d_val d) j (in_interval stoas d)))) => [->|h]; first by left.
right=> k' d' [[<- <-]|/h //]; split=> //; apply/find_strP; by rewrite E.
Qed.
End Init.

Definition key_sort (dmx : dict string dmx_par) : dict string dmx_par := isort (fun x y => sle x.1 y.1) dmx.

Lemma in_key_sort kd dmx : List.In kd (key_sort dmx) <-> List.In kd dmx.
Proof.
have pm := isort_perm (fun x y : string * dmx_par => sle x.1 y.1) dmx; split.
  exact: Permutation.Permutation_in pm.
exact: (Permutation.Permutation_in _ (Permutation.Permutation_sym pm)).
Qed.
Lemma big_permut (A B : Type) (idx : B) (op : Monoid.com_law idx) (l l' : seq A) (F : A -> B) :
  Permutation.Permutation l l' -> \big[op/idx]_(x <- l) F x = \big[op/idx]_(x <- l') F x.
Proof.
elim=> [|x a b _ IH|x y a|a b c _ IH1 _ IH2].
- by [].
- by rewrite !big_cons IH.
- by rewrite !big_cons Monoid.mulmCA.
- by rewrite IH1.
Qed.
Lemma count_permut (A : Type) (p : pred A) (l l' : seq A) : Permutation.Permutation l l' -> count p l = count p l'.
Proof. by elim=> [//|x a b _ /= -> //|x y a /=|a b c _ -> _ -> //]; rewrite addnCA. Qed.

Lemma sum_intervals n (stoas : 'cV[R]_n) fitpars dmx :
  (\sum_(b <- [seq bin_of stoas fitpars kd | kd <- key_sort dmx]) \sum_i b_which b i)%N = (\sum_i intervals stoas dmx i)%N.
Proof.
rewrite big_map (big_permut _ _ (isort_perm _ dmx)) exchange_big /=; apply: eq_bigr => i _.
by rewrite /intervals -sum1_count [RHS]big_mkcond /=; apply: eq_bigr => kd _; case: ifP.
Qed.

Lemma wideband_accept_lem : forall n (stoas : 'cV[R]_n) fitpars jk hj dmx,
  (exists bins, wb_init stoas fitpars jk hj dmx = Ok bins) <->
  jumps_selected jk hj /\ dmx_listed fitpars dmx /\ (\sum_i intervals stoas dmx i)%N = n /\ ~ List.In "DM"%string fitpars.
Proof.
move=> n stoas fitpars jk hj dmx; rewrite /wb_init.
have jE : ((if jk is [:: k] then String.eqb k "" else false) && hj) <-> (jk = [:: ""%string] /\ hj).
  case: jk => [|k [|k' jk]] /=; [by split=> // -[]| |by split=> // -[]].
  split; first by case/andP => /String.eqb_eq ->.
  by case=> [[->] ->].
have lE : dmx_listed fitpars (key_sort dmx) <-> dmx_listed fitpars dmx.
  by split=> h k d /in_key_sort; apply: h.
case: ifP => jc.
  split; first by case.
  by case=> js _; case: js; apply/jE.
have js : jumps_selected jk hj by move/jE; rewrite jc.
rewrite -/(key_sort dmx); case: (@loop_cases n stoas fitpars (key_sort dmx) [::]) => [E|h].
  split; first by rewrite E => -[].
  case=> _ [/lE h _]; move: E; by rewrite loop_ok.
rewrite loop_ok //; cbn [rbind]; rewrite cat0s sum_intervals.
case: eqP => sE /=; last by split=> [[//]|[_ [_ [/sE]]]].
have := find_strP "DM"%string fitpars; case: (find_str _ _) => [j|] /= hD.
  by split=> [[//]|[_ [_ [_ nD]]]]; case: nD; apply/hD.
by split=> [_|_]; [split=> //; split; [apply/lE|split=> // /hD]|eexists].
Qed.

Lemma wb_init_bins n (stoas : 'cV[R]_n) fitpars jk hj dmx bins :
  wb_init stoas fitpars jk hj dmx = Ok bins ->
  bins = [seq bin_of stoas fitpars kd | kd <- key_sort dmx] /\ dmx_listed fitpars dmx.
Proof.
move=> e; have [_ [h _]] := proj1 (wideband_accept_lem stoas fitpars jk hj dmx) (ex_intro _ bins e); split=> //.
move: e; rewrite /wb_init; case: ifP => // _; rewrite -/(key_sort dmx) loop_ok; last by move=> k d /in_key_sort; apply: h.
by cbn [rbind]; rewrite cat0s; case: ifP => // _; case: find_str => // -[].
Qed.

Lemma sum_ones n (f : 'I_n -> nat) : (\sum_i f i)%N = n -> (forall i, f i <= 1)%N \/ (forall i, 0 < f i)%N -> forall i, f i = 1%N.
Proof.
move=> e h i; have e1 : (\sum_(i < n) 1)%N = n by rewrite sum1_card card_ord.
case: h => h.
  have := leqif_sum (fun i (_ : true) => leqif_eq (h i)); rewrite e1 e => -[_].
  by rewrite eqxx => /esym/forallP /(_ i) /eqP.
have := leqif_sum (fun i (_ : true) => leqif_eq (h i)); rewrite e1 e => -[_].
by rewrite eqxx => /esym/forallP /(_ i) /eqP <-.
Qed.
Lemma wideband_bins_cover_partial_lem : forall n (stoas : 'cV[R]_n) fitpars jk hj dmx bins,
  wb_init stoas fitpars jk hj dmx = Ok bins ->
  (forall i, intervals stoas dmx i <= 1)%N \/ (forall i, 0 < intervals stoas dmx i)%N ->
  forall i, intervals stoas dmx i = 1%N.
Proof.
move=> n stoas fitpars jk hj dmx bins e; apply: sum_ones.
by have [_ [_ [s _]]] := proj1 (wideband_accept_lem stoas fitpars jk hj dmx) (ex_intro _ bins e).
Qed.
Lemma wideband_bins_accepted_lem : forall n (stoas : 'cV[R]_n) fitpars jk hj dmx,
  jumps_selected jk hj -> dmx_listed fitpars dmx -> ~ List.In "DM"%string fitpars ->
  (forall i, intervals stoas dmx i = 1%N) ->
  exists bins, wb_init stoas fitpars jk hj dmx = Ok bins.
Proof.
move=> n stoas fitpars jk hj dmx h1 h2 h3 h4; apply/wideband_accept_lem; do ?split=> //.
by rewrite (eq_bigr (fun=> 1%N)) ?sum1_card ?card_ord.
Qed.
Lemma wideband_default_refused_lem : forall n (stoas : 'cV[R]_n) fitpars dmx,
  wb_init stoas fitpars [:: ""%string] true dmx = Err ValueError.
Proof. by []. Qed.

(** Two intervals, both of which hold the first TOA and neither the second. *)
Definition wd_pars : seq string := [:: "DMX_0001"%string; "DMX_0002"%string].
Definition wd_stoas : 'cV[R]_2 := \col_i (86400%coqR * (i * 10)%:R).
Definition wd_dmx : dict string dmx_par :=
  [:: ("DMX_0001"%string, DmxPar true 0 0 1); ("DMX_0002"%string, DmxPar true 0 0 2%:R)].
Lemma day_unit : (86400%coqR : R) \is a GRing.unit.
Proof. by rewrite unitfE; apply/eqP; apply: not_0_IZR. Qed.
Lemma wideband_bins_refuted_lem : exists n (stoas : 'cV[R]_n) fitpars dmx bins,
  wb_init stoas fitpars [::] false dmx = Ok bins /\ List.NoDup (dkeys dmx) /\
  (exists i, intervals stoas dmx i = 2%N) /\ (exists i, intervals stoas dmx i = 0%N).
Proof.
have day i : wd_stoas i ord0 / 86400%coqR = (i * 10)%:R by rewrite mxE mulrC mulKr ?day_unit.
have i0 : intervals wd_stoas wd_dmx ord0 = 2%N.
  by rewrite /intervals /= /within !day /= mul0n lexx ltr01 ltr0n.
have i1 : intervals wd_stoas wd_dmx (Ordinal (isT : 1 < 2)%N) = 0%N.
  have n1 : ((10%:R : R) < 1) = false by exact: (ltr_nat _ 10 1).
  by rewrite /intervals /= /within !day /= mul1n n1 ltr_nat !andbF.
have [bins e] : exists bins, wb_init wd_stoas wd_pars [::] false wd_dmx = Ok bins.
  apply/wideband_accept_lem; split; first by case.
  split; first by move=> k d [[<- <-]|[[<- <-]|//]] /=; split=> //; [left|right; left].
  split; last by case=> [|[|]].
  rewrite !big_ord_recl big_ord0 i0; have -> : lift ord0 ord0 = Ordinal (isT : 1 < 2)%N by apply: val_inj.
  by rewrite i1.
exists 2%N, wd_stoas, wd_pars, wd_dmx, bins; split=> //.
split; first by repeat constructor => //=; intuition discriminate.
by split; [exists ord0|exists (Ordinal (isT : 1 < 2)%N)].
Qed.

(** * DM terms *)
(** The log density of a normal deviation [d] with variance [v], without its
    factor of the square root of 2 pi. *)
Definition lg (d v : R) : R := (- 2%:R^-1 * (d ^+ 2 / v + ln v))%R.
Definition one_bin n (bins : seq (dmx_bin n)) : Prop := forall i, count (fun b => b_which b i) bins = 1%N.
Definition full_bins n (bins : seq (dmx_bin n)) : Prop := forall b, List.In b bins -> exists i, b_which b i.
(** The mean of the measurements in a bin weighted by their inverse variances. *)
Definition weighted_mean n (dm dme : 'cV[R]_n) (w : pred 'I_n) : R :=
  (\sum_(i | w i) dm i ord0 / dme i ord0 ^+ 2) / (\sum_(i | w i) 1 / dme i ord0 ^+ 2).

Ltac fieldR := field_R; repeat split; first [assumption|lra|idtac].
Section Bins.
Variables (n : nat) (bins : seq (dmx_bin n)).

Lemma fill_out (a0 : 'cV[R]_n) (x : dmx_bin n -> 'I_n -> R) (l : seq (dmx_bin n)) i : count (fun b => b_which b i) l = 0%N ->
  foldl (fun (a : 'cV[R]_n) b => \col_i (if b_which b i then x b i else a i ord0)) a0 l i ord0 = a0 i ord0.
Proof. by elim: l a0 => [//|b l IH] a0 /=; case E: (b_which b i) => //= c; rewrite IH // mxE E. Qed.
Lemma count_in (l : seq (dmx_bin n)) (b : dmx_bin n) i : List.In b l -> b_which b i -> (0 < count (fun b => b_which b i) l)%N.
Proof. by elim: l => [//|c l IH] /= [->|/IH h]; [move=> ->|move=> /h c0; rewrite addn_gt0 c0 orbT]. Qed.
Lemma fill_at x b i : one_bin bins -> List.In b bins -> b_which b i -> fill bins x i ord0 = x b i.
Proof.
move=> ob; rewrite /fill; move: (ob i); elim: bins (0 : 'cV[R]_n) => [//|c l IH] a0 /=.
case E: (b_which c i) => /= cn ib wb.
  have c0 : count (fun b => b_which b i) l = 0%N by case: cn.
  rewrite fill_out // mxE E; case: ib => [-> //|ib].
  by have := count_in ib wb; rewrite c0.
case: ib => [e|ib]; first by rewrite e wb in E.
by apply: IH.
Qed.
Lemma sum_by_bins (F : 'I_n -> R) : one_bin bins -> \sum_i F i = \sum_(b <- bins) \sum_(i | b_which b i) F i.
Proof.
move=> ob; rewrite (eq_bigr (fun b : dmx_bin n => \sum_i (if b_which b i then F i else 0))); last by move=> b _; rewrite big_mkcond.
rewrite exchange_big /=; apply: eq_bigr => i _.
rewrite -big_mkcond big_const_seq ob /=. exact: esym (addr0 _).
Qed.

Lemma sum_bins_ok (f : pred 'I_n -> result R) (g : dmx_bin n -> R) :
  (forall b, List.In b bins -> f (b_which b) = Ok (g b)) -> sum_bins bins f = Ok (\sum_(b <- bins) g b).
Proof.
rewrite /sum_bins => h.
suff gen l a : (forall b, List.In b l -> f (b_which b) = Ok (g b)) ->
  foldl (fun r b => rbind r (fun x => rmap (fun y => x + y) (f (b_which b)))) (Ok a) l = Ok (a + \sum_(b <- l) g b).
  by rewrite gen // add0r.
elim: l a {h} => [|b l IH] a h; first by rewrite big_nil addr0.
rewrite foldl_cons big_cons addrA; cbn [rbind]; rewrite h; last by left.
by apply: IH => c ic; apply: h; right.
Qed.
Lemma first_of_ok (a : 'cV[R]_n) (w : pred 'I_n) v : (exists i, w i) -> (forall i, w i -> a i ord0 = v) -> first_of a w = Ok v.
Proof.
move=> [i wi] h; rewrite /first_of; case E: [seq i <- enum 'I_n | w i] => [|j l].
  by have := mem_filter w i (enum 'I_n); rewrite E wi mem_enum.
have : j \in [seq i <- enum 'I_n | w i] by rewrite E inE eqxx.
by rewrite mem_filter => /andP[wj _]; rewrite h.
Qed.
Lemma first_of_err (a : 'cV[R]_n) (w : pred 'I_n) : (forall i, ~~ w i) -> first_of a w = Err IndexError.
Proof.
move=> h; rewrite /first_of; case E: [seq i <- enum 'I_n | w i] => [//|j l].
have : j \in [seq i <- enum 'I_n | w i] by rewrite E inE eqxx.
by rewrite mem_filter (negPf (h j)).
Qed.
Lemma sum_bins_err (f : pred 'I_n -> result R) b : List.In b bins ->
  (forall w, f w = Err IndexError \/ exists x, f w = Ok x) -> f (b_which b) = Err IndexError -> sum_bins bins f = Err IndexError.
Proof.
move=> ib h fb; rewrite /sum_bins.
have er l : foldl (fun r b => rbind r (fun x => rmap (fun y => x + y) (f (b_which b)))) (Err IndexError) l = Err IndexError by elim: l.
elim: bins (0 : R) ib => [//|c l IH] a ib; rewrite foldl_cons.
case: ib => [->|ib]; first by cbn [rbind]; rewrite fb; exact: er.
case: (h (b_which c)) => [e|[x e]]; cbn [rbind]; rewrite e; first exact: er.
exact: IH.
Qed.

Variables (dm dme : 'cV[R]_n).
Lemma first_of_cases (a : 'cV[R]_n) (w : pred 'I_n) : first_of a w = Err IndexError \/ exists x, first_of a w = Ok x.
Proof. by rewrite /first_of; case: [seq i <- enum 'I_n | w i] => [|j l]; [left|right; eexists]. Qed.

Hypothesis (pos : forall i, 0 < dme i ord0).
Lemma weight_pos (w : pred 'I_n) : (exists i, w i) -> 0 < weight dme w.
Proof.
move=> [i wi]; rewrite /weight (bigD1 i) //=; apply: ltr_paddr; last by rewrite divr_gt0 ?ltr01 ?exprn_gt0.
by apply: sumr_ge0 => j _; rewrite divr_ge0 ?ler01 ?exprn_ge0 ?ltW.
Qed.
Lemma ln_sqrt (x : R) : 0 < x -> ln (sqrt x) = 2%:R^-1 * ln x.
Proof.
move=> x0; have sx : 0 < sqrt x by apply/RltP/sqrt_lt_R0/RltP.
have {2}-> : x = sqrt x * sqrt x by rewrite [RHS]sqrt_sqrt //; apply/RleP/ltW.
rewrite lnM //; move: (ln _) => y; fieldR.
Qed.
Lemma sqr_sqrt (x : R) : 0 < x -> sqrt x ^+ 2 = x.
Proof. by move=> x0; rewrite expr2 [LHS]sqrt_sqrt //; apply/RleP/ltW. Qed.

(** One bin. *)
Lemma bin_identity (w : pred 'I_n) (D : R) : (exists i, w i) ->
  let W := weight dme w in
  let m := weighted_mean dm dme w in
  (lg (D - m) (1 / W) + (- 2%:R^-1 * (\sum_(i | w i) dm i ord0 ^+ 2 / dme i ord0 ^+ 2) + 2%:R^-1 * (m ^+ 2 / sqrt (1 / W) ^+ 2)
    + (- (\sum_(i | w i) ln (dme i ord0)) + ln (sqrt (1 / W)))))%R =
  \sum_(i | w i) lg (dm i ord0 - D) (dme i ord0 ^+ 2).
Proof.
move=> wi W m; have W0 : 0 < W by exact: weight_pos.
have iW : 0 < 1 / W by rewrite divr_gt0 ?ltr01.
rewrite ln_sqrt // sqr_sqrt // /lg.
have e : forall i, w i -> (- 2%:R^-1 * ((dm i ord0 - D) ^+ 2 / dme i ord0 ^+ 2 + ln (dme i ord0 ^+ 2)))%R =
   ((- 2%:R^-1 * (dm i ord0 ^+ 2 / dme i ord0 ^+ 2) + D * (dm i ord0 / dme i ord0 ^+ 2)) +
   ((- 2%:R^-1 * D ^+ 2) * (1 / dme i ord0 ^+ 2) - ln (dme i ord0)))%R.
  move=> i _; have p := pos i; rewrite [X in ln X]expr2 lnM //.
  have nz : dme i ord0 != 0 by rewrite gt_eqF.
  move: (dme i ord0) (dm i ord0) (ln _) nz => a b l nz; have h := elimN eqP nz; fieldR.
rewrite (eq_bigr _ e) !big_split /= -!big_distrr /= sumrN.
have -> : \sum_(i | w i) dm i ord0 / dme i ord0 ^+ 2 = m * W by rewrite /m /weighted_mean -/(weight dme w) divrK // unitfE gt_eqF.
have -> : 1 * (\sum_(i | w i) dme i ord0 ^- 2) = W by rewrite big_distrr.
move: (\sum_(i | w i) _) (\sum_(i | w i) _) (ln (1 / W)) => a b l.
have h : W <> 0 by apply/eqP; rewrite gt_eqF.
fieldR.
Qed.

Hypotheses (ob : one_bin bins) (fb : full_bins bins).
Lemma mean_dm_at b i : List.In b bins -> b_which b i -> wb_mean_dm bins dm dme i ord0 = weighted_mean dm dme (b_which b).
Proof. by move=> ib wi; rewrite /wb_mean_dm (fill_at _ ob ib wi). Qed.
Lemma mean_dme_at b i : List.In b bins -> b_which b i -> wb_mean_dme bins dme i ord0 = sqrt (1 / weight dme (b_which b)).
Proof. by move=> ib wi; rewrite /wb_mean_dme (fill_at _ ob ib wi). Qed.

Lemma big_In (A : Type) (l : seq A) (F G : A -> R) : (forall x, List.In x l -> F x = G x) -> \sum_(x <- l) F x = \sum_(x <- l) G x.
Proof. by elim: l => [|x l IH] h; rewrite ?big_nil // !big_cons h ?IH //=; [move=> y iy; apply: h; right|left]. Qed.

Definition logprior_value : R :=
  (- 2%:R^-1 * (\sum_i dm i ord0 ^+ 2 / dme i ord0 ^+ 2) +
   2%:R^-1 * (\sum_(b <- bins) weighted_mean dm dme (b_which b) ^+ 2 / sqrt (1 / weight dme (b_which b)) ^+ 2) +
   (- (\sum_i ln (dme i ord0)) + \sum_(b <- bins) ln (sqrt (1 / weight dme (b_which b)))))%R.
Lemma logprior_ok : wb_logprior bins dm dme = Ok logprior_value.
Proof.
rewrite /wb_logprior /wb_logprior_of (@sum_bins_ok _ (fun b => weighted_mean dm dme (b_which b) ^+ 2 / sqrt (1 / weight dme (b_which b)) ^+ 2)).
  rewrite (@sum_bins_ok _ (fun b => ln (sqrt (1 / weight dme (b_which b))))) // => b ib.
  by rewrite (first_of_ok (fb ib) (fun i wi => mean_dme_at ib wi)).
move=> b ib; rewrite (first_of_ok (fb ib) (fun i wi => mean_dm_at ib wi)); cbn [rbind].
by rewrite (first_of_ok (fb ib) (fun i wi => mean_dme_at ib wi)).
Qed.
Lemma bins_identity (D : dmx_bin n -> R) :
  (\sum_(b <- bins) lg (D b - weighted_mean dm dme (b_which b)) (1 / weight dme (b_which b)) + logprior_value)%R =
  \sum_(b <- bins) \sum_(i | b_which b i) lg (dm i ord0 - D b) (dme i ord0 ^+ 2).
Proof.
rewrite /logprior_value !(sum_by_bins _ ob).
rewrite -[RHS](big_In (fun b ib => bin_identity (D b) (fb ib))) /=.
rewrite !big_split /= -!big_distrr /= sumrN.
by [].
Qed.
End Bins.

(** * Prior, delay and likelihood *)
Section Phi.
Variables (n m : nat) (dme : 'cV[R]_n).
Implicit Types (bins l : seq (dmx_bin n)).
Lemma phi_out l (p0 : 'cV[R]_m) (j : 'I_m) : (j : nat) \notin [seq b_index b | b <- l] ->
  foldl (fun (phi : 'cV[R]_m) b => \col_j (if (j : nat) == b_index b then 1 / weight dme (b_which b) else phi j ord0)) p0 l j ord0
  = p0 j ord0.
Proof. by elim: l p0 => [//|b l IH] p0 /=; rewrite inE negb_or => /andP[nb nl]; rewrite IH // mxE (negPf nb). Qed.
Lemma phi_rest bins (j : 'I_m) : (j : nat) \notin [seq b_index b | b <- bins] -> wb_phi bins dme m j ord0 = pow 10 40.
Proof. by move=> nj; rewrite /wb_phi phi_out // mxE. Qed.
Lemma phi_at bins b (j : 'I_m) : uniq [seq b_index b | b <- bins] -> List.In b bins -> (j : nat) = b_index b ->
  wb_phi bins dme m j ord0 = 1 / weight dme (b_which b).
Proof.
rewrite /wb_phi; elim: bins (const_mx (pow 10 40) : 'cV[R]_m) => [//|c l IH] p0 /= /andP[nc ul] ib jb.
case: ib => [e|ib]; last by apply: IH.
by rewrite phi_out; [rewrite mxE jb e eqxx|rewrite jb -e].
Qed.
Lemma split_index bins (G : nat -> R) : uniq [seq b_index b | b <- bins] -> (forall b, List.In b bins -> (b_index b < m)%N) ->
  \sum_(j < m) G j = \sum_(b <- bins) G (b_index b) + \sum_(j < m | (j : nat) \notin [seq b_index b | b <- bins]) G j.
Proof.
move=> un lt; rewrite (bigID (fun j : 'I_m => (j : nat) \in [seq b_index b | b <- bins])) /=; congr (_ + _).
rewrite -(big_mkord (fun j => j \in [seq b_index b | b <- bins]) G) -big_filter -(big_map (@b_index n) xpredT G).
apply: perm_big; apply: uniq_perm => //; first by rewrite filter_uniq // iota_uniq.
move=> j; rewrite mem_filter mem_index_iota; case: (boolP (j \in _)) => //= ji.
elim: bins ji lt {un} => [//|b l IH] /=; rewrite inE => /orP[/eqP ->|ji] lt; first by rewrite lt //; left.
by apply: IH => // c ic; apply: lt; right.
Qed.
End Phi.

Lemma phi_posdef n m (bins : seq (dmx_bin n)) (dme : 'cV[R]_n) : (forall i, 0 < dme i ord0) -> full_bins bins ->
  posdef (phi_mx (PhiD (wb_phi bins dme m))).
Proof.
move=> pos fb; apply: diag_posdef => j; rewrite /wb_phi.
suff gen l (p0 : 'cV[R]_m) : (forall b, List.In b l -> exists i, b_which b i) -> (forall j, 0 < p0 j ord0) ->
  0 < foldl (fun (phi : 'cV[R]_m) b => \col_j (if (j : nat) == b_index b then 1 / weight dme (b_which b) else phi j ord0)) p0 l j ord0.
  by apply: gen => // i; rewrite mxE; apply/RltP; apply: pow_lt; lra.
elim: l p0 => [//|b l IH] p0 h h0 /=; apply: IH; first by move=> c ic; apply: h; right.
move=> i; rewrite mxE; case: ifP => // _; rewrite divr_gt0 ?ltr01 //; apply: weight_pos => //.
by apply: h; left.
Qed.

(** The prior of the coefficients. *)
Lemma density_phi n m (bins : seq (dmx_bin n)) (dme : 'cV[R]_n) (x : nat -> R) :
  (forall i, 0 < dme i ord0) -> full_bins bins -> uniq [seq b_index b | b <- bins] -> (forall b, List.In b bins -> (b_index b < m)%N) ->
  density (\col_(j < m) x j) (phi_mx (PhiD (wb_phi bins dme m))) =
  \sum_(b <- bins) lg (x (b_index b)) (1 / weight dme (b_which b)) +
  \sum_(j < m | (j : nat) \notin [seq b_index b | b <- bins]) lg (x j) (pow 10 40).
Proof.
move=> pos fb un lt; have pd := @phi_posdef n m bins dme pos fb.
have svd : forall k, 'M[R]_k -> 'M[R]_k * 'cV[R]_k by move=> k A; exact: (A, 0).
have e0 := coefficient_prior_lem; rewrite /density.
have -> : quad (invmx (phi_mx (PhiD (wb_phi bins dme m)))) (\col_j x j) = \sum_(j < m) x j ^+ 2 / wb_phi bins dme m j ord0.
  have [<- _] := kinv_posdef_lem ex_svd pd; rewrite /kinv [(_, _).1]/= phi_diagE /quad /diag mul_mx_diag.
  by rewrite [LHS]mxE; apply: eq_bigr => i _; rewrite !mxE -mulrA [_^-1 * _]mulrC mulrA expr2.
have -> : ln (\det (phi_mx (PhiD (wb_phi bins dme m)))) = \sum_(j < m) ln (wb_phi bins dme m j ord0) by have [_ <-] := kinv_posdef_lem ex_svd pd.
set pv := fun j : nat => if insub j is Some i then wb_phi bins dme m i ord0 else 0.
have pvE (j : 'I_m) : wb_phi bins dme m j ord0 = pv j by rewrite /pv valK.
rewrite -[LHS]/(_ * (_ + _)) -big_split /= big_distrr /=.
rewrite (eq_bigr (fun j : 'I_m => lg (x j) (pv j))); last by move=> j _; rewrite pvE.
rewrite (split_index (fun j => lg (x j) (pv j)) un lt); congr (_ + _).
  apply: big_In => b ib; have lb := lt b ib; rewrite -(pvE (Ordinal lb)) (phi_at _ un ib) //.
by apply: eq_bigr => j nj; rewrite -pvE phi_rest.
Qed.

Lemma delay_columns n m (bins : seq (dmx_bin n)) (dm dme : 'cV[R]_n) dmpar (freqs : 'cV[R]_n) (M : 'M[R]_(n, m)) (s : R) (xi0 : nat -> R) :
  one_bin bins -> uniq [seq b_index b | b <- bins] -> (forall b, List.In b bins -> (b_index b < m)%N) -> s * s = 1 ->
  (forall b (j : 'I_m) i, List.In b bins -> (j : nat) = b_index b -> M i j = s * (b_which b i)%:R / (dm_const * freqs i ord0 ^+ 2)) ->
  (forall b, List.In b bins -> xi0 (b_index b) = s * (weighted_mean dm dme (b_which b) - (dmpar + b_val b))) ->
  (forall j, j \notin [seq b_index b | b <- bins] -> xi0 j = 0) ->
  wb_delay bins dm dme dmpar freqs = M *m \col_(j < m) xi0 j.
Proof.
move=> ob un lt ss hM hx hx0; apply/matrixP => i z; rewrite (ord1 z) {z} mxE [RHS]mxE.
set mv := fun j : nat => if insub j is Some k then M i k else 0.
have mvE (j : 'I_m) : M i j = mv j by rewrite /mv valK.
rewrite (eq_bigr (fun j : 'I_m => mv j * xi0 j)); last by move=> j _; rewrite mvE mxE.
rewrite (split_index (fun j => mv j * xi0 j) un lt) [X in _ = _ + X]big1; last by move=> j nj; rewrite hx0 ?mulr0.
rewrite addr0.
rewrite (big_In (G := fun b => (b_which b i)%:R * ((weighted_mean dm dme (b_which b) - (dmpar + b_val b)) / (dm_const * freqs i ord0 ^+ 2)))); last first.
  move=> b ib; rewrite -(mvE (Ordinal (lt b ib))) (hM b) // hx //.
  move: (weighted_mean _ _ _ - _) (_ * freqs _ _ ^+ 2)^-1 (_%:R) => a f w.
  have -> : s * w * f * (s * a) = (s * s) * (w * (a * f)) by ring_R.
  by rewrite ss mul1r.
have [b ib wb] : exists2 b, List.In b bins & b_which b i.
  move: (ob i); elim: bins {ob un lt hM hx hx0} => [//|c l IH] /=.
  case E: (b_which c i) => /= cn; first by exists c => //; left.
  by have [b ib wb] := IH cn; exists b => //; right.
rewrite (fill_at _ ob ib wb) (mean_dm_at _ _ ob ib wb).
have : forall l, List.In b l -> count (fun b => b_which b i) l = 1%N -> forall G : dmx_bin n -> R, \sum_(b <- l) (b_which b i)%:R * G b = G b.
  elim=> [//|c l IH] /= ic cn G; rewrite big_cons.
  case E: (b_which c i) cn => /= cn.
    have c0 : count (fun b => b_which b i) l = 0%N by case: cn.
    have -> : \sum_(b <- l) (b_which b i)%:R * G b = 0.
      elim: l c0 {IH ic cn} => [|d l IH] /=; first by rewrite big_nil.
      by rewrite big_cons; case: (b_which d i) => //= /IH ->; rewrite mul0r addr0.
    rewrite mul1r addr0; case: ic => [-> //|ic].
    by have := count_in ic wb; rewrite c0.
  rewrite mul0r add0r; apply: IH => //; case: ic => // e.
  by rewrite e wb in E.
by move=> h; rewrite (h bins ib (ob i) (fun b => (weighted_mean dm dme (b_which b) - (dmpar + b_val b)) / _)).
Qed.

Lemma uniq_index n (stoas : 'cV[R]_n) fitpars dmx : List.NoDup (dkeys dmx) -> dmx_listed fitpars dmx ->
  uniq [seq b_index b | b <- [seq bin_of stoas fitpars kd | kd <- key_sort dmx]] /\
  (forall b, List.In b [seq bin_of stoas fitpars kd | kd <- key_sort dmx] -> (b_index b < size fitpars)%N).
Proof.
move=> nd h.
have inE' k d : List.In (k, d) dmx -> exists2 j, find_str k fitpars = Some j & par_index fitpars k = j.
  move=> /h [_ /find_strP]; rewrite /par_index; case: (find_str k fitpars) => [j|] // _; by exists j.
split; last first.
  move=> b /List.in_map_iff [[k d] [<- /in_key_sort /inE' [j e /= ->]]]; exact: find_str_lt e.
have nd' : List.NoDup (dkeys (key_sort dmx)).
  apply: Permutation.Permutation_NoDup nd; apply: Permutation.Permutation_map; apply: Permutation.Permutation_sym.
  exact: isort_perm.
have inE2 k d : List.In (k, d) (key_sort dmx) -> find_str k fitpars = Some (par_index fitpars k).
  by move=> /in_key_sort /inE' [j e ->].
elim: (key_sort dmx) nd' inE2 => [//|[k d] l IH] nd' inE2 /=.
move: nd' => /List.NoDup_cons_iff [nk nl]; rewrite IH ?andbT //; last by move=> k' d' i'; apply: (inE2 k' d'); right.
apply/negP => hin.
have [d' i'] : exists d', List.In (k, d') l.
  have ek := find_str_nth (inE2 k d (or_introl erefl)).
  elim: l hin inE2 {IH nk nl} => [//|[k' d'] l IH] /=; rewrite inE => /orP[/eqP e|hin] inE2.
    have ek' := find_str_nth (inE2 k' d' (or_intror (or_introl erefl))).
    exists d'; left; by rewrite -ek -ek' e.
  have [d1 i1] := IH hin (fun k1 d1 i1 => inE2 k1 d1 (match i1 with or_introl e => or_introl e | or_intror q => or_intror (or_intror q) end)).
  by exists d1; right.
by apply: nk; apply/List.in_map_iff; exists (k, d').
Qed.

Lemma pick_index n (bins : seq (dmx_bin n)) (x : dmx_bin n -> R) b : uniq [seq b_index b | b <- bins] -> List.In b bins ->
  \sum_(c <- bins | b_index c == b_index b) x c = x b.
Proof.
elim: bins => [//|c l IH] /= /andP[nc ul] ib; rewrite big_cons; case: ib => [e|ib].
  subst c; rewrite eqxx; have -> : \sum_(c <- l | b_index c == b_index b) x c = 0.
    move: nc; elim: l {IH ul} => [|d l IH] /=; first by rewrite big_nil.
    rewrite inE negb_or eq_sym => /andP[/negPf nd nl]; by rewrite big_cons nd IH.
  exact: addr0.
case: ifP => [/eqP e|_]; last exact: IH.
have : b_index b \in [seq b_index c | c <- l] by elim: l ib {IH nc ul} => [//|d l IH] /= [->|/IH h]; rewrite inE ?eqxx // h orbT.
by rewrite -e (negPf nc).
Qed.

Lemma wideband_core n kt (C : 'M[R]_n) (M0 : 'M[R]_(n, kt)) (r stoas : 'cV[R]_n) fitpars jk hj dmx bins (dm dme : 'cV[R]_n) dmpar (freqs : 'cV[R]_n)
    (M : 'M[R]_(n, size fitpars)) (s : R) :
  wb_init stoas fitpars jk hj dmx = Ok bins -> List.NoDup (dkeys dmx) ->
  (forall i, intervals stoas dmx i = 1%N) -> (forall k d, List.In (k, d) dmx -> exists i, within stoas i d) ->
  (forall i, 0 < dme i ord0) -> posdef C -> full_rank M0 -> s * s = 1 ->
  (forall k d (j : 'I_(size fitpars)) i, List.In (k, d) dmx -> find_str k fitpars = Some (j : nat) ->
    M i j = s * (within stoas i d)%:R / (241%:R / 10%:R ^+ 6 * freqs i ord0 ^+ 2)) ->
  [/\ wb_logprior bins dm dme = Ok (logprior_value bins dm dme), posdef (phi_mx (PhiD (wb_phi bins dme (size fitpars)))) &
  exists (mu : 'cV[R]_(size fitpars)) (V : 'M[R]_(size fitpars)), posdef V /\
    forall e : nat -> R,
      (density_tm (r - wb_delay bins dm dme dmpar freqs) (C + M *m phi_mx (PhiD (wb_phi bins dme (size fitpars))) *m M^T) M0 +
       logprior_value bins dm dme + density ((\col_(j < size fitpars) e j) - mu) V)%R =
      (density_tm (r - M *m \col_(j < size fitpars) e j) C M0 +
       \sum_(kd <- dmx) \sum_(i | within stoas i kd.2) lg (dm i ord0 - (dmpar + d_val kd.2 + s * e (par_index fitpars kd.1))) (dme i ord0 ^+ 2) +
       \sum_(j < size fitpars | (j : nat) \notin [seq par_index fitpars kd.1 | kd <- dmx]) lg (e j) (pow 10 40))%R].
Proof.
move=> hb nd ones full pos pC FR ss hM.
have [bE li] := wb_init_bins hb.
have [un lt] := uniq_index stoas nd li; rewrite -bE in un lt.
have inb b : List.In b bins -> exists k d, List.In (k, d) dmx /\ b = bin_of stoas fitpars (k, d).
  by rewrite bE => /List.in_map_iff [[k d] [<- /in_key_sort i]]; exists k, d.
have ob : one_bin bins.
  move=> i; rewrite bE count_map -(ones i) /intervals -(count_permut _ (isort_perm (fun x y => sle x.1 y.1) dmx)).
  by apply: eq_count => kd.
have fb : full_bins bins by move=> b /inb [k [d [i ->]]]; exact: (full k d i).
pose xi0 (j : nat) : R := \sum_(b <- bins | b_index b == j) s * (weighted_mean dm dme (b_which b) - (dmpar + b_val b)).
have x0E b : List.In b bins -> xi0 (b_index b) = s * (weighted_mean dm dme (b_which b) - (dmpar + b_val b)).
  by move=> ib; rewrite /xi0 (pick_index (fun b => s * (weighted_mean dm dme (b_which b) - (dmpar + b_val b))) un ib).
have x00 j : j \notin [seq b_index b | b <- bins] -> xi0 j = 0.
  rewrite /xi0; elim: (bins) => [|c l IH]; first by rewrite big_nil.
  by rewrite /= inE negb_or eq_sym big_cons => /andP[/negPf -> /IH].
have dE : wb_delay bins dm dme dmpar freqs = M *m \col_(j < size fitpars) xi0 j.
  apply: (delay_columns (s := s)) => // b j i /inb [k [d [ik ->]]] jb; apply: (hM k d) => //.
  rewrite jb /= /par_index; have [_ /find_strP] := li k d ik; by case: find_str.
have pd := @phi_posdef n (size fitpars) bins dme pos fb.
rewrite (logprior_ok dm dme ob fb).
set Phi := phi_mx (PhiD (wb_phi bins dme (size fitpars))) in pd *.
set r' := r - wb_delay bins dm dme dmpar freqs.
pose V := invmx (coef_precision C M0 M Phi).
have pV : posdef V by apply: posdef_inv; exact: S_posdef.
split=> //; exists (\col_(j < size fitpars) xi0 j + coef_mean C M0 M Phi r'), V; split=> // e.
have := square_tm M pC FR pd r' (\col_(j < size fitpars) e j - \col_(j < size fitpars) xi0 j).
rewrite -/(coef_precision _ _ _ _) -/(coef_mean _ _ _ _ _) -/V.
have -> : r' - M *m (\col_(j < size fitpars) e j - \col_(j < size fitpars) xi0 j) = r - M *m \col_(j < size fitpars) e j.
  by rewrite /r' dE mulmxBr opprB addrA subrK.
rewrite opprD addrA.
have -> : \col_(j < size fitpars) e j - \col_(j < size fitpars) xi0 j = \col_(j < size fitpars) (e j - xi0 j).
  by apply/matrixP => i j; rewrite !mxE.
have := density_phi (fun j => e j - xi0 j) pos fb un lt; rewrite -/Phi => ->.
have -> : \sum_(j < size fitpars | (j : nat) \notin [seq b_index b | b <- bins]) lg (e j - xi0 j) (pow 10 40) =
          \sum_(j < size fitpars | (j : nat) \notin [seq par_index fitpars kd.1 | kd <- dmx]) lg (e j) (pow 10 40).
  have memE j : (j \in [seq b_index b | b <- bins]) = (j \in [seq par_index fitpars kd.1 | kd <- dmx]).
    rewrite bE -map_comp; have pm := isort_perm (fun x y : string * dmx_par => sle x.1 y.1) dmx.
    rewrite -!has_pred1 !has_count; congr (_ < _)%N; rewrite !count_map; exact: count_permut.
  by apply: eq_big => [j|j]; [rewrite memE|move=> nj; rewrite x00 //; congr (lg _ _); exact: subr0].
pose D (b : dmx_bin n) := dmpar + b_val b + s * e (b_index b).
have -> : \sum_(b <- bins) lg (e (b_index b) - xi0 (b_index b)) (1 / weight dme (b_which b)) =
          \sum_(b <- bins) lg (D b - weighted_mean dm dme (b_which b)) (1 / weight dme (b_which b)).
  apply: big_In => b ib; rewrite /lg x0E //; congr (_ * (_ / _ + _)); rewrite /D.
  move: (weighted_mean _ _ _) (dmpar + _) (e _) => w v x.
  have -> : (x - s * (w - v)) ^+ 2 = (s * s) * (w - v) ^+ 2 + x ^+ 2 - 2%:R * s * x * (w - v) by ring_R.
  have -> : (v + s * x - w) ^+ 2 = (s * s) * x ^+ 2 + (w - v) ^+ 2 - 2%:R * s * x * (w - v) by ring_R.
  by rewrite ss; ring_R.
have bi := bins_identity dm pos ob fb D.
have -> : \sum_(kd <- dmx) \sum_(i | within stoas i kd.2) lg (dm i ord0 - (dmpar + d_val kd.2 + s * e (par_index fitpars kd.1))) (dme i ord0 ^+ 2) =
  \sum_(b <- bins) \sum_(i | b_which b i) lg (dm i ord0 - D b) (dme i ord0 ^+ 2).
  by rewrite bE big_map; apply: big_permut; apply: Permutation.Permutation_sym; exact: isort_perm.
rewrite -bi.
move: (density_tm _ _ _) (density_tm _ _ _) (density _ _) (\sum_(b <- bins) _) (\sum_(j < _ | _) _) (logprior_value _ _ _) => a b d x y z E.
have -> : a = b + (x + y) - d by rewrite E addrK.
by ring_R.
Qed.

Lemma wideband_likelihood_lem : forall svd n (N : nobj n) (r stoas : 'cV[R]_n) fitpars jk hj dmx bins (dm dme : 'cV[R]_n) dmpar (freqs : 'cV[R]_n)
    (M : 'M[R]_(n, size fitpars)) (s : R),
  wb_init stoas fitpars jk hj dmx = Ok bins -> List.NoDup (dkeys dmx) ->
  (forall i, intervals stoas dmx i = 1%N) -> (forall k d, List.In (k, d) dmx -> exists i, within stoas i d) ->
  (forall i, 0 < dme i ord0) -> good_noise N -> (if N is NBlk _ _ then (1 < size fitpars)%N else True) -> s * s = 1 ->
  (forall k d (j : 'I_(size fitpars)) i, List.In (k, d) dmx -> find_str k fitpars = Some (j : nat) ->
    M i j = s * (within stoas i d)%:R / (241%:R / 10%:R ^+ 6 * freqs i ord0 ^+ 2)) ->
  exists p b (mu : 'cV[R]_(size fitpars)) (V : 'M[R]_(size fitpars)),
    wb_logprior bins dm dme = Ok p /\
    loglike svd [:: Pulsar N (r - wb_delay bins dm dme dmpar freqs) true M (PhiD (wb_phi bins dme (size fitpars))) p] = Ok (Fin b) /\
    posdef V /\
    forall e : nat -> R,
      (b + density ((\col_(j < size fitpars) e j) - mu) V)%R =
      (density_tm (r - M *m \col_(j < size fitpars) e j) (cov_of N) (tm_M N) - 2%:R^-1 * ((tm_k N)%:R * ln (pow 10 40)) +
       \sum_(kd <- dmx) \sum_(i | within stoas i kd.2) lg (dm i ord0 - (dmpar + d_val kd.2 + s * e (par_index fitpars kd.1))) (dme i ord0 ^+ 2) +
       \sum_(j < size fitpars | (j : nat) \notin [seq par_index fitpars kd.1 | kd <- dmx]) lg (e j) (pow 10 40))%R.
Proof.
move=> svd n N r stoas fitpars jk hj dmx bins dm dme dmpar freqs M s hb nd ones full pos gN sh ss hM.
have [lp pd [mu [V [pV E]]]] := wideband_core r dm dmpar hb nd ones full pos (good_posdef gN) (proj2 gN) ss hM.
have e1 := @single_value svd (Pulsar N (r - wb_delay bins dm dme dmpar freqs) true M (PhiD (wb_phi bins dme (size fitpars))) (logprior_value bins dm dme)).
exists (logprior_value bins dm dme); eexists; exists mu, V; split=> //; rewrite {}e1; [|by split|by []].
split; first reflexivity; split=> // e.
have := E e; rewrite /psr_cov /=; set a := density_tm _ _ _; set b := density_tm _ _ _.
move: (density _ _) (\sum_(kd <- dmx) _) (\sum_(j < _ | _) _) (logprior_value _ _ _) (2^-1 * _) => d x y z q E'.
have -> : a = b + x + y - z - d by move: E'; clear; move: a b => a b; rewrite addrAC => /eqP; rewrite -subr_eq => /eqP <-; ring_R.
by ring_R.
Qed.

(** Empty intervals *)
Lemma wideband_empty_bin_lem : forall n (bins : seq (dmx_bin n)) (dm dme : 'cV[R]_n) b,
  List.In b bins -> (forall i, ~~ b_which b i) -> wb_logprior bins dm dme = Err IndexError.
Proof.
move=> n bins dm dme b ib eb; rewrite /wb_logprior /wb_logprior_of (@sum_bins_err _ _ _ b) //; last by rewrite first_of_err.
move=> w; case: (first_of_cases (wb_mean_dm bins dm dme) w) => [->|[x ->]]; first by left.
cbn [rbind]; case: (first_of_cases (wb_mean_dme bins dme) w) => [->|[y ->]]; first by left.
by right; eexists.
Qed.

(** The measured values: with the TOA in one jump mask and one noise mask. *)
Definition the_value n (l : seq (R * pred 'I_n)) (i : 'I_n) (x : R) : Prop :=
  exists l1 m l2, l = l1 ++ (x, m) :: l2 /\ m i /\ forall y, List.In y (l1 ++ l2) -> ~~ y.2 i.
Lemma sum_the_value n (l : seq (R * pred 'I_n)) i x (f : R -> R) : the_value l i x -> \sum_(a <- l) f a.1 * (a.2 i)%:R = f x.
Proof.
move=> [l1 [m [l2 [-> [mi h]]]]]; rewrite big_cat big_cons /= mi mulr1.
have z l' : (forall y, List.In y l' -> ~~ y.2 i) -> \sum_(a <- l') f a.1 * (a.2 i)%:R = 0.
  by move=> h'; rewrite (big_In (G := fun=> 0)) ?big1 // => y /h' /negPf ->; rewrite mulr0.
rewrite !z; first by rewrite [LHS]add0r; exact: addr0.
  by move=> y iy; apply: h; apply/List.in_or_app; right.
by move=> y iy; apply: h; apply/List.in_or_app; left.
Qed.
Lemma wideband_measured_lem : forall n (jumps efacs equads : seq (R * pred 'I_n)) (dm dmerr : 'cV[R]_n) i j ef eq,
  the_value efacs i ef -> 0 < dmerr i ord0 -> ef != 0 ->
  (the_value jumps i j -> wb_dm jumps dm i ord0 = dm i ord0 + j) /\
  wb_dm [::] dm i ord0 = dm i ord0 /\
  (the_value equads i eq -> wb_dme efacs equads dmerr i ord0 ^+ 2 = ef ^+ 2 * (dmerr i ord0 ^+ 2 + (Rpower 10 eq) ^+ 2) /\ 0 < wb_dme efacs equads dmerr i ord0) /\
  wb_dme efacs [::] dmerr i ord0 ^+ 2 = ef ^+ 2 * dmerr i ord0 ^+ 2 /\ 0 < wb_dme efacs [::] dmerr i ord0.
Proof.
move=> n jumps efacs equads dm dmerr i j ef eq hf pe ne.
have p2 : 0 < ef ^+ 2 by rewrite lt_def sqrf_eq0 ne sqr_ge0.
have ps (x : R) : 0 < x -> 0 < sqrt x by move=> x0; apply/RltP/sqrt_lt_R0/RltP.
have p3 : 0 < ef ^+ 2 * dmerr i ord0 ^+ 2 by apply: mulr_gt0 => //; exact: exprn_gt0.
split; first by move=> hj; rewrite mxE; have := sum_the_value id hj => /= ->; exact: addrC.
split; first by rewrite mxE big_nil add0r.
split; last by rewrite mxE /= (sum_the_value id hf) sqr_sqrt //; split=> //; exact: ps.
move=> hq; have sz : (0 < size equads)%N by case: hq => l1 [m [l2 [-> _]]]; rewrite size_cat /= addnS.
have p4 : 0 < ef ^+ 2 * (dmerr i ord0 ^+ 2 + Rpower 10 eq ^+ 2).
  by rewrite mulr_gt0 // ltr_spaddl ?exprn_gt0 // sqr_ge0.
by rewrite mxE /= sz (sum_the_value id hf) (sum_the_value (Rpower 10) hq) sqr_sqrt //; split=> //; exact: ps.
Qed.

Lemma wideband_dm_terms_lem : forall n (stoas : 'cV[R]_n) fitpars jk hj dmx bins (dm dme : 'cV[R]_n),
  wb_init stoas fitpars jk hj dmx = Ok bins -> List.NoDup (dkeys dmx) ->
  (forall i, intervals stoas dmx i = 1%N) -> (forall k d, List.In (k, d) dmx -> exists i, within stoas i d) ->
  (forall i, 0 < dme i ord0) ->
  (forall k d, List.In (k, d) dmx ->
    (forall j : 'I_(size fitpars), find_str k fitpars = Some (j : nat) ->
      wb_phi bins dme (size fitpars) j ord0 = 1 / (\sum_(i | within stoas i d) 1 / dme i ord0 ^+ 2)) /\
    forall i, within stoas i d ->
      wb_mean_dm bins dm dme i ord0 = (\sum_(i | within stoas i d) dm i ord0 / dme i ord0 ^+ 2) / (\sum_(i | within stoas i d) 1 / dme i ord0 ^+ 2) /\
      wb_mean_dme bins dme i ord0 ^+ 2 = 1 / (\sum_(i | within stoas i d) 1 / dme i ord0 ^+ 2) /\ 0 < wb_mean_dme bins dme i ord0) /\
  (forall j : 'I_(size fitpars), ~ List.In (nth ""%string fitpars j) (dkeys dmx) -> wb_phi bins dme (size fitpars) j ord0 = pow 10 40) /\
  exists p, wb_logprior bins dm dme = Ok p /\
    forall D : string -> R,
      (\sum_(kd <- dmx) lg (D kd.1 - weighted_mean dm dme (fun i => within stoas i kd.2)) (1 / (\sum_(i | within stoas i kd.2) 1 / dme i ord0 ^+ 2)) + p)%R =
      \sum_(kd <- dmx) \sum_(i | within stoas i kd.2) lg (dm i ord0 - D kd.1) (dme i ord0 ^+ 2).
Proof.
move=> n stoas fitpars jk hj dmx bins dm dme hb nd ones full pos.
have [bE li] := wb_init_bins hb.
have [un lt] := uniq_index stoas nd li; rewrite -bE in un lt.
have inb b : List.In b bins -> exists k d, List.In (k, d) dmx /\ b = bin_of stoas fitpars (k, d).
  by rewrite bE => /List.in_map_iff [[k d] [<- /in_key_sort i]]; exists k, d.
have bin k d : List.In (k, d) dmx -> List.In (bin_of stoas fitpars (k, d)) bins.
  by move=> ik; rewrite bE; apply/List.in_map_iff; exists (k, d); split=> //; apply/in_key_sort.
have ob : one_bin bins.
  move=> i; rewrite bE count_map -(ones i) /intervals -(count_permut _ (isort_perm (fun x y => sle x.1 y.1) dmx)).
  by apply: eq_count => kd.
have fb : full_bins bins by move=> b /inb [k [d [i ->]]]; exact: (full k d i).
split; [|split].
- move=> k d ik; have ib := bin k d ik; split.
    by move=> j e; rewrite (phi_at _ un ib) // /= /par_index e.
  move=> i wi; rewrite (mean_dm_at dm dme ob ib wi) (mean_dme_at dme ob ib wi); split=> //.
  have p : 0 < 1 / weight dme (b_which (bin_of stoas fitpars (k, d))).
    by rewrite divr_gt0 ?ltr01 //; apply: weight_pos => //; exact: full ik.
  by rewrite sqr_sqrt //; split=> //; apply/RltP/sqrt_lt_R0/RltP.
- move=> j nj; apply: phi_rest; apply/negP => ji; apply: nj.
  have [b ib e] : exists2 b, List.In b bins & (j : nat) = b_index b.
    elim: (bins) ji => [//|c l IH] /=; rewrite inE => /orP[/eqP e|/IH [b ib e]]; first by exists c => //; left.
    by exists b => //; right.
  have [k [d [ik e']]] := inb _ ib; have [_ /find_strP] := li k d ik; case E: (find_str k fitpars) => [j'|] // _.
  rewrite e e' /= /par_index E (find_str_nth E); apply/List.in_map_iff; by exists (k, d).
- exists (logprior_value bins dm dme); split; first exact: logprior_ok.
  move=> D.
  pose D' (b : dmx_bin n) := D (nth ""%string fitpars (b_index b)).
  have DE k d : List.In (k, d) (key_sort dmx) -> D' (bin_of stoas fitpars (k, d)) = D k.
    move=> /in_key_sort ik; have [_ /find_strP] := li k d ik; rewrite /D' /= /par_index.
    by case E: (find_str k fitpars) => [j'|] // _; rewrite (find_str_nth E).
  have := bins_identity dm pos ob fb D'; rewrite bE !big_map.
  rewrite -!(big_permut _ _ (isort_perm (fun x y : string * dmx_par => sle x.1 y.1) dmx)) -/(key_sort dmx) => E.
  rewrite -[RHS]/(\sum_(kd <- key_sort dmx) \sum_(i | within stoas i kd.2) lg (dm i ord0 - D kd.1) (dme i ord0 ^+ 2)).
  rewrite -[RHS](big_In (F := fun kd : string * dmx_par => \sum_(i | within stoas i kd.2) lg (dm i ord0 - D' (bin_of stoas fitpars kd)) (dme i ord0 ^+ 2))).
    rewrite -[RHS]E; congr (_ + _); apply: big_In => -[k d] ik; by rewrite -(DE k d ik).
  by move=> [k d] ik; rewrite (DE k d ik).
Qed.

(** An example: two intervals of a TOA each. *)
Definition we_dmx : dict string dmx_par :=
  [:: ("DMX_0002"%string, DmxPar true 3%:R 10%:R 11%:R); ("DMX_0001"%string, DmxPar true 2%:R 0 1)].
Definition we_M : 'M[R]_(2, size wd_pars) := \matrix_(i, j) (((i : nat) == (j : nat))%:R / (241%:R / 10%:R ^+ 6 * 1 ^+ 2)).
Lemma we_within (i : 'I_2) : within wd_stoas i (DmxPar true 3%:R 10%:R 11%:R) = ((i : nat) == 1%N) /\
  within wd_stoas i (DmxPar true 2%:R 0 1) = ((i : nat) == 0%N).
Proof.
have day : wd_stoas i ord0 / 86400%coqR = (i * 10)%:R by rewrite mxE mulrC mulKr ?day_unit.
rewrite /within !day /=; have [->|->] : (i : nat) = 0%N \/ (i : nat) = 1%N by case: i {day} => [[|[|]]] //; [left|right].
  rewrite mul0n lexx ltr01; split=> //.
  have -> : ((10%:R : R) <= 0%:R) = false by rewrite ler_nat.
  by [].
rewrite mul1n ltr_nat lexx; split=> //.
have -> : ((10%:R : R) < 1) = false by exact: (ltr_nat _ 10 1).
by rewrite andbF.
Qed.
Lemma ex_wide : exists bins,
  wb_init wd_stoas wd_pars [::] false we_dmx = Ok bins /\ List.NoDup (dkeys we_dmx) /\
  (forall i, intervals wd_stoas we_dmx i = 1%N) /\ (forall k d, List.In (k, d) we_dmx -> exists i, within wd_stoas i d) /\
  (forall k d (j : 'I_(size wd_pars)) i, List.In (k, d) we_dmx -> find_str k wd_pars = Some (j : nat) ->
    we_M i j = 1 * (within wd_stoas i d)%:R / (241%:R / 10%:R ^+ 6 * (const_mx 1 : 'cV[R]_2) i ord0 ^+ 2)).
Proof.
have ones i : intervals wd_stoas we_dmx i = 1%N.
  rewrite /intervals /=; have [-> ->] := we_within i.
  by have [->|->] : (i : nat) = 0%N \/ (i : nat) = 1%N by case: i => [[|[|]]] //; [left|right].
have [bins e] : exists bins, wb_init wd_stoas wd_pars [::] false we_dmx = Ok bins.
  apply: wideband_bins_accepted_lem => //; first by case.
    by move=> k d [[<- <-]|[[<- <-]|//]] /=; split=> //; [right; left|left].
  by case=> [|[|]].
exists bins; split=> //; split; first by repeat constructor => //=; intuition discriminate.
split=> //; split.
  move=> k d [[_ <-]|[[_ <-]|//]]; [exists (Ordinal (isT : 1 < 2)%N)|exists ord0].
    by rewrite (proj1 (we_within _)).
  by rewrite (proj2 (we_within _)).
move=> k d j i [[<- <-]|[[<- <-]|//]] /= [ej]; rewrite ?(proj1 (we_within _)) ?(proj2 (we_within _)) !mxE mul1r -ej //.
Qed.

(** An empty interval does not change what the constructor accepts. *)
Lemma wideband_empty_accepted_lem : forall n (stoas : 'cV[R]_n) fitpars jk hj dmx k d,
  (forall i, ~~ within stoas i d) -> d_fit d -> List.In k fitpars ->
  (exists bins, wb_init stoas fitpars jk hj dmx = Ok bins) ->
  exists bins b, wb_init stoas fitpars jk hj (dmx ++ [:: (k, d)]) = Ok bins /\ List.In b bins /\ forall i, ~~ b_which b i.
Proof.
move=> n stoas fitpars jk hj dmx k d ed fd ik /wideband_accept_lem [h1 [h2 [h3 h4]]].
have [bins e] : exists bins, wb_init stoas fitpars jk hj (dmx ++ [:: (k, d)]) = Ok bins.
  apply/wideband_accept_lem; split=> //; split.
    by move=> k' d' h; have [h'|[[<- <-]|[]]] := List.in_app_or _ _ _ h; [exact: (h2 k' d')|split].
  split=> //; rewrite -[RHS]h3; apply: eq_bigr => i _.
  by rewrite /intervals count_cat /= (negPf (ed i)) !addn0.
exists bins, (bin_of stoas fitpars (k, d)); split=> //; split=> //.
have [-> _] := wb_init_bins e; apply/List.in_map_iff; exists (k, d); split=> //.
by apply/in_key_sort/List.in_or_app; right; left.
Qed.
