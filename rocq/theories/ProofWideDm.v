(** Proofs about ModelWideDm.v. *)
From Coq Require Import Reals String.
From mathcomp Require Import all_ssreflect all_algebra.
From Verif Require Import RStruct PyBase ProofBase ModelLinalg ProofLinalg ModelNoise ProofNoise ModelLike ProofLike ModelKernel ProofKernel ModelCond ProofCond ModelWide ProofWide ModelWideDm.
Set Implicit Arguments.
Unset Strict Implicit.
Unset Printing Implicit Defensive.
Import GRing.Theory Num.Theory Order.TTheory.
Local Open Scope ring_scope.

Section Bins.
Variables (n : nat) (bins : seq (dmx_bin n)) (dm dme : 'cV[R]_n) (dmpar : R).
Hypotheses (pos : forall i, 0 < dme i ord0) (ob : one_bin bins) (fb : full_bins bins).
Lemma delta_at um b i : List.In b bins -> b_which b i ->
  wb_delta_dm bins dm dme dmpar um i ord0 = (if um then weighted_mean dm dme (b_which b) else dm i ord0) - (dmpar + b_val b).
Proof. by move=> ib wi; rewrite /wb_delta_dm (fill_at _ ob ib wi); case: um => //; rewrite (mean_dm_at _ _ ob ib wi). Qed.
Lemma chi2_all : wb_dm_chi2 bins dm dme dmpar false = Ok (\sum_(b <- bins) \sum_(i | b_which b i) ((dm i ord0 - (dmpar + b_val b)) / dme i ord0) ^+ 2).
Proof.
rewrite /wb_dm_chi2 (sum_by_bins _ ob); congr Ok; apply: big_In => b ib; apply: eq_bigr => i wi.
by rewrite (delta_at false ib wi).
Qed.
Lemma chi2_mean : wb_dm_chi2 bins dm dme dmpar true =
  Ok (\sum_(b <- bins) (weighted_mean dm dme (b_which b) - (dmpar + b_val b)) ^+ 2 * \sum_(i | b_which b i) 1 / dme i ord0 ^+ 2).
Proof.
rewrite /wb_dm_chi2; apply: sum_bins_ok => b ib.
rewrite (@first_of_ok _ _ _ (weighted_mean dm dme (b_which b) - (dmpar + b_val b)) (fb ib) (fun i wi => delta_at true ib wi)); cbn [rbind].
rewrite (first_of_ok (fb ib) (fun i wi => mean_dme_at dme ob ib wi)); cbn [rmap rbind]; congr Ok.
have W0 := weight_pos pos (fb ib).
by rewrite expr_div_n sqr_sqrt ?divr_gt0 ?ltr01 // !coqRE div1r invrK.
Qed.
Lemma bin_scatter (w : pred 'I_n) (D : R) : (exists i, w i) ->
  \sum_(i | w i) ((dm i ord0 - D) / dme i ord0) ^+ 2 =
  (weighted_mean dm dme w - D) ^+ 2 * (\sum_(i | w i) 1 / dme i ord0 ^+ 2) + \sum_(i | w i) ((dm i ord0 - weighted_mean dm dme w) / dme i ord0) ^+ 2.
Proof.
move=> wi; have W0 := weight_pos pos wi; set m := weighted_mean _ _ _.
have S (x : R) : \sum_(i | w i) ((dm i ord0 - x) / dme i ord0) ^+ 2 =
   \sum_(i | w i) dm i ord0 ^+ 2 / dme i ord0 ^+ 2 + (x ^+ 2 - 2%:R * x * m) * weight dme w.
  have -> : (x ^+ 2 - 2%:R * x * m) * weight dme w = x ^+ 2 * weight dme w - 2%:R * x * (m * weight dme w) by ring_R.
  have -> : m * weight dme w = \sum_(i | w i) dm i ord0 / dme i ord0 ^+ 2 by rewrite /m /weighted_mean -/(weight dme w) divrK // unitfE gt_eqF.
  rewrite /weight !big_distrr /= -sumrB -big_split /=; apply: eq_bigr => i _.
  by rewrite expr_div_n; set a := (_ ^+ 2)^-1; ring_R.
rewrite !S -/(weight dme w); move: (weight dme w) (\sum_(i | w i) _) => a b; ring_R.
Qed.
End Bins.

Lemma wideband_chi2_lem : forall n (stoas : 'cV[R]_n) fitpars jk hj dmx bins (dm dme : 'cV[R]_n) dmpar,
  wb_init stoas fitpars jk hj dmx = Ok bins -> (forall i, intervals stoas dmx i = 1%N) ->
  (forall k d i, List.In (k, d) dmx -> within stoas i d ->
     wb_delta_dm bins dm dme dmpar false i ord0 = dm i ord0 - (dmpar + d_val d) /\
     wb_delta_dm bins dm dme dmpar true i ord0 = weighted_mean dm dme (fun i => within stoas i d) - (dmpar + d_val d)) /\
  ((forall i, 0 < dme i ord0) -> (forall k d, List.In (k, d) dmx -> exists i, within stoas i d) ->
   exists chi2 chi2_mean,
    [/\ wb_dm_chi2 bins dm dme dmpar false = Ok chi2, wb_dm_chi2 bins dm dme dmpar true = Ok chi2_mean,
        chi2 = \sum_(kd <- dmx) \sum_(i | within stoas i kd.2) ((dm i ord0 - (dmpar + d_val kd.2)) / dme i ord0) ^+ 2,
        chi2_mean = \sum_(kd <- dmx) (weighted_mean dm dme (fun i => within stoas i kd.2) - (dmpar + d_val kd.2)) ^+ 2 * \sum_(i | within stoas i kd.2) 1 / dme i ord0 ^+ 2 &
        chi2 = chi2_mean + \sum_(kd <- dmx) \sum_(i | within stoas i kd.2) ((dm i ord0 - weighted_mean dm dme (fun i => within stoas i kd.2)) / dme i ord0) ^+ 2]).
Proof.
move=> n stoas fitpars jk hj dmx bins dm dme dmpar hb ones.
have [bE li] := wb_init_bins hb.
have inb b : List.In b bins -> exists k d, List.In (k, d) dmx /\ b = bin_of stoas fitpars (k, d).
  by rewrite bE => /List.in_map_iff [[k d] [<- /in_key_sort i]]; exists k, d.
have bin k d : List.In (k, d) dmx -> List.In (bin_of stoas fitpars (k, d)) bins.
  by move=> ik; rewrite bE; apply/List.in_map_iff; exists (k, d); split=> //; apply/in_key_sort.
have ob : one_bin bins.
  move=> i; rewrite bE count_map -(ones i) /intervals -(count_permut _ (isort_perm (fun x y => sle x.1 y.1) dmx)).
  by apply: eq_count => kd.
split=> [k d i ik wi|pos full].
  by rewrite !(@delta_at _ _ dm dme dmpar ob _ _ _ (bin k d ik) wi).
have fb : full_bins bins by move=> b /inb [k [d [i ->]]]; exact: (full k d i).
have sumE (F : dmx_bin n -> R) : \sum_(b <- bins) F b = \sum_(kd <- dmx) F (bin_of stoas fitpars kd).
  by rewrite bE big_map (big_permut _ _ (isort_perm _ dmx)).
eexists; eexists; split; [exact: chi2_all|exact: chi2_mean|by rewrite sumE|by rewrite sumE|].
rewrite -(sumE (fun b => \sum_(i | b_which b i) ((dm i ord0 - weighted_mean dm dme (b_which b)) / dme i ord0) ^+ 2)) -big_split /=.
by apply: big_In => b ib; exact: bin_scatter (fb _ ib).
Qed.
Lemma wideband_chi2_empty_lem : forall n (bins : seq (dmx_bin n)) (dm dme : 'cV[R]_n) dmpar b,
  List.In b bins -> (forall i, ~~ b_which b i) ->
  wb_dm_chi2 bins dm dme dmpar true = Err IndexError /\ exists x, wb_dm_chi2 bins dm dme dmpar false = Ok x.
Proof.
move=> n bins dm dme dmpar b ib h; split; last by eexists.
apply: (sum_bins_err ib) => [w|]; last by rewrite first_of_err.
case: (first_of_cases (wb_delta_dm bins dm dme dmpar true) w) => [->|[x ->]]; first by left.
by case: (first_of_cases (wb_mean_dme bins dme) w) => [->|[y ->]]; [left|right; eexists].
Qed.
