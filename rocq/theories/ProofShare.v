(** Proofs about equal columns of the signals of one pulsar. *)
From Coq Require Import Reals.
From mathcomp Require Import all_ssreflect all_algebra zify.
From Verif Require Import RStruct PyBase ModelLinalg ModelNoise ModelLike ModelKernel ProofKernel.
Set Implicit Arguments.
Unset Strict Implicit.
Unset Printing Implicit Defensive.
Import GRing.Theory.
Local Open Scope ring_scope.

Section Share.
Variables (n : nat) (hash : 'cV[R]_n -> nat).
Notation cv := ('cV[R]_n).
Lemma index_ext (hl ex : seq nat) h : h \in hl -> index h (hl ++ ex) = index h hl.
Proof. by move=> hi; rewrite index_cat hi. Qed.
(** The columns of one signal; hashes are only added, and each column that is looked up is
    at the first place of its hash. *)
Lemma cols_index comb (cs : seq cv) : forall hl cc idx0 hl' cc' idx, cc = size hl ->
  foldl (col_step hash comb) (hl, cc, idx0) cs = (hl', cc', idx) ->
  cc' = size hl' /\ exists ex ix, [/\ hl' = hl ++ ex, idx = idx0 ++ ix
    & comb -> ix = [seq index (hash c) hl' | c <- cs] /\ all (fun c => hash c \in hl') cs].
Proof.
elim: cs => [|c cs IH] hl cc idx0 hl' cc' idx le /=.
  by case=> <- <- <-; split=> //; exists [::], [::]; rewrite !cats0.
case: ifP => h E.
  have [e1 [ex [ix [e2 -> h2]]]] := IH _ _ _ _ _ _ le E; split=> //; exists ex, (index (hash c) hl :: ix); rewrite cat_rcons; split=> // cb.
  have [-> al] := h2 cb; case/andP: h => _ hi; rewrite e2 index_ext // mem_cat hi /= -e2; by split.
have le' : cc.+1 = size (rcons hl (hash c)) by rewrite size_rcons le.
have [e1 [ex [ix [e2 -> h2]]]] := IH _ _ _ _ _ _ le' E; split=> //; exists (hash c :: ex), (cc :: ix); split; [by rewrite e2 cat_rcons|by rewrite cat_rcons|].
move=> cb; have [-> al] := h2 cb; move: h; rewrite cb /= => /negbT hn; rewrite /= al andbT; split.
  congr (_ :: _); rewrite e2 cat_rcons index_cat (negbTE hn) /= eqxx addn0; exact: le.
by rewrite e2 mem_cat mem_rcons inE eqxx.
Qed.
Lemma run_index sigs : forall hl cc idxs, all (fun s : bsig n => ~~ bpar s) sigs -> run hash sigs = (hl, cc, idxs) ->
  cc = size hl /\ forall p, (p < size sigs)%N -> bcomb (nth (no_sig n) sigs p) ->
    nth [::] idxs p = [seq index (hash c) hl | c <- columns (nth (no_sig n) sigs p)] /\ all (fun c => hash c \in hl) (columns (nth (no_sig n) sigs p)).
Proof.
elim/last_ind: sigs => [|sigs s IH] hl cc idxs; first by move=> _ [<- <- _].
rewrite all_rcons => /andP[np al]; rewrite run_rcons; case er: (run hash sigs) IH => [[hl0 cc0] idxs0] /(_ _ _ _ al erefl) [e0 IH].
have [sz _ _ _] := layout er.
have [hl' [cc' [idx [E ->]]]] := sig_stepE hash hl0 cc0 idxs0 np; case=> <- <- <-.
have [e1 [ex [ix [e2 /= ei h2]]]] := cols_index e0 E; split=> // p; subst ix; rewrite size_rcons !nth_rcons sz ltnS leq_eqVlt.
move=> /orP[/eqP ->|lt]; first by rewrite ltnn eqxx => /h2.
rewrite lt.
move=> cb; have [-> h3] := IH p lt cb; split; last by apply/allP => c hc; rewrite e2 mem_cat (allP h3).
by apply/eq_in_map => c hc; rewrite e2 index_ext // (allP h3).
Qed.
Lemma run_take sigs t : (t <= size sigs)%N -> exists ex, (run hash sigs).2 = (run hash (take t sigs)).2 ++ ex.
Proof.
move=> le; rewrite -{1}(cat_take_drop t sigs); elim/last_ind: (drop t sigs) => [|l s [ex IH]]; first by exists [::]; rewrite !cats0.
rewrite -rcons_cat run_rcons; case: (run hash (take t sigs ++ l)) IH => [[hl cc] idxs] /= ->; rewrite /sig_step.
case: ifP => _; first by eexists; rewrite -cats1 -catA.
by case: (foldl _ _ _) => [[? ?] ?]; eexists; rewrite -cats1 -catA.
Qed.
End Share.

(** Equal columns of two combining signals with fixed bases are one column. *)
Lemma combine_shared_lem : forall n (hash : 'cV[R]_n -> nat) (sigs : seq (bsig n)) p q a b,
  fixed_first sigs -> (p < size sigs)%N -> (q < size sigs)%N ->
  bpar (nth (no_sig n) sigs p) = false -> bcomb (nth (no_sig n) sigs p) -> bpar (nth (no_sig n) sigs q) = false -> bcomb (nth (no_sig n) sigs q) ->
  (a < bk (nth (no_sig n) sigs p))%N -> (b < bk (nth (no_sig n) sigs q))%N ->
  nth 0 (columns (nth (no_sig n) sigs p)) a = nth 0 (columns (nth (no_sig n) sigs q)) b ->
  nth 0%N (nth [::] (combine_idx hash sigs) p) a = nth 0%N (nth [::] (combine_idx hash sigs) q) b.
Proof.
move=> n hash sigs; suff H p q a b : (p <= q)%N ->
  fixed_first sigs -> (p < size sigs)%N -> (q < size sigs)%N ->
  bpar (nth (no_sig n) sigs p) = false -> bcomb (nth (no_sig n) sigs p) -> bpar (nth (no_sig n) sigs q) = false -> bcomb (nth (no_sig n) sigs q) ->
  (a < bk (nth (no_sig n) sigs p))%N -> (b < bk (nth (no_sig n) sigs q))%N ->
  nth 0 (columns (nth (no_sig n) sigs p)) a = nth 0 (columns (nth (no_sig n) sigs q)) b ->
  nth 0%N (nth [::] (combine_idx hash sigs) p) a = nth 0%N (nth [::] (combine_idx hash sigs) q) b.
  move=> p q a b ff lp lq pp cp pq cq ha hb e; case/orP: (leq_total p q) => le; first exact: H.
  by apply/esym; apply: H => //; rewrite e.
move=> le ff lp lq pp cp pq cq ha hb e.
have al : all (fun s => ~~ bpar s) (take q.+1 sigs).
  apply/(all_nthP (no_sig n)) => i; rewrite size_takel // => li; rewrite nth_take //.
  move: li; rewrite ltnS leq_eqVlt => /orP[/eqP ->|iq]; first by rewrite pq.
  have := ff; rewrite /fixed_first => /(pairwiseP (no_sig n)) /(_ i q (ltn_trans iq lq) lq iq).
  by rewrite pq cq /= andbT.
have [ex eR] := run_take hash (t := q.+1) lq; case er: (run hash (take q.+1 sigs)) eR => [[hl cc] idxs] /= eR.
have [_ h] := run_index al er; have [sz _ _ _] := layout er.
have at_i i : (i <= q)%N -> bcomb (nth (no_sig n) sigs i) -> nth [::] (combine_idx hash sigs) i = [seq index (hash c) hl | c <- columns (nth (no_sig n) sigs i)].
  move=> li ci; have st : size (take q.+1 sigs) = q.+1 by rewrite size_takel.
  have := h i; rewrite st ltnS nth_take ?ltnS // => /(_ li ci) [<- _].
  by rewrite -[combine_idx hash sigs]/(run hash sigs).2 eR nth_cat sz st ltnS li.
by rewrite !at_i // !(nth_map 0) ?size_columns // e.
Qed.
Lemma ex_shared : fixed_first sigs_ok /\ nth (no_sig 1) sigs_ok 0 = nth (no_sig 1) sigs_ok 1 /\
  bpar (nth (no_sig 1) sigs_ok 0) = false /\ bcomb (nth (no_sig 1) sigs_ok 0) /\ (0 < bk (nth (no_sig 1) sigs_ok 0))%N.
Proof. by split=> //; have [_ []] := ex_combine. Qed.
