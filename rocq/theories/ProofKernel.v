(** Proofs about KernelMatrix and the combined basis. *)
From Coq Require Import Reals Lra Lia.
From mathcomp Require Import all_ssreflect all_algebra.
From mathcomp Require Import zify.
From Verif Require Import RStruct PyBase ModelLinalg ProofLinalg ModelNoise ProofNoise ModelLike ModelKernel.
Set Implicit Arguments.
Unset Strict Implicit.
Unset Printing Implicit Defensive.
Import GRing.Theory Num.Theory Order.TTheory.
Local Open Scope ring_scope.

(** * Specification *)

(** The index array listing the positions [f 0], [f 1], ... *)
Definition at_pos (N k : nat) (f : 'I_k -> 'I_N) : seq nat := [seq val (f a) | a <- enum 'I_k].
Definition is_vector (k : nat) (phi : phi_t k) : bool := if phi is PhiD _ then true else false.

(** Basis columns of a signal. *)
Definition columns (n : nat) (s : bsig n) : seq 'cV[R]_n := [seq col j (bF s) | j <- enum 'I_(bk s)].
(** Different columns of the signals have different hashes. *)
Definition no_collision (n : nat) (hash : 'cV[R]_n -> nat) (sigs : seq (bsig n)) : Prop :=
  forall x y, x \in flatten [seq columns s | s <- sigs] -> y \in flatten [seq columns s | s <- sigs] ->
    hash x = hash y -> x = y.
(** No signal with a varying basis before one that shares its columns. *)
Definition fixed_first (n : nat) (sigs : seq (bsig n)) : Prop :=
  pairwise (fun s t => ~~ [&& bpar s, ~~ bpar t & bcomb t]) sigs.
(** No combining signal with a fixed basis has two equal columns. *)
Definition no_repeats (n : nat) (sigs : seq (bsig n)) : Prop :=
  all (fun s => [|| bpar s, ~~ bcomb s | uniq (columns s)]) sigs.

(** * Index arrays *)
Section Index.
Variables (N k : nat) (f : 'I_k -> 'I_N).

Lemma size_at_pos : size (at_pos f) = k.
Proof. by rewrite size_map size_enum_ord. Qed.
Lemma nth_at_pos (a : 'I_k) : nth 0%N (at_pos f) a = f a.
Proof. by rewrite (nth_map a) ?size_enum_ord // nth_ord_enum. Qed.
Lemma at_pos_lt : has (leq N) (at_pos f) = false.
Proof. by apply/negP=> /hasP[x /mapP[a _ ->]] /=; rewrite leqNgt ltn_ord. Qed.
Lemma in_at_pos (i : 'I_N) : (val i \in at_pos f) = [exists a, f a == i].
Proof.
apply/mapP/existsP=> [[a _ e]|[a /eqP <-]]; last by exists a => //; rewrite mem_enum.
by exists a; apply/eqP/val_inj.
Qed.
Lemma last_at_in (a : 'I_k) : injective f -> last_at k (at_pos f) (f a) = Some a.
Proof.
move=> fi; rewrite /last_at; case: pickP => [b|/(_ a)].
  by rewrite nth_at_pos => /andP[/eqP/val_inj/fi -> _].
rewrite nth_at_pos eqxx /= => /negbT /forallPn[b]; rewrite negb_imply nth_at_pos negbK => /andP[lt /eqP/val_inj/fi e].
by move: lt; rewrite e ltnn.
Qed.
Lemma last_at_out (i : 'I_N) : ~~ [exists a, f a == i] -> last_at k (at_pos f) i = None.
Proof.
move=> ni; rewrite /last_at; case: pickP => // b; rewrite nth_at_pos => /andP[/eqP/val_inj e _].
by case/negP: ni; apply/existsP; exists b; apply/eqP.
Qed.
Lemma at_pos_nil : (0 < k)%N -> (at_pos f == [::]) = false.
Proof. by move=> k0; rewrite -size_eq0 size_at_pos; case: k k0. Qed.
Lemma check_arr : (0 < k)%N -> idx_check N k (KArr (at_pos f)) = None.
Proof. by move=> k0; rewrite /idx_check at_pos_nil // at_pos_lt size_at_pos eqxx. Qed.
Lemma at_pos_uniq : injective f -> uniq (at_pos f).
Proof. by move=> fi; rewrite map_inj_uniq ?enum_uniq // => a b /val_inj/fi. Qed.

(** The selection matrix. *)
Definition emx : 'M[R]_(k, N) := \matrix_(a, i) (f a == i)%:R.
Lemma emx_entry_in (B : 'M[R]_k) a b : injective f -> (emx^T *m B *m emx) (f a) (f b) = B a b.
Proof.
move=> fi; rewrite mxE (bigD1 b) //= big1 => [|c cb]; last first.
  by rewrite [emx c _]mxE (inj_eq fi) (negbTE cb) mulr0.
rewrite addr0 [emx b _]mxE eqxx mulr1 mxE (bigD1 a) //= big1 => [|c ca]; last first.
  by rewrite !mxE (inj_eq fi) (negbTE ca) mul0r.
by rewrite addr0 !mxE eqxx mul1r.
Qed.
Lemma emx_out_r (i : 'I_N) c : ~~ [exists a, f a == i] -> emx c i = 0.
Proof. by move/existsPn=> /(_ c) h; rewrite mxE (negbTE h). Qed.
Lemma emx_entry_l (B : 'M[R]_k) i j : ~~ [exists a, f a == i] -> (emx^T *m B *m emx) i j = 0.
Proof.
move=> h; rewrite mxE big1 // => c _; rewrite mxE big1 ?mul0r // => d _.
by rewrite [_^T _ _]mxE emx_out_r ?mul0r.
Qed.
Lemma emx_entry_r (B : 'M[R]_k) i j : ~~ [exists a, f a == j] -> (emx^T *m B *m emx) i j = 0.
Proof. by move=> h; rewrite mxE big1 // => c _; rewrite emx_out_r ?mulr0. Qed.
End Index.

Lemma idx_fun (N k : nat) (s : seq nat) : size s = k -> all (fun c => (c < N)%N) s -> uniq s ->
  exists f : 'I_k -> 'I_N, injective f /\ s = at_pos f.
Proof.
move=> sz al un.
have lt (a : 'I_k) : (nth 0%N s a < N)%N by apply: (allP al); apply: mem_nth; rewrite sz.
exists (fun a => Ordinal (lt a)); split.
  move=> a b [] /eqP; rewrite nth_uniq ?sz // => /eqP; exact: val_inj.
apply: (@eq_from_nth _ 0%N); first by rewrite size_at_pos.
by move=> i; rewrite sz => ik; rewrite (nth_at_pos _ (Ordinal ik)).
Qed.

(** * KernelMatrix *)
Lemma phi_mxD k (v : 'cV[R]_k) i j : phi_mx (PhiD v) i j = if i == j then v i ord0 else 0.
Proof. by rewrite !mxE; case: eqP => [->|]; rewrite ?mulr1n ?mulr0n. Qed.

Lemma mem_enum_pos N k (f : 'I_k -> 'I_N) : (0 < k)%N ->
  exists i, i \in [seq i <- enum 'I_N | val i \in at_pos f].
Proof.
move=> k0; exists (f (Ordinal k0)); rewrite mem_filter mem_enum andbT in_at_pos.
by apply/existsP; exists (Ordinal k0).
Qed.
Lemma setcliques_ok N k (f : 'I_k -> 'I_N) (cl : 'I_N -> option nat) c : (0 < k)%N -> exists r, ksetcliques cl c (at_pos f) = Ok r.
Proof.
move=> k0; rewrite /ksetcliques; have [i] := mem_enum_pos f k0.
case: [seq i <- enum 'I_N | val i \in at_pos f] => //= j l _.
by case: (foldl _ _ _) => [m|]; eexists.
Qed.

Lemma phi_promote N k (self : kmat N) (other : phi_t k) : phi_mx (kphi (kpromote self other)) = phi_mx (kphi self).
Proof. by rewrite /kpromote; case e : (kphi self) other => [v|A] [w|B] //=; rewrite e. Qed.

(** All cases of [add] and [set] at distinct positions of an index array. *)
Lemma kput_arr op N k (self : kmat N) (other : phi_t k) (f : 'I_k -> 'I_N) : injective f -> (0 < k)%N ->
  exists r, kput op self other (KArr (at_pos f)) = Ok r
    /\ (forall a b, phi_mx (kphi r) (f a) (f b) =
          if is_vector other && (a != b) then phi_mx (kphi self) (f a) (f b)
          else op (phi_mx (kphi self) (f a) (f b)) (phi_mx other a b))
    /\ (forall i j, ~~ ([exists a, f a == i] && [exists b, f b == j]) ->
          phi_mx (kphi r) i j = phi_mx (kphi self) i j)
    /\ is_vector (kphi r) = is_vector (kphi self) && is_vector other.
Proof.
move=> fi k0; rewrite -(phi_promote self other).
have -> : is_vector (kphi self) && is_vector other = is_vector (kphi (kpromote self other)) && is_vector other.
  by rewrite /kpromote; case e: (kphi self) other => [v|A] [w|B] //=; rewrite e.
have wf : if kphi (kpromote self other) is PhiD _ then is_vector other else true.
  by rewrite /kpromote; case e: (kphi self) other => [v|A] [w|B] //=; rewrite e.
rewrite /kput; move: (kpromote self other) wf => {}self.
case e: (kphi self) other => [v|A] [w|B] //= _.
- rewrite at_pos_nil // at_pos_lt size_at_pos eqxx /=; eexists; split; first by [].
  split; [move=> a b|split=> // i j].
  + rewrite !mxE (inj_eq fi) last_at_in //=; case: eqP => [->|] /=; first by rewrite !mulr1n.
    by rewrite !mulr0n.
  + rewrite !mxE; case: eqP => [<-|] /=; last by rewrite !mulr0n.
    by rewrite andbb => ni; rewrite last_at_out.
- rewrite at_pos_nil // at_pos_lt size_at_pos eqxx /=; eexists; split; first by [].
  split; [move=> a b|split=> // i j].
  + rewrite !mxE (inj_eq fi) last_at_in //=; case: eqP => [->|] /=; first by rewrite !mulr1n.
    by [].
  + rewrite !mxE; case: eqP => [<-|] //=.
    by rewrite andbb => ni; rewrite last_at_out.
- rewrite at_pos_nil // at_pos_lt /=; have [cc ->] := setcliques_ok f (kcl self) (kcount self) k0.
  rewrite /= size_at_pos eqxx /=; eexists; split; first by [].
  split; [move=> a b|split=> // i j].
  + by rewrite !mxE !last_at_in.
  + rewrite !mxE negb_and; case ex: [exists a, f a == i] => /= nj; last by rewrite last_at_out ?ex.
    by rewrite (last_at_out nj); case: (last_at _ _ _).
Qed.

Lemma kadd_mx N k (self : kmat N) (other : phi_t k) (f : 'I_k -> 'I_N) : injective f -> (0 < k)%N ->
  exists r, kadd self other (KArr (at_pos f)) = Ok r
    /\ phi_mx (kphi r) = phi_mx (kphi self) + (emx f)^T *m phi_mx other *m emx f.
Proof.
move=> fi k0; have [r [e [hin [hout _]]]] := kput_arr (fun x y => x + y) self other fi k0.
exists r; split; first exact: e.
apply/matrixP=> i j; rewrite [RHS]mxE.
case ei: [exists a, f a == i]; last first.
  by rewrite hout ?ei // emx_entry_l ?ei // addr0.
case ej: [exists b, f b == j]; last first.
  by rewrite hout ?ej ?andbF // emx_entry_r ?ej // addr0.
case/existsP: ei => a /eqP <-; case/existsP: ej => b /eqP <-.
rewrite hin emx_entry_in //; clear e hin hout; case: ifP => // /andP[]; case: other => // v _ ab.
by rewrite phi_mxD (negbTE ab) addr0.
Qed.

(** * Combined columns *)
Section Comb.
Variables (n : nat) (hash : 'cV[R]_n -> nat).
Notation cv := ('cV[R]_n).

(** One signal: what the loop over its columns does. *)
Lemma cols_layout comb (cs : seq cv) : forall hl cc idx0 hl' cc' idx,
  (size hl <= cc)%N -> foldl (col_step hash comb) (hl, cc, idx0) cs = (hl', cc', idx) ->
  exists ix, [/\ idx = idx0 ++ ix, size ix = size cs, (size hl' <= cc')%N, (cc <= cc')%N &
     [/\ forall c, ((cc <= c < cc') -> c \in ix)%N, forall c, c \in ix -> (c < cc')%N,
         comb \/ ix = iota cc (size cs), cc' = (cc + (size hl' - size hl))%N & (size hl <= size hl')%N]].
Proof.
elim: cs => [|c cs IH] hl cc idx0 hl' cc' idx le /=.
  by case=> <- <- <-; exists [::]; rewrite cats0 subnn addn0; split=> //; split=> // [c|]; [lia|right].
rewrite /=; case: ifP => h E.
  have [ix [-> sz le1 le2 [h1 h2 h3 h4 h5]]] := IH _ _ _ _ _ _ le E.
  exists (index (hash c) hl :: ix); rewrite cat_rcons; split=> //=; first by rewrite sz.
  split=> // [d|d|]; last by left; case/andP: h.
    by move=> /h1; rewrite inE orbC => ->.
  rewrite inE => /orP[/eqP ->|/h2 //]; case/andP: h => _; rewrite -index_mem => lt; apply: (leq_trans lt); exact: (leq_trans le le2).
have le' : (size (rcons hl (hash c)) <= cc.+1)%N by rewrite size_rcons; lia.
have [ix [-> sz le1 le2 [h1 h2 h3 h4 h5]]] := IH _ _ _ _ _ _ le' E.
rewrite size_rcons in h4 h5.
exists (cc :: ix); rewrite cat_rcons; split=> //=; [by rewrite sz|lia|].
split=> // [d|d|||]; [|by rewrite inE => /orP[/eqP ->|/h2 //]; lia|by case: h3 => [->|<-]; [left|right]|lia|lia].
by rewrite inE; case: (ltngtP d cc) => //= lt le3; try lia; apply: h1; lia.
Qed.
(** The columns of the signal come out at their positions in [cols]. *)
Lemma cols_content (comb al : bool) (P : pred cv) : {in P &, injective hash} -> (comb -> al) ->
  forall (cs cols : seq cv) hl idx0 hl' cc' idx,
  all P cs -> all P cols -> (al -> hl = [seq hash c | c <- cols]) ->
  foldl (col_step hash comb) (hl, size cols, idx0) cs = (hl', cc', idx) ->
  exists ix ex, [/\ idx = idx0 ++ ix, cc' = size (cols ++ ex), all P ex, (al -> hl' = [seq hash c | c <- cols ++ ex]) &
     forall j, (j < size cs)%N -> (nth 0%N ix j < cc')%N /\ nth 0 (cols ++ ex) (nth 0%N ix j) = nth 0 cs j].
Proof.
move=> hi cal; elim=> [|c cs IH] cols hl idx0 hl' cc' idx /=.
  by move=> _ Pc e [<- <- <-]; exists [::], [::]; rewrite !cats0; split.
case/andP=> Pc Pcs Pcols e; case: ifP => [/andP[cb hin]|_] E.
  have el := e (cal cb); have [ix [ex [-> -> Pex e' H]]] := IH _ _ _ _ _ _ Pcs Pcols e E.
  exists (index (hash c) hl :: ix), ex; rewrite cat_rcons; split=> // -[|j] /=; last by move/H.
  move=> _; have lt : (index (hash c) hl < size cols)%N.
    by rewrite -(size_map hash) -el index_mem.
  split; first by rewrite size_cat; apply: (leq_trans lt); rewrite leq_addr.
  rewrite nth_cat lt; have mc := mem_nth 0 lt; apply: hi => //; first exact: (allP Pcols).
  by rewrite -(nth_map 0 0%N hash lt) -el nth_index.
have e1 : al -> rcons hl (hash c) = [seq hash c | c <- rcons cols c] by move=> a; rewrite e // map_rcons.
have P1 : all P (rcons cols c) by rewrite all_rcons Pc.
rewrite -(size_rcons cols c) in E.
have [ix [ex [-> -> Pex e' H]]] := IH _ _ _ _ _ _ Pcs P1 e1 E.
rewrite cat_rcons in e' H *.
exists (size cols :: ix), (c :: ex); rewrite cat_rcons; split=> //=; first by rewrite Pc.
move=> [|j] /=; last by move/H.
by move=> _; rewrite size_cat /= nth_cat ltnn subnn /=; split=> //; lia.
Qed.

Definition cstate := (seq nat * nat * seq (seq nat))%type.
Definition run (sigs : seq (bsig n)) : cstate := foldl (sig_step hash) ([::], 0%N, [::]) sigs.
Definition no_sig : bsig n := @BSig n 0 0 (PhiD 0) false false.

Lemma run_rcons sigs s : run (rcons sigs s) = sig_step hash (run sigs) s.
Proof. by rewrite /run -cats1 foldl_cat. Qed.
Lemma sig_stepE hl cc idxs s : ~~ bpar s -> exists hl' cc' idx,
  foldl (col_step hash (bcomb s)) (hl, cc, [::]) (columns s) = (hl', cc', idx) /\
  sig_step hash (hl, cc, idxs) s = (hl', cc', rcons idxs idx).
Proof.
move=> np; rewrite /sig_step (negbTE np) -/(columns s).
by case: (foldl _ _ _) => [[hl' cc'] idx]; exists hl', cc', idx.
Qed.
Lemma size_columns (s : bsig n) : size (columns s) = bk s.
Proof. by rewrite size_map size_enum_ord. Qed.
Lemma nth_columns (s : bsig n) (j : 'I_(bk s)) : nth 0 (columns s) j = col j (bF s).
Proof. by rewrite (nth_map j) ?size_enum_ord // nth_ord_enum. Qed.

Lemma layout sigs : forall hl cc idxs, run sigs = (hl, cc, idxs) ->
  [/\ size idxs = size sigs, (size hl <= cc)%N, forall c, (c \in flatten idxs) = (c < cc)%N &
      forall p, (p < size sigs)%N -> size (nth [::] idxs p) = bk (nth no_sig sigs p)].
Proof.
elim/last_ind: sigs => [|sigs s IH] hl cc idxs; first by case=> <- <- <-.
rewrite run_rcons; case: (run sigs) IH => [[hl0 cc0] idxs0] /(_ _ _ _ erefl) [sz le cov szs].
have step idx c1 : (forall c, (c \in idx) || (c < cc0)%N = (c < c1)%N) -> size idx = bk s ->
    [/\ size (rcons idxs0 idx) = size (rcons sigs s), forall c, (c \in flatten (rcons idxs0 idx)) = (c < c1)%N &
      forall p, (p < size (rcons sigs s))%N -> size (nth [::] (rcons idxs0 idx) p) = bk (nth no_sig (rcons sigs s) p)].
  move=> h si; split; first by rewrite !size_rcons sz.
    by move=> c; rewrite flatten_rcons mem_cat cov orbC h.
  move=> p; rewrite size_rcons !nth_rcons sz ltnS leq_eqVlt => /orP[/eqP ->|lt]; first by rewrite ltnn eqxx.
  by rewrite lt szs.
case bp: (bpar s).
  rewrite /sig_step bp => -[<- <- <-].
  have [||] := step (iota cc0 (bk s)) (cc0 + bk s)%N.
  - by move=> c; rewrite mem_iota; case: (ltnP c cc0) => //= lt; lia.
  - by rewrite size_iota.
  by move=> h1 h2 h3; split=> //; lia.
have [hl' [cc' [idx [E ->]]]] := sig_stepE hl0 cc0 idxs0 (negbT bp); case=> <- <- <-.
have [ix [ei si le1 le2 [h1 h2 _ _ _]]] := cols_layout le E; rewrite /= in ei; subst ix.
have [||g1 g2 g3] := step idx cc'; [|by rewrite si size_columns|by split].
move=> c; case: (ltnP c cc0) => lt; first by rewrite orbT; apply/esym/(leq_trans lt).
by rewrite orbF; case: (ltnP c cc') => lt2; [apply: h1; rewrite lt|apply/negP=> /h2; lia].
Qed.
Lemma cols_uniq (comb : bool) (cs : seq cv) : forall hl cc idx0 hl' cc' idx,
  (size hl <= cc)%N -> uniq [seq hash c | c <- cs] ->
  foldl (col_step hash comb) (hl, cc, idx0) cs = (hl', cc', idx) ->
  exists ix, [/\ idx = idx0 ++ ix, uniq ix & forall d, d \in ix ->
     (cc <= d)%N \/ exists c, [/\ c \in cs, hash c \in hl & d = index (hash c) hl]].
Proof.
elim: cs => [|c cs IH] hl cc idx0 hl' cc' idx le /=.
  by move=> _ [_ _ <-]; exists [::]; rewrite cats0; split.
case/andP=> nc un; case: ifP => h E.
  have [ix [-> ui H]] := IH _ _ _ _ _ _ le un E; case/andP: h => _ hin.
  exists (index (hash c) hl :: ix); rewrite cat_rcons; split=> //=.
    rewrite ui andbT; apply/negP=> /H[].
      by move: hin; rewrite -index_mem => lt; rewrite leqNgt (leq_trans lt).
    case=> c' [c'in h' e]; case/negP: nc; apply/mapP; exists c' => //.
    by rewrite -[LHS](nth_index 0%N hin) e nth_index.
  move=> d; rewrite inE => /orP[/eqP ->|/H[le'|[c' [c'in h' ->]]]]; [right|by left|right].
    by exists c; rewrite inE eqxx.
  by exists c'; rewrite inE c'in orbT.
have le' : (size (rcons hl (hash c)) <= cc.+1)%N by rewrite size_rcons; lia.
have [ix [-> ui H]] := IH _ _ _ _ _ _ le' un E.
have old d : d \in ix -> (cc < d)%N \/ exists c', [/\ c' \in cs, hash c' \in hl & d = index (hash c') hl].
  case/H=> [|[c' [c'in h' ->]]]; [by left|right].
  have ne : hash c' != hash c by apply: contraNneq nc => <-; apply: map_f.
  move: h'; rewrite mem_rcons inE (negbTE ne) /= => h'.
  by exists c'; split=> //; rewrite -cats1 index_cat h'.
exists (cc :: ix); rewrite cat_rcons; split=> //=.
  rewrite ui andbT; apply/negP=> /old[|[c' [_ h' e]]]; first by rewrite ltnn.
  by move: h'; rewrite -index_mem -e => lt; move: (leq_trans lt le); rewrite ltnn.
move=> d; rewrite inE => /orP[/eqP ->|/old[lt|[c' [c'in h' ->]]]]; [by left|by left; apply: ltnW|right].
by exists c'; rewrite inE c'in orbT.
Qed.

Lemma distinct_idx sigs : forall hl cc idxs, run sigs = (hl, cc, idxs) ->
  forall p, (p < size sigs)%N -> let s := nth no_sig sigs p in
    [|| bpar s, ~~ bcomb s | uniq [seq hash c | c <- columns s]] -> uniq (nth [::] idxs p).
Proof.
elim/last_ind: sigs => [|sigs s IH] hl cc idxs; first by case=> _ _ <-.
rewrite run_rcons; case er: (run sigs) IH => [[hl0 cc0] idxs0] /(_ _ _ _ erefl) IH.
have [sz le _ _] := layout er.
have step idx : ([|| bpar s, ~~ bcomb s | uniq [seq hash c | c <- columns s]] -> uniq idx) ->
    forall p, (p < size (rcons sigs s))%N -> let s' := nth no_sig (rcons sigs s) p in
    [|| bpar s', ~~ bcomb s' | uniq [seq hash c | c <- columns s']] -> uniq (nth [::] (rcons idxs0 idx) p).
  move=> h p; rewrite size_rcons /= !nth_rcons sz ltnS leq_eqVlt => /orP[/eqP ->|lt]; first by rewrite ltnn eqxx.
  by rewrite lt; apply: IH.
case bp: (bpar s).
  by rewrite /sig_step bp => -[_ _ <-]; apply: step; rewrite iota_uniq.
have [hl' [cc' [idx [E ->]]]] := sig_stepE hl0 cc0 idxs0 (negbT bp); case=> _ _ <-.
apply: step; rewrite bp /=; case cb: (bcomb s) => /=.
  by move=> un; have [ix [-> ui _]] := cols_uniq le un E.
have [ix [-> _ _ _ [_ _ h _ _]]] := cols_layout le E.
by case: h => [|->]; rewrite ?cb ?iota_uniq.
Qed.

Lemma sharing_flags sigs : forall hl cc idxs, run sigs = (hl, cc, idxs) ->
  forall p q c, (p < q)%N -> (q < size sigs)%N -> c \in nth [::] idxs p -> c \in nth [::] idxs q ->
  ~~ bpar (nth no_sig sigs q) && bcomb (nth no_sig sigs q).
Proof.
elim/last_ind: sigs => [|sigs s IH] hl cc idxs; first by case=> _ _ <- p q c pq; rewrite ltn0.
rewrite run_rcons; case er: (run sigs) IH => [[hl0 cc0] idxs0] /(_ _ _ _ erefl) IH.
have [sz le cov _] := layout er.
have step idx : (bpar s || ~~ bcomb s -> forall c, c \in idx -> (cc0 <= c)%N) ->
    forall p q c, (p < q)%N -> (q < size (rcons sigs s))%N ->
    c \in nth [::] (rcons idxs0 idx) p -> c \in nth [::] (rcons idxs0 idx) q ->
    ~~ bpar (nth no_sig (rcons sigs s) q) && bcomb (nth no_sig (rcons sigs s) q).
  move=> h p q c pq; rewrite size_rcons !nth_rcons sz ltnS leq_eqVlt => /orP[/eqP eq|lt]; last first.
    by rewrite lt (ltn_trans pq lt); apply: IH.
  rewrite eq ltnn eqxx -eq pq => cp cq; rewrite -[bcomb s]negbK -negb_or; apply/negP=> /h/(_ c cq).
  rewrite leqNgt -cov; case/negP; apply/flattenP; exists (nth [::] idxs0 p) => //; apply: mem_nth.
  by rewrite sz -eq.
case bp: (bpar s).
  rewrite /sig_step bp => -[_ _ <-]; apply: step => _ c; rewrite mem_iota; case/andP=> //.
have [hl' [cc' [idx [E ->]]]] := sig_stepE hl0 cc0 idxs0 (negbT bp); case=> _ _ <-.
apply: step; rewrite bp /= => cb c.
have [ix [-> _ _ _ [_ _ h _ _]]] := cols_layout le E.
by case: h => [|->]; rewrite ?(negbTE cb) // mem_iota => /andP[].
Qed.

Lemma content (P : pred cv) sigs : {in P &, injective hash} ->
  all (fun s => all P (columns s)) sigs -> fixed_first sigs ->
  forall hl cc idxs, run sigs = (hl, cc, idxs) ->
  exists cols : seq cv, [/\ size cols = cc, all P cols, ~~ has (fun s => bpar s) sigs -> hl = [seq hash c | c <- cols] &
    forall p (j : nat), (p < size sigs)%N -> (j < bk (nth no_sig sigs p))%N ->
      nth 0 cols (nth 0%N (nth [::] idxs p) j) = nth 0 (columns (nth no_sig sigs p)) j].
Proof.
move=> hi; elim/last_ind: sigs => [|sigs s IH]; first by move=> _ _ hl cc idxs [<- <- <-]; exists [::].
rewrite all_rcons => /andP[Ps Psigs]; rewrite /fixed_first pairwise_rcons => /andP[fs ff] hl cc idxs.
rewrite run_rcons; case er: (run sigs) => [[hl0 cc0] idxs0].
have [cols [szc Pcols al0 H]] := IH Psigs ff _ _ _ er.
have [sz le cov _] := layout er.
have step idx ex : (forall j, (j < bk s)%N -> nth 0 (cols ++ ex) (nth 0%N idx j) = nth 0 (columns s) j) ->
    forall p (j : nat), (p < size (rcons sigs s))%N -> (j < bk (nth no_sig (rcons sigs s) p))%N ->
      nth 0 (cols ++ ex) (nth 0%N (nth [::] (rcons idxs0 idx) p) j) = nth 0 (columns (nth no_sig (rcons sigs s) p)) j.
  move=> h p j; rewrite size_rcons !nth_rcons sz ltnS leq_eqVlt => /orP[/eqP ->|lt]; first by rewrite ltnn eqxx; apply: h.
  rewrite lt => jl; rewrite nth_cat szc -cov.
  have [_ _ _ szs] := layout er.
  have -> : nth 0%N (nth [::] idxs0 p) j \in flatten idxs0; last exact: H.
  apply/flattenP; exists (nth [::] idxs0 p); first by apply: mem_nth; rewrite sz.
  by apply: mem_nth; rewrite szs.
case bp: (bpar s).
  rewrite /sig_step bp => -[_ <- <-]; exists (cols ++ columns s); split.
  - by rewrite size_cat szc size_columns.
  - by rewrite all_cat Pcols.
  - by rewrite has_rcons bp.
  apply: step => j jl; rewrite nth_iota // nth_cat szc ltnNge leq_addr /=; congr nth; lia.
have [hl' [cc' [idx [E ->]]]] := sig_stepE hl0 cc0 idxs0 (negbT bp); case=> <- <- <-.
have cal : bcomb s -> ~~ has (fun s => bpar s) sigs.
  move=> cb; apply/negP=> hp; move: fs; apply/negP; rewrite -has_predC; move: hp; apply: sub_has => t /= tp.
  by rewrite negbK tp bp cb.
rewrite -szc in E.
have [ix [ex [-> -> Pex e' H']]] := cols_content hi cal Ps Pcols al0 E.
exists (cols ++ ex); split=> //; first by rewrite all_cat Pcols.
  by rewrite has_rcons bp.
by apply: step => j jl; have [|_ ->] := H' j; rewrite ?size_columns.
Qed.

Lemma run_idx sigs : exists hl cc, run sigs = (hl, cc, combine_idx hash sigs) /\ combine_ncol hash sigs = cc.
Proof.
rewrite /combine_ncol /combine_idx -/(run sigs); case er: (run sigs) => [[hl cc] idxs]; exists hl, cc; split=> //=.
have [_ _ cov _] := layout er.
have: perm_eq (undup (flatten idxs)) (iota 0 cc).
  by apply: uniq_perm; rewrite ?undup_uniq ?iota_uniq // => c; rewrite mem_undup mem_iota cov.
by move/perm_size; rewrite size_iota.
Qed.
End Comb.

Section Cov.
Variables (n N : nat) (TT : 'M[R]_(n, N)).
Definition placed (x : bsig n * seq nat) : Prop := exists f : 'I_(bk x.1) -> 'I_N,
  [/\ injective f, x.2 = at_pos f, (0 < bk x.1)%N & forall i j, bF x.1 i j = TT i (f j)].

Lemma placed_F (x : bsig n * seq nat) (f : 'I_(bk x.1) -> 'I_N) : (forall i j, bF x.1 i j = TT i (f j)) -> bF x.1 = TT *m (emx f)^T.
Proof.
move=> H; apply/matrixP=> i j; rewrite H mxE (bigD1 (f j)) //= big1 => [|c cj].
  by rewrite addr0 !mxE eqxx mulr1.
by rewrite !mxE eq_sym (negbTE cj) mulr0.
Qed.

Lemma basis_fold l (T0 : 'M[R]_(n, N)) : List.Forall placed l ->
  exists T1, foldl (fun r (si : bsig n * seq nat) => rbind r (fun T => assign_cols T (bF si.1) si.2)) (Ok T0) l = Ok T1
    /\ forall i c, T1 i c = if val c \in flatten [seq x.2 | x <- l] then TT i c else T0 i c.
Proof.
elim: l T0 => [|x l IH] T0 H; first by exists T0.
inversion_clear H as [|? ? Hx Hl]; have [f [fi ex k0 hF]] := Hx.
have ea : assign_cols T0 (bF x.1) (at_pos f) =
    Ok (\matrix_(i, c) (if last_at (bk x.1) (at_pos f) c is Some a then bF x.1 i a else T0 i c)).
  by rewrite /assign_cols check_arr.
rewrite /= ex ea.
have [T1 [-> h1]] := IH (\matrix_(i, c) (if last_at (bk x.1) (at_pos f) c is Some a then bF x.1 i a else T0 i c)) Hl.
exists T1; split=> // i c; rewrite h1 mem_cat; case: (val c \in flatten _); rewrite ?orbT ?orbF // mxE in_at_pos.
case e: [exists a, f a == c]; last by rewrite last_at_out ?e.
by case/existsP: e => a /eqP <-; rewrite last_at_in // hF.
Qed.

Lemma phi_fold l (K0 : kmat N) : List.Forall placed l ->
  exists K1, foldl (fun r (si : bsig n * seq nat) => rbind r (fun phi => kadd phi (bphi si.1) (KArr si.2))) (Ok K0) l = Ok K1
    /\ TT *m phi_mx (kphi K1) *m TT^T = TT *m phi_mx (kphi K0) *m TT^T
         + \sum_(x <- l) bF x.1 *m phi_mx (bphi x.1) *m (bF x.1)^T.
Proof.
elim: l K0 => [|x l IH] K0 H; first by exists K0; rewrite big_nil addr0.
inversion_clear H as [|? ? Hx Hl]; have [f [fi ex k0 hF]] := Hx.
have [r [er hr]] := kadd_mx K0 (bphi x.1) fi k0.
rewrite /= ex er; have [K1 [-> h1]] := IH r Hl.
exists K1; split=> //; rewrite h1 big_cons hr addrA; congr (_ + _).
by rewrite mulmxDr mulmxDl (placed_F hF) trmx_mul trmxK !mulmxA.
Qed.
End Cov.

Section Main.
Variables (n : nat) (hash : 'cV[R]_n -> nat).
Local Notation no_sig_ := (no_sig n).
Lemma all_nth (T : Type) (x0 : T) (P : pred T) s p : all P s -> (p < size s)%N -> P (nth x0 s p).
Proof. by move=> al lt; move: (all_nthP x0 al p lt). Qed.
Lemma Forall_nth (T : Type) (x0 : T) (P : T -> Prop) s :
  (forall p, (p < size s)%N -> P (nth x0 s p)) -> List.Forall P s.
Proof.
elim: s => [|x s IH] H; constructor; first exact: (H 0%N).
by apply: IH => p lt; apply: (H p.+1).
Qed.
Lemma in_columns (sigs : seq (bsig n)) p (c : 'cV[R]_n) : (p < size sigs)%N -> c \in columns (nth no_sig_ sigs p) ->
  c \in flatten [seq columns s | s <- sigs].
Proof.
move=> lt cin; apply/flattenP; exists (columns (nth no_sig_ sigs p)) => //.
by rewrite -(nth_map _ [::]) // mem_nth // size_map.
Qed.
Lemma placed_all (sigs : seq (bsig n)) : no_collision hash sigs -> fixed_first sigs -> no_repeats sigs ->
  all (fun s => (0 < bk s)%N) sigs ->
  exists TT : 'M[R]_(n, combine_ncol hash sigs), List.Forall (placed TT) (zip sigs (combine_idx hash sigs)).
Proof.
move=> nc ff nr pos; have [hl [cc [er ec]]] := run_idx hash sigs.
have [sz le cov szs] := layout er.
set P : pred 'cV[R]_n := mem (flatten [seq columns s | s <- sigs]).
have hi : {in P &, injective hash} by move=> x y xi yi; apply: nc.
have PP : all (fun s => all P (columns s)) sigs.
  apply/(all_nthP no_sig_)=> p lt; apply/allP=> c; exact: (in_columns lt).
have [cols [szc _ _ H]] := content hi PP ff er.
exists (\matrix_(i, c) (nth 0 cols (val c)) i ord0).
apply: (@Forall_nth _ (no_sig_, [::])) => p; rewrite size_zip sz minnn => lt; rewrite nth_zip ?sz // /placed /=.
set s := nth _ sigs p; set idx := nth _ _ p.
have ui : uniq idx.
  apply: (distinct_idx er) => //; have := all_nth no_sig_ nr lt; rewrite -/s.
  case: (bpar s) => //=; case: (bcomb s) => //= un; rewrite map_inj_in_uniq // => x y xi yi.
  by apply: nc; [apply: (in_columns lt xi)|apply: (in_columns lt yi)].
have alt : all (fun c => c < combine_ncol hash sigs)%N idx.
  apply/allP=> c ci; rewrite ec -cov; apply/flattenP; exists idx => //; apply: mem_nth; by rewrite sz.
have [f [fi e]] := idx_fun (szs p lt) alt ui.
exists f; split=> //; first exact: (all_nth no_sig_ pos lt).
move=> i j; rewrite mxE; have := H p j lt (ltn_ord j); rewrite -/s e nth_at_pos => ->.
by rewrite nth_columns mxE.
Qed.
End Main.

Lemma coll_basisE n (hash : 'cV[R]_n -> nat) (sigs : seq (bsig n)) : (0 < size sigs)%N ->
  coll_basis hash sigs =
  rmap Some (foldl (fun r si => rbind r (fun T => assign_cols T (bF si.1) si.2)) (Ok 0) (zip sigs (combine_idx hash sigs))).
Proof. by case: sigs. Qed.
Lemma coll_phiE n (hash : 'cV[R]_n -> nat) (sigs : seq (bsig n)) : (0 < size sigs)%N ->
  coll_phi hash sigs =
  rmap Some (foldl (fun r si => rbind r (fun phi => kadd phi (bphi si.1) (KArr si.2))) (Ok (kzeros _)) (zip sigs (combine_idx hash sigs))).
Proof. by case: sigs. Qed.

Lemma combine_covariance_lem : forall n (hash : 'cV[R]_n -> nat) (sigs : seq (bsig n)),
  no_collision hash sigs -> fixed_first sigs -> no_repeats sigs ->
  all (fun s => (0 < bk s)%N) sigs -> (0 < size sigs)%N ->
  exists T phi, coll_basis hash sigs = Ok (Some T) /\ coll_phi hash sigs = Ok (Some phi) /\
    T *m phi_mx (kphi phi) *m T^T = \sum_(s <- sigs) bF s *m phi_mx (bphi s) *m (bF s)^T.
Proof.
move=> n hash sigs nc ff nr pos s0; have [TT pl] := placed_all nc ff nr pos.
have [T [eT hT]] := basis_fold 0 pl.
have [K [eK hK]] := phi_fold (kzeros _) pl.
have [hl [cc [er ec]]] := run_idx hash sigs; have [sz _ cov _] := layout er.
have TE : T = TT.
  apply/matrixP=> i c; rewrite hT -/unzip2 unzip2_zip ?sz // cov -ec ltn_ord //.
exists T, K; rewrite coll_basisE // coll_phiE // eT eK; split=> //; split=> //.
rewrite TE hK /kzeros /knew /= trmx0 linear0 mulmx0 mul0mx add0r.
rewrite -[in RHS](unzip1_zip (s:=sigs) (t:=combine_idx hash sigs)) ?sz // big_map.
by [].
Qed.

(** * Layout of the combined columns *)
Lemma combine_layout_lem : forall n (hash : 'cV[R]_n -> nat) (sigs : seq (bsig n)),
  let idxs := combine_idx hash sigs in
  size idxs = size sigs
  /\ (forall p, (p < size sigs)%N -> size (nth [::] idxs p) = bk (nth (no_sig n) sigs p))
  /\ (forall c, (c < combine_ncol hash sigs)%N <-> exists p, (p < size sigs)%N /\ c \in nth [::] idxs p).
Proof.
move=> n hash sigs idxs; have [hl [cc [er ec]]] := run_idx hash sigs; have [sz _ cov szs] := layout er.
split=> //; split=> // c; rewrite ec -cov; split.
  by case/flattenP=> s /(nthP [::])[p lt <-] cin; exists p; rewrite -sz.
by case=> p [lt cin]; apply/flattenP; exists (nth [::] idxs p) => //; apply: mem_nth; rewrite sz.
Qed.

Lemma combine_distinct_lem : forall n (hash : 'cV[R]_n -> nat) (sigs : seq (bsig n)) p,
  no_collision hash sigs -> (p < size sigs)%N ->
  [|| bpar (nth (no_sig n) sigs p), ~~ bcomb (nth (no_sig n) sigs p) | uniq (columns (nth (no_sig n) sigs p))] ->
  uniq (nth [::] (combine_idx hash sigs) p).
Proof.
move=> n hash sigs p nc lt h; have [hl [cc [er ec]]] := run_idx hash sigs.
apply: (distinct_idx er lt); case: (bpar _) h => //=; case: (bcomb _) => //= un.
by rewrite map_inj_in_uniq // => x y xi yi; apply: nc; [apply: (in_columns lt xi)|apply: (in_columns lt yi)].
Qed.

Lemma combine_sharing_lem : forall n (hash : 'cV[R]_n -> nat) (sigs : seq (bsig n)) p q a b,
  (p < q)%N -> (q < size sigs)%N ->
  (a < bk (nth (no_sig n) sigs p))%N -> (b < bk (nth (no_sig n) sigs q))%N ->
  nth 0%N (nth [::] (combine_idx hash sigs) p) a = nth 0%N (nth [::] (combine_idx hash sigs) q) b ->
  (bpar (nth (no_sig n) sigs q) = false /\ bcomb (nth (no_sig n) sigs q))
  /\ (no_collision hash sigs -> fixed_first sigs ->
      nth 0 (columns (nth (no_sig n) sigs p)) a = nth 0 (columns (nth (no_sig n) sigs q)) b).
Proof.
move=> n hash sigs p q a b pq qs ap bq e; have [hl [cc [er ec]]] := run_idx hash sigs.
have ps := ltn_trans pq qs; have [sz _ cov szs] := layout er.
have ain : nth 0%N (nth [::] (combine_idx hash sigs) p) a \in nth [::] (combine_idx hash sigs) p.
  by apply: mem_nth; rewrite szs.
have bin : nth 0%N (nth [::] (combine_idx hash sigs) p) a \in nth [::] (combine_idx hash sigs) q.
  by rewrite e; apply: mem_nth; rewrite szs.
split; first by have /andP[/negbTE -> ->] := sharing_flags er pq qs ain bin.
move=> nc ff; set P : pred 'cV[R]_n := mem (flatten [seq columns s | s <- sigs]).
have hi : {in P &, injective hash} by move=> x y xi yi; apply: nc.
have PP : all (fun s => all P (columns s)) sigs.
  by apply/(all_nthP (no_sig n))=> r lt; apply/allP=> c; exact: (in_columns lt).
have [cols [_ _ _ H]] := content hi PP ff er.
by rewrite -(H _ _ ps ap) -(H _ _ qs bq) e.
Qed.

(** * Slices *)
Section Slice.
Variables (N k off : nat).
Hypothesis le : (k + off <= N)%N.
Lemma sl_lt (a : 'I_k) : (off + a < N)%N.
Proof. by have := ltn_ord a; lia. Qed.
Definition sl_fun (a : 'I_k) : 'I_N := Ordinal (sl_lt a).
Lemma sl_inj : injective sl_fun.
Proof. by move=> a b [] /addnI /val_inj. Qed.
Lemma sl_pos : kpos N (KSlice off (k + off)) = at_pos sl_fun.
Proof.
rewrite /kpos (minn_idPl le) (minn_idPl (leq_trans (leq_addl k off) le)) addnK.
apply: (@eq_from_nth _ 0%N) => [|i]; first by rewrite size_at_pos size_iota.
by rewrite size_iota => lt; rewrite nth_iota // (nth_at_pos _ (Ordinal lt)).
Qed.
Lemma sl_in (i : 'I_N) : [exists a, sl_fun a == i] = (off <= i < k + off)%N.
Proof.
apply/existsP/idP=> [[a /eqP <-] /=|/andP[h1 h2]]; first by have := ltn_ord a; lia.
have lt : (i - off < k)%N by lia.
by exists (Ordinal lt); apply/eqP/val_inj => /=; lia.
Qed.
End Slice.

Lemma kput_slice op N k off (le : (k + off <= N)%N) (self : kmat N) (other : phi_t k) : (0 < k)%N || is_vector other ->
  exists r, kput op self other (KSlice off (k + off)) = Ok r
    /\ (forall a b, phi_mx (kphi r) (sl_fun le a) (sl_fun le b) =
          let old := phi_mx (kphi self) (sl_fun le a) (sl_fun le b) in
          if other is PhiM B then op old (B a b)
          else if ~~ is_vector (kphi self) then op old (phi_mx other b b)
          else if a == b then op old (phi_mx other a b) else old)
    /\ (forall i j : 'I_N, ~~ ((off <= i < k + off)%N && (off <= j < k + off)%N) ->
          phi_mx (kphi r) i j = phi_mx (kphi self) i j)
    /\ is_vector (kphi r) = is_vector (kphi self) && is_vector other.
Proof.
move=> k0; rewrite -(phi_promote self other).
have fi := @sl_inj _ _ _ le.
have -> : is_vector (kphi self) && is_vector other = is_vector (kphi (kpromote self other)) && is_vector other.
  by rewrite /kpromote; case e: (kphi self) other k0 => [v|A] [w|B] //=; rewrite e.
have wf : if other is PhiM B then is_vector (kphi (kpromote self other)) = false
          else is_vector (kphi self) = is_vector (kphi (kpromote self other)).
  by rewrite /kpromote; case e: (kphi self) other k0 => [v|A] [w|B] //=; rewrite e.
rewrite /kput; move: (kpromote self other) wf => self'; rewrite /idx_check sl_pos.
case e: (kphi self') other k0 => [v|A] [w|B] //= k0 wf.
- rewrite size_at_pos eqxx /=; eexists; split; first by [].
  split; [move=> a b|split=> // i j].
  + rewrite wf /= !mxE (inj_eq fi) last_at_in //=; case: eqP => [->|] /=; first by rewrite !mulr1n.
    by rewrite !mulr0n.
  + rewrite !mxE; case: eqP => [<-|] /=; last by rewrite !mulr0n.
    by rewrite andbb -(sl_in le) => ni; rewrite last_at_out.
- rewrite size_at_pos eqxx /=; eexists; split; first by [].
  split; [move=> a b|split=> // i j].
  + have ia : (val (sl_fun le a) \in at_pos (sl_fun le)) by rewrite in_at_pos; apply/existsP; exists a.
    by rewrite wf !mxE ia last_at_in // eqxx mulr1n.
  + rewrite !mxE -!(sl_in le) in_at_pos; case: [exists a, _ == i] => //= ni.
    by rewrite last_at_out.
- rewrite orbF in k0.
  have [cc ->] := setcliques_ok (sl_fun le) (kcl self') (kcount self') k0.
  rewrite /= size_at_pos eqxx /=; eexists; split; first by [].
  split; [move=> a b|split=> // i j].
  + by rewrite !mxE !last_at_in.
  + rewrite !mxE -!(sl_in le) negb_and; case ex: [exists a, _ == i] => /= nj; last by rewrite last_at_out ?ex.
    by rewrite (last_at_out nj); case: (last_at _ _ _).
Qed.

(** * A GP with selections *)
Section Sel.
Variable n : nat.
Definition no_sel : selblk n := @SelBlk n (fun _ => false) 0 0 0 (PhiD 0).
(** The selected TOAs, the first column of selection [p], and the matrix that
    picks the selected TOAs. *)
Definition sel_toas (b : selblk n) : seq 'I_n := [seq i <- enum 'I_n | sb_mask b i].
Definition sel_first (bs : seq (selblk n)) (p : nat) : nat := sumn (take p [seq sb_k b | b <- bs]).
Definition sel_pick (b : selblk n) : 'M[R]_(sb_m b, n) :=
  \matrix_(a, i) (nth n [seq val i | i <- sel_toas b] a == i)%:R.
Definition sel_shapes (bs : seq (selblk n)) : Prop := all (fun b => size (sel_toas b) == sb_m b) bs.

Lemma toas_fun (b : selblk n) : size (sel_toas b) = sb_m b ->
  exists g : 'I_(sb_m b) -> 'I_n, [/\ injective g, [seq val i | i <- sel_toas b] = at_pos g,
     sel_pick b = emx g & forall i, [exists a, g a == i] = sb_mask b i].
Proof.
move=> sz; have un : uniq (sel_toas b) by rewrite filter_uniq // enum_uniq.
have [g [gi e]] : exists g : 'I_(sb_m b) -> 'I_n, injective g /\ [seq val i | i <- sel_toas b] = at_pos g.
  apply: idx_fun; rewrite ?size_map //; last by rewrite map_inj_uniq //; apply: val_inj.
  by apply/allP=> c /mapP[i _ ->]; exact: ltn_ord.
exists g; split=> //.
  apply/matrixP=> a i; rewrite !mxE e (set_nth_default 0%N) ?size_at_pos // nth_at_pos.
  by congr (_ %:R); apply/eqP/eqP=> [/val_inj ->|->].
by move=> i; rewrite -in_at_pos -e (mem_map (@ord_inj n)) mem_filter mem_enum andbT.
Qed.

Lemma sel_first_le (bs : seq (selblk n)) p : (p < size bs)%N ->
  (sb_k (nth no_sel bs p) + sel_first bs p <= sel_ncol bs)%N.
Proof.
rewrite /sel_first /sel_ncol; elim: bs p => [|b bs IH] [|p] //= lt; first by rewrite addn0 leq_addr.
by rewrite addnCA leq_add2l; apply: IH.
Qed.
Lemma sel_find (bs : seq (selblk n)) (C : nat) : (C < sel_ncol bs)%N ->
  exists p c, [/\ (p < size bs)%N, (c < sb_k (nth no_sel bs p))%N & C = (sel_first bs p + c)%N].
Proof.
rewrite /sel_first /sel_ncol; elim: bs C => [|b bs IH] C //= lt.
case: (ltnP C (sb_k b)) => h; first by exists 0%N, C.
have [|p [c [pl cl e]]] := IH (C - sb_k b)%N; first lia.
by exists p.+1, c; split=> //=; lia.
Qed.
Lemma sel_disj (bs : seq (selblk n)) p q c d : (p < q)%N -> (q < size bs)%N ->
  (c < sb_k (nth no_sel bs p))%N -> (sel_first bs p + c < sel_first bs q + d)%N.
Proof.
rewrite /sel_first; elim: bs p q => [|b bs IH] [|p] [|q] //= pq qs cl; first lia.
by rewrite -!addnA ltn_add2l; apply: IH.
Qed.
Lemma sel_inj (bs : seq (selblk n)) p q c d : (p < size bs)%N -> (q < size bs)%N ->
  (c < sb_k (nth no_sel bs p))%N -> (d < sb_k (nth no_sel bs q))%N ->
  (sel_first bs p + c = sel_first bs q + d)%N -> p = q /\ c = d.
Proof.
move=> ps qs cp dq e; case: (ltngtP p q) => pq.
- by have := sel_disj d pq qs cp; rewrite e ltnn.
- by have := sel_disj c pq ps dq; rewrite e ltnn.
by split=> //; subst q; apply/eqP; rewrite -(eqn_add2l (sel_first bs p)) e.
Qed.

(** The fold, from column [off] on. *)
Lemma sel_fold N bs : forall off (T0 : 'M[R]_(n, N)), sel_shapes bs -> (off + sel_ncol bs <= N)%N ->
  exists T1, foldl (fun r (bl : selblk n * (nat * nat)) => rbind r (fun T => assign_block T bl.1 bl.2)) (Ok T0)
      (zip bs (sel_slices off bs)) = Ok T1
  /\ (forall i (C : 'I_N), (C < off)%N -> T1 i C = T0 i C)
  /\ (forall p, (p < size bs)%N -> forall (c : 'I_(sb_k (nth no_sel bs p))) (C : 'I_N) i,
       val C = (off + sel_first bs p + c)%N ->
       (sb_mask (nth no_sel bs p) i = false -> T1 i C = T0 i C)
       /\ forall a, nth n [seq val i | i <- sel_toas (nth no_sel bs p)] (val a) = i -> T1 i C = sb_F (nth no_sel bs p) a c).
Proof.
elim: bs => [|b bs IH] off T0 /=; first by move=> _ _; exists T0.
case/andP=> /eqP szb sh le; rewrite /sel_ncol /= -/(sel_ncol bs) in le.
have le1 : (sb_k b + off <= N)%N by lia.
have [g [gi eg _ gm]] := toas_fun szb.
have ea : assign_block T0 b (off, (sb_k b + off)%N) =
    Ok (\matrix_(i, c) (match last_at (sb_m b) (at_pos g) i, last_at (sb_k b) (at_pos (sl_fun le1)) c with
              | Some p, Some q => sb_F b p q | _, _ => T0 i c end)).
  by rewrite /assign_block -/(sel_toas b) eg size_at_pos eqxx (sl_pos le1) size_at_pos eqxx.
rewrite ea; set T' := \matrix_(_, _) _.
have [|T1 [-> [hlow hblk]]] := IH (sb_k b + off)%N T' sh; first lia.
exists T1; split=> //; split.
  move=> i C lt; rewrite hlow; last lia.
  rewrite mxE [last_at (sb_k b) _ _]last_at_out ?sl_in; first by case: (last_at _ _ _).
  by rewrite leqNgt lt.
have outb i (C : 'I_N) : (sb_k b + off <= C)%N -> T' i C = T0 i C.
  move=> lt; rewrite mxE [last_at (sb_k b) _ _]last_at_out ?sl_in; first by case: (last_at _ _ _).
  by rewrite andbC ltnNge lt.
move=> [|p] /= lt c C i.
  rewrite addn0 => eC; have lc := ltn_ord c; rewrite hlow; last lia.
  have CE : C = sl_fun le1 c by apply: val_inj; rewrite /= eC.
  split=> [mi|a ei]; first by rewrite mxE last_at_out // gm mi.
  have -> : i = g a.
    by apply: ord_inj; rewrite -ei /sel_toas eg (set_nth_default 0%N) ?size_at_pos // nth_at_pos.
  by rewrite mxE last_at_in // CE last_at_in //; exact: sl_inj.
rewrite /sel_first /= -/(sel_first bs p) => eC.
have eC' : val C = (sb_k b + off + sel_first bs p + c)%N by rewrite [val C]eC; lia.
have [h1 h2] := hblk p lt c C i eC'; split=> // mi; rewrite h1 //; apply: outb; move: eC' => /=; lia.
Qed.
End Sel.

Lemma selected_basis_lem : forall n (bs : seq (selblk n)), sel_shapes bs ->
  exists T, sel_basis bs = Ok T /\
  forall p, (p < size bs)%N -> let b := nth (no_sel n) bs p in
  forall (c : 'I_(sb_k b)) (C : 'I_(sel_ncol bs)) i, val C = (sel_first bs p + c)%N ->
    (sb_mask b i = false -> T i C = 0)
    /\ forall a, nth n [seq val i | i <- sel_toas b] (val a) = i -> T i C = sb_F b a c.
Proof.
move=> n bs sh; have [|T [e [_ H]]] := @sel_fold _ (sel_ncol bs) bs 0%N 0 sh; first by rewrite add0n.
exists T; split=> // p lt b c C i eC.
by have [h1 h2] := H p lt c C i eC; split=> // mi; rewrite h1 // mxE.
Qed.

(** Vector priors come before matrix priors, and the array kept from the last
    call is a vector if any prior is. *)
Definition vectors_first (n : nat) (bs : seq (selblk n)) (self_vector : bool) : bool :=
  all (fun b => ~~ is_vector (sb_phi b)) bs
  || self_vector && pairwise (fun b c => is_vector (sb_phi c) ==> is_vector (sb_phi b)) bs.
(** Entries of an array outside the blocks of the selections. *)
Definition blocks_only (n : nat) (bs : seq (selblk n)) (A : 'M[R]_(sel_ncol bs)) : Prop :=
  forall p q (C D : 'I_(sel_ncol bs)) c d, (p < size bs)%N -> (q < size bs)%N -> p <> q ->
    (c < sb_k (nth (no_sel n) bs p))%N -> (d < sb_k (nth (no_sel n) bs q))%N ->
    val C = (sel_first bs p + c)%N -> val D = (sel_first bs q + d)%N -> A C D = 0.

Section SelPhi.
Variable n : nat.
Lemma vectors_cons (b : selblk n) bs v : vectors_first (b :: bs) v ->
  (is_vector (sb_phi b) -> v) /\ vectors_first bs (v && is_vector (sb_phi b)).
Proof.
rewrite /vectors_first /=; case/orP=> [/andP[/negbTE -> ->]|/and3P[-> al ->]] //=.
split=> //; case vb: (is_vector (sb_phi b)); rewrite /= ?orbT // orbF.
by apply: sub_all al => c /=; rewrite vb implybF.
Qed.

Lemma phi_fold_sel N bs : forall off (K0 : kmat N), (off + sel_ncol bs <= N)%N ->
  all (fun b : selblk n => (0 < sb_k b)%N || is_vector (sb_phi b)) bs -> vectors_first bs (is_vector (kphi K0)) ->
  (forall i j : 'I_N, i != j -> is_vector (kphi K0) -> phi_mx (kphi K0) i j = 0) ->
  exists K1, foldl (fun r (bl : selblk n * (nat * nat)) =>
        rbind r (fun phi => kset phi (sb_phi bl.1) (KSlice bl.2.1 bl.2.2))) (Ok K0) (zip bs (sel_slices off bs)) = Ok K1
  /\ is_vector (kphi K1) = is_vector (kphi K0) && all (fun b => is_vector (sb_phi b)) bs
  /\ (forall C D : 'I_N, (forall p, (p < size bs)%N ->
         ~~ ((off + sel_first bs p <= C < off + sel_first bs p + sb_k (nth (no_sel n) bs p)) &&
             (off + sel_first bs p <= D < off + sel_first bs p + sb_k (nth (no_sel n) bs p)))%N) ->
         phi_mx (kphi K1) C D = phi_mx (kphi K0) C D)
  /\ (forall p, (p < size bs)%N -> forall (c d : 'I_(sb_k (nth (no_sel n) bs p))) (C D : 'I_N),
       val C = (off + sel_first bs p + c)%N -> val D = (off + sel_first bs p + d)%N ->
       phi_mx (kphi K1) C D = phi_mx (sb_phi (nth (no_sel n) bs p)) c d).
Proof.
elim: bs => [|b bs IH] off K0 le /=; first by move=> _ _ _; exists K0; rewrite andbT.
case/andP=> k0 pos vf vz; have [vb vf'] := vectors_cons vf; rewrite /sel_ncol /= -/(sel_ncol bs) in le.
have le1 : (sb_k b + off <= N)%N by lia.
have [|r [er [hin [hout hv]]]] := @kput_slice (fun _ y : R => y) _ _ _ le1 K0 (sb_phi b); first by rewrite k0.
have er' : kset K0 (sb_phi b) (KSlice off (sb_k b + off)) = Ok r by exact: er.
rewrite -hv in vf'; rewrite er'.
have inb a c : phi_mx (kphi r) (sl_fun le1 a) (sl_fun le1 c) = phi_mx (sb_phi b) a c.
  rewrite hin; case eb: (sb_phi b) vb => [w|B] //= vb; rewrite vb //=.
  case: eqP => // ac; rewrite phi_mxD; case: eqP => // _.
  by apply: vz; rewrite ?vb // (inj_eq (@sl_inj _ _ _ le1)); apply/eqP.
have [||K1 [-> [hv1 [hout1 hin1]]]] := IH (sb_k b + off)%N r _ pos vf'.
- lia.
- by move=> i j ij; case: (kphi r) => // v _; rewrite phi_mxD (negbTE ij).
exists K1; split=> //; split; first by rewrite hv1 hv andbA.
split.
  move=> C D H; rewrite hout1; first by apply: hout; have := H 0%N isT; rewrite /sel_first /= addn0 addnC.
  by move=> p lt; have := H p.+1 lt; rewrite /sel_first /= !addnA [(off + sb_k b)%N]addnC.
move=> [|p] /= lt c d C D.
  rewrite addn0 => eC eD; have := ltn_ord c; have := ltn_ord d => dl cl.
  rewrite hout1; last by move=> p pl; rewrite negb_and /= eC; apply/orP; left; lia.
  have -> : C = sl_fun le1 c by apply: ord_inj.
  have -> : D = sl_fun le1 d by apply: ord_inj.
  exact: inb.
rewrite /sel_first /= -/(sel_first bs p) => eC eD; apply: hin1 => //; rewrite ?[val C]eC ?[val D]eD; lia.
Qed.
End SelPhi.

Lemma selected_prior_lem : forall n (bs : seq (selblk n)) (self : kmat (sel_ncol bs)),
  all (fun b => (0 < sb_k b)%N || is_vector (sb_phi b)) bs -> vectors_first bs (is_vector (kphi self)) ->
  blocks_only (phi_mx (kphi self)) ->
  exists r, sel_phi self = Ok r /\ blocks_only (phi_mx (kphi r))
  /\ is_vector (kphi r) = is_vector (kphi self) && all (fun b => is_vector (sb_phi b)) bs
  /\ forall p, (p < size bs)%N -> let b := nth (no_sel n) bs p in
     forall (c d : 'I_(sb_k b)) (C D : 'I_(sel_ncol bs)),
       val C = (sel_first bs p + c)%N -> val D = (sel_first bs p + d)%N ->
       phi_mx (kphi r) C D = phi_mx (sb_phi b) c d.
Proof.
move=> n bs self pos vf bo.
have [||r [e [hv [hout hin]]]] := @phi_fold_sel n (sel_ncol bs) bs 0%N self _ pos vf.
- by rewrite add0n.
- by move=> i j ij; case: (kphi self) => // v _; rewrite phi_mxD (negbTE ij).
exists r; split; first exact: e.
split; last by split.
move=> p q C D c d ps qs pq cl dl eC eD; rewrite hout; first exact: (bo p q C D c d).
move=> s ss; apply/negP=> /andP[hC hD].
have [sp _] : s = p /\ (C - sel_first bs s)%N = c.
  by apply: (sel_inj ss ps _ cl); move: hC; rewrite add0n [val C]eC; lia.
have [sq _] : s = q /\ (D - sel_first bs s)%N = d.
  by apply: (sel_inj ss qs _ dl); move: hD; rewrite add0n [val D]eD; lia.
by case: pq; rewrite -sp.
Qed.

Lemma selected_covariance_lem : forall n (bs : seq (selblk n)) (self : kmat (sel_ncol bs)),
  sel_shapes bs -> all (fun b => (0 < sb_k b)%N || is_vector (sb_phi b)) bs ->
  vectors_first bs (is_vector (kphi self)) -> blocks_only (phi_mx (kphi self)) ->
  exists T r, sel_basis bs = Ok T /\ sel_phi self = Ok r
  /\ T *m phi_mx (kphi r) *m T^T =
     \sum_(p < size bs) (let b := nth (no_sel n) bs p in
        (sel_pick b)^T *m (sb_F b *m phi_mx (sb_phi b) *m (sb_F b)^T) *m sel_pick b)
  /\ forall i j, (forall p, (p < size bs)%N -> ~~ (sb_mask (nth (no_sel n) bs p) i && sb_mask (nth (no_sel n) bs p) j)) ->
     (T *m phi_mx (kphi r) *m T^T) i j = 0.
Proof.
move=> n bs self sh pos vf bo.
have [T [eT hT]] := selected_basis_lem sh.
have [r [er [br [_ hr]]]] := selected_prior_lem pos vf bo.
exists T, r; split=> //; split=> //.
pose bb p := nth (no_sel n) bs p.
pose E (p : 'I_(size bs)) := emx (sl_fun (sel_first_le (ltn_ord p))).
have szb (p : 'I_(size bs)) : size (sel_toas (bb p)) = sb_m (bb p).
  by apply/eqP; apply: (all_nth (no_sel n) sh (ltn_ord p)).
have TE (p : 'I_(size bs)) : T *m (E p)^T = (sel_pick (bb p))^T *m sb_F (bb p).
  apply/matrixP=> i c; have [g [gi eg -> gm]] := toas_fun (szb p).
  rewrite !mxE (bigD1 (sl_fun (sel_first_le (ltn_ord p)) c)) //= big1 => [|D Dc]; last first.
    by rewrite !mxE eq_sym (negbTE Dc) mulr0.
  rewrite addr0 !mxE eqxx mulr1.
  have [h1 h2] := hT p (ltn_ord p) c (sl_fun (sel_first_le (ltn_ord p)) c) i erefl.
  case mi: (sb_mask (bb p) i); last first.
    rewrite h1 // big1 // => a _; rewrite !mxE; have := gm i; rewrite mi => /negbT/existsPn/(_ a)/negbTE ->.
    by rewrite mul0r.
  have /existsP[a /eqP ga] : [exists a, g a == i] by rewrite gm.
  rewrite (h2 a); last first.
    have -> : [seq val i | i <- sel_toas (nth (no_sel n) bs p)] = at_pos g by exact: eg.
    rewrite (set_nth_default 0%N) ?size_at_pos ?nth_at_pos ?ga //; exact: ltn_ord.
  rewrite (bigD1 a) //= big1 => [|a' aa]; first by rewrite addr0 !mxE ga eqxx mul1r.
  by rewrite !mxE -ga (inj_eq gi) (negbTE aa) mul0r.
have PE (p q : 'I_(size bs)) : E p *m phi_mx (kphi r) *m (E q)^T =
    if p == q then E p *m (E p)^T *m (phi_mx (sb_phi (bb p)) *m (E p *m (E q)^T)) else 0.
  apply/matrixP=> c d.
  have -> : (E p *m phi_mx (kphi r) *m (E q)^T) c d =
      phi_mx (kphi r) (sl_fun (sel_first_le (ltn_ord p)) c) (sl_fun (sel_first_le (ltn_ord q)) d).
    rewrite mxE (bigD1 (sl_fun (sel_first_le (ltn_ord q)) d)) //= big1 => [|D Dd]; last first.
      by rewrite [_^T _ _]mxE [E q _ _]mxE eq_sym (negbTE Dd) mulr0.
    rewrite addr0 [_^T _ _]mxE [E q _ _]mxE eqxx mulr1 mxE (bigD1 (sl_fun (sel_first_le (ltn_ord p)) c)) //= big1 => [|D Dd].
      by rewrite addr0 [E p _ _]mxE eqxx mul1r.
    by rewrite [E p _ _]mxE eq_sym (negbTE Dd) mul0r.
  case: eqP => [pq|pq]; last by rewrite mxE; apply: (br p q _ _ c d) => // e; apply: pq; apply: ord_inj.
  subst q; have EE : E p *m (E p)^T = 1%:M.
    apply/matrixP=> a b; rewrite !mxE (bigD1 (sl_fun (sel_first_le (ltn_ord p)) a)) //= big1 => [|D Da].
      by rewrite addr0 !mxE eqxx mul1r (inj_eq (@sl_inj _ _ _ _)) eq_sym.
    by rewrite !mxE eq_sym (negbTE Da) mul0r.
  by rewrite EE mul1mx mulmx1; apply: hr.
have E1 : \sum_p (E p)^T *m E p = 1%:M.
  apply/matrixP=> C D; rewrite summxE mxE.
  have [p [c [pl cl eC]]] := sel_find (ltn_ord C).
  have CE : C = sl_fun (sel_first_le pl) (Ordinal cl) by apply: ord_inj.
  rewrite (bigD1 (Ordinal pl)) //= big1 => [|q qp]; last first.
    rewrite mxE big1 // => a _; rewrite !mxE; case: eqP => [e|_]; last by rewrite mul0r.
    have /= e' := congr1 (@nat_of_ord _) e; rewrite eC in e'.
    have [] := sel_inj (ltn_ord q) pl (ltn_ord a) cl e' => qe _.
    by case/eqP: qp; apply: ord_inj.
  rewrite addr0 mxE (bigD1 (Ordinal cl)) //= big1 => [|a ac].
    rewrite addr0 !mxE (_ : sl_fun _ _ = C) ?eqxx ?mul1r //.
    by apply: ord_inj; rewrite eC.
  rewrite !mxE; case: eqP => [e|_]; last by rewrite mul0r.
  have /= e' := congr1 (@nat_of_ord _) e; rewrite eC in e'; case/eqP: ac; apply: ord_inj; exact: (addnI e').
have EE (p : 'I_(size bs)) : E p *m (E p)^T = 1%:M.
  apply/matrixP=> a b; rewrite !mxE (bigD1 (sl_fun (sel_first_le (ltn_ord p)) a)) //= big1 => [|D Da].
    by rewrite addr0 !mxE eqxx mul1r (inj_eq (@sl_inj _ _ _ _)) eq_sym.
  by rewrite !mxE eq_sym (negbTE Da) mul0r.
have main : T *m phi_mx (kphi r) *m T^T = \sum_(p < size bs) (sel_pick (bb p))^T *m (sb_F (bb p) *m phi_mx (sb_phi (bb p)) *m (sb_F (bb p))^T) *m sel_pick (bb p).
  rewrite -[T *m _](mulmx1) -E1 mulmx_sumr mulmx_suml; apply: eq_bigr => q _.
  rewrite -{1}[T]mulmx1 -E1 mulmx_sumr !mulmx_suml (bigD1 q) //= big1 => [|p pq]; last first.
    rewrite -!mulmxA [E p *m _]mulmxA mulmxA.
    rewrite -!mulmxA; have := PE p q; rewrite (negbTE pq) => z.
    by rewrite (mulmxA (E p)) (mulmxA (E p *m _)) z !(mul0mx, mulmx0).
  rewrite addr0 -!mulmxA (mulmxA (E q)) (mulmxA (E q *m _)) PE eqxx !EE mul1mx mulmx1.
  rewrite mulmxA TE -!mulmxA; congr (_ *m _); congr (_ *m _); congr (_ *m _).
  by rewrite -[E q]trmxK -trmx_mul TE trmx_mul trmxK.
split=> // i j H; rewrite main summxE big1 // => p _.
have [g [gi eg -> gm]] := toas_fun (szb p); have := H p (ltn_ord p); rewrite -/(bb p) -!gm negb_and.
by case/orP=> h; rewrite ?(emx_entry_l _ _ h) ?(emx_entry_r _ _ h).
Qed.

(** * KernelMatrix.add and set *)
Lemma vec_old N k (self : kmat N) (other : phi_t k) (f : 'I_k -> 'I_N) a b : injective f ->
  is_vector other -> is_vector (kphi self) -> a != b ->
  phi_mx (kphi self) (f a) (f b) = 0 /\ phi_mx other a b = 0.
Proof.
move=> fi; case: other => // w _; case: (kphi self) => // v _ ab.
by rewrite !phi_mxD (inj_eq fi) (negbTE ab).
Qed.

Lemma kernel_add_lem : forall N k (self : kmat N) (other : phi_t k) (f : 'I_k -> 'I_N),
  injective f -> (0 < k)%N ->
  exists r, kadd self other (KArr (at_pos f)) = Ok r
    /\ (forall a b, phi_mx (kphi r) (f a) (f b) = phi_mx (kphi self) (f a) (f b) + phi_mx other a b)
    /\ (forall i j, (forall a, f a <> i) \/ (forall b, f b <> j) -> phi_mx (kphi r) i j = phi_mx (kphi self) i j)
    /\ is_vector (kphi r) = is_vector (kphi self) && is_vector other.
Proof.
move=> N k self other f fi k0; have [r [e [hin [hout hv]]]] := kput_arr (fun x y => x + y) self other fi k0.
exists r; split; first exact: e.
split; last first.
  split=> // i j h; apply: hout; rewrite negb_and; case: h => h; apply/orP; [left|right]; apply/existsPn=> a; apply/eqP; exact: h.
move=> a b; rewrite hin; case: ifP => // /andP[ov ab]; clear -ov ab.
by case: other ov => // w _; rewrite phi_mxD (negbTE ab) addr0.
Qed.

Lemma kernel_set_lem : forall N k (self : kmat N) (other : phi_t k) (f : 'I_k -> 'I_N),
  injective f -> (0 < k)%N ->
  exists r, kset self other (KArr (at_pos f)) = Ok r
    /\ (forall a b, phi_mx (kphi r) (f a) (f b) =
          if [&& is_vector other, ~~ is_vector (kphi self) & a != b]
          then phi_mx (kphi self) (f a) (f b) else phi_mx other a b)
    /\ (forall i j, (forall a, f a <> i) \/ (forall b, f b <> j) -> phi_mx (kphi r) i j = phi_mx (kphi self) i j)
    /\ is_vector (kphi r) = is_vector (kphi self) && is_vector other.
Proof.
move=> N k self other f fi k0; have [r [e [hin [hout hv]]]] := kput_arr (fun _ y => y) self other fi k0.
exists r; split; first exact: e.
split; last first.
  split=> // i j h; apply: hout; rewrite negb_and; case: h => h; apply/orP; [left|right]; apply/existsPn=> a; apply/eqP; exact: h.
move=> a b; rewrite hin; case ov: (is_vector other) => //=; case ab: (a != b); rewrite ?andbF //= andbT.
case sv: (is_vector (kphi self)) => //=.
by have [-> ->] := vec_old fi ov sv ab.
Qed.

Lemma kernel_slice_lem : forall N k off (self : kmat N) (other : phi_t k),
  (k + off <= N)%N -> (0 < k)%N ->
  exists r s, kadd self other (KSlice off (k + off)) = Ok r /\ kset self other (KSlice off (k + off)) = Ok s
    /\ (forall (a b : 'I_k) (i j : 'I_N), val i = (off + a)%N -> val j = (off + b)%N ->
        if is_vector other && ~~ is_vector (kphi self)
        then phi_mx (kphi r) i j = phi_mx (kphi self) i j + phi_mx other b b /\ phi_mx (kphi s) i j = phi_mx other b b
        else phi_mx (kphi r) i j = phi_mx (kphi self) i j + phi_mx other a b /\ phi_mx (kphi s) i j = phi_mx other a b)
    /\ (forall i j : 'I_N, ~~ ((off <= i < k + off)%N && (off <= j < k + off)%N) ->
        phi_mx (kphi r) i j = phi_mx (kphi self) i j /\ phi_mx (kphi s) i j = phi_mx (kphi self) i j).
Proof.
move=> N k off self other le k0.
have [|r [er [ri [ro _]]]] := @kput_slice (fun x y => x + y) _ _ _ le self other; first by rewrite k0.
have [|s [es [si [so _]]]] := @kput_slice (fun _ y => y) _ _ _ le self other; first by rewrite k0.
exists r, s; split; first exact: er.
split; first exact: es.
split; last by move=> i j h; rewrite ro // so.
move=> a b i j ei ej.
have -> : i = sl_fun le a by apply: ord_inj.
have -> : j = sl_fun le b by apply: ord_inj.
rewrite ri si; clear er es ri si ro so.
case: other => [w|B] //=; case sv: (is_vector (kphi self)) => //=.
case ab: (a == b) => //=.
by have [-> ->] := @vec_old N k self (PhiD w) _ a b (@sl_inj _ _ _ le) isT sv (negbT ab); rewrite addr0.
Qed.

(** * The provisos are needed *)
Definition share_fails (n : nat) (sigs : seq (bsig n)) (idxs : seq (seq nat)) : Prop :=
  exists (T : 'M[R]_(n, size (undup (flatten idxs)))) phi,
    foldl (fun r si => rbind r (fun T => assign_cols T (bF si.1) si.2)) (Ok 0) (zip sigs idxs) = Ok T
    /\ foldl (fun r si => rbind r (fun phi => kadd phi (bphi si.1) (KArr si.2))) (Ok (kzeros _)) (zip sigs idxs) = Ok phi
    /\ T *m phi_mx (kphi phi) *m T^T <> \sum_(s <- sigs) bF s *m phi_mx (bphi s) *m (bF s)^T.
Lemma share_failsE n (hash : 'cV[R]_n -> nat) (sigs : seq (bsig n)) idxs :
  (0 < size sigs)%N -> combine_idx hash sigs = idxs -> share_fails sigs idxs ->
  exists T phi, coll_basis hash sigs = Ok (Some T) /\ coll_phi hash sigs = Ok (Some phi) /\
    T *m phi_mx (kphi phi) *m T^T <> \sum_(s <- sigs) bF s *m phi_mx (bphi s) *m (bF s)^T.
Proof.
move=> s0 e; rewrite -e => -[T [phi [eT [ep ne]]]]; exists T, phi.
by rewrite coll_basisE // coll_phiE //; rewrite /combine_ncol eT ep.
Qed.

Definition sig1 (x : R) (par comb : bool) : bsig 1 := @BSig 1 1 (const_mx x) (PhiD (const_mx 1)) par comb.
Definition hash1 (c : 'cV[R]_1) : nat := if c ord0 ord0 == 1 then 0%N else 1%N.
Lemma hash1_inj x y : (x = 1 :> R \/ x = 2%:R) -> (y = 1 \/ y = 2%:R) -> hash1 (const_mx x) = hash1 (const_mx y) -> x = y.
Proof.
have n2 : (2%:R == 1 :> R) = false by rewrite -[1]/(1%:R) eqr_nat.
by rewrite /hash1 !mxE => -[->|->] [->|->] //; rewrite ?eqxx ?n2.
Qed.
Lemma last_at1 c d : last_at 1 [:: c] d = if c == d then Some ord0 else None.
Proof.
rewrite /last_at; case: pickP => [a|/(_ ord0)] /=; first by rewrite (ord1 a) /=; case: eqP.
case: eqP => //= _; case/negbT/forallPn=> b; by rewrite (ord1 b).
Qed.
Lemma columns1 x par comb : columns (sig1 x par comb) = [:: const_mx x].
Proof. by rewrite /columns /= enum_I1 /=; congr [:: _]; apply/colP=> i; rewrite !mxE. Qed.
Lemma T_sig1 x par comb :
  bF (sig1 x par comb) *m phi_mx (bphi (sig1 x par comb)) *m (bF (sig1 x par comb))^T = const_mx (x * x).
Proof. by apply/matrixP=> i j; rewrite !mxE big_ord1 !mxE big_ord1 !mxE eqxx mulr1n mulr1. Qed.

Lemma sig1_fixed hash hl cc idxs x comb : sig_step hash (hl, cc, idxs) (sig1 x false comb) =
  if comb && (hash (const_mx x) \in hl) then (hl, cc, rcons idxs [:: index (hash (const_mx x)) hl])
  else (rcons hl (hash (const_mx x)), cc.+1, rcons idxs [:: cc]).
Proof. by rewrite /sig_step [bpar _]/= -/(columns _) columns1 /=; case: ifP. Qed.
Lemma sig1_par hash hl cc idxs x comb : sig_step hash (hl, cc, idxs) (sig1 x true comb) = (hl, cc.+1, rcons idxs [:: cc]).
Proof. by rewrite /sig_step /= addn1. Qed.

Definition sigs_par : seq (bsig 1) := [:: sig1 2%:R true true; sig1 1 false true; sig1 1 false true].
Lemma idx_par : combine_idx hash1 sigs_par = [:: [:: 0%N]; [:: 1%N]; [:: 0%N]].
Proof.
by rewrite /combine_idx /sigs_par; cbn [foldl]; rewrite sig1_par sig1_fixed andbF sig1_fixed /= inE eqxx /=.
Qed.
Lemma share_par : share_fails sigs_par [:: [:: 0%N]; [:: 1%N]; [:: 0%N]].
Proof.
pose T : 'M[R]_(1, 2) := const_mx 1.
pose P : 'cV[R]_2 := \col_i (if i == 0 then 2%:R else 1).
exists T, (KMat (PhiD P) (fun _ => None) 0); split; last split.
- rewrite /= /assign_cols /=; congr Ok; apply/matrixP=> i c; rewrite !mxE !last_at1.
  by case: c => -[|[|//]] ? /=; rewrite ?mxE.
- rewrite /= /kadd /kput /=; congr Ok; congr (KMat (PhiD _) _ _); apply/matrixP=> i j; rewrite !mxE !last_at1.
  by case: i => -[|[|//]] ? /=; rewrite ?mxE ?add0r //=.
rewrite !big_cons big_nil !T_sig1 => /matrixP/(_ ord0 ord0); rewrite !mxE /= !big_ord_recl big_ord0 !mxE.
rewrite !big_ord_recl !big_ord0 !mxE /=.
rewrite ?mulr1n ?mulr0n ?mul1r ?mulr1 ?mulr0 ?addr0 ?add0r.
by move/eqP; rewrite -[1]/(1%:R : R) -!natrM -!natrD eqr_nat.
Qed.
Definition sigs_col : seq (bsig 1) := [:: sig1 1 false true; sig1 2%:R false true].
Lemma idx_col : combine_idx (fun _ => 0%N) sigs_col = [:: [:: 0%N]; [:: 0%N]].
Proof. by rewrite /combine_idx /sigs_col; cbn [foldl]; rewrite sig1_fixed andbF sig1_fixed. Qed.
Lemma share_col : share_fails sigs_col [:: [:: 0%N]; [:: 0%N]].
Proof.
pose T : 'M[R]_(1, 1) := const_mx 2%:R.
pose P : 'cV[R]_1 := const_mx 2%:R.
exists T, (KMat (PhiD P) (fun _ => None) 0); split; last split.
- rewrite /= /assign_cols /=; congr Ok; apply/matrixP=> i c; rewrite !mxE !last_at1.
  by rewrite (ord1 c) /= !mxE.
- rewrite /= /kadd /kput /=; congr Ok; congr (KMat (PhiD _) _ _); apply/matrixP=> i j; rewrite !mxE !last_at1.
  by rewrite (ord1 i) /= !mxE add0r.
rewrite !big_cons big_nil !T_sig1 => /matrixP/(_ ord0 ord0); rewrite !mxE /= !big_ord_recl big_ord0 !mxE.
rewrite !big_ord_recl !big_ord0 !mxE /=.
rewrite ?mulr1n ?mulr0n ?mul1r ?mulr1 ?mulr0 ?addr0 ?add0r.
by move/eqP; rewrite -!natrM -mulrS eqr_nat.
Qed.

Definition sig_rep : bsig 1 := @BSig 1 2 (const_mx 1) (PhiD (const_mx 1)) false true.
Lemma enum_I2 : enum 'I_2 = [:: ord0; lift ord0 ord0].
Proof. by apply: (inj_map val_inj); rewrite val_enum_ord. Qed.
Lemma columns_rep : columns sig_rep = [:: const_mx 1; const_mx 1].
Proof. by rewrite /columns /= enum_I2 /=; congr [:: _; _]; apply/colP=> i; rewrite !mxE. Qed.
Lemma idx_rep hash : combine_idx hash [:: sig_rep] = [:: [:: 0%N; 0%N]].
Proof. by rewrite /combine_idx /=; rewrite -/(columns sig_rep) columns_rep /= inE eqxx /=. Qed.
Lemma last_at_rep : last_at 2 [:: 0%N; 0%N] 0 = Some (lift ord0 ord0).
Proof.
rewrite /last_at; case: pickP => [a|/(_ (lift ord0 ord0))] /=.
  case/andP=> _ /forallP/(_ (lift ord0 ord0)); case: (unliftP ord0 a) => [j ->|->] //= _.
  by rewrite (ord1 j).
move/negbT/forallPn=> [b]; rewrite negb_imply negbK => /andP[lt _].
by move: lt (ltn_ord b); case: (nat_of_ord b) => [|[|m]].
Qed.
Lemma share_rep : share_fails [:: sig_rep] [:: [:: 0%N; 0%N]].
Proof.
pose T : 'M[R]_(1, 1) := const_mx 1.
pose P : 'cV[R]_1 := const_mx 1.
exists T, (KMat (PhiD P) (fun _ => None) 0); split; last split.
- rewrite /= /assign_cols /=; congr Ok; apply/matrixP=> i c; rewrite !mxE.
  by rewrite (ord1 c) last_at_rep !mxE.
- rewrite /= /kadd /kput /=; congr Ok; congr (KMat (PhiD _) _ _); apply/matrixP=> i j; rewrite !mxE.
  by rewrite (ord1 i) last_at_rep /= !mxE add0r.
rewrite !big_cons big_nil => /matrixP/(_ ord0 ord0); rewrite !mxE /= !big_ord_recl !big_ord0 !mxE.
rewrite !big_ord_recl !big_ord0 !mxE /=.
rewrite ?mulr1n ?mulr0n ?mul1r ?mulr1 ?mulr0 ?addr0 ?add0r.
by move/eqP; rewrite -[1]/(1%:R : R) -!natrD eqr_nat.
Qed.

Lemma in_sigs_par : no_collision hash1 sigs_par.
Proof.
move=> x y; rewrite /sigs_par /= !columns1 /= !inE => hx hy.
have [vx [ex dx]] : exists v : R, x = const_mx v /\ (v = 1 \/ v = 2%:R).
  by case/or3P: hx => /eqP ->; [exists 2%:R|exists 1|exists 1]; split=> //; [right|left|left].
have [vy [ey dy]] : exists v : R, y = const_mx v /\ (v = 1 \/ v = 2%:R).
  by case/or3P: hy => /eqP ->; [exists 2%:R|exists 1|exists 1]; split=> //; [right|left|left].
by rewrite ex ey => /(hash1_inj dx dy) ->.
Qed.
Lemma uniq1 (T : eqType) (x : T) : uniq [:: x].
Proof. by []. Qed.

Lemma combine_order_refuted_lem : exists n (hash : 'cV[R]_n -> nat) (sigs : seq (bsig n)) T phi,
  (no_collision hash sigs /\ no_repeats sigs /\ all (fun s => (0 < bk s)%N) sigs)
  /\ coll_basis hash sigs = Ok (Some T) /\ coll_phi hash sigs = Ok (Some phi)
  /\ T *m phi_mx (kphi phi) *m T^T <> \sum_(s <- sigs) bF s *m phi_mx (bphi s) *m (bF s)^T.
Proof.
exists 1%N, hash1, sigs_par; have [//|T [phi h]] := share_failsE _ idx_par share_par.
exists T, phi; split=> //; split; first exact: in_sigs_par.
by split=> //; rewrite /no_repeats /sigs_par /= !columns1.
Qed.
Lemma combine_collision_refuted_lem : exists n (hash : 'cV[R]_n -> nat) (sigs : seq (bsig n)) T phi,
  (fixed_first sigs /\ no_repeats sigs /\ all (fun s => (0 < bk s)%N) sigs)
  /\ coll_basis hash sigs = Ok (Some T) /\ coll_phi hash sigs = Ok (Some phi)
  /\ T *m phi_mx (kphi phi) *m T^T <> \sum_(s <- sigs) bF s *m phi_mx (bphi s) *m (bF s)^T.
Proof.
exists 1%N, (fun _ => 0%N), sigs_col; have [//|T [phi h]] := share_failsE _ idx_col share_col.
by exists T, phi; split=> //; split=> //; split=> //; rewrite /no_repeats /sigs_col /= !columns1.
Qed.
Lemma combine_repeats_refuted_lem : exists n (hash : 'cV[R]_n -> nat) (sigs : seq (bsig n)) T phi,
  (no_collision hash sigs /\ fixed_first sigs /\ all (fun s => (0 < bk s)%N) sigs)
  /\ coll_basis hash sigs = Ok (Some T) /\ coll_phi hash sigs = Ok (Some phi)
  /\ T *m phi_mx (kphi phi) *m T^T <> \sum_(s <- sigs) bF s *m phi_mx (bphi s) *m (bF s)^T.
Proof.
exists 1%N, hash1, [:: sig_rep]; have [//|T [phi h]] := share_failsE _ (idx_rep hash1) share_rep.
exists T, phi; split=> //; split=> // x y; rewrite /= columns_rep /= !inE !orbb => /eqP -> /eqP -> //.
Qed.
Lemma combine_sharing_refuted_lem : exists n (hash : 'cV[R]_n -> nat) (sigs : seq (bsig n)) p q a b,
  no_collision hash sigs /\ (p < q)%N /\ (q < size sigs)%N
  /\ (a < bk (nth (no_sig n) sigs p))%N /\ (b < bk (nth (no_sig n) sigs q))%N
  /\ nth 0%N (nth [::] (combine_idx hash sigs) p) a = nth 0%N (nth [::] (combine_idx hash sigs) q) b
  /\ nth 0 (columns (nth (no_sig n) sigs p)) a <> nth 0 (columns (nth (no_sig n) sigs q)) b.
Proof.
exists 1%N, hash1, sigs_par, 0%N, 2%N, 0%N, 0%N; rewrite idx_par; split; first exact: in_sigs_par.
do 5 split=> //; rewrite ![nth _ sigs_par _]/= !columns1 /= => /matrixP/(_ ord0 ord0); rewrite !mxE.
by move/eqP; rewrite (eqr_nat _ 2 1).
Qed.

Lemma kernel_slice_diagonal_refuted_lem : exists N k off (self : kmat N) (other : phi_t k) r (i j : 'I_N),
  (k + off <= N)%N /\ is_vector other /\ kadd self other (KSlice off (k + off)) = Ok r
  /\ i <> j /\ phi_mx (kphi r) i j <> phi_mx (kphi self) i j.
Proof.
have [//|//|r [s [er [_ [hin _]]]]] := @kernel_slice_lem 2 2 0 (knew (PhiM 0)) (PhiD (const_mx 1)).
exists 2%N, 2%N, 0%N, (knew (PhiM 0)), (PhiD (const_mx 1)), r, ord0, (lift ord0 ord0).
split=> //; split=> //; split; first exact: er.
split=> //; have [-> _] := hin ord0 (lift ord0 ord0) ord0 (lift ord0 ord0) erefl erefl.
rewrite phi_mxD eqxx !mxE add0r; exact/eqP/oner_neq0.
Qed.

(** A vector prior with two columns followed by a matrix prior with one. *)
Definition mixed_sel : seq (selblk 2) :=
  [:: @SelBlk 2 (fun i => i == ord0) 1 2 (const_mx 1) (PhiD (const_mx 1));
      @SelBlk 2 (fun i => i != ord0) 1 1 (const_mx 1) (PhiM (const_mx 1))].
Lemma mixed_zeros : blocks_only (bs := mixed_sel) (phi_mx (kphi (kzeros _))).
Proof. by move=> *; rewrite phi_mxD !mxE if_same. Qed.
Lemma selected_prior_second_call_refuted_lem : exists n (bs : seq (selblk n)) r r2 (C D : 'I_(sel_ncol bs)) (c d : 'I_(sb_k (nth (no_sel n) bs 0))),
  sel_phi (kzeros (sel_ncol bs)) = Ok r /\ sel_phi r = Ok r2
  /\ val C = (sel_first bs 0 + c)%N /\ val D = (sel_first bs 0 + d)%N
  /\ phi_mx (kphi r) C D = phi_mx (sb_phi (nth (no_sel n) bs 0)) c d
  /\ phi_mx (kphi r2) C D <> phi_mx (sb_phi (nth (no_sel n) bs 0)) c d.
Proof.
have [//|//||r [er [_ [hv hin]]]] := @selected_prior_lem 2 mixed_sel (kzeros _).
  exact: mixed_zeros.
have [//|//|s' [s [_ [es [hs _]]]]] := @kernel_slice_lem 3 2 0 r (PhiD (const_mx 1)).
have [//|//|s2' [s2 [_ [es2 [_ hs2]]]]] := @kernel_slice_lem 3 1 2 s (PhiM (const_mx 1)).
exists 2%N, mixed_sel, r, s2, ord0, (lift ord0 ord0), ord0, (lift ord0 ord0).
split; first exact: er.
split.
  rewrite /sel_phi /= (_ : kset r _ _ = Ok s) //=; exact: es2.
do 2 split=> //; split; first exact: (hin 0%N).
have [//|_ ->] := hs2 ord0 (lift ord0 ord0).
have := hs ord0 (lift ord0 ord0) ord0 (lift ord0 ord0) erefl erefl; rewrite hv /= => -[_ ->].
by rewrite !phi_mxD eqxx /= mxE; apply/eqP/oner_neq0.
Qed.

(** * Examples *)
Definition sigs_ok : seq (bsig 1) := [:: sig1 1 false true; sig1 1 false true; sig1 2%:R true true].
Lemma ex_combine : no_collision hash1 sigs_ok /\ fixed_first sigs_ok /\ no_repeats sigs_ok /\
  all (fun s => (0 < bk s)%N) sigs_ok /\ (0 < size sigs_ok)%N /\
  combine_idx hash1 sigs_ok = [:: [:: 0%N]; [:: 0%N]; [:: 1%N]].
Proof.
split.
  move=> x y hx hy; apply: in_sigs_par; [move: hx|move: hy]; rewrite /sigs_ok /sigs_par /= !columns1 /= !inE;
  by do 2 case: (_ == _); rewrite ?orbT.
split=> //; split; first by rewrite /no_repeats /sigs_ok /= !columns1.
do 2 split=> //.
by rewrite /combine_idx /sigs_ok; cbn [foldl]; rewrite sig1_fixed andbF sig1_fixed /= inE eqxx /=.
Qed.
Lemma ex_positions : injective (fun a : 'I_2 => lift (@ord0 2) a) /\ (0 < 2)%N.
Proof. by split=> // a b /lift_inj. Qed.
Lemma ex_selected : sel_shapes mixed_sel /\ all (fun b => (0 < sb_k b)%N || is_vector (sb_phi b)) mixed_sel /\
  vectors_first mixed_sel (is_vector (kphi (kzeros (sel_ncol mixed_sel)))) /\
  blocks_only (bs := mixed_sel) (phi_mx (kphi (kzeros (sel_ncol mixed_sel)))).
Proof.
split; last by do 2 split=> //; exact: mixed_zeros.
by rewrite /sel_shapes /mixed_sel /= /sel_toas enum_I2.
Qed.
Lemma ex_sharing : (0 < 1)%N /\ (1 < size sigs_ok)%N /\
  nth 0%N (nth [::] (combine_idx hash1 sigs_ok) 0) 0 = nth 0%N (nth [::] (combine_idx hash1 sigs_ok) 1) 0.
Proof. by have [_ [_ [_ [_ [_ ->]]]]] := ex_combine. Qed.
Lemma ex_distinct : uniq (columns (nth (no_sig 1) sigs_ok 1)).
Proof. by rewrite /= columns1. Qed.
