From Coq Require Import Reals String.
From mathcomp Require Import all_ssreflect all_algebra.
From mathcomp Require Import zify.
From Verif Require Import RStruct PyBase ModelLinalg ProofLinalg ModelNoise ProofNoise ModelLike ProofLike ModelKernel ProofKernel ModelPhi.
Set Implicit Arguments.
Unset Strict Implicit.
Unset Printing Implicit Defensive.
Import GRing.Theory Num.Theory Order.TTheory.
Local Open Scope ring_scope.

(** * Matrices that fall apart into blocks *)
Section Parts.
Variable N : nat.
Implicit Types (Phi Psi : 'M[R]_N) (p : seq 'I_N) (ps : seq (seq 'I_N)).

Definition subm p Phi : 'M[R]_(size p) := sel p *m Phi *m (sel p)^T.
Lemma sel_mul p m (X : 'M[R]_(N, m)) a j : (sel p *m X) a j = X (tnth (in_tuple p) a) j.
Proof. by rewrite -take_rowsE mxE. Qed.
Lemma mul_selT p m (X : 'M[R]_(m, N)) j a : (X *m (sel p)^T) j a = X j (tnth (in_tuple p) a).
Proof.
have -> : X *m (sel p)^T = (sel p *m X^T)^T by rewrite trmx_mul trmxK.
by rewrite mxE sel_mul mxE.
Qed.
Lemma submE p Phi a b : subm p Phi a b = Phi (tnth (in_tuple p) a) (tnth (in_tuple p) b).
Proof. by rewrite /subm mul_selT sel_mul. Qed.

Lemma selT_sel p i j : uniq p -> ((sel p)^T *m sel p) i j = ((i == j) && (i \in p))%:R.
Proof.
move=> U; rewrite mxE; case: (boolP (i \in p)) => ip; last first.
  rewrite andbF big1 // => a _; rewrite !mxE; case: eqP => [e|_]; last by rewrite mul0r.
  by move: ip; rewrite -e (mem_tnth a (in_tuple p)).
have [a ea] : exists a, tnth (in_tuple p) a = i by case/tnthP: (ip : i \in in_tuple p) => a ->; exists a.
rewrite andbT (bigD1 a) //= !mxE ea eqxx mul1r big1 ?addr0 // => b ba; rewrite !mxE.
case: eqP => [e|_]; last by rewrite mul0r.
by case/eqP: ba; move: e; rewrite -ea => /eqP; rewrite (tnth_nth i) (tnth_nth i) /= nth_uniq // => /eqP /ord_inj.
Qed.

(** [p] carries no entries to indices outside. *)
Definition apart Phi p : Prop := forall i j, (i \in p) != (j \in p) -> Phi i j = 0.

Lemma apart_l Phi p : uniq p -> apart Phi p -> sel p *m Phi = subm p Phi *m sel p.
Proof.
move=> U S; rewrite /subm -[RHS]mulmxA; apply/matrixP => a j; rewrite sel_mul.
rewrite mxE (bigD1 j) //= selT_sel // eqxx /= big1 ?addr0; last by move=> i ij; rewrite selT_sel // (negbTE ij) mulr0.
rewrite sel_mul; case: (boolP (j \in p)) => jp; first by rewrite mulr1.
by rewrite mulr0 S // (negbTE jp) (mem_tnth a (in_tuple p)).
Qed.

Lemma apart_tr Phi p : apart Phi p -> apart Phi^T p.
Proof. by move=> S i j ij; rewrite mxE S // eq_sym. Qed.

Lemma apart_unit Phi p : uniq p -> apart Phi p -> Phi \in unitmx ->
  subm p Phi \in unitmx /\ subm p (invmx Phi) = invmx (subm p Phi).
Proof.
move=> U S uP; have E := apart_l U S; have EE := sel_selT U.
have e1 : subm p Phi *m subm p (invmx Phi) = 1%:M.
  by rewrite {2}/subm 2!mulmxA -E mulmxK // EE.
have uB : subm p Phi \in unitmx by case: (mulmx1_unit e1).
by split=> //; rewrite -[LHS](mulKmx uB) e1 mulmx1.
Qed.
Lemma apart_row Phi p i j : uniq p -> apart Phi p -> Phi \in unitmx -> i \in p -> j \notin p -> invmx Phi i j = 0.
Proof.
move=> U S uP ip jp; have [uB _] := apart_unit U S uP.
have e2 : sel p *m invmx Phi = invmx (subm p Phi) *m sel p.
  by rewrite -{1}(mulKmx uB (sel p)) -(apart_l U S) mulmxA mulmxK.
have [a ea] : exists a, tnth (in_tuple p) a = i by case/tnthP: (ip : i \in in_tuple p) => a ->; exists a.
have -> : invmx Phi i j = (sel p *m invmx Phi) a j by rewrite sel_mul ea.
rewrite e2 mxE big1 // => b _; rewrite [sel p b j]mxE; case: eqP => [e|_]; last by rewrite mulr0.
by move: jp; rewrite -e (mem_tnth b (in_tuple p)).
Qed.
Lemma apart_inv Phi p : uniq p -> apart Phi p -> Phi \in unitmx -> apart (invmx Phi) p.
Proof.
move=> U S uP i j; case ip: (i \in p); case jp: (j \in p) => // _; first by apply: (@apart_row _ p) => //; rewrite jp.
have -> : invmx Phi i j = (invmx Phi^T) j i by rewrite -trmx_inv mxE.
apply: (@apart_row _ p) => //; [exact: apart_tr|by rewrite unitmx_tr|by rewrite ip].
Qed.

(** Determinant. *)
Lemma one_plus (Z S : 'M[R]_N) : Z *m S = 0 -> 1%:M + (Z + S) = (1%:M + Z) *m (1%:M + S).
Proof. by move=> ZS; rewrite mulmxDl mul1mx mulmxDr mulmx1 ZS addr0 -addrA [Z + S]addrC. Qed.
Lemma glue_det ps (B : forall p, 'M[R]_(size p)) : uniq (flatten ps) ->
  \det (1%:M + \sum_(p <- ps) (sel p)^T *m (B p - 1%:M) *m sel p) = \prod_(p <- ps) \det (B p).
Proof.
elim: ps => [|p ps IH]; first by rewrite !big_nil addr0 det1.
rewrite /= cat_uniq => /and3P [Up D Us]; rewrite !big_cons -(IH Us).
set S := \sum_(q <- ps) _; set Z := _ *m _ *m _.
have ZS : Z *m S = 0.
  rewrite /S mulmx_sumr; apply: big1_seq => q /= qs; rewrite /Z !mulmxA -[X in X *m _ *m _]mulmxA ProofNoise.sel_disj ?mulmx0 ?mul0mx //.
  move=> i ip; apply/negP => iq; move/hasP: D; apply; exists i => //; apply/flattenP; by exists q.
rewrite (one_plus ZS).
rewrite det_mulmx; congr (_ * _); rewrite /Z -mulmxA det_sylvester ?unitmx1 // det1 mul1r invmx1 mulmx1.
by rewrite -mulmxA sel_selT // mulmx1 addrC subrK.
Qed.

Definition covers ps : Prop := uniq (flatten ps) /\ forall i : 'I_N, i \in flatten ps.


Lemma parts_sum ps (i : 'I_N) : covers ps -> (\sum_(p <- ps) (i \in p)%:R = 1 :> R).
Proof.
case=> U /(_ i); elim: ps U => [//|p ps IH] /=; rewrite cat_uniq mem_cat big_cons => /and3P [Up D Us].
case: (boolP (i \in p)) => ip /= h; last by rewrite add0r IH.
rewrite big1_seq ?addr0 // => q /= qs; case: (boolP (i \in q)) => // iq.
by move/hasP: D; case; exists i => //; apply/flattenP; exists q.
Qed.

Lemma glue_entry p (B : 'M[R]_(size p)) Phi i j : uniq p -> B = subm p Phi ->
  ((sel p)^T *m B *m sel p) i j = ((i \in p) && (j \in p))%:R * Phi i j.
Proof.
move=> U ->; rewrite /subm !mulmxA -2!mulmxA mxE (bigD1 i) //= selT_sel // eqxx big1 ?addr0; last first.
  by move=> k ki; rewrite selT_sel // eq_sym (negbTE ki) mul0r.
rewrite mxE (bigD1 j) //= selT_sel // eqxx big1 ?addr0; last first.
  by move=> k ki; rewrite selT_sel // (negbTE ki) mulr0.
by case: (_ \in p); case: (_ \in p); rewrite ?mul1r ?mulr1 ?mul0r ?mulr0.
Qed.

Lemma parts_det ps Phi : covers ps -> (forall p, p \in ps -> apart Phi p) ->
  \det Phi = \prod_(p <- ps) \det (subm p Phi).
Proof.
move=> C S; have [U H] := C; rewrite -glue_det //; congr (\det _).
have up p : p \in ps -> uniq p.
  elim: ps U {C S H} => //= q ps IH; rewrite cat_uniq in_cons => /and3P [Uq _ Us] /orP [/eqP ->|] //; exact: IH.
have -> : \sum_(p <- ps) (sel p)^T *m (subm p Phi - 1%:M) *m sel p = Phi - 1%:M; last by rewrite addrC subrK.
apply/matrixP => i j; rewrite summxE big_seq.
rewrite (eq_bigr (fun p => ((i \in p)%:R * (Phi - 1%:M) i j))); last first.
  move=> p pp; rewrite (@glue_entry p _ (Phi - 1%:M)); first last.
  - by rewrite /subm mulmxBr mulmxBl mulmx1 sel_selT // up.
  - exact: up.
  case: (boolP (i \in p)) => ip; last by rewrite mul0r.
  case: (boolP (j \in p)) => jp //=; rewrite mul0r !mxE mul1r (S p pp) ?ip ?(negbTE jp) //.
  by case: eqP => [e|_]; [move: jp; rewrite -e ip|rewrite subr0].
by rewrite -big_seq -mulr_suml parts_sum // mul1r.
Qed.

Lemma uniq_flatten (T : eqType) (f : T -> seq 'I_N) l : uniq l -> (forall x, x \in l -> uniq (f x)) ->
  (forall x y i, x \in l -> y \in l -> i \in f x -> i \in f y -> x = y) -> uniq (flatten [seq f x | x <- l]).
Proof.
elim: l => //= x l IH /andP [xl Ul] Uf D; rewrite cat_uniq; apply/and3P; split; first by apply: Uf; rewrite mem_head.
- apply/hasP => -[i /flattenP [q /mapP [y yl ->] iy]] ix.
  by move: xl; rewrite (D x y i) ?yl // in_cons ?eqxx ?yl ?orbT.
- apply: IH => // [y yl|y z i yl zl]; first by apply: Uf; rewrite in_cons yl orbT.
  by apply: D; rewrite in_cons ?yl ?zl orbT.
Qed.
End Parts.
(** * Inversion of the cliques *)
Section Cliques.
Variables (N : nat) (Phi : 'M[R]_N) (cl : 'I_N -> option nat).

(** Entries outside the diagonal are inside a clique. *)
Definition separates : Prop := forall i j, i != j -> Phi i j != 0 -> cl i != None /\ cl i = cl j.

Lemma mem_clique c i : (i \in clique cl c) = (cl i == c).
Proof. by rewrite mem_filter mem_enum andbT. Qed.
Lemma uniq_clique c : uniq (clique cl c).
Proof. by rewrite filter_uniq // enum_uniq. Qed.

Hypothesis S : separates.
Lemma sep0 i j : i != j -> (cl i == None) || (cl i != cl j) -> Phi i j = 0.
Proof.
move=> ij h; apply/eqP; apply: contraT => p0; have [n e] := S ij p0.
by move: h; rewrite (negbTE n) e eqxx.
Qed.
Lemma apart_clique c : apart Phi (clique cl (Some c)).
Proof.
move=> i j; rewrite !mem_clique => h; apply: sep0; first by apply: contraNneq h => ->.
by apply/orP; right; apply: contraNneq h => ->.
Qed.
Lemma apart_single i : cl i = None -> apart Phi [:: i].
Proof.
move=> ci a b; rewrite !inE => h; have ab : a != b by apply: contraNneq h => ->.
apply: sep0 => //; move: h; case: (altP (a =P i)) => [->|ai]; first by rewrite ci.
case: (altP (b =P i)) => [->|//] _; rewrite ci; by case: (cl a).
Qed.

Hypothesis uP : Phi \in unitmx.
Definition stage (d : seq nat) : 'M[R]_N :=
  \matrix_(i, j) (if (cl i \in [seq Some c | c <- d]) && (cl j == cl i) then invmx Phi i j else Phi i j).

Lemma sub_mxE (A : 'M[R]_N) p : sub_mx p A = subm p A.
Proof. by apply/matrixP => a b; rewrite submE mxE. Qed.
Lemma sub_stage d c : c \notin d -> sub_mx (clique cl (Some c)) (stage d) = subm (clique cl (Some c)) Phi.
Proof.
move=> cd; apply/matrixP => a b; rewrite submE !mxE.
have /eqP -> : cl (tnth (in_tuple (clique cl (Some c))) a) == Some c by rewrite -mem_clique (mem_tnth a (in_tuple _)).
by rewrite mem_map; [rewrite (negbTE cd)|move=> x y []].
Qed.
Lemma pick_tnth (p : seq 'I_N) i : uniq p ->
  match [pick a | tnth (in_tuple p) a == i] with Some a => tnth (in_tuple p) a = i | None => i \notin p end.
Proof.
move=> U; case: pickP => [a /eqP //|h]; apply/negP => ip.
by case/tnthP: (ip : i \in in_tuple p) => a e; move: (h a); rewrite e eqxx.
Qed.
Lemma put_stage d c : c \notin d ->
  put_mx (invmx (subm (clique cl (Some c)) Phi)) (stage d) = stage (rcons d c).
Proof.
move=> cd; have U := uniq_clique (Some c).
have [_ e] := apart_unit U (@apart_clique c) uP; rewrite -e.
apply/matrixP => i j; rewrite !mxE map_rcons mem_rcons in_cons.
have := pick_tnth i U; case: pickP => [a _ ea|_ ic].
- have ci : cl i = Some c by apply/eqP; rewrite -mem_clique -ea (mem_tnth a (in_tuple _)).
  rewrite ci eqxx /=; have := pick_tnth j U; case: pickP => [b _ eb|_].
  + have /eqP -> : cl j == Some c by rewrite -mem_clique -eb (mem_tnth b (in_tuple _)).
    by rewrite eqxx submE ea eb.
  + by rewrite mem_clique => /negbTE ->; rewrite andbF.
- by move: ic; rewrite mem_clique => /negbTE ->.
Qed.
Lemma ln1_ : ln (1 : R) = 0. Proof. exact: ln_1. Qed.
Lemma inv_fold l : forall d ld, uniq (d ++ l) ->
  foldl (inv_clique cl) (Ok (stage d, ld)) l
  = Ok (stage (d ++ l), ld + \sum_(c <- l) ln `|\det (subm (clique cl (Some c)) Phi)|).
Proof.
elim: l => [|c l IH] d ld U; first by rewrite cats0 big_nil addr0.
have cd : c \notin d by move: U; rewrite cat_uniq /= => /and3P [_]; rewrite negb_or => /andP [].
have [uB _] := apart_unit (uniq_clique (Some c)) (@apart_clique c) uP.
rewrite [LHS]/= {1}/inv_clique /rbind /=.
have U2 : uniq (rcons d c ++ l) by rewrite cat_rcons.
rewrite big_cons -cat_rcons addrA -(IH (rcons d c)) //; congr foldl.
rewrite sub_stage // uB put_stage //.
case e: (clique cl (Some c)) => [|x y] //.
congr (Ok _); congr (_, _); last by rewrite det_mx00 normr1 ln1_ addr0.
apply/matrixP => i j; rewrite !mxE map_rcons mem_rcons in_cons.
by have := mem_clique (Some c) i; rewrite e in_nil => <-.
Qed.

Variable count : nat.
Hypothesis labels : forall i c, cl i = Some c -> (c < count)%N.
Hypothesis dpos : forall i, cl i = None -> 0 < Phi i i.

Lemma inv_cliquesE : inv_cliques Phi cl count = Ok (invmx Phi, ln `|\det Phi|).
Proof.
rewrite /inv_cliques.
have e0 : Phi = stage [::] by apply/matrixP => i j; rewrite mxE.
rewrite {1}e0 inv_fold ?iota_uniq //= add0r; congr (Ok (_, _)).
- apply/matrixP => i j; rewrite !mxE.
  case ci: (cl i) => [c|].
    rewrite andbF (map_f _ (_ : c \in _)) /=; last by rewrite mem_iota add0n (labels ci).
    case: eqP => // /eqP cij; have h : (i \in clique cl (Some c)) != (j \in clique cl (Some c)).
      by rewrite !mem_clique ci eqxx eq_sym (negbTE cij).
    rewrite (apart_clique h); symmetry; exact: (apart_inv (uniq_clique (Some c)) (@apart_clique c) uP) h.
  have nN (s : seq nat) : None \in [seq Some c | c <- s] = false by apply/negbTE/mapP => -[].
  rewrite nN andbT /=; case: (altP (i =P j)) => [<-|ij]; last first.
    have h : (i \in [:: i]) != (j \in [:: i]) by rewrite !inE eqxx (eq_sym j) (negbTE ij).
    rewrite (apart_single ci h); symmetry; exact: (apart_inv _ (apart_single ci) uP).
  have [_ e] := apart_unit (isT : uniq [:: i]) (apart_single ci) uP.
  move/matrixP: e => /(_ ord0 ord0); rewrite submE [tnth _ _]/= => ->.
  have -> : subm [:: i] Phi = (Phi i i)%:M by apply/matrixP => a b; rewrite submE !mxE (ord1 a) (ord1 b).
  by rewrite invmx_scalar mxE.
- pose ps := [seq clique cl (Some c) | c <- iota 0 count] ++ [seq [:: i] | i <- clique cl None].
  have C : covers ps.
    split.
      rewrite flatten_cat cat_uniq; apply/and3P; split.
      - apply: uniq_flatten => [|x _|x y i _ _]; [exact: iota_uniq|exact: uniq_clique|].
        by rewrite !mem_clique => /eqP -> /eqP [].
      - apply/hasP => -[i /flattenP [q /mapP [k]]]; rewrite mem_clique => /eqP ck ->; rewrite inE => /eqP ->.
        by move/flattenP => [q' /mapP [c _ ->]]; rewrite mem_clique ck.
      - apply: uniq_flatten => // [|x y i _ _]; first exact: uniq_clique.
        by rewrite !inE => /eqP -> /eqP.
    move=> i; rewrite flatten_cat mem_cat.
    case ci: (cl i) => [c|]; apply/orP.
      left; apply/flattenP; exists (clique cl (Some c)); last by rewrite mem_clique ci.
      by apply: map_f; rewrite mem_iota add0n (labels ci).
    by right; apply/flattenP; exists [:: i]; [apply: map_f; rewrite mem_clique ci|rewrite inE].
  rewrite (parts_det C); last first.
    move=> p; rewrite mem_cat => /orP [/mapP [c _ ->]|/mapP [i]]; first exact: apart_clique.
    by rewrite mem_clique => /eqP ci ->; apply: apart_single.
  rewrite big_cat !big_map /= normrM normr_prod.
  have h c : 0 < `|\det (subm (clique cl (Some c)) Phi)|.
    have [uB _] := apart_unit (uniq_clique (Some c)) (@apart_clique c) uP.
    by rewrite normr_gt0 -unitfE -unitmxE.
  have [p1 e1] := @ln_prod _ (iota 0 count) xpredT _ (fun c _ => h c).
  rewrite normr_prod big_seq [X in _ = ln (_ * X)]big_seq.
  have g i : i \in clique cl None -> 0 < `|\det (subm [:: i] Phi)| /\ ln `|\det (subm [:: i] Phi)| = ln (stage (iota 0 count) i i).
    rewrite mem_clique => /eqP ci.
    have -> : subm [:: i] Phi = (Phi i i)%:M by apply/matrixP => a b; rewrite submE !mxE (ord1 a) (ord1 b).
    rewrite det_scalar1 ger0_norm ?dpos //; last by apply: ltW; exact: dpos.
    split=> //; rewrite mxE ci; by case: ifP => // /andP [/mapP [] //].
  have [p2 e2] := @ln_prod _ (clique cl None) (fun i => i \in clique cl None) _ (fun i ii => (g i ii).1).
  rewrite lnM // e1 e2 big_seq; congr (_ + _); first by rewrite -big_seq.
  by apply: eq_bigr => i ii; have [_ ->] := g i ii.
Qed.
End Cliques.
(** * Slices *)

(** First row of pulsar [p]. *)
Definition first_row (phis : phis_t) (p : nat) : nat := sumn (take p [seq psz o | o <- phis]).

Lemma size_slices phis off : size (slices off phis) = size phis.
Proof. by elim: phis off => //= o r IH off; rewrite IH. Qed.
Lemma first_row0 phis : first_row phis 0 = 0%N. Proof. by rewrite /first_row take0. Qed.
Lemma first_rowS phis p : (p < size phis)%N -> first_row phis p.+1 = (first_row phis p + psz (nth None phis p))%N.
Proof. by move=> lt; rewrite /first_row (take_nth 0%N) ?size_map // -cats1 sumn_cat /= addn0 (nth_map None). Qed.
Lemma first_row_size phis : first_row phis (size phis) = psize phis.
Proof. by rewrite /first_row -(size_map psz) take_size. Qed.
Lemma first_cons o phis p : first_row (o :: phis) p.+1 = (psz o + first_row phis p)%N.
Proof. by []. Qed.
Lemma nth_slices phis p : forall off, (p < size phis)%N ->
  nth (0%N, 0%N) (slices off phis) p = ((off + first_row phis p)%N, (off + first_row phis p.+1)%N).
Proof.
elim: phis p => [//|o r IH] [|p] off lt; first by rewrite first_cons !first_row0 /= !addn0.
by rewrite /= IH // !first_cons !addnA.
Qed.
Lemma first_row_le phis p q : (p <= q)%N -> (first_row phis p <= first_row phis q)%N.
Proof.
move=> pq; rewrite /first_row -(subnK pq) addnC -{2}(cat_take_drop p (map psz phis)).
case: (leqP p (size (map psz phis))) => h.
  by rewrite take_cat size_takel // ltnNge leq_addr /= sumn_cat leq_addr.
by rewrite drop_oversize ?cats0 ?(ltnW h) // !take_oversize // ?(ltnW h) // (leq_trans (ltnW h)) // leq_addr.
Qed.
Lemma row_in phis p i : (p < size phis)%N -> (i < psz (nth None phis p))%N -> (first_row phis p + i < psize phis)%N.
Proof.
move=> lt li; rewrite -first_row_size; apply: leq_trans (first_row_le phis lt).
by rewrite first_rowS // ltn_add2l.
Qed.
Lemma row_inj phis p q i j : (p < size phis)%N -> (q < size phis)%N ->
  (i < psz (nth None phis p))%N -> (j < psz (nth None phis q))%N ->
  (first_row phis p + i = first_row phis q + j)%N -> p = q /\ i = j.
Proof.
move=> lp lq li lj e.
have aux x y u v : (x < y)%N -> (x < size phis)%N -> (u < psz (nth None phis x))%N -> (first_row phis x + u < first_row phis y + v)%N.
  move=> xy lx lu; apply: leq_trans (leq_addr _ _); apply: leq_trans (first_row_le phis xy).
  by rewrite first_rowS // ltn_add2l.
case: (ltngtP p q) => h; [| |by move: e; rewrite h => /addnI].
- by have := aux _ _ _ j h lp li; rewrite e ltnn.
- by have := aux _ _ _ i h lq lj; rewrite e ltnn.
Qed.
Lemma row_of phis : forall r, (r < psize phis)%N ->
  exists p i, [/\ (p < size phis)%N, (i < psz (nth None phis p))%N & r = (first_row phis p + i)%N].
Proof.
elim: phis => [//|o phis IH] r lt; case: (ltnP r (psz o)) => h.
  by exists 0%N, r; split=> //; rewrite first_row0.
have [|p [i [lp li e]]] := IH (r - psz o)%N; first by rewrite ltn_subLR.
by exists p.+1, i; split=> //; rewrite first_cons -addnA -e subnKC.
Qed.

(** * Blocks *)
Definition mget N (A : 'M[R]_N) (i j : nat) : R :=
  match insub i, insub j with Some i', Some j' => A i' j' | _, _ => 0 end.
Lemma mgetE N (A : 'M[R]_N) (i j : 'I_N) : mget A i j = A i j.
Proof. by rewrite /mget !valK. Qed.
Lemma mgetP N (A : 'M[R]_N) (i j : nat) (i' j' : 'I_N) : i = i' -> j = j' -> mget A i j = A i' j'.
Proof. by move=> -> ->; exact: mgetE. Qed.
Definition blk_of (f : forall k, phi_t k -> 'M[R]_k) (o : option {k : nat & kmat k}) (i j : nat) : R :=
  if o is Some x then mget (f _ (kphi (projT2 x))) i j else 0.

Lemma block_diagE f phis : forall (r s : 'I_(psize phis)) p q i j,
  (p < size phis)%N -> (q < size phis)%N -> (i < psz (nth None phis p))%N -> (j < psz (nth None phis q))%N ->
  val r = (first_row phis p + i)%N -> val s = (first_row phis q + j)%N ->
  block_diag f phis r s = if p == q then blk_of f (nth None phis p) i j else 0.
Proof.
elim: phis => [[]//|[x|] phis IH] r s [|p] [|q] i j //= lp lq li lj; rewrite ?first_cons ?first_row0 ?add0n.
- move=> er es; rewrite /block_mx !mxE; case: (@splitP (projT1 x) _ r) => r' er'; last first.
    by move: li; rewrite -er er' ltnNge leq_addr.
  rewrite mxE; case: (@splitP (projT1 x) _ s) => s' es'; last by move: lj; rewrite -es es' ltnNge leq_addr.
  by rewrite -(@mgetP _ _ i j) // -?er -?es.
- move=> er es; rewrite /block_mx !mxE; case: (@splitP (projT1 x) _ r) => r' er'; last first.
    by move: li; rewrite -er er' ltnNge leq_addr.
  rewrite mxE; case: (@splitP (projT1 x) _ s) => s' es'; last by rewrite mxE.
  by have := ltn_ord s'; rewrite -es' es -addnA ltnNge leq_addr.
- move=> er es; rewrite /block_mx !mxE; case: (@splitP (projT1 x) _ r) => r' er'.
    by have := ltn_ord r'; rewrite -er' er -addnA ltnNge leq_addr.
  rewrite mxE; case: (@splitP (projT1 x) _ s) => s' es'; first by rewrite mxE.
  by move: lj; rewrite -es es' ltnNge leq_addr.
- move=> er es; rewrite /block_mx !mxE; case: (@splitP (projT1 x) _ r) => r' er'.
    by have := ltn_ord r'; rewrite -er' er -addnA ltnNge leq_addr.
  rewrite mxE; case: (@splitP (projT1 x) _ s) => s' es'.
    by have := ltn_ord s'; rewrite -es' es -addnA ltnNge leq_addr.
  rewrite (IH _ _ p q i j) //.
  + by apply: (@addnI (projT1 x)); rewrite -er' er addnA.
  + by apply: (@addnI (projT1 x)); rewrite -es' es addnA.
- by move=> er es; rewrite (IH _ _ p q i j).
Qed.

Lemma concat_diag phis : diag_mx (concat phi_vec phis)^T = block_diag (fun k phi => diag_mx (phi_vec phi)^T) phis.
Proof.
elim: phis => [|[x|] phis IH] /=; [by apply/matrixP => -[]| |exact: IH].
by rewrite -IH tr_col_mx diag_mx_row.
Qed.
Lemma block_diag_ext (f g : forall k, phi_t k -> 'M[R]_k) phis : (forall x, List.In (Some x) phis -> f _ (kphi (projT2 x)) = g _ (kphi (projT2 x))) ->
  block_diag f phis = block_diag g phis.
Proof.
elim: phis => [//|[x|] phis IH] h /=; first by rewrite h ?IH; [|move=> y hy; apply: h; right|left].
by apply: IH => y hy; apply: h; right.
Qed.
Lemma Phi0E phis : Phi0 phis = block_diag phi_mx phis.
Proof.
rewrite /Phi0; case D: (dense phis) => //; rewrite concat_diag; apply: block_diag_ext.
move=> x; elim: phis D => //= o phis IH /negbT; rewrite negb_or => /andP [h /negbTE D] [e|]; last exact: IH.
by move: h; rewrite e; case: (kphi (projT2 x)).
Qed.
(** * Writing at pairs of positions *)
Section Put.
Variables (N k : nat) (f g : 'I_k -> 'I_N).
Hypothesis fi : injective f.
Hypothesis gi : injective g.

Lemma last_pair_in a : last_pair k (at_pos f) (at_pos g) (f a) (g a) = Some a.
Proof.
rewrite /last_pair; case: pickP => [b|/(_ a)].
  by rewrite !nth_at_pos => /andP [/andP [/eqP /val_inj /fi -> _] _].
rewrite !nth_at_pos !eqxx /= => /negbT /forallPn [b].
rewrite negb_imply negbK !nth_at_pos => /andP [lt /andP [/eqP /val_inj /fi e _]].
by move: lt; rewrite e ltnn.
Qed.
Lemma last_pair_out (i j : 'I_N) : ~~ [exists a, (f a == i) && (g a == j)] -> last_pair k (at_pos f) (at_pos g) i j = None.
Proof.
move=> h; rewrite /last_pair; case: pickP => // b; rewrite !nth_at_pos => /andP [/andP [/eqP /val_inj e1 /eqP /val_inj e2] _].
by case/negP: h; apply/existsP; exists b; rewrite e1 e2 !eqxx.
Qed.
Lemma put_pair_in op (A : 'M[R]_N) (v : 'cV[R]_k) a : put_pair op A (at_pos f) (at_pos g) v (f a) (g a) = op (A (f a) (g a)) (v a ord0).
Proof. by rewrite mxE last_pair_in. Qed.
Lemma put_pair_out op (A : 'M[R]_N) (v : 'cV[R]_k) i j : ~~ [exists a, (f a == i) && (g a == j)] ->
  put_pair op A (at_pos f) (at_pos g) v i j = A i j.
Proof. by move=> h; rewrite mxE last_pair_out. Qed.

Lemma emx2_in (X : 'M[R]_k) a b : ((emx f)^T *m X *m emx g) (f a) (g b) = X a b.
Proof.
rewrite mxE (bigD1 b) //= [emx g b _]mxE eqxx mulr1 big1 ?addr0; last first.
  by move=> c cb; rewrite [emx g c _]mxE (inj_eq gi) (negbTE cb) mulr0.
rewrite mxE (bigD1 a) //= !mxE eqxx mul1r big1 ?addr0 // => c ca.
by rewrite !mxE (inj_eq fi) (negbTE ca) mul0r.
Qed.
Lemma emx2_l (X : 'M[R]_k) i j : ~~ [exists a, f a == i] -> ((emx f)^T *m X *m emx g) i j = 0.
Proof.
move=> h; rewrite -mulmxA mxE big1 // => c _; rewrite !mxE.
by case: eqP => [e|]; [case/negP: h; apply/existsP; exists c; apply/eqP|rewrite mul0r].
Qed.
Lemma emx2_r (X : 'M[R]_k) i j : ~~ [exists b, g b == j] -> ((emx f)^T *m X *m emx g) i j = 0.
Proof.
move=> h; rewrite mxE big1 // => c _; rewrite [emx g c j]mxE.
by case: eqP => [e|]; [case/negP: h; apply/existsP; exists c; apply/eqP|rewrite mulr0].
Qed.
Lemma put_pair_add (A : 'M[R]_N) (v : 'cV[R]_k) :
  put_pair (fun x y => x + y)%R A (at_pos f) (at_pos g) v = A + (emx f)^T *m phi_mx (PhiD v) *m emx g.
Proof.
apply/matrixP => i j; rewrite [RHS]mxE.
case: (boolP [exists a, f a == i]) => [/existsP [a /eqP <-]|fi']; last first.
  rewrite emx2_l // addr0 put_pair_out //; apply: contra fi' => /existsP [a /andP [h _]]; by apply/existsP; exists a.
case: (boolP [exists b, g b == j]) => [/existsP [b /eqP <-]|gj']; last first.
  rewrite emx2_r // addr0 put_pair_out //; apply: contra gj' => /existsP [b /andP [_ h]]; by apply/existsP; exists b.
rewrite emx2_in phi_mxD; case: eqP => [<-|ne]; first by rewrite put_pair_in.
rewrite addr0 put_pair_out //; apply/existsP => -[c]; rewrite (inj_eq fi) (inj_eq gi) => /andP [/eqP e1 /eqP e2].
by case: ne; rewrite -e1 -e2.
Qed.
Lemma put_block_add (A : 'M[R]_N) (X : 'M[R]_k) :
  put_block (fun x y => x + y)%R A (at_pos f) (at_pos g) X = A + (emx f)^T *m X *m emx g.
Proof.
apply/matrixP => i j; rewrite mxE [RHS]mxE.
case: (boolP [exists a, f a == i]) => [/existsP [a /eqP <-]|h]; last by rewrite last_at_out // emx2_l ?addr0.
rewrite last_at_in //.
case: (boolP [exists b, g b == j]) => [/existsP [b /eqP <-]|h]; last by rewrite last_at_out // emx2_r ?addr0.
by rewrite last_at_in // emx2_in.
Qed.
End Put.

(** * The big matrix *)
Section Big.
Variables (pos : Type) (phis : phis_t).
Notation N := (psize phis).
Notation member := (member pos).
Notation csclass := (csclass pos).

(** An instance with distinct columns of a pulsar of the array, as many as its prior has. *)
Definition good_member (m : member) : Prop :=
  [/\ (mb_psr m < size phis)%N, uniq (mb_idx m), size (mb_idx m) = mb_k m
   & all (fun x => (x < psz (nth None phis (mb_psr m)))%N) (mb_idx m)].
(** All instances have the same number of columns, in different pulsars. *)
Definition good_class (c : csclass) : Prop :=
  [/\ (1 < size (cs_mem c))%N, uniq [seq mb_psr m | m <- cs_mem c], List.Forall good_member (cs_mem c)
   & exists K, List.Forall (fun m => mb_k m = K) (cs_mem c)].
(** Rows of the big matrix that belong to the columns of an instance. *)
Definition rows (m : member) : seq nat := [seq (first_row phis (mb_psr m) + x)%N | x <- mb_idx m].

Lemma sliceE m : good_member m -> slice_of phis m = (first_row phis (mb_psr m), first_row phis (mb_psr m).+1).
Proof. by case=> lt _ _ _; rewrite /slice_of nth_slices // !add0n. Qed.
Lemma gposE m : good_member m -> gpos phis m = rows m.
Proof. by move=> gm; rewrite /gpos sliceE. Qed.
Lemma in_sliceE m : good_member m -> in_slice phis m.
Proof.
move=> gm; rewrite /in_slice sliceE //=; case: gm => lt _ _ al.
by apply: sub_all al => x lx; rewrite first_rowS // ltn_add2l.
Qed.
Lemma rows_fun m K : good_member m -> mb_k m = K -> exists g : 'I_K -> 'I_N, injective g /\ rows m = at_pos g.
Proof.
move=> [lt un sz al] eK; apply: idx_fun; first by rewrite size_map sz.
- apply/allP => r /mapP [x xi ->]; apply: row_in => //; exact: (allP al).
- by rewrite map_inj_uniq // => x y /addnI.
Qed.

(** The terms that a pair of instances adds at row [i] and column [j]. *)
Definition cross_terms (c : csclass) (m1 m2 : member) (i j : nat) : R :=
  (cs_orf c (mb_pos m1) (mb_pos m2) *
   \sum_(a < mb_k m1) \sum_(b < mb_k m1) phi_mx (mb_prior m1) a b *
     (((nth 0%N (rows m1) a == i) && (nth 0%N (rows m2) b == j))%:R
      + ((nth 0%N (rows m2) a == i) && (nth 0%N (rows m1) b == j))%:R))%R.

Lemma phi_scaleE k (x : R) (phi : phi_t k) : phi_mx (phi_scale x phi) = x *: phi_mx phi.
Proof.
case: phi => [v|A] //=; apply/matrixP => a b; rewrite !mxE; case: (a == b); by rewrite ?mulr1n ?mulr0n ?mulr0.
Qed.

Lemma emx2E k (f g : 'I_k -> 'I_N) (X : 'M[R]_k) (i j : 'I_N) : ((emx f)^T *m X *m emx g) i j
  = \sum_a \sum_b X a b * ((nth 0%N (at_pos f) a == i) && (nth 0%N (at_pos g) b == j))%:R.
Proof.
rewrite mxE (eq_bigr (fun b => \sum_a X a b * ((nth 0%N (at_pos f) a == i) && (nth 0%N (at_pos g) b == j))%:R)); last first.
  move=> b _; rewrite mxE mulr_suml; apply: eq_bigr => a _; rewrite !mxE !nth_at_pos !val_eqE.
  by case: (f a == i); case: (g b == j); rewrite ?mul1r ?mul0r ?mulr1 ?mulr0.
by rewrite exchange_big.
Qed.

Lemma add_pairE c (Phi : 'M[R]_N) m1 m2 : good_member m1 -> good_member m2 -> mb_k m1 = mb_k m2 ->
  exists P, add_pair c Phi (m1, m2) = Ok P /\ forall i j : 'I_N, P i j = Phi i j + cross_terms c m1 m2 i j.
Proof.
move=> g1 g2 ek; have [f1 [i1 e1]] := rows_fun g1 erefl; have [f2 [i2 e2]] := rows_fun g2 (esym ek).
rewrite /add_pair (in_sliceE g1) (in_sliceE g2) /= !gposE // e1 e2 !size_at_pos !eqxx /=.
have ct (i j : 'I_N) : cross_terms c m1 m2 i j
    = ((emx f1)^T *m phi_mx (phicross c m1 m2) *m emx f2) i j + ((emx f2)^T *m phi_mx (phicross c m1 m2) *m emx f1) i j.
  rewrite !emx2E -big_split /cross_terms /= mulr_sumr; apply: eq_bigr => a _.
  rewrite -big_split mulr_sumr; apply: eq_bigr => b _ /=.
  by rewrite e1 e2 -mulrDr /phicross phi_scaleE mxE mulrA.
case e : (phicross c m1 m2) => [v|X]; (eexists; split; first by []) => i j; rewrite ct e.
  by rewrite !put_pair_add // !mxE -!addrA; congr (_ + _).
by rewrite !put_block_add // !mxE -!addrA; congr (_ + _).
Qed.

Lemma mem_in (T : Type) (x0 : T) (s : seq T) (P : T -> Prop) k : List.Forall P s -> (k < size s)%N -> P (nth x0 s k).
Proof. by move=> H; elim: H k => [//|x l px _ IH] [|k] //=; exact: IH. Qed.
Lemma forall_sub (T : Type) (s : seq T) (P Q : T -> Prop) : (forall x, P x -> Q x) -> List.Forall P s -> List.Forall Q s.
Proof. by move=> h; apply: List.Forall_impl. Qed.

(** Rows tied together by a class: the [k]-th columns of all its instances. *)
Definition tie (c : csclass) (k : nat) : seq nat := [seq nth 0%N (rows m) k | m <- cs_mem c].
Definition ties (c : csclass) : seq (seq nat) :=
  if cs_mem c is m0 :: _ then [seq tie c k | k <- iota 0 (mb_k m0)] else [::].

Lemma rows_lt m : good_member m -> all (fun r => (r < N)%N) (rows m).
Proof.
case=> lt _ _ al; apply/allP => r /mapP [x xi ->]; apply: row_in => //; exact: (allP al).
Qed.
Lemma size_rows m : good_member m -> size (rows m) = mb_k m.
Proof. by case=> _ _ sz _; rewrite size_map. Qed.

Lemma has_forall (T : Type) (s : seq T) (p : pred T) : List.Forall (fun x => p x = false) s -> has p s = false.
Proof. by elim=> //= x l -> _ ->. Qed.
Lemma map_forall (T U : Type) (s : seq T) (f g : T -> U) : List.Forall (fun x => f x = g x) s -> map f s = map g s.
Proof. by elim=> //= x l -> _ ->. Qed.

Lemma set_cliquesE cc c : good_class c -> set_cliques cc c = foldl (@set_row phis) (Ok cc) (ties c).
Proof.
case=> s1 _ gm [K eK]; rewrite /set_cliques /ties; case e: (cs_mem c) => [|m0 ms] //.
have h0 : size (mb_idx m0) = K /\ mb_k m0 = K.
  have sp : (0 < size (cs_mem c))%N by exact: ltnW.
  have := mem_in m0 gm sp; have := mem_in m0 eK sp; rewrite e /= => ek [_ _ -> _]; by rewrite ek.
rewrite has_forall; last first.
  rewrite -e; elim: (cs_mem c) gm eK => // m l IH /List.Forall_cons_iff [gm gl] /List.Forall_cons_iff [em el].
  constructor; last exact: IH.
  by case: gm => _ _ -> _; rewrite em h0.1 eqxx.
rewrite h0.1 h0.2; congr foldl; apply: eq_map => k; rewrite /tie -e; apply: map_forall.
by apply: forall_sub gm => m hm; rewrite gposE.
Qed.

Lemma tie_ok c t : good_class c -> t \in ties c -> t != [::] /\ all (fun r => (r < N)%N) t.
Proof.
case=> s1 _ gm [K eK]; rewrite /ties; case e: (cs_mem c) => [//|m0 ms] /mapP [k]; rewrite mem_iota add0n => /andP [_ lk] ->.
split; first by rewrite /tie e.
have ek0 : mb_k m0 = K by have := mem_in m0 eK (ltnW s1); rewrite e.
rewrite ek0 in lk; rewrite /tie; elim: (cs_mem c) gm eK => // m l IH /List.Forall_cons_iff [g1 gl] /List.Forall_cons_iff [e1 el] /=.
by rewrite IH // andbT; apply: (allP (rows_lt g1)); apply: mem_nth; rewrite size_rows // e1.
Qed.

Lemma set_row_ok cc t : t != [::] -> all (fun r => (r < N)%N) t -> exists cc', @set_row phis (Ok cc) t = Ok cc' /\ ksetcliques cc.1 cc.2 t = Ok cc'.
Proof.
move=> t0 al; rewrite /set_row /=.
have -> : has (leq N) t = false by apply/hasP => -[x xt]; rewrite leqNgt (allP al).
have [i] : exists i, i \in [seq i <- enum 'I_N | val i \in t].
  case: t t0 al => // x t _ /andP [lx _]; exists (Ordinal lx); by rewrite mem_filter mem_enum andbT /= mem_head.
rewrite /ksetcliques; case: [seq i <- _ | _] => //= j l _.
by case: (foldl _ _ _) => [m|]; eexists; split.
Qed.
Lemma set_rows_ok ts : forall cc, (forall t, t \in ts -> t != [::] /\ all (fun r => (r < N)%N) t) ->
  exists cc', foldl (@set_row phis) (Ok cc) ts = Ok cc'.
Proof.
elim: ts => [|t ts IH] cc h; first by exists cc.
have [t0 al] := h t (mem_head _ _); have [cc' [e _]] := set_row_ok cc t0 al.
rewrite -[foldl _ _ _]/(foldl (@set_row phis) (@set_row phis (Ok cc) t) ts) e.
by apply: IH => u us; apply: h; rewrite in_cons us orbT.
Qed.

Definition class_terms (c : csclass) (i j : nat) : R := (\sum_(p <- pairs (cs_mem c)) cross_terms c p.1 p.2 i j)%R.

Lemma pairs_forall (T : Type) (P : T -> Prop) (l : seq T) : List.Forall P l -> List.Forall (fun p => P p.1 /\ P p.2) (pairs l).
Proof.
elim=> [|x r px pr IH] /=; first by constructor.
apply/List.Forall_app; split=> //; elim: pr {IH} => [|y s py _ IH2] /=; by constructor.
Qed.

Lemma class_fold c (Phi : 'M[R]_N) : good_class c ->
  exists P, foldl (fun r m12 => rbind r (fun Phi => add_pair c Phi m12)) (Ok Phi) (pairs (cs_mem c)) = Ok P
    /\ forall i j : 'I_N, P i j = Phi i j + class_terms c i j.
Proof.
case=> _ _ gm [K eK]; rewrite /class_terms.
have: List.Forall (fun p => (good_member p.1 /\ mb_k p.1 = K) /\ (good_member p.2 /\ mb_k p.2 = K)) (pairs (cs_mem c)).
  apply: (@pairs_forall _ (fun m => good_member m /\ mb_k m = K)).
  by elim: (cs_mem c) gm eK => // m l IH /List.Forall_cons_iff [g1 gl] /List.Forall_cons_iff [e1 el]; constructor=> //; exact: IH.
elim: (pairs _) Phi => [|[m1 m2] l IH] Phi H; first by exists Phi; split=> // i j; rewrite big_nil addr0.
move/List.Forall_cons_iff: H => [[[g1 e1] [g2 e2]] H].
have [P1 [ea h1]] := @add_pairE c Phi m1 m2 g1 g2 (etrans e1 (esym e2)).
have [P [eb h2]] := IH P1 H; exists P; split; first by move: eb; rewrite [foldl _ _ _]/= -ea.
by move=> i j; rewrite h2 h1 big_cons addrA.
Qed.

Definition label_fold cc (cs : seq csclass) := foldl (@set_row phis) (Ok cc) (flatten [seq ties c | c <- cs]).

Lemma get_phiE cs : List.Forall good_class cs ->
  exists Phi cc, get_phi phis cs = Ok (Phi, cc) /\ label_fold (set_pulsar_cliques phis) cs = Ok cc
    /\ forall i j : 'I_N, Phi i j = block_diag phi_mx phis i j + \sum_(c <- cs) class_terms c i j.
Proof.
rewrite /get_phi Phi0E /label_fold; move: (block_diag _ _) (set_pulsar_cliques _).
elim: cs => [|c cs IH] P0 cc0 H; first by exists P0, cc0; split=> //; split=> // i j; rewrite big_nil addr0.
move/List.Forall_cons_iff: H => [gc H].
have [cc' ec] : exists cc', foldl (@set_row phis) (Ok cc0) (ties c) = Ok cc' by apply: set_rows_ok => t; exact: tie_ok.
have [P1 [ea h1]] := class_fold P0 gc.
have [P [cc [eb [el h2]]]] := IH P1 cc' H.
exists P, cc; split; last split.
- rewrite [foldl _ _ _]/= set_cliquesE // ec [rbind _ _]/= ea; exact: eb.
- by rewrite /= foldl_cat ec.
- by move=> i j; rewrite h2 h1 big_cons addrA.
Qed.
End Big.
(** * Recorded cliques *)
Definition okey (c : option nat) : nat := if c is Some x then x.+1 else 0.
Lemma okey_inj : injective okey. Proof. by move=> [x|] [y|] //= [->]. Qed.
Lemma okey_max c d : okey (omax c d) = maxn (okey c) (okey d).
Proof. by case: c d => [x|] [y|] //=; rewrite ?maxn0 ?max0n ?maxnSS. Qed.
Lemma omax_or c d : omax c d = c \/ omax c d = d.
Proof. by case: c d => [x|] [y|] /=; auto; rewrite /maxn; case: ifP; auto. Qed.
Lemma omax_fold cs : forall c, foldl omax c cs \in c :: cs /\ forall x, x \in c :: cs -> (okey x <= okey (foldl omax c cs))%N.
Proof.
elim: cs => [|d cs IH] c /=; first by rewrite mem_head; split=> // x; rewrite inE => /eqP ->.
have [h1 h2] := IH (omax c d); split.
  move: h1; rewrite !in_cons => /orP [/eqP ->|->]; last by rewrite !orbT.
  by case: (omax_or c d) => ->; rewrite eqxx ?orbT.
have h3 : (maxn (okey c) (okey d) <= okey (foldl omax (omax c d) cs))%N by rewrite -okey_max; apply: h2; exact: mem_head.
move: h3; rewrite geq_max => /andP [hc hd] x; rewrite !in_cons => /or3P [/eqP ->|/eqP ->|h] //.
by apply: h2; rewrite in_cons h orbT.
Qed.

Section Labels.
Variable N : nat.
Implicit Types (cl : 'I_N -> option nat) (t : seq nat).
Definition okrow t : Prop := t != [::] /\ all (fun r => (r < N)%N) t.

(** What [_setcliques] does to a row: the greatest label found, or a new one. *)
Lemma ksetE cl n t : okrow t -> exists m (n' : nat),
  [/\ ksetcliques cl n t = Ok ((fun i : 'I_N => if val i \in t then Some m else cl i), n'),
      (forall i : 'I_N, val i \in t -> cl i = None) -> m = n /\ n' = n.+1
    & (exists i : 'I_N, val i \in t /\ cl i != None) ->
        [/\ n' = n, exists i : 'I_N, val i \in t /\ cl i = Some m
          & forall (i : 'I_N) x, val i \in t -> cl i = Some x -> (x <= m)%N]].
Proof.
case=> t0 al; rewrite /ksetcliques.
have mem (c : option nat) : c \in [seq cl i | i <- enum 'I_N & val i \in t] -> exists i : 'I_N, val i \in t /\ cl i = c.
  by move=> /mapP [i]; rewrite mem_filter => /andP [it _] ->; exists i.
have mem' (i : 'I_N) : val i \in t -> cl i \in [seq cl i | i <- enum 'I_N & val i \in t].
  by move=> it; apply: map_f; rewrite mem_filter it mem_enum.
have [i0 i0t] : exists i : 'I_N, val i \in t.
  by case: t t0 al {mem mem'} => // x t _ /andP [lx _]; exists (Ordinal lx); rewrite /= mem_head.
have := mem' i0 i0t; case: [seq cl i | i <- _ & _] mem mem' => [|c cs] mem mem' // _.
have [h1 h2] := omax_fold cs c; case e: (foldl omax c cs) h1 h2 => [m|] h1 h2.
- exists m, n; split=> // [hn|_]; first by have [i [it ei]] := mem _ h1; move: (hn i it); rewrite ei.
  split=> //; first exact: mem.
  by move=> i x it ei; have := h2 _ (mem' i it); rewrite ei.
- exists n, n.+1; split=> // -[i [it]]; have := h2 _ (mem' i it); by case: (cl i).
Qed.

End Labels.

Section Fold.
Variable phis : phis_t.
Notation N := (psize phis).
Implicit Types (cl : 'I_N -> option nat) (t : seq nat).
Lemma set_rowE cl n t : okrow N t -> @set_row phis (Ok (cl, n)) t = ksetcliques cl n t.
Proof.
case=> t0 al; rewrite /set_row /=.
by have -> : has (leq N) t = false by apply/hasP => -[x xt]; rewrite leqNgt (allP al).
Qed.

(** Rows that coincide or are disjoint. *)
Lemma fold_disjoint ts cl0 n0 : (forall t, t \in ts -> okrow N t) ->
  (forall t u x, t \in ts -> u \in ts -> x \in t -> x \in u -> t =i u) ->
  (forall i c, cl0 i = Some c -> (c < n0)%N) ->
  exists cl n, [/\ foldl (@set_row phis) (Ok (cl0, n0)) ts = Ok (cl, n),
     forall i : 'I_N, val i \notin flatten ts -> cl i = cl0 i,
     forall t (i j : 'I_N), t \in ts -> val i \in t -> val j \in t -> cl i != None /\ cl i = cl j
   & forall i c, cl i = Some c -> (c < n)%N].
Proof.
elim/last_ind: ts => [|ts t IH] ok dis bnd.
  by exists cl0, n0; split.
have sub u : u \in ts -> u \in rcons ts t by rewrite mem_rcons in_cons => ->; rewrite orbT.
have tt : t \in rcons ts t by rewrite mem_rcons mem_head.
have [|||cl [n [e h1 h2 h3]]] := IH.
- by move=> u /sub; exact: ok.
- by move=> u v x /sub hu /sub hv; exact: dis.
- exact: bnd.
have [m [n' [ek hnew hold]]] := ksetE cl n (ok t tt).
rewrite foldl_rcons e set_rowE ?ek; last exact: ok.
exists (fun i => if val i \in t then Some m else cl i), n'; split=> //.
- by move=> i; rewrite flatten_rcons mem_cat negb_or => /andP [h /negbTE ->]; exact: h1.
- move=> u i j; rewrite mem_rcons in_cons => /orP [/eqP -> -> -> //|hu] iu ju.
  case: (boolP (val i \in t)) => it.
    have et := dis u t (val i) (sub u hu) tt iu it; by rewrite -(et (val j)) ju.
  case: (boolP (val j \in t)) => jt; last exact: (h2 u).
  have et := dis u t (val j) (sub u hu) tt ju jt; by move: it; rewrite -(et (val i)) iu.
- case: (boolP [exists i : 'I_N, (val i \in t) && (cl i != None)]) => [/existsP [i /andP [it ci]]|hn].
    have [-> [k [kt ek']] _] := hold (ex_intro _ i (conj it ci)).
    move=> j c; case: ifP => _ => [[<-]|]; [exact: h3 ek'|exact: h3].
  have [i it|em en] := hnew; first by apply/eqP; apply: contraNT hn => ci; apply/existsP; exists i; rewrite it.
  move=> j c; rewrite en; case: ifP => _ => [[<-]|/h3]; [by rewrite em|exact: ltnW].
Qed.
End Fold.

(** ** Cliques of the pulsars' own priors *)
Section Own.
Variables (N : nat) (T : eqType) (own : 'I_N -> option T).
Definition hstep (cc : ('I_N -> option nat) * nat) (x : T) :=
  if [exists i, own i == Some x] then ((fun i => if own i == Some x then Some cc.2 else cc.1 i), cc.2.+1) else cc.
Definition known (xs : seq T) (i : 'I_N) : bool := if own i is Some x then x \in xs else false.
Lemma known_rcons xs x i : known (rcons xs x) i = known xs i || (own i == Some x).
Proof. by rewrite /known; case: (own i) => [y|] //=; rewrite mem_rcons in_cons orbC. Qed.

Lemma hfold xs : uniq xs -> exists cl n, foldl hstep ((fun _ => None), 0%N) xs = (cl, n) /\
  [/\ forall i, (cl i != None) = known xs i,
      forall i j, known xs i -> known xs j -> (cl i == cl j) = (own i == own j)
    & forall i c, cl i = Some c -> (c < n)%N].
Proof.
elim/last_ind: xs => [_|xs x IH].
  by exists (fun _ => None), 0%N; split=> //; split=> // i; rewrite /known; case: (own i).
rewrite rcons_uniq => /andP [nx U]; have [cl [n [e [h1 h2 h3]]]] := IH U.
have nk i : own i == Some x -> known xs i = false by rewrite /known => /eqP ->; exact: negbTE.
rewrite foldl_rcons e /hstep /=; case: ifP => ex; last first.
  have no i : (own i == Some x) = false by apply/negP => h; move/existsP: ex; apply; exists i.
  exists cl, n; split=> //; split=> // i; rewrite known_rcons no orbF; first exact: h1.
  by move=> j; rewrite known_rcons no orbF; exact: h2.
exists (fun i => if own i == Some x then Some n else cl i), n.+1; split=> //; split.
- by move=> i; rewrite known_rcons; case: ifP => oi; rewrite ?orbT ?orbF.
- move=> i j; rewrite !known_rcons; case: (altP (own i =P Some x)) => oi; case: (altP (own j =P Some x)) => oj; rewrite ?orbF.
  + by rewrite oi oj !eqxx.
  + move=> _ kj; rewrite oi (eq_sym _ (own j)) (negbTE oj); apply/eqP => ec.
    by have := h3 j n (esym ec); rewrite ltnn.
  + move=> ki _; rewrite oj (negbTE oi); apply/eqP => ec.
    by have := h3 i n ec; rewrite ltnn.
  + exact: h2.
- by move=> i c; case: ifP => _ => [[<-] //|/h3]; exact: ltnW.
Qed.
End Own.

Section PulsarCliques.
Variable phis : phis_t.
Notation N := (psize phis).
(** The recorded cliques of a pulsar's prior are numbered below its count. *)
Definition good_count : Prop := forall p x (a : 'I_(projT1 x)) c, nth None phis p = Some x ->
  kcl (projT2 x) a = Some c -> (c < kcount (projT2 x))%N.

(** Clique of a row in its pulsar's own prior. *)
Definition own_clique (p : nat) (o : option {k : nat & kmat k}) (a : nat) : option (nat * nat) :=
  if o is Some x then if insub a is Some a' then if kcl (projT2 x) a' is Some c then Some (p, c) else None else None else None.
Definition own_label (i : 'I_N) : option (nat * nat) :=
  let p := find (fun p => val i < first_row phis p.+1)%N (iota 0 (size phis)) in
  own_clique p (nth None phis p) (val i - first_row phis p).

Lemma find_row (i : 'I_N) p a : (p < size phis)%N -> (a < psz (nth None phis p))%N -> val i = (first_row phis p + a)%N ->
  own_label i = own_clique p (nth None phis p) a.
Proof.
move=> lp la ei.
have ef : find (fun p => val i < first_row phis p.+1)%N (iota 0 (size phis)) = p.
  have pP : (fun p => val i < first_row phis p.+1)%N p by rewrite /= ei first_rowS // ltn_add2l.
  have hs : has (fun p => val i < first_row phis p.+1)%N (iota 0 (size phis)) by apply/hasP; exists p; rewrite ?mem_iota.
  set q := find _ _; have lq : (q < size phis)%N by rewrite -(size_iota 0 (size phis)) -has_find.
  have hq : (val i < first_row phis q.+1)%N by have := nth_find 0%N hs; rewrite nth_iota // add0n.
  case: (ltngtP q p) => // qp.
    by move: hq; rewrite ltnNge ei (leq_trans (first_row_le phis qp)) // leq_addr.
  by have := before_find 0%N qp; rewrite nth_iota // add0n /=; move: pP => /= ->.
by rewrite /own_label ef ei addKn.
Qed.

Lemma own_cliqueP p x q (a : nat) c : own_clique q (Some x) a = Some (p, c) ->
  q = p /\ exists a' : 'I_(projT1 x), val a' = a /\ kcl (projT2 x) a' = Some c.
Proof.
rewrite /own_clique; case: insubP => // a' _ ea; case ec: (kcl _ _) => [d|] // [<- <-]; split=> //.
by exists a'.
Qed.
Lemma step_eq p x cc c : (p < size phis)%N -> nth None phis p = Some x ->
  set_pulsar_clique (first_row phis p) (kcl (projT2 x)) cc c = hstep own_label cc (p, c).
Proof.
move=> lp ex.
have hit (i : 'I_N) : [exists a : 'I_(projT1 x), (kcl (projT2 x) a == Some c) && (first_row phis p + a == i)%N] = (own_label i == Some (p, c)).
  apply/existsP/eqP => [[a /andP [/eqP ca /eqP ei]]|].
    rewrite (@find_row i p a) ?ex //= ?valK ?ca //.
  have [q [a [lq la ei]]] := row_of (ltn_ord i); rewrite (find_row lq la ei).
  case eq: (nth None phis q) => [y|] // /own_cliqueP [eqp [a' [ea ca]]].
  move: eq ei a' ea ca; rewrite eqp ex => -[<-] ei a' ea ca.
  by exists a'; rewrite ca eqxx ea /=; apply/eqP.
rewrite /set_pulsar_clique /hstep.
have -> : [exists i, own_label i == Some (p, c)] = [exists a, kcl (projT2 x) a == Some c].
  apply/existsP/existsP => [[i]|[a ca]].
    by rewrite -hit => /existsP [a /andP [h _]]; exists a.
  have lt : (first_row phis p + a < N)%N by apply: row_in => //; rewrite ex.
  by exists (Ordinal lt); rewrite -hit; apply/existsP; exists a; rewrite ca /=.
case: ifP => // _; congr (_, _); apply: FunctionalExtensionality.functional_extensionality => i.
by rewrite hit.
Qed.

Definition codes : seq (nat * nat) :=
  flatten [seq [seq (p, c) | c <- iota 0 (if nth None phis p is Some x then kcount (projT2 x) else 0)] | p <- iota 0 (size phis)].
Lemma uniq_codes : uniq codes.
Proof.
rewrite /codes; elim: (iota 0 (size phis)) (iota_uniq 0 (size phis)) => //= p l IH /andP [pl Ul].
rewrite cat_uniq IH // andbT map_inj_uniq ?iota_uniq /=; last by move=> x y [].
apply/hasP => -[[q c]] /flattenP [s /mapP [q' ql ->]] /mapP [c' _ [eq _]] /mapP [d _ [ep _]].
by move: pl; rewrite -ep eq ql.
Qed.
Lemma fold_codes : set_pulsar_cliques phis = foldl (hstep own_label) ((fun _ => None), 0%N) codes.
Proof.
rewrite /set_pulsar_cliques /codes.
have -> : zip (slices 0 phis) phis = [seq ((first_row phis p, first_row phis p.+1), nth None phis p) | p <- iota 0 (size phis)].
  apply: (@eq_from_nth _ ((0%N, 0%N), None)); first by rewrite size_zip size_slices minnn size_map size_iota.
  move=> k; rewrite size_zip size_slices minnn => lk.
  by rewrite nth_zip ?size_slices // (nth_map 0%N) ?size_iota // nth_iota // add0n nth_slices // !add0n.
have : all (fun p => (p < size phis)%N) (iota 0 (size phis)) by apply/allP => p; rewrite mem_iota.
move: (_, _); elim: (iota _ _) => //= p l IH cc /andP [lp al]; rewrite foldl_cat -IH //; congr foldl.
case ex: (nth None phis p) => [x|] //=.
elim: (iota _ _) cc => //= c cs IH2 cc; by rewrite IH2 -(step_eq _ _ lp ex).
Qed.

Lemma known_codes i : good_count -> known own_label codes i = (own_label i != None).
Proof.
move=> gc; rewrite /known; case e: (own_label i) => [[p c]|] //=.
have [q [a [lq la ei]]] := row_of (ltn_ord i); move: e; rewrite (find_row lq la ei).
case ex: (nth None phis q) => [x|] // /own_cliqueP [eq [a' [ea ca]]].
rewrite -eq; apply/flattenP; exists [seq (q, c) | c <- iota 0 (kcount (projT2 x))].
  by apply/mapP; exists q; rewrite ?mem_iota ?ex.
by apply: map_f; rewrite mem_iota add0n (gc q x a' c).
Qed.

Lemma pulsar_fold : good_count -> exists cl n, set_pulsar_cliques phis = (cl, n) /\
  [/\ forall i, (cl i != None) = (own_label i != None),
      forall i j, own_label i != None -> own_label j != None -> (cl i == cl j) = (own_label i == own_label j)
    & forall i c, cl i = Some c -> (c < n)%N].
Proof.
move=> gc; have [cl [n [e [h1 h2 h3]]]] := hfold own_label uniq_codes.
exists cl, n; rewrite fold_codes; split=> //; split=> // [i|i j hi hj]; first by rewrite h1 known_codes.
by apply: h2; rewrite known_codes.
Qed.
End PulsarCliques.
(** * When the recorded cliques separate the matrix *)
Lemma big_neq0 (T : Type) (l : seq T) (F : T -> R) : \sum_(x <- l) F x != 0 -> exists x, List.In x l /\ F x != 0.
Proof.
elim: l => [|x l IH]; first by rewrite big_nil eqxx.
rewrite big_cons; case: (altP (F x =P 0)) => [->|h _]; last by exists x; split; [left|].
by rewrite add0r => /IH [y [yl h]]; exists y; split; [right|].
Qed.
Lemma in_map (T U : Type) (f : T -> U) (l : seq T) z : List.In z [seq f y | y <- l] -> exists y, List.In y l /\ z = f y.
Proof.
elim: l => [//|y l IH] /= [<-|/IH [x [h ->]]]; first by exists y; split; [left|].
by exists x; split; [right|].
Qed.
Lemma in_catL (T : Type) (s t : seq T) z : List.In z (s ++ t) -> List.In z s \/ List.In z t.
Proof.
elim: s => [|y s IH] h; first by right.
by case: h => [->|h]; [left; left|case: (IH h) => g; [left; right|right]].
Qed.
Lemma pairs_in (T : Type) (l : seq T) p : List.In p (pairs l) -> List.In p.1 l /\ List.In p.2 l.
Proof.
elim: l => [//|x l IH] h.
case: (in_catL (h : List.In p ([seq (x, y) | y <- l] ++ pairs l))) => h'.
  by have [y [g ->]] := in_map h'; split; [left|right].
by have [h1 h2] := IH h'; split; right.
Qed.

Section Separate.
Variables (pos : Type) (phis : phis_t).
Notation N := (psize phis).
Notation member := (member pos).
Notation csclass := (csclass pos).

Definition own_separated : Prop := forall p x (a b : 'I_(projT1 x)), nth None phis p = Some x -> a != b ->
  phi_mx (kphi (projT2 x)) a b != 0 -> kcl (projT2 x) a != None /\ kcl (projT2 x) a = kcl (projT2 x) b.
(** The columns of a common signal are in no clique of its pulsar. *)
Definition free_columns (c : csclass) : Prop := forall m x (a : 'I_(projT1 x)), List.In m (cs_mem c) ->
  nth None phis (mb_psr m) = Some x -> val a \in mb_idx m -> kcl (projT2 x) a = None.
Definition vector_prior (c : csclass) : Prop := forall m, List.In m (cs_mem c) -> is_vector (mb_prior m).
(** Common signals that tie a row together tie it to the same rows. *)
Definition aligned (cs : seq csclass) : Prop := forall c d t u r, List.In c cs -> List.In d cs ->
  t \in ties phis c -> u \in ties phis d -> r \in t -> r \in u -> t =i u.

Lemma own_diag (i j : 'I_N) : own_separated -> i != j -> block_diag phi_mx phis i j != 0 ->
  own_label i != None /\ own_label i = own_label j.
Proof.
move=> os ij; have [p [a [lp la ei]]] := row_of (ltn_ord i); have [q [b [lq lb ej]]] := row_of (ltn_ord j).
rewrite (block_diagE phi_mx lp lq la lb ei ej) (find_row lp la ei) (find_row lq lb ej).
case: (altP (p =P q)) => [epq|_]; last by rewrite eqxx.
rewrite -epq in lb ej *; case ex: (nth None phis p) => [x|] /=; last by rewrite eqxx.
rewrite ex /= in la lb.
have -> : a = Ordinal la by []. have -> : b = Ordinal lb by [].
rewrite !valK mgetE => h; have nab : Ordinal la != Ordinal lb.
  by apply: contraNneq ij => -[eab]; apply/eqP/val_inj; rewrite /= ei ej eab.
have [n0 <-] := os p x _ _ ex nab h; by case: (kcl _ _) n0.
Qed.

Lemma nth_in (T : Type) (x0 : T) (l : seq T) x : List.In x l -> exists k, (k < size l)%N /\ nth x0 l k = x.
Proof. by elim: l => [//|y l IH] /= [->|/IH [k [lk e]]]; [exists 0%N|exists k.+1]. Qed.
Lemma forall_in (T : Type) (l : seq T) (P : T -> Prop) x : List.Forall P l -> List.In x l -> P x.
Proof. by move=> /List.Forall_forall; exact. Qed.

Lemma in_tie (c : csclass) m a : List.In m (cs_mem c) -> nth 0%N (rows phis m) a \in tie phis c a.
Proof. by rewrite /tie; elim: (cs_mem c) => [//|y l IH] /= [->|/IH h]; rewrite in_cons ?eqxx ?h ?orbT. Qed.
Lemma tie_in (c : csclass) k r : r \in tie phis c k -> exists m, List.In m (cs_mem c) /\ r = nth 0%N (rows phis m) k.
Proof.
rewrite /tie; elim: (cs_mem c) => [//|y l IH] /=; rewrite in_cons => /orP [/eqP ->|/IH [m [h e]]].
  by exists y; split; [left|].
by exists m; split; [right|].
Qed.
Lemma tiesP (c : csclass) t K : good_class phis c -> (forall m, List.In m (cs_mem c) -> mb_k m = K) -> 
  (t \in ties phis c) = (t \in [seq tie phis c k | k <- iota 0 K]).
Proof.
case=> s1 _ _ _ eK; rewrite /ties; case e: (cs_mem c) => [|m0 ms]; first by rewrite e in s1.
by rewrite (eK m0) // e; left.
Qed.

Lemma cross_neq0 (c : csclass) m1 m2 (i j : nat) : cross_terms phis c m1 m2 i j != 0 ->
  exists a b : 'I_(mb_k m1), phi_mx (mb_prior m1) a b != 0 /\
    ((nth 0%N (rows phis m1) a = i /\ nth 0%N (rows phis m2) b = j) \/
     (nth 0%N (rows phis m2) a = i /\ nth 0%N (rows phis m1) b = j)).
Proof.
rewrite /cross_terms mulf_eq0 negb_or => /andP [_ /big_neq0 [a [_ /big_neq0 [b [_ h]]]]].
exists a, b; move: h; rewrite mulf_eq0 negb_or => /andP [-> h]; split=> //.
case: (boolP ((nth 0%N (rows phis m1) a == i) && (nth 0%N (rows phis m2) b == j))) h => [/andP [/eqP -> /eqP ->] _|_]; first by left.
case: (boolP ((nth 0%N (rows phis m2) a == i) && (nth 0%N (rows phis m1) b == j))) => [/andP [/eqP -> /eqP ->] _|_]; first by right.
by rewrite addr0 eqxx.
Qed.

Lemma class_neq0 (c : csclass) (i j : nat) : good_class phis c -> class_terms phis c i j != 0 ->
  exists m1 m2 K, [/\ List.In m1 (cs_mem c), List.In m2 (cs_mem c), mb_k m1 = K /\ (forall m, List.In m (cs_mem c) -> mb_k m = K)
    & exists (a b : 'I_(mb_k m1)), phi_mx (mb_prior m1) a b != 0 /\
    ((nth 0%N (rows phis m1) a = i /\ nth 0%N (rows phis m2) b = j) \/
     (nth 0%N (rows phis m2) a = i /\ nth 0%N (rows phis m1) b = j))].
Proof.
case=> _ _ _ [K eK]; rewrite /class_terms => /big_neq0 [[m1 m2] [/pairs_in [h1 h2] /cross_neq0 h]].
exists m1, m2, K; split=> //; split; [exact: (forall_in eK)|by move=> m; exact: (forall_in eK)].
Qed.

Lemma flat_ties (cs : seq csclass) t : (t \in flatten [seq ties phis c | c <- cs]) -> exists c, List.In c cs /\ t \in ties phis c.
Proof.
elim: cs => [//|c cs IH] /=; rewrite mem_cat => /orP [h|/IH [d [h1 h2]]]; first by exists c; split; [left|].
by exists d; split; [right|].
Qed.
Lemma ties_flat (cs : seq csclass) c t : List.In c cs -> t \in ties phis c -> t \in flatten [seq ties phis c | c <- cs].
Proof. by elim: cs => [//|d cs IH] /= [->|/IH h]; rewrite mem_cat => ht; rewrite ?ht ?h ?orbT. Qed.

Lemma free_label (cs : seq csclass) (c : csclass) t (i : 'I_N) : List.Forall (@good_class pos phis) cs -> (forall c, List.In c cs -> free_columns c) ->
  List.In c cs -> t \in ties phis c -> val i \in t -> own_label i = None.
Proof.
move=> gcs fr hc; have gc := forall_in gcs hc; have [s1 _ gm [K eK]] := gc.
rewrite (tiesP _ gc (fun m h => forall_in eK h)) => /mapP [k]; rewrite mem_iota => /andP [_ lk] -> /tie_in [m [hm ei]].
have [lt un sz al] := forall_in gm hm.
have lk' : (k < size (mb_idx m))%N by rewrite sz (forall_in eK hm).
have ha := allP al _ (mem_nth 0%N lk').
have ei2 : val i = (first_row phis (mb_psr m) + nth 0 (mb_idx m) k)%N by rewrite ei (nth_map 0%N).
rewrite (find_row lt ha ei2); case ex: (nth None phis (mb_psr m)) ha => [x|] //= ha.
rewrite insubT (fr c hc m x) //= mem_nth //.
Qed.

Lemma separated (cs : seq csclass) : List.Forall (@good_class pos phis) cs -> good_count phis -> own_separated ->
  (forall c, List.In c cs -> free_columns c) -> (forall c, List.In c cs -> vector_prior c) -> aligned cs ->
  exists Phi cl n, [/\ get_phi phis cs = Ok (Phi, (cl, n)), separates Phi cl & forall i c, cl i = Some c -> (c < n)%N].
Proof.
move=> gcs gct os fr vp al; have [Phi [cc [e1 [e2 h]]]] := get_phiE gcs.
have [cl0 [n0 [e0 [p1 p2 p3]]]] := pulsar_fold gct.
have [|||cl [n [e3 q1 q2 q3]]] := @fold_disjoint phis (flatten [seq ties phis c | c <- cs]) cl0 n0.
- by move=> t /flat_ties [c [hc ht]]; have := tie_ok (forall_in gcs hc) ht; case.
- move=> t u r /flat_ties [c [hc ht]] /flat_ties [d [hd hu]]; exact: (al c d).
- exact: p3.
move: e2; rewrite /label_fold e0 e3 => -[ecc]; exists Phi, cl, n; split=> //; first by rewrite e1 -ecc.
move=> i j ij; rewrite h.
have unt (k : 'I_N) : own_label k != None -> val k \notin flatten (flatten [seq ties phis c | c <- cs]).
  move=> ok; apply/flattenP => -[t /flat_ties [c [hc ht]] kt].
  by move: ok; rewrite (free_label gcs fr hc ht kt).
case: (altP (block_diag phi_mx phis i j =P 0)) => [->|b0 _]; last first.
  have [o1 o2] := own_diag os ij b0; have oj : own_label j != None by rewrite -o2.
  rewrite !q1; try exact: unt.
  by split; [rewrite p1|apply/eqP; rewrite p2 // o2].
rewrite add0r => /big_neq0 [c [hc /class_neq0 h0]].
have [m1 [m2 [K [i1 i2 [ek1 ek] [a [b [pab rr]]]]]]] := h0 (forall_in gcs hc).
have ab : a = b.
  move: pab; have := vp c hc m1 i1; case: (mb_prior m1) => [v|//] _; by rewrite phi_mxD; case: (altP (a =P b)) => // _; rewrite eqxx.
rewrite -ab {pab} in rr.
have ht : tie phis c a \in flatten [seq ties phis c | c <- cs].
  apply: (ties_flat hc); rewrite (tiesP _ (forall_in gcs hc) ek); apply: map_f; by rewrite mem_iota add0n -ek1 ltn_ord.
by case: rr => -[ei ej]; apply: (q2 _ _ _ ht); rewrite /= -?ei -?ej; exact: in_tie.
Qed.
End Separate.
(** * Entries of the big matrix *)
Section Entries.
Variables (pos : Type) (phis : phis_t).
Notation N := (psize phis).
Notation member := (member pos).
Notation csclass := (csclass pos).

Lemma map_in (T : Type) (U : eqType) (f : T -> U) (l : seq T) y : List.In y l -> f y \in [seq f x | x <- l].
Proof. by elim: l => [//|z l IH] /= [->|/IH g]; rewrite in_cons ?eqxx ?g ?orbT. Qed.
Lemma good_same (c : csclass) m1 m2 : good_class phis c -> List.In m1 (cs_mem c) -> List.In m2 (cs_mem c) ->
  mb_psr m1 = mb_psr m2 -> m1 = m2.
Proof.
case=> _ U _ _; elim: (cs_mem c) U => [//|m l IH] /= /andP [ml U] h1 h2 e.
have no x : List.In x l -> mb_psr x = mb_psr m -> False.
  move=> xl ex; case/negP: ml; rewrite -ex; elim: l xl {IH U h1 h2} => [//|y l IH] /= [->|h]; first by rewrite mem_head.
  by rewrite in_cons IH ?orbT.
case: h1 => [e1|h1]; case: h2 => [e2|h2].
- by rewrite -e1.
- by case: (no m2 h2); rewrite -e e1.
- by case: (no m1 h1); rewrite e e2.
- exact: IH.
Qed.

Lemma row_same (m1 m2 : member) k l : good_member phis m1 -> good_member phis m2 -> (k < mb_k m1)%N -> (l < mb_k m2)%N ->
  nth 0%N (rows phis m1) k = nth 0%N (rows phis m2) l -> mb_psr m1 = mb_psr m2 /\ nth 0%N (mb_idx m1) k = nth 0%N (mb_idx m2) l.
Proof.
move=> [lt1 un1 sz1 al1] [lt2 un2 sz2 al2] lk ll; rewrite !(nth_map 0%N) ?sz1 ?sz2 //.
apply: row_inj => //; [apply: (allP al1)|apply: (allP al2)]; by rewrite mem_nth ?sz1 ?sz2.
Qed.
Lemma row_idx (m : member) k l : good_member phis m -> (k < mb_k m)%N -> (l < mb_k m)%N ->
  (nth 0%N (rows phis m) k == nth 0%N (rows phis m) l) = (k == l).
Proof.
move=> gm lk ll; apply/eqP/eqP => [|->] // h; have [_ e] := row_same gm gm lk ll h.
by case: gm => _ U sz _; apply/eqP; rewrite -(nth_uniq 0%N _ _ U) ?sz // e.
Qed.

Lemma aligned1 (c : csclass) : good_class phis c -> aligned phis [:: c].
Proof.
move=> gc _ _ t u r [<-|//] [<-|//]; have [_ _ gm [K eK]] := gc.
have ek m (h : List.In m (cs_mem c)) := forall_in eK h.
rewrite !(tiesP _ gc ek) => /mapP [k]; rewrite mem_iota add0n => /andP [_ lk] -> /mapP [l]; rewrite mem_iota add0n => /andP [_ ll] ->.
move=> /tie_in [m1 [h1 e1]] /tie_in [m2 [h2 e2]]; have g1 := forall_in gm h1; have g2 := forall_in gm h2.
have [|||ep ei] := @row_same m1 m2 k l g1 g2; rewrite ?ek // -?e1 //.
have em := good_same gc h1 h2 ep; rewrite -em in ei.
have [_ U sz _] := g1; suff -> : k = l by [].
by apply/eqP; rewrite -(nth_uniq 0%N _ _ U) ?sz ?ek // ei.
Qed.

(** Same-pulsar entries are the pulsar's own prior. *)
Lemma cross_same (c : csclass) m1 m2 p i j : good_class phis c -> List.In m1 (cs_mem c) -> List.In m2 (cs_mem c) ->
  mb_psr m1 != mb_psr m2 -> (p < size phis)%N -> (i < psz (nth None phis p))%N -> (j < psz (nth None phis p))%N ->
  cross_terms phis c m1 m2 (first_row phis p + i) (first_row phis p + j) = 0.
Proof.
move=> gc h1 h2 ne lp li lj; apply/eqP; apply: contraT => /cross_neq0 [a [b [_ rr]]].
have [_ _ gm [K eK]] := gc; have g1 := forall_in gm h1; have g2 := forall_in gm h2.
have ek : mb_k m1 = mb_k m2 by rewrite (forall_in eK h1) (forall_in eK h2).
have psr (m : member) (x : 'I_(mb_k m1)) q : good_member phis m -> mb_k m1 = mb_k m -> (q < psz (nth None phis p))%N ->
    nth 0%N (rows phis m) x = (first_row phis p + q)%N -> mb_psr m = p.
  move=> [lt un sz al] e lq; rewrite (nth_map 0%N) ?sz -?e // => /row_inj [] //.
  by apply: (allP al); rewrite mem_nth // sz -e.
by case: rr => -[ea eb]; case/eqP: ne; [rewrite (psr m1 a i) // (psr m2 b j)|rewrite (psr m1 b j) // (psr m2 a i)].
Qed.
Lemma pairs_ne (c : csclass) m1 m2 : good_class phis c -> List.In (m1, m2) (pairs (cs_mem c)) -> mb_psr m1 != mb_psr m2.
Proof.
case=> _ U _ _; elim: (cs_mem c) U => [//|m l IH] /= /andP [ml U] h.
case: (in_catL (h : List.In (m1, m2) ([seq (m, y) | y <- l] ++ pairs l))) => h'; last exact: IH.
have [y [yl [-> ->]]] := in_map h'; apply: contraNneq ml => ->.
exact: map_in.
Qed.
Lemma big_zero (T : Type) (l : seq T) (F : T -> R) : (forall x, List.In x l -> F x = 0) -> \sum_(x <- l) F x = 0.
Proof. by move=> h; apply/eqP; apply: contraT => /big_neq0 [x [xl]]; rewrite h // eqxx. Qed.
Lemma class_same (c : csclass) p i j : good_class phis c -> (p < size phis)%N ->
  (i < psz (nth None phis p))%N -> (j < psz (nth None phis p))%N ->
  class_terms phis c (first_row phis p + i) (first_row phis p + j) = 0.
Proof.
move=> gc lp li lj; apply: big_zero => -[m1 m2] h; have [h1 h2] := pairs_in h.
by apply: cross_same => //; exact: (pairs_ne gc h).
Qed.

(** Symmetry. *)
Lemma cross_sym (c : csclass) m1 m2 i j : sym (phi_mx (mb_prior m1)) -> cross_terms phis c m1 m2 i j = cross_terms phis c m1 m2 j i.
Proof.
move=> S; rewrite /cross_terms; congr (_ * _); rewrite exchange_big; apply: eq_bigr => b _; apply: eq_bigr => a _ /=.
have -> : phi_mx (mb_prior m1) a b = phi_mx (mb_prior m1) b a by rewrite -[in LHS]S mxE.
by rewrite addrC ![(_ == i) && _]andbC.
Qed.
Lemma class_sym (c : csclass) i j : (forall m, List.In m (cs_mem c) -> sym (phi_mx (mb_prior m))) ->
  class_terms phis c i j = class_terms phis c j i.
Proof.
move=> S; rewrite /class_terms; apply/eqP; rewrite -subr_eq0 -sumrB; apply/eqP/big_zero => -[m1 m2] h.
have [h1 _] := pairs_in h; by rewrite cross_sym ?subrr //; apply: S.
Qed.
Lemma vector_sym k (phi : phi_t k) : is_vector phi -> sym (phi_mx phi).
Proof. by case: phi => [v|//] _; rewrite /sym; apply/matrixP => a b; rewrite mxE !phi_mxD eq_sym; case: eqP => [->|]. Qed.
End Entries.
Section Cross.
Variables (pos : Type) (phis : phis_t).
Notation N := (psize phis).
Notation member := (member pos).
Notation csclass := (csclass pos).

Lemma big_pairs (T : Type) (x0 : T) (l : seq T) (G : T -> T -> R) :
  \sum_(p <- pairs l) G p.1 p.2 = \sum_(i < size l) \sum_(j < size l | (i < j)%N) G (nth x0 l i) (nth x0 l j).
Proof.
elim: l => [|x l IH]; first by rewrite big_nil big_ord0.
rewrite /= big_cat big_map /= IH big_ord_recl /=; congr (_ + _).
  by rewrite [RHS]big_mkcond [RHS]big_ord_recl /= add0r (big_nth x0) big_mkord; apply: eq_bigr => i _.
by apply: eq_bigr => i _; rewrite [RHS]big_mkcond big_ord_recl /= add0r [LHS]big_mkcond.
Qed.

Section One.
Variables (c : csclass) (m0 : member).
Hypothesis gc : good_class phis c.
Notation mem := (cs_mem c).
Notation nm := (size (cs_mem c)).
Notation mb a := (nth m0 (cs_mem c) a).

Lemma nth_In (T : Type) (x0 : T) (l : seq T) a : (a < size l)%N -> List.In (nth x0 l a) l.
Proof. by elim: l a => [//|x l IH] [|a] //= la; [left|right; exact: IH]. Qed.
Lemma psr_nth a b : (a < nm)%N -> (b < nm)%N -> (mb_psr (mb a) == mb_psr (mb b)) = (a == b).
Proof.
move=> la lb; case: gc => _ U _ _; rewrite -[a == b](nth_uniq 0%N _ _ U) ?size_map //.
by rewrite !(nth_map m0) //.
Qed.

Lemma cross_zero a b (i j : nat) k l : (i < nm)%N -> (j < nm)%N -> (i < j)%N -> (a < nm)%N -> (b < nm)%N -> (a < b)%N ->
  (k < mb_k (mb a))%N -> (l < mb_k (mb b))%N ->
  cross_terms phis c (mb i) (mb j) (nth 0%N (rows phis (mb a)) k) (nth 0%N (rows phis (mb b)) l) != 0 -> i = a /\ j = b.
Proof.
move=> li lj ij la lb ab lk ll /cross_neq0 [x [y [_ rr]]]; have [_ _ gm [K eK]] := gc.
have g e : (e < nm)%N -> good_member phis (mb e) by move=> le; apply: (forall_in gm); exact: nth_In.
have ek e f : (e < nm)%N -> (f < nm)%N -> mb_k (mb e) = mb_k (mb f).
  by move=> le lf; rewrite !(forall_in eK) //; exact: nth_In.
have key e f z w : (e < nm)%N -> (f < nm)%N -> (z < mb_k (mb e))%N -> (w < mb_k (mb f))%N ->
    nth 0%N (rows phis (mb e)) z = nth 0%N (rows phis (mb f)) w -> e = f.
  move=> le lf lz lw h; have [ep _] := row_same (g e le) (g f lf) lz lw h.
  by apply/eqP; rewrite -psr_nth // ep.
case: rr => -[h1 h2].
  split; [exact: (key _ _ _ _ li la (ltn_ord x) lk h1)|apply: (key _ _ _ _ lj lb _ ll h2)].
  by rewrite -(ek i j) // ltn_ord.
have e1 : j = a by apply: (key _ _ _ _ lj la _ lk h1); rewrite -(ek i j) // ltn_ord.
have e2 : i = b by apply: (key _ _ _ _ li lb (ltn_ord y) ll h2).
by move: ij; rewrite e1 e2 ltnNge (ltnW ab).
Qed.

Lemma class_pair a b k l (la : (a < nm)%N) (lb : (b < nm)%N) : (a < b)%N -> (k < mb_k (mb a))%N -> (l < mb_k (mb b))%N ->
  class_terms phis c (nth 0%N (rows phis (mb a)) k) (nth 0%N (rows phis (mb b)) l)
  = cross_terms phis c (mb a) (mb b) (nth 0%N (rows phis (mb a)) k) (nth 0%N (rows phis (mb b)) l).
Proof.
move=> ab lk ll; rewrite /class_terms (big_pairs m0 mem (fun x y => cross_terms phis c x y _ _)).
rewrite (bigD1 (Ordinal la)) //= (bigD1 (Ordinal lb)) //= big1 ?addr0 ?big1 ?addr0 //.
- move=> i ia; rewrite big1 // => j ij; apply/eqP; apply: contraT => h.
  have [e _] := cross_zero (ltn_ord i) (ltn_ord j) ij la lb ab lk ll h.
  by case/eqP: ia; apply/ord_inj.
- move=> j /andP [aj jb]; apply/eqP; apply: contraT => h.
  have [_ e] := cross_zero la (ltn_ord j) aj la lb ab lk ll h.
  by case/eqP: jb; apply/ord_inj.
Qed.

(** The entry for columns [k] and [l] of two different pulsars. *)
Lemma cross_value a b k l (la : (a < nm)%N) (lb : (b < nm)%N) (lk : (k < mb_k (mb a))%N) (ll : (l < mb_k (mb a))%N) : (a < b)%N ->
  cross_terms phis c (mb a) (mb b) (nth 0%N (rows phis (mb a)) k) (nth 0%N (rows phis (mb b)) l)
  = phi_mx (phicross c (mb a) (mb b)) (Ordinal lk) (Ordinal ll).
Proof.
move=> ab; have [_ _ gm [K eK]] := gc.
have g e : (e < nm)%N -> good_member phis (mb e) by move=> le; apply: (forall_in gm); exact: nth_In.
have ek : mb_k (mb a) = mb_k (mb b) by rewrite !(forall_in eK) //; exact: nth_In.
rewrite /phicross phi_scaleE mxE /cross_terms; congr (_ * _).
have no x y : (x < mb_k (mb a))%N -> (y < mb_k (mb a))%N -> nth 0%N (rows phis (mb b)) x == nth 0%N (rows phis (mb a)) y = false.
  move=> lx ly; apply/negP => /eqP h; have [||ep _] := row_same (g b lb) (g a la) _ _ h; rewrite -?ek //.
  by move/eqP: ep; rewrite psr_nth // => /eqP e; move: ab; rewrite e ltnn.
rewrite (bigD1 (Ordinal lk)) //= (bigD1 (Ordinal ll)) //= !eqxx (no k k) //= addr0 mulr1.
rewrite !big1 ?addr0 //.
- move=> x xk; rewrite big1 // => y _; rewrite (no x k) //= addr0.
  rewrite (row_idx (g a la)) //; case: eqP => [e|]; last by rewrite mulr0.
  by case/eqP: xk; apply/ord_inj.
- move=> y yl; rewrite addr0 (row_idx (g b lb)) -?ek //.
  by case: eqP => [e|]; [case/eqP: yl; apply/ord_inj|rewrite mulr0].
Qed.
End One.
End Cross.
(** * A common signal with a dense prior *)
Section DenseCommon.
Variables (pos : Type) (phis : phis_t).
Notation N := (psize phis).
Notation member := (member pos).
Notation csclass := (csclass pos).

Lemma fold_max ts (cl0 : 'I_N -> option nat) n0 M : (forall t, t \in ts -> okrow N t) ->
  (forall t, t \in ts -> exists i : 'I_N, val i \in t /\ cl0 i = Some M) ->
  (forall t (i : 'I_N) x, t \in ts -> val i \in t -> cl0 i = Some x -> (x <= M)%N) ->
  exists cl, foldl (@set_row phis) (Ok (cl0, n0)) ts = Ok (cl, n0)
    /\ forall i : 'I_N, cl i = if val i \in flatten ts then Some M else cl0 i.
Proof.
elim/last_ind: ts => [|ts t IH] ok ex le; first by exists cl0.
have sub u : u \in ts -> u \in rcons ts t by rewrite mem_rcons in_cons => ->; rewrite orbT.
have tt : t \in rcons ts t by rewrite mem_rcons mem_head.
have [|||cl [e h]] := IH.
- by move=> u /sub; exact: ok.
- by move=> u /sub; exact: ex.
- by move=> u i x /sub; exact: le.
have [m [n' [ek _ hold]]] := ksetE cl n0 (ok t tt).
have [i [it ci]] := ex t tt.
have clM : cl i = Some M by rewrite h ci; case: ifP.
have hex : exists i : 'I_N, val i \in t /\ cl i != None by exists i; split=> //; rewrite clM.
have [en [j [jt cj]] mx] := hold hex.
have eM : m = M.
  apply/eqP; rewrite eqn_leq (mx i M it clM) andbT.
  by move: cj; rewrite h; case: ifP => _ => [[<-] //|]; exact: (le t j m tt jt).
rewrite foldl_rcons e set_rowE ?ek ?en ?eM; last exact: ok.
exists (fun i => if val i \in t then Some M else cl i); split=> // k.
by rewrite flatten_rcons mem_cat orbC; case: (val k \in t) => //=; exact: h.
Qed.

(** The columns of each instance are exactly one clique of its pulsar. *)
Definition one_clique (c : csclass) : Prop := forall m, List.In m (cs_mem c) ->
  exists d, forall x (a : 'I_(projT1 x)), nth None phis (mb_psr m) = Some x -> (kcl (projT2 x) a == Some d) = (val a \in mb_idx m).

Lemma own_row (c : csclass) : good_class phis c -> one_clique c -> exists code : member -> nat * nat,
  forall m (i : 'I_N), List.In m (cs_mem c) -> (val i \in rows phis m) = (own_label i == Some (code m)).
Proof.
move=> gc oc.
have : exists f : member -> nat, forall m, List.In m (cs_mem c) ->
    forall x (a : 'I_(projT1 x)), nth None phis (mb_psr m) = Some x -> (kcl (projT2 x) a == Some (f m)) = (val a \in mb_idx m).
  have [_ U _ _] := gc; move: oc; rewrite /one_clique; elim: (cs_mem c) U => [|m l IH] /= U oc; first by exists (fun _ => 0%N).
  have /andP [nm Ul] := U; have [f hf] := IH Ul (fun m' h => oc m' (or_intror h)); have [d hd] := oc m (or_introl erefl).
  exists (fun m' => if mb_psr m' == mb_psr m then d else f m') => m' [<-|h]; first by rewrite eqxx.
  case: eqP => [e|_]; last exact: hf.
  by case/negP: nm; rewrite -e; exact: map_in.
case=> f hf; exists (fun m => (mb_psr m, f m)) => m i hm; have [_ _ gm _] := gc; have [lt un sz al] := forall_in gm hm.
have [p [a [lp la ei]]] := row_of (ltn_ord i); rewrite (find_row lp la ei) {1}/val /= ei.
apply/mapP/eqP => [[x xi e]|].
  have [ep ea] := row_inj lp lt la (allP al _ xi) e; rewrite -ep; rewrite -ep in lt.
  case ex: (nth None phis p) la => [y|] //= la.
  have ai : a \in mb_idx m by rewrite ea.
  have := hf m hm y (Ordinal la); rewrite -ep ex /= ai => /(_ erefl) /eqP h.
  by rewrite insubT h.
case ex: (nth None phis p) la => [y|] //= la.
rewrite insubT; case ek: (kcl _ _) => [d|] // [ep ed]; exists a; last by rewrite ep.
by rewrite -[a]/(val (Ordinal la)) -(hf m hm y) -?ep ?ex // ek ed.
Qed.

Lemma separated_dense (c : csclass) : good_class phis c -> good_count phis -> own_separated phis -> one_clique c ->
  exists Phi cl n, [/\ get_phi phis [:: c] = Ok (Phi, (cl, n)), separates Phi cl & forall i d, cl i = Some d -> (d < n)%N].
Proof.
move=> gc gct os oc; have [code hcode] := own_row gc oc.
have [Phi [cc [e1 [e2 h]]]] := get_phiE (List.Forall_cons _ gc (List.Forall_nil _)).
have [cl0 [n0 [e0 [p1 p2 p3]]]] := pulsar_fold gct.
have [s1 _ gm [K eK]] := gc; have ek m (hm : List.In m (cs_mem c)) : mb_k m = K := forall_in eK hm.
have memrow m k : List.In m (cs_mem c) -> (k < K)%N -> exists i : 'I_N, val i = nth 0%N (rows phis m) k /\ val i \in rows phis m.
  move=> hm lk; have g := forall_in gm hm; have sz := size_rows g; rewrite ek // in sz.
  have lt : (nth 0%N (rows phis m) k < N)%N by apply: (allP (rows_lt g)); rewrite mem_nth // sz.
  by exists (Ordinal lt); split=> //=; rewrite mem_nth // sz.
have labrow m (i j : 'I_N) : List.In m (cs_mem c) -> val i \in rows phis m -> val j \in rows phis m -> cl0 i != None /\ cl0 i = cl0 j.
  move=> hm; rewrite !(hcode m _ hm) => /eqP oi /eqP oj; split; first by rewrite p1 oi.
  by apply/eqP; rewrite p2 ?oi ?oj.
have tk t : t \in ties phis c -> exists k, (k < K)%N /\ t = tie phis c k.
  by rewrite (tiesP _ gc ek) => /mapP [k]; rewrite mem_iota add0n => /andP [_ lk] ->; exists k.
have tin t (i : 'I_N) : t \in ties phis c -> val i \in t -> exists m, List.In m (cs_mem c) /\ val i \in rows phis m.
  move=> /tk [k [lk ->]] /tie_in [m [hm ->]]; exists m; split=> //.
  by rewrite mem_nth // size_rows ?ek //; exact: (forall_in gm hm).
have [M [hM1 hM2]] : exists M, (forall t, t \in ties phis c -> exists i : 'I_N, val i \in t /\ cl0 i = Some M) /\
    (forall t (i : 'I_N) x, t \in ties phis c -> val i \in t -> cl0 i = Some x -> (x <= M)%N).
  have [K0|K0] := posnP K.
    exists 0%N; split=> [t|t i x] /tk [k []]; by rewrite K0.
  pose lab (m : member) := if insub (nth 0%N (rows phis m) 0) is Some i then cl0 i else None.
  have labE m (i : 'I_N) : List.In m (cs_mem c) -> val i \in rows phis m -> lab m = cl0 i /\ cl0 i != None.
    move=> hm hi; have [j [ej hj]] := memrow m 0%N hm K0.
    by rewrite /lab -ej valK; have [n1 ->] := labrow m j i hm hj hi; split=> //; rewrite -(labrow m j i hm hj hi).2.
  have [m1 [h1 mx]] : exists m1, List.In m1 (cs_mem c) /\ forall m, List.In m (cs_mem c) -> (okey (lab m) <= okey (lab m1))%N.
    case: (cs_mem c) s1 => [//|m l] _; elim: l m => [|m' l IH] m; first by exists m; split=> [|x [<-|//]]; [left|].
    have [m1 [h1 mx]] := IH m'; case: (leqP (okey (lab m)) (okey (lab m1))) => lt.
      by exists m1; split=> [|x [<-|hx]] //; [right|exact: mx].
    exists m; split=> [|x [<-|hx]] //; first by left.
    by apply: leq_trans (ltnW lt); exact: mx.
  have [i1 [_ hi1]] := memrow m1 0%N h1 K0; have [lm1 n1] := labE m1 i1 h1 hi1.
  case eM: (cl0 i1) n1 => [M|//] _; exists M; split=> [t /tk [k [lk ->]]|t i x ht it ci].
    have [i [ei hi]] := memrow m1 k h1 lk; exists i; split; first by rewrite ei; exact: in_tie.
    by rewrite -(labrow m1 i1 i h1 hi1 hi).2.
  have [m [hm hi]] := tin t i ht it; have := mx m hm; rewrite lm1 eM (labE m i hm hi).1 ci; by [].
have [|cl [e3 hcl]] := @fold_max (ties phis c) cl0 n0 M _ hM1 hM2; first by move=> t /(tie_ok gc) [].
move: e2; rewrite /label_fold /= cats0 e0 e3 => -[ecc]; exists Phi, cl, n0; split; first by rewrite e1 -ecc.
- have com (i : 'I_N) : (val i \in flatten (ties phis c)) -> exists m, List.In m (cs_mem c) /\ own_label i = Some (code m).
    by move=> /flattenP [t ht it]; have [m [hm hi]] := tin t i ht it; exists m; split=> //; apply/eqP; rewrite -hcode.
  have com' m (i : 'I_N) : List.In m (cs_mem c) -> val i \in rows phis m -> val i \in flatten (ties phis c).
    move=> hm hi; have g := forall_in gm hm; have sz := size_rows g; rewrite ek // in sz.
    have lk : (index (val i) (rows phis m) < K)%N by rewrite -sz index_mem.
    apply/flattenP; exists (tie phis c (index (val i) (rows phis m))); first by rewrite (tiesP _ gc ek); apply: map_f; rewrite mem_iota.
    by rewrite -{1}(nth_index 0%N hi); exact: in_tie.
  move=> i j ij; rewrite h; case: (altP (block_diag phi_mx phis i j =P 0)) => [->|b0 _]; last first.
    have [o1 o2] := own_diag os ij b0; have oj : own_label j != None by rewrite -o2.
    have cij : (val i \in flatten (ties phis c)) = (val j \in flatten (ties phis c)).
      by apply/idP/idP => /com [m [hm om]]; apply: (com' m) => //; rewrite hcode // -?o2 ?om // o2 om.
    rewrite !hcl cij; case: ifP => // _; split; first by rewrite p1.
    by apply/eqP; rewrite p2 // o2.
  rewrite add0r big_seq1 => /class_neq0 h0; have [m1 [m2 [K' [i1 i2 [ek1 ek'] [a [b [pab rr]]]]]]] := h0 gc.
  have both m (x : 'I_(mb_k m1)) (k : 'I_N) : List.In m (cs_mem c) -> nth 0%N (rows phis m) x = k -> cl k = Some M.
    move=> hm e; rewrite hcl; case: ifP => // /negP []; apply: (com' m) => //; rewrite /= -e mem_nth // size_rows; last exact: (forall_in gm hm).
    by rewrite (ek m hm) -(ek m1 i1) ltn_ord.
  by case: rr => -[ei ej]; [rewrite (both m1 a) // (both m2 b)|rewrite (both m2 a) // (both m1 b)].
- move=> i d; rewrite hcl; case: ifP => [/flattenP [t ht it] [<-]|_]; last exact: p3.
  by have [k [_ ck]] := hM1 t ht; exact: p3 ck.
Qed.
End DenseCommon.
(** * Partition *)
Lemma foldl_ok (S : Type) (T : eqType) (f : result S -> T -> result S) (rel : S -> seq T -> Prop) (l : seq T) (s0 : S) :
  rel s0 [::] -> (forall s d x, rel s d -> x \in l -> (exists e, l = d ++ x :: e) -> exists s', f (Ok s) x = Ok s' /\ rel s' (rcons d x)) ->
  exists s', foldl f (Ok s0) l = Ok s' /\ rel s' l.
Proof.
move=> r0 step.
suff H e d s : l = d ++ e -> rel s d -> exists s', foldl f (Ok s) e = Ok s' /\ rel s' l by exact: (H l [::]).
elim: e d s => [|x e IH] d s el rs; first by exists s; rewrite el cats0.
have [||s' [es rs']] := step s d x rs; first by rewrite el mem_cat mem_head orbT.
  by exists e.
by rewrite /= es; apply: (IH (rcons d x)) => //; rewrite cat_rcons.
Qed.

Definition vget k (v : 'cV[R]_k) (r : nat) : R := if insub r is Some r' then v r' ord0 else 0.
Definition ivget (A : inverter) (r a b : nat) : R :=
  match insub r, insub a, insub b with Some r', Some a', Some b' => iv (i := A) r' a' b' | _, _, _ => 0 end.
Lemma ivgetE (A : inverter) (r : 'I_(iv_K A)) (a b : 'I_(iv_m A)) : ivget A r a b = iv r a b.
Proof. by rewrite /ivget !valK. Qed.
Lemma iv_addE (A : inverter) i j k (v : 'cV[R]_k) : (i < iv_m A)%N -> (j < iv_m A)%N -> k = iv_K A ->
  exists A', [/\ iv_add A i j v = Ok A', iv_K A' = iv_K A, iv_m A' = iv_m A
    & forall r a b, ivget A' r a b = ivget A r a b + (if (a == i) && (b == j) then vget v r else 0)].
Proof.
move=> li lj ek; have nk : (k != iv_K A) = false by rewrite ek eqxx.
rewrite /iv_add li lj nk /=; eexists; split; [by []|by []|by []|].
move=> r a b; rewrite /ivget /=; case: insubP => [r' _ er|nr]; last first.
  by rewrite /vget insubN ?ek // if_same addr0.
case: insubP => [a' la ea|na]; last first.
  by case: eqP => [e|_]; rewrite ?addr0 //; move: na; rewrite e li.
case: insubP => [b' lb eb|nb]; last first.
  by case: (b =P j) => [e|_]; rewrite ?andbF ?addr0 //; move: nb; rewrite e lj.
by rewrite mxE -ea -eb -er /vget /=; case: ifP => _; rewrite ?addr0.
Qed.
Lemma sum_rcons (T : Type) (l : seq T) x (F : T -> R) : \sum_(i <- rcons l x) F i = \sum_(i <- l) F i + F x.
Proof. by rewrite -cats1 big_cat big_seq1. Qed.
Section PartClass.
Variables (pos : Type) (phis : phis_t).
Notation member := (member pos).
Notation csclass := (csclass pos).
Variables (nm K : nat).

Definition sget (s : pstate) (r a b : nat) : R := if s.1.1 is Some A then ivget A r a b else 0.
Definition wfs (s : pstate) : Prop := if s.1.1 is Some A then [/\ iv_K A = K, iv_m A = nm & s.1.2 = K] else True.

Variables (c : csclass) (m0 : member).
Hypothesis gc : good_class phis c.
Hypothesis enm : size (cs_mem c) = nm.
Hypothesis eK : forall m, List.In m (cs_mem c) -> mb_k m = K.
Hypothesis vp : vector_prior c.
Notation mb a := (nth m0 (cs_mem c) a).

Lemma mb_in a : (a < nm)%N -> List.In (mb a) (cs_mem c).
Proof. by move=> la; apply: nth_In; rewrite enm. Qed.
Lemma mb_good a : (a < nm)%N -> good_member phis (mb a).
Proof. by move=> la; case: gc => _ _ gm _; exact: (forall_in gm (mb_in la)). Qed.

Definition cvec k (phi : phi_t k) : 'cV[R]_k := if phi is PhiD v then v else 0.
Definition cv (i j r : nat) : R := vget (cvec (phicross c (mb i) (mb j))) r.
Definition dv (i r : nat) : R := vget (diag_at phis (mb i)) r.
Lemma cross_vec i j : (i < nm)%N -> phicross c (mb i) (mb j) = PhiD (cvec (phicross c (mb i) (mb j))).
Proof.
move=> li; rewrite /phicross; have := vp (mb_in li); by case: (mb_prior (mb i)).
Qed.

Definition pterm (i j r a b : nat) : R :=
  if (i < j)%N then ((if (a == i) && (b == j) then cv i j r else 0) + (if (a == j) && (b == i) then cv i j r else 0))%R else 0%R.
Lemma pair_step (s : pstate) i j : wfs s -> (i < nm)%N -> (j < nm)%N -> exists s',
  [/\ part_pair c nm i (mb i) (Ok s) (j, mb j) = Ok s', wfs s', s'.2 = s.2,
      isSome s.1.1 || (i < j)%N -> isSome s'.1.1
    & forall r a b, sget s' r a b = sget s r a b + pterm i j r a b].
Proof.
move=> ws li lj; rewrite /part_pair /= /pterm; case: (leqP j i) => ij.
  by exists s; split=> //; [rewrite orbF|move=> r a b; rewrite addr0].
rewrite cross_vec //.
have ek : mb_k (mb i) = K := eK (mb_in li).
set A := match s.1.1 with Some A => A | None => _ end.
have [eA1 eA2] : iv_K A = K /\ iv_m A = nm.
  by move: ws; rewrite /wfs /A; case: (s.1.1) => [A' [-> ->]|].
have gA r a b : ivget A r a b = sget s r a b.
  rewrite /A /sget; case: (s.1.1) => [A'|] //; rewrite /ivget; do 3! case: insub => [?|] //=; by rewrite mxE.
have [|||A1 [-> k1 n1 g1]] := @iv_addE A i j _ (cvec (phicross c (mb i) (mb j))); rewrite ?eA1 ?eA2 ?ek //.
have [|||A2 [e2 k2 n2 g2]] := @iv_addE A1 j i _ (cvec (phicross c (mb i) (mb j))); rewrite ?k1 ?n1 ?eA1 ?eA2 ?ek //.
rewrite [rbind _ _]/= e2 /=; eexists; split; [by []| |by []|by []|].
  by rewrite /wfs /= k2 n2 k1 n1 eA1 eA2.
by move=> r a b; rewrite /sget /= g2 g1 gA addrA.
Qed.

Lemma foldl_map_ (S T U : Type) (f : S -> U -> S) (h : T -> U) (l : seq T) : forall s,
  foldl f s [seq h x | x <- l] = foldl (fun z x => f z (h x)) s l.
Proof. by elim: l => //= x l IH s; rewrite IH. Qed.
Lemma zip_iota : zip (iota 0 (size (cs_mem c))) (cs_mem c) = [seq (i, mb i) | i <- iota 0 nm].
Proof.
apply: (@eq_from_nth _ (0%N, m0)); first by rewrite size_zip size_iota minnn size_map size_iota enm.
move=> k; rewrite size_zip size_iota minnn enm => lk.
by rewrite nth_zip ?size_iota // (nth_map 0%N) ?size_iota // !nth_iota // enm.
Qed.

Lemma pair_fold (s : pstate) i : wfs s -> (i < nm)%N -> exists s',
  [/\ foldl (part_pair c (size (cs_mem c)) i (mb i)) (Ok s) (zip (iota 0 (size (cs_mem c))) (cs_mem c)) = Ok s', wfs s', s'.2 = s.2,
      isSome s.1.1 || (i.+1 < nm)%N -> isSome s'.1.1
    & forall r a b, sget s' r a b = sget s r a b + \sum_(j <- iota 0 nm) pterm i j r a b].
Proof.
move=> ws li; rewrite zip_iota foldl_map_ enm.
have [||s' [e [w' l' o' g']]] := @foldl_ok _ _ (fun z x => part_pair c nm i (mb i) z (x, mb x))
  (fun s' d => [/\ wfs s', s'.2 = s.2, isSome s.1.1 || has (fun j => i < j)%N d -> isSome s'.1.1
    & forall r a b, sget s' r a b = sget s r a b + \sum_(j <- d) pterm i j r a b]) (iota 0 nm) s.
- by split=> //; [rewrite orbF|move=> r a b; rewrite big_nil addr0].
- move=> s1 d x [w1 l1 o1 g1] xin _; move: xin; rewrite mem_iota add0n => /andP [_ lx].
  have [s2 [e2 w2 l2 o2 g2]] := pair_step w1 li lx; exists s2; split=> //; split=> //.
  + by rewrite l2.
  + rewrite has_rcons => h; apply: o2; apply/orP; case/or3P: h => h; [left|by right|left]; apply: o1; by rewrite h ?orbT.
  + by move=> r a b; rewrite g2 g1 -addrA sum_rcons.
exists s'; split=> // h; apply: o'; case/orP: h => [->|h] //; apply/orP; right.
by apply/hasP; exists i.+1 => //; rewrite mem_iota.
Qed.

Definition mterm (i r a b : nat) : R :=
  ((\sum_(j <- iota 0 nm) pterm i j r a b) + (if (a == i) && (b == i) then dv i r else 0))%R.
Definition mld (i : nat) : R := (\sum_a ln (diag_at phis (mb i) a ord0))%R.
Lemma member_step (s : pstate) i : wfs s -> (i < nm)%N -> isSome s.1.1 || (i.+1 < nm)%N -> exists s',
  [/\ part_member phis c (Ok s) (i, mb i) = Ok s', wfs s', s'.2 = s.2 - mld i, isSome s'.1.1
    & forall r a b, sget s' r a b = sget s r a b + mterm i r a b].
Proof.
move=> ws li h; rewrite /part_member /=; have [s1 [-> w1 l1 o1 g1]] := pair_fold ws li.
have := o1 h; move: w1 g1; rewrite [rbind _ _]/= /wfs /sget; case eA: (s1.1.1) => [A|//] [kA nA kk] g1 _.
rewrite (in_sliceE (mb_good li)) /=.
have [|||A' [-> k2 n2 g2]] := @iv_addE A i i _ (diag_at phis (mb i)); rewrite ?nA ?kA //.
  by have [_ _ -> _] := mb_good li; exact: eK (mb_in li).
rewrite [rbind _ _]/=; eexists; split; [by []| |by rewrite /= l1|by []|].
  by rewrite /= k2 n2.
by move=> r a b; rewrite /= g2 g1 /mterm addrA.
Qed.

Lemma class_step (s : pstate) : wfs s -> exists s',
  [/\ part_class phis (Ok s) c = Ok s', wfs s', s'.2 = s.2 - \sum_(i <- iota 0 nm) mld i, isSome s'.1.1
    & forall r a b, sget s' r a b = sget s r a b + \sum_(i <- iota 0 nm) mterm i r a b].
Proof.
move=> ws; rewrite /part_class zip_iota foldl_map_.
have n1 : (1 < nm)%N by rewrite -enm; case: gc.
have [||s' [e [w' l' o' g']]] := @foldl_ok _ _ (fun z x => part_member phis c z (x, mb x))
  (fun s' d => [/\ wfs s', s'.2 = s.2 - \sum_(i <- d) mld i, d != [::] -> isSome s'.1.1
    & forall r a b, sget s' r a b = sget s r a b + \sum_(i <- d) mterm i r a b]) (iota 0 nm) s.
- by split=> //; [rewrite big_nil subr0|move=> r a b; rewrite big_nil addr0].
- move=> s1 d x [w1 l1 o1 g1] xin [e el]; move: (xin); rewrite mem_iota add0n => /andP [_ lx].
  have [|s2 [e2 w2 l2 o2 g2]] := member_step w1 lx.
    case: d el o1 {l1 g1} => [|y d] el o1; last by rewrite o1.
    by move: el; case: nm n1 {xin lx w1 ws} => [//|[//|k]] _ /= [<- _]; rewrite orbT.
  exists s2; split=> //; split=> //; first by rewrite l2 l1 sum_rcons opprD addrA.
  by move=> r a b; rewrite g2 g1 -addrA sum_rcons.
exists s'; split=> //; by apply: o'; case: nm n1.
Qed.

Lemma sum_one (F : nat -> R) k : (k < nm)%N -> (forall i, (i < nm)%N -> i != k -> F i = 0) -> \sum_(i <- iota 0 nm) F i = F k.
Proof.
move=> lk h; rewrite (bigD1_seq k) ?iota_uniq ?mem_iota //= big_seq_cond big1 ?addr0 // => i.
by rewrite mem_iota add0n => /andP [/andP [_ li] ik]; exact: h.
Qed.
Lemma class_sum r a b : (a < nm)%N -> (b < nm)%N -> \sum_(i <- iota 0 nm) mterm i r a b
  = if (a < b)%N then cv a b r else if (b < a)%N then cv b a r else dv a r.
Proof.
move=> la lb; rewrite /mterm big_split /=.
have key x y : (x < nm)%N -> (y < nm)%N -> (x < y)%N -> \sum_(i <- iota 0 nm) \sum_(j <- iota 0 nm)
   (if (i < j)%N then (if (x == i) && (y == j) then cv i j r else 0) else 0) = cv x y r.
  move=> lx ly xy; rewrite (sum_one lx) => [|i li ix].
    rewrite (sum_one ly) => [|j lj jy]; first by rewrite xy !eqxx.
    by rewrite (eq_sym y) (negbTE jy) andbF if_same.
  by rewrite big1 // => j _; rewrite (eq_sym x) (negbTE ix) if_same.
have key0 x y : (x <= y)%N -> \sum_(i <- iota 0 nm) \sum_(j <- iota 0 nm)
   (if (i < j)%N then (if (y == i) && (x == j) then cv i j r else 0) else 0) = 0.
  move=> xy; rewrite big1 // => i _; rewrite big1 // => j _; case: ltnP => // ij.
  by case: eqP => //= e1; case: eqP => //= e2; move: ij; rewrite -e1 -e2 ltnNge xy.
have -> : \sum_(i <- iota 0 nm) \sum_(j <- iota 0 nm) pterm i j r a b =
   \sum_(i <- iota 0 nm) \sum_(j <- iota 0 nm) (if (i < j)%N then (if (a == i) && (b == j) then cv i j r else 0) else 0)
 + \sum_(i <- iota 0 nm) \sum_(j <- iota 0 nm) (if (i < j)%N then (if (b == i) && (a == j) then cv i j r else 0) else 0).
  rewrite -big_split; apply: eq_bigr => i _; rewrite -big_split; apply: eq_bigr => j _ /=; rewrite /pterm.
  by case: ifP; rewrite ?addr0 // [(a == j) && _]andbC.
case: (ltngtP a b) => ab.
- rewrite key // key0 ?(ltnW ab) // addr0 big1 ?addr0 // => i _.
  by case: eqP => //= ea; case: eqP => //= e; move: ab; rewrite ea e ltnn.
- rewrite key0 ?(ltnW ab) // key // add0r big1 ?addr0 // => i _.
  by case: eqP => //= ea; case: eqP => //= e; move: ab; rewrite ea e ltnn.
- rewrite ab !key0 // !add0r -ab (sum_one la) ?eqxx // => i li ia.
  by rewrite (eq_sym a) (negbTE ia).
Qed.
End PartClass.
(** * Partition: inversion and write-back *)
Section PartFold.
Variables (pos : Type) (phis : phis_t) (nm K : nat) (m0 : member pos).
Notation csclass := (csclass pos).

Definition same_shape (c : csclass) : Prop :=
  [/\ good_class phis c, size (cs_mem c) = nm, forall m, List.In m (cs_mem c) -> mb_k m = K & vector_prior c].
Lemma classes_fold (cs : seq csclass) : forall s : pstate, (forall c, List.In c cs -> same_shape c) -> wfs nm K s -> exists s',
  [/\ foldl (part_class phis) (Ok s) cs = Ok s', wfs nm K s',
      s'.2 = s.2 - \sum_(c <- cs) \sum_(i <- iota 0 nm) mld phis c m0 i, (cs <> [::] \/ isSome s.1.1) -> isSome s'.1.1
    & forall r a b, sget s' r a b = sget s r a b + \sum_(c <- cs) \sum_(i <- iota 0 nm) mterm phis nm c m0 i r a b].
Proof.
elim: cs => [|c cs IH] s h ws.
  by exists s; split=> //; [rewrite big_nil subr0|case|move=> r a b; rewrite big_nil addr0].
have [gc en eK vp] := h c (or_introl erefl).
have [s1 [e1 w1 l1 o1 g1]] := class_step m0 gc en eK vp ws.
have [|s2 [e2 w2 l2 o2 g2]] := IH s1 _ w1; first by move=> d hd; apply: h; right.
exists s2; split=> //; first by rewrite -e2 -e1.
- by rewrite l2 l1 big_cons opprD addrA.
- by move=> _; apply: o2; right.
- by move=> r a b; rewrite g2 g1 big_cons addrA.
Qed.
End PartFold.

Lemma invert_fold (A : inverter) ld : (forall r, posdef (iv (i := A) r)) ->
  exists f, foldl (@part_invert A) (Ok (@iv A, ld)) (iota 0 (iv_K A)) = Ok (f, ld + \sum_r ln (\det (iv (i := A) r)))
    /\ forall r, f r = invmx (iv r).
Proof.
move=> pA; pose F k : R := if insub k is Some r then ln (\det (iv (i := A) r)) else 0.
have [||[f ld'] [e [/= hf hl]]] := @foldl_ok _ _ (@part_invert A)
  (fun s d => (forall r, s.1 r = if val r \in d then invmx (iv r) else iv r) /\ s.2 = ld + \sum_(k <- d) F k) (iota 0 (iv_K A)) (@iv A, ld).
- by split=> //=; rewrite big_nil addr0.
- move=> s d k [hs hl] kin [e el]; move: (kin); rewrite mem_iota add0n => /andP [_ lk].
  have kd : k \notin d.
    by have := iota_uniq 0 (iv_K A); rewrite el cat_uniq /= negb_or => /and3P [_ /andP [-> _] _].
  rewrite /part_invert [rbind _ _]/=; case: insubP => [r _ er|]; last by rewrite lk.
  have es : s.1 r = iv r by rewrite hs er (negbTE kd).
  have [U hU] := posdef_chol (pA r); rewrite es hU; eexists; split; first by [].
  split=> [r'|] /=; last first.
    rewrite hl sum_rcons addrA (cho_logdetE (proj1 (pA r)) hU); congr (_ + _); by rewrite /F -er valK.
  rewrite mem_rcons inE -er /= (inj_eq val_inj); case: eqP => [->|_] /=; last exact: hs.
  by rewrite (cho_solveE _ (proj1 (pA r)) hU) mulmx1.
exists f; rewrite e; split; last by move=> r; rewrite hf mem_iota /= add0n ltn_ord.
congr (Ok (_, _)); rewrite hl; congr (_ + _).
rewrite -{1}(subn0 (iv_K A)) -/(index_iota 0 (iv_K A)) big_mkord; apply: eq_bigr => r _.
by rewrite /F valK.
Qed.

Section Write.
Variables (pos : Type) (phis : phis_t) (nm K : nat) (c : csclass pos) (m0 : member pos).
Notation N := (psize phis).
Hypothesis sc : same_shape phis nm K c.
Notation mb a := (nth m0 (cs_mem c) a).
Variables (f : 'I_K -> 'M[R]_nm) (T : 'M[R]_N) (g : 'I_nm -> 'I_K -> 'I_N).
Hypothesis gE : forall a r, g a r = nth 0%N (rows phis (mb a)) r :> nat.
Hypothesis symT : sym T.
Hypothesis fT : forall r a b, f r a b = T (g a r) (g b r).

Lemma rows_g (a : 'I_nm) : rows phis (mb a) = at_pos (g a) /\ injective (g a).
Proof.
have [gc en eK vp] := sc; have gm := mb_good m0 gc en (ltn_ord a).
have ek := eK _ (mb_in m0 en (ltn_ord a)).
split; last first.
  move=> r s /(congr1 val) /=; rewrite !gE => /eqP; rewrite row_idx ?ek // => /eqP /val_inj; exact.
apply: (@eq_from_nth _ 0%N); first by rewrite size_rows // size_at_pos ek.
move=> k; rewrite size_rows // ek => lk; rewrite -[k in RHS]/(val (Ordinal lk)) nth_at_pos.
by rewrite -[LHS](gE a (Ordinal lk)).
Qed.

Definition hit (a b : 'I_nm) (i j : 'I_N) : bool :=
  (a <= b)%N && [exists r, ((g a r == i) && (g b r == j)) || ((g b r == i) && (g a r == j))].
Lemma write_step (P : 'M[R]_N) (a b : 'I_nm) : exists P',
  part_write f (val a) (mb a) (Ok P) (val b, mb b) = Ok P' /\ forall i j, P' i j = if hit a b i j then T i j else P i j.
Proof.
have [gc en eK vp] := sc; have ga := mb_good m0 gc en (ltn_ord a); have gb := mb_good m0 gc en (ltn_ord b).
have [ea ia] := rows_g a; have [eb ib] := rows_g b.
rewrite /part_write [rbind _ _]/=; case: (ltnP b a) => ab.
  by exists P; split=> // i j; rewrite /hit leqNgt ab.
rewrite (in_sliceE ga) (in_sliceE gb) !gposE // ea eb !size_at_pos !eqxx /= !valK; eexists; split; first by [].
move=> i j; rewrite /hit ab /=.
case: (boolP [exists r, (g b r == i) && (g a r == j)]) => [/existsP [r /andP [/eqP <- /eqP <-]]|h2].
  rewrite put_pair_in // mxE fT.
  have -> : [exists r0, ((g a r0 == g b r) && (g b r0 == g a r)) || ((g b r0 == g b r) && (g a r0 == g a r))].
    by apply/existsP; exists r; rewrite !eqxx orbT.
  by rewrite -{1}symT mxE.
rewrite [LHS]put_pair_out //.
case: (boolP [exists r, (g a r == i) && (g b r == j)]) => [/existsP [r /andP [/eqP <- /eqP <-]]|h1].
  rewrite put_pair_in // mxE fT.
  have -> // : [exists r0, ((g a r0 == g a r) && (g b r0 == g b r)) || ((g b r0 == g a r) && (g a r0 == g b r))].
  by apply/existsP; exists r; rewrite !eqxx.
rewrite put_pair_out //; case: existsP => // -[r /orP [h|h]]; [case/negP: h1|case/negP: h2]; by apply/existsP; exists r.
Qed.

Lemma enum_iota : iota 0 nm = [seq val a | a <- enum 'I_nm].
Proof. by rewrite val_enum_ord. Qed.
Lemma write_row (P : 'M[R]_N) (a : 'I_nm) : exists P',
  foldl (part_write f (val a) (mb a)) (Ok P) (zip (iota 0 (size (cs_mem c))) (cs_mem c)) = Ok P'
  /\ forall i j, P' i j = if [exists b, hit a b i j] then T i j else P i j.
Proof.
have [gc en _ _] := sc; rewrite (zip_iota m0 en) enum_iota -map_comp foldl_map_.
have [||P' [e h]] := @foldl_ok _ _ (fun z (b : 'I_nm) => part_write f (val a) (mb a) z (val b, mb b))
  (fun P' d => forall i j, P' i j = if has (fun b => hit a b i j) d then T i j else P i j) (enum 'I_nm) P.
- by [].
- move=> P1 d b h _ _; have [P2 [e2 h2]] := write_step P1 a b; exists P2; split=> // i j.
  by rewrite h2 h has_rcons; case: (hit a b i j).
exists P'; split=> // i j; rewrite h; congr (if _ then _ else _).
by apply/hasP/existsP => [[b _ hb]|[b hb]]; exists b => //; rewrite mem_enum.
Qed.
Lemma write_all (P : 'M[R]_N) : exists P',
  foldl (fun st im => foldl (part_write f im.1 im.2) st (zip (iota 0 (size (cs_mem c))) (cs_mem c))) (Ok P)
    (zip (iota 0 (size (cs_mem c))) (cs_mem c)) = Ok P'
  /\ forall i j, P' i j = if [exists a, [exists b, [exists r, (g a r == i) && (g b r == j)]]] then T i j else P i j.
Proof.
have [gc en _ _] := sc; rewrite {2}(zip_iota m0 en) enum_iota -map_comp foldl_map_.
have [||P' [e h]] := @foldl_ok _ _ (fun z (a : 'I_nm) => foldl (part_write f (val a) (mb a)) z (zip (iota 0 (size (cs_mem c))) (cs_mem c)))
  (fun P' d => forall i j, P' i j = if has (fun a => [exists b, hit a b i j]) d then T i j else P i j) (enum 'I_nm) P.
- by [].
- move=> P1 d a h _ _; have [P2 [e2 h2]] := write_row P1 a; exists P2; split=> // i j.
  by rewrite h2 h has_rcons; case: [exists _, _].
exists P'; split=> // i j; rewrite h; congr (if _ then _ else _).
apply/hasP/existsP => [[a _ /existsP [b /andP [_ /existsP [r /orP [hr|hr]]]]]|[a /existsP [b /existsP [r hr]]]].
- by exists a; apply/existsP; exists b; apply/existsP; exists r.
- by exists b; apply/existsP; exists a; apply/existsP; exists r.
case: (leqP a b) => ab.
- exists a; rewrite ?mem_enum //; apply/existsP; exists b; rewrite /hit ab; apply/existsP; exists r; by rewrite hr.
- exists b; rewrite ?mem_enum //; apply/existsP; exists a; rewrite /hit (ltnW ab); apply/existsP; exists r; by rewrite hr orbT.
Qed.
End Write.
(** * Tied rows *)
Section Tied.
Variables (N K nm : nat) (g : 'I_nm -> 'I_K -> 'I_N) (Phi Phi0 : 'M[R]_N).
Hypothesis gi : forall a b r s, g a r = g b s -> a = b /\ r = s.
Hypothesis pP : posdef Phi.
Hypothesis pP0 : posdef Phi0.
Hypothesis H1 : forall i j, Phi i j != Phi0 i j -> exists a b r, i = g a r /\ j = g b r.
Hypothesis H2 : forall a r j, j != g a r -> Phi0 (g a r) j = 0 /\ Phi0 j (g a r) = 0.

Definition tier (r : 'I_K) : seq 'I_N := [seq g a r | a <- enum 'I_nm].
Definition tied : seq 'I_N := flatten [seq tier r | r <- enum 'I_K].
Definition rest : seq 'I_N := [seq i <- enum 'I_N | i \notin tied].
Definition tie_mx (r : 'I_K) : 'M[R]_nm := \matrix_(a, b) Phi (g a r) (g b r).
Definition marked (i j : 'I_N) : bool := [exists a, [exists b, [exists r, (g a r == i) && (g b r == j)]]].

Lemma size_tier r : size (tier r) = nm. Proof. by rewrite size_map size_enum_ord. Qed.
Lemma uniq_tier r : uniq (tier r).
Proof. by rewrite map_inj_uniq ?enum_uniq // => a b /gi []. Qed.
Lemma mem_tier r i : reflect (exists a, i = g a r) (i \in tier r).
Proof. by apply: (iffP mapP) => -[a]; [exists a|move=> ->; exists a => //; rewrite mem_enum]. Qed.
Lemma tier_eq r s i : i \in tier r -> i \in tier s -> r = s.
Proof. by move=> /mem_tier [a ->] /mem_tier [b /gi []]. Qed.
Lemma mem_tied i : reflect (exists r, i \in tier r) (i \in tied).
Proof.
apply: (iffP flattenP) => [[q /mapP [r _ ->] h]|[r h]]; first by exists r.
by exists (tier r) => //; apply: map_f; rewrite mem_enum.
Qed.
Lemma uniq_tied : uniq tied.
Proof.
apply: uniq_flatten; [exact: enum_uniq|by move=> r _; exact: uniq_tier|move=> r s i _ _; exact: tier_eq].
Qed.
Lemma uniq_rest : uniq rest. Proof. by rewrite filter_uniq // enum_uniq. Qed.
Lemma mem_rest i : (i \in rest) = (i \notin tied). Proof. by rewrite mem_filter mem_enum andbT. Qed.
Lemma markedP i j : reflect (exists r, i \in tier r /\ j \in tier r) (marked i j).
Proof.
apply: (iffP existsP) => [[a /existsP [b /existsP [r /andP [/eqP <- /eqP <-]]]]|[r [/mem_tier [a ->] /mem_tier [b ->]]]].
  by exists r; split; apply/mem_tier; [exists a|exists b].
by exists a; apply/existsP; exists b; apply/existsP; exists r; rewrite !eqxx.
Qed.

Lemma off_tied i j : i != j -> (i \in tied) || (j \in tied) -> Phi0 i j = 0.
Proof.
move=> ij /orP [] /mem_tied [r /mem_tier [a e]]; rewrite e.
- by apply: (proj1 (H2 _)); rewrite -e eq_sym.
- by apply: (proj2 (H2 _)); rewrite -e.
Qed.
Lemma unmarked i j : ~~ marked i j -> Phi i j = Phi0 i j.
Proof.
move=> h; apply/eqP; apply: contraNT h => /H1 [a [b [r [-> ->]]]].
by apply/markedP; exists r; split; apply/mem_tier; [exists a|exists b].
Qed.
Lemma apart_tier r : apart Phi (tier r).
Proof.
move=> i j h; rewrite unmarked; last first.
  apply/markedP => -[s [hi hj]]; move: h; case hi': (i \in tier r).
  - by rewrite (tier_eq hi' hi) hj.
  - by case hj': (j \in tier r) => //; move: hi'; rewrite (tier_eq hj' hj) hi.
apply: off_tied; first by apply: contraNneq h => ->.
by move: h; case: (boolP (i \in tier r)) => [hi _|_ /=]; [apply/orP; left|case: (boolP (j \in tier r)) => // hj _; apply/orP; right];
  apply/mem_tied; exists r.
Qed.
Lemma apart_rest (A : 'M[R]_N) : (forall i j, i != j -> i \in tied -> j \notin tied -> A i j = 0 /\ A j i = 0) -> apart A rest.
Proof.
move=> h i j; rewrite !mem_rest; case hi: (i \in tied); case hj: (j \in tied) => //= _.
- have ij : i != j by apply: contraFneq hj => <-.
  by case: (h i j ij hi); rewrite ?hj.
- have ij : j != i by apply: contraFneq hi => <-.
  by case: (h j i ij hj); rewrite ?hi.
Qed.
Lemma apart_rest0 : apart Phi0 rest.
Proof. by apply: apart_rest => i j ij hi _; rewrite !off_tied // 1?eq_sym // hi ?orbT. Qed.
Lemma apart_rest1 : apart Phi rest.
Proof.
apply: apart_rest => i j ij /mem_tied [r hi] hj.
have nj : (j \in tier r) = false by apply/negP => h; move/mem_tied: hj; apply; exists r.
by split; apply: (@apart_tier r); rewrite hi nj.
Qed.
Lemma apart_one0 i : i \in tied -> apart Phi0 [:: i].
Proof.
move=> hi a b; rewrite !inE => h; have ab : a != b by apply: contraNneq h => ->.
apply: off_tied => //; case: (altP (a =P i)) h => [->|_]; first by rewrite hi.
by case: (altP (b =P i)) => [->|//]; rewrite hi orbT.
Qed.
Lemma rest_eq : subm rest Phi = subm rest Phi0.
Proof.
apply/matrixP => a b; rewrite !submE unmarked //; apply/markedP => -[r [h _]].
have := mem_tnth a (in_tuple rest); rewrite mem_rest => /mem_tied; apply; by exists r.
Qed.

Lemma written (P : 'M[R]_N) : (forall i j, P i j = if marked i j then invmx Phi i j else invmx Phi0 i j) -> P = invmx Phi.
Proof.
have uP := posdef_unit pP; have uP0 := posdef_unit pP0.
move=> h; apply/matrixP => i j; rewrite h; case: (boolP (marked i j)) => // nm_.
case: (boolP (i \in tied)) => [hi|hi].
  have ij : i != j by apply: contraNneq nm_ => <-; apply/markedP; case/mem_tied: hi => r hr; exists r.
  rewrite (apart_inv _ (apart_one0 hi) uP0) // ?inE ?eqxx 1?(eq_sym j) ?(negbTE ij) //.
  case/mem_tied: hi => r hr; rewrite (apart_inv (uniq_tier r) (@apart_tier r) uP) // hr.
  by apply/negP => /eqP e; case/markedP: nm_; exists r; rewrite -e.
case: (boolP (j \in tied)) => [hj|hj].
  have ij : i != j by apply: contraNneq hi => ->.
  rewrite (apart_inv _ (apart_one0 hj) uP0) // ?inE ?eqxx ?(negbTE ij) //.
  case/mem_tied: hj => r hr; rewrite (apart_inv (uniq_tier r) (@apart_tier r) uP) // hr.
  by apply/negP => /eqP e; case/markedP: nm_; exists r; rewrite e.
have [a ea] : exists a, tnth (in_tuple rest) a = i.
  have ir : i \in in_tuple rest by rewrite /= mem_rest.
  by case/tnthP: ir => a ->; exists a.
have [b eb] : exists b, tnth (in_tuple rest) b = j.
  have jr : j \in in_tuple rest by rewrite /= mem_rest.
  by case/tnthP: jr => b ->; exists b.
have [_ e1] := apart_unit uniq_rest apart_rest1 uP; have [_ e0] := apart_unit uniq_rest apart_rest0 uP0.
by rewrite -ea -eb -!submE e0 e1 rest_eq.
Qed.

Lemma cast_sub m (A : 'M[R]_m) (p : seq 'I_N) x0 : size p = m -> (forall a b : 'I_m, A a b = Phi (nth x0 p a) (nth x0 p b)) ->
  uniq p -> apart Phi p ->
  [/\ posdef A, \det A = \det (subm p Phi) & forall a b : 'I_m, invmx A a b = invmx Phi (nth x0 p a) (nth x0 p b)].
Proof.
move=> e; case: m / e A => A h Up ap.
have eA : A = subm p Phi by apply/matrixP => a b; rewrite h submE !(tnth_nth x0).
have [uB eB] := apart_unit Up ap (posdef_unit pP).
rewrite eA; split=> //.
- rewrite /subm -{1}[sel p]trmxK; apply: posdef_congr => // x hx.
  by rewrite -[x]mul1mx -(sel_selT Up) -mulmxA hx mulmx0.
- by move=> a b; rewrite -eB submE !(tnth_nth x0).
Qed.
Lemma tie_mxP r : [/\ posdef (tie_mx r), \det (tie_mx r) = \det (subm (tier r) Phi)
  & forall a b, invmx (tie_mx r) a b = invmx Phi (g a r) (g b r)].
Proof.
case: (posnP nm) => [z|lt].
  have e0 : tier r = [::] by apply: size0nil; rewrite size_tier.
  have no (a : 'I_nm) : False by have := ltn_ord a; rewrite {2}z.
  rewrite e0; split; last by move=> a; case: (no a).
  - split=> [|x /negP]; first by apply/matrixP => a; case: (no a).
    by case; apply/eqP/matrixP => a; case: (no a).
  - rewrite [RHS]det_mx00; move: (tie_mx r); rewrite z => A; exact: det_mx00.
have ne (a : 'I_nm) : nth (g (Ordinal lt) r) (tier r) a = g a r.
  by rewrite (nth_map a) ?size_enum_ord // nth_ord_enum.
have [|||h1 h2 h3] := @cast_sub nm (tie_mx r) (tier r) (g (Ordinal lt) r) (size_tier r); first last.
- by split=> // a b; rewrite h3 !ne.
- exact: apart_tier.
- exact: uniq_tier.
- by move=> a b; rewrite !ne mxE.
Qed.

Lemma ln_prod_seq (T : eqType) (l : seq T) (F : T -> R) : (forall x, x \in l -> 0 < F x) ->
  0 < \prod_(x <- l) F x /\ ln (\prod_(x <- l) F x) = \sum_(x <- l) ln (F x).
Proof.
elim: l => [|x l IH] h; first by rewrite !big_nil ln1_ ltr01.
have [|p e] := IH; first by move=> y yl; apply: h; rewrite in_cons yl orbT.
have px := h x (mem_head _ _).
by rewrite !big_cons lnM // e mulr_gt0.
Qed.
Lemma tied_logdet : ln (\det Phi) = ln (\det Phi0) - (\sum_a \sum_r ln (Phi0 (g a r) (g a r))) + \sum_r ln (\det (tie_mx r)).
Proof.
have cov1 : covers ([seq tier r | r <- enum 'I_K] ++ [:: rest]).
  have ef : flatten ([seq tier r | r <- enum 'I_K] ++ [:: rest]) = tied ++ rest by rewrite flatten_cat /= cats0.
  rewrite /covers ef cat_uniq uniq_tied uniq_rest; split; last by move=> i; rewrite mem_cat mem_rest orbN.
  rewrite andbT /=; apply/hasP => -[i]; rewrite mem_rest /= => /negbTE ->; by [].
have cov0 : covers ([seq [:: i] | i <- tied] ++ [:: rest]).
  have ef : flatten ([seq [:: i] | i <- tied] ++ [:: rest]) = tied ++ rest.
    by rewrite flatten_cat /= cats0; congr (_ ++ _); elim: tied => //= x l ->.
  rewrite /covers ef cat_uniq uniq_tied uniq_rest; split; last by move=> i; rewrite mem_cat mem_rest orbN.
  rewrite andbT /=; apply/hasP => -[i]; rewrite mem_rest /= => /negbTE ->; by [].
have D1 : \det Phi = (\prod_(r <- enum 'I_K) \det (subm (tier r) Phi)) * \det (subm rest Phi0).
  rewrite (@parts_det _ _ Phi cov1) ?big_cat ?big_seq1 ?big_map ?rest_eq //.
  move=> p; rewrite mem_cat => /orP [/mapP [r _ ->]|]; first exact: apart_tier.
  by rewrite inE => /eqP ->; exact: apart_rest1.
have D0 : \det Phi0 = (\prod_(i <- tied) \det (subm [:: i] Phi0)) * \det (subm rest Phi0).
  rewrite (@parts_det _ _ Phi0 cov0) ?big_cat ?big_seq1 ?big_map //.
  move=> p; rewrite mem_cat => /orP [/mapP [i hi ->]|]; first exact: apart_one0.
  by rewrite inE => /eqP ->; exact: apart_rest0.
have r0 : 0 < \det (subm rest Phi0).
  apply: posdef_det; rewrite /subm -{1}[sel rest]trmxK; apply: posdef_congr => // x hx.
  by rewrite -[x]mul1mx -(sel_selT uniq_rest) -mulmxA hx mulmx0.
have [|t0 et] := @ln_prod_seq _ (enum 'I_K) (fun r => \det (subm (tier r) Phi)).
  by move=> r _; have [pr <- _] := tie_mxP r; exact: posdef_det.
have d1 i : \det (subm [:: i] Phi0) = Phi0 i i by rewrite [LHS](det_mx11 (subm [:: i] Phi0)); exact: submE.
have [|s0 es] := @ln_prod_seq _ tied (fun i => \det (subm [:: i] Phi0)).
  by move=> i _; rewrite d1; exact: posdef_entry.
rewrite D1 D0 !lnM // et es.
have -> : \sum_(r <- enum 'I_K) ln (\det (subm (tier r) Phi)) = \sum_r ln (\det (tie_mx r)).
  by rewrite big_enum; apply: eq_bigr => r _; have [_ -> _] := tie_mxP r.
have -> : \sum_(i <- tied) ln (\det (subm [:: i] Phi0)) = \sum_a \sum_r ln (Phi0 (g a r) (g a r)).
  rewrite big_flatten big_map big_enum exchange_big; apply: eq_bigr => r _.
  by rewrite big_map big_enum; apply: eq_bigr => a _; rewrite d1.
by rewrite [in RHS](addrC (\sum_(a < nm) _)) addrK addrC.
Qed.
End Tied.
Lemma sum_iota n (F : nat -> R) : \sum_(k <- iota 0 n) F k = \sum_(k < n) F k.
Proof. by rewrite -{1}(subn0 n) -/(index_iota 0 n) big_mkord. Qed.
(** * The partition method on one class *)
Lemma block_inv phis : (forall x, List.In (Some x) phis -> posdef (phi_mx (kphi (projT2 x)))) ->
  [/\ posdef (block_diag phi_mx phis), invmx (block_diag phi_mx phis) = block_diag (fun k phi => invmx (phi_mx phi)) phis
    & ln (\det (block_diag phi_mx phis)) = \sum_(o <- phis) (if o is Some x then ln (\det (phi_mx (kphi (projT2 x)))) else 0)].
Proof.
elim: phis => [|[x|] phis IH] h /=.
- split; first by split=> [|y /negP]; [apply/matrixP => -[]|case; apply/eqP/matrixP => -[]].
  + by apply/matrixP => -[].
  + by rewrite big_nil det_mx00 ln1_.
- have [|p1 e1 l1] := IH; first by move=> y hy; apply: h; right.
  have px := h x (or_introl erefl).
  have pb := block_posdef px p1; split=> //; last first.
    by rewrite big_cons -l1 -lnM ?posdef_det // det_ublock.
  rewrite -e1 -[RHS](mulKmx (posdef_unit pb)) mulmx_block !mulmx0 !mul0mx !addr0 !add0r !mulmxV ?posdef_unit //.
  by rewrite -scalar_mx_block mulmx1.
- have [|p1 e1 l1] := IH; first by move=> y hy; apply: h; right.
  by split=> //; rewrite big_cons add0r.
Qed.
Lemma sum_in (T : Type) (l : seq T) (F G : T -> R) : (forall x, List.In x l -> F x = G x) -> \sum_(x <- l) F x = \sum_(x <- l) G x.
Proof.
elim: l => [|x l IH] h; first by rewrite !big_nil.
by rewrite !big_cons h ?IH //; [move=> y hy; apply: h; right|left].
Qed.
Lemma part0E svd phis : (forall x, List.In (Some x) phis -> posdef (phi_mx (kphi (projT2 x)))) ->
  part0 phis svd = (invmx (block_diag phi_mx phis), ln (\det (block_diag phi_mx phis))).
Proof.
move=> h; have [p e l] := block_inv h; rewrite /part0; case: ifP => D.
  congr (_, _).
  - rewrite e; apply: block_diag_ext => x hx; by have [-> _] := kinv_posdef_lem svd (h x hx).
  - rewrite l; apply: sum_in => -[x|//] hx; by have [_ ->] := kinv_posdef_lem svd (h x hx).
have P0 := Phi0E phis; rewrite /Phi0 D in P0; rewrite -P0 in p *.
have [k1 k2] := @kinv_posdef_lem svd _ (PhiD (phidiag phis)) p.
congr (_, _); last exact: k2.
rewrite -[RHS]k1 /=; congr diag_mx; by apply/rowP => i; rewrite !mxE.
Qed.

Lemma phidiagE phis : forall i, phidiag phis i ord0 = block_diag phi_mx phis i i.
Proof.
rewrite /phidiag; elim: phis => [[]//|[x|] phis IH] i /=; last exact: IH.
rewrite /block_mx !mxE; case: (@splitP (projT1 x) _ i) => j ej; rewrite !mxE; case: (@splitP (projT1 x) _ i) => k ek.
- have -> : k = j by apply: val_inj; rewrite /= -ek -ej.
  case: (kphi _) => [v|A]; last by rewrite /= mxE.
  by rewrite phi_mxD eqxx.
- by move: (ltn_ord j); rewrite -ej ek ltnNge leq_addr.
- by move: (ltn_ord k); rewrite -ek ej ltnNge leq_addr.
- have -> : k = j by apply: val_inj; apply: (@addnI (projT1 x)); rewrite /= -ek -ej.
  exact: IH.
Qed.
Section OneClass.
Variables (pos : Type) (phis : phis_t) (c : csclass pos).
Notation N := (psize phis).
Hypothesis gc : good_class phis c.
Hypothesis vp : vector_prior c.
Hypothesis os : own_separated phis.
Hypothesis fc : free_columns phis c.
Variables (Phi : 'M[R]_N) (cc : ('I_N -> option nat) * nat).
Hypothesis eP : get_phi phis [:: c] = Ok (Phi, cc).
Hypothesis pP : posdef Phi.
Notation Phi0 := (block_diag phi_mx phis).

Lemma phi_entries (i j : 'I_N) : Phi i j = Phi0 i j + class_terms phis c i j.
Proof.
have [|P [cc' [e [_ h]]]] := @get_phiE _ phis [:: c]; first by constructor.
by move: e; rewrite eP => -[-> _]; rewrite h big_seq1.
Qed.
Lemma own_posdef x : List.In (Some x) phis -> posdef (phi_mx (kphi (projT2 x))).
Proof.
case/(@nth_in _ None) => p [lp ex].
have lt (a : 'I_(projT1 x)) : (first_row phis p + a < N)%N by apply: row_in => //; rewrite ex /=.
pose f a := Ordinal (lt a).
have fi : injective f by move=> a b /(congr1 val) /= /addnI /val_inj.
have -> : phi_mx (kphi (projT2 x)) = (emx f)^T^T *m Phi *m (emx f)^T.
  apply/matrixP => a b; rewrite trmxK -mulmxA mxE (bigD1 (f a)) //= big1 ?addr0; last first.
    by move=> i ni; rewrite mxE eq_sym (negbTE ni) mul0r.
  rewrite mxE eqxx mul1r mxE (bigD1 (f b)) //= big1 ?addr0; last first.
    by move=> i ni; rewrite !mxE eq_sym (negbTE ni) mulr0.
  have lb (d : 'I_(projT1 x)) : (d < psz (nth None phis p))%N by rewrite ex /=.
  rewrite !mxE eqxx mulr1 phi_entries (class_same gc lp (lb a) (lb b)) addr0.
  by rewrite (@block_diagE phi_mx phis (f a) (f b) p p a b lp lp (lb a) (lb b)) // eqxx ex /= mgetE.
apply: posdef_congr => // y hy.
apply/matrixP => a z; rewrite [RHS]mxE.
have : ((emx f)^T *m y) (f a) z = 0 by rewrite hy mxE.
rewrite mxE (bigD1 a) //= !mxE eqxx mul1r big1 ?addr0 // => b nb.
by rewrite !mxE (inj_eq fi) (negbTE nb) mul0r.
Qed.

Lemma partition_one svd : phiinv_partition phis svd [:: c] = Ok (invmx Phi, ln (\det Phi)).
Proof.
have [s1 _ gm [K eK']] := gc.
have eK m : List.In m (cs_mem c) -> mb_k m = K by move=> h; exact: (forall_in eK' h).
have [m0 hm0] : exists m0, List.In m0 (cs_mem c) by case: (cs_mem c) s1 => // m l _; exists m; left.
pose nm := size (cs_mem c); pose mb a := nth m0 (cs_mem c) a.
have sc : same_shape phis nm K c by split.
have gmb a : (a < nm)%N -> good_member phis (mb a) by move=> la; apply: (forall_in gm); exact: nth_In.
have kmb a : (a < nm)%N -> mb_k (mb a) = K by move=> la; apply: eK; exact: nth_In.
have rl (a : 'I_nm) (r : 'I_K) : (nth 0%N (rows phis (mb a)) r < N)%N.
  apply: (allP (rows_lt (gmb a (ltn_ord a)))); apply: mem_nth; rewrite size_rows ?kmb //; exact: gmb.
pose g a r : 'I_N := Ordinal (rl a r).
have gE a r : g a r = nth 0%N (rows phis (mb a)) r :> nat by [].
have gi a b r s : g a r = g b s -> a = b /\ r = s.
  move=> /(congr1 val) /= h.
  have [||ep _] := row_same (gmb a (ltn_ord a)) (gmb b (ltn_ord b)) _ _ h; rewrite ?kmb //.
  have eab : a = b by move/eqP: ep; rewrite (psr_nth m0 gc) // => /eqP /val_inj.
  split=> //; move/eqP: h; rewrite -eab (row_idx (gmb a (ltn_ord a))) ?kmb //; by move/eqP/val_inj.
have tl a r : own_label (g a r) = None.
  apply: (@free_label _ phis [:: c] c (tie phis c r)) => //; first by constructor.
  - by move=> d [<-|].
  - by left.
  - by rewrite (tiesP _ gc eK); apply: map_f; rewrite mem_iota add0n ltn_ord.
  - by rewrite /= ; apply: in_tie; exact: nth_In.
have H1 (i j : 'I_N) : Phi i j != Phi0 i j -> exists a b r, i = g a r /\ j = g b r.
  rewrite phi_entries -subr_eq0 addrAC subrr add0r => /(class_neq0 gc) [m1 [m2 [K' [i1 i2 [ek1 ek2] [a [b [pab rr]]]]]]].
  have eKK : mb_k m1 = K by exact: eK.
  have ab : a = b.
    by move: pab; have := vp i1; case: (mb_prior m1) => [v|//] _; rewrite phi_mxD; case: (altP (a =P b)) => // _; rewrite eqxx.
  rewrite -ab {pab} in rr; have la : (a < K)%N by rewrite -eKK.
  have [a1 [l1 e1]] := nth_in m0 i1; have [a2 [l2 e2]] := nth_in m0 i2.
  case: rr => -[ei ej].
  - by exists (Ordinal l1), (Ordinal l2), (Ordinal la); split; apply: val_inj; rewrite /= -?ei -?ej /mb ?e1 ?e2.
  - by exists (Ordinal l2), (Ordinal l1), (Ordinal la); split; apply: val_inj; rewrite /= -?ei -?ej /mb ?e1 ?e2.
have H2 a r j : j != g a r -> Phi0 (g a r) j = 0 /\ Phi0 j (g a r) = 0.
  move=> ne; split; apply/eqP; apply: contraT => h.
  - by have [|o1 _] := own_diag os _ h; [rewrite eq_sym|move: o1; rewrite tl].
  - by have [|o1 o2] := own_diag os _ h; [|move: o1; rewrite o2 tl].
have pP0 : posdef Phi0 by have [] := block_inv own_posdef.
have [|s [es ws ls os' gs]] := @classes_fold _ phis nm K m0 [:: c] (None, 0%N, (part0 phis svd).2) _ I.
  by move=> d [<-|].
have {os'} := os' (or_introl _); rewrite /phiinv_partition.
move=> os'; rewrite es [rbind _ _]/=.
case eA: (s.1.1) os' => [A|] os'; last by move: (os' (fun h => ltac:(discriminate h))).
move: ws; rewrite /wfs eA => -[kA nA sk].
move: gs; rewrite /sget eA /= => gs.
case: A kA nA gs eA os' => K' nm' A /= eK2 en2; subst K' nm' => gs eA _.
have Ae r : A r = tie_mx g Phi r.
  apply/matrixP => a b; rewrite -[LHS](@ivgetE (Inverter A) r a b) gs (add0r (_ : R)) big_seq1.
  rewrite class_sum // mxE phi_entries.
  have dz : a != b -> Phi0 (g a r) (g b r) = 0.
    by move=> ab; apply: (proj1 (H2 _ _ _ _)); apply: contraNneq ab => /gi [->].
  have cvE x y (lx : (x < nm)%N) (ly : (y < nm)%N) : (x < y)%N -> cv c m0 x y r
     = class_terms phis c (nth 0%N (rows phis (mb x)) r) (nth 0%N (rows phis (mb y)) r).
    move=> xy; have lr : (r < mb_k (mb x))%N by rewrite kmb.
    have lr' : (r < mb_k (mb y))%N by rewrite kmb.
    rewrite (class_pair gc lx ly xy lr lr') (cross_value gc lx ly lr lr xy).
    rewrite /cv (cross_vec m0 (erefl nm) vp y lx) /= phi_mxD eqxx /vget insubT; congr (_ _ ord0); exact: val_inj.
  case: (ltngtP a b) => ab.
  - rewrite dz ?add0r; first by rewrite (cvE a b).
    by apply: contraTneq ab => ->; rewrite ltnn.
  - rewrite dz ?add0r; last by apply: contraTneq ab => ->; rewrite ltnn.
    rewrite (cvE b a) //= class_sym // => m hm; exact: (vector_sym (vp hm)).
  - have {ab} -> : a = b by apply: val_inj.
    have sz : size (mb_idx (mb b)) = K by have [_ _ -> _] := gmb b (ltn_ord b); exact: kmb.
    have lr : (r < size (mb_idx (mb b)))%N by rewrite sz.
    have ct0 : class_terms phis c (g b r) (g b r) = 0.
      have [p [q [lp lq e]]] := row_of (ltn_ord (g b r)); by rewrite e; exact: class_same.
    rewrite ct0 addr0 /dv /vget insubT mxE gposE; last exact: gmb.
    case: insubP => [i' _ ei|]; last by rewrite /= -/(mb b) rl.
    have -> : i' = g b r by apply: val_inj; rewrite ei.
    exact: phidiagE.
have pA r : posdef (iv (i := Inverter A) r) by rewrite /= Ae; have [] := tie_mxP gi pP H1 H2 r.
have [f [ef fE]] := invert_fold s.2 pA.
rewrite sk -[K in iota 0 K]/(iv_K (Inverter A)) ef [rbind _ _]/=.
have fT r a b : f r a b = invmx Phi (g a r) (g b r).
  by rewrite fE /= Ae; have [_ _ ->] := tie_mxP gi pP H1 H2 r.
have sT : sym (invmx Phi) by apply: sym_inv; case: pP.
have [P [eW hW]] := write_all (m0 := m0) sc gE sT fT (part0 phis svd).1.
rewrite eW [rbind _ _]/=; congr (Ok (_, _)).
  by apply: (written gi pP pP0 H1 H2) => i j; rewrite hW part0E //; exact: own_posdef.
rewrite (tied_logdet gi pP pP0 H1 H2) ls big_seq1 part0E /=; last exact: own_posdef.
congr (_ - _ + _).
- rewrite enum_iota big_map big_enum; apply: eq_bigr => a _; rewrite /mld.
  have sz : size (mb_idx (mb a)) = K by have [_ _ -> _] := gmb a (ltn_ord a); exact: kmb.
  have -> : \sum_a0 ln (diag_at phis (mb a) a0 ord0) = \sum_(k <- iota 0 K) ln (vget (diag_at phis (mb a)) k).
    rewrite -sz sum_iota; apply: eq_bigr => k _; by rewrite /vget valK.
  rewrite sum_iota; apply: eq_bigr => r _; congr (ln _).
  have lr : (r < size (mb_idx (mb a)))%N by rewrite sz.
  rewrite /vget insubT mxE gposE; last exact: gmb.
  case: insubP => [i' _ ei|]; last by rewrite /= -/(mb a) rl.
  have -> : i' = g a r by apply: val_inj; rewrite ei.
  exact: phidiagE.
- by apply: eq_bigr => r _; rewrite Ae.
Qed.
End OneClass.
(** * Entries between different cliques are left alone *)
Section Untouched.
Variables (N : nat) (Phi : 'M[R]_N) (cl : 'I_N -> option nat).
Hypothesis pP : posdef Phi.
Lemma sub_posdef (p : seq 'I_N) : uniq p -> posdef (sub_mx p Phi).
Proof.
move=> U; rewrite sub_mxE /subm -{1}[sel p]trmxK; apply: posdef_congr => // x hx.
by rewrite -[x]mul1mx -(sel_selT U) -mulmxA hx mulmx0.
Qed.
Lemma inv_total count : exists P ld, inv_cliques Phi cl count = Ok (P, ld) /\ forall i j, cl i != cl j -> P i j = Phi i j.
Proof.
have [||[P ld] [e [/= h1 h2]]] := @foldl_ok _ _ (inv_clique cl)
  (fun s d => (forall i j, cl i != cl j -> s.1 i j = Phi i j) /\
     (forall i j c, c \notin d -> cl i = Some c -> cl j = Some c -> s.1 i j = Phi i j)) (iota 0 count) (Phi, 0); first by [].
- move=> s d c [h1 h2] cin [e el].
  have cd : c \notin d by have := iota_uniq 0 count; rewrite el cat_uniq /= negb_or => /and3P [_ /andP [-> _] _].
  rewrite /inv_clique [rbind _ _]/=; case ei: (clique cl (Some c)) => [|x y].
    exists s; split=> //; split=> // i j c'; rewrite mem_rcons inE negb_or => /andP [_]; exact: h2.
  rewrite -ei; have es : sub_mx (clique cl (Some c)) s.1 = sub_mx (clique cl (Some c)) Phi.
    apply/matrixP => a b; rewrite !mxE; apply: (h2 _ _ c cd); apply/eqP;
      by rewrite -mem_clique (mem_tnth _ (in_tuple (clique cl (Some c)))).
  rewrite es posdef_unit; last by apply: sub_posdef; exact: uniq_clique.
  eexists; split; first by []. split=> [i j ij|i j c'] /=.
    rewrite mxE; case: pickP => [a /eqP ea|_]; last exact: h1.
    case: pickP => [b /eqP eb|_]; last exact: h1.
    have hm k : cl (tnth (in_tuple (clique cl (Some c))) k) = Some c.
      by apply/eqP; rewrite -mem_clique (mem_tnth _ (in_tuple (clique cl (Some c)))).
    by move: ij; rewrite -ea -eb !hm eqxx.
  rewrite mem_rcons inE negb_or => /andP [cc nd] hi hj; rewrite mxE.
  case: pickP => [a /eqP ea|_]; last exact: (h2 _ _ c').
  have : cl i = Some c by rewrite -ea; apply/eqP; rewrite -mem_clique (mem_tnth _ (in_tuple (clique cl (Some c)))).
  by rewrite hi => -[e']; move: cc; rewrite e' eqxx.
rewrite /inv_cliques e [rbind _ _]/=; eexists; eexists; split; first by [].
move=> i j ij; rewrite mxE; case: (altP (i =P j)) => [e'|_] /=; first by move: ij; rewrite e' eqxx.
exact: h1.
Qed.
End Untouched.

(** * Sparse *)
Lemma sparseE pos (phis : phis_t) (cs : seq (csclass pos)) Phi cc : get_phi phis cs = Ok (Phi, cc) -> posdef Phi ->
  phiinv_sparse phis cs = Ok (invmx Phi, ln (\det Phi)).
Proof.
move=> e p; rewrite /phiinv_sparse e [rbind _ _]/=; have [U hU] := posdef_chol p; rewrite hU.
by rewrite (cho_solveE _ (proj1 p) hU) mulmx1 (cho_logdetE (proj1 p) hU).
Qed.
Lemma sparse_err pos (phis : phis_t) (cs : seq (csclass pos)) Phi cc : get_phi phis cs = Ok (Phi, cc) -> sym Phi -> ~ posdef Phi ->
  phiinv_sparse phis cs = Err CholmodError.
Proof. by move=> e s p; rewrite /phiinv_sparse e [rbind _ _]/= chol_none. Qed.

(** * Statements *)
Lemma slices_consecutive_lem : forall phis : phis_t,
  size (slices 0 phis) = size phis /\
  (forall p, (p < size phis)%N ->
     (nth (0%N, 0%N) (slices 0 phis) p).2 = ((nth (0%N, 0%N) (slices 0 phis) p).1 + psz (nth None phis p))%N) /\
  (forall p, (p.+1 < size phis)%N -> (nth (0%N, 0%N) (slices 0 phis) p.+1).1 = (nth (0%N, 0%N) (slices 0 phis) p).2) /\
  ((0 < size phis)%N -> (head (0%N, 0%N) (slices 0 phis)).1 = 0%N /\ (last (0%N, 0%N) (slices 0 phis)).2 = psize phis).
Proof.
move=> phis; split; first exact: size_slices.
have e p : (p < size phis)%N -> nth (0%N, 0%N) (slices 0 phis) p = (first_row phis p, first_row phis p.+1).
  by move=> lp; rewrite nth_slices // !add0n.
split; first by move=> p lp; rewrite e //= first_rowS.
split; first by move=> p lp; rewrite !e // ltnW.
move=> lp; rewrite -nth0 -nth_last size_slices !e ?ltn_predL //=.
by rewrite prednK // first_row_size first_row0.
Qed.
Lemma slices_partition_lem : forall (phis : phis_t) r, (r < psize phis)%N ->
  exists p, [/\ (p < size phis)%N, (nth (0%N, 0%N) (slices 0 phis) p).1 <= r, (r < (nth (0%N, 0%N) (slices 0 phis) p).2)
    & forall q, (q < size phis)%N -> (nth (0%N, 0%N) (slices 0 phis) q).1 <= r -> (r < (nth (0%N, 0%N) (slices 0 phis) q).2) -> q = p]%N.
Proof.
move=> phis r lr; have [p [i [lp li e]]] := row_of lr.
have s q : (q < size phis)%N -> nth (0%N, 0%N) (slices 0 phis) q = (first_row phis q, (first_row phis q + psz (nth None phis q))%N).
  by move=> lq; rewrite nth_slices // !add0n first_rowS.
exists p; rewrite s //= e leq_addr ltn_add2l; split=> // q lq; rewrite s //= => h1 h2.
have lj : (first_row phis p + i - first_row phis q < psz (nth None phis q))%N by rewrite ltn_subLR.
have : (first_row phis q + (first_row phis p + i - first_row phis q) = first_row phis p + i)%N by rewrite subnKC.
by case/(row_inj lq lp lj li).
Qed.

Lemma phi_own_lem : forall pos (phis : phis_t) (cs : seq (csclass pos)) Phi cc p x (a b : 'I_(projT1 x)) (i j : 'I_(psize phis)),
  List.Forall (@good_class pos phis) cs -> get_phi phis cs = Ok (Phi, cc) -> nth None phis p = Some x ->
  val i = ((nth (0%N, 0%N) (slices 0 phis) p).1 + a)%N -> val j = ((nth (0%N, 0%N) (slices 0 phis) p).1 + b)%N ->
  Phi i j = phi_mx (kphi (projT2 x)) a b.
Proof.
move=> pos phis cs Phi cc p x a b i j gcs e ex.
have lp : (p < size phis)%N by case: (ltnP p (size phis)) => // h; move: ex; rewrite nth_default.
rewrite nth_slices // add0n /= => ei ej; have [P [cc' [e' [_ h]]]] := get_phiE gcs.
move: e'; rewrite e => -[-> _]; rewrite h.
have lx (d : 'I_(projT1 x)) : (d < psz (nth None phis p))%N by rewrite ex /=.
rewrite (@block_diagE phi_mx phis i j p p a b lp lp (lx a) (lx b) ei ej) eqxx ex /= mgetE.
rewrite big_zero ?addr0 // => c hc; rewrite [nat_of_ord i]ei [nat_of_ord j]ej; apply: class_same => //; exact: (forall_in gcs hc).
Qed.

Lemma phi_cross_lem : forall pos (phis : phis_t) (cs : seq (csclass pos)) Phi cc p q (i j : 'I_(psize phis)),
  List.Forall (@good_class pos phis) cs -> get_phi phis cs = Ok (Phi, cc) -> p <> q -> (p < size phis)%N -> (q < size phis)%N ->
  ((nth (0%N, 0%N) (slices 0 phis) p).1 <= i < (nth (0%N, 0%N) (slices 0 phis) p).2)%N ->
  ((nth (0%N, 0%N) (slices 0 phis) q).1 <= j < (nth (0%N, 0%N) (slices 0 phis) q).2)%N ->
  Phi i j = (\sum_(c <- cs) \sum_(m12 <- pairs (cs_mem c)) cross_terms phis c m12.1 m12.2 i j)%R.
Proof.
move=> pos phis cs Phi cc p q i j gcs e pq lp lq; rewrite !nth_slices // !add0n /= !first_rowS // => /andP [i1 i2] /andP [j1 j2].
have [P [cc' [e' [_ h]]]] := get_phiE gcs; move: e'; rewrite e => -[-> _]; rewrite h.
have li : (i - first_row phis p < psz (nth None phis p))%N by rewrite ltn_subLR.
have lj : (j - first_row phis q < psz (nth None phis q))%N by rewrite ltn_subLR.
rewrite (@block_diagE phi_mx phis i j p q _ _ lp lq li lj) /= ?subnKC //.
by case: eqP pq => // _ _; rewrite add0r.
Qed.

Lemma phi_pair_lem : forall pos (phis : phis_t) (c : csclass pos) Phi cc m0 a b (i j : 'I_(psize phis)) (k l : 'I_(mb_k (nth m0 (cs_mem c) a))),
  good_class phis c -> get_phi phis [:: c] = Ok (Phi, cc) -> (a < b < size (cs_mem c))%N ->
  let m1 := nth m0 (cs_mem c) a in let m2 := nth m0 (cs_mem c) b in
  val i = ((nth (0%N, 0%N) (slices 0 phis) (mb_psr m1)).1 + nth 0%N (mb_idx m1) k)%N ->
  val j = ((nth (0%N, 0%N) (slices 0 phis) (mb_psr m2)).1 + nth 0%N (mb_idx m2) l)%N ->
  Phi i j = cs_orf c (mb_pos m1) (mb_pos m2) * phi_mx (mb_prior m1) k l.
Proof.
move=> pos phis c Phi cc m0 a b i j k l gc e /andP [ab lb] m1 m2.
have la : (a < size (cs_mem c))%N by exact: ltn_trans lb.
have [_ _ gm [K eK]] := gc.
have g1 : good_member phis m1 by apply: (forall_in gm); exact: nth_In.
have g2 : good_member phis m2 by apply: (forall_in gm); exact: nth_In.
have ek : mb_k m1 = mb_k m2 by rewrite !(forall_in eK) //; exact: nth_In.
have [lp1 _ sz1 al1] := g1; have [lp2 _ sz2 al2] := g2.
rewrite !nth_slices // !add0n /= => ei ej.
have [|P [cc' [e' [_ h]]]] := @get_phiE _ phis [:: c]; first by constructor.
move: e'; rewrite e => -[-> _]; rewrite h big_seq1.
have l2 : (l < mb_k m2)%N by rewrite -ek.
have r1 : val i = nth 0%N (rows phis m1) k by rewrite /= ei (nth_map 0%N) // sz1.
have r2 : val j = nth 0%N (rows phis m2) l by rewrite /= ej (nth_map 0%N) // sz2.
rewrite (@block_diagE phi_mx phis i j (mb_psr m1) (mb_psr m2) (nth 0%N (mb_idx m1) k) (nth 0%N (mb_idx m2) l) lp1 lp2 _ _ ei ej); first last.
- by apply: (allP al2); apply: mem_nth; rewrite sz2.
- by apply: (allP al1); apply: mem_nth; rewrite sz1.
rewrite (psr_nth m0 gc la lb) (ltn_eqF ab) add0r [nat_of_ord i]r1 [nat_of_ord j]r2.
rewrite (class_pair gc la lb ab (ltn_ord k) l2) (cross_value gc la lb (ltn_ord k) (ltn_ord l) ab).
rewrite /phicross phi_scaleE mxE; congr (_ * phi_mx _ _ _); exact: val_inj.
Qed.

Lemma phi_symmetric_lem : forall pos (phis : phis_t) (cs : seq (csclass pos)) Phi cc,
  List.Forall (@good_class pos phis) cs -> get_phi phis cs = Ok (Phi, cc) ->
  (forall p x, nth None phis p = Some x -> sym (phi_mx (kphi (projT2 x)))) ->
  (forall c m, List.In c cs -> List.In m (cs_mem c) -> sym (phi_mx (mb_prior m))) -> sym Phi.
Proof.
move=> pos phis cs Phi cc gcs e so sc; have [P [cc' [e' [_ h]]]] := get_phiE gcs; move: e'; rewrite e => -[-> _].
apply/matrixP => i j; rewrite mxE !h; congr (_ + _); last first.
  by apply: sum_in => c hc; apply: class_sym => m; exact: sc.
have [p [a [lp la ei]]] := row_of (ltn_ord i); have [q [b [lq lb ej]]] := row_of (ltn_ord j).
rewrite (block_diagE phi_mx lp lq la lb ei ej) (block_diagE phi_mx lq lp lb la ej ei) eq_sym.
case: (altP (p =P q)) => [epq|//]; rewrite -epq in lb *; case ex: (nth None phis p) la lb => [x|] //= la lb.
by rewrite -[a]/(val (Ordinal la)) -[b]/(val (Ordinal lb)) !mgetE -[in RHS](so p x ex) mxE.
Qed.

Lemma cliques_separated_lem : forall N (Phi : 'M[R]_N) cl n,
  (forall i j, i != j -> Phi i j != 0 -> cl i != None /\ cl i = cl j) -> (forall i c, cl i = Some c -> (c < n)%N) ->
  Phi \in unitmx -> (forall i, cl i = None -> 0 < Phi i i) ->
  inv_cliques Phi cl n = Ok (invmx Phi, ln `|\det Phi|).
Proof. by move=> N Phi cl n S L U D; exact: inv_cliquesE. Qed.

Lemma cliques_okay pos (phis : phis_t) (cs : seq (csclass pos)) Phi cl n : get_phi phis cs = Ok (Phi, (cl, n)) ->
  separates Phi cl -> (forall i c, cl i = Some c -> (c < n)%N) -> posdef Phi -> phiinv_cliques phis cs = Ok (invmx Phi, ln (\det Phi)).
Proof.
move=> e S L p; rewrite /phiinv_cliques e [rbind _ _]/= inv_cliquesE //.
- by rewrite gtr0_norm // posdef_det.
- exact: posdef_unit.
- by move=> i _; exact: posdef_entry.
Qed.
Lemma cliques_vector_lem : forall pos (phis : phis_t) (cs : seq (csclass pos)) Phi cc,
  List.Forall (@good_class pos phis) cs -> good_count phis -> own_separated phis ->
  (forall c, List.In c cs -> free_columns phis c) -> (forall c, List.In c cs -> vector_prior c) -> aligned phis cs ->
  get_phi phis cs = Ok (Phi, cc) -> posdef Phi ->
  phiinv_cliques phis cs = Ok (invmx Phi, ln (\det Phi)).
Proof.
move=> pos phis cs Phi cc gcs gct os fr vp al e p; have [P [cl [n [e' S L]]]] := separated gcs gct os fr vp al.
by move: e'; rewrite e => -[eP ec]; apply: cliques_okay p => //; [rewrite e ec|rewrite eP|].
Qed.
Lemma cliques_dense_lem : forall pos (phis : phis_t) (c : csclass pos) Phi cc,
  good_class phis c -> good_count phis -> own_separated phis -> one_clique phis c ->
  get_phi phis [:: c] = Ok (Phi, cc) -> posdef Phi ->
  phiinv_cliques phis [:: c] = Ok (invmx Phi, ln (\det Phi)).
Proof.
move=> pos phis c Phi cc gc gct os oc e p; have [P [cl [n [e' S L]]]] := separated_dense gc gct os oc.
by move: e'; rewrite e => -[eP ec]; apply: cliques_okay p => //; [rewrite e ec|rewrite eP|].
Qed.
Lemma cliques_untouched_lem : forall pos (phis : phis_t) (cs : seq (csclass pos)) Phi cl n,
  get_phi phis cs = Ok (Phi, (cl, n)) -> posdef Phi ->
  exists P ld, phiinv_cliques phis cs = Ok (P, ld) /\ forall i j, cl i != cl j -> P i j = Phi i j.
Proof. by move=> pos phis cs Phi cl n e p; rewrite /phiinv_cliques e; exact: inv_total. Qed.

Lemma partition_one_class_lem : forall pos (phis : phis_t) svd (c : csclass pos) Phi cc,
  good_class phis c -> vector_prior c -> own_separated phis -> free_columns phis c ->
  get_phi phis [:: c] = Ok (Phi, cc) -> posdef Phi ->
  phiinv_partition phis svd [:: c] = Ok (invmx Phi, ln (\det Phi)).
Proof. by move=> pos phis svd c Phi cc gc vp os fc e p; exact: partition_one e p svd. Qed.

Lemma methods_agree_lem : forall pos (phis : phis_t) svd (c : csclass pos) Phi cc method,
  good_class phis c -> vector_prior c -> own_separated phis -> free_columns phis c -> good_count phis ->
  get_phi phis [:: c] = Ok (Phi, cc) -> posdef Phi ->
  method = "cliques"%string \/ method = "partition"%string \/ method = "sparse"%string ->
  get_phiinv phis svd [:: c] method = Ok (invmx Phi, ln (\det Phi)).
Proof.
move=> pos phis svd c Phi cc method gc vp os fc gct e p [->|[->|->]]; rewrite /get_phiinv /=.
- apply: (cliques_vector_lem _ gct os _ _ (aligned1 gc) e p); first by constructor.
  + by move=> d [<-|].
  + by move=> d [<-|].
- exact: partition_one_class_lem e p.
- exact: sparseE e p.
Qed.

Lemma method_unknown_lem : forall pos (phis : phis_t) svd (cs : seq (csclass pos)) method,
  method <> "cliques"%string -> method <> "partition"%string -> method <> "sparse"%string ->
  get_phiinv phis svd cs method = Err NotImplementedError.
Proof.
move=> pos phis svd cs method h1 h2 h3; rewrite /get_phiinv.
by do 3! (case: String.eqb_spec => // _).
Qed.
(** * Examples *)
Definition one_psr (k : nat) (phi : phi_t k) : option {k : nat & kmat k} := Some (existT _ k (knew phi)).
Definition ex_phis : phis_t := [:: one_psr (PhiD (const_mx 2%:R : 'cV[R]_1)); one_psr (PhiD (const_mx 2%:R : 'cV[R]_1))].
Definition ex_mem (p : nat) (t : R) : member unit := Member p [:: 0%N] (PhiD (const_mx t : 'cV[R]_1)) tt.
Definition ex_cls (t : R) : csclass unit := CsClass (fun _ _ => 1%R) [:: ex_mem 0 t; ex_mem 1 t].

Lemma ex_good t : good_class ex_phis (ex_cls t).
Proof.
split=> //; last by exists 1%N; do 2! constructor.
by do 2! constructor.
Qed.
Lemma ex_vector t : vector_prior (ex_cls t).
Proof. by move=> m [<-|[<-|]]. Qed.
Lemma ex_own : own_separated ex_phis.
Proof.
move=> [|[|p]] x a b /= ex ab; last by rewrite nth_nil in ex.
- by case: ex => ex; subst x; rewrite phi_mxD (negbTE ab) eqxx.
- by case: ex => ex; subst x; rewrite phi_mxD (negbTE ab) eqxx.
Qed.
Lemma ex_free t : free_columns ex_phis (ex_cls t).
Proof. by move=> m x a [<-|[<-|]] //= [ex]; subst x. Qed.
Lemma ex_count : good_count ex_phis.
Proof. by move=> [|[|p]] x a c //=; [move=> [ex]; subst x|move=> [ex]; subst x|rewrite nth_nil]. Qed.
Lemma ex_own_posdef x : List.In (Some x) ex_phis -> posdef (phi_mx (kphi (projT2 x))).
Proof.
have p : posdef (diag (const_mx 2%:R : 'cV[R]_1)) by apply: diag_posdef => i; rewrite mxE ltr0n.
by case=> [[ex]|[[ex]|//]]; subst x.
Qed.

Definition ex_mx (t : R) : 'M[R]_2 := \matrix_(i, j) (if i == j then 2%:R else t).
Lemma ex_block (i j : 'I_(psize ex_phis)) : block_diag phi_mx ex_phis i j = if i == j then 2%:R else 0.
Proof.
have [p [a [lp la ei]]] := row_of (ltn_ord i); have [q [b [lq lb ej]]] := row_of (ltn_ord j).
rewrite (block_diagE phi_mx lp lq la lb ei ej).
case: p lp la ei => [|[|//]] _; rewrite /= ltnS leqn0 => /eqP -> ei;
  case: q lq lb ej => [|[|//]] _; rewrite /= ltnS leqn0 => /eqP -> ej.
- have -> : i = j by apply: val_inj; rewrite /= ei ej.
  by rewrite eqxx -[0%N]/(val (@ord0 0)) mgetE phi_mxD eqxx mxE.
- by case: eqP => // e; move: ei; rewrite e ej.
- by case: eqP => // e; move: ei; rewrite e ej.
- have -> : i = j by apply: val_inj; rewrite /= ei ej.
  by rewrite eqxx -[0%N]/(val (@ord0 0)) mgetE phi_mxD eqxx mxE.
Qed.
Lemma ex_terms t (i j : 'I_(psize ex_phis)) : class_terms ex_phis (ex_cls t) i j = if i == j then 0 else t.
Proof.
rewrite /class_terms /= big_seq1 /cross_terms /= !big_ord1 phi_mxD eqxx mxE mul1r.
by case: i => [[|[|i]] li] //; case: j => [[|[|j]] lj] //=; rewrite ?addr0 ?add0r ?mulr0 ?mulr1.
Qed.
Lemma ex_phi cs : List.Forall (fun c => exists t, c = ex_cls t) cs -> exists (Phi : 'M[R]_(psize ex_phis)) cc,
  get_phi ex_phis cs = Ok (Phi, cc) /\
  Phi = ex_mx (\sum_(c <- cs) (if cs_mem c is m :: _ then (if mb_prior m is PhiD v then \sum_i v i ord0 else 0) else 0)).
Proof.
move=> h; have [|Phi [cc [e [_ hP]]]] := @get_phiE _ ex_phis cs.
  by apply: forall_sub h => c [t ->]; exact: ex_good.
exists Phi, cc; split=> //; apply/matrixP => i j; rewrite hP ex_block mxE.
have -> : \sum_(c <- cs) class_terms ex_phis c i j = if i == j then 0 else
   \sum_(c <- cs) (if cs_mem c is m :: _ then (if mb_prior m is PhiD v then \sum_i v i ord0 else 0) else 0).
  case: ifP => ij.
    by apply: big_zero => c /(forall_in h) [t ->]; rewrite ex_terms ij.
  by apply: sum_in => c /(forall_in h) [t ->]; rewrite ex_terms ij /= big_ord1 mxE.
by case: ifP => _; rewrite ?addr0 ?add0r.
Qed.
Lemma ex_mx_posdef d t : 0 <= t -> t < d -> posdef (\matrix_(i < 2, j < 2) (if i == j then d else t)).
Proof.
move=> t0 t2; have -> : (\matrix_(i < 2, j < 2) (if i == j then d else t)) = (d - t)%:M + t *: const_mx 1 :> 'M[R]_2.
  by apply/matrixP => i j; rewrite !mxE mulr1; case: eqP => _; rewrite ?mulr1n ?mulr0n ?subrK ?add0r.
apply: posdefD; first by apply: scalar_posdef; rewrite subr_gt0.
- by apply/matrixP => i j; rewrite !mxE.
- move=> x; have -> : quad (t *: const_mx 1) x = t * (\sum_i x i ord0) ^+ 2.
    rewrite /quad -scalemxAr -scalemxAl mxE; congr (_ * _); rewrite mxE expr2 mulr_sumr; apply: eq_bigr => i _.
    by rewrite mxE; congr (_ * _); apply: eq_bigr => j _; rewrite !mxE mulr1.
  by rewrite mulr_ge0 // sqr_ge0.
Qed.
Lemma half_ge0 : 0 <= (2%:R^-1 : R). Proof. by rewrite invr_ge0 ler0n. Qed.
Lemma one_lt2 : (1 : R) < 2%:R. Proof. by rewrite ltr1n. Qed.
Lemma ex_one : exists (Phi : 'M[R]_(psize ex_phis)) cc, get_phi ex_phis [:: ex_cls 1] = Ok (Phi, cc) /\ posdef Phi /\ Phi = ex_mx 1.
Proof.
have [|Phi [cc [e hP]]] := @ex_phi [:: ex_cls 1]; first by constructor=> //; exists 1.
exists Phi, cc; split=> //; rewrite hP big_seq1 /= big_ord1 mxE; split=> //.
by apply: ex_mx_posdef; [exact: ler01|exact: one_lt2].
Qed.

Lemma ex_rows h (a : 'I_2) (r : 'I_1) :
  (a : 'I_(psize ex_phis)) = nth 0%N (rows ex_phis (nth (ex_mem 0 h) (cs_mem (ex_cls h)) a)) r :> nat.
Proof.
have -> : val r = 0%N by case: r => -[].
by case: a => [[|[|a]] la].
Qed.
Lemma ex_dv h (r : 'I_1) x : (x < 2)%N -> dv ex_phis (ex_cls h) (ex_mem 0 h) x r = 2%:R.
Proof.
move=> lx; have gm : good_member ex_phis (nth (ex_mem 0 h) (cs_mem (ex_cls h)) x).
  by case: (ex_good h) => _ _ gm _; apply: (forall_in gm); exact: nth_In.
have sz : size (mb_idx (nth (ex_mem 0 h) (cs_mem (ex_cls h)) x)) = 1%N by case: x lx gm => [|[|x]].
have lr : (r < size (mb_idx (nth (ex_mem 0%N h) (cs_mem (ex_cls h)) x)))%N by rewrite sz.
rewrite /dv /vget insubT mxE gposE //; case: insubP => [i' _ _|]; first by rewrite phidiagE ex_block eqxx.
by rewrite (allP (rows_lt gm)) //; apply: mem_nth; rewrite size_map.
Qed.
Lemma ex_cv h (r : 'I_1) x y : (x < 2)%N -> cv (ex_cls h) (ex_mem 0 h) x y r = h.
Proof.
move=> lx; rewrite /cv /vget; case: x lx => [|[|x]] // _; rewrite insubT; do ?[exact: ltn_ord]; by move=> l0; rewrite /= !mxE mul1r.
Qed.
Lemma ex_sum h (r : 'I_1) (a b : 'I_2) :
  \sum_(i <- iota 0 2) mterm ex_phis 2 (ex_cls h) (ex_mem 0 h) i r a b = if a == b then 2%:R else h.
Proof.
rewrite class_sum //; case: (ltngtP a b) => ab; rewrite ?ex_cv ?ex_dv //.
- by case: eqP ab => // ->; rewrite ltnn.
- by case: eqP ab => // ->; rewrite ltnn.
- have -> : a = b by apply: val_inj.
  by rewrite eqxx.
Qed.
(** Two classes. *)
Lemma partition_two_classes_refuted_lem : exists (pos : Type) (phis : phis_t) (cs : seq (csclass pos)) (Phi P : 'M[R]_(psize phis)) cc ld,
  size cs = 2%N /\ List.Forall (@good_class pos phis) cs /\ own_separated phis /\ good_count phis /\
  (forall c, List.In c cs -> vector_prior c /\ free_columns phis c) /\ aligned phis cs /\
  get_phi phis cs = Ok (Phi, cc) /\ posdef Phi /\
  (forall svd, phiinv_partition phis svd cs = Ok (P, ld)) /\ P *m Phi <> 1%:M.
Proof.
have [h hh] : exists h : R, h + h = 1 by exists 2%:R^-1; rewrite -(mulr2n 2%:R^-1) -(mulr_natl 2%:R^-1) mulfV // pnatr_eq0.
pose cs := [:: ex_cls h; ex_cls h].
have [|Phi [cc [e hP]]] := @ex_phi cs; first by do 2! (constructor; first by exists h).
have {hP} hP : Phi = ex_mx 1 by rewrite hP /cs big_cons big_seq1 /= !big_ord1 !mxE hh.
pose M : 'M[R]_2 := \matrix_(i < 2, j < 2) (if i == j then 4%:R else 1).
have pM : posdef M by apply: ex_mx_posdef; rewrite ?ler01 // ltr1n.
have pP : posdef Phi by rewrite hP; apply: ex_mx_posdef; [exact: ler01|exact: one_lt2].
pose m0 := ex_mem 0 h.
have sc c : List.In c cs -> same_shape ex_phis 2 1 c.
  by move=> [<-|[<-|//]]; split=> //; [exact: ex_good|move=> m [<-|[<-|]]|exact: ex_vector|exact: ex_good|move=> m [<-|[<-|]]|exact: ex_vector].
pose ld0 := ln (\det (block_diag phi_mx ex_phis)).
have [s [es ws ls os' gs]] := @classes_fold _ ex_phis 2 1 m0 cs (None, 0%N, ld0) sc I.
have {os'} : isSome s.1.1 by apply: os'; left.
case eA: (s.1.1) => [A|//] _; move: ws; rewrite /wfs eA => -[kA nA sk].
move: gs; rewrite /sget eA /= => gs.
case: A kA nA gs eA => K' nm' A /= eK2 en2; subst K' nm' => gs eA.
have gE := ex_rows h.
have Ae r : A r = M.
  apply/matrixP => a b; rewrite -[LHS](@ivgetE (Inverter A) r a b) gs (add0r (_ : R)) big_cons big_seq1.
  rewrite (ex_sum h r a b) mxE; case: eqP => _; last exact: hh.
  by rewrite -natrD.
have pA r : posdef (iv (i := Inverter A) r) by rewrite /= Ae.
have [f [ef fE]] := invert_fold s.2 pA.
have fT r a b : f r a b = (invmx M : 'M[R]_(psize ex_phis)) a b by rewrite fE /= Ae.
have sT : sym (invmx M) by apply: sym_inv; case: pM.
have [P [eW hW]] := @write_all _ ex_phis 2 1 (ex_cls h) m0 (sc _ (or_introl erefl)) f (invmx M) (fun a r => a) gE sT fT (invmx (block_diag phi_mx ex_phis)).
have eP : P = invmx M.
  apply/matrixP => i j; rewrite hW; clear; case: ifPn => // /negP [].
  by apply/existsP; exists i; apply/existsP; exists j; apply/existsP; exists ord0; rewrite !eqxx.
have part svd : phiinv_partition ex_phis svd cs = Ok (P, s.2 + \sum_r ln (\det (A r))).
  rewrite /phiinv_partition (part0E svd ex_own_posdef) es [rbind _ _]/= eA.
  rewrite sk -[iota 0 1]/(iota 0 (iv_K (Inverter A))) ef; exact: (congr1 (fun r => rbind r (fun P0 => Ok (P0, s.2 + \sum_r ln (\det (A r))))) eW).
clear es eW ef hW fE fT gs eA; clearbody ld0.
exists unit, ex_phis, cs, Phi, P, cc, (s.2 + \sum_r ln (\det (A r))).
split; first reflexivity. split; first by clear; do 2! (constructor; first exact: ex_good).
split; first exact: ex_own. split; first exact: ex_count.
split; first by clear; move=> c [<-|[<-|//]]; split; [exact: ex_vector|exact: ex_free|exact: ex_vector|exact: ex_free].
split.
  clear; move=> c d t u r hc hd.
  have -> : c = ex_cls h by case: hc => [<-|[<-|//]].
  have -> : d = ex_cls h by case: hd => [<-|[<-|//]].
  exact: (aligned1 (ex_good h) (or_introl erefl) (or_introl erefl)).
split; first exact: e. split; first exact: pP. split; first exact: part.
rewrite eP => E; have : Phi = M by rewrite -[LHS](mulKVmx (posdef_unit pM)) E mulmx1.
rewrite hP => /matrixP /(_ ord0 ord0); rewrite !mxE !eqxx; clear => /eqP.
by rewrite eqr_nat.
Qed.
(** A common signal on one column of a dense prior. *)
Definition bad_own : 'M[R]_2 := \matrix_(i, j) (if i == j then (if i == ord0 then 3%:R else 2%:R) else 1).
Definition bad_phis : phis_t :=
  [:: Some (existT _ 2%N (KMat (PhiM bad_own) (fun _ => Some 0%N) 1));
      Some (existT _ 1%N (KMat (PhiM (const_mx 2%:R : 'M[R]_1)) (fun _ => Some 0%N) 1))].
Definition bad_cls : csclass unit := ex_cls 1.
Lemma bad_good : good_class bad_phis bad_cls.
Proof.
split=> //; last by exists 1%N; do 2! constructor.
by do 2! constructor.
Qed.
Lemma bad_count : good_count bad_phis.
Proof. by move=> [|[|p]] x a c /= ex; [case: ex => ex; subst x => -[<-]|case: ex => ex; subst x => -[<-]|rewrite nth_nil in ex]. Qed.
Lemma bad_own_sep : own_separated bad_phis.
Proof. by move=> [|[|p]] x a b /= ex; [case: ex => ex; subst x|case: ex => ex; subst x|rewrite nth_nil in ex]. Qed.
Definition b0 : 'I_(psize bad_phis) := @Ordinal 3 0 isT.
Definition b1 : 'I_(psize bad_phis) := @Ordinal 3 1 isT.
Definition b2 : 'I_(psize bad_phis) := @Ordinal 3 2 isT.
Definition bad_mx : 'M[R]_3 := 1%:M + (\matrix_(i, j) ((i < 2)%N && (j < 2)%N)%:R) + (\matrix_(i, j) ((val i != 1%N) && (val j != 1%N))%:R).
Lemma ind_sym n (q : pred 'I_n) : sym (\matrix_(i, j) (q i && q j)%:R : 'M[R]_n).
Proof. by apply/matrixP => i j; rewrite !mxE andbC. Qed.
Lemma ind_ge0 n (q : pred 'I_n) (x : 'cV[R]_n) : 0 <= quad (\matrix_(i, j) (q i && q j)%:R) x.
Proof.
have -> : quad (\matrix_(i, j) (q i && q j)%:R) x = (\sum_i (q i)%:R * x i ord0) ^+ 2; last exact: sqr_ge0.
rewrite /quad mxE expr2 mulr_sumr; apply: eq_bigr => j _; rewrite mxE [RHS]mulrA; congr (_ * _); rewrite mulr_suml.
by apply: eq_bigr => i _; rewrite !mxE -mulnb natrM mulrA [x i ord0 * _]mulrC.
Qed.
Lemma bad_posdef : posdef bad_mx.
Proof.
apply: posdefD; last by move=> x; exact: (@ind_ge0 _ (fun i => val i != 1%N)).
  apply: posdefD; [exact: posdef1|exact: (@ind_sym _ (fun i => i < 2)%N)|by move=> x; exact: (@ind_ge0 _ (fun i => i < 2)%N)].
exact: (@ind_sym _ (fun i => val i != 1%N)).
Qed.
Lemma bad_block (i j : 'I_(psize bad_phis)) : block_diag phi_mx bad_phis i j =
  if (i < 2)%N && (j < 2)%N then (if i == j then (if i == b0 then 3%:R else 2%:R) else 1) else if i == j then 2%:R else 0.
Proof.
have [p [a [lp la ei]]] := row_of (ltn_ord i); have [q [b [lq lb ej]]] := row_of (ltn_ord j).
rewrite (block_diagE phi_mx lp lq la lb ei ej).
have ee : (i == j) = (val i == val j) by [].
have e0 : (i == b0) = (val i == 0%N) by [].
rewrite ee e0 /= ei ej {ei ej ee e0}.
case: p lp la => [|[|//]] _; case: q lq lb => [|[|//]] _.
- rewrite /first_row /= => lb la; rewrite !add0n la lb /=.
  by rewrite -[a]/(val (Ordinal la)) -[b]/(val (Ordinal lb)) mgetE mxE.
- by rewrite /first_row /= => lb la; rewrite !add0n la; case: b lb => //; case: a la => [|[|a]].
- by rewrite /first_row /= => lb la; case: a la => //; case: b lb => [|[|b]].
- rewrite /first_row /= => lb la; case: a la => // la; case: b lb => // lb /=.
  by rewrite -[0%N]/(val (@ord0 0)) mgetE mxE.
Qed.
Lemma bad_terms (i j : 'I_(psize bad_phis)) : class_terms bad_phis bad_cls i j =
  (((i == b0) && (j == b2)) || ((i == b2) && (j == b0)))%:R.
Proof.
rewrite /class_terms /= big_seq1 /cross_terms /= !big_ord1 phi_mxD eqxx mxE !mul1r.
by case: i => [[|[|[|i]]] li] //; case: j => [[|[|[|j]]] lj] //=; rewrite ?addr0 ?add0r.
Qed.
Lemma bad_labels : exists f, set_pulsar_cliques bad_phis = (f, 2%N) /\ [/\ f b0 = Some 0%N, f b1 = Some 0%N & f b2 = Some 1%N].
Proof.
have hit k (a : 'I_k) : [exists a : 'I_k, Some 0%N == Some 0%N] by apply/existsP; exists a.
rewrite /set_pulsar_cliques /= /set_pulsar_clique !(hit _ ord0); eexists; split; first by [].
have n1 x : (x < 2)%N -> [exists a : 'I_1, (0 + 2 + a == x)%N] = false.
  by move=> lx; apply/existsP => -[a /= /eqP e]; move: lx; rewrite -e.
split=> /=.
- by rewrite n1 // ifT //; apply/existsP; exists (@Ordinal 2 0 isT).
- by rewrite n1 // ifT //; apply/existsP; exists (@Ordinal 2 1 isT).
- by rewrite ifT //; apply/existsP; exists ord0.
Qed.
Lemma bad_phi : exists (Phi : 'M[R]_(psize bad_phis)) cl n,
  [/\ get_phi bad_phis [:: bad_cls] = Ok (Phi, (cl, n)), Phi = bad_mx, cl b0 != cl b1 & cl b2 = cl b0].
Proof.
have [|Phi [cc [e [el hP]]]] := @get_phiE _ bad_phis [:: bad_cls]; first by constructor=> //; exact: bad_good.
exists Phi, cc.1, cc.2; rewrite -surjective_pairing.
have eP : Phi = bad_mx.
  clear e el; apply/matrixP => i j; rewrite hP big_seq1 bad_block bad_terms !mxE.
  case: i => [[|[|[|i]]] li] //; case: j => [[|[|[|j]]] lj] //=;
  by rewrite -?natrD ?addr0 ?add0r ?mulr0n ?mulr1n ?add0n ?addn0.
have [f [ef [f0 f1 f2]]] := bad_labels.
have [cl0 cl2] : cc.1 b0 != cc.1 b1 /\ cc.1 b2 = cc.1 b0; last by split.
move: el; clear e hP eP; rewrite /label_fold ef -[foldl _ _ _]/(@set_row bad_phis (Ok (f, 2%N)) [:: 0%N; 2%N]) set_rowE //.
have [//|m [n' [-> _ h]]] := @ksetE _ f 2 [:: 0%N; 2%N].
have [|_ _ /(_ b2 1%N)] := h; first by exists b0; rewrite f0.
rewrite f2 => /(_ isT erefl) lm [<-] /=; split=> //; rewrite f1.
by case: m lm {h}.
Qed.
Lemma cliques_refuted_lem : exists (pos : Type) (phis : phis_t) (c : csclass pos) (Phi P : 'M[R]_(psize phis)) cc ld,
  good_class phis c /\ vector_prior c /\ own_separated phis /\ good_count phis /\
  get_phi phis [:: c] = Ok (Phi, cc) /\ posdef Phi /\
  phiinv_cliques phis [:: c] = Ok (P, ld) /\ P *m Phi <> 1%:M.
Proof.
have [Phi [cl [n [e eP n01 n20]]]] := bad_phi.
have pP : posdef Phi by rewrite eP; exact: bad_posdef.
have [P [ld [eI h]]] := cliques_untouched_lem e pP.
exists unit, bad_phis, bad_cls, Phi, P, (cl, n), ld.
split; first exact: bad_good. split; first exact: ex_vector. split; first exact: bad_own_sep.
split; first exact: bad_count. split; first exact: e. split; first exact: pP. split; first exact: eI.
have n10 : cl b1 != cl b0 by rewrite eq_sym.
have n12 : cl b1 != cl b2 by rewrite n20.
have h10 := h _ _ n10; have h12 := h _ _ n12; clear e eI h.
move=> /matrixP /(_ b1 b2); rewrite mxE [RHS]mxE.
have -> : \sum_(j : 'I_(psize bad_phis)) P b1 j * Phi j b2 = P b1 b0 * Phi b0 b2 + P b1 b1 * Phi b1 b2 + P b1 b2 * Phi b2 b2.
  rewrite (bigD1 b0) // (bigD1 b1) // (bigD1 b2) //= big1 ?addr0 ?addrA // => i.
  by case: i => [[|[|[|i]]] li].
rewrite h10 h12 eP !mxE /= !mulr0n !add0r !addr0 mulr0 mul0r mulr1 !addr0.
by move/eqP; rewrite oner_eq0.
Qed.

(** A dense common prior over the whole basis. *)
Definition dense_own : 'M[R]_2 := \matrix_(i, j) (if i == j then 3%:R else 1).
Definition dense_psr : option {k : nat & kmat k} := Some (existT _ 2%N (KMat (PhiM dense_own) (fun _ => Some 0%N) 1)).
Definition dense_phis : phis_t := [:: dense_psr; dense_psr].
Definition dense_mem p : member unit := Member p [:: 0%N; 1%N] (PhiM (const_mx 1 : 'M[R]_2)) tt.
Definition dense_cls : csclass unit := CsClass (fun _ _ => 1%R) [:: dense_mem 0; dense_mem 1].
Lemma dense_hyps : good_class dense_phis dense_cls /\ good_count dense_phis /\ own_separated dense_phis /\ one_clique dense_phis dense_cls.
Proof.
split; first by split=> //; [do 2! constructor|exists 2%N; do 2! constructor].
split.
  by move=> [|[|p]] x a c /= ex; [case: ex => ex; subst x => -[<-]|case: ex => ex; subst x => -[<-]|rewrite nth_nil in ex].
split.
  by move=> [|[|p]] x a b /= ex; [case: ex => ex; subst x|case: ex => ex; subst x|rewrite nth_nil in ex].
move=> m hm; exists 0%N => x a; case: hm => [<-|[<-|//]] /= [ex]; subst x; rewrite eqxx; by case: a => [[|[|a]] la].
Qed.

Lemma dense_block (i j : 'I_(psize dense_phis)) : block_diag phi_mx dense_phis i j =
  if (i < 2)%N == (j < 2)%N then (if i == j then 3%:R else 1) else 0.
Proof.
have [p [a [lp la ei]]] := row_of (ltn_ord i); have [q [b [lq lb ej]]] := row_of (ltn_ord j).
rewrite (block_diagE phi_mx lp lq la lb ei ej).
have ee : (i == j) = (val i == val j) by [].
rewrite ee /= ei ej {ei ej ee}.
case: p lp la => [|[|//]] _; case: q lq lb => [|[|//]] _; rewrite /first_row /= => lb la.
- by rewrite !add0n la lb /= -[a]/(val (Ordinal la)) -[b]/(val (Ordinal lb)) mgetE mxE.
- by case: b lb => [|[|b]] //; case: a la => [|[|a]].
- by case: b lb => [|[|b]] //; case: a la => [|[|a]].
- rewrite -[a]/(val (Ordinal la)) -[b]/(val (Ordinal lb)) mgetE mxE.
  by case: a la => [|[|a]] // la; case: b lb => [|[|b]].
Qed.
Lemma dense_terms (i j : 'I_(psize dense_phis)) : class_terms dense_phis dense_cls i j = ((i < 2)%N != (j < 2)%N)%:R.
Proof.
rewrite /class_terms /= big_seq1 /cross_terms /= !big_ord_recl !big_ord0 /= !mxE !mul1r.
by case: i => [[|[|[|[|i]]]] li] //; case: j => [[|[|[|[|j]]]] lj] //=; rewrite -?natrD ?addr0 ?add0r.
Qed.
Lemma dense_phi : exists (Phi : 'M[R]_(psize dense_phis)) cc, get_phi dense_phis [:: dense_cls] = Ok (Phi, cc) /\ posdef Phi.
Proof.
have [gc _] := dense_hyps.
have [|Phi [cc [e [_ hP]]]] := @get_phiE _ dense_phis [:: dense_cls]; first by constructor.
exists Phi, cc; split; first exact: e.
have -> : Phi = 2%:R%:M + \matrix_(i, j) (xpredT i && xpredT j)%:R.
  clear e; apply/matrixP => i j; rewrite hP big_seq1 dense_block dense_terms !mxE.
  by case: i => [[|[|[|[|i]]]] li] //; case: j => [[|[|[|[|j]]]] lj] //=; rewrite -?natrD ?addr0 ?add0r ?mulr1n ?mulr0n ?add0r.
apply: posdefD; [by apply: scalar_posdef; rewrite ltr0n|exact: ind_sym|by move=> x; exact: ind_ge0].
Qed.

(** * Errors *)
Lemma part_err pos (phis : phis_t) (c : csclass pos) er ms : foldl (part_member phis c) (Err er) ms = Err er.
Proof.
elim: ms => //= m ms IH; rewrite {2}/part_member.
have -> : foldl (part_pair c (size (cs_mem c)) m.1 m.2) (Err er) (zip (iota 0 (size (cs_mem c))) (cs_mem c)) = Err er.
  by elim: (zip _ _).
exact: IH.
Qed.
Lemma partition_dense_lem : forall pos (phis : phis_t) svd (c : csclass pos) cs m1 m2 ms (X : 'M[R]_(mb_k m1)),
  cs_mem c = m1 :: m2 :: ms -> mb_prior m1 = PhiM X ->
  phiinv_partition phis svd (c :: cs) = Err NotImplementedError.
Proof.
move=> pos phis svd c cs m1 m2 ms X e eX; rewrite /phiinv_partition.
have -> : foldl (part_class phis) (Ok (None, 0%N, (part0 phis svd).2)) (c :: cs) = Err NotImplementedError.
  have pc st : foldl (part_class phis) (Err st) cs = Err st.
    by elim: cs => //= d l IH; rewrite {2}/part_class part_err.
  rewrite -[LHS]/(foldl (part_class phis) (part_class phis (Ok (None, 0%N, (part0 phis svd).2)) c) cs).
  suff -> : part_class phis (Ok (None, 0%N, (part0 phis svd).2)) c = Err NotImplementedError by exact: pc.
  rewrite /part_class e -[LHS]/(foldl (part_member phis c) (part_member phis c (Ok (None, 0%N, (part0 phis svd).2)) (0%N, m1)) (zip (iota 1 (size (m2 :: ms))) (m2 :: ms))).
  have -> : part_member phis c (Ok (None, 0%N, (part0 phis svd).2)) (0%N, m1) = Err NotImplementedError.
    rewrite /part_member e /= /phicross eX /=.
    have pe l : foldl (part_pair c (size ms).+2 0 m1) (Err NotImplementedError) l = Err NotImplementedError by elim: l.
    by rewrite pe.
  exact: part_err.
by [].
Qed.
Lemma sparse_inverse_lem : forall pos (phis : phis_t) svd (cs : seq (csclass pos)) Phi cc, get_phi phis cs = Ok (Phi, cc) ->
  posdef Phi -> get_phiinv phis svd cs "sparse" = Ok (invmx Phi, ln (\det Phi)).
Proof. move=> pos phis svd cs Phi cc; exact: sparseE. Qed.
Lemma sparse_refuses_lem : forall pos (phis : phis_t) svd (cs : seq (csclass pos)) Phi cc, get_phi phis cs = Ok (Phi, cc) ->
  sym Phi -> ~ posdef Phi -> get_phiinv phis svd cs "sparse" = Err CholmodError.
Proof. move=> pos phis svd cs Phi cc; exact: sparse_err. Qed.
