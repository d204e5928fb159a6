(** Proofs about arrays of signals with sized arrays. *)
From Coq Require Import Reals String.
From mathcomp Require Import all_ssreflect all_algebra.
From mathcomp.zify Require Import zify.
From Verif Require Import RStruct PyBase ProofBase ModelSelect ModelFunc ModelCache ModelGp ProofGp ModelLinalg ProofLinalg ModelNoise ProofNoise ModelLike ProofLike ModelKernel ProofKernel ModelPhi ModelColl ProofColl ModelSigs ProofSigs ModelArray ProofArray ProofJoint ProofCorr ModelSized ProofSrc.
Set Implicit Arguments.
Unset Strict Implicit.
Unset Printing Implicit Defensive.
Import GRing.Theory.
Local Open Scope seq_scope.
Local Open Scope ring_scope.

(** * Specification *)
(** The functions of a source for its selections *)
Definition objects (fns : nat -> fob * fob) (s : src) : seq fob :=
  match s with
  | White fn name psrname psr masks | Determ fn name psrname psr masks _ => [seq selected name psrname psr fn k | k <- dkeys masks]
  | Proc _ basisfn name psrname psr masks _ | Sampled _ basisfn name psrname psr masks _ => [seq selected name psrname psr basisfn k | k <- dkeys masks]
  | Common basisfn name psrname psr _ _ _ => [:: inst basisfn (join_us [:: psrname; name]) (Some psr)]
  end.
(** Functions take no other functions as arguments, and the basis of sampled coefficients
    has no parameters. *)
Definition proper (s : src) : Prop :=
  match s with
  | White fn _ _ _ masks | Determ fn _ _ _ masks _ => List.NoDup (dkeys masks) /\ no_functions fn
  | Proc _ basisfn _ _ _ masks _ => List.NoDup (dkeys masks) /\ no_functions basisfn
  | Sampled priorfn basisfn name psrname psr masks _ => List.NoDup (dkeys masks) /\ no_functions priorfn /\ varying basisfn /\
      unambiguous priorfn basisfn name psrname psr masks /\ forall k, List.In k (dkeys masks) -> fo_pars (selected name psrname psr basisfn k) = [::]
  | Common basisfn _ _ _ _ _ _ => no_functions basisfn
  end.
(** Parameters: no lists of lists, and no values for constants *)
Definition permitted (fns : nat -> fob * fob) (arr : seq (seq src * seq R)) (p : params R) : Prop :=
  flat_values p /\ forall c s o, List.In c arr -> List.In s c.1 -> List.In o (objects fns s) -> spares p o.
(** Whether a basis depends on parameters *)
Definition depends (o : fob) : bool := ~~ nilp (fo_pars o).
(** What a signal adds to the model of a pulsar with [n] TOAs *)
Definition adds n (fns : nat -> fob * fob) (p : params R) (s : src) (w : view n) : Prop :=
  w_prior w = 0 /\
  match s with
  | White fn name psrname psr masks => exists val,
      masks <> [::] /\ (forall k m, List.In (k, m) masks -> List.length m = n /\ exists v, gcall (selected name psrname psr fn k) [::] [::] p = Ok v /\ spread v n (val k)) /\
      w = View (Some (NVec (\col_i noise_at val masks i))) (Some None) None (w_prior w)
  | Determ fn name psrname psr masks m => exists val (d : 'cV[R]_n),
      m = n /\ (forall k m, List.In (k, m) masks -> List.length m = n /\ exists v, gcall (selected name psrname psr fn k) [::] [:: ("mask"%string, GMask m)] p = Ok v /\ filled v m (val k)) /\
      (forall i : 'I_n, wave_at val masks i (d i ord0)) /\ w = View None (Some (Some d)) None (w_prior w)
  | Proc priorfn basisfn name psrname psr masks comb => exists bl bl0 phis,
      blocks_at basisfn name psrname psr masks n p bl /\ blocks_at basisfn name psrname psr masks n [::] bl0 /\ ProofGp.columns bl0 = ProofGp.columns bl /\
      List.Forall2 (fun b phi => gcall (selected name psrname psr priorfn (k_key b)) [:: k_lab b] [::] p = Ok (GV (Vec phi)) /\ List.length phi = k_nc b) bl phis /\
      w = View None (Some None) (Some (@BSig n (ProofGp.columns bl) (\matrix_(i, j) nth 0 (row_of bl i) j) (PhiD (\col_j nth 0 (List.concat phis) j))
            (has depends [seq selected name psrname psr basisfn k | k <- dkeys masks]) comb)) (w_prior w)
  | Sampled priorfn basisfn name psrname psr masks comb => exists bl bl0 cs,
      blocks_at basisfn name psrname psr masks n p bl /\ blocks_at basisfn name psrname psr masks n [::] bl0 /\
      List.Forall2 (fun b c => dget string_dec p (coef_name name psrname (k_key b)) = Some (Vec c) /\ List.length c = k_nc b) bl cs /\
      w = View None (Some (Some (\col_i rsum [seq (if List.nth i (k_mask bc.1) false then ModelGp.dot (row_in bc.1 i) bc.2 else 0) | bc <- List.combine bl cs]))) None (w_prior w)
  | Common basisfn name psrname psr pos cls comb => exists nc rows lab rows0 lab0 phi x, let o := inst basisfn (join_us [:: psrname; name]) (Some psr) in
      gcall o [::] [::] p = Ok (GPair (GMat nc rows) lab) /\ List.length rows = n /\ List.Forall (fun r => List.length r = nc) rows /\
      gcall o [::] [::] [::] = Ok (GPair (GMat nc rows0) lab0) /\ List.length rows0 = n /\ List.Forall (fun r => List.length r = nc) rows0 /\
      gcall (fns cls).1 [:: lab] [::] p = Ok (GV (Vec phi)) /\ List.length phi = nc /\ gcall (fns cls).2 [:: pos; pos] [::] p = Ok (GV (Sc x)) /\
      w = View None (Some None) (Some (@BSig n nc (\matrix_(i, j) nth 0 (nth [::] rows i) j) (PhiD (\col_j (nth 0 phi j * x))) (depends o) comb)) (w_prior w)
  end.
Inductive all_add n (fns : nat -> fob * fob) (p : params R) : seq src -> seq (view n) -> Prop :=
| add_nil : all_add fns p [::] [::]
| add_cons s w ss ws : adds fns p s w -> all_add fns p ss ws -> all_add fns p (s :: ss) (w :: ws).
(** Sources and residuals of a pulsar with its model *)
Definition psr_adds (fns : nat -> fob * fob) (p : params R) (c : seq src * seq R) (v : psr_view) : Prop :=
  List.length c.2 = v_n v /\ (forall i : 'I_(v_n v), v_res v i ord0 = nth 0 c.2 i) /\ all_add fns p c.1 (v_sigs v).
Definition source_class (s : src) : option nat := if s is Common _ _ _ _ _ cls _ then Some cls else None.
Definition source_at (arr : seq (seq src * seq R)) (ij : nat * nat) : option src := if List.nth_error arr ij.1 is Some c then List.nth_error c.1 ij.2 else None.
(** No common process is in two pulsars. *)
Definition alone_in (arr : seq (seq src * seq R)) : Prop :=
  forall ij ij' s s' k, source_at arr ij = Some s -> source_at arr ij' = Some s' -> source_class s = Some k -> source_class s' = Some k -> ij = ij'.
(** The array object of the sources *)
Definition new_array (fns : nat -> fob * fob) (arr : seq (seq src * seq R)) : result (seq (seq desc)) := rmapM (fun c => rmapM (new_sig fns) c.1) arr.
Definition array_colls (fns : nat -> fob * fob) (dss : seq (seq desc)) (arr : seq (seq src * seq R)) : seq (coll sst nz dz fz pz) :=
  [seq sized_coll fns x.1 x.2.2 | x <- zip dss arr].
Definition array_start (dss : seq (seq desc)) : pobj sst nz dz fz (seq nat) out (R * R) := new_pta [seq [seq start_of d | d <- ds] | ds <- dss].

(** * Arrays of sizes *)
Lemma col_vec n (l : seq R) : List.length l = n -> DzVec (to_col l) = DzVec (\col_(i < n) nth 0 l i).
Proof. by move=> <-. Qed.
Lemma col_noise n (l : seq R) : List.length l = n -> to_nz l = existT nobj n (NVec (\col_(i < n) nth 0 l i)).
Proof. by move=> <-. Qed.
Lemma nth_list (A : Type) (d : A) l i : List.nth i l d = nth d l i.
Proof. by elim: l i => [|x l IH] [|i] //=. Qed.
Lemma last_slice m k o (i : 'I_k) : (o + m <= k)%N -> omap val (last_at m (kpos k (KSlice o (o + m))) i) = if (o <= i < o + m)%N then Some (i - o)%N else None.
Proof.
move=> le; have -> : kpos k (KSlice o (o + m)) = iota o m.
  by rewrite /kpos (minn_idPl (leq_trans (leq_addr m o) le)) (minn_idPl le) addKn.
rewrite /last_at; case: pickP => [a /andP [/eqP e _]|none] /=.
  by rewrite nth_iota // in e; rewrite -e leq_addr ltn_add2l ltn_ord addKn.
case: ifP => // /andP [h1 h2]; have am : (i - o < m)%N by rewrite ltn_subLR.
move: (none (Ordinal am)); rewrite /= nth_iota // subnKC // eqxx /= => /negbT /forallPn [b]; rewrite negb_imply negbK => /andP [lt].
by rewrite nth_iota // => /eqP e; move: lt; rewrite -e addKn ltnn.
Qed.
Definition vecs (phis : seq (seq R)) : seq gv := [seq GV (Vec l) | l <- phis].
Lemma size_intervals bl o : size (intervals o bl) = size bl.
Proof. by elim: bl o => //= b bl IH o; rewrite IH. Qed.
Lemma pz_fold k bl phis : List.Forall2 (fun b (phi : seq R) => List.length phi = k_nc b) bl phis -> forall o (v : 'cV[R]_k), (o + ProofGp.columns bl <= k)%N ->
  foldl (fun acc x => rbind acc (fun K : kmat k => rbind (to_vec x.2) (fun v => kset K (PhiD (to_col v)) (KSlice x.1.1 x.1.2)))) (Ok (knew (PhiD v)))
    (List.combine (intervals o bl) (vecs phis)) =
  Ok (knew (PhiD (\col_(i < k) if (o <= i < o + ProofGp.columns bl)%N then nth 0 (List.concat phis) (i - o)%N else v i ord0))).
Proof.
elim=> [|b phi bl' phis' lb F IH] o v le.
  by rewrite /=; congr (Ok (knew (PhiD _))); apply/matrixP => i j; rewrite mxE (ord1 j) addn0 [(o <= i < o)%N](_ : _ = false) //; apply/negbTE; rewrite negb_and -leqNgt leqNgt ltnNge; case: (o <= i)%N.
have ec : ProofGp.columns (b :: bl') = (k_nc b + ProofGp.columns bl')%N by [].
rewrite ec in le *; rewrite addnA in le; rewrite /=.
have sz : size phi = k_nc b by [].
have e1 : kset (knew (PhiD v)) (PhiD (to_col phi)) (KSlice o (o + k_nc b)%coq_nat) = Ok (knew (PhiD (\col_(i < k) if (o <= i < o + k_nc b)%N then nth 0 phi (i - o)%N else v i ord0))).
  have le1 : (o + size phi <= k)%N by rewrite sz; apply: leq_trans le; rewrite leq_addr.
  rewrite -[(_ + _)%coq_nat]/(o + k_nc b)%N -sz /kset /kput /= /kpos (minn_idPl (leq_trans (leq_addr _ o) le1)) (minn_idPl le1) addKn size_iota eqxx /=.
  congr (Ok (KMat (PhiD _) _ _)); apply/matrixP => i j; rewrite !mxE.
  have := last_slice i le1; rewrite /kpos (minn_idPl (leq_trans (leq_addr _ o) le1)) (minn_idPl le1) addKn.
  by case: last_at => [a|] /=; case: ifP => // _ [e]; rewrite ?mxE -?e.
rewrite e1 IH //; congr (Ok (knew (PhiD _))); apply/matrixP => i j; rewrite !mxE nth_cat sz -[(_ + _)%coq_nat]/(o + k_nc b)%N addnA.
case: (ltnP i (o + k_nc b)) => h /=.
  rewrite andbT; case: (leqP o i) => h2 //=.
  by rewrite (leq_trans h (leq_addr _ _)) ltn_subLR // h.
rewrite (leq_trans (leq_addr _ _) h) /=; case: ifP => // _; rewrite ltnNge.
have -> : (k_nc b <= i - o)%N by lia.
by rewrite /=; congr nth; lia.
Qed.
Lemma pz_last bl phis : List.Forall2 (fun b (phi : seq R) => List.length phi = k_nc b) bl phis -> bl <> [::] -> forall o x,
  (last x (List.combine (intervals o bl) (vecs phis))).1.2 = (o + ProofGp.columns bl)%N.
Proof.
elim=> [|b phi bl' phis' lb F IH] // _ o x; case: bl' F IH => [|b' bl'] F IH.
  by inversion F; rewrite /= /ProofGp.columns /=; lia.
have e : (last (o, (o + k_nc b)%coq_nat, GV (Vec phi)) (List.combine (intervals (o + k_nc b)%coq_nat (b' :: bl')) (vecs phis'))).1.2 = ((o + k_nc b)%coq_nat + ProofGp.columns (b' :: bl'))%N by exact: IH.
rewrite [LHS]e /ProofGp.columns /=; lia.
Qed.
Lemma to_pz_value bl phis : List.Forall2 (fun b (phi : seq R) => List.length phi = k_nc b) bl phis -> bl <> [::] ->
  to_pz (PSel (List.combine (intervals 0 bl) (vecs phis))) = Ok (existT phi_t (ProofGp.columns bl) (PhiD (\col_j nth 0 (List.concat phis) j))).
Proof.
move=> F ne; rewrite /to_pz; have := pz_last F ne 0%N (0, 0, GObj)%N; rewrite add0n.
move: (last _ _).1.2 => k ->; rewrite pz_fold //=; congr (Ok (existT _ _ (PhiD _))).
by apply/matrixP => i j; rewrite !mxE add0n subn0 ltn_ord.
Qed.
Lemma row_of_length basisfn name psrname psr masks n p bl t : blocks_at basisfn name psrname psr masks n p bl -> size (row_of bl t) = ProofGp.columns bl.
Proof.
move=> [_ [_ [_ H]]]; elim: bl H => [|b bl IH] H //.
have e : row_of (b :: bl) t = row_in b t ++ row_of bl t by [].
rewrite e size_cat IH; last by move=> x hx; apply: H; right.
rewrite [in RHS]/ProofGp.columns /= -/(ProofGp.columns bl); congr addn.
have [_ [_ [_ [lr fr]]]] := H b (or_introl erefl); rewrite /row_in; case E: (List.nth t (k_mask b) false); last exact: List.repeat_length.
move/List.Forall_forall: fr; apply; apply: List.nth_In; rewrite lr; exact: rank_lt.
Qed.
Lemma to_fz_rows (rows : seq (seq R)) nc n : List.length rows = n -> (forall r, List.In r rows -> size r = nc) ->
  to_fz (nc, rows) = Ok (Fz (\matrix_(i < n, j < nc) nth 0 (nth [::] rows i) j)).
Proof.
move=> <- h; rewrite /to_fz /=; have -> // : all (fun r => size r == nc) rows.
by elim: rows h => //= r l IH h; rewrite h ?eqxx /=; [apply: IH => x hx; apply: h; right|left].
Qed.

(** * Behaviour *)
Lemma rbindI A B (x : result A) (f : A -> result B) y (G : Prop) : (forall a, x = Ok a -> f a = Ok y -> G) -> rbind x f = Ok y -> G.
Proof. by case: x => //= a h; apply: h. Qed.
Lemma rmapI A B (f : A -> B) (x : result A) y (G : Prop) : (forall a, x = Ok a -> f a = y -> G) -> rmap f x = Ok y -> G.
Proof. by case: x => //= a h [e]; exact: (h a). Qed.
Definition sized_beh (b : pbeh) : beh sst nz dz fz pz :=
  Beh (fun p => rbind (b_ndiag b p) (over (fun l => Ok (to_nz l)))) (fun p => rbind (b_delay b p) (over (fun d => Ok (to_dz d))))
    (fun p => rbind (b_basis b p) (over to_fz)) (fun p => rbind (b_phi b p) to_pz) (b_prior b) (b_inv b) (b_at b).
Lemma sized_answers (dom : params R -> Prop) A B (g : A -> result B) inv post (f : params R -> sst -> sst * result A) v :
  answers dom inv post f v -> answers dom inv post (fun p s => conv g (f p s)) (fun p => rbind (v p) g).
Proof.
move=> H p s y dp hi e0; have [x [ex ey]] := rbind_inv _ _ _ e0; have [s' [e [h1 h2]]] := H p s x dp hi ex.
by exists s'; rewrite /conv e /= ey.
Qed.
Lemma sized_sound (dom : params R -> Prop) m b : sound dom m b -> sound dom (sized m) (sized_beh b).
Proof.
case=> h1 h2 h3 h4 h5 h6 h7 h8; constructor; rewrite /=; try exact: sized_answers; first exact: h5.
- by move=> p p' dp dp' h; rewrite (h6 p p').
- by move=> p p' dp dp' h; rewrite (h7 p p').
- by move=> p p' dp dp' h; rewrite (h8 p p').
Qed.
Definition desc_at (dss : seq (seq desc)) (ij : nat * nat) : option desc := if List.nth_error dss ij.1 is Some ds then List.nth_error ds ij.2 else None.
Definition crossz_of (fns : nat -> fob * fob) (dss : seq (seq desc)) (cls : nat) (ij ij' : nat * nat) (p : params R) : result cz :=
  match desc_at dss ij, desc_at dss ij' with
  | Some (DCommon c pos _ _), Some (DCommon _ pos' _ _) =>
      rbind (gcall (c_basis c) [::] [::] p) (fun v => match v with
        | GPair _ labels => rbind (gcall (fst (fns cls)) [:: labels] [::] p) (fun a => rbind (gcall (snd (fns cls)) [:: pos; pos'] [::] p) (fun x =>
            rbind (to_vec a) (fun l => if x is GV (Sc y) then Ok (Cz y (existT phi_t (size l) (PhiD (to_col l)))) else Err TypeError)))
        | _ => Err TypeError end)
  | _, _ => Err AttributeError
  end.

(** * Sources *)
Section Source.
Variable fns : nat -> fob * fob.
Lemma no_pars_names (l : seq fob) : (List.flat_map (fun o => List.map (@par_name _) (fo_pars o)) l = [::]) <-> (forall o, List.In o l -> fo_pars o = [::]).
Proof.
elim: l => [|o l IH] /=; first by split.
split=> [e|h].
  have [e1 e2] := List.app_eq_nil _ _ e; move=> o' [<-|i]; last by apply: (IH.1 e2).
  by move: e1; case: (fo_pars o).
by rewrite (h o) ?(IH.2 _) //; [move=> o' i; apply: h; right|left].
Qed.
Lemma bases_of priorfn basisfn b name psrname psr masks g s : List.NoDup (dkeys masks) -> new_gp priorfn basisfn b name psrname psr masks = Ok (g, s) ->
  g_bases g = [seq (k, selected name psrname psr basisfn k) | k <- sorted_keys masks] /\ exists g0, gp_functions priorfn basisfn name psrname psr masks = Ok g0 /\ (b = false -> g0 = g).
Proof.
move=> nd; rewrite /new_gp; apply: rbindI => g0 e0.
have [gk [gm [gpr [gb _]]]] := functions_spec priorfn basisfn name psrname psr masks nd g0 e0.
case: b => [|[<- _]]; last by rewrite -gk; split=> //; exists g0.
case E: (gp_coefficients name psrname g0) => [s1 r]; apply: rmapI => g1 er [<- _]; subst r.
move: E; rewrite /gp_coefficients; case: construct => b r [_]; apply: rbindI => u _; apply: rbindI => sl _; apply: rmapI => cs _ <- /=.
by rewrite -gk; split=> //; exists g0.
Qed.
Lemma sorted_in (masks : dict string mask) k : List.In k (sorted_keys masks) <-> List.In k (dkeys masks).
Proof. by split; apply: Permutation.Permutation_in; [|apply: Permutation.Permutation_sym]; exact: isort_perm. Qed.
Lemma in_seq_map (A B : Type) (f : A -> B) x l : List.In x l -> List.In (f x) [seq f y | y <- l].
Proof. exact: List.in_map. Qed.
Lemma source_objects s d : proper s -> new_sig fns s = Ok d -> forall o, List.In o (functions_of d) -> List.In o (objects fns s).
Proof.
case: s => [fn name psrname psr masks|fn name psrname psr masks n|priorfn basisfn name psrname psr masks comb|priorfn basisfn name psrname psr masks comb|basisfn name psrname psr pos cls comb] /=.
- move=> [nd nf]; apply: rmapI => f ef <- o /=; have [ek [e _]] := f_shape (fun _ => False) fn name psrname psr masks f nd ef (fun _ F => match F with end).
  by rewrite e ek List.map_map /= => /List.in_map_iff [k [<- i]]; apply: in_seq_map; apply/sorted_in.
- move=> [nd nf]; apply: rmapI => f ef <- o /=; have [ek [e _]] := f_shape (fun _ => False) fn name psrname psr masks f nd ef (fun _ F => match F with end).
  by rewrite e ek List.map_map /= => /List.in_map_iff [k [<- i]]; apply: in_seq_map; apply/sorted_in.
- move=> [nd nf]; apply: rmapI => -[g s] eg <- o /=; have [-> _] := bases_of nd eg.
  by rewrite List.map_map /= => /List.in_map_iff [k [<- i]]; apply: in_seq_map; apply/sorted_in.
- move=> [nd nf]; apply: rmapI => -[g s] eg <- o /=; have [-> _] := bases_of nd eg.
  by rewrite List.map_map /= => /List.in_map_iff [k [<- i]]; apply: in_seq_map; apply/sorted_in.
- by move=> nf [<-] o.
Qed.
Lemma source_made s d : proper s -> new_sig fns s = Ok d -> made fns d.
Proof.
case: s => [fn name psrname psr masks|fn name psrname psr masks n|priorfn basisfn name psrname psr masks comb|priorfn basisfn name psrname psr masks comb|basisfn name psrname psr pos cls comb] /=.
- by move=> [nd nf]; apply: rmapI => f ef <-; exists fn, name, psrname, psr, masks.
- by move=> [nd nf]; apply: rmapI => f ef <-; exists fn, name, psrname, psr, masks.
- by move=> [nd nf]; apply: rmapI => -[g s] eg <-; exists priorfn, basisfn, name, psrname, psr, masks, s.
- move=> [nd [nf [vb [ua np]]]]; apply: rmapI => -[g s] eg <-; exists priorfn, basisfn, name, psrname, psr, masks; do !split=> //; first exact: varying_plain.
  have [eb _] := bases_of nd eg; rewrite /ModelGp.basis_params eb; apply/no_pars_names => o; rewrite /dvals List.map_map => /List.in_map_iff [k [<- i]].
  by apply: np; apply/sorted_in.
- by move=> nf [<-]; exists basisfn, None, name, psrname, psr.
Qed.
Lemma has_depends (l : seq fob) : has depends l = if List.flat_map (fun o => List.map (@par_name _) (fo_pars o)) l is [::] then false else true.
Proof. by elim: l => //= o l ->; rewrite /depends; case: (fo_pars o). Qed.
Lemma has_perm (A : Type) (f : A -> bool) l l' : Permutation.Permutation l l' -> has f l = has f l'.
Proof. by elim=> //= [x m m' _ ->|x y m|m m' m'' _ -> _ ->] //; rewrite !orbA [f y || _]orbC. Qed.
Lemma gp_depends priorfn basisfn b name psrname psr masks g s : List.NoDup (dkeys masks) -> new_gp priorfn basisfn b name psrname psr masks = Ok (g, s) ->
  has depends [seq selected name psrname psr basisfn k | k <- dkeys masks] = if ModelGp.basis_params g is [::] then false else true.
Proof.
move=> nd eg; have [eb _] := bases_of nd eg; rewrite /ModelGp.basis_params -has_depends eb.
rewrite /dvals List.map_map /=; apply: has_perm; apply: Permutation.Permutation_map; apply: Permutation.Permutation_sym; exact: isort_perm.
Qed.

Variable dom : params R -> Prop.
Hypothesis dom_flat : forall p, dom p -> flat_values p.
Lemma flat_nil : flat_values [::].
Proof. by move=> n l. Qed.
Lemma col_eq n (f g : nat -> R) : (forall i, (i < n)%N -> f i = g i) -> \col_(i < n) f i = \col_(i < n) g i :> 'cV[R]_n.
Proof. by move=> h; apply/matrixP=> i j; rewrite !mxE h. Qed.
Lemma source_seen n s d p (w : view n) : proper s -> new_sig fns s = Ok d -> flat_values p -> adds fns p s w -> seen p (sized (sg_of fns d)) (sized_beh (beh_of dom fns d)) w.
Proof.
move=> pr es fl [w0]; case: s pr es => [fn name psrname psr masks|fn name psrname psr masks m|priorfn basisfn name psrname psr masks comb|priorfn basisfn name psrname psr masks comb|basisfn name psrname psr pos cls comb] /=.
- move=> [nd nf]; apply: rmapI => f ef <- [val [ne [H ->]]].
  have [x [ex [lx hx]]] := @white_value fn name psrname psr masks f nd ef p n val ne H.
  rewrite w0; split=> //.
  have e := array_value (fun x => x) (f_names f) (white_body f) p x fl ex.
  rewrite /sized_beh /beh_of /alone /= -/(cached_array _ _ _ _ _) in e *; rewrite e /= (col_noise lx).
  by congr (Ok (Some (existT _ _ (NVec _)))); apply: col_eq => i li; rewrite -nth_list; apply: hx; apply/ssrnat.ltP.
- move=> [nd nf]; apply: rmapI => f ef <- [val [d' [-> [H [hd ->]]]]].
  have [x [ex [lx hx]]] := @det_value fn name psrname psr masks f nd ef p n val H.
  rewrite w0; split=> //.
  have e := array_value DArr (f_names f) (det_body f n) p x fl ex.
  rewrite /sized_beh /beh_of /alone /= in e *; rewrite e /= (col_vec lx).
  by congr (Ok (Some (DzVec _))); apply/matrixP=> i j; rewrite !mxE (ord1 j) -nth_list (hx i _ _ (hd i)) //; apply/ssrnat.ltP.
- move=> [nd nf]; apply: rmapI => -[g s] eg <- [bl [bl0 [phis [hb [hb0 [ec [F ->]]]]]]].
  have [_ [g0 [e0 /(_ erefl) eg0]]] := bases_of nd eg; subst g0; rewrite w0.
  have B q bl' : blocks_at basisfn name psrname psr masks n q bl' -> rbind (snd (let (b', r) := ModelGp.get_basis g q (cempty, unbuilt) in (SGp (cempty, b'), rmap Some r))) (over to_fz) =
      Ok (Some (Fz (\matrix_(i < n, j < ProofGp.columns bl') nth 0 (row_of bl' i) j))).
    move=> h; have := proc_basis priorfn basisfn name psrname psr masks n g nd e0 q bl' h.
    case: ModelGp.get_basis => b' r /= -> /=.
    have -> := @to_fz_rows (List.map (row_of bl') (List.seq 0 n)) (ProofGp.columns bl') n.
    + rewrite /=; congr (Ok (Some (Fz _))); apply/matrixP=> i j; rewrite !mxE; congr nth.
      rewrite -nth_list (List.nth_indep _ [::] (row_of bl' 0)); last by rewrite List.map_length List.seq_length; apply/ssrnat.ltP.
      by rewrite List.map_nth List.seq_nth //; apply/ssrnat.ltP.
    + by rewrite List.map_length List.seq_length.
    + by move=> r' /List.in_map_iff [t [<- _]]; exact: row_of_length h.
  split=> //=; split=> //.
  + exact: B.
  + have L : List.Forall2 (fun b (phi : seq R) => List.length phi = k_nc b) bl phis by elim: F => [|b phi l l' [_ e] _ IH]; constructor.
    have G : List.Forall2 (fun b phi => gcall (selected name psrname psr priorfn (k_key b)) [:: k_lab b] [::] p = Ok phi) bl (vecs phis) by elim: F => [|b phi l l' [e _] _ IH]; constructor.
    have := proc_phi priorfn basisfn name psrname psr masks n g nd e0 p bl (vecs phis) hb G.
    rewrite /sized_beh /=; case: ModelGp.get_phi => b' r /= -> /=; apply: to_pz_value => //.
    by case: hb => _ [].
  + by rewrite -ec; eexists; exact: (B [::] bl0 hb0).
  + exact: gp_depends eg.
- move=> [nd [nf [vb [ua np]]]]; apply: rmapI => -[g s] eg <- [bl [bl0 [cs [hb [hb0 [F ->]]]]]]; rewrite w0; split=> //=.
  set r := List.map (fun t => rsum (List.map (fun bc : blk * seq R => if List.nth t (k_mask bc.1) false then ModelGp.dot (row_in bc.1 t) bc.2 else 0%R) (List.combine bl cs))) (List.seq 0 n).
  have c : ProofGp.correct priorfn basisfn name psrname psr masks n (fun _ _ _ => Err ValueError) true false (ModelGp.ADelay p) (ModelGp.RDelay r) by exists bl, cs.
  have := sampled_value priorfn basisfn name psrname psr masks n g s p r nd nf vb ua (ex_intro _ bl0 hb0) eg c.
  case: ModelGp.get_delay => s' r' /= -> /=.
  rewrite (@col_vec n); last by rewrite List.map_length List.seq_length.
  congr (Ok (Some (DzVec _))); apply/matrixP=> i j; rewrite !mxE -nth_list /r.
  rewrite (List.nth_indep _ 0 ((fun t => rsum (List.map (fun bc : blk * seq R => if List.nth t (k_mask bc.1) false then ModelGp.dot (row_in bc.1 t) bc.2 else 0%R) (List.combine bl cs))) 0%N)).
    by rewrite List.map_nth List.seq_nth //; apply/ssrnat.ltP.
  by rewrite List.map_length List.seq_length; apply/ssrnat.ltP.
- move=> nf [<-] [nc [rows [lab [rows0 [lab0 [phi [x [e1 [l1 [f1 [e0 [l0 [f0 [ep [lp [eo ->]]]]]]]]]]]]]]]]; rewrite w0.
  set c := new_cgp basisfn (fns cls).1 (fns cls).2 None name psrname psr.
  have A rs : List.Forall (fun r : seq R => List.length r = nc) rs -> List.forallb (fun r => Nat.eqb (List.length r) nc) rs.
    by move/List.Forall_forall => h; apply/List.forallb_forall => r i; rewrite h // PeanoNat.Nat.eqb_refl.
  have A' rs : List.Forall (fun r : seq R => List.length r = nc) rs -> forall r, List.In r rs -> size r = nc by move/List.Forall_forall.
  have B q rs lb : flat_values q -> gcall (c_basis c) [::] [::] q = Ok (GPair (GMat nc rs) lb) -> List.length rs = n -> List.Forall (fun r => List.length r = nc) rs ->
      b_basis (sized_beh (beh_of dom fns (DCommon c pos cls comb))) q = Ok (Some (Fz (\matrix_(i < n, j < nc) nth 0 (nth [::] rs i) j))).
    move=> fq eq lq hq; have [k ek] := common_construct c q (GMat nc rs) lb fq eq.
    cbn [sized_beh beh_of alone b_basis sg_of common_sg s_basis start_of]; rewrite ek; cbn [snd rbind attribute fst as_mat rmap].
    by rewrite A //= (to_fz_rows lq (A' _ hq)).
  split=> //; split=> //.
  + exact: (B p rows lab).
  + have [k ek] := common_construct c p (GMat nc rows) lab fl e1.
    cbn [sized_beh beh_of alone b_phi sg_of common_sg s_phi start_of]; rewrite ek; cbn [snd rbind attribute fst rmap]; rewrite /com_prior ep /= eo /=.
    rewrite -lp -[List.length phi]/(size phi) -(size_map (fun y => Rmult y x) phi); congr (Ok (existT _ _ (PhiD _))).
    apply/matrixP=> i j; rewrite !mxE (nth_map 0) //; by rewrite -(size_map (fun y => Rmult y x) phi); exact: ltn_ord.
  + by eexists; exact: (B [::] rows0 lab0 flat_nil).
  + by rewrite /depends; cbn [bpar]; rewrite /sized; cbn [s_bp sg_of common_sg]; rewrite /c_basis_params /c /new_cgp; cbn [c_basis]; case: (fo_pars _).
Qed.
End Source.

(** * Arrays *)
Section Arrays.
Variable fns : nat -> fob * fob.
Variables (arr : seq (seq src * seq R)) (dss : seq (seq desc)).
Hypothesis pr : forall c s, List.In c arr -> List.In s c.1 -> proper s.
Hypothesis made_dss : new_array fns arr = Ok dss.
Notation dom := (permitted fns arr).
Definition models : seq (coll sst nz dz fz pz * seq (beh sst nz dz fz pz)) :=
  [seq (sized_coll fns x.1 x.2.2, [seq sized_beh (beh_of dom fns d) | d <- x.1]) | x <- zip dss arr].
Lemma models_fst : List.map fst models = array_colls fns dss arr.
Proof. by rewrite /models /array_colls List.map_map. Qed.
Lemma made_pairs : List.Forall2 (fun c ds => List.Forall2 (fun s d => new_sig fns s = Ok d) c.1 ds) arr dss.
Proof.
move/rmapM_ok: made_dss; elim=> [|c ds l l' e _ IH]; constructor=> //.
exact: rmapM_ok.
Qed.
Lemma dom_flat p : dom p -> flat_values p.
Proof. by case. Qed.
Lemma dom_nil : dom [::].
Proof. by split. Qed.
Lemma sound_one c s d : List.In c arr -> List.In s c.1 -> new_sig fns s = Ok d -> sound dom (sg_of fns d) (beh_of dom fns d) /\ inv_of dom d (start_of d).
Proof.
move=> ic is_ e; have ps := pr ic is_; apply: desc_sound.
- exact: dom_flat.
- exact: dom_nil.
- exact: source_made ps e.
- move=> p o [_ h] io; apply: (h c s) => //; exact: source_objects ps e o io.
Qed.
Lemma models_ind (P : (coll sst nz dz fz pz * seq (beh sst nz dz fz pz)) -> seq src * seq R -> Prop) :
  (forall c ds, List.In c arr -> List.Forall2 (fun s d => new_sig fns s = Ok d) c.1 ds -> P (sized_coll fns ds c.2, [seq sized_beh (beh_of dom fns d) | d <- ds]) c) -> List.Forall2 P models arr.
Proof.
rewrite /models; move: (fun d => sized_beh (beh_of dom fns d)) => f; elim: made_pairs => [|c ds l l' e _ IH] h; constructor; first by apply: h => //; left.
by apply: IH => c' ds' i; apply: h; right.
Qed.
Lemma models_sound : List.Forall (sound_coll dom) models.
Proof.
have H : List.Forall2 (fun m (_ : seq src * seq R) => sound_coll dom m) models arr.
  apply: models_ind => c ds ic F; rewrite /sound_coll /=.
  have so s d : List.In s c.1 -> new_sig fns s = Ok d -> sound dom (sg_of fns d) (beh_of dom fns d) by move=> is_ e; case: (sound_one ic is_ e).
  elim: F so => [|s d l l' e _ IH] so; constructor; first by apply: sized_sound; apply: (so s) => //; left.
  by apply: IH => s' d' i; apply: so; right.
move: (sound_coll dom) H => Q; move: models => ms; by elim=> [|m c l l' h _ IH]; constructor.
Qed.
Lemma models_inv : List.Forall2 (fun c ss => List.Forall2 b_inv (snd c) ss) models [seq [seq start_of d | d <- ds] | ds <- dss].
Proof.
rewrite /models; pose f d := sized_beh (beh_of dom fns d).
have : forall c s d, List.In c arr -> List.In s c.1 -> new_sig fns s = Ok d -> b_inv (f d) (start_of d) by move=> c s d ic is_ e; case: (sound_one ic is_ e).
rewrite -/f; move: f => f; elim: made_pairs => [|c ds l l' e _ IH] h; constructor; last by apply: IH => c' s d i; apply: h; right.
rewrite /=; have {}h s d : List.In s c.1 -> new_sig fns s = Ok d -> b_inv (f d) (start_of d) by apply: h; left.
elim: e h => [|s d m m' e _ IH'] h; constructor; first by apply: (h s) => //; left.
by apply: IH' => s' d' i; apply: h; right.
Qed.
Lemma models_at ij m b : beh_at models ij = Some (m, b) -> exists s d, [/\ source_at arr ij = Some s, desc_at dss ij = Some d, new_sig fns s = Ok d, m = sized (sg_of fns d) & b = sized_beh (beh_of dom fns d)].
Proof.
case: ij => i j; rewrite /beh_at /source_at /desc_at /models /=; pose f d := sized_beh (beh_of dom fns d).
rewrite -/f; suff : forall m b, beh_at [seq (sized_coll fns x.1 x.2.2, [seq f d | d <- x.1]) | x <- zip dss arr] (i, j) = Some (m, b) ->
    exists s d, [/\ source_at arr (i, j) = Some s, desc_at dss (i, j) = Some d, new_sig fns s = Ok d, m = sized (sg_of fns d) & b = f d] by move/(_ m b).
move: f => f {m b} m b; rewrite /beh_at /source_at /desc_at /=.
elim: made_pairs i => [|c ds l l' F _ IH] [|i] //=; last exact: IH.
elim: F {IH} j => [|s d k k' e _ IH'] [|j] //=; last exact: IH'.
by move=> [<- <-]; exists s, d.
Qed.
Lemma models_commons hash svd : sound_commons (z_ops hash svd (cross_z fns)) (crossz_of fns dss) models.
Proof.
split.
- move=> ij m b k x /models_at [s [d [_ _ _ -> ->]]]; case: d => [f|f n|g comb|g s1 comb|c pos cls comb] // _.
  cbn [sized_beh beh_of alone b_basis sg_of common_sg s_basis start_of]; case: (c_construct c [::] (cempty, None)) => s' r e ex; move: e; rewrite ex {ex x}; cbn [snd]; apply: rbindI => y; apply: rbindI => u _; apply: rbindI => y' _.
  by apply: rmapI => z _ <- /=; case: to_fz.
- move=> ij ij' m m' b b' k p s s' x /models_at [s0 [d [_ ed _ -> ->]]] /models_at [s0' [d' [_ ed' _ -> ->]]].
  case: d ed => [f|f n|g comb|g s1 comb|c pos cls comb] //= ed; case: d' ed' => [f|f n|g comb'|g s1 comb'|c' pos' cls' comb'] //= ed' [<-] [_].
  move=> [t [-> hb]] [t' [-> _]]; rewrite /crossz_of ed ed' /cross_z.
  move: hb; rewrite /c_build; case: gcall => //= v; case: v => [v|nc rows|F labels|mk|at_|] //= [hb].
  by rewrite -hb.
Qed.
Lemma models_seen p qs : dom p -> List.Forall2 (fun c v => psr_adds fns p c v) arr qs -> List.Forall2 (fun m v => psr_seen p m v) models qs.
Proof.
move=> dp S.
have H : List.Forall2 (fun m c => forall v, psr_adds fns p c v -> psr_seen p m v) models arr.
  apply: models_ind => c ds ic F v [l [hr hw]]; split=> /=.
    by rewrite (col_vec l); congr DzVec; apply/matrixP=> i j; rewrite mxE (ord1 j) hr.
  have so s : List.In s c.1 -> proper s by exact: pr.
  elim: hw ds F so => [|s w ss ws hs _ IH] ds F so; inversion_clear F as [|? d ? ds' e F']; first exact: seen_nil.
  by apply: seen_cons; [apply: source_seen e _ hs; [apply: so; left|exact: dom_flat]|apply: IH => // s' i; apply: so; right].
elim: H qs S => [|m c l l' h _ IH] qs S; inversion_clear S as [|? v ? vs h1 h2]; constructor; [exact: h|exact: IH].
Qed.
Lemma sized_class s d : new_sig fns s = Ok d -> s_class (sized (sg_of fns d)) = source_class s.
Proof.
by case: s => [fn name psrname psr masks|fn name psrname psr masks n|priorfn basisfn name psrname psr masks comb|priorfn basisfn name psrname psr masks comb|basisfn name psrname psr pos cls comb] /=;
  try (by apply: rmapI => f _ <-); move=> [<-].
Qed.
End Arrays.
