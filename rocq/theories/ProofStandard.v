From Coq Require Import Reals String ZArith.
From mathcomp Require Import all_ssreflect all_algebra.
From mathcomp.zify Require Import zify.
From Verif Require Import RStruct PyBase ProofBase ModelSelect ProofSelect ProofQuant ModelFunc ModelCache ProofCache ModelGp ProofGp ModelLinalg ProofLinalg ModelNoise ProofNoise ModelLike ProofLike ModelKernel ProofKernel ModelPhi ModelColl ProofColl ModelEcorr ProofEcorr ModelSigs ProofSigs ModelArray ProofArray ProofJoint ProofCorr ProofArrayEx ModelSized ProofSrc ProofSized ProofSource ModelKinds ProofClasses ProofShare ProofMulti ProofMany ProofKinds ProofKindsEx.
From Verif Require ProofDet ProofBases ProofSpectra ModelOrf ProofOrf ProofHdSeries.
From Verif Require Import ModelStandard ProofStdFn.
Set Implicit Arguments.
Unset Strict Implicit.
Unset Printing Implicit Defensive.
Import GRing.Theory Num.Theory Order.TTheory.
Local Open Scope seq_scope.
Local Open Scope ring_scope.

(** * Lists of blocks *)
Section Gmap.
Variables (T U : Type) (h : U -> T) (f k : T -> nat) (u : forall x, 'cV[R]_(f x)) (A : forall x, 'M[R]_(f x)) (B : forall x y, 'M[R]_(f x, f y)) (M : forall x, 'M[R]_(f x, k x)).
Lemma gmap_all l : forall P : (forall n m, 'cV[R]_n -> 'M[R]_n -> 'M[R]_(n, m) -> (forall q, (forall y : T, 'M[R]_(q, f y)) -> 'M[R]_(q, n)) -> Prop),
  P _ _ (gstack u [seq h x | x <- l]) (gjoint A B [seq h x | x <- l]) (gbdiag M [seq h x | x <- l]) (fun q C => gside C [seq h x | x <- l]) ->
  P _ _ (gstack (fun x => u (h x)) l) (gjoint (fun x => A (h x)) (fun x y => B (h x) (h y)) l) (gbdiag (fun x => M (h x)) l) (fun q C => gside (fun y => C (h y)) l).
Proof.
elim: l => [|x l IH] P //= H.
pose P' n m (s : 'cV[R]_n) (j : 'M[R]_n) (b : 'M[R]_(n, m)) (g : forall q, (forall y : T, 'M[R]_(q, f y)) -> 'M[R]_(q, n)) : Prop :=
  P (f (h x) + n)%N (k (h x) + m)%N (col_mx (u (h x)) s) (block_mx (A (h x)) (g _ (B (h x))) (g _ (B (h x)))^T j) (block_mx (M (h x)) 0 0 b) (fun q C => row_mx (C (h x)) (g q C)).
exact: (IH P' H).
Qed.
Lemma gmap_density l :
  density_tm (gstack u [seq h x | x <- l]) (gjoint A B [seq h x | x <- l]) (gbdiag M [seq h x | x <- l]) =
  density_tm (gstack (fun x => u (h x)) l) (gjoint (fun x => A (h x)) (fun x y => B (h x) (h y)) l) (gbdiag (fun x => M (h x)) l).
Proof. by apply: (gmap_all (P := fun n m s j b _ => _ = density_tm s j b)). Qed.
End Gmap.
Lemma eq_gstack (T : Type) (f : T -> nat) (u v : forall x, 'cV[R]_(f x)) l : (forall x, List.In x l -> u x = v x) -> gstack u l = gstack v l.
Proof. by elim: l => //= x l IH h; rewrite h ?IH //; [move=> y hy; apply: h; right|left]. Qed.
Lemma eq_gbdiag (T : Type) (f g : T -> nat) (u v : forall x, 'M[R]_(f x, g x)) l : (forall x, List.In x l -> u x = v x) -> gbdiag u l = gbdiag v l.
Proof. by elim: l => //= x l IH h; rewrite h ?IH //; [move=> y hy; apply: h; right|left]. Qed.

(** * Sums *)
Lemma rsumE (T : Type) (f : T -> R) l : ProofBases.rsum [seq f x | x <- l] = \sum_(x <- l) f x.
Proof. by elim: l => [|x l IH] /=; rewrite ?big_nil // big_cons -IH. Qed.
Lemma wsum_sum (phi a b : seq R) : size a = size phi -> size b = size phi -> \sum_(j < size phi) (nth 0 a j * nth 0 phi j * nth 0 b j) = ProofBases.wsum phi a b.
Proof.
elim: phi a b => [|x phi IH] [|y a] [|z b] //=; first by rewrite big_ord0.
move=> [ea] [eb]; rewrite big_ord_recl /= -IH //; congr (_ + _).
by rewrite !coqRE [y * x]mulrC.
Qed.
Lemma orf_posdef (k : orf_kind) (qs : seq ModelOrf.vec) : List.NoDup qs -> (forall q, List.In q qs -> ModelOrf.dot q q = 1) ->
  posdef (\matrix_(i < size qs, j < size qs) orf_of k (nth (0, 0, 0)%R qs i) (nth (0, 0, 0)%R qs j)).
Proof.
move=> nd unit; split.
  by apply/matrixP=> i j; rewrite !mxE; have [e1 [e2 e3]] := ProofOrf.orf_symmetric_lem (nth (0, 0, 0) qs j) (nth (0, 0, 0) qs i); case: (k).
move=> x x0; pose l := [seq (x i ord0, nth (0, 0, 0) qs i) | i <- enum 'I_(size qs)].
have el : [seq q.2 | q <- l] = qs.
  rewrite /l -map_comp; transitivity (map (nth (0, 0, 0) qs) (map val (enum 'I_(size qs)))); first by rewrite -[RHS]map_comp; apply: eq_map.
  by rewrite val_enum_ord -/(mkseq _ _) mkseq_nth.
have un a : List.In a l -> ModelOrf.dot a.2 a.2 = 1%coqR.
  by move=> ha; apply: unit; rewrite -el; elim: (l) ha => //= b l' IH [->|/IH h]; by [left|right].
have nd' : List.NoDup (List.map snd l) by rewrite -[List.map]/@map el.
have [i xi] : exists i, x i ord0 != 0.
  apply/existsP; apply: contraNT x0; rewrite negb_exists => /forallP h; apply/eqP/matrixP => i j.
  by rewrite (ord1 j) mxE; move: (h i); rewrite negbK => /eqP.
have -> : quad (\matrix_(i < size qs, j < size qs) orf_of k (nth (0, 0, 0) qs i) (nth (0, 0, 0) qs j)) x = ProofOrf.form (orf_of k) l.
  rewrite /ProofOrf.form /quad -[List.map]/@map mxE rsumE /l big_map big_enum /=.
  under [RHS]eq_bigr => a _ do rewrite rsumE big_map big_enum /=.
  rewrite exchange_big /=; apply: eq_bigr => a _; rewrite mxE big_distrl /=; apply: eq_bigr => j _.
  by rewrite !mxE mulrAC.
have ex : exists a, List.In a l /\ a.1 <> 0%coqR.
  exists (x i ord0, nth (0, 0, 0) qs i); split; last exact/eqP.
  apply: (List.in_map (fun i => (x i ord0, nth (0, 0, 0) qs i))); have := mem_enum 'I_(size qs) i; rewrite inE.
  by elim: (enum _) => //= j s IH; rewrite inE => /orP [/eqP ->|/IH]; [left|right].
case: (k); [|by apply/RltP; exact: ProofOrf.dipole_positive_lem|by apply/RltP; exact: ProofOrf.monopole_positive_lem].
have /RleP H : Rle (1 / 2 * ProofBases.rsum [seq q.1 * q.1 | q <- l])%coqR (ProofOrf.form ModelOrf.hd_orf l) by apply: ProofHdSeries.hd_definite_lem.
apply: (Order.POrderTheory.lt_le_trans _ H).
rewrite rsumE /l big_map big_enum /=; apply: mulr_gt0; first by apply/RltP; rewrite /GRing.zero /=; Lra.lra.
rewrite (bigD1 i) //=; apply: ltr_paddr; first by apply: sumr_ge0 => j _; exact: sqr_ge0.
by rewrite lt_def mulf_neq0 //=; exact: sqr_ge0.
Qed.
Lemma orf_own k q : 0 < orf_of k q q.
Proof.
by have [e1 [e2 e3]] := ProofOrf.orf_diagonal_lem q; case: k => /=; rewrite ?e1 ?e2 ?e3; apply/RltP; rewrite /GRing.zero /=; Lra.lra.
Qed.


(** * Specification *)
(** The correlation of two positions (unit vectors): one for equal positions, with 1e-5 added
    for dipole and monopole *)
Definition cosine (x y : ModelOrf.vec) : R := x.1.1 * y.1.1 + x.1.2 * y.1.2 + x.2 * y.2.
Definition correlation (k : orf_kind) (x y : ModelOrf.vec) : R :=
  let w := ((1 - cosine x y) / 2)%coqR in
  match k with
  | Hd => if x == y :> R * R * R then 1 else (3 / 2 * w * ln w - w / 4 + 1 / 2)%coqR
  | Dipole => if x == y :> R * R * R then (1 + 1 / 100000)%coqR else cosine x y
  | Monopole => if x == y :> R * R * R then (1 + 1 / 100000)%coqR else 1
  end.
Notation ntoas d := (size (d_toas d)).
Definition toa (d : psrdata) (i : nat) : R := nth 0 (d_toas d) i.
Definition freq (d : psrdata) (i : nat) : R := nth 0 (d_freqs d) i.
(** Values of the parameters: EFAC, EQUAD, TNEQUAD and ECORR by the names of the pulsar and of the
    selection, processes by the names of the pulsar, of the process and of its selection, common
    process *)
Record values := Values { v_efac : string -> string -> R; v_equad : string -> string -> R; v_tnequad : string -> string -> R; v_ecorr : string -> string -> R;
  v_A : string -> string -> string -> R; v_g : string -> string -> string -> R; v_rho : string -> string -> string -> nat -> R; v_gwA : R; v_gwg : R; v_gwrho : nat -> R }.
(** The mask of a selection, and its TOAs *)
Definition sel_mask (masks : dict string mask) (k : string) : mask := if dget string_dec masks k is Some mk then mk else [::].
Definition sel_toas (d : psrdata) (mk : mask) : seq R := [seq t.1 | t <- zip (d_toas d) mk & t.2].
Definition given (m : standard) (ps : seq psrdata) (p : params R) (v : values) : Prop :=
  flat_values p /\
  (forall d k, List.In d ps -> List.In k (dkeys (d_masks d)) ->
     [/\ arg_has p (m_efac m) (us_name [:: d_name d; k; "efac"%string]) (v_efac v (d_name d) k),
         if m_equad m is Some a then arg_has p a (us_name [:: d_name d; k; "log10_t2equad"%string]) (v_equad v (d_name d) k) else True, v_efac v (d_name d) k <> 0,
         if m_tnequad m is Some a then arg_has p a (us_name [:: d_name d; k; "log10_tnequad"%string]) (v_tnequad v (d_name d) k) else True &
         match m_ecorr m with
         | Some Varies => dget string_dec p (ecorr_param (d_name d) k) = Some (Sc (v_ecorr v (d_name d) k))
         | Some (Fixed x) => x (ecorr_param (d_name d) k) = Some (v_ecorr v (d_name d) k) /\ dget string_dec p (ecorr_param (d_name d) k) = None
         | None => True
         end]) /\
  (forall d c k T, List.In d ps -> List.In c (m_procs m) -> List.In k (dkeys (c_sel c d)) -> spans (c_T c) (sel_toas d (sel_mask (c_sel c d) k)) T ->
     shape_has p (c_shape c) [:: d_name d; c_name c; k] (Some (d_gv d)) T (c_n c) (v_A v (d_name d) (c_name c) k) (v_g v (d_name d) (c_name c) k) (v_rho v (d_name d) (c_name c) k)) /\
  (forall T, m_orf m -> common_span (m_Tgw m) [seq d_toas d | d <- ps] = Ok T -> shape_has p (m_gwshape m) [:: "gw"%string] None T (m_gw m) (v_gwA v) (v_gwg v) (v_gwrho v)).
(** Columns of the Fourier bases *)
Definition wave (T t : R) (j : nat) : R := (if Nat.even j then sin else cos) (2 * PI * t * (INR (Nat.div2 j + 1) / T))%coqR.
Definition wave_col (d : psrdata) (c : colour) (T : R) (j : nat) : 'cV[R]_(ntoas d) := \col_i (wave T (toa d i) j * tint c (freq d i)).
Definition wave_cols (d : psrdata) (c : colour) (T : R) (n : nat) : seq 'cV[R]_(ntoas d) := [seq wave_col d c T j | j <- iota 0 (2 * n)].
Definition masked n (mk : mask) (x : 'cV[R]_n) : 'cV[R]_n := \col_i (if nth false mk i then x i ord0 else 0).
Definition sel_cols (d : psrdata) (c : process) (Tr : string -> R) (k : string) : seq 'cV[R]_(ntoas d) :=
  [seq masked (sel_mask (c_sel c d) k) x | x <- wave_cols d (c_colour c) (Tr k) (c_n c)].
Definition all_cols (m : standard) (span : R) (Tr : process -> string -> R) (d : psrdata) : seq (seq 'cV[R]_(ntoas d)) :=
  [seq flatten [seq sel_cols d c (Tr c) k | k <- sorted_keys (c_sel c d)] | c <- m_procs m] ++ (if m_orf m then [:: wave_cols d Achromatic span (m_gw m)] else [::]).
(** A pulsar: arrays of the same length, disjoint selections of all TOAs, independent columns
    of the design matrix, uncertainties that are not zero without EQUAD, selections of the
    processes with masks of that length, and bases without equal columns, which have different hashes *)
Definition psr_ok (argsort : seq R -> seq nat) (hash : forall n, 'cV[R]_n -> nat) (m : standard) (span : R) (Tr : process -> string -> R) (d : psrdata) : Prop :=
  [/\ [/\ (0 < ntoas d)%N, size (d_errs d) = ntoas d /\ size (d_freqs d) = ntoas d, size (d_res d) = ntoas d, size (d_Mmat d) = ntoas d & m_equad m = None -> forall i, (i < ntoas d)%N -> nth 0 (d_errs d) i != 0],
      ecorr_ok argsort (d_toas d) (d_masks d) /\ (forall i, (i < ntoas d)%N -> exists k, selects (d_masks d) k i),
      full_rank (\matrix_(i < ntoas d, j < d_nfit d) nth 0 (nth [::] (d_Mmat d) i) j),
      forall c, List.In c (m_procs m) -> [/\ c_sel c d <> [::], List.NoDup (dkeys (c_sel c d)), (forall k mk, List.In (k, mk) (c_sel c d) -> size mk = ntoas d) &
        forall k, List.In k (dkeys (c_sel c d)) -> spans (c_T c) (sel_toas d (sel_mask (c_sel c d) k)) (Tr c k) /\ 0 < Tr c k] &
      all uniq (all_cols m span Tr d) /\
      forall x y, x \in flatten (all_cols m span Tr d) -> y \in flatten (all_cols m span Tr d) -> hash _ x = hash _ y -> x = y].
(** The keywords; the array, with different directions for the common process *)
Definition keys_ok (m : standard) : Prop :=
  [/\ (forall c, List.In c (m_procs m) -> (0 < c_n c)%N), plain_arg (m_efac m), if m_equad m is Some a then plain_arg a else True & if m_tnequad m is Some a then plain_arg a else True].
Definition common_ok (m : standard) (ps : seq psrdata) (span : R) : Prop :=
  [/\ (1 < size ps)%N, List.NoDup [seq d_pos d | d <- ps] /\ (forall d, List.In d ps -> ModelOrf.dot (d_pos d) (d_pos d) = 1),
      common_span (m_Tgw m) [seq d_toas d | d <- ps] = Ok span, 0 < span & (0 < m_gw m)%N].
Definition std_ok (argsort : seq R -> seq nat) (hash : forall n, 'cV[R]_n -> nat) (m : standard) (ps : seq psrdata) (span : R) (Tr : psrdata -> process -> string -> R) : Prop :=
  [/\ keys_ok m, m_orf m -> common_ok m ps span & forall d, List.In d ps -> psr_ok argsort hash m span (Tr d) d].
(** Epochs of ECORR with their variances *)
Definition epochs_ok (m : standard) (v : values) (d : psrdata) (bs : seq (seq 'I_(ntoas d) * R)) : Prop :=
  if m_ecorr m then
    [/\ (forall b, b \in bs -> exists2 k, List.In k (dkeys (d_masks d)) &
           [/\ b.2 = Rpower 10 (2 * v_ecorr v (d_name d) k), (1 < size b.1)%N, (forall i : 'I_(ntoas d), i \in b.1 -> selects (d_masks d) k i) &
               forall i j : 'I_(ntoas d), i \in b.1 -> j \in b.1 -> (Rabs (toa d i - toa d j) < 1)%coqR]),
        disjoint_epochs [seq b.1 | b <- bs] &
        forall k (i j : 'I_(ntoas d)), i != j -> selects (d_masks d) k i -> selects (d_masks d) k j -> toa d i = toa d j -> exists2 b, b \in bs & (i \in b.1) && (j \in b.1)]
  else bs = [::].
Section Term.
Variables (m : standard) (span : R) (Tr : psrdata -> process -> string -> R) (v : values).
Definition white_var (d : psrdata) (i : nat) : R :=
  \sum_(km <- d_masks d | nth false km.2 i) (v_efac v (d_name d) km.1 ^ 2 * (nth 0%R (d_errs d) i ^ 2 + (if m_equad m then Rpower 10 (2 * v_equad v (d_name d) km.1) else 0))
    + (if m_tnequad m then Rpower 10 (2 * v_tnequad v (d_name d) km.1) else 0))%coqR.
(** The variances of the frequencies of a process and of the common process *)
Definition proc_var (d : psrdata) (c : process) (k : string) : nat -> R :=
  variance (c_shape c) (v_A v (d_name d) (c_name c) k) (v_g v (d_name d) (c_name c) k) (v_rho v (d_name d) (c_name c) k) (Tr d c k).
Definition gw_var : nat -> R := variance (m_gwshape m) (v_gwA v) (v_gwg v) (v_gwrho v) span.
(** The covariance of the TOAs of a pulsar, and of those of two *)
Definition corr (d e : psrdata) : R := if m_orf m is Some k then correlation k (d_pos d) (d_pos e) else 0.
Definition own_cov (d : psrdata) (bs : seq (seq 'I_(ntoas d) * R)) : 'M[R]_(ntoas d) :=
  \matrix_(i, j) ((if i == j then white_var d i else 0) + ecorr_cov bs i j
    + \sum_(c <- m_procs m) \sum_(k <- dkeys (c_sel c d) | nth false (sel_mask (c_sel c d) k) i && nth false (sel_mask (c_sel c d) k) j)
        tint (c_colour c) (freq d i) * tint (c_colour c) (freq d j) * kernel (Tr d c k) (c_n c) (proc_var d c k) (toa d i - toa d j)%coqR
    + corr d d * kernel span (m_gw m) gw_var (toa d i - toa d j)%coqR).
Definition cross_cov (d e : psrdata) : 'M[R]_(ntoas d, ntoas e) :=
  \matrix_(i, j) (corr d e * kernel span (m_gw m) gw_var (toa d i - toa e j)%coqR).
Definition design (d : psrdata) : 'M[R]_(ntoas d, d_nfit d) := \matrix_(i, j) (nth 0%R (nth [::] (d_Mmat d) i) j / norm_of (d_Mmat d) j)%coqR.
Definition residual (d : psrdata) : 'cV[R]_(ntoas d) := \col_i nth 0 (d_res d) i.
(** The log density of all residuals, the parameters of the timing models integrated out *)
Definition std_term (bs : forall d, seq (seq 'I_(ntoas d) * R)) (ps : seq psrdata) : R :=
  density_tm (gstack residual ps) (gjoint (fun d => own_cov (bs d)) cross_cov ps) (gbdiag design ps)
  - 2%:R^-1 * ((\sum_(d <- ps) d_nfit d)%:R * ln (pow 10 40)).
(** That of the residuals of a pulsar *)
Definition own_term (d : psrdata) (bs : seq (seq 'I_(ntoas d) * R)) : R :=
  density_tm (residual d) (own_cov bs) (design d) - 2%:R^-1 * ((d_nfit d)%:R * ln (pow 10 40)).
End Term.

Lemma correlationE k x y : correlation k x y = orf_of k x y.
Proof.
have c : cosine x y = ModelOrf.dot x y by case: x y => -[a b] c [[a' b'] c'].
have e : (x == y :> R * R * R) = ModelOrf.same_pos x y.
  by case: (ProofOrf.same_pos_spec x y) => [->|n]; [rewrite eqxx|apply/eqP].
rewrite /correlation e c; case: k => /=; rewrite /ModelOrf.hd_orf /ModelOrf.dipole_orf /ModelOrf.monopole_orf; case: ModelOrf.same_pos => //; try by rewrite /Rdiv Rmult_1_l.
by cbn zeta; set w := Rdiv (Rminus 1 _) 2; set L := ln w; field.
Qed.

(** * Bases *)
Lemma rows_wave n T d i j : (i < ntoas d)%N -> (j < 2 * n)%N -> nth 0 (nth [::] (rows n T (d_toas d)) i) j = wave T (toa d i) j.
Proof.
move=> hi hj; rewrite -!nth_list (rows_entry n T (d_toas d) i j); try lia.
  by rewrite /wave /toa nth_list.
by rewrite -[List.length _]/(ntoas d); lia.
Qed.
Lemma mul5 (a t b q u : R) : (a * t * b * (q * u) = t * u * (a * b * q))%coqR.
Proof. ring. Qed.
Section Fourier.
Variables (n k : nat) (T : R) (var : nat -> R) (c : colour).
Hypotheses (T0 : 0 < T) (ek : k = (2 * n)%N).
Variable phi : 'cV[R]_k.
Hypothesis hp : forall j, phi j ord0 = nth 0 (powers n var) j.
Lemma entry_split d (F : 'M[R]_(ntoas d, k)) : size (d_freqs d) = ntoas d -> (forall i j, F i j = nth 0 (nth [::] (crows n d c T) i) j) ->
  forall i j, F i j = nth 0 (nth [::] (rows n T (d_toas d)) i) j * tint c (freq d i).
Proof.
move=> sf hF i j; have li : (i < List.length (d_toas d))%coq_nat by apply/ssrnat.ltP; exact: ltn_ord.
have lj : (j < (2 * n)%coq_nat)%coq_nat by have := ltn_ord j; lia.
by rewrite hF -!nth_list (crows_entry n d c T i j sf li lj) /freq !nth_list.
Qed.
Lemma fourier_cov d e (F : 'M[R]_(ntoas d, k)) (G : 'M[R]_(ntoas e, k)) : size (d_freqs d) = ntoas d -> size (d_freqs e) = ntoas e ->
  (forall i j, F i j = nth 0 (nth [::] (crows n d c T) i) j) -> (forall i j, G i j = nth 0 (nth [::] (crows n e c T) i) j) ->
  F *m diag_mx phi^T *m G^T = \matrix_(i, j) (tint c (freq d i) * tint c (freq e j) * kernel T n var (toa d i - toa e j)%coqR).
Proof.
move=> sd se /(entry_split sd) hF /(entry_split se) hG; apply/matrixP=> i j; rewrite [RHS]mxE [LHS]mxE.
have -> : kernel T n var (toa d i - toa e j)%coqR = ProofBases.wsum (powers n var) (List.nth i (rows n T (d_toas d)) [::]) (List.nth j (rows n T (d_toas e)) [::]).
  rewrite kernel_sum ?/toa ?nth_list //.
    by apply/ssrnat.ltP; rewrite -[List.length _]/(ntoas d).
  by apply/ssrnat.ltP; rewrite -[List.length _]/(ntoas e).
have [L1 F1] := rows_shape n T (d_toas d); have [L2 F2] := rows_shape n T (d_toas e).
have lr l r : List.Forall (fun r => List.length r = (2 * n)%coq_nat) l -> (r < List.length l)%N -> size (List.nth r l [::]) = size (powers n var).
  move=> F0 lt; rewrite -[size (powers _ _)]/(List.length _) powers_length.
  by move/List.Forall_forall: F0; apply; apply: List.nth_In; apply/ssrnat.ltP.
rewrite -wsum_sum; try (apply: lr; rewrite ?L1 ?L2 //; exact: ltn_ord).
have sp : size (powers n var) = k by rewrite -[size (powers _ _)]/(List.length _) powers_length ek.
rewrite sp big_distrr /=; apply: eq_bigr => u _; rewrite mul_mx_diag !mxE hp hF hG !nth_list.
set a := nth 0 _ _; set b := nth 0 _ _; set q := nth 0 _ _.
exact: mul5.
Qed.
Lemma fourier_posdef : (forall i, (1 <= i)%coq_nat /\ (i <= n)%coq_nat -> (0 < var i)%coqR) -> posdef (diag_mx phi^T).
Proof.
move=> vp; apply: diag_posdef => j; rewrite hp -nth_list; apply/RltP; apply: powers_pos => //.
by have := ltn_ord j; lia.
Qed.
Lemma fourier_columns d (F : 'M[R]_(ntoas d, k)) f pa co : size (d_freqs d) = ntoas d -> (forall i j, F i j = nth 0 (nth [::] (crows n d c T) i) j) ->
  ProofKernel.columns (@BSig (ntoas d) k F f pa co) = wave_cols d c T n.
Proof.
move=> sd /(entry_split sd) hF; rewrite /ProofKernel.columns /wave_cols /=.
transitivity (map (wave_col d c T) (map val (enum 'I_k))); last by rewrite val_enum_ord ek.
rewrite -[RHS]map_comp; apply: seq.eq_map => j /=; apply/matrixP => i u; rewrite !mxE hF rows_wave //.
by have := ltn_ord j; lia.
Qed.
End Fourier.

(** * Pulsars *)
Lemma sq_ge j rows : (0 <= ProofBases.rsum (List.map (fun r => List.nth j r 0 ^ 2) rows))%coqR.
Proof.
elim: rows => [|r l IH]; first exact: Rle_refl.
exact: (Rplus_le_le_0_compat _ _ (pow2_ge_0 _) IH).
Qed.
Lemma sq_zero j rows : ProofBases.rsum (List.map (fun r => List.nth j r 0 ^ 2)%coqR rows) = 0%coqR -> forall r, List.In r rows -> List.nth j r 0%coqR = 0%coqR.
Proof.
elim: rows => // r0 rows IH e; have g := sq_ge j rows; have sq := pow2_ge_0 (List.nth j r0 0%coqR).
change ((List.nth j r0 0 ^ 2 + ProofBases.rsum (List.map (fun r => List.nth j r 0 ^ 2) rows))%coqR = 0%coqR) in e.
have e1 : (List.nth j r0 0 ^ 2 = 0)%coqR by Lra.lra.
have e2 : (ProofBases.rsum (List.map (fun r => List.nth j r 0 ^ 2) rows) = 0)%coqR by Lra.lra.
move=> r [<-|hr]; last exact: IH.
by rewrite /= Rmult_1_r in e1; have [] := Rmult_integral _ _ e1.
Qed.
Lemma norm_nz d : size (d_Mmat d) = ntoas d -> full_rank (\matrix_(i < ntoas d, j < d_nfit d) nth 0 (nth [::] (d_Mmat d) i) j) ->
  forall j : 'I_(d_nfit d), norm_of (d_Mmat d) j <> 0.
Proof.
move=> sz fr j e; have z : forall r, List.In r (d_Mmat d) -> List.nth j r 0 = 0.
  by apply: sq_zero; apply: sqrt_eq_0 => //; exact: sq_ge.
have := fr (delta_mx j ord0); rewrite -colE => h.
have /matrixP /(_ j ord0) : delta_mx j ord0 = 0 :> 'cV[R]_(d_nfit d).
  apply: h; apply/matrixP => i u; rewrite !mxE -nth_list; apply: z; apply: nth_InP; by rewrite sz.
by rewrite !mxE !eqxx /= => /eqP; rewrite oner_eq0.
Qed.
Lemma design_rank d : size (d_Mmat d) = ntoas d -> full_rank (\matrix_(i < ntoas d, j < d_nfit d) nth 0 (nth [::] (d_Mmat d) i) j) -> full_rank (design d).
Proof.
move=> sz fr x ex; have nz := norm_nz sz fr.
have z : (\col_j (x j ord0 / norm_of (d_Mmat d) j)) = 0.
  apply: fr; rewrite -ex; apply/matrixP => i u; rewrite !mxE; apply: eq_bigr => j _; rewrite !mxE (ord1 u) !coqRE.
  by rewrite mulrCA mulrC.
apply/matrixP => j u; rewrite (ord1 u) mxE; move/matrixP: z => /(_ j ord0); rewrite !mxE => /eqP.
by rewrite mulf_eq0 invr_eq0 => /orP [/eqP //|/eqP h]; case: (nz j).
Qed.
Lemma filter_pos (T : Type) (P : pred T) (F : T -> R) l : (forall x, List.In x l -> P x -> 0 < F x) -> (exists2 x, List.In x l & P x) -> 0 < \sum_(x <- l | P x) F x.
Proof.
move=> h [x hx px]; have ge l' : (forall x, List.In x l' -> P x -> 0 < F x) -> 0 <= \sum_(x <- l' | P x) F x.
  elim: l' => [|y l' IH] hl; first by rewrite big_nil.
  have le : 0 <= \sum_(x <- l' | P x) F x by apply: IH => z hz; apply: hl; right.
  by rewrite big_cons; case: ifP => // py; apply: addr_ge0 => //; apply: ltW; apply: hl => //; left.
elim: l h hx => //= y l IH h [e|hx].
  by rewrite e in h *; rewrite big_cons px; apply: ltr_paddr; [apply: ge => z hz; apply: h; right|apply: h => //; left].
have pos : 0 < \sum_(x <- l | P x) F x by apply: IH => // z hz; apply: h; right.
by rewrite big_cons; case: ifP => // py; apply: addr_gt0 => //; apply: h => //; left.
Qed.
Lemma noise_atE val (masks : dict string mask) i : noise_at val masks i = \sum_(km <- masks | nth false km.2 i) val km.1 i.
Proof.
rewrite /noise_at; elim: masks => [|km l IH] /=; first by rewrite big_nil.
rewrite big_cons -IH nth_list; case: ifP => _ //; exact: add0r.
Qed.
Lemma fits (masks : dict string mask) n k (mk : mask) : List.NoDup (dkeys masks) -> masks_fit masks n -> List.In (k, mk) masks -> List.length mk = n.
Proof. by move=> nd fit hi; apply: (fit k); exact: In_dget. Qed.

Lemma sel_toasE d mk : size mk = ntoas d -> sel_toas d mk = take_mask (d_toas d) mk.
Proof. by rewrite /sel_toas; elim: (d_toas d) mk => [|t l IH] [|b mk] //= [e]; rewrite -IH //; case: b. Qed.
Lemma sel_maskP (masks : dict string mask) n k : List.NoDup (dkeys masks) -> (forall k mk, List.In (k, mk) masks -> size mk = n) -> List.In k (dkeys masks) ->
  dget string_dec masks k = Some (sel_mask masks k) /\ size (sel_mask masks k) = n.
Proof.
move=> nd fit /List.in_map_iff [[k' mk] [<- hi]]; have e := In_dget string_dec _ _ _ nd hi; rewrite /sel_mask /= e; split=> //; exact: fit hi.
Qed.
Section Pulsar.
Variables (S : Type) (seeded : Z -> S) (next : S -> R * S) (argsort : seq R -> seq nat) (hash : forall n, 'cV[R]_n -> nat).
Variables (m : standard) (span : R) (d : psrdata) (Tr : process -> string -> R) (p : params R) (v : values) (ps : seq psrdata).
Hypotheses (gw0 : m_orf m -> [/\ 0 < span, (0 < m_gw m)%N & common_span (m_Tgw m) [seq d_toas d | d <- ps] = Ok span]) (keys : keys_ok m).
Hypotheses (ok : psr_ok argsort hash m span Tr d) (hd : List.In d ps) (gp : given m ps p v).
Local Notation N := (ntoas d).
Local Notation fns := (std_fns m).
Definition ecorr_of : string -> R := ecorr_values (v_ecorr v (d_name d)) (d_masks d).
Definition epochs_of : seq (seq 'I_N * R) :=
  if m_ecorr m then if ecorr_kernel argsort N (d_toas d) (ecorr_masks (d_masks d)) ecorr_of is Ok bs then bs else [::] else [::].
Definition white : 'cV[R]_N := \col_i white_var m v d i.
Definition scaled : 'cV[R]_N :=
  \col_i \sum_(km <- d_masks d | nth false km.2 i) (v_efac v (d_name d) km.1 ^ 2 * (nth 0%R (d_errs d) i ^ 2 + (if m_equad m then Rpower 10 (2 * v_equad v (d_name d) km.1) else 0)))%coqR.
Definition added : 'cV[R]_N := \col_i \sum_(km <- d_masks d | nth false km.2 i) Rpower 10 (2 * v_tnequad v (d_name d) km.1)%coqR.
Lemma whiteE : white = white_sum (scaled :: (if m_tnequad m then [:: added] else [::])).
Proof.
rewrite /white_sum big_cons; apply/matrixP=> i j; rewrite !mxE /white_var big_split /=; congr (_ + _).
by case: (m_tnequad m) => [a|]; rewrite ?big_seq1 ?big_nil ?mxE //; apply: big1.
Qed.
Local Notation smask c k := (sel_mask (c_sel c d) k).
Definition c_blk (c : process) (k : string) : blk :=
  Blk k (smask c k) (2 * c_n c)%coq_nat (crows (c_n c) (picked (smask c k) d) (c_colour c) (Tr c k)) (GV (Vec (ModelBases.rep 2 (freqs (c_n c) (Tr c k))))).
Definition c_var (c : process) (k : string) : nat -> R :=
  variance (c_shape c) (v_A v (d_name d) (c_name c) k) (v_g v (d_name d) (c_name c) k) (v_rho v (d_name d) (c_name c) k) (Tr c k).
Definition c_powers (c : process) (k : string) : seq R := powers (c_n c) (c_var c k).
Definition c_blks (c : process) : seq blk := [seq c_blk c k | k <- sorted_keys (c_sel c d)].
Definition c_phis (c : process) : seq (seq R) := [seq c_powers c k | k <- sorted_keys (c_sel c d)].
Definition c_sig (c : process) : bsig N := @BSig N (ProofGp.columns (c_blks c)) (\matrix_(i, j) nth 0 (row_of (c_blks c) i) j)
  (PhiD (\col_j nth 0 (List.concat (c_phis c)) j)) false true.
Definition gw_basis : 'M[R]_(N, (2 * m_gw m)%coq_nat) := \matrix_(i, j) nth 0 (nth [::] (rows (m_gw m) span (d_toas d)) i) j.
Definition gw_phi : 'cV[R]_((2 * m_gw m)%coq_nat) := \col_j nth 0 (powers (m_gw m) (gw_var m span v)) j.
Definition gw_own : 'cV[R]_((2 * m_gw m)%coq_nat) := \col_j (nth 0 (powers (m_gw m) (gw_var m span v)) j * corr m d d).
Definition gw_sig : bsig N := BSig gw_basis (PhiD gw_own) false true.
Definition std_view : seq (view N) :=
  [:: View (Some (NMarg (design d) (NScal 0))) (Some None) None 0; View (Some (NVec scaled)) (Some None) None 0] ++
  [seq View None (Some None) (Some (c_sig c)) 0 | c <- m_procs m] ++
  (if m_orf m then [:: View None (Some None) (Some gw_sig) 0] else [::]) ++
  (if m_ecorr m then [:: View (Some (NSM epochs_of (NScal 0))) (Some None) None 0] else [::]) ++
  (if m_tnequad m then [:: View (Some (NVec added)) (Some None) None 0] else [::]).
Definition std_noise : nobj N := NMarg (design d) (if m_ecorr m then NSM epochs_of (NVec white) else NVec white).
Definition std_psr : psr_model := @PsrModel (@PsrView N (residual d) std_view) std_noise.

Lemma c_keys c k : List.In c (m_procs m) -> List.In k (dkeys (c_sel c d)) ->
  [/\ dget string_dec (c_sel c d) k = Some (smask c k), size (smask c k) = N, spans (c_T c) (take_mask (d_toas d) (smask c k)) (Tr c k) & 0 < Tr c k].
Proof.
case: ok => _ _ _ hT _ hc hk; have [_ nd fit /(_ k hk) [sp T0]] := hT c hc; have [e sz] := sel_maskP nd fit hk.
by split=> //; rewrite -sel_toasE.
Qed.
Lemma c_row c k i : List.In c (m_procs m) -> List.In k (dkeys (c_sel c d)) ->
  row_in (c_blk c k) i = if nth false (smask c k) i then nth [::] (crows (c_n c) d (c_colour c) (Tr c k)) i else List.repeat 0%coqR (2 * c_n c)%coq_nat.
Proof.
move=> hc hk; have [_ sz _ _] := c_keys hc hk; case: ok => -[n0 [se sf] sr sM ez] _ _ _ _.
rewrite /row_in /= nth_list; case: ifP => // hi; rewrite -nth_list in hi; rewrite -nth_list; exact: (picked_row (c_n c) (smask c k) d (c_colour c) (Tr c k) i sz sf hi).
Qed.
Lemma c_row_len c k i : List.In c (m_procs m) -> List.In k (dkeys (c_sel c d)) -> (i < N)%N -> size (row_in (c_blk c k) i) = (2 * c_n c)%coq_nat.
Proof.
move=> hc hk hi; rewrite c_row //; case: ok => -[n0 [se sf] sr sM ez] _ _ _ _; case: ifP => _; last exact: List.repeat_length.
have [L F] := crows_shape (c_n c) d (c_colour c) (Tr c k) sf; move/List.Forall_forall: F; apply; rewrite -nth_list; apply: List.nth_In; rewrite L; exact/ssrnat.ltP.
Qed.
Lemma views_of : noises (pm std_psr) = [:: NMarg (design d) (NScal 0); NVec scaled] ++ (if m_ecorr m then [:: NSM epochs_of (NScal 0)] else [::]) ++ (if m_tnequad m then [:: NVec added] else [::]) /\
  processes (pm std_psr) = [seq c_sig c | c <- m_procs m] ++ (if m_orf m then [:: gw_sig] else [::]) /\
  delay_sum (pm std_psr) = 0 /\ prior_sum (pm std_psr) = 0.
Proof.
rewrite /noises /processes /delay_sum /prior_sum /std_psr /std_view /=; do ! split.
- by congr [:: _, _ & _]; elim: (m_procs m) => [|c l IH] //=; case: (m_orf m); case: (m_ecorr m); case: (m_tnequad m).
- by elim: (m_procs m) => [|c l IH] /=; [case: (m_orf m); case: (m_ecorr m); case: (m_tnequad m)|rewrite IH].
- rewrite !big_cons /= !add0r !big_cat big_map /= big1 ?add0r => [|c _ //].
  by case: (m_orf m); case: (m_ecorr m); case: (m_tnequad m) => *; rewrite /= ?(big_cons, big_nil) /= ?addr0.
- rewrite !big_cons /= !add0r !big_cat big_map /= big1 ?add0r => [|c _ //].
  by case: (m_orf m); case: (m_ecorr m); case: (m_tnequad m) => *; rewrite /= ?(big_cons, big_nil) /= ?addr0.
Qed.
Lemma scaled_posv : posv scaled.
Proof.
case: ok => -[n0 [se sf] sr sM ez] [ek cover] _ _ _ i; rewrite mxE.
have [_ [nd [fit _]]] := ek; have [_ [hg _]] := gp.
apply: filter_pos => [[k mk] hk _ /=|].
  have [_ _ nz _ _] := hg d k hd (List.in_map fst _ _ hk).
  apply: mulr_gt0; first by apply/RltP; rewrite /= Rmult_1_r; apply: Rsqr_pos_lt.
  case em: (m_equad m) => [a|]; first by apply/RltP; apply: Rplus_le_lt_0_compat; [exact: pow2_ge_0|exact: exp_pos].
  move/ez: em => /(_ i (ltn_ord i)) /eqP hz; apply/RltP; rewrite Rplus_0_r /= Rmult_1_r; exact: Rsqr_pos_lt.
have [k [mk [h1 h2]]] := cover i (ltn_ord i); exists (k, mk); first exact: dget_In h1.
by rewrite /= -nth_list; exact: List.nth_error_nth.
Qed.
Lemma added_posv : posv added.
Proof.
case: ok => _ [_ cover] _ _ _ i; rewrite mxE.
apply: filter_pos => [[k mk] hk _ /=|]; first by apply/RltP; exact: exp_pos.
have [k [mk [h1 h2]]] := cover i (ltn_ord i); exists (k, mk); first exact: dget_In h1.
by rewrite /= -nth_list; exact: List.nth_error_nth.
Qed.
Lemma parts_posv u : u \in scaled :: (if m_tnequad m then [:: added] else [::]) -> posv u.
Proof. by case: (m_tnequad m) => [a|]; rewrite !inE; [case/orP|] => /eqP ->; first [exact: scaled_posv|exact: added_posv]. Qed.
Lemma white_posv : posv white.
Proof.
rewrite whiteE /white_sum big_cons; case: (m_tnequad m) => [a|]; rewrite ?big_seq1 ?big_nil ?addr0; last exact: scaled_posv.
move=> i; rewrite mxE; apply: addr_gt0; [exact: scaled_posv|exact: added_posv].
Qed.
Lemma mask_nonempty : d_masks d <> [::].
Proof.
case: ok => -[n0 _ _ _ _] [_ cover] _ _ _ e; have [k [mk [h _]]] := cover 0%N n0; by rewrite e in h.
Qed.
Lemma epochs_facts : epochs_ok m v epochs_of /\ (m_ecorr m -> ecorr_kernel argsort N (d_toas d) (ecorr_masks (d_masks d)) ecorr_of = Ok epochs_of) /\
  (forall b, b \in epochs_of -> 0 < b.2) /\ disjoint_epochs [seq b.1 | b <- epochs_of].
Proof.
case: ok => _ [ek _] _ _ _; rewrite /epochs_ok /epochs_of; case: (m_ecorr m) => [kind|]; last by split=> //; split=> //; split=> //.
have [bs [h1 h2 h3 [h4 h5]]] := kinds_epochs (v_ecorr v (d_name d)) ek.
by rewrite /ecorr_of h4; split.
Qed.
Lemma noise_facts : ModelNoise.get_ndiag (noises (pm std_psr)) = Ok std_noise /\ good_noise std_noise /\ cov_of std_noise = diag_cov white + ecorr_cov epochs_of.
Proof.
have [_ [_ [bp bd]]] := epochs_facts; case: ok => -[n0 [se sf] sr sM ez] _ fr _ _; have fr' := design_rank sM fr.
have tm : timing_noise [:: NMarg (design d) (NScal 0)] by right; exists (d_nfit d), (design d).
have vp := parts_posv.
have ws := esym whiteE.
have el : ecorr_like (NSM epochs_of (NScal 0)) (NSM epochs_of) by left; exists epochs_of.
have [h1 h2] := @ndiag_value _ [::] [:: scaled] (if m_tnequad m then [:: added] else [::]) _ _ _ n0 vp (fun e => ltac:(discriminate e)) tm el; rewrite [white_sum _]ws in h1 h2; have hm : [seq NVec u | u <- if m_tnequad m then [:: added] else [::]] = if m_tnequad m then [:: NVec added] else [::] by case: (m_tnequad m).
rewrite /= hm in h1 h2.
have [e [F [ee [EF [pF [cF _]]]]]] := @ecorr_noise_value _ ShermanMorrisonM epochs_of white n0 (fun e => ltac:(discriminate e)) white_posv bp bd.
have eF : F = NSM epochs_of.
  by case: EF ee => [[bs [-> ->]]|[[bs [_ [-> _]]]|[bs [-> _]]]] //= [->].
rewrite eF in pF cF.
have pW : proper_noise (NVec white) by exact: white_posv.
have [-> _] := views_of; rewrite /std_noise /=; case em: (m_ecorr m) => [kind|] /=.
  by split=> //; split=> //; rewrite /cov_of /= cF.
split=> //; split=> //.
have -> : ecorr_cov epochs_of = 0 by rewrite /epochs_of em; apply/matrixP=> i j; rewrite !mxE big_nil.
rewrite addr0 /cov_of /=.
by [].
Qed.
Definition c_term (c : process) (k : string) (i j : 'I_N) : R :=
  tint (c_colour c) (freq d i) * tint (c_colour c) (freq d j) * kernel (Tr c k) (c_n c) (c_var c k) (toa d i - toa d j)%coqR.
Definition c_cov (c : process) : 'M[R]_N := \matrix_(i, j) \sum_(k <- dkeys (c_sel c d) | nth false (smask c k) i && nth false (smask c k) j) c_term c k i j.
Lemma c_call c k : List.In c (m_procs m) -> List.In k (dkeys (c_sel c d)) ->
  gcall (inst (spectrum (c_shape c)) (us_name [:: d_name d; c_name c; k]) (Some (d_gv d))) [:: GV (Vec (ModelBases.rep 2 (freqs (c_n c) (Tr c k))))] [::] p = Ok (GV (Vec (c_powers c k))) /\
  forall u, (1 <= u)%coq_nat /\ (u <= c_n c)%coq_nat -> (0 < c_var c k u)%coqR.
Proof.
move=> hc hk; have [_ sz sp /RltP T0] := c_keys hc hk; have [_ [_ [hr _]]] := gp; rewrite -sel_toasE // in sp; have h := hr d c k _ hd hc hk sp.
by apply: (@call_shape _ _ _ _ _ _ _ _ _ T0 h); right; exists d.
Qed.
Lemma big_permut (F : string -> R) (l l' : seq string) : Permutation.Permutation l l' -> \sum_(x <- l) F x = \sum_(x <- l') F x.
Proof. by elim=> [//|x a b _ IH|x y a|a b c' _ -> _ ->//]; rewrite !big_cons ?IH // addrCA. Qed.
Section Keys.
Variables (c : process) (hc : List.In c (m_procs m)).
Local Notation bl l := ([seq c_blk c k | k <- l]).
Local Notation ph l := ([seq c_powers c k | k <- l]).
Local Notation within l := (forall k, List.In k l -> List.In k (dkeys (c_sel c d))).
Lemma all_keys : within (sorted_keys (c_sel c d)).
Proof. by move=> k; move/(proj1 (ProofDet.sorted_keys_in _ _)). Qed.
Lemma len_row (l : seq string) (i : 'I_N) : within l -> size (row_of (bl l) i) = ProofGp.columns (bl l).
Proof.
elim: l => //= k l IH h; rewrite -[row_of _ _]/(row_in (c_blk c k) i ++ row_of (bl l) i) size_cat IH => [|k' hk']; last by apply: h; right.
by rewrite c_row_len //; apply: h; left.
Qed.
Lemma len_phi (l : seq string) : size (List.concat (ph l)) = ProofGp.columns (bl l).
Proof.
elim: l => //= k l IH; rewrite -[List.app]/@cat size_cat IH; congr (_ + _)%N; exact: powers_length.
Qed.
Lemma sum_row (l : seq string) (i j : 'I_N) : within l -> ProofBases.wsum (List.concat (ph l)) (row_of (bl l) i) (row_of (bl l) j) =
  \sum_(k <- l | nth false (smask c k) i && nth false (smask c k) j) c_term c k i j.
Proof.
case: ok => -[n0 [se sf] sr sM ez] _ _ _ _.
elim: l => [|k l IH] h; first by rewrite big_nil.
have hk : List.In k (dkeys (c_sel c d)) by apply: h; left.
rewrite big_cons -IH => [|k' hk']; last by apply: h; right.
have e x : row_of (bl (k :: l)) x = List.app (row_in (c_blk c k) x) (row_of (bl l) x) by [].
have ep : List.concat (ph (k :: l)) = List.app (c_powers c k) (List.concat (ph l)) by [].
have lp : List.length (c_powers c k) = (2 * c_n c)%coq_nat by exact: powers_length.
rewrite !e ep wsum_app; try (by rewrite lp; exact: c_row_len); rewrite !c_row //.
case ei: (nth false _ i) => /=; last by rewrite (@wsum_zero _ (2 * c_n c)%coq_nat) ?Rplus_0_l //; left.
case ej: (nth false _ j) => /=; last by rewrite (@wsum_zero _ (2 * c_n c)%coq_nat) ?Rplus_0_l //; right.
congr (_ + _).
pose F : 'M[R]_(N, (2 * c_n c)%N) := \matrix_(x, y) nth 0 (nth [::] (crows (c_n c) d (c_colour c) (Tr c k)) x) y.
pose f : 'cV[R]_((2 * c_n c)%N) := \col_y nth 0 (c_powers c k) y.
have [_ _ _ T0] := c_keys hc hk.
have /matrixP /(_ i j) E := @fourier_cov (c_n c) _ (Tr c k) (c_var c k) (c_colour c) T0 erefl f (fun y => mxE _ _ _ _) d d F F sf sf (fun x y => mxE _ _ _ _) (fun x y => mxE _ _ _ _).
rewrite [RHS]mxE in E; refine (etrans _ E).
have [L Fa] := crows_shape (c_n c) d (c_colour c) (Tr c k) sf.
have lr x : (x < N)%N -> size (nth [::] (crows (c_n c) d (c_colour c) (Tr c k)) x) = size (c_powers c k).
  move=> hx; rewrite -[size (c_powers _ _)]/(List.length _) lp; move/List.Forall_forall: Fa; apply; rewrite -nth_list; apply: List.nth_In; rewrite L; exact/ssrnat.ltP.
rewrite -wsum_sum ?lr // mxE.
have sp : size (c_powers c k) = (2 * c_n c)%N by rewrite -[size _]/(List.length _) lp; lia.
rewrite sp; apply: eq_bigr => u _; by rewrite mul_mx_diag !mxE.
Qed.
Lemma cols_row (l : seq string) : within l -> [seq (\col_i nth 0 (row_of (bl l) i) j : 'cV[R]_N) | j <- iota 0 (ProofGp.columns (bl l))] = flatten [seq sel_cols d c (Tr c) k | k <- l].
Proof.
case: ok => -[n0 [se sf] sr sM ez] _ _ _ _.
elim: l => [|k l IH] h //; have hk : List.In k (dkeys (c_sel c d)) by apply: h; left.
have e x : row_of (bl (k :: l)) x = row_in (c_blk c k) x ++ row_of (bl l) x by [].
have ec : ProofGp.columns (bl (k :: l)) = ((2 * c_n c)%coq_nat + ProofGp.columns (bl l))%N by [].
have ef : flatten [seq sel_cols d c (Tr c) k' | k' <- k :: l] = sel_cols d c (Tr c) k ++ flatten [seq sel_cols d c (Tr c) k' | k' <- l] by [].
rewrite ec ef iotaD map_cat -IH => [|k' hk']; last by apply: h; right.
congr (_ ++ _).
  rewrite /sel_cols /wave_cols -map_comp; apply/eq_in_map => j; rewrite mem_iota /= => hj.
  apply/matrixP => i u; rewrite !mxE e nth_cat c_row_len // hj c_row //; case: ifP => _; last by rewrite -nth_list List.nth_repeat.
  have li : (i < List.length (d_toas d))%coq_nat by apply/ssrnat.ltP; exact: ltn_ord.
  have lj : (j < (2 * c_n c)%coq_nat)%coq_nat by exact/ssrnat.ltP.
  rewrite -!nth_list (crows_entry (c_n c) d (c_colour c) (Tr c k) i j sf li lj) !nth_list rows_wave //.
rewrite add0n -[X in iota X _]addn0 iotaDl -map_comp; apply: seq.eq_map => j /=; apply/matrixP => i u; rewrite !mxE e nth_cat c_row_len //.
by rewrite ltnNge leq_addr /= addKn.
Qed.
Lemma phi_pos (l : seq string) j : within l -> (j < size (List.concat (ph l)))%N -> 0 < nth 0 (List.concat (ph l)) j.
Proof.
move=> h hj; rewrite -nth_list; have /List.in_concat [q [/List.in_map_iff [k [<- hk]] hx]] := List.nth_In (List.concat (ph l)) 0 (ssrnat.ltP hj).
have [u [hu <-]] := List.In_nth _ _ 0 hx; have [_ vp] := c_call hc (h k hk).
by apply/RltP; apply: powers_pos => //; rewrite powers_length in hu.
Qed.
End Keys.
Lemma gw_call : m_orf m -> gcall (inst (spectrum (m_gwshape m)) "gw" None) [:: GV (Vec (ModelBases.rep 2 (freqs (m_gw m) span)))] [::] p = Ok (GV (Vec (powers (m_gw m) (gw_var m span v)))) /\
  forall k, (1 <= k)%coq_nat /\ (k <= m_gw m)%coq_nat -> (0 < gw_var m span v k)%coqR.
Proof.
move=> mo; have [/RltP s0 _ cs] := gw0 mo; have [_ [_ [_ hg]]] := gp; have h := hg span mo cs.
by apply: (@call_shape _ _ _ [:: "gw"%string] _ _ _ _ _ s0 h); left.
Qed.
Lemma c_facts c : List.In c (m_procs m) -> [/\ ProofKernel.columns (c_sig c) = flatten [seq sel_cols d c (Tr c) k | k <- sorted_keys (c_sel c d)], posdef (phi_mx (bphi (c_sig c))), (0 < bk (c_sig c))%N
  & bF (c_sig c) *m phi_mx (bphi (c_sig c)) *m (bF (c_sig c))^T = c_cov c].
Proof.
move=> hc; have wi := @all_keys c; have [pos _ _ _] := keys; have c0 := pos c hc; split.
- rewrite -(cols_row hc wi) /ProofKernel.columns -/(c_blks c) -val_enum_ord -[RHS]map_comp; apply: seq.eq_map => j; by apply/matrixP => i u; rewrite !mxE.
- apply: diag_posdef => j; rewrite mxE; apply: (phi_pos hc wi); rewrite (len_phi c); exact: ltn_ord.
- case: ok => _ _ _ hT _; have [ne _ _ _] := hT c hc; rewrite /= /c_blks.
  have : sorted_keys (c_sel c d) <> [::] by move=> e; have := isort_perm sle (dkeys (c_sel c d)); rewrite -/(sorted_keys _) e => /Permutation.Permutation_nil; case: (c_sel c d) ne.
  by case: (sorted_keys _) => // k l _; rewrite /ProofGp.columns /=; move: c0; lia.
- apply/matrixP => i j; rewrite [RHS]mxE [LHS]mxE.
  have <- : \sum_(k <- sorted_keys (c_sel c d) | nth false (smask c k) i && nth false (smask c k) j) c_term c k i j = \sum_(k <- dkeys (c_sel c d) | nth false (smask c k) i && nth false (smask c k) j) c_term c k i j.
    rewrite big_mkcond [RHS]big_mkcond; exact: (big_permut _ (isort_perm sle _)).
  rewrite -(sum_row hc i j wi) -wsum_sum; try (by rewrite (len_phi c); exact: len_row).
  rewrite (len_phi c); apply: eq_bigr => u _; by rewrite mul_mx_diag !mxE.
Qed.
Lemma corr_pos : m_orf m -> 0 < corr m d d.
Proof. by rewrite /corr; case: (m_orf m) => // k _; rewrite correlationE; exact: orf_own. Qed.
Lemma gw_facts : m_orf m -> [/\ ProofKernel.columns gw_sig = wave_cols d Achromatic span (m_gw m), posdef (phi_mx (bphi gw_sig)), (0 < bk gw_sig)%N
  & bF gw_sig *m phi_mx (bphi gw_sig) *m (bF gw_sig)^T = \matrix_(i, j) (corr m d d * kernel span (m_gw m) (gw_var m span v) (toa d i - toa d j)%coqR)].
Proof.
move=> mo; have [span0 g0 _] := gw0 mo; have [_ vpos] := gw_call mo; case: ok => -[n0 [se sf] sr sM ez] _ _ _ _.
have p2 j : gw_phi j ord0 = nth 0 (powers (m_gw m) (gw_var m span v)) j by rewrite mxE.
have gw_pos j : 0 < gw_phi j ord0.
  by rewrite mxE -nth_list; apply/RltP; apply: powers_pos => //; have := ltn_ord j; lia.
split.
- by apply: (@fourier_columns _ (2 * m_gw m) span Achromatic span0 erefl) => // i j; rewrite mxE.
- by apply: diag_posdef => j; rewrite mxE; apply: mulr_gt0; [rewrite -p2; exact: gw_pos|exact: corr_pos].
- by rewrite /=; move: g0; lia.
- have -> : phi_mx (bphi gw_sig) = corr m d d *: diag_mx gw_phi^T.
    by apply/matrixP => i j; rewrite !mxE; case: (i == j); rewrite ?mulr0n ?mulr0 // !mulr1n mulrC.
  rewrite -scalemxAr -scalemxAl (@fourier_cov _ (2 * m_gw m) _ _ Achromatic span0 erefl _ p2 d d _ _ sf sf) => [|i j|i j]; try by rewrite mxE.
  by apply/matrixP=> i j; rewrite !mxE [tint _ _]/= !mul1r.
Qed.
Lemma process_facts : ProofEcorr.coll_ok (@hash N) (processes (pm std_psr)) /\
  coll_cov (processes (pm std_psr)) = \sum_(c <- m_procs m) c_cov c + \matrix_(i, j) (corr m d d * kernel span (m_gw m) (gw_var m span v) (toa d i - toa d j)%coqR).
Proof.
have [_ [-> _]] := views_of.
have ec : [seq ProofKernel.columns s | s <- [seq c_sig c | c <- m_procs m] ++ (if m_orf m then [:: gw_sig] else [::])] = all_cols m span Tr d.
  rewrite /all_cols map_cat -map_comp; congr (_ ++ _).
    by have F0 := c_facts; elim: (m_procs m) F0 => //= c l IH h; rewrite IH => [|c' hc']; [have [-> _ _ _] := h c (or_introl erefl)|apply: h; right].
  by case mo: (m_orf m) => [k|] //=; have [|-> _ _ _] := gw_facts; rewrite ?mo.
have each s : List.In s ([seq c_sig c | c <- m_procs m] ++ (if m_orf m then [:: gw_sig] else [::])) -> posdef (phi_mx (bphi s)) /\ (0 < bk s)%N.
  move=> /List.in_app_iff [/List.in_map_iff [c [<- hc]]|]; first by have [] := c_facts hc.
  by case mo: (m_orf m) => [k|] //= -[<-|//]; have [|] := gw_facts; rewrite ?mo.
case: ok => _ _ _ _ [un inj]; split.
  split.
  - by rewrite /no_collision ec; exact: inj.
  - have : all (fun s : bsig N => ~~ bpar s) ([seq c_sig c | c <- m_procs m] ++ (if m_orf m then [:: gw_sig] else [::])).
      by rewrite all_cat all_map; apply/andP; split; [elim: (m_procs m)|case: (m_orf m)].
    by rewrite /fixed_first; elim: (_ ++ _) => //= s l IH /andP [hs hl]; rewrite IH // andbT; elim: (l) => //= t l' ->; rewrite (negbTE hs).
  - move: un; rewrite -ec /no_repeats all_map => un; apply: sub_all un => s /= u; by rewrite u !orbT.
  - by elim: (_ ++ _) each => //= s l IH each; have [_ ->] := each s (or_introl erefl); apply: IH => t ht; apply: each; right.
  - by move=> s /each [].
rewrite /coll_cov big_cat big_map; congr (_ + _).
  by have F0 := c_facts; elim: (m_procs m) F0 => [|c l IH] h; [rewrite !big_nil|rewrite !big_cons IH => [|c' hc']; [have [_ _ _ ->] := h c (or_introl erefl)|apply: h; right]].
case mo: (m_orf m) => [k|]; first by rewrite big_seq1; have [|_ _ _ ->] := gw_facts; rewrite ?mo.
by rewrite big_nil /corr mo; apply/matrixP=> i j; rewrite !mxE mul0r.
Qed.
Lemma std_good : good_psr hash std_psr.
Proof. by have [h1 [h2 _]] := noise_facts; have [h3 _] := process_facts; split. Qed.
Lemma std_cov : cov_of (pm_N std_psr) + coll_cov (processes (pm std_psr)) = own_cov m span (fun _ => Tr) v epochs_of.
Proof.
have [_ [_ h]] := noise_facts; have [_ h'] := process_facts; rewrite [pm_N _]/= h h'; apply/matrixP=> i j; rewrite !mxE.
rewrite summxE addrA; congr (_ + _ + _ + _); by apply: eq_bigr => c _; rewrite mxE.
Qed.
Lemma std_resid : v_res (pm std_psr) - delay_sum (pm std_psr) = residual d.
Proof. by have [_ [_ [-> _]]] := views_of; rewrite subr0. Qed.
(** ** What the signals add *)
Lemma us_drop (a b c : string) : us_name [:: a; ""%string; b; c] = us_name [:: a; b; c].
Proof. by rewrite /us_name /=; case: (String.eqb a ""). Qed.
Lemma us_drop3 (a b : string) : us_name [:: a; b; ""%string] = us_name [:: a; b].
Proof. by rewrite /us_name /=; case: (String.eqb a ""); case: (String.eqb b ""). Qed.
Lemma us_drop2 (a b c : string) : us_name [:: a; b; ""%string; c] = us_name [:: a; b; c].
Proof. by rewrite /us_name /=; case: (String.eqb a ""); case: (String.eqb b ""). Qed.
Lemma wadd_tm : wadds argsort fns p (timing_model (d_name d) (d_gv d)) (View (Some (NMarg (design d) (NScal 0))) (Some None) None 0).
Proof.
case: ok => -[n0 [se sf] sr sM ez] _ fr _ _; have nz := norm_nz sM fr.
have [F [h1 [h2 [h3 h4]]]] := call_normed d (join_us [:: d_name d; "marginalizing_linear_timing_model"]) [::].
exists (d_nfit d), F, (num 1); split; first exact: h1.
split; first by rewrite h2.
split=> //; congr (View (Some (NMarg _ _))); apply/matrixP=> i j; rewrite !mxE -[in RHS]nth_list -[in RHS]nth_list h4; first by rewrite !nth_list.
- by apply/ssrnat.ltP; rewrite -[List.length _]/(size _) sM.
- exact/ssrnat.ltP.
- exact: nz.
Qed.
Lemma wadd_white : wadds argsort fns p (measurement_noise (m_efac m) (m_equad m) "" (d_name d) (d_gv d) (d_masks d)) (View (Some (NVec scaled)) (Some None) None 0).
Proof.
case: ok => -[n0 [se sf] sr sM ez] [[_ [nd [fit _]]] _] _ _ _; have [_ [hg _]] := gp; split=> //.
exists (fun k i => (v_efac v (d_name d) k ^ 2 * (nth 0%R (d_errs d) i ^ 2 + (if m_equad m then Rpower 10 (2 * v_equad v (d_name d) k) else 0)))%coqR); split; first exact: mask_nonempty.
split; last by congr (View (Some (NVec _))); apply/matrixP=> i j; rewrite !mxE noise_atE.
move=> k mk hk; split; first exact: fits hk.
have [h1 h2 _ _ _] := hg d k hd (List.in_map fst _ _ hk).
have lt i : (i < N)%coq_nat -> (i < size (d_errs d))%N by rewrite se => ?; exact/ssrnat.ltP.
case em: (m_equad m) h2 => [a|] h2; eexists; split.
- by apply: call_combined; rewrite us_name_nested us_drop; [exact: h1|exact: h2].
- by split; [rewrite List.map_length|move=> i /lt li; rewrite nth_list -[List.map]/@map (nth_map 0%R)].
- by apply: call_efac; rewrite us_name_nested us_drop; exact: h1.
- by split; [rewrite List.map_length|move=> i /lt li; rewrite nth_list -[List.map]/@map (nth_map 0%R) // Rplus_0_r].
Qed.
Lemma wadd_tn a : m_tnequad m = Some a -> wadds argsort fns p (tnequad_noise a "" (d_name d) (d_gv d) (d_masks d)) (View (Some (NVec added)) (Some None) None 0).
Proof.
move=> em; case: ok => _ [[_ [nd [fit _]]] _] _ _ _; have [_ [hg _]] := gp; split=> //.
exists (fun k i => Rpower 10 (2 * v_tnequad v (d_name d) k)%coqR); split; first exact: mask_nonempty.
split; last by congr (View (Some (NVec _))); apply/matrixP=> i j; rewrite !mxE noise_atE.
move=> k mk hk; split; first exact: fits hk.
have [_ _ _ h _] := hg d k hd (List.in_map fst _ _ hk); rewrite em in h; eexists; split.
- by apply: call_tnequad; rewrite us_name_nested us_drop; exact: h.
- split; first by rewrite List.map_length.
  by move=> i /ssrnat.ltP li; rewrite nth_list -[List.map]/@map (nth_map 0%R) // Rmult_1_l.
Qed.
Lemma process_plain c : std_process seeded next d c = Plain (Proc (spectrum (c_shape c)) (colour_class seeded next (c_colour c) (c_n c) (span_gv (c_T c))) (c_name c) (d_name d) (d_gv d) (c_sel c d) true).
Proof. by rewrite /std_process /coloured_gp; case: (c_colour c). Qed.
Lemma colour_fixed c (l : seq string) : has depends [seq selected (c_name c) (d_name d) (d_gv d) (colour_class seeded next (c_colour c) (c_n c) (span_gv (c_T c))) k | k <- l] = false.
Proof. by elim: l => //= k l ->; case: (c_colour c) => [||[]]. Qed.
Lemma wadd_proc c : List.In c (m_procs m) -> wadds argsort fns p (std_process seeded next d c) (View None (Some None) (Some (c_sig c)) 0).
Proof.
case: ok => -[n0 [se sf] sr sM ez] _ _ hT _ hc; have [ne nd fit _] := hT c hc; have [fl _] := gp; rewrite process_plain; split=> //.
have B q : flat_values q -> blocks_at (colour_class seeded next (c_colour c) (c_n c) (span_gv (c_T c))) (c_name c) (d_name d) (d_gv d) (c_sel c d) N q (c_blks c).
  move=> fq; split=> //; split.
    rewrite /c_blks => e; have := isort_perm sle (dkeys (c_sel c d)); rewrite -/(sorted_keys _); move: e; case: (sorted_keys _) => // _ /Permutation.Permutation_nil; by case: (c_sel c d) ne.
  split; first by rewrite /c_blks -[List.map]/@map -map_comp -[RHS]map_id.
  move=> b /List.in_map_iff [k [<- /all_keys hk]]; have [e sz sp _] := c_keys hc hk.
  have [L F] := crows_shape (c_n c) (picked (smask c k) d) (c_colour c) (Tr c k) (picked_len _ _ sz sf).
  split=> //; split=> //; split; first exact: (@call_picked _ seeded next (c_n c) d (smask c k) (c_colour c) (c_T c) (Tr c k) _ q sz sf sp).
  by split=> //; rewrite L; exact: (take_len (d_toas d) (smask c k) sz).
exists (c_blks c), (c_blks c), (c_phis c).
split; first exact: B.
split; first by apply: B => n l e; discriminate e.
split=> //; split; last by congr (View _ _ (Some _) _); rewrite colour_fixed.
rewrite /c_blks /c_phis; have := @all_keys c; elim: (sorted_keys _) => [|k l IH] h; constructor; last by apply: IH => k' hk'; apply: h; right.
have [h1 _] := c_call hc (h k (or_introl erefl)); split; [exact: h1|exact: powers_length].
Qed.
Lemma wadd_gw : m_orf m -> wadds argsort fns p (fourier_common seeded next (m_gw m) span "gw" (d_name d) (d_gv d) (GV (Vec (pos_list (d_pos d)))) 0) (View None (Some None) (Some gw_sig) 0).
Proof.
move=> mo; have [h1 _] := gw_call mo; split=> //.
have [L F] := rows_shape (m_gw m) span (d_toas d).
have C q : gcall (inst (plain_class seeded next (m_gw m) (num span)) (join_us [:: d_name d; "gw"%string]) (Some (d_gv d))) [::] [::] q = Ok (GPair (GMat (2 * m_gw m)%coq_nat (rows (m_gw m) span (d_toas d))) (GV (Vec (ModelBases.rep 2 (freqs (m_gw m) span))))).
  by have [h _] := @call_red _ seeded next (m_gw m) d (Some span) span (join_us [:: d_name d; "gw"%string]) q erefl.
exists (2 * m_gw m)%coq_nat, (rows (m_gw m) span (d_toas d)), (GV (Vec (ModelBases.rep 2 (freqs (m_gw m) span)))), (rows (m_gw m) span (d_toas d)), (GV (Vec (ModelBases.rep 2 (freqs (m_gw m) span)))),
  (powers (m_gw m) (gw_var m span v)), (corr m d d).
split; first exact: C.
split; first by rewrite L.
split=> //; split; first exact: C.
split; first by rewrite L.
split=> //; split; first exact: h1.
split; first exact: powers_length.
by split; first by rewrite /std_fns /corr; case: (m_orf m) mo => // k _; rewrite correlationE; exact: call_orf.
Qed.
Lemma wadd_ecorr kind : m_ecorr m = Some kind -> wadds argsort fns p (Ecorr false kind (d_name d) (d_toas d) (d_masks d)) (View (Some (NSM epochs_of (NScal 0))) (Some None) None 0).
Proof.
move=> em; have [_ [hg _]] := gp; have [_ [ek _]] := epochs_facts; move: ek; rewrite em => /(_ isT) ek; split=> //; split; first exact: mask_nonempty.
exists ecorr_of, epochs_of, (NSM epochs_of (NScal 0)); split; last by split.
by move=> k hk; have [_ _ _ _] := hg d k hd hk; rewrite em /ecorr_of ecorr_valuesE //; case: (kind) => [|x] // [-> _].
Qed.
Lemma wadd_cat ss ss' (ws ws' : seq (view N)) : all_wadd argsort fns p ss ws -> all_wadd argsort fns p ss' ws' -> all_wadd argsort fns p (ss ++ ss')%list (ws ++ ws').
Proof. by elim=> //= s w ss1 ws1 h _ IH h'; constructor=> //; exact: IH. Qed.
Lemma std_adds : psr_wadds argsort fns p (std_signals seeded next m span d, d_res d) (pm std_psr).
Proof.
split; first by case: ok => -[n0 [se sf] sr sM ez] _ _ _ _.
split; first by move=> i; rewrite mxE.
rewrite /std_psr /std_view /std_signals /=.
constructor; first exact: wadd_tm.
constructor; first exact: wadd_white.
apply: wadd_cat.
  by have F0 := wadd_proc; elim: (m_procs m) F0 => [|c l IH] h; [exact: wadd_nil|constructor; [apply: h; left|apply: IH => c' hc'; apply: h; right]].
apply: wadd_cat.
  by case mo: (m_orf m) => [k|]; [constructor; [by apply: wadd_gw; rewrite mo|]|]; exact: wadd_nil.
apply: wadd_cat.
  case em: (m_ecorr m) => [kind|]; last exact: wadd_nil.
  by constructor; [exact: wadd_ecorr|exact: wadd_nil].
case em: (m_tnequad m) => [a|]; last exact: wadd_nil.
by constructor; [exact: wadd_tn|exact: wadd_nil].
Qed.
Lemma signal_cases s : List.In s (std_signals seeded next m span d) ->
  [\/ s = timing_model (d_name d) (d_gv d), s = measurement_noise (m_efac m) (m_equad m) "" (d_name d) (d_gv d) (d_masks d), (exists2 c, List.In c (m_procs m) & s = std_process seeded next d c) |
      (m_orf m /\ s = fourier_common seeded next (m_gw m) span "gw" (d_name d) (d_gv d) (GV (Vec (pos_list (d_pos d)))) 0) \/ (exists2 kind, m_ecorr m = Some kind & s = Ecorr false kind (d_name d) (d_toas d) (d_masks d)) \/
      (exists2 a, m_tnequad m = Some a & s = tnequad_noise a "" (d_name d) (d_gv d) (d_masks d))].
Proof.
case=> [<-|[<-|]]; [exact: Or41|exact: Or42|].
move=> /List.in_app_iff [/List.in_map_iff [c [<- hc]]|/List.in_app_iff [|/List.in_app_iff [|]]].
- by apply: Or43; exists c.
- by case: (m_orf m) => [k|] // -[<-|//]; apply: Or44; left.
- by case: (m_ecorr m) => [k|] // -[<-|//]; apply: Or44; right; left; exists k.
- by case: (m_tnequad m) => [a|] // -[<-|//]; apply: Or44; right; right; exists a.
Qed.
Lemma std_proper s : List.In s (std_signals seeded next m span d) -> wproper s.
Proof.
case: ok => _ [[_ [nd _]] _] _ _ _; have [_ pe pq pt] := keys.
case/signal_cases => [->|->|[c hc ->]|[[_ ->]|[[kind _ ->]|[a ea ->]]]] //.
- by split=> //; case: (m_equad m) pq => [a|] pq'; repeat constructor; move: pe; case: (m_efac m) => //; move: pq'; case: a.
- by case: ok => _ _ _ hT _; have [_ nd' _ _] := hT c hc; rewrite process_plain; split; [exact: nd'|case: (c_colour c) => [||[x|]]; repeat constructor].
- by repeat constructor.
- by rewrite ea in pt; split=> //; repeat constructor; move: pt; case: (a).
Qed.
Lemma std_fair s : List.In s (std_signals seeded next m span d) -> fair_to fns s p.
Proof.
have [_ [hg _]] := gp; case/signal_cases => [->|->|[c hc ->]|[[_ ->]|[[kind em ->]|[a ea ->]]]] //.
- move=> o /List.in_map_iff [k [<- hk]]; have [h1 h2 _ _ _] := hg d k hd hk; rewrite /selected.
  case: (m_equad m) h2 => [a|] h2; [apply: inst_spares2 => //; rewrite us_name_nested us_drop; [exact: h1|exact: h2]|apply: inst_spares; rewrite us_name_nested us_drop; exact: h1].
- by rewrite process_plain => o /List.in_map_iff [k [<- _]] q; case: (c_colour c) => [||[x|]] [].
- by move=> o [<-|//] q [].
- by case: kind em => [//|x] em k hk; have [_ _ _ _] := hg d k hd hk; rewrite em => -[].
- move=> o /List.in_map_iff [k [<- hk]]; have [_ _ _ h _] := hg d k hd hk; rewrite ea in h; rewrite /selected; apply: inst_spares; rewrite us_name_nested us_drop; exact: h.
Qed.
Lemma gets_ok (masks : dict string mask) : exists ms, rmapM (dgetE string_dec masks) (sorted_keys masks) = Ok ms.
Proof. by eexists; apply: ProofDet.rmapM_gets => k; exact: (proj1 (ProofDet.sorted_keys_in masks k)). Qed.
Lemma std_made : exists ds, rmapM (new_wsig argsort fns) (std_signals seeded next m span d) = Ok ds.
Proof.
have [_ [ek _]] := epochs_facts; case: ok => _ [[_ [nd _]] _] _ _ _.
have cons s l : (exists e, new_wsig argsort fns s = Ok e) -> (exists ds, rmapM (new_wsig argsort fns) l = Ok ds) -> exists ds, rmapM (new_wsig argsort fns) (s :: l) = Ok ds.
  by move=> [e he] [ds hl]; exists (e :: ds); rewrite /= he /= hl.
apply: (cons); first by eexists; reflexivity.
apply: (cons).
  by have [ms hm] := gets_ok (d_masks d); eexists; rewrite /new_wsig /measurement_noise /new_sig /new_fsel hm; reflexivity.
rewrite -[X in exists ds, _ X = _]/(_ ++ _)%list.
have mapcons l : (exists ds, rmapM (new_wsig argsort fns) l = Ok ds) -> exists ds, rmapM (new_wsig argsort fns) (List.map (std_process seeded next d) (m_procs m) ++ l)%list = Ok ds.
  by move=> hl; elim: (m_procs m) => [//|c cs IH]; apply: (cons) => //; rewrite process_plain; have [ms hm] := gets_ok (c_sel c d); eexists; rewrite /new_wsig /new_sig /new_gp /gp_functions hm; reflexivity.
apply: mapcons.
have gwcons l : (exists ds, rmapM (new_wsig argsort fns) l = Ok ds) -> exists ds, rmapM (new_wsig argsort fns) (match m_orf m with Some _ => [:: fourier_common seeded next (m_gw m) span "gw" (d_name d) (d_gv d) (GV (Vec (pos_list (d_pos d)))) 0] | None => [::] end ++ l)%list = Ok ds.
  by move=> hl; case: (m_orf m) => [k|] //; apply: (cons) => //; eexists; reflexivity.
apply: gwcons.
have tn : exists ds, rmapM (new_wsig argsort fns) (match m_tnequad m with Some a => [:: tnequad_noise a "" (d_name d) (d_gv d) (d_masks d)] | None => [::] end) = Ok ds.
  case: (m_tnequad m) => [a|]; last by exists [::].
  apply: (cons); last by exists [::].
  by have [ms hm] := gets_ok (d_masks d); eexists; rewrite /new_wsig /tnequad_noise /new_sig /new_fsel hm; reflexivity.
case em: (m_ecorr m) ek => [kind|] ek; last exact: tn.
apply: (cons); last exact: tn.
move: (ek isT); rewrite /ecorr_kernel; case ei: (ecorr_idxs argsort (d_toas d) (ecorr_masks (d_masks d))) => [idxs|//] _.
rewrite /new_wsig /new_ecorr; have := ProofSelect.selection_names_lem (d_name d) "log10_ecorr" (d_masks d) nd; case: selection_call => ps' ms [-> [-> _]].
by rewrite -[ecorr_idxs _ _ _]/(ecorr_idxs argsort (d_toas d) (ecorr_masks (d_masks d))) ei; eexists; reflexivity.
Qed.
End Pulsar.

(** * The array *)
Lemma zipIn (T : Type) (l : seq T) a x : List.In x (zip (iota a (size l)) l) -> List.In x.2 l /\ (a <= x.1)%N /\ List.nth_error l (x.1 - a) = Some x.2.
Proof.
elim: l a => //= y l IH a [<-|/IH [h1 [h2 h3]]]; first by rewrite subnn; split; [left|].
split; first by right.
split; first exact: ltnW.
by have -> : (x.1 - a = (x.1 - a.+1).+1)%N by lia.
Qed.
Lemma zip_fst (T : Type) (l : seq T) a : [seq x.1 | x <- zip (iota a (size l)) l] = iota a (size l).
Proof. by elim: l a => //= y l IH a; rewrite IH. Qed.
Lemma zip_snd (T : Type) (l : seq T) a : [seq x.2 | x <- zip (iota a (size l)) l] = l.
Proof. by elim: l a => //= y l IH a; rewrite IH. Qed.
Lemma zip_all2 (T U V : Type) (f : T -> U) (g : nat * T -> V) (P : U -> V -> Prop) a l : (forall x, List.In x (zip (iota a (size l)) l) -> P (f x.2) (g x)) ->
  List.Forall2 P (List.map f l) [seq g x | x <- zip (iota a (size l)) l].
Proof.
elim: l a => [|y l IH] a h; first by constructor.
by constructor; [apply: (h (a, y)); left|apply: IH => x hx; apply: h; right].
Qed.
Section Array.
Variables (S : Type) (seeded : Z -> S) (next : S -> R * S) (argsort : seq R -> seq nat) (hash : forall n, 'cV[R]_n -> nat).
Variables (m : standard) (ps : seq psrdata) (span : R) (Tr : psrdata -> process -> string -> R).
Hypothesis (ok : std_ok argsort hash m ps span Tr).
Local Notation fns := (std_fns m).
Local Notation arr := (std_array seeded next m span ps).
Definition std_K (_ : nat) : nat := (2 * m_gw m)%coq_nat.
Definition std_orf (_ i j : nat) : R := if m_orf m is Some k then orf_of k (nth (0, 0, 0)%R [seq d_pos d | d <- ps] i) (nth (0, 0, 0)%R [seq d_pos d | d <- ps] j) else 0.
Definition gw_place : nat := (2 + size (m_procs m))%N.
Local Arguments gw_place : simpl never.
Local Arguments std_signals : simpl never.
Definition std_mk (v : values) (x : nat * psrdata) : mpsr std_K :=
  @MPsr std_K (std_psr argsort m span x.2 (Tr x.2) v) x.1 (fun k => if k is 0%N then Some gw_place else None) (fun _ => gw_basis m span x.2).
Definition std_list (v : values) : seq (mpsr std_K) := [seq std_mk v x | x <- zip (iota 0 (size ps)) ps].
Lemma std_array_made : exists dss, new_warray argsort fns arr = Ok dss.
Proof.
have [ky _ h] := ok; rewrite /new_warray /std_array.
have {h} : forall d, List.In d ps -> exists ds, rmapM (new_wsig argsort fns) (std_signals seeded next m span d) = Ok ds.
  by move=> d hd; apply: (@std_made _ seeded next argsort hash m span d (Tr d) (Values (fun _ _ => 0) (fun _ _ => 0) (fun _ _ => 0) (fun _ _ => 0) (fun _ _ _ => 0) (fun _ _ _ => 0) (fun _ _ _ _ => 0) 0 0 (fun _ => 0))); exact: h.
elim: (ps) => [|d l IH] h; first by exists [::].
have [dss e] := IH (fun d hd => h d (or_intror hd)); have [ds e'] := h d (or_introl erefl).
by exists (ds :: dss); cbn [List.map rmapM fst]; rewrite e'; cbn [rbind]; rewrite e.
Qed.
Lemma std_inP x : List.In x (zip (iota 0 (size ps)) ps) -> List.In x.2 ps /\ List.nth_error ps x.1 = Some x.2 /\ psr_ok argsort hash m span (Tr x.2) x.2 /\ nth (0, 0, 0)%R [seq d_pos d | d <- ps] x.1 = d_pos x.2.
Proof.
have [_ _ h] := ok; move=> /zipIn [h1 [_]]; rewrite subn0 => h3; split=> //; split=> //; split; first exact: h.
by rewrite -nth_list; apply: List.nth_error_nth; exact: (List.map_nth_error d_pos _ _ h3).
Qed.
Section Call.
Variables (p : params R) (v : values).
Hypothesis gp : given m ps p v.
Lemma std_gw0 : m_orf m -> [/\ 0 < span, (0 < m_gw m)%N & common_span (m_Tgw m) [seq d_toas d | d <- ps] = Ok span].
Proof. by have [_ h _] := ok; move/h => -[]. Qed.
Lemma std_permitted : wpermitted fns arr p.
Proof.
split; first by case: gp.
move=> c s /List.in_map_iff [d [<- hd]] /=; move=> hs; exact: (std_fair hd gp hs).
Qed.
Lemma std_psr_all : List.Forall2 (fun c q => psr_wadds argsort fns p c (pm q) /\ good_psr hash q) arr [seq std_psr argsort m span d (Tr d) v | d <- ps].
Proof.
have [ky _ h] := ok; rewrite /std_array.
have : forall d, List.In d ps -> psr_wadds argsort fns p (std_signals seeded next m span d, d_res d) (pm (std_psr argsort m span d (Tr d) v)) /\ good_psr hash (std_psr argsort m span d (Tr d) v).
  by move=> d hd; split; [exact: (std_adds seeded next std_gw0 (h d hd) hd gp)|exact: (std_good std_gw0 ky (h d hd) hd gp)].
elim: (ps) => [|d l IH] H; first by constructor.
by constructor; [apply: H; left|apply: IH => e he; apply: H; right].
Qed.
Lemma std_own d : List.In d ps -> psr_term (std_psr argsort m span d (Tr d) v) = own_term m span Tr v (epochs_of argsort m d v).
Proof.
have [ky _ h] := ok; move=> hd; rewrite /psr_term /own_term std_resid (std_cov std_gw0 ky (h d hd) hd gp).
have [_ [_ [_ ->]]] := views_of argsort m span d (Tr d) v; exact: addr0.
Qed.
Hypothesis mo : m_orf m.
Lemma signal_at d : List.nth_error (std_signals seeded next m span d) gw_place = Some (fourier_common seeded next (m_gw m) span "gw" (d_name d) (d_gv d) (GV (Vec (pos_list (d_pos d)))) 0).
Proof.
rewrite /std_signals /gw_place /= -[size (m_procs m)]/(List.length (m_procs m)) -(List.map_length (std_process seeded next d)) List.nth_error_app2 // Nat.sub_diag.
by case: (m_orf m) mo.
Qed.
Lemma signal_other d j s k : List.nth_error (std_signals seeded next m span d) j = Some s -> wclass s = Some k -> j = gw_place /\ k = 0%N.
Proof.
rewrite /std_signals /gw_place; case: j => [|[|j]]; [by case=> <-|by case=> <-|] => /=.
have [lt|ge] := ltnP j (size (m_procs m)).
  rewrite List.nth_error_app1 ?List.map_length; last exact/ssrnat.ltP.
  by move=> h; have /List.in_map_iff [c [<- _]] := List.nth_error_In _ _ h; rewrite process_plain.
have le : (List.length (List.map (std_process seeded next d) (m_procs m)) <= j)%coq_nat by rewrite List.map_length; exact/ssrnat.leP.
rewrite List.nth_error_app2 // List.map_length; case: (m_orf m) mo => // kd _.
case e: (j - List.length (m_procs m))%coq_nat => [|i] /=; last first.
  by case: (m_ecorr m) i {e} => [kind|] [|i] //=; case: (m_tnequad m) => [a|] //=; try (by case=> <-); case: i => [|[|i]] //=; try (by case=> <-).
case=> <- [<-]; split=> //; congr _.+2; move: e ge; rewrite -[size _]/(List.length _); lia.
Qed.
Lemma std_adds_all : List.Forall2 (fun c x => [/\ psr_wadds argsort fns p c (pm (mp_q x)), good_psr hash (mp_q x), has_process x, wmember fns p (fun=> gw_phi m span v) c x & wothers c x]) arr (std_list v).
Proof.
have [ky _ _] := ok.
have : forall x, List.In x (zip (iota 0 (size ps)) ps) -> [/\ psr_wadds argsort fns p (std_signals seeded next m span x.2, d_res x.2) (pm (mp_q (std_mk v x))), good_psr hash (mp_q (std_mk v x)),
    has_process (std_mk v x), wmember fns p (fun=> gw_phi m span v) (std_signals seeded next m span x.2, d_res x.2) (std_mk v x) & wothers (std_signals seeded next m span x.2, d_res x.2) (std_mk v x)].
  move=> x /std_inP [hx [_ [okx _]]]; split.
  - exact: (std_adds seeded next std_gw0 okx hx gp).
  - exact: (std_good std_gw0 ky okx hx gp).
  - by rewrite /has_process; have [_ [-> _]] := views_of argsort m span x.2 (Tr x.2) v; rewrite size_cat; case: (m_orf m) mo => //= k _; rewrite addnS.
  - move=> [|k] j //= [<-]; have [h1 _] := gw_call std_gw0 gp mo.
    eexists _, _, _, _, _, _, (rows (m_gw m) span (d_toas x.2)), (GV (Vec (ModelBases.rep 2 (freqs (m_gw m) span)))), (powers (m_gw m) (gw_var m span v)); split; first exact: signal_at.
    split; first by have [h _] := @call_red _ seeded next (m_gw m) x.2 (Some span) span (join_us [:: d_name x.2; "gw"%string]) p erefl; exact: h.
    split; first by [].
    split; first exact: h1.
    by split; [exact: powers_length|].
  - by move=> j s k hj hs; have [-> ->] := signal_other hj hs.
by move=> h; apply: zip_all2.
Qed.
Lemma std_correlation : wcorrelation fns arr p std_orf (std_list v).
Proof.
move=> x y k i j b nm pn psr pos cb b' nm' pn' psr' pos' cb' /List.in_map_iff [x' [<- hx]] /List.in_map_iff [y' [<- hy]] _; case: k => [|k] //= -[<-] [<-].
have [_ [ex [_ px]]] := std_inP hx; have [_ [ey [_ py]]] := std_inP hy.
rewrite /wsource_at /std_array (List.map_nth_error _ _ _ ex) (List.map_nth_error _ _ _ ey); cbn [fst]; rewrite !signal_at.
by move=> [_ _ _ _ <- _] [_ _ _ _ <- _]; rewrite /std_orf px py /std_fns; case: (m_orf m) mo => // k _; exact: call_orf.
Qed.
Lemma std_size : size (std_list v) = size ps.
Proof. by rewrite /std_list size_map size_zip size_iota minnn. Qed.
Lemma std_conditions method : known_method method ->
  [/\ method_for method (std_list v), wpermitted fns arr p,
      List.Forall2 (fun c x => [/\ psr_wadds argsort fns p c (pm (mp_q x)), good_psr hash (mp_q x), has_process x, wmember fns p (fun=> gw_phi m span v) c x & wothers c x]) arr (std_list v),
      [/\ [seq mp_i x | x <- std_list v] = iota 0 (size (std_list v)), (forall x k, List.In x (std_list v) -> mp_j x k -> k \in [:: 0%N]), (exists k, (1 < size (members (std_list v) k))%N) & wcorrelation fns arr p std_orf (std_list v)]
    & forall k, k \in [:: 0%N] -> posdef (\matrix_(i < size (std_list v), j < size (std_list v)) std_orf k i j) /\ forall i, 0 < gw_phi m span v i ord0].
Proof.
have [_ /(_ mo) [two [nd unit] _ span0 gw0] _] := ok; move=> km.
have mem0 : members (std_list v) 0 = std_list v by rewrite /members /std_list filter_map (eq_filter (a2 := predT)) ?filter_predT.
have memS k : members (std_list v) k.+1 = [::] by rewrite /members /std_list filter_map (eq_filter (a2 := pred0)) ?filter_pred0.
split.
- right; split; last by right; split=> // -[|c] [|e] //; rewrite ?memS.
  move=> x s /List.in_map_iff [x' [ex _]]; subst x; have [_ [-> _]] := views_of argsort m span x'.2 (Tr x'.2) v.
  by move=> /List.in_app_iff [/List.in_map_iff [c [<- _]] //|]; case: (m_orf m) mo => // kd _ [<-|//].
- exact: std_permitted.
- exact: std_adds_all.
- split.
  + by rewrite std_size /std_list -map_comp -[RHS](zip_fst ps 0); apply: seq.eq_map.
  + by move=> x [|k] /List.in_map_iff [x' [<- _]] //.
  + by exists 0%N; rewrite mem0 std_size.
  + exact: std_correlation.
- move=> k _; split; last first.
    by move=> i; rewrite mxE -nth_list; apply/RltP; apply: powers_pos; [exact: (proj2 (gw_call std_gw0 gp mo))|have := ltn_ord i; lia].
  rewrite std_size -(size_map d_pos ps) /std_orf; case: (m_orf m) mo => // kd _; apply: orf_posdef => //.
  by move=> q /List.in_map_iff [d [<- hd]]; exact: unit.
Qed.
Lemma std_many : many_term std_orf (fun=> gw_phi m span v) (std_list v) [:: 0%N] = std_term m span Tr v (fun d => epochs_of argsort m d v) ps.
Proof.
have [ky /(_ mo) [_ _ _ span0 gw0] okd] := ok.
have facts x : List.In x (zip (iota 0 (size ps)) ps) -> _ /\ _ := fun hx => conj (proj1 (std_inP hx)) (proj1 (proj2 (proj2 (std_inP hx)))).
rewrite /many_term /std_term.
have -> : \sum_(x <- std_list v) prior_sum (pm (mp_q x)) = 0.
  rewrite /std_list big_map; by apply: big1 => x _; have [_ [_ [_ ->]]] := views_of argsort m span x.2 (Tr x.2) v.
have -> : (\sum_(x <- std_list v) tm_k (pm_N (mp_q x)) = \sum_(d <- ps) d_nfit d)%N.
  by rewrite /std_list big_map -[in RHS](zip_snd ps 0) big_map.
etransitivity; first exact: addr0.
congr (_ - _)%coqR; rewrite /std_list gmap_density.
rewrite -[in RHS](zip_snd ps 0) gmap_density.
congr density_tm.
- by apply: eq_gstack => x /facts [hx okx]; exact: std_resid.
- apply: eq_gjoint => [x /facts [hx okx]|x y hx hy]; first exact: (std_cov std_gw0 ky okx hx gp).
  rewrite big_seq1 /=; have [ix [_ [_ px]]] := std_inP hx; have [iy [_ [_ py]]] := std_inP hy.
  have [[_ [_ sx] _ _ _] _ _ _ _] := okd _ ix; have [[_ [_ sy] _ _ _] _ _ _ _] := okd _ iy.
  rewrite /std_orf px py (@fourier_cov _ (2 * m_gw m) _ (gw_var m span v) Achromatic span0 erefl _ _ x.2 y.2 _ _ sx sy) => [|j|i j|i j]; last 3 first.
  + by rewrite mxE.
  + by rewrite mxE.
  + by rewrite mxE.
  by apply/matrixP => i j; rewrite !mxE [tint _ _]/= !mul1r /corr; case: (m_orf m) => // kd; rewrite correlationE.
Qed.
End Call.
Lemma std_epochs v d : List.In d ps -> epochs_ok m v (epochs_of argsort m d v).
Proof. by have [_ _ h] := ok; move=> /h okd; have [] := epochs_facts v okd. Qed.
Lemma std_proper_all c s : List.In c arr -> List.In s c.1 -> wproper s.
Proof. by move=> /List.in_map_iff [d [<- hd]]; have [ky _ /(_ d hd) h] := ok; move=> hs; exact: (std_proper ky h hs). Qed.
End Array.
Lemma standard_likelihood_lem : forall (S : Type) (seeded : Z -> S) (next : S -> R * S) (argsort : seq R -> seq nat) (hash : forall n, 'cV[R]_n -> nat) (svd : forall k, 'M[R]_k -> 'M[R]_k * 'cV[R]_k)
  (m : standard) (ps : seq psrdata) (span : R) (Tr : psrdata -> process -> string -> R), m_orf m <> None -> std_ok argsort hash m ps span Tr ->
  exists dss, new_warray argsort (std_fns m) (std_array seeded next m span ps) = Ok dss /\
  exists epochs : values -> forall d, seq (seq 'I_(ntoas d) * R), (forall v d, List.In d ps -> epochs_ok m v (epochs v d)) /\
  forall l : seq (string * params R * values), (forall t, List.In t l -> known_method t.1.1 /\ given m ps t.1.2 t.2) ->
    run (z_ops hash svd (wcross (std_fns m))) (warray_colls (std_fns m) dss (std_array seeded next m span ps)) [seq ALike t.1.1 t.1.2 | t <- l] (warray_start dss) =
    [seq Ok (RLike (Fin (std_term m span Tr t.2 (epochs t.2) ps))) | t <- l].
Proof.
move=> S seeded next argsort hash svd m ps span Tr mo' ok; have mo : m_orf m by case: (m_orf m) mo'.
have [dss md] := std_array_made seeded next ok; exists dss; split=> //.
exists (fun v d => epochs_of argsort m d v); split; first by move=> v d hd; exact: (std_epochs ok).
move=> l H; pose l' := [seq (t.1.1, t.1.2, std_orf m ps, (fun=> gw_phi m span t.2) : forall k, 'cV[R]_(std_K m k), std_list argsort m ps span Tr t.2) | t <- l].
have := @kinds_classes_lem hash svd argsort (std_fns m) (std_array seeded next m span ps) dss (std_K m) [:: 0%N] l' (fun c s => @std_proper_all _ seeded next _ _ _ _ _ _ ok c s) md erefl.
rewrite /l' -!map_comp => E; rewrite -[[seq _ | t <- l]]/(map _ l); etransitivity; first apply: E.
  move=> method p orf phi xs /List.in_map_iff [[[me q] v] [[<- <- <- <- <-] ht]]; have [km gp] := H _ ht; exact: (std_conditions seeded next ok gp mo km).
elim: l H {l' E} => //= -[[me q] v] l IH H; rewrite IH; last by move=> t ht; apply: H; right.
by have [_ gp] := H _ (or_introl erefl); rewrite /= (std_many ok gp mo).
Qed.
Lemma noise_likelihood_lem : forall (S : Type) (seeded : Z -> S) (next : S -> R * S) (argsort : seq R -> seq nat) (hash : forall n, 'cV[R]_n -> nat) (svd : forall k, 'M[R]_k -> 'M[R]_k * 'cV[R]_k)
  (m : standard) (ps : seq psrdata) (span : R) (Tr : psrdata -> process -> string -> R), m_orf m = None -> std_ok argsort hash m ps span Tr ->
  exists dss, new_warray argsort (std_fns m) (std_array seeded next m span ps) = Ok dss /\
  exists epochs : values -> forall d, seq (seq 'I_(ntoas d) * R), (forall v d, List.In d ps -> epochs_ok m v (epochs v d)) /\
  forall l : seq (string * params R * values), (forall t, List.In t l -> known_method t.1.1 /\ given m ps t.1.2 t.2) ->
    run (z_ops hash svd (wcross (std_fns m))) (warray_colls (std_fns m) dss (std_array seeded next m span ps)) [seq ALike t.1.1 t.1.2 | t <- l] (warray_start dss) =
    [seq Ok (RLike (Fin (\sum_(d <- ps) own_term m span Tr t.2 (epochs t.2 d)))) | t <- l].
Proof.
move=> S seeded next argsort hash svd m ps span Tr mo ok; have [dss md] := std_array_made seeded next ok; exists dss; split=> //.
exists (fun v d => epochs_of argsort m d v); split; first by move=> v d hd; exact: (std_epochs ok).
move=> l H; pose l' := [seq (t.1.1, t.1.2, [seq std_psr argsort m span d (Tr d) t.2 | d <- ps]) | t <- l].
have al : walone (std_array seeded next m span ps).
  move=> [i j] ij' s s' k; rewrite /wsource_at /=; case e: List.nth_error => [c|//] hs _ hk _.
  have /List.in_map_iff [d [ec _]] := List.nth_error_In _ _ e; subst c.
  case: (signal_cases (List.nth_error_In _ _ hs)) => [es|es|[c _ es]|[[]|[[kind _ es]|[a _ es]]]]; [..|by rewrite mo| |]; by rewrite es ?process_plain in hk.
have := @kinds_likelihood_lem hash svd argsort (std_fns m) (std_array seeded next m span ps) dss l' (fun c s => @std_proper_all _ seeded next _ _ _ _ _ _ ok c s) md al.
rewrite /l' -!map_comp => E; rewrite -[[seq _ | t <- l]]/(map _ l); etransitivity; first apply: E.
  move=> t /List.in_map_iff [[[me q] v] [<- ht]]; have [km gp] := H _ ht; split=> //=; [exact: (std_permitted seeded next span gp)|exact: (std_psr_all seeded next ok gp)].
elim: l H {l' E} => //= -[[me q] v] l IH H; rewrite IH; last by move=> t ht; apply: H; right.
have [_ gp] := H _ (or_introl erefl); congr (_ :: _); congr (Ok (RLike (Fin _))); rewrite big_map /=.
have := std_own ok gp; elim: (ps) => [|d ds IHd] h; first by rewrite !big_nil.
by rewrite !big_cons (h d (or_introl erefl)) IHd // => e he; apply: h; right.
Qed.
