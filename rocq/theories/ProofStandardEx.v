From Coq Require Import Reals String ZArith.
From mathcomp Require Import all_ssreflect all_algebra.
From mathcomp.zify Require Import zify.
From Verif Require Import RStruct PyBase ProofBase ModelSelect ProofSelect ProofQuant ModelFunc ModelCache ProofCache ModelGp ProofGp ModelLinalg ProofLinalg ModelNoise ProofNoise ModelLike ProofLike ModelKernel ProofKernel ModelPhi ModelColl ProofColl ModelEcorr ProofEcorr ModelSigs ProofSigs ModelArray ProofArray ProofJoint ProofCorr ProofArrayEx ModelSized ProofSrc ProofSized ProofSource ModelKinds ProofClasses ProofShare ProofMulti ProofMany ProofKinds ProofKindsEx.
From Verif Require ProofBases ModelOrf.
From Verif Require Import ModelStandard ProofStdFn ProofStandard.
Set Implicit Arguments.
Unset Strict Implicit.
Unset Printing Implicit Defensive.
Import GRing.Theory Num.Theory Order.TTheory.
Local Open Scope seq_scope.
Local Open Scope ring_scope.

(** * The time span of the common process *)
Lemma fold_max l x : (forall y, List.In y (x :: l) -> y <= List.fold_left Rmax l x)%coqR /\ List.In (List.fold_left Rmax l x) (x :: l).
Proof.
elim: l x => [|y l IH] x /=; first by split; [move=> z [<-|//]; exact: Rle_refl|left].
have [h1 h2] := IH (Rmax x y); split.
  have le := h1 _ (or_introl erefl); move=> z [<-|[<-|hz]]; [exact: (Rle_trans _ _ _ (Rmax_l _ _) le)|exact: (Rle_trans _ _ _ (Rmax_r _ _) le)|by apply: h1; right].
by case: h2 => [<-|h]; [rewrite /Rmax; case: Rle_dec => _; [right; left|left]|right; right].
Qed.
Lemma fold_min l x : (forall y, List.In y (x :: l) -> List.fold_left Rmin l x <= y)%coqR /\ List.In (List.fold_left Rmin l x) (x :: l).
Proof.
elim: l x => [|y l IH] x /=; first by split; [move=> z [<-|//]; exact: Rle_refl|left].
have [h1 h2] := IH (Rmin x y); split.
  have le := h1 _ (or_introl erefl); move=> z [<-|[<-|hz]]; [exact: (Rle_trans _ _ _ le (Rmin_l _ _))|exact: (Rle_trans _ _ _ le (Rmin_r _ _))|by apply: h1; right].
by case: h2 => [<-|h]; [rewrite /Rmin; case: Rle_dec => _; [left|right; left]|right; right].
Qed.
Definition ends_of (l : seq R) : result (R * R) := match l with [::] => Err ValueError | t :: l => Ok (List.fold_left Rmin l t, List.fold_left Rmax l t) end.
Lemma ends_all ls : (forall l, List.In l ls -> l <> [::]) -> exists mm, rmapM ends_of ls = Ok mm /\
  List.Forall2 (fun l x => (List.In x.1 l /\ List.In x.2 l) /\ forall t, List.In t l -> (x.1 <= t <= x.2)%coqR) ls mm.
Proof.
elim: ls => [|l ls IH] h; first by exists [::]; split=> //; constructor.
have [mm [e f]] := IH (fun l hl => h l (or_intror hl)).
case: l h => [|t l] h; first by case: (h [::] (or_introl erefl)).
have [a1 a2] := fold_min l t; have [b1 b2] := fold_max l t.
exists ((List.fold_left Rmin l t, List.fold_left Rmax l t) :: mm); split; first by cbn [rmapM ends_of]; rewrite e.
by constructor=> //; split=> // u hu; split; [exact: a1|exact: b1].
Qed.
Lemma standard_span_lem : forall ls, ls <> [::] -> (forall l, List.In l ls -> l <> [::]) -> exists s, common_span None ls = Ok s /\
  (exists t t', List.In t (List.concat ls) /\ List.In t' (List.concat ls) /\ s = (t - t')%coqR) /\
  forall t t', List.In t (List.concat ls) -> List.In t' (List.concat ls) -> (t - t' <= s)%coqR.
Proof.
move=> ls ne h; have [mm [e f]] := ends_all h; rewrite /common_span -/ends_of e; cbn [rbind].
case: mm e f => [|x mm] e f; first by inversion f; subst.
have [a1 a2] := fold_min (List.map fst mm) x.1; have [b1 b2] := fold_max (List.map snd mm) x.2.
eexists; split; first reflexivity.
rewrite -[x.1 :: _]/(List.map fst (x :: mm)) in a1 a2; rewrite -[x.2 :: _]/(List.map snd (x :: mm)) in b1 b2.
have inn y : List.In y (x :: mm) -> List.In y.1 (List.concat ls) /\ List.In y.2 (List.concat ls).
  elim: f => //= l z ls' mm' [[h1 h2] _] _ IH [<-|/IH [h3 h4]]; by rewrite !List.in_app_iff; tauto.
have out t : List.In t (List.concat ls) -> exists2 y, List.In y (x :: mm) & (y.1 <= t <= y.2)%coqR.
  elim: f => //= l z ls' mm' [_ h2] _ IH; rewrite List.in_app_iff => -[/h2 h3|/IH [y hy h3]]; [exists z => //; left|exists y => //; right]; by [].
split.
  move/List.in_map_iff: a2 => [y [<- /inn [hy _]]]; move/List.in_map_iff: b2 => [z [<- /inn [_ hz]]]; by exists z.2, y.1.
move=> t t' /out [y hy [_ h1]] /out [z hz [h2 _]].
have := b1 _ (List.in_map snd _ _ hy); have := a1 _ (List.in_map fst _ _ hz); Lra.lra.
Qed.
Lemma standard_keyword_lem : forall S (seeded : Z -> S) next n d Tspan T nm p,
  gcall (inst (plain_class seeded next n (span_gv Tspan)) nm (Some (d_gv d))) [::] [:: ("Tspan"%string, num T)] p =
  gcall (inst (plain_class seeded next n (num T)) nm (Some (d_gv d))) [::] [::] p.
Proof. move=> S seeded next n d Tspan T nm p; exact: call_span. Qed.

(** * Two pulsars *)
Definition s_toas : seq R := [:: 0; 0; 1]%coqR.
Definition s_freqs : seq R := [:: 700; 1400; 1400]%coqR.
Definition s_masks : dict string mask := [:: ("f"%string, [:: true; true; true])].
Definition s_A : psrdata := PsrData "A" s_toas [:: 1; 1; 2]%coqR s_freqs (1, 0, 0)%coqR [:: 1; 2; -1]%coqR s_masks 1 [:: [:: 1]; [:: 1]; [:: 1]]%coqR.
Definition s_B : psrdata := PsrData "B" s_toas [:: 1; 3; 2]%coqR s_freqs (0, 1, 0)%coqR [:: 0; 2; 3]%coqR s_masks 1 [:: [:: 2]; [:: 2]; [:: 2]]%coqR.
(** Red noise, dispersion noise with a free spectrum for each of two bands, and a common process: a power law whose
    amplitude is a parameter made by itself, its exponent a number, or a power law with a
    turnover. *)
Definition s_red (c : fcl) : process := Process "red_noise" Achromatic (Power (AParC c) (AParC c)) 1 (Some 4%coqR) no_selection.
Definition s_bands : dict string mask := [:: ("lo"%string, [:: true; false; false]); ("hi"%string, [:: false; true; true])].
Definition s_dm (c : fcl) : process := Process "dm_gp" Dispersive (Free (AParC c)) 1 (Some 4%coqR) (fun _ => s_bands).
Definition s_m (c : fcl) (o : option orf_kind) : standard := Standard (AParC c) (Some (AParC c)) (Some (AParC c)) (Some Varies) [:: s_red c; s_dm c] o
  (Power (AInst (Par "log10_A_gw" (inst c "log10_A_gw" None))) (AVal (num (13 / 3)%coqR))) 1 (Some 4%coqR).
Definition s_col (n : nat) (a b c : R) : 'cV[R]_n := \col_i (if nat_of_ord i is i'.+1 then if i' is 0 then b else c else a).
Definition s_list (n : nat) : seq 'cV[R]_n := [:: s_col n 0 0 1; s_col n 1 1 0; s_col n 0 1 0; s_col n 0 0 0; s_col n 4%coqR 0 0].
Definition s_hash (n : nat) (x : 'cV[R]_n) : nat := index x (s_list n).
Definition s_p (v : values) : params R :=
  [:: ("A_f_efac", Sc (v_efac v "A" "f")); ("B_f_efac", Sc (v_efac v "B" "f")); ("A_f_log10_t2equad", Sc (v_equad v "A" "f")); ("B_f_log10_t2equad", Sc (v_equad v "B" "f"));
      ("A_f_log10_tnequad", Sc (v_tnequad v "A" "f")); ("B_f_log10_tnequad", Sc (v_tnequad v "B" "f"));
      ("A_f_log10_ecorr", Sc (v_ecorr v "A" "f")); ("B_f_log10_ecorr", Sc (v_ecorr v "B" "f")); ("A_red_noise_log10_A", Sc (v_A v "A" "red_noise" "")); ("B_red_noise_log10_A", Sc (v_A v "B" "red_noise" ""));
      ("A_red_noise_gamma", Sc (v_g v "A" "red_noise" "")); ("B_red_noise_gamma", Sc (v_g v "B" "red_noise" "")); ("A_dm_gp_lo_log10_rho", Vec [:: v_rho v "A" "dm_gp" "lo" 1%N]); ("A_dm_gp_hi_log10_rho", Vec [:: v_rho v "A" "dm_gp" "hi" 1%N]); ("B_dm_gp_lo_log10_rho", Vec [:: v_rho v "B" "dm_gp" "lo" 1%N]); ("B_dm_gp_hi_log10_rho", Vec [:: v_rho v "B" "dm_gp" "hi" 1%N]); ("log10_A_gw", Sc (v_gwA v))]%string.
Lemma s_given c o v : v_efac v "A" "f" <> 0 -> v_efac v "B" "f" <> 0 -> v_gwg v = (13 / 3)%coqR -> given (s_m c o) [:: s_A; s_B] (s_p v) v.
Proof.
move=> nA nB eg; split; first by move=> n l /=; repeat case: string_dec => [_ //|_].
split; first by move=> d k [<-|[<-|//]] [<-|//]; split.
split; first by move=> d c' k T [<-|[<-|//]] [<-|[<-|//]]; [move=> [<-|//]|move=> [<-|[<-|//]]|move=> [<-|//]|move=> [<-|[<-|//]]].
by move=> T _ _; split=> //=; rewrite eg.
Qed.
Lemma s_sin d : d_toas d = s_toas -> forall i : 'I_(ntoas d), wave 4%coqR (toa d i) 0 = (if (i < 2)%N then 0 else 1) /\ wave 4%coqR (toa d i) 1 = (if (i < 2)%N then 1 else 0).
Proof.
move=> ed; have E k : toa d k = nth 0 s_toas k by rewrite /toa ed.
have sz : ntoas d = 3%N by rewrite ed.
move=> i; rewrite /wave E; have : (nat_of_ord i < 3)%N by rewrite -sz; exact: ltn_ord.
move: (nat_of_ord i) => [|[|[|//]]] _ /=; rewrite ?(Rmult_0_r, Rmult_0_l) ?sin_0 ?cos_0 //.
rewrite (_ : (2 * PI * 1 * (1 / 4) = PI / 2)%coqR) ?sin_PI2 ?cos_PI2 //; by field.
Qed.
Lemma s_waves d : d_toas d = s_toas -> d_freqs d = s_freqs -> [/\ wave_col d Achromatic 4%coqR 0 = s_col (ntoas d) 0 0 1, wave_col d Achromatic 4%coqR 1 = s_col (ntoas d) 1 1 0,
  wave_col d Dispersive 4%coqR 0 = s_col (ntoas d) 0 0 1 & wave_col d Dispersive 4%coqR 1 = s_col (ntoas d) 4%coqR 1 0].
Proof.
move=> ed ef; have W := s_sin ed; have F k : freq d k = nth 0 s_freqs k by rewrite /freq ef.
have sz : ntoas d = 3%N by rewrite ed.
split; apply/matrixP => i j; rewrite !mxE F; have [w0 w1] := W i; rewrite ?w0 ?w1; have : (nat_of_ord i < 3)%N by rewrite -sz; exact: ltn_ord.
all: move: (nat_of_ord i) => [|[|[|//]]] _ /=; rewrite ?mul0r ?mulr1 //; try rewrite mul1r; rewrite /GRing.one /=; by field.
Qed.
Lemma s_col_eq n a b c a' b' c' : n = 3%N -> (s_col n a b c == s_col n a' b' c') = [&& a == a', b == b' & c == c'].
Proof.
move=> ->; apply/eqP/and3P => [/matrixP h|[/eqP -> /eqP -> /eqP ->]] //.
by have := h (@Ordinal 3 0 isT) ord0; have := h (@Ordinal 3 1 isT) ord0; have := h (@Ordinal 3 2 isT) ord0; rewrite !mxE /= => -> -> ->.
Qed.
Lemma s_col_masked n a b c x y z : masked [:: x; y; z] (s_col n a b c) = s_col n (if x then a else 0) (if y then b else 0) (if z then c else 0) \/ (3 < n)%N.
Proof.
case: (leqP n 3) => h; [left|by right]; apply/matrixP => i j; rewrite !mxE; have := leq_trans (ltn_ord i) h; by move: (nat_of_ord i) => [|[|[|//]]].
Qed.
Lemma s_cols c o d : d_toas d = s_toas -> d_freqs d = s_freqs -> all uniq (all_cols (s_m c o) 4%coqR (fun _ _ => 4%coqR) d) /\
  forall x y, x \in flatten (all_cols (s_m c o) 4%coqR (fun _ _ => 4%coqR) d) -> y \in flatten (all_cols (s_m c o) 4%coqR (fun _ _ => 4%coqR) d) -> s_hash x = s_hash y -> x = y.
Proof.
move=> ed ef; have [w1 w2 w3 w4] := s_waves ed ef; have sz : ntoas d = 3%N by rewrite ed.
have e1 : wave_cols d Achromatic 4%coqR 1 = [:: s_col (ntoas d) 0 0 1; s_col (ntoas d) 1 1 0] by rewrite /wave_cols muln1 [iota 0 2]/= /= w1 w2.
have e2 : wave_cols d Dispersive 4%coqR 1 = [:: s_col (ntoas d) 0 0 1; s_col (ntoas d) 4%coqR 1 0] by rewrite /wave_cols muln1 [iota 0 2]/= /= w3 w4.
have M a b e x y z : masked [:: x; y; z] (s_col (ntoas d) a b e) = s_col (ntoas d) (if x then a else 0) (if y then b else 0) (if z then e else 0).
  by have [//|] := s_col_masked (ntoas d) a b e x y z; rewrite sz.
have er : sel_cols d (s_red c) (fun _ => 4%coqR) "" = [:: s_col (ntoas d) 0 0 1; s_col (ntoas d) 1 1 0].
  have em : sel_mask (c_sel (s_red c) d) "" = [:: true; true; true] by rewrite /= /no_selection /sel_mask /= ed.
  have -> : sel_cols d (s_red c) (fun _ => 4%coqR) "" = [seq masked [:: true; true; true] x | x <- wave_cols d Achromatic 4%coqR 1] by rewrite /sel_cols em.
  by rewrite e1 /= !M.
have el : sel_cols d (s_dm c) (fun _ => 4%coqR) "lo" = [:: s_col (ntoas d) 0 0 0; s_col (ntoas d) 4%coqR 0 0].
  have -> : sel_cols d (s_dm c) (fun _ => 4%coqR) "lo" = [seq masked [:: true; false; false] x | x <- wave_cols d Dispersive 4%coqR 1] by [].
  by rewrite e2 /= !M.
have eh : sel_cols d (s_dm c) (fun _ => 4%coqR) "hi" = [:: s_col (ntoas d) 0 0 1; s_col (ntoas d) 0 1 0].
  have -> : sel_cols d (s_dm c) (fun _ => 4%coqR) "hi" = [seq masked [:: false; true; true] x | x <- wave_cols d Dispersive 4%coqR 1] by [].
  by rewrite e2 /= !M.
have ea : all_cols (s_m c o) 4%coqR (fun _ _ => 4%coqR) d = [:: sel_cols d (s_red c) (fun _ => 4%coqR) "" ++ [::]; sel_cols d (s_dm c) (fun _ => 4%coqR) "hi" ++ (sel_cols d (s_dm c) (fun _ => 4%coqR) "lo" ++ [::])] ++ (if o then [:: wave_cols d Achromatic 4%coqR 1] else [::]) by [].
have n4 : (0 == 4%coqR :> R) = false /\ (4%coqR == 0 :> R) = false by split; apply/eqP; rewrite /GRing.zero /=; Lra.lra.
rewrite ea e1 er el eh; set L := _ ++ _.
have sub x : x \in flatten L -> x \in s_list (ntoas d).
  rewrite /L; case: o {ea L} => [k|]; rewrite /= !inE ?orbF;
  by do ![case/orP]; move=> ->; rewrite ?orbT.
split; last by move=> x y /sub hx /sub hy e; rewrite -(nth_index 0 hx) -(nth_index 0 hy) -/(s_hash x) e.
rewrite /L; case: o {sub ea L} => [k|]; rewrite /= !inE !(s_col_eq _ _ _ _ _ _ sz) ?eqxx ?oner_eq0 ?(eq_sym 0 1) ?oner_eq0 ?(proj1 n4) ?(proj2 n4) ?andbF ?andbT //.
Qed.
Lemma s_psr c o d : List.In d [:: s_A; s_B] -> psr_ok argsort_ins s_hash (s_m c o) 4%coqR (fun _ _ => 4%coqR) d.
Proof.
have pos4 : 0 < 4%coqR by apply/RltP; rewrite /GRing.zero /=; Lra.lra.
move=> hd; have ed : d_toas d = s_toas by case: hd => [<-|[<-|//]].
have ef : d_freqs d = s_freqs by case: hd => [<-|[<-|//]].
split.
- by case: hd => [<-|[<-|//]].
- have -> : d_masks d = s_masks by case: hd => [<-|[<-|//]].
  rewrite ed; split; last by move=> [|[|[|i]]] // _; exists "f"%string, [:: true; true; true].
  by have [] := k_ecorr_ok.
- have h : (0 < ntoas d)%N by rewrite ed.
  move=> x /matrixP /(_ (Ordinal h) ord0); case: hd x h {ed ef} => [<-|[<-|//]] x h; rewrite !mxE big_ord1 !mxE /= => /eqP;
    rewrite mulf_eq0 => /orP [/eqP|/eqP e]; try (by rewrite /GRing.zero /=; Lra.lra); by apply/matrixP => i j; rewrite !ord1 e mxE.
- move=> c' [<-|[<-|//]]; split=> //; rewrite /s_red /s_dm /no_selection; cbn [c_sel].
  + by repeat constructor; case.
  + by move=> k mk [[_ <-]|//]; rewrite ed.
  + by repeat constructor; rewrite /=; try tauto; case=> [|//].
  + by move=> k mk [[_ <-]|[[_ <-]|//]]; rewrite ed.
- exact: s_cols.
Qed.
Lemma s_keys c o : keys_ok (s_m c o).
Proof. by split=> // c' [<-|[<-|//]]. Qed.
Lemma s_ok c o : std_ok argsort_ins s_hash (s_m c o) [:: s_A; s_B] 4%coqR (fun _ _ _ => 4%coqR).
Proof.
have pos4 : 0 < 4%coqR by apply/RltP; rewrite /GRing.zero /=; Lra.lra.
split; [exact: s_keys| |exact: s_psr].
move=> _; split=> //; split; first by constructor; [case=> // -[]; Lra.lra|constructor; [case|constructor]].
by move=> d [<-|[<-|//]]; rewrite /ModelOrf.dot /GRing.one /=; Lra.lra.
Qed.
(** The common process has a turnover *)
Definition t_m (c : fcl) : standard := Standard (AParC c) (Some (AParC c)) (Some (AParC c)) (Some Varies) [:: s_red c; s_dm c] (Some Hd)
  (Prior (FC turnover_fn "" [:: ("log10_A", AVal (num (-15)%coqR)); ("lf0", AVal (num (-8)%coqR))]%string)) 1 (Some 4%coqR).
Lemma t_shape : exists rho, forall p A g T, T = 4%coqR -> shape_has p (m_gwshape (t_m (FC turnover_fn "" [::]))) [:: "gw"%string] None T 1 A g rho.
Proof.
have h4 : (0 < 4)%coqR by Lra.lra.
pose q := ProofSpectra.twice (List.map (fun k => (INR k / 4)%coqR) (List.seq 1 1)).
have [|rho [h _]] := @shape_spectrum_lem 1 [::] (FC turnover_fn "" [:: ("log10_A", AVal (num (-15)%coqR)); ("lf0", AVal (num (-8)%coqR))]%string) [:: "gw"%string] None 4%coqR 0 0 _ h4 (ProofSpectra.sp_turnover q (-15)%coqR (433 / 100)%coqR (-8)%coqR (10 / 3)%coqR (1 / 2)%coqR).
  by rewrite /gcall.
by exists rho => p A g T ->.
Qed.
Lemma t_ok c : std_ok argsort_ins s_hash (t_m c) [:: s_A; s_B] 4%coqR (fun _ _ _ => 4%coqR).
Proof.
have [ky cm psr] := s_ok c (Some Hd); split=> [|//|d hd]; first by case: ky.
by have [h1 h2 h3 h4 h5] := psr d hd; split.
Qed.
Lemma t_given : exists rho, forall c v, v_efac v "A" "f" <> 0 -> v_efac v "B" "f" <> 0 -> v_gwrho v = rho -> given (t_m c) [:: s_A; s_B] (s_p v) v.
Proof.
have [rho h] := t_shape; exists rho => c v nA nB er.
have [h1 [h2 [h3 _]]] := @s_given c (Some Hd) (Values (v_efac v) (v_equad v) (v_tnequad v) (v_ecorr v) (v_A v) (v_g v) (v_rho v) (v_gwA v) (13 / 3)%coqR (v_gwrho v)) nA nB erefl.
split=> //; split=> //; split=> // T _ [<-]; rewrite er; exact: h.
Qed.
Lemma s_span : (forall l, List.In l [:: [:: 1; 3]; [:: 2]]%coqR -> l <> [::]) /\ List.In 3%coqR (List.concat [:: [:: 1; 3]; [:: 2]])%coqR.
Proof. by split; [move=> l [<-|[<-|//]]|right; left]. Qed.
