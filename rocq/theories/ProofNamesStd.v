(** The names of the parameters of the standard model. *)
From Coq Require Import Reals String ZArith.
From mathcomp Require Import all_ssreflect all_algebra.
From Verif Require Import RStruct PyBase ProofBase ModelSelect ProofSelect ProofQuant ModelFunc ModelCache ModelGp ProofGp ModelColl ModelEcorr ModelSigs ProofSigs ModelArray ModelSized ModelKinds ProofKinds ModelStandard ProofStdFn ProofStandard ProofStandardEx ModelDefault ProofDefault ProofDefaultStd ProofDefaultEx ModelNames ProofNames.
Set Implicit Arguments.
Unset Strict Implicit.
Unset Printing Implicit Defensive.
Local Open Scope seq_scope.

(** * Specification *)
Definition shape_named (s : shape) (nm : seq string) (x : string) : Prop :=
  match s with
  | Power A g => named A (us_name (nm ++ [:: "log10_A"%string])) x \/ named g (us_name (nm ++ [:: "gamma"%string])) x
  | Free r => named r (us_name (nm ++ [:: "log10_rho"%string])) x
  | Prior (FC _ fname kws) => exists k a, List.In (k, a) kws /\ named a (us_name (nm ++ [:: fname; k])) x
  end.
Definition if_given (T : Type) (o : option T) (P : T -> Prop) : Prop := if o is Some a then P a else False.
Definition std_named (m : standard) (d : psrdata) (x : string) : Prop :=
  (exists2 k, List.In k (dkeys (d_masks d)) &
     [\/ named (m_efac m) (us_name [:: d_name d; k; "efac"%string]) x, if_given (m_equad m) (fun a => named a (us_name [:: d_name d; k; "log10_t2equad"%string]) x),
         if_given (m_tnequad m) (fun a => named a (us_name [:: d_name d; k; "log10_tnequad"%string]) x) | if_given (m_ecorr m) (fun kind => kind_named kind (ecorr_param (d_name d) k) x)]) \/
  (exists c k, [/\ List.In c (m_procs m), List.In k (dkeys (c_sel c d)) & shape_named (c_shape c) [:: d_name d; c_name c; k] x]) \/
  (m_orf m <> None /\ shape_named (m_gwshape m) [:: "gw"%string] x).

(** * Proof *)
Lemma class1 f k a nm x : class_named (FC f "" [:: (k, a)]) nm x <-> named a (us_name [:: nm; k]) x.
Proof. by rewrite /class_named -us_name_mid; split=> [[k' [a' [[[<- <-]|[]] h]]]|h]; [|exists k, a; split; [left|]]. Qed.
Lemma class2 f k a k' a' nm x : class_named (FC f "" [:: (k, a); (k', a')]) nm x <-> named a (us_name [:: nm; k]) x \/ named a' (us_name [:: nm; k']) x.
Proof.
rewrite /class_named -!us_name_mid; split=> [[k0 [a0 [[[<- <-]|[[<- <-]|[]]] h]]]|[h|h]]; [by left|by right|exists k, a; split=> //; by left|exists k', a'; split=> //; by right; left].
Qed.
Lemma spectrum_named s nm x : class_named (spectrum s) (us_name nm) x <-> shape_named s nm x.
Proof.
case: s => [A g|r|[f fname kws]]; rewrite /spectrum /shape_named; [rewrite class2 !us_name_nested //|rewrite class1 us_name_nested //|].
by rewrite /class_named; split=> -[k [a [i h]]]; exists k, a; move: h; rewrite us_name_nested.
Qed.
Lemma colour_named (S : Type) (seeded : Z -> S) next c n T nm x : ~ class_named (colour_class seeded next c n T) nm x.
Proof. by case: c => [||[y|]] [k [a [i h]]]; move: h; move: i => /=; repeat (case=> [[<- <-] //|]). Qed.
Section Std.
Variables (S : Type) (seeded : Z -> S) (next : S -> R * S) (m : standard) (span : R) (d : psrdata).
Hypothesis sg : simple_class (spectrum (m_gwshape m)).
Lemma white_named k f kw a x : class_named (FC f "" [:: (kw, a)]) (us_name [:: d_name d; ""%string; k]) x <-> named a (us_name [:: d_name d; k; kw]) x.
Proof. by rewrite class1 us_name_nested /= /us_name /=. Qed.
Lemma white2_named k f kw a kw' a' x : class_named (FC f "" [:: (kw, a); (kw', a')]) (us_name [:: d_name d; ""%string; k]) x <-> named a (us_name [:: d_name d; k; kw]) x \/ named a' (us_name [:: d_name d; k; kw']) x.
Proof. by rewrite class2 !us_name_nested /= /us_name /=. Qed.
Lemma efac_named x : src_named (std_fns m) (measurement_noise (m_efac m) (m_equad m) "" (d_name d) (d_gv d) (d_masks d)) x <->
  exists2 k, List.In k (dkeys (d_masks d)) & named (m_efac m) (us_name [:: d_name d; k; "efac"%string]) x \/ if_given (m_equad m) (fun a => named a (us_name [:: d_name d; k; "log10_t2equad"%string]) x).
Proof.
rewrite /measurement_noise; cbn [src_named]; case: (m_equad m) => [q|]; split=> -[k ik h]; exists k => //; cbn [if_given] in *.
- by move: h; rewrite white2_named.
- by rewrite white2_named.
- by left; move: h; rewrite white_named.
- by case: h => // h; rewrite white_named.
Qed.
Lemma process_named c x : src_named (std_fns m) (std_process seeded next d c) x <-> exists2 k, List.In k (dkeys (c_sel c d)) & shape_named (c_shape c) [:: d_name d; c_name c; k] x.
Proof.
have H : src_named (std_fns m) (Plain (Proc (spectrum (c_shape c)) (colour_class seeded next (c_colour c) (c_n c) (match c_T c with Some T => num T | None => none end)) (c_name c) (d_name d) (d_gv d) (c_sel c d) true)) x <->
  exists2 k, List.In k (dkeys (c_sel c d)) & shape_named (c_shape c) [:: d_name d; c_name c; k] x.
  cbn [src_named]; split=> -[k ik h]; exists k => //.
  - by case: h => [/spectrum_named|/colour_named].
  - by left; apply/spectrum_named.
by move: H; rewrite /std_process /coloured_gp /fourier_gp; case: (c_colour c).
Qed.
Lemma gw_named pos x : src_named (std_fns m) (fourier_common seeded next (m_gw m) span "gw" (d_name d) (d_gv d) pos 0) x <-> shape_named (m_gwshape m) [:: "gw"%string] x.
Proof.
rewrite -spectrum_named -[us_name [:: "gw"%string]]/"gw"%string -(inst_named "gw" None x sg) /fourier_common; cbn [src_named]; split.
- case=> [[q [iq|//] h]|h]; first by exists q.
  by have := @colour_named _ seeded next Achromatic _ _ _ _ h.
- by case=> q iq h; left; exists q => //; left.
Qed.
Lemma signals_named x : (exists2 s, List.In s (std_signals seeded next m span d) & src_named (std_fns m) s x) <-> std_named m d x.
Proof.
split.
- case=> s i; have [[<-|[<-|[]]]|[|[|]]] := in_app4 i; last move=> i'; last have [|] := List.in_app_or _ _ _ i'.
  + by [].
  + by move/efac_named => [k ik [h|h]]; left; exists k => //; [apply: Or41|apply: Or42].
  + by move/(proj1 (List.in_map_iff _ _ _)) => [c [<- ic]] /process_named [k ik h]; right; left; exists c, k.
  + by case E: (m_orf m) => [o|] // [<-|//] /gw_named h; right; right; rewrite E.
  + by case E: (m_ecorr m) => [kind|] // [<-|//] [k ik h]; left; exists k => //; apply: Or44; rewrite E.
  + by case E: (m_tnequad m) => [a|] // [<-|//] [k ik /white_named h]; left; exists k => //; apply: Or43; rewrite E.
- have app A B C D (s : wsrc) : [\/ List.In s A, List.In s B, List.In s C | List.In s D] -> List.In s (A ++ B ++ C ++ D)%list.
    by case=> i; rewrite !List.in_app_iff; tauto.
  case=> [[k ik]|[[c [k [ic ik h]]]|[o h]]].
  + case=> h.
    * exists (measurement_noise (m_efac m) (m_equad m) "" (d_name d) (d_gv d) (d_masks d)); first by right; left.
      by apply/efac_named; exists k => //; left.
    * exists (measurement_noise (m_efac m) (m_equad m) "" (d_name d) (d_gv d) (d_masks d)); first by right; left.
      by apply/efac_named; exists k => //; right.
    * case E: (m_tnequad m) h => [a|//] h; exists (tnequad_noise a "" (d_name d) (d_gv d) (d_masks d)); last by exists k => //; apply/white_named.
      by rewrite /std_signals E !List.in_app_iff; do 4 right; left.
    * case E: (m_ecorr m) h => [kind|//] h; exists (Ecorr false kind (d_name d) (d_toas d) (d_masks d)); last by exists k.
      by rewrite /std_signals E !List.in_app_iff; do 3 right; left; left.
  + exists (std_process seeded next d c); last by apply/process_named; exists k.
    by rewrite /std_signals !List.in_app_iff; right; left; apply: List.in_map.
  + case E: (m_orf m) o => [o|//] _; exists (fourier_common seeded next (m_gw m) span "gw" (d_name d) (d_gv d) (GV (Vec (pos_list (d_pos d)))) 0); last by apply/gw_named.
    by rewrite /std_signals E !List.in_app_iff; right; right; left; left.
Qed.
End Std.
Lemma standard_names_lem : forall (S : Type) (seeded : Z -> S) (next : S -> R * S) argsort (m : standard) span ps dss, simple_class (spectrum (m_gwshape m)) ->
  (forall c s, List.In c (std_array seeded next m span ps) -> List.In s c.1 -> simple_src (std_fns m) s) ->
  new_warray argsort (std_fns m) (std_array seeded next m span ps) = Ok dss ->
  forall x, List.In x (array_names (std_fns m) dss) <-> exists2 d, List.In d ps & std_named m d x.
Proof.
move=> S seeded next argsort m span ps dss sg hp h x; rewrite (parameter_names_lem hp h); split.
- case=> c [s [/(proj1 (List.in_map_iff _ _ _)) [d [<- id]] i h']]; exists d => //; apply/(signals_named seeded next span d sg); by exists s.
- case=> d id /(signals_named seeded next span d sg) [s i h']; exists (std_signals seeded next m span d, d_res d), s; split=> //.
  exact: (List.in_map (fun d => (std_signals seeded next m span d, d_res d)) _ _ id).
Qed.
(** * Example *)
Definition simple_fns (s : wsrc) : Prop :=
  match s with
  | Plain (White fn _ _ _ _) | Plain (Determ fn _ _ _ _ _) | Plain (Common fn _ _ _ _ _ _) => simple_class fn
  | Plain (Proc a b _ _ _ _ _) => simple_class a /\ simple_class b
  | _ => True
  end.
Lemma settable_simple fns s : settable fns s -> simple_fns s -> simple_src fns s.
Proof. by case: s => [[?????|??????|???????|???????|???????]|?????|????|????????????] //=; [case|case|case=> _ _ c []|case]. Qed.
Ltac simple := split; [by repeat constructor|by repeat (constructor; [rewrite /=; intuition discriminate|]); constructor].
Lemma standard_names_ex : forall c o S (seeded : Z -> S) next, simple_class (spectrum (m_gwshape (e_m c o))) /\
  (forall x s, List.In x (std_array seeded next (e_m c o) 4%coqR [:: s_A; s_B]) -> List.In s x.1 -> simple_src (std_fns (e_m c o)) s) /\
  (exists dss, new_warray argsort_ins (std_fns (e_m c o)) (std_array seeded next (e_m c o) 4%coqR [:: s_A; s_B]) = Ok dss) /\
  forall x, (exists2 d, List.In d [:: s_A; s_B] & std_named (e_m c o) d x) <-> List.In x [:: "A_red_noise_log10_A"; "A_red_noise_gamma"; "B_red_noise_log10_A"; "B_red_noise_gamma"]%string.
Proof.
move=> c o S seeded next; split; first by case: o => [o|]; simple.
split; last split.
- move=> x s ix is_; apply: settable_simple; first exact: (e_settable e_values_ok ix is_).
  move: ix is_ => [<-|[<-|//]]; case: o => [o|] /=; repeat (case=> [<-|]) => //=; try simple; try by split; simple.
- exact: e_made.
- move=> x; split.
  + case=> d id [[k ik h]|[[c' [k [ic ik h]]]|[ho h]]].
    * by case: h.
    * case: ic ik h => [<-|[<-|//]] ik h; last by case: h.
      by move: id h; case: ik => [<-|//] [<-|[<-|//]] [->|->]; do ?[by left|right].
    * by case: o ho h => [o|] // _ [].
  + move=> h; have [d [id [k hk]]] : exists d, List.In d [:: s_A; s_B] /\ exists k, shape_named (c_shape (s_red c)) [:: d_name d; "red_noise"%string; k] x /\ k = ""%string.
      by case: h => [<-|[<-|[<-|[<-|//]]]]; [exists s_A|exists s_A|exists s_B|exists s_B]; (split; [by [left|right; left]|exists ""%string; split=> //; by [left|right]]).
    by case: hk => hk ek; exists d => //; right; left; exists (s_red c), k; split=> //; [left|rewrite ek; left].
Qed.
Lemma defaults_names_ex : forall c o S (seeded : Z -> S) next, List.In "A_red_noise_gamma"%string (dkeys e_D) /\
  exists dss, new_warray argsort_ins (std_fns (e_m c o)) (std_array seeded next (e_m c o) 4%coqR [:: s_A; s_B]) = Ok dss /\ List.In "A_red_noise_gamma"%string (array_names (std_fns (e_m c o)) dss).
Proof.
move=> c o S seeded next; have [h1 [h2 [[dss h3] h4]]] := standard_names_ex c o seeded next; split; first by rewrite /=; tauto.
exists dss; split=> //; apply/(standard_names_lem h1 h2 h3)/h4; by right; left.
Qed.
