(** Theorems about Gaussian process signals as objects. *)
From Coq Require Import String Bool Arith List Reals Lra.
From Verif Require Import PyBase ModelSelect ModelFunc ModelCache ModelGp ProofGp.
Import ListNotations.
Open Scope nat_scope.
Open Scope string_scope.
Open Scope list_scope.

(** C109: whatever has been asked before, basis, prior, delay and coefficient density of a
    Gaussian process are those of the parameters asked for. *)
Theorem gp_history :
  forall priorfn basisfn name psrname psr masks n dense sampled timing, NoDup (dkeys masks) -> no_functions priorfn -> varying basisfn ->
  (sampled = true -> unambiguous priorfn basisfn name psrname psr masks /\ exists bl, blocks_at basisfn name psrname psr masks n [] bl) ->
  exists g s, new_gp priorfn basisfn sampled name psrname psr masks = Ok (g, s) /\
    forall l rs, Forall2 (correct priorfn basisfn name psrname psr masks n dense sampled timing) l rs -> run dense sampled timing g l s = map Ok rs.
Proof. exact gp_history_lem. Qed.
Print Assumptions gp_history.
Definition ex_p (x y c d : R) : gparams := [("psr_gp_a_x", Sc x); ("psr_gp_b_x", Sc y); ("psr_gp_a_coefficients", Vec [c]); ("psr_gp_b_coefficients", Vec [d])].
Lemma ex_blocks x y c d : blocks_at w_basis "gp" "psr" w_psr w_masks 2 (ex_p x y c d) (w_blocks x y).
Proof. apply (w_blocks_at (ex_p x y c d)); [apply w_flat; intros z l H; repeat (destruct H as [H|H]; [discriminate|]); exact H|exact I|exact I]. Qed.
Example gp_history_delay : exists g s, new_gp w_prior w_basis true "gp" "psr" w_psr w_masks = Ok (g, s) /\
  forall l, run w_none true false g (map (fun q => ADelay (ex_p (fst q) (snd q) 1 2)) l) s = map (fun q => Ok (RDelay [3 * fst q; 10 * snd q]%R)) l.
Proof.
  destruct (gp_history w_prior w_basis "gp" "psr" w_psr w_masks 2 w_none true false) as (g & s & e & H).
  - repeat constructor; cbn; intuition discriminate.
  - exact w_plain.
  - exact w_varying.
  - intros _; split; [exact w_unambiguous|]; exists (w_blocks 1 1); apply (w_blocks_at []); [apply w_flat; intros x l []|exact I|exact I].
  - exists g, s; split; [exact e|]; intros l; rewrite <- (map_map (fun q => RDelay [3 * fst q; 10 * snd q]%R) Ok); apply H; induction l as [|[x y] l IH]; cbn [map]; constructor; [|exact IH].
    cbn [correct fst snd]; exists (w_blocks x y), [[1%R]; [2%R]]; split; [apply ex_blocks|]; split; [repeat constructor|].
    cbn; f_equal; f_equal; [|f_equal]; ring.
Qed.
Example gp_history_basis : exists g s, new_gp w_prior w_basis false "gp" "psr" w_psr w_masks = Ok (g, s) /\
  run w_none false false g [ABasis (ex_p 2 3 0 0); APhi (ex_p 4 5 0 0); ABasis (ex_p 2 3 0 0)] s =
  [Ok (RBasis 2 [[3 * 2; 0]; [0; 5 * 3]]%R); Ok (RPhi [((0, 1), GV (Vec [4%R])); ((1, 2), GV (Vec [5%R]))]); Ok (RBasis 2 [[3 * 2; 0]; [0; 5 * 3]]%R)].
Proof.
  destruct (gp_history w_prior w_basis "gp" "psr" w_psr w_masks 2 w_none false false) as (g & s & e & H).
  - repeat constructor; cbn; intuition discriminate.
  - exact w_plain.
  - exact w_varying.
  - discriminate.
  - exists g, s; split; [exact e|]; apply (H _ [RBasis 2 [[3 * 2; 0]; [0; 5 * 3]]%R; RPhi [((0, 1), GV (Vec [4%R])); ((1, 2), GV (Vec [5%R]))]; RBasis 2 [[3 * 2; 0]; [0; 5 * 3]]%R]).
    repeat (apply Forall2_cons); [| | |apply Forall2_nil]; cbn [correct].
    + exists (w_blocks 2 3); split; [apply ex_blocks|reflexivity].
    + exists (w_blocks 4 5), [GV (Vec [4%R]); GV (Vec [5%R])]; split; [apply ex_blocks|]; split; [reflexivity|repeat constructor].
    + exists (w_blocks 2 3); split; [apply ex_blocks|reflexivity].
Qed.
Theorem after_error_refuted : exists priorfn basisfn name psrname psr masks n p p' r g s,
  NoDup (dkeys masks) /\ no_functions priorfn /\ varying basisfn /\ new_gp priorfn basisfn false name psrname psr masks = Ok (g, s) /\
  correct priorfn basisfn name psrname psr masks n w_none false false (APhi p) r /\
  run w_none false false g [APhi p; APhi p'; APhi p] s = [Ok r; Err ValueError; Err KeyError].
Proof. exact after_error_refuted_lem. Qed.
Print Assumptions after_error_refuted.
Theorem after_error_density_refuted : exists priorfn basisfn name psrname psr masks n key p p' r r' g s,
  NoDup (dkeys masks) /\ no_functions priorfn /\ varying basisfn /\ new_gp priorfn basisfn true name psrname psr masks = Ok (g, s) /\
  correct priorfn basisfn name psrname psr masks n w_none true false (ALogpdf key p) r /\
  run w_none true false g [ALogpdf key p; ADelay p'; ALogpdf key p] s = [Ok r; Err ValueError; Ok r'] /\ r <> r'.
Proof. exact after_error_density_refuted_lem. Qed.
Print Assumptions after_error_density_refuted.
Theorem constant_basis_refuted : exists priorfn basisfn name psrname psr masks p r r' g s,
  NoDup (dkeys masks) /\ no_functions priorfn /\ no_functions basisfn /\ new_gp priorfn basisfn false name psrname psr masks = Ok (g, s) /\
  run w_none false false g [ABasis []; ABasis p] s = [Ok r; Ok r] /\ run w_none false false g [ABasis p] s = [Ok r'] /\ r <> r'.
Proof. exact constant_basis_refuted_lem. Qed.
Print Assumptions constant_basis_refuted.

(** C109: the density of coefficients with a diagonal prior is the product of normal
    densities; without positive variances it is not a number. *)
Theorem coefficient_density : forall dense c l,
  (length c = length l -> Forall (fun v => 0 < v)%R l ->
     coef_density dense c (GV (Vec l)) = Ok (Some (ln (fold_right Rmult 1 (map2 normal_pdf c l))))%R) /\
  (length c = length l -> ~ Forall (fun v => 0 < v)%R l -> coef_density dense c (GV (Vec l)) = Ok None) /\
  (length c <> length l -> length c <> 1 -> length l <> 1 -> coef_density dense c (GV (Vec l)) = Err ValueError).
Proof. exact coefficient_density_lem. Qed.
Print Assumptions coefficient_density.
Example coefficient_density_satisfiable : length [1; 2]%R = length [1; 3]%R /\ Forall (fun v => 0 < v)%R [1; 3]%R.
Proof. split; [reflexivity|]. repeat constructor; lra. Qed.
(** C109: coefficients of another length than the prior's are not refused if one length
    is one; the normalisation is then wrong. *)
Theorem broadcast_density_refuted : exists c l x, length c <> length l /\ coef_density (fun _ _ _ => Err ValueError) c (GV (Vec l)) = Ok (Some x) /\
  x <> ln (fold_right Rmult 1 (map (fun y => normal_pdf y (hd 1 l)) c))%R.
Proof. exact broadcast_density_refuted_lem. Qed.
Print Assumptions broadcast_density_refuted.

(** C110: the parameters of a Gaussian process are those of its prior and basis for each
    selection, and a vector of coefficients as long as the basis of each selection. *)
Theorem marginal_parameters :
  forall priorfn basisfn name psrname psr masks, NoDup (dkeys masks) -> unambiguous priorfn basisfn name psrname psr masks ->
  exists g s, new_gp priorfn basisfn false name psrname psr masks = Ok (g, s) /\ NoDup (dkeys (g_params g)) /\
    (forall x q, In (x, q) (g_params g) <-> x = par_name q /\ exists k, In k (dkeys masks) /\ In q (own_pars priorfn basisfn name psrname psr k)) /\ g_coefs g = [].
Proof. exact marginal_parameters_lem. Qed.
Print Assumptions marginal_parameters.
Theorem sampled_parameters :
  forall priorfn basisfn name psrname psr masks n bl, NoDup (dkeys masks) -> unambiguous priorfn basisfn name psrname psr masks ->
  varying basisfn -> blocks_at basisfn name psrname psr masks n [] bl ->
  exists g s, new_gp priorfn basisfn true name psrname psr masks = Ok (g, s) /\ NoDup (dkeys (g_params g)) /\
    (forall x q, In (x, q) (g_params g) <-> x = par_name q /\ exists k, In k (dkeys masks) /\ In q (own_pars priorfn basisfn name psrname psr k)) /\
    map (fun kc => (fst kc, cf_name (snd kc), cf_size (snd kc))) (g_coefs g) = map (fun b => (k_key b, append (us_name [psrname; name; k_key b]) "_coefficients", k_nc b)) bl.
Proof. exact sampled_parameters_lem. Qed.
Print Assumptions sampled_parameters.
Example sampled_parameters_two : exists g s, new_gp w_prior w_basis true "gp" "psr" w_psr w_masks = Ok (g, s) /\
  map (fun kc => (fst kc, cf_name (snd kc), cf_size (snd kc))) (g_coefs g) = [("a", "psr_gp_a_coefficients", 1); ("b", "psr_gp_b_coefficients", 1)].
Proof.
  destruct (sampled_parameters w_prior w_basis "gp" "psr" w_psr w_masks 2 (w_blocks 1 1)) as (g & s & e & _ & _ & h).
  - repeat constructor; cbn; intuition discriminate.
  - exact w_unambiguous.
  - exact w_varying.
  - apply (w_blocks_at []); [apply w_flat; intros x l []|exact I|exact I].
  - exists g, s; split; [exact e|]; now rewrite h.
Qed.
Theorem selection_names : forall (c : fcl) name psrname psr k k', no_functions c -> k <> k' ->
  (forall kw q q', dget string_dec (fo_params (selected name psrname psr c k)) kw = Some q -> dget string_dec (fo_params (selected name psrname psr c k')) kw = Some q' -> par_name q <> par_name q' \/ q = q') /\
  coef_name name psrname k <> coef_name name psrname k'.
Proof. exact selection_names_lem. Qed.
Print Assumptions selection_names.
Theorem selection_keyword_refuted : exists priorfn basisfn name psrname psr masks k k' kw kw' q q' g s,
  NoDup (dkeys masks) /\ no_functions priorfn /\ varying basisfn /\ new_gp priorfn basisfn false name psrname psr masks = Ok (g, s) /\
  In k (dkeys masks) /\ In k' (dkeys masks) /\ k <> k' /\ kw <> kw' /\ In (kw, q) (fo_params (selected name psrname psr priorfn k)) /\ In (kw', q') (fo_params (selected name psrname psr priorfn k')) /\
  par_name q = par_name q' /\ In q' (dvals (g_params g)) /\ ~ In q (dvals (g_params g)).
Proof. exact selection_keyword_refuted_lem. Qed.
Print Assumptions selection_keyword_refuted.
Theorem shared_keyword_refuted : exists priorfn basisfn name psrname psr masks kw q q' g s,
  NoDup (dkeys masks) /\ no_functions priorfn /\ varying basisfn /\ new_gp priorfn basisfn false name psrname psr masks = Ok (g, s) /\
  In (kw, q) (fo_params (selected name psrname psr priorfn "")) /\ In (kw, q') (fo_params (selected name psrname psr basisfn "")) /\
  dvals (g_params g) = [q'] /\ q <> q'.
Proof. exact shared_keyword_refuted_lem. Qed.
Print Assumptions shared_keyword_refuted.

(** C111: the delay of a common process with sampled coefficients is that of the
    coefficients asked for, if their name says that they are coefficients. *)
Theorem common_delays :
  forall basisfn prior orf given name psrname psr s, varying basisfn ->
  (forall x, given = Some x -> substring_of "_coefficients" x = true) ->
  c_start (new_cgp basisfn prior orf given name psrname psr) = Ok s ->
  forall l rs, Forall2 (right_delay basisfn given name psrname psr) l rs ->
  c_run (new_cgp basisfn prior orf given name psrname psr) l s = map Ok rs.
Proof. exact common_delays_lem. Qed.
Print Assumptions common_delays.
Example common_delays_two : exists s, c_start (new_cgp w_basis (inst w_prior "gw" None) (inst w_prior "gw" None) None "gw" "psr" w_psr) = Ok s /\
  c_run (new_cgp w_basis (inst w_prior "gw" None) (inst w_prior "gw" None) None "gw" "psr" w_psr) [[("psr_gw_coefficients", Vec [1%R])]; [("psr_gw_coefficients", Vec [2%R])]] s =
  [Ok (map (fun row => dot row [1%R]) [[(3 * 1)%R]; [(5 * 1)%R]]); Ok (map (fun row => dot row [2%R]) [[(3 * 1)%R]; [(5 * 1)%R]])].
Proof.
  eexists; split; [reflexivity|].
  assert (D : forall y, right_delay w_basis None "gw" "psr" w_psr [("psr_gw_coefficients", Vec [y])] (map (fun row => dot row [y]) [[(3 * 1)%R]; [(5 * 1)%R]])).
  { intros y; split; [apply w_flat; intros x l [e|[]]; discriminate|]; exists 1, [[(3 * 1)%R]; [(5 * 1)%R]], (GV (Vec [1%R])), [y]; split; [reflexivity|]; split; [repeat constructor|]; split; [reflexivity|]; split; reflexivity. }
  apply (common_delays w_basis (inst w_prior "gw" None) (inst w_prior "gw" None) None "gw" "psr" w_psr _ w_varying (fun x e => match e with end) eq_refl
    [[("psr_gw_coefficients", Vec [1%R])]; [("psr_gw_coefficients", Vec [2%R])]]
    [map (fun row => dot row [1%R]) [[(3 * 1)%R]; [(5 * 1)%R]]; map (fun row => dot row [2%R]) [[(3 * 1)%R]; [(5 * 1)%R]]]).
  repeat constructor; apply D.
Qed.
Theorem common_given_refuted : exists basisfn prior orf given name psrname psr p p' v v' s,
  let c := new_cgp basisfn prior orf (Some given) name psrname psr in
  varying basisfn /\ c_start c = Ok s /\ right_delay basisfn (Some given) name psrname psr p v /\ right_delay basisfn (Some given) name psrname psr p' v' /\
  c_run c [p; p'] s = [Ok v; Ok v] /\ v <> v'.
Proof. exact common_given_refuted_lem. Qed.
Print Assumptions common_given_refuted.
