(** Examples of arrays, and what an array's answers do depend on *)
From Coq Require Import String Bool Arith List Reals Lia Lra.
From Verif Require Import PyBase ProofBase ModelSelect ModelFunc ModelCache ProofCache ModelGp ProofGp ModelColl ProofColl ModelSigs ProofSigs.
Import ListNotations.
Open Scope nat_scope.
Open Scope string_scope.
Open Scope list_scope.

(** * Formal operations: results list what they were computed from *)
Definition fX : Type := (list R * dval * fmat)%type.
Definition fL : Type := (list (option fX) * list (option fX) * (list (option (list (sprior * nat))) * list gv) * list (list R * dval) * list R)%type.
Definition dlist (d : dval) : list R := match d with DZero => [] | DArr l => l end.
Definition formal (fns : nat -> fob * fob) : ops sst (list R) dval fmat nat sprior (list (sprior * nat)) gv fX (list R * dval) (list (option (list (sprior * nat))) * list gv) fL nat :=
  Ops (fun l => Ok (List.concat l)) (fun l => Ok (DArr (List.concat (map dlist l)))) (fun r d => Ok (DArr (dlist r ++ dlist d)))
    0 (fun st b _ _ => (st + fst b, st)) (fun st => (st, [])) (fun F => (fst F, [])) (fun T i x => Ok (fst T, snd T ++ snd x))
    (fun _ => []) (fun K x i => Ok (K ++ [(x, i)]))
    (fun N r T => Ok (N, r, T)) (fun N T => Ok (N, DZero, T)) (fun N r => Ok (N, r))
    (common_cross fns) (fun _ _ phis _ xs => Ok (phis, xs)) (fun a b q y pri => Ok (a, b, q, y, pri)).

(** Two pulsars with white noise, a deterministic signal and a common process *)
Definition x_var : fcl := FC (PyFun ["errs"; "efac"] [GV (Sc 1%R)]
  (fun l => match l with [GV (Vec es); GV (Sc e)] => Ok (GV (Vec (map (fun s => (e * s)%R) es))) | _ => Err ValueError end)) "" [("efac", AParC w_density)].
Definition x_wave : fcl := FC (PyFun ["toas"; "amp"] [GV (Sc 1%R)]
  (fun l => match l with [GV (Vec ts); GV (Sc a)] => Ok (GV (Vec (map (fun t => (a * t)%R) ts))) | _ => Err ValueError end)) "" [("amp", AParC w_density)].
Definition x_psr : gv := GPsr [("toas", GV (Vec [3%R; 5%R])); ("errs", GV (Vec [1%R; 2%R]))].
Definition x_masks : dict string mask := [("", [true; true])].
Definition x_orf : fob := inst (FC (PyFun ["a"; "b"] [] (fun l => match l with [GV (Sc a); GV (Sc b)] => Ok (GV (Sc (a * b)%R)) | _ => Err TypeError end)) "" []) "gw" None.
Definition x_amp : fob := inst (FC (PyFun ["f"; "a"] [GV (Sc 1%R)] (fun l => match l with [GV (Vec f); GV (Sc a)] => Ok (GV (Vec (map (fun x => (x * a)%R) f))) | _ => Err TypeError end)) "" [("a", AParC w_density)]) "gw" None.
Definition x_fns (k : nat) : fob * fob := (x_amp, x_orf).
Definition x_white (psr : string) : fsel := FSel [""] [[true; true]] [("", inst x_var psr (Some x_psr))] (map (fun q => (par_name q, q)) (pars_of (inst x_var psr (Some x_psr)))).
Definition x_det (psr : string) : fsel := FSel [""] [[true; true]] [("", inst x_wave (us_name [psr; "det"]) (Some x_psr))] (map (fun q => (par_name q, q)) (pars_of (inst x_wave (us_name [psr; "det"]) (Some x_psr)))).
Definition x_com (psr : string) : cgp := new_cgp w_basis x_amp x_orf None "gw" psr x_psr.
Definition x_array : list (list desc * dval) :=
  map (fun np : string * R => ([DWhite (x_white (fst np)); DDet (x_det (fst np)) 2; DCommon (x_com (fst np)) (GV (Sc (snd np))) 0 true], DArr [7%R; 7%R])) [("A", 10%R); ("B", 20%R)].
Lemma x_made c d : In c x_array -> In d (fst c) -> made x_fns d.
Proof.
  assert (nm : NoDup (dkeys x_masks)) by (apply NoDup_cons; [intros []|apply NoDup_nil]).
  intros [<-|[<-|[]]] [<-|[<-|[<-|[]]]]; cbn [made].
  - exists x_var, "", "A", x_psr, x_masks; split; [exact nm|]; split; [now repeat constructor|reflexivity].
  - exists x_wave, "det", "A", x_psr, x_masks; split; [exact nm|]; split; [now repeat constructor|reflexivity].
  - exists w_basis, None, "gw", "A", x_psr; split; [now repeat constructor|reflexivity].
  - exists x_var, "", "B", x_psr, x_masks; split; [exact nm|]; split; [now repeat constructor|reflexivity].
  - exists x_wave, "det", "B", x_psr, x_masks; split; [exact nm|]; split; [now repeat constructor|reflexivity].
  - exists w_basis, None, "gw", "B", x_psr; split; [now repeat constructor|reflexivity].
Qed.
Lemma fresh_call {S B} names limit (func : params R -> S -> S * result B) p s : 1 <= limit ->
  cache_call Req_EM_T names limit func p (cempty, s) =
  match cache_key R names p with
  | Err e => ((cempty, s), Err e)
  | Ok k => let (b, r) := func p s in
      match r with Ok x => ((CState [(k, x)] [k], b), Ok x) | Err e => ((CState [] [k], b), Err e) end
  end.
Proof.
  intros l1; unfold cache_call; destruct (cache_key R names p) as [k|] eqn:ek; [|reflexivity]; cbn [cmap clist dmem dget cempty].
  destruct (func p s) as [b [y|e]] eqn:E; [|reflexivity]; unfold cevict; cbn [clist cmap dset app length].
  destruct (Nat.ltb_spec limit 1) as [lt|ge]; [lia|]; cbn [cmap]; unfold dgetE; cbn [dget]; destruct (key_eq_dec Req_EM_T k k); [reflexivity|congruence].
Qed.
(** Noise, amplitude of the deterministic signal and of the common process, and its basis *)
Definition x_p (e a g x : R) : params R :=
  [("A_efac", Sc e); ("B_efac", Sc 1%R); ("A_det_amp", Sc a); ("B_det_amp", Sc 1%R); ("gw_a", Sc g); ("A_gw_x", Sc x); ("B_gw_x", Sc 1%R)].
Definition x_val (q : R * R * (R * R)) : fL :=
  let e := fst (fst q) in let a := snd (fst q) in let g := fst (snd q) in let x := snd (snd q) in
  let NA := [e * 1; e * 2]%R in let NB := [1 * 1; 1 * 2]%R in
  let rA := DArr [7; 7; a * 3; a * 5]%R in let rB := DArr [7; 7; 1 * 3; 1 * 5]%R in
  let TA := (1, [[3 * x]; [5 * x]]%R) in let TB := (1, [[3 * 1]; [5 * 1]]%R) in
  ([Some (NA, rA, TA); Some (NB, rB, TB)], [Some (NA, DZero, TA); Some (NB, DZero, TB)],
   ([Some [(PCom (GV (Vec [x * g * (10 * 10)]%R)), 0)]; Some [(PCom (GV (Vec [1 * g * (20 * 20)]%R)), 0)]], [GV (Vec [x * g * (10 * 20)]%R)]),
   [(NA, rA); (NB, rB)], [0 + 0 + 0 + 0; 0 + 0 + 0 + 0]%R).
Lemma x_flat e a g x : flat_values (x_p e a g x).
Proof. apply w_flat; intros y l H; repeat (destruct H as [H|H]; [discriminate|]); destruct H. Qed.
Lemma x_fair e a g x : fair (map fst x_array) (x_p e a g x).
Proof.
  split; [apply x_flat|]; intros ds d o [<-|[<-|[]]] [<-|[<-|[<-|[]]]] [<-|[]] q h ec; cbn in h; repeat (destruct h as [<-|h]; [discriminate|]); destruct h.
Qed.
Lemma x_ask q : v_ask (formal x_fns) (cross_of x_fns (map fst x_array)) (map (fun c => (coll_of x_fns c, map (alone x_fns) (fst c))) x_array) (ALike "cliques" (x_p (fst (fst q)) (snd (fst q)) (fst (snd q)) (snd (snd q)))) = Ok (RLike (x_val q)).
Proof.
  destruct q as [[e a] [g x]]; cbn [fst snd]; set (p := x_p e a g x).
  set (WA := alone x_fns (DWhite (x_white "A"))); set (DA := alone x_fns (DDet (x_det "A") 2)); set (CA := alone x_fns (DCommon (x_com "A") (GV (Sc 10%R)) 0 true)).
  set (WB := alone x_fns (DWhite (x_white "B"))); set (DB := alone x_fns (DDet (x_det "B") 2)); set (CB := alone x_fns (DCommon (x_com "B") (GV (Sc 20%R)) 0 true)).
  assert (w1 : b_ndiag WA p = Ok (Some [e * 1; e * 2]%R)) by (unfold WA; cbn [alone b_ndiag sg_of white_sg s_ndiag start_of cached_array]; rewrite fresh_call by lia; reflexivity).
  assert (w2 : b_ndiag WB p = Ok (Some [1 * 1; 1 * 2]%R)) by (unfold WB; cbn [alone b_ndiag sg_of white_sg s_ndiag start_of cached_array]; rewrite fresh_call by lia; reflexivity).
  assert (d1 : b_delay DA p = Ok (Some (DArr [a * 3; a * 5]%R))) by (unfold DA; cbn [alone b_delay sg_of det_sg s_delay start_of cached_array]; rewrite fresh_call by lia; reflexivity).
  assert (d2 : b_delay DB p = Ok (Some (DArr [1 * 3; 1 * 5]%R))) by (unfold DB; cbn [alone b_delay sg_of det_sg s_delay start_of cached_array]; rewrite fresh_call by lia; reflexivity).
  assert (c1 : b_basis CA p = Ok (Some (1, [[3 * x]; [5 * x]]%R))) by (unfold CA; cbn [alone b_basis sg_of common_sg s_basis start_of]; unfold c_construct; rewrite fresh_call by lia; reflexivity).
  assert (c2 : b_basis CB p = Ok (Some (1, [[3 * 1]; [5 * 1]]%R))) by (unfold CB; cbn [alone b_basis sg_of common_sg s_basis start_of]; unfold c_construct; rewrite fresh_call by lia; reflexivity).
  assert (c3 : b_basis CA [] = Ok (Some (1, [[3 * 1]; [5 * 1]]%R))) by reflexivity.
  assert (c4 : b_basis CB [] = Ok (Some (1, [[3 * 1]; [5 * 1]]%R))) by reflexivity.
  assert (p1 : b_phi CA p = Ok (PCom (GV (Vec [x * g * (10 * 10)]%R)))) by (unfold CA; cbn [alone b_phi sg_of common_sg s_phi start_of]; unfold c_construct; rewrite fresh_call by lia; reflexivity).
  assert (p2 : b_phi CB p = Ok (PCom (GV (Vec [1 * g * (20 * 20)]%R)))) by (unfold CB; cbn [alone b_phi sg_of common_sg s_phi start_of]; unfold c_construct; rewrite fresh_call by lia; reflexivity).
  assert (LA : v_layout _ _ _ _ _ _ _ _ _ _ _ _ _ (formal x_fns) (coll_of x_fns (hd ([], DZero) x_array), [WA; DA; CA]) = Ok ([None; None; Some 0], Some (1, []))) by reflexivity.
  assert (LB : v_layout _ _ _ _ _ _ _ _ _ _ _ _ _ (formal x_fns) (coll_of x_fns (nth 1 x_array ([], DZero)), [WB; DB; CB]) = Ok ([None; None; Some 0], Some (1, []))) by reflexivity.
  set (mA := (coll_of x_fns (hd ([], DZero) x_array), [WA; DA; CA]) : ProofColl.model sst (list R) dval fmat sprior) in *.
  set (mB := (coll_of x_fns (nth 1 x_array ([], DZero)), [WB; DB; CB]) : ProofColl.model sst (list R) dval fmat sprior) in *.
  assert (bA : v_basis _ _ _ _ _ _ _ _ _ _ _ _ _ (formal x_fns) mA p = Ok (Some (1, [[3 * x]; [5 * x]]%R))).
  { unfold v_basis; rewrite LA; cbn [rbind snd fst combine mA v_over]; rewrite c1; reflexivity. }
  assert (bB : v_basis _ _ _ _ _ _ _ _ _ _ _ _ _ (formal x_fns) mB p = Ok (Some (1, [[3 * 1]; [5 * 1]]%R))).
  { unfold v_basis; rewrite LB; cbn [rbind snd fst combine mB v_over]; rewrite c2; reflexivity. }
  assert (nA : v_ndiag _ _ _ _ _ _ _ _ _ _ _ _ _ (formal x_fns) mA p = Ok [e * 1; e * 2]%R) by (unfold v_ndiag, mA; cbn [snd rmapM]; rewrite w1; reflexivity).
  assert (nB : v_ndiag _ _ _ _ _ _ _ _ _ _ _ _ _ (formal x_fns) mB p = Ok [1 * 1; 1 * 2]%R) by (unfold v_ndiag, mB; cbn [snd rmapM]; rewrite w2; reflexivity).
  assert (rA : v_detres _ _ _ _ _ _ _ _ _ _ _ _ _ (formal x_fns) mA p = Ok (DArr [7; 7; a * 3; a * 5]%R)) by (unfold v_detres, v_delay, mA; cbn [snd rmapM]; rewrite d1; reflexivity).
  assert (rB : v_detres _ _ _ _ _ _ _ _ _ _ _ _ _ (formal x_fns) mB p = Ok (DArr [7; 7; 1 * 3; 1 * 5]%R)) by (unfold v_detres, v_delay, mB; cbn [snd rmapM]; rewrite d2; reflexivity).
  assert (fA : v_phi _ _ _ _ _ _ _ _ _ _ _ _ _ (formal x_fns) mA p = Ok (Some [(PCom (GV (Vec [x * g * (10 * 10)]%R)), 0)])) by (unfold v_phi; rewrite LA; cbn [rbind snd fst combine mA v_over]; rewrite p1; reflexivity).
  assert (fB : v_phi _ _ _ _ _ _ _ _ _ _ _ _ _ (formal x_fns) mB p = Ok (Some [(PCom (GV (Vec [1 * g * (20 * 20)]%R)), 0)])) by (unfold v_phi; rewrite LB; cbn [rbind snd fst combine mB v_over]; rewrite p2; reflexivity).
  change (map (fun c => (coll_of x_fns c, map (alone x_fns) (fst c))) x_array) with [mA; mB].
  cbn [v_ask]; unfold v_like, v_TNr, v_TNT, v_rNr, v_phiinv; cbn [rmapM]; rewrite bA, bB, nA, nB, rA, rB, fA, fB, LA, LB; reflexivity.
Qed.
Lemma x_fair_of p : flat_values p -> fair (map fst x_array) p.
Proof.
  intros fl; split; [exact fl|]; intros ds d o [<-|[<-|[]]] [<-|[<-|[<-|[]]]] [<-|[]] q h ec; cbn in h; repeat (destruct h as [<-|h]; [discriminate|]); destruct h.
Qed.
Notation fcoll fns a := (map (coll_of fns) a) (only parsing).
Definition starts (a : list (list desc * dval)) := new_pta (N := list R) (D := dval) (F := fmat) (I := nat) (X := fX) (Y := list R * dval) (map (fun c => map start_of (fst c)) a).
Definition right_like (fns : nat -> fob * fob) (a : list (list desc * dval)) (p : params R) (r : fL) : Prop :=
  v_ask (formal fns) (cross_of fns (map fst a)) (map (fun c => (coll_of fns c, map (alone fns) (fst c))) a) (ALike "cliques" p) = Ok (RLike r).
(** After an exception: the second selection's basis raises *)
Definition y_gp : desc := match new_gp w_prior w_basis false "gp" "psr" w_psr w_masks with Ok x => DGp (fst x) true | Err _ => DWhite (x_white "psr") end.
Definition y_array : list (list desc * dval) := [([DWhite (x_white "psr"); y_gp], DArr [7%R; 7%R])].
Lemma array_exception_refuted_lem : exists fns a p p' r,
  (forall c d, In c a -> In d (fst c) -> made fns d) /\ fair (map fst a) p /\ fair (map fst a) p' /\ right_like fns a p r /\
  run (formal fns) (map (coll_of fns) a) [ALike "cliques" p; ALike "cliques" p'; ALike "cliques" p] (starts a) = [Ok (RLike r); Err ValueError; Err KeyError].
Proof.
  assert (fr : forall p, flat_values p -> fair (map fst y_array) p).
  { intros p fl; split; [exact fl|]; intros ds d o [<-|[]] [<-|[<-|[]]] ho q h ec; cbn in ho; repeat (destruct ho as [<-|ho]; [cbn in h; repeat (destruct h as [<-|h]; [discriminate|]); destruct h|]); destruct ho. }
  exists x_fns, y_array, [], [("psr_gp_b_x", Vec [])]; eexists; split; [|split; [apply fr, w_flat; intros x l []|split; [apply fr, w_flat; intros x l [h|[]]; discriminate|split; reflexivity]]].
  intros c d [<-|[]] [<-|[<-|[]]]; cbn [made].
  - exists x_var, "", "psr", x_psr, x_masks; split; [apply NoDup_cons; [intros []|apply NoDup_nil]|]; split; [now repeat constructor|reflexivity].
  - exists w_prior, w_basis, "gp", "psr", w_psr, w_masks; eexists; split; [repeat (apply NoDup_cons; [cbn; intuition discriminate|]); apply NoDup_nil|]; split; [now repeat constructor|reflexivity].
Qed.
(** Values for constants *)
Definition y_white : fsel := let o := inst (FC (fo_func (inst x_var "" None)) "" [("efac", ACstC (fun _ => GV (Sc 1%R)))]) "A" (Some x_psr) in
  FSel [""] [[true; true]] [("", o)] (map (fun q => (par_name q, q)) (pars_of o)).
Lemma array_constant_refuted_lem : exists fns a p p' r r',
  (forall c d, In c a -> In d (fst c) -> made fns d) /\ flat_values p /\ flat_values p' /\ right_like fns a p r /\ right_like fns a p' r' /\ r <> r' /\
  run (formal fns) (map (coll_of fns) a) [ALike "cliques" p; ALike "cliques" p'] (starts a) = [Ok (RLike r); Ok (RLike r)].
Proof.
  exists x_fns, [([DWhite y_white], DArr [])], [], [("A_efac", Sc 2%R)]; do 2 eexists; split.
  - intros c d [<-|[]] [<-|[]]; cbn [made]; exists (FC (fo_func (inst x_var "" None)) "" [("efac", ACstC (fun _ => GV (Sc 1%R)))]), "", "A", x_psr, x_masks; split; [apply NoDup_cons; [intros []|apply NoDup_nil]|]; split; [now repeat constructor|reflexivity].
  - split; [apply w_flat; intros x l []|]; split; [apply w_flat; intros x l [h|[]]; discriminate|]; split; [reflexivity|]; split; [reflexivity|]; split; [|reflexivity].
    cbn; intros h; injection h; lra.
Qed.
(** Sampled coefficients on a basis whose parameters vary: the delay of the collection is
    kept under the coefficients alone. *)
Definition y_basis : fcl := FC (PyFun ["toas"; "x"] [GV (Sc 1%R)]
  (fun l => match l with
            | [GV (Vec ts); GV (Sc x)] => Ok (GPair (GMat 1 (map (fun t => [(t * x)%R]) ts)) (GV (Vec [x])))
            | [GV (Vec ts); GV (Vec _)] => Ok (GPair (GMat 1 (map (fun t => [(t * t)%R]) ts)) (GV (Vec [2%R])))
            | _ => Err ValueError end)) "" [("x", AParC w_density)].
Definition y_new : gp * gstate := match new_gp w_prior y_basis true "gp" "psr" w_psr x_masks with Ok x => x | Err _ => (GP "" [] [] [] [] [] [], (cempty, (cempty, unbuilt))) end.
Definition y_p : params R := [("psr_gp_coefficients", Vec [1%R])].
Definition y_p' : params R := [("psr_gp_coefficients", Vec [1%R]); ("psr_gp_x", Vec [])].
Lemma delay_again {St N D F I P Ph C X Y Q L LS} (op : ops St N D F I P Ph C X Y Q L LS) c ss p p' k d :
  cache_key R (delay_names c) p = Ok k -> cache_key R (delay_names c) p' = Ok k ->
  snd (ModelColl.get_delay op c p (new_coll ss)) = Ok d ->
  snd (ModelColl.get_delay op c p' (fst (ModelColl.get_delay op c p (new_coll ss)))) = Ok d.
Proof.
  intros e e'.
  assert (E : ModelColl.get_delay op c p (new_coll ss) =
    let (o1, r) := andthen (all_sigs c (fun m => s_delay m p) (new_coll ss)) (fun l o => (o, sum_delay op (somes l))) in
    match r with Ok x => (put_delay o1 (CState [(k, x)] [k]), Ok x) | Err e => (put_delay o1 (CState [] [k]), Err e) end).
  { unfold ModelColl.get_delay, cached; cbn [o_delay new_coll]; rewrite fresh_call by lia; rewrite e; destruct (andthen _ _) as [o1 [x|ex]]; reflexivity. }
  rewrite E; clear E; destruct (andthen _ _) as [o1 [x|ex]]; cbn [fst snd]; intros h; [|discriminate]; injection h as ->.
  unfold ModelColl.get_delay, cached; cbn [o_delay put_delay]; unfold cache_call; rewrite e'; unfold dgetE, dmem; cbn [cmap dget]; destruct (key_eq_dec Req_EM_T k k); [reflexivity|congruence].
Qed.
Lemma array_sampled_refuted_lem : exists priorfn basisfn name psrname psr masks g s, 
  NoDup (dkeys masks) /\ no_functions basisfn /\ new_gp priorfn basisfn true name psrname psr masks = Ok (g, s) /\
  let a := [([DSampled g s true], DArr [])] in exists p p' r r',
  fair (map fst a) p /\ fair (map fst a) p' /\ r <> r' /\
  run (formal x_fns) (map (coll_of x_fns) a) [AColl 0 WDelay p; AColl 0 WDelay p'] (starts a) = [Ok (RDelay r); Ok (RDelay r)] /\
  run (formal x_fns) (map (coll_of x_fns) a) [AColl 0 WDelay p'] (starts a) = [Ok (RDelay r')].
Proof.
  exists w_prior, y_basis, "gp", "psr", w_psr, x_masks, (fst y_new), (snd y_new); split; [apply NoDup_cons; [intros []|apply NoDup_nil]|]; split; [now repeat constructor|]; split; [reflexivity|].
  cbv zeta; exists y_p, y_p', (DArr [3 * 1 * 1 + 0; 5 * 1 * 1 + 0]%R), (DArr [3 * 3 * 1 + 0; 5 * 5 * 1 + 0]%R).
  set (a := [([DSampled (fst y_new) (snd y_new) true], DArr [])]).
  assert (fr : forall p, flat_values p -> fair (map fst a) p).
  { intros p fl; split; [exact fl|]; intros ds d o [<-|[]] [<-|[]] ho q h ec; cbn in ho; repeat (destruct ho as [<-|ho]; [cbn in h; repeat (destruct h as [<-|h]; [discriminate|]); destruct h|]); destruct ho. }
  split; [apply fr, w_flat; intros x l H; repeat (destruct H as [H|H]; [discriminate|]); destruct H|].
  split; [apply fr, w_flat; intros x l H; repeat (destruct H as [H|H]; [discriminate|]); destruct H|].
  set (c := coll_of x_fns ([DSampled (fst y_new) (snd y_new) true], DArr [])).
  set (o := new_coll (N := list R) (D := dval) (F := fmat) (I := nat) (X := fX) (Y := list R * dval) [start_of (DSampled (fst y_new) (snd y_new) true)]).
  assert (D1 : snd (ModelGp.get_delay (fst y_new) y_p (snd y_new)) = Ok [3 * 1 * 1 + 0; 5 * 1 * 1 + 0]%R).
  { change (snd y_new) with (cempty (num := R) (B := list R), snd (snd y_new)); unfold ModelGp.get_delay; rewrite fresh_call by lia; reflexivity. }
  assert (D2 : snd (ModelGp.get_delay (fst y_new) y_p' (snd y_new)) = Ok [3 * 3 * 1 + 0; 5 * 5 * 1 + 0]%R).
  { change (snd y_new) with (cempty (num := R) (B := list R), snd (snd y_new)); unfold ModelGp.get_delay; rewrite fresh_call by lia; reflexivity. }
  assert (E : forall p d, cache_key R (delay_names c) p = Ok [("psr_gp_coefficients", KTup [1%R])] ->
    snd (ModelGp.get_delay (fst y_new) p (snd y_new)) = Ok d -> snd (ModelColl.get_delay (formal x_fns) c p o) = Ok (DArr (d ++ []))).
  { intros p d ek hd; unfold ModelColl.get_delay, cached, o; cbn [o_delay new_coll]; rewrite fresh_call by lia; rewrite ek.
    unfold all_sigs, c; cbn [c_sigs coll_of fst map sg_of sampled_sg new_coll o_sigs each s_delay start_of].
    destruct (ModelGp.get_delay (fst y_new) p (snd y_new)) as [s' r]; cbn [snd] in hd; subst r; reflexivity. }
  assert (R1 := E y_p _ eq_refl D1); assert (R2 := E y_p' _ eq_refl D2); cbn [app] in R1, R2.
  assert (R3 := delay_again (formal x_fns) c _ y_p y_p' _ _ eq_refl eq_refl R1); fold o in R3.
  change (starts a) with (PObj [o] None); change (map (coll_of x_fns) a) with [c]; cbn [run respond at_nth nth_error p_colls p_cs ask_coll put_nth]; unfold mapr.
  split; [|split].
  - intros h; injection h; lra.
  - rewrite R1; cbn [fst snd rmap put_nth p_colls p_cs nth_error]; rewrite R3; reflexivity.
  - rewrite R2; reflexivity.
Qed.
Lemma x_history l : run (formal x_fns) (map (coll_of x_fns) x_array) (map (fun q => ALike "cliques" (x_p (fst (fst q)) (snd (fst q)) (fst (snd q)) (snd (snd q)))) l) (starts x_array) =
  map (fun q => Ok (RLike (x_val q))) l.
Proof.
  rewrite <- (map_map (fun q => RLike (x_val q)) Ok); apply signals_history_lem; [reflexivity|exact x_made|].
  induction l as [|q l IH]; constructor; [|exact IH]; split; [apply x_fair|apply x_ask].
Qed.
