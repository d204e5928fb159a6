(** Properties C10-C14 and C86: parameter lists, vectors, priors, summary. *)
From Coq Require Import String Bool Arith Lia List Permutation Sorted Reals Lra.
From Verif Require Import PyBase ProofBase ModelParams ProofParams.
Import ListNotations.
Open Scope string_scope.
Open Scope list_scope.

(** C10: The parameter list of an array is sorted, complete and duplicate free. *)
Theorem pta_params_spec :
  forall (enum : list par -> list par) (l : list collection),
    (* the set is iterated in some order *)
    (forall s, Permutation (enum s) s) ->
    (* one identity is one object *)
    (forall c1 s1 k1 p1 x c2 s2 k2 p2 y,
       In c1 l -> In s1 c1 -> In (k1, p1) s1 -> reach p1 x ->
       In c2 l -> In s2 c2 -> In (k2, p2) s2 -> reach p2 y -> par_id x = par_id y -> x = y) ->
    let ps := pta_params enum l in
    (* complete and nothing else *)
    (forall x, In x ps <-> exists c s k p, In c l /\ In s c /\ In (k, p) s /\ reach p x) /\
    (* each object once *)
    NoDup (map par_id ps) /\ NoDup ps /\
    (* ascending names *)
    StronglySorted (fun p q => sle (par_name p) (par_name q) = true) ps /\
    (* no constants *)
    (forall x, In x ps -> is_const x = false).
Proof. exact pta_params_lem. Qed.
Print Assumptions pta_params_spec.
(** A hyperparameter [mu] shared by two priors and used by a signal itself, a
    parameter common to two pulsars, a constant. *)
Example pta_params_example :
  let mu := Par 0 "mu" None [] in
  let a := Par 1 "a" None [("mu", mu); ("sigma", Cst 9 "s")] in
  let b := Par 2 "J_b" (Some 3) [("mu", mu)] in
  map par_name (pta_params (@rev par) [[[("x", b); ("c", Cst 8 "c")]; [("x", a)]]; [[("y", a); ("mu", mu)]]]) = ["J_b"; "a"; "mu"].
Proof. vm_compute. reflexivity. Qed.

(** C11: Mapping a vector onto parameters loses and reorders nothing. *)
Theorem map_params_lossless :
  forall (num : Type) (ps : list par) (xs : list num),
    NoDup (map par_name ps) ->
    length xs = length (param_names ps) ->
    exists d, map_params ps xs = Ok d /\
      dkeys d = map par_name ps /\
      (* each parameter gets the entries at the positions of its names, as a
         float if it has one name and as a vector otherwise *)
      (forall l1 p l2, ps = l1 ++ p :: l2 ->
         exists v, dget string_dec d (par_name p) = Some v /\
           pval_list v = firstn (length (names_of p)) (skipn (length (param_names l1)) xs) /\
           (length (names_of p) = 1 <-> exists x, v = PS x)) /\
      (* and reading back gives the vector *)
      flatten ps d = Ok xs.
Proof. exact map_params_lossless_lem. Qed.
Print Assumptions map_params_lossless.
Example map_params_lossless_example :
  let ps := [Par 0 "a" None []; Par 1 "v" (Some 3) []; Par 2 "w" (Some 1) []] in
  NoDup (map par_name ps) /\ length [10; 20; 30; 40; 50] = length (param_names ps) /\
  map_params ps [10; 20; 30; 40; 50] = Ok [("a", PS 10); ("v", PV [20; 30; 40]); ("w", PS 50)].
Proof. split; [repeat constructor; simpl; intuition discriminate|split; reflexivity]. Qed.

Theorem map_params_too_long :
  forall (num : Type) (ps : list par) (xs extra : list num),
    length xs = length (param_names ps) ->
    map_params ps (xs ++ extra) = map_params ps xs.
Proof. exact map_params_too_long_lem. Qed.
Print Assumptions map_params_too_long.
Theorem map_params_too_short_scalar :
  forall (num : Type) (ps : list par) (p : par) (xs : list num),
    width p = 1 -> length xs = length (param_names ps) ->
    map_params (ps ++ [p]) xs = Err IndexError.
Proof. exact map_params_too_short_scalar_lem. Qed.
Print Assumptions map_params_too_short_scalar.
Theorem map_params_too_short_refuted :
  (* one entry missing: no error, and a vector of the wrong length *)
  exists (ps : list par) (xs : list nat) d l,
    S (length xs) = length (param_names ps) /\ map_params ps xs = Ok d /\
    dget string_dec d "v"%string = Some (PV l) /\ length l = 2 /\
    (exists p, In p ps /\ par_name p = "v"%string /\ par_size p = Some 3).
Proof. exact map_params_too_short_refuted_lem. Qed.
Print Assumptions map_params_too_short_refuted.
Example map_params_too_short_example :
  let ps := [Par 0 "v" (Some 2) []; Par 1 "z" None []] in
  width (Par 1 "z" None []) = 1 /\ map_params ps [1; 2] = Err IndexError /\
  map_params ps [1; 2; 3; 4] = map_params ps [1; 2; 3].
Proof. repeat split. Qed.

(** C12: Flattened parameter names are unique. *)
Theorem param_names_unique :
  forall ps : list par,
    NoDup (map par_name ps) ->
    (* no scalar parameter is called like an element of a vector parameter *)
    (forall p q n i, In p ps -> In q ps -> par_size p = Some (S n) -> i < S n ->
       par_size q = None \/ par_size q = Some 0 ->
       par_name q <> append (par_name p) (append "_" (str_of_nat i))) ->
    NoDup (param_names ps).
Proof. exact param_names_unique_lem. Qed.
Print Assumptions param_names_unique.
Example param_names_unique_example :
  let ps := [Par 0 "a" (Some 12) []; Par 1 "a_1" (Some 2) []; Par 2 "a_12" None []; Par 3 "a_x" None []] in
  NoDup (map par_name ps) /\
  (forall p q n i, In p ps -> In q ps -> par_size p = Some (S n) -> i < S n ->
       par_size q = None \/ par_size q = Some 0 ->
       par_name q <> append (par_name p) (append "_" (str_of_nat i))).
Proof.
  split; [repeat constructor; simpl; intuition discriminate|].
  intros p q n i Hp Hq Hs Hi Hq0 E. simpl in Hp, Hq.
  destruct Hp as [<-|[<-|[<-|[<-|[]]]]]; try discriminate Hs; injection Hs as <-;
  destruct Hq as [<-|[<-|[<-|[<-|[]]]]]; destruct Hq0 as [Hq0|Hq0]; try discriminate Hq0;
  do 12 (destruct i as [|i]; [vm_compute in E; discriminate E|]); lia.
Qed.
Theorem param_names_unique_refuted :
  exists ps : list par, NoDup (map par_name ps) /\ ~ NoDup (param_names ps).
Proof. exact param_names_unique_refuted_lem. Qed.
Print Assumptions param_names_unique_refuted.

(** C13: The log prior is the sum of the parameters' log densities. *)
Theorem lnprior_is_log_of_density :
  forall (eval_prior : par -> pval R -> dict string (pval R) -> result dens)
    (ps : list par) (d : dict string (pval R)) (pdfs : list R),
    (* densities are not negative *)
    (forall p v x, eval_prior p v d = Ok x -> dens_ok x) ->
    (* every parameter's density at its value in the dictionary *)
    rmapM (fun p => get_pdf eval_prior p d) ps = Ok pdfs ->
    exists r, lnprior_dict eval_prior ps d = Ok r /\
      lexp r = prod_list pdfs /\
      (r = NegInf <-> exists p, In p ps /\ get_logpdf eval_prior p d = Ok NegInf) /\
      (r = NegInf -> prod_list pdfs = 0%R) /\
      (forall y, r = Fin y -> y = ln (prod_list pdfs)).
Proof. exact lnprior_is_log_of_density_lem. Qed.
Print Assumptions lnprior_is_log_of_density.
(** One parameter with density 2 and one given by its log density. *)
Example lnprior_example :
  let ev p (v : pval R) (d : dict string (pval R)) :=
    Ok (if String.eqb (par_name p) "a" then DPrior [2%R] else DLog (Fin 0%R)) in
  let ps := [Par 0 "a" None []; Par 1 "b" None []] in
  let d := [("a", PS 1%R); ("b", PS 2%R)] in
  (forall p v x, ev p v d = Ok x -> dens_ok x) /\
  rmapM (fun p => get_pdf ev p d) ps = Ok [(2 * 1)%R; exp 0%R].
Proof.
  split; [|reflexivity]. intros p v x H. injection H as <-. destruct (String.eqb _ _); simpl; auto.
  intros y [<-|[]]. lra.
Qed.

Theorem lnprior_vector_dict :
  forall (eval_prior : par -> pval R -> dict string (pval R) -> result dens)
    (ps : list par) (d : dict string (pval R)) (xs : list R),
    NoDup (map par_name ps) ->
    (* the prior of a parameter of the array reads only parameters of the array *)
    (forall p v d1 d2, In p ps ->
       (forall q, In q ps -> dget string_dec d1 (par_name q) = dget string_dec d2 (par_name q)) ->
       eval_prior p v d1 = eval_prior p v d2) ->
    (* the dictionary gives floats to scalars and vectors of the right length to
       vectors, and the vector is the dictionary read in parameter order *)
    (forall p, In p ps -> exists v, dget string_dec d (par_name p) = Some v /\
       length (pval_list v) = width p /\ (width p = 1 -> exists x, v = PS x) /\ (1 < width p -> exists l, v = PV l)) ->
    flatten ps d = Ok xs ->
    lnprior_vec eval_prior ps xs = lnprior_dict eval_prior ps d.
Proof. exact lnprior_vector_dict_lem. Qed.
Print Assumptions lnprior_vector_dict.
Example lnprior_vector_dict_example :
  let ps := [Par 0 "a" None []; Par 1 "v" (Some 2) []] in
  let d := [("v", PV [2%R; 3%R]); ("zz", PS 0%R); ("a", PS 1%R)] in
  (forall p, In p ps -> exists v, dget string_dec d (par_name p) = Some v /\
     length (pval_list v) = width p /\ (width p = 1 -> exists x, v = PS x) /\ (1 < width p -> exists l, v = PV l)) /\
  flatten ps d = Ok [1%R; 2%R; 3%R].
Proof.
  split; [|reflexivity]. intros p [<-|[<-|[]]]; simpl; eexists; (split; [reflexivity|]); simpl;
    (split; [reflexivity|]); unfold width; simpl; split; intros; try lia; eauto.
Qed.

(** C14: The unit-cube transform samples the joint prior. Proved when no prior
    refers to other parameters; the hierarchical half is refuted below. *)
Theorem hypercube_quantiles_partial :
  forall (num : Type) (ppf : par -> pval num -> dict string (pval num) -> result (pval num))
    (q : par -> pval num -> pval num) (ps : list par) (xs : list num),
    NoDup (map par_name ps) -> length xs = length (param_names ps) ->
    (* no prior refers to other parameters *)
    (forall p v d, In p ps -> ppf p v d = Ok (q p v)) ->
    exists d, map_params ps xs = Ok d /\
      hypercube ppf ps xs =
        Ok (concat (map (fun p => match dget string_dec d (par_name p) with
                                  | Some v => pval_list (q p v) | None => [] end) ps)) /\
      (forall p, In p ps -> dget string_dec d (par_name p) <> None).
Proof. exact hypercube_quantiles_partial_lem. Qed.
Print Assumptions hypercube_quantiles_partial.
Example hypercube_quantiles_example :
  let q (p : par) (v : pval nat) := match v with PS x => PS (10 * x) | PV l => PV (map S l) end in
  let ps := [Par 0 "a" None []; Par 1 "v" (Some 2) []] in
  hypercube (fun p v d => Ok (q p v)) ps [1; 2; 3] = Ok [10; 3; 4].
Proof. reflexivity. Qed.
Theorem hypercube_hierarchical_refuted :
  exists (ps : list par) (xs out : list nat) (dout : dict string (pval nat)),
    hypercube hier_ppf ps xs = Ok out /\ map_params ps out = Ok dout /\
    (* x is not the quantile of its prior at the transformed mu *)
    ~ (exists du v u, map_params ps xs = Ok du /\ dget string_dec du "x" = Some u /\
         dget string_dec dout "x" = Some v /\ hier_ppf hier_x u dout = Ok v).
Proof. exact hypercube_hierarchical_refuted_lem. Qed.
Print Assumptions hypercube_hierarchical_refuted.

(** C86: The model summary counts parameters correctly. *)
Theorem summary_counts_spec :
  forall (include : bool) (ps : list par) (l : list (string * collection)),
    let s := summary include (length (param_names ps)) l in
    s_varying s = length (param_names ps) /\
    s_total s = s_varying s + s_fixed s /\
    s_pulsars s = length l /\
    (* listed: one per constant entry of a signal; not listed: zero *)
    (include = true -> s_fixed s = length (filter is_const (map snd (concat (concat (map snd l)))))) /\
    (include = false -> s_fixed s = 0).
Proof. exact summary_counts_lem. Qed.
Print Assumptions summary_counts_spec.
Example summary_counts_example :
  let l := [("J1", [[("ef", Cst 0 "J1_ef"); ("A", Par 1 "gw_A" None [])]; [("g", Par 2 "J1_g" (Some 2) [])]]);
            ("J2", [[("A", Par 1 "gw_A" None [])]])] in
  summary true 3 l = SC 4 3 2 1 2.
Proof. reflexivity. Qed.
Theorem summary_fixed_count_refuted :
  exists (l : list (string * collection)),
    (* there is a constant, but the total without listing does not count it *)
    length (filter is_const (map snd (concat (concat (map snd l))))) = 1 /\
    s_fixed (summary false 0 l) = 0 /\
    (* and a parameter common to two pulsars is counted twice *)
    exists (l2 : list (string * collection)) (p : par),
      (forall q, In q (map snd (concat (concat (map snd l2)))) -> q = p) /\
      s_common (summary true 1 l2) = 2.
Proof. exact summary_fixed_count_refuted_lem. Qed.
Print Assumptions summary_fixed_count_refuted.
