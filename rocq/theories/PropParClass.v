(** Theorems about parameter classes. *)
From Coq Require Import Reals String Bool Arith List Lra Lia.
From Verif Require Import PyBase ModelFunc ModelParClass ProofParClass.
Import ListNotations.
Open Scope string_scope.
Open Scope list_scope.

(** C104: parameter classes. The density of a parameter is the exponential of its log
    density and the log density the logarithm of the density, both for numbers and for
    vectors, zero densities and minus infinity included, whichever of the two the class
    gives; and the two raise the same exceptions. *)
Theorem pdf_logpdf : forall p value kw params, proper p value kw params -> logs (get_pdf p value kw params) (get_logpdf p value kw params).
Proof. exact pdf_logpdf_lem. Qed.
Print Assumptions pdf_logpdf.
(** Without a value, that of [params] under the parameter's name is used. *)
Theorem value_lookup : forall p kw params,
  match dget string_dec params (pm_name p) with
  | Some v => v <> PNone ->
      get_logpdf p PNone kw (Some params) = get_logpdf p v kw (Some params) /\
      get_pdf p PNone kw (Some params) = get_pdf p v kw (Some params) /\
      get_ppf p PNone kw (Some params) = get_ppf p v kw (Some params)
  | None =>
      get_logpdf p PNone kw (Some params) = Err KeyError /\ get_pdf p PNone kw (Some params) = Err KeyError /\
      (pm_ppf p <> None -> get_ppf p PNone kw (Some params) = Err KeyError)
  end.
Proof. exact value_lookup_lem. Qed.
Print Assumptions value_lookup.
(** A class has a density or else a log density, which must be there; the density wins
    if both are given. *)
Theorem user_parameter : forall prior logprior sampler ppf size name,
  let r := new_param (UserParameter prior logprior sampler ppf size) name in
  (prior = None -> logprior = None -> r = Err AttributeError) /\
  (forall f, prior = Some f -> exists p, r = Ok p /\ pm_name p = name /\ pm_size p = size /\ pm_dist p = inl (inst f name None)) /\
  (forall f, prior = None -> logprior = Some f -> exists p, r = Ok p /\ pm_name p = name /\ pm_size p = size /\ pm_dist p = inr (inst f name None)) /\
  (forall p, r = Ok p ->
    (ppf = None -> forall v kw params, get_ppf p v kw params = Err NotImplementedError) /\
    (sampler = None -> forall kw params, sample_par p kw params = Err AttributeError) /\
    (forall q v kw params, ppf = Some q -> v <> PNone -> get_ppf p v kw params = fcall (inst q name None) [v] kw params None)).
Proof. exact user_parameter_lem. Qed.
Print Assumptions user_parameter.
Theorem gp_coefficients : forall logprior size name p, new_param (GPCoefficients logprior size) name = Ok p ->
  (forall kw params, sample_par p kw params = Err AttributeError) /\
  (forall v kw params, get_ppf p v kw params = Err NotImplementedError) /\
  pm_name p = name /\ pm_size p = size /\ pm_dist p = inr (inst logprior name None).
Proof. exact gp_coefficients_lem. Qed.
Print Assumptions gp_coefficients.

(** Uniform parameters, with bounds that are numbers, arrays, constants or parameters *)
Theorem uniform_scalar : forall rng pmin pmax name params a b p, simple pmin -> simple pmax ->
  new_param (Uniform rng pmin pmax None) name = Ok p ->
  keyword name "pmin" pmin params = Some (PNum (Fin a)) -> keyword name "pmax" pmax params = Some (PNum (Fin b)) -> (a < b)%R ->
  forall x, ((a <= x <= b)%R -> get_logpdf p (PNum (Fin x)) [] (Some params) = Ok (PNum (Fin (- ln (b - a))))) /\
            ((x < a)%R \/ (b < x)%R -> get_logpdf p (PNum (Fin x)) [] (Some params) = Ok (PNum MInf)).
Proof. exact uniform_scalar_lem. Qed.
Print Assumptions uniform_scalar.
(** Bounds that do not bound an interval: equal ones raise, exchanged ones do not and make
    every value impossible. *)
Theorem uniform_bounds : forall rng pmin pmax name params a b p, simple pmin -> simple pmax ->
  new_param (Uniform rng pmin pmax None) name = Ok p ->
  keyword name "pmin" pmin params = Some (PNum (Fin a)) -> keyword name "pmax" pmax params = Some (PNum (Fin b)) ->
  forall x, (a = b -> get_logpdf p (PNum (Fin x)) [] (Some params) = Err ZeroDivisionError /\ get_pdf p (PNum (Fin x)) [] (Some params) = Err ZeroDivisionError) /\
            ((b < a)%R -> get_logpdf p (PNum (Fin x)) [] (Some params) = Ok (PNum MInf) /\ get_pdf p (PNum (Fin x)) [] (Some params) = Ok (PNum (Fin 0))).
Proof. exact uniform_bounds_lem. Qed.
Print Assumptions uniform_bounds.
Theorem uniform_vector : forall rng pmin pmax n name params l la lb p, simple pmin -> simple pmax ->
  new_param (Uniform rng pmin pmax (Some n)) name = Ok p ->
  bound (keyword name "pmin" pmin params) (length l) la -> bound (keyword name "pmax" pmax params) (length l) lb ->
  Forall (fun ab => (fst ab < snd ab)%R) (combine la lb) ->
  (Forall2 inside l (combine la lb) -> get_logpdf p (PArr (map Fin l)) [] (Some params) = Ok (PNum (Fin (- log_widths la lb)))) /\
  (~ Forall2 inside l (combine la lb) -> get_logpdf p (PArr (map Fin l)) [] (Some params) = Ok (PNum MInf)).
Proof. exact uniform_vector_lem. Qed.
Print Assumptions uniform_vector.
Theorem uniform_vector_bounds : forall rng pmin pmax n name params l la lb p, simple pmin -> simple pmax ->
  new_param (Uniform rng pmin pmax (Some n)) name = Ok p ->
  bound (keyword name "pmin" pmin params) (length l) la -> bound (keyword name "pmax" pmax params) (length l) lb ->
  Exists (fun ab => fst ab = snd ab) (combine la lb) -> get_logpdf p (PArr (map Fin l)) [] (Some params) = Ok (PNum NaN).
Proof. exact uniform_vector_bounds_lem. Qed.
Print Assumptions uniform_vector_bounds.
Theorem uniform_quantiles : forall rng pmin pmax size name params a b p, simple pmin -> simple pmax ->
  new_param (Uniform rng pmin pmax size) name = Ok p ->
  keyword name "pmin" pmin params = Some (PNum (Fin a)) -> keyword name "pmax" pmax params = Some (PNum (Fin b)) -> (a < b)%R ->
  (forall q, (0 <= q <= 1)%R -> get_ppf p (PNum (Fin q)) [] (Some params) = Ok (PNum (Fin (a + (b - a) * q)))) /\
  (forall l, Forall (fun q => (0 <= q <= 1)%R) l -> get_ppf p (PArr (map Fin l)) [] (Some params) = Ok (PArr (map (fun q => Fin (a + (b - a) * q)) l))).
Proof. exact uniform_quantiles_lem. Qed.
Print Assumptions uniform_quantiles.
Theorem uniform_sampling : forall rng pmin pmax size name params p, simple pmin -> simple pmax ->
  new_param (Uniform rng pmin pmax size) name = Ok p ->
  (forall va vb, keyword name "pmin" pmin params = Some va -> keyword name "pmax" pmax params = Some vb ->
    sample_par p [] (Some params) = rng va vb (match size with None => PNone | Some n => PNum (Fin (INR n)) end)) /\
  (keyword name "pmin" pmin params = None \/ keyword name "pmax" pmax params = None ->
    sample_par p [] (Some params) = Err TypeError /\
    (forall v, v <> PNone -> get_logpdf p v [] (Some params) = Err TypeError /\ get_pdf p v [] (Some params) = Err TypeError /\
                             get_ppf p v [] (Some params) = Err TypeError)).
Proof. exact uniform_sampling_lem. Qed.
Print Assumptions uniform_sampling.
Theorem resample : forall rng pmin pmax size name params v p, simple pmin -> simple pmax -> separate pmin name -> separate pmax name -> name <> "" ->
  new_param (Uniform rng pmin pmax size) name = Ok p ->
  sample_par p [] (Some (dset string_dec params name v)) = sample_par p [] (Some params) /\
  (forall kw prm, In name (dkeys kw) -> sample_par p kw prm = Err ValueError).
Proof. exact resample_lem. Qed.
Print Assumptions resample.

(** Samplers are called with the keywords of the density and the size. *)
Theorem sampler_keywords : forall f kws logprior g ppf size name params p d,
  new_param (UserParameter (Some (FC f "" kws)) logprior (Some g) ppf size) name = Ok p ->
  NoDup (dkeys kws) -> (forall k a, In (k, a) kws -> simple a) -> NoDup (dkeys d) ->
  (forall k, dget string_dec d k =
    if string_dec k "size" then Some (match size with None => PNone | Some n => PNum (Fin (INR n)) end)
    else match dget string_dec kws k with Some a => keyword name k a params | None => None end) ->
  sample_par p [] (Some params) = call_py g [] d.
Proof. exact sampler_keywords_lem. Qed.
Print Assumptions sampler_keywords.
Theorem sampler_size : forall p g kw params, pm_sampler p = Some g -> ~ In "size" (pf_args g) ->
  (forall v, sample_par p kw params <> Ok v).
Proof. exact sampler_size_lem. Qed.
Print Assumptions sampler_size.
(** Hence not, as documented, with the arguments of the density. *)
Theorem same_arguments_refuted : exists prior sampler name p,
  new_param (UserParameter (Some (FC prior "" [("a", AVal (PNum (Fin 1)))])) None (Some sampler) None None) name = Ok p /\
  pf_args sampler = pf_args prior /\ (exists v, call_py sampler [PNum (Fin 3)] [("a", PNum (Fin 1))] = Ok v) /\
  sample_par p [] None = Err TypeError.
Proof. exact same_arguments_refuted_lem. Qed.
Print Assumptions same_arguments_refuted.
(** The length of a vector is not checked. *)
Theorem vector_length_refuted : exists rng n name p l x, n <> length l /\
  new_param (Uniform rng (AVal (PNum (Fin 0))) (AVal (PNum (Fin 1))) (Some n)) name = Ok p /\
  get_logpdf p (PArr (map Fin l)) [] None = Ok (PNum (Fin 0)) /\ get_logpdf p (PNum (Fin x)) [] None = Ok (PNum (Fin 0)).
Proof. exact vector_length_refuted_lem. Qed.
Print Assumptions vector_length_refuted.

Example pdf_logpdf_ex : let p := uniform_par (fun _ _ _ => Ok PNone) (AParC (FC UniformPrior_py "" [])) (AVal (PArr [Fin 2; Fin 3])) (Some 2) "x" in
  proper p PNone [] (Some [("x", PArr [Fin 1; Fin 5]); ("x_pmin", PNum (Fin 0))]).
Proof.
  intros p v d e; injection e as <-; cbn -[uniform1]; intros e; injection e as <-; cbn [each]; apply Forall_cons; [|apply Forall_cons; [|apply Forall_nil]]; unfold density.
  - exists (/ 2)%R; split; [|lra]; transitivity (uniform1 (Fin 1) (Fin 0) (Fin 2)); [reflexivity|]; rewrite uniform1_in by lra; f_equal; field.
  - exists 0%R; split; [|lra]; transitivity (uniform1 (Fin 5) (Fin 0) (Fin 3)); [reflexivity|]; now rewrite uniform1_out by lra.
Qed.
Example uniform_scalar_ex : let pmin := AParC (FC UniformPrior_py "" []) in let pmax := ACstC (fun _ => PNum (Fin 3)) in
  let params := [("x", PNum (Fin 1)); ("x_pmin", PNum (Fin 0))] in
  simple pmin /\ simple pmax /\ keyword "x" "pmin" pmin params = Some (PNum (Fin 0)) /\ keyword "x" "pmax" pmax params = Some (PNum (Fin 3)) /\ (0 < 3)%R.
Proof. repeat split; lra. Qed.
Example uniform_vector_ex : let pmin := AParC (FC UniformPrior_py "" []) in let pmax := AVal (PArr [Fin 2; Fin 3]) in
  let params := [("x_pmin", PNum (Fin 0))] in
  bound (keyword "x" "pmin" pmin params) 2 [0%R; 0%R] /\ bound (keyword "x" "pmax" pmax params) 2 [2%R; 3%R] /\
  Forall (fun ab => (fst ab < snd ab)%R) (combine [0%R; 0%R] [2%R; 3%R]) /\
  Forall2 inside [1%R; 2%R] (combine [0%R; 0%R] [2%R; 3%R]) /\ ~ Forall2 inside [1%R; 5%R] (combine [0%R; 0%R] [2%R; 3%R]).
Proof.
  repeat apply conj; [left; exists 0%R; split; reflexivity|right; split; reflexivity|..].
  - repeat constructor; cbn; lra.
  - repeat constructor; cbn; lra.
  - intros w; inversion w as [|? ? ? ? _ w']; subst; inversion w' as [|? ? ? ? i _]; subst; unfold inside in i; cbn in i; lra.
Qed.
Example sampler_keywords_ex : exists p, new_param (UserParameter (Some (FC UniformPrior_py "" [("pmin", AVal (PNum (Fin 1))); ("pmax", AParC (FC UniformPrior_py "" []))]))
    None (Some (UniformSampler_py (fun a b n => Ok b))) None (Some 2)) "x" = Ok p /\
  sample_par p [] (Some [("x_pmax", PNum (Fin 7))]) = Ok (PNum (Fin 7)).
Proof. eexists; split; reflexivity. Qed.
