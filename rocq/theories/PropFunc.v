(** Parameter functions: how their arguments are resolved, named and listed.
    Only theorem statements live here; the proofs are in ProofFunc.v. *)
From Coq Require Import String Bool Arith List.
From Verif Require Import PyBase ModelFunc ProofFunc.
Import ListNotations.
Open Scope string_scope.
Open Scope list_scope.

(** C60: a call passes on, for each keyword, what [resolve] says: the explicit
    value, else the entry of [params] under the parameter's name, else the
    constant's value, else the default, else the value of the nested function;
    and fails if a nested function fails. Keywords of nested functions are
    distinct from those of the function ([apart]; see C61). *)
Theorem function_call :
  forall (V : Type) (attr : V -> string -> option V) (masked : V -> V -> V) (f : pyfun V) fname kws name psr kw params args func,
  NoDup (dkeys kws) -> NoDup (dkeys kw) -> apart (FC f fname kws) name psr ->
  (forall k o, named fname kws name psr k o -> ~ In k (dkeys kw) ->
    exists v, call attr masked o [] (only (fo_kws o) kw) params None = Ok v) ->
  (exists d, NoDup (dkeys d) /\ forall k, dget string_dec d k = resolve attr masked (FC f fname kws) name psr kw params k) /\
  (forall d, NoDup (dkeys d) -> (forall k, dget string_dec d k = resolve attr masked (FC f fname kws) name psr kw params k) ->
    call attr masked (inst (FC f fname kws) name psr) args kw params func =
    match func with Some g => call_py g args d | None => sel_call attr masked f args d end).
Proof. exact function_call_lem. Qed.
Print Assumptions function_call.
Theorem function_call_raises :
  forall (V : Type) (attr : V -> string -> option V) (masked : V -> V -> V) (f : pyfun V) fname l1 k a l2 name psr kw params args func o e,
  let kws := l1 ++ (k, a) :: l2 in
  NoDup (dkeys kws) -> apart (FC f fname kws) name psr ->
  nested_of name fname psr k a = Some o -> ~ In k (dkeys kw) ->
  call attr masked o [] (only (fo_kws o) kw) params None = Err e ->
  (forall k o, named fname l1 name psr k o -> ~ In k (dkeys kw) ->
    exists v, call attr masked o [] (only (fo_kws o) kw) params None = Ok v) ->
  call attr masked (inst (FC f fname kws) name psr) args kw params func = Err e.
Proof. exact function_call_raises_lem. Qed.
Print Assumptions function_call_raises.
Example function_call_satisfiable :
  NoDup (dkeys ex_kws) /\ apart (FC ex_f "" ex_kws) "x" (Some 0) /\
  call demo_attr no_mask (inst (FC ex_f "" ex_kws) "x" (Some 0)) [] [("e", 7)] [("x_a", 2); ("x_s_b", 3); ("x_c", 8)] None = Ok (1 + 10 * 2 + 100 * (1 + 3 * 3) + 8 + 7) /\
  call demo_attr no_mask (inst (FC ex_f "" ex_kws) "x" (Some 0)) [] [] [("x_a", 2); ("x_s_b", 3)] None = Ok (1 + 10 * 2 + 100 * (1 + 3 * 3) + 4 + 5) /\
  call demo_attr no_mask (inst (FC ex_f "" ex_kws) "x" (Some 0)) [] [] [("x_a", 2)] None = Err TypeError.
Proof. split; [exact ex_nodup|]. split; [exact ex_apart|]. repeat split; reflexivity. Qed.

(** C61: keywords of nested functions are not kept apart. An outer parameter is
    replaced by a nested one of the same keyword; given the other way round, the
    nested parameter is missing from the function's parameters, so that the
    function cannot be evaluated with values for those; and a nested default is
    replaced by the outer value. With distinct keywords every nested parameter is
    listed. *)
Theorem nested_takes_outer_refuted :
  exists (f g : pyfun nat) (prior : fclass nat) (params : dict string nat),
  let c := FC f "" [("a", AParC prior); ("s", AFunC (FC g "" [("a", AParC prior)]))] in
  let o := inst c "x" None in
  dget string_dec params "x_a" = Some 1 /\ dget string_dec params "x_s_a" = Some 2 /\
  pf_args f = ["a"; "s"] /\ (forall u v, pf_body f [u; v] = Ok u) /\
  call no_attr no_mask o [] [] params None = Ok 2 /\
  ~ In "x_a" (map (@par_name nat) (fo_pars o)).
Proof. exact nested_takes_outer_refuted_lem. Qed.
Print Assumptions nested_takes_outer_refuted.
Theorem nested_unlisted_refuted :
  exists (f g : pyfun nat) (prior : fclass nat),
  let c := FC f "" [("s", AFunC (FC g "" [("a", AParC prior)])); ("a", AParC prior)] in
  let o := inst c "x" None in
  (forall params, (forall n, In n (dkeys params) <-> In n (map (@par_name nat) (fo_pars o))) ->
    call no_attr no_mask o [] [] params None = Err TypeError) /\
  call no_attr no_mask o [] [] [("x_a", 1); ("x_s_a", 2)] None = Ok 2.
Proof. exact nested_unlisted_refuted_lem. Qed.
Print Assumptions nested_unlisted_refuted.
Theorem outer_replaces_nested_refuted :
  exists (f g : pyfun nat) (prior : fclass nat) (params : dict string nat),
  let c := FC f "" [("a", AParC prior); ("s", AFunC (FC g "" [("a", AVal 5)]))] in
  pf_args f = ["a"; "s"] /\ (forall u v, pf_body f [u; v] = Ok v) /\
  call no_attr no_mask (inst (FC g "" [("a", AVal 5)]) "x_s" None) [] [] params None = Ok 5 /\
  call no_attr no_mask (inst c "x" None) [] [] params None = Ok 1.
Proof. exact outer_replaces_nested_refuted_lem. Qed.
Print Assumptions outer_replaces_nested_refuted.
Theorem nested_listed :
  forall (V : Type) (f : pyfun V) fname l1 k a l2 name psr o,
  let kws := l1 ++ (k, a) :: l2 in
  NoDup (dkeys kws) -> apart (FC f fname kws) name psr ->
  nested_of name fname psr k a = Some o -> NoDup (dkeys (fo_params o)) ->
  (forall k' a' o', In (k', a') (l1 ++ l2) -> nested_of name fname psr k' a' = Some o' ->
    forall x, In x (dkeys (fo_params o)) -> ~ In x (dkeys (fo_params o'))) ->
  (forall x p, dget string_dec (fo_params o) x = Some p -> dget string_dec (fo_params (inst (FC f fname kws) name psr)) x = Some p) /\
  incl (fo_pars o) (fo_pars (inst (FC f fname kws) name psr)).
Proof. exact nested_listed_lem. Qed.
Print Assumptions nested_listed.
Example nested_listed_satisfiable :
  map (@par_name nat) (fo_pars (inst (FC ex_f "" ex_kws) "x" (Some 0))) = ["x_a"; "x_s_b"].
Proof. reflexivity. Qed.
Theorem function_parameters : forall (V : Type) (o : fobj V) q, In q (fo_pars o) <-> depends o q.
Proof. exact function_parameters_lem. Qed.
Print Assumptions function_parameters.
Example function_parameters_satisfiable :
  map (@par_name nat) (fo_pars (inst (FC ex_f "" [("a", AParC (FC ex_f "" [("b", AParC (FC ex_f "" []))]))]) "x" None)) = ["x_a"; "x_a_b"].
Proof. reflexivity. Qed.

(** C62: parameter names. Across nesting levels two parameters can get the same
    name. *)
Theorem function_names :
  forall (V : Type) (f : pyfun V) fname kws name psr, NoDup (dkeys kws) -> apart (FC f fname kws) name psr ->
  let o := inst (FC f fname kws) name psr in
  fo_name o = us_name [name; fname] /\ fo_psr o = psr /\
  (forall k prior, In (k, AParC prior) kws -> exists p, dget string_dec (fo_params o) k = Some p /\ par_name p = us_name [name; fname; k] /\ par_value p = None /\ In p (fo_pars o)) /\
  (forall k v, In (k, ACstC v) kws -> dget string_dec (fo_params o) k = Some (Cst (us_name [name; fname; k]) (v (us_name [name; fname; k])))) /\
  (forall k p, In (k, AInst p) kws -> dget string_dec (fo_params o) k = Some p) /\
  (forall k k' p p', k <> "" -> k' <> "" -> (exists q, In (k, AParC q) kws) -> (exists q, In (k', AParC q) kws) ->
    dget string_dec (fo_params o) k = Some p -> dget string_dec (fo_params o) k' = Some p' -> par_name p = par_name p' -> k = k').
Proof. exact function_names_lem. Qed.
Print Assumptions function_names.
Theorem us_name_form :
  forall a b c, a <> "" -> b <> "" -> c <> "" ->
  us_name [a; b; c] = (a ++ "_" ++ b ++ "_" ++ c)%string /\ us_name [a; ""; c] = (a ++ "_" ++ c)%string /\
  us_name [""; b; c] = (b ++ "_" ++ c)%string /\ us_name [""; ""; c] = c /\ us_name [a; b] = (a ++ "_" ++ b)%string /\ us_name [a; ""] = a.
Proof. exact us_name_form_lem. Qed.
Print Assumptions us_name_form.
Theorem function_names_nested_refuted :
  exists (f g : pyfun nat) (prior : fclass nat),
  let o := inst (FC f "" [("a_b", AParC prior); ("a", AFunC (FC g "" [("b", AParC prior)]))]) "x" None in
  exists p q, dget string_dec (fo_params o) "a_b" = Some p /\ dget string_dec (fo_params o) "b" = Some q /\ par_name p = par_name q /\ par_value p = None /\ par_value q = None.
Proof. exact function_names_nested_refuted_lem. Qed.
Print Assumptions function_names_nested_refuted.
Example function_names_satisfiable :
  NoDup (dkeys ex_kws) /\ apart (FC ex_f "" ex_kws) "x" (Some 0) /\ In ("a", AParC flat) ex_kws /\ In ("c", ACstC (fun _ => 4)) ex_kws.
Proof. split; [exact ex_nodup|]. split; [exact ex_apart|]. split; [now left|]. right; right; now left. Qed.

(** C64: the decorator; keywords can be given first and arguments later. *)
Theorem decorator_result :
  forall (V : Type) (f : pyfun V) args kws,
  (forall kv, supplied f args kws -> numeric kws kv -> decorated f args kws = inl (call_py f args kv)) /\
  (~ supplied f args kws \/ (forall kv, ~ numeric kws kv) -> decorated f args kws = inr (FC f "" kws)).
Proof. exact decorated_lem. Qed.
Print Assumptions decorator_result.
Theorem currying :
  forall (V : Type) (attr : V -> string -> option V) (masked : V -> V -> V) (f : pyfun V) kv name args kw params,
  NoDup (dkeys kv) -> NoDup (dkeys kw) -> incl (dkeys kw) (pf_args f) ->
  ~ In "psr" (dkeys kv ++ dkeys kw) -> ~ In "mask" (dkeys kv ++ dkeys kw) ->
  call attr masked (inst (FC f "" (map (fun x => (fst x, AVal (snd x))) kv)) name None) args kw params None =
  call_py f args (dupdate string_dec kv kw).
Proof. exact currying_lem. Qed.
Print Assumptions currying.
Theorem funcargs_split :
  forall (V : Type) (f : pyfun V),
  fst (get_funcargs f) ++ snd (get_funcargs f) = pf_args f /\
  (length (pf_defs f) <= length (pf_args f) -> length (snd (get_funcargs f)) = length (pf_defs f)).
Proof. exact get_funcargs_lem. Qed.
Print Assumptions funcargs_split.
Example decorated_satisfiable :
  supplied ex_f [1; 2; 3] [("c", AVal 4)] /\ ~ supplied ex_f [1; 2] [("c", AVal 4)] /\
  decorated ex_f [1; 2; 3] [("c", AVal 4)] = inl (Ok (1 + 10 * 2 + 100 * 3 + 4 + 6)).
Proof.
  split; [intros x [<-|[<-|[<-|[<-|[]]]]]; cbn; auto|].
  split; [|reflexivity].
  intros h; destruct (h "s") as [i|i]; [cbn; auto| |]; cbn in i; repeat (destruct i as [i|i]; [discriminate|]); exact i.
Qed.

(** C20: arguments that are not given are taken from the pulsar, selected by the
    mask, if the names that the pulsar has come first; otherwise they go to
    other arguments. *)
Theorem selection_binding :
  forall (V : Type) (attr : V -> string -> option V) (masked : V -> V -> V) (f : pyfun V) args kw p r1 r2 vals,
  NoDup (pf_args f) -> length (pf_defs f) <= length (pf_args f) -> length args <= length (pf_args f) -> NoDup (dkeys kw) ->
  dget string_dec kw "psr" = Some p -> ~ In "mask" (pf_args f) ->
  (forall k, In k (dkeys kw) -> In k (skipn (length args) (pf_args f)) \/ k = "psr" \/ k = "mask") ->
  (In "psr" (pf_args f) -> In "psr" (skipn (length args) (pf_args f))) ->
  skipn (length args) (pf_args f) = r1 ++ r2 ->
  (forall x, In x r1 -> ~ In x (dkeys kw) /\ attr p x <> None) ->
  (forall x, In x r2 -> In x (dkeys kw) \/ attr p x = None) ->
  length vals = length (pf_args f) ->
  (forall i x, nth_error (pf_args f) i = Some x -> nth_error vals i = meant attr masked f args kw p i x) ->
  sel_call attr masked f args kw = pf_body f vals.
Proof. exact selection_binding_lem. Qed.
Print Assumptions selection_binding.
Theorem selection_shift_refuted :
  exists (f : pyfun nat) (p : nat),
  pf_args f = ["toas"; "nmodes"; "freqs"] /\ pf_dflts f = [None; Some 30; Some 7] /\
  (forall a b c, pf_body f [a; b; c] = Ok b) /\
  demo_attr p "nmodes" = None /\ demo_attr p "freqs" = Some 2 /\
  sel_call demo_attr no_mask f [] [("psr", p)] = Ok 2.
Proof. exact selection_shift_refuted_lem. Qed.
Print Assumptions selection_shift_refuted.
Example selection_binding_satisfiable :
  sel_call demo_attr (fun m v => 10 * v) ex_f [] [("a", 2); ("s", 3); ("c", 4); ("psr", 0); ("mask", 0)] = Ok (10 + 10 * 2 + 100 * 3 + 4 + 6).
Proof. reflexivity. Qed.
