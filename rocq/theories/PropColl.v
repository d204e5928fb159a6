(** C113: an array's answers do not depend on what was evaluated before. *)
From Coq Require Import String Bool Arith List Reals.
From Verif Require Import PyBase ModelSelect ModelFunc ModelCache ModelGp ProofGp ModelColl ProofColl ModelSigs ProofSigs ProofCollEx.
Import ListNotations.
Open Scope nat_scope.
Open Scope string_scope.
Open Scope list_scope.

(** C113: for any signals that give their right answers in every state they may be in,
    and whose answers depend on the parameters they declare for their type: a program of
    likelihoods, methods of collections and methods of signals gets for each question
    what the signals' right answers give for the parameters of this question. [op] is any
    arithmetic, [dom] the parameters in use. *)
Theorem array_history : forall (St N D F I P Ph C X Y Q L LS : Type) (op : ops St N D F I P Ph C X Y Q L LS) (dom : params R -> Prop)
  (v_cross : nat -> nat * nat -> nat * nat -> params R -> result C),
  (forall p, dom p -> flat_values p) -> dom [] ->
  forall (a : list (coll St N D F P * list (beh St N D F P))) (sss : list (list St)) (l : list ask) (rs : list (ans N D F P Ph X Y L)),
  Forall (sound_coll dom) a -> sound_commons op v_cross a -> Forall2 (fun c ss => Forall2 b_inv (snd c) ss) a sss ->
  Forall2 (fun q r => dom (ask_params q) /\ v_ask op v_cross a q = Ok r) l rs ->
  run op (map fst a) l (new_pta sss) = map Ok rs.
Proof. exact array_history_lem. Qed.
Print Assumptions array_history.

(** C113: for the signals of enterprise: white noise, deterministic signals, Gaussian
    processes, marginalised or with sampled coefficients, and common processes. Right is
    what each signal answers when it is asked first. *)
Theorem signals_history : forall (I Ph X Y Q L LS : Type) (op : ops sst (list R) dval fmat I sprior Ph gv X Y Q L LS) (fns : nat -> fob * fob)
  (a : list (list desc * dval)) (l : list ask) rs,
  (forall cls s s' p, phicross op cls s s' p = common_cross fns cls s s' p) ->
  (forall c d, In c a -> In d (fst c) -> made fns d) ->
  Forall2 (fun q r => fair (map fst a) (ask_params q) /\
    v_ask op (cross_of fns (map fst a)) (map (fun c => (coll_of fns c, map (alone fns) (fst c))) a) q = Ok r) l rs ->
  run op (map (coll_of fns) a) l (new_pta (map (fun c => map start_of (fst c)) a)) = map Ok rs.
Proof. exact signals_history_lem. Qed.
Print Assumptions signals_history.
(** Two pulsars, each with white noise, a deterministic signal and a common process: any
    sequence of likelihoods, for all values of the parameters *)
Example signals_history_example : forall l : list (R * R * (R * R)),
  run (formal x_fns) (map (coll_of x_fns) x_array) (map (fun q => ALike "cliques" (x_p (fst (fst q)) (snd (fst q)) (fst (snd q)) (snd (snd q)))) l) (starts x_array) =
  map (fun q => Ok (RLike (x_val q))) l.
Proof. exact x_history. Qed.

(** C113, false: after a question that raised an exception. The basis of the second
    selection of a Gaussian process raises, and the likelihood of parameters for which it
    was evaluated before raises KeyError from then on. *)
Theorem array_exception_refuted : exists fns a p p' r,
  (forall c d, In c a -> In d (fst c) -> made fns d) /\ fair (map fst a) p /\ fair (map fst a) p' /\ right_like fns a p r /\
  run (formal fns) (map (coll_of fns) a) [ALike "cliques" p; ALike "cliques" p'; ALike "cliques" p] (starts a) = [Ok (RLike r); Err ValueError; Err KeyError].
Proof. exact array_exception_refuted_lem. Qed.
Print Assumptions array_exception_refuted.

(** C113, false: with values in the parameters for constants. The first likelihood is
    returned for all values. *)
Theorem array_constant_refuted : exists fns a p p' r r',
  (forall c d, In c a -> In d (fst c) -> made fns d) /\ flat_values p /\ flat_values p' /\ right_like fns a p r /\ right_like fns a p' r' /\ r <> r' /\
  run (formal fns) (map (coll_of fns) a) [ALike "cliques" p; ALike "cliques" p'] (starts a) = [Ok (RLike r); Ok (RLike r)].
Proof. exact array_constant_refuted_lem. Qed.
Print Assumptions array_constant_refuted.

(** C113, false: with sampled coefficients on a basis whose parameters vary. The delay of
    the collection is kept under the coefficients alone. *)
Theorem array_sampled_refuted : exists priorfn basisfn name psrname psr masks g s,
  NoDup (dkeys masks) /\ no_functions basisfn /\ new_gp priorfn basisfn true name psrname psr masks = Ok (g, s) /\
  let a := [([DSampled g s true], DArr [])] in exists p p' r r',
  fair (map fst a) p /\ fair (map fst a) p' /\ r <> r' /\
  run (formal x_fns) (map (coll_of x_fns) a) [AColl 0 WDelay p; AColl 0 WDelay p'] (starts a) = [Ok (RDelay r); Ok (RDelay r)] /\
  run (formal x_fns) (map (coll_of x_fns) a) [AColl 0 WDelay p'] (starts a) = [Ok (RDelay r')].
Proof. exact array_sampled_refuted_lem. Qed.
Print Assumptions array_sampled_refuted.
