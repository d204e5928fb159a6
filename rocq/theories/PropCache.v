(** Properties C01-C07 and C87: the caching decorators. *)
From Coq Require Import String Bool Arith Lia List ZArith.
From Verif Require Import PyBase ModelCache ProofCache ProofCacheProps.
Import ListNotations.
Open Scope string_scope.
Open Scope list_scope.

(** C01: Cached evaluations are transparent. *)
Theorem cache_transparent :
  forall (num : Type) (num_eq_dec : forall x y : num, {x = y} + {x <> y})
    (S B : Type) (names : list string) (limit : nat)
    (func : params num -> S -> S * result B) (val : params num -> option B),
    (* a successful evaluation gives [val], which depends on the named parameters only *)
    (forall p s v, snd (func p s) = Ok v -> val p = Some v) ->
    (forall p p', (forall n, In n names -> dget string_dec p n = dget string_dec p' n) -> val p = val p') ->
    forall (h : list (event S)) (s0 : S) (r : crec S B) (v : B),
      In r (snd (crun num_eq_dec names limit func h (cempty, s0))) ->
      r_out r = Ok v ->
      val (r_params r) = Some v /\
      (forall s w, snd (func (r_params r) s) = Ok w -> w = v).
Proof. exact cache_transparent_lem. Qed.
Print Assumptions cache_transparent.

(** A method that depends on "x", fails for x = 0 and until the object is
    ready, on a history with a failing call, a hit and an eviction. *)
Example cache_transparent_example :
  let val p := match dget string_dec p "x" with Some (Sc 0%Z) => None | Some (Sc x) => Some (x * x)%Z | _ => None end in
  let func p (s : bool) := (s, if s then match val p with Some v => Ok v | None => Err ValueError end else Err TypeError) in
  (forall p s v, snd (func p s) = Ok v -> val p = Some v) /\
  (forall p p', (forall n, In n ["x"] -> dget string_dec p n = dget string_dec p' n) -> val p = val p') /\
  map r_out (snd (crun Z.eq_dec ["x"] 2 func
    [Call (zp [("x", 7%Z)]); Touch (fun _ => true); Call (zp [("x", 2%Z)]); Call (zp [("x", 0%Z)]);
     Call (zp [("y", 5%Z); ("x", 2%Z)]); Call (zp [("x", 3%Z)]); Call (zp [("x", 4%Z)]); Call (zp [("x", 2%Z)])]
    (cempty, false)))
  = [Err TypeError; Ok 4%Z; Err ValueError; Ok 4%Z; Ok 9%Z; Ok 16%Z; Ok 4%Z].
Proof.
  split; [|split].
  - intros p [|] v; simpl; [|discriminate].
    destruct (dget string_dec p "x") as [[[]| |]|]; simpl; congruence.
  - intros p p' H. rewrite (H "x") by now left. reflexivity.
  - vm_compute. reflexivity.
Qed.

Theorem cache_returns_when_nothing_raises :
  forall (num : Type) (num_eq_dec : forall x y : num, {x = y} + {x <> y})
    (S B : Type) (names : list string) (limit : nat)
    (func : params num -> S -> S * result B),
    0 < limit ->
    (forall p s, exists v, snd (func p s) = Ok v) ->
    forall (h : list (event S)) (s0 : S) (r : crec S B),
      In r (snd (crun num_eq_dec names limit func h (cempty, s0))) ->
      is_ok (r_out r) = is_ok (cache_key num names (r_params r)).
Proof. exact cache_returns_when_nothing_raises_lem. Qed.
Print Assumptions cache_returns_when_nothing_raises.

Example cache_returns_when_nothing_raises_example :
  let func (p : params Z) (s : unit) := (s, Ok (length p)) in
  (forall p s, exists v, snd (func p s) = Ok v) /\
  map r_out (snd (crun Z.eq_dec ["x"] 1 func [Call (zp [("x", 1%Z)]); Call (zp [("x", 2%Z)])] (cempty, tt))) = [Ok 1; Ok 1].
Proof. split; [intros; eexists; reflexivity|vm_compute; reflexivity]. Qed.

(** C02: A cached method keeps at most its limit of results. *)
Theorem cache_bound :
  forall (num : Type) (num_eq_dec : forall x y : num, {x = y} + {x <> y})
    (S B : Type) (names : list string) (limit : nat)
    (func : params num -> S -> S * result B),
    0 < limit ->
    forall (h : list (event S)) (s0 : S) (o : cstate B * S) (rs : list (crec S B)),
      crun num_eq_dec names limit func h (cempty, s0) = (o, rs) ->
      (forall r, In r rs -> r_eval r = true -> is_ok (r_out r) = true) ->
      (* at most [limit] results *)
      length (cmap (fst o)) <= limit /\
      (* one per key, for exactly the last [limit] evaluated keys, which are distinct *)
      dkeys (cmap (fst o)) = lastn limit (eval_keys names rs) /\
      NoDup (dkeys (cmap (fst o))).
Proof. exact cache_bound_lem. Qed.
Print Assumptions cache_bound.

Example cache_bound_example :
  let func (p : params Z) (s : unit) := (s, Ok (length p)) in
  let run := crun Z.eq_dec ["x"] 2 func (map (fun n => Call (zp [("x", n)])) [1; 2; 2; 3; 1]%Z) (cempty, tt) in
  (forall r, In r (snd run) -> r_eval r = true -> is_ok (r_out r) = true) /\
  dkeys (cmap (fst (fst run))) = [xkey 3; xkey 1].
Proof. split; [vm_compute; intuition (subst; reflexivity)|vm_compute; reflexivity]. Qed.

Theorem cache_repeat_hits :
  forall (num : Type) (num_eq_dec : forall x y : num, {x = y} + {x <> y})
    (S B : Type) (names : list string) (limit : nat)
    (func func2 : params num -> S -> S * result B)
    (p p2 : params num) (o o' : cstate B * S) (v : B) (s2 : S),
      cache_call num_eq_dec names limit func p o = (o', Ok v) ->
      (forall n, In n names -> dget string_dec p n = dget string_dec p2 n) ->
      (* the object changed and even the function replaced in between *)
      cache_call num_eq_dec names limit func2 p2 (fst o', s2) = ((fst o', s2), Ok v).
Proof. exact cache_repeat_hits_lem. Qed.
Print Assumptions cache_repeat_hits.

Example cache_repeat_hits_example :
  let func (p : params Z) (s : Z) := (s, Ok s) in
  exists o', cache_call Z.eq_dec ["x"] 2 func (zp [("x", 1%Z)]) (cempty, 5%Z) = (o', Ok 5%Z).
Proof. eexists. vm_compute. reflexivity. Qed.

(** C02: with failing evaluations there is no bound. *)
Theorem cache_bound_with_failures_refuted :
  forall limit : nat, 0 < limit ->
  forall bound : nat, exists h : list (event bool),
    bound < length (cmap (fst (fst (crun Z.eq_dec ["x"] limit needs_ready h (cempty, false))))).
Proof. exact cache_bound_with_failures_refuted_lem. Qed.
Print Assumptions cache_bound_with_failures_refuted.

(** C03: A side-effecting builder cached with limit one. *)
Theorem basis_builder_latest :
  forall (num : Type) (num_eq_dec : forall x y : num, {x = y} + {x <> y}) (F L : Type)
    (bases : list (string * (params num -> result (F * L)))) (names : list string),
    NoDup (map fst bases) ->
    (* the bases depend on the parameters through the names in [basis_params] *)
    (forall kf p p', In kf bases ->
       (forall n, In n names -> dget string_dec p n = dget string_dec p' n) -> snd kf p = snd kf p') ->
    forall (h : list (event (gpstate F L))) (p : params num) (s0 : gpstate F L) o rs,
      crun num_eq_dec names 1 (construct_basis bases) (h ++ [Call p]) (cempty, s0) = (o, rs) ->
      (forall g, ~ In (Touch g) h) ->
      (forall r, In r rs -> r_eval r = true -> is_ok (r_out r) = true) ->
      is_ok (cache_key num names p) = true ->
      gp_built bases p (snd o).
Proof. exact basis_builder_latest_lem. Qed.
Print Assumptions basis_builder_latest.

Example basis_builder_latest_example :
  let run := crun Z.eq_dec ["x"] 1 (construct_basis two_bases)
               ([Call (zp [("x", 1%Z)]); Call (zp [("x", 3%Z)])] ++ [Call (zp [("x", 1%Z)])]) (cempty, GPState [] []) in
  NoDup (map fst two_bases) /\
  (forall kf p p', In kf two_bases ->
     (forall n, In n ["x"] -> dget string_dec p n = dget string_dec p' n) -> snd kf p = snd kf p') /\
  (forall r, In r (snd run) -> r_eval r = true -> is_ok (r_out r) = true) /\
  gp_basis (snd (fst run)) = [("a", 1%Z); ("b", 1%Z)].
Proof.
  split; [repeat constructor; simpl; intuition discriminate|].
  split.
  { intros kf p p' Hin Hp. specialize (Hp "x" (or_introl eq_refl)).
    destruct Hin as [<-|[<-|[]]]; simpl; now rewrite Hp. }
  split; [vm_compute; intuition (subst; reflexivity)|vm_compute; reflexivity].
Qed.

Theorem basis_builder_latest_refuted :
  exists (h : list (event (gpstate Z Z))) (p : params Z) (s0 : gpstate Z Z),
    (forall g, ~ In (Touch g) h) /\
    let run := crun Z.eq_dec ["x"] 1 (construct_basis two_bases) (h ++ [Call p]) (cempty, s0) in
    (* the last call returns normally, but the object does not describe [p] *)
    (exists r, last (snd run) r = CRec p (r_before r) (Ok tt) false /\ In r (snd run)) /\
    ~ gp_built two_bases p (snd (fst run)).
Proof. exact basis_builder_latest_refuted_lem. Qed.
Print Assumptions basis_builder_latest_refuted.

(** C04: Fixing constants takes effect on later evaluations. *)
Theorem constants_set_before_use_partial :
  forall (num : Type) (num_eq_dec : forall x y : num, {x = y} + {x <> y}) (B : Type)
    (names : list string) (limit : nat) (body : (string -> option (pyval num)) -> result B)
    (consts : dict string (option (pyval num))) (qs : list (params num)) (ps : list (params num)),
    (* [body] reads the varying parameters in [names] and the constants *)
    (forall f g, (forall n, In n names \/ In n (dkeys consts) -> f n = g n) -> body f = body g) ->
    (* the dictionaries passed later do not override constants *)
    (forall p n, In p ps -> In n (dkeys consts) -> ~ In n names -> dget string_dec p n = None) ->
    forall r v,
      In r (snd (crun num_eq_dec names limit (reads_get body)
                  (map (fun q => Touch (set_defaults q)) qs ++ map Call ps) (cempty, consts))) ->
      r_out r = Ok v -> body (current (r_params r) qs consts) = Ok v.
Proof. exact constants_set_before_use_lem. Qed.
Print Assumptions constants_set_before_use_partial.

Example constants_set_before_use_example :
  let consts : dict string (option (pyval Z)) := [("efac", None)] in
  (forall f g, (forall n, In n ["eq"] \/ In n (dkeys consts) -> f n = g n) -> const_body f = const_body g) /\
  map r_out (snd (crun Z.eq_dec ["eq"] 2 (reads_get const_body)
     (map (fun q => Touch (set_defaults q)) [zp [("efac", 4%Z)]] ++ map Call [zp [("eq", 1%Z)]; zp []]) (cempty, consts)))
  = [Ok 4%Z; Ok 4%Z].
Proof.
  split.
  - intros f g H. unfold const_body. rewrite (H "efac"); auto. right. now left.
  - vm_compute. reflexivity.
Qed.

Theorem constants_used_on_miss_partial :
  forall (num : Type) (num_eq_dec : forall x y : num, {x = y} + {x <> y}) (B : Type)
    (names : list string) (limit : nat) (body : (string -> option (pyval num)) -> result B)
    (p : params num) (c : cstate B) (consts : dict string (option (pyval num))) (qs : list (params num)) (v : B),
    (forall f g, (forall n, f n = g n) -> body f = body g) ->
    NoDup (dkeys (cmap c)) ->
    would_eval num_eq_dec names p c = true ->
    (* the constants were set by [qs], whenever that was *)
    snd (cache_call num_eq_dec names limit (reads_get body) p
           (c, fold_left (fun cs q => set_defaults q cs) qs consts)) = Ok v ->
    body (current p qs consts) = Ok v.
Proof. exact constants_used_on_miss_lem. Qed.
Print Assumptions constants_used_on_miss_partial.

Example constants_used_on_miss_example :
  would_eval Z.eq_dec ["eq"] (zp [("eq", 1%Z)]) (cempty : cstate Z) = true /\
  snd (cache_call Z.eq_dec ["eq"] 2 (reads_get const_body) (zp [("eq", 1%Z)]) (cempty, [("efac", Some (Sc 4%Z))])) = Ok 4%Z.
Proof. split; reflexivity. Qed.

Theorem constants_take_effect_refuted :
  exists (consts : dict string (option (pyval Z))) (q : params Z) (p : params Z),
    let run := crun Z.eq_dec [] 2 (reads_get const_body)
                 [Call p; Touch (set_defaults q); Call p] (cempty, consts) in
    exists r old new, nth_error (snd run) 1 = Some r /\ r_out r = Ok old /\
      const_body (current p [q] consts) = Ok new /\ old <> new.
Proof. exact constants_take_effect_refuted_lem. Qed.
Print Assumptions constants_take_effect_refuted.

(** C05: Cached results are not changed by later calls. *)
Theorem shared_array_on_miss_partial :
  forall (num : Type) (num_eq_dec : forall x y : num, {x = y} + {x <> y}) (A : Type)
    (names : list string) (limit : nat) (wf : params num -> A) (p : params num) (o : cstate unit * A),
    NoDup (dkeys (cmap (fst o))) ->
    would_eval num_eq_dec names p (fst o) = true ->
    (* when the call evaluates, the returned reference shows the delay at [p] *)
    shared_read (fst (cache_call num_eq_dec names limit (shared_write wf) p o)) = wf p.
Proof. exact shared_array_same_key_lem. Qed.
Print Assumptions shared_array_on_miss_partial.

Example shared_array_on_miss_example :
  would_eval Z.eq_dec ["a"] (zp [("a", 1%Z)]) (cempty : cstate unit) = true.
Proof. reflexivity. Qed.

Theorem cached_results_change_refuted :
  (* one signal: the second of three results read through the reference, and the
     first result re-read later *)
  (exists (wf : params Z -> Z) (p1 p2 : params Z) (s0 : Z),
     (forall p p', dget string_dec p "a" = dget string_dec p' "a" -> wf p = wf p') /\
     let o1 := fst (cache_call Z.eq_dec ["a"] 2 (shared_write wf) p1 (cempty, s0)) in
     let o2 := fst (cache_call Z.eq_dec ["a"] 2 (shared_write wf) p2 o1) in
     let (o3, r3) := cache_call Z.eq_dec ["a"] 2 (shared_write wf) p1 o2 in
     shared_read o1 = wf p1 /\ r3 = Ok tt /\ shared_read o3 <> wf p1) /\
  (* a collection: the third delay is not the sum of the signals' delays *)
  (exists (wf g : params Z -> Z) (p1 p2 p3 : params Z) (s0 : Z),
     (forall p p', dget string_dec p "a" = dget string_dec p' "a" -> wf p = wf p') /\
     (forall p p', dget string_dec p "b" = dget string_dec p' "b" -> g p = g p') /\
     let call := ephem_coll_delay Z.eq_dec Z.add ["a"] ["b"] wf g in
     let o1 := fst (call p1 (cempty, (cempty, s0))) in
     let o2 := fst (call p2 o1) in
     exists d, snd (call p3 o2) = Ok d /\ d <> (wf p3 + g p3)%Z).
Proof. exact cached_results_change_refuted_lem. Qed.
Print Assumptions cached_results_change_refuted.

(** C06: Sampled GP coefficients combine with the current basis. *)
Theorem collection_delay_is_sum_partial :
  forall (num : Type) (num_eq_dec : forall x y : num, {x = y} + {x <> y}) (D : Type)
    (zeroD : D) (addD : D -> D -> D) (l : list (csig D)),
    (* every signal's delay depends on what it declares, and basis signals that
       produce a delay have no varying basis parameters; the others give a
       constant delay (python 0 or None) *)
    (forall s, In s l ->
       exists names, (forall p p', (forall n, In n names -> dget string_dec p n = dget string_dec p' n) ->
                        cs_delay s p = cs_delay s p') /\
       match cs_type s with
       | DeterministicT => names = cs_delay_params s
       | BasisT | CommonBasisT => names = (cs_basis_params s ++ cs_delay_params s)%list /\
           (cs_basis_params s = [] \/ forall p p', cs_delay s p = cs_delay s p')
       | _ => names = []
       end) ->
    forall (h : list (event unit)) (r : crec unit D) (v : D),
      In r (snd (crun num_eq_dec (delay_params l) 2
                   (fun p s => (s, delay_sum zeroD addD l p)) h (cempty, tt))) ->
      r_out r = Ok v ->
      (* python's [sum] of the delays of all the signals at these parameters *)
      exists ds, Forall2 (fun s d => cs_delay s (r_params r) = Ok d) l ds /\ v = fold_left addD ds zeroD.
Proof. exact collection_delay_is_sum_lem. Qed.
Print Assumptions collection_delay_is_sum_partial.

Example collection_delay_is_sum_example :
  let s1 := CSig DeterministicT [] [] ["a"]
    (fun p => match dget string_dec p "a" with Some (Sc a) => Ok a | _ => Err KeyError end) in
  let s2 := CSig BasisT [] ["g"] [] (fun _ => Ok 0%Z) in
  map r_out (snd (crun Z.eq_dec (delay_params [s1; s2]) 2
     (fun p s => (s, delay_sum 0%Z Z.add [s1; s2] p))
     [Call (zp [("a", 1%Z); ("g", 1%Z)]); Call (zp [("a", 2%Z); ("g", 7%Z)])] (cempty, tt))) = [Ok 1%Z; Ok 2%Z].
Proof. vm_compute. reflexivity. Qed.

Theorem collection_delay_stale_refuted :
  exists p1 p2 : params Z,
    let o1 := fst (coll_get_delay Z.eq_dec 0%Z Z.add [coeff_gp] p1 (cempty, tt)) in
    exists d d', snd (coll_get_delay Z.eq_dec 0%Z Z.add [coeff_gp] p2 o1) = Ok d /\
      cs_delay coeff_gp p2 = Ok d' /\ d <> d'.
Proof. exact collection_delay_stale_refuted_lem. Qed.
Print Assumptions collection_delay_stale_refuted.

(** C07: Memoisation by identity is transparent for unmodified arguments. *)
Theorem memo_by_id_transparent :
  forall (Obj B : Type) (method : heap Obj -> nat -> result B),
    (* the method reads its argument and the argument's elements, and a
       sequence only through its elements *)
    (forall h1 h2 a, hextends Obj h1 h2 -> live Obj h1 a -> method h1 a = method h2 a) ->
    (forall h a b l, h a = Some (CSeq l) -> h b = Some (CSeq l) -> method h a = method h b) ->
    forall (h0 : heap Obj) (hist : list (heap Obj * nat)),
      (* objects are created but never modified *)
      growing Obj h0 hist ->
      mrun Obj B method hist None = map (fun ha => method (fst ha) (snd ha)) hist.
Proof. exact memo_by_id_transparent_lem. Qed.
Print Assumptions memo_by_id_transparent.

Example memo_by_id_transparent_example :
  let h : heap Z := fun a => match a with 0 => Some (CObj 4%Z) | 1 => Some (CObj 5%Z)
                                 | 2 => Some (CSeq [0; 1]) | 3 => Some (CSeq [0; 1]) | _ => None end in
  (forall h1 h2 a, hextends Z h1 h2 -> live Z h1 a -> mread h1 a = mread h2 a) /\
  (forall h a b l, h a = Some (CSeq l) -> h b = Some (CSeq l) -> mread h a = mread h b) /\
  growing Z h [(h, 2); (h, 3); (h, 0)].
Proof.
  split; [|split].
  - intros h1 h2 a He. unfold live, mread. destruct (h1 a) as [[l|o]|] eqn:E; [| |tauto].
    + rewrite (He _ _ E). intros Hl. do 2 f_equal. apply map_ext_in. intros x Hx.
      specialize (Hl x Hx). destruct (h1 x) eqn:Ex; [|congruence]. now rewrite (He _ _ Ex).
    + now rewrite (He _ _ E).
  - intros h a b l Ha Hb. unfold mread. now rewrite Ha, Hb.
  - simpl. unfold hextends, live. simpl. intuition (subst; discriminate).
Qed.

Theorem memo_by_id_mutation_refuted :
  exists hist : list (heap Z * nat),
    mrun Z Z mread hist None <> map (fun ha => mread (fst ha) (snd ha)) hist.
Proof. exact memo_by_id_mutation_refuted_lem. Qed.
Print Assumptions memo_by_id_mutation_refuted.

(** C87: Retrying after a failed evaluation. *)
Theorem retry_without_failures :
  forall (num : Type) (num_eq_dec : forall x y : num, {x = y} + {x <> y})
    (S B : Type) (names : list string) (limit : nat) (func : params num -> S -> S * result B)
    (h : list (event S)) (s0 : S) o rs p s1 v,
    0 < limit ->
    crun num_eq_dec names limit func h (cempty, s0) = (o, rs) ->
    (* no evaluation raised so far *)
    (forall r, In r rs -> r_eval r = true -> is_ok (r_out r) = true) ->
    would_eval num_eq_dec names p (fst o) = true ->
    func p (snd o) = (s1, Ok v) ->
    snd (cache_call num_eq_dec names limit func p o) = Ok v.
Proof. exact retry_without_failures_lem. Qed.
Print Assumptions retry_without_failures.

Example retry_without_failures_example :
  would_eval Z.eq_dec ["x"] (zp [("x", 1%Z)]) (cempty : cstate Z) = true /\
  needs_ready (zp [("x", 1%Z)]) true = (true, Ok 1%Z).
Proof. split; reflexivity. Qed.

Theorem retry_after_failure_refuted :
  forall limit : nat, 0 < limit ->
  exists (h : list (event bool)) (p : params Z),
    let o := fst (crun Z.eq_dec ["x"] limit needs_ready h (cempty, false)) in
    (* the evaluation succeeds ... *)
    snd (needs_ready p (snd o)) = Ok 1%Z /\
    would_eval Z.eq_dec ["x"] p (fst o) = true /\
    (* ... but the call raises *)
    snd (cache_call Z.eq_dec ["x"] limit needs_ready p o) = Err KeyError.
Proof. exact retry_after_failure_refuted_lem. Qed.
Print Assumptions retry_after_failure_refuted.
