(** Properties C08, C09, C15, C16, C43: putting models together. *)
From Coq Require Import String Bool Arith Lia ZArith List.
From Verif Require Import PyBase ModelCompose ProofCompose.
Import ListNotations.
Open Scope string_scope.
Open Scope list_scope.

(** C08: Adding signal models is flattening concatenation. *)
Theorem signal_sum_flattens :
  forall e : sumexpr, (exists a b, e = SAdd a b) ->
    sum_eval e =
      if in_dec (fun x y : operand => ltac:(repeat decide equality) : {x = y} + {x <> y}) OOther (leaves e)
      then Err TypeError
      else Ok (OColl (flat_map op_signals (leaves e))).
Proof. exact signal_sum_flattens_lem. Qed.
Print Assumptions signal_sum_flattens.
Example signal_sum_flattens_example :
  sum_eval (SAdd (SAdd (SLeaf (OSig 1)) (SLeaf (OColl [2; 3]))) (SAdd (SLeaf (OSig 4)) (SLeaf (OSig 1)))) = Ok (OColl [1; 2; 3; 4; 1]) /\
  sum_eval (SAdd (SLeaf (OSig 1)) (SAdd (SLeaf (OColl [2])) (SLeaf OOther))) = Err TypeError.
Proof. split; reflexivity. Qed.

(** C09: Arrays of pulsars are built in order. *)
Theorem pta_sum_in_order :
  forall a b : psum, psum_good (PAdd a b) ->
    psum_eval (PAdd a b) = Ok (PArr (flat_map p_models (pleaves a ++ pleaves b))).
Proof. exact pta_sum_in_order_lem. Qed.
Print Assumptions pta_sum_in_order.
Example pta_sum_in_order_example :
  let c n := Coll n "J" [] true in
  psum_good (PAdd (PAdd (PLeaf (PColl (c 0))) (PLeaf (PColl (c 1)))) (PAdd (PLeaf (PArr [c 2; c 3])) (PLeaf (PColl (c 0))))) /\
  psum_eval (PAdd (PAdd (PLeaf (PColl (c 0))) (PLeaf (PColl (c 1)))) (PAdd (PLeaf (PArr [c 2; c 3])) (PLeaf (PColl (c 0)))))
  = Ok (PArr [c 0; c 1; c 2; c 3; c 0]).
Proof.
  split; [|reflexivity]. simpl. repeat split; try discriminate; try (intros [? ?]; discriminate).
  intros _. eexists. reflexivity.
Qed.

Theorem pta_sum_model_plus_array_raises :
  forall (c : coll) (l : list coll), pta_add (PColl c) (PArr l) = Err AttributeError.
Proof. exact pta_sum_model_plus_array_raises_lem. Qed.
Print Assumptions pta_sum_model_plus_array_raises.
Theorem pta_sum_foreign :
  forall a : pobj, a <> PElse -> pta_add a PElse = Err AttributeError.
Proof. exact pta_sum_foreign_lem. Qed.
Print Assumptions pta_sum_foreign.
Example pta_sum_foreign_example : pta_add (PArr [Coll 0 "J" [] true]) PElse = Err AttributeError.
Proof. reflexivity. Qed.

Theorem pta_getitem_spec :
  forall (l : list coll) (k : pkey),
    match k with
    | KInt z =>
        let n := Z.of_nat (length l) in
        ((0 <= z < n)%Z -> exists c, nth_error l (Z.to_nat z) = Some c /\ pta_getitem l k = Ok c) /\
        ((- n <= z < 0)%Z -> exists c, nth_error l (Z.to_nat (z + n)) = Some c /\ pta_getitem l k = Ok c) /\
        ((z < - n \/ n <= z)%Z -> pta_getitem l k = Err IndexError)
    | KName s =>
        (forall c, pta_getitem l k = Ok c <->
           exists l1 l2, l = l1 ++ c :: l2 /\ co_psr c = s /\ forall c', In c' l1 -> co_psr c' <> s) /\
        (pta_getitem l k = Err KeyError <-> forall c, In c l -> co_psr c <> s)
    end.
Proof. exact pta_getitem_lem. Qed.
Print Assumptions pta_getitem_spec.
Example pta_getitem_example :
  let a := Coll 0 "J1" [] true in let b := Coll 1 "B1" [] true in let c := Coll 2 "J1" [] false in
  pta_getitem [b; a; c] (KName "J1") = Ok a /\ pta_getitem [b; a; c] (KName "J2") = Err KeyError /\
  pta_getitem [b; a; c] (KInt (-1)) = Ok c /\ pta_getitem [b; a; c] (KInt 3) = Err IndexError.
Proof. repeat split. Qed.

(** C15: Signals are retrievable by name. *)
Theorem get_signal_first :
  forall (l : list coll) (name : string),
    let sigs := flat_map co_signals l in
    (forall s, get_signal l name = Ok s <->
       exists l1 l2, sigs = l1 ++ s :: l2 /\ si_name s = name /\ forall s', In s' l1 -> si_name s' <> name) /\
    (get_signal l name = Err KeyError <-> forall s, In s sigs -> si_name s <> name) /\
    NoDup (dkeys (set_signal_dict l)) /\
    (forall n, In n (dkeys (set_signal_dict l)) <-> exists s, In s sigs /\ si_name s = n).
Proof. exact get_signal_first_lem. Qed.
Print Assumptions get_signal_first.
Example get_signal_first_example :
  let s i n := SigI i n 0 false false in
  let l := [Coll 0 "J1" [s 0 "rn"; s 1 "ef"; s 2 "rn"] true; Coll 1 "J2" [s 3 "gw"; s 4 "ef"] true] in
  get_signal l "ef" = Ok (s 1 "ef") /\ get_signal l "x" = Err KeyError /\ dkeys (set_signal_dict l) = ["rn"; "ef"; "gw"].
Proof. repeat split. Qed.

(** C16: Setting constants touches exactly the named constants. *)
Theorem set_default_exact :
  forall (V : Type) (d : dict string V) (l : list (list (list pentry))) (h : cheap V),
    (* a constant object has one name *)
    (forall i n n', In (EConst i n) (all_entries l) -> In (EConst i n') (all_entries l) -> n = n') ->
    let h' := pta_set_default d l h in
    (forall i n v, In (EConst i n) (all_entries l) -> dget string_dec d n = Some v -> h' i = Some v) /\
    (forall i, (forall n, In (EConst i n) (all_entries l) -> dget string_dec d n = None) -> h' i = h i) /\
    (forall i, pta_set_default d l h' i = h' i).
Proof. exact set_default_exact_lem. Qed.
Print Assumptions set_default_exact.
Example set_default_exact_example :
  let l := [[[EConst 0 "ef"; EVar "A"]; [EConst 1 "eq"]]; [[EConst 0 "ef"]]] in
  (forall i n n', In (EConst i n) (all_entries l) -> In (EConst i n') (all_entries l) -> n = n') /\
  let h := pta_set_default [("ef", 7); ("A", 8); ("zz", 9)] l (fun _ => None) in
  h 0 = Some 7 /\ h 1 = None.
Proof.
  split; [|split; reflexivity]. intros i n n'. simpl.
  intros [H|[H|[H|[H|[]]]]]; try discriminate H; injection H as <- <-;
    intros [H|[H|[H|[H|[]]]]]; try discriminate H; now injection H.
Qed.

(** C43: Common signals are those shared by at least two pulsars. *)
Theorem correlated_branch_iff :
  forall l : list coll,
    correlated_branch l = true <->
    exists c1 c2 s1 s2,
      In c1 l /\ In c2 l /\ co_basis c1 = true /\ co_basis c2 = true /\
      In s1 (co_signals c1) /\ In s2 (co_signals c2) /\
      si_class s1 = si_class s2 /\ si_id s1 <> si_id s2 /\
      (si_common s1 = true /\ si_coeff s1 = false) /\ (si_common s2 = true /\ si_coeff s2 = false).
Proof. exact correlated_branch_lem. Qed.
Print Assumptions correlated_branch_iff.
Example correlated_branch_example :
  let s i k := SigI i "gw" k true false in
  correlated_branch [Coll 0 "J1" [s 0 5] true; Coll 1 "J2" [s 1 5] true] = true /\
  correlated_branch [Coll 0 "J1" [s 0 5] true; Coll 1 "J2" [s 1 5] false] = false /\
  correlated_branch [Coll 0 "J1" [s 0 5] true; Coll 1 "J2" [s 1 6] true] = false /\
  correlated_branch [Coll 0 "J1" [s 0 5; s 1 5] true] = true.
Proof. repeat split. Qed.
