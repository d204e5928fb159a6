(** Proofs about collections and arrays as objects. *)
From Coq Require Import String Bool Arith List Reals Lia.
From Verif Require Import PyBase ProofBase ModelCache ProofCache ModelGp ProofGp ModelColl.
Import ListNotations.
Open Scope nat_scope.
Open Scope list_scope.

Definition agree (names : list string) (p p' : params R) : Prop := forall x, In x names -> dget string_dec p x = dget string_dec p' x.

Section Spec.
Variables St N D F I P Ph C X Y Q L LS : Type.
Notation sg := (sg St N D F P).
Notation coll := (coll St N D F P).
Notation cobj := (cobj St N D F I X Y).
Notation pobj := (pobj St N D F I X Y).
Notation layout := (layout F I).
Variable op : ops St N D F I P Ph C X Y Q L LS.
(** The parameters that are asked for *)
Variable dom : params R -> Prop.

(** * Specification *)
(** How a signal behaves: the right answers of its methods, the states it may be in, and
    those in which it is after its prior has been asked for *)
Record beh := Beh {
  b_ndiag : params R -> result (option N); b_delay : params R -> result (option D);
  b_basis : params R -> result (option F); b_phi : params R -> result P; b_prior : params R -> result R;
  b_inv : St -> Prop; b_at : params R -> St -> Prop }.
Definition answers {B} (inv : St -> Prop) (post : params R -> St -> Prop) (f : params R -> St -> St * result B) (v : params R -> result B) : Prop :=
  forall p s x, dom p -> inv s -> v p = Ok x -> exists s', f p s = (s', Ok x) /\ inv s' /\ post p s'.
(** A signal gives the right answers, in every state it may be in, and they depend on the
    parameters it declares for its type *)
Record sound (m : sg) (b : beh) : Prop := Sound {
  ok_ndiag : answers (b_inv b) (fun _ _ => True) (s_ndiag m) (b_ndiag b);
  ok_delay : answers (b_inv b) (fun _ _ => True) (s_delay m) (b_delay b);
  ok_basis : answers (b_inv b) (fun _ _ => True) (s_basis m) (b_basis b);
  ok_phi : answers (b_inv b) (b_at b) (s_phi m) (b_phi b);
  ok_prior : answers (b_inv b) (fun _ _ => True) (s_prior m) (b_prior b);
  dep_ndiag : forall p p', dom p -> dom p' -> agree (match s_type m with WhiteT => s_wp m | _ => [] end) p p' -> b_ndiag b p = b_ndiag b p';
  dep_delay : forall p p', dom p -> dom p' -> agree (match s_type m with BasisT | CommonBasisT | DeterministicT => s_dp m | _ => [] end) p p' -> b_delay b p = b_delay b p';
  dep_basis : forall p p', dom p -> dom p' -> agree (match s_type m with BasisT | CommonBasisT => s_bp m | _ => [] end) p p' -> b_basis b p = b_basis b p' }.

(** A collection with the behaviour of its signals *)
Definition model : Type := coll * list beh.
Definition sound_coll (c : model) : Prop := Forall2 sound (c_sigs (fst c)) (snd c).
(** The right answers of a collection and of an array, from those of the signals alone *)
Definition v_ndiag (c : model) (p : params R) : result N :=
  rbind (rmapM (fun b => b_ndiag b p) (snd c)) (fun l => sum_noise op (somes l)).
Definition v_delay (c : model) (p : params R) : result D :=
  rbind (rmapM (fun b => b_delay b p) (snd c)) (fun l => sum_delay op (somes l)).
Definition v_detres (c : model) (p : params R) : result D := rbind (v_delay c p) (minus op (c_res (fst c))).
Definition v_layout (c : model) : result layout :=
  rmap (fun bs => columns op (combine (c_sigs (fst c)) bs)) (rmapM (fun b => b_basis b []) (snd c)).
Fixpoint v_over {A} (f : beh -> I -> A -> result A) (l : list (beh * option I)) (a : A) : result A :=
  match l with
  | [] => Ok a
  | (_, None) :: l => v_over f l a
  | (b, Some i) :: l => rbind (f b i a) (v_over f l)
  end.
Definition v_basis (c : model) (p : params R) : result (option F) :=
  rbind (v_layout c) (fun l => match snd l with
    | None => Ok None
    | Some F0 => rmap Some (v_over (fun b i T => rbind (b_basis b p) (fun x => match x with Some x => place op T i x | None => Err TypeError end))
                   (combine (snd c) (fst l)) (zeros_like op F0))
    end).
Definition v_phi (c : model) (p : params R) : result (option Ph) :=
  rbind (v_layout c) (fun l => match snd l with
    | None => Ok None
    | Some F0 => rmap Some (v_over (fun b i K => rbind (b_phi b p) (fun x => kernel_add op K x i)) (combine (snd c) (fst l)) (kernel op F0))
    end).
Definition v_TNr (c : model) (p : params R) : result (option X) :=
  rbind (v_basis c p) (fun T => match T with
    | None => Ok None
    | Some T => rbind (v_ndiag c p) (fun Nv => rbind (v_detres c p) (fun r => rmap Some (solve_TNr op Nv r T)))
    end).
Definition v_TNT (c : model) (p : params R) : result (option X) :=
  rbind (v_basis c p) (fun T => match T with
    | None => Ok None
    | Some T => rbind (v_ndiag c p) (fun Nv => rmap Some (solve_TNT op Nv T))
    end).
Definition v_rNr (c : model) (p : params R) : result Y :=
  rbind (v_ndiag c p) (fun Nv => rbind (v_detres c p) (fun r => solve_rNr op Nv r)).
Definition v_prior (c : model) (p : params R) : result R :=
  rmap (fun l => fold_left Rplus l 0%R) (rmapM (fun b => b_prior b p) (snd c)).

(** The right cross terms of two signals of a class, by their numbers *)
Variable v_cross : nat -> nat * nat -> nat * nat -> params R -> result C.
Definition v_phiinv (a : list model) (method : string) (p : params R) : result Q :=
  rbind (rmapM (fun c => v_phi c p) a) (fun phis =>
  rbind (rmapM v_layout a) (fun ls =>
  let cs := commons_of (map fst a) ls in
  rbind (rmapM (fun kp : nat * ((nat * nat) * (nat * nat)) => v_cross (fst kp) (fst (snd kp)) (snd (snd kp)) p)
    (flat_map (fun kl : nat * list (nat * nat) => map (pair (fst kl)) (pairs_of (snd kl))) cs)) (fun xs =>
  invert op method ls phis cs xs))).
Definition v_like (a : list model) (method : string) (p : params R) : result L :=
  rbind (rmapM (fun c => v_TNr c p) a) (fun TNrs =>
  rbind (rmapM (fun c => v_TNT c p) a) (fun TNTs =>
  rbind (v_phiinv a method p) (fun q =>
  rbind (rmapM (fun c => v_rNr c p) a) (fun rNrs =>
  rbind (rmapM (fun c => v_prior c p) a) (fun pri =>
  finish op TNrs TNTs q rNrs pri))))).
Notation ans := (ans N D F P Ph X Y L).
Definition v_ask (a : list model) (q : ask) : result ans :=
  match q with
  | ALike method p => rmap RLike (v_like a method p)
  | AColl i w p =>
      match nth_error a i with
      | None => Err IndexError
      | Some c =>
          match w with
          | WNdiag => rmap RNoise (v_ndiag c p) | WDelay => rmap RDelay (v_delay c p) | WDetres => rmap RDelay (v_detres c p)
          | WBasis => rmap RBasis (v_basis c p) | WPhi => rmap RPhi (v_phi c p) | WTNr => rmap RX (v_TNr c p) | WTNT => rmap RX (v_TNT c p)
          | WrNr => rmap RY (v_rNr c p) | WPrior => rmap RPrior (v_prior c p)
          end
      end
  | ASig i j w p =>
      match nth_error a i with
      | None => Err IndexError
      | Some c =>
          match nth_error (snd c) j with
          | None => Err IndexError
          | Some b =>
              match w with
              | WNdiag => rmap RSNoise (b_ndiag b p) | WDelay => rmap RSDelay (b_delay b p) | WBasis => rmap RBasis (b_basis b p)
              | WPhi => rmap RSPhi (b_phi b p) | WPrior => rmap RPrior (b_prior b p) | _ => Err AttributeError
              end
          end
      end
  end.
Definition ask_params (q : ask) : params R := match q with ALike _ p | AColl _ _ p | ASig _ _ _ p => p end.

(** Signals of an array by their numbers *)
Definition beh_at (a : list model) (ij : nat * nat) : option (sg * beh) :=
  match nth_error a (fst ij) with
  | Some c => match nth_error (c_sigs (fst c)) (snd ij), nth_error (snd c) (snd ij) with Some m, Some b => Some (m, b) | _, _ => None end
  | None => None
  end.
(** Common signals have a basis, and their cross terms are right once the priors of both
    have been asked for *)
Definition sound_commons (a : list model) : Prop :=
  (forall ij m b k x, beh_at a ij = Some (m, b) -> s_class m = Some k -> b_basis b [] = Ok x -> x <> None) /\
  (forall ij ij' m m' b b' k p s s' x, beh_at a ij = Some (m, b) -> beh_at a ij' = Some (m', b') -> s_class m = Some k -> s_class m' = Some k ->
     b_at b p s -> b_at b' p s' -> v_cross k ij ij' p = Ok x -> phicross op k s s' p = Ok x).

Hypothesis dom_flat : forall p, dom p -> flat_values p.
Hypothesis dom_nil : dom [].
(** * Lists of objects *)
Lemma each_ok {M B S A} (rel : M -> B -> Prop) (inv inv' : B -> S -> Prop) (f : M -> S -> S * result A) (g : B -> result A) :
  (forall m b s x, rel m b -> inv b s -> g b = Ok x -> exists s', f m s = (s', Ok x) /\ inv' b s') ->
  forall ms bs ss xs, Forall2 rel ms bs -> Forall2 inv bs ss -> rmapM g bs = Ok xs ->
  exists ss', each f ms ss = (ss', Ok xs) /\ Forall2 inv' bs ss'.
Proof.
  intros H ms bs ss xs h; revert ss xs; induction h as [|m b ms bs hr h IH]; intros ss xs i e.
  - inversion i; subst; cbn in *; injection e as <-; exists []; split; [reflexivity|constructor].
  - inversion i as [|b0 s bs0 ss0 i1 i2]; subst; cbn [rmapM] in e; destruct (g b) as [x|] eqn:Eg; [|discriminate]; cbn [rbind rmap] in e.
    destruct (rmapM g bs) as [ys|] eqn:Eys; [|discriminate]; cbn [rbind rmap] in e; injection e as <-.
    destruct (H m b s x hr i1 Eg) as (s' & e1 & j1); destruct (IH ss0 ys i2 eq_refl) as (ss' & e2 & j2).
    exists (s' :: ss'); split; [|now constructor]; cbn [each]; rewrite e1, e2; reflexivity.
Qed.
Lemma over_ok {A} (f : sg -> I -> A -> St -> St * result A) (g : beh -> I -> A -> result A) (post : beh -> St -> Prop) :
  (forall m b i a s x, sound m b -> b_inv b s -> g b i a = Ok x -> exists s', f m i a s = (s', Ok x) /\ b_inv b s' /\ post b s') ->
  forall ms bs ss is a x, Forall2 sound ms bs -> Forall2 b_inv bs ss -> v_over g (combine bs is) a = Ok x ->
  exists ss', over_columns f (combine ms is) ss a = (ss', Ok x) /\ Forall2 b_inv bs ss' /\
    forall j i b s, nth_error is j = Some (Some i) -> nth_error bs j = Some b -> nth_error ss' j = Some s -> post b s.
Proof.
  intros H ms bs ss is a x h; revert ss is a; induction h as [|m b ms bs hr h IH]; intros ss is a i e.
  - inversion i; subst; cbn in *; injection e as <-; exists []; split; [now destruct is|]; split; [constructor|]; intros [|j]; discriminate.
  - inversion i as [|b0 s bs0 ss0 i1 i2]; subst; destruct is as [|[ix|] is]; cbn [combine v_over over_columns] in *.
    + injection e as <-; exists (s :: ss0); split; [reflexivity|]; split; [now constructor|]; intros [|j]; discriminate.
    + destruct (g b ix a) as [y|] eqn:Eg; [|discriminate]; cbn [rbind] in e; destruct (H m b ix a s y hr i1 Eg) as (s' & e1 & j1 & k1).
      destruct (IH ss0 is y i2 e) as (ss' & e2 & j2 & k2); exists (s' :: ss'); rewrite e1, e2; split; [reflexivity|]; split; [now constructor|].
      intros [|j] i' b' s0; cbn [nth_error]; [intros _ h1 h2; congruence|apply k2].
    + destruct (IH ss0 is a i2 e) as (ss' & e2 & j2 & k2); exists (s :: ss'); rewrite e2; split; [reflexivity|]; split; [now constructor|].
      intros [|j] i' b' s0; cbn [nth_error]; [discriminate|apply k2].
Qed.

(** * Cached methods *)
Definition good {B} (names : list string) (limit : nat) (v : params R -> result B) (c : cstate (num := R) B) : Prop :=
  wf_cache limit c /\ forall k x, In (k, x) (cmap c) -> exists p, dom p /\ cache_key R names p = Ok k /\ v p = Ok x.
Lemma good_empty {B} names limit (v : params R -> result B) : good names limit v cempty.
Proof. split; [apply wf_empty|intros k x []]. Qed.
Lemma cached_ok {O B} (get : O -> cstate (num := R) B) (put : O -> cstate B -> O) names limit (func : params R -> O -> O * result B) (v : params R -> result B) p x o o1 :
  good names limit v (get o) -> 1 <= limit -> (forall p p', dom p -> dom p' -> agree names p p' -> v p = v p') -> dom p -> v p = Ok x -> func p o = (o1, Ok x) ->
  put o (get o) = o ->
  cached get put names limit func p o = (o, Ok x) \/
  exists c, cached get put names limit func p o = (put o1 c, Ok x) /\ good names limit v c.
Proof.
  intros [w g] l1 dep fl ex ef eta; destruct (cache_key_total names p (dom_flat p fl)) as [k ek].
  destruct (cache_ok names limit func (get o) o p k x o1 w l1 ek ef) as [(y & i & e)|(c & e & w' & h1 & h2)]; unfold cached; rewrite e.
  - left; rewrite eta; destruct (g _ _ i) as (p0 & d0 & e0 & ey); replace y with x; [reflexivity|].
    rewrite (dep p0 p d0 fl) in ey; [congruence|]; intros n i'; now apply (cache_key_inj names p0 p k).
  - right; exists c; split; [reflexivity|]; split; [exact w'|]; intros k' x' i; destruct (h1 _ _ i) as [i'|[-> ->]]; [now apply g|now exists p].
Qed.
Lemma andthen_ok {O A B} (x : O * result A) (f : A -> O -> O * result B) o a : x = (o, Ok a) -> andthen x f = f a o.
Proof. now intros ->. Qed.
Lemma rbind_inv {A B} (x : result A) (f : A -> result B) y : rbind x f = Ok y -> exists a, x = Ok a /\ f a = Ok y.
Proof. destruct x as [a|e]; [intros h; now exists a|discriminate]. Qed.
Lemma rmap_inv {A B} (f : A -> B) (x : result A) y : rmap f x = Ok y -> exists a, x = Ok a /\ f a = y.
Proof. destruct x as [a|e]; [intros [= <-]; now exists a|discriminate]. Qed.

(** * Dependence on the declared parameters *)
Lemma agree_sub l l' p p' : (forall x, In x l -> In x l') -> agree l' p p' -> agree l p p'.
Proof. intros H h x i; apply h, H, i. Qed.
Lemma agree_app l l' p p' : agree (l ++ l') p p' -> agree l p p' /\ agree l' p p'.
Proof. intros h; split; intros x i; apply h, in_or_app; auto. Qed.
Lemma rmapM_ext2 {M B A} (rel : M -> B -> Prop) (g g' : B -> result A) ms bs : Forall2 rel ms bs -> (forall m b, In m ms -> rel m b -> g b = g' b) -> rmapM g bs = rmapM g' bs.
Proof.
  intros h; induction h as [|m b ms bs hr h IH]; intros H; [reflexivity|]; cbn [rmapM]; rewrite (H m b (or_introl eq_refl) hr), IH; [reflexivity|].
  intros; apply H with m0; [now right|assumption].
Qed.
Lemma v_over_ext {A} (g g' : beh -> I -> A -> result A) ms bs : Forall2 sound ms bs -> (forall m b i a, In m ms -> sound m b -> g b i a = g' b i a) ->
  forall is a, v_over g (combine bs is) a = v_over g' (combine bs is) a.
Proof.
  intros h; induction h as [|m b ms bs hr h IH]; intros H is a; [reflexivity|]; destruct is as [|[i|] is]; cbn [combine v_over]; [reflexivity| |].
  - rewrite (H m b i a (or_introl eq_refl) hr); destruct (g' b i a); [|reflexivity]; cbn [rbind]; apply IH; intros; apply H with m0; [now right|assumption].
  - apply IH; intros; apply H with m0; [now right|assumption].
Qed.
Section Dep.
Variable c : model.
Hypothesis hs : sound_coll c.
Lemma in_white m x : In m (c_sigs (fst c)) -> In x (match s_type m with WhiteT => s_wp m | _ => [] end) -> In x (white_names (fst c)).
Proof. intros i ix; unfold white_names, white_params; apply in_flat_map; exists (names_of m); split; [now apply in_map|exact ix]. Qed.
Lemma in_basis m x : In m (c_sigs (fst c)) -> In x (match s_type m with BasisT | CommonBasisT => s_bp m | _ => [] end) -> In x (basis_names (fst c)).
Proof. intros i ix; unfold basis_names, ModelCache.basis_params; apply in_flat_map; exists (names_of m); split; [now apply in_map|exact ix]. Qed.
Lemma in_delay m x : In m (c_sigs (fst c)) -> In x (match s_type m with BasisT | CommonBasisT | DeterministicT => s_dp m | _ => [] end) -> In x (delay_names (fst c)).
Proof. intros i ix; unfold delay_names, ModelCache.delay_params; apply in_flat_map; exists (names_of m); split; [now apply in_map|exact ix]. Qed.
Lemma v_ndiag_dep p p' : dom p -> dom p' -> agree (white_names (fst c)) p p' -> v_ndiag c p = v_ndiag c p'.
Proof. intros dp dp' h; unfold v_ndiag; rewrite (rmapM_ext2 sound _ (fun b => b_ndiag b p') _ _ hs); [reflexivity|]; intros m b i s; apply (dep_ndiag _ _ s _ _ dp dp'); intros x ix; apply h, (in_white m); assumption. Qed.
Lemma v_delay_dep p p' : dom p -> dom p' -> agree (delay_names (fst c)) p p' -> v_delay c p = v_delay c p'.
Proof. intros dp dp' h; unfold v_delay; rewrite (rmapM_ext2 sound _ (fun b => b_delay b p') _ _ hs); [reflexivity|]; intros m b i s; apply (dep_delay _ _ s _ _ dp dp'); intros x ix; apply h, (in_delay m); assumption. Qed.
Lemma v_detres_dep p p' : dom p -> dom p' -> agree (delay_names (fst c)) p p' -> v_detres c p = v_detres c p'.
Proof. intros dp dp' h; unfold v_detres; now rewrite (v_delay_dep p p' dp dp' h). Qed.
Lemma v_basis_dep p p' : dom p -> dom p' -> agree (basis_names (fst c)) p p' -> v_basis c p = v_basis c p'.
Proof.
  intros dp dp' h; unfold v_basis; destruct (v_layout c) as [[is [F0|]]|]; cbn [rbind snd fst]; try reflexivity; f_equal; apply v_over_ext with (ms := c_sigs (fst c)); [exact hs|].
  intros m b i a im s; rewrite (dep_basis _ _ s p p' dp dp'); [reflexivity|]; intros x ix; apply h, (in_basis m); assumption.
Qed.
Lemma v_TNr_dep p p' : dom p -> dom p' -> agree (basis_names (fst c) ++ white_names (fst c) ++ delay_names (fst c)) p p' -> v_TNr c p = v_TNr c p'.
Proof. intros dp dp' h; apply agree_app in h as [h1 h]; apply agree_app in h as [h2 h3]; unfold v_TNr; now rewrite (v_basis_dep p p' dp dp' h1), (v_ndiag_dep p p' dp dp' h2), (v_detres_dep p p' dp dp' h3). Qed.
Lemma v_TNT_dep p p' : dom p -> dom p' -> agree (basis_names (fst c) ++ white_names (fst c)) p p' -> v_TNT c p = v_TNT c p'.
Proof. intros dp dp' h; apply agree_app in h as [h1 h2]; unfold v_TNT; now rewrite (v_basis_dep p p' dp dp' h1), (v_ndiag_dep p p' dp dp' h2). Qed.
Lemma v_rNr_dep p p' : dom p -> dom p' -> agree (white_names (fst c) ++ delay_names (fst c)) p p' -> v_rNr c p = v_rNr c p'.
Proof. intros dp dp' h; apply agree_app in h as [h2 h3]; unfold v_rNr; now rewrite (v_ndiag_dep p p' dp dp' h2), (v_detres_dep p p' dp dp' h3). Qed.

(** * A collection *)
Definition inv (o : cobj) : Prop :=
  Forall2 b_inv (snd c) (o_sigs o) /\ (forall l, o_lay o = Some l -> v_layout c = Ok l) /\
  good (white_names (fst c)) 2 (v_ndiag c) (o_ndiag o) /\ good (delay_names (fst c)) 2 (v_delay c) (o_delay o) /\
  good (delay_names (fst c)) 2 (v_detres c) (o_detres o) /\ good (basis_names (fst c)) 1 (v_basis c) (o_basis o) /\
  good (basis_names (fst c) ++ white_names (fst c) ++ delay_names (fst c)) 2 (v_TNr c) (o_TNr o) /\
  good (basis_names (fst c) ++ white_names (fst c)) 2 (v_TNT c) (o_TNT o) /\
  good (white_names (fst c) ++ delay_names (fst c)) 2 (v_rNr c) (o_rNr o).
Lemma inv_new ss : Forall2 b_inv (snd c) ss -> inv (new_coll ss).
Proof. intros h; unfold inv; cbn; split; [exact h|]; split; [discriminate|]; split; [|split; [|split; [|split; [|split; [|split]]]]]; apply good_empty. Qed.
Lemma inv_sigs o ss : inv o -> Forall2 b_inv (snd c) ss -> inv (put_sigs o ss).
Proof. intros (_ & h) h'; exact (conj h' h). Qed.
Lemma all_sigs_ok {A} (f : sg -> St -> St * result A) (g : beh -> result A) o xs :
  (forall m b s x, sound m b -> b_inv b s -> g b = Ok x -> exists s', f m s = (s', Ok x) /\ b_inv b s') -> inv o -> rmapM g (snd c) = Ok xs ->
  exists o', all_sigs (fst c) f o = (o', Ok xs) /\ inv o' /\ o_lay o' = o_lay o.
Proof.
  intros H i e; destruct (each_ok sound b_inv b_inv f g H _ _ _ _ hs (proj1 i) e) as (ss & e1 & j); exists (put_sigs o ss); unfold all_sigs; rewrite e1.
  split; [reflexivity|]; split; [now apply inv_sigs|reflexivity].
Qed.
Definition fine {A} (f : cobj -> cobj * result A) (v : result A) : Prop :=
  forall o x, inv o -> v = Ok x -> exists o', f o = (o', Ok x) /\ inv o' /\ (o_lay o <> None -> o_lay o' <> None).
Ltac put_inv := match goal with
  | h : inv _ |- inv _ => destruct h as (? & ? & ? & ? & ? & ? & ? & ? & ?); unfold inv; cbn; auto 10
  end.
Lemma cached_fine {B} (get : cobj -> cstate (num := R) B) (put : cobj -> cstate B -> cobj) names limit func v p :
  (forall o, inv o -> good names limit v (get o)) -> 1 <= limit -> (forall p p', dom p -> dom p' -> agree names p p' -> v p = v p') -> dom p ->
  (forall o, put o (get o) = o) -> (forall o c, inv o -> good names limit v c -> inv (put o c)) -> (forall o c, o_lay (put o c) = o_lay o) ->
  fine (func p) (v p) -> fine (cached get put names limit func p) (v p).
Proof.
  intros G l1 dep fl eta P1 P2 H o x i ex; destruct (H o x i ex) as (o1 & e1 & i1 & k1).
  destruct (cached_ok get put names limit func v p x o o1 (G o i) l1 dep fl ex e1 (eta o)) as [e|(c' & e & g)]; rewrite e.
  - exists o; split; [reflexivity|]; split; [exact i|auto].
  - exists (put o1 c'); split; [reflexivity|]; split; [now apply P1|]; rewrite P2; exact k1.
Qed.
Lemma ndiag_fine p : dom p -> fine (get_ndiag op (fst c) p) (v_ndiag c p).
Proof.
  intros fl; apply cached_fine; try exact fl; try (now auto); try (intros []; reflexivity); [intros o i; apply i|apply v_ndiag_dep|intros; put_inv|].
  intros o x i ex; unfold v_ndiag in ex; apply rbind_inv in ex as (l & e1 & e2).
  destruct (all_sigs_ok (fun m => s_ndiag m p) (fun b => b_ndiag b p) o l) as (o' & e & i' & k); [|exact i|exact e1|].
  - intros m b s y sm ib ey; destruct (ok_ndiag _ _ sm p s y fl ib ey) as (s' & ? & ? & _); now exists s'.
  - exists o'; rewrite (andthen_ok _ _ _ _ e), e2; split; [reflexivity|]; split; [exact i'|now rewrite k].
Qed.
Lemma delay_fine p : dom p -> fine (get_delay op (fst c) p) (v_delay c p).
Proof.
  intros fl; apply cached_fine; try exact fl; try (now auto); try (intros []; reflexivity); [intros o i; apply i|apply v_delay_dep|intros; put_inv|].
  intros o x i ex; unfold v_delay in ex; apply rbind_inv in ex as (l & e1 & e2).
  destruct (all_sigs_ok (fun m => s_delay m p) (fun b => b_delay b p) o l) as (o' & e & i' & k); [|exact i|exact e1|].
  - intros m b s y sm ib ey; destruct (ok_delay _ _ sm p s y fl ib ey) as (s' & ? & ? & _); now exists s'.
  - exists o'; rewrite (andthen_ok _ _ _ _ e), e2; split; [reflexivity|]; split; [exact i'|now rewrite k].
Qed.
Lemma detres_fine p : dom p -> fine (get_detres op (fst c) p) (v_detres c p).
Proof.
  intros fl; apply cached_fine; try exact fl; try (now auto); try (intros []; reflexivity); [intros o i; apply i|apply v_detres_dep|intros; put_inv|].
  intros o x i ex; unfold v_detres in ex; apply rbind_inv in ex as (d & e1 & e2); destruct (delay_fine p fl o d i e1) as (o' & e & i' & k).
  exists o'; rewrite (andthen_ok _ _ _ _ e), e2; split; [reflexivity|]; split; [exact i'|exact k].
Qed.
Lemma layout_fine o l : inv o -> v_layout c = Ok l -> exists o', get_layout op (fst c) o = (o', Ok l) /\ inv o' /\ o_lay o' = Some l /\ (o_lay o <> None -> o' = o).
Proof.
  intros i e; unfold get_layout; destruct (o_lay o) as [l0|] eqn:El.
  - exists o; destruct i as (i1 & i2 & i3); rewrite (i2 _ El) in e; injection e as <-; split; [reflexivity|]; split; [exact (conj i1 (conj i2 i3))|]; split; [exact El|auto].
  - pose proof e as e0; unfold v_layout in e; apply rmap_inv in e as (bs & e1 & e2).
    destruct (all_sigs_ok (fun m => s_basis m []) (fun b => b_basis b []) o bs) as (o' & e & i' & k); [|exact i|exact e1|].
    + intros m b s y sm ib ey; destruct (ok_basis _ _ sm [] s y dom_nil ib ey) as (s' & ? & ? & _); now exists s'.
    + exists (put_lay o' l); rewrite (andthen_ok _ _ _ _ e), e2; split; [reflexivity|]; split; [|split; [reflexivity|congruence]].
      destruct i' as (j1 & j2 & j3); split; [exact j1|]; split; [cbn; intros l' [= <-]; exact e0|exact j3].
Qed.
Lemma basis_fine p : dom p -> fine (get_basis op (fst c) p) (v_basis c p).
Proof.
  intros fl; apply cached_fine; try exact fl; try (now auto); try (intros []; reflexivity); [intros o i; apply i|apply v_basis_dep|intros; put_inv|].
  intros o x i ex; unfold v_basis in ex; apply rbind_inv in ex as (l & e1 & e2); destruct (layout_fine o l i e1) as (o' & e & i' & k & _); rewrite (andthen_ok _ _ _ _ e).
  destruct l as [is [F0|]]; cbn [snd fst] in *.
  - apply rmap_inv in e2 as (T & e2 & <-).
    assert (H : forall m b i a s y, sound m b -> b_inv b s -> rbind (b_basis b p) (fun x => match x with Some x => place op a i x | None => Err TypeError end) = Ok y ->
      exists s', (fun m i T s => andthen (s_basis m p s) (fun b s => (s, match b with Some b => place op T i b | None => Err TypeError end))) m i a s = (s', Ok y) /\ b_inv b s' /\ True).
    { intros m b ix a s y sm ib ey; apply rbind_inv in ey as (z & e4 & e5); destruct (ok_basis _ _ sm p s z fl ib e4) as (s' & e6 & j & _); exists s'; cbv beta; rewrite (andthen_ok _ _ _ _ e6), e5; auto. }
    destruct (over_ok _ _ (fun _ _ => True) H _ _ _ _ _ _ hs (proj1 i') e2) as (ss & e3 & j & _).
    exists (put_sigs o' ss); rewrite e3; split; [reflexivity|]; split; [now apply inv_sigs|]; cbn; congruence.
  - injection e2 as <-; exists o'; split; [reflexivity|]; split; [exact i'|congruence].
Qed.
Lemma phi_fine p o x : dom p -> inv o -> v_phi c p = Ok x ->
  exists o', get_phi op (fst c) p o = (o', Ok x) /\ inv o' /\ o_lay o' <> None /\
    forall l j i b s, v_layout c = Ok l -> nth_error (fst l) j = Some (Some i) -> snd l <> None -> nth_error (snd c) j = Some b -> nth_error (o_sigs o') j = Some s -> b_at b p s.
Proof.
  intros fl i ex; unfold v_phi in ex; apply rbind_inv in ex as (l & e1 & e2); destruct (layout_fine o l i e1) as (o' & e & i' & k & _); unfold get_phi; rewrite (andthen_ok _ _ _ _ e).
  destruct l as [is [F0|]]; cbn [snd fst] in *.
  - apply rmap_inv in e2 as (K & e2 & <-).
    assert (H : forall m b i a s y, sound m b -> b_inv b s -> rbind (b_phi b p) (fun x => kernel_add op a x i) = Ok y ->
      exists s', (fun m i K s => andthen (s_phi m p s) (fun ph s => (s, kernel_add op K ph i))) m i a s = (s', Ok y) /\ b_inv b s' /\ b_at b p s').
    { intros m b ix a s y sm ib ey; apply rbind_inv in ey as (z & e4 & e5); destruct (ok_phi _ _ sm p s z fl ib e4) as (s' & e6 & j & ja); exists s'; cbv beta; rewrite (andthen_ok _ _ _ _ e6), e5; auto. }
    destruct (over_ok _ _ (fun b s => b_at b p s) H _ _ _ _ _ _ hs (proj1 i') e2) as (ss & e3 & j & h).
    exists (put_sigs o' ss); rewrite e3; split; [reflexivity|]; split; [now apply inv_sigs|]; split; [cbn; congruence|].
    intros l j0 i0 b s el; rewrite e1 in el; injection el as <-; cbn [fst snd]; intros h1 _ h2 h3; exact (h j0 i0 b s h1 h2 h3).
  - injection e2 as <-; exists o'; split; [reflexivity|]; split; [exact i'|]; split; [congruence|].
    intros l j0 i0 b s el; rewrite e1 in el; injection el as <-; cbn [fst snd]; congruence.
Qed.
Ltac done3 := split; [reflexivity|]; split; [assumption|]; intros nn; tauto.
Lemma TNr_fine p : dom p -> fine (get_TNr op (fst c) p) (v_TNr c p).
Proof.
  intros fl; apply cached_fine; try exact fl; try (now auto); try (intros []; reflexivity); [intros o i; apply i|apply v_TNr_dep|intros; put_inv|].
  intros o x i ex; unfold v_TNr in ex; apply rbind_inv in ex as (T & e1 & e2); destruct (basis_fine p fl o T i e1) as (o1 & f1 & i1 & k1); rewrite (andthen_ok _ _ _ _ f1); destruct T as [T|].
  - apply rbind_inv in e2 as (Nv & e2 & e3); apply rbind_inv in e3 as (r & e3 & e4); destruct (ndiag_fine p fl o1 Nv i1 e2) as (o2 & f2 & i2 & k2); rewrite (andthen_ok _ _ _ _ f2).
    destruct (detres_fine p fl o2 r i2 e3) as (o3 & f3 & i3 & k3); rewrite (andthen_ok _ _ _ _ f3), e4; exists o3; done3.
  - injection e2 as <-; exists o1; done3.
Qed.
Lemma TNT_fine p : dom p -> fine (get_TNT op (fst c) p) (v_TNT c p).
Proof.
  intros fl; apply cached_fine; try exact fl; try (now auto); try (intros []; reflexivity); [intros o i; apply i|apply v_TNT_dep|intros; put_inv|].
  intros o x i ex; unfold v_TNT in ex; apply rbind_inv in ex as (T & e1 & e2); destruct (basis_fine p fl o T i e1) as (o1 & f1 & i1 & k1); rewrite (andthen_ok _ _ _ _ f1); destruct T as [T|].
  - apply rbind_inv in e2 as (Nv & e2 & e3); destruct (ndiag_fine p fl o1 Nv i1 e2) as (o2 & f2 & i2 & k2); rewrite (andthen_ok _ _ _ _ f2), e3; exists o2; done3.
  - injection e2 as <-; exists o1; done3.
Qed.
Lemma rNr_fine p : dom p -> fine (get_rNr op (fst c) p) (v_rNr c p).
Proof.
  intros fl; apply cached_fine; try exact fl; try (now auto); try (intros []; reflexivity); [intros o i; apply i|apply v_rNr_dep|intros; put_inv|].
  intros o x i ex; unfold v_rNr in ex; apply rbind_inv in ex as (Nv & e2 & e3); apply rbind_inv in e3 as (r & e3 & e4); destruct (ndiag_fine p fl o Nv i e2) as (o2 & f2 & i2 & k2); rewrite (andthen_ok _ _ _ _ f2).
  destruct (detres_fine p fl o2 r i2 e3) as (o3 & f3 & i3 & k3); rewrite (andthen_ok _ _ _ _ f3), e4; exists o3; done3.
Qed.
Lemma prior_fine p : dom p -> fine (get_logsignalprior (fst c) p) (v_prior c p).
Proof.
  intros fl o x i ex; unfold v_prior in ex; apply rmap_inv in ex as (l & e1 & <-).
  destruct (all_sigs_ok (fun m => s_prior m p) (fun b => b_prior b p) o l) as (o' & e & i' & k); [|exact i|exact e1|].
  - intros m b s y sm ib ey; destruct (ok_prior _ _ sm p s y fl ib ey) as (s' & ? & ? & _); now exists s'.
  - exists o'; unfold get_logsignalprior; rewrite (andthen_ok _ _ _ _ e); split; [reflexivity|]; split; [exact i'|now rewrite k].
Qed.
End Dep.

(** * Common signals *)
Lemma dset_nat {V} (d : dict nat V) x v y w : In (y, w) (dset Nat.eq_dec d x v) -> (y = x /\ w = v) \/ In (y, w) d.
Proof.
  induction d as [|[k u] d IH]; cbn [dset]; [intros [[= <- <-]|[]]; auto|]; destruct (Nat.eq_dec x k) as [<-|ne]; cbn [In].
  - intros [[= <- <-]|h]; [auto|right; now right].
  - intros [[= <- <-]|h]; [right; now left|]; destruct (IH h) as [h'|h']; [auto|right; now right].
Qed.
Lemma common_in (xs : list (nat * (nat * nat))) : forall d k l ij, In (k, l) (fold_left add_common xs d) -> In ij l -> In (k, ij) xs \/ exists l', In (k, l') d /\ In ij l'.
Proof.
  induction xs as [|[k0 x] xs IH]; intros d k l ij i1 i2; cbn [fold_left] in i1; [right; now exists l|].
  destruct (IH _ k l ij i1 i2) as [h|(l' & h1 & h2)]; [left; now right|].
  unfold add_common in h1; cbn [fst snd] in h1; apply dset_nat in h1 as [(e1 & e2)|h1].
  - subst k l'; apply in_app_or in h2 as [h2|[<-|[]]]; [|left; now left]; destruct (dget Nat.eq_dec d k0) as [l1|] eqn:E; [|destruct h2].
    right; exists l1; split; [exact (dget_In _ _ _ _ E)|exact h2].
  - right; now exists l'.
Qed.
Lemma commons_in (a : list coll) (ls : list layout) k l ij : In (k, l) (commons_of a ls) -> In ij l -> In (k, ij) (class_list a ls).
Proof.
  intros h i; unfold commons_of in h; apply filter_In in h as [h _].
  destruct (common_in (class_list a ls) [] k l ij h i) as [r|(l' & [] & _)]; exact r.
Qed.
Lemma in_combine_seq {A} (l : list A) : forall o i x, In (i, x) (combine (seq o (length l)) l) -> exists j, i = o + j /\ nth_error l j = Some x.
Proof.
  induction l as [|y l IH]; intros o i x; cbn; [intros []|]; intros [[= <- <-]|h]; [exists 0; split; [lia|reflexivity]|].
  destruct (IH (S o) i x h) as (j & e & n); exists (S j); split; [lia|exact n].
Qed.
Lemma combine_seq {A B} (a : list A) (l : list B) : forall o i x, In (i, x) (combine (seq o (length a)) (combine a l)) -> exists j c y, i = o + j /\ x = (c, y) /\ nth_error a j = Some c /\ nth_error l j = Some y.
Proof.
  revert l; induction a as [|c a IH]; intros [|y l] o i x; cbn; try (now intros []).
  intros [[= <- <-]|h]; [exists 0, c, y; split; [lia|auto]|].
  destruct (IH l (S o) i x h) as (j & c' & y' & e & e' & n & n'); exists (S j), c', y'; repeat split; [lia|exact e'|exact n|exact n'].
Qed.
Lemma class_in (a : list coll) (ls : list layout) k i j : In (k, (i, j)) (class_list a ls) ->
  exists c l m, nth_error a i = Some c /\ nth_error ls i = Some l /\ snd l <> None /\ nth_error (c_sigs c) j = Some m /\ s_class m = Some k.
Proof.
  unfold class_list; intros h; apply in_flat_map in h as ((i0 & c & l) & h1 & h2); apply combine_seq in h1 as (i1 & c1 & l1 & e1 & [= <- <-] & n1 & n2); cbn in e1; subst i1.
  destruct (snd l) as [F0|] eqn:El; [|destruct h2]; apply in_flat_map in h2 as ((j0 & m) & h3 & h4); cbn [fst snd] in h4; destruct (s_class m) as [k'|] eqn:Ek; [|destruct h4].
  destruct h4 as [h4|[]]; injection h4 as <- <- <-; apply in_combine_seq in h3 as (j1 & -> & n3); exists c, l, m; cbn [plus]; repeat split; try assumption; congruence.
Qed.
Lemma lay_some (ms : list sg) : forall bs st j b, nth_error bs j = Some (Some b) -> j < length ms -> exists i, nth_error (snd (lay_loop op (combine ms bs) st)) j = Some (Some i).
Proof.
  induction ms as [|m ms IH]; intros bs st j b h lt; [cbn in lt; lia|]; destruct bs as [|[b0|] bs]; [destruct j; discriminate| |]; cbn [combine lay_loop].
  - destruct (lay_step op st b0 _ _) as [st1 i1]; destruct (lay_loop op (combine ms bs) st1) as [st2 is] eqn:E; cbn [snd]; destruct j as [|j]; [now exists i1|].
    cbn [nth_error] in *; destruct (IH bs st1 j b h) as [i e]; [cbn in lt; lia|]; rewrite E in e; now exists i.
  - destruct (lay_loop op (combine ms bs) st) as [st2 is] eqn:E; cbn [snd]; destruct j as [|j]; [discriminate|]; cbn [nth_error] in *.
    destruct (IH bs st j b h) as [i e]; [cbn in lt; lia|]; rewrite E in e; now exists i.
Qed.
Lemma columns_some (ms : list sg) bs j b : nth_error bs j = Some (Some b) -> j < length ms -> exists i, nth_error (fst (columns op (combine ms bs))) j = Some (Some i).
Proof. intros h lt; unfold columns; destruct (lay_some ms bs (lay_start op) j b h lt) as [i e]; destruct (lay_loop op _ _); now exists i. Qed.

(** * An array *)
Section Array.
Variable a : list model.
Hypothesis ha : Forall sound_coll a.
Hypothesis hc : sound_commons a.
Definition rel (c : coll) (m : model) : Prop := c = fst m /\ sound_coll m.
Lemma rel_all : Forall2 rel (map fst a) a.
Proof. clear hc; induction ha as [|c l h hl IH]; [constructor|]; constructor; [now split|]; apply IH; exact hl. Qed.
Definition pinv (o : pobj) : Prop := Forall2 inv a (p_colls o) /\ forall cs, p_cs o = Some cs -> exists ls, rmapM v_layout a = Ok ls /\ cs = commons_of (map fst a) ls.
Lemma all_colls_ok {A} (K K' : model -> cobj -> Prop) (f : coll -> cobj -> cobj * result A) (g : model -> result A) o xs :
  (forall c s x, sound_coll c -> K c s -> g c = Ok x -> exists s', f (fst c) s = (s', Ok x) /\ K' c s') ->
  Forall2 K a (p_colls o) -> rmapM g a = Ok xs ->
  exists o', all_colls (map fst a) f o = (o', Ok xs) /\ Forall2 K' a (p_colls o') /\ p_cs o' = p_cs o.
Proof.
  intros H i e; destruct (each_ok rel K K' f g) with (ms := map fst a) (bs := a) (ss := p_colls o) (xs := xs) as (ss & e1 & j); [|exact rel_all|exact i|exact e|].
  - intros m b s x [-> hs]; now apply H.
  - exists (PObj ss (p_cs o)); unfold all_colls; rewrite e1; auto.
Qed.
Lemma colls_fine {A} (f : coll -> cobj -> cobj * result A) (g : model -> result A) o xs :
  (forall c, sound_coll c -> fine c (f (fst c)) (g c)) -> pinv o -> rmapM g a = Ok xs ->
  exists o', all_colls (map fst a) f o = (o', Ok xs) /\ pinv o'.
Proof.
  intros H [i1 i2] e; destruct (all_colls_ok inv inv f g o xs) as (o' & e1 & j & k); [|exact i1|exact e|].
  - intros c s x hs i ex; destruct (H c hs s x i ex) as (s' & e1 & j & _); now exists s'.
  - exists o'; split; [exact e1|]; split; [exact j|]; now rewrite k.
Qed.
(** after the priors of all pulsars have been asked for *)
Definition ready (p : params R) (c : model) (o : cobj) : Prop :=
  inv c o /\ o_lay o <> None /\
  forall l j i b s, v_layout c = Ok l -> nth_error (fst l) j = Some (Some i) -> snd l <> None -> nth_error (snd c) j = Some b -> nth_error (o_sigs o) j = Some s -> b_at b p s.
Lemma layouts_ready p o ls : Forall2 (ready p) a (p_colls o) -> rmapM v_layout a = Ok ls ->
  exists o', all_colls (map fst a) (get_layout op) o = (o', Ok ls) /\ Forall2 (ready p) a (p_colls o') /\ p_cs o' = p_cs o.
Proof.
  intros h e; apply all_colls_ok with (K := ready p) (g := v_layout); [|exact h|exact e].
  intros c s x hs (i & nl & k) ex; destruct (layout_fine c hs s x i ex) as (o' & e1 & _ & _ & u); rewrite (u nl) in e1; exists s; split; [exact e1|]; exact (conj i (conj nl k)).
Qed.
Lemma Forall2_nth {A B} (rr : A -> B -> Prop) l l' i x : Forall2 rr l l' -> nth_error l i = Some x -> exists y, nth_error l' i = Some y /\ rr x y.
Proof. intros h; revert i; induction h as [|u v l l' hr h IH]; intros [|i] e; try discriminate; [injection e as <-; now exists v|]; now apply IH. Qed.
Lemma rmapM_nth {A B} (g : A -> result B) l xs i x : rmapM g l = Ok xs -> nth_error l i = Some x -> exists y, nth_error xs i = Some y /\ g x = Ok y.
Proof. intros e n; exact (Forall2_nth _ _ _ _ _ (rmapM_ok g l xs e) n). Qed.
Lemma rmapM_eq {A B} (g g' : A -> result B) l xs : rmapM g l = Ok xs -> (forall x y, In x l -> g x = Ok y -> g' x = Ok y) -> rmapM g' l = Ok xs.
Proof.
  revert xs; induction l as [|x l IH]; intros xs e H; [exact e|]; cbn [rmapM] in *; destruct (g x) as [y|] eqn:Eg; [|discriminate]; rewrite (H x y (or_introl eq_refl) Eg).
  cbn [rbind rmap] in *; destruct (rmapM g l) as [ys|] eqn:E; [|discriminate]; rewrite (IH ys eq_refl); [exact e|]; intros; apply H; [now right|assumption].
Qed.
Lemma pairs_in {A} (l : list A) x y : In (x, y) (pairs_of l) -> In x l /\ In y l.
Proof.
  induction l as [|z l IH]; cbn; [intros []|]; intros h; apply in_app_or in h as [h|h]; [apply in_map_iff in h as (w & [= <- <-] & i); auto|destruct (IH h); auto].
Qed.
Lemma state_ready p o ls k ij : Forall2 (ready p) a (p_colls o) -> rmapM v_layout a = Ok ls -> In (k, ij) (class_list (map fst a) ls) ->
  exists m b s, beh_at a ij = Some (m, b) /\ s_class m = Some k /\ state_at o ij = Some s /\ b_at b p s.
Proof.
  intros h e i; destruct ij as [i0 j]; apply class_in in i as (c & l & m & n1 & n2 & nl & n3 & ek).
  rewrite nth_error_map in n1; change (option_map (@fst coll (list beh)) (@nth_error model a i0) = Some c) in n1; destruct (@nth_error model a i0) as [cm|] eqn:En; [|discriminate]; cbn in n1; injection n1 as <-.
  destruct (Forall2_nth _ _ _ _ _ h En) as (o1 & n4 & (i1 & _ & at1)).
  assert (hs : sound_coll cm) by (exact (proj1 (Forall_forall _ _) ha cm (nth_error_In _ _ En))).
  destruct (Forall2_nth _ _ _ _ _ hs n3) as (b & n5 & _); destruct (Forall2_nth _ _ _ _ _ (proj1 i1) n5) as (s & n6 & _).
  destruct (rmapM_nth _ _ _ _ _ e En) as (l' & n7 & el); rewrite n2 in n7; injection n7 as <-.
  exists m, b, s; unfold beh_at, state_at; cbn [fst snd]; rewrite En, n3, n5, n4, n6; split; [reflexivity|]; split; [exact ek|]; split; [reflexivity|].
  assert (E : beh_at a (i0, j) = Some (m, b)) by (unfold beh_at; cbn [fst snd]; now rewrite En, n3, n5).
  pose proof el as el0; unfold v_layout in el; apply rmap_inv in el as (bs & e1 & e2); destruct (rmapM_nth _ _ _ _ _ e1 n5) as (x & n8 & ex).
  destruct x as [x|]; [|elim (proj1 hc _ _ _ _ _ E ek ex); reflexivity].
  destruct (columns_some (c_sigs (fst cm)) bs j x n8) as [ix n9]; [apply nth_error_Some; congruence|]; rewrite e2 in n9; exact (at1 l j ix b s el0 n9 nl n5 n6).
Qed.
Lemma phiinv_fine method p o q : dom p -> pinv o -> v_phiinv a method p = Ok q -> exists o', get_phiinv op (map fst a) method p o = (o', Ok q) /\ pinv o'.
Proof.
  intros fl [i1 i2] ex; unfold v_phiinv in ex; apply rbind_inv in ex as (phis & e1 & ex); apply rbind_inv in ex as (ls & e2 & ex); cbv zeta in ex; apply rbind_inv in ex as (xs & e3 & e4).
  unfold get_phiinv; destruct (all_colls_ok inv (ready p) (fun c => get_phi op c p) (fun c => v_phi c p) o phis) as (o1 & f1 & j1 & k1); [|exact i1|exact e1|].
  { intros c s x hs i ey; destruct (phi_fine c hs p s x fl i ey) as (s' & g1 & g2 & g3 & g4); exists s'; split; [exact g1|]; exact (conj g2 (conj g3 g4)). }
  rewrite (andthen_ok _ _ _ _ f1).
  assert (G : exists o2, get_commons op (map fst a) o1 = (o2, Ok (commons_of (map fst a) ls)) /\ Forall2 (ready p) a (p_colls o2) /\ p_cs o2 = Some (commons_of (map fst a) ls)).
  { unfold get_commons; destruct (p_cs o1) as [cs|] eqn:Ec.
    - destruct (i2 cs (eq_sym k1)) as (ls' & el & ->); rewrite e2 in el; injection el as <-; exists o1; split; [reflexivity|]; split; [exact j1|congruence].
    - destruct (layouts_ready p o1 ls j1 e2) as (o2 & f2 & j2 & k2); rewrite (andthen_ok _ _ _ _ f2); eexists; split; [reflexivity|]; split; [exact j2|reflexivity]. }
  destruct G as (o2 & f2 & j2 & k2); rewrite (andthen_ok _ _ _ _ f2); destruct (layouts_ready p o2 ls j2 e2) as (o3 & f3 & j3 & k3); rewrite (andthen_ok _ _ _ _ f3).
  exists o3; split.
  - f_equal; unfold crosses; rewrite (rmapM_eq _ _ _ _ e3); [exact e4|].
    intros [k [ij ij']] y iy ey; cbn [fst snd] in *; apply in_flat_map in iy as ((k0 & l) & il & im); cbn [fst snd] in im; apply in_map_iff in im as (pr & [= <- ->] & ip); apply pairs_in in ip as [p1 p2].
    destruct (state_ready p o3 ls k0 ij j3 e2) as (m & b & s & b1 & b2 & b3 & b4); [now apply (commons_in _ _ _ l)|].
    destruct (state_ready p o3 ls k0 ij' j3 e2) as (m' & b' & s' & c1 & c2 & c3 & c4); [now apply (commons_in _ _ _ l)|].
    rewrite b3, c3; exact (proj2 hc ij ij' m m' b b' k0 p s s' y b1 c1 b2 c2 b4 c4 ey).
  - split; [|intros cs ecs; rewrite k3, k2 in ecs; injection ecs as <-; now exists ls].
    clear - j3; induction j3 as [|x y l l' hr h IH]; constructor; [apply hr|exact IH].
Qed.
Lemma like_fine method p o x : dom p -> pinv o -> v_like a method p = Ok x -> exists o', lnlikelihood op (map fst a) method p o = (o', Ok x) /\ pinv o'.
Proof.
  intros fl i ex; unfold v_like in ex; apply rbind_inv in ex as (x1 & e1 & ex); apply rbind_inv in ex as (x2 & e2 & ex); apply rbind_inv in ex as (x3 & e3 & ex); apply rbind_inv in ex as (x4 & e4 & ex); apply rbind_inv in ex as (x5 & e5 & ex).
  unfold lnlikelihood; destruct (colls_fine (fun c => get_TNr op c p) (fun c => v_TNr c p) o x1) as (o1 & f1 & i1); [intros c hs; now apply TNr_fine|exact i|exact e1|]; rewrite (andthen_ok _ _ _ _ f1).
  destruct (colls_fine (fun c => get_TNT op c p) (fun c => v_TNT c p) o1 x2) as (o2 & f2 & i2); [intros c hs; now apply TNT_fine|exact i1|exact e2|]; rewrite (andthen_ok _ _ _ _ f2).
  destruct (phiinv_fine method p o2 x3 fl i2 e3) as (o3 & f3 & i3); rewrite (andthen_ok _ _ _ _ f3).
  destruct (colls_fine (fun c => get_rNr op c p) (fun c => v_rNr c p) o3 x4) as (o4 & f4 & i4); [intros c hs; now apply rNr_fine|exact i3|exact e4|]; rewrite (andthen_ok _ _ _ _ f4).
  destruct (colls_fine (fun c => get_logsignalprior c p) (fun c => v_prior c p) o4 x5) as (o5 & f5 & i5); [intros c hs; now apply prior_fine|exact i4|exact e5|]; rewrite (andthen_ok _ _ _ _ f5), ex.
  now exists o5.
Qed.
Lemma nth_fst i c : @nth_error model a i = Some c -> nth_error (map fst a) i = Some (fst c).
Proof. intros e; rewrite nth_error_map; change (option_map (@fst coll (list beh)) (@nth_error model a i) = Some (fst c)); now rewrite e. Qed.
Lemma nth_put {A B} (rr : A -> B -> Prop) l l' i x y : Forall2 rr l l' -> nth_error l i = Some x -> rr x y -> Forall2 rr l (put_nth l' i y).
Proof. intros h; revert i; induction h as [|u v l l' hr h IH]; intros [|i] e r; try discriminate; cbn in *; constructor; try assumption; [congruence|now apply IH]. Qed.
Lemma ask_coll_fine c w p o (x : ans) : sound_coll c -> dom p -> inv c o ->
  match w with
  | WNdiag => rmap RNoise (v_ndiag c p) | WDelay => rmap RDelay (v_delay c p) | WDetres => rmap RDelay (v_detres c p)
  | WBasis => rmap RBasis (v_basis c p) | WPhi => rmap RPhi (v_phi c p) | WTNr => rmap RX (v_TNr c p) | WTNT => rmap RX (v_TNT c p)
  | WrNr => rmap RY (v_rNr c p) | WPrior => rmap RPrior (v_prior c p)
  end = Ok x -> exists o', ask_coll op (fst c) w p o = (o', Ok x) /\ inv c o'.
Proof.
  intros hs fl i; assert (Z : forall B (f : B -> ans) (g : cobj -> cobj * result B) v, fine c g v -> rmap f v = Ok x -> exists o', mapr f (g o) = (o', Ok x) /\ inv c o').
  { intros B f g v hf e; apply rmap_inv in e as (y & e & <-); destruct (hf o y i e) as (o' & e1 & i1 & _); exists o'; unfold mapr; rewrite e1; auto. }
  destruct w; cbn [ask_coll].
  - apply Z; now apply ndiag_fine.
  - apply Z; now apply delay_fine.
  - apply Z; now apply detres_fine.
  - apply Z; now apply basis_fine.
  - intros e; apply rmap_inv in e as (y & e & <-); destruct (phi_fine c hs p o y fl i e) as (o' & e1 & i1 & _); exists o'; unfold mapr; rewrite e1; auto.
  - apply Z; now apply TNr_fine.
  - apply Z; now apply TNT_fine.
  - apply Z; now apply rNr_fine.
  - apply Z; now apply prior_fine.
Qed.
Lemma ask_sig_fine m b w p s (x : ans) : sound m b -> dom p -> b_inv b s ->
  match w with
  | WNdiag => rmap RSNoise (b_ndiag b p) | WDelay => rmap RSDelay (b_delay b p) | WBasis => rmap RBasis (b_basis b p)
  | WPhi => rmap RSPhi (b_phi b p) | WPrior => rmap RPrior (b_prior b p) | _ => Err AttributeError
  end = Ok x -> exists s', ask_sig m w p s = (s', Ok x : result ans) /\ b_inv b s'.
Proof.
  intros hs fl i; assert (Z : forall B (f : B -> ans) (g : params R -> St -> St * result B) v post, answers (b_inv b) post g v -> rmap f (v p) = Ok x -> exists s', mapr f (g p s) = (s', Ok x) /\ b_inv b s').
  { intros B f g v post hf e; apply rmap_inv in e as (y & e & <-); destruct (hf p s y fl i e) as (s' & e1 & i1 & _); exists s'; unfold mapr; rewrite e1; auto. }
  destruct w; cbn [ask_sig]; try discriminate; eapply Z; apply hs.
Qed.
Lemma respond_fine q o r : dom (ask_params q) -> pinv o -> v_ask a q = Ok r -> exists o', respond op (map fst a) q o = (o', Ok r) /\ pinv o'.
Proof.
  intros fl i; destruct q as [method p|i0 w p|i0 j w p]; cbn [v_ask ask_params respond] in *.
  - intros e; apply rmap_inv in e as (x & e & <-); destruct (like_fine method p o x fl i e) as (o' & e1 & i1); exists o'; unfold mapr; rewrite e1; auto.
  - destruct (nth_error a i0) as [c|] eqn:En; [|discriminate]; intros e; destruct i as [i1 i2]; destruct (Forall2_nth _ _ _ _ _ i1 En) as (oc & n1 & ic).
    assert (hs : sound_coll c) by (exact (proj1 (Forall_forall _ _) ha c (nth_error_In _ _ En))).
    destruct (ask_coll_fine c w p oc r hs fl ic e) as (oc' & e1 & ic'); unfold at_nth; rewrite (nth_fst i0 c En), n1, e1.
    eexists; split; [reflexivity|]; split; [now apply (nth_put _ _ _ _ c)|exact i2].
  - destruct (nth_error a i0) as [c|] eqn:En; [|discriminate]; destruct (nth_error (snd c) j) as [b|] eqn:Eb; [|discriminate]; intros e; destruct i as [i1 i2]; destruct (Forall2_nth _ _ _ _ _ i1 En) as (oc & n1 & ic).
    assert (hs : sound_coll c) by (exact (proj1 (Forall_forall _ _) ha c (nth_error_In _ _ En))).
    assert (M : exists m, nth_error (c_sigs (fst c)) j = Some m /\ sound m b).
    { clear - hs Eb; unfold sound_coll in hs; revert j Eb; induction hs as [|m b' ms bs hr h IH]; intros [|j] e; try discriminate; [injection e as <-; now exists m|]; now apply IH. }
    destruct M as (m & nm & sm); destruct (Forall2_nth _ _ _ _ _ (proj1 ic) Eb) as (s & ns & is).
    destruct (ask_sig_fine m b w p s r sm fl is e) as (s' & e1 & is'); unfold at_nth at 1; rewrite (nth_fst i0 c En), n1; unfold at_nth; rewrite nm, ns, e1.
    eexists; split; [reflexivity|]; split; [apply (nth_put _ _ _ _ c); [exact i1|exact En|]; apply inv_sigs; [exact ic|]; apply (nth_put _ _ _ _ b); [apply ic|exact Eb|exact is']|exact i2].
Qed.
Lemma run_fine l : forall o rs, pinv o -> Forall2 (fun q r => dom (ask_params q) /\ v_ask a q = Ok r) l rs -> run op (map fst a) l o = map Ok rs.
Proof.
  induction l as [|q l IH]; intros o rs i h; inversion h as [|q0 r l0 rs' [fl e] h']; subst; [reflexivity|]; cbn [run map]; destruct (respond_fine q o r fl i e) as (o' & e1 & i1); rewrite e1; f_equal; now apply IH.
Qed.
Lemma pinv_new sss : Forall2 (fun c ss => Forall2 b_inv (snd c) ss) a sss -> pinv (new_pta sss).
Proof.
  intros h; split; [|discriminate]; cbn [p_colls new_pta]; clear - h; induction h as [|c ss l l' hr h IH]; constructor; [now apply inv_new|exact IH].
Qed.
End Array.
Lemma array_history_lem : forall (a : list model) (sss : list (list St)) (l : list ask) (rs : list ans),
  Forall sound_coll a -> sound_commons a -> Forall2 (fun c ss => Forall2 b_inv (snd c) ss) a sss ->
  Forall2 (fun q r => dom (ask_params q) /\ v_ask a q = Ok r) l rs -> run op (map fst a) l (new_pta sss) = map Ok rs.
Proof. intros a sss l rs ha hc hi hl; apply run_fine; [exact ha|exact hc|now apply pinv_new|exact hl]. Qed.
End Spec.
Arguments Beh {St N D F P}. Arguments b_ndiag {St N D F P} b p. Arguments b_delay {St N D F P} b p. Arguments b_basis {St N D F P} b p.
Arguments b_phi {St N D F P} b p. Arguments b_prior {St N D F P} b p. Arguments b_inv {St N D F P} b s. Arguments b_at {St N D F P} b p s.
Arguments answers {St} dom {B} inv post f v. Arguments sound {St N D F P} dom m b. Arguments sound_coll {St N D F P} dom c.
Arguments sound_commons {St N D F I P Ph C X Y Q L LS} op v_cross a. Arguments v_ask {St N D F I P Ph C X Y Q L LS} op v_cross a q.
Arguments beh_at {St N D F P} a ij.
