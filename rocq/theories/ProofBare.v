(** The Fourier bases called without keywords. *)
From Coq Require Import String Bool Arith ZArith List Reals Lia Lra.
From Verif Require Import PyBase ProofBase ModelSelect ProofSelect ModelFunc ModelCache ModelGp ProofGp ModelBases ModelSpectra ProofBases ProofSpectra ModelOrf ModelInterp ModelSized ProofSigs ModelKinds ModelStandard ProofStdFn.
Import ListNotations.
Open Scope string_scope.
Open Scope list_scope.
Open Scope R_scope.

(** A basis function made with no keyword but the index *)
Definition bare_class {S : Type} (seeded : Z -> S) (next : S -> R * S) (c : colour) : fcl :=
  match c with
  | Achromatic => FC (red_fn seeded next) "" []
  | Dispersive => FC (dm_fn seeded next) "" []
  | Chromatic None => FC (chromatic_fn seeded next) "" []
  | Chromatic (Some x) => FC (chromatic_fn seeded next) "" [("idx", AVal (num x))]
  end.
Lemma INR_30 : INR 30 = 30.
Proof. rewrite INR_IZR_INZ; reflexivity. Qed.
Lemma standard_bases_lem : forall S (seeded : Z -> S) next d c nm p T, extent (d_toas d) = Ok T -> length (d_freqs d) = length (d_toas d) ->
  exists M fs, gcall (inst (bare_class seeded next c) nm (Some (d_gv d))) [] [] p = Ok (GPair (GMat 60 M) (GV (Vec fs))) /\
  length M = length (d_toas d) /\
  (forall i j, (i < length (d_toas d))%nat -> (j < 60)%nat ->
     nth j (nth i M []) 0 = (if Nat.even j then sin else cos) (2 * PI * nth i (d_toas d) 0 * (INR (Nat.div2 j + 1) / T)) * tint c (nth i (d_freqs d) 0)) /\
  forall k, (k < 30)%nat -> nth (2 * k) fs 0 = INR (k + 1) / T /\ nth (2 * k + 1) fs 0 = INR (k + 1) / T.
Proof.
  intros S seeded next d c nm p T hT lf.
  exists (crows 30 d c T), (rep 2 (freqs 30 T)); split.
  - assert (sp : spans None (d_toas d) T) by exact hT.
    refine (eq_trans _ (call_colour seeded next 30 d c None T "x" p sp lf)).
    assert (kt : gv_masked (GMask (repeat true (length (d_toas d)))) (GV (Vec (d_toas d))) = GV (Vec (d_toas d)) /\
                 gv_masked (GMask (repeat true (length (d_toas d)))) (GV (Vec (d_freqs d))) = GV (Vec (d_freqs d)))
      by (split; cbn [gv_masked]; [|rewrite lf]; rewrite repeat_length, Nat.eqb_refl, take_all by (reflexivity || assumption); reflexivity).
    destruct kt as [k1 k2]; unfold gcall; generalize (lift p); intros P.
    destruct c as [| |[x|]]; cbn [bare_class colour_class].
    + transitivity (pf_body (red_fn seeded next) [GV (Vec (d_toas d)); num (INR 30); none; num 0; none; none; num 0; none; none]).
      * rewrite INR_30; reflexivity.
      * rewrite <- k1 at 1; reflexivity.
    + transitivity (pf_body (dm_fn seeded next) [GV (Vec (d_toas d)); GV (Vec (d_freqs d)); num (INR 30); none; num 0; num 1400; num 0; none; none; none]).
      * rewrite INR_30; reflexivity.
      * rewrite <- k1 at 1; rewrite <- k2 at 1; reflexivity.
    + transitivity (pf_body (chromatic_fn seeded next) [GV (Vec (d_toas d)); GV (Vec (d_freqs d)); num (INR 30); none; num 0; none; none; num x; none]).
      * rewrite INR_30; reflexivity.
      * rewrite <- k1 at 1; rewrite <- k2 at 1; reflexivity.
    + transitivity (pf_body (chromatic_fn seeded next) [GV (Vec (d_toas d)); GV (Vec (d_freqs d)); num (INR 30); none; num 0; none; none; num 4; none]).
      * rewrite INR_30; reflexivity.
      * rewrite <- k1 at 1; rewrite <- k2 at 1; reflexivity.
  - split; [exact (proj1 (crows_shape 30 d c T lf))|]; split.
    + intros i j hi hj; rewrite crows_entry by (assumption || lia); rewrite rows_entry by (assumption || lia); reflexivity.
    + intros k hk; destruct (rep2_nth (freqs 30 T) k 0) as [-> ->].
      assert (e : nth k (freqs 30 T) 0 = INR (k + 1) / T); [|now rewrite e].
      unfold freqs; rewrite (nth_map_in _ _ _ 0 0%nat) by (now rewrite seq_length); rewrite seq_nth by assumption.
      rewrite Rmult_1_l; do 2 f_equal; lia.
Qed.
Lemma standard_bases_ex : extent [3; 1; 2] = Ok (3 - 1).
Proof. cbn; repeat f_equal; unfold Rmax, Rmin; repeat destruct Rle_dec; lra. Qed.
