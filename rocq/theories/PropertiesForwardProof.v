(** C56: the proof written by forward subsumption. *)
From Coq Require Import ZArith List Bool Lia Arith.
From Coq Require Import ZifyBool ZifyNat.
From Verif Require Import Base SpecSat SpecDrat Lit Solver Eliminate DenseFacts Forward ForwardFacts ForwardRun ForwardLoop PropertiesEliminate PropertiesForward.
From Verif Require FactorFacts FactorApply PropertiesFactor Inv.
From Verif Require Import Sem ForwardProof ForwardProofRun.
Import ListNotations.
Open Scope nat_scope.
Open Scope outcome_scope.

(** ** The clauses of the initial state are those of the formula *)
Lemma pairs_app : forall n x (f g : lit -> list dwatch), cnt x (pairs n (fun k => f k ++ g k)) = cnt x (pairs n f) + cnt x (pairs n g).
Proof.
  intros n x f g. unfold FactorFacts.pairs. induction (seq 0 (2 * n)) as [|a ks IH]; cbn [flat_map]; auto. rewrite flat_map_app, !cnt_app, IH. lia.
Qed.
Lemma pairs_nil : forall n x, cnt x (pairs n (fun _ => [])) = 0.
Proof. intros n x. unfold FactorFacts.pairs. induction (seq 0 (2 * n)) as [|a ks IH]; auto. Qed.
Lemma pairs_single : forall n x a b, a < 2 * n -> cnt x (pairs n (fun k => if a =? k then [DBinary b] else [])) = cnt x (pair_of a (DBinary b)).
Proof.
  intros n x a b L. pose proof (pairs_upd n (fun _ => []) (fun k => if a =? k then [DBinary b] else []) a x) as H. cbv beta in H. rewrite Nat.eqb_refl, pairs_nil in H.
  change (flat_map (pair_of a) [DBinary b]) with (pair_of a (DBinary b) ++ []) in H. rewrite app_nil_r in H. change (cnt x (flat_map (pair_of a) [])) with 0 in H.
  rewrite Nat.add_0_r in H. apply H; auto. intros k N. destruct (Nat.eqb_spec a k); congruence.
Qed.
Lemma pairs_ext : forall n x (f g : lit -> list dwatch), (forall k, f k = g k) -> cnt x (pairs n f) = cnt x (pairs n g).
Proof. intros n x f g H. f_equal. apply FactorFacts.pairs_large. intros l. now rewrite H. Qed.
Lemma formula_counts : forall n F x, well_formed n F -> cnt x (pairs n (bin_part F)) + cnt x (larges_of F) <= cnt x F.
Proof.
  intros n F x. induction F as [|c F IH]; intros W.
  - change (bin_part []) with (fun _ : lit => @nil dwatch). rewrite pairs_nil. cbn. lia.
  - assert (IH' : cnt x (pairs n (bin_part F)) + cnt x (larges_of F) <= cnt x F) by (apply IH; intros e I; apply W; now right). clear IH.
    destruct (W c (or_introl eq_refl)) as (Le & Nd & Hl). rewrite cnt_cons.
    assert (Dr : forall f, (forall k, bin_part (c :: F) k = f k ++ bin_part F k) -> cnt x (pairs n (bin_part (c :: F))) = cnt x (pairs n f) + cnt x (pairs n (bin_part F))).
    { intros f E. rewrite <- pairs_app. now apply pairs_ext. }
    destruct c as [|a [|b [|e c]]]; cbn [length] in Le; try lia.
    + change (larges_of ([a; b] :: F)) with (larges_of F).
      rewrite (Dr (fun k => (if a =? k then [DBinary b] else []) ++ (if b =? k then [DBinary a] else []))) by (intros k; reflexivity).
      rewrite pairs_app, !pairs_single; [|apply (Hl b); right; now left|apply (Hl a); now left].
      rewrite pair_cnt; [lia|]. inversion Nd as [|y ys N1 N2]; subst. intros ->. apply N1. now left.
    + change (larges_of ((a :: b :: e :: c) :: F)) with ((a :: b :: e :: c) :: larges_of F). rewrite cnt_cons.
      rewrite (Dr (fun _ => [])) by (intros k; reflexivity). rewrite pairs_nil. lia.
Qed.
Lemma arena_lists : forall (L : list (list lit)), Inv.irredundants (length L) (fun r => option_map (fun c => mk_clause c false false 2) (nth_error L r)) = L.
Proof.
  intros L. unfold Inv.irredundants. induction L as [|c L IH]; auto. cbn [length seq flat_map nth_error option_map Inv.irredundant_of c_garbage c_redundant orb c_lits app].
  f_equal. rewrite <- seq_shift, flat_map_concat_map, map_map, <- flat_map_concat_map. exact IH.
Qed.
Lemma forward_of_rinv : forall n F, well_formed n F -> rinv F (forward_of n F).
Proof.
  intros n F W. constructor.
  - split; [exact I|]. intros x. rewrite cnt_udb. change (cnt x [] + cnt x (pairs n (bin_part F)) + cnt x (Inv.irredundants (length (larges_of F))
      (fun r => option_map (fun c => mk_clause c false false 2) (nth_error (larges_of F) r))) <= cnt x F). rewrite arena_lists, cnt_nil. now apply formula_counts.
  - intros l H. discriminate.
  - intros l. reflexivity.
  - intros a b I. cbn in I. apply bin_part_in in I as (k & _ & [J|J]); apply (proj2 (proj2 (W _ J)) a); cbn; auto.
  - intros r c l Ar I. apply dense_of_arena in Ar as (K & _). apply (proj2 (proj2 (W _ K)) l I).
Qed.

(** ** Theorem *)
(** The proof is accepted by a checker which starts with the clauses of the formula: every line that is added has reverse
    unit propagation (no line needs the weaker property of resolution asymmetric tautologies), and every line that is
    deleted is present.  The lines of the model are in reverse order. *)
Theorem C56_proof : forall o budget sub n F complete sub' d', well_formed n F ->
  kissat_forward_subsume o budget sub (forward_of n F) = Ret (complete, sub', d') ->
  SpecDrat.checked neg F (rev (steps (d_sol d'))).
Proof.
  intros o budget sub n F complete sub' d' W E.
  pose proof (ok_use _ _ _ _ (forward_subsume_r F o budget sub _ (forward_of_pinv n F W) (fun k => eq_refl) (forward_of_free n F) (forward_of_rinv n F W)) E) as R.
  cbv beta iota in R. destruct (ri_pr _ _ R) as (P & _). apply (FactorApply.checks_checked _ _ _ (PropertiesFactor.pdb_checks F _ P)).
Qed.
Print Assumptions C56_proof.

(** After the proof was checked, the clauses which the solver still has are present for the checker, so that later lines
    may use and delete them ([run] of Sem.v executes the lines on the list of clauses). *)
Theorem C56_proof_holds_clauses : forall o budget sub n F complete sub' d', well_formed n F ->
  kissat_forward_subsume o budget sub (forward_of n F) = Ret (complete, sub', d') ->
  forall c, held d' c -> inconsistent (d_sol d') = false -> exists e, In e (run F (rev (steps (d_sol d')))) /\ same_literals c e.
Proof.
  intros o budget sub n F complete sub' d' W E c H N.
  pose proof (ok_use _ _ _ _ (forward_subsume_r F o budget sub _ (forward_of_pinv n F W) (fun k => eq_refl) (forward_of_free n F) (forward_of_rinv n F W)) E) as R.
  destruct (ok_use _ _ _ _ (forward_subsume_spec o budget sub _ (forward_of_pinv n F W) (fun k => eq_refl) (forward_of_free n F)) E) as (Ev & _).
  cbv beta iota in R. pose proof (fe_inv _ _ _ Ev) as V. destruct (ri_pr _ _ R) as (_ & M).
  assert (Th : there d' c).
  { destruct H as [(-> & X)|[(l & -> & T)|[(a & b & -> & I)|(r & x & Ar & Re & G & ->)]]].
    - congruence.
    - exists [l]. split; [now apply (there_unit F)|apply same_literals_refl].
    - now apply (there_bin F).
    - apply (there_large d' r x); auto. split; auto. }
  destruct Th as (f & I & S). destruct (msub_covers _ _ M f I) as (e & Ie & Se). exists e.
  split; [|eapply same_literals_trans; eauto]. rewrite run_pdb. exact Ie.
Qed.
Print Assumptions C56_proof_holds_clauses.

(** ** A case *)
(** The lines for the formula of PropertiesForward. *)
Example sub_proof : match kissat_forward_subsume (mk_forward_options 100 100) 100 (fun _ => true) (forward_of 11 sub_formula) with
  | Ret (_, _, d) => rev (steps (d_sol d)) | _ => [] end =
  [Deleted [0; 2]; Added [8]; Deleted [0; 2; 4]; Added [0; 18]; Deleted [0; 3; 18]; Added [4; 1; 12]; Deleted [7; 4; 1; 12];
   Added [14; 16; 6]; Deleted [2; 14; 16; 6]; Deleted [0; 18; 20; 9]].
Proof. vm_compute. reflexivity. Qed.
