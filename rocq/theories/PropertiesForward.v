(** C56: forward subsumption during elimination. *)
From Coq Require Import ZArith List Bool Lia Arith.
From Coq Require Import ZifyBool ZifyNat.
From Verif Require Import Base SpecSat Lit Solver Eliminate DenseFacts Forward ForwardFacts ForwardRun ForwardLoop PropertiesEliminate.
Import ListNotations.
Open Scope nat_scope.
Open Scope outcome_scope.

(** ** Specification *)
(** The state in which forward subsumption starts for a formula: binary clauses are in the lists of occurrences, larger
    clauses in the arena only. *)
Definition forward_of (n : nat) (F : list (list lit)) : dense := set_d_occs (bin_part F) (dense_of n F).

(** The clauses of a state: the empty clause if it is inconsistent, the literals which are true, the binary clauses in
    the lists of occurrences and the irredundant clauses in the arena. *)
Definition held (d : dense) (c : list lit) : Prop :=
  (c = [] /\ inconsistent (d_sol d) = true) \/
  (exists l, c = [l] /\ values (d_sol d) l = Some true) \/
  (exists a b, c = [a; b] /\ In (DBinary b) (d_occs d a)) \/
  exists r x, arena (d_sol d) r = Some x /\ c_redundant x = false /\ c_garbage x = false /\ c = c_lits x.
Definition satisfies_held (v : Z -> bool) (d : dense) : Prop :=
  forall c, held d c -> exists l, In l c /\ literal_true v (external_literal l) = true.

Lemma held_models : forall d v, satisfies_held v d <-> models d (internal v).
Proof.
  intros d v. unfold satisfies_held, models. split.
  - intros H. splits.
    + destruct (inconsistent (d_sol d)) eqn:E; auto. destruct (H []) as (l & [] & _). left. auto.
    + intros l T. destruct (H [l]) as (k & [<-|[]] & Tk); [right; left; eauto|]. now rewrite internal_tr.
    + intros a b I. destruct (H [a; b]) as (k & [<-|[<-|[]]] & Tk); [right; right; left; eauto| |]; rewrite !internal_tr; auto.
    + intros r c A (R & G). destruct (H (c_lits c)) as (k & I & Tk); [right; right; right; exists r, c; auto|]. exists k. split; auto. now rewrite internal_tr.
  - intros (A & B & C & D) c [(-> & E)|[(l & -> & T)|[(a & b & -> & I)|(r & x & Ar & R & G & ->)]]].
    + congruence.
    + exists l. split; [now left|]. rewrite <- internal_tr. now apply B.
    + destruct (C a b I) as [T|T]; [exists a|exists b]; cbn; rewrite <- internal_tr; auto.
    + destruct (D r x Ar) as (k & I & T); [split; auto|]. exists k. rewrite <- internal_tr. auto.
Qed.

Lemma bin_part_in : forall F k w, In w (bin_part F k) <-> exists b, w = DBinary b /\ (In [k; b] F \/ In [b; k] F).
Proof.
  intros F k w. split.
  - intros I. assert (J : In w (occurrences_of F k)) by (unfold occurrences_of; apply in_or_app; left; exact I).
    apply in_occurrences in J. destruct w as [b|r]; [eauto|]. exfalso. unfold bin_part in I. apply in_flat_map in I as ((x & y) & _ & I).
    apply in_app_iff in I as [I|I]; [destruct (x =? k)|destruct (y =? k)]; cbn in I; intuition congruence.
  - intros (b & -> & I). apply cnt_in. rewrite <- occurrences_binary. apply cnt_in. now apply in_occurrences.
Qed.
Lemma forward_of_free : forall n F r, free (forward_of n F) r.
Proof. intros n F r l I. cbn in I. apply bin_part_in in I as (b & E & _). discriminate. Qed.
Lemma forward_of_pinv : forall n F, well_formed n F -> pinv (forward_of n F).
Proof.
  intros n F W. pose proof (EliminateFacts.gd_inv _ (dense_of_good n F W)) as [I1 I2 I3 I4 I5 I6 I7 I8 I9 I10].
  assert (Bi : forall a b, In (DBinary b) (bin_part F a) <-> In (DBinary b) (occurrences_of F a)).
  { intros a b. now rewrite !cnt_in, occurrences_binary. }
  constructor; auto.
  - intros l r I. now apply forward_of_free in I.
  - intros a b I. apply I7. now apply Bi.
  - intros a b I. apply Bi. apply cnt_in. change (0 < cnt (DBinary a) (d_occs (dense_of n F) b)). rewrite <- I8. apply cnt_in. now apply Bi.
  - intros l G. specialize (I10 l G). cbn in I10. unfold occurrences_of in I10. apply app_eq_nil in I10 as (E & _). exact E.
  - intros r c l Ar _ I. cbn. apply dense_of_arena in Ar as (K & _). destruct (W _ K) as (_ & _ & H). destruct (H l I) as (L & _). apply idx_lt in L. lia.
Qed.
Lemma forward_of_models : forall n F v, models (forward_of n F) v <-> models (dense_of n F) v.
Proof.
  intros n F v. unfold models, bins. cbn [forward_of d_occs set_d_occs d_sol dense_of]. split; intros (A & B & C & D); splits; auto; intros a b I; apply C; revert I; rewrite !cnt_in, occurrences_binary; auto.
Qed.

(** ** Theorems *)
(** In all theorems the formula, the options, the variables with the flag [subsume] and the number of clauses considered
    before the limit is reached are arbitrary. *)

(** Subsumption and strengthening, together with the units found and propagated on the way, keep exactly the models of
    the formula.  In particular the empty clause is derived from unsatisfiable formulas only. *)
Theorem C56_equivalent : forall o budget sub n F complete sub' d', well_formed n F ->
  kissat_forward_subsume o budget sub (forward_of n F) = Ret (complete, sub', d') ->
  forall v, satisfies v (external_formula F) <-> satisfies_held v d'.
Proof.
  intros o budget sub n F complete sub' d' W E v.
  destruct (ok_use _ _ _ _ (forward_subsume_spec o budget sub _ (forward_of_pinv n F W) (fun k => eq_refl) (forward_of_free n F)) E) as (Ev & _).
  rewrite held_models, <- (fe_models _ _ _ Ev), forward_of_models. symmetry. now apply internal_models.
Qed.
Print Assumptions C56_equivalent.

(** No clause gets longer or is new: each clause that is left, other than units and the empty clause, is contained in a
    clause of the formula. *)
Theorem C56_contained : forall o budget sub n F complete sub' d' c, well_formed n F ->
  kissat_forward_subsume o budget sub (forward_of n F) = Ret (complete, sub', d') ->
  held d' c -> 1 < length c -> exists e, In e F /\ incl c e.
Proof.
  intros o budget sub n F complete sub' d' c W E H L.
  destruct (ok_use _ _ _ _ (forward_subsume_spec o budget sub _ (forward_of_pinv n F W) (fun k => eq_refl) (forward_of_free n F)) E) as (Ev & _).
  destruct H as [(-> & _)|[(l & -> & _)|[(a & b & -> & I)|(r & x & Ar & R & G & ->)]]]; [cbn in L; lia|cbn in L; lia| |].
  - destruct (fe_bins _ _ _ Ev a b I) as [J|(r & x & Ar & _ & Ia & Ib)].
    + cbn in J. apply bin_part_in in J as (b' & e & J). injection e as <-. destruct J as [J|J]; [exists [a; b]|exists [b; a]]; (split; [auto|]); intros k; cbn; tauto.
    + apply dense_of_arena in Ar as (K & _). exists (c_lits x). split; auto. intros k [<-|[<-|[]]]; auto.
  - destruct (fe_arena _ _ _ Ev r x Ar) as (y & Ay & _ & In0 & _). apply dense_of_arena in Ay as (K & _). eauto.
Qed.
Print Assumptions C56_contained.

(** Each line added to the proof follows from the formula.  See C56_proof in PropertiesForwardProof.v for checking the
    proof. *)
Theorem C56_proof_implied : forall o budget sub n F complete sub' d' c, well_formed n F ->
  kissat_forward_subsume o budget sub (forward_of n F) = Ret (complete, sub', d') ->
  In (Added c) (steps (d_sol d')) ->
  forall v, satisfies v (external_formula F) -> exists l, In l c /\ literal_true v (external_literal l) = true.
Proof.
  intros o budget sub n F complete sub' d' c W E I v M.
  destruct (ok_use _ _ _ _ (forward_subsume_spec o budget sub _ (forward_of_pinv n F W) (fun k => eq_refl) (forward_of_free n F)) E) as (Ev & _).
  destruct (fe_steps _ _ _ Ev) as (st & Es & Hs). change (steps (d_sol (forward_of n F))) with (@nil (line lit)) in Es. rewrite app_nil_r in Es. rewrite Es in I.
  destruct (Hs c (internal v) I) as (l & Il & Tl). { now rewrite forward_of_models, internal_models. }
  exists l. split; auto. now rewrite <- internal_tr.
Qed.
Print Assumptions C56_proof_implied.

(** ** A case *)
(** The formula has a duplicated binary clause, two binary clauses which give the unit 5, a clause subsumed by a binary
    clause, a clause strengthened to a binary clause which then subsumes another clause, and clauses strengthened by large
    clauses. *)
Definition sub_formula : list (list lit) :=
  [[0; 2]; [2; 0]; [8; 10]; [8; 11]; [0; 2; 4]; [1; 4; 6]; [7; 4; 1; 12]; [3; 14; 16]; [2; 14; 16; 6]; [0; 3; 18]; [0; 18; 20; 9]].
Example sub_external : external_formula sub_formula =
  [[1; 2]; [2; 1]; [5; 6]; [5; -6]; [1; 2; 3]; [-1; 3; 4]; [-4; 3; -1; 7]; [-2; 8; 9]; [2; 8; 9; 4]; [1; -2; 10]; [1; 10; 11; -5]]%Z.
Proof. reflexivity. Qed.
Example sub_well_formed : well_formed 11 sub_formula.
Proof.
  intros c I. cbn in I. decompose [or] I; try contradiction; subst c; (split; [cbn; lia|split; [repeat constructor; cbn; lia|]]);
    intros l J; cbn in J; decompose [or] J; try contradiction; subst l; cbn; lia.
Qed.
Definition forward_report (x : outcome (bool * (nat -> bool) * dense)) :=
  match x with
  | Ret (complete, sub, d) => Some (complete, filter sub (seq 0 11), filter (dtrue d) (seq 0 22),
      map (fun r => match arena (d_sol d) r with Some c => (c_garbage c, c_lits c) | None => (true, []) end) (seq 0 (next_ref (d_sol d))),
      map (d_occs d) [0; 2])
  | _ => None
  end.
Example sub_result : forward_report (kissat_forward_subsume (mk_forward_options 100 100) 100 (fun _ => true) (forward_of 11 sub_formula)) =
  Some (false, [0; 2; 3; 6; 7; 8; 9], [8],
    [(true, [0; 2; 4]); (false, [1; 4; 6]); (false, [4; 1; 12]); (false, [3; 14; 16]); (false, [14; 16; 6]);
     (true, [0; 3; 18]); (true, [0; 18; 20; 9])],
    [[DBinary 2; DBinary 18]; [DBinary 0]]).
Proof. vm_compute. reflexivity. Qed.
