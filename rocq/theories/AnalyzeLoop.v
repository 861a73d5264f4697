(** Conflict analysis as a whole. *)
From Coq Require Import ZArith List Bool Lia Arith Permutation Sorted.
From Coq Require Import ZifyBool ZifyNat.
From Verif Require Import Base Hoare SpecSat Lit Sem Solver Analyze Inv DbFacts AssignFacts AssignSpec BacktrackFacts PropFacts PropLoop CutFacts OneLit MarkFacts ClauseFacts DeduceFacts Otfs DeduceLoop MinFacts ShrinkFacts Learnable LearnFacts.
Import ListNotations.
Open Scope nat_scope.

Lemma learnable_set_an : forall s a nu K, learnable s a nu K -> learnable (set_an a s) (an (set_an a s)) nu K.
Proof. intros s a nu K [A B C D E F]. constructor; auto. Qed.

(** After the analysis of a conflict the solver can propagate again or is inconsistent. *)
Definition analyzed_ok (orig : list (list lit)) (s s' : solver) (goes_on : bool) : Prop :=
  shape s' = shape s /\
  if goes_on then ready orig s' /\ inconsistent s' = inconsistent s
  else linv orig s' /\ inconsistent s' = true.

Lemma analyze_loop_spec : forall orig o fuel p c s, aprec orig p s c -> level s * S (length (trail s)) + p < fuel ->
  wp (analyze_loop fuel o c s) (fun '(r, s') => match r with Some s'' => s'' = s' /\ analyzed_ok orig s s' true | None => analyzed_ok orig s s' false end).
Proof.
  intros orig o. induction fuel as [|fuel IH]; intros p c s Ap Fu; [lia|]. cbn [analyze_loop]. apply wp_bind.
  eapply wp_mono; [apply (one_literal_spec orig p o c s Ap)|]. intros [[s1 used] cl] (V1 & Post).
  destruct used.
  { apply wp_ret. split; auto. unfold analyzed_ok. auto. }
  destruct (cl =? 0) eqn:E0.
  { apply wp_ret. destruct Post as [C1 I1]. split; auto. split; auto. apply C1. }
  apply Nat.eqb_neq in E0. destruct Post as (p1 & Ap1 & St & Lv & Dn & Sm & Cl & lits & l & m & Cf & Il & Im & Nlm & Ll & Lm).
  destruct (Nat.eqb_spec cl 1) as [E1|N1].
  { apply wp_bind. eapply wp_mono; [apply (analyze_failed_literal_spec orig p1 s1 c Ap1); [congruence|]|].
    - exists lits, l. splits; auto. congruence.
    - intros s2 (St2 & R2). apply wp_ret. split; auto. split; [rewrite <- V1; apply St2|]. split; [exact R2|].
      destruct St, St2. cbn. congruence. }
  assert (Fu1 : level s1 * S (length (trail s1)) + p1 <= level s * S (length (trail s)) + p).
  { destruct (Nat.eq_dec (level s1) (level s)) as [E|N].
    - destruct (Sm E) as [-> X]. now rewrite E, X.
    - destruct (Dn ltac:(lia)) as [-> X]. nia. }
  apply wp_bind. eapply wp_mono; [apply (deduce_spec o orig p1 s1 c lits Ap1 Cf)|].
  { exists l, m. rewrite Lv. auto. }
  intros [s2 [c'|]] Post.
  - destruct Post as (St2 & Lv2 & Tr2 & p' & Pl & Ap2).
    eapply wp_mono; [apply (IH p' c' _ Ap2)|].
    { cbn [set_an trail level]. rewrite Lv2, Tr2. lia. }
    assert (X : forall b s', analyzed_ok orig (set_an (reset_only_analyzed (reset_analysis_but_not_analyzed (an s2))) s2) s' b -> analyzed_ok orig s s' b).
    { intros b s' (A & B). destruct St, St2. split; [unfold shape in *; cbn in *; congruence|]. destruct b; auto. destruct B as [B1 B2]. split; auto. cbn in B2. congruence. }
    intros [[s''|] s']; [intros [-> H]; split; auto|auto].
  - destruct Post as (a & uip & U & ->). apply wp_bind.
    eapply wp_mono with (P := fun s' => exists a' K, s' = set_an a' s1 /\ learnable s1 a' (neg uip) K).
    { unfold minimize_and_shrink. destruct (o_minimize o).
      - apply wp_bind. eapply wp_mono; [apply (minimize_clause_spec orig p1 s1 c lits a uip Ap1 U o)|].
        intros s' (a' & K & -> & Sg). destruct (0 <? o_shrink o).
        + apply (shrink_clause_spec orig p1 s1 c lits a uip Ap1 Cf U o a' K Sg).
        + apply wp_ret. exists a', K. split; auto. apply (stage_learnable orig p1 s1 c lits a uip Ap1 Cf U a' K Sg).
      - apply wp_ret. eexists _, _. split; [reflexivity|]. apply (plain_learnable orig p1 s1 c lits a uip Ap1 Cf U). }
    intros s3 (a' & K & -> & Le). apply wp_bind.
    eapply wp_mono; [apply (learn_clause_spec orig p1 (set_an a' s1) (neg uip) K o)|].
    + apply core_set_an, Ap1.
    + apply pinv_set_an. apply Ap1.
    + apply Ap1.
    + now apply learnable_set_an.
    + intros s4 (C4 & P4 & St4 & (M1 & M2 & M3 & M4) & _). apply wp_ret. split; auto. destruct St, St4. split; [unfold shape in *; cbn in *; congruence|].
      split; [|cbn in *; congruence]. unfold ready. splits.
      * now apply core_set_an.
      * now apply pinv_set_an.
      * now apply clean_reset.
Qed.
