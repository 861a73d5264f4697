(** Decision levels: every analysis lowers the level, and only backtracking and decisions change it. *)
From Coq Require Import ZArith List Bool Lia Arith.
From Coq Require Import ZifyBool ZifyNat.
From Verif Require Import Base Lit Solver Analyze Search.
Import ListNotations.
Open Scope nat_scope.
Open Scope outcome_scope.

(** [P] holds of what is returned, if anything. *)
Definition post {A} (m : outcome A) (P : A -> Prop) : Prop := match m with Ret a => P a | _ => True end.
Lemma post_bind : forall A B (m : outcome A) (f : A -> outcome B) P Q, post m P -> (forall a, P a -> post (f a) Q) -> post (obind m f) Q.
Proof. intros A B [a| | |] f P Q H I; cbn in *; auto. Qed.
Lemma post_any : forall A B (m : outcome A) (f : A -> outcome B) Q, (forall a, post (f a) Q) -> post (obind m f) Q.
Proof. intros A B [a| | |] f Q H; cbn in *; auto. Qed.
Lemma post_mono : forall A (m : outcome A) (P Q : A -> Prop), post m P -> (forall a, P a -> Q a) -> post m Q.
Proof. intros A [a| | |] P Q H I; cbn in *; auto. Qed.
Lemma post_assert : forall B b (f : unit -> outcome B) Q, (b = true -> post (f tt) Q) -> post (obind (oassert b) f) Q.
Proof. intros B [] f Q H; cbn; auto. Qed.
Lemma post_use : forall A (m : outcome A) P a, post m P -> m = Ret a -> P a.
Proof. intros A m P a H ->. exact H. Qed.

Ltac done := solve [cbn in *; auto; try congruence; try lia].
(** Goes through a computation: [H] is used for the steps which matter. *)
Ltac walk := repeat match goal with
  | |- post (obind (oassert _) _) _ => apply post_assert; intros ?
  | |- post (Ret _) _ => cbn [post]
  | |- post Undef _ => exact I
  | |- post Fuel _ => exact I
  | |- post (if ?c then _ else _) _ => destruct c eqn:?
  | |- post (match ?c with _ => _ end) _ => destruct c eqn:?
  | |- post (let '(_, _) := ?c in _) _ => destruct c eqn:?
  end.

Lemma assign_level : forall k r l s, post (assign k r l s) (fun s' => level s' = level s).
Proof. intros. unfold assign. walk. destruct (k =? 0), (is_unit_reason r); reflexivity. Qed.
Lemma fast_binary_assign_level : forall o k l x s, post (fast_binary_assign o k l x s) (fun s' => level s' = level s).
Proof. intros. apply assign_level. Qed.
Lemma assign_binary_level : forall o l x s, post (assign_binary o l x s) (fun s' => level s' = level s).
Proof. intros. unfold assign_binary. walk. apply assign_level. Qed.
Lemma assign_reference_level : forall l r s, post (assign_reference l r s) (fun s' => level s' = level s).
Proof. intros. unfold assign_reference. walk. apply assign_level. Qed.
Lemma learned_unit_level : forall l s, post (learned_unit l s) (fun s' => level s' = level s).
Proof. intros. unfold learned_unit. eapply post_bind; [apply assign_level|]. intros s1 E. exact E. Qed.
Lemma unwatch_level : forall l r s, post (unwatch_blocking l r s) (fun s' => level s' = level s).
Proof. intros. unfold unwatch_blocking. walk. reflexivity. Qed.
Lemma new_binary_level : forall b x y s, level (new_binary_clause b x y s) = level s.
Proof. intros [] x y s; reflexivity. Qed.
Lemma new_large_level : forall b r ls s, post (new_large_clause b r ls s) (fun p => level (snd p) = level s).
Proof. intros b r [|x [|y [|z ls]]] s; cbn; auto. destruct b; reflexivity. Qed.
Lemma mark_garbage_level : forall r s, post (mark_garbage r s) (fun s' => level s' = level s).
Proof. intros. unfold mark_garbage. walk. reflexivity. Qed.

(** ** Propagation *)
Lemma propagate_watches_level : forall o x k ws kept del s, post (propagate_watches o x k ws kept del s) (fun p => let '(s', _, _, _) := p in level s' = level s).
Proof.
  intros o x k ws. induction ws as [|w ws IH]; intros kept del s; cbn [propagate_watches]; [reflexivity|].
  walk; try apply IH; try reflexivity.
  - eapply post_bind; [apply fast_binary_assign_level|]. intros s1 E. eapply post_mono; [apply IH|]. intros [[[s2 a] b] c] F. congruence.
  - eapply post_mono; [apply IH|]. intros [[[s2 a] b] d] F. exact F.
  - eapply post_bind; [apply assign_reference_level|]. intros s1 E. eapply post_mono; [apply IH|]. intros [[[s2 a] b] d] F. congruence.
Qed.
Lemma push_delayed_level : forall d s, level (push_delayed d s) = level s.
Proof. unfold push_delayed. induction d as [|x d IH]; intros s; cbn [fold_left]; auto. now rewrite IH. Qed.
Lemma propagate_literal_level : forall o l s, post (propagate_literal o l s) (fun p => level (fst p) = level s).
Proof.
  intros. unfold propagate_literal. walk. eapply post_bind; [apply propagate_watches_level|]. intros [[[s1 a] b] c] E. walk. cbn [fst].
  rewrite push_delayed_level. exact E.
Qed.
Lemma propagate_loop_level : forall n o s, post (propagate_loop n o s) (fun p => level (fst p) = level s).
Proof.
  induction n as [|n IH]; intros o s; cbn [propagate_loop]; destruct (nth_error _ _); try exact I; try reflexivity.
  eapply post_bind; [apply propagate_literal_level|]. intros [s1 [c|]] E; walk; cbn [fst] in *; auto.
  eapply post_mono; [apply IH|]. intros p F. rewrite F, E. reflexivity.
Qed.
Lemma search_propagate_level : forall o s, post (search_propagate o s) (fun p => level (fst p) = level s).
Proof.
  intros. unfold search_propagate. eapply post_bind; [apply propagate_loop_level|]. intros [s1 c] E. walk. cbn [fst] in *.
  unfold update_conflicts_and_trail. destruct c; [destruct (_ =? _)|destruct (_ && _)]; exact E.
Qed.

(** ** Backtracking *)
Lemma backtrack_level : forall k s, post (backtrack k s) (fun s' => level s' = k /\ k <= level s).
Proof. intros. unfold backtrack. walk; try (cbn; lia). Qed.
Lemma backtrack_after_conflict_level : forall k s, post (backtrack_after_conflict k s) (fun s' => level s' = k /\ k <= level s).
Proof.
  intros. unfold backtrack_after_conflict. eapply post_bind with (P := fun s1 => level s1 <= level s).
  - walk; [|auto]. eapply post_mono; [apply backtrack_level|]. cbn. intros a [-> ?]. lia.
  - intros s1 E. eapply post_mono; [apply backtrack_level|]. cbn in *; intros; lia.
Qed.
Lemma flush_to_root_level : forall o s, post (flush_to_root o s) (fun p => level (snd p) = 0).
Proof.
  intros. unfold flush_to_root. walk; [|cbn; lia]. eapply post_bind; [apply backtrack_level|]. intros s1 [E _].
  eapply post_bind; [apply search_propagate_level|]. intros [s2 c] F. walk. cbn [snd fst] in *. congruence.
Qed.

(** ** Analysis *)
Lemma determine_new_level_level : forall o s j, post (determine_new_level o s j) (fun k => k < level s).
Proof. intros. unfold determine_new_level. walk. destruct (_ =? 0); [lia|]. destruct (_ && _); lia. Qed.
Lemma move_highest_level : forall k r i s, post (move_highest k r i s) (fun s' => level s' = level s).
Proof.
  intros. unfold move_highest. walk; auto. eapply post_bind with (P := fun s1 => level s1 = level s).
  - walk; auto. apply unwatch_level.
  - intros s1 E. walk. destruct (1 <? _); exact E.
Qed.
Lemma one_literal_level : forall o c s, post (one_literal_on_conflict_level o c s)
  (fun p => let '(s', used, k) := p in level s' <= level s /\ (used = true -> level s' < level s)).
Proof.
  intros. unfold one_literal_on_conflict_level. destruct (conflict_lits s c); [|exact I].
  destruct (scan_conflict _ _ _ _ _ _) as [[[jump [k|]] count] forced]; [|exact I]. destruct (k =? 0); [cbn; split; [lia|discriminate]|].
  eapply post_bind with (P := fun s1 => level s1 <= level s).
  { destruct (_ <? _); [|cbn; lia]. eapply post_mono; [apply backtrack_after_conflict_level|]. cbn in *; intros; lia. }
  intros s1 E1. eapply post_bind with (P := fun s2 => level s2 = level s1).
  { destruct c; [reflexivity|]. eapply post_bind; [apply move_highest_level|]. intros s2 E2. eapply post_mono; [apply move_highest_level|]. cbn in *; intros; lia. }
  intros s2 E2. destruct (1 <? count); [cbn; split; [lia|discriminate]|]. destruct jump as [j|]; [|exact I].
  eapply post_bind; [apply determine_new_level_level|]. intros n En. eapply post_bind; [apply backtrack_after_conflict_level|]. intros s3 [E3 _].
  eapply post_bind with (P := fun s4 => level s4 = level s3).
  { walk; [apply assign_binary_level|apply assign_reference_level]. }
  intros s4 E4. cbn in *; intros; lia.
Qed.
Lemma learn_units_level : forall us s, post (learn_units us s) (fun s' => level s' = level s).
Proof.
  induction us as [|u us IH]; intros s; cbn [learn_units]; [reflexivity|]. eapply post_bind; [apply learned_unit_level|]. intros s1 E.
  eapply post_mono; [apply IH|]. cbn in *; intros; congruence.
Qed.
Lemma analyze_failed_level : forall c s, post (analyze_failed_literal c s) (fun s' => level s' < level s).
Proof.
  intros. unfold analyze_failed_literal. walk. apply post_any. intros [us a]. eapply post_bind; [apply backtrack_level|]. intros s1 [E1 _].
  eapply post_bind; [apply learn_units_level|]. intros s2 E2. cbn in *. lia.
Qed.
Lemma strengthen_level : forall r l s, post (on_the_fly_strengthen r l s) (fun p => level (fst p) = level s).
Proof.
  intros. unfold on_the_fly_strengthen. destruct (_ =? 3).
  - unfold binary_on_the_fly_strengthen. walk. eapply post_bind; [apply unwatch_level|]. intros s2 E2. eapply post_bind; [apply unwatch_level|]. intros s3 E3.
    eapply post_bind; [apply mark_garbage_level|]. intros s4 E4. cbn in *. lia.
  - eapply post_bind with (P := fun s' => level s' = level s).
    + unfold large_on_the_fly_strengthen. walk. eapply post_bind; [apply unwatch_level|]. intros s2 E2. walk. exact E2.
    + intros s1 E1. exact E1.
Qed.
Lemma subsume_level : forall c d s, post (on_the_fly_subsume c d s) (fun s' => level s' = level s).
Proof.
  intros. unfold on_the_fly_subsume. destruct d; [exact I|]. destruct (arena s ref); [|exact I]. eapply post_bind; [apply mark_garbage_level|]. intros s1 E1.
  walk; exact E1.
Qed.
Lemma deduce_loop_level : forall o c n rt u r s, post (deduce_loop o c n rt u r s) (fun p => level (fst p) = level s).
Proof.
  intros o c n rt. induction rt as [|x rt IH]; intros u r s; cbn [deduce_loop]; [exact I|]. destruct (_ || _); [apply IH|]. destruct (u =? 1); [reflexivity|].
  apply post_any. intros [[u1 a] large]. walk.
  - eapply post_bind; [apply strengthen_level|]. intros [s1 c1] E1. eapply post_bind with (P := fun s2 => level s2 = level s1).
    + walk; [apply subsume_level|reflexivity].
    + intros s2 E2. cbn in *. congruence.
  - eapply post_mono; [apply IH|]. cbn. auto.
Qed.
Lemma deduce_level : forall o c s, post (deduce_first_uip_clause o c s) (fun p => level (fst p) = level s).
Proof.
  intros. unfold deduce_first_uip_clause. destruct (conflict_lits s c); [|exact I]. destruct (analyze_literals _ _ _ _ _). walk.
  eapply post_bind; [apply deduce_loop_level|]. intros [s1 [u|d]] E; exact E.
Qed.
Lemma minimize_and_shrink_level : forall o s, post (minimize_and_shrink o s) (fun s' => level s' = level s).
Proof.
  intros. unfold minimize_and_shrink. destruct (o_minimize o); [|reflexivity]. eapply post_bind with (P := fun s1 => level s1 = level s).
  - assert (E : level (sort_deduced_clause s) = level s) by (unfold sort_deduced_clause; destruct (an_clause _); reflexivity).
    rewrite <- E. generalize (sort_deduced_clause s). clear. intros s. unfold minimize_clause. destruct (2 <? _); [reflexivity|].
    destruct (an_clause (an s)); [exact I|]. apply post_any. intros [k a]. reflexivity.
  - intros s1 E. destruct (0 <? _); [|exact E]. unfold shrink_clause. apply post_any. intros [k a]. exact E.
Qed.
Lemma eagerly_subsume_level : forall ls rs s, post (eagerly_subsume ls rs s) (fun p => level (snd p) = level s).
Proof.
  intros ls rs. induction rs as [|r rs IH]; intros s; cbn [eagerly_subsume]; [reflexivity|]. destruct (arena s r); [|exact I]. destruct (_ && _).
  - eapply post_bind; [apply mark_garbage_level|]. intros s1 E. eapply post_mono; [apply IH|]. cbn in *; intros; congruence.
  - eapply post_bind; [apply IH|]. intros [rs' s1] E. exact E.
Qed.
Lemma learn_clause_level : forall o s, post (learn_clause o s) (fun s' => level s' < level s).
Proof.
  intros. unfold learn_clause. eapply post_bind with (P := fun p => level (fst p) < level s).
  - destruct (an_clause (an s)) as [|x [|y [|z ls]]]; [exact I| | |].
    + unfold learn_unit. eapply post_bind with (P := fun s1 => level s1 < level s); [|intros s1 E; exact E].
      eapply post_bind; [apply determine_new_level_level|]. intros n En. eapply post_bind; [apply backtrack_after_conflict_level|]. intros s1 [E1 _].
      eapply post_bind; [apply learned_unit_level|]. intros s2 E2. cbn in *; intros; lia.
    + unfold learn_binary. eapply post_bind with (P := fun s1 => level s1 < level s); [|intros s1 E; exact E].
      eapply post_bind; [apply determine_new_level_level|]. intros n En. eapply post_bind; [apply backtrack_after_conflict_level|]. intros s1 [E1 _].
      eapply post_mono; [apply assign_binary_level|]. cbn in *. intros s2 E2. lia.
    + unfold learn_reference. eapply post_bind with (P := fun p => level (fst p) < level s); [|intros [s1 r] E; exact E].
      eapply post_bind; [apply new_large_level|]. intros [r s1] E1. cbn [snd] in E1.
      eapply post_bind; [apply determine_new_level_level|]. intros n En. eapply post_bind; [apply backtrack_after_conflict_level|]. intros s2 [E2 _].
      eapply post_bind; [apply assign_reference_level|]. intros s3 E3. cbn in *; intros; lia.
  - intros [s1 r] E1. destruct (_ =? 0); [exact E1|]. eapply post_bind; [apply eagerly_subsume_level|]. intros [rs s2] E2. cbn in *. lia.
Qed.
Lemma analyze_loop_level : forall n o c s, post (analyze_loop n o c s) (fun p => match fst p with Some s' => level s' < level s | None => True end).
Proof.
  induction n as [|n IH]; intros o c s; cbn [analyze_loop]; [exact I|]. eapply post_bind; [apply one_literal_level|]. intros [[s1 used] k] [E1 U].
  destruct used; [cbn; auto|]. destruct (k =? 0); [exact I|]. destruct (k =? 1).
  - eapply post_bind; [apply analyze_failed_level|]. intros s2 E2. cbn in *; intros; lia.
  - eapply post_bind; [apply deduce_level|]. intros [s2 [c2|]] E2; cbn [fst] in E2.
    + eapply post_mono; [apply IH|]. intros [[s3|] s4]; cbn; auto. lia.
    + eapply post_bind; [apply minimize_and_shrink_level|]. intros s3 E3. eapply post_bind; [apply learn_clause_level|]. intros s4 E4. cbn in *; intros; lia.
Qed.
(** Analyzing a conflict always gives up the current level. *)
Lemma analyze_level : forall n o c s, post (analyze n o c s) (fun p => fst p = true -> level (snd p) < level s).
Proof.
  intros. unfold analyze. destruct (inconsistent s); [cbn; discriminate|]. eapply post_bind; [apply analyze_loop_level|].
  intros [[s1|] s2] E; cbn in *; auto. discriminate.
Qed.
