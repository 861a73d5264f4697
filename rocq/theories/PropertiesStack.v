(** Properties of stacks. *)
From Coq Require Import ZArith List Bool Lia Arith.
From Verif Require Import Base Hoare SpecData Stack StackFacts.
Import ListNotations.
Open Scope nat_scope.
Open Scope outcome_scope.

(** ** C28: growing stacks *)
Section C28.
Variable E : Type.
Variable bytes : Z.
Variable eqb : E -> E -> bool.

Definition run_stack_op (o : stack_op E) (s : stack E) : outcome (option E * stack E) :=
  match o with
  | StackPush e => do s <- push_stack E bytes e s ; Ret (None, s)
  | StackPop => do (e, s) <- pop_stack E bytes s ; Ret (Some e, s)
  | StackTop => do e <- top_stack E bytes s ; Ret (Some e, s)
  | StackPeek n => do e <- peek_stack E bytes n s ; Ret (Some e, s)
  | StackPoke n e => do s <- poke_stack E bytes n e s ; Ret (None, s)
  | StackClear => Ret (None, clear_stack E s)
  | StackResize n => do s <- resize_stack E bytes n s ; Ret (None, s)
  | StackShrink => do s <- shrink_stack E bytes s ; Ret (None, s)
  | StackRelease => Ret (None, release_stack E s)
  | StackRemove e => do s <- remove_stack E bytes eqb e s ; Ret (None, s)
  | StackReverse => do s <- reverse_stack E bytes s ; Ret (None, s)
  end.
Fixpoint run_stack (os : list (stack_op E)) (s : stack E) : outcome (list (option E) * stack E) :=
  match os with
  | [] => Ret ([], s)
  | o :: os => do (out, s) <- run_stack_op o s ; do (outs, s) <- run_stack os s ; Ret (out :: outs, s)
  end.

Lemma run_stack_app : forall os1 os2 s,
  run_stack (os1 ++ os2) s =
    do (outs1, s) <- run_stack os1 s ; do (outs2, s) <- run_stack os2 s ; Ret (outs1 ++ outs2, s).
Proof.
  induction os1 as [|o os1 IH]; intros os2 s; cbn [app run_stack obind].
  - destruct (run_stack os2 s) as [[outs s']| | |]; reflexivity.
  - destruct (run_stack_op o s) as [[out s']| | |]; cbn [obind]; auto. rewrite IH.
    destruct (run_stack os1 s') as [[outs1 s1]| | |]; cbn [obind]; auto.
    destruct (run_stack os2 s1) as [[outs2 s2]| | |]; reflexivity.
Qed.

Hypothesis bytes_range : (0 < bytes < 2 ^ 32)%Z.
Hypothesis eqb_eq : forall x y, eqb x y = true <-> x = y.

Lemma run_stack_one : forall es o out s s', run_stack (map fst es) init_stack = Ret (map snd es, s) ->
  run_stack_op o s = Ret (out, s') ->
  run_stack (map fst (es ++ [(o, out)])) init_stack = Ret (map snd (es ++ [(o, out)]), s').
Proof.
  intros es o out s s' R O. rewrite !map_app, run_stack_app, R. cbn [map fst snd obind run_stack]. rewrite O. reflexivity.
Qed.
Lemma wp_ret : forall A (m : outcome A) P, wp m P -> exists x, m = Ret x /\ P x.
Proof. intros A m P W. destruct m as [x| | |]; cbn in W; try contradiction. eauto. Qed.

Lemma stacked_holds : forall es l, stacked bytes es l ->
  exists s, run_stack (map fst es) init_stack = Ret (map snd es, s) /\ StackFacts.holds E bytes s l.
Proof.
  intros es l W. induction W.
  - exists init_stack. split; auto. apply StackFacts.holds_init.
  - destruct IHW as (s & R & H0).
    destruct (wp_ret _ _ _ (push_spec E bytes bytes_range s l e H0 H)) as (s' & Q & H1).
    exists s'. split; auto. apply (run_stack_one _ _ _ s); auto. cbn [run_stack_op]. now rewrite Q.
  - destruct IHW as (s & R & H0).
    destruct (wp_ret _ _ _ (StackFacts.pop_spec E bytes bytes_range s l e H0)) as ([x s'] & Q & H1 & H2).
    cbn [fst snd] in *. subst x.
    exists s'. split; auto. apply (run_stack_one _ _ _ s); auto. cbn [run_stack_op]. now rewrite Q.
  - destruct IHW as (s & R & H0). exists s. split; auto. apply (run_stack_one _ _ _ s); auto.
    cbn [run_stack_op]. now rewrite (top_spec E bytes bytes_range s l e H0).
  - destruct IHW as (s & R & H0). exists s. split; auto. apply (run_stack_one _ _ _ s); auto.
    cbn [run_stack_op]. rewrite (peek_spec E bytes bytes_range s _ (length a) e H0); auto.
    rewrite nth_error_app2, Nat.sub_diag by lia. reflexivity.
  - destruct IHW as (s & R & H0).
    assert (L : length a < length (a ++ e :: b)) by (rewrite app_length; cbn; lia).
    destruct (wp_ret _ _ _ (poke_spec E bytes bytes_range s _ (length a) e' H0 L)) as (s' & Q & H1).
    exists s'. rewrite lset_end in H1. split; auto. apply (run_stack_one _ _ _ s); auto. cbn [run_stack_op]. now rewrite Q.
  - destruct IHW as (s & R & H0). exists (clear_stack E s). split.
    + apply (run_stack_one _ _ _ s); auto.
    + eapply StackFacts.clear_spec; eauto.
  - destruct IHW as (s & R & H0).
    assert (L : length a <= length (a ++ b)) by (rewrite app_length; lia).
    destruct (wp_ret _ _ _ (resize_spec E bytes bytes_range s _ (length a) H0 L)) as (s' & Q & H1).
    rewrite firstn_app, Nat.sub_diag, firstn_all, app_nil_r in H1.
    exists s'. split; auto. apply (run_stack_one _ _ _ s); auto. cbn [run_stack_op]. now rewrite Q.
  - destruct IHW as (s & R & H0).
    destruct (wp_ret _ _ _ (shrink_spec E bytes bytes_range s _ H0)) as (s' & Q & H1 & _).
    exists s'. split; auto. apply (run_stack_one _ _ _ s); auto. cbn [run_stack_op]. now rewrite Q.
  - destruct IHW as (s & R & H0). exists init_stack. split.
    + apply (run_stack_one _ _ _ s); auto.
    + apply StackFacts.holds_init.
  - destruct IHW as (s & R & H0).
    destruct (wp_ret _ _ _ (remove_spec E bytes bytes_range eqb eqb_eq a e b s H0 H)) as (s' & Q & H1).
    exists s'. split; auto. apply (run_stack_one _ _ _ s); auto. cbn [run_stack_op]. now rewrite Q.
  - destruct IHW as (s & R & H0).
    destruct (wp_ret _ _ _ (reverse_spec E bytes bytes_range eqb eqb_eq s _ H0)) as (s' & Q & H1).
    exists s'. split; auto. apply (run_stack_one _ _ _ s); auto. cbn [run_stack_op]. now rewrite Q.
Qed.
End C28.

(** For elements of any size of [bytes] bytes and any sequence of calls: contents and returned elements are those
    of the specification, no access is outside of the allocated block, no assertion fails, and the capacity is
    zero or the size of an element times a power of two (and a multiple of eight bytes). *)
Theorem C28_stacks : forall E bytes (eqb : E -> E -> bool),
  (0 < bytes < 2 ^ 32)%Z -> (forall x y, eqb x y = true <-> x = y) ->
  forall es l, stacked bytes es l ->
  exists s, run_stack E bytes eqb (map fst es) init_stack = Ret (map snd es, s) /\ all_stack E bytes s = Ret l /\
    size_stack E bytes s = length l /\ (empty_stack E s = true <-> l = []) /\
    (sallocated s = 0%Z \/ exists k, sallocated s = (bytes * 2 ^ Z.of_nat k)%Z /\ (sallocated s mod 8 = 0)%Z).
Proof.
  intros E bytes eqb B Q es l W. destruct (stacked_holds E bytes eqb B Q es l W) as (s & R & H).
  exists s. splits; auto.
  - apply (StackFacts.all_spec E bytes B eqb); auto.
  - apply holds_size; auto.
  - unfold empty_stack. rewrite Z.eqb_eq. rewrite (sh_end _ _ _ _ H). destruct l as [|x l]; [split; auto|].
    split; [|discriminate]. cbn [length]. intros F. exfalso. nia.
  - destruct (sh_capacity _ _ _ _ H) as [C|(k & C1 & C2 & C3)]; [now left|right]. exists k. split; auto.
    apply aligned_iff. auto.
Qed.
Print Assumptions C28_stacks.

(** Shrinking leaves the smallest capacity of this form into which the contents fit. *)
Theorem C28_shrinking : forall E bytes (eqb : E -> E -> bool),
  (0 < bytes < 2 ^ 32)%Z -> (forall x y, eqb x y = true <-> x = y) ->
  forall es l, stacked bytes es l ->
  exists s, run_stack E bytes eqb (map fst es ++ [StackShrink]) init_stack = Ret (map snd es ++ [None], s) /\
    (Z.of_nat (length l) * bytes <= sallocated s)%Z /\
    forall k, (Z.of_nat (length l) * bytes <= bytes * 2 ^ Z.of_nat k)%Z -> (bytes * 2 ^ Z.of_nat k mod 8 = 0)%Z ->
      (sallocated s <= bytes * 2 ^ Z.of_nat k)%Z.
Proof.
  intros E bytes eqb B Q es l W. destruct (stacked_holds E bytes eqb B Q es l W) as (s & R & H).
  destruct (wp_ret _ _ _ (shrink_spec E bytes B s _ H)) as (s' & S1 & H1 & H2 & H3).
  exists s'. splits.
  - rewrite run_stack_app, R. cbn [obind run_stack run_stack_op]. rewrite S1. reflexivity.
  - rewrite <- (sh_end _ _ _ _ H1). apply (sh_fits _ _ _ _ H1).
  - intros k K1 K2. apply H3; auto. apply aligned_iff. auto.
Qed.
Print Assumptions C28_shrinking.

(** Elements of four bytes: the first allocation has room for two, the fifth push allocates eight, shrinking the
    stack with three elements leaves room for four. *)
Example C28_example :
  match run_stack nat 4 Nat.eqb
    [StackPush 1; StackPush 2; StackPush 3; StackPush 4; StackPush 5; StackRemove 2; StackReverse; StackPop;
     StackShrink; StackTop; StackPeek 0; StackPoke 1 7; StackResize 2] init_stack with
  | Ret (outs, s) => all_stack nat 4 s = Ret [5; 7] /\ sallocated s = 16%Z /\
      outs = [None; None; None; None; None; None; None; Some 1; None; Some 3; Some 5; None; None]
  | _ => False
  end.
Proof. vm_compute. auto. Qed.
Example C28_stacked : stacked 4 [(StackPush 1, None); (StackPush 2, None); (StackPop, Some 2)] [1].
Proof.
  apply (stacked_pop _ _ [(StackPush 1, None); (StackPush 2, None)] [1] 2).
  apply (stacked_push _ _ [(StackPush 1, None)] [1] 2); [|cbn; lia].
  apply (stacked_push _ _ [] [] 1); [constructor|cbn; lia].
Qed.
