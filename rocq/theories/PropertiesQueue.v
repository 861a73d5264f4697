(** C25: the decision queue. *)
From Coq Require Import ZArith List Bool Lia Arith Sorted.
From Verif Require Import Base Lit Hoare SpecData Queue QueueFacts.
Import ListNotations.
Open Scope nat_scope.
Open Scope outcome_scope.

Lemma linked_suffix : forall next b, (forall a x c, b = a ++ x :: c -> next x = hd_error c) -> linked next (hd_error b) b.
Proof.
  induction b as [|x b IH]; intros H; cbn; auto. split; auto. rewrite (H [] x b eq_refl). apply IH.
  intros a y c E. apply (H (x :: a)). now rewrite E.
Qed.

(** Whatever the operations, the queue is a doubly linked list of exactly the enqueued variables in the order in which they were
    last enqueued or moved, without duplicates and with strictly increasing stamps. All decisions in the history were the last
    unassigned variable in the list. *)
Theorem C25_queue : forall vars os l v s, (Z.of_nat vars < 2 ^ 31)%Z -> queue_log vars os l v s ->
  exists q, run_queue vars os init_queue = Ret q /\
    NoDup l /\ linked (qnext q) (qfirst q) l /\ linked (qprev q) (qlast q) (rev l) /\
    StronglySorted (fun x y => (qstamps q x < qstamps q y)%Z) l /\
    (forall x, In x l -> 0 < qstamps q x <= 2 ^ 32 - 1)%Z.
Proof.
  intros vars os l v s Few L. assert (F : (Z.of_nat vars < UINT_MAX)%Z) by (unfold UINT_MAX; lia).
  destruct (wp_inv _ _ _ (queue_log_run vars os l v s F L)) as (q & E & [Ch St Bd Se Sk] & _). exists q.
  destruct Ch as [A1 A2 A3 A4]. splits; auto.
  - rewrite A2. apply linked_suffix. intros a x c El. apply (A4 a x c El).
  - rewrite A3. apply linked_suffix. intros a x c El. destruct (A4 (rev c) x (rev a)) as [P _].
    + rewrite <- (rev_involutive l), El, rev_app_distr. cbn [rev]. rewrite <- app_assoc. reflexivity.
    + rewrite P, rev_involutive. reflexivity.
  - destruct St as (S1 & _). clear -S1. induction l as [|x l IH]; constructor.
    + apply IH. intros a y b z El Z. apply (S1 (x :: a) y b z); auto. now rewrite El.
    + apply Forall_forall. intros y Y. apply (S1 [] x l y); auto.
  - intros x X. destruct St as (_ & S2 & S3). specialize (S2 x X). unfold UINT_MAX in S3. lia.
Qed.

(** After any history in focused mode the next decision is the last unassigned variable in the list. *)
Theorem C25_decision : forall vars os l v a x b, (Z.of_nat vars < 2 ^ 31)%Z -> queue_log vars os l v false ->
  l = a ++ x :: b -> v x = false -> (forall y, In y b -> v y = true) ->
  exists q q', run_queue vars os init_queue = Ret q /\ last_enqueued_unassigned_variable vars q = Ret (x, q').
Proof.
  intros vars os l v a x b Few L El V B. assert (F : (Z.of_nat vars < UINT_MAX)%Z) by (unfold UINT_MAX; lia).
  destruct (wp_inv _ _ _ (queue_log_run vars os l v false F L)) as (q & E & Qi & Qv & Qs). exists q.
  destruct (wp_inv _ _ _ (decide_wp vars l a x b q Qi Qs El ltac:(now rewrite Qv) ltac:(intros y Y; rewrite Qv; auto)))
    as ([y q'] & E' & Ey & _). cbn [fst] in Ey. subst y. exists q'. auto.
Qed.

Definition queue_history : list queue_op :=
  [QEnqueue 0; QEnqueue 1; QEnqueue 2; QEnqueue 3; QAssign 3; QAssign 2; QDecide 1; QAssign 1; QFront 1; QDecide 0;
   QUnassign 2; QDecide 2; QDequeue 3; QStable; QUnassign 1; QFocus; QDecide 1].
Example queue_history_log : exists v, queue_log 10 queue_history [0; 2; 1] v false.
Proof.
  pose proof (ql_start 10) as H.
  apply (ql_enqueue _ _ _ _ _ 0) in H; [|lia|cbn; lia].
  apply (ql_enqueue _ _ _ _ _ 1) in H; [|lia|cbn; lia].
  apply (ql_enqueue _ _ _ _ _ 2) in H; [|lia|cbn; lia].
  apply (ql_enqueue _ _ _ _ _ 3) in H; [|lia|cbn; lia].
  apply (ql_assign _ _ _ _ _ 3) in H; [|reflexivity].
  apply (ql_assign _ _ _ _ _ 2) in H; [|reflexivity].
  apply (ql_decide _ _ _ _ 1 [0] [2;3]) in H; [|reflexivity|reflexivity|intros y [<-|[<-|[]]]; reflexivity].
  apply (ql_assign _ _ _ _ _ 1) in H; [|reflexivity].
  apply (ql_front _ _ _ _ _ 1) in H; [|cbn; auto].
  apply (ql_decide _ _ _ _ 0 [] [2;3;1]) in H; [|reflexivity|reflexivity|intros y [<-|[<-|[<-|[]]]]; reflexivity].
  apply (ql_unassign _ _ _ _ _ 2) in H; [|reflexivity|cbn; auto].
  apply (ql_decide _ _ _ _ 2 [0] [3;1]) in H; [|reflexivity|reflexivity|intros y [<-|[<-|[]]]; reflexivity].
  apply (ql_dequeue _ _ _ _ _ 3) in H; [|cbn; auto].
  apply ql_stable in H.
  apply (ql_unassign _ _ _ _ _ 1) in H; [|reflexivity|cbn; auto].
  apply ql_focus in H; [|discriminate].
  apply (ql_decide _ _ _ _ 1 [0;2] []) in H; [|reflexivity|reflexivity|intros y []].
  eexists. exact H.
Qed.
Print Assumptions C25_queue.
Print Assumptions C25_decision.
