(** Properties of the data structures. *)
From Coq Require Import ZArith List Bool Lia Arith.
From Verif Require Import Base Hoare SpecData Heap HeapFacts Fifo FifoFacts.
Import ListNotations.
Open Scope nat_scope.
Open Scope outcome_scope.

(** ** C24: the heap of scores is a priority queue *)
Section C24.
Variable A : Type.
Variable leb : A -> A -> bool.
Variable zero : A.

(** What can be read off a heap: the allocated size, membership, scores, the maximum, the maximal score. *)
Definition heap_shows (h : heap A) (q : pq A) : Prop :=
  hsize h = capacity q /\
  (forall i, exists b, heap_contains A h i = Ret b /\ (b = true <-> member q i)) /\
  (forall i, get_heap_score A zero h i = Ret (priority q i)) /\
  ((exists i, member q i) -> exists m, max_heap A h = Ret m /\ greatest leb q m) /\
  (exists m, max_score_on_heap A leb zero h = Ret m /\ (exists j, m = priority q j) /\
     forall i, member q i -> leb (priority q i) m = true).

(** For [n] more calls the heap can be used as if it were the queue: it shows what the queue contains, and
    every allowed call returns (thus there is no access outside of the arrays or to entries never written and no
    failing assertion) and has the effect of the operation of the queue. *)
Fixpoint heap_behaves (n : nat) (h : heap A) (q : pq A) : Prop :=
  heap_shows h q /\
  match n with
  | O => True
  | S n => forall o, allowed leb zero q o -> exists out h' q',
      run_op A leb zero o h = Ret (out, h') /\ pq_step leb q o out q' /\ heap_behaves n h' q'
  end.

Hypothesis le_total : forall x y, leb x y = true \/ leb y x = true.
Hypothesis le_trans : forall x y z, leb x y = true -> leb y z = true -> leb x z = true.

Lemma shows_queue : forall h, inv A leb zero h -> heap_shows h (queue_of A zero h).
Proof.
  intros h H. unfold heap_shows. splits.
  - reflexivity.
  - intros i. eexists. split; [eapply contains_ok; eauto|]. apply contains_in.
  - intros i. eapply get_score_ok; eauto.
  - intros [i I]. cbn [member queue_of] in I. unfold max_heap, rd_stack.
    assert (L : 0 < length (stack h)) by (destruct (stack h); [contradiction|cbn; lia]).
    rewrite (nth_error_nth' (stack h) 0) by auto. exists (nth 0 (stack h) 0). split; auto. split.
    + apply nth_In. auto.
    + intros j J. cbn [member priority queue_of] in *.
      assert (V : forall k, In k (stack h) -> value_of A zero h k = sc A zero h k).
      { intros k K. unfold value_of. now rewrite (proj2 (Nat.ltb_lt _ _) (in_in _ _ _ _ H k K)). }
      rewrite !V by (auto; apply nth_In; auto). apply In_nth with (d := 0) in J as (r & R & <-).
      eapply (ordered_top A leb zero le_total le_trans (at_pos A zero h (stack h))); [apply (in_order _ _ _ _ H)|]. auto.
  - destruct (max_score_ok A leb zero le_total le_trans h H) as (m & E & J & M). exists m. splits; auto.
    intros i I. apply M. apply (in_in _ _ _ _ H). auto.
Qed.

Lemma behaves_queue : forall n h, inv A leb zero h -> heap_behaves n h (queue_of A zero h).
Proof.
  induction n as [|n IH]; intros h H; cbn [heap_behaves]; (split; [apply shows_queue; auto|]); auto.
  intros o Ok. pose proof (run_op_spec A leb zero le_total le_trans o h H Ok) as W.
  destruct (run_op A leb zero o h) as [[out h']| | |] eqn:E; cbn [wp] in W; try contradiction.
  destruct W as [I P]. exists out, h', (queue_of A zero h'). splits; auto.
Qed.
End C24.

(** The positions of the elements are covered by [heap_contains] and by the later operations relying on them. *)
Theorem C24_priority_queue : forall A (leb : A -> A -> bool) (zero : A),
  (forall x y, leb x y = true \/ leb y x = true) ->
  (forall x y z, leb x y = true -> leb y z = true -> leb x z = true) ->
  forall n, heap_behaves A leb zero n init_heap (empty_pq zero).
Proof.
  intros A leb zero T Tr n. apply (behaves_queue A leb zero T Tr n init_heap). apply init_inv; auto.
Qed.
Print Assumptions C24_priority_queue.

(** The hypotheses on the order hold for integers, and a user can push, update, rescale and pop. *)
Example C24_integers :
  (forall x y, Z.leb x y = true \/ Z.leb y x = true) /\
  (forall x y z, Z.leb x y = true -> Z.leb y z = true -> Z.leb x z = true) /\
  (let run o r := do (outs, h) <- r ; do (out, h) <- run_op Z Z.leb 0%Z o h ; Ret (outs ++ [out], h) in
   match fold_left (fun r o => run o r)
     [Resize 8; Push 3; Push 1; Push 4; Push 5; Update 1 7%Z; Update 4 9%Z; Update 5 2%Z; Rescale (Z.mul 10);
      Update 4 (-1)%Z; PopMax; Pop 3; PopMax; Adjust 20; Push 20; Update 20 50%Z; PopMax; PopMax]
     (Ret ([], init_heap)) with
   | Ret (outs, h) => outs = [None; None; None; None; None; None; None; None; None; None; Some 1; None; Some 5;
                              None; None; None; Some 20; Some 4]
   | _ => False
   end).
Proof.
  split; [|split].
  - intros x y. destruct (Z.leb_spec x y); auto. right. apply Z.leb_le. lia.
  - intros x y z. rewrite !Z.leb_le. lia.
  - vm_compute. reflexivity.
Qed.

(** ** C26: FIFO *)
Definition run_fifo_op {E} (o : fifo_op E) (f : fifo E) : outcome (option E * fifo E) :=
  match o with
  | Enqueue e => do f <- enqueue_fifo e f ; Ret (None, f)
  | Dequeue => do (e, f) <- dequeue_fifo f ; Ret (Some e, f)
  | PopBack => do (e, f) <- pop_fifo f ; Ret (Some e, f)
  | Clear => Ret (None, clear_fifo f)
  end.
Fixpoint run_fifo {E} (os : list (fifo_op E)) (f : fifo E) : outcome (list (option E) * fifo E) :=
  match os with
  | [] => Ret ([], f)
  | o :: os => do (out, f) <- run_fifo_op o f ; do (outs, f) <- run_fifo os f ; Ret (out :: outs, f)
  end.

Lemma run_fifo_app : forall E (os1 os2 : list (fifo_op E)) f,
  run_fifo (os1 ++ os2) f =
    do (outs1, f) <- run_fifo os1 f ; do (outs2, f) <- run_fifo os2 f ; Ret (outs1 ++ outs2, f).
Proof.
  induction os1 as [|o os1 IH]; intros os2 f; cbn [app run_fifo obind].
  - destruct (run_fifo os2 f) as [[outs f']| | |]; reflexivity.
  - destruct (run_fifo_op o f) as [[out f']| | |]; cbn [obind]; auto. rewrite IH.
    destruct (run_fifo os1 f') as [[outs1 f1]| | |]; cbn [obind]; auto.
    destruct (run_fifo os2 f1) as [[outs2 f2]| | |]; reflexivity.
Qed.

(** The elements come out in the order of the specification, no access is outside of the memory or to an entry
    not written, no assertion fails and iterating over the queue visits the waiting elements. *)
Theorem C26_fifo : forall E (es : list (fifo_op E * option E)) l, waiting es l ->
  exists f, run_fifo (map fst es) init_fifo = Ret (map snd es, f) /\ all_fifo f = Ret l /\
    size_fifo f = length l /\ (empty_fifo f = true <-> l = []).
Proof.
  intros E es l W.
  assert (G : exists f, run_fifo (map fst es) init_fifo = Ret (map snd es, f) /\ holds E f l).
  { induction W as [|es l e W (f & R & H)|es l e W (f & R & H)|es l e W (f & R & H)|es l W (f & R & H)];
      rewrite ?map_app, ?run_fifo_app, ?R; cbn [map fst snd run_fifo run_fifo_op obind].
    - exists init_fifo. split; auto. apply holds_init.
    - pose proof (enqueue_spec E f l e H) as S1. destruct (enqueue_fifo e f) as [f'| | |]; try contradiction.
      cbn [obind wp] in *. eauto.
    - pose proof (dequeue_spec E f e l H) as S1. destruct (dequeue_fifo f) as [[x f']| | |]; try contradiction.
      cbn [obind wp fst snd] in *. destruct S1 as [-> S1]. eauto.
    - pose proof (pop_spec E f e l H) as S1. destruct (pop_fifo f) as [[x f']| | |]; try contradiction.
      cbn [obind wp fst snd] in *. destruct S1 as [-> S1]. eauto.
    - exists (clear_fifo f). split; auto. eapply clear_spec; eauto. }
  destruct G as (f & R & H). exists f. splits; auto.
  - apply all_spec; auto.
  - unfold size_fifo. destruct H. lia.
  - unfold empty_fifo. rewrite Nat.eqb_eq. destruct H. split.
    + intros F. destruct l; auto. cbn in *. lia.
    + intros ->. cbn in *. lia.
Qed.
Print Assumptions C26_fifo.

(** Without taking elements off the end the specification says: what came out, followed by what is waiting, is
    what went in. *)
Definition went_in {E} (es : list (fifo_op E * option E)) : list E :=
  flat_map (fun x => match fst x with Enqueue e => [e] | _ => [] end) es.
Definition came_out {E} (es : list (fifo_op E * option E)) : list E :=
  flat_map (fun x => match snd x with Some e => [e] | None => [] end) es.
Theorem C26_order : forall E (es : list (fifo_op E * option E)) l, waiting es l ->
  (forall x, In x es -> fst x <> PopBack /\ fst x <> Clear) -> came_out es ++ l = went_in es.
Proof.
  intros E es l W. unfold came_out, went_in.
  induction W; intros N; rewrite ?flat_map_app; cbn [flat_map fst snd app]; rewrite ?app_nil_r.
  - reflexivity.
  - rewrite <- IHW, app_assoc; auto. intros x X. apply N, in_or_app. auto.
  - rewrite <- IHW, <- app_assoc; auto. intros x X. apply N, in_or_app. auto.
  - exfalso. destruct (N (PopBack, Some e)) as [F _]; [apply in_or_app; right; now left|]. now apply F.
  - exfalso. destruct (N (Clear, None)) as [_ F]; [apply in_or_app; right; now left|]. now apply F.
Qed.
Print Assumptions C26_order.

(** Three elements in, two out, three more in (the queue is enlarged and moved), one off the end, the rest out. *)
Example C26_example :
  match run_fifo [Enqueue 1; Enqueue 2; Enqueue 3; Dequeue; Dequeue; Enqueue 4; Enqueue 5; Enqueue 6; PopBack;
                  Dequeue; Dequeue; Dequeue] init_fifo with
  | Ret (outs, f) => outs = [None; None; None; Some 1; Some 2; None; None; None; Some 6; Some 3; Some 4; Some 5] /\
                     empty_fifo f = true
  | _ => False
  end.
Proof. vm_compute. auto. Qed.
Example C26_waiting : waiting [(Enqueue 1, None); (Enqueue 2, None); (Dequeue, Some 1)] [2].
Proof.
  apply (waiting_dequeue _ [(Enqueue 1, None); (Enqueue 2, None)] [2] 1).
  apply (waiting_enqueue _ [(Enqueue 1, None)] [1] 2). apply (waiting_enqueue _ [] [] 1). constructor.
Qed.
