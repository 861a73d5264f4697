(** Specifications of the data structures: what a user of each one may rely on, without mentioning how the
    code represents it. *)
From Coq Require Import ZArith List Bool.
Import ListNotations.

(** ** A priority queue of the numbers below a capacity *)
Section PriorityQueue.
Variable A : Type.
Variable leb : A -> A -> bool.
Variable zero : A.

(** [member i] says whether [i] is in the queue; every number has a score, also if it is not in the queue. *)
Record pq := mk_pq { capacity : nat; member : nat -> Prop; priority : nat -> A }.
Definition empty_pq : pq := mk_pq 0 (fun _ => False) (fun _ => zero).

Inductive pq_op :=
| Push (i : nat) | Pop (i : nat) | PopMax | Update (i : nat) (x : A) | Adjust (i : nat) | Resize (n : nat)
| Rescale (f : A -> A).

(** When the user of the queue may call an operation. *)
Definition allowed (q : pq) (o : pq_op) : Prop :=
  match o with
  | Push i => (i < capacity q)%nat /\ (Z.of_nat i < 2 ^ 31)%Z /\ ~ member q i
  | Pop i => member q i
  | PopMax => exists i, member q i
  | Update i x => (i < capacity q)%nat /\ (Z.of_nat i < 2 ^ 31)%Z
  | Adjust i => (Z.of_nat i < 2 ^ 31)%Z
  | Resize n => True
  | Rescale f => f zero = zero /\ forall x y, leb x y = true -> leb (f x) (f y) = true
  end.

Definition same_score (x y : A) : Prop := leb x y = true /\ leb y x = true.
Definition greatest (q : pq) (i : nat) : Prop :=
  member q i /\ forall j, member q j -> leb (priority q j) (priority q i) = true.

(** What an operation returns ([Some i] only for [PopMax]) and how it changes the queue. *)
Inductive pq_step (q : pq) : pq_op -> option nat -> pq -> Prop :=
| step_push : forall i q', capacity q' = capacity q ->
    (forall j, member q' j <-> member q j \/ j = i) -> (forall j, priority q' j = priority q j) ->
    pq_step q (Push i) None q'
| step_pop : forall i q', capacity q' = capacity q ->
    (forall j, member q' j <-> member q j /\ j <> i) -> (forall j, priority q' j = priority q j) ->
    pq_step q (Pop i) None q'
| step_pop_max : forall i q', greatest q i -> capacity q' = capacity q ->
    (forall j, member q' j <-> member q j /\ j <> i) -> (forall j, priority q' j = priority q j) ->
    pq_step q PopMax (Some i) q'
| step_update : forall i x q', capacity q' = capacity q ->
    (forall j, member q' j <-> member q j) -> same_score (priority q' i) x ->
    (forall j, j <> i -> priority q' j = priority q j) ->
    pq_step q (Update i x) None q'
| step_adjust : forall i q', (capacity q <= capacity q')%nat -> (i < capacity q')%nat ->
    (forall j, member q' j <-> member q j) -> (forall j, priority q' j = priority q j) ->
    pq_step q (Adjust i) None q'
| step_resize : forall n q', capacity q' = Nat.max (capacity q) n ->
    (forall j, member q' j <-> member q j) -> (forall j, priority q' j = priority q j) ->
    pq_step q (Resize n) None q'
| step_rescale : forall f q', capacity q' = capacity q ->
    (forall j, member q' j <-> member q j) -> (forall j, priority q' j = f (priority q j)) ->
    pq_step q (Rescale f) None q'.
End PriorityQueue.
Arguments mk_pq {A}. Arguments capacity {A}. Arguments member {A}. Arguments priority {A}.
Arguments Push {A}. Arguments Pop {A}. Arguments PopMax {A}. Arguments Update {A}. Arguments Adjust {A}.
Arguments Resize {A}. Arguments Rescale {A}. Arguments empty_pq {A}. Arguments allowed {A}.
Arguments pq_step {A}. Arguments greatest {A}. Arguments same_score {A}.

(** ** A queue of elements which wait in order *)
Section Queue.
Variable E : Type.
Inductive fifo_op := Enqueue (e : E) | Dequeue | PopBack | Clear.
(** The calls made, with what they returned, and the elements waiting afterwards. *)
Inductive waiting : list (fifo_op * option E) -> list E -> Prop :=
| waiting_start : waiting [] []
| waiting_enqueue : forall es l e, waiting es l -> waiting (es ++ [(Enqueue e, None)]) (l ++ [e])
| waiting_dequeue : forall es l e, waiting es (e :: l) -> waiting (es ++ [(Dequeue, Some e)]) l
| waiting_pop : forall es l e, waiting es (l ++ [e]) -> waiting (es ++ [(PopBack, Some e)]) l
| waiting_clear : forall es l, waiting es l -> waiting (es ++ [(Clear, None)]) [].
End Queue.
Arguments Enqueue {E}. Arguments Dequeue {E}. Arguments PopBack {E}. Arguments Clear {E}. Arguments waiting {E}.

(** ** A stack *)
Section Stack.
Variable E : Type.
(** The size of an element in bytes. *)
Variable bytes : Z.
Inductive stack_op :=
| StackPush (e : E) | StackPop | StackTop | StackPeek (n : nat) | StackPoke (n : nat) (e : E) | StackClear
| StackResize (n : nat) | StackShrink | StackRelease | StackRemove (e : E) | StackReverse.
(** The calls made, with what they returned, and the elements on the stack afterwards, bottom first. *)
Inductive stacked : list (stack_op * option E) -> list E -> Prop :=
| stacked_start : stacked [] []
| stacked_push : forall es l e, stacked es l -> (Z.of_nat (length l) * bytes < 2 ^ 63)%Z ->
    stacked (es ++ [(StackPush e, None)]) (l ++ [e])
| stacked_pop : forall es l e, stacked es (l ++ [e]) -> stacked (es ++ [(StackPop, Some e)]) l
| stacked_top : forall es l e, stacked es (l ++ [e]) -> stacked (es ++ [(StackTop, Some e)]) (l ++ [e])
| stacked_peek : forall es a e b, stacked es (a ++ e :: b) ->
    stacked (es ++ [(StackPeek (length a), Some e)]) (a ++ e :: b)
| stacked_poke : forall es a e b e', stacked es (a ++ e :: b) ->
    stacked (es ++ [(StackPoke (length a) e', None)]) (a ++ e' :: b)
| stacked_clear : forall es l, stacked es l -> stacked (es ++ [(StackClear, None)]) []
| stacked_resize : forall es a b, stacked es (a ++ b) -> stacked (es ++ [(StackResize (length a), None)]) a
| stacked_shrink : forall es l, stacked es l -> stacked (es ++ [(StackShrink, None)]) l
| stacked_release : forall es l, stacked es l -> stacked (es ++ [(StackRelease, None)]) []
| stacked_remove : forall es a e b, stacked es (a ++ e :: b) -> ~ In e a ->
    stacked (es ++ [(StackRemove e, None)]) (a ++ b)
| stacked_reverse : forall es l, stacked es l -> stacked (es ++ [(StackReverse, None)]) (rev l).
End Stack.
Arguments StackPush {E}. Arguments StackPop {E}. Arguments StackTop {E}. Arguments StackPeek {E}.
Arguments StackPoke {E}. Arguments StackClear {E}. Arguments StackResize {E}. Arguments StackShrink {E}.
Arguments StackRelease {E}. Arguments StackRemove {E}. Arguments StackReverse {E}. Arguments stacked {E}.

(** ** An arena of clauses *)
(** [NewClause] allocates a clause; [ShrinkClause k lits] replaces the literals of the clause allocated as number
    [k] (starting with zero) by fewer literals. *)
Inductive arena_op := NewClause (lits : list Z) | ShrinkClause (k : nat) (lits : list Z).
Definition proper_clause (lits : list Z) : Prop :=
  (2 < length lits)%nat /\ (Z.of_nat (length lits) < 2 ^ 30)%Z /\
  forall x, In x lits -> (0 <= x < 2 ^ 32 - 1)%Z.
(** The operations, the sizes with which the clauses were allocated and their literals afterwards. *)
Inductive arena_log : list arena_op -> list nat -> list (list Z) -> Prop :=
| log_start : arena_log [] [] []
| log_new : forall os sizes cls lits, arena_log os sizes cls -> proper_clause lits ->
    arena_log (os ++ [NewClause lits]) (sizes ++ [length lits]) (cls ++ [lits])
| log_shrink : forall os sizes a old b lits, arena_log os sizes (a ++ old :: b) -> proper_clause lits ->
    (length lits < length old)%nat ->
    arena_log (os ++ [ShrinkClause (length a) lits]) sizes (a ++ lits :: b).
(** The number of wards, each of [w] words, which a clause of [n] literals and three words of header needs. *)
Definition footprint (w n : nat) : nat := (n + 3 + (w - 1)) / w.
Definition footprints (w : nat) (sizes : list nat) : nat := fold_right (fun n s => footprint w n + s)%nat 0%nat sizes.

(** ** Sorting *)
Definition strict_weak_order {A} (less : A -> A -> bool) : Prop :=
  (forall x, less x x = false) /\
  (forall x y z, less x y = true -> less y z = true -> less x z = true) /\
  (forall x y z, less x y = false -> less y z = false -> less x z = false).
(** No element is less than one before it. *)
Definition ordered_by {A} (less : A -> A -> bool) (l : list A) : Prop :=
  forall i j x y, (i < j)%nat -> nth_error l i = Some x -> nth_error l j = Some y -> less y x = false.
(** Stable sorting by rank: the result is ordered by rank and for every rank the elements of that rank are the same in
    the same order. *)
Definition stable_sort_of {A} (rank : A -> Z) (old new : list A) : Prop :=
  ordered_by (fun x y => rank x <? rank y)%Z new /\
  forall r, filter (fun x => rank x =? r)%Z new = filter (fun x => rank x =? r)%Z old.

(** ** The queue of variables to decide on *)
(** The queue is the list of its elements, the most recently enqueued or moved one last; some variables are assigned.
    [Decide x] says that the decision is [x].  In stable mode the queue is not used for decisions; [Focus] switches back. *)
Inductive queue_op :=
  | QEnqueue (x : nat) | QDequeue (x : nat) | QFront (x : nat) | QAssign (x : nat) | QUnassign (x : nat)
  | QDecide (x : nat) | QStable | QFocus.
Definition remove_var (x : nat) (l : list nat) : list nat := filter (fun y => negb (Nat.eqb x y)) l.
(** [queue_log vars os l assigned stable]: the operations [os] are allowed, all variables are below [vars], and they lead to
    this list, set of assigned variables and mode. *)
Inductive queue_log (vars : nat) : list queue_op -> list nat -> (nat -> bool) -> bool -> Prop :=
| ql_start : queue_log vars [] [] (fun _ => false) false
| ql_enqueue : forall os l v s x, queue_log vars os l v s -> (x < vars)%nat -> ~ In x l ->
    queue_log vars (os ++ [QEnqueue x]) (l ++ [x]) v s
| ql_dequeue : forall os l v s x, queue_log vars os l v s -> In x l ->
    queue_log vars (os ++ [QDequeue x]) (remove_var x l) v s
| ql_front : forall os l v s x, queue_log vars os l v s -> In x l ->
    queue_log vars (os ++ [QFront x]) (remove_var x l ++ [x]) v s
| ql_assign : forall os l v s x, queue_log vars os l v s -> v x = false ->
    queue_log vars (os ++ [QAssign x]) l (fun y => if Nat.eqb y x then true else v y) s
| ql_unassign : forall os l v s x, queue_log vars os l v s -> v x = true -> In x l ->
    queue_log vars (os ++ [QUnassign x]) l (fun y => if Nat.eqb y x then false else v y) s
| ql_decide : forall os l v x a b, queue_log vars os l v false ->
    l = a ++ x :: b -> v x = false -> (forall y, In y b -> v y = true) ->
    queue_log vars (os ++ [QDecide x]) l v false
| ql_stable : forall os l v, queue_log vars os l v false ->
    queue_log vars (os ++ [QStable]) l v true
| ql_focus : forall os l v, queue_log vars os l v true -> l <> [] ->
    queue_log vars (os ++ [QFocus]) l v false.

(** The elements reached from [start] by following [next] are those of [l], in this order. *)
Fixpoint linked (next : nat -> option nat) (start : option nat) (l : list nat) : Prop :=
  match l with
  | [] => start = None
  | x :: l => start = Some x /\ linked next (next x) l
  end.

(** Vectors: a number of independent sequences of unsigned numbers below 2^32-1.  [vec_log lits os C]: the operations [os] are
    allowed and lead to the sequences [C] (the elements numbered from zero). *)
Inductive vec_op :=
  | VPush (i : nat) (e : Z) | VRemove (i : nat) (e : Z) | VResize (i : nat) (n : nat) | VRelease (i : nat)
  | VPoke (i k : nat) (e : Z) | VDefrag | VFlush.
Definition set_seq (C : nat -> list Z) (i : nat) (l : list Z) (j : nat) : list Z := if Nat.eqb j i then l else C j.
Definition vec_element (e : Z) : Prop := (0 <= e < 2 ^ 32 - 1)%Z.
Inductive vec_log (lits : nat) : list vec_op -> (nat -> list Z) -> Prop :=
| vl_start : vec_log lits [] (fun _ => [])
| vl_push : forall os C i e, vec_log lits os C -> (i < lits)%nat -> vec_element e ->
    vec_log lits (os ++ [VPush i e]) (set_seq C i (C i ++ [e]))
| vl_remove : forall os C i e a b, vec_log lits os C -> (i < lits)%nat -> C i = a ++ e :: b -> ~ In e a ->
    vec_log lits (os ++ [VRemove i e]) (set_seq C i (a ++ b))
| vl_resize : forall os C i n, vec_log lits os C -> (i < lits)%nat -> (n <= length (C i))%nat ->
    vec_log lits (os ++ [VResize i n]) (set_seq C i (firstn n (C i)))
| vl_release : forall os C i, vec_log lits os C -> (i < lits)%nat ->
    vec_log lits (os ++ [VRelease i]) (set_seq C i [])
| vl_poke : forall os C i e a x b, vec_log lits os C -> (i < lits)%nat -> C i = a ++ x :: b -> vec_element e ->
    vec_log lits (os ++ [VPoke i (length a) e]) (set_seq C i (a ++ e :: b))
| vl_defrag : forall os C, vec_log lits os C -> vec_log lits (os ++ [VDefrag]) C
| vl_flush : forall os C, vec_log lits os C -> vec_log lits (os ++ [VFlush]) (fun _ => []).
