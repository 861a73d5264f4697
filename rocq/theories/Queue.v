(** The queue of variables for decisions in focused mode: queue.h, inlinequeue.h, queue.c, decide.c. *)
From Coq Require Import ZArith List Bool Lia Arith.
From Verif Require Import Base Lit.
Import ListNotations.
Open Scope nat_scope.
Open Scope outcome_scope.

(** queue.h 12-22.  A disconnected index is [None]: variables are below 2^30, thus they are never taken as
    DISCONNECTED.  [qvalue] says whether a variable is assigned and [qstable] is the mode; both are fields of the solver. *)
Record queue := mk_queue {
  qprev : nat -> option nat; qnext : nat -> option nat; qstamps : nat -> Z;
  qfirst : option nat; qlast : option nat; qstamp : Z;
  qsearch : option nat; qsearch_stamp : Z;
  qvalue : nat -> bool; qstable : bool }.

(** kissat_init_queue, queue.c 5-11; the links are initialized when variables are enqueued. *)
Definition init_queue : queue :=
  mk_queue (fun _ => None) (fun _ => None) (fun _ => 0%Z) None None 0 None 0 (fun _ => false) false.

Definition UINT_MAX : Z := 2 ^ 32 - 1.

Definition is_none (o : option nat) : bool := match o with None => true | Some _ => false end.
Definition is_var (o : option nat) (i : nat) : bool := match o with None => false | Some j => j =? i end.

(** kissat_update_queue, inlinequeue.h 7-14 *)
Definition update_queue (i : nat) (q : queue) : queue :=
  mk_queue (qprev q) (qnext q) (qstamps q) (qfirst q) (qlast q) (qstamp q) (Some i) (qstamps q i) (qvalue q) (qstable q).

(** kissat_reset_search_of_queue, queue.c 13-20 *)
Definition reset_search_of_queue (q : queue) : outcome queue :=
  match qlast q with
  | Some last => Ret (update_queue last q)
  | None => Undef
  end.

(** queue.c 29-31; every variable is visited at most once, [fuel] is the number of variables. *)
Fixpoint reassign_loop (fuel : nat) (o : option nat) (next : nat -> option nat) (stamps : nat -> Z) (stamp : Z)
  : outcome ((nat -> Z) * Z) :=
  match o with
  | None => Ret (stamps, stamp)
  | Some i =>
      match fuel with
      | O => Fuel
      | S fuel =>
          do _ <- oassert (stamp <? UINT_MAX)%Z ;
          reassign_loop fuel (next i) next (upd stamps i (stamp + 1)%Z) (stamp + 1)
      end
  end.

Section Queue.
Variable vars : nat.

(** kissat_reassign_queue_stamps, queue.c 22-35 *)
Definition reassign_queue_stamps (q : queue) : outcome queue :=
  do (stamps, stamp) <- reassign_loop vars (qfirst q) (qnext q) (qstamps q) 0 ;
  Ret (mk_queue (qprev q) (qnext q) stamps (qfirst q) (qlast q) stamp (qsearch q)
         (match qsearch q with Some i => stamps i | None => qsearch_stamp q end) (qvalue q) (qstable q)).

(** kissat_enqueue_links, inlinequeue.h 16-35 *)
Definition enqueue_links (i : nat) (q : queue) : outcome queue :=
  do _ <- oassert (is_none (qprev q i)) ;
  do _ <- oassert (is_none (qnext q i)) ;
  let j := qlast q in
  let prev := upd (qprev q) i j in
  do (first, next) <-
    match j with
    | None => Ret (Some i, qnext q)
    | Some j => do _ <- oassert (is_none (qnext q j)) ; Ret (qfirst q, upd (qnext q) j (Some i))
    end ;
  let q := mk_queue prev next (qstamps q) first (Some i) (qstamp q) (qsearch q) (qsearch_stamp q) (qvalue q) (qstable q) in
  if (qstamp q =? UINT_MAX)%Z then
    do q <- reassign_queue_stamps q ;
    do _ <- oassert (qstamps q i =? qstamp q)%Z ;
    Ret q
  else
    let stamp := (qstamp q + 1)%Z in
    Ret (mk_queue (qprev q) (qnext q) (upd (qstamps q) i stamp) (qfirst q) (qlast q) stamp
           (qsearch q) (qsearch_stamp q) (qvalue q) (qstable q)).

(** kissat_dequeue_links, inlinequeue.h 37-58 *)
Definition dequeue_links (i : nat) (q : queue) : outcome queue :=
  let j := qprev q i in
  let k := qnext q i in
  let prev := upd (qprev q) i None in
  let next := upd (qnext q) i None in
  do (first, next) <-
    match j with
    | None => do _ <- oassert (is_var (qfirst q) i) ; Ret (k, next)
    | Some j => do _ <- oassert (is_var (next j) i) ; Ret (qfirst q, upd next j k)
    end ;
  do (last, prev) <-
    match k with
    | None => do _ <- oassert (is_var (qlast q) i) ; Ret (j, prev)
    | Some k => do _ <- oassert (is_var (prev k) i) ; Ret (qlast q, upd prev k j)
    end ;
  Ret (mk_queue prev next (qstamps q) first last (qstamp q) (qsearch q) (qsearch_stamp q) (qvalue q) (qstable q)).

(** kissat_enqueue, inlinequeue.h 60-69 *)
Definition enqueue (i : nat) (q : queue) : outcome queue :=
  do _ <- oassert (i <? vars) ;
  let q := mk_queue (upd (qprev q) i None) (upd (qnext q) i None) (qstamps q) (qfirst q) (qlast q) (qstamp q)
             (qsearch q) (qsearch_stamp q) (qvalue q) (qstable q) in
  do q <- enqueue_links i q ;
  Ret (if qvalue q i then q else update_queue i q).

(** kissat_dequeue, inlinequeue.h 71-88 *)
Definition dequeue (i : nat) (q : queue) : outcome queue :=
  do _ <- oassert (i <? vars) ;
  let q :=
    if is_var (qsearch q) i then
      let search := match qnext q i with Some k => Some k | None => qprev q i end in
      match search with
      | None => mk_queue (qprev q) (qnext q) (qstamps q) (qfirst q) (qlast q) (qstamp q) None 0 (qvalue q) (qstable q)
      | Some k => update_queue k q
      end
    else q in
  dequeue_links i q.

(** kissat_move_to_front, inlinequeue.h 90-115 *)
Definition move_to_front (i : nat) (q : queue) : outcome queue :=
  if is_var (qlast q) i then
    do _ <- oassert (is_none (qnext q i)) ; Ret q
  else
    do _ <- oassert (i <? vars) ;
    let tmp := qvalue q i in
    do q <-
      (if tmp && is_var (qsearch q) i then
         match qprev q i with
         | Some prev => Ret (update_queue prev q)
         | None => match qnext q i with
                   | Some next => Ret (update_queue next q)
                   | None => Undef
                   end
         end
       else Ret q) ;
    do q <- dequeue_links i q ;
    do q <- enqueue_links i q ;
    Ret (if tmp then q else update_queue i q).

(** The value of a variable changes. *)
Definition set_value (i : nat) (b : bool) (q : queue) : queue :=
  mk_queue (qprev q) (qnext q) (qstamps q) (qfirst q) (qlast q) (qstamp q) (qsearch q) (qsearch_stamp q)
    (upd (qvalue q) i b) (qstable q).
Definition set_stable (b : bool) (q : queue) : queue :=
  mk_queue (qprev q) (qnext q) (qstamps q) (qfirst q) (qlast q) (qstamp q) (qsearch q) (qsearch_stamp q)
    (qvalue q) b.

(** unassign and add_unassigned_variable_back_to_queue, backtrack.c 11-27, the latter in focused mode only,
    backtrack.c 91 and 107-131 *)
Definition unassign (i : nat) (q : queue) : queue :=
  let q := set_value i false q in
  if qstable q then q
  else if (qstamps q i >? qsearch_stamp q)%Z then update_queue i q else q.

(** decide.c 15-18 *)
Fixpoint search_loop (fuel i : nat) (q : queue) : outcome nat :=
  if qvalue q i then
    match fuel with
    | O => Fuel
    | S fuel => match qprev q i with Some j => search_loop fuel j q | None => Undef end
    end
  else Ret i.

(** last_enqueued_unassigned_variable, decide.c 9-31 *)
Definition last_enqueued_unassigned_variable (q : queue) : outcome (nat * queue) :=
  match qsearch q with
  | None => Undef
  | Some i =>
      do res <- search_loop vars i q ;
      Ret (res, if qvalue q i then update_queue res q else q)
  end.

(** switch_to_focused_mode, mode.c 150-166, as far as the queue is concerned *)
Definition switch_to_focused_mode (q : queue) : outcome queue :=
  do _ <- oassert (qstable q) ;
  reset_search_of_queue (set_stable false q).

(** switch_to_stable_mode, mode.c 168-183 *)
Definition switch_to_stable_mode (q : queue) : outcome queue :=
  do _ <- oassert (negb (qstable q)) ; Ret (set_stable true q).
End Queue.
