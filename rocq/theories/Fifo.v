(** The queue on which elements wait in order: fifo.h. *)
From Coq Require Import ZArith List Bool Lia Arith.
From Verif Require Import Base Lit.
Import ListNotations.
Open Scope nat_scope.
Open Scope outcome_scope.

Section Fifo.
Variable E : Type.

(** fifo.h 8-15.  The pointers are offsets from [start]; [cells] is the allocated memory, with [None] for an
    entry not written yet, or freed. *)
Record fifo := mk_fifo {
  fbegin : nat; fend : nat; flimit : nat; fallocated : nat; cells : nat -> option E }.

(** INIT_FIFO, fifo.h 23 *)
Definition init_fifo : fifo := mk_fifo 0 0 0 0 (fun _ => None).

(** fifo.h 25-30 *)
Definition empty_fifo (f : fifo) : bool := fend f =? fbegin f.
Definition full_fifo (f : fifo) : bool := fend f =? fallocated f.
Definition size_fifo (f : fifo) : nat := fend f - fbegin f.
Definition movable_fifo (f : fifo) : bool := fbegin f =? flimit f.
Definition capacity_fifo (f : fifo) : nat := fallocated f.

(** ENLARGE_FIFO, fifo.h 32-47.  The allocation is assumed to succeed (otherwise the program exits). *)
Definition enlarge_fifo (f : fifo) : outcome fifo :=
  let old := capacity_fifo f in
  let new := if old =? 0 then 2 else 2 * old in
  do _ <- oassert (fbegin f <? new / 2) ;
  Ret (mk_fifo (fbegin f) (fend f) (new / 2) new (fun i => if i <? old then cells f i else None)).

(** MOVE_FIFO, fifo.h 49-56 *)
Definition move_fifo (f : fifo) : fifo :=
  let n := size_fifo f in
  mk_fifo 0 n (flimit f) (fallocated f) (fun i => if i <? n then cells f (fbegin f + i) else cells f i).

(** ENQUEUE_FIFO, fifo.h 58-63 *)
Definition enqueue_fifo (e : E) (f : fifo) : outcome fifo :=
  do f <- (if full_fifo f then enlarge_fifo f else Ret f) ;
  do _ <- oassert (fend f <? fallocated f) ;
  Ret (mk_fifo (fbegin f) (S (fend f)) (flimit f) (fallocated f) (upd (cells f) (fend f) (Some e))).

Definition read_fifo (f : fifo) (i : nat) : outcome E :=
  if i <? fallocated f then match cells f i with Some e => Ret e | None => Undef end else Undef.

(** DEQUEUE_FIFO, fifo.h 65-71 *)
Definition dequeue_fifo (f : fifo) : outcome (E * fifo) :=
  do _ <- oassert (negb (empty_fifo f)) ;
  do e <- read_fifo f (fbegin f) ;
  let f := mk_fifo (S (fbegin f)) (fend f) (flimit f) (fallocated f) (cells f) in
  Ret (e, if movable_fifo f then move_fifo f else f).

(** POP_FIFO, fifo.h 73 *)
Definition pop_fifo (f : fifo) : outcome (E * fifo) :=
  do _ <- oassert (negb (empty_fifo f)) ;
  do e <- read_fifo f (pred (fend f)) ;
  Ret (e, mk_fifo (fbegin f) (pred (fend f)) (flimit f) (fallocated f) (cells f)).

(** RELEASE_FIFO, fifo.h 75-81 *)
Definition release_fifo (f : fifo) : fifo := init_fifo.

(** CLEAR_FIFO, fifo.h 83-86 *)
Definition clear_fifo (f : fifo) : fifo := mk_fifo 0 0 (flimit f) (fallocated f) (cells f).

(** all_fifo (all_stack, stack.h 114-117): the elements in order. *)
Definition all_fifo (f : fifo) : outcome (list E) :=
  fold_right (fun i r => do e <- read_fifo f i ; do l <- r ; Ret (e :: l)) (Ret []) (seq (fbegin f) (size_fifo f)).
End Fifo.
Arguments mk_fifo {E}. Arguments fbegin {E}. Arguments fend {E}. Arguments flimit {E}. Arguments fallocated {E}.
Arguments cells {E}. Arguments init_fifo {E}. Arguments empty_fifo {E}. Arguments full_fifo {E}.
Arguments size_fifo {E}. Arguments movable_fifo {E}. Arguments capacity_fifo {E}. Arguments enlarge_fifo {E}.
Arguments move_fifo {E}. Arguments enqueue_fifo {E}. Arguments read_fifo {E}. Arguments dequeue_fifo {E}.
Arguments pop_fifo {E}. Arguments release_fifo {E}. Arguments clear_fifo {E}. Arguments all_fifo {E}.
