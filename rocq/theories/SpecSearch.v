(** Specification of propagation and learning: clauses under a partial assignment.  Literals are numbers. *)
From Coq Require Import List.
Import ListNotations.

Section Clauses.
Variable value : nat -> option bool.
Definition falsified (c : list nat) : Prop := forall l, In l c -> value l = Some false.
Definition satisfied (c : list nat) : Prop := exists l, In l c /\ value l = Some true.
(** All literals of [c] except [l] are false, so that [l] has to be true. *)
Definition forces (c : list nat) (l : nat) : Prop := In l c /\ forall k, In k c -> k <> l -> value k = Some false.
Definition unit_clause (c : list nat) (l : nat) : Prop := forces c l /\ value l = None.
(** Two different literals of [c] have no value. *)
Definition undetermined (c : list nat) : Prop := exists k l, In k c /\ In l c /\ k <> l /\ value k = None /\ value l = None.
End Clauses.

(** [c] is a conflict clause at the decision level [level] which will force [first] after backtracking: all its literals are
    false, [first] is its only literal of that level, and no literal is false at the root level. *)
Definition asserting (value : nat -> option bool) (level_of : nat -> nat) (level : nat) (c : list nat) (first : nat) : Prop :=
  NoDup c /\ In first c /\ falsified value c /\ level_of first = level /\
  forall k, In k c -> k <> first -> 0 < level_of k < level.

(** [d] is [c] without some of the literals which are false at the root level. *)
Definition shortened_at (value : nat -> option bool) (level_of : nat -> nat) (c d : list nat) : Prop :=
  incl d c /\ forall l, In l c -> In l d \/ (value l = Some false /\ level_of l = 0).
