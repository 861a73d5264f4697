(** Specification of clausal proofs with new variables (the DRAT format), see SpecSat.v for [derives] and [rup]. *)
From Coq Require Import List.
From Verif Require Import SpecSat.
Import ListNotations.

Section Drat.
Context {L : Type} (neg : L -> L).

(** [c] has the resolution asymmetric tautology property on its first literal: every resolvent with a clause with the
    negation of this literal has reverse unit propagation. *)
Definition rat (db : list (list L)) (c : list L) : Prop :=
  exists l rest, c = l :: rest /\
    forall d e, In d db -> In (neg l) d -> (forall k, In k e <-> In k c \/ (In k d /\ k <> neg l)) -> rup neg db e.

(** Every added clause has one of the two properties, every deleted clause is present. *)
Inductive checked : list (list L) -> list (line L) -> Prop :=
| checked_nil : forall db, checked db []
| checked_added : forall db c lines, rup neg db c \/ rat db c -> checked (c :: db) lines -> checked db (Added c :: lines)
| checked_deleted : forall db1 d db2 c lines,
    same_literals c d -> checked (db1 ++ db2) lines -> checked (db1 ++ d :: db2) (Deleted c :: lines).
End Drat.
