(** Specification of satisfiability and of clausal proofs, independent of the solver model. *)
From Coq Require Import ZArith List Bool.
Import ListNotations.
Open Scope Z_scope.

(** ** Propositional formulas in DIMACS notation: a literal is a non-zero integer. *)
Definition formula := list (list Z).
Definition literal_true (v : Z -> bool) (l : Z) : bool := if 0 <? l then v l else negb (v (- l)).
Definition satisfies (v : Z -> bool) (f : formula) : Prop :=
  forall c, In c f -> exists l, In l c /\ literal_true v l = true.
Definition satisfiable (f : formula) : Prop := exists v, satisfies v f.

(** ** Clausal proofs.  They are stated for any type of literals with a negation [neg]. *)
Section Propagation.
Context {L : Type} (neg : L -> L).

(** Literals derivable by unit propagation over the clauses [db] from the assumptions [assume]. *)
Inductive derives (db : list (list L)) (assume : L -> Prop) : L -> Prop :=
| derives_assumed : forall l, assume l -> derives db assume l
| derives_unit : forall c l,
    In c db -> In l c -> (forall k, In k c -> k <> l -> derives db assume (neg k)) ->
    derives db assume l.

(** [c] has reverse unit propagation: assuming its negation, some clause becomes falsified. *)
Definition rup (db : list (list L)) (c : list L) : Prop :=
  exists d, In d db /\
    forall k, In k d -> derives db (fun l => exists m, In m c /\ l = neg m) (neg k).

Definition same_literals (c d : list L) : Prop := forall l, In l c <-> In l d.

(** A line of a clausal proof. *)
Inductive line := Added (c : list L) | Deleted (c : list L).

(** [accepted db lines]: starting with the clause multiset [db], every added clause has reverse unit
    propagation over the clauses present at that point, and every deleted clause is present. *)
Inductive accepted : list (list L) -> list line -> Prop :=
| accepted_nil : forall db, accepted db []
| accepted_added : forall db c lines, rup db c -> accepted (c :: db) lines -> accepted db (Added c :: lines)
| accepted_deleted : forall db1 d db2 c lines,
    same_literals c d -> accepted (db1 ++ db2) lines -> accepted (db1 ++ d :: db2) (Deleted c :: lines).
End Propagation.
Arguments line : clear implicits.
