(** Specification of the implications between literals over binary clauses. *)
From Coq Require Import List.
Import ListNotations.

(** [binary x y]: there is the clause of [x] and [y], so that the negation of [x] implies [y].
    [chain neg binary x y]: [y] follows from [x] over a number of binary clauses, one after the other. *)
Inductive chain (neg : nat -> nat) (binary : nat -> nat -> Prop) : nat -> nat -> Prop :=
| chain_end : forall x, chain neg binary x x
| chain_next : forall x y z, binary (neg x) y -> chain neg binary y z -> chain neg binary x z.
