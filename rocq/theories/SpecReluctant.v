(** Specification of reluctant doubling: the Luby sequence (Luby, Sinclair and Zuckerman 1993). *)
From Coq Require Import ZArith.
Open Scope Z_scope.

(** [luby i x]: the i-th element (i >= 1) of 1,1,2,1,1,2,4,1,1,2,1,1,2,4,8,... is x. *)
Inductive luby : Z -> Z -> Prop :=
| luby_last : forall k, 1 <= k -> luby (2 ^ k - 1) (2 ^ (k - 1))
| luby_rec : forall k i x, 1 <= k -> 2 ^ (k - 1) <= i < 2 ^ k - 1 ->
    luby (i - 2 ^ (k - 1) + 1) x -> luby i x.

(** With a limit (0 means none) the sequence starts again at its beginning as soon as the next
    interval would exceed the limit: [luby_index p l i j] says that the i-th interval (i >= 0) is
    [p] times the j-th element. *)
Inductive luby_index (p l : Z) : nat -> Z -> Prop :=
| index_first : luby_index p l 0 1
| index_next : forall i j x, luby_index p l i j -> luby (j + 1) x -> l = 0 \/ x * p <= l -> luby_index p l (S i) (j + 1)
| index_reset : forall i j x, luby_index p l i j -> luby (j + 1) x -> l <> 0 -> l < x * p -> luby_index p l (S i) 1.
