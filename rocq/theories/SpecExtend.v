(** Specification of reconstruction: how models of a simplified formula are turned into models of the formula
    it came from. *)
From Coq Require Import ZArith List Bool.
From Verif Require Import SpecSat.
Import ListNotations.
Open Scope Z_scope.

(** The assignment that differs from [v] at most in the variable of [w], and makes [w] true. *)
Definition make_true (v : Z -> bool) (w : Z) : Z -> bool :=
  fun x => if x =? Z.abs w then 0 <? w else v x.
Definition falsifies (v : Z -> bool) (c : list Z) : Prop := forall l, In l c -> literal_true v l = false.

(** A constraint is a property of assignments, for instance [fun v => satisfies v F]; it must not distinguish
    assignments with the same values. *)
Definition constraint := (Z -> bool) -> Prop.
Definition extensional (P : constraint) : Prop := forall v v', (forall x, v x = v' x) -> P v -> P v'.

(** [reconstructs F st G]: the constraint [F] was simplified to [G] in a sequence of steps, where
    - a plain step replaces the constraint by one that implies it (and changes nothing on the stack), and
    - a removal step drops a clause [w :: C], so that what is left together with that clause implies the constraint
      before the step, and whenever a model of what is left falsifies the dropped clause, making its witness [w]
      true gives a model again.
    [st] lists the removed clauses with their witnesses, first removal first. *)
Inductive reconstructs : constraint -> list (Z * list Z) -> constraint -> Prop :=
| reconstructs_same : forall F, reconstructs F [] F
| reconstructs_plain : forall (F F' : constraint) st G,
    (forall v, F' v -> F v) ->
    reconstructs F' st G -> reconstructs F st G
| reconstructs_removed : forall (F F' : constraint) w C st G,
    extensional F' ->
    (forall v, F' v -> ~ falsifies v (w :: C) -> F v) ->
    (forall v, F' v -> falsifies v (w :: C) -> F' (make_true v w)) ->
    reconstructs F' st G -> reconstructs F ((w, C) :: st) G.

(** [v] agrees with the non-zero reported values. *)
Definition agrees (v : Z -> bool) (val : Z -> Z) : Prop :=
  forall e, e <> 0 -> val e <> 0 -> literal_true v (val e) = true.
