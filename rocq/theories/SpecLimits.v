(** What limits and termination requests mean, in terms of the calls made and of what solving does. *)
From Coq Require Import NArith List Bool.
From Verif Require Import Limits.
Import ListNotations.

(** The number of conflicts counted and of decisions made. *)
Fixpoint conflicts_in (es : list event) : N :=
  match es with
  | [] => 0
  | EConflict n :: es => n + conflicts_in es
  | _ :: es => conflicts_in es
  end.
Fixpoint decisions_in (es : list event) : N :=
  match es with
  | [] => 0
  | EDecision :: es => 1 + decisions_in es
  | _ :: es => decisions_in es
  end.

(** The limits in force after some calls: the last one given. *)
Fixpoint conflict_limit (cs : list setting) : option N :=
  match cs with
  | [] => None
  | SetConflictLimit n :: cs => match conflict_limit cs with Some m => Some m | None => Some n end
  | _ :: cs => conflict_limit cs
  end.
Fixpoint decision_limit (cs : list setting) : option N :=
  match cs with
  | [] => None
  | SetDecisionLimit n :: cs => match decision_limit cs with Some m => Some m | None => Some n end
  | _ :: cs => decision_limit cs
  end.

(** Termination was requested before iteration [j] of the search looks at it. *)
Definition requested (cs : list setting) (turns : nat -> turn) (j : nat) : Prop :=
  In Terminate cs \/ exists i, i <= j /\ t_request (turns i) = true.
