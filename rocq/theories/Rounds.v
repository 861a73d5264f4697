(** Rounds of variable elimination with forward subsumption: eliminate.c. *)
From Coq Require Import ZArith List Bool Lia Arith.
From Verif Require Import Base Lit Solver Extend Eliminate Forward.
Import ListNotations.
Open Scope nat_scope.
Open Scope outcome_scope.

(** watch.c 204-223: the references of large clauses are removed from all lists. *)
Definition flush_large_connected (d : dense) : dense :=
  set_d_occs (fun l => filter (fun w => negb (is_large w)) (d_occs d l)) d.

(** watch.c 169-202.  Redundant clauses behind the last irredundant clause are skipped. *)
Fixpoint connect_large (refs : list nat) (d : dense) : outcome dense :=
  match refs with
  | [] => Ret d
  | r :: refs =>
      match arena (d_sol d) r with
      | None => connect_large refs d
      | Some c =>
          if c_redundant c || c_garbage c then connect_large refs d
          else if existsb (dtrue d) (c_lits c) then do d <- eliminate_clause r d ; connect_large refs d
          else connect_large refs (connect_clause r (c_lits c) d)
      end
  end.
Definition connect_irredundant_large (d : dense) : outcome dense := connect_large (seq 0 (next_ref (d_sol d))) d.

(** collect.c 657-738: garbage clauses are deleted.  The clauses that are left move in the arena, which nothing refers to
    at this point; here they keep their references. *)
Definition dense_collect (d : dense) : dense :=
  set_d_sol (set_arena (fun r => match arena (d_sol d) r with
                                 | Some c => if c_garbage c then None else Some c
                                 | None => None
                                 end) (d_sol d)) d.

(** One round: the variables with the flag [subsume], the number of clauses considered by forward subsumption and the
    variables taken from the schedule, until it is empty or a limit is hit. *)
Record round := mk_round { r_sub : nat -> bool; r_budget : nat; r_candidates : list nat }.

(** eliminate.c 439-453: without the flag [complete], which only has influence on the number of rounds. *)
Definition round_start (fo : forward_options) (forward : bool) (r : round) (d : dense) : outcome dense :=
  if forward then
    let start := propagate (d_sol d) in
    do (_, _, d) <- kissat_forward_subsume fo (r_budget r) (r_sub r) d ;
    if inconsistent (d_sol d) then Ret d
    else
      do d <- connect_irredundant_large (flush_large_connected d) ;
      flush_units_while_connected (set_d_sol (set_propagate start (d_sol d)) d)
  else connect_irredundant_large d.
(** eliminate.c 436-507 *)
Definition eliminate_round (fo : forward_options) (forward : bool) (o : elim_options) (r : round) (d : dense) : outcome dense :=
  do d <- round_start fo forward r d ;
  if inconsistent (d_sol d) then Ret d
  else
    do d <- eliminate_candidates o (r_candidates r) d ;
    if inconsistent (d_sol d) then Ret d else Ret (dense_collect (flush_large_connected d)).
(** eliminate.c 416-527: the number of rounds is not fixed, it depends on what was eliminated and on limits. *)
Fixpoint eliminate_rounds (fo : forward_options) (forward : bool) (o : elim_options) (rs : list round) (d : dense) : outcome dense :=
  match rs with
  | [] => Ret d
  | r :: rs =>
      do d <- eliminate_round fo forward o r d ;
      if inconsistent (d_sol d) then Ret d else eliminate_rounds fo forward o rs d
  end.
