(** Probing: probe.c. *)
From Coq Require Import ZArith List Bool Lia Arith.
From Verif Require Import Base SpecSat Lit Solver Backbone Transitive.
Import ListNotations.
Open Scope nat_scope.
Open Scope outcome_scope.

(** What the heuristics choose in one round of probing: the candidates of the rounds of backbone extraction before
    and after the transitive reduction, and the literals probed by the latter. *)
Record probe_plan := mk_plan { pl_first : list (list lit); pl_transitive : list (lit * nat); pl_second : list (list lit) }.

(** probe.c 26-43 with the options [congruence], [substitute], [vivify], [sweep] and [factor] switched off.  The
    flag is as for [flush_to_root]. *)
Definition probe (o : options) (p : probe_plan) (s : solver) : outcome (bool * solver) :=
  do (ok, s1) <- flush_to_root o s ;
  if negb ok then Ret (false, s1)
  else
    do s2 <- binary_clauses_backbone o (pl_first p) s1 ;
    do s3 <- transitive_reduction o (pl_transitive p) s2 ;
    do s4 <- binary_clauses_backbone o (pl_second p) s3 ;
    Ret (true, s4).

(** The variables which are not assigned at the root level ([solver->active]). *)
Definition count_live (s : solver) : nat :=
  length (filter (fun i => active s i && negb (match values s (2 * i) with Some _ => lev s (2 * i) =? 0 | None => false end))
    (seq 0 (vars s))).

(** probe.c 76-83: the number of rounds is limited ([proberounds]). *)
Fixpoint probe_rounds (o : options) (rounds : list probe_plan) (s : solver) : outcome (bool * solver) :=
  match rounds with
  | [] => Ret (true, s)
  | p :: rest =>
      do (ok, s1) <- probe o p s ;
      if negb ok then Ret (false, s1)
      else if inconsistent s1 || (count_live s =? count_live s1) then Ret (true, s1)
      else probe_rounds o rest s1
  end.

(** probe.c 70-90.  The formula is classified again ([bb]). *)
Definition kissat_probe (o : options) (rounds : list probe_plan) (bb : bool) (s : solver) : outcome (bool * solver) :=
  do (ok, s1) <- probe_rounds o rounds s ;
  Ret (ok, set_bigbig bb s1).
