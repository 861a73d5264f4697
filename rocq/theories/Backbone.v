(** Backbone extraction over binary clauses: backbone.c. *)
From Coq Require Import ZArith List Bool Lia Arith.
From Verif Require Import Base SpecSat Lit Solver.
Import ListNotations.
Open Scope nat_scope.
Open Scope outcome_scope.

(** ** Assigning literals *)
(** backbone.c 136-149.  The reason of a literal is the literal which implies it over a binary clause (179). *)
Inductive backbone_reason := ByDecision | ByUnit | ByBinary (l : lit).

(** The part of the solver which is changed while candidates are tried: values, reasons (by variable) and the trail.
    Literals assigned at the root level are not on the trail (340).  The decision level is only used by the heuristic
    that keeps candidates (403), it is not modelled. *)
Record backbone := mk_backbone { bb_values : lit -> option bool; bb_reasons : nat -> backbone_reason; bb_trail : list lit }.

Definition backbone_assign (l : lit) (r : backbone_reason) (t : backbone) : outcome backbone :=
  do _ <- oassert (match bb_values t l, bb_values t (neg l) with None, None => true | _, _ => false end) ;
  Ret (mk_backbone (upd (upd (bb_values t) l (Some true)) (neg l) (Some false)) (upd (bb_reasons t) (idx l) r) (bb_trail t ++ [l])).

(** ** Propagation over binary clauses *)
(** backbone.c 151-203, with [stop_early] false: the flag is only set by substitution, which is switched off (see [probe]).
    A conflict is given by the two literals of the clause. *)
Fixpoint backbone_propagate_literal (l : lit) (ws : list watch) (t : backbone) : outcome (option (lit * lit) * backbone) :=
  match ws with
  | [] => Ret (None, t)
  | WBinary other :: rest =>
      match bb_values t other with
      | Some true => backbone_propagate_literal l rest t
      | Some false => Ret (Some (neg l, other), t)
      | None => do t1 <- backbone_assign other (ByBinary l) t ; backbone_propagate_literal l rest t1
      end
  | WLarge _ _ :: rest => backbone_propagate_literal l rest t
  end.

(** backbone.c 205-237.  [k] is the position of the next literal on the trail to propagate. *)
Fixpoint backbone_propagate (fuel : nat) (W : lit -> list watch) (k : nat) (t : backbone) : outcome (option (lit * lit) * backbone) :=
  match nth_error (bb_trail t) k with
  | None => Ret (None, t)
  | Some l =>
      match fuel with
      | O => Fuel
      | S fuel =>
          do _ <- oassert (match bb_values t l, bb_values t (neg l) with Some true, Some false => true | _, _ => false end) ;
          do (c, t1) <- backbone_propagate_literal l (W (neg l)) t ;
          match c with
          | Some x => Ret (Some x, t1)
          | None => backbone_propagate fuel W (S k) t1
          end
      end
  end.

(** backbone.c 239-259: the literals from position [k] on are unassigned. *)
Definition unassign (vals : lit -> option bool) (l : lit) : lit -> option bool := upd (upd vals l None) (neg l) None.
Definition backbone_backtrack (k : nat) (t : backbone) : backbone :=
  mk_backbone (fold_left unassign (rev (skipn k (bb_trail t))) (bb_values t)) (bb_reasons t) (firstn k (bb_trail t)).

(** ** Analyzing conflicts *)
(** backbone.c 271-298: [ts] is the trail from its end on, [an] are the variables which are analyzed. *)
Fixpoint backbone_uip (reasons : nat -> backbone_reason) (ts : list lit) (an : list nat) : outcome lit :=
  match ts with
  | [] => Undef
  | l :: ts =>
      if negb (existsb (Nat.eqb (idx l)) an) then backbone_uip reasons ts an
      else
        match reasons (idx l) with
        | ByBinary r => if existsb (Nat.eqb (idx r)) an then Ret r else backbone_uip reasons ts (idx r :: an)
        | _ => Undef
        end
  end.
(** backbone.c 261-299 *)
Definition backbone_analyze (c : lit * lit) (t : backbone) : outcome lit :=
  do _ <- oassert (negb (idx (fst c) =? idx (snd c))) ;
  backbone_uip (bb_reasons t) (rev (bb_trail t)) [idx (snd c); idx (fst c)].

(** ** Trying candidates *)
(** backbone.c 385-457, the loop over the candidates [probes].  It stops when the limit on ticks is hit or the solver is
    terminated (412-415), which is at the end of the list here; which literals are candidates, and in which order, is a
    heuristic.  The result is the state, the units found, and the last unit if it leads to a conflict too. *)
Fixpoint backbone_probes (n : nat) (active : nat -> bool) (W : lit -> list watch) (probes : list lit) (units : list lit) (t : backbone)
  : outcome (backbone * list lit * option lit) :=
  match probes with
  | [] => Ret (t, units, None)
  | probe :: rest =>
      do _ <- possible ((probe <? 2 * n) && active (idx probe)) ;
      match bb_values t probe with
      | Some _ => backbone_probes n active W rest units t
      | None =>
          let saved := length (bb_trail t) in
          do t1 <- backbone_assign probe ByDecision t ;
          do (c, t2) <- backbone_propagate n W saved t1 ;
          match c with
          | None => backbone_probes n active W rest units t2
          | Some c =>
              do uip <- backbone_analyze c t2 ;
              do t3 <- backbone_assign (neg uip) ByUnit (backbone_backtrack saved t2) ;
              do (c', t4) <- backbone_propagate n W saved t3 ;
              match c' with
              | None => backbone_probes n active W rest (units ++ [neg uip]) t4
              | Some _ => Ret (t4, units ++ [neg uip], Some (neg uip))
              end
          end
      end
  end.

(** backbone.c 510-514 *)
Fixpoint learn_units (units : list lit) (s : solver) : outcome solver :=
  match units with
  | [] => Ret s
  | l :: rest => do s1 <- learned_unit l s ; learn_units rest s1
  end.

(** backbone.c 354-549, the loop over the rounds.  All literals on the trail are unassigned at the end of a round (507-508),
    thus the values are those at the beginning of the round again (see [backbone_restored]).  The reasons from before the round are
    not used. Propagation is probing
    propagation as in Transitive.v. *)
Fixpoint backbone_rounds (o : options) (rounds : list (list lit)) (s : solver) : outcome solver :=
  match rounds with
  | [] => Ret s
  | probes :: rest =>
      do _ <- oassert (negb (inconsistent s) && (level s =? 0)) ;
      do (t, units, failed) <- backbone_probes (vars s) (active s) (watches s) probes [] (mk_backbone (values s) (fun _ => ByUnit) []) ;
      match failed with
      | Some l =>
          do s1 <- learned_unit l s ;
          do (s2, _) <- search_propagate o s1 ;
          do _ <- oassert (inconsistent s2) ;
          Ret s2
      | None =>
          match units with
          | [] => backbone_rounds o rest s
          | _ =>
              do s1 <- learn_units units s ;
              do (s2, c) <- search_propagate o s1 ;
              match c with
              | Some _ => Ret s2
              | None => backbone_rounds o rest s2
              end
          end
      end
  end.

(** backbone.c 317-570 and 572-598 with option [backbone]. *)
Definition binary_clauses_backbone (o : options) (rounds : list (list lit)) (s : solver) : outcome solver :=
  if inconsistent s then Ret s
  else
    do _ <- oassert ((level s =? 0) && (propagate s =? length (trail s)) && match trail s with [] => true | _ => false end) ;
    backbone_rounds o rounds s.
