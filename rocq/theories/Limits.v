(** Limits on conflicts and decisions and termination requests: the counters and tests around the search loop. *)
From Coq Require Import ZArith NArith List Bool Lia Arith.
From Verif Require Import Base SpecSat Lit Solver Analyze Search Api.
Import ListNotations.
Open Scope nat_scope.
Open Scope outcome_scope.

(** ** Counters, limits and the termination flag *)
(** statistics.h (`conflicts', `decisions'), kimits.h (`limits', `limited') and internal.h 52-60 (`termination').
    A limit which is switched off is [None].  The counters are 64-bit numbers in the code and unbounded here.
    The callback is a function from the number of its previous calls to its result. *)
Record control := mk_control {
  k_conflicts : N; k_decisions : N;
  k_conflict_limit : option N; k_decision_limit : option N;
  k_flagged : bool; k_callback : option (nat -> Z) }.

(** internal.c 24-48: everything is zero initially. *)
Definition initial_control : control := mk_control 0 0 None None false None.

(** The calls of the interface which change them, internal.c 212-222, 200-210, 475-479 and 481-486. *)
Inductive setting :=
| SetConflictLimit (n : N)
| SetDecisionLimit (n : N)
| Terminate
| SetTerminate (callback : nat -> Z).
Definition set (k : control) (c : setting) : control :=
  match c with
  | SetConflictLimit n => mk_control (k_conflicts k) (k_decisions k) (Some (k_conflicts k + n)%N) (k_decision_limit k) (k_flagged k) (k_callback k)
  | SetDecisionLimit n => mk_control (k_conflicts k) (k_decisions k) (k_conflict_limit k) (Some (k_decisions k + n)%N) (k_flagged k) (k_callback k)
  | Terminate => mk_control (k_conflicts k) (k_decisions k) (k_conflict_limit k) (k_decision_limit k) true (k_callback k)
  | SetTerminate f => mk_control (k_conflicts k) (k_decisions k) (k_conflict_limit k) (k_decision_limit k) (k_flagged k) (Some f)
  end.
Definition set_all (cs : list setting) (k : control) : control := fold_left set cs k.

Definition count_conflicts (n : N) (k : control) : control :=
  mk_control (k_conflicts k + n) (k_decisions k) (k_conflict_limit k) (k_decision_limit k) (k_flagged k) (k_callback k).
Definition count_decision (k : control) : control :=
  mk_control (k_conflicts k) (k_decisions k + 1) (k_conflict_limit k) (k_decision_limit k) (k_flagged k) (k_callback k).

(** search.c 145-154 and 156-165 *)
Definition conflict_limit_hit (k : control) : bool :=
  match k_conflict_limit k with None => false | Some n => (n <=? k_conflicts k)%N end.
Definition decision_limit_hit (k : control) : bool :=
  match k_decision_limit k with None => false | Some n => (n <=? k_decisions k)%N end.

(** search.c 102-117 *)
Definition stop_search (k : control) : control :=
  mk_control (k_conflicts k) (k_decisions k) None None false (k_callback k).

(** ** The search loop *)
(** search.c 202-215: what is done instead of a decision, see [choice].  Probing and elimination are switched off
    in this model. *)
Inductive task :=
| DoReduce (r : reduction) (bb : bool)
| DoRestart (lvl : nat)
| DoRephase
| DoHeuristics.
(** The environment of one iteration: whether kissat_terminate is called (by a signal handler or another thread)
    since the last iteration, which task is due, and which literal the heuristics decide otherwise. *)
Record turn := mk_turn { t_request : bool; t_task : option task; t_decision : lit }.

(** What an iteration does.  [EConflict n] is an analyzed conflict, counted [n] times. *)
Inductive event := EConflict (n : N) | EIterate | ETask | EDecision | EEnd.

(** analyze.c 553-558: a reason strengthened during the analysis is counted as a further conflict.  This
    follows the recursion of [analyze_loop]. *)
Fixpoint strengthened (fuel : nat) (o : options) (c : conflict) (s : solver) : N :=
  match fuel with
  | O => 0%N
  | S fuel =>
      match one_literal_on_conflict_level o c s with
      | Ret (s1, false, conflict_level) =>
          if conflict_level <=? 1 then 0%N
          else
            match deduce_first_uip_clause o c s1 with
            | Ret (s2, Some c') =>
                (1 + strengthened fuel o c' (set_an (reset_only_analyzed (reset_analysis_but_not_analyzed (an s2))) s2))%N
            | _ => 0%N
            end
      | _ => 0%N
      end
  end.
(** proplit.h 189-195 (one for the propagation) and analyze.c 527-531. *)
Definition conflicts_counted (o : options) (c : conflict) (s : solver) : N :=
  (1 + if inconsistent s then 0 else strengthened (analyze_fuel s) o c s)%N.

Definition do_task (o : options) (t : task) (s : solver) : outcome progress :=
  match t with
  | DoReduce r bb => do (ok, s1) <- reduce o r bb s ; Ret (if ok then Go s1 else Done (RIgnored s1))
  | DoRestart lvl =>
      do _ <- possible (lvl <=? level s) ;
      do s1 <- backtrack_in_consistent_state lvl s ;
      Ret (Go s1)
  | DoRephase => do (ok, s1) <- flush_to_root o s ; Ret (if ok then Go s1 else Done (RIgnored s1))
  | DoHeuristics => Ret (Go s)
  end.

(** search.c 191-222 with terminate.h 12-38: the callback is not looked at. *)
Definition limited_step (o : options) (t : turn) (k : control) (s : solver) : outcome (progress * control * event) :=
  let k := if t_request t then set k Terminate else k in
  do (s1, confl) <- search_propagate o s ;
  match confl with
  | Some c =>
      let n := conflicts_counted o c s1 in
      do (go, s2) <- analyze (analyze_fuel s1) o c s1 ;
      Ret (if go then Go s2 else Done (RUnsat s2), count_conflicts n k, EConflict n)
  | None =>
      if iterating s1 then Ret (Go (set_iterating false s1), k, EIterate)
      else if unassigned s1 =? 0 then Ret (Done (RSat s1), k, EEnd)
      else if k_flagged k then Ret (Done (RStopped s1), k, EEnd)
      else
        match t_task t with
        | Some j => do p <- do_task o j s1 ; Ret (p, k, ETask)
        | None =>
            if conflict_limit_hit k then Ret (Done (RStopped s1), k, EEnd)
            else if decision_limit_hit k then Ret (Done (RStopped s1), k, EEnd)
            else
              let l := t_decision t in
              do _ <- possible ((l <? 2 * vars s1) && active s1 (idx l) && is_unassigned s1 l) ;
              do s2 <- decide l s1 ;
              Ret (Go s2, count_decision k, EDecision)
        end
  end.

(** At most [n] iterations; the result is [None] if these were not enough.  The list tells what each of them
    did. *)
Fixpoint limited_loop (n : nat) (o : options) (turns : nat -> turn) (k : control) (s : solver)
  : outcome (option result * control * list event) :=
  match n with
  | O => Ret (None, k, [])
  | S n =>
      do (p, k1, e) <- limited_step o (turns 0) k s ;
      match p with
      | Done r => Ret (Some r, k1, [e])
      | Go s1 => do (r, k2, es) <- limited_loop n o (fun i => turns (S i)) k1 s1 ; Ret (r, k2, e :: es)
      end
  end.

(** search.c 167-177.  [initial] tells whether both options `probeinit' and `eliminateinit' are set. *)
Definition searching (initial : bool) (k : control) (s : solver) : bool :=
  if negb (propagate s =? length (trail s)) then true
  else if negb initial then true
  else negb (conflict_limit_hit k).

(** internal.c 467-473 and search.c 179-229, see [kissat_solve]. *)
Definition limited_solve (n : nat) (o : options) (initial bb : bool) (turns : nat -> turn) (k : control) (a : api)
  : outcome (option (Z * api) * control * list event) :=
  do _ <- require (match cls a with [] => true | _ => false end) ;
  do _ <- require (negb (searches a)) ;
  if inconsistent (sol a) then Ret (Some (20%Z, a), k, [])
  else
    let s := set_bigbig bb (sol a) in
    if negb (searching initial k s) then Ret (Some (0%Z, set_sol s a), k, [])
    else
      do (r, k1, es) <- limited_loop n o turns k s ;
      match r with
      | None => Ret (None, k1, es)
      | Some r =>
          do p <- match r with
                  | RSat s => Ret (10%Z, s)
                  | RUnsat s => Ret (20%Z, s)
                  | RStopped s => Ret (0%Z, s)
                  | RIgnored _ => Undef
                  end ;
          Ret (Some (fst p, set_searches true (set_sol (snd p) a)), stop_search k1, es)
      end.
