(** The solver state and the functions that change the assignment: assigning, watching, propagating,
    flushing and backtracking. *)
From Coq Require Import ZArith List Bool Lia Arith.
From Verif Require Import Base SpecSat Lit.
Import ListNotations.
Open Scope nat_scope.
Open Scope outcome_scope.

(** ** Data structures *)

(** assign.h 6-7 ([DECISION_REASON], [UNIT_REASON]) and the fields [binary] and [reason] of
    [struct assigned] (assign.h 15-26): [RBinary other] is [binary = true, reason = other],
    [RClause ref] is [binary = false, reason = ref]. *)
Inductive reason := RDecision | RUnit | RBinary (other : lit) | RClause (ref : nat).

(** assign.h 15-26.  The mark bits [analyzed], [poisoned], [removable] and [shrinkable] of the same
    structure are kept in the record [analysis] below. *)
Record asg := mk_asg { a_level : nat; a_trail : nat; a_reason : reason }.

(** frames.h 12-20.  The counter [used] is the field [an_used] of [analysis]; [promote] (vivification)
    and [saved] (debugging) are not modelled. *)
Record frame := mk_frame { f_decision : lit; f_trail : nat }.

(** clause.h 19-37.  [size] is the length of [c_lits].  The heuristic fields ([glue], [used],
    [subsume], [vivify], [swept], [quotient]) and the allocation flag [shrunken] are not modelled; the
    flag [reason] is recomputed from the trail where it is used. *)
Record clause := mk_clause { c_lits : list lit; c_redundant : bool; c_garbage : bool; c_searched : nat }.

(** watch.h 18-44: a watch list entry is a binary watch (one word), or a blocking literal together with
    a clause reference (two words). *)
Inductive watch := WBinary (other : lit) | WLarge (blocking : lit) (ref : nat).

(** The part of the solver state that is only used during conflict analysis (internal.h 150-170): mark bits with the stacks that remember which are set, the clause under construction, the
    decision levels it touches with the number of literals on each, and the two size counters. *)
Record analysis := mk_analysis {
  analyzed : nat -> bool; astack : list nat;
  removable : nat -> bool; rstack : list nat;
  poisoned : nat -> bool; pstack : list nat;
  shrinkable : nat -> bool; sstack : list nat;
  an_clause : list lit;
  an_levels : list nat; an_used : nat -> nat;
  antecedent_size : nat; resolvent_size : nat }.

(** internal.h 76-242.  Values are [Some true] (1), [Some false] (-1) and [None] (0).  The arena maps a
    reference to a clause and never moves clauses; a deleted clause is [None].  The proof is the list of
    its lines, newest first, over internal literals.  Heuristic state (queues, heaps, phases, averages,
    limits, statistics) is not modelled: the decisions taken with it are arguments of the model.
    [active] stands for the flags `active' or `fixed' of a variable (flags.c 5-80): a variable is
    activated by the first clause that needs it, and [unassigned] counts only activated variables. *)
Record solver := mk_solver {
  vars : nat;
  active : nat -> bool;
  values : lit -> option bool;
  assigned : nat -> asg;
  trail : list lit;
  propagate : nat;
  unassigned : nat;
  unflushed : nat;
  level : nat;
  frames : list frame;
  arena : nat -> option clause;
  next_ref : nat;
  watches : lit -> list watch;
  inconsistent : bool;
  iterating : bool;
  bigbig : bool;
  last_learned : list nat;
  steps : list (line lit);
  an : analysis }.

(** Options that influence the modelled code (options.h 15-160). *)
Record options := mk_options {
  o_jumpreasons : bool; o_otfs : bool; o_minimize : bool; o_shrink : nat; o_minimizedepth : nat;
  o_chrono : bool; o_chronolevels : nat; o_eagersubsume : nat }.

(** Record updates. *)
Definition set_analyzed (x : nat -> bool) (s : analysis) : analysis := mk_analysis x (astack s) (removable s) (rstack s) (poisoned s) (pstack s) (shrinkable s) (sstack s) (an_clause s) (an_levels s) (an_used s) (antecedent_size s) (resolvent_size s).
Definition set_astack (x : list nat) (s : analysis) : analysis := mk_analysis (analyzed s) x (removable s) (rstack s) (poisoned s) (pstack s) (shrinkable s) (sstack s) (an_clause s) (an_levels s) (an_used s) (antecedent_size s) (resolvent_size s).
Definition set_removable (x : nat -> bool) (s : analysis) : analysis := mk_analysis (analyzed s) (astack s) x (rstack s) (poisoned s) (pstack s) (shrinkable s) (sstack s) (an_clause s) (an_levels s) (an_used s) (antecedent_size s) (resolvent_size s).
Definition set_rstack (x : list nat) (s : analysis) : analysis := mk_analysis (analyzed s) (astack s) (removable s) x (poisoned s) (pstack s) (shrinkable s) (sstack s) (an_clause s) (an_levels s) (an_used s) (antecedent_size s) (resolvent_size s).
Definition set_poisoned (x : nat -> bool) (s : analysis) : analysis := mk_analysis (analyzed s) (astack s) (removable s) (rstack s) x (pstack s) (shrinkable s) (sstack s) (an_clause s) (an_levels s) (an_used s) (antecedent_size s) (resolvent_size s).
Definition set_pstack (x : list nat) (s : analysis) : analysis := mk_analysis (analyzed s) (astack s) (removable s) (rstack s) (poisoned s) x (shrinkable s) (sstack s) (an_clause s) (an_levels s) (an_used s) (antecedent_size s) (resolvent_size s).
Definition set_shrinkable (x : nat -> bool) (s : analysis) : analysis := mk_analysis (analyzed s) (astack s) (removable s) (rstack s) (poisoned s) (pstack s) x (sstack s) (an_clause s) (an_levels s) (an_used s) (antecedent_size s) (resolvent_size s).
Definition set_sstack (x : list nat) (s : analysis) : analysis := mk_analysis (analyzed s) (astack s) (removable s) (rstack s) (poisoned s) (pstack s) (shrinkable s) x (an_clause s) (an_levels s) (an_used s) (antecedent_size s) (resolvent_size s).
Definition set_an_clause (x : list lit) (s : analysis) : analysis := mk_analysis (analyzed s) (astack s) (removable s) (rstack s) (poisoned s) (pstack s) (shrinkable s) (sstack s) x (an_levels s) (an_used s) (antecedent_size s) (resolvent_size s).
Definition set_an_levels (x : list nat) (s : analysis) : analysis := mk_analysis (analyzed s) (astack s) (removable s) (rstack s) (poisoned s) (pstack s) (shrinkable s) (sstack s) (an_clause s) x (an_used s) (antecedent_size s) (resolvent_size s).
Definition set_an_used (x : nat -> nat) (s : analysis) : analysis := mk_analysis (analyzed s) (astack s) (removable s) (rstack s) (poisoned s) (pstack s) (shrinkable s) (sstack s) (an_clause s) (an_levels s) x (antecedent_size s) (resolvent_size s).
Definition set_antecedent_size (x : nat) (s : analysis) : analysis := mk_analysis (analyzed s) (astack s) (removable s) (rstack s) (poisoned s) (pstack s) (shrinkable s) (sstack s) (an_clause s) (an_levels s) (an_used s) x (resolvent_size s).
Definition set_resolvent_size (x : nat) (s : analysis) : analysis := mk_analysis (analyzed s) (astack s) (removable s) (rstack s) (poisoned s) (pstack s) (shrinkable s) (sstack s) (an_clause s) (an_levels s) (an_used s) (antecedent_size s) x.
Definition set_vars (x : nat) (s : solver) : solver := mk_solver x (active s) (values s) (assigned s) (trail s) (propagate s) (unassigned s) (unflushed s) (level s) (frames s) (arena s) (next_ref s) (watches s) (inconsistent s) (iterating s) (bigbig s) (last_learned s) (steps s) (an s).
Definition set_active (x : nat -> bool) (s : solver) : solver := mk_solver (vars s) x (values s) (assigned s) (trail s) (propagate s) (unassigned s) (unflushed s) (level s) (frames s) (arena s) (next_ref s) (watches s) (inconsistent s) (iterating s) (bigbig s) (last_learned s) (steps s) (an s).
Definition set_values (x : lit -> option bool) (s : solver) : solver := mk_solver (vars s) (active s) x (assigned s) (trail s) (propagate s) (unassigned s) (unflushed s) (level s) (frames s) (arena s) (next_ref s) (watches s) (inconsistent s) (iterating s) (bigbig s) (last_learned s) (steps s) (an s).
Definition set_assigned (x : nat -> asg) (s : solver) : solver := mk_solver (vars s) (active s) (values s) x (trail s) (propagate s) (unassigned s) (unflushed s) (level s) (frames s) (arena s) (next_ref s) (watches s) (inconsistent s) (iterating s) (bigbig s) (last_learned s) (steps s) (an s).
Definition set_trail (x : list lit) (s : solver) : solver := mk_solver (vars s) (active s) (values s) (assigned s) x (propagate s) (unassigned s) (unflushed s) (level s) (frames s) (arena s) (next_ref s) (watches s) (inconsistent s) (iterating s) (bigbig s) (last_learned s) (steps s) (an s).
Definition set_propagate (x : nat) (s : solver) : solver := mk_solver (vars s) (active s) (values s) (assigned s) (trail s) x (unassigned s) (unflushed s) (level s) (frames s) (arena s) (next_ref s) (watches s) (inconsistent s) (iterating s) (bigbig s) (last_learned s) (steps s) (an s).
Definition set_unassigned (x : nat) (s : solver) : solver := mk_solver (vars s) (active s) (values s) (assigned s) (trail s) (propagate s) x (unflushed s) (level s) (frames s) (arena s) (next_ref s) (watches s) (inconsistent s) (iterating s) (bigbig s) (last_learned s) (steps s) (an s).
Definition set_unflushed (x : nat) (s : solver) : solver := mk_solver (vars s) (active s) (values s) (assigned s) (trail s) (propagate s) (unassigned s) x (level s) (frames s) (arena s) (next_ref s) (watches s) (inconsistent s) (iterating s) (bigbig s) (last_learned s) (steps s) (an s).
Definition set_level (x : nat) (s : solver) : solver := mk_solver (vars s) (active s) (values s) (assigned s) (trail s) (propagate s) (unassigned s) (unflushed s) x (frames s) (arena s) (next_ref s) (watches s) (inconsistent s) (iterating s) (bigbig s) (last_learned s) (steps s) (an s).
Definition set_frames (x : list frame) (s : solver) : solver := mk_solver (vars s) (active s) (values s) (assigned s) (trail s) (propagate s) (unassigned s) (unflushed s) (level s) x (arena s) (next_ref s) (watches s) (inconsistent s) (iterating s) (bigbig s) (last_learned s) (steps s) (an s).
Definition set_arena (x : nat -> option clause) (s : solver) : solver := mk_solver (vars s) (active s) (values s) (assigned s) (trail s) (propagate s) (unassigned s) (unflushed s) (level s) (frames s) x (next_ref s) (watches s) (inconsistent s) (iterating s) (bigbig s) (last_learned s) (steps s) (an s).
Definition set_next_ref (x : nat) (s : solver) : solver := mk_solver (vars s) (active s) (values s) (assigned s) (trail s) (propagate s) (unassigned s) (unflushed s) (level s) (frames s) (arena s) x (watches s) (inconsistent s) (iterating s) (bigbig s) (last_learned s) (steps s) (an s).
Definition set_watches (x : lit -> list watch) (s : solver) : solver := mk_solver (vars s) (active s) (values s) (assigned s) (trail s) (propagate s) (unassigned s) (unflushed s) (level s) (frames s) (arena s) (next_ref s) x (inconsistent s) (iterating s) (bigbig s) (last_learned s) (steps s) (an s).
Definition set_inconsistent (x : bool) (s : solver) : solver := mk_solver (vars s) (active s) (values s) (assigned s) (trail s) (propagate s) (unassigned s) (unflushed s) (level s) (frames s) (arena s) (next_ref s) (watches s) x (iterating s) (bigbig s) (last_learned s) (steps s) (an s).
Definition set_iterating (x : bool) (s : solver) : solver := mk_solver (vars s) (active s) (values s) (assigned s) (trail s) (propagate s) (unassigned s) (unflushed s) (level s) (frames s) (arena s) (next_ref s) (watches s) (inconsistent s) x (bigbig s) (last_learned s) (steps s) (an s).
Definition set_bigbig (x : bool) (s : solver) : solver := mk_solver (vars s) (active s) (values s) (assigned s) (trail s) (propagate s) (unassigned s) (unflushed s) (level s) (frames s) (arena s) (next_ref s) (watches s) (inconsistent s) (iterating s) x (last_learned s) (steps s) (an s).
Definition set_last_learned (x : list nat) (s : solver) : solver := mk_solver (vars s) (active s) (values s) (assigned s) (trail s) (propagate s) (unassigned s) (unflushed s) (level s) (frames s) (arena s) (next_ref s) (watches s) (inconsistent s) (iterating s) (bigbig s) x (steps s) (an s).
Definition set_steps (x : list (line lit)) (s : solver) : solver := mk_solver (vars s) (active s) (values s) (assigned s) (trail s) (propagate s) (unassigned s) (unflushed s) (level s) (frames s) (arena s) (next_ref s) (watches s) (inconsistent s) (iterating s) (bigbig s) (last_learned s) x (an s).
Definition set_an (x : analysis) (s : solver) : solver := mk_solver (vars s) (active s) (values s) (assigned s) (trail s) (propagate s) (unassigned s) (unflushed s) (level s) (frames s) (arena s) (next_ref s) (watches s) (inconsistent s) (iterating s) (bigbig s) (last_learned s) (steps s) x.

(** ** Reading the assignment (internal.h macros [VALUE], [LEVEL], [TRAIL], [ASSIGNED]) *)
Definition is_true (s : solver) (l : lit) : bool := match values s l with Some true => true | _ => false end.
Definition is_false (s : solver) (l : lit) : bool := match values s l with Some false => true | _ => false end.
Definition is_unassigned (s : solver) (l : lit) : bool := match values s l with None => true | _ => false end.
Definition lev (s : solver) (l : lit) : nat := a_level (assigned s (idx l)).
Definition tpos (s : solver) (l : lit) : nat := a_trail (assigned s (idx l)).
Definition reas (s : solver) (l : lit) : reason := a_reason (assigned s (idx l)).

(** ** Proof output: proof.h 30-110, proof.c 287-404 *)
Definition add_step (c : list lit) (s : solver) : solver := set_steps (Added c :: steps s) s.
Definition del_step (c : list lit) (s : solver) : solver := set_steps (Deleted c :: steps s) s.

(** ** Assigning *)
(** inlineassign.h 64-77: a new assignment clears the mark bits of its variable. *)
Definition clear_marks (i : nat) (a : analysis) : analysis :=
  set_analyzed (upd (analyzed a) i false)
    (set_removable (upd (removable a) i false)
      (set_poisoned (upd (poisoned a) i false)
        (set_shrinkable (upd (shrinkable a) i false) a))).

Definition is_unit_reason (r : reason) : bool := match r with RUnit => true | _ => false end.

(** inlineassign.h 8-78.  Prefetching, the saved phase and the "fixed" flags are not modelled. *)
Definition assign (lvl : nat) (r : reason) (l : lit) (s : solver) : outcome solver :=
  do _ <- oassert (is_unassigned s l && is_unassigned s (neg l)) ;
  do _ <- oassert (0 <? unassigned s) ;
  let root := lvl =? 0 in
  let s1 := set_unassigned (pred (unassigned s))
              (set_values (upd (upd (values s) l (Some true)) (neg l) (Some false)) s) in
  let s2 := if root then set_unflushed (S (unflushed s1)) s1 else s1 in
  let s3 := if root && negb (is_unit_reason r) then add_step [l] s2 else s2 in
  let r' := if root then RUnit else r in
  let pos := length (trail s3) in
  Ret (set_an (clear_marks (idx l) (an s3))
        (set_assigned (upd (assigned s3) (idx l) (mk_asg lvl pos r'))
          (set_trail (trail s3 ++ [l]) s3))).

(** inlineassign.h 80-98: the highest level among the other literals. *)
Definition assignment_level (s : solver) (l : lit) (lits : list lit) : nat :=
  fold_left (fun m k => if k =? l then m else Nat.max m (lev s k)) lits 0.

(** fastassign.h 9-24.  [bigbig] is a classification of the formula computed by classify.c. *)
Definition fast_binary_assign (o : options) (lvl : nat) (l other : lit) (s : solver) : outcome solver :=
  let other' :=
    if o_jumpreasons o && (0 <? lvl) && bigbig s
    then match reas s other with RBinary k => k | _ => other end
    else other in
  assign lvl (RBinary other') l s.

(** assign.c 8-14 (and 22-24), 16-20, 26-30. *)
Definition assign_unit (l : lit) (s : solver) : outcome solver := assign 0 RUnit l s.
Definition learned_unit (l : lit) (s : solver) : outcome solver :=
  do s <- assign_unit l s ; Ret (add_step [l] s).
Definition assign_decision (l : lit) (s : solver) : outcome solver := assign (level s) RDecision l s.

(** assign.c 32-45. *)
Definition assign_binary (o : options) (l other : lit) (s : solver) : outcome solver :=
  do _ <- oassert (is_false s other) ;
  let lvl := lev s other in
  let other' :=
    if o_jumpreasons o && (0 <? lvl)
    then match reas s other with RBinary k => k | _ => other end
    else other in
  assign lvl (RBinary other') l s.

(** assign.c 47-59 and fastassign.h 26-39. *)
Definition assign_reference (l : lit) (ref : nat) (s : solver) : outcome solver :=
  match arena s ref with
  | None => Undef
  | Some c => assign (assignment_level s l (c_lits c)) (RClause ref) l s
  end.

(** ** Watch lists *)
(** inline.h 75-115, 142-147 *)
Definition push_watch (l : lit) (w : watch) (s : solver) : solver :=
  set_watches (upd (watches s) l (watches s l ++ [w])) s.
Definition watch_binary (a b : lit) (s : solver) : solver :=
  push_watch b (WBinary a) (push_watch a (WBinary b) s).
Definition watch_blocking (l blocking : lit) (ref : nat) (s : solver) : solver :=
  push_watch l (WLarge blocking ref) s.

Definition watches_ref (ref : nat) (w : watch) : bool :=
  match w with WLarge _ r => r =? ref | WBinary _ => false end.
(** watch.c 44-79: drops the watches of [ref]; the size is decreased by one entry in any case, so
    anything but exactly one occurrence corrupts the list. *)
Definition unwatch_blocking (l : lit) (ref : nat) (s : solver) : outcome solver :=
  let ws := watches s l in
  do _ <- oassert (length (filter (watches_ref ref) ws) =? 1) ;
  Ret (set_watches (upd (watches s) l (filter (fun w => negb (watches_ref ref w)) ws)) s).

Definition set_clause (ref : nat) (c : option clause) (s : solver) : solver :=
  set_arena (upd (arena s) ref c) s.

(** ** Creating and deleting clauses *)
(** clause.c 64-79: the model always watches.  Marking added literals (for the scheduling of
    subsumption, elimination and factoring) and statistics are not modelled. *)
Definition new_binary_clause (original : bool) (a b : lit) (s : solver) : solver :=
  let s := watch_binary a b s in
  if original then s else add_step [a; b] s.

(** clause.c 81-107 (and 29-50) *)
Definition new_large_clause (original redundant : bool) (lits : list lit) (s : solver) : outcome (nat * solver) :=
  match lits with
  | l0 :: l1 :: _ :: _ =>
      let ref := next_ref s in
      let s1 := set_next_ref (S ref) (set_clause ref (Some (mk_clause lits redundant false 2)) s) in
      let s2 := watch_blocking l1 l0 ref (watch_blocking l0 l1 ref s1) in
      Ret (ref, if original then s2 else add_step lits s2)
  | _ => Undef
  end.

(** clause.c 150-167 *)
Definition mark_garbage (ref : nat) (s : solver) : outcome solver :=
  match arena s ref with
  | None => Undef
  | Some c =>
      do _ <- oassert (negb (c_garbage c)) ;
      Ret (del_step (c_lits c)
            (set_clause ref (Some (mk_clause (c_lits c) (c_redundant c) true (c_searched c))) s))
  end.

(** ** Propagation *)
(** A conflict is the temporary binary clause [solver->conflict] (inline.h 232-241) or a clause. *)
Inductive conflict := CBinary (a b : lit) | CLarge (ref : nat).

(** proplit.h 116-133: the first literal which is not false. *)
Fixpoint find_non_false (s : solver) (lits : list lit) : option nat :=
  match lits with
  | [] => None
  | l :: rest => if is_false s l then option_map S (find_non_false s rest) else Some 0
  end.
(** proplit.h 109-134: search from [searched] to the end, then from position 2 to [searched].  [rest] are
    the literals from position 2 on, and the result is an index into [rest]. *)
Definition search_replacement (s : solver) (rest : list lit) (searched : nat) : option nat :=
  let k := searched - 2 in
  match find_non_false s (skipn k rest) with
  | Some i => Some (k + i)
  | None => find_non_false s (firstn k rest)
  end.

(** proplit.h 99: [lits[0] ^ lits[1] ^ not_lit] is the other watch, if [not_lit] is one of them. *)
Definition other_watch (l0 l1 not_lit : lit) : option lit :=
  if l0 =? not_lit then Some l1 else if l1 =? not_lit then Some l0 else None.

Definition watch_head (w : watch) : lit := match w with WBinary b => b | WLarge b _ => b end.

(** proplit.h 74-177: the loop over the watches of [not_lit].  [kept] are the watches copied so far in
    reverse, [delayed] the watches to be added to other lists afterwards. *)
Fixpoint propagate_watches (o : options) (not_lit : lit) (lvl : nat) (ws kept : list watch)
    (delayed : list (lit * watch)) (s : solver)
  : outcome (solver * list watch * list (lit * watch) * option conflict) :=
  match ws with
  | [] => Ret (s, rev kept, delayed, None)
  | w :: ws' =>
      if is_true s (watch_head w) then propagate_watches o not_lit lvl ws' (w :: kept) delayed s
      else
        match w with
        | WBinary other =>
            if is_false s other then
              Ret (s, rev kept ++ w :: ws', delayed, Some (CBinary not_lit other))
            else
              do s' <- fast_binary_assign o lvl other not_lit s ;
              propagate_watches o not_lit lvl ws' (w :: kept) delayed s'
        | WLarge blocking ref =>
            match arena s ref with
            | None => Undef
            | Some c =>
                if c_garbage c then propagate_watches o not_lit lvl ws' kept delayed s
                else
                  match c_lits c with
                  | l0 :: l1 :: rest =>
                      match other_watch l0 l1 not_lit with
                      | None => Undef
                      | Some other =>
                          if is_true s other then
                            propagate_watches o not_lit lvl ws' (WLarge other ref :: kept) delayed s
                          else
                            match search_replacement s rest (c_searched c) with
                            | Some r =>
                                let replacement := nth r rest 0 in
                                let c' := mk_clause (other :: replacement :: lset rest r not_lit)
                                            (c_redundant c) (c_garbage c) (r + 2) in
                                propagate_watches o not_lit lvl ws' kept
                                  (delayed ++ [(replacement, WLarge other ref)]) (set_clause ref (Some c') s)
                            | None =>
                                if is_false s other then
                                  Ret (s, rev kept ++ w :: ws', delayed, Some (CLarge ref))
                                else
                                  do s' <- assign_reference other ref s ;
                                  propagate_watches o not_lit lvl ws' (w :: kept) delayed s'
                            end
                      end
                  | _ => Undef
                  end
            end
        end
  end.

(** proplit.h 1-23 *)
Definition push_delayed (delayed : list (lit * watch)) (s : solver) : solver :=
  fold_left (fun s d => push_watch (fst d) (snd d) s) delayed s.

(** proplit.h 34-187 *)
Definition propagate_literal (o : options) (l : lit) (s : solver) : outcome (solver * option conflict) :=
  do _ <- oassert (is_true s l) ;
  let not_lit := neg l in
  do (s1, ws, delayed, confl) <-
    propagate_watches o not_lit (lev s l) (watches s not_lit) [] [] s ;
  let s2 := set_watches (upd (watches s1) not_lit ws) s1 in
  Ret (push_delayed delayed s2, confl).

(** propsearch.c 35-42: the bound [fuel] is the number of loop iterations allowed. *)
Fixpoint propagate_loop (fuel : nat) (o : options) (s : solver) : outcome (solver * option conflict) :=
  match nth_error (trail s) (propagate s) with
  | None => Ret (s, None)
  | Some l =>
      match fuel with
      | O => Fuel
      | S fuel =>
          do (s1, confl) <- propagate_literal o l (set_propagate (S (propagate s)) s) ;
          match confl with
          | Some c => Ret (s1, Some c)
          | None => propagate_loop fuel o s1
          end
      end
  end.

(** trail.c 6-16 *)
Definition flush_trail (s : solver) : solver :=
  set_unflushed 0 (set_propagate 0 (set_trail [] s)).

(** proplit.h 189-204 *)
Definition update_conflicts_and_trail (confl : option conflict) (s : solver) : solver :=
  match confl with
  | Some _ => if level s =? 0 then add_step [] (set_inconsistent true s) else s
  | None => if (level s =? 0) && (0 <? unflushed s) then flush_trail s else s
  end.

(** propsearch.c 44-71 *)
Definition search_propagate (o : options) (s : solver) : outcome (solver * option conflict) :=
  do (s1, confl) <- propagate_loop (S (vars s)) o s ;
  Ret (update_conflicts_and_trail confl s1, confl).

(** ** Backtracking *)
(** backtrack.c 11-18; putting the variable back into the decision queue or heap is not modelled. *)
Definition unassign (l : lit) (s : solver) : solver :=
  set_unassigned (S (unassigned s)) (set_values (upd (upd (values s) l None) (neg l) None) s).

(** backtrack.c 88-137: literals of levels up to [new_level] stay on the trail. *)
Fixpoint backtrack_lits (new_level : nat) (lits : list lit) (q : nat) (s : solver) : list lit * solver :=
  match lits with
  | [] => ([], s)
  | l :: rest =>
      if lev s l <=? new_level then
        let a := assigned s (idx l) in
        let s := set_assigned (upd (assigned s) (idx l) (mk_asg (a_level a) q (a_reason a))) s in
        let '(kept, s) := backtrack_lits new_level rest (S q) s in
        (l :: kept, s)
      else backtrack_lits new_level rest q (unassign l s)
  end.

(** backtrack.c 72-148 *)
Definition backtrack (new_level : nat) (s : solver) : outcome solver :=
  do _ <- oassert (new_level <=? level s) ;
  if level s =? new_level then Ret s
  else
    match nth_error (frames s) (S new_level) with
    | None => Undef
    | Some f =>
        do _ <- oassert (f_trail f <=? length (trail s)) ;
        let '(kept, s1) := backtrack_lits new_level (skipn (f_trail f) (trail s)) (f_trail f) s in
        Ret (set_propagate (f_trail f)
              (set_level new_level
                (set_frames (firstn (S new_level) (frames s1))
                  (set_trail (firstn (f_trail f) (trail s) ++ kept) s1))))
    end.

(** backtrack.c 150-154 and 156-161: phases are not modelled. *)
Definition backtrack_in_consistent_state (new_level : nat) (s : solver) : outcome solver :=
  backtrack new_level s.
Definition backtrack_after_conflict (new_level : nat) (s : solver) : outcome solver :=
  do s1 <- (if 0 <? level s then backtrack (pred (level s)) s else Ret s) ;
  backtrack new_level s1.

(** ** Decisions *)
(** decide.c 209-233: the variable and its phase are chosen by heuristics, here the argument [l].  The
    new frame starts with no used literals (inlineframes.h 7-16). *)
Definition decide (l : lit) (s : solver) : outcome solver :=
  let lvl := S (level s) in
  let s1 := set_level lvl s in
  let s2 := set_frames (frames s1 ++ [mk_frame l (length (trail s1))]) s1 in
  let s3 := set_an (set_an_used (upd (an_used (an s2)) lvl 0) (an s2)) s2 in
  assign_decision l s3.

(** Choices which the heuristics cannot make are answered with [Fuel]. *)
Definition possible (b : bool) : outcome unit := if b then Ret tt else Fuel.

(** backtrack.c 163-177: the flag tells whether propagation ran into a conflict, which the code asserts not to
    happen and otherwise ignores. *)
Definition flush_to_root (o : options) (s : solver) : outcome (bool * solver) :=
  if 0 <? level s then
    do s1 <- backtrack_in_consistent_state 0 s ;
    do (s2, confl) <- search_propagate o s1 ;
    Ret (match confl with None => true | Some _ => false end, s2)
  else Ret (true, s).
