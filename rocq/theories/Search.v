(** Garbage collection, clause database reduction, restarts and the search loop. *)
From Coq Require Import ZArith List Bool Lia Arith.
From Verif Require Import Base SpecSat Lit Solver Analyze Probe.
Import ListNotations.
Open Scope nat_scope.
Open Scope outcome_scope.

(** ** Moving the best watches to the front: sort.c *)
(** sort.c 26-60: the scan for a better literal.  [u] and [k] are the value and level of the literal found
    so far at [pos], the result is the position and value of the literal selected. *)
Fixpoint smallest (s : solver) (enough : bool) (j : nat) (lits : list lit) (pos : nat) (u : bool) (k : nat)
  : nat * option bool :=
  match lits with
  | [] => (pos, Some u)
  | b :: rest =>
      match values s b with
      | None => (j, None)
      | Some v =>
          if v && enough then (j, Some v)
          else
            let better := match u, v with
              | false, true => true
              | true, false => false
              | false, false => k <? lev s b
              | true, true => lev s b <? k
              end in
            if better then smallest s enough (S j) rest j v (lev s b)
            else smallest s enough (S j) rest pos u k
      end
  end.

(** sort.c 4-77: the literals after the swap and the value of the literal moved to position [start]. *)
Definition move_smallest_literal_to_front (s : solver) (enough : bool) (start : nat) (lits : list lit)
  : list lit * option bool :=
  let a := nth start lits 0 in
  match values s a with
  | None => (lits, None)
  | Some u =>
      if u && enough then (lits, Some u)
      else
        let '(pos, v) := smallest s enough (S start) (skipn (S start) lits) start u (lev s a) in
        (if pos =? start then lits else lswap lits start pos, v)
  end.

(** sort.c 79-98 *)
Definition sort_literals (s : solver) (lits : list lit) : list lit :=
  let '(lits1, u) := move_smallest_literal_to_front s false 0 lits in
  if 2 <? length lits1 then
    fst (move_smallest_literal_to_front s (match u with Some false => false | _ => true end) 1 lits1)
  else lits1.

(** ** Garbage collection: collect.c, without compaction of the variables *)
Definition root_true (s : solver) (l : lit) : bool := is_true s l && (lev s l =? 0).
Definition root_false (s : solver) (l : lit) : bool := is_false s l && (lev s l =? 0).

(** collect.c 34-72 ([compact] is false): the watches of [l] which are kept.  [visit] are the references from
    [start] on: references are names in this model, so that moving clauses in memory (collect.c 213-275)
    is not visible, and the set of references from [start] on is given explicitly. *)
Definition keep_watch (s : solver) (visit : list nat) (l : lit) (w : watch) : bool :=
  match w with
  | WBinary other => negb (root_true s l || root_true s other)
  | WLarge _ ref => negb (root_true s l || root_false s l) && negb (existsb (Nat.eqb ref) visit)
  end.

(** collect.c 39-44: satisfied binary clauses are deleted in the proof by their smaller literal. *)
Definition deleted_binaries (s : solver) (l : lit) (ws : list watch) : list (line lit) :=
  flat_map (fun w => match w with
    | WBinary other => if (root_true s l || root_true s other) && (l <? other) then [Deleted [l; other]] else []
    | WLarge _ _ => [] end) ws.

(** collect.c 45-47: a binary clause which is not satisfied has no root-level literal. *)
Definition binary_watch_ok (s : solver) (l : lit) (w : watch) : bool :=
  match w with
  | WBinary other => (root_true s l || root_true s other) || negb (root_false s l || root_false s other)
  | WLarge _ _ => true
  end.

(** collect.c 16-101 *)
Definition flush_watched_clauses_by_literal (visit : list nat) (l : lit) (s : solver) : outcome solver :=
  let ws := watches s l in
  do _ <- oassert (forallb (binary_watch_ok s l) ws) ;
  let s1 := set_steps (rev (deleted_binaries s l ws) ++ steps s) s in
  Ret (set_watches (upd (watches s1) l (filter (keep_watch s visit l) ws)) s1).

Fixpoint ofold {A B : Type} (f : A -> B -> outcome B) (l : list A) (b : B) : outcome B :=
  match l with [] => Ret b | a :: l => do b1 <- f a b ; ofold f l b1 end.

(** collect.c 103-113 *)
Definition flush_all_watched_clauses (visit : list nat) (s : solver) : outcome solver :=
  ofold (flush_watched_clauses_by_literal visit) (seq 0 (2 * vars s)) s.

(** trail.c 18-45: the clauses marked as reasons. *)
Definition is_reason (s : solver) (ref : nat) : bool :=
  existsb (fun l => match reas s l with RClause r => r =? ref | _ => false end) (trail s).

Definition set_reason (l : lit) (r : reason) (s : solver) : solver :=
  let a := assigned s (idx l) in
  set_assigned (upd (assigned s) (idx l) (mk_asg (a_level a) (a_trail a) r)) s.

(** collect.c 316-511, the body of the loop: one clause. *)
Definition sweep_clause (marked : nat -> bool) (ref : nat) (s : solver) : outcome solver :=
  match arena s ref with
  | None => Ret s
  | Some c =>
      let lits := c_lits c in
      if c_garbage c then Ret (set_clause ref None s)
      else if existsb (root_true s) lits then
        do _ <- oassert (negb (marked ref)) ;
        Ret (del_step lits (set_clause ref None s))
      else
        let kept := filter (fun l => negb (root_false s l)) lits in
        do s1 <-
          match kept with
          | [] | [_] => Undef
          | [a; b] =>
              let s1 := set_clause ref None (watch_binary a b s) in
              if marked ref then
                match values s a, values s b with
                | Some true, Some false => Ret (set_reason a (RBinary b) s1)
                | Some false, Some true => Ret (set_reason b (RBinary a) s1)
                | _, _ => Undef
                end
              else Ret s1
          | _ =>
              do _ <- (if marked ref then oassert (length (filter (is_true s) kept) =? 1) else Ret tt) ;
              Ret (set_clause ref (Some (mk_clause kept (c_redundant c) false 2)) s)
          end ;
        if length kept =? length lits then Ret s1 else Ret (del_step lits (add_step kept s1))
  end.

(** collect.c 277-576 *)
Definition sparse_sweep_garbage_clauses (visit : list nat) (s : solver) : outcome solver :=
  do s1 <- ofold (sweep_clause (is_reason s)) visit s ;
  Ret (set_last_learned [] s1).

(** collect.c 578-606 *)
Definition rewatch_clause (ref : nat) (s : solver) : outcome solver :=
  match arena s ref with
  | None => Ret s
  | Some c =>
      let lits := sort_literals s (c_lits c) in
      match lits with
      | l0 :: l1 :: _ =>
          let s1 := set_clause ref (Some (mk_clause lits (c_redundant c) (c_garbage c) 2)) s in
          Ret (watch_blocking l1 l0 ref (watch_blocking l0 l1 ref s1))
      | _ => Undef
      end
  end.

(** collect.c 608-631.  [moved] are the references [visit] in the order in which the clauses are in memory
    after redundant clauses were moved to the end. *)
Definition sparse_collect (visit moved : list nat) (s : solver) : outcome solver :=
  do s1 <- flush_all_watched_clauses visit s ;
  do s2 <- sparse_sweep_garbage_clauses visit s1 ;
  ofold rewatch_clause moved s2.

(** ** Reducing the clause database: reduce.c *)
(** What the heuristics decide: there is nothing to reduce (reduce.c 160, 191-193), no clause is reducible
    (reduce.c 186-187), or the clauses [victims] are removed. *)
Inductive reduction :=
| ReduceNothing
| ReduceNone
| ReduceSome (visit moved victims : list nat).

(** reduce.c 60-88: only redundant clauses which are not reasons can be removed. *)
Definition reducible (s : solver) (ref : nat) : bool :=
  match arena s ref with
  | Some c => c_redundant c && negb (c_garbage c) && negb (is_reason s ref)
  | None => false
  end.

Fixpoint nodupb (l : list nat) : bool :=
  match l with [] => true | x :: l => negb (existsb (Nat.eqb x) l) && nodupb l end.
Definition inclb (l k : list nat) : bool := forallb (fun x => existsb (Nat.eqb x) k) l.

(** reduce.c 153-198 and trail.c 47-62.  The formula is classified again ([bb]). *)
Definition reduce (o : options) (r : reduction) (bb : bool) (s : solver) : outcome (bool * solver) :=
  match r with
  | ReduceNothing => Ret (true, set_bigbig bb s)
  | _ =>
      do (ok, s1) <- (if 0 <? unflushed s then flush_to_root o s else Ret (true, s)) ;
      if negb ok then Ret (false, s1)
      else
        match r with
        | ReduceSome visit moved victims =>
            do _ <- possible (nodupb visit && nodupb moved && inclb visit moved && inclb moved visit &&
                              nodupb victims && inclb victims visit && forallb (reducible s1) victims) ;
            do s2 <- ofold mark_garbage victims s1 ;
            do s3 <- sparse_collect visit moved s2 ;
            Ret (true, set_bigbig bb s3)
        | _ => Ret (true, set_bigbig bb s1)
        end
  end.

(** ** The search loop: search.c 179-229 *)
(** What happens in one iteration without conflict: the search is stopped (TERMINATED, conflict or decision
    limit), clauses are reduced, the search is restarted at a level (restart.c 112-131), phases are reset
    (rephase.c 126-138), the formula is simplified (probe.c, see Probe.v), only heuristics are changed (mode
    switch and reordering), or [l] is decided. *)
Inductive choice :=
| ChStop
| ChReduce (r : reduction) (bb : bool)
| ChRestart (lvl : nat)
| ChRephase
| ChProbe (rounds : list probe_plan) (bb : bool)
| ChHeuristics
| ChDecide (l : lit).

Inductive result :=
| RSat (s : solver)
| RUnsat (s : solver)
| RStopped (s : solver)
| RIgnored (s : solver).

(** An analysis cannot strengthen more reasons than this (see AnalyzeLoop.v). *)
Definition analyze_fuel (s : solver) : nat := S (level s * S (length (trail s)) + length (trail s)).

(** search.c 192-222: one iteration, either to be continued or ending with a result. *)
Inductive progress := Go (s : solver) | Done (r : result).
Definition search_step (o : options) (ch : choice) (s : solver) : outcome progress :=
  do (s1, confl) <- search_propagate o s ;
  match confl with
  | Some c =>
      do (go, s2) <- analyze (analyze_fuel s1) o c s1 ;
      Ret (if go then Go s2 else Done (RUnsat s2))
  | None =>
      if iterating s1 then Ret (Go (set_iterating false s1))
      else if unassigned s1 =? 0 then Ret (Done (RSat s1))
      else
        match ch with
        | ChStop => Ret (Done (RStopped s1))
        | ChReduce r bb =>
            do (ok, s2) <- reduce o r bb s1 ;
            Ret (if ok then Go s2 else Done (RIgnored s2))
        | ChRestart lvl =>
            do _ <- possible (lvl <=? level s1) ;
            do s2 <- backtrack_in_consistent_state lvl s1 ;
            Ret (Go s2)
        | ChRephase =>
            do (ok, s2) <- flush_to_root o s1 ;
            Ret (if ok then Go s2 else Done (RIgnored s2))
        | ChProbe rounds bb =>
            do (ok, s2) <- kissat_probe o rounds bb s1 ;
            Ret (if ok then if inconsistent s2 then Done (RUnsat s2) else Go s2 else Done (RIgnored s2))
        | ChHeuristics => Ret (Go s1)
        | ChDecide l =>
            do _ <- possible ((l <? 2 * vars s1) && active s1 (idx l) && is_unassigned s1 l) ;
            do s2 <- decide l s1 ;
            Ret (Go s2)
        end
  end.

Fixpoint search_loop (fuel : nat) (o : options) (choices : nat -> choice) (s : solver) : outcome result :=
  match fuel with
  | O => Fuel
  | S fuel =>
      do p <- search_step o (choices 0) s ;
      match p with
      | Go s1 => search_loop fuel o (fun i => choices (S i)) s1
      | Done r => Ret r
      end
  end.

(** search.c 179-191 with the options [luckyearly], [luckylate] and [preprocess] switched off; start_search
    classifies the formula ([bb]). *)
Definition search (fuel : nat) (o : options) (choices : nat -> choice) (bb : bool) (s : solver) : outcome result :=
  if inconsistent s then Ret (RUnsat s) else search_loop fuel o choices (set_bigbig bb s).
