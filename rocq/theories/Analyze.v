(** Conflict analysis: first UIP clauses, on-the-fly strengthening, minimization, shrinking, learning. *)
From Coq Require Import ZArith List Bool Lia Arith.
From Verif Require Import Base SpecSat Lit Solver.
Import ListNotations.
Open Scope nat_scope.
Open Scope outcome_scope.

(** ** Marks (inline.h 243-285): a bit per variable and a stack of the variables whose bit is set.  The
    stacks are only used to reset the bits and are kept in reverse order. *)
Definition push_analyzed (i : nat) (a : analysis) : analysis :=
  set_analyzed (upd (analyzed a) i true) (set_astack (i :: astack a) a).
Definition push_removable (i : nat) (a : analysis) : analysis :=
  set_removable (upd (removable a) i true) (set_rstack (i :: rstack a) a).
Definition push_poisoned (i : nat) (a : analysis) : analysis :=
  set_poisoned (upd (poisoned a) i true) (set_pstack (i :: pstack a) a).
Definition push_shrinkable (i : nat) (a : analysis) : analysis :=
  set_shrinkable (upd (shrinkable a) i true) (set_sstack (i :: sstack a) a).

Definition clear_bits (f : nat -> bool) (l : list nat) : nat -> bool :=
  fold_left (fun f i => upd f i false) l f.

(** analyze.c 326-338 *)
Definition reset_only_analyzed (a : analysis) : analysis :=
  set_analyzed (clear_bits (analyzed a) (astack a)) (set_astack [] a).
(** analyze.c 340-353 *)
Definition reset_removable (a : analysis) : analysis :=
  set_removable (clear_bits (removable a) (rstack a)) (set_rstack [] a).
(** analyze.c 311-324 *)
Definition reset_levels (a : analysis) : analysis :=
  set_an_used (fold_left (fun f i => upd f i 0) (an_levels a) (an_used a)) (set_an_levels [] a).
(** analyze.c 355-360 *)
Definition reset_analysis_but_not_analyzed (a : analysis) : analysis :=
  set_an_clause [] (reset_levels (reset_removable a)).
(** minimize.c 143-153 *)
Definition reset_poisoned (a : analysis) : analysis :=
  set_poisoned (clear_bits (poisoned a) (pstack a)) (set_pstack [] a).
(** shrink.c 6-20 *)
Definition reset_shrinkable (a : analysis) : analysis :=
  set_shrinkable (clear_bits (shrinkable a) (sstack a)) (set_sstack [] a).

Definition conflict_lits (s : solver) (c : conflict) : option (list lit) :=
  match c with
  | CBinary a b => Some [a; b]
  | CLarge ref => match arena s ref with Some c => Some (c_lits c) | None => None end
  end.

(** ** Driving conflicts: analyze.c 16-128 *)
(** analyze.c 31-52: [jump] and [lvl] are [None] for [INVALID_LEVEL]. *)
Fixpoint scan_conflict (s : solver) (lits : list lit) (jump lvl : option nat) (count : nat) (forced : lit)
  : option nat * option nat * nat * lit :=
  match lits with
  | [] => (jump, lvl, count, forced)
  | l :: rest =>
      let k := lev s l in
      let '(jump, lvl, count, forced) :=
        match lvl with
        | None => (lvl, Some k, 1, l)
        | Some cl =>
            if cl <? k then (lvl, Some k, 1, l)
            else
              let jump := match jump with
                          | None => Some k
                          | Some j => if j <? k then Some k else Some j
                          end in
              (jump, lvl, if cl =? k then S count else count, forced)
        end in
      if (1 <? count) && (match lvl with Some cl => cl =? level s | None => false end)
      then (jump, lvl, count, forced)
      else scan_conflict s rest jump lvl count forced
  end.

(** analyze.c 80-94: position of a literal of highest level among [lits], which starts at position [j]. *)
Fixpoint highest (s : solver) (conflict_level j : nat) (lits : list lit) (pos lvl : nat) : nat :=
  match lits with
  | [] => pos
  | l :: rest =>
      let k := lev s l in
      if k <=? lvl then highest s conflict_level (S j) rest pos lvl
      else if k =? conflict_level then j
      else highest s conflict_level (S j) rest j k
  end.

(** analyze.c 76-106: one iteration of the loop that moves a literal of highest level to position [i]. *)
Definition move_highest (conflict_level ref i : nat) (s : solver) : outcome solver :=
  match arena s ref with
  | None => Undef
  | Some c =>
      let lits := c_lits c in
      do _ <- oassert (i <? length lits) ;
      let l := nth i lits 0 in
      let p := highest s conflict_level (S i) (skipn (S i) lits) i (lev s l) in
      if p =? i then Ret s
      else
        do s1 <- (if 1 <? p then unwatch_blocking l ref s else Ret s) ;
        let lits' := lswap lits i p in
        let s2 := set_clause ref (Some (mk_clause lits' (c_redundant c) (c_garbage c) (c_searched c))) s1 in
        Ret (if 1 <? p then watch_blocking (nth i lits' 0) (nth (1 - i) lits' 0) ref s2 else s2)
  end.

(** learn.c 8-14 and 16-42 *)
Definition determine_new_level (o : options) (s : solver) (jump : nat) : outcome nat :=
  do _ <- oassert (0 <? level s) ;
  let back := pred (level s) in
  do _ <- oassert (jump <=? back) ;
  let delta := back - jump in
  Ret (if delta =? 0 then jump
       else if o_chrono o && (o_chronolevels o <? delta) then back
       else jump).

(** The result tells whether the conflict was used as reason ([true]) and the conflict level. *)
Definition one_literal_on_conflict_level (o : options) (c : conflict) (s : solver) : outcome (solver * bool * nat) :=
  match conflict_lits s c with
  | None => Undef
  | Some lits =>
      match scan_conflict s lits None None 0 0 with
      | (_, None, _, _) => Undef
      | (jump, Some conflict_level, count, forced) =>
          if conflict_level =? 0 then
            Ret (add_step [] (set_inconsistent true s), false, conflict_level)
          else
            do s1 <- (if conflict_level <? level s then backtrack_after_conflict conflict_level s else Ret s) ;
            do s2 <- match c with
                     | CBinary _ _ => Ret s1
                     | CLarge ref =>
                         do s2 <- move_highest conflict_level ref 0 s1 ;
                         move_highest conflict_level ref 1 s2
                     end ;
            if 1 <? count then Ret (s2, false, conflict_level)
            else
              match jump with
              | None => Undef
              | Some jump =>
                  do new_level <- determine_new_level o s2 jump ;
                  do s3 <- backtrack_after_conflict new_level s2 ;
                  do s4 <- match c with
                           | CBinary a b =>
                               match other_watch a b forced with
                               | None => Undef
                               | Some other => assign_binary o forced other s3
                               end
                           | CLarge ref => assign_reference forced ref s3
                           end ;
                  Ret (s4, true, conflict_level)
              end
      end
  end.

(** ** Failed literals: analyze.c 390-517 *)
(** analyze.c 409-425: [None] means that the negation of the failed literal was found. *)
Fixpoint failed_conflict (s : solver) (not_failed : lit) (lits : list lit) (unresolved : nat) (a : analysis)
  : option (nat * analysis) * analysis :=
  match lits with
  | [] => (Some (unresolved, a), a)
  | l :: rest =>
      if l =? not_failed then (None, a)
      else if lev s l =? 0 then failed_conflict s not_failed rest unresolved a
      else failed_conflict s not_failed rest (S unresolved) (push_analyzed (idx l) a)
  end.

(** analyze.c 469-492 *)
Fixpoint failed_reason (s : solver) (not_failed l unit : lit) (lits : list lit) (unresolved : nat) (a : analysis)
  : option (nat * analysis) * analysis :=
  match lits with
  | [] => (Some (unresolved, a), a)
  | other :: rest =>
      if (other =? l) || (other =? unit) then failed_reason s not_failed l unit rest unresolved a
      else if other =? not_failed then (None, a)
      else if lev s other =? 0 then failed_reason s not_failed l unit rest unresolved a
      else if analyzed a (idx other) then failed_reason s not_failed l unit rest unresolved a
      else failed_reason s not_failed l unit rest (S unresolved) (push_analyzed (idx other) a)
  end.

(** analyze.c 427-498: walks back over the trail [rt] (newest literal first).  [unit] is [2 * vars] for
    [INVALID_LIT].  The units found so far are in reverse order. *)
Fixpoint failed_loop (s : solver) (not_failed : lit) (rt : list lit) (unresolved : nat) (unit : lit)
    (units : list lit) (a : analysis) : outcome (list lit * analysis) :=
  match rt with
  | [] => Undef
  | l :: rt' =>
      if negb (analyzed a (idx l)) then failed_loop s not_failed rt' unresolved unit units a
      else
        let '(unit, units) := if unresolved =? 1 then (neg l, neg l :: units) else (unit, units) in
        match reas s l with
        | RBinary other =>
            if other =? not_failed then Ret (units, a)
            else
              let '(unresolved, a) :=
                if analyzed a (idx other) then (unresolved, a)
                else (S unresolved, push_analyzed (idx other) a) in
              do _ <- oassert (0 <? unresolved) ;
              failed_loop s not_failed rt' (pred unresolved) unit units a
        | RClause ref =>
            match arena s ref with
            | None => Undef
            | Some c =>
                match failed_reason s not_failed l unit (c_lits c) unresolved a with
                | (None, a) => Ret (units, a)
                | (Some (unresolved, a), _) =>
                    do _ <- oassert (0 <? unresolved) ;
                    failed_loop s not_failed rt' (pred unresolved) unit units a
                end
            end
        | _ => Undef
        end
  end.

Fixpoint learn_units (units : list lit) (s : solver) : outcome solver :=
  match units with
  | [] => Ret s
  | l :: rest => do s <- learned_unit l s ; learn_units rest s
  end.

(** analyze.c 390-517 *)
Definition analyze_failed_literal (c : conflict) (s : solver) : outcome solver :=
  do _ <- oassert (level s =? 1) ;
  match nth_error (frames s) 1, conflict_lits s c with
  | Some f, Some lits =>
      let not_failed := neg (f_decision f) in
      do (units, a) <-
        match failed_conflict s not_failed lits 0 (an s) with
        | (None, a) => Ret ([], a)
        | (Some (unresolved, a), _) =>
            failed_loop s not_failed (rev (trail s)) unresolved (2 * vars s) [] a
        end ;
      do s1 <- backtrack 0 (set_an a s) ;
      do s2 <- learn_units (rev (not_failed :: units)) s1 ;
      Ret (set_iterating true s2)
  | _, _ => Undef
  end.

(** ** First UIP: deduce.c *)
(** deduce.c 39-68: the result tells whether the literal is a new one of the current level. *)
Definition analyze_literal (s : solver) (l : lit) (a : analysis) : bool * analysis :=
  let i := idx l in
  let k := lev s l in
  if k =? 0 then (false, a)
  else
    let a := set_antecedent_size (S (antecedent_size a)) a in
    if analyzed a i then (false, a)
    else
      let a := push_analyzed i a in
      let a := set_resolvent_size (S (resolvent_size a)) a in
      if k =? level s then (true, a)
      else
        let a := set_an_clause (an_clause a ++ [l]) a in
        let used := an_used a k in
        let a := set_an_used (upd (an_used a) k (S used)) a in
        if 0 <? used then (false, a) else (false, set_an_levels (an_levels a ++ [k]) a).

(** deduce.c 86-92 and 124-127: all literals of a clause but [skip]. *)
Fixpoint analyze_literals (s : solver) (skip : lit) (lits : list lit) (unresolved : nat) (a : analysis)
  : nat * analysis :=
  match lits with
  | [] => (unresolved, a)
  | l :: rest =>
      if l =? skip then analyze_literals s skip rest unresolved a
      else
        let '(new, a) := analyze_literal s l a in
        analyze_literals s skip rest (if new then S unresolved else unresolved) a
  end.

(** ** On-the-fly strengthening: strengthen.c *)
(** strengthen.c 45-59: the position of the first literal of highest level. *)
Fixpoint highest_level_pos (s : solver) (j : nat) (lits : list lit) (pos lvl : nat) : nat :=
  match lits with
  | [] => pos
  | l :: rest =>
      if lev s l <=? lvl then highest_level_pos s (S j) rest pos lvl
      else highest_level_pos s (S j) rest j (lev s l)
  end.

(** strengthen.c 66-88: set the blocking literal of the first watch of [ref]. *)
Fixpoint update_blocking (ref : nat) (blocking : lit) (ws : list watch) : option (list watch) :=
  match ws with
  | [] => None
  | w :: rest =>
      if watches_ref ref w then Some (WLarge blocking ref :: rest)
      else option_map (cons w) (update_blocking ref blocking rest)
  end.

(** proof.c 354-372 *)
Definition shrink_clause_in_proof (lits : list lit) (remove keep : lit) (s : solver) : solver :=
  let kept := filter (fun l => negb (l =? remove) &&
                               negb (negb (l =? keep) && (is_false s l && (lev s l =? 0)))) lits in
  del_step lits (add_step kept s).

(** strengthen.c 6-96 *)
Definition large_on_the_fly_strengthen (ref : nat) (l : lit) (s : solver) : outcome solver :=
  match arena s ref with
  | None => Undef
  | Some c =>
      match c_lits c with
      | x :: y :: rest =>
          do _ <- oassert ((x =? l) || (y =? l)) ;
          let other := if x =? l then y else x in
          do s1 <- unwatch_blocking l ref s ;
          let s2 := shrink_clause_in_proof (other :: l :: rest) l other s1 in
          let lits1 := other :: filter (fun k => negb (lev s k =? 0)) rest in
          do _ <- oassert (2 <? length lits1) ;
          let p := highest_level_pos s 2 (skipn 2 lits1) 1 (lev s (nth 1 lits1 0)) in
          let lits2 := lswap lits1 1 p in
          let s3 := set_clause ref (Some (mk_clause lits2 (c_redundant c) (c_garbage c) 2)) s2 in
          let s4 := watch_blocking (nth 1 lits2 0) other ref s3 in
          match update_blocking ref (nth 1 lits2 0) (watches s4 other) with
          | None => Undef
          | Some ws => Ret (set_watches (upd (watches s4) other ws) s4)
          end
      | _ => Undef
      end
  end.

(** strengthen.c 98-140 *)
Definition binary_on_the_fly_strengthen (ref : nat) (l : lit) (s : solver) : outcome (solver * conflict) :=
  match arena s ref with
  | None => Undef
  | Some c =>
      match filter (fun k => negb (k =? l) && negb (lev s k =? 0)) (c_lits c), c_lits c with
      | [first; second], l0 :: l1 :: _ =>
          let s1 := new_binary_clause false first second s in
          do s2 <- unwatch_blocking l0 ref s1 ;
          do s3 <- unwatch_blocking l1 ref s2 ;
          do s4 <- mark_garbage ref s3 ;
          Ret (s4, CBinary first second)
      | _, _ => Undef
      end
  end.

(** strengthen.c 142-154 *)
Definition on_the_fly_strengthen (ref : nat) (l : lit) (s : solver) : outcome (solver * conflict) :=
  if antecedent_size (an s) =? 3 then binary_on_the_fly_strengthen ref l s
  else do s <- large_on_the_fly_strengthen ref l s ; Ret (s, CLarge ref).

(** strengthen.c 156-187: clause [d] is subsumed by the strengthened clause [c]. *)
Definition on_the_fly_subsume (c d : conflict) (s : solver) : outcome solver :=
  match d with
  | CBinary _ _ => Undef
  | CLarge dref =>
      match arena s dref with
      | None => Undef
      | Some dc =>
          do s1 <- mark_garbage dref s ;
          if c_redundant dc then Ret s1
          else
            match c with
            | CBinary _ _ => Ret s1
            | CLarge cref =>
                match arena s1 cref with
                | None => Undef
                | Some cc =>
                    Ret (set_clause cref (Some (mk_clause (c_lits cc) false (c_garbage cc) (c_searched cc))) s1)
                end
            end
      end
  end.

Definition count_above_root (s : solver) (lits : list lit) : nat :=
  length (filter (fun l => negb (lev s l =? 0)) lits).

(** deduce.c 103-158: walks back over the trail [rt].  The result is the UIP, or a new conflict after
    strengthening a reason.  Glue promotion ([mark_clause_as_used]) is not modelled. *)
Fixpoint deduce_loop (o : options) (confl : conflict) (conflict_size : nat) (rt : list lit)
    (unresolved resolved : nat) (s : solver) : outcome (solver * (lit + conflict)) :=
  match rt with
  | [] => Undef
  | uip :: rt' =>
      if negb (analyzed (an s) (idx uip)) || negb (lev s uip =? level s) then
        deduce_loop o confl conflict_size rt' unresolved resolved s
      else if unresolved =? 1 then Ret (s, inl uip)
      else
        let a := set_antecedent_size 1 (an s) in
        let resolved := S resolved in
        do (unresolved, a, large) <-
          match reas s uip with
          | RBinary other =>
              let '(u, a) := analyze_literals s uip [other] unresolved a in Ret (u, a, None)
          | RClause ref =>
              match arena s ref with
              | None => Undef
              | Some c => let '(u, a) := analyze_literals s uip (c_lits c) unresolved a in Ret (u, a, Some ref)
              end
          | _ => Undef
          end ;
        do _ <- oassert ((0 <? unresolved) && (0 <? resolvent_size a)) ;
        let unresolved := pred unresolved in
        let a := set_resolvent_size (pred (resolvent_size a)) a in
        let s := set_an a s in
        if o_otfs o && (2 <? antecedent_size a) && (resolvent_size a <? antecedent_size a) then
          match large with
          | None => Undef
          | Some ref =>
              do (s1, c) <- on_the_fly_strengthen ref uip s ;
              do s2 <- (if (resolved =? 1) && (resolvent_size a <? conflict_size)
                        then on_the_fly_subsume c confl s1 else Ret s1) ;
              Ret (s2, inr c)
          end
        else deduce_loop o confl conflict_size rt' unresolved resolved s
  end.

(** deduce.c 70-168: the placeholder at position 0 of the clause is added at the end. *)
Definition deduce_first_uip_clause (o : options) (confl : conflict) (s : solver) : outcome (solver * option conflict) :=
  match conflict_lits s confl with
  | None => Undef
  | Some lits =>
      let a := set_resolvent_size 0 (set_antecedent_size 0 (an s)) in
      let '(unresolved, a) := analyze_literals s (2 * vars s) lits 0 a in
      do _ <- oassert (1 <? unresolved) ;
      do (s1, r) <- deduce_loop o confl (count_above_root s lits) (rev (trail s)) unresolved 0 (set_an a s) ;
      match r with
      | inr c => Ret (s1, Some c)
      | inl uip => Ret (set_an (set_an_clause (neg uip :: an_clause (an s1)) (an s1)) s1, None)
      end
  end.

(** ** Sorting the deduced clause: analyze.c 219-309.  A counting sort of the literals after the first by
    decreasing level, which keeps the order within a level.  Here: an insertion sort with that result. *)
Fixpoint insert_by_level (s : solver) (l : lit) (lits : list lit) : list lit :=
  match lits with
  | [] => [l]
  | k :: rest => if lev s k <=? lev s l then l :: k :: rest else k :: insert_by_level s l rest
  end.
Definition sort_by_level (s : solver) (lits : list lit) : list lit :=
  fold_right (insert_by_level s) [] lits.
Definition sort_deduced_clause (s : solver) : solver :=
  match an_clause (an s) with
  | [] => s
  | not_uip :: rest => set_an (set_an_clause (not_uip :: sort_by_level s rest) (an s)) s
  end.

(** ** Minimization: minimize.c *)
(** minimize.c 4-40: positive ([Some true]), negative ([Some false]) or zero ([None]). *)
Definition minimized_index (s : solver) (minimizing : bool) (l : lit) (depth : nat) (a : analysis) : option bool :=
  let i := idx l in
  if lev s l =? 0 then Some true
  else if removable a i && (0 <? depth) then Some true
  else match reas s l with
       | RDecision => Some false
       | _ =>
           if poisoned a i then Some false
           else if (minimizing || (depth =? 0)) && (an_used a (lev s l) <=? 1) then Some false
           else None
       end.

(** minimize.c 45-58 with the recursion as an argument. *)
Fixpoint minimize_others (rec : lit -> nat -> analysis -> outcome (bool * analysis)) (not_lit : lit) (depth : nat)
    (lits : list lit) (a : analysis) : outcome (bool * analysis) :=
  match lits with
  | [] => Ret (true, a)
  | other :: rest =>
      if other =? not_lit then minimize_others rec not_lit depth rest a
      else
        do (b, a) <- rec other depth a ;
        if b then minimize_others rec not_lit depth rest a else Ret (false, a)
  end.

(** minimize.c 60-93 and 95-134.  The depth is bounded by the option [minimizedepth], which is far below
    [UINT_MAX], so its saturation is not modelled. *)
Fixpoint minimize_literal (fuel : nat) (o : options) (s : solver) (minimizing : bool) (l : lit) (depth : nat)
    (a : analysis) : outcome (bool * analysis) :=
  match fuel with
  | O => Fuel
  | S fuel =>
      if o_minimizedepth o <=? depth then Ret (false, a)
      else
        match minimized_index s minimizing l depth a with
        | Some b => Ret (b, a)
        | None =>
            do (b, a) <-
              match reas s l with
              | RBinary other => minimize_binary fuel o s minimizing other depth [] a
              | RClause ref =>
                  match arena s ref with
                  | None => Undef
                  | Some c => minimize_others (minimize_literal fuel o s minimizing) (neg l) (S depth) (c_lits c) a
                  end
              | _ => Undef
              end ;
            if depth =? 0 then Ret (b, a)
            else if b then Ret (true, if removable a (idx l) then a else push_removable (idx l) a)
            else Ret (false, push_poisoned (idx l) a)
        end
  end
(** minimize.c 60-93: [chain] are the variables pushed so far, newest first. *)
with minimize_binary (fuel : nat) (o : options) (s : solver) (minimizing : bool) (next : lit) (depth : nat)
    (chain : list nat) (a : analysis) : outcome (bool * analysis) :=
  match fuel with
  | O => Fuel
  | S fuel =>
      let finish (b : bool) (chain : list nat) (a : analysis) : analysis :=
        fold_left (fun a i => if b then push_removable i a else push_poisoned i a) (rev chain) a in
      match minimized_index s minimizing next 1 a with
      | Some b => Ret (b, finish b chain a)
      | None =>
          let chain := idx next :: chain in
          match reas s next with
          | RBinary other => minimize_binary fuel o s minimizing other depth chain a
          | RClause ref =>
              match arena s ref with
              | None => Undef
              | Some c =>
                  do (b, a) <-
                    minimize_others (minimize_literal fuel o s minimizing) (neg next) (S (S depth)) (c_lits c) a ;
                  Ret (b, finish b chain a)
              end
          | _ => Undef
          end
      end
  end.

(** Enough recursion for every chain of reasons on the trail. *)
Definition minimize_fuel (s : solver) : nat := 2 * length (trail s) + 2.

(** minimize.c 184-194 (and shrink.c 307-322): the kept literals in reverse of the order of processing. *)
Fixpoint minimize_list (o : options) (s : solver) (minimizing : bool) (lits kept : list lit) (a : analysis)
  : outcome (list lit * analysis) :=
  match lits with
  | [] => Ret (kept, a)
  | l :: rest =>
      do (b, a) <- minimize_literal (minimize_fuel s) o s minimizing l 0 a ;
      minimize_list o s minimizing rest (if b then kept else l :: kept) a
  end.

(** minimize.c 155-211: the literals are processed from the last to the second. *)
Definition minimize_clause (o : options) (s : solver) : outcome solver :=
  let a := fold_left (fun a l => push_removable (idx l) a) (an_clause (an s)) (an s) in
  if 2 <? o_shrink o then Ret (set_an a s)
  else
    match an_clause (an s) with
    | [] => Undef
    | not_uip :: rest =>
        do (kept, a) <- minimize_list o s true (rev rest) [] a ;
        Ret (set_an (reset_poisoned (set_an_clause (not_uip :: kept) a)) s)
    end.

(** ** Shrinking: shrink.c *)
(** shrink.c 22-45 *)
Definition mark_shrinkable_as_removable (a : analysis) : analysis :=
  let stack := sstack a in
  let a := reset_shrinkable a in
  fold_left (fun a i => if removable a i then a else push_removable i a) stack a.

(** shrink.c 47-82: 1 ([Some true]), 0 ([Some false]) or -1 ([None]). *)
Definition shrink_literal (o : options) (s : solver) (lvl : nat) (l : lit) (a : analysis)
  : outcome (option bool * analysis) :=
  let i := idx l in
  if lev s l =? 0 then Ret (Some false, a)
  else if shrinkable a i then Ret (Some false, a)
  else if lev s l <? lvl then
    if removable a i then Ret (Some false, a)
    else if 2 <? o_shrink o then
      do (b, a) <- minimize_literal (minimize_fuel s) o s false l 1 a ;
      Ret (if b then Some false else None, a)
    else Ret (None, a)
  else Ret (Some true, push_shrinkable i a).

(** shrink.c 173-194: [None] is a failure, otherwise the number of new open literals. *)
Fixpoint shrink_along (o : options) (s : solver) (lvl : nat) (uip : lit) (lits : list lit) (open : nat) (a : analysis)
  : outcome (option nat * analysis) :=
  match lits with
  | [] => Ret (Some open, a)
  | other :: rest =>
      if other =? uip then shrink_along o s lvl uip rest open a
      else
        do (r, a) <- shrink_literal o s lvl other a ;
        match r with
        | None => Ret (None, a)
        | Some b => shrink_along o s lvl uip rest (if b then S open else open) a
        end
  end.

(** shrink.c 160-171 and 196-221.  A binary reason never fails (shrink.c 170 drops a negative result). *)
Definition shrink_along_reason (o : options) (s : solver) (lvl : nat) (uip : lit) (a : analysis)
  : outcome (option nat * analysis) :=
  match reas s uip with
  | RBinary other =>
      do (r, a) <- shrink_literal o s lvl other a ;
      Ret (Some (match r with Some true => 1 | _ => 0 end), a)
  | RClause ref =>
      if 1 <? o_shrink o then
        match arena s ref with
        | None => Undef
        | Some c => shrink_along o s lvl uip (c_lits c) 0 a
        end
      else Ret (None, a)
  | _ => Undef
  end.

(** shrink.c 246-258: walks back over the trail [rt]; the result is the UIP, or [None] on failure. *)
Fixpoint shrink_loop (o : options) (s : solver) (lvl : nat) (rt : list lit) (open : nat) (a : analysis)
  : outcome (option lit * analysis) :=
  match rt with
  | [] => Undef
  | uip :: rt' =>
      if negb (shrinkable a (idx uip)) then shrink_loop o s lvl rt' open a
      else if open =? 1 then Ret (Some uip, a)
      else
        do (r, a) <- shrink_along_reason o s lvl uip a ;
        match r with
        | None => Ret (None, a)
        | Some n =>
            do _ <- oassert (0 <? open + n) ;
            shrink_loop o s lvl rt' (pred (open + n)) a
        end
  end.

(** shrink.c 141-158 *)
Fixpoint push_block (o : options) (s : solver) (lvl : nat) (block : list lit) (a : analysis) : outcome analysis :=
  match block with
  | [] => Ret a
  | l :: rest => do (_, a) <- shrink_literal o s lvl l a ; push_block o s lvl rest a
  end.

(** shrink.c 223-269 with 84-139: [Some lits] is the new block. *)
Definition shrink_block (o : options) (s : solver) (block : list lit) (lvl max_trail : nat) (a : analysis)
  : outcome (option (list lit) * analysis) :=
  do a <- push_block o s lvl block a ;
  do (r, a) <- shrink_loop o s lvl (rev (firstn (S max_trail) (trail s))) (length block) a ;
  match r with
  | None => Ret (None, reset_shrinkable a)
  | Some uip =>
      let i := idx uip in
      let a := if analyzed a i then a else push_analyzed i a in
      Ret (Some [neg uip], mark_shrinkable_as_removable a)
  end.

(** shrink.c 271-305: splits the reversed clause after its last block of literals of the same level; the
    block is returned in clause order. *)
Fixpoint next_block (s : solver) (rlits : list lit) (lvl : nat) (block : list lit) : list lit * list lit :=
  match rlits with
  | [] => (block, [])
  | l :: rest => if lvl <? lev s l then (block, rlits) else next_block s rest lvl (l :: block)
  end.

Definition max_trail (s : solver) (block : list lit) : nat :=
  fold_left (fun m l => Nat.max m (tpos s l)) block 0.

(** shrink.c 324-358 and 371-384: [done] is the processed end of the clause. *)
Fixpoint shrink_blocks (fuel : nat) (o : options) (s : solver) (rlits done : list lit) (a : analysis)
  : outcome (list lit * analysis) :=
  match rlits with
  | [] => Ret (done, a)
  | l :: _ =>
      match fuel with
      | O => Fuel
      | S fuel =>
          let lvl := lev s l in
          let '(block, rest) := next_block s rlits lvl [] in
          if length block <? 2 then shrink_blocks fuel o s rest (block ++ done) a
          else
            do (r, a) <- shrink_block o s block lvl (max_trail s block) a ;
            match r with
            | Some block' => shrink_blocks fuel o s rest (block' ++ done) a
            | None =>
                do (kept, a) <- minimize_list o s false block [] a ;
                shrink_blocks fuel o s rest (rev kept ++ done) a
            end
      end
  end.

(** shrink.c 360-395 *)
Definition shrink_clause (o : options) (s : solver) : outcome solver :=
  let lits := an_clause (an s) in
  do (lits', a) <- shrink_blocks (length lits) o s (rev lits) [] (an s) ;
  Ret (set_an (reset_poisoned (set_an_clause lits' a)) s).

(** ** Learning: learn.c *)
(** learn.c 44-54 *)
Definition learn_unit (o : options) (not_uip : lit) (s : solver) : outcome solver :=
  do new_level <- determine_new_level o s 0 ;
  do s1 <- backtrack_after_conflict new_level s ;
  do s2 <- learned_unit not_uip s1 ;
  Ret (set_iterating true s2).

(** learn.c 56-68 *)
Definition learn_binary (o : options) (not_uip other : lit) (s : solver) : outcome solver :=
  do new_level <- determine_new_level o s (lev s other) ;
  do s1 <- backtrack_after_conflict new_level s ;
  assign_binary o not_uip other (new_binary_clause false not_uip other s1).

(** learn.c 88-103: position of the jump literal. *)
Fixpoint jump_pos (s : solver) (j : nat) (lits : list lit) (pos lvl : nat) : nat :=
  match lits with
  | [] => pos
  | l :: rest =>
      let k := lev s l in
      if k <=? lvl then jump_pos s (S j) rest pos lvl
      else if k =? pred (level s) then j
      else jump_pos s (S j) rest j k
  end.

(** learn.c 81-116 *)
Definition learn_reference (o : options) (not_uip : lit) (lits : list lit) (s : solver) : outcome (solver * nat) :=
  let p := jump_pos s 2 (skipn 2 lits) 1 (lev s (nth 1 lits 0)) in
  let lits' := lswap lits 1 p in
  do (ref, s1) <- new_large_clause false true lits' s ;
  do new_level <- determine_new_level o s1 (lev s1 (nth 1 lits' 0)) ;
  do s2 <- backtrack_after_conflict new_level s1 ;
  do s3 <- assign_reference not_uip ref s2 ;
  Ret (s3, ref).

(** learn.c 165-176: the counting loop finds out whether all [lits] occur in the clause. *)
Definition subsumes (lits : list lit) (c : clause) : bool :=
  forallb (fun l => existsb (Nat.eqb l) (c_lits c)) lits.

(** learn.c 145-188 with 133-143: [last_learned] holds the valid entries only. *)
Fixpoint eagerly_subsume (lits : list lit) (refs : list nat) (s : solver) : outcome (list nat * solver) :=
  match refs with
  | [] => Ret ([], s)
  | ref :: rest =>
      match arena s ref with
      | None => Undef
      | Some c =>
          if negb (c_garbage c) && c_redundant c && (length lits <? length (c_lits c)) && subsumes lits c then
            do s <- mark_garbage ref s ;
            eagerly_subsume lits rest s
          else
            do (refs', s) <- eagerly_subsume lits rest s ;
            Ret (ref :: refs', s)
      end
  end.

(** learn.c 190-210 *)
Definition learn_clause (o : options) (s : solver) : outcome solver :=
  let lits := an_clause (an s) in
  do (s1, ref) <-
    match lits with
    | [] => Undef
    | [not_uip] => do s <- learn_unit o not_uip s ; Ret (s, None)
    | [not_uip; other] => do s <- learn_binary o not_uip other s ; Ret (s, None)
    | not_uip :: _ => do (s, ref) <- learn_reference o not_uip lits s ; Ret (s, Some ref)
    end ;
  if o_eagersubsume o =? 0 then Ret s1
  else
    do (refs, s2) <- eagerly_subsume lits (last_learned s1) s1 ;
    Ret (set_last_learned
           (match ref with Some ref => firstn (o_eagersubsume o) (ref :: refs) | None => refs end) s2).

(** analyze.c 560-565 *)
Definition minimize_and_shrink (o : options) (s : solver) : outcome solver :=
  if o_minimize o then
    do s1 <- minimize_clause o (sort_deduced_clause s) ;
    if 0 <? o_shrink o then shrink_clause o s1 else Ret s1
  else Ret s.

(** ** The analysis loop: analyze.c 527-579.  [None] is result 20.  Bumping, reason side literals and
    averages are not modelled.  The bound [fuel] limits the number of strengthened reasons. *)
Fixpoint analyze_loop (fuel : nat) (o : options) (c : conflict) (s : solver) : outcome (option solver * solver) :=
  match fuel with
  | O => Fuel
  | S fuel =>
      do (s1, used, conflict_level) <- one_literal_on_conflict_level o c s ;
      if used then
        Ret (Some s1, s1)
      else if conflict_level =? 0 then Ret (None, s1)
      else if conflict_level =? 1 then
        do s2 <- analyze_failed_literal c s1 ;
        let s3 := set_an (reset_only_analyzed (an s2)) s2 in
        Ret (Some s3, s3)
      else
        do (s2, r) <- deduce_first_uip_clause o c s1 ;
        match r with
        | Some c' =>
            analyze_loop fuel o c'
              (set_an (reset_only_analyzed (reset_analysis_but_not_analyzed (an s2))) s2)
        | None =>
            do s3 <- minimize_and_shrink o s2 ;
            do s4 <- learn_clause o s3 ;
            let s5 := set_an (reset_only_analyzed (reset_analysis_but_not_analyzed (an s4))) s4 in
            Ret (Some s5, s5)
        end
  end.

Definition analyze (fuel : nat) (o : options) (c : conflict) (s : solver) : outcome (bool * solver) :=
  if inconsistent s then Ret (false, s)
  else
    do (r, s) <- analyze_loop fuel o c s ;
    match r with Some s => Ret (true, s) | None => Ret (false, s) end.
