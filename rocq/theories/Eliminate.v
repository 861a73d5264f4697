(** Bounded variable elimination with full occurrence lists. *)
From Coq Require Import ZArith List Bool Lia Arith.
From Verif Require Import Base SpecSat Lit Solver Api Extend.
Import ListNotations.
Open Scope nat_scope.
Open Scope outcome_scope.

(** ** State *)
(** watch.h 18-44: while [watching] is false, the list of a literal has one word for each clause which contains the
    literal, with the other literal of a binary clause or the reference of a large clause. *)
Inductive dwatch := DBinary (other : lit) | DLarge (ref : nat).
Definition dwatch_eqb (a b : dwatch) : bool :=
  match a, b with
  | DBinary x, DBinary y => x =? y
  | DLarge x, DLarge y => x =? y
  | _, _ => false
  end.

(** The part of [struct kissat] (internal.h 76-242) used by variable elimination: the search state (of which the
    field [watches] is not used while [watching] is false), the occurrence lists, the marks of literals, the flag
    [resolve_gate], the reconstruction stack (top first), the tables [import], [export] and [eliminated].  The
    schedule (a heap of variables), which selects candidates, and statistics are not modelled; candidates are an
    argument of the model.  The flag "eliminated" of a variable is [d_gone]. *)
Record dense := mk_dense {
  d_sol : solver;
  d_occs : lit -> list dwatch;
  d_marks : lit -> bool;
  d_resolve_gate : bool;
  d_extend : list extension;
  d_imports : list import;
  d_exports : list Z;
  d_eliminated : list (option bool);
  d_gone : nat -> bool }.
Definition set_d_sol (x : solver) (d : dense) : dense := mk_dense x (d_occs d) (d_marks d) (d_resolve_gate d) (d_extend d) (d_imports d) (d_exports d) (d_eliminated d) (d_gone d).
Definition set_d_occs (x : lit -> list dwatch) (d : dense) : dense := mk_dense (d_sol d) x (d_marks d) (d_resolve_gate d) (d_extend d) (d_imports d) (d_exports d) (d_eliminated d) (d_gone d).
Definition set_d_marks (x : lit -> bool) (d : dense) : dense := mk_dense (d_sol d) (d_occs d) x (d_resolve_gate d) (d_extend d) (d_imports d) (d_exports d) (d_eliminated d) (d_gone d).
Definition set_d_resolve_gate (x : bool) (d : dense) : dense := mk_dense (d_sol d) (d_occs d) (d_marks d) x (d_extend d) (d_imports d) (d_exports d) (d_eliminated d) (d_gone d).
Definition set_d_extend (x : list extension) (d : dense) : dense := mk_dense (d_sol d) (d_occs d) (d_marks d) (d_resolve_gate d) x (d_imports d) (d_exports d) (d_eliminated d) (d_gone d).
Definition set_d_imports (x : list import) (d : dense) : dense := mk_dense (d_sol d) (d_occs d) (d_marks d) (d_resolve_gate d) (d_extend d) x (d_exports d) (d_eliminated d) (d_gone d).
Definition set_d_eliminated (x : list (option bool)) (d : dense) : dense := mk_dense (d_sol d) (d_occs d) (d_marks d) (d_resolve_gate d) (d_extend d) (d_imports d) (d_exports d) x (d_gone d).
Definition set_d_gone (x : nat -> bool) (d : dense) : dense := mk_dense (d_sol d) (d_occs d) (d_marks d) (d_resolve_gate d) (d_extend d) (d_imports d) (d_exports d) (d_eliminated d) x.

(** Options used here (options.h 15-160): [extract], [equivalences], [ands], [ifthenelse], [eliminateocclim],
    [eliminateclslim], [incremental], and the bound [additional_clauses] of internal.h.
    The search for general definitions (definition.c 91-230) with the embedded solver of kitten.c is not modelled
    but is the argument [e_definition]: given the state and the literal it returns the gate clauses found on both
    sides, and the unit which is learned from an unsatisfiable core with clauses of one side only. *)
Record elim_options := mk_elim_options {
  e_extract : bool; e_equivalences : bool; e_ands : bool; e_ifthenelse : bool;
  e_occlim : nat; e_clslim : nat; e_incremental : bool; e_bound : nat;
  e_definition : dense -> lit -> option (list dwatch * list dwatch * option lit) }.

Definition dval (d : dense) (l : lit) : option bool := values (d_sol d) l.
Definition dtrue (d : dense) (l : lit) : bool := is_true (d_sol d) l.
Definition dfalse (d : dense) (l : lit) : bool := is_false (d_sol d) l.

(** ** Occurrence lists *)
(** vector.c 236-257: removes the first occurrence, which must exist. *)
Fixpoint remove_watch (w : dwatch) (ws : list dwatch) : outcome (list dwatch) :=
  match ws with
  | [] => Undef
  | x :: ws => if dwatch_eqb x w then Ret ws else do ws <- remove_watch w ws ; Ret (x :: ws)
  end.

(** inline.h 125-131 *)
Definition disconnect_binary (l other : lit) (d : dense) : outcome dense :=
  do ws <- remove_watch (DBinary other) (d_occs d l) ;
  Ret (set_d_occs (upd (d_occs d) l ws) d).

(** eliminate.c 119-124 and clause.c 179-187 *)
Definition eliminate_binary (l other : lit) (d : dense) : outcome dense :=
  do d <- disconnect_binary other l d ;
  Ret (set_d_sol (del_step [l; other] (d_sol d)) d).

(** eliminate.c 126-129 *)
Definition eliminate_clause (ref : nat) (d : dense) : outcome dense :=
  do s <- mark_garbage ref (d_sol d) ;
  Ret (set_d_sol s d).

Definition push_occ (l : lit) (w : dwatch) (d : dense) : dense :=
  set_d_occs (upd (d_occs d) l (d_occs d l ++ [w])) d.

(** clause.c 64-79 in dense mode *)
Definition dense_new_binary (a b : lit) (d : dense) : outcome dense :=
  do _ <- oassert (negb (a =? b) && negb (a =? neg b)) ;
  let d := push_occ b (DBinary a) (push_occ a (DBinary b) d) in
  Ret (set_d_sol (add_step [a; b] (d_sol d)) d).

(** clause.c 58-62 and inline.h 175-189: connects all literals. *)
Definition connect_clause (ref : nat) (lits : list lit) (d : dense) : dense :=
  fold_left (fun d l => push_occ l (DLarge ref) d) lits d.

(** clause.c 81-107 in dense mode *)
Definition dense_new_large (lits : list lit) (d : dense) : outcome dense :=
  do _ <- oassert (2 <? length lits) ;
  let ref := next_ref (d_sol d) in
  let s1 := set_next_ref (S ref) (set_clause ref (Some (mk_clause lits false false 2)) (d_sol d)) in
  let d := connect_clause ref lits (set_d_sol s1 d) in
  Ret (set_d_sol (add_step lits (d_sol d)) d).

(** clause.c 109-118, 138-142 *)
Definition dense_new_irredundant (lits : list lit) (d : dense) : outcome dense :=
  match lits with
  | [a; b] => dense_new_binary a b d
  | _ => dense_new_large lits d
  end.

(** assign.c 16-20 *)
Definition dense_learned_unit (l : lit) (d : dense) : outcome dense :=
  do s <- learned_unit l (d_sol d) ;
  Ret (set_d_sol s d).

(** CHECK_AND_ADD_EMPTY, ADD_EMPTY_TO_PROOF and setting the flag [inconsistent]. *)
Definition dense_inconsistent (d : dense) : outcome dense :=
  do _ <- oassert (negb (inconsistent (d_sol d))) ;
  Ret (set_d_sol (set_inconsistent true (add_step [] (d_sol d))) d).

Definition get_clause (d : dense) (ref : nat) : outcome clause :=
  match arena (d_sol d) ref with Some c => Ret c | None => Undef end.

(** ** Counting occurrences *)
(** resolve.c 31-54: the loop removes binary clauses which are satisfied and watches of garbage clauses.  [kept] are
    the watches copied so far, in reverse.  The last component is true if the loop stopped at a too long clause. *)
Fixpoint occurrences_loop (clslim : nat) (l : lit) (ws kept : list dwatch) (res : nat) (d : dense)
  : outcome (list dwatch * nat * bool * dense) :=
  match ws with
  | [] => Ret (rev kept, res, false, d)
  | DBinary other :: ws' =>
      do _ <- oassert (negb (dfalse d other)) ;
      if dtrue d other then
        do d <- eliminate_binary l other d ;
        occurrences_loop clslim l ws' kept res d
      else occurrences_loop clslim l ws' (DBinary other :: kept) (S res) d
  | DLarge ref :: ws' =>
      do c <- get_clause d ref ;
      if c_garbage c then occurrences_loop clslim l ws' kept res d
      else if clslim <? length (c_lits c) then Ret (rev kept ++ ws, res, true, d)
      else occurrences_loop clslim l ws' (DLarge ref :: kept) (S res) d
  end.

(** resolve.c 10-66: [None] is the result UINT_MAX. *)
Definition occurrences_literal (clslim : nat) (l : lit) (d : dense) : outcome (option nat * dense) :=
  do (ws, res, failed, d) <- occurrences_loop clslim l (d_occs d l) [] 0 d ;
  Ret (if failed then None else Some res, set_d_occs (upd (d_occs d) l ws) d).

(** ** Gates *)
(** gates.c 9-24: the number of newly marked literals. *)
Fixpoint mark_binaries_loop (ws : list dwatch) (res : nat) (d : dense) : outcome (nat * dense) :=
  match ws with
  | [] => Ret (res, d)
  | DLarge _ :: ws => mark_binaries_loop ws res d
  | DBinary other :: ws =>
      do _ <- oassert (match dval d other with None => true | Some _ => false end) ;
      if d_marks d other then mark_binaries_loop ws res d
      else mark_binaries_loop ws (S res) (set_d_marks (upd (d_marks d) other true) d)
  end.
Definition mark_binaries (l : lit) (d : dense) : outcome (nat * dense) := mark_binaries_loop (d_occs d l) 0 d.

(** gates.c 26-32 *)
Definition unmark_binaries (l : lit) (d : dense) : dense :=
  fold_left (fun d w => match w with DBinary other => set_d_marks (upd (d_marks d) other false) d | DLarge _ => d end) (d_occs d l) d.

(** equivalences.c 13-22 *)
Fixpoint find_replacement (ws : list dwatch) (d : dense) : option lit :=
  match ws with
  | [] => None
  | DLarge _ :: ws => find_replacement ws d
  | DBinary other :: ws => if d_marks d (neg other) then Some other else find_replacement ws d
  end.

(** equivalences.c 5-37: gives the watches pushed on [gates[0]] and [gates[1]]. *)
Definition find_equivalence_gate (o : elim_options) (l : lit) (d : dense) : outcome (option (list dwatch * list dwatch) * dense) :=
  if negb (e_equivalences o) then Ret (None, d)
  else
    do (marked, d) <- mark_binaries l d ;
    if marked =? 0 then Ret (None, d)
    else
      let replace := find_replacement (d_occs d (neg l)) d in
      let d := unmark_binaries l d in
      match replace with
      | None => Ret (None, d)
      | Some r => Ret (Some ([DBinary (neg r)], [DBinary r]), d)
      end.

(** ands.c 32-50: the scan of one clause, for the base clause of a gate.  [Some true]: it is a base clause,
    [Some false]: it is not, [None]: a literal is satisfied. *)
Fixpoint is_base (not_l : lit) (lits : list lit) (d : dense) : option bool :=
  match lits with
  | [] => Some true
  | other :: lits =>
      if other =? not_l then is_base not_l lits d
      else if dtrue d other then None
      else if dfalse d other then is_base not_l lits d
      else if d_marks d (neg other) then is_base not_l lits d
      else Some false
  end.
(** ands.c 24-54: the search of a base clause; satisfied clauses are removed. *)
Fixpoint find_base (not_l : lit) (ws : list dwatch) (d : dense) : outcome (option nat * dense) :=
  match ws with
  | [] => Ret (None, d)
  | DBinary _ :: ws => find_base not_l ws d
  | DLarge ref :: ws =>
      do c <- get_clause d ref ;
      do _ <- oassert (negb (c_garbage c)) ;
      match is_base not_l (c_lits c) d with
      | Some true => Ret (Some ref, d)
      | Some false => find_base not_l ws d
      | None => do d <- eliminate_clause ref d ; find_base not_l ws d
      end
  end.
(** ands.c 60-68: the marks of the inputs are removed. *)
Fixpoint unmark_inputs (not_l : lit) (lits : list lit) (d : dense) : outcome dense :=
  match lits with
  | [] => Ret d
  | other :: lits =>
      if (other =? not_l) || dtrue d other || dfalse d other then unmark_inputs not_l lits d
      else
        do _ <- oassert (d_marks d (neg other)) ;
        unmark_inputs not_l lits (set_d_marks (upd (d_marks d) (neg other) false) d)
  end.
(** ands.c 71-82: watches with a marked literal are not part of the gate, and the mark is removed. *)
Fixpoint gate_binaries (ws : list dwatch) (d : dense) : outcome (list dwatch * dense) :=
  match ws with
  | [] => Ret ([], d)
  | DLarge _ :: ws => gate_binaries ws d
  | DBinary other :: ws =>
      do _ <- oassert (match dval d other with None => true | Some _ => false end) ;
      if d_marks d other then gate_binaries ws (set_d_marks (upd (d_marks d) other false) d)
      else do (g, d) <- gate_binaries ws d ; Ret (DBinary other :: g, d)
  end.

(** ands.c 6-88: gives the watches of [l] and of its negation that are part of the gate. *)
Definition find_and_gate (o : elim_options) (l : lit) (d : dense) : outcome (option (list dwatch * list dwatch) * dense) :=
  if negb (e_ands o) then Ret (None, d)
  else
    do (marked, d) <- mark_binaries l d ;
    if marked =? 0 then Ret (None, d)
    else if marked <? 2 then Ret (None, unmark_binaries l d)
    else
      do (base, d) <- find_base (neg l) (d_occs d (neg l)) d ;
      match base with
      | None => Ret (None, unmark_binaries l d)
      | Some ref =>
          do c <- get_clause d ref ;
          do d <- unmark_inputs (neg l) (c_lits c) d ;
          do (g, d) <- gate_binaries (d_occs d l) d ;
          Ret (Some (g, [DLarge ref]), d)
      end.

(** ifthenelse.c 6-40.  The loop of the code gives up at the fourth unassigned literal, and then does not find a
    satisfied literal behind it. *)
Fixpoint ternary_loop (lits : list lit) (found : list lit) (d : dense) : option (list lit) * bool :=
  match lits with
  | [] => (Some found, false)
  | other :: lits =>
      if dtrue d other then (None, true)
      else if dfalse d other then ternary_loop lits found d
      else if length found =? 3 then (None, false)
      else ternary_loop lits (found ++ [other]) d
  end.
Definition get_ternary_clause (ref : nat) (d : dense) : outcome (option (lit * lit * lit) * dense) :=
  do c <- get_clause d ref ;
  if c_garbage c then Ret (None, d)
  else
    match ternary_loop (c_lits c) [] d with
    | (_, true) => do d <- eliminate_clause ref d ; Ret (None, d)
    | (Some [x; y; z], false) => Ret (Some (x, y, z), d)
    | (_, false) => Ret (None, d)
    end.

(** ifthenelse.c 42-65: the literals which are not false are among [a], [b] and [c]; the first result is [None] if a
    literal is satisfied, and otherwise the number of literals found or a failure. *)
Fixpoint match_loop (lits : list lit) (a b c : lit) (found : nat) (d : dense) : option (option nat) :=
  match lits with
  | [] => Some (Some found)
  | other :: lits =>
      if dtrue d other then None
      else if dfalse d other then match_loop lits a b c found d
      else if negb (a =? other) && negb (b =? other) && negb (c =? other) then Some None
      else match_loop lits a b c (S found) d
  end.
Definition match_ternary_ref (ref : nat) (a b c : lit) (d : dense) : outcome (bool * dense) :=
  do cl <- get_clause d ref ;
  if c_garbage cl then Ret (false, d)
  else
    match match_loop (c_lits cl) a b c 0 d with
    | None => do d <- eliminate_clause ref d ; Ret (false, d)
    | Some None => Ret (false, d)
    | Some (Some found) => Ret (true, if found =? 3 then d else set_d_resolve_gate true d)
    end.

(** ifthenelse.c 67-79 *)
Definition match_ternary_watch (w : dwatch) (a b c : lit) (d : dense) : outcome (bool * dense) :=
  match w with
  | DBinary other =>
      if negb (other =? b) && negb (other =? c) then Ret (false, d)
      else Ret (true, set_d_resolve_gate true d)
  | DLarge ref => match_ternary_ref ref a b c d
  end.

(** ifthenelse.c 81-93: the position and the watch found, and the number of steps. *)
Fixpoint find_ternary_loop (ws : list dwatch) (pos steps : nat) (a b c : lit) (d : dense) : outcome (option (nat * dwatch) * nat * dense) :=
  match ws with
  | [] => Ret (None, steps, d)
  | w :: ws =>
      do (found, d) <- match_ternary_watch w a b c d ;
      if found then Ret (Some (pos, w), S steps, d)
      else find_ternary_loop ws (S pos) (S steps) a b c d
  end.
Definition find_ternary_clause (steps : nat) (a b c : lit) (d : dense) : outcome (option (nat * dwatch) * nat * dense) :=
  find_ternary_loop (d_occs d a) 0 steps a b c d.

(** ifthenelse.c 122-126 and 135-139: the pivot is swapped to the front. *)
Definition pivot_first (l : lit) (t : lit * lit * lit) : lit * lit * lit :=
  let '(a, b, c) := t in
  let '(a, b) := if b =? l then (b, a) else (a, b) in
  if c =? l then (c, b, a) else (a, b, c).

Definition same_var (a b : lit) : bool := idx a =? idx b.

(** ifthenelse.c 127-171: the inner loop; [w1] is the first clause with literals [l], [b1] and [c1]. *)
Fixpoint ite_inner (limit : nat) (l b1 c1 : lit) (w1 : dwatch) (ws : list dwatch) (steps : nat) (d : dense)
  : outcome (option (list dwatch * list dwatch) * nat * dense) :=
  match ws with
  | [] => Ret (None, steps, d)
  | w2 :: ws =>
      if limit <=? steps then Ret (None, steps, d)
      else
        match w2 with
        | DBinary _ => ite_inner limit l b1 c1 w1 ws steps d
        | DLarge ref =>
            do (t, d) <- get_ternary_clause ref d ;
            match t with
            | None => ite_inner limit l b1 c1 w1 ws steps d
            | Some t =>
                let '(a2, b2, c2) := pivot_first l t in
                do _ <- oassert (a2 =? l) ;
                let '(b2, c2) := if same_var b1 c2 then (c2, b2) else (b2, c2) in
                if same_var c1 c2 then ite_inner limit l b1 c1 w1 ws steps d
                else if negb (b1 =? neg b2) then ite_inner limit l b1 c1 w1 ws steps d
                else
                  let d := set_d_resolve_gate false d in
                  do (p3, steps, d) <- find_ternary_clause steps (neg l) b1 (neg c1) d ;
                  match p3 with
                  | None => ite_inner limit l b1 c1 w1 ws steps d
                  | Some (i3, w3) =>
                      do (p4, steps, d) <- find_ternary_clause steps (neg l) b2 (neg c2) d ;
                      match p4 with
                      | None => ite_inner limit l b1 c1 w1 ws steps d
                      | Some (i4, w4) =>
                          let other := if i3 <? i4 then [w3; w4] else [w4; w3] in
                          Ret (Some ([w1; w2], other), steps, d)
                      end
                  end
            end
        end
  end.

(** ifthenelse.c 115-173: the outer loop stops at the last watch. *)
Fixpoint ite_outer (limit : nat) (l : lit) (ws : list dwatch) (steps : nat) (d : dense)
  : outcome (option (list dwatch * list dwatch) * dense) :=
  match ws with
  | [] => Ret (None, d)
  | w1 :: ws =>
      match ws with
      | [] => Ret (None, d)
      | _ =>
          if limit <=? steps then Ret (None, d)
          else
            match w1 with
            | DBinary _ => ite_outer limit l ws steps d
            | DLarge ref =>
                do (t, d) <- get_ternary_clause ref d ;
                match t with
                | None => ite_outer limit l ws steps d
                | Some t =>
                    let '(a1, b1, c1) := pivot_first l t in
                    do _ <- oassert (a1 =? l) ;
                    do (g, steps, d) <- ite_inner limit l b1 c1 w1 ws steps d ;
                    match g with
                    | Some g => Ret (Some g, d)
                    | None => ite_outer limit l ws steps d
                    end
                end
            end
      end
  end.

Definition is_large (w : dwatch) : bool := match w with DLarge _ => true | DBinary _ => false end.

(** ifthenelse.c 95-174 *)
Definition find_if_then_else_gate (o : elim_options) (l : lit) (d : dense) : outcome (option (list dwatch * list dwatch) * dense) :=
  if negb (e_ifthenelse o) then Ret (None, d)
  else
    match d_occs d l with
    | [] => Ret (None, d)
    | ws =>
        let large := length (filter is_large ws) in
        if e_occlim o <? large * large then Ret (None, d)
        else ite_outer (e_occlim o) l ws 0 d
    end.

(** definition.c 91-230 with the result of the embedded solver as argument. *)
Definition find_definition (o : elim_options) (l : lit) (d : dense) : outcome (option (list dwatch * list dwatch) * dense) :=
  match e_definition o d l with
  | None => Ret (None, d)
  | Some (g0, g1, unit) =>
      do d <- (match unit with Some u => dense_learned_unit u d | None => Ret d end) ;
      Ret (Some (g0, g1), set_d_resolve_gate true d)
  end.

Definition swap_gates (r : option (list dwatch * list dwatch)) : option (list dwatch * list dwatch) :=
  match r with Some (g, h) => Some (h, g) | None => None end.

(** gates.c 34-59 *)
Definition find_gates (o : elim_options) (l : lit) (d : dense) : outcome (option (list dwatch * list dwatch) * dense) :=
  let d := set_d_resolve_gate false d in
  if negb (e_extract o) then Ret (None, d)
  else
    match d_occs d (neg l) with
    | [] => Ret (None, d)
    | _ =>
        do (r, d) <- find_equivalence_gate o l d ;
        match r with Some _ => Ret (r, d) | None =>
        do (r, d) <- find_and_gate o l d ;
        match r with Some _ => Ret (r, d) | None =>
        do (r, d) <- find_and_gate o (neg l) d ;
        match r with Some _ => Ret (swap_gates r, d) | None =>
        do (r, d) <- find_if_then_else_gate o l d ;
        match r with Some _ => Ret (r, d) | None =>
        do (r, d) <- find_if_then_else_gate o (neg l) d ;
        match r with Some _ => Ret (swap_gates r, d) | None =>
        find_definition o l d
        end end end end end
    end.

(** gates.c 61-104: the watches which are not in the gate; the gate is a subsequence of the watches. *)
Fixpoint get_antecedents (gates ws : list dwatch) : outcome (list dwatch) :=
  match ws with
  | [] => match gates with [] => Ret [] | _ => Undef end
  | w :: ws =>
      match gates with
      | g :: gates' =>
          if dwatch_eqb g w then get_antecedents gates' ws
          else do r <- get_antecedents gates ws ; Ret (w :: r)
      | [] => do r <- get_antecedents gates ws ; Ret (w :: r)
      end
  end.

(** ** Resolvents *)
(** resolve.c 68-86: the literals of a clause and whether it is garbage. *)
Definition watch_to_clause (l : lit) (w : dwatch) (d : dense) : outcome (list lit * bool) :=
  match w with
  | DBinary other => Ret ([l; other], false)
  | DLarge ref => do c <- get_clause d ref ; Ret (c_lits c, c_garbage c)
  end.
(** Removing the clause of a watch, if it is not the temporary clause used for binary clauses. *)
Definition eliminate_watch (w : dwatch) (d : dense) : outcome dense :=
  match w with DBinary _ => Ret d | DLarge ref => eliminate_clause ref d end.

Fixpoint mark_literals (l : lit) (lits : list lit) (d : dense) : outcome dense :=
  match lits with
  | [] => Ret d
  | other :: lits =>
      if other =? l then mark_literals l lits d
      else
        do _ <- oassert (negb (d_marks d other)) ;
        mark_literals l lits (set_d_marks (upd (d_marks d) other true) d)
  end.
Fixpoint unmark_literals (l : lit) (lits : list lit) (d : dense) : outcome dense :=
  match lits with
  | [] => Ret d
  | other :: lits =>
      if other =? l then unmark_literals l lits d
      else
        do _ <- oassert (d_marks d other) ;
        unmark_literals l lits (set_d_marks (upd (d_marks d) other false) d)
  end.

(** resolve.c 157-189: the literals of the second antecedent which are added to the resolvent. *)
Inductive second := SSatisfied | STautological | SLiterals (lits : list lit).
Fixpoint second_literals (not_l : lit) (lits acc : list lit) (d : dense) : second :=
  match lits with
  | [] => SLiterals acc
  | other :: lits =>
      if other =? not_l then second_literals not_l lits acc d
      else if dfalse d other then second_literals not_l lits acc d
      else if dtrue d other then SSatisfied
      else if d_marks d other then second_literals not_l lits acc d
      else if d_marks d (neg other) then STautological
      else second_literals not_l lits (acc ++ [other]) d
  end.
(** resolve.c 202-212: the literals of the first antecedent. *)
Fixpoint first_literals (l : lit) (lits acc : list lit) (d : dense) : outcome (list lit) :=
  match lits with
  | [] => Ret acc
  | other :: lits =>
      if other =? l then first_literals l lits acc d
      else
        do _ <- oassert (negb (dtrue d other)) ;
        if dfalse d other then first_literals l lits acc d
        else first_literals l lits (acc ++ [other]) d
  end.

(** The state of the loops: the number of resolvents counted, and the stack of resolvents, where the literals up
    to [INVALID_LIT] form one element (in reverse). *)
Record resolution := mk_resolution { r_count : nat; r_stack : list (list lit); r_state : dense }.
Inductive progress := Going | FirstSatisfied | Failed.

(** resolve.c 142-241: the inner loop.  [c] are the literals of the first antecedent, which are marked. *)
Fixpoint generate_inner (o : elim_options) (limit : nat) (l : lit) (c : list lit) (ws : list dwatch) (r : resolution)
  : outcome (progress * resolution) :=
  match ws with
  | [] => Ret (Going, r)
  | w :: ws =>
      let d := r_state r in
      do (e, garbage) <- watch_to_clause (neg l) w d ;
      if (garbage : bool) then generate_inner o limit l c ws r
      else
        match second_literals (neg l) e [] d with
        | SSatisfied =>
            do d <- eliminate_watch w d ;
            generate_inner o limit l c ws (mk_resolution (r_count r) (r_stack r) d)
        | STautological => generate_inner o limit l c ws r
        | SLiterals lits =>
            let count := S (r_count r) in
            if limit <? count then Ret (Failed, mk_resolution count (r_stack r) d)
            else
              do resolvent <- first_literals l c lits d ;
              match resolvent with
              | [] =>
                  do d <- dense_inconsistent d ;
                  Ret (Failed, mk_resolution count (r_stack r) d)
              | [unit] =>
                  do d <- dense_learned_unit unit d ;
                  let r := mk_resolution count (r_stack r) d in
                  if d_marks d unit then Ret (FirstSatisfied, r)
                  else generate_inner o limit l c ws r
              | _ =>
                  if e_clslim o <? length resolvent then Ret (Failed, mk_resolution count (r_stack r) d)
                  else generate_inner o limit l c ws (mk_resolution count (resolvent :: r_stack r) d)
              end
        end
  end.

(** resolve.c 113-131: whether a literal other than the pivot satisfies the first antecedent. *)
Fixpoint first_satisfied (l : lit) (lits : list lit) (d : dense) : bool :=
  match lits with
  | [] => false
  | other :: lits => if other =? l then first_satisfied l lits d else dtrue d other || first_satisfied l lits d
  end.

(** resolve.c 88-262 *)
Fixpoint generate_resolvents (o : elim_options) (limit : nat) (l : lit) (ws0 ws1 : list dwatch) (r : resolution)
  : outcome (bool * resolution) :=
  match ws0 with
  | [] => Ret (true, r)
  | w :: ws0 =>
      let d := r_state r in
      do (c, garbage) <- watch_to_clause l w d ;
      if (garbage : bool) then generate_resolvents o limit l ws0 ws1 r
      else if first_satisfied l c d then
        do d <- eliminate_watch w d ;
        generate_resolvents o limit l ws0 ws1 (mk_resolution (r_count r) (r_stack r) d)
      else
        do d <- mark_literals l c d ;
        do (p, r) <- generate_inner o limit l c ws1 (mk_resolution (r_count r) (r_stack r) d) ;
        do d <- unmark_literals l c (r_state r) ;
        let r := mk_resolution (r_count r) (r_stack r) d in
        match p with
        | Failed => Ret (false, r)
        | _ => generate_resolvents o limit l ws0 ws1 r
        end
  end.

(** resolve.c 318-344: which clauses are resolved. *)
Definition generate_all (o : elim_options) (limit : nat) (l : lit) (gates : option (list dwatch * list dwatch))
    (d : dense) : outcome (bool * resolution) :=
  let '(g0, g1) := match gates with Some g => g | None => ([], []) end in
  do a0 <- get_antecedents g0 (d_occs d l) ;
  do a1 <- get_antecedents g1 (d_occs d (neg l)) ;
  let r := mk_resolution 0 [] d in
  match gates with
  | None => generate_resolvents o limit l a0 a1 r
  | Some _ =>
      do (ok, r) <- generate_resolvents o limit l g0 a1 r ;
      if negb (ok : bool) then Ret (false, r)
      else
        do (ok, r) <- generate_resolvents o limit (neg l) g1 a0 r ;
        if negb (ok : bool) then Ret (false, r)
        else if d_resolve_gate (r_state r) then generate_resolvents o limit l g0 g1 r
        else Ret (true, r)
  end.

(** resolve.c 264-370: the pivot literal and the resolvents (in the order of the stack), or [None] if the variable is
    not eliminated. *)
Definition kissat_generate_resolvents (o : elim_options) (i : nat) (d : dense)
  : outcome (option (lit * list (list lit)) * dense) :=
  let l := 2 * i in
  do (pos, d) <- occurrences_literal (e_clslim o) l d ;
  do (ng, d) <- occurrences_literal (e_clslim o) (neg l) d ;
  let larger := match pos, ng with None, Some _ => true | Some p, Some n => n <? p | _, None => false end in
  let '(l, pos, ng) := if larger then (neg l, ng, pos) else (l, pos, ng) in
  match pos with
  | Some 0 => Ret (Some (l, []), d)
  | _ =>
      match pos, ng with
      | Some p, Some n =>
          let limit := p + n in
          if e_occlim o <? limit then Ret (None, d)
          else
            let limit := limit + e_bound o in
            do (gates, d) <- find_gates o l d ;
            match dval d l with
            | Some _ => Ret (None, d)
            | None =>
                do (ok, r) <- generate_all o limit l gates d ;
                if ok then Ret (Some (l, rev (r_stack r)), r_state r) else Ret (None, r_state r)
            end
      | _, _ => Ret (None, d)
      end
  end.

(** ** Adding the resolvents *)
(** eliminate.c 241-251: [None] if the resolvent is satisfied. *)
Fixpoint remaining_literals (lits acc : list lit) (d : dense) : option (list lit) :=
  match lits with
  | [] => Some acc
  | other :: lits =>
      if dtrue d other then None
      else if dfalse d other then remaining_literals lits acc d
      else remaining_literals lits (acc ++ [other]) d
  end.

(** eliminate.c 207-255 *)
Fixpoint connect_resolvents (rs : list (list lit)) (d : dense) : outcome dense :=
  match rs with
  | [] => Ret d
  | r :: rs =>
      match remaining_literals r [] d with
      | None => connect_resolvents rs d
      | Some [] => dense_inconsistent d
      | Some [unit] => do d <- dense_learned_unit unit d ; connect_resolvents rs d
      | Some c => do d <- dense_new_irredundant c d ; connect_resolvents rs d
      end
  end.

(** ** Removing the clauses of the variable *)
Definition dexport (d : dense) (l : lit) : Z :=
  let e := nth (idx l) (d_exports d) 0%Z in
  if negated l then (- e)%Z else e.

(** eliminate.c 265-288, and 294-319 for the negated literal: [push] tells whether clauses go on the stack. *)
Fixpoint weaken_loop (push : bool) (l : lit) (ws : list dwatch) (d : dense) : outcome dense :=
  match ws with
  | [] => Ret d
  | DBinary other :: ws =>
      do st <- (if push && negb (dtrue d other) then kissat_weaken_binary (dval d) (dexport d) l other (d_extend d) else Ret (d_extend d)) ;
      do d <- eliminate_binary l other (set_d_extend st d) ;
      weaken_loop push l ws d
  | DLarge ref :: ws =>
      do c <- get_clause d ref ;
      if c_garbage c then weaken_loop push l ws d
      else
        let satisfied := existsb (dtrue d) (c_lits c) in
        do st <- (if push && negb satisfied then kissat_weaken_clause (dval d) (dexport d) l (c_lits c) (d_extend d) else Ret (d_extend d)) ;
        do d <- eliminate_clause ref (set_d_extend st d) ;
        weaken_loop push l ws d
  end.

(** ** Propagation: propdense.c *)
(** propdense.c 49-67: [None] if a literal is true, and otherwise the first one or two unassigned literals. *)
Fixpoint dense_scan (not_l : lit) (lits : list lit) (unit : option lit) (d : dense) : option (list lit) :=
  match lits with
  | [] => Some (match unit with Some u => [u] | None => [] end)
  | other :: lits =>
      if other =? not_l then dense_scan not_l lits unit d
      else if dfalse d other then dense_scan not_l lits unit d
      else if dtrue d other then None
      else
        match unit with
        | None => dense_scan not_l lits (Some other) d
        | Some u => Some [u; other]
        end
  end.

(** propdense.c 20-78: [false] is a conflict. *)
Fixpoint dense_propagate_watches (not_l : lit) (ws : list dwatch) (d : dense) : outcome (bool * dense) :=
  match ws with
  | [] => Ret (true, d)
  | DBinary other :: ws =>
      if dtrue d other then dense_propagate_watches not_l ws d
      else if dfalse d other then Ret (false, d)
      else if d_gone d (idx other) then dense_propagate_watches not_l ws d
      else
        do s <- assign 0 (RBinary not_l) other (d_sol d) ;
        dense_propagate_watches not_l ws (set_d_sol s d)
  | DLarge ref :: ws =>
      do c <- get_clause d ref ;
      do _ <- oassert (negb (c_redundant c)) ;
      if c_garbage c then dense_propagate_watches not_l ws d
      else
        match dense_scan not_l (c_lits c) None d with
        | None => do d <- eliminate_clause ref d ; dense_propagate_watches not_l ws d
        | Some [] => Ret (false, d)
        | Some [unit] =>
            do s <- assign_reference unit ref (d_sol d) ;
            dense_propagate_watches not_l ws (set_d_sol s d)
        | Some _ => dense_propagate_watches not_l ws d
        end
  end.

(** propdense.c 84-108; [fuel] bounds the number of literals. *)
Fixpoint dense_propagate_loop (fuel : nat) (d : dense) : outcome (bool * dense) :=
  match nth_error (trail (d_sol d)) (propagate (d_sol d)) with
  | None => Ret (true, d)
  | Some l =>
      match fuel with
      | O => Fuel
      | S fuel =>
          do _ <- oassert (dtrue d l) ;
          let d := set_d_sol (set_propagate (S (propagate (d_sol d))) (d_sol d)) d in
          do (ok, d) <- dense_propagate_watches (neg l) (d_occs d (neg l)) d ;
          if (ok : bool) then dense_propagate_loop fuel d else Ret (false, d)
      end
  end.
Definition dense_propagate (d : dense) : outcome (bool * dense) :=
  do _ <- oassert (negb (inconsistent (d_sol d))) ;
  do (ok, d) <- dense_propagate_loop (S (vars (d_sol d))) d ;
  if (ok : bool) then Ret (true, d)
  else do d <- dense_inconsistent d ; Ret (false, d).

(** eliminate.c 183-196: the large clauses of a unit become garbage, and their watches are dropped. *)
Fixpoint flush_unit_watches (ws : list dwatch) (d : dense) : outcome (list dwatch * dense) :=
  match ws with
  | [] => Ret ([], d)
  | DBinary other :: ws => do (kept, d) <- flush_unit_watches ws d ; Ret (DBinary other :: kept, d)
  | DLarge ref :: ws =>
      do c <- get_clause d ref ;
      do d <- (if c_garbage c then Ret d else eliminate_clause ref d) ;
      flush_unit_watches ws d
  end.
Fixpoint flush_units_loop (units : list lit) (d : dense) : outcome dense :=
  match units with
  | [] => Ret d
  | unit :: units =>
      do (ws, d) <- flush_unit_watches (d_occs d unit) d ;
      flush_units_loop units (set_d_occs (upd (d_occs d) unit ws) d)
  end.
(** eliminate.c 160-205 *)
Definition flush_units_while_connected (d : dense) : outcome dense :=
  let start := propagate (d_sol d) in
  if length (trail (d_sol d)) <=? start then Ret d
  else
    do (ok, d) <- dense_propagate d ;
    if (ok : bool) then flush_units_loop (skipn start (trail (d_sol d))) d else Ret d.

(** eliminate.c 257-327 *)
Definition weaken_clauses (o : elim_options) (l : lit) (d : dense) : outcome dense :=
  do _ <- oassert (match dval d l with None => true | Some _ => false end) ;
  do d <- weaken_loop true l (d_occs d l) d ;
  let d := set_d_occs (upd (d_occs d) l []) d in
  let optimize := negb (e_incremental o) in
  let negs := d_occs d (neg l) in
  do d <- weaken_loop (negb optimize) (neg l) negs d ;
  do d <- (match negs with
           | [] => Ret d
           | _ =>
               if optimize then
                 do st <- kissat_weaken_unit (dval d) (dexport d) (neg l) (d_extend d) ;
                 Ret (set_d_extend st d)
               else Ret d
           end) ;
  let d := set_d_occs (upd (d_occs d) (neg l) []) d in
  flush_units_while_connected d.

(** flags.c 74-103.  The flag "active" of the code is the conjunction of [active] and not being fixed. *)
Definition mark_eliminated_variable (i : nat) (d : dense) : outcome dense :=
  let l := 2 * i in
  do _ <- oassert (match dval d l with None => true | Some _ => false end) ;
  do _ <- oassert (active (d_sol d) i && negb (d_gone d i)) ;
  let e := dexport d l in
  do _ <- oassert (negb (e =? 0)%Z && negb (e =? INT_MIN)%Z) ;
  do m <- peek (d_imports d) (external_index e) ;
  do _ <- oassert (negb (i_eliminated m) && i_imported m && (idx (i_lit m) =? i)) ;
  let pos := length (d_eliminated d) in
  do _ <- oassert (Z.of_nat pos <? 1073741824)%Z ;
  do ims <- poke (d_imports d) (external_index e) (mk_import pos (i_extension m) true true) ;
  do _ <- oassert (0 <? unassigned (d_sol d)) ;
  let s := set_unassigned (pred (unassigned (d_sol d))) (set_active (upd (active (d_sol d)) i false) (d_sol d)) in
  Ret (set_d_sol s (set_d_gone (upd (d_gone d) i true) (set_d_eliminated (d_eliminated d ++ [None]) (set_d_imports ims d)))).

(** eliminate.c 385-414 *)
Definition eliminate_variable (o : elim_options) (i : nat) (d : dense) : outcome (bool * dense) :=
  do _ <- oassert (negb (inconsistent (d_sol d))) ;
  do (r, d) <- kissat_generate_resolvents o i d ;
  match r with
  | None => Ret (false, d)
  | Some (l, rs) =>
      do d <- connect_resolvents rs d ;
      do d <- (if inconsistent (d_sol d) then Ret d else weaken_clauses o l d) ;
      do d <- mark_eliminated_variable i d ;
      Ret (true, d)
  end.

(** eliminate.c 374-383: a variable is a candidate if it is active; the flag [eliminate], which remembers variables
    for which something changed, is not modelled. *)
Definition can_eliminate_variable (i : nat) (d : dense) : bool :=
  active (d_sol d) i && (match dval d (2 * i) with None => true | Some _ => false end).

(** eliminate.c 472-495: the loop over the candidates of one round. *)
Fixpoint eliminate_candidates (o : elim_options) (is : list nat) (d : dense) : outcome dense :=
  match is with
  | [] => Ret d
  | i :: is =>
      if inconsistent (d_sol d) then Ret d
      else if negb (can_eliminate_variable i d) then eliminate_candidates o is d
      else
        do (_, d) <- eliminate_variable o i d ;
        if inconsistent (d_sol d) then Ret d
        else do d <- flush_units_while_connected d ; eliminate_candidates o is d
  end.
