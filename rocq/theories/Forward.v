(** Forward subsumption during variable elimination: forward.c. *)
From Coq Require Import ZArith List Bool Lia Arith.
From Verif Require Import Base Lit Solver Extend Eliminate Radix.
Import ListNotations.
Open Scope nat_scope.
Open Scope outcome_scope.

(** The options [subsumeclslim] and [subsumeocclim] (options.h 15-160). *)
Record forward_options := mk_forward_options { w_clslim : nat; w_occlim : nat }.

(** flags.h 10-26.  The flag "active" of the code is the conjunction of [active] and not being fixed.  The flag
    [subsume] of variables is an argument of the functions below, since it only changes at the end. *)
Definition is_active (i : nat) (d : dense) : bool :=
  active (d_sol d) i && (match dval d (2 * i) with None => true | Some _ => false end).

(** The table [marks] (internal.h 76-242). *)
Definition set_mark (b : bool) (l : lit) (d : dense) : dense := set_d_marks (upd (d_marks d) l b) d.
Definition set_marks (b : bool) (ls : list lit) (d : dense) : dense := fold_left (fun d l => set_mark b l d) ls d.

(** ** Duplicated binary clauses *)
(** forward.c 22-53: [kept] are the watches which are kept, [delayed] the units found. *)
Fixpoint dup_loop (sub : nat -> bool) (l : lit) (ws kept : list dwatch) (delayed : list lit) (d : dense)
  : outcome (list dwatch * list lit * dense) :=
  match ws with
  | [] => Ret (kept, delayed, d)
  | DLarge _ :: _ => Undef
  | DBinary other :: ws =>
      if negb (is_active (idx other) d && sub (idx other)) then dup_loop sub l ws (kept ++ [DBinary other]) delayed d
      else if d_marks d other then
        dup_loop sub l ws kept delayed (if l <? other then set_d_sol (del_step [l; other] (d_sol d)) d else d)
      else
        dup_loop sub l ws (kept ++ [DBinary other]) (if d_marks d (neg other) then delayed ++ [l] else delayed)
          (set_mark true other d)
  end.
Definition others (ws : list dwatch) : list lit := flat_map (fun w => match w with DBinary o => [o] | DLarge _ => [] end) ws.
(** forward.c 13-66 *)
Definition remove_duplicated (sub : nat -> bool) (l : lit) (delayed : list lit) (d : dense) : outcome (list lit * dense) :=
  do (kept, delayed, d) <- dup_loop sub l (d_occs d l) [] delayed d ;
  let d := set_marks false (others kept) d in
  Ret (delayed, set_d_occs (upd (d_occs d) l kept) d).

(** forward.c 77-93 *)
Fixpoint duplicated_loop (sub : nat -> bool) (is : list nat) (delayed : list lit) (d : dense) : outcome (list lit * dense) :=
  match is with
  | [] => Ret (delayed, d)
  | i :: is =>
      if is_active i d && sub i then
        do (delayed, d) <- remove_duplicated sub (2 * i) delayed d ;
        do (delayed, d) <- remove_duplicated sub (S (2 * i)) delayed d ;
        duplicated_loop sub is delayed d
      else duplicated_loop sub is delayed d
  end.
(** forward.c 100-116 *)
Fixpoint resolved_units (us : list lit) (d : dense) : outcome dense :=
  match us with
  | [] => Ret d
  | u :: us =>
      if dtrue d u then resolved_units us d
      else if dfalse d u then dense_inconsistent d
      else do d <- dense_learned_unit u d ; resolved_units us d
  end.
(** forward.c 68-123.  The number of variables is the size of the table [export] (import.c 17-37 adds one entry for each
    new variable). *)
Definition remove_all_duplicated (sub : nat -> bool) (d : dense) : outcome dense :=
  do (delayed, d) <- duplicated_loop sub (seq 0 (length (d_exports d))) [] d ;
  match delayed with
  | [] => Ret d
  | _ =>
      do d <- resolved_units delayed d ;
      if inconsistent (d_sol d) then Ret d else flush_units_while_connected d
  end.

(** ** Candidates *)
(** forward.c 125-165.  Redundant clauses behind the last irredundant clause are skipped.  The flag [subsume] of
    clauses, which is cleared here, is the list [shrunk] below. *)
Fixpoint find_candidates (o : forward_options) (sub : nat -> bool) (refs : list nat) (d : dense) : outcome (list nat * dense) :=
  match refs with
  | [] => Ret ([], d)
  | r :: refs =>
      match arena (d_sol d) r with
      | None => find_candidates o sub refs d
      | Some c =>
          if c_garbage c || c_redundant c || (w_clslim o <? length (c_lits c)) then find_candidates o sub refs d
          else
            do _ <- oassert (2 <? length (c_lits c)) ;
            if existsb (dtrue d) (c_lits c) then
              do d <- eliminate_clause r d ; find_candidates o sub refs d
            else if length (filter (fun l => sub (idx l)) (c_lits c)) <? 2 then find_candidates o sub refs d
            else do (cs, d) <- find_candidates o sub refs d ; Ret (r :: cs, d)
      end
  end.
(** forward.c 167-184: sizes have 32 bits. *)
Definition clause_size (d : dense) (r : nat) : Z :=
  match arena (d_sol d) r with Some c => (Z.of_nat (length (c_lits c)) mod 2 ^ 32)%Z | None => 0%Z end.
Definition sort_candidates (cs : list nat) (d : dense) : outcome (list nat) := radix_sort nat (clause_size d) 4 cs.

(** ** Checking one clause *)
Inductive scan := ScSatisfied | ScSubsume | ScCandidate (l : lit) | ScNone.
(** forward.c 243-272: [candidate] is defined iff the variable [subsume] of the code is false. *)
Fixpoint scan_clause (lits : list lit) (candidate : option lit) (d : dense) : scan :=
  match lits with
  | [] => match candidate with None => ScSubsume | Some l => ScCandidate l end
  | other :: lits =>
      if d_marks d other then scan_clause lits candidate d
      else if dfalse d other then scan_clause lits candidate d
      else if dtrue d other then ScSatisfied
      else
        match candidate with
        | Some _ => ScNone
        | None => if d_marks d (neg other) then scan_clause lits (Some (neg other)) d else ScNone
        end
  end.
(** forward.c 210-299: the result has the watches left. *)
Fixpoint forward_watches (binaries : bool) (ws kept : list dwatch) (remove : option lit) (d : dense)
  : outcome (bool * option lit * list dwatch * dense) :=
  match ws with
  | [] => Ret (false, remove, kept, d)
  | DBinary other :: ws =>
      if negb binaries then forward_watches binaries ws (kept ++ [DBinary other]) remove d
      else if d_marks d other then Ret (true, remove, kept ++ DBinary other :: ws, d)
      else if d_marks d (neg other) then Ret (false, Some (neg other), kept ++ DBinary other :: ws, d)
      else forward_watches binaries ws (kept ++ [DBinary other]) remove d
  | DLarge ref :: ws =>
      do c <- get_clause d ref ;
      if c_garbage c then forward_watches binaries ws kept remove d
      else
        match scan_clause (c_lits c) None d with
        | ScSatisfied => do d <- eliminate_clause ref d ; Ret (false, remove, kept ++ ws, d)
        | ScSubsume => Ret (true, remove, kept ++ DLarge ref :: ws, d)
        | ScCandidate l => forward_watches binaries ws (kept ++ [DLarge ref]) (Some l) d
        | ScNone => forward_watches binaries ws (kept ++ [DLarge ref]) remove d
        end
  end.
(** forward.c 186-306 without statistics *)
Definition forward_literal (o : forward_options) (l : lit) (binaries : bool) (remove : option lit) (d : dense)
  : outcome (bool * option lit * dense) :=
  let n := length (d_occs d l) in
  if (n =? 0) || (w_occlim o <? n) then Ret (false, remove, d)
  else
    do (sub, remove, ws, d) <- forward_watches binaries (d_occs d l) [] remove d ;
    Ret (sub, remove, set_d_occs (upd (d_occs d) l ws) d).
(** forward.c 308-328 *)
Fixpoint forward_marked (o : forward_options) (lits : list lit) (remove : option lit) (d : dense)
  : outcome (bool * option lit * dense) :=
  match lits with
  | [] => Ret (false, remove, d)
  | l :: lits =>
      if negb (is_active (idx l) d) then forward_marked o lits remove d
      else
        do _ <- oassert (match dval d l with None => true | Some _ => false end) ;
        do (sub, remove, d) <- forward_literal o l true remove d ;
        if (sub : bool) then Ret (true, remove, d)
        else
          do (sub, remove, d) <- forward_literal o (neg l) false remove d ;
          if (sub : bool) then Ret (true, remove, d) else forward_marked o lits remove d
  end.

(** What happens to the clause: [shrunk] if it is strengthened but still large, and the literals pushed on
    [new_binaries]. *)
Record checked := mk_checked { k_shrunk : bool; k_binary : list lit }.
Definition nothing : checked := mk_checked false [].
(** A unit is learned and the clause becomes garbage: forward.c 372-379, 397-404. *)
Definition forward_unit (unit : lit) (r : nat) (d : dense) : outcome dense :=
  do d <- dense_learned_unit unit d ;
  do d <- eliminate_clause r d ;
  flush_units_while_connected d.
(** forward.c 405-468: SHRINK_CLAUSE_IN_PROOF (proof.c 354-372) adds the clause without the removed literal and without
    false literals and deletes the old one. *)
Definition forward_strengthen (remove : lit) (r : nat) (c : clause) (non_false : nat) (d : dense) : outcome (checked * dense) :=
  let rest := filter (fun k => negb (k =? remove) && negb (dfalse d k)) (c_lits c) in
  let d := set_d_sol (del_step (c_lits c) (add_step rest (d_sol d))) d in
  do _ <- oassert (forallb (fun k => negb (dtrue d k)) rest) ;
  if 3 <? non_false then
    do _ <- oassert (length rest =? non_false - 1) ;
    Ret (mk_checked true [], set_d_sol (set_clause r (Some (mk_clause rest (c_redundant c) (c_garbage c) 2)) (d_sol d)) d)
  else
    do _ <- oassert (non_false =? 3) ;
    let d := set_d_sol (set_clause r (Some (mk_clause (c_lits c) (c_redundant c) true (c_searched c))) (d_sol d)) d in
    match rest with
    | [first; second] => Ret (mk_checked false [first; second], push_occ second (DBinary first) (push_occ first (DBinary second) d))
    | _ => Undef
    end.
(** forward.c 330-473: [unit] of the code is the exclusive or of the non-false literals. *)
Definition forward_clause (o : forward_options) (r : nat) (d : dense) : outcome (checked * dense) :=
  do c <- get_clause d r ;
  do _ <- oassert (negb (c_garbage c)) ;
  let lits := c_lits c in
  if existsb (dtrue d) lits then
    do d <- eliminate_clause r d ; Ret (nothing, set_marks false lits d)
  else
    let rest := filter (fun k => negb (dfalse d k)) lits in
    match rest with
    | [] => do d <- dense_inconsistent (set_marks false lits d) ; Ret (nothing, d)
    | [unit] => do d <- forward_unit unit r (set_marks false lits d) ; Ret (nothing, d)
    | _ =>
        do (sub, remove, d) <- forward_marked o lits None (set_marks true rest d) ;
        let d := set_marks false lits d in
        if (sub : bool) then do d <- eliminate_clause r d ; Ret (nothing, d)
        else
          match remove with
          | None => Ret (nothing, d)
          | Some remove =>
              if length rest =? 2 then
                do d <- forward_unit (Nat.lxor (fold_left Nat.lxor rest 0) remove) r d ; Ret (nothing, d)
              else forward_strengthen remove r c (length rest) d
          end
    end.

(** ** Connecting a clause *)
(** forward.c 475-509: a literal with the least number of occurrences, the last one if there are several. *)
Definition connect_subsuming (o : forward_options) (sub : nat -> bool) (r : nat) (d : dense) : outcome dense :=
  do c <- get_clause d r ;
  do _ <- oassert (negb (c_garbage c)) ;
  let act := filter (fun l => is_active (idx l) d) (c_lits c) in
  if negb (forallb (fun l => sub (idx l)) act) then Ret d
  else
    match act with
    | [] => Ret d
    | l :: act =>
        let m := fold_left (fun m l => if length (d_occs d m) <? length (d_occs d l) then m else l) act l in
        if w_occlim o <? length (d_occs d m) then Ret d else Ret (push_occ m (DLarge r) d)
    end.

(** forward.c 543-567: [budget] is the number of clauses which are checked before the limit on steps or termination
    stops the loop.  The result has the candidates which are left, the clauses shrunken, and the new binary clauses. *)
Fixpoint forward_loop (o : forward_options) (sub : nat -> bool) (budget : nat) (cs shrunk : list nat) (news : list lit) (d : dense)
  : outcome (list nat * list nat * list lit * dense) :=
  match cs, budget with
  | [], _ => Ret ([], shrunk, news, d)
  | cs, O => Ret (cs, shrunk, news, d)
  | r :: cs, S budget =>
      do (k, d) <- forward_clause o r d ;
      let shrunk := if k_shrunk k then r :: shrunk else shrunk in
      let news := k_binary k ++ news in
      if inconsistent (d_sol d) then Ret (cs, shrunk, news, d)
      else
        do c <- get_clause d r ;
        do d <- (if c_garbage c then Ret d else connect_subsuming o sub r d) ;
        forward_loop o sub budget cs shrunk news d
  end.

(** forward.c 589-645: the literals of clauses which have to be considered next time. *)
Definition reactivated (todo shrunk : list nat) (cs : list nat) (news : list lit) (d : dense) : list lit :=
  flat_map (fun r => match arena (d_sol d) r with
                     | Some c => if negb (c_garbage c) && existsb (Nat.eqb r) (todo ++ shrunk) then c_lits c else []
                     | None => []
                     end) cs ++ news.
(** forward.c 511-676: the result has the new flags [subsume], and whether all clauses were considered. *)
Definition forward_all (o : forward_options) (budget : nat) (sub : nat -> bool) (d : dense) : outcome (bool * (nat -> bool) * dense) :=
  do (cs, d) <- find_candidates o sub (seq 0 (next_ref (d_sol d))) d ;
  do cs <- sort_candidates cs d ;
  do (todo, shrunk, news, d) <- forward_loop o sub budget cs [] [] d ;
  let again := reactivated todo shrunk cs news d in
  Ret (inconsistent (d_sol d) || match again with [] => true | _ => false end, fun i => existsb (fun l => idx l =? i) again, d).

(** forward.c 678-691 *)
Definition kissat_forward_subsume (o : forward_options) (budget : nat) (sub : nat -> bool) (d : dense) : outcome (bool * (nat -> bool) * dense) :=
  do d <- remove_all_duplicated sub d ;
  if inconsistent (d_sol d) then Ret (true, sub, d) else forward_all o budget sub d.
