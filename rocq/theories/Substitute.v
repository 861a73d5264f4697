(** Substitution of equivalent literals: substitute.c. *)
From Coq Require Import ZArith List Bool Lia Arith.
From Verif Require Import Base SpecSat Lit Solver Search Api Extend Eliminate.
Import ListNotations.
Open Scope nat_scope.
Open Scope outcome_scope.

(** The state is the record [dense] of Eliminate.v, of which the occurrence lists are not used: substitution runs in the
    watching mode at the root level, with the watches of the search state. *)

(** The macro [ACTIVE]: the flag "active" of the code is cleared when a variable is fixed or eliminated. *)
Definition is_active (s : solver) (i : nat) : bool := active s i && is_unassigned s (2 * i).

(** ** Units *)
(** proprobe.c 35-59, proplit.h 189-204: no clause is ignored here, so that propagation is that of the search
    (both include proplit.h); the trail is only flushed on request. *)
Definition probing_propagate (o : options) (flush : bool) (s : solver) : outcome (solver * option conflict) :=
  do (s1, confl) <- propagate_loop (S (vars s)) o s ;
  match confl with
  | Some _ => Ret (if level s1 =? 0 then add_step [] (set_inconsistent true s1) else s1, confl)
  | None => Ret (if flush && (level s1 =? 0) && (0 <? unflushed s1) then flush_trail s1 else s1, confl)
  end.

(** substitute.c 14-36: [units] is a stack, its top first. *)
Fixpoint assign_and_propagate_units (o : options) (units : list lit) (s : solver) : outcome solver :=
  match units with
  | [] => Ret s
  | unit :: units =>
      if inconsistent s then Ret s
      else
        match values s unit with
        | Some true => assign_and_propagate_units o units s
        | Some false => assign_and_propagate_units o units (set_inconsistent true (add_step [] s))
        | None =>
            do s <- learned_unit unit s ;
            do _ <- oassert (level s =? 0) ;
            do (s, _) <- probing_propagate o false s ;
            assign_and_propagate_units o units s
        end
  end.

(** ** Representatives *)
(** The entries of the stack [work]: a literal to be entered, or a literal with INVALID_LIT on top of it (two entries of the
    code), which is left when it gets to the top again. *)
Inductive item := Enter (l : lit) | Leave (l : lit).

(** The local variables of [determine_representatives] (substitute.c 39-56, 68): [t_mark] is zero for literals not seen, [None]
    stands for UINT_MAX in [reach] and for INVALID_LIT in [repr].  All stacks have their top first. *)
Record tarjan := mk_tarjan {
  t_mark : lit -> nat;
  t_reach : lit -> option nat;
  t_repr : lit -> option lit;
  t_reached : nat;
  t_scc : list lit;
  t_work : list item;
  t_units : list lit;
  t_failed : bool;
  t_clash : bool }.
Definition set_t_mark (x : lit -> nat) (t : tarjan) : tarjan := mk_tarjan x (t_reach t) (t_repr t) (t_reached t) (t_scc t) (t_work t) (t_units t) (t_failed t) (t_clash t).
Definition set_t_reach (x : lit -> option nat) (t : tarjan) : tarjan := mk_tarjan (t_mark t) x (t_repr t) (t_reached t) (t_scc t) (t_work t) (t_units t) (t_failed t) (t_clash t).
Definition set_t_repr (x : lit -> option lit) (t : tarjan) : tarjan := mk_tarjan (t_mark t) (t_reach t) x (t_reached t) (t_scc t) (t_work t) (t_units t) (t_failed t) (t_clash t).
Definition set_t_reached (x : nat) (t : tarjan) : tarjan := mk_tarjan (t_mark t) (t_reach t) (t_repr t) x (t_scc t) (t_work t) (t_units t) (t_failed t) (t_clash t).
Definition set_t_scc (x : list lit) (t : tarjan) : tarjan := mk_tarjan (t_mark t) (t_reach t) (t_repr t) (t_reached t) x (t_work t) (t_units t) (t_failed t) (t_clash t).
Definition set_t_work (x : list item) (t : tarjan) : tarjan := mk_tarjan (t_mark t) (t_reach t) (t_repr t) (t_reached t) (t_scc t) x (t_units t) (t_failed t) (t_clash t).
Definition set_t_units (x : list lit) (t : tarjan) : tarjan := mk_tarjan (t_mark t) (t_reach t) (t_repr t) (t_reached t) (t_scc t) (t_work t) x (t_failed t) (t_clash t).
Definition set_t_failed (x : bool) (t : tarjan) : tarjan := mk_tarjan (t_mark t) (t_reach t) (t_repr t) (t_reached t) (t_scc t) (t_work t) (t_units t) x (t_clash t).
Definition set_t_clash (x : bool) (t : tarjan) : tarjan := mk_tarjan (t_mark t) (t_reach t) (t_repr t) (t_reached t) (t_scc t) (t_work t) (t_units t) (t_failed t) x.

(** substitute.c 79-89 and 165-177: the literals implied by [l] through a binary clause. *)
Definition successors (s : solver) (l : lit) : list lit :=
  flat_map (fun w => match w with WBinary other => if is_active s (idx other) then [other] else [] | WLarge _ _ => [] end)
    (watches s (neg l)).

(** substitute.c 83-94: the smallest mark reached; UINT_MAX is not smaller than any. *)
Fixpoint lowest (mark : lit -> nat) (reach : lit -> option nat) (others : list lit) (low : nat) : outcome nat :=
  match others with
  | [] => Ret low
  | other :: others =>
      do _ <- oassert (negb (mark other =? 0)) ;
      lowest mark reach others (match reach other with Some r => if r <? low then r else low | None => low end)
  end.

(** substitute.c 100-105: the literals of the component from [l] to the top of the stack, and what is below. *)
Fixpoint pop_component (l : lit) (scc component : list lit) : outcome (list lit * list lit) :=
  match scc with
  | [] => Undef
  | x :: scc => if x =? l then Ret (x :: component, scc) else pop_component l scc (x :: component)
  end.

(** substitute.c 106-125 *)
Definition min_literal (l : lit) (component : list lit) : lit :=
  fold_left (fun m other => if other <? m then other else m) component l.

(** substitute.c 126-157 *)
Fixpoint set_representatives (root : lit) (mark_root : nat) (min : lit) (component : list lit) (t : tarjan) : outcome tarjan :=
  match component with
  | [] => Ret t
  | other :: component =>
      let t := set_t_reach (upd (t_reach t) other None) (set_t_repr (upd (t_repr t) other (Some min)) t) in
      match t_repr t (neg other) with
      | None => set_representatives root mark_root min component t
      | Some r =>
          if min =? r then Ret (set_t_clash true (set_t_units (min :: t_units t) t))
          else
            do _ <- oassert (neg min =? r) ;
            if t_failed t then set_representatives root mark_root min component t
            else
              do _ <- oassert (t_mark t root =? mark_root) ;
              if t_mark t (neg other) <? mark_root then set_representatives root mark_root min component t
              else
                set_representatives root mark_root min component
                  (set_t_failed true (set_t_units (neg root :: t_units t) t))
      end
  end.

(** substitute.c 72-159: all literals reachable from [l] have been entered. *)
Definition leave (s : solver) (root : lit) (mark_root : nat) (l : lit) (t : tarjan) : outcome tarjan :=
  do _ <- oassert (match t_reach t l with Some r => r =? t_mark t l | None => false end) ;
  do _ <- oassert (match t_repr t l with None => true | Some _ => false end) ;
  do low <- lowest (t_mark t) (t_reach t) (successors s l) (t_mark t l) ;
  if negb (low =? t_mark t l) then Ret (set_t_reach (upd (t_reach t) l (Some low)) t)
  else
    do (component, scc) <- pop_component l (t_scc t) [] ;
    set_representatives root mark_root (min_literal l component) component (set_t_scc scc t).

(** substitute.c 160-178 *)
Definition enter (s : solver) (l : lit) (work : list item) (t : tarjan) : tarjan :=
  let m := S (t_reached t) in
  let mark := upd (t_mark t) l m in
  let others := filter (fun other => mark other =? 0) (successors s l) in
  set_t_work (map Enter (rev others) ++ Leave l :: work)
    (set_t_reach (upd (t_reach t) l (Some m)) (set_t_mark mark (set_t_reached m (set_t_scc (l :: t_scc t) t)))).

(** substitute.c 67-181: [fuel] bounds the number of iterations. *)
Fixpoint walk_implications (fuel : nat) (s : solver) (root : lit) (mark_root : nat) (t : tarjan) : outcome tarjan :=
  if t_clash t then Ret t
  else
    match t_work t with
    | [] => Ret t
    | entry :: work =>
        match fuel with
        | O => Fuel
        | S fuel =>
            match entry with
            | Leave l =>
                do t <- leave s root mark_root l (set_t_work work t) ;
                walk_implications fuel s root mark_root t
            | Enter l =>
                walk_implications fuel s root mark_root
                  (if t_mark t l =? 0 then enter s l work t else set_t_work work t)
            end
        end
    end.
(** A bound for [fuel], which TarjanFacts.v shows to be enough. *)
Definition walk_fuel (s : solver) : nat :=
  S (list_sum (map (fun l => 2 + length (successors s l)) (seq 0 (2 * vars s)))).

(** substitute.c 57-182 *)
Fixpoint all_components (s : solver) (roots : list lit) (t : tarjan) : outcome tarjan :=
  match roots with
  | [] => Ret t
  | root :: roots =>
      if t_clash t then Ret t
      else if negb (t_mark t root =? 0) then all_components s roots t
      else if negb (is_active s (idx root)) then all_components s roots t
      else
        do _ <- oassert (match t_scc t, t_work t with [], [] => true | _, _ => false end) ;
        do t <- walk_implications (S (walk_fuel s)) s root (S (t_reached t)) (set_t_failed false (set_t_work [Enter root] t)) ;
        all_components s roots t
  end.
(** substitute.c 40-55: nothing is marked; see also 549 for [repr]. *)
Definition no_components : tarjan := mk_tarjan (fun _ => 0) (fun _ => None) (fun _ => None) 0 [] [] [] false false.

(** substitute.c 38-203: the units found are assigned, and literals without representative represent themselves. *)
Definition determine_representatives (o : options) (s : solver) : outcome ((lit -> lit) * solver) :=
  do t <- all_components s (seq 0 (2 * vars s)) no_components ;
  do s1 <- assign_and_propagate_units o (t_units t) s ;
  do _ <- oassert (negb (t_clash t) || inconsistent s1) ;
  Ret (fun l => match t_repr t l with Some r => r | None => l end, s1).

(** ** Substituting *)
(** substitute.c 205-231: the list of variables to be eliminated, in order. *)
Fixpoint add_equivalences (repr : lit -> lit) (is : list nat) (s : solver) : outcome (list nat * solver) :=
  match is with
  | [] => Ret ([], s)
  | i :: is =>
      if negb (is_active s i) then add_equivalences repr is s
      else
        let l := 2 * i in
        let other := repr l in
        if l =? other then add_equivalences repr is s
        else
          do _ <- oassert (other <? l) ;
          let s := add_step [l; neg other] (add_step [neg l; other] s) in
          do (es, s) <- add_equivalences repr is s ;
          Ret (i :: es, s)
  end.
(** substitute.c 205-212 *)
Definition add_representative_equivalences (repr : lit -> lit) (s : solver) : outcome (list nat * solver) :=
  if inconsistent s then Ret ([], s) else add_equivalences repr (seq 0 (vars s)) s.

(** The local variables of [substitute_binaries] (substitute.c 286-293): the stack of units (top first), the binary
    clauses whose deletion is delayed, and those replaced. *)
Record binaries_state := mk_binaries_state {
  b_sol : solver; b_units : list lit; b_deleted : list (lit * lit); b_removed : list (lit * lit) }.
Definition set_b_sol (x : solver) (b : binaries_state) : binaries_state := mk_binaries_state x (b_units b) (b_deleted b) (b_removed b).

(** substitute.c 301-355: the watches of [l].  Watches of large clauses are dropped.  [kept] and [delayed] are the watches
    of [l] and of its representative; a binary clause is seen twice and counted for its smaller literal. *)
Fixpoint substitute_watches (repr : lit -> lit) (l : lit) (ws kept delayed : list watch) (b : binaries_state)
  : list watch * list watch * binaries_state :=
  match ws with
  | [] => (kept, delayed, b)
  | WLarge _ _ :: ws => substitute_watches repr l ws kept delayed b
  | WBinary other :: ws =>
      let repr_other := repr other in
      if repr_other =? neg (repr l) then
        substitute_watches repr l ws kept delayed
          (if l <? other then mk_binaries_state (b_sol b) (b_units b) (b_deleted b ++ [(l, other)]) (b_removed b) else b)
      else if repr_other =? repr l then
        substitute_watches repr l ws kept delayed
          (if l <? other then mk_binaries_state (b_sol b) (repr l :: b_units b) (b_deleted b ++ [(l, other)]) (b_removed b)
           else b)
      else if (l =? repr l) && (other =? repr_other) then
        substitute_watches repr l ws (kept ++ [WBinary repr_other]) delayed b
      else
        let b' :=
          if l <? other then
            mk_binaries_state (add_step [repr l; repr_other] (b_sol b)) (b_units b) (b_deleted b) (b_removed b ++ [(l, other)])
          else b in
        if l =? repr l then substitute_watches repr l ws (kept ++ [WBinary repr_other]) delayed b'
        else substitute_watches repr l ws kept (delayed ++ [WBinary repr_other]) b'
  end.

(** substitute.c 294-363: all literals. *)
Fixpoint substitute_all_watches (repr : lit -> lit) (ls : list lit) (b : binaries_state) : binaries_state :=
  match ls with
  | [] => b
  | l :: ls =>
      let '(kept, delayed, b) := substitute_watches repr l (watches (b_sol b) l) [] [] b in
      let W := upd (watches (b_sol b)) l kept in
      let W := if l =? repr l then W else upd W (repr l) (W (repr l) ++ delayed) in
      substitute_all_watches repr ls (set_b_sol (set_watches W (b_sol b)) b)
  end.

(** clause.c 179-187, and the lines of the proof in substitute.c 366-382. *)
Definition delete_pairs (pairs : list (lit * lit)) (s : solver) : solver :=
  fold_left (fun s p => del_step [fst p; snd p] s) pairs s.

(** substitute.c 276-385 *)
Definition substitute_binaries (o : options) (repr : lit -> lit) (s : solver) : outcome solver :=
  if inconsistent s then Ret s
  else
    let b := substitute_all_watches repr (seq 0 (2 * vars s)) (mk_binaries_state s [] [] []) in
    do s <- assign_and_propagate_units o (b_units b) (b_sol b) ;
    Ret (delete_pairs (b_removed b) (delete_pairs (b_deleted b) s)).

(** substitute.c 405-457: the loop over the literals of a clause. *)
Record literals_state := mk_literals_state {
  l_shrink : bool; l_satisfied : bool; l_substitute : bool; l_tautological : bool; l_clause : list lit }.
(** The marks of literals are the literals in [clause]: they are set and cleared together (substitute.c 455-456, 529-531). *)
Fixpoint substitute_literals (s : solver) (repr : lit -> lit) (ls : list lit) (k : literals_state) : literals_state :=
  match ls with
  | [] => k
  | l :: ls =>
      match values s l with
      | Some false => substitute_literals s repr ls (mk_literals_state true (l_satisfied k) (l_substitute k) (l_tautological k) (l_clause k))
      | Some true => mk_literals_state (l_shrink k) true (l_substitute k) (l_tautological k) (l_clause k)
      | None =>
          let r := repr l in
          match values s r with
          | Some false => substitute_literals s repr ls (mk_literals_state true (l_satisfied k) (l_substitute k) (l_tautological k) (l_clause k))
          | Some true => mk_literals_state (l_shrink k) true (l_substitute k) (l_tautological k) (l_clause k)
          | None =>
              let sub := l_substitute k || negb (l =? r) in
              if existsb (Nat.eqb r) (l_clause k) then
                substitute_literals s repr ls (mk_literals_state true (l_satisfied k) sub (l_tautological k) (l_clause k))
              else if existsb (Nat.eqb (neg r)) (l_clause k) then
                mk_literals_state (l_shrink k) (l_satisfied k) sub true (l_clause k)
              else
                substitute_literals s repr ls (mk_literals_state (l_shrink k) (l_satisfied k) sub (l_tautological k) (l_clause k ++ [r]))
          end
      end
  end.

(** substitute.c 400-532: one clause.  [units] and [garbage] are the stacks of units (top first) and of clauses to
    be marked as garbage later. *)
Definition substitute_clause (repr : lit -> lit) (ref : nat) (x : solver * list lit * list nat)
  : outcome (solver * list lit * list nat) :=
  let '(s, units, garbage) := x in
  match arena s ref with
  | None => Ret x
  | Some c =>
      if c_garbage c then Ret x
      else
        let k := substitute_literals s repr (c_lits c) (mk_literals_state false false false false []) in
        if l_satisfied k || l_tautological k then
          do s <- mark_garbage ref s ; Ret (s, units, garbage)
        else if l_substitute k || l_shrink k then
          match l_clause k with
          | [] => Ret (set_inconsistent true (add_step [] s), units, garbage)
          | [unit] => do _ <- oassert (l_shrink k) ; Ret (s, unit :: units, garbage ++ [ref])
          | [first; second] =>
              do _ <- oassert (l_shrink k) ;
              do s <- mark_garbage ref (new_binary_clause false first second s) ;
              Ret (s, units, garbage)
          | lits =>
              do _ <- oassert (length lits <=? length (c_lits c)) ;
              do _ <- oassert (eqb (l_shrink k) (length lits <? length (c_lits c))) ;
              let searched := if length lits <? length (c_lits c) then 2 else c_searched c in
              let s := del_step (c_lits c) (add_step lits s) in
              Ret (set_clause ref (Some (mk_clause lits (c_redundant c) (c_garbage c) searched)) s, units, garbage)
          end
        else Ret x
  end.
(** substitute.c 400-532: all clauses, until the empty clause is derived (471-472). *)
Fixpoint substitute_all_clauses (repr : lit -> lit) (refs : list nat) (x : solver * list lit * list nat)
  : outcome (solver * list lit * list nat) :=
  match refs with
  | [] => Ret x
  | ref :: refs =>
      do x <- substitute_clause repr ref x ;
      if inconsistent (fst (fst x)) then Ret x else substitute_all_clauses repr refs x
  end.

(** substitute.c 387-542 *)
Definition substitute_clauses (o : options) (repr : lit -> lit) (s : solver) : outcome solver :=
  if inconsistent s then Ret s
  else
    do (s, units, garbage) <- substitute_all_clauses repr (seq 0 (next_ref s)) (s, [], []) ;
    do s <- assign_and_propagate_units o units s ;
    ofold mark_garbage garbage s.

(** substitute.c 233-274 *)
Definition remove_equivalence (incremental : bool) (repr : lit -> lit) (i : nat) (d : dense) : outcome dense :=
  do _ <- oassert (is_active (d_sol d) i) ;
  let l := 2 * i in
  let other := repr l in
  do _ <- oassert (other <? l) ;
  do _ <- oassert (neg other <? neg l) ;
  let d := set_d_sol (del_step [l; neg other] (del_step [neg l; other] (d_sol d))) d in
  do d <- mark_eliminated_variable i d ;
  let ext := dexport d in
  do st <-
    (match dval d other with
     | Some false => kissat_weaken_binary (dval d) ext (neg l) other (d_extend d)
     | Some true => kissat_weaken_binary (dval d) ext l (neg other) (d_extend d)
     | None =>
         do st <- kissat_weaken_binary (dval d) ext (neg l) other (d_extend d) ;
         if incremental then kissat_weaken_binary (dval d) ext l (neg other) st
         else kissat_weaken_unit (dval d) ext l st
     end) ;
  Ret (set_d_extend st d).
(** substitute.c 233-242 *)
Definition remove_representative_equivalences (incremental : bool) (repr : lit -> lit) (eliminate : list nat) (d : dense)
  : outcome dense :=
  if inconsistent (d_sol d) then Ret d else ofold (remove_equivalence incremental repr) eliminate d.

(** ** Rounds *)
(** The counter [active] of the solver (substitute.c 546, 557). *)
Definition count_active (s : solver) : nat := length (filter (is_active s) (seq 0 (vars s))).

(** substitute.c 544-566 *)
Definition substitute_round (o : options) (incremental : bool) (d : dense) : outcome (bool * dense) :=
  do _ <- oassert (negb (inconsistent (d_sol d))) ;
  let before := count_active (d_sol d) in
  do (repr, s) <- determine_representatives o (d_sol d) ;
  do (eliminate, s) <- add_representative_equivalences repr s ;
  do s <- substitute_binaries o repr s ;
  do s <- substitute_clauses o repr s ;
  do d <- remove_representative_equivalences incremental repr eliminate (set_d_sol s d) ;
  Ret (negb (inconsistent (d_sol d)) && negb (before - count_active (d_sol d) =? 0), d).

(** substitute.c 568-593: [limits] says for each round whether the limit on the effort is hit after it. *)
Fixpoint substitute_loop (o : options) (incremental : bool) (limits : list bool) (d : dense) : outcome dense :=
  match limits with
  | [] => Ret d
  | limit :: limits =>
      do (continue, d) <- substitute_round o incremental d ;
      if negb continue || limit then Ret d else substitute_loop o incremental limits d
  end.

(** watch.c 143-167 *)
Definition watch_large_clause (ref : nat) (s : solver) : outcome solver :=
  match arena s ref with
  | None => Ret s
  | Some c => if c_garbage c then Ret s else rewatch_clause ref s
  end.
Definition watch_large_clauses (s : solver) : outcome solver := ofold watch_large_clause (seq 0 (next_ref s)) s.

(** substitute.c 594-617: [limits] has the length of the option [substituterounds]; options and
    termination requests which skip substitution altogether are not modelled. *)
Definition kissat_substitute (o : options) (incremental : bool) (limits : list bool) (d : dense) : outcome dense :=
  if inconsistent (d_sol d) then Ret d
  else
    do _ <- oassert (level (d_sol d) =? 0) ;
    do d <- substitute_loop o incremental limits d ;
    if inconsistent (d_sol d) then Ret d
    else
      do s <- watch_large_clauses (d_sol d) ;
      do (s, _) <- probing_propagate o true (set_propagate 0 s) ;
      Ret (set_d_sol s d).
