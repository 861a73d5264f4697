(** Bounded variable addition: factor.c, and entering dense mode: dense.c, watch.c. *)
From Coq Require Import ZArith List Bool Lia Arith.
From Verif Require Import Base SpecSat Lit Solver Api Extend Eliminate.
Import ListNotations.
Open Scope nat_scope.
Open Scope outcome_scope.

(** ** Entering dense mode *)
(** watch.c 110-141, the inner loop for one literal: watches of large clauses and repeated binary clauses are removed.
    [seen] are the marked literals.  Gives the watches kept and the binary clauses deleted. *)
Fixpoint flush_literal (l : lit) (ws : list watch) (seen : list lit) : list dwatch * list (list lit) :=
  match ws with
  | [] => ([], [])
  | WLarge _ _ :: ws => flush_literal l ws seen
  | WBinary other :: ws =>
      if existsb (Nat.eqb other) seen then
        let '(kept, gone) := flush_literal l ws seen in
        (kept, if l <? other then [l; other] :: gone else gone)
      else
        let '(kept, gone) := flush_literal l ws (other :: seen) in
        (DBinary other :: kept, gone)
  end.
(** watch.c 110-141 [kissat_flush_large_watches] and dense.c 93-104 without saving binary clauses.  The state has no
    marks, and the parts of [dense] which factoring does not use are empty. *)
Definition enter_dense_mode (s : solver) (a : api) : dense :=
  let lits := seq 0 (2 * vars s) in
  let s1 := fold_left (fun s c => del_step c s) (flat_map (fun l => snd (flush_literal l (watches s l) [])) lits) s in
  mk_dense s1 (fun l => if l <? 2 * vars s then fst (flush_literal l (watches s l) []) else []) (fun _ => false) false [] (imports a) (exports a) [] (fun _ => false).

(** factor.c 956-1065: which of the irredundant clauses are connected depends on their size and on the number of
    occurrences of their literals; here it is an argument. *)
Definition connect_clauses_to_factor (candidate : nat -> bool) (d : dense) : dense :=
  fold_left (fun d r => match arena (d_sol d) r with
    | Some c => if negb (c_garbage c) && negb (c_redundant c) && candidate r then connect_clause r (c_lits c) d else d
    | None => d end) (seq 0 (next_ref (d_sol d))) d.

(** ** Fresh variables *)
(** import.c 82-100.  [None] is the invalid literal. *)
Definition fresh_literal (d : dense) : outcome (option lit * dense) :=
  let imported := length (d_imports d) in
  do _ <- oassert (Z.of_nat imported <=? EXTERNAL_MAX_VAR)%Z ;
  if (Z.of_nat imported =? EXTERNAL_MAX_VAR)%Z then Ret (None, d)
  else
    do (l, a) <- import_literal (Z.of_nat imported) true
      (mk_api (d_sol d) (d_imports d) (d_exports d) [] (fun _ => 0%Z) [] false false false false) ;
    do _ <- oassert (match nth_error (imports a) imported with Some i => i_imported i && i_extension i | None => false end) ;
    do s <- activate_literal l (sol a) ;
    Ret (Some l, mk_dense s (upd (upd (d_occs d) l []) (neg l) []) (d_marks d) (d_resolve_gate d) (d_extend d) (imports a) (exports a) (d_eliminated d) (d_gone d)).

(** ** Quotients *)
(** factor.c 27-34.  A list of quotients has the last one first. *)
Record quotient := mk_quotient { q_factor : lit; q_clauses : list dwatch; q_matches : list nat }.
Definition is_factor (qs : list quotient) (l : lit) : bool := existsb (fun q => q_factor q =? l) qs.

(** factor.c 210-234 *)
Definition first_factor (l : lit) (d : dense) : list quotient := [mk_quotient l (d_occs d l) []].

(** factor.c 538-551: the literal of the clause which occurs least often, without factors. *)
Fixpoint least_occurring (occs : lit -> list dwatch) (lits : list lit) (best : option lit) : option lit :=
  match lits with
  | [] => best
  | l :: lits =>
      match best with
      | Some b => if length (occs b) <=? length (occs l) then least_occurring occs lits best else least_occurring occs lits (Some l)
      | None => least_occurring occs lits (Some l)
      end
  end.
(** factor.c 559-588: looks for a clause which has the literals [rest] and [next] and which is not taken yet. *)
Fixpoint find_match (d : dense) (ref size : nat) (rest : list lit) (next : lit) (taken : list nat) (ws : list dwatch) : outcome (option nat) :=
  match ws with
  | [] => Ret None
  | DBinary _ :: ws => find_match d ref size rest next taken ws
  | DLarge r :: ws =>
      if r =? ref then find_match d ref size rest next taken ws
      else
        do c <- get_clause d r ;
        if existsb (Nat.eqb r) taken then find_match d ref size rest next taken ws
        else if negb (length (c_lits c) =? size) then find_match d ref size rest next taken ws
        else if forallb (fun l => existsb (Nat.eqb l) rest || (l =? next)) (c_lits c) then Ret (Some r)
        else find_match d ref size rest next taken ws
  end.
(** factor.c 519-594, the loop over the clauses of the last quotient.  [i] is the position of the first one, [factors] are
    the marked literals, [taken] the clauses with flag [quotient].  Gives the clauses and the matches of the next quotient. *)
Fixpoint factorize_clauses (d : dense) (factors : list lit) (next : lit) (i : nat) (ws : list dwatch) (taken : list nat)
  : outcome (list dwatch * list nat) :=
  match ws with
  | [] => Ret ([], [])
  | DBinary q :: ws =>
      do (cs, ms) <- factorize_clauses d factors next (S i) ws taken ;
      if existsb (dwatch_eqb (DBinary next)) (d_occs d q) then Ret (DBinary q :: cs, i :: ms) else Ret (cs, ms)
  | DLarge ref :: ws =>
      do c <- get_clause d ref ;
      do _ <- oassert (negb (existsb (Nat.eqb ref) taken)) ;
      let marked := filter (fun l => existsb (Nat.eqb l) factors) (c_lits c) in
      let rest := filter (fun l => negb (existsb (Nat.eqb l) factors)) (c_lits c) in
      do _ <- oassert (negb (length marked =? 0)) ;
      if length marked =? 1 then
        match least_occurring (d_occs d) rest None with
        | None => Undef
        | Some m =>
            do r <- find_match d ref (length (c_lits c)) rest next taken (d_occs d m) ;
            match r with
            | Some r => do (cs, ms) <- factorize_clauses d factors next (S i) ws (r :: taken) ; Ret (DLarge r :: cs, i :: ms)
            | None => factorize_clauses d factors next (S i) ws taken
            end
        end
      else factorize_clauses d factors next (S i) ws taken
  end.
(** factor.c 499-604 and 186-208.  The check that not fewer clauses are found than have been counted is left out. *)
Definition factorize_next (next : lit) (qs : list quotient) (d : dense) : outcome (list quotient) :=
  match qs with
  | [] => Undef
  | last :: _ =>
      do _ <- oassert (negb (is_factor qs next)) ;
      do (cs, ms) <- factorize_clauses d (next :: map q_factor qs) next 0 (q_clauses last) [] ;
      Ret (mk_quotient next cs ms :: qs)
  end.
(** factor.c 926-935.  The next factors are chosen by [next_factor] (324-497), by counts and scores, and are an argument
    here; a factor is the literal of an active variable which is not a factor yet (350-357, 421-431). *)
Fixpoint factorize (nexts : list lit) (qs : list quotient) (d : dense) : outcome (list quotient) :=
  match nexts with
  | [] => Ret qs
  | next :: nexts =>
      do _ <- possible ((next <? 2 * vars (d_sol d)) && active (d_sol d) (idx next) && negb (is_factor qs next)) ;
      do qs <- factorize_next next qs d ;
      factorize nexts qs d
  end.

(** factor.c 606-642: the quotient for which the number of clauses drops most, with all its predecessors.  [qs] are the
    quotients not looked at yet, first one first, [prevs] their predecessors, last one first. *)
Fixpoint best_quotient (qs prevs : list quotient) (best : option (nat * list quotient)) : option (nat * list quotient) :=
  match qs with
  | [] => best
  | q :: qs =>
      let factors := S (length prevs) in
      let quotients := length (q_clauses q) in
      let before := quotients * factors in
      let after := quotients + factors in
      let best' :=
        if before <=? after then best
        else match best with
          | Some (r, _) => if r <? before - after then Some (before - after, q :: prevs) else best
          | None => Some (before - after, q :: prevs)
          end in
      best_quotient qs (q :: prevs) best'
  end.

(** ** Applying a factorization *)
(** factor.c 680-705.  The elements at the positions [ms] are moved to the front; as the positions are increasing, no element
    is overwritten before it is moved. *)
Fixpoint pick {A} (ms : list nat) (i : nat) (l : list A) : outcome (list A) :=
  match ms with
  | [] => Ret []
  | j :: ms =>
      do _ <- oassert (i <=? j) ;
      match nth_error l j with
      | None => Undef
      | Some x => do r <- pick ms (S i) l ; Ret (x :: r)
      end
  end.
(** The loop of factor.c 825-826: [ms] are the matches of the quotient before. *)
Fixpoint flush_unmatched (ms : list nat) (qs : list quotient) : outcome (list quotient) :=
  match qs with
  | [] => Ret []
  | p :: rest =>
      do cs <- pick ms 0 (q_clauses p) ;
      do ms' <- match rest with [] => Ret (q_matches p) | _ => pick ms 0 (q_matches p) end ;
      do rest' <- flush_unmatched ms' rest ;
      Ret (mk_quotient (q_factor p) cs ms' :: rest')
  end.

(** factor.c 707-715 *)
Fixpoint add_dividers (fresh : lit) (qs : list quotient) (d : dense) : outcome dense :=
  match qs with
  | [] => Ret d
  | p :: qs => do d1 <- dense_new_binary fresh (q_factor p) d ; add_dividers fresh qs d1
  end.
(** factor.c 717-753 *)
Fixpoint add_quotient (not_fresh factor : lit) (ws : list dwatch) (d : dense) : outcome dense :=
  match ws with
  | [] => Ret d
  | DBinary other :: ws => do d1 <- dense_new_binary not_fresh other d ; add_quotient not_fresh factor ws d1
  | DLarge ref :: ws =>
      do c <- get_clause d ref ;
      do _ <- oassert (existsb (Nat.eqb factor) (c_lits c)) ;
      do d1 <- dense_new_irredundant (not_fresh :: filter (fun l => negb (l =? factor)) (c_lits c)) d ;
      add_quotient not_fresh factor ws d1
  end.
(** factor.c 755-772 *)
Definition eagerly_remove (l : lit) (w : dwatch) (d : dense) : outcome dense :=
  do ws <- remove_watch w (d_occs d l) ;
  Ret (set_d_occs (upd (d_occs d) l ws) d).
Fixpoint remove_all (ref : nat) (lits : list lit) (d : dense) : outcome dense :=
  match lits with
  | [] => Ret d
  | l :: lits => do d1 <- eagerly_remove l (DLarge ref) d ; remove_all ref lits d1
  end.
(** factor.c 774-797, the loop over the clauses of a quotient *)
Fixpoint delete_clauses (factor : lit) (ws : list dwatch) (d : dense) : outcome dense :=
  match ws with
  | [] => Ret d
  | DBinary other :: ws =>
      do d1 <- eagerly_remove other (DBinary factor) d ;
      do d2 <- eagerly_remove factor (DBinary other) d1 ;
      delete_clauses factor ws (set_d_sol (del_step [factor; other] (d_sol d2)) d2)
  | DLarge ref :: ws =>
      do c <- get_clause d ref ;
      do d1 <- remove_all ref (c_lits c) d ;
      do s <- mark_garbage ref (d_sol d1) ;
      delete_clauses factor ws (set_d_sol s d1)
  end.
Fixpoint delete_unfactored (qs : list quotient) (d : dense) : outcome dense :=
  match qs with
  | [] => Ret d
  | p :: qs => do d1 <- delete_clauses (q_factor p) (q_clauses p) d ; delete_unfactored qs d1
  end.

(** factor.c 819-839, without the schedule.  False if there is no fresh variable. *)
Definition apply_factoring (qs : list quotient) (d : dense) : outcome (bool * dense) :=
  match qs with
  | [] => Undef
  | q :: prevs =>
      do (f, d1) <- fresh_literal d ;
      match f with
      | None => Ret (false, d1)
      | Some f =>
          do prevs <- flush_unmatched (q_matches q) prevs ;
          let qs := q :: prevs in
          do d2 <- add_dividers f qs d1 ;
          do d3 <- add_quotient (neg f) (q_factor q) (q_clauses q) d2 ;
          do d4 <- delete_unfactored qs d3 ;
          do _ <- oassert (f <? neg f) ;
          Ret (true, d4)
      end
  end.

(** factor.c 906-949, the loop over the schedule: the literals tried first and the next factors are an argument.  The loop
    ends when the schedule is empty, or on a limit, at the end of this list. *)
Fixpoint run_factorization (bound : nat) (schedule : list (lit * list lit)) (d : dense) : outcome dense :=
  match schedule with
  | [] => Ret d
  | (first, nexts) :: schedule =>
      do _ <- possible ((first <? 2 * vars (d_sol d)) && active (d_sol d) (idx first)) ;
      do qs <- factorize nexts (first_factor first d) d ;
      match best_quotient (rev qs) [] None with
      | Some (reduction, q) =>
          if bound <? reduction then
            do (applied, d1) <- apply_factoring q d ;
            if applied then run_factorization bound schedule d1 else Ret d1
          else run_factorization bound schedule d
      | None => run_factorization bound schedule d
      end
  end.

(** factor.c 1067-1136 up to the point where sparse mode is resumed (1112).  [s] is the search state, [a] has the tables of
    external variables. *)
Definition factor (bound : nat) (candidate : nat -> bool) (schedule : list (lit * list lit)) (s : solver) (a : api) : outcome dense :=
  do _ <- oassert (level s =? 0) ;
  run_factorization bound schedule (connect_clauses_to_factor candidate (enter_dense_mode s a)).
