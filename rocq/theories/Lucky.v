(** Lucky phases: simple assignments tried before the search (lucky.c). *)
From Coq Require Import ZArith List Bool Lia Arith.
From Verif Require Import Base SpecSat Lit Solver Analyze Search Api Substitute.
Import ListNotations.
Open Scope nat_scope.
Open Scope outcome_scope.

(** Only the internal literals of imported variables which are not eliminated are used, in the order of the external
    variables (lucky.c 87-92, 142-147, 199-205, 257-263). *)
Definition lucky_literals (is : list import) : list lit :=
  map i_lit (filter (fun i => i_imported i && negb (i_eliminated i)) is).

(** The number of tries does not matter for lucky phases; propagation is that of the search, because the first
    argument of [kissat_probing_propagate] is 0 (proprobe.c 35-59). *)
Definition lucky_propagate (o : options) (s : solver) : outcome (solver * option conflict) := probing_propagate o true s.

(** lucky.c 20-26 and 56-62: the clause has a literal of the given sign which is not false.  [sign] is [true] for
    positive literals. *)
Definition has_sign (sign : bool) (s : solver) (c : clause) : bool :=
  existsb (fun l => Bool.eqb (negated l) (negb sign) && negb (is_false s l)) (c_lits c).
(** lucky.c 13-26 and 49-62.  The loop over the arena stops after the last irredundant clause, which is the last one
    that is not skipped anyhow. *)
Definition large_lucky (sign : bool) (s : solver) : bool :=
  forallb (fun r => match arena s r with
                    | Some c => c_redundant c || c_garbage c || has_sign sign s c
                    | None => true
                    end) (seq 0 (next_ref s)).
(** lucky.c 27-42 and 63-77: no binary clause over two active variables has only literals of the other sign. *)
Definition binary_lucky (sign : bool) (s : solver) : bool :=
  forallb (fun i =>
    negb (is_active s i) ||
    forallb (fun w => match w with
                      | WBinary other => negb (Bool.eqb (negated other) sign && is_active s (idx other))
                      | WLarge _ _ => true
                      end) (watches s (if sign then 2 * i + 1 else 2 * i))) (seq 0 (vars s)).
(** lucky.c 11-45 ([sign = true]) and 47-80 ([sign = false]) *)
Definition no_clause_against (sign : bool) (s : solver) : bool := large_lucky sign s && binary_lucky sign s.

(** The macros [ACTIVE] and [VALUE] (lucky.c 94-97, 325-329 and so on): fixed variables are assigned. *)
Definition lucky_skips (s : solver) (l : lit) : bool := negb (active s (idx l) && is_unassigned s l).

(** lucky.c 324-336 and 344-357: all remaining variables are set to the same value.  A conflict is a failed
    assertion. *)
Fixpoint set_all (sign : bool) (o : options) (is : list nat) (s : solver) : outcome solver :=
  match is with
  | [] => Ret s
  | i :: is =>
      if lucky_skips s (2 * i) then set_all sign o is s
      else
        do s1 <- decide (if sign then 2 * i else 2 * i + 1) s ;
        do (s2, confl) <- lucky_propagate o s1 ;
        do _ <- oassert (match confl with None => true | Some _ => false end) ;
        set_all sign o is s2
  end.

(** lucky.c 82-135, 137-189, 191-247 and 249-305, which differ in the order of the literals and in the value tried
    first: [sign] is the value of the literal.  The result of [kissat_analyze] is ignored (lucky.c 120, 124). *)
Fixpoint lucky_pass (sign : bool) (o : options) (lits : list lit) (s : solver) : outcome (Z * solver) :=
  match lits with
  | [] => Ret (10%Z, s)
  | l :: lits =>
      if lucky_skips s l then lucky_pass sign o lits s
      else
        let first := if sign then l else neg l in
        do s1 <- decide first s ;
        do (s2, confl) <- lucky_propagate o s1 ;
        match confl with
        | None => lucky_pass sign o lits s2
        | Some c =>
            if 1 <? level s2 then
              do s3 <- backtrack (pred (level s2)) s2 ;
              do s4 <- decide (neg first) s3 ;
              do (s5, confl) <- lucky_propagate o s4 ;
              match confl with
              | None => lucky_pass sign o lits s5
              | Some _ => do s6 <- backtrack 0 s5 ; Ret (0%Z, s6)
              end
            else
              do (_, s3) <- analyze (analyze_fuel s2) o c s2 ;
              do _ <- oassert (level s3 =? 0) ;
              do (s4, confl) <- lucky_propagate o s3 ;
              match confl with
              | None => lucky_pass sign o lits s4
              | Some d =>
                  do (_, s5) <- analyze (analyze_fuel s4) o d s4 ;
                  do _ <- oassert (inconsistent s5) ;
                  Ret (20%Z, s5)
              end
        end
  end.

(** lucky.c 323-341 and 343-362 *)
Definition lucky_all (sign : bool) (o : options) (s : solver) : outcome (Z * solver) :=
  if no_clause_against sign s then
    do s1 <- set_all sign o (seq 0 (vars s)) s ;
    do _ <- oassert ((propagate s1 =? length (trail s1)) && (unassigned s1 =? 0)) ;
    Ret (10%Z, s1)
  else Ret (0%Z, s).

(** Further attempts are only made as long as there is no result. *)
Definition or_else (m : outcome (Z * solver)) (f : solver -> outcome (Z * solver)) : outcome (Z * solver) :=
  do (res, s) <- m ;
  if (res =? 0)%Z then f s else Ret (res, s).

(** lucky.c 307-393.  The option [lucky] is part of the arguments of [kissat_solve_lucky].  Messages and the flag
    [probing] are not modelled. *)
Definition kissat_lucky (o : options) (lits : list lit) (s : solver) : outcome (Z * solver) :=
  if inconsistent s then Ret (0%Z, s)
  else
    do _ <- oassert ((level s =? 0) && (propagate s =? length (trail s))) ;
    or_else (or_else (or_else (or_else (or_else
      (lucky_all true o s)
      (lucky_all false o))
      (lucky_pass false o lits))
      (lucky_pass true o lits))
      (lucky_pass false o (rev lits)))
      (lucky_pass true o (rev lits)).

(** internal.c 467-473 and search.c 179-229 with the option [preprocess] switched off: [early] and [late] tell
    whether lucky phases are enabled before and after preprocessing (the options [luckyearly] and [luckylate], both
    together with [lucky]).  The statistics counter [searches] is only increased by [start_search]
    (search.c 46-48). *)
Definition lucky_phases (early late : bool) (o : options) (a : api) : outcome (Z * solver) :=
  let lits := lucky_literals (imports a) in
  or_else (if early then kissat_lucky o lits (sol a) else Ret (0%Z, sol a))
    (fun s => if late then kissat_lucky o lits s else Ret (0%Z, s)).
Definition kissat_solve_lucky (early late : bool) (fuel : nat) (o : options) (go bb : bool) (choices : nat -> choice)
    (a : api) : outcome (Z * api) :=
  do _ <- require (match cls a with [] => true | _ => false end) ;
  do _ <- require (negb (searches a)) ;
  if inconsistent (sol a) then Ret (20%Z, a)
  else
    do (res, s) <- lucky_phases early late o a ;
    if negb (res =? 0)%Z then Ret (res, set_sol s a)
    else kissat_solve fuel o go bb choices (set_sol s a).
