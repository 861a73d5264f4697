(** Transitive reduction of the binary implication graph: transitive.c. *)
From Coq Require Import ZArith List Bool Lia Arith.
From Verif Require Import Base SpecSat Lit Solver.
Import ListNotations.
Open Scope nat_scope.
Open Scope outcome_scope.

(** ** Reachability over binary clauses *)
Definition assignment_values : Type := lit -> option bool.

(** transitive.c 17-26, without the push on the trail (see [scan_binaries]). *)
Definition transitive_assign (l : lit) (vals : assignment_values) : outcome assignment_values :=
  do _ <- oassert (match vals l, vals (neg l) with None, None => true | _, _ => false end) ;
  Ret (upd (upd vals l (Some true)) (neg l) (Some false)).

(** What is found from the source: the destination, or a literal and its negation. *)
Inductive reached := Destination | Clash.

(** transitive.c 125-147: the loop over the watches [ws] of a literal which is false.  The watch at [p] and the
    watches removed before (126-127, 131-132) are not in [ws].  [queue] are the literals on the trail which are
    not propagated yet. *)
Fixpoint scan_binaries (dst : lit) (ws : list watch) (vals : assignment_values) (queue : list lit)
  : outcome (option reached * assignment_values * list lit) :=
  match ws with
  | WBinary other :: rest =>
      if other =? dst then Ret (Some Destination, vals, queue)
      else
        match vals other with
        | Some false => Ret (Some Clash, vals, queue)
        | Some true => scan_binaries dst rest vals queue
        | None => do vals1 <- transitive_assign other vals ; scan_binaries dst rest vals1 (queue ++ [other])
        end
  | _ => Ret (None, vals, queue)
  end.

(** transitive.c 112-148.  The statistics are not modelled. *)
Fixpoint reach_loop (fuel : nat) (W : lit -> list watch) (dst : lit) (vals : assignment_values) (queue : list lit)
  : outcome (option reached) :=
  match queue with
  | [] => Ret None
  | l :: rest =>
      match fuel with
      | O => Fuel
      | S fuel =>
          do _ <- oassert (match vals l with Some true => true | _ => false end) ;
          do (r, vals1, queue1) <- scan_binaries dst (W (neg l)) vals rest ;
          match r with
          | Some x => Ret (Some x)
          | None => reach_loop fuel W dst vals1 queue1
          end
      end
  end.

(** ** Removing transitive binary clauses *)
(** vector.c kissat_remove_from_vector: the first binary watch of [b] is removed, which has to be there. *)
Fixpoint remove_binary_watch (b : lit) (ws : list watch) : outcome (list watch) :=
  match ws with
  | [] => Undef
  | WBinary o :: rest => if b =? o then Ret rest else do rest1 <- remove_binary_watch b rest ; Ret (WBinary o :: rest1)
  | w :: rest => do rest1 <- remove_binary_watch b rest ; Ret (w :: rest1)
  end.

(** transitive.c 165-177 and clause.c kissat_delete_binary.  The watch at [p] is between [kept] and [rest] in the
    watches of [src]. In the code it is marked with ILLEGAL_LIT, which is skipped (131-132), until the watches
    are flushed at the end (187-203); here it is removed at once. *)
Definition delete_transitive (src dst : lit) (kept rest : list watch) (s : solver) : outcome solver :=
  do ws <- remove_binary_watch src (watches s dst) ;
  Ret (del_step [src; dst] (set_watches (upd (upd (watches s) dst ws) src (kept ++ rest)) s)).

(** transitive.c 96-185, the loop over the watches [todo] of [src], those before are [kept].  It stops when the
    limit on ticks is hit or the solver is terminated (181-184), which is after [k] more candidates.  The
    flag tells whether [src] has to be true.  The values assigned are undone (28-46, 163), so that the state is
    only changed when a clause is removed. *)
Fixpoint reduce_candidates (src : lit) (k : nat) (kept todo : list watch) (s : solver) : outcome (bool * solver) :=
  match todo with
  | WBinary dst :: rest =>
      if (dst <? src) || negb (is_unassigned s dst) then reduce_candidates src k (kept ++ [WBinary dst]) rest s
      else
        do _ <- oassert ((propagate s =? length (trail s)) && (level s =? 0)) ;
        do vals <- transitive_assign (neg src) (values s) ;
        do r <- reach_loop (vars s) (upd (watches s) src (kept ++ rest)) dst vals [neg src] ;
        match r with
        | Some Clash => Ret (true, s)
        | Some Destination =>
            do s1 <- delete_transitive src dst kept rest s ;
            match k with O => Ret (false, s1) | S k => reduce_candidates src k kept rest s1 end
        | None => match k with O => Ret (false, s) | S k => reduce_candidates src k (kept ++ [WBinary dst]) rest s end
        end
  | _ => Ret (false, s)
  end.

(** transitive.c 77-218.  Propagation is probing propagation (proprobe.c 35-59 and proplit.h without the clause to
    ignore), which is the same as that of the search for what is modelled. *)
Definition transitive_reduce (o : options) (src : lit) (k : nat) (s : solver) : outcome solver :=
  do _ <- oassert (is_unassigned s src) ;
  do (failed, s1) <- reduce_candidates src k [] (watches s src) s ;
  if failed : bool then
    do s2 <- learned_unit src s1 ;
    do _ <- oassert (level s2 =? 0) ;
    do (s3, _) <- search_propagate o s2 ;
    Ret s3
  else Ret s1.

(** transitive.c 48-75 *)
Definition binary_first (ws : list watch) : list watch :=
  filter (fun w => match w with WBinary _ => true | WLarge _ _ => false end) ws ++
  filter (fun w => match w with WBinary _ => false | WLarge _ _ => true end) ws.
Definition prioritize_binaries (s : solver) : solver :=
  set_watches (fun l => if l <? 2 * vars s then binary_first (watches s l) else watches s l) s.

(** transitive.c 333-354.  [probes] are the literals probed and the number of candidates after which each
    probing stops: the order is a heuristic (220-297), and the list ends when the limit is hit or the solver is
    terminated (349-352). *)
Fixpoint reduce_probes (o : options) (probes : list (lit * nat)) (s : solver) : outcome solver :=
  match probes with
  | [] => Ret s
  | (l, k) :: rest =>
      do _ <- possible ((l <? 2 * vars s) && active s (idx l)) ;
      if negb (is_unassigned s l) then reduce_probes o rest s
      else
        do s1 <- transitive_reduce o l k s ;
        if inconsistent s1 then Ret s1 else reduce_probes o rest s1
  end.

(** transitive.c 299-389 *)
Definition transitive_reduction (o : options) (probes : list (lit * nat)) (s : solver) : outcome solver :=
  if inconsistent s then Ret s
  else
    do _ <- oassert (level s =? 0) ;
    reduce_probes o probes (prioritize_binaries s).
