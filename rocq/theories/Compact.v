(** Compacting the internal variables: compact.c and the compacting garbage collection of collect.c. *)
From Coq Require Import ZArith List Bool Lia Arith.
From Verif Require Import Base Lit Api Queue.
Import ListNotations.
Open Scope nat_scope.
Open Scope outcome_scope.

(** flags.h 8-30, restricted to the three flags which tell the status of a variable. *)
Record cflags := mk_cflags { f_active : bool; f_fixed : bool; f_eliminated : bool }.
Definition no_flags : cflags := mk_cflags false false false.

(** watch.h 17-60: a watch of a binary clause stores the other literal, that of a large clause its reference. *)
Inductive cwatch := KBin (other : lit) | KLarge (ref : nat).

(** clause.h 16-45, restricted to the garbage flag and the literals. *)
Record cclause := mk_cclause { kc_garbage : bool; kc_lits : list lit }.

(** The fields of the solver which are read and written (internal.h 100-250).  Arrays indexed by variables, literals and
    external variables are functions.  Simplifications: of the reason of an assigned variable only the binary ones are kept
    ([k_reason]), the arena is the list of its clauses, phases, scores and the schedule of sweep are left out. [k_gone] are the
    values of the eliminated variables after the extension of the solution. *)
Record cstate := mk_cstate {
  k_vars : nat;
  k_flags : nat -> cflags;
  k_values : lit -> option bool;
  k_level : nat -> nat;
  k_reason : nat -> option lit;
  k_imports : nat -> import;
  k_exports : nat -> Z;
  k_units : list Z;
  k_gone : nat -> option bool;
  k_watches : lit -> list cwatch;
  k_clauses : list cclause;
  k_trail : list lit;
  k_frames : list lit;
  k_queue : queue }.

(** A loop over a list of indices (or literals), which stops at a failed assertion. *)
Fixpoint ofold {A B} (f : A -> B -> outcome A) (l : list B) (a : A) : outcome A :=
  match l with
  | [] => Ret a
  | x :: l => do a <- f a x ; ofold f l a
  end.

Definition signed (e : Z) (l : lit) : lit := if (e <? 0)%Z then neg l else l.
Definition is_lit (o : option bool) (b : bool) : bool := match o with Some c => Bool.eqb b c | None => false end.

(** inline.h 197-207, kissat_export_literal *)
Definition export_literal (exports : nat -> Z) (ilit : lit) : Z :=
  let elit := exports (idx ilit) in if negated ilit then (- elit)%Z else elit.

(** inline.h 209-224, kissat_map_literal with [map] being true; [None] is INVALID_LIT. *)
Definition map_literal (imports : nat -> import) (exports : nat -> Z) (ilit : lit) : option lit :=
  let elit := export_literal exports ilit in
  if (elit =? 0)%Z then None
  else
    let i := imports (Z.abs_nat elit) in
    if i_eliminated i then None else Some (signed elit (i_lit i)).

(** compact.c 118-133, map_idx *)
Definition map_idx (imports : nat -> import) (exports : nat -> Z) (iidx : nat) : outcome (option nat) :=
  let elit := exports iidx in
  if (elit =? 0)%Z then Ret None
  else
    let i := imports (Z.abs_nat elit) in
    do _ <- oassert (i_imported i) ;
    if i_eliminated i then Ret None
    else
      do _ <- oassert (idx (i_lit i) <=? iidx) ;
      Ret (Some (idx (i_lit i))).

(** compact.c 9-17, reimport_literal *)
Definition reimport_literal (imports : nat -> import) (eidx : nat) (mlit : lit) : outcome (nat -> import) :=
  let i := imports eidx in
  do _ <- oassert (i_imported i) ;
  do _ <- oassert (negb (i_eliminated i)) ;
  Ret (upd imports eidx (mk_import mlit (i_extension i) (i_imported i) (i_eliminated i))).

(** kissat_fixed, inline.h 25-37: the value of a literal which is assigned on the root level *)
Definition root_value (st : cstate) (l : lit) : option bool :=
  match k_values st l with
  | Some b => if k_level st (idx l) =? 0 then Some b else None
  | None => None
  end.

(** The variables of the loop in kissat_compact_literals: the imported literals, the exported ones, [mfixed] and [vars]. *)
Record cloop := mk_cloop { cl_imports : nat -> import; cl_exports : nat -> Z; cl_mfixed : option lit; cl_vars : nat }.

(** compact.c 38-88, the body of the loop over all variables in kissat_compact_literals *)
Definition compact_variable (st : cstate) (c : cloop) (iidx : nat) : outcome cloop :=
  let flags := k_flags st iidx in
  let ilit := 2 * iidx in
  if f_eliminated flags then Ret c
  else
    let finish (c : cloop) (mlit : lit) : outcome cloop :=
      do _ <- oassert (mlit <=? ilit) ;
      do _ <- oassert (negb (mlit =? neg ilit)) ;
      if mlit =? ilit then Ret c
      else
        let elit := cl_exports c iidx in
        do imports <- reimport_literal (cl_imports c) (Z.abs_nat elit) (signed elit mlit) ;
        Ret (mk_cloop imports (cl_exports c) (cl_mfixed c) (cl_vars c)) in
    if f_fixed flags then
      match root_value st ilit with
      | None => Undef
      | Some value =>
          match cl_mfixed c with
          | None =>
              let mlit := 2 * cl_vars c in
              let mfixed := if value then mlit else neg mlit in
              finish (mk_cloop (cl_imports c) (cl_exports c) (Some mfixed) (S (cl_vars c))) mlit
          | Some mfixed => finish c (if value then mfixed else neg mfixed)
          end
      end
    else if f_active flags then
      finish (mk_cloop (cl_imports c) (cl_exports c) (cl_mfixed c) (S (cl_vars c))) (2 * cl_vars c)
    else
      let elit := cl_exports c iidx in
      if (elit =? 0)%Z then Ret c
      else
        let eidx := Z.abs_nat elit in
        let i := cl_imports c eidx in
        do _ <- oassert (i_imported i) ;
        do _ <- oassert (negb (i_eliminated i)) ;
        Ret (mk_cloop (upd (cl_imports c) eidx (mk_import (i_lit i) (i_extension i) false (i_eliminated i)))
               (upd (cl_exports c) iidx 0%Z) (cl_mfixed c) (cl_vars c)).

(** The number of active variables; [solver->active] is a counter in the code. *)
Definition count_active (st : cstate) : nat := length (filter (fun i => f_active (k_flags st i)) (seq 0 (k_vars st))).

(** compact.c 19-95, kissat_compact_literals *)
Definition compact_literals (st : cstate) : outcome cloop :=
  do c <- ofold (compact_variable st) (seq 0 (k_vars st)) (mk_cloop (k_imports st) (k_exports st) None 0) ;
  do _ <- oassert ((cl_vars c =? count_active st) || (cl_vars c =? S (count_active st))) ;
  Ret c.

Section Collect.
Variable st : cstate.
Variable map_lit : lit -> option lit.

(** collect.c 33-75: the watches which are kept.  All watches of large clauses are dropped, since the garbage collection starts
    at the first clause of the arena ([start] is zero) if it compacts (reduce.c 162, collect.c 645-655). *)
Fixpoint flush_watches (lit_fixed : option bool) (ws : list cwatch) : outcome (list cwatch) :=
  match ws with
  | [] => Ret []
  | KLarge _ :: ws => flush_watches lit_fixed ws
  | KBin other :: ws =>
      let other_fixed := root_value st other in
      match is_lit lit_fixed true || is_lit other_fixed true, map_lit other with
      | false, Some mother =>
          do _ <- oassert (match lit_fixed, other_fixed with None, None => true | _, _ => false end) ;
          do ws <- flush_watches lit_fixed ws ;
          Ret (KBin mother :: ws)
      | _, _ => flush_watches lit_fixed ws
      end
  end.

(** collect.c 16-101, flush_watched_clauses_by_literal with [compact] being true and [start] being zero *)
Definition flush_literal (watches : lit -> list cwatch) (l : lit) : outcome (lit -> list cwatch) :=
  let lit_fixed := root_value st l in
  do ws <- flush_watches lit_fixed (watches l) ;
  do _ <- oassert (match lit_fixed, ws with Some _, _ :: _ => false | _, _ => true end) ;
  let watches := upd watches l ws in
  match map_lit l with
  | None => Ret watches
  | Some mlit =>
      match lit_fixed with
      | Some _ =>
          do _ <- oassert (match watches mlit with [] => true | _ => false end) ;
          Ret watches
      | None =>
          if mlit <? l then Ret (upd (upd watches mlit ws) l [])
          else
            do _ <- oassert (mlit =? l) ;
            Ret watches
      end
  end.

(** collect.c 103-113, flush_all_watched_clauses *)
Definition flush_all_watched_clauses : outcome (lit -> list cwatch) :=
  ofold flush_literal (seq 0 (2 * k_vars st)) (k_watches st).

(** collect.c 351-397: the loop over the literals of a clause; [None] if the clause is satisfied *)
Fixpoint sweep_literals (lits : list lit) : outcome (option (list lit)) :=
  match lits with
  | [] => Ret (Some [])
  | l :: lits =>
      match root_value st l with
      | Some false => sweep_literals lits
      | Some true => Ret None
      | None =>
          match map_lit l with
          | None => Undef
          | Some mlit =>
              do r <- sweep_literals lits ;
              Ret (match r with Some lits => Some (mlit :: lits) | None => None end)
          end
      end
  end.

(** collect.c 318-500: the body of the loop of sparse_sweep_garbage_clauses.  Reasons are not updated here. *)
Definition sweep_clause (r : (lit -> list cwatch) * list cclause) (c : cclause) : outcome ((lit -> list cwatch) * list cclause) :=
  let (watches, dst) := r in
  if kc_garbage c then Ret r
  else
    do o <- sweep_literals (kc_lits c) ;
    match o with
    | None => Ret r
    | Some lits =>
        do _ <- oassert (1 <? length lits) ;
        match lits with
        | [mfirst; msecond] =>
            let watches := upd watches mfirst (watches mfirst ++ [KBin msecond]) in
            Ret (upd watches msecond (watches msecond ++ [KBin mfirst]), dst)
        | _ => Ret (watches, dst ++ [mk_cclause false lits])
        end
    end.

(** collect.c 277-576, sparse_sweep_garbage_clauses with [start] being zero *)
Definition sparse_sweep (watches : lit -> list cwatch) : outcome ((lit -> list cwatch) * list cclause) :=
  ofold sweep_clause (k_clauses st) (watches, []).
End Collect.

Section Finalize.
Variable imports : nat -> import.
Variable exports : nat -> Z.

(** compact.c 208-226, compact_trail *)
Definition compact_trail_literal (r : list lit * (nat -> option lit)) (ilit : lit) : outcome (list lit * (nat -> option lit)) :=
  let (trail, reason) := r in
  match map_literal imports exports ilit with
  | None => Undef
  | Some mlit =>
      match reason (idx ilit) with
      | None => Ret (trail ++ [mlit], reason)
      | Some other =>
          match map_literal imports exports other with
          | None => Undef
          | Some mother => Ret (trail ++ [mlit], upd reason (idx ilit) (Some mother))
          end
      end
  end.

(** compact.c 228-238, compact_frames; the decision of the root level is not in [k_frames]. *)
Definition compact_frame (r : list lit) (ilit : lit) : outcome (list lit) :=
  match map_literal imports exports ilit with
  | None => Undef
  | Some mlit => Ret (r ++ [mlit])
  end.

(** compact.c 97-116, compact_literal: the arrays are copied at the same time in the code. *)
Record carrays := mk_carrays {
  ca_level : nat -> nat; ca_reason : nat -> option lit; ca_flags : nat -> cflags; ca_values : lit -> option bool }.
Definition compact_literal (a : carrays) (dst_lit src_lit : lit) : outcome carrays :=
  do _ <- oassert (dst_lit <? src_lit) ;
  do _ <- oassert (negb (dst_lit =? neg src_lit)) ;
  let dst_idx := idx dst_lit in
  let src_idx := idx src_lit in
  let values := upd (ca_values a) dst_lit (ca_values a src_lit) in
  Ret (mk_carrays (upd (ca_level a) dst_idx (ca_level a src_idx))
         (upd (ca_reason a) dst_idx (ca_reason a src_idx))
         (upd (ca_flags a) dst_idx (ca_flags a src_idx))
         (upd values (neg dst_lit) (values (neg src_lit)))).

(** compact.c 353-358: the body of the loop which calls compact_literal *)
Definition compact_arrays (a : carrays) (iidx : nat) : outcome carrays :=
  let ilit := 2 * iidx in
  match map_literal imports exports ilit with
  | Some mlit => if negb (ilit =? mlit) then compact_literal a mlit ilit else Ret a
  | None => Ret a
  end.

(** compact.c 275-288, compact_units; the assertion about [mfixed] is checked by the caller below. *)
Definition compact_unit (mfixed : lit) (imports : nat -> import) (elit : Z) : outcome (nat -> import) :=
  let eidx := Z.abs_nat elit in
  let mlit := if (elit <? 0)%Z then neg mfixed else mfixed in
  let i := imports eidx in
  do _ <- oassert (i_imported i) ;
  do _ <- oassert (negb (i_eliminated i)) ;
  if negb (mlit =? i_lit i) then reimport_literal imports eidx mlit else Ret imports.

(** compact.c 140-151: the loop over the queue.  [p] is the variable whose [next] is written, [None] is [queue.first]. The fuel is
    the number of variables: every variable is visited at most once. *)
Fixpoint compact_links (fuel : nat) (p : option nat) (prev : option nat) (q : queue) : outcome queue :=
  let set_p (x : option nat) (q : queue) : queue :=
    match p with
    | None => mk_queue (qprev q) (qnext q) (qstamps q) x (qlast q) (qstamp q) (qsearch q) (qsearch_stamp q) (qvalue q) (qstable q)
    | Some j => mk_queue (qprev q) (upd (qnext q) j x) (qstamps q) (qfirst q) (qlast q) (qstamp q) (qsearch q) (qsearch_stamp q)
                  (qvalue q) (qstable q)
    end in
  match (match p with None => qfirst q | Some j => qnext q j end) with
  | None =>
      let q := set_p None q in
      Ret (mk_queue (qprev q) (qnext q) (qstamps q) (qfirst q) prev (qstamp q) (qsearch q) (qsearch_stamp q) (qvalue q) (qstable q))
  | Some i =>
      match fuel with
      | O => Fuel
      | S fuel =>
          do m <- map_idx imports exports i ;
          match m with
          | None => Undef
          | Some midx =>
              let stamp := (qstamp q + 1)%Z in
              let found := is_var (qsearch q) i in
              let q := mk_queue (upd (qprev q) i prev) (qnext q) (upd (qstamps q) i stamp) (qfirst q) (qlast q) stamp
                         (if found then Some midx else qsearch q) (if found then stamp else qsearch_stamp q)
                         (qvalue q) (qstable q) in
              compact_links fuel (Some i) (Some midx) (set_p (Some midx) q)
          end
      end
  end.

(** compact.c 152-159: links are moved; [qvalue] stands for the values, which are moved in the same way. *)
Definition move_links (q : queue) (i : nat) : outcome queue :=
  do m <- map_idx imports exports i ;
  match m with
  | None => Ret q
  | Some midx =>
      Ret (mk_queue (upd (qprev q) midx (qprev q i)) (upd (qnext q) midx (qnext q i)) (upd (qstamps q) midx (qstamps q i))
             (qfirst q) (qlast q) (qstamp q) (qsearch q) (qsearch_stamp q) (upd (qvalue q) midx (qvalue q i)) (qstable q))
  end.

(** compact.c 135-160, compact_queue *)
Definition compact_queue (vars : nat) (q : queue) : outcome queue :=
  let q := mk_queue (qprev q) (qnext q) (qstamps q) (qfirst q) (qlast q) 0 (qsearch q) (qsearch_stamp q) (qvalue q) (qstable q) in
  do q <- compact_links vars None None q ;
  ofold move_links (seq 0 vars) q.

(** compact.c 240-273, compact_export; the export stack is resized to [vars], thus the rest is not accessible. The debugging
    code at its end is left out. *)
Definition compact_export (ex : nat -> Z) (iidx : nat) : outcome (nat -> Z) :=
  let elit := ex iidx in
  if (elit =? 0)%Z then Ret ex
  else
    do m <- map_idx imports ex iidx ;
    match m with
    | None => Ret ex
    | Some midx => Ret (upd ex midx elit)
    end.
End Finalize.

(** compact.c 341-349: only active variables and the first fixed one are exported from now on. *)
Definition unexport (st : cstate) (r : (nat -> Z) * bool) (iidx : nat) : outcome ((nat -> Z) * bool) :=
  let (exports, first) := r in
  let flags := k_flags st iidx in
  if f_fixed flags && first then Ret (exports, false)
  else if negb (f_active flags) then Ret (upd exports iidx 0%Z, first)
  else Ret (exports, first).

Definition truncate {A} (n : nat) (d : A) (f : nat -> A) (i : nat) : A := if i <? n then f i else d.

(** compact.c 320-376, kissat_finalize_compacting.  The memory is cleared above the new number of variables (lines 363-366). *)
Definition finalize_compacting (st : cstate) (vars : nat) (mfixed : option lit) : outcome cstate :=
  do _ <- oassert (vars <=? k_vars st) ;
  if vars =? k_vars st then Ret st
  else
    do (exports, _) <- ofold (unexport st) (seq 0 (k_vars st)) (k_exports st, true) ;
    do (trail, reason) <- ofold (compact_trail_literal (k_imports st) exports) (k_trail st) ([], k_reason st) ;
    do a <- ofold (compact_arrays (k_imports st) exports) (seq 0 (k_vars st))
              (mk_carrays (k_level st) reason (k_flags st) (k_values st)) ;
    do imports <- match mfixed with
                  | None => Ret (k_imports st)
                  | Some mfixed =>
                      do _ <- oassert (is_lit (ca_values a mfixed) true && (ca_level a (idx mfixed) =? 0)) ;
                      ofold (compact_unit mfixed) (k_units st) (k_imports st)
                  end ;
    do q <- compact_queue imports exports (k_vars st) (k_queue st) ;
    do frames <- ofold (compact_frame imports exports) (k_frames st) [] ;
    do exports <- ofold (compact_export imports) (seq 0 (k_vars st)) exports ;
    Ret (mk_cstate vars
           (truncate vars no_flags (ca_flags a))
           (truncate (2 * vars) None (ca_values a))
           (truncate vars 0 (ca_level a))
           (truncate vars None (ca_reason a))
           imports exports (k_units st) (k_gone st)
           (truncate (2 * vars) [] (k_watches st))
           (k_clauses st) trail frames q).

(** collect.c 608-631, kissat_sparse_collect with [compact] being true.  The large clauses are watched again afterwards
    (rewatch_clauses, lines 578-606), which is part of the model in Search.v. *)
Definition compacting_collect (st : cstate) : outcome cstate :=
  do c <- compact_literals st ;
  let map_lit := map_literal (cl_imports c) (cl_exports c) in
  do watches <- flush_all_watched_clauses st map_lit ;
  do (watches, clauses) <- sparse_sweep st map_lit watches ;
  finalize_compacting
    (mk_cstate (k_vars st) (k_flags st) (k_values st) (k_level st) (k_reason st) (cl_imports c) (cl_exports c) (k_units st)
       (k_gone st) watches clauses (k_trail st) (k_frames st) (k_queue st))
    (cl_vars c) (cl_mfixed c).

(** internal.c 488-512, kissat_value after a possible extension of the solution *)
Definition external_value (st : cstate) (elit : Z) : option bool :=
  let i := k_imports st (Z.abs_nat elit) in
  if negb (i_imported i) then None
  else
    match (if i_eliminated i then k_gone st (i_lit i) else k_values st (i_lit i)) with
    | None => None
    | Some b => Some (if (elit <? 0)%Z then negb b else b)
    end.
