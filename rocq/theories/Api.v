(** The application interface: importing literals, adding clauses, solving and reading values. *)
From Coq Require Import ZArith List Bool Lia Arith.
From Verif Require Import Base SpecSat SpecApi Lit Solver Analyze Search.
Import ListNotations.
Open Scope nat_scope.
Open Scope outcome_scope.

(** literal.h 6-11 *)
Definition EXTERNAL_MAX_VAR : Z := 1073741823.
Definition INTERNAL_MAX_VAR : Z := 1073741822.

(** internal.h 54-63 [struct import] *)
Record import := mk_import { i_lit : lit; i_extension : bool; i_imported : bool; i_eliminated : bool }.

(** The part of [struct kissat] (internal.h 76-242) used by the interface.  The proof is always written. *)
Record api := mk_api {
  sol : solver;
  imports : list import;         (* [import] *)
  exports : list Z;              (* [export] *)
  cls : list lit;                (* [clause] *)
  cmarks : lit -> Z;
  original : list Z;
  c_satisfied : bool; c_trivial : bool; c_shrink : bool;
  searches : bool }.             (* the statistics counter [searches] is not zero *)

Definition set_sol (x : solver) (a : api) : api := mk_api x (imports a) (exports a) (cls a) (cmarks a) (original a) (c_satisfied a) (c_trivial a) (c_shrink a) (searches a).
Definition set_imports (x : list import) (a : api) : api := mk_api (sol a) x (exports a) (cls a) (cmarks a) (original a) (c_satisfied a) (c_trivial a) (c_shrink a) (searches a).
Definition set_exports (x : list Z) (a : api) : api := mk_api (sol a) (imports a) x (cls a) (cmarks a) (original a) (c_satisfied a) (c_trivial a) (c_shrink a) (searches a).
Definition set_cls (x : list lit) (a : api) : api := mk_api (sol a) (imports a) (exports a) x (cmarks a) (original a) (c_satisfied a) (c_trivial a) (c_shrink a) (searches a).
Definition set_marks (x : lit -> Z) (a : api) : api := mk_api (sol a) (imports a) (exports a) (cls a) x (original a) (c_satisfied a) (c_trivial a) (c_shrink a) (searches a).
Definition set_original (x : list Z) (a : api) : api := mk_api (sol a) (imports a) (exports a) (cls a) (cmarks a) x (c_satisfied a) (c_trivial a) (c_shrink a) (searches a).
Definition set_c_satisfied (x : bool) (a : api) : api := mk_api (sol a) (imports a) (exports a) (cls a) (cmarks a) (original a) x (c_trivial a) (c_shrink a) (searches a).
Definition set_c_trivial (x : bool) (a : api) : api := mk_api (sol a) (imports a) (exports a) (cls a) (cmarks a) (original a) (c_satisfied a) x (c_shrink a) (searches a).
Definition set_c_shrink (x : bool) (a : api) : api := mk_api (sol a) (imports a) (exports a) (cls a) (cmarks a) (original a) (c_satisfied a) (c_trivial a) x (searches a).
Definition set_searches (x : bool) (a : api) : api := mk_api (sol a) (imports a) (exports a) (cls a) (cmarks a) (original a) (c_satisfied a) (c_trivial a) (c_shrink a) x.

(** require.h 4-15: a violated requirement prints a message and aborts. *)
Definition require (b : bool) : outcome unit := if b then Ret tt else Abort.

(** internal.c 24-48 [kissat_init]: calloc sets everything to zero; one frame is pushed for the root level. *)
Definition no_analysis : analysis :=
  mk_analysis (fun _ => false) [] (fun _ => false) [] (fun _ => false) [] (fun _ => false) [] [] [] (fun _ => 0) 0 0.
Definition no_asg : asg := mk_asg 0 0 RUnit.
Definition solver_init : solver :=
  mk_solver 0 (fun _ => false) (fun _ => None) (fun _ => no_asg) [] 0 0 0 0 [mk_frame 0 0] (fun _ => None) 0
    (fun _ => []) false false false [] [] no_analysis.
Definition kissat_init : api := mk_api solver_init [] [] [] (fun _ => 0%Z) [] false false false false.

(** ** Importing literals: import.c *)
(** resize.c 108-136 and 49-78 [kissat_enlarge_variables] for one more variable: the arrays are zero above the
    old number of variables, which is modelled by zeroing them here. *)
Definition enlarge_variables (a : api) : outcome api :=
  let s := sol a in
  let i := vars s in
  do _ <- oassert (Z.of_nat (S i) <=? INTERNAL_MAX_VAR + 1)%Z ;
  let s1 := set_vars (S i)
    (set_active (upd (active s) i false)
      (set_values (upd (upd (values s) (2 * i) None) (S (2 * i)) None)
        (set_assigned (upd (assigned s) i no_asg)
          (set_watches (upd (upd (watches s) (2 * i) []) (S (2 * i)) []) s)))) in
  Ret (set_marks (upd (upd (cmarks a) (2 * i) 0%Z) (S (2 * i)) 0%Z) (set_sol s1 a)).

Definition no_import : import := mk_import 0 false false false.
Definition external_index (e : Z) : nat := Z.to_nat (Z.abs e).

(** import.c 5-15 *)
Definition adjust_imports (eidx : nat) (a : api) : api :=
  set_imports (imports a ++ repeat no_import (S eidx - length (imports a))) a.

(** import.c 17-38 *)
Definition adjust_exports (eidx : nat) (extension : bool) (a : api) : outcome api :=
  let iidx := vars (sol a) in
  do a1 <- enlarge_variables a ;
  let a2 := set_imports (lset (imports a1) eidx (mk_import (2 * iidx) extension true false)) a1 in
  let ex := exports a2 ++ repeat 0%Z (S iidx - length (exports a2)) in
  Ret (set_exports (lset ex iidx (Z.of_nat eidx)) a2).

(** import.c 40-57.  INVALID_LIT, returned for eliminated variables, is not modelled. *)
Definition import_literal (elit : Z) (extension : bool) (a : api) : outcome (lit * api) :=
  let eidx := external_index elit in
  let a1 := adjust_imports eidx a in
  match nth_error (imports a1) eidx with
  | None => Undef
  | Some i =>
      if i_eliminated i then Undef
      else
        do a2 <- (if i_imported i then Ret a1 else adjust_exports eidx extension a1) ;
        match nth_error (imports a2) eidx with
        | None => Undef
        | Some i =>
            do _ <- oassert (i_imported i) ;
            Ret (if (elit <? 0)%Z then neg (i_lit i) else i_lit i, a2)
        end
  end.

(** import.c 59-81 *)
Definition kissat_import_literal (tumble : bool) (elit : Z) (a : api) : outcome (lit * api) :=
  let eidx := external_index elit in
  if tumble then import_literal elit false a
  else if eidx <? length (imports a) then import_literal elit false a
  else
    let a1 := if length (imports a) =? 0 then adjust_imports 0 a else a in
    let first := length (imports a1) in
    do (ilit, a2) <-
      ofold (fun other b => import_literal (Z.of_nat other) false (snd b)) (seq first (S eidx - first)) (0, a1) ;
    Ret (if (elit <? 0)%Z then neg ilit else ilit, a2).

(** flags.c 5-36: the scores, the queue and the "removed" and "added" marks are not modelled.  A fixed
    variable (in the model an active variable with a value) must not be activated. *)
Definition activate_literal (l : lit) (s : solver) : outcome solver :=
  do _ <- oassert (is_unassigned s l) ;
  if active s (idx l) then Ret s
  else Ret (set_unassigned (S (unassigned s)) (set_active (upd (active s) (idx l) true) s)).

(** ** Adding clauses: internal.c 258-465 *)
(** inline.h 29-37 *)
Definition fixed (s : solver) (l : lit) : option bool :=
  match values s l with None => None | Some v => if lev s l =? 0 then Some v else None end.

(** require.h 20-28 *)
Definition require_valid (elit : Z) : outcome unit :=
  do _ <- require (negb (elit =? INT_MIN)%Z) ;
  require (Z.abs elit <=? EXTERNAL_MAX_VAR)%Z.

(** internal.c 267-312: adding a literal. *)
Definition add_literal (tumble : bool) (elit : Z) (a : api) : outcome api :=
  do _ <- require_valid elit ;
  let a := set_original (original a ++ [elit]) a in
  do (ilit, a) <- kissat_import_literal tumble elit a ;
  let mark := cmarks a ilit in
  if (mark =? 0)%Z then
    match fixed (sol a) ilit with
    | Some true => Ret (set_c_satisfied true a)
    | Some false => Ret (set_c_shrink true a)
    | None =>
        Ret (set_cls (cls a ++ [ilit]) (set_marks (upd (upd (cmarks a) ilit 1%Z) (neg ilit) (-1)%Z) a))
    end
  else if (mark <? 0)%Z then Ret (set_c_trivial true a)
  else Ret (set_c_shrink true a).

(** The internal literal of an external literal. *)
Definition internal (a : api) (e : Z) : lit :=
  let i := i_lit (nth (external_index e) (imports a) no_import) in
  if (e <? 0)%Z then neg i else i.

(** internal.c 350-414, clause.c 109-137: a clause with at least two literals.  Clauses are only added at the
    root level, where both literals moved to the front are unassigned. *)
Definition add_original_clause (ilits : list lit) (s : solver) : outcome solver :=
  let lits := sort_literals s ilits in
  match lits with
  | [x; y] =>
      do _ <- oassert (is_unassigned s x && is_unassigned s y) ;
      Ret (new_binary_clause true x y s)
  | x :: y :: _ =>
      do (_, s1) <- new_large_clause true false lits s ;
      do _ <- oassert (is_unassigned s x && is_unassigned s y) ;
      Ret s1
  | _ => Undef
  end.

(** internal.c 316-414: the clause is complete. *)
Definition add_complete (o : options) (sat triv : bool) (ilits : list lit) (s : solver) : outcome solver :=
  if inconsistent s then Ret s
  else if sat then Ret s
  else if triv then Ret s
  else
    do s1 <- ofold activate_literal ilits s ;
    match ilits with
    | [] => Ret (add_step [] (set_inconsistent true s1))
    | [unit] =>
        do s2 <- assign_unit unit s1 ;
        do _ <- oassert (level s2 =? 0) ;
        do (s3, _) <- search_propagate o s2 ;
        Ret s3
    | _ => add_original_clause ilits s1
    end.

(** internal.c 416-442: the original clause is deleted from or replaced in the proof. *)
Definition add_proof (sat triv shrink : bool) (elits ilits : list lit) (s : solver) : solver :=
  if sat || triv then if length elits =? 1 then s else del_step elits s
  else if negb (inconsistent s) && shrink then del_step elits (add_step ilits s)
  else s.

Definition unmark (lits : list lit) (m : lit -> Z) : lit -> Z :=
  fold_left (fun m l => upd (upd m (neg l) 0%Z) l 0%Z) lits m.

(** internal.c 313-464: the terminating zero.  The deletion of the original clause writes the external literals,
    see [proof]. *)
Definition add_zero (o : options) (a : api) : outcome api :=
  let ilits := cls a in
  let elits := map (internal a) (original a) in
  do s1 <- add_complete o (c_satisfied a) (c_trivial a) ilits (sol a) ;
  let s2 := add_proof (c_satisfied a) (c_trivial a) (c_shrink a) elits ilits s1 in
  Ret (mk_api s2 (imports a) (exports a) [] (unmark ilits (cmarks a)) [] false false false (searches a)).

(** internal.c 258-465 *)
Definition kissat_add (tumble : bool) (o : options) (elit : Z) (a : api) : outcome api :=
  do _ <- require (negb (searches a)) ;
  if (elit =? 0)%Z then add_zero o a else add_literal tumble elit a.

(** internal.c 158-171.  Increasing the size of the arrays is not visible in the model.  Its assertion (resize.c
    50) fails if [max_var] is smaller than the number of variables, although the function would do nothing; the
    model does nothing. *)
Definition kissat_reserve (tumble : bool) (max_var : Z) (a : api) : outcome api :=
  do _ <- require (0 <=? max_var)%Z ;
  do _ <- require (max_var <=? EXTERNAL_MAX_VAR)%Z ;
  if tumble then Ret a
  else
    do a1 <- ofold (fun e b => do (_, b) <- kissat_import_literal tumble (Z.of_nat e) b ; Ret b)
               (seq 1 (Z.to_nat max_var)) a ;
    do s <- ofold (fun i s => activate_literal (2 * i) s) (seq 0 (Z.to_nat max_var)) (sol a1) ;
    Ret (set_sol s a1).

(** ** Solving: internal.c 467-473 and search.c 167-229 *)
(** [go] is the result of [searching] (search.c 167-177).  A conflict ignored by the search (see [RIgnored])
    is a failed assertion (backtrack.c 175). *)
Definition kissat_solve (fuel : nat) (o : options) (go bb : bool) (choices : nat -> choice) (a : api)
  : outcome (Z * api) :=
  do _ <- require (match cls a with [] => true | _ => false end) ;
  do _ <- require (negb (searches a)) ;
  if inconsistent (sol a) then Ret (20%Z, a)
  else if negb go then Ret (0%Z, set_sol (set_bigbig bb (sol a)) a)
  else
    do r <- search fuel o choices bb (sol a) ;
    match r with
    | RSat s => Ret (10%Z, set_searches true (set_sol s a))
    | RUnsat s => Ret (20%Z, set_searches true (set_sol s a))
    | RStopped s => Ret (0%Z, set_searches true (set_sol s a))
    | RIgnored _ => Undef
    end.

(** internal.c 488-512: [kissat_extend] and eliminated variables are not modelled here. *)
Definition kissat_value (a : api) (elit : Z) : outcome Z :=
  do _ <- require_valid elit ;
  match nth_error (imports a) (external_index elit) with
  | None => Ret 0%Z
  | Some i =>
      if negb (i_imported i) then Ret 0%Z
      else if i_eliminated i then Undef
      else
        match values (sol a) (i_lit i) with
        | None => Ret 0%Z
        | Some b =>
            let tmp := if (elit <? 0)%Z then negb b else b in
            Ret (if tmp then elit else - elit)%Z
        end
  end.

(** ** The proof written: inline.h 197-207 and proof.c 287-404 *)
(** The literals are translated when they are written.  The translation of a literal never changes, so that the
    model translates the internal literals of all lines afterwards. *)
Definition export_literal (a : api) (l : lit) : Z :=
  let e := nth (idx l) (exports a) 0%Z in
  if negated l then (- e)%Z else e.
Definition map_line {A B : Type} (f : A -> B) (l : line A) : line B :=
  match l with Added c => Added (map f c) | Deleted c => Deleted (map f c) end.
Definition proof (a : api) : list (line Z) := map (map_line (export_literal a)) (rev (steps (sol a))).

(** ** Sequences of calls *)
Definition run_call (tumble : bool) (o : options) (c : call) (a : api) : outcome api :=
  match c with
  | Add e => kissat_add tumble o e a
  | Reserve n => kissat_reserve tumble n a
  end.
Definition run_calls (tumble : bool) (o : options) (cs : list call) (a : api) : outcome api :=
  ofold (run_call tumble o) cs a.
