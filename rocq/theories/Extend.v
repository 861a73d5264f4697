(** Reconstruction of the values of eliminated variables. *)
From Coq Require Import ZArith List Bool Lia Arith.
From Verif Require Import Base SpecSat Lit Solver Api.
Import ListNotations.
Open Scope nat_scope.
Open Scope outcome_scope.

(** extend.h 9-14 *)
Record extension := mk_extension { x_blocking : bool; x_lit : Z }.

(** extend.h 20-26.  The bit field of 31 bits holds every literal that passes the assertion. *)
Definition kissat_extension (blocking : bool) (l : Z) : outcome extension :=
  do _ <- oassert (Z.abs l <? 1073741824)%Z ;
  Ret (mk_extension blocking l).

(** The part of [struct kissat] (internal.h 76-242) used for reporting values: the table [import], the values of
    internal literals, the values of the eliminated variables ([eliminated]), the trail [etrail] of positions
    assigned in it (top first), the stack [extend] (top first) and the flag [extended]. *)
Record model := mk_model {
  m_imports : list import;
  m_values : lit -> option bool;
  m_eliminated : list (option bool);
  m_etrail : list nat;
  m_extend : list extension;
  m_extended : bool }.
Definition set_m_eliminated (x : list (option bool)) (m : model) : model :=
  mk_model (m_imports m) (m_values m) x (m_etrail m) (m_extend m) (m_extended m).
Definition set_m_etrail (x : list nat) (m : model) : model :=
  mk_model (m_imports m) (m_values m) (m_eliminated m) x (m_extend m) (m_extended m).
Definition set_m_extended (x : bool) (m : model) : model :=
  mk_model (m_imports m) (m_values m) (m_eliminated m) (m_etrail m) (m_extend m) x.

(** stack.h 84-93: [PEEK_STACK] and [POKE_STACK] assert that the index is in range. *)
Definition peek {A} (l : list A) (i : nat) : outcome A := match nth_error l i with Some x => Ret x | None => Undef end.
Definition poke {A} (l : list A) (i : nat) (x : A) : outcome (list A) := match list_set l i x with Some l' => Ret l' | None => Undef end.

(** extend.c 4-26: the loop pops one position after the other. *)
Fixpoint undo_loop (trail : list nat) (vals : list (option bool)) : outcome (list (option bool)) :=
  match trail with
  | [] => Ret vals
  | pos :: trail =>
      do v <- peek vals pos ;
      do _ <- oassert (match v with Some _ => true | None => false end) ;
      do vals <- poke vals pos None ;
      undo_loop trail vals
  end.
Definition undo_eliminated_assignment (m : model) : outcome model :=
  do vals <- undo_loop (m_etrail m) (m_eliminated m) ;
  Ret (set_m_etrail [] (set_m_eliminated vals m)).

(** The value of a literal from the value of its variable. *)
Definition signed (e : Z) (b : bool) : bool := if (e <? 0)%Z then negb b else b.

(** internal.c 496-511, without the call of [kissat_extend]. *)
Definition lookup (m : model) (e : Z) : outcome Z :=
  match nth_error (m_imports m) (external_index e) with
  | None => Ret 0%Z
  | Some i =>
      if negb (i_imported i) then Ret 0%Z
      else
        do tmp <- (if i_eliminated i then peek (m_eliminated m) (i_lit i) else Ret (m_values m (i_lit i))) ;
        match tmp with
        | None => Ret 0%Z
        | Some b => Ret (if signed e b then e else - e)%Z
        end
  end.

(** extend.c 28-42.  The assertion that [kissat_value] gives the assigned literal is a call of [lookup], since
    the flag [extended] is set. *)
Definition extend_assign (m : model) (l : Z) : outcome model :=
  do _ <- oassert (negb (l =? 0)%Z && negb (l =? INT_MIN)%Z) ;
  do i <- peek (m_imports m) (external_index l) ;
  do _ <- oassert (i_eliminated i) ;
  do _ <- oassert (i_imported i) ;
  let pos := i_lit i in
  do vals <- poke (m_eliminated m) pos (Some (negb (l <? 0)%Z)) ;
  let m := set_m_eliminated vals m in
  do v <- lookup m l ;
  do _ <- oassert (v =? l)%Z ;
  Ret (set_m_etrail (pos :: m_etrail m) m).

(** The state of the inner loop (extend.c 73-130): the position and literal found last ([eliminated] of the code,
    with 0 as [None]) and the flag [satisfied]. *)
Record scan := mk_scan { sc_found : option (nat * Z); sc_satisfied : bool }.

(** extend.c 84-130: one iteration of the inner loop for the stack element with literal [elit]. *)
Definition scan_literal (m : model) (elit : Z) (s : scan) : outcome scan :=
  if sc_satisfied s then Ret s
  else
    do _ <- oassert (negb (elit =? INT_MIN)%Z) ;
    do i <- peek (m_imports m) (external_index elit) ;
    do _ <- oassert (i_imported i) ;
    if i_eliminated i then
      do v <- peek (m_eliminated m) (i_lit i) ;
      match v with
      | Some b => if signed elit b then Ret (mk_scan (sc_found s) true) else Ret s
      | None =>
          match sc_found s with
          | Some (pos, _) => if pos <? i_lit i then Ret (mk_scan (Some (i_lit i, elit)) false) else Ret s
          | None => Ret (mk_scan (Some (i_lit i, elit)) false)
          end
      end
    else
      match m_values m (i_lit i) with
      | None => Undef
      | Some b => if signed elit b then Ret (mk_scan (sc_found s) true) else Ret s
      end.

(** extend.c 81-131: the inner loop goes down the stack until a blocking literal is found; it gives the rest of
    the stack, that literal, and the result of the scan.  The assertion [begin < p] fails on the empty stack. *)
Fixpoint scan_clause (m : model) (stack : list extension) (s : scan) : outcome (list extension * Z * scan) :=
  match stack with
  | [] => Undef
  | x :: stack =>
      do s <- scan_literal m (x_lit x) s ;
      if x_blocking x && negb (x_lit x =? 0)%Z then Ret (stack, x_lit x, s) else scan_clause m stack s
  end.

(** extend.c 133-167 *)
Definition extend_clause (m : model) (blocking : Z) (s : scan) : outcome model :=
  if sc_satisfied s then Ret m
  else
    match sc_found s with
    | Some (_, eliminated) => if (eliminated =? blocking)%Z then extend_assign m blocking else extend_assign m eliminated
    | None => extend_assign m blocking
    end.

(** extend.c 67-168: the outer loop; [fuel] bounds the number of clauses. *)
Fixpoint extend_loop (fuel : nat) (stack : list extension) (m : model) : outcome model :=
  match stack with
  | [] => Ret m
  | _ =>
      match fuel with
      | O => Fuel
      | S fuel =>
          do (stack, blocking, s) <- scan_clause m stack (mk_scan None false) ;
          do m <- extend_clause m blocking s ;
          extend_loop fuel stack m
      end
  end.

(** extend.c 44-181; each clause takes at least one element of the stack. *)
Definition kissat_extend (m : model) : outcome model :=
  do _ <- oassert (match m_extend m with [] => false | _ => true end) ;
  do _ <- oassert (negb (m_extended m)) ;
  let m := set_m_extended true m in
  do m <- undo_eliminated_assignment m ;
  extend_loop (length (m_extend m)) (m_extend m) m.

(** internal.c 488-512 with the extension: it also returns the changed state. *)
Definition kissat_value_extended (m : model) (e : Z) : outcome (Z * model) :=
  do _ <- require_valid e ;
  do m <- (match nth_error (m_imports m) (external_index e) with
           | Some i =>
               if i_imported i && i_eliminated i && negb (m_extended m) && (match m_extend m with [] => false | _ => true end)
               then kissat_extend m else Ret m
           | None => Ret m
           end) ;
  do v <- lookup m e ;
  Ret (v, m).

(** A sequence of calls of [kissat_value]. *)
Fixpoint ask (m : model) (es : list Z) : outcome (list Z) :=
  match es with
  | [] => Ret []
  | e :: es =>
      do (v, m) <- kissat_value_extended m e ;
      do vs <- ask m es ;
      Ret (v :: vs)
  end.

(** ** Filling the stack *)

(** weaken.c 4-11: [export] is [kissat_export_literal], [vals] the values of internal literals. *)
Definition push_witness_literal (vals : lit -> option bool) (export : lit -> Z) (l : lit) (st : list extension) : outcome (list extension) :=
  do _ <- oassert (match vals l with None => true | Some _ => false end) ;
  do _ <- oassert (negb (export l =? 0)%Z) ;
  do x <- kissat_extension true (export l) ;
  Ret (x :: st).

(** weaken.c 13-27 *)
Definition push_clause_literal (vals : lit -> option bool) (export : lit -> Z) (l : lit) (st : list extension) : outcome (list extension) :=
  match vals l with
  | Some true => Undef
  | Some false => Ret st
  | None =>
      do _ <- oassert (negb (export l =? 0)%Z) ;
      do x <- kissat_extension false (export l) ;
      Ret (x :: st)
  end.

Fixpoint push_clause_literals (vals : lit -> option bool) (export : lit -> Z) (l : lit) (c : list lit) (st : list extension) : outcome (list extension) :=
  match c with
  | [] => Ret st
  | other :: c =>
      do st <- (if l =? other then Ret st else push_clause_literal vals export other st) ;
      push_clause_literals vals export l c st
  end.

(** weaken.c 36-44, 46-52, 54-60 *)
Definition kissat_weaken_clause (vals : lit -> option bool) (export : lit -> Z) (l : lit) (c : list lit) (st : list extension) : outcome (list extension) :=
  do st <- push_witness_literal vals export l st ;
  push_clause_literals vals export l c st.
Definition kissat_weaken_binary (vals : lit -> option bool) (export : lit -> Z) (l other : lit) (st : list extension) : outcome (list extension) :=
  do st <- push_witness_literal vals export l st ;
  push_clause_literal vals export other st.
Definition kissat_weaken_unit (vals : lit -> option bool) (export : lit -> Z) (l : lit) (st : list extension) : outcome (list extension) :=
  push_witness_literal vals export l st.
