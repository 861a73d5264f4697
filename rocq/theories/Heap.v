(** The binary heap of variables (or literals) ordered by scores: heap.h, inlineheap.h, heap.c. *)
From Coq Require Import ZArith List Bool Lia Arith.
From Verif Require Import Base Lit.
Import ListNotations.
Open Scope nat_scope.
Open Scope outcome_scope.

Section Heap.
(** Scores are doubles in the code.  The model is generic in the type of scores, their order [<=] and the
    score zero. *)
Variable A : Type.
Variable leb : A -> A -> bool.
Variable zero : A.

(** The C operators [<], [>] and [==] on scores which are not NaN. *)
Definition ltb (x y : A) : bool := negb (leb y x).
Definition eqb (x y : A) : bool := leb x y && leb y x.

(** An entry of the array [pos]: not initialized, DISCONTAIN (heap.h 11-12) or a position. *)
Inductive cell := Junk | Out | At (p : nat).

(** heap.h 16-23.  [size] is the allocated size of [pos] and [score]; an entry of [score] which is not
    initialized is [None]. *)
Record heap := mk_heap {
  tainted : bool; hvars : nat; hsize : nat; stack : list nat; score : nat -> option A; pos : nat -> cell }.

(** A heap set to zero (internal.c 24-26 and compact.c 180-181). *)
Definition init_heap : heap := mk_heap false 0 0 [] (fun _ => None) (fun _ => Junk).

Definition rd_score (h : heap) (i : nat) : outcome A :=
  if i <? hsize h then match score h i with Some x => Ret x | None => Undef end else Undef.
Definition rd_pos (h : heap) (i : nat) : outcome cell :=
  if i <? hsize h then match pos h i with Junk => Undef | c => Ret c end else Undef.
Definition rd_stack (st : list nat) (p : nat) : outcome nat :=
  match nth_error st p with Some i => Ret i | None => Undef end.

(** heap.h 30-32 *)
Definition heap_contains (h : heap) (i : nat) : outcome bool :=
  if i <? hvars h then do c <- rd_pos h i ; Ret (match c with At _ => true | _ => false end) else Ret false.

(** heap.h 39-42 *)
Definition get_heap_score (h : heap) (i : nat) : outcome A :=
  if i <? hvars h then rd_score h i else Ret zero.

(** heap.h 52-55 *)
Definition max_heap (h : heap) : outcome nat := rd_stack (stack h) 0.

(** inlineheap.h 8-10 *)
Definition heap_child (p : nat) : outcome nat :=
  do _ <- oassert (Z.of_nat p <? 2 ^ 31)%Z ; Ret (2 * p + 1).
Definition heap_parent (p : nat) : nat := (p - 1) / 2.

(** inlineheap.h 20-31: the loop yields the final position of [i]. *)
Fixpoint up_loop (fuel : nat) (h : heap) (i : nat) (si : A) (p : nat) (st : list nat) (ps : nat -> cell)
  : outcome (nat * list nat * (nat -> cell)) :=
  if p =? 0 then Ret (p, st, ps)
  else
    match fuel with
    | O => Fuel
    | S fuel =>
        let q := heap_parent p in
        do parent <- rd_stack st q ;
        do sp <- rd_score h parent ;
        if leb si sp then Ret (p, st, ps)
        else up_loop fuel h i si q (lset st p parent) (upd ps parent (At p))
    end.

Definition place (h : heap) (i : nat) (r : nat * list nat * (nat -> cell)) : outcome heap :=
  let '(p, st, ps) := r in
  do _ <- oassert (p <? length st) ;
  Ret (mk_heap (tainted h) (hvars h) (hsize h) (lset st p i) (score h) (upd ps i (At p))).

(** inlineheap.h 12-37 *)
Definition bubble_up (i : nat) (h : heap) : outcome heap :=
  do c <- rd_pos h i ;
  do si <- rd_score h i ;
  match c with
  | At p => do r <- up_loop p h i si p (stack h) (pos h) ; place h i r
  | _ => Undef
  end.

(** inlineheap.h 47-70 *)
Fixpoint down_loop (fuel : nat) (h : heap) (i : nat) (si : A) (p : nat) (st : list nat) (ps : nat -> cell)
  : outcome (nat * list nat * (nat -> cell)) :=
  match fuel with
  | O => Fuel
  | S fuel =>
      do c <- heap_child p ;
      if length st <=? c then Ret (p, st, ps)
      else
        do child <- rd_stack st c ;
        do sc <- rd_score h child ;
        do (c, child, sc) <-
          (if S c <? length st then
             do sibling <- rd_stack st (S c) ;
             do ss <- rd_score h sibling ;
             Ret (if ltb sc ss then (S c, sibling, ss) else (c, child, sc))
           else Ret (c, child, sc)) ;
        if leb sc si then Ret (p, st, ps)
        else down_loop fuel h i si c (lset st p child) (upd ps child (At p))
  end.

(** inlineheap.h 39-76 *)
Definition bubble_down (i : nat) (h : heap) : outcome heap :=
  do c <- rd_pos h i ;
  do si <- rd_score h i ;
  match c with
  | At p => do r <- down_loop (S (length (stack h))) h i si p (stack h) (pos h) ; place h i r
  | _ => Undef
  end.

(** heap.c 41-64: [kissat_nrealloc] keeps the old entries, [kissat_calloc] sets all entries to zero. *)
Definition resize_heap (n : nat) (h : heap) : heap :=
  if n <=? hsize h then h
  else
    mk_heap (tainted h) (hvars h) n (stack h)
      (if tainted h then (fun i => if i <? hsize h then score h i else None)
       else (fun i => if i <? n then Some zero else None))
      (fun i => if i <? hsize h then pos h i else Junk).

(** heap.c 79-93 *)
Definition enlarge_heap (n : nat) (h : heap) : outcome heap :=
  do _ <- oassert ((hvars h <? n) && (n <=? hsize h)) ;
  let new i := (hvars h <=? i) && (i <? n) in
  Ret (mk_heap (tainted h) n (hsize h) (stack h)
         (if tainted h then (fun i => if new i then Some zero else score h i) else score h)
         (fun i => if new i then Out else pos h i)).

(** inlineheap.h 78-83 *)
Definition heap_import (i : nat) (h : heap) : outcome heap :=
  if hvars h <=? i then enlarge_heap (S i) h else Ret h.

(** inlineheap.h 87-96 *)
Definition push_heap (i : nat) (h : heap) : outcome heap :=
  do b <- heap_contains h i ;
  do _ <- oassert (negb b) ;
  do h <- heap_import i h ;
  bubble_up i (mk_heap (tainted h) (hvars h) (hsize h) (stack h ++ [i]) (score h) (upd (pos h) i (At (length (stack h))))).

(** inlineheap.h 98-116 *)
Definition pop_heap (i : nat) (h : heap) : outcome heap :=
  do b <- heap_contains h i ;
  do _ <- oassert b ;
  do lst <- rd_stack (stack h) (pred (length (stack h))) ;
  let st := removelast (stack h) in
  let ps := upd (pos h) lst Out in
  if lst =? i then Ret (mk_heap (tainted h) (hvars h) (hsize h) st (score h) ps)
  else
    match ps i with
    | At p =>
        do _ <- oassert (p <? length st) ;
        do h <- bubble_up lst
          (mk_heap (tainted h) (hvars h) (hsize h) (lset st p lst) (score h) (upd (upd ps i Out) lst (At p))) ;
        bubble_down lst h
    | _ => Undef
    end.

(** inlineheap.h 118-139 *)
Definition pop_max_heap (h : heap) : outcome (nat * heap) :=
  do i <- rd_stack (stack h) 0 ;
  do _ <- oassert (match pos h i with At 0 => true | _ => false end) ;
  do lst <- rd_stack (stack h) (pred (length (stack h))) ;
  let st := removelast (stack h) in
  let ps := upd (pos h) lst Out in
  if lst =? i then Ret (i, mk_heap (tainted h) (hvars h) (hsize h) st (score h) ps)
  else
    do h <- bubble_down lst
      (mk_heap (tainted h) (hvars h) (hsize h) (lset st 0 lst) (score h) (upd (upd ps i Out) lst (At 0))) ;
    Ret (i, h).

(** inlineheap.h 149-151: doubles the size until [i] fits ([fuel] bounds the loop). *)
Fixpoint double_size (fuel i n : nat) : nat :=
  match fuel with
  | O => n
  | S fuel => if n <=? i then double_size fuel i (2 * n) else n
  end.

(** inlineheap.h 141-156 *)
Definition adjust_heap (i : nat) (h : heap) : outcome heap :=
  if S i <=? hvars h then Ret h
  else
    do h <- (if hsize h <=? i then
               let n := double_size (S i) i (if hsize h =? 0 then 1 else 2 * hsize h) in
               do _ <- oassert (Z.of_nat n <? 2 ^ 32 - 1)%Z ;
               Ret (resize_heap n h)
             else Ret h) ;
    enlarge_heap (S i) h.

(** inlineheap.h 158-181 *)
Definition update_heap (i : nat) (x : A) (h : heap) : outcome heap :=
  do old <- get_heap_score h i ;
  if eqb old x then Ret h
  else
    do h <- heap_import i h ;
    let h := mk_heap true (hvars h) (hsize h) (stack h) (upd (score h) i (Some x)) (pos h) in
    do b <- heap_contains h i ;
    if negb b then Ret h
    else if ltb old x then bubble_up i h else bubble_down i h.

(** heap.c 66-77; [f] is the multiplication with the factor. *)
Definition rescale_heap (f : A -> A) (h : heap) : heap :=
  mk_heap (tainted h) (hvars h) (hsize h) (stack h)
    (fun i => if i <? hvars h then option_map f (score h i) else score h i) (pos h).

(** heap.h 63-73: a loop over all variables (used for bumping). *)
Definition max_score_on_heap (h : heap) : outcome A :=
  if negb (tainted h) then Ret zero
  else
    match hvars h with
    | O => Undef
    | S n =>
        do x <- rd_score h 0 ;
        fold_left (fun r i => do r <- r ; do y <- rd_score h i ; Ret (if ltb r y then y else r)) (seq 1 n) (Ret x)
    end.
End Heap.
Arguments mk_heap {A}. Arguments tainted {A}. Arguments hvars {A}. Arguments hsize {A}. Arguments stack {A}.
Arguments score {A}. Arguments pos {A}. Arguments init_heap {A}.
