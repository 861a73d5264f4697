(** Growing stacks: stack.h, stack.c. *)
From Coq Require Import ZArith List Bool Lia Arith.
From Verif Require Import Base Lit.
Import ListNotations.
Open Scope nat_scope.
Open Scope outcome_scope.

Section Stack.
Variable E : Type.
(** The size of an element in bytes. *)
Variable bytes : Z.

(** stack.h 6-11.  The pointers [end] and [allocated] are offsets in bytes from [begin].  [slots] is the
    allocated memory in units of elements, with [None] for an element not written or freed. *)
Record stack := mk_stack { send : Z; sallocated : Z; slots : nat -> option E }.

(** stack.h 13-16 *)
Definition full_stack (s : stack) : bool := (send s =? sallocated s)%Z.
Definition empty_stack (s : stack) : bool := (send s =? 0)%Z.
Definition size_stack (s : stack) : nat := Z.to_nat (send s / bytes).
Definition capacity_stack (s : stack) : nat := Z.to_nat (sallocated s / bytes).

(** INIT_STACK, stack.h 18-21 *)
Definition init_stack : stack := mk_stack 0 0 (fun _ => None).

(** Access to an element: it has to be inside of the allocated block. *)
Definition inside (s : stack) (i : nat) : bool :=
  ((0 <=? Z.of_nat i * bytes) && (Z.of_nat i * bytes + bytes <=? sallocated s))%Z.
Definition read_slot (s : stack) (i : nat) : outcome E :=
  if inside s i then match slots s i with Some e => Ret e | None => Undef end else Undef.
Definition write_slot (i : nat) (e : E) (s : stack) : outcome stack :=
  if inside s i then Ret (mk_stack (send s) (sallocated s) (upd (slots s) i (Some e))) else Undef.

(** utilities.h 44-46 with words of eight bytes *)
Definition aligned_word (w : Z) : bool := (w mod 8 =? 0)%Z.

(** stack.c 16-17 and 41-42: shifts until aligned, which takes at most three rounds. *)
Fixpoint align_shift (fuel : nat) (w : Z) : outcome Z :=
  if aligned_word w then Ret w else match fuel with O => Fuel | S fuel => align_shift fuel (2 * w)%Z end.

(** kissat_realloc, allocate.c 111-127: keeps the contents which fit.  The allocation is assumed to succeed
    (otherwise the program exits). *)
Definition realloc_stack (size new_bytes : Z) (s : stack) : stack :=
  mk_stack size new_bytes
    (fun i => if (Z.of_nat i * bytes + bytes <=? Z.min (sallocated s) new_bytes)%Z then slots s i else None).

(** kissat_stack_enlarge, stack.c 7-22 *)
Definition stack_enlarge (s : stack) : outcome stack :=
  let size := send s in
  let old_bytes := sallocated s in
  do _ <- oassert (old_bytes <=? (2 ^ 64 - 1) / 2)%Z ;
  do new_bytes <- (if (old_bytes =? 0)%Z then align_shift 3 bytes else Ret (2 * old_bytes)%Z) ;
  do _ <- oassert (new_bytes <? 2 ^ 64)%Z ;
  Ret (realloc_stack size new_bytes s).

(** kissat_is_zero_or_power_of_two, utilities.h 72-74 *)
Definition zero_or_power (w : Z) : bool := (Z.land w ((w - 1) mod 2 ^ 64) =? 0)%Z.

(** kissat_log2_ceiling_of_word, utilities.h 94-99 *)
Definition log2_ceiling (x : Z) : Z :=
  if (x =? 0)%Z then 0%Z
  else let tmp := Z.log2 x in (tmp + (if Z.lxor x (2 ^ tmp) =? 0 then 0 else 1))%Z.

(** kissat_shrink_stack, stack.c 24-51 *)
Definition shrink_stack_bytes (s : stack) : outcome stack :=
  do _ <- oassert (0 <? bytes)%Z ;
  let old_capacity := sallocated s in
  do _ <- oassert (aligned_word old_capacity) ;
  do _ <- oassert (old_capacity mod bytes =? 0)%Z ;
  do _ <- oassert (zero_or_power (old_capacity / bytes)) ;
  let old_bytes_size := send s in
  do _ <- oassert (old_bytes_size mod bytes =? 0)%Z ;
  let old_size := (old_bytes_size / bytes)%Z in
  let new_capacity := (if old_size =? 0 then 0 else 2 ^ log2_ceiling old_size)%Z in
  do _ <- oassert (zero_or_power new_capacity) ;
  do new_bytes <- align_shift 3 (new_capacity * bytes)%Z ;
  if (new_bytes =? old_capacity)%Z then Ret s
  else
    do _ <- oassert (new_bytes <? old_capacity)%Z ;
    do _ <- oassert (old_bytes_size <=? new_bytes)%Z ;
    Ret (realloc_stack old_bytes_size new_bytes s).

(** SHRINK_STACK, stack.h 41-45 *)
Definition shrink_stack (s : stack) : outcome stack := if full_stack s then Ret s else shrink_stack_bytes s.

(** PUSH_STACK, stack.h 35-39 and 47-52 *)
Definition push_stack (e : E) (s : stack) : outcome stack :=
  do s <- (if full_stack s then stack_enlarge s else Ret s) ;
  do s <- write_slot (size_stack s) e s ;
  Ret (mk_stack (send s + bytes) (sallocated s) (slots s)).

(** POP_STACK, stack.h 33 *)
Definition pop_stack (s : stack) : outcome (E * stack) :=
  do _ <- oassert (negb (empty_stack s)) ;
  let s := mk_stack (send s - bytes) (sallocated s) (slots s) in
  do e <- read_slot s (size_stack s) ; Ret (e, s).

(** TOP_STACK, PEEK_STACK and POKE_STACK, stack.h 23-31 *)
Definition top_stack (s : stack) : outcome E :=
  do _ <- oassert (negb (empty_stack s)) ; read_slot s (pred (size_stack s)).
Definition peek_stack (n : nat) (s : stack) : outcome E :=
  do _ <- oassert (n <? size_stack s) ; read_slot s n.
Definition poke_stack (n : nat) (e : E) (s : stack) : outcome stack :=
  do _ <- oassert (n <? size_stack s) ; write_slot n e s.

(** CLEAR_STACK, stack.h 58-61 *)
Definition clear_stack (s : stack) : stack := mk_stack 0 (sallocated s) (slots s).

(** RESIZE_STACK, stack.h 63-68 (SET_END_OF_STACK, stack.h 70-77, does the same for a pointer) *)
Definition resize_stack (n : nat) (s : stack) : outcome stack :=
  do _ <- oassert (n <=? size_stack s) ; Ret (mk_stack (Z.of_nat n * bytes) (sallocated s) (slots s)).

(** RELEASE_STACK, stack.h 79-83 *)
Definition release_stack (s : stack) : stack := init_stack.

(** REMOVE_STACK, stack.h 90-93: finds the element. *)
Fixpoint find_slot (eqb : E -> E -> bool) (fuel : nat) (e : E) (p : nat) (s : stack) : outcome nat :=
  do _ <- oassert (p <? size_stack s) ;
  do x <- read_slot s p ;
  if eqb x e then Ret p else match fuel with O => Fuel | S fuel => find_slot eqb fuel e (S p) s end.
(** stack.h 94-98: moves the elements at [p] and after one position to the left. *)
Fixpoint move_left (fuel p : nat) (s : stack) : outcome stack :=
  if p =? size_stack s then Ret s
  else
    match fuel with
    | O => Fuel
    | S fuel => do x <- read_slot s p ; do s <- write_slot (pred p) x s ; move_left fuel (S p) s
    end.
(** stack.h 85-100 *)
Definition remove_stack (eqb : E -> E -> bool) (e : E) (s : stack) : outcome stack :=
  do _ <- oassert (negb (empty_stack s)) ;
  do p <- find_slot eqb (size_stack s) e 0 s ;
  do s <- move_left (size_stack s) (S p) s ;
  Ret (mk_stack (send s - bytes) (sallocated s) (slots s)).

(** REVERSE_STACK, stack.h 107-111 *)
Fixpoint reverse_loop (fuel head tail : nat) (s : stack) : outcome stack :=
  if head <? tail then
    match fuel with
    | O => Fuel
    | S fuel =>
        do x <- read_slot s head ; do y <- read_slot s tail ;
        do s <- write_slot head y s ; do s <- write_slot tail x s ;
        reverse_loop fuel (S head) (pred tail) s
    end
  else Ret s.
(** stack.h 102-112 *)
Definition reverse_stack (s : stack) : outcome stack :=
  if size_stack s <? 2 then Ret s else reverse_loop (size_stack s) 0 (pred (size_stack s)) s.

(** all_stack, stack.h 114-117: the elements in order. *)
Definition all_stack (s : stack) : outcome (list E) :=
  fold_right (fun i r => do e <- read_slot s i ; do l <- r ; Ret (e :: l)) (Ret []) (seq 0 (size_stack s)).
End Stack.
Arguments mk_stack {E}. Arguments send {E}. Arguments sallocated {E}. Arguments slots {E}. Arguments init_stack {E}.
