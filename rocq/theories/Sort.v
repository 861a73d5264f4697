(** Sorting by comparison: sort.h. *)
From Coq Require Import List Bool Lia Arith.
From Verif Require Import Base Lit.
Import ListNotations.
Open Scope nat_scope.
Open Scope outcome_scope.

Section Sort.
Variable A : Type.
Variable less : A -> A -> bool.

(** The array of [N] elements; an access outside of it is undefined. *)
Definition aget (i : nat) (a : list A) : outcome A :=
  match nth_error a i with Some x => Ret x | None => Undef end.
Definition aset (i : nat) (x : A) (a : list A) : outcome (list A) :=
  if i <? length a then Ret (lset a i x) else Undef.

(** SWAP, utilities.h *)
Definition aswap (i j : nat) (a : list A) : outcome (list A) :=
  do x <- aget i a ;
  do y <- aget j a ;
  do a <- aset i y a ;
  aset j x a.

(** GREATER_SWAP, sort.h 6-10 *)
Definition greater_swap (i j : nat) (a : list A) : outcome (list A) :=
  do p <- aget i a ;
  do q <- aget j a ;
  if less q p then aswap i j a else Ret a.

(** sort.h 24-25 *)
Fixpoint scan_up (fuel i : nat) (pivot : A) (a : list A) : outcome nat :=
  match fuel with
  | O => Fuel
  | S fuel =>
      let i := S i in
      do x <- aget i a ;
      if less x pivot then scan_up fuel i pivot a else Ret i
  end.

(** sort.h 26-28.  Decrementing zero would wrap around and access memory outside of the array. *)
Fixpoint scan_down (fuel l j : nat) (pivot : A) (a : list A) : outcome nat :=
  match fuel with
  | O => Fuel
  | S fuel =>
      do _ <- oassert (0 <? j) ;
      let j := pred j in
      do x <- aget j a ;
      if less pivot x then if j =? l then Ret j else scan_down fuel l j pivot a else Ret j
  end.

(** sort.h 23-34 *)
Fixpoint partition_loop (fuel l i j : nat) (pivot : A) (a : list A) : outcome (nat * list A) :=
  match fuel with
  | O => Fuel
  | S fuel =>
      do i <- scan_up (S (length a)) i pivot a ;
      do j <- scan_down (S (length a)) l j pivot a ;
      if j <=? i then Ret (i, a)
      else do a <- aswap i j a ; partition_loop fuel l i j pivot a
  end.

(** PARTITION, sort.h 14-37: the final position of the pivot and the array *)
Definition partition (l r : nat) (a : list A) : outcome (nat * list A) :=
  do pivot <- aget r a ;
  do _ <- oassert (0 <? l) ;
  do (i, a) <- partition_loop (S (length a)) l (pred l) r pivot a ;
  do a <- aswap i r a ;
  Ret (i, a).

Definition quick_sort_limit : nat := 10.

(** QUICK_SORT, sort.h 51-89.  The stack of segments has the upper bound of each above its lower bound; the
    unsigned subtractions are checked not to wrap around. *)
Fixpoint quick_sort_loop (fuel l r : nat) (sorter : list (nat * nat)) (a : list A) : outcome (list A) :=
  match fuel with
  | O => Fuel
  | S fuel =>
      do _ <- oassert (l <=? r) ;
      let m := l + (r - l) / 2 in
      do _ <- oassert (0 <? r) ;
      do a <- aswap m (r - 1) a ;
      do a <- greater_swap l (r - 1) a ;
      do a <- greater_swap l r a ;
      do a <- greater_swap (r - 1) r a ;
      do (i, a) <- partition (l + 1) (r - 1) a ;
      do _ <- oassert (l <? i) ;
      do _ <- oassert (i <=? r) ;
      let '(ll, rr, l, r) :=
        if i - l <? r - i then (i + 1, r, l, i - 1) else (l, i - 1, i + 1, r) in
      do _ <- oassert ((ll <=? rr) && (l <=? r)) ;
      if quick_sort_limit <? r - l then
        do _ <- oassert (quick_sort_limit <? rr - ll) ;
        quick_sort_loop fuel l r ((ll, rr) :: sorter) a
      else if quick_sort_limit <? rr - ll then quick_sort_loop fuel ll rr sorter a
      else
        match sorter with
        | (l, r) :: sorter => quick_sort_loop fuel l r sorter a
        | [] => Ret a
        end
  end.

(** QUICK_SORT, sort.h 41-90 *)
Definition quick_sort (a : list A) : outcome (list A) :=
  do _ <- oassert (0 <? length a) ;
  let r := length a - 1 in
  if r - 0 <=? quick_sort_limit then Ret a
  else quick_sort_loop (S (length a)) 0 r [] a.

(** sort.h 97-100 *)
Fixpoint bubble (i : nat) (a : list A) : outcome (list A) :=
  match i with
  | O => Ret a
  | S k => do a <- greater_swap k i a ; bubble k a
  end.

(** sort.h 108-111.  An index zero would wrap around. *)
Fixpoint insert_loop (fuel j : nat) (pivot : A) (a : list A) : outcome (nat * list A) :=
  match fuel with
  | O => Fuel
  | S fuel =>
      do _ <- oassert (0 <? j) ;
      do x <- aget (j - 1) a ;
      if less pivot x then do a <- aset j x a ; insert_loop fuel (j - 1) pivot a
      else Ret (j, a)
  end.

(** sort.h 102-115; [n] is the number of remaining iterations. *)
Fixpoint insertion_loop (n i : nat) (a : list A) : outcome (list A) :=
  match n with
  | O => Ret a
  | S n =>
      do pivot <- aget i a ;
      do (j, a) <- insert_loop (S (length a)) i pivot a ;
      do a <- aset j pivot a ;
      insertion_loop n (S i) a
  end.

(** INSERTION_SORT, sort.h 92-116 *)
Definition insertion_sort (a : list A) : outcome (list A) :=
  let r := length a - 1 in
  do a <- bubble r a ;
  insertion_loop (S r - 2) 2 a.

(** CHECK_SORTED, sort.h 118-130, which is part of debug builds only *)
Fixpoint check_sorted (a : list A) : outcome unit :=
  match a with
  | x :: ((y :: _) as l) => do _ <- oassert (negb (less y x)) ; check_sorted l
  | _ => Ret tt
  end.

(** SORT, sort.h 132-143 *)
Definition sort (a : list A) : outcome (list A) :=
  if length a =? 0 then Ret a
  else
    do a <- quick_sort a ;
    do a <- insertion_sort a ;
    do _ <- check_sorted a ;
    Ret a.
End Sort.
