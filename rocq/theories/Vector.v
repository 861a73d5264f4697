(** Vectors sharing one block of memory: vector.h, vector.c, inlinevector.h. *)
From Coq Require Import ZArith List Bool Lia Arith.
From Verif Require Import Base Lit Radix.
Import ListNotations.
Open Scope Z_scope.
Open Scope outcome_scope.

(** Writing one element of the memory. *)
Definition mupd (m : Z -> Z) (k e x : Z) : Z := if x =? k then e else m x.

Section Vector.
(** LITS, the number of vectors ([solver->watches]). *)
Variable lits : nat.
(** The address which the memory allocator returns on its [n]-th call. *)
Variable place : nat -> Z.

(** vector.h 9-21, on a machine with words of eight bytes and without COMPACT *)
Definition MAX_VECTORS : Z := 2 ^ 48.
Definition INVALID_VECTOR_ELEMENT : Z := 2 ^ 32 - 1.
Definition MAX_SECTOR : Z := 2 ^ 64 - 1.

(** vector.h 31-39: the pointers [begin] and [end], null is zero.  All addresses are in units of elements (of four bytes). *)
Record vec := mk_vec { vb : Z; ve : Z }.

(** vector.h 26-29: the stack with its memory, the number of usable entries and the vectors.  [vmem] maps offsets from the start
    of the stack to elements.  [vcalls] counts the calls of the allocator. *)
Record vectors := mk_vectors
  { vbase : Z; vsize : Z; vcap : Z; vmem : Z -> Z; vusable : Z; vecs : nat -> vec; vcalls : nat }.

Definition init_vectors : vectors := mk_vectors 0 0 0 (fun _ => 0) 0 (fun _ => mk_vec 0 0) 0.

Definition set_vec (i : nat) (v : vec) (s : vectors) : vectors :=
  mk_vectors (vbase s) (vsize s) (vcap s) (vmem s) (vusable s) (upd (vecs s) i v) (vcalls s).
Definition set_mem (m : Z -> Z) (s : vectors) : vectors :=
  mk_vectors (vbase s) (vsize s) (vcap s) m (vusable s) (vecs s) (vcalls s).
Definition set_size (n : Z) (s : vectors) : vectors :=
  mk_vectors (vbase s) n (vcap s) (vmem s) (vusable s) (vecs s) (vcalls s).
Definition set_usable (n : Z) (s : vectors) : vectors :=
  mk_vectors (vbase s) (vsize s) (vcap s) (vmem s) n (vecs s) (vcalls s).

(** Reading through a pointer is defined inside of the used part of the block, writing inside of the allocated block. *)
Definition load (p : Z) (s : vectors) : outcome Z :=
  if (vbase s <=? p) && (p <? vbase s + vsize s) then Ret (vmem s (p - vbase s)) else Undef.
Definition store (p e : Z) (s : vectors) : outcome vectors :=
  if (vbase s <=? p) && (p <? vbase s + vcap s) then Ret (set_mem (mupd (vmem s) (p - vbase s) e) s) else Undef.
(** memset with 0xff *)
Definition invalidate (p n : Z) (s : vectors) : outcome vectors :=
  if (vbase s <=? p) && (0 <=? n) && (p + n <=? vbase s + vcap s) then
    Ret (set_mem (fun k => if (p - vbase s <=? k) && (k <? p - vbase s + n) then INVALID_VECTOR_ELEMENT else vmem s k) s)
  else Undef.
(** memmove *)
Definition move (p q n : Z) (s : vectors) : outcome vectors :=
  if (vbase s <=? p) && (vbase s <=? q) && (0 <=? n) && (p + n <=? vbase s + vcap s) && (q + n <=? vbase s + vsize s) then
    Ret (set_mem (fun k => if (p - vbase s <=? k) && (k <? p - vbase s + n) then vmem s (k - p + q) else vmem s k) s)
  else Undef.
(** memcpy: additionally the two blocks do not overlap. *)
Definition copy (p q n : Z) (s : vectors) : outcome vectors :=
  if (p + n <=? q) || (q + n <=? p) then move p q n s else Undef.

(** inlinevector.h 80-94 *)
Definition size_vector (v : vec) : Z := ve v - vb v.
Definition empty_vector (v : vec) : bool := ve v =? vb v.

(** kissat_inc_usable, kissat_add_usable and kissat_dec_usable, inlinevector.h 96-104 and 142-145 *)
Definition inc_usable (s : vectors) : outcome vectors :=
  do _ <- oassert (vusable s <? MAX_SECTOR) ; Ret (set_usable (vusable s + 1) s).
Definition add_usable (inc : Z) (s : vectors) : outcome vectors :=
  do _ <- oassert ((vusable s <=? MAX_SECTOR - inc) && (inc <=? MAX_SECTOR)) ; Ret (set_usable (vusable s + inc) s).
Definition dec_usable (s : vectors) : outcome vectors :=
  do _ <- oassert (0 <? vusable s) ; Ret (set_usable (vusable s - 1) s).

(** kissat_stack_enlarge for elements of four bytes, stack.c 7-22 (see Stack.v): the block moves to a new address. *)
Definition enlarge_block (s : vectors) : vectors :=
  mk_vectors (place (vcalls s)) (vsize s) (if vcap s =? 0 then 2 else 2 * vcap s) (vmem s) (vusable s) (vecs s) (S (vcalls s)).

(** fix_vector_pointers_after_moving_stack, vector.c 14-41 *)
Definition fix_pointers (moved : Z) (s : vectors) : vectors :=
  let fix_pointer p := if p =? 0 then 0 else p + moved in
  mk_vectors (vbase s) (vsize s) (vcap s) (vmem s) (vusable s)
    (fun i => if (i <? lits)%nat then mk_vec (fix_pointer (vb (vecs s i))) (fix_pointer (ve (vecs s i))) else vecs s i)
    (vcalls s).

(** vector.c 69-83 *)
Fixpoint enlarge_loop (fuel : nat) (n : Z) (s : vectors) : outcome vectors :=
  match fuel with
  | O => Fuel
  | S fuel =>
      if vcap s =? MAX_VECTORS then Abort
      else
        let s := enlarge_block s in
        if vcap s - vsize s <? n then enlarge_loop fuel n s else Ret s
  end.

(** kissat_enlarge_vector, vector.c 45-142 *)
Definition enlarge_vector (i : nat) (s : vectors) : outcome (Z * vectors) :=
  let old_size := size_vector (vecs s i) in
  do _ <- oassert (old_size <? MAX_VECTORS / 2) ;
  let new_size := if old_size =? 0 then 1 else 2 * old_size in
  do _ <- oassert (vcap s <=? MAX_VECTORS) ;
  do s <-
    (if vcap s - vsize s <? new_size then
       let old_begin := vbase s in
       do s <- enlarge_loop 50 new_size s ;
       let moved := vbase s - old_begin in
       let s := if moved =? 0 then s else fix_pointers moved s in
       do _ <- oassert ((vcap s <=? MAX_VECTORS) && (new_size <=? vcap s - vsize s)) ;
       Ret s
     else Ret s) ;
  let begin_old := vb (vecs s i) in
  let begin_new := vbase s + vsize s in
  let middle := begin_new + old_size in
  let end_new := begin_new + new_size in
  do _ <- oassert (end_new <=? vbase s + vcap s) ;
  let delta := new_size - old_size in
  do s <-
    (if old_size =? 0 then Ret s
     else do s <- copy begin_new begin_old old_size s ; invalidate begin_old old_size s) ;
  let s := set_usable (vusable s + old_size) s in
  do s <- add_usable delta s ;
  do s <- (if delta =? 0 then Ret s else invalidate middle delta s) ;
  let s := set_vec i (mk_vec begin_new middle) s in
  let s := set_size (vsize s + new_size) s in
  do _ <- oassert (begin_new <? end_new) ;
  Ret (middle, s).

(** inlinevector.h 156-159, 174-177 and 184-186: stores into the first free entry. *)
Definition fill (p e : Z) (s : vectors) : outcome vectors :=
  do x <- load p s ;
  do _ <- oassert (x =? INVALID_VECTOR_ELEMENT) ;
  do s <- store p e s ;
  dec_usable s.

(** PUSH_STACK for the stack of all vectors, stack.h 47-52 *)
Definition push_block (e : Z) (s : vectors) : outcome vectors :=
  let s := if vsize s =? vcap s then enlarge_block s else s in
  do s <- store (vbase s + vsize s) e s ;
  Ret (set_size (vsize s + 1) s).

(** kissat_push_vectors, inlinevector.h 147-194 *)
Definition push_vectors (i : nat) (e : Z) (s : vectors) : outcome vectors :=
  do _ <- oassert (negb (e =? INVALID_VECTOR_ELEMENT)) ;
  do s <-
    (if vb (vecs s i) =? 0 then
       do s <- (if vsize s =? 0 then push_block 0 s else Ret s) ;
       do s <-
         (if vsize s =? vcap s then
            do (p, s) <- enlarge_vector i s ;
            fill p e s
          else
            let p := vbase s + vsize s in
            let s := set_vec i (mk_vec p (ve (vecs s i))) s in
            do s <- store p e s ;
            Ret (set_size (vsize s + 1) s)) ;
       Ret (set_vec i (mk_vec (vb (vecs s i)) (vb (vecs s i))) s)
     else
       let p := ve (vecs s i) in
       if p =? vbase s + vsize s then
         if vsize s =? vcap s then
           do (p, s) <- enlarge_vector i s ;
           fill p e s
         else
           do s <- store p e s ;
           Ret (set_size (vsize s + 1) s)
       else
         do x <- load p s ;
         do (p, s) <- (if x =? INVALID_VECTOR_ELEMENT then Ret (p, s) else enlarge_vector i s) ;
         fill p e s) ;
  Ret (set_vec i (mk_vec (vb (vecs s i)) (ve (vecs s i) + 1)) s).

(** vector.c 255-256 *)
Fixpoint find_loop (fuel : nat) (p last e : Z) (s : vectors) : outcome Z :=
  do x <- load p s ;
  if x =? e then Ret p
  else
    match fuel with
    | O => Fuel
    | S fuel => do _ <- oassert (negb (p + 1 =? last)) ; find_loop fuel (p + 1) last e s
    end.
(** vector.c 257-258 *)
Fixpoint shift_loop (fuel : nat) (p last : Z) (s : vectors) : outcome vectors :=
  if p =? last then Ret s
  else
    match fuel with
    | O => Fuel
    | S fuel => do x <- load p s ; do s <- store (p - 1) x s ; shift_loop fuel (p + 1) last s
    end.
(** kissat_remove_from_vector, vector.c 249-271 *)
Definition remove_from_vector (i : nat) (e : Z) (s : vectors) : outcome vectors :=
  let first := vb (vecs s i) in
  let last := ve (vecs s i) in
  do _ <- oassert (negb (first =? last)) ;
  do p <- find_loop (Z.to_nat (last - first)) first last e s ;
  do s <- shift_loop (Z.to_nat (last - first)) (p + 1) last s ;
  do s <- store (last - 1) INVALID_VECTOR_ELEMENT s ;
  do _ <- oassert (first <? last) ;
  let s := set_vec i (mk_vec first (last - 1)) s in
  inc_usable s.

(** kissat_resize_vector, vector.c 273-295 *)
Definition resize_vector (i : nat) (new_size : Z) (s : vectors) : outcome vectors :=
  let old_size := size_vector (vecs s i) in
  do _ <- oassert (new_size <=? old_size) ;
  if new_size =? old_size then Ret s
  else
    let first := vb (vecs s i) in
    let s := set_vec i (mk_vec first (first + new_size)) s in
    let delta := old_size - new_size in
    do s <- add_usable delta s ;
    invalidate (first + new_size) delta s.

(** kissat_release_vector, inlinevector.h 138-140 *)
Definition release_vector (i : nat) (s : vectors) : outcome vectors := resize_vector i 0 s.

(** kissat_begin_vector and kissat_end_vector, inlinevector.h 6-24, used to read a vector or to change one of its entries *)
Definition get_vector (i : nat) (k : Z) (s : vectors) : outcome Z :=
  do _ <- oassert ((0 <=? k) && (k <? size_vector (vecs s i))) ; load (vb (vecs s i) + k) s.
Definition poke_vector (i : nat) (k e : Z) (s : vectors) : outcome vectors :=
  do _ <- oassert ((0 <=? k) && (k <? size_vector (vecs s i)) && negb (e =? INVALID_VECTOR_ELEMENT)) ;
  store (vb (vecs s i) + k) e s.

(** rank_offset, vector.c 154-163 *)
Definition rank_offset (s : vectors) (i : nat) : Z := (4 * vb (vecs s i)) mod 2 ^ 64.

(** vector.c 181-192: empty vectors lose their place, the others are collected. *)
Definition reset_empty (s : vectors) : vectors :=
  mk_vectors (vbase s) (vsize s) (vcap s) (vmem s) (vusable s)
    (fun i => if ((i <? lits)%nat && empty_vector (vecs s i))%bool then mk_vec 0 0 else vecs s i) (vcalls s).
Definition nonempty (s : vectors) : list nat := filter (fun i => negb (empty_vector (vecs s i))) (seq 0 lits).

(** vector.c 196-219 *)
Fixpoint defrag_loop (l : list nat) (p : Z) (s : vectors) : outcome (Z * vectors) :=
  match l with
  | [] => Ret (p, s)
  | j :: l =>
      let size := size_vector (vecs s j) in
      let q := vb (vecs s j) in
      let s := set_vec j (mk_vec p (p + size)) s in
      do s <- move p q size s ;
      defrag_loop l (p + size) s
  end.

(** kissat_shrink_stack for elements of four bytes, stack.c 24-51 (see Stack.v) *)
Definition shrink_block (s : vectors) : vectors :=
  if vsize s =? vcap s then s
  else
    let new_cap := Z.max 2 (2 ^ Z.log2_up (vsize s)) in
    if new_cap =? vcap s then s
    else mk_vectors (place (vcalls s)) (vsize s) new_cap (vmem s) (vusable s) (vecs s) (S (vcalls s)).

(** kissat_defrag_vectors, vector.c 169-247 *)
Definition defrag_vectors (s : vectors) : outcome vectors :=
  if vsize s <? 2 then Ret s
  else
    let sorted := nonempty s in
    let s := reset_empty s in
    do sorted <- radix_sort nat (rank_offset s) 8 sorted ;
    do (p, s) <- defrag_loop sorted (vbase s + 1) s ;
    do _ <- oassert (vbase s + vsize s - p =? vusable s) ;
    do _ <- oassert ((vbase s <=? p) && (p <=? vbase s + vsize s)) ;
    let s := set_size (p - vbase s) s in
    let old_begin := vbase s in
    let s := shrink_block s in
    let moved := vbase s - old_begin in
    let s := if moved =? 0 then s else fix_pointers moved s in
    Ret (set_usable 0 s).

(** kissat_release_vectors, vector.c 297-300, after all vectors have been cleared, dense.c 80-81 and 91-94 *)
Definition release_vectors (s : vectors) : vectors :=
  mk_vectors 0 0 0 (fun _ => 0) 0 (fun i => if (i <? lits)%nat then mk_vec 0 0 else vecs s i) (vcalls s).
End Vector.
