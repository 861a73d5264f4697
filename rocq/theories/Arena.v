(** The arena of large clauses: arena.c, clause.h, clause.c. *)
From Coq Require Import ZArith List Bool Lia Arith.
From Verif Require Import Base Lit Stack.
Import ListNotations.
Open Scope nat_scope.
Open Scope outcome_scope.

Section Arena.
(** The number of 32-bit words of a ward (arena.h 8-12): four, or two in compact configurations. *)
Variable compact : bool.
Definition ward_words : nat := if compact then 2 else 4.
Definition ward_bytes : Z := if compact then 8 else 16.

(** The arena is a stack of wards (arena.h 22).  The memory is indexed by 32-bit words; sizes are in wards. *)
Record arena := mk_arena { words : nat -> option Z; asize : nat; acapacity : Z }.
Definition init_arena : arena := mk_arena (fun _ => None) 0 0.

(** reference.h 10-11, arena.h 14-18 with words of eight bytes, literal.h 16 *)
Definition max_ref : Z := 2 ^ 31 - 1.
Definition max_arena : Z := 2 ^ 31.
Definition invalid_lit : Z := 2 ^ 32 - 1.

(** kissat_align_ward, arena.h 40-46 and utilities.h 52-64 *)
Definition align_ward (w : Z) : Z :=
  if (Z.land w (ward_bytes - 1) =? 0)%Z then w else (1 + Z.lor w (ward_bytes - 1))%Z.

(** clause.h 49-52; the size of the structure is 24 bytes. *)
Definition bytes_of_clause (size : Z) : Z := align_ward (24 + (size - 3) mod 2 ^ 32 * 4).

(** arena.c 40-56: enlarges until the clause fits; the stack doubles its capacity, starting with one ward. *)
Fixpoint enlarge_arena (fuel : nat) (needed res capacity : Z) : outcome Z :=
  if (needed >? capacity - res)%Z then
    match fuel with
    | O => Fuel
    | S fuel =>
        do _ <- oassert (zero_or_power capacity) ;
        if (capacity =? max_arena)%Z then Abort
        else enlarge_arena fuel needed res (if (capacity =? 0)%Z then 1%Z else (2 * capacity)%Z)
    end
  else Ret capacity.

(** kissat_allocate_clause, arena.c 25-66.  The allocation of memory is assumed to succeed. *)
Definition allocate_clause (size : Z) (a : arena) : outcome (nat * arena) :=
  do _ <- oassert (size <? 2 ^ 32)%Z ;
  let res := asize a in
  do _ <- oassert (Z.of_nat res <=? max_ref)%Z ;
  let bytes := bytes_of_clause size in
  do _ <- oassert (aligned_word bytes) ;
  let needed := (bytes / ward_bytes)%Z in
  do _ <- oassert (needed <? 2 ^ 32)%Z ;
  do _ <- oassert (acapacity a <=? max_arena)%Z ;
  do capacity <- enlarge_arena 40 needed (Z.of_nat res) (acapacity a) ;
  do _ <- oassert (capacity <=? max_arena)%Z ;
  Ret (res, mk_arena (words a) (res + Z.to_nat needed) capacity).

(** Access to the words of the arena: they have to be below its end. *)
Definition in_arena (a : arena) (i : nat) : bool := i <? asize a * ward_words.
Definition read_word (a : arena) (i : nat) : outcome Z :=
  if in_arena a i then match words a i with Some w => Ret w | None => Undef end else Undef.
Definition write_word (i : nat) (w : Z) (a : arena) : outcome arena :=
  if in_arena a i then Ret (mk_arena (upd (words a) i (Some w)) (asize a) (acapacity a)) else Undef.
Fixpoint write_words (i : nat) (ws : list Z) (a : arena) : outcome arena :=
  match ws with
  | [] => Ret a
  | w :: ws => do a <- write_word i w a ; write_words (S i) ws a
  end.
Fixpoint read_words (i n : nat) (a : arena) : outcome (list Z) :=
  match n with
  | O => Ret []
  | S n => do w <- read_word a i ; do ws <- read_words (S i) n a ; Ret (w :: ws)
  end.

(** clause.h 19-38: the first word of a clause has the flags, of which only [shrunken] is modelled; then come
    [searched], [size] and the literals. *)
Definition flags_at (ref : nat) : nat := ref * ward_words.
Definition searched_at (ref : nat) : nat := ref * ward_words + 1.
Definition size_at (ref : nat) : nat := ref * ward_words + 2.
Definition lits_at (ref : nat) : nat := ref * ward_words + 3.

(** clause.c 29-51 and new_large_clause, clause.c 81-106, without watches, marks and proof *)
Definition new_large_clause (lits : list Z) (a : arena) : outcome (nat * arena) :=
  let size := Z.of_nat (length lits) in
  do _ <- oassert (2 <? size)%Z ;
  do (res, a) <- allocate_clause size a ;
  do a <- write_word (flags_at res) 0 a ;
  do a <- write_word (searched_at res) 2 a ;
  do a <- write_word (size_at res) size a ;
  do a <- write_words (lits_at res) lits a ;
  Ret (res, a).

(** Shrinking in place, as in strengthen.c 27-48, vivify.c 100-121, substitute.c 511-523 and forward.c 410-431: the
    literals kept are written to the front.  The last of the original literals is replaced by a sentinel the
    first time a clause is shrunken. *)
Definition shrink_clause (ref : nat) (lits : list Z) (a : arena) : outcome arena :=
  do old_size <- read_word a (size_at ref) ;
  let size := Z.of_nat (length lits) in
  do _ <- oassert ((2 <? size) && (size <? old_size))%Z ;
  do a <- write_words (lits_at ref) lits a ;
  do a <- write_word (size_at ref) size a ;
  do a <- write_word (searched_at ref) 2 a ;
  do shrunken <- read_word a (flags_at ref) ;
  if (shrunken =? 0)%Z then
    do a <- write_word (flags_at ref) 1 a ;
    write_word (lits_at ref + pred (Z.to_nat old_size)) invalid_lit a
  else Ret a.

(** clause.h 57-59: the position after the sentinel *)
Fixpoint find_sentinel (fuel i : nat) (a : arena) : outcome nat :=
  match fuel with
  | O => Fuel
  | S fuel => do w <- read_word a i ; if (w =? invalid_lit)%Z then Ret (S i) else find_sentinel fuel (S i) a
  end.

(** kissat_actual_bytes_of_clause, clause.h 54-61 *)
Definition actual_bytes (ref : nat) (a : arena) : outcome Z :=
  do size <- read_word a (size_at ref) ;
  do shrunken <- read_word a (flags_at ref) ;
  let p := lits_at ref + Z.to_nat size in
  do p <- (if (shrunken =? 0)%Z then Ret p else find_sentinel (asize a * ward_words) p a) ;
  Ret (align_ward (4 * Z.of_nat (p - flags_at ref))).

(** kissat_next_clause, clause.h 63-66 *)
Definition next_clause (ref : nat) (a : arena) : outcome nat :=
  do bytes <- actual_bytes ref a ; Ret (ref + Z.to_nat (bytes / ward_bytes)).

(** all_literals_in_clause, clause.h 43-47 *)
Definition clause_at (ref : nat) (a : arena) : outcome (list Z) :=
  do size <- read_word a (size_at ref) ; read_words (lits_at ref) (Z.to_nat size) a.

(** all_clauses, internal.h 275-279: the references and literals of all clauses in the arena *)
Fixpoint all_clauses (fuel ref : nat) (a : arena) : outcome (list (nat * list Z)) :=
  if ref =? asize a then Ret []
  else
    match fuel with
    | O => Fuel
    | S fuel =>
        do lits <- clause_at ref a ;
        do next <- next_clause ref a ;
        do rest <- all_clauses fuel next a ;
        Ret ((ref, lits) :: rest)
    end.
End Arena.
