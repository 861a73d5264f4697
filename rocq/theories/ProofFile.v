(** Writing proofs: proof.c. *)
From Coq Require Import String Ascii ZArith NArith List Bool Lia.
From Verif Require Import Base.
Import ListNotations.
Open Scope list_scope.
Open Scope Z_scope.
Open Scope outcome_scope.

(** proof.c 15. *)
Definition size_buffer : Z := 2 ^ 20.

(** proof.c 17-41: [chars] are the bytes [buffer.chars[0..pos-1]] (so [pos] is its length), [written]
    the bytes already handed to the operating system, [writes] counts calls of [kissat_write].
    Statistics ([added], [deleted], [lines], [literals]), the logging stack [imported] and the checks
    for repeated units are left out. *)
Record proof := mkProof { chars : list Z; written : list Z; writes : nat }.

(** file.c [kissat_write] writes all the given bytes or fewer; [ok k] tells whether the k-th call
    writes all of them. *)
Section Writer.
Variable ok : nat -> bool.
(** [proof->binary] and GET_OPTION (flushproof). *)
Variable binary flushproof : bool.

(** proof.c 54-63 [kissat_init_proof]. *)
Definition init_proof : proof := mkProof [] [] 0.

(** proof.c 65-73 [flush_buffer]; [kissat_fatal] aborts. *)
Definition flush_buffer (p : proof) : outcome proof :=
  if Z.of_nat (length (chars p)) =? 0 then Ret p
  else if ok (writes p) then Ret (mkProof [] (written p ++ chars p) (S (writes p)))
  else Abort.

(** proof.c 130-135 [write_char]; a write outside of [chars] is undefined. *)
Definition write_char (p : proof) (ch : Z) : outcome proof :=
  do p <- (if Z.of_nat (length (chars p)) =? size_buffer then flush_buffer p else Ret p);
  if Z.of_nat (length (chars p)) <? size_buffer then
    Ret (mkProof (chars p ++ [ch mod 256]) (written p) (writes p))
  else Undef.

Fixpoint write_chars (p : proof) (l : list Z) : outcome proof :=
  match l with [] => Ret p | c :: l => do p <- write_char p c; write_chars p l end.

(** proof.c 191-198: the bytes of one unsigned number ([fuel] bounds the loop). *)
Fixpoint write_varint (fuel : nat) (p : proof) (x : Z) : outcome proof :=
  match fuel with
  | O => Fuel
  | S fuel =>
      if negb (Z.land x (Z.lnot 127) =? 0) then
        do p <- write_char p (Z.lor (Z.land x 127) 128);
        write_varint fuel p (Z.shiftr x 7)
      else write_char p x
  end.

(** utilities.h ABS: undefined for INT_MIN. *)
Definition abs_int (e : Z) : outcome Z := if e =? INT_MIN then Undef else Ret (Z.abs e).

(** proof.c 188-201 [print_binary_proof_line] ([unsigned] arithmetic). *)
Fixpoint print_binary_lits (p : proof) (line : list Z) : outcome proof :=
  match line with
  | [] => write_char p 0
  | e :: line =>
      do a <- abs_int e;
      do p <- write_varint 32 p (w32 (2 * a + (if e <? 0 then 1 else 0)));
      print_binary_lits p line
  end.

(** proof.c 221-222: digits of [tmp] stored backwards into 15 bytes; a store in front of the local
    buffer is undefined. *)
Fixpoint digits_backwards (room : nat) (tmp : Z) (acc : list Z) : outcome (list Z) :=
  if tmp =? 0 then Ret acc
  else match room with
       | O => Undef
       | S room => digits_backwards room (tmp / 10) ((48 + tmp mod 10) :: acc)
       end.

(** proof.c 203-227 [print_non_binary_proof_line]; the assertions of lines 211-212 hold in debug builds. *)
Fixpoint print_ascii_lits (p : proof) (line : list Z) : outcome proof :=
  match line with
  | [] => do p <- write_char p 48; write_char p 10
  | e :: line =>
      do _ <- oassert (negb (e =? 0) && negb (e =? INT_MIN));
      do p <- (if e <? 0 then write_char p 45 else Ret p);
      do ds <- digits_backwards 15 (Z.abs e) [];
      do p <- write_chars p ds;
      do p <- write_char p 32;
      print_ascii_lits p line
  end.

(** proof.c 229-246 [print_proof_line]. *)
Definition print_proof_line (p : proof) (line : list Z) : outcome proof :=
  do p <- (if binary then print_binary_lits p line else print_ascii_lits p line);
  if flushproof then flush_buffer p else Ret p.

(** proof.c 287-302 [print_added_proof_line]. *)
Definition print_added (p : proof) (line : list Z) : outcome proof :=
  do p <- (if binary then write_char p 97 else Ret p);
  print_proof_line p line.

(** proof.c 304-315 [print_delete_proof_line]. *)
Definition print_delete (p : proof) (line : list Z) : outcome proof :=
  do p <- write_char p 100;
  do p <- (if binary then Ret p else write_char p 32);
  print_proof_line p line.

(** The operations on a proof seen by its user: adding and deleting a clause of external literals.
    (proof.c 317-404 differ only in how the literals are obtained.) *)
Inductive step := Add (lits : list Z) | Delete (lits : list Z).
Definition trace_step (p : proof) (s : step) : outcome proof :=
  match s with Add l => print_added p l | Delete l => print_delete p l end.
Fixpoint trace (p : proof) (l : list step) : outcome proof :=
  match l with [] => Ret p | s :: l => do p <- trace_step p s; trace p l end.

(** proof.c 75-90 [kissat_release_proof]: the contents of the file afterwards. *)
Definition release_proof (p : proof) : outcome (list Z) :=
  do p <- flush_buffer p; Ret (written p).
End Writer.
