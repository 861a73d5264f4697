(** Printing the satisfying assignment: witness.c. *)
From Coq Require Import String Ascii ZArith NArith List Bool Lia.
From Verif Require Import Base Decimal.
Import ListNotations.
Open Scope string_scope.
Open Scope Z_scope.
Open Scope outcome_scope.

Definition newline : string := String (ascii_of_nat 10) "".

(** What was printed so far and the contents of [buffer]. *)
Record printer := mkPrinter { out : string; buffer : string }.

(** witness.c 8-14 [flush_buffer]. *)
Definition flush_witness (p : printer) : printer := mkPrinter (out p ++ "v" ++ buffer p ++ newline) "".

(** witness.c 16-25 [print_int]; [tmp] has 16 bytes including the terminating zero. *)
Definition print_int (p : printer) (i : Z) : outcome printer :=
  let tmp := " " ++ print_d i in
  do _ <- oassert (Z.of_nat (String.length tmp) <? 16);
  let p := if 77 <? Z.of_nat (String.length (buffer p)) + Z.of_nat (String.length tmp) then flush_witness p else p in
  Ret (mkPrinter (out p) (buffer p ++ tmp)).

(** witness.c 30-36: the loop over the [n] variables from [eidx] on; [value] is [kissat_value]. *)
Fixpoint print_values (value : Z -> Z) (partial : bool) (n : nat) (eidx : Z) (p : printer) : outcome printer :=
  match n with
  | O => Ret p
  | S n =>
      let tmp := value eidx in
      let tmp := if (tmp =? 0) && negb partial then eidx else tmp in
      do p <- (if tmp =? 0 then Ret p else print_int p tmp);
      print_values value partial n (eidx + 1) p
  end.

(** witness.c 27-41 [kissat_print_witness]. *)
Definition print_witness (value : Z -> Z) (max_var : Z) (partial : bool) : outcome string :=
  do p <- print_values value partial (Z.to_nat max_var) 1 (mkPrinter "" "");
  do p <- print_int p 0;
  do _ <- oassert (negb (String.length (buffer p) =? 0)%nat);
  Ret (out (flush_witness p)).
