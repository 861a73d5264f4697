(** Human readable numbers: format.c, format.h. *)
From Coq Require Import String Ascii ZArith NArith List Bool Lia.
From Verif Require Import Base Decimal.
Import ListNotations.
Open Scope string_scope.
Open Scope Z_scope.
Open Scope outcome_scope.

(** format.h 9-17: the ring of 16 string buffers.  A buffer is modelled by the C string it holds; its
    size of 128 bytes is checked on every write. *)
Definition NUM_FORMAT_STRINGS : nat := 16.
Definition FORMAT_STRING_SIZE : nat := 128.
Record format := mkFormat { fpos : nat; fstr : list string }.

(** options.c 278-280, internal.c (kissat_calloc): zero initialized. *)
Definition init_format : format := mkFormat 0 (repeat "" NUM_FORMAT_STRINGS).

(** A returned [char const *]: a string literal or one of the buffers. *)
Inductive cstr := Literal (s : string) | Slot (i : nat).

(** Reading the returned pointer in a given state of the ring. *)
Definition deref (f : format) (c : cstr) : outcome string :=
  match c with
  | Literal s => Ret s
  | Slot i => match nth_error (fstr f) i with Some s => Ret s | None => Undef end
  end.

(** format.c 10-16 [kissat_next_format_string]. *)
Definition next_format_string (f : format) : outcome (nat * format) :=
  do _ <- oassert (Nat.ltb (fpos f) NUM_FORMAT_STRINGS);
  let res := fpos f in
  let p := S (fpos f) in
  Ret (res, mkFormat (if Nat.eqb p NUM_FORMAT_STRINGS then 0%nat else p) (fstr f)).

(** sprintf to a buffer. *)
Definition write_slot (f : format) (i : nat) (s : string) : outcome format :=
  do _ <- oassert (Nat.ltb (String.length s) FORMAT_STRING_SIZE);
  match list_set (fstr f) i s with
  | Some l => Ret (mkFormat (fpos f) l)
  | None => Undef
  end.

(** utilities.h 68-70. *)
Definition is_power_of_two (w : Z) : bool := negb (w =? 0) && (Z.land w (w - 1) =? 0).

(** format.c 20-22: search the exponent ([l] runs to at most 63). *)
Fixpoint find_exponent (fuel : nat) (l w : Z) : outcome Z :=
  match fuel with
  | O => Undef
  | S fuel => if 2 ^ l =? w then Ret l else find_exponent fuel (l + 1) w
  end.

(** format.c 26-27: divide by ten as long as possible. *)
Fixpoint strip_zeros (fuel : nat) (w l : Z) : outcome (Z * Z) :=
  match fuel with
  | O => Fuel
  | S fuel => if w mod 10 =? 0 then strip_zeros fuel (w / 10) (l + 1) else Ret (w, l)
  end.

(** format.c 18-31 [format_count]: the string written. *)
Definition format_count_string (w : Z) : outcome string :=
  if (128 <=? w) && is_power_of_two w then
    do l <- find_exponent 64 0 w; Ret ("2^" ++ print_u l)
  else if (1000 <=? w) && (w mod 1000 =? 0) then
    do (w, l) <- strip_zeros 64 w 0; Ret (print_u w ++ "e" ++ print_u l)
  else Ret (print_u w).

(** format.c 33-37 [kissat_format_count]. *)
Definition format_count (f : format) (w : Z) : outcome (cstr * format) :=
  do (i, f) <- next_format_string f;
  do s <- format_count_string w;
  do f <- write_slot f i s;
  Ret (Slot i, f).

(** format.c 39-55 [kissat_format_value]. *)
Definition format_value (f : format) (boolean : bool) (value : Z) : outcome (cstr * format) :=
  if boolean && negb (value =? 0) then Ret (Literal "true", f)
  else if boolean && (value =? 0) then Ret (Literal "false", f)
  else if value =? INT_MAX then Ret (Literal "INT_MAX", f)
  else if value =? INT_MIN then Ret (Literal "INT_MIN", f)
  else
    do (i, f) <- next_format_string f;
    do s <- (if value <? 0 then do s <- format_count_string (- value); Ret (String "-" s)
             else format_count_string value);
    do f <- write_slot f i s;
    Ret (Slot i, f).

(** format.c 57-71 [kissat_format_bytes]; the addition wraps at 64 bits. *)
Definition format_bytes_string (bytes : Z) : string :=
  if bytes <? 2 ^ 10 then print_u bytes ++ " bytes"
  else if bytes <? 2 ^ 20 then
    print_u bytes ++ " bytes (" ++ print_u (w64 (bytes + 2 ^ 9) / 2 ^ 10) ++ " KB)"
  else if bytes <? 2 ^ 30 then
    print_u bytes ++ " bytes (" ++ print_u (w64 (bytes + 2 ^ 19) / 2 ^ 20) ++ " MB)"
  else
    print_u bytes ++ " bytes (" ++ print_u (w64 (bytes + 2 ^ 29) / 2 ^ 30) ++ " GB)".
Definition format_bytes (f : format) (bytes : Z) : outcome (cstr * format) :=
  do (i, f) <- next_format_string f;
  do f <- write_slot f i (format_bytes_string bytes);
  Ret (Slot i, f).

(** format.c 85-105: one component of a time, appended behind [acc]; [acc = ""] is [tmp == res]. *)
Definition time_part (acc : string) (n : Z) (unit : string) : string :=
  if n =? 0 then acc
  else (acc ++ (if String.eqb acc "" then "" else " ") ++ print_u n ++ unit).

(** format.c 73-107 [kissat_format_time].  The floating point argument is modelled by whether it is
    zero and by its value rounded to an integer (line 77).  If all components are zero nothing is
    written to the buffer. *)
Definition format_time (f : format) (is_zero : bool) (rounded : Z) : outcome (cstr * format) :=
  if is_zero then Ret (Literal "0s", f)
  else
    do (i, f) <- next_format_string f;
    let minutes := rounded / 60 in let rounded := rounded mod 60 in
    let hours := minutes / 60 in let minutes := minutes mod 60 in
    let days := hours / 24 in let hours := hours mod 24 in
    let s := time_part "" days "d" in
    let s := time_part s hours "h" in
    let s := time_part s minutes "m" in
    let s := time_part s rounded "s" in
    do f <- (if String.eqb s "" then Ret f else write_slot f i s);
    Ret (Slot i, f).

(** format.c 109-119 [kissat_format_signs] (64-bit [word]; the bit shifted out becomes zero). *)
Fixpoint signs_string (size : nat) (i : Z) (signs : Z) : string :=
  match size with
  | O => ""
  | S n => String (if (i <? 64) && Z.testbit signs i then "1" else "0") (signs_string n (i + 1) signs)
  end.
Definition format_signs (f : format) (size : nat) (signs : Z) : outcome (cstr * format) :=
  do (i, f) <- next_format_string f;
  do _ <- oassert (Nat.ltb (size + 1) FORMAT_STRING_SIZE);
  do f <- write_slot f i (signs_string size 0 signs);
  Ret (Slot i, f).

(** format.c 121-145 [kissat_format_ordinal]. *)
Definition ordinal_suffix (ordinal : Z) : string :=
  let mod100 := ordinal mod 100 in
  if (10 <=? mod100) && (mod100 <=? 19) then "th"
  else
    let m := mod100 mod 10 in
    if m =? 1 then "st" else if m =? 2 then "nd" else if m =? 3 then "rd" else "th".
Definition format_ordinal (f : format) (ordinal : Z) : outcome (cstr * format) :=
  do (i, f) <- next_format_string f;
  do f <- write_slot f i (print_u ordinal ++ ordinal_suffix ordinal);
  Ret (Slot i, f).

(** All the formatting calls, for reasoning about sequences of calls. *)
Inductive format_call :=
| CallCount (w : Z) | CallValue (b : bool) (v : Z) | CallBytes (w : Z)
| CallTime (is_zero : bool) (rounded : Z) | CallSigns (size : nat) (signs : Z) | CallOrdinal (w : Z).
Definition do_format (f : format) (c : format_call) : outcome (cstr * format) :=
  match c with
  | CallCount w => format_count f w
  | CallValue b v => format_value f b v
  | CallBytes w => format_bytes f w
  | CallTime z r => format_time f z r
  | CallSigns n s => format_signs f n s
  | CallOrdinal w => format_ordinal f w
  end.
Fixpoint do_formats (f : format) (l : list format_call) : outcome format :=
  match l with
  | [] => Ret f
  | c :: l => do (_, f) <- do_format f c; do_formats f l
  end.
(** Arguments in the range of their C types (and of the assertion in line 113). *)
Definition call_ok (c : format_call) : Prop :=
  match c with
  | CallCount w | CallBytes w | CallOrdinal w => 0 <= w < 2 ^ 64
  | CallValue _ v => in_int v
  | CallTime _ r => 0 <= r < 2 ^ 64
  | CallSigns n _ => (n < 127)%nat
  end.
