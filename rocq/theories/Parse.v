(** DIMACS parser: parse.c. *)
From Coq Require Import String Ascii ZArith NArith List Bool Lia.
From Verif Require Import Base Decimal Options.
Import ListNotations.
Open Scope string_scope.
Open Scope Z_scope.

(** parse.h 11-17: strictness modes. *)
Inductive strictness := Relaxed | Normal | Pedantic.
Definition is_pedantic (m : strictness) : bool := match m with Pedantic => true | _ => false end.
Definition is_relaxed (m : strictness) : bool := match m with Relaxed => true | _ => false end.

(** Bytes are integers from 0 to 255, end of file is -1. *)
Definition EOF : Z := -1.
Definition c_nl : Z := 10.
Definition c_cr : Z := 13.
Definition c_tab : Z := 9.
Definition c_sp : Z := 32.
Definition c_minus : Z := 45.
Definition is_blank (ch : Z) : bool := (ch =? c_sp) || (ch =? c_tab).

(** literal.h 14: largest external variable. *)
Definition EXTERNAL_MAX_VAR : Z := 2 ^ 30 - 1.
Definition UINT64_MAX : Z := 2 ^ 64 - 1.

Section Parser.
(** The input source: [src_next] is [next] without line counting (parse.c 35-44); instances below. *)
Variable R : Type.
Variable src_next : R -> Z * R.
Variable b : build.
Variable strict : strictness.

(** Local variables and side effects of [parse_dimacs]: the source, [lineno], the solver's options,
    the literals passed to [kissat_add] (latest first) and [*max_var_ptr]. *)
Record pst := mkPst { src : R; line : Z; popts : options; added : list Z; maxvar : option Z }.

(** Results: continue, return an error message with the reported line, undefined behaviour, or
    out of fuel. *)
Inductive pres (A : Type) : Type :=
| POk (a : A) (s : pst)
| PErr (msg : string) (reported : Z) (s : pst)
| PUndef
| PFuel.
Arguments POk {A}. Arguments PErr {A}. Arguments PUndef {A}. Arguments PFuel {A}.

Definition M (A : Type) := pst -> pres A.
Definition ret {A} (a : A) : M A := fun s => POk a s.
Definition bind {A B} (m : M A) (f : A -> M B) : M B := fun s =>
  match m s with
  | POk a s' => f a s'
  | PErr e l s' => PErr e l s'
  | PUndef => PUndef
  | PFuel => PFuel
  end.
Notation "x <- m ; f" := (bind m (fun x => f)) (at level 61, m at next level, right associativity).

(** parse.c 35-46 [next] and [NEXT]. *)
Definition NEXT : M Z := fun s =>
  let (ch, r) := src_next (src s) in
  POk ch (mkPst r (if ch =? c_nl then line s + 1 else line s) (popts s) (added s) (maxvar s)).

(** A plain 'return "..."': [*lineno_ptr] still is 1 (parse.c 76). *)
Definition fail {A} (msg : string) : M A := fun s => PErr msg 1 s.
(** parse.c 48-57 [NONL]. *)
Definition NONL {A} (ch : Z) (msg : string) : M A := fun s =>
  PErr msg (if ch =? c_nl then line s - 1 else line s) s.

(** Checked signed 32-bit arithmetic: overflow is undefined. *)
Definition int_op (z : Z) : M Z := fun s =>
  if (INT_MIN <=? z) && (z <=? INT_MAX) then POk z s else PUndef.

(** The idiom "if (ch == '\r') { ch = NEXT (); if (ch != '\n') return ...; }". *)
Definition after_cr (ch : Z) : M Z :=
  if ch =? c_cr then
    c <- NEXT; if negb (c =? c_nl) then fail "expected new-line after carriage-return" else ret c
  else ret ch.

(** The idiom "while (ch == ' ' || ch == '\t') ch = NEXT ();". *)
Fixpoint skip_blanks (fuel : nat) (ch : Z) : M Z :=
  match fuel with
  | O => fun _ => PFuel
  | S fuel => if is_blank ch then c <- NEXT; skip_blanks fuel c else ret ch
  end.
(** ... which is guarded by "if (strict != PEDANTIC_PARSING)" (parse.c 224-228 and others). *)
Definition skip_blanks_unless_pedantic (fuel : nat) (ch : Z) : M Z :=
  if is_pedantic strict then ret ch else skip_blanks fuel ch.

(** parse.c 203-215: the rest of a header comment, entered at label COMPLETE with character [ch]. *)
Fixpoint complete (fuel : nat) (ch : Z) : M unit :=
  match fuel with
  | O => fun _ => PFuel
  | S fuel =>
      if ch =? EOF then fail "end-of-file in header comment"
      else if ch =? c_cr then
        c <- NEXT; if negb (c =? c_nl) then fail "expected new-line after carriage-return" else ret tt
      else
        c <- NEXT; if c =? c_nl then ret tt else complete fuel c
  end.

(** parse.c 105-119: label START, skip blanks up to the first other character. *)
Fixpoint comment_start (fuel : nat) : M Z :=
  match fuel with
  | O => fun _ => PFuel
  | S fuel => c <- NEXT; if is_blank c then comment_start fuel else ret c
  end.

(** parse.c 127-135: name of an embedded option.  Result: name (reversed codes) and the next
    character, or [None] after 32 letters. *)
Fixpoint embedded_name (fuel : nat) (pos : nat) (name : string) : M (option (string * Z)) :=
  match fuel with
  | O => fun _ => PFuel
  | S fuel =>
      c <- NEXT;
      if (97 <=? c) && (c <=? 122) then
        let name := append name (String (ascii_of_N (Z.to_N c)) EmptyString) in
        if Nat.eqb (S pos) 32 then ret None else embedded_name fuel (S pos) name
      else ret (Some (name, c))
  end.

(** parse.c 159-168: value of an embedded option; [inl ch] is "goto COMPLETE". *)
Fixpoint embedded_value (fuel : nat) (arg : Z) : M (Z + Z * Z) :=
  match fuel with
  | O => fun _ => PFuel
  | S fuel =>
      c <- NEXT;
      if isdigit c then
        if INT_MAX / 10 <? arg then ret (inl c)
        else
          a <- int_op (arg * 10);
          if INT_MAX - (c - 48) <? a then ret (inl c)
          else a <- int_op (a + (c - 48)); embedded_value fuel a
      else ret (inr (arg, c))
  end.

(** Lift the option functions. *)
Definition lift {A} (x : outcome A) : M A := fun s =>
  match x with Ret a => POk a s | Undef => PUndef | Abort => PUndef | Fuel => PFuel end.
Definition get_opts : M options := fun s => POk (popts s) s.
Definition set_opts (os : options) : M unit := fun s =>
  POk tt (mkPst (src s) (line s) os (added s) (maxvar s)).

(** GET_OPTION (embedded), parse.c 122; only in EMBEDDED builds (line 121). *)
Definition embedded_enabled : M bool :=
  if b_embedded b then
    os <- get_opts; v <- lift (options_get b os "embedded"); ret (negb (v =? 0))
  else ret false.

(** parse.c 124-198: an embedded option, after the first '-'. *)
Definition embedded (fuel : nat) : M unit :=
  c <- NEXT;
  if negb (c =? c_minus) then complete fuel c
  else
    nc <- embedded_name fuel 0 EmptyString;
    match nc with
    | None =>
        (* "goto COMPLETE" with [ch] the 32nd letter: any letter behaves the same there *)
        complete fuel 97
    | Some (name, c) =>
        c <- after_cr c;
        if c =? c_nl then ret tt
        else if negb (c =? 61) then complete fuel c
        else
          c <- NEXT;
          sc <- (if c =? c_minus then c <- NEXT; ret (-1, c) else ret (1, c));
          let (sign, c) := sc : Z * Z in
          if negb (isdigit c) then complete fuel c
          else
            v <- embedded_value fuel (c - 48);
            match v with
            | inl c => complete fuel c
            | inr (arg, c) =>
                c <- skip_blanks fuel c;
                c <- after_cr c;
                if negb (c =? c_nl) then complete fuel c
                else
                  arg <- int_op (arg * sign);
                  i <- lift (options_has b name);
                  match i with
                  | None => ret tt
                  | Some i =>
                      os <- get_opts;
                      r <- lift (options_set_opt b os i arg);
                      set_opts (snd r)
                  end
            end
    end.

(** parse.c 103-216: a header comment after the 'c'. *)
Definition header_comment (fuel : nat) : M unit :=
  c <- comment_start fuel;
  if c =? c_nl then ret tt
  else if c =? c_cr then
    c <- NEXT; if negb (c =? c_nl) then fail "expected new-line after carriage-return" else ret tt
  else if c =? EOF then fail "end-of-file in header comment"
  else
    e <- embedded_enabled;
    if (c =? c_minus) && e then embedded fuel
    else c <- NEXT; if c =? c_nl then ret tt else complete fuel c.

(** parse.c 79-218: everything up to and including the 'p'. *)
Fixpoint header_lines (fuel : nat) (first : bool) : M unit :=
  match fuel with
  | O => fun _ => PFuel
  | S fuel =>
      ch <- NEXT;
      if ch =? chr "p" then ret tt
      else if ch =? EOF then
        if first then fail "empty file" else fail "end-of-file before header"
      else if ch =? c_cr then
        ch <- NEXT;
        if negb (ch =? c_nl) then fail "expected new-line after carriage-return"
        else if is_pedantic strict then NONL ch "unexpected empty line"
        else header_lines fuel false
      else if ch =? c_nl then
        if is_pedantic strict then NONL ch "unexpected empty line" else header_lines fuel false
      else if ch =? chr "c" then
        _ <- header_comment fuel; header_lines fuel false
      else fail "expected 'c' or 'p' at start of line"
  end.

(** parse.c 249-257 and 382-391: the remaining digits of an int at most [EXTERNAL_MAX_VAR]; yields
    the value and the first character that is not a digit. *)
Fixpoint int_digits (fuel : nat) (msg : string) (acc : Z) : M (Z * Z) :=
  match fuel with
  | O => fun _ => PFuel
  | S fuel =>
      ch <- NEXT;
      if isdigit ch then
        if EXTERNAL_MAX_VAR / 10 <? acc then fail msg
        else
          acc <- int_op (acc * 10);
          digit <- int_op (ch - 48);
          if EXTERNAL_MAX_VAR - digit <? acc then fail msg
          else acc <- int_op (acc + digit); int_digits fuel msg acc
      else ret (acc, ch)
  end.

(** parse.c 279-287: the same for uint64_t (wrap-around made explicit). *)
Fixpoint u64_digits (fuel : nat) (acc : Z) : M (Z * Z) :=
  match fuel with
  | O => fun _ => PFuel
  | S fuel =>
      ch <- NEXT;
      if isdigit ch then
        if UINT64_MAX / 10 <? acc then fail "number of clauses too large"
        else
          let acc := w64 (acc * 10) in
          let digit := ch - 48 in
          if w64 (UINT64_MAX - digit) <? acc then fail "number of clauses too large"
          else u64_digits fuel (w64 (acc + digit))
      else ret (acc, ch)
  end.

(** Expect one particular character (parse.c 220-241). *)
Definition expect (ch c : Z) (msg : string) : M unit := if negb (ch =? c) then NONL ch msg else ret tt.

(** parse.c 219-306: the header after the 'p'; yields the numbers of variables and clauses. *)
Definition header (fuel : nat) : M (Z * Z) :=
  ch <- NEXT; _ <- expect ch c_sp "expected space after 'p'";
  ch <- NEXT; ch <- skip_blanks_unless_pedantic fuel ch; _ <- expect ch (chr "c") "expected 'c' after 'p '";
  ch <- NEXT; _ <- expect ch (chr "n") "expected 'n' after 'p c'";
  ch <- NEXT; _ <- expect ch (chr "f") "expected 'n' after 'p cn'";
  ch <- NEXT; _ <- expect ch c_sp "expected space after 'p cnf'";
  ch <- NEXT; ch <- skip_blanks_unless_pedantic fuel ch;
  if negb (isdigit ch) then NONL ch "expected digit after 'p cnf '"
  else
    vc <- int_digits fuel "maximum variable too large" (ch - 48);
    let (variables, ch) := vc : Z * Z in
    if ch =? EOF then fail "unexpected end-of-file while parsing maximum variable"
    else
      ch <- after_cr ch;
      if ch =? c_nl then NONL ch "unexpected new-line after maximum variable"
      else if negb (ch =? c_sp) then fail "expected space after maximum variable"
      else
        ch <- NEXT; ch <- skip_blanks_unless_pedantic fuel ch;
        if negb (isdigit ch) then fail "expected number of clauses after maximum variable"
        else
          cc <- u64_digits fuel (ch - 48);
          let (clauses, ch) := cc : Z * Z in
          if ch =? EOF then fail "unexpected end-of-file while parsing number of clauses"
          else
            ch <- skip_blanks_unless_pedantic fuel ch;
            ch <- after_cr ch;
            if ch =? EOF then fail "unexpected end-of-file after parsing number of clauses"
            else if negb (ch =? c_nl) then fail "expected new-line after parsing number of clauses"
            else ret (variables, clauses).

(** parse.c 309-310. *)
Definition set_max_var (v : Z) : M unit := fun s =>
  POk tt (mkPst (src s) (line s) (popts s) (added s) (Some v)).
(** parse.c 417: the call [kissat_add (solver, lit)] is recorded. *)
Definition add (lit : Z) : M unit := fun s =>
  POk tt (mkPst (src s) (line s) (popts s) (lit :: added s) (maxvar s)).

(** parse.c 329-335 and 408-415: a comment in the body; yields the final new-line or EOF. *)
Fixpoint body_comment (fuel : nat) (msg : string) : M Z :=
  match fuel with
  | O => fun _ => PFuel
  | S fuel =>
      ch <- NEXT;
      if ch =? c_nl then ret ch
      else if ch =? EOF then if is_pedantic strict then fail msg else ret ch
      else body_comment fuel msg
  end.

(** parse.c 342-419: a literal or zero starting with character [ch]; returns [lit]. *)
Definition literal (fuel : nat) (variables clauses parsed ch : Z) : M Z :=
  sc <- (if ch =? c_minus then
           ch <- NEXT;
           if ch =? EOF then fail "unexpected end-of-file after '-'"
           else if ch =? c_nl then NONL ch "unexpected new-line after '-'"
           else if negb (isdigit ch) then fail "expected digit after '-'"
           else if ch =? 48 then fail "expected non-zero digit after '-'"
           else ret (-1, ch)
         else if negb (isdigit ch) then fail "expected digit or '-'"
         else ret (1, ch));
  let (sign, ch) := sc : Z * Z in
  ic <- int_digits fuel "variable index too large" (ch - 48);
  let (idx, ch) := ic : Z * Z in
  ch <- (if ch =? EOF then
           if is_pedantic strict then
             if negb (idx =? 0) then fail "unexpected end-of-file after literal"
             else fail "unexpected end-of-file after trailing zero"
           else ret ch
         else if ch =? c_cr then after_cr ch
         else if ch =? chr "c" then body_comment fuel "unexpected end-of-file in comment after literal"
         else if negb (ch =? c_sp) && negb (ch =? c_tab) && negb (ch =? c_nl) then
           fail "expected white space after literal"
         else ret ch);
  if negb (is_relaxed strict) && (variables <? idx) then
    NONL ch "maximum variable index exceeded (try '--relaxed' parsing)"
  else if negb (idx =? 0) then
    lit <- int_op (sign * idx); ret lit
  else if negb (is_relaxed strict) && (parsed =? clauses) then
    fail "too many clauses (try '--relaxed' parsing)"
  else ret 0.

(** parse.c 419-426: checks at the end of the body. *)
Definition body_end (clauses parsed lit : Z) : M unit :=
  if negb (lit =? 0) then fail "trailing zero missing"
  else if negb (is_relaxed strict) && (parsed <? clauses) then
    if w64 (parsed + 1) =? clauses then fail "one clause missing (try '--relaxed' parsing)"
    else fail "more than one clause missing (try '--relaxed' parsing)"
  else ret tt.

(** parse.c 311-418: the body ([parsed] is a uint64_t). *)
Fixpoint body (fuel : nat) (variables clauses parsed lit : Z) : M unit :=
  match fuel with
  | O => fun _ => PFuel
  | S fuel =>
      ch <- NEXT;
      if is_blank ch || (ch =? c_nl) then body fuel variables clauses parsed lit
      else if ch =? c_cr then
        _ <- after_cr ch; body fuel variables clauses parsed lit
      else if ch =? chr "c" then
        ch <- body_comment fuel "unexpected end-of-file in comment after header";
        if ch =? EOF then body_end clauses parsed lit
        else body fuel variables clauses parsed lit
      else if ch =? EOF then body_end clauses parsed lit
      else
        lit <- literal fuel variables clauses parsed ch;
        _ <- add lit;
        body fuel variables clauses (if lit =? 0 then w64 (parsed + 1) else parsed) lit
  end.

(** parse.c 70-430 [parse_dimacs]. *)
Definition parse_dimacs (fuel : nat) : M unit :=
  _ <- header_lines fuel true;
  vc <- header fuel;
  let (variables, clauses) := vc : Z * Z in
  _ <- set_max_var variables;
  body fuel variables clauses 0 0.

Definition init_pst (os : options) (r : R) : pst := mkPst r 1 os [] None.
End Parser.

Arguments mkPst {R}. Arguments src {R}. Arguments line {R}. Arguments popts {R}. Arguments added {R}. Arguments maxvar {R}.
Arguments POk {R A}. Arguments PErr {R A}. Arguments PUndef {R A}. Arguments PFuel {R A}.

(** ** Sources *)
(** A plain list of bytes. *)
Definition list_next (l : list Z) : Z * list Z :=
  match l with [] => (EOF, []) | c :: l => (c, l) end.

(** parse.c 11-24, 35-44: a buffer filled by [kissat_read] calls.  [chunks] lists the results of the
    successive calls (each of at most 2^20 bytes; an empty result means end of file; once the list is
    exhausted all further reads are empty). *)
Record reader := mkReader { buf : list Z; chunks : list (list Z) }.
Definition fill_buffer (r : reader) : reader :=
  match chunks r with [] => mkReader [] [] | c :: cs => mkReader c cs end.
Definition buffered_next (r : reader) : Z * reader :=
  match buf r with
  | c :: l => (c, mkReader l (chunks r))
  | [] => let r := fill_buffer r in
          match buf r with
          | [] => (EOF, r)
          | c :: l => (c, mkReader l (chunks r))
          end
  end.

(** Parsing a list of bytes with sufficient fuel. *)
Definition parse_list (b : build) (strict : strictness) (os : options) (text : list Z) : pres (list Z) unit :=
  parse_dimacs (list Z) list_next b strict (S (S (length text))) (init_pst (list Z) os text).
Definition parse_chunks (b : build) (strict : strictness) (os : options) (cs : list (list Z)) : pres reader unit :=
  parse_dimacs reader buffered_next b strict (S (S (length (concat cs)))) (init_pst reader os (mkReader [] cs)).

(** Bytes of a string. *)
Fixpoint bytes (s : string) : list Z := match s with EmptyString => [] | String a s => code a :: bytes s end.
