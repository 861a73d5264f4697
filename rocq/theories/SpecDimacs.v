(** Specification of DIMACS texts: which byte sequences are accepted and what they mean.
    Independent of the parser: texts are renderings of syntax trees. *)
From Coq Require Import String ZArith List Bool.
From Verif Require Import Base Parse.
Import ListNotations.
Open Scope list_scope.
Open Scope Z_scope.

Notation text := (list Z).

(** Decimal numbers as lists of digit bytes. *)
Definition is_digit_byte (c : Z) : Prop := 48 <= c <= 57.
Definition number (ds : text) : Prop := ds <> [] /\ Forall is_digit_byte ds.
Definition value (ds : text) : Z := fold_left (fun a c => a * 10 + (c - 48)) ds 0.

Definition blank (c : Z) : Prop := c = 32 \/ c = 9.
(** Blanks are not allowed in pedantic mode. *)
Definition blanks (strict : strictness) (t : text) : Prop :=
  Forall blank t /\ (strict = Pedantic -> t = []).

(** A new-line, optionally preceded by a carriage return. *)
Definition eol (t : text) : Prop := t = [10] \/ t = [13; 10].

(** Lines before the header. *)
Inductive header_line (strict : strictness) : text -> Prop :=
| hl_empty : forall t, strict <> Pedantic -> eol t -> header_line strict t
| hl_comment : forall t e, Forall (fun c => c <> 10 /\ c <> 13) t -> eol e ->
    header_line strict (99 :: t ++ e).

(** The header "p cnf <variables> <clauses>". *)
Inductive header_text (strict : strictness) : text -> Z -> Z -> Prop :=
| ht : forall lines b1 b2 vs b3 cs b4 e,
    Forall (header_line strict) lines ->
    blanks strict b1 -> blanks strict b2 -> blanks strict b3 -> blanks strict b4 ->
    number vs -> number cs -> value vs <= EXTERNAL_MAX_VAR -> value cs <= UINT64_MAX -> eol e ->
    header_text strict
      (concat lines ++ [112; 32] ++ b1 ++ [99; 110; 102; 32] ++ b2 ++ vs ++ [32] ++ b3 ++ cs ++ b4 ++ e)
      (value vs) (value cs).

(** White space between literals. *)
Inductive space : text -> Prop :=
| sp_char : forall c, c = 32 \/ c = 9 \/ c = 10 -> space [c]
| sp_crlf : space [13; 10]
| sp_comment : forall t, Forall (fun c => c <> 10) t -> space (99 :: t ++ [10]).

(** White space that ends with the file; not possible in pedantic mode. *)
Inductive last_space (strict : strictness) : text -> Prop :=
| ls_none : strict <> Pedantic -> last_space strict []
| ls_comment : forall t, strict <> Pedantic -> Forall (fun c => c <> 10) t -> last_space strict (99 :: t).

(** A literal (or the terminating zero) and the integer it denotes. *)
Inductive literal_text : text -> Z -> Prop :=
| lt_pos : forall ds, number ds -> value ds <= EXTERNAL_MAX_VAR -> literal_text ds (value ds)
| lt_neg : forall d ds, d <> 48 -> number (d :: ds) -> value (d :: ds) <= EXTERNAL_MAX_VAR ->
    literal_text (45 :: d :: ds) (- value (d :: ds)).

(** The body: every literal is followed by white space. *)
Inductive body_text (strict : strictness) : text -> list Z -> Prop :=
| bt_end : body_text strict [] []
| bt_last_comment : forall t, last_space strict (99 :: t) -> body_text strict (99 :: t) []
| bt_space : forall t rest lits, space t -> body_text strict rest lits -> body_text strict (t ++ rest) lits
| bt_literal : forall l n t rest lits, literal_text l n -> space t -> body_text strict rest lits ->
    body_text strict (l ++ t ++ rest) (n :: lits)
| bt_last_literal : forall l n t, literal_text l n -> last_space strict t -> body_text strict (l ++ t) [n].

(** Number of zeros, i.e. of terminated clauses. *)
Definition zeros (lits : list Z) : Z := Z.of_nat (length (filter (fun l => l =? 0) lits)).

(** Constraints relating header and body. *)
Definition consistent (strict : strictness) (variables clauses : Z) (lits : list Z) : Prop :=
  last lits 0 = 0 /\
  (strict <> Relaxed -> Forall (fun l => Z.abs l <= variables) lits /\ zeros lits = clauses).

(** [dimacs strict t variables lits]: the text [t] is a DIMACS file with the given number of
    variables in its header and the given literals (each clause terminated by 0). *)
Definition dimacs (strict : strictness) (t : text) (variables : Z) (lits : list Z) : Prop :=
  exists h bd clauses, t = h ++ bd /\ header_text strict h variables clauses /\
    body_text strict bd lits /\ consistent strict variables clauses lits.

(** Literals of a list of clauses. *)
Definition flatten (clauses : list (list Z)) : list Z := concat (map (fun c => c ++ [0]) clauses).
