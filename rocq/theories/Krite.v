(** Writing the simplified formula (krite.c). *)
From Coq Require Import String Ascii ZArith NArith List Bool.
From Verif Require Import Base Decimal Lit Solver Search Api.
Import ListNotations.
Open Scope list_scope.
Open Scope nat_scope.

(** krite.c 14-24: a binary clause is found in the watches of both of its literals and is written for the smaller one.
    After solving the solver is always in the watching mode, so that lines 25-35 (connected mode) are not modelled. *)
Definition write_binary (a : api) (ilit : lit) (w : watch) : list (list Z) :=
  match w with
  | WBinary iother => if iother <? ilit then [] else [[export_literal a ilit; export_literal a iother]]
  | WLarge _ _ => []
  end.
Definition write_binaries (a : api) : list (list Z) :=
  flat_map (fun ilit => flat_map (write_binary a ilit) (watches (sol a) ilit)) (seq 0 (2 * vars (sol a))).
(** krite.c 36-43: the large clauses in the order of the arena. *)
Definition write_clause (a : api) (c : option clause) : list (list Z) :=
  match c with
  | Some c => if negb (c_garbage c) && negb (c_redundant c) then [map (export_literal a) (c_lits c)] else []
  | None => []
  end.
Definition write_clauses (a : api) : list (list Z) :=
  flat_map (fun r => write_clause a (arena (sol a) r)) (seq 0 (next_ref (sol a))).
Definition written (a : api) : list (list Z) := write_binaries a ++ write_clauses a.
(** krite.c 9-11: without the entry for the external index zero. *)
Definition written_variables (a : api) : Z :=
  match imports a with [] => 0 | _ :: _ => Z.of_nat (length (imports a)) - 1 end%Z.

Open Scope string_scope.
Definition newline : string := String (ascii_of_nat 10) EmptyString.
(** The formats "%d " and "0\n" (krite.c 21, 40, 42). *)
Fixpoint write_literals (c : list Z) : string :=
  match c with [] => "0" ++ newline | e :: c => print_d e ++ " " ++ write_literals c end.
Fixpoint write_lines (f : list (list Z)) : string :=
  match f with [] => EmptyString | c :: f => write_literals c ++ write_lines f end.
(** krite.c 8-44.  The number of clauses in the header is the sum of two statistics counters in the code
    (BINIRR_CLAUSES).  The counters are not modelled: the model writes the number of clauses which follow. *)
Definition write_dimacs (a : api) : string :=
  "p cnf " ++ print_u (written_variables a) ++ " " ++ print_u (Z.of_nat (length (written a))) ++ newline ++
  write_lines (written a).
