(** Specification of v-lines: the format of SAT competition output. *)
From Coq Require Import String Ascii ZArith List Bool.
From Verif Require Import Decimal.
Import ListNotations.
Open Scope string_scope.
Open Scope Z_scope.

(** A line: "v" and integers, each preceded by one space; without its new-line at most 78 characters. *)
Definition v_line (l : list Z) : string := "v" ++ String.concat "" (map (fun i => " " ++ print_d i) l).
Fixpoint v_lines (ls : list (list Z)) : string :=
  match ls with [] => "" | l :: ls => v_line l ++ String (ascii_of_nat 10) "" ++ v_lines ls end.
Definition v_lines_ok (ls : list (list Z)) : Prop :=
  Forall (fun l => l <> [] /\ (String.length (v_line l) <= 78)%nat) ls.

(** The integers in the order printed. *)
Definition range (max_var : Z) : list Z := map Z.of_nat (seq 1 (Z.to_nat max_var)).
