(** Specification of the application interface: what the caller has added. *)
From Coq Require Import ZArith List.
Import ListNotations.
Open Scope Z_scope.

(** The calls before [kissat_solve]. *)
Inductive call := Add (literal : Z) | Reserve (max_var : Z).

(** The arguments of all calls of [kissat_add]. *)
Definition added (calls : list call) : list Z :=
  flat_map (fun c => match c with Add e => [e] | Reserve _ => [] end) calls.

(** Clauses are terminated by zeros; [clause] are the literals read since the last zero. *)
Fixpoint clauses_from (clause : list Z) (literals : list Z) : list (list Z) :=
  match literals with
  | [] => []
  | e :: rest => if e =? 0 then clause :: clauses_from [] rest else clauses_from (clause ++ [e]) rest
  end.
(** The literals after the last zero. *)
Fixpoint open_from (clause : list Z) (literals : list Z) : list Z :=
  match literals with
  | [] => clause
  | e :: rest => if e =? 0 then open_from [] rest else open_from (clause ++ [e]) rest
  end.
Definition formula_of (calls : list call) : list (list Z) := clauses_from [] (added calls).
Definition open_clause (calls : list call) : list Z := open_from [] (added calls).

(** The variable of the literal [e] was used in a call of [kissat_add]. *)
Definition mentioned (calls : list call) (e : Z) : Prop := exists f, In f (added calls) /\ Z.abs f = Z.abs e.
(** A variable with this number or a larger one was added or reserved. *)
Definition covered (calls : list call) (e : Z) : Prop :=
  exists c, In c calls /\ Z.abs e <= match c with Add f => Z.abs f | Reserve n => n end.

(** The truth assignment [v] does not contradict the answers of the solver: [reports e x] says that [x] is the
    value reported for the literal [e]. *)
Definition extends (v : Z -> bool) (reports : Z -> Z -> Prop) : Prop :=
  forall e, 0 < e -> (reports e e -> v e = true) /\ (reports e (- e) -> v e = false).
