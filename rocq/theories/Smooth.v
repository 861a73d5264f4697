(** Exponential moving averages: smooth.c. *)
From Coq Require Import ZArith QArith List Bool Floats.SpecFloat.
From Verif Require Import Base.
Import ListNotations.
Open Scope outcome_scope.

(** The operations on numbers used by the code. *)
Record arithmetic (F : Type) := mk_arithmetic {
  a_of_int : Z -> F; a_add : F -> F -> F; a_sub : F -> F -> F; a_mul : F -> F -> F; a_div : F -> F -> F;
  a_eqb : F -> F -> bool; a_ltb : F -> F -> bool }.
Arguments a_of_int {F}. Arguments a_add {F}. Arguments a_sub {F}. Arguments a_mul {F}. Arguments a_div {F}. Arguments a_eqb {F}. Arguments a_ltb {F}.

(** The type [double] of the code: IEEE 754 binary64 with rounding to nearest even, as specified by the standard
    library. *)
Definition double_of_int (z : Z) : spec_float := binary_normalize 53 1024 z 0 false.
Definition double : arithmetic spec_float :=
  mk_arithmetic _ double_of_int (SFadd 53 1024) (SFsub 53 1024) (SFmul 53 1024) (SFdiv 53 1024) SFeqb SFltb.
(** Exact arithmetic. *)
Definition exact_numbers : arithmetic Q := mk_arithmetic _ inject_Z Qplus Qminus Qmult Qdiv Qeq_bool (fun x y => negb (Qle_bool y x)).

(** smooth.h 8-14, without the fields for logging *)
Record smooth (F : Type) := mk_smooth { s_value : F; s_biased : F; s_alpha : F; s_beta : F; s_exp : F }.
Arguments s_value {F}. Arguments s_biased {F}. Arguments s_alpha {F}. Arguments s_beta {F}. Arguments s_exp {F}. Arguments mk_smooth {F}.

(** smooth.c 5-23 *)
Definition init_smooth {F} (A : arithmetic F) (window : Z) : outcome (smooth F) :=
  let zero := a_of_int A 0 in
  let one := a_of_int A 1 in
  do _ <- oassert (0 <? window)%Z ;
  let alpha := a_div A one (a_of_int A window) in
  let beta := a_sub A one alpha in
  do _ <- oassert (a_ltb A zero beta) ;
  Ret (mk_smooth zero zero alpha beta one).

(** smooth.c 25-73 *)
Definition update_smooth {F} (A : arithmetic F) (y : F) (s : smooth F) : outcome (smooth F) :=
  let zero := a_of_int A 0 in
  let one := a_of_int A 1 in
  let delta := a_sub A y (s_biased s) in
  let new_biased := a_add A (s_biased s) (a_mul A (s_alpha s) delta) in
  if negb (a_eqb A (s_exp s) zero) then
    let new_exp := a_mul A (s_exp s) (s_beta s) in
    do _ <- oassert (a_ltb A new_exp one) ;
    if a_eqb A new_exp (s_exp s) then Ret (mk_smooth new_biased new_biased (s_alpha s) (s_beta s) zero)
    else
      let d := a_sub A one new_exp in
      do _ <- oassert (a_ltb A zero d) ;
      Ret (mk_smooth (a_div A new_biased d) new_biased (s_alpha s) (s_beta s) new_exp)
  else Ret (mk_smooth new_biased new_biased (s_alpha s) (s_beta s) (s_exp s)).

Fixpoint update_all {F} (A : arithmetic F) (ys : list F) (s : smooth F) : outcome (smooth F) :=
  match ys with
  | [] => Ret s
  | y :: ys => do s <- update_smooth A y s ; update_all A ys s
  end.

(** The average after feeding [ys] into a new average. *)
Definition average {F} (A : arithmetic F) (window : Z) (ys : list F) : outcome F :=
  do s <- init_smooth A window ;
  do s <- update_all A ys s ;
  Ret (s_value s).
