(** Reluctant doubling: reluctant.c, reluctant.h. *)
From Coq Require Import ZArith NArith List Bool Lia.
From Verif Require Import Base.
Import ListNotations.
Open Scope Z_scope.
Open Scope outcome_scope.

(** reluctant.h 9-16. *)
Record reluctant := mkReluctant { limited : bool; trigger : bool; period : Z; wait : Z; ru : Z; rv : Z; limit : Z }.

(** reluctant.c 4-14 [kissat_enable_reluctant] (with u = v = 1). *)
Definition enable_reluctant (period limit : Z) : reluctant :=
  let period := if negb (limit =? 0) && (limit <? period) then limit else period in
  mkReluctant (0 <? limit) false period period 1 1 limit.

(** reluctant.c 20-58 [kissat_tick_reluctant]; failing assertions are undefined. *)
Definition tick_reluctant (r : reluctant) : outcome reluctant :=
  if period r =? 0 then Ret r
  else if trigger r then Ret r
  else
    do _ <- oassert (0 <? wait r);
    let w := w64 (wait r - 1) in
    if negb (w =? 0) then Ret (mkReluctant (limited r) (trigger r) (period r) w (ru r) (rv r) (limit r))
    else
      let u := ru r in
      let v := rv r in
      do uv <- (if Z.land u (w64 (- u)) =? v then Ret (w64 (u + 1), 1)
                else do _ <- oassert (v <=? (2 ^ 64 - 1) / 2); Ret (u, w64 (v * 2)));
      let '(u, v) := uv in
      do _ <- oassert (negb (v =? 0));
      do _ <- oassert (period r <=? (2 ^ 64 - 1) / v);
      let wait := w64 (v * period r) in
      let '(u, v, wait) := if limited r && (limit r <? wait) then (1, 1, period r) else (u, v, wait) in
      Ret (mkReluctant (limited r) true (period r) wait u v (limit r)).

(** reluctant.h 22-27 [kissat_reluctant_triggered]. *)
Definition reluctant_triggered (r : reluctant) : bool * reluctant :=
  if negb (trigger r) then (false, r)
  else (true, mkReluctant (limited r) false (period r) (wait r) (ru r) (rv r) (limit r)).

Fixpoint ticks (n : nat) (r : reluctant) : outcome reluctant :=
  match n with O => Ret r | S n => do r <- tick_reluctant r; ticks n r end.
