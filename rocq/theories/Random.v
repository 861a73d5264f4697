(** Pseudo random numbers: random.h. *)
From Coq Require Import ZArith NArith List Bool Lia.
From Verif Require Import Base.
Import ListNotations.
Open Scope Z_scope.
Open Scope outcome_scope.

(** random.h 10-14 [kissat_next_random64]: the result is the new state. *)
Definition next_random64 (rng : Z) : Z := w64 (w64 (rng * 6364136223846793005) + 1442695040888963407).
(** random.h 16-18 [kissat_next_random32]. *)
Definition next_random32 (rng : Z) : Z * Z := let rng := next_random64 rng in (Z.shiftr rng 32, rng).

(** Rounding a non-negative integer to 53 significant bits, ties to even: the IEEE 754 result of a
    double precision multiplication whose exact result is this integer (times a power of two). *)
Definition round53 (x : Z) : Z :=
  if x <? 2 ^ 53 then x
  else
    let ulp := 2 ^ (Z.log2 x - 52) in
    let q := x / ulp in
    let rest := x mod ulp in
    if (ulp <? 2 * rest) || ((2 * rest =? ulp) && Z.odd q) then (q + 1) * ulp else q * ulp.

(** random.h 20-34 [kissat_pick_random].  [fraction] is [tmp / 2^32], exactly representable, so the
    double product [delta * fraction] is [round53 (delta * tmp) / 2^32], truncated by the conversion
    to [unsigned].  Asserts as undefined. *)
Definition pick_random (rng l r : Z) : outcome (Z * Z) :=
  do _ <- oassert (l <=? r);
  if l =? r then Ret (l, rng)
  else
    let delta := w32 (r - l) in
    let '(tmp, rng) := next_random32 rng in
    do _ <- oassert (tmp <? 2 ^ 32);
    let scaled := round53 (delta * tmp) / 2 ^ 32 in
    do _ <- oassert (scaled <? delta);
    let res := w32 (l + scaled) in
    do _ <- oassert ((l <=? res) && (res <? r));
    Ret (res, rng).

(** random.h 36-38 [kissat_pick_bool]. *)
Definition pick_bool (rng : Z) : outcome (bool * Z) :=
  do x <- pick_random rng 0 2;
  let '(n, rng) := x in Ret (negb (n =? 0), rng).

(** A sequence of calls with the given ranges. *)
Fixpoint picks (rng : Z) (ranges : list (Z * Z)) : outcome (list Z) :=
  match ranges with
  | [] => Ret []
  | (l, r) :: ranges =>
      do x <- pick_random rng l r;
      let '(n, rng) := x in
      do ns <- picks rng ranges; Ret (n :: ns)
  end.
