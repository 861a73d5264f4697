(** Radix sorting: rank.h. *)
From Coq Require Import ZArith List Bool Lia Arith.
From Verif Require Import Base Lit.
Import ListNotations.
Open Scope nat_scope.
Open Scope outcome_scope.

Section Radix.
Variable V : Type.
Variable rank : V -> Z.
(** The number of bytes of the type of ranks. *)
Variable bytes : nat.

Definition width : Z := 8 * Z.of_nat bytes.
Definition mask : Z := 255.

(** The state of the macro: [arr] is the array to sort, [tmp] the temporary array if it is allocated, [in_tmp] says
    that [C_RADIX] is the temporary one.  Entries not written yet are [None]. *)
Record radix := mk_radix {
  arr : list (option V); tmp : option (list (option V)); in_tmp : bool;
  counts : Z -> option nat;
  mlower : Z; mupper : Z; bounded : bool; lower : Z; upper : Z }.

Definition zupd (f : Z -> option nat) (i : Z) (x : option nat) (j : Z) : option nat := if (j =? i)%Z then x else f j.

(** The byte of a rank, rank.h 73-74: [S_RADIX] and [M_RADIX] *)
Definition byte (i : nat) (r : Z) : Z := Z.land (Z.shiftr r (8 * Z.of_nat i)) mask.

Definition get_count (f : Z -> option nat) (m : Z) : outcome nat :=
  if (0 <=? m)%Z && (m <? 256)%Z then match f m with Some n => Ret n | None => Undef end else Undef.

(** memset of the counters, rank.h 59-60 *)
Definition clear_counts (st : radix) : outcome (Z -> option nat) :=
  do _ <- oassert ((0 <=? mlower st) && (mlower st <=? mupper st) && (mupper st <? 256))%Z ;
  Ret (fun m => if (mlower st <=? m)%Z && (m <=? mupper st)%Z then Some 0 else counts st m).

(** rank.h 67-80 *)
Fixpoint count_loop (i : nat) (ps : list (option V)) (bounded sorted : bool) (last lower upper : Z)
  (f : Z -> option nat) : outcome (bool * Z * Z * (Z -> option nat)) :=
  match ps with
  | [] => Ret (sorted, lower, upper, f)
  | None :: _ => Undef
  | Some p :: ps =>
      let r := rank p in
      let '(lower, upper) := if bounded then (lower, upper) else (Z.land lower r, Z.lor upper r) in
      let m := byte i r in
      let '(sorted, last) := if sorted && (last >? m)%Z then (false, last) else (sorted, m) in
      do n <- get_count f m ;
      count_loop i ps bounded sorted last lower upper (zupd f m (Some (S n)))
  end.

(** rank.h 94-100; [n] is the number of remaining iterations. *)
Fixpoint position_loop (n : nat) (j : Z) (pos : nat) (f : Z -> option nat) : outcome (Z -> option nat) :=
  match n with
  | O => Ret f
  | S n =>
      do delta <- get_count f j ;
      position_loop n (j + 1) (pos + delta) (zupd f j (Some pos))
  end.

(** rank.h 112-118: the counters and the array written *)
Fixpoint distribute_loop (i : nat) (ps : list (option V)) (f : Z -> option nat) (d : list (option V))
  : outcome ((Z -> option nat) * list (option V)) :=
  match ps with
  | [] => Ret (f, d)
  | None :: _ => Undef
  | Some p :: ps =>
      let m := byte i (rank p) in
      do pos <- get_count f m ;
      if pos <? length d then distribute_loop i ps (zupd f m (Some (S pos))) (lset d pos (Some p))
      else Undef
  end.

(** SHIFT_RADIX, rank.h 51-54: the mask shifted to the byte considered *)
Definition shift (i : nat) : Z := Z.shiftl mask (8 * Z.of_nat i) mod 2 ^ width.

Definition same_byte (i : nat) (lower upper : Z) : bool := (Z.land lower (shift i) =? Z.land upper (shift i))%Z.

(** One iteration of the main loop, rank.h 53-121 *)
Definition radix_pass (i : nat) (st : radix) : outcome radix :=
  if bounded st && same_byte i (lower st) (upper st) then Ret st
  else
    do f <- clear_counts st ;
    do cur <- (if in_tmp st then match tmp st with Some b => Ret b | None => Undef end else Ret (arr st)) ;
    do (sorted, lo, up, f) <- count_loop i cur (bounded st) true 0 (lower st) (upper st) f ;
    let ml := byte i lo in
    let mu := byte i up in
    let st1 := mk_radix (arr st) (tmp st) (in_tmp st) f ml mu true lo up in
    if negb (bounded st) && same_byte i lo up then Ret st1
    else if sorted then Ret st1
    else
      do f <- position_loop (Z.to_nat (mu - ml + 1)) ml 0 f ;
      do b <- match tmp st with
              | Some b => Ret b
              | None => do _ <- oassert (negb (in_tmp st)) ; Ret (repeat None (length (arr st)))
              end ;
      do (f, d) <- distribute_loop i cur f (if in_tmp st then arr st else b) ;
      Ret (mk_radix (if in_tmp st then d else arr st) (Some (if in_tmp st then b else d)) (negb (in_tmp st))
                    f ml mu true lo up).

Fixpoint radix_passes (n i : nat) (st : radix) : outcome radix :=
  match n with
  | O => Ret st
  | S n => do st <- radix_pass i st ; radix_passes n (S i) st
  end.

(** CHECK_RANKED, rank.h 8-20, which is part of debug builds only *)
Fixpoint check_ranked (l : list V) : outcome unit :=
  match l with
  | x :: ((y :: _) as l) => do _ <- oassert (rank x <=? rank y)%Z ; check_ranked l
  | _ => Ret tt
  end.

Fixpoint written (l : list (option V)) : outcome (list V) :=
  match l with
  | [] => Ret []
  | None :: _ => Undef
  | Some x :: l => do l <- written l ; Ret (x :: l)
  end.

(** RADIX_SORT, rank.h 22-131 *)
Definition radix_sort (a : list V) : outcome (list V) :=
  if length a <=? 1 then Ret a
  else
    do st <- radix_passes bytes 0
      (mk_radix (map Some a) None false (fun _ => None) 0 mask false (2 ^ width - 1) 0) ;
    do res <- (if in_tmp st then match tmp st with Some b => Ret b | None => Undef end else Ret (arr st)) ;
    do res <- written res ;
    do _ <- check_ranked res ;
    Ret res.
End Radix.
