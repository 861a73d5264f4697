(** Shared vocabulary: outcomes of C functions, machine words, list helpers. *)
From Coq Require Import String Ascii ZArith NArith List Bool Lia.
From Coq Require Import ZifyBool ZifyNat ZifyN.
Import ListNotations.
Open Scope Z_scope.

(** The result of running a piece of C code.
    [Undef] is undefined behaviour (or a failed assertion), [Abort] is a controlled abort
    through [kissat_require] / [kissat_fatal] (require.h 4-15, error.c 55-61),
    [Fuel] means that the recursion bound of the model was exhausted. *)
Inductive outcome (A : Type) : Type :=
| Ret (a : A)
| Undef
| Abort
| Fuel.
Arguments Ret {A} a.
Arguments Undef {A}.
Arguments Abort {A}.
Arguments Fuel {A}.

Definition obind {A B} (x : outcome A) (f : A -> outcome B) : outcome B :=
  match x with Ret a => f a | Undef => Undef | Abort => Abort | Fuel => Fuel end.

Declare Scope outcome_scope.
Delimit Scope outcome_scope with outcome.
Notation "'do' x <- e ; f" := (obind e (fun x => f))
  (at level 200, x pattern, e at level 100, f at level 200, right associativity) : outcome_scope.

Definition oassert (b : bool) : outcome unit := if b then Ret tt else Undef.

(** Machine integers: limits.h values on the supported platforms (32-bit int, 64-bit words). *)
Definition INT_MAX : Z := 2147483647.
Definition INT_MIN : Z := -2147483648.
Definition w32 (z : Z) : Z := z mod 4294967296.
Definition w64 (z : Z) : Z := z mod 18446744073709551616.
Definition in_int (z : Z) : Prop := INT_MIN <= z <= INT_MAX.
(** Conversion of an unsigned 32-bit word to int, as done by all supported compilers. *)
Definition to_int (z : Z) : Z := let u := w32 z in if u <=? INT_MAX then u else u - 4294967296.

(** Character codes: a C [char] read as a non-negative int. *)
Definition code (a : ascii) : Z := Z.of_N (N_of_ascii a).
Definition chr (s : string) : Z := match s with String a _ => code a | EmptyString => 0 end.

Lemma code_range : forall a, 0 <= code a < 256.
Proof.
  intros a. unfold code. pose proof (N_ascii_bounded a). lia.
Qed.

Lemma code_inj : forall a b, code a = code b -> a = b.
Proof.
  intros a b H. unfold code in H.
  rewrite <- (ascii_N_embedding a), <- (ascii_N_embedding b). f_equal. lia.
Qed.

(** Point update of arrays modelled as total functions. *)
Definition upd {A} (f : nat -> A) (i : nat) (x : A) : nat -> A :=
  fun j => if Nat.eqb j i then x else f j.

Lemma upd_same : forall A (f : nat -> A) i x, upd f i x i = x.
Proof. intros. unfold upd. now rewrite Nat.eqb_refl. Qed.

Lemma upd_other : forall A (f : nat -> A) i j x, j <> i -> upd f i x j = f j.
Proof. intros. unfold upd. destruct (Nat.eqb_spec j i); congruence. Qed.

(** Replace one element of a list; [None] when the index is out of range. *)
Fixpoint list_set {A} (l : list A) (i : nat) (x : A) : option (list A) :=
  match l, i with
  | [], _ => None
  | _ :: t, O => Some (x :: t)
  | h :: t, S i => match list_set t i x with Some t' => Some (h :: t') | None => None end
  end.

Lemma list_set_length : forall A (l : list A) i x l', list_set l i x = Some l' -> length l' = length l.
Proof.
  induction l as [|h t IH]; intros [|i] x l' H; cbn in H; try discriminate.
  - inversion H; reflexivity.
  - destruct (list_set t i x) eqn:E; [|discriminate]. inversion H; subst; cbn. f_equal; eauto.
Qed.

Lemma list_set_nth_same : forall A (l : list A) i x l', list_set l i x = Some l' -> nth_error l' i = Some x.
Proof.
  induction l as [|h t IH]; intros [|i] x l' H; cbn in H; try discriminate.
  - inversion H; reflexivity.
  - destruct (list_set t i x) eqn:E; [|discriminate]. inversion H; subst; cbn. eauto.
Qed.

Lemma list_set_nth_other : forall A (l : list A) i j x l',
  list_set l i x = Some l' -> j <> i -> nth_error l' j = nth_error l j.
Proof.
  induction l as [|h t IH]; intros [|i] [|j] x l' H N; cbn in H; try discriminate; try congruence.
  - inversion H; reflexivity.
  - destruct (list_set t i x) eqn:E; [|discriminate]. inversion H; reflexivity.
  - destruct (list_set t i x) eqn:E; [|discriminate]. inversion H; subst; cbn. eapply IH; eauto.
Qed.

Lemma list_set_some : forall A (l : list A) i x, (i < length l)%nat -> exists l', list_set l i x = Some l'.
Proof.
  induction l as [|h t IH]; intros [|i] x H; cbn in *; try lia; eauto.
  destruct (IH i x) as [l' E]; [lia|]. rewrite E. eauto.
Qed.

Lemma list_set_none : forall A (l : list A) i x, (length l <= i)%nat -> list_set l i x = None.
Proof.
  induction l as [|h t IH]; intros [|i] x H; cbn in *; try lia; eauto.
  rewrite IH; auto; lia.
Qed.

(** Split conjunctions only (does not introduce or unfold). *)
Ltac splits := repeat match goal with |- _ /\ _ => split end.
