(** Total correctness of outcome computations: the computation returns, and its result satisfies [Q]. *)
From Coq Require Import List Bool.
From Verif Require Import Base.
Open Scope outcome_scope.

Definition wp {A} (m : outcome A) (Q : A -> Prop) : Prop :=
  match m with Ret a => Q a | _ => False end.

Lemma wp_ret : forall A (a : A) (Q : A -> Prop), Q a -> wp (Ret a) Q.
Proof. auto. Qed.
Lemma wp_bind : forall A B (m : outcome A) (f : A -> outcome B) Q,
  wp m (fun a => wp (f a) Q) -> wp (obind m f) Q.
Proof. intros A B m f Q H. destruct m; cbn in *; auto. Qed.
Lemma wp_mono : forall A (m : outcome A) (P Q : A -> Prop), wp m P -> (forall a, P a -> Q a) -> wp m Q.
Proof. intros A m P Q H I. destruct m; cbn in *; auto. Qed.
Lemma wp_and : forall A (m : outcome A) (P Q : A -> Prop), wp m P -> wp m Q -> wp m (fun a => P a /\ Q a).
Proof. intros A m P Q H I. destruct m; cbn in *; auto. Qed.
Lemma wp_assert : forall (b : bool) (Q : unit -> Prop), b = true -> Q tt -> wp (oassert b) Q.
Proof. intros b Q -> H. exact H. Qed.
Lemma wp_inv : forall A (m : outcome A) Q, wp m Q -> exists a, m = Ret a /\ Q a.
Proof. intros A m Q H. destruct m; cbn in *; try contradiction. eauto. Qed.
Lemma wp_intro : forall A (m : outcome A) a (Q : A -> Prop), m = Ret a -> Q a -> wp m Q.
Proof. intros A m a Q -> H. exact H. Qed.
