(** Parsing does not depend on how the input is split into reads: a relational argument. *)
From Coq Require Import String Ascii ZArith NArith List Bool Lia.
From Verif Require Import Base Decimal Options Parse.
Import ListNotations.
Open Scope string_scope.
Open Scope Z_scope.

Section Relational.
Variables R1 R2 : Type.
Variable next1 : R1 -> Z * R1.
Variable next2 : R2 -> Z * R2.
Variable rel : R1 -> R2 -> Prop.
Hypothesis next_rel : forall r1 r2, rel r1 r2 ->
  fst (next1 r1) = fst (next2 r2) /\ rel (snd (next1 r1)) (snd (next2 r2)).
Variable b : build.
Variable strict : strictness.

Definition pst_rel (s1 : pst R1) (s2 : pst R2) : Prop :=
  rel (src s1) (src s2) /\ line s1 = line s2 /\ popts s1 = popts s2 /\ added s1 = added s2 /\ maxvar s1 = maxvar s2.

(** Equal results up to the source. *)
Definition pres_rel {A} (x : pres R1 A) (y : pres R2 A) : Prop :=
  match x, y with
  | POk a s1, POk a' s2 => a = a' /\ pst_rel s1 s2
  | PErr e l s1, PErr e' l' s2 => e = e' /\ l = l' /\ pst_rel s1 s2
  | PUndef, PUndef => True
  | PFuel, PFuel => True
  | _, _ => False
  end.

Definition mrel {A} (m1 : M R1 A) (m2 : M R2 A) : Prop :=
  forall s1 s2, pst_rel s1 s2 -> pres_rel (m1 s1) (m2 s2).

Lemma mrel_ret : forall A (a : A), mrel (ret _ a) (ret _ a).
Proof. intros A a s1 s2 H. cbn. auto. Qed.

Lemma mrel_bind : forall A B (m1 : M R1 A) (m2 : M R2 A) (f1 : A -> M R1 B) (f2 : A -> M R2 B),
  mrel m1 m2 -> (forall a, mrel (f1 a) (f2 a)) -> mrel (bind _ m1 f1) (bind _ m2 f2).
Proof.
  intros A B m1 m2 f1 f2 Hm Hf s1 s2 H. unfold bind. specialize (Hm s1 s2 H).
  destruct (m1 s1), (m2 s2); cbn in Hm; try contradiction; cbn; auto.
  destruct Hm as [-> Hs]. apply Hf. auto.
Qed.

Lemma mrel_NEXT : mrel (NEXT _ next1) (NEXT _ next2).
Proof.
  intros s1 s2 (Hr & Hl & Ho & Ha & Hm). unfold NEXT. pose proof (next_rel _ _ Hr) as [E Hr'].
  destruct (next1 (src s1)) as [c1 r1], (next2 (src s2)) as [c2 r2]. cbn in *. subst c2.
  split; auto. repeat split; cbn; auto. now rewrite Hl.
Qed.

Lemma mrel_fail : forall A msg, mrel (@fail R1 A msg) (@fail R2 A msg).
Proof. intros A msg s1 s2 H. cbn. auto. Qed.

Lemma mrel_NONL : forall A ch msg, mrel (@NONL R1 A ch msg) (@NONL R2 A ch msg).
Proof. intros A ch msg s1 s2 H. cbn. splits; auto. destruct H as (_ & -> & _). reflexivity. Qed.

Lemma mrel_int_op : forall z, mrel (int_op R1 z) (int_op R2 z).
Proof. intros z s1 s2 H. unfold int_op. destruct (_ && _); cbn; auto. Qed.

Lemma mrel_fuel : forall A, mrel (fun _ : pst R1 => @PFuel R1 A) (fun _ : pst R2 => @PFuel R2 A).
Proof. intros A s1 s2 H. exact I. Qed.

Lemma mrel_lift : forall A (x : outcome A), mrel (lift R1 x) (lift R2 x).
Proof. intros A [a| | |] s1 s2 H; cbn; auto. Qed.

Lemma mrel_get_opts : mrel (get_opts R1) (get_opts R2).
Proof. intros s1 s2 H. cbn. split; auto. apply H. Qed.

Lemma mrel_set_opts : forall os, mrel (set_opts R1 os) (set_opts R2 os).
Proof. intros os s1 s2 (? & ? & ? & ? & ?). cbn. repeat split; auto. Qed.

Lemma mrel_set_max_var : forall v, mrel (set_max_var R1 v) (set_max_var R2 v).
Proof. intros v s1 s2 (? & ? & ? & ? & ?). cbn. repeat split; auto. Qed.

Lemma mrel_add : forall l, mrel (add R1 l) (add R2 l).
Proof. intros l s1 s2 (? & ? & ? & ? & ?). cbn. repeat split; cbn; auto. congruence. Qed.

Hint Resolve mrel_ret mrel_NEXT mrel_fail mrel_NONL mrel_int_op mrel_fuel mrel_lift mrel_get_opts
  mrel_set_opts mrel_set_max_var mrel_add : mrel.

Ltac mstep := repeat (first
  [ progress eauto with mrel
  | apply mrel_bind; [|intros ?]
  | match goal with
    | |- mrel (if ?c then _ else _) _ => destruct c
    | |- mrel (let (_, _) := ?p in _) _ => destruct p
    | |- mrel (match ?p with _ => _ end) _ => destruct p
    end ]).

Lemma mrel_after_cr : forall ch, mrel (after_cr R1 next1 ch) (after_cr R2 next2 ch).
Proof. intros. unfold after_cr. mstep. Qed.
Hint Resolve mrel_after_cr : mrel.

Lemma mrel_skip_blanks : forall fuel ch, mrel (skip_blanks R1 next1 fuel ch) (skip_blanks R2 next2 fuel ch).
Proof. induction fuel; intros; cbn; mstep. Qed.
Hint Resolve mrel_skip_blanks : mrel.
Lemma mrel_skip_blanks' : forall fuel ch,
  mrel (skip_blanks_unless_pedantic R1 next1 strict fuel ch) (skip_blanks_unless_pedantic R2 next2 strict fuel ch).
Proof. intros. unfold skip_blanks_unless_pedantic. mstep. Qed.
Hint Resolve mrel_skip_blanks' : mrel.

Lemma mrel_complete : forall fuel ch, mrel (complete R1 next1 fuel ch) (complete R2 next2 fuel ch).
Proof. induction fuel; intros; cbn; mstep. Qed.
Hint Resolve mrel_complete : mrel.
Lemma mrel_comment_start : forall fuel, mrel (comment_start R1 next1 fuel) (comment_start R2 next2 fuel).
Proof. induction fuel; intros; cbn; mstep. Qed.
Hint Resolve mrel_comment_start : mrel.
Lemma mrel_embedded_name : forall fuel pos name, mrel (embedded_name R1 next1 fuel pos name) (embedded_name R2 next2 fuel pos name).
Proof. induction fuel; intros; cbn [embedded_name]; mstep. Qed.
Hint Resolve mrel_embedded_name : mrel.
Lemma mrel_embedded_value : forall fuel a, mrel (embedded_value R1 next1 fuel a) (embedded_value R2 next2 fuel a).
Proof. induction fuel; intros; cbn [embedded_value]; mstep. Qed.
Hint Resolve mrel_embedded_value : mrel.
Lemma mrel_embedded_enabled : mrel (embedded_enabled R1 b) (embedded_enabled R2 b).
Proof. unfold embedded_enabled. mstep. Qed.
Hint Resolve mrel_embedded_enabled : mrel.
Lemma mrel_embedded : forall fuel, mrel (embedded R1 next1 b fuel) (embedded R2 next2 b fuel).
Proof. intros. unfold embedded. mstep. Qed.
Hint Resolve mrel_embedded : mrel.
Lemma mrel_header_comment : forall fuel, mrel (header_comment R1 next1 b fuel) (header_comment R2 next2 b fuel).
Proof. intros. unfold header_comment. mstep. Qed.
Hint Resolve mrel_header_comment : mrel.
Lemma mrel_header_lines : forall fuel first,
  mrel (header_lines R1 next1 b strict fuel first) (header_lines R2 next2 b strict fuel first).
Proof. induction fuel; intros; cbn [header_lines]; mstep. Qed.
Hint Resolve mrel_header_lines : mrel.
Lemma mrel_int_digits : forall fuel msg a, mrel (int_digits R1 next1 fuel msg a) (int_digits R2 next2 fuel msg a).
Proof. induction fuel; intros; cbn [int_digits]; mstep. Qed.
Hint Resolve mrel_int_digits : mrel.
Lemma mrel_u64_digits : forall fuel a, mrel (u64_digits R1 next1 fuel a) (u64_digits R2 next2 fuel a).
Proof. induction fuel; intros; cbn [u64_digits]; cbv zeta; mstep. Qed.
Hint Resolve mrel_u64_digits : mrel.
Lemma mrel_expect : forall ch c msg, mrel (expect R1 ch c msg) (expect R2 ch c msg).
Proof. intros. unfold expect. mstep. Qed.
Hint Resolve mrel_expect : mrel.
Lemma mrel_header : forall fuel, mrel (header R1 next1 strict fuel) (header R2 next2 strict fuel).
Proof. intros. unfold header. mstep. Qed.
Hint Resolve mrel_header : mrel.
Lemma mrel_body_comment : forall fuel msg, mrel (body_comment R1 next1 strict fuel msg) (body_comment R2 next2 strict fuel msg).
Proof. induction fuel; intros; cbn [body_comment]; mstep. Qed.
Hint Resolve mrel_body_comment : mrel.
Lemma mrel_literal : forall fuel v c p ch, mrel (literal R1 next1 strict fuel v c p ch) (literal R2 next2 strict fuel v c p ch).
Proof. intros. unfold literal. mstep. Qed.
Hint Resolve mrel_literal : mrel.
Lemma mrel_body_end : forall c p l, mrel (body_end R1 strict c p l) (body_end R2 strict c p l).
Proof. intros. unfold body_end. mstep. Qed.
Hint Resolve mrel_body_end : mrel.
Lemma mrel_body : forall fuel v c p l, mrel (body R1 next1 strict fuel v c p l) (body R2 next2 strict fuel v c p l).
Proof. induction fuel; intros; cbn [body]; mstep. Qed.
Hint Resolve mrel_body : mrel.
Lemma mrel_parse_dimacs : forall fuel, mrel (parse_dimacs R1 next1 b strict fuel) (parse_dimacs R2 next2 b strict fuel).
Proof. intros. unfold parse_dimacs. mstep. Qed.
End Relational.

(** A reader represents the bytes still to come. *)
Definition flat_rel (r : reader) (l : list Z) : Prop :=
  l = app (buf r) (concat (chunks r)) /\ Forall (fun c => c <> []) (chunks r).

Lemma flat_rel_next : forall r l, flat_rel r l ->
  fst (buffered_next r) = fst (list_next l) /\ flat_rel (snd (buffered_next r)) (snd (list_next l)).
Proof.
  intros [bf cs] l [-> F]. unfold buffered_next, flat_rel. cbn [buf chunks] in *.
  destruct bf as [|c bf]; cbn [app list_next fst snd buf chunks]; auto.
  unfold fill_buffer. cbn [chunks]. destruct cs as [|ch cs]; cbn [buf chunks concat list_next fst snd app].
  - auto.
  - inversion F; subst. destruct ch as [|c ch]; [congruence|]. cbn. auto.
Qed.

(** What a caller observes of a parse. *)
Definition observe {R} (x : pres R unit) : option (option (string * Z) * options * list Z * option Z) :=
  match x with
  | POk _ s => Some (None, popts s, added s, maxvar s)
  | PErr e l s => Some (Some (e, l), popts s, added s, maxvar s)
  | _ => None
  end.

Lemma parse_chunks_flat : forall b strict os cs, Forall (fun c => c <> []) cs ->
  observe (parse_chunks b strict os cs) = observe (parse_list b strict os (concat cs)).
Proof.
  intros b strict os cs F. unfold parse_chunks, parse_list.
  pose proof (mrel_parse_dimacs reader (list Z) buffered_next list_next flat_rel flat_rel_next b strict
    (S (S (length (concat cs)))) (init_pst reader os (mkReader [] cs)) (init_pst (list Z) os (concat cs))) as P.
  assert (I : pst_rel reader (list Z) flat_rel (init_pst reader os (mkReader [] cs)) (init_pst (list Z) os (concat cs))).
  { repeat split; cbn; auto. }
  specialize (P I).
  destruct (parse_dimacs reader _ _ _ _ _), (parse_dimacs (list Z) _ _ _ _ _); cbn in *; try contradiction; auto.
  - destruct P as (_ & _ & _ & -> & -> & ->). reflexivity.
  - destruct P as (-> & -> & _ & _ & -> & -> & ->). reflexivity.
Qed.
