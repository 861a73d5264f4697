(** Internal literals, clauses and their semantics. *)
From Coq Require Import ZArith List Bool Lia Arith Permutation.
From Coq Require Import ZifyBool ZifyNat.
From Verif Require Import Base SpecSat.
Import ListNotations.
Open Scope nat_scope.

(** literal.h 26-34: [LIT(IDX) = 2*IDX], [NOT(LIT) = LIT ^ 1], [IDX(LIT) = LIT >> 1],
    [NEGATED(LIT) = LIT & 1]. *)
Notation lit := nat (only parsing).
Definition neg (l : lit) : lit := if Nat.even l then S l else pred l.
Definition idx (l : lit) : nat := Nat.div2 l.
Definition negated (l : lit) : bool := Nat.odd l.

Lemma even_cases : forall l, (exists k, l = 2 * k /\ Nat.even l = true) \/ (exists k, l = 2 * k + 1 /\ Nat.even l = false).
Proof.
  intros l. destruct (Nat.even l) eqn:E.
  - left. apply Nat.even_spec in E. destruct E as [k ->]. eauto.
  - right. assert (O : Nat.odd l = true) by (unfold Nat.odd; now rewrite E).
    apply Nat.odd_spec in O. destruct O as [k ->]. eauto.
Qed.
Lemma even_double : forall k, Nat.even (2 * k) = true.
Proof. intros. apply Nat.even_spec. exists k. lia. Qed.
Lemma even_double1 : forall k, Nat.even (S (2 * k)) = false.
Proof. intros. rewrite Nat.even_succ. unfold Nat.odd. now rewrite even_double. Qed.
Lemma neg_even : forall k, neg (2 * k) = S (2 * k).
Proof. intros. unfold neg. now rewrite even_double. Qed.
Lemma neg_odd : forall k, neg (S (2 * k)) = 2 * k.
Proof. intros. unfold neg. rewrite even_double1. reflexivity. Qed.
Lemma lit_cases : forall l, (exists k, l = 2 * k) \/ (exists k, l = S (2 * k)).
Proof. intros l. destruct (even_cases l) as [[k [-> _]]|[k [-> _]]]; [left|right]; exists k; lia. Qed.
Lemma neg_neg : forall l, neg (neg l) = l.
Proof. intros l. destruct (lit_cases l) as [[k ->]|[k ->]]; now rewrite ?neg_even, ?neg_odd, ?neg_even. Qed.
Lemma neg_neq : forall l, neg l <> l.
Proof. intros l. destruct (lit_cases l) as [[k ->]|[k ->]]; rewrite ?neg_even, ?neg_odd; lia. Qed.
Lemma neg_neq' : forall l, l <> neg l.
Proof. intros l E. symmetry in E. exact (neg_neq l E). Qed.
Lemma neg_inj : forall a b, neg a = neg b -> a = b.
Proof. intros a b H. rewrite <- (neg_neg a), <- (neg_neg b). now f_equal. Qed.
Lemma idx_even : forall k, idx (2 * k) = k.
Proof. intros. unfold idx. apply Nat.div2_double. Qed.
Lemma idx_odd : forall k, idx (S (2 * k)) = k.
Proof. intros. unfold idx. apply Nat.div2_succ_double. Qed.
Lemma idx_neg : forall l, idx (neg l) = idx l.
Proof. intros l. destruct (lit_cases l) as [[k ->]|[k ->]]; rewrite ?neg_even, ?neg_odd, ?idx_even, ?idx_odd; reflexivity. Qed.
Lemma idx_eq : forall a b, idx a = idx b -> a = b \/ a = neg b.
Proof.
  intros a b. destruct (lit_cases a) as [[k ->]|[k ->]]; destruct (lit_cases b) as [[j ->]|[j ->]];
    rewrite ?idx_even, ?idx_odd, ?neg_even, ?neg_odd; intros ->; auto.
Qed.
Lemma neg_swap : forall a b, neg a = b <-> a = neg b.
Proof. intros; split; intros H. - now rewrite <- H, neg_neg. - now rewrite H, neg_neg. Qed.
Lemma idx_lt : forall l n, idx l < n <-> l < 2 * n.
Proof. intros l n. destruct (lit_cases l) as [[k ->]|[k ->]]; rewrite ?idx_even, ?idx_odd; lia. Qed.
Lemma neg_lt : forall l n, neg l < 2 * n <-> l < 2 * n.
Proof. intros. rewrite <- !idx_lt, idx_neg. reflexivity. Qed.

(** ** Semantics over total assignments of the internal variables. *)
Definition assignment := nat -> bool.
Definition tr (v : assignment) (l : lit) : bool := xorb (negated l) (v (idx l)).
Lemma negated_neg : forall l, negated (neg l) = negb (negated l).
Proof.
  intros l. unfold negated, Nat.odd.
  destruct (lit_cases l) as [[k ->]|[k ->]]; rewrite ?neg_even, ?neg_odd, ?even_double, ?even_double1; reflexivity.
Qed.
Lemma tr_neg : forall v l, tr v (neg l) = negb (tr v l).
Proof. intros. unfold tr. rewrite negated_neg, idx_neg. now destruct (negated l), (v (idx l)). Qed.
Definition sat_clause (v : assignment) (c : list lit) : Prop := exists l, In l c /\ tr v l = true.
Definition sat (v : assignment) (f : list (list lit)) : Prop := forall c, In c f -> sat_clause v c.

Lemma sat_incl : forall v f g, incl g f -> sat v f -> sat v g.
Proof. intros v f g I H c C. apply H, I, C. Qed.
Lemma sat_app : forall v f g, sat v (f ++ g) <-> sat v f /\ sat v g.
Proof.
  intros. unfold sat. split.
  - intros H. split; intros; apply H, in_or_app; auto.
  - intros [A B] c C. apply in_app_or in C as [C|C]; auto.
Qed.
Lemma sat_clause_incl : forall v c d, incl c d -> sat_clause v c -> sat_clause v d.
Proof. intros v c d I (l & A & B). exists l. auto. Qed.
Lemma sat_clause_false : forall v c, (forall l, In l c -> tr v l = false) -> ~ sat_clause v c.
Proof. intros v c H (l & A & B). rewrite (H l A) in B. discriminate. Qed.
Lemma sat_clause_dec : forall v c, sat_clause v c \/ (forall l, In l c -> tr v l = false).
Proof.
  intros v c. induction c as [|a c IH].
  - right. intros l [].
  - destruct (tr v a) eqn:E.
    + left. exists a. split; [left|]; auto.
    + destruct IH as [(l & A & B)|IH].
      * left. exists l. split; [right|]; auto.
      * right. intros l [<-|H]; auto.
Qed.

(** ** Unit propagation *)
Notation derive := (derives neg).
Definition negs (c : list lit) : lit -> Prop := fun l => exists m, In m c /\ l = neg m.

Lemma derive_mono : forall db db' (A A' : lit -> Prop) l,
  (forall c, In c db -> exists d, In d db' /\ same_literals c d) -> (forall l, A l -> derive db' A' l) ->
  derive db A l -> derive db' A' l.
Proof.
  intros db db' A A' l D I H. induction H as [l H|c l C L K IH].
  - auto.
  - destruct (D c C) as (d & D1 & D2).
    apply derives_unit with d; auto. { now apply D2. }
    intros k Hk N. apply IH; auto. now apply D2.
Qed.

Lemma derive_sound : forall db A l v,
  derive db A l -> sat v db -> (forall l, A l -> tr v l = true) -> tr v l = true.
Proof.
  intros db A l v H S I. induction H as [l H|c l C L K IH]; auto.
  destruct (S c C) as (k & K1 & K2).
  destruct (Nat.eq_dec k l) as [->|N]; auto.
  specialize (IH k K1 N). rewrite tr_neg, K2 in IH. discriminate.
Qed.

Lemma rup_sound : forall db c v, rup neg db c -> sat v db -> sat_clause v c.
Proof.
  intros db c v (d & D & K) S.
  destruct (sat_clause_dec v c) as [|F]; auto. exfalso.
  destruct (S d D) as (k & K1 & K2).
  pose proof (derive_sound _ _ _ v (K k K1) S) as T.
  rewrite tr_neg, K2 in T. enough (negb true = true) by discriminate. apply T.
  intros l (m & M & ->). rewrite tr_neg, F; auto.
Qed.

Lemma rup_mono : forall db db' c,
  (forall c, In c db -> exists d, In d db' /\ same_literals c d) -> rup neg db c -> rup neg db' c.
Proof.
  intros db db' c D (d & D1 & K). destruct (D d D1) as (d' & D' & E).
  exists d'. split; auto. intros k Hk.
  apply derive_mono with (db := db) (A := fun l => exists m, In m c /\ l = neg m); auto.
  - intros l H0. now apply derives_assumed.
  - apply K. now apply E.
Qed.

Lemma same_literals_refl : forall (c : list lit), same_literals c c.
Proof. intros c l. tauto. Qed.
Lemma same_literals_sym : forall (c d : list lit), same_literals c d -> same_literals d c.
Proof. intros c d H l. symmetry. apply H. Qed.
Lemma same_literals_trans : forall (c d e : list lit), same_literals c d -> same_literals d e -> same_literals c e.
Proof. intros c d e H K l. rewrite (H l). apply K. Qed.
Lemma same_literals_perm : forall (c d : list lit), Permutation c d -> same_literals c d.
Proof. intros c d P l. split; apply Permutation_in; auto. now symmetry. Qed.

(** ** Total list updates *)
Fixpoint lset {A} (l : list A) (i : nat) (x : A) : list A :=
  match l, i with
  | [], _ => []
  | _ :: t, O => x :: t
  | h :: t, S i => h :: lset t i x
  end.
Definition lswap (l : list lit) (i j : nat) : list lit :=
  lset (lset l i (nth j l 0)) j (nth i l 0).

Lemma lset_length : forall A (l : list A) i x, length (lset l i x) = length l.
Proof. induction l as [|h t IH]; intros [|i] x; cbn; auto. Qed.
Lemma lset_nth_same : forall A (l : list A) i x d, i < length l -> nth i (lset l i x) d = x.
Proof. induction l as [|h t IH]; intros [|i] x d H; cbn in *; try lia; auto. apply IH. lia. Qed.
Lemma lset_nth_other : forall A (l : list A) i j x d, j <> i -> nth j (lset l i x) d = nth j l d.
Proof. induction l as [|h t IH]; intros [|i] [|j] x d H; cbn in *; try lia; auto. Qed.
Lemma lset_in : forall A (l : list A) i x y, In y (lset l i x) -> y = x \/ In y l.
Proof.
  induction l as [|h t IH]; intros [|i] x y H; cbn in *; auto.
  - destruct H; auto.
  - destruct H as [->|H]; auto. apply IH in H as [|]; auto.
Qed.

Lemma lset_perm : forall (l : list lit) i x y, i < length l -> nth i l y = y ->
  Permutation (x :: l) (y :: lset l i x).
Proof.
  induction l as [|h t IH]; intros [|i] x y H E; cbn in *; try lia.
  - subst h. apply perm_swap.
  - rewrite perm_swap. rewrite (IH i x y); [|lia|].
    + apply perm_swap.
    + exact E.
Qed.

Lemma lswap_perm : forall l i j, i < length l -> j < length l -> Permutation l (lswap l i j).
Proof.
  intros l i j I J. unfold lswap.
  set (a := nth i l 0). set (b := nth j l 0).
  destruct (Nat.eq_dec i j) as [->|N].
  - assert (E : lset (lset l j b) j a = l).
    { subst a b. clear. revert j. induction l as [|h t IH]; intros [|j]; cbn; auto. f_equal. apply IH. }
    now rewrite E.
  - pose proof (lset_perm l i b a I) as P. 
    assert (P1 : Permutation (b :: l) (a :: lset l i b)).
    { apply P. subst a. apply nth_indep; auto. }
    pose proof (lset_perm (lset l i b) j a b) as Q. rewrite lset_length in Q.
    assert (P2 : Permutation (a :: lset l i b) (b :: lset (lset l i b) j a)).
    { apply Q; auto. rewrite lset_nth_other by auto. subst b. apply nth_indep; auto. }
    apply (Permutation_cons_inv (a := b)). now rewrite P1.
Qed.
