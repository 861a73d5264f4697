(** Facts about compaction: the mapping of the variables and the loops. *)
From Coq Require Import ZArith List Bool Lia Arith Permutation.
From Coq Require Import ZifyBool ZifyNat.
From Verif Require Import Base Lit Hoare Api Queue QueueFacts Compact.
Import ListNotations.
Open Scope nat_scope.
Open Scope outcome_scope.

Lemma wp_ofold : forall A B (f : A -> B -> outcome A) (I : list B -> A -> Prop) l a,
  I [] a -> (forall p x s a, l = p ++ x :: s -> I p a -> wp (f a x) (I (p ++ [x]))) -> wp (ofold f l a) (I l).
Proof.
  intros A B f I l a H0 St.
  assert (G : forall s p a, l = p ++ s -> I p a -> wp (ofold f s a) (I l)).
  { induction s as [|x s IH]; intros p b E Hb; cbn [ofold].
    - apply wp_ret. rewrite E, app_nil_r. exact Hb.
    - apply wp_bind. eapply wp_mono; [exact (St p x s b E Hb)|]. intros c Hc. apply (IH (p ++ [x])); auto.
      rewrite E, <- app_assoc. reflexivity. }
  exact (G l [] a eq_refl H0).
Qed.

Lemma seq_split_at : forall n p x s, seq 0 n = p ++ x :: s -> x = length p /\ x < n /\ p = seq 0 x.
Proof.
  intros n p x s E.
  assert (L : length p < n) by (rewrite <- (seq_length n 0), E, app_length; cbn; lia).
  assert (X : x = length p).
  { assert (N : nth (length p) (seq 0 n) 0 = x) by (rewrite E, app_nth2, Nat.sub_diag by lia; reflexivity).
    rewrite seq_nth in N by lia. lia. }
  split; [exact X|]. split; [lia|].
  assert (F : firstn (length p) (seq 0 n) = p) by (rewrite E, firstn_app, Nat.sub_diag, firstn_all; cbn; now rewrite app_nil_r).
  rewrite <- F at 1. replace n with (x + (n - x)) at 1 by lia. rewrite seq_app, firstn_app, seq_length, X, Nat.sub_diag.
  rewrite firstn_all2 by (rewrite seq_length; lia). cbn. now rewrite app_nil_r.
Qed.

(** Loops over the indices below [n]. *)
Lemma wp_oseq : forall A (f : A -> nat -> outcome A) (I : nat -> A -> Prop) n a,
  I 0 a -> (forall i a, i < n -> I i a -> wp (f a i) (I (S i))) -> wp (ofold f (seq 0 n) a) (I n).
Proof.
  intros A f I n a H0 St. eapply wp_mono; [apply (wp_ofold A nat f (fun p b => I (length p) b))|].
  - exact H0.
  - intros p x s b E Hb. destruct (seq_split_at n p x s E) as (-> & L & _). rewrite app_length. cbn [length].
    rewrite Nat.add_1_r. apply St; auto.
  - intros b. now rewrite seq_length.
Qed.

Lemma signed_neg : forall e l, e <> 0%Z -> signed (- e) l = neg (signed e l).
Proof. intros e l H. unfold signed. destruct (Z.ltb_spec e 0), (Z.ltb_spec (- e) 0); try lia; now rewrite ?neg_neg. Qed.
Lemma signed_signed : forall e l, signed e (signed e l) = l.
Proof. intros e l. unfold signed. destruct (e <? 0)%Z; now rewrite ?neg_neg. Qed.
Lemma idx_signed : forall e l, idx (signed e l) = idx l.
Proof. intros e l. unfold signed. destruct (e <? 0)%Z; now rewrite ?idx_neg. Qed.
Lemma signed_inj : forall e a b, signed e a = signed e b -> a = b.
Proof. intros e a b H. rewrite <- (signed_signed e a), H. apply signed_signed. Qed.

(** A literal with the sign of [l]. *)
Definition with_sign (l m : lit) : lit := if negated l then neg m else m.
Lemma with_sign_neg : forall l m, with_sign (neg l) m = neg (with_sign l m).
Proof. intros. unfold with_sign. rewrite negated_neg. destruct (negated l); cbn; now rewrite ?neg_neg. Qed.
Lemma idx_with_sign : forall l m, idx (with_sign l m) = idx m.
Proof. intros. unfold with_sign. destruct (negated l); now rewrite ?idx_neg. Qed.
Lemma negated_even : forall k, negated (2 * k) = false.
Proof. intros. unfold negated, Nat.odd. now rewrite even_double. Qed.
Lemma negated_odd : forall k, negated (S (2 * k)) = true.
Proof. intros. unfold negated, Nat.odd. now rewrite even_double1. Qed.
Lemma with_sign_even : forall k m, with_sign (2 * k) m = m.
Proof. intros. unfold with_sign. now rewrite negated_even. Qed.
Lemma with_sign_self : forall l, with_sign l (2 * idx l) = l.
Proof.
  intros l. destruct (lit_cases l) as [[k ->]|[k ->]]; unfold with_sign; rewrite ?negated_even, ?negated_odd, ?idx_even, ?idx_odd;
    now rewrite ?neg_even.
Qed.
Lemma with_sign_inj : forall l m m', with_sign l m = with_sign l m' -> m = m'.
Proof. intros l m m'. unfold with_sign. destruct (negated l); auto. apply neg_inj. Qed.

Section Ranks.
Variable st : cstate.
Notation act i := (f_active (k_flags st i)).
Notation fix_ i := (f_fixed (k_flags st i)).
Notation eli i := (f_eliminated (k_flags st i)).

(** The value of a fixed variable. *)
Definition tv (i : nat) : bool := match k_values st (2 * i) with Some b => b | None => true end.

(** The first fixed variable below [n]. *)
Fixpoint first_fixed (n : nat) : option nat :=
  match n with
  | O => None
  | S m => match first_fixed m with Some f => Some f | None => if fix_ m then Some m else None end
  end.
Definition kept (i : nat) : bool := act i || (fix_ i && match first_fixed i with None => true | Some _ => false end).
Fixpoint rank (n : nat) : nat :=
  match n with
  | O => O
  | S m => if kept m then S (rank m) else rank m
  end.
Definition fixed_lit (f : nat) : lit := if tv f then 2 * rank f else S (2 * rank f).
Definition target (i : nat) : lit :=
  if act i then 2 * rank i
  else match first_fixed (S i) with
       | Some f => if tv i then fixed_lit f else neg (fixed_lit f)
       | None => 0
       end.
Definition mlit (l : lit) : lit := with_sign l (target (idx l)).

Lemma first_fixed_some : forall n f, first_fixed n = Some f -> f < n /\ fix_ f = true /\ first_fixed f = None.
Proof.
  induction n as [|n IH]; intros f H; cbn in H; [discriminate|].
  destruct (first_fixed n) as [g|] eqn:E.
  - injection H as <-. destruct (IH g eq_refl) as (A & B & C). split; [lia|auto].
  - destruct (fix_ n) eqn:F; [|discriminate]. injection H as <-. auto.
Qed.
Lemma first_fixed_none : forall n i, first_fixed n = None -> i < n -> fix_ i = false.
Proof.
  induction n as [|n IH]; intros i H L; [lia|]. cbn in H. destruct (first_fixed n) eqn:E; [discriminate|].
  destruct (fix_ n) eqn:F; [discriminate|]. destruct (Nat.eq_dec i n) as [->|N]; auto. apply IH; auto. lia.
Qed.
Lemma first_fixed_mono : forall n m f, first_fixed n = Some f -> n <= m -> first_fixed m = Some f.
Proof. intros n m f H L. induction L; auto. cbn. now rewrite IHL. Qed.
Lemma first_fixed_unique : forall n m f g, first_fixed n = Some f -> first_fixed m = Some g -> f = g.
Proof.
  intros n m f g A B. destruct (Nat.le_ge_cases n m) as [L|L].
  - rewrite (first_fixed_mono n m f A L) in B. congruence.
  - rewrite (first_fixed_mono m n g B L) in A. congruence.
Qed.
Lemma first_fixed_exists : forall i, fix_ i = true -> exists f, first_fixed (S i) = Some f /\ f <= i.
Proof.
  intros i F. destruct (first_fixed (S i)) as [f|] eqn:E.
  - exists f. split; auto. apply first_fixed_some in E. lia.
  - rewrite (first_fixed_none (S i) i E) in F by lia. discriminate.
Qed.

Lemma rank_le : forall n, rank n <= n.
Proof. induction n; cbn; auto. destruct (kept n); lia. Qed.
Lemma rank_mono : forall n m, n <= m -> rank n <= rank m.
Proof. intros n m L. induction L; auto. cbn. destruct (kept m); lia. Qed.
Lemma rank_lt : forall i j, kept i = true -> i < j -> rank i < rank j.
Proof. intros i j K L. apply Nat.lt_le_trans with (rank (S i)); [cbn; rewrite K; lia|]. apply rank_mono. lia. Qed.
Lemma rank_inj : forall i j, kept i = true -> kept j = true -> rank i = rank j -> i = j.
Proof.
  intros i j A B E. destruct (Nat.lt_trichotomy i j) as [L|[L|L]]; auto.
  - pose proof (rank_lt i j A L). lia.
  - pose proof (rank_lt j i B L). lia.
Qed.
Lemma rank_surj : forall n j, j < rank n -> exists i, i < n /\ kept i = true /\ rank i = j.
Proof.
  induction n as [|n IH]; intros j H; cbn in H; [lia|]. destruct (kept n) eqn:K.
  - destruct (Nat.eq_dec j (rank n)) as [->|N]; [exists n; auto|]. destruct (IH j) as (i & A & B & C); [lia|]. exists i. auto.
  - destruct (IH j H) as (i & A & B & C). exists i. auto.
Qed.
Lemma rank_full : forall n, rank n = n -> forall i, i < n -> kept i = true /\ rank i = i.
Proof.
  intros n. induction n as [|n IH]; intros E i L; [lia|]. cbn in E. pose proof (rank_le n). destruct (kept n) eqn:K; [|lia].
  destruct (Nat.eq_dec i n) as [->|N]; [split; [auto|lia]|]. apply IH; lia.
Qed.

Lemma kept_first : forall f n, first_fixed n = Some f -> kept f = true.
Proof. intros f n H. apply first_fixed_some in H as (A & B & C). unfold kept. rewrite B, C. now rewrite orb_true_r. Qed.
Lemma kept_act : forall i, act i = true -> kept i = true.
Proof. intros i H. unfold kept. now rewrite H. Qed.
Lemma kept_cases : forall i, kept i = true -> act i = true \/ (fix_ i = true /\ first_fixed (S i) = Some i).
Proof.
  intros i H. unfold kept in H. apply orb_true_iff in H as [H|H]; auto. apply andb_true_iff in H as [A B].
  destruct (first_fixed i) eqn:E; [discriminate|]. right. split; auto. cbn. now rewrite E, A.
Qed.

Lemma target_kept : forall i, kept i = true -> target i = 2 * rank i.
Proof.
  intros i K. unfold target. destruct (act i) eqn:A; auto. destruct (kept_cases i K) as [H|[F E]]; [congruence|].
  rewrite E. unfold fixed_lit. destruct (tv i); auto. now rewrite neg_odd.
Qed.
Lemma target_fixed : forall i f, act i = false -> first_fixed (S i) = Some f ->
  target i = if tv i then fixed_lit f else neg (fixed_lit f).
Proof. intros i f A E. unfold target. now rewrite A, E. Qed.
Lemma idx_fixed_lit : forall f, idx (fixed_lit f) = rank f.
Proof. intros. unfold fixed_lit. destruct (tv f); [apply idx_even|apply idx_odd]. Qed.
Lemma idx_target_fixed : forall i f, act i = false -> first_fixed (S i) = Some f -> idx (target i) = rank f.
Proof. intros i f A E. rewrite (target_fixed i f A E). destruct (tv i); rewrite ?idx_neg; apply idx_fixed_lit. Qed.
Lemma mlit_neg : forall l, mlit (neg l) = neg (mlit l).
Proof. intros. unfold mlit. rewrite idx_neg. apply with_sign_neg. Qed.
Lemma mlit_kept : forall l, kept (idx l) = true -> mlit l = with_sign l (2 * rank (idx l)).
Proof. intros l K. unfold mlit. now rewrite target_kept. Qed.
Lemma mlit_full : forall n l, rank n = n -> idx l < n -> mlit l = l.
Proof. intros n l E L. destruct (rank_full n E (idx l) L) as [K R]. rewrite mlit_kept, R by auto. apply with_sign_self. Qed.
Lemma mlit_le : forall l, kept (idx l) = true -> mlit l <= l.
Proof.
  intros l K. rewrite mlit_kept by auto. pose proof (rank_le (idx l)). rewrite <- (with_sign_self l) at 3.
  unfold with_sign. destruct (negated l); rewrite ?neg_even; lia.
Qed.
Lemma mlit_even : forall i, kept i = true -> mlit (2 * i) = 2 * rank i.
Proof. intros i K. rewrite mlit_kept; rewrite idx_even; auto. apply with_sign_even. Qed.
Lemma mlit_inj : forall l k, kept (idx l) = true -> kept (idx k) = true -> mlit l = mlit k -> l = k.
Proof.
  intros l k A B E. rewrite !mlit_kept in E by auto.
  assert (I : rank (idx l) = rank (idx k)).
  { apply (f_equal idx) in E. now rewrite !idx_with_sign, !idx_even in E. }
  apply rank_inj in I; auto. rewrite <- (with_sign_self l), <- (with_sign_self k), <- I. rewrite <- I in E.
  unfold with_sign in *. destruct (negated l), (negated k); auto; exfalso; rewrite neg_even in E; lia.
Qed.
Lemma idx_mlit : forall l, kept (idx l) = true -> idx (mlit l) = rank (idx l).
Proof. intros l K. rewrite mlit_kept, idx_with_sign, idx_even by auto. reflexivity. Qed.
End Ranks.

(** In-place moves to smaller positions in increasing order. *)
Lemma move_in_place : forall A (m : nat -> option nat) (f : (nat -> A) -> nat -> outcome (nat -> A)) n (a : nat -> A),
  (forall i j, i < n -> m i = Some j -> j <= i) ->
  (forall i k j j', i < k -> k < n -> m i = Some j -> m k = Some j' -> j < j') ->
  (forall b i, i < n -> (forall k, i <= k -> b k = a k) ->
     wp (f b i) (fun b' => forall k, b' k = match m i with Some j => if k =? j then b i else b k | None => b k end)) ->
  wp (ofold f (seq 0 n) a) (fun b => (forall i j, i < n -> m i = Some j -> b j = a i) /\
    (forall k, n <= k -> b k = a k)).
Proof.
  intros A m f n a Le Inc Step.
  apply (wp_oseq _ f (fun i b => (forall k j, k < i -> m k = Some j -> b j = a k) /\ (forall k, i <= k -> b k = a k))).
  - split; [intros; lia|auto].
  - intros i b L [B1 B2]. eapply wp_mono; [apply (Step b i L B2)|]. intros b' H. cbn beta in H. split.
    + intros k j K E. rewrite H. destruct (m i) as [j'|] eqn:Ei.
      * destruct (Nat.eq_dec k i) as [->|N].
        -- assert (j' = j) by congruence. subst. rewrite Nat.eqb_refl. auto.
        -- assert (j < j') by (apply (Inc k i j j'); auto; lia). replace (j =? j') with false by lia. apply B1; auto. lia.
      * apply B1; auto. destruct (Nat.eq_dec k i) as [->|N]; [congruence|lia].
    + intros k K. rewrite H. destruct (m i) as [j'|] eqn:Ei; [|apply B2; lia].
      pose proof (Le i j' L Ei). replace (k =? j') with false by lia. apply B2. lia.
Qed.
