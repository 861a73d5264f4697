(** The FIFO holds a list of elements. *)
From Coq Require Import ZArith List Bool Lia Arith.
From Verif Require Import Base Lit Hoare Fifo.
Import ListNotations.
Open Scope nat_scope.
Open Scope outcome_scope.

Section Facts.
Variable E : Type.

(** The queue [f] holds the elements of [l]. *)
Record holds (f : fifo E) (l : list E) : Prop := {
  fh_order : fbegin f <= fend f <= fallocated f;
  fh_limit : fallocated f = 0 /\ flimit f = 0 /\ fbegin f = 0 \/ fbegin f < flimit f /\ flimit f < fallocated f /\
             fallocated f = 2 * flimit f;
  fh_size : fend f = fbegin f + length l;
  fh_cells : forall i, i < length l -> cells f (fbegin f + i) = nth_error l i }.

Lemma holds_init : holds init_fifo [].
Proof. constructor; cbn; auto; try lia. Qed.

Lemma half_double : forall n, 2 * n / 2 = n.
Proof. intros n. rewrite Nat.mul_comm. apply Nat.div_mul. lia. Qed.

Lemma enlarge_spec : forall f l, holds f l -> full_fifo f = true ->
  wp (enlarge_fifo f) (fun f' => holds f' l /\ fend f' < fallocated f').
Proof.
  intros f l [O L Sz C] F. apply Nat.eqb_eq in F. unfold enlarge_fifo, capacity_fifo.
  destruct (Nat.eqb_spec (fallocated f) 0) as [Z|Z].
  - destruct L as [(_ & L1 & L2)|L]; [|lia]. rewrite L2. cbn [Nat.div Nat.divmod fst Nat.ltb Nat.leb oassert obind wp].
    split; [|cbn; lia]. destruct l as [|e l]; [|cbn in Sz; lia].
    constructor; cbn [fbegin fend flimit fallocated cells length] in *; try lia.
  - destruct L as [(L0 & _)|(L1 & L2 & L3)]; [lia|]. rewrite half_double.
    rewrite (proj2 (Nat.ltb_lt _ _)) by lia. cbn [oassert obind wp].
    split; [|cbn; lia]. constructor; cbn [fbegin fend flimit fallocated cells]; try lia.
    intros i I. rewrite (proj2 (Nat.ltb_lt _ _)) by lia. auto.
Qed.

Lemma enqueue_spec : forall f l e, holds f l -> wp (enqueue_fifo e f) (fun f' => holds f' (l ++ [e])).
Proof.
  intros f l e H. unfold enqueue_fifo. apply wp_bind.
  apply wp_mono with (P := fun f' => holds f' l /\ fend f' < fallocated f').
  - destruct (full_fifo f) eqn:F; [apply enlarge_spec; auto|]. cbn. split; auto.
    apply Nat.eqb_neq in F. destruct H. lia.
  - clear f H. intros f [[O L Sz C] F]. rewrite (proj2 (Nat.ltb_lt _ _) F). cbn [oassert obind wp].
    constructor; cbn [fbegin fend flimit fallocated cells]; rewrite ?app_length; cbn [length]; try lia.
    intros i I. destruct (Nat.eq_dec i (length l)) as [->|N].
    + rewrite <- Sz, upd_same. rewrite nth_error_app2 by lia. now rewrite Nat.sub_diag.
    + rewrite upd_other by lia. rewrite nth_error_app1 by lia. apply C. lia.
Qed.

Lemma read_spec : forall f l i e, holds f l -> nth_error l i = Some e -> read_fifo f (fbegin f + i) = Ret e.
Proof.
  intros f l i e [O L Sz C] N. assert (i < length l) by (apply nth_error_Some; congruence).
  unfold read_fifo. rewrite (proj2 (Nat.ltb_lt _ _)) by lia. rewrite C, N by auto. reflexivity.
Qed.

Lemma dequeue_spec : forall f e l, holds f (e :: l) ->
  wp (dequeue_fifo f) (fun r => fst r = e /\ holds (snd r) l).
Proof.
  intros f e l H. pose proof (read_spec f (e :: l) 0 e H eq_refl) as R. rewrite Nat.add_0_r in R.
  destruct H as [O L Sz C]. cbn [length] in Sz. unfold dequeue_fifo, empty_fifo.
  rewrite (proj2 (Nat.eqb_neq _ _)) by lia. cbn [negb oassert obind]. rewrite R. cbn [obind wp fst snd].
  split; auto. unfold movable_fifo. cbn [fbegin flimit].
  destruct L as [L|(L1 & L2 & L3)]; [lia|].
  destruct (Nat.eqb_spec (S (fbegin f)) (flimit f)) as [M|M].
  - unfold move_fifo, size_fifo. cbn [fbegin fend flimit fallocated cells].
    constructor; cbn [fbegin fend flimit fallocated cells]; try lia.
    intros i I. rewrite (proj2 (Nat.ltb_lt _ _)) by lia. change (nth_error l i) with (nth_error (e :: l) (S i)). rewrite <- C by (cbn; lia). f_equal. lia.
  - constructor; cbn [fbegin fend flimit fallocated cells]; try lia.
    intros i I. change (nth_error l i) with (nth_error (e :: l) (S i)). rewrite <- C by (cbn; lia). f_equal. lia.
Qed.

Lemma pop_spec : forall f e l, holds f (l ++ [e]) ->
  wp (pop_fifo f) (fun r => fst r = e /\ holds (snd r) l).
Proof.
  intros f e l H. pose proof (read_spec f (l ++ [e]) (length l) e H) as R.
  rewrite nth_error_app2, Nat.sub_diag in R by lia. specialize (R eq_refl).
  destruct H as [O L Sz C]. rewrite app_length in Sz, C. cbn [length] in Sz, C. unfold pop_fifo, empty_fifo.
  rewrite (proj2 (Nat.eqb_neq _ _)) by lia. cbn [negb oassert obind].
  replace (pred (fend f)) with (fbegin f + length l) by lia. rewrite R. cbn [obind wp fst snd].
  split; auto. constructor; cbn [fbegin fend flimit fallocated cells]; try lia.
  intros i I. rewrite C by lia. apply nth_error_app1. auto.
Qed.

Lemma clear_spec : forall f l, holds f l -> holds (clear_fifo f) [].
Proof. intros f l [O L Sz C]. constructor; cbn in *; try lia. Qed.

Lemma all_spec : forall f l, holds f l -> all_fifo f = Ret l.
Proof.
  intros f l H. unfold all_fifo, size_fifo. replace (fend f - fbegin f) with (length l) by (destruct H; lia).
  assert (G : forall k i, i + k = length l ->
    fold_right (fun i r => do e <- read_fifo f i ; do l <- r ; Ret (e :: l)) (Ret []) (seq (fbegin f + i) k)
      = Ret (skipn i l)).
  { induction k as [|k IH]; intros i I; cbn [seq fold_right].
    - rewrite skipn_all2 by lia. reflexivity.
    - destruct (nth_error l i) as [e|] eqn:N; [|apply nth_error_None in N; lia].
      rewrite (read_spec f l i e H N). cbn [obind]. replace (S (fbegin f + i)) with (fbegin f + S i) by lia.
      rewrite IH by lia. cbn [obind]. f_equal. clear - N. revert i N.
      induction l as [|x l IH]; intros [|i] N; cbn in *; try discriminate; [congruence|]. apply IH. auto. }
  specialize (G (length l) 0). rewrite Nat.add_0_r in G. apply G. lia.
Qed.
End Facts.
