(** Vectors keep their contents. *)
From Coq Require Import ZArith List Bool Lia Arith Permutation ZifyBool ZifyNat.
From Verif Require Import Base Lit Hoare SpecData Radix Vector PropertiesSort.
Import ListNotations.
Open Scope Z_scope.
Open Scope outcome_scope.

Notation INV := INVALID_VECTOR_ELEMENT.

(** ** Outcomes which may also be running out of memory *)
Definition wpx {A} (big : Prop) (m : outcome A) (Q : A -> Prop) : Prop :=
  match m with Ret a => Q a | Abort => big | _ => False end.
Lemma wpx_bind : forall A B big (m : outcome A) (f : A -> outcome B) Q,
  wpx big m (fun a => wpx big (f a) Q) -> wpx big (obind m f) Q.
Proof. intros A B big [] f Q; cbn; auto. Qed.
Lemma wpx_mono : forall A big (m : outcome A) (P Q : A -> Prop), wpx big m P -> (forall a, P a -> Q a) -> wpx big m Q.
Proof. intros A big [] P Q; cbn; auto. Qed.
Lemma wp_wpx : forall A big (m : outcome A) (Q : A -> Prop), wp m Q -> wpx big m Q.
Proof. intros A big [] Q; cbn; auto; contradiction. Qed.

(** ** Counting invalid entries *)
Fixpoint count (m : Z -> Z) (lo : Z) (n : nat) : Z :=
  match n with O => 0 | S n => (if m lo =? INV then 1 else 0) + count m (lo + 1) n end.
Definition cnt (m : Z -> Z) (lo hi : Z) : Z := count m lo (Z.to_nat (hi - lo)).

Lemma count_ext : forall n m m' lo, (forall k, lo <= k < lo + Z.of_nat n -> m k = m' k) -> count m lo n = count m' lo n.
Proof.
  induction n as [|n IH]; intros m m' lo H; cbn [count]; auto. rewrite (H lo) by lia. f_equal. apply IH. intros. apply H. lia.
Qed.
Lemma count_app : forall n1 n2 m lo, count m lo (n1 + n2) = count m lo n1 + count m (lo + Z.of_nat n1) n2.
Proof.
  induction n1 as [|n IH]; intros n2 m lo; cbn [count Nat.add].
  - now replace (lo + Z.of_nat 0) with lo by lia.
  - rewrite IH. replace (lo + 1 + Z.of_nat n) with (lo + Z.of_nat (S n)) by lia. lia.
Qed.
Lemma cnt_ext : forall m m' lo hi, (forall k, lo <= k < hi -> m k = m' k) -> cnt m lo hi = cnt m' lo hi.
Proof. intros m m' lo hi H. apply count_ext. intros k K. apply H. lia. Qed.
Lemma cnt_split : forall m lo mid hi, lo <= mid <= hi -> cnt m lo hi = cnt m lo mid + cnt m mid hi.
Proof.
  intros m lo mid hi H. unfold cnt. replace (Z.to_nat (hi - lo)) with (Z.to_nat (mid - lo) + Z.to_nat (hi - mid))%nat by lia.
  rewrite count_app. do 2 f_equal. lia.
Qed.
Lemma count_all : forall n m lo, (forall k, lo <= k < lo + Z.of_nat n -> m k = INV) -> count m lo n = Z.of_nat n.
Proof.
  induction n as [|n IH]; intros m lo H; cbn [count]; auto. rewrite (H lo) by lia. rewrite Z.eqb_refl, IH; [lia|].
  intros. apply H. lia.
Qed.
Lemma count_none : forall n m lo, (forall k, lo <= k < lo + Z.of_nat n -> m k <> INV) -> count m lo n = 0.
Proof.
  induction n as [|n IH]; intros m lo H; cbn [count]; auto. rewrite (proj2 (Z.eqb_neq _ _)) by (apply H; lia). rewrite IH; [lia|].
  intros. apply H. lia.
Qed.
Lemma cnt_all : forall m lo hi, lo <= hi -> (forall k, lo <= k < hi -> m k = INV) -> cnt m lo hi = hi - lo.
Proof. intros m lo hi L H. unfold cnt. rewrite count_all; [lia|]. intros. apply H. lia. Qed.
Lemma cnt_none : forall m lo hi, (forall k, lo <= k < hi -> m k <> INV) -> cnt m lo hi = 0.
Proof. intros m lo hi H. unfold cnt. apply count_none. intros. apply H. lia. Qed.
Lemma cnt_range : forall m lo hi, lo <= hi -> 0 <= cnt m lo hi <= hi - lo.
Proof.
  intros m lo hi L. unfold cnt. remember (Z.to_nat (hi - lo)) as n. assert (E : hi - lo = Z.of_nat n) by lia. rewrite E.
  clear. revert lo. induction n as [|n IH]; intros lo; cbn [count]; [lia|]. specialize (IH (lo + 1)). destruct (m lo =? INV); lia.
Qed.
(** A change inside of a range. *)
Lemma cnt_change : forall m m' lo a b hi, lo <= a <= b -> b <= hi -> (forall k, lo <= k < hi -> ~ (a <= k < b) -> m' k = m k) ->
  cnt m' lo hi = cnt m lo hi + cnt m' a b - cnt m a b.
Proof.
  intros m m' lo a b hi L1 L2 H. rewrite (cnt_split m' lo a hi), (cnt_split m' a b hi), (cnt_split m lo a hi), (cnt_split m a b hi) by lia.
  rewrite (cnt_ext m' m lo a), (cnt_ext m' m b hi) by (intros; apply H; lia). lia.
Qed.

Section Facts.
Variable lits : nat.
Variable place : nat -> Z.
Hypothesis place_ok : forall n, 0 < place n < 2 ^ 61.
Variable big : Prop.

Definition off (s : vectors) (i : nat) : Z := vb (vecs s i) - vbase s.
Definition len (C : nat -> list Z) (i : nat) : Z := Z.of_nat (length (C i)).
Definition own (C : nat -> list Z) (s : vectors) (i : nat) (k : Z) : Prop :=
  vb (vecs s i) <> 0 /\ off s i <= k < off s i + len C i.

Lemma own_dec : forall C s i k, own C s i k \/ ~ own C s i k.
Proof. intros. unfold own. lia. Qed.
Lemma nth_error_Some_lt : forall A (l : list A) k x, nth_error l k = Some x -> (k < length l)%nat.
Proof. intros A l k x E. apply nth_error_Some. congruence. Qed.

Record vinv (C : nat -> list Z) (s : vectors) : Prop := {
  vi_cap : (vcap s = 0 /\ vsize s = 0) \/ (1 <= vsize s <= vcap s /\ exists k, 1 <= k <= 48 /\ vcap s = 2 ^ k);
  vi_base : 0 < vsize s -> 0 < vbase s < 2 ^ 61;
  vi_null : forall i, (i < lits)%nat -> vb (vecs s i) = 0 -> ve (vecs s i) = 0 /\ C i = [];
  vi_in : forall i, (i < lits)%nat -> vb (vecs s i) <> 0 ->
    ve (vecs s i) = vb (vecs s i) + len C i /\ 1 <= off s i < vsize s /\ off s i + len C i <= vsize s;
  vi_elems : forall i k x, (i < lits)%nat -> vb (vecs s i) <> 0 -> nth_error (C i) k = Some x -> vmem s (off s i + Z.of_nat k) = x;
  vi_valid : forall i x, (i < lits)%nat -> In x (C i) -> x <> INV;
  vi_free : forall k, 1 <= k < vsize s -> (forall i, (i < lits)%nat -> ~ own C s i k) -> vmem s k = INV;
  vi_disj : forall i j k, (i < lits)%nat -> (j < lits)%nat -> i <> j -> own C s i k -> own C s j k -> False;
  vi_usable : vusable s = cnt (vmem s) 1 (vsize s) }.

Lemma init_vinv : vinv (fun _ => []) init_vectors.
Proof.
  constructor; cbn; auto; try lia; try contradiction. intros i j k _ _ _ [N _]. cbn in N. contradiction.
Qed.

Lemma own_valid : forall C s i k, vinv C s -> (i < lits)%nat -> own C s i k -> vmem s k <> INV.
Proof.
  intros C s i k V I [N R]. unfold len in R.
  destruct (nth_error (C i) (Z.to_nat (k - off s i))) as [x|] eqn:E.
  - pose proof (vi_elems _ _ V i _ x I N E) as M. replace (off s i + Z.of_nat (Z.to_nat (k - off s i))) with k in M by lia.
    rewrite M. apply (vi_valid _ _ V i); auto. apply nth_error_In in E. auto.
  - apply nth_error_None in E. lia.
Qed.

(** One vector and the memory change. *)
Lemma change_one : forall C s C' s' i, vinv C s -> (i < lits)%nat -> vbase s' = vbase s ->
  (forall j, j <> i -> vecs s' j = vecs s j) -> (forall j, j <> i -> C' j = C j) ->
  vsize s <= vsize s' <= vcap s' -> 1 <= vsize s ->  vcap s' = vcap s ->
  vb (vecs s' i) <> 0 -> ve (vecs s' i) = vb (vecs s' i) + len C' i -> 1 <= off s' i < vsize s' -> off s' i + len C' i <= vsize s' ->
  (forall k x, nth_error (C' i) k = Some x -> vmem s' (off s' i + Z.of_nat k) = x) -> (forall x, In x (C' i) -> x <> INV) ->
  (forall k, 1 <= k < vsize s -> ~ own C s i k -> ~ own C' s' i k -> vmem s' k = vmem s k) ->
  (forall k, 1 <= k < vsize s -> own C' s' i k -> own C s i k \/ vmem s k = INV) ->
  (forall k, own C s i k -> ~ own C' s' i k -> vmem s' k = INV) ->
  (forall k, vsize s <= k < vsize s' -> ~ own C' s' i k -> vmem s' k = INV) ->
  vusable s' = cnt (vmem s') 1 (vsize s') -> vinv C' s'.
Proof.
  intros C s C' s' i V I Eb Ev Ec Sz S1 Cp Nn Ve O1 O2 El Va H1 H2 H3 H4 Us.
  assert (OwnJ : forall j k, j <> i -> own C' s' j k <-> own C s j k).
  { intros j k J. unfold own, off, len. rewrite (Ev j J), (Ec j J), Eb. tauto. }
  assert (JK : forall j k, (j < lits)%nat -> j <> i -> own C s j k -> ~ own C s i k /\ ~ own C' s' i k /\ 1 <= k < vsize s).
  { intros j k J D O. assert (R : 1 <= k < vsize s).
    { destruct O as [N R]. destruct (vi_in _ _ V j J N) as (_ & A & B). lia. }
    assert (N1 : ~ own C s i k) by (intros X; apply (vi_disj _ _ V i j k); auto). splits; auto; try lia.
    intros X. destruct (H2 k R X) as [Y|Y]; auto. apply (own_valid C s j k V J O Y). }
  constructor.
  - right. split; [lia|]. destruct (vi_cap _ _ V) as [[A B]|[A B]]; [lia|]. rewrite Cp. auto.
  - intros _. rewrite Eb. apply (vi_base _ _ V). lia.
  - intros j J N. destruct (Nat.eq_dec j i) as [->|D]; [contradiction|]. rewrite Ev, Ec in * by auto. apply (vi_null _ _ V); auto.
  - intros j J N. destruct (Nat.eq_dec j i) as [->|D]; [auto|]. unfold off, len. rewrite Ev, Ec, Eb in * by auto.
    destruct (vi_in _ _ V j J N) as (A1 & A2 & A3). unfold off, len in *. splits; auto; lia.
  - intros j k x J N E. destruct (Nat.eq_dec j i) as [->|D]; [auto|]. rewrite Ev, Ec in * by auto.
    assert (O : own C s j (off s j + Z.of_nat k)).
    { split; auto. unfold len. apply nth_error_Some_lt in E. lia. }
    destruct (JK j _ J D O) as (K1 & K2 & K3). unfold off at 1. rewrite Ev, Eb by auto. fold (off s j).
    rewrite H1 by auto. apply (vi_elems _ _ V); auto.
  - intros j x J X. destruct (Nat.eq_dec j i) as [->|D]; [auto|]. rewrite Ec in X by auto. apply (vi_valid _ _ V j); auto.
  - intros k K N. assert (Ni : ~ own C' s' i k) by auto. destruct (Z.lt_ge_cases k (vsize s)) as [L|L]; [|apply H4; auto; lia].
    destruct (Z.eq_dec (vmem s k) INV) as [E|E].
    + destruct (own_dec C s i k) as [O|O]; [apply H3; auto|]. rewrite H1; auto; lia.
    + destruct (own_dec C s i k) as [O|O]; [apply H3; auto|]. exfalso. apply E. apply (vi_free _ _ V); [lia|].
      intros j J O'. destruct (Nat.eq_dec j i) as [->|D]; auto. apply (N j J). apply OwnJ; auto.
  - intros a b k A B D Oa Ob. destruct (Nat.eq_dec a i) as [->|Da].
    + apply OwnJ in Ob; auto. destruct (JK b k B ltac:(auto) Ob) as (_ & K & _). auto.
    + apply OwnJ in Oa; auto. destruct (Nat.eq_dec b i) as [->|Db].
      * destruct (JK a k A Da Oa) as (_ & K & _). auto.
      * apply OwnJ in Ob; auto. apply (vi_disj _ _ V a b k); auto.
  - auto.
Qed.

(** ** Single operations *)
Lemma set_seq_same : forall C i l, set_seq C i l i = l.
Proof. intros. unfold set_seq. now rewrite Nat.eqb_refl. Qed.
Lemma set_seq_other : forall C i l j, j <> i -> set_seq C i l j = C j.
Proof. intros. unfold set_seq. now rewrite (proj2 (Nat.eqb_neq _ _)). Qed.

Lemma load_at : forall s k, 0 <= k < vsize s -> load (vbase s + k) s = Ret (vmem s k).
Proof.
  intros s k K. unfold load. replace ((vbase s <=? vbase s + k) && (vbase s + k <? vbase s + vsize s)) with true by lia.
  do 2 f_equal. lia.
Qed.
Lemma store_at : forall s k e, 0 <= k < vcap s -> store (vbase s + k) e s = Ret (set_mem (mupd (vmem s) k e) s).
Proof.
  intros s k e K. unfold store. replace ((vbase s <=? vbase s + k) && (vbase s + k <? vbase s + vcap s)) with true by lia.
  do 4 f_equal. lia.
Qed.
Lemma mupd_same : forall m k e, mupd m k e k = e.
Proof. intros. unfold mupd. now rewrite Z.eqb_refl. Qed.
Lemma mupd_other : forall m k e x, x <> k -> mupd m k e x = m x.
Proof. intros. unfold mupd. now rewrite (proj2 (Z.eqb_neq _ _)). Qed.

Lemma sizes : forall C s, vinv C s -> 0 <= vsize s <= vcap s /\ vcap s <= MAX_VECTORS /\ 0 <= vusable s <= vsize s.
Proof.
  intros C s V. unfold MAX_VECTORS.
  assert (A : 0 <= vsize s <= vcap s /\ vcap s <= 2 ^ 48).
  { destruct (vi_cap _ _ V) as [[A B]|(A & k & K & E)]; [lia|]. rewrite E in *.
    assert (2 ^ k <= 2 ^ 48) by (apply Z.pow_le_mono_r; lia). lia. }
  assert (U : 0 <= vusable s <= vsize s).
  { rewrite (vi_usable _ _ V). destruct (Z.le_gt_cases 1 (vsize s)) as [L|L].
    - pose proof (cnt_range (vmem s) 1 (vsize s) L). lia.
    - unfold cnt. replace (Z.to_nat (vsize s - 1)) with O by lia. cbn. lia. }
  lia.
Qed.

Lemma vb_off : forall s i, vb (vecs s i) = vbase s + off s i.
Proof. intros. unfold off. lia. Qed.

(** An element goes into the free entry after the vector. *)
Lemma fill_wp : forall C s i e, vinv C s -> (i < lits)%nat -> vb (vecs s i) <> 0 -> off s i + len C i < vsize s ->
  vmem s (off s i + len C i) = INV -> e <> INV ->
  wp (fill (ve (vecs s i)) e s) (fun s1 => vinv (set_seq C i (C i ++ [e])) (set_vec i (mk_vec (vb (vecs s1 i)) (ve (vecs s1 i) + 1)) s1) /\
    vsize s1 = vsize s /\ vecs s1 = vecs s).
Proof.
  intros C s i e V I N L M E. destruct (vi_in _ _ V i I N) as (Ve & O1 & O2). destruct (sizes _ _ V) as (Z1 & Z2 & Z3).
  assert (Len0 : 0 <= len C i) by (unfold len; lia).
  unfold fill. replace (ve (vecs s i)) with (vbase s + (off s i + len C i)) by (rewrite Ve, vb_off; lia).
  rewrite load_at by lia. cbn [obind]. rewrite M, Z.eqb_refl. cbn [oassert obind]. rewrite store_at by lia. cbn [obind].
  unfold dec_usable. cbn [set_mem vusable].
  assert (Up : 0 < vusable s).
  { rewrite (vi_usable _ _ V). rewrite (cnt_split _ 1 (off s i + len C i) (vsize s)), (cnt_split _ (off s i + len C i) (off s i + len C i + 1) (vsize s)) by lia.
    rewrite (cnt_all _ (off s i + len C i)) by (try lia; intros k K; replace k with (off s i + len C i) by lia; auto).
    pose proof (cnt_range (vmem s) 1 (off s i + len C i)). pose proof (cnt_range (vmem s) (off s i + len C i + 1) (vsize s)). lia. }
  rewrite (proj2 (Z.ltb_lt _ _) Up). cbn [oassert obind wp set_usable vsize vecs set_mem]. split; [|auto].
  set (s' := set_vec i _ _).
  assert (Vi : vecs s' i = mk_vec (vb (vecs s i)) (ve (vecs s i) + 1)) by (cbn; apply upd_same).
  assert (Li : len (set_seq C i (C i ++ [e])) i = len C i + 1) by (unfold len; rewrite set_seq_same, app_length; cbn; lia).
  assert (Oi : off s' i = off s i) by (unfold off; rewrite Vi; reflexivity).
  apply (change_one C s _ s' i V I); try reflexivity; try lia.
  - intros j J. cbn. apply upd_other. auto.
  - intros j J. apply set_seq_other. auto.
  - cbn. lia.
  - rewrite Vi. auto.
  - rewrite Vi, Li. cbn [vb ve]. lia.
  - rewrite Oi. cbn. lia.
  - rewrite Oi, Li. cbn. lia.
  - intros k x Ex. rewrite Oi, set_seq_same in *. cbn [s' set_vec set_usable set_mem vmem].
    destruct (Nat.lt_ge_cases k (length (C i))) as [K|K].
    + rewrite nth_error_app1 in Ex by auto. rewrite mupd_other by (unfold len; lia). apply (vi_elems _ _ V); auto.
    + rewrite nth_error_app2 in Ex by auto. destruct (k - length (C i))%nat as [|d] eqn:Ed; [|destruct d; discriminate].
      cbn in Ex. injection Ex as <-. replace (off s i + Z.of_nat k) with (off s i + len C i) by (unfold len; lia). apply mupd_same.
  - intros x X. rewrite set_seq_same in X. apply in_app_or in X. destruct X as [X|[<-|[]]]; auto. apply (vi_valid _ _ V i); auto.
  - intros k K N1 N2. cbn [s' set_vec set_usable set_mem vmem]. apply mupd_other. intros ->. apply N2. split; [rewrite Vi; auto|].
    rewrite Oi, Li. lia.
  - intros k K [_ O]. rewrite Oi, Li in O. destruct (Z.eq_dec k (off s i + len C i)) as [->|D]; auto. left. split; auto. lia.
  - intros k [_ O] N2. exfalso. apply N2. split; [rewrite Vi; auto|]. rewrite Oi, Li. lia.
  - cbn. intros. lia.
  - cbn [s' set_vec set_usable set_mem vusable vmem vsize]. rewrite (vi_usable _ _ V).
    rewrite (cnt_change (vmem s) (mupd (vmem s) (off s i + len C i) e) 1 (off s i + len C i) (off s i + len C i + 1) (vsize s)); try lia.
    + rewrite (cnt_none (mupd _ _ _)).
      2:{ intros k K. replace k with (off s i + len C i) by lia. rewrite mupd_same. auto. }
      rewrite (cnt_all (vmem s) (off s i + len C i)); [lia|lia|]. intros k K. replace k with (off s i + len C i) by lia. auto.
    + intros k K D. apply mupd_other. lia.
Qed.

(** An element goes to the end of the stack. *)
Lemma append_vinv : forall C s i e s', vinv C s -> (i < lits)%nat -> 1 <= vsize s < vcap s -> e <> INV ->
  (vb (vecs s i) = 0 \/ off s i + len C i = vsize s) ->
  s' = mk_vectors (vbase s) (vsize s + 1) (vcap s) (mupd (vmem s) (vsize s) e) (vusable s)
    (upd (vecs s) i (mk_vec (vbase s + vsize s - len C i) (vbase s + vsize s + 1))) (vcalls s) ->
  vinv (set_seq C i (C i ++ [e])) s'.
Proof.
  intros C s i e s' V I Sz E D Es.
  assert (Vi : vecs s' i = mk_vec (vbase s + vsize s - len C i) (vbase s + vsize s + 1)) by (subst s'; cbn; apply upd_same).
  assert (Li : len (set_seq C i (C i ++ [e])) i = len C i + 1) by (unfold len; rewrite set_seq_same, app_length; cbn; lia).
  assert (Oi : off s' i = vsize s - len C i) by (unfold off; rewrite Vi; subst s'; cbn; lia).
  assert (Eb : vbase s' = vbase s) by (subst s'; reflexivity).
  assert (Em : vmem s' = mupd (vmem s) (vsize s) e) by (subst s'; reflexivity).
  assert (Ez : vsize s' = vsize s + 1) by (subst s'; reflexivity).
  assert (Ec : vcap s' = vcap s) by (subst s'; reflexivity).
  pose proof (vi_base _ _ V ltac:(lia)) as B.
  assert (Len0 : 0 <= len C i) by (unfold len; lia).
  assert (O1 : 1 <= vsize s - len C i).
  { destruct D as [D|D].
    - destruct (vi_null _ _ V i I D) as [_ Ec']. unfold len. rewrite Ec'. cbn. lia.
    - destruct (Z.eq_dec (vb (vecs s i)) 0) as [N|N].
      + destruct (vi_null _ _ V i I N) as [_ Ec']. unfold len. rewrite Ec'. cbn. lia.
      + destruct (vi_in _ _ V i I N) as (_ & P & _). lia. }
  assert (Same : forall k x, nth_error (C i) k = Some x -> vmem s (vsize s - len C i + Z.of_nat k) = x).
  { intros k x Ex. destruct (Z.eq_dec (vb (vecs s i)) 0) as [N|N].
    - destruct (vi_null _ _ V i I N) as [_ Ec']. rewrite Ec' in Ex. destruct k; discriminate.
    - destruct D as [D|D]; [contradiction|]. rewrite <- (vi_elems _ _ V i k x I N Ex). f_equal. lia. }
  apply (change_one C s _ s' i V I); auto; try lia.
  - intros j J. subst s'. cbn. apply upd_other. auto.
  - intros j J. apply set_seq_other. auto.
  - rewrite Vi. cbn. lia.
  - rewrite Vi, Li. cbn. lia.
  - intros k x Ex. rewrite Oi, Em. rewrite set_seq_same in Ex.
    destruct (Nat.lt_ge_cases k (length (C i))) as [K|K].
    + rewrite nth_error_app1 in Ex by auto. rewrite mupd_other by (unfold len; lia). auto.
    + rewrite nth_error_app2 in Ex by auto. destruct (k - length (C i))%nat as [|d] eqn:Ed; [|destruct d; discriminate].
      cbn in Ex. injection Ex as <-. replace (vsize s - len C i + Z.of_nat k) with (vsize s) by (unfold len; lia). apply mupd_same.
  - intros x X. rewrite set_seq_same in X. apply in_app_or in X. destruct X as [X|[<-|[]]]; auto. apply (vi_valid _ _ V i); auto.
  - intros k K _ _. rewrite Em. apply mupd_other. lia.
  - intros k K [_ O]. rewrite Oi, Li in O. left. split.
    + intros N. destruct (vi_null _ _ V i I N) as [_ Ec']. unfold len in O. rewrite Ec' in O. cbn in O. lia.
    + destruct D as [D|D]; [|lia]. destruct (vi_null _ _ V i I D) as [_ Ec']. unfold len in O. rewrite Ec' in O. cbn in O. lia.
  - intros k [N O] N2. exfalso. apply N2. split; [rewrite Vi; cbn; lia|]. rewrite Oi, Li. destruct D; [contradiction|lia].
  - intros k K N2. exfalso. apply N2. split; [rewrite Vi; cbn; lia|]. rewrite Oi, Li. lia.
  - rewrite Em, Ez. rewrite (cnt_split _ 1 (vsize s)) by lia. rewrite (cnt_none _ (vsize s)).
    2:{ intros k K. replace k with (vsize s) by lia. rewrite mupd_same. auto. }
    rewrite (cnt_ext _ (vmem s)); [subst s'; cbn; rewrite (vi_usable _ _ V); lia|]. intros k K. apply mupd_other. lia.
Qed.

(** The block moves. *)
Lemma rebase : forall C s s', vinv C s -> vsize s' = vsize s -> vmem s' = vmem s -> vusable s' = vusable s ->
  (1 <= vsize s' <= vcap s' /\ exists k, 1 <= k <= 48 /\ vcap s' = 2 ^ k) -> 0 < vbase s' < 2 ^ 61 ->
  (forall i, (i < lits)%nat -> vecs s' i = if vb (vecs s i) =? 0 then vecs s i
     else mk_vec (vb (vecs s i) + (vbase s' - vbase s)) (ve (vecs s i) + (vbase s' - vbase s))) -> vinv C s'.
Proof.
  intros C s s' V E1 E2 E3 Cp B Ev.
  assert (K : forall i, (i < lits)%nat -> (vb (vecs s i) = 0 /\ vecs s' i = vecs s i) \/
    (vb (vecs s i) <> 0 /\ vb (vecs s' i) <> 0 /\ off s' i = off s i /\ ve (vecs s' i) - vb (vecs s' i) = ve (vecs s i) - vb (vecs s i))).
  { intros i I. rewrite (Ev i I). destruct (Z.eqb_spec (vb (vecs s i)) 0) as [E|E]; auto. right.
    destruct (vi_in _ _ V i I E) as (_ & O & _). unfold off in *. rewrite (Ev i I), (proj2 (Z.eqb_neq _ _) E). cbn. splits; auto; lia. }
  assert (OW : forall i k, (i < lits)%nat -> own C s' i k <-> own C s i k).
  { intros i k I. unfold own. destruct (K i I) as [[A1 A2]|(A1 & A2 & A3 & A4)].
    - rewrite A2. tauto.
    - rewrite A3. tauto. }
  constructor; auto.
  - intros i I N. destruct (K i I) as [[A1 A2]|(A1 & A2 & A3 & A4)]; [|contradiction]. rewrite A2. apply (vi_null _ _ V); auto.
  - intros i I N. destruct (K i I) as [[A1 A2]|(A1 & A2 & A3 & A4)]; [rewrite A2 in N; contradiction|].
    rewrite A3, E1. destruct (vi_in _ _ V i I A1) as (B1 & B2 & B3). splits; auto; lia.
  - intros i k x I N E. destruct (K i I) as [[A1 A2]|(A1 & A2 & A3 & A4)]; [rewrite A2 in N; contradiction|].
    rewrite A3, E2. apply (vi_elems _ _ V); auto.
  - apply (vi_valid _ _ V).
  - intros k R N. rewrite E2. apply (vi_free _ _ V); [lia|]. intros i I O. apply (N i I). apply OW; auto.
  - intros i j k I J D O1 O2. apply OW in O1, O2; auto. apply (vi_disj _ _ V i j k); auto.
  - rewrite E1, E2, E3. apply (vi_usable _ _ V).
Qed.

Lemma enlarge_loop_wp : forall fuel n s k, 1 <= k <= 48 -> vcap s = 2 ^ k -> 49 - k <= Z.of_nat fuel -> vcap s - vsize s < n ->
  (vsize s + n <= MAX_VECTORS \/ big) ->
  wpx big (enlarge_loop place fuel n s) (fun s' => vsize s' = vsize s /\ vmem s' = vmem s /\ vusable s' = vusable s /\ vecs s' = vecs s /\
    (exists k', 1 <= k' <= 48 /\ vcap s' = 2 ^ k') /\ vcap s < vcap s' /\ n <= vcap s' - vsize s' /\ 0 < vbase s' < 2 ^ 61).
Proof.
  unfold MAX_VECTORS. induction fuel as [|fuel IH]; intros n s k K Ec F L H; [lia|]. cbn [enlarge_loop]. unfold MAX_VECTORS. destruct (Z.eqb_spec (vcap s) (2 ^ 48)) as [E|E].
  - cbn [wpx]. destruct H as [H|H]; auto. lia.
  - assert (k < 48) by (destruct (Z.eq_dec k 48) as [->|]; [congruence|lia]).
    assert (P : 0 < 2 ^ k) by (apply Z.pow_pos_nonneg; lia).
    assert (Ec' : vcap (enlarge_block place s) = 2 ^ (k + 1)).
    { cbn [enlarge_block vcap]. rewrite Ec, (proj2 (Z.eqb_neq _ 0)) by lia. rewrite Z.pow_add_r by lia. lia. }
    assert (P2 : 2 ^ (k + 1) = 2 * 2 ^ k) by (rewrite Z.pow_add_r by lia; lia).
    destruct (Z.ltb_spec (vcap (enlarge_block place s) - vsize (enlarge_block place s)) n) as [G|G].
    + eapply wpx_mono; [apply (IH n (enlarge_block place s) (k + 1)); auto; lia|]. cbn beta.
      intros s' (A1 & A2 & A3 & A4 & A5 & A6 & A7 & A8). splits; auto; lia.
    + pose proof (place_ok (vcalls s)). cbn [wpx]. splits; auto; try (cbn; lia); [exists (k + 1); split; [lia|auto]|lia].
Qed.

Lemma size_len : forall C s i, vinv C s -> (i < lits)%nat -> size_vector (vecs s i) = len C i.
Proof.
  intros C s i V I. unfold size_vector. destruct (Z.eq_dec (vb (vecs s i)) 0) as [N|N].
  - destruct (vi_null _ _ V i I N) as [A B]. unfold len. rewrite A, B, N. reflexivity.
  - destruct (vi_in _ _ V i I N) as (A & _). lia.
Qed.
Lemma null_len : forall C s i, vinv C s -> (i < lits)%nat -> len C i <> 0 -> vb (vecs s i) <> 0.
Proof. intros C s i V I L N. destruct (vi_null _ _ V i I N) as [_ B]. unfold len in L. rewrite B in L. cbn in L. lia. Qed.

Lemma move_block_wp : forall C s i, vinv C s -> (i < lits)%nat -> 1 <= vsize s -> len C i < 2 ^ 47 ->
  let n := (if len C i =? 0 then 1 else 2 * len C i) in
  (vsize s + n <= MAX_VECTORS \/ big) ->
  wpx big (if vcap s - vsize s <? n then
       let old_begin := vbase s in
       do s <- enlarge_loop place 50 n s ;
       let moved := vbase s - old_begin in
       let s := if moved =? 0 then s else fix_pointers lits moved s in
       do _ <- oassert ((vcap s <=? MAX_VECTORS) && (n <=? vcap s - vsize s)) ;
       Ret s
     else Ret s) (fun s' => vinv C s' /\ vsize s' = vsize s /\ n <= vcap s' - vsize s').
Proof.
  intros C s i V I S1 L n Bg. pose proof (sizes _ _ V) as (Z1 & Z2 & Z3).
  destruct (Z.ltb_spec (vcap s - vsize s) n) as [G|G]; [|cbn [wpx]; splits; auto; lia].
  destruct (vi_cap _ _ V) as [[A B]|(A & k & K & E)]; [lia|].
  cbv zeta. apply wpx_bind. eapply wpx_mono; [apply (enlarge_loop_wp 50 n s k); auto; lia|]. cbn beta.
  intros s1 (A1 & A2 & A3 & A4 & (k' & K' & A5) & A6 & A7 & A8).
  set (s2 := if vbase s1 - vbase s =? 0 then s1 else fix_pointers lits (vbase s1 - vbase s) s1).
  assert (E2 : vsize s2 = vsize s1 /\ vcap s2 = vcap s1 /\ vbase s2 = vbase s1 /\ vmem s2 = vmem s1 /\ vusable s2 = vusable s1)
    by (unfold s2; destruct (vbase s1 - vbase s =? 0); auto).
  destruct E2 as (F1 & F2 & F3 & F4 & F5).
  assert (P48 : 2 ^ k' <= 2 ^ 48) by (apply Z.pow_le_mono_r; lia). unfold MAX_VECTORS.
  replace ((vcap s2 <=? 2 ^ 48) && (n <=? vcap s2 - vsize s2)) with true by lia. cbn [oassert obind wpx]. splits; try lia.
  apply (rebase C s s2 V); try congruence.
  - split; [lia|]. exists k'. split; [lia|congruence].
  - intros j J. rewrite F3. unfold s2. destruct (Z.eqb_spec (vbase s1 - vbase s) 0) as [M|M].
    + rewrite A4, M. destruct (vecs s j) as [b e]; cbn. destruct (b =? 0); f_equal; lia.
    + cbn [fix_pointers vecs]. rewrite (proj2 (Nat.ltb_lt _ _) J), A4.
      destruct (Z.eqb_spec (vb (vecs s j)) 0) as [N|N].
      * destruct (vi_null _ _ V j J N) as [Q _]. rewrite Q, Z.eqb_refl. destruct (vecs s j); cbn in *. congruence.
      * destruct (vi_in _ _ V j J N) as (Q1 & Q2 & Q3). pose proof (vi_base _ _ V ltac:(lia)).
        rewrite (proj2 (Z.eqb_neq (ve _) 0)); auto. unfold off, len in *. lia.
Qed.

Lemma enlarge_vector_wp : forall C s i, vinv C s -> (i < lits)%nat -> 1 <= vsize s -> len C i < 2 ^ 47 ->
  let n := (if len C i =? 0 then 1 else 2 * len C i) in
  (vsize s + 2 * len C i + 1 <= MAX_VECTORS \/ big) ->
  wpx big (enlarge_vector lits place i s) (fun r => vinv C (snd r) /\ vb (vecs (snd r) i) <> 0 /\ fst r = ve (vecs (snd r) i) /\
    off (snd r) i + len C i < vsize (snd r) /\ vmem (snd r) (off (snd r) i + len C i) = INV /\ vsize (snd r) = vsize s + n).
Proof.
  intros C s i V I S1 L n Bg. unfold enlarge_vector. rewrite (size_len C s i V I).
  pose proof (sizes _ _ V) as (Z1 & Z2 & Z3). unfold MAX_VECTORS at 1.
  change (2 ^ 48 / 2) with (2 ^ 47). rewrite (proj2 (Z.ltb_lt _ _) L). cbn [oassert obind].
  rewrite (proj2 (Z.leb_le _ _) Z2). cbn [oassert obind]. fold n.
  assert (Bg' : vsize s + n <= MAX_VECTORS \/ big).
  { destruct Bg as [Bg|Bg]; auto. left. unfold n. destruct (Z.eqb_spec (len C i) 0); unfold len in *; lia. }
  apply wpx_bind. eapply wpx_mono; [apply (move_block_wp C s i V I S1 L Bg')|]. cbn beta. fold n.
  intros s1 (V1 & Sz & Nw). rewrite <- Sz. clear V Z1 Z2 Z3 Bg Bg'. assert (S1' : 1 <= vsize s1) by lia. clear s Sz S1.
  rename s1 into s, V1 into V, S1' into S1. pose proof (sizes _ _ V) as (Z1 & Z2 & Z3).
  assert (Len0 : 0 <= len C i) by (unfold len; lia).
  assert (N1 : len C i < n /\ 1 <= n <= 2 * len C i + 1) by (unfold n; destruct (Z.eqb_spec (len C i) 0); lia).
  rewrite (proj2 (Z.leb_le (vbase s + vsize s + n) _)) by lia. cbn [oassert obind].
  pose proof (vi_base _ _ V ltac:(lia)) as B.
  assert (St : exists m2, (if len C i =? 0 then Ret s
      else do s0 <- copy (vbase s + vsize s) (vb (vecs s i)) (len C i) s ; invalidate (vb (vecs s i)) (len C i) s0) =
    Ret (mk_vectors (vbase s) (vsize s) (vcap s) m2 (vusable s) (vecs s) (vcalls s)) /\
    forall k, m2 k = if (0 <? len C i) && (off s i <=? k) && (k <? off s i + len C i) then INV
      else if (vsize s <=? k) && (k <? vsize s + len C i) then vmem s (k - vsize s + off s i) else vmem s k).
  { destruct (Z.eqb_spec (len C i) 0) as [E|E].
    - exists (vmem s). split; [destruct s; reflexivity|]. intros k. rewrite E.
      replace ((vsize s <=? k) && (k <? vsize s + 0)) with false by lia. reflexivity.
    - destruct (vi_in _ _ V i I (null_len C s i V I E)) as (Q1 & Q2 & Q3).
      unfold copy. rewrite vb_off. rewrite (proj2 (orb_true_iff _ _)) by (right; apply Z.leb_le; lia).
      unfold move. replace ((vbase s <=? vbase s + vsize s) && (vbase s <=? vbase s + off s i) && (0 <=? len C i) &&
        (vbase s + vsize s + len C i <=? vbase s + vcap s) && (vbase s + off s i + len C i <=? vbase s + vsize s)) with true by lia.
      cbn [obind]. unfold invalidate. cbn [set_mem vbase vcap].
      replace ((vbase s <=? vbase s + off s i) && (0 <=? len C i) && (vbase s + off s i + len C i <=? vbase s + vcap s)) with true by lia.
      unfold set_mem. cbn [vbase vsize vcap vmem vusable vecs vcalls]. eexists. split; [reflexivity|].
      intros k. cbv beta. rewrite (proj2 (Z.ltb_lt 0 _)) by lia.
      replace (vbase s + off s i - vbase s) with (off s i) by lia. replace (vbase s + vsize s - vbase s) with (vsize s) by lia.
      replace (k - (vbase s + vsize s) + (vbase s + off s i)) with (k - vsize s + off s i) by lia. reflexivity. }
  destruct St as (m2 & St & M2). rewrite St. clear St. cbn [obind]. unfold set_usable, add_usable. cbn [vbase vsize vcap vmem vusable vecs vcalls].
  unfold MAX_SECTOR, MAX_VECTORS in *.
  replace ((vusable s + len C i <=? 2 ^ 64 - 1 - (n - len C i)) && (n - len C i <=? 2 ^ 64 - 1)) with true by lia.
  cbn [oassert obind]. unfold set_usable. cbn [vbase vsize vcap vmem vusable vecs vcalls].
  rewrite (proj2 (Z.eqb_neq (n - len C i) 0)) by lia. unfold invalidate. cbn [vbase vsize vcap vmem vusable vecs vcalls].
  replace ((vbase s <=? vbase s + vsize s + len C i) && (0 <=? n - len C i) && (vbase s + vsize s + len C i + (n - len C i) <=? vbase s + vcap s)) with true by lia.
  cbn [obind]. unfold set_mem, set_vec, set_size. cbn [vbase vsize vcap vmem vusable vecs vcalls].
  rewrite (proj2 (Z.ltb_lt (vbase s + vsize s) _)) by lia. cbn [oassert obind wpx fst snd].
  set (s' := mk_vectors _ _ _ _ _ _ _).
  assert (Vi : vecs s' i = mk_vec (vbase s + vsize s) (vbase s + vsize s + len C i)) by (cbn; apply upd_same).
  assert (Oi : off s' i = vsize s) by (unfold off; rewrite Vi; cbn; lia).
  assert (Ez : vsize s' = vsize s + n) by reflexivity.
  assert (M3 : forall k, vmem s' k = if (vsize s + len C i <=? k) && (k <? vsize s + n) then INV else m2 k).
  { intros k. cbn. replace (vbase s + vsize s + len C i - vbase s) with (vsize s + len C i) by lia.
    replace (vsize s + len C i + (n - len C i)) with (vsize s + n) by lia. reflexivity. }
  assert (Own : forall k, own C s i k <-> (0 <? len C i) && (off s i <=? k) && (k <? off s i + len C i) = true).
  { intros k. split; [intros [A1 A2]; lia|]. intros A. split; [apply (null_len C s i V I)|]; lia. }
  assert (Lt : 0 < len C i -> 1 <= off s i /\ off s i + len C i <= vsize s).
  { intros G. destruct (vi_in _ _ V i I (null_len C s i V I ltac:(lia))) as (Q1 & Q2 & Q3). lia. }
  assert (G0 : vmem s' (vsize s + len C i) = INV).
  { rewrite M3. replace ((vsize s + len C i <=? vsize s + len C i) && (vsize s + len C i <? vsize s + n)) with true by lia. reflexivity. }
  assert (G1 : forall k, vsize s <= k < vsize s + len C i -> vmem s' k = vmem s (k - vsize s + off s i)).
  { intros k K. rewrite M3, M2. replace ((vsize s + len C i <=? k) && (k <? vsize s + n)) with false by lia.
    replace ((0 <? len C i) && (off s i <=? k) && (k <? off s i + len C i)) with false by (symmetry; specialize (Lt ltac:(lia)); lia).
    replace ((vsize s <=? k) && (k <? vsize s + len C i)) with true by lia. reflexivity. }
  assert (G2 : forall k, k < vsize s -> ~ own C s i k -> vmem s' k = vmem s k).
  { intros k K N. rewrite M3, M2. replace ((vsize s + len C i <=? k) && (k <? vsize s + n)) with false by lia.
    rewrite Own in N. rewrite (not_true_is_false _ N). replace ((vsize s <=? k) && (k <? vsize s + len C i)) with false by lia. reflexivity. }
  assert (G3 : forall k, own C s i k -> vmem s' k = INV).
  { intros k O. rewrite M3, M2. apply Own in O. rewrite O. destruct ((vsize s + len C i <=? k) && (k <? vsize s + n)); reflexivity. }
  assert (G4 : forall k, vsize s + len C i <= k < vsize s + n -> vmem s' k = INV).
  { intros k K. rewrite M3. replace ((vsize s + len C i <=? k) && (k <? vsize s + n)) with true by lia. reflexivity. }
  assert (El : forall k x, nth_error (C i) k = Some x -> vmem s' (off s' i + Z.of_nat k) = x).
  { intros k x Ex. pose proof (nth_error_Some_lt _ _ _ _ Ex) as Lk. rewrite Oi, G1 by (unfold len; lia).
    rewrite <- (vi_elems _ _ V i k x I (null_len C s i V I ltac:(unfold len; lia)) Ex). f_equal. lia. }
  assert (V' : vinv C s').
  { apply (change_one C s C s' i V I); auto.
    - intros j J. cbn. apply upd_other. auto.
    - rewrite Ez. cbn. lia.
    - rewrite Vi. cbn. lia.
    - rewrite Vi. reflexivity.
    - lia.
    - lia.
    - intros x X. apply (vi_valid _ _ V i); auto.
    - intros k K N _. apply G2; auto. lia.
    - intros k K [_ O]. rewrite Oi in O. lia.
    - intros k K N. rewrite Ez in K. apply G4. destruct (Z.lt_ge_cases k (vsize s + len C i)) as [Q|Q]; [|lia].
      exfalso. apply N. split; [rewrite Vi; cbn; lia|]. rewrite Oi. lia.
    - rewrite Ez. rewrite (cnt_split _ 1 (vsize s)), (cnt_split _ (vsize s) (vsize s + len C i)) by lia.
      rewrite (cnt_all _ (vsize s + len C i)) by (try lia; auto).
      rewrite (cnt_none _ (vsize s)).
      2:{ intros k K. rewrite G1 by auto. apply (own_valid C s i); auto. apply Own. specialize (Lt ltac:(lia)). lia. }
      change (vusable s') with (vusable s + len C i + (n - len C i)). rewrite (vi_usable _ _ V).
      destruct (Z.eq_dec (len C i) 0) as [E|E].
      + rewrite (cnt_ext (vmem s') (vmem s)); [lia|]. intros k K. apply G2; [lia|]. rewrite Own. lia.
      + specialize (Lt ltac:(lia)).
        rewrite (cnt_change (vmem s) (vmem s') 1 (off s i) (off s i + len C i) (vsize s)); try lia.
        * rewrite (cnt_all (vmem s') (off s i)) by (try lia; intros k K; apply G3; apply Own; lia).
          rewrite (cnt_none (vmem s) (off s i)); [lia|]. intros k K. apply (own_valid C s i); auto. apply Own. lia.
        * intros k K D. apply G2; [lia|]. rewrite Own. lia. }
  splits; auto; try lia.
  - rewrite Vi. cbn. lia.
  - rewrite Vi. reflexivity.
  - rewrite Oi. auto.
Qed.

Lemma vinv_same : forall C s s', vinv C s -> vbase s' = vbase s -> vsize s' = vsize s -> vcap s' = vcap s -> vmem s' = vmem s ->
  vusable s' = vusable s -> (forall j, vecs s' j = vecs s j) -> vinv C s'.
Proof.
  intros C s s' V E1 E2 E3 E4 E5 E6.
  assert (OW : forall i k, own C s' i k <-> own C s i k) by (intros; unfold own, off; rewrite E6, E1; tauto).
  assert (OF : forall i, off s' i = off s i) by (intros; unfold off; rewrite E6, E1; auto).
  destruct V as [A1 A2 A3 A4 A5 A6 A7 A8 A9].
  constructor; intros; rewrite ?E1, ?E2, ?E3, ?E4, ?E5, ?E6, ?OF in *; auto.
  - apply (A6 i x); auto.
  - apply A7; auto. intros i I O. apply (H0 i I). apply OW. auto.
  - apply (A8 i j k); auto; apply OW; auto.
Qed.

Lemma push_block_wp : forall C s, vinv C s -> vsize s = 0 ->
  wp (push_block place 0 s) (fun s' => vinv C s' /\ vsize s' = 1 /\ vcap s' = 2 /\ vecs s' = vecs s).
Proof.
  intros C s V E. destruct (vi_cap _ _ V) as [[A B]|[A _]]; [|lia]. unfold push_block. rewrite E, A. cbn [Z.eqb].
  pose proof (place_ok (vcalls s)) as P. unfold store, enlarge_block. rewrite E, A. cbn [Z.eqb vbase vcap vsize].
  replace ((place (vcalls s) <=? place (vcalls s) + 0) && (place (vcalls s) + 0 <? place (vcalls s) + 2)) with true by lia.
  cbn [obind wp set_size set_mem vbase vsize vcap vmem vusable vecs vcalls]. splits; auto; try lia.
  assert (Nl : forall i, (i < lits)%nat -> vb (vecs s i) = 0).
  { intros i I. destruct (Z.eq_dec (vb (vecs s i)) 0); auto. destruct (vi_in _ _ V i I n) as (_ & Q & _). lia. }
  constructor; cbn [set_size set_mem vbase vsize vcap vmem vusable vecs vcalls]; intros.
  - right. split; [lia|]. exists 1. split; [lia|reflexivity].
  - lia.
  - apply (vi_null _ _ V); auto.
  - rewrite Nl in H0 by auto. contradiction.
  - rewrite Nl in H0 by auto. contradiction.
  - apply (vi_valid _ _ V i); auto.
  - lia.
  - destruct H2 as [N _]. cbn in N. rewrite Nl in N by auto. contradiction.
  - rewrite (vi_usable _ _ V), E. reflexivity.
Qed.

Lemma push_wp : forall C s i e, vinv C s -> (i < lits)%nat -> e <> INV -> len C i < 2 ^ 47 ->
  (vsize s + 2 * len C i + 2 <= MAX_VECTORS \/ big) ->
  wpx big (push_vectors lits place i e s) (fun s' => vinv (set_seq C i (C i ++ [e])) s' /\ vsize s' <= vsize s + 2 * len C i + 2).
Proof.
  intros C s i e V I E L Bg. unfold push_vectors. rewrite (proj2 (Z.eqb_neq _ _) E). cbn [negb oassert obind].
  assert (Len0 : 0 <= len C i) by (unfold len; lia).
  assert (N2 : (if len C i =? 0 then 1 else 2 * len C i) <= 2 * len C i + 1) by (destruct (Z.eqb_spec (len C i) 0); lia).
  destruct (Z.eqb_spec (vb (vecs s i)) 0) as [N|N].
  - destruct (vi_null _ _ V i I N) as [N1 Ce]. assert (L0 : len C i = 0) by (unfold len; rewrite Ce; reflexivity).
    do 2 apply wpx_bind.
    apply wpx_mono with (P := fun s1 => vinv C s1 /\ 1 <= vsize s1 <= vsize s + 1 /\ vecs s1 = vecs s).
    { destruct (Z.eqb_spec (vsize s) 0) as [Z0|Z0].
      - apply wp_wpx. eapply wp_mono; [apply (push_block_wp C s V Z0)|]. cbn beta. intros s1 (A1 & A2 & A3 & A4). splits; auto; lia.
      - pose proof (sizes _ _ V). cbn [wpx]. splits; auto; lia. }
    intros s1 (V1 & S1 & Ev1). pose proof (sizes _ _ V1) as (Z1 & Z2 & Z3).
    destruct (Z.eqb_spec (vsize s1) (vcap s1)) as [Ef|Ef].
    + do 2 apply wpx_bind. eapply wpx_mono; [apply (enlarge_vector_wp C s1 i V1 I); auto; destruct Bg; auto; lia|]. cbn beta.
      intros [p s2] (A1 & A2 & A3 & A4 & A5 & A6). cbn [fst snd] in *. subst p.
      apply wp_wpx. eapply wp_mono; [apply (fill_wp C s2 i e A1 I A2 A4 A5 E)|]. cbn beta. intros s3 (B1 & B2 & B3).
      cbn [obind wp set_vec vecs vsize vb ve]. split; [|cbn [set_vec vsize]; lia].
      eapply vinv_same; [exact B1|reflexivity..|]. intros j. cbn [set_vec vecs]. rewrite upd_same. cbn [vb ve].
      destruct (Nat.eq_dec j i) as [->|D]; [|rewrite !upd_other; auto]. rewrite !upd_same. f_equal.
      rewrite B3. destruct (vi_in _ _ A1 i I A2) as (Q & _). lia.
    + cbn [set_vec vbase vsize]. replace (vbase s1 + vsize s1) with (vbase (set_vec i {| vb := vbase s1 + vsize s1; ve := ve (vecs s1 i) |} s1) + vsize s1) by reflexivity.
      rewrite store_at by (cbn; lia). cbn [obind wpx]. split; [|cbn [set_vec set_size set_mem vsize]; lia].
      apply (vinv_same _ (mk_vectors (vbase s1) (vsize s1 + 1) (vcap s1) (mupd (vmem s1) (vsize s1) e) (vusable s1)
        (upd (vecs s1) i (mk_vec (vbase s1 + vsize s1 - len C i) (vbase s1 + vsize s1 + 1))) (vcalls s1))); try reflexivity.
      * eapply append_vinv; [exact V1|auto|lia|auto| |reflexivity]. left. congruence.
      * intros j. cbn [set_vec set_size set_mem vecs vbase vsize]. destruct (Nat.eq_dec j i) as [->|D]; [|rewrite !upd_other; auto].
        rewrite !upd_same. cbn [vb ve]. f_equal; lia.
  - destruct (vi_in _ _ V i I N) as (Ve & O1 & O2). pose proof (sizes _ _ V) as (Z1 & Z2 & Z3).
    apply wpx_bind. destruct (Z.eqb_spec (ve (vecs s i)) (vbase s + vsize s)) as [Ee|Ee].
    + destruct (Z.eqb_spec (vsize s) (vcap s)) as [Ef|Ef].
      * apply wpx_bind. eapply wpx_mono; [apply (enlarge_vector_wp C s i V I); auto; destruct Bg; auto; lia|]. cbn beta.
        intros [p s2] (A1 & A2 & A3 & A4 & A5 & A6). cbn [fst snd] in *. subst p.
        apply wp_wpx. eapply wp_mono; [apply (fill_wp C s2 i e A1 I A2 A4 A5 E)|]. cbn beta. intros s3 (B1 & B2 & B3).
        cbn [wpx wp]. split; [exact B1|cbn [set_vec set_size set_mem vsize]; lia].
      * rewrite Ee. rewrite store_at by lia. cbn [obind wpx]. split; [|cbn [set_vec set_size set_mem vsize]; lia].
        apply (vinv_same _ (mk_vectors (vbase s) (vsize s + 1) (vcap s) (mupd (vmem s) (vsize s) e) (vusable s)
          (upd (vecs s) i (mk_vec (vbase s + vsize s - len C i) (vbase s + vsize s + 1))) (vcalls s))); try reflexivity.
        -- eapply append_vinv; [exact V|auto|lia|auto| |reflexivity]. right. rewrite vb_off in Ve. lia.
        -- intros j. cbn [set_vec set_size set_mem vecs]. destruct (Nat.eq_dec j i) as [->|D]; [|rewrite !upd_other; auto].
           rewrite !upd_same. f_equal; lia.
    + assert (Lt : off s i + len C i < vsize s) by (rewrite vb_off in Ve; lia).
      replace (ve (vecs s i)) with (vbase s + (off s i + len C i)) at 1 by (rewrite Ve, vb_off; lia).
      rewrite load_at by lia. cbn [obind]. destruct (Z.eqb_spec (vmem s (off s i + len C i)) INV) as [M|M].
      * cbn [obind]. apply wp_wpx. eapply wp_mono; [apply (fill_wp C s i e V I N Lt M E)|]. cbn beta. intros s3 (B1 & B2 & B3).
        cbn [wpx wp]. split; [exact B1|cbn [set_vec set_size set_mem vsize]; lia].
      * apply wpx_bind. eapply wpx_mono; [apply (enlarge_vector_wp C s i V I); auto; destruct Bg; auto; lia|]. cbn beta.
        intros [p s2] (A1 & A2 & A3 & A4 & A5 & A6). cbn [fst snd] in *. subst p.
        apply wp_wpx. eapply wp_mono; [apply (fill_wp C s2 i e A1 I A2 A4 A5 E)|]. cbn beta. intros s3 (B1 & B2 & B3).
        cbn [wpx wp]. split; [exact B1|cbn [set_vec set_size set_mem vsize]; lia].
Qed.

(** A vector gets shorter: its contents may change and the entries behind become invalid. *)
Lemma shrink_vinv : forall C s i l s', vinv C s -> (i < lits)%nat -> vb (vecs s i) <> 0 -> (length l <= length (C i))%nat ->
  (forall x, In x l -> x <> INV) -> vbase s' = vbase s -> vsize s' = vsize s -> vcap s' = vcap s ->
  (forall j, vecs s' j = upd (vecs s) i (mk_vec (vb (vecs s i)) (vb (vecs s i) + Z.of_nat (length l))) j) ->
  vusable s' = vusable s + (len C i - Z.of_nat (length l)) ->
  (forall k x, nth_error l k = Some x -> vmem s' (off s i + Z.of_nat k) = x) ->
  (forall k, off s i + Z.of_nat (length l) <= k < off s i + len C i -> vmem s' k = INV) ->
  (forall k, ~ own C s i k -> vmem s' k = vmem s k) -> vinv (set_seq C i l) s'.
Proof.
  intros C s i l s' V I N Ln Va E1 E2 E3 Ev Us El Fr Ot. destruct (vi_in _ _ V i I N) as (Ve & O1 & O2).
  pose proof (sizes _ _ V) as (Z1 & Z2 & Z3).
  assert (Vi : vecs s' i = mk_vec (vb (vecs s i)) (vb (vecs s i) + Z.of_nat (length l))) by (rewrite Ev; apply upd_same).
  assert (Li : len (set_seq C i l) i = Z.of_nat (length l)) by (unfold len; rewrite set_seq_same; auto).
  assert (Oi : off s' i = off s i) by (unfold off; rewrite Vi, E1; reflexivity).
  assert (Own : forall k, own C s i k <-> off s i <= k < off s i + len C i) by (intros; unfold own; tauto).
  assert (Own' : forall k, own (set_seq C i l) s' i k <-> off s i <= k < off s i + Z.of_nat (length l)).
  { intros; unfold own. rewrite Vi, Oi, Li. cbn. tauto. }
  assert (LL : Z.of_nat (length l) <= len C i) by (unfold len; lia).
  apply (change_one C s _ s' i V I); auto; try lia.
  - intros j J. rewrite Ev. apply upd_other. auto.
  - intros j J. apply set_seq_other. auto.
  - rewrite Vi. auto.
  - rewrite Vi, Li. reflexivity.
  - intros k x Ex. rewrite set_seq_same in Ex. rewrite Oi. auto.
  - intros x X. rewrite set_seq_same in X. auto.
  - intros k K O. left. apply Own' in O. apply Own. lia.
  - intros k O O'. rewrite Own in O. rewrite Own' in O'. apply Fr. lia.
  - rewrite Us, E2, (vi_usable _ _ V).
    rewrite (cnt_change (vmem s) (vmem s') 1 (off s i) (off s i + len C i) (vsize s)); try lia.
    + rewrite (cnt_none (vmem s) (off s i)) by (intros k K; apply (own_valid C s i); auto; apply Own; lia).
      rewrite (cnt_split (vmem s') _ (off s i + Z.of_nat (length l))) by lia.
      rewrite (cnt_all (vmem s') (off s i + Z.of_nat (length l))) by (try lia; auto).
      rewrite (cnt_none (vmem s') (off s i)); [lia|]. intros k K.
      destruct (nth_error l (Z.to_nat (k - off s i))) as [x|] eqn:Ex; [|apply nth_error_None in Ex; lia].
      pose proof (El _ _ Ex) as M. replace (off s i + Z.of_nat (Z.to_nat (k - off s i))) with k in M by lia. rewrite M.
      apply Va. apply nth_error_In in Ex. auto.
    + intros k K D. apply Ot. rewrite Own. auto.
Qed.

Lemma resize_wp : forall C s i n, vinv C s -> (i < lits)%nat -> (n <= length (C i))%nat ->
  wp (resize_vector i (Z.of_nat n) s) (fun s' => vinv (set_seq C i (firstn n (C i))) s' /\ vsize s' = vsize s).
Proof.
  intros C s i n V I Ln. unfold resize_vector. rewrite (size_len C s i V I).
  pose proof (sizes _ _ V) as (Z1 & Z2 & Z3).
  rewrite (proj2 (Z.leb_le _ _)) by (unfold len; lia). cbn [oassert obind]. destruct (Z.eqb_spec (Z.of_nat n) (len C i)) as [E|E].
  - cbn [wp]. split; auto. rewrite firstn_all2 by (unfold len in E; lia). destruct V as [A1 A2 A3 A4 A5 A6 A7 A8 A9].
    assert (Q : forall j, set_seq C i (C i) j = C j) by (intros j; unfold set_seq; destruct (Nat.eqb_spec j i); congruence).
    assert (QL : forall j, len (set_seq C i (C i)) j = len C j) by (intros; unfold len; now rewrite Q).
    assert (QO : forall j k, own (set_seq C i (C i)) s j k <-> own C s j k) by (intros; unfold own; now rewrite QL).
    constructor; intros; rewrite ?Q, ?QL in *; eauto.
    + apply A7; auto. intros j J O. apply (H0 j J). now apply QO.
    + apply QO in H2, H3. eauto.
  - assert (N : vb (vecs s i) <> 0) by (apply (null_len C s i V I); unfold len in *; lia).
    destruct (vi_in _ _ V i I N) as (Ve & O1 & O2). assert (LL : len C i < 2 ^ 50) by (unfold MAX_VECTORS in *; lia).
    assert (NL : Z.of_nat n < len C i) by (unfold len in *; lia).
    unfold add_usable, MAX_SECTOR. cbn [set_vec vusable].
    unfold MAX_VECTORS in *. replace ((vusable s <=? 2 ^ 64 - 1 - (len C i - Z.of_nat n)) && (len C i - Z.of_nat n <=? 2 ^ 64 - 1)) with true by lia.
    cbn [oassert obind]. unfold invalidate. cbn [set_usable set_vec vbase vcap]. rewrite vb_off in *.
    replace ((vbase s <=? vbase s + off s i + Z.of_nat n) && (0 <=? len C i - Z.of_nat n) &&
      (vbase s + off s i + Z.of_nat n + (len C i - Z.of_nat n) <=? vbase s + vcap s)) with true by lia.
    cbn [wp set_mem set_usable set_vec vsize]. split; auto.
    assert (Lf : length (firstn n (C i)) = n) by (rewrite firstn_length; lia).
    apply (shrink_vinv C s i (firstn n (C i))); auto; cbn [set_mem set_usable set_vec vsize vbase vcap vmem vusable vecs].
    + rewrite vb_off. auto.
    + lia.
    + intros x X. apply (vi_valid _ _ V i); auto. rewrite <- (firstn_skipn n (C i)). apply in_or_app. auto.
    + intros j. rewrite Lf, vb_off. reflexivity.
    + lia.
    + intros k x Ex. rewrite <- (vi_elems _ _ V i k x I); auto.
      * pose proof (nth_error_Some_lt _ _ _ _ Ex).
        replace ((vbase s + off s i + Z.of_nat n - vbase s <=? off s i + Z.of_nat k) && _) with false by lia. reflexivity.
      * rewrite vb_off. auto.
      * rewrite <- (firstn_skipn n (C i)). rewrite nth_error_app1; auto. apply nth_error_Some_lt in Ex. auto.
    + intros k K. rewrite Lf in K. replace ((vbase s + off s i + Z.of_nat n - vbase s <=? k) &&
        (k <? vbase s + off s i + Z.of_nat n - vbase s + (len C i - Z.of_nat n))) with true by lia. reflexivity.
    + intros k K. unfold own in K. rewrite vb_off in K.
      replace ((vbase s + off s i + Z.of_nat n - vbase s <=? k) &&
        (k <? vbase s + off s i + Z.of_nat n - vbase s + (len C i - Z.of_nat n))) with false; [reflexivity|]. symmetry. lia.
Qed.

Lemma find_loop_eq : forall s (a : list Z) e fuel j o last, (forall k x, nth_error a k = Some x -> vmem s (o + Z.of_nat k) = x) ->
  vmem s (o + Z.of_nat (length a)) = e -> ~ In e a -> 0 <= o -> o + Z.of_nat (length a) < vsize s -> (j <= length a)%nat ->
  (length a - j <= fuel)%nat -> vbase s + o + Z.of_nat (length a) < last ->
  find_loop fuel (vbase s + o + Z.of_nat j) last e s = Ret (vbase s + o + Z.of_nat (length a)).
Proof.
  intros s a e. induction fuel as [|fuel IH]; intros j o last El Ee Ni O1 O2 J F La; cbn [find_loop].
  - replace j with (length a) by lia. rewrite <- Z.add_assoc. rewrite load_at by lia. cbn [obind]. rewrite Ee, Z.eqb_refl. auto.
  - replace (vbase s + o + Z.of_nat j) with (vbase s + (o + Z.of_nat j)) at 1 by lia. rewrite load_at by lia. cbn [obind].
    destruct (Nat.eq_dec j (length a)) as [->|D]; [rewrite Ee, Z.eqb_refl; auto|].
    destruct (nth_error a j) as [x|] eqn:Ex; [|apply nth_error_None in Ex; lia]. rewrite (El j x Ex).
    rewrite (proj2 (Z.eqb_neq x e)) by (intros ->; apply Ni; apply nth_error_In in Ex; auto).
    rewrite (proj2 (Z.eqb_neq (vbase s + o + Z.of_nat j + 1) last)) by lia. cbn [negb oassert obind].
    replace (vbase s + o + Z.of_nat j + 1) with (vbase s + o + Z.of_nat (S j)) by lia. apply IH; auto; lia.
Qed.

Lemma shift_loop_wp : forall fuel k h s, 1 <= k <= h -> h <= vsize s <= vcap s -> h - k <= Z.of_nat fuel ->
  wp (shift_loop fuel (vbase s + k) (vbase s + h) s) (fun s' => vbase s' = vbase s /\ vsize s' = vsize s /\ vcap s' = vcap s /\
    vusable s' = vusable s /\ vecs s' = vecs s /\ vcalls s' = vcalls s /\
    forall x, vmem s' x = if (k - 1 <=? x) && (x <? h - 1) then vmem s (x + 1) else vmem s x).
Proof.
  induction fuel as [|fuel IH]; intros k h s K H F; cbn [shift_loop];
    destruct (Z.eqb_spec (vbase s + k) (vbase s + h)) as [E|E].
  - cbn [wp]. splits; auto. intros x. replace ((k - 1 <=? x) && (x <? h - 1)) with false by lia. auto.
  - lia.
  - cbn [wp]. splits; auto. intros x. replace ((k - 1 <=? x) && (x <? h - 1)) with false by lia. auto.
  - rewrite load_at by lia. cbn [obind]. replace (vbase s + k - 1) with (vbase s + (k - 1)) by lia. rewrite store_at by lia. cbn [obind].
    set (s1 := set_mem _ s). replace (vbase s + k + 1) with (vbase s1 + (k + 1)) by (cbn; lia). change (vbase s + h) with (vbase s1 + h).
    eapply wp_mono; [apply IH; cbn; lia|]. cbn beta. intros s' (A1 & A2 & A3 & A4 & A5 & A6 & A7).
    cbn [s1 set_mem vbase vsize vcap vusable vecs vcalls] in *. splits; auto. intros x. rewrite A7. cbn [s1 set_mem vmem].
    destruct (Z.eq_dec x (k - 1)) as [->|D].
    + replace ((k + 1 - 1 <=? k - 1) && (k - 1 <? h - 1)) with false by lia. rewrite mupd_same.
      replace ((k - 1 <=? k - 1) && (k - 1 <? h - 1)) with true by lia. f_equal. lia.
    + rewrite (mupd_other _ _ _ x) by auto. destruct ((k + 1 - 1 <=? x) && (x <? h - 1)) eqn:Q.
      * replace ((k - 1 <=? x) && (x <? h - 1)) with true by lia. apply mupd_other. lia.
      * replace ((k - 1 <=? x) && (x <? h - 1)) with false by lia. auto.
Qed.

Lemma remove_wp : forall C s i e a b, vinv C s -> (i < lits)%nat -> C i = a ++ e :: b -> ~ In e a ->
  wp (remove_from_vector i e s) (fun s' => vinv (set_seq C i (a ++ b)) s' /\ vsize s' = vsize s).
Proof.
  intros C s i e a b V I Ec Ni. pose proof (sizes _ _ V) as (Z1 & Z2 & Z3).
  assert (Ln : len C i = Z.of_nat (length a) + 1 + Z.of_nat (length b)) by (unfold len; rewrite Ec, app_length; cbn; lia).
  assert (N : vb (vecs s i) <> 0) by (apply (null_len C s i V I); lia).
  destruct (vi_in _ _ V i I N) as (Ve & O1 & O2). unfold remove_from_vector. rewrite Ve. rewrite vb_off in *.
  rewrite (proj2 (Z.eqb_neq (vbase s + off s i) _)) by lia. cbn [negb oassert obind].
  replace (vbase s + off s i + len C i - (vbase s + off s i)) with (len C i) by lia.
  assert (El : forall k x, nth_error (a ++ e :: b) k = Some x -> vmem s (off s i + Z.of_nat k) = x).
  { intros k x Ex. rewrite <- Ec in Ex. apply (vi_elems _ _ V i k x I); auto. rewrite vb_off. auto. }
  replace (find_loop _ (vbase s + off s i) _ e s) with (Ret (vbase s + off s i + Z.of_nat (length a))).
  2:{ symmetry. replace (vbase s + off s i) with (vbase s + off s i + Z.of_nat 0) at 1 by lia. apply find_loop_eq; try lia; auto.
      - intros k x Ex. apply El. rewrite nth_error_app1; auto. apply nth_error_Some_lt in Ex. auto.
      - apply El. rewrite nth_error_app2 by lia. rewrite Nat.sub_diag. reflexivity. }
  cbn [obind]. replace (vbase s + off s i + Z.of_nat (length a) + 1) with (vbase s + (off s i + Z.of_nat (length a) + 1)) by lia.
  replace (vbase s + off s i + len C i) with (vbase s + (off s i + len C i)) by lia.
  apply wp_bind. eapply wp_mono; [apply shift_loop_wp; lia|]. cbn beta. intros s1 (A1 & A2 & A3 & A4 & A5 & A6 & A7).
  rewrite <- A1. replace (vbase s1 + (off s i + len C i) - 1) with (vbase s1 + (off s i + len C i - 1)) by lia.
  rewrite store_at by lia. cbn [obind]. rewrite (proj2 (Z.ltb_lt _ _)) by lia. cbn [oassert obind].
  unfold inc_usable. cbn [set_vec set_mem vusable]. rewrite A4. unfold MAX_SECTOR, MAX_VECTORS in *.
  rewrite (proj2 (Z.ltb_lt (vusable s) _)) by lia. cbn [oassert obind wp]. split; [|cbn; lia].
  assert (La : Z.of_nat (length (a ++ b)) = len C i - 1) by (rewrite app_length; lia).
  assert (Ow : forall k, own C s i k <-> off s i <= k < off s i + len C i) by (intros; unfold own; rewrite vb_off; tauto).
  apply (shrink_vinv C s i (a ++ b)); auto; cbn [set_mem set_usable set_vec vsize vbase vcap vmem vusable vecs].
  - rewrite vb_off. auto.
  - unfold len in *. lia.
  - intros x X. apply (vi_valid _ _ V i); auto. rewrite Ec. apply in_app_or in X. apply in_or_app. destruct X; auto. right. now right.
  - intros j. rewrite A5, La, vb_off, A1. unfold upd. destruct (Nat.eqb j i); auto. f_equal. lia.
  - lia.
  - intros k x Ex. pose proof (nth_error_Some_lt _ _ _ _ Ex) as Lk. rewrite app_length in Lk. rewrite mupd_other by lia. rewrite A7.
    destruct (Nat.lt_ge_cases k (length a)) as [K|K].
    + replace ((off s i + Z.of_nat (length a) + 1 - 1 <=? off s i + Z.of_nat k) && (off s i + Z.of_nat k <? off s i + len C i - 1)) with false by lia.
      apply El. rewrite nth_error_app1 in * by auto. auto.
    + replace ((off s i + Z.of_nat (length a) + 1 - 1 <=? off s i + Z.of_nat k) && (off s i + Z.of_nat k <? off s i + len C i - 1)) with true by lia.
      replace (off s i + Z.of_nat k + 1) with (off s i + Z.of_nat (S k)) by lia. apply El.
      rewrite nth_error_app2 in * by lia. replace (S k - length a)%nat with (S (k - length a)) by lia. auto.
  - intros k K. rewrite La in K. replace k with (off s i + len C i - 1) by lia. apply mupd_same.
  - intros k K. rewrite Ow in K. rewrite mupd_other by lia. rewrite A7.
    replace ((off s i + Z.of_nat (length a) + 1 - 1 <=? k) && (k <? off s i + len C i - 1)) with false; [auto|]. symmetry. lia.
Qed.

Lemma poke_wp : forall C s i e a x b, vinv C s -> (i < lits)%nat -> C i = a ++ x :: b -> e <> INV ->
  wp (poke_vector i (Z.of_nat (length a)) e s) (fun s' => vinv (set_seq C i (a ++ e :: b)) s' /\ vsize s' = vsize s).
Proof.
  intros C s i e a x b V I Ec E. pose proof (sizes _ _ V) as (Z1 & Z2 & Z3).
  assert (Ln : len C i = Z.of_nat (length a) + 1 + Z.of_nat (length b)) by (unfold len; rewrite Ec, app_length; cbn; lia).
  assert (N : vb (vecs s i) <> 0) by (apply (null_len C s i V I); lia).
  destruct (vi_in _ _ V i I N) as (Ve & O1 & O2). unfold poke_vector. rewrite (size_len C s i V I).
  replace ((0 <=? Z.of_nat (length a)) && (Z.of_nat (length a) <? len C i) && negb (e =? INV)) with true by lia.
  cbn [oassert obind]. rewrite vb_off. rewrite <- Z.add_assoc. rewrite store_at by lia. cbn [wp]. split; auto.
  assert (El : forall k x, nth_error (C i) k = Some x -> vmem s (off s i + Z.of_nat k) = x).
  { intros k y Ex. apply (vi_elems _ _ V i k y I); auto. }
  apply (shrink_vinv C s i (a ++ e :: b)); auto; cbn [set_mem set_usable set_vec vsize vbase vcap vmem vusable vecs];
    rewrite ?app_length; cbn [length].
  - unfold len in *. lia.
  - intros y Y. apply in_app_or in Y. destruct Y as [Y|[<-|Y]]; auto; apply (vi_valid _ _ V i); auto; rewrite Ec; apply in_or_app; auto.
    right. now right.
  - intros j. unfold upd. destruct (Nat.eqb_spec j i) as [->|D]; auto. destruct (vecs s i) as [p q]; cbn in *. f_equal. lia.
  - lia.
  - intros k y Ey. destruct (Nat.eq_dec k (length a)) as [->|D].
    + rewrite mupd_same. rewrite nth_error_app2, Nat.sub_diag in Ey by lia. cbn in Ey. congruence.
    + rewrite mupd_other by lia. apply El. rewrite Ec. destruct (Nat.lt_ge_cases k (length a)) as [K|K].
      * rewrite nth_error_app1 in * by auto. auto.
      * rewrite nth_error_app2 in * by auto. destruct (k - length a)%nat as [|d] eqn:Ed; [lia|]. auto.
  - intros k K. lia.
  - intros k K. apply mupd_other. intros ->. apply K. split; auto. lia.
Qed.

Lemma flush_vinv : forall C s, vinv C s -> vinv (fun _ => []) (release_vectors lits s).
Proof.
  intros C s V.
  assert (Nl : forall i, (i < lits)%nat -> vecs (release_vectors lits s) i = mk_vec 0 0).
  { intros i I. cbn [release_vectors vecs]. rewrite (proj2 (Nat.ltb_lt _ _) I). auto. }
  constructor; cbn [release_vectors vbase vsize vcap vmem vusable]; intros.
  - auto.
  - lia.
  - rewrite Nl by auto. auto.
  - rewrite Nl in H0 by auto. cbn in H0. contradiction.
  - rewrite Nl in H0 by auto. cbn in H0. contradiction.
  - contradiction.
  - lia.
  - destruct H2 as [Q _]. rewrite Nl in Q by auto. cbn in Q. contradiction.
  - reflexivity.
Qed.

(** ** Defragmenting *)
Definition total (C : nat -> list Z) (l : list nat) : Z := fold_right (fun j n => len C j + n) 0 l.
(** The vectors [l] are where they have been, in this order and behind [a]. *)
Fixpoint spread (C : nat -> list Z) (s : vectors) (l : list nat) (a : Z) : Prop :=
  match l with
  | [] => a <= vsize s
  | j :: l => a <= off s j /\ 1 <= off s j /\ ve (vecs s j) = vb (vecs s j) + len C j /\
      (forall k x, nth_error (C j) k = Some x -> vmem s (off s j + Z.of_nat k) = x) /\ spread C s l (off s j + len C j)
  end.
(** The vectors [l] are next to each other, starting at [a]. *)
Fixpoint placed (C : nat -> list Z) (s : vectors) (l : list nat) (a : Z) : Prop :=
  match l with
  | [] => True
  | j :: l => off s j = a /\ ve (vecs s j) = vb (vecs s j) + len C j /\
      (forall k x, nth_error (C j) k = Some x -> vmem s (a + Z.of_nat k) = x) /\ placed C s l (a + len C j)
  end.

Lemma spread_end : forall C l s a, spread C s l a -> a + total C l <= vsize s.
Proof.
  induction l as [|j l IH]; intros s a H; cbn [spread total fold_right] in *; [lia|].
  destruct H as (H1 & H2 & _ & _ & H). specialize (IH _ _ H). unfold total in IH. lia.
Qed.
Lemma len_pos : forall C j, 0 <= len C j.
Proof. intros. unfold len. lia. Qed.
Lemma total_pos : forall C l, 0 <= total C l.
Proof. induction l as [|j l IH]; cbn [total fold_right]; [lia|]. pose proof (len_pos C j). unfold total in IH. lia. Qed.

Lemma spread_weaken : forall C l s a a', spread C s l a -> a' <= a -> spread C s l a'.
Proof. intros C [|j l] s a a' H L; cbn [spread] in *; [lia|]. destruct H as (H1 & H). split; auto. lia. Qed.

Lemma spread_same : forall C l s s' a b, spread C s l a -> b <= a -> vbase s' = vbase s -> vsize s' = vsize s ->
  (forall j, In j l -> vecs s' j = vecs s j) -> (forall k, b <= k -> vmem s' k = vmem s k) -> spread C s' l a.
Proof.
  induction l as [|j l IH]; intros s s' a b H L E1 E2 Ev Em; cbn [spread] in *; [lia|].
  assert (Eo : off s' j = off s j) by (unfold off; rewrite (Ev j (or_introl eq_refl)), E1; auto).
  destruct H as (H1 & H2 & H3 & H4 & H5). rewrite Eo, (Ev j (or_introl eq_refl)). splits; auto.
  - intros k x Ex. rewrite Em by lia. auto.
  - eapply (IH s s' _ b); eauto; try lia. { pose proof (len_pos C j). lia. } intros i Hi. apply Ev. now right.
Qed.

Lemma defrag_loop_wp : forall C l s a, 1 <= a -> NoDup l -> vsize s <= vcap s -> spread C s l a ->
  wp (defrag_loop l (vbase s + a) s) (fun r => fst r = vbase s + a + total C l /\ vbase (snd r) = vbase s /\ vsize (snd r) = vsize s /\
    vcap (snd r) = vcap s /\ vusable (snd r) = vusable s /\ vcalls (snd r) = vcalls s /\ placed C (snd r) l a /\
    (forall k, k < a -> vmem (snd r) k = vmem s k) /\ (forall j, ~ In j l -> vecs (snd r) j = vecs s j)).
Proof.
  induction l as [|j l IH]; intros s a A Nd Sz H.
  - cbn [defrag_loop wp fst snd total fold_right placed]. splits; auto. lia.
  - pose proof (spread_end _ _ _ _ H) as Se. cbn [defrag_loop]. cbn [spread] in H. destruct H as (H1 & H2 & H3 & H4 & H5). apply NoDup_cons_iff in Nd.
    pose proof (spread_end _ _ _ _ H5) as Se5. pose proof (len_pos C j) as Lp. pose proof (total_pos C l) as Tp.
    assert (Es : size_vector (vecs s j) = len C j) by (unfold size_vector; lia). rewrite Es, vb_off.
    unfold move. cbn [set_vec vbase vcap vsize].
    replace ((vbase s <=? vbase s + a) && (vbase s <=? vbase s + off s j) && (0 <=? len C j) && (vbase s + a + len C j <=? vbase s + vcap s) &&
      (vbase s + off s j + len C j <=? vbase s + vsize s)) with true by lia.
    cbn [obind]. set (s1 := set_mem _ _).
    assert (M1 : forall k, vmem s1 k = if (a <=? k) && (k <? a + len C j) then vmem s (k - a + off s j) else vmem s k).
    { intros k. cbn [s1 set_mem set_vec vmem]. replace (vbase s + a - vbase s) with a by lia.
      replace (k - (vbase s + a) + (vbase s + off s j)) with (k - a + off s j) by lia. reflexivity. }
    assert (Vj : vecs s1 j = mk_vec (vbase s + a) (vbase s + a + len C j)) by (cbn; apply upd_same).
    assert (Vo : forall i, i <> j -> vecs s1 i = vecs s i) by (intros i D; cbn; apply upd_other; auto).
    replace (vbase s + a + len C j) with (vbase s1 + (a + len C j)) by (cbn [s1 set_mem set_vec vbase]; lia).
    eapply wp_mono.
    { apply (IH s1 (a + len C j)); try lia; try apply Nd; auto.
      apply (spread_same C l s s1 _ (a + len C j)); auto.
      - eapply spread_weaken; [exact H5|lia].
      - lia.
      - intros i Ii. apply Vo. intros ->. apply (proj1 Nd). auto.
      - intros k K. rewrite M1. replace ((a <=? k) && (k <? a + len C j)) with false by lia. auto. }
    cbn beta. intros [p s2] (B1 & B2 & B3 & B4 & B5 & B6 & B7 & B8 & B9). cbn [fst snd] in *.
    cbn [s1 set_mem set_vec vbase vsize vcap vusable vcalls] in B2, B3, B4, B5, B6.
    assert (Vj2 : vecs s2 j = vecs s1 j) by (apply B9; apply (proj1 Nd)).
    splits; auto.
    + rewrite B1. cbn [s1 set_mem set_vec vbase total fold_right]. unfold total. lia.
    + cbn [placed]. unfold off. rewrite Vj2, Vj, B2. cbn [vb ve]. splits; auto; try lia.
      intros k x Ex. pose proof (nth_error_Some_lt _ _ _ _ Ex). rewrite B8 by (unfold len; lia). rewrite M1.
      replace ((a <=? a + Z.of_nat k) && (a + Z.of_nat k <? a + len C j)) with true by (unfold len; lia).
      rewrite <- (H4 k x Ex). f_equal. lia.
    + intros k K. rewrite B8 by lia. rewrite M1. replace ((a <=? k) && (k <? a + len C j)) with false by lia. auto.
    + intros i Hi. cbn [In] in Hi. rewrite B9 by tauto. apply Vo. intros ->. tauto.
Qed.

Lemma placed_in : forall C s l a j, placed C s l a -> In j l -> a <= off s j /\ off s j + len C j <= a + total C l /\
  ve (vecs s j) = vb (vecs s j) + len C j /\ (forall k x, nth_error (C j) k = Some x -> vmem s (off s j + Z.of_nat k) = x).
Proof.
  intros C s. induction l as [|i l IH]; intros a j P J; [destruct J|]. cbn [placed total fold_right] in *. fold (total C l).
  destruct P as (P1 & P2 & P3 & P4). pose proof (total_pos C l). pose proof (len_pos C i). destruct J as [<-|J].
  - rewrite P1. splits; auto; lia.
  - destruct (IH _ _ P4 J) as (Q1 & Q2 & Q3 & Q4). splits; auto; lia.
Qed.
Lemma placed_disj : forall C s l a i j k, placed C s l a -> In i l -> In j l -> i <> j ->
  off s i <= k < off s i + len C i -> off s j <= k < off s j + len C j -> False.
Proof.
  intros C s. induction l as [|h l IH]; intros a i j k P I J D Ki Kj; [destruct I|]. cbn [placed] in P. destruct P as (P1 & P2 & P3 & P4).
  destruct I as [->|I], J as [->|J]; try congruence.
  - destruct (placed_in _ _ _ _ j P4 J). lia.
  - destruct (placed_in _ _ _ _ i P4 I). lia.
  - eapply (IH _ i j k); eauto.
Qed.
Lemma placed_cover : forall C s l a k, placed C s l a -> a <= k < a + total C l -> exists j, In j l /\ off s j <= k < off s j + len C j.
Proof.
  intros C s. induction l as [|h l IH]; intros a k P K; cbn [placed total fold_right] in *; [lia|]. fold (total C l) in K.
  destruct P as (P1 & P2 & P3 & P4). destruct (Z.lt_ge_cases k (a + len C h)) as [L|L].
  - exists h. split; [now left|]. lia.
  - destruct (IH _ k P4) as (j & J & Q); [lia|]. exists j. split; [now right|auto].
Qed.
Lemma spread_in : forall C s l a j, spread C s l a -> In j l -> a <= off s j.
Proof.
  intros C s. induction l as [|i l IH]; intros a j P J; [destruct J|]. cbn [spread] in *. destruct P as (P1 & P2 & P3 & P4 & P5).
  destruct J as [<-|J]; auto. specialize (IH _ _ P5 J). pose proof (len_pos C i). lia.
Qed.
Lemma spread_count : forall C s l a, spread C s l a -> (forall j x, In j l -> In x (C j) -> x <> INV) ->
  (forall k, a <= k < vsize s -> (forall j, In j l -> ~ (off s j <= k < off s j + len C j)) -> vmem s k = INV) ->
  cnt (vmem s) a (vsize s) = vsize s - a - total C l.
Proof.
  intros C s. induction l as [|h l IH]; intros a P Va Fr; pose proof (spread_end _ _ _ _ P) as Se; cbn [spread total fold_right] in *.
  - rewrite cnt_all; [lia|lia|]. intros k K. apply Fr; auto.
  - fold (total C l) in *. destruct P as (P1 & P2 & P3 & P4 & P5). pose proof (len_pos C h). pose proof (total_pos C l).
    pose proof (spread_end _ _ _ _ P5) as Se5.
    rewrite (cnt_split _ a (off s h)), (cnt_split _ (off s h) (off s h + len C h)) by lia.
    rewrite (cnt_all _ a), (cnt_none _ (off s h)), (IH _ P5).
    + lia.
    + intros j x J. apply Va. now right.
    + intros k K N. apply Fr; [lia|]. intros j [<-|J]; [lia|auto].
    + intros k K. destruct (nth_error (C h) (Z.to_nat (k - off s h))) as [x|] eqn:Ex; [|apply nth_error_None in Ex; unfold len in *; lia].
      pose proof (P4 _ _ Ex) as M. replace (off s h + Z.of_nat (Z.to_nat (k - off s h))) with k in M by lia. rewrite M.
      apply (Va h); [now left|]. apply nth_error_In in Ex. auto.
    + lia.
    + intros k K. apply Fr; [lia|]. intros j [<-|J]; [lia|]. pose proof (spread_in _ _ _ _ j P5 J). lia.
Qed.

Lemma make_spread : forall C s l a, vinv C s -> NoDup l -> (forall j, In j l -> (j < lits)%nat /\ 0 < len C j) ->
  ordered_by (fun x y => off s x <? off s y) l -> (forall j, In j l -> a <= off s j) -> a <= vsize s -> spread C s l a.
Proof.
  intros C s. induction l as [|h l IH]; intros a V Nd Li Or Lo Le; cbn [spread]; auto.
  apply NoDup_cons_iff in Nd. destruct (Li h ltac:(now left)) as [H1 H2].
  assert (N : vb (vecs s h) <> 0) by (apply (null_len C s h V H1); lia). destruct (vi_in _ _ V h H1 N) as (Q1 & Q2 & Q3).
  splits; auto; try lia.
  - apply Lo. now left.
  - intros k x Ex. apply (vi_elems _ _ V h k x H1 N Ex).
  - apply IH; auto; try apply Nd; try lia.
    + intros j J. apply Li. now right.
    + intros i j x y L Ex Ey. apply (Or (S i) (S j)); auto; lia.
    + intros j J. destruct (Li j ltac:(now right)) as [J1 J2]. apply In_nth_error in J as Jn. destruct Jn as [n Jn].
      pose proof (Or 0%nat (S n) h j ltac:(lia) eq_refl Jn) as O. apply Z.ltb_ge in O.
      destruct (Z.le_gt_cases (off s h + len C h) (off s j)) as [G|G]; auto. exfalso.
      assert (Nj : vb (vecs s j) <> 0) by (apply (null_len C s j V J1); lia).
      apply (vi_disj _ _ V h j (off s j)); auto.
      * intros ->. apply (proj1 Nd). auto.
      * split; auto; lia.
      * split; auto; lia.
Qed.

Lemma reset_vinv : forall C s, vinv C s -> vinv C (reset_empty lits s).
Proof.
  intros C s V.
  assert (K : forall i, (i < lits)%nat -> vecs (reset_empty lits s) i = if len C i =? 0 then mk_vec 0 0 else vecs s i).
  { intros i I. cbn [reset_empty vecs]. rewrite (proj2 (Nat.ltb_lt _ _) I). cbn [andb]. unfold empty_vector.
    pose proof (size_len C s i V I) as E. unfold size_vector in E.
    replace (ve (vecs s i) =? vb (vecs s i)) with (len C i =? 0) by lia. auto. }
  assert (N0 : forall i, len C i = 0 -> C i = []) by (intros i E; apply length_zero_iff_nil; unfold len in E; lia).
  assert (OW : forall i k, (i < lits)%nat -> own C (reset_empty lits s) i k <-> own C s i k).
  { intros i k I. unfold own, off. rewrite (K i I). destruct (Z.eqb_spec (len C i) 0) as [E|E]; [|tauto]. rewrite E. cbn. lia. }
  destruct V as [A1 A2 A3 A4 A5 A6 A7 A8 A9]. constructor; cbn [reset_empty vbase vsize vcap vmem vusable]; auto.
  - intros i I. fold (reset_empty lits s). rewrite (K i I). destruct (Z.eqb_spec (len C i) 0) as [E|E]; auto.
  - intros i I. unfold off. fold (reset_empty lits s). rewrite (K i I). destruct (Z.eqb_spec (len C i) 0) as [E|E]; [cbn; contradiction|apply A4; auto].
  - intros i k x I. unfold off. fold (reset_empty lits s). rewrite (K i I). destruct (Z.eqb_spec (len C i) 0) as [E|E]; [cbn; contradiction|].
    apply A5; auto.
  - intros k R H. apply A7; auto. intros i I O. apply (H i I). apply OW; auto.
  - intros i j k I J D O1 O2. apply OW in O1, O2; auto. eauto.
Qed.

Lemma in_nonempty : forall C s i, vinv C s -> In i (nonempty lits s) <-> (i < lits)%nat /\ 0 < len C i.
Proof.
  intros C s i V. unfold nonempty. rewrite filter_In, in_seq. unfold empty_vector.
  split; intros [A B]; assert (I : (i < lits)%nat) by lia; pose proof (size_len C s i V I) as E; unfold size_vector in E; pose proof (len_pos C i); lia.
Qed.

Lemma shrink_cap : forall s, 1 <= vsize s <= vcap s -> (exists k, 1 <= k <= 48 /\ vcap s = 2 ^ k) ->
  let s' := shrink_block place s in 
  (1 <= vsize s' <= vcap s' /\ exists k, 1 <= k <= 48 /\ vcap s' = 2 ^ k) /\ (0 < vbase s < 2 ^ 61 -> 0 < vbase s' < 2 ^ 61) /\
  vsize s' = vsize s /\ vmem s' = vmem s /\ vecs s' = vecs s /\ vusable s' = vusable s.
Proof.
  intros s S1 (k & K & E). unfold shrink_block. cbv zeta. destruct (Z.eqb_spec (vsize s) (vcap s)) as [F|F]; [split; [split; [auto|exists k; auto]|splits; tauto]|].
  destruct (Z.eqb_spec (Z.max 2 (2 ^ Z.log2_up (vsize s))) (vcap s)) as [G|G]; [split; [split; [auto|exists k; auto]|splits; tauto]|].
  cbn [vbase vsize vcap vmem vecs vusable]. pose proof (place_ok (vcalls s)).
  assert (L : vsize s <= 2 ^ Z.log2_up (vsize s)).
  { destruct (Z.eq_dec (vsize s) 1) as [->|D]; [cbn; lia|]. apply Z.log2_up_spec. lia. }
  assert (U : 0 <= Z.log2_up (vsize s) <= 48).
  { split; [apply Z.log2_up_nonneg|]. apply Z.log2_up_le_pow2; [lia|]. assert (2 ^ k <= 2 ^ 48) by (apply Z.pow_le_mono_r; lia). lia. }
  split; [|splits; auto; lia]. split; [lia|].
  destruct (Z.le_gt_cases 1 (Z.log2_up (vsize s))) as [Q|Q].
  - exists (Z.log2_up (vsize s)). split; [lia|]. apply Z.max_r. change 2 with (2 ^ 1) at 1. apply Z.pow_le_mono_r; lia.
  - exists 1. split; [lia|]. replace (Z.log2_up (vsize s)) with 0 by lia. reflexivity.
Qed.

Lemma defrag_wp : forall C s, vinv C s -> wp (defrag_vectors lits place s) (fun s' => vinv C s' /\ vsize s' <= vsize s).
Proof.
  intros C s V0. unfold defrag_vectors. destruct (Z.ltb_spec (vsize s) 2) as [S2|S2]; [cbn [wp]; split; auto; lia|].
  pose proof (reset_vinv C s V0) as V. set (ne := nonempty lits s).
  assert (Ne : forall i, In i ne <-> (i < lits)%nat /\ 0 < len C i) by (intros; apply in_nonempty; auto).
  assert (NdN : NoDup ne) by (apply NoDup_filter, seq_NoDup). clearbody ne.
  assert (Ev0 : forall i, (i < lits)%nat -> len C i = 0 -> vecs (reset_empty lits s) i = mk_vec 0 0).
  { intros i I E0. cbn [reset_empty vecs]. rewrite (proj2 (Nat.ltb_lt _ _) I). cbn [andb]. unfold empty_vector.
    pose proof (size_len C s i V0 I) as E. unfold size_vector in E. rewrite (proj2 (Z.eqb_eq _ _)) by lia. auto. }
  change (vsize s) with (vsize (reset_empty lits s)) in *. set (s0 := reset_empty lits s) in *. clearbody s0. clear V0 s. rename s0 into s.
  pose proof (sizes _ _ V) as (Z1 & Z2 & Z3). pose proof (vi_base _ _ V ltac:(lia)) as B.
  destruct (C31_radix nat (rank_offset s) 8 ne) as (l & El & St).
  { intros x. unfold rank_offset. change (8 * Z.of_nat 8) with 64. apply Z.mod_pos_bound. lia. }
  pose proof (C31_permutation _ _ _ _ St) as Pm. destruct St as [Or _]. rewrite El. cbn [obind].
  assert (Nl : forall i, In i l <-> (i < lits)%nat /\ 0 < len C i).
  { intros i. rewrite <- Ne. split; intros X; [apply (Permutation_in _ (Permutation_sym Pm) X)|apply (Permutation_in _ Pm X)]. }
  assert (Nd : NoDup l) by (apply (Permutation_NoDup Pm NdN)).
  assert (Rk : forall i, In i l -> rank_offset s i = 4 * (vbase s + off s i) /\ 1 <= off s i).
  { intros i Ii. apply Nl in Ii. destruct Ii as [I1 I2]. assert (N : vb (vecs s i) <> 0) by (apply (null_len C s i V I1); lia).
    destruct (vi_in _ _ V i I1 N) as (Q1 & Q2 & Q3). unfold rank_offset. rewrite vb_off. unfold MAX_VECTORS in *.
    rewrite Z.mod_small; [lia|]. lia. }
  assert (Sp : spread C s l 1).
  { apply (make_spread C s l 1 V Nd); [| | |lia].
    - intros j J. apply Nl. auto.
    - intros i j x y L Ex Ey. specialize (Or i j x y L Ex Ey). cbn beta in *.
      destruct (Rk x) as [Rx _]; [apply nth_error_In in Ex; auto|]. destruct (Rk y) as [Ry _]; [apply nth_error_In in Ey; auto|]. lia.
    - intros j J. apply Rk. auto. }
  apply wp_bind. eapply wp_mono; [apply (defrag_loop_wp C l s 1); auto; lia|]. cbn beta.
  intros [p s2] (B1 & B2 & B3 & B4 & B5 & B6 & B7 & B8 & B9). cbn [fst snd] in *.
  pose proof (spread_end _ _ _ _ Sp) as Se. pose proof (total_pos C l) as Tp.
  assert (Us : vusable s = vsize s - 1 - total C l).
  { rewrite (vi_usable _ _ V). apply spread_count; auto.
    - intros j x J. apply (vi_valid _ _ V j). apply Nl. auto.
    - intros k K N. apply (vi_free _ _ V); [lia|]. intros i I [O1 O2]. apply (N i); auto. apply Nl. split; auto. lia. }
  rewrite (proj2 (Z.eqb_eq _ _)) by lia. cbn [oassert obind].
  replace ((vbase s2 <=? p) && (p <=? vbase s2 + vsize s2)) with true by lia. cbn [oassert obind wp].
  set (s3 := set_size (p - vbase s2) s2). change (vbase (set_size (p - vbase s2) s2)) with (vbase s3).
  assert (Z3' : vsize s3 = 1 + total C l) by (unfold s3; cbn [set_size vsize]; lia).
  assert (V3 : vinv C (set_usable 0 s3)).
  { assert (Nv : forall i, (i < lits)%nat -> ~ In i l -> vecs s2 i = mk_vec 0 0 /\ C i = []).
    { intros i I N. assert (E0 : len C i = 0) by (pose proof (len_pos C i); destruct (Z.eq_dec (len C i) 0); auto; exfalso; apply N; apply Nl; lia).
      assert (Ci : C i = []) by (apply length_zero_iff_nil; unfold len in E0; lia). split; auto.
      rewrite B9 by auto. auto. }
    assert (Pl : forall i, In i l -> 1 <= off s2 i /\ off s2 i + len C i <= 1 + total C l /\ vb (vecs s2 i) <> 0 /\ (i < lits)%nat /\
      0 < len C i /\ ve (vecs s2 i) = vb (vecs s2 i) + len C i /\ (forall k x, nth_error (C i) k = Some x -> vmem s2 (off s2 i + Z.of_nat k) = x)).
    { intros i Ii. destruct (placed_in _ _ _ _ i B7 Ii) as (P1 & P2 & P3 & P4). apply Nl in Ii. splits; auto; try lia; try tauto. rewrite vb_off. lia. }
    assert (Inl : forall i, (i < lits)%nat -> vb (vecs s2 i) <> 0 -> In i l).
    { intros i I N. destruct (in_dec Nat.eq_dec i l); auto. destruct (Nv i I n) as [Q _]. rewrite Q in N. cbn in N. contradiction. }
    assert (OW : forall i k, own C (set_usable 0 s3) i k <-> own C s2 i k) by reflexivity.
    constructor; cbn [set_usable s3 set_size vbase vcap vmem vusable vecs].
    - change (vsize (set_usable 0 s3)) with (vsize s3). rewrite Z3', B4. right.
      destruct (vi_cap _ _ V) as [[A A']|(A & k & K & E)]; [lia|]. split; [lia|eauto].
    - intros _. rewrite B2. auto.
    - intros i I N. destruct (in_dec Nat.eq_dec i l) as [Q|Q]; [|destruct (Nv i I Q) as [Q1 Q2]; rewrite Q1; auto].
      destruct (Pl i Q) as (_ & _ & P & _). contradiction.
    - intros i I N. destruct (Pl i (Inl i I N)) as (P1 & P2 & P3 & P4 & P5 & P6 & P7).
      change (off (set_usable 0 s3) i) with (off s2 i). change (vsize (set_usable 0 s3)) with (vsize s3). rewrite Z3'. splits; auto; lia.
    - intros i k x I N E. destruct (Pl i (Inl i I N)) as (P1 & P2 & P3 & P4 & P5 & P6 & P7). apply P7. auto.
    - apply (vi_valid _ _ V).
    - intros k K N. change (vsize (set_usable 0 s3)) with (vsize s3) in K. rewrite Z3' in K. exfalso.
      destruct (placed_cover _ _ _ _ k B7 K) as (j & J & Q). destruct (Pl j J) as (P1 & P2 & P3 & P4 & _). apply (N j P4). split; auto.
    - intros i j k I J D O1 O2. apply OW in O1, O2. destruct O1 as [N1 O1], O2 as [N2 O2].
      apply (placed_disj _ _ _ _ i j k B7 (Inl i I N1) (Inl j J N2) D O1 O2).
    - change (vsize (set_usable 0 s3)) with (vsize s3). rewrite Z3'. symmetry. apply cnt_none. intros k K.
      destruct (placed_cover _ _ _ _ k B7 K) as (j & J & Q). destruct (Pl j J) as (P1 & P2 & P3 & P4 & P5 & P6 & P7).
      destruct (nth_error (C j) (Z.to_nat (k - off s2 j))) as [x|] eqn:Ex; [|apply nth_error_None in Ex; unfold len in *; lia].
      pose proof (P7 _ _ Ex) as M. replace (off s2 j + Z.of_nat (Z.to_nat (k - off s2 j))) with k in M by lia. rewrite M.
      apply (vi_valid _ _ V j); auto. apply nth_error_In in Ex. auto. }
  clearbody s3. destruct (vi_cap _ _ V3) as [[Q _]|[Q1 Q2]]; [cbn in Q; destruct (vi_cap _ _ V3) as [[_ Q']|[Q' _]]; cbn in Q'; lia|].
  cbn [set_usable vsize vcap] in Q1, Q2. pose proof (vi_base _ _ V3 ltac:(cbn; lia)) as B3'. cbn [set_usable vbase] in B3'.
  destruct (shrink_cap s3 Q1 Q2) as (C1 & C2 & C3 & C4 & C5 & C6). specialize (C2 B3'). set (s4 := shrink_block place s3) in *. clearbody s4.
  set (s5 := if vbase s4 - vbase s3 =? 0 then s4 else fix_pointers lits (vbase s4 - vbase s3) s4).
  assert (E5 : vsize s5 = vsize s4 /\ vcap s5 = vcap s4 /\ vbase s5 = vbase s4 /\ vmem s5 = vmem s4)
    by (unfold s5; destruct (vbase s4 - vbase s3 =? 0); auto).
  destruct E5 as (F1 & F2 & F3 & F4). split; [|cbn [set_usable vsize]; lia].
  apply (rebase C (set_usable 0 s3) (set_usable 0 s5) V3); cbn [set_usable vbase vsize vcap vmem vusable vecs]; try congruence.
  - rewrite F1, F2. auto.
  - intros j J. rewrite F3. unfold s5. destruct (Z.eqb_spec (vbase s4 - vbase s3) 0) as [M|M].
    + rewrite C5, M. destruct (vecs s3 j) as [b e]; cbn. destruct (b =? 0); f_equal; lia.
    + cbn [fix_pointers vecs]. rewrite (proj2 (Nat.ltb_lt _ _) J), C5.
      destruct (Z.eqb_spec (vb (vecs s3 j)) 0) as [N|N].
      * destruct (vi_null _ _ V3 j J N) as [Q _]. cbn in Q. rewrite Q, Z.eqb_refl. destruct (vecs s3 j); cbn in *. congruence.
      * destruct (vi_in _ _ V3 j J N) as (R1 & R2 & R3). change (vecs (set_usable 0 s3) j) with (vecs s3 j) in R1.
        change (off (set_usable 0 s3) j) with (off s3 j) in *.
        rewrite (proj2 (Z.eqb_neq (ve _) 0)); auto. rewrite vb_off in R1. pose proof (len_pos C j). lia.
Qed.
End Facts.
