(** C27: watch vectors.  A history of pushing to, removing from, shrinking, overwriting and defragmenting the vectors which share
    one block of memory leaves each of them with exactly the elements of its own sequence.  The specification is [vec_log] in
    SpecData.v; the model is Vector.v. *)
From Coq Require Import ZArith List Bool Lia.
From Coq Require Import ZifyBool ZifyNat.
From Verif Require Import Base Hoare SpecData Vector VectorFacts.
Import ListNotations.
Local Open Scope list_scope. Local Open Scope Z_scope. Local Open Scope outcome_scope.

(** One operation of a history is one call of the functions of vector.c and inlinevector.h *)
Definition vec_step (lits : nat) (place : nat -> Z) (o : vec_op) (s : vectors) : outcome vectors :=
  match o with
  | VPush i e => push_vectors lits place i e s
  | VRemove i e => remove_from_vector i e s
  | VResize i n => resize_vector i (Z.of_nat n) s
  | VRelease i => release_vector i s
  | VPoke i k e => poke_vector i (Z.of_nat k) e s
  | VDefrag => defrag_vectors lits place s
  | VFlush => Ret (release_vectors lits s)
  end.
Fixpoint run_vectors (lits : nat) (place : nat -> Z) (os : list vec_op) (s : vectors) : outcome vectors :=
  match os with
  | [] => Ret s
  | o :: os => do s <- vec_step lits place o s ; run_vectors lits place os s
  end.

Lemma run_vectors_app : forall lits place a b s,
  run_vectors lits place (a ++ b) s = (do s <- run_vectors lits place a s ; run_vectors lits place b s).
Proof. induction a as [|o a IH]; intros b s; cbn; auto. destruct (vec_step lits place o s); cbn; auto. Qed.

Lemma log_len : forall lits os C, vec_log lits os C -> forall i, (length (C i) <= length os)%nat.
Proof.
  induction 1; intros j; rewrite ?app_length; cbn [length]; try (specialize (IHvec_log j); lia); try lia; unfold set_seq;
    destruct (Nat.eqb_spec j i); try (specialize (IHvec_log j); lia); subst; specialize (IHvec_log i);
    rewrite ?app_length, ?firstn_length; cbn [length]; try lia;
    rewrite H1 in IHvec_log; rewrite app_length in IHvec_log; cbn [length] in IHvec_log; lia.
Qed.

Lemma run_vectors_vinv : forall lits place (big : Prop), (forall n, 0 < place n < 2 ^ 61) -> forall os C, vec_log lits os C ->
  Z.of_nat (length os) < 2 ^ 47 -> (big \/ Z.of_nat (length os) < 2 ^ 24) ->
  wpx big (run_vectors lits place os init_vectors)
    (fun s => vinv lits C s /\ vsize s <= Z.of_nat (length os) * Z.of_nat (length os) + Z.of_nat (length os)).
Proof.
  intros lits place big Pl os C H.
  assert (K : forall os o C', vec_log lits os C' -> Z.of_nat (length (os ++ [o])) < 2 ^ 47 -> (big \/ Z.of_nat (length (os ++ [o])) < 2 ^ 24) ->
     (Z.of_nat (length os) < 2 ^ 47 -> (big \/ Z.of_nat (length os) < 2 ^ 24) ->
      wpx big (run_vectors lits place os init_vectors)
       (fun s => vinv lits C' s /\ vsize s <= Z.of_nat (length os) * Z.of_nat (length os) + Z.of_nat (length os))) ->
     forall C'', (forall s, vinv lits C' s -> vsize s <= Z.of_nat (length os) * Z.of_nat (length os) + Z.of_nat (length os) ->
        wpx big (vec_step lits place o s) (fun s' => vinv lits C'' s' /\ vsize s' <= vsize s + 2 * Z.of_nat (length os) + 2)) ->
     wpx big (run_vectors lits place (os ++ [o]) init_vectors)
       (fun s => vinv lits C'' s /\ vsize s <= Z.of_nat (length (os ++ [o])) * Z.of_nat (length (os ++ [o])) + Z.of_nat (length (os ++ [o])))).
  { clear os C H. intros os o C' _ L1 L2 IH C'' St. rewrite run_vectors_app. apply wpx_bind.
    rewrite app_length in *. cbn [length] in *. eapply wpx_mono; [apply IH; [lia|destruct L2; [now left|right; lia]]|]. cbn beta. intros s [V S1]. cbn [run_vectors].
    apply wpx_bind. eapply wpx_mono; [apply (St s V S1)|]. cbn beta. intros s' [V' S2]. cbn [wpx]. split; auto. nia. }
  induction H; intros L1 L2; try (eapply K; eauto; intros s V Sz; cbn [vec_step]).
  - cbn [run_vectors wpx length]. split; [apply (init_vinv lits place Pl)|cbn; lia].
  - pose proof (log_len _ _ _ H i) as Ll. rewrite app_length in *. cbn [length] in *.
    eapply wpx_mono; [apply (push_wp lits place Pl big C s i e V H0)|].
    + unfold vec_element in H1. unfold INV, INVALID_VECTOR_ELEMENT. lia.
    + unfold len. lia.
    + destruct L2 as [L2|L2]; [now right|left]. unfold MAX_VECTORS, len. nia.
    + cbn beta. intros s' [A B]. split; auto. unfold len in B. lia.
  - eapply wpx_mono; [apply wp_wpx; apply (remove_wp lits place Pl C s i e a b V); auto|]. cbn beta. intros s' [A B]. split; auto. lia.
  - eapply wpx_mono; [apply wp_wpx; apply (resize_wp lits place Pl C s i n V); auto|]. cbn beta. intros s' [A B]. split; auto. lia.
  - eapply wpx_mono; [apply wp_wpx; apply (resize_wp lits place Pl C s i 0 V); auto; lia|]. cbn beta. intros s' [A B]. split; auto. lia.
  - eapply wpx_mono; [apply wp_wpx; apply (poke_wp lits place Pl C s i e a x b V); auto|].
    { unfold vec_element in H2. unfold INV, INVALID_VECTOR_ELEMENT. lia. }
    cbn beta. intros s' [A B]. split; auto. lia.
  - eapply wpx_mono; [apply wp_wpx; apply (defrag_wp lits place Pl C s V)|]. cbn beta. intros s' [A B]. split; auto. lia.
  - cbn [wpx]. split; [apply (flush_vinv lits place Pl C s V)|]. cbn [release_vectors vsize]. pose proof (sizes lits place Pl _ _ V). lia.
Qed.

(** What the rest of the solver sees of the vectors: the length and the elements of each *)
Definition vectors_hold (lits : nat) (s : vectors) (C : nat -> list Z) : Prop :=
  forall i, (i < lits)%nat -> size_vector (vecs s i) = Z.of_nat (length (C i)) /\
    forall k x, nth_error (C i) k = Some x -> get_vector i (Z.of_nat k) s = Ret x.

Lemma vinv_hold : forall lits (place : nat -> Z), (forall n, 0 < place n < 2 ^ 61) -> forall C s, vinv lits C s -> vectors_hold lits s C.
Proof.
  intros lits place Pl C s V i I. pose proof (size_len lits place Pl C s i V I) as E. split; [exact E|]. intros k x Ex.
  assert (Lk : (k < length (C i))%nat) by (apply nth_error_Some; congruence).
  unfold get_vector. rewrite E. unfold len. replace ((0 <=? Z.of_nat k) && (Z.of_nat k <? Z.of_nat (length (C i)))) with true by lia.
  cbn [oassert obind]. assert (N : vb (vecs s i) <> 0) by (apply (null_len lits place Pl C s i V I); unfold len; lia).
  destruct (vi_in _ _ _ V i I N) as (_ & O1 & O2). pose proof (sizes lits place Pl _ _ V) as Sz. unfold len in O2.
  rewrite (vb_off place Pl). replace (vbase s + off s i + Z.of_nat k) with (vbase s + (off s i + Z.of_nat k)) by lia.
  rewrite (load_at lits place Pl) by lia. f_equal. apply (vi_elems _ _ _ V i k x); auto.
Qed.

(** The slots of the block which belong to no vector (slot 0 is never used) *)
Definition in_vector (s : vectors) (k : Z) (i : nat) : bool := (vb (vecs s i) <=? vbase s + k) && (vbase s + k <? ve (vecs s i)).
Definition free_slots (lits : nat) (s : vectors) : list nat :=
  filter (fun k => negb (existsb (in_vector s (Z.of_nat k)) (seq 0 lits))) (seq 1 (Z.to_nat (vsize s) - 1)).

Lemma count_filter : forall m (f : nat -> bool) n lo, (forall k, (lo <= k < lo + n)%nat -> f k = (m (Z.of_nat k) =? INV)) ->
  count m (Z.of_nat lo) n = Z.of_nat (length (filter f (seq lo n))).
Proof.
  induction n as [|n IH]; intros lo H; cbn [count seq filter]; auto. rewrite (H lo) by lia.
  replace (Z.of_nat lo + 1) with (Z.of_nat (S lo)) by lia. rewrite IH by (intros; apply H; lia).
  destruct (m (Z.of_nat lo) =? INV); cbn [length]; lia.
Qed.

Lemma vinv_free : forall lits (place : nat -> Z), (forall n, 0 < place n < 2 ^ 61) -> forall C s, vinv lits C s ->
  vusable s = Z.of_nat (length (free_slots lits s)).
Proof.
  intros lits place Pl C s V. rewrite (vi_usable _ _ _ V). unfold cnt, free_slots. change 1 with (Z.of_nat 1).
  replace (Z.to_nat (vsize s - Z.of_nat 1)) with (Z.to_nat (vsize s) - 1)%nat by lia. apply count_filter. intros k K.
  pose proof (vi_base _ _ _ V ltac:(lia)) as B.
  assert (Q : existsb (in_vector s (Z.of_nat k)) (seq 0 lits) = true <-> exists i, (i < lits)%nat /\ own C s i (Z.of_nat k)).
  { rewrite existsb_exists. split; intros (i & I & O); exists i.
    - apply in_seq in I. split; [lia|]. unfold in_vector in O. destruct (Z.eq_dec (vb (vecs s i)) 0) as [N|N].
      + destruct (vi_null _ _ _ V i ltac:(lia) N) as [E _]. lia.
      + destruct (vi_in _ _ _ V i ltac:(lia) N) as (E & _). split; auto. unfold off. lia.
    - split; [apply in_seq; lia|]. destruct O as [N O]. destruct (vi_in _ _ _ V i ltac:(lia) N) as (E & _).
      unfold in_vector, off in *. lia. }
  destruct (existsb (in_vector s (Z.of_nat k)) (seq 0 lits)) eqn:Ex; cbn [negb].
  - destruct (proj1 Q eq_refl) as (i & I & O). symmetry. apply Z.eqb_neq. apply (own_valid lits place Pl C s i); auto.
  - symmetry. apply Z.eqb_eq. apply (vi_free _ _ _ V); [lia|]. intros i I O. assert (false = true) by (apply Q; eauto). discriminate.
Qed.

(** Every allowed history either stops because the memory for vectors is exhausted, which ends the program with an error, or it leaves
    every vector with its own elements; it never reads or writes outside the block and fails no assertion.  A vector of 2^47 elements
    is excluded (the assertion on its doubled size comes before the test for exhaustion). *)
Theorem C27_vectors : forall lits place os C, (forall n, 0 < place n < 2 ^ 61) -> vec_log lits os C -> Z.of_nat (length os) < 2 ^ 47 ->
  run_vectors lits place os init_vectors = Abort \/
  exists s, run_vectors lits place os init_vectors = Ret s /\ vectors_hold lits s C.
Proof.
  intros lits place os C Pl L B. pose proof (run_vectors_vinv lits place True Pl os C L B (or_introl I)) as W.
  destruct (run_vectors lits place os init_vectors) as [s| | |]; cbn [wpx] in W; auto; try contradiction.
  right. exists s. split; auto. apply (vinv_hold lits place Pl). apply W.
Qed.

(** With fewer than 2^24 operations memory is never exhausted. *)
Theorem C27_no_exhaustion : forall lits place os C, (forall n, 0 < place n < 2 ^ 61) -> vec_log lits os C -> Z.of_nat (length os) < 2 ^ 24 ->
  exists s, run_vectors lits place os init_vectors = Ret s /\ vectors_hold lits s C.
Proof.
  intros lits place os C Pl L B. pose proof (run_vectors_vinv lits place False Pl os C L ltac:(lia) (or_intror B)) as W.
  destruct (run_vectors lits place os init_vectors) as [s| | |]; cbn [wpx] in W; auto; try contradiction.
  exists s. split; auto. apply (vinv_hold lits place Pl). apply W.
Qed.


(** The counter of free entries is exact. *)
Theorem C27_free_space : forall lits place os C s, (forall n, 0 < place n < 2 ^ 61) -> vec_log lits os C -> Z.of_nat (length os) < 2 ^ 47 ->
  run_vectors lits place os init_vectors = Ret s -> vusable s = Z.of_nat (length (free_slots lits s)).
Proof.
  intros lits place os C s Pl L B E. pose proof (run_vectors_vinv lits place True Pl os C L B (or_introl I)) as W. rewrite E in W.
  apply (vinv_free lits place Pl C). apply W.
Qed.

Definition vec_history : list vec_op :=
  [VPush 0 7; VPush 1 8; VPush 0 9; VPush 1 10; VPush 0 11; VRemove 0 9; VPush 3 5; VResize 1 1; VPoke 0 1 12; VDefrag; VPush 1 13; VRelease 3].
Definition vec_place (n : nat) : Z := 1000 * (Z.of_nat (n mod 3) + 1).
Example vec_history_log : exists C, vec_log 4 vec_history C /\ map C [0; 1; 2; 3]%nat = [[7; 12]; [8; 13]; []; []].
Proof.
  pose proof (vl_start 4) as H.
  apply (vl_push _ _ _ 0 7) in H; [|lia|unfold vec_element; lia].
  apply (vl_push _ _ _ 1 8) in H; [|lia|unfold vec_element; lia].
  apply (vl_push _ _ _ 0 9) in H; [|lia|unfold vec_element; lia].
  apply (vl_push _ _ _ 1 10) in H; [|lia|unfold vec_element; lia].
  apply (vl_push _ _ _ 0 11) in H; [|lia|unfold vec_element; lia].
  apply (vl_remove _ _ _ 0 9 [7] [11]) in H; [|lia|reflexivity|intros [E|[]]; discriminate].
  apply (vl_push _ _ _ 3 5) in H; [|lia|unfold vec_element; lia].
  apply (vl_resize _ _ _ 1 1) in H; [|lia|cbn; lia].
  apply (vl_poke _ _ _ 0 12 [7] 11 []) in H; [|lia|reflexivity|unfold vec_element; lia].
  apply vl_defrag in H.
  apply (vl_push _ _ _ 1 13) in H; [|lia|unfold vec_element; lia].
  apply (vl_release _ _ _ 3) in H; [|lia].
  eexists. split; [exact H|reflexivity].
Qed.
Example vec_place_ok : forall n, 0 < vec_place n < 2 ^ 61.
Proof. intros n. unfold vec_place. pose proof (Nat.mod_upper_bound n 3 ltac:(lia)). lia. Qed.
(** The first vector moves several times in between. *)
Example vec_history_run :
  match run_vectors 4 vec_place vec_history init_vectors with
  | Ret s => (size_vector (vecs s 1%nat), get_vector 1 1 s, vcalls s) = (2, Ret 13, 5%nat)
  | _ => False
  end.
Proof. vm_compute. reflexivity. Qed.
Print Assumptions C27_vectors.
Print Assumptions C27_no_exhaustion.
Print Assumptions C27_free_space.
