(** Facts about the clause database of a state. *)
From Coq Require Import ZArith List Bool Lia Arith Permutation.
From Coq Require Import ZifyBool ZifyNat.
From Verif Require Import Base SpecSat Lit Sem Solver Inv.
Import ListNotations.
Open Scope nat_scope.

(** ** Tables of lists *)
Lemma cnt_flat_ext : forall (f g : nat -> list (list lit)) n c,
  (forall i, i < n -> cnt c (f i) = cnt c (g i)) -> cnt c (flat_map f (seq 0 n)) = cnt c (flat_map g (seq 0 n)).
Proof.
  intros f g n c. enough (G : forall k, (forall i, k <= i < k + n -> cnt c (f i) = cnt c (g i)) ->
    cnt c (flat_map f (seq k n)) = cnt c (flat_map g (seq k n))).
  { intros H. apply G. intros. apply H. lia. }
  induction n as [|n IH]; intros k H; cbn [seq flat_map]; auto.
  rewrite !cnt_app. rewrite (H k) by lia. f_equal. apply IH. intros. apply H. lia.
Qed.

Lemma cnt_flat_upd : forall (f g : nat -> list (list lit)) n r c,
  (forall i, i <> r -> cnt c (g i) = cnt c (f i)) -> r < n ->
  cnt c (flat_map g (seq 0 n)) + cnt c (f r) = cnt c (flat_map f (seq 0 n)) + cnt c (g r).
Proof.
  intros f g n r c H. enough (G : forall k, k <= r < k + n ->
    cnt c (flat_map g (seq k n)) + cnt c (f r) = cnt c (flat_map f (seq k n)) + cnt c (g r)).
  { intros L. apply G. lia. }
  induction n as [|n IH]; intros k R; [lia|].
  cbn [seq flat_map]. rewrite !cnt_app.
  destruct (Nat.eq_dec k r) as [->|N].
  - assert (E : cnt c (flat_map g (seq (S r) n)) = cnt c (flat_map f (seq (S r) n))); [|lia].
    clear IH R. enough (K : forall j, r < j -> cnt c (flat_map g (seq j n)) = cnt c (flat_map f (seq j n))) by (apply K; lia).
    induction n as [|n IH]; intros j J; cbn [seq flat_map]; auto.
    rewrite !cnt_app. rewrite (H j) by lia. rewrite IH by lia. reflexivity.
  - rewrite (H k) by auto. specialize (IH (S k)). lia.
Qed.

Lemma flat_seq_S : forall (f : nat -> list (list lit)) n, flat_map f (seq 0 (S n)) = flat_map f (seq 0 n) ++ f n.
Proof. intros. rewrite seq_S, flat_map_app. cbn. now rewrite app_nil_r. Qed.

Lemma in_flat_seq : forall (f : nat -> list (list lit)) n c,
  In c (flat_map f (seq 0 n)) <-> exists i, i < n /\ In c (f i).
Proof.
  intros f n c. rewrite in_flat_map. split; intros (i & A & B); exists i; split; auto.
  - apply in_seq in A. lia.
  - apply in_seq. lia.
Qed.

(** ** Members of the database *)
Lemma in_root_units : forall s c, In c (root_units s) <->
  exists l, c = [l] /\ l < 2 * vars s /\ values s l = Some true /\ lev s l = 0.
Proof.
  intros s c. unfold root_units. rewrite in_map_iff. split.
  - intros (l & <- & H). apply filter_In in H as [A B]. apply in_seq in A. exists l.
    apply andb_true_iff in B as [B C]. unfold is_true in B.
    destruct (values s l) as [[]|]; try discriminate. splits; auto; lia.
  - intros (l & -> & A & B & C). exists l. split; auto. apply filter_In. split.
    + apply in_seq. lia.
    + unfold is_true. rewrite B, C. reflexivity.
Qed.
Lemma in_binaries : forall n W c, In c (binaries n W) <->
  exists a b, c = [a; b] /\ a < b /\ a < 2 * n /\ In (WBinary b) (W a).
Proof.
  intros n W c. unfold binaries. rewrite in_flat_seq. split.
  - intros (a & A & H). apply in_flat_map in H as (w & Hw & H).
    destruct w as [b|b r]; unfold binary_of in H; [|destruct H]. destruct (a <? b) eqn:E; [|destruct H].
    destruct H as [<-|[]]. exists a, b. splits; auto. lia.
  - intros (a & b & -> & L & A & H). exists a. split; auto. apply in_flat_map.
    exists (WBinary b). split; auto. unfold binary_of. replace (a <? b) with true by lia. now left.
Qed.
Lemma in_larges : forall n ar c, In c (larges n ar) <->
  exists r d, r < n /\ ar r = Some d /\ c_garbage d = false /\ c = c_lits d.
Proof.
  intros n ar c. unfold larges. rewrite in_flat_seq. split.
  - intros (r & A & H). destruct (ar r) as [d|] eqn:E; cbn in H; [|destruct H].
    destruct (c_garbage d) eqn:G; [destruct H|]. destruct H as [<-|[]]. exists r, d. auto.
  - intros (r & d & A & E & G & ->). exists r. split; auto. rewrite E. cbn. rewrite G. now left.
Qed.
Lemma in_irredundants : forall n ar c, In c (irredundants n ar) <->
  exists r d, r < n /\ ar r = Some d /\ c_garbage d = false /\ c_redundant d = false /\ c = c_lits d.
Proof.
  intros n ar c. unfold irredundants. rewrite in_flat_seq. split.
  - intros (r & A & H). destruct (ar r) as [d|] eqn:E; cbn in H; [|destruct H].
    destruct (c_garbage d) eqn:G; [destruct H|]. destruct (c_redundant d) eqn:R; [destruct H|].
    destruct H as [<-|[]]. exists r, d. auto.
  - intros (r & d & A & E & G & R & ->). exists r. split; auto. rewrite E. cbn. rewrite G, R. now left.
Qed.

Lemma db_unit : forall s l, l < 2 * vars s -> values s l = Some true -> lev s l = 0 -> In [l] (db s).
Proof. intros. unfold db. apply in_or_app. left. apply in_root_units. eauto. Qed.
Lemma db_binary : forall s a b, winv (rooted s) (vars s) (active s) (arena s) (watches s) -> In (WBinary b) (watches s a) ->
  exists d, In d (db s) /\ same_literals [a; b] d.
Proof.
  intros s a b W H. pose proof (wi_sym _ _ _ _ _ W _ _ H) as K. pose proof (wi_bin _ _ _ _ _ W _ _ H) as (N & [A _] & [B _]).
  destruct (lt_dec a b) as [L|L].
  - exists [a; b]. split; [|apply same_literals_refl]. unfold db. apply in_or_app. right. apply in_or_app. left.
    apply in_binaries. exists a, b. auto.
  - exists [b; a]. split; [|apply same_literals_perm, perm_swap]. unfold db. apply in_or_app. right. apply in_or_app. left.
    apply in_binaries. exists b, a. splits; auto; lia.
Qed.
Lemma db_large : forall s r c, cinv s -> arena s r = Some c -> c_garbage c = false -> In (c_lits c) (db s).
Proof.
  intros s r c C A G. unfold db. apply in_or_app. right. apply in_or_app. right. apply in_larges.
  exists r, c. splits; auto. apply (ci_ref _ C). congruence.
Qed.

Lemma cnt_db : forall c s, cnt c (db s) =
  cnt c (root_units s) + cnt c (binaries (vars s) (watches s)) + cnt c (larges (next_ref s) (arena s)).
Proof. intros. unfold db. rewrite !cnt_app. lia. Qed.

(** ** Changes of the binary clauses *)
Lemma binary_of_app : forall a ws vs, flat_map (binary_of a) (ws ++ vs) = flat_map (binary_of a) ws ++ flat_map (binary_of a) vs.
Proof. intros. apply flat_map_app. Qed.

Lemma cnt_binaries_push : forall n W c a w, a < 2 * n ->
  cnt c (binaries n (upd W a (W a ++ [w]))) = cnt c (binaries n W) + cnt c (binary_of a w).
Proof.
  intros n W c a w A. unfold binaries.
  pose proof (cnt_flat_upd (fun a => flat_map (binary_of a) (W a))
    (fun i => flat_map (binary_of i) (upd W a (W a ++ [w]) i)) (2 * n) a c) as H. cbv beta in H.
  rewrite upd_same in H. rewrite binary_of_app, cnt_app in H. cbn [flat_map] in H. rewrite app_nil_r in H.
  enough (E : forall i, i <> a -> cnt c (flat_map (binary_of i) (upd W a (W a ++ [w]) i)) = cnt c (flat_map (binary_of i) (W i))).
  { specialize (H E A). lia. }
  intros i N. now rewrite upd_other.
Qed.
Lemma cnt_binaries_same : forall n W W' c,
  (forall a, a < 2 * n -> flat_map (binary_of a) (W' a) = flat_map (binary_of a) (W a)) ->
  cnt c (binaries n W') = cnt c (binaries n W).
Proof. intros n W W' c H. apply cnt_flat_ext. intros i I. now rewrite H. Qed.

(** ** Changes of the large clauses *)
Lemma cnt_larges_upd : forall n ar c r o, r < n ->
  cnt c (larges n (upd ar r o)) + cnt c (lits_of (ar r)) = cnt c (larges n ar) + cnt c (lits_of o).
Proof.
  intros n ar c r o R. unfold larges.
  pose proof (cnt_flat_upd (fun r => lits_of (ar r)) (fun i => lits_of (upd ar r o i)) n r c) as H. cbv beta in H.
  rewrite upd_same in H. apply H; auto. intros i N. now rewrite upd_other.
Qed.
Lemma cnt_larges_new : forall n ar c o, 
  cnt c (larges (S n) (upd ar n o)) = cnt c (larges n ar) + cnt c (lits_of o).
Proof.
  intros n ar c o. unfold larges. rewrite flat_seq_S, cnt_app, upd_same. f_equal.
  apply cnt_flat_ext. intros i I. rewrite upd_other by lia. reflexivity.
Qed.

(** ** Preservation of [linv] *)
Lemma linv_covers : forall orig s, linv orig s -> covers (db s) (pdb orig (steps s)).
Proof. intros orig s H. apply msub_covers, (li_db _ _ H). Qed.

(** A change that is not recorded in the proof. *)
Lemma linv_same : forall orig s s', linv orig s ->
  steps s' = steps s -> inconsistent s' = inconsistent s -> vars s' = vars s ->
  msub (db s') (db s) -> (forall v, sat v (irr s') -> sat v (irr s)) -> linv orig s'.
Proof.
  intros orig s s' L E I Vs M V. destruct L as [P D Em Mo Ra]. constructor; [| | | |now rewrite E, Vs].
  - now rewrite E.
  - rewrite E. eapply msub_trans; eauto.
  - rewrite E, I. auto.
  - intros v S. apply Mo, V, S.
Qed.
(** A clause is derived and may be added to the database. *)
Lemma linv_add : forall orig s s' c, linv orig s -> rup neg (db s) c -> (forall l, In l c -> l < 2 * vars s) ->
  steps s' = Added c :: steps s -> (inconsistent s' = true -> inconsistent s = true \/ c = []) -> vars s' = vars s ->
  msub (db s') (c :: db s) -> (forall v, sat v (irr s') -> sat v (irr s)) -> linv orig s'.
Proof.
  intros orig s s' c L R Rc E I Vs M V. pose proof (linv_covers _ _ L) as C. destruct L as [P D Em Mo Ra].
  constructor; [| | | |rewrite E, Vs; intros x l [X|X]; [replace x with c in * by congruence; auto|now apply Ra]].
  - rewrite E. cbn [proof_ok]. split; auto. eapply rup_msub; eauto.
  - rewrite E. cbn [pdb]. eapply msub_trans; eauto. now apply msub_cons.
  - intros H. rewrite E. cbn [pdb]. rewrite cnt_cons. destruct (I H) as [K|K].
    + specialize (Em K). lia.
    + subst c. rewrite set_eqb_refl. cbn [b2n]. lia.
  - intros v S. apply Mo, V, S.
Qed.
(** A clause is deleted. *)
Lemma linv_del : forall orig s s' c, linv orig s ->
  steps s' = Deleted c :: steps s -> inconsistent s' = inconsistent s -> vars s' = vars s -> c <> [] ->
  msub (c :: db s') (db s) -> (forall v, sat v (irr s') -> sat v (irr s)) -> linv orig s'.
Proof.
  intros orig s s' c L E I Vs N M V. destruct L as [P D Em Mo Ra].
  assert (Q : 0 < cnt c (pdb orig (steps s))).
  { specialize (D c). specialize (M c). rewrite cnt_cons, set_eqb_refl in M. cbn [b2n] in M. lia. }
  constructor; [| | | |rewrite E, Vs; intros x l [X|X]; [discriminate|now apply Ra]].
  - rewrite E. cbn [proof_ok]. auto.
  - rewrite E. cbn [pdb]. intros x. pose proof (cnt_remove_same c _ x Q). specialize (D x). specialize (M x).
    rewrite cnt_cons in M. lia.
  - intros H. rewrite E. cbn [pdb]. rewrite I in H. specialize (Em H).
    pose proof (cnt_remove_same c _ [] Q) as K. assert (F : set_eqb [] c = false).
    { destruct c; [congruence|]. reflexivity. }
    rewrite F in K. cbn [b2n] in K. lia.
  - intros v S. apply Mo, V, S.
Qed.

(** Models of the irredundant clauses *)
Lemma sat_irr_covers : forall s s', covers (irr s) (irr s') -> forall v, sat v (irr s') -> sat v (irr s).
Proof. intros s s' C v S. eapply covers_sat; eauto. Qed.

(** Models of the irredundant clauses satisfy all clauses. *)
Lemma sat_irr_db : forall orig s v, linv orig s -> sat v (irr s) -> sat v (db s).
Proof.
  intros orig s v L S. apply covers_sat with (b := pdb orig (steps s)).
  - now apply linv_covers.
  - apply proof_ok_sat; [apply (li_proof _ _ L)|]. apply (li_models _ _ L), S.
Qed.
