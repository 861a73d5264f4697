(** Multisets of clauses up to the order of literals, and clausal proofs over them. *)
From Coq Require Import ZArith List Bool Lia Arith Permutation.
From Coq Require Import ZifyBool ZifyNat.
From Verif Require Import Base SpecSat Lit.
Import ListNotations.
Open Scope nat_scope.

Definition mem (l : lit) (c : list lit) : bool := existsb (Nat.eqb l) c.
Lemma mem_In : forall l c, mem l c = true <-> In l c.
Proof.
  intros l c. unfold mem. rewrite existsb_exists. split.
  - intros (x & A & B). apply Nat.eqb_eq in B. now subst.
  - intros H. exists l. split; auto. apply Nat.eqb_refl.
Qed.
Lemma mem_false : forall l c, mem l c = false <-> ~ In l c.
Proof. intros. rewrite <- mem_In. destruct (mem l c); split; intros; congruence. Qed.

Definition set_eqb (c d : list lit) : bool :=
  forallb (fun l => mem l d) c && forallb (fun l => mem l c) d.
Lemma set_eqb_spec : forall c d, set_eqb c d = true <-> same_literals c d.
Proof.
  intros c d. unfold set_eqb. rewrite andb_true_iff, !forallb_forall. split.
  - intros [A B] l. split; intros H; apply mem_In; auto.
  - intros H. split; intros l L; apply mem_In; now apply H.
Qed.
Lemma set_eqb_refl : forall c, set_eqb c c = true.
Proof. intros. apply set_eqb_spec, same_literals_refl. Qed.
Lemma set_eqb_same_r : forall c d e, same_literals d e -> set_eqb c d = set_eqb c e.
Proof.
  intros c d e H. apply eq_true_iff_eq. rewrite !set_eqb_spec. split; intros K.
  - eapply same_literals_trans; eauto.
  - eapply same_literals_trans; eauto. now apply same_literals_sym.
Qed.
Lemma set_eqb_same_l : forall c d e, same_literals c d -> set_eqb c e = set_eqb d e.
Proof.
  intros c d e H. apply eq_true_iff_eq. rewrite !set_eqb_spec. split; intros K.
  - eapply same_literals_trans; eauto. now apply same_literals_sym.
  - eapply same_literals_trans; eauto.
Qed.

(** Number of clauses of [db] with the literals of [c]. *)
Definition cnt (c : list lit) (db : list (list lit)) : nat := length (filter (set_eqb c) db).
Definition b2n (b : bool) : nat := if b then 1 else 0.

Lemma cnt_nil : forall c, cnt c [] = 0. Proof. reflexivity. Qed.
Lemma cnt_cons : forall c d db, cnt c (d :: db) = b2n (set_eqb c d) + cnt c db.
Proof. intros. unfold cnt. cbn [filter]. destruct (set_eqb c d); reflexivity. Qed.
Lemma cnt_app : forall c a b, cnt c (a ++ b) = cnt c a + cnt c b.
Proof. intros. unfold cnt. now rewrite filter_app, app_length. Qed.
Lemma cnt_pos : forall c db, 0 < cnt c db <-> exists d, In d db /\ same_literals c d.
Proof.
  intros c db. unfold cnt. split.
  - intros H. destruct (filter (set_eqb c) db) as [|d l] eqn:E; [cbn in H; lia|].
    assert (I : In d (filter (set_eqb c) db)) by (rewrite E; now left).
    apply filter_In in I as [A B]. exists d. split; auto. now apply set_eqb_spec.
  - intros (d & A & B). assert (I : In d (filter (set_eqb c) db)).
    { apply filter_In. split; auto. now apply set_eqb_spec. }
    destruct (filter (set_eqb c) db); [destruct I|cbn; lia].
Qed.
Lemma cnt_same : forall c d db, same_literals c d -> cnt c db = cnt d db.
Proof.
  intros c d db H. unfold cnt. f_equal. apply filter_ext. intros e. now apply set_eqb_same_l.
Qed.

(** Sub-multisets and equality of multisets. *)
Definition msub (a b : list (list lit)) : Prop := forall c, cnt c a <= cnt c b.
Definition meq (a b : list (list lit)) : Prop := forall c, cnt c a = cnt c b.
(** Every clause of [a] occurs in [b]. *)
Definition covers (a b : list (list lit)) : Prop := forall c, In c a -> exists d, In d b /\ same_literals c d.

Lemma msub_covers : forall a b, msub a b -> covers a b.
Proof.
  intros a b H c C. apply cnt_pos. specialize (H c).
  assert (0 < cnt c a); [|lia]. apply cnt_pos. exists c. split; auto. apply same_literals_refl.
Qed.
Lemma meq_msub : forall a b, meq a b -> msub a b.
Proof. intros a b H c. rewrite (H c). lia. Qed.
Lemma meq_sym : forall a b, meq a b -> meq b a.
Proof. intros a b H c. now rewrite (H c). Qed.
Lemma meq_trans : forall a b c, meq a b -> meq b c -> meq a c.
Proof. intros a b c H K x. now rewrite (H x). Qed.
Lemma meq_refl : forall a, meq a a. Proof. intros a c. reflexivity. Qed.
Lemma msub_refl : forall a, msub a a. Proof. intros a c. lia. Qed.
Lemma msub_trans : forall a b c, msub a b -> msub b c -> msub a c.
Proof. intros a b c H K x. specialize (H x). specialize (K x). lia. Qed.
Lemma covers_trans : forall a b c, covers a b -> covers b c -> covers a c.
Proof.
  intros a b c H K x X. destruct (H x X) as (y & Y & E). destruct (K y Y) as (z & Z & F).
  exists z. split; auto. eapply same_literals_trans; eauto.
Qed.
Lemma meq_covers : forall a b, meq a b -> covers a b.
Proof. intros. now apply msub_covers, meq_msub. Qed.
Lemma covers_refl : forall a, covers a a.
Proof. intros a c C. exists c. split; auto. apply same_literals_refl. Qed.
Lemma incl_covers : forall a b, incl a b -> covers a b.
Proof. intros a b I c C. exists c. split; auto. apply same_literals_refl. Qed.

Lemma covers_sat : forall a b v, covers a b -> sat v b -> sat v a.
Proof.
  intros a b v H S c C. destruct (H c C) as (d & D & E). destruct (S d D) as (l & L & V).
  exists l. split; auto. now apply E.
Qed.

Fixpoint remove_same (c : list lit) (db : list (list lit)) : list (list lit) :=
  match db with
  | [] => []
  | d :: r => if set_eqb c d then r else d :: remove_same c r
  end.

Lemma cnt_remove_same : forall c db x, 0 < cnt c db ->
  cnt x db = b2n (set_eqb x c) + cnt x (remove_same c db).
Proof.
  intros c db x. induction db as [|d db IH]; intros H.
  - cbn in H. lia.
  - cbn [remove_same]. rewrite !cnt_cons in *. destruct (set_eqb c d) eqn:E.
    + apply set_eqb_spec in E. f_equal. f_equal. now apply set_eqb_same_r, same_literals_sym.
    + cbn [b2n] in H. rewrite cnt_cons. rewrite IH by lia. lia.
Qed.
Lemma remove_same_split : forall c db, 0 < cnt c db ->
  exists a d b, db = a ++ d :: b /\ same_literals c d /\ remove_same c db = a ++ b.
Proof.
  intros c db. induction db as [|d db IH]; intros H.
  - cbn in H. lia.
  - cbn [remove_same]. rewrite cnt_cons in H. destruct (set_eqb c d) eqn:E.
    + exists [], d, db. splits; auto. now apply set_eqb_spec.
    + cbn [b2n] in H. destruct IH as (a & e & b & -> & S & R); [lia|].
      exists (d :: a), e, b. splits; auto. now rewrite R.
Qed.

(** ** Proofs, newest line first *)
Fixpoint pdb (orig : list (list lit)) (steps : list (line lit)) : list (list lit) :=
  match steps with
  | [] => orig
  | Added c :: r => c :: pdb orig r
  | Deleted c :: r => remove_same c (pdb orig r)
  end.
Fixpoint proof_ok (orig : list (list lit)) (steps : list (line lit)) : Prop :=
  match steps with
  | [] => True
  | Added c :: r => rup neg (pdb orig r) c /\ proof_ok orig r
  | Deleted c :: r => 0 < cnt c (pdb orig r) /\ proof_ok orig r
  end.

(** The clauses present after the lines [lines], oldest first. *)
Fixpoint run (db : list (list lit)) (lines : list (line lit)) : list (list lit) :=
  match lines with
  | [] => db
  | Added c :: r => run (c :: db) r
  | Deleted c :: r => run (remove_same c db) r
  end.
Lemma run_app : forall a b db, run db (a ++ b) = run (run db a) b.
Proof. induction a as [|[c|c] a IH]; intros; cbn; auto. Qed.
Lemma run_pdb : forall steps orig, run orig (rev steps) = pdb orig steps.
Proof.
  induction steps as [|[c|c] r IH]; intros; cbn [rev pdb]; auto; rewrite run_app, IH; reflexivity.
Qed.

Lemma rup_msub : forall db db' c, msub db db' -> rup neg db c -> rup neg db' c.
Proof. intros db db' c H R. eapply rup_mono; eauto. intros. now apply msub_covers with (1 := H). Qed.

Lemma msub_cons : forall c a b, msub a b -> msub (c :: a) (c :: b).
Proof. intros c a b H x. rewrite !cnt_cons. specialize (H x). lia. Qed.
Lemma msub_remove : forall c a b, msub a b -> 0 < cnt c a -> msub (remove_same c a) (remove_same c b).
Proof.
  intros c a b H P x. pose proof (cnt_remove_same c a x P).
  assert (Q : 0 < cnt c b) by (specialize (H c); lia).
  pose proof (cnt_remove_same c b x Q). specialize (H x). lia.
Qed.

(** Acceptance with the canonical choice of the deleted clause, for lines oldest first. *)
Fixpoint valid (db : list (list lit)) (lines : list (line lit)) : Prop :=
  match lines with
  | [] => True
  | Added c :: r => rup neg db c /\ valid (c :: db) r
  | Deleted c :: r => 0 < cnt c db /\ valid (remove_same c db) r
  end.
Lemma valid_app : forall a b db, valid db (a ++ b) <-> valid db a /\ valid (run db a) b.
Proof. induction a as [|[c|c] a IH]; intros; cbn [app valid run]; try rewrite IH; tauto. Qed.
Lemma proof_ok_valid : forall steps orig, proof_ok orig steps <-> valid orig (rev steps).
Proof.
  induction steps as [|[c|c] r IH]; intros orig; cbn [rev proof_ok]; [cbn; tauto| |];
    rewrite valid_app, run_pdb, IH; cbn [valid]; tauto.
Qed.
Lemma valid_accepted : forall lines db, valid db lines -> accepted neg db lines.
Proof.
  induction lines as [|[c|c] r IH]; intros db; cbn [valid].
  - intros _. constructor.
  - intros [R V]. constructor; auto.
  - intros [P V]. destruct (remove_same_split c db P) as (a & d & b & -> & S & E).
    constructor; auto. rewrite <- E. auto.
Qed.
Lemma proof_ok_accepted : forall steps orig, proof_ok orig steps -> accepted neg orig (rev steps).
Proof. intros. now apply valid_accepted, proof_ok_valid. Qed.

(** Acceptance is monotone in the initial clauses. *)
Lemma valid_msub : forall lines db db', msub db db' -> valid db lines -> valid db' lines /\ msub (run db lines) (run db' lines).
Proof.
  induction lines as [|[c|c] r IH]; intros db db' M; cbn [valid run].
  - auto.
  - intros [R V]. destruct (IH _ _ (msub_cons c _ _ M) V). splits; auto. eapply rup_msub; eauto.
  - intros [P V]. destruct (IH _ _ (msub_remove c _ _ M P) V). splits; auto.
    specialize (M c). lia.
Qed.
Lemma proof_ok_msub : forall steps orig orig', msub orig orig' -> proof_ok orig steps ->
  proof_ok orig' steps /\ msub (pdb orig steps) (pdb orig' steps).
Proof.
  intros steps orig orig' M P. apply proof_ok_valid in P.
  destruct (valid_msub _ _ _ M P). rewrite !run_pdb in *. splits; auto. now apply proof_ok_valid.
Qed.

(** Every clause present in an accepted proof is implied by the original clauses. *)
Lemma in_remove_same : forall c db d, In d (remove_same c db) -> In d db.
Proof.
  intros c db d. induction db as [|e db IH]; cbn; auto. destruct (set_eqb c e); cbn; intuition.
Qed.
Lemma proof_ok_sat : forall steps orig v, proof_ok orig steps -> sat v orig -> sat v (pdb orig steps).
Proof.
  induction steps as [|[c|c] r IH]; intros orig v; cbn [proof_ok pdb]; auto.
  - intros [R P] V d [<-|D].
    + eapply rup_sound; eauto.
    + eapply IH; eauto.
  - intros [_ P] V d D. apply in_remove_same in D. eapply IH; eauto.
Qed.
