(** Deducing the first UIP clause. *)
From Coq Require Import ZArith List Bool Lia Arith Permutation.
From Coq Require Import ZifyBool ZifyNat.
From Verif Require Import Base Hoare SpecSat Lit Sem Solver Analyze Inv DbFacts AssignFacts AssignSpec BacktrackFacts PropFacts PropLoop CutFacts OneLit MarkFacts ClauseFacts.
Import ListNotations.
Open Scope nat_scope.

Section Deduce.
Variables (orig : list (list lit)) (p : nat) (s : solver).
Hypothesis Co : core orig p s.
Let V := co_v _ _ _ Co.
Let F := co_f _ _ _ Co.

Definition dgood (a : analysis) : Prop :=
  amarks a /\ unremovable a /\ unpoisoned a /\ unshrunken a /\
  (forall m, marked s a m -> known s p m) /\ NoDup (an_clause a) /\
  (forall l, In l (an_clause a) <-> values s l = Some false /\ 0 < lev s l < level s /\ analyzed a (idx l) = true).

(** A literal to be analyzed: false, and a root literal or known; on the current level before position [q]. *)
Definition fine (q : nat) (k : lit) : Prop :=
  values s k = Some false /\ (lev s k = 0 \/ (known s p (neg k) /\ (lev s k = level s -> tpos s k < q))).

Lemma analyze_literal_spec : forall q n k u a, q <= n -> dgood a -> u = opens s a n ->
  resolvent_size a = length (an_clause a) + u -> fine q k ->
  let '(new, a') := analyze_literal s k a in
  let u' := if new then S u else u in
  dgood a' /\ ext a a' /\ u' = opens s a' n /\ resolvent_size a' = length (an_clause a') + u' /\
  antecedent_size a' = antecedent_size a + b2n (negb (lev s k =? 0)) /\
  (lev s k = 0 \/ marked s a' (neg k)) /\ (forall m, marked s a' m -> marked s a m \/ m = neg k).
Proof.
  intros q n k u a Qn G Eu Es (Fk & Hk). unfold analyze_literal.
  destruct (Nat.eqb_spec (lev s k) 0) as [E0|E0].
  { cbn [negb b2n]. splits; auto; apply ext_refl. }
  destruct Hk as [E|[K Hq]]; [contradiction|]. cbn [negb b2n].
  change (analyzed (set_antecedent_size (S (antecedent_size a)) a) (idx k)) with (analyzed a (idx k)).
  assert (Ik : In (neg k) (trail s)) by apply K.
  pose proof (false_level s k V F Fk) as Lk.
  destruct (analyzed a (idx k)) eqn:Ea.
  { splits; auto; cbn; try lia.
    - intros i X. exact X.
    - right. split; auto. now rewrite idx_neg. }
  destruct G as (G1 & G2 & G3 & G4 & G5 & G6 & G7).
  assert (Gm : forall a', analyzed a' = upd (analyzed a) (idx k) true -> forall m, marked s a' m -> marked s a m \/ m = neg k).
  { intros a' E m [I M]. rewrite E in M. unfold upd in M. destruct (Nat.eqb_spec (idx m) (idx k)) as [X|X]; [|left; now split].
    right. rewrite <- (idx_neg k) in X. now apply (trail_idx s). }
  assert (Mk : forall a', analyzed a' = upd (analyzed a) (idx k) true -> marked s a' (neg k)).
  { intros a' E. split; auto. rewrite E, idx_neg. apply upd_same. }
  assert (Ee : forall a', analyzed a' = upd (analyzed a) (idx k) true -> ext a a').
  { intros a' E i X. rewrite E. unfold upd. destruct (i =? idx k); auto. }
  destruct (Nat.eqb_spec (lev s k) (level s)) as [El|El].
  - splits.
    + unfold dgood. splits; auto.
      * intros i. cbn. unfold upd. destruct (Nat.eqb_spec i (idx k)) as [->|]; [now left|]. intros X. right. now apply G1.
      * intros m M. match type of M with marked s ?a' m => destruct (Gm a' eq_refl m M) as [X| ->]; auto end.
      * intros l. cbn. rewrite G7. unfold upd. destruct (Nat.eqb_spec (idx l) (idx k)) as [X|X]; [|tauto].
        split; [intros (A & B & C); congruence|]. intros (A & B & _). exfalso.
        assert (lev s l = lev s k) by (unfold lev; now rewrite X). lia.
    + now apply Ee.
    + cbn [fst snd]. symmetry. rewrite Eu. apply opens_more with (neg k); auto.
      * now rewrite lev_neg.
      * rewrite tpos_neg. specialize (Hq El). lia.
      * now rewrite idx_neg.
      * cbn. now rewrite idx_neg.
    + cbn. lia.
    + cbn. lia.
    + right. now apply Mk.
    + now apply Gm.
  - set (a1 := set_an_used _ _). 
    assert (X : forall a2, analyzed a2 = upd (analyzed a) (idx k) true -> astack a2 = idx k :: astack a -> an_clause a2 = an_clause a ++ [k] ->
       removable a2 = removable a -> rstack a2 = rstack a -> poisoned a2 = poisoned a -> pstack a2 = pstack a ->
       shrinkable a2 = shrinkable a -> sstack a2 = sstack a -> antecedent_size a2 = S (antecedent_size a) ->
       resolvent_size a2 = S (resolvent_size a) ->
       dgood a2 /\ ext a a2 /\ u = opens s a2 n /\ resolvent_size a2 = length (an_clause a2) + u /\
       antecedent_size a2 = antecedent_size a + 1 /\ (lev s k = 0 \/ marked s a2 (neg k)) /\
       (forall m, marked s a2 m -> marked s a m \/ m = neg k)).
    { intros a2 X1 X2 X3 X4 X5 X6 X7 X8 X9 X10 X11. splits.
      - unfold dgood, unremovable, unpoisoned, unshrunken. rewrite X3, X4, X5, X6, X7, X8, X9.
        destruct G2 as [G21 G22], G3 as [G31 G32], G4 as [G41 G42]. splits; auto.
        + intros i. rewrite X1, X2. unfold upd. destruct (Nat.eqb_spec i (idx k)) as [->|]; [now left|]. intros X. right. now apply G1.
        + intros m M. destruct (Gm _ X1 m M) as [X| ->]; auto.
        + apply Permutation_NoDup with (k :: an_clause a); [apply Permutation_cons_append|]. constructor; auto.
          intros I. apply G7 in I as (_ & _ & I). congruence.
        + intros l. rewrite in_app_iff, G7, X1. cbn [In]. unfold upd. destruct (Nat.eqb_spec (idx l) (idx k)) as [X|X].
          * split; [intros [(A & B & C)|[->|[]]]; [congruence|]; splits; auto; lia|].
            intros (A & B & _). right. left. apply idx_eq in X as [->|X]; auto. subst l.
            exfalso. apply (true_false _ _ V) in A. congruence.
          * split; [intros [A|[->|[]]]; auto; congruence|auto].
      - now apply Ee.
      - rewrite Eu. symmetry. apply opens_ext; auto. intros m I P L. rewrite X1. apply upd_other. intros X.
        assert (lev s m = lev s k) by (unfold lev; now rewrite X). lia.
      - rewrite X3, X11, app_length. cbn. lia.
      - lia.
      - right. now apply Mk.
      - now apply Gm. }
    destruct (0 <? _); apply X; reflexivity.
Qed.

Lemma analyze_literals_spec : forall skip q n rest u a, q <= n -> dgood a -> u = opens s a n ->
  resolvent_size a = length (an_clause a) + u -> (forall k, In k rest -> k <> skip -> fine q k) ->
  let '(u', a') := analyze_literals s skip rest u a in
  dgood a' /\ ext a a' /\ u' = opens s a' n /\ resolvent_size a' = length (an_clause a') + u' /\
  antecedent_size a' = antecedent_size a + count_above_root s (filter (fun k => negb (k =? skip)) rest) /\
  (forall k, In k rest -> k <> skip -> lev s k = 0 \/ marked s a' (neg k)) /\
  (forall m, marked s a' m -> marked s a m \/ (In (neg m) rest /\ neg m <> skip)).
Proof.
  intros skip q n. induction rest as [|k rest IH]; intros u a Qn G Eu Es H; cbn [analyze_literals].
  - splits; auto; [apply ext_refl|intros k []].
  - assert (H' : forall k, In k rest -> k <> skip -> fine q k) by (intros x X; apply H; now right).
    destruct (Nat.eqb_spec k skip) as [E|N].
    + specialize (IH u a Qn G Eu Es H'). destruct (analyze_literals _ _ _ _ _) as [u' a']. cbn [filter].
      rewrite (proj2 (Nat.eqb_eq k skip) E). cbn [negb].
      destruct IH as (A & B & C & D & E' & I & J). splits; auto.
      * intros x [<-|Ix] Nx; [contradiction|auto].
      * intros m M. destruct (J m M) as [X|[X Y]]; auto. right. split; auto. now right.
    + pose proof (analyze_literal_spec q n k u a Qn G Eu Es (H k (or_introl eq_refl) N)) as Sp.
      destruct (analyze_literal s k a) as [new a1]. cbv zeta in Sp. destruct Sp as (A & B & C & D & E & I & J).
      specialize (IH _ a1 Qn A C D H'). destruct (analyze_literals _ _ _ _ _) as [u' a']. cbn [filter].
      rewrite (proj2 (Nat.eqb_neq k skip) N). cbn [negb].
      destruct IH as (A' & B' & C' & D' & E' & I' & J'). splits; auto.
      * eapply ext_trans; eauto.
      * rewrite E', E. unfold count_above_root. cbn [filter]. destruct (negb (lev s k =? 0)); cbn [b2n length]; lia.
      * intros x [<-|Ix] Nx; auto. destruct I as [I|I]; auto. right. eapply marked_ext; eauto.
      * intros m M. destruct (J' m M) as [X|[X Y]]; [|right; split; auto; now right].
        destruct (J m X) as [X'| ->]; auto. right. rewrite neg_neg. split; auto. now left.
Qed.
End Deduce.
