(** Marks on the trail, and the analysis of failed literals. *)
From Coq Require Import ZArith List Bool Lia Arith Permutation.
From Coq Require Import ZifyBool ZifyNat.
From Verif Require Import Base Hoare SpecSat Lit Sem Solver Analyze Inv DbFacts AssignFacts AssignSpec BacktrackFacts PropFacts PropLoop CutFacts OneLit.
Import ListNotations.
Open Scope nat_scope.

(** ** Resetting marks *)
Definition amarks (a : analysis) : Prop := forall i, analyzed a i = true -> In i (astack a).
Definition rmarks (a : analysis) : Prop := forall i, removable a i = true -> In i (rstack a).
Definition pmarks (a : analysis) : Prop := forall i, poisoned a i = true -> In i (pstack a).
Definition smarks (a : analysis) : Prop := forall i, shrinkable a i = true -> In i (sstack a).
Definition unshrunken (a : analysis) : Prop := (forall i, shrinkable a i = false) /\ sstack a = [].
Definition unpoisoned (a : analysis) : Prop := (forall i, poisoned a i = false) /\ pstack a = [].
Definition unremovable (a : analysis) : Prop := (forall i, removable a i = false) /\ rstack a = [].

Lemma clear_bits_spec : forall l f i, clear_bits f l i = f i && negb (existsb (Nat.eqb i) l).
Proof.
  unfold clear_bits. induction l as [|j l IH]; intros f i; cbn [fold_left existsb].
  - now rewrite andb_true_r.
  - rewrite IH. unfold upd. destruct (Nat.eqb_spec i j) as [->|]; cbn [orb negb andb]; now rewrite ?andb_false_r.
Qed.
Lemma clear_bits_all : forall l f, (forall i, f i = true -> In i l) -> forall i, clear_bits f l i = false.
Proof.
  intros l f H i. rewrite clear_bits_spec. destruct (f i) eqn:E; auto. apply H in E.
  replace (existsb (Nat.eqb i) l) with true; auto. symmetry. apply existsb_exists. exists i. split; auto. apply Nat.eqb_refl.
Qed.

Lemma clean_reset_analyzed : forall a, amarks a -> unremovable a -> unpoisoned a -> unshrunken a ->
  an_clause a = [] -> an_levels a = [] -> clean (reset_only_analyzed a).
Proof.
  intros a A [R1 R2] [P1 P2] [S1 S2] C L. unfold clean, reset_only_analyzed. cbn. splits; auto. now apply clear_bits_all.
Qed.
Lemma clean_reset : forall a, amarks a -> rmarks a -> unpoisoned a -> unshrunken a ->
  clean (reset_only_analyzed (reset_analysis_but_not_analyzed a)).
Proof.
  intros a A R [P1 P2] [S1 S2]. unfold clean, reset_only_analyzed, reset_analysis_but_not_analyzed. cbn. splits; auto;
    now apply clear_bits_all.
Qed.

Lemma amarks_clear : forall i a, amarks a -> amarks (clear_marks i a).
Proof. intros i a A j. cbn. unfold upd. destruct (j =? i); [discriminate|apply A]. Qed.
Lemma rmarks_clear : forall i a, rmarks a -> rmarks (clear_marks i a).
Proof. intros i a A j. cbn. unfold upd. destruct (j =? i); [discriminate|apply A]. Qed.
Lemma unpoisoned_clear : forall i a, unpoisoned a -> unpoisoned (clear_marks i a).
Proof. intros i a [A B]. split; auto. intros j. cbn. unfold upd. destruct (j =? i); auto. Qed.
Lemma unshrunken_clear : forall i a, unshrunken a -> unshrunken (clear_marks i a).
Proof. intros i a [A B]. split; auto. intros j. cbn. unfold upd. destruct (j =? i); auto. Qed.
Lemma unremovable_clear : forall i a, unremovable a -> unremovable (clear_marks i a).
Proof. intros i a [A B]. split; auto. intros j. cbn. unfold upd. destruct (j =? i); auto. Qed.
Lemma amarks_push : forall i a, amarks a -> amarks (push_analyzed i a).
Proof. intros i a A j. cbn. unfold upd. destruct (Nat.eqb_spec j i) as [->|]; [now left|]. intros E. right. now apply A. Qed.

(** ** Marked literals of the trail *)
Definition marked (s : solver) (a : analysis) (m : lit) : Prop := In m (trail s) /\ analyzed a (idx m) = true.
(** The number of marked literals of the current level among the first [n] of the trail. *)
Definition opens (s : solver) (a : analysis) (n : nat) : nat :=
  length (filter (fun m => analyzed a (idx m) && (lev s m =? level s)) (firstn n (trail s))).

Lemma trail_idx : forall s a b, vinv s -> In a (trail s) -> In b (trail s) -> idx a = idx b -> a = b.
Proof.
  intros s a b V A B E. apply idx_eq in E as [E|E]; auto. exfalso. apply (ti_true _ V) in A. apply (ti_true _ V) in B.
  subst a. apply (true_false _ _ V) in B. congruence.
Qed.
Lemma in_firstn_trail : forall s m n, vinv s -> In m (firstn n (trail s)) <-> In m (trail s) /\ tpos s m < n.
Proof.
  intros s m n V. split.
  - intros I. assert (Im : In m (trail s)) by (rewrite <- (firstn_skipn n (trail s)); apply in_app_iff; auto). split; auto.
    apply In_nth_error in I as (i & E). assert (i < length (firstn n (trail s))) by (apply nth_error_Some; congruence).
    rewrite firstn_length in H. assert (E' : nth_error (trail s) i = Some m).
    { rewrite <- (firstn_skipn n (trail s)). rewrite nth_error_app1; auto. rewrite firstn_length. lia. }
    rewrite (ti_pos _ V _ _ E'). lia.
  - intros [I L]. pose proof (trail_nth _ _ V I) as E. rewrite <- (firstn_skipn n (trail s)) in E.
    rewrite nth_error_app1 in E; [now apply nth_error_In in E|]. rewrite firstn_length. pose proof (tpos_lt _ _ V I). lia.
Qed.
Lemma rev_firstn_S : forall (t : list lit) n x, nth_error t n = Some x -> rev (firstn (S n) t) = x :: rev (firstn n t).
Proof.
  intros t n x E. replace (firstn (S n) t) with (firstn n t ++ [x]); [now rewrite rev_app_distr|].
  revert n E. induction t as [|y t IH]; intros [|n] E; cbn in *; try discriminate; try congruence. now rewrite IH.
Qed.
Lemma firstn_S : forall (t : list lit) n x, nth_error t n = Some x -> firstn (S n) t = firstn n t ++ [x].
Proof. induction t as [|y t IH]; intros [|n] x E; cbn in *; try discriminate; try congruence. now rewrite IH with (x := x). Qed.

Lemma opens_S : forall s a n x, nth_error (trail s) n = Some x ->
  opens s a (S n) = opens s a n + b2n (analyzed a (idx x) && (lev s x =? level s)).
Proof.
  intros s a n x E. unfold opens. rewrite (firstn_S _ _ _ E), filter_app, app_length. cbn [filter].
  destruct (analyzed a (idx x) && (lev s x =? level s)); reflexivity.
Qed.
Lemma opens_ext : forall s a a' n, (forall m, In m (trail s) -> tpos s m < n -> lev s m = level s -> analyzed a' (idx m) = analyzed a (idx m)) ->
  vinv s -> opens s a' n = opens s a n.
Proof.
  intros s a a' n H V. unfold opens. f_equal. apply filter_ext_in. intros m I. apply in_firstn_trail in I as [I L]; auto.
  destruct (Nat.eqb_spec (lev s m) (level s)) as [E|]; [|now rewrite !andb_false_r]. now rewrite H.
Qed.
Lemma opens_pos : forall s a n m, vinv s -> marked s a m -> lev s m = level s -> tpos s m < n -> 0 < opens s a n.
Proof.
  intros s a n m V [I M] L P. unfold opens.
  assert (In m (filter (fun m => analyzed a (idx m) && (lev s m =? level s)) (firstn n (trail s)))).
  { apply filter_In. split; [apply in_firstn_trail; auto|]. rewrite M, L, Nat.eqb_refl. reflexivity. }
  destruct (filter _ _); [destruct H|cbn; lia].
Qed.
Lemma filter_one_more : forall (l : list lit) (f g : lit -> bool) x, NoDup l -> In x l -> f x = false -> g x = true ->
  (forall y, In y l -> y <> x -> g y = f y) -> length (filter g l) = S (length (filter f l)).
Proof.
  induction l as [|y l IH]; intros f g x N I F G H; [destruct I|]. inversion N as [|? ? N1 N2]; subst. cbn [filter].
  destruct (Nat.eq_dec y x) as [->|D].
  - rewrite F, G. cbn. f_equal. f_equal. apply filter_ext_in. intros z Z. apply H; [now right|]. intros ->. contradiction.
  - destruct I as [E|I]; [congruence|]. rewrite (H y) by (auto; now left).
    assert (IH' : length (filter g l) = S (length (filter f l))) by (apply (IH f g x); auto; intros z Z; apply H; now right).
    destruct (f y); cbn; lia.
Qed.
Lemma NoDup_firstn : forall (l : list lit) n, NoDup l -> NoDup (firstn n l).
Proof.
  induction l as [|x l IH]; intros [|n] N; cbn; try constructor; inversion N; subst; auto.
  intros I. assert (In x l) by (rewrite <- (firstn_skipn n l); apply in_app_iff; auto). contradiction.
Qed.
Lemma opens_more : forall s a a' n m, vinv s -> In m (trail s) -> lev s m = level s -> tpos s m < n ->
  analyzed a (idx m) = false -> analyzed a' = upd (analyzed a) (idx m) true -> opens s a' n = S (opens s a n).
Proof.
  intros s a a' n m V I L P F E. unfold opens. apply filter_one_more with m.
  - apply NoDup_firstn, V.
  - apply in_firstn_trail; auto.
  - now rewrite F.
  - rewrite E, upd_same, L, Nat.eqb_refl. reflexivity.
  - intros y Y D. apply in_firstn_trail in Y as [Y _]; auto. rewrite E, upd_other; auto.
    intros X. apply D. eapply trail_idx; eauto.
Qed.
Lemma opens_one : forall s a n m x, vinv s -> nth_error (trail s) n = Some x -> marked s a x -> lev s x = level s ->
  opens s a (S n) = 1 -> marked s a m -> lev s m = level s -> n <= tpos s m.
Proof.
  intros s a n m x V E [Ix Mx] Lx O Mm Lm. destruct (Nat.le_gt_cases n (tpos s m)); auto. exfalso.
  rewrite (opens_S _ _ _ _ E), Mx, Lx, Nat.eqb_refl in O. cbn in O.
  pose proof (opens_pos s a n m V Mm Lm H). lia.
Qed.

(** ** Failed literals *)
Section Failed.
Variables (orig : list (list lit)) (p : nat) (s : solver) (c : conflict) (lits : list lit) (d : lit).
Hypothesis Ap : aprec orig p s c.
Hypothesis Cf : cfl s c lits.
Hypothesis L1 : level s = 1.
Hypothesis Dt : In d (trail s).
Hypothesis Dl : lev s d = 1.
Hypothesis Dp : tpos s d = T s 1.
Let Co := ap_core _ _ _ _ Ap.
Let V := co_v _ _ _ Co.
Let F := co_f _ _ _ Co.

Lemma known_one : forall m, known s p m -> lev s m = 1.
Proof. intros m (I & L & _). pose proof (lev_level s m V F I). lia. Qed.
Lemma known_failed : forall m, known s p m -> reas s m = RDecision -> m = d.
Proof.
  intros m K E. pose proof (known_decision orig p s Co m K E) as X. rewrite (known_one m K), <- Dp in X.
  destruct K as (I & _). pose proof (trail_nth _ _ V I) as A. pose proof (trail_nth _ _ V Dt) as B. congruence.
Qed.
Lemma conflict_known : forall l, In l lits -> lev s l = 0 \/ known s p (neg l).
Proof.
  intros l I. pose proof (cf_false _ _ _ Cf l I) as Fl. pose proof (false_level s l V F Fl).
  destruct (Nat.eq_dec (lev s l) 0) as [|N]; auto. right. split; [apply false_on_trail; auto; lia|].
  rewrite lev_neg, tpos_neg. split; [lia|]. right. apply (ap_pos _ _ _ _ Ap lits); auto; [apply Cf|lia].
Qed.

(** The negation of the failed literal is implied. *)
Lemma failed_rup : rup neg (db s) [neg d].
Proof.
  apply (rup_cut orig p s c lits (known s p)); auto; [|apply conflict_known].
  intros m K. split; auto. destruct (Nat.eq_dec m d) as [->|N].
  - left. exists (neg d). rewrite neg_neg. split; auto. now left.
  - right. split; [intros E; apply N; now apply known_failed|]. intros k I.
    destruct (known_other orig p s Co m k K I) as (_ & _ & [E|[Kk _]]); auto.
Qed.

Definition fgood (a : analysis) : Prop :=
  amarks a /\ unremovable a /\ unpoisoned a /\ unshrunken a /\ an_clause a = [] /\ an_levels a = [] /\
  forall m, marked s a m -> known s p m /\ m <> d.
Definition ext (a a' : analysis) : Prop := forall i, analyzed a i = true -> analyzed a' i = true.
Lemma ext_refl : forall a, ext a a. Proof. intros a i. auto. Qed.
Lemma ext_trans : forall a b e, ext a b -> ext b e -> ext a e. Proof. intros a b e A B i H. auto. Qed.
Lemma ext_push : forall i a, ext a (push_analyzed i a).
Proof. intros i a j E. cbn. unfold upd. destruct (j =? i); auto. Qed.
Lemma marked_ext : forall a a' m, ext a a' -> marked s a m -> marked s a' m.
Proof. intros a a' m E [A B]. split; auto. Qed.

Lemma fgood_push : forall a k, fgood a -> known s p (neg k) -> neg k <> d -> fgood (push_analyzed (idx k) a).
Proof.
  intros a k (A & B & C & D & E & E' & G) K N. unfold fgood. splits; auto.
  - now apply amarks_push.
  - intros m [I M]. cbn in M. unfold upd in M. destruct (Nat.eqb_spec (idx m) (idx k)) as [X|X]; [|apply G; now split].
    rewrite <- (idx_neg k) in X. rewrite (trail_idx s m (neg k) V I) by (auto; apply K). auto.
Qed.
Lemma marked_push : forall a k, known s p (neg k) -> marked s (push_analyzed (idx k) a) (neg k).
Proof. intros a k K. split; [apply K|]. cbn. rewrite idx_neg. now rewrite upd_same. Qed.
Lemma opens_push : forall a k n, known s p (neg k) -> tpos s k < n -> analyzed a (idx k) = false ->
  opens s (push_analyzed (idx k) a) n = S (opens s a n).
Proof.
  intros a k n K P N. apply opens_more with (neg k); auto.
  - apply K.
  - rewrite L1. now apply known_one.
  - now rewrite tpos_neg.
  - now rewrite idx_neg.
  - cbn. now rewrite idx_neg.
Qed.

Lemma failed_conflict_spec : forall rest u a, incl rest lits -> NoDup rest -> fgood a ->
  (forall l, In l rest -> analyzed a (idx l) = false) -> u = opens s a (length (trail s)) ->
  match failed_conflict s (neg d) rest u a with
  | (None, a') => fgood a'
  | (Some (u', a'), _) => fgood a' /\ ext a a' /\ u' = opens s a' (length (trail s)) /\
      forall l, In l rest -> lev s l = 0 \/ marked s a' (neg l)
  end.
Proof.
  induction rest as [|l rest IH]; intros u a Inc Nd G Na Eu; cbn [failed_conflict].
  - splits; auto; [apply ext_refl|intros l []].
  - inversion Nd as [|? ? N1 N2]; subst. assert (Inc' : incl rest lits) by (intros x X; apply Inc; now right).
    destruct (Nat.eqb_spec l (neg d)) as [_|Nn]; auto.
    destruct (Nat.eqb_spec (lev s l) 0) as [E0|E0].
    + specialize (IH (opens s a (length (trail s))) a Inc' N2 G). destruct (failed_conflict _ _ _ _ _) as [[[u' a']|] a''].
      * destruct IH as (A & B & C & D); auto; [intros x X; apply Na; now right|]. splits; auto.
        intros x [<-|X]; auto.
      * apply IH; auto. intros x X; apply Na; now right.
    + assert (K : known s p (neg l)).
      { destruct (conflict_known l) as [X|X]; auto; [apply Inc; now left|congruence]. }
      assert (Dn : neg l <> d) by (intros X; apply Nn; now rewrite <- X, neg_neg).
      specialize (IH (S (opens s a (length (trail s)))) (push_analyzed (idx l) a) Inc' N2 (fgood_push a l G K Dn)).
      assert (Na' : forall x, In x rest -> analyzed (push_analyzed (idx l) a) (idx x) = false).
      { intros x X. cbn. rewrite upd_other; [apply Na; now right|]. intros E. apply idx_eq in E as [->|E]; [contradiction|].
        assert (values s x = Some false) by (apply (cf_false _ _ _ Cf); auto).
        assert (values s l = Some false) by (apply (cf_false _ _ _ Cf), Inc; now left).
        subst x. apply (true_false _ _ V) in H. congruence. }
      assert (Op : S (opens s a (length (trail s))) = opens s (push_analyzed (idx l) a) (length (trail s))).
      { symmetry. apply opens_push; auto; [|apply Na; now left]. rewrite <- tpos_neg. apply tpos_lt; auto. apply K. }
      specialize (IH Na' Op). destruct (failed_conflict _ _ _ _ _) as [[[u' a']|] a'']; auto.
      destruct IH as (A & B & C & D). splits; auto; [eapply ext_trans; [apply ext_push|eauto]|].
      intros x [<-|X]; auto. right. eapply marked_ext; eauto. now apply marked_push.
Qed.

Lemma failed_reason_spec : forall l unit n q rest u a, q <= n -> fgood a -> u = opens s a n ->
  (forall k, In k rest -> k <> l -> lev s k = 0 \/ (known s p (neg k) /\ tpos s k < q /\ k <> unit)) ->
  (forall k, In k rest -> k <> l -> lev s k = 0 -> k <> neg d) ->
  (forall k, In k rest -> k <> l -> lev s k = 0 -> k <> unit) ->
  match failed_reason s (neg d) l unit rest u a with
  | (None, a') => fgood a'
  | (Some (u', a'), _) => fgood a' /\ ext a a' /\ u' = opens s a' n /\
      (forall k, In k rest -> k <> l -> lev s k = 0 \/ marked s a' (neg k)) /\
      (forall m, marked s a' m -> q <= tpos s m -> marked s a m)
  end.
Proof.
  intros l unit n q. induction rest as [|k rest IH]; intros u a Qn G Eu H H0 H00; cbn [failed_reason].
  - splits; auto; [apply ext_refl|intros k []].
  - assert (H' : forall k, In k rest -> k <> l -> lev s k = 0 \/ (known s p (neg k) /\ tpos s k < q /\ k <> unit)) by (intros x X; apply H; now right).
    assert (H0' : forall k, In k rest -> k <> l -> lev s k = 0 -> k <> neg d) by (intros x X; apply H0; now right).
    assert (H00' : forall k, In k rest -> k <> l -> lev s k = 0 -> k <> unit) by (intros x X; apply H00; now right).
    assert (Skip : (k = l \/ lev s k = 0 \/ marked s a (neg k)) -> 
       match failed_reason s (neg d) l unit rest u a with
       | (None, a') => fgood a'
       | (Some (u', a'), _) => fgood a' /\ ext a a' /\ u' = opens s a' n /\
          (forall x, In x (k :: rest) -> x <> l -> lev s x = 0 \/ marked s a' (neg x)) /\
          (forall m, marked s a' m -> q <= tpos s m -> marked s a m)
       end).
    { intros X. specialize (IH u a Qn G Eu H' H0' H00'). destruct (failed_reason _ _ _ _ _ _ _) as [[[u' a']|] a'']; auto.
      destruct IH as (A & B & C & D & D'). splits; auto. intros x [<-|Ix] Nx; [|now apply D].
      destruct X as [X|[X|X]]; auto; [contradiction|]. right. eapply marked_ext; eauto. }
    destruct (Nat.eqb_spec k l) as [E|N]; [apply Skip; auto|]. cbn [orb].
    destruct (Nat.eqb_spec k unit) as [E|Nu].
    { destruct (H k (or_introl eq_refl) N) as [X|X]; [exfalso; now apply (H00 k (or_introl eq_refl) N X)|exfalso; now apply X]. }
    destruct (Nat.eqb_spec k (neg d)) as [E|Nd]; auto.
    destruct (Nat.eqb_spec (lev s k) 0) as [E0|E0]; [apply Skip; auto|].
    destruct (H k (or_introl eq_refl) N) as [X|(K & P & _)]; [contradiction|].
    destruct (analyzed a (idx k)) eqn:Ea.
    { apply Skip. right. right. split; [apply K|]. now rewrite idx_neg. }
    assert (Dn : neg k <> d) by (intros X; apply Nd; now rewrite <- X, neg_neg).
    assert (Eu' : S u = opens s (push_analyzed (idx k) a) n) by (rewrite opens_push by (auto; lia); congruence).
    specialize (IH (S u) (push_analyzed (idx k) a) Qn (fgood_push a k G K Dn) Eu' H' H0' H00').
    destruct (failed_reason _ _ _ _ _ _ _) as [[[u' a']|] a'']; auto.
    destruct IH as (A & B & C & D & D'). splits; auto; [eapply ext_trans; [apply ext_push|eauto]| |].
    + intros x [<-|Ix] Nx; [|now apply D]. right. eapply marked_ext; eauto. now apply marked_push.
    + intros m M Q. destruct (D' m M Q) as [Im M']. cbn in M'. unfold upd in M'.
      destruct (Nat.eqb_spec (idx m) (idx k)) as [X|X]; [|now split].
      exfalso. rewrite <- (idx_neg k) in X. rewrite (trail_idx s m (neg k) V Im) in Q by (auto; apply K). rewrite tpos_neg in Q. lia.
Qed.

(** The marked literals from position [n] on are explained by marked literals. *)
Definition explained (a : analysis) (n : nat) : Prop :=
  forall m, marked s a m -> n <= tpos s m -> forall k, In k (others s m) -> lev s k = 0 \/ marked s a (neg k).
Definition good_units (a : analysis) (n : nat) (units : list lit) : Prop :=
  NoDup units /\ forall u, In u units -> rup neg (db s) [u] /\ In (neg u) (trail s) /\ lev s u = 1 /\ n <= tpos s u /\ u <> neg d.

Lemma good_units_weaken : forall a a' n n' units, good_units a n units -> n' <= n -> good_units a' n' units.
Proof. intros a a' n n' units [A B] L. split; auto. intros u I. destruct (B u I) as (? & ? & ? & ? & ?). splits; auto. lia. Qed.

Lemma failed_loop_spec : forall n unit units a, n <= length (trail s) -> fgood a -> explained a n ->
  (forall l, In l lits -> lev s l = 0 \/ marked s a (neg l)) -> 0 < opens s a n -> good_units a n units ->
  (unit = 2 * vars s \/ (In (neg unit) (trail s) /\ 0 < lev s unit /\ n <= tpos s unit)) ->
  wp (failed_loop s (neg d) (rev (firstn n (trail s))) (opens s a n) unit units a)
    (fun '(units', a') => fgood a' /\ good_units a' 0 units').
Proof.
  induction n as [|n IH]; intros unit units a Ln G Ex Cl Op Gu Un; [cbn in Op; lia|].
  destruct (nth_error (trail s) n) as [x|] eqn:En; [|apply nth_error_None in En; lia].
  assert (Ix : In x (trail s)) by (eapply nth_error_In; eauto).
  assert (Px : tpos s x = n) by now apply (ti_pos _ V).
  rewrite (rev_firstn_S _ _ _ En). cbn [failed_loop].
  destruct (analyzed a (idx x)) eqn:Ea; cbn [negb].
  2:{ assert (EO : opens s a (S n) = opens s a n) by (rewrite (opens_S _ _ _ _ En), Ea; cbn; lia).
      rewrite EO in *. apply IH; auto.
      - lia.
      - intros m M P. apply Ex; auto. destruct (Nat.eq_dec (tpos s m) n) as [E|]; [|lia].
        destruct M as [I M]. pose proof (trail_nth _ _ V I) as X. rewrite E, En in X. inversion X; subst m. congruence.
      - eapply good_units_weaken; eauto.
      - destruct Un as [Un|(A & B & C)]; auto. right. splits; auto. lia. }
  assert (Mx : marked s a x) by (split; auto).
  destruct G as (G1 & G2 & G3 & G4 & G5 & G6 & G7). assert (G : fgood a) by (unfold fgood; splits; auto).
  destruct (G7 x Mx) as [Kx Nx]. pose proof (known_one x Kx) as Lx.
  (* the new unit *)
  set (uu := if opens s a (S n) =? 1 then (neg x, neg x :: units) else (unit, units)).
  assert (Uu : good_units a n (snd uu) /\ (fst uu = 2 * vars s \/ (In (neg (fst uu)) (trail s) /\ 0 < lev s (fst uu) /\ n <= tpos s (fst uu)))).
  { unfold uu. destruct (Nat.eqb_spec (opens s a (S n)) 1) as [O1|O1]; cbn [fst snd].
    - split; [|right; rewrite neg_neg, lev_neg, tpos_neg; splits; auto; lia]. destruct Gu as [Nd Gu]. split.
      + constructor; auto. intros I. destruct (Gu _ I) as (_ & _ & _ & X & _). rewrite tpos_neg in X. lia.
      + intros u [<-|I].
        * rewrite neg_neg, lev_neg, tpos_neg. splits; auto; try lia; [|intros E; apply neg_inj in E; congruence].
          apply (rup_cut orig p s c lits (marked s a)); auto. intros m M. destruct (G7 m M) as [Km Nm]. split; auto.
          destruct (Nat.eq_dec m x) as [->|D]; [left; exists (neg x); rewrite neg_neg; split; auto; now left|].
          right. split; [intros E; apply Nm; now apply known_failed|].
          assert (n <= tpos s m) by (eapply (opens_one s a n m x); eauto; rewrite L1; auto; now apply known_one).
          apply Ex; auto. destruct (Nat.eq_dec (tpos s m) n) as [E|]; [|lia]. exfalso.
          pose proof (trail_nth _ _ V (proj1 M)). congruence.
        * destruct (Gu u I) as (? & ? & ? & ? & ?). splits; auto; lia.
    - split; [eapply good_units_weaken; eauto|]. destruct Un as [Un|(A & B & C)]; auto. right. splits; auto. lia. }
  destruct Uu as [Gu' Un']. fold uu. replace uu with (fst uu, snd uu) by (now destruct uu).
  set (unit' := fst uu) in *. set (units' := snd uu) in *. clearbody unit' units'. clear uu.
  assert (Ot : forall k, In k (others s x) -> lev s k = 0 \/ (known s p (neg k) /\ tpos s k < n)).
  { intros k I. destruct (known_other orig p s Co x k Kx I) as (_ & _ & [E|[A B]]); auto. right. split; auto. lia. }
  (* continuing the loop *)
  assert (Next : forall a', fgood a' -> ext a a' -> (forall k, In k (others s x) -> lev s k = 0 \/ marked s a' (neg k)) ->
    (forall m, marked s a' m -> n <= tpos s m -> marked s a m) ->
    wp (do _ <- oassert (0 <? opens s a' (S n)) ; failed_loop s (neg d) (rev (firstn n (trail s))) (pred (opens s a' (S n))) unit' units' a')
      (fun '(units', a') => fgood a' /\ good_units a' 0 units')).
  { intros a' G' Ee Ox Old. assert (Mx' : marked s a' x) by (eapply marked_ext; eauto).
    assert (EO : opens s a' (S n) = S (opens s a' n)).
    { rewrite (opens_S _ _ _ _ En), (proj2 Mx'), L1, Lx. cbn. lia. }
    rewrite EO. cbn [Nat.ltb Nat.leb oassert obind pred].
    assert (Pos : 0 < opens s a' n).
    { destruct (known_level_other orig p s Co x Kx) as (k & Ik & Lk); [intros E; apply Nx; now apply known_failed|].
      destruct (Ot k Ik) as [E|[Kk Pk]]; [lia|]. destruct (Ox k Ik) as [E|M]; [lia|].
      apply (opens_pos s a' n (neg k)); auto; [|now rewrite tpos_neg]. rewrite lev_neg, L1. lia. }
    apply IH; auto.
    - lia.
    - intros m M P k Ik. destruct (Nat.eq_dec m x) as [->|D]; [now apply Ox|].
      assert (M0 : marked s a m) by now apply Old.
      assert (S n <= tpos s m).
      { destruct (Nat.eq_dec (tpos s m) n) as [E|]; [|lia]. exfalso. apply D. pose proof (trail_nth _ _ V (proj1 M)). congruence. }
      destruct (Ex m M0 H k Ik) as [E|Mk]; auto. right. eapply marked_ext; eauto.
    - intros l I. destruct (Cl l I) as [E|M]; auto. right. eapply marked_ext; eauto. }
  pose proof (known_reason orig p s Co x Kx) as Rx.
  assert (Rd : reas s x <> RDecision) by (intros E; apply Nx; now apply known_failed).
  unfold reason_ok in Rx. unfold others in Ot, Next. destruct (reas s x) as [| |o|r] eqn:Er; try congruence; [destruct Rx| |].
  - destruct (Nat.eqb_spec o (neg d)) as [E|Nd]; [apply wp_ret; split; auto; eapply good_units_weaken; eauto; lia|].
    destruct Rx as (Fo & Lo & Po & _). destruct (Ot o (or_introl eq_refl)) as [E|[Ko Pk]]; [lia|].
    destruct (analyzed a (idx o)) eqn:Eo.
    + apply Next; auto; [apply ext_refl|]. intros k [<-|[]]. right. split; [apply Ko|now rewrite idx_neg].
    + replace (S (opens s a (S n))) with (opens s (push_analyzed (idx o) a) (S n)) by (apply opens_push; auto; lia).
      apply Next.
      * apply fgood_push; auto. intros E. apply Nd. now rewrite <- E, neg_neg.
      * apply ext_push.
      * intros k [<-|[]]. right. now apply marked_push.
      * intros m [Im M] P. cbn in M. unfold upd in M. destruct (Nat.eqb_spec (idx m) (idx o)) as [X|X]; [|now split].
        exfalso. rewrite <- (idx_neg o) in X. rewrite (trail_idx s m (neg o) V Im) in P by (auto; apply Ko). rewrite tpos_neg in P. lia.
  - destruct Rx as (cl & Ar & G' & W & Fo & _). rewrite Ar in *.
    assert (Old : forall k, In k (c_lits cl) -> k <> x -> values s k = Some false) by (intros k I N; now apply Fo).
    assert (Ot' : forall k, In k (c_lits cl) -> k <> x -> lev s k = 0 \/ (known s p (neg k) /\ tpos s k < n)).
    { intros k I N. apply Ot, filter_In. split; auto. now apply negb_true_iff, Nat.eqb_neq. }
    pose proof (failed_reason_spec x unit' (S n) n (c_lits cl) (opens s a (S n)) a ltac:(lia) G eq_refl) as Sp.
    assert (A1 : forall k, In k (c_lits cl) -> k <> x -> lev s k = 0 \/ known s p (neg k) /\ tpos s k < n /\ k <> unit').
    { intros k I N. destruct (Ot' k I N) as [E|[A B]]; auto. right. splits; auto. intros ->.
      destruct Un' as [E|(_ & _ & E)]; [|lia]. pose proof (dom_lt _ _ (trail_range _ _ V (proj1 A))) as X. rewrite neg_neg in X || idtac. apply (proj1 (neg_lt _ _)) in X. lia. }
    assert (A2 : forall k, In k (c_lits cl) -> k <> x -> lev s k = 0 -> k <> neg d).
    { intros k I N E ->. rewrite lev_neg in E. lia. }
    assert (A3 : forall k, In k (c_lits cl) -> k <> x -> lev s k = 0 -> k <> unit').
    { intros k I N E ->. destruct Un' as [E'|(_ & E' & _)]; [|lia]. 
      assert (unit' < 2 * vars s) by (apply (ti_range _ V); rewrite Old by auto; discriminate). lia. }
    specialize (Sp A1 A2 A3). destruct (failed_reason _ _ _ _ _ _ _) as [[[u' a']|] a''].
    + destruct Sp as (B1 & B2 & -> & B4 & B5). apply Next; auto. intros k I. apply filter_In in I as [I N].
      apply negb_true_iff, Nat.eqb_neq in N. auto.
    + apply wp_ret. split; auto. eapply good_units_weaken; eauto. lia.
Qed.
End Failed.

Lemma learn_units_spec : forall (Q : analysis -> Prop) orig units s, (forall i a, Q a -> Q (clear_marks i a)) ->
  core orig (length (trail s)) s -> pinv (propagate s) s -> Q (an s) -> NoDup (map idx units) ->
  (forall u, In u units -> values s u = None /\ dom s u /\ rup neg (db s) [u]) ->
  wp (learn_units units s) (fun s' => core orig (length (trail s')) s' /\ pinv (propagate s') s' /\ steady s s' /\ Q (an s')).
Proof.
  intros Q orig units. induction units as [|u units IH]; intros s Qc Co P Qs Nd H; cbn [learn_units].
  - apply wp_ret. splits; auto. apply steady_refl.
  - cbn [map] in Nd. inversion Nd as [|? ? N1 N2]; subst. destruct (H u (or_introl eq_refl)) as (Nu & Ru & Rup).
    rewrite learned_unit_eq by (auto; apply Co). cbn [obind].
    pose proof (core_learned_unit orig s u Co Nu Ru Rup) as Co'. pose proof (co_v _ _ _ Co) as V. pose proof (co_f _ _ _ Co) as F.
    eapply wp_mono; [apply (IH (do_assign 0 RDecision u s))|].
    + auto.
    + auto.
    + apply (pinv_assign s 0 RDecision u V Nu F (propagate s)); auto. apply (ti_prop _ V).
    + cbn. auto.
    + auto.
    + intros w Iw. destruct (H w (or_intror Iw)) as (Nw & Rw & Rupw). splits; auto.
      * apply da_none; auto. split; auto. intros E. apply N1. rewrite <- E. now apply in_map.
      * eapply rup_msub; [|exact Rupw]. intros x. rewrite (da_db_root s 0 RDecision u V Nu Ru eq_refl x), cnt_cons. lia.
    + cbn beta. intros s' (A & B & C & D). splits; auto.
Qed.

Lemma frame_decision : forall orig p s, core orig p s -> level s = 1 ->
  exists f, nth_error (frames s) 1 = Some f /\ In (f_decision f) (trail s) /\ lev s (f_decision f) = 1 /\
    tpos s (f_decision f) = T s 1.
Proof.
  intros orig p s Co L. pose proof (co_v _ _ _ Co) as V. pose proof (co_f _ _ _ Co) as F.
  destruct (ti_dec _ F 1 ltac:(lia)) as (f & Ef & Et & El & Er). exists f. splits; auto.
  - eapply nth_error_In; eauto.
  - rewrite (ti_pos _ V _ _ Et). symmetry. now apply T_nth.
Qed.

Lemma analyze_failed_literal_spec : forall orig p s c, aprec orig p s c -> level s = 1 ->
  (exists lits l, cfl s c lits /\ In l lits /\ lev s l = 1) ->
  wp (analyze_failed_literal c s) (fun s' => steady s s' /\
    let s2 := set_an (reset_only_analyzed (an s')) s' in ready orig s2).
Proof.
  intros orig p s c Ap L1 (lits & lt & Cf & It & Lt). unfold analyze_failed_literal.
  rewrite L1. cbn [Nat.eqb oassert obind]. pose proof (ap_core _ _ _ _ Ap) as Co.
  pose proof (co_v _ _ _ Co) as V. pose proof (co_f _ _ _ Co) as F.
  destruct (frame_decision orig p s Co L1) as (f & Ef & Dt & Dl & Dp). rewrite Ef, (cf_lits _ _ _ Cf).
  set (d := f_decision f) in *.
  assert (G0 : fgood p s d (an s)).
  { destruct (ap_clean _ _ _ _ Ap) as (A & B & C & D & E1 & E2 & E3 & E4 & E5 & E6). unfold fgood. splits; auto; try (split; auto).
    - intros i X. rewrite A in X. discriminate.
    - destruct H. rewrite A in H0. discriminate.
    - destruct H. rewrite A in H0. discriminate. }
  assert (Z0 : opens s (an s) (length (trail s)) = 0).
  { unfold opens. destruct (ap_clean _ _ _ _ Ap) as (A & _). rewrite (filter_ext _ (fun _ => false)) by (intros m; now rewrite A).
    clear. generalize (firstn (length (trail s)) (trail s)). induction l; auto. }
  apply wp_bind.
  assert (W : wp (match failed_conflict s (neg d) lits 0 (an s) with
     | (None, a) => Ret ([], a)
     | (Some (unresolved, a), _) => failed_loop s (neg d) (rev (trail s)) unresolved (2 * vars s) [] a
     end) (fun '(units', a') => fgood p s d a' /\ good_units s d a' 0 units')).
  { pose proof (failed_conflict_spec orig p s c lits d Ap Cf L1 Dl Dp lits 0 (an s)) as Sp.
    specialize (Sp (incl_refl _) (cf_nodup _ _ _ Cf) G0).
    assert (Na : forall l, In l lits -> analyzed (an s) (idx l) = false) by (intros; apply (ap_clean _ _ _ _ Ap)).
    specialize (Sp Na (eq_sym Z0)). destruct (failed_conflict _ _ _ _ _) as [[[u a]|] a'].
    - destruct Sp as (A & B & -> & D). rewrite <- (firstn_all (trail s)) at 1.
      apply (failed_loop_spec orig p s c lits d Ap Cf L1 Dt Dl Dp); auto.
      + intros m [I M] P. exfalso. pose proof (tpos_lt _ _ V I). lia.
      + destruct (D lt It) as [E|M]; [lia|]. apply (opens_pos s a (length (trail s)) (neg lt)); auto.
        * rewrite lev_neg. lia.
        * apply tpos_lt; auto. apply M.
      + split; [constructor|]. intros u [].
    - apply wp_ret. split; auto. split; [constructor|]. intros u []. }
  eapply wp_mono; [exact W|]. clear W. intros [units a] (G & Nd & Gu).
  assert (Co1 : core orig p (set_an a s)) by now apply core_set_an.
  destruct (backtrack_spec orig p 0 (set_an a s) Co1) as (s1 & E1 & B1 & C1 & P1).
  { change (0 < level s). lia. }
  { apply pinv_set_an. change (pinv (T s 1) s). rewrite <- L1. apply (ap_pinv _ _ _ _ Ap). }
  rewrite E1. cbn [obind]. apply wp_bind.
  set (Q := fun a => amarks a /\ unremovable a /\ unpoisoned a /\ unshrunken a /\ an_clause a = [] /\ an_levels a = []).
  eapply wp_mono; [apply (learn_units_spec Q orig)|].
  - intros i x (A & B & C & D & E & E'). unfold Q. splits; auto using amarks_clear, unremovable_clear, unpoisoned_clear, unshrunken_clear.
  - auto.
  - auto.
  - rewrite (bt_an _ _ _ B1). destruct G as (A & B & C & D & E & E' & _). unfold Q. splits; auto.
  - rewrite map_rev. apply NoDup_rev. cbn [map]. constructor.
    + intros I. apply in_map_iff in I as (u & E & I). destruct (Gu u I) as (_ & Iu & _ & _ & Nu).
      apply Nu. rewrite idx_neg in E. rewrite <- (idx_neg u) in E. rewrite <- (trail_idx s (neg u) d V Iu Dt E). now rewrite neg_neg.
    + assert (Iu : forall u, In u units -> In (neg u) (trail s)) by (intros u I; now apply Gu).
      clear - Nd Iu V. induction Nd as [|u us N Nd IH]; [constructor|]. cbn [map]. constructor.
      * intros I. apply in_map_iff in I as (w & E & I). apply N. rewrite <- (idx_neg w), <- (idx_neg u) in E.
        assert (X : neg w = neg u) by (apply (trail_idx s); auto; apply Iu; cbn; auto). apply neg_inj in X. now subst.
      * apply IH. intros w I. apply Iu. now right.
  - intros u I. apply in_rev in I.
    assert (X : In (neg u) (trail s) /\ lev s u = 1 /\ rup neg (db s) [u]).
    { destruct I as [<-|I].
      - rewrite neg_neg, lev_neg. splits; auto. eapply failed_rup; eauto.
      - destruct (Gu u I) as (A & B & C & _). auto. }
    destruct X as (It' & Lu & Ru). splits.
    + rewrite (bt_values _ _ _ B1). change (lev (set_an a s) u) with (lev s u). rewrite Lu. reflexivity.
    + rewrite (bt_dom _ _ _ _ B1). change (dom s u). apply dom_neg. now apply trail_range.
    + rewrite (bt_db 0 (set_an a s) s1) by (auto; try apply Co1; change (0 < level s); lia). exact Ru.
  - cbn beta. intros s2 (C2 & P2 & St2 & (A & B & C & D & E & E')). apply wp_ret. split.
    + eapply steady_trans; [|exact St2]. pose proof (bt_steady _ _ _ B1) as [X Y]. split; [exact X|exact Y].
    + cbv zeta. unfold ready. splits.
      * apply (core_set_an _ _ (set_iterating true s2)). now apply core_set_iterating.
      * apply (agree_pinv _ s2); [constructor; reflexivity|exact P2].
      * cbn. now apply clean_reset_analyzed.
Qed.
