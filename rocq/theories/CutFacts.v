(** Implication graph facts used by conflict analysis. *)
From Coq Require Import ZArith List Bool Lia Arith Permutation.
From Coq Require Import ZifyBool ZifyNat.
From Verif Require Import Base Hoare SpecSat Lit Sem Solver Analyze Inv DbFacts AssignFacts AssignSpec BacktrackFacts PropFacts PropLoop.
Import ListNotations.
Open Scope nat_scope.

(** ** The other literals of the reason of [m] *)
Definition others (s : solver) (m : lit) : list lit :=
  match reas s m with
  | RBinary o => [o]
  | RClause r => match arena s r with Some c => filter (fun k => negb (k =? m)) (c_lits c) | None => [] end
  | _ => []
  end.
(** The true literal [m] is not a root literal and its reason is fine. *)
Definition known (s : solver) (p : nat) (m : lit) : Prop :=
  In m (trail s) /\ 0 < lev s m /\ (lev s m < level s \/ tpos s m < p).

Section Known.
Variables (orig : list (list lit)) (p : nat) (s : solver).
Hypothesis Co : core orig p s.
Let V : vinv s := co_v _ _ _ Co.
Let F : finv s := co_f _ _ _ Co.

Lemma known_reason : forall m, known s p m -> reason_ok s m.
Proof. intros m (A & B & C). apply (co_r _ _ _ Co); auto. Qed.
Lemma known_decision : forall m, known s p m -> reas s m = RDecision -> tpos s m = T s (lev s m).
Proof. intros m K E. apply known_reason in K. unfold reason_ok in K. now rewrite E in K. Qed.
Lemma known_unit : forall m, known s p m -> reas s m <> RUnit.
Proof. intros m K E. apply known_reason in K. unfold reason_ok in K. now rewrite E in K. Qed.
Lemma known_first : forall m n, known s p m -> reas s m = RDecision -> In n (trail s) -> lev s n = lev s m -> tpos s m <= tpos s n.
Proof. intros m n K E I L. rewrite (known_decision m K E). apply lev_T; auto. lia. Qed.

Lemma known_other : forall m k, known s p m -> In k (others s m) ->
  values s k = Some false /\ lev s k <= lev s m /\ (lev s k = 0 \/ (known s p (neg k) /\ tpos s k < tpos s m)).
Proof.
  intros m k K I. pose proof (known_reason m K) as R. destruct K as (Km & Lm & Kp). unfold others in I. unfold reason_ok in R.
  assert (X : values s k = Some false -> lev s k <= lev s m -> (lev s k = 0 \/ tpos s k < tpos s m) ->
    lev s k = 0 \/ (known s p (neg k) /\ tpos s k < tpos s m)).
  { intros Fk Lk [E|Tk]; auto. destruct (Nat.eq_dec (lev s k) 0) as [|N]; auto. right. split; auto.
    unfold known. rewrite lev_neg, tpos_neg. splits; try lia. apply false_on_trail; auto. lia. }
  destruct (reas s m) as [| |o|r]; [destruct I|destruct I| |].
  - destruct I as [->|[]]. destruct R as (A & B & C & D). splits; auto; [lia|]. apply X; auto. lia.
  - destruct R as (c & Ar & G & W & Fo & _). rewrite Ar in I. apply filter_In in I as [I N].
    apply negb_true_iff, Nat.eqb_neq in N. destruct (Fo k I N) as (A & B & C). auto.
Qed.
Lemma known_level_other : forall m, known s p m -> reas s m <> RDecision ->
  exists k, In k (others s m) /\ lev s k = lev s m.
Proof.
  intros m K N. pose proof (known_reason m K) as R. unfold others, reason_ok in *.
  destruct (reas s m) as [| |o|r]; try congruence.
  - destruct R.
  - exists o. split; [now left|]. apply R.
  - destruct R as (c & -> & G & W & Fo & (k & I & D & E) & _). exists k. split; auto. apply filter_In. split; auto.
    now apply negb_true_iff, Nat.eqb_neq.
Qed.

Lemma bpath_derives : forall A l o, bpath s l o -> derives neg (db s) A (neg o) -> derives neg (db s) A l.
Proof.
  intros A l o P H. assert (X : forall l m, In (WBinary m) (watches s l) -> derives neg (db s) A (neg m) -> derives neg (db s) A l).
  { intros l0 m I D. destruct (db_binary s l0 m (co_w _ _ _ Co) I) as (d & Id & E).
    apply derives_unit with d; auto; [apply E; now left|]. intros k K N. apply E in K.
    destruct K as [<-|[<-|[]]]; [congruence|auto]. }
  induction P as [l o I|l m o I Fm E P IH]; eauto.
Qed.
Lemma root_derives : forall A k, values s k = Some false -> lev s k = 0 -> derives neg (db s) A (neg k).
Proof.
  intros A k Fk L. apply derives_unit with [neg k].
  - apply db_unit.
    + apply neg_lt, (ti_range _ V). congruence.
    + now apply false_true.
    + now rewrite lev_neg.
  - now left.
  - intros j [<-|[]] X. congruence.
Qed.
Lemma reason_derives : forall A m, known s p m -> reas s m <> RDecision ->
  (forall k, In k (others s m) -> derives neg (db s) A (neg k)) -> derives neg (db s) A m.
Proof.
  intros A m K N H. pose proof (known_reason m K) as R. unfold others, reason_ok in *.
  destruct (reas s m) as [| |o|r]; try congruence.
  - destruct R.
  - destruct R as (_ & _ & _ & P). eapply bpath_derives; eauto. apply H. now left.
  - destruct R as (c & Ar & G & W & Fo & _). rewrite Ar in H. apply derives_unit with (c_lits c).
    + eapply db_large; eauto. apply Co.
    + destruct W as [W|W]; eapply nth_error_In; eauto.
    + intros k I D. apply H. apply filter_In. split; auto. now apply negb_true_iff, Nat.eqb_neq.
Qed.

(** Every literal of a set which is closed under reasons follows from the assumptions [A]. *)
Definition closed (X A : lit -> Prop) : Prop := forall m, X m -> known s p m /\
  (A m \/ (reas s m <> RDecision /\ forall k, In k (others s m) -> lev s k = 0 \/ X (neg k))).
Lemma cut : forall X A, closed X A -> forall m, X m -> derives neg (db s) A m.
Proof.
  intros X A C. enough (G : forall n m, tpos s m < n -> X m -> derives neg (db s) A m).
  { intros m. apply (G (S (tpos s m))). lia. }
  induction n as [|n IH]; intros m L M; [lia|]. destruct (C m M) as [K [H|[N H]]].
  - now apply derives_assumed.
  - apply reason_derives; auto. intros k I. destruct (known_other m k K I) as (Fk & Lk & Tk).
    destruct Tk as [E|[Kk Tk]]; [now apply root_derives|]. destruct (H k I) as [E|Xk]; [now apply root_derives|].
    apply IH; auto. rewrite tpos_neg. lia.
Qed.
End Known.

(** ** Conflicts *)
Record cfl (s : solver) (c : conflict) (lits : list lit) : Prop := {
  cf_lits : conflict_lits s c = Some lits;
  cf_nodup : NoDup lits;
  cf_false : forall l, In l lits -> values s l = Some false;
  cf_len : 2 <= length lits;
  cf_db : exists d, In d (db s) /\ same_literals lits d }.
Lemma conflict_cfl : forall orig p s c, core orig p s -> conflict_ok s c -> exists lits, cfl s c lits.
Proof.
  intros orig p s c Co Ok. destruct c as [a b|r].
  - destruct Ok as (I & Fa & Fb). destruct (wi_bin _ _ _ _ _ (co_w _ _ _ Co) _ _ I) as (N & _).
    exists [a; b]. constructor; auto.
    + constructor; [intros [E|[]]; congruence|]. constructor; [intros []|constructor].
    + intros l [<-|[<-|[]]]; auto.
    + apply db_binary; auto. apply Co.
  - destruct Ok as (d & Ar & G & Fd). exists (c_lits d). constructor; auto.
    + cbn. now rewrite Ar.
    + eapply (ci_nodup _ (co_c _ _ _ Co)); eauto.
    + pose proof (ci_len _ (co_c _ _ _ Co) _ _ Ar G). lia.
    + exists (c_lits d). split; [|apply same_literals_refl]. eapply db_large; eauto. apply Co.
Qed.

Lemma rup_cut : forall orig p s c lits X C, core orig p s -> cfl s c lits ->
  closed p s X (fun l => exists m, In m C /\ l = neg m) ->
  (forall l, In l lits -> lev s l = 0 \/ X (neg l)) -> rup neg (db s) C.
Proof.
  intros orig p s c lits X C Co Cf Cl H. destruct (cf_db _ _ _ Cf) as (d & D & E). exists d. split; auto.
  intros k K. apply E in K. destruct (H k K) as [L|Xk].
  - apply (root_derives orig p s Co); auto. now apply (cf_false _ _ _ Cf).
  - eapply cut; eauto.
Qed.

Lemma conflict_root : forall orig p s c lits, core orig p s -> cfl s c lits ->
  (forall l, In l lits -> lev s l = 0) -> rup neg (db s) [].
Proof.
  intros orig p s c lits Co Cf H. eapply (rup_cut orig p s c lits (fun _ => False)); eauto.
  intros m [].
Qed.

(** ** A derived unit *)
Lemma learned_unit_eq : forall l s, vinv s -> values s l = None -> dom s l ->
  learned_unit l s = Ret (do_assign 0 RDecision l s).
Proof. intros l s V N R. unfold learned_unit, assign_unit. rewrite assign_eq by auto. reflexivity. Qed.
Lemma core_learned_unit : forall orig s l, core orig (length (trail s)) s -> values s l = None -> dom s l ->
  rup neg (db s) [l] -> core orig (length (trail (do_assign 0 RDecision l s))) (do_assign 0 RDecision l s).
Proof. intros orig s l Co N R Rup. apply core_assign; auto; lia. Qed.

(** ** Backtracking after conflicts *)
Lemma bt_trans : forall k j s s1 s2, vinv s -> finv s -> k < level s -> backtracked k s s1 -> j < k -> backtracked j s1 s2 ->
  backtracked j s s2.
Proof.
  intros k j s s1 s2 V F K A J B. constructor; try (destruct A, B; congruence).
  - rewrite (bt_trail _ _ _ B), (bt_trail _ _ _ A). clear - J A.
    rewrite (filter_ext (fun l => lev s1 l <=? j) (fun l => lev s l <=? j)) by (intros l; now rewrite (bt_lev _ _ _ A)).
    induction (trail s) as [|a t IH]; auto. cbn [filter].
    destruct (lev s a <=? k) eqn:E1; cbn [filter]; destruct (lev s a <=? j) eqn:E2; try lia; now rewrite IH.
  - intros l. rewrite (bt_values _ _ _ B), (bt_values _ _ _ A), (bt_lev _ _ _ A).
    destruct (lev s l <=? j) eqn:E1, (lev s l <=? k) eqn:E2; auto; lia.
  - exact (bt_pos _ _ _ B).
  - rewrite (bt_prop _ _ _ B). apply (bt_T k s s1 F K A). lia.
  - rewrite (bt_frames _ _ _ B), (bt_frames _ _ _ A), firstn_firstn. f_equal. lia.
Qed.
Lemma backtrack_same : forall s, backtrack (level s) s = Ret s.
Proof. intros s. unfold backtrack. rewrite Nat.leb_refl. cbn [oassert obind]. now rewrite Nat.eqb_refl. Qed.

Lemma backtrack_after_conflict_spec : forall orig p k s, core orig p s -> k < level s -> pinv (T s (level s)) s ->
  exists s', backtrack_after_conflict k s = Ret s' /\ backtracked k s s' /\ core orig (length (trail s')) s' /\
    pinv (propagate s') s'.
Proof.
  intros orig p k s Co K P. unfold backtrack_after_conflict.
  replace (0 <? level s) with true by (symmetry; apply Nat.ltb_lt; lia).
  pose proof (co_v _ _ _ Co) as V. pose proof (co_f _ _ _ Co) as F.
  destruct (backtrack_spec orig p (pred (level s)) s Co) as (s1 & E1 & B1 & C1 & P1); [lia| |].
  { now replace (S (pred (level s))) with (level s) by lia. }
  rewrite E1. cbn [obind]. destruct (Nat.eq_dec k (pred (level s))) as [->|N].
  - exists s1. rewrite <- (bt_level _ _ _ B1) at 1. rewrite backtrack_same. auto.
  - destruct (backtrack_spec orig (length (trail s1)) k s1 C1) as (s2 & E2 & B2 & C2 & P2).
    + rewrite (bt_level _ _ _ B1). lia.
    + eapply pinv_weaken; [|exact P1]. rewrite (bt_prop _ _ _ B1). rewrite (bt_T (pred (level s)) s s1 F ltac:(lia) B1) by lia.
      apply (ti_Tmono _ F). lia.
    + exists s2. splits; auto. eapply bt_trans; [| | |exact B1| |exact B2]; auto; lia.
Qed.

Lemma bt_clean : forall k s s', backtracked k s s' -> clean (an s) -> clean (an s').
Proof. intros k s s' B. now rewrite (bt_an _ _ _ B). Qed.
Lemma bt_conflict : forall k s s' c, backtracked k s s' -> conflict_ok s c ->
  (forall lits l, conflict_lits s c = Some lits -> In l lits -> lev s l <= k) -> conflict_ok s' c.
Proof.
  intros k s s' c B Ok L.
  assert (X : forall l, values s l = Some false -> lev s l <= k -> values s' l = Some false).
  { intros l Fl Ll. rewrite (bt_values _ _ _ B). replace (lev s l <=? k) with true by (symmetry; apply Nat.leb_le; lia). auto. }
  destruct c as [a b|r]; cbn in *.
  - destruct Ok as (I & Fa & Fb). rewrite (bt_watches _ _ _ B). splits; auto; apply X; auto; eapply L; eauto; cbn; auto.
  - destruct Ok as (d & Ar & G & Fd). exists d. rewrite (bt_arena _ _ _ B). splits; auto. intros l I. apply X; auto.
    eapply L; eauto. now rewrite Ar.
Qed.
