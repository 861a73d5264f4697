(** Specifications of the assignment functions. *)
From Coq Require Import ZArith List Bool Lia Arith Permutation.
From Coq Require Import ZifyBool ZifyNat.
From Verif Require Import Base Hoare SpecSat Lit Sem Solver Inv DbFacts AssignFacts.
Import ListNotations.
Open Scope nat_scope.

(** All invariants but the completeness of propagation. *)
Record core (orig : list (list lit)) (p : nat) (s : solver) : Prop := {
  co_v : vinv s; co_f : finv s; co_c : cinv s; co_w : winv (rooted s) (vars s) (active s) (arena s) (watches s);
  co_l : linv orig s; co_r : rinv p s }.

Lemma rup_unit : forall db c l, covers [c] db -> In l c ->
  (forall k, In k c -> k <> l -> In [neg k] db) -> rup neg db [l].
Proof.
  intros db c l C L U. destruct (C c (or_introl eq_refl)) as (d & D & E).
  exists d. split; auto. intros k K. apply E in K.
  destruct (Nat.eq_dec k l) as [->|N].
  - apply derives_assumed. exists l. split; [now left|reflexivity].
  - apply derives_unit with [neg k]; auto; [now left|]. intros m [<-|[]] X. congruence.
Qed.

Lemma core_assign : forall orig s lvl r l, core orig (length (trail s)) s ->
  values s l = None -> dom s l -> lvl <= level s -> is_unit_reason r = false ->
  (lvl = 0 -> rup neg (db s) [l]) -> (0 < lvl -> reason_ok (do_assign lvl r l s) l) ->
  core orig (length (trail (do_assign lvl r l s))) (do_assign lvl r l s).
Proof.
  intros orig s lvl r l [V F C W L Rs] N R Lv U Rup Ok. constructor.
  - now apply vinv_assign.
  - now apply finv_assign.
  - now apply cinv_assign.
  - apply (winv_mono (rooted s)); [|exact W]. intros t. now apply da_rooted.
  - apply linv_assign; auto.
  - intros k K Hl _. apply da_in in K as [K| ->].
    + assert (D : idx k <> idx l) by (apply (da_trail_old s l); auto).
      rewrite da_lev in Hl by auto. apply reason_assign; auto.
      * apply Rs; auto. right. now apply tpos_lt.
      * now apply lev_level.
    + rewrite da_lev_l in Hl. auto.
Qed.

(** ** Binary reasons *)
Lemma binary_reason : forall orig s l other o', core orig (length (trail s)) s ->
  In (WBinary other) (watches s l) -> values s other = Some false -> values s l = None -> dom s l ->
  0 < lev s other ->
  (o' = other \/ reas s other = RBinary o') ->
  reason_ok (do_assign (lev s other) (RBinary o') l s) l.
Proof.
  intros orig s l other o' [V F C W L Rs] I Fo N R Lv O.
  assert (On : In (neg other) (trail s)) by now apply false_on_trail.
  assert (Io : idx other <> idx l) by (apply (da_old s l); auto; congruence).
  unfold reason_ok. rewrite da_reas_l. replace (lev s other =? 0) with false by (symmetry; apply Nat.eqb_neq; lia).
  destruct O as [->|J].
  - rewrite da_same by (auto; congruence). rewrite da_lev, da_lev_l, da_tpos, da_tpos_l by auto. splits; auto.
    + rewrite <- tpos_neg. now apply tpos_lt.
    + now apply bpath_one.
  - assert (Ok : reason_ok s (neg other)).
    { apply Rs; auto. { now rewrite lev_neg. } right. now apply tpos_lt. }
    unfold reason_ok in Ok. rewrite reas_neg, J in Ok. destruct Ok as (A & B & D & P).
    rewrite lev_neg, tpos_neg in *.
    assert (Iq : idx o' <> idx l) by (apply (da_old s l); auto; congruence).
    rewrite da_same by (auto; congruence). rewrite da_lev, da_lev_l, da_tpos, da_tpos_l by auto. splits; auto.
    + pose proof (tpos_lt s _ V On) as Q. rewrite tpos_neg in Q. lia.
    + apply bpath_step with other; auto.
      * rewrite da_same by (auto; congruence). auto.
      * now rewrite da_lev, da_lev_l.
      * apply da_bpath; auto. intros X. apply none_neg in X; auto. congruence.
Qed.

Lemma binary_rup : forall s l other, winv (rooted s) (vars s) (active s) (arena s) (watches s) -> vinv s ->
  In (WBinary other) (watches s l) -> values s other = Some false -> lev s other = 0 -> rup neg (db s) [l].
Proof.
  intros s l other W V I Fo L0. destruct (db_binary _ _ _ W I) as (d & D & E).
  apply rup_unit with (c := [l; other]).
  - intros c [<-|[]]. eauto.
  - now left.
  - intros k [<-|[<-|[]]] K; [congruence|]. apply db_unit.
    + apply neg_lt, (ti_range _ V). congruence.
    + now apply false_true.
    + now rewrite lev_neg.
Qed.

Definition binary_assigned (orig : list (list lit)) (s : solver) (l other : lit) (s' : solver) : Prop :=
  exists r, s' = do_assign (lev s other) r l s /\ is_unit_reason r = false /\ core orig (length (trail s')) s'.

Lemma binary_core : forall orig s l other r, core orig (length (trail s)) s ->
  In (WBinary other) (watches s l) -> values s other = Some false -> values s l = None -> dom s l ->
  (r = RBinary other \/ (0 < lev s other /\ r = reas s other /\ exists k, reas s other = RBinary k)) ->
  binary_assigned orig s l other (do_assign (lev s other) r l s).
Proof.
  intros orig s l other r Co I Fo N R O. exists r. splits; auto.
  { destruct O as [->|(_ & -> & k & ->)]; reflexivity. }
  apply core_assign; auto.
  - apply false_level; auto; apply Co.
  - destruct O as [->|(_ & -> & k & ->)]; reflexivity.
  - intros L0. eapply binary_rup; eauto; apply Co.
  - intros L0. destruct O as [->|(_ & -> & k & E)].
    + eapply binary_reason; eauto.
    + rewrite E. eapply binary_reason; eauto.
Qed.

Lemma fast_binary_assign_spec : forall orig o s l other, core orig (length (trail s)) s ->
  In (WBinary other) (watches s l) -> values s other = Some false -> values s l = None -> dom s l ->
  wp (fast_binary_assign o (lev s other) l other s) (binary_assigned orig s l other).
Proof.
  intros orig o s l other Co I Fo N R. unfold fast_binary_assign.
  destruct (o_jumpreasons o && (0 <? lev s other) && bigbig s) eqn:J.
  - apply andb_true_iff in J as [J _]. apply andb_true_iff in J as [_ J].
    destruct (reas s other) as [| |k|q] eqn:E; (eapply wp_intro; [apply assign_eq; auto; apply Co|]);
      apply binary_core; auto; right; rewrite E; splits; eauto; lia.
  - eapply wp_intro; [apply assign_eq; auto; apply Co|]. apply binary_core; auto.
Qed.
Lemma assign_binary_spec : forall orig o s l other, core orig (length (trail s)) s ->
  In (WBinary other) (watches s l) -> values s other = Some false -> values s l = None -> dom s l ->
  wp (assign_binary o l other s) (binary_assigned orig s l other).
Proof.
  intros orig o s l other Co I Fo N R. unfold assign_binary.
  apply wp_bind, wp_assert; [now apply is_false_spec|].
  destruct (o_jumpreasons o && (0 <? lev s other)) eqn:J.
  - apply andb_true_iff in J as [_ J].
    destruct (reas s other) as [| |k|q] eqn:E; (eapply wp_intro; [apply assign_eq; auto; apply Co|]);
      apply binary_core; auto; right; rewrite E; splits; eauto; lia.
  - eapply wp_intro; [apply assign_eq; auto; apply Co|]. apply binary_core; auto.
Qed.

(** ** Clause reasons *)
Lemma assignment_level_ge : forall s l lits k, In k lits -> k <> l -> lev s k <= assignment_level s l lits.
Proof.
  intros s l lits. unfold assignment_level.
  enough (G : forall m, m <= fold_left (fun m k => if k =? l then m else Nat.max m (lev s k)) lits m /\
    forall k, In k lits -> k <> l -> lev s k <= fold_left (fun m k => if k =? l then m else Nat.max m (lev s k)) lits m).
  { intros k I N. now apply G. }
  induction lits as [|a lits IH]; intros m; cbn [fold_left].
  - split; [lia|]. intros k [].
  - destruct (IH (if a =? l then m else Nat.max m (lev s a))) as [A B]. split.
    + destruct (a =? l); lia.
    + intros k [<-|I] N; [|auto]. destruct (Nat.eqb_spec a l); [congruence|]. lia.
Qed.
Lemma assignment_level_eq : forall s l lits, (exists k, In k lits /\ k <> l) ->
  exists k, In k lits /\ k <> l /\ assignment_level s l lits = lev s k.
Proof.
  intros s l lits. unfold assignment_level.
  enough (G : forall m, let x := fold_left (fun m k => if k =? l then m else Nat.max m (lev s k)) lits m in
    x = m \/ exists k, In k lits /\ k <> l /\ x = lev s k).
  { intros (k & K & D). destruct (G 0) as [E|E]; auto. exists k. splits; auto.
    pose proof (assignment_level_ge s l lits k K D) as Ge. unfold assignment_level in Ge. cbv zeta in E. lia. }
  induction lits as [|a lits IH]; intros m; cbn [fold_left].
  - now left.
  - cbv zeta. destruct (IH (if a =? l then m else Nat.max m (lev s a))) as [E|(k & K & D & E)]; cbv zeta in E.
    + rewrite E. destruct (Nat.eqb_spec a l); [now left|].
      destruct (Nat.max_spec m (lev s a)) as [[_ ->]|[_ ->]]; [right|now left].
      exists a. splits; auto. now left.
    + right. exists k. splits; auto. now right.
Qed.

Lemma two_watches : forall c l, NoDup (c_lits c) -> 2 < length (c_lits c) -> watching l c ->
  exists w, watching w c /\ w <> l /\ In w (c_lits c).
Proof.
  intros c l N L W. destruct (c_lits c) as [|a [|b t]] eqn:E; cbn in L; try lia.
  unfold watching in *. rewrite E in *. cbn in *. inversion N as [|? ? X Y]; subst.
  assert (a <> b) by (intros ->; apply X; now left).
  destruct W as [W|W]; inversion W; subst l.
  - exists b. splits; auto.
  - exists a. splits; auto.
Qed.

(** The clause [r] forces [l]. *)
Record forcing (s : solver) (r : nat) (c : clause) (l : lit) : Prop := {
  fo_arena : arena s r = Some c; fo_garbage : c_garbage c = false; fo_watch : watching l c;
  fo_false : forall k, In k (c_lits c) -> k <> l -> values s k = Some false;
  fo_seg : forall w k, watching w c -> w <> l -> k < level s -> before s w (T s (S k)) ->
    assignment_level s l (c_lits c) <= k }.

Lemma assign_reference_spec : forall orig s r c l, core orig (length (trail s)) s ->
  forcing s r c l -> values s l = None ->
  let s' := do_assign (assignment_level s l (c_lits c)) (RClause r) l s in
  assign_reference l r s = Ret s' /\ core orig (length (trail s')) s' /\
  assignment_level s l (c_lits c) <= level s.
Proof.
  intros orig s r c l Co [A G W Fa Sg] N s'. set (lvl := assignment_level s l (c_lits c)) in *.
  pose proof (co_v _ _ _ Co) as V. pose proof (co_f _ _ _ Co) as F. pose proof (co_c _ _ _ Co) as C.
  assert (Il : In l (c_lits c)) by (destruct W as [W|W]; eapply nth_error_In; eauto).
  assert (R : dom s l) by (eapply (ci_range _ C); eauto).
  destruct (two_watches c l) as (w & W1 & W2 & W3); auto.
  { eapply (ci_nodup _ C); eauto. } { eapply (ci_len _ C); eauto. }
  destruct (assignment_level_eq s l (c_lits c)) as (m & M1 & M2 & M3); [eauto|]. fold lvl in M3.
  assert (Lv : lvl <= level s).
  { rewrite M3. apply false_level; auto. }
  splits; auto.
  { unfold assign_reference. rewrite A. fold lvl. now apply assign_eq. }
  assert (Old : forall k, In k (c_lits c) -> k <> l -> idx k <> idx l).
  { intros k K D. apply (da_old s l); auto. rewrite Fa; auto. discriminate. }
  apply core_assign; auto.
  - intros L0. apply rup_unit with (c := c_lits c); auto.
    + intros d [<-|[]]. exists (c_lits c). split; [|apply same_literals_refl]. eapply db_large; eauto.
    + intros k K D. pose proof (assignment_level_ge s l (c_lits c) k K D) as Ge. fold lvl in Ge.
      apply db_unit.
      * apply neg_lt. eapply (ci_range _ C); eauto.
      * apply false_true; auto.
      * rewrite lev_neg. lia.
  - intros L0. unfold reason_ok. rewrite da_reas_l. replace (lvl =? 0) with false by (symmetry; apply Nat.eqb_neq; lia).
    exists c. split; auto. unfold reason_clause_ok. splits; auto.
    + intros k K D. rewrite da_same by (auto; rewrite Fa; auto; discriminate).
      pose proof (Old k K D). rewrite !da_lev, !da_tpos, !da_lev_l, !da_tpos_l by auto. splits; auto.
      * subst lvl. now apply assignment_level_ge.
      * destruct (Nat.eq_dec (lev s k) 0); auto. right. rewrite <- tpos_neg. apply tpos_lt; auto.
        apply false_on_trail; auto. lia.
    + exists m. rewrite da_lev_l. splits; auto. rewrite da_lev; auto.
    + intros x k X D K B. rewrite da_lev_l. cbn in K.
      assert (Ix : In x (c_lits c)) by (destruct X as [X|X]; eapply nth_error_In; eauto).
      rewrite da_before in B by auto. rewrite da_T in B by (auto; lia). eapply Sg; eauto.
Qed.
