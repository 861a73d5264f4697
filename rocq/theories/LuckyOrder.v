(** Without learned clauses the trail is ordered by decision levels. *)
From Coq Require Import ZArith List Bool Lia Arith.
From Coq Require Import ZifyBool ZifyNat.
From Verif Require Import Base Hoare SpecSat Lit Sem Solver Analyze Search Substitute Lucky Inv DbFacts AssignFacts AssignSpec
  BacktrackFacts PropFacts PropLoop OneLit ClauseFacts SearchFacts Levels.
Import ListNotations.
Open Scope nat_scope.
Open Scope outcome_scope.

(** Lucky phases propagate like the search. *)
Lemma lucky_propagate_eq : forall o s, lucky_propagate o s = search_propagate o s.
Proof.
  intros o s. unfold lucky_propagate, probing_propagate, search_propagate, update_conflicts_and_trail.
  destruct (propagate_loop (S (vars s)) o s) as [[s1 [c|]]| | |]; cbn [obind]; auto.
Qed.

(** Literals from the start [tt k] of level [k] on have at least this level. *)
Definition above (L : nat) (tt : nat -> nat) (s : solver) : Prop :=
  forall k i l, k <= L -> nth_error (trail s) i = Some l -> tt k <= i -> k <= lev s l.
Definition ordered (s : solver) : Prop := above (level s) (T s) s.

Record assigned_by (lvl : nat) (l : lit) (s s' : solver) : Prop := {
  ab_none : values s l = None; ab_none' : values s (neg l) = None;
  ab_trail : trail s' = trail s ++ [l];
  ab_lev : forall k, lev s' k = if idx k =? idx l then lvl else lev s k;
  ab_values : forall k, values s' k = if k =? neg l then Some false else if k =? l then Some true else values s k;
  ab_frames : frames s' = frames s; ab_level : level s' = level s; ab_prop : propagate s' = propagate s;
  ab_arena : arena s' = arena s; ab_watches : watches s' = watches s }.

Lemma assign_by : forall lvl r l s, post (assign lvl r l s) (assigned_by lvl l s).
Proof.
  intros lvl r l s. unfold assign. apply post_assert. intros U. apply andb_true_iff in U as [U1 U2]. apply post_assert. intros _.
  unfold is_unassigned in *. destruct (values s l) eqn:E1; [discriminate|]. destruct (values s (neg l)) eqn:E2; [discriminate|].
  destruct (lvl =? 0) eqn:Z, (is_unit_reason r); cbn; constructor; auto; try reflexivity;
    try (intros k; unfold lev; cbn; unfold upd; rewrite ?(Nat.eqb_sym (idx l)); destruct (idx k =? idx l); auto);
    try (intros k; cbn; unfold upd; rewrite ?(Nat.eqb_sym k); auto).
Qed.

Definition paired (s : solver) : Prop := forall l, values s l <> None -> values s (neg l) <> None.
Lemma vinv_paired : forall s, vinv s -> paired s.
Proof. intros s V l N E. rewrite (ti_neg _ V) in E. destruct (values s l); [discriminate|congruence]. Qed.
Lemma by_paired : forall lvl l s s', assigned_by lvl l s s' -> paired s -> paired s'.
Proof.
  intros lvl l s s' A P k N. rewrite (ab_values _ _ _ _ A). destruct (Nat.eqb_spec (neg k) (neg l)) as [E|E]; [discriminate|].
  destruct (Nat.eqb_spec (neg k) l) as [E'|E']; [discriminate|]. apply P. rewrite (ab_values _ _ _ _ A) in N.
  destruct (Nat.eqb_spec k (neg l)) as [Ek|_]; [subst k; rewrite neg_neg in E'; congruence|].
  destruct (Nat.eqb_spec k l) as [Ek|_]; [subst k; congruence|]. exact N.
Qed.
Lemma by_keeps : forall lvl l s s' k, assigned_by lvl l s s' -> values s k <> None -> values s' k = values s k /\ lev s' k = lev s k.
Proof.
  intros lvl l s s' k A N. assert (k <> l /\ k <> neg l) as [N1 N2].
  { split; intros ->; apply N; apply A. }
  rewrite (ab_values _ _ _ _ A), (ab_lev _ _ _ _ A). destruct (Nat.eqb_spec k (neg l)); [congruence|]. destruct (Nat.eqb_spec k l); [congruence|].
  split; auto. destruct (Nat.eqb_spec (idx k) (idx l)) as [E|_]; auto. apply idx_eq in E as [-> | ->]; congruence.
Qed.
Lemma by_above : forall L tt lvl l s s', assigned_by lvl l s s' -> L <= lvl -> above L tt s -> above L tt s'.
Proof.
  intros L tt lvl l s s' A Le Ab k i m K E G. rewrite (ab_lev _ _ _ _ A). destruct (Nat.eqb_spec (idx m) (idx l)) as [_|N]; [lia|].
  rewrite (ab_trail _ _ _ _ A) in E. destruct (le_lt_dec (length (trail s)) i) as [H|H].
  - rewrite nth_error_app2 in E by auto. destruct (i - length (trail s)) as [|j]; cbn in E; [congruence|]. destruct j; discriminate.
  - rewrite nth_error_app1 in E by auto. eapply Ab; eauto.
Qed.

Lemma assignment_level_ge : forall s l lits k, In k lits -> k <> l -> lev s k <= assignment_level s l lits.
Proof.
  intros s l lits k. unfold assignment_level.
  assert (M : forall lits m, m <= fold_left (fun m k => if k =? l then m else Nat.max m (lev s k)) lits m).
  { induction lits0 as [|x ls IH]; intros m; cbn [fold_left]; auto. destruct (x =? l); [apply IH|].
    etransitivity; [|apply IH]. lia. }
  assert (G : forall lits m, In k lits -> k <> l -> lev s k <= fold_left (fun m k => if k =? l then m else Nat.max m (lev s k)) lits m).
  { induction lits0 as [|x ls IH]; intros m I N; [destruct I|]. cbn [fold_left]. destruct I as [->|I]; [|now apply IH].
    destruct (Nat.eqb_spec k l); [congruence|]. etransitivity; [|apply M]. lia. }
  intros. now apply G.
Qed.

Record high (L : nat) (tt : nat -> nat) (s s' : solver) : Prop := {
  hi_above : above L tt s'; hi_paired : paired s'; hi_frames : frames s' = frames s; hi_level : level s' = level s;
  hi_prop : propagate s' = propagate s;
  hi_keep : forall k, values s k <> None -> values s' k = values s k /\ lev s' k = lev s k }.
Lemma high_refl : forall L tt s, above L tt s -> paired s -> high L tt s s.
Proof. intros. constructor; auto. Qed.
Lemma high_trans : forall L tt a b c, high L tt a b -> high L tt b c -> high L tt a c.
Proof.
  intros L tt a b c [A1 A2 A3 A4 A5 A6] [B1 B2 B3 B4 B5 B6]. constructor; auto; try congruence.
  intros k N. destruct (A6 k N) as [E1 E2]. destruct (B6 k) as [E3 E4]; [congruence|]. split; congruence.
Qed.
Lemma by_high : forall L tt lvl l s s', assigned_by lvl l s s' -> L <= lvl -> above L tt s -> paired s -> high L tt s s'.
Proof.
  intros L tt lvl l s s' A Le Ab P. constructor; try (now apply A); [now apply (by_above L tt lvl l s)|now apply (by_paired lvl l s)|].
  intros k N. now apply (by_keeps lvl l).
Qed.

(** The conflict contains the literal which is propagated. *)
Definition conflicts_with (s : solver) (n : lit) (c : conflict) : Prop :=
  match c with CBinary a _ => a = n | CLarge r => exists d, arena s r = Some d /\ In n (c_lits d) end.

Lemma other_watch_in : forall x y n z, other_watch x y n = Some z -> n = x \/ n = y.
Proof. intros x y n z. unfold other_watch. destruct (Nat.eqb_spec x n); [auto|]. destruct (Nat.eqb_spec y n); [auto|discriminate]. Qed.

Lemma propagate_watches_high : forall o n lvl L tt ws kept d s, above L tt s -> paired s -> L <= lvl ->
  values s n <> None -> L <= lev s n ->
  post (propagate_watches o n lvl ws kept d s) (fun '(s', _, _, confl) => high L tt s s' /\
    match confl with Some c => conflicts_with s' n c | None => True end).
Proof.
  intros o n lvl L tt. induction ws as [|w ws IH]; intros kept d s A P Le Nn Ln; cbn [propagate_watches].
  { split; auto. now apply high_refl. }
  destruct (is_true s (watch_head w)); [now apply IH|]. destruct w as [other|blocking ref].
  - destruct (is_false s other). { split; [now apply high_refl|reflexivity]. }
    eapply post_bind; [apply assign_by|]. intros s1 B. pose proof (by_high L tt _ _ _ _ B Le A P) as H.
    destruct (hi_keep _ _ _ _ H n Nn) as [V1 L1].
    eapply post_mono; [apply IH|]; try apply H; auto; try congruence.
    intros [[[s2 x] y] z] [H2 C]. split; auto. eapply high_trans; eauto.
  - destruct (arena s ref) as [c|] eqn:Ar; [|exact I]. destruct (c_garbage c); [now apply IH|].
    destruct (c_lits c) as [|l0 [|l1 rest]] eqn:El; try exact I.
    destruct (other_watch l0 l1 n) as [other|] eqn:Eo; [|exact I].
    assert (In_n : In n (c_lits c)) by (rewrite El; apply other_watch_in in Eo as [-> | ->]; cbn; auto).
    destruct (is_true s other); [now apply IH|].
    destruct (search_replacement s rest (c_searched c)) as [r|].
    { eapply post_mono; [apply IH|]; auto. intros [[[s2 x] y] z] [[H1 H2 H3 H4 H5 H6] C]. split; auto. constructor; auto. }
    destruct (is_false s other).
    { split; [now apply high_refl|]. exists c. auto. }
    unfold assign_reference. rewrite Ar. eapply post_bind; [apply assign_by|]. intros s1 B.
    assert (Lv : L <= assignment_level s other (c_lits c)).
    { etransitivity; [exact Ln|]. apply assignment_level_ge; auto. intros ->. apply Nn, B. }
    pose proof (by_high L tt _ _ _ _ B Lv A P) as H. destruct (hi_keep _ _ _ _ H n Nn) as [V1 L1].
    eapply post_mono; [apply IH|]; try apply H; auto; try congruence.
    intros [[[s2 x] y] z] [H2 C]. split; auto. eapply high_trans; eauto.
Qed.

Lemma push_delayed_same : forall d s, trail (push_delayed d s) = trail s /\ assigned (push_delayed d s) = assigned s /\
  values (push_delayed d s) = values s /\ frames (push_delayed d s) = frames s /\ level (push_delayed d s) = level s /\
  propagate (push_delayed d s) = propagate s /\ arena (push_delayed d s) = arena s.
Proof.
  unfold push_delayed. induction d as [|x d IH]; intros s; cbn [fold_left]; [splits; auto|].
  destruct (IH (push_watch (fst x) (snd x) s)) as (A1 & A2 & A3 & A4 & A5 & A6 & A7). rewrite A1, A2, A3, A4, A5, A6, A7. splits; reflexivity.
Qed.

Lemma propagate_literal_high : forall o l L tt s, above L tt s -> paired s -> L <= lev s l ->
  post (propagate_literal o l s) (fun '(s', confl) => values s l = Some true /\ high L tt s s' /\
    match confl with Some c => conflicts_with s' (neg l) c | None => True end).
Proof.
  intros o l L tt s A P Ll. unfold propagate_literal. apply post_assert. intros Tl.
  assert (Nn : values s (neg l) <> None). { apply P. unfold is_true in Tl. destruct (values s l); congruence. }
  eapply post_bind; [apply (propagate_watches_high o (neg l) (lev s l) L tt); auto|].
  { unfold lev in *. now rewrite idx_neg. }
  intros [[[s1 ws] d] confl] [H C]. cbn [post].
  destruct (push_delayed_same d (set_watches (upd (watches s1) (neg l) ws) s1)) as (A1 & A2 & A3 & A4 & A5 & A6 & A7).
  destruct H as [H1 H2 H3 H4 H5 H6]. set (s2 := push_delayed _ _) in *.
  assert (El : forall k, lev s2 k = lev s1 k) by (intros k; unfold lev; now rewrite A2).
  split; [unfold is_true in Tl; destruct (values s l) as [[]|]; congruence|]. split.
  - constructor.
    + intros k i m K E G. rewrite El. rewrite A1 in E. eapply H1; eauto.
    + intros k N. rewrite A3 in *. now apply H2.
    + now rewrite A4.
    + now rewrite A5.
    + now rewrite A6.
    + intros k N. rewrite El, A3. now apply H6.
  - destruct confl as [[a b|r]|]; auto. cbn in C |- *. now rewrite A7.
Qed.

Lemma propagate_loop_high : forall o L tt fuel s, above L tt s -> paired s -> tt L <= propagate s ->
  post (propagate_loop fuel o s) (fun '(s', confl) => above L tt s' /\ frames s' = frames s /\ level s' = level s /\
    match confl with Some c => exists n, conflicts_with s' n c /\ L <= lev s' n | None => True end).
Proof.
  intros o L tt. induction fuel as [|fuel IH]; intros s A P G; cbn [propagate_loop];
    destruct (nth_error (trail s) (propagate s)) as [l|] eqn:E; try exact I; try (cbn [post]; splits; auto; fail).
  assert (Ll : L <= lev s l) by (eapply A; eauto).
  eapply post_bind; [apply (propagate_literal_high o l L tt (set_propagate (S (propagate s)) s)); auto|].
  intros [s1 confl] (Vl & H & C). pose proof (hi_prop _ _ _ _ H) as Pr. cbn in Pr.
  destruct confl as [c|].
  - cbn [post]. splits; try apply H. exists (neg l). split; auto.
    destruct (hi_keep _ _ _ _ H l) as [_ K]; [cbn in *; congruence|]. unfold lev in *. rewrite idx_neg. rewrite K. exact Ll.
  - eapply post_mono; [apply IH|]; try apply H; [rewrite Pr; lia|]. intros [s2 [c|]] (B1 & B2 & B3 & B4); splits; auto.
    + rewrite B2. apply H.
    + rewrite B3. apply H.
    + rewrite B2. apply H.
    + rewrite B3. apply H.
Qed.
