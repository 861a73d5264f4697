(** Invariants of the state during variable elimination, and the effect of its elementary steps. *)
From Coq Require Import ZArith List Bool Lia Arith.
From Coq Require Import ZifyBool ZifyNat.
From Verif Require Import Base SpecSat Lit Solver Api Extend Eliminate.
Import ListNotations.
Open Scope nat_scope.
Open Scope outcome_scope.

(** ** Partial correctness: nothing is claimed about computations which do not return. *)
Definition ok {A} (m : outcome A) (Q : A -> Prop) : Prop := match m with Ret a => Q a | _ => True end.
Lemma ok_ret : forall A (a : A) (Q : A -> Prop), Q a -> ok (Ret a) Q.
Proof. auto. Qed.
Lemma ok_bind : forall A B (m : outcome A) (f : A -> outcome B) Q, ok m (fun a => ok (f a) Q) -> ok (obind m f) Q.
Proof. intros A B m f Q H. destruct m; cbn in *; auto. Qed.
Lemma ok_mono : forall A (m : outcome A) (P Q : A -> Prop), ok m P -> (forall a, P a -> Q a) -> ok m Q.
Proof. intros A m P Q H I. destruct m; cbn in *; auto. Qed.
Lemma ok_assert : forall (b : bool) (Q : unit -> Prop), (b = true -> Q tt) -> ok (oassert b) Q.
Proof. intros b Q H. destruct b; cbn; auto. Qed.
Lemma ok_use : forall A (m : outcome A) Q a, ok m Q -> m = Ret a -> Q a.
Proof. intros A m Q a H ->. exact H. Qed.
Lemma ok_eq : forall A (m : outcome A) (Q : A -> Prop), (forall a, m = Ret a -> Q a) -> ok m Q.
Proof. intros A m Q H. destruct m; cbn; auto. Qed.

(** ** Watches *)
Lemma dwatch_eqb_spec : forall a b, reflect (a = b) (dwatch_eqb a b).
Proof.
  intros [x|x] [y|y]; cbn; try (constructor; congruence); destruct (Nat.eqb_spec x y); constructor; congruence.
Qed.
Definition cnt (w : dwatch) (ws : list dwatch) : nat := length (filter (dwatch_eqb w) ws).
Arguments cnt : simpl never.
Lemma cnt_nil : forall w, cnt w [] = 0.
Proof. reflexivity. Qed.
Definition one (w x : dwatch) : nat := if dwatch_eqb w x then 1 else 0.
Arguments one : simpl never.
Lemma cnt_cons : forall w x ws, cnt w (x :: ws) = one w x + cnt w ws.
Proof. intros. unfold cnt, one. cbn. destruct (dwatch_eqb w x); reflexivity. Qed.
Lemma cnt_app : forall w a b, cnt w (a ++ b) = cnt w a + cnt w b.
Proof. intros. unfold cnt. now rewrite filter_app, app_length. Qed.
Lemma cnt_rev : forall w a, cnt w (rev a) = cnt w a.
Proof. intros. induction a as [|x a IH]; auto. cbn [rev]. rewrite cnt_app, !cnt_cons, cnt_nil, IH. lia. Qed.
Lemma cnt_in : forall w ws, In w ws <-> 0 < cnt w ws.
Proof.
  intros w ws. induction ws as [|x ws IH].
  - split; [intros []|rewrite cnt_nil; lia].
  - rewrite cnt_cons. unfold one. destruct (dwatch_eqb_spec w x) as [->|N].
    + split; intros; [lia|now left].
    + cbn [In]. rewrite IH. split; [intros [E|I]; [congruence|lia]|intros; right; lia].
Qed.
Lemma one_same : forall w, one w w = 1.
Proof. intros. unfold one. destruct (dwatch_eqb_spec w w); congruence. Qed.
Lemma one_other : forall w x, w <> x -> one w x = 0.
Proof. intros. unfold one. destruct (dwatch_eqb_spec w x); congruence. Qed.
Lemma one_le : forall w x, one w x <= 1.
Proof. intros. unfold one. destruct (dwatch_eqb w x); lia. Qed.

Lemma remove_watch_spec : forall w ws, ok (remove_watch w ws) (fun ws' =>
  forall x, cnt x ws = one x w + cnt x ws').
Proof.
  intros w ws. induction ws as [|y ws IH]; cbn [remove_watch]; [exact I|].
  destruct (dwatch_eqb_spec y w) as [->|N].
  - intros x. now rewrite cnt_cons.
  - apply ok_bind. eapply ok_mono; [exact IH|]. cbv beta. intros ws' H. cbn [ok]. intros x. rewrite !cnt_cons, H. lia.
Qed.

(** ** Meaning of a state *)
Definition live (c : clause) : Prop := c_redundant c = false /\ c_garbage c = false.
Definition units (d : dense) (v : assignment) : Prop := forall l, dval d l = Some true -> tr v l = true.
Definition bins (d : dense) (v : assignment) : Prop :=
  forall a b, In (DBinary b) (d_occs d a) -> tr v a = true \/ tr v b = true.
Definition larges (d : dense) (v : assignment) : Prop :=
  forall r c, arena (d_sol d) r = Some c -> live c -> sat_clause v (c_lits c).
Definition models (d : dense) (v : assignment) : Prop :=
  inconsistent (d_sol d) = false /\ units d v /\ bins d v /\ larges d v.

Definition vext (v w : assignment) : Prop := forall i, v i = w i.
Lemma tr_ext : forall v w l, vext v w -> tr v l = tr w l.
Proof. intros v w l E. unfold tr. now rewrite E. Qed.
Lemma sat_clause_ext : forall v w c, vext v w -> sat_clause v c -> sat_clause w c.
Proof. intros v w c E (l & I & T). exists l. split; auto. now rewrite <- (tr_ext v w l E). Qed.
Lemma models_ext : forall d v w, vext v w -> models d v -> models d w.
Proof.
  intros d v w E (A & B & C & D). unfold models. repeat split; auto.
  - intros l L. rewrite <- (tr_ext v w l E). auto.
  - intros a b I. rewrite <- !(tr_ext v w _ E). auto.
  - intros r c H L. apply (sat_clause_ext v w _ E). eauto.
Qed.

Record dinv (d : dense) : Prop := mk_dinv {
  di_neg : forall l, dval d (neg l) = option_map negb (dval d l);
  di_trail : forall l, In l (trail (d_sol d)) -> dval d l = Some true;
  di_large : forall l r, In (DLarge r) (d_occs d l) ->
    exists c, arena (d_sol d) r = Some c /\ c_redundant c = false /\ In l (c_lits c);
  di_conn : forall r c l, arena (d_sol d) r = Some c -> live c -> In l (c_lits c) -> In (DLarge r) (d_occs d l);
  di_taut : forall r c l, arena (d_sol d) r = Some c -> live c -> In l (c_lits c) -> In (neg l) (c_lits c) -> False;
  di_nodup : forall r c, arena (d_sol d) r = Some c -> live c -> NoDup (c_lits c);
  di_bin : forall a b, In (DBinary b) (d_occs d a) -> idx a <> idx b;
  di_sym : forall a b, cnt (DBinary b) (d_occs d a) = cnt (DBinary a) (d_occs d b);
  di_next : forall r, next_ref (d_sol d) <= r -> arena (d_sol d) r = None;
  di_gone : forall l, d_gone d (idx l) = true -> d_occs d l = [] }.

Lemma dtrue_spec : forall d l, dtrue d l = true <-> dval d l = Some true.
Proof. intros. unfold dtrue, dval, is_true. destruct (values (d_sol d) l) as [[|]|]; intuition congruence. Qed.
Lemma dfalse_spec : forall d l, dfalse d l = true <-> dval d l = Some false.
Proof. intros. unfold dfalse, dval, is_false. destruct (values (d_sol d) l) as [[|]|]; intuition congruence. Qed.
Lemma dval_cases : forall d l, dtrue d l = true \/ (dtrue d l = false /\ dfalse d l = true) \/ (dtrue d l = false /\ dfalse d l = false /\ dval d l = None).
Proof. intros. unfold dtrue, dfalse, is_true, is_false, dval. destruct (values (d_sol d) l) as [[|]|]; auto. Qed.
Lemma units_false : forall d v l, dinv d -> units d v -> dval d l = Some false -> tr v l = false.
Proof.
  intros d v l V U F. assert (T : dval d (neg l) = Some true) by (rewrite (di_neg _ V), F; reflexivity).
  apply U in T. rewrite tr_neg in T. now destruct (tr v l).
Qed.

(** ** How the state evolves while the set of models stays the same *)
Definition satisfied_clause (d : dense) (c : clause) : Prop := exists k, In k (c_lits c) /\ dval d k = Some true.
Record evo (d d' : dense) : Prop := mk_evo {
  ev_inv : dinv d';
  ev_models : forall v, models d v <-> models d' v;
  ev_val : forall l b, dval d l = Some b -> dval d' l = Some b;
  ev_arena : forall r c, arena (d_sol d) r = Some c -> exists c', arena (d_sol d') r = Some c' /\
    c_lits c' = c_lits c /\ c_redundant c' = c_redundant c /\ (c_garbage c = true -> c_garbage c' = true) /\
    (c_garbage c' = true -> c_garbage c = true \/ satisfied_clause d' c);
  ev_extend : d_extend d' = d_extend d;
  ev_imports : d_imports d' = d_imports d;
  ev_exports : d_exports d' = d_exports d;
  ev_eliminated : d_eliminated d' = d_eliminated d;
  ev_gone : d_gone d' = d_gone d;
  ev_active : active (d_sol d') = active (d_sol d) }.

Lemma evo_refl : forall d, dinv d -> evo d d.
Proof.
  intros d V. constructor; auto; try reflexivity. intros r c H. exists c. repeat split; auto.
Qed.
Lemma evo_trans : forall a b c, evo a b -> evo b c -> evo a c.
Proof.
  intros a b c A B. destruct A as [A1 A2 A3 A4 A5 A6 A7 A8 A9 A10]. destruct B as [B1 B2 B3 B4 B5 B6 B7 B8 B9 B10].
  constructor; auto; try congruence.
  - intros v. now rewrite A2.
  - intros r x H. destruct (A4 r x H) as (y & Y & L & R & G1 & G2). destruct (B4 r y Y) as (z & Z & L' & R' & G1' & G2').
    exists z. repeat split; auto; try congruence. intros G. destruct (G2' G) as [G'|(k & I & K)].
    + destruct (G2 G') as [|(k & I & K)]; auto. right. exists k. split; auto.
    + right. exists k. split; auto. congruence.
Qed.
Lemma evo_units : forall d d' v, evo d d' -> units d' v -> units d v.
Proof. intros d d' v E U l L. apply U. now apply (ev_val _ _ E). Qed.

(** *** Changes which are not visible *)
Definition hidden (d d' : dense) : Prop :=
  values (d_sol d') = values (d_sol d) /\ trail (d_sol d') = trail (d_sol d) /\ arena (d_sol d') = arena (d_sol d) /\
  next_ref (d_sol d') = next_ref (d_sol d) /\ inconsistent (d_sol d') = inconsistent (d_sol d) /\
  active (d_sol d') = active (d_sol d) /\ d_occs d' = d_occs d /\ d_extend d' = d_extend d /\
  d_imports d' = d_imports d /\ d_exports d' = d_exports d /\ d_eliminated d' = d_eliminated d /\ d_gone d' = d_gone d.
Lemma hidden_inv : forall d d', hidden d d' -> dinv d -> dinv d'.
Proof.
  intros d d' (A & B & C & D & E & F & G & _ & _ & _ & _ & H) [I1 I2 I3 I4 I5 I6 I7 I8 I9 I10].
  constructor; unfold dval in *; rewrite ?A, ?B, ?C, ?D, ?G, ?H; auto.
Qed.
Lemma hidden_models : forall d d' v, hidden d d' -> models d v <-> models d' v.
Proof.
  intros d d' v (A & B & C & D & E & F & G & _). unfold models, units, bins, larges, dval. now rewrite A, C, E, G.
Qed.
Lemma evo_hidden : forall d d', hidden d d' -> dinv d -> evo d d'.
Proof.
  intros d d' H V. pose proof (hidden_inv _ _ H V). pose proof (fun v => hidden_models d d' v H) as M.
  destruct H as (A & B & C & D & E & F & G & H1 & H2 & H3 & H4 & H5).
  constructor; auto.
  - intros l b. unfold dval. now rewrite A.
  - intros r c X. rewrite C. exists c. repeat split; auto.
Qed.
Lemma hidden_marks : forall m d, hidden d (set_d_marks m d).
Proof. intros. repeat split. Qed.
Lemma hidden_gate : forall b d, hidden d (set_d_resolve_gate b d).
Proof. intros. repeat split. Qed.

(** *** A satisfied clause becomes garbage *)
Lemma get_clause_spec : forall d r, ok (get_clause d r) (fun c => arena (d_sol d) r = Some c).
Proof. intros. unfold get_clause. destruct (arena (d_sol d) r) eqn:E; cbn; auto. Qed.

Definition quiet (d d' : dense) : Prop :=
  d_occs d' = d_occs d /\ d_marks d' = d_marks d /\ d_resolve_gate d' = d_resolve_gate d.
Lemma quiet_refl : forall d, quiet d d.
Proof. repeat split. Qed.
Lemma quiet_trans : forall a b c, quiet a b -> quiet b c -> quiet a c.
Proof. intros a b c (A & B & C) (D & E & F). repeat split; congruence. Qed.

Definition garbage_at (r : nat) (c : clause) (d d' : dense) : Prop :=
  values (d_sol d') = values (d_sol d) /\ trail (d_sol d') = trail (d_sol d) /\
  arena (d_sol d') = upd (arena (d_sol d)) r (Some (mk_clause (c_lits c) (c_redundant c) true (c_searched c))) /\
  next_ref (d_sol d') = next_ref (d_sol d) /\ inconsistent (d_sol d') = inconsistent (d_sol d) /\
  active (d_sol d') = active (d_sol d) /\ d_occs d' = d_occs d /\ d_extend d' = d_extend d /\
  d_imports d' = d_imports d /\ d_exports d' = d_exports d /\ d_eliminated d' = d_eliminated d /\ d_gone d' = d_gone d.
Lemma eliminate_clause_eq : forall r d, ok (eliminate_clause r d) (fun d' =>
  exists c, arena (d_sol d) r = Some c /\ c_garbage c = false /\ garbage_at r c d d' /\ quiet d d' /\ trail (d_sol d') = trail (d_sol d) /\ propagate (d_sol d') = propagate (d_sol d)).
Proof.
  intros r d. unfold eliminate_clause, mark_garbage. destruct (arena (d_sol d) r) as [c|] eqn:E; [|exact I].
  apply ok_bind, ok_bind, ok_assert. intros G. cbn. exists c. destruct (c_garbage c); [discriminate|]. repeat split.
Qed.
Lemma garbage_dinv : forall r c d d', arena (d_sol d) r = Some c -> garbage_at r c d d' -> dinv d -> dinv d'.
Proof.
  intros r c d d' Ar (A & B & C & D & E & F & G & _ & _ & _ & _ & Hg) [I1 I2 I3 I4 I5 I6 I7 I8 I9 I10].
  assert (X : forall q x, upd (arena (d_sol d)) r (Some (mk_clause (c_lits c) (c_redundant c) true (c_searched c))) q = Some x -> live x -> arena (d_sol d) q = Some x).
  { intros q x. destruct (Nat.eq_dec q r) as [->|N]; [|now rewrite upd_other]. rewrite upd_same. intros H [_ L]. injection H as <-. discriminate. }
  constructor; unfold dval in *; rewrite ?A, ?B, ?C, ?D, ?G, ?Hg; auto.
  - intros l q H. destruct (I3 l q H) as (x & Hx & R & L). destruct (Nat.eq_dec q r) as [->|N].
    + rewrite upd_same. eexists. split; [reflexivity|]. cbn. rewrite Ar in Hx. injection Hx as <-. auto.
    + rewrite upd_other by auto. eauto.
  - intros q x l H L. eapply I4; eauto.
  - intros q x l H L. eapply I5; eauto.
  - intros q x H L. eapply I6; eauto.
  - intros q L. destruct (Nat.eq_dec q r) as [->|N]; [|rewrite upd_other; auto]. rewrite I9 in Ar by auto. discriminate.
Qed.
Lemma evo_garbage : forall r c d d', arena (d_sol d) r = Some c -> garbage_at r c d d' -> satisfied_clause d c -> dinv d -> evo d d'.
Proof.
  intros r c d d' Ar Ga (k & Ik & Tk) V. pose proof (garbage_dinv _ _ _ _ Ar Ga V) as V'.
  destruct Ga as (A & B & C & D & E & F & G & H1 & H2 & H3 & H4 & H5).
  assert (Va : forall l, dval d' l = dval d l) by (intros; unfold dval; now rewrite A).
  constructor; auto.
  - intros v. unfold models, units, bins, larges. rewrite C, E, G. split; intros (M1 & M2 & M3 & M4).
    + repeat split; auto. { intros l. rewrite Va. auto. }
      intros q x. destruct (Nat.eq_dec q r) as [->|N]; [|rewrite upd_other by auto; apply M4].
      rewrite upd_same. intros X [_ L]. injection X as <-. discriminate.
    + repeat split; auto. { intros l. rewrite <- Va. auto. }
      intros q x X L. destruct (Nat.eq_dec q r) as [->|N].
      * rewrite Ar in X. injection X as <-. exists k. split; auto. apply M2. now rewrite Va.
      * apply (M4 q x); auto. now rewrite upd_other.
  - intros l b. now rewrite Va.
  - intros q x X. rewrite C. destruct (Nat.eq_dec q r) as [->|N].
    + rewrite Ar in X. injection X as <-. rewrite upd_same. eexists. split; [reflexivity|]. cbn. repeat split; auto.
      intros _. right. exists k. split; auto. now rewrite Va.
    + rewrite upd_other by auto. exists x. repeat split; auto.
Qed.
Lemma eliminate_clause_spec : forall r d, dinv d ->
  (forall c, arena (d_sol d) r = Some c -> satisfied_clause d c) ->
  ok (eliminate_clause r d) (fun d' => evo d d' /\ quiet d d' /\ trail (d_sol d') = trail (d_sol d) /\ propagate (d_sol d') = propagate (d_sol d)).
Proof.
  intros r d V H. eapply ok_mono; [apply eliminate_clause_eq|]. intros d' (c & Ar & _ & Ga & Q & T & P).
  splits; auto. eapply evo_garbage; eauto.
Qed.

(** *** A unit *)
Lemma assign_form : forall lvl r l s, ok (assign lvl r l s) (fun s' =>
  values s l = None /\ values s' = upd (upd (values s) l (Some true)) (neg l) (Some false) /\ trail s' = trail s ++ [l] /\
  arena s' = arena s /\ next_ref s' = next_ref s /\ inconsistent s' = inconsistent s /\ active s' = active s /\ propagate s' = propagate s).
Proof.
  intros. unfold assign. apply ok_bind, ok_assert. intros A. apply ok_bind, ok_assert. intros _.
  apply andb_true_iff in A as [A _]. unfold is_unassigned in A. destruct (values s l) eqn:E; [discriminate|].
  cbn. destruct (lvl =? 0); cbn; [destruct (is_unit_reason r); cbn|]; repeat split.
Qed.
Definition assigned_at (l : lit) (s s' : solver) : Prop :=
  values s l = None /\ values s' = upd (upd (values s) l (Some true)) (neg l) (Some false) /\ trail s' = trail s ++ [l] /\
  arena s' = arena s /\ next_ref s' = next_ref s /\ inconsistent s' = inconsistent s /\ active s' = active s /\ propagate s' = propagate s.
Lemma evo_assign : forall l d s', assigned_at l (d_sol d) s' -> dinv d -> (forall v, models d v -> tr v l = true) ->
  evo d (set_d_sol s' d).
Proof.
  intros l d s' (N & A & B & C & D & E & F & P) V H.
  assert (N' : dval d (neg l) = None) by (rewrite (di_neg _ V); unfold dval; now rewrite N).
  assert (Va : forall k, dval (set_d_sol s' d) k = if k =? neg l then Some false else if k =? l then Some true else dval d k).
  { intros k. unfold dval. cbn. rewrite A. unfold upd. reflexivity. }
  assert (Mo : forall k b, dval d k = Some b -> dval (set_d_sol s' d) k = Some b).
  { intros k b K. rewrite Va. destruct (Nat.eqb_spec k (neg l)) as [->|]; [congruence|]. destruct (Nat.eqb_spec k l) as [->|]; auto. unfold dval in K. congruence. }
  assert (Tl : dval (set_d_sol s' d) l = Some true).
  { rewrite Va. destruct (Nat.eqb_spec l (neg l)) as [e|_]; [now apply neg_neq' in e|]. now rewrite Nat.eqb_refl. }
  constructor; auto.
  - destruct V as [I1 I2 I3 I4 I5 I6 I7 I8 I9 I10]. constructor; cbn; rewrite ?C, ?D; auto.
    + intros k. rewrite !Va. destruct (Nat.eqb_spec (neg k) (neg l)) as [e|X].
      * apply neg_inj in e as ->. destruct (Nat.eqb_spec l (neg l)) as [e|_]; [now apply neg_neq' in e|]. now rewrite Nat.eqb_refl.
      * destruct (Nat.eqb_spec (neg k) l) as [<-|Y].
        -- rewrite neg_neg, Nat.eqb_refl. reflexivity.
        -- destruct (Nat.eqb_spec k (neg l)) as [->|]; [rewrite neg_neg in Y; congruence|].
           destruct (Nat.eqb_spec k l) as [->|]; [congruence|]. apply I1.
    + intros k. rewrite B, in_app_iff. intros [K|[<-|[]]]; auto.
  - intros v. split; intros M.
    + pose proof (H v M) as T. destruct M as (M1 & M2 & M3 & M4). unfold models, bins, larges. cbn. rewrite C, E.
      repeat split; auto. intros k. rewrite Va. destruct (k =? neg l); [discriminate|].
      destruct (Nat.eqb_spec k l) as [->|]; auto.
    + destruct M as (M1 & M2 & M3 & M4). unfold models, bins, larges in *. cbn in *. rewrite C, E in *. repeat split; auto. intros k K. apply M2. auto.
  - intros r c X. cbn. rewrite C. exists c. repeat split; auto.
Qed.
Lemma learned_unit_form : forall l s, ok (learned_unit l s) (assigned_at l s).
Proof.
  intros. unfold learned_unit, assign_unit. apply ok_bind. eapply ok_mono; [apply assign_form|]. intros s' H. exact H.
Qed.
Lemma assign_reference_form : forall l r s, ok (assign_reference l r s) (assigned_at l s).
Proof. intros. unfold assign_reference. destruct (arena s r); [|exact I]. apply assign_form. Qed.
Lemma dense_learned_unit_spec : forall l d, dinv d -> (forall v, models d v -> tr v l = true) ->
  ok (dense_learned_unit l d) (fun d' => evo d d' /\ quiet d d' /\ dval d' l = Some true /\ dval d l = None /\
    forall k, idx k <> idx l -> dval d' k = dval d k).
Proof.
  intros l d V H. unfold dense_learned_unit. apply ok_bind. eapply ok_mono; [apply learned_unit_form|].
  intros s' A. cbn. pose proof (evo_assign l d s' A V H). destruct A as (N & A & _). splits; auto; [repeat split| |]; unfold dval; cbn; rewrite A.
  - rewrite upd_other by apply neg_neq'. apply upd_same.
  - intros k K. rewrite !upd_other; auto; intros ->; apply K; auto using idx_neg.
Qed.

(** *** The empty clause *)
Lemma evo_inconsistent : forall d d', dinv d -> (forall v, ~ models d v) -> dense_inconsistent d = Ret d' ->
  evo d d' /\ quiet d d' /\ inconsistent (d_sol d') = true /\ (forall k, dval d' k = dval d k).
Proof.
  intros d d' V H. unfold dense_inconsistent. destruct (inconsistent (d_sol d)) eqn:E; [discriminate|]. cbn. intros X. injection X as <-.
  split; [|repeat split]. constructor; auto.
  - destruct V. constructor; auto.
  - intros v. split; intros M; [now apply H in M|]. destruct M as (M & _). discriminate.
  - intros r c X. exists c. repeat split; auto.
Qed.
Lemma dense_inconsistent_spec : forall d, dinv d -> (forall v, ~ models d v) ->
  ok (dense_inconsistent d) (fun d' => evo d d' /\ quiet d d' /\ inconsistent (d_sol d') = true /\ (forall k, dval d' k = dval d k)).
Proof. intros d V H. apply ok_eq. intros d' E. eapply evo_inconsistent; eauto. Qed.
