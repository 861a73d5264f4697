(** The components of the implication graph found by [determine_representatives]: Tarjan's algorithm. *)
From Coq Require Import ZArith List Bool Lia Arith Sorted.
From Coq Require Import ZifyBool ZifyNat.
From Verif Require Import Base Hoare Lit Solver Eliminate Substitute.
Import ListNotations.
Open Scope nat_scope.
Open Scope outcome_scope.

(** [implies s a b]: there is a chain of binary clauses over active variables from [a] to [b]. *)
Inductive implies (s : solver) : lit -> lit -> Prop :=
| implies_refl : forall a, implies s a a
| implies_step : forall a b c, In b (successors s a) -> implies s b c -> implies s a c.
Definition equivalent (s : solver) (a b : lit) : Prop := implies s a b /\ implies s b a.

Lemma in_successors : forall s a b, In b (successors s a) <-> In (WBinary b) (watches s (neg a)) /\ is_active s (idx b) = true.
Proof.
  intros s a b. unfold successors. rewrite in_flat_map. split.
  - intros (w & I & J). destruct w as [x|x r]; [|destruct J]. destruct (is_active s (idx x)) eqn:A; [|destruct J]. destruct J as [<-|[]]. auto.
  - intros [I A]. exists (WBinary b). split; auto. rewrite A. now left.
Qed.

Section Tarjan.
Variable s : solver.
Hypothesis sym : forall a b, In (WBinary b) (watches s a) -> In (WBinary a) (watches s b).
Hypothesis range : forall a b, In (WBinary b) (watches s a) -> a < 2 * vars s.
Let E a b := In b (successors s a).
Let R := implies s.
Definition act (a : lit) : Prop := is_active s (idx a) = true /\ a < 2 * vars s.

Lemma edge_active : forall a b, E a b -> act b.
Proof. intros a b H. apply in_successors in H. destruct H as [I A]. split; auto. apply sym in I. eapply range; eauto. Qed.
Lemma implies_one : forall a b, E a b -> R a b.
Proof. intros a b H. eapply implies_step; [exact H|constructor]. Qed.
Lemma implies_trans : forall a b c, R a b -> R b c -> R a c.
Proof. intros a b c H. induction H as [|a x b H1 H2 IH]; intros K; auto. eapply implies_step; eauto. apply IH; auto. Qed.
Lemma implies_active : forall a b, R a b -> act a -> act b.
Proof. intros a b H. induction H as [|a x b H1 H2 IH]; intros A; auto. apply IH. eapply edge_active; eauto. Qed.
Lemma edge_contra : forall a b, act a -> E a b -> E (neg b) (neg a).
Proof.
  intros a b [A _] H. apply in_successors in H. destruct H as [I _]. apply in_successors. rewrite neg_neg, idx_neg. split; auto.
Qed.
Lemma implies_contra : forall a b, act a -> R a b -> R (neg b) (neg a).
Proof.
  intros a b A H. induction H as [|a x b H1 H2 IH]; [constructor|].
  eapply implies_trans; [apply IH; eapply edge_active; eauto|]. apply implies_one. now apply edge_contra.
Qed.
Lemma act_neg : forall a, act a -> act (neg a).
Proof. intros a [A B]. split; [now rewrite idx_neg|now apply neg_lt]. Qed.
Lemma equivalent_contra : forall a b, act a -> equivalent s a b -> equivalent s (neg a) (neg b).
Proof. intros a b A [H K]. split; apply implies_contra; auto. eapply implies_active; eauto. Qed.

(** ** Invariants *)
Fixpoint opens (w : list item) : list lit := match w with [] => [] | Leave x :: w => x :: opens w | Enter _ :: w => opens w end.
Lemma opens_app : forall v w, opens (v ++ w) = opens v ++ opens w.
Proof. induction v as [|[x|x] v IH]; intros w; cbn; auto. now rewrite IH. Qed.
Lemma opens_enter : forall l, opens (map Enter l) = [].
Proof. induction l; cbn; auto. Qed.
Lemma in_opens : forall x w, In x (opens w) -> exists w1 w2, w = w1 ++ Leave x :: w2.
Proof.
  intros x w. induction w as [|[y|y] w IH]; cbn; [intros []| |].
  - intros H. destruct (IH H) as (w1 & w2 & ->). now exists (Enter y :: w1), w2.
  - intros [<-|H]; [now exists [], w|]. destruct (IH H) as (w1 & w2 & ->). now exists (Leave y :: w1), w2.
Qed.
Definition falling (mark : lit -> nat) : list lit -> Prop := StronglySorted (fun a b => mark b < mark a).
Lemma falling_in : forall mark l x y r, falling mark (x :: l) -> In y l -> r = mark x -> mark y < r.
Proof. intros mark l x y r H I ->. apply StronglySorted_inv in H. destruct H as [_ H]. rewrite Forall_forall in H. auto. Qed.

(** A literal is a justified unit if assuming its negation leads to a literal and its negation. *)
Definition justified (u : lit) : Prop := act u /\ exists y, R (neg u) y /\ R (neg u) (neg y).

(** What holds of the literals which have a representative. *)
Record classes (mark : lit -> nat) (reach : lit -> option nat) (repr : lit -> option lit) (reached : nat) (units : list lit) : Prop := {
  cl_bound : forall x, mark x <= reached;
  cl_inj : forall x y, mark x <> 0 -> mark x = mark y -> x = y;
  cl_marked : forall x, repr x <> None -> mark x <> 0;
  cl_reach : forall x, repr x <> None -> reach x = None;
  cl_done : forall x y, repr x <> None -> E x y -> repr y <> None;
  cl_class : forall x m, repr x = Some m -> R x m /\ R m x /\ forall y, R x y -> R y x -> repr y = Some m /\ m <= y;
  cl_active : forall x, mark x <> 0 -> act x;
  cl_units : forall u, In u units -> justified u;
  cl_neg : forall x m, repr x = Some m -> repr (neg x) <> Some m }.
Definition base (t : tarjan) : Prop := classes (t_mark t) (t_reach t) (t_repr t) (t_reached t) (t_units t).

Record walking (root : lit) (m0 : nat) (t : tarjan) : Prop := {
  wk_base : base t;
  wk_root : act root;
  wk_pos : m0 <> 0;
  wk_m0 : t_mark t root = m0 \/ t_mark t root = 0 /\ t_scc t = [] /\ m0 = S (t_reached t);
  wk_scc : forall x, In x (t_scc t) <-> t_mark t x <> 0 /\ t_repr t x = None;
  wk_m0_le : forall x, In x (t_scc t) -> m0 <= t_mark t x;
  wk_sorted : falling (t_mark t) (t_scc t);
  wk_open : forall x, In x (opens (t_work t)) -> In x (t_scc t) /\ t_reach t x = Some (t_mark t x);
  wk_opens : falling (t_mark t) (opens (t_work t));
  wk_closed : forall x, In x (t_scc t) -> ~ In x (opens (t_work t)) -> exists y r,
    t_reach t x = Some r /\ r < t_mark t x /\ In y (t_scc t) /\ t_mark t y = r /\ R x y;
  wk_low : forall x y, In x (t_scc t) -> ~ In x (opens (t_work t)) -> E x y ->
    t_repr t y <> None \/ In y (t_scc t) /\ forall r, t_reach t x = Some r -> r <= t_mark t y;
  wk_parent : forall x, In x (t_scc t) -> x <> root -> exists p, In p (t_scc t) /\ E p x /\ t_mark t p < t_mark t x /\
    (forall o, In o (opens (t_work t)) -> t_mark t o < t_mark t x -> t_mark t o <= t_mark t p) /\
    (In p (opens (t_work t)) \/ ~ In x (opens (t_work t)) /\
       forall rp rx, t_reach t p = Some rp -> t_reach t x = Some rx -> rp <= rx);
  wk_work : forall w1 x w2, t_work t = w1 ++ Enter x :: w2 ->
    act x /\ (opens w2 = [] /\ x = root \/ exists o os, opens w2 = o :: os /\ E o x);
  wk_pending : forall w1 x w2, t_work t = w1 ++ Leave x :: w2 -> forall y, E x y -> t_mark t y <> 0 \/ In (Enter y) w1;
  wk_reachable : forall x, m0 <= t_mark t x -> R root x }.

(** The reach of a literal on the stack is at most its mark. *)
Lemma reach_mark : forall root m0 t x, walking root m0 t -> In x (t_scc t) -> exists r y,
  t_reach t x = Some r /\ r <= t_mark t x /\ In y (t_scc t) /\ t_mark t y = r /\ R x y.
Proof.
  intros root m0 t x W I. destruct (in_dec Nat.eq_dec x (opens (t_work t))) as [O|O].
  - destruct (wk_open _ _ _ W x O) as [_ Eq]. exists (t_mark t x), x. split; auto. split; auto. split; auto. split; auto. constructor.
  - destruct (wk_closed _ _ _ W x I O) as (y & r & A & B & C & D & F). exists r, y. split; auto. split; [lia|auto].
Qed.

(** ** Entering a literal *)
Lemma classes_mark : forall mark reach repr reached units x r, classes mark reach repr reached units -> mark x = 0 -> act x ->
  classes (upd mark x (S reached)) (upd reach x r) repr (S reached) units.
Proof.
  intros mark reach repr reached units x r [C1 C2 C3 C4 C5 C6 C7 C8 C9] Z A.
  assert (Nx : forall y, repr y <> None -> y <> x) by (intros y N ->; now apply C3 in N).
  constructor; auto.
  - intros y. unfold upd. destruct (y =? x); [lia|]. specialize (C1 y). lia.
  - intros a b. unfold upd. destruct (Nat.eqb_spec a x) as [->|Na], (Nat.eqb_spec b x) as [->|Nb]; auto.
    + intros _ Eq. specialize (C1 b). lia.
    + intros _ Eq. specialize (C1 a). lia.
  - intros y N. unfold upd. destruct (Nat.eqb_spec y x); [lia|auto].
  - intros y N. unfold upd. destruct (Nat.eqb_spec y x) as [->|]; [now apply Nx in N|auto].
  - intros y. unfold upd. destruct (Nat.eqb_spec y x) as [->|]; auto.
Qed.

Lemma enter_walking : forall root m0 t x work, walking root m0 t -> t_work t = Enter x :: work -> t_mark t x = 0 ->
  walking root m0 (enter s x work t).
Proof.
  intros root m0 t x work W Ew Z. pose proof (wk_base _ _ _ W) as C.
  destruct (wk_work _ _ _ W [] x work Ew) as (Ax & Top). pose proof (cl_bound _ _ _ _ _ C) as Bd.
  assert (Lm : m0 <= S (t_reached t)) by (specialize (Bd root); destruct (wk_m0 _ _ _ W); lia).
  assert (Nx : ~ In x (t_scc t)) by (intros I; now apply (wk_scc _ _ _ W) in I).
  assert (Nr : t_repr t x = None).
  { destruct (t_repr t x) eqn:Q; auto. exfalso. apply (cl_marked _ _ _ _ _ C x); auto. congruence. }
  assert (Old : forall y, In y (t_scc t) -> y <> x) by (intros y I ->; auto).
  assert (Op : opens (t_work t) = opens work) by (rewrite Ew; reflexivity).
  assert (Nox : ~ In x (opens work)) by (intros I; apply Nx; rewrite <- Op in I; now apply (wk_open _ _ _ W)).
  set (mark := upd (t_mark t) x (S (t_reached t))).
  assert (Mo : forall y, y <> x -> mark y = t_mark t y) by (intros y N; unfold mark, upd; destruct (Nat.eqb_spec y x); [contradiction|auto]).
  assert (Mx : mark x = S (t_reached t)) by (unfold mark, upd; now rewrite Nat.eqb_refl).
  assert (Ro : forall y, y <> x -> upd (t_reach t) x (Some (S (t_reached t))) y = t_reach t y) by (intros y N; unfold upd; destruct (Nat.eqb_spec y x); [contradiction|auto]).
  set (others := filter (fun other => mark other =? 0) (successors s x)).
  assert (On : opens (map Enter (rev others) ++ Leave x :: work) = x :: opens work) by (rewrite opens_app, opens_enter; reflexivity).
  constructor; unfold base, enter; cbn [t_mark t_reach t_repr t_reached t_scc t_work t_units set_t_work set_t_reach set_t_mark set_t_reached set_t_scc]; fold mark; fold others; rewrite ?On.
  - unfold mark. apply classes_mark; auto.
  - exact (wk_root _ _ _ W).
  - exact (wk_pos _ _ _ W).
  - left. destruct (wk_m0 _ _ _ W) as [M|(M & Sc & Em)].
    + rewrite Mo; auto. intros ->. pose proof (wk_pos _ _ _ W). lia.
    + assert (Hr : x = root).
      { destruct Top as [[_ ->]|(o & os & O & _)]; auto. exfalso. assert (Io : In o (t_scc t)) by (apply (wk_open _ _ _ W); rewrite Op, O; now left). now rewrite Sc in Io. }
      subst x. lia.
  - intros y. cbn [In]. destruct (Nat.eq_dec y x) as [->|N].
    + rewrite Mx, Nr. split; [intros _; split; auto|auto].
    + rewrite Mo by auto. rewrite <- (wk_scc _ _ _ W). split; [intros [->|I]; tauto|auto].
  - intros y [<-|I]; [rewrite Mx; lia|]. rewrite Mo by auto. now apply (wk_m0_le _ _ _ W).
  - constructor.
    + assert (Hs : forall l, (forall y, In y l -> y <> x) -> falling (t_mark t) l -> falling mark l).
      { intros l H F. induction F as [|y l F IH Fy]; constructor; [apply IH; intros; apply H; now right|].
        rewrite Forall_forall in *. intros z Iz. rewrite !Mo; auto; apply H; [now left|now right]. }
      apply Hs; auto. exact (wk_sorted _ _ _ W).
    + apply Forall_forall. intros y I. rewrite Mx, Mo by auto. specialize (Bd y). lia.
  - intros y [<-|I].
    + split; [now left|]. unfold upd. now rewrite Nat.eqb_refl, Mx.
    + assert (Ny : y <> x) by (intros ->; auto). rewrite Mo, Ro by auto. rewrite <- Op in I. destruct (wk_open _ _ _ W y I). split; auto. now right.
  - constructor.
    + assert (Hs : forall l, (forall y, In y l -> y <> x) -> falling (t_mark t) l -> falling mark l).
      { intros l H F. induction F as [|y l F IH Fy]; constructor; [apply IH; intros; apply H; now right|].
        rewrite Forall_forall in *. intros z Iz. rewrite !Mo; auto; apply H; [now left|now right]. }
      apply Hs; [intros y I ->; auto|]. rewrite <- Op. exact (wk_opens _ _ _ W).
    + apply Forall_forall. intros y I. rewrite Mx. rewrite Mo by (intros ->; auto). specialize (Bd y). lia.
  - intros y [<-|I] No; [exfalso; apply No; now left|]. destruct (wk_closed _ _ _ W y I) as (z & r & A & B & D & F & G).
    { rewrite Op. intros O. apply No. now right. }
    exists z, r. rewrite Ro by auto. rewrite !Mo by auto. split; auto. split; auto. split; [now right|]. auto.
  - intros y z [<-|I] No Ez; [exfalso; apply No; now left|]. destruct (wk_low _ _ _ W y z I) as [D|[D F]]; auto.
    { rewrite Op. intros O. apply No. now right. }
    right. split; [now right|]. rewrite Ro, Mo by auto. auto.
  - intros y [<-|I] Nroot.
    + destruct Top as [[_ ->]|(o & os & O & Eo)]; [contradiction|].
      assert (Io : In o (opens (t_work t))) by (rewrite Op, O; now left). destruct (wk_open _ _ _ W o Io) as [Is _].
      assert (Nox' : o <> x) by auto. exists o. split; [now right|]. split; auto. rewrite (Mo o) by auto. split; [rewrite Mx; specialize (Bd o); lia|].
      split.
      * intros q [<-|Iq] Lq; [lia|]. assert (Nq : q <> x) by (intros ->; auto). rewrite (Mo q) by auto.
        rewrite O in Iq. destruct Iq as [<-|Iq]; auto. pose proof (wk_opens _ _ _ W) as F. rewrite Op, O in F.
        pose proof (falling_in _ _ _ q _ F Iq eq_refl). lia.
      * left. right. now rewrite <- Op.
    + destruct (wk_parent _ _ _ W y I Nroot) as (p & P1 & P2 & P3 & P4 & P5). assert (Np : p <> x) by auto. assert (Ny : y <> x) by auto.
      exists p. split; [now right|]. split; auto. rewrite (Mo p), (Mo y) by auto. split; auto. split.
      * intros o [<-|Io] Lo; [rewrite Mx in Lo; specialize (Bd y); lia|]. rewrite Mo in * by (intros ->; auto). rewrite <- Op in Io. auto.
      * rewrite <- Op. rewrite !Ro by auto. destruct P5 as [P5|[P5 P6]]; [left; now right|]. right. split; auto. cbn [In]. intros [<-|?]; tauto.
  - intros w1 y w2 Eq. assert (G : (exists u1 u2, map Enter (rev others) = u1 ++ Enter y :: u2 /\ w2 = u2 ++ Leave x :: work) \/ exists w1', work = w1' ++ Enter y :: w2).
    { clear - Eq. revert w1 Eq. generalize (rev others). intros l. induction l as [|z l IH]; intros w1 Eq; cbn in Eq.
      - destruct w1 as [|i w1]; cbn in Eq; [discriminate|]. injection Eq as _ Eq. right. eauto.
      - destruct w1 as [|i w1]; cbn in Eq.
        + injection Eq as -> <-. left. exists [], (map Enter l). auto.
        + injection Eq as _ Eq. destruct (IH w1 Eq) as [(u1 & u2 & A & B)|H]; auto. left. exists (Enter z :: u1), u2. cbn. split; auto. now rewrite A. }
    destruct G as [(u1 & u2 & A & ->)|(w1' & A)].
    + assert (Iy : In y others). { apply in_rev. assert (I : In (Enter y) (map Enter (rev others))) by (rewrite A; apply in_or_app; right; now left). apply in_map_iff in I. destruct I as (z & [= ->] & I). auto. }
      unfold others in Iy. apply filter_In in Iy. destruct Iy as [Iy _]. split; [eapply edge_active; eauto|]. right. exists x, (opens work).
      split; auto. rewrite opens_app. assert (O2 : opens u2 = []). { pose proof (f_equal opens A) as Q. rewrite opens_enter, opens_app in Q. cbn in Q. symmetry in Q. now apply app_eq_nil in Q. } now rewrite O2.
    + apply (wk_work _ _ _ W (Enter x :: w1') y w2). rewrite Ew, A. reflexivity.
  - intros w1 y w2 Eq z Ez. assert (G : y = x /\ w1 = map Enter (rev others) \/ exists w1', work = w1' ++ Leave y :: w2 /\ w1 = map Enter (rev others) ++ Leave x :: w1').
    { clear - Eq. revert w1 Eq. generalize (rev others). intros l. induction l as [|v l IH]; intros w1 Eq; cbn in Eq.
      - destruct w1 as [|i w1]; cbn in Eq; [injection Eq as -> ->; auto|]. injection Eq as <- Eq. right. eauto.
      - destruct w1 as [|i w1]; cbn in Eq; [discriminate|]. injection Eq as <- Eq. destruct (IH w1 Eq) as [[-> ->]|(w1' & -> & ->)]; [now left|right; eauto]. }
    destruct (Nat.eq_dec z x) as [->|Nz]; [left; lia|]. rewrite (Mo z Nz). destruct G as [[-> ->]|(w1' & A & ->)].
    + destruct (Nat.eq_dec (t_mark t z) 0) as [Zz|]; [|auto]. right. apply in_map. apply -> in_rev. apply filter_In. split; auto. rewrite Mo by auto. now rewrite Zz.
    + destruct (wk_pending _ _ _ W (Enter x :: w1') y w2) with (y := z) as [H|[H|H]]; auto.
      { now rewrite Ew, A. }
      { injection H as ->. contradiction. }
      right. apply in_or_app. right. now right.
  - intros y Ly. destruct (Nat.eq_dec y x) as [->|Ny]; [|rewrite Mo in Ly by auto; now apply (wk_reachable _ _ _ W)].
    destruct Top as [[_ ->]|(o & os & O & Eo)]; [constructor|].
    assert (Io : In o (t_scc t)) by (apply (wk_open _ _ _ W); rewrite Op, O; now left).
    eapply implies_trans; [|apply implies_one; exact Eo]. apply (wk_reachable _ _ _ W). now apply (wk_m0_le _ _ _ W).
Qed.

Lemma skip_walking : forall root m0 t x work, walking root m0 t -> t_work t = Enter x :: work -> t_mark t x <> 0 ->
  walking root m0 (set_t_work work t).
Proof.
  intros root m0 t x work W Ew M. assert (Op : opens (t_work t) = opens work) by (rewrite Ew; reflexivity).
  destruct W as [W1 W2 W3 W4 W5 W6 W7 W8 W9 W10 W11 W12 W13 W14 W15].
  constructor; unfold base; cbn [t_mark t_reach t_repr t_reached t_scc t_work t_units set_t_work]; rewrite <- ?Op; auto.
  - intros w1 y w2 Eq. apply (W13 (Enter x :: w1) y w2). now rewrite Ew, Eq.
  - intros w1 y w2 Eq z Ez. destruct (W14 (Enter x :: w1) y w2) with (y := z) as [H|[H|H]]; auto.
    + now rewrite Ew, Eq.
    + injection H as ->. auto.
Qed.

(** ** Leaving a literal *)
Lemma lowest_spec : forall mark reach others low, (forall y, In y others -> mark y <> 0) ->
  wp (lowest mark reach others low) (fun m => m <= low /\ (forall y r, In y others -> reach y = Some r -> m <= r) /\
    (m = low \/ exists y, In y others /\ reach y = Some m)).
Proof.
  intros mark reach others. induction others as [|x others IH]; intros low H; cbn [lowest].
  - apply wp_ret. split; auto. split; [intros y r []|auto].
  - apply wp_bind, wp_assert; [specialize (H x (or_introl eq_refl)); now apply negb_true_iff, Nat.eqb_neq|].
    eapply wp_mono; [apply IH; intros; apply H; now right|]. cbn beta. intros m (A & B & C).
    destruct (reach x) as [r|] eqn:Rx.
    + destruct (Nat.ltb_spec r low).
      * split; [lia|]. split.
        { intros y q [<-|I] Eq; [|eauto]. rewrite Rx in Eq. injection Eq as <-. auto. }
        { destruct C as [->|(y & Iy & Ey)]; [right; exists x; split; [now left|auto]|right; exists y; split; [now right|auto]]. }
      * split; [lia|]. split.
        { intros y q [<-|I] Eq; [|eauto]. rewrite Rx in Eq. injection Eq as <-. lia. }
        { destruct C as [->|(y & Iy & Ey)]; [auto|right; exists y; split; [now right|auto]]. }
    + split; auto. split.
      * intros y q [<-|I] Eq; [congruence|eauto].
      * destruct C as [->|(y & Iy & Ey)]; [auto|right; exists y; split; [now right|auto]].
Qed.

(** The literal left is open, all its successors are marked, and it has the largest mark of the open ones. *)
Lemma leaving : forall root m0 t l work, walking root m0 t -> t_work t = Leave l :: work ->
  In l (t_scc t) /\ t_reach t l = Some (t_mark t l) /\ ~ In l (opens work) /\ (forall o, In o (opens work) -> t_mark t o < t_mark t l) /\
  forall y, E l y -> t_mark t y <> 0.
Proof.
  intros root m0 t l work W Ew. pose proof (wk_opens _ _ _ W) as F. rewrite Ew in F. cbn [opens] in F.
  assert (Lt : forall o, In o (opens work) -> t_mark t o < t_mark t l) by (intros o I; eapply falling_in; eauto).
  destruct (wk_open _ _ _ W l) as [A B]; [rewrite Ew; now left|].
  split; auto. split; auto. split; [intros I; specialize (Lt l I); lia|]. split; auto.
  intros y Ey. destruct (wk_pending _ _ _ W [] l work Ew y Ey) as [H|[]]. auto.
Qed.

Lemma marked_cases : forall root m0 t y, walking root m0 t -> t_mark t y <> 0 -> t_repr t y <> None \/ In y (t_scc t).
Proof. intros root m0 t y W M. destruct (t_repr t y) eqn:Q; [left; congruence|]. right. apply (wk_scc _ _ _ W). auto. Qed.

Lemma close_walking : forall root m0 t l work low y, walking root m0 t -> t_work t = Leave l :: work -> low < t_mark t l ->
  (forall y r, E l y -> t_reach t y = Some r -> low <= r) -> E l y -> t_reach t y = Some low ->
  walking root m0 (set_t_reach (upd (t_reach t) l (Some low)) (set_t_work work t)).
Proof.
  intros root m0 t l work low y W Ew L Lall Ey Ry.
  destruct (leaving _ _ _ _ _ W Ew) as (Il & Rl & Nl & Lt & Ml).
  pose proof (wk_base _ _ _ W) as C.
  assert (Op : opens (t_work t) = l :: opens work) by (rewrite Ew; reflexivity).
  set (reach := upd (t_reach t) l (Some low)).
  assert (Ro : forall z, z <> l -> reach z = t_reach t z) by (intros z N; unfold reach, upd; destruct (Nat.eqb_spec z l); [contradiction|auto]).
  assert (Rn : reach l = Some low) by (unfold reach, upd; now rewrite Nat.eqb_refl).
  assert (Sy : In y (t_scc t)).
  { destruct (marked_cases _ _ _ y W (Ml y Ey)) as [D|D]; auto. apply (cl_reach _ _ _ _ _ C) in D. congruence. }
  destruct (reach_mark _ _ _ y W Sy) as (r & z & A1 & A2 & A3 & A4 & A5). rewrite Ry in A1. injection A1 as <-.
  assert (Closed : forall x, In x (t_scc t) -> ~ In x (opens work) -> x = l \/ ~ In x (opens (t_work t))).
  { intros x I N. destruct (Nat.eq_dec x l); auto. right. rewrite Op. intros [->|]; auto. }
  constructor; unfold base; cbn [t_mark t_reach t_repr t_reached t_scc t_work t_units set_t_work set_t_reach]; fold reach.
  - destruct C as [C1 C2 C3 C4 C5 C6 C7 C8 C9]. constructor; auto. intros x N. rewrite Ro; auto. intros ->.
    apply (wk_scc _ _ _ W) in Il. destruct Il. congruence.
  - exact (wk_root _ _ _ W).
  - exact (wk_pos _ _ _ W).
  - exact (wk_m0 _ _ _ W).
  - exact (wk_scc _ _ _ W).
  - exact (wk_m0_le _ _ _ W).
  - exact (wk_sorted _ _ _ W).
  - intros x I. rewrite Ro by (intros ->; auto). apply (wk_open _ _ _ W). rewrite Op. now right.
  - pose proof (wk_opens _ _ _ W) as F. rewrite Op in F. now apply StronglySorted_inv in F.
  - intros x I N. destruct (Closed x I N) as [->|N'].
    + exists z, low. split; auto. split; auto. split; auto. split; auto. eapply implies_trans; [apply implies_one; exact Ey|auto].
    + rewrite Ro by (intros ->; apply N'; rewrite Op; now left). now apply (wk_closed _ _ _ W).
  - intros x v I N Ev. destruct (Closed x I N) as [->|N'].
    + rewrite Rn. destruct (marked_cases _ _ _ v W (Ml v Ev)) as [D|D]; auto. right. split; auto. intros r [= <-].
      destruct (reach_mark _ _ _ v W D) as (q & _ & B1 & B2 & _). specialize (Lall v q Ev B1). lia.
    + rewrite Ro by (intros ->; apply N'; rewrite Op; now left). now apply (wk_low _ _ _ W).
  - intros x I Nr. destruct (wk_parent _ _ _ W x I Nr) as (p & P1 & P2 & P3 & P4 & P5). exists p. split; auto. split; auto. split; auto.
    split; [intros o Io; apply P4; rewrite Op; now right|]. rewrite Op in P5. destruct P5 as [[->|P5]|[P5 P6]].
    + right. assert (Nx : x <> p) by (intros ->; lia). split; [intros Ix; specialize (Lt x Ix); lia|].
      rewrite Rn, (Ro x) by auto. intros rp rx [= <-] Rx. now apply (Lall x).
    + auto.
    + right. split; [intros Ix; apply P5; now right|]. assert (Nx : x <> l) by (intros ->; apply P5; now left). rewrite (Ro x) by auto.
      intros rp rx Rp Rx. destruct (Nat.eq_dec p l) as [->|Np]; [rewrite Rn in Rp; injection Rp as <-; now apply (Lall x)|].
      rewrite Ro in Rp by auto. now apply P6.
  - intros w1 x w2 Eq. apply (wk_work _ _ _ W (Leave l :: w1) x w2). now rewrite Ew, Eq.
  - intros w1 x w2 Eq v Ev. destruct (wk_pending _ _ _ W (Leave l :: w1) x w2) with (y := v) as [H|[H|H]]; auto; [now rewrite Ew, Eq|discriminate].
  - exact (wk_reachable _ _ _ W).
Qed.

(** ** A component *)
Section Component.
Variables (root : lit) (m0 : nat) (t : tarjan) (l : lit) (work : list item).
Hypothesis W : walking root m0 t.
Hypothesis Ew : t_work t = Leave l :: work.
Hypothesis Low : forall y r, E l y -> t_reach t y = Some r -> t_mark t l <= r.

Lemma comp_closed : forall x, In x (t_scc t) -> t_mark t l < t_mark t x -> ~ In x (opens (t_work t)).
Proof.
  intros x I L. destruct (leaving _ _ _ _ _ W Ew) as (Il & Rl & Nl & Lt & Ml). rewrite Ew. cbn [opens]. intros [->|O]; [lia|].
  specialize (Lt x O). lia.
Qed.

Lemma comp_parent : forall x, In x (t_scc t) -> t_mark t l < t_mark t x -> exists p, In p (t_scc t) /\ E p x /\ t_mark t p < t_mark t x /\
  t_mark t l <= t_mark t p /\ (p = l \/ t_mark t l < t_mark t p /\ forall rp rx, t_reach t p = Some rp -> t_reach t x = Some rx -> rp <= rx).
Proof.
  intros x I L. destruct (leaving _ _ _ _ _ W Ew) as (Il & Rl & Nl & Lt & Ml). pose proof (wk_base _ _ _ W) as C.
  assert (Nroot : x <> root).
  { intros ->. pose proof (wk_m0_le _ _ _ W l Il). destruct (wk_m0 _ _ _ W) as [M|(M & _)]; lia. }
  destruct (wk_parent _ _ _ W x I Nroot) as (p & P1 & P2 & P3 & P4 & P5). exists p. split; auto. split; auto. split; auto.
  assert (Lp : t_mark t l <= t_mark t p) by (apply P4; auto; rewrite Ew; now left). split; auto.
  destruct (Nat.eq_dec p l) as [->|Np]; auto. right.
  assert (Lp' : t_mark t l < t_mark t p).
  { destruct (Nat.eq_dec (t_mark t l) (t_mark t p)) as [Eq|]; [|lia]. exfalso. apply Np. symmetry. apply (cl_inj _ _ _ _ _ C); auto.
    apply (wk_scc _ _ _ W) in Il. tauto. }
  split; auto. destruct P5 as [P5|[_ P5]]; auto. now apply comp_closed in P5.
Qed.

Lemma comp_reach : forall x r, In x (t_scc t) -> t_mark t l <= t_mark t x -> t_reach t x = Some r -> t_mark t l <= r.
Proof.
  destruct (leaving _ _ _ _ _ W Ew) as (Il & Rl & Nl & Lt & Ml).
  assert (G : forall n x r, t_mark t x < n -> In x (t_scc t) -> t_mark t l <= t_mark t x -> t_reach t x = Some r -> t_mark t l <= r).
  { induction n as [|n IH]; intros x r Ln I L Rx; [lia|]. destruct (Nat.eq_dec (t_mark t l) (t_mark t x)) as [Eq|N].
    - assert (x = l). { symmetry. apply (cl_inj _ _ _ _ _ (wk_base _ _ _ W)); auto. apply (wk_scc _ _ _ W) in Il. tauto. }
      subst x. rewrite Rl in Rx. injection Rx as <-. auto.
    - destruct (comp_parent x I) as (p & P1 & P2 & P3 & P4 & P5); [lia|]. destruct P5 as [->|[P5 P6]]; [now apply (Low x)|].
      destruct (reach_mark _ _ _ p W P1) as (rp & _ & Rp & _). specialize (P6 rp r Rp Rx). specialize (IH p rp). assert (t_mark t l <= rp) by (apply IH; auto; lia). lia. }
  intros x r. apply (G (S (t_mark t x))). lia.
Qed.

Lemma comp_from : forall x, In x (t_scc t) -> t_mark t l <= t_mark t x -> R l x.
Proof.
  destruct (leaving _ _ _ _ _ W Ew) as (Il & Rl & Nl & Lt & Ml).
  assert (G : forall n x, t_mark t x < n -> In x (t_scc t) -> t_mark t l <= t_mark t x -> R l x).
  { induction n as [|n IH]; intros x Ln I L; [lia|]. destruct (Nat.eq_dec (t_mark t l) (t_mark t x)) as [Eq|N].
    - assert (x = l). { symmetry. apply (cl_inj _ _ _ _ _ (wk_base _ _ _ W)); auto. apply (wk_scc _ _ _ W) in Il. tauto. }
      subst x. constructor.
    - destruct (comp_parent x I) as (p & P1 & P2 & P3 & P4 & _); [lia|]. eapply implies_trans; [apply IH; [|exact P1|auto]; lia|now apply implies_one]. }
  intros x. apply (G (S (t_mark t x))). lia.
Qed.

Lemma comp_to : forall x, In x (t_scc t) -> t_mark t l <= t_mark t x -> R x l.
Proof.
  destruct (leaving _ _ _ _ _ W Ew) as (Il & Rl & Nl & Lt & Ml).
  assert (G : forall n x, t_mark t x < n -> In x (t_scc t) -> t_mark t l <= t_mark t x -> R x l).
  { induction n as [|n IH]; intros x Ln I L; [lia|]. destruct (Nat.eq_dec (t_mark t l) (t_mark t x)) as [Eq|N].
    - assert (x = l). { symmetry. apply (cl_inj _ _ _ _ _ (wk_base _ _ _ W)); auto. apply (wk_scc _ _ _ W) in Il. tauto. }
      subst x. constructor.
    - destruct (wk_closed _ _ _ W x I) as (y & r & A & B & D & F & H); [apply comp_closed; auto; lia|].
      pose proof (comp_reach x r I L A). eapply implies_trans; [exact H|]. apply IH; auto; lia. }
  intros x. apply (G (S (t_mark t x))). lia.
Qed.

Lemma comp_succ : forall x y, In x (t_scc t) -> t_mark t l <= t_mark t x -> E x y ->
  t_repr t y <> None \/ In y (t_scc t) /\ t_mark t l <= t_mark t y.
Proof.
  destruct (leaving _ _ _ _ _ W Ew) as (Il & Rl & Nl & Lt & Ml).
  intros x y I L Ey. destruct (Nat.eq_dec (t_mark t l) (t_mark t x)) as [Eq|N].
  - assert (x = l). { symmetry. apply (cl_inj _ _ _ _ _ (wk_base _ _ _ W)); auto. apply (wk_scc _ _ _ W) in Il. tauto. }
    subst x. destruct (marked_cases _ _ _ y W (Ml y Ey)) as [D|D]; auto. right. split; auto.
    destruct (reach_mark _ _ _ y W D) as (r & _ & A & B & _). specialize (Low y r Ey A). lia.
  - destruct (wk_low _ _ _ W x y I) as [D|[D G]]; auto; [apply comp_closed; auto; lia|]. right. split; auto.
    destruct (reach_mark _ _ _ x W I) as (r & _ & A & _). specialize (G r A). pose proof (comp_reach x r I L A). lia.
Qed.

Lemma done_implies : forall x y, R x y -> t_repr t x <> None -> t_repr t y <> None.
Proof. intros x y H. induction H as [|a b c H1 H2 IH]; intros N; auto. apply IH. eapply (cl_done _ _ _ _ _ (wk_base _ _ _ W)); eauto. Qed.

Lemma comp_implies : forall x y, R x y -> (t_repr t x <> None \/ In x (t_scc t) /\ t_mark t l <= t_mark t x) ->
  t_repr t y <> None \/ In y (t_scc t) /\ t_mark t l <= t_mark t y.
Proof.
  intros x y H. induction H as [|a b c H1 H2 IH]; intros N; auto. apply IH. destruct N as [N|[N L]].
  - left. eapply (cl_done _ _ _ _ _ (wk_base _ _ _ W)); eauto.
  - eapply comp_succ; eauto.
Qed.

Lemma comp_maximal : forall x y, In x (t_scc t) -> t_mark t l <= t_mark t x -> R x y -> R y x -> In y (t_scc t) /\ t_mark t l <= t_mark t y.
Proof.
  intros x y I L H K. destruct (comp_implies x y H) as [D|D]; auto. exfalso.
  apply (done_implies y x K) in D. apply (wk_scc _ _ _ W) in I. tauto.
Qed.

Lemma pop_component_spec : forall scc comp, In l scc -> falling (t_mark t) scc ->
  wp (pop_component l scc comp) (fun r => (forall x, In x (fst r) <-> In x comp \/ In x scc /\ t_mark t l <= t_mark t x) /\
    (forall x, In x (snd r) <-> In x scc /\ t_mark t x < t_mark t l) /\ falling (t_mark t) (snd r)).
Proof.
  induction scc as [|x scc IH]; intros comp I F; [destruct I|]. cbn [pop_component].
  pose proof (StronglySorted_inv F) as [F1 F2]. rewrite Forall_forall in F2.
  destruct (Nat.eqb_spec x l) as [->|N].
  - apply wp_ret. cbn [fst snd]. split; [|split; auto].
    + intros y. cbn [In]. split.
      * intros [->|Iy]; auto.
      * intros [Iy|[[->|Iy] L]]; auto. specialize (F2 y Iy). lia.
    + intros y. cbn [In]. split; [intros Iy; split; auto; now apply F2|]. intros [[->|Iy] L]; auto. lia.
  - destruct I as [->|I]; [contradiction|]. eapply wp_mono; [apply IH; auto|]. cbn beta. intros [c r] (A & B & D). cbn [fst snd] in *.
    specialize (F2 l I). split; [|split; auto].
    + intros y. rewrite A. cbn [In]. split; [intros [[->|Iy]|[Iy Ly]]; auto; right; split; auto; lia|]. intros [Iy|[[->|Iy] L]]; auto.
    + intros y. rewrite B. cbn [In]. split; [intros [Iy Ly]; auto|]. intros [[->|Iy] L]; auto. lia.
Qed.
End Component.

Lemma min_literal_le : forall comp l, min_literal l comp <= l /\ (forall x, In x comp -> min_literal l comp <= x) /\ (min_literal l comp = l \/ In (min_literal l comp) comp).
Proof.
  unfold min_literal. induction comp as [|x comp IH]; intros l; cbn [fold_left].
  - split; auto. split; [intros x []|auto].
  - destruct (IH (if x <? l then x else l)) as (A & B & C). destruct (Nat.ltb_spec x l).
    + split; [lia|]. split; [intros y [<-|I]; auto|]. destruct C as [->|C]; [right; now left|right; now right].
    + split; auto. split; [intros y [<-|I]; [lia|auto]|]. destruct C as [->|C]; [auto|right; now right].
Qed.

Lemma idx_le : forall a b, a <= b -> idx a <= idx b.
Proof. intros a b. destruct (lit_cases a) as [[k ->]|[k ->]]; destruct (lit_cases b) as [[j ->]|[j ->]]; rewrite ?idx_even, ?idx_odd; lia. Qed.

(** The representatives of a component; the component is given by a predicate. *)
Definition clashing (t : tarjan) : Prop := exists h us, t_units t = h :: us /\ act h /\ R h (neg h) /\ R (neg h) h.
Lemma set_representatives_spec : forall root m0 min (K : lit -> Prop) mark0 reach0 repr0 reached0,
  act root -> act min -> K min -> (forall x, K x -> R min x /\ R x min /\ min <= x) -> (forall y, R min y -> R y min -> K y) ->
  mark0 root = m0 -> (forall x, m0 <= mark0 x -> R root x) -> (forall x, K x -> m0 <= mark0 x) ->
  (forall x m, repr0 x = Some m -> R x m /\ R m x /\ forall y, R x y -> R y x -> repr0 y = Some m /\ m <= y) ->
  forall comp processed t, (forall x, K x <-> In x processed \/ In x comp) -> (forall x, In x processed -> ~ In (neg x) processed) ->
  t_mark t = mark0 -> t_reached t = reached0 -> t_clash t = false -> (forall u, In u (t_units t) -> justified u) ->
  (forall x, t_repr t x = if in_dec Nat.eq_dec x processed then Some min else repr0 x) ->
  (forall x, t_reach t x = if in_dec Nat.eq_dec x processed then None else reach0 x) ->
  wp (set_representatives root m0 min comp t) (fun t' =>
    t_mark t' = mark0 /\ t_reached t' = reached0 /\ t_scc t' = t_scc t /\ t_work t' = t_work t /\
    (forall u, In u (t_units t') -> justified u) /\ (exists v, t_units t' = v ++ t_units t) /\
    (t_clash t' = true /\ clashing t' \/ t_clash t' = false /\
      (forall x, K x -> ~ K (neg x) /\ t_repr t' x = Some min /\ t_reach t' x = None) /\
      (forall x, ~ K x -> t_repr t' x = repr0 x /\ t_reach t' x = reach0 x))).
Proof.
  intros root m0 min K mark0 reach0 repr0 reached0 Aroot Amin Kmin Hcomp Hmax Mroot Mr MK Hcl.
  induction comp as [|x comp IH]; intros processed t HK Hn Em Er Ec Hu Hrepr Hreach; cbn [set_representatives].
  - apply wp_ret. split; auto. split; auto. split; auto. split; auto. split; auto. split; [now exists []|]. right. split; auto. split.
    + intros x Kx. apply HK in Kx. destruct Kx as [Kx|[]]. split; [intros Kn; apply HK in Kn; destruct Kn as [Kn|[]]; now apply (Hn x)|]. rewrite Hrepr, Hreach. destruct (in_dec Nat.eq_dec x processed); tauto.
    + intros x Kx. rewrite Hrepr, Hreach. destruct (in_dec Nat.eq_dec x processed); auto. exfalso. apply Kx, HK. auto.
  - set (t1 := set_t_reach (upd (t_reach t) x None) (set_t_repr (upd (t_repr t) x (Some min)) t)).
    assert (Kx : K x) by (apply HK; right; now left).
    assert (HK' : forall y, K y <-> In y (x :: processed) \/ In y comp) by (intros y; rewrite HK; cbn [In]; tauto).
    assert (Hrepr1 : forall y, t_repr t1 y = if in_dec Nat.eq_dec y (x :: processed) then Some min else repr0 y).
    { intros y. unfold t1. cbn [t_repr set_t_reach set_t_repr]. unfold upd. destruct (Nat.eqb_spec y x) as [->|N].
      - destruct (in_dec Nat.eq_dec x (x :: processed)) as [|N]; auto. exfalso. apply N. now left.
      - rewrite Hrepr. destruct (in_dec Nat.eq_dec y processed), (in_dec Nat.eq_dec y (x :: processed)) as [I|I]; auto.
        + exfalso. apply I. now right.
        + destruct I; [congruence|contradiction]. }
    assert (Hreach1 : forall y, t_reach t1 y = if in_dec Nat.eq_dec y (x :: processed) then None else reach0 y).
    { intros y. unfold t1. cbn [t_reach set_t_reach set_t_repr]. unfold upd. destruct (Nat.eqb_spec y x) as [->|N].
      - destruct (in_dec Nat.eq_dec x (x :: processed)) as [|N]; auto. exfalso. apply N. now left.
      - rewrite Hreach. destruct (in_dec Nat.eq_dec y processed), (in_dec Nat.eq_dec y (x :: processed)) as [I|I]; auto.
        + exfalso. apply I. now right.
        + destruct I; [congruence|contradiction]. }
    assert (Sx : t_scc t1 = t_scc t /\ t_work t1 = t_work t /\ t_units t1 = t_units t) by auto. destruct Sx as (S1 & S2 & S3).
    destruct (Hcomp x Kx) as (C1 & C2 & C3).
    assert (Ax : act x) by (eapply implies_active; eauto).
    assert (Hn1 : t_repr t1 (neg x) <> Some min -> forall y, In y (x :: processed) -> ~ In (neg y) (x :: processed)).
    { intros Q y I J. assert (Nx : ~ In (neg x) (x :: processed)) by (intros G; apply Q; rewrite Hrepr1; destruct (in_dec Nat.eq_dec (neg x) (x :: processed)); tauto).
      destruct I as [<-|I]; [auto|]. destruct J as [J|J]; [|now apply (Hn y)]. apply Nx. rewrite J, neg_neg. now right. }
    destruct (t_repr t1 (neg x)) as [r|] eqn:Q; [|eapply wp_mono; [apply (IH (x :: processed) t1); auto; apply Hn1; discriminate|]; cbn beta; rewrite S1, S2, S3; auto].
    assert (Nmin : R (neg min) (neg x) /\ R (neg x) (neg min)) by (split; apply implies_contra; auto).
    assert (Eqr : min = r \/ neg min = r).
    { rewrite Hrepr1 in Q. destruct (in_dec Nat.eq_dec (neg x) (x :: processed)) as [I|I]; [left; congruence|].
      destruct (Hcl (neg x) r Q) as (D1 & D2 & D3). destruct Nmin as [N1 N2]. destruct (D3 (neg min) N2 N1) as [_ D4].
      assert (D5 : min <= neg r).
      { apply Hcomp. apply Hmax.
        - rewrite <- (neg_neg min). apply implies_contra; [eapply implies_active; eauto; now apply act_neg|]. eapply implies_trans; eauto.
        - rewrite <- (neg_neg min). apply implies_contra; [now apply act_neg|]. eapply implies_trans; eauto. }
      apply idx_le in D4, D5. rewrite idx_neg in D4, D5. assert (D6 : idx min = idx r) by lia. apply idx_eq in D6. destruct D6 as [-> | ->]; auto. right. apply neg_neg. }
    destruct (Nat.eqb_spec min r) as [<-|Nr].
    + apply wp_ret. cbn [t_mark t_reach t_repr t_reached t_scc t_work t_units t_clash set_t_clash set_t_units].
      assert (B : R min (neg min) /\ R (neg min) min).
      { assert (Kn : R (neg x) min /\ R min (neg x)).
        { rewrite Hrepr1 in Q. destruct (in_dec Nat.eq_dec (neg x) (x :: processed)) as [I|I].
          - assert (K (neg x)) by (apply HK'; auto). destruct (Hcomp _ H) as (? & ? & _). auto.
          - destruct (Hcl (neg x) min Q) as (? & ? & _). auto. }
        destruct Nmin as [N1 N2], Kn as [K1 K2]. split; eapply implies_trans; eauto. }
      assert (J : justified min) by (split; auto; exists min; destruct B; split; [auto|constructor]).
      split; auto. split; auto. split; auto. split; auto. split; [intros u [<-|I]; auto; apply Hu; auto|]. split; [exists [min]; reflexivity|].
      left. split; auto. exists min, (t_units t). cbn. destruct B. auto.
    + destruct Eqr as [Eqr|Eqr]; [contradiction|]. apply wp_bind, wp_assert; [now apply Nat.eqb_eq|].
      assert (Next : wp (set_representatives root m0 min comp t1) (fun t' : tarjan => t_mark t' = mark0 /\ t_reached t' = reached0 /\ t_scc t' = t_scc t /\ t_work t' = t_work t /\
        (forall u, In u (t_units t') -> justified u) /\ (exists v, t_units t' = v ++ t_units t) /\
        (t_clash t' = true /\ clashing t' \/ t_clash t' = false /\ (forall x, K x -> ~ K (neg x) /\ t_repr t' x = Some min /\ t_reach t' x = None) /\
        (forall x, ~ K x -> t_repr t' x = repr0 x /\ t_reach t' x = reach0 x)))).
      { eapply wp_mono; [apply (IH (x :: processed) t1); auto; apply Hn1; congruence|]; cbn beta; rewrite S1, S2, S3; auto. }
      destruct (t_failed t1); auto.
      assert (Mt : t_mark t1 = mark0) by auto. rewrite !Mt.
      apply wp_bind, wp_assert; [now apply Nat.eqb_eq|]. destruct (Nat.ltb_spec (mark0 (neg x)) m0) as [|Ge]; auto.
      assert (J : justified (neg root)). { split; [now apply act_neg|]. rewrite neg_neg. exists x. split; apply Mr; auto. }
      eapply wp_mono; [apply (IH (x :: processed) (set_t_failed true (set_t_units (neg root :: t_units t1) t1))); auto|].
      * apply Hn1; congruence.
      * cbn [t_units set_t_units set_t_failed]. intros u [<-|I]; auto.
      * cbn beta. intros t' (A1 & A2 & A3 & A4 & A5 & (v & A6) & A7). split; auto. split; auto. split; auto. split; auto. split; auto.
        split; auto. exists (v ++ [neg root]). rewrite A6. cbn [t_units set_t_units set_t_failed]. rewrite S3, <- app_assoc. reflexivity.
Qed.

Lemma leave_spec : forall root m0 t l work, walking root m0 t -> t_work t = Leave l :: work -> t_clash t = false ->
  wp (leave s root m0 l (set_t_work work t)) (fun t' => t_mark t' = t_mark t /\ t_work t' = work /\
    (t_clash t' = true /\ clashing t' /\ (forall u, In u (t_units t') -> justified u) \/ t_clash t' = false /\ walking root m0 t')).
Proof.
  intros root m0 t l work W Ew Ec. destruct (leaving _ _ _ _ _ W Ew) as (Il & Rl & Nl & Lt & Ml). pose proof (wk_base _ _ _ W) as C.
  unfold leave. cbn [t_mark t_reach t_repr t_scc set_t_work]. apply wp_bind, wp_assert; [rewrite Rl; now apply Nat.eqb_eq|].
  apply wp_bind, wp_assert; [apply (wk_scc _ _ _ W) in Il; destruct Il as [_ ->]; auto|].
  apply wp_bind. eapply wp_mono; [apply lowest_spec; exact Ml|]. cbn beta. intros low (L1 & L2 & L3).
  destruct (Nat.eqb_spec low (t_mark t l)) as [->|N]; cbn [negb].
  - assert (Low : forall y r, E l y -> t_reach t y = Some r -> t_mark t l <= r) by (intros; eauto).
    apply wp_bind. eapply wp_mono; [apply (pop_component_spec root m0 t l work Ew Low); [auto|exact (wk_sorted _ _ _ W)]|]. cbn beta. intros [comp scc] (P1 & P2 & P3). cbn [fst snd] in *.
    assert (P1' : forall x, In x comp <-> In x (t_scc t) /\ t_mark t l <= t_mark t x) by (intros x; rewrite P1; cbn [In]; tauto). clear P1.
    destruct (min_literal_le comp l) as (M1 & M2 & M3). set (min := min_literal l comp) in *.
    assert (Il' : In l comp) by (apply P1'; auto). assert (Imin : In min comp) by (destruct M3 as [->|]; auto).
    assert (Il0 : t_mark t l <> 0) by (apply (wk_scc _ _ _ W) in Il; tauto).
    assert (Lm0 : m0 <= t_mark t l) by (now apply (wk_m0_le _ _ _ W)).
    assert (Mutual : forall x y, In x comp -> In y comp -> R x y).
    { intros x y Ix Iy. apply P1' in Ix, Iy. eapply implies_trans; [eapply comp_to; eauto; tauto|eapply comp_from; eauto; tauto]. }
    assert (Act : forall x, In x comp -> act x) by (intros x I; apply P1' in I; apply (cl_active _ _ _ _ _ C); apply (wk_scc _ _ _ W); tauto).
    assert (Max : forall x y, In x comp -> R x y -> R y x -> In y comp).
    { intros x y Ix H K. apply P1' in Ix. apply P1'. destruct Ix; eapply (comp_maximal root m0 t l work W Ew Low x y); eauto. }
    assert (None_comp : forall x, In x comp -> t_repr t x = None) by (intros x I; apply P1' in I; destruct I as [I _]; apply (wk_scc _ _ _ W) in I; tauto).
    eapply wp_mono; [apply (set_representatives_spec root m0 min (fun x => In x comp) (t_mark t) (t_reach t) (t_repr t) (t_reached t)) with (processed := [])|].
    + exact (wk_root _ _ _ W).
    + auto.
    + auto.
    + intros x I. split; auto.
    + intros y H K. eapply Max; eauto.
    + destruct (wk_m0 _ _ _ W) as [M|(M & Sc & _)]; auto. now rewrite Sc in Il.
    + exact (wk_reachable _ _ _ W).
    + intros x I. apply P1' in I. lia.
    + exact (cl_class _ _ _ _ _ C).
    + intros x. cbn [In]. tauto.
    + intros x [].
    + reflexivity.
    + reflexivity.
    + exact Ec.
    + exact (cl_units _ _ _ _ _ C).
    + reflexivity.
    + reflexivity.
    + cbn beta. cbn [t_scc t_work t_units set_t_scc set_t_work]. intros t' (A1 & A2 & A3 & A4 & A5 & _ & A6). split; auto. split; auto.
      destruct A6 as [(A6 & A7)|(A6 & A7 & A8)]; auto. right. split; auto.
      assert (Dec : forall x, In x comp \/ ~ In x comp) by (intros x; destruct (in_dec Nat.eq_dec x comp); auto).
      assert (Rest : forall x, In x scc -> ~ In x comp) by (intros x I J; apply P2 in I; apply P1' in J; lia).
      assert (Orest : forall x, In x (opens work) -> In x scc).
      { intros x I. apply P2. split; auto. apply (wk_open _ _ _ W). rewrite Ew. now right. }
      assert (Closed : forall x, In x scc -> ~ In x (opens work) -> In x (t_scc t) /\ ~ In x (opens (t_work t))).
      { intros x I N. apply P2 in I. split; [tauto|]. rewrite Ew. cbn [opens]. intros [->|]; [lia|auto]. }
      constructor; unfold base; rewrite ?A1, ?A2, ?A3, ?A4.
      * constructor; [exact (cl_bound _ _ _ _ _ C)|exact (cl_inj _ _ _ _ _ C)| | | | |exact (cl_active _ _ _ _ _ C)|exact A5|].
        -- intros x Nx. destruct (Dec x) as [I|I]; [apply P1' in I; destruct I as [I _]; apply (wk_scc _ _ _ W) in I; tauto|].
           destruct (A8 x I) as [Q _]. rewrite Q in Nx. now apply (cl_marked _ _ _ _ _ C).
        -- intros x Nx. destruct (Dec x) as [I|I]; [now destruct (A7 x I)|]. destruct (A8 x I) as [Q ->]. rewrite Q in Nx. now apply (cl_reach _ _ _ _ _ C).
        -- intros x y Nx Ey. destruct (Dec y) as [Iy|Iy]; [destruct (A7 y Iy) as (_ & ? & _); congruence|]. destruct (A8 y Iy) as [-> _].
           destruct (Dec x) as [I|I].
           ++ apply P1' in I. destruct (comp_succ root m0 t l work W Ew Low x y) as [D|D]; try tauto. exfalso. apply Iy. now apply P1'.
           ++ destruct (A8 x I) as [Q _]. rewrite Q in Nx. now apply (cl_done _ _ _ _ _ C x y).
        -- intros x m Q. destruct (Dec x) as [I|I].
           ++ destruct (A7 x I) as (_ & Q' & _). rewrite Q' in Q. injection Q as <-. split; auto. split; auto. intros y H K.
              assert (Iy : In y comp) by (eapply Max; eauto). split; [now destruct (A7 y Iy)|auto].
           ++ destruct (A8 x I) as [Q' _]. rewrite Q' in Q. destruct (cl_class _ _ _ _ _ C x m Q) as (B1 & B2 & B3). split; auto. split; auto.
              intros y H K. destruct (B3 y H K) as [B4 B5]. split; auto. destruct (A8 y) as [-> _]; auto. intros J. apply None_comp in J. congruence.
        -- assert (Nmin : forall x, t_repr t x <> Some min).
           { intros x Q. destruct (cl_class _ _ _ _ _ C x min Q) as (B1 & B2 & B3). destruct (B3 min B1 B2) as [B4 _]. rewrite None_comp in B4; [discriminate|auto]. }
           intros x m Q Qn. destruct (Dec x) as [I|I].
           ++ destruct (A7 x I) as (Nn & Q' & _). rewrite Q' in Q. injection Q as <-. destruct (A8 (neg x) Nn) as [Q2 _]. rewrite Q2 in Qn. now apply Nmin in Qn.
           ++ destruct (A8 x I) as [Q' _]. rewrite Q' in Q. destruct (Dec (neg x)) as [J|J].
              ** destruct (A7 (neg x) J) as (_ & Q2 & _). rewrite Q2 in Qn. injection Qn as <-. now apply Nmin in Q.
              ** destruct (A8 (neg x) J) as [Q2 _]. rewrite Q2 in Qn. now apply (cl_neg _ _ _ _ _ C x m).
      * exact (wk_root _ _ _ W).
      * exact (wk_pos _ _ _ W).
      * destruct (wk_m0 _ _ _ W) as [M|(M & Sc & _)]; auto. now rewrite Sc in Il.
      * cbn [t_scc set_t_scc]. intros x. rewrite P2, (wk_scc _ _ _ W). destruct (Dec x) as [I|I].
        -- destruct (A7 x I) as (_ & -> & _). apply P1' in I. split; [intros [_ ?]; lia|intros [_ ?]; congruence].
        -- destruct (A8 x I) as [-> _]. split; [tauto|]. intros [H K]. split; auto. apply Nat.lt_nge. intros L. apply I, P1'. split; auto. now apply (wk_scc _ _ _ W).
      * cbn [t_scc set_t_scc]. intros x I. apply P2 in I. now apply (wk_m0_le _ _ _ W).
      * exact P3.
      * cbn [t_scc t_work set_t_scc set_t_work]. intros x I. split; auto. destruct (A8 x) as [_ ->]; [auto|]. apply (wk_open _ _ _ W). rewrite Ew. now right.
      * cbn [t_work set_t_scc set_t_work]. pose proof (wk_opens _ _ _ W) as F. rewrite Ew in F. cbn [opens] in F. now apply StronglySorted_inv in F.
      * cbn [t_scc t_work set_t_scc set_t_work]. intros x I N. destruct (Closed x I N) as [I' N'].
        destruct (wk_closed _ _ _ W x I' N') as (y & r & B1 & B2 & B3 & B4 & B5). exists y, r. destruct (A8 x) as [_ ->]; [auto|].
        split; auto. split; auto. split; auto. apply P2. split; auto. apply P2 in I. lia.
      * cbn [t_scc t_work set_t_scc set_t_work]. intros x y I N Ey. destruct (Closed x I N) as [I' N'].
        destruct (Dec y) as [Iy|Iy]; [left; destruct (A7 y Iy) as (_ & ? & _); congruence|]. destruct (A8 y Iy) as [-> _]. destruct (A8 x) as [_ ->]; [auto|].
        destruct (wk_low _ _ _ W x y I' N' Ey) as [D|[D D']]; auto. right. split; auto. apply P2. split; auto. apply Nat.lt_nge. intros L. apply Iy, P1'. auto.
      * cbn [t_scc t_work set_t_scc set_t_work]. intros x I Nr. pose proof (proj1 (P2 x) I) as [I' Lx].
        destruct (wk_parent _ _ _ W x I' Nr) as (p & Q1 & Q2 & Q3 & Q4 & Q5). exists p.
        assert (Ip : In p scc) by (apply P2; split; auto; lia). split; auto. split; auto. split; auto.
        rewrite Ew in Q4, Q5. cbn [opens] in Q4, Q5. split; [intros o Io; apply Q4; now right|].
        destruct Q5 as [[->|Q5]|[Q5 Q6]]; [lia|auto|]. right. split; [intros Ix; apply Q5; now right|].
        destruct (A8 x) as [_ ->]; [auto|]. destruct (A8 p) as [_ ->]; [auto|]. exact Q6.
      * cbn [t_work set_t_scc set_t_work]. intros w1 x w2 Eq. apply (wk_work _ _ _ W (Leave l :: w1) x w2). now rewrite Ew, Eq.
      * cbn [t_work set_t_scc set_t_work]. intros w1 x w2 Eq v Ev. destruct (wk_pending _ _ _ W (Leave l :: w1) x w2) with (y := v) as [H|[H|H]]; auto; [now rewrite Ew, Eq|discriminate].
      * exact (wk_reachable _ _ _ W).
  - apply wp_ret. cbn [t_mark t_work t_clash set_t_reach set_t_work]. split; auto. split; auto. right. split; auto.
    destruct L3 as [L3|(y & Iy & Ry)]; [contradiction|]. eapply close_walking; eauto. lia.
Qed.

(** ** Termination *)
Definition weight (mark : lit -> nat) (ls : list lit) : nat :=
  list_sum (map (fun l => if mark l =? 0 then 2 + length (successors s l) else 0) ls).
Definition potential (t : tarjan) : nat := weight (t_mark t) (seq 0 (2 * vars s)) + length (t_work t).

Lemma weight_other : forall mark x m ls, ~ In x ls -> weight (upd mark x m) ls = weight mark ls.
Proof.
  intros mark x m ls N. unfold weight. f_equal. apply map_ext_in. intros a I. unfold upd. destruct (Nat.eqb_spec a x) as [->|]; [contradiction|auto].
Qed.
Lemma weight_cons : forall mark a ls, weight mark (a :: ls) = (if mark a =? 0 then 2 + length (successors s a) else 0) + weight mark ls.
Proof. reflexivity. Qed.
Lemma weight_mark : forall mark x m ls, NoDup ls -> In x ls -> mark x = 0 -> m <> 0 ->
  weight (upd mark x m) ls + (2 + length (successors s x)) = weight mark ls.
Proof.
  intros mark x m ls. induction ls as [|a ls IH]; intros N I Z M; [destruct I|]. apply NoDup_cons_iff in N. destruct N as [N1 N2].
  rewrite !weight_cons. destruct I as [->|I].
  - rewrite weight_other by auto. unfold upd at 1. rewrite Nat.eqb_refl. apply Nat.eqb_neq in M. rewrite M, Z. cbn [Nat.eqb]. lia.
  - unfold upd at 1. destruct (Nat.eqb_spec a x) as [->|]; [contradiction|]. specialize (IH N2 I Z M). lia.
Qed.
Lemma filter_le : forall A (f : A -> bool) l, length (filter f l) <= length l.
Proof. induction l as [|a l IH]; cbn; auto. destruct (f a); cbn; lia. Qed.

(** Between two roots nothing is on the stack. *)
Record resting (t : tarjan) : Prop := {
  rs_base : base t;
  rs_scc : t_scc t = [];
  rs_work : t_work t = [];
  rs_clash : t_clash t = false;
  rs_all : forall x, t_mark t x <> 0 -> t_repr t x <> None }.
Definition stopped (t : tarjan) : Prop := t_clash t = true /\ clashing t /\ forall u, In u (t_units t) -> justified u.

Lemma walking_end : forall root m0 t, walking root m0 t -> t_work t = [] -> t_clash t = false -> resting t.
Proof.
  intros root m0 t W Ew Ec.
  assert (N : forall n x, t_mark t x < n -> ~ In x (t_scc t)).
  { induction n as [|n IH]; intros x L I; [lia|]. destruct (wk_closed _ _ _ W x I) as (y & r & _ & A & B & D & _); [rewrite Ew; intros []|].
    apply (IH y); auto. lia. }
  assert (Sc : t_scc t = []). { destruct (t_scc t) as [|x l] eqn:Q; auto. exfalso. apply (N (S (t_mark t x)) x); [lia|now left]. }
  constructor; auto; [exact (wk_base _ _ _ W)|]. intros x M Q. assert (I : In x (t_scc t)) by (apply (wk_scc _ _ _ W); auto). now rewrite Sc in I.
Qed.

Lemma walk_spec : forall fuel root m0 t, walking root m0 t -> t_clash t = false -> potential t <= fuel ->
  wp (walk_implications fuel s root m0 t) (fun t' => stopped t' \/ resting t' /\
    (forall x, t_mark t x <> 0 -> t_mark t' x <> 0) /\ (In (Enter root) (t_work t) -> t_mark t' root <> 0)).
Proof.
  induction fuel as [|fuel IH]; intros root m0 t W Ec P; cbn [walk_implications]; rewrite Ec.
  - unfold potential in P. assert (Q : t_work t = []) by (destruct (t_work t); cbn in P; [auto|lia]). rewrite Q. apply wp_ret. right. split; [eapply walking_end; eauto|]. split; [auto|intros []].
  - destruct (t_work t) as [|[x|x] work] eqn:Q.
    + apply wp_ret. right. split; [eapply walking_end; eauto|]. split; [auto|intros []].
    + destruct (Nat.eqb_spec (t_mark t x) 0) as [Z|Z].
      * pose proof (enter_walking root m0 t x work W Q Z) as W'.
        destruct (wk_work _ _ _ W [] x work Q) as ([_ Rx] & _).
        assert (P' : potential (enter s x work t) <= fuel).
        { unfold potential, enter. cbn [t_mark t_work set_t_work set_t_reach set_t_mark set_t_reached set_t_scc]. unfold potential in P. rewrite Q in P.
          assert (Wx := weight_mark (t_mark t) x (S (t_reached t)) (seq 0 (2 * vars s)) (seq_NoDup _ _)). rewrite app_length, map_length, rev_length. cbn [length] in *.
          pose proof (filter_le _ (fun other => upd (t_mark t) x (S (t_reached t)) other =? 0) (successors s x)).
          assert (In x (seq 0 (2 * vars s))) by (apply in_seq; lia). specialize (Wx H0 Z (Nat.neq_succ_0 _)). lia. }
        eapply wp_mono; [apply (IH root m0 _ W'); auto|]. cbn beta. intros t' [St|(Rs & A & B)]; auto. right. split; auto.
        unfold enter in A, B. cbn [t_mark t_work set_t_work set_t_reach set_t_mark set_t_reached set_t_scc] in A, B.
        assert (Mx : t_mark t' x <> 0) by (apply A; unfold upd; rewrite Nat.eqb_refl; auto). split.
        { intros y M. apply A. unfold upd. destruct (y =? x); auto. }
        { intros [H|H]; [injection H as ->; auto|]. apply B. apply in_or_app. right. now right. }
      * pose proof (skip_walking root m0 t x work W Q Z) as W'. eapply wp_mono; [apply (IH root m0 _ W'); auto; unfold potential in *; rewrite Q in P; cbn [t_mark t_work set_t_work length] in *; lia|].
        cbn beta. intros t' [St|(Rs & A & B)]; auto. right. split; auto. cbn [t_mark t_work set_t_work] in A, B. split; auto. intros [H|H]; auto. injection H as ->. auto.
    + apply wp_bind. eapply wp_mono; [apply leave_spec; eauto|]. cbn beta. intros t1 (M1 & Wk1 & D). destruct D as [(D1 & D2 & D3)|(D1 & D2)].
      * destruct fuel; cbn [walk_implications]; rewrite D1; apply wp_ret; left; split; auto.
      * eapply wp_mono; [apply (IH root m0 _ D2); auto; unfold potential in *; rewrite Q in P; rewrite M1, Wk1; cbn [length] in P; lia|].
        cbn beta. rewrite M1, Wk1. intros t' [St|(Rs & A & B)]; auto. right. split; auto. split; auto. intros [H|H]; [discriminate|auto].
Qed.

Lemma start_walking : forall root t, resting t -> act root -> t_mark t root = 0 ->
  walking root (S (t_reached t)) (set_t_failed false (set_t_work [Enter root] t)).
Proof.
  intros root t [R1 R2 R3 R4 R5] A M. pose proof (cl_bound _ _ _ _ _ R1) as Bd.
  constructor; unfold base; cbn [t_mark t_reach t_repr t_reached t_scc t_work t_units set_t_work set_t_failed opens]; rewrite ?R2; auto.
  all: try (now intros x []). all: try (now constructor).
  - intros x. cbn [In]. split; [intros []|]. intros [H K]. now apply R5 in H.
  - intros w1 x w2 Eq. destruct w1 as [|i w1]; [injection Eq as <- <-; auto|]. injection Eq as _ Eq. symmetry in Eq. apply app_eq_nil in Eq. destruct Eq. discriminate.
  - intros w1 x w2 Eq. destruct w1 as [|i w1]; [discriminate|]. injection Eq as _ Eq. symmetry in Eq. apply app_eq_nil in Eq. destruct Eq. discriminate.
  - intros x L. specialize (Bd x). lia.
Qed.

Lemma all_components_spec : forall roots t, resting t -> (forall r, In r roots -> r < 2 * vars s) ->
  wp (all_components s roots t) (fun t' => stopped t' \/ resting t' /\
    (forall x, t_mark t x <> 0 -> t_mark t' x <> 0) /\ forall x, In x roots -> is_active s (idx x) = true -> t_mark t' x <> 0).
Proof.
  induction roots as [|root roots IH]; intros t Rs Hr; cbn [all_components].
  - apply wp_ret. right. split; [exact Rs|]. split; [auto|intros x []].
  - rewrite (rs_clash _ Rs). assert (Hr' : forall r, In r roots -> r < 2 * vars s) by (intros; apply Hr; now right).
    destruct (Nat.eqb_spec (t_mark t root) 0) as [Z|Z]; cbn [negb].
    + destruct (is_active s (idx root)) eqn:Ac; cbn [negb].
      * assert (A : act root) by (split; [auto|apply Hr; now left]).
        apply wp_bind, wp_assert; [now rewrite (rs_scc _ Rs), (rs_work _ Rs)|]. apply wp_bind.
        pose proof (start_walking root t Rs A Z) as W.
        eapply wp_mono; [apply (walk_spec _ _ _ _ W); [exact (rs_clash _ Rs)|]|].
        { unfold potential, walk_fuel. cbn [t_mark t_work set_t_work set_t_failed length].
          assert (Le : weight (t_mark t) (seq 0 (2 * vars s)) <= list_sum (map (fun l => 2 + length (successors s l)) (seq 0 (2 * vars s)))).
          { generalize (seq 0 (2 * vars s)). intros ls. induction ls as [|a ls IHl]; [apply le_n|]. rewrite weight_cons.
            change (map (fun l => 2 + length (successors s l)) (a :: ls)) with ((2 + length (successors s a)) :: map (fun l => 2 + length (successors s l)) ls).
            change (list_sum ((2 + length (successors s a)) :: map (fun l => 2 + length (successors s l)) ls)) with ((2 + length (successors s a)) + list_sum (map (fun l => 2 + length (successors s l)) ls)).
            destruct (t_mark t a =? 0); lia. }
          lia. }
        cbn beta. cbn [t_mark t_work set_t_work set_t_failed]. intros t1 [St|(Rs1 & A1 & B1)].
        { pose proof (proj1 St) as Sc. destruct roots; cbn [all_components]; [|rewrite Sc]; apply wp_ret; left; exact St. }
        { eapply wp_mono; [apply (IH t1 Rs1 Hr')|]. cbn beta. intros t' [St|(Rs2 & A2 & B2)]; auto. right. split; auto. split; auto.
          intros x [<-|I] Ax; auto. apply A2, B1. now left. }
      * eapply wp_mono; [apply (IH t Rs Hr')|]. cbn beta. intros t' [St|(Rs2 & A2 & B2)]; auto. right. split; auto. split; auto.
        intros x [<-|I] Ax; [congruence|auto].
    + eapply wp_mono; [apply (IH t Rs Hr')|]. cbn beta. intros t' [St|(Rs2 & A2 & B2)]; auto. right. split; auto. split; auto.
      intros x [<-|I] Ax; auto.
Qed.

Lemma no_components_resting : resting no_components.
Proof. constructor; auto. constructor; cbn; try congruence; auto; intros; contradiction. Qed.

(** Representatives respect negation. *)
Lemma components_neg : forall t, resting t -> (forall x, t_repr t x <> None <-> act x) ->
  forall x m, t_repr t x = Some m -> t_repr t (neg x) = Some (neg m).
Proof.
  intros t Rs Ha x m Q. pose proof (rs_base _ Rs) as C. assert (Ax : act x) by (apply Ha; congruence). assert (An := act_neg x Ax).
  destruct (cl_class _ _ _ _ _ C x m Q) as (H1 & H2 & H3). destruct (t_repr t (neg x)) as [r|] eqn:Qn; [|exfalso; now apply (proj2 (Ha (neg x)) An)].
  destruct (cl_class _ _ _ _ _ C (neg x) r Qn) as (K1 & K2 & K3). assert (Am : act m) by (eapply implies_active; eauto). assert (Ar : act r) by (eapply implies_active; eauto).
  destruct (K3 (neg m)) as [_ L1]; [apply implies_contra; auto|apply implies_contra; auto|].
  destruct (H3 (neg r)) as [_ L2]; [rewrite <- (neg_neg x); apply implies_contra; auto|rewrite <- (neg_neg x); apply implies_contra; auto|].
  apply idx_le in L1, L2. rewrite idx_neg in L1, L2.
  assert (D6 : idx m = idx r) by lia. apply idx_eq in D6. destruct D6 as [-> | ->]; [|now rewrite neg_neg].
  exfalso. now apply (cl_neg _ _ _ _ _ C x r).
Qed.

(** The outcome of the whole search for components: either a literal equivalent to its negation is found, or every active
    literal gets as representative the smallest literal equivalent to it. *)
Lemma components_spec : wp (all_components s (seq 0 (2 * vars s)) no_components) (fun t =>
  (forall u, In u (t_units t) -> justified u) /\
  (t_clash t = true /\ clashing t \/ t_clash t = false /\
    (forall x, t_repr t x <> None <-> act x) /\
    (forall x m, t_repr t x = Some m -> equivalent s x m /\ forall y, equivalent s x y -> t_repr t y = Some m /\ m <= y) /\
    (forall x m, t_repr t x = Some m -> t_repr t (neg x) = Some (neg m)))).
Proof.
  eapply wp_mono; [apply (all_components_spec _ _ no_components_resting); intros r I; apply in_seq in I; lia|].
  cbn beta. intros t [(St1 & St2 & St3)|(Rs & _ & A)]; [split; auto|].
  pose proof (rs_base _ Rs) as C. split; [exact (cl_units _ _ _ _ _ C)|]. right. split; [exact (rs_clash _ Rs)|].
  assert (Ha : forall x, t_repr t x <> None <-> act x).
  { intros x. split.
    + intros N. apply (cl_active _ _ _ _ _ C). now apply (cl_marked _ _ _ _ _ C).
    + intros [Ax Lx]. apply (rs_all _ Rs). apply A; auto. apply in_seq. lia. }
  split; auto. split; [|now apply components_neg].
  intros x m Q. destruct (cl_class _ _ _ _ _ C x m Q) as (B1 & B2 & B3). split; [split; auto|]. intros y [H K]. auto.
Qed.

End Tarjan.
