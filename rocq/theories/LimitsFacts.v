(** Facts about limits and termination requests. *)
From Coq Require Import ZArith NArith List Bool Lia Arith.
From Coq Require Import ZifyBool ZifyNat ZifyN.
From Verif Require Import Base Hoare SpecSat Lit Solver Analyze Search Api Inv PropLoop OneLit AssignSpec SearchFacts Levels Limits SpecLimits.
Import ListNotations.
Open Scope nat_scope.
Open Scope outcome_scope.

Definition asked (t : turn) (k : control) : control := if t_request t then set k Terminate else k.

(** What one iteration does to the counters. *)
Definition counted (k : control) (e : event) : control :=
  match e with EConflict n => count_conflicts n k | EDecision => count_decision k | _ => k end.

Lemma limited_step_inv : forall o t k s p k' e, limited_step o t k s = Ret (p, k', e) ->
  k' = counted (asked t k) e /\
  (exists ch, search_step o ch s = Ret p) /\
  (e = EDecision -> k_flagged (asked t k) = false /\ conflict_limit_hit (asked t k) = false /\ decision_limit_hit (asked t k) = false) /\
  (e = ETask -> k_flagged (asked t k) = false) /\
  (forall s1, p = Done (RStopped s1) -> k_flagged (asked t k) = true \/ conflict_limit_hit (asked t k) = true \/ decision_limit_hit (asked t k) = true) /\
  (forall s1, p = Done (RStopped s1) -> e = EEnd) /\
  (forall s1, p = Done (RIgnored s1) -> e = ETask).
Proof.
  intros o t k s p k' e H. unfold limited_step in H. fold (asked t k) in H. generalize dependent (asked t k). clear k. intros k H.
  destruct (search_propagate o s) as [[s1 [c|]]| | |] eqn:Ep; try discriminate; cbn [obind] in H.
  - destruct (analyze (analyze_fuel s1) o c s1) as [[go s2]| | |] eqn:Ea; try discriminate; cbn [obind] in H. inversion H; subst; clear H.
    split; [reflexivity|]. split; [exists ChStop; unfold search_step; rewrite Ep; cbn [obind]; now rewrite Ea|].
    destruct go; splits; try discriminate; intros; discriminate.
  - destruct (iterating s1) eqn:Ei.
    { inversion H; subst; clear H. split; [reflexivity|]. split; [exists ChStop; unfold search_step; rewrite Ep; cbn [obind]; now rewrite Ei|].
      splits; try discriminate; intros; discriminate. }
    destruct (unassigned s1 =? 0) eqn:Eu.
    { inversion H; subst; clear H. split; [reflexivity|]. split; [exists ChStop; unfold search_step; rewrite Ep; cbn [obind]; now rewrite Ei, Eu|].
      splits; try discriminate; intros; discriminate. }
    destruct (k_flagged k) eqn:Ef.
    { inversion H; subst; clear H. split; [reflexivity|]. split; [exists ChStop; unfold search_step; rewrite Ep; cbn [obind]; now rewrite Ei, Eu|].
      splits; try discriminate; auto. }
    destruct (t_task t) as [j|].
    { destruct (do_task o j s1) as [p1| | |] eqn:Ej; try discriminate; cbn [obind] in H. inversion H; subst; clear H. split; [reflexivity|]. split.
      - exists (match j with DoReduce r bb => ChReduce r bb | DoRestart l => ChRestart l | DoRephase => ChRephase | DoHeuristics => ChHeuristics end).
        unfold search_step; rewrite Ep; cbn [obind]; rewrite Ei, Eu. destruct j; exact Ej.
      - assert (N : forall s2, p <> Done (RStopped s2)).
        { intros s2 ->. destruct j; cbn [do_task] in Ej.
          - destruct (reduce _ _ _ _) as [[[] ?]| | |]; cbn in Ej; try discriminate; inversion Ej.
          - destruct (possible _); cbn in Ej; try discriminate. destruct (backtrack_in_consistent_state _ _); cbn in Ej; try discriminate; inversion Ej.
          - destruct (flush_to_root _ _) as [[[] ?]| | |]; cbn in Ej; try discriminate; inversion Ej.
          - inversion Ej. }
        splits; auto; try discriminate; intros s2 E; now destruct (N s2). }
    destruct (conflict_limit_hit k) eqn:Ec.
    { inversion H; subst; clear H. split; [reflexivity|]. split; [exists ChStop; unfold search_step; rewrite Ep; cbn [obind]; now rewrite Ei, Eu|].
      splits; try discriminate; auto. }
    destruct (decision_limit_hit k) eqn:Ed.
    { inversion H; subst; clear H. split; [reflexivity|]. split; [exists ChStop; unfold search_step; rewrite Ep; cbn [obind]; now rewrite Ei, Eu|].
      splits; try discriminate; auto. }
    destruct (possible _) as [[]| | |] eqn:Eq; try discriminate; cbn [obind] in H. destruct (decide (t_decision t) s1) as [s2| | |] eqn:Es; try discriminate; cbn [obind] in H.
    inversion H; subst; clear H. split; [reflexivity|]. split.
    { exists (ChDecide (t_decision t)). unfold search_step; rewrite Ep; cbn [obind]; rewrite Ei, Eu, Eq. cbn [obind]. now rewrite Es. }
    splits; auto; intros; discriminate.
Qed.

(** ** The loop *)
Lemma loop_search : forall n o turns k s r k' es, limited_loop n o turns k s = Ret (Some r, k', es) -> exists choices, search_loop n o choices s = Ret r.
Proof.
  induction n as [|n IH]; intros o turns k s r k' es H; [discriminate|]. cbn [limited_loop] in H.
  destruct (limited_step o (turns 0) k s) as [[[[s1|r1] k1] e]| | |] eqn:E; try discriminate; cbn [obind] in H;
    apply limited_step_inv in E; destruct E as (_ & (ch & Ch) & _).
  - destruct (limited_loop n o _ k1 s1) as [[[r2 k2] es2]| | |] eqn:El; try discriminate. cbn [obind] in H. inversion H; subst; clear H.
    apply IH in El. destruct El as (choices & El). exists (fun i => match i with O => ch | S i => choices i end). cbn [search_loop]. now rewrite Ch.
  - inversion H; subst. exists (fun _ => ch). cbn [search_loop]. now rewrite Ch.
Qed.

(** The control before iteration [i], given what happened before. *)
Lemma loop_prefix : forall n o turns k s r k' es1 e es2, limited_loop n o turns k s = Ret (r, k', es1 ++ e :: es2) ->
  exists k1, k_conflicts k1 = (k_conflicts k + conflicts_in es1)%N /\ k_decisions k1 = (k_decisions k + decisions_in es1)%N /\
    k_conflict_limit k1 = k_conflict_limit k /\ k_decision_limit k1 = k_decision_limit k /\
    k_flagged k1 = k_flagged k || existsb (fun i => t_request (turns i)) (seq 0 (S (length es1))) /\
    (e = EDecision -> k_flagged k1 = false /\ conflict_limit_hit k1 = false /\ decision_limit_hit k1 = false) /\
    (e = ETask -> k_flagged k1 = false).
Proof.
  intros n. induction n as [|n IH]; intros o turns k s r k' es1 e es2 H; [destruct es1; discriminate|]. cbn [limited_loop] in H.
  destruct (limited_step o (turns 0) k s) as [[[[s1|r1] k1] e1]| | |] eqn:E; try discriminate; cbn [obind] in H;
    apply limited_step_inv in E; destruct E as (K & _ & De & Ta & _).
  - destruct (limited_loop n o _ k1 s1) as [[[r2 k2] es3]| | |] eqn:El; try discriminate. cbn [obind] in H. injection H as -> -> E.
    destruct es1 as [|e1' es1]; cbn [app] in E; injection E as -> E.
    + exists (asked (turns 0) k). cbn [conflicts_in decisions_in length seq existsb]. rewrite orb_false_r, !N.add_0_r.
      splits; auto; try apply De; auto; unfold asked; destruct (t_request (turns 0)); cbn; auto; now rewrite ?orb_true_r, ?orb_false_r.
    + subst es3. apply IH in El. destruct El as (k3 & A & B & C & D & F & G & J). exists k3. subst k1.
      assert (Q : existsb (fun i => t_request (turns i)) (seq 0 (S (length (e1' :: es1)))) = t_request (turns 0) || existsb (fun i => t_request (turns (S i))) (seq 0 (S (length es1)))).
      { cbn [length]. rewrite <- cons_seq. cbn [existsb]. f_equal. rewrite <- seq_shift. generalize (seq 0 (S (length es1))). clear.
        intros l. induction l as [|x l IH]; cbn; auto. now rewrite IH. }
      rewrite Q. clear Q.
      splits; auto.
      * rewrite A. destruct e1'; cbn [counted conflicts_in]; unfold asked; destruct (t_request (turns 0)); cbn [k_conflicts k_decisions k_conflict_limit k_decision_limit count_conflicts count_decision set counted conflicts_in decisions_in]; lia.
      * rewrite B. destruct e1'; cbn [counted decisions_in]; unfold asked; destruct (t_request (turns 0)); cbn [k_conflicts k_decisions k_conflict_limit k_decision_limit count_conflicts count_decision set counted conflicts_in decisions_in]; lia.
      * rewrite C. destruct e1'; cbn [counted]; unfold asked; destruct (t_request (turns 0)); cbn; auto.
      * rewrite D. destruct e1'; cbn [counted]; unfold asked; destruct (t_request (turns 0)); cbn; auto.
      * rewrite F, orb_assoc. f_equal. destruct e1'; cbn [counted]; unfold asked; destruct (t_request (turns 0)); cbn; now rewrite ?orb_true_r, ?orb_false_r.
  - injection H as <- <- E. destruct es1 as [|? [|? ?]]; [|discriminate|discriminate]. cbn [app] in E. injection E as -> <-.
    exists (asked (turns 0) k). cbn [conflicts_in decisions_in length seq existsb]. rewrite orb_false_r, !N.add_0_r.
    splits; auto; try apply De; auto; unfold asked; destruct (t_request (turns 0)); cbn; auto; now rewrite ?orb_true_r, ?orb_false_r.
Qed.

(** Why the search was stopped. *)
Lemma loop_stopped : forall n o turns k s s' k' es, limited_loop n o turns k s = Ret (Some (RStopped s'), k', es) ->
  k_flagged k = true \/ (exists i, i < length es /\ t_request (turns i) = true) \/
  (exists m, k_conflict_limit k = Some m /\ (m <= k_conflicts k + conflicts_in es)%N) \/
  (exists m, k_decision_limit k = Some m /\ (m <= k_decisions k + decisions_in es)%N).
Proof.
  intros n. induction n as [|n IH]; intros o turns k s s' k' es H; [discriminate|]. cbn [limited_loop] in H.
  destruct (limited_step o (turns 0) k s) as [[[[s1|r1] k1] e1]| | |] eqn:E; try discriminate; cbn [obind] in H;
    apply limited_step_inv in E; destruct E as (K & _ & _ & _ & St & En & _).
  - destruct (limited_loop n o _ k1 s1) as [[[r2 k2] es3]| | |] eqn:El; try discriminate. cbn [obind] in H. injection H as -> -> <-.
    apply IH in El. subst k1. destruct El as [F|[(i & L & R)|[(m & M & C)|(m & M & C)]]].
    + unfold asked in F. destruct (t_request (turns 0)) eqn:R; [right; left; exists 0; cbn; split; auto; lia|].
      left. destruct e1; auto.
    + right. left. exists (S i). cbn. split; auto. lia.
    + right. right. left. exists m. unfold asked in *. destruct e1, (t_request (turns 0)); cbn [k_conflicts k_decisions k_conflict_limit k_decision_limit count_conflicts count_decision set counted conflicts_in decisions_in] in *; split; auto; lia.
    + right. right. right. exists m. unfold asked in *. destruct e1, (t_request (turns 0)); cbn [k_conflicts k_decisions k_conflict_limit k_decision_limit count_conflicts count_decision set counted conflicts_in decisions_in] in *; split; auto; lia.
  - injection H as -> -> <-. rewrite (En s' eq_refl) in *. cbn [conflicts_in decisions_in length]. rewrite !N.add_0_r.
    assert (A : k_conflict_limit (asked (turns 0) k) = k_conflict_limit k /\ k_decision_limit (asked (turns 0) k) = k_decision_limit k /\
      k_conflicts (asked (turns 0) k) = k_conflicts k /\ k_decisions (asked (turns 0) k) = k_decisions k /\
      (k_flagged (asked (turns 0) k) = true -> k_flagged k = true \/ t_request (turns 0) = true)).
    { unfold asked. destruct (t_request (turns 0)); cbn; splits; auto. }
    destruct A as (A1 & A2 & A3 & A4 & A5). destruct (St s' eq_refl) as [F|[C|C]].
    + destruct (A5 F); auto. right. left. exists 0. split; auto.
    + right. right. left. unfold conflict_limit_hit in C. rewrite A1, A3 in C. destruct (k_conflict_limit k) as [m|]; [|discriminate]. exists m. split; auto. lia.
    + right. right. right. unfold decision_limit_hit in C. rewrite A2, A4 in C. destruct (k_decision_limit k) as [m|]; [|discriminate]. exists m. split; auto. lia.
Qed.

(** ** Independence of the limits *)
(** The environment without requests. *)
Definition quiet (t : turn) : turn := mk_turn false (t_task t) (t_decision t).
(** The same counters without limits and callback. *)
Definition unlimited (k : control) : control := mk_control (k_conflicts k) (k_decisions k) None None false None.

Lemma limited_step_unlimited : forall o t k s p k' e, limited_step o t k s = Ret (p, k', e) -> (forall s1, p <> Done (RStopped s1)) ->
  limited_step o (quiet t) (unlimited k) s = Ret (p, unlimited k', e).
Proof.
  intros o t k s p k' e H N. unfold limited_step in *. cbn [quiet t_request t_task t_decision].
  assert (U : forall b, unlimited (if b : bool then set k Terminate else k) = unlimited k) by (intros []; reflexivity).
  destruct (search_propagate o s) as [[s1 [c|]]| | |]; try discriminate; cbn [obind] in *.
  - destruct (analyze (analyze_fuel s1) o c s1) as [[go s2]| | |]; try discriminate; cbn [obind] in *. inversion H; subst; clear H.
    now rewrite <- (U (t_request t)).
  - destruct (iterating s1); [inversion H; subst; now rewrite U|]. destruct (unassigned s1 =? 0); [inversion H; subst; now rewrite U|].
    destruct (k_flagged (if t_request t then _ else _)); [inversion H; subst; now destruct (N s1)|]. cbn [k_flagged unlimited].
    destruct (t_task t) as [j|].
    + destruct (do_task o j s1); try discriminate; cbn [obind] in *. inversion H; subst; now rewrite U.
    + destruct (conflict_limit_hit _); [inversion H; subst; now destruct (N s1)|]. destruct (decision_limit_hit _); [inversion H; subst; now destruct (N s1)|].
      cbn [conflict_limit_hit decision_limit_hit k_conflict_limit k_decision_limit unlimited].
      destruct (possible _); try discriminate; cbn [obind] in *. destruct (decide _ s1); try discriminate; cbn [obind] in *. inversion H; subst.
      now rewrite <- (U (t_request t)).
Qed.
Lemma loop_unlimited : forall n o turns k s r k' es, limited_loop n o turns k s = Ret (Some r, k', es) -> (forall s1, r <> RStopped s1) ->
  limited_loop n o (fun i => quiet (turns i)) (unlimited k) s = Ret (Some r, unlimited k', es).
Proof.
  intros n. induction n as [|n IH]; intros o turns k s r k' es H N; [discriminate|]. cbn [limited_loop] in *.
  destruct (limited_step o (turns 0) k s) as [[[[s1|r1] k1] e1]| | |] eqn:E; try discriminate; cbn [obind] in H.
  - rewrite (limited_step_unlimited _ _ _ _ _ _ _ E) by discriminate. cbn [obind].
    destruct (limited_loop n o _ k1 s1) as [[[r2 k2] es3]| | |] eqn:El; try discriminate. cbn [obind] in H. inversion H; subst; clear H.
    now rewrite (IH _ _ _ _ _ _ _ El N).
  - inversion H; subst; clear H. rewrite (limited_step_unlimited _ _ _ _ _ _ _ E); [reflexivity|]. intros s1 F. inversion F. now destruct (N s1).
Qed.

(** Conversely, limits which are not reached do not matter. *)
Definition enough (k : control) (es : list event) : Prop :=
  (forall m, k_conflict_limit k = Some m -> k_conflicts k + conflicts_in es < m)%N /\
  (forall m, k_decision_limit k = Some m -> k_decisions k + decisions_in es <= m)%N.
Lemma limited_step_enough : forall o t k s p k' e, limited_step o (quiet t) (unlimited k) s = Ret (p, k', e) -> t_request t = false ->
  k_flagged k = false -> (forall m, k_conflict_limit k = Some m -> k_conflicts k < m)%N -> (e = EDecision -> forall m, k_decision_limit k = Some m -> k_decisions k < m)%N ->
  (forall s1, p <> Done (RStopped s1)) ->
  limited_step o t k s = Ret (p, counted k e, e).
Proof.
  intros o t k s p k' e H R F C D N. unfold limited_step in *. cbn [quiet t_request t_task t_decision] in H. rewrite R.
  destruct (search_propagate o s) as [[s1 [c|]]| | |]; try discriminate; cbn [obind] in *.
  - destruct (analyze (analyze_fuel s1) o c s1) as [[go s2]| | |]; try discriminate; cbn [obind] in *. now inversion H; subst; clear H.
  - destruct (iterating s1); [now inversion H; subst|]. destruct (unassigned s1 =? 0); [now inversion H; subst|].
    rewrite F. cbn [k_flagged unlimited] in H. destruct (t_task t) as [j|].
    + destruct (do_task o j s1); try discriminate; cbn [obind] in *. now inversion H; subst.
    + cbn [conflict_limit_hit decision_limit_hit k_conflict_limit k_decision_limit unlimited] in H.
      destruct (possible _); try discriminate; cbn [obind] in *. destruct (decide _ s1); try discriminate; cbn [obind] in *. inversion H; subst.
      assert (conflict_limit_hit k = false) as ->. { unfold conflict_limit_hit. destruct (k_conflict_limit k) as [m|]; auto. specialize (C m eq_refl). lia. }
      assert (decision_limit_hit k = false) as ->. { unfold decision_limit_hit. destruct (k_decision_limit k) as [m|]; auto. specialize (D eq_refl m eq_refl). lia. }
      reflexivity.
Qed.
Lemma loop_enough : forall n o turns k s r k' es, limited_loop n o (fun i => quiet (turns i)) (unlimited k) s = Ret (Some r, k', es) ->
  (forall s1, r <> RStopped s1) -> (forall i, i < length es -> t_request (turns i) = false) -> k_flagged k = false -> enough k es ->
  exists k2, limited_loop n o turns k s = Ret (Some r, k2, es).
Proof.
  intros n. induction n as [|n IH]; intros o turns k s r k' es H N R F En; [discriminate|]. cbn [limited_loop] in *.
  destruct (limited_step o (quiet (turns 0)) (unlimited k) s) as [[[[s1|r1] k1] e1]| | |] eqn:E; try discriminate; cbn [obind] in H.
  - destruct (limited_loop n o _ k1 s1) as [[[r2 k2] es3]| | |] eqn:El; try discriminate. cbn [obind] in H. inversion H; subst; clear H.
    assert (K1 : k1 = unlimited (counted k e1)).
    { apply limited_step_inv in E. destruct E as (-> & _). unfold asked. cbn [quiet t_request]. now destruct e1. }
    destruct En as [En1 En2].
    rewrite (limited_step_enough _ _ _ _ _ _ _ E); auto.
    + cbn [obind]. rewrite K1 in El. destruct (IH o (fun i => turns (S i)) (counted k e1) s1 r k' es3 El N) as (k2 & E2).
      * intros i L. apply R. cbn. lia.
      * destruct e1; auto.
      * split; intros m M; [specialize (En1 m); clear En2|specialize (En2 m); clear En1]; destruct e1; cbn [k_conflicts k_decisions k_conflict_limit k_decision_limit count_conflicts count_decision set counted conflicts_in decisions_in] in *; lia || (specialize (En1 M); lia) || (specialize (En2 M); lia).
      * exists k2. now rewrite E2.
    + apply R. cbn. lia.
    + intros m M. specialize (En1 m M). destruct e1; cbn [k_conflicts k_decisions k_conflict_limit k_decision_limit count_conflicts count_decision set counted conflicts_in decisions_in] in En1; lia.
    + intros -> m M. specialize (En2 m M). cbn [k_conflicts k_decisions k_conflict_limit k_decision_limit count_conflicts count_decision set counted conflicts_in decisions_in] in En2. lia.
    + discriminate.
  - inversion H; subst; clear H. destruct En as [En1 En2]. rewrite (limited_step_enough _ _ _ _ _ _ _ E); auto.
    + cbn [obind]. eauto.
    + intros m M. specialize (En1 m M). destruct e1; cbn [k_conflicts k_decisions k_conflict_limit k_decision_limit count_conflicts count_decision set counted conflicts_in decisions_in] in En1; lia.
    + intros -> m M. specialize (En2 m M). cbn [k_conflicts k_decisions k_conflict_limit k_decision_limit count_conflicts count_decision set counted conflicts_in decisions_in] in En2. lia.
    + intros s1 Q. inversion Q. now destruct (N s1).
Qed.

(** ** A requested termination is obeyed soon *)
Lemma level_vars : forall orig s, ready orig s -> level s <= vars s.
Proof.
  intros orig s (Co & _ & _). pose proof (co_f _ _ _ Co) as F. pose proof (co_v _ _ _ Co) as V.
  set (g := fun k => match nth_error (frames s) k with Some f => idx (f_decision f) | None => 0 end).
  assert (Hg : forall k, 1 <= k <= level s -> g k < vars s /\ a_level (assigned s (g k)) = k).
  { intros k K. destruct (ti_dec _ F k K) as (f & Nf & Nt & Lk & _). unfold g. rewrite Nf. split; [|exact Lk].
    assert (D : dom s (f_decision f)).
    { apply (ti_range _ V). rewrite (ti_true _ V); [discriminate|]. eapply nth_error_In; eauto. }
    destruct D as [D _]. unfold idx. rewrite Nat.div2_div. apply Nat.div_lt_upper_bound; lia. }
  assert (L : length (map g (seq 1 (level s))) <= length (seq 0 (vars s))).
  { apply NoDup_incl_length.
    - assert (X : forall l, NoDup l -> (forall k, In k l -> 1 <= k <= level s) -> NoDup (map g l)).
      { induction l as [|k l IH]; intros Nd B; cbn; constructor.
        - intros I. apply in_map_iff in I as (j & E & J). inversion Nd; subst. assert (j = k); [|congruence].
          destruct (Hg j) as [_ A]; [apply B; now right|]. destruct (Hg k) as [_ A']; [apply B; now left|]. congruence.
        - inversion Nd; subst. apply IH; auto. intros j J. apply B. now right. }
      apply X; [apply seq_NoDup|]. intros k I. apply in_seq in I. lia.
    - intros x I. apply in_map_iff in I as (k & <- & I). apply in_seq in I. apply in_seq. destruct (Hg k); lia. }
  rewrite map_length, !seq_length in L. exact L.
Qed.

Definition rank (s : solver) : nat := 2 * level s + (if iterating s then 1 else 0).

Lemma limited_step_ok : forall orig o t k s, ready orig s -> inconsistent s = false ->
  wlp (limited_step o t k s) (fun '(p, _, _) => step_ok orig (shape s) p).
Proof.
  intros orig o t k s Re Ic. destruct (limited_step o t k s) as [[[p k1] e]| | |] eqn:E; cbn; auto.
  - apply limited_step_inv in E. destruct E as (_ & (ch & Ch) & _). pose proof (search_step_spec orig o ch s Re Ic) as P. rewrite Ch in P. exact P.
  - enough (X : exists ch, search_step o ch s = Undef) by (destruct X as (ch & Ch); pose proof (search_step_spec orig o ch s Re Ic) as P; now rewrite Ch in P).
    unfold limited_step in E. unfold search_step. destruct (search_propagate o s) as [[s1 [c|]]| | |]; try discriminate; cbn [obind] in *; [exists ChStop| |exists ChStop]; auto.
    + destruct (analyze (analyze_fuel s1) o c s1) as [[]| | |]; try discriminate; auto.
    + destruct (iterating s1); try discriminate. destruct (unassigned s1 =? 0); try discriminate. destruct (k_flagged _); try discriminate. destruct (t_task t) as [j|].
      * exists (match j with DoReduce r bb => ChReduce r bb | DoRestart l => ChRestart l | DoRephase => ChRephase | DoHeuristics => ChHeuristics end).
        destruct (do_task o j s1) eqn:Ej; try discriminate. destruct j; exact Ej.
      * destruct (conflict_limit_hit _); try discriminate. destruct (decision_limit_hit _); try discriminate. exists (ChDecide (t_decision t)).
        destruct (possible _); try discriminate; cbn [obind] in *; auto. destruct (decide _ _); try discriminate; auto.
  - enough (X : exists ch, search_step o ch s = Abort) by (destruct X as (ch & Ch); pose proof (search_step_spec orig o ch s Re Ic) as P; now rewrite Ch in P).
    unfold limited_step in E. unfold search_step. destruct (search_propagate o s) as [[s1 [c|]]| | |]; try discriminate; cbn [obind] in *; [exists ChStop| |exists ChStop]; auto.
    + destruct (analyze (analyze_fuel s1) o c s1) as [[]| | |]; try discriminate; auto.
    + destruct (iterating s1); try discriminate. destruct (unassigned s1 =? 0); try discriminate. destruct (k_flagged _); try discriminate. destruct (t_task t) as [j|].
      * exists (match j with DoReduce r bb => ChReduce r bb | DoRestart l => ChRestart l | DoRephase => ChRephase | DoHeuristics => ChHeuristics end).
        destruct (do_task o j s1) eqn:Ej; try discriminate. destruct j; exact Ej.
      * destruct (conflict_limit_hit _); try discriminate. destruct (decision_limit_hit _); try discriminate. exists (ChDecide (t_decision t)).
        destruct (possible _); try discriminate; cbn [obind] in *; auto. destruct (decide _ _); try discriminate; auto.
Qed.

(** With the flag set an iteration ends the search or comes closer to its end. *)
Lemma flagged_step : forall orig o t k s, ready orig s -> inconsistent s = false -> k_flagged k = true ->
  wp (limited_step o t k s) (fun '(p, k1, _) => k_flagged k1 = true /\
    match p with Go s1 => rank s1 < rank s /\ ready orig s1 /\ inconsistent s1 = false /\ shape s1 = shape s | Done r => forall s1, r <> RIgnored s1 end).
Proof.
  intros orig o t k s Re Ic Fl. pose proof (limited_step_ok orig o t k s Re Ic) as Ok. destruct Re as (Co & Pi & Cl). unfold limited_step in *.
  assert (Fl' : k_flagged (if t_request t then set k Terminate else k) = true) by (destruct (t_request t); auto).
  pose proof (search_propagate_spec orig o s Co Pi) as Sp. pose proof (search_propagate_level o s) as Lv.
  assert (It : forall s1 c, search_propagate o s = Ret (s1, c) -> iterating s1 = iterating s).
  { intros s1 c E. rewrite E in Sp. apply (qu_iter _ _ (proj1 Sp)). }
  destruct (search_propagate o s) as [[s1 [c|]]| | |]; try contradiction; cbn [obind] in *; cbn [wp post fst] in Sp, Lv.
  - pose proof (analyze_spec orig o c s1 s Sp Cl (qu_level _ _ (proj1 Sp)) Ic) as An. pose proof (analyze_level (analyze_fuel s1) o c s1) as Al.
    destruct (analyze (analyze_fuel s1) o c s1) as [[[] s2]| | |]; try contradiction; cbn [obind wlp wp] in *; (split; [destruct (t_request t); auto|]); try (intros; discriminate).
    cbn in Al, Ok. specialize (Al eq_refl). split; [|tauto]. unfold rank. destruct (iterating s2), (iterating s); lia.
  - rewrite Fl' in *. destruct (iterating s1) eqn:Ei; cbn [wlp wp] in *.
    + split; auto. cbn in Ok. split; [|tauto]. specialize (It s1 None eq_refl). unfold rank. cbn. rewrite <- It, Ei, Lv. lia.
    + destruct (unassigned s1 =? 0); cbn; (split; [auto|intros; discriminate]).
Qed.

Lemma flagged_loop : forall orig o n turns k s, ready orig s -> inconsistent s = false -> k_flagged k = true -> rank s < n ->
  wp (limited_loop n o turns k s) (fun '(r, _, es) => r <> None /\ length es <= S (rank s) /\ forall s1, r <> Some (RIgnored s1)).
Proof.
  intros orig o. induction n as [|n IH]; intros turns k s Re Ic Fl Rk; [lia|]. cbn [limited_loop].
  apply wp_bind. eapply wp_mono; [apply (flagged_step orig o (turns 0) k s Re Ic Fl)|]. intros [[[s1|r] k1] e] [Fl1 H]; [|cbn; split; [discriminate|split; [lia|intros s1 Q; inversion Q; now apply (H s1)]]].
  destruct H as (A & B & C & D). apply wp_bind. eapply wp_mono; [apply (IH (fun i => turns (S i)) k1 s1 B C Fl1); lia|].
  intros [[r2 k2] es] (N & L & Ni). cbn [wp length]. splits; auto. lia.
Qed.

Lemma rank_vars : forall orig s, ready orig s -> rank s <= 2 * vars s + 1.
Proof. intros orig s R. pose proof (level_vars _ _ R). unfold rank. destruct (iterating s); lia. Qed.

(** A request in iteration [j]. *)
Lemma requested_loop : forall orig o j n turns k s, ready orig s -> inconsistent s = false -> t_request (turns j) = true -> j + 2 * vars s + 2 <= n ->
  post (limited_loop n o turns k s) (fun '(r, _, es) => r <> None /\ length es <= j + 2 * vars s + 2).
Proof.
  intros orig o. induction j as [|j IH]; intros n turns k s Re Ic Rq Ln.
  - assert (H : wp (limited_loop n o turns (set k Terminate) s) (fun '(r, _, es) => r <> None /\ length es <= S (rank s) /\ forall s1, r <> Some (RIgnored s1))).
    { pose proof (rank_vars _ _ Re). apply (flagged_loop orig); auto. lia. }
    destruct n as [|n]; [lia|].
    assert (E : limited_loop (S n) o turns k s = limited_loop (S n) o turns (set k Terminate) s).
    { cbn [limited_loop]. unfold limited_step. now rewrite Rq. }
    rewrite E. pose proof (rank_vars _ _ Re). destruct (limited_loop (S n) o turns (set k Terminate) s) as [[[r k1] es]| | |]; cbn [wp post] in *; auto. destruct H as (? & ? & ?). split; auto. lia.
  - destruct n as [|n]; [lia|]. cbn [limited_loop]. pose proof (limited_step_ok orig o (turns 0) k s Re Ic) as Ok.
    destruct (limited_step o (turns 0) k s) as [[[[s1|r] k1] e]| | |]; cbn [obind post]; auto.
    + cbn in Ok. destruct Ok as (A & B & C). assert (V : vars s1 = vars s) by (inversion C; auto).
      specialize (IH n (fun i => turns (S i)) k1 s1 A B Rq). rewrite V in IH. specialize (IH ltac:(lia)).
      destruct (limited_loop _ _ _ _ _) as [[[r2 k2] es]| | |]; cbn in *; auto. intuition lia.
    + split; [discriminate|]. cbn. lia.
Qed.

(** ** The limits given by the caller *)
Lemma set_all_spec : forall cs c d cl dl f, let k := set_all cs (mk_control c d cl dl f None) in
  k_conflicts k = c /\ k_decisions k = d /\
  k_conflict_limit k = match conflict_limit cs with Some n => Some (c + n)%N | None => cl end /\
  k_decision_limit k = match decision_limit cs with Some n => Some (d + n)%N | None => dl end /\
  k_flagged k = f || existsb (fun s => match s with Terminate => true | _ => false end) cs.
Proof.
  cbv zeta. intros cs. assert (H : forall cs k, let k' := set_all cs k in
    k_conflicts k' = k_conflicts k /\ k_decisions k' = k_decisions k /\
    k_conflict_limit k' = match conflict_limit cs with Some n => Some (k_conflicts k + n)%N | None => k_conflict_limit k end /\
    k_decision_limit k' = match decision_limit cs with Some n => Some (k_decisions k + n)%N | None => k_decision_limit k end /\
    k_flagged k' = k_flagged k || existsb (fun s => match s with Terminate => true | _ => false end) cs).
  { clear. induction cs as [|x cs IH]; intros k; cbv zeta; [cbn; now rewrite orb_false_r|]. specialize (IH (set k x)). cbv zeta in IH.
    change (set_all (x :: cs) k) with (set_all cs (set k x)). destruct IH as (A & B & C & D & E). rewrite A, B, C, D, E.
    destruct x; cbn [set k_conflicts k_decisions k_conflict_limit k_decision_limit k_flagged conflict_limit decision_limit existsb];
      destruct (conflict_limit cs), (decision_limit cs); splits; auto; now rewrite ?orb_true_r. }
  intros c d cl dl f. apply (H cs (mk_control c d cl dl f None)).
Qed.
Lemma terminate_in : forall cs, existsb (fun s => match s with Terminate => true | _ => false end) cs = true <-> In Terminate cs.
Proof.
  intros cs. rewrite existsb_exists. split.
  - intros (x & I & E). destruct x; try discriminate. exact I.
  - intros I. exists Terminate. auto.
Qed.
