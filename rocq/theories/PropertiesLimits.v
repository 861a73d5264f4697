(** Properties of limits and termination requests (C22, C23). *)
From Coq Require Import ZArith NArith List Bool Lia Arith.
From Coq Require Import ZifyBool ZifyNat ZifyN.
From Verif Require Import Base Hoare SpecSat SpecApi Lit Solver Analyze Search Api Inv PropLoop OneLit SearchFacts OriginalFacts ApiFacts LuckyApi PropertiesApi Levels Limits SpecLimits LimitsFacts.
Import ListNotations.
Open Scope nat_scope.
Open Scope outcome_scope.

(** The caller makes the calls [cs], sets limits and requests termination with [settings], and calls
    [kissat_solve], which runs for at most [n] iterations in the environment [turns].  It returns [res] (nothing if
    the iterations did not suffice) after the events [es]. *)
Definition solves (tumble : bool) (o : options) (cs : list call) (settings : list setting) (n : nat) (initial bb : bool) (turns : nat -> turn)
  (res : option (Z * api)) (es : list event) : Prop :=
  exists a0 k, run_calls tumble o cs kissat_init = Ret a0 /\
    limited_solve n o initial bb turns (set_all settings initial_control) a0 = Ret (res, k, es).

Lemma solves_cases : forall tumble o cs settings n initial bb turns res es,
  solves tumble o cs settings n initial bb turns res es ->
  let k := set_all settings initial_control in
  exists a0, run_calls tumble o cs kissat_init = Ret a0 /\ api_inv (formula_of cs) a0 /\ cls a0 = [] /\ searches a0 = false /\
    ((inconsistent (sol a0) = true /\ res = Some (20%Z, a0) /\ es = []) \/
     (inconsistent (sol a0) = false /\ conflict_limit_hit k = true /\ res = Some (0%Z, set_sol (set_bigbig bb (sol a0)) a0) /\ es = []) \/
     (inconsistent (sol a0) = false /\ exists r k', limited_loop n o turns k (set_bigbig bb (sol a0)) = Ret (r, k', es) /\
       (forall s, r <> Some (RIgnored s)) /\
       res = match r with
             | Some (RSat s) => Some (10%Z, set_searches true (set_sol s a0))
             | Some (RUnsat s) => Some (20%Z, set_searches true (set_sol s a0))
             | Some (RStopped s) => Some (0%Z, set_searches true (set_sol s a0))
             | _ => None
             end)).
Proof.
  intros tumble o cs settings n initial bb turns res es (a0 & k' & E & H) k. exists a0. split; auto. destruct (run_calls_spec _ _ _ _ E) as [Ai _]. split; auto.
  unfold limited_solve in H. destruct (cls a0); cbn [require obind] in H; [|discriminate]. split; auto. destruct (searches a0); cbn [negb require obind] in H; [discriminate|]. split; auto.
  destruct (inconsistent (sol a0)); [left; now inversion H|right].
  destruct (searching initial _ _) eqn:Es; cbn [negb] in H.
  - right. split; auto. fold k in H. destruct (limited_loop n o turns k _) as [[[r k1] es1]| | |]; try discriminate. cbn [obind] in H.
    exists r, k1. destruct r as [[s|s|s|s]|]; cbn [obind fst snd] in H; try discriminate; inversion H; subst; splits; auto; try discriminate; intros; discriminate.
  - left. unfold searching in Es. destruct (negb _); [discriminate|]. destruct (negb initial); [discriminate|]. apply negb_false_iff in Es. inversion H; subst. splits; auto.
Qed.

(** The counters start at zero. *)
Lemma start_spec : forall settings, let k := set_all settings initial_control in
  k_conflicts k = 0%N /\ k_decisions k = 0%N /\ k_conflict_limit k = conflict_limit settings /\ k_decision_limit k = decision_limit settings /\
  (k_flagged k = true <-> In Terminate settings).
Proof.
  intros settings k. destruct (set_all_spec settings 0 0 None None false) as (A & B & C & D & E). unfold k, initial_control.
  splits; auto.
  - rewrite C. now destruct (conflict_limit settings).
  - rewrite D. now destruct (decision_limit settings).
  - rewrite E. cbn [orb]. apply terminate_in.
Qed.

(** ** C23: no decision is made once the number of conflicts or decisions has reached its limit. *)
Theorem C23_decisions_partial : forall tumble o cs settings n initial bb turns res es before after,
  solves tumble o cs settings n initial bb turns res es -> es = before ++ EDecision :: after ->
  (forall m, conflict_limit settings = Some m -> conflicts_in before < m)%N /\
  (forall m, decision_limit settings = Some m -> decisions_in before < m)%N.
Proof.
  intros tumble o cs settings n initial bb turns res es b a Hs ->. destruct (start_spec settings) as (K1 & K2 & K3 & K4 & _).
  destruct (solves_cases _ _ _ _ _ _ _ _ _ _ Hs) as (a0 & _ & _ & _ & _ & [(_ & _ & E)|[(_ & _ & _ & E)|(_ & r & k' & E & _)]]); [now destruct b|now destruct b|].
  apply loop_prefix in E. destruct E as (k1 & A & B & C & D & _ & G & _). destruct (G eq_refl) as (_ & G1 & G2). rewrite K1 in A. rewrite K2 in B. rewrite K3 in C. rewrite K4 in D.
  unfold conflict_limit_hit, decision_limit_hit in *. rewrite C in G1. rewrite D in G2. split; intros m M; rewrite M in *; lia.
Qed.
Print Assumptions C23_decisions_partial.

(** In particular the limit on decisions bounds their number. *)
Theorem C23_number_of_decisions_partial : forall tumble o cs settings n initial bb turns res es m,
  solves tumble o cs settings n initial bb turns res es -> decision_limit settings = Some m -> (decisions_in es <= m)%N.
Proof.
  intros tumble o cs settings n initial bb turns res es m Hs M.
  assert (H : forall es, decisions_in es = 0%N \/ exists b a, es = b ++ EDecision :: a /\ decisions_in es = (decisions_in b + 1)%N).
  { clear. induction es as [|e es IH]; [now left|]. destruct IH as [IH|(b & a & -> & IH)].
    - destruct e; cbn; auto. right. exists [], es. cbn. rewrite IH. auto.
    - right. exists (e :: b), a. split; auto. destruct e; cbn [decisions_in]; rewrite IH; lia. }
  destruct (H es) as [->|(b & a & E & ->)]; [lia|]. destruct (C23_decisions_partial _ _ _ _ _ _ _ _ _ _ _ _ Hs E) as [_ D]. specialize (D m M). lia.
Qed.
Print Assumptions C23_number_of_decisions_partial.

(** The answer is only 0 if a limit was reached or termination was requested. *)
Theorem C23_unknown_partial : forall tumble o cs settings n initial bb turns a es,
  solves tumble o cs settings n initial bb turns (Some (0%Z, a)) es ->
  (exists m, conflict_limit settings = Some m /\ (m <= conflicts_in es)%N) \/
  (exists m, decision_limit settings = Some m /\ (m <= decisions_in es)%N) \/
  requested settings turns (length es).
Proof.
  intros tumble o cs settings n initial bb turns a es Hs. destruct (start_spec settings) as (K1 & K2 & K3 & K4 & K5).
  destruct (solves_cases _ _ _ _ _ _ _ _ _ _ Hs) as (a0 & _ & _ & _ & _ & [(_ & E & _)|[(_ & H & _ & ->)|(_ & r & k' & E & _ & R)]]); [discriminate| |].
  - left. unfold conflict_limit_hit in H. rewrite K3, K1 in H. destruct (conflict_limit settings) as [m|]; [|discriminate]. exists m. split; auto. cbn. lia.
  - destruct r as [[s|s|s|s]|]; try discriminate. apply loop_stopped in E. rewrite K1, K2, K3, K4, !N.add_0_l in E. destruct E as [F|[(i & L & Q)|[E|E]]]; auto.
    + right. right. left. now apply K5.
    + right. right. right. exists i. split; auto. lia.
Qed.
Print Assumptions C23_unknown_partial.

(** Whatever is answered is an answer of the solver without limits (to which C01, C02, C03 and C04 apply). *)
Theorem C23_answers_partial : forall tumble o cs settings n initial bb turns r a es,
  solves tumble o cs settings n initial bb turns (Some (r, a)) es ->
  exists go choices, answers tumble o cs n go bb choices r a.
Proof.
  intros tumble o cs settings n initial bb turns r a es Hs.
  destruct (solves_cases _ _ _ _ _ _ _ _ _ _ Hs) as (a0 & Ra & _ & C & Se & [(I & E & _)|[(I & H & E & _)|(I & r1 & k' & E & Ig & R)]]).
  - exists true, (fun _ => ChStop), a0, false, false. split; auto. rewrite kissat_solve_unlucky. unfold kissat_solve. rewrite C, Se, I. cbn. congruence.
  - exists false, (fun _ => ChStop), a0, false, false. split; auto. rewrite kissat_solve_unlucky. unfold kissat_solve. rewrite C, Se, I. cbn. congruence.
  - destruct r1 as [r1|]; [|discriminate]. apply loop_search in E. destruct E as (choices & E). exists true, choices, a0, false, false. split; auto. rewrite kissat_solve_unlucky.
    unfold kissat_solve, search. rewrite C, Se, I. cbn [require obind negb]. rewrite E. cbn [obind]. destruct r1 as [s|s|s|s]; inversion R; auto.
Qed.
Print Assumptions C23_answers_partial.
Theorem C23_correct_partial : forall tumble o cs settings n initial bb turns r a es,
  solves tumble o cs settings n initial bb turns (Some (r, a)) es ->
  (r = 10 \/ r = 20 \/ r = 0)%Z /\
  (r = 10%Z -> forall v, extends v (reports a) -> satisfies v (formula_of cs)) /\
  (r = 20%Z -> ~ satisfiable (formula_of cs)).
Proof.
  intros tumble o cs settings n initial bb turns r a es Hs. destruct (C23_answers_partial _ _ _ _ _ _ _ _ _ _ _ Hs) as (go & choices & A). splits.
  - destruct (answers_post _ _ _ _ _ _ _ _ _ A) as (a0 & _ & _ & _ & _ & [(-> & _)|[(-> & _)|(-> & _)]]); auto.
  - intros ->. apply (C01_models_partial _ _ _ _ _ _ _ _ A).
  - intros ->. apply (C02_unsatisfiable_partial _ _ _ _ _ _ _ _ A).
Qed.
Print Assumptions C23_correct_partial.

(** Limits and requests do not change answers: a run which answers 10 or 20 is the run without limits and
    requests, and conversely a run without limits is not disturbed by limits which it does not reach. *)
Theorem C23_unaffected_partial : forall tumble o cs settings n initial bb turns r a es, r <> 0%Z ->
  solves tumble o cs settings n initial bb turns (Some (r, a)) es ->
  solves tumble o cs [] n initial bb (fun i => quiet (turns i)) (Some (r, a)) es.
Proof.
  intros tumble o cs settings n initial bb turns r a es N Hs.
  destruct (solves_cases _ _ _ _ _ _ _ _ _ _ Hs) as (a0 & Ra & _ & C & Se & [(I & E & ->)|[(I & H & E & ->)|(I & r1 & k' & E & Ig & R)]]).
  - exists a0, initial_control. split; auto. unfold limited_solve. rewrite C, Se, I. cbn. congruence.
  - inversion E. congruence.
  - destruct r1 as [r1|]; [|discriminate]. apply loop_unlimited in E; [|intros s ->; inversion R; congruence].
    assert (U : unlimited (set_all settings initial_control) = initial_control).
    { unfold unlimited, initial_control. destruct (start_spec settings) as (K1 & K2 & _). unfold initial_control in *. now rewrite K1, K2. }
    rewrite U in E. clear U.
    eexists a0, _. split; auto. unfold limited_solve. rewrite C, Se, I. cbn [require obind negb].
    assert (searching initial (set_all [] initial_control) (set_bigbig bb (sol a0)) = true) as ->.
    { unfold searching. destruct (negb _); auto. destruct (negb initial); reflexivity. }
    cbn [negb]. unfold set_all at 1. cbn [fold_left]. rewrite E. cbn [obind]. destruct r1 as [s|s|s|s]; cbn [obind fst snd]; inversion R; reflexivity.
Qed.
Print Assumptions C23_unaffected_partial.

Theorem C23_unreached_partial : forall tumble o cs settings n initial bb turns r a es, r <> 0%Z ->
  solves tumble o cs [] n initial bb (fun i => quiet (turns i)) (Some (r, a)) es ->
  (forall m, conflict_limit settings = Some m -> conflicts_in es < m)%N ->
  (forall m, decision_limit settings = Some m -> decisions_in es <= m)%N ->
  ~ requested settings turns (length es) ->
  solves tumble o cs settings n initial bb turns (Some (r, a)) es.
Proof.
  intros tumble o cs settings n initial bb turns r a es N Hs Cl Dl Rq. destruct (start_spec settings) as (K1 & K2 & K3 & K4 & K5).
  destruct (solves_cases _ _ _ _ _ _ _ _ _ _ Hs) as (a0 & Ra & _ & C & Se & [(I & E & ->)|[(I & H & E & ->)|(I & r1 & k' & E & Ig & R)]]).
  - exists a0, (set_all settings initial_control). split; auto. unfold limited_solve. rewrite C, Se, I. cbn. congruence.
  - discriminate.
  - destruct r1 as [r1|]; [|discriminate].
    assert (U : unlimited (set_all settings initial_control) = initial_control) by (unfold unlimited; rewrite K1, K2; reflexivity).
    change (set_all [] initial_control) with initial_control in E. rewrite <- U in E.
    destruct (loop_enough n o turns (set_all settings initial_control) _ r1 k' es E) as (k2 & E2).
    + intros s ->. inversion R. congruence.
    + intros i L. destruct (t_request (turns i)) eqn:Q; auto. exfalso. apply Rq. right. exists i. split; auto. lia.
    + destruct (k_flagged _) eqn:F; auto. exfalso. apply Rq. left. now apply K5.
    + split; intros m M; [rewrite K3 in M; rewrite K1|rewrite K4 in M; rewrite K2]; rewrite N.add_0_l; auto.
    + eexists a0, _. split; auto. unfold limited_solve. rewrite C, Se, I. cbn [require obind negb].
      assert (searching initial (set_all settings initial_control) (set_bigbig bb (sol a0)) = true) as ->.
      { unfold searching. destruct (negb _); auto. destruct (negb initial); auto. apply negb_true_iff. unfold conflict_limit_hit. rewrite K3, K1.
        destruct (conflict_limit settings) as [m|]; auto. specialize (Cl m eq_refl). lia. }
      cbn [negb]. rewrite E2. cbn [obind]. destruct r1 as [s|s|s|s]; cbn [obind fst snd]; inversion R; reflexivity.
Qed.
Print Assumptions C23_unreached_partial.

(** ** C22: after a request no decision is made and no task started, and solving returns soon. *)
Theorem C22_obeyed_partial : forall tumble o cs settings n initial bb turns res es j before e after,
  solves tumble o cs settings n initial bb turns res es -> requested settings turns j ->
  es = before ++ e :: after -> j <= length before -> e <> EDecision /\ e <> ETask.
Proof.
  intros tumble o cs settings n initial bb turns res es j b e a Hs Rq -> L. destruct (start_spec settings) as (_ & _ & _ & _ & K5).
  destruct (solves_cases _ _ _ _ _ _ _ _ _ _ Hs) as (a0 & _ & _ & _ & _ & [(_ & _ & E)|[(_ & _ & _ & E)|(_ & r & k' & E & _)]]); [now destruct b|now destruct b|].
  apply loop_prefix in E. destruct E as (k1 & _ & _ & _ & _ & F & G & J).
  assert (Fl : k_flagged k1 = true).
  { rewrite F. apply orb_true_iff. destruct Rq as [T|(i & Li & T)]; [left; now apply K5|right]. apply existsb_exists. exists i. split; auto. apply in_seq. lia. }
  split; intros ->; [destruct (G eq_refl)|specialize (J eq_refl)]; congruence.
Qed.
Print Assumptions C22_obeyed_partial.

Lemma start_ready : forall tumble o cs a bb, run_calls tumble o cs kissat_init = Ret a -> inconsistent (sol a) = false ->
  exists orig, ready orig (set_bigbig bb (sol a)) /\ level (sol a) = 0.
Proof.
  intros tumble o cs a bb E I. destruct (run_calls_spec _ _ _ _ E) as [Ai _]. destruct (ai_s _ _ Ai) as [_ Si]. rewrite I in Si. eexists. split; [apply ready_bigbig, live_ready, Si|apply Si].
Qed.

(** A request in iteration [j]: at most one iteration for each decision to be taken back and each of its
    consequences on the root level, and two more. *)
Theorem C22_stops_partial : forall tumble o cs settings n initial bb turns res es j a,
  solves tumble o cs settings n initial bb turns res es -> run_calls tumble o cs kissat_init = Ret a ->
  requested settings turns j -> j + 2 * vars (sol a) + 2 <= n ->
  res <> None /\ length es <= j + 2 * vars (sol a) + 2.
Proof.
  intros tumble o cs settings n initial bb turns res es j a Hs Ea Rq Ln. destruct (start_spec settings) as (_ & _ & _ & _ & K5).
  destruct (solves_cases _ _ _ _ _ _ _ _ _ _ Hs) as (a0 & E0 & _ & _ & _ & [(_ & -> & ->)|[(_ & _ & -> & ->)|(I & r & k' & E & Ig & R)]]).
  - split; [discriminate|cbn; lia].
  - split; [discriminate|cbn; lia].
  - assert (a0 = a) by congruence. subst a0. destruct (start_ready _ _ _ _ bb Ea I) as (orig & Re & L0).
    assert (H : r <> None /\ length es <= j + 2 * vars (sol a) + 2).
    { destruct Rq as [T|(i & Li & T)].
      - pose proof (flagged_loop orig o n turns (set_all settings initial_control) _ Re I) as F. rewrite E in F. pose proof (rank_vars _ _ Re) as V. cbn [vars set_bigbig] in V.
        destruct F as (F1 & F2 & _); [now apply K5|lia|]. split; auto. lia.
      - pose proof (requested_loop orig o i n turns (set_all settings initial_control) _ Re I T) as F. rewrite E in F. cbn [vars set_bigbig post] in F.
        destruct F as [F1 F2]; [lia|]. split; auto. lia. }
    destruct H as [N L]. split; auto. destruct r as [[s|s|s|s]|]; subst res; try discriminate; [now destruct (Ig s)|now destruct N].
Qed.
Print Assumptions C22_stops_partial.

(** A request before solving: there is always an answer after at most two iterations. *)
Theorem C22_before_partial : forall tumble o cs settings n initial bb turns a,
  run_calls tumble o cs kissat_init = Ret a -> open_clause cs = [] -> In Terminate settings -> 2 <= n ->
  exists r a' es, solves tumble o cs settings n initial bb turns (Some (r, a')) es /\ length es <= 2.
Proof.
  intros tumble o cs settings n initial bb turns a E Op T Ln. destruct (run_calls_spec _ _ _ _ E) as [Ai Eo]. destruct (start_spec settings) as (_ & _ & _ & _ & K5).
  assert (Ec : cls a = []) by (apply (open_empty _ _ Ai); congruence).
  set (k := set_all settings initial_control) in *.
  enough (X : exists r a' k' es, limited_solve n o initial bb turns k a = Ret (Some (r, a'), k', es) /\ length es <= 2).
  { destruct X as (r & a' & k' & es & X & L). exists r, a', es. split; auto. exists a, k'. auto. }
  unfold limited_solve. rewrite Ec, (ai_new _ _ Ai). cbn [require negb obind]. destruct (inconsistent (sol a)) eqn:I.
  - exists 20%Z, a, k, []. split; auto.
  - destruct (searching initial k _); cbn [negb]; [|do 4 eexists; split; [reflexivity|cbn; lia]].
    destruct (start_ready _ _ _ _ bb E I) as (orig & Re & L0).
    assert (Rk : rank (set_bigbig bb (sol a)) <= 1) by (unfold rank; cbn [level set_bigbig]; rewrite L0; destruct (iterating _); lia).
    pose proof (flagged_loop orig o n turns k _ Re I) as F.
    destruct (limited_loop n o turns k _) as [[[r k1] es]| | |]; cbn [wp obind] in *; try (destruct F; [now apply K5|lia]).
    + destruct F as (F1 & F2 & F3); [now apply K5|lia|]. destruct r as [[s|s|s|s]|]; [| | |now destruct (F3 s)|now destruct F1];
        (do 4 eexists; split; [reflexivity|lia]).
Qed.
Print Assumptions C22_before_partial.

(** The callback is not called: here it always asks for termination, but all decisions are made and the formula is
    solved. *)
Definition turns_of (ts : list turn) (i : nat) : turn := nth i ts (mk_turn false None 0).
Definition decisions (ls : list lit) : list turn := map (mk_turn false None) ls.
Definition show (tumble : bool) (cs : list call) (settings : list setting) (initial : bool) (ts : list turn) : option (option Z * list event) :=
  match run_calls tumble all_on cs kissat_init with
  | Ret a =>
      match limited_solve 100 all_on initial true (turns_of ts) (set_all settings initial_control) a with
      | Ret (res, _, es) => Some (option_map fst res, es)
      | _ => None
      end
  | _ => None
  end.
Lemma show_solves : forall tumble cs settings initial ts z es, show tumble cs settings initial ts = Some (Some z, es) ->
  exists a, solves tumble all_on cs settings 100 initial true (turns_of ts) (Some (z, a)) es.
Proof.
  unfold show, solves. intros tumble cs settings initial ts z es H. destruct (run_calls tumble all_on cs kissat_init) as [a| | |]; try discriminate.
  destruct (limited_solve _ _ _ _ _ _ _) as [[[[[r a']|] k] es']| | |] eqn:E; try discriminate. cbn in H. inversion H; subst. exists a', a, k. auto.
Qed.

Theorem C22_callback_refuted : exists tumble o cs n initial bb turns callback a es,
  (forall i, callback i = 1%Z) /\ solves tumble o cs [SetTerminate callback] n initial bb turns (Some (10%Z, a)) es /\ In EDecision es.
Proof.
  destruct (show_solves true (clauses mixed) [SetTerminate (fun _ => 1%Z)] true (decisions [9; 11; 5; 14; 4; 0; 1]) 10%Z
    [EDecision; EDecision; EDecision; EDecision; EEnd]) as (a & Hs); [vm_compute; reflexivity|].
  do 10 eexists. split; [|split; [exact Hs|now left]]. auto.
Qed.
Print Assumptions C22_callback_refuted.

(** ** Concrete cases *)
Example limits_reached :
  show true (clauses mixed) [SetConflictLimit 0] true (decisions [9; 11; 5; 14]) = Some (Some 0%Z, []) /\
  show true (clauses mixed) [SetConflictLimit 0] false (decisions [9; 11; 5; 14]) = Some (Some 0%Z, [EEnd]) /\
  show true (clauses mixed) [SetDecisionLimit 3] true (decisions [9; 11; 5; 14]) = Some (Some 0%Z, [EDecision; EDecision; EDecision; EEnd]) /\
  show true (clauses mixed) [SetDecisionLimit 1; SetDecisionLimit 4] true (decisions [9; 11; 5; 14]) = Some (Some 10%Z, [EDecision; EDecision; EDecision; EDecision; EEnd]).
Proof. vm_compute. auto. Qed.
(** An answer found in spite of a conflict limit which is reached before. *)
Example limit_and_answer : show true (clauses pigeons) [SetConflictLimit 1] true (decisions [0]) = Some (Some 20%Z, [EDecision; EConflict 1; EConflict 1]).
Proof. vm_compute. reflexivity. Qed.
(** A request during the search and one before it. *)
Example request_in_search :
  show true (clauses mixed) [] true
    [mk_turn false None 9; mk_turn false (Some (DoRestart 0)) 0; mk_turn false None 9; mk_turn false None 11; mk_turn true None 5] =
  Some (Some 0%Z, [EDecision; ETask; EDecision; EDecision; EEnd]).
Proof. vm_compute. reflexivity. Qed.
Example request_before : show true (clauses pigeons) [Terminate] true (decisions [0]) = Some (Some 0%Z, [EEnd]).
Proof. vm_compute. reflexivity. Qed.
