(** C58: signals (handle.c and main.c).  A schedule is a list of events: a step of the process, or the delivery of a signal;
    signals arrive between any two steps, also while handlers run and before and after solving. *)
From Coq Require Import List Bool Arith Lia.
From Verif Require Import Signals SignalsFacts SignalsRun SignalsMore SignalsEnd.
Import ListNotations.
Open Scope nat_scope.

(** The handler in main.c 14-24, which prints statistics and the line with the signal, is never entered twice. *)
Theorem C58_once : forall n es, length (h_reports (p_h (run es (start n)))) <= 1.
Proof. intros n es. apply (run_good es n). Qed.
Print Assumptions C58_once.
Example C58_once_example : h_reports (p_h (run (repeat Run 20 ++ [Deliver SIGINT; Run; Deliver SIGTERM; Run; Run; Run; Run; Run; Deliver SIGSEGV; Run; Run; Run; Run]) (start 9))) = [SIGTERM].
Proof. vm_compute. reflexivity. Qed.

(** Only signals which were delivered are reported or end the process. *)
Theorem C58_cause : forall n es g, p_status (run es (start n)) = Killed g \/ In g (h_reports (p_h (run es (start n)))) -> In (Deliver g) es.
Proof. intros n es g. destruct (run_from n es) as (_ & (_ & R) & K). intros [H|H]; [now apply K|now apply R]. Qed.
Print Assumptions C58_cause.
Example C58_cause_example : p_status (run (repeat Run 3 ++ [Deliver SIGBUS]) (start 0)) = Killed SIGBUS.
Proof. vm_compute. reflexivity. Qed.

(** After one of the five signals the process does not return an exit code, whenever it arrives. *)
Theorem C58_ends : forall n es es' g, g <> SIGALRM -> p_status (run es (start n)) = Running -> p_status (run (es ++ Deliver g :: es') (start n)) <> Returned.
Proof.
  intros n es es' g N Ru. rewrite run_app. change (run (Deliver g :: es') (run es (start n))) with (run es' (step (run es (start n)) (Deliver g))).
  apply doomed_run; [apply step_good, run_good|]. apply deliver_doomed; auto. apply run_good.
Qed.
Print Assumptions C58_ends.
Example C58_ends_example : p_status (run (repeat Run 30 ++ [Deliver SIGTERM]) (start 3)) = Killed SIGTERM /\ p_status (run (repeat Run 35) (start 3)) = Returned.
Proof. vm_compute. auto. Qed.

(** A signal while solving is reported, and then ends the process as it would have done without handler, so that the parent
    sees the right signal. *)
Theorem C58_solving : forall i m g, g <> SIGALRM ->
  let x := run (repeat Run (app_pos + i) ++ Deliver g :: repeat Run 13) (start (i + m)) in p_status x = Killed g /\ h_reports (p_h x) = [g].
Proof.
  intros i m g N x. unfold x. rewrite run_app, solving. destruct g; try congruence; (split; vm_compute; reflexivity).
Qed.
Print Assumptions C58_solving.
Example C58_solving_example : (exists ops, p_frames (run (repeat Run (app_pos + 3)) (start (3 + 4))) = [(None, App 4 :: ops)]).
Proof. eexists. vm_compute. reflexivity. Qed.

(** The first of these signals ends the process, at whatever moment it arrives. *)
Theorem C58_moment : forall n k g, g <> SIGALRM -> p_status (run (repeat Run k) (start n)) = Running ->
  p_status (run (repeat Run k ++ Deliver g :: repeat Run 13) (start n)) = Killed g.
Proof.
  intros n k g N Ru. rewrite run_app. apply quiet_killed; auto. destruct (quiet_run k (start n)) as [Q|R]; auto; [|congruence].
  exists 0, n. split; [unfold len; lia|reflexivity].
Qed.
Print Assumptions C58_moment.
Example C58_moment_example : p_status (run (repeat Run 23) (start 1)) = Running /\ s_disp (p_s (run (repeat Run 23) (start 1))) SIGTERM = Catch_signal.
Proof. vm_compute. auto. Qed.

(** An alarm while solving asks the solver to terminate, and [main] goes on where it was. *)
Theorem C58_alarm : forall i m,
  let x := run (repeat Run (app_pos + i) ++ Deliver SIGALRM :: repeat Run 6) (start (i + m)) in
  p_status x = Running /\ h_terminated (p_h x) = true /\ p_frames x = p_frames (run (repeat Run (app_pos + i)) (start (i + m))).
Proof.
  intros i m x. unfold x. rewrite run_app, solving. split; [|split]; vm_compute; reflexivity.
Qed.
Print Assumptions C58_alarm.
Example C58_alarm_example : h_terminated (p_h (run (repeat Run (app_pos + 3)) (start (3 + 4)))) = false.
Proof. vm_compute. reflexivity. Qed.

(** Without signals the process returns an exit code, and all signals are handled as before. *)
Theorem C58_quiet : forall n, let x := run (repeat Run (app_pos + n) ++ repeat Run 15) (start n) in
  p_status x = Returned /\ (forall g, disp x g = Default) /\ h_terminated (p_h x) = false /\ a_solver (p_a x) = Released.
Proof.
  intros n x. unfold x. rewrite run_app. replace (start n) with (start (n + 0)) by (now rewrite Nat.add_0_r). rewrite solving.
  split; [vm_compute; reflexivity|]. split; [|split; vm_compute; reflexivity]. intros g. destruct g; vm_compute; reflexivity.
Qed.
Print Assumptions C58_quiet.
Example C58_quiet_example : p_status (run (repeat Run (app_pos + 2) ++ repeat Run 14) (start 2)) = Running.
Proof. vm_compute. reflexivity. Qed.

(** Whenever an exit code is returned nothing was reported, all signals are handled as before and the solver is released. *)
Theorem C58_returned : forall n es, let x := run es (start n) in p_status x = Returned ->
  h_reports (p_h x) = [] /\ (forall g, disp x g = Default) /\ a_solver (p_a x) = Released.
Proof.
  intros n es x R. destruct (run_good es n) as (_ & G). fold x in G. rewrite R in G. destruct G as (_ & _ & Rp & Es & Ea). split; auto. split.
  - intros g. unfold disp. rewrite Es, Ea. destruct g; try apply last_default. apply last_alarm.
  - rewrite Ea. apply last_alarm.
Qed.
Print Assumptions C58_returned.
Example C58_returned_example : p_status (run (repeat Run 19 ++ Deliver SIGALRM :: repeat Run 30) (start 9)) = Returned.
Proof. vm_compute. reflexivity. Qed.

(** No handler calls a null pointer or uses a solver which does not exist, if there is no alarm. *)
Theorem C58_no_crash : forall n es, ~ In (Deliver SIGALRM) es -> p_status (run es (start n)) <> Crashed.
Proof.
  intros n es N C. destruct (run_good es n) as (_ & G). rewrite C in G. destruct G as (_ & ops & fs & E). destruct (run_from n es) as (F & _).
  rewrite E in F. destruct (F (Some SIGALRM, ops)) as (X & _); [now left|]. apply N. now apply X.
Qed.
Print Assumptions C58_no_crash.
Example C58_no_crash_example : ~ In (Deliver SIGALRM) (repeat Run 25 ++ [Deliver SIGINT; Run; Deliver SIGTERM; Run]).
Proof. cbn. intuition congruence. Qed.

(** With alarms it can happen, but only while [main] is between the last two assignments of [kissat_reset_alarm], handle.c
    84 and 85.  Missing for the full property: that it never happens, which is refuted below. *)
Theorem C58_crash_partial : forall n es, p_status (run es (start n)) = Crashed ->
  exists fs, p_frames (run es (start n)) = fs ++ [(None, [Alarm_restore; Release; Return])].
Proof.
  intros n es C. destruct (run_good es n) as (_ & G). rewrite C in G. destruct G as ((fs & m & E) & _). exists fs. exact E.
Qed.
Print Assumptions C58_crash_partial.
Definition crash_schedule : list event := repeat Run 29 ++ [Deliver SIGALRM] ++ repeat Run 5.
Theorem C58_crash_refuted : exists n es, p_status (run es (start n)) = Crashed.
Proof. exists 0, crash_schedule. vm_compute. reflexivity. Qed.
Print Assumptions C58_crash_refuted.

(** Any number of signals at any moments end the process with one of them after finitely many steps (here without alarms). *)
Theorem C58_finish : forall n es es' g, g <> SIGALRM -> ~ In (Deliver SIGALRM) (es ++ Deliver g :: es') -> p_status (run es (start n)) = Running ->
  exists k g', p_status (run ((es ++ Deliver g :: es') ++ repeat Run k) (start n)) = Killed g' /\ In (Deliver g') (es ++ Deliver g :: es').
Proof.
  intros n es es' g N Na Ru. destruct (run_ends _ _ n (es ++ Deliver g :: es') Na (le_n _) (le_n _)) as (k & H). exists k.
  assert (In_run : forall g', In (Deliver g') ((es ++ Deliver g :: es') ++ repeat Run k) -> In (Deliver g') (es ++ Deliver g :: es')).
  { intros g' J. apply in_app_or in J as [J|J]; auto. apply repeat_spec in J. discriminate. }
  pose proof (C58_no_crash n ((es ++ Deliver g :: es') ++ repeat Run k)) as Nc. pose proof (C58_ends n es (es' ++ repeat Run k) g N Ru) as Nr.
  rewrite app_comm_cons, app_assoc in Nr. destruct (p_status (run ((es ++ Deliver g :: es') ++ repeat Run k) (start n))) as [|g'| |] eqn:E; try congruence.
  - exists g'. split; auto. apply In_run. apply (C58_cause n). now left.
  - exfalso. apply Nc; auto.
Qed.
Print Assumptions C58_finish.
Example C58_finish_example : p_status (run (repeat Run 18 ++ [Deliver SIGINT; Run; Deliver SIGTERM; Run; Deliver SIGINT]) (start 5)) = Running.
Proof. vm_compute. reflexivity. Qed.
