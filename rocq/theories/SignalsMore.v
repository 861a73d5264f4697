(** Which signals end the process, and runs of [main] without signals. *)
From Coq Require Import List Bool Arith Lia.
From Verif Require Import Signals SignalsFacts SignalsRun.
Import ListNotations.
Open Scope nat_scope.

(** ** Only signals which were delivered have an effect *)
Definition opd (D : sig -> Prop) (o : op) : Prop := match o with Raise k | Call k => D k | Raise_alarm => D SIGALRM | _ => True end.
Definition hfrom (D : sig -> Prop) (h : hvars) : Prop := (forall k, h_pending h k = true -> D k) /\ forall k, In k (h_reports h) -> D k.
Definition efrom (D : sig -> Prop) (e : effect) : Prop := match e with Go ops => Forall (opd D) ops | _ => True end.
Definition from (D : sig -> Prop) (x : process) : Prop :=
  (forall f, In f (p_frames x) -> (forall k, fst f = Some k -> D k) /\ Forall (opd D) (snd f)) /\ hfrom D (p_h x) /\ forall k, p_status x = Killed k -> D k.
Lemma pend_from : forall D h g, (forall k, h_pending h k = true -> D k) -> D g -> forall k, upd_sig (h_pending h) g true k = true -> D k.
Proof. intros D h g P Dg k. rewrite upd_sig_if. destruct (sig_eqb_spec k g); [now subst|auto]. Qed.
Lemma exec_from : forall D o ops s a h, opd D o -> Forall (opd D) ops -> hfrom D h ->
  hfrom D (snd (fst (exec o ops s a h))) /\ efrom D (snd (exec o ops s a h)).
Proof.
  intros D o ops s a h O F (P & R).
  assert (H : hfrom D h) by (split; auto).
  destruct o; cbn [opd] in O; try (split; [exact H|exact F]).
  - destruct n; cbn; (split; [exact H|]); auto. (* the application *)
  - split; [exact H|]. cbn [exec snd efrom]. destruct (s_handler_set s); auto. rewrite Forall_forall in *. intros y J. apply F. rewrite <- (firstn_skipn (length SIGNALS + 2) ops). apply in_or_app. now right.
  - split; [exact H|exact Logic.I].
  - split; [exact H|]. cbn [exec snd]. destruct (h_caught h); [exact Logic.I|exact F].
  - cbn [exec]. destruct (s_handler_set s && s_handler s && _); (split; [|first [exact F|exact Logic.I]]); auto. split; [exact P|]. cbn. intros k [<-|J]; auto.
  - split; [|exact F]. split; [|exact R]. cbn. now apply pend_from.
  - split; [exact H|]. cbn [exec snd]. destruct (h_caught_alarm h); [exact Logic.I|exact F].
  - cbn [exec]. destruct (a_set a); (split; [|exact F]); auto. split; [|exact R]. cbn. now apply pend_from.
  - cbn [exec]. destruct (negb (h_copy h)); [split; [exact H|exact Logic.I]|]. destruct (a_ignore a); [split; [exact H|exact F]|]. destruct (a_solver a); (split; [exact H|first [exact F|exact Logic.I]]).
Qed.
Lemma catch_opd : forall (D : sig -> Prop) g, D g -> Forall (opd D) (catch_ops g).
Proof. intros D g Dg. unfold catch_ops, reset_ops. cbn. repeat (constructor; [first [exact Logic.I|exact Dg]|]). constructor. Qed.
Lemma alarm_opd : forall (D : sig -> Prop), D SIGALRM -> Forall (opd D) alarm_ops.
Proof. intros D Dg. repeat (constructor; [first [exact Logic.I|exact Dg]|]). constructor. Qed.
Lemma deliver_from : forall D g x, from D x -> nca (p_s x) -> D g -> from D (deliver g x).
Proof.
  intros D g x (F & H & K) N Dg. unfold deliver. destruct (disp x g) eqn:E; (split; [|split]); cbn [p_frames p_h p_status]; auto; try discriminate.
  - intros k X. injection X as <-. auto.
  - intros f [<-|J]; auto. cbn [fst snd]. split; [congruence|]. now apply catch_opd.
  - intros f [<-|J]; auto. cbn [fst snd]. split; [congruence|]. apply alarm_opd. pose proof (proj1 (N g)) as Ng. unfold disp in E. destruct g; try (exfalso; exact (Ng E)). exact Dg.
Qed.
Lemma run_one_from : forall D x, from D x -> nca (p_s x) -> p_status x = Running -> from D (run_one x).
Proof.
  intros D x Fx N Ru. pose proof Fx as (F & H & K). unfold run_one. destruct (p_frames x) as [|(who & ops) fs] eqn:Ef; [exact Fx|].
  destruct (F (who, ops)) as (Fw & Fo); [now left|]. cbn [fst snd] in Fw, Fo.
  assert (Ff : forall f, In f fs -> (forall k, fst f = Some k -> D k) /\ Forall (opd D) (snd f)) by (intros f J; apply F; now right).
  destruct ops as [|o ops].
  - destruct who as [g|]; [|exact Fx]. destruct H as (P & R). destruct (h_pending (p_h x) g) eqn:Pg.
    + apply deliver_from; auto. split; [exact Ff|]. split; [|cbn; discriminate]. split; [|exact R]. cbn. intros k. rewrite upd_sig_if. destruct (sig_eqb k g); [discriminate|auto].
    + split; [exact Ff|]. split; [now split|cbn; discriminate].
  - inversion Fo as [|? ? Oo Os]. subst. destruct (exec_from D o ops (p_s x) (p_a x) (p_h x) Oo Os H) as (H' & E'). destruct (exec o ops (p_s x) (p_a x) (p_h x)) as (((s & a) & h) & e).
    cbn [fst snd] in H', E'. destruct who as [g|]; destruct e as [ops'| | |]; (split; [|split; [exact H'|cbn; discriminate]]); cbn [p_frames]; intros f [<-|J]; auto; cbn [fst snd].
    all: split; auto.
Qed.
Lemma from_mono : forall (D D' : sig -> Prop) x, (forall g, D g -> D' g) -> from D x -> from D' x.
Proof.
  intros D D' x I (F & (P & R) & K). split; [|split; [split|]]; auto. intros f J. destruct (F f J) as (F1 & F2). split; auto. eapply Forall_impl; [|exact F2]. intros [] X; cbn in *; auto.
Qed.
Definition given (es : list event) (g : sig) : Prop := In (Deliver g) es.
Lemma run_from : forall n es, from (given es) (run es (start n)).
Proof.
  intros n es. induction es as [|e es IH] using rev_ind.
  - split; [|split]; cbn; auto; try discriminate.
    + intros f [<-|[]]. cbn [fst snd]. split; [discriminate|]. repeat (constructor; [exact Logic.I|]). constructor.
    + split; cbn; [discriminate|tauto].
  - rewrite run_app. pose proof (run_good es n) as (_ & G). cbn [run fold_left]. unfold step.
    apply (from_mono _ (given (es ++ [e]))) in IH; [|intros g J; apply in_or_app; now left].
    destruct (p_status (run es (start n))) eqn:Ru; auto. pose proof (pi_nca _ G) as N. destruct e as [|g].
    + now apply run_one_from.
    + assert (Dg : given (es ++ [Deliver g]) g) by (apply in_or_app; right; now left).
      destruct (blocked g _); [|now apply deliver_from]. destruct IH as (F & (P & R) & K). split; [exact F|]. split; [|cbn; discriminate]. split; [|exact R]. cbn. now apply pend_from.
Qed.

(** ** A signal which ends the process is not lost *)
Definition term (x : process) : Prop := exists f k, In f (p_frames x) /\ fst f = Some k /\ k <> SIGALRM.
Definition doomed (x : process) : Prop := p_status x <> Returned /\ (p_status x = Running -> term x).
Lemma deliver_term : forall g x, term x -> doomed (deliver g x).
Proof.
  intros g x (f & k & J & E & N). unfold deliver. destruct (disp x g); (split; [cbn; discriminate|]); intros _; exists f, k; (split; [|auto]); cbn [p_frames]; auto; now right.
Qed.
Lemma run_one_term : forall x, pinv x -> p_status x = Running -> term x -> doomed (run_one x).
Proof.
  intros x I Ru Tx. pose proof (run_one_good x I Ru) as (_ & G). destruct Tx as (f & k & J & E & N). unfold run_one in *. destruct (p_frames x) as [|(who & ops) fs] eqn:Ef; [destruct J|].
  destruct ops as [|o ops].
  - destruct who as [g|].
    + destruct (real_nil_dec x g) as [(P & D & Ng)|Nr].
      * rewrite P. unfold deliver, disp. cbn [p_s p_a]. destruct g; try congruence; rewrite D; (split; [cbn; discriminate|cbn; discriminate]).
      * assert (T' : forall h', term (mk_process (p_s x) (p_a x) h' fs Running)).
        { intros h'. destruct J as [<-|J]; [|exists f, k; auto]. cbn in E. injection E as ->.
          destruct (top_okf _ _ _ _ I Ef) as (p & L & A & O & _). cbn [okf] in O. destruct O as [O|([O|O] & _)]; [contradiction| |destruct O; congruence].
          assert (C : h_caught (p_h x) <> None). { destruct O as (_ & [(X & _)|[(X & _)|(_ & C)]]); try discriminate X. exact C. }
          destruct (pi_caught _ I C) as (f' & J' & k' & E' & R'). rewrite Ef in J'. destruct J' as [<-|J']; [cbn in E'; injection E' as <-; contradiction|].
          exists f', k'. destruct R' as (R' & _). auto. }
        destruct (h_pending (p_h x) g); [apply deliver_term; apply T'|]. split; [cbn; discriminate|]. intros _. apply T'.
    + exfalso. destruct (main_only _ _ _ I Ef) as (-> & _). destruct J as [<-|[]]. discriminate.
  - destruct (exec o ops (p_s x) (p_a x) (p_h x)) as (((s & a) & h) & e).
    assert (T' : forall s a h st ops', term (mk_process s a h ((who, ops') :: fs) st)).
    { intros s' a' h' st ops'. destruct J as [<-|J]; [exists (who, ops'), k|exists f, k]; (split; [|auto]); [now left|now right]. }
    destruct who as [g|]; destruct e as [ops'| | |]; (split; [try (cbn; discriminate)|intros _; apply T']).
    { cbn [p_status p_frames] in G. destruct G as (_ & (ops' & X) & _). discriminate X. }
    cbn [p_status p_frames] in G. destruct G as (_ & (ops' & X) & _). injection X as _ ->. destruct J as [<-|[]]. cbn in E. discriminate.
Qed.
Lemma doomed_run : forall es x, good x -> doomed x -> doomed (run es x).
Proof.
  intros es. induction es as [|e es IH]; intros x G D; auto. cbn. apply IH; [now apply step_good|]. unfold step. destruct (p_status x) eqn:Ru; auto.
  destruct G as (_ & G). rewrite Ru in G. pose proof (proj2 D Ru) as T. destruct e as [|g]; [now apply run_one_term|].
  destruct (blocked g _); [|now apply deliver_term]. split; [cbn; discriminate|]. intros _. exact T.
Qed.
Lemma deliver_doomed : forall x g, good x -> p_status x = Running -> g <> SIGALRM -> doomed (step x (Deliver g)).
Proof.
  intros x g (_ & G) Ru N. rewrite Ru in G. unfold step. rewrite Ru. destruct (blocked g (p_frames x)) eqn:B.
  - split; [cbn; discriminate|]. intros _. unfold blocked in B. apply existsb_exists in B as (f & J & E). destruct (fst f) as [k|] eqn:Ek; [|discriminate]. exists f, k. split; auto. split; auto.
    destruct (sig_eqb_spec k g); congruence.
  - unfold deliver. destruct (disp x g); (split; [cbn; discriminate|]); cbn; try discriminate; intros _; eexists _, g; (split; [now left|auto]).
Qed.

(** ** [main] without signals *)
Lemma run_main : forall k n, k <= app_pos -> run (repeat Run k) (start n) = mk_process (fst (at_pos k)) (snd (at_pos k)) (p_h (start n)) [(None, main_rest k n)] Running.
Proof.
  intros k n. induction k as [|k IH]; intros L; [reflexivity|].
  replace (repeat Run (S k)) with (repeat Run k ++ [Run]) by (now rewrite <- repeat_cons). rewrite run_app, IH by lia. cbn [run fold_left]. unfold step. cbn [p_status].
  pose proof (main_move k n (p_h (start n))) as M. replace (k =? app_pos) with false in M by (symmetry; apply Nat.eqb_neq; lia). apply M. unfold len, app_pos in *. lia.
Qed.
Lemma run_application : forall i s a h m ops, run (repeat Run i) (mk_process s a h [(None, App (i + m) :: ops)] Running) = mk_process s a h [(None, App m :: ops)] Running.
Proof. intros i. induction i as [|i IH]; intros s a h m ops; [reflexivity|]. cbn [repeat run fold_left]. change (i + m) with (i + m). exact (IH s a h m ops). Qed.
Lemma solving : forall i m, run (repeat Run (app_pos + i)) (start (i + m)) =
  mk_process (fst (at_pos app_pos)) (snd (at_pos app_pos)) (p_h (start 0)) [(None, main_rest app_pos m)] Running.
Proof.
  intros i m. rewrite repeat_app, run_app, run_main by lia. rewrite !rest_app. apply run_application.
Qed.
Definition quiet (x : process) : Prop := exists p m, p < len /\ x = mk_process (fst (at_pos p)) (snd (at_pos p)) (p_h (start 0)) [(None, main_rest p m)] Running.
Lemma quiet_step : forall x, quiet x -> quiet (step x Run) \/ p_status (step x Run) = Returned.
Proof.
  intros x (p & m & L & ->). unfold step. cbn [p_status]. destruct (Nat.eq_dec p app_pos) as [->|N].
  - left. destruct m as [|m].
    + pose proof (main_move app_pos 0 (p_h (start 0))) as M. rewrite Nat.eqb_refl in M. exists (S app_pos), 0. split; [unfold len, app_pos; lia|]. apply M. unfold len, app_pos. lia.
    + rewrite rest_app, app_move, <- rest_app. now exists app_pos, m.
  - pose proof (main_move p m (p_h (start 0))) as M. rewrite (proj2 (Nat.eqb_neq _ _) N) in M. destruct (Nat.eq_dec p 31) as [->|N'].
    + right. rewrite rest_last, ret_move. reflexivity.
    + left. exists (S p), m. unfold len in *. split; [lia|]. apply M. lia.
Qed.
Lemma stopped : forall es x, p_status x <> Running -> run es x = x.
Proof. intros es. induction es as [|e es IH]; intros x N; auto. assert (E : step x e = x) by (unfold step; destruct (p_status x); auto; contradiction). change (run es (step x e) = x). rewrite E. auto. Qed.
Lemma quiet_run : forall k x, quiet x -> quiet (run (repeat Run k) x) \/ p_status (run (repeat Run k) x) = Returned.
Proof.
  intros k. induction k as [|k IH]; intros x Q; [now left|]. cbn [repeat]. change (run (Run :: repeat Run k) x) with (run (repeat Run k) (step x Run)).
  destruct (quiet_step x Q) as [Q'|R]; [now apply IH|]. right. rewrite stopped; auto. rewrite R. discriminate.
Qed.
Lemma quiet_killed : forall x g, quiet x -> g <> SIGALRM -> p_status (run (Deliver g :: repeat Run 13) x) = Killed g.
Proof.
  intros x g (p & m & L & ->) N. unfold len in L.
  do 32 (destruct p as [|p]; [destruct g; try congruence; vm_compute; reflexivity|]). lia.
Qed.
Lemma last_default : forall g, s_disp (fst (at_pos 31)) g = Default.
Proof. intros []; vm_compute; reflexivity. Qed.
Lemma last_alarm : a_disp (snd (at_pos 31)) = Default /\ a_solver (snd (at_pos 31)) = Released.
Proof. split; vm_compute; reflexivity. Qed.
