(** The invariant of processes with signals. *)
From Coq Require Import List Bool Arith Lia.
From Verif Require Import Signals.
Import ListNotations.
Open Scope nat_scope.

Lemma sig_eqb_spec : forall a b, reflect (a = b) (sig_eqb a b).
Proof. intros [] []; constructor; congruence. Qed.
Lemma upd_sig_if : forall A (f : sig -> A) g x k, upd_sig f g x k = if sig_eqb k g then x else f k.
Proof. reflexivity. Qed.

(** ** The variables when [main] has executed [p] operations *)
Definition s0 := p_s (start 0).
Definition a0 := p_a (start 0).
Definition h0 := p_h (start 0).
Definition move (sa : svars * avars) (o : op) : svars * avars := fst (fst (exec o [] (fst sa) (snd sa) h0)).
Definition at_pos (p : nat) : svars * avars := fold_left move (firstn p (main_ops 0)) (s0, a0).
Definition main_rest (p n : nat) : list op := skipn p (main_ops n).
Definition len := 32.
Definition app_pos := 17.
Definition crash_pos := 29.

(** ** Frames *)
Definition csig (s : svars) (a : avars) : Prop :=
  s_handler s = true /\ a_solver a = Live /\ (forall g, s_saved s g = Default) /\ s_handler_set s = true.
Definition rcond (q : nat) (s : svars) (a : avars) (h : hvars) : Prop :=
  (q = 2 -> csig s a /\ h_reports h = []) /\
  (q = 3 -> (forall g, s_saved s g = Default) /\ (s_handler_set s = false -> forall g, In g SIGNALS -> s_disp s g = Default)) /\
  (4 <= q <= 8 -> (forall g, s_saved s g = Default) /\ forall g, In g (firstn (q - 4) SIGNALS) -> s_disp s g = Default) /\
  (9 <= q -> forall g, In g SIGNALS -> s_disp s g = Default).
Definition real (s : svars) (a : avars) (h : hvars) (g : sig) (ops : list op) : Prop :=
  g <> SIGALRM /\ h_caught h <> None /\ exists q, 2 <= q <= 12 /\ ops = skipn q (catch_ops g) /\ rcond q s a h /\ (q = 12 -> h_pending h g = true).
Definition early (s : svars) (a : avars) (h : hvars) (g : sig) (ops : list op) : Prop :=
  g <> SIGALRM /\
  (ops = catch_ops g /\ (h_caught h <> None \/ csig s a) \/
   ops = tl (catch_ops g) /\ csig s a /\ h_caught h = None \/
   ops = [] /\ h_caught h <> None).
Definition alarmed (p : nat) (a : avars) (h : hvars) (g : sig) (ops : list op) : Prop :=
  g = SIGALRM /\ a_disp a = Catch_alarm /\ (ops = [] \/ exists q, q <= 5 /\ ops = skipn q alarm_ops /\ (3 <= q -> h_copy h = a_handle a)).
Fixpoint okf (s : svars) (a : avars) (h : hvars) (p : nat) (fs : list frame) : Prop :=
  match fs with
  | [] => False
  | (None, _) :: fs => fs = [] /\ s = fst (at_pos p)
  | (Some g, ops) :: fs => real s a h g ops \/ (early s a h g ops \/ alarmed p a h g ops) /\ okf s a h p fs
  end.
Definition is_real (s : svars) (a : avars) (h : hvars) (f : frame) : Prop := exists g, fst f = Some g /\ real s a h g (snd f).
Definition has_real (s : svars) (a : avars) (h : hvars) (fs : list frame) : Prop := exists f, In f fs /\ is_real s a h f.
(** No signal but the alarm is handled by the handler of the alarm. *)
Definition nca (s : svars) : Prop := forall g, s_disp s g <> Catch_alarm /\ s_saved s g <> Catch_alarm.
Lemma nca_restore : forall s g, nca s -> nca (mk_svars (upd_sig (s_disp s) g (s_saved s g)) (s_saved s) (s_temp s) (s_handler s) (s_handler_set s)).
Proof. intros s g N k. cbn [s_disp s_saved]. rewrite upd_sig_if. destruct (sig_eqb k g); split; apply N. Qed.
Record pinv (x : process) : Prop := mk_pinv {
  pi_main : exists fs p n, p_frames x = fs ++ [(None, main_rest p n)] /\ p < len /\ p_a x = snd (at_pos p) /\
    (forall f, In f fs -> fst f <> None) /\ okf (p_s x) (p_a x) (p_h x) p (p_frames x);
  pi_nodup : NoDup (map fst (p_frames x));
  pi_caught : h_caught (p_h x) <> None -> has_real (p_s x) (p_a x) (p_h x) (p_frames x);
  pi_reports : h_caught (p_h x) = None -> h_reports (p_h x) = [];
  pi_once : length (h_reports (p_h x)) <= 1;
  pi_nca : nca (p_s x) }.

(** ** Facts about positions of [main], by computation *)
Definition dflt (s : svars) : bool := forallb (fun g => match s_disp s g with Default => true | _ => false end) SIGNALS.
Definition is_live (a : avars) : bool := match a_solver a with Live => true | _ => false end.
Definition pos_ok (p : nat) : bool :=
  let '(s, a) := at_pos p in
  forallb (fun g => match s_saved s g with Default => true | _ => false end) (SIGALRM :: SIGNALS) &&
  (dflt s || (s_handler s && is_live a && s_handler_set s)) &&
  forallb (fun g => match s_disp s g with Catch_alarm => false | _ => true end) (SIGALRM :: SIGNALS) &&
  (match a_disp a with Catch_alarm => (a_handle a || (p =? crash_pos)) && (a_ignore a || is_live a) && is_live a | Catch_signal => false | Default => true end).
Lemma pos_all : forall p, p < len -> pos_ok p = true.
Proof.
  intros p L. assert (H : forallb pos_ok (seq 0 len) = true) by (vm_compute; reflexivity). rewrite forallb_forall in H. apply H. apply in_seq. lia.
Qed.
Lemma saved_all : forall p, p < len -> forall g, s_saved (fst (at_pos p)) g = Default.
Proof.
  intros p L g. pose proof (pos_all p L) as H. unfold pos_ok in H. destruct (at_pos p) as (s & a). apply andb_prop in H as (H & _). apply andb_prop in H as (H & _).
  apply andb_prop in H as (H & _). rewrite forallb_forall in H. specialize (H g). cbn [fst]. destruct (s_saved s g); auto; exfalso; assert (false = true) by (apply H; destruct g; cbn; tauto); discriminate.
Qed.
Lemma in_signals : forall g, g <> SIGALRM <-> In g SIGNALS.
Proof. intros []; cbn; split; try tauto; try congruence; intuition congruence. Qed.
Lemma catch_csig : forall p g, p < len -> In g SIGNALS -> s_disp (fst (at_pos p)) g <> Default -> csig (fst (at_pos p)) (snd (at_pos p)).
Proof.
  intros p g L I N. pose proof (saved_all p L) as Sv. pose proof (pos_all p L) as H. unfold pos_ok in H. destruct (at_pos p) as (s & a). cbn [fst snd] in *.
  apply andb_prop in H as (H & _). apply andb_prop in H as (H & _). apply andb_prop in H as (_ & H). apply orb_prop in H as [H|H].
  - unfold dflt in H. rewrite forallb_forall in H. specialize (H g I). destruct (s_disp s g); congruence.
  - apply andb_prop in H as (H & H3). apply andb_prop in H as (H1 & H2). unfold is_live in H2. split; auto. split; [now destruct (a_solver a)|]. split; auto.
Qed.
Lemma disp_term : forall p g, p < len -> s_disp (fst (at_pos p)) g <> Catch_alarm.
Proof.
  intros p g L E. pose proof (pos_all p L) as H. unfold pos_ok in H. destruct (at_pos p) as (s & a). cbn [fst snd] in *.
  apply andb_prop in H as (H & _). apply andb_prop in H as (_ & H). rewrite forallb_forall in H. assert (I : In g (SIGALRM :: SIGNALS)) by (destruct g; cbn; tauto).
  specialize (H g I). rewrite E in H. discriminate.
Qed.
Lemma alarm_pos : forall p, p < len -> a_disp (snd (at_pos p)) = Catch_alarm -> (a_handle (snd (at_pos p)) = true \/ p = crash_pos) /\ a_solver (snd (at_pos p)) = Live.
Proof.
  intros p L E. pose proof (pos_all p L) as H. unfold pos_ok in H. destruct (at_pos p) as (s & a). cbn [fst snd] in *. rewrite E in H.
  apply andb_prop in H as (_ & H). apply andb_prop in H as (H & H3). apply andb_prop in H as (H1 & _). split.
  - apply orb_prop in H1 as [H1|H1]; auto. right. now apply Nat.eqb_eq.
  - unfold is_live in H3. now destruct (a_solver a).
Qed.
Lemma alarm_disp : forall p, p < len -> a_disp (snd (at_pos p)) <> Catch_signal.
Proof.
  intros p L E. pose proof (pos_all p L) as H. unfold pos_ok in H. destruct (at_pos p) as (s & a). cbn [fst snd] in *. rewrite E in H.
  apply andb_prop in H as (_ & H). discriminate.
Qed.

(** ** Monotonicity *)
Definition later (a : avars) (h h' : hvars) (fs : list frame) : Prop :=
  h_caught h' = h_caught h /\ h_reports h' = h_reports h /\
  (forall g, In (Some g) (map fst fs) -> h_pending h g = true -> h_pending h' g = true) /\ (h_copy h' = h_copy h \/ h_copy h' = a_handle a).
Lemma real_later : forall s a h h' g ops, real s a h g ops -> h_caught h' = h_caught h -> h_reports h' = h_reports h ->
  (h_pending h g = true -> h_pending h' g = true) -> real s a h' g ops.
Proof.
  intros s a h h' g ops (G & C & q & Q & E & R & P) Ec Er Ep. split; auto. split; [now rewrite Ec|]. exists q. split; auto. split; auto. split; auto. unfold rcond in *. now rewrite Er.
Qed.
Lemma okf_later : forall s a h h' p fs, okf s a h p fs -> later a h h' fs -> okf s a h' p fs.
Proof.
  intros s a h h' p. induction fs as [|(who & ops) fs IH]; [auto|]; destruct who as [g|]; cbn [okf map fst]; auto. intros H (Ec & Er & Ep & Cp).
  assert (L : later a h h' fs) by (split; auto; split; auto; split; auto; intros k I; apply Ep; now right).
  destruct H as [H|([H|H] & O)].
  - left. eapply real_later; eauto. intros P. apply Ep; auto. now left.
  - right. split; auto. left. destruct H as (G & H). split; auto. rewrite Ec. exact H.
  - right. split; auto. right. destruct H as (G & D & [H|(q & Q & E & C)]); [split; auto|]. split; auto. split; auto. right. exists q. split; auto. split; auto. intros K. destruct Cp as [->| ->]; auto.
Qed.
Lemma has_real_later : forall s a h h' fs, has_real s a h fs -> later a h h' fs -> has_real s a h' fs.
Proof.
  intros s a h h' fs (f & I & g & E & R) (Ec & Er & Ep & _). exists f. split; auto. exists g. split; auto. eapply real_later; eauto. apply Ep. rewrite <- E. now apply in_map.
Qed.

(** ** Steps *)
Lemma re_top : forall x g ops fs s' h' ops', pinv x -> p_frames x = (Some g, ops) :: fs ->
  (forall p, p < len -> p_a x = snd (at_pos p) -> okf (p_s x) (p_a x) (p_h x) p ((Some g, ops) :: fs) -> okf s' (p_a x) h' p ((Some g, ops') :: fs)) ->
  (h_caught h' <> None -> has_real s' (p_a x) h' ((Some g, ops') :: fs)) -> (h_caught h' = None -> h_reports h' = []) -> length (h_reports h') <= 1 -> nca s' ->
  pinv (mk_process s' (p_a x) h' ((Some g, ops') :: fs) Running).
Proof.
  intros x g ops fs s' h' ops' [(fs0 & p & n & E & L & A & S0 & O) Nd _ _ _ _] Ef Ho Hc Hr Hl Hn. constructor; cbn [p_s p_a p_h p_frames p_status]; auto.
  - rewrite Ef in E. destruct fs0 as [|f fs0]; [discriminate|]. injection E as <- ->. exists ((Some g, ops') :: fs0), p, n. split; auto. split; auto. split; auto. split.
    + intros f [<-|I]; [discriminate|]. apply S0. now right.
    + apply Ho; auto. now rewrite <- Ef.
  - rewrite Ef in Nd. exact Nd.
Qed.
Lemma top_okf : forall x g ops fs, pinv x -> p_frames x = (Some g, ops) :: fs -> exists p, p < len /\ p_a x = snd (at_pos p) /\
  okf (p_s x) (p_a x) (p_h x) p ((Some g, ops) :: fs) /\ exists fs0 n, fs = fs0 ++ [(None, main_rest p n)] /\ forall f, In f fs0 -> fst f <> None.
Proof.
  intros x g ops fs [(fs0 & p & n & E & L & A & S0 & O) _ _ _ _ _] Ef. exists p. split; auto. split; auto. rewrite <- Ef. split; auto.
  rewrite Ef in E. destruct fs0 as [|f fs0]; [discriminate|]. injection E as <- ->. exists fs0, n. split; auto. intros f I. apply S0. now right.
Qed.

(** What is known about the next state. *)
Definition main_at (p : nat) (x : process) : Prop := exists fs n, p_frames x = fs ++ [(None, main_rest p n)].
Definition good (x : process) : Prop :=
  length (h_reports (p_h x)) <= 1 /\
  match p_status x with
  | Running => pinv x
  | Killed _ => True
  | Crashed => main_at crash_pos x /\ exists ops fs, p_frames x = (Some SIGALRM, ops) :: fs
  | Returned => h_caught (p_h x) = None /\ (exists ops, p_frames x = [(None, ops)]) /\ h_reports (p_h x) = [] /\ p_s x = fst (at_pos 31) /\ p_a x = snd (at_pos 31)
  end.
Lemma good_running : forall x, p_status x = Running -> pinv x -> good x.
Proof. intros x E I. split; [apply (pi_once _ I)|]. now rewrite E. Qed.

(** A frame which is real. *)
Lemma real_step : forall x g o ops fs, pinv x -> p_status x = Running -> p_frames x = (Some g, o :: ops) :: fs ->
  real (p_s x) (p_a x) (p_h x) g (o :: ops) -> good (run_one x) /\ (p_status (run_one x) = Running -> exists ops', p_frames (run_one x) = (Some g, ops') :: fs).
Proof.
  intros x g o ops fs I Ru Ef (G & C & q & Q & E & (R1 & R2 & R3 & R4) & P).
  assert (K : forall s' h' ops' q', p_status (mk_process s' (p_a x) h' ((Some g, ops') :: fs) Running) = Running -> 2 <= q' <= 12 -> ops' = skipn q' (catch_ops g) ->
    h_caught h' = h_caught (p_h x) -> rcond q' s' (p_a x) h' -> (q' = 12 -> h_pending h' g = true) -> length (h_reports h') <= 1 -> nca s' ->
    good (mk_process s' (p_a x) h' ((Some g, ops') :: fs) Running)).
  { intros s' h' ops' q' _ Q' E' Ec R' P' Ln Nc'. apply good_running; auto.
    assert (Re : real s' (p_a x) h' g ops') by (split; auto; split; [now rewrite Ec|]; exists q'; auto).
    eapply re_top; eauto.
    - intros. cbn [okf]. now left.
    - intros _. exists (Some g, ops'). split; [now left|]. exists g. split; auto.
    - rewrite Ec. intros X. contradiction. }
  pose proof (pi_once _ I) as Ln. pose proof (pi_nca _ I) as Nc. destruct x as [s a h frames st]. cbn [p_s p_a p_h p_frames p_status] in *. subst frames st.
  assert (D : exists k, q = S (S k) /\ k <= 10) by (exists (q - 2); lia). destruct D as (k & -> & Lk).
  destruct k as [|[|[|[|[|[|[|[|[|[|k]]]]]]]]]].
  11:{ exfalso. destruct k; [cbn in E; discriminate|lia]. }
  all: cbn in E; injection E as -> ->.
  - destruct (R1 eq_refl) as ((H1 & H2 & H3 & H4) & Rp). unfold run_one. cbn [p_frames p_s p_a p_h exec]. rewrite H1, H2, H4. cbn [andb].
    split; [|intros _; eexists; reflexivity]. eapply (K _ _ _ 3); auto; try reflexivity; try lia; try exact Nc; try (apply nca_restore; exact Nc).
    + split; [lia|]. split; [|split; lia]. intros _. cbn [s_disp s_saved s_handler_set]. split; auto. congruence.
    + cbn. rewrite Rp. cbn. lia.
  - destruct (R2 eq_refl) as (H3 & H4). unfold run_one. cbn [p_frames p_s p_a p_h exec]. destruct (s_handler_set s) eqn:Hs.
    + split; [|intros _; eexists; reflexivity]. eapply (K _ _ _ 4); auto; try reflexivity; try lia; try exact Nc; try (apply nca_restore; exact Nc). split; [lia|]. split; [lia|]. split; [|lia]. intros _. split; auto. intros k [].
    + split; [|intros _; eexists; reflexivity]. eapply (K _ _ _ 11); auto; try reflexivity; try lia; try exact Nc; try (apply nca_restore; exact Nc). split; [lia|]. split; [lia|]. split; [lia|]. auto.
  - destruct R3 as (H3 & H4); [lia|]. unfold run_one. cbn [p_frames p_s p_a p_h exec]. split; [|intros _; eexists; reflexivity]. eapply (K _ _ _ 5); auto; try reflexivity; try lia; try exact Nc; try (apply nca_restore; exact Nc).
    split; [lia|]. split; [lia|]. split; [|lia]. intros _. split; auto. intros k [<-|[]]. cbn. apply H3.
  - destruct R3 as (H3 & H4); [lia|]. unfold run_one. cbn [p_frames p_s p_a p_h exec]. split; [|intros _; eexists; reflexivity]. eapply (K _ _ _ 6); auto; try reflexivity; try lia; try exact Nc; try (apply nca_restore; exact Nc).
    split; [lia|]. split; [lia|]. split; [|lia]. intros _. split; auto. intros k J. cbn [s_disp]. rewrite upd_sig_if. destruct (sig_eqb_spec k SIGBUS); [apply H3|].
    apply H4. cbn in *. intuition congruence.
  - destruct R3 as (H3 & H4); [lia|]. unfold run_one. cbn [p_frames p_s p_a p_h exec]. split; [|intros _; eexists; reflexivity]. eapply (K _ _ _ 7); auto; try reflexivity; try lia; try exact Nc; try (apply nca_restore; exact Nc).
    split; [lia|]. split; [lia|]. split; [|lia]. intros _. split; auto. intros k J. cbn [s_disp]. rewrite upd_sig_if. destruct (sig_eqb_spec k SIGINT); [apply H3|].
    apply H4. cbn in *. intuition congruence.
  - destruct R3 as (H3 & H4); [lia|]. unfold run_one. cbn [p_frames p_s p_a p_h exec]. split; [|intros _; eexists; reflexivity]. eapply (K _ _ _ 8); auto; try reflexivity; try lia; try exact Nc; try (apply nca_restore; exact Nc).
    split; [lia|]. split; [lia|]. split; [|lia]. intros _. split; auto. intros k J. cbn [s_disp]. rewrite upd_sig_if. destruct (sig_eqb_spec k SIGSEGV); [apply H3|].
    apply H4. cbn in *. intuition congruence.
  - destruct R3 as (H3 & H4); [lia|]. unfold run_one. cbn [p_frames p_s p_a p_h exec]. split; [|intros _; eexists; reflexivity]. eapply (K _ _ _ 9); auto; try reflexivity; try lia; try exact Nc; try (apply nca_restore; exact Nc).
    split; [lia|]. split; [lia|]. split; [lia|]. intros _ k J. cbn [s_disp]. rewrite upd_sig_if. destruct (sig_eqb_spec k SIGTERM); [apply H3|].
    apply H4. cbn in *. intuition congruence.
  - unfold run_one. cbn [p_frames p_s p_a p_h exec]. split; [|intros _; eexists; reflexivity]. eapply (K _ _ _ 10); auto; try reflexivity; try lia; try exact Nc; try (apply nca_restore; exact Nc).
    split; [lia|]. split; [lia|]. split; [lia|]. intros _. apply R4. lia.
  - unfold run_one. cbn [p_frames p_s p_a p_h exec]. split; [|intros _; eexists; reflexivity]. eapply (K _ _ _ 11); auto; try reflexivity; try lia; try exact Nc; try (apply nca_restore; exact Nc).
    split; [lia|]. split; [lia|]. split; [lia|]. intros _. apply R4. lia.
  - unfold run_one. cbn [p_frames p_s p_a p_h exec]. split; [|intros _; eexists; reflexivity]. eapply (K _ _ _ 12); auto; try reflexivity; try lia; try exact Nc; try (apply nca_restore; exact Nc).
    + split; [lia|]. split; [lia|]. split; [lia|]. intros _. apply R4. lia.
    + intros _. cbn. rewrite upd_sig_if. destruct (sig_eqb_spec g g); congruence.
Qed.
