(** The invariant is kept by each step. *)
From Coq Require Import List Bool Arith Lia.
From Verif Require Import Signals SignalsFacts.
Import ListNotations.
Open Scope nat_scope.

(** A frame before a signal is handled. *)
Lemma early_step : forall x g o ops fs p, pinv x -> p_status x = Running -> p_frames x = (Some g, o :: ops) :: fs ->
  early (p_s x) (p_a x) (p_h x) g (o :: ops) -> okf (p_s x) (p_a x) (p_h x) p fs ->
  good (run_one x) /\ (p_status (run_one x) = Running -> exists ops', p_frames (run_one x) = (Some g, ops') :: fs).
Proof.
  intros x g o ops fs p0 I Ru Ef (G & H) O0. pose proof (pi_once _ I) as Ln. pose proof (pi_nca _ I) as Nc. pose proof (pi_reports _ I) as Rp. pose proof (pi_caught _ I) as Hc. pose proof (fun s' h' ops' => re_top x g _ fs s' h' ops' I Ef) as K.
  destruct (top_okf _ _ _ _ I Ef) as (p1 & L1 & A1 & O1 & _).
  destruct x as [s a h frames st]. cbn [p_s p_a p_h p_frames p_status] in *. subst frames st.
  assert (Ot : forall p, okf s a h p ((Some g, o :: ops) :: fs) -> real s a h g (o :: ops) \/ okf s a h p fs). { intros p [X|X]; tauto. }
  destruct H as [(E & H)|[(E & Cs & Cn)|(E & _)]]; [| |discriminate].
  - injection E as -> ->. unfold run_one. cbn [p_frames p_s p_a p_h exec]. destruct (h_caught h) as [c|] eqn:C.
    + split; [|intros _; eexists; reflexivity]. apply good_running; auto. apply K; auto; try congruence.
      * intros p Lp Ap [X|(_ & X)].
        -- exfalso. destruct X as (_ & _ & q & Q & E & _). assert (D : exists k, q = S (S k)) by (exists (q - 2); lia). destruct D as (k & ->).
           destruct k as [|[|[|[|[|[|[|[|[|[|k]]]]]]]]]]; cbn in E; try discriminate. destruct k; cbn in E; discriminate.
        -- right. split; auto. left. split; auto. right. right. split; auto. rewrite C. discriminate.
      * intros _. destruct Hc as (f & [<-|J] & gg & Eg & Re); [congruence| |].
        -- exfalso. cbn in Re. destruct Re as (_ & _ & q & Q & E & _). assert (D : exists k, q = S (S k)) by (exists (q - 2); lia). destruct D as (k & ->).
           destruct k as [|[|[|[|[|[|[|[|[|[|k]]]]]]]]]]; cbn in E; try discriminate. destruct k; cbn in E; discriminate.
        -- exists f. split; [now right|]. exists gg. auto.
    + split; [|intros _; eexists; reflexivity]. apply good_running; auto. apply K; auto; try congruence.
      intros p Lp Ap [X|(_ & X)]; [exfalso; destruct X as (_ & X & _); congruence|]. right. split; auto. left. split; auto. right. left. split; auto. destruct H as [H|H]; [congruence|]. auto.
  - injection E as -> ->. unfold run_one. cbn [p_frames p_s p_a p_h exec]. split; [|intros _; eexists; reflexivity].
    assert (Re : real s a (mk_hvars (Some g) (h_caught_alarm h) (h_copy h) (h_terminated h) (h_reports h) (h_pending h)) g (skipn 2 (catch_ops g))).
    { split; auto. split; [discriminate|]. exists 2. split; [lia|]. split; [reflexivity|]. split; [|lia]. split; [|split; lia]. intros _. split; auto. }
    apply good_running; auto. apply K; auto.
    + intros p Lp Ap _. left. exact Re.
    + intros _. eexists. split; [now left|]. exists g. split; [reflexivity|exact Re].
Qed.

(** The handler of the alarm. *)
Lemma alarm_step : forall x g o ops fs p, pinv x -> p_status x = Running -> p_frames x = (Some g, o :: ops) :: fs -> p < len -> p_a x = snd (at_pos p) ->
  alarmed p (p_a x) (p_h x) g (o :: ops) -> (exists fs0 n, fs = fs0 ++ [(None, main_rest p n)]) ->
  good (run_one x) /\ (p_status (run_one x) = Running -> exists ops', p_frames (run_one x) = (Some g, ops') :: fs).
Proof.
  intros x g o ops fs p0 I Ru Ef Lp0 Ap0 (G & D & [X|(q & Q & E & Cp)]) (fs0 & n0 & Efs); [discriminate X|]. subst g.
  pose proof (pi_once _ I) as Ln. pose proof (pi_nca _ I) as Nc. pose proof (pi_reports _ I) as Rp. pose proof (pi_caught _ I) as Hc. pose proof (fun s' h' ops' => re_top x SIGALRM _ fs s' h' ops' I Ef) as K.
  assert (Al : (a_handle (p_a x) = true \/ p0 = crash_pos) /\ a_solver (p_a x) = Live) by (rewrite Ap0 in *; now apply alarm_pos).
  destruct x as [s a h frames st]. cbn [p_s p_a p_h p_frames p_status] in *. subst frames st.
  assert (Nr : forall h' ops, ~ real s a h' SIGALRM ops) by (intros h' l (X & _); congruence).
  assert (J : forall h' ops' q', h_caught h' = h_caught h -> h_reports h' = h_reports h -> (forall g, h_pending h g = true -> h_pending h' g = true) ->
    (h_copy h' = h_copy h \/ h_copy h' = a_handle a) -> q' <= 5 -> ops' = skipn q' alarm_ops -> (3 <= q' -> h_copy h' = a_handle a) ->
    good (mk_process s a h' ((Some SIGALRM, ops') :: fs) Running)).
  { intros h' ops' q' Ec Er Ep Ecp Q' E' C'. assert (La : later a h h' fs) by (split; auto).
    apply good_running; auto. apply K; rewrite ?Ec, ?Er; auto.
    - intros p Lp Ap [X|(_ & X)]; [now apply Nr in X|]. right. split; [|eapply okf_later; eauto]. right. split; auto. split; auto. right. exists q'. auto.
    - intros C. destruct (Hc C) as (f & [<-|If] & gg & Eg & Re).
      + cbn in Eg. injection Eg as <-. now apply Nr in Re.
      + exists f. split; [now right|]. exists gg. split; auto. eapply real_later; eauto. }
  destruct q as [|[|[|[|[|q]]]]]; cbn in E; try discriminate; try (destruct q; discriminate); injection E as -> ->; unfold run_one; cbn [p_frames p_s p_a p_h exec].
  - destruct (h_caught_alarm h); (split; [|intros _; eexists; reflexivity]).
    + (* the frame is left: its operations are over *)
      assert (La : later a h h fs) by (split; auto). apply good_running; auto. apply K; auto.
      * intros p Lp Ap [X|(_ & X)]; [now apply Nr in X|]. right. split; auto. right. repeat split; auto.
      * intros C. destruct (Hc C) as (f & [<-|If] & gg & Eg & Re).
        -- cbn in Eg. injection Eg as <-. now apply Nr in Re.
        -- exists f. split; [now right|]. exists gg. auto.
    + apply (J _ _ 1); auto; try lia.
  - split; [|intros _; eexists; reflexivity]. apply (J _ _ 2); auto; try lia.
  - split; [|intros _; eexists; reflexivity]. apply (J _ _ 3); auto.
  - split; [|intros _; eexists; reflexivity]. destruct (a_set a); apply (J _ _ 4); auto; try (intros _; apply Cp; lia).
    + intros g P. cbn. rewrite upd_sig_if. destruct (sig_eqb g SIGALRM); auto.
  - assert (Ec : h_copy h = a_handle a) by (apply Cp; lia). destruct Al as (Ah & Lv). destruct (h_copy h) eqn:Hh; cbn [negb].
    + destruct (a_ignore a); [|rewrite Lv]; (split; [|intros _; eexists; reflexivity]); apply (J _ _ 5); auto; cbn; congruence.
    + split; [|discriminate]. split; auto. cbn. destruct Ah as [Ah| ->]; [congruence|]. split; [exists ((Some SIGALRM, [Call_alarm]) :: fs0), n0; now rewrite Efs|]. eexists _, _. reflexivity.
Qed.

(** [main]. *)
Lemma real_some : forall s a h ops, ~ has_real s a h [(None, ops)].
Proof. intros s a h ops (f & [<-|[]] & g & E & _). discriminate. Qed.
Lemma main_only : forall x ops fs, pinv x -> p_frames x = (None, ops) :: fs ->
  fs = [] /\ exists p n, p < len /\ ops = main_rest p n /\ p_s x = fst (at_pos p) /\ p_a x = snd (at_pos p) /\ h_caught (p_h x) = None.
Proof.
  intros x ops fs [(fs0 & p & n & E & L & A & S0 & O) Nd Hc Rp Ln Nc] Ef. rewrite Ef in E, O, Hc. destruct O as (-> & Es). split; auto.
  exists p, n. split; auto. destruct fs0 as [|f fs0].
  - injection E as ->. repeat split; auto. destruct (h_caught (p_h x)) eqn:C; auto. exfalso. eapply real_some. apply Hc. congruence.
  - exfalso. injection E as <- E. now apply (S0 (None, ops)); [left|].
Qed.
Lemma main_pinv : forall p n h, p < len -> h_caught h = None -> h_reports h = [] -> pinv (mk_process (fst (at_pos p)) (snd (at_pos p)) h [(None, main_rest p n)] Running).
Proof.
  intros p n h L C Rp. constructor; cbn [p_s p_a p_h p_frames p_status].
  - exists [], p, n. split; auto. split; auto. split; auto. split; [intros f []|]. split; auto.
  - repeat constructor. intros [].
  - congruence.
  - auto.
  - rewrite Rp. cbn. lia.
  - intros g. split; [now apply disp_term|]. rewrite saved_all; auto. discriminate.
Qed.
Lemma at_succ : forall p o, nth_error (main_ops 0) p = Some o -> at_pos (S p) = move (at_pos p) o.
Proof.
  intros p o. unfold at_pos. generalize (s0, a0). generalize (main_ops 0). induction p as [|p IH]; intros [|k l] z E; try discriminate.
  - cbn in E. injection E as ->. reflexivity.
  - cbn in E. change (firstn (S (S p)) (k :: l)) with (k :: firstn (S p) l). change (firstn (S p) (k :: l)) with (k :: firstn p l). cbn [fold_left]. now apply IH.
Qed.
Definition plain (o : op) : bool :=
  match o with App (S _) | Return | Check | Set_caught _ | Call _ | Raise _ | Check_alarm | Set_alarm | Copy | Raise_alarm | Call_alarm => false | _ => true end.
Lemma exec_move : forall o ops s a h, plain o = true -> (o = Reset_check -> s_handler_set s = true) ->
  exec o ops s a h = (fst (move (s, a) o), snd (move (s, a) o), h, Go ops).
Proof.
  intros o ops s a h P R. destruct o; try discriminate P; try reflexivity.
  - destruct n; [reflexivity|discriminate P].
  - cbn. now rewrite R.
Qed.
Lemma set_at : s_handler_set (fst (at_pos 18)) = true.
Proof. vm_compute. reflexivity. Qed.
Lemma main_move : forall p m h, S p < len ->
  run_one (mk_process (fst (at_pos p)) (snd (at_pos p)) h [(None, main_rest p (if p =? app_pos then 0 else m))] Running) =
  mk_process (fst (at_pos (S p))) (snd (at_pos (S p))) h [(None, main_rest (S p) m)] Running.
Proof.
  intros p m h L.
  assert (X : exists o, nth_error (main_ops 0) p = Some o /\ plain o = true /\ (o = Reset_check -> p = 18) /\ main_rest p (if p =? app_pos then 0 else m) = o :: main_rest (S p) m).
  { unfold len in L. clear h. do 31 (destruct p as [|p]; [eexists; split; [reflexivity|]; split; [reflexivity|]; split; [first [discriminate|reflexivity]|reflexivity]|]). lia. }
  destruct X as (o & E & P & R & ->). rewrite (at_succ _ _ E). unfold run_one. cbn [p_frames p_s p_a p_h].
  rewrite exec_move; auto.
  intros Eo. rewrite (R Eo). apply set_at.
Qed.
Lemma app_move : forall s a h m ops, run_one (mk_process s a h [(None, App (S m) :: ops)] Running) = mk_process s a h [(None, App m :: ops)] Running.
Proof. reflexivity. Qed.
Lemma ret_move : forall s a h ops, run_one (mk_process s a h [(None, Return :: ops)] Running) = mk_process s a h [(None, ops)] Returned.
Proof. reflexivity. Qed.
Lemma rest_app : forall n, main_rest app_pos n = App n :: main_rest 18 0.
Proof. reflexivity. Qed.
Lemma rest_last : forall n, main_rest 31 n = [Return].
Proof. reflexivity. Qed.
Lemma main_step : forall x ops fs, pinv x -> p_status x = Running -> p_frames x = (None, ops) :: fs -> good (run_one x).
Proof.
  intros x ops fs I Ru Ef. pose proof (main_only _ _ _ I Ef) as (-> & p & n & L & -> & Es & Ea & C). pose proof (pi_reports _ I C) as Rp.
  destruct x as [s a h frames st]. cbn [p_s p_a p_h p_frames p_status] in *. subst frames st s a.
  destruct (Nat.eq_dec p app_pos) as [->|N].
  - destruct n as [|m].
    + pose proof (main_move app_pos 0 h) as M. rewrite Nat.eqb_refl in M. rewrite M by (unfold len, app_pos; lia). apply good_running; auto. apply main_pinv; auto. unfold len, app_pos. lia.
    + rewrite rest_app, app_move, <- rest_app. apply good_running; auto. now apply main_pinv.
  - pose proof (main_move p n h) as M. rewrite (proj2 (Nat.eqb_neq _ _) N) in M. destruct (Nat.eq_dec p 31) as [->|N'].
    + rewrite rest_last, ret_move. split; cbn [p_h p_status p_frames]; [rewrite Rp; cbn; lia|]. split; auto. split; [now exists []|]. auto.
    + unfold len in *. rewrite M by lia. apply good_running; auto. apply main_pinv; auto. unfold len. lia.
Qed.

(** ** Handlers which are over, and signals which are delivered *)
Lemma okf_main : forall s a h p fs, okf s a h p fs -> h_caught h = None -> s = fst (at_pos p).
Proof.
  intros s a h p. induction fs as [|(who & ops) fs IH]; [intros []|]; destruct who as [g|]; cbn [okf].
  - intros [(_ & X & _)|(_ & O)] C; [congruence|]. auto.
  - intros (_ & E) _. exact E.
Qed.
Lemma push : forall x g ops, pinv x -> ~ In (Some g) (map fst (p_frames x)) ->
  (forall p, p < len -> p_a x = snd (at_pos p) -> okf (p_s x) (p_a x) (p_h x) p (p_frames x) -> early (p_s x) (p_a x) (p_h x) g ops \/ alarmed p (p_a x) (p_h x) g ops) ->
  pinv (mk_process (p_s x) (p_a x) (p_h x) ((Some g, ops) :: p_frames x) Running).
Proof.
  intros x g ops [(fs0 & p & n & E & L & A & S0 & O) Nd Hc Rp Ln Nc] Ng H. constructor; cbn [p_s p_a p_h p_frames p_status]; auto.
  - exists ((Some g, ops) :: fs0), p, n. split; [now rewrite E|]. split; auto. split; auto. split.
    + intros f [<-|I]; [discriminate|auto].
    + cbn [okf]. right. split; auto.
  - constructor; auto.
  - intros C. destruct (Hc C) as (f & I & R). exists f. split; [now right|auto].
Qed.
Lemma deliver_good : forall x g, pinv x -> ~ In (Some g) (map fst (p_frames x)) -> good (deliver g x).
Proof.
  intros x g I Ng. pose proof (pi_once _ I) as Ln. pose proof (pi_nca _ I g) as (Nc & _). destruct (pi_main _ I) as (fs0 & p & n & E & L & A & S0 & O). unfold deliver.
  destruct (disp x g) eqn:D.
  - split; auto. exact Logic.I.
  - assert (G : g <> SIGALRM). { intros ->. cbn in D. rewrite A in D. now apply (alarm_disp p). }
    apply good_running; auto. apply push; auto. intros p' L' A' O'. left. split; auto. left. split; auto.
    destruct (h_caught (p_h x)) eqn:C; [left; congruence|]. right.
    assert (Es := okf_main _ _ _ _ _ O' C). rewrite Es, A'. apply (catch_csig p' g); auto; [now apply in_signals|]. rewrite <- Es. unfold disp in D. destruct g; congruence.
  - assert (G : g = SIGALRM). { unfold disp in D. destruct g; congruence. } subst g.
    apply good_running; auto. apply push; auto. intros p' L' A' O'. right. split; auto. split; [exact D|]. right. exists 0. split; [lia|]. split; auto. lia.
Qed.
Lemma skip_nil : forall g q, 2 <= q <= 12 -> [] = skipn q (catch_ops g) -> q = 12.
Proof. intros g q Q E. assert (X : 0 = length (catch_ops g) - q) by (rewrite <- skipn_length, <- E; reflexivity). change (length (catch_ops g)) with 12 in X. lia. Qed.
Lemma real_pop : forall x g fs, pinv x -> p_frames x = (Some g, []) :: fs -> real (p_s x) (p_a x) (p_h x) g [] -> exists k, p_status (run_one x) = Killed k /\ p_h (run_one x) = set_pending g false (p_h x).
Proof.
  intros x g fs I Ef (G & C & q & Q & E & (_ & _ & _ & R) & P). apply skip_nil in E; auto. subst q.
  specialize (P eq_refl). unfold run_one. rewrite Ef, P. exists g. unfold deliver.
  assert (D : disp (mk_process (p_s x) (p_a x) (set_pending g false (p_h x)) fs Running) g = Default).
  { assert (X : s_disp (p_s x) g = Default) by (apply R; [lia|now apply in_signals]). unfold disp. destruct g; auto. congruence. }
  rewrite D. auto.
Qed.
Lemma pop : forall x g fs h', pinv x -> p_frames x = (Some g, []) :: fs -> ~ real (p_s x) (p_a x) (p_h x) g [] -> later (p_a x) (p_h x) h' fs -> pinv (mk_process (p_s x) (p_a x) h' fs Running).
Proof.
  intros x g fs h' [(fs0 & p & n & E & L & A & S0 & O) Nd Hc Rp Ln Nc] Ef Nr La. rewrite Ef in *. pose proof La as (Ec & Er & _). constructor; cbn [p_s p_a p_h p_frames p_status]; auto.
  - destruct fs0 as [|f fs0]; [discriminate|]. injection E as <- ->. exists fs0, p, n. split; auto. split; auto. split; auto. split.
    + intros f J. apply S0. now right.
    + cbn [okf] in O. destruct O as [O|(_ & O)]; [contradiction|]. eapply okf_later; eauto.
  - now inversion Nd.
  - rewrite Ec. intros C. eapply has_real_later; eauto. destruct (Hc C) as (f & [<-|J] & k & Ek & R).
    + cbn in Ek. injection Ek as <-. contradiction.
    + exists f. split; auto. now exists k.
  - now rewrite Ec, Er.
  - now rewrite Er.
Qed.
Lemma real_nil_dec : forall x g, {h_pending (p_h x) g = true /\ s_disp (p_s x) g = Default /\ g <> SIGALRM} + {~ real (p_s x) (p_a x) (p_h x) g []}.
Proof.
  intros x g. destruct (h_pending (p_h x) g) eqn:P; [destruct (s_disp (p_s x) g) eqn:D; [destruct (sig_eqb_spec g SIGALRM); [right; intros (X & _); congruence|left; auto]| |]|]; right; intros (G & C & q & Q & E & (_ & _ & _ & R) & Pq);
    (apply skip_nil in E; auto); subst q; try specialize (Pq eq_refl); try congruence;
    (assert (X : s_disp (p_s x) g = Default) by (apply R; [lia|now apply in_signals])); congruence.
Qed.
Lemma pop_good : forall x g fs, pinv x -> p_frames x = (Some g, []) :: fs -> good (run_one x).
Proof.
  intros x g fs I Ef. pose proof (pi_once _ I) as Ln. pose proof (pi_nodup _ I) as Nd. rewrite Ef in Nd. cbn [map fst] in Nd. inversion Nd as [|? ? Ng Nd']. subst.
  destruct (real_nil_dec x g) as [(P & D & G)|Nr].
  - unfold run_one. rewrite Ef, P. unfold deliver. assert (X : disp (mk_process (p_s x) (p_a x) (set_pending g false (p_h x)) fs Running) g = Default) by (unfold disp; destruct g; auto; congruence).
    rewrite X. split; auto. exact Logic.I.
  - unfold run_one. rewrite Ef. destruct (h_pending (p_h x) g).
    + apply deliver_good; auto. apply (pop x g fs); auto. split; auto. split; auto. split; auto. intros k J P. cbn. rewrite upd_sig_if. destruct (sig_eqb_spec k g); auto. subst k. contradiction.
    + apply good_running; auto. apply (pop x g fs); auto. split; auto.
Qed.
Lemma run_one_good : forall x, pinv x -> p_status x = Running -> good (run_one x).
Proof.
  intros x I Ru. destruct (p_frames x) as [|(who & ops) fs] eqn:Ef.
  - destruct (pi_main _ I) as (fs0 & p & n & E & _). rewrite Ef in E. now destruct fs0.
  - destruct who as [g|]; [|now apply (main_step x ops fs)]. destruct ops as [|o ops]; [now apply (pop_good x g fs)|].
    destruct (top_okf _ _ _ _ I Ef) as (p & L & A & O & fs0 & n & E & _). cbn [okf] in O. destruct O as [O|([O|O] & O')].
    + now apply (real_step x g o ops fs).
    + now apply (early_step x g o ops fs p).
    + apply (alarm_step x g o ops fs p); auto. now exists fs0, n.
Qed.
Lemma blocked_in : forall g fs, blocked g fs = false -> ~ In (Some g) (map fst fs).
Proof.
  intros g fs B J. apply in_map_iff in J as (f & E & J). assert (X : blocked g fs = true).
  - unfold blocked. apply existsb_exists. exists f. split; auto. rewrite E. now destruct g.
  - congruence.
Qed.
Lemma step_good : forall x e, good x -> good (step x e).
Proof.
  intros x e (Ln & G). unfold step. destruct (p_status x) eqn:Ru; try (split; [exact Ln|rewrite Ru; exact G]). destruct e as [|g]; [now apply run_one_good|].
  destruct (blocked g (p_frames x)) eqn:B; [|apply deliver_good; auto; now apply blocked_in].
  apply good_running; auto. destruct G as [(fs0 & p & n & E & L & A & S0 & O) Nd Hc Rp _ Nc].
  assert (La : forall fs, later (p_a x) (p_h x) (set_pending g true (p_h x)) fs). { intros fs. split; auto. split; auto. split; auto. intros k _ P. cbn. rewrite upd_sig_if. destruct (sig_eqb k g); auto. }
  constructor; cbn [p_s p_a p_h p_frames p_status]; auto.
  - exists fs0, p, n. repeat (split; auto). eapply okf_later; eauto.
  - intros C. eapply has_real_later; eauto.
Qed.
Lemma start_good : forall n, good (start n).
Proof. intros n. apply good_running; auto. apply (main_pinv 0 n); auto. unfold len. lia. Qed.
Lemma run_app : forall es es' x, run (es ++ es') x = run es' (run es x).
Proof. intros es es' x. unfold run. apply fold_left_app. Qed.
Lemma run_good_from : forall es x, good x -> good (run es x).
Proof. intros es. induction es as [|e es IH]; intros x G; auto. cbn. apply IH. now apply step_good. Qed.
Lemma run_good : forall es n, good (run es (start n)).
Proof. intros. apply run_good_from, start_good. Qed.
