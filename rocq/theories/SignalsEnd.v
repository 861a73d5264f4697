(** Without alarms each run ends. *)
From Coq Require Import List Bool Arith Lia.
From Verif Require Import Signals SignalsFacts SignalsRun SignalsMore.
Import ListNotations.
Open Scope nat_scope.

Fixpoint wl (l : list op) : nat :=
  match l with
  | [] => 1
  | Check :: _ => 5
  | Set_caught _ :: _ => 4
  | App n :: l => S n + wl l
  | Raise _ :: l => 8 + wl l
  | _ :: l => 1 + wl l
  end.
Definition wb (b : bool) : nat := if b then 6 else 0.
Definition wp (p : sig -> bool) : nat := wb (p SIGABRT) + wb (p SIGBUS) + wb (p SIGINT) + wb (p SIGSEGV) + wb (p SIGTERM) + wb (p SIGALRM).
Fixpoint wfs (fs : list frame) : nat := match fs with [] => 0 | f :: fs => wl (snd f) + wfs fs end.
Definition weight (x : process) : nat := wfs (p_frames x) + wp (h_pending (p_h x)).
Definition uncaught (x : process) : nat := match h_caught (p_h x) with None => 1 | Some _ => 0 end.
Definition less (y x : process) : Prop := uncaught y < uncaught x \/ uncaught y = uncaught x /\ weight y < weight x.

Lemma wp_true : forall p g, wp (upd_sig p g true) <= wp p + 6.
Proof. intros p g. unfold wp, upd_sig. destruct g; cbn [sig_eqb]; unfold wb; repeat (match goal with |- context [if ?b then _ else _] => destruct b end); lia. Qed.
Lemma wp_false : forall p g, p g = true -> wp (upd_sig p g false) + 6 = wp p.
Proof. intros p g E. unfold wp, upd_sig. destruct g; cbn [sig_eqb]; rewrite E; unfold wb; lia. Qed.

Lemma deliver_less : forall g x y, g <> SIGALRM -> nca (p_s x) -> p_status (deliver g x) = Running -> uncaught x = uncaught y -> weight x + 6 <= weight y -> less (deliver g x) y.
Proof.
  intros g x y G N Ru U Wt. unfold deliver in *. destruct (disp x g) eqn:D; [cbn in Ru; discriminate| |].
  - right. split; [exact U|]. unfold weight in *. cbn [p_frames p_h wfs snd]. change (wl (catch_ops g)) with 5. lia.
  - exfalso. pose proof (proj1 (N g)) as Ng. unfold disp in D. destruct g; auto.
Qed.
Lemma real_less : forall x g o ops fs, p_status x = Running -> p_frames x = (Some g, o :: ops) :: fs -> real (p_s x) (p_a x) (p_h x) g (o :: ops) ->
  p_status (run_one x) = Running -> less (run_one x) x.
Proof.
  intros x g o ops fs Ru Ef (G & C & q & Q & E & _) Ru'. destruct x as [s a h frames st]. cbn [p_s p_a p_h p_frames p_status] in *. subst frames st.
  unfold less, uncaught, weight. assert (D : exists k, q = S (S k) /\ k <= 10) by (exists (q - 2); lia). destruct D as (k & -> & Lk).
  destruct k as [|[|[|[|[|[|[|[|[|[|k]]]]]]]]]].
  11:{ exfalso. destruct k; [cbn in E; discriminate|lia]. }
  all: cbn in E; injection E as -> ->; unfold run_one in *; cbn [p_frames p_s p_a p_h exec] in *.
  - destruct (s_handler_set s && s_handler s && _); cbn [p_status] in Ru'; [|discriminate]. right. split; [reflexivity|]. cbn. lia.
  - right. split; [reflexivity|]. destruct (s_handler_set s); cbn; lia.
  - right. split; [reflexivity|]. cbn. lia.
  - right. split; [reflexivity|]. cbn. lia.
  - right. split; [reflexivity|]. cbn. lia.
  - right. split; [reflexivity|]. cbn. lia.
  - right. split; [reflexivity|]. cbn. lia.
  - right. split; [reflexivity|]. cbn. lia.
  - right. split; [reflexivity|]. cbn. lia.
  - right. split; [reflexivity|]. cbn [p_h p_frames h_pending wfs snd wl]. pose proof (wp_true (h_pending h) g). lia.
Qed.
Lemma early_less : forall x g o ops fs, p_status x = Running -> p_frames x = (Some g, o :: ops) :: fs -> early (p_s x) (p_a x) (p_h x) g (o :: ops) -> less (run_one x) x.
Proof.
  intros x g o ops fs Ru Ef (G & H). destruct x as [s a h frames st]. cbn [p_s p_a p_h p_frames p_status] in *. subst frames st.
  unfold less, uncaught, weight. destruct H as [(E & _)|[(E & _ & C)|(E & _)]]; [| |discriminate]; injection E as -> ->; unfold run_one; cbn [p_frames p_s p_a p_h exec].
  - right. destruct (h_caught h) eqn:C; cbn [p_h p_frames]; rewrite C; (split; [reflexivity|]); cbn; lia.
  - left. cbn [p_h h_caught]. rewrite C. lia.
Qed.
Lemma wl_main : forall p m, S p < len -> wl (main_rest (S p) m) < wl (main_rest p (if p =? app_pos then 0 else m)).
Proof.
  intros p m L. unfold len in L. do 31 (destruct p as [|p]; [cbn; lia|]). lia.
Qed.
Lemma main_less : forall x ops fs, pinv x -> p_status x = Running -> p_frames x = (None, ops) :: fs -> p_status (run_one x) = Running -> less (run_one x) x.
Proof.
  intros x ops fs I Ru Ef Ru'. pose proof (main_only _ _ _ I Ef) as (-> & p & n & L & -> & Es & Ea & C).
  destruct x as [s a h frames st]. cbn [p_s p_a p_h p_frames p_status] in *. subst frames st s a.
  unfold less, uncaught, weight. destruct (Nat.eq_dec p app_pos) as [->|N].
  - destruct n as [|m].
    + pose proof (main_move app_pos 0 h) as M. pose proof (wl_main app_pos 0) as Wm. rewrite Nat.eqb_refl in M, Wm. assert (L' : S app_pos < len) by (unfold len, app_pos; lia).
      rewrite M by exact L'. right. split; [reflexivity|]. cbn [p_frames p_h wfs snd]. specialize (Wm L'). lia.
    + rewrite rest_app, app_move. right. split; [reflexivity|]. cbn [p_frames p_h wfs snd wl]. lia.
  - pose proof (main_move p n h) as M. pose proof (wl_main p n) as Wm. rewrite (proj2 (Nat.eqb_neq _ _) N) in M, Wm. destruct (Nat.eq_dec p 31) as [->|N'].
    + rewrite rest_last, ret_move in Ru'. discriminate.
    + unfold len in *. rewrite M by lia. right. split; [reflexivity|]. cbn [p_frames p_h wfs snd]. assert (S p < 32) as L' by lia. specialize (Wm L'). lia.
Qed.
Lemma run_one_less : forall x, pinv x -> p_status x = Running -> (forall f, In f (p_frames x) -> fst f <> Some SIGALRM) -> p_status (run_one x) = Running -> less (run_one x) x.
Proof.
  intros x I Ru Na Ru'. destruct (p_frames x) as [|(who & ops) fs] eqn:Ef.
  - destruct (pi_main _ I) as (fs0 & p & n & E & _). rewrite Ef in E. now destruct fs0.
  - destruct who as [g|]; [|now apply (main_less x ops fs)].
    assert (G : g <> SIGALRM) by (intros ->; apply (Na (Some SIGALRM, ops)); [now left|reflexivity]).
    destruct ops as [|o ops].
    + unfold run_one in *. rewrite Ef in *. destruct (h_pending (p_h x) g) eqn:P.
      * apply deliver_less; auto; [apply (pi_nca _ I)|]. unfold weight. rewrite Ef. cbn [p_frames p_h wfs snd wl set_pending h_pending]. pose proof (wp_false _ _ P). lia.
      * right. split; [reflexivity|]. unfold weight. rewrite Ef. cbn [p_frames p_h wfs snd wl]. lia.
    + destruct (top_okf _ _ _ _ I Ef) as (p & L & A & O & _). cbn [okf] in O. destruct O as [O|([O|O] & _)].
      * now apply (real_less x g o ops fs).
      * now apply (early_less x g o ops fs).
      * destruct O as (O & _). contradiction.
Qed.
Lemma run_ends : forall u w n es, ~ In (Deliver SIGALRM) es -> uncaught (run es (start n)) <= u -> weight (run es (start n)) <= w ->
  exists k, p_status (run (es ++ repeat Run k) (start n)) <> Running.
Proof.
  assert (St : forall n es, ~ In (Deliver SIGALRM) es -> p_status (run es (start n)) = Running -> p_status (run (es ++ [Run]) (start n)) = Running -> less (run (es ++ [Run]) (start n)) (run es (start n))).
  { intros n es Na Ru Ru'. rewrite run_app in *. cbn [run fold_left] in *. unfold step in *. rewrite Ru in *. apply run_one_less; auto.
    - destruct (run_good es n) as (_ & G). now rewrite Ru in G.
    - intros f J E. destruct (run_from n es) as (F & _). apply Na. now apply (F f J). }
  assert (Dec : forall n es, {p_status (run es (start n)) = Running} + {p_status (run es (start n)) <> Running}) by (intros n es; destruct (p_status (run es (start n))); [left|right|right|right]; congruence).
  assert (Nx : forall es, ~ In (Deliver SIGALRM) es -> ~ In (Deliver SIGALRM) (es ++ [Run])) by (intros es N J; apply in_app_or in J as [J|[J|[]]]; [auto|discriminate]).
  assert (Go : forall n es, (exists k, p_status (run ((es ++ [Run]) ++ repeat Run k) (start n)) <> Running) -> exists k, p_status (run (es ++ repeat Run k) (start n)) <> Running).
  { intros n es (k & H). exists (S k). cbn [repeat]. now rewrite <- app_assoc in H. }
  induction u as [u IHu] using lt_wf_ind. induction w as [w IHw] using lt_wf_ind. intros n es Na Lu Lw.
  destruct (Dec n es) as [Ru|Nr]; [|exists 0; now rewrite app_nil_r]. destruct (Dec n (es ++ [Run])) as [Ru'|Nr]; [|now exists 1].
  apply Go. destruct (St n es Na Ru Ru') as [H|(E & H)].
  - apply (IHu (uncaught (run (es ++ [Run]) (start n)))) with (w := weight (run (es ++ [Run]) (start n))); auto. lia.
  - apply (IHw (weight (run (es ++ [Run]) (start n)))); auto; lia.
Qed.
