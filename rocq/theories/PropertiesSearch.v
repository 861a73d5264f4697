(** Properties of the search: propagation, conflict analysis, backtracking and reduction (C36-C40). *)
From Coq Require Import ZArith List Bool Lia Arith Permutation.
From Coq Require Import ZifyBool ZifyNat.
From Verif Require Import Base Hoare SpecSat SpecApi SpecSearch Lit Sem Solver Analyze Search Api Inv DbFacts AssignFacts AssignSpec BacktrackFacts PropFacts PropLoop Justify CutFacts OneLit ClauseFacts Otfs DeduceLoop Learnable LearnFacts AnalyzeLoop CollectFacts SearchFacts Keeps OriginalFacts ApiFacts PropertiesApi.
Import ListNotations.
Open Scope nat_scope.
Open Scope outcome_scope.

(** ** The states of the search *)
(** The states at the beginning of the iterations of the loop of [kissat_search], whatever the heuristics choose. *)
Inductive reached (o : options) (a : api) : solver -> Prop :=
| reached_start : forall bb, inconsistent (sol a) = false -> reached o a (set_bigbig bb (sol a))
| reached_step : forall s ch s', reached o a s -> search_step o ch s = Ret (Go s') -> reached o a s'.

(** The caller has made the calls [cs], which lead to [a], and solving has reached [s]. *)
Definition searching (tumble : bool) (o : options) (cs : list call) (a : api) (s : solver) : Prop :=
  run_calls tumble o cs kissat_init = Ret a /\ reached o a s.

(** Every satisfying assignment of the formula satisfies the clause [c] of internal literals. *)
Definition implied (cs : list call) (a : api) (c : list lit) : Prop :=
  forall v, satisfies v (formula_of cs) -> exists l, In l c /\ literal_true v (export_literal a l) = true.

(** The formula in terms of internal literals. *)
Definition inside (cs : list call) (a : api) : list (list lit) := map (map (internal a)) (formula_of cs).

Lemma searching_ready : forall tumble o cs a s, searching tumble o cs a s ->
  ready (inside cs a) s /\ inconsistent s = false /\ shape s = shape (sol a).
Proof.
  intros tumble o cs a s [E R]. destruct (run_calls_spec _ _ _ _ E) as [Ai _]. unfold inside.
  induction R as [bb I|s ch s' R (IH1 & IH2 & IH3) St].
  - splits; auto. apply ready_bigbig. destruct (ai_s _ _ Ai) as [_ Si]. rewrite I in Si. now apply live_ready.
  - pose proof (search_step_spec (map (map (internal a)) (formula_of cs)) o ch s IH1 IH2) as P. rewrite St in P. cbn in P.
    destruct P as (A & B & C). splits; auto. congruence.
Qed.
(** The loop of the search only goes through such states. *)
Lemma search_loop_reached : forall o a fuel choices s r, reached o a s -> search_loop fuel o choices s = Ret r ->
  exists s' ch, reached o a s' /\ search_step o ch s' = Ret (Done r).
Proof.
  intros o a. induction fuel as [|fuel IH]; intros choices s r R H; [discriminate|]. cbn [search_loop] in H.
  destruct (search_step o (choices 0) s) as [[s1|r1]| | |] eqn:E; try discriminate; cbn [obind] in H.
  - apply (IH (fun i => choices (S i)) s1 r); auto. eapply reached_step; eauto.
  - inversion H; subst. exists s, (choices 0). auto.
Qed.

Lemma implied_rup : forall tumble o cs a p s c, run_calls tumble o cs kissat_init = Ret a -> core (inside cs a) p s -> shape s = shape (sol a) ->
  rup neg (db s) c -> (forall l, In l c -> values s l <> None) -> implied cs a c.
Proof.
  intros tumble o cs a p s c E Co Sh R H v Sv. destruct (run_calls_spec _ _ _ _ E) as [Ai _]. pose proof (ai_m _ _ Ai) as M.
  apply (inner_sat a v _ M (lits_ok _ _ Ai)) in Sv. pose proof (co_l _ _ _ Co) as L.
  assert (Sd : sat (inner a v) (db s)).
  { apply covers_sat with (b := pdb (inside cs a) (steps s)); [now apply linv_covers|]. apply proof_ok_sat; auto. apply L. }
  destruct (rup_sound _ _ _ R Sd) as (l & Il & Tl). exists l. split; auto. rewrite <- export_true; auto.
  assert (D : dom s l) by (apply (ti_range _ (co_v _ _ _ Co)); auto). apply dom_lt in D. unfold shape in Sh. now injection Sh as <- _.
Qed.

(** ** C36: propagation.  Values are kept, new literals are forced by a clause, clauses are only reordered, a conflict is a
    falsified clause, without conflict there is no falsified clause, and at the root level every clause is satisfied or has
    two literals without value. *)
Theorem C36_propagation_partial : forall tumble o cs a s s' confl,
  searching tumble o cs a s -> search_propagate o s = Ret (s', confl) ->
  (forall l b, values s l = Some b -> values s' l = Some b) /\
  (forall l, values s l = None -> values s' l = Some true -> exists c, present s' c /\ forces (values s') c l) /\
  (forall c, present s c -> exists d, present s' d /\ Permutation c d) /\
  (forall c, present s' c -> exists d, present s d /\ Permutation c d) /\
  match confl with
  | Some k => exists c, conflict_lits s' k = Some c /\ present s' c /\ falsified (values s') c
  | None => forall c, present s' c -> ~ falsified (values s') c /\
      (level s' = 0 -> satisfied (values s') c \/ undetermined (values s') c)
  end.
Proof.
  intros tumble o cs a s s' confl Se E. destruct (searching_ready _ _ _ _ _ Se) as ((Co & Pi & Cl) & Ic & Sh).
  pose proof (search_propagate_spec _ o s Co Pi) as Po. rewrite E in Po. cbn [wp] in Po. unfold propagate_post in Po. destruct Po as [Qu Po].
  assert (Ev : evolves s s') by (apply (search_propagate_evolves o s s' confl); auto; exact (ti_neg _ (co_v _ _ _ Co))).
  split; [exact (ev_values _ _ Ev)|]. split; [exact (ev_new _ _ Ev (ti_neg _ (co_v _ _ _ Co)))|]. splits.
  - intros c. apply (ev_present _ _ _ Ev).
  - intros c. apply (ev_present_back _ _ _ Ev).
  - destruct confl as [[x y|r]|].
    + destruct Po as (_ & (I & Fx & Fy) & _). exists [x; y]. splits; auto.
      * left. eauto.
      * now intros l [<-|[<-|[]]].
    + destruct Po as (_ & (d & Ar & G & Fd) & _). exists (c_lits d). cbn. rewrite Ar. splits; auto. right. eauto.
    + destruct Po as ((Co' & Pr' & Pi') & _ & Tr'). pose proof (co_v _ _ _ Co') as V'.
      assert (Bf : forall y, before s' y (length (trail s'))) by (intros y I; rewrite <- tpos_neg; now apply tpos_lt).
      assert (W : forall c w x, watched_ok s' (length (trail s')) c w x -> watched_ok s' (length (trail s')) c x w -> In w c -> In x c -> w <> x ->
        ~ falsified (values s') c /\ (level s' = 0 -> satisfied (values s') c \/ undetermined (values s') c)).
      { intros c w x [B R1] [_ R2] Iw Ix N. split.
        - intros F. destruct (B (F w Iw) (Bf w) (F x Ix) (Bf x) (level s')) as (t & It & Tt & _); auto. rewrite (F t It) in Tt. discriminate.
        - intros L0. pose proof (Tr' L0) as T0.
          assert (Rt : forall y, root_ok s' (length (trail s')) c y -> values s' y = Some false -> satisfied (values s') c).
          { intros y Ry Fy. destruct (Ry Fy (Bf y)) as (t & It & Tt & _); [intros I; rewrite T0 in I; destruct I|]. exists t. auto. }
          destruct (values s' w) as [[]|] eqn:Ew; [left; exists w; auto|left; eauto|].
          destruct (values s' x) as [[]|] eqn:Ex; [left; exists x; auto|left; eauto|]. right. exists w, x. auto. }
      intros c [(x & y & -> & I)|(r & d & Ar & G & ->)].
      * destruct (wi_bin _ _ _ _ _ (co_w _ _ _ Co') x y I) as (N & _). apply (W [x; y] x y); cbn; auto; [now apply (pi_bin _ _ Pi')|].
        pose proof (pi_bin _ _ Pi' y x (wi_sym _ _ _ _ _ (co_w _ _ _ Co') _ _ I)) as [B R]. split.
        -- intros F1 B1 F2 B2 k H. destruct (B F1 B1 F2 B2 k H) as (t & It & Tt). exists t. split; auto. cbn in *. tauto.
        -- intros F1 B1 B2. destruct (R F1 B1 B2) as (t & It & Tt). exists t. split; auto. cbn in *. tauto.
      * pose proof (ci_len _ (co_c _ _ _ Co') r d Ar G) as Ln. pose proof (ci_nodup _ (co_c _ _ _ Co') r d Ar G) as Nd.
        destruct (c_lits d) as [|w [|x rest]] eqn:Ed; try (cbn in Ln; lia).
        assert (N : w <> x) by (inversion Nd; subst; intros ->; apply H1; now left).
        assert (Ww : watching w d) by (left; now rewrite Ed). assert (Wx : watching x d) by (right; now rewrite Ed).
        rewrite <- Ed. apply (W (c_lits d) w x); auto; try (apply (pi_large _ _ Pi' r d); auto); rewrite Ed; cbn; auto.
Qed.
Print Assumptions C36_propagation_partial.

(** ** C37, C38: conflict analysis *)
(** A conflict which is analyzed: found by propagation above the root level, or found by on-the-fly strengthening while another
    conflict is analyzed. *)
Inductive conflicting (o : options) (a : api) : solver -> conflict -> Prop :=
| conflicting_found : forall s s' c, reached o a s -> search_propagate o s = Ret (s', Some c) -> inconsistent s' = false ->
    conflicting o a s' c
| conflicting_strengthened : forall s c s1 cl s2 c', conflicting o a s c ->
    one_literal_on_conflict_level o c s = Ret (s1, false, cl) -> 1 < cl ->
    deduce_first_uip_clause o c s1 = Ret (s2, Some c') ->
    conflicting o a (set_an (reset_only_analyzed (reset_analysis_but_not_analyzed (an s2))) s2) c'.

(** [s] holds the clause deduced from such a conflict. *)
Definition deducing (tumble : bool) (o : options) (cs : list call) (a : api) (s : solver) : Prop :=
  run_calls tumble o cs kissat_init = Ret a /\
  exists s0 c s1 cl, conflicting o a s0 c /\ one_literal_on_conflict_level o c s0 = Ret (s1, false, cl) /\ 1 < cl /\
    deduce_first_uip_clause o c s1 = Ret (s, None).

Lemma conflicting_aprec : forall tumble o cs a s c, run_calls tumble o cs kissat_init = Ret a -> conflicting o a s c ->
  (exists p, aprec (inside cs a) p s c) /\ shape s = shape (sol a).
Proof.
  intros tumble o cs a s c E C. induction C as [s s' c R P I|s c s1 cl s2 c' C [(p & Ap) Sh] O Lt D].
  - destruct (searching_ready tumble o cs a s (conj E R)) as ((Co & Pi & Cl) & Ic & Sh).
    pose proof (search_propagate_spec _ o s Co Pi) as Po. rewrite P in Po. cbn [wp] in Po. destruct Po as (Qu & Co' & Ok & Po).
    split; [|rewrite (qu_shape _ _ Qu); auto]. exists (length (trail s')). destruct (Nat.eqb_spec (level s) 0) as [L0|L0]; [congruence|].
    destruct Po as [_ Pi']. rewrite <- (qu_level _ _ Qu) in L0. constructor; auto; try lia.
    + intros lits l El Il Ll. pose proof (co_v _ _ _ Co') as V.
      assert (Fl : values s' l = Some false).
      { destruct c as [x y|r]; cbn in El, Ok.
        - inversion El; subst lits. destruct Ok as (_ & A & B). destruct Il as [<-|[<-|[]]]; auto.
        - destruct Ok as (d & Ar & G & Fd). rewrite Ar in El. cbn in El. inversion El; subst. auto. }
      rewrite <- tpos_neg. apply tpos_lt; auto. apply false_on_trail; auto. lia.
    + now apply (qu_clean _ _ Qu).
  - pose proof (one_literal_spec _ p o c s Ap) as Po. rewrite O in Po. cbn [wp] in Po. destruct Po as [V1 Po].
    replace (cl =? 0) with false in Po by (symmetry; apply Nat.eqb_neq; lia).
    destruct Po as (p1 & Ap1 & St & Lv & _ & _ & _ & lits & l & m & Cf & Il & Im & Nlm & Ll & Lm).
    pose proof (deduce_spec o _ p1 s1 c lits Ap1 Cf) as De. rewrite D in De. cbn [wp] in De.
    destruct De as (St2 & Lv2 & Tr2 & p' & Pl & Ap2).
    { exists l, m. rewrite Lv. auto. }
    split; [exists p'; auto|]. destruct St2 as [X _]. unfold shape in *. cbn. congruence.
Qed.

Lemma deducing_uip : forall tumble o cs a s, deducing tumble o cs a s -> exists s1 c lits p a0 uip,
  aprec (inside cs a) p s1 c /\ cfl s1 c lits /\ uipres p s1 lits a0 uip /\ s = deduced s1 a0 uip /\ shape s1 = shape (sol a) /\ 1 < level s1.
Proof.
  intros tumble o cs a s (E & s0 & c & s1 & cl & C & O & Lt & D). destruct (conflicting_aprec _ _ _ _ _ _ E C) as [[p Ap] Sh].
  pose proof (one_literal_spec _ p o c s0 Ap) as Po. rewrite O in Po. cbn [wp] in Po. destruct Po as [V1 Po].
  replace (cl =? 0) with false in Po by (symmetry; apply Nat.eqb_neq; lia).
  destruct Po as (p1 & Ap1 & St & Lv & _ & _ & _ & lits & l & m & Cf & Il & Im & Nlm & Ll & Lm).
  pose proof (deduce_spec o _ p1 s1 c lits Ap1 Cf) as De. rewrite D in De. cbn [wp] in De.
  destruct De as (a0 & uip & U & ->). { exists l, m. rewrite Lv. auto. }
  exists s1, c, lits, p1, a0, uip. splits; auto; [congruence|lia].
Qed.

Lemma learnable_asserting : forall tumble o cs a p s1 c an1 nu K, run_calls tumble o cs kissat_init = Ret a -> aprec (inside cs a) p s1 c -> shape s1 = shape (sol a) ->
  learnable s1 an1 nu K -> implied cs a (an_clause an1) /\ asserting (values s1) (lev s1) (level s1) (an_clause an1) nu.
Proof.
  intros tumble o cs a p s1 c an1 nu K E Ap Sh [A B C D F G]. rewrite A.
  assert (Fa : falsified (values s1) (nu :: K)) by (intros l [<-|I]; [apply D|now apply F]).
  split.
  - apply (implied_rup tumble o cs a p s1); auto; [apply Ap|]. intros l I. rewrite (Fa l I). discriminate.
  - unfold asserting. splits; auto; try apply D; [|now left|].
    + constructor; auto. intros I. destruct D as [_ D]. destruct (F nu I) as [_ X]. lia.
    + intros k [<-|I] N; [congruence|now apply F].
Qed.

(** The deduced clause is implied by the formula, it is false, and its first literal is its only literal of the conflict level. *)
Theorem C37_deduced : forall tumble o cs a s, deducing tumble o cs a s ->
  exists first, nth_error (an_clause (an s)) 0 = Some first /\ implied cs a (an_clause (an s)) /\
    asserting (values s) (lev s) (level s) (an_clause (an s)) first.
Proof.
  intros tumble o cs a s D. pose proof (proj1 D) as E. destruct (deducing_uip _ _ _ _ _ D) as (s1 & c & lits & p & a0 & uip & Ap & Cf & U & -> & Sh & Lv).
  exists (neg uip). split; [reflexivity|]. apply (learnable_asserting tumble o cs a p s1 c _ (neg uip) (an_clause a0)); auto.
  eapply plain_learnable; eauto.
Qed.
Print Assumptions C37_deduced.

Lemma minimize_and_shrink_spec : forall tumble o cs a s, deducing tumble o cs a s ->
  wp (minimize_and_shrink o s) (fun s' => exists s1 c lits p a0 uip a' K, aprec (inside cs a) p s1 c /\ cfl s1 c lits /\ uipres p s1 lits a0 uip /\ s = deduced s1 a0 uip /\ shape s1 = shape (sol a) /\
    s' = set_an a' s1 /\ learnable s1 a' (neg uip) K /\ (o_shrink o = 0 -> incl K (an_clause a0))).
Proof.
  intros tumble o cs a s D. destruct (deducing_uip _ _ _ _ _ D) as (s1 & c & lits & p & a0 & uip & Ap & Cf & U & -> & Sh & Lv). unfold minimize_and_shrink.
  destruct (o_minimize o).
  - apply wp_bind. eapply wp_mono; [apply (minimize_clause_spec _ p s1 c lits a0 uip Ap U o)|]. intros s' (a' & K & -> & Sg).
    destruct (Nat.ltb_spec 0 (o_shrink o)) as [Ls|Ls].
    + eapply wp_mono; [apply (shrink_clause_spec _ p s1 c lits a0 uip Ap Cf U o a' K Sg)|]. intros s' (a2 & K2 & -> & Le).
      exists s1, c, lits, p, a0, uip, a2, K2. splits; auto. lia.
    + apply wp_ret. exists s1, c, lits, p, a0, uip, a', K. splits; auto; [apply (stage_learnable _ p s1 c lits a0 uip Ap Cf U a' K Sg)|]. intros _. apply (st_sub _ _ _ _ _ _ Sg).
  - apply wp_ret. exists s1, c, lits, p, a0, uip, (set_an_clause (neg uip :: an_clause a0) a0), (an_clause a0). splits; auto; [|intros _; apply incl_refl]. eapply plain_learnable; eauto.
Qed.

(** Minimization and shrinking do not fail, and the resulting clause is still implied and asserting with the same first literal.
    Without shrinking its literals are literals of the deduced clause. *)
Theorem C38_minimized : forall tumble o cs a s, deducing tumble o cs a s ->
  exists s' first, minimize_and_shrink o s = Ret s' /\
    nth_error (an_clause (an s)) 0 = Some first /\ nth_error (an_clause (an s')) 0 = Some first /\
    values s' = values s /\ assigned s' = assigned s /\ level s' = level s /\
    implied cs a (an_clause (an s')) /\ asserting (values s') (lev s') (level s') (an_clause (an s')) first /\
    (o_shrink o = 0 -> incl (an_clause (an s')) (an_clause (an s))).
Proof.
  intros tumble o cs a s D. pose proof (proj1 D) as E. pose proof (minimize_and_shrink_spec _ _ _ _ _ D) as W.
  apply wp_inv in W as (s' & Es & s1 & c & lits & p & a0 & uip & a' & K & Ap & Cf & U & -> & Sh & -> & Le & In). exists (set_an a' s1), (neg uip).
  destruct (learnable_asserting tumble o cs a p s1 c a' (neg uip) K E Ap Sh Le) as [A B]. splits; auto; cbn [an set_an]; rewrite (le_clause _ _ _ _ Le); auto.
  intros Z l [<-|I]; [now left|right; now apply In].
Qed.
Print Assumptions C38_minimized.

(** Learning the clause: it backtracks to a smaller level, adds the clause to the proof and, if it is not a unit, to the clauses, with
    the first literal as first watch and a literal of the highest level of the others as second watch, and makes the first literal
    true, while the other literals stay false; a unit is assigned at the root level. *)
Theorem C37_learned : forall tumble o cs a s s1, deducing tumble o cs a s -> minimize_and_shrink o s = Ret s1 ->
  exists s2 c first, learn_clause o s1 = Ret s2 /\ Permutation (an_clause (an s1)) c /\
    nth_error (an_clause (an s)) 0 = Some first /\ nth_error c 0 = Some first /\
    level s2 < level s1 /\ In (Added c) (steps s2) /\ (1 < length c -> present s2 c) /\ (length c = 1 -> lev s2 first = 0) /\
    values s2 first = Some true /\
    (forall k, In k c -> k <> first -> values s2 k = Some false /\ lev s2 k <= lev s2 (nth 1 c 0)).
Proof.
  intros tumble o cs a s s1 D E. pose proof (minimize_and_shrink_spec _ _ _ _ _ D) as W. rewrite E in W. cbn [wp] in W.
  destruct W as (t & c & lits & p & a0 & uip & a' & K & Ap & Cf & U & -> & Sh & -> & Le & _).
  pose proof (learn_clause_spec (inside cs a) p (set_an a' t) (neg uip) K o (core_set_an _ _ _ _ (ap_core _ _ _ _ Ap)) (pinv_set_an _ _ _ (ap_pinv _ _ _ _ Ap)) (ap_level _ _ _ _ Ap) (learnable_set_an _ _ _ _ Le)) as W.
  apply wp_inv in W as (s2 & Es & _ & _ & _ & _ & Tn & Fk & Lv & z & Z1 & Z2 & Z3 & Z4 & Z5 & Z6).
  exists s2, z, (neg uip). pose proof (Permutation_length Z2) as Ln. cbn [length] in Ln. splits; auto.
  - cbn. rewrite (le_clause _ _ _ _ Le). auto.
  - intros H. apply Z6. intros ->. cbn in Ln. lia.
  - intros H. apply Z5. destruct K; auto. cbn in Ln. lia.
  - intros k I N. assert (Ik : In k K) by (apply (Permutation_in k (Permutation_sym Z2)) in I as [I|I]; congruence). auto.
Qed.
Print Assumptions C37_learned.

(** ** C39: backtracking.  [s1] is a state of the search after propagation; [d] is the decision of the first level that is undone. *)
Theorem C39_backtracking : forall tumble o cs a s s1 confl k, searching tumble o cs a s ->
  search_propagate o s = Ret (s1, confl) -> k < level s1 ->
  exists s2 d p, backtrack k s1 = Ret s2 /\ level s2 = k /\
    (* exactly the literals of higher levels lose their value *)
    (forall l, values s2 l = if lev s1 l <=? k then values s1 l else None) /\
    (* the others keep order, level, reason and clauses *)
    trail s2 = filter (fun l => lev s1 l <=? k) (trail s1) /\
    (forall l, lev s2 l = lev s1 l /\ reas s2 l = reas s1 l) /\
    (forall i l, nth_error (trail s2) i = Some l -> tpos s2 l = i) /\
    arena s2 = arena s1 /\ watches s2 = watches s1 /\ steps s2 = steps s1 /\
    (* [d] is at position [p], the literals before [p] are kept, and all literals kept from there on are propagated again *)
    nth_error (trail s1) p = Some d /\ lev s1 d = S k /\ reas s1 d = RDecision /\
    firstn p (trail s2) = firstn p (trail s1) /\ propagate s2 = p.
Proof.
  intros tumble o cs a s s1 confl k Se E Lk. destruct (searching_ready _ _ _ _ _ Se) as ((Co & Pi & Cl) & Ic & Sh).
  pose proof (search_propagate_spec _ o s Co Pi) as Po. rewrite E in Po. cbn [wp] in Po. unfold propagate_post in Po. destruct Po as [_ Po].
  assert (Co1 : exists q, core (inside cs a) q s1).
  { destruct confl; [destruct Po as [C _]; eauto|]. destruct Po as ((C & _) & _). eauto. }
  destruct Co1 as [q Co1]. pose proof (co_v _ _ _ Co1) as V. pose proof (co_f _ _ _ Co1) as F.
  destruct (backtrack_eq k s1 V F Lk) as (s2 & Eb & B). destruct (ti_dec _ F (S k)) as (f & Ef & Et & Ed & Er); [lia|].
  exists s2, (f_decision f), (f_trail f). splits; auto; try apply B.
  - intros l. split; apply B.
  - assert (Ts : T s1 (S k) = f_trail f).
    { unfold T. erewrite nth_indep; [rewrite (map_nth f_trail (frames s1) f), (nth_error_nth _ _ f Ef); reflexivity|]. rewrite map_length. apply nth_error_Some. congruence. }
    rewrite (bt_trail _ _ _ B). rewrite <- (firstn_skipn (f_trail f) (trail s1)) at 1. rewrite filter_app.
    assert (Ff : filter (fun l => lev s1 l <=? k) (firstn (f_trail f) (trail s1)) = firstn (f_trail f) (trail s1)).
    { assert (H : forall l, In l (firstn (f_trail f) (trail s1)) -> (lev s1 l <=? k) = true).
      { intros l I. apply In_nth_error in I as (i & I). apply Nat.leb_le.
        assert (Hi : i < f_trail f). { assert (X : nth_error (firstn (f_trail f) (trail s1)) i <> None) by congruence. apply nth_error_Some in X. rewrite firstn_length in X. lia. }
        apply (ti_lev _ F k i l); [|lia]. rewrite <- I. rewrite <- (firstn_skipn (f_trail f) (trail s1)) at 1. rewrite nth_error_app1; auto. apply nth_error_Some. congruence. }
      revert H. generalize (firstn (f_trail f) (trail s1)). induction l as [|x l IH]; intros H; auto. cbn [filter]. rewrite (H x (or_introl eq_refl)). f_equal. apply IH. intros y Iy. apply H. now right. }
    rewrite Ff, firstn_app. rewrite firstn_firstn, Nat.min_id, firstn_length.
    assert (f_trail f < length (trail s1)) by (apply nth_error_Some; congruence).
    replace (f_trail f - Nat.min (f_trail f) (length (trail s1))) with 0 by lia. now rewrite firstn_O, app_nil_r.
  - rewrite (bt_prop _ _ _ B). unfold T. erewrite nth_indep; [rewrite (map_nth f_trail (frames s1) f), (nth_error_nth _ _ f Ef); reflexivity|]. rewrite map_length. apply nth_error_Some. congruence.
Qed.
Print Assumptions C39_backtracking.

(** ** C40: reduction.  [entry s c red]: the solver holds the clause [c], and [red] tells whether it is redundant. *)
(** In every state of the search the clauses and fixed literals held are equivalent to the formula. *)
Theorem C40_equivalent : forall tumble o cs a s v, searching tumble o cs a s ->
  satisfies v (formula_of cs) <-> forall c, held s c -> exists l, In l c /\ literal_true v (export_literal a l) = true.
Proof.
  intros tumble o cs a s v Se. destruct (searching_ready _ _ _ _ _ Se) as ((Co & _) & _ & Sh). destruct Se as [E _].
  destruct (run_calls_spec _ _ _ _ E) as [Ai _]. pose proof (ai_m _ _ Ai) as M.
  rewrite <- (inner_sat a v _ M (lits_ok _ _ Ai)). now apply (held_equiv a v _ (length (trail s)) s M).
Qed.
Print Assumptions C40_equivalent.

(** [s1] is a state in which the search reduces its clauses. *)
Theorem C40_reduction : forall tumble o cs a s s1 r bb s2, searching tumble o cs a s ->
  search_propagate o s = Ret (s1, None) -> reduce o r bb s1 = Ret (true, s2) ->
  (* fixed literals stay fixed *)
  (forall l b, values s1 l = Some b -> lev s1 l = 0 -> values s2 l = Some b /\ lev s2 l = 0) /\
  (* irredundant clauses are kept, up to literals false at the root level, unless they are satisfied at the root level *)
  (forall c, entry s1 c false -> (exists t, In t c /\ values s2 t = Some true /\ lev s2 t = 0) \/
    exists d, entry s2 d false /\ shortened_at (values s2) (lev s2) c d) /\
  (* reasons of the literals which stay assigned above the root level are kept and still force these literals *)
  (forall l q c, In l (trail s2) -> 0 < lev s2 l -> reas s1 l = RClause q -> arena s1 q = Some c ->
    exists d red, entry s2 d red /\ shortened_at (values s2) (lev s2) (c_lits c) d /\ forces (values s2) d l) /\
  (* no clause appears which was not there *)
  (forall d red, entry s2 d red -> exists c red', entry s1 c red' /\ shortened_at (values s2) (lev s2) c d).
Proof.
  intros tumble o cs a s s1 r bb s2 Se E R. destruct (searching_ready _ _ _ _ _ Se) as ((Co & Pi & Cl) & Ic & Sh).
  pose proof (search_propagate_spec _ o s Co Pi) as Po. rewrite E in Po. cbn [wp] in Po. unfold propagate_post in Po. destruct Po as (Qu & Pp & I1 & Tr).
  assert (Cl1 : clean (an s1)) by now apply (qu_clean _ _ Qu). assert (Ic1 : inconsistent s1 = false) by congruence.
  pose proof Pp as (Co1 & Pr1 & Pi1).
  assert (Bb : forall x y, keeps x y -> keeps x (set_bigbig bb y)).
  { intros x y K. eapply keeps_trans; [exact K|]. apply keeps_same; reflexivity. }
  (* flushing the trail *)
  assert (Fl : forall ok t, (if 0 <? unflushed s1 then flush_to_root o s1 else Ret (true, s1)) = Ret (ok, t) -> ok = true -> keeps s1 t /\ (t = s1 \/ trail t = [])).
  { intros ok t H ->. destruct (0 <? unflushed s1).
    - split; [now apply (flush_to_root_keeps (inside cs a) o)|]. right. pose proof (flush_to_root_spec _ o s1 Pp Cl1 Ic1 Tr) as W. rewrite H in W. cbn in W. tauto.
    - inversion H; subst. split; [apply keeps_refl|auto]. }
  assert (Rs : forall l q c, In l (trail s1) -> 0 < lev s1 l -> reas s1 l = RClause q -> arena s1 q = Some c -> reason_clause_ok s1 l c).
  { intros l q c Il Ll Er Ac. assert (Ro : reason_ok s1 l).
    { apply (co_r _ _ _ Co1 l Il Ll). right. now apply tpos_lt; [apply Co1|]. }
    unfold reason_ok in Ro. rewrite Er in Ro. destruct Ro as (c' & Ac' & Ok). congruence. }
  assert (Fin : forall t u, keeps s1 t -> (t = s1 \/ trail t = []) -> values u = values t -> assigned u = assigned t -> watches u = watches t -> trail u = trail t ->
    (forall r0 d, arena u r0 = Some d -> c_garbage d = false -> arena t r0 = Some d) ->
    (forall r0 d, arena t r0 = Some d -> c_garbage d = false -> (c_redundant d = false \/ exists l, In l (trail t) /\ reas t l = RClause r0) -> arena u r0 = Some d) ->
    keeps u s2 -> trail s2 = trail u -> values s2 = values u -> (forall l, lev s2 l = lev u l) ->
    (forall l b, values s1 l = Some b -> lev s1 l = 0 -> values s2 l = Some b /\ lev s2 l = 0) /\
    (forall c, entry s1 c false -> (exists t, In t c /\ values s2 t = Some true /\ lev s2 t = 0) \/ exists d, entry s2 d false /\ shortened_at (values s2) (lev s2) c d) /\
    (forall l q c, In l (trail s2) -> 0 < lev s2 l -> reas s1 l = RClause q -> arena s1 q = Some c ->
      exists d red, entry s2 d red /\ shortened_at (values s2) (lev s2) (c_lits c) d /\ forces (values s2) d l) /\
    (forall d red, entry s2 d red -> exists c red', entry s1 c red' /\ shortened_at (values s2) (lev s2) c d)).
  { intros t u K Tt Ev Ea Ew Et Back Forth K2 T2 V2 L2.
    assert (Lu : forall l, lev u l = lev t l) by (intros l; unfold lev; now rewrite Ea).
    assert (Root : forall l b, values s1 l = Some b -> lev s1 l = 0 -> values u l = Some b /\ lev u l = 0).
    { intros l b H H0. rewrite Ev, Lu. now apply (kp_root _ _ K). }
    assert (Sht : forall c d, shortened t c d -> shortened u c d).
    { intros c d [H1 H2]. split; auto. intros l I. rewrite Ev, Lu. auto. }
    splits.
    - intros l b H H0. destruct (Root l b H H0). now apply (kp_root _ _ K2).
    - intros c H. destruct (kp_old _ _ K c false H) as [(x & Ix & X1 & X2)|(d & red & En & Sd & Ir)].
      + left. exists x. split; auto. apply (kp_root _ _ K2); [now rewrite Ev|now rewrite Lu].
      + rewrite (Ir eq_refl) in En. assert (En' : entry u d false).
        { destruct En as [(x & y & X & Y & Z)|(q & e & A1 & A2 & A3 & ->)]; [left; exists x, y; rewrite Ew; auto|]. right. exists q, e. splits; auto. }
        destruct (kp_old _ _ K2 d false En') as [(x & Ix & X1)|(e & red2 & En2 & Se2 & Ir2)].
        * left. exists x. split; auto. now apply Sd.
        * right. exists e. rewrite (Ir2 eq_refl) in En2. split; auto. eapply shortened_trans; [|apply Sht, Sd|exact Se2]. apply K2.
    - intros l q c Il Ll Er Ac. rewrite T2, Et in Il. destruct Tt as [->|Tt]; [|rewrite Tt in Il; destruct Il].
      rewrite L2, Lu in Ll. pose proof (Rs l q c Il Ll Er Ac) as (G & Wl & Fk & _).
      assert (En : entry u (c_lits c) (c_redundant c)) by (right; exists q, c; splits; auto; apply Forth; auto; right; eauto).
      assert (Tl : values s1 l = Some true) by (apply (ti_true _ (co_v _ _ _ Co1)); auto).
      destruct (kp_old _ _ K2 _ _ En) as [(x & Ix & X1 & X2)|(e & red2 & En2 & Se2 & _)].
      + exfalso. rewrite V2, Ev in X1. rewrite L2, Lu in X2. destruct (Nat.eq_dec x l) as [->|N]; [lia|]. destruct (Fk x Ix N). congruence.
      + exists e, red2. splits; auto. split.
        * destruct Se2 as [S1 S2]. destruct (S2 l) as [H|[H _]]; auto; [|exfalso; rewrite V2, Ev in H; congruence].
          destruct Wl as [H|H]; eapply nth_error_In; eauto.
        * intros k Ik N. rewrite V2, Ev. apply Fk; auto. now apply Se2.
    - intros d red H. destruct (kp_new _ _ K2 d red H) as (c & red1 & H1 & S1).
      assert (H1' : entry t c red1).
      { destruct H1 as [(x & y & X & Y & Z)|(q & e & A1 & A2 & A3 & ->)]; [left; exists x, y; rewrite <- Ew; auto|]. right. exists q, e. splits; auto. }
      destruct (kp_new _ _ K c red1 H1') as (b & red0 & H0 & S0). exists b, red0. split; auto. eapply shortened_trans; [|apply Sht, S0|exact S1]. apply K2. }
  unfold reduce in R. destruct r as [| |visit moved victims].
  - injection R as <-. apply (Fin s1 s1); auto; try apply Bb; apply keeps_refl.
  - destruct (if 0 <? unflushed s1 then flush_to_root o s1 else Ret (true, s1)) as [[ok t]| | |] eqn:Ef; try discriminate. cbn [obind] in R.
    destruct ok; [|discriminate]. cbn [negb] in R. injection R as <-. destruct (Fl true t eq_refl eq_refl) as [K Tt]. apply (Fin t t); auto. apply Bb, keeps_refl.
  - destruct (if 0 <? unflushed s1 then flush_to_root o s1 else Ret (true, s1)) as [[ok t]| | |] eqn:Ef; try discriminate. cbn [obind] in R.
    destruct ok; [|discriminate]. cbn [negb] in R. destruct (Fl true t eq_refl eq_refl) as [K Tt].
    match type of R with obind (possible ?b) _ = _ => destruct b eqn:B; [|discriminate] end. cbn [possible obind] in R.
    destruct (ofold mark_garbage victims t) as [u| | |] eqn:Em; try discriminate. cbn [obind] in R.
    destruct (sparse_collect visit moved u) as [w| | |] eqn:Es; try discriminate. cbn [obind] in R. injection R as <-.
    pose proof (mark_garbage_arena _ _ _ Em) as (A1 & A2 & A3 & A4 & A5 & A6). pose proof (sparse_collect_kept _ _ _ _ Es) as (_ & _ & _ & B4 & _ & B6).
    pose proof (sparse_collect_keeps _ _ _ _ Es) as K2. apply andb_true_iff in B as [_ B].
    apply (Fin t u); auto.
    + intros q d Aq G H. rewrite A5; auto. intros Iq. rewrite forallb_forall in B. specialize (B q Iq). unfold reducible in B. rewrite Aq in B.
      destruct H as [H|(l & Il & El)]; [rewrite H in B; discriminate|].
      apply andb_true_iff in B as [_ B]. apply negb_true_iff in B. rewrite is_reason_false in B. now apply (B l).
    + intros l. change (lev (set_bigbig bb w) l) with (lev w l). eapply sparse_collect_lev; eauto.
Qed.
Print Assumptions C40_reduction.

(** ** Concrete cases *)
(** The state after one iteration for each of the choices. *)
Fixpoint iterations (o : options) (chs : list choice) (s : solver) : option solver :=
  match chs with
  | [] => Some s
  | ch :: chs => match search_step o ch s with Ret (Go s1) => iterations o chs s1 | _ => None end
  end.
Lemma iterations_reached : forall o a chs s s', reached o a s -> iterations o chs s = Some s' -> reached o a s'.
Proof.
  intros o a. induction chs as [|ch chs IH]; intros s s' R E; cbn [iterations] in E; [inversion E; subst; auto|].
  destruct (search_step o ch s) as [[s1|r]| | |] eqn:Es; try discriminate. apply (IH s1); auto. eapply reached_step; eauto.
Qed.
Definition reach (tumble : bool) (o : options) (cs : list call) (chs : list choice) : option (api * solver) :=
  match run_calls tumble o cs kissat_init with
  | Ret a => if inconsistent (sol a) then None else match iterations o chs (set_bigbig false (sol a)) with Some s => Some (a, s) | None => None end
  | _ => None
  end.
Lemma reach_searching : forall tumble o cs chs a s, reach tumble o cs chs = Some (a, s) -> searching tumble o cs a s.
Proof.
  intros tumble o cs chs a s E. unfold reach in E. destruct (run_calls tumble o cs kissat_init) as [a0| | |] eqn:Ec; try discriminate.
  destruct (inconsistent (sol a0)) eqn:I; [discriminate|]. destruct (iterations o chs (set_bigbig false (sol a0))) as [s0|] eqn:Ei; [|discriminate].
  injection E as -> ->. split; auto. eapply iterations_reached; [|exact Ei]. now constructor.
Qed.

(** ** C36, completeness of propagation.  Above the root level a clause can stay unit without being propagated: reducing the
    clauses above the root level watches the literals of a satisfied clause again, such that after backtracking (here by
    a restart that keeps two levels) the true literal is unassigned while both watches were not visited again. *)
Definition chronological : options := mk_options false false false 0 1000 true 0 0.
Definition losing : list (list Z) := [[-6; 1]; [-6; -5; -1]; [6; -2; -3]]%Z.
Definition losing_choices : list choice :=
  [ChDecide 8; ChDecide 4; ChDecide 3; ChDecide 10; ChHeuristics; ChReduce (ReduceSome [0; 1] [0; 1] []) false; ChRestart 2].
(** Does propagation in the state after these choices end without conflict although the clause [q] is unit? *)
Definition loses (tumble : bool) (o : options) (cs : list call) (chs : list choice) (q : nat) : option (list lit * list (option bool)) :=
  match reach tumble o cs chs with
  | Some (a, s) => match search_propagate o s with
    | Ret (s', None) => match arena s' q with Some c => if c_garbage c then None else Some (c_lits c, map (values s') (c_lits c)) | None => None end
    | _ => None end
  | None => None
  end.
Lemma loses_unit : forall tumble o cs chs q l k, loses tumble o cs chs q = Some (l :: k, None :: repeat (Some false) (length k)) ->
  exists a s s', searching tumble o cs a s /\ search_propagate o s = Ret (s', None) /\ present s' (l :: k) /\ unit_clause (values s') (l :: k) l.
Proof.
  intros tumble o cs chs q l k E. unfold loses in E. destruct (reach tumble o cs chs) as [[a s]|] eqn:R; [|discriminate].
  destruct (search_propagate o s) as [[s' [c|]]| | |] eqn:P; try discriminate. destruct (arena s' q) as [c|] eqn:A; [|discriminate].
  destruct (c_garbage c) eqn:G; [discriminate|]. injection E as E1 E2. rewrite E1 in E2. cbn [map] in E2. injection E2 as E2 E3.
  exists a, s, s'. split; [eapply reach_searching; eauto|]. split; auto. split; [right; exists q, c; auto|].
  split; auto. split; [now left|]. intros x [<-|I] N; [contradiction|]. apply (in_map (values s')) in I. rewrite E3 in I. now apply repeat_spec in I.
Qed.
Theorem C36_complete_refuted : exists tumble o cs a s s' c l,
  searching tumble o cs a s /\ search_propagate o s = Ret (s', None) /\
  present s' c /\ unit_clause (values s') c l.
Proof.
  assert (E : loses false chronological (clauses losing) losing_choices 1 = Some ([3; 5; 10], [None; Some false; Some false])) by (vm_compute; reflexivity).
  apply loses_unit in E as (a & s & s' & A & B & C & D). exists false, chronological, (clauses losing), a, s, s', [3; 5; 10], 3. auto.
Qed.
Print Assumptions C36_complete_refuted.

(** A conflict on the third level: the trail with the levels, the deduced clause, the minimized clause, and the state
    after learning. *)
Definition conflict_after (tumble : bool) (o : options) (cs : list call) (chs : list choice) : option (api * solver * solver * conflict) :=
  match reach tumble o cs chs with
  | Some (a, s) => match search_propagate o s with Ret (s', Some c) => Some (a, s, s', c) | _ => None end
  | None => None
  end.
Definition three_levels : list (list Z) :=
  [[1; 9; 10]; [-1; -2; 3]; [-3; 4; 9]; [-3; 5; 10]; [-4; -5; 6]; [-6; 7; 10]; [-6; 8; 10]; [-7; -8; -2]]%Z.
Definition deduced_after (tumble : bool) (o : options) (cs : list call) (chs : list choice) : option (api * solver) :=
  match conflict_after tumble o cs chs with
  | Some (a, s, s', c) =>
      if inconsistent s' then None else
      match one_literal_on_conflict_level o c s' with
      | Ret (s1, false, cl) => if 1 <? cl then match deduce_first_uip_clause o c s1 with Ret (s2, None) => Some (a, s2) | _ => None end else None
      | _ => None end
  | None => None
  end.
Lemma deduced_after_deducing : forall tumble o cs chs a s, deduced_after tumble o cs chs = Some (a, s) -> deducing tumble o cs a s.
Proof.
  intros tumble o cs chs a s E. unfold deduced_after, conflict_after in E.
  destruct (reach tumble o cs chs) as [[a0 s0]|] eqn:R; [|discriminate]. apply reach_searching in R as [Ra Rs].
  destruct (search_propagate o s0) as [[s' [c|]]| | |] eqn:P; try discriminate. destruct (inconsistent s') eqn:I; [discriminate|].
  destruct (one_literal_on_conflict_level o c s') as [[[s1 []] cl]| | |] eqn:O; try discriminate. destruct (Nat.ltb_spec 1 cl) as [L|L]; [|discriminate].
  destruct (deduce_first_uip_clause o c s1) as [[s2 [c'|]]| | |] eqn:D; try discriminate. injection E as -> ->. split; auto.
  exists s', c, s1, cl. splits; auto. econstructor; eauto.
Qed.

Definition three_choices : list choice := [ChDecide 17; ChDecide 19; ChDecide 2].
Example C36_conflict : match conflict_after false all_on (clauses three_levels) three_choices with
  | Some (_, _, s, c) => Some (conflict_lits s c, level s, trail s, map (lev s) (trail s)) | None => None end =
  Some (Some [13; 15; 3], 3, [17; 19; 0; 2; 4; 6; 8; 10; 12; 14], [1; 2; 2; 3; 3; 3; 3; 3; 3; 3]).
Proof. vm_compute. reflexivity. Qed.
Example C37_deducing : exists a s, deducing false all_on (clauses three_levels) a s.
Proof.
  destruct (deduced_after false all_on (clauses three_levels) three_choices) as [[a s]|] eqn:E; [|vm_compute in E; discriminate].
  exists a, s. eapply deduced_after_deducing. exact E.
Qed.
Example C38_clauses : match deduced_after false all_on (clauses three_levels) three_choices with
  | Some (a, s) => match minimize_and_shrink all_on s with
    | Ret s1 => match learn_clause all_on s1 with
      | Ret s2 => Some (an_clause (an s), an_clause (an s1), (level s2, trail s2, steps s2)) | _ => None end
    | _ => None end
  | None => None end =
  Some ([3; 18; 16; 1], [3; 18; 16], (2, [17; 19; 0; 3], [Added [3; 18; 16]])).
Proof. vm_compute. reflexivity. Qed.
(** Backtracking from that state. *)
Example C39_back : match conflict_after false all_on (clauses three_levels) three_choices with
  | Some (_, _, s, _) => match backtrack 1 s with Ret s' => Some (trail s', level s', propagate s', map (values s') [0; 16; 17; 18]) | _ => None end
  | None => None end = Some ([17], 1, 1, [None; Some false; Some true; None]).
Proof. vm_compute. reflexivity. Qed.
(** Reduction: the learned clause (reference 8) is removed after a restart; while it is a reason it cannot be removed. *)
Definition reduced (chs : list choice) (victims : list nat) : option (list (option (list lit))) :=
  match reach false all_on (clauses three_levels) chs with
  | Some (a, s) => match search_propagate all_on s with
    | Ret (s1, None) => match reduce all_on (ReduceSome (seq 0 9) (seq 0 9) victims) false s1 with
      | Ret (true, s2) => Some (map (fun r => option_map c_lits (arena s2 r)) (seq 0 9)) | _ => None end
    | _ => None end
  | None => None
  end.
Example C40_removed : reduced (three_choices ++ [ChDecide 3; ChRestart 0]) [8] =
  Some [Some [0; 18; 16]; Some [3; 4; 1]; Some [5; 6; 16]; Some [5; 8; 18]; Some [9; 10; 7]; Some [11; 12; 18]; Some [11; 14; 18]; Some [13; 15; 3]; None].
Proof. vm_compute. reflexivity. Qed.
Example C40_reason : reduced (three_choices ++ [ChHeuristics]) [] =
  Some [Some [0; 18; 16]; Some [4; 3; 1]; Some [5; 6; 16]; Some [5; 8; 18]; Some [9; 10; 7]; Some [11; 12; 18]; Some [11; 14; 18]; Some [13; 15; 3]; Some [3; 18; 16]] /\
  reduced (three_choices ++ [ChHeuristics]) [8] = None.
Proof. vm_compute. auto. Qed.
(** After a learned unit a clause loses a literal and another one is satisfied. *)
Example C40_shortened : match reach false all_on (clauses [[1; 2]; [1; -2; 3]; [-3; 4; 5; -1]; [1; -3]; [4; 5; 6; 1]]%Z) [ChDecide 1; ChHeuristics] with
  | Some (a, s) => match search_propagate all_on s with
    | Ret (s1, None) => match reduce all_on (ReduceSome (seq 0 3) (seq 0 3) []) false s1 with
      | Ret (true, s2) => Some (map (fun r => option_map c_lits (arena s1 r)) (seq 0 3), map (fun r => option_map c_lits (arena s2 r)) (seq 0 3)) | _ => None end
    | _ => None end
  | None => None end = Some ([Some [3; 4; 0]; Some [5; 6; 8; 1]; Some [6; 8; 10; 0]], [None; Some [5; 6; 8]; None]).
Proof. vm_compute. reflexivity. Qed.
