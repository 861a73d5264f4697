(** Propagation at the root level, for states of which only the binary clauses need to be watched completely: what it
    derives is implied, and it is complete for binary clauses. *)
From Coq Require Import List Bool Lia Arith Permutation.
From Coq Require Import ZifyBool ZifyNat.
From Verif Require Import Base SpecSat Lit Solver Search Levels PropFacts DenseFacts Eliminate Substitute.
Import ListNotations.
Open Scope nat_scope.
Open Scope outcome_scope.

(** ** Meaning of a state *)
(** The assignment [v] respects all values and satisfies all clauses; redundant clauses of the arena count if [q]. *)
Definition holds (q : bool) (s : solver) (v : assignment) : Prop :=
  inconsistent s = false /\
  (forall l, values s l = Some true -> tr v l = true) /\
  (forall a b, In (WBinary b) (watches s a) -> tr v a = true \/ tr v b = true) /\
  (forall r c, arena s r = Some c -> c_garbage c = false -> q = true \/ c_redundant c = false -> sat_clause v (c_lits c)).

Record sinv (s : solver) : Prop := mk_sinv {
  si_neg : forall l, values s (neg l) = option_map negb (values s l);
  si_sym : forall a b, In (WBinary b) (watches s a) -> In (WBinary a) (watches s b);
  si_range : forall a b, In (WBinary b) (watches s a) -> a < 2 * vars s;
  si_diff : forall a b, In (WBinary b) (watches s a) -> a <> b;
  si_lits : forall r c l, arena s r = Some c -> In l (c_lits c) -> l < 2 * vars s;
  si_next : forall r c, arena s r = Some c -> r < next_ref s;
  si_tp : propagate s <= length (trail s);
  si_vals : forall l, values s l <> None -> l < 2 * vars s }.

Lemma value_false : forall s q v l, sinv s -> holds q s v -> values s l = Some false -> tr v l = false.
Proof.
  intros s q v l V (_ & H & _) F. assert (T : values s (neg l) = Some true) by (rewrite (si_neg _ V), F; reflexivity).
  apply H in T. rewrite tr_neg in T. now destruct (tr v l).
Qed.
Lemma holds_ext : forall q s v w, vext v w -> holds q s v -> holds q s w.
Proof.
  intros q s v w E (A & B & C & D). split; auto. split; [intros l H; rewrite <- (tr_ext v w l E); auto|]. split.
  - intros a b H. rewrite <- !(tr_ext v w _ E). auto.
  - intros r c H G K. apply (sat_clause_ext v w _ E). eauto.
Qed.
Lemma holds_weaken : forall s v, holds true s v -> holds false s v.
Proof. intros s v (A & B & C & D). split; auto. split; auto. split; auto. intros r c H G _. eauto. Qed.

(** ** What propagation changes *)
Definition same_clause (x y : option clause) : Prop :=
  match x, y with
  | Some c, Some c' => Permutation (c_lits c) (c_lits c') /\ c_redundant c' = c_redundant c /\ c_garbage c' = c_garbage c
  | None, None => True
  | _, _ => False
  end.
Lemma same_clause_refl : forall x, same_clause x x.
Proof. intros [c|]; cbn; auto. Qed.
Lemma same_clause_trans : forall x y z, same_clause x y -> same_clause y z -> same_clause x z.
Proof.
  intros [c|] [c'|] [c''|]; cbn; try tauto. intros (A & B & C) (D & E & F). split; [eapply Permutation_trans; eauto|]. split; congruence.
Qed.

(** [Given] is known of all assignments considered. *)
Section Under.
Variable Given : assignment -> Prop.
Record grows (s s' : solver) : Prop := mk_grows {
  gr_inv : sinv s';
  gr_values : forall l b, values s l = Some b -> values s' l = Some b;
  gr_bins : forall a b, In (WBinary b) (watches s' a) <-> In (WBinary b) (watches s a);
  gr_arena : forall r, same_clause (arena s r) (arena s' r);
  gr_vars : vars s' = vars s;
  gr_active : active s' = active s;
  gr_level : level s' = level s;
  gr_next : next_ref s' = next_ref s;
  gr_incons : inconsistent s' = false -> inconsistent s = false;
  gr_sound : forall v, Given v -> holds true s v -> holds true s' v }.

Lemma grows_refl : forall s, sinv s -> grows s s.
Proof. intros s V. constructor; auto; try tauto. intros r. apply same_clause_refl. Qed.
Lemma grows_trans : forall a b c, grows a b -> grows b c -> grows a c.
Proof.
  intros a b c [A1 A2 A3 A4 A5 A6 A7 A8 A9 A10] [B1 B2 B3 B4 B5 B6 B7 B8 B9 B10]. constructor; auto; try congruence.
  - intros x y. rewrite B3. apply A3.
  - intros r. eapply same_clause_trans; eauto.
Qed.
Lemma same_sat : forall v c c', Permutation (c_lits c) (c_lits c') -> sat_clause v (c_lits c) -> sat_clause v (c_lits c').
Proof. intros v c c' P (l & I & T). exists l. split; auto. eapply Permutation_in; eauto. Qed.
Lemma grows_back : forall s s' q v, grows s s' -> holds q s' v -> holds q s v.
Proof.
  intros s s' q v G (A & B & C & D). split; [now apply (gr_incons _ _ G)|]. split; [intros l H; apply B; now apply (gr_values _ _ G)|]. split.
  - intros a b H. apply C. now apply (gr_bins _ _ G).
  - intros r c H K Q. pose proof (gr_arena _ _ G r) as E. rewrite H in E. destruct (arena s' r) as [c'|] eqn:H'; [|destruct E]. destruct E as (P & E1 & E2).
    apply (same_sat v c' c); [now apply Permutation_sym|]. apply (D r c'); congruence.
Qed.

(** Only the trail grows, and what is new is on it. *)
Definition extends (s s' : solver) : Prop :=
  propagate s' = propagate s /\ exists new, trail s' = trail s ++ new /\ forall l, values s' l = Some true -> values s l = Some true \/ In l new.
Lemma extends_refl : forall s, extends s s.
Proof. intros s. split; auto. exists []. rewrite app_nil_r. auto. Qed.
Lemma extends_trans : forall a b c, extends a b -> extends b c -> extends a c.
Proof.
  intros a b c [A1 (n1 & A2 & A3)] [B1 (n2 & B2 & B3)]. split; [congruence|]. exists (n1 ++ n2). rewrite B2, A2, app_assoc. split; auto.
  intros l H. rewrite in_app_iff. destruct (B3 l H) as [K|K]; auto. destruct (A3 l K); auto.
Qed.

(** A state in which only fields without meaning here are different. *)
Definition quiet_change (s s' : solver) : Prop :=
  values s' = values s /\ watches s' = watches s /\ arena s' = arena s /\ vars s' = vars s /\ active s' = active s /\ level s' = level s /\
  next_ref s' = next_ref s /\ inconsistent s' = inconsistent s.
Lemma quiet_grows : forall s s', sinv s -> quiet_change s s' -> propagate s' <= length (trail s') -> grows s s'.
Proof.
  intros s s' [V1 V2 V3 V4 V5 V6 V7 V8] (A & B & C & D & E & F & G & H) P.
  constructor; auto.
  - constructor; rewrite ?A, ?B, ?C, ?D, ?G; auto.
  - now rewrite A.
  - intros a b. now rewrite B.
  - intros r. rewrite C. apply same_clause_refl.
  - congruence.
  - intros v Ev (M1 & M2 & M3 & M4). unfold holds. rewrite A, B, C, H. auto.
Qed.

Lemma assign_grows : forall lvl r l s, sinv s -> l < 2 * vars s -> (forall v, Given v -> holds true s v -> tr v l = true) ->
  ok (assign lvl r l s) (fun s' => grows s s' /\ extends s s' /\ watches s' = watches s /\ arena s' = arena s /\ values s' l = Some true /\ inconsistent s' = inconsistent s).
Proof.
  intros lvl r l s V Rl H. unfold assign. apply ok_bind, ok_assert. intros A. apply ok_bind, ok_assert. intros _.
  apply andb_true_iff in A. destruct A as [A _]. unfold is_unassigned in A. destruct (values s l) eqn:N; [discriminate|].
  assert (Nn : values s (neg l) = None) by (rewrite (si_neg _ V), N; reflexivity).
  set (s' := set_an _ _). cbn [ok].
  assert (F : values s' = upd (upd (values s) l (Some true)) (neg l) (Some false) /\ watches s' = watches s /\ arena s' = arena s /\ vars s' = vars s /\
    active s' = active s /\ level s' = level s /\ next_ref s' = next_ref s /\ inconsistent s' = inconsistent s /\ trail s' = trail s ++ [l] /\ propagate s' = propagate s).
  { unfold s'. destruct (lvl =? 0); [destruct (is_unit_reason r)|]; cbn; repeat split. }
  destruct F as (F1 & F2 & F3 & F4 & F5 & F6 & F7 & F8 & F9 & F10). clearbody s'.
  assert (Va : forall k, values s' k = if k =? neg l then Some false else if k =? l then Some true else values s k) by (intros k; rewrite F1; reflexivity).
  assert (Mo : forall k b, values s k = Some b -> values s' k = Some b).
  { intros k b K. rewrite Va. destruct (Nat.eqb_spec k (neg l)) as [->|]; [congruence|]. destruct (Nat.eqb_spec k l) as [->|]; congruence. }
  assert (Tl : values s' l = Some true).
  { rewrite Va. destruct (Nat.eqb_spec l (neg l)) as [e|_]; [now apply neg_neq' in e|]. now rewrite Nat.eqb_refl. }
  assert (Tr : forall k, values s' k = Some true -> values s k = Some true \/ k = l).
  { intros k. rewrite Va. destruct (k =? neg l); [discriminate|]. destruct (Nat.eqb_spec k l); auto. }
  split; [|split; [|auto]].
  - destruct V as [V1 V2 V3 V4 V5 V6 V7 V8]. constructor; auto.
    + constructor; rewrite ?F2, ?F3, ?F4, ?F7; auto.
      * intros k. rewrite !Va. destruct (Nat.eqb_spec (neg k) (neg l)) as [e|X].
        -- apply neg_inj in e as ->. destruct (Nat.eqb_spec l (neg l)) as [e|_]; [now apply neg_neq' in e|]. now rewrite Nat.eqb_refl.
        -- destruct (Nat.eqb_spec (neg k) l) as [<-|Y].
           ++ rewrite neg_neg, Nat.eqb_refl. reflexivity.
           ++ destruct (Nat.eqb_spec k (neg l)) as [->|]; [rewrite neg_neg in Y; congruence|].
              destruct (Nat.eqb_spec k l) as [->|]; [congruence|]. apply V1.
      * rewrite F10, F9, app_length. lia.
      * intros k. rewrite Va. destruct (Nat.eqb_spec k (neg l)) as [->|]; [intros _; now apply neg_lt|]. destruct (Nat.eqb_spec k l) as [->|]; auto.
    + intros a b. now rewrite F2.
    + intros q. rewrite F3. apply same_clause_refl.
    + congruence.
    + intros v Ev M. pose proof (H v Ev M) as T. destruct M as (M1 & M2 & M3 & M4). unfold holds. rewrite F2, F3, F8. split; auto. split; auto.
      intros k K. destruct (Tr k K) as [K'| ->]; auto.
  - split; auto. exists [l]. split; auto. intros k K. destruct (Tr k K) as [K'| ->]; auto. right. now left.
Qed.

(** ** The watches of a literal *)
Definition large_only (d : list (lit * watch)) : Prop := forall x b, In x d -> snd x <> WBinary b.
Lemma is_true_value : forall s l, is_true s l = true <-> values s l = Some true.
Proof. intros s l. unfold is_true. destruct (values s l) as [[|]|]; split; congruence. Qed.
Lemma is_false_value : forall s l, is_false s l = true <-> values s l = Some false.
Proof. intros s l. unfold is_false. destruct (values s l) as [[|]|]; split; congruence. Qed.

Lemma grows_clause : forall s r c c', sinv s -> arena s r = Some c -> Permutation (c_lits c) (c_lits c') -> c_redundant c' = c_redundant c ->
  c_garbage c' = c_garbage c -> grows s (set_clause r (Some c') s).
Proof.
  intros s r c c' V A P R G. assert (Eq : forall x, arena (set_clause r (Some c') s) x = if x =? r then Some c' else arena s x) by (intros x; reflexivity).
  destruct V as [V1 V2 V3 V4 V5 V6 V7 V8].
  assert (Ar : forall x, same_clause (arena s x) (arena (set_clause r (Some c') s) x)).
  { intros x. rewrite Eq. destruct (Nat.eqb_spec x r) as [->|]; [rewrite A; cbn; auto|apply same_clause_refl]. }
  constructor; auto.
  - constructor; auto.
    + intros x d l. rewrite Eq. change (vars (set_clause r (Some c') s)) with (vars s). destruct (Nat.eqb_spec x r) as [->|]; [|apply V5].
      intros [= <-] I. apply (V5 r c); auto. eapply Permutation_in; [apply Permutation_sym; eauto|auto].
    + intros x d. rewrite Eq. change (next_ref (set_clause r (Some c') s)) with (next_ref s). destruct (Nat.eqb_spec x r) as [->|]; [intros _; eauto|apply V6].
  - intros a b. reflexivity.
  - intros v Ev (M1 & M2 & M3 & M4). split; auto. split; auto. split; auto. intros x d. rewrite Eq. destruct (Nat.eqb_spec x r) as [->|]; [|apply M4].
    intros [= <-] Gd Q. apply (same_sat v c c' P). apply (M4 r c); auto; congruence.
Qed.

Lemma propagate_watches_grows : forall o not_lit lvl ws kept delayed s, sinv s -> values s not_lit = Some false ->
  (forall b, In (WBinary b) ws -> In (WBinary b) (watches s not_lit)) -> large_only delayed ->
  ok (propagate_watches o not_lit lvl ws kept delayed s) (fun '(s', ws', delayed', confl) =>
    grows s s' /\ extends s s' /\ watches s' = watches s /\ large_only delayed' /\ inconsistent s' = inconsistent s /\
    (forall b, In (WBinary b) ws' <-> In (WBinary b) kept \/ In (WBinary b) ws) /\
    (confl <> None -> forall v, Given v -> ~ holds true s v) /\
    (confl = None -> forall b, In (WBinary b) ws -> values s' b = Some true)).
Proof.
  intros o x lvl. induction ws as [|w ws IH]; intros kept delayed s V Fx Hw Ld; cbn [propagate_watches].
  - cbn [ok]. split; [now apply grows_refl|]. split; [apply extends_refl|]. split; auto. split; auto. split; auto.
    split; [intros b; rewrite <- in_rev; cbn [In]; tauto|]. split; [tauto|intros _ b []].
  - assert (Hw' : forall b, In (WBinary b) ws -> In (WBinary b) (watches s x)) by (intros b I; apply Hw; now right).
    assert (Keep : forall b kept ws', (forall b, In (WBinary b) ws' <-> In (WBinary b) (w :: kept) \/ In (WBinary b) ws) ->
      In (WBinary b) ws' <-> In (WBinary b) kept \/ In (WBinary b) (w :: ws)).
    { intros b k ws' H. rewrite H. cbn [In]. tauto. }
    assert (Stay : forall b, In (WBinary b) (rev kept ++ w :: ws) <-> In (WBinary b) kept \/ In (WBinary b) (w :: ws)).
    { intros b. rewrite in_app_iff, <- in_rev. tauto. }
    destruct (is_true s (watch_head w)) eqn:T.
    { apply is_true_value in T. eapply ok_mono; [apply (IH (w :: kept) delayed s); auto|]. intros [[[s' ws'] d'] confl] (A & B & C & D & E & F & G & H).
      split; auto. split; auto. split; auto. split; auto. split; auto. split; [auto|]. split; auto. intros N b [->|I]; [|auto]. apply (gr_values _ _ A). exact T. }
    destruct w as [other|blocking ref].
    + pose proof (Hw other (or_introl eq_refl)) as Io. cbn [watch_head] in T.
      assert (Imp : forall v, Given v -> holds true s v -> tr v other = true).
      { intros v Ev M. destruct M as (M1 & M2 & M3 & M4). destruct (M3 x other Io) as [Tx|]; auto.
        rewrite (value_false s true v x V) in Tx; [discriminate| |auto]. split; auto. }
      destruct (is_false s other) eqn:Fo.
      * apply is_false_value in Fo. cbn [ok]. split; [now apply grows_refl|]. split; [apply extends_refl|]. split; auto. split; auto. split; auto.
        split; [exact Stay|]. split; [|discriminate]. intros _ v Ev M. pose proof (Imp v Ev M) as Tv. rewrite (value_false s true v other V M Fo) in Tv. discriminate.
      * apply ok_bind. eapply ok_mono; [apply assign_grows; auto; eapply (si_range _ V); apply (si_sym _ V); eauto|]. intros s1 (A & B & C & D & E & F).
        eapply ok_mono; [apply (IH (WBinary other :: kept) delayed s1); auto; [apply A|now apply (gr_values _ _ A)|now rewrite C]|].
        intros [[[s' ws'] d'] confl] (A' & B' & C' & D' & E' & F' & G' & H').
        split; [eapply grows_trans; eauto|]. split; [eapply extends_trans; eauto|]. split; [congruence|]. split; auto. split; [congruence|]. split; [auto|].
        split; [intros N v Ev M; apply (G' N v Ev); now apply (gr_sound _ _ A)|]. intros N b [[= ->]|I]; [|auto]. apply (gr_values _ _ A'). exact E.
    + assert (Skip : forall k ws', (forall b, In (WBinary b) ws' <-> In (WBinary b) k \/ In (WBinary b) ws) ->
        (forall b, In (WBinary b) k <-> In (WBinary b) kept) -> forall b, In (WBinary b) ws' <-> In (WBinary b) kept \/ In (WBinary b) (WLarge blocking ref :: ws)).
      { intros k ws' H K b. rewrite H, K. cbn [In]. split; [tauto|]. intros [?|[?|?]]; [tauto|discriminate|tauto]. }
      assert (Done : forall s' : solver, (forall b, In (WBinary b) ws -> values s' b = Some true) -> forall b, In (WBinary b) (WLarge blocking ref :: ws) -> values s' b = Some true).
      { intros s' H b [X|I]; [discriminate|auto]. }
      destruct (arena s ref) as [c|] eqn:Ar; cbn [ok]; auto. destruct (c_garbage c) eqn:Gc.
      { eapply ok_mono; [apply (IH kept delayed s); auto|]. intros [[[s' ws'] d'] confl] (A & B & C & D & E & F & G & H).
        split; auto. split; auto. split; auto. split; auto. split; auto. split; [now apply (Skip kept)|]. split; auto. }
      destruct (c_lits c) as [|l0 [|l1 rest]] eqn:Lc; cbn [ok]; auto.
      destruct (other_watch l0 l1 x) as [other|] eqn:Ow; cbn [ok]; auto.
      assert (Px : Permutation (l0 :: l1 :: rest) (other :: x :: rest)).
      { unfold other_watch in Ow. destruct (Nat.eqb_spec l0 x) as [->|]; [injection Ow as ->; apply perm_swap|]. destruct (Nat.eqb_spec l1 x) as [->|]; [injection Ow as ->; auto|discriminate]. }
      destruct (is_true s other) eqn:To.
      { eapply ok_mono; [apply (IH (WLarge other ref :: kept) delayed s); auto|]. intros [[[s' ws'] d'] confl] (A & B & C & D & E & F & G & H).
        split; auto. split; auto. split; auto. split; auto. split; auto.
        split; [apply (Skip _ _ F); intros b; cbn [In]; split; [intros [?|?]; [discriminate|auto]|auto]|]. split; auto. }
      destruct (search_replacement s rest (c_searched c)) as [r|] eqn:Sr.
      * destruct (search_replacement_some _ _ _ _ Sr) as [Lr _].
        set (c' := mk_clause (other :: nth r rest 0 :: lset rest r x) (c_redundant c) false (r + 2)).
        assert (Gr : grows s (set_clause ref (Some c') s)).
        { apply (grows_clause s ref c c'); auto. rewrite Lc. unfold c'. cbn [c_lits]. eapply Permutation_trans; [exact Px|]. apply perm_skip.
          apply lset_perm; auto. now apply nth_indep. }
        eapply ok_mono; [apply (IH kept (delayed ++ [(nth r rest 0, WLarge other ref)]) (set_clause ref (Some c') s)); auto; [apply Gr|]|].
        { intros y b I. apply in_app_iff in I. destruct I as [I|[<-|[]]]; [eauto|discriminate]. }
        intros [[[s' ws'] d'] confl] (A & B & C & D & E & F & G & H).
        split; [eapply grows_trans; eauto|]. split; [exact B|]. split; [exact C|]. split; auto. split; [exact E|]. split; [now apply (Skip kept)|].
        split; [intros N v Ev M; apply (G N v Ev); now apply (gr_sound _ _ Gr)|auto].
      * pose proof (search_replacement_none _ _ _ Sr) as Fr.
        assert (Imp : forall v, Given v -> holds true s v -> tr v other = true).
        { intros v Ev M. pose proof M as (M1 & M2 & M3 & M4). destruct (M4 ref c Ar Gc (or_introl eq_refl)) as (k & Ik & Tk). rewrite Lc in Ik.
          eapply Permutation_in in Ik; [|exact Px]. destruct Ik as [<-|[<-|Ik]]; auto.
          - rewrite (value_false s true v x V M Fx) in Tk. discriminate.
          - rewrite (value_false s true v k V M (Fr k Ik)) in Tk. discriminate. }
        destruct (is_false s other) eqn:Fo.
        { apply is_false_value in Fo. cbn [ok]. split; [now apply grows_refl|]. split; [apply extends_refl|]. split; auto. split; auto. split; auto.
          split; [exact Stay|]. split; [|discriminate]. intros _ v Ev M. pose proof (Imp v Ev M) as Tv. rewrite (value_false s true v other V M Fo) in Tv. discriminate. }
        { apply ok_bind. unfold assign_reference. rewrite Ar. eapply ok_mono; [apply assign_grows; auto|].
          { apply (si_lits _ V ref c); auto. rewrite Lc. eapply Permutation_in; [apply Permutation_sym; exact Px|now left]. }
          intros s1 (A & B & C & D & E & F).
          eapply ok_mono; [apply (IH (WLarge blocking ref :: kept) delayed s1); auto; [apply A|now apply (gr_values _ _ A)|now rewrite C]|].
          intros [[[s' ws'] d'] confl] (A' & B' & C' & D' & E' & F' & G' & H').
          split; [eapply grows_trans; eauto|]. split; [eapply extends_trans; eauto|]. split; [congruence|]. split; auto. split; [congruence|]. split; [auto|].
          split; [intros N v Ev M; apply (G' N v Ev); now apply (gr_sound _ _ A)|]. auto. }
Qed.

Lemma push_delayed_bins : forall d s a b, large_only d -> In (WBinary b) (watches (push_delayed d s) a) <-> In (WBinary b) (watches s a).
Proof.
  unfold push_delayed. induction d as [|x d IH]; intros s a b L; cbn [fold_left]; [tauto|]. rewrite IH by (intros y c I; apply L; now right).
  unfold push_watch. cbn [watches set_watches]. unfold upd. destruct (Nat.eqb_spec a (fst x)) as [->|]; [|tauto].
  rewrite in_app_iff. cbn [In]. split; [intros [?|[H|[]]]; auto; now apply L in H; [|left]|auto].
Qed.
Lemma push_delayed_quiet : forall d s, let s' := push_delayed d s in
  values s' = values s /\ arena s' = arena s /\ vars s' = vars s /\ active s' = active s /\ level s' = level s /\
  next_ref s' = next_ref s /\ inconsistent s' = inconsistent s /\ trail s' = trail s /\ propagate s' = propagate s.
Proof.
  unfold push_delayed. induction d as [|x d IH]; intros s; cbn [fold_left]; [repeat split|].
  destruct (IH (push_watch (fst x) (snd x) s)) as (A & B & C & D & E & F & G & H & I). rewrite A, B, C, D, E, F, G, H, I. repeat split.
Qed.

(** The watches may be reordered and watches of large clauses may change. *)
Lemma grows_watches : forall s W, sinv s -> (forall a b, In (WBinary b) (W a) <-> In (WBinary b) (watches s a)) -> grows s (set_watches W s).
Proof.
  intros s W V H. destruct V as [V1 V2 V3 V4 V5 V6 V7 V8].
  constructor; auto; try (intros; apply same_clause_refl).
  - constructor; auto; cbn [watches set_watches vars]; intros a b I; apply H in I; eauto. apply H. auto.
  - intros v Ev (M1 & M2 & M3 & M4). split; auto. split; auto. split; auto. intros a b I. apply H in I. auto.
Qed.

Lemma propagate_literal_grows : forall o l s, sinv s ->
  ok (propagate_literal o l s) (fun '(s', confl) => grows s s' /\ extends s s' /\ inconsistent s' = inconsistent s /\
    (confl <> None -> forall v, Given v -> ~ holds true s v) /\
    (confl = None -> forall b, In (WBinary b) (watches s (neg l)) -> values s' b = Some true)).
Proof.
  intros o l s V. unfold propagate_literal. apply ok_bind, ok_assert. intros T. apply is_true_value in T. apply ok_bind.
  eapply ok_mono; [apply propagate_watches_grows; auto|].
  - rewrite (si_neg _ V), T. reflexivity.
  - intros x b [].
  - intros [[[s1 ws] d] confl] (A & B & C & D & E & F & G & H). cbn [ok].
    set (W := upd (watches s1) (neg l) ws).
    assert (G1 : grows s1 (set_watches W s1)).
    { apply grows_watches; [apply A|]. intros a b. unfold W, upd. destruct (Nat.eqb_spec a (neg l)) as [->|]; [|tauto]. rewrite F, C. cbn [In]. tauto. }
    assert (G2 : grows (set_watches W s1) (push_delayed d (set_watches W s1))).
    { destruct (push_delayed_quiet d (set_watches W s1)) as (Q1 & Q2 & Q3 & Q4 & Q5 & Q6 & Q7 & Q8 & Q9). pose proof (gr_inv _ _ G1) as V1. destruct V1 as [W1 W2 W3 W4 W5 W6 W7 W8].
      constructor; auto; try congruence.
      - constructor; rewrite ?Q1, ?Q2, ?Q3, ?Q6, ?Q8, ?Q9; auto; intros a b I; apply push_delayed_bins in I; eauto. apply push_delayed_bins; auto.
      - intros a b. now apply push_delayed_bins.
      - intros r. rewrite Q2. apply same_clause_refl.
      - intros v Ev (M1 & M2 & M3 & M4). unfold holds. rewrite Q1, Q2, Q7. split; auto. split; auto. split; auto. intros a b I. apply push_delayed_bins in I; auto. }
    destruct (push_delayed_quiet d (set_watches W s1)) as (Q1 & Q2 & Q3 & Q4 & Q5 & Q6 & Q7 & Q8 & Q9).
    split; [eapply grows_trans; [exact A|]; eapply grows_trans; eauto|]. split.
    { destruct B as [B1 (new & B2 & B3)]. split; [rewrite Q9; exact B1|]. exists new. rewrite Q8, Q1. auto. }
    split; [rewrite Q7; exact E|]. split; [exact G|]. rewrite Q1. exact H.
Qed.

(** ** Completeness for binary clauses *)
Definition done (s : solver) (l : lit) : Prop := forall b, In (WBinary b) (watches s (neg l)) -> values s b = Some true.
Definition complete (s : solver) : Prop := forall l, values s l = Some true -> done s l.
Definition queued (s : solver) : Prop := forall l, values s l = Some true -> done s l \/ exists k, propagate s <= k /\ nth_error (trail s) k = Some l.
Lemma complete_queued : forall s, complete s -> queued s.
Proof. intros s C l T. left. auto. Qed.
Lemma done_grows : forall s s' l, grows s s' -> done s l -> done s' l.
Proof. intros s s' l G D b I. apply (gr_values _ _ G). apply D. now apply (gr_bins _ _ G). Qed.
Lemma queued_extends : forall s s', sinv s -> grows s s' -> extends s s' -> queued s -> queued s'.
Proof.
  intros s s' V G [E1 (new & E2 & E3)] Q l T. rewrite E1, E2. destruct (E3 l T) as [K|K].
  - destruct (Q l K) as [D|(k & A & B)]; [left; eapply done_grows; eauto|]. right. exists k. split; auto. rewrite nth_error_app1; auto. apply nth_error_Some. congruence.
  - right. apply In_nth_error in K. destruct K as (k & K). exists (length (trail s) + k). split; [pose proof (si_tp _ V); lia|]. rewrite nth_error_app2 by lia. now replace (length (trail s) + k - length (trail s)) with k by lia.
Qed.

Lemma propagate_loop_grows : forall fuel o s, sinv s ->
  ok (propagate_loop fuel o s) (fun '(s', confl) => grows s s' /\ inconsistent s' = inconsistent s /\
    (confl <> None -> forall v, Given v -> ~ holds true s v) /\ (confl = None -> queued s -> complete s')).
Proof.
  induction fuel as [|fuel IH]; intros o s V; cbn [propagate_loop]; destruct (nth_error (trail s) (propagate s)) as [l|] eqn:Nt; cbn [ok]; auto.
  - split; [now apply grows_refl|]. split; auto. split; [tauto|]. intros _ Q l T. destruct (Q l T) as [D|(k & A & B)]; auto.
    apply nth_error_None in Nt. assert (k < length (trail s)) by (apply nth_error_Some; congruence). lia.
  - set (s0 := set_propagate (S (propagate s)) s).
    assert (Lt : propagate s < length (trail s)) by (apply nth_error_Some; congruence).
    assert (G0 : grows s s0) by (apply quiet_grows; auto; repeat split; cbn; lia).
    apply ok_bind. eapply ok_mono; [apply propagate_literal_grows; apply G0|]. intros [s1 confl] (A & B & C & D & E).
    destruct confl as [c|].
    + cbn [ok]. split; [eapply grows_trans; eauto|]. split; [exact C|]. split; [intros _ v Ev M; apply (D ltac:(discriminate) v Ev); now apply (gr_sound _ _ G0)|discriminate].
    + eapply ok_mono; [apply (IH o s1); apply A|]. intros [s2 confl] (A' & C' & D' & E').
      split; [eapply grows_trans; [exact G0|]; eapply grows_trans; eauto|]. split; [rewrite C'; exact C|].
      split; [intros N v Ev M; apply (D' N v Ev); apply (gr_sound _ _ A); [exact Ev|]; now apply (gr_sound _ _ G0)|]. intros N Q. apply (E' N).
      assert (Q1 : forall k, values s0 k = Some true -> k = l \/ done s0 k \/ exists i, propagate s0 <= i /\ nth_error (trail s0) i = Some k).
      { intros k T. destruct (Q k T) as [Dk|(i & I1 & I2)]; auto. destruct (Nat.eq_dec i (propagate s)) as [->|Ni]; [left; congruence|]. right. right. exists i. split; [cbn; lia|auto]. }
      destruct B as [B1 (new & B2 & B3)]. intros k T. destruct (B3 k T) as [K|K].
      * destruct (Q1 k K) as [->|[Dk|(i & I1 & I2)]].
        -- left. intros b I. apply E; auto. now apply (gr_bins _ _ A).
        -- left. eapply done_grows; eauto.
        -- right. exists i. rewrite B1, B2. split; auto. rewrite nth_error_app1; auto. apply nth_error_Some. congruence.
      * right. apply In_nth_error in K. destruct K as (i & K). exists (length (trail s0) + i). rewrite B1, B2. split; [cbn; lia|]. rewrite nth_error_app2 by lia. now replace (length (trail s0) + i - length (trail s0)) with i by lia.
  - split; [now apply grows_refl|]. split; auto. split; [tauto|]. intros _ Q l T. destruct (Q l T) as [D|(k & A & B)]; auto.
    apply nth_error_None in Nt. assert (k < length (trail s)) by (apply nth_error_Some; congruence). lia.
Qed.

Lemma grows_inconsistent : forall s c, sinv s -> (forall v, Given v -> ~ holds true s v) -> grows s (set_inconsistent true (add_step c s)) /\ grows s (add_step c (set_inconsistent true s)).
Proof.
  intros s c V H. destruct V as [V1 V2 V3 V4 V5 V6 V7 V8]. split; (constructor; auto; [constructor; auto|tauto|intros r; apply same_clause_refl|discriminate|intros v Ev M; exfalso; exact (H v Ev M)]).
Qed.

Lemma probing_propagate_grows : forall o flush s, sinv s ->
  ok (probing_propagate o flush s) (fun '(s', confl) => grows s s' /\ (confl <> None -> level s = 0 -> inconsistent s' = true) /\
    (confl = None -> inconsistent s' = inconsistent s /\ (queued s -> complete s'))).
Proof.
  intros o flush s V. unfold probing_propagate. apply ok_bind. eapply ok_mono; [apply propagate_loop_grows; auto|].
  intros [s1 confl] (A & C & D & E). destruct confl as [c|]; cbn [ok].
  - destruct (Nat.eqb_spec (level s1) 0) as [L|L].
    + split; [|split; [auto|discriminate]]. eapply grows_trans; [exact A|]. apply grows_inconsistent; [apply A|]. intros v Ev M. apply (D ltac:(discriminate) v Ev). eapply grows_back; eauto.
    + split; auto. split; [|discriminate]. intros _ K. rewrite (gr_level _ _ A) in L. contradiction.
  - destruct (flush && (level s1 =? 0) && (0 <? unflushed s1)).
    + split; [eapply grows_trans; [exact A|]; apply quiet_grows; [apply A|repeat split|cbn; lia]|]. split; [congruence|].
      intros _. split; [exact C|]. intros Q. apply (E eq_refl) in Q. exact Q.
    + split; auto.
Qed.

Lemma learned_unit_grows : forall l s, sinv s -> l < 2 * vars s -> (forall v, Given v -> holds true s v -> tr v l = true) ->
  ok (learned_unit l s) (fun s' => grows s s' /\ extends s s' /\ values s' l = Some true /\ inconsistent s' = inconsistent s).
Proof.
  intros l s V Rl H. unfold learned_unit, assign_unit. apply ok_bind. eapply ok_mono; [apply assign_grows; auto|].
  intros s1 (A & B & C & D & E & F). cbn [ok]. split; [|split; [|split; [exact E|exact F]]].
  - eapply grows_trans; [exact A|]. apply quiet_grows; [apply A|repeat split|apply (si_tp _ (gr_inv _ _ A))].
  - destruct B as [B1 (new & B2 & B3)]. split; [exact B1|]. exists new. split; [exact B2|exact B3].
Qed.

Lemma units_grow : forall o us s, sinv s -> (forall u, In u us -> u < 2 * vars s /\ forall v, Given v -> holds true s v -> tr v u = true) ->
  ok (assign_and_propagate_units o us s) (fun s' => grows s s' /\
    (inconsistent s' = false -> (forall u, In u us -> values s' u = Some true) /\ (complete s -> complete s'))).
Proof.
  intros o. induction us as [|u us IH]; intros s V Hu; cbn [assign_and_propagate_units].
  - cbn [ok]. split; [now apply grows_refl|]. intros _. split; [intros u []|auto].
  - destruct (inconsistent s) eqn:Ic; cbn [ok]; [split; [now apply grows_refl|congruence]|].
    destruct (Hu u (or_introl eq_refl)) as [Ru Iu].
    assert (Hu' : forall s1, grows s s1 -> forall x, In x us -> x < 2 * vars s1 /\ forall v, Given v -> holds true s1 v -> tr v x = true).
    { intros s1 G x I. destruct (Hu x (or_intror I)) as [R1 R2]. rewrite (gr_vars _ _ G). split; auto. intros v Ev M. apply R2; auto. eapply grows_back; eauto. }
    destruct (values s u) as [[|]|] eqn:Vu.
    + eapply ok_mono; [apply (IH s V (Hu' s (grows_refl s V)))|]. cbn beta. intros s' (A & B). split; auto. intros N. destruct (B N) as [B1 B2]. split; auto.
      intros x [<-|I]; auto. now apply (gr_values _ _ A).
    + assert (Un : forall v, Given v -> ~ holds true s v). { intros v Ev M. pose proof (Iu v Ev M) as T. rewrite (value_false s true v u V M Vu) in T. discriminate. }
      destruct (grows_inconsistent s [] V Un) as [G _]. eapply ok_mono; [apply (IH _ (gr_inv _ _ G) (Hu' _ G))|]. cbn beta. intros s' (A & B).
      split; [eapply grows_trans; eauto|]. intros N. apply (gr_incons _ _ A) in N. discriminate.
    + apply ok_bind. eapply ok_mono; [apply learned_unit_grows; auto|]. intros s1 (A & B & C & D). apply ok_bind, ok_assert. intros L. apply Nat.eqb_eq in L. apply ok_bind.
      eapply ok_mono; [apply probing_propagate_grows; apply A|]. intros [s2 confl] (A2 & B2 & C2). pose proof (grows_trans _ _ _ A A2) as A02.
      eapply ok_mono; [apply (IH s2 (gr_inv _ _ A2) (Hu' s2 A02))|]. cbn beta. intros s' (A' & B'). split; [eapply grows_trans; eauto|]. intros N.
      destruct (B' N) as [B1 B3]. apply (gr_incons _ _ A') in N.
      assert (Cn : confl = None). { destruct confl as [c|]; auto. rewrite B2 in N; [discriminate|discriminate|auto]. }
      destruct (C2 Cn) as [_ C3]. split.
      * intros x [<-|I]; auto. apply (gr_values _ _ A'), (gr_values _ _ A2). exact C.
      * intros Cs. apply B3, C3. eapply queued_extends; [exact V|exact A|exact B|now apply complete_queued].
Qed.
End Under.
