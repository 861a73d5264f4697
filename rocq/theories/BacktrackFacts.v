(** Backtracking keeps the invariants. *)
From Coq Require Import ZArith List Bool Lia Arith Permutation.
From Coq Require Import ZifyBool ZifyNat.
From Verif Require Import Base Hoare SpecSat Lit Sem Solver Inv DbFacts AssignFacts AssignSpec.
Import ListNotations.
Open Scope nat_scope.

(** ** Positions in a filtered list *)
Lemma pos_filter : forall A (f : A -> bool) L i x, nth_error L i = Some x -> f x = true ->
  nth_error (filter f L) (length (filter f (firstn i L))) = Some x.
Proof.
  intros A f. induction L as [|a L IH]; intros i x E Fx; [destruct i; discriminate|].
  destruct i as [|i]; cbn in E.
  - inversion E; subst. cbn. now rewrite Fx.
  - cbn [firstn filter]. destruct (f a); cbn [length nth_error]; auto.
Qed.
Lemma firstn_filter_mono : forall A (f : A -> bool) L i j, i <= j ->
  length (filter f (firstn i L)) <= length (filter f (firstn j L)).
Proof.
  intros A f. induction L as [|a L IH]; intros i j H; [now rewrite !firstn_nil|].
  destruct i as [|i]; [cbn; lia|]. destruct j as [|j]; [lia|]. cbn [firstn filter].
  specialize (IH i j ltac:(lia)). destruct (f a); cbn [length]; lia.
Qed.
Lemma firstn_filter_lt : forall A (f : A -> bool) L i j x, nth_error L i = Some x -> f x = true -> i < j ->
  length (filter f (firstn i L)) < length (filter f (firstn j L)).
Proof.
  intros A f. induction L as [|a L IH]; intros i j x E Fx H; [destruct i; discriminate|].
  destruct j as [|j]; [lia|]. destruct i as [|i]; cbn in E.
  - inversion E; subst. cbn. rewrite Fx. cbn. lia.
  - cbn [firstn filter]. pose proof (IH i j x E Fx ltac:(lia)). destruct (f a); cbn [length]; lia.
Qed.
Lemma nth_error_firstn_lt : forall A (L : list A) n i, i < n -> nth_error (firstn n L) i = nth_error L i.
Proof.
  intros A. induction L as [|a L IH]; intros n i H; [now rewrite firstn_nil|].
  destruct n as [|n]; [lia|]. destruct i as [|i]; cbn; auto. apply IH. lia.
Qed.
Lemma filter_all : forall A (f : A -> bool) L, (forall x, In x L -> f x = true) -> filter f L = L.
Proof.
  intros A f. induction L as [|a L IH]; intros H; cbn; auto. rewrite (H a) by now left.
  f_equal. apply IH. intros x X. apply H. now right.
Qed.

(** ** The loop over the trail *)
Definition gone (k : nat) (s : solver) (lits : list lit) (m : lit) : bool :=
  existsb (fun l => (idx l =? idx m) && negb (lev s l <=? k)) lits.
Lemma gone_spec : forall k s lits m, gone k s lits m = true <->
  exists l, In l lits /\ idx l = idx m /\ k < lev s l.
Proof.
  intros. unfold gone. rewrite existsb_exists. split; intros (l & I & H); exists l; split; auto.
  - apply andb_true_iff in H as [A B]. apply Nat.eqb_eq in A. split; auto. lia.
  - destruct H as [A B]. rewrite A, Nat.eqb_refl. cbn. lia.
Qed.

Definition unas_ok (s : solver) : Prop :=
  unassigned s = length (filter (fun i => active s i && is_unassigned s (2 * i)) (seq 0 (vars s))).

Lemma unas_unassign : forall s l, (forall m, values s (neg m) = option_map negb (values s m)) ->
  values s l <> None -> dom s l -> unas_ok s -> unas_ok (unassign l s).
Proof.
  intros s l Ng N R U. unfold unas_ok in *. cbn [unassign set_unassigned unassigned vars active set_values].
  rewrite U. symmetry. apply filter_count_upd with (i := idx l).
  - apply seq_NoDup.
  - apply in_seq. split; [lia|]. now apply idx_lt, dom_lt.
  - rewrite (proj2 R). unfold is_unassigned, unassign. cbn. unfold upd.
    destruct (Nat.eqb_spec (idx l + (idx l + 0)) (neg l)) as [|A]; auto.
    destruct (Nat.eqb_spec (idx l + (idx l + 0)) l) as [|B]; auto. exfalso.
    destruct (lit_cases l) as [[j ->]|[j ->]].
    + rewrite idx_even in B. lia.
    + rewrite idx_odd in *. rewrite neg_odd in A. lia.
  - rewrite (proj2 R). unfold is_unassigned. destruct (values s (2 * idx l)) eqn:E; auto. exfalso. apply N.
    destruct (lit_cases l) as [[j ->]|[j ->]].
    + rewrite idx_even in E. auto.
    + rewrite idx_odd in E. rewrite <- neg_even, Ng, E. reflexivity.
  - intros j J. f_equal. unfold is_unassigned. cbn [unassign set_unassigned set_values values]. unfold upd.
    destruct (Nat.eqb_spec (2 * j) (neg l)) as [A|_].
    { exfalso. apply J. rewrite <- (idx_neg l), <- A, idx_even. reflexivity. }
    destruct (Nat.eqb_spec (2 * j) l) as [A|_]; auto.
    exfalso. apply J. rewrite <- A, idx_even. reflexivity.
Qed.

Lemma backtrack_lits_spec : forall k lits q s kept s1,
  NoDup (map idx lits) -> (forall l, In l lits -> values s l <> None /\ dom s l) ->
  (forall m, values s (neg m) = option_map negb (values s m)) ->
  backtrack_lits k lits q s = (kept, s1) ->
  kept = filter (fun l => lev s l <=? k) lits /\
  (exists V A U, s1 = set_unassigned U (set_values V (set_assigned A s))) /\
  (forall m, values s1 m = if gone k s lits m then None else values s m) /\
  (forall m, lev s1 m = lev s m) /\ (forall m, reas s1 m = reas s m) /\
  (forall i l, nth_error kept i = Some l -> tpos s1 l = q + i) /\
  (forall m, ~ In (idx m) (map idx kept) -> tpos s1 m = tpos s m) /\
  (unas_ok s -> unas_ok s1).
Proof.
  intros k. induction lits as [|l lits IH]; intros q s kept s1 Nd As Ng E.
  { cbn in E. inversion E; subst. splits; auto.
    - exists (values s1), (assigned s1), (unassigned s1). destruct s1; reflexivity.
    - intros i l H. destruct i; discriminate. }
  inversion Nd as [|? ? Nl Nd']; subst. cbn [backtrack_lits] in E. cbn [filter].
  destruct (lev s l <=? k) eqn:Lk.
  - set (s0 := set_assigned (upd (assigned s) (idx l)
      (mk_asg (a_level (assigned s (idx l))) q (a_reason (assigned s (idx l))))) s) in *.
    destruct (backtrack_lits k lits (S q) s0) as [kept' s1'] eqn:E'. inversion E; subst kept s1; clear E.
    assert (L0 : forall m, lev s0 m = lev s m).
    { intros m. unfold lev, s0. cbn. unfold upd. destruct (Nat.eqb_spec (idx m) (idx l)) as [->|]; reflexivity. }
    assert (R0 : forall m, reas s0 m = reas s m).
    { intros m. unfold reas, s0. cbn. unfold upd. destruct (Nat.eqb_spec (idx m) (idx l)) as [->|]; reflexivity. }
    apply IH in E' as (K & (V & A & U & S1) & Va & Le & Re & Po & Po' & Un); auto;
      [|intros m M; apply As; now right].
    assert (Fe : filter (fun l => lev s0 l <=? k) lits = filter (fun l => lev s l <=? k) lits)
      by (apply filter_ext; intros m; now rewrite L0).
    rewrite Fe in K. splits; auto.
    + now rewrite K.
    + exists V, A, U. rewrite S1. reflexivity.
    + intros m. rewrite Va. unfold gone. cbn [existsb]. rewrite Lk.
      rewrite andb_false_r. cbn [orb].
      replace (existsb (fun l0 => (idx l0 =? idx m) && negb (lev s0 l0 <=? k)) lits)
        with (existsb (fun l0 => (idx l0 =? idx m) && negb (lev s l0 <=? k)) lits); auto.
      clear - L0. induction lits as [|a t IH]; cbn; auto. now rewrite L0, IH.
    + intros m. now rewrite Le, L0.
    + intros m. now rewrite Re, R0.
    + intros i m H. destruct i as [|i]; cbn in H.
      * inversion H; subst m. rewrite Po'.
        { unfold tpos, s0. cbn. rewrite upd_same. cbn. lia. }
        intros I. apply Nl. apply in_map_iff in I as (x & X & I). rewrite K in I. apply filter_In in I as [I _].
        rewrite <- X. now apply in_map.
      * rewrite (Po i m H). lia.
    + intros m M. cbn in M. rewrite Po' by tauto. unfold tpos, s0. cbn. rewrite upd_other; [reflexivity|].
      intros X. apply M. left. now symmetry.
  - assert (Il : values s l <> None /\ dom s l) by (apply As; now left).
    set (s0 := unassign l s) in *.
    assert (Ng0 : forall m, values s0 (neg m) = option_map negb (values s0 m)).
    { intros m. unfold s0. cbn [unassign set_unassigned set_values values]. unfold upd.
      destruct (Nat.eqb_spec (neg m) (neg l)) as [B|B].
      { apply neg_inj in B as ->. destruct (Nat.eqb_spec l (neg l)); auto. now rewrite Nat.eqb_refl. }
      destruct (Nat.eqb_spec (neg m) l) as [C|C].
      { subst l. now rewrite neg_neg, Nat.eqb_refl. }
      destruct (Nat.eqb_spec m (neg l)) as [->|D]; [rewrite neg_neg in C; congruence|].
      destruct (Nat.eqb_spec m l) as [->|_]; [congruence|]. apply Ng. }
    apply IH in E as (K & (V & A & U & S1) & Va & Le & Re & Po & Po' & Un); auto.
    + splits; auto.
      * exists V, A, U. rewrite S1. reflexivity.
      * intros m. rewrite Va. unfold gone at 2. cbn [existsb]. rewrite Lk. cbn [negb]. rewrite andb_true_r.
        change (existsb (fun l0 => (idx l0 =? idx m) && negb (lev s l0 <=? k)) lits) with (gone k s0 lits m).
        destruct (gone k s0 lits m); [now rewrite orb_true_r|]. rewrite orb_false_r.
        unfold s0. cbn [unassign set_unassigned set_values values]. unfold upd.
        destruct (Nat.eqb_spec m (neg l)) as [->|B]; [now rewrite idx_neg, Nat.eqb_refl|].
        destruct (Nat.eqb_spec m l) as [->|C]; [now rewrite Nat.eqb_refl|].
        destruct (Nat.eqb_spec (idx l) (idx m)) as [D|D]; auto.
        symmetry in D. apply idx_eq in D. tauto.
      * intros X. apply Un. unfold s0. apply unas_unassign; tauto.
    + intros m M. split; [|apply As; now right]. unfold s0. cbn [unassign set_unassigned set_values values].
      assert (D : idx m <> idx l). { intros D. apply Nl. rewrite <- D. now apply in_map. }
      rewrite !upd_other; [apply As; now right| |]; intros ->; apply D; now rewrite ?idx_neg.
Qed.

(** ** The state after backtracking *)
Record backtracked (k : nat) (s s' : solver) : Prop := {
  bt_trail : trail s' = filter (fun l => lev s l <=? k) (trail s);
  bt_values : forall l, values s' l = if lev s l <=? k then values s l else None;
  bt_lev : forall l, lev s' l = lev s l;
  bt_reas : forall l, reas s' l = reas s l;
  bt_pos : forall i l, nth_error (trail s') i = Some l -> tpos s' l = i;
  bt_prop : propagate s' = T s (S k);
  bt_level : level s' = k;
  bt_frames : frames s' = firstn (S k) (frames s);
  bt_unas : unas_ok s';
  bt_vars : vars s' = vars s; bt_active : active s' = active s; bt_unfl : unflushed s' = unflushed s; bt_arena : arena s' = arena s;
  bt_next : next_ref s' = next_ref s; bt_watches : watches s' = watches s;
  bt_inc : inconsistent s' = inconsistent s; bt_iter : iterating s' = iterating s;
  bt_big : bigbig s' = bigbig s; bt_last : last_learned s' = last_learned s;
  bt_steps : steps s' = steps s; bt_an : an s' = an s }.

Lemma bt_dom : forall k s s' l, backtracked k s s' -> dom s' l = dom s l.
Proof. intros k s s' l B. unfold dom. now rewrite (bt_vars _ _ _ B), (bt_active _ _ _ B). Qed.

Lemma backtrack_eq : forall k s, vinv s -> finv s -> k < level s ->
  exists s', backtrack k s = Ret s' /\ backtracked k s s'.
Proof.
  intros k s V F K. unfold backtrack.
  replace (k <=? level s) with true by (symmetry; apply Nat.leb_le; lia). cbn [oassert obind].
  destruct (Nat.eqb_spec (level s) k); [lia|].
  destruct (ti_dec _ F (S k)) as (f & Ef & _); [lia|]. rewrite Ef.
  assert (Et : T s (S k) = f_trail f) by now apply T_nth.
  assert (Lt : T s (S k) <= length (trail s)).
  { pose proof (T_lt s (S k) V F ltac:(lia)). lia. }
  replace (f_trail f <=? length (trail s)) with true by (symmetry; apply Nat.leb_le; lia). cbn [oassert obind].
  destruct (backtrack_lits k (skipn (f_trail f) (trail s)) (f_trail f) s) as [kept s1] eqn:E.
  pose proof (nodup_idx s V) as Nd. rewrite <- (firstn_skipn (f_trail f) (trail s)), map_app in Nd.
  assert (Nd2 : NoDup (map idx (skipn (f_trail f) (trail s)))).
  { clear - Nd. induction (map idx (firstn (f_trail f) (trail s))) as [|a t IH]; auto.
    inversion Nd; auto. }
  apply backtrack_lits_spec in E as (Kp & (Vs & A & U & S1) & Va & Le & Re & Po & Po' & Un); auto.
  2:{ intros l L. assert (I : In l (trail s)) by (rewrite <- (firstn_skipn (f_trail f)); apply in_or_app; now right).
      split; [rewrite (ti_true _ V); auto; discriminate|now apply trail_range]. }
  2:{ apply (ti_neg _ V). }
  assert (Tr : firstn (f_trail f) (trail s) ++ kept = filter (fun l => lev s l <=? k) (trail s)).
  { rewrite <- (firstn_skipn (f_trail f) (trail s)) at 2. rewrite filter_app, <- Kp. f_equal.
    symmetry. apply filter_all. intros l L. apply In_nth_error in L as [i Ei].
    assert (i < f_trail f). { assert (i < length (firstn (f_trail f) (trail s))) by (apply nth_error_Some; congruence).
      rewrite firstn_length in H. lia. }
    assert (Q : nth_error (trail s) i = Some l).
    { rewrite <- (firstn_skipn (f_trail f) (trail s)). rewrite nth_error_app1; auto. apply nth_error_Some. congruence. }
    apply Nat.leb_le. apply (ti_lev _ F k i l); auto. lia. }
  eexists. split; [reflexivity|]. constructor; try (rewrite S1; reflexivity).
  - exact Tr.
  - intros l. cbn [set_propagate set_level set_frames set_trail values]. rewrite Va.
    destruct (lev s l <=? k) eqn:L.
    + destruct (gone k s (skipn (f_trail f) (trail s)) l) eqn:G; auto.
      apply gone_spec in G as (m & _ & I & M). unfold lev in *. rewrite I in M. lia.
    + destruct (gone k s (skipn (f_trail f) (trail s)) l) eqn:G; auto.
      destruct (values s l) as [b|] eqn:B; auto. exfalso.
      assert (exists m, In m (trail s) /\ idx m = idx l) as (m & M & I).
      { destruct b.
        - exists l. split; auto. apply true_on_trail; auto. lia.
        - exists (neg l). split; [|apply idx_neg]. apply false_on_trail; auto. lia. }
      assert (Lm : k < lev s m) by (unfold lev in *; rewrite I; lia).
      enough (G' : gone k s (skipn (f_trail f) (trail s)) l = true) by congruence.
      apply gone_spec. exists m. splits; auto.
      rewrite <- (firstn_skipn (f_trail f)) in M. apply in_app_or in M as [M|M]; auto. exfalso.
      assert (X : In m (filter (fun l => lev s l <=? k) (trail s))) by (rewrite <- Tr; apply in_or_app; now left).
      apply filter_In in X as [_ X]. lia.
  - intros l. apply Le.
  - intros l. apply Re.
  - intros i l H. cbn [set_propagate set_level set_frames set_trail trail] in H.
    change (tpos s1 l = i). assert (Lf : length (firstn (f_trail f) (trail s)) = f_trail f).
    { rewrite firstn_length. lia. }
    destruct (lt_dec i (f_trail f)) as [Hi|Hi].
    + rewrite nth_error_app1 in H by lia.
      assert (Q : nth_error (trail s) i = Some l).
      { rewrite <- (firstn_skipn (f_trail f) (trail s)). rewrite nth_error_app1; auto. lia. }
      rewrite Po'; [now apply (ti_pos _ V)|]. intros I.
      apply in_map_iff in I as (m & M & I). rewrite Kp in I. apply filter_In in I as [I _].
      clear - Nd M I H. apply nth_error_In in H.
      induction (firstn (f_trail f) (trail s)) as [|a t IH]; [destruct H|]. cbn in Nd. inversion Nd as [|? ? X Y]; subst.
      destruct H as [->|H]; auto. apply X. apply in_or_app. right. rewrite <- M. now apply in_map.
    + rewrite nth_error_app2 in H by lia. rewrite (Po _ _ H). lia.
  - exact (eq_sym Et).
  - change (unas_ok s1). apply Un. apply (ti_unas _ V).
Qed.

(** ** Invariants *)
Section Backtrack.
Variables (k : nat) (s s' : solver).
Hypothesis V : vinv s.
Hypothesis F : finv s.
Hypothesis K : k < level s.
Hypothesis B : backtracked k s s'.

Lemma bt_some : forall l b, values s' l = Some b <-> values s l = Some b /\ lev s l <= k.
Proof.
  intros l b. rewrite (bt_values _ _ _ B). destruct (lev s l <=? k) eqn:L; split; intros H; try discriminate;
    try (split; [auto|lia]); try tauto. destruct H as [_ H]. apply Nat.leb_gt in L. lia.
Qed.
Lemma bt_in : forall l, In l (trail s') <-> In l (trail s) /\ lev s l <= k.
Proof. intros l. rewrite (bt_trail _ _ _ B), filter_In, Nat.leb_le. reflexivity. Qed.
Lemma bt_T : forall j, j <= k -> T s' j = T s j.
Proof.
  intros j J. unfold T. rewrite (bt_frames _ _ _ B).
  destruct (nth_error (frames s) j) as [f|] eqn:E.
  2:{ apply nth_error_None in E. rewrite (ti_frames _ F) in E. lia. }
  erewrite !nth_error_nth; [reflexivity| |].
  - rewrite nth_error_map, E. reflexivity.
  - rewrite nth_error_map. rewrite nth_error_firstn_lt; [rewrite E; reflexivity|lia].
Qed.
Lemma bt_T_top : forall j, k < j -> T s' j = length (trail s').
Proof.
  intros j J. unfold T. apply nth_overflow. rewrite map_length, (bt_frames _ _ _ B), firstn_length, (ti_frames _ F). lia.
Qed.
Lemma bt_tpos : forall l, In l (trail s') ->
  tpos s' l = length (filter (fun l => lev s l <=? k) (firstn (tpos s l) (trail s))).
Proof.
  intros l I. apply bt_in in I as [I L]. apply (bt_pos _ _ _ B).
  rewrite (bt_trail _ _ _ B). apply pos_filter; [now apply trail_nth|]. now apply Nat.leb_le.
Qed.
Lemma bt_tpos_lt : forall a b, In a (trail s') -> In b (trail s') -> tpos s a < tpos s b -> tpos s' a < tpos s' b.
Proof.
  intros a b Ia Ib L. rewrite !bt_tpos by auto. apply bt_in in Ia as [Ia La].
  apply (firstn_filter_lt _ _ _ _ _ a); auto; [now apply trail_nth|]. now apply Nat.leb_le.
Qed.
Lemma bt_Tlen : T s (S k) <= length (trail s).
Proof. pose proof (T_lt s (S k) V F ltac:(lia)). lia. Qed.
(** The part of the trail before level [k + 1] is not changed. *)
Lemma bt_low : forall i, i <= T s (S k) -> length (filter (fun l => lev s l <=? k) (firstn i (trail s))) = i.
Proof.
  intros i H. pose proof bt_Tlen. rewrite filter_all.
  - rewrite firstn_length. lia.
  - intros l L. apply In_nth_error in L as [j E].
    assert (J : j < length (firstn i (trail s))) by (apply nth_error_Some; congruence).
    rewrite firstn_length in J. rewrite nth_error_firstn_lt in E by lia.
    apply Nat.leb_le. apply (ti_lev _ F k j); auto. lia.
Qed.
Lemma bt_low_in : forall l, In l (trail s) -> tpos s l < T s (S k) -> In l (trail s') /\ tpos s' l = tpos s l.
Proof.
  intros l I H. assert (I' : In l (trail s')).
  { apply bt_in. split; auto. apply (ti_lev _ F k (tpos s l)); auto. now apply trail_nth. }
  split; auto. rewrite bt_tpos by auto. apply bt_low. lia.
Qed.
Lemma bt_low_back : forall l n, In l (trail s') -> n <= T s (S k) -> tpos s' l < n -> tpos s l < n.
Proof.
  intros l n I Hn H. destruct (lt_dec (tpos s l) n) as [|G]; auto. exfalso.
  rewrite bt_tpos in H by auto.
  pose proof (firstn_filter_mono _ (fun l => lev s l <=? k) (trail s) n (tpos s l) ltac:(lia)) as M.
  rewrite (bt_low n) in M by lia. lia.
Qed.
Lemma bt_low_len : T s (S k) <= length (trail s').
Proof.
  rewrite (bt_trail _ _ _ B). rewrite <- (bt_low (T s (S k))) by lia.
  rewrite <- (firstn_all (trail s)) at 2. apply firstn_filter_mono. apply bt_Tlen.
Qed.
Lemma bt_nth : forall i, i < T s (S k) -> nth_error (trail s') i = nth_error (trail s) i.
Proof.
  intros i H. pose proof bt_Tlen. destruct (nth_error (trail s) i) as [l|] eqn:E.
  2:{ apply nth_error_None in E. lia. }
  assert (I : In l (trail s)) by (eapply nth_error_In; eauto).
  pose proof (ti_pos _ V _ _ E) as P. destruct (bt_low_in l) as [I' P']; auto; [lia|].
  rewrite <- P, <- P'. apply In_nth_error in I' as [j J]. rewrite (bt_pos _ _ _ B _ _ J). auto.
Qed.

Lemma bt_before : forall w n, values s w = Some false -> lev s w <= k -> n <= T s (S k) ->
  before s' w n <-> before s w n.
Proof.
  intros w n Fw L Hn. unfold before. split; intros H I.
  - assert (I' : In (neg w) (trail s')) by (apply bt_in; rewrite lev_neg; auto).
    specialize (H I'). rewrite <- tpos_neg in H |- *. now apply (bt_low_back (neg w)).
  - apply bt_in in I as [I _]. specialize (H I). rewrite <- tpos_neg in H |- *.
    destruct (bt_low_in (neg w)) as [_ E]; auto; [lia|]. lia.
Qed.

Lemma vinv_bt : vinv s'.
Proof.
  constructor.
  - intros l. rewrite !(bt_values _ _ _ B), lev_neg, (ti_neg _ V). destruct (lev s l <=? k); reflexivity.
  - intros l H. unfold dom. rewrite (bt_vars _ _ _ B), (bt_active _ _ _ B). apply (ti_range _ V). rewrite (bt_values _ _ _ B) in H.
    destruct (lev s l <=? k); congruence.
  - rewrite (bt_trail _ _ _ B). apply NoDup_filter, (ti_nodup _ V).
  - intros l I. apply bt_in in I as [I L]. apply bt_some. split; auto. now apply (ti_true _ V).
  - apply (bt_pos _ _ _ B).
  - intros l H I. apply bt_some in H as [H L]. rewrite (bt_lev _ _ _ B). apply (ti_root _ V); auto.
    intros X. apply I. apply bt_in. auto.
  - intros l H L. apply bt_some in H as [H _]. rewrite (bt_reas _ _ _ B). rewrite (bt_lev _ _ _ B) in L.
    now apply (ti_unit _ V).
  - rewrite (bt_prop _ _ _ B). apply bt_low_len.
  - apply (bt_unas _ _ _ B).
  - rewrite (bt_unfl _ _ _ B), (ti_unfl _ V), (bt_trail _ _ _ B).
    rewrite (filter_ext (fun l => lev s' l =? 0) (fun l => lev s l =? 0)) by (intros l; now rewrite (bt_lev _ _ _ B)).
    induction (trail s) as [|a t IH]; auto. cbn [filter].
    destruct (lev s a =? 0) eqn:E0; destruct (lev s a <=? k) eqn:E1; cbn [filter length]; rewrite ?E0; cbn [length]; try lia.
Qed.

Lemma finv_bt : finv s'.
Proof.
  constructor.
  - rewrite (bt_frames _ _ _ B), firstn_length, (ti_frames _ F), (bt_level _ _ _ B). lia.
  - rewrite bt_T by lia. apply (ti_T0 _ F).
  - intros j J. rewrite (bt_level _ _ _ B) in J. destruct (ti_dec _ F j) as (f & E1 & E2 & E3 & E4); [lia|].
    exists f. rewrite (bt_frames _ _ _ B), nth_error_firstn_lt, (bt_lev _ _ _ B), (bt_reas _ _ _ B) by lia. splits; auto.
    rewrite bt_nth; auto. rewrite <- (T_nth s j f E1).
    pose proof (ti_pos _ V _ _ E2) as P. rewrite <- (T_nth s j f E1) in P.
    destruct (lt_dec (T s j) (T s (S k))); auto. exfalso.
    (* the decision of level [j] would be the decision of level [k + 1] *)
    pose proof (ti_Tmono _ F j (S k) ltac:(lia)) as M. assert (E : T s j = T s (S k)) by lia.
    destruct (ti_dec _ F (S k)) as (g & G1 & G2 & G3 & G4); [lia|].
    rewrite <- (T_nth s j f E1) in E2. rewrite <- (T_nth s (S k) g G1), <- E in G2. rewrite E2 in G2. inversion G2 as [G5]. rewrite G5 in E3. lia.
  - intros j i l E H. rewrite (bt_lev _ _ _ B).
    assert (I : In l (trail s')) by (eapply nth_error_In; eauto). pose proof I as I'. apply bt_in in I' as [I' L].
    destruct (le_lt_dec k j) as [|J]; [lia|]. rewrite bt_T in H by lia.
    apply (ti_lev _ F j i); auto. rewrite <- bt_nth; auto.
    pose proof (ti_Tmono _ F (S j) (S k) ltac:(lia)). lia.
  - intros i j H. destruct (le_lt_dec j k) as [J|J].
    + rewrite !bt_T by lia. now apply (ti_Tmono _ F).
    + rewrite (bt_T_top j) by auto. destruct (le_lt_dec i k) as [I|I].
      * rewrite bt_T by auto. pose proof (ti_Tmono _ F i (S k) ltac:(lia)). pose proof bt_low_len. lia.
      * rewrite bt_T_top by auto. lia.
  - rewrite (bt_level _ _ _ B), (bt_prop _ _ _ B), bt_T by lia. apply (ti_Tmono _ F). lia.
Qed.

Lemma bt_root_units : root_units s' = root_units s.
Proof.
  unfold root_units. rewrite (bt_vars _ _ _ B). f_equal. apply filter_ext. intros l.
  rewrite (bt_lev _ _ _ B). unfold is_true. rewrite (bt_values _ _ _ B).
  destruct (lev s l) eqn:E; [reflexivity|]. cbn [Nat.eqb]. now rewrite !andb_false_r.
Qed.
Lemma bt_db : db s' = db s.
Proof. unfold db. now rewrite bt_root_units, (bt_vars _ _ _ B), (bt_arena _ _ _ B), (bt_next _ _ _ B), (bt_watches _ _ _ B). Qed.
Lemma bt_irr : irr s' = irr s.
Proof. unfold irr. now rewrite bt_root_units, (bt_vars _ _ _ B), (bt_arena _ _ _ B), (bt_next _ _ _ B), (bt_watches _ _ _ B). Qed.

Lemma linv_bt : forall orig, linv orig s -> linv orig s'.
Proof.
  intros orig [A C D E R]. constructor; rewrite ?bt_db, ?bt_irr, ?(bt_steps _ _ _ B), ?(bt_inc _ _ _ B), ?(bt_vars _ _ _ B); auto.
Qed.
Lemma cinv_bt : cinv s -> cinv s'.
Proof.
  intros [A C D E G]. constructor; rewrite ?(bt_arena _ _ _ B), ?(bt_next _ _ _ B), ?(bt_last _ _ _ B); auto.
  intros r c l. rewrite (bt_dom _ _ _ l B). apply E.
Qed.
Lemma winv_bt : winv (rooted s) (vars s) (active s) (arena s) (watches s) -> winv (rooted s') (vars s') (active s') (arena s') (watches s').
Proof.
  rewrite (bt_vars _ _ _ B), (bt_active _ _ _ B), (bt_arena _ _ _ B), (bt_watches _ _ _ B). apply winv_mono.
  intros t [Tt Lt]. split; [apply bt_some; split; auto; lia|]. now rewrite (bt_lev _ _ _ B).
Qed.

Lemma bt_bpath : forall l o, lev s l <= k -> bpath s l o -> bpath s' l o.
Proof.
  intros l o L P. induction P as [l o I|l m o I Fm E P IH].
  - apply bpath_one. now rewrite (bt_watches _ _ _ B).
  - apply bpath_step with m.
    + now rewrite (bt_watches _ _ _ B).
    + apply bt_some. split; auto. lia.
    + now rewrite !(bt_lev _ _ _ B).
    + apply IH. rewrite lev_neg. lia.
Qed.

Lemma bt_reason : forall l, In l (trail s') -> 0 < lev s l -> reason_ok s l -> reason_ok s' l.
Proof.
  intros l I L0 R. pose proof I as I'. apply bt_in in I' as [I' L].
  unfold reason_ok in *. rewrite (bt_reas _ _ _ B).
  destruct (reas s l) as [| |o|r] eqn:E; auto.
  - rewrite (bt_lev _ _ _ B), bt_T by auto. destruct (bt_low_in l) as [_ P]; auto.
    + rewrite R. destruct (lt_dec (T s (lev s l)) (T s (S k))); auto. exfalso.
      pose proof (ti_Tmono _ F (lev s l) (S k) ltac:(lia)). assert (X : T s (lev s l) = T s (S k)) by lia.
      destruct (ti_dec _ F (S k)) as (g & G1 & G2 & G3 & G4); [lia|].
      rewrite <- (T_nth s _ g G1), <- X, <- R in G2. rewrite (trail_nth s l V I') in G2. inversion G2. subst. lia.
    + lia.
  - destruct R as (R1 & R2 & R3 & R4). rewrite !(bt_lev _ _ _ B). splits; auto.
    + apply bt_some. split; auto. lia.
    + rewrite <- tpos_neg. apply bt_tpos_lt; auto.
      * apply bt_in. rewrite lev_neg. split; [|lia]. apply false_on_trail; auto. lia.
      * now rewrite tpos_neg.
    + apply bt_bpath; auto.
  - destruct R as (c & Ec & G & W & O & M & Sg). exists c. rewrite (bt_arena _ _ _ B). split; auto.
    unfold reason_clause_ok. splits; auto.
    + intros x X D. destruct (O x X D) as (O1 & O2 & O3). rewrite !(bt_lev _ _ _ B). splits; auto.
      * apply bt_some. split; auto. lia.
      * destruct (Nat.eq_dec (lev s x) 0); auto. right. destruct O3 as [|O3]; [lia|].
        rewrite <- tpos_neg. apply bt_tpos_lt; auto; [|now rewrite tpos_neg].
        apply bt_in. rewrite lev_neg. split; [|lia]. apply false_on_trail; auto. lia.
    + destruct M as (x & X & D & Le). exists x. rewrite !(bt_lev _ _ _ B). auto.
    + intros w j Ww D J Bw. rewrite (bt_lev _ _ _ B). rewrite (bt_level _ _ _ B) in J.
      assert (Iw : In w (c_lits c)) by (destruct Ww as [Ww|Ww]; eapply nth_error_In; eauto).
      destruct (O w Iw D) as (O1 & O2 & _). apply Sg with w; auto; [lia|].
      rewrite bt_T in Bw by lia. apply bt_before; auto; [lia|]. apply (ti_Tmono _ F). lia.
Qed.

Lemma rinv_bt : forall p, rinv p s -> rinv (length (trail s')) s'.
Proof.
  intros p R l I L _. rewrite (bt_lev _ _ _ B) in L. apply bt_reason; auto.
  apply bt_in in I as [I Lk]. apply R; auto. left. lia.
Qed.

Lemma bt_true_in : forall c j, j <= k -> true_in s c j -> true_in s' c j.
Proof.
  intros c j J (t & I & Tt & L). exists t. splits; auto.
  - apply bt_some. split; auto. lia.
  - now rewrite (bt_lev _ _ _ B).
Qed.
Lemma true_in_mono : forall x c i j, i <= j -> true_in x c i -> true_in x c j.
Proof. intros x c i j H (t & I & Tt & L). exists t. splits; auto. lia. Qed.

Lemma watched_bt : forall c w x, watched_ok s (T s (S k)) c w x -> watched_ok s' (T s (S k)) c w x.
Proof.
  intros c w x [Wb Wr]. split.
  2:{ intros Fw Bw B1. apply bt_some in Fw as [Fw Lw]. apply bt_before in Bw; auto. apply bt_true_in; [lia|]. apply Wr; auto.
      pose proof (ti_Tmono _ F 1 (S k) ltac:(lia)).
      destruct (Nat.eq_dec k 0) as [E|E]; [now rewrite E in Bw|]. rewrite bt_T in B1 by lia. apply bt_before in B1; auto. }
  intros Fw Bw Fx Bx j J. apply bt_some in Fw as [Fw Lw]. apply bt_some in Fx as [Fx Lx].
  apply bt_before in Bw; auto. apply bt_before in Bx; auto. rewrite (bt_level _ _ _ B) in J.
  destruct (le_lt_dec k j) as [Hj|Hj].
  + apply true_in_mono with k; auto. apply bt_true_in; auto.
  + destruct J as [J|[J1 J2]]; [lia|]. rewrite bt_T in J1, J2 by lia. apply bt_true_in; [lia|]. apply Wb; auto. right.
    pose proof (ti_Tmono _ F (S j) (S k) ltac:(lia)).
    apply bt_before in J1; auto. apply bt_before in J2; auto.
Qed.

Lemma pinv_bt : pinv (T s (S k)) s -> pinv (propagate s') s'.
Proof.
  intros [Pb Pl]. rewrite (bt_prop _ _ _ B). constructor.
  - intros a b I. rewrite (bt_watches _ _ _ B) in I. apply watched_bt. now apply Pb.
  - intros r c w x A G W X D. rewrite (bt_arena _ _ _ B) in A. apply watched_bt. eapply Pl; eauto.
Qed.
End Backtrack.

(** ** Specification *)
Lemma watched_weaken : forall lim lim' s c w x, lim' <= lim -> watched_ok s lim c w x -> watched_ok s lim' c w x.
Proof.
  intros lim lim' s c w x H [A U]. split.
  - intros Fw Bw Fx Bx. apply A; auto.
    + intros I. specialize (Bw I). lia.
    + intros I. specialize (Bx I). lia.
  - intros Fw Bw B1. apply U; auto. intros I. specialize (Bw I). lia.
Qed.
Lemma pinv_weaken : forall lim lim' s, lim' <= lim -> pinv lim s -> pinv lim' s.
Proof.
  intros lim lim' s H [Pb Pl]. constructor; intros; eapply watched_weaken; eauto.
Qed.

Lemma backtrack_spec : forall orig p k s, core orig p s -> k < level s -> pinv (T s (S k)) s ->
  exists s', backtrack k s = Ret s' /\ backtracked k s s' /\ core orig (length (trail s')) s' /\
    pinv (propagate s') s'.
Proof.
  intros orig p k s [V F C W L R] K P. destruct (backtrack_eq k s V F K) as (s' & E & B).
  exists s'. splits; auto.
  - constructor.
    + now apply (vinv_bt k s).
    + now apply (finv_bt k s).
    + now apply (cinv_bt k s).
    + now apply (winv_bt k s).
    + now apply (linv_bt k s).
    + now apply (rinv_bt k s s' V F K B p).
  - now apply (pinv_bt k s).
Qed.
