(** Shrinking of the deduced clause. *)
From Coq Require Import ZArith List Bool Lia Arith Permutation Sorted.
From Coq Require Import ZifyBool ZifyNat.
From Verif Require Import Base Hoare SpecSat Lit Sem Solver Analyze Inv DbFacts AssignFacts AssignSpec BacktrackFacts PropFacts PropLoop CutFacts OneLit MarkFacts ClauseFacts DeduceFacts Otfs DeduceLoop MinFacts.
Import ListNotations.
Open Scope nat_scope.

(** Only removable, poisoned and shrinkable marks are added. *)
Record skeeps (a a' : analysis) : Prop := {
  sk_an : analyzed a' = analyzed a; sk_as : astack a' = astack a;
  sk_cl : an_clause a' = an_clause a; sk_lv : an_levels a' = an_levels a;
  sk_rm : forall i, removable a i = true -> removable a' i = true;
  sk_sh : forall i, shrinkable a i = true -> shrinkable a' i = true }.
Lemma skeeps_refl : forall a, skeeps a a. Proof. intros a. constructor; auto. Qed.
Lemma skeeps_trans : forall a b c, skeeps a b -> skeeps b c -> skeeps a c.
Proof. intros a b c [] []. constructor; try congruence; auto. Qed.
Lemma keeps_skeeps : forall a b, keeps a b -> skeeps a b.
Proof. intros a b []. constructor; auto. intros i. congruence. Qed.

Section Shrink.
Variables (orig : list (list lit)) (p : nat) (s : solver).
Hypothesis Co : core orig p s.
Let V := co_v _ _ _ Co.
Let F := co_f _ _ _ Co.

(** The number of shrinkable literals among the first [n] of the trail. *)
Definition shr (a : analysis) (n : nat) : nat := length (filter (fun m => shrinkable a (idx m)) (firstn n (trail s))).
Lemma shr_S : forall a n x, nth_error (trail s) n = Some x -> shr a (S n) = shr a n + b2n (shrinkable a (idx x)).
Proof.
  intros a n x E. unfold shr. rewrite (firstn_S _ _ _ E), filter_app, app_length. cbn [filter]. destruct (shrinkable a (idx x)); reflexivity.
Qed.
Lemma shr_pos : forall a n m, In m (trail s) -> shrinkable a (idx m) = true -> tpos s m < n -> 0 < shr a n.
Proof.
  intros a n m I M L. unfold shr.
  assert (In m (filter (fun m => shrinkable a (idx m)) (firstn n (trail s)))) by (apply filter_In; split; auto; apply in_firstn_trail; auto).
  destruct (filter _ _); [destruct H|cbn; lia].
Qed.
Lemma shr_more : forall a a' n m, In m (trail s) -> tpos s m < n -> shrinkable a (idx m) = false -> shrinkable a' = upd (shrinkable a) (idx m) true ->
  shr a' n = S (shr a n).
Proof.
  intros a a' n m I L M E. unfold shr. apply filter_one_more with m; auto.
  - apply NoDup_firstn, V.
  - apply in_firstn_trail; auto.
  - rewrite E. apply upd_same.
  - intros y Y N. rewrite E. apply upd_other. intros X. apply N. apply (trail_idx s); auto. apply in_firstn_trail in Y; auto. apply Y.
Qed.

Definition sgood (lvl : nat) (a : analysis) : Prop :=
  (forall i, shrinkable a i = true <-> In i (sstack a)) /\ forall m, In m (trail s) -> shrinkable a (idx m) = true -> known s p m /\ lev s m = lvl.
Definition sh_ok (a : analysis) (k : lit) : Prop := lev s k = 0 \/ removable a (idx k) = true \/ shrinkable a (idx k) = true.
Lemma sh_ok_keeps : forall a a' k, skeeps a a' -> sh_ok a k -> sh_ok a' k.
Proof. intros a a' k K [H|[H|H]]; [left|right; left; apply (sk_rm _ _ K)|right; right; apply (sk_sh _ _ K)]; auto. Qed.

Variables (D : lit -> Prop) (o : options) (lvl : nat).
Hypothesis L0 : 0 < lvl.

Definition litpost (l : lit) (a : analysis) (res : option bool * analysis) : Prop :=
  let '(r, a') := res in mgood p s D a' /\ sgood lvl a' /\ skeeps a a' /\
    match r with
    | Some true => lev s l = lvl /\ shrinkable a (idx l) = false /\ shrinkable a' = upd (shrinkable a) (idx l) true
    | Some false => sh_ok a' l /\ shrinkable a' = shrinkable a
    | None => lev s l < lvl /\ shrinkable a' = shrinkable a
    end.
Lemma shrink_literal_spec : forall l a, mgood p s D a -> sgood lvl a -> ready_lit p s l -> lev s l <= lvl ->
  wp (shrink_literal o s lvl l a) (litpost l a).
Proof.
  intros l a G [S1 S2] Rl Ll. unfold shrink_literal. destruct (Nat.eqb_spec (lev s l) 0) as [Z|Z].
  { apply wp_ret. split; auto. split; [split; auto|]. split; [apply skeeps_refl|]. split; auto. now left. }
  destruct (shrinkable a (idx l)) eqn:Sh.
  { apply wp_ret. split; auto. split; [split; auto|]. split; [apply skeeps_refl|]. split; auto. right. now right. }
  destruct (Nat.ltb_spec (lev s l) lvl) as [Lt|Ge].
  - destruct (removable a (idx l)) eqn:Rm.
    { apply wp_ret. split; auto. split; [split; auto|]. split; [apply skeeps_refl|]. split; auto. right. now left. }
    destruct (2 <? o_shrink o).
    + apply wp_bind. eapply wp_mono; [apply (proj1 (minimize_spec orig p s Co o false (minimize_fuel s)) D l 1 a); auto; eapply enough_fuel; eauto|].
      intros [b a1] (X & Y & W). apply wp_ret. unfold litpost. split; auto.
      split; [split; [intros i; rewrite (kp_sh _ _ Y), (kp_ss _ _ Y); apply S1|intros m; rewrite (kp_sh _ _ Y); apply S2]|].
      split; [now apply keeps_skeeps|]. destruct b.
      * split; [|apply Y]. cbn in W. destruct (W eq_refl) as [W'|W']; [now left|right; now left].
      * split; auto. apply Y.
    + apply wp_ret. split; auto. split; [split; auto|]. split; [apply skeeps_refl|]. auto.
  - apply wp_ret. destruct Rl as [Fl [?|K]]; [contradiction|]. unfold litpost. assert (lev s l = lvl) by lia.
    split; [exact G|]. split; [split|].
    + intros i. cbn. unfold upd. destruct (Nat.eqb_spec i (idx l)) as [->|N]; [tauto|]. rewrite S1. split; auto. intros [X|X]; auto. congruence.
    + intros m I X. cbn in X. unfold upd in X. destruct (Nat.eqb_spec (idx m) (idx l)) as [E|]; [|auto].
      assert (m = neg l) by (apply (trail_idx s); auto; [apply K|now rewrite idx_neg]). subst m. split; auto. now rewrite lev_neg.
    + split; [constructor; auto|auto]. intros i X. cbn. unfold upd. destruct (i =? idx l); auto.
Qed.

Lemma shr_lit : forall l a r a' n, litpost l a (r, a') -> ready_lit p s l -> tpos s l < n ->
  shr a' n = shr a n + match r with Some true => 1 | _ => 0 end.
Proof.
  intros l a r a' n (A & B & C & E) [Fl K] H. destruct r as [[]|].
  - destruct E as (E1 & E2 & E3). destruct K as [K|K]; [lia|]. rewrite (shr_more a a' n (neg l)); auto; try lia.
    + apply K.
    + now rewrite tpos_neg.
    + now rewrite idx_neg.
    + now rewrite idx_neg.
  - destruct E as [_ E]. unfold shr. rewrite E. lia.
  - destruct E as [_ E]. unfold shr. rewrite E. lia.
Qed.

Lemma shrink_along_spec : forall x lits open a n, tpos s x < n -> mgood p s D a -> sgood lvl a ->
  (forall k, In k lits -> k <> x -> ready_lit p s k /\ lev s k <= lvl /\ (lev s k = 0 \/ tpos s k < n)) ->
  wp (shrink_along o s lvl x lits open a) (fun '(r, a') => mgood p s D a' /\ sgood lvl a' /\ skeeps a a' /\
    match r with
    | Some open' => (forall k, In k lits -> k <> x -> sh_ok a' k) /\ shr a' n + open = shr a n + open' /\
        forall m, In m (trail s) -> shrinkable a' (idx m) = true -> shrinkable a (idx m) = true \/ (In (neg m) lits /\ neg m <> x)
    | None => True
    end).
Proof.
  intros x. induction lits as [|k lits IH]; intros open a n Tx G Sg H; cbn [shrink_along].
  { apply wp_ret. split; auto. split; auto. split; [apply skeeps_refl|]. split; [intros k []|]. split; auto. }
  assert (H' : forall k, In k lits -> k <> x -> ready_lit p s k /\ lev s k <= lvl /\ (lev s k = 0 \/ tpos s k < n)) by (intros; apply H; auto; now right).
  destruct (Nat.eqb_spec k x) as [->|N].
  { eapply wp_mono; [apply (IH open a n); auto|]. intros [[open'|] a'] (A & B & C & E); split; auto; split; auto; split; auto.
    destruct E as (E1 & E2 & E3). split; [intros k [<-|I] Nk; [congruence|auto]|]. split; auto.
    intros m I X. destruct (E3 m I X) as [|[Y1 Y2]]; auto. right. split; auto. now right. }
  destruct (H k (or_introl eq_refl) N) as (R1 & R2 & R3).
  apply wp_bind. eapply wp_mono; [apply shrink_literal_spec; auto|]. intros [r a1] Lp. pose proof Lp as (A & B & C & E).
  destruct r as [b|]; [|apply wp_ret; auto].
  eapply wp_mono; [apply (IH (if b then S open else open) a1 n); auto|]. intros [[open'|] a'] (A' & B' & C' & E'); split; auto; split; auto.
  2:{ split; auto. eapply skeeps_trans; eauto. }
  split; [eapply skeeps_trans; eauto|]. destruct E' as (E1 & E2 & E3).
  assert (Ok : sh_ok a1 k).
  { destruct b; [|apply E]. destruct E as (_ & _ & E). right. right. rewrite E. apply upd_same. }
  split; [intros k' [<-|I] Nk; auto; eapply sh_ok_keeps; eauto|].
  assert (Nw : forall m, In m (trail s) -> shrinkable a1 (idx m) = true -> shrinkable a (idx m) = true \/ m = neg k).
  { intros m I X. destruct b; [|left; destruct E as [_ E]; now rewrite <- E]. destruct E as (E4 & E5 & E6). rewrite E6 in X. unfold upd in X.
    destruct (Nat.eqb_spec (idx m) (idx k)) as [Y|]; auto. right. apply (trail_idx s); auto; [|now rewrite idx_neg].
    destruct R1 as [_ [Z|Z]]; [lia|apply Z]. }
  split.
  - destruct R3 as [Z|Tk].
    + assert (b = false) by (destruct b; auto; destruct E as (E4 & _); lia). subst b.
      assert (shr a1 n = shr a n) by (unfold shr; destruct E as [_ E]; now rewrite E). lia.
    + pose proof (shr_lit k a _ a1 n Lp R1 Tk). destruct b; lia.
  - intros m I X. destruct (E3 m I X) as [Y|[Y1 Y2]]; [|right; split; auto; now right].
    destruct (Nw m I Y) as [|Em]; auto. right. subst m. rewrite neg_neg. split; auto. now left.
Qed.

Definition sh_implied (a : analysis) (m : lit) : Prop := reas s m <> RDecision /\ forall k, In k (others s m) -> sh_ok a k.
Definition sh_above (a : analysis) (n : nat) : Prop := forall m, In m (trail s) -> shrinkable a (idx m) = true -> n <= tpos s m -> sh_implied a m.

Lemma shrink_loop_spec : forall n a, n <= length (trail s) -> mgood p s D a -> sgood lvl a -> sh_above a n -> 0 < shr a n ->
  wp (shrink_loop o s lvl (rev (firstn n (trail s))) (shr a n) a) (fun '(r, a') => mgood p s D a' /\ sgood lvl a' /\ skeeps a a' /\
    match r with
    | Some u => In u (trail s) /\ shrinkable a' (idx u) = true /\ (forall m, In m (trail s) -> shrinkable a' (idx m) = true -> m = u \/ sh_implied a' m)
    | None => True
    end).
Proof.
  induction n as [|n IH]; intros a Ln G Sg Ab Ps.
  { unfold shr in Ps. cbn in Ps. lia. }
  destruct (nth_error (trail s) n) as [x|] eqn:En; [|apply nth_error_None in En; lia].
  rewrite (rev_firstn_S _ _ _ En). cbn [shrink_loop].
  assert (Ix : In x (trail s)) by (eapply nth_error_In; eauto).
  assert (Tx : tpos s x = n) by (apply (ti_pos _ V); auto).
  pose proof (shr_S a n x En) as Os.
  assert (Eqx : forall m, In m (trail s) -> tpos s m = n -> m = x).
  { intros m I E. pose proof (trail_nth _ _ V I) as X. rewrite E in X. congruence. }
  destruct (shrinkable a (idx x)) eqn:Sx; cbn [negb].
  2:{ cbn [b2n] in Os. rewrite Nat.add_0_r in Os. rewrite Os in *. apply IH; auto; [lia|].
      intros m I X H. apply Ab; auto. destruct (Nat.eq_dec (tpos s m) n) as [E|]; [|lia]. rewrite (Eqx m I E) in X. congruence. }
  cbn [b2n] in Os. destruct (Nat.eqb_spec (shr a (S n)) 1) as [E1|N1].
  { apply wp_ret. split; auto. split; auto. split; [apply skeeps_refl|]. splits; auto.
    intros m I X. destruct (Nat.eq_dec (tpos s m) n) as [E|Ne]; [left; auto|]. right. apply Ab; auto.
    destruct (Nat.lt_ge_cases (tpos s m) n) as [Lt|]; [|lia]. pose proof (shr_pos a n m I X Lt). lia. }
  destruct Sg as [Sg1 Sg2]. destruct (Sg2 x Ix Sx) as [Kx Lx].
  assert (Rx : reas s x <> RDecision).
  { intros E. assert (H : 0 < shr a n) by lia. unfold shr in H. destruct (filter _ _) as [|m ms] eqn:Em; [cbn in H; lia|].
    assert (Im : In m (m :: ms)) by now left. rewrite <- Em in Im. apply filter_In in Im as [Im Hm]. apply in_firstn_trail in Im as [Im Tm]; auto.
    destruct (Sg2 m Im Hm) as [_ Lm]. pose proof (known_first orig p s Co x m Kx E Im ltac:(congruence)). lia. }
  assert (Oth : forall k, In k (others s x) -> ready_lit p s k /\ lev s k <= lvl /\ (lev s k = 0 \/ tpos s k < n) /\ k <> x).
  { intros k I. destruct (ready_other orig p s Co x k Kx I) as [A B]. destruct (known_other orig p s Co x k Kx I) as (A' & B' & _).
    splits; auto; [lia|now rewrite Tx in B|]. intros ->. pose proof (ti_true _ V x Ix). congruence. }
  assert (Along : wp (shrink_along_reason o s lvl x a) (fun '(r, a') => mgood p s D a' /\ sgood lvl a' /\ skeeps a a' /\
    match r with
    | Some k => (forall k, In k (others s x) -> sh_ok a' k) /\ shr a' (S n) = shr a (S n) + k /\
        forall m, In m (trail s) -> shrinkable a' (idx m) = true -> shrinkable a (idx m) = true \/ In (neg m) (others s x)
    | None => True
    end)).
  { unfold shrink_along_reason. pose proof (known_reason orig p s Co x Kx) as Rn. unfold reason_ok in Rn.
    destruct (reas s x) as [| |other|r] eqn:Er; [congruence|contradiction| |].
    - assert (Io : In other (others s x)) by (unfold others; rewrite Er; now left).
      destruct (Oth other Io) as (O1 & O2 & O3 & O4). assert (Lo : lev s other = lvl) by (rewrite <- Lx; apply Rn).
      apply wp_bind. eapply wp_mono; [apply shrink_literal_spec; auto; split; auto|]. intros [r a1] Lp. pose proof Lp as (A & B & C & E). apply wp_ret.
      split; auto. split; auto. split; auto. assert (Eo : forall k, In k (others s x) <-> k = other) by (intros k; unfold others; rewrite Er; cbn; intuition congruence).
      destruct r as [[]|]; [| |lia].
      + splits.
        * intros k Ik. apply Eo in Ik. subst k. destruct E as (_ & _ & E). right. right. rewrite E. apply upd_same.
        * destruct O3 as [O3|O3]; [lia|]. now rewrite (shr_lit other a _ a1 (S n) Lp O1 ltac:(lia)).
        * intros m I X. destruct E as (E4 & E5 & E6). rewrite E6 in X. unfold upd in X.
          destruct (Nat.eqb_spec (idx m) (idx other)) as [Y|]; auto. right. apply Eo.
          assert (m = neg other); [|subst m; apply neg_neg]. apply (trail_idx s); auto; [|now rewrite idx_neg].
          destruct O1 as [_ [Z|Z]]; [lia|apply Z].
      + destruct E as [E4 E5]. splits.
        * intros k Ik. apply Eo in Ik. now subst k.
        * unfold shr. rewrite E5. lia.
        * intros m I X. rewrite E5 in X. auto.
    - destruct (1 <? o_shrink o); [|apply wp_ret; split; auto; split; [split; auto|split; auto; apply skeeps_refl]].
      destruct Rn as (cl & Ar & _). rewrite Ar.
      assert (Eo : forall k, In k (others s x) <-> In k (c_lits cl) /\ k <> x).
      { intros k. unfold others. rewrite Er, Ar, filter_In, negb_true_iff, Nat.eqb_neq. tauto. }
      eapply wp_mono; [apply (shrink_along_spec x (c_lits cl) 0 a (S n)); auto; [lia|split; auto|]|].
      + intros k I N. assert (Ik : In k (others s x)) by now apply Eo. destruct (Oth k Ik) as (O1 & O2 & O3 & O4). splits; auto. destruct O3; auto.
      + intros [[k|] a'] (A & B & C & E); split; auto; split; auto; split; auto. destruct E as (E1 & E2 & E3). splits.
        * intros k' Ik. apply Eo in Ik as [I1 I2]. auto.
        * lia.
        * intros m I X. destruct (E3 m I X) as [|[Y1 Y2]]; auto. right. apply Eo. auto. }
  apply wp_bind. eapply wp_mono; [exact Along|]. intros [[k|] a1] (A & B & C & E); [|apply wp_ret; auto].
  destruct E as (E1 & E2 & E3). replace (0 <? shr a (S n) + k) with true by (symmetry; apply Nat.ltb_lt; lia). cbn [oassert obind].
  assert (Sx1 : shrinkable a1 (idx x) = true) by now apply (sk_sh _ _ C).
  pose proof (shr_S a1 n x En) as Os1. rewrite Sx1 in Os1. cbn [b2n] in Os1.
  replace (pred (shr a (S n) + k)) with (shr a1 n) by lia.
  eapply wp_mono; [apply IH; auto; [lia| |lia]|].
  - intros m I X H. destruct (Nat.eq_dec (tpos s m) n) as [Em|Nm].
    + rewrite (Eqx m I Em). split; auto.
    + destruct (E3 m I X) as [Y|Y].
      * destruct (Ab m I Y ltac:(lia)) as [Z1 Z2]. split; auto. intros k' Ik. eapply sh_ok_keeps; eauto.
      * exfalso. destruct (Oth _ Y) as (_ & _ & [Z|Z] & _); rewrite ?lev_neg, ?tpos_neg in Z; [|lia].
        destruct B as [_ B]. destruct (B m I X) as [_ B']. lia.
  - intros [r a'] (X1 & X2 & X3 & X4). split; auto. split; auto. split; auto. eapply skeeps_trans; eauto.
Qed.
End Shrink.

Section Blocks.
Variables (orig : list (list lit)) (p : nat) (s : solver).
Hypothesis Co : core orig p s.
Let V := co_v _ _ _ Co.
Let F := co_f _ _ _ Co.

(** The marks that are not part of [mgood]. *)
Record frame_ok (a a' : analysis) : Prop := {
  fo_am : amarks a -> amarks a'; fo_cl : an_clause a' = an_clause a; fo_lv : an_levels a' = an_levels a;
  fo_rm : forall i, removable a i = true -> removable a' i = true }.
Lemma frame_ok_refl : forall a, frame_ok a a. Proof. constructor; auto. Qed.
Lemma frame_ok_trans : forall a b c, frame_ok a b -> frame_ok b c -> frame_ok a c.
Proof. intros a b c [] []. constructor; try congruence; auto. Qed.
Lemma skeeps_frame : forall a b, skeeps a b -> frame_ok a b.
Proof. intros a b [A1 A2 A3 A4 A5 A6]. constructor; auto. unfold amarks. rewrite A1, A2. auto. Qed.
Lemma keeps_frame : forall a b, keeps a b -> frame_ok a b.
Proof. intros a b K. apply skeeps_frame, keeps_skeeps, K. Qed.

Lemma unshrunken_sgood : forall lvl a, unshrunken a -> sgood p s lvl a.
Proof. intros lvl a [H1 H2]. split; [intros i; rewrite H1, H2; split; [discriminate|intros []]|intros m _ X; rewrite H1 in X; discriminate]. Qed.
Lemma unshrunken_reset : forall a, smarks a -> unshrunken (reset_shrinkable a).
Proof. intros a S. split; auto. intros i. cbn. now apply clear_bits_all. Qed.

Lemma push_block_spec : forall D o lvl n block a, 0 < lvl -> mgood p s D a -> sgood p s lvl a -> NoDup block ->
  (forall l, In l block -> ready_lit p s l /\ lev s l = lvl /\ tpos s l < n /\ shrinkable a (idx l) = false) ->
  wp (push_block o s lvl block a) (fun a' => mgood p s D a' /\ sgood p s lvl a' /\ skeeps a a' /\
    shr s a' n = shr s a n + length block /\
    (forall m, In m (trail s) -> shrinkable a' (idx m) = true <-> shrinkable a (idx m) = true \/ In (neg m) block)).
Proof.
  intros D o lvl n. induction block as [|l block IH]; intros a L0 G Sg Nd H; cbn [push_block].
  { apply wp_ret. split; auto. split; auto. split; [apply skeeps_refl|]. split; [cbn; lia|]. intros m I. cbn. tauto. }
  destruct (H l (or_introl eq_refl)) as (R & E & Tl & Sl). inversion Nd as [|? ? Nd1 Nd2]; subst.
  assert (Es : shrink_literal o s (lev s l) l a = Ret (Some true, push_shrinkable (idx l) a)).
  { unfold shrink_literal. destruct (Nat.eqb_spec (lev s l) 0); [lia|]. rewrite Sl, Nat.ltb_irrefl. reflexivity. }
  pose proof (shrink_literal_spec orig p s Co D o (lev s l) L0 l a G Sg R (le_n _)) as Lp. rewrite Es in Lp |- *. cbn [wp obind] in Lp |- *.
  set (a1 := push_shrinkable (idx l) a) in *.
  pose proof (shr_lit orig p s Co D (lev s l) L0 l a _ a1 n Lp R Tl) as Sh. destruct Lp as (A & B & C & _ & _ & X).
  assert (Kl : In (neg l) (trail s)) by (destruct R as [_ [Z|Z]]; [lia|apply Z]).
  eapply wp_mono; [apply IH; auto|].
  - intros k Ik. destruct (H k (or_intror Ik)) as (R' & E' & T' & S'). splits; auto. rewrite X. unfold upd.
    destruct (Nat.eqb_spec (idx k) (idx l)) as [Y|]; auto. exfalso. assert (k = l); [|subst k; contradiction].
    rewrite <- (neg_neg k), <- (neg_neg l). f_equal. apply (trail_idx s); auto; [|now rewrite !idx_neg].
    destruct R' as [_ [Z|Z]]; [lia|apply Z].
  - intros a' (A' & B' & C' & S' & M'). split; auto. split; auto. split; [eapply skeeps_trans; eauto|]. split; [rewrite S', Sh; cbn [length]; lia|].
    intros m I. rewrite M' by auto. rewrite X. unfold upd. cbn [In]. destruct (Nat.eqb_spec (idx m) (idx l)) as [Y|Y].
    + assert (m = neg l) by (apply (trail_idx s); auto; now rewrite idx_neg). subst m. rewrite neg_neg. intuition auto.
    + split; [tauto|]. intros [|[Z|]]; auto. exfalso. apply Y. subst l. now rewrite idx_neg.
Qed.

Lemma marks_fold : forall l a, rmarks a -> let a' := fold_left (fun a i => if removable a i then a else push_removable i a) l a in
  rmarks a' /\ (forall i, removable a' i = true <-> removable a i = true \/ In i l) /\ analyzed a' = analyzed a /\ astack a' = astack a /\
  poisoned a' = poisoned a /\ pstack a' = pstack a /\ shrinkable a' = shrinkable a /\ sstack a' = sstack a /\
  an_clause a' = an_clause a /\ an_levels a' = an_levels a.
Proof.
  induction l as [|j l IH]; intros a R; cbn [fold_left]; cbv zeta.
  { split; [exact R|]. split; [intros i; cbn [In]; tauto|]. splits; reflexivity. }
  assert (R' : rmarks (if removable a j then a else push_removable j a)).
  { destruct (removable a j); auto. intros i. cbn. unfold upd. destruct (Nat.eqb_spec i j) as [->|]; [now left|]. intros X. right. now apply R. }
  destruct (IH _ R') as (A & B & C). split; auto. split.
  - intros i. rewrite B. cbn [In]. destruct (removable a j) eqn:E.
    + split; [tauto|]. intros [|[->|]]; auto.
    + cbn. unfold upd. destruct (Nat.eqb_spec i j) as [->|N]; [tauto|]. split; [tauto|]. intros [|[X|]]; auto; congruence.
  - destruct (removable a j); exact C.
Qed.

Lemma max_trail_spec : forall block m, let r := fold_left (fun m l => Nat.max m (tpos s l)) block m in
  m <= r /\ (forall l, In l block -> tpos s l <= r) /\ (r = m \/ exists l, In l block /\ r = tpos s l).
Proof.
  induction block as [|l block IH]; intros m; cbn [fold_left]; cbv zeta.
  { splits; auto. intros l []. }
  destruct (IH (Nat.max m (tpos s l))) as (A & B & C). splits; [lia| |].
  - intros k [<-|I]; [lia|auto].
  - destruct C as [C|(k & I & C)]; [|right; exists k; split; auto; now right].
    rewrite C. destruct (Nat.max_spec m (tpos s l)) as [[_ X]|[_ X]]; rewrite X; auto. right. exists l. split; [now left|auto].
Qed.

Lemma shrink_block_spec : forall D o block lvl a, 0 < lvl -> mgood p s D a -> unshrunken a -> NoDup block -> 2 <= length block ->
  (forall l, In l block -> ready_lit p s l /\ lev s l = lvl) ->
  wp (shrink_block o s block lvl (max_trail s block) a) (fun '(r, a') => unshrunken a' /\ frame_ok a a' /\
    match r with
    | None => mgood p s D a'
    | Some b => exists u, b = [neg u] /\ ready_lit p s (neg u) /\ lev s u = lvl /\ removable a' (idx u) = true /\
        mgood p s (fun m => (D m /\ ~ In (neg m) block) \/ m = u) a'
    end).
Proof.
  intros D o block lvl a L0 G Us Nd Len H. unfold shrink_block, max_trail.
  destruct (max_trail_spec block 0) as (_ & Mx & Mt). set (mt := fold_left _ block 0) in *. clearbody mt.
  assert (It : forall l, In l block -> In (neg l) (trail s)).
  { intros l I. destruct (H l I) as [[_ [Z|Z]] E]; [lia|apply Z]. }
  assert (Lt : S mt <= length (trail s)).
  { destruct block as [|b0 block']; [cbn in Len; lia|]. destruct Mt as [->|(l & I & ->)].
    - pose proof (tpos_lt _ _ V (It b0 (or_introl eq_refl))). lia.
    - pose proof (tpos_lt _ _ V (It l I)). rewrite tpos_neg in H0. lia. }
  assert (Us' := Us). destruct Us as [Us1 Us2].
  apply wp_bind. eapply wp_mono; [apply (push_block_spec D o lvl (S mt)); auto; [now apply unshrunken_sgood|]|].
  { intros l I. destruct (H l I). splits; auto. specialize (Mx l I). lia. }
  intros a1 (A1 & B1 & C1 & S1 & M1).
  assert (Z : shr s a (S mt) = 0).
  { unfold shr. rewrite filter_none; auto. }
  rewrite Z in S1. cbn [Nat.add] in S1. rewrite <- S1.
  apply wp_bind. eapply wp_mono; [apply (shrink_loop_spec orig p s Co D o lvl L0 (S mt) a1); auto; [|lia]|].
  { intros m I X Tm. exfalso. apply M1 in X as [X|X]; auto; [rewrite Us1 in X; discriminate|]. specialize (Mx _ X). rewrite tpos_neg in Mx. lia. }
  intros [r a2] (A2 & B2 & C2 & E2). assert (Sm : smarks a2) by (intros i; apply B2).
  assert (F2 : frame_ok a a2) by (apply skeeps_frame; eapply skeeps_trans; eauto).
  destruct r as [u|]; apply wp_ret.
  2:{ split; [now apply unshrunken_reset|]. split; [|exact A2]. eapply frame_ok_trans; [exact F2|]. constructor; auto. }
  destruct E2 as (Iu & Su & Im).
  set (a3 := if analyzed a2 (idx u) then a2 else push_analyzed (idx u) a2).
  assert (F3 : frame_ok a2 a3).
  { unfold a3. destruct (analyzed a2 (idx u)); [apply frame_ok_refl|]. constructor; auto. intros Am. now apply amarks_push. }
  assert (E3 : removable a3 = removable a2 /\ rstack a3 = rstack a2 /\ poisoned a3 = poisoned a2 /\ pstack a3 = pstack a2 /\ shrinkable a3 = shrinkable a2 /\ sstack a3 = sstack a2)
    by (unfold a3; destruct (analyzed a2 (idx u)); splits; reflexivity).
  clearbody a3. destruct E3 as (E31 & E32 & E33 & E34 & E35 & E36).
  unfold mark_shrinkable_as_removable.
  assert (R3 : rmarks (reset_shrinkable a3)) by (intros i X; cbn in X |- *; rewrite E31 in X; rewrite E32; now apply A2).
  destruct (marks_fold (sstack a3) (reset_shrinkable a3) R3) as (X1 & X2 & X3 & X4 & X5 & X6 & X7 & X8 & X9 & X10).
  set (a4 := fold_left _ (sstack a3) (reset_shrinkable a3)) in *. clearbody a4. cbn in X2, X3, X4, X5, X6, X7, X8, X9, X10.
  assert (R4 : forall i, removable a4 i = true <-> removable a2 i = true \/ shrinkable a2 i = true).
  { intros i. rewrite X2. cbn. rewrite E31, E36. destruct B2 as [B2 _]. now rewrite B2. }
  assert (U4 : unshrunken a4).
  { split; [|now rewrite X8]. intros i. rewrite X7. rewrite E35, E36. apply clear_bits_all. apply Sm. }
  split; auto. split.
  { eapply frame_ok_trans; [exact F2|]. eapply frame_ok_trans; [exact F3|]. constructor.
    - intros Am i. rewrite X3, X4. apply Am.
    - now rewrite X9.
    - now rewrite X10.
    - intros i X. apply R4. rewrite E31 in X. auto. }
  destruct (proj2 B2 u Iu Su) as [Ku Lu].
  assert (Sk : forall k, sh_ok s a2 k -> res_ok s a4 k).
  { intros k [Y|Y]; [now left|right]. now apply R4. }
  exists u. splits; auto.
  - split; [apply (true_false s u V), (ti_true _ V u Iu)|right; rewrite neg_neg; auto].
  - apply R4. auto.
  - split; [exact X1|]. split; [intros i Y; rewrite X5 in Y; rewrite X6; rewrite E33 in Y; rewrite E34; apply A2; auto|].
    intros m I Y. apply R4 in Y. destruct (shrinkable a2 (idx m)) eqn:Sh.
    + destruct (proj2 B2 m I Sh) as [Km Lm]. split; auto. destruct (Im m I Sh) as [->|[Q1 Q2]]; [left; now right|].
      right. split; auto.
    + destruct Y as [Y|Y]; [|discriminate]. destruct A2 as (_ & _ & A2). destruct (A2 m I Y) as [Km [Dm|[Q1 Q2]]]; split; auto.
      * left. left. split; auto. intros Ib. assert (shrinkable a1 (idx m) = true) by (apply M1; auto).
        apply (sk_sh _ _ C2) in H0. congruence.
      * right. split; auto. intros k Ik. destruct (Q2 k Ik) as [W|W]; [now left|right; apply R4; auto].
Qed.

Lemma next_block_spec : forall lvl rl blk b rest, next_block s rl lvl blk = (b, rest) ->
  exists pre, rl = pre ++ rest /\ b = rev pre ++ blk /\ (forall x, In x pre -> lev s x <= lvl) /\ (forall y ys, rest = y :: ys -> lvl < lev s y).
Proof.
  intros lvl. induction rl as [|l rl IH]; intros blk b rest E; cbn [next_block] in E.
  { inversion E; subst. exists []. splits; auto; [intros x []|discriminate]. }
  destruct (lvl <? lev s l) eqn:Lt.
  - inversion E; subst. exists []. splits; auto; [intros x []|]. intros y ys X. inversion X; subst. now apply Nat.ltb_lt.
  - apply IH in E as (pre & -> & -> & P1 & P2). exists (l :: pre). splits; auto.
    + cbn [rev]. now rewrite <- app_assoc.
    + apply Nat.ltb_ge in Lt. intros x [<-|I]; auto.
Qed.

Lemma split_last : forall (pre rest P : list lit) nu, pre ++ [nu] = P ++ rest -> ~ In nu P -> exists pre2, rest = pre2 ++ [nu] /\ pre = P ++ pre2.
Proof.
  intros pre rest P nu. revert pre. induction P as [|x P IH]; intros pre E N; [exists pre; auto|].
  destruct pre as [|y pre]; cbn in E.
  - inversion E; subst. exfalso. apply N. now left.
  - inversion E; subst. destruct (IH pre H1) as (pre2 & -> & ->); [intros I; apply N; now right|]. exists pre2. auto.
Qed.
Lemma sorted_app : forall (R : lit -> lit -> Prop) a b, StronglySorted R (a ++ b) -> StronglySorted R b /\ forall x y, In x a -> In y b -> R x y.
Proof.
  induction a as [|x a IH]; intros b H; [split; auto; intros x y []|]. cbn in H. inversion H as [|? ? H1 H2]; subst. destruct (IH b H1) as [A B].
  split; auto. intros u v [<-|Iu] Iv; auto. rewrite Forall_forall in H2. apply H2, in_app_iff. auto.
Qed.

Lemma nodup_app_iff : forall (a b : list lit), NoDup (a ++ b) <-> NoDup a /\ NoDup b /\ forall x, In x a -> ~ In x b.
Proof.
  induction a as [|x a IH]; intros b; cbn [app].
  - split; [intros H; split; [constructor|split; [exact H|intros x []]]|tauto].
  - rewrite !NoDup_cons_iff, IH, in_app_iff. split.
    + intros (A & B & C & D). splits; auto. intros y [<-|I]; auto.
    + intros ((A & B) & C & D). splits; auto.
      * intros [I|I]; auto. apply (D x); auto. now left.
      * intros y I. apply D. now right.
Qed.

Definition lower (k : lit) : Prop := ready_lit p s k /\ 0 < lev s k < level s.

Lemma shrink_blocks_spec : forall o nu, lev s nu = level s -> forall fuel pre done a, length (pre ++ [nu]) <= fuel ->
  StronglySorted (fun x y => lev s x <= lev s y) pre -> (forall k, In k pre \/ In k done -> lower k) -> NoDup pre -> NoDup done ->
  (forall d x, In d done -> In x pre -> lev s d < lev s x) ->
  mgood p s (fun m => In (neg m) (pre ++ nu :: done)) a -> unshrunken a ->
  wp (shrink_blocks fuel o s (pre ++ [nu]) done a) (fun '(L, a') => exists K, L = nu :: K /\ NoDup K /\ (forall k, In k K -> lower k) /\
    mgood p s (fun m => In (neg m) L) a' /\ unshrunken a' /\ frame_ok a a').
Proof.
  intros o nu Ln. induction fuel as [|fuel IH]; intros pre done a Len So Lo N1 N2 Lt G Us; [rewrite app_length in Len; cbn in Len; lia|].
  destruct pre as [|x pre].
  { cbn [app shrink_blocks next_block]. rewrite Nat.ltb_irrefl. cbn [length Nat.ltb Nat.leb app].
    replace (shrink_blocks fuel o s [] (nu :: done) a) with (Ret (nu :: done, a)) by (destruct fuel; reflexivity).
    apply wp_ret. exists done. splits; auto. apply frame_ok_refl. }
  assert (Lx : lower x) by (apply Lo; left; now left).
  cbn [app shrink_blocks]. change (x :: pre ++ [nu]) with ((x :: pre) ++ [nu]).
  destruct (next_block s ((x :: pre) ++ [nu]) (lev s x) []) as [block rest] eqn:Nb.
  apply next_block_spec in Nb as (P & E & -> & P1 & P2). rewrite app_nil_r.
  assert (Nn : ~ In nu P) by (intros I; specialize (P1 _ I); destruct Lx as [_ Lx]; lia).
  destruct (split_last _ _ _ _ E Nn) as (pre2 & -> & Ep).
  assert (Pne : exists P', P = x :: P').
  { destruct P as [|y P']; [|inversion Ep; eauto]. exfalso. destruct pre2 as [|z pre2]; [discriminate|]. inversion Ep; subst z.
    specialize (P2 x (pre2 ++ [nu]) eq_refl). lia. }
  rewrite Ep in *. clear E.
  assert (Lb : forall k, In k P -> lower k /\ lev s k = lev s x).
  { intros k I. split; [apply Lo; left; apply in_app_iff; auto|]. specialize (P1 k I).
    destruct Pne as (P' & ->). destruct I as [<-|I]; auto. cbn in So. inversion So as [|? ? S1 S2]; subst. rewrite Forall_forall in S2.
    specialize (S2 k ltac:(apply in_app_iff; auto)). lia. }
  destruct (sorted_app _ P pre2 So) as [So2 _].
  assert (L2 : forall k, In k pre2 -> lev s x < lev s k).
  { intros k I. destruct pre2 as [|z pre2]; [destruct I|]. specialize (P2 z (pre2 ++ [nu]) eq_refl). destruct I as [<-|I]; auto.
    inversion So2 as [|? ? S1 S2]; subst. rewrite Forall_forall in S2. specialize (S2 k I). lia. }
  assert (Len2 : length (pre2 ++ [nu]) <= fuel).
  { destruct Pne as (P' & ->). rewrite !app_length in Len. cbn in Len. rewrite app_length. cbn. lia. }
  assert (NP : NoDup P) by (now apply nodup_app_iff in N1 as (? & ? & ?)).
  assert (NQ : NoDup pre2) by (now apply nodup_app_iff in N1 as (? & ? & ?)).
  assert (Go : forall B a1, NoDup B -> (forall k, In k B -> lower k /\ lev s k = lev s x) -> mgood p s (fun m => In (neg m) (pre2 ++ nu :: B ++ done)) a1 ->
    unshrunken a1 -> frame_ok a a1 -> wp (shrink_blocks fuel o s (pre2 ++ [nu]) (B ++ done) a1) (fun '(L, a') => exists K, L = nu :: K /\ NoDup K /\ (forall k, In k K -> lower k) /\
    mgood p s (fun m => In (neg m) L) a' /\ unshrunken a' /\ frame_ok a a')).
  { intros B a1 NB HB G1 U1 F1. eapply wp_mono; [apply (IH pre2 (B ++ done) a1); auto|].
    - intros k [I|I]; [apply Lo; left; apply in_app_iff; auto|]. apply in_app_iff in I as [I|I]; [now apply HB|apply Lo; auto].
    - apply nodup_app_iff. splits; auto. intros k Ib Id. destruct (HB k Ib) as [_ X]. specialize (Lt k x Id).
      destruct Pne as (P' & ->). specialize (Lt (or_introl eq_refl)). lia.
    - intros d y Id Iy. apply in_app_iff in Id as [Id|Id]; [destruct (HB d Id) as [_ X]; specialize (L2 y Iy); lia|].
      apply Lt; auto. apply in_app_iff. auto.
    - intros [L a'] (K & X1 & X2 & X3 & X4 & X5 & X6). exists K. splits; auto. eapply frame_ok_trans; eauto. }
  assert (NrP : NoDup (rev P)) by now apply NoDup_rev.
  assert (HrP : forall k, In k (rev P) -> lower k /\ lev s k = lev s x) by (intros k I; apply in_rev in I; auto).
  assert (Gw : forall a1 B, mgood p s (fun m => In (neg m) ((P ++ pre2) ++ nu :: done)) a1 ->
     (forall k, In k P -> In k B \/ implied s a1 (neg k)) -> mgood p s (fun m => In (neg m) (pre2 ++ nu :: B ++ done)) a1).
  { intros a1 B G1 H. eapply mgood_weaken; [exact G1|]. intros m _ _ I. rewrite !in_app_iff in *. cbn [In] in *. rewrite in_app_iff.
    destruct I as [[I|I]|I]; [|tauto|tauto]. destruct (H _ I) as [|X]; [tauto|]. rewrite neg_neg in X. auto. }
  destruct (length (rev P) <? 2) eqn:L1.
  { apply Go; auto; [|apply frame_ok_refl]. apply Gw; auto. intros k I. left. now apply -> in_rev. }
  apply Nat.ltb_ge in L1. apply wp_bind.
  assert (Hb : forall l, In l (rev P) -> ready_lit p s l /\ lev s l = lev s x) by (intros l I; destruct (HrP l I) as [[A B] C]; auto).
  assert (L0 : 0 < lev s x) by (destruct Lx; lia).
  eapply wp_mono; [exact (shrink_block_spec _ o (rev P) (lev s x) a L0 G Us NrP L1 Hb)|].
  intros [[b|] a1] (U1 & F1 & X).
  - destruct X as (u & -> & Ru & Lu & _ & Gu). apply (Go [neg u]); auto.
    + constructor; [intros []|constructor].
    + intros k [<-|[]]. split; [split; auto|]; rewrite lev_neg; auto. destruct Lx as [_ Lx]. lia.
    + eapply mgood_weaken; [exact Gu|]. intros m _ _ [[I N]| ->].
      * left. rewrite !in_app_iff in *. cbn [In app] in *. destruct I as [[I|I]|I]; auto; [|tauto]. exfalso. apply N. now apply -> in_rev.
      * left. rewrite in_app_iff. cbn. auto.
  - apply wp_bind. eapply wp_mono; [apply (minimize_list_spec orig p s Co _ o false (rev P) [] a1 X)|].
    { intros l I. destruct (HrP l I) as [[A B] _]. split; auto. lia. }
    intros [kept a2] (G2 & K2 & K & EK & SK & HK). rewrite app_nil_r in EK. subst kept. rewrite rev_involutive.
    apply Go; auto.
    + eapply subl_nodup; eauto.
    + intros k I. apply HrP. eapply subl_in; eauto.
    + apply Gw; auto. intros k I. apply HK. now apply -> in_rev.
    + destruct U1 as [U1 U2]. split; [intros i; rewrite (kp_sh _ _ K2); auto|rewrite (kp_ss _ _ K2); auto].
    + eapply frame_ok_trans; [exact F1|now apply keeps_frame].
Qed.
End Blocks.
