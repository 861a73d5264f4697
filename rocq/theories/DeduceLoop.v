(** Deducing the first UIP clause, or strengthening a reason. *)
From Coq Require Import ZArith List Bool Lia Arith Permutation.
From Coq Require Import ZifyBool ZifyNat.
From Verif Require Import Base Hoare SpecSat Lit Sem Solver Analyze Inv DbFacts AssignFacts AssignSpec BacktrackFacts PropFacts PropLoop CutFacts OneLit MarkFacts ClauseFacts DeduceFacts Otfs.
Import ListNotations.
Open Scope nat_scope.

Lemma analyze_literals_set_an : forall s x skip lits u a, analyze_literals (set_an x s) skip lits u a = analyze_literals s skip lits u a.
Proof.
  intros s x skip. induction lits as [|l rest IH]; intros u a; cbn [analyze_literals]; auto. rewrite !IH.
  destruct (l =? skip); auto. change (analyze_literal (set_an x s) l a) with (analyze_literal s l a).
  destruct (analyze_literal s l a) as [new a']. apply IH.
Qed.
Lemma analyze_literals_filter : forall s skip lits u a,
  analyze_literals s skip lits u a = analyze_literals s skip (filter (fun k => negb (k =? skip)) lits) u a.
Proof.
  intros s skip. induction lits as [|l rest IH]; intros u a; cbn [analyze_literals filter]; auto.
  destruct (Nat.eqb_spec l skip) as [E|N]; cbn [negb].
  - rewrite IH. reflexivity.
  - cbn [analyze_literals]. rewrite (proj2 (Nat.eqb_neq l skip) N). destruct (analyze_literal s l a) as [new a']. apply IH.
Qed.
Lemma filter_filter_and : forall (A : Type) (f g : A -> bool) l, filter f (filter g l) = filter (fun x => g x && f x) l.
Proof.
  intros A f g. induction l as [|x l IH]; cbn [filter]; auto. destruct (g x) eqn:E; cbn [filter andb]; rewrite IH; auto.
Qed.

Lemma filter_none : forall (A : Type) (f : A -> bool) l, (forall x, In x l -> f x = false) -> filter f l = [].
Proof. induction l as [|x l IH]; intros H; cbn; auto. rewrite H by now left. apply IH. intros y Y. apply H. now right. Qed.
Lemma filter_neq_length : forall (l : list lit) x, NoDup l -> In x l -> S (length (filter (fun k => negb (k =? x)) l)) = length l.
Proof.
  induction l as [|y l IH]; intros x N I; [destruct I|]. inversion N as [|? ? N1 N2]; subst. cbn [filter length]. destruct I as [->|I].
  - rewrite Nat.eqb_refl. cbn [negb]. rewrite filter_all; auto. intros k K. apply negb_true_iff, Nat.eqb_neq. intros ->. contradiction.
  - destruct (Nat.eqb_spec y x) as [->|]; [contradiction|]. cbn [negb length]. now rewrite IH.
Qed.

(** The literals of the clause deduced so far: lower levels, and the negated open literals. *)
Definition resolvent (s : solver) (a : analysis) (n : nat) : list lit :=
  an_clause a ++ map neg (filter (fun m => analyzed a (idx m) && (lev s m =? level s)) (firstn n (trail s))).
Lemma resolvent_length : forall s a n, length (resolvent s a n) = length (an_clause a) + opens s a n.
Proof. intros. unfold resolvent, opens. now rewrite app_length, map_length. Qed.

Section Loop.
Variables (orig : list (list lit)) (p : nat) (s : solver) (c : conflict) (lits : list lit).
Hypothesis Ap : aprec orig p s c.
Hypothesis Cf : cfl s c lits.
Let Co := ap_core _ _ _ _ Ap.
Let V := co_v _ _ _ Co.
Let F := co_f _ _ _ Co.

Definition covered (a : analysis) : Prop := forall l, In l lits -> lev s l = 0 \/ marked s a (neg l).
Definition resolved_above (a : analysis) (n : nat) : Prop := forall m, marked s a m -> lev s m = level s -> n <= tpos s m ->
  reas s m <> RDecision /\ forall k, In k (others s m) -> lev s k = 0 \/ marked s a (neg k).

Lemma resolvent_in : forall a n m, dgood p s a -> marked s a m -> lev s m < level s \/ tpos s m < n -> In (neg m) (resolvent s a n).
Proof.
  intros a n m G M H. unfold resolvent. apply in_app_iff. destruct G as (_ & _ & _ & _ & K & _ & Q).
  destruct (K m M) as (I & Lm & _). pose proof (ti_true _ V m I) as Tm.
  pose proof (true_level s m V F Tm) as Le. destruct (Nat.eq_dec (lev s m) (level s)) as [E|N].
  - right. apply in_map, filter_In. split; [apply in_firstn_trail; auto; split; auto; lia|]. destruct M as [_ M]. now rewrite M, E, Nat.eqb_refl.
  - left. apply Q. rewrite lev_neg, idx_neg. splits; try lia; [now apply true_false|apply M].
Qed.

Lemma closed_marked : forall a n C, dgood p s a -> resolved_above a n -> incl (resolvent s a n) C ->
  closed p s (marked s a) (fun l => exists m, In m C /\ l = neg m).
Proof.
  intros a n C G R I m M. split; [apply G, M|]. pose proof (resolvent_in a n m G M) as X.
  destruct (Nat.lt_ge_cases (tpos s m) n) as [H|H].
  - left. exists (neg m). rewrite neg_neg. split; auto.
  - pose proof G as (_ & _ & _ & _ & K & _). destruct (K m M) as (It & Lm & _).
    pose proof (true_level s m V F (ti_true _ V m It)) as Le.
    destruct (Nat.eq_dec (lev s m) (level s)) as [E|N].
    + right. apply R; auto.
    + left. exists (neg m). rewrite neg_neg. split; auto. apply I, X. lia.
Qed.

Record uipres (a : analysis) (uip : lit) : Prop := {
  ur_good : dgood p s a;
  ur_marked : marked s a uip;
  ur_lev : lev s uip = level s;
  ur_first : forall m, marked s a m -> lev s m = level s -> tpos s uip <= tpos s m;
  ur_above : resolved_above a (S (tpos s uip));
  ur_cover : covered a }.

Definition otfspost (s' : solver) (c' : conflict) : Prop :=
  steady s s' /\ level s' = level s /\ trail s' = trail s /\
  exists p', p' < p /\ aprec orig p' (set_an (reset_only_analyzed (reset_analysis_but_not_analyzed (an s'))) s') c'.

Lemma aprec_after : forall a x s' c' ls, dgood p s a -> tpos s x < p -> In x (trail s) ->
  core orig (tpos s x) s' -> pinv (T s (level s)) s' -> conflict_ok s' c' -> reshaped (set_an a s) s' -> an s' = a -> inconsistent s' = inconsistent s ->
  conflict_lits s' c' = Some ls -> (forall l, In l ls -> lev s l = 0 \/ tpos s l < tpos s x) -> otfspost s' c'.
Proof.
  intros a x s' c' ls G H Ix O1 O2 O3 O4 O5 O6 L1 L2.
  split; [split; [apply (rs_shape _ _ O4)|exact O6]|]. split; [apply (rs_level _ _ O4)|]. split; [apply (rs_trail _ _ O4)|].
  exists (tpos s x). split; auto.
  assert (Ea : an s' = a) by exact O5.
  constructor.
  - apply core_set_an. exact O1.
  - apply pinv_set_an. change (level (set_an (reset_only_analyzed (reset_analysis_but_not_analyzed (an s'))) s')) with (level s').
    rewrite (rs_level _ _ O4). change (T (set_an (reset_only_analyzed (reset_analysis_but_not_analyzed (an s'))) s')) with (T s').
    rewrite (rs_T _ _ O4). exact O2.
  - destruct c' as [u v|q]; exact O3.
  - intros ls' l El I Ll. replace (conflict_lits _ c') with (conflict_lits s' c') in El by (destruct c'; reflexivity).
    rewrite L1 in El. inversion El; subst ls'. change (lev s' l = level s') in Ll. change (tpos s' l < tpos s x).
    rewrite (rs_lev _ _ O4), (rs_level _ _ O4) in Ll. rewrite (rs_tpos _ _ O4). destruct (L2 l I) as [X|X]; auto.
    change (lev s l = level s) in Ll. change (lev s l = 0) in X. pose proof (ap_level _ _ _ _ Ap). lia.
  - destruct G as (G1 & G2 & G3 & G4 & _). apply clean_reset; rewrite ?Ea; auto. intros i X. destruct G2 as [G2 _]. congruence.
  - change (0 < level s'). rewrite (rs_level _ _ O4). apply (ap_level _ _ _ _ Ap).
  - change (tpos s x <= length (trail s')). rewrite (rs_trail _ _ O4). change (tpos s x <= length (trail s)).
    pose proof (tpos_lt _ _ V Ix). lia.
Qed.

Lemma deduce_loop_spec : forall o n a res, n <= length (trail s) -> dgood p s a -> 0 < opens s a n ->
  resolvent_size a = length (an_clause a) + opens s a n -> resolved_above a n -> covered a ->
  (res = 0 -> forall m, marked s a m -> In (neg m) lits /\ (lev s m = level s -> tpos s m < n)) ->
  wp (deduce_loop o c (count_above_root s lits) (rev (firstn n (trail s))) (opens s a n) res (set_an a s))
    (fun '(s', r) => match r with
       | inl uip => exists a', s' = set_an a' s /\ uipres a' uip
       | inr c' => otfspost s' c'
       end).
Proof.
  intros o. induction n as [|n IH]; intros a res Ln G Op Rs Ra Cv R0.
  { unfold opens in Op. cbn in Op. lia. }
  destruct (nth_error (trail s) n) as [x|] eqn:En; [|apply nth_error_None in En; lia].
  rewrite (rev_firstn_S _ _ _ En). cbn [deduce_loop].
  change (an (set_an a s)) with a. change (lev (set_an a s) x) with (lev s x). change (level (set_an a s)) with (level s).
  assert (Ix : In x (trail s)) by (eapply nth_error_In; eauto).
  assert (Tx : tpos s x = n) by (apply (ti_pos _ V); auto).
  pose proof (opens_S s a n x En) as Os.
  destruct (negb (analyzed a (idx x)) || negb (lev s x =? level s)) eqn:Sk.
  { rewrite <- negb_andb in Sk. apply negb_true_iff in Sk. rewrite Sk in Os. cbn [b2n] in Os. rewrite Nat.add_0_r in Os. rewrite Os in *.
    assert (Nn : forall m, marked s a m -> lev s m = level s -> tpos s m <> n).
    { intros m M Lm E. assert (m = x) by (pose proof (trail_nth _ _ V (proj1 M)) as X; rewrite E in X; congruence). subst m.
      destruct M as [_ M]. rewrite M, Lm, Nat.eqb_refl in Sk. discriminate. }
    apply IH; auto; try lia.
    - intros m M Lm H. apply Ra; auto. specialize (Nn m M Lm). lia.
    - intros Er m M. destruct (R0 Er m M) as [X Y]. split; auto. intros Lm. specialize (Y Lm). specialize (Nn m M Lm). lia. }
  apply orb_false_iff in Sk as [A1 A2]. apply negb_false_iff in A1, A2. apply Nat.eqb_eq in A2.
  rewrite A1, A2, Nat.eqb_refl in Os. cbn [andb b2n] in Os.
  assert (Mx : marked s a x) by (split; auto).
  destruct (Nat.eqb_spec (opens s a (S n)) 1) as [E1|N1].
  { cbn [wp]. exists a. split; auto. constructor; auto.
    - intros m M Lm. rewrite Tx. apply (opens_one s a n m x); auto.
    - rewrite Tx. exact Ra. }
  change (reas (set_an a s) x) with (reas s x). change (arena (set_an a s)) with (arena s).
  assert (Kx : known s p x) by (apply G; auto).
  assert (Rx : reas s x <> RDecision).
  { intros E. assert (0 < opens s a n) by lia. unfold opens in H.
    destruct (filter _ _) as [|m ms] eqn:Em; [cbn in H; lia|].
    assert (Im : In m (m :: ms)) by now left. rewrite <- Em in Im. apply filter_In in Im as [Im Hm]. apply in_firstn_trail in Im as [Im Tm]; auto.
    apply andb_true_iff in Hm as [_ Hm]. apply Nat.eqb_eq in Hm.
    pose proof (known_first orig p s Co x m Kx E Im ltac:(congruence)). lia. }
  (* the reason is analyzed *)
  set (a1 := set_antecedent_size 1 a).
  assert (Oth : forall k, In k (others s x) -> fine p s n k).
  { intros k I. destruct (known_other orig p s Co x k Kx I) as (A & B & D). split; auto. destruct D as [D|[D1 D2]]; auto. right. split; auto. rewrite <- Tx. auto. }
  assert (G1 : dgood p s a1) by exact G.
  pose proof (analyze_literals_spec orig p s Co x n (S n) (others s x) (opens s a (S n)) a1 ltac:(lia) G1 eq_refl Rs (fun k I _ => Oth k I)) as Sp.
  destruct (analyze_literals s x (others s x) (opens s a (S n)) a1) as [u2 a2] eqn:Ean.
  destruct Sp as (P1 & P2 & P3 & P4 & P5 & P6 & P7).
  assert (Ox : forall k, In k (others s x) -> k <> x).
  { intros k I ->. destruct (Oth x I) as [Q _]. pose proof (ti_true _ V x Ix). congruence. }
  assert (Ef : filter (fun k => negb (k =? x)) (others s x) = others s x).
  { apply filter_all. intros k I. now apply negb_true_iff, Nat.eqb_neq, Ox. }
  rewrite Ef in P5.
  assert (M2 : marked s a2 x) by (eapply marked_ext; eauto).
  assert (Mn : forall m, marked s a2 m -> lev s m = level s -> tpos s m = n -> m = x).
  { intros m M _ E. pose proof (trail_nth _ _ V (proj1 M)) as X. rewrite E in X. congruence. }
  pose proof (opens_S s a2 n x En) as Os2. rewrite (proj2 M2), A2, Nat.eqb_refl in Os2. cbn [andb b2n] in Os2.
  set (a3 := set_resolvent_size (pred (resolvent_size a2)) a2).
  assert (G3 : dgood p s a3) by exact P1.
  assert (O3 : opens s a3 n = pred u2) by (change (opens s a3 n) with (opens s a2 n); lia).
  assert (Rs3 : resolvent_size a3 = length (an_clause a3) + opens s a3 n).
  { rewrite O3. cbn. lia. }
  assert (Op3 : 0 < opens s a3 n).
  { destruct (known_level_other orig p s Co x Kx Rx) as (k & K1 & K2). 
    destruct (P6 k K1 (Ox k K1)) as [Z|Mk]; [pose proof (ap_level _ _ _ _ Ap); lia|].
    apply (opens_pos s a3 n (neg k)); auto; [rewrite lev_neg; congruence|rewrite tpos_neg].
    destruct (Oth k K1) as [_ [Z|[_ Z]]]; [pose proof (ap_level _ _ _ _ Ap); lia|apply Z; congruence]. }
  assert (Ra3 : resolved_above a3 n).
  { intros m M Lm H. destruct (Nat.eq_dec (tpos s m) n) as [E|N].
    - rewrite (Mn m M Lm E). split; auto. intros k I. apply (P6 k I (Ox k I)).
    - assert (Ma : marked s a m).
      { destruct (P7 m M) as [X|[X _]]; auto. exfalso. destruct (Oth _ X) as [_ [Z|[_ Z]]]; rewrite ?lev_neg, ?tpos_neg in Z;
          [pose proof (ap_level _ _ _ _ Ap); lia|specialize (Z Lm); lia]. }
      destruct (Ra m Ma Lm ltac:(lia)) as [X Y]. split; auto. intros k I. destruct (Y k I) as [Z|Z]; auto. right. eapply marked_ext; eauto. }
  assert (Cv3 : covered a3).
  { intros l I. destruct (Cv l I) as [Z|Z]; auto. right. eapply marked_ext; eauto. }
  assert (Next : wp (deduce_loop o c (count_above_root s lits) (rev (firstn n (trail s))) (pred u2) (S res) (set_an a3 s))
    (fun '(s', r) => match r with inl uip => exists a', s' = set_an a' s /\ uipres a' uip | inr c' => otfspost s' c' end)).
  { rewrite <- O3. apply IH; auto; [lia|discriminate]. }
  (* strengthening *)
  set (R := filter (fun k => negb (k =? x) && negb (lev s k =? 0)) (others s x)).
  assert (P5' : antecedent_size a3 = S (length R)).
  { change (antecedent_size a3) with (antecedent_size a2). rewrite P5. cbn. unfold count_above_root, R. rewrite <- filter_filter_and, Ef. reflexivity. }
  assert (Otfs : forall ref cl, reas s x = RClause ref -> arena s ref = Some cl -> resolvent_size a3 < antecedent_size a3 -> 2 < antecedent_size a3 ->
    wp (do (s1, c1) <- on_the_fly_strengthen ref x (set_an a3 s) ;
        do s2 <- (if (S res =? 1) && (resolvent_size a3 <? count_above_root s lits) then on_the_fly_subsume c1 c s1 else Ret s1) ;
        Ret (s2, inr c1))
    (fun '(s', r) => match r with inl uip => exists a', s' = set_an a' s /\ uipres a' uip | inr c' => otfspost s' c' end)).
  { intros ref cl Er Ar H1 H2.
    assert (Eo : others s x = filter (fun k => negb (k =? x)) (c_lits cl)) by (unfold others; now rewrite Er, Ar).
    assert (ER : R = filter (fun k => negb (k =? x) && negb (lev s k =? 0)) (c_lits cl)).
    { unfold R. rewrite Eo, filter_filter_and. apply filter_ext. intros k. destruct (k =? x); auto. }
    assert (Gc : c_garbage cl = false).
    { pose proof (known_reason orig p s Co x Kx) as Rn. unfold reason_ok in Rn. rewrite Er in Rn. destruct Rn as (e & E & Rn & _). congruence. }
    assert (NdR : NoDup R) by (rewrite ER; apply NoDup_filter; eapply (ci_nodup _ (co_c _ _ _ Co)); eauto).
    assert (InR : incl R (resolvent s a3 n)).
    { intros k I. unfold R in I. apply filter_In in I as [I H]. apply andb_true_iff in H as [H3 H4]. apply negb_true_iff, Nat.eqb_neq in H4.
      destruct (P6 k I (Ox k I)) as [Z|Mk]; [contradiction|]. rewrite <- (neg_neg k). apply (resolvent_in a3 n); auto.
      rewrite lev_neg, tpos_neg. destruct (Oth k I) as [Q [Z|[Z1 Z2]]]; [contradiction|].
      destruct (Nat.eq_dec (lev s k) (level s)); [right; auto|left]. pose proof (false_level s k V F Q). lia. }
    assert (Rin : incl (resolvent s a3 n) R).
    { apply NoDup_length_incl; auto. rewrite resolvent_length. lia. }
    assert (RupR : rup neg (db s) R).
    { apply (rup_cut orig p s c lits (marked s a3)); auto. now apply (closed_marked a3 n). }
    assert (Oq : oprec orig p (set_an a3 s) x ref cl).
    { constructor; auto.
      - now apply core_set_an.
      - apply pinv_set_an. apply (ap_pinv _ _ _ _ Ap).
      - apply (ap_level _ _ _ _ Ap).
      - change (tpos s x < p). destruct Kx as (_ & _ & [K|K]); auto. lia.
      - change (rup neg (db s) (filter (fun k => negb (k =? x) && negb (lev s k =? 0)) (c_lits cl))). now rewrite <- ER. }
    assert (Px : tpos s x < p) by (destruct Kx as (_ & _ & [K|K]); auto; lia).
    assert (Post : exists s1 c1, on_the_fly_strengthen ref x (set_an a3 s) = Ret (s1, c1) /\ opost orig (set_an a3 s) x ref cl s1 c1).
    { unfold on_the_fly_strengthen. change (an (set_an a3 s)) with a3. destruct (Nat.eqb_spec (antecedent_size a3) 3) as [E3|N3].
      - destruct (binary_strengthen_spec orig p _ x ref cl Oq) as (s1 & c1 & X & Y & _).
        { change (length (filter (fun k => negb (k =? x) && negb (lev s k =? 0)) (c_lits cl)) = 2). rewrite <- ER. lia. }
        exists s1, c1. auto.
      - destruct (large_strengthen_spec orig p _ x ref cl Oq) as (s1 & X & Y & _).
        { change (3 <= length (filter (fun k => negb (k =? x) && negb (lev s k =? 0)) (c_lits cl))). rewrite <- ER. lia. }
        exists s1, (CLarge ref). rewrite X. auto. }
    destruct Post as (s1 & c1 & E1 & Po). rewrite E1. cbn [obind].
    pose proof Po as [O1 O2 O3' O4 O5 O6 O7 O8 (ls & L1 & L2 & L3) O10].
    destruct ((S res =? 1) && (resolvent_size a3 <? count_above_root s lits)) eqn:Es.
    2:{ cbn [obind wp]. apply (aprec_after a3 x s1 c1 ls); auto. intros l I. apply (L2 l I). }
    apply andb_true_iff in Es as [E2 E3]. apply Nat.eqb_eq in E2. apply Nat.ltb_lt in E3. assert (res = 0) by lia. subst res.
    set (N := filter (fun l => negb (lev s l =? 0)) lits).
    assert (EN : count_above_root s lits = length N) by reflexivity.
    assert (NdN : NoDup N) by (apply NoDup_filter, Cf).
    assert (IxN : In (neg x) N).
    { apply filter_In. split; [now apply (R0 eq_refl x)|]. rewrite lev_neg, A2. apply negb_true_iff, Nat.eqb_neq. pose proof (ap_level _ _ _ _ Ap). lia. }
    assert (Sub : forall l, In l R -> In l lits).
    { intros l I. apply InR in I.
      assert (H3 : incl (resolvent s a3 n) (filter (fun k => negb (k =? neg x)) N)).
      { apply NoDup_length_incl.
        - now apply NoDup_filter.
        - rewrite resolvent_length. pose proof (filter_neq_length N (neg x) NdN IxN). lia.
        - intros k K. apply filter_In in K as [K Nk]. apply negb_true_iff, Nat.eqb_neq in Nk. apply filter_In in K as [K1 K2]. apply negb_true_iff, Nat.eqb_neq in K2.
          destruct (Cv k K1) as [Z|Z]; [contradiction|]. rewrite <- (neg_neg k). apply (resolvent_in a3 n); auto; [eapply marked_ext; eauto|].
          destruct (Nat.eq_dec (lev s (neg k)) (level s)) as [El|Nl].
          + right. destruct (R0 eq_refl (neg k) Z) as [_ R1]. specialize (R1 El).
            destruct (Nat.eq_dec (tpos s (neg k)) n) as [Et|Nt]; [|lia]. exfalso.
            apply Nk. rewrite <- (Mn (neg k)); auto; [now rewrite neg_neg|eapply marked_ext; eauto].
          + left. pose proof (true_level s (neg k) V F (ti_true _ V _ (proj1 Z))). lia. }
      apply H3 in I. apply filter_In in I as [I _]. apply filter_In in I. apply I. }
    assert (Large : exists d dc, c = CLarge d /\ arena s d = Some dc /\ c_garbage dc = false /\ (forall l, In l (c_lits dc) -> values s l = Some false) /\ lits = c_lits dc).
    { pose proof (cf_lits _ _ _ Cf) as X. pose proof (ap_ok _ _ _ _ Ap) as Ok. revert X Ok. generalize c. intros [u v|d] X Ok.
      - exfalso. cbn in X. inversion X as [X']. assert (length N <= 2).
        { unfold N. rewrite <- X'. eapply Nat.le_trans; [apply filter_length_le|]. auto. }
        pose proof (NoDup_incl_length NdR InR) as Y. rewrite resolvent_length in Y. lia.
      - destruct Ok as (dc & D1 & D2 & D3). exists d, dc. splits; auto. cbn in X. rewrite D1 in X. now inversion X. }
    destruct Large as (d & dc & Ecl & D1 & D2 & D3 & Ed). rewrite Ecl.
    assert (Ndr : d <> ref).
    { intros ->. rewrite Ar in D1. inversion D1; subst dc. pose proof (op_x orig p _ x ref cl Oq) as X. apply D3 in X.
      pose proof (ti_true _ V x Ix). congruence. }
    destruct (subsume_spec orig (tpos s x) (T s (level s)) s1 c1 ls d dc) as (s2 & S1 & S2 & S3 & S4 & S5 & S6 & S7 & S8); auto.
    - rewrite (O8 d Ndr). exact D1.
    - intros l I. rewrite (rs_values _ _ O4). now apply D3.
    - intros E. rewrite E in O10. congruence.
    - intros l I. destruct (L2 l I) as (Q1 & Q2 & Q3 & _). rewrite (rs_lev _ _ O4). change (lev (set_an a3 s) l) with (lev s l).
      destruct (Nat.eq_dec (lev s l) 0) as [Z|Z]; auto. right. rewrite <- Ed. apply Sub. rewrite ER. apply filter_In. split; auto.
      apply andb_true_iff. split; apply negb_true_iff, Nat.eqb_neq; auto.
    - rewrite S1. cbn [obind wp]. apply (aprec_after a3 x s2 c1 ls); auto.
      + eapply reshaped_trans; eauto.
      + rewrite S7. exact O5.
      + rewrite S8. exact O6.
      + intros l I. apply (L2 l I). }
  assert (Asr : (0 <? u2) && (0 <? resolvent_size a2) = true) by (apply andb_true_iff; split; apply Nat.ltb_lt; lia).
  destruct (reas s x) as [| |other|ref] eqn:Er; [congruence|exfalso; eapply known_unit; eauto| |].
  - rewrite analyze_literals_set_an. unfold others in Ean at 1. rewrite Er in Ean. fold a1. rewrite Ean. cbn [obind].
    rewrite Asr. cbn [oassert obind]. fold a3.
    replace (o_otfs o && (2 <? antecedent_size a3) && (resolvent_size a3 <? antecedent_size a3)) with false; [exact Next|].
    symmetry. rewrite P5'. assert (length R <= 1).
    { unfold R. eapply Nat.le_trans; [apply filter_length_le|]. unfold others. rewrite Er. auto. }
    replace (2 <? S (length R)) with false by (symmetry; apply Nat.ltb_ge; lia). now rewrite andb_false_r.
  - pose proof (known_reason orig p s Co x Kx) as Rn. unfold reason_ok in Rn. rewrite Er in Rn. destruct Rn as (cl & Ar & _).
    rewrite Ar. rewrite analyze_literals_set_an, analyze_literals_filter. unfold others in Ean at 1. rewrite Er, Ar in Ean. fold a1. rewrite Ean. cbn [obind].
    rewrite Asr. cbn [oassert obind]. fold a3.
    destruct (o_otfs o && (2 <? antecedent_size a3) && (resolvent_size a3 <? antecedent_size a3)) eqn:Eo; [|exact Next].
    apply andb_true_iff in Eo as [Eo E3]. apply andb_true_iff in Eo as [_ E2]. apply Nat.ltb_lt in E2, E3.
    apply (Otfs ref cl); auto.
Qed.
End Loop.

Lemma opens_two : forall s a n x y, vinv s -> marked s a x -> marked s a y -> lev s x = level s -> lev s y = level s -> tpos s x < n -> tpos s y < n ->
  x <> y -> 2 <= opens s a n.
Proof.
  intros s a n x y V [Ix Mx] [Iy My] Lx Ly Tx Ty N. unfold opens.
  change 2 with (length [x; y]). apply NoDup_incl_length.
  - constructor; [intros [E|[]]; congruence|]. constructor; [intros []|constructor].
  - intros k [<-|[<-|[]]]; apply filter_In; (split; [apply in_firstn_trail; auto|]).
    + now rewrite Mx, Lx, Nat.eqb_refl.
    + now rewrite My, Ly, Nat.eqb_refl.
Qed.

Lemma deduce_spec : forall o orig p s c lits, aprec orig p s c -> cfl s c lits ->
  (exists x y, In x lits /\ In y lits /\ x <> y /\ lev s x = level s /\ lev s y = level s) ->
  wp (deduce_first_uip_clause o c s) (fun '(s', r) => match r with
    | Some c' => otfspost orig p s s' c'
    | None => exists a uip, uipres p s lits a uip /\ s' = set_an (set_an_clause (neg uip :: an_clause a) a) s
    end).
Proof.
  intros o orig p s c lits Ap Cf (x & y & Ix & Iy & Nxy & Lx & Ly). unfold deduce_first_uip_clause. rewrite (cf_lits _ _ _ Cf).
  pose proof (ap_core _ _ _ _ Ap) as Co. pose proof (co_v _ _ _ Co) as V. pose proof (co_f _ _ _ Co) as F. pose proof (ap_level _ _ _ _ Ap) as Lv.
  set (a0 := set_resolvent_size 0 (set_antecedent_size 0 (an s))).
  destruct (ap_clean _ _ _ _ Ap) as (K1 & K2 & K3 & K4 & K5 & K6 & K7 & K8 & K9 & K10).
  assert (G0 : dgood p s a0).
  { assert (Ka : forall i, analyzed a0 i = false) by exact K1. assert (Kc : an_clause a0 = []) by exact K9. unfold dgood. rewrite Kc.
    split; [intros i X; congruence|]. split; [split; auto|]. split; [split; auto|]. split; [split; auto|].
    split; [intros m [_ M]; congruence|]. split; [constructor|]. intros l. split; [intros []|]. intros (_ & _ & X). congruence. }
  assert (O0 : 0 = opens s a0 (length (trail s))).
  { unfold opens. rewrite filter_none; auto. intros m _. change (analyzed (an s) (idx m) && (lev s m =? level s) = false). now rewrite K1. }
  assert (Fine : forall k, In k lits -> k <> 2 * vars s -> fine p s (length (trail s)) k).
  { intros k I _. pose proof (cf_false _ _ _ Cf k I) as Fk. split; auto. destruct (Nat.eq_dec (lev s k) 0) as [|N]; auto. right.
    assert (It : In (neg k) (trail s)) by (apply false_on_trail; auto; lia).
    split; [|intros _; rewrite <- tpos_neg; apply tpos_lt; auto].
    split; auto. rewrite lev_neg, tpos_neg. split; [lia|]. pose proof (false_level s k V F Fk).
    destruct (Nat.eq_dec (lev s k) (level s)) as [E|]; [|left; lia]. right. apply (ap_pos _ _ _ _ Ap lits); auto. apply Cf. }
  assert (Rg : forall k, In k lits -> k <> 2 * vars s).
  { intros k I E. pose proof (cf_false _ _ _ Cf k I) as Fk. assert (k < 2 * vars s); [apply dom_lt|lia]. apply (ti_range _ V). congruence. }
  assert (R0 : resolvent_size a0 = length (an_clause a0) + 0) by (cbn; now rewrite K9).
  pose proof (analyze_literals_spec orig p s Co (2 * vars s) (length (trail s)) (length (trail s)) lits 0 a0 (le_n _) G0 O0 R0 Fine) as Sp.
  destruct (analyze_literals s (2 * vars s) lits 0 a0) as [u a] eqn:Ea.
  destruct Sp as (P1 & P2 & P3 & P4 & P5 & P6 & P7).
  assert (Cv : covered s lits a) by (intros l I; apply P6; auto).
  assert (O2 : 2 <= opens s a (length (trail s))).
  { assert (H : forall k, In k lits -> lev s k = level s -> marked s a (neg k) /\ lev s (neg k) = level s /\ tpos s (neg k) < length (trail s)).
    { intros k I E. destruct (Cv k I) as [Z|Z]; [lia|]. splits; auto; [now rewrite lev_neg|]. apply tpos_lt; auto. apply Z. }
    destruct (H x Ix Lx) as (A1 & A2 & A3). destruct (H y Iy Ly) as (B1 & B2 & B3).
    apply (opens_two s a _ (neg x) (neg y)); auto. intros E. apply Nxy. rewrite <- (neg_neg x), <- (neg_neg y). now rewrite E. }
  replace (1 <? u) with true by (symmetry; apply Nat.ltb_lt; lia). cbn [oassert obind].
  apply wp_bind. rewrite P3. replace (rev (trail s)) with (rev (firstn (length (trail s)) (trail s))) by now rewrite firstn_all.
  eapply wp_mono; [apply (deduce_loop_spec orig p s c lits Ap Cf o (length (trail s)) a 0); auto; try lia|].
  - intros m M _ H. pose proof (tpos_lt _ _ V (proj1 M)). lia.
  - intros _ m M. split; [|intros _; apply tpos_lt; auto; apply M]. destruct (P7 m M) as [[_ X]|[X _]]; auto.
    change (analyzed (an s) (idx m) = true) in X. congruence.
  - intros [s1 [uip|c']]; cbn [wp]; auto. intros (a' & -> & U). exists a', uip. split; auto.
Qed.
