(** The steps of lucky phases: decisions, propagation, backtracking and failed literals. *)
From Coq Require Import ZArith List Bool Lia Arith.
From Coq Require Import ZifyBool ZifyNat.
From Verif Require Import Base Hoare SpecSat Lit Sem Solver Analyze Search Substitute Lucky Inv DbFacts AssignFacts AssignSpec
  BacktrackFacts PropFacts PropLoop OneLit ClauseFacts CutFacts MarkFacts AnalyzeLoop SearchFacts Levels LuckyOrder.
Import ListNotations.
Open Scope nat_scope.
Open Scope outcome_scope.

Lemma wp_post : forall A (m : outcome A) (P Q : A -> Prop), wp m P -> post m Q -> wp m (fun a => P a /\ Q a).
Proof. intros A [a| | |] P Q H K; cbn in *; auto. Qed.

Definition keeps (s s' : solver) : Prop := forall k, values s k <> None -> values s' k = values s k /\ lev s' k = lev s k.
Lemma keeps_refl : forall s, keeps s s. Proof. intros s k N. auto. Qed.
Lemma keeps_trans : forall a b c, keeps a b -> keeps b c -> keeps a c.
Proof. intros a b c A B k N. destruct (A k N) as [E1 E2]. destruct (B k) as [E3 E4]; [congruence|]. split; congruence. Qed.
Lemma quiet_keeps : forall s s', quiet s s' -> keeps s s'.
Proof. intros s s' Q k N. destruct (values s k) as [b|] eqn:E; [|congruence]. now apply (qu_values _ _ Q). Qed.

(** States between two decisions of a lucky phase. *)
Record lready (orig : list (list lit)) (s : solver) : Prop := {
  lr_prop : propagated orig s; lr_clean : clean (an s); lr_ok : inconsistent s = false; lr_ordered : ordered s;
  lr_root : T s 1 = 0 }.

(** ** Decisions *)
Lemma decide_lucky : forall orig l s, lready orig s -> values s l = None -> dom s l ->
  wp (decide l s) (fun s' => ready orig s' /\ inconsistent s' = false /\ shape s' = shape s /\ level s' = S (level s) /\
    ordered s' /\ T s' 1 = 0 /\ frames s' = frames s ++ [mk_frame l (length (trail s))] /\ keeps s s' /\
    values s' l = Some true /\ lev s' l = S (level s)).
Proof.
  intros orig l s [Pr Cl Ok Or Ro] N D. pose proof (co_v _ _ _ (proj1 Pr)) as V. pose proof (co_f _ _ _ (proj1 Pr)) as F.
  eapply wp_mono with (P := fun s' => (ready orig s' /\ inconsistent s' = inconsistent s /\ shape s' = shape s) /\
     exists s3, level s3 = S (level s) /\ frames s3 = frames s ++ [mk_frame l (length (trail s))] /\ trail s3 = trail s /\
       values s3 = values s /\ assigned s3 = assigned s /\ assigned_by (S (level s)) l s3 s').
  { apply wp_post; [now apply decide_spec|]. unfold decide, assign_decision. cbv zeta. set (s3 := set_an _ _).
    eapply post_mono; [apply assign_by|]. cbn beta. intros s' A. exists s3. splits; auto. }
  cbn beta. intros s' ((R & I & Sh) & s3 & E1 & E2 & E3 & E4 & E5 & A).
  assert (L : level s' = S (level s)) by (rewrite (ab_level _ _ _ _ A); auto).
  assert (Fr : frames s' = frames s ++ [mk_frame l (length (trail s))]) by (rewrite (ab_frames _ _ _ _ A); auto).
  assert (Tr : trail s' = trail s ++ [l]) by (rewrite (ab_trail _ _ _ _ A), E3; auto).
  assert (Le : forall k, lev s' k = if idx k =? idx l then S (level s) else lev s k).
  { intros k. rewrite (ab_lev _ _ _ _ A). unfold lev. now rewrite E5. }
  assert (TT : forall k, k <= level s -> T s' k = T s k).
  { intros k K. unfold T. rewrite Fr, map_app, app_nth1 by (rewrite map_length, (ti_frames _ F); lia).
    apply nth_indep. rewrite map_length, (ti_frames _ F). lia. }
  assert (TL : T s' (S (level s)) = length (trail s)).
  { unfold T. rewrite Fr, map_app, app_nth2; rewrite map_length, (ti_frames _ F); [|lia]. now rewrite Nat.sub_diag. }
  splits; auto; try congruence.
  - intros k i m K E G. rewrite L in K. rewrite Le. destruct (Nat.eqb_spec (idx m) (idx l)) as [Em|Em]; [lia|].
    rewrite Tr in E. destruct (le_lt_dec (length (trail s)) i) as [H|H].
    + rewrite nth_error_app2 in E by auto. destruct (i - length (trail s)) as [|j]; cbn in E; [congruence|]. destruct j; discriminate.
    + rewrite nth_error_app1 in E by auto. destruct (Nat.eq_dec k (S (level s))) as [->|Nk]; [rewrite TL in G; lia|].
      rewrite TT in G by lia. apply (Or k i m); auto. lia.
  - destruct (Nat.eq_dec (level s) 0) as [Z|Z].
    + rewrite Z in TL. rewrite TL, <- (T_top s 1 F); auto. lia.
    + rewrite TT by lia. auto.
  - intros k Nk. destruct (by_keeps _ _ _ _ k A) as [B1 B2]; [now rewrite E4|]. rewrite B1, B2. unfold lev. rewrite E4, E5. auto.
  - rewrite (ab_values _ _ _ _ A). destruct (Nat.eqb_spec l (neg l)) as [E|_]; [symmetry in E; now apply neg_neq in E|]. now rewrite Nat.eqb_refl.
  - now rewrite Le, Nat.eqb_refl.
Qed.

(** ** Propagation *)
Lemma T_same : forall s s', finv s -> frames s' = frames s -> forall k, k <= level s -> T s' k = T s k.
Proof. intros s s' F E k K. unfold T. rewrite E. apply nth_indep. rewrite map_length, (ti_frames _ F). lia. Qed.

Lemma propagate_lucky : forall orig o s, ready orig s -> ordered s -> (0 < level s -> T s 1 = 0) ->
  wp (lucky_propagate o s) (fun res => propagate_post orig s res /\ let '(s', confl) := res in
    ordered s' /\ (confl = None \/ 0 < level s -> T s' 1 = 0) /\
    match confl with Some c => 0 < level s -> exists n, conflicts_with s' n c /\ level s <= lev s' n | None => True end).
Proof.
  intros orig o s (Co & Pi & Cl) Or Ro. rewrite lucky_propagate_eq.
  pose proof (co_v _ _ _ Co) as V. pose proof (co_f _ _ _ Co) as F.
  eapply wp_mono with (P := fun res => propagate_post orig s res /\ let '(s', confl) := res in 
     frames s' = frames s /\ level s' = level s /\ (0 < level s -> above (level s) (T s) s' /\
     match confl with Some c => exists n, conflicts_with s' n c /\ level s <= lev s' n | None => True end)).
  { apply wp_post; [now apply search_propagate_spec|]. unfold search_propagate.
    eapply post_bind; [apply (propagate_loop_high o (level s) (T s)); auto|].
    - now apply vinv_paired.
    - apply (ti_Tprop _ F).
    - intros [s1 confl] (A & Fr & Lv & C). cbn [post]. unfold update_conflicts_and_trail. rewrite Lv.
      destruct confl as [c|].
      + destruct (Nat.eqb_spec (level s) 0) as [Z|Z].
        * split; [exact Fr|]. split; [exact Lv|]. lia.
        * split; [exact Fr|]. split; [exact Lv|]. auto.
      + destruct (Nat.eqb_spec (level s) 0) as [Z|Z]; cbn [andb].
        * destruct (0 <? unflushed s1); (split; [exact Fr|]; split; [exact Lv|]; lia).
        * split; [exact Fr|]. split; [exact Lv|]. auto. }
  intros [s' confl] (Po & Fr & Lv & H). split; auto.
  destruct (Nat.eq_dec (level s) 0) as [Z|Z].
  - splits.
    + intros k i l K. rewrite Lv, Z in K. lia.
    + destruct Po as [Qu Po]. intros [-> | H']; [|lia].
      destruct Po as (P' & _ & E). pose proof (co_f _ _ _ (proj1 P')) as F'. rewrite (T_top _ _ F') by lia. rewrite E by congruence. reflexivity.
    + destruct confl; auto. lia.
  - destruct H as [Ab C]; [lia|]. splits.
    + intros k i l K E G. rewrite Lv in K. apply (Ab k i l); auto. rewrite <- (T_same s s' F Fr k K). exact G.
    + intros _. rewrite (T_same s s' F Fr) by lia. apply Ro. lia.
    + destruct confl; auto.
Qed.

(** A decision and its propagation *)
Definition tried (orig : list (list lit)) (l : lit) (s : solver) (res : solver * option conflict) : Prop :=
  let '(s', confl) := res in
  shape s' = shape s /\ level s' = S (level s) /\ keeps s s' /\ values s' l = Some true /\ lev s' l = S (level s) /\
  frames s' = frames s ++ [mk_frame l (length (trail s))] /\
  match confl with
  | None => lready orig s'
  | Some c => ordered s' /\ T s' 1 = 0 /\ exists s1, propagate_post orig s1 (s', Some c) /\ clean (an s1) /\ level s1 = level s' /\
      inconsistent s1 = false /\ shape s1 = shape s /\ exists n, conflicts_with s' n c /\ level s' <= lev s' n
  end.
Lemma try_lucky : forall orig o l s, lready orig s -> values s l = None -> dom s l ->
  wp (do s1 <- decide l s ; lucky_propagate o s1) (tried orig l s).
Proof.
  intros orig o l s Lr N D. apply wp_bind. eapply wp_mono; [now apply (decide_lucky orig l s)|]. cbn beta.
  intros s1 (R1 & I1 & Sh1 & Lv1 & Or1 & Ro1 & Fr1 & K1 & V1 & Le1).
  eapply wp_mono; [apply (propagate_lucky orig o s1 R1 Or1 (fun _ => Ro1))|]. intros [s2 confl] ((Qu & Po) & Or2 & Ro2 & C2).
  pose proof (quiet_keeps _ _ Qu) as K2. destruct (K2 l) as [V2 Le2]; [congruence|]. unfold tried.
  pose proof (qu_level _ _ Qu) as Lv2.
  split; [rewrite (qu_shape _ _ Qu); auto|]. split; [congruence|]. split; [eapply keeps_trans; eauto|]. split; [congruence|]. split; [congruence|].
  split; [rewrite (qu_frames _ _ Qu); auto|]. destruct confl as [c|].
  - split; auto. split; [apply Ro2; right; lia|]. exists s1. split; [split; auto|]. split; [apply R1|]. split; [congruence|]. split; auto. split; auto.
    rewrite Lv2. apply C2. lia.
  - destruct Po as (P2 & I2 & _). constructor; auto; [|congruence]. apply (qu_clean _ _ Qu), R1.
Qed.

(** ** Backtracking *)
Lemma backtrack_lucky : forall orig p k s, core orig p s -> ordered s -> k < level s -> pinv (T s (S k)) s ->
  clean (an s) -> inconsistent s = false -> T s 1 = 0 ->
  exists s', backtrack k s = Ret s' /\ backtracked k s s' /\ lready orig s'.
Proof.
  intros orig p k s Co Or K Pi Cl Ic Ro. pose proof (co_v _ _ _ Co) as V. pose proof (co_f _ _ _ Co) as F.
  destruct (backtrack_spec orig p k s Co K Pi) as (s' & E & B & Co' & Pi'). exists s'. split; auto. split; auto.
  assert (Tr : trail s' = firstn (T s (S k)) (trail s)).
  { rewrite (bt_trail _ _ _ B).
    assert (H : forall t n, (forall i l, nth_error t i = Some l -> i < n -> lev s l <= k) -> (forall i l, nth_error t i = Some l -> n <= i -> k < lev s l) ->
      filter (fun l => lev s l <=? k) t = firstn n t).
    { induction t as [|x t IH]; intros n A1 A2; [now rewrite firstn_nil|]. cbn [filter]. destruct n as [|n].
      - assert (X : lev s x <=? k = false) by (apply Nat.leb_gt; apply (A2 0 x); auto; lia). rewrite X.
        rewrite (IH 0); [reflexivity| |]; [intros; lia|]. intros i l Ei _. apply (A2 (S i) l); auto. lia.
      - assert (X : lev s x <=? k = true) by (apply Nat.leb_le; apply (A1 0 x); auto; lia). rewrite X. cbn [firstn]. f_equal. apply IH.
        + intros i l Ei Li. apply (A1 (S i) l); auto. lia.
        + intros i l Ei Li. apply (A2 (S i) l); auto. lia. }
    apply H.
    - intros i l Ei Li. apply (ti_lev _ F k i l); auto.
    - intros i l Ei Li. apply (Or (S k) i l); auto. }
  assert (Ln : length (trail s') = T s (S k)).
  { rewrite Tr, firstn_length. apply Nat.min_l. pose proof (ti_Tmono _ F (S k) (level s) ltac:(lia)).
    pose proof (ti_Tprop _ F). pose proof (ti_prop _ V). lia. }
  assert (Ep : propagate s' = length (trail s')) by (rewrite (bt_prop _ _ _ B); auto).
  pose proof (co_f _ _ _ Co') as F'. constructor.
  - unfold propagated. rewrite <- Ep at 3. auto.
  - now rewrite (bt_an _ _ _ B).
  - now rewrite (bt_inc _ _ _ B).
  - intros j i l J Ei Li. rewrite (bt_level _ _ _ B) in J. rewrite (bt_lev _ _ _ B). rewrite (bt_T k s s' F K B j J) in Li.
    rewrite Tr in Ei. assert (Lt : i < T s (S k)). { rewrite <- Ln, Tr. apply nth_error_Some. congruence. }
    apply (Or j i l); auto; [lia|]. rewrite <- Ei. clear - Lt. revert i Lt. generalize (T s (S k)) (trail s). induction n as [|n IH]; intros t i Lt; [lia|].
    destruct t as [|x t]; [now rewrite firstn_nil|]. destruct i as [|i]; cbn; auto. apply IH. lia.
  - destruct k as [|k].
    + rewrite (T_top _ _ F') by (rewrite (bt_level _ _ _ B); lia). rewrite Ln. auto.
    + rewrite (bt_T (S k) s s' F K B 1) by lia. auto.
Qed.

(** ** Failed literals *)
Lemma wp_to_post : forall A (m : outcome A) (P : A -> Prop), wp m P -> post m P.
Proof. intros A [a| | |] P H; cbn in *; auto. Qed.

Lemma conflict_aprec : forall orig s0 s c, propagate_post orig s0 (s, Some c) -> clean (an s0) -> level s = level s0 ->
  0 < level s -> aprec orig (length (trail s)) s c /\ inconsistent s = inconsistent s0.
Proof.
  intros orig s0 s c (Qu & Co & Ok & Post) Cl Lv L. rewrite <- Lv in Post. destruct (Nat.eqb_spec (level s) 0); [lia|].
  destruct Post as [Ic P]. split; auto. constructor; auto.
  - intros lits l E Il El. pose proof (co_v _ _ _ Co) as V.
    assert (Fl : values s l = Some false).
    { destruct c as [a b|r]; cbn in E, Ok.
      - inversion E; subst lits. destruct Ok as (_ & A & B). destruct Il as [<-|[<-|[]]]; auto.
      - destruct Ok as (d & Ar & G & Fd). rewrite Ar in E. cbn in E. inversion E; subst. auto. }
    rewrite <- tpos_neg. apply tpos_lt; auto. apply false_on_trail; auto. lia.
  - now apply (qu_clean _ _ Qu).
Qed.

(** Both watches of a conflict at level one have this level. *)
Lemma conflict_watches : forall orig p s c, aprec orig p s c -> level s = 1 -> ordered s ->
  exists lits a b, cfl s c lits /\ In a lits /\ In b lits /\ a <> b /\ lev s a = 1 /\ lev s b = 1.
Proof.
  intros orig p s c Ap L Or. pose proof (ap_core _ _ _ _ Ap) as Co. pose proof (co_v _ _ _ Co) as V. pose proof (co_f _ _ _ Co) as F.
  destruct (conflict_cfl _ _ _ _ Co (ap_ok _ _ _ _ Ap)) as (lits & Cf). pose proof (ap_pinv _ _ _ _ Ap) as Pi. rewrite L in Pi.
  assert (H : forall w x, In w lits -> watched_ok s (T s 1) lits w x -> lev s w = 1).
  { intros w x I [_ Ro]. pose proof (cf_false _ _ _ Cf _ I) as Fw. pose proof (false_level s w V F Fw) as Le.
    destruct (Nat.eq_dec (lev s w) 0) as [Z|]; [|lia]. exfalso.
    assert (Be : before s w (T s 1)).
    { intros It. destruct (le_lt_dec (T s 1) (tpos s w)) as [G|]; auto. exfalso.
      assert (X : 1 <= lev s (neg w)); [|rewrite lev_neg in X; lia].
      apply (Or 1 (tpos s (neg w)) (neg w)); [lia|now apply trail_nth|now rewrite tpos_neg]. }
    destruct (Ro Fw Be Be) as (t & It & Tt & _). rewrite (cf_false _ _ _ Cf _ It) in Tt. discriminate. }
  pose proof (cf_lits _ _ _ Cf) as El. pose proof (ap_ok _ _ _ _ Ap) as Ok. destruct c as [a b|r]; cbn in El, Ok.
  - inversion El; subst lits. destruct Ok as (Wb & _). pose proof (co_w _ _ _ Co) as W. destruct (wi_bin _ _ _ _ _ W a b Wb) as (Nab & _).
    exists [a; b], a, b. splits; cbn; auto.
    + apply (H a b); cbn; auto. now apply (pi_bin _ _ Pi).
    + apply (H b a); cbn; auto. pose proof (pi_bin _ _ Pi b a (wi_sym _ _ _ _ _ W _ _ Wb)) as [B1 B2]. split.
      * intros A1 A2 A3 A4 k K. destruct (B1 A1 A2 A3 A4 k K) as (t & It & X). exists t. split; auto. cbn in *. tauto.
      * intros A1 A2 A3. destruct (B2 A1 A2 A3) as (t & It & X). exists t. split; auto. cbn in *. tauto.
  - destruct Ok as (d & Ar & G & _). rewrite Ar in El. cbn in El. inversion El; subst lits.
    pose proof (ci_len _ (co_c _ _ _ Co) r d Ar G) as Ln. pose proof (ci_nodup _ (co_c _ _ _ Co) r d Ar G) as Nd.
    destruct (c_lits d) as [|w [|x rest]] eqn:E; try (cbn in Ln; lia).
    assert (N : w <> x) by (inversion Nd; subst; intros ->; apply H2; now left).
    assert (W1 : watching w d) by (left; now rewrite E). assert (W2 : watching x d) by (right; now rewrite E).
    exists (w :: x :: rest), w, x. splits; cbn; auto.
    + apply (H w x); cbn; auto. rewrite <- E. now apply (pi_large _ _ Pi r d).
    + apply (H x w); cbn; auto. rewrite <- E. apply (pi_large _ _ Pi r d); auto.
Qed.

Definition same_assignment (s s' : solver) : Prop := values s' = values s /\ assigned s' = assigned s /\ frames s' = frames s /\ level s' = level s.
Lemma move_highest_same : forall cl r i s, post (move_highest cl r i s) (same_assignment s).
Proof.
  intros cl r i s. unfold move_highest. destruct (arena s r) as [c|]; [|exact I]. cbv zeta. apply post_assert. intros _.
  set (q := highest _ _ _ _ _ _). clearbody q. destruct (q =? i); [cbn; unfold same_assignment; auto|].
  eapply post_bind with (P := same_assignment s).
  - unfold unwatch_blocking. destruct (1 <? q); [|cbn; unfold same_assignment; auto]. apply post_assert. intros _. cbn. unfold same_assignment. auto.
  - intros s1 E. cbn [post]. destruct (1 <? q); exact E.
Qed.

Lemma one_literal_two : forall orig p o c s, aprec orig p s c -> level s = 1 -> ordered s ->
  post (one_literal_on_conflict_level o c s) (fun '(s1, used, cl) => used = false /\ cl = 1 /\ same_assignment s s1).
Proof.
  intros orig p o c s Ap L Or. destruct (conflict_watches _ _ _ _ Ap L Or) as (lits & a & b & Cf & Ia & Ib & Nab & La & Lb).
  pose proof (ap_core _ _ _ _ Ap) as Co. pose proof (co_v _ _ _ Co) as V. pose proof (co_f _ _ _ Co) as F.
  unfold one_literal_on_conflict_level. rewrite (cf_lits _ _ _ Cf).
  destruct (scan_conflict_spec s lits) as (j & cl & count & forced & -> & If & Lf & Mx & Cn & H1 & H2);
    [apply Cf|apply Cf|intros l I; apply false_level; auto; now apply (cf_false _ _ _ Cf)|].
  assert (Cl : cl = 1). { pose proof (Mx a Ia). assert (lev s forced <= level s) by (apply false_level; auto; now apply (cf_false _ _ _ Cf)). lia. }
  assert (Ct : 1 < count).
  { destruct (Nat.eq_dec count 1) as [E|]; [|lia]. exfalso. destruct (H1 E) as (J & Le & _).
    destruct (Nat.eq_dec a forced) as [Ea|Na]; [|specialize (Le a Ia Na); lia]. subst a. specialize (Le b Ib ltac:(congruence)). lia. }
  rewrite Cl, L. cbn [Nat.eqb Nat.ltb Nat.leb obind].
  assert (K : forall m, post m (same_assignment s) -> post (do s2 <- m ; if 1 <? count then Ret (s2, false, 1) else
     match Some j with None => Undef | Some jump => do new_level <- determine_new_level o s2 jump ;
       do s3 <- backtrack_after_conflict new_level s2 ;
       do s4 <- match c with
                | CBinary a b => match other_watch a b forced with None => Undef | Some other => assign_binary o forced other s3 end
                | CLarge ref => assign_reference forced ref s3 end ; Ret (s4, true, 1) end)
     (fun '(s1, used, cl) => used = false /\ cl = 1 /\ same_assignment s s1)).
  { intros m Hm. eapply post_bind; [exact Hm|]. cbn beta. intros s2 Sm. apply Nat.ltb_lt in Ct. rewrite Ct. cbn. auto. }
  apply K. destruct c as [x y|r]; [cbn; unfold same_assignment; auto|].
  eapply post_bind; [apply move_highest_same|]. intros s2 (E1 & E2 & E3 & E4). eapply post_mono; [apply move_highest_same|].
  intros s3 (D1 & D2 & D3 & D4). unfold same_assignment. splits; congruence.
Qed.

Lemma learn_units_extra : forall us s, post (learn_units us s) (fun s' => level s' = level s /\
  (forall k, values s k <> None -> values s' k = values s k) /\ (forall u, In u us -> values s' u = Some true)).
Proof.
  induction us as [|u us IH]; intros s; cbn [learn_units]; [cbn; splits; auto; intros u []|].
  unfold learned_unit, assign_unit. eapply post_bind with (P := fun s1 => level s1 = level s /\ (forall k, values s k <> None -> values s1 k = values s k) /\ values s1 u = Some true).
  - eapply post_bind; [apply assign_by|]. intros s1 A. cbn [post]. cbn [add_step set_steps level values]. splits.
    + apply A.
    + intros k N. now apply (by_keeps _ _ _ _ k A).
    + rewrite (ab_values _ _ _ _ A). destruct (Nat.eqb_spec u (neg u)) as [E|_]; [symmetry in E; now apply neg_neq in E|]. now rewrite Nat.eqb_refl.
  - intros s1 (L1 & K1 & V1). eapply post_mono; [apply IH|]. cbn beta. intros s2 (L2 & K2 & V2). splits.
    + congruence.
    + intros k N. rewrite K2, K1; auto. rewrite K1; auto.
    + intros w [<-|I]; auto. rewrite K2; congruence.
Qed.

Lemma analyze_failed_extra : forall orig p s c f, core orig p s -> level s = 1 -> nth_error (frames s) 1 = Some f ->
  post (analyze_failed_literal c s) (fun s' => level s' = 0 /\ values s' (neg (f_decision f)) = Some true /\
    forall k, values s k <> None -> lev s k = 0 -> values s' k <> None).
Proof.
  intros orig p s c f Co L Ef. unfold analyze_failed_literal. apply post_assert. intros _. rewrite Ef.
  destruct (conflict_lits s c) as [lits|]; [|exact I]. cbv zeta. apply post_any. intros [units a].
  assert (Co1 : core orig p (set_an a s)) by now apply core_set_an.
  destruct (backtrack_eq 0 (set_an a s) (co_v _ _ _ Co1) (co_f _ _ _ Co1)) as (s1 & E1 & B1). { change (0 < level s). lia. }
  rewrite E1. cbn [obind]. eapply post_bind; [apply learn_units_extra|]. cbn beta. intros s2 (L2 & K2 & U2). cbn [post].
  change (level (set_iterating true s2)) with (level s2). change (values (set_iterating true s2)) with (values s2). splits.
  - rewrite L2. apply (bt_level _ _ _ B1).
  - apply U2. apply -> in_rev. now left.
  - intros k N Z. rewrite K2; rewrite (bt_values _ _ _ B1); change (lev (set_an a s) k) with (lev s k); rewrite Z; cbn; exact N.
Qed.

(** The analysis of a conflict at level one leaves the negation of the decision as unit. *)
Lemma failed_lucky : forall orig o c s s0 f, propagate_post orig s0 (s, Some c) -> clean (an s0) -> level s = level s0 -> level s = 1 ->
  inconsistent s0 = false -> ordered s -> nth_error (frames s) 1 = Some f ->
  wp (analyze (analyze_fuel s) o c s) (fun '(go, s') => shape s' = shape s0 /\ ready orig s' /\ inconsistent s' = false /\ level s' = 0 /\
    values s' (neg (f_decision f)) = Some true /\ forall k, values s k <> None -> lev s k = 0 -> values s' k <> None).
Proof.
  intros orig o c s s0 f Po Cl Lv L Ic Or Ef. destruct (conflict_aprec _ _ _ _ Po Cl Lv ltac:(lia)) as [Ap Is].
  eapply wp_mono; [apply wp_post; [now apply (analyze_spec orig o c s s0)|]|].
  - instantiate (1 := fun '(go, s') => go = true /\ level s' = 0 /\ values s' (neg (f_decision f)) = Some true /\
       forall k, values s k <> None -> lev s k = 0 -> values s' k <> None).
    unfold analyze. rewrite Is, Ic. unfold analyze_fuel. cbn [analyze_loop].
    eapply post_bind with (P := fun '(r, s') => r = Some s' /\ level s' = 0 /\ values s' (neg (f_decision f)) = Some true /\
       forall k, values s k <> None -> lev s k = 0 -> values s' k <> None).
    + eapply post_bind.
      { apply wp_to_post. apply wp_post; [apply (one_literal_spec orig _ o c s Ap)|apply (one_literal_two _ _ o _ _ Ap L Or)]. }
      intros [[s1 used] cl] ((_ & Post) & -> & -> & Sv & Sa & Sf & Sl). cbn [Nat.eqb] in *.
      destruct Post as (p1 & Ap1 & _ & L1 & _).
      eapply post_bind; [apply (analyze_failed_extra orig p1 s1 c f (ap_core _ _ _ _ Ap1) L1)|].
      * now rewrite Sf.
      * cbn beta. intros s2 (A & B & D). cbn [post]. splits; auto. intros k N Z. apply D; [now rewrite Sv|]. unfold lev in *. now rewrite Sa.
    + intros [r s'] (-> & H). cbn [post]. auto.
  - intros [go s'] ((Sh & H) & -> & L' & V' & K'). destruct H. splits; auto.
Qed.
