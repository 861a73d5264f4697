(** The search loop keeps the invariants. *)
From Coq Require Import ZArith List Bool Lia Arith Permutation.
From Coq Require Import ZifyBool ZifyNat.
From Verif Require Import Base Hoare SpecSat Lit Sem Solver Analyze Search Inv DbFacts AssignFacts AssignSpec
  BacktrackFacts PropFacts PropLoop OneLit ClauseFacts AnalyzeLoop CollectFacts Backbone Transitive Probe TransitiveFacts BackboneFacts.
From Verif Require Levels.
Import ListNotations.
Open Scope nat_scope.

(** ** Decisions *)
Section Decide.
  Variables (s : solver) (l : lit).
  Hypothesis V : vinv s.
  Hypothesis F : finv s.
  Hypothesis N : values s l = None.
  Hypothesis R : dom s l.
  Let s1 := do_assign (S (level s)) RDecision l s.
  Variable s' : solver.
  Hypothesis E_level : level s' = S (level s).
  Hypothesis E_frames : frames s' = frames s ++ [mk_frame l (length (trail s))].
  Hypothesis E_trail : trail s' = trail s1.
  Hypothesis E_values : values s' = values s1.
  Hypothesis E_assigned : assigned s' = assigned s1.
  Hypothesis E_arena : arena s' = arena s1.
  Hypothesis E_watches : watches s' = watches s1.
  Hypothesis E_prop : propagate s' = propagate s1.

  Lemma dc_lev : forall k, lev s' k = lev s1 k.
  Proof. intros k. unfold lev. now rewrite E_assigned. Qed.
  Lemma dc_tpos : forall k, tpos s' k = tpos s1 k.
  Proof. intros k. unfold tpos. now rewrite E_assigned. Qed.
  Lemma dc_reas : forall k, reas s' k = reas s1 k.
  Proof. intros k. unfold reas. now rewrite E_assigned. Qed.
  Lemma dc_before : forall w n, before s' w n <-> before s1 w n.
  Proof. intros w n. unfold before. rewrite E_trail, dc_tpos. tauto. Qed.
  Lemma dc_length : length (trail s') = S (length (trail s)).
  Proof. rewrite E_trail. cbn. rewrite app_length. cbn. lia. Qed.

  Lemma dc_T : forall k, k <= level s -> T s' k = T s k.
  Proof.
    intros k K. unfold T. rewrite E_frames, map_app, app_nth1 by (rewrite map_length, (ti_frames _ F); lia).
    apply nth_indep. rewrite map_length, (ti_frames _ F). lia.
  Qed.
  Lemma dc_T_last : T s' (S (level s)) = length (trail s).
  Proof.
    unfold T. rewrite E_frames, map_app, app_nth2; rewrite map_length, (ti_frames _ F); [|lia].
    now rewrite Nat.sub_diag.
  Qed.
  Lemma dc_T_top : forall k, S (level s) < k -> T s' k = S (length (trail s)).
  Proof.
    intros k K. unfold T. rewrite nth_overflow; [apply dc_length|].
    rewrite E_frames, map_length, app_length, (ti_frames _ F). cbn. lia.
  Qed.

  Lemma dc_finv : propagate s = length (trail s) -> finv s'.
  Proof.
    intros P. assert (Tl : forall k, T s k <= length (trail s)).
    { intros k. destruct (le_lt_dec k (level s)) as [K|K]; [|rewrite T_top; auto].
      rewrite <- P. etransitivity; [apply (ti_Tmono _ F _ (level s)); auto|apply (ti_Tprop _ F)]. }
    constructor.
    - rewrite E_frames, app_length, (ti_frames _ F), E_level. cbn. lia.
    - rewrite dc_T by lia. apply (ti_T0 _ F).
    - intros k K. rewrite E_level in K. destruct (Nat.eq_dec k (S (level s))) as [->|D].
      + exists (mk_frame l (length (trail s))). rewrite dc_lev, dc_reas, E_frames, E_trail. cbn [f_trail f_decision]. splits.
        * rewrite nth_error_app2 by (rewrite (ti_frames _ F); lia). now rewrite (ti_frames _ F), Nat.sub_diag.
        * unfold s1. cbn [do_assign trail]. rewrite nth_error_app2, Nat.sub_diag; auto.
        * apply da_lev_l.
        * unfold s1. now rewrite da_reas_l.
      + destruct (ti_dec _ F k ltac:(lia)) as (f & A & B & C & G). exists f.
        assert (I : In (f_decision f) (trail s)) by (eapply nth_error_In; eauto).
        assert (X : idx (f_decision f) <> idx l) by (apply (da_trail_old s l); auto).
        rewrite dc_lev, dc_reas, E_trail, E_frames. unfold s1. rewrite da_lev, da_reas by auto. splits; auto.
        * rewrite nth_error_app1; auto. rewrite (ti_frames _ F). lia.
        * cbn [do_assign trail]. rewrite nth_error_app1; auto. apply nth_error_Some. congruence.
    - intros k i m M I. rewrite E_trail in M. unfold s1 in M. cbn [do_assign trail] in M. rewrite dc_lev.
      destruct (le_lt_dec (length (trail s)) i) as [Li|Li].
      + rewrite nth_error_app2 in M by auto. destruct (i - length (trail s)) as [|j]; [|destruct j; discriminate].
        cbn in M. inversion M; subst m. unfold s1. rewrite da_lev_l.
        destruct (le_lt_dec k (level s)) as [K|K]; [|lia]. exfalso.
        destruct (Nat.eq_dec k (level s)) as [->|D]; [rewrite dc_T_last in I; lia|].
        rewrite dc_T in I by lia. specialize (Tl (S k)). lia.
      + rewrite nth_error_app1 in M by auto. assert (Im : In m (trail s)) by (eapply nth_error_In; eauto).
        unfold s1. rewrite da_lev by (apply (da_trail_old s l); auto).
        destruct (le_lt_dec (level s) k) as [K|K]; [pose proof (lev_level s m V F Im); lia|].
        rewrite dc_T in I by lia. apply (ti_lev _ F k i); auto.
    - intros j k Jk. destruct (lt_eq_lt_dec k (S (level s))) as [[K|K]|K].
      + rewrite !dc_T by lia. now apply (ti_Tmono _ F).
      + subst k. rewrite dc_T_last. destruct (Nat.eq_dec j (S (level s))) as [->|]; [now rewrite dc_T_last|]. rewrite dc_T by lia. apply Tl.
      + rewrite (dc_T_top k) by auto. destruct (lt_eq_lt_dec j (S (level s))) as [[J|J]|J].
        * rewrite dc_T by lia. specialize (Tl j). lia.
        * subst j. rewrite dc_T_last. lia.
        * now rewrite dc_T_top.
    - rewrite E_level, dc_T_last, E_prop. cbn. lia.
  Qed.

  Lemma dc_bpath : forall k o, bpath s1 k o -> bpath s' k o.
  Proof.
    intros k o B. induction B as [k o I|k m o I M L B IH].
    - apply bpath_one. now rewrite E_watches.
    - apply bpath_step with m; auto; [now rewrite E_watches|now rewrite E_values|now rewrite !dc_lev].
  Qed.

  Lemma dc_reason : forall k, In k (trail s) -> reason_ok s k -> reason_ok s' k.
  Proof.
    intros k K H. pose proof (lev_level s k V F K) as L.
    assert (D : idx k <> idx l) by now apply (da_trail_old s l).
    assert (H1 : reason_ok s1 k) by (apply reason_assign; auto).
    unfold reason_ok in *. rewrite dc_reas. unfold s1 in H1 |- *. rewrite da_reas in * by auto. destruct (reas s k) as [| |o|c]; auto.
    - rewrite dc_tpos, dc_lev. unfold s1. rewrite da_tpos, da_lev by auto. now rewrite dc_T.
    - destruct H1 as (A & B & C & P). rewrite E_values, !dc_lev, !dc_tpos. splits; auto. now apply dc_bpath.
    - destruct H1 as (d & A & G & W & O & M & X). exists d. rewrite E_arena. split; auto. unfold reason_clause_ok. splits; auto.
      + intros m I J. rewrite E_values, !dc_lev, !dc_tpos. now apply O.
      + destruct M as (m & M1 & M2 & M3). exists m. rewrite !dc_lev. auto.
      + intros w j J Nw Z B. rewrite dc_lev. rewrite E_level in Z. unfold s1. rewrite da_lev by auto.
        destruct (le_lt_dec (level s) j) as [Y|Y]; [lia|]. rewrite dc_before, dc_T in B by lia.
        rewrite <- (da_lev s (S (level s)) RDecision l) by auto. apply (X w j J Nw); auto. now rewrite da_T by (auto; lia).
  Qed.

  Lemma dc_watched : forall c w x, watched_ok s (length (trail s)) c w x -> watched_ok s' (length (trail s)) c w x.
  Proof.
    intros c w x H. apply (watched_assign s (S (level s)) RDecision l) in H; auto. fold s1 in H. destruct H as [B U].
    assert (Ti : forall k, true_in s1 c k -> true_in s' c k).
    { intros k (t & T1 & T2 & T3). exists t. rewrite E_values, dc_lev. auto. }
    assert (Tm : forall j k, j <= k -> true_in s1 c j -> true_in s' c k).
    { intros j k L X. apply Ti. destruct X as (t & T1 & T2 & T3). exists t. splits; auto. lia. }
    split.
    - intros W1 B1 W2 B2 k K. rewrite E_values in W1, W2. apply dc_before in B1, B2.
      destruct (le_lt_dec (level s) k) as [Y|Y].
      + apply (Tm (level s)); auto.
      + apply (Tm k); auto. apply B; auto. right. destruct K as [K|[K1 K2]]; [lia|].
        rewrite dc_before, dc_T in K1, K2 by lia. unfold s1 at 2 4. rewrite da_T by (auto; lia). auto.
    - intros W1 B1 B2. rewrite E_values in W1. rewrite dc_before in B1, B2. apply Ti, U; auto.
      destruct (Nat.eq_dec (level s) 0) as [Z|Z].
      + intros I. specialize (B1 I). unfold s1 at 2. rewrite da_T_top by (auto; lia). lia.
      + unfold s1 at 2. rewrite da_T by (auto; lia). now rewrite dc_T in B2 by lia.
  Qed.
End Decide.

Lemma decide_spec : forall orig l s, propagated orig s -> clean (an s) -> values s l = None -> dom s l ->
  wp (decide l s) (fun s' => ready orig s' /\ inconsistent s' = inconsistent s /\ shape s' = shape s).
Proof.
  intros orig l s (Co & Pr & Pi) Cl N R. pose proof (co_v _ _ _ Co) as V. pose proof (co_f _ _ _ Co) as F.
  unfold decide, assign_decision. cbv zeta. set (s3 := set_an _ _).
  assert (V3 : vinv s3) by (destruct V; constructor; auto).
  rewrite (assign_eq (level s3) RDecision l s3) by auto. cbn [wp].
  set (s' := do_assign _ _ _ _). set (s1 := do_assign (S (level s)) RDecision l s).
  assert (X : finv s' /\ (forall k, In k (trail s) -> reason_ok s k -> reason_ok s' k) /\
    (forall c w x, watched_ok s (length (trail s)) c w x -> watched_ok s' (length (trail s)) c w x)).
  { splits.
    - apply (dc_finv s l); auto.
    - apply (dc_reason s l); auto.
    - apply (dc_watched s l); auto. }
  destruct X as (F' & Re & Wo).
  assert (V1 : vinv s1) by now apply vinv_assign.
  split; [|split; reflexivity]. unfold ready. splits.
  - destruct Co as [_ _ C W L Rs]. constructor; auto.
    + now apply vinv_assign.
    + destruct C as [A B C D E]. constructor; auto.
    + apply (winv_mono (rooted s)); [|exact W]. intros t. now apply (da_rooted s (S (level s)) RDecision l).
    + assert (L1 : linv orig s1) by (apply linv_assign; auto; lia). destruct L1. constructor; auto.
    + intros k K Hl _. apply (da_in s3) in K as [K| ->].
      * apply Re; auto. apply Rs; auto.
        -- assert (D : idx k <> idx l) by (apply (da_trail_old s l); auto). unfold s' in Hl. now rewrite da_lev in Hl by auto.
        -- right. now apply tpos_lt.
      * unfold reason_ok, s'. rewrite da_reas_l, da_tpos_l, da_lev_l. change (level s3) with (S (level s)).
        cbn [Nat.eqb]. symmetry. apply (dc_T_last s l F); auto.
  - change (propagate s') with (propagate s). rewrite Pr. destruct Pi as [P1 P2]. constructor.
    + intros a b I. apply Wo. apply P1. exact I.
    + intros r c w x A G W1 W2 D. apply Wo. apply (P2 r c w x); auto.
  - apply clean_assign. destruct Cl as (A & B & C & D & E). unfold clean. cbn. splits; try apply E; auto.
Qed.

(** ** Partial correctness: the computation may run out of fuel, but does nothing undefined. *)
Definition wlp {A} (m : outcome A) (Q : A -> Prop) : Prop :=
  match m with Ret a => Q a | Undef => False | Abort => False | Fuel => True end.
Lemma wlp_wp : forall A B (m : outcome A) (f : A -> outcome B) P Q, wp m P ->
  (forall a, P a -> wlp (f a) Q) -> wlp (obind m f) Q.
Proof. intros A B m f P Q H I. destruct m; cbn in *; auto; contradiction. Qed.
Lemma wlp_bind : forall A B (m : outcome A) (f : A -> outcome B) P Q, wlp m P ->
  (forall a, P a -> wlp (f a) Q) -> wlp (obind m f) Q.
Proof. intros A B m f P Q H I. destruct m; cbn in *; auto. Qed.
Lemma wlp_possible : forall B b (f : unit -> outcome B) Q, (b = true -> wlp (f tt) Q) -> wlp (obind (possible b) f) Q.
Proof. intros B b f Q H. destruct b; cbn; auto. Qed.

Lemma wlp_mono : forall A (m : outcome A) (P Q : A -> Prop), wlp m P -> (forall a, P a -> Q a) -> wlp m Q.
Proof. intros A m P Q H I. destruct m; cbn in *; auto. Qed.

(** ** Analysis *)
Lemma analyze_spec : forall orig o c s s0, propagate_post orig s0 (s, Some c) -> clean (an s0) -> level s = level s0 ->
  inconsistent s0 = false ->
  wp (analyze (analyze_fuel s) o c s) (fun '(go, s') => shape s' = shape s0 /\
    if go : bool then ready orig s' /\ inconsistent s' = false else linv orig s' /\ inconsistent s' = true).
Proof.
  intros orig o c s s0 (Qu & Co & Ok & Post) Cl Lv Ic. rewrite <- Lv in Post. pose proof (qu_shape _ _ Qu) as Vr. unfold analyze.
  destruct (inconsistent s) eqn:I.
  { apply wp_ret. splits; auto. apply Co. }
  destruct (Nat.eqb_spec (level s) 0) as [L0|L0]; [congruence|]. destruct Post as [Ic' P].
  apply wp_bind. eapply wp_mono; [apply (analyze_loop_spec orig o _ (length (trail s)))|].
  - constructor; auto; try lia.
    + intros lits l E Il El. pose proof (co_v _ _ _ Co) as V.
      assert (Fl : values s l = Some false).
      { destruct c as [a b|r]; cbn in E, Ok.
        - inversion E; subst lits. destruct Ok as (_ & A & B). destruct Il as [<-|[<-|[]]]; auto.
        - destruct Ok as (d & Ar & G & Fd). rewrite Ar in E. cbn in E. inversion E; subst. auto. }
      rewrite <- tpos_neg. apply tpos_lt; auto. apply false_on_trail; auto. lia.
    + now apply (qu_clean _ _ Qu).
  - unfold analyze_fuel. lia.
  - intros [[s''|] s'].
    + intros [-> (A & B & D)]. cbn. split; [congruence|]. split; auto. congruence.
    + intros (A & B & D). cbn. split; [congruence|]. auto.
Qed.

(** ** Back to the root level *)
Lemma restart_spec : forall orig k s, propagated orig s -> clean (an s) -> k <= level s ->
  wp (backtrack_in_consistent_state k s) (fun s' => ready orig s' /\ inconsistent s' = inconsistent s /\ shape s' = shape s /\ level s' = k).
Proof.
  intros orig k s (Co & Pr & Pi) Cl K. unfold backtrack_in_consistent_state.
  destruct (Nat.eq_dec k (level s)) as [->|Nk].
  - unfold backtrack. rewrite Nat.leb_refl. cbn [oassert obind]. rewrite Nat.eqb_refl. apply wp_ret. splits; auto.
    unfold ready. rewrite Pr. auto.
  - pose proof (co_f _ _ _ Co) as F. destruct (backtrack_spec orig (length (trail s)) k s Co) as (s' & E & B & C' & P'); try lia.
    + apply pinv_weaken with (length (trail s)); auto. rewrite <- Pr. 
      destruct (le_lt_dec (S k) (level s)) as [X|X]; [|lia].
      etransitivity; [apply (ti_Tmono _ F (S k) (level s)); auto|apply (ti_Tprop _ F)].
    + rewrite E. cbn [wp]. splits; try apply B; [|now apply (bt_shape k)]. unfold ready. splits; auto. now rewrite (bt_an _ _ _ B).
Qed.

Lemma flush_to_root_spec : forall orig o s, propagated orig s -> clean (an s) -> inconsistent s = false ->
  (level s = 0 -> trail s = []) ->
  wp (flush_to_root o s) (fun '(ok, s') => shape s' = shape s /\
    if ok : bool then propagated orig s' /\ clean (an s') /\ inconsistent s' = false /\ trail s' = []
    else linv orig s' /\ inconsistent s' = true).
Proof.
  intros orig o s Pp Cl Ic Tr. unfold flush_to_root. destruct (Nat.ltb_spec 0 (level s)) as [L|L].
  - apply wp_bind. eapply wp_mono; [apply (restart_spec orig 0 s Pp Cl); lia|].
    intros s1 ((Co & Pi & Cl1) & I1 & V1 & L1). apply wp_bind.
    eapply wp_mono; [apply (search_propagate_spec orig o s1 Co Pi)|].
    intros [s2 [c|]] (Qu & Post); apply wp_ret; (split; [rewrite <- V1; apply (qu_shape _ _ Qu)|]).
    + destruct Post as (C2 & _ & P2). rewrite L1 in P2. cbn in P2. split; auto. apply C2.
    + destruct Post as (C2 & I2 & T2). splits; auto; try congruence.
      * now apply (qu_clean _ _ Qu).
      * apply T2. rewrite (qu_level _ _ Qu). auto.
  - apply wp_ret. splits; auto. apply Tr. lia.
Qed.

(** ** Reducing *)
Lemma nodupb_spec : forall l, nodupb l = true -> NoDup l.
Proof.
  induction l as [|x l IH]; intros H; constructor; cbn in H; apply andb_true_iff in H as [A B]; auto.
  intros I. apply negb_true_iff in A. apply Bool.not_true_iff_false in A. apply A, existsb_exists. exists x. split; auto. apply Nat.eqb_refl.
Qed.
Lemma inclb_spec : forall l k, inclb l k = true -> incl l k.
Proof.
  intros l k H x I. unfold inclb in H. rewrite forallb_forall in H. specialize (H x I). apply existsb_exists in H as (y & Y & E).
  apply Nat.eqb_eq in E. now subst.
Qed.

Definition calm (orig : list (list lit)) (s : solver) : Prop := propagated orig s /\ settled s /\ clean (an s).

Lemma mark_garbage_spec : forall orig r s, calm orig s -> reducible s r = true ->
  exists s', mark_garbage r s = Ret s' /\ calm orig s' /\ inconsistent s' = inconsistent s /\ shape s' = shape s /\
    (forall q, q <> r -> reducible s' q = reducible s q).
Proof.
  intros orig r s ((Co & Pr & Pi) & Se & Cl) H. unfold reducible in H. destruct (arena s r) as [c|] eqn:Ar; [|discriminate].
  apply andb_true_iff in H as [H Nr]. apply andb_true_iff in H as [Rd G]. apply negb_true_iff in G, Nr.
  exists (trashed r c s). split; [now apply mark_garbage_eq|].
  assert (C' : core orig (length (trail s)) (trashed r c s)).
  { apply core_trashed; auto.
    - intros l I _ _ _. rewrite is_reason_false in Nr. auto.
    - congruence. }
  splits; auto.
  - unfold calm, propagated. splits; auto. now apply pinv_trashed.
  - intros q Nq. unfold reducible. cbn [trashed]. unfold trashed. cbn. rewrite upd_other by auto. reflexivity.
Qed.

Lemma mark_all_spec : forall orig vs s, calm orig s -> NoDup vs -> forallb (reducible s) vs = true ->
  exists s', ofold mark_garbage vs s = Ret s' /\ calm orig s' /\ inconsistent s' = inconsistent s /\ shape s' = shape s.
Proof.
  intros orig. induction vs as [|r vs IH]; intros s Ca Nd H; cbn [ofold]; eauto.
  cbn in H. apply andb_true_iff in H as [H1 H2]. inversion Nd; subst.
  destruct (mark_garbage_spec orig r s Ca H1) as (s1 & E & C1 & I1 & V1 & R1). rewrite E. cbn [obind].
  destruct (IH s1 C1) as (s2 & E2 & C2 & I2 & V2); auto.
  { rewrite forallb_forall in *. intros q Iq. rewrite R1; auto. congruence. }
  exists s2. splits; auto; congruence.
Qed.

(** What garbage collection does not change. *)
Definition kept_fields (s s' : solver) : Prop :=
  inconsistent s' = inconsistent s /\ shape s' = shape s /\ iterating s' = iterating s /\ trail s' = trail s /\ level s' = level s /\ values s' = values s.
Lemma ofold_kept : forall A (f : A -> solver -> outcome solver),
  (forall a s s', f a s = Ret s' -> kept_fields s s') -> forall l s s', ofold f l s = Ret s' -> kept_fields s s'.
Proof.
  intros A f H. induction l as [|a l IH]; intros s s' E; cbn in E.
  - inversion E; subst. unfold kept_fields; auto 10.
  - destruct (f a s) as [s1| | |] eqn:E1; try discriminate. cbn in E. apply H in E1. apply IH in E.
    unfold kept_fields in *. intuition congruence.
Qed.
Lemma sweep_kept : forall marked r s s', sweep_clause marked r s = Ret s' -> kept_fields s s'.
Proof.
  intros marked r s s' E. unfold sweep_clause in E. destruct (arena s r) as [c|]; [|inversion E; unfold kept_fields; auto 10].
  destruct (c_garbage c); [inversion E; unfold kept_fields; cbn; auto 10|].
  destruct (existsb (root_true s) (c_lits c)).
  { destruct (marked r); cbn in E; [discriminate|]. inversion E; unfold kept_fields; cbn; auto 10. }
  set (kept := filter _ _) in E.
  match type of E with obind ?m _ = _ => destruct m as [s1| | |] eqn:E1; try discriminate end. cbn [obind] in E.
  assert (K : kept_fields s s1).
  { destruct kept as [|a [|b [|d rest]]]; try discriminate.
    - destruct (marked r); [|inversion E1; unfold kept_fields; cbn; auto 10].
      destruct (values s a) as [[]|]; try discriminate; destruct (values s b) as [[]|]; try discriminate;
        inversion E1; unfold kept_fields; cbn; auto 10.
    - match type of E1 with obind ?m _ = _ => destruct m as [[]| | |]; try discriminate end.
      inversion E1; unfold kept_fields; cbn; auto 10. }
  destruct (length kept =? length (c_lits c)); inversion E; subst; unfold kept_fields in *; cbn; auto.
Qed.
Lemma rewatch_kept : forall r s s', rewatch_clause r s = Ret s' -> kept_fields s s'.
Proof.
  intros r s s' E. unfold rewatch_clause in E. destruct (arena s r) as [c|]; [|inversion E; unfold kept_fields; auto 10].
  destruct (sort_literals s (c_lits c)) as [|l0 [|l1 rest]]; try discriminate. inversion E; unfold kept_fields; cbn; auto 10.
Qed.
Lemma flush_kept : forall visit l s s', flush_watched_clauses_by_literal visit l s = Ret s' -> kept_fields s s'.
Proof.
  intros visit l s s' E. unfold flush_watched_clauses_by_literal in E.
  destruct (forallb _ _); cbn [oassert obind] in E; [|discriminate]. inversion E; unfold kept_fields; cbn; auto 10.
Qed.
Lemma sparse_collect_kept : forall visit moved s s', sparse_collect visit moved s = Ret s' -> kept_fields s s'.
Proof.
  intros visit moved s s' E. unfold sparse_collect in E.
  destruct (flush_all_watched_clauses visit s) as [s1| | |] eqn:E1; try discriminate. cbn [obind] in E.
  unfold sparse_sweep_garbage_clauses in E.
  destruct (ofold (sweep_clause (is_reason s1)) visit s1) as [s2| | |] eqn:E2; try discriminate. cbn [obind] in E.
  apply (ofold_kept _ _ (flush_kept visit)) in E1. apply (ofold_kept _ _ (sweep_kept (is_reason s1))) in E2.
  apply (ofold_kept _ _ rewatch_kept) in E. unfold kept_fields, shape in *. cbn in *. intuition congruence.
Qed.

Lemma collect_calm : forall orig visit moved s, calm orig s -> NoDup visit -> NoDup moved -> (forall r, In r visit <-> In r moved) ->
  wp (sparse_collect visit moved s) (fun s' => calm orig s' /\ kept_fields s s').
Proof.
  intros orig visit moved s (P & Se & Cl) Nv Nm E.
  pose proof (sparse_collect_spec orig visit moved s P Se Cl Nv Nm E) as H. apply wp_inv in H as (s' & Es & H).
  rewrite Es. cbn [wp]. split; [exact H|]. eapply sparse_collect_kept; eauto.
Qed.

Lemma calm_bigbig : forall orig bb s, propagated orig s -> propagated orig (set_bigbig bb s).
Proof.
  intros orig bb s ([V F C W L Rr] & Pr & Pi). unfold propagated. splits; auto.
  - constructor; auto.
    + destruct V; constructor; auto.
    + destruct F; constructor; auto.
    + destruct C; constructor; auto.
    + destruct L; constructor; auto.
    + eapply agree_rinv; [|exact Rr]. constructor; reflexivity.
  - eapply agree_pinv; [|exact Pi]. constructor; reflexivity.
Qed.
Lemma ready_bigbig : forall orig bb s, ready orig s -> ready orig (set_bigbig bb s).
Proof.
  intros orig bb s ([V F C W L Rr] & Pi & Cl). unfold ready. splits; auto.
  - constructor; auto.
    + destruct V; constructor; auto.
    + destruct F; constructor; auto.
    + destruct C; constructor; auto.
    + destruct L; constructor; auto.
    + eapply agree_rinv; [|exact Rr]. constructor; reflexivity.
  - eapply agree_pinv; [|exact Pi]. constructor; reflexivity.
Qed.

Lemma reduce_spec : forall orig o r bb s, propagated orig s -> clean (an s) -> inconsistent s = false ->
  (level s = 0 -> trail s = []) ->
  wlp (reduce o r bb s) (fun '(ok, s') => shape s' = shape s /\
    if ok : bool then propagated orig s' /\ clean (an s') /\ inconsistent s' = false else linv orig s' /\ inconsistent s' = true).
Proof.
  intros orig o r bb s Pp Cl Ic Tr.
  assert (Pre : wp (if 0 <? unflushed s then flush_to_root o s else Ret (true, s)) (fun '(ok, s') => shape s' = shape s /\
    if ok : bool then calm orig s' /\ inconsistent s' = false else linv orig s' /\ inconsistent s' = true)).
  { destruct (Nat.ltb_spec 0 (unflushed s)) as [U|U].
    - eapply wp_mono; [apply flush_to_root_spec; eauto|]. intros [[] s'] (V' & H); split; auto.
      destruct H as (A & B & C & D). unfold calm, settled. rewrite D. splits; auto. intros l [].
    - apply wp_ret. splits; auto. unfold calm. splits; auto. apply unflushed_settled; [apply Pp|lia]. }
  unfold reduce. destruct r as [| |visit moved victims].
  - cbn. splits; auto. now apply calm_bigbig.
  - eapply wlp_wp; [exact Pre|]. intros [[] s1] (V1 & H); cbn [negb]; cbn; splits; auto; try apply H.
    apply calm_bigbig. apply H.
  - eapply wlp_wp; [exact Pre|]. intros [[] s1] (V1 & H); cbn [negb]; [|cbn; auto].
    apply wlp_possible. intros B. repeat (apply andb_true_iff in B as [B ?]). destruct H as [Ca I1].
    destruct (mark_all_spec orig victims s1 Ca) as (s2 & E2 & C2 & I2 & V2); [now apply nodupb_spec|auto|].
    rewrite E2. cbn [obind].
    eapply wlp_wp; [apply (collect_calm orig visit moved s2 C2)|].
    + now apply nodupb_spec.
    + now apply nodupb_spec.
    + intros x. split; apply inclb_spec; auto.
    + intros s3 (C3 & K3 & K4 & _). cbn. change (shape (set_bigbig bb s3)) with (shape s3). splits; try congruence; [apply calm_bigbig|]; apply C3.
Qed.

(** ** Transitive reduction and probing *)
Lemma flush_to_root_thinned : forall orig o s ok s', propagated orig s -> clean (an s) -> flush_to_root o s = Ret (ok, s') -> thinned s s'.
Proof.
  intros orig o s ok s' (Co & Pr & Pi) Cl E. unfold flush_to_root in E. destruct (Nat.ltb_spec 0 (level s)) as [L|L]; [|inversion E; apply thinned_refl].
  unfold backtrack_in_consistent_state in E.
  destruct (backtrack_eq 0 s (co_v _ _ _ Co) (co_f _ _ _ Co) L) as (s1 & E1 & B). rewrite E1 in E. cbn [obind] in E.
  pose proof (restart_spec orig 0 s (conj Co (conj Pr Pi)) Cl ltac:(lia)) as R. unfold backtrack_in_consistent_state in R. rewrite E1 in R. cbn [wp] in R.
  destruct R as ((Co1 & Pi1 & Cl1) & _).
  destruct (search_propagate o s1) as [[s2 confl]| | |] eqn:E2; try discriminate. cbn [obind] in E. injection E as _ <-.
  pose proof (search_propagate_spec orig o s1 Co1 Pi1) as Po. rewrite E2 in Po. cbn [wp] in Po. destruct Po as [Qu _].
  apply thinned_trans with s1; [|apply (thinned_propagate o s1 s2 confl); auto; apply Co1]. apply thinned_same.
  - intros a b. unfold binary. now rewrite (bt_watches _ _ _ B).
  - intros r. rewrite (bt_arena _ _ _ B). apply clause_sim_refl.
  - intros l b H H0. rewrite (bt_values _ _ _ B), (bt_lev _ _ _ B), H0. cbn. auto.
Qed.
Lemma transitive_probes_spec : forall orig o probes s, at_root orig s ->
  wlp (reduce_probes o probes s) (fun s' => shape s' = shape s /\ thinned s s' /\ if inconsistent s' then linv orig s' else at_root orig s').
Proof.
  intros orig o. induction probes as [|[l k] probes IH]; intros s Ro; cbn [reduce_probes].
  { cbn. splits; auto using thinned_refl. pose proof Ro as (_ & _ & -> & _). exact Ro. }
  apply wlp_possible. intros B. apply andb_true_iff in B as [B1 B2]. apply Nat.ltb_lt in B1.
  destruct (is_unassigned s l) eqn:U; cbn [negb]; [|now apply IH]. apply is_unassigned_spec in U.
  eapply wlp_wp; [apply (transitive_reduce_spec orig o l k s Ro U (conj B1 B2))|]. intros s1 (Sh & Th & H).
  destruct (inconsistent s1) eqn:I1; [cbn; rewrite I1; auto|]. eapply wlp_mono; [apply IH; auto|]. cbn beta. intros s2 (Sh2 & Th2 & H2).
  splits; [congruence|eapply thinned_trans; eauto|auto].
Qed.
Lemma transitive_reduction_spec : forall orig o probes s, at_root orig s ->
  wlp (transitive_reduction o probes s) (fun s' => shape s' = shape s /\ thinned s s' /\ if inconsistent s' then linv orig s' else at_root orig s').
Proof.
  intros orig o probes s Ro. unfold transitive_reduction. pose proof Ro as (_ & _ & -> & _ & ->). cbn [Nat.eqb oassert obind].
  eapply wlp_mono; [apply (transitive_probes_spec orig o probes (prioritize_binaries s)); now apply prioritized_root|].
  cbn beta. intros s2 (Sh & Th & H). splits; auto. eapply thinned_trans; [apply prioritized_thinned|exact Th].
Qed.
Definition probed (orig : list (list lit)) (s : solver) (res : bool * solver) : Prop :=
  let '(ok, s') := res in shape s' = shape s /\ thinned s s' /\
  if ok : bool then if inconsistent s' then linv orig s' else propagated orig s' /\ clean (an s') /\ (level s' = 0 -> trail s' = [])
  else linv orig s' /\ inconsistent s' = true.
Lemma backbone_wlp : forall orig o rounds s, (if inconsistent s then linv orig s else at_root orig s) ->
  wlp (binary_clauses_backbone o rounds s) (fun s' => shape s' = shape s /\ thinned s s' /\ if inconsistent s' then linv orig s' else at_root orig s').
Proof.
  intros orig o rounds s H. destruct (inconsistent s) eqn:I.
  - unfold binary_clauses_backbone. rewrite I. cbn. rewrite I. auto using thinned_refl.
  - destruct (backbone_spec orig o rounds s H) as (A & B & _ & C). destruct (binary_clauses_backbone o rounds s) as [s'| | |]; cbn; try congruence; auto.
    destruct (C s' eq_refl) as (X & Y & Z). splits; auto. now apply untouched_thinned.
Qed.
Lemma probe_spec : forall orig o p s, propagated orig s -> clean (an s) -> inconsistent s = false -> (level s = 0 -> trail s = []) ->
  wlp (probe o p s) (probed orig s).
Proof.
  intros orig o p s Pp Cl Ic Tr. unfold probe.
  assert (Fl : wp (flush_to_root o s) (fun '(ok, s') => shape s' = shape s /\ thinned s s' /\ if ok : bool then at_root orig s' else linv orig s' /\ inconsistent s' = true)).
  { pose proof (flush_to_root_spec orig o s Pp Cl Ic Tr) as H. pose proof (fun ok t => flush_to_root_thinned orig o s ok t Pp Cl) as Th. pose proof (Levels.flush_to_root_level o s) as Lv.
    destruct (flush_to_root o s) as [[[] s1]| | |]; cbn in *; auto.
    - destruct H as (A & B & C & D & E). splits; eauto. unfold at_root. auto.
    - destruct H as (A & B1 & B2). splits; eauto. }
  eapply wlp_wp; [exact Fl|]. intros [[] s1] (V1 & Th1 & H); cbn [negb]; [|cbn; auto].
  eapply wlp_bind; [apply (backbone_wlp orig o (pl_first p) s1); pose proof H as (_ & _ & -> & _); exact H|]. intros s2 (V2 & Th2 & H2).
  assert (T3 : wlp (transitive_reduction o (pl_transitive p) s2) (fun s' => shape s' = shape s2 /\ thinned s2 s' /\ if inconsistent s' then linv orig s' else at_root orig s')).
  { destruct (inconsistent s2) eqn:I2; [|now apply transitive_reduction_spec]. unfold transitive_reduction. rewrite I2. cbn. rewrite I2. auto using thinned_refl. }
  eapply wlp_bind; [exact T3|]. intros s3 (V3 & Th3 & H3).
  eapply wlp_bind; [apply (backbone_wlp orig o (pl_second p) s3 H3)|]. intros s4 (V4 & Th4 & H4).
  cbn. splits; [congruence|eauto using thinned_trans|].
  destruct (inconsistent s4); auto. destruct H4 as (A & B & C & D & E). auto.
Qed.
Lemma probe_rounds_spec : forall orig o rounds s, propagated orig s -> clean (an s) -> inconsistent s = false -> (level s = 0 -> trail s = []) ->
  wlp (probe_rounds o rounds s) (probed orig s).
Proof.
  intros orig o. induction rounds as [|probes rounds IH]; intros s Pp Cl Ic Tr; cbn [probe_rounds].
  { cbn. rewrite Ic. auto using thinned_refl. }
  eapply wlp_bind; [apply (probe_spec orig o probes s Pp Cl Ic Tr)|]. intros [[] s1] (V1 & Th1 & H); cbn [negb]; [|cbn; auto].
  destruct (inconsistent s1) eqn:I1; cbn [orb]; [cbn; rewrite I1; auto|].
  destruct (count_live s =? count_live s1); [cbn; rewrite I1; auto|].
  destruct H as (A & B & C). eapply wlp_mono; [apply IH; auto|]. intros [ok s2] (V2 & Th2 & H2). cbn. splits; [congruence|eapply thinned_trans; eauto|exact H2].
Qed.
Lemma kissat_probe_spec : forall orig o rounds bb s, propagated orig s -> clean (an s) -> inconsistent s = false -> (level s = 0 -> trail s = []) ->
  wlp (kissat_probe o rounds bb s) (probed orig s).
Proof.
  intros orig o rounds bb s Pp Cl Ic Tr. unfold kissat_probe. eapply wlp_bind; [apply (probe_rounds_spec orig o rounds s); auto|].
  intros [ok s1] (V1 & Th1 & H). cbn. splits; [exact V1| |].
  { eapply thinned_trans; [exact Th1|]. apply thinned_same; [reflexivity|intros r; apply clause_sim_refl|auto]. }
  assert (X : forall t, linv orig t -> linv orig (set_bigbig bb t)) by (intros t []; constructor; auto).
  destruct ok; [destruct (inconsistent s1)|]; [auto| |destruct H; auto]. destruct H as (A & B & C). splits; auto. now apply calm_bigbig.
Qed.

(** ** The loop *)
Definition result_ok (orig : list (list lit)) (n : nat * (nat -> bool)) (r : result) : Prop :=
  match r with
  | RSat s => propagated orig s /\ unassigned s = 0 /\ inconsistent s = false /\ shape s = n
  | RUnsat s | RIgnored s => linv orig s /\ inconsistent s = true /\ shape s = n
  | RStopped s => propagated orig s /\ clean (an s) /\ inconsistent s = false /\ shape s = n
  end.

Definition step_ok (orig : list (list lit)) (n : nat * (nat -> bool)) (p : progress) : Prop :=
  match p with Go s => ready orig s /\ inconsistent s = false /\ shape s = n | Done r => result_ok orig n r end.
Lemma search_step_spec : forall orig o ch s, ready orig s -> inconsistent s = false ->
  wlp (search_step o ch s) (step_ok orig (shape s)).
Proof.
  intros orig o ch s Re Ic. unfold search_step.
  destruct Re as (Co & Pi & Cl).
  assert (Next : forall t, propagated orig t -> clean (an t) -> inconsistent t = false -> shape t = shape s ->
    step_ok orig (shape s) (Go t)).
  { intros t (A & B & C) D E G. cbn. unfold ready. splits; auto. now rewrite B. }
  eapply wlp_wp; [apply (search_propagate_spec orig o s Co Pi)|].
  intros [s1 [c|]] Post.
  - eapply wlp_wp; [apply (analyze_spec orig o c s1 s Post Cl)|]; auto.
    { apply (qu_level _ _ (proj1 Post)). }
    intros [[] s2] (V2 & H).
    + destruct H. cbn. auto.
    + cbn. splits; auto; apply H.
  - destruct Post as (Qu & Pp & I1 & T1). pose proof (qu_shape _ _ Qu) as V1. pose proof (qu_clean _ _ Qu Cl) as Cl1. rewrite Ic in I1.
    destruct (iterating s1).
    { cbn. splits; auto. destruct Pp as (A & B & C). unfold ready. splits; auto.
      - now apply core_set_iterating.
      - apply (agree_pinv _ s1); [constructor; reflexivity|]. cbn. now rewrite B. }
    destruct (Nat.eqb_spec (unassigned s1) 0) as [U|U]; [cbn; auto|].
    destruct ch as [|r bb|lvl| |rounds bb| |l].
    + cbn. auto.
    + eapply wlp_bind; [apply (reduce_spec orig o r bb s1 Pp Cl1 I1 T1)|].
      intros [[] s2] (V2 & H).
      * destruct H as (A & B & C). apply Next; auto. congruence.
      * cbn. splits; try apply H. congruence.
    + apply wlp_possible. intros B. apply Nat.leb_le in B.
      eapply wlp_wp; [apply (restart_spec orig lvl s1 Pp Cl1 B)|]. intros s2 (R2 & I2 & V2 & _). cbn. splits; auto; congruence.
    + eapply wlp_wp; [apply (flush_to_root_spec orig o s1 Pp Cl1 I1 T1)|].
      intros [[] s2] (V2 & H).
      * destruct H as (A & B & C & _). apply Next; auto. congruence.
      * cbn. splits; try apply H. congruence.
    + eapply wlp_bind; [apply (kissat_probe_spec orig o rounds bb s1 Pp Cl1 I1 T1)|].
      intros [[] s2] (V2 & _ & H).
      * destruct (inconsistent s2) eqn:I2; [cbn; splits; auto; congruence|]. destruct H as (A & B & _). apply Next; auto. congruence.
      * cbn. splits; try apply H. congruence.
    + apply Next; auto.
    + apply wlp_possible. intros B. apply andb_true_iff in B as [B1 B2]. apply andb_true_iff in B1 as [B1 B3]. apply Nat.ltb_lt in B1. apply is_unassigned_spec in B2.
      eapply wlp_wp; [apply (decide_spec orig l s1 Pp Cl1 B2 (conj B1 B3))|]. intros s2 (R2 & I2 & V2). cbn. splits; auto; congruence.
Qed.
Theorem search_loop_spec : forall orig o fuel choices s, ready orig s -> inconsistent s = false ->
  wlp (search_loop fuel o choices s) (result_ok orig (shape s)).
Proof.
  intros orig o. induction fuel as [|fuel IH]; intros choices s Re Ic; [exact I|]. cbn [search_loop].
  eapply wlp_bind; [apply (search_step_spec orig o (choices 0) s Re Ic)|]. intros [s1|r]; cbn [step_ok]; auto.
  intros (A & B & <-). now apply IH.
Qed.

Theorem search_spec : forall orig fuel o choices bb s, ready orig s ->
  wlp (search fuel o choices bb s) (result_ok orig (shape s)).
Proof.
  intros orig fuel o choices bb s Re. unfold search. destruct (inconsistent s) eqn:I.
  - cbn. splits; auto. apply Re.
  - apply (search_loop_spec orig o fuel choices (set_bigbig bb s)); auto. now apply ready_bigbig.
Qed.

(** ** The model found *)
Definition model (s : solver) : assignment := fun i => match values s (2 * i) with Some b => b | None => false end.

Lemma all_assigned : forall s l, vinv s -> unassigned s = 0 -> dom s l -> values s l <> None.
Proof. intros s l V U R N. pose proof (unassigned_pos s l V N R). lia. Qed.
Lemma model_true : forall s l, vinv s -> values s l = Some true -> tr (model s) l = true.
Proof.
  intros s l V E. unfold tr, model, negated, Nat.odd. destruct (lit_cases l) as [[k ->]|[k ->]].
  - now rewrite even_double, idx_even, E.
  - rewrite even_double1, idx_odd. pose proof (ti_neg _ V (S (2 * k))) as H. rewrite neg_odd, E in H. cbn [option_map negb] in H. now rewrite H.
Qed.

Lemma sat_any : forall orig s v, propagated orig s -> unassigned s = 0 -> (forall l, values s l = Some true -> tr v l = true) -> sat v orig.
Proof.
  intros orig s v (Co & Pr & Pi) U Hv. pose proof (co_v _ _ _ Co) as V. apply (li_models _ _ (co_l _ _ _ Co)).
  assert (Bo : forall c w x, watched_ok s (length (trail s)) c w x -> In w c -> In x c -> dom s w -> dom s x -> sat_clause (v) c).
  { intros c w x [B _] Iw Ix Rw Rx.
    assert (Bf : forall y, before s y (length (trail s))) by (intros y I; rewrite <- tpos_neg; now apply tpos_lt).
    destruct (values s w) as [[]|] eqn:Ew; [exists w; split; auto; now apply Hv| |now apply all_assigned in Ew].
    destruct (values s x) as [[]|] eqn:Ex; [exists x; split; auto; now apply Hv| |now apply all_assigned in Ex].
    destruct (B Ew (Bf w) Ex (Bf x) (level s)) as (t & It & Tt & _); auto. exists t. split; auto. }
  intros c I. apply in_irr in I as [I|[I|(r & d & A1 & A2 & A3 & A4 & A5)]].
  - apply in_root_units in I as (l & -> & _ & T1 & _). exists l. split; [now left|]. now apply Hv.
  - apply in_binaries in I as (a & b & D1 & D2 & D3 & D4). destruct (wi_bin _ _ _ _ _ (co_w _ _ _ Co) a b D4) as (X1 & X2 & X3).
    subst c. apply (Bo [a; b] a b); cbn; auto. now apply (pi_bin _ _ Pi).
  - subst c. pose proof (ci_len _ (co_c _ _ _ Co) r d A2 A3) as Ln. destruct (c_lits d) as [|w [|x rest]] eqn:E; try (cbn in Ln; lia).
    apply (Bo _ w x); cbn; auto.
    + rewrite <- E. apply (pi_large _ _ Pi r d w x); auto; [left|right|]; rewrite ?E; auto.
      pose proof (ci_nodup _ (co_c _ _ _ Co) r d A2 A3) as Nd. rewrite E in Nd. inversion Nd; subst. intros ->. apply H1. now left.
    + apply (ci_range _ (co_c _ _ _ Co) r d w); auto. rewrite E. now left.
    + apply (ci_range _ (co_c _ _ _ Co) r d x); auto. rewrite E. right. now left.
Qed.
Lemma sat_found : forall orig s, propagated orig s -> unassigned s = 0 -> sat (model s) orig.
Proof. intros orig s P U. apply (sat_any orig s); auto. intros l. apply model_true, P. Qed.

Lemma unsat_found : forall orig s, linv orig s -> inconsistent s = true -> forall v, ~ sat v orig.
Proof.
  intros orig s L I v Sv. pose proof (proof_ok_sat _ _ v (li_proof _ _ L) Sv) as H.
  pose proof (li_empty _ _ L I) as E. apply cnt_pos in E as (d & D & E). destruct (H d D) as (l & Il & _). apply E in Il. destruct Il.
Qed.
