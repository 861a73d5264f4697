(** Propagation keeps the invariants. *)
From Coq Require Import ZArith List Bool Lia Arith Permutation.
From Coq Require Import ZifyBool ZifyNat.
From Verif Require Import Base Hoare SpecSat Lit Sem Solver Inv DbFacts AssignFacts AssignSpec BacktrackFacts.
Import ListNotations.
Open Scope nat_scope.

(** ** Reordering literals and changing watches *)
Definition is_bin (w : watch) : bool := match w with WBinary _ => true | _ => false end.
Lemma in_bins : forall o ws, In (WBinary o) ws <-> In (WBinary o) (filter is_bin ws).
Proof. intros o ws. rewrite filter_In. cbn. tauto. Qed.
Lemma binary_of_bins : forall a ws, flat_map (binary_of a) ws = flat_map (binary_of a) (filter is_bin ws).
Proof.
  intros a. induction ws as [|w ws IH]; auto. cbn [flat_map filter]. destruct w as [o|b r]; cbn [is_bin].
  - cbn [flat_map]. now rewrite IH.
  - exact IH.
Qed.

Definition clause_sim (a b : option clause) : Prop :=
  match a, b with
  | None, None => True
  | Some c, Some d => c_garbage c = c_garbage d /\ c_redundant c = c_redundant d /\ Permutation (c_lits c) (c_lits d)
  | _, _ => False
  end.
Lemma clause_sim_refl : forall a, clause_sim a a.
Proof. intros [c|]; cbn; auto. Qed.
Lemma clause_sim_trans : forall a b c, clause_sim a b -> clause_sim b c -> clause_sim a c.
Proof.
  intros [a|] [b|] [c|]; cbn; try tauto. intros (A & B & C) (D & E & F). splits; try congruence.
  eapply perm_trans; eauto.
Qed.

Lemma vinv_watches : forall W s, vinv s -> vinv (set_watches W s).
Proof. intros W s [A B C D E F G H I J]. constructor; auto. Qed.
Lemma finv_watches : forall W s, finv s -> finv (set_watches W s).
Proof. intros W s [A B C D E F]. constructor; auto. Qed.

Definition rearranged (W : lit -> list watch) (ar : nat -> option clause) (s : solver) : solver :=
  set_watches W (set_arena ar s).

Lemma core_rearranged : forall orig p s W ar, core orig p s ->
  (forall r, clause_sim (arena s r) (ar r)) -> winv (rooted s) (vars s) (active s) ar W ->
  (forall l, filter is_bin (W l) = filter is_bin (watches s l)) ->
  (forall l r c, In l (trail s) -> reas s l = RClause r -> arena s r = Some c -> reason_clause_ok s l c -> ar r = Some c) ->
  core orig p (rearranged W ar s).
Proof.
  intros orig p s W ar [V F C Wi L R] Sim Wi' Bins Rs.
  assert (Bl : forall r, forall c, cnt c (lits_of (ar r)) = cnt c (lits_of (arena s r))).
  { intros r c. specialize (Sim r). destruct (arena s r) as [a|], (ar r) as [b|]; cbn in Sim; try tauto.
    destruct Sim as (A & _ & P). cbn [lits_of]. rewrite A. destruct (c_garbage b); auto.
    rewrite !cnt_cons. f_equal. f_equal. apply set_eqb_same_r. apply same_literals_sym, same_literals_perm, P. }
  assert (Bi : forall r, forall c, cnt c (irredundant_of (ar r)) = cnt c (irredundant_of (arena s r))).
  { intros r c. specialize (Sim r). destruct (arena s r) as [a|], (ar r) as [b|]; cbn in Sim; try tauto.
    destruct Sim as (A & A' & P). cbn [irredundant_of]. rewrite A, A'. destruct (c_garbage b || c_redundant b); auto.
    rewrite !cnt_cons. f_equal. f_equal. apply set_eqb_same_r. apply same_literals_sym, same_literals_perm, P. }
  assert (Bb : forall c, cnt c (binaries (vars s) W) = cnt c (binaries (vars s) (watches s))).
  { intros c. apply cnt_binaries_same. intros a _. now rewrite binary_of_bins, Bins, <- binary_of_bins. }
  constructor; auto.
  - destruct V. constructor; auto.
  - destruct F. constructor; auto.
  - assert (X : forall r c, ar r = Some c -> exists d, arena s r = Some d /\ c_garbage d = c_garbage c /\ Permutation (c_lits d) (c_lits c)).
    { intros r c E. specialize (Sim r). rewrite E in Sim. destruct (arena s r) as [d|]; cbn in Sim; [|tauto]. exists d. tauto. }
    destruct C as [C1 C2 C3 C4 C5]. constructor; cbn [rearranged set_watches set_arena arena next_ref vars last_learned].
    + intros r E. apply C1. destruct (ar r) as [c|] eqn:Er; [|congruence]. destruct (X r c Er) as (d & -> & _). discriminate.
    + intros r c E G. destruct (X r c E) as (d & D & G' & P). rewrite <- (Permutation_length P). apply (C2 r d D). congruence.
    + intros r c E G. destruct (X r c E) as (d & D & G' & P). apply (Permutation_NoDup P), (C3 r d D). congruence.
    + intros r c l E G I. destruct (X r c E) as (d & D & G' & P). apply (C4 r d l D); [congruence|].
      eapply Permutation_in; [apply Permutation_sym, P|]. auto.
    + intros r I. specialize (C5 r I). specialize (Sim r). destruct (arena s r), (ar r); cbn in Sim; congruence || tauto.
  - apply linv_same with s; auto.
    + intros c. rewrite !cnt_db. change (root_units (rearranged W ar s)) with (root_units s).
      cbn [rearranged set_watches set_arena vars watches next_ref arena]. rewrite Bb.
      enough (cnt c (larges (next_ref s) ar) = cnt c (larges (next_ref s) (arena s))) by lia.
      apply cnt_flat_ext. intros i _. apply Bl.
    + apply sat_irr_covers. apply msub_covers. intros c. unfold irr.
      change (root_units (rearranged W ar s)) with (root_units s).
      cbn [rearranged set_watches set_arena vars watches next_ref arena]. rewrite !cnt_app, Bb.
      enough (cnt c (irredundants (next_ref s) ar) = cnt c (irredundants (next_ref s) (arena s))) by lia.
      apply cnt_flat_ext. intros i _. apply Bi.
  - intros l I Lv Hp. specialize (R l I Lv Hp). unfold reason_ok in *.
    change (reas (rearranged W ar s) l) with (reas s l). destruct (reas s l) as [| |o|r] eqn:E; auto.
    + destruct R as (R1 & R2 & R3 & R4). splits; auto. clear - R4 Bins.
      induction R4 as [l o I|l m o I Fm E P IH].
      * apply bpath_one. cbn. rewrite in_bins, Bins, <- in_bins. auto.
      * apply bpath_step with m; auto. cbn. rewrite in_bins, Bins, <- in_bins. auto.
    + destruct R as (c & A & Ok). exists c. split; auto. eapply Rs; eauto.
Qed.

(** ** Delayed watches *)
Definition pd (delayed : list (lit * watch)) (W : lit -> list watch) : lit -> list watch :=
  fold_left (fun W d => upd W (fst d) (W (fst d) ++ [snd d])) delayed W.
Lemma pd_snoc : forall d e W, pd (d ++ [e]) W = upd (pd d W) (fst e) (pd d W (fst e) ++ [snd e]).
Proof. intros d e W. unfold pd. rewrite fold_left_app. reflexivity. Qed.
Lemma push_delayed_eq : forall d s, push_delayed d s = set_watches (pd d (watches s)) s.
Proof.
  induction d as [|e d IH]; intros s; cbn.
  - destruct s; reflexivity.
  - change (push_delayed d (push_watch (fst e) (snd e) s) = set_watches (pd d (upd (watches s) (fst e) (watches s (fst e) ++ [snd e]))) s).
    rewrite IH. reflexivity.
Qed.
Lemma pd_ext : forall d W W', (forall l, W l = W' l) -> forall l, pd d W l = pd d W' l.
Proof.
  induction d as [|e d IH]; intros W W' H l; cbn; auto. apply IH. intros k. unfold upd.
  destruct (k =? fst e); [f_equal|]; apply H.
Qed.
Lemma pd_upd : forall d W n L, (forall e, In e d -> fst e <> n) -> forall l, pd d (upd W n L) l = upd (pd d W) n L l.
Proof.
  induction d as [|e d IH]; intros W n L H l; [reflexivity|]. cbn [pd fold_left]. fold (pd d).
  assert (N : fst e <> n) by (apply H; now left).
  rewrite <- IH by (intros x X; apply H; now right). apply pd_ext. intros k. unfold upd.
  destruct (Nat.eqb_spec k (fst e)) as [E|K]; destruct (Nat.eqb_spec k n) as [E'|K']; try congruence; auto.
  destruct (Nat.eqb_spec (fst e) n); [congruence|]. reflexivity.
Qed.

(** The state with the watches that the lists [L] and [delayed] stand for. *)
Definition vst (n : lit) (L : list watch) (delayed : list (lit * watch)) (s : solver) : solver :=
  set_watches (upd (pd delayed (watches s)) n L) s.

(** ** Growing states *)
Definition clean (a : analysis) : Prop :=
  (forall i, analyzed a i = false) /\ (forall i, removable a i = false) /\
  (forall i, poisoned a i = false) /\ (forall i, shrinkable a i = false) /\
  astack a = [] /\ rstack a = [] /\ pstack a = [] /\ sstack a = [] /\ an_clause a = [] /\ an_levels a = [].

Record grows (s s' : solver) : Prop := {
  gr_vars : vars s' = vars s; gr_active : active s' = active s; gr_level : level s' = level s; gr_frames : frames s' = frames s;
  gr_prop : propagate s' = propagate s;
  gr_last : last_learned s' = last_learned s; gr_inc : inconsistent s' = inconsistent s;
  gr_iter : iterating s' = iterating s; gr_big : bigbig s' = bigbig s; gr_next : next_ref s' = next_ref s;
  gr_values : forall l b, values s l = Some b -> values s' l = Some b /\ lev s' l = lev s l /\ tpos s' l = tpos s l;
  gr_trail : exists t, trail s' = trail s ++ t;
  gr_clean : clean (an s) -> clean (an s');
  gr_arena : forall r, clause_sim (arena s r) (arena s' r) }.

Lemma grows_refl : forall s, grows s s.
Proof.
  intros s. constructor; auto.
  - exists []. now rewrite app_nil_r.
  - intros r. apply clause_sim_refl.
Qed.
Lemma grows_trans : forall a b c, grows a b -> grows b c -> grows a c.
Proof.
  intros a b c A B. destruct A, B. constructor; try congruence; auto.
  - intros l x H. destruct (gr_values0 l x H) as (A1 & A2 & A3). destruct (gr_values1 l x A1) as (B1 & B2 & B3).
    splits; congruence.
  - destruct gr_trail0 as [t E], gr_trail1 as [u E']. exists (t ++ u). rewrite E', E, app_assoc. reflexivity.
  - intros r. eapply clause_sim_trans; eauto.
Qed.
Lemma grows_watches : forall W s, grows s (set_watches W s).
Proof.
  intros W s. constructor; auto.
  - exists []. now rewrite app_nil_r.
  - intros r. apply clause_sim_refl.
Qed.
Lemma clean_clear_marks : forall i a, clean a -> clean (clear_marks i a).
Proof.
  intros i a (A & B & C & D & E). unfold clear_marks. unfold clean. cbn. splits; try apply E;
    intros j; unfold upd; destruct (j =? i); auto.
Qed.
Lemma grows_assign : forall lvl r l s, vinv s -> values s l = None -> grows s (do_assign lvl r l s).
Proof.
  intros lvl r l s V N. constructor; auto.
  - intros k b H. assert (idx k <> idx l) by (apply (da_old s l); auto; congruence).
    rewrite da_same, da_lev, da_tpos by (auto; congruence). auto.
  - exists [l]. reflexivity.
  - apply clean_clear_marks.
  - intros x. apply clause_sim_refl.
Qed.
Lemma grows_clause : forall r c c' s, arena s r = Some c -> clause_sim (Some c) (Some c') -> grows s (set_clause r (Some c') s).
Proof.
  intros r c c' s A H. constructor; auto.
  - exists []. now rewrite app_nil_r.
  - intros x. cbn. unfold upd. destruct (Nat.eqb_spec x r) as [->|]; [now rewrite A|apply clause_sim_refl].
Qed.

(** ** Conflicts *)
Definition conflict_ok (s : solver) (c : conflict) : Prop :=
  match c with
  | CBinary a b => In (WBinary b) (watches s a) /\ values s a = Some false /\ values s b = Some false
  | CLarge r => exists d, arena s r = Some d /\ c_garbage d = false /\ forall l, In l (c_lits d) -> values s l = Some false
  end.

(** ** Searching a replacement *)
Lemma find_non_false_some : forall s lits i, find_non_false s lits = Some i ->
  i < length lits /\ values s (nth i lits 0) <> Some false.
Proof.
  intros s. induction lits as [|l lits IH]; intros i H; cbn in H; [discriminate|].
  destruct (is_false s l) eqn:E.
  - destruct (find_non_false s lits) as [j|]; cbn in H; [|discriminate]. inversion H; subst. cbn.
    destruct (IH j eq_refl). split; auto. lia.
  - inversion H; subst. cbn. split; [lia|]. intros X. apply is_false_spec in X. congruence.
Qed.
Lemma find_non_false_none : forall s lits, find_non_false s lits = None -> forall l, In l lits -> values s l = Some false.
Proof.
  intros s. induction lits as [|a lits IH]; intros H l I; [destruct I|]. cbn in H.
  destruct (is_false s a) eqn:E; [|discriminate]. destruct (find_non_false s lits); [discriminate|].
  destruct I as [<-|I]; auto. now apply is_false_spec.
Qed.
Lemma nth_skipn_add : forall (rest : list lit) j i, nth i (skipn j rest) 0 = nth (j + i) rest 0.
Proof.
  induction rest as [|a t IH]; intros j i; cbn.
  - rewrite skipn_nil. destruct i, j; reflexivity.
  - destruct j; cbn; auto.
Qed.
Lemma nth_firstn_lt : forall (rest : list lit) j i, i < j -> nth i (firstn j rest) 0 = nth i rest 0.
Proof.
  induction rest as [|a t IH]; intros j i H; cbn.
  - now rewrite firstn_nil.
  - destruct j; [lia|]. destruct i; cbn; auto. apply IH. lia.
Qed.
Lemma search_replacement_some : forall s rest k r, search_replacement s rest k = Some r ->
  r < length rest /\ values s (nth r rest 0) <> Some false.
Proof.
  intros s rest k r H. unfold search_replacement in H. set (j := k - 2) in *.
  destruct (find_non_false s (skipn j rest)) as [i|] eqn:E.
  - inversion H; subst. apply find_non_false_some in E as [A B]. rewrite skipn_length in A.
    split; [lia|].
    pose proof (nth_skipn_add rest j i) as Q.
    now rewrite Q in B.
  - apply find_non_false_some in H as [A B]. rewrite firstn_length in A. split; [lia|].
    pose proof (nth_firstn_lt rest j r ltac:(lia)) as Q.
    now rewrite Q in B.
Qed.
Lemma search_replacement_none : forall s rest k, search_replacement s rest k = None ->
  forall l, In l rest -> values s l = Some false.
Proof.
  intros s rest k H l I. unfold search_replacement in H. set (j := k - 2) in *.
  destruct (find_non_false s (skipn j rest)) as [i|] eqn:E; [discriminate|].
  rewrite <- (firstn_skipn j rest) in I. apply in_app_or in I as [I|I].
  - now apply (find_non_false_none s (firstn j rest)).
  - now apply (find_non_false_none s (skipn j rest)).
Qed.
