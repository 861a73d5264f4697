(** Learning the deduced clause. *)
From Coq Require Import ZArith List Bool Lia Arith Permutation Sorted.
From Coq Require Import ZifyBool ZifyNat.
From Verif Require Import Base Hoare SpecSat Lit Sem Solver Analyze Inv DbFacts AssignFacts AssignSpec BacktrackFacts PropFacts PropLoop Justify CutFacts OneLit MarkFacts ClauseFacts DeduceFacts Otfs DeduceLoop MinFacts ShrinkFacts Learnable.
Import ListNotations.
Open Scope nat_scope.

(** ** A new large clause *)
Definition with_large (original redundant : bool) (lits : list lit) (s : solver) : solver :=
  let ref := next_ref s in
  let s1 := set_next_ref (S ref) (set_clause ref (Some (mk_clause lits redundant false 2)) s) in
  let s2 := watch_blocking (nth 1 lits 0) (nth 0 lits 0) ref (watch_blocking (nth 0 lits 0) (nth 1 lits 0) ref s1) in
  if original then s2 else add_step lits s2.
Lemma new_large_eq : forall original redundant lits s, 2 < length lits ->
  new_large_clause original redundant lits s = Ret (next_ref s, with_large original redundant lits s).
Proof. intros original redundant [|a [|b [|c lits]]] s H; cbn in H; try lia. reflexivity. Qed.

Section NewLarge.
Variables (original redundant : bool) (lits : list lit) (s : solver).
Hypothesis Len : 2 < length lits.
Hypothesis Nd : NoDup lits.
Hypothesis Rg : forall l, In l lits -> dom s l.
Let s' := with_large original redundant lits s.
Let cl := mk_clause lits redundant false 2.
Let a := nth 0 lits 0.
Let b := nth 1 lits 0.

Lemma wl_reshaped : reshaped s s'.
Proof. unfold s', with_large. destruct original; constructor; reflexivity. Qed.
Lemma wl_arena : arena s' = upd (arena s) (next_ref s) (Some cl).
Proof. unfold s', with_large. destruct original; reflexivity. Qed.
Lemma wl_next : next_ref s' = S (next_ref s).
Proof. unfold s', with_large. destruct original; reflexivity. Qed.
Lemma wl_last : last_learned s' = last_learned s.
Proof. unfold s', with_large. destruct original; reflexivity. Qed.
Lemma wl_an : an s' = an s.
Proof. unfold s', with_large. destruct original; reflexivity. Qed.
Lemma wl_inconsistent : inconsistent s' = inconsistent s.
Proof. unfold s', with_large. destruct original; reflexivity. Qed.
Lemma wl_ab : a <> b.
Proof. apply NoDup_nth_neq; auto; lia. Qed.
Lemma wl_watches : forall k, watches s' k = if k =? b then watches s k ++ [WLarge a (next_ref s)] else
  if k =? a then watches s k ++ [WLarge b (next_ref s)] else watches s k.
Proof.
  pose proof wl_ab as N. intros k. replace (watches s') with (upd (upd (watches s) a (watches s a ++ [WLarge b (next_ref s)])) b
    (upd (watches s) a (watches s a ++ [WLarge b (next_ref s)]) b ++ [WLarge a (next_ref s)])) by (unfold s', with_large; destruct original; reflexivity).
  unfold upd. destruct (Nat.eqb_spec k b) as [->|].
  - destruct (Nat.eqb_spec b a); [congruence|]. reflexivity.
  - destruct (Nat.eqb_spec k a) as [->|]; reflexivity.
Qed.
Lemma wl_bin : forall k o, In (WBinary o) (watches s' k) <-> In (WBinary o) (watches s k).
Proof.
  intros k o. rewrite wl_watches. destruct (k =? b); [|destruct (k =? a)]; rewrite ?in_app_iff; cbn [In]; intuition discriminate.
Qed.
Lemma wl_cinv : cinv s -> cinv s'.
Proof.
  intros [C1 C2 C3 C4 C5]. constructor; rewrite ?wl_arena, ?wl_next, ?wl_last, ?(rs_vars _ _ wl_reshaped).
  - intros r H. unfold upd in H. destruct (Nat.eqb_spec r (next_ref s)) as [E|]; [lia|]. specialize (C1 r H). lia.
  - intros r c H. unfold upd in H. destruct (r =? next_ref s); eauto. inversion H; subst c. auto.
  - intros r c H. unfold upd in H. destruct (r =? next_ref s); eauto. inversion H; subst c. auto.
  - intros r c l H. rewrite (rs_dom _ _ wl_reshaped). unfold upd in H. destruct (r =? next_ref s); eauto. inversion H; subst c. auto.
  - intros r H. unfold upd. destruct (r =? next_ref s); auto. discriminate.
Qed.
Lemma wl_winv : cinv s -> winv (rooted s) (vars s) (active s) (arena s) (watches s) -> winv (rooted s) (vars s) (active s) (arena s') (watches s').
Proof.
  intros C W. rewrite wl_arena. pose proof wl_ab as N.
  assert (Old : forall k, k < 2 * vars s -> filter (watches_ref (next_ref s)) (watches s k) = []).
  { intros k Rk. destruct (filter (watches_ref (next_ref s)) (watches s k)) as [|w ws] eqn:E; auto. exfalso.
    assert (I : In w (filter (watches_ref (next_ref s)) (watches s k))) by (rewrite E; now left).
    apply filter_In in I as [I H]. destruct w as [o|bl r]; [discriminate|]. cbn in H. apply Nat.eqb_eq in H. subst r.
    destruct (wi_large _ _ _ _ _ W _ _ _ Rk I) as (c & A & _). assert (next_ref s < next_ref s) by (apply (ci_ref _ C); congruence). lia. }
  assert (Wt : forall k, watching k cl <-> k = a \/ k = b) by (intros k; rewrite watching_nth; [reflexivity|cbn; lia]).
  apply winv_ref with (W := watches s); auto.
  - intros k. rewrite wl_watches. destruct (k =? b); [|destruct (k =? a)]; auto; rewrite filter_app; cbn [filter unref watches_ref]; unfold unref; cbn [watches_ref]; rewrite Nat.eqb_refl; cbn [negb]; now rewrite app_nil_r.
  - intros _ k H. apply Wt in H. rewrite wl_watches. assert (Ia : In a lits) by (apply nth_In; lia). assert (Ib : In b lits) by (apply nth_In; lia).
    destruct (Nat.eqb_spec k b) as [->|Nb].
    + exists a. rewrite filter_app, Old by auto. cbn [filter watches_ref app]. rewrite Nat.eqb_refl. auto.
    + destruct H as [->|H]; [|contradiction]. rewrite Nat.eqb_refl. exists b. rewrite filter_app, Old by auto. cbn [filter watches_ref app]. rewrite Nat.eqb_refl. auto.
  - intros _ k Rk H. rewrite wl_watches. destruct (Nat.eqb_spec k b) as [->|Nb]; [exfalso; apply H, Wt; auto|].
    destruct (Nat.eqb_spec k a) as [->|Na]; [exfalso; apply H, Wt; auto|]. now apply Old.
Qed.
Lemma wl_binaries : forall n, binaries n (watches s') = binaries n (watches s).
Proof.
  intros n. unfold binaries. apply flat_map_ext. intros k. rewrite wl_watches. destruct (k =? b); [|destruct (k =? a)]; auto; rewrite flat_map_app; cbn; now rewrite app_nil_r.
Qed.
Lemma wl_db : forall c, cnt c (db s') = cnt c (db s) + b2n (set_eqb c lits).
Proof.
  intros c. rewrite !cnt_db, (rs_root_units _ _ wl_reshaped), (rs_vars _ _ wl_reshaped), wl_binaries, wl_arena, wl_next, cnt_larges_new.
  cbn [lits_of cl c_garbage c_lits]. rewrite cnt_cons, cnt_nil. lia.
Qed.
Lemma wl_irr_mono : forall v, sat v (irr s') -> sat v (irr s).
Proof.
  intros v H d D. apply H. apply in_irr. apply in_irr in D as [D|[D|(r & e & Q1 & Q2 & Q3 & Q4 & ->)]].
  - left. now rewrite (rs_root_units _ _ wl_reshaped).
  - right. left. now rewrite (rs_vars _ _ wl_reshaped), wl_binaries.
  - right. right. exists r, e. rewrite wl_arena, wl_next. split; [lia|]. splits; auto. rewrite upd_other; auto. lia.
Qed.
End NewLarge.

Lemma core_new_large : forall orig p s redundant lits, core orig p s -> 2 < length lits -> NoDup lits -> (forall l, In l lits -> dom s l) ->
  rup neg (db s) lits -> core orig p (with_large false redundant lits s).
Proof.
  intros orig p s redundant lits Co Len Nd Rg Ru. pose proof (wl_reshaped false redundant lits s) as R.
  apply (core_reshaped s _ R orig p p); auto.
  - apply wl_cinv; auto. apply Co.
  - apply wl_winv; auto; apply Co.
  - apply linv_add with (s := s) (c := lits); auto; [apply Co| |].
    + intros c. rewrite wl_db, cnt_cons by auto. lia.
    + intros v. apply wl_irr_mono; auto.
  - intros x y. apply wl_bin; auto.
  - intros l r c I _ _ _ A _. rewrite wl_arena. rewrite upd_other; auto. intros ->.
    assert (next_ref s < next_ref s) by (apply (ci_ref _ (co_c _ _ _ Co)); congruence). lia.
Qed.
Lemma pinv_new_large : forall lim original redundant lits s, pinv lim s -> 2 < length lits -> NoDup lits -> (forall l, In l lits -> dom s l) ->
  watched_ok s lim lits (nth 0 lits 0) (nth 1 lits 0) -> watched_ok s lim lits (nth 1 lits 0) (nth 0 lits 0) ->
  pinv lim (with_large original redundant lits s).
Proof.
  intros lim original redundant lits s P Len Nd Rg H1 H2. apply (pinv_reshaped s _ (wl_reshaped original redundant lits s)); auto.
  - intros x y I. left. apply wl_bin in I; auto.
  - intros r c A G. rewrite wl_arena in A. unfold upd in A. destruct (r =? next_ref s); auto. inversion A; subst c. right.
    intros w x Ww Wx N. rewrite watching_nth in Ww, Wx by (cbn; lia). cbn [c_lits] in *.
    destruct Ww as [->| ->], Wx as [->| ->]; try congruence; auto.
Qed.

(** ** Learning *)
Definition marks (a : analysis) : Prop := amarks a /\ rmarks a /\ unpoisoned a /\ unshrunken a.
Lemma marks_clear : forall i a, marks a -> marks (clear_marks i a).
Proof. intros i a (A & B & C & D). unfold marks. splits; auto using amarks_clear, rmarks_clear, unpoisoned_clear, unshrunken_clear. Qed.

(** The learned clause [c] with the literals [nu :: K] was added to the proof and to the clauses.  Its first literal is [nu], and
    its second literal has the highest level of the others. *)
Definition stored (s : solver) (nu : lit) (K c : list lit) : Prop :=
  In (Added c) (steps s) /\ Permutation (nu :: K) c /\ nth_error c 0 = Some nu /\
  (forall k, In k K -> lev s k <= lev s (nth 1 c 0)) /\ (K = [] -> lev s nu = 0) /\ (K <> [] -> present s c).
Record learnt (orig : list (list lit)) (s s' : solver) (nu : lit) (K : list lit) : Prop := {
  lp_core : core orig (length (trail s')) s';
  lp_pinv : pinv (propagate s') s';
  lp_steady : steady s s';
  lp_marks : marks (an s');
  lp_true : values s' nu = Some true;
  lp_reas : forall r c, arena s' r = Some c -> reas s' nu = RClause r -> 0 < lev s' nu -> length (c_lits c) = S (length K);
  lp_rest : forall k, In k K -> values s' k = Some false;
  lp_down : level s' < level s;
  lp_step : exists c, stored s' nu K c }.

Lemma watched_unassigned : forall orig p s lim c w x, core orig p s -> values s w = None \/ values s x = None ->
  values s w = None \/ 0 < lev s w -> watched_ok s lim c w x.
Proof.
  intros orig p s lim c w x Co H U. split.
  - intros A _ B. destruct H; congruence.
  - intros Fw _ B. destruct U as [U|U]; [congruence|]. exfalso. eapply unsettled; eauto.
Qed.

Lemma binary_reason : forall o l other s, vinv s -> values s l = None -> dom s l -> values s other = Some false ->
  wp (assign_binary o l other s) (fun s' => (forall q, reas s' l <> RClause q) /\ arena s' = arena s /\ last_learned s' = last_learned s).
Proof.
  intros o l other s V N R F. unfold assign_binary. apply wp_bind, wp_assert; [now apply is_false_spec|].
  rewrite assign_eq by auto. apply wp_ret. splits; auto. intros q. rewrite da_reas_l. destruct (lev s other =? 0); discriminate.
Qed.

Lemma jump_pos_eq : forall s lits j pos lvl, jump_pos s j lits pos lvl = highest s (pred (level s)) j lits pos lvl.
Proof. intros s. induction lits as [|l lits IH]; intros j pos lvl; cbn [jump_pos highest]; auto. now rewrite !IH. Qed.

Definition kept (s s' : solver) : Prop := last_learned s' = last_learned s /\ forall r, arena s r <> None -> arena s' r <> None.

Section Learn.
Variables (orig : list (list lit)) (p : nat) (s : solver) (nu : lit) (K : list lit).
Hypothesis Co : core orig p s.
Hypothesis P : pinv (T s (level s)) s.
Hypothesis L0 : 0 < level s.
Hypothesis Le : learnable s (an s) nu K.
Let V := co_v _ _ _ Co.
Let F := co_f _ _ _ Co.

Lemma learn_range : forall l, In l (nu :: K) -> dom s l.
Proof.
  intros l I. apply (ti_range _ V). destruct I as [<-|I]; [destruct (le_first _ _ _ _ Le) as [X _]|destruct (le_rest _ _ _ _ Le l I) as [X _]]; congruence.
Qed.
Lemma learn_nodup : NoDup (nu :: K).
Proof.
  constructor; [|apply (le_nodup _ _ _ _ Le)]. intros I. destruct (le_first _ _ _ _ Le) as [_ X]. destruct (le_rest _ _ _ _ Le nu I). lia.
Qed.

Lemma learn_unit_spec : forall o, K = [] -> wp (learn_unit o nu s) (fun s' => learnt orig s s' nu K /\ kept s s').
Proof.
  intros o EK. unfold learn_unit. destruct (determine_new_level_spec o s 0 L0) as (k & -> & _ & Kl). cbn [obind].
  destruct (backtrack_after_conflict_spec orig p k s Co Kl P) as (s1 & -> & B & C1 & P1). cbn [obind].
  assert (R1 : dom s1 nu) by (rewrite (bt_dom _ _ _ _ B); apply learn_range; now left).
  destruct (le_first _ _ _ _ Le) as [Fn Ln].
  assert (N1 : values s1 nu = None).
  { rewrite (bt_values _ _ _ B). replace (lev s nu <=? k) with false; auto. symmetry. apply Nat.leb_gt. lia. }
  rewrite learned_unit_eq by (auto; apply C1). cbn [obind]. apply wp_ret.
  assert (C2 : core orig (length (trail (do_assign 0 RDecision nu s1))) (do_assign 0 RDecision nu s1)).
  { apply core_learned_unit; auto. rewrite (bt_db k s s1) by auto. pose proof (le_rup _ _ _ _ Le) as X. now rewrite EK in X. }
  split; [|split; [exact (bt_last _ _ _ B)|intros r Hr; cbn; now rewrite (bt_arena _ _ _ B)]]. constructor.
  - now apply core_set_iterating.
  - apply (agree_pinv _ (do_assign 0 RDecision nu s1)); [constructor; reflexivity|].
    apply (pinv_assign s1 0 RDecision nu (co_v _ _ _ C1) N1 (co_f _ _ _ C1) (propagate s1)); auto. apply (ti_prop _ (co_v _ _ _ C1)).
  - pose proof (bt_steady _ _ _ B) as [X Y]. split; [exact X|exact Y].
  - change (marks (clear_marks (idx nu) (an s1))). apply marks_clear. rewrite (bt_an _ _ _ B). apply (le_marks _ _ _ _ Le).
  - apply (da_true_l s1 0 RDecision nu).
  - intros r c _ E _. change (reas (do_assign 0 RDecision nu s1) nu = RClause r) in E. rewrite da_reas_l in E. discriminate.
  - rewrite EK. intros q [].
  - cbn. rewrite (bt_level _ _ _ B). exact Kl.
  - rewrite EK. exists [nu]. unfold stored. splits; auto; [now left|intros q []| |congruence]. intros _. apply da_lev_l.
Qed.

Lemma da_steps_in : forall lvl r l s x, In x (steps s) -> In x (steps (do_assign lvl r l s)).
Proof. intros lvl r l s0 x I. cbn. destruct ((lvl =? 0) && negb (is_unit_reason r)); [now right|auto]. Qed.

Lemma learn_binary_spec : forall o other, K = [other] -> wp (learn_binary o nu other s) (fun s' => learnt orig s s' nu K /\ kept s s').
Proof.
  intros o other EK. unfold learn_binary. destruct (le_rest _ _ _ _ Le other) as [Fo Lo]; [rewrite EK; now left|].
  destruct (determine_new_level_spec o s (lev s other)) as (k & -> & Kj & Kl); [lia|]. cbn [obind].
  destruct (backtrack_after_conflict_spec orig p k s Co Kl P) as (s1 & -> & B & C1 & P1). cbn [obind].
  assert (R1 : dom s1 nu) by (rewrite (bt_dom _ _ _ _ B); apply learn_range; now left).
  assert (R2 : dom s1 other) by (rewrite (bt_dom _ _ _ _ B); apply learn_range; rewrite EK; right; now left).
  destruct (le_first _ _ _ _ Le) as [Fn Ln].
  assert (N1 : values s1 nu = None).
  { rewrite (bt_values _ _ _ B). replace (lev s nu <=? k) with false; auto. symmetry. apply Nat.leb_gt. lia. }
  assert (Fo1 : values s1 other = Some false) by (apply (bt_some k s s1 Kl B); split; auto).
  assert (Nn : nu <> other) by congruence.
  set (s2 := new_binary_clause false nu other s1).
  assert (C2 : core orig (length (trail s2)) s2).
  { apply core_new_binary; auto. rewrite (bt_db k s s1) by auto. pose proof (le_rup _ _ _ _ Le) as X. now rewrite EK in X. }
  assert (P2 : pinv (propagate s2) s2).
  { change (propagate s2) with (propagate s1). apply (pinv_reshaped s1 s2 (new_binary_reshaped false nu other s1)); auto.
    intros a b I. apply new_binary_watches in I as [I|[[-> E]|[-> E]]]; auto; right; inversion E; subst b; eapply watched_unassigned; eauto. right. rewrite (bt_lev _ _ _ B). apply (le_rest _ _ _ _ Le). rewrite EK. now left. }
  assert (V2 : vinv s2) by apply C2.
  eapply wp_mono; [apply wp_and; [apply (assign_binary_spec orig o s2 nu other); auto|apply (binary_reason o nu other s2); auto]|].
  - apply new_binary_watches. auto.
  - intros s3 ((r & -> & U & C3) & (Rn & Ea & El)). split; [|split; [rewrite El; exact (bt_last _ _ _ B)|intros q Hq; rewrite Ea; cbn; now rewrite (bt_arena _ _ _ B)]]. constructor; auto.
    + apply (pinv_assign s2 (lev s2 other) r nu V2 N1 (co_f _ _ _ C2) (propagate s2)); auto. apply (ti_prop _ V2).
    + pose proof (bt_steady _ _ _ B) as [X Y]. split; [exact X|exact Y].
    + change (marks (clear_marks (idx nu) (an s1))). apply marks_clear. rewrite (bt_an _ _ _ B). apply (le_marks _ _ _ _ Le).
    + apply da_true_l.
    + intros q c _ E _. now apply Rn in E.
    + rewrite EK. intros q [<-|[]]. apply (da_false s2 (lev s2 other) r nu V2 N1). right. exact Fo1.
    + cbn. rewrite (bt_level _ _ _ B). exact Kl.
    + rewrite EK. exists [nu; other]. unfold stored. splits; auto; [apply da_steps_in; now left|now intros q [<-|[]]|discriminate|].
      intros _. left. exists nu, other. split; auto. cbn [do_assign watches]. apply new_binary_watches. auto.
Qed.

Lemma learn_reference_spec : forall o, 1 < length K -> wp (learn_reference o nu (nu :: K) s)
  (fun '(s', ref) => learnt orig s s' nu K /\ kept s s' /\ arena s' ref <> None).
Proof.
  intros o LK. unfold learn_reference. destruct (le_first _ _ _ _ Le) as [Fn Ln].
  destruct K as [|k1 K'] eqn:EK; [cbn in LK; lia|]. cbn [skipn nth]. rewrite <- EK in *.
  set (L := nu :: K). assert (LL : length L = S (length K)) by reflexivity.
  assert (In1 : forall q, 1 <= q < length L -> In (nth q L 0) K).
  { intros q Q. destruct q; [lia|]. cbn [nth L]. apply nth_In. cbn in Q. lia. }
  destruct (highest_spec s (pred (level s)) (k1 :: K) 1) with (lits := K') (j := 2) (pos := 1) (lvl := lev s k1) as [Hp Hm].
  { intros q Q. assert (In (nth q (k1 :: K) 0) K) as I.
    { destruct q; cbn [nth]; [rewrite EK; now left|]. apply nth_In. cbn in Q. lia. }
    destruct (le_rest _ _ _ _ Le _ I). lia. }
  { rewrite EK. reflexivity. }
  { cbn [length]. lia. }
  { lia. }
  { rewrite EK. reflexivity. }
  { intros q Q1 Q2. assert (q = 1) by lia. subst q. rewrite EK. cbn. lia. }
  rewrite jump_pos_eq. set (j := highest s (pred (level s)) 2 K' 1 (lev s k1)) in *. clearbody j.
  change (length (k1 :: K)) with (length L) in *.
  assert (Sh : forall q, 1 <= q -> nth q (k1 :: K) 0 = nth q L 0) by (intros q Q; destruct q; [lia|reflexivity]).
  assert (Hm' : forall q, 1 <= q < length L -> lev s (nth q L 0) <= lev s (nth j L 0)).
  { intros q Q. rewrite <- !Sh by lia. now apply Hm. }
  clear Hm Sh. set (L' := lswap L 1 j).
  assert (Pm : Permutation L L') by (apply lswap_perm; lia).
  assert (Ln' : length L' = length L) by apply lswap_length.
  assert (E0 : nth 0 L' 0 = nu) by (unfold L'; rewrite lswap_nth_o by lia; reflexivity).
  assert (E1 : nth 1 L' 0 = nth j L 0) by (unfold L'; apply lswap_nth_l; lia).
  assert (Nd' : NoDup L') by (eapply Permutation_NoDup; [exact Pm|apply learn_nodup]).
  assert (Bk : forall m, In m L' -> In m L) by (intros m; eapply Permutation_in; symmetry; auto).
  assert (Rg' : forall m, In m L' -> dom s m) by (intros m I; apply learn_range; apply Bk; auto).
  assert (Fa : forall m, In m L' -> values s m = Some false).
  { intros m I. apply Bk in I as [<-|I]; auto. now apply (le_rest _ _ _ _ Le). }
  assert (Lj : lev s (nth j L 0) < level s) by (apply (le_rest _ _ _ _ Le); apply In1; lia).
  assert (Lo : forall m, In m L' -> m <> nu -> lev s m <= lev s (nth j L 0)).
  { intros m I N. apply Bk in I. destruct (In_nth _ _ 0 I) as (q & Q & <-). apply Hm'. split; auto. destruct q; [|lia]. now contradiction N. }
  assert (L3 : 2 < length L') by (rewrite Ln', LL; lia).
  rewrite new_large_eq by auto. cbn [obind]. set (s1 := with_large false true L' s).
  assert (R1 : reshaped s s1) by apply wl_reshaped.
  assert (C1 : core orig p s1).
  { apply core_new_large; auto. eapply rup_weaken; [|apply (le_rup _ _ _ _ Le)]. intros m I. eapply Permutation_in; eauto. }
  assert (P1 : pinv (T s1 (level s1)) s1).
  { replace (T s1 (level s1)) with (T s (level s)) by (unfold T; now rewrite (rs_trail _ _ R1), (rs_frames _ _ R1), (rs_level _ _ R1)).
    apply pinv_new_large; auto; rewrite E0; (eapply watched_top; [exact Co|auto|..]).
    - auto.
    - now left.
    - left. lia.
    - apply Fa. apply nth_In. lia.
    - now right.
    - left. rewrite E1. apply (le_rest _ _ _ _ Le). apply In1. lia. }
  assert (Lv1 : forall m, lev s1 m = lev s m) by (intros m; apply rs_lev; auto).
  destruct (determine_new_level_spec o s1 (lev s1 (nth 1 L' 0))) as (k & -> & Kj & Kl).
  { rewrite Lv1, E1, (rs_level _ _ R1). auto. }
  cbn [obind].
  destruct (backtrack_after_conflict_spec orig p k s1 C1 Kl P1) as (s2 & -> & B & C2 & P2). cbn [obind].
  set (cl := mk_clause L' true false 2).
  assert (A1 : arena s1 (next_ref s) = Some cl) by (unfold s1; rewrite wl_arena; apply upd_same).
  destruct (forcing_bt s1 s2 k (next_ref s) cl nu (lev s (nth j L 0))) as [Fc N2]; auto; try apply C1; try apply C2.
  { change (1 < length L'). lia. }
  { rewrite Lv1, E1 in Kj. auto. }
  destruct (assign_reference_spec orig s2 (next_ref s) cl nu C2 Fc N2) as (-> & C3 & Al). cbn [obind]. apply wp_ret.
  assert (R2 : dom s2 nu).
  { rewrite (bt_dom _ _ _ _ B), (rs_dom _ _ R1). apply learn_range. now left. }
  set (lvl := assignment_level s2 nu (c_lits cl)) in *.
  assert (Ar : arena (do_assign lvl (RClause (next_ref s)) nu s2) = arena s1) by (cbn; apply (bt_arena _ _ _ B)).
  split; [|split].
  - constructor; auto.
    + apply (pinv_assign s2 lvl (RClause (next_ref s)) nu (co_v _ _ _ C2) N2 (co_f _ _ _ C2) (propagate s2)); auto. apply (ti_prop _ (co_v _ _ _ C2)).
    + pose proof (bt_steady _ _ _ B) as [X Y]. split; cbn; rewrite ?X, ?Y; auto.
    + change (marks (clear_marks (idx nu) (an s2))). apply marks_clear. rewrite (bt_an _ _ _ B). unfold s1. rewrite wl_an. apply (le_marks _ _ _ _ Le).
    + apply da_true_l.
    + intros r c A E Lp. rewrite da_reas_l in E. rewrite Ar in A. rewrite da_lev_l in Lp. destruct (Nat.eqb_spec lvl 0); [discriminate|].
      inversion E; subst r. rewrite A1 in A. inversion A; subst c. cbn [c_lits cl]. lia.
    + intros q Iq. apply (da_false s2 lvl (RClause (next_ref s)) nu (co_v _ _ _ C2) N2). right. destruct (le_rest _ _ _ _ Le q Iq) as [Fq Lq].
      apply (bt_some k s1 s2 Kl B). split; [now rewrite (rs_values _ _ R1)|]. rewrite Lv1. apply (Nat.le_trans _ (lev s (nth j L 0))).
      * apply Lo; [apply (Permutation_in _ Pm); now right|]. intros ->. lia.
      * now rewrite Lv1, E1 in Kj.
    + cbn. rewrite (bt_level _ _ _ B). exact Kl.
    + assert (Fs2 : forall q, In q K -> values s2 q = Some false).
      { intros q Iq. destruct (le_rest _ _ _ _ Le q Iq) as [Fq Lq]. apply (bt_some k s1 s2 Kl B). split; [now rewrite (rs_values _ _ R1)|]. rewrite Lv1.
        apply (Nat.le_trans _ (lev s (nth j L 0))); [apply Lo; [apply (Permutation_in _ Pm); now right|]; intros ->; lia|]. now rewrite Lv1, E1 in Kj. }
      assert (Lq : forall q, In q K -> lev (do_assign lvl (RClause (next_ref s)) nu s2) q = lev s q).
      { intros q Iq. rewrite da_lev; [now rewrite (bt_lev _ _ _ B), Lv1|]. apply (da_old s2 nu (co_v _ _ _ C2) N2). rewrite (Fs2 q Iq). discriminate. }
      exists L'. unfold stored. splits; auto.
      * apply da_steps_in. rewrite (bt_steps _ _ _ B). now left.
      * rewrite (nth_error_nth' L' 0) by lia. now rewrite E0.
      * intros q Iq. rewrite (Lq q Iq), E1, (Lq (nth j L 0)); [|apply In1; lia]. apply Lo; [apply (Permutation_in _ Pm); now right|].
        intros ->. destruct (le_rest _ _ _ _ Le nu Iq). lia.
      * intros ->. cbn in LK. lia.
      * intros _. right. exists (next_ref s), cl. rewrite Ar. auto.
  - split; [cbn; rewrite (bt_last _ _ _ B); apply wl_last|]. intros r Hr. rewrite Ar. unfold s1. rewrite wl_arena. unfold upd. destruct (r =? next_ref s); auto. discriminate.
  - rewrite Ar, A1. discriminate.
Qed.
End Learn.

(** ** Eager subsumption *)
Lemma eagerly_subsume_spec : forall orig s nu K refs s1, learnt orig s s1 nu K -> (forall r, In r refs -> arena s1 r <> None) ->
  wp (eagerly_subsume (nu :: K) refs s1) (fun '(refs', s2) => learnt orig s s2 nu K /\ incl refs' refs /\
    (forall r, arena s1 r <> None -> arena s2 r <> None) /\ last_learned s2 = last_learned s1).
Proof.
  intros orig s nu K. induction refs as [|r refs IH]; intros s1 Le H; cbn [eagerly_subsume].
  { apply wp_ret. splits; auto. apply incl_refl. }
  destruct (arena s1 r) as [c|] eqn:A; [|exfalso; now apply (H r (or_introl eq_refl))].
  destruct (negb (c_garbage c) && c_redundant c && (length (nu :: K) <? length (c_lits c)) && subsumes (nu :: K) c) eqn:E.
  - repeat (apply andb_true_iff in E as [E ?]). rename H2 into E1, H1 into E2, H0 into E3.
    apply negb_true_iff in E. apply Nat.ltb_lt in E2. cbn [length] in E2.
    assert (In_nu : In nu (c_lits c)).
    { unfold subsumes in E3. cbn [forallb] in E3. apply andb_true_iff in E3 as [E3 _]. apply existsb_exists in E3 as (m & I & Em).
      apply Nat.eqb_eq in Em. now subst m. }
    rewrite (mark_garbage_eq r c s1 A E). cbn [obind]. destruct Le as [L1 L2 L3 L4 L5 L6 L7 L8 L9].
    assert (Tr : forall q, arena s1 q <> None -> arena (trashed r c s1) q <> None).
    { intros q. cbn. unfold upd. destruct (q =? r); auto. discriminate. }
    eapply wp_mono; [apply IH|].
    + constructor; auto.
      * apply core_trashed; auto; [|congruence]. intros l I Lv _ (G & W & Fo & _) Er.
        assert (l = nu) as ->.
        { destruct (Nat.eq_dec l nu) as [|D]; auto. exfalso. destruct (Fo nu In_nu) as [X _]; [congruence|]. congruence. }
        specialize (L6 r c A Er Lv). lia.
      * now apply pinv_trashed.
      * intros q d Aq Eq Lv. cbn in Aq. unfold upd in Aq. destruct (Nat.eqb_spec q r) as [->|]; [|eapply L6; eauto].
        inversion Aq; subst d. cbn [garbage_clause c_lits]. eapply L6; eauto.
      * destruct L9 as (z & Z1 & Z2 & Z3 & Z4 & Z5 & Z6). exists z. unfold stored. splits; auto; [now right|]. intros Nk. destruct (Z6 Nk) as [X|(q & d & D1 & D2 & ->)]; [now left|].
        right. exists q, d. splits; auto. cbn. rewrite upd_other; auto. intros ->. apply Permutation_length in Z2. cbn [length] in Z2. rewrite D1 in A. inversion A; subst d. lia.
    + intros q I. apply Tr, H. now right.
    + intros [refs' s2] (X1 & X2 & X3 & X4). splits; auto. now apply incl_tl.
  - apply wp_bind. eapply wp_mono; [apply IH; auto; intros q I; apply H; now right|].
    intros [refs' s2] (X1 & X2 & X3 & X4). apply wp_ret. splits; auto. intros q [<-|I]; [now left|right; auto].
Qed.

Lemma core_last : forall orig p s ll, core orig p s -> (forall r, In r ll -> arena s r <> None) -> core orig p (set_last_learned ll s).
Proof.
  intros orig p s ll Co H. assert (R : reshaped s (set_last_learned ll s)) by (constructor; reflexivity).
  apply (core_reshaped s _ R orig p p); auto.
  - destruct (co_c _ _ _ Co) as [C1 C2 C3 C4 C5]. constructor; auto.
  - apply (co_w _ _ _ Co).
  - destruct (co_l _ _ _ Co) as [A B C D]. constructor; auto.
Qed.

Lemma learn_clause_spec : forall orig p s nu K o, core orig p s -> pinv (T s (level s)) s -> 0 < level s -> learnable s (an s) nu K ->
  wp (learn_clause o s) (fun s' => core orig (length (trail s')) s' /\ pinv (propagate s') s' /\ steady s s' /\ marks (an s') /\
    values s' nu = Some true /\ (forall k, In k K -> values s' k = Some false) /\ level s' < level s /\
    exists c, stored s' nu K c).
Proof.
  intros orig p s nu K o Co P L0 Le. unfold learn_clause. rewrite (le_clause _ _ _ _ Le). apply wp_bind.
  set (Q := fun res : solver * option nat => let '(s', ref) := res in learnt orig s s' nu K /\ last_learned s' = last_learned s /\
    (forall r, arena s r <> None -> arena s' r <> None) /\ match ref with Some r => arena s' r <> None | None => True end).
  assert (W : wp (match nu :: K with
    | [] => Undef
    | [not_uip] => do s <- learn_unit o not_uip s ; Ret (s, None)
    | [not_uip; other] => do s <- learn_binary o not_uip other s ; Ret (s, None)
    | not_uip :: _ => do (s, ref) <- learn_reference o not_uip (nu :: K) s ; Ret (s, Some ref)
    end) Q).
  { destruct K as [|k1 [|k2 K']] eqn:EK.
    - apply wp_bind. eapply wp_mono; [apply (learn_unit_spec orig p s nu [] Co P L0 Le o eq_refl)|]. intros s' (X1 & X2 & X3). apply wp_ret.
      split; auto.
    - apply wp_bind. eapply wp_mono; [apply (learn_binary_spec orig p s nu [k1] Co P L0 Le o k1 eq_refl)|]. intros s' (X1 & X2 & X3). apply wp_ret.
      split; auto.
    - rewrite <- EK in *. apply wp_bind. eapply wp_mono; [apply (learn_reference_spec orig p s nu K Co P L0 Le o); subst K; cbn; lia|].
      intros [s' ref] (X1 & (X2 & X3) & X4). apply wp_ret. split; [now rewrite <- EK|auto]. }
  eapply wp_mono; [exact W|]. clear W. intros [s1 ref] (X1 & X2 & X3 & X4).
  destruct (o_eagersubsume o =? 0).
  { apply wp_ret. destruct X1 as [L1 L2 L3 L4 L5 L6 L7 L8 L9]. splits; auto. }
  apply wp_bind. eapply wp_mono; [apply (eagerly_subsume_spec orig s nu K); auto|].
  { intros r I. rewrite X2 in I. apply X3. apply (ci_last _ (co_c _ _ _ Co)). auto. }
  intros [refs s2] (Y1 & Y2 & Y3 & Y4). apply wp_ret. destruct Y1 as [L1 L2 L3 L4 L5 L6 L7 L8 L9]. 
  set (ll := match ref with Some _ => _ | None => _ end).
  split; [|split; [|splits; [exact L3|exact L4|exact L5|exact L7|exact L8|exact L9]]].
  - apply core_last; auto. assert (Hr : forall r, In r refs -> arena s2 r <> None).
    { intros r I. apply Y2 in I. rewrite X2 in I. apply Y3, X3. apply (ci_last _ (co_c _ _ _ Co)). auto. }
    intros r I. unfold ll in I. destruct ref as [ref|]; auto. assert (I' : In r (ref :: refs)) by (rewrite <- (firstn_skipn (o_eagersubsume o)); apply in_app_iff; now left). destruct I' as [<-|I']; auto.
  - apply (agree_pinv _ s2); [constructor; reflexivity|exact L2].
Qed.
