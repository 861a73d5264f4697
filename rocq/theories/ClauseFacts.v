(** Adding, deleting and changing clauses under an assignment. *)
From Coq Require Import ZArith List Bool Lia Arith Permutation.
From Coq Require Import ZifyBool ZifyNat.
From Verif Require Import Base Hoare SpecSat Lit Sem Solver Analyze Inv DbFacts AssignFacts AssignSpec BacktrackFacts PropFacts PropLoop CutFacts OneLit MarkFacts.
Import ListNotations.
Open Scope nat_scope.

(** ** States with the same assignment *)
Record reshaped (s s' : solver) : Prop := {
  rs_vars : vars s' = vars s; rs_active : active s' = active s; rs_values : values s' = values s; rs_assigned : assigned s' = assigned s;
  rs_trail : trail s' = trail s; rs_prop : propagate s' = propagate s; rs_unas : unassigned s' = unassigned s;
  rs_unfl : unflushed s' = unflushed s; rs_level : level s' = level s; rs_frames : frames s' = frames s }.

Lemma rs_shape : forall s s', reshaped s s' -> shape s' = shape s.
Proof. intros s s' []. unfold shape. congruence. Qed.
Lemma reshaped_refl : forall s, reshaped s s. Proof. intros s. constructor; reflexivity. Qed.
Lemma reshaped_trans : forall a b c, reshaped a b -> reshaped b c -> reshaped a c.
Proof. intros a b c A B. destruct A, B. constructor; congruence. Qed.

Section Reshaped.
Variables s s' : solver.
Hypothesis R : reshaped s s'.
Lemma rs_T : forall k, T s' k = T s k.
Proof. intros k. unfold T. now rewrite (rs_frames _ _ R), (rs_trail _ _ R). Qed.
Lemma rs_lev : forall l, lev s' l = lev s l.
Proof. intros l. unfold lev. now rewrite (rs_assigned _ _ R). Qed.
Lemma rs_tpos : forall l, tpos s' l = tpos s l.
Proof. intros l. unfold tpos. now rewrite (rs_assigned _ _ R). Qed.
Lemma rs_reas : forall l, reas s' l = reas s l.
Proof. intros l. unfold reas. now rewrite (rs_assigned _ _ R). Qed.
Lemma rs_dom : forall l, dom s' l = dom s l.
Proof. intros l. unfold dom. now rewrite (rs_vars _ _ R), (rs_active _ _ R). Qed.
Lemma rs_before : forall l n, before s' l n <-> before s l n.
Proof. intros l n. unfold before. rewrite rs_tpos, (rs_trail _ _ R). tauto. Qed.
Lemma rs_root_units : root_units s' = root_units s.
Proof.
  unfold root_units. rewrite (rs_vars _ _ R). f_equal. apply filter_ext. intros l.
  unfold is_true. now rewrite (rs_values _ _ R), rs_lev.
Qed.
Lemma rs_vinv : vinv s -> vinv s'.
Proof.
  intros [A B C D E F G H I J]. constructor.
  - now rewrite (rs_values _ _ R).
  - intros l. unfold dom. rewrite (rs_values _ _ R), (rs_vars _ _ R), (rs_active _ _ R). apply B.
  - now rewrite (rs_trail _ _ R).
  - now rewrite (rs_trail _ _ R), (rs_values _ _ R).
  - intros i l. rewrite (rs_trail _ _ R), rs_tpos. auto.
  - intros l. rewrite (rs_trail _ _ R), (rs_values _ _ R), rs_lev. auto.
  - intros l. rewrite (rs_values _ _ R), rs_lev, rs_reas. auto.
  - now rewrite (rs_prop _ _ R), (rs_trail _ _ R).
  - rewrite (rs_unas _ _ R), (rs_vars _ _ R), (rs_active _ _ R), I. f_equal. apply filter_ext. intros i. unfold is_unassigned. now rewrite (rs_values _ _ R).
  - rewrite (rs_unfl _ _ R), (rs_trail _ _ R), J. f_equal. apply filter_ext. intros l. now rewrite rs_lev.
Qed.
Lemma rs_finv : finv s -> finv s'.
Proof.
  intros [F1 F2 F3 F4 F5 F6]. constructor.
  - now rewrite (rs_frames _ _ R), (rs_level _ _ R).
  - now rewrite rs_T.
  - intros k K. rewrite (rs_level _ _ R) in K. destruct (F3 k K) as (f & A1 & A2 & A3 & A4). exists f.
    rewrite (rs_frames _ _ R), (rs_trail _ _ R), rs_lev, rs_reas. auto.
  - intros k i l. rewrite (rs_trail _ _ R), rs_T, rs_lev. eauto.
  - intros j k. rewrite !rs_T. auto.
  - now rewrite (rs_level _ _ R), rs_T, (rs_prop _ _ R).
Qed.
Lemma rs_bpath : (forall a b, In (WBinary b) (watches s a) -> In (WBinary b) (watches s' a)) ->
  forall l o, bpath s l o -> bpath s' l o.
Proof.
  intros W l o P. induction P as [l o I|l m o I Fm E P IH].
  - apply bpath_one. auto.
  - apply bpath_step with m; auto.
    + now rewrite (rs_values _ _ R).
    + now rewrite !rs_lev.
Qed.
Lemma rs_clause_ok : forall l c, reason_clause_ok s l c -> reason_clause_ok s' l c.
Proof.
  intros l c (G & W & F & K & X). unfold reason_clause_ok. splits; auto.
  - intros k I N. rewrite (rs_values _ _ R), !rs_lev, !rs_tpos. auto.
  - destruct K as (k & I & N & E). exists k. rewrite !rs_lev. auto.
  - intros w k Ww N L B. rewrite rs_lev. rewrite (rs_level _ _ R) in L. rewrite rs_before, rs_T in B. eauto.
Qed.
Lemma rs_reason : forall l, (forall a b, In (WBinary b) (watches s a) -> In (WBinary b) (watches s' a)) ->
  (forall r c, reas s l = RClause r -> arena s r = Some c -> reason_clause_ok s l c -> arena s' r = Some c) ->
  reason_ok s l -> reason_ok s' l.
Proof.
  intros l W A H. unfold reason_ok in *. rewrite rs_reas. destruct (reas s l) as [| |o|r]; auto.
  - now rewrite rs_tpos, rs_lev, rs_T.
  - destruct H as (B & C & D & P). rewrite (rs_values _ _ R), !rs_lev, !rs_tpos. splits; auto. now apply rs_bpath.
  - destruct H as (c & Ar & Ok). exists c. split; [eapply A; eauto|]. now apply rs_clause_ok.
Qed.
Lemma rs_watched_ok : forall lim c w x, watched_ok s lim c w x -> watched_ok s' lim c w x.
Proof.
  intros lim c w x [H U]. split.
  2:{ intros Fw Bw B1. rewrite (rs_values _ _ R) in Fw. apply rs_before in Bw. apply rs_before in B1. rewrite rs_T in B1.
      destruct (U Fw Bw B1) as (t & I & Tt & L). exists t. rewrite (rs_values _ _ R), rs_lev. auto. }
  intros Fw Bw Fx Bx k K. rewrite (rs_values _ _ R) in Fw, Fx. apply rs_before in Bw. apply rs_before in Bx.
  rewrite (rs_level _ _ R), (rs_before w), (rs_before x), rs_T in K.
  destruct (H Fw Bw Fx Bx k K) as (t & I & Tt & L). exists t. rewrite (rs_values _ _ R), rs_lev. auto.
Qed.
Lemma core_reshaped : forall orig p p', core orig p s -> p' <= p -> cinv s' -> winv (rooted s) (vars s) (active s) (arena s') (watches s') -> linv orig s' ->
  (forall a b, In (WBinary b) (watches s a) -> In (WBinary b) (watches s' a)) ->
  (forall l r c, In l (trail s) -> 0 < lev s l -> lev s l < level s \/ tpos s l < p' -> reas s l = RClause r -> arena s r = Some c ->
    reason_clause_ok s l c -> arena s' r = Some c) -> core orig p' s'.
Proof.
  intros orig p p' [V F C W L Ri] P C' W' L' Bi Ar. constructor; auto.
  - now apply rs_vinv.
  - now apply rs_finv.
  - rewrite (rs_vars _ _ R), (rs_active _ _ R). apply (winv_mono (rooted s)); auto. intros t [A B]. unfold rooted. now rewrite (rs_values _ _ R), rs_lev.
  - intros l I Lv Hp. rewrite (rs_trail _ _ R) in I. rewrite rs_lev in Lv. rewrite rs_lev, rs_tpos, (rs_level _ _ R) in Hp.
    apply rs_reason; auto; [intros r c E A Ok; eapply Ar; eauto|]. apply Ri; auto. lia.
Qed.
Lemma pinv_reshaped : forall lim, pinv lim s ->
  (forall a b, In (WBinary b) (watches s' a) -> In (WBinary b) (watches s a) \/ watched_ok s lim [a; b] a b) ->
  (forall r c, arena s' r = Some c -> c_garbage c = false -> arena s r = Some c \/
     forall w x, watching w c -> watching x c -> w <> x -> watched_ok s lim (c_lits c) w x) -> pinv lim s'.
Proof.
  intros lim [A B] Hb Hl. constructor.
  - intros a b I. apply rs_watched_ok. destruct (Hb a b I); auto.
  - intros r c w x Ar G Ww Wx N. apply rs_watched_ok. destruct (Hl r c Ar G); eauto.
Qed.
Lemma cfl_reshaped : forall c lits, cfl s c lits -> conflict_lits s' c = Some lits ->
  (exists d, In d (db s') /\ same_literals lits d) -> cfl s' c lits.
Proof.
  intros c lits [A B C D E] A' E'. constructor; auto. intros l I. rewrite (rs_values _ _ R). auto.
Qed.
End Reshaped.

Lemma lits_of_garbage : forall c, c_garbage c = true -> lits_of (Some c) = [].
Proof. intros c G. cbn. now rewrite G. Qed.

(** ** Deleting a clause *)
Definition garbage_clause (c : clause) : clause := mk_clause (c_lits c) (c_redundant c) true (c_searched c).
Definition trashed (r : nat) (c : clause) (s : solver) : solver :=
  del_step (c_lits c) (set_clause r (Some (garbage_clause c)) s).

Lemma mark_garbage_eq : forall r c s, arena s r = Some c -> c_garbage c = false -> mark_garbage r s = Ret (trashed r c s).
Proof. intros r c s A G. unfold mark_garbage. rewrite A, G. reflexivity. Qed.
Lemma trashed_reshaped : forall r c s, reshaped s (trashed r c s).
Proof. intros. constructor; reflexivity. Qed.

Lemma in_irr : forall s c, In c (irr s) <-> In c (root_units s) \/ In c (binaries (vars s) (watches s)) \/
  exists r d, r < next_ref s /\ arena s r = Some d /\ c_garbage d = false /\ c_redundant d = false /\ c = c_lits d.
Proof.
  intros s c. unfold irr. rewrite !in_app_iff. rewrite in_irredundants. apply or_iff_compat_l, or_iff_compat_l.
  split; intros (r & d & H); exists r, d; tauto.
Qed.

Lemma core_trashed : forall orig p s r c, core orig p s -> arena s r = Some c -> c_garbage c = false ->
  (forall l, In l (trail s) -> 0 < lev s l -> lev s l < level s \/ tpos s l < p -> reason_clause_ok s l c -> reas s l <> RClause r) ->
  (c_redundant c = false -> forall v, sat v (irr (trashed r c s)) -> sat_clause v (c_lits c)) ->
  core orig p (trashed r c s).
Proof.
  intros orig p s r c Co A G Nr Sv. pose proof (co_c _ _ _ Co) as C. pose proof (co_w _ _ _ Co) as W.
  assert (Rr : r < next_ref s) by (apply (ci_ref _ C); congruence).
  apply (core_reshaped s (trashed r c s) (trashed_reshaped r c s) orig p p); auto.
  - destruct C as [C1 C2 C3 C4 C5]. unfold trashed. constructor; cbn [del_step set_clause set_arena set_steps arena next_ref vars last_learned].
    + intros q E. unfold upd in E. destruct (Nat.eqb_spec q r); auto. congruence.
    + intros q d E Gd. unfold upd in E. destruct (q =? r); eauto. inversion E; subst d. discriminate.
    + intros q d E Gd. unfold upd in E. destruct (q =? r); eauto. inversion E; subst d. discriminate.
    + intros q d l E Gd. unfold upd in E. destruct (q =? r); eauto. inversion E; subst d. discriminate.
    + intros q I. unfold upd. destruct (q =? r); auto. discriminate.
  - cbn. apply winv_ref with (W := watches s); auto; discriminate.
  - apply linv_del with (s := s) (c := c_lits c); auto; [apply Co| | |].
    + pose proof (ci_len _ C _ _ A G). destruct (c_lits c); [cbn in H; lia|discriminate].
    + intros x. rewrite cnt_cons, !cnt_db, (rs_root_units _ _ (trashed_reshaped r c s)).
      change (vars (trashed r c s)) with (vars s). change (watches (trashed r c s)) with (watches s).
      change (next_ref (trashed r c s)) with (next_ref s).
      change (arena (trashed r c s)) with (upd (arena s) r (Some (garbage_clause c))).
      pose proof (cnt_larges_upd (next_ref s) (arena s) x r (Some (garbage_clause c)) Rr) as X.
      cbn [lits_of garbage_clause c_garbage] in X. rewrite A in X. cbn [lits_of] in X. rewrite G, cnt_cons in X. rewrite cnt_nil in X. lia.
    + intros v Sa d D. apply in_irr in D as [D|[D|(q & e & Q1 & Q2 & Q3 & Q4 & ->)]].
      * apply Sa, in_irr. left. now rewrite (rs_root_units _ _ (trashed_reshaped r c s)).
      * apply Sa, in_irr. right. now left.
      * destruct (Nat.eq_dec q r) as [->|N].
        { rewrite A in Q2. inversion Q2; subst e. now apply Sv. }
        apply Sa, in_irr. right. right. exists q, e. splits; auto. cbn. now rewrite upd_other.
  - intros l q d I Lv Hp E Aq Ok. cbn. destruct (Nat.eqb_spec q r) as [->|N]; [|now rewrite upd_other].
    exfalso. rewrite A in Aq. inversion Aq; subst d. now apply (Nr l).
Qed.
Lemma pinv_trashed : forall lim r c s, pinv lim s -> pinv lim (trashed r c s).
Proof.
  intros lim r c s P. apply (pinv_reshaped s _ (trashed_reshaped r c s)); auto.
  intros q d A G. cbn in A. unfold upd in A. destruct (q =? r); auto. inversion A; subst d. discriminate.
Qed.

(** ** A new binary clause *)
Lemma new_binary_reshaped : forall b x y s, reshaped s (new_binary_clause b x y s).
Proof. intros [] x y s; constructor; reflexivity. Qed.
Lemma new_binary_watches : forall b x y s l w, In w (watches (new_binary_clause b x y s) l) <->
  In w (watches s l) \/ (l = x /\ w = WBinary y) \/ (l = y /\ w = WBinary x).
Proof.
  intros b x y s l w. assert (E : watches (new_binary_clause b x y s) = watches (watch_binary x y s)) by (destruct b; reflexivity).
  rewrite E. clear E. cbn. unfold upd.
  destruct (Nat.eqb_spec l y) as [->|N1]; destruct (Nat.eqb_spec y x) as [->|N2]; rewrite ?Nat.eqb_refl, ?in_app_iff; cbn [In];
    try (destruct (Nat.eqb_spec l x) as [->|N3]; rewrite ?in_app_iff; cbn [In]); intuition congruence.
Qed.
Lemma cnt_pair : forall c a b, cnt c [[a; b]] = cnt c [[b; a]].
Proof.
  intros c a b. rewrite !cnt_cons. f_equal. f_equal. apply set_eqb_same_r. intros l. cbn. tauto.
Qed.
Lemma cnt_new_binary : forall b x y s c, x <> y -> x < 2 * vars s -> y < 2 * vars s ->
  cnt c (binaries (vars s) (watches (new_binary_clause b x y s))) = cnt c ([x; y] :: binaries (vars s) (watches s)).
Proof.
  intros b x y s c N X Y. assert (E : watches (new_binary_clause b x y s) = watches (watch_binary x y s)) by (destruct b; reflexivity).
  rewrite E. clear E. unfold watch_binary, push_watch. cbn [set_watches watches vars].
  rewrite (cnt_binaries_push (vars s) (upd (watches s) x (watches s x ++ [WBinary y])) c y (WBinary x) Y).
  rewrite (cnt_binaries_push (vars s) (watches s) c x (WBinary y) X).
  change ([x; y] :: binaries (vars s) (watches s)) with ([[x; y]] ++ binaries (vars s) (watches s)). rewrite cnt_app.
  unfold binary_of. destruct (Nat.ltb_spec x y); destruct (Nat.ltb_spec y x); try lia; rewrite ?cnt_nil; [lia|].
  rewrite (cnt_pair c x y). lia.
Qed.
Lemma bal_new_binary : forall b x y s, x <> y -> (forall a e, bcount e (watches s a) = bcount a (watches s e)) ->
  forall a e, bcount e (watches (new_binary_clause b x y s) a) = bcount a (watches (new_binary_clause b x y s) e).
Proof.
  intros b x y s N W3 a e. replace (watches (new_binary_clause b x y s)) with (watches (watch_binary x y s)) by (destruct b; reflexivity).
  unfold watch_binary, push_watch. cbn [set_watches watches]. specialize (W3 a e). unfold upd.
  assert (Q : forall k o ws, bcount k (ws ++ [WBinary o]) = bcount k ws + (if k =? o then 1 else 0)).
  { intros k o ws. rewrite bcount_app. f_equal. unfold bcount. cbn. now destruct (k =? o). }
  repeat match goal with |- context [?u =? ?w] => destruct (Nat.eqb_spec u w); subst; try congruence; try lia end;
    rewrite ?Q, ?Nat.eqb_refl;
    repeat match goal with |- context [?u =? ?w] => destruct (Nat.eqb_spec u w); subst; try congruence; try lia end; lia.
Qed.
Lemma winv_new_binary : forall b x y s, winv (rooted s) (vars s) (active s) (arena s) (watches s) -> x <> y -> dom s x -> dom s y ->
  winv (rooted s) (vars s) (active s) (arena s) (watches (new_binary_clause b x y s)).
Proof.
  intros b x y s [W1 W2 W3 W4] N X Y.
  assert (Fl : forall r l, filter (watches_ref r) (watches (new_binary_clause b x y s) l) = filter (watches_ref r) (watches s l)).
  { intros r l. replace (watches (new_binary_clause b x y s)) with (watches (watch_binary x y s)) by (destruct b; reflexivity).
    unfold watch_binary, push_watch. cbn [set_watches watches]. unfold upd.
    destruct (Nat.eqb_spec l y) as [->|]; destruct (Nat.eqb_spec y x) as [->|]; rewrite ?filter_app; cbn [filter watches_ref]; rewrite ?app_nil_r; auto;
      destruct (Nat.eqb_spec l x) as [->|]; rewrite ?filter_app; cbn [filter watches_ref]; rewrite ?app_nil_r; auto. }
  constructor.
  - intros l k r Rl I. apply (W1 l k r Rl). apply new_binary_watches in I as [I|[[_ I]|[_ I]]]; auto; discriminate.
  - intros r c l A G Wl. rewrite Fl. eauto.
  - now apply bal_new_binary.
  - intros a e I. apply new_binary_watches in I as [I|[[-> I]|[-> I]]]; auto; inversion I; auto.
Qed.
Lemma core_new_binary : forall orig p s x y, core orig p s -> x <> y -> dom s x -> dom s y -> rup neg (db s) [x; y] ->
  core orig p (new_binary_clause false x y s).
Proof.
  intros orig p s x y Co N X Y Ru. set (s' := new_binary_clause false x y s).
  assert (R : reshaped s s') by apply new_binary_reshaped.
  apply (core_reshaped s s' R orig p p); auto.
  - destruct (co_c _ _ _ Co) as [C1 C2 C3 C4 C5]. constructor; auto.
  - apply (winv_new_binary false x y s); auto. apply Co.
  - apply linv_add with (s := s) (c := [x; y]); auto; [apply Co|intros k [<-|[<-|[]]]; now apply dom_lt| |].
    + intros c. rewrite cnt_cons, !cnt_db, (rs_root_units _ _ R). change (vars s') with (vars s).
      change (arena s') with (arena s). change (next_ref s') with (next_ref s).
      unfold s'. rewrite cnt_new_binary by auto. rewrite cnt_cons. lia.
    + intros v Sa d D. apply Sa. apply in_irr. apply in_irr in D as [D|[D|D]]; [| |now right; right].
      * left. now rewrite (rs_root_units _ _ R).
      * right. left. apply in_binaries. apply in_binaries in D as (a & e & A1 & A2 & A3 & A4). exists a, e. splits; auto.
        apply new_binary_watches. auto.
  - intros a e I. apply new_binary_watches. auto.
Qed.
