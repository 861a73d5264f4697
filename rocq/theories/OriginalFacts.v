(** Adding original clauses: the proof and the clauses of the solver. *)
From Coq Require Import ZArith List Bool Lia Arith Permutation.
From Coq Require Import ZifyBool ZifyNat.
From Verif Require Import Base Hoare SpecSat Lit Sem Solver Analyze Search Api Inv DbFacts AssignFacts AssignSpec BacktrackFacts PropFacts PropLoop CutFacts OneLit MarkFacts ClauseFacts LearnFacts.
Import ListNotations.
Open Scope nat_scope.

(** ** More original clauses *)
Lemma meq_cons : forall c a b, meq a b -> meq (c :: a) (c :: b).
Proof. intros c a b H x. rewrite !cnt_cons. now rewrite H. Qed.
Lemma pdb_cons : forall st orig c, proof_ok orig st -> meq (pdb (c :: orig) st) (c :: pdb orig st).
Proof.
  induction st as [|[d|d] st IH]; intros orig c; cbn [proof_ok pdb].
  - intros _. apply meq_refl.
  - intros [_ P]. specialize (IH orig c P). intros x. rewrite !cnt_cons. rewrite (IH x), cnt_cons. lia.
  - intros [P1 P2]. specialize (IH orig c P2). intros x. rewrite cnt_cons.
    assert (Q : 0 < cnt d (pdb (c :: orig) st)) by (rewrite IH, cnt_cons; lia).
    pose proof (cnt_remove_same d _ x Q) as A. pose proof (cnt_remove_same d _ x P1) as B. rewrite IH, cnt_cons in A. lia.
Qed.
Lemma proof_ok_cons : forall st orig c, proof_ok orig st -> proof_ok (c :: orig) st.
Proof. intros st orig c P. apply (proof_ok_msub st orig); auto. intros x. rewrite cnt_cons. lia. Qed.

Lemma linv_perm : forall orig orig' s, Permutation orig orig' -> linv orig s -> linv orig' s.
Proof.
  intros orig orig' s P [A B C D Ra].
  assert (M : forall a b, Permutation a b -> msub a b).
  { intros a b H x. clear -H. induction H; rewrite ?cnt_cons; lia. }
  destruct (proof_ok_msub _ _ _ (M _ _ P) A) as [A1 A2]. constructor; auto.
  - eapply msub_trans; eauto.
  - intros I. specialize (C I). specialize (A2 []). lia.
  - intros v Sv c Ic. apply (D v Sv). now apply (Permutation_in _ (Permutation_sym P)).
Qed.
Lemma core_perm : forall orig orig' p s, Permutation orig orig' -> core orig p s -> core orig' p s.
Proof. intros orig orig' p s P []. constructor; auto. now apply (linv_perm orig). Qed.

(** An original clause is added to the clauses of the solver. *)
Lemma linv_original : forall orig s s' c, linv orig s -> steps s' = steps s -> (inconsistent s' = true -> inconsistent s = true) -> vars s' = vars s ->
  msub (db s') (c :: db s) -> (forall v, sat v (irr s') -> sat v (irr s) /\ sat_clause v c) -> linv (c :: orig) s'.
Proof.
  intros orig s s' c [P D Em Mo Ra] E I Vs M V. rewrite <- E in *. pose proof (pdb_cons _ _ c P) as Q. constructor; [| | | |now rewrite Vs].
  - now apply proof_ok_cons.
  - apply (msub_trans _ (c :: db s)); auto. apply (msub_trans _ (c :: pdb orig (steps s'))); [now apply msub_cons|].
    apply meq_msub, meq_sym, Q.
  - intros H. rewrite Q, cnt_cons. specialize (Em (I H)). lia.
  - intros v Sv d [<-|Id]; [now apply V|]. apply (Mo v); auto. now apply V.
Qed.

(** ** Derivations with a clause shrunken by root-level units *)
Definition shrinks (D : list (list lit)) (c K : list lit) : Prop :=
  (forall l, In l K -> In l c) /\ (forall l, In l c -> In l K \/ exists d, In d D /\ same_literals [neg l] d).

Lemma derive_unit_clause : forall D A l, (exists d, In d D /\ same_literals [l] d) -> derive D A l.
Proof.
  intros D A l (d & Id & E). apply derives_unit with d; auto.
  - apply E. now left.
  - intros k Ik N. apply E in Ik as [<-|[]]. congruence.
Qed.
Lemma derive_cut : forall D A K c l, In c D -> shrinks D c K -> derive (K :: D) A l -> derive D A l.
Proof.
  intros D A K c l Ic [S1 S2] H. induction H as [l H|d l Id Il Hk IH].
  - now apply derives_assumed.
  - destruct Id as [<-|Id].
    + apply derives_unit with c; auto. intros k Ik N. destruct (S2 k Ik) as [I|I]; [now apply IH|]. now apply derive_unit_clause.
    + apply derives_unit with d; auto.
Qed.
Lemma rup_cut : forall D K c x, In c D -> shrinks D c K -> rup neg (K :: D) x -> rup neg D x.
Proof.
  intros D K c x Ic Sh (d & Id & H). destruct Id as [<-|Id].
  - exists c. split; auto. intros k Ik. destruct (proj2 Sh k Ik) as [I|I].
    + apply (derive_cut D _ K c); auto.
    + now apply derive_unit_clause.
  - exists d. split; auto. intros k Ik. apply (derive_cut D _ K c); auto.
Qed.
Lemma rup_shrunken : forall D K c, In c D -> shrinks D c K -> rup neg D K.
Proof.
  intros D K c Ic [S1 S2]. exists c. split; auto. intros k Ik. destruct (S2 k Ik) as [I|I].
  - apply derives_assumed. exists k. auto.
  - now apply derive_unit_clause.
Qed.
Lemma shrinks_mono : forall D D' c K, covers D D' -> shrinks D c K -> shrinks D' c K.
Proof.
  intros D D' c K C [S1 S2]. split; auto. intros l Il. destruct (S2 l Il) as [I|(d & Id & E)]; auto. right.
  destruct (C d Id) as (e & Ie & F). exists e. split; auto. eapply same_literals_trans; eauto.
Qed.
Lemma rup_covers : forall D D' x, covers D D' -> rup neg D x -> rup neg D' x.
Proof. intros D D' x C R. eapply rup_mono; eauto. Qed.

(** The lines derived with the original clause [K] are also derived with the original clause [c]. *)
Lemma pdb_added : forall P orig st, pdb orig (map (@Added lit) P ++ st) = P ++ pdb orig st.
Proof. induction P as [|c P IH]; intros orig st; cbn; auto. now rewrite IH. Qed.
Lemma shrunken_proof : forall P orig st c K, proof_ok orig st -> shrinks (pdb orig st) c K ->
  proof_ok (K :: orig) (map (@Added lit) P ++ st) -> proof_ok (c :: orig) (map (@Added lit) P ++ st).
Proof.
  induction P as [|x P IH]; intros orig st c K Ok Sh.
  - intros _. now apply proof_ok_cons.
  - cbn [map app proof_ok]. intros [R Pr]. split; [|eapply IH; eauto].
    rewrite pdb_added in *.
    pose proof (pdb_cons _ _ K Ok) as Qk. pose proof (pdb_cons _ _ c Ok) as Qc.
    assert (X : rup neg (c :: P ++ pdb orig st) x).
    { apply (rup_cut _ K c); [now left| |].
      - apply (shrinks_mono (pdb orig st)); auto. apply incl_covers. intros d Id. right. apply in_or_app. now right.
      - eapply rup_covers; [|exact R]. intros d Id. apply in_app_or in Id as [Id|Id].
        + exists d. split; [right; right; apply in_or_app; auto|apply same_literals_refl].
        + destruct (meq_covers _ _ Qk d Id) as (e & [<-|Ie] & E).
          * exists K. split; auto. now left.
          * exists e. split; auto. right. right. apply in_or_app. now right. }
    eapply rup_covers; [|exact X]. intros d [<-|Id].
    + destruct (meq_covers _ _ (meq_sym _ _ Qc) c (or_introl eq_refl)) as (e & Ie & E). exists e. split; auto. apply in_or_app. now right.
    + apply in_app_or in Id as [Id|Id].
      * exists d. split; [apply in_or_app; auto|apply same_literals_refl].
      * destruct (meq_covers _ _ (meq_sym _ _ Qc) d (or_intror Id)) as (e & Ie & E). exists e. split; auto. apply in_or_app. now right.
Qed.

Lemma shrunken_linv : forall P orig st c K s, proof_ok orig st -> shrinks (pdb orig st) c K -> c <> [] -> steps s = map (@Added lit) P ++ st -> (forall l, In l K -> l < 2 * vars s) ->
  linv (K :: orig) s -> linv (c :: orig) (del_step c (add_step K s)).
Proof.
  intros P orig st c K s Ok Sh Nc E Rk [A B C D Ra]. rewrite E in *. pose proof (shrunken_proof _ _ _ _ _ Ok Sh A) as Pr.
  pose proof (pdb_cons _ _ K Ok) as Qk. pose proof (pdb_cons _ _ c Ok) as Qc.
  assert (Cn : forall x, cnt x (pdb (c :: orig) (map (@Added lit) P ++ st)) = b2n (set_eqb x c) + cnt x P + cnt x (pdb orig st)).
  { intros x. rewrite pdb_added, cnt_app, Qc, cnt_cons. lia. }
  assert (Ck : forall x, cnt x (pdb (K :: orig) (map (@Added lit) P ++ st)) = b2n (set_eqb x K) + cnt x P + cnt x (pdb orig st)).
  { intros x. rewrite pdb_added, cnt_app, Qk, cnt_cons. lia. }
  assert (Pos : 0 < cnt c (K :: pdb (c :: orig) (map (@Added lit) P ++ st))).
  { rewrite cnt_cons, Cn, set_eqb_refl. cbn [b2n]. lia. }
  assert (Fin : forall x, cnt x (remove_same c (K :: pdb (c :: orig) (map (@Added lit) P ++ st))) = b2n (set_eqb x K) + cnt x P + cnt x (pdb orig st)).
  { intros x. pose proof (cnt_remove_same c _ x Pos) as H. rewrite cnt_cons, Cn in H. lia. }
  constructor.
  5:{ cbn [del_step add_step set_steps steps vars]. rewrite E. intros x l [X|[X|X]]; [discriminate|replace x with K in * by congruence; auto|now apply (Ra x)]. }
  - cbn [del_step add_step set_steps steps]. rewrite E. cbn [proof_ok pdb]. splits; auto.
    assert (Cov : covers (c :: pdb orig st) (pdb (c :: orig) (map (@Added lit) P ++ st))).
    { apply msub_covers. intros x. rewrite Cn, cnt_cons. lia. }
    eapply rup_covers; [exact Cov|]. apply (rup_shrunken _ K c); [now left|]. apply (shrinks_mono (pdb orig st)); auto.
    apply incl_covers. intros d Id. now right.
  - cbn [del_step add_step set_steps steps]. rewrite E. cbn [pdb]. intros x. rewrite Fin, <- Ck. apply B.
  - intros I. cbn [del_step add_step set_steps steps]. rewrite E. cbn [pdb]. rewrite Fin, <- Ck. apply C, I.
  - intros v Sv. pose proof (D v Sv) as So. intros d [<-|Id]; [|apply So; now right].
    destruct (So K (or_introl eq_refl)) as (l & Il & Tl). exists l. split; auto. now apply Sh.
Qed.

(** ** Propagation only adds lines to the proof *)
Definition adds (s s' : solver) : Prop := exists P, steps s' = map (@Added lit) P ++ steps s.
Lemma adds_refl : forall s s', steps s' = steps s -> adds s s'.
Proof. intros s s' E. now exists []. Qed.
Lemma adds_trans : forall a b c, adds a b -> adds b c -> adds a c.
Proof. intros a b c [P E] [Q F]. exists (Q ++ P). now rewrite F, E, map_app, app_assoc. Qed.
Lemma assign_adds : forall lvl r l s s', assign lvl r l s = Ret s' -> adds s s'.
Proof.
  intros lvl r l s s'. unfold assign. destruct (is_unassigned s l && is_unassigned s (neg l)); [|discriminate].
  destruct (0 <? unassigned s); [|discriminate]. cbn [oassert obind]. intros H. inversion H; subst s'. clear H.
  destruct (lvl =? 0); [|now apply adds_refl]. destruct (is_unit_reason r); [now apply adds_refl|]. now exists [[l]].
Qed.
Lemma propagate_watches_adds : forall o nl lvl ws kept delayed s s' k d c,
  propagate_watches o nl lvl ws kept delayed s = Ret (s', k, d, c) -> adds s s'.
Proof.
  intros o nl lvl. induction ws as [|w ws IH]; intros kept delayed s s' k d c; cbn [propagate_watches].
  - intros H. inversion H. now apply adds_refl.
  - destruct (is_true s (watch_head w)); [apply IH|]. destruct w as [other|b ref].
    + destruct (is_false s other); [intros H; inversion H; now apply adds_refl|].
      destruct (fast_binary_assign o lvl other nl s) as [s1| | |] eqn:E; try discriminate. cbn [obind]. intros H.
      apply IH in H. apply assign_adds in E. eapply adds_trans; eauto.
    + destruct (arena s ref) as [cl|]; [|discriminate]. destruct (c_garbage cl); [apply IH|].
      destruct (c_lits cl) as [|l0 [|l1 rest]]; try discriminate.
      destruct (other_watch l0 l1 nl) as [other|]; [|discriminate]. destruct (is_true s other); [apply IH|].
      destruct (search_replacement s rest (c_searched cl)) as [r|].
      * intros H. apply IH in H. eapply adds_trans; [|exact H]. now apply adds_refl.
      * destruct (is_false s other); [intros H; inversion H; now apply adds_refl|].
        destruct (assign_reference other ref s) as [s1| | |] eqn:E; try discriminate. cbn [obind]. intros H.
        apply IH in H. unfold assign_reference in E. destruct (arena s ref); [|discriminate]. apply assign_adds in E. eapply adds_trans; eauto.
Qed.
Lemma push_delayed_steps : forall d s, steps (push_delayed d s) = steps s.
Proof. unfold push_delayed. induction d as [|x d IH]; intros s; cbn [fold_left]; auto. now rewrite IH. Qed.
Lemma propagate_loop_adds : forall fuel o s s' c, propagate_loop fuel o s = Ret (s', c) -> adds s s'.
Proof.
  induction fuel as [|fuel IH]; intros o s s' c; cbn [propagate_loop]; destruct (nth_error (trail s) (propagate s)) as [l|]; try discriminate;
    try (intros H; inversion H; now apply adds_refl).
  destruct (propagate_literal o l (set_propagate (S (propagate s)) s)) as [[s1 cf]| | |] eqn:E; try discriminate. cbn [obind].
  assert (A : adds s s1).
  { unfold propagate_literal in E. destruct (is_true (set_propagate (S (propagate s)) s) l); [|discriminate]. cbn [oassert obind] in E.
    match type of E with obind ?X _ = _ => destruct X as [[[[s2 ws] d] c2]| | |] eqn:P; try discriminate end.
    cbn [obind] in E. inversion E; subst. apply propagate_watches_adds in P as [L P]. exists L. rewrite push_delayed_steps. cbn. exact P. }
  destruct cf as [cf|]; intros H; [inversion H; subst; auto|]. apply IH in H. eapply adds_trans; eauto.
Qed.
Lemma search_propagate_adds : forall o s s' c, search_propagate o s = Ret (s', c) -> adds s s'.
Proof.
  intros o s s' c. unfold search_propagate. destruct (propagate_loop (S (vars s)) o s) as [[s1 cf]| | |] eqn:E; try discriminate.
  cbn [obind]. intros H. apply propagate_loop_adds in E. inversion H; subst. eapply adds_trans; [exact E|].
  unfold update_conflicts_and_trail. destruct c.
  - destruct (level s1 =? 0); [|now apply adds_refl]. now exists [[]].
  - destruct ((level s1 =? 0) && (0 <? unflushed s1)); now apply adds_refl.
Qed.

(** ** The state between calls of the interface *)
Record live (orig : list (list lit)) (s : solver) : Prop := {
  lv_core : core orig 0 s; lv_level : level s = 0; lv_trail : trail s = []; lv_prop : propagate s = 0;
  lv_pinv : pinv 0 s; lv_clean : clean (an s); lv_ok : inconsistent s = false }.
Lemma live_perm : forall orig orig' s, Permutation orig orig' -> live orig s -> live orig' s.
Proof. intros orig orig' s P []. constructor; auto. now apply (core_perm orig). Qed.
Lemma live_ready : forall orig s, live orig s -> ready orig s.
Proof. intros orig s [C L T P I Cl O]. unfold ready. rewrite T, P. auto. Qed.
Lemma core_any : forall orig p q s, trail s = [] -> core orig p s -> core orig q s.
Proof. intros orig p q s T []. constructor; auto. intros l I. rewrite T in I. destruct I. Qed.

Lemma live_init : live [] solver_init.
Proof.
  constructor; try reflexivity.
  - constructor.
    + constructor; try reflexivity; try (cbn; intros; congruence); try (cbn; intros; lia); cbn; try constructor; try (intros i l H; destruct i; discriminate); intros l [].
    + constructor; try reflexivity; cbn; try (intros; lia); try (intros k i l H; destruct i; discriminate).
      unfold T. cbn. intros [|[|j]] [|[|k]] H; cbn; lia.
    + constructor; cbn; intros; congruence || contradiction.
    + constructor; cbn; intros; congruence || contradiction.
    + constructor; cbn.
      * exact I.
      * apply msub_refl.
      * discriminate.
      * intros v _ c [].
      * intros c l [].
    + intros l [].
  - constructor; cbn; [intros a b []|congruence].
  - unfold clean. cbn. auto 12.
Qed.

(** ** One more variable *)
Definition enlarged (s : solver) : solver :=
  let i := vars s in
  set_vars (S i)
    (set_active (upd (active s) i false)
      (set_values (upd (upd (values s) (2 * i) None) (S (2 * i)) None)
        (set_assigned (upd (assigned s) i no_asg)
          (set_watches (upd (upd (watches s) (2 * i) []) (S (2 * i)) []) s)))).

Section Enlarge.
Variable s : solver.
Let s' := enlarged s.
Lemma en_value : forall l, l < 2 * vars s -> values s' l = values s l.
Proof. intros l H. cbn. now rewrite !upd_other by lia. Qed.
Lemma en_none : forall l, vinv s -> values s' l <> None -> l < 2 * vars s /\ values s' l = values s l.
Proof.
  intros l V. cbn. unfold upd. destruct (l =? S (vars s + (vars s + 0))); [congruence|].
  destruct (l =? vars s + (vars s + 0)); [congruence|]. intros H. split; auto. apply dom_lt. now apply (ti_range _ V).
Qed.
Lemma en_watches : forall l, l < 2 * vars s -> watches s' l = watches s l.
Proof. intros l H. cbn. now rewrite !upd_other by lia. Qed.
Lemma en_asg : forall l, l < 2 * vars s -> assigned s' (idx l) = assigned s (idx l).
Proof. intros l H. apply idx_lt in H. cbn. now rewrite !upd_other by lia. Qed.
Lemma en_lev : forall l, l < 2 * vars s -> lev s' l = lev s l.
Proof. intros l H. unfold lev. now rewrite en_asg. Qed.
Lemma en_dom : forall l, dom s l -> dom s' l.
Proof.
  intros l [H A]. unfold dom, in_dom. change (vars s') with (S (vars s)). split; [lia|]. cbn.
  apply idx_lt in H. now rewrite upd_other by lia.
Qed.
Lemma en_seq : seq 0 (2 * S (vars s)) = seq 0 (2 * vars s) ++ [2 * vars s; S (2 * vars s)].
Proof. replace (2 * S (vars s)) with (2 * vars s + 2) by lia. rewrite seq_app. reflexivity. Qed.
Lemma en_last : values s' (2 * vars s) = None /\ values s' (S (2 * vars s)) = None /\ watches s' (2 * vars s) = [] /\ watches s' (S (2 * vars s)) = [].
Proof. cbn. unfold upd. rewrite !Nat.eqb_refl. splits; auto; now destruct (_ =? _). Qed.
Lemma en_root_units : root_units s' = root_units s.
Proof.
  unfold root_units. change (vars s') with (S (vars s)). rewrite en_seq, filter_app. cbn [filter].
  assert (Z1 : is_true s' (2 * vars s) = false) by (unfold is_true; now rewrite (proj1 en_last)).
  assert (Z2 : is_true s' (S (2 * vars s)) = false) by (unfold is_true; now rewrite (proj1 (proj2 en_last))).
  rewrite Z1, Z2. cbn [andb]. rewrite app_nil_r. f_equal. apply filter_ext_in. intros l I. apply in_seq in I.
  unfold is_true. rewrite en_value, en_lev by lia. reflexivity.
Qed.
Lemma en_binaries : binaries (vars s') (watches s') = binaries (vars s) (watches s).
Proof.
  unfold binaries. change (vars s') with (S (vars s)). rewrite en_seq, flat_map_app. cbn [flat_map].
  destruct en_last as (_ & _ & -> & ->). cbn. rewrite app_nil_r. fold (seq 0 (2 * vars s)).
  assert (E : forall xs, (forall l, In l xs -> l < 2 * vars s) -> flat_map (fun a => flat_map (binary_of a) (watches s' a)) xs = flat_map (fun a => flat_map (binary_of a) (watches s a)) xs).
  { induction xs as [|x xs IH]; intros H; cbn [flat_map]; auto. rewrite IH by (intros; apply H; now right). rewrite en_watches; auto. apply H. now left. }
  apply E. intros l I. apply in_seq in I. cbn. lia.
Qed.
Lemma en_db : db s' = db s. Proof. unfold db. now rewrite en_root_units, en_binaries. Qed.
Lemma en_irr : irr s' = irr s. Proof. unfold irr. now rewrite en_root_units, en_binaries. Qed.

Lemma live_enlarge : forall orig, live orig s -> live orig s'.
Proof.
  intros orig [[V F C W L R] Lv Tr Pr Pi Cl Ok]. constructor; auto.
  - constructor.
    + constructor; try (cbn; rewrite Tr; cbn; intros; contradiction).
      * intros l. destruct (Nat.lt_ge_cases l (2 * vars s)) as [H|H].
        -- rewrite !en_value; [apply V| |]; auto. now apply neg_lt.
        -- assert (X : forall k, 2 * vars s <= k -> values s' k = None).
           { intros k K. destruct (values s' k) eqn:E; auto. destruct (en_none k V) as [Q _]; [congruence|lia]. }
           rewrite !X; auto. apply Nat.nlt_ge. rewrite neg_lt. lia.
      * intros l H. destruct (en_none l V H) as [A B]. apply en_dom. apply (ti_range _ V). congruence.
      * cbn. rewrite Tr. constructor.
      * intros i l H. cbn in H. rewrite Tr in H. destruct i; discriminate.
      * intros l H _. destruct (en_none l V) as [A B]; [congruence|]. rewrite en_lev by auto. apply (ti_root _ V); [congruence|]. now rewrite Tr.
      * intros l H E. destruct (en_none l V) as [A B]; [congruence|]. rewrite en_lev in E by auto. unfold reas. rewrite en_asg by auto. apply (ti_unit _ V); congruence.
      * cbn. rewrite Pr, Tr. auto.
      * change (unassigned s') with (unassigned s). rewrite (ti_unas _ V). change (vars s') with (S (vars s)).
        rewrite seq_S, filter_app, app_length. cbn [filter plus]. change (active s') with (upd (active s) (vars s) false). rewrite upd_same. cbn [andb length].
        rewrite Nat.add_0_r. f_equal. apply filter_ext_in. intros i I. apply in_seq in I. rewrite upd_other by lia. f_equal.
        unfold is_unassigned. rewrite en_value by lia. reflexivity.
      * cbn. rewrite Tr. rewrite (ti_unfl _ V), Tr. reflexivity.
    + destruct F. constructor; auto; unfold s'; cbn; rewrite ?Tr, ?Lv; intros; try lia. destruct i; discriminate.
    + destruct C as [C1 C2 C3 C4 C5]. constructor; auto. intros r c l A G I. apply en_dom. eauto.
    + destruct W as [W1 W2 W3 W4].
      assert (Bn : forall a b, In (WBinary b) (watches s' a) -> a < 2 * vars s /\ In (WBinary b) (watches s a)).
      { intros a b I. cbn in I. unfold upd in I. destruct (a =? S (vars s + (vars s + 0))); [destruct I|]. destruct (a =? vars s + (vars s + 0)); [destruct I|].
        split; auto. apply dom_lt. now apply (W4 a b). }
      constructor.
      * intros l b r H I. cbn in I. unfold upd in I. destruct (Nat.eqb_spec l (S (vars s + (vars s + 0)))); [destruct I|].
        destruct (Nat.eqb_spec l (vars s + (vars s + 0))); [destruct I|]. change (vars s') with (S (vars s)) in H. apply (W1 l b r); auto. lia.
      * intros r c l A G Wa. assert (D : dom s l). { apply (ci_range _ C r c); auto. destruct Wa as [X|X]; eapply nth_error_In; eauto. }
        rewrite en_watches by auto. destruct (W2 r c l A G Wa) as [E|(E & t & It & [Rt Rl])]; [now left|]. right. split; auto. exists t. split; auto.
        assert (Dt : dom s t) by (eapply (ci_range _ C); eauto). unfold rooted. now rewrite en_value, en_lev by auto.
      * assert (Z : forall a b, ~ (a < 2 * vars s /\ b < 2 * vars s) -> bcount b (watches s' a) = 0).
        { intros a b H. destruct (bcount b (watches s' a)) eqn:Eb; auto. assert (Hb : 0 < bcount b (watches s' a)) by lia.
          apply bcount_in, Bn in Hb as [A I]. destruct (W4 a b I) as (_ & _ & [B _]). tauto. }
        intros a b. destruct (lt_dec a (2 * vars s)) as [A|A]; [destruct (lt_dec b (2 * vars s)) as [B|B]|].
        -- rewrite !en_watches by auto. apply W3.
        -- rewrite !Z; auto; tauto.
        -- rewrite !Z; auto; tauto.
      * intros a b I. apply Bn in I as [A I]. pose proof (W4 a b I) as (N & Da & Db). split; auto. split; apply en_dom; auto.
    + destruct L as [La Lb Lc Ld Le]. constructor; rewrite ?en_db, ?en_irr; auto. intros x k I Ik. specialize (Le x k I Ik).
      change (vars s') with (S (vars s)). lia.
    + intros l I. cbn in I. rewrite Tr in I. destruct I.
  - assert (Wo : forall c w x, watched_ok s 0 c w x -> watched_ok s' 0 c w x).
    { intros c w x [H U]. split.
      - intros Fw _ Fx _ k K. destruct (en_none w V) as [_ Ew]; [congruence|]. destruct (en_none x V) as [_ Ex]; [congruence|].
        destruct (H ltac:(congruence)) with (k := k) as (t & It & Tt & Lt); try congruence; try (intros I; rewrite Tr in I; destruct I).
        { destruct K as [K|_]; [now left|]. right. split; intros I; rewrite Tr in I; destruct I. }
        exists t. assert (D : t < 2 * vars s) by (apply dom_lt, (ti_range _ V); congruence). now rewrite en_value, en_lev by auto.
      - intros Fw _ _. destruct (en_none w V) as [_ Ew]; [congruence|].
        destruct U as (t & It & Tt & Lt); [congruence| | |]; try (intros I; rewrite Tr in I; destruct I).
        exists t. assert (D : t < 2 * vars s) by (apply dom_lt, (ti_range _ V); congruence). now rewrite en_value, en_lev by auto. }
    destruct Pi as [P1 P2]. constructor.
    + intros a b I. apply Wo, P1. cbn in I. unfold upd in I. destruct (a =? S (vars s + (vars s + 0))); [destruct I|]. destruct (a =? vars s + (vars s + 0)); [destruct I|]. auto.
    + intros r c w x A G Ww Wx N. apply Wo. eapply P2; eauto.
Qed.
End Enlarge.

(** ** Activating a variable *)
Definition activated (l : lit) (s : solver) : solver :=
  set_unassigned (S (unassigned s)) (set_active (upd (active s) (idx l) true) s).
Lemma live_activated : forall orig s l, live orig s -> l < 2 * vars s -> values s l = None -> active s (idx l) = false -> live orig (activated l s).
Proof.
  intros orig s l [[V F C W L R] Lv Tr Pr Pi Cl Ok] Hl N Na.
  assert (D : forall k, dom s k -> dom (activated l s) k).
  { intros k [A B]. split; auto. cbn. unfold upd. now destruct (idx k =? idx l). }
  constructor; auto.
  - constructor.
    + pose proof V as V0. destruct V as [V1 V2 V3 V4 V5 V6 V7 V8 V9 V10]. constructor; auto. cbn [activated set_unassigned set_active unassigned active vars]. rewrite V9.
      pose proof (filter_count_upd (fun i => upd (active s) (idx l) true i && is_unassigned s (2 * i)) (fun i => active s i && is_unassigned s (2 * i)) (seq 0 (vars s)) (idx l)) as Q.
      symmetry. apply Q; auto.
      * apply seq_NoDup.
      * apply in_seq. apply idx_lt in Hl. lia.
      * rewrite upd_same. cbn [andb]. apply is_unassigned_spec. rewrite (assigned_idx s l); auto. now rewrite idx_even.
      * now rewrite Na.
      * intros j J. now rewrite upd_other by auto.
    + destruct F. constructor; auto.
    + destruct C as [C1 C2 C3 C4 C5]. constructor; auto. intros r c k A G I. apply D. eauto.
    + destruct W as [W1 W2 W3 W4]. constructor; auto. intros a b I. destruct (W4 a b I) as (X & Y & Z). splits; auto; now apply D.
    + apply linv_same with (s := s); auto. apply msub_refl.
    + intros k I. cbn in I. rewrite Tr in I. destruct I.
  - destruct Pi as [P1 P2]. constructor; [exact P1|exact P2].
Qed.
Lemma activate_spec : forall orig s l, live orig s -> l < 2 * vars s -> values s l = None ->
  exists s', activate_literal l s = Ret s' /\ live orig s' /\ dom s' l /\ vars s' = vars s /\ values s' = values s /\
    assigned s' = assigned s /\ steps s' = steps s /\ (forall k, dom s k -> dom s' k).
Proof.
  intros orig s l L Hl N. unfold activate_literal. rewrite (proj2 (is_unassigned_spec s l)) by auto. cbn [oassert obind].
  destruct (active s (idx l)) eqn:A.
  - exists s. splits; auto. now split.
  - exists (activated l s). splits; auto.
    + now apply live_activated.
    + split; auto. cbn. now rewrite upd_same.
    + intros k [X Y]. split; auto. cbn. unfold upd. now destruct (idx k =? idx l).
Qed.

(** ** The clause is added *)
Definition sinv (orig : list (list lit)) (s : solver) : Prop :=
  (proof_ok orig (steps s) /\ ranged (vars s) (steps s)) /\ if inconsistent s then 0 < cnt [] (pdb orig (steps s)) else live orig s.
Lemma live_sinv : forall orig s, live orig s -> sinv orig s.
Proof. intros orig s L. split; [split; apply L|]. rewrite (lv_ok _ _ L). auto. Qed.
Lemma sinv_perm : forall orig orig' s, Permutation orig orig' -> sinv orig s -> sinv orig' s.
Proof.
  intros orig orig' s P [[A Ra] B].
  assert (M : msub orig orig') by (intros x; clear -P; induction P; rewrite ?cnt_cons; lia).
  destruct (proof_ok_msub _ _ _ M A) as [A1 A2]. split; auto. destruct (inconsistent s).
  - specialize (A2 []). lia.
  - now apply (live_perm orig).
Qed.
Lemma sinv_enlarge : forall orig s, sinv orig s -> sinv orig (enlarged s).
Proof.
  intros orig s [[A Ra] B]. split; [split; auto; intros c l I J; pose proof (Ra c l I J); cbn; lia|]. change (inconsistent (enlarged s)) with (inconsistent s). destruct (inconsistent s); auto.
  now apply live_enlarge.
Qed.

(** A clause which is satisfied by all models is deleted immediately. *)
Lemma deleted_counts : forall orig st c, proof_ok orig st -> 0 < cnt c (pdb (c :: orig) st) /\ meq (remove_same c (pdb (c :: orig) st)) (pdb orig st).
Proof.
  intros orig st c P. pose proof (pdb_cons _ _ c P) as Q.
  assert (X : 0 < cnt c (pdb (c :: orig) st)) by (rewrite Q, cnt_cons, set_eqb_refl; cbn [b2n]; lia).
  split; auto. intros x. pose proof (cnt_remove_same c _ x X) as H. rewrite Q, cnt_cons in H. lia.
Qed.
Lemma live_steps : forall orig orig' s st, live orig s -> linv orig' (set_steps st s) -> live orig' (set_steps st s).
Proof.
  intros orig orig' s st [[V F C W L R] Lv Tr Pr Pi Cl Ok] L'. constructor; auto.
  - constructor; auto.
    + destruct V. constructor; auto.
    + destruct F. constructor; auto.
    + destruct C. constructor; auto.
    + intros l I. cbn in I. rewrite Tr in I. destruct I.
  - apply (agree_pinv _ s); [constructor; reflexivity|exact Pi].
Qed.
Lemma set_steps_same : forall s, set_steps (steps s) s = s.
Proof. now intros []. Qed.
Lemma live_satisfied : forall orig s c, live orig s -> (forall v, sat v (irr s) -> sat_clause v c) -> live (c :: orig) s.
Proof.
  intros orig s c L H. rewrite <- (set_steps_same s). apply (live_steps orig); auto. rewrite set_steps_same.
  apply linv_original with (s := s); auto; [apply L|]. intros x. rewrite cnt_cons. lia.
Qed.
Lemma live_deleted : forall orig s c, live orig s -> c <> [] -> (forall v, sat v (irr s) -> sat_clause v c) -> live (c :: orig) (del_step c s).
Proof.
  intros orig s c L Nc H. apply (live_steps orig); auto. destruct (co_l _ _ _ (lv_core _ _ L)) as [A B D E Ra].
  destruct (deleted_counts _ _ c A) as [X Y]. constructor.
  - cbn. split; auto. now apply proof_ok_cons.
  - cbn [set_steps steps pdb]. apply (msub_trans _ (pdb orig (steps s))); auto. apply meq_msub, meq_sym, Y.
  - cbn. intros I. rewrite (lv_ok _ _ L) in I. discriminate.
  - intros v Sv d [<-|I]; auto. now apply (E v).
  - intros x l [I|I]; [discriminate|now apply (Ra x)].
Qed.
Lemma dead_deleted : forall orig s c, sinv orig s -> inconsistent s = true -> c <> [] -> sinv (c :: orig) (del_step c s) /\ sinv (c :: orig) s.
Proof.
  intros orig s c [[A Ra] B] I Nc. rewrite I in B. destruct (deleted_counts _ _ c A) as [X Y]. unfold sinv.
  change (inconsistent (del_step c s)) with (inconsistent s). rewrite I. cbn [del_step set_steps steps pdb proof_ok]. rewrite Y.
  splits; auto; try now apply proof_ok_cons.
  - intros d l [J|J]; [discriminate|now apply (Ra d)].
  - rewrite (pdb_cons _ _ c A), cnt_cons. lia.
Qed.
Lemma dead_cons : forall orig s c, sinv orig s -> inconsistent s = true -> sinv (c :: orig) s.
Proof.
  intros orig s c [[A Ra] B] I. rewrite I in B. unfold sinv. rewrite I. split; [split; [now apply proof_ok_cons|auto]|].
  rewrite (pdb_cons _ _ c A), cnt_cons. lia.
Qed.

Lemma unassigned_watched : forall s lim c w x, values s w = None -> values s x = None -> watched_ok s lim c w x.
Proof. intros s lim c w x A B. split; intros H; congruence. Qed.

Lemma live_binary : forall orig s x y, live orig s -> x <> y -> dom s x -> dom s y -> values s x = None -> values s y = None ->
  live ([x; y] :: orig) (new_binary_clause true x y s).
Proof.
  intros orig s x y L N X Y Nx Ny. set (s' := new_binary_clause true x y s). assert (R : reshaped s s') by apply new_binary_reshaped.
  destruct L as [Co Lv Tr Pr Pi Cl Ok].
  assert (Li : linv ([x; y] :: orig) s').
  { apply linv_original with (s := s); auto; [apply Co| |].
    - intros c. rewrite cnt_cons, !cnt_db, (rs_root_units _ _ R). change (vars s') with (vars s).
      change (arena s') with (arena s). change (next_ref s') with (next_ref s).
      unfold s'. rewrite cnt_new_binary by auto. rewrite cnt_cons. lia.
    - intros v Sa. split.
      + intros d D. apply Sa. apply in_irr. apply in_irr in D as [D|[D|D]]; [| |now right; right].
        * left. now rewrite (rs_root_units _ _ R).
        * right. left. apply in_binaries. apply in_binaries in D as (a & e & A1 & A2 & A3 & A4). exists a, e. splits; auto.
          apply new_binary_watches. auto.
      + assert (P : 0 < cnt [x; y] (binaries (vars s') (watches s'))).
        { change (vars s') with (vars s). unfold s'. rewrite cnt_new_binary by auto. rewrite cnt_cons, set_eqb_refl. cbn [b2n]. lia. }
        apply cnt_pos in P as (d & D & E). destruct (Sa d) as (l & Il & Tl); [apply in_irr; auto|]. exists l. split; auto. now apply E. }
  constructor; auto.
  - assert (Co' : core orig 0 s' \/ True) by auto. clear Co'. destruct Co as [V F C W L Ri]. constructor; auto.
    + now apply (rs_vinv s).
    + now apply (rs_finv s).
    + destruct C. constructor; auto.
    + apply (winv_new_binary true x y s); auto.
    + intros l I. rewrite (rs_trail _ _ R), Tr in I. destruct I.
  - apply (pinv_reshaped s s' R); auto. intros a b I. apply new_binary_watches in I as [I|[[-> I]|[-> I]]]; auto; inversion I; right; now apply unassigned_watched.
Qed.
Lemma live_large : forall orig s lits, live orig s -> 2 < length lits -> NoDup lits -> (forall l, In l lits -> dom s l /\ values s l = None) ->
  live (lits :: orig) (with_large true false lits s).
Proof.
  intros orig s lits L Len Nd Rg. set (s' := with_large true false lits s). assert (R : reshaped s s') by apply wl_reshaped.
  destruct L as [Co Lv Tr Pr Pi Cl Ok]. assert (Rd : forall l, In l lits -> dom s l) by (intros l I; now apply Rg).
  assert (Li : linv (lits :: orig) s').
  { apply linv_original with (s := s); auto; [apply Co| |].
    - intros c. unfold s'. rewrite wl_db, cnt_cons by auto. lia.
    - intros v Sa. split; [now apply (wl_irr_mono true false lits s)|]. apply Sa. apply in_irr. right. right.
      exists (next_ref s), (mk_clause lits false false 2). unfold s'. rewrite wl_arena, wl_next, upd_same by auto. splits; auto. }
  constructor; auto.
  - destruct Co as [V F C W L Ri]. constructor; auto.
    + now apply (rs_vinv s).
    + now apply (rs_finv s).
    + now apply wl_cinv.
    + apply (wl_winv true false lits s); auto.
    + intros l I. rewrite (rs_trail _ _ R), Tr in I. destruct I.
  - apply pinv_new_large; auto; apply unassigned_watched; apply Rg, nth_In; lia.
Qed.

Lemma core_unit : forall orig s u, live orig s -> dom s u -> values s u = None ->
  core ([u] :: orig) (length (trail (do_assign 0 RUnit u s))) (do_assign 0 RUnit u s).
Proof.
  intros orig s u [[V F C W L R] Lv Tr Pr Pi Cl Ok] D N. constructor.
  - now apply vinv_assign.
  - apply finv_assign; auto. lia.
  - now apply cinv_assign.
  - apply (winv_mono (rooted s)); [|exact W]. intros t. now apply da_rooted.
  - apply linv_original with (s := s); auto.
    + apply meq_msub. now apply da_db_root.
    + intros v Sv. split; [apply (sat_irr_covers s (do_assign 0 RUnit u s)); auto; now apply da_irr_root|].
      apply Sv. apply in_irr. left. apply in_root_units. exists u. splits; auto.
      * now apply da_true_l.
      * apply da_lev_l.
  - intros l I Hl _. apply da_in in I as [I| ->]; [rewrite Tr in I; destruct I|]. rewrite da_lev_l in Hl. lia.
Qed.

Lemma activate_all : forall orig K s, live orig s -> (forall l, In l K -> l < 2 * vars s /\ values s l = None) ->
  wp (ofold activate_literal K s) (fun s' => live orig s' /\ vars s' = vars s /\ values s' = values s /\ assigned s' = assigned s /\
    steps s' = steps s /\ (forall l, In l K -> dom s' l) /\ (forall l, dom s l -> dom s' l)).
Proof.
  intros orig. induction K as [|l K IH]; intros s L H; cbn [ofold].
  - apply wp_ret. splits; auto. intros l [].
  - destruct (activate_spec orig s l L) as (s1 & E & L1 & D1 & V1 & Va1 & A1 & S1 & M1); try (apply H; now left). rewrite E. cbn [obind].
    eapply wp_mono; [apply IH; auto|].
    + intros k I. rewrite V1, Va1. apply H. now right.
    + cbv beta. intros s2 (L2 & V2 & Va2 & A2 & S2 & D2 & M2). splits; auto; try congruence. intros k [<-|I]; auto.
Qed.
Lemma sort_unassigned : forall s K, (forall l, In l K -> values s l = None) -> 1 < length K -> sort_literals s K = K.
Proof.
  intros s K H Len. destruct K as [|a [|b K]]; cbn in Len; try lia. unfold sort_literals, move_smallest_literal_to_front.
  cbn [nth]. rewrite (H a) by now left. destruct (2 <? length (a :: b :: K)); auto. cbn [nth]. rewrite (H b) by (right; now left). reflexivity.
Qed.

(** What is known about the clause when it is complete. *)
Record complete (s : solver) (sa tr sh : bool) (c K : list lit) : Prop := {
  cm_nodup : NoDup K;
  cm_lits : forall l, In l K -> In l c /\ l < 2 * vars s /\ values s l = None;
  cm_sat : sa = true -> exists l, In l c /\ rooted s l;
  cm_triv : tr = true -> exists l, In l c /\ In (neg l) c;
  cm_rest : sa = false -> tr = false -> forall l, In l c -> In l K \/ rooted s (neg l);
  cm_same : sa = false -> tr = false -> sh = false -> same_literals K c;
  cm_nonempty : sh = true -> c <> [] }.

Lemma live_same : forall orig s c d, same_literals c d -> live (c :: orig) s -> live (d :: orig) s.
Proof.
  intros orig s c d E [[V F C W [A B D M] R] Lv Tr Pr Pi Cl Ok].
  assert (Ms : msub (c :: orig) (d :: orig)) by (intros x; rewrite !cnt_cons, (set_eqb_same_r x c d E); lia).
  destruct (proof_ok_msub _ _ _ Ms A) as [A1 A2]. constructor; auto. constructor; auto. constructor; auto.
  - eapply msub_trans; eauto.
  - rewrite Ok. discriminate.
  - intros v Sv e [<-|I]; [|apply (M v Sv); now right].
    destruct (M v Sv c (or_introl eq_refl)) as (l & Il & Tl). exists l. split; auto. now apply E.
Qed.

Lemma rooted_irr : forall s l, vinv s -> rooted s l -> In [l] (irr s) /\ In [l] (db s).
Proof.
  intros s l V [A B]. assert (D : l < 2 * vars s) by (apply dom_lt, (ti_range _ V); congruence).
  assert (I : In [l] (root_units s)) by (apply in_root_units; exists l; splits; auto).
  split; apply in_or_app; now left.
Qed.
Lemma sat_unit : forall v l f, sat v f -> In [l] f -> tr v l = true.
Proof. intros v l f H I. destruct (H _ I) as (k & [<-|[]] & T). auto. Qed.

Lemma add_complete_spec : forall orig o s sa triv sh c K, sinv orig s -> (inconsistent s = false -> complete s sa triv sh c K) ->
  (sa || triv = true -> c <> []) ->
  wp (add_complete o sa triv K s) (fun s1 => sinv (c :: orig) (add_proof sa triv sh c K s1) /\ vars s1 = vars s).
Proof.
  intros orig o s sa triv sh c K Si Cm Ne. unfold add_complete. destruct (inconsistent s) eqn:Ic.
  { apply wp_ret. split; auto. unfold add_proof. rewrite Ic. cbn [negb andb]. destruct (sa || triv) eqn:B; [|now apply dead_cons].
    destruct (length c =? 1); [now apply dead_cons|]. apply (dead_deleted orig s c); auto. }
  specialize (Cm eq_refl). assert (L : live orig s) by (destruct Si as [_ B]; now rewrite Ic in B). clear Si.
  pose proof (co_v _ _ _ (lv_core _ _ L)) as V. destruct Cm as [Nd Cl Cs Ct Cr Csm Cn].
  assert (Taut : sa || triv = true -> forall v, sat v (irr s) -> sat_clause v c).
  { intros B v Sv. destruct sa.
    - destruct (Cs eq_refl) as (l & Il & Rl). exists l. split; auto. apply (sat_unit v l (irr s)); auto. now apply rooted_irr.
    - destruct triv; [|discriminate]. destruct (Ct eq_refl) as (l & Il & In'). destruct (tr v l) eqn:E; [exists l; auto|].
      exists (neg l). split; auto. now rewrite tr_neg, E. }
  assert (Done : sa || triv = true -> sinv (c :: orig) (if length c =? 1 then s else del_step c s)).
  { intros B. apply live_sinv. destruct (length c =? 1); [now apply live_satisfied; auto|]. apply live_deleted; auto. }
  destruct sa; [apply wp_ret; split; auto; now apply Done|]. destruct triv; [apply wp_ret; split; auto; now apply Done|].
  clear Taut Done Ne Cs Ct. specialize (Cr eq_refl eq_refl). specialize (Csm eq_refl eq_refl).
  assert (Ok : proof_ok orig (steps s)) by apply (lv_core _ _ L).
  assert (Sh : shrinks (pdb orig (steps s)) c K).
  { split; [intros l I; now apply Cl|]. intros l I. destruct (Cr l I) as [A|A]; auto. right.
    apply (linv_covers orig s); [apply L|]. now apply rooted_irr. }
  unfold add_proof. cbn [orb].
  apply wp_bind. eapply wp_mono; [apply (activate_all orig K s L)|].
  { intros l I. now apply Cl. }
  cbv beta. intros s1 (L1 & V1 & Va1 & As1 & S1 & D1 & _).
  assert (Fin : forall s2, live (K :: orig) s2 -> vars s2 = vars s1 -> adds s1 s2 -> sinv (c :: orig) (if negb (inconsistent s2) && sh then del_step c (add_step K s2) else s2)).
  { intros s2 L2 V2 [P E]. rewrite (lv_ok _ _ L2). cbn [negb andb]. rewrite S1 in E. apply live_sinv. destruct sh.
    - apply (live_steps (K :: orig) _ s2); auto. apply (shrunken_linv P orig (steps s)); auto; [|apply L2].
      intros l I. rewrite V2. apply dom_lt, D1, I.
    - apply (live_same orig s2 K c); auto. }
  destruct K as [|u [|y K]].
  - (* the empty clause *)
    apply wp_ret. split; auto. cbn [add_step set_steps set_inconsistent inconsistent negb andb]. unfold sinv.
    cbn [add_step set_steps set_inconsistent inconsistent steps]. rewrite S1. cbn [proof_ok pdb]. split; [split; [split|]|].
    + pose proof (pdb_cons _ _ c Ok) as Q. eapply rup_covers; [apply meq_covers, meq_sym, Q|]. apply (rup_shrunken _ [] c); [now left|].
      apply (shrinks_mono (pdb orig (steps s))); auto. apply incl_covers. intros d I. now right.
    + now apply proof_ok_cons.
    + intros d l [J|J] K; [inversion J; subst d; destruct K|]. change (l < 2 * vars s1). rewrite V1. now apply (li_range _ _ (co_l _ _ _ (lv_core _ _ L)) d).
    + rewrite cnt_cons, set_eqb_refl. cbn [b2n]. lia.
  - (* a unit clause *)
    assert (Du : dom s1 u) by (apply D1; now left). assert (Nu : values s1 u = None) by (rewrite Va1; apply Cl; now left).
    apply wp_bind. eapply wp_intro; [apply assign_eq; auto; apply L1|]. apply wp_bind, wp_assert.
    { cbn. rewrite (lv_level _ _ L1). reflexivity. }
    set (s2 := do_assign 0 RUnit u s1). pose proof (core_unit orig s1 u L1 Du Nu) as Co2. fold s2 in Co2.
    assert (P2 : pinv (propagate s2) s2).
    { change (propagate s2) with (propagate s1). rewrite (lv_prop _ _ L1). apply pinv_assign; auto; try apply L1. lia. }
    apply wp_bind. pose proof (search_propagate_spec ([u] :: orig) o s2 Co2 P2) as Sp.
    apply wp_inv in Sp as ([s3 cf] & Es & Post). eapply wp_intro; [exact Es|]. apply wp_ret. pose proof (search_propagate_adds _ _ _ _ Es) as Ad.
    assert (Ad1 : adds s1 s3) by (eapply adds_trans; [|exact Ad]; now apply adds_refl).
    destruct Post as [Qu Post]. split; [|rewrite (qu_vars _ _ Qu); auto].
    assert (Lv2 : level s2 = 0) by apply (lv_level _ _ L1).
    destruct cf as [cf|].
    + destruct Post as (Co3 & _ & I3). rewrite Lv2 in I3. cbn in I3. rewrite I3. cbn [negb andb]. unfold sinv. rewrite I3.
      destruct Ad1 as [P Ep]. rewrite S1 in Ep. destruct (co_l _ _ _ Co3) as [A3 B3 C3 _ R3]. specialize (C3 I3). rewrite Ep in *.
      split; [split; [apply (shrunken_proof P orig (steps s) c [u]); auto|now rewrite <- Ep in R3 |- *]|]. rewrite pdb_added in *. rewrite cnt_app in *.
      pose proof (pdb_cons _ _ [u] Ok) as Qk. pose proof (pdb_cons _ _ c Ok) as Qc. rewrite Qk, cnt_cons in C3. rewrite Qc, cnt_cons.
      change (set_eqb [] [u]) with false in C3. cbn [b2n] in C3. lia.
    + destruct Post as ((Co3 & Pr3 & Pi3) & I3 & T3). assert (L3 : level s3 = 0) by (rewrite (qu_level _ _ Qu); auto). specialize (T3 L3).
      apply Fin; auto; [|apply (qu_vars _ _ Qu)]. rewrite T3 in *. constructor; auto.
      * apply (qu_clean _ _ Qu). apply clean_clear_marks, L1.
      * rewrite I3. apply (lv_ok _ _ L1).
  - (* a clause with more than one literal *)
    assert (Un : forall l, In l (u :: y :: K) -> values s1 l = None) by (intros l I; rewrite Va1; now apply Cl).
    unfold add_original_clause. rewrite sort_unassigned by (auto; cbn; lia).
    assert (As : is_unassigned s1 u && is_unassigned s1 y = true).
    { rewrite !(proj2 (is_unassigned_spec s1 _)); auto; apply Un; cbn; auto. }
    destruct K as [|z K].
    + apply wp_bind, wp_assert; auto. apply wp_ret. split; auto. apply Fin.
      * apply live_binary; auto; try (apply D1; cbn; auto); try (apply Un; cbn; auto). inversion Nd; subst. intros ->. apply H1. now left.
      * reflexivity.
      * apply adds_refl. reflexivity.
    + rewrite new_large_eq by (cbn; lia). cbn [obind]. apply wp_bind, wp_assert; auto. apply wp_ret. split; auto. apply Fin.
      * apply live_large; auto; cbn; lia.
      * reflexivity.
      * apply adds_refl. reflexivity.
Qed.
