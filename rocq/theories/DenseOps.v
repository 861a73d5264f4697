(** Occurrence lists, propagation and new clauses during variable elimination. *)
From Coq Require Import ZArith List Bool Lia Arith.
From Coq Require Import ZifyBool ZifyNat.
From Verif Require Import Base SpecSat Lit Solver Api Extend Eliminate DenseFacts.
Import ListNotations.
Open Scope nat_scope.
Open Scope outcome_scope.

(** ** Removing watches *)
Definition same_clauses (d d' : dense) : Prop :=
  values (d_sol d') = values (d_sol d) /\ trail (d_sol d') = trail (d_sol d) /\ arena (d_sol d') = arena (d_sol d) /\
  next_ref (d_sol d') = next_ref (d_sol d) /\ inconsistent (d_sol d') = inconsistent (d_sol d) /\
  active (d_sol d') = active (d_sol d) /\ d_extend d' = d_extend d /\
  d_imports d' = d_imports d /\ d_exports d' = d_exports d /\ d_eliminated d' = d_eliminated d /\ d_gone d' = d_gone d.
Lemma same_clauses_refl : forall d, same_clauses d d.
Proof. repeat split. Qed.
Lemma same_clauses_trans : forall a b c, same_clauses a b -> same_clauses b c -> same_clauses a c.
Proof. intros a b c A B. unfold same_clauses in *. intuition congruence. Qed.

Lemma evo_occs : forall d d', dinv d -> same_clauses d d' ->
  (forall k w, cnt w (d_occs d' k) <= cnt w (d_occs d k)) ->
  (forall k r, In (DLarge r) (d_occs d k) -> In (DLarge r) (d_occs d' k) \/ exists c, arena (d_sol d) r = Some c /\ c_garbage c = true) ->
  (forall a b, cnt (DBinary b) (d_occs d' a) = cnt (DBinary a) (d_occs d' b)) ->
  (forall a b, In (DBinary b) (d_occs d a) -> In (DBinary b) (d_occs d' a) \/ dval d a = Some true \/ dval d b = Some true) ->
  evo d d'.
Proof.
  intros d d' V (A & B & C & D & E & F & G & H1 & H2 & H3 & H4) Le La Sy Bi.
  assert (Inc : forall k w, In w (d_occs d' k) -> In w (d_occs d k)).
  { intros k w. rewrite !cnt_in. specialize (Le k w). lia. }
  assert (Va : forall k, dval d' k = dval d k) by (intros; unfold dval; now rewrite A).
  constructor; auto.
  - destruct V as [I1 I2 I3 I4 I5 I6 I7 I8 I9 I10]. constructor; rewrite ?B, ?C, ?D; auto.
    + intros. rewrite !Va. auto.
    + intros. rewrite Va. auto.
    + intros r c l Ar L Il. destruct (La l r) as [K|(x & X & Gx)]; auto. { eapply I4; eauto. }
      rewrite Ar in X. injection X as <-. destruct L as [_ L]. congruence.
    + intros l. rewrite H4. intros X. specialize (I10 l X). destruct (d_occs d' l) as [|w ws] eqn:W; auto.
      exfalso. assert (Y : In w (d_occs d l)) by (apply Inc; rewrite W; now left). rewrite I10 in Y. exact Y.
  - intros v. unfold models, units, bins, larges. rewrite C, E. split; intros (M1 & M2 & M3 & M4); splits; auto.
    + intros l. rewrite Va. auto.
    + intros l. rewrite <- Va. auto.
    + intros a b I. destruct (Bi a b I) as [K|[K|K]]; auto; [left|right]; apply M2; now rewrite Va.
  - intros l b. now rewrite Va.
  - intros r c X. rewrite C. exists c. splits; auto.
Qed.

(** ** Counting occurrences *)
Definition view (l : lit) (ws : list dwatch) (d : dense) : dense := set_d_occs (upd (d_occs d) l ws) d.
Definition kept_ok (d : dense) (w : dwatch) : Prop :=
  match w with DBinary other => dval d other = None | DLarge r => exists c, arena (d_sol d) r = Some c /\ live c end.
Lemma occurrences_loop_spec : forall clslim l d0 ws kept res d,
  evo d0 (view l (rev kept ++ ws) d) -> same_clauses d0 d -> d_marks d = d_marks d0 -> d_occs d (neg l) = d_occs d0 (neg l) ->
  res = length kept -> (forall w, In w kept -> kept_ok d0 w) ->
  ok (occurrences_loop clslim l ws kept res d) (fun '(ws', res', failed, d') =>
    evo d0 (view l ws' d') /\ same_clauses d0 d' /\ d_marks d' = d_marks d0 /\ d_occs d' (neg l) = d_occs d0 (neg l) /\
    (failed = false -> res' = length ws' /\ forall w, In w ws' -> kept_ok d0 w)).
Proof.
  intros clslim l d0. induction ws as [|w ws IH]; intros kept res d E Sc M O R K; cbn [occurrences_loop].
  - cbn [ok]. rewrite app_nil_r in E. splits; auto. intros _. rewrite rev_length. split; auto.
    intros w I. apply K. now apply in_rev.
  - assert (Va : forall k, dval d k = dval d0 k) by (intros; unfold dval; destruct Sc as (A & _); now rewrite A).
    destruct w as [other|ref].
    + apply ok_bind, ok_assert. intros Nf. destruct (dtrue d other) eqn:T.
      * apply ok_bind. unfold eliminate_binary, disconnect_binary. apply ok_bind, ok_bind.
        eapply ok_mono; [apply remove_watch_spec|]. cbv beta. intros ws2 Rm. cbn [ok obind].
        assert (Ne : idx l <> idx other).
        { apply (di_bin _ (ev_inv _ _ E) l other). cbn. rewrite upd_same. apply in_or_app. right. now left. }
        assert (Nl : other <> l) by (intros ->; auto).
        assert (Nl' : l <> other) by congruence.
        apply IH; auto.
        -- eapply evo_trans; [exact E|]. apply evo_occs; [exact (ev_inv _ _ E)|repeat split| | | |].
           ++ intros k w. cbn. destruct (Nat.eq_dec k l) as [->|Nk].
              ** rewrite !upd_same, !cnt_app, !cnt_cons. lia.
              ** rewrite !(upd_other _ _ l) by auto. destruct (Nat.eq_dec k other) as [->|Nk'].
                 --- rewrite upd_same, Rm. lia.
                 --- rewrite upd_other by auto. auto.
           ++ intros k r I. left. revert I. cbn. rewrite !cnt_in. destruct (Nat.eq_dec k l) as [->|Nk].
              ** rewrite !upd_same, !cnt_app, !cnt_cons. rewrite one_other by discriminate. lia.
              ** rewrite !(upd_other _ _ l) by auto. destruct (Nat.eq_dec k other) as [->|Nk'].
                 --- rewrite upd_same, Rm. rewrite one_other by discriminate. lia.
                 --- rewrite upd_other by auto. auto.
           ++ assert (C : forall a b, cnt (DBinary b) (d_occs (view l (rev kept ++ DBinary other :: ws) d) a) =
                cnt (DBinary b) (d_occs (view l (rev kept ++ ws) (set_d_sol (del_step [l; other] (d_sol (set_d_occs (upd (d_occs d) other ws2) d))) (set_d_occs (upd (d_occs d) other ws2) d))) a)
                + (if (a =? l) && (b =? other) then 1 else 0) + (if (a =? other) && (b =? l) then 1 else 0)).
              { intros a b. cbn. destruct (Nat.eqb_spec a l) as [->|Na].
                - replace (l =? other) with false by lia. rewrite !upd_same, !cnt_app, !cnt_cons. cbn [andb].
                  destruct (Nat.eqb_spec b other) as [->|Nb]; [rewrite one_same; lia|rewrite one_other by congruence; lia].
                - rewrite !(upd_other _ _ l) by auto. cbn [andb]. destruct (Nat.eqb_spec a other) as [->|Na'].
                  + rewrite upd_same, Rm. cbn [andb]. destruct (Nat.eqb_spec b l) as [->|Nb]; [rewrite one_same; lia|rewrite one_other by congruence; lia].
                  + rewrite upd_other by auto. cbn [andb]. lia. }
              intros a b. pose proof (di_sym _ (ev_inv _ _ E) a b) as Sy. rewrite !C in Sy.
              set (x := cnt (DBinary b) _) in *. set (y := cnt (DBinary a) _) in *. clearbody x y. clear -Sy.
              destruct (a =? l), (b =? other), (a =? other), (b =? l); cbn [andb] in Sy; lia.
           ++ intros a b. cbn. change (dval (view l (rev kept ++ DBinary other :: ws) d)) with (dval d).
              apply dtrue_spec in T. destruct (Nat.eq_dec a l) as [->|Na].
              ** rewrite !upd_same, !in_app_iff. cbn [In]. intros [I|[I|I]]; auto. injection I as <-. auto.
              ** rewrite !(upd_other _ _ l) by auto. destruct (Nat.eq_dec a other) as [->|Na']; auto. rewrite upd_other by auto. auto.
        -- cbn. rewrite upd_other; auto. intros e. apply Ne. rewrite <- e. now rewrite idx_neg.
      * apply IH; auto.
        -- cbn [rev]. rewrite <- app_assoc. exact E.
        -- cbn [length]. congruence.
        -- intros w [<-|I]; auto. cbn. rewrite <- Va. destruct (dval_cases d other) as [X|[X|X]]; [congruence| |tauto].
           destruct X as [_ X]. rewrite X in Nf. discriminate.
    + apply ok_bind. eapply ok_mono; [apply get_clause_spec|]. cbv beta. intros c Ar. destruct (c_garbage c) eqn:Gc.
      * apply IH; auto. eapply evo_trans; [exact E|]. apply evo_occs; [exact (ev_inv _ _ E)|repeat split| | | |].
        -- intros k w. cbn. destruct (Nat.eq_dec k l) as [->|Nk]; [rewrite !upd_same, !cnt_app, !cnt_cons; lia|now rewrite !upd_other].
        -- intros k r. cbn. destruct (Nat.eq_dec k l) as [->|Nk]; [|rewrite !upd_other by auto; auto].
           rewrite !upd_same, !in_app_iff. cbn [In]. intros [I|[I|I]]; auto. injection I as <-. right. eauto.
        -- intros a b. assert (Sy : forall a b, cnt (DBinary b) (d_occs (view l (rev kept ++ ws) d) a) = cnt (DBinary b) (d_occs (view l (rev kept ++ DLarge ref :: ws) d) a)).
           { intros x y. cbn. destruct (Nat.eq_dec x l) as [->|Nk]; [|now rewrite !upd_other].
             rewrite !upd_same, !cnt_app, !cnt_cons, one_other by discriminate. lia. }
           rewrite !Sy. apply (di_sym _ (ev_inv _ _ E)).
        -- intros a b. cbn. destruct (Nat.eq_dec a l) as [->|Nk]; [|rewrite !upd_other by auto; auto].
           rewrite !upd_same, !in_app_iff. cbn [In]. intros [I|[I|I]]; auto. discriminate.
      * destruct (clslim <? length (c_lits c)).
        -- cbn [ok]. splits; auto. discriminate.
        -- apply IH; auto.
           ++ cbn [rev]. rewrite <- app_assoc. exact E.
           ++ cbn [length]. congruence.
           ++ intros w [<-|I]; auto. cbn. destruct Sc as (_ & _ & Sa & _). rewrite <- Sa. exists c. split; auto. split; auto.
              destruct (di_large _ (ev_inv _ _ E) l ref) as (x & X & Rx & _).
              { cbn. rewrite upd_same. apply in_or_app. right. now left. }
              cbn in X. rewrite Ar in X. now injection X as <-.
Qed.

Lemma view_self : forall l d, dinv d -> evo d (view l (d_occs d l) d).
Proof.
  intros l d V. assert (X : forall k, d_occs (view l (d_occs d l) d) k = d_occs d k).
  { intros k. cbn. destruct (Nat.eq_dec k l) as [->|]; [apply upd_same|now apply upd_other]. }
  apply evo_occs; auto; [repeat split| | | |]; intros; rewrite ?X in *; auto. apply (di_sym _ V).
Qed.
Lemma occurrences_literal_spec : forall clslim l d, dinv d ->
  ok (occurrences_literal clslim l d) (fun '(res, d') =>
    evo d d' /\ same_clauses d d' /\ d_marks d' = d_marks d /\ d_occs d' (neg l) = d_occs d (neg l) /\
    (forall n, res = Some n -> n = length (d_occs d' l) /\ forall w, In w (d_occs d' l) -> kept_ok d w)).
Proof.
  intros clslim l d V. unfold occurrences_literal. apply ok_bind.
  eapply ok_mono; [apply (occurrences_loop_spec clslim l d (d_occs d l) [] 0 d); [now apply view_self|apply same_clauses_refl|reflexivity|reflexivity|reflexivity|intros w []]|].
  intros (((ws & res) & failed) & d') (E & Sc & M & O & K). cbn [ok]. splits; auto.
  - cbn. rewrite upd_other; auto. apply neg_neq.
  - intros n Hn. destruct failed; [discriminate|]. injection Hn as <-. cbn. rewrite upd_same. auto.
Qed.

(** ** Propagation *)
Lemma dense_scan_spec : forall not_l lits unit d,
  match dense_scan not_l lits unit d with
  | None => exists k, In k lits /\ dval d k = Some true
  | Some [] => unit = None /\ forall k, In k lits -> k = not_l \/ dval d k = Some false
  | Some [u] => (unit = None \/ unit = Some u) /\ forall k, In k lits -> k = u \/ k = not_l \/ dval d k = Some false
  | Some _ => True
  end.
Proof.
  intros not_l. induction lits as [|x lits IH]; intros unit d; cbn [dense_scan].
  - destruct unit; cbn; auto; split; auto; intros k [].
  - assert (Sk : x = not_l \/ dval d x = Some false -> match dense_scan not_l lits unit d with
      | None => exists k, In k (x :: lits) /\ dval d k = Some true
      | Some [] => unit = None /\ forall k, In k (x :: lits) -> k = not_l \/ dval d k = Some false
      | Some [u] => (unit = None \/ unit = Some u) /\ forall k, In k (x :: lits) -> k = u \/ k = not_l \/ dval d k = Some false
      | Some _ => True end).
    { intros X. specialize (IH unit d). destruct (dense_scan not_l lits unit d) as [[|u [|]]|]; auto.
      - destruct IH as [A B]. split; auto. intros k [<-|I]; auto.
      - destruct IH as [A B]. split; auto. intros k [<-|I]; auto.
      - destruct IH as (k & I & T). exists k. split; auto. now right. }
    destruct (Nat.eqb_spec x not_l) as [->|N]; [apply Sk; auto|].
    destruct (dfalse d x) eqn:F; [apply Sk; right; now apply dfalse_spec|]. clear Sk.
    destruct (dtrue d x) eqn:T. { exists x. split; [now left|now apply dtrue_spec]. }
    destruct unit as [u|]; [exact I|]. specialize (IH (Some x) d). destruct (dense_scan not_l lits (Some x) d) as [[|u [|]]|]; auto.
    + destruct IH as [A _]. discriminate.
    + destruct IH as [[A|A] B]; [discriminate|]. injection A as <-. split; auto. intros k [<-|I]; auto.
    + destruct IH as (k & I & Tk). exists k. split; auto. now right.
Qed.

Lemma dense_propagate_watches_spec : forall not_l ws d, dinv d -> dval d not_l = Some false -> incl ws (d_occs d not_l) ->
  ok (dense_propagate_watches not_l ws d) (fun '(b, d') => evo d d' /\ quiet d d' /\ (b = false -> forall v, ~ models d' v)).
Proof.
  intros not_l. induction ws as [|w ws IH]; intros d V Fl In0; cbn [dense_propagate_watches].
  - cbn. splits; auto using evo_refl, quiet_refl. discriminate.
  - assert (Iw : In w (d_occs d not_l)) by (apply In0; now left).
    assert (In1 : incl ws (d_occs d not_l)) by (intros x I; apply In0; now right).
    assert (Nx : forall d', evo d d' -> quiet d d' -> ok (dense_propagate_watches not_l ws d') (fun '(b, d'') => evo d d'' /\ quiet d d'' /\ (b = false -> forall v, ~ models d'' v))).
    { intros d' E Q. eapply ok_mono; [apply IH; [apply (ev_inv _ _ E)|now apply (ev_val _ _ E)|destruct Q as (Q & _); now rewrite Q]|].
      intros (b & d'') (E' & Q' & M). splits; auto; [eapply evo_trans|eapply quiet_trans]; eauto. }
    destruct w as [other|ref].
    + destruct (dtrue d other) eqn:To; [apply IH; auto|].
      destruct (dfalse d other) eqn:Fo.
      * cbn. splits; auto using evo_refl, quiet_refl. intros _ v (M1 & M2 & M3 & M4).
        apply dfalse_spec in Fo. destruct (M3 _ _ Iw) as [T|T]; rewrite (units_false d v) in T; auto; discriminate.
      * destruct (d_gone d (idx other)); [apply IH; auto|].
        apply ok_bind. eapply ok_mono; [apply assign_form|]. intros s' A.
        apply Nx; [|repeat split]. eapply evo_assign; eauto. intros v (M1 & M2 & M3 & M4).
        destruct (M3 _ _ Iw) as [T|T]; auto. rewrite (units_false d v) in T; auto; discriminate.
    + apply ok_bind. eapply ok_mono; [apply get_clause_spec|]. cbv beta. intros c Ar.
      apply ok_bind, ok_assert. intros R. destruct (c_garbage c) eqn:G; [apply IH; auto|].
      assert (Lc : live c) by (split; auto; now destruct (c_redundant c)).
      pose proof (dense_scan_spec not_l (c_lits c) None d) as Sc. destruct (dense_scan not_l (c_lits c) None d) as [[|u [|]]|].
      * cbn. splits; auto using evo_refl, quiet_refl. intros _ v (M1 & M2 & M3 & M4).
        destruct (M4 _ _ Ar Lc) as (k & I & T). destruct Sc as [_ Sc]. destruct (Sc k I) as [->|F]; rewrite (units_false d v) in T; auto; discriminate.
      * apply ok_bind. eapply ok_mono; [apply assign_reference_form|]. intros s' A.
        apply Nx; [|repeat split]. eapply evo_assign; eauto. intros v (M1 & M2 & M3 & M4).
        destruct (M4 _ _ Ar Lc) as (k & I & T). destruct Sc as [_ Sc]. destruct (Sc k I) as [->|[->|F]]; auto; rewrite (units_false d v) in T; auto; discriminate.
      * apply IH; auto.
      * apply ok_bind. eapply ok_mono; [apply eliminate_clause_spec; auto|].
        -- intros c' Ar'. rewrite Ar in Ar'. injection Ar' as <-. destruct Sc as (k & I & T). exists k. auto.
        -- cbv beta. intros d' (E & Q & _). now apply Nx.
Qed.

Lemma dense_propagate_loop_spec : forall fuel d, dinv d ->
  ok (dense_propagate_loop fuel d) (fun '(b, d') => evo d d' /\ quiet d d' /\ (b = false -> forall v, ~ models d' v)).
Proof.
  induction fuel as [|fuel IH]; intros d V; cbn [dense_propagate_loop].
  - destruct (nth_error _ _); [exact I|]. cbn. splits; auto using evo_refl, quiet_refl. discriminate.
  - destruct (nth_error (trail (d_sol d)) (propagate (d_sol d))) as [l|] eqn:N; [|cbn; splits; auto using evo_refl, quiet_refl; discriminate].
    apply ok_bind, ok_assert. intros T. apply dtrue_spec in T.
    set (d1 := set_d_sol _ d). assert (E1 : evo d d1) by (apply evo_hidden; auto; repeat split).
    assert (Q1 : quiet d d1) by repeat split.
    apply ok_bind. eapply ok_mono; [apply dense_propagate_watches_spec; [apply (ev_inv _ _ E1)| |apply incl_refl]|].
    + rewrite (di_neg _ (ev_inv _ _ E1)). apply (ev_val _ _ E1) in T. now rewrite T.
    + intros (b & d2) (E2 & Q2 & M). destruct b.
      * eapply ok_mono; [apply IH; apply (ev_inv _ _ E2)|]. intros (b & d3) (E3 & Q3 & M3).
        splits; auto; [exact (evo_trans _ _ _ E1 (evo_trans _ _ _ E2 E3))|exact (quiet_trans _ _ _ Q1 (quiet_trans _ _ _ Q2 Q3))].
      * cbn. split; [exact (evo_trans _ _ _ E1 E2)|]. split; [exact (quiet_trans _ _ _ Q1 Q2)|auto].
Qed.
Lemma dense_propagate_spec : forall d, dinv d -> ok (dense_propagate d) (fun '(b, d') => evo d d' /\ quiet d d' /\ (b = false -> inconsistent (d_sol d') = true)).
Proof.
  intros d V. unfold dense_propagate. apply ok_bind, ok_assert. intros _. apply ok_bind.
  eapply ok_mono; [apply dense_propagate_loop_spec; auto|]. intros (b & d') (E & Q & M). destruct b.
  - cbn. splits; auto. discriminate.
  - apply ok_bind. eapply ok_mono; [apply dense_inconsistent_spec; [apply (ev_inv _ _ E)|auto]|].
    cbv beta. intros d2 (E2 & Q2 & I2 & _). cbn. split; [exact (evo_trans _ _ _ E E2)|]. split; [exact (quiet_trans _ _ _ Q Q2)|auto].
Qed.

(** ** Flushing units *)
Lemma flush_unit_watches_spec : forall unit ws d, dinv d -> dval d unit = Some true -> incl ws (d_occs d unit) ->
  ok (flush_unit_watches ws d) (fun '(ws', d') => evo d d' /\ quiet d d' /\
    (forall b, cnt (DBinary b) ws' = cnt (DBinary b) ws) /\ (forall r, ~ In (DLarge r) ws') /\
    (forall r, In (DLarge r) ws -> exists c, arena (d_sol d') r = Some c /\ c_garbage c = true)).
Proof.
  intros unit. induction ws as [|w ws IH]; intros d V T In0; cbn [flush_unit_watches].
  - cbn. splits; auto using evo_refl, quiet_refl. intros r [].
  - assert (In1 : incl ws (d_occs d unit)) by (intros x I; apply In0; now right).
    destruct w as [other|ref].
    + apply ok_bind. eapply ok_mono; [apply IH; auto|]. intros (ws' & d') (E & Q & C & N & G). cbn [ok]. splits; auto.
      * intros b. rewrite !cnt_cons. now rewrite C.
      * intros r [X|X]; [discriminate|]. now apply N in X.
      * intros r [X|X]; [discriminate|]. auto.
    + apply ok_bind. eapply ok_mono; [apply get_clause_spec|]. cbv beta. intros c Ar. apply ok_bind.
      assert (X : ok (if c_garbage c then Ret d else eliminate_clause ref d) (fun d' => evo d d' /\ quiet d d' /\ exists c', arena (d_sol d') ref = Some c' /\ c_garbage c' = true)).
      { destruct (c_garbage c) eqn:G; [cbn; splits; auto using evo_refl, quiet_refl; eauto|].
        apply ok_eq. intros d' Ed. destruct (di_large _ V unit ref) as (c' & Ar' & R & L); [apply In0; now left|].
        destruct (ok_use _ _ _ _ (eliminate_clause_eq ref d) Ed) as (c2 & Ar2 & G2 & Ga & Q & _).
        rewrite Ar in *. injection Ar' as <-. injection Ar2 as <-. splits; auto.
        - eapply evo_garbage; eauto. exists unit. auto.
        - destruct Ga as (_ & _ & Ga & _). rewrite Ga, upd_same. eauto. }
      eapply ok_mono; [exact X|]. cbv beta. intros d1 (E1 & Q1 & c1 & Ar1 & G1). pose proof Q1 as (O1 & _).
      eapply ok_mono; [apply IH; [apply (ev_inv _ _ E1)|now apply (ev_val _ _ E1)|now rewrite O1]|].
      intros (ws' & d') (E & Q & C & N & G). splits; [eapply evo_trans; eauto|eapply quiet_trans; eauto|exact C|exact N|].
      * intros r [Y|Y]; [injection Y as <-|auto]. destruct (ev_arena _ _ E _ _ Ar1) as (c2 & A2 & _ & _ & K & _). eauto.
Qed.
Definition calm (d d' : dense) : Prop := d_marks d' = d_marks d /\ d_resolve_gate d' = d_resolve_gate d.
Definition less (d d' : dense) : Prop := forall k w, In w (d_occs d' k) -> In w (d_occs d k).
Lemma flush_units_loop_spec : forall us d, dinv d -> (forall u, In u us -> dval d u = Some true) ->
  ok (flush_units_loop us d) (fun d' => evo d d' /\ calm d d' /\ less d d').
Proof.
  induction us as [|u us IH]; intros d V T; cbn [flush_units_loop].
  - cbn. split; [auto using evo_refl|]. split; [repeat split|]. intros k w I. exact I.
  - apply ok_bind. eapply ok_mono; [apply (flush_unit_watches_spec u); [auto|apply T; now left|apply incl_refl]|].
    intros (ws & d1) (E1 & Q1 & C & N & G). pose proof Q1 as (O1 & M1 & R1).
    set (d2 := set_d_occs _ d1).
    assert (Le : forall k w, cnt w (d_occs d2 k) <= cnt w (d_occs d1 k)).
    { intros k w. unfold d2. cbn. destruct (Nat.eq_dec k u) as [->|Nk]; [|now rewrite upd_other]. rewrite upd_same, O1.
      destruct w as [b|r]; [now rewrite C|]. assert (Z : ~ 0 < cnt (DLarge r) ws) by (rewrite <- cnt_in; apply N). lia. }
    assert (E2 : evo d1 d2).
    { apply evo_occs; [apply (ev_inv _ _ E1)|repeat split|exact Le| | |].
      - intros k r. unfold d2. cbn. destruct (Nat.eq_dec k u) as [->|Nk]; [|rewrite upd_other; auto]. rewrite upd_same, O1. auto.
      - assert (Z : forall a b, cnt (DBinary b) (d_occs d2 a) = cnt (DBinary b) (d_occs d1 a)).
        { intros a b. unfold d2. cbn. destruct (Nat.eq_dec a u) as [->|Nk]; [|now rewrite upd_other]. now rewrite upd_same, C, O1. }
        intros a b. rewrite !Z. apply (di_sym _ (ev_inv _ _ E1)).
      - intros a b I. left. unfold d2. cbn. destruct (Nat.eq_dec a u) as [->|Nk]; [|now rewrite upd_other]. rewrite upd_same.
        apply cnt_in. rewrite C, <- O1. now apply cnt_in. }
    eapply ok_mono; [apply IH; [apply (ev_inv _ _ E2)|]|].
    + intros x I. apply (ev_val _ _ E2), (ev_val _ _ E1), T. now right.
    + cbv beta. intros d' (E & (M & R) & L). split; [exact (evo_trans _ _ _ E1 (evo_trans _ _ _ E2 E))|]. split; [split; [rewrite M|rewrite R]; assumption|].
      intros k w I. apply L in I. rewrite <- O1. rewrite cnt_in in *. specialize (Le k w). lia.
Qed.
Lemma flush_units_spec : forall d, dinv d -> ok (flush_units_while_connected d) (fun d' => evo d d' /\ calm d d' /\ less d d').
Proof.
  intros d V. unfold flush_units_while_connected. destruct (_ <=? _). { cbn. split; [auto using evo_refl|]. split; [repeat split|]. intros k w I. exact I. }
  apply ok_bind. eapply ok_mono; [apply dense_propagate_spec; auto|]. intros (b & d1) (E & (O & M & R) & _). destruct b.
  - eapply ok_mono; [apply flush_units_loop_spec; [apply (ev_inv _ _ E)|]|].
    + intros u I. apply (di_trail _ (ev_inv _ _ E)). rewrite <- (firstn_skipn (propagate (d_sol d)) (trail (d_sol d1))). apply in_or_app. now right.
    + cbv beta. intros d' (E' & (M' & R') & L). split; [eapply evo_trans; eauto|]. split; [split; congruence|]. intros k w I. rewrite <- O. now apply L.
  - cbn. split; [auto|]. split; [now split|]. intros k w. now rewrite O.
Qed.

(** ** New clauses *)
Definition wf_lits (lits : list lit) : Prop := NoDup lits /\ forall k, In k lits -> In (neg k) lits -> False.
Lemma dense_new_binary_spec : forall a b d, dinv d -> d_gone d (idx a) = false -> d_gone d (idx b) = false ->
  (forall v, models d v -> tr v a = true \/ tr v b = true) ->
  ok (dense_new_binary a b d) (fun d' => evo d d' /\ calm d d' /\ (forall k, dval d' k = dval d k) /\
    arena (d_sol d') = arena (d_sol d) /\ In (DBinary b) (d_occs d' a) /\
    inconsistent (d_sol d') = inconsistent (d_sol d) /\ (forall k, k <> a -> k <> b -> d_occs d' k = d_occs d k) /\
    (forall k w, In w (d_occs d k) -> In w (d_occs d' k))).
Proof.
  intros a b d V Ga Gb H. unfold dense_new_binary. apply ok_bind, ok_assert. intros As.
  assert (Ne : idx a <> idx b). { intros e. apply idx_eq in e as [e|e]; subst a; rewrite ?Nat.eqb_refl in As; cbn in As; [discriminate|]. rewrite andb_false_r in As. discriminate. }
  assert (Nb : a <> b) by congruence. cbn [ok].
  set (d' := set_d_sol _ _).
  assert (C : forall k w, cnt w (d_occs d' k) = cnt w (d_occs d k) + (if k =? a then one w (DBinary b) else 0) + (if k =? b then one w (DBinary a) else 0)).
  { intros k w. unfold d'. cbn. unfold upd. replace (b =? a) with false by lia. destruct (Nat.eqb_spec k b) as [->|Kb].
    - replace (b =? a) with false by lia. rewrite cnt_app, cnt_cons, cnt_nil. lia.
    - destruct (Nat.eqb_spec k a) as [->|Ka]; [rewrite cnt_app, cnt_cons, cnt_nil|]; lia. }
  assert (Oc : forall k w, In w (d_occs d' k) <-> In w (d_occs d k) \/ (k = a /\ w = DBinary b) \/ (k = b /\ w = DBinary a)).
  { intros k w. rewrite !cnt_in, C. unfold one.
    destruct (dwatch_eqb_spec w (DBinary b)), (dwatch_eqb_spec w (DBinary a)), (Nat.eqb_spec k a), (Nat.eqb_spec k b); split; try lia; intuition (try congruence; try lia). }
  assert (E : evo d d').
  { constructor; auto.
    - destruct V as [I1 I2 I3 I4 I5 I6 I7 I8 I9 I10]. constructor; auto.
      + intros l r. rewrite Oc. intros [X|[[_ X]|[_ X]]]; try discriminate. apply I3 in X. exact X.
      + intros r c l Ar L I. apply Oc. left. eapply I4; eauto.
      + intros x y. rewrite Oc. intros [X|[[-> X]|[-> X]]]; [auto|injection X as ->; auto|injection X as ->; auto].
      + intros x y. rewrite !C, (I8 x y). unfold one. cbn. destruct (Nat.eqb_spec x a), (Nat.eqb_spec x b), (Nat.eqb_spec y a), (Nat.eqb_spec y b); lia.
      + intros k G. unfold d'. cbn. rewrite !upd_other; [now apply I10| |]; intros ->; cbn in G; congruence.
    - intros v. split; intros M.
      + pose proof (H v M) as T. destruct M as (M1 & M2 & M3 & M4). unfold models. splits; auto.
        intros x y. rewrite Oc. intros [X|[[-> X]|[-> X]]]; [auto|injection X as ->; tauto|injection X as ->; tauto].
      + destruct M as (M1 & M2 & M3 & M4). unfold models. splits; auto. intros x y I. apply M3, Oc. now left.
    - intros r c X. exists c. splits; auto. }
  splits; auto.
  - repeat split.
  - apply Oc. auto.
  - intros k Ka Kb. unfold d'. cbn. now rewrite !upd_other.
  - intros k w I. apply Oc. now left.
Qed.

Lemma connect_clause_spec : forall ref lits d k w, cnt w (d_occs (connect_clause ref lits d) k) = cnt w (d_occs d k) + (if dwatch_eqb w (DLarge ref) then count_occ Nat.eq_dec lits k else 0).
Proof.
  intros ref. unfold connect_clause. induction lits as [|x lits IH]; intros d k w; cbn [fold_left].
  - destruct (dwatch_eqb _ _); cbn; lia.
  - rewrite IH. cbn. unfold upd. destruct (Nat.eqb_spec k x) as [->|N].
    + rewrite cnt_app, cnt_cons, cnt_nil. unfold one. destruct (Nat.eq_dec x x); [|congruence]. destruct (dwatch_eqb w (DLarge ref)); lia.
    + destruct (Nat.eq_dec x k); [congruence|]. reflexivity.
Qed.
Lemma connect_clause_frame : forall ref lits d, same_clauses d (connect_clause ref lits d) /\ calm d (connect_clause ref lits d) /\ d_sol (connect_clause ref lits d) = d_sol d.
Proof.
  intros ref. unfold connect_clause. induction lits as [|x lits IH]; intros d; cbn [fold_left].
  - split; [apply same_clauses_refl|]. split; [split|]; reflexivity.
  - destruct (IH (push_occ x (DLarge ref) d)) as (A & (B1 & B2) & C). split; [eapply same_clauses_trans; [|exact A]; repeat split|].
    split; [split; [rewrite B1|rewrite B2]|rewrite C]; reflexivity.
Qed.
Lemma connect_clause_other : forall ref lits d k, ~ In k lits -> d_occs (connect_clause ref lits d) k = d_occs d k.
Proof.
  intros ref. unfold connect_clause. induction lits as [|x lits IH]; intros d k N; cbn [fold_left]; auto.
  rewrite IH by (intros I; apply N; now right). cbn. apply upd_other. intros ->. apply N. now left.
Qed.

Lemma dense_new_large_spec : forall lits d, dinv d -> wf_lits lits -> (forall k, In k lits -> d_gone d (idx k) = false) -> (forall v, models d v -> sat_clause v lits) ->
  ok (dense_new_large lits d) (fun d' => evo d d' /\ calm d d' /\ (forall k, dval d' k = dval d k) /\
    (forall r, r <> next_ref (d_sol d) -> arena (d_sol d') r = arena (d_sol d) r) /\
    arena (d_sol d') (next_ref (d_sol d)) = Some (mk_clause lits false false 2) /\
    inconsistent (d_sol d') = inconsistent (d_sol d) /\
    (forall k, ~ In k lits -> d_occs d' k = d_occs d k) /\
    (forall k w, In w (d_occs d k) -> In w (d_occs d' k))).
Proof.
  intros lits d V (Nd & Nt) Gn H. unfold dense_new_large. apply ok_bind, ok_assert. intros _. cbn [ok].
  set (ref := next_ref (d_sol d)). set (d1 := set_d_sol _ d). destruct (connect_clause_frame ref lits d1) as (Sc & (Ma & Rg) & So).
  pose proof (connect_clause_spec ref lits d1) as C. pose proof (connect_clause_other ref lits d1) as Ot.
  set (d2 := connect_clause ref lits d1) in *. set (d' := set_d_sol _ d2).
  assert (Fr : arena (d_sol d) ref = None) by (apply (di_next _ V); unfold ref; lia).
  assert (Ar' : forall r, arena (d_sol d') r = if r =? ref then Some (mk_clause lits false false 2) else arena (d_sol d) r).
  { intros r. unfold d'. cbn. rewrite So. reflexivity. }
  assert (Va : forall k, dval d' k = dval d k) by (intros; unfold dval, d'; cbn; now rewrite So).
  assert (Inc : inconsistent (d_sol d') = inconsistent (d_sol d)) by (unfold d'; cbn; now rewrite So).
  assert (Nx : next_ref (d_sol d') = S ref) by (unfold d'; cbn; now rewrite So).
  assert (Tl : trail (d_sol d') = trail (d_sol d)) by (unfold d'; cbn; now rewrite So).
  assert (Oc : forall k w, In w (d_occs d' k) <-> In w (d_occs d k) \/ (w = DLarge ref /\ In k lits)).
  { intros k w. change (d_occs d' k) with (d_occs d2 k). rewrite !cnt_in, C. change (d_occs d1 k) with (d_occs d k).
    destruct (dwatch_eqb_spec w (DLarge ref)) as [e|e].
    - rewrite (count_occ_In Nat.eq_dec lits k). split; [|intuition lia]. intros X. destruct (cnt w (d_occs d k)); [right|left]; intuition lia.
    - rewrite Nat.add_0_r. intuition congruence. }
  assert (Cb : forall a b, cnt (DBinary b) (d_occs d' a) = cnt (DBinary b) (d_occs d a)).
  { intros a b. change (d_occs d' a) with (d_occs d2 a). rewrite C. cbn. apply Nat.add_0_r. }
  destruct Sc as (S1 & S2 & S3 & S4 & S5 & S6 & S7 & S8 & S9 & S10 & S11).
  assert (E : evo d d').
  { constructor; try assumption.
    - destruct V as [I1 I2 I3 I4 I5 I6 I7 I8 I9 I10]. constructor.
      + intros l. rewrite !Va. auto.
      + intros l. rewrite Va, Tl. auto.
      + intros l r. rewrite Oc, Ar'. intros [X|[X Il]].
        * destruct (I3 l r X) as (c & A & B). destruct (Nat.eqb_spec r ref) as [->|]; [congruence|]. eauto.
        * injection X as ->. rewrite Nat.eqb_refl. eexists. split; [reflexivity|]. auto.
      + intros r c l. rewrite Ar', Oc. destruct (Nat.eqb_spec r ref) as [->|]; [|intros A L I; left; eapply I4; eauto].
        intros A L I. injection A as <-. auto.
      + intros r c l. rewrite Ar'. destruct (Nat.eqb_spec r ref) as [->|]; [|apply I5]. intros A L. injection A as <-. apply Nt.
      + intros r c. rewrite Ar'. destruct (Nat.eqb_spec r ref) as [->|]; [|apply I6]. intros A L. injection A as <-. exact Nd.
      + intros a b. rewrite Oc. intros [X|[X _]]; [auto|discriminate].
      + intros a b. rewrite !Cb. auto.
      + intros r. rewrite Nx, Ar'. intros L. destruct (Nat.eqb_spec r ref) as [->|]; [lia|]. apply I9. unfold ref in *. lia.
      + intros k G. change (d_gone d' (idx k)) with (d_gone d2 (idx k)) in G. rewrite S11 in G. change (d_gone d (idx k) = true) in G.
        change (d_occs d' k) with (d_occs d2 k). rewrite Ot; [now apply I10|]. intros I. rewrite Gn in G by auto. discriminate.
    - intros v. unfold models, units, bins, larges. rewrite Inc. split; intros M.
      + pose proof (H v M) as T. destruct M as (M1 & M2 & M3 & M4). splits; auto.
        * intros l. rewrite Va. auto.
        * intros a b. rewrite Oc. intros [X|[X _]]; [auto|discriminate].
        * intros r c. rewrite Ar'. destruct (Nat.eqb_spec r ref) as [->|]; [|apply M4]. intros A L. injection A as <-. exact T.
      + destruct M as (M1 & M2 & M3 & M4). splits; auto.
        * intros l. rewrite <- Va. auto.
        * intros a b I. apply M3, Oc. now left.
        * intros r c A L. apply (M4 r c); auto. rewrite Ar'. destruct (Nat.eqb_spec r ref) as [->|]; [congruence|auto].
    - intros l b. now rewrite Va.
    - intros r c X. exists c. rewrite Ar'. destruct (Nat.eqb_spec r ref) as [->|]; [congruence|]. splits; auto. }
  splits; auto.
  - split; assumption.
  - intros r Nr. rewrite Ar'. now destruct (Nat.eqb_spec r ref).
  - rewrite Ar'. now rewrite Nat.eqb_refl.
  - intros k w I. apply Oc. now left.
Qed.
