(** Gates found during variable elimination. *)
From Coq Require Import ZArith List Bool Lia Arith.
From Coq Require Import ZifyBool ZifyNat.
From Verif Require Import Base SpecSat Lit Solver Api Extend Eliminate DenseFacts DenseOps.
Import ListNotations.
Open Scope nat_scope.
Open Scope outcome_scope.

(** The clause of a watch of [l], and whether it is satisfied by a literal other than [l]. *)
Definition wlits (d : dense) (l : lit) (w : dwatch) : list lit :=
  match w with
  | DBinary other => [l; other]
  | DLarge r => match arena (d_sol d) r with Some c => c_lits c | None => [] end
  end.
Definition rest (d : dense) (l : lit) (w : dwatch) (v : assignment) : Prop :=
  exists k, In k (wlits d l w) /\ k <> l /\ tr v k = true.

Record gate_ok (d : dense) (l : lit) (g0 g1 : list dwatch) : Prop := mk_gate_ok {
  go_define : forall v, units d v ->
    (exists w, In w g0 /\ ~ rest d l w v) \/ (exists w, In w g1 /\ ~ rest d (neg l) w v);
  go_taut : d_resolve_gate d = false -> forall v w0 w1, units d v -> In w0 g0 -> In w1 g1 ->
    rest d l w0 v \/ rest d (neg l) w1 v \/ cnt w0 g0 < cnt w0 (d_occs d l) \/ cnt w1 g1 < cnt w1 (d_occs d (neg l));
  go_incl0 : incl g0 (d_occs d l);
  go_incl1 : incl g1 (d_occs d (neg l)) }.
Definition clear (d : dense) : Prop := forall k, d_marks d k = false.
Lemma gate_ok_swap : forall d l g0 g1, gate_ok d (neg l) g0 g1 -> gate_ok d l g1 g0.
Proof.
  intros d l g0 g1 [A B C D]. rewrite neg_neg in *. constructor; auto.
  - intros v U. destruct (A v U); auto.
  - intros R v w0 w1 U I0 I1. destruct (B R v w1 w0 U I1 I0) as [X|[X|[X|X]]]; auto.
Qed.

(** What all functions that look for gates guarantee. *)
Definition found (l : lit) (d : dense) (r : option (list dwatch * list dwatch)) (d' : dense) : Prop :=
  evo d d' /\ d_occs d' = d_occs d /\ clear d' /\
  match r with None => True | Some (g0, g1) => gate_ok d' l g0 g1 end.

(** ** Marks *)
Lemma mark_binaries_loop_spec : forall ws res d, ok (mark_binaries_loop ws res d) (fun '(res', d') =>
  exists m, d' = set_d_marks m d /\ (forall k, m k = true <-> d_marks d k = true \/ In (DBinary k) ws) /\
    (forall k, In (DBinary k) ws -> dval d k = None) /\ res <= res' /\ (res' = res -> forall k, m k = d_marks d k)).
Proof.
  induction ws as [|w ws IH]; intros res d; cbn [mark_binaries_loop].
  - cbn. exists (d_marks d). splits; auto; try tauto. now destruct d.
  - destruct w as [other|r].
    + apply ok_bind, ok_assert. intros N. assert (N' : dval d other = None) by now destruct (dval d other).
      destruct (d_marks d other) eqn:M.
      * eapply ok_mono; [apply IH|]. intros (res' & d') (m & -> & A & B & C & D). exists m. splits; auto.
        -- intros k. rewrite A. cbn [In]. split; [tauto|]. intros [X|[X|X]]; auto. injection X as ->. auto.
        -- intros k [X|X]; [injection X as <-|]; auto.
      * eapply ok_mono; [apply IH|]. intros (res' & d') (m & -> & A & B & C & D). exists m. splits; auto.
        -- intros k. rewrite A. cbn. unfold upd. destruct (Nat.eqb_spec k other) as [->|Nk]; [tauto|].
           split; [tauto|]. intros [X|[X|X]]; auto. congruence.
        -- intros k [X|X]; [injection X as <-|]; auto. apply B in X. exact X.
        -- lia.
        -- lia.
    + eapply ok_mono; [apply IH|]. intros (res' & d') (m & -> & A & B & C & D). exists m. splits; auto.
      * intros k. rewrite A. cbn [In]. split; [tauto|]. intros [X|[X|X]]; auto. discriminate.
      * intros k [X|X]; [discriminate|auto].
Qed.
Lemma unmark_binaries_spec : forall l d, exists m, unmark_binaries l d = set_d_marks m d /\
  forall k, m k = true <-> d_marks d k = true /\ ~ In (DBinary k) (d_occs d l).
Proof.
  intros l d. unfold unmark_binaries.
  assert (X : forall ws d, exists m, fold_left (fun d w => match w with DBinary other => set_d_marks (upd (d_marks d) other false) d | DLarge _ => d end) ws d = set_d_marks m d /\
    forall k, m k = true <-> d_marks d k = true /\ ~ In (DBinary k) ws).
  { clear. induction ws as [|w ws IH]; intros d; cbn [fold_left].
    - exists (d_marks d). split; [now destruct d|]. intros k. cbn. tauto.
    - destruct w as [other|r].
      + destruct (IH (set_d_marks (upd (d_marks d) other false) d)) as (m & E & A). exists m. split; [rewrite E; reflexivity|].
        intros k. rewrite A. cbn. unfold upd. destruct (Nat.eqb_spec k other) as [->|N].
        * split; [intros [X _]; discriminate|]. intros [_ X]. exfalso. apply X. auto.
        * split; intros [P Q]; split; auto. intros [e|e]; [congruence|auto].
      + destruct (IH d) as (m & E & A). exists m. split; auto. intros k. rewrite A. cbn. split; intros [P Q]; split; auto.
        intros [e|e]; [discriminate|auto]. }
  apply X.
Qed.
Lemma unmark_clear : forall l d, (forall k, d_marks d k = true -> In (DBinary k) (d_occs d l)) -> clear (unmark_binaries l d).
Proof.
  intros l d H k. destruct (unmark_binaries_spec l d) as (m & E & A). rewrite E. cbn. destruct (m k) eqn:M; auto.
  apply A in M as [M N]. apply H in M. tauto.
Qed.
Lemma evo_marks : forall d m, dinv d -> evo d (set_d_marks m d).
Proof. intros. apply evo_hidden; auto. apply hidden_marks. Qed.

(** ** Equivalences *)
Lemma find_replacement_spec : forall ws d r, find_replacement ws d = Some r -> In (DBinary r) ws /\ d_marks d (neg r) = true.
Proof.
  induction ws as [|w ws IH]; intros d r H; cbn in H; [discriminate|]. destruct w as [other|q].
  - destruct (d_marks d (neg other)) eqn:M.
    + injection H as <-. split; auto. now left.
    + apply IH in H as [A B]. split; auto. now right.
  - apply IH in H as [A B]. split; auto. now right.
Qed.
Lemma rest_binary : forall d l other v, other <> l -> (rest d l (DBinary other) v <-> tr v other = true).
Proof.
  intros d l other v N. unfold rest, wlits. split.
  - intros (k & [<-|[<-|[]]] & K & T); congruence.
  - intros T. exists other. cbn. auto.
Qed.
Lemma idx_neq : forall a b, idx a <> idx b -> a <> b /\ a <> neg b /\ neg a <> b.
Proof. intros a b H. repeat split; intros e; apply H; subst; auto using idx_neg. Qed.

Lemma equivalence_spec : forall o l d, dinv d -> clear d ->
  ok (find_equivalence_gate o l d) (fun '(r, d') => found l d r d').
Proof.
  intros o l d V Cl. unfold find_equivalence_gate. destruct (e_equivalences o); cbn [negb].
  2:{ cbn. unfold found. splits; auto using evo_refl. }
  apply ok_bind. eapply ok_mono; [apply (mark_binaries_loop_spec (d_occs d l) 0 d)|].
  intros (res & d1) (m & -> & A & B & C & D). destruct (Nat.eqb_spec res 0) as [->|Nz].
  { cbn. unfold found. splits; auto using evo_marks. intros k. cbn. rewrite D; auto. }
  set (d1 := set_d_marks m d).
  assert (Un : clear (unmark_binaries l d1)).
  { apply unmark_clear. intros k. cbn. rewrite A, Cl. intros [X|X]; [discriminate|auto]. }
  destruct (unmark_binaries_spec l d1) as (m' & E & A').
  destruct (find_replacement (d_occs d1 (neg l)) d1) as [r|] eqn:Fr.
  2:{ cbn [ok]. rewrite E in *. unfold found. splits; auto. now apply (evo_marks d m'). }
  apply find_replacement_spec in Fr as [I1 M1]. cbn in I1, M1. apply A in M1. rewrite Cl in M1. destruct M1 as [M1|I0]; [discriminate|].
  cbn [ok]. rewrite E in *. unfold found. splits; auto. { now apply (evo_marks d m'). }
  assert (R0 : neg r <> l). { pose proof (idx_neq _ _ (di_bin _ V _ _ I0)). intuition congruence. }
  assert (R1 : r <> neg l). { intros ->. apply R0. apply neg_neg. }
  constructor.
  - intros v _. destruct (tr v r) eqn:T.
    + left. exists (DBinary (neg r)). split; [now left|]. rewrite rest_binary by auto. rewrite tr_neg, T. discriminate.
    + right. exists (DBinary r). split; [now left|]. rewrite rest_binary by auto. congruence.
  - intros _ v w0 w1 _ [<-|[]] [<-|[]]. rewrite !rest_binary by auto. rewrite tr_neg. destruct (tr v r); auto.
  - intros w [<-|[]]. exact I0.
  - intros w [<-|[]]. exact I1.
Qed.

(** ** And gates *)
Definition base_literal (not_l : lit) (d : dense) (k : lit) : Prop :=
  k = not_l \/ dval d k = Some false \/ (dval d k = None /\ d_marks d (neg k) = true).
Lemma is_base_spec : forall not_l lits d,
  match is_base not_l lits d with
  | None => exists k, In k lits /\ dval d k = Some true
  | Some true => forall k, In k lits -> base_literal not_l d k
  | Some false => True
  end.
Proof.
  intros not_l. induction lits as [|x lits IH]; intros d; cbn [is_base]; [intros k []|].
  assert (Sk : base_literal not_l d x -> match is_base not_l lits d with
    | None => exists k, In k (x :: lits) /\ dval d k = Some true
    | Some true => forall k, In k (x :: lits) -> base_literal not_l d k
    | Some false => True end).
  { intros X. specialize (IH d). destruct (is_base not_l lits d) as [[|]|]; auto.
    - intros k [<-|I]; auto.
    - destruct IH as (k & I & T). exists k. split; auto. now right. }
  destruct (Nat.eqb_spec x not_l) as [->|N]; [apply Sk; now left|].
  destruct (dtrue d x) eqn:T. { exists x. split; [now left|now apply dtrue_spec]. }
  destruct (dfalse d x) eqn:F; [apply Sk; right; left; now apply dfalse_spec|].
  destruct (d_marks d (neg x)) eqn:M; [|exact I]. apply Sk. right; right. split; auto.
  destruct (dval_cases d x) as [X|[[_ X]|(_ & _ & X)]]; congruence.
Qed.
Lemma find_base_spec : forall not_l ws d, dinv d -> incl ws (d_occs d not_l) ->
  ok (find_base not_l ws d) (fun '(b, d') => evo d d' /\ quiet d d' /\
    forall r, b = Some r -> In (DLarge r) ws /\ exists c, arena (d_sol d') r = Some c /\ live c /\ forall k, In k (c_lits c) -> base_literal not_l d' k).
Proof.
  intros not_l. induction ws as [|w ws IH]; intros d V Inc; cbn [find_base].
  - cbn. splits; auto using evo_refl, quiet_refl. discriminate.
  - assert (Inc1 : incl ws (d_occs d not_l)) by (intros x I; apply Inc; now right).
    destruct w as [other|ref].
    + eapply ok_mono; [apply IH; auto|]. intros (b & d') (E & Q & H). splits; auto. intros r R. destruct (H r R) as (I & X). split; auto. now right.
    + apply ok_bind. eapply ok_mono; [apply get_clause_spec|]. cbv beta. intros c Ar. apply ok_bind, ok_assert. intros G.
      assert (Lc : live c). { destruct (di_large _ V not_l ref) as (c' & Ar' & R & _); [apply Inc; now left|]. rewrite Ar in Ar'. injection Ar' as <-. split; auto. now destruct (c_garbage c). }
      pose proof (is_base_spec not_l (c_lits c) d) as B. destruct (is_base not_l (c_lits c) d) as [[|]|].
      * cbn. splits; auto using evo_refl, quiet_refl. intros r R. injection R as <-. split; [now left|]. eauto.
      * eapply ok_mono; [apply IH; auto|]. intros (b & d') (E & Q & H). splits; auto. intros r R. destruct (H r R) as (I & X). split; auto. now right.
      * apply ok_bind. eapply ok_mono; [apply eliminate_clause_spec; auto|].
        -- intros c' Ar'. rewrite Ar in Ar'. injection Ar' as <-. destruct B as (k & I & T). exists k. auto.
        -- cbv beta. intros d1 (E1 & Q1 & _). pose proof Q1 as (O1 & _). eapply ok_mono; [apply IH; [apply (ev_inv _ _ E1)|now rewrite O1]|].
           intros (b & d') (E & Q & H). split; [exact (evo_trans _ _ _ E1 E)|]. split; [exact (quiet_trans _ _ _ Q1 Q)|].
           intros r R. destruct (H r R) as (I & X). split; auto. now right.
Qed.
Definition input_of (not_l : lit) (lits : list lit) (d : dense) (k : lit) : Prop :=
  exists x, In x lits /\ x <> not_l /\ dval d x = None /\ k = neg x.
Lemma unmark_inputs_spec : forall not_l lits d, ok (unmark_inputs not_l lits d) (fun d' =>
  exists m, d' = set_d_marks m d /\ forall k, m k = true <-> d_marks d k = true /\ ~ input_of not_l lits d k).
Proof.
  intros not_l. induction lits as [|x lits IH]; intros d; cbn [unmark_inputs].
  - cbn. exists (d_marks d). split; [now destruct d|]. intros k. split; [|tauto]. intros H. split; auto. intros (y & [] & _).
  - destruct ((x =? not_l) || dtrue d x || dfalse d x) eqn:C.
    + eapply ok_mono; [apply IH|]. cbv beta. intros d' (m & -> & A). exists m. split; auto. intros k. rewrite A.
      split; intros [P Q]; split; auto.
      * intros (y & [<-|I] & Y1 & Y2 & Y3); [|apply Q; exists y; auto].
        unfold dtrue, dfalse, is_true, is_false, dval in *. rewrite Y2 in C. destruct (Nat.eqb_spec x not_l); [auto|discriminate].
      * intros (y & I & Y). apply Q. exists y. split; auto. now right.
    + apply ok_bind, ok_assert. intros M. eapply ok_mono; [apply IH|]. cbv beta. intros d' (m & -> & A). exists m. split; auto.
      assert (Nx : x <> not_l /\ dval d x = None).
      { destruct (Nat.eqb_spec x not_l); [discriminate|]. split; auto. destruct (dval_cases d x) as [X|[[_ X]|(_ & _ & X)]]; auto; rewrite X, ?orb_true_r in C; discriminate. }
      intros k. rewrite A. cbn. unfold upd. destruct (Nat.eqb_spec k (neg x)) as [->|N].
      * split; [intros [X _]; discriminate|]. intros [_ X]. exfalso. apply X. exists x. split; [now left|tauto].
      * split; intros [P Q]; split; auto.
        -- intros (y & [<-|I] & Y1 & Y2 & Y3); [congruence|]. apply Q. exists y. auto.
        -- intros (y & I & Y). apply Q. exists y. split; auto. now right.
Qed.
Lemma gate_binaries_spec : forall ws d, ok (gate_binaries ws d) (fun '(g, d') =>
  exists m, d' = set_d_marks m d /\ (forall k, m k = true <-> d_marks d k = true /\ ~ In (DBinary k) ws) /\
    (forall r, ~ In (DLarge r) g) /\ (forall x, cnt (DBinary x) g = cnt (DBinary x) ws - (if d_marks d x then 1 else 0))).
Proof.
  induction ws as [|w ws IH]; intros d; cbn [gate_binaries].
  - cbn. exists (d_marks d). splits; auto; [now destruct d|]. intros k. tauto.
  - destruct w as [other|r].
    + apply ok_bind, ok_assert. intros _. destruct (d_marks d other) eqn:M.
      * eapply ok_mono; [apply IH|]. intros (g & d') (m & -> & A & B & C). exists m. splits; auto.
        -- intros k. rewrite A. cbn. unfold upd. destruct (Nat.eqb_spec k other) as [->|N].
           ++ split; [intros [X _]; discriminate|]. intros [_ X]. exfalso. auto.
           ++ split; intros [P Q]; split; auto. intros [e|e]; [congruence|auto].
        -- intros x. rewrite C, cnt_cons. cbn. unfold upd. destruct (Nat.eqb_spec x other) as [->|N].
           ++ rewrite one_same, M. lia.
           ++ rewrite one_other by congruence. lia.
      * apply ok_bind. eapply ok_mono; [apply IH|]. intros (g & d') (m & -> & A & B & C). cbn [ok]. exists m. splits; auto.
        -- intros k. rewrite A. cbn. split; intros [P Q]; split; auto. intros [e|e]; [congruence|auto].
        -- intros r [X|X]; [discriminate|]. now apply B in X.
        -- intros x. rewrite !cnt_cons, C. unfold one. destruct (dwatch_eqb_spec (DBinary x) (DBinary other)) as [e|e]; [|lia].
           injection e as ->. rewrite M. lia.
    + eapply ok_mono; [apply IH|]. intros (g & d') (m & -> & A & B & C). exists m. splits; auto.
      * intros k. rewrite A. cbn. split; intros [P Q]; split; auto. intros [e|e]; [discriminate|auto].
Qed.

Lemma and_spec : forall o l d, dinv d -> clear d -> ok (find_and_gate o l d) (fun '(r, d') => found l d r d').
Proof.
  intros o l d V Cl. unfold find_and_gate. destruct (e_ands o); cbn [negb].
  2:{ cbn. unfold found. splits; auto using evo_refl. }
  apply ok_bind. eapply ok_mono; [apply (mark_binaries_loop_spec (d_occs d l) 0 d)|].
  intros (res & d1) (m & -> & A & B & C & D). destruct (Nat.eqb_spec res 0) as [->|Nz].
  { cbn. unfold found. splits; auto using evo_marks. intros k. cbn. rewrite D; auto. }
  set (d1 := set_d_marks m d). assert (E1 : evo d d1) by now apply evo_marks.
  assert (A1 : forall k, m k = true <-> In (DBinary k) (d_occs d l)).
  { intros k. rewrite A, Cl. split; [intros [X|X]; [discriminate|auto]|auto]. }
  assert (Un : forall d2, evo d1 d2 -> quiet d1 d2 -> found l d None (unmark_binaries l d2)).
  { intros d2 E2 (O2 & M2 & _). destruct (unmark_binaries_spec l d2) as (m' & E & A'). unfold found. splits; auto.
    - rewrite E. eapply evo_trans; [exact E1|]. eapply evo_trans; [exact E2|]. apply evo_marks, (ev_inv _ _ E2).
    - rewrite E. cbn. rewrite O2. reflexivity.
    - apply unmark_clear. intros k. rewrite M2, O2. cbn. apply A1. }
  destruct (Nat.ltb_spec res 2). { cbn [ok]. apply Un; auto using quiet_refl. apply evo_refl, (ev_inv _ _ E1). }
  apply ok_bind. eapply ok_mono; [apply (find_base_spec (neg l) (d_occs d1 (neg l)) d1 (ev_inv _ _ E1)); apply incl_refl|].
  intros (base & d2) (E2 & Q2 & Hb). destruct base as [ref|]; [|cbn [ok]; now apply Un].
  destruct (Hb ref eq_refl) as (Ir & c & Ar & Lc & Bs). unfold get_clause. rewrite Ar. cbn [obind].
  pose proof Q2 as (O2 & M2 & R2). pose proof (ev_inv _ _ E2) as V2.
  apply ok_bind. eapply ok_mono; [apply unmark_inputs_spec|]. cbv beta. intros d3 (m3 & -> & A3).
  apply ok_bind. eapply ok_mono; [apply gate_binaries_spec|]. intros (g & d4) (m4 & -> & A4 & Ng & Cg). cbn [ok].
  assert (A3' : forall k, m3 k = true <-> In (DBinary k) (d_occs d l) /\ ~ input_of (neg l) (c_lits c) d2 k).
  { intros k. rewrite A3, M2. cbn. now rewrite A1. }
  assert (O2' : d_occs d2 = d_occs d) by (rewrite O2; reflexivity). cbn in A4, Cg. rewrite O2' in *.
  assert (Ig : forall x, In (DBinary x) g -> In (DBinary x) (d_occs d l)). { intros x. rewrite !cnt_in, Cg. lia. }
  assert (Nl : forall x, In (DBinary x) (d_occs d l) -> x <> l). { intros x I e. subst x. apply (di_bin _ V) in I. auto. }
  unfold found. splits.
  - eapply evo_trans; [exact E1|]. eapply evo_trans; [exact E2|]. apply evo_hidden; auto. repeat split.
  - cbn. exact O2'.
  - intros k. cbn. destruct (m4 k) eqn:Mk; auto. apply A4 in Mk as [P Q]. apply A3' in P. tauto.
  - assert (Wl : wlits (set_d_marks m4 (set_d_marks m3 d2)) (neg l) (DLarge ref) = c_lits c) by (cbn; now rewrite Ar).
    constructor.
    + intros v U. change (units d2 v) in U.
      destruct (sat_clause_dec v (filter (fun k => negb (k =? neg l)) (c_lits c))) as [(k & Ik & Tk)|Nk].
      * left. apply filter_In in Ik as [Ik Nk]. assert (Nk' : k <> neg l) by lia.
        destruct (Bs k Ik) as [X|[X|[X Mk]]]; [congruence|rewrite (units_false d2 v) in Tk; auto; discriminate|].
        rewrite M2 in Mk. cbn in Mk. apply A1 in Mk. exists (DBinary (neg k)). split.
        -- apply cnt_in. rewrite Cg. apply cnt_in in Mk. destruct (m3 (neg k)) eqn:M3; [|lia].
           apply A3' in M3 as [_ M3]. exfalso. apply M3. exists k. auto.
        -- rewrite rest_binary by now apply Nl. rewrite tr_neg, Tk. discriminate.
      * right. exists (DLarge ref). split; [now left|]. intros (k & Ik & K & T). rewrite Wl in Ik.
        rewrite Nk in T; [discriminate|]. apply filter_In. split; auto. lia.
    + intros _ v w0 w1 U I0 [<-|[]]. destruct w0 as [x|r]; [|now apply Ng in I0]. rewrite rest_binary by auto. cbn [set_d_marks d_occs]. rewrite O2'.
      destruct (m3 x) eqn:Mx.
      * right; right; left. rewrite Cg, Mx. apply Ig, cnt_in in I0. lia.
      * assert (Iy : input_of (neg l) (c_lits c) d2 x \/ ~ input_of (neg l) (c_lits c) d2 x).
        { destruct (in_dec Nat.eq_dec (neg x) (filter (fun y => negb (y =? neg l) && match dval d2 y with None => true | _ => false end) (c_lits c))) as [Y|Y].
          - left. apply filter_In in Y as [Y1 Y2]. exists (neg x). rewrite neg_neg. splits; auto; [lia|]. destruct (dval d2 (neg x)); auto. rewrite andb_false_r in Y2. discriminate.
          - right. intros (y & Y1 & Y2 & Y3 & ->). apply Y. rewrite neg_neg. apply filter_In. rewrite Y3. split; auto. lia. }
        destruct Iy as [(y & Y1 & Y2 & Y3 & ->)|Nx].
        -- destruct (tr v y) eqn:Ty; [|left; rewrite tr_neg, Ty; reflexivity]. right; left. exists y. rewrite Wl. auto.
        -- exfalso. rewrite (proj2 (A3' x)) in Mx; [discriminate|]. auto.
    + intros w I. cbn. rewrite O2'. destruct w as [x|r]; auto. now apply Ng in I.
    + intros w [<-|[]]. cbn. rewrite O2'. exact Ir.
Qed.

(** ** If-then-else gates *)
Lemma ternary_loop_spec : forall lits fnd d,
  match ternary_loop lits fnd d with
  | (_, true) => exists k, In k lits /\ dval d k = Some true
  | (Some f, false) => f = fnd ++ filter (fun k => match dval d k with None => true | _ => false end) lits /\
      forall k, In k lits -> dval d k <> Some true
  | _ => True
  end.
Proof.
  induction lits as [|x lits IH]; intros fnd d; cbn [ternary_loop].
  - rewrite app_nil_r. split; auto.
  - destruct (dtrue d x) eqn:T. { exists x. split; [now left|now apply dtrue_spec]. }
    destruct (dfalse d x) eqn:F.
    + apply dfalse_spec in F. specialize (IH fnd d). destruct (ternary_loop lits fnd d) as [[f|] [|]]; auto.
      * destruct IH as (k & I & K). exists k. split; auto. now right.
      * destruct IH as [A B]. cbn [filter]. rewrite F. split; auto. intros k [<-|I]; auto. congruence.
      * destruct IH as (k & I & K). exists k. split; auto. now right.
    + assert (N : dval d x = None) by (destruct (dval_cases d x) as [X|[[_ X]|(_ & _ & X)]]; congruence).
      destruct (length fnd =? 3); [exact I|]. specialize (IH (fnd ++ [x]) d). destruct (ternary_loop lits (fnd ++ [x]) d) as [[f|] [|]]; auto.
      * destruct IH as (k & I & K). exists k. split; auto. now right.
      * destruct IH as [A B]. cbn [filter]. rewrite N. rewrite <- app_assoc in A. split; auto. intros k [<-|I]; auto. congruence.
      * destruct IH as (k & I & K). exists k. split; auto. now right.
Qed.

(** The clause of [w] consists of [l], [b], [c] and false literals. *)
Record ternary (d : dense) (w : dwatch) (l b c : lit) : Prop := {
  te_in : forall k, In k (wlits d l w) -> dval d k = Some false \/ k = l \/ k = b \/ k = c;
  te_b : In b (wlits d l w); te_c : In c (wlits d l w); te_nb : b <> l; te_nc : c <> l;
  te_arena : match w with DLarge r => arena (d_sol d) r <> None | DBinary _ => True end }.
Lemma wlits_evo : forall d d' l w, evo d d' -> match w with DLarge r => arena (d_sol d) r <> None | DBinary _ => True end ->
  wlits d' l w = wlits d l w.
Proof.
  intros d d' l w E A. destruct w as [x|r]; [reflexivity|]. cbn. destruct (arena (d_sol d) r) as [c|] eqn:Ar; [|tauto].
  destruct (ev_arena _ _ E _ _ Ar) as (c' & Ar' & L & _). now rewrite Ar'.
Qed.
Lemma arena_evo : forall d d' w, evo d d' -> match w with DLarge r => arena (d_sol d) r <> None | DBinary _ => True end ->
  match w with DLarge r => arena (d_sol d') r <> None | DBinary _ => True end.
Proof.
  intros d d' w E A. destruct w as [x|r]; auto. destruct (arena (d_sol d) r) as [c|] eqn:Ar; [|tauto].
  destruct (ev_arena _ _ E _ _ Ar) as (c' & Ar' & L & _). congruence.
Qed.
Lemma ternary_evo : forall d d' w l b c, evo d d' -> ternary d w l b c -> ternary d' w l b c.
Proof.
  intros d d' w l b c E [A B C D F G]. constructor; auto; try (rewrite (wlits_evo d d'); auto; fail).
  - rewrite (wlits_evo d d') by auto. intros k I. destruct (A k I) as [X|X]; auto. left. now apply (ev_val _ _ E).
  - eapply arena_evo; eauto.
Qed.

Lemma get_ternary_spec : forall l ref d, dinv d -> In (DLarge ref) (d_occs d l) ->
  ok (get_ternary_clause ref d) (fun '(t, d') => evo d d' /\ quiet d d' /\
    forall a b c, option_map (pivot_first l) t = Some (a, b, c) -> a = l -> ternary d' (DLarge ref) l b c).
Proof.
  intros l ref d V I. unfold get_ternary_clause. apply ok_bind. eapply ok_mono; [apply get_clause_spec|]. cbv beta. intros cl Ar.
  destruct (c_garbage cl) eqn:G. { cbn. splits; auto using evo_refl, quiet_refl. discriminate. }
  assert (Lc : live cl). { destruct (di_large _ V l ref I) as (c' & Ar' & R & _). rewrite Ar in Ar'. injection Ar' as <-. split; auto. }
  assert (K : (exists k, In k (c_lits cl) /\ dval d k = Some true) -> ok (do d <- eliminate_clause ref d ; Ret (@None (lit * lit * lit), d))
    (fun '(t, d') => evo d d' /\ quiet d d' /\ forall a b c, option_map (pivot_first l) t = Some (a, b, c) -> a = l -> ternary d' (DLarge ref) l b c)).
  { intros T. apply ok_bind. eapply ok_mono; [apply eliminate_clause_spec; auto|].
    - intros c' Ar'. rewrite Ar in Ar'. injection Ar' as <-. destruct T as (k & Ik & Tk). exists k. auto.
    - cbv beta. intros d' (E & Q & _). cbn. splits; auto. discriminate. }
  pose proof (ternary_loop_spec (c_lits cl) [] d) as T. destruct (ternary_loop (c_lits cl) [] d) as [[f|] [|]]; cbn [app] in T.
  - specialize (K T). destruct f as [|x [|y [|z [|]]]]; exact K.
  - destruct T as [T Nt]. destruct f as [|x [|y [|z [|]]]]; try (cbn; splits; auto using evo_refl, quiet_refl; discriminate).
    cbn. split; [now apply evo_refl|]. split; [apply quiet_refl|]. intros a b c H e. injection H as H.
    assert (Nd : NoDup [x; y; z]). { rewrite T. apply NoDup_filter. eapply (di_nodup _ V); eauto. }
    assert (In3 : forall k, In k [x; y; z] <-> In k (c_lits cl) /\ dval d k = None).
    { intros k. rewrite T, filter_In. destruct (dval d k); intuition congruence. }
    assert (Pm : NoDup [a; b; c] /\ forall k, In k [a; b; c] <-> In k [x; y; z]).
    { unfold pivot_first in H. inversion Nd as [|? ? N1 Nd1]; subst. inversion Nd1 as [|? ? N2 Nd2]; subst. cbn in N1, N2.
      destruct (Nat.eqb_spec y l), (Nat.eqb_spec z l); injection H as <- <- <-; (split; [repeat constructor; cbn; intuition congruence|intros k; cbn; tauto]). }
    destruct Pm as [Nd' Pm]. subst a. inversion Nd' as [|? ? N1 Nd1]; subst. cbn in N1.
    constructor; cbn [wlits]; rewrite ?Ar; try congruence.
    + intros k Ik. destruct (dval d k) as [[|]|] eqn:D; auto; [now apply Nt in D|]. right.
      assert (X : In k [l; b; c]) by (apply Pm, In3; auto). cbn in X. intuition congruence.
    + apply In3, Pm. cbn. auto.
    + apply In3, Pm. cbn. auto.
    + intuition congruence.
    + intuition congruence.
  - exact (K T).
  - cbn. splits; auto using evo_refl, quiet_refl. discriminate.
Qed.

Record matched (d : dense) (w : dwatch) (a b c : lit) : Prop := {
  ma_in : forall k, In k (wlits d a w) -> dval d k = Some false \/ k = a \/ k = b \/ k = c;
  ma_full : d_resolve_gate d = true \/ (In b (wlits d a w) /\ In c (wlits d a w));
  ma_arena : match w with DLarge r => arena (d_sol d) r <> None | DBinary _ => True end }.
Lemma matched_evo : forall d d' w a b c, evo d d' -> (d_resolve_gate d = true -> d_resolve_gate d' = true) -> matched d w a b c -> matched d' w a b c.
Proof.
  intros d d' w a b c E Q [A B C]. constructor.
  - rewrite (wlits_evo d d') by auto. intros k I. destruct (A k I) as [X|X]; auto. left. now apply (ev_val _ _ E).
  - rewrite (wlits_evo d d') by auto. destruct B; auto.
  - eapply arena_evo; eauto.
Qed.
Lemma match_loop_spec : forall lits a b c n d,
  match match_loop lits a b c n d with
  | None => exists k, In k lits /\ dval d k = Some true
  | Some (Some m) => m = n + length (filter (fun k => match dval d k with Some false => false | _ => true end) lits) /\
      forall k, In k lits -> dval d k = Some false \/ k = a \/ k = b \/ k = c
  | Some None => True
  end.
Proof.
  induction lits as [|x lits IH]; intros a b c n d; cbn [match_loop].
  - split; [cbn; lia|intros k []].
  - destruct (dtrue d x) eqn:T. { exists x. split; [now left|now apply dtrue_spec]. }
    destruct (dfalse d x) eqn:F.
    + apply dfalse_spec in F. specialize (IH a b c n d). destruct (match_loop lits a b c n d) as [[m|]|]; auto.
      * destruct IH as [A B]. cbn [filter]. rewrite F. split; auto. intros k [<-|I]; auto.
      * destruct IH as (k & I & K). exists k. split; auto. now right.
    + destruct (negb (a =? x) && negb (b =? x) && negb (c =? x)) eqn:M; [exact I|].
      assert (X : x = a \/ x = b \/ x = c) by lia.
      assert (N : dval d x = None) by (destruct (dval_cases d x) as [Y|[[_ Y]|(_ & _ & Y)]]; congruence).
      specialize (IH a b c (S n) d). destruct (match_loop lits a b c (S n) d) as [[m|]|]; auto.
      * destruct IH as [A B]. cbn [filter]. rewrite N. cbn [length]. split; [lia|]. intros k [<-|I]; auto.
      * destruct IH as (k & I & K). exists k. split; auto. now right.
Qed.
(** Apart from [resolve_gate] nothing visible changes. *)
Definition nearly (d d' : dense) : Prop := d_occs d' = d_occs d /\ d_marks d' = d_marks d /\ (d_resolve_gate d = true -> d_resolve_gate d' = true).
Lemma nearly_refl : forall d, nearly d d.
Proof. repeat split. auto. Qed.
Lemma nearly_trans : forall a b c, nearly a b -> nearly b c -> nearly a c.
Proof. intros a b c (A & B & C) (D & E & F). split; [congruence|]. split; [congruence|auto]. Qed.
Lemma quiet_nearly : forall d d', quiet d d' -> nearly d d'.
Proof. intros d d' (A & B & C). split; [auto|]. split; [auto|congruence]. Qed.

Lemma match_ternary_spec : forall w a b c d, dinv d -> In w (d_occs d a) ->
  ok (match_ternary_watch w a b c d) (fun '(f, d') => evo d d' /\ nearly d d' /\ (f = true -> matched d' w a b c)).
Proof.
  intros w a b c d V I. destruct w as [other|ref]; cbn [match_ternary_watch].
  - destruct (negb (other =? b) && negb (other =? c)) eqn:M.
    + cbn. splits; auto using evo_refl, nearly_refl. discriminate.
    + cbn. split; [apply evo_hidden; auto; repeat split|]. split; [repeat split|]. intros _. constructor; [|left; reflexivity|exact Logic.I].
      intros k [<-|[<-|[]]]; auto. right; right. lia.
  - unfold match_ternary_ref. apply ok_bind. eapply ok_mono; [apply get_clause_spec|]. cbv beta. intros cl Ar.
    destruct (c_garbage cl) eqn:G. { cbn. splits; auto using evo_refl, nearly_refl. discriminate. }
    assert (Lc : live cl). { destruct (di_large _ V a ref I) as (c' & Ar' & R & _). rewrite Ar in Ar'. injection Ar' as <-. split; auto. }
    pose proof (match_loop_spec (c_lits cl) a b c 0 d) as T. destruct (match_loop (c_lits cl) a b c 0 d) as [[n|]|].
    + cbn [Nat.add] in T. destruct T as [Tn T]. destruct (Nat.eqb_spec n 3) as [N3|N3].
      * cbn. splits; auto using evo_refl, nearly_refl. intros _. constructor; cbn [wlits]; rewrite ?Ar; auto; [|congruence].
        right. set (f := filter _ _) in Tn. assert (Nd : NoDup f) by (apply NoDup_filter; eapply (di_nodup _ V); eauto).
        assert (Inc : incl f [a; b; c]).
        { intros k Ik. apply filter_In in Ik as [Ik Dk]. destruct (T k Ik) as [X|X]; [rewrite X in Dk; discriminate|]. cbn. intuition congruence. }
        assert (Inc' : incl [a; b; c] f) by (apply NoDup_length_incl; auto; cbn; lia).
        split; eapply (proj1 (filter_In _ _ _)), Inc'; cbn; auto.
      * cbn. split; [apply evo_hidden; auto; repeat split|]. split; [repeat split|]. intros _. constructor; cbn [wlits set_d_resolve_gate d_sol]; rewrite ?Ar; auto; congruence.
    + cbn. splits; auto using evo_refl, nearly_refl. discriminate.
    + apply ok_bind. eapply ok_mono; [apply eliminate_clause_spec; auto|].
      * intros c' Ar'. rewrite Ar in Ar'. injection Ar' as <-. destruct T as (k & Ik & Tk). exists k. auto.
      * cbv beta. intros d' (E & Q & _). cbn. splits; auto using quiet_nearly. discriminate.
Qed.
Lemma find_ternary_spec : forall a b c ws pos steps d, dinv d -> incl ws (d_occs d a) ->
  ok (find_ternary_loop ws pos steps a b c d) (fun '(r, _, d') => evo d d' /\ nearly d d' /\
    forall i w, r = Some (i, w) -> matched d' w a b c /\ In w ws).
Proof.
  intros a b c. induction ws as [|w ws IH]; intros pos steps d V Inc; cbn [find_ternary_loop].
  - cbn. splits; auto using evo_refl, nearly_refl. discriminate.
  - apply ok_bind. eapply ok_mono; [apply (match_ternary_spec w a b c d V); apply Inc; now left|]. intros (f & d1) (E1 & N1 & M1). destruct f.
    + cbn. splits; auto. intros i w' e. injection e as <- <-. auto.
    + pose proof N1 as (O1 & _). eapply ok_mono; [apply IH; [apply (ev_inv _ _ E1)|rewrite O1; intros x I; apply Inc; now right]|].
      intros ((r & st) & d') (E & N & M). split; [exact (evo_trans _ _ _ E1 E)|]. split; [exact (nearly_trans _ _ _ N1 N)|].
      intros i w' e. destruct (M i w' e) as [A B]. split; auto. now right.
Qed.

Lemma ite_gate : forall d l b1 c1 b2 c2 w1 w2 w3 w4 other, dinv d -> b1 = neg b2 ->
  ternary d w1 l b1 c1 -> ternary d w2 l b2 c2 -> matched d w3 (neg l) b1 (neg c1) -> matched d w4 (neg l) b2 (neg c2) ->
  In w1 (d_occs d l) -> In w2 (d_occs d l) -> In w3 (d_occs d (neg l)) -> In w4 (d_occs d (neg l)) ->
  other = [w3; w4] \/ other = [w4; w3] ->
  gate_ok d l [w1; w2] other.
Proof.
  intros d l b1 c1 b2 c2 w1 w2 w3 w4 other V Eb T1 T2 M3 M4 I1 I2 I3 I4 Ot.
  assert (Io : forall w, In w other <-> w = w3 \/ w = w4) by (intros w; destruct Ot as [->| ->]; cbn; intuition congruence).
  assert (Nn : forall x, x <> l -> neg x <> neg l) by (intros x N e; apply N; now apply neg_inj).
  constructor.
  - intros v U.
    assert (Fl : forall k, dval d k = Some false -> tr v k = true -> False).
    { intros k F T. rewrite (units_false d v) in T; auto. discriminate. }
    destruct (tr v b1) eqn:B1.
    + assert (B2 : tr v b2 = false) by (rewrite Eb, tr_neg in B1; now destruct (tr v b2)).
      destruct (tr v c2) eqn:C2.
      * right. exists w4. split; [apply Io; auto|]. intros (k & Ik & Nk & Tk).
        destruct (ma_in _ _ _ _ _ M4 k Ik) as [X|[X|[->| ->]]]; [eauto|congruence|congruence|]. rewrite tr_neg, C2 in Tk. discriminate.
      * left. exists w2. split; [cbn; auto|]. intros (k & Ik & Nk & Tk).
        destruct (te_in _ _ _ _ _ T2 k Ik) as [X|[X|[->| ->]]]; [eauto|congruence|congruence|congruence].
    + destruct (tr v c1) eqn:C1.
      * right. exists w3. split; [apply Io; auto|]. intros (k & Ik & Nk & Tk).
        destruct (ma_in _ _ _ _ _ M3 k Ik) as [X|[X|[->| ->]]]; [eauto|congruence|congruence|]. rewrite tr_neg, C1 in Tk. discriminate.
      * left. exists w1. split; [cbn; auto|]. intros (k & Ik & Nk & Tk).
        destruct (te_in _ _ _ _ _ T1 k Ik) as [X|[X|[->| ->]]]; [eauto|congruence|congruence|congruence].
  - intros R v x y U Ix Iy. apply Io in Iy.
    destruct (ma_full _ _ _ _ _ M3) as [X|[F31 F32]]; [congruence|]. destruct (ma_full _ _ _ _ _ M4) as [X|[F41 F42]]; [congruence|].
    assert (P : forall w w' k, In k (wlits d l w) -> k <> l -> In (neg k) (wlits d (neg l) w') -> rest d l w v \/ rest d (neg l) w' v).
    { intros w w' k A B C. destruct (tr v k) eqn:T; [left; exists k; auto|]. right. exists (neg k). splits; auto. rewrite tr_neg, T. reflexivity. }
    assert (G : rest d l x v \/ rest d (neg l) y v); [|tauto].
    destruct T1 as [_ B1 C1 Nb1 Nc1 _]. destruct T2 as [_ B2 C2 Nb2 Nc2 _].
    assert (Eb' : b2 = neg b1) by (rewrite Eb; symmetry; apply neg_neg).
    cbn in Ix. destruct Ix as [<-|[<-|[]]]; destruct Iy as [->| ->]; [apply (P _ _ c1)|apply (P _ _ b1)|apply (P _ _ b2)|apply (P _ _ c2)]; auto; congruence.
  - intros w [<-|[<-|[]]]; auto.
  - intros w I. apply Io in I as [->| ->]; auto.
Qed.

Definition same_marks (d d' : dense) : Prop := d_occs d' = d_occs d /\ d_marks d' = d_marks d.
Lemma same_marks_trans : forall a b c, same_marks a b -> same_marks b c -> same_marks a c.
Proof. intros a b c (A & B) (C & D). split; congruence. Qed.
Lemma nearly_same : forall d d', nearly d d' -> same_marks d d'.
Proof. intros d d' (A & B & _). now split. Qed.
Lemma quiet_same : forall d d', quiet d d' -> same_marks d d'.
Proof. intros d d' (A & B & _). now split. Qed.
Lemma same_marks_refl : forall d, same_marks d d.
Proof. now split. Qed.

Lemma ite_inner_spec : forall limit l b1 c1 w1 ws steps d, dinv d -> incl (w1 :: ws) (d_occs d l) -> ternary d w1 l b1 c1 ->
  ok (ite_inner limit l b1 c1 w1 ws steps d) (fun '(g, _, d') => evo d d' /\ same_marks d d' /\
    forall g0 g1, g = Some (g0, g1) -> gate_ok d' l g0 g1).
Proof.
  intros limit l b1 c1 w1. induction ws as [|w2 ws IH]; intros steps d V Inc T1; cbn [ite_inner].
  - cbn. splits; auto using evo_refl, same_marks_refl. discriminate.
  - destruct (limit <=? steps). { cbn. splits; auto using evo_refl, same_marks_refl. discriminate. }
    assert (Nx : forall steps d', evo d d' -> same_marks d d' -> ok (ite_inner limit l b1 c1 w1 ws steps d') (fun '(g, _, d'') => evo d d'' /\ same_marks d d'' /\
      forall g0 g1, g = Some (g0, g1) -> gate_ok d'' l g0 g1)).
    { intros st d' E Q. pose proof Q as (O & _). eapply ok_mono; [apply IH; [apply (ev_inv _ _ E)| |eapply ternary_evo; eauto]|].
      - rewrite O. intros x [<-|I]; apply Inc; [now left|now right; right].
      - intros ((g & st') & d'') (E' & Q' & H). split; [exact (evo_trans _ _ _ E E')|]. split; [exact (same_marks_trans _ _ _ Q Q')|auto]. }
    destruct w2 as [other|ref]; [apply Nx; auto using evo_refl, same_marks_refl|].
    apply ok_bind. eapply ok_mono; [apply (get_ternary_spec l); auto; apply Inc; right; now left|].
    intros (t & d1) (E1 & Q1 & T2). destruct t as [t|]; [|apply Nx; auto using quiet_same]. cbn [option_map] in T2.
    destruct (pivot_first l t) as [[a2 b2] c2]. apply ok_bind, ok_assert. intros Ea. apply Nat.eqb_eq in Ea.
    pose proof (T2 a2 b2 c2 eq_refl Ea) as T2'. clear T2.
    assert (T2 : exists b c, (if same_var b1 c2 then (c2, b2) else (b2, c2)) = (b, c) /\ ternary d1 (DLarge ref) l b c).
    { destruct (same_var b1 c2); [exists c2, b2|exists b2, c2]; split; auto. destruct T2' as [X1 X2 X3 X4 X5 X6]. constructor; auto.
      intros k I. destruct (X1 k I) as [Y|[Y|[Y|Y]]]; auto. }
    clear T2'. destruct T2 as (b & c & -> & T2).
    destruct (same_var c1 c); [apply Nx; auto using quiet_same|].
    destruct (Nat.eqb_spec b1 (neg b)) as [Eb|Nb]; cbn [negb]; [|apply Nx; auto using quiet_same].
    set (d2 := set_d_resolve_gate false d1). assert (E2 : evo d d2). { eapply evo_trans; [exact E1|]. apply evo_hidden; [repeat split|apply (ev_inv _ _ E1)]. }
    assert (Q2 : same_marks d d2). { destruct Q1 as (A & B & _). split; assumption. }
    assert (E12 : evo d1 d2) by (apply evo_hidden; [repeat split|apply (ev_inv _ _ E1)]).
    apply ok_bind. unfold find_ternary_clause. eapply ok_mono; [apply find_ternary_spec; [apply (ev_inv _ _ E2)|apply incl_refl]|].
    intros ((p3 & st3) & d3) (E3 & N3 & M3). destruct p3 as [[i3 w3]|]; [|apply Nx; [exact (evo_trans _ _ _ E2 E3)|exact (same_marks_trans _ _ _ Q2 (nearly_same _ _ N3))]].
    destruct (M3 i3 w3 eq_refl) as [M3a M3b]. clear M3.
    apply ok_bind. eapply ok_mono; [apply find_ternary_spec; [apply (ev_inv _ _ E3)|apply incl_refl]|].
    intros ((p4 & st4) & d4) (E4 & N4 & M4).
    assert (E24 : evo d d4) by exact (evo_trans _ _ _ E2 (evo_trans _ _ _ E3 E4)).
    assert (Q24 : same_marks d d4) by exact (same_marks_trans _ _ _ Q2 (same_marks_trans _ _ _ (nearly_same _ _ N3) (nearly_same _ _ N4))).
    destruct p4 as [[i4 w4]|]; [|now apply Nx].
    destruct (M4 i4 w4 eq_refl) as [M4a M4b]. clear M4. cbn [ok]. splits; auto. intros g0 g1 G. injection G as <- <-.
    destruct Q24 as [O24 _]. destruct Q2 as [O2 _]. destruct N3 as (O3 & _). destruct N4 as (O4 & _ & R4).
    eapply (ite_gate d4 l b1 c1 b c w1 (DLarge ref) w3 w4); rewrite ?O24; auto.
    + apply (ev_inv _ _ E24).
    + eapply ternary_evo; [exact E24|exact T1].
    + eapply ternary_evo; [exact (evo_trans _ _ _ E12 (evo_trans _ _ _ E3 E4))|exact T2].
    + eapply matched_evo; [exact E4|exact R4|exact M3a].
    + apply Inc. now left.
    + apply Inc. right. now left.
    + rewrite <- O2. exact M3b.
    + rewrite <- O2, <- O3. exact M4b.
    + destruct (i3 <? i4); auto.
Qed.
Lemma ite_outer_spec : forall limit l ws steps d, dinv d -> clear d -> incl ws (d_occs d l) ->
  ok (ite_outer limit l ws steps d) (fun '(g, d') => found l d g d').
Proof.
  intros limit l. induction ws as [|w1 ws IH]; intros steps d V Cl Inc; cbn [ite_outer].
  - cbn. unfold found. splits; auto using evo_refl.
  - assert (Nx : forall steps d', evo d d' -> same_marks d d' -> ok (ite_outer limit l ws steps d') (fun '(g, d'') => found l d g d'')).
    { intros st d' E (O & M). eapply ok_mono; [apply IH; [apply (ev_inv _ _ E)|intros k; rewrite M; apply Cl|rewrite O; intros x I; apply Inc; now right]|].
      intros (g & d'') (A & B & C & D). unfold found. splits; auto; [exact (evo_trans _ _ _ E A)|congruence]. }
    destruct ws as [|w2 ws]. { cbn. unfold found. splits; auto using evo_refl. }
    destruct (limit <=? steps). { cbn. unfold found. splits; auto using evo_refl. }
    destruct w1 as [other|ref]; [apply Nx; auto using evo_refl, same_marks_refl|].
    apply ok_bind. eapply ok_mono; [apply (get_ternary_spec l); auto; apply Inc; now left|].
    intros (t & d1) (E1 & Q1 & T1). destruct t as [t|]; [|apply Nx; auto using quiet_same]. cbn [option_map] in T1.
    destruct (pivot_first l t) as [[a1 b1] c1]. apply ok_bind, ok_assert. intros Ea. apply Nat.eqb_eq in Ea.
    pose proof (T1 a1 b1 c1 eq_refl Ea) as T1'. apply ok_bind. pose proof Q1 as (O1 & M1 & _).
    eapply ok_mono; [apply ite_inner_spec; [apply (ev_inv _ _ E1)|now rewrite O1|exact T1']|].
    intros ((g & st) & d2) (E2 & Q2 & G). pose proof (same_marks_trans _ _ _ (quiet_same _ _ Q1) Q2) as Q12.
    pose proof (evo_trans _ _ _ E1 E2) as E12. destruct g as [[g0 g1]|]; [|now apply Nx].
    cbn. unfold found. destruct Q12 as [O M]. splits; auto. intros k. rewrite M. apply Cl.
Qed.
Lemma ite_spec : forall o l d, dinv d -> clear d -> ok (find_if_then_else_gate o l d) (fun '(r, d') => found l d r d').
Proof.
  intros o l d V Cl. unfold find_if_then_else_gate. destruct (e_ifthenelse o); cbn [negb].
  2:{ cbn. unfold found. splits; auto using evo_refl. }
  destruct (d_occs d l) as [|w ws] eqn:E. { cbn. unfold found. splits; auto using evo_refl. }
  destruct (_ <? _). { cbn. unfold found. splits; auto using evo_refl. }
  apply ite_outer_spec; auto. rewrite E. apply incl_refl.
Qed.

(** ** All gates *)
(** What is assumed about the search for definitions (definition.c with kitten.c): the gate clauses found, without
    the literal, are unsatisfiable together with the known units, they are among the watches, and the unit learned
    follows from the clauses. *)
Definition good_definition (o : elim_options) : Prop := forall d l g0 g1 unit, dinv d -> e_definition o d l = Some (g0, g1, unit) ->
  (forall v, units d v -> (exists w, In w g0 /\ ~ rest d l w v) \/ (exists w, In w g1 /\ ~ rest d (neg l) w v)) /\
  incl g0 (d_occs d l) /\ incl g1 (d_occs d (neg l)) /\
  (forall u, unit = Some u -> forall v, models d v -> tr v u = true).
Lemma rest_evo : forall d d' l w v, evo d d' -> match w with DLarge r => arena (d_sol d) r <> None | DBinary _ => True end ->
  (rest d' l w v <-> rest d l w v).
Proof. intros d d' l w v E A. unfold rest. now rewrite (wlits_evo d d') by auto. Qed.
Lemma occs_arena : forall d l w, dinv d -> In w (d_occs d l) -> match w with DLarge r => arena (d_sol d) r <> None | DBinary _ => True end.
Proof. intros d l [x|r] V I; auto. destruct (di_large _ V _ _ I) as (c & Ar & _). congruence. Qed.
Lemma definition_spec : forall o l d, dinv d -> clear d -> good_definition o -> ok (find_definition o l d) (fun '(r, d') => found l d r d').
Proof.
  intros o l d V Cl Gd. unfold find_definition. destruct (e_definition o d l) as [[[g0 g1] u]|] eqn:E.
  2:{ cbn. unfold found. splits; auto using evo_refl. }
  destruct (Gd d l g0 g1 u V E) as (A & B & C & D). apply ok_bind.
  assert (X : ok (match u with Some u => dense_learned_unit u d | None => Ret d end) (fun d' => evo d d' /\ quiet d d')).
  { destruct u as [u|]; [|cbn; split; auto using evo_refl, quiet_refl].
    eapply ok_mono; [apply dense_learned_unit_spec; auto|]. cbv beta. tauto. }
  eapply ok_mono; [exact X|]. cbv beta. intros d' (E' & O & M & R). cbn [ok].
  assert (Ev : evo d (set_d_resolve_gate true d')). { eapply evo_trans; [exact E'|]. apply evo_hidden; [repeat split|apply (ev_inv _ _ E')]. }
  unfold found. splits; auto. { intros k. cbn. rewrite M. apply Cl. }
  constructor; auto.
  - intros v U. destruct (A v (evo_units _ _ _ Ev U)) as [(w & I & N)|(w & I & N)]; [left|right]; exists w; split; auto; rewrite (rest_evo d) by (auto; eapply occs_arena; eauto); auto.
  - discriminate.
  - cbn. now rewrite O.
  - cbn. now rewrite O.
Qed.

Lemma found_trans : forall l d1 d2 r d3, found l d1 None d2 -> found l d2 r d3 -> found l d1 r d3.
Proof.
  intros l d1 d2 r d3 (A & B & C & _) (A' & B' & C' & D'). unfold found. splits; auto; [exact (evo_trans _ _ _ A A')|congruence].
Qed.
Lemma found_swap : forall l d r d', found (neg l) d r d' -> found l d (swap_gates r) d'.
Proof.
  intros l d r d' (A & B & C & D). unfold found. splits; auto. destruct r as [[g0 g1]|]; cbn; auto. now apply gate_ok_swap.
Qed.
Lemma found_refl : forall l d, dinv d -> clear d -> found l d None d.
Proof. intros l d V C. unfold found. splits; auto using evo_refl. Qed.
Lemma found_dinv : forall l d r d', found l d r d' -> dinv d'.
Proof. intros l d r d' (A & _). apply (ev_inv _ _ A). Qed.
Lemma found_clear : forall l d r d', found l d r d' -> clear d'.
Proof. intros l d r d' (_ & _ & A & _). exact A. Qed.
Lemma find_gates_spec : forall o l d, dinv d -> clear d -> good_definition o -> ok (find_gates o l d) (fun '(r, d') => found l d r d').
Proof.
  intros o l d V Cl Gd. unfold find_gates. set (d1 := set_d_resolve_gate false d).
  assert (F1 : found l d None d1). { unfold found. splits; auto. apply evo_hidden; [repeat split|auto]. }
  assert (Nx : forall (f : dense -> outcome (option (list dwatch * list dwatch) * dense)) d',
    found l d None d' -> (forall d, dinv d -> clear d -> ok (f d) (fun '(r, d') => found l d r d')) ->
    ok (f d') (fun '(r, d'') => found l d r d'')).
  { intros f d' F H. eapply ok_mono; [apply H; [eapply found_dinv; eauto|eapply found_clear; eauto]|]. intros (r & d'') F'. eapply found_trans; eauto. }
  assert (Sx : forall (f : dense -> outcome (option (list dwatch * list dwatch) * dense)) d',
    found l d None d' -> (forall d, dinv d -> clear d -> ok (f d) (fun '(r, d') => found (neg l) d r d')) ->
    ok (f d') (fun '(r, d'') => found l d (swap_gates r) d'')).
  { intros f d' F H. eapply ok_mono; [apply H; [eapply found_dinv; eauto|eapply found_clear; eauto]|]. intros (r & d'') F'. eapply found_trans; eauto.
    now apply found_swap. }
  destruct (e_extract o); cbn [negb]; [|exact F1]. destruct (d_occs d1 (neg l)); [exact F1|].
  apply ok_bind. eapply ok_mono; [apply (Nx _ _ F1); intros; now apply equivalence_spec|]. intros (r2 & d2) F2. destruct r2; [exact F2|].
  apply ok_bind. eapply ok_mono; [apply (Nx _ _ F2); intros; now apply and_spec|]. intros (r3 & d3) F3. destruct r3; [exact F3|].
  apply ok_bind. eapply ok_mono; [apply (Sx _ _ F3); intros; now apply and_spec|]. intros (r4 & d4) F4. destruct r4; [exact F4|].
  apply ok_bind. eapply ok_mono; [apply (Nx _ _ F4); intros; now apply ite_spec|]. intros (r5 & d5) F5. destruct r5; [exact F5|].
  apply ok_bind. eapply ok_mono; [apply (Sx _ _ F5); intros; now apply ite_spec|]. intros (r6 & d6) F6. destruct r6; [exact F6|].
  apply (Nx _ _ F6). intros; now apply definition_spec.
Qed.
