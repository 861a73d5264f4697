(** Resolvents generated during variable elimination. *)
From Coq Require Import ZArith List Bool Lia Arith.
From Coq Require Import ZifyBool ZifyNat.
From Verif Require Import Base SpecSat Lit Solver Api Extend Eliminate DenseFacts DenseOps GateFacts.
Import ListNotations.
Open Scope nat_scope.
Open Scope outcome_scope.

(** ** The clause of a watch *)
(** A clause which became garbage is satisfied by a unit other than the pivot. *)
Definition gsat (d : dense) (l : lit) (w : dwatch) : Prop :=
  forall r c, w = DLarge r -> arena (d_sol d) r = Some c -> c_garbage c = true -> exists k, In k (c_lits c) /\ k <> l /\ dval d k = Some true.
Lemma gsat_evo : forall d d' l w, evo d d' -> dinv d -> In w (d_occs d l) -> dval d' l = None -> gsat d l w -> gsat d' l w.
Proof.
  intros d d' l w E V I N G r c -> Ar Gc. destruct (di_large _ V _ _ I) as (c0 & Ar0 & _).
  destruct (ev_arena _ _ E _ _ Ar0) as (c' & Ar' & L & _ & _ & K). rewrite Ar in Ar'. injection Ar' as <-.
  destruct (K Gc) as [G0|(k & Ik & Tk)].
  - destruct (G r c0 eq_refl Ar0 G0) as (k & Ik & Nk & Tk). exists k. rewrite L. splits; auto. now apply (ev_val _ _ E).
  - exists k. rewrite L. splits; auto. intros ->. congruence.
Qed.

Lemma watch_to_clause_spec : forall l w d, dinv d -> In w (d_occs d l) -> dval d l = None -> ok (watch_to_clause l w d) (fun '(c, g) =>
  c = wlits d l w /\ (g = false -> wf_lits c /\ In l c /\ (forall k, In k c -> d_gone d (idx k) = false) /\ (forall v, models d v -> sat_clause v c)) /\
  (g = true -> gsat d l w -> forall v, units d v -> rest d l w v)).
Proof.
  intros l w d V I N. assert (Gn : forall k w, In w (d_occs d k) -> d_gone d (idx k) = false).
  { intros k x Ix. destruct (d_gone d (idx k)) eqn:G; auto. apply (di_gone _ V) in G. rewrite G in Ix. destruct Ix. }
  destruct w as [other|r]; cbn [watch_to_clause].
  - cbn. split; [reflexivity|]. split; [|discriminate]. intros _. pose proof (di_bin _ V _ _ I) as Ne. split; [split|].
    + repeat constructor; cbn; [|tauto]. intros [->|[]]. now apply Ne.
    + intros k [<-|[<-|[]]] [e|[e|[]]]; try (now apply neg_neq in e); try (symmetry in e; now apply neg_neq in e); subst; rewrite ?idx_neg in Ne; auto.
    + split; [now left|]. split. { intros k [<-|[<-|[]]]; [eapply Gn; eauto|]. apply (Gn other (DBinary l)). apply cnt_in. rewrite (di_sym _ V). now apply cnt_in. }
      intros v (_ & _ & B & _). destruct (B _ _ I) as [T|T]; [exists l|exists other]; split; auto; [now left|right; now left].
  - apply ok_bind. eapply ok_mono; [apply get_clause_spec|]. cbv beta. intros c Ar. cbn. rewrite Ar. split; [reflexivity|].
    destruct (di_large _ V _ _ I) as (c' & Ar' & R & Il). rewrite Ar in Ar'. injection Ar' as <-. split.
    + intros G. assert (L : live c) by now split. split; [split|split; [|split]].
      * eapply (di_nodup _ V); eauto.
      * intros k. eapply (di_taut _ V); eauto.
      * auto.
      * intros k Ik. apply (Gn k (DLarge r)). eapply (di_conn _ V); eauto.
      * intros v (_ & _ & _ & La). eauto.
    + intros G Gs v U. destruct (Gs r c eq_refl Ar G) as (k & Ik & Nk & Tk). exists k. cbn. rewrite Ar. splits; auto.
Qed.
Lemma eliminate_watch_spec : forall l w d, dinv d -> In w (d_occs d l) -> (exists k, In k (wlits d l w) /\ k <> l /\ dval d k = Some true) ->
  ok (eliminate_watch w d) (fun d' => evo d d' /\ quiet d d' /\ (forall k, dval d' k = dval d k)).
Proof.
  intros l w d V I (k & Ik & Nk & Tk). destruct w as [other|r]; cbn [eliminate_watch].
  - cbn. splits; auto using evo_refl, quiet_refl.
  - eapply ok_mono; [apply eliminate_clause_eq|]. intros d' (c & Ar & _ & Ga & Q & T & P). cbn in Ik. rewrite Ar in Ik.
    splits; auto. { eapply evo_garbage; eauto. exists k. auto. } intros x. destruct Ga as (A & _). unfold dval. now rewrite A.
Qed.

(** ** Marks of the first antecedent *)
Lemma mark_literals_spec : forall l lits d, ok (mark_literals l lits d) (fun d' =>
  exists m, d' = set_d_marks m d /\ forall k, m k = true <-> d_marks d k = true \/ (In k lits /\ k <> l)).
Proof.
  intros l. induction lits as [|x lits IH]; intros d; cbn [mark_literals].
  - cbn. exists (d_marks d). split; [now destruct d|]. intros k. tauto.
  - destruct (Nat.eqb_spec x l) as [->|N].
    + eapply ok_mono; [apply IH|]. cbv beta. intros d' (m & -> & A). exists m. split; auto. intros k. rewrite A. cbn [In]. intuition congruence.
    + apply ok_bind, ok_assert. intros _. eapply ok_mono; [apply IH|]. cbv beta. intros d' (m & -> & A). exists m. split; auto.
      intros k. rewrite A. cbn. unfold upd. destruct (Nat.eqb_spec k x) as [->|Nk]; intuition congruence.
Qed.
Lemma unmark_literals_spec : forall l lits d, ok (unmark_literals l lits d) (fun d' =>
  exists m, d' = set_d_marks m d /\ forall k, m k = true <-> d_marks d k = true /\ ~ (In k lits /\ k <> l)).
Proof.
  intros l. induction lits as [|x lits IH]; intros d; cbn [unmark_literals].
  - cbn. exists (d_marks d). split; [now destruct d|]. intros k. tauto.
  - destruct (Nat.eqb_spec x l) as [->|N].
    + eapply ok_mono; [apply IH|]. cbv beta. intros d' (m & -> & A). exists m. split; auto. intros k. rewrite A. cbn [In]. intuition congruence.
    + apply ok_bind, ok_assert. intros _. eapply ok_mono; [apply IH|]. cbv beta. intros d' (m & -> & A). exists m. split; auto.
      intros k. rewrite A. cbn. unfold upd. destruct (Nat.eqb_spec k x) as [->|Nk]; intuition congruence.
Qed.

(** ** One resolvent *)
Lemma nodup_app_iff : forall A (a b : list A), NoDup (a ++ b) <-> NoDup a /\ NoDup b /\ (forall x, In x a -> In x b -> False).
Proof.
  induction a as [|y a IH]; intros b; cbn [app].
  - split; [intros H; splits; auto; constructor|tauto].
  - rewrite !NoDup_cons_iff, IH, in_app_iff. cbn [In]. split.
    + intros (H & A1 & A2 & A3). splits; auto. intros x [<-|X] Y; eauto.
    + intros ((H & A1) & A2 & A3). splits; auto; eauto. intros [X|X]; eauto.
Qed.
Lemma second_literals_spec : forall nl d lits acc, match second_literals nl lits acc d with
  | SSatisfied => exists k, In k lits /\ k <> nl /\ dval d k = Some true
  | STautological => exists k, In k lits /\ k <> nl /\ d_marks d (neg k) = true
  | SLiterals r => exists f, r = acc ++ f /\ (NoDup lits -> NoDup f) /\
      (forall k, In k f -> In k lits /\ k <> nl /\ dval d k = None /\ d_marks d k = false /\ d_marks d (neg k) = false) /\
      (forall k, In k lits -> k = nl \/ dval d k = Some false \/ d_marks d k = true \/ In k f)
  end.
Proof.
  intros nl d. induction lits as [|x lits IH]; intros acc; cbn [second_literals].
  - exists []. rewrite app_nil_r. splits; auto; intros k [].
  - assert (Nx : x = nl \/ dval d x = Some false \/ d_marks d x = true -> match second_literals nl lits acc d with
      | SSatisfied => exists k, In k (x :: lits) /\ k <> nl /\ dval d k = Some true
      | STautological => exists k, In k (x :: lits) /\ k <> nl /\ d_marks d (neg k) = true
      | SLiterals r => exists f, r = acc ++ f /\ (NoDup (x :: lits) -> NoDup f) /\
          (forall k, In k f -> In k (x :: lits) /\ k <> nl /\ dval d k = None /\ d_marks d k = false /\ d_marks d (neg k) = false) /\
          (forall k, In k (x :: lits) -> k = nl \/ dval d k = Some false \/ d_marks d k = true \/ In k f)
      end).
    { intros D. specialize (IH acc). destruct (second_literals nl lits acc d).
      - destruct IH as (k & A & B). exists k. split; auto. now right.
      - destruct IH as (k & A & B). exists k. split; auto. now right.
      - destruct IH as (f & A & B & C & E). exists f. split; [auto|]. split; [|split].
        + intros Nd. inversion Nd; auto.
        + intros k I. destruct (C k I) as (C1 & C2). split; auto. now right.
        + intros k [<-|I]; auto. tauto. }
    destruct (Nat.eqb_spec x nl) as [->|N]; [apply Nx; auto|].
    destruct (dfalse d x) eqn:F. { apply Nx. right; left. now apply dfalse_spec. }
    destruct (dtrue d x) eqn:T. { exists x. apply dtrue_spec in T. splits; auto. now left. }
    destruct (d_marks d x) eqn:M; [apply Nx; auto|].
    destruct (d_marks d (neg x)) eqn:Mn. { exists x. splits; auto. now left. }
    specialize (IH (acc ++ [x])). destruct (second_literals nl lits (acc ++ [x]) d).
    + destruct IH as (k & A & B). exists k. split; auto. now right.
    + destruct IH as (k & A & B). exists k. split; auto. now right.
    + destruct IH as (f & A & B & C & E). exists (x :: f). rewrite <- app_assoc in A. split; [auto|]. split; [|split].
      * intros Nd. inversion Nd; subst. constructor; auto. intros I. apply C in I. tauto.
      * assert (Nv : dval d x = None) by (destruct (dval_cases d x) as [X|[[_ X]|(_ & _ & X)]]; congruence).
        intros k [<-|I]; [splits; auto; now left|]. destruct (C k I) as (C1 & C2). split; auto. now right.
      * intros k [<-|I]; [right; right; right; now left|]. destruct (E k I) as [X|[X|[X|X]]]; auto. right; right; right. now right.
Qed.
Lemma first_literals_spec : forall l d lits acc, ok (first_literals l lits acc d) (fun r =>
  r = acc ++ filter (fun k => negb (k =? l) && match dval d k with None => true | _ => false end) lits /\
  forall k, In k lits -> k <> l -> dval d k <> Some true).
Proof.
  intros l d. induction lits as [|x lits IH]; intros acc; cbn [first_literals].
  - cbn. rewrite app_nil_r. split; auto.
  - cbn [filter]. destruct (Nat.eqb_spec x l) as [->|N].
    + cbn [negb andb]. eapply ok_mono; [apply IH|]. cbv beta. intros r [A B]. split; auto. intros k [<-|I]; auto; congruence.
    + apply ok_bind, ok_assert. intros T. cbn [negb andb]. destruct (dfalse d x) eqn:F.
      * apply dfalse_spec in F. rewrite F. eapply ok_mono; [apply IH|]. cbv beta. intros r [A B]. split; auto. intros k [<-|I]; auto; congruence.
      * assert (Nv : dval d x = None). { destruct (dval_cases d x) as [X|[[_ X]|(_ & _ & X)]]; auto; [rewrite X in T; discriminate|congruence]. }
        rewrite Nv. eapply ok_mono; [apply IH|]. cbv beta. intros r [A B]. rewrite A, <- app_assoc. split; auto. intros k [<-|I]; auto; congruence.
Qed.

(** ** The invariant of the loops *)
Definition resolvents_ok (d : dense) (l : lit) (rs : list (list lit)) : Prop :=
  forall c, In c rs -> wf_lits c /\ (forall k, In k c -> idx k <> idx l /\ d_gone d (idx k) = false) /\ forall v, models d v -> sat_clause v c.
Lemma resolvents_ok_evo : forall d d' l rs, evo d d' -> resolvents_ok d l rs -> resolvents_ok d' l rs.
Proof. intros d d' l rs E H c I. destruct (H c I) as (A & B & C). rewrite (ev_gone _ _ E). split; [auto|]. split; [auto|]. intros v M. apply C. now apply (ev_models _ _ E). Qed.
Definition pair (d : dense) (l : lit) (rs : list (list lit)) (w0 w1 : dwatch) : Prop :=
  forall v, units d v -> (forall c, In c rs -> sat_clause v c) -> rest d l w0 v \/ rest d (neg l) w1 v.
Lemma pair_evo : forall d d' l rs rs' w0 w1, evo d d' -> dinv d -> In w0 (d_occs d l) -> In w1 (d_occs d (neg l)) -> incl rs rs' ->
  pair d l rs w0 w1 -> pair d' l rs' w0 w1.
Proof.
  intros d d' l rs rs' w0 w1 E V I0 I1 Inc P v U R. rewrite !(rest_evo d d') by (auto; eapply occs_arena; eauto).
  apply P; auto. eapply evo_units; eauto.
Qed.
Lemma pair_first : forall d d' l rs w0 w1, evo d d' -> dinv d -> In w0 (d_occs d l) -> (forall v, units d v -> rest d l w0 v) -> pair d' l rs w0 w1.
Proof.
  intros d d' l rs w0 w1 E V I H v U R. left. rewrite (rest_evo d d') by (auto; eapply occs_arena; eauto). apply H. eapply evo_units; eauto.
Qed.

Lemma resolve_ok : forall d l w0 w f rs, dinv d -> In w0 (d_occs d l) -> In w (d_occs d (neg l)) ->
  wf_lits (wlits d l w0) -> In l (wlits d l w0) -> (forall k, In k (wlits d l w0) -> d_gone d (idx k) = false) -> (forall v, models d v -> sat_clause v (wlits d l w0)) ->
  (forall k, In k (wlits d (neg l) w) -> d_gone d (idx k) = false) -> wf_lits (wlits d (neg l) w) -> In (neg l) (wlits d (neg l) w) -> (forall v, models d v -> sat_clause v (wlits d (neg l) w)) ->
  (forall k, d_marks d k = true <-> In k (wlits d l w0) /\ k <> l) ->
  NoDup f ->
  (forall k, In k f -> In k (wlits d (neg l) w) /\ k <> neg l /\ dval d k = None /\ d_marks d k = false /\ d_marks d (neg k) = false) ->
  (forall k, In k (wlits d (neg l) w) -> k = neg l \/ dval d k = Some false \/ d_marks d k = true \/ In k f) ->
  (forall k, In k (wlits d l w0) -> k <> l -> dval d k <> Some true) ->
  rs = f ++ filter (fun k => negb (k =? l) && match dval d k with None => true | _ => false end) (wlits d l w0) ->
  wf_lits rs /\ (forall k, In k rs -> idx k <> idx l /\ d_gone d (idx k) = false) /\ (forall k, In k rs -> dval d k = None) /\ (forall v, models d v -> sat_clause v rs) /\
  (forall v, sat_clause v rs -> rest d l w0 v \/ rest d (neg l) w v).
Proof.
  intros d l w0 w f rs V I0 I1 W0 L0 Gn0 M0 Gn1 W1 L1 M1 Mk Nf Hf He Nt ->.
  set (g := filter _ _). assert (Hg : forall k, In k g <-> In k (wlits d l w0) /\ k <> l /\ dval d k = None).
  { intros k. unfold g. rewrite filter_In. destruct (dval d k); [split; [intros [_ X]; lia|intros (_ & _ & X); discriminate]|]. rewrite andb_true_r. intuition lia. }
  assert (Ng : NoDup g) by (apply NoDup_filter, W0).
  split; [split|split; [|split; [|split]]].
  - apply nodup_app_iff. splits; auto. intros k F G. apply Hg in G as (G1 & G2 & _). apply Hf in F as (_ & _ & _ & F & _).
    rewrite (proj2 (Mk k)) in F; [discriminate|auto].
  - intros k A B. apply in_app_iff in A, B. destruct A as [A|A], B as [B|B].
    + apply Hf in A as (A & _). apply Hf in B as (B & _). now apply (proj2 W1 k).
    + apply Hf in A as (_ & _ & _ & _ & A). apply Hg in B as (B1 & B2 & _). rewrite (proj2 (Mk (neg k))) in A; [discriminate|auto].
    + apply Hf in B as (_ & _ & _ & _ & B). rewrite neg_neg in B. apply Hg in A as (A1 & A2 & _). rewrite (proj2 (Mk k)) in B; [discriminate|auto].
    + apply Hg in A as (A & _). apply Hg in B as (B & _). now apply (proj2 W0 k).
  - intros k A. split. 2:{ apply in_app_iff in A as [A|A]; [apply Gn1; now apply Hf in A|apply Gn0; now apply Hg in A]. }
    intros e. apply idx_eq in e. apply in_app_iff in A as [A|A].
    + apply Hf in A as (A & B & _). destruct e as [->|e]; [|auto]. now apply (proj2 W1 l).
    + apply Hg in A as (A & B & _). destruct e as [e| ->]; [auto|]. now apply (proj2 W0 l).
  - intros k A. apply in_app_iff in A as [A|A]; [now apply Hf in A|now apply Hg in A].
  - intros v M. destruct (M0 v M) as (k0 & K0 & T0). destruct (M1 v M) as (k1 & K1 & T1). pose proof M as (_ & U & _).
    assert (C : forall k, In k (wlits d l w0) -> k <> l -> tr v k = true -> In k g).
    { intros k A B T. apply Hg. splits; auto. destruct (dval d k) as [[|]|] eqn:D; auto; [now apply Nt in D|].
      rewrite (units_false d v k) in T; auto. discriminate. }
    destruct (Nat.eq_dec k0 l) as [->|N0].
    + assert (N1 : k1 <> neg l). { intros ->. rewrite tr_neg, T0 in T1. discriminate. }
      exists k1. split; auto. apply in_app_iff. destruct (He k1 K1) as [X|[X|[X|X]]]; auto; [congruence| |].
      * rewrite (units_false d v k1) in T1; auto. discriminate.
      * apply Mk in X as [X1 X2]. right. now apply C.
    + exists k0. split; auto. apply in_app_iff. right. now apply C.
  - intros v (k & A & T). apply in_app_iff in A as [A|A].
    + apply Hf in A as (A & B & _). right. exists k. auto.
    + apply Hg in A as (A & B & _). left. exists k. auto.
Qed.

Lemma generate_inner_spec : forall o limit l w0 ws r d0, r_state r = d0 -> dinv d0 -> dval d0 l = None ->
  In w0 (d_occs d0 l) -> incl ws (d_occs d0 (neg l)) -> (forall w, In w ws -> gsat d0 (neg l) w) ->
  wf_lits (wlits d0 l w0) -> In l (wlits d0 l w0) -> (forall k, In k (wlits d0 l w0) -> d_gone d0 (idx k) = false) -> (forall v, models d0 v -> sat_clause v (wlits d0 l w0)) ->
  (forall k, d_marks d0 k = true <-> In k (wlits d0 l w0) /\ k <> l) -> resolvents_ok d0 l (r_stack r) ->
  ok (generate_inner o limit l (wlits d0 l w0) ws r) (fun '(p, r') => let d' := r_state r' in
    evo d0 d' /\ quiet d0 d' /\ dval d' l = None /\ resolvents_ok d' l (r_stack r') /\ incl (r_stack r) (r_stack r') /\
    (p <> Failed -> forall w, In w ws -> pair d' l (r_stack r') w0 w)).
Proof.
  intros o limit l w0. induction ws as [|w ws IH]; intros r d0 Er V N I0 Inc Gs W0 L0 Gn0 M0 Mk Ro; cbn [generate_inner].
  { cbn. rewrite Er. splits; auto using evo_refl, quiet_refl, incl_refl. intros _ w []. }
  assert (Nx : forall r1 d1, r_state r1 = d1 -> evo d0 d1 -> quiet d0 d1 -> dval d1 l = None -> resolvents_ok d1 l (r_stack r1) -> incl (r_stack r) (r_stack r1) ->
    pair d1 l (r_stack r1) w0 w -> ok (generate_inner o limit l (wlits d0 l w0) ws r1) (fun '(p, r') => let d' := r_state r' in
    evo d0 d' /\ quiet d0 d' /\ dval d' l = None /\ resolvents_ok d' l (r_stack r') /\ incl (r_stack r) (r_stack r') /\
    (p <> Failed -> forall w', In w' (w :: ws) -> pair d' l (r_stack r') w0 w'))).
  { intros r1 d1 Er1 E Q N1 Ro1 Inc1 P. pose proof Q as (O & M & R). pose proof (wlits_evo d0 d1 l w0 E (occs_arena _ _ _ V I0)) as Wl.
    rewrite <- Wl. assert (Nn : dval d1 (neg l) = None) by (rewrite (di_neg _ (ev_inv _ _ E)), N1; reflexivity).
    eapply ok_mono; [apply (IH r1 d1 Er1); rewrite ?O, ?M, ?Wl; auto|].
    - apply (ev_inv _ _ E).
    - intros x Ix. apply Inc. now right.
    - intros x Ix. apply (gsat_evo d0); auto; [apply Inc; now right|apply Gs; now right].
    - now rewrite (ev_gone _ _ E).
    - intros v Mv. apply M0. now apply (ev_models _ _ E).
    - intros (p & r') (E' & Q' & N' & Ro' & Inc' & P'). split; [exact (evo_trans _ _ _ E E')|]. split; [exact (quiet_trans _ _ _ Q Q')|].
      split; [auto|]. split; [auto|]. split; [exact (incl_tran Inc1 Inc')|]. intros F x [<-|Ix]; [|now apply P'].
      apply (pair_evo (r_state r1) (r_state r') l (r_stack r1)); rewrite ?Er1; auto; [exact (ev_inv _ _ E)|now rewrite O|rewrite O; apply Inc; now left]. }
  assert (Iw : In w (d_occs d0 (neg l))) by (apply Inc; now left).
  assert (Nn : dval d0 (neg l) = None) by (rewrite (di_neg _ V), N; reflexivity).
  rewrite Er. apply ok_bind. eapply ok_mono; [apply (watch_to_clause_spec (neg l) w d0); auto|]. intros (e & garbage) (-> & Hg & Hs).
  destruct garbage.
  { apply (Nx r d0); auto using evo_refl, quiet_refl, incl_refl. intros v U _. right. apply Hs; auto. apply Gs. now left. }
  destruct (Hg eq_refl) as (W1 & L1 & Gn1 & M1). clear Hg Hs.
  pose proof (second_literals_spec (neg l) d0 (wlits d0 (neg l) w) []) as S2.
  destruct (second_literals (neg l) (wlits d0 (neg l) w) [] d0) as [| |f].
  - apply ok_bind. eapply ok_mono; [apply (eliminate_watch_spec (neg l)); auto|]. cbv beta. intros d1 (E1 & Q1 & Va).
    apply (Nx _ d1); cbn; auto using incl_refl; [now rewrite Va|eapply resolvents_ok_evo; eauto|].
    apply (pair_evo d0 d1 l (r_stack r)); auto using incl_refl. destruct S2 as (k & A & B & C). intros v U _. right. exists k. auto.
  - apply (Nx r d0); auto using evo_refl, quiet_refl, incl_refl. destruct S2 as (k & A & B & C). apply Mk in C as [C1 C2]. intros v U _.
    destruct (tr v k) eqn:T; [right; exists k; auto|left; exists (neg k); splits; auto; rewrite tr_neg, T; reflexivity].
  - destruct S2 as (f' & E & Nf & Hf & He). cbn [app] in E. subst f'.
    destruct (limit <? S (r_count r)). { cbn. splits; auto using evo_refl, quiet_refl, incl_refl. congruence. }
    apply ok_bind. eapply ok_mono; [apply first_literals_spec|]. cbv beta. intros rs [Ers Nt].
    destruct (resolve_ok d0 l w0 w f rs) as (Wr & Ir & Ur & Mr & Pr); auto. { apply Nf, W1. }
    assert (Big : ok (if e_clslim o <? length rs then Ret (Failed, mk_resolution (S (r_count r)) (r_stack r) d0) else generate_inner o limit l (wlits d0 l w0) ws (mk_resolution (S (r_count r)) (rs :: r_stack r) d0))
       (fun '(p, r') => let d' := r_state r' in
    evo d0 d' /\ quiet d0 d' /\ dval d' l = None /\ resolvents_ok d' l (r_stack r') /\ incl (r_stack r) (r_stack r') /\
    (p <> Failed -> forall w', In w' (w :: ws) -> pair d' l (r_stack r') w0 w'))).
    { destruct (_ <? _). { cbn. splits; auto using evo_refl, quiet_refl, incl_refl. congruence. }
      apply (Nx _ d0); cbn; auto using evo_refl, quiet_refl.
      - intros c [<-|Ic]; [splits; auto|now apply Ro].
      - intros x Ix. now right.
      - intros v U R. apply Pr, R. now left. }
    destruct rs as [|u [|y rs]]; [| |exact Big].
    + apply ok_bind. eapply ok_mono; [apply dense_inconsistent_spec; [auto|]|].
      * intros v Mv. destruct (Mr v Mv) as (k & [] & _).
      * cbv beta. intros d1 (E1 & Q1 & _ & Va). cbn. splits; auto using incl_refl; [now rewrite Va|eapply resolvents_ok_evo; eauto|congruence].
    + clear Big. apply ok_bind. eapply ok_mono; [apply dense_learned_unit_spec; [auto|]|].
      * intros v Mv. destruct (Mr v Mv) as (k & [<-|[]] & T). exact T.
      * cbv beta. intros d1 (E1 & Q1 & T1 & _ & Va). assert (N1 : dval d1 l = None). { rewrite Va; auto. intros e. destruct (Ir u) as [X _]; [now left|auto]. }
        pose proof (resolvents_ok_evo _ _ _ _ E1 Ro) as Ro1. cbn.
        destruct (d_marks d1 u) eqn:Mu.
        -- cbn. splits; auto using incl_refl. intros _ x Ix. destruct Q1 as (_ & Q1 & _). rewrite Q1 in Mu. apply Mk in Mu as [Mu1 Mu2].
           intros v U _. left. exists u. rewrite (wlits_evo d0 d1) by (auto; eapply occs_arena; eauto). splits; auto.
        -- apply (Nx _ d1); cbn; auto using incl_refl. intros v U R. rewrite !(rest_evo d0 d1) by (auto; eapply occs_arena; eauto).
           apply Pr. exists u. split; [now left|auto].
Qed.

Definition same_gate (d d' : dense) : Prop := d_occs d' = d_occs d /\ d_resolve_gate d' = d_resolve_gate d.
Lemma same_gate_trans : forall a b c, same_gate a b -> same_gate b c -> same_gate a c.
Proof. intros a b c (A & B) (C & D). split; congruence. Qed.
Lemma gsat_all : forall d d' l ws, evo d d' -> dinv d -> incl ws (d_occs d l) -> dval d' l = None ->
  (forall w, In w ws -> gsat d l w) -> forall w, In w ws -> gsat d' l w.
Proof. intros d d' l ws E V I N G w Iw. eapply gsat_evo; eauto. Qed.

Lemma generate_resolvents_spec : forall o limit l ws1 ws0 r d0, r_state r = d0 -> dinv d0 -> dval d0 l = None -> clear d0 ->
  incl ws0 (d_occs d0 l) -> incl ws1 (d_occs d0 (neg l)) -> (forall w, In w ws0 -> gsat d0 l w) -> (forall w, In w ws1 -> gsat d0 (neg l) w) ->
  resolvents_ok d0 l (r_stack r) ->
  ok (generate_resolvents o limit l ws0 ws1 r) (fun '(b, r') => let d' := r_state r' in
    evo d0 d' /\ same_gate d0 d' /\ clear d' /\ dval d' l = None /\ resolvents_ok d' l (r_stack r') /\ incl (r_stack r) (r_stack r') /\
    (b = true -> forall w0 w1, In w0 ws0 -> In w1 ws1 -> pair d' l (r_stack r') w0 w1)).
Proof.
  intros o limit l ws1. induction ws0 as [|w ws0 IH]; intros r d0 Er V N Cl Inc0 Inc1 G0 G1 Ro; cbn [generate_resolvents].
  { cbn. rewrite Er. splits; auto using evo_refl, incl_refl; [split; reflexivity|]. intros _ w0 w1 []. }
  assert (Nx : forall r1 d1, r_state r1 = d1 -> evo d0 d1 -> same_gate d0 d1 -> clear d1 -> dval d1 l = None -> resolvents_ok d1 l (r_stack r1) -> incl (r_stack r) (r_stack r1) ->
    (forall w1, In w1 ws1 -> pair d1 l (r_stack r1) w w1) -> ok (generate_resolvents o limit l ws0 ws1 r1) (fun '(b, r') => let d' := r_state r' in
    evo d0 d' /\ same_gate d0 d' /\ clear d' /\ dval d' l = None /\ resolvents_ok d' l (r_stack r') /\ incl (r_stack r) (r_stack r') /\
    (b = true -> forall w0 w1, In w0 (w :: ws0) -> In w1 ws1 -> pair d' l (r_stack r') w0 w1))).
  { intros r1 d1 Er1 E Q C1 N1 Ro1 Inc2 P. pose proof Q as (O & R). pose proof (ev_inv _ _ E) as V1.
    assert (Nn : dval d1 (neg l) = None) by (rewrite (di_neg _ V1), N1; reflexivity).
    eapply ok_mono; [apply (IH r1 d1 Er1); rewrite ?O; auto|].
    - intros x Ix. apply Inc0. now right.
    - apply (gsat_all d0); auto; [intros x Ix; apply Inc0; now right|intros x Ix; apply G0; now right].
    - apply (gsat_all d0); auto.
    - intros (b & r') (E' & Q' & C' & N' & Ro' & Inc' & P'). split; [exact (evo_trans _ _ _ E E')|]. split; [exact (same_gate_trans _ _ _ Q Q')|].
      split; [auto|]. split; [auto|]. split; [auto|]. split; [exact (incl_tran Inc2 Inc')|]. intros B w0 w1 [<-|I0] I1; [|now apply P'].
      apply (pair_evo d1 (r_state r') l (r_stack r1)); auto; rewrite O; auto. apply Inc0. now left. }
  assert (Iw : In w (d_occs d0 l)) by (apply Inc0; now left).
  rewrite Er. apply ok_bind. eapply ok_mono; [apply (watch_to_clause_spec l w d0); auto|]. intros (c & garbage) (-> & Hg & Hs).
  destruct garbage.
  { apply (Nx r d0); auto using evo_refl, incl_refl; [split; reflexivity|]. intros w1 I1. apply (pair_first d0); auto using evo_refl.
    apply Hs; auto. apply G0. now left. }
  destruct (Hg eq_refl) as (W0 & L0 & Gn0 & M0). clear Hg Hs.
  destruct (first_satisfied l (wlits d0 l w) d0) eqn:Fs.
  { assert (Fk : exists k, In k (wlits d0 l w) /\ k <> l /\ dval d0 k = Some true).
    { clear -Fs. induction (wlits d0 l w) as [|x xs IH]; cbn in Fs; [discriminate|]. destruct (Nat.eqb_spec x l) as [->|Nx].
      - destruct (IH Fs) as (k & A & B). exists k. split; auto. now right.
      - apply orb_true_iff in Fs as [T|T]; [exists x; splits; auto; [now left|now apply dtrue_spec]|].
        destruct (IH T) as (k & A & B). exists k. split; auto. now right. }
    apply ok_bind. eapply ok_mono; [apply (eliminate_watch_spec l); auto|]. cbv beta. intros d1 (E1 & (O1 & M1 & R1) & Va).
    apply (Nx _ d1); cbn; auto using incl_refl; [now split|intros k; rewrite M1; apply Cl|now rewrite Va|eapply resolvents_ok_evo; eauto|].
    intros w1 I1. apply (pair_first d0); auto. intros v U. destruct Fk as (k & A & B & C). exists k. auto. }
  apply ok_bind. eapply ok_mono; [apply mark_literals_spec|]. cbv beta. intros d1 (m & -> & Hm). set (d1 := set_d_marks m d0).
  assert (E1 : evo d0 d1) by now apply evo_marks.
  apply ok_bind. eapply ok_mono; [apply (generate_inner_spec o limit l w ws1 (mk_resolution (r_count r) (r_stack r) d1) d1)|]; cbn [r_stack]; auto.
  - apply (ev_inv _ _ E1).
  - intros k. cbn. rewrite Hm, Cl. intuition congruence.
  - intros (p & r2) (E2 & Q2 & N2 & Ro2 & Inc2 & P2). cbn [r_stack] in Inc2. pose proof Q2 as (O2 & M2 & R2).
    apply ok_bind. eapply ok_mono; [apply unmark_literals_spec|]. cbv beta. intros d3 (m3 & -> & Hm3).
    assert (E3 : evo (r_state r2) (set_d_marks m3 (r_state r2))) by (apply evo_marks, (ev_inv _ _ E2)).
    assert (E03 : evo d0 (set_d_marks m3 (r_state r2))) by exact (evo_trans _ _ _ E1 (evo_trans _ _ _ E2 E3)).
    assert (C3 : clear (set_d_marks m3 (r_state r2))).
    { intros k. cbn. destruct (m3 k) eqn:Mk; auto. apply Hm3 in Mk as [A B]. rewrite M2 in A. cbn in A. apply Hm in A as [A|A]; [now rewrite Cl in A|tauto]. }
    assert (Q3 : same_gate d0 (set_d_marks m3 (r_state r2))) by (split; [exact O2|exact R2]).
    assert (Ro3 : resolvents_ok (set_d_marks m3 (r_state r2)) l (r_stack r2)) by exact (resolvents_ok_evo _ _ _ _ E3 Ro2).
    assert (Fin : p <> Failed -> ok (generate_resolvents o limit l ws0 ws1 (mk_resolution (r_count r2) (r_stack r2) (set_d_marks m3 (r_state r2)))) (fun '(b, r') => let d' := r_state r' in
      evo d0 d' /\ same_gate d0 d' /\ clear d' /\ dval d' l = None /\ resolvents_ok d' l (r_stack r') /\ incl (r_stack r) (r_stack r') /\
      (b = true -> forall w0 w1, In w0 (w :: ws0) -> In w1 ws1 -> pair d' l (r_stack r') w0 w1))).
    { intros F. apply (Nx _ _ eq_refl); cbn [r_state r_stack]; auto. intros w1 I1. apply (P2 F w1 I1). }
    destruct p; [apply Fin; congruence|apply Fin; congruence|].
    cbn [ok r_state r_stack]. split; [exact E03|]. split; [exact Q3|]. split; [exact C3|]. split; [exact N2|]. split; [exact Ro3|]. split; [exact Inc2|congruence].
Qed.

(** ** Clauses outside of the gate *)
Lemma get_antecedents_spec : forall ws gates, ok (get_antecedents gates ws) (fun a => forall w, cnt w a + cnt w gates = cnt w ws).
Proof.
  induction ws as [|w ws IH]; intros gates; cbn [get_antecedents].
  - destruct gates; [cbn; auto|exact I].
  - destruct gates as [|g gates].
    + apply ok_bind. eapply ok_mono; [apply IH|]. cbv beta. intros a H. cbn [ok]. intros x. rewrite !cnt_cons, <- (H x). lia.
    + destruct (dwatch_eqb_spec g w) as [->|N].
      * eapply ok_mono; [apply IH|]. cbv beta. intros a H x. rewrite !cnt_cons, <- (H x). lia.
      * apply ok_bind. eapply ok_mono; [apply IH|]. cbv beta. intros a H. cbn [ok]. intros x. specialize (H x). rewrite !cnt_cons in *. lia.
Qed.
Lemma rest_dec : forall d l w v, rest d l w v \/ ~ rest d l w v.
Proof.
  intros d l w v. destruct (sat_clause_dec v (filter (fun k => negb (k =? l)) (wlits d l w))) as [(k & I & T)|H].
  - left. apply filter_In in I as [I K]. exists k. splits; auto. lia.
  - right. intros (k & I & K & T). rewrite H in T; [discriminate|]. apply filter_In. split; auto. lia.
Qed.
Lemma all_rest_dec : forall d l ws v, (forall w, In w ws -> rest d l w v) \/ exists w, In w ws /\ ~ rest d l w v.
Proof.
  intros d l ws v. induction ws as [|w ws [IH|(x & I & N)]]; [left; intros w []| |right; exists x; split; auto; now right].
  destruct (rest_dec d l w v) as [R|R]; [left; intros x [<-|I]; auto|right; exists w; split; auto; now left].
Qed.

(** Assignments which satisfy the resolvents satisfy the clauses of one literal without it. *)
Definition one_side (d : dense) (l : lit) (rs : list (list lit)) : Prop := forall v, units d v -> (forall c, In c rs -> sat_clause v c) ->
  (forall w, In w (d_occs d l) -> rest d l w v) \/ (forall w, In w (d_occs d (neg l)) -> rest d (neg l) w v).
Lemma pairs_one_side : forall d l rs, (forall w0 w1, In w0 (d_occs d l) -> In w1 (d_occs d (neg l)) -> pair d l rs w0 w1) -> one_side d l rs.
Proof.
  intros d l rs P v U R. destruct (all_rest_dec d l (d_occs d l) v) as [A|(w0 & I0 & N0)]; auto.
  destruct (all_rest_dec d (neg l) (d_occs d (neg l)) v) as [A|(w1 & I1 & N1)]; auto. destruct (P w0 w1 I0 I1 v U R); tauto.
Qed.
Lemma gate_one_side : forall d l rs g0 g1 a0 a1, gate_ok d l g0 g1 ->
  (forall w, cnt w a0 + cnt w g0 = cnt w (d_occs d l)) -> (forall w, cnt w a1 + cnt w g1 = cnt w (d_occs d (neg l))) ->
  (forall w0 w1, In w0 g0 -> In w1 a1 -> pair d l rs w0 w1) -> (forall w1 w0, In w1 g1 -> In w0 a0 -> pair d (neg l) rs w1 w0) ->
  (d_resolve_gate d = true -> forall w0 w1, In w0 g0 -> In w1 g1 -> pair d l rs w0 w1) -> one_side d l rs.
Proof.
  intros d l rs g0 g1 a0 a1 G C0 C1 P01 P10 P v U R.
  destruct (all_rest_dec d l (d_occs d l) v) as [A|(w0 & I0 & N0)]; auto.
  destruct (all_rest_dec d (neg l) (d_occs d (neg l)) v) as [A|(w1 & I1 & N1)]; auto. exfalso.
  assert (P10' : forall w0 w1, In w1 g1 -> In w0 a0 -> rest d l w0 v \/ rest d (neg l) w1 v).
  { intros x y Iy Ix. destruct (P10 y x Iy Ix v U R) as [X|X]; auto. rewrite neg_neg in X. auto. }
  assert (G01 : forall x y, In x g0 -> In y g1 -> ~ rest d l x v -> ~ rest d (neg l) y v -> False).
  { intros x y Ix Iy Nx Ny. destruct (d_resolve_gate d) eqn:E.
    - destruct (P eq_refl x y Ix Iy v U R); tauto.
    - destruct (go_taut _ _ _ _ G E v x y U Ix Iy) as [X|[X|[X|X]]]; try tauto.
      + assert (In x a0) by (apply cnt_in; specialize (C0 x); lia). destruct (P10' x y); tauto.
      + assert (In y a1) by (apply cnt_in; specialize (C1 y); lia). destruct (P01 x y Ix ltac:(assumption) v U R); tauto. }
  assert (S0 : In w0 a0 \/ In w0 g0) by (rewrite !cnt_in in *; specialize (C0 w0); lia).
  assert (S1 : In w1 a1 \/ In w1 g1) by (rewrite !cnt_in in *; specialize (C1 w1); lia).
  destruct (go_define _ _ _ _ G v U) as [(g & Ig & Ng)|(g & Ig & Ng)].
  - destruct S1 as [S1|S1]; [destruct (P01 g w1 Ig S1 v U R); tauto|eauto].
  - destruct S0 as [S0|S0]; [destruct (P10' w0 g Ig S0); tauto|eauto].
Qed.
Lemma gate_ok_evo : forall d d' l g0 g1, evo d d' -> dinv d -> same_gate d d' -> gate_ok d l g0 g1 -> gate_ok d' l g0 g1.
Proof.
  intros d d' l g0 g1 E V (O & R) [A B C D].
  assert (R0 : forall w v, In w g0 -> rest d' l w v <-> rest d l w v) by (intros w v I; apply rest_evo; auto; eapply occs_arena; eauto).
  assert (R1 : forall w v, In w g1 -> rest d' (neg l) w v <-> rest d (neg l) w v) by (intros w v I; apply rest_evo; auto; eapply occs_arena; eauto).
  constructor; rewrite ?O, ?R; auto.
  - intros v U. destruct (A v (evo_units _ _ _ E U)) as [(w & I & N)|(w & I & N)]; [left|right]; exists w; split; auto; [rewrite R0|rewrite R1]; auto.
  - intros Rg v w0 w1 U I0 I1. rewrite R0, R1 by auto. apply B; auto. eapply evo_units; eauto.
Qed.

Definition generated (l : lit) (d : dense) (rs : list (list lit)) (d' : dense) : Prop :=
  evo d d' /\ clear d' /\ dval d' l = None /\ resolvents_ok d' l rs /\ one_side d' l rs.
Lemma generate_all_spec : forall o limit l gates d, dinv d -> dval d l = None -> clear d ->
  (forall w, In w (d_occs d l) -> gsat d l w) -> (forall w, In w (d_occs d (neg l)) -> gsat d (neg l) w) ->
  match gates with Some (g0, g1) => gate_ok d l g0 g1 | None => True end ->
  ok (generate_all o limit l gates d) (fun '(b, r) => evo d (r_state r) /\ d_occs (r_state r) = d_occs d /\ clear (r_state r) /\
    (b = true -> generated l d (r_stack r) (r_state r))).
Proof.
  intros o limit l gates d V N Cl G0 G1 Gok. unfold generate_all.
  destruct gates as [[g0 g1]|].
  - apply ok_bind. eapply ok_mono; [apply get_antecedents_spec|]. cbv beta. intros a0 C0.
    apply ok_bind. eapply ok_mono; [apply get_antecedents_spec|]. cbv beta. intros a1 C1.
    assert (Ia0 : incl a0 (d_occs d l)). { intros w. rewrite !cnt_in. specialize (C0 w). lia. }
    assert (Ia1 : incl a1 (d_occs d (neg l))). { intros w. rewrite !cnt_in. specialize (C1 w). lia. }
    pose proof (go_incl0 _ _ _ _ Gok) as Ig0. pose proof (go_incl1 _ _ _ _ Gok) as Ig1.
    apply ok_bind. eapply ok_mono; [apply (generate_resolvents_spec o limit l a1 g0 (mk_resolution 0 [] d) d); auto|].
    { intros c []. }
    intros (b1 & r1) (E1 & Q1 & Cl1 & N1 & Ro1 & _ & P1). destruct b1; cbn [negb]; [|cbn; splits; auto; [apply Q1|discriminate]].
    pose proof Q1 as (O1 & R1). pose proof (ev_inv _ _ E1) as V1. assert (Nn1 : dval (r_state r1) (neg l) = None) by (rewrite (di_neg _ V1), N1; reflexivity).
    apply ok_bind. eapply ok_mono; [apply (generate_resolvents_spec o limit (neg l) a0 g1 r1 (r_state r1)); rewrite ?neg_neg, ?O1; auto|].
    + apply (gsat_all d); auto.
    + apply (gsat_all d); auto.
    + intros c Ic. destruct (Ro1 c Ic) as (A & B & C). splits; auto. intros k Ik. rewrite idx_neg. auto.
    + intros (b2 & r2) (E2 & Q2 & Cl2 & N2 & Ro2 & Inc2 & P2). pose proof (evo_trans _ _ _ E1 E2) as E12. pose proof (same_gate_trans _ _ _ Q1 Q2) as Q12.
      destruct b2; cbn [negb]; [|cbn; splits; auto; [apply Q12|discriminate]].
      pose proof Q2 as (O2 & R2). pose proof (ev_inv _ _ E2) as V2. rewrite O1 in O2.
      assert (Nl2 : dval (r_state r2) l = None). { pose proof (di_neg _ V2 l) as X. rewrite N2 in X. now destruct (dval (r_state r2) l). }
      assert (Ro2' : resolvents_ok (r_state r2) l (r_stack r2)). { intros c Ic. destruct (Ro2 c Ic) as (A & B & C). splits; auto. intros k Ik. rewrite <- (idx_neg l). auto. }
      assert (P1' : forall w0 w1, In w0 g0 -> In w1 a1 -> pair (r_state r2) l (r_stack r2) w0 w1).
      { intros w0 w1 I0 I1. apply (pair_evo (r_state r1) (r_state r2) l (r_stack r1)); auto; rewrite O1; auto. }
      destruct (d_resolve_gate (r_state r2)) eqn:Rg.
      * eapply ok_mono; [apply (generate_resolvents_spec o limit l g1 g0 r2 (r_state r2)); rewrite ?O2; auto|].
        -- apply (gsat_all d); auto.
        -- apply (gsat_all d); auto.
        -- intros (b3 & r3) (E3 & Q3 & Cl3 & N3 & Ro3 & Inc3 & P3). pose proof (evo_trans _ _ _ E12 E3) as E13. pose proof (same_gate_trans _ _ _ Q12 Q3) as Q13.
           split; [auto|]. split; [apply Q13|]. split; [auto|]. intros B. unfold generated. splits; auto.
           assert (O3 : d_occs (r_state r3) = d_occs d) by apply Q13.
           apply (gate_one_side _ _ _ g0 g1 a0 a1); rewrite ?O3; auto.
           ++ apply (gate_ok_evo d); auto.
           ++ intros w0 w1 I0 I1. apply (pair_evo (r_state r2) (r_state r3) l (r_stack r2)); auto; rewrite O2; auto.
           ++ intros w1 w0 I1 I0. apply (pair_evo (r_state r2) (r_state r3) (neg l) (r_stack r2)); auto; rewrite O2, ?neg_neg; auto.
      * cbn. split; [auto|]. split; [auto|]. split; [auto|]. intros _. unfold generated. splits; auto.
        apply (gate_one_side _ _ _ g0 g1 a0 a1); rewrite ?O2; auto; [|congruence]. apply (gate_ok_evo d); auto.
  - apply ok_bind. eapply ok_mono; [apply get_antecedents_spec|]. cbv beta. intros a0 C0.
    apply ok_bind. eapply ok_mono; [apply get_antecedents_spec|]. cbv beta. intros a1 C1.
    assert (Ia0 : forall w, In w a0 <-> In w (d_occs d l)). { intros w. rewrite !cnt_in. specialize (C0 w). rewrite cnt_nil in C0. lia. }
    assert (Ia1 : forall w, In w a1 <-> In w (d_occs d (neg l))). { intros w. rewrite !cnt_in. specialize (C1 w). rewrite cnt_nil in C1. lia. }
    eapply ok_mono; [apply (generate_resolvents_spec o limit l a1 a0 (mk_resolution 0 [] d) d); auto|].
    + intros w. apply Ia0.
    + intros w. apply Ia1.
    + intros w I. apply G0, Ia0, I.
    + intros w I. apply G1, Ia1, I.
    + intros c [].
    + intros (b1 & r1) (E1 & (O1 & R1) & Cl1 & N1 & Ro1 & _ & P1). splits; auto. intros B. unfold generated. splits; auto.
      apply pairs_one_side. rewrite O1. intros w0 w1 I0 I1. apply (P1 B); [now apply Ia0|now apply Ia1].
Qed.

Lemma kissat_generate_resolvents_spec : forall o i d, good_definition o -> dinv d -> clear d -> dval d (2 * i) = None ->
  ok (kissat_generate_resolvents o i d) (fun '(r, d') => evo d d' /\ clear d' /\
    forall l rs, r = Some (l, rs) -> idx l = i /\ generated l d rs d').
Proof.
  intros o i d Gd V Cl N. unfold kissat_generate_resolvents. set (l0 := 2 * i).
  assert (Il0 : idx l0 = i). { unfold l0, idx. apply Nat.div2_double. }
  apply ok_bind. eapply ok_mono; [apply (occurrences_literal_spec _ l0 d V)|]. intros (pos & d1) (E1 & Sc1 & M1 & O1 & K1).
  apply ok_bind. eapply ok_mono; [apply (occurrences_literal_spec _ (neg l0) d1 (ev_inv _ _ E1))|]. intros (ng & d2) (E2 & Sc2 & M2 & O2 & K2).
  rewrite neg_neg in O2. pose proof (evo_trans _ _ _ E1 E2) as E12. pose proof (same_clauses_trans _ _ _ Sc1 Sc2) as Sc.
  assert (Va : forall k, dval d2 k = dval d k) by (intros; unfold dval; destruct Sc as (A & _); now rewrite A).
  assert (Cl2 : clear d2) by (intros k; rewrite M2, M1; apply Cl).
  assert (Kp : forall n, pos = Some n -> n = length (d_occs d2 l0) /\ forall w, In w (d_occs d2 l0) -> kept_ok d2 w).
  { intros n En. rewrite O2. destruct (K1 n En) as [A B]. split; auto. intros w I. specialize (B w I). destruct w as [x|r]; cbn in *; [now rewrite Va|].
    destruct Sc as (_ & _ & -> & _). exact B. }
  assert (Kn : forall n, ng = Some n -> n = length (d_occs d2 (neg l0)) /\ forall w, In w (d_occs d2 (neg l0)) -> kept_ok d2 w).
  { intros n En. destruct (K2 n En) as [A B]. split; auto. intros w I. specialize (B w I). destruct Sc2 as (X & _ & Y & _). destruct w as [x|r]; cbn in *; unfold dval in *; [rewrite X|rewrite Y]; exact B. }
  set (larger := match pos, ng with None, Some _ => true | Some p, Some n => n <? p | _, None => false end).
  assert (H : forall l pos ng, idx l = i ->
    (forall n, pos = Some n -> n = length (d_occs d2 l) /\ forall w, In w (d_occs d2 l) -> kept_ok d2 w) ->
    (forall n, ng = Some n -> n = length (d_occs d2 (neg l)) /\ forall w, In w (d_occs d2 (neg l)) -> kept_ok d2 w) ->
    ok (match pos with
  | Some 0 => Ret (Some (l, []), d2)
  | _ =>
      match pos, ng with
      | Some p, Some n =>
          let limit := p + n in
          if e_occlim o <? limit then Ret (None, d2)
          else
            let limit := limit + e_bound o in
            do (gates, d) <- find_gates o l d2 ;
            match dval d l with
            | Some _ => Ret (None, d)
            | None =>
                do (ok, r) <- generate_all o limit l gates d ;
                if ok then Ret (Some (l, rev (r_stack r)), r_state r) else Ret (None, r_state r)
            end
      | _, _ => Ret (None, d2)
      end
  end) (fun '(r, d') => evo d d' /\ clear d' /\ forall l rs, r = Some (l, rs) -> idx l = i /\ generated l d rs d')).
  2:{ destruct larger; [apply (H (neg l0)); rewrite ?neg_neg, ?idx_neg; auto|apply (H l0); auto]. }
  clear pos ng K1 K2 Kp Kn larger. intros l pos ng Il Kp Kn.
  assert (Nl : dval d2 l = None).
  { rewrite Va. rewrite <- Il0 in Il. apply idx_eq in Il as [->| ->]; auto. rewrite (di_neg _ V). unfold l0 in N |- *. now rewrite N. }
  assert (Non : ok (Ret (None, d2)) (fun '(r, d') => evo d d' /\ clear d' /\ forall l rs, r = Some (l, rs) -> idx l = i /\ generated l d rs d')).
  { cbn [ok]. splits; auto. discriminate. }
  destruct pos as [[|p]|]; [| |exact Non].
  - cbn [ok]. splits; auto. intros l' rs X. injection X as <- <-. split; auto. unfold generated. splits; auto; [intros c []|].
    intros v U R. left. destruct (Kp 0 eq_refl) as [L _]. destruct (d_occs d2 l); [intros w []|discriminate].
  - destruct ng as [n|]; [|exact Non]. cbv zeta. destruct (e_occlim o <? S p + n); [exact Non|].
    apply ok_bind. eapply ok_mono; [apply find_gates_spec; auto; apply (ev_inv _ _ E2)|]. intros (gates & d3) (E3 & O3 & Cl3 & Gok).
    pose proof (evo_trans _ _ _ E12 E3) as E13. pose proof (ev_inv _ _ E2) as V2. pose proof (ev_inv _ _ E3) as V3.
    destruct (dval d3 l) as [|] eqn:N3. { cbn [ok]. splits; auto. discriminate. }
    assert (Nn3 : dval d3 (neg l) = None) by (rewrite (di_neg _ V3), N3; reflexivity).
    assert (Gs : forall k, (forall w, In w (d_occs d2 k) -> kept_ok d2 w) -> forall w, In w (d_occs d2 k) -> gsat d2 k w).
    { intros k K w I r c -> Ar Gc. destruct (K _ I) as (c' & Ar' & _ & L). congruence. }
    apply ok_bind. eapply ok_mono; [apply generate_all_spec; auto|].
    + rewrite O3. apply (gsat_all d2); auto using incl_refl. apply Gs, (Kp _ eq_refl).
    + rewrite O3. apply (gsat_all d2); auto using incl_refl. apply Gs, (Kn _ eq_refl).
    + intros (b & r) (E4 & O4 & Cl4 & Gn). pose proof (evo_trans _ _ _ E13 E4) as E14. destruct b; cbn [ok]; [|splits; auto; discriminate].
      split; [auto|]. split; [auto|]. intros l' rs X. injection X as <- <-. split; auto. destruct (Gn eq_refl) as (A & B & C & D & F).
      unfold generated. splits; auto.
      * intros c Ic. apply D. now apply in_rev.
      * intros v U R. apply F; auto. intros c Ic. apply R. now apply in_rev in Ic.
Qed.
