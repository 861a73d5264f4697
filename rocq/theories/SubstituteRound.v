(** Rounds of substitution (Substitute.v): removal of variables and reconstruction. *)
From Coq Require Import ZArith List Bool Lia Arith Permutation.
From Coq Require Import ZifyBool ZifyNat.
From Verif Require Import Base SpecSat SpecExtend Lit Hoare Solver Search PropFacts Keeps Api Extend ExtendFacts DenseFacts Eliminate WeakenFacts
  EliminateFacts Substitute TarjanFacts RootProp SubstituteFacts.
Import ListNotations.
Open Scope nat_scope.
Open Scope outcome_scope.

(** ** States with the same clauses and values *)
Definition alike (s s' : solver) : Prop :=
  values s' = values s /\ watches s' = watches s /\ arena s' = arena s /\ vars s' = vars s /\ level s' = level s /\
  next_ref s' = next_ref s /\ inconsistent s' = inconsistent s /\ trail s' = trail s /\ propagate s' = propagate s.
Lemma alike_refl : forall s, alike s s.
Proof. intros s. repeat split. Qed.
Lemma alike_trans : forall a b c, alike a b -> alike b c -> alike a c.
Proof. unfold alike. intros a b c (A1 & A2 & A3 & A4 & A5 & A6 & A7 & A8 & A9) (B1 & B2 & B3 & B4 & B5 & B6 & B7 & B8 & B9). repeat split; congruence. Qed.
Lemma alike_sinv : forall s s', alike s s' -> sinv s -> sinv s'.
Proof.
  intros s s' (A1 & A2 & A3 & A4 & A5 & A6 & A7 & A8 & A9) [V1 V2 V3 V4 V5 V6 V7 V8]. constructor; rewrite ?A1, ?A2, ?A3, ?A4, ?A6, ?A8, ?A9; auto.
Qed.
Lemma alike_holds : forall q s s' v, alike s s' -> holds q s v <-> holds q s' v.
Proof. intros q s s' v (A1 & A2 & A3 & A4 & A5 & A6 & A7 & A8 & A9). unfold holds. now rewrite A1, A2, A3, A7. Qed.
Lemma alike_complete : forall s s', alike s s' -> complete s -> complete s'.
Proof. intros s s' (A1 & A2 & _) C. unfold complete, done. now rewrite A1, A2. Qed.
Lemma alike_occurs : forall s s' i, alike s s' -> occurs s' i -> occurs s i.
Proof. intros s s' i (A1 & A2 & A3 & _). unfold occurs. now rewrite A2, A3. Qed.

Lemma mark_eliminated_alike : forall i d, ok (mark_eliminated_variable i d) (fun d' => alike (d_sol d) (d_sol d')).
Proof.
  intros i d. unfold mark_eliminated_variable. apply ok_bind, ok_assert. intros _. apply ok_bind, ok_assert. intros _. apply ok_bind, ok_assert. intros _.
  apply ok_bind. destruct (peek _ _); cbn [ok]; auto. apply ok_bind, ok_assert. intros _. apply ok_bind, ok_assert. intros _. apply ok_bind. destruct (poke _ _ _); cbn [ok]; auto.
  apply ok_bind, ok_assert. intros _. cbn [ok]. repeat split.
Qed.
Lemma ok_and : forall A (m : outcome A) P Q, ok m P -> ok m Q -> ok m (fun a => P a /\ Q a).
Proof. intros A m P Q H K. destruct m; cbn [ok] in *; auto. Qed.

(** ** Removing variables *)
Definition equated (repr : lit -> lit) (es : list nat) (v : assignment) : Prop := forall i, In i es -> tr v (repr (2 * i)) = tr v (2 * i).

Lemma falsifies_one : forall d v a, dexport d a <> 0%Z -> falsifies v [dexport d a] <-> tr (sigma d v) a = false.
Proof.
  intros d v a N. rewrite sigma_tr by auto. unfold falsifies. split; [intros H; apply H; now left|intros H e [<-|[]]; auto].
Qed.
Lemma falsifies_two : forall d v a b, dexport d a <> 0%Z -> dexport d b <> 0%Z -> falsifies v [dexport d a; dexport d b] <-> tr (sigma d v) a = false /\ tr (sigma d v) b = false.
Proof.
  intros d v a b Na Nb. rewrite !sigma_tr by auto. unfold falsifies. split; [intros H; split; apply H; cbn; auto|intros [H K] e [<-|[<-|[]]]; auto].
Qed.
Lemma in_range_nonzero : forall e, in_range e -> e <> 0%Z.
Proof. unfold in_range. lia. Qed.
Lemma dexport_neg : forall d l, dexport d (neg l) = (- dexport d l)%Z.
Proof. intros d l. unfold dexport. rewrite idx_neg, negated_neg. destruct (negated l); cbn [negb]; lia. Qed.
Lemma weaken_binary_spec : forall d a b st, ok (kissat_weaken_binary (dval d) (dexport d) a b st) (fun st' =>
  in_range (dexport d a) /\ dval d b <> Some true /\ (dval d b = None -> in_range (dexport d b)) /\
  st' = stack_of [(dexport d a, if match dval d b with None => true | _ => false end then [dexport d b] else [])] ++ st).
Proof.
  intros d a b st. unfold kissat_weaken_binary. apply ok_bind. eapply ok_mono; [apply push_witness_spec|]. cbn beta. intros st1 (-> & Ra & _).
  eapply ok_mono; [apply push_literal_spec|]. cbn beta. intros st2 (T & Rb & ->). split; auto. split; auto. split; auto.
  rewrite stack_of_one, <- app_assoc. destruct (dval d b); reflexivity.
Qed.
Lemma weaken_unit_spec : forall d a st, ok (kissat_weaken_unit (dval d) (dexport d) a st) (fun st' =>
  in_range (dexport d a) /\ st' = stack_of [(dexport d a, [])] ++ st).
Proof.
  intros d a st. unfold kissat_weaken_unit. eapply ok_mono; [apply push_witness_spec|]. cbn beta. intros st1 (-> & Ra & _). split; auto.
Qed.

Section Removing.
Variable repr : lit -> lit.
Hypothesis le : forall l, repr l <= l.
Hypothesis idem : forall l, repr (repr l) = repr l.
Hypothesis repr_neg : forall l, repr (neg l) = neg (repr l).

Lemma other_index : forall i, repr (2 * i) <> 2 * i -> idx (repr (2 * i)) <> i.
Proof.
  intros i N E. assert (Ei : idx (repr (2 * i)) = idx (2 * i)) by (rewrite E; unfold idx; now rewrite Nat.div2_double). apply idx_eq in Ei as [Q|Q]; [congruence|].
  pose proof (le (2 * i)). rewrite Q in H. unfold neg in H. rewrite Nat.even_mul in H. cbn in H. lia.
Qed.
Lemma equated_flip : forall i es l v v', repr (2 * i) <> 2 * i -> ~ In i es -> (forall j, In j es -> repr (2 * j) <> 2 * j) -> idx l = i -> flipped l v v' -> equated repr es v -> equated repr es v'.
Proof.
  intros i es l v v' N Ni Hj El Fl Q j J.
  assert (Nj : j <> i) by (intros ->; contradiction).
  assert (N1 : idx (2 * j) <> idx l) by (rewrite idx_even; congruence).
  assert (N2 : idx (repr (2 * j)) <> idx l). { rewrite El. intros E. apply N. rewrite <- E. apply repr_idx; auto. }
  rewrite (tr_flipped l v v' _ Fl N1), (tr_flipped l v v' _ Fl N2). now apply Q.
Qed.

Record taken (es : list nat) (d : dense) (st : list (Z * list Z)) (d' : dense) : Prop := mk_taken {
  tk_alike : alike (d_sol d) (d_sol d');
  tk_extend : d_extend d' = stack_of st ++ d_extend d;
  tk_exports : d_exports d' = d_exports d;
  tk_mapped : mapped d';
  tk_gone : forall i, d_gone d' i = true <-> d_gone d i = true \/ In i es;
  tk_active : forall i, active (d_sol d') i = true <-> active (d_sol d) i = true /\ ~ In i es;
  tk_values : forall i, In i es -> values (d_sol d) (2 * i) = None /\ d_gone d i = false;
  tk_entries : forall x, In x st -> entry_gone d d' x }.

Lemma remove_equivalence_spec : forall incremental i es d, mapped d -> sinv (d_sol d) -> repr (2 * i) <> 2 * i -> ~ occurs (d_sol d) i ->
  ~ In i es -> (forall j, In j es -> repr (2 * j) <> 2 * j) ->
  ok (remove_equivalence incremental repr i d) (fun d' => exists st, taken [i] d st d' /\
    reconstructs (fun v => holds true (d_sol d) (sigma d v) /\ equated repr (i :: es) (sigma d v)) st (fun v => holds true (d_sol d) (sigma d v) /\ equated repr es (sigma d v))).
Proof.
  intros incremental i es d Mp V N Oc Ni Hj. unfold remove_equivalence. apply ok_bind, ok_assert. intros _. apply ok_bind, ok_assert. intros _. apply ok_bind, ok_assert. intros _.
  set (l := 2 * i) in *. set (other := repr l) in *. set (d1 := set_d_sol _ d). assert (Mp1 : mapped d1) by (eapply mapped_same; [..|exact Mp]; reflexivity).
  apply ok_bind. eapply ok_mono; [apply ok_and; [apply mark_eliminated_spec|apply mark_eliminated_alike]|]. cbn beta.
  intros d2 [(M1 & M2 & M3 & M4 & M5 & M6 & M7 & M8 & M9 & M10 & M11 & M12 & M13) Al]. specialize (M13 Mp1).
  assert (Al' : alike (d_sol d) (d_sol d2)) by exact Al. assert (M1' : dval d l = None) by exact M1. clear M1. rename M1' into M1. change (d_exports d1) with (d_exports d) in M8. change (d_gone d1) with (d_gone d) in *.
  assert (Ex : forall k, dexport d2 k = dexport d k) by (intros k; unfold dexport; now rewrite M8).
  assert (Dv : forall k, dval d2 k = dval d k) by (intros k; rewrite M4; reflexivity).
  assert (Il : idx l = i) by (unfold l, idx; now rewrite Nat.div2_double).
  assert (Io : idx other <> i) by (apply other_index; exact N).
  assert (Xo : exports_ok d) by apply Mp.
  set (rest := fun v => holds true (d_sol d) (sigma d v) /\ equated repr es (sigma d v)).
  set (full := fun v => holds true (d_sol d) (sigma d v) /\ equated repr (i :: es) (sigma d v)).
  assert (Rx : extensional rest). { intros v v' E [A B]. split; [eapply holds_ext; [|exact A]; now apply sigma_ext|]. intros j J. rewrite <- !(tr_ext _ _ _ (sigma_ext d v v' E)). now apply B. }
  assert (Fl : forall k v, idx k = i -> dexport d k <> 0%Z -> flipped k (sigma d v) (sigma d (make_true v (dexport d k)))) by (intros; now apply sigma_flipped).
  assert (Rf : forall k v, idx k = i -> dexport d k <> 0%Z -> rest v -> rest (make_true v (dexport d k))).
  { intros k v Ik Nk [A B]. pose proof (Fl k v Ik Nk) as F. split; [|eapply (equated_flip i es k); eauto]. apply (holds_agree true (d_sol d) (sigma d v)); auto.
    - intros j J. apply F. intros ->. rewrite Ik in J. contradiction.
    - intros k' T. apply F. rewrite Ik. intros e. assert (e' : idx k' = idx l) by congruence. unfold dval in M1. apply idx_eq in e' as [->| ->]; [congruence|]. rewrite (si_neg _ V), M1 in T. discriminate. }
  assert (Full : forall v, rest v -> tr (sigma d v) other = tr (sigma d v) l -> full v).
  { intros v [A B] Q. split; auto. intros j [<-|J]; auto. }
  assert (To : forall k v v', idx k = i -> flipped k (sigma d v) (sigma d v') -> tr (sigma d v') other = tr (sigma d v) other) by (intros k v v' Ik F; apply (tr_flipped k); auto; congruence).
  assert (Fin : forall e st, e = stack_of st ++ d_extend d -> (forall x, In x st -> (exists k, fst x = dexport d k /\ idx k = i) /\ forall e, In e (fst x :: snd x) -> in_range e /\ exists k, e = dexport d k) ->
    reconstructs full st rest -> ok (Ret (set_d_extend e d2)) (fun d' => exists st, taken [i] d st d' /\ reconstructs full st rest)).
  { intros e st Ee En Re. cbn [ok]. exists st. split; [|exact Re]. constructor.
    - exact Al'.
    - exact Ee.
    - exact M8.
    - eapply mapped_same; [..|exact M13]; reflexivity.
    - intros j. change (d_gone (set_d_extend e d2) j) with (d_gone d2 j). rewrite M9. unfold upd. cbn [In]. destruct (Nat.eqb_spec j i) as [->|Nj]; [tauto|]. intuition congruence.
    - intros j. change (active (d_sol (set_d_extend e d2)) j) with (active (d_sol d2) j). rewrite M10. unfold upd. cbn [In]. change (active (d_sol d1) j) with (active (d_sol d) j).
      destruct (Nat.eqb_spec j i) as [->|Nj]; intuition congruence.
    - intros j [<-|[]]. split; auto.
    - intros x Ix. destruct (En x Ix) as ((k & Ek & Ik) & H). split; auto. exists k. split; auto. change (d_gone (set_d_extend e d2) (idx k)) with (d_gone d2 (idx k)). rewrite M9, Ik. apply upd_same. }
  assert (Inl : idx (neg l) = i) by now rewrite idx_neg.
  assert (Unit : forall k, idx k = i -> in_range (dexport d k) -> (forall v, rest v -> tr (sigma d v) k = true -> full v) -> reconstructs full [(dexport d k, [])] rest).
  { intros k Ik Rk H. eapply (reconstructs_removed _ rest); [exact Rx| | |constructor].
    - intros v R F. apply H; auto. destruct (tr (sigma d v) k) eqn:T; auto. exfalso. apply F. apply falsifies_one; auto. now apply in_range_nonzero.
    - intros v R _. apply Rf; auto. now apply in_range_nonzero. }
  assert (Ent : forall k C, idx k = i -> in_range (dexport d k) -> (forall e, In e C -> in_range e /\ exists b, e = dexport d b) ->
    (exists k', fst (dexport d k, C) = dexport d k' /\ idx k' = i) /\ forall e, In e (fst (dexport d k, C) :: snd (dexport d k, C)) -> in_range e /\ exists k, e = dexport d k).
  { intros k C Ik Rk HC. split; [exists k; auto|]. intros e [<-|I]; auto. split; auto. exists k. auto. }
  rewrite Dv. change (d_extend d2) with (d_extend d2). assert (Ede : d_extend d2 = d_extend d) by exact M6.
  destruct (dval d other) as [[|]|] eqn:Vo.
  - apply ok_bind. eapply ok_mono; [apply weaken_binary_spec|]. cbn beta. intros e (R1 & R2 & R3 & ->). rewrite !Ex, Dv in *.
    assert (Vn : dval d (neg other) = Some false) by (unfold dval in *; rewrite (si_neg _ V), Vo; reflexivity). rewrite Vn in *.
    apply (Fin _ [(dexport d l, [])]); [now rewrite Ede|intros x [<-|[]]; apply Ent; auto; intros e []|]. apply Unit; auto.
    intros v R T. apply Full; auto. rewrite T. destruct R as [(_ & U & _) _]. now apply U.
  - apply ok_bind. eapply ok_mono; [apply weaken_binary_spec|]. cbn beta. intros e (R1 & R2 & R3 & ->). rewrite !Ex, Dv in *. rewrite Vo in *.
    apply (Fin _ [(dexport d (neg l), [])]); [now rewrite Ede|intros x [<-|[]]; apply Ent; auto; intros e []|]. apply Unit; auto.
    intros v R T. apply Full; auto. rewrite (value_false _ _ _ _ V (proj1 R) Vo). rewrite tr_neg in T. now destruct (tr (sigma d v) l).
  - apply ok_bind, ok_bind. eapply ok_mono; [apply weaken_binary_spec|]. cbn beta. intros e (R1 & R2 & R3 & ->). rewrite !Ex, Dv in *. rewrite Vo in *. specialize (R3 eq_refl).
    assert (N1 : dexport d (neg l) <> 0%Z) by now apply in_range_nonzero. assert (N2 : dexport d other <> 0%Z) by now apply in_range_nonzero.
    assert (N3 : dexport d l <> 0%Z) by (rewrite dexport_neg in N1; lia).
    set (half := fun v => rest v /\ (tr (sigma d v) other = true -> tr (sigma d v) l = true)).
    assert (Hx : extensional half). { intros v v' E [A B]. split; [eapply Rx; eauto|]. rewrite <- !(tr_ext _ _ _ (sigma_ext d v v' E)). exact B. }
    assert (First : forall st, reconstructs half st rest -> reconstructs full ((dexport d (neg l), [dexport d other]) :: st) rest).
    { intros st R. eapply (reconstructs_removed _ half); [exact Hx| | |exact R].
      - intros v [A B] F. apply Full; auto. rewrite falsifies_two in F by auto. rewrite tr_neg in F. clear -B F. destruct (tr (sigma d v) l), (tr (sigma d v) other); cbn in *; try reflexivity; exfalso; try (discriminate (B eq_refl)); apply F; auto.
      - intros v [A B] F. apply falsifies_two in F as [F1 F2]; auto. split; [now apply Rf|]. pose proof (Fl (neg l) v Inl N1) as Fp. rewrite (To _ _ _ Inl Fp), F2. discriminate. }
    destruct incremental.
    + eapply ok_mono; [apply weaken_binary_spec|]. cbn beta. intros e (Q1 & Q2 & Q3 & ->). rewrite !Ex, Dv in *.
      assert (Vn : dval d (neg other) = None) by (unfold dval in *; rewrite (si_neg _ V), Vo; reflexivity). rewrite Vn in *. specialize (Q3 eq_refl).
      apply (Fin _ [(dexport d (neg l), [dexport d other]); (dexport d l, [dexport d (neg other)])]).
      * rewrite Ede, app_assoc, <- stack_of_app. reflexivity.
      * intros x [<-|[<-|[]]]; apply Ent; auto; intros e [<-|[]]; eauto.
      * apply First. eapply (reconstructs_removed _ rest); [exact Rx| | |constructor].
        -- intros v R F. split; auto. intros T. rewrite falsifies_two in F by (auto; now apply in_range_nonzero). rewrite tr_neg, T in F. destruct (tr (sigma d v) l); auto.
        -- intros v R _. apply Rf; auto.
    + eapply ok_mono; [apply weaken_unit_spec|]. cbn beta. intros e (Q1 & ->). rewrite !Ex in *.
      apply (Fin _ [(dexport d (neg l), [dexport d other]); (dexport d l, [])]).
      * rewrite Ede, app_assoc, <- stack_of_app. reflexivity.
      * intros x [<-|[<-|[]]]; apply Ent; auto; [intros e [<-|[]]; eauto|intros e []].
      * apply First. eapply (reconstructs_removed _ rest); [exact Rx| | |constructor].
        -- intros v R F. split; auto. intros T. destruct (tr (sigma d v) l) eqn:Tl; auto. exfalso. apply F. apply falsifies_one; auto.
        -- intros v R _. apply Rf; auto.
Qed.

Lemma remove_all_spec : forall incremental es d, mapped d -> sinv (d_sol d) -> NoDup es -> (forall i, In i es -> repr (2 * i) <> 2 * i /\ ~ occurs (d_sol d) i) ->
  ok (ofold (remove_equivalence incremental repr) es d) (fun d' => exists st, taken es d st d' /\
    reconstructs (fun v => holds true (d_sol d) (sigma d v) /\ equated repr es (sigma d v)) st (fun v => holds true (d_sol d) (sigma d v))).
Proof.
  intros incremental. induction es as [|i es IH]; intros d Mp V Nd H; cbn [ofold].
  - cbn [ok]. exists []. split; [|eapply reconstructs_plain; [|constructor]; intros v M; split; auto; intros i []].
    constructor; auto; try reflexivity; try (intros x []); [apply alike_refl|intros i; cbn [In]; tauto|intros i; cbn [In]; tauto].
  - inversion Nd as [|? ? Ni Nd']; subst. destruct (H i (or_introl eq_refl)) as [N Oc]. apply ok_bind.
    eapply ok_mono; [apply (remove_equivalence_spec incremental i es d); auto; intros j J; apply H; now right|]. cbn beta. intros d1 (st1 & [T1 T2 T3 T4 T5 T6 T7 T8] & R1).
    eapply ok_mono; [apply (IH d1); auto; [eapply alike_sinv; eauto|intros j J; split; [apply H; now right|intros O; apply (H j); [now right|eapply alike_occurs; eauto]]]|].
    cbn beta. intros d2 (st2 & [U1 U2 U3 U4 U5 U6 U7 U8] & R2). exists (st1 ++ st2).
    assert (Sg : forall v, sigma d1 v = sigma d v) by (intros v; now apply sigma_exports).
    split.
    + constructor; auto.
      * eapply alike_trans; eauto.
      * rewrite U2, T2, stack_of_app, app_assoc. reflexivity.
      * congruence.
      * intros j. rewrite U5, T5. cbn [In]. tauto.
      * intros j. rewrite U6, T6. cbn [In]. tauto.
      * intros j [<-|J]; [apply T7; now left|]. destruct (U7 j J) as [Q1 Q2]. destruct T1 as (T1 & _). rewrite T1 in Q1. split; auto. destruct (d_gone d j) eqn:Gj; auto. assert (d_gone d1 j = true) by (apply T5; auto). congruence.
      * intros x Ix. apply in_app_iff in Ix as [Ix|Ix].
        -- destruct (T8 x Ix) as ((k & Ek & Gk) & Q). split; auto. exists k. split; auto. apply U5. auto.
        -- destruct (U8 x Ix) as ((k & Ek & Gk) & Q). unfold entry_gone, dexport in *. rewrite T3 in *. split; eauto.
    + eapply reconstructs_trans; [exact R1|]. eapply reconstructs_plain; [|eapply reconstructs_weak; [exact R2|]]; cbv beta; intros v; rewrite Sg, <- (alike_holds true _ _ (sigma d v) T1); auto.
Qed.
End Removing.

(** ** One round *)
Record wgood (d : dense) : Prop := mk_wgood {
  wg_inv : sinv (d_sol d);
  wg_complete : complete (d_sol d);
  wg_level : level (d_sol d) = 0;
  wg_mapped : mapped d;
  wg_gone : forall i, d_gone d i = true -> ~ occurs (d_sol d) i /\ active (d_sol d) i = false;
  wg_free : forall v i, holds true (d_sol d) v -> d_gone d i = true -> values (d_sol d) (2 * i) = None;
  wg_implied : forall v, holds false (d_sol d) v -> holds true (d_sol d) v }.
(** Variable [i] has no occurrence, and cannot get one since it is not active. *)
Definition away (s : solver) (i : nat) : Prop := ~ occurs s i /\ is_active s i = false.
(** What is claimed of a transition that does not derive the empty clause. *)
Record wstep (d : dense) (st : list (Z * list Z)) (d' : dense) : Prop := mk_wstep {
  ws_good : wgood d';
  ws_sound : forall v, holds true (d_sol d) v -> holds true (d_sol d') v;
  ws_back : forall v, holds true (d_sol d') v -> exists v', holds true (d_sol d) v' /\ forall i, d_gone d' i = false -> v' i = v i;
  ws_extend : d_extend d' = stack_of st ++ d_extend d;
  ws_entries : forall x, In x st -> entry_gone d d' x;
  ws_exports : d_exports d' = d_exports d;
  ws_gone : forall i, d_gone d i = true -> d_gone d' i = true;
  ws_away : forall i, away (d_sol d) i -> away (d_sol d') i;
  ws_reconstructs : reconstructs (fun v => holds true (d_sol d) (sigma d v)) st (fun v => holds true (d_sol d') (sigma d v)) }.
Definition wsteps (d d' : dense) : Prop :=
  (inconsistent (d_sol d') = true -> forall v, ~ holds true (d_sol d) v) /\ (inconsistent (d_sol d') = false -> exists st, wstep d st d').

Lemma wstep_trans : forall d0 st1 d1 st2 d2, wstep d0 st1 d1 -> wstep d1 st2 d2 -> wstep d0 (st1 ++ st2) d2.
Proof.
  intros d0 st1 d1 st2 d2 [A1 A2 A3 A4 A5 A6 A7 A9 A8] [B1 B2 B3 B4 B5 B6 B7 B9 B8]. constructor; auto.
  - intros v M. destruct (B3 v M) as (v1 & M1 & E1). destruct (A3 v1 M1) as (v0 & M0 & E0). exists v0. split; auto. intros i G. rewrite E0, E1; auto.
    destruct (d_gone d1 i) eqn:G1; auto. apply B7 in G1. congruence.
  - rewrite B4, A4, stack_of_app, app_assoc. reflexivity.
  - intros x Ix. apply in_app_iff in Ix as [Ix|Ix].
    + destruct (A5 x Ix) as ((l & El & Gl) & H). split; auto. exists l. auto.
    + destruct (B5 x Ix) as ((l & El & Gl) & H). unfold entry_gone, dexport in *. rewrite A6 in *. split; eauto.
  - congruence.
  - eapply reconstructs_trans; [exact A8|]. assert (X : forall v, sigma d1 v = sigma d0 v) by (intros; now apply sigma_exports).
    revert B8. clear -X. intros R. eapply reconstructs_plain; [|eapply reconstructs_weak; [exact R|]]; cbv beta; intros v; now rewrite X.
Qed.
Lemma wsteps_trans : forall d0 d1 d2, wsteps d0 d1 -> inconsistent (d_sol d1) = false -> wsteps d1 d2 -> wsteps d0 d2.
Proof.
  intros d0 d1 d2 [_ A] I [B1 B2]. destruct (A I) as (st1 & S1). split.
  - intros J v M. apply (B1 J v). now apply (ws_sound _ _ _ S1).
  - intros J. destruct (B2 J) as (st2 & S2). exists (st1 ++ st2). eapply wstep_trans; eauto.
Qed.

(** Assignments that agree on the variables not gone. *)
Lemma gone_agree : forall q d v v', wgood d -> (exists w, holds true (d_sol d) w) -> (forall i, d_gone d i = false -> v' i = v i) -> holds q (d_sol d) v -> holds q (d_sol d) v'.
Proof.
  intros q d v v' G (w & W) A M. apply (holds_agree q (d_sol d) v); auto; [apply G| |].
  - intros i O. apply A. destruct (d_gone d i) eqn:Gi; auto. now apply (wg_gone _ G) in Gi.
  - intros l T. apply A. destruct (d_gone d (idx l)) eqn:Gi; auto. apply (wg_free _ G w _ W) in Gi. exfalso.
    assert (e : idx l = idx (2 * idx l)) by now rewrite idx_even. apply idx_eq in e as [e|e]; [congruence|]. rewrite e, (si_neg _ (wg_inv _ G)), Gi in T. discriminate.
Qed.
Lemma tr_upd_other : forall v i x l, idx l <> i -> tr (upd v i x) l = tr v l.
Proof. intros v i x l N. unfold tr. now rewrite upd_other. Qed.
Lemma tr_upd_even : forall v i x, tr (upd v i x) (2 * i) = x.
Proof. intros v i x. unfold tr, negated. rewrite idx_even, upd_same, Nat.odd_mul. cbn. now destruct x. Qed.
(** A value known for a variable that can be flipped contradicts soundness. *)
Lemma flip_free : forall s i v, sinv s -> (forall x, holds true s (upd v i x)) -> values s (2 * i) = None.
Proof.
  intros s i v V H. destruct (values s (2 * i)) as [[|]|] eqn:E; auto; exfalso.
  - destruct (H false) as (_ & U & _). apply U in E. rewrite tr_upd_even in E. discriminate.
  - assert (E' : values s (neg (2 * i)) = Some true) by (rewrite (si_neg _ V), E; reflexivity). destruct (H true) as (_ & U & _). apply U in E'. rewrite tr_neg, tr_upd_even in E'. discriminate.
Qed.

Lemma wstep_grows : forall d s', wgood d -> grows always (d_sol d) s' -> complete s' -> wstep d [] (set_d_sol s' d).
Proof.
  intros d s' G Gr C. assert (Bk : forall q v, holds q s' v -> holds q (d_sol d) v) by (intros; eapply grows_back; eauto).
  assert (Fw : forall v, holds true (d_sol d) v -> holds true s' v) by (intros v M; now apply (gr_sound _ _ _ Gr)). constructor; auto.
  - constructor; auto.
    + apply Gr.
    + change (level s' = 0). rewrite (gr_level _ _ _ Gr). apply (wg_level _ G).
    + eapply mapped_same; [..|apply G]; reflexivity.
    + intros i Gi. destruct (wg_gone _ G i Gi) as [A B]. split; [intros O; apply A; eapply grows_occurs; eauto|]. change (active s' i = false). now rewrite (gr_active _ _ _ Gr).
    + intros v i M Gi. change (holds true s' v) in M. change (d_gone d i = true) in Gi. change (values s' (2 * i) = None). apply (flip_free s' i v); [apply Gr|]. intros x. apply Fw. apply (gone_agree true d v); auto.
      * exists v. auto.
      * intros j Gj. apply upd_other. congruence.
    + intros v M. apply Fw, (wg_implied _ G), Bk. exact M.
  - intros v M. exists v. split; auto.
  - intros x [].
  - intros i [O A]. change (away s' i). split; [intros O'; apply O; eapply grows_occurs; eauto|]. unfold is_active, is_unassigned in *. rewrite (gr_active _ _ _ Gr).
    destruct (active (d_sol d) i); auto. cbn [andb] in *. destruct (values (d_sol d) (2 * i)) as [b|] eqn:E; [|discriminate]. now rewrite (gr_values _ _ _ Gr _ _ E).
  - eapply reconstructs_plain; [|constructor]. intros v M. apply Bk. exact M.
Qed.
Lemma wsteps_grows : forall d s', wgood d -> grows always (d_sol d) s' -> (inconsistent s' = false -> complete s') -> wsteps d (set_d_sol s' d).
Proof.
  intros d s' G Gr C. split; [|intros I; exists []; apply wstep_grows; auto]. intros I v M. apply (gr_sound _ _ _ Gr v Logic.I) in M as (X & _). change (inconsistent s' = true) in I. congruence.
Qed.

(** All but the last step. *)
Lemma round_solver : forall o s, sinv s -> complete s -> inconsistent s = false ->
  ok (do (repr, s1) <- determine_representatives o s ;
      do (es, s1) <- add_representative_equivalences repr s1 ;
      do s1 <- substitute_binaries o repr s1 ;
      do s1 <- substitute_clauses o repr s1 ;
      Ret (repr, es, s1))
    (fun '(repr, es, s3) =>
      (inconsistent s3 = true -> forall v, ~ holds true s v) /\
      (inconsistent s3 = false -> good_repr s repr /\ substd repr s s3 /\ complete s3 /\ clean repr s3 /\ (forall v, holds true s v -> eqs repr v) /\
        NoDup es /\ (forall i, In i es -> i < vars s /\ repr (2 * i) <> 2 * i) /\
        (forall i, i < vars s -> repr (2 * i) <> 2 * i -> In i es \/ exists b, values s3 (2 * i) = Some b /\ values s3 (repr (2 * i)) = Some b) /\
        (forall l k, act s l -> equivalent s l k -> repr k = repr l /\ repr l <= k) /\
        (forall l, act s l -> ~ equivalent s l (neg l)))).
Proof.
  intros o s V C Ic. apply ok_bind. eapply ok_mono; [apply determine_spec; auto|]. intros [repr s1] (G1 & H1). apply ok_bind.
  unfold add_representative_equivalences. destruct (inconsistent s1) eqn:I1.
  { cbn [ok]. unfold substitute_binaries, substitute_clauses. rewrite I1. cbn [obind]. rewrite I1. cbn [obind ok]. split; [|congruence].
    intros _ v M. apply (gr_sound _ _ _ G1 v I) in M as (M & _). congruence. }
  destruct (H1 eq_refl) as (C1 & Rp & Eq & Va & Mi & Cn). clear H1. pose proof Rp as [Le Idem Rn Ra].
  eapply ok_mono; [apply add_equivalences_spec|]. intros [es s1'] (Ees & _ & z & ->).
  pose proof (steps_grows always z s1 (gr_inv _ _ _ G1)) as Gz. apply ok_bind.
  eapply ok_mono; [apply (substitute_binaries_spec repr Le Idem Rn); [apply Gz|exact C1|exact Va]|]. cbn beta. intros s2 (S2 & _ & H2).
  assert (S12 : substd repr s s2). { eapply substd_trans; [apply grows_substd; exact G1|]. eapply substd_trans; [apply grows_substd; exact Gz|exact S2]. }
  apply ok_bind. destruct (inconsistent s2) eqn:I2.
  { unfold substitute_clauses. rewrite I2. cbn [ok]. split; [|congruence]. intros _ v M. apply (sb_sound _ _ _ S12 v (Eq v M)) in M as (M & _). congruence. }
  destruct (H2 eq_refl) as [C2 Cb]. eapply ok_mono; [apply (substitute_clauses_spec repr Le Idem Rn); auto; apply S2|]. cbn beta. intros s3 (S3 & H3). cbn [ok].
  pose proof (substd_trans _ _ _ _ S12 S3) as S13. split.
  { intros I3 v M. apply (sb_sound _ _ _ S13 v (Eq v M)) in M as (M & _). congruence. }
  intros I3. destruct (H3 I3) as [C3 Cl]. split; auto. split; auto. split; auto. split; auto. split; auto.
  assert (Ies : forall i, In i es <-> i < vars s /\ is_active s1 i = true /\ repr (2 * i) <> 2 * i).
  { intros i. rewrite Ees. unfold to_remove. rewrite filter_In, in_seq, (gr_vars _ _ _ G1), andb_true_iff, negb_true_iff. rewrite Nat.eqb_neq. intuition lia. }
  split; [rewrite Ees; apply NoDup_filter, seq_NoDup|]. split; [intros i I; apply Ies in I; tauto|]. split; [|split; [|exact Cn]].
  - intros i L N. destruct (is_active s1 i) eqn:A; [left; now apply Ies|]. right. destruct (Ra _ N) as [[A1 _] _]. unfold is_active in A, A1. rewrite idx_even in A1. rewrite (gr_active _ _ _ G1) in A.
    apply andb_true_iff in A1 as [A1 _]. rewrite A1 in A. cbn [andb] in A. unfold is_unassigned in A. destruct (values s1 (2 * i)) as [b|] eqn:E; [|discriminate]. exists b.
    assert (Mo : forall l x, values s1 l = Some x -> values s3 l = Some x) by (intros l x Q; apply (sb_values _ _ _ S3), (sb_values _ _ _ S2); exact Q).
    split; auto. apply Mo. now rewrite Va.
  - intros l k A E. destruct (Mi l k A E) as (Q1 & Q2 & _). auto.
Qed.

(** From the equations of the removed variables to those of all literals. *)
Lemma equated_eqs : forall repr s3 n q es v, (forall l, repr (neg l) = neg (repr l)) -> sinv s3 ->
  (forall i, n <= i -> repr (2 * i) = 2 * i) ->
  (forall i, i < n -> repr (2 * i) <> 2 * i -> In i es \/ exists b, values s3 (2 * i) = Some b /\ values s3 (repr (2 * i)) = Some b) ->
  holds q s3 v -> equated repr es v -> eqs repr v.
Proof.
  intros repr s3 n q es v Rn V Hn He M Q.
  assert (Ev : forall i, tr v (repr (2 * i)) = tr v (2 * i)).
  { intros i. destruct (Nat.eq_dec (repr (2 * i)) (2 * i)) as [->|N]; auto. destruct (le_lt_dec n i) as [L|L]; [now rewrite Hn|].
    destruct (He i L N) as [I|(b & B1 & B2)]; [now apply Q|]. destruct b.
    - destruct M as (_ & U & _). now rewrite (U _ B1), (U _ B2).
    - now rewrite (value_false _ _ _ _ V M B1), (value_false _ _ _ _ V M B2). }
  intros l. destruct (lit_cases l) as [[k ->]|[k ->]]; auto. rewrite <- neg_even, Rn, !tr_neg. now rewrite Ev.
Qed.

(** An assignment of the variables left determines one that satisfies the equations. *)
Definition completed (repr : lit -> lit) (es : list nat) (v : assignment) : assignment := fun i => if existsb (Nat.eqb i) es then tr v (repr (2 * i)) else v i.

Lemma substitute_round_spec : forall o incremental d, wgood d ->
  ok (substitute_round o incremental d) (fun '(b, d') => wsteps d d' /\ (b = true -> inconsistent (d_sol d') = false) /\
    (inconsistent (d_sol d') = false -> (forall l, act (d_sol d) l -> ~ equivalent (d_sol d) l (neg l)) /\
      forall l k, act (d_sol d) l -> equivalent (d_sol d) l k -> k < l -> away (d_sol d') (idx l))).
Proof.
  intros o incremental d G. unfold substitute_round. apply ok_bind, ok_assert. intros Ic. apply negb_true_iff in Ic.
  pose proof (round_solver o (d_sol d) (wg_inv _ G) (wg_complete _ G) Ic) as R.
  set (s := d_sol d) in *.
  destruct (determine_representatives o s) as [[repr s1]| | |]; cbn [ok obind] in *; auto.
  destruct (add_representative_equivalences repr s1) as [[es s1']| | |]; cbn [ok obind] in *; auto.
  destruct (substitute_binaries o repr s1') as [s2| | |]; cbn [ok obind] in *; auto.
  destruct (substitute_clauses o repr s2) as [s3| | |]; cbn [ok obind] in *; auto.
  destruct R as [Ru R]. apply ok_bind. unfold remove_representative_equivalences. change (d_sol (set_d_sol s3 d)) with s3. destruct (inconsistent s3) eqn:I3.
  { cbn [ok]. change (d_sol (set_d_sol s3 d)) with s3. rewrite I3. split; [split; change (d_sol (set_d_sol s3 d)) with s3; [intros _; now apply Ru|congruence]|split; [discriminate|congruence]]. }
  destruct (R eq_refl) as (Rp & Sb & C3 & Cl & Eq & Nd & Ies & He & Mi & Cn). clear R Ru. pose proof Rp as [Le Idem Rn Ra].
  set (d3 := set_d_sol s3 d). assert (V3 : sinv s3) by apply Sb.
  eapply ok_mono; [apply (remove_all_spec repr Le Idem Rn incremental es d3); auto|].
  { eapply mapped_same; [..|apply G]; reflexivity. }
  { intros i I. destruct (Ies i I) as [_ N]. split; auto. }
  cbn beta. intros d' (st & [T1 T2 T3 T4 T5 T6 T7 T8] & Rc). cbn [ok]. change (d_sol d3) with s3 in *. change (d_gone d3) with (d_gone d) in *.
  assert (Sg : forall v, sigma d3 v = sigma d v) by reflexivity.
  assert (Hh : forall q v, holds q s3 v <-> holds q (d_sol d') v) by (intros; now apply alike_holds).
  assert (Hn : forall i, vars s <= i -> repr (2 * i) = 2 * i).
  { intros i L. destruct (Nat.eq_dec (repr (2 * i)) (2 * i)) as [|N]; auto. destruct (Ra _ N) as [[_ B] _]. lia. }
  assert (Eqs : forall q v, holds q s3 v -> equated repr es v -> eqs repr v) by (intros q v; apply (equated_eqs repr s3 (vars s) q es v); auto).
  assert (Cp : forall q v, holds q s3 v -> holds q s3 (completed repr es v) /\ eqs repr (completed repr es v)).
  { intros q v M. assert (M' : holds q s3 (completed repr es v)).
    { apply (holds_agree q s3 v); auto.
      - intros i O. unfold completed. destruct (existsb (Nat.eqb i) es) eqn:X; auto. apply existsb_in in X. apply Ies in X as [_ X]. apply Cl in O. contradiction.
      - intros l T. unfold completed. destruct (existsb (Nat.eqb (idx l)) es) eqn:X; auto. apply existsb_in in X. destruct (T7 _ X) as [N _]. exfalso.
        assert (e : idx l = idx (2 * idx l)) by now rewrite idx_even. apply idx_eq in e as [e|e]; [congruence|]. rewrite e, (si_neg _ V3), N in T. discriminate. }
    split; auto. apply (Eqs q); auto. intros i I. destruct (Ies i I) as [_ N].
    assert (E1 : tr (completed repr es v) (2 * i) = tr v (repr (2 * i))).
    { unfold tr at 1, completed, negated. rewrite idx_even, Nat.odd_mul. apply existsb_in in I. rewrite I. change (Nat.odd 2 && Nat.odd i) with false. cbv iota. now destruct (tr v (repr (2 * i))). }
    assert (E2 : tr (completed repr es v) (repr (2 * i)) = tr v (repr (2 * i))).
    { unfold tr, completed. destruct (existsb (Nat.eqb (idx (repr (2 * i)))) es) eqn:X; auto. apply existsb_in, Ies in X as [_ X]. exfalso. apply X. apply repr_idx; auto. }
    congruence. }
  assert (Agr : forall v i, d_gone d' i = false -> completed repr es v i = v i).
  { intros v i Gi. unfold completed. destruct (existsb (Nat.eqb i) es) eqn:X; auto. apply existsb_in in X. assert (d_gone d' i = true) by (apply T5; auto). congruence. }
  assert (Gr : forall i, d_gone d i = true -> forall l, idx l = i \/ idx (repr l) = i -> repr l = l).
  { intros i Gi l H. destruct (Nat.eq_dec (repr l) l) as [|N]; auto. exfalso. apply (wg_gone _ G) in Gi as [_ Gi]. destruct (Ra l N) as [[A1 _] [A2 _]]. unfold is_active in A1, A2.
    apply andb_true_iff in A1 as [A1 _]. apply andb_true_iff in A2 as [A2 _]. fold s in Gi. destruct H as [H|H]; rewrite H in *; congruence. }
  assert (Fwd : forall v, holds true s v -> holds true s3 v) by (intros v M; apply (sb_sound _ _ _ Sb); auto).
  assert (Impl : forall v, holds false s3 v -> holds true s3 v).
  { intros v M. destruct (Cp _ _ M) as [M' E']. apply (holds_agree true s3 (completed repr es v)); auto.
    - intros i O. symmetry. unfold completed. destruct (existsb (Nat.eqb i) es) eqn:X; auto. apply existsb_in in X. apply Ies in X as [_ X]. apply Cl in O. contradiction.
    - intros l T. symmetry. unfold completed. destruct (existsb (Nat.eqb (idx l)) es) eqn:X; auto. apply existsb_in in X. destruct (T7 _ X) as [N _]. exfalso.
      assert (e : idx l = idx (2 * idx l)) by now rewrite idx_even. apply idx_eq in e as [e|e]; [congruence|]. rewrite e, (si_neg _ V3), N in T. discriminate.
    - apply (sb_sound _ _ _ Sb); auto. apply (wg_implied _ G). now apply (sb_back _ _ _ Sb). }
  assert (Aw : forall i, (repr (2 * i) <> 2 * i \/ away s i) -> away (d_sol d') i).
  { intros i H. assert (Ac : is_active (d_sol d') i = false).
    { unfold is_active, is_unassigned. destruct (active (d_sol d') i) eqn:A; auto. apply T6 in A as [A Ni]. destruct T1 as (T1 & _). rewrite T1. cbn [andb]. destruct H as [N|[O X]].
      - destruct (le_lt_dec (vars s) i) as [L|L]; [now apply Hn in L|]. destruct (He i L N) as [I|(b & -> & _)]; [contradiction|auto].
      - unfold is_active, is_unassigned in X. rewrite (sb_active _ _ _ Sb) in A. rewrite A in X. cbn [andb] in X. destruct (values s (2 * i)) as [b|] eqn:E; [|discriminate]. now rewrite (sb_values _ _ _ Sb _ _ E). }
    split; auto. intros O. apply (alike_occurs _ _ _ T1) in O. destruct H as [N|[O' X]]; [now apply Cl in O|]. apply (sb_occurs _ _ _ Sb) in O as [O|(l & N & E)]; auto.
    destruct (Ra l N) as [_ [A _]]. rewrite E in A. congruence. }
  split; [|split].
  2:{ intros X. apply andb_true_iff in X as [X _]. now apply negb_true_iff in X. }
  2:{ intros _. split; auto. intros l k A E Lk. apply Aw. left. intros N. destruct (Mi l k A E) as [_ Le']. destruct (lit_cases l) as [[j ->]|[j ->]].
    - rewrite idx_even in N. lia.
    - rewrite idx_odd in N. rewrite <- neg_even, Rn, N, neg_even in Le'. lia. }
  split; [intros X; destruct T1 as (_ & _ & _ & _ & _ & _ & T1 & _); congruence|]. intros _. exists st. constructor.
  - constructor.
    + eapply alike_sinv; eauto.
    + eapply alike_complete; eauto.
    + destruct T1 as (_ & _ & _ & _ & T1 & _). rewrite T1, (sb_level _ _ _ Sb). apply (wg_level _ G).
    + exact T4.
    + intros i Gi. split.
      * intros O. apply (alike_occurs _ _ _ T1) in O. apply T5 in Gi as [Gi|Gi]; [|apply Ies in Gi as [_ Gi]; now apply Cl in O].
        apply (sb_occurs _ _ _ Sb) in O as [O|(l & N & E)]; [now apply (wg_gone _ G) in Gi|]. apply N. apply (Gr i Gi). auto.
      * destruct (active (d_sol d') i) eqn:A; auto. apply T6 in A as [A Ni]. apply T5 in Gi as [Gi|Gi]; [|contradiction]. apply (wg_gone _ G) in Gi as [_ Gi]. rewrite (sb_active _ _ _ Sb) in A. fold s in Gi. congruence.
    + intros v i M Gi. destruct T1 as (T1 & _). rewrite T1. apply T5 in Gi as [Gi|Gi]; [|now apply T7]. apply Hh in M. destruct (Cp _ _ M) as [M' E'].
      apply (flip_free s3 i (completed repr es v)); auto. intros x. apply (sb_sound _ _ _ Sb).
      * intros l. destruct (Nat.eq_dec (idx l) i) as [El|Nl]; [rewrite (Gr i Gi l); auto|]. destruct (Nat.eq_dec (idx (repr l)) i) as [Er|Nr]; [rewrite (Gr i Gi l); auto|]. rewrite !tr_upd_other by auto. apply E'.
      * pose proof (sb_back _ _ _ Sb true _ E' M') as Ms. apply (gone_agree true d (completed repr es v)); auto; [eauto|]. intros j Gj. apply upd_other. congruence.
    + intros v M. apply Hh. apply Hh in M. now apply Impl.
  - intros v M. apply Hh. now apply Fwd.
  - intros v M. apply Hh in M. destruct (Cp _ _ M) as [M' E']. exists (completed repr es v). split; [now apply (sb_back _ _ _ Sb)|]. apply Agr.
  - exact T2.
  - intros x I. apply T8 in I. exact I.
  - exact T3.
  - intros i Gi. apply T5. auto.
  - intros i Ai. apply Aw. auto.
  - eapply reconstructs_plain; [|eapply reconstructs_weak; [exact Rc|]]; cbv beta; intros v; rewrite Sg.
    + intros [M E]. apply (sb_back _ _ _ Sb); auto. eapply Eqs; eauto.
    + intros M. now apply Hh.
Qed.

(** ** All rounds *)
(** What the first round shows, still after later ones. *)
Definition resolved (s : solver) (d' : dense) : Prop := inconsistent (d_sol d') = false ->
  (forall l, act s l -> ~ equivalent s l (neg l)) /\ forall l k, act s l -> equivalent s l k -> k < l -> away (d_sol d') (idx l).
Lemma resolved_steps : forall s d d', inconsistent (d_sol d) = false -> resolved s d -> wsteps d d' -> resolved s d'.
Proof. intros s d d' I R [_ W] I'. destruct (W I') as (st & S1). destruct (R I) as [R1 R2]. split; auto. intros l k A E L. apply (ws_away _ _ _ S1). eauto. Qed.

Lemma substitute_loop_spec : forall o incremental limits d, wgood d -> inconsistent (d_sol d) = false ->
  ok (substitute_loop o incremental limits d) (fun d' => wsteps d d' /\ (limits <> [] -> resolved (d_sol d) d')).
Proof.
  intros o incremental. induction limits as [|limit limits IH]; intros d G I; cbn [substitute_loop].
  - cbn [ok]. split; [|contradiction]. split; [congruence|]. intros _. exists []. pose proof (wstep_grows d (d_sol d) G (grows_refl _ _ (wg_inv _ G)) (wg_complete _ G)) as W. now destruct d.
  - apply ok_bind. eapply ok_mono; [apply substitute_round_spec; auto|]. intros [b d1] (W & H & R). cbn beta in R. destruct b; cbn [negb orb]; [|cbn [ok]; auto]. specialize (H eq_refl). destruct limit; [cbn [ok]; auto|].
    pose proof W as [_ W']. destruct (W' H) as (st & S1). eapply ok_mono; [apply (IH d1); [apply S1|exact H]|]. cbn beta. intros d2 [W2 _]. split; [eapply wsteps_trans; eauto|].
    intros _. eapply resolved_steps; eauto.
Qed.

Lemma watch_large_grows : forall ref s, sinv s -> complete s -> ok (watch_large_clause ref s) (fun s' => grows always s s' /\ complete s' /\ inconsistent s' = inconsistent s).
Proof.
  intros ref s V C. unfold watch_large_clause. destruct (arena s ref) as [c|] eqn:A; [|cbn [ok]; split; [now apply grows_refl|auto]].
  destruct (c_garbage c) eqn:G; [cbn [ok]; split; [now apply grows_refl|auto]|]. unfold rewatch_clause. rewrite A.
  destruct (sort_literals s (c_lits c)) as [|l0 [|l1 ls]] eqn:Sl; cbn [ok]; auto.
  assert (P : Permutation (c_lits c) (l0 :: l1 :: ls)).
  { rewrite <- Sl. apply sort_literals_perm. destruct (c_lits c) eqn:Lc; [|cbn; lia]. exfalso. revert Sl. unfold sort_literals.
    destruct (move_smallest_literal_to_front s false 0 []) as [a u] eqn:Em. unfold move_smallest_literal_to_front in Em. cbn in Em.
    destruct (values s 0) as [b|]; [|inversion Em; subst; discriminate]. destruct (b && false); [inversion Em; subst; discriminate|].
    cbn in Em. inversion Em; subst. cbn. discriminate. }
  set (s1 := set_clause ref _ s). assert (G1 : grows always s s1) by (apply (grows_clause always s ref c); auto).
  set (s2 := watch_blocking l1 l0 ref _).
  assert (Wb : forall a b, In (WBinary b) (watches s2 a) <-> In (WBinary b) (watches s1 a)).
  { intros a b. unfold s2, watch_blocking, push_watch. cbn. unfold upd.
    repeat match goal with |- context [?x =? ?y] => destruct (Nat.eqb_spec x y); subst end; rewrite ?in_app_iff; cbn [In]; intuition congruence. }
  assert (E2 : s2 = set_watches (watches s2) s1) by reflexivity.
  assert (G2 : grows always s1 s2) by (rewrite E2; apply grows_watches; [apply G1|exact Wb]).
  split; [eapply grows_trans; eauto|]. split; [|reflexivity]. intros l T b I. apply Wb in I. apply (C l T). exact I.
Qed.
Lemma watch_larges_grow : forall rs s, sinv s -> complete s -> ok (ofold watch_large_clause rs s) (fun s' => grows always s s' /\ complete s' /\ inconsistent s' = inconsistent s).
Proof.
  induction rs as [|r rs IH]; intros s V C; cbn [ofold]; [cbn [ok]; split; [now apply grows_refl|auto]|].
  apply ok_bind. eapply ok_mono; [apply watch_large_grows; auto|]. cbn beta. intros s1 (G1 & C1 & I1). eapply ok_mono; [apply IH; auto; apply G1|].
  cbn beta. intros s2 (G2 & C2 & I2). split; [eapply grows_trans; eauto|]. split; auto. congruence.
Qed.

Theorem kissat_substitute_spec : forall o incremental limits d, wgood d -> inconsistent (d_sol d) = false ->
  ok (kissat_substitute o incremental limits d) (fun d' => wsteps d d' /\ (limits <> [] -> resolved (d_sol d) d')).
Proof.
  intros o incremental limits d G I. unfold kissat_substitute. rewrite I. apply ok_bind, ok_assert. intros Lv. apply ok_bind.
  eapply ok_mono; [apply substitute_loop_spec; auto|]. cbn beta. intros d1 [W R]. destruct (inconsistent (d_sol d1)) eqn:I1; [cbn [ok]; auto|].
  pose proof W as [_ W1]. destruct (W1 I1) as (st & S1). pose proof (ws_good _ _ _ S1) as G1. apply ok_bind. unfold watch_large_clauses.
  eapply ok_mono; [apply watch_larges_grow; apply G1|]. cbn beta. intros s2 (Gr & C2 & I2). rewrite I1 in I2. apply ok_bind.
  assert (G2 : grows always s2 (set_propagate 0 s2)) by (apply quiet_grows; [apply Gr|repeat split|cbn; lia]).
  eapply ok_mono; [apply (probing_propagate_grows always); apply G2|]. intros [s3 confl] (Gp & H1 & H2). cbn [ok].
  assert (W2 : wsteps d1 (set_d_sol s3 d1)).
  { apply wsteps_grows; auto.
    - eapply grows_trans; [exact Gr|]. eapply grows_trans; eauto.
    - intros I3. destruct confl as [c|]; [|destruct (H2 eq_refl) as [_ X]; apply X, complete_queued; exact C2].
      exfalso. rewrite H1 in I3; [discriminate|discriminate|]. cbn [level set_propagate]. rewrite (gr_level _ _ _ Gr). apply (wg_level _ G1). }
  split; [eapply wsteps_trans; eauto|]. intros N. eapply resolved_steps; eauto.
Qed.
