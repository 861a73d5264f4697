(** Forward subsumption keeps the set of models: duplicated binary clauses, subsumption and strengthening. *)
From Coq Require Import ZArith List Bool Lia Arith Permutation.
From Coq Require Import ZifyBool ZifyNat.
From Verif Require Import Base SpecSat Lit Solver Api Extend Eliminate DenseFacts DenseOps Radix RadixFacts Forward ForwardFacts PropertiesSort.
Import ListNotations.
Open Scope nat_scope.
Open Scope outcome_scope.

(** ** Marks *)
Lemma set_marks_form : forall b ls d, exists m, set_marks b ls d = set_d_marks m d /\
  forall k, m k = if existsb (Nat.eqb k) ls then b else d_marks d k.
Proof.
  intros b. unfold set_marks. induction ls as [|l ls IH]; intros d; cbn [fold_left existsb].
  - exists (d_marks d). split; auto. now destruct d.
  - destruct (IH (set_mark b l d)) as (m & E & H). exists m. split; [exact E|]. intros k. rewrite H. cbn.
    destruct (Nat.eqb_spec k l) as [->|N]; cbn; [|now rewrite upd_other].
    rewrite upd_same. now destruct (existsb _ _).
Qed.
Lemma fev_marks : forall X m d, pinv d -> fev X d (set_d_marks m d).
Proof. intros X m d V. apply (fev_same _ _ _ []); auto; reflexivity. Qed.
Lemma set_marks_fev : forall X b ls d, pinv d -> fev X d (set_marks b ls d).
Proof. intros X b ls d V. destruct (set_marks_form b ls d) as (m & -> & _). now apply fev_marks. Qed.
Lemma set_marks_get : forall b ls d k, d_marks (set_marks b ls d) k = if existsb (Nat.eqb k) ls then b else d_marks d k.
Proof. intros b ls d k. destruct (set_marks_form b ls d) as (m & -> & H). apply H. Qed.
Lemma set_marks_sol : forall b ls d, d_sol (set_marks b ls d) = d_sol d.
Proof. intros b ls d. now destruct (set_marks_form b ls d) as (m & -> & H). Qed.
Lemma set_marks_occs : forall b ls d, d_occs (set_marks b ls d) = d_occs d.
Proof. intros b ls d. now destruct (set_marks_form b ls d) as (m & -> & H). Qed.
Lemma existsb_in : forall k ls, existsb (Nat.eqb k) ls = true <-> In k ls.
Proof.
  intros k ls. rewrite existsb_exists. split; [intros (x & I & E); apply Nat.eqb_eq in E; now subst|intros I; exists k; split; auto using Nat.eqb_refl].
Qed.

(** ** Duplicated binary clauses *)
Lemma dup_loop_spec : forall sub l ws kept delayed d, pinv d ->
  (forall k, d_marks d k = true -> In (DBinary k) kept) ->
  ok (dup_loop sub l ws kept delayed d) (fun '(kept', delayed', d') =>
    fev nobody d d' /\ d_occs d' = d_occs d /\ (forall w, In w kept' <-> In w kept \/ In w ws) /\
    (forall k, d_marks d' k = true -> In (DBinary k) kept') /\
    (forall u, In u delayed' -> In u delayed \/ (u = l /\ exists k, In (DBinary k) kept' /\ In (DBinary (neg k)) kept'))).
Proof.
  intros sub l. induction ws as [|w ws IH]; intros kept delayed d V Ma; cbn [dup_loop].
  - cbn. splits; auto using fev_refl. intros w. tauto.
  - destruct w as [other|r]; [|exact I].
    destruct (negb _).
    { eapply ok_mono; [apply IH; auto|].
      - intros k K. apply in_or_app. auto.
      - intros ((kept' & delayed') & d') (E & O & K & M & U). splits; auto. intros w. rewrite K, in_app_iff. cbn. tauto. }
    destruct (d_marks d other) eqn:Mo.
    + set (d1 := if l <? other then _ else _).
      assert (E1 : fev nobody d d1 /\ d_occs d1 = d_occs d /\ d_marks d1 = d_marks d).
      { unfold d1. destruct (l <? other); [|splits; auto using fev_refl]. splits; auto. apply (fev_same _ _ _ [Deleted [l; other]]); auto.
        intros c [X|[]]. discriminate. }
      destruct E1 as (E1 & O1 & M1). eapply ok_mono; [apply IH; [apply (fe_inv _ _ _ E1)|now rewrite M1]|].
      intros ((kept' & delayed') & d') (E & O & K & M & U). splits; auto; [eapply fev_trans; eauto|congruence|].
      intros w. rewrite K. cbn. split; [tauto|]. intros [I|[<-|I]]; auto.
    + assert (E1 : fev nobody d (set_mark true other d)) by (now apply fev_marks).
      eapply ok_mono; [apply IH; [apply (fe_inv _ _ _ E1)|]|].
      * intros k. unfold set_mark. cbn. intros K. apply in_or_app. destruct (Nat.eq_dec k other) as [->|N]; [right; now left|].
        left. apply Ma. now rewrite upd_other in K.
      * intros ((kept' & delayed') & d') (E & O & K & M & U). splits; auto; [eapply fev_trans; eauto| |].
        -- intros w. rewrite K, in_app_iff. cbn. tauto.
        -- intros u I. destruct (U u I) as [J|J]; auto. destruct (d_marks d (neg other)) eqn:Mn; auto.
           apply in_app_iff in J as [J|[J|[]]]; auto. right. split; auto. exists other. rewrite !K, !in_app_iff. split; [left; right; now left|].
           left. left. now apply Ma.
Qed.
Lemma in_others : forall k ws, In (DBinary k) ws -> In k (others ws).
Proof. intros k ws I. unfold others. apply in_flat_map. exists (DBinary k). split; auto. now left. Qed.
Lemma remove_duplicated_spec : forall sub l delayed d, pinv d -> clean d ->
  ok (remove_duplicated sub l delayed d) (fun '(delayed', d') => fev nobody d d' /\ clean d' /\
    forall u, In u delayed' -> In u delayed \/ forall v, models d v -> tr v u = true).
Proof.
  intros sub l delayed d V C. unfold remove_duplicated. apply ok_bind. eapply ok_mono; [apply dup_loop_spec; auto|].
  { intros k. rewrite C. discriminate. }
  intros ((kept & delayed') & d1) (E1 & O1 & K & M & U). cbn [ok].
  assert (Kl : forall w, In w kept <-> In w (d_occs d l)) by (intros w; rewrite K; cbn; tauto).
  assert (E2 : fev nobody d1 (set_marks false (others kept) d1)) by (apply set_marks_fev, (fe_inv _ _ _ E1)).
  set (d2 := set_marks false (others kept) d1) in *.
  assert (Eo : forall k w, In w (upd (d_occs d2) l kept k) <-> In w (d_occs d2 k)).
  { intros k w. unfold d2. rewrite set_marks_occs, O1. destruct (Nat.eq_dec k l) as [->|N]; [|now rewrite upd_other]. rewrite upd_same. apply Kl. }
  splits.
  - eapply fev_trans; [exact E1|]. eapply fev_trans; [exact E2|]. apply fev_occs; [apply (fe_inv _ _ _ E2)| |].
    + intros a b. apply Eo.
    + intros k r I. left. now apply Eo.
  - intros k. change (d_marks d2 k = false). unfold d2. rewrite set_marks_get. destruct (existsb _ _) eqn:X; auto.
    destruct (d_marks d1 k) eqn:Mk; auto. apply M, in_others, existsb_in in Mk. congruence.
  - intros u I. destruct (U u I) as [J|(-> & k & J1 & J2)]; auto. right. intros v (_ & _ & B & _).
    apply Kl in J1, J2. destruct (B _ _ J1) as [T|T]; auto. destruct (B _ _ J2) as [T'|T']; auto. rewrite tr_neg, T in T'. discriminate.
Qed.
Lemma duplicated_loop_spec : forall sub is delayed d, pinv d -> clean d -> (forall u v, In u delayed -> models d v -> tr v u = true) ->
  ok (duplicated_loop sub is delayed d) (fun '(delayed', d') => fev nobody d d' /\ clean d' /\
    forall u v, In u delayed' -> models d v -> tr v u = true).
Proof.
  intros sub. induction is as [|i is IH]; intros delayed d V C U; cbn [duplicated_loop].
  - cbn. splits; auto using fev_refl.
  - destruct (_ && _); [|apply IH; auto].
    apply ok_bind. eapply ok_mono; [apply remove_duplicated_spec; auto|]. intros (de1 & d1) (E1 & C1 & U1).
    apply ok_bind. eapply ok_mono; [apply remove_duplicated_spec; [apply (fe_inv _ _ _ E1)|auto]|]. intros (de2 & d2) (E2 & C2 & U2).
    eapply ok_mono; [apply IH; [apply (fe_inv _ _ _ E2)|auto|]|].
    + intros u v I M. rewrite <- (fe_models _ _ _ E2), <- (fe_models _ _ _ E1) in M. destruct (U2 u I) as [J|J]; [|apply J; now rewrite <- (fe_models _ _ _ E1)].
      destruct (U1 u J) as [J'|J']; eauto.
    + intros (de3 & d3) (E3 & C3 & U3). splits; auto; [exact (fev_trans _ _ _ _ E1 (fev_trans _ _ _ _ E2 E3))|].
      intros u v I M. apply U3; auto. now rewrite <- (fe_models _ _ _ E2), <- (fe_models _ _ _ E1).
Qed.
Lemma clean_eq : forall d d', d_marks d' = d_marks d -> clean d -> clean d'.
Proof. intros d d' E C k. now rewrite E. Qed.
Lemma resolved_units_spec : forall us d, pinv d -> clean d -> (forall u v, In u us -> models d v -> tr v u = true) ->
  ok (resolved_units us d) (fun d' => fev nobody d d' /\ clean d').
Proof.
  induction us as [|u us IH]; intros d V C U; cbn [resolved_units].
  - cbn. splits; auto using fev_refl.
  - assert (U' : forall x v, In x us -> models d v -> tr v x = true) by (intros x v I; apply U; now right).
    destruct (dtrue d u); [apply IH; auto|]. destruct (dfalse d u) eqn:F.
    + eapply ok_mono; [apply (inconsistent_fev nobody); auto|].
      * intros v M. apply dfalse_spec in F. pose proof (U u v (or_introl eq_refl) M) as T. destruct M as (_ & M & _). rewrite (units_false' d v) in T; auto; discriminate.
      * cbv beta. intros d' (E & (_ & Q & _) & _). split; auto. now apply (clean_eq d).
    + apply ok_bind. eapply ok_mono; [apply (learned_fev nobody); auto|].
      * intros v. apply U. now left.
      * cbv beta. intros d1 (E1 & (_ & Q1 & _) & _). eapply ok_mono; [apply IH; [apply (fe_inv _ _ _ E1)|now apply (clean_eq d)|]|].
        -- intros x v I M. rewrite <- (fe_models _ _ _ E1) in M. auto.
        -- cbv beta. intros d' (E & C'). split; auto. eapply fev_trans; eauto.
Qed.
Lemma remove_all_duplicated_spec : forall sub d, pinv d -> clean d ->
  ok (remove_all_duplicated sub d) (fun d' => fev nobody d d' /\ clean d').
Proof.
  intros sub d V C. unfold remove_all_duplicated. apply ok_bind. eapply ok_mono; [apply duplicated_loop_spec; auto|].
  intros (de & d1) (E1 & C1 & U). destruct de as [|u de]; [cbn; auto|].
  apply ok_bind. eapply ok_mono; [apply resolved_units_spec; [apply (fe_inv _ _ _ E1)|auto|]|].
  - intros x v I M. apply (U x v I). now rewrite (fe_models _ _ _ E1).
  - cbv beta. intros d2 (E2 & C2). destruct (inconsistent (d_sol d2)); [cbn; split; auto; eapply fev_trans; eauto|].
    eapply ok_mono; [apply flush_units_fev, (fe_inv _ _ _ E2)|]. cbv beta. intros d3 (E3 & (M3 & _)). split; [|now apply (clean_eq d2)].
    exact (fev_trans _ _ _ _ E1 (fev_trans _ _ _ _ E2 E3)).
Qed.

(** ** Candidates *)
Definition ready (d : dense) (r : nat) : Prop := exists c, arena (d_sol d) r = Some c /\ live c.
Lemma find_candidates_spec : forall o sub refs d, pinv d -> clean d -> NoDup refs ->
  ok (find_candidates o sub refs d) (fun '(cs, d') => fev (fun r => In r refs) d d' /\ clean d' /\ d_occs d' = d_occs d /\
    (forall r, ~ In r refs -> arena (d_sol d') r = arena (d_sol d) r) /\ NoDup cs /\ incl cs refs /\ forall r, In r cs -> ready d' r).
Proof.
  intros o sub. induction refs as [|r refs IH]; intros d V C N; cbn [find_candidates].
  - cbn. splits; auto using fev_refl, NoDup_nil, incl_refl. intros r [].
  - inversion N as [|x y Nr Nd]; subst.
    assert (Skip : forall d1, fev (fun q => In q (r :: refs)) d d1 -> clean d1 -> d_occs d1 = d_occs d -> (forall q, q <> r -> arena (d_sol d1) q = arena (d_sol d) q) ->
      ok (find_candidates o sub refs d1) (fun '(cs, d') => fev (fun q => In q (r :: refs)) d d' /\ clean d' /\ d_occs d' = d_occs d /\
        (forall q, ~ In q (r :: refs) -> arena (d_sol d') q = arena (d_sol d) q) /\ NoDup cs /\ incl cs (r :: refs) /\ (~ In r cs) /\ arena (d_sol d') r = arena (d_sol d1) r /\ forall q, In q cs -> ready d' q)).
    { intros d1 E1 C1 O1 A1. eapply ok_mono; [apply IH; [apply (fe_inv _ _ _ E1)|auto|auto]|].
      intros (cs & d') (E & C' & O & A & Nc & I & R). splits; auto.
      - eapply fev_trans; [exact E1|]. eapply fev_mono; [|exact E]. intros q J. now right.
      - congruence.
      - intros q J. rewrite A, A1; auto; intros K; apply J; [now left|now right].
      - intros q J. right. auto. }
    assert (Here : ok (find_candidates o sub refs d) (fun '(cs, d') => fev (fun q => In q (r :: refs)) d d' /\ clean d' /\ d_occs d' = d_occs d /\
        (forall q, ~ In q (r :: refs) -> arena (d_sol d') q = arena (d_sol d) q) /\ NoDup cs /\ incl cs (r :: refs) /\ (~ In r cs) /\ arena (d_sol d') r = arena (d_sol d) r /\ forall q, In q cs -> ready d' q)).
    { apply Skip; auto using fev_refl. }
    assert (Out : ok (find_candidates o sub refs d) (fun '(cs, d') => fev (fun q => In q (r :: refs)) d d' /\ clean d' /\ d_occs d' = d_occs d /\
        (forall q, ~ In q (r :: refs) -> arena (d_sol d') q = arena (d_sol d) q) /\ NoDup cs /\ incl cs (r :: refs) /\ forall q, In q cs -> ready d' q)).
    { eapply ok_mono; [exact Here|]. intros (cs & d') (A1 & A2 & A3 & A4 & A5 & A6 & _ & _ & A7). splits; auto. }
    destruct (arena (d_sol d) r) as [c|] eqn:Ar; [|exact Out].
    destruct (c_garbage c || c_redundant c || (w_clslim o <? length (c_lits c))) eqn:Sk; [exact Out|].
    apply orb_false_iff in Sk as (Sk & _). apply orb_false_iff in Sk as (Ga & Re).
    apply ok_bind, ok_assert. intros _. destruct (existsb (dtrue d) (c_lits c)) eqn:St.
    + apply ok_bind. eapply ok_mono; [apply (eliminate_satisfied (fun q => In q (r :: refs))); auto|].
      * left. now left.
      * intros c' Ar'. assert (c' = c) by congruence. subst c'. apply existsb_exists in St as (k & I & T). exists k. split; auto. now apply dtrue_spec.
      * cbv beta. intros d1 (E1 & (O1 & M1 & _) & _ & c1 & Ar1 & ->). eapply ok_mono; [apply Skip; auto|].
        -- intros q Nq. rewrite garbage_arena. now destruct (Nat.eqb_spec q r).
        -- intros (cs & d') (A1 & A2 & A3 & A4 & A5 & A6 & _ & _ & A7). splits; auto.
    + destruct (_ <? 2); [exact Out|]. apply ok_bind. eapply ok_mono; [exact Here|].
      intros (cs & d') (A1 & A2 & A3 & A4 & A5 & A6 & A7 & A8 & A9). cbn [ok]. splits; auto.
      * now constructor.
      * intros q [<-|I]; [now left|auto].
      * intros q [<-|I]; auto. exists c. split; [congruence|split; auto].
Qed.
Lemma sort_candidates_spec : forall cs d, ok (sort_candidates cs d) (fun cs' => Permutation cs cs').
Proof.
  intros cs d. apply ok_eq. intros cs' E. unfold sort_candidates in E.
  destruct (C31_radix nat (clause_size d) 4 cs) as (b & E' & H).
  - intros x. unfold clause_size. destruct (arena (d_sol d) x); [|lia]. apply Z.mod_pos_bound. lia.
  - rewrite E in E'. injection E' as <-. eapply C31_permutation; exact H.
Qed.

(** ** Checking one clause *)
Lemma scan_clause_spec : forall d lits cand,
  match scan_clause lits cand d with
  | ScSatisfied => exists k, In k lits /\ dval d k = Some true
  | ScSubsume => cand = None /\ forall k, In k lits -> d_marks d k = true \/ dval d k = Some false
  | ScCandidate x => (cand = Some x /\ forall k, In k lits -> d_marks d k = true \/ dval d k = Some false) \/
      (cand = None /\ d_marks d x = true /\ In (neg x) lits /\ forall k, In k lits -> d_marks d k = true \/ dval d k = Some false \/ k = neg x)
  | ScNone => True
  end.
Proof.
  intros d. induction lits as [|y lits IH]; intros cand; cbn [scan_clause].
  - destruct cand; [left|]; split; auto; intros k [].
  - assert (Sk : d_marks d y = true \/ dval d y = Some false -> match scan_clause lits cand d with
      | ScSatisfied => exists k, In k (y :: lits) /\ dval d k = Some true
      | ScSubsume => cand = None /\ forall k, In k (y :: lits) -> d_marks d k = true \/ dval d k = Some false
      | ScCandidate x => (cand = Some x /\ forall k, In k (y :: lits) -> d_marks d k = true \/ dval d k = Some false) \/
          (cand = None /\ d_marks d x = true /\ In (neg x) (y :: lits) /\ forall k, In k (y :: lits) -> d_marks d k = true \/ dval d k = Some false \/ k = neg x)
      | ScNone => True end).
    { intros Y. specialize (IH cand). destruct (scan_clause lits cand d); auto.
      - destruct IH as (k & I & T). exists k. split; auto. now right.
      - destruct IH as (A & B). split; auto. intros k [<-|I]; auto.
      - destruct IH as [(A & B)|(A & B & C & D)]; [left|right]; splits; auto.
        + intros k [<-|I]; auto.
        + now right.
        + intros k [<-|I]; auto. tauto. }
    destruct (d_marks d y) eqn:My; [apply Sk; auto|]. destruct (dfalse d y) eqn:Fy; [apply Sk; right; now apply dfalse_spec|]. clear Sk.
    destruct (dtrue d y) eqn:Ty. { exists y. split; [now left|now apply dtrue_spec]. }
    destruct cand as [x|]; [exact I|]. destruct (d_marks d (neg y)) eqn:Mn; [|exact I].
    specialize (IH (Some (neg y))). destruct (scan_clause lits (Some (neg y)) d); auto.
    + destruct IH as (k & I & T). exists k. split; auto. now right.
    + destruct IH as (A & _). discriminate.
    + destruct IH as [(A & B)|(A & _)]; [|discriminate]. injection A as <-. right. splits; auto.
      * left. now rewrite neg_neg.
      * intros k [<-|I]; [right; right; now rewrite neg_neg|]. destruct (B k I); auto.
Qed.

Definition without (x : lit) (ls : list lit) : list lit := filter (fun k => negb (k =? x)) ls.
Lemma in_without : forall x ls k, In k (without x ls) <-> In k ls /\ k <> x.
Proof. intros x ls k. unfold without. rewrite filter_In, negb_true_iff, Nat.eqb_neq. tauto. Qed.
Definition removable (nf : list lit) (d : dense) (x : lit) : Prop := In x nf /\ forall v, models d v -> sat_clause v (without x nf).
Lemma removable_intro : forall nf d x, (forall v, models d v -> sat_clause v nf) -> In x nf ->
  (forall v, models d v -> tr v (neg x) = true \/ sat_clause v (without x nf)) -> removable nf d x.
Proof.
  intros nf d x H I K. split; auto. intros v M. destruct (K v M) as [T|T]; auto. destruct (H v M) as (k & Ik & Tk).
  exists k. split; auto. apply in_without. split; auto. intros ->. rewrite tr_neg, Tk in T. discriminate.
Qed.
Lemma but_occs : forall r occs d v, (forall a b, In (DBinary b) (occs a) <-> In (DBinary b) (d_occs d a)) -> but r (set_d_occs occs d) v -> but r d v.
Proof. intros r occs d v H (A & B & C & D). unfold but. splits; auto. intros a b I. apply C. cbn. now apply H. Qed.

Section Check.
Variable r : nat.
Variable nf : list lit.
Lemma forward_watches_spec : forall l binaries d ws kept remove, pinv d -> free d r -> (forall k, d_marks d k = true <-> In k nf) ->
  (forall v, models d v -> sat_clause v nf) -> (binaries = true -> In l nf) -> incl ws (d_occs d l) ->
  ok (forward_watches binaries ws kept remove d) (fun '(sub, remove', ws', d') => fev nobody d d' /\ quiet d d' /\ (forall k, dval d' k = dval d k) /\
    (forall b, In (DBinary b) ws' <-> In (DBinary b) (kept ++ ws)) /\ (forall q, In (DLarge q) ws' -> In (DLarge q) (kept ++ ws)) /\
    (sub = true -> forall v, but r d' v -> sat_clause v nf) /\
    (remove' = remove \/ exists x, remove' = Some x /\ removable nf d x)).
Proof.
  intros l binaries d ws kept remove V Fr Ma Hs Hb. revert kept remove.
  induction ws as [|w ws IH]; intros kept remove In0; cbn [forward_watches].
  - cbn [ok]. splits; auto using fev_refl, quiet_refl; intros; rewrite ?app_nil_r in *; auto; try tauto; discriminate.
  - assert (Iw : In w (d_occs d l)) by (apply In0; now left).
    assert (In1 : incl ws (d_occs d l)) by (intros x I; apply In0; now right).
    assert (Keep : forall rm, ok (forward_watches binaries ws (kept ++ [w]) rm d) (fun '(sub, remove', ws', d') => fev nobody d d' /\ quiet d d' /\ (forall k, dval d' k = dval d k) /\
      (forall b, In (DBinary b) ws' <-> In (DBinary b) (kept ++ w :: ws)) /\ (forall q, In (DLarge q) ws' -> In (DLarge q) (kept ++ w :: ws)) /\
      (sub = true -> forall v, but r d' v -> sat_clause v nf) /\ (remove' = rm \/ exists x, remove' = Some x /\ removable nf d x))).
    { intros rm. eapply ok_mono; [apply IH; auto|]. intros (((sub & rm') & ws') & d') (A & B & C & D & E & F & G).
      rewrite <- app_assoc in D, E. cbn [app] in D, E. splits; auto. }
    destruct w as [other|q].
    + destruct binaries; cbn [negb]; [|apply Keep]. specialize (Hb eq_refl). pose proof (pi_bin _ V _ _ Iw) as Nb.
      destruct (d_marks d other) eqn:Mo.
      { cbn [ok]. splits; auto using fev_refl, quiet_refl; try tauto. intros _ v (_ & _ & B & _). apply Ma in Mo.
        destruct (B _ _ Iw) as [T|T]; [exists l|exists other]; auto. }
      destruct (d_marks d (neg other)) eqn:Mn; [|apply Keep].
      cbn [ok]. splits; auto using fev_refl, quiet_refl; try tauto; try discriminate. right. exists (neg other). split; auto. apply Ma in Mn.
      apply removable_intro; auto. intros v (_ & _ & B & _). rewrite neg_neg. destruct (B _ _ Iw) as [T|T]; auto. right. exists l. split; auto.
      apply in_without. split; auto. intros ->. apply Nb, idx_neg.
    + apply ok_bind. eapply ok_mono; [apply get_clause_spec|]. cbv beta. intros c Ar. destruct (pi_large _ V _ _ Iw) as (c' & Ar' & Re & Il).
      assert (c' = c) by congruence. subst c'. destruct (c_garbage c) eqn:Ga.
      { eapply ok_mono; [apply IH; auto|]. intros (((sub & rm') & ws') & d') (A & B & C & D & E & F & G). splits; auto.
        - intros b. rewrite D, !in_app_iff. cbn. intuition discriminate.
        - intros p I. apply E in I. rewrite in_app_iff in *. cbn. tauto. }
      assert (Lc : live c) by (split; auto).
      pose proof (scan_clause_spec d (c_lits c) None) as Sc. destruct (scan_clause (c_lits c) None d) as [| |x|].
      * apply ok_bind. eapply ok_mono; [apply (eliminate_satisfied nobody); auto|].
        -- right. eapply watch_not_free; eauto.
        -- intros c' Ar''. rewrite Ar in Ar''. injection Ar'' as <-. exact Sc.
        -- cbv beta. intros d' (E & Q & Va & _). cbn [ok]. splits; auto; try discriminate.
           ++ intros b. rewrite !in_app_iff. cbn. intuition discriminate.
           ++ intros p. rewrite !in_app_iff. cbn. tauto.
      * cbn [ok]. splits; auto using fev_refl, quiet_refl; try tauto. intros _ v (_ & U & _ & L).
        assert (Nq : q <> r) by (intros ->; now apply Fr in Iw). destruct (L q c Nq Ar Lc) as (k & I & T). destruct Sc as (_ & Sc).
        destruct (Sc k I) as [Mk|Fk]; [exists k; split; auto; now apply Ma|]. rewrite (units_false' d v) in T; auto. discriminate.
      * destruct Sc as [(Sc & _)|(_ & Mx & Ix & Sc)]; [discriminate|].
        assert (Rx : removable nf d x).
        { apply removable_intro; auto; [now apply Ma|]. intros v (_ & U & _ & L). destruct (L q c Ar Lc) as (k & I & T).
          destruct (Sc k I) as [Mk|[Fk|Ek]]; [right|rewrite (units_false' d v) in T; auto; discriminate|left; congruence].
          exists k. split; auto. apply in_without. split; [now apply Ma|]. intros ->. eapply (pi_taut _ V); eauto. }
        eapply ok_mono; [apply Keep|]. intros (((sub & rm') & ws') & d') (A & B & C & D & E & F & G). splits; auto.
        right. destruct G as [->|G]; eauto.
      * apply Keep.
Qed.
Lemma fev_calm_occs : forall d l ws, pinv d -> (forall b, In (DBinary b) ws <-> In (DBinary b) (d_occs d l)) ->
  (forall q, In (DLarge q) ws -> In (DLarge q) (d_occs d l)) -> fev nobody d (set_d_occs (upd (d_occs d) l ws) d).
Proof.
  intros d l ws V B L. apply fev_occs; auto.
  - intros a b. destruct (Nat.eq_dec a l) as [->|N]; [rewrite upd_same; apply B|now rewrite upd_other].
  - intros k q. destruct (Nat.eq_dec k l) as [->|N]; [rewrite upd_same|rewrite upd_other; auto]. auto.
Qed.
Lemma forward_literal_spec : forall o l binaries d remove, pinv d -> free d r -> (forall k, d_marks d k = true <-> In k nf) ->
  (forall v, models d v -> sat_clause v nf) -> (binaries = true -> In l nf) ->
  ok (forward_literal o l binaries remove d) (fun '(sub, remove', d') => fev nobody d d' /\ d_marks d' = d_marks d /\ (forall k, dval d' k = dval d k) /\
    (sub = true -> forall v, but r d' v -> sat_clause v nf) /\
    (remove' = remove \/ exists x, remove' = Some x /\ removable nf d x)).
Proof.
  intros o l binaries d remove V Fr Ma Hs Hb. unfold forward_literal. destruct (_ || _).
  { cbn. splits; auto using fev_refl. discriminate. }
  apply ok_bind. eapply ok_mono; [apply (forward_watches_spec l); auto using incl_refl|].
  intros (((sub & rm') & ws') & d') (A & (Q1 & Q2 & _) & C & D & E & F & G). cbn [ok]. cbn [app] in D, E.
  assert (Bi : forall a b, In (DBinary b) (upd (d_occs d') l ws' a) <-> In (DBinary b) (d_occs d' a)).
  { intros a b. rewrite Q1. destruct (Nat.eq_dec a l) as [->|N]; [rewrite upd_same; apply D|now rewrite upd_other]. }
  splits; auto.
  - eapply fev_trans; [exact A|]. apply fev_calm_occs; [apply (fe_inv _ _ _ A)|now rewrite Q1|now rewrite Q1].
  - intros Sb v Bu. apply F; auto. eapply but_occs; eauto.
Qed.
Lemma removable_fev : forall X d d' x, fev X d d' -> removable nf d' x -> removable nf d x.
Proof. intros X d d' x E (A & B). split; auto. intros v M. apply B. now apply (fe_models _ _ _ E). Qed.
Lemma forward_marked_spec : forall o lits d remove, pinv d -> free d r -> (forall k, d_marks d k = true <-> In k nf) ->
  (forall v, models d v -> sat_clause v nf) -> (forall k, In k lits -> dval d k = None -> In k nf) ->
  (forall x, remove = Some x -> removable nf d x) ->
  ok (forward_marked o lits remove d) (fun '(sub, remove', d') => fev nobody d d' /\ d_marks d' = d_marks d /\ (forall k, dval d' k = dval d k) /\
    (sub = true -> forall v, but r d' v -> sat_clause v nf) /\
    (forall x, remove' = Some x -> removable nf d x)).
Proof.
  intros o. induction lits as [|l lits IH]; intros d remove V Fr Ma Hs Hn Hr; cbn [forward_marked].
  - cbn. splits; auto using fev_refl. discriminate.
  - destruct (negb (is_active (idx l) d)). { apply IH; auto. intros k I. apply Hn. now right. }
    apply ok_bind, ok_assert. intros Nv. destruct (dval d l) eqn:Dl; [discriminate|]. clear Nv.
    assert (Il : In l nf) by (apply Hn; [now left|auto]).
    apply ok_bind. eapply ok_mono; [apply forward_literal_spec; auto|].
    intros ((sub & rm1) & d1) (E1 & M1 & V1 & S1 & R1).
    assert (Hr1 : forall x, rm1 = Some x -> removable nf d x).
    { intros x E. destruct R1 as [->|(y & Ey & Ry)]; auto. congruence. }
    destruct sub. { cbn [ok]. splits; auto. }
    destruct (fe_free _ _ _ E1 r (fun F => F) Fr) as (_ & Fr1).
    assert (Ma1 : forall k, d_marks d1 k = true <-> In k nf) by (intros k; now rewrite M1).
    assert (Hs1 : forall v, models d1 v -> sat_clause v nf) by (intros v M; apply Hs; now apply (fe_models _ _ _ E1)).
    apply ok_bind. eapply ok_mono; [apply forward_literal_spec; [apply (fe_inv _ _ _ E1)|auto|auto|auto|discriminate]|].
    intros ((sub & rm2) & d2) (E2 & M2 & V2 & S2 & R2).
    assert (Hr2 : forall x, rm2 = Some x -> removable nf d x).
    { intros x E. destruct R2 as [->|(y & Ey & Ry)]; auto. apply (removable_fev _ _ _ _ E1). congruence. }
    assert (E12 : fev nobody d d2) by (eapply fev_trans; eauto).
    destruct sub. { cbn [ok]. splits; auto; try congruence. }
    destruct (fe_free _ _ _ E2 r (fun F => F) Fr1) as (_ & Fr2).
    eapply ok_mono; [apply IH; [apply (fe_inv _ _ _ E12)|auto| | | |]|].
    + intros k. now rewrite M2.
    + intros v M. apply Hs. now apply (fe_models _ _ _ E12).
    + intros k I N. apply Hn; [now right|]. now rewrite <- V1, <- V2.
    + intros x E. destruct (Hr2 x E) as (I & K). split; auto. intros v M. apply K. now apply (fe_models _ _ _ E12).
    + intros ((sub & rm3) & d3) (E3 & M3 & V3 & S3 & R3). splits; auto; try congruence.
      * eapply fev_trans; eauto.
      * intros x E. apply (removable_fev _ _ _ _ E12). auto.
Qed.
End Check.
