(** The proof lines of forward subsumption have reverse unit propagation: all functions. *)
From Coq Require Import ZArith List Bool Lia Arith Permutation.
From Coq Require Import ZifyBool ZifyNat.
From Verif Require Import Base SpecSat Lit Solver Api Extend Eliminate DenseFacts DenseOps Forward ForwardFacts ForwardRun ForwardLoop.
From Verif Require FactorFacts DbFacts Inv.
From Verif Require Import Sem ForwardProof.
Import ListNotations.
Open Scope nat_scope.
Open Scope outcome_scope.

(** ** Occurrence lists *)
Lemma pairs_upd : forall n (f g : lit -> list dwatch) l x, (forall k, k <> l -> g k = f k) -> l < 2 * n ->
  cnt x (pairs n g) + cnt x (flat_map (pair_of l) (f l)) = cnt x (pairs n f) + cnt x (flat_map (pair_of l) (g l)).
Proof.
  intros n f g l x H L. apply (DbFacts.cnt_flat_upd (fun a => flat_map (pair_of a) (f a)) (fun a => flat_map (pair_of a) (g a))); auto.
  intros k N. now rewrite H.
Qed.
Lemma ri_occs_sub : forall F o d, rinv F d -> (forall k, flat_map (pair_of k) (o k) = flat_map (pair_of k) (d_occs d k)) ->
  (forall a b, In (DBinary b) (o a) -> In (DBinary b) (d_occs d a)) -> rinv F (set_d_occs o d).
Proof.
  intros F o d [P T L B A] E S. constructor; auto.
  - replace (udb (set_d_occs o d)) with (udb d); auto. unfold udb. cbn [d_sol set_d_occs d_occs]. f_equal. f_equal. symmetry. now apply FactorFacts.pairs_large.
  - intros a b I. apply S in I. eauto.
Qed.
Lemma ri_del_pair : forall F o o' d l b X Y, rinv F (set_d_occs o d) -> l < b -> o l = X ++ DBinary b :: Y -> o' l = X ++ Y ->
  (forall k, k <> l -> o' k = o k) -> rinv F (set_d_occs o' (set_d_sol (del_step [l; b] (d_sol d)) d)).
Proof.
  intros F o o' d l b X Y [P T L B A] Lb E E' N. cbn [d_sol set_d_occs d_occs] in *.
  assert (Ll : l < 2 * vars (d_sol d)). { apply (B l b). rewrite E. apply in_or_app. right. now left. }
  constructor; auto.
  - cbn [d_sol set_d_sol set_d_occs steps del_step]. eapply pr_del; [exact P|]. intros x. rewrite cnt_cons.
    match goal with |- _ + cnt x (udb ?e) <= _ => replace (cnt x (udb e)) with (cnt x (map (fun l => [l]) (trail (d_sol d))) + cnt x (pairs (vars (d_sol d)) o') +
      cnt x (Inv.irredundants (next_ref (d_sol d)) (arena (d_sol d)))) by (rewrite cnt_udb; reflexivity) end.
    rewrite cnt_udb. cbn [d_sol set_d_occs d_occs].
    pose proof (pairs_upd (vars (d_sol d)) o o' l x N Ll) as H. rewrite E, E', !flat_map_app, !cnt_app in H.
    change (flat_map (pair_of l) (DBinary b :: Y)) with (pair_of l (DBinary b) ++ flat_map (pair_of l) Y) in H. rewrite cnt_app in H.
    cbn [FactorFacts.pair_of] in H. apply Nat.ltb_lt in Lb. rewrite Lb, cnt_cons, cnt_nil in H. lia.
  - intros a k I. cbn [d_occs set_d_occs] in I. apply (B a k). destruct (Nat.eq_dec a l) as [->|Na]; [|now rewrite <- N].
    rewrite E' in I. rewrite E. rewrite in_app_iff in *. cbn. tauto.
Qed.

(** ** Duplicated binary clauses *)
Definition put (l : lit) (ws : list dwatch) (d : dense) : dense := set_d_occs (upd (d_occs d) l ws) d.
Lemma dup_loop_r : forall F sub l ws kept delayed d, rinv F (put l (kept ++ ws) d) ->
  ok (dup_loop sub l ws kept delayed d) (fun '(kept', delayed', d') => rinv F (put l kept' d')).
Proof.
  intros F sub l. induction ws as [|w ws IH]; intros kept delayed d R; cbn [dup_loop].
  - cbn. now rewrite app_nil_r in R.
  - destruct w as [other|r]; [|exact I].
    assert (Keep : rinv F (put l ((kept ++ [DBinary other]) ++ ws) d)) by (now rewrite <- app_assoc).
    destruct (negb _); [now apply IH|]. destruct (d_marks d other) eqn:Mo.
    + apply IH. destruct (l <? other) eqn:Lt.
      * apply Nat.ltb_lt in Lt. apply (ri_del_pair F (upd (d_occs d) l (kept ++ DBinary other :: ws)) (upd (d_occs d) l (kept ++ ws)) d l other kept ws); auto.
        -- now rewrite upd_same.
        -- now rewrite upd_same.
        -- intros k N. now rewrite !upd_other.
      * unfold put in *. apply (ri_occs_sub F (upd (d_occs d) l (kept ++ ws))) in R; [exact R| |].
        -- intros k. cbn [d_occs set_d_occs]. rewrite !upd_if. destruct (Nat.eqb_spec k l) as [->|]; auto. rewrite !flat_map_app. cbn [flat_map FactorFacts.pair_of]. now rewrite Lt.
        -- intros a b. cbn [d_occs set_d_occs]. rewrite !upd_if. destruct (a =? l); auto. rewrite !in_app_iff. cbn. tauto.
    + apply IH. exact (ri_marks F _ _ Keep).
Qed.
(** Two binary clauses which give a unit. *)
Definition resolves (d : dense) (u : lit) : Prop := exists k, In (DBinary k) (d_occs d u) /\ In (DBinary (neg k)) (d_occs d u).
Definition same_watches (d d' : dense) : Prop := forall k w, In w (d_occs d' k) <-> In w (d_occs d k).
Lemma resolves_same : forall d d' u, same_watches d d' -> resolves d u -> resolves d' u.
Proof. intros d d' u H (k & A & B). exists k. split; now apply H. Qed.
Lemma put_same : forall l d, forall ws, ws = d_occs d l -> forall k, upd (d_occs d) l ws k = d_occs d k.
Proof. intros l d ws -> k. rewrite upd_if. destruct (Nat.eqb_spec k l) as [->|]; auto. Qed.
Lemma remove_duplicated_r : forall F sub l delayed d, pinv d -> clean d -> rinv F d ->
  ok (remove_duplicated sub l delayed d) (fun '(delayed', d') => rinv F d' /\ same_watches d d' /\
    forall u, In u delayed' -> In u delayed \/ resolves d u).
Proof.
  intros F sub l delayed d V C R. unfold remove_duplicated. apply ok_bind.
  eapply ok_mono; [apply ok_and; [apply dup_loop_spec; auto|apply (dup_loop_r F)]|].
  - intros k. rewrite C. discriminate.
  - cbn [app]. apply ri_occs; auto. intros k. now rewrite (put_same l d) by auto.
  - intros ((kept & delayed') & d1) ((E1 & O1 & K & M & U) & R1). cbn [ok].
    assert (Kl : forall w, In w kept <-> In w (d_occs d l)) by (intros w; rewrite K; cbn; tauto). splits.
    + rewrite set_marks_occs. destruct (set_marks_form false (others kept) d1) as (m & -> & _). exact (ri_marks F m _ R1).
    + intros k w. cbn [d_occs set_d_occs]. rewrite set_marks_occs, O1, upd_if. destruct (Nat.eqb_spec k l) as [->|]; [apply Kl|tauto].
    + intros u I. destruct (U u I) as [J|(-> & k & J1 & J2)]; auto. right. exists k. split; now apply Kl.
Qed.
Lemma duplicated_loop_r : forall F sub is delayed d, pinv d -> clean d -> rinv F d -> (forall u, In u delayed -> resolves d u) ->
  ok (duplicated_loop sub is delayed d) (fun '(delayed', d') => pinv d' /\ rinv F d' /\ forall u, In u delayed' -> resolves d' u).
Proof.
  intros F sub. induction is as [|i is IH]; intros delayed d V C R U; cbn [duplicated_loop].
  - cbn. auto.
  - destruct (_ && _); [|apply IH; auto].
    apply ok_bind. eapply ok_mono; [apply ok_and; [apply remove_duplicated_spec; auto|apply (remove_duplicated_r F); auto]|].
    intros (de1 & d1) ((E1 & C1 & _) & R1 & W1 & U1).
    assert (U1' : forall u, In u de1 -> resolves d1 u) by (intros u I; apply (resolves_same d); auto; destruct (U1 u I); auto).
    apply ok_bind. eapply ok_mono; [apply ok_and; [apply remove_duplicated_spec; [apply (fe_inv _ _ _ E1)|auto]|apply (remove_duplicated_r F); [apply (fe_inv _ _ _ E1)|auto|auto]]|].
    intros (de2 & d2) ((E2 & C2 & _) & R2 & W2 & U2). apply IH; auto; [apply (fe_inv _ _ _ E2)|].
    intros u I. apply (resolves_same d1); auto. destruct (U2 u I); auto.
Qed.
Lemma rup_resolves : forall F d u, pinv d -> rinv F d -> resolves d u -> rup neg (udb d) [u].
Proof.
  intros F d u V R (k & A & B). apply (rup_two F d [u; k] [u; neg k] k); auto; try (eapply there_bin; eauto; fail).
  - intros m [<-|[<-|[]]]; auto. right. left. now left.
  - intros m [<-|[<-|[]]]; auto. right. left. now left.
Qed.
Lemma resolved_units_r : forall F us d, pinv d -> rinv F d -> (forall u, In u us -> resolves d u) ->
  ok (resolved_units us d) (fun d' => pinv d' /\ rinv F d').
Proof.
  intros F. induction us as [|u us IH]; intros d V R U; cbn [resolved_units].
  - cbn. auto.
  - assert (U' : forall x, In x us -> resolves d x) by (intros x I; apply U; now right).
    pose proof (U u (or_introl eq_refl)) as Ru.
    destruct (dtrue d u); [apply IH; auto|]. destruct (dfalse d u) eqn:Fa.
    + apply dfalse_spec in Fa. destruct Ru as (k & A & B). eapply ok_mono; [apply (inconsistent_r F nobody); auto|].
      * apply (rup_two F d [u; k] [u; neg k] k); auto; try (eapply there_bin; eauto; fail); intros m [<-|[<-|[]]]; auto.
      * cbv beta. intros d' (E & R' & _). split; auto. apply (fe_inv _ _ _ E).
    + apply ok_bind. eapply ok_mono; [apply (learned_r F nobody); auto; now apply (rup_resolves F)|].
      cbv beta. intros d1 (E1 & R1 & (O1 & _) & _). apply IH; auto; [apply (fe_inv _ _ _ E1)|].
      intros x I. apply (resolves_same d); auto. intros k w. now rewrite O1.
Qed.
Lemma remove_all_duplicated_r : forall F sub d, pinv d -> clean d -> rinv F d ->
  ok (remove_all_duplicated sub d) (rinv F).
Proof.
  intros F sub d V C R. unfold remove_all_duplicated. apply ok_bind. eapply ok_mono; [apply (duplicated_loop_r F); auto; intros u []|].
  intros (de & d1) (V1 & R1 & U). destruct de as [|u de]; [cbn; auto|].
  apply ok_bind. eapply ok_mono; [apply (resolved_units_r F); auto|]. cbv beta. intros d2 (V2 & R2).
  destruct (inconsistent (d_sol d2)); [exact R2|]. eapply ok_mono; [apply (flush_units_r F); auto|]. cbv beta. tauto.
Qed.

(** ** Candidates *)
Lemma find_candidates_r : forall F o sub refs d, pinv d -> rinv F d -> ok (find_candidates o sub refs d) (fun '(cs, d') => rinv F d').
Proof.
  intros F o sub. induction refs as [|r refs IH]; intros d V R; cbn [find_candidates]; [exact R|].
  destruct (arena (d_sol d) r) as [c|] eqn:Ar; [|now apply IH].
  destruct (c_garbage c || c_redundant c || (w_clslim o <? length (c_lits c))) eqn:Sk; [now apply IH|].
  apply orb_false_iff in Sk as (Sk & _). apply orb_false_iff in Sk as (Ga & Re).
  apply ok_bind, ok_assert. intros _. destruct (existsb (dtrue d) (c_lits c)) eqn:St.
  - apply ok_bind. eapply ok_mono; [apply (eliminate_satisfied (eq r)); auto|].
    + intros c' Ar'. assert (c' = c) by congruence. subst c'. apply existsb_exists in St as (k & I & T). exists k. split; auto. now apply dtrue_spec.
    + cbv beta. intros d1 (E1 & _ & _ & c1 & Ar1 & ->). assert (c1 = c) by congruence. subst c1. apply IH; [apply (fe_inv _ _ _ E1)|]. apply ri_garbage; auto. split; auto.
  - destruct (_ <? 2); [now apply IH|]. apply ok_bind. eapply ok_mono; [now apply IH|]. intros (cs & d') R'. exact R'.
Qed.

(** ** Checking one clause *)
(** Clauses of a state which have no true literal stay. *)
Record keeps (d d' : dense) : Prop := mk_keeps {
  ke_val : forall k, dval d' k = dval d k;
  ke_bin : forall a b, In (DBinary b) (d_occs d a) -> In (DBinary b) (d_occs d' a);
  ke_large : forall q c, arena (d_sol d) q = Some c -> (forall k, In k (c_lits c) -> dval d k <> Some true) -> arena (d_sol d') q = Some c }.
Lemma keeps_refl : forall d, keeps d d.
Proof. intros d. constructor; auto. Qed.
Lemma keeps_trans : forall a b c, keeps a b -> keeps b c -> keeps a c.
Proof.
  intros a b c [A1 A2 A3] [B1 B2 B3]. constructor; auto.
  - intros k. now rewrite B1.
  - intros q x H N. apply B3; auto. intros k I. rewrite A1. auto.
Qed.
Definition source (d : dense) (e : list lit) : Prop :=
  (exists a b, e = [a; b] /\ In (DBinary b) (d_occs d a)) \/ exists q c, arena (d_sol d) q = Some c /\ live c /\ e = c_lits c.
Lemma source_there : forall F d e, pinv d -> rinv F d -> source d e -> there d e.
Proof. intros F d e V R [(a & b & -> & I)|(q & c & A & L & ->)]; [eapply there_bin; eauto|eapply there_large; eauto]. Qed.

Section Check.
Variable nf : list lit.
Definition reason_for (d : dense) (x : lit) : Prop := In x nf /\
  exists e, source d e /\ forall k, In k e -> k = neg x \/ In k (without x nf) \/ dval d k = Some false.
Definition open_lits (d : dense) : Prop := forall k, In k nf -> dval d k = None.
Lemma reason_keeps : forall d d' x, pinv d -> open_lits d -> keeps d d' -> reason_for d x -> reason_for d' x.
Proof.
  intros d d' x V O [K1 K2 K3] (I & e & S & H). split; auto. exists e. split.
  - destruct S as [(a & b & -> & J)|(q & c & A & L & ->)]; [left; eauto|right]. exists q, c. splits; auto. apply K3; auto.
    intros k Ik. destruct (H k Ik) as [->|[J|J]].
    + rewrite (pi_neg _ V), (O x I). discriminate.
    + apply in_without in J as (J & _). rewrite (O k J). discriminate.
    + congruence.
  - intros k Ik. rewrite K1. auto.
Qed.
Lemma forward_watches_r : forall F l binaries d ws kept remove, pinv d -> rinv F d -> (forall k, d_marks d k = true <-> In k nf) -> open_lits d ->
  (binaries = true -> In l nf) -> incl ws (d_occs d l) ->
  ok (forward_watches binaries ws kept remove d) (fun '(sub, remove', ws', d') => fev nobody d d' /\ rinv F d' /\ quiet d d' /\ keeps d d' /\
    others ws' = others (kept ++ ws) /\ (forall q, In (DLarge q) ws' -> In (DLarge q) (kept ++ ws)) /\
    (remove' = remove \/ exists x, remove' = Some x /\ reason_for d' x)).
Proof.
  intros F l binaries d ws kept remove V R Ma Op Hb. revert kept remove.
  induction ws as [|w ws IH]; intros kept remove In0; cbn [forward_watches].
  - cbn [ok]. rewrite app_nil_r. splits; auto using fev_refl, quiet_refl, keeps_refl.
  - assert (Iw : In w (d_occs d l)) by (apply In0; now left).
    assert (In1 : incl ws (d_occs d l)) by (intros x I; apply In0; now right).
    assert (Keep : forall rm, ok (forward_watches binaries ws (kept ++ [w]) rm d) (fun '(sub, remove', ws', d') => fev nobody d d' /\ rinv F d' /\ quiet d d' /\ keeps d d' /\
      others ws' = others (kept ++ w :: ws) /\ (forall q, In (DLarge q) ws' -> In (DLarge q) (kept ++ w :: ws)) /\
      (remove' = rm \/ exists x, remove' = Some x /\ reason_for d' x))).
    { intros rm. eapply ok_mono; [apply IH; auto|]. intros (((sub & rm') & ws') & d') (A & B & C & D & E & G & H).
      rewrite <- app_assoc in E, G. cbn [app] in E, G. splits; auto. }
    assert (Ol : forall q, others (kept ++ DLarge q :: ws) = others (kept ++ ws)) by (intros q; unfold others; now rewrite !flat_map_app).
    destruct w as [other|q].
    + destruct binaries; cbn [negb]; [|apply Keep]. specialize (Hb eq_refl). pose proof (pi_bin _ V _ _ Iw) as Nb.
      destruct (d_marks d other) eqn:Mo. { cbn [ok]. splits; auto using fev_refl, quiet_refl, keeps_refl. }
      destruct (d_marks d (neg other)) eqn:Mn; [|apply Keep].
      cbn [ok]. splits; auto using fev_refl, quiet_refl, keeps_refl. right. exists (neg other). split; auto. apply Ma in Mn. split; auto.
      exists [l; other]. split; [left; eauto|]. intros k [<-|[<-|[]]]; [right; left|left; now rewrite neg_neg].
      apply in_without. split; auto. intros ->. apply Nb, idx_neg.
    + apply ok_bind. eapply ok_mono; [apply get_clause_spec|]. cbv beta. intros c Ar. destruct (pi_large _ V _ _ Iw) as (c' & Ar' & Re & Il).
      assert (c' = c) by congruence. subst c'. destruct (c_garbage c) eqn:Ga.
      { eapply ok_mono; [apply IH; auto|]. intros (((sub & rm') & ws') & d') (A & B & C & D & E & G & H). splits; auto.
        - now rewrite Ol.
        - intros p I. apply G in I. rewrite in_app_iff in *. cbn. tauto. }
      assert (Lc : live c) by (split; auto).
      pose proof (scan_clause_spec d (c_lits c) None) as Sc. destruct (scan_clause (c_lits c) None d) as [| |x|].
      * apply ok_bind. eapply ok_mono; [apply (eliminate_satisfied nobody); auto|].
        -- right. eapply watch_not_free; eauto.
        -- intros c' Ar''. rewrite Ar in Ar''. injection Ar'' as <-. exact Sc.
        -- cbv beta. intros d' (E & Q & Va & c2 & Ar2 & ->). assert (c2 = c) by congruence. subst c2. cbn [ok]. splits; auto.
           ++ now apply ri_garbage.
           ++ constructor; auto. intros p y Ay Ny. rewrite garbage_arena. destruct (Nat.eqb_spec p q) as [->|]; auto. exfalso.
              assert (y = c) by congruence. subst y. destruct Sc as (k & I & T). now apply (Ny k I).
           ++ intros p. rewrite !in_app_iff. cbn. tauto.
      * cbn [ok]. splits; auto using fev_refl, quiet_refl, keeps_refl.
      * destruct Sc as [(Sc & _)|(_ & Mx & Ix & Sc)]; [discriminate|].
        assert (Rx : reason_for d x).
        { split; [now apply Ma|]. exists (c_lits c). split; [right; exists q, c; auto|]. intros k I.
          destruct (Sc k I) as [Mk|[Fk|Ek]]; auto. right. left. apply in_without. split; [now apply Ma|]. intros ->. eapply (pi_taut _ V); eauto. }
        eapply ok_mono; [apply Keep|]. intros (((sub & rm') & ws') & d') (A & B & C & D & E & G & H). splits; auto.
        right. destruct H as [->|H]; auto. exists x. split; auto. now apply (reason_keeps d).
      * apply Keep.
Qed.
Lemma forward_literal_r : forall F o l binaries d remove, pinv d -> rinv F d -> (forall k, d_marks d k = true <-> In k nf) -> open_lits d ->
  (binaries = true -> In l nf) ->
  ok (forward_literal o l binaries remove d) (fun '(sub, remove', d') => fev nobody d d' /\ rinv F d' /\ d_marks d' = d_marks d /\ keeps d d' /\
    (remove' = remove \/ exists x, remove' = Some x /\ reason_for d' x)).
Proof.
  intros F o l binaries d remove V R Ma Op Hb. unfold forward_literal. destruct (_ || _).
  { cbn. splits; auto using fev_refl, keeps_refl. }
  apply ok_bind. eapply ok_mono; [apply (forward_watches_r F l); auto using incl_refl|].
  intros (((sub & rm') & ws') & d') (A & B & (Q1 & Q2 & _) & C & D & E & G). cbn [ok]. cbn [app] in D, E.
  assert (Bi : forall a b, In (DBinary b) (upd (d_occs d') l ws' a) <-> In (DBinary b) (d_occs d' a)).
  { intros a b. rewrite Q1. destruct (Nat.eq_dec a l) as [->|N]; [rewrite upd_same; now apply others_in|now rewrite upd_other]. }
  assert (K : keeps d' (set_d_occs (upd (d_occs d') l ws') d')) by (constructor; auto; intros a b I; now apply Bi).
  splits; auto.
  - eapply fev_trans; [exact A|]. apply fev_calm_occs; [apply (fe_inv _ _ _ A)|rewrite Q1; now apply others_in|now rewrite Q1].
  - apply ri_occs; auto. apply bins_eq_upd. now rewrite Q1.
  - eapply keeps_trans; eauto.
  - destruct G as [G|(x & Ex & G)]; auto. right. exists x. split; auto. apply (reason_keeps d'); auto; [apply (fe_inv _ _ _ A)|].
    intros k I. rewrite (ke_val _ _ C). auto.
Qed.
Lemma forward_marked_r : forall F o lits d remove, pinv d -> rinv F d -> (forall k, d_marks d k = true <-> In k nf) -> open_lits d ->
  (forall k, In k lits -> dval d k = None -> In k nf) -> (forall x, remove = Some x -> reason_for d x) ->
  ok (forward_marked o lits remove d) (fun '(sub, remove', d') => fev nobody d d' /\ rinv F d' /\ keeps d d' /\ (forall x, remove' = Some x -> reason_for d' x)).
Proof.
  intros F o. induction lits as [|l lits IH]; intros d remove V R Ma Op Hn Hr; cbn [forward_marked].
  - cbn. splits; auto using fev_refl, keeps_refl.
  - destruct (negb (is_active (idx l) d)). { apply IH; auto. intros k I. apply Hn. now right. }
    apply ok_bind, ok_assert. intros Nv. destruct (dval d l) eqn:Dl; [discriminate|]. clear Nv.
    assert (Il : In l nf) by (apply Hn; [now left|auto]).
    apply ok_bind. eapply ok_mono; [apply (forward_literal_r F); auto|].
    intros ((sub & rm1) & d1) (E1 & R1 & M1 & K1 & G1).
    assert (Hr1 : forall x, rm1 = Some x -> reason_for d1 x).
    { intros x E. destruct G1 as [->|(y & Ey & Ry)]; [apply (reason_keeps d); auto|congruence]. }
    destruct sub. { cbn [ok]. splits; auto. }
    assert (Ma1 : forall k, d_marks d1 k = true <-> In k nf) by (intros k; now rewrite M1).
    assert (Op1 : open_lits d1) by (intros k I; rewrite (ke_val _ _ K1); auto).
    apply ok_bind. eapply ok_mono; [apply (forward_literal_r F); [apply (fe_inv _ _ _ E1)|auto|auto|auto|discriminate]|].
    intros ((sub & rm2) & d2) (E2 & R2 & M2 & K2 & G2).
    assert (Hr2 : forall x, rm2 = Some x -> reason_for d2 x).
    { intros x E. destruct G2 as [->|(y & Ey & Ry)]; [apply (reason_keeps d1); auto; apply (fe_inv _ _ _ E1)|congruence]. }
    assert (E12 : fev nobody d d2) by (eapply fev_trans; eauto). assert (K12 : keeps d d2) by (eapply keeps_trans; eauto).
    destruct sub. { cbn [ok]. splits; auto. }
    eapply ok_mono; [apply IH; [apply (fe_inv _ _ _ E12)|auto| | | |exact Hr2]|].
    + intros k. now rewrite M2.
    + intros k I. rewrite (ke_val _ _ K12). auto.
    + intros k I N. apply Hn; [now right|]. now rewrite (ke_val _ _ K12) in N.
    + intros ((sub & rm3) & d3) (E3 & R3 & K3 & G3). splits; auto; [eapply fev_trans; eauto|eapply keeps_trans; eauto].
Qed.
End Check.

(** ** Strengthening *)
Lemma ri_shorten : forall F r c rest d, pinv d -> rinv F d -> arena (d_sol d) r = Some c -> live c -> incl rest (c_lits c) -> rup neg (udb d) rest ->
  rinv F (shorten r c rest d).
Proof.
  intros F r c rest d V [P T L B A] Ar Lc In0 H. pose proof (ref_bound _ _ _ V Ar) as Lr. constructor; auto.
  - cbn [shorten d_sol set_d_sol steps set_clause set_arena del_step add_step]. eapply pr_del; [apply (pr_add _ _ _ _ P H)|]. intros x. rewrite !cnt_cons.
    match goal with |- _ + cnt x (udb ?e) <= _ => replace (cnt x (udb e)) with (cnt x (map (fun l => [l]) (trail (d_sol d))) + cnt x (pairs (vars (d_sol d)) (d_occs d)) +
      cnt x (Inv.irredundants (next_ref (d_sol d)) (upd (arena (d_sol d)) r (Some (mk_clause rest (c_redundant c) (c_garbage c) 2))))) by (rewrite cnt_udb; reflexivity) end.
    rewrite cnt_udb. pose proof (irredundants_upd (next_ref (d_sol d)) (arena (d_sol d)) x r (Some (mk_clause rest (c_redundant c) (c_garbage c) 2)) Lr) as K.
    rewrite Ar, (irredundant_live c Lc) in K. rewrite irredundant_live in K by (destruct Lc; split; auto). cbn [c_lits] in K. rewrite !cnt_cons, !cnt_nil in K. lia.
  - intros q x l. cbn [shorten d_sol set_d_sol set_clause arena]. change (upd (arena (d_sol d)) r (Some (mk_clause rest (c_redundant c) (c_garbage c) 2)) q = Some x -> In l (c_lits x) -> l < 2 * vars (d_sol d)).
    rewrite upd_if. destruct (Nat.eqb_spec q r) as [->|N]; [|apply A]. intros E I. injection E as <-. apply (A r c l Ar). now apply In0.
Qed.
Lemma pair_cnt : forall x a b, a <> b -> cnt x (pair_of a (DBinary b)) + cnt x (pair_of b (DBinary a)) = b2n (set_eqb x [a; b]).
Proof.
  intros x a b N. cbn [FactorFacts.pair_of]. destruct (lt_eq_lt_dec a b) as [[L|E]|L]; [|congruence|].
  - rewrite (proj2 (Nat.ltb_lt a b) L), (proj2 (Nat.ltb_ge b a)) by lia. rewrite cnt_cons, !cnt_nil. lia.
  - rewrite (proj2 (Nat.ltb_lt b a) L), (proj2 (Nat.ltb_ge a b)) by lia. rewrite cnt_cons, !cnt_nil, (set_eqb_same_r x [b; a] [a; b]); [lia|]. intros k. cbn. tauto.
Qed.
Lemma ri_binarize : forall F r c a b d, pinv d -> rinv F d -> arena (d_sol d) r = Some c -> live c -> In a (c_lits c) -> In b (c_lits c) -> a <> b ->
  rup neg (udb d) [a; b] -> rinv F (binarize r c a b d).
Proof.
  intros F r c a b d V [P T L B A] Ar Lc Ia Ib Nab H. pose proof (ref_bound _ _ _ V Ar) as Lr.
  pose proof (A r c a Ar Ia) as La. pose proof (A r c b Ar Ib) as Lb. constructor; auto.
  - change (steps (d_sol (binarize r c a b d))) with (Deleted (c_lits c) :: Added [a; b] :: steps (d_sol d)). eapply pr_del; [apply (pr_add _ _ _ _ P H)|]. intros x. rewrite !cnt_cons.
    set (o1 := upd (d_occs d) a (d_occs d a ++ [DBinary b])). set (o2 := upd o1 b (o1 b ++ [DBinary a])).
    replace (cnt x (udb (binarize r c a b d))) with (cnt x (map (fun l => [l]) (trail (d_sol d))) + cnt x (pairs (vars (d_sol d)) o2) +
      cnt x (Inv.irredundants (next_ref (d_sol d)) (upd (arena (d_sol d)) r (Some (mk_clause (c_lits c) (c_redundant c) true (c_searched c)))))) by (rewrite cnt_udb; reflexivity).
    rewrite cnt_udb.
    pose proof (irredundants_upd (next_ref (d_sol d)) (arena (d_sol d)) x r (Some (mk_clause (c_lits c) (c_redundant c) true (c_searched c))) Lr) as K.
    rewrite Ar, (irredundant_live c Lc) in K. cbn [Inv.irredundant_of c_garbage orb] in K. rewrite cnt_cons, !cnt_nil in K.
    assert (K1 : cnt x (pairs (vars (d_sol d)) o1) = cnt x (pairs (vars (d_sol d)) (d_occs d)) + cnt x (pair_of a (DBinary b))).
    { pose proof (pairs_upd (vars (d_sol d)) (d_occs d) o1 a x) as K1. unfold o1 in K1 at 3. rewrite upd_same, flat_map_app, cnt_app in K1.
      change (flat_map (pair_of a) [DBinary b]) with (pair_of a (DBinary b) ++ []) in K1. rewrite app_nil_r in K1. 
      assert (N1 : forall k, k <> a -> o1 k = d_occs d k) by (intros k N; unfold o1; now rewrite upd_other). specialize (K1 N1 La). lia. }
    assert (K2 : cnt x (pairs (vars (d_sol d)) o2) = cnt x (pairs (vars (d_sol d)) o1) + cnt x (pair_of b (DBinary a))).
    { pose proof (pairs_upd (vars (d_sol d)) o1 o2 b x) as K2. unfold o2 in K2 at 3. rewrite upd_same, flat_map_app, cnt_app in K2.
      change (flat_map (pair_of b) [DBinary a]) with (pair_of b (DBinary a) ++ []) in K2. rewrite app_nil_r in K2. 
      assert (N2 : forall k, k <> b -> o2 k = o1 k) by (intros k N; unfold o2; now rewrite upd_other). specialize (K2 N2 Lb). lia. }
    pose proof (pair_cnt x a b Nab) as K3. lia.
  - intros x y I. change (vars (d_sol (binarize r c a b d))) with (vars (d_sol d)). apply binarize_occs in I as [I|[(-> & _)|(-> & _)]]; auto. eauto.
  - intros q x l. change (upd (arena (d_sol d)) r (Some (mk_clause (c_lits c) (c_redundant c) true (c_searched c))) q = Some x -> In l (c_lits x) -> l < 2 * vars (d_sol d)).
    rewrite upd_if. destruct (Nat.eqb_spec q r) as [->|N]; [|apply A]. intros E I. injection E as <-. apply (A r c l Ar I).
Qed.

(** ** One clause *)
Lemma forward_unit_r : forall F unit r c d, pinv d -> rinv F d -> arena (d_sol d) r = Some c -> live c -> In unit (c_lits c) -> rup neg (udb d) [unit] ->
  ok (forward_unit unit r d) (rinv F).
Proof.
  intros F unit r c d V R Ar Lc Iu H. unfold forward_unit. apply ok_bind. eapply ok_mono; [apply (learned_r F nobody); auto|].
  cbv beta. intros d1 (E1 & R1 & _ & T1 & A1). apply ok_bind.
  eapply ok_mono; [apply (eliminate_satisfied (eq r)); [apply (fe_inv _ _ _ E1)|now left|]|].
  - intros c' Ar'. rewrite A1, Ar in Ar'. injection Ar' as <-. exists unit. auto.
  - cbv beta. intros d2 (E2 & _ & _ & c2 & Ar2 & ->). assert (c2 = c) by congruence. subst c2.
    eapply ok_mono; [apply (flush_units_r F); [apply (fe_inv _ _ _ E2)|apply ri_garbage; auto; apply (fe_inv _ _ _ E1)]|]. cbv beta. tauto.
Qed.
Lemma forward_clause_r : forall F o r d, pinv d -> clean d -> free d r -> ready d r -> rinv F d ->
  ok (forward_clause o r d) (fun '(_, d') => rinv F d').
Proof.
  intros F o r d V C Fr (c & Ar & Lc) R. unfold forward_clause. apply ok_bind. eapply ok_mono; [apply get_clause_spec|].
  cbv beta. intros c' Ar'. assert (c' = c) by congruence. subst c'. clear Ar'.
  apply ok_bind, ok_assert. intros _. cbv zeta.
  assert (El : forall d', pinv d' -> rinv F d' -> arena (d_sol d') r = Some c -> ok (eliminate_clause r d') (rinv F)).
  { intros d' V' R' Ar'. eapply ok_mono; [apply eliminate_clause_form|]. cbv beta. intros d2 (c2 & Ar2 & _ & ->). assert (c2 = c) by congruence. subst c2. now apply ri_garbage. }
  destruct (existsb (dtrue d) (c_lits c)) eqn:St.
  { apply ok_bind. eapply ok_mono; [apply El; auto|]. cbv beta. intros d1 R1. now apply ri_set_marks. }
  set (nf := filter (fun k => negb (dfalse d k)) (c_lits c)).
  assert (Inf : forall k, In k nf <-> In k (c_lits c) /\ dval d k <> Some false).
  { intros k. unfold nf. rewrite filter_In, negb_true_iff, <- dfalse_spec. now destruct (dfalse d k). }
  assert (Nt : forall k, In k (c_lits c) -> dval d k <> Some true).
  { intros k I T. apply dtrue_spec in T. enough (existsb (dtrue d) (c_lits c) = true) by congruence. apply existsb_exists. eauto. }
  assert (Op : open_lits nf d).
  { intros k I. apply Inf in I as (I & N). pose proof (Nt k I) as N'. destruct (dval d k) as [[|]|]; congruence. }
  assert (Nn : NoDup nf) by (apply NoDup_filter, (pi_nodup _ V r c); auto).
  set (d0 := set_marks false (c_lits c) d).
  assert (Ec : fev nobody d d0) by (now apply set_marks_fev). assert (Rc : rinv F d0) by (now apply ri_set_marks).
  assert (Ac : arena (d_sol d0) r = Some c) by (unfold d0; now rewrite set_marks_sol).
  assert (Vc : forall k, dval d0 k = dval d k) by (intros k; unfold d0, dval; now rewrite set_marks_sol).
  pose proof (fe_inv _ _ _ Ec) as V0. pose proof (there_large d0 r c V0 Ac Lc) as Th0.
  assert (In1 : forall k, In k (c_lits c) -> In k nf \/ dval d0 k = Some false).
  { intros k I. rewrite Vc. destruct (dval d k) as [[|]|] eqn:E; auto; left; apply Inf; split; auto; congruence. }
  destruct nf as [|u [|u2 nf']] eqn:Nf.
  - apply ok_bind. eapply ok_mono; [apply (inconsistent_r F (eq r)); auto; apply (rup_one F d0 (c_lits c)); auto|]. cbv beta. intros d1 (_ & R1 & _). exact R1.
  - apply ok_bind. eapply ok_mono; [apply (forward_unit_r F u r c); auto; [apply Inf; now left|apply (rup_one F d0 (c_lits c)); auto]|]. intros d1 R1. exact R1.
  - rewrite <- Nf in *. clear Nf u u2 nf' Ec Rc Ac Vc V0 Th0 In1 d0.
    assert (Em : fev nobody d (set_marks true nf d)) by (now apply set_marks_fev).
    assert (Ma : forall k, d_marks (set_marks true nf d) k = true <-> In k nf).
    { intros k. rewrite set_marks_get, <- existsb_in. rewrite C. now destruct (existsb (Nat.eqb k) nf). }
    assert (Vm : forall k, dval (set_marks true nf d) k = dval d k) by (intros k; unfold dval; now rewrite set_marks_sol).
    apply ok_bind. eapply ok_mono; [apply (forward_marked_r nf F); [apply (fe_inv _ _ _ Em)|now apply ri_set_marks|exact Ma| | |discriminate]|].
    + intros k I. rewrite Vm. now apply Op.
    + intros k I N. apply Inf. split; auto. rewrite Vm in N. congruence.
    + intros ((sub & remove) & d1) (E1 & R1 & K1 & G1).
      assert (E2 : fev nobody d1 (set_marks false (c_lits c) d1)) by (apply set_marks_fev, (fe_inv _ _ _ E1)).
      set (d2 := set_marks false (c_lits c) d1) in *. assert (R2 : rinv F d2) by (now apply ri_set_marks).
      assert (E : fev nobody d d2) by (eapply fev_trans; [exact Em|]; eapply fev_trans; eauto).
      destruct (fe_free _ _ _ E r (fun F => F) Fr) as (Ar2 & F2). rewrite Ar in Ar2. pose proof (fe_inv _ _ _ E) as V2.
      assert (Va : forall k, dval d2 k = dval d k).
      { intros k. unfold d2, dval. rewrite set_marks_sol. fold (dval d1 k). rewrite (ke_val _ _ K1). apply Vm. }
      assert (Vf : forall k, dfalse d2 k = dfalse d k).
      { intros k. apply eq_true_iff_eq. now rewrite !dfalse_spec, Va. }
      destruct sub.
      * apply ok_bind. eapply ok_mono; [apply El; auto|]. intros d3 R3. exact R3.
      * destruct remove as [x|]; [|exact R2].
        assert (G2 : reason_for nf d2 x).
        { apply (reason_keeps nf d1); [apply (fe_inv _ _ _ E1)| | |now apply G1].
          - intros k I. rewrite (ke_val _ _ K1), Vm. now apply Op.
          - constructor; unfold d2; intros *; rewrite ?set_marks_occs; unfold dval; rewrite ?set_marks_sol; auto. }
        destruct G2 as (Ix & e & Se & He).
        assert (Rx : rup neg (udb d2) (without x nf)).
        { apply (rup_two F d2 (c_lits c) e x); auto.
          - apply (there_large d2 r c); auto.
          - now apply (source_there F).
          - intros k I. rewrite Va. destruct (Nat.eq_dec k x) as [->|N]; auto. right. destruct (dval d k) as [[|]|] eqn:Ek; auto; left; apply in_without; split; auto; apply Inf; split; auto; congruence. }
        destruct (Nat.eqb_spec (length nf) 2) as [L2|L2].
        -- assert (Ex : exists a b, nf = [a; b]) by (destruct nf as [|a [|b [|]]]; cbn in L2; try lia; eauto). destruct Ex as (a & b & Enf). rewrite Enf in *.
           rewrite (lxor_other a b x) by (destruct Ix as [<-|[<-|[]]]; auto).
           assert (Un : without x [a; b] = [if x =? a then b else a]).
           { inversion Nn as [|y ys N1 N2]; subst. unfold without. cbn [filter]. destruct Ix as [<-|[<-|[]]].
             - rewrite Nat.eqb_refl. cbn. destruct (Nat.eqb_spec b a) as [->|]; auto. exfalso. apply N1. now left.
             - rewrite Nat.eqb_refl. cbn. destruct (Nat.eqb_spec a b) as [->|]; cbn; [exfalso; apply N1; now left|]. destruct (Nat.eqb_spec b a); congruence. }
           apply ok_bind. eapply ok_mono; [apply (forward_unit_r F (if x =? a then b else a) r c); auto|].
           ++ apply (Inf (if x =? a then b else a)). destruct (x =? a); [right; now left|now left].
           ++ now rewrite <- Un.
           ++ intros d3 R3. exact R3.
        -- unfold forward_strengthen. cbv zeta.
           assert (Er : filter (fun k => negb (k =? x) && negb (dfalse d2 k)) (c_lits c) = without x nf).
           { unfold without, nf. clear -Vf. generalize (c_lits c). clearbody d2. intros ls0. induction ls0 as [|k ls IH]; auto. cbn [filter]. rewrite Vf. destruct (dfalse d k); cbn [negb andb filter].
             - rewrite andb_false_r. exact IH.
             - rewrite andb_true_r. destruct (negb (k =? x)); now rewrite IH. }
           rewrite Er. set (rest := without x nf) in *.
           assert (Nr : NoDup rest) by (now apply NoDup_filter).
           assert (Ir : incl rest (c_lits c)). { intros k I. apply in_without in I as (I & _). now apply Inf. }
           apply ok_bind, ok_assert. intros _. destruct (3 <? length nf).
           ++ apply ok_bind, ok_assert. intros _. cbn [ok]. exact (ri_shorten F r c rest d2 V2 R2 Ar2 Lc Ir Rx).
           ++ apply ok_bind, ok_assert. intros _. destruct rest as [|a [|b [|]]] eqn:Re; try exact I. cbn [ok].
              apply (ri_binarize F r c a b d2 V2 R2 Ar2 Lc); auto.
              ** apply Ir. now left.
              ** apply Ir. right. now left.
              ** inversion Nr as [|y ys N1 N2]; subst. intros ->. apply N1. now left.
Qed.

(** ** All clauses *)
Lemma connect_subsuming_r : forall F o sub r d, rinv F d -> ok (connect_subsuming o sub r d) (rinv F).
Proof.
  intros F o sub r d R. unfold connect_subsuming. apply ok_bind. eapply ok_mono; [apply get_clause_spec|]. cbv beta. intros c Ar.
  apply ok_bind, ok_assert. intros _. destruct (negb _); [exact R|]. destruct (filter _ _) as [|l act]; [exact R|]. cbv zeta.
  destruct (_ <? _); [exact R|]. cbn [ok]. apply ri_occs; auto. apply bins_eq_upd. unfold others. now rewrite flat_map_app, app_nil_r.
Qed.
Lemma forward_loop_r : forall F o sub budget cs shrunk news d, pinv d -> clean d -> NoDup cs -> (forall r, In r cs -> free d r /\ ready d r) -> rinv F d ->
  ok (forward_loop o sub budget cs shrunk news d) (fun '(_, _, _, d') => rinv F d').
Proof.
  intros F o sub. induction budget as [|budget IH]; intros [|r cs] shrunk news d V C N H R; cbn [forward_loop]; try exact R.
  inversion N as [|x y Nr Nd]; subst. destruct (H r (or_introl eq_refl)) as (Fr & Rr). pose proof Rr as (c & Ar & Lc).
  apply ok_bind. eapply ok_mono; [apply ok_and; [apply forward_clause_spec; auto|apply (forward_clause_r F); auto]|]. intros (k & d1) ((E1 & C1 & F1) & R1). cbv zeta.
  destruct (inconsistent (d_sol d1)); [exact R1|].
  apply ok_bind. eapply ok_mono; [apply get_clause_spec|]. cbv beta. intros c1 Ar1. apply ok_bind.
  assert (Co : ok (if c_garbage c1 then Ret d1 else connect_subsuming o sub r d1) (fun d' => (fev (eq r) d1 d' /\ clean d') /\ rinv F d')).
  { destruct (c_garbage c1); [cbn; splits; auto; apply fev_refl, (fe_inv _ _ _ E1)|]. apply ok_and; [apply connect_subsuming_spec; [apply (fe_inv _ _ _ E1)|auto|]|now apply connect_subsuming_r].
    intros c2 Ar2. destruct (fe_arena _ _ _ E1 _ _ Ar2) as (c3 & Ar3 & Re & _). destruct Lc. congruence. }
  eapply ok_mono; [exact Co|]. cbv beta. intros d2 ((E2 & C2) & R2). assert (E : fev (eq r) d d2) by (eapply fev_trans; eauto).
  apply IH; auto; [apply (fe_inv _ _ _ E)|].
  intros q I. assert (Nq : r <> q) by congruence. destruct (H q (or_intror I)) as (Fq & cq & Aq & Lq).
  destruct (fe_free _ _ _ E q Nq Fq) as (A2 & F2). split; auto. exists cq. split; auto. congruence.
Qed.
Lemma forward_all_r : forall F o budget sub d, pinv d -> clean d -> (forall r, free d r) -> rinv F d ->
  ok (forward_all o budget sub d) (fun '(_, _, d') => rinv F d').
Proof.
  intros F o budget sub d V C Fr R. unfold forward_all. apply ok_bind.
  eapply ok_mono; [apply ok_and; [apply find_candidates_spec; auto using seq_NoDup|apply (find_candidates_r F); auto]|].
  intros (cs & d1) ((E1 & C1 & O1 & _ & Nc & _ & Rd) & R1). apply ok_bind. eapply ok_mono; [apply sort_candidates_spec|]. cbv beta. intros cs' P.
  apply ok_bind. eapply ok_mono; [apply (forward_loop_r F); [apply (fe_inv _ _ _ E1)|auto|now apply (Permutation_NoDup P)| |auto]|].
  - intros r I. split; [intros l; rewrite O1; apply Fr|]. apply Rd. now apply (Permutation_in _ (Permutation_sym P)).
  - intros (((a & b) & e) & d2) R2. exact R2.
Qed.
Lemma forward_subsume_r : forall F o budget sub d, pinv d -> clean d -> (forall r, free d r) -> rinv F d ->
  ok (kissat_forward_subsume o budget sub d) (fun '(_, _, d') => rinv F d').
Proof.
  intros F o budget sub d V C Fr R. unfold kissat_forward_subsume. apply ok_bind.
  eapply ok_mono; [apply ok_and; [apply remove_all_duplicated_spec; auto|apply (remove_all_duplicated_r F); auto]|].
  cbv beta. intros d1 ((E1 & C1) & R1). destruct (inconsistent (d_sol d1)); [exact R1|].
  apply (forward_all_r F); auto; [apply (fe_inv _ _ _ E1)|]. intros r. apply (fe_free _ _ _ E1 r (fun F => F) (Fr r)).
Qed.
