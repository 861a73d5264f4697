(** Forward subsumption keeps the set of models: the loop over all clauses. *)
From Coq Require Import ZArith List Bool Lia Arith Permutation.
From Coq Require Import ZifyBool ZifyNat.
From Verif Require Import Base SpecSat Lit Solver Api Extend Eliminate DenseFacts DenseOps Forward ForwardFacts ForwardRun.
Import ListNotations.
Open Scope nat_scope.
Open Scope outcome_scope.

(** ** Strengthening *)
Definition shorten (r : nat) (c : clause) (rest : list lit) (d : dense) : dense :=
  set_d_sol (set_clause r (Some (mk_clause rest (c_redundant c) (c_garbage c) 2)) (del_step (c_lits c) (add_step rest (d_sol d)))) d.
Lemma upd_if : forall A (f : nat -> A) i x j, upd f i x j = if j =? i then x else f j.
Proof. intros. destruct (Nat.eqb_spec j i) as [->|N]; [apply upd_same|now apply upd_other]. Qed.
Lemma fev_shorten : forall r c rest d, pinv d -> free d r -> arena (d_sol d) r = Some c -> live c -> incl rest (c_lits c) -> NoDup rest ->
  (forall v, models d v -> sat_clause v rest) -> fev (eq r) d (shorten r c rest d).
Proof.
  intros r c rest d V Fr Ar Lc In0 Nd H.
  assert (A' : forall q, arena (d_sol (shorten r c rest d)) q = if q =? r then Some (mk_clause rest (c_redundant c) (c_garbage c) 2) else arena (d_sol d) q).
  { intros q. cbn. apply upd_if. }
  assert (K : forall q x, arena (d_sol (shorten r c rest d)) q = Some x -> exists y, arena (d_sol d) q = Some y /\ c_redundant x = c_redundant y /\
    incl (c_lits x) (c_lits y) /\ c_garbage x = c_garbage y /\ (NoDup (c_lits y) -> NoDup (c_lits x))).
  { intros q x. rewrite A'. destruct (Nat.eqb_spec q r) as [->|N]; intros E; [injection E as <-; exists c; cbn; splits; auto|].
    exists x. splits; auto. apply incl_refl. }
  assert (Lv : forall x y, c_redundant x = c_redundant y -> c_garbage x = c_garbage y -> live x -> live y) by (intros x y R G (L1 & L2); split; congruence).
  constructor; try reflexivity.
  - destruct V as [I1 I2 I3 I4 I5 I6 I7 I8 I9 I10]. constructor; auto.
    + intros l q I. destruct (I3 l q I) as (x & Hx & R & L). rewrite A'. destruct (Nat.eqb_spec q r) as [->|N]; [now apply Fr in I|eauto].
    + intros q x l A L J1 J2. destruct (K q x A) as (y & Ay & R & In1 & G & _). eapply (I4 q y l); eauto.
    + intros q x A L. destruct (K q x A) as (y & Ay & R & In1 & G & N). eauto.
    + intros q L. rewrite A'. destruct (Nat.eqb_spec q r) as [->|N]; [|now apply I8]. cbn in L. rewrite I8 in Ar by auto. discriminate.
    + intros q x l A L J. destruct (K q x A) as (y & Ay & R & In1 & G & _). cbn. eapply (I10 q y l); eauto.
  - intros v. split.
    + intros M. pose proof (H v M) as Sr. destruct M as (M1 & M2 & M3 & M4). unfold models. splits; auto. intros q x. rewrite A'.
      destruct (Nat.eqb_spec q r) as [->|N]; [|apply M4]. intros E _. injection E as <-. exact Sr.
    + intros (M1 & M2 & M3 & M4). unfold models. splits; auto. intros q x A L. destruct (Nat.eq_dec q r) as [->|N].
      * rewrite Ar in A. injection A as <-. destruct (M4 r (mk_clause rest (c_redundant c) (c_garbage c) 2)) as (k & I & T); [rewrite A', Nat.eqb_refl; auto|exact L|].
        exists k. split; auto.
      * apply (M4 q x); auto. rewrite A'. now destruct (Nat.eqb_spec q r).
  - intros l b F. exact F.
  - intros q N F. split; auto. rewrite A'. destruct (Nat.eqb_spec q r) as [->|]; tauto.
  - intros q x A. destruct (K q x A) as (y & Ay & R & In1 & G & _). exists y. splits; auto. congruence.
  - intros a b I. now left.
  - exists [Deleted (c_lits c); Added rest]. split; [reflexivity|]. intros k v [E|[E|[]]] M; [discriminate|]. injection E as <-. auto.
Qed.

Definition binarize (r : nat) (c : clause) (a b : lit) (d : dense) : dense :=
  push_occ b (DBinary a) (push_occ a (DBinary b)
    (set_d_sol (set_clause r (Some (mk_clause (c_lits c) (c_redundant c) true (c_searched c))) (del_step (c_lits c) (add_step [a; b] (d_sol d)))) d)).
Lemma binarize_occs : forall r c a b d k w, a <> b -> In w (d_occs (binarize r c a b d) k) <->
  In w (d_occs d k) \/ (k = a /\ w = DBinary b) \/ (k = b /\ w = DBinary a).
Proof.
  intros r c a b d k w N. unfold binarize, push_occ. cbn. rewrite !upd_if. destruct (Nat.eqb_spec k b) as [->|Nb].
  - destruct (Nat.eqb_spec b a) as [->|]; [congruence|]. rewrite in_app_iff. cbn. intuition congruence.
  - destruct (Nat.eqb_spec k a) as [->|Na]; rewrite ?in_app_iff; cbn; intuition congruence.
Qed.
Lemma fev_binarize : forall r c a b d, pinv d -> free d r -> arena (d_sol d) r = Some c -> live c -> In a (c_lits c) -> In b (c_lits c) -> a <> b ->
  (forall v, models d v -> sat_clause v [a; b]) -> fev (eq r) d (binarize r c a b d) /\ free (binarize r c a b d) r.
Proof.
  intros r c a b d V Fr Ar Lc Ia Ib Nab H.
  assert (A' : forall q, arena (d_sol (binarize r c a b d)) q = if q =? r then Some (mk_clause (c_lits c) (c_redundant c) true (c_searched c)) else arena (d_sol d) q).
  { intros q. cbn. apply upd_if. }
  assert (O' : forall k w, In w (d_occs (binarize r c a b d) k) <-> In w (d_occs d k) \/ (k = a /\ w = DBinary b) \/ (k = b /\ w = DBinary a)) by (intros; now apply binarize_occs).
  assert (Bl : forall k q, In (DLarge q) (d_occs (binarize r c a b d) k) -> In (DLarge q) (d_occs d k)).
  { intros k q I. apply O' in I. intuition congruence. }
  assert (Bb : forall x y, In (DBinary y) (d_occs (binarize r c a b d) x) <-> In (DBinary y) (d_occs d x) \/ (x = a /\ y = b) \/ (x = b /\ y = a)).
  { intros x y. rewrite O'. intuition congruence. }
  assert (Nix : idx a <> idx b).
  { intros e. apply idx_eq in e as [e|e]; [auto|]. subst a. eapply (pi_taut _ V r c b); eauto. }
  assert (K : forall q x, arena (d_sol (binarize r c a b d)) q = Some x -> live x -> q <> r /\ arena (d_sol d) q = Some x).
  { intros q x. rewrite A'. destruct (Nat.eqb_spec q r) as [->|N]; auto. intros E [_ L]. injection E as <-. discriminate. }
  split; [|intros l I; apply Bl in I; now apply Fr in I].
  constructor; try reflexivity.
  - pose proof (pi_kept _ V r c a Ar Lc Ia) as Ga. pose proof (pi_kept _ V r c b Ar Lc Ib) as Gb.
    destruct V as [I1 I2 I3 I4 I5 I6 I7 I8 I9 I10]. constructor; auto.
    + intros l q I. apply Bl in I. destruct (I3 l q I) as (x & Hx & R & L). rewrite A'. destruct (Nat.eqb_spec q r) as [->|N]; [now apply Fr in I|eauto].
    + intros q x l A L. destruct (K q x A L). eapply I4; eauto.
    + intros q x A L. destruct (K q x A L). eapply I5; eauto.
    + intros x y I. apply Bb in I as [I|[(-> & ->)|(-> & ->)]]; auto.
    + intros x y I. apply Bb. apply Bb in I as [I|[(-> & ->)|(-> & ->)]]; auto.
    + intros q L. rewrite A'. destruct (Nat.eqb_spec q r) as [->|N]; [|now apply I8]. cbn in L. rewrite I8 in Ar by auto. discriminate.
    + intros l G. change (d_gone (binarize r c a b d)) with (d_gone d) in G. destruct (d_occs (binarize r c a b d) l) as [|w ws] eqn:E; auto. exfalso.
      assert (I : In w (d_occs (binarize r c a b d) l)) by (rewrite E; now left).
      apply O' in I as [I|[(-> & _)|(-> & _)]]; [rewrite (I9 l G) in I; exact I|congruence|congruence].
    + intros q x l A L. destruct (K q x A L). cbn. eapply I10; eauto.
  - intros v. split.
    + intros M. destruct (H v M) as (k & Ik & Tk). destruct M as (M1 & M2 & M3 & M4). unfold models. splits; auto.
      * intros x y I. apply Bb in I as [I|[(-> & ->)|(-> & ->)]]; auto; destruct Ik as [<-|[<-|[]]]; auto.
      * intros q x A L. destruct (K q x A L). eapply M4; eauto.
    + intros (M1 & M2 & M3 & M4). unfold models. splits; auto.
      * intros x y I. apply M3, Bb. auto.
      * intros q x A L. destruct (Nat.eq_dec q r) as [->|N].
        -- rewrite Ar in A. injection A as <-. destruct (M3 a b) as [T|T]; [apply Bb; auto|exists a|exists b]; auto.
        -- apply (M4 q x); auto. rewrite A'. now destruct (Nat.eqb_spec q r).
  - intros l x F. exact F.
  - intros q N F. split; [rewrite A'; destruct (Nat.eqb_spec q r) as [->|]; tauto|]. intros l I. apply Bl in I. now apply F in I.
  - intros q x A. rewrite A' in A. destruct (Nat.eqb_spec q r) as [->|N]; [injection A as <-; exists c; cbn; splits; auto; apply incl_refl|].
    exists x. splits; auto. apply incl_refl.
  - intros x y I. apply Bb in I as [I|[(-> & ->)|(-> & ->)]]; auto; right; exists r, c; auto.
  - exists [Deleted (c_lits c); Added [a; b]]. split; [reflexivity|]. intros k v [E|[E|[]]] M; [discriminate|]. injection E as <-. auto.
Qed.

(** ** One clause *)
Lemma forward_unit_spec : forall unit r c d, pinv d -> free d r -> arena (d_sol d) r = Some c -> In unit (c_lits c) ->
  (forall v, models d v -> tr v unit = true) ->
  ok (forward_unit unit r d) (fun d' => fev (eq r) d d' /\ d_marks d' = d_marks d /\ free d' r).
Proof.
  intros unit r c d V Fr Ar Iu H. unfold forward_unit. apply ok_bind. eapply ok_mono; [apply (learned_fev nobody); auto|].
  cbv beta. intros d1 (E1 & (O1 & M1 & _) & T1 & A1). apply ok_bind.
  eapply ok_mono; [apply (eliminate_satisfied (eq r)); [apply (fe_inv _ _ _ E1)|now left|]|].
  - intros c' Ar'. rewrite A1, Ar in Ar'. injection Ar' as <-. exists unit. auto.
  - cbv beta. intros d2 (E2 & (O2 & M2 & _) & _). assert (F2 : free d2 r) by (unfold free; rewrite O2, O1; exact Fr).
    eapply ok_mono; [apply flush_units_fev, (fe_inv _ _ _ E2)|]. cbv beta. intros d3 (E3 & (M3 & _)). splits.
    + eapply fev_trans; [apply fev_any, E1|]. eapply fev_trans; [exact E2|apply fev_any, E3].
    + congruence.
    + apply (fe_free _ _ _ E3 r (fun F => F) F2).
Qed.
Lemma lxor_other : forall a b x, x = a \/ x = b -> Nat.lxor (fold_left Nat.lxor [a; b] 0) x = if x =? a then b else a.
Proof.
  intros a b x H. cbn [fold_left]. rewrite Nat.lxor_0_l. destruct (Nat.eqb_spec x a) as [->|N].
  - rewrite Nat.lxor_comm, <- Nat.lxor_assoc, Nat.lxor_nilpotent. apply Nat.lxor_0_l.
  - destruct H as [->| ->]; [congruence|]. rewrite Nat.lxor_assoc, Nat.lxor_nilpotent. apply Nat.lxor_0_r.
Qed.
Lemma forward_clause_spec : forall o r d, pinv d -> clean d -> free d r -> ready d r ->
  ok (forward_clause o r d) (fun '(_, d') => fev (eq r) d d' /\ clean d' /\ free d' r).
Proof.
  intros o r d V C Fr (c & Ar & Lc). unfold forward_clause. apply ok_bind. eapply ok_mono; [apply get_clause_spec|].
  cbv beta. intros c' Ar'. assert (c' = c) by congruence. subst c'. clear Ar'.
  apply ok_bind, ok_assert. intros _. cbv zeta.
  assert (Cl : forall d', clean d' -> forall ls, clean (set_marks false ls d')).
  { intros d' C' ls k. rewrite set_marks_get. destruct (existsb _ _); auto. }
  assert (Fm : forall d' b ls, free d' r -> free (set_marks b ls d') r) by (intros d' b ls F'; unfold free; now rewrite set_marks_occs).
  destruct (existsb (dtrue d) (c_lits c)) eqn:St.
  { apply ok_bind. eapply ok_mono; [apply (eliminate_satisfied (eq r)); auto|].
    - intros c' Ar'. rewrite Ar in Ar'. injection Ar' as <-. apply existsb_exists in St as (k & I & T). exists k. split; auto. now apply dtrue_spec.
    - cbv beta. intros d1 (E1 & (O1 & M1 & _) & _). cbn [ok]. splits.
      + eapply fev_trans; [exact E1|apply set_marks_fev, (fe_inv _ _ _ E1)].
      + apply Cl. now apply (clean_eq d).
      + apply Fm. unfold free. now rewrite O1. }
  set (nf := filter (fun k => negb (dfalse d k)) (c_lits c)).
  assert (Inf : forall k, In k nf <-> In k (c_lits c) /\ dval d k <> Some false).
  { intros k. unfold nf. rewrite filter_In, negb_true_iff, <- dfalse_spec. now destruct (dfalse d k). }
  assert (Sn : forall v, models d v -> sat_clause v nf).
  { intros v (M1 & M2 & M3 & M4). destruct (M4 r c Ar Lc) as (k & I & T). exists k. split; auto. apply Inf. split; auto.
    intros F. rewrite (units_false' d v) in T; auto. discriminate. }
  assert (Nn : NoDup nf) by (apply NoDup_filter, (pi_nodup _ V r c); auto).
  assert (Ec : fev nobody d (set_marks false (c_lits c) d)) by (now apply set_marks_fev).
  assert (Mc : forall v, models (set_marks false (c_lits c) d) v -> models d v) by (intros v M; now apply (fe_models _ _ _ Ec)).
  destruct nf as [|u [|u2 nf']] eqn:Nf.
  - apply ok_bind. eapply ok_mono; [apply (inconsistent_fev (eq r)); [apply (fe_inv _ _ _ Ec)|]|].
    + intros v M. apply Mc, Sn in M as (k & [] & _).
    + cbv beta. intros d1 (E1 & (O1 & M1 & _) & _). cbn [ok]. splits.
      * eapply fev_trans; [apply fev_any, Ec|exact E1].
      * eapply clean_eq; [exact M1|now apply Cl].
      * unfold free. rewrite O1. now apply Fm.
  - apply ok_bind. eapply ok_mono; [apply (forward_unit_spec u r c); [apply (fe_inv _ _ _ Ec)|now apply Fm|now rewrite set_marks_sol| |]|].
    + apply Inf. now left.
    + intros v M. apply Mc, Sn in M as (k & [<-|[]] & T). exact T.
    + cbv beta. intros d1 (E1 & M1 & F1). cbn [ok]. splits; auto.
      * eapply fev_trans; [apply fev_any, Ec|exact E1].
      * eapply clean_eq; [exact M1|now apply Cl].
  - rewrite <- Nf in *. clear Nf u u2 nf'.
    assert (Em : fev nobody d (set_marks true nf d)) by (now apply set_marks_fev).
    assert (Ma : forall k, d_marks (set_marks true nf d) k = true <-> In k nf).
    { intros k. rewrite set_marks_get, <- existsb_in. rewrite C. now destruct (existsb (Nat.eqb k) nf). }
    apply ok_bind. eapply ok_mono; [apply (forward_marked_spec r nf); [apply (fe_inv _ _ _ Em)|now apply Fm|exact Ma| | |discriminate]|].
    + intros v M. apply Sn. now apply (fe_models _ _ _ Em).
    + intros k I N. apply Inf. split; auto. unfold dval in *. rewrite set_marks_sol in N. congruence.
    + intros ((sub & remove) & d1) (E1 & M1 & V1 & S1 & R1).
      assert (E2 : fev nobody d1 (set_marks false (c_lits c) d1)) by (apply set_marks_fev, (fe_inv _ _ _ E1)).
      set (d2 := set_marks false (c_lits c) d1) in *.
      assert (E : fev nobody d d2) by (eapply fev_trans; [exact Em|]; eapply fev_trans; eauto).
      destruct (fe_free _ _ _ E r (fun F => F) Fr) as (Ar2 & F2). rewrite Ar in Ar2. pose proof (fe_inv _ _ _ E) as V2.
      assert (C2 : clean d2).
      { intros k. unfold d2. rewrite set_marks_get, M1. destruct (existsb (Nat.eqb k) (c_lits c)) eqn:X; auto.
        destruct (d_marks (set_marks true nf d) k) eqn:Y; auto. apply Ma, Inf in Y as (Y & _). apply existsb_in in Y. congruence. }
      assert (Va : forall k, dval d2 k = dval d k).
      { intros k. unfold d2, dval. rewrite set_marks_sol. fold (dval d1 k). rewrite V1. unfold dval. now rewrite set_marks_sol. }
      assert (Vf : forall k, dfalse d2 k = dfalse d k).
      { intros k. apply eq_true_iff_eq. now rewrite !dfalse_spec, Va. }
      destruct sub.
      * apply ok_bind. eapply ok_mono; [apply eliminate_clause_form|]. cbv beta. intros d3 (c3 & Ar3 & _ & ->). assert (c3 = c) by congruence. subst c3. cbn [ok]. splits; auto.
        eapply fev_trans; [apply fev_any, E|]. apply fev_garbage; auto. intros v Bu. destruct (S1 eq_refl v) as (k & I & T).
        -- destruct Bu as (B1 & B2 & B3 & B4). unfold d2 in *. destruct (set_marks_form false (c_lits c) d1) as (m & Em' & _). rewrite Em' in *. unfold but. splits; auto.
        -- exists k. split; auto. now apply Inf.
      * destruct remove as [x|]; [|cbn [ok]; splits; auto; apply fev_any, E].
        destruct (R1 x eq_refl) as (Ix & Rx).
        assert (Rx2 : forall v, models d2 v -> sat_clause v (without x nf)).
        { intros v M. apply Rx. rewrite <- (fe_models _ _ _ Em). now rewrite (fe_models _ _ _ E). }
        destruct (Nat.eqb_spec (length nf) 2) as [L2|L2].
        -- assert (Ex : exists a b, nf = [a; b]) by (destruct nf as [|a [|b [|]]]; cbn in L2; try lia; eauto). destruct Ex as (a & b & Enf). rewrite Enf in *.
           rewrite (lxor_other a b x) by (destruct Ix as [<-|[<-|[]]]; auto).
           assert (Un : without x [a; b] = [if x =? a then b else a]).
           { inversion Nn as [|y ys N1 N2]; subst. unfold without. cbn [filter]. destruct Ix as [<-|[<-|[]]].
             - rewrite Nat.eqb_refl. cbn. destruct (Nat.eqb_spec b a) as [->|]; auto. exfalso. apply N1. now left.
             - rewrite Nat.eqb_refl. cbn. destruct (Nat.eqb_spec a b) as [->|]; cbn; [exfalso; apply N1; now left|]. destruct (Nat.eqb_spec b a); congruence. }
           apply ok_bind. eapply ok_mono; [apply (forward_unit_spec (if x =? a then b else a) r c); auto|].
           ++ apply (Inf (if x =? a then b else a)). destruct (x =? a); [right; now left|now left].
           ++ intros v M. apply Rx2 in M. rewrite Un in M. destruct M as (k & [<-|[]] & T). exact T.
           ++ cbv beta. intros d3 (E3 & M3 & F3). cbn [ok]. splits; auto; [eapply fev_trans; [apply fev_any, E|exact E3]|now apply (clean_eq d2)].
        -- unfold forward_strengthen. cbv zeta.
           assert (Er : filter (fun k => negb (k =? x) && negb (dfalse d2 k)) (c_lits c) = without x nf).
           { unfold without, nf. clear -Vf. generalize (c_lits c). clearbody d2. intros ls0. induction ls0 as [|k ls IH]; auto. cbn [filter]. rewrite Vf. destruct (dfalse d k); cbn [negb andb filter].
             - rewrite andb_false_r. exact IH.
             - rewrite andb_true_r. destruct (negb (k =? x)); now rewrite IH. }
           rewrite Er. set (rest := without x nf) in *.
           assert (Nr : NoDup rest) by (now apply NoDup_filter).
           assert (Ir : incl rest (c_lits c)). { intros k I. apply in_without in I as (I & _). now apply Inf. }
           apply ok_bind, ok_assert. intros _. destruct (3 <? length nf).
           ++ apply ok_bind, ok_assert. intros _. cbn [ok]. splits; auto. eapply fev_trans; [apply fev_any, E|].
              exact (fev_shorten r c rest d2 V2 F2 Ar2 Lc Ir Nr Rx2).
           ++ apply ok_bind, ok_assert. intros _. destruct rest as [|a [|b [|]]] eqn:Re; try exact I. cbn [ok].
              destruct (fev_binarize r c a b d2 V2 F2 Ar2 Lc) as (Eb & Fb); auto.
              ** apply Ir. now left.
              ** apply Ir. right. now left.
              ** inversion Nr as [|y ys N1 N2]; subst. intros ->. apply N1. now left.
              ** splits; [eapply fev_trans; [apply fev_any, E|exact Eb]|intros k; apply C2|exact Fb].
Qed.

(** ** All clauses *)
Lemma fold_min_in : forall (f : lit -> lit -> bool) ls m, In (fold_left (fun m l => if f m l then m else l) ls m) (m :: ls).
Proof.
  intros f. induction ls as [|l ls IH]; intros m; cbn [fold_left]; [now left|].
  destruct (IH (if f m l then m else l)) as [E|I]; [|right; now right]. rewrite <- E. destruct (f m l); [now left|right; now left].
Qed.
Lemma connect_subsuming_spec : forall o sub r d, pinv d -> clean d -> (forall c, arena (d_sol d) r = Some c -> c_redundant c = false) ->
  ok (connect_subsuming o sub r d) (fun d' => fev (eq r) d d' /\ clean d').
Proof.
  intros o sub r d V C R. unfold connect_subsuming. apply ok_bind. eapply ok_mono; [apply get_clause_spec|]. cbv beta. intros c Ar.
  apply ok_bind, ok_assert. intros G. destruct (negb (forallb _ _)); [cbn; auto using fev_refl|].
  destruct (filter (fun l => is_active (idx l) d) (c_lits c)) as [|l act] eqn:Ea; [cbn; auto using fev_refl|]. cbv zeta.
  set (m := fold_left _ act l). assert (Im : In m (c_lits c)).
  { assert (J : In m (l :: act)) by apply (fold_min_in (fun m l => length (d_occs d m) <? length (d_occs d l))). rewrite <- Ea in J. now apply filter_In in J. }
  destruct (_ <? _); [cbn; auto using fev_refl|]. cbn [ok]. split; [|exact C].
  assert (Lc : live c) by (split; [auto|now destruct (c_garbage c)]).
  apply fev_occs; auto.
  - intros a b. rewrite upd_if. destruct (Nat.eqb_spec a m) as [->|]; [|tauto]. rewrite in_app_iff. cbn. intuition discriminate.
  - intros k q. rewrite upd_if. destruct (Nat.eqb_spec k m) as [->|]; auto. rewrite in_app_iff. intros [I|[E|[]]]; auto. injection E as <-.
    right. splits; auto; [eapply (pi_kept _ V); eauto|]. exists c. auto.
Qed.
Lemma forward_loop_spec : forall o sub budget cs shrunk news d, pinv d -> clean d -> NoDup cs -> (forall r, In r cs -> free d r /\ ready d r) ->
  ok (forward_loop o sub budget cs shrunk news d) (fun '(_, _, _, d') => fev (fun r => In r cs) d d' /\ clean d').
Proof.
  intros o sub. induction budget as [|budget IH]; intros [|r cs] shrunk news d V C N H; cbn [forward_loop]; try (cbn; splits; auto using fev_refl; fail).
  inversion N as [|x y Nr Nd]; subst. destruct (H r (or_introl eq_refl)) as (Fr & Rr). pose proof Rr as (c & Ar & Lc).
  apply ok_bind. eapply ok_mono; [apply forward_clause_spec; auto|]. intros (k & d1) (E1 & C1 & F1). cbv zeta.
  assert (E1' : fev (fun q => In q (r :: cs)) d d1) by (eapply fev_mono; [|exact E1]; intros q <-; now left).
  destruct (inconsistent (d_sol d1)); [cbn; auto|].
  apply ok_bind. eapply ok_mono; [apply get_clause_spec|]. cbv beta. intros c1 Ar1. apply ok_bind.
  assert (Co : ok (if c_garbage c1 then Ret d1 else connect_subsuming o sub r d1) (fun d' => fev (eq r) d1 d' /\ clean d')).
  { destruct (c_garbage c1); [cbn; split; auto; apply fev_refl, (fe_inv _ _ _ E1)|]. apply connect_subsuming_spec; [apply (fe_inv _ _ _ E1)|auto|].
    intros c2 Ar2. destruct (fe_arena _ _ _ E1 _ _ Ar2) as (c3 & Ar3 & R & _). destruct Lc. congruence. }
  eapply ok_mono; [exact Co|]. cbv beta. intros d2 (E2 & C2). assert (E : fev (eq r) d d2) by (eapply fev_trans; eauto).
  eapply ok_mono; [apply IH; [apply (fe_inv _ _ _ E)|auto|auto|]|].
  - intros q I. assert (Nq : r <> q) by congruence. destruct (H q (or_intror I)) as (Fq & cq & Aq & Lq).
    destruct (fe_free _ _ _ E q Nq Fq) as (A2 & F2). split; auto. exists cq. split; auto. congruence.
  - intros (((a & b) & e) & d3) (E3 & C3). split; auto. eapply fev_trans; [eapply fev_mono; [|exact E]; intros q <-; now left|].
    eapply fev_mono; [|exact E3]. intros q I. now right.
Qed.
Definition anybody (r : nat) : Prop := True.
Lemma forward_all_spec : forall o budget sub d, pinv d -> clean d -> (forall r, free d r) ->
  ok (forward_all o budget sub d) (fun '(_, _, d') => fev anybody d d' /\ clean d').
Proof.
  intros o budget sub d V C Fr. unfold forward_all. apply ok_bind. eapply ok_mono; [apply find_candidates_spec; auto using seq_NoDup|].
  intros (cs & d1) (E1 & C1 & O1 & _ & Nc & _ & R1). apply ok_bind. eapply ok_mono; [apply sort_candidates_spec|]. cbv beta. intros cs' P.
  apply ok_bind. eapply ok_mono; [apply forward_loop_spec; [apply (fe_inv _ _ _ E1)|auto|now apply (Permutation_NoDup P)|]|].
  - intros r I. split; [intros l; rewrite O1; apply Fr|]. apply R1. now apply (Permutation_in _ (Permutation_sym P)).
  - intros (((a & b) & e) & d2) (E2 & C2). cbn [ok]. split; auto. eapply fev_trans; [eapply fev_mono; [|exact E1]|eapply fev_mono; [|exact E2]]; intros; exact I.
Qed.
Lemma forward_subsume_spec : forall o budget sub d, pinv d -> clean d -> (forall r, free d r) ->
  ok (kissat_forward_subsume o budget sub d) (fun '(_, _, d') => fev anybody d d' /\ clean d').
Proof.
  intros o budget sub d V C Fr. unfold kissat_forward_subsume. apply ok_bind. eapply ok_mono; [apply remove_all_duplicated_spec; auto|].
  cbv beta. intros d1 (E1 & C1). destruct (inconsistent (d_sol d1)); [cbn; split; auto; now apply fev_any|].
  eapply ok_mono; [apply forward_all_spec; [apply (fe_inv _ _ _ E1)|auto|]|].
  - intros r. apply (fe_free _ _ _ E1 r (fun F => F) (Fr r)).
  - intros ((a & b) & d2) (E2 & C2). split; auto. eapply fev_trans; [apply fev_any, E1|exact E2].
Qed.
