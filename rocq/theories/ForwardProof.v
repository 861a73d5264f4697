(** The proof lines of forward subsumption have reverse unit propagation: invariant and elementary steps. *)
From Coq Require Import ZArith List Bool Lia Arith Permutation.
From Coq Require Import ZifyBool ZifyNat.
From Verif Require Import Base SpecSat Lit Solver Api Extend Eliminate DenseFacts DenseOps Forward ForwardFacts ForwardRun ForwardLoop.
From Verif Require FactorFacts DbFacts Inv.
From Verif Require Import Sem.
Import ListNotations.
Open Scope nat_scope.
Open Scope outcome_scope.
Notation pairs := FactorFacts.pairs.
Notation pair_of := FactorFacts.pair_of.

(** ** The clauses of a state and of its proof *)
Definition udb (d : dense) : list (list lit) :=
  map (fun l => [l]) (trail (d_sol d)) ++ pairs (vars (d_sol d)) (d_occs d) ++ Inv.irredundants (next_ref (d_sol d)) (arena (d_sol d)).
Definition there (d : dense) (e : list lit) : Prop := exists f, In f (udb d) /\ same_literals e f.

Definition pr (F U : list (list lit)) (st : list (line lit)) : Prop := proof_ok F st /\ msub U (pdb F st).
Lemma pr_add : forall F U st c, pr F U st -> rup neg U c -> pr F (c :: U) (Added c :: st).
Proof.
  intros F U st c (P & M) R. split; cbn [proof_ok pdb]; [split; auto; eapply rup_msub; eauto|now apply msub_cons].
Qed.
Lemma pr_del : forall F U U' st c, pr F U st -> msub (c :: U') U -> pr F U' (Deleted c :: st).
Proof.
  intros F U U' st c (P & M) S.
  assert (Q : 0 < cnt c (pdb F st)). { specialize (S c). specialize (M c). rewrite cnt_cons, set_eqb_refl in S. cbn [b2n] in S. lia. }
  split; cbn [proof_ok pdb]; [split; auto|]. intros x. pose proof (cnt_remove_same c _ x Q) as K. specialize (S x). specialize (M x). rewrite cnt_cons in S. lia.
Qed.
Lemma pr_sub : forall F U U' st, pr F U st -> msub U' U -> pr F U' st.
Proof. intros F U U' st (P & M) S. split; auto. eapply msub_trans; eauto. Qed.

Record rinv (F : list (list lit)) (d : dense) : Prop := mk_rinv {
  ri_pr : pr F (udb d) (steps (d_sol d));
  ri_trail : forall l, dval d l = Some true -> In l (trail (d_sol d));
  ri_lev : forall l, lev (d_sol d) l = 0;
  ri_bins : forall a b, In (DBinary b) (d_occs d a) -> a < 2 * vars (d_sol d);
  ri_lits : forall r c l, arena (d_sol d) r = Some c -> In l (c_lits c) -> l < 2 * vars (d_sol d) }.

(** ** Clauses which are present *)
Lemma there_unit : forall F d l, rinv F d -> dval d l = Some true -> In [l] (udb d).
Proof. intros F d l R T. unfold udb. apply in_or_app. left. apply in_map_iff. exists l. split; auto. now apply (ri_trail _ _ R). Qed.
Lemma there_bin : forall F d a b, pinv d -> rinv F d -> In (DBinary b) (d_occs d a) -> there d [a; b].
Proof.
  intros F d a b V R I.
  assert (G : forall x y, x < y -> In (DBinary y) (d_occs d x) -> In [x; y] (udb d)).
  { intros x y L J. unfold udb. apply in_or_app. right. apply in_or_app. left. unfold FactorFacts.pairs. apply in_flat_map. exists x. split.
    - apply in_seq. pose proof (ri_bins _ _ R _ _ J). lia.
    - apply in_flat_map. exists (DBinary y). split; auto. cbn [FactorFacts.pair_of]. apply Nat.ltb_lt in L. rewrite L. now left. }
  destruct (lt_eq_lt_dec a b) as [[L|E]|L].
  - exists [a; b]. split; auto using same_literals_refl.
  - exfalso. subst b. now apply (pi_bin _ V) in I.
  - exists [b; a]. split; [apply G; auto; now apply (pi_sym _ V)|]. intros k. cbn. tauto.
Qed.
Lemma there_large : forall d r c, pinv d -> arena (d_sol d) r = Some c -> live c -> there d (c_lits c).
Proof.
  intros d r c V Ar (R & G). exists (c_lits c). split; [|apply same_literals_refl]. unfold udb. apply in_or_app. right. apply in_or_app. right.
  apply DbFacts.in_irredundants. exists r, c. splits; auto. destruct (le_lt_dec (next_ref (d_sol d)) r) as [L|L]; auto. rewrite (pi_next _ V r L) in Ar. discriminate.
Qed.
Lemma udb_sat : forall d v, pinv d -> models d v -> sat v (udb d).
Proof.
  intros d v V (M1 & M2 & M3 & M4) c I. unfold udb in I. apply in_app_iff in I as [I|I]; [|apply in_app_iff in I as [I|I]].
  - apply in_map_iff in I as (l & <- & I). exists l. split; [now left|]. apply M2. now apply (pi_trail _ V).
  - unfold FactorFacts.pairs in I. apply in_flat_map in I as (a & _ & I). apply in_flat_map in I as (w & J & I). destruct w as [b|r]; cbn [FactorFacts.pair_of] in I; [|destruct I].
    destruct (a <? b); [|destruct I]. destruct I as [<-|[]]. destruct (M3 _ _ J) as [T|T]; [exists a|exists b]; cbn; auto.
  - apply DbFacts.in_irredundants in I as (r & x & _ & Ar & G & R & ->). apply (M4 r x Ar). split; auto.
Qed.
Lemma rup_models : forall d c v, pinv d -> rup neg (udb d) c -> models d v -> sat_clause v c.
Proof. intros d c v V R M. eapply rup_sound; eauto. now apply udb_sat. Qed.

(** ** Reverse unit propagation *)
Lemma falsified : forall F d c k, pinv d -> rinv F d -> In k c \/ dval d k = Some false ->
  derives neg (udb d) (fun l => exists m, In m c /\ l = neg m) (neg k).
Proof.
  intros F d c k V R [I|H].
  - apply derives_assumed. eauto.
  - assert (T : dval d (neg k) = Some true) by (rewrite (pi_neg _ V), H; reflexivity).
    apply derives_unit with [neg k]; [eapply there_unit; eauto|now left|]. intros m [<-|[]] X. congruence.
Qed.
Lemma rup_one : forall F d e c, pinv d -> rinv F d -> there d e -> (forall k, In k e -> In k c \/ dval d k = Some false) -> rup neg (udb d) c.
Proof.
  intros F d e c V R (f & I & S) H. exists f. split; auto. intros k K. eapply falsified; eauto. apply H. now apply S.
Qed.
Lemma rup_two : forall F d e1 e2 x c, pinv d -> rinv F d -> there d e1 -> there d e2 ->
  (forall k, In k e1 -> k = x \/ In k c \/ dval d k = Some false) -> (forall k, In k e2 -> k = neg x \/ In k c \/ dval d k = Some false) -> rup neg (udb d) c.
Proof.
  intros F d e1 e2 x c V R (f1 & I1 & S1) (f2 & I2 & S2) H1 H2. destruct (in_dec Nat.eq_dec x f1) as [X|X].
  - exists f2. split; auto. intros k K. destruct (H2 k) as [->|J]; [now apply S2| |eapply falsified; eauto]. rewrite neg_neg.
    apply derives_unit with f1; auto. intros m M N. eapply falsified; eauto. destruct (H1 m) as [E|J]; auto; [now apply S1|congruence].
  - exists f1. split; auto. intros k K. eapply falsified; eauto. destruct (H1 k) as [->|J]; auto; [now apply S1|contradiction].
Qed.

(** ** Elementary steps *)
Lemma cnt_udb : forall x d, cnt x (udb d) = cnt x (map (fun l => [l]) (trail (d_sol d))) + cnt x (pairs (vars (d_sol d)) (d_occs d)) +
  cnt x (Inv.irredundants (next_ref (d_sol d)) (arena (d_sol d))).
Proof. intros x d. unfold udb. rewrite !cnt_app. lia. Qed.
Lemma irredundants_upd : forall n ar c r o, r < n ->
  cnt c (Inv.irredundants n (upd ar r o)) + cnt c (Inv.irredundant_of (ar r)) = cnt c (Inv.irredundants n ar) + cnt c (Inv.irredundant_of o).
Proof.
  intros n ar c r o R. unfold Inv.irredundants.
  pose proof (DbFacts.cnt_flat_upd (fun r => Inv.irredundant_of (ar r)) (fun i => Inv.irredundant_of (upd ar r o i)) n r c) as H. cbv beta in H.
  rewrite upd_same in H. apply H; auto. intros i N. now rewrite upd_other.
Qed.
Lemma irredundant_live : forall c, live c -> Inv.irredundant_of (Some c) = [c_lits c].
Proof. intros c (R & G). cbn. now rewrite R, G. Qed.
Lemma ref_bound : forall d r c, pinv d -> arena (d_sol d) r = Some c -> r < next_ref (d_sol d).
Proof. intros d r c V Ar. destruct (le_lt_dec (next_ref (d_sol d)) r) as [L|L]; auto. rewrite (pi_next _ V r L) in Ar. discriminate. Qed.

(** Changes which are not visible in the proof. *)
Definition bins_eq (o o' : lit -> list dwatch) : Prop := forall l, others (o' l) = others (o l).
Lemma others_pairs : forall l ws, flat_map (pair_of l) ws = flat_map (fun b => if l <? b then [[l; b]] else []) (others ws).
Proof. intros l. induction ws as [|[b|r] ws IH]; cbn; auto. now rewrite IH. Qed.
Lemma in_others_iff : forall b ws, In (DBinary b) ws <-> In b (others ws).
Proof.
  intros b ws. unfold others. rewrite in_flat_map. split; [intros I; exists (DBinary b); split; auto; now left|].
  intros ([x|r] & I & J); [destruct J as [<-|[]]; auto|destruct J].
Qed.
Lemma ri_same : forall F d d', rinv F d -> steps (d_sol d') = steps (d_sol d) -> trail (d_sol d') = trail (d_sol d) -> values (d_sol d') = values (d_sol d) ->
  Solver.assigned (d_sol d') = Solver.assigned (d_sol d) -> arena (d_sol d') = arena (d_sol d) -> next_ref (d_sol d') = next_ref (d_sol d) -> vars (d_sol d') = vars (d_sol d) ->
  bins_eq (d_occs d) (d_occs d') -> rinv F d'.
Proof.
  intros F d d' [P T L B A] E1 E2 E3 E4 E5 E6 E7 O. constructor; rewrite ?E1, ?E2, ?E5, ?E7; auto.
  - replace (udb d') with (udb d); auto. unfold udb. rewrite E2, E5, E6, E7. f_equal. f_equal. symmetry. apply FactorFacts.pairs_large. intros l. now rewrite !others_pairs, O.
  - intros l. unfold dval. rewrite E3. apply T.
  - intros l. unfold lev. rewrite E4. apply L.
  - intros a b I. apply in_others_iff in I. rewrite O in I. apply in_others_iff in I. eauto.
Qed.
Lemma ri_occs : forall F o d, rinv F d -> bins_eq (d_occs d) o -> rinv F (set_d_occs o d).
Proof. intros F o d R E. apply (ri_same F d); auto. Qed.
Lemma ri_marks : forall F m d, rinv F d -> rinv F (set_d_marks m d).
Proof. intros F m d R. apply (ri_same F d); auto. intros l. reflexivity. Qed.
Lemma ri_set_marks : forall F b ls d, rinv F d -> rinv F (set_marks b ls d).
Proof. intros F b ls d R. destruct (set_marks_form b ls d) as (m & -> & _). now apply ri_marks. Qed.

(** A clause becomes garbage. *)
Lemma ri_garbage : forall F r c d, pinv d -> rinv F d -> arena (d_sol d) r = Some c -> live c -> rinv F (garbage r c d).
Proof.
  intros F r c d V [P T L B A] Ar Lc. pose proof (ref_bound _ _ _ V Ar) as Lr. constructor; auto.
  - cbn [garbage d_sol set_d_sol steps del_step]. eapply pr_del; [exact P|]. intros x.
    rewrite cnt_cons. replace (cnt x (udb (garbage r c d))) with (cnt x (map (fun l => [l]) (trail (d_sol d))) + cnt x (pairs (vars (d_sol d)) (d_occs d)) +
      cnt x (Inv.irredundants (next_ref (d_sol d)) (upd (arena (d_sol d)) r (Some (mk_clause (c_lits c) (c_redundant c) true (c_searched c)))))) by (rewrite cnt_udb; reflexivity).
    rewrite cnt_udb.
    pose proof (irredundants_upd (next_ref (d_sol d)) (arena (d_sol d)) x r (Some (mk_clause (c_lits c) (c_redundant c) true (c_searched c))) Lr) as H.
    rewrite Ar, (irredundant_live c Lc) in H. cbn [Inv.irredundant_of c_garbage orb] in H. rewrite cnt_cons, !cnt_nil in H. lia.
  - intros q x l. rewrite garbage_arena. destruct (Nat.eqb_spec q r) as [->|N]; [|apply A]. intros E I. injection E as <-. apply (A r c l Ar I).
Qed.

(** A unit. *)
Definition unit_step (l : lit) (s s' : solver) : Prop :=
  assigned_at l s s' /\ steps s' = Added [l] :: steps s /\ vars s' = vars s /\ (forall k, lev s' k = if idx k =? idx l then 0 else lev s k).
Lemma assign_unit_step : forall r l s, is_unit_reason r = false -> ok (assign 0 r l s) (unit_step l s).
Proof.
  intros r l s U. unfold unit_step. apply ok_and; [apply assign_form|]. unfold assign. apply ok_bind, ok_assert. intros _. apply ok_bind, ok_assert. intros _.
  rewrite U. cbn. splits; auto. intros k. unfold lev. cbn. rewrite upd_if. destruct (idx k =? idx l); reflexivity.
Qed.
Lemma learned_unit_step : forall l s, ok (learned_unit l s) (unit_step l s).
Proof.
  intros l s. unfold unit_step. apply ok_and.
  - unfold learned_unit, assign_unit. apply ok_bind. eapply ok_mono; [apply assign_form|]. intros s' H. exact H.
  - unfold learned_unit, assign_unit, assign. apply ok_bind, ok_bind, ok_assert. intros _. apply ok_bind, ok_assert. intros _.
    cbn. splits; auto. intros k. unfold lev. cbn. rewrite upd_if. destruct (idx k =? idx l); reflexivity.
Qed.
Lemma level_zero : forall s l ls, (forall k, lev s k = 0) -> assignment_level s l ls = 0.
Proof.
  intros s l ls H. unfold assignment_level. assert (G : forall m, fold_left (fun m k => if k =? l then m else Nat.max m (lev s k)) ls m = m).
  { induction ls as [|k ls IH]; intros m; cbn [fold_left]; auto. rewrite H, IH. destruct (k =? l); lia. }
  apply G.
Qed.
Lemma reference_unit_step : forall l r s, (forall k, lev s k = 0) -> ok (assign_reference l r s) (unit_step l s).
Proof. intros l r s H. unfold assign_reference. destruct (arena s r); [|exact I]. rewrite level_zero by auto. now apply assign_unit_step. Qed.
Lemma unit_step_assigned : forall l s s', unit_step l s s' -> ForwardFacts.assigned l s s'.
Proof. intros l s s' (A & B & C & _). split; [exact A|]. split; auto. exists [Added [l]]. split; auto. intros c [X|[]]. congruence. Qed.
Lemma ri_unit : forall F X l d s', unit_step l (d_sol d) s' -> pinv d -> rinv F d -> rup neg (udb d) [l] ->
  fev X d (set_d_sol s' d) /\ rinv F (set_d_sol s' d).
Proof.
  intros F X l d s' U V R H. split.
  - apply (fev_assign X l); [now apply unit_step_assigned|auto|]. intros v M. destruct (rup_models d [l] v V H M) as (k & [<-|[]] & T). exact T.
  - destruct U as ((N & Va & Tr & Ar & Nx & _) & St & Vs & Lv). destruct R as [P T L B A]. constructor; cbn [d_sol set_d_sol d_occs]; rewrite ?St, ?Vs, ?Ar; auto.
    + eapply pr_sub; [apply (pr_add _ _ _ _ P H)|]. intros x. rewrite cnt_cons, !cnt_udb. cbn [d_sol set_d_sol d_occs]. rewrite Tr, Vs, Ar, Nx, map_app, cnt_app.
      cbn [map]. rewrite cnt_cons, cnt_nil. lia.
    + intros k. unfold dval. cbn [d_sol set_d_sol]. rewrite Va, !upd_if, Tr, in_app_iff. destruct (k =? neg l); [discriminate|].
      destruct (Nat.eqb_spec k l) as [->|]; [intros _; right; now left|]. intros K. left. now apply T.
    + intros k. rewrite Lv, L. now destruct (_ =? _).
Qed.
Lemma learned_r : forall F X l d, pinv d -> rinv F d -> rup neg (udb d) [l] ->
  ok (dense_learned_unit l d) (fun d' => fev X d d' /\ rinv F d' /\ quiet d d' /\ dval d' l = Some true /\ arena (d_sol d') = arena (d_sol d)).
Proof.
  intros F X l d V R H. unfold dense_learned_unit. apply ok_bind. eapply ok_mono; [apply learned_unit_step|]. intros s' U. cbn [ok].
  destruct (ri_unit F X l d s' U V R H) as (E & R'). destruct U as ((N & A & B & C & _) & _). splits; auto; [repeat split|].
  unfold dval. cbn. rewrite A. rewrite upd_other by apply neg_neq'. apply upd_same.
Qed.
Lemma inconsistent_r : forall F X d, pinv d -> rinv F d -> rup neg (udb d) [] ->
  ok (dense_inconsistent d) (fun d' => fev X d d' /\ rinv F d' /\ quiet d d').
Proof.
  intros F X d V R H. eapply ok_mono; [apply ok_and; [apply (inconsistent_fev X); auto|]|].
  - intros v M. destruct (rup_models d [] v V H M) as (k & [] & _).
  - instantiate (1 := rinv F). unfold dense_inconsistent. apply ok_bind, ok_assert. intros _. cbn [ok]. destruct R as [P T L B A]. constructor; auto.
    cbn [d_sol set_d_sol steps set_inconsistent add_step]. eapply pr_sub; [apply (pr_add _ _ _ _ P H)|]. intros x. rewrite cnt_cons. match goal with |- cnt _ (udb ?e) <= _ => change (udb e) with (udb d) end. lia.
  - cbv beta. intros d' ((E & Q & _) & R'). auto.
Qed.

(** ** Propagation *)
Lemma propagate_watches_r : forall F not_l ws d, pinv d -> rinv F d -> dval d not_l = Some false -> incl ws (d_occs d not_l) ->
  ok (dense_propagate_watches not_l ws d) (fun '(b, d') => fev nobody d d' /\ rinv F d' /\ quiet d d' /\ (b = false -> rup neg (udb d') [])).
Proof.
  intros F not_l. induction ws as [|w ws IH]; intros d V R Fl In0; cbn [dense_propagate_watches].
  - cbn. splits; auto using fev_refl, quiet_refl. discriminate.
  - assert (Iw : In w (d_occs d not_l)) by (apply In0; now left).
    assert (In1 : incl ws (d_occs d not_l)) by (intros x I; apply In0; now right).
    assert (Nx : forall d', fev nobody d d' -> rinv F d' -> quiet d d' -> ok (dense_propagate_watches not_l ws d') (fun '(b, d'') => fev nobody d d'' /\ rinv F d'' /\ quiet d d'' /\ (b = false -> rup neg (udb d'') []))).
    { intros d' E R' Q. eapply ok_mono; [apply IH; [apply (fe_inv _ _ _ E)|exact R'|now apply (fe_val _ _ _ E)|destruct Q as (Q & _); now rewrite Q]|].
      intros (b & d'') (E' & R'' & Q' & M). splits; auto; [eapply fev_trans|eapply quiet_trans]; eauto. }
    destruct w as [other|ref].
    + pose proof (there_bin F d _ _ V R Iw) as Th. destruct (dtrue d other) eqn:To; [apply IH; auto|].
      destruct (dfalse d other) eqn:Fo.
      * cbn. splits; auto using fev_refl, quiet_refl. intros _. apply dfalse_spec in Fo. eapply rup_one; eauto. intros k [<-|[<-|[]]]; auto.
      * destruct (d_gone d (idx other)); [apply IH; auto|].
        apply ok_bind. eapply ok_mono; [apply assign_unit_step; reflexivity|]. intros s' A.
        destruct (ri_unit F nobody other d s' A V R) as (E & R').
        { eapply rup_one; eauto. intros k [<-|[<-|[]]]; auto. left. now left. }
        apply Nx; auto. repeat split.
    + apply ok_bind. eapply ok_mono; [apply get_clause_spec|]. cbv beta. intros c Ar.
      apply ok_bind, ok_assert. intros Re. destruct (c_garbage c) eqn:G; [apply IH; auto|].
      assert (Lc : live c) by (split; auto; now destruct (c_redundant c)). pose proof (there_large d _ _ V Ar Lc) as Th.
      pose proof (dense_scan_spec not_l (c_lits c) None d) as Sc. destruct (dense_scan not_l (c_lits c) None d) as [[|u [|]]|].
      * cbn. splits; auto using fev_refl, quiet_refl. intros _. destruct Sc as [_ Sc]. eapply rup_one; eauto. intros k I. destruct (Sc k I) as [->|K]; auto.
      * apply ok_bind. eapply ok_mono; [apply reference_unit_step, (ri_lev _ _ R)|]. intros s' A. destruct Sc as [_ Sc].
        destruct (ri_unit F nobody u d s' A V R) as (E & R').
        { eapply rup_one; eauto. intros k I. destruct (Sc k I) as [->|[->|K]]; auto. left. now left. }
        apply Nx; auto. repeat split.
      * apply IH; auto.
      * apply ok_bind. eapply ok_mono; [apply (eliminate_satisfied nobody); auto|].
        -- right. eapply watch_not_free; eauto.
        -- intros c' Ar'. rewrite Ar in Ar'. injection Ar' as <-. destruct Sc as (k & I & T). exists k. auto.
        -- cbv beta. intros d' (E & Q & _ & c' & Ar' & ->). assert (c' = c) by congruence. subst c'. apply Nx; auto. now apply ri_garbage.
Qed.
Lemma propagate_loop_r : forall F fuel d, pinv d -> rinv F d ->
  ok (dense_propagate_loop fuel d) (fun '(b, d') => fev nobody d d' /\ rinv F d' /\ quiet d d' /\ (b = false -> rup neg (udb d') [])).
Proof.
  intros F. induction fuel as [|fuel IH]; intros d V R; cbn [dense_propagate_loop].
  - destruct (nth_error _ _); [exact I|]. cbn. splits; auto using fev_refl, quiet_refl. discriminate.
  - destruct (nth_error (trail (d_sol d)) (propagate (d_sol d))) as [l|] eqn:N; [|cbn; splits; auto using fev_refl, quiet_refl; discriminate].
    apply ok_bind, ok_assert. intros T. apply dtrue_spec in T.
    set (d1 := set_d_sol _ d). assert (E1 : fev nobody d d1) by (apply (fev_same _ _ _ []); auto; reflexivity).
    assert (Q1 : quiet d d1) by repeat split. assert (R1 : rinv F d1) by (apply (ri_same F d); auto; intros k; reflexivity).
    apply ok_bind. eapply ok_mono; [apply (propagate_watches_r F); [apply (fe_inv _ _ _ E1)|exact R1| |apply incl_refl]|].
    + rewrite (pi_neg _ (fe_inv _ _ _ E1)). apply (fe_val _ _ _ E1) in T. now rewrite T.
    + intros (b & d2) (E2 & R2 & Q2 & M). destruct b.
      * eapply ok_mono; [apply IH; [apply (fe_inv _ _ _ E2)|exact R2]|]. intros (b & d3) (E3 & R3 & Q3 & M3).
        splits; auto; [exact (fev_trans _ _ _ _ E1 (fev_trans _ _ _ _ E2 E3))|exact (quiet_trans _ _ _ Q1 (quiet_trans _ _ _ Q2 Q3))].
      * cbn. splits; [exact (fev_trans _ _ _ _ E1 E2)|exact R2|exact (quiet_trans _ _ _ Q1 Q2)|exact M].
Qed.
Lemma propagate_r : forall F d, pinv d -> rinv F d -> ok (dense_propagate d) (fun '(b, d') => fev nobody d d' /\ rinv F d' /\ quiet d d').
Proof.
  intros F d V R. unfold dense_propagate. apply ok_bind, ok_assert. intros _. apply ok_bind.
  eapply ok_mono; [apply (propagate_loop_r F); auto|]. intros (b & d') (E & R' & Q & M). destruct b.
  - cbn. splits; auto.
  - apply ok_bind. eapply ok_mono; [apply (inconsistent_r F nobody); [apply (fe_inv _ _ _ E)|auto|auto]|].
    cbv beta. intros d2 (E2 & R2 & Q2). cbn. splits; auto; [exact (fev_trans _ _ _ _ E E2)|exact (quiet_trans _ _ _ Q Q2)].
Qed.
Lemma flush_unit_watches_r : forall F unit ws d, pinv d -> rinv F d -> dval d unit = Some true -> incl ws (d_occs d unit) ->
  ok (flush_unit_watches ws d) (fun '(ws', d') => fev nobody d d' /\ rinv F d' /\ quiet d d' /\ others ws' = others ws /\ (forall r, ~ In (DLarge r) ws')).
Proof.
  intros F unit. induction ws as [|w ws IH]; intros d V R T In0; cbn [flush_unit_watches].
  - cbn. splits; auto using fev_refl, quiet_refl.
  - assert (In1 : incl ws (d_occs d unit)) by (intros x I; apply In0; now right).
    destruct w as [other|ref].
    + apply ok_bind. eapply ok_mono; [apply IH; auto|]. intros (ws' & d') (E & R' & Q & C & N). cbn [ok]. splits; auto.
      * cbn. f_equal. exact C.
      * intros r [X|X]; [discriminate|]. now apply N in X.
    + apply ok_bind. eapply ok_mono; [apply get_clause_spec|]. cbv beta. intros c Ar. apply ok_bind.
      assert (Iw : In (DLarge ref) (d_occs d unit)) by (apply In0; now left).
      assert (X : ok (if c_garbage c then Ret d else eliminate_clause ref d) (fun d' => fev nobody d d' /\ rinv F d' /\ quiet d d')).
      { destruct (c_garbage c) eqn:G; [cbn; splits; auto using fev_refl, quiet_refl|].
        destruct (pi_large _ V _ _ Iw) as (c2 & Ar2 & Re & L). assert (c2 = c) by congruence. subst c2.
        eapply ok_mono; [apply (eliminate_satisfied nobody); auto|].
        - right. eapply watch_not_free; eauto.
        - intros c' Ar'. exists unit. split; auto. congruence.
        - cbv beta. intros d' (E & Q & _ & c' & Ar' & ->). assert (c' = c) by congruence. subst c'. splits; auto. apply ri_garbage; auto. split; auto. }
      eapply ok_mono; [exact X|]. cbv beta. intros d1 (E1 & R1 & Q1). pose proof Q1 as (O1 & _).
      eapply ok_mono; [apply IH; [apply (fe_inv _ _ _ E1)|auto|now apply (fe_val _ _ _ E1)|now rewrite O1]|].
      intros (ws' & d') (E & R' & Q & C & N). splits; [eapply fev_trans; eauto|exact R'|eapply quiet_trans; eauto|exact C|exact N].
Qed.
Lemma bins_eq_upd : forall o l ws, others ws = others (o l) -> bins_eq o (upd o l ws).
Proof. intros o l ws E k. rewrite upd_if. destruct (Nat.eqb_spec k l) as [->|]; auto. Qed.
Lemma others_in : forall ws ws', others ws' = others ws -> forall b, In (DBinary b) ws' <-> In (DBinary b) ws.
Proof. intros ws ws' E b. now rewrite !in_others_iff, E. Qed.
Lemma flush_units_loop_r : forall F us d, pinv d -> rinv F d -> (forall u, In u us -> dval d u = Some true) ->
  ok (flush_units_loop us d) (fun d' => fev nobody d d' /\ rinv F d' /\ calm d d').
Proof.
  intros F. induction us as [|u us IH]; intros d V R T; cbn [flush_units_loop].
  - cbn. splits; [auto using fev_refl|auto|repeat split].
  - apply ok_bind. eapply ok_mono; [apply (flush_unit_watches_r F u); [auto|auto|apply T; now left|apply incl_refl]|].
    intros (ws & d1) (E1 & R1 & Q1 & C & N). pose proof Q1 as (O1 & M1 & G1).
    set (d2 := set_d_occs _ d1).
    assert (E2 : fev nobody d1 d2).
    { apply fev_occs; [apply (fe_inv _ _ _ E1)| |].
      - intros a b. destruct (Nat.eq_dec a u) as [->|Nk]; [|now rewrite upd_other]. rewrite upd_same, O1. now apply others_in.
      - intros k r. destruct (Nat.eq_dec k u) as [->|Nk]; [|rewrite upd_other; auto]. rewrite upd_same. intros I. now apply N in I. }
    assert (R2 : rinv F d2) by (apply ri_occs; auto; apply bins_eq_upd; now rewrite O1).
    eapply ok_mono; [apply IH; [apply (fe_inv _ _ _ E2)|exact R2|]|].
    + intros x I. apply (fe_val _ _ _ E2), (fe_val _ _ _ E1), T. now right.
    + cbv beta. intros d' (E & R' & (M & G)). splits; [exact (fev_trans _ _ _ _ E1 (fev_trans _ _ _ _ E2 E))|exact R'|]. split; [rewrite M|rewrite G]; assumption.
Qed.
Lemma flush_units_r : forall F d, pinv d -> rinv F d -> ok (flush_units_while_connected d) (fun d' => fev nobody d d' /\ rinv F d' /\ calm d d').
Proof.
  intros F d V R0. unfold flush_units_while_connected. destruct (_ <=? _). { cbn. splits; [auto using fev_refl|auto|repeat split]. }
  apply ok_bind. eapply ok_mono; [apply (propagate_r F); auto|]. intros (b & d1) (E & R1 & (O & M & R)). destruct b.
  - eapply ok_mono; [apply (flush_units_loop_r F); [apply (fe_inv _ _ _ E)|auto|]|].
    + intros u I. apply (pi_trail _ (fe_inv _ _ _ E)). rewrite <- (firstn_skipn (propagate (d_sol d)) (trail (d_sol d1))). apply in_or_app. now right.
    + cbv beta. intros d' (E' & R' & (M' & G')). splits; [eapply fev_trans; eauto|auto|]. split; congruence.
  - cbn. splits; auto. now split.
Qed.
