(** Forward subsumption keeps the set of models: invariants and elementary steps. *)
From Coq Require Import ZArith List Bool Lia Arith.
From Coq Require Import ZifyBool ZifyNat.
From Verif Require Import Base SpecSat Lit Solver Api Extend Eliminate DenseFacts DenseOps Forward.
Import ListNotations.
Open Scope nat_scope.
Open Scope outcome_scope.

(** ** Invariants *)
(** In contrast to [dinv] large clauses need not be connected. *)
Definition free (d : dense) (r : nat) : Prop := forall l, ~ In (DLarge r) (d_occs d l).
Definition clean (d : dense) : Prop := forall k, d_marks d k = false.
Record pinv (d : dense) : Prop := mk_pinv {
  pi_neg : forall l, dval d (neg l) = option_map negb (dval d l);
  pi_trail : forall l, In l (trail (d_sol d)) -> dval d l = Some true;
  pi_large : forall l r, In (DLarge r) (d_occs d l) ->
    exists c, arena (d_sol d) r = Some c /\ c_redundant c = false /\ In l (c_lits c);
  pi_taut : forall r c l, arena (d_sol d) r = Some c -> live c -> In l (c_lits c) -> In (neg l) (c_lits c) -> False;
  pi_nodup : forall r c, arena (d_sol d) r = Some c -> live c -> NoDup (c_lits c);
  pi_bin : forall a b, In (DBinary b) (d_occs d a) -> idx a <> idx b;
  pi_sym : forall a b, In (DBinary b) (d_occs d a) -> In (DBinary a) (d_occs d b);
  pi_next : forall r, next_ref (d_sol d) <= r -> arena (d_sol d) r = None;
  pi_gone : forall l, d_gone d (idx l) = true -> d_occs d l = [];
  pi_kept : forall r c l, arena (d_sol d) r = Some c -> live c -> In l (c_lits c) -> d_gone d (idx l) = false }.

Lemma units_false' : forall d v l, pinv d -> units d v -> dval d l = Some false -> tr v l = false.
Proof.
  intros d v l V U F. assert (T : dval d (neg l) = Some true) by (rewrite (pi_neg _ V), F; reflexivity).
  apply U in T. rewrite tr_neg in T. now destruct (tr v l).
Qed.

(** ** Steps which keep the models *)
Definition frozen (d : dense) := (d_extend d, d_imports d, d_exports d, d_eliminated d, d_gone d, active (d_sol d), next_ref (d_sol d), vars (d_sol d)).
Record fev (X : nat -> Prop) (d d' : dense) : Prop := mk_fev {
  fe_inv : pinv d';
  fe_models : forall v, models d v <-> models d' v;
  fe_val : forall l b, dval d l = Some b -> dval d' l = Some b;
  fe_same : frozen d' = frozen d;
  fe_free : forall r, ~ X r -> free d r -> arena (d_sol d') r = arena (d_sol d) r /\ free d' r;
  fe_arena : forall r c', arena (d_sol d') r = Some c' -> exists c, arena (d_sol d) r = Some c /\
    c_redundant c' = c_redundant c /\ incl (c_lits c') (c_lits c) /\ (c_garbage c = true -> c_garbage c' = true);
  fe_bins : forall a b, In (DBinary b) (d_occs d' a) -> In (DBinary b) (d_occs d a) \/
    exists r c, arena (d_sol d) r = Some c /\ live c /\ In a (c_lits c) /\ In b (c_lits c);
  fe_steps : exists st, steps (d_sol d') = st ++ steps (d_sol d) /\ forall c v, In (Added c) st -> models d v -> sat_clause v c }.

Lemma fev_refl : forall X d, pinv d -> fev X d d.
Proof.
  intros X d V. constructor; auto; try reflexivity.
  - intros r c H. exists c. splits; auto. apply incl_refl.
  - exists []. split; [reflexivity|]. intros c v [].
Qed.
Lemma fev_trans : forall X a b c, fev X a b -> fev X b c -> fev X a c.
Proof.
  intros X a b c A B. constructor.
  - apply (fe_inv _ _ _ B).
  - intros v. now rewrite (fe_models _ _ _ A), (fe_models _ _ _ B).
  - intros l x H. apply (fe_val _ _ _ B), (fe_val _ _ _ A), H.
  - now rewrite (fe_same _ _ _ B), (fe_same _ _ _ A).
  - intros r N F. destruct (fe_free _ _ _ A r N F) as (E & F'). destruct (fe_free _ _ _ B r N F') as (E' & F''). split; auto. congruence.
  - intros r x H. destruct (fe_arena _ _ _ B r x H) as (y & Y & R & I & G). destruct (fe_arena _ _ _ A r y Y) as (z & Z & R' & I' & G').
    exists z. splits; auto; [congruence|]. eapply incl_tran; eauto.
  - intros x y I. destruct (fe_bins _ _ _ B x y I) as [J|(r & k & Ar & L & Ix & Iy)]; [now apply (fe_bins _ _ _ A)|].
    destruct (fe_arena _ _ _ A r k Ar) as (z & Z & R & In0 & G). right. exists r, z. splits; auto.
    destruct L as [L1 L2]. split; [congruence|]. destruct (c_garbage z); auto. rewrite G in L2; auto.
  - destruct (fe_steps _ _ _ A) as (s1 & E1 & H1). destruct (fe_steps _ _ _ B) as (s2 & E2 & H2). exists (s2 ++ s1).
    split; [now rewrite E2, E1, app_assoc|]. intros k v I M. apply in_app_iff in I as [I|I]; [|eauto]. apply (H2 k v I). now apply (fe_models _ _ _ A).
Qed.
Lemma fev_mono : forall (X Y : nat -> Prop) d d', (forall r, X r -> Y r) -> fev X d d' -> fev Y d d'.
Proof.
  intros X Y d d' H F. destruct F as [F1 F2 F3 F4 F5 F6 F7 F8]. constructor; auto.
Qed.
Definition nobody (r : nat) : Prop := False.
Lemma fev_any : forall X d d', fev nobody d d' -> fev X d d'.
Proof. intros X d d'. apply fev_mono. intros r []. Qed.

(** *** Changes which are not visible *)
Lemma fev_same : forall X d d' st, pinv d ->
  values (d_sol d') = values (d_sol d) -> trail (d_sol d') = trail (d_sol d) -> arena (d_sol d') = arena (d_sol d) ->
  inconsistent (d_sol d') = inconsistent (d_sol d) -> d_occs d' = d_occs d -> frozen d' = frozen d ->
  steps (d_sol d') = st ++ steps (d_sol d) -> (forall c, ~ In (Added c) st) -> fev X d d'.
Proof.
  intros X d d' st V A B C D E F G H. pose proof F as F'. unfold frozen in F'. injection F' as _ _ _ _ Fg _ Fn _.
  constructor; auto.
  - destruct V. constructor; unfold dval in *; rewrite ?A, ?B, ?C, ?D, ?E, ?Fg, ?Fn; auto.
  - intros v. unfold models, units, bins, larges, dval. now rewrite A, C, D, E.
  - intros l b. unfold dval. now rewrite A.
  - intros r _ Fr. rewrite C. split; auto. unfold free. now rewrite E.
  - intros r c Ar. rewrite C in Ar. exists c. splits; auto. apply incl_refl.
  - intros a b. rewrite E. auto.
  - exists st. split; auto. intros c v I. now apply H in I.
Qed.

(** *** A clause which is implied by the others becomes garbage *)
Definition but (r : nat) (d : dense) (v : assignment) : Prop :=
  inconsistent (d_sol d) = false /\ units d v /\ bins d v /\
  forall q x, q <> r -> arena (d_sol d) q = Some x -> live x -> sat_clause v (c_lits x).
Lemma but_models : forall r d v, models d v -> but r d v.
Proof. intros r d v (A & B & C & D). unfold but. splits; auto. intros q x _. apply D. Qed.
Definition garbage (r : nat) (c : clause) (d : dense) : dense :=
  set_d_sol (del_step (c_lits c) (set_clause r (Some (mk_clause (c_lits c) (c_redundant c) true (c_searched c))) (d_sol d))) d.
Lemma eliminate_clause_form : forall r d, ok (eliminate_clause r d) (fun d' =>
  exists c, arena (d_sol d) r = Some c /\ c_garbage c = false /\ d' = garbage r c d).
Proof.
  intros r d. unfold eliminate_clause, mark_garbage. destruct (arena (d_sol d) r) as [c|] eqn:E; [|exact I].
  apply ok_bind, ok_bind, ok_assert. intros G. cbn. exists c. destruct (c_garbage c); [discriminate|]. auto.
Qed.
Lemma garbage_arena : forall r c d q, arena (d_sol (garbage r c d)) q =
  if q =? r then Some (mk_clause (c_lits c) (c_redundant c) true (c_searched c)) else arena (d_sol d) q.
Proof.
  intros. cbn. destruct (Nat.eqb_spec q r) as [->|N]; [apply upd_same|now apply upd_other].
Qed.
Lemma fev_garbage : forall (X : nat -> Prop) r c d, pinv d -> arena (d_sol d) r = Some c -> X r \/ ~ free d r ->
  (forall v, but r d v -> sat_clause v (c_lits c)) -> fev X d (garbage r c d).
Proof.
  intros X r c d V Ar Xr H.
  assert (K : forall q x, arena (d_sol (garbage r c d)) q = Some x -> live x -> q <> r /\ arena (d_sol d) q = Some x).
  { intros q x. rewrite garbage_arena. destruct (Nat.eqb_spec q r) as [->|N]; auto. intros E [_ L]. injection E as <-. discriminate. }
  constructor; try reflexivity.
  - destruct V as [I1 I2 I3 I4 I5 I6 I7 I8 I9 I10]. constructor; auto.
    + intros l q I. destruct (I3 l q I) as (x & Hx & R & L). rewrite garbage_arena. destruct (Nat.eqb_spec q r) as [->|N]; [|eauto].
      rewrite Ar in Hx. injection Hx as <-. eexists. split; [reflexivity|]. auto.
    + intros q x l A L. destruct (K q x A L). eapply I4; eauto.
    + intros q x A L. destruct (K q x A L). eapply I5; eauto.
    + intros q L. rewrite garbage_arena. destruct (Nat.eqb_spec q r) as [->|N]; [|now apply I8]. cbn in L. rewrite I8 in Ar by auto. discriminate.
    + intros q x l A L. destruct (K q x A L). eapply I10; eauto.
  - intros v. split.
    + intros (M1 & M2 & M3 & M4). unfold models. splits; auto. intros q x A L. destruct (K q x A L). eapply M4; eauto.
    + intros (M1 & M2 & M3 & M4). unfold models. splits; auto. intros q x A L. destruct (Nat.eq_dec q r) as [->|N].
      * rewrite Ar in A. injection A as <-. apply H. unfold but. splits; auto. intros q y N A' L'. apply (M4 q y); auto. rewrite garbage_arena. now destruct (Nat.eqb_spec q r).
      * apply (M4 q x); auto. rewrite garbage_arena. now destruct (Nat.eqb_spec q r).
  - intros l b F. exact F.
  - intros q N F. split; auto. rewrite garbage_arena. destruct (Nat.eqb_spec q r) as [->|]; tauto.
  - intros q x A. rewrite garbage_arena in A. destruct (Nat.eqb_spec q r) as [->|N]; [injection A as <-; exists c; cbn; splits; auto; apply incl_refl|].
    exists x. splits; auto. apply incl_refl.
  - intros a b I. now left.
  - exists [Deleted (c_lits c)]. split; [reflexivity|]. intros k v [E|[]]. discriminate.
Qed.
Lemma eliminate_satisfied : forall (X : nat -> Prop) r d, pinv d -> X r \/ ~ free d r ->
  (forall c, arena (d_sol d) r = Some c -> satisfied_clause d c) ->
  ok (eliminate_clause r d) (fun d' => fev X d d' /\ quiet d d' /\ (forall k, dval d' k = dval d k) /\
    exists c, arena (d_sol d) r = Some c /\ d' = garbage r c d).
Proof.
  intros X r d V Xr H. eapply ok_mono; [apply eliminate_clause_form|]. intros d' (c & Ar & _ & ->). splits; [|repeat split|reflexivity|eauto].
  apply fev_garbage; auto. intros v (_ & U & _). destruct (H c Ar) as (k & I & T). exists k. auto.
Qed.

(** *** Units *)
Lemma assign_steps : forall lvl r l s, ok (assign lvl r l s) (fun s' => vars s' = vars s /\ (steps s' = steps s \/ steps s' = Added [l] :: steps s)).
Proof.
  intros. unfold assign. apply ok_bind, ok_assert. intros A. apply ok_bind, ok_assert. intros _.
  cbn. destruct (lvl =? 0); cbn; [destruct (is_unit_reason r); cbn|]; auto.
Qed.
Definition assigned (l : lit) (s s' : solver) : Prop :=
  assigned_at l s s' /\ vars s' = vars s /\ exists st, steps s' = st ++ steps s /\ forall c, In (Added c) st -> c = [l].
Lemma ok_and : forall A (m : outcome A) P Q, ok m P -> ok m Q -> ok m (fun a => P a /\ Q a).
Proof. intros A m P Q. destruct m; cbn; auto. Qed.
Lemma assign_assigned : forall lvl r l s, ok (assign lvl r l s) (assigned l s).
Proof.
  intros. eapply ok_mono; [apply ok_and; [apply assign_form|apply assign_steps]|]. cbv beta. intros s' (A & E & B). split; [exact A|]. split; auto.
  destruct B as [B|B]; [exists []|exists [Added [l]]]; split; auto; intros c; cbn; intuition congruence.
Qed.
Lemma assign_reference_assigned : forall l r s, ok (assign_reference l r s) (assigned l s).
Proof. intros. unfold assign_reference. destruct (arena s r); [|exact I]. apply assign_assigned. Qed.
Lemma learned_unit_assigned : forall l s, ok (learned_unit l s) (assigned l s).
Proof.
  intros. unfold learned_unit, assign_unit. apply ok_bind. eapply ok_mono; [apply assign_assigned|]. intros s' (H & E & st & Es & Hs). split; [exact H|]. split; [exact E|].
  exists (Added [l] :: st). split; [cbn; now rewrite Es|]. intros c [K|K]; auto. congruence.
Qed.
Lemma fev_assign : forall X l d s', assigned l (d_sol d) s' -> pinv d -> (forall v, models d v -> tr v l = true) ->
  fev X d (set_d_sol s' d).
Proof.
  intros X l d s' ((N & A & B & C & D & E & F & P) & Ev & st & Es & Hs) V H.
  assert (N' : dval d (neg l) = None) by (rewrite (pi_neg _ V); unfold dval; now rewrite N).
  assert (Va : forall k, dval (set_d_sol s' d) k = if k =? neg l then Some false else if k =? l then Some true else dval d k).
  { intros k. unfold dval. cbn. rewrite A. unfold upd. reflexivity. }
  assert (Mo : forall k b, dval d k = Some b -> dval (set_d_sol s' d) k = Some b).
  { intros k b K. rewrite Va. destruct (Nat.eqb_spec k (neg l)) as [->|]; [congruence|]. destruct (Nat.eqb_spec k l) as [->|]; auto. unfold dval in K. congruence. }
  assert (Tl : dval (set_d_sol s' d) l = Some true).
  { rewrite Va. destruct (Nat.eqb_spec l (neg l)) as [e|_]; [now apply neg_neq' in e|]. now rewrite Nat.eqb_refl. }
  constructor; auto.
  - destruct V as [I1 I2 I3 I4 I5 I6 I7 I8 I9 I10]. constructor; cbn; rewrite ?C, ?D; auto.
    + intros k. rewrite !Va. destruct (Nat.eqb_spec (neg k) (neg l)) as [e|X'].
      * apply neg_inj in e as ->. destruct (Nat.eqb_spec l (neg l)) as [e|_]; [now apply neg_neq' in e|]. now rewrite Nat.eqb_refl.
      * destruct (Nat.eqb_spec (neg k) l) as [<-|Y].
        -- rewrite neg_neg, Nat.eqb_refl. reflexivity.
        -- destruct (Nat.eqb_spec k (neg l)) as [->|]; [rewrite neg_neg in Y; congruence|].
           destruct (Nat.eqb_spec k l) as [->|]; [congruence|]. apply I1.
    + intros k. rewrite B, in_app_iff. intros [K|[<-|[]]]; auto.
  - intros v. split; intros M.
    + pose proof (H v M) as T. destruct M as (M1 & M2 & M3 & M4). unfold models, bins, larges. cbn. rewrite C, E.
      splits; auto. intros k. rewrite Va. destruct (k =? neg l); [discriminate|].
      destruct (Nat.eqb_spec k l) as [->|]; auto.
    + destruct M as (M1 & M2 & M3 & M4). unfold models, bins, larges in *. cbn in *. rewrite C, E in *. splits; auto. intros k K. apply M2. auto.
  - unfold frozen. cbn. now rewrite F, D, Ev.
  - intros r _ Fr. cbn. rewrite C. split; auto.
  - intros r c. cbn. rewrite C. intros Ar. exists c. splits; auto. apply incl_refl.
  - exists st. split; auto. intros c v I M. rewrite (Hs c I). exists l. split; [now left|auto].
Qed.
Lemma learned_fev : forall X l d, pinv d -> (forall v, models d v -> tr v l = true) ->
  ok (dense_learned_unit l d) (fun d' => fev X d d' /\ quiet d d' /\ dval d' l = Some true /\ arena (d_sol d') = arena (d_sol d)).
Proof.
  intros X l d V H. unfold dense_learned_unit. apply ok_bind. eapply ok_mono; [apply learned_unit_assigned|].
  intros s' A. cbn. pose proof (fev_assign X l d s' A V H). destruct A as ((N & A & B & C & _) & _). splits; auto; [repeat split|].
  unfold dval. cbn. rewrite A. rewrite upd_other by apply neg_neq'. apply upd_same.
Qed.
Lemma inconsistent_fev : forall X d, pinv d -> (forall v, ~ models d v) ->
  ok (dense_inconsistent d) (fun d' => fev X d d' /\ quiet d d' /\ inconsistent (d_sol d') = true /\ arena (d_sol d') = arena (d_sol d)).
Proof.
  intros X d V H. unfold dense_inconsistent. apply ok_bind, ok_assert. intros _. cbn. splits; auto; [|repeat split]. constructor; auto; try reflexivity.
  - destruct V. constructor; auto.
  - intros v. split; intros M; [now apply H in M|]. destruct M as (M & _). discriminate.
  - intros r c A. exists c. splits; auto. apply incl_refl.
  - exists [Added []]. split; [reflexivity|]. intros c v _ M. now apply H in M.
Qed.

(** *** Occurrence lists *)
Lemma fev_occs : forall (X : nat -> Prop) occs d, pinv d ->
  (forall a b, In (DBinary b) (occs a) <-> In (DBinary b) (d_occs d a)) ->
  (forall k r, In (DLarge r) (occs k) -> In (DLarge r) (d_occs d k) \/
     (X r /\ d_gone d (idx k) = false /\ exists c, arena (d_sol d) r = Some c /\ c_redundant c = false /\ In k (c_lits c))) ->
  fev X d (set_d_occs occs d).
Proof.
  intros X occs d V Bi La. constructor; try reflexivity.
  - destruct V as [I1 I2 I3 I4 I5 I6 I7 I8 I9 I10]. constructor; auto; cbn.
    + intros l r I. destruct (La l r I) as [J|(_ & _ & J)]; auto.
    + intros a b I. apply I6. now apply Bi.
    + intros a b I. apply Bi, I7. now apply Bi.
    + intros l G. destruct (occs l) as [|w ws] eqn:E; auto. exfalso. assert (I : In w (occs l)) by (rewrite E; now left).
      destruct w as [b|r]; [apply Bi in I|destruct (La l r I) as [J|(_ & J & _)]; [rename J into I0; clear I; rename I0 into I|congruence]]; rewrite (I9 l G) in I; exact I.
  - intros v. unfold models, units, bins, larges. cbn. split; intros (M1 & M2 & M3 & M4); splits; auto; intros a b I; apply M3; now apply Bi.
  - intros l b F. exact F.
  - intros r N F. split; auto. intros l I. cbn in I. destruct (La l r I) as [J|(J & _)]; [now apply F in J|auto].
  - intros r c A. exists c. splits; auto. apply incl_refl.
  - intros a b I. left. now apply Bi.
  - exists []. split; [reflexivity|]. intros c v [].
Qed.

(** ** Propagation *)
Lemma watch_not_free : forall d l r, In (DLarge r) (d_occs d l) -> ~ free d r.
Proof. intros d l r I F. now apply F in I. Qed.
Lemma propagate_watches_fev : forall not_l ws d, pinv d -> dval d not_l = Some false -> incl ws (d_occs d not_l) ->
  ok (dense_propagate_watches not_l ws d) (fun '(b, d') => fev nobody d d' /\ quiet d d' /\ (b = false -> forall v, ~ models d' v)).
Proof.
  intros not_l. induction ws as [|w ws IH]; intros d V Fl In0; cbn [dense_propagate_watches].
  - cbn. splits; auto using fev_refl, quiet_refl. discriminate.
  - assert (Iw : In w (d_occs d not_l)) by (apply In0; now left).
    assert (In1 : incl ws (d_occs d not_l)) by (intros x I; apply In0; now right).
    assert (Nx : forall d', fev nobody d d' -> quiet d d' -> ok (dense_propagate_watches not_l ws d') (fun '(b, d'') => fev nobody d d'' /\ quiet d d'' /\ (b = false -> forall v, ~ models d'' v))).
    { intros d' E Q. eapply ok_mono; [apply IH; [apply (fe_inv _ _ _ E)|now apply (fe_val _ _ _ E)|destruct Q as (Q & _); now rewrite Q]|].
      intros (b & d'') (E' & Q' & M). splits; auto; [eapply fev_trans|eapply quiet_trans]; eauto. }
    destruct w as [other|ref].
    + destruct (dtrue d other) eqn:To; [apply IH; auto|].
      destruct (dfalse d other) eqn:Fo.
      * cbn. splits; auto using fev_refl, quiet_refl. intros _ v (M1 & M2 & M3 & M4).
        apply dfalse_spec in Fo. destruct (M3 _ _ Iw) as [T|T]; rewrite (units_false' d v) in T; auto; discriminate.
      * destruct (d_gone d (idx other)); [apply IH; auto|].
        apply ok_bind. eapply ok_mono; [apply assign_assigned|]. intros s' A.
        apply Nx; [|repeat split]. eapply fev_assign; eauto. intros v (M1 & M2 & M3 & M4).
        destruct (M3 _ _ Iw) as [T|T]; auto. rewrite (units_false' d v) in T; auto; discriminate.
    + apply ok_bind. eapply ok_mono; [apply get_clause_spec|]. cbv beta. intros c Ar.
      apply ok_bind, ok_assert. intros R. destruct (c_garbage c) eqn:G; [apply IH; auto|].
      assert (Lc : live c) by (split; auto; now destruct (c_redundant c)).
      pose proof (dense_scan_spec not_l (c_lits c) None d) as Sc. destruct (dense_scan not_l (c_lits c) None d) as [[|u [|]]|].
      * cbn. splits; auto using fev_refl, quiet_refl. intros _ v (M1 & M2 & M3 & M4).
        destruct (M4 _ _ Ar Lc) as (k & I & T). destruct Sc as [_ Sc]. destruct (Sc k I) as [->|F]; rewrite (units_false' d v) in T; auto; discriminate.
      * apply ok_bind. eapply ok_mono; [apply assign_reference_assigned|]. intros s' A.
        apply Nx; [|repeat split]. eapply fev_assign; eauto. intros v (M1 & M2 & M3 & M4).
        destruct (M4 _ _ Ar Lc) as (k & I & T). destruct Sc as [_ Sc]. destruct (Sc k I) as [->|[->|F]]; auto; rewrite (units_false' d v) in T; auto; discriminate.
      * apply IH; auto.
      * apply ok_bind. eapply ok_mono; [apply (eliminate_satisfied nobody); auto|].
        -- right. eapply watch_not_free; eauto.
        -- intros c' Ar'. rewrite Ar in Ar'. injection Ar' as <-. destruct Sc as (k & I & T). exists k. auto.
        -- cbv beta. intros d' (E & Q & _). now apply Nx.
Qed.
Lemma propagate_loop_fev : forall fuel d, pinv d ->
  ok (dense_propagate_loop fuel d) (fun '(b, d') => fev nobody d d' /\ quiet d d' /\ (b = false -> forall v, ~ models d' v)).
Proof.
  induction fuel as [|fuel IH]; intros d V; cbn [dense_propagate_loop].
  - destruct (nth_error _ _); [exact I|]. cbn. splits; auto using fev_refl, quiet_refl. discriminate.
  - destruct (nth_error (trail (d_sol d)) (propagate (d_sol d))) as [l|] eqn:N; [|cbn; splits; auto using fev_refl, quiet_refl; discriminate].
    apply ok_bind, ok_assert. intros T. apply dtrue_spec in T.
    set (d1 := set_d_sol _ d). assert (E1 : fev nobody d d1) by (apply (fev_same _ _ _ []); auto; reflexivity).
    assert (Q1 : quiet d d1) by repeat split.
    apply ok_bind. eapply ok_mono; [apply propagate_watches_fev; [apply (fe_inv _ _ _ E1)| |apply incl_refl]|].
    + rewrite (pi_neg _ (fe_inv _ _ _ E1)). apply (fe_val _ _ _ E1) in T. now rewrite T.
    + intros (b & d2) (E2 & Q2 & M). destruct b.
      * eapply ok_mono; [apply IH; apply (fe_inv _ _ _ E2)|]. intros (b & d3) (E3 & Q3 & M3).
        splits; auto; [exact (fev_trans _ _ _ _ E1 (fev_trans _ _ _ _ E2 E3))|exact (quiet_trans _ _ _ Q1 (quiet_trans _ _ _ Q2 Q3))].
      * cbn. split; [exact (fev_trans _ _ _ _ E1 E2)|]. split; [exact (quiet_trans _ _ _ Q1 Q2)|auto].
Qed.
Lemma propagate_fev : forall d, pinv d -> ok (dense_propagate d) (fun '(b, d') => fev nobody d d' /\ quiet d d').
Proof.
  intros d V. unfold dense_propagate. apply ok_bind, ok_assert. intros _. apply ok_bind.
  eapply ok_mono; [apply propagate_loop_fev; auto|]. intros (b & d') (E & Q & M). destruct b.
  - cbn. splits; auto.
  - apply ok_bind. eapply ok_mono; [apply (inconsistent_fev nobody); [apply (fe_inv _ _ _ E)|auto]|].
    cbv beta. intros d2 (E2 & Q2 & _). cbn. split; [exact (fev_trans _ _ _ _ E E2)|exact (quiet_trans _ _ _ Q Q2)].
Qed.
Lemma flush_unit_watches_fev : forall unit ws d, pinv d -> dval d unit = Some true -> incl ws (d_occs d unit) ->
  ok (flush_unit_watches ws d) (fun '(ws', d') => fev nobody d d' /\ quiet d d' /\
    (forall b, In (DBinary b) ws' <-> In (DBinary b) ws) /\ (forall r, ~ In (DLarge r) ws')).
Proof.
  intros unit. induction ws as [|w ws IH]; intros d V T In0; cbn [flush_unit_watches].
  - cbn. splits; auto using fev_refl, quiet_refl. intros b. tauto.
  - assert (In1 : incl ws (d_occs d unit)) by (intros x I; apply In0; now right).
    destruct w as [other|ref].
    + apply ok_bind. eapply ok_mono; [apply IH; auto|]. intros (ws' & d') (E & Q & C & N). cbn [ok]. splits; auto.
      * intros b. cbn. rewrite C. tauto.
      * intros r [X|X]; [discriminate|]. now apply N in X.
    + apply ok_bind. eapply ok_mono; [apply get_clause_spec|]. cbv beta. intros c Ar. apply ok_bind.
      assert (X : ok (if c_garbage c then Ret d else eliminate_clause ref d) (fun d' => fev nobody d d' /\ quiet d d')).
      { destruct (c_garbage c) eqn:G; [cbn; splits; auto using fev_refl, quiet_refl|].
        assert (Iw : In (DLarge ref) (d_occs d unit)) by (apply In0; now left).
        eapply ok_mono; [apply (eliminate_satisfied nobody); auto|].
        - right. eapply watch_not_free; eauto.
        - intros c' Ar'. destruct (pi_large _ V _ _ Iw) as (c2 & Ar2 & _ & L). exists unit. split; auto. congruence.
        - cbv beta. intros d' (E & Q & _). auto. }
      eapply ok_mono; [exact X|]. cbv beta. intros d1 (E1 & Q1). pose proof Q1 as (O1 & _).
      eapply ok_mono; [apply IH; [apply (fe_inv _ _ _ E1)|now apply (fe_val _ _ _ E1)|now rewrite O1]|].
      intros (ws' & d') (E & Q & C & N). splits; [eapply fev_trans; eauto|eapply quiet_trans; eauto| |exact N].
      intros b. rewrite C. cbn. intuition discriminate.
Qed.
Lemma flush_units_loop_fev : forall us d, pinv d -> (forall u, In u us -> dval d u = Some true) ->
  ok (flush_units_loop us d) (fun d' => fev nobody d d' /\ calm d d').
Proof.
  induction us as [|u us IH]; intros d V T; cbn [flush_units_loop].
  - cbn. split; [auto using fev_refl|repeat split].
  - apply ok_bind. eapply ok_mono; [apply (flush_unit_watches_fev u); [auto|apply T; now left|apply incl_refl]|].
    intros (ws & d1) (E1 & Q1 & C & N). pose proof Q1 as (O1 & M1 & R1).
    set (d2 := set_d_occs _ d1).
    assert (E2 : fev nobody d1 d2).
    { apply fev_occs; [apply (fe_inv _ _ _ E1)| |].
      - intros a b. destruct (Nat.eq_dec a u) as [->|Nk]; [|now rewrite upd_other]. now rewrite upd_same, C, O1.
      - intros k r. destruct (Nat.eq_dec k u) as [->|Nk]; [|rewrite upd_other; auto]. rewrite upd_same. intros I. now apply N in I. }
    eapply ok_mono; [apply IH; [apply (fe_inv _ _ _ E2)|]|].
    + intros x I. apply (fe_val _ _ _ E2), (fe_val _ _ _ E1), T. now right.
    + cbv beta. intros d' (E & (M & R)). split; [exact (fev_trans _ _ _ _ E1 (fev_trans _ _ _ _ E2 E))|]. split; [rewrite M|rewrite R]; assumption.
Qed.
Lemma flush_units_fev : forall d, pinv d -> ok (flush_units_while_connected d) (fun d' => fev nobody d d' /\ calm d d').
Proof.
  intros d V. unfold flush_units_while_connected. destruct (_ <=? _). { cbn. split; [auto using fev_refl|repeat split]. }
  apply ok_bind. eapply ok_mono; [apply propagate_fev; auto|]. intros (b & d1) (E & (O & M & R)). destruct b.
  - eapply ok_mono; [apply flush_units_loop_fev; [apply (fe_inv _ _ _ E)|]|].
    + intros u I. apply (pi_trail _ (fe_inv _ _ _ E)). rewrite <- (firstn_skipn (propagate (d_sol d)) (trail (d_sol d1))). apply in_or_app. now right.
    + cbv beta. intros d' (E' & (M' & R')). split; [eapply fev_trans; eauto|]. split; congruence.
  - cbn. split; [auto|now split].
Qed.
