(** Backbone extraction only finds implied literals, and keeps the invariants. *)
From Coq Require Import ZArith List Bool Lia Arith Permutation.
From Coq Require Import ZifyBool ZifyNat.
From Verif Require Import Base Hoare SpecSat SpecGraph Lit Sem Solver Transitive Backbone Inv DbFacts AssignFacts AssignSpec BacktrackFacts PropFacts PropLoop Justify CutFacts OneLit MarkFacts ClauseFacts TransitiveFacts.
Import ListNotations.
Open Scope nat_scope.

Section Graph.
Variable n : nat.
Variable W : lit -> list watch.
Hypothesis Wn : forall a b, In (WBinary b) (W a) -> b < 2 * n.
Hypothesis Ws : forall a b, In (WBinary b) (W a) -> In (WBinary a) (W b).
Hypothesis Wd : forall a b, In (WBinary b) (W a) -> a <> b.

Definition implies : lit -> lit -> Prop := chain neg (fun a b => In (WBinary b) (W a)).
(** The literal leads to a conflict. *)
Definition refutes (u : lit) : Prop := exists a b, In (WBinary b) (W a) /\ implies u (neg a) /\ implies u (neg b).
Definition closed (vals : assignment_values) : Prop :=
  forall l b, vals l = Some true -> In (WBinary b) (W (neg l)) -> vals b = Some true.

(** ** Propagating one candidate *)
Section Segment.
Variable vals0 : assignment_values.
Variable old : list lit.
Variable h : lit.
Hypothesis Sy0 : symmetric vals0.
Hypothesis Cl0 : closed vals0.
Hypothesis Old : forall l, In l old -> vals0 l = Some true.

Record pst (t : backbone) (seg : list lit) : Prop := {
  ps_sym : symmetric (bb_values t);
  ps_trail : bb_trail t = old ++ seg;
  ps_true : forall l, bb_values t l = Some true <-> vals0 l = Some true \/ In l seg;
  ps_new : forall l, In l seg -> vals0 l = None;
  ps_range : forall l, In l seg -> l < 2 * n;
  ps_nodup : NoDup (map idx (old ++ seg));
  ps_reason : forall l p q, seg = p ++ l :: q -> (p = [] /\ l = h) \/
    exists r, bb_reasons t (idx l) = ByBinary r /\ In r p /\ In (WBinary l) (W (neg r)) }.

Lemma assigned_eq : forall l r t, symmetric (bb_values t) -> bb_values t l = None ->
  backbone_assign l r t = Ret (mk_backbone (upd (upd (bb_values t) l (Some true)) (neg l) (Some false)) (upd (bb_reasons t) (idx l) r) (bb_trail t ++ [l])).
Proof. intros l r t Sy N. unfold backbone_assign. rewrite Sy, N. reflexivity. Qed.
Lemma true_assigned : forall vals l k, symmetric vals -> vals l = None ->
  upd (upd vals l (Some true)) (neg l) (Some false) k = Some true <-> vals k = Some true \/ k = l.
Proof.
  intros vals l k Sy N. rewrite vals_assigned. destruct (Nat.eqb_spec k (neg l)) as [->|X].
  - rewrite Sy, N. cbn. split; [discriminate|]. intros [Y|Y]; [discriminate|]. now apply neg_neq in Y.
  - destruct (Nat.eqb_spec k l) as [->|Y]; [tauto|]. intuition.
Qed.
Lemma same_idx : forall vals k l, symmetric vals -> idx k = idx l -> vals l = None -> vals k = None.
Proof.
  intros vals k l Sy E N. apply idx_eq in E as [-> | ->]; auto. now rewrite Sy, N.
Qed.
Lemma nodup_snoc : forall (l : list nat) x, NoDup l -> ~ In x l -> NoDup (l ++ [x]).
Proof.
  intros l x N I. apply NoDup_rev in N. rewrite <- (rev_involutive (l ++ [x])). apply NoDup_rev. rewrite rev_app_distr. cbn.
  constructor; auto. now rewrite <- in_rev.
Qed.

(** The first literal. *)
Lemma pst_start : forall r t, bb_trail t = old -> (forall l, bb_values t l = vals0 l) -> NoDup (map idx old) -> vals0 h = None -> h < 2 * n ->
  wp (backbone_assign h r t) (fun t' => pst t' [h] /\ S (free n (bb_values t')) = free n vals0).
Proof.
  intros r t Et Ev Nd N L. assert (Sy : symmetric (bb_values t)) by (intros l; now rewrite !Ev).
  assert (Nh : bb_values t h = None) by now rewrite Ev. rewrite assigned_eq by auto. cbn [wp]. split.
  - constructor; cbn [bb_values bb_trail bb_reasons].
    + now apply symmetric_assigned.
    + now rewrite Et.
    + intros l. rewrite true_assigned by auto. rewrite Ev. cbn. intuition.
    + now intros l [<-|[]].
    + now intros l [<-|[]].
    + rewrite map_app. cbn. apply nodup_snoc; auto. intros I. apply in_map_iff in I as (k & E & I). apply Old in I.
      rewrite (same_idx vals0 k h Sy0 E N) in I. discriminate.
    + intros l p q E. left. destruct p as [|x p]; [injection E; auto|]. destruct p; discriminate.
  - cbn [bb_values]. rewrite free_assigned by auto. unfold free. f_equal. apply filter_ext. intros i. now rewrite Ev.
Qed.

Lemma pst_next : forall l b t seg, pst t seg -> In l seg -> In (WBinary b) (W (neg l)) -> bb_values t b = None ->
  wp (backbone_assign b (ByBinary l) t) (fun t' => pst t' (seg ++ [b]) /\ S (free n (bb_values t')) = free n (bb_values t) /\ bb_values t' b = Some true).
Proof.
  intros l b t seg [Sy Et Tr Nw Ra Nd Re] Il Ib N. rewrite assigned_eq by auto. cbn [wp].
  assert (N0 : vals0 b = None).
  { destruct (vals0 b) as [[]|] eqn:E; auto; exfalso.
    - assert (X : bb_values t b = Some true) by (apply Tr; auto). congruence.
    - assert (X : bb_values t (neg b) = Some true) by (apply Tr; left; rewrite Sy0, E; reflexivity). rewrite Sy, N in X. discriminate. }
  assert (Nb : ~ In (idx b) (map idx (old ++ seg))).
  { intros I. apply in_map_iff in I as (k & E & I). assert (X : bb_values t k = Some true).
    { apply Tr. apply in_app_or in I as [I|I]; auto. }
    rewrite (same_idx (bb_values t) k b Sy E N) in X. discriminate. }
  splits.
  - constructor; cbn [bb_values bb_trail bb_reasons].
    + now apply symmetric_assigned.
    + now rewrite Et, app_assoc.
    + intros k. rewrite true_assigned by auto. rewrite Tr, in_app_iff. cbn. intuition.
    + intros k I. apply in_app_or in I as [I|[<-|[]]]; auto.
    + intros k I. apply in_app_or in I as [I|[<-|[]]]; eauto.
    + rewrite app_assoc, map_app. cbn. now apply nodup_snoc.
    + intros k p q E. destruct q as [|y q] using rev_ind.
      * apply app_inj_tail in E as [<- <-]. right. exists l. rewrite upd_same. auto.
      * rewrite app_comm_cons, app_assoc in E. apply app_inj_tail in E as [E _]. destruct (Re k p q E) as [X|(r & R1 & R2 & R3)]; auto.
        right. exists r. splits; auto. rewrite upd_other; auto. intros X. apply Nb. rewrite <- X. apply in_map, in_or_app. right. rewrite E. apply in_mid.
  - cbn [bb_values]. apply free_assigned; eauto.
  - cbn [bb_values]. apply true_assigned; auto.
Qed.

Definition met (t : backbone) (seg : list lit) (c : lit * lit) : Prop :=
  In (WBinary (snd c)) (W (fst c)) /\ In (neg (fst c)) seg /\ bb_values t (snd c) = Some false.

Lemma literal_spec : forall l ws t seg, pst t seg -> In l seg -> incl ws (W (neg l)) ->
  wp (backbone_propagate_literal l ws t) (fun '(c, t') => exists ext, pst t' (seg ++ ext) /\
    free n (bb_values t') + length ext = free n (bb_values t) /\
    match c with
    | None => forall b, In (WBinary b) ws -> bb_values t' b = Some true
    | Some c => met t' (seg ++ ext) c
    end).
Proof.
  intros l. induction ws as [|w ws IH]; intros t seg P Il In0; cbn [backbone_propagate_literal].
  { apply wp_ret. exists []. rewrite app_nil_r. cbn. splits; auto. intros b []. }
  assert (Iw : In w (W (neg l))) by (apply In0; now left). assert (Is : incl ws (W (neg l))) by (intros x X; apply In0; now right).
  destruct w as [other|o r].
  - destruct (bb_values t other) as [[]|] eqn:E.
    + eapply wp_mono; [apply (IH t seg); auto|]. intros [c t'] (ext & P' & F & C). exists ext. splits; auto. destruct c; auto.
      intros b [X|X]; auto. injection X as <-. apply (ps_true _ _ P'). apply (ps_true _ _ P) in E as [E|E]; auto. right. apply in_or_app. now left.
    + apply wp_ret. exists []. rewrite app_nil_r. cbn. splits; auto. unfold met. cbn. rewrite neg_neg. auto.
    + apply wp_bind. eapply wp_mono; [apply (pst_next l other t seg); auto|]. intros t1 (P1 & F1 & T1).
      eapply wp_mono; [apply (IH t1 (seg ++ [other])); auto; apply in_or_app; auto|]. intros [c t'] (ext & P' & F & C).
      exists (other :: ext). rewrite <- app_assoc in P', C. cbn [app] in P', C. splits; auto; [cbn [length]; lia|]. destruct c; auto.
      intros b [X|X]; auto. injection X as <-. apply (ps_true _ _ P'). right. apply in_mid.
  - eapply wp_mono; [apply (IH t seg); auto|]. intros [c t'] (ext & P' & F & C). exists ext. splits; auto. destruct c; auto.
    intros b [X|X]; auto. discriminate.
Qed.

Lemma propagate_spec : forall fuel j t seg, pst t seg -> j <= length seg ->
  (forall l b, In l (firstn j seg) -> In (WBinary b) (W (neg l)) -> bb_values t b = Some true) ->
  free n (bb_values t) + (length seg - j) <= fuel ->
  wp (backbone_propagate fuel W (length old + j) t) (fun '(c, t') => exists ext, pst t' (seg ++ ext) /\
    match c with None => closed (bb_values t') | Some c => met t' (seg ++ ext) c end).
Proof.
  induction fuel as [|fuel IH]; intros j t seg P Lj Dn F; cbn [backbone_propagate]; rewrite (ps_trail _ _ P), nth_error_app2 by lia;
    replace (length old + j - length old) with j by lia; destruct (nth_error seg j) as [l|] eqn:E.
  - assert (j < length seg) by (apply nth_error_Some; congruence). lia.
  - apply wp_ret. exists []. rewrite app_nil_r. split; auto. apply nth_error_None in E. rewrite firstn_all2 in Dn by auto.
    intros l b Hl Ib. apply (ps_true _ _ P) in Hl as [Hl|Hl]; eauto. apply (ps_true _ _ P). left. eauto.
  - assert (Lj' : j < length seg) by (apply nth_error_Some; congruence). assert (Il : In l seg) by (eapply nth_error_In; eauto).
    assert (Tl : bb_values t l = Some true) by (apply (ps_true _ _ P); auto). rewrite Tl, (ps_sym _ _ P), Tl. cbn [option_map negb oassert obind].
    apply wp_bind. eapply wp_mono; [apply (literal_spec l (W (neg l)) t seg); auto; apply incl_refl|]. intros [[c|] t'] (ext & P' & F' & C); [apply wp_ret; eauto|].
    replace (S (length old + j)) with (length old + S j) by lia. eapply wp_mono; [apply (IH (S j) t' (seg ++ ext)); auto|].
    + rewrite app_length. lia.
    + intros k b Ik Ib. rewrite firstn_app in Ik. replace (S j - length seg) with 0 in Ik by lia. rewrite firstn_O, app_nil_r in Ik.
      rewrite <- (firstn_skipn j seg) in Ik. rewrite firstn_app, firstn_firstn in Ik. replace (Nat.min (S j) j) with j in Ik by lia.
      rewrite firstn_length_le in Ik by lia. replace (S j - j) with 1 in Ik by lia. apply in_app_or in Ik as [Ik|Ik].
      * assert (X : bb_values t b = Some true) by eauto. apply (ps_true _ _ P'). apply (ps_true _ _ P) in X as [X|X]; auto. right. apply in_or_app. auto.
      * assert (k = l).
        { rewrite <- (firstn_skipn j seg), nth_error_app2 in E by (rewrite firstn_length_le; lia). rewrite firstn_length_le, Nat.sub_diag in E by lia.
          destruct (skipn j seg); [discriminate|]. cbn in E, Ik. destruct Ik as [<-|[]]. congruence. }
        subst k. auto.
    + rewrite app_length. lia.
    + intros [c t2] (ext2 & P2 & C2). exists (ext ++ ext2). rewrite app_assoc. auto.
  - apply wp_ret. exists []. rewrite app_nil_r. split; auto. apply nth_error_None in E. rewrite firstn_all2 in Dn by auto.
    intros l b Hl Ib. apply (ps_true _ _ P) in Hl as [Hl|Hl]; eauto. apply (ps_true _ _ P). left. eauto.
Qed.

(** Conflicts are among the new literals. *)
Lemma met_new : forall t seg c, pst t seg -> met t seg c -> In (neg (snd c)) seg /\ neg (fst c) <> neg (snd c) /\ idx (fst c) <> idx (snd c).
Proof.
  intros t seg [a b] P (I & A & B). cbn [fst snd] in *.
  assert (Ta : bb_values t (neg a) = Some true) by (apply (ps_true _ _ P); auto).
  assert (Fa : bb_values t a = Some false) by (rewrite (ps_sym _ _ P) in Ta; destruct (bb_values t a) as [[]|]; cbn in Ta; congruence).
  assert (Tb : bb_values t (neg b) = Some true) by (rewrite (ps_sym _ _ P), B; reflexivity).
  pose proof (Wd _ _ I) as D. splits.
  - apply (ps_true _ _ P) in Tb as [Tb|Tb]; auto. exfalso.
    assert (X : bb_values t a = Some true); [|congruence]. apply (ps_true _ _ P). left. apply (Cl0 (neg b) a Tb). rewrite neg_neg. now apply Ws.
  - intros E. apply neg_inj in E. congruence.
  - intros E. apply idx_eq in E as [E | E]; [congruence|]. rewrite E in Fa. rewrite (ps_sym _ _ P), B in Fa. discriminate.
Qed.
Lemma seg_chain : forall t seg l, pst t seg -> In l seg -> implies h l.
Proof.
  intros t seg l P. assert (H : forall m p q l, length p = m -> seg = p ++ l :: q -> implies h l).
  { induction m as [m IH] using lt_wf_ind. intros p q k L E. destruct (ps_reason _ _ P k p q E) as [[_ ->]|(r & _ & Ir & Ib)]; [constructor|].
    apply in_split in Ir as (p1 & p2 & Ep). eapply chain_last; [|exact Ib]. apply (IH (length p1)) with (p := p1) (q := p2 ++ k :: q); auto.
    - rewrite Ep, app_length in L. cbn in L. lia.
    - rewrite E, Ep, <- app_assoc. reflexivity. }
  intros I. apply in_split in I as (p & q & E). eapply H; eauto.
Qed.
Lemma met_refutes : forall t seg c, pst t seg -> met t seg c -> refutes h.
Proof.
  intros t seg [a b] P M. destruct (met_new _ _ _ P M) as (B & _). destruct M as (I & A & _). cbn in *.
  exists a, b. splits; auto; eapply seg_chain; eauto.
Qed.

(** ** Analysis *)
Lemma existsb_eqb : forall i l, existsb (Nat.eqb i) l = true <-> In i l.
Proof. intros i l. rewrite existsb_exists. split; [intros (x & I & E); apply Nat.eqb_eq in E; now subst|intros I; exists i; split; auto; apply Nat.eqb_refl]. Qed.

Lemma uip_spec : forall t seg na nb, pst t seg -> forall p q an x y, seg = p ++ q -> In x p -> In y p -> x <> y ->
  (forall l, In l (old ++ p) -> (In (idx l) an <-> l = x \/ l = y)) ->
  (implies x na /\ implies y nb) \/ (implies x nb /\ implies y na) ->
  wp (backbone_uip (bb_reasons t) (rev (old ++ p)) an) (fun r => In r seg /\ implies r na /\ implies r nb).
Proof.
  intros t seg na nb P. induction p as [|l p IH] using rev_ind; intros q an x y E Ix Iy N A C; [destruct Ix|].
  rewrite app_assoc, rev_app_distr. cbn [rev app backbone_uip].
  assert (E' : seg = p ++ l :: q) by (rewrite E, <- app_assoc; reflexivity).
  assert (Nl : ~ In l (old ++ p) /\ forall k, In k (old ++ p) -> idx k <> idx l).
  { pose proof (ps_nodup _ _ P) as Nd. rewrite E', app_assoc, map_app in Nd. cbn [map] in Nd. apply NoDup_remove_2 in Nd.
    assert (Z : forall k, In k (old ++ p) -> idx k <> idx l) by (intros k I X; apply Nd, in_or_app; left; rewrite <- X; now apply in_map).
    split; auto. intros I. now apply (Z l I). }
  destruct Nl as [Nl Ni].
  assert (Inj : forall u w, In u (old ++ seg) -> In w (old ++ seg) -> idx u = idx w -> u = w).
  { intros u w Iu Iw Eq. pose proof (ps_sym _ _ P) as Sy. assert (T : forall z, In z (old ++ seg) -> bb_values t z = Some true).
    { intros z Iz. apply (ps_true _ _ P). apply in_app_or in Iz as [Iz|Iz]; auto. }
    apply idx_eq in Eq as [Eq | Eq]; auto. pose proof (T u Iu) as Tu. rewrite Eq, Sy, (T w Iw) in Tu. discriminate. }
  assert (Sub : forall k, In k p -> In k (old ++ (p ++ [l]))) by (intros k I; apply in_or_app; right; apply in_or_app; auto).
  assert (Subs : forall k, In k (old ++ p) -> In k (old ++ seg)) by (intros k I; rewrite E'; apply in_app_or in I as [I|I]; apply in_or_app; auto; right; apply in_or_app; auto).
  destruct (existsb (Nat.eqb (idx l)) an) eqn:B; cbn [negb].
  2:{ assert (Ln : l <> x /\ l <> y).
      { assert (X : ~ In (idx l) an) by (intros X; apply existsb_eqb in X; congruence). split; intros <-; apply X, (A l); auto; apply in_or_app; right; auto. }
      apply (IH (l :: q) an x y); auto.
      - apply in_app_or in Ix as [Ix|[Ix|[]]]; auto. now destruct Ln.
      - apply in_app_or in Iy as [Iy|[Iy|[]]]; auto. now destruct Ln.
      - intros k Ik. apply A. rewrite app_assoc. apply in_or_app. auto. }
  (* the latest analyzed literal is one of the two *)
  assert (Key : forall x y, In y p -> (forall k, In k (old ++ p ++ [l]) -> (In (idx k) an <-> k = x \/ k = y)) -> l = x ->
    (implies x na /\ implies y nb) \/ (implies x nb /\ implies y na) ->
    wp (match bb_reasons t (idx l) with ByBinary r => if existsb (Nat.eqb (idx r)) an then Ret r else backbone_uip (bb_reasons t) (rev (old ++ p)) (idx r :: an) | _ => Undef end)
      (fun r => In r seg /\ implies r na /\ implies r nb)).
  { clear x y Ix Iy N A C. intros x y Iy A <- C. destruct (ps_reason _ _ P l p q E') as [[-> _]|(r & -> & Ir & Ib)]; [destruct Iy|].
    assert (Rl : implies r l) by (eapply chain_next; [exact Ib|constructor]).
    destruct (existsb (Nat.eqb (idx r)) an) eqn:Br.
    - apply existsb_eqb, (A r) in Br; auto. destruct Br as [Br|Br]; [subst r; exfalso; apply Nl; apply in_or_app; auto|]. subst y. cbn [wp]. splits.
      + rewrite E'. apply in_or_app. auto.
      + destruct C as [[C1 C2]|[C1 C2]]; auto. eapply chain_trans; eauto.
      + destruct C as [[C1 C2]|[C1 C2]]; auto. eapply chain_trans; eauto.
    - assert (Nr : ~ In (idx r) an) by (intros X; apply existsb_eqb in X; congruence).
      apply (IH (l :: q) (idx r :: an) r y); auto.
      + intros ->. apply Nr, (A y); auto.
      + intros k Ik. assert (Ak : In (idx k) an <-> k = l \/ k = y) by (apply A; rewrite app_assoc; apply in_or_app; auto).
        assert (k <> l) by congruence. cbn [In]. rewrite Ak. split; [|intuition congruence].
        intros [X|[X|X]]; auto; [|tauto]. left. apply Inj; auto. apply Subs, in_or_app. auto.
      + destruct C as [[C1 C2]|[C1 C2]]; [left|right]; split; auto; eapply chain_trans; eauto. }
  assert (Il : l = x \/ l = y) by (apply (A l); [apply in_or_app; right; apply in_or_app; cbn; auto|now apply existsb_eqb]).
  destruct Il as [Il|Il].
  - apply (Key x y); auto. apply in_app_or in Iy as [Iy|[Iy|[]]]; auto. congruence.
  - apply (Key y x); auto.
    + apply in_app_or in Ix as [Ix|[Ix|[]]]; auto. congruence.
    + intros k Ik. rewrite (A k Ik). tauto.
    + tauto.
Qed.

Lemma analyze_spec : forall t seg c, pst t seg -> met t seg c -> wp (backbone_analyze c t) (fun u => In u seg /\ refutes u).
Proof.
  intros t seg [a b] P M. destruct (met_new _ _ _ P M) as (B & D & Di). destruct M as (I & A & _). cbn [fst snd] in *.
  unfold backbone_analyze. cbn [fst snd]. rewrite (proj2 (Nat.eqb_neq _ _) Di). cbn [negb oassert obind]. rewrite (ps_trail _ _ P).
  eapply wp_mono; [apply (uip_spec t seg (neg a) (neg b) P seg [] [idx b; idx a] (neg a) (neg b)); auto|].
  - now rewrite app_nil_r.
  - intros l Il. assert (Tl : bb_values t l = Some true) by (apply (ps_true _ _ P); apply in_app_or in Il as [Il|Il]; auto).
    assert (Ta : bb_values t (neg a) = Some true) by (apply (ps_true _ _ P); auto).
    assert (Tb : bb_values t (neg b) = Some true) by (apply (ps_true _ _ P); auto).
    pose proof (ps_sym _ _ P) as Sy. cbn. split.
    + intros [X|[X|[]]]; symmetry in X; apply idx_eq in X as [-> | ->]; auto; rewrite Sy, Tl in *; discriminate.
    + intros [-> | ->]; rewrite idx_neg; auto.
  - left. split; constructor.
  - intros u (Iu & U1 & U2). split; auto. exists a, b. auto.
Qed.

(** ** Backtracking *)
Lemma unassign_all : forall ls vals l, fold_left unassign ls vals l = if existsb (Nat.eqb (idx l)) (map idx ls) then None else vals l.
Proof.
  induction ls as [|k ls IH]; intros vals l; [reflexivity|]. cbn [fold_left map existsb]. rewrite IH. destruct (existsb (Nat.eqb (idx l)) (map idx ls)); [now rewrite orb_true_r|].
  rewrite orb_false_r. unfold unassign, upd. destruct (Nat.eqb_spec (idx l) (idx k)) as [E|E].
  - apply idx_eq in E as [-> | ->]; rewrite Nat.eqb_refl; [now destruct (k =? neg k)|reflexivity].
  - destruct (Nat.eqb_spec l (neg k)) as [->|]; [now rewrite idx_neg in E|]. destruct (Nat.eqb_spec l k) as [->|]; congruence.
Qed.
Lemma backtrack_restores : forall t seg, pst t seg -> bb_trail (backbone_backtrack (length old) t) = old /\
  forall l, bb_values (backbone_backtrack (length old) t) l = vals0 l.
Proof.
  intros t seg P. unfold backbone_backtrack. cbn [bb_trail bb_values]. rewrite (ps_trail _ _ P).
  rewrite firstn_app, firstn_all, Nat.sub_diag, firstn_O, app_nil_r, skipn_app, skipn_all, Nat.sub_diag. cbn [skipn app]. split; auto.
  intros l. rewrite unassign_all, map_rev. destruct (existsb (Nat.eqb (idx l)) (rev (map idx seg))) eqn:B.
  - apply existsb_eqb in B. apply in_rev, in_map_iff in B as (k & E & I). symmetry. apply (same_idx vals0 l k Sy0); auto. now apply (ps_new _ _ P).
  - assert (Ns : forall k, In k seg -> idx k <> idx l).
    { intros k I E. assert (X : existsb (Nat.eqb (idx l)) (rev (map idx seg)) = true); [|congruence]. apply existsb_eqb. rewrite <- in_rev, <- E. now apply in_map. }
    pose proof (ps_true _ _ P l) as T1. pose proof (ps_true _ _ P (neg l)) as T2. rewrite (ps_sym _ _ P), Sy0 in T2.
    assert (N1 : ~ In l seg) by (intros I; now apply (Ns l)). assert (N2 : ~ In (neg l) seg) by (intros I; apply (Ns _ I); apply idx_neg).
    destruct (bb_values t l) as [[]|], (vals0 l) as [[]|]; cbn in *; auto; intuition congruence.
Qed.
End Segment.

(** ** The candidates *)
Variable v0 : assignment_values.
Hypothesis Sv : symmetric v0.

Record ginv (t : backbone) (units : list lit) : Prop := {
  gi_sym : symmetric (bb_values t);
  gi_closed : closed (bb_values t);
  gi_true : forall l, bb_values t l = Some true <-> v0 l = Some true \/ In l (bb_trail t);
  gi_new : forall l, In l (bb_trail t) -> v0 l = None /\ l < 2 * n;
  gi_nodup : NoDup (map idx (bb_trail t));
  gi_units : forall l, In l units -> In l (bb_trail t) /\ refutes (neg l);
  gi_distinct : NoDup (map idx units) }.

Lemma ginv_after : forall t units h t' seg, ginv t units -> pst (bb_values t) (bb_trail t) h t' seg -> closed (bb_values t') -> ginv t' units.
Proof.
  intros t units h t' seg [G1 G2 G3 G4 G5 G6 G7] P C. constructor; auto.
  - apply P.
  - intros l. rewrite (ps_true _ _ _ _ _ P), G3, (ps_trail _ _ _ _ _ P), in_app_iff. tauto.
  - intros l I. rewrite (ps_trail _ _ _ _ _ P) in I. apply in_app_or in I as [I|I]; auto. split; [|now apply (ps_range _ _ _ _ _ P)].
    pose proof (ps_new _ _ _ _ _ P l I) as N. destruct (v0 l) as [[]|] eqn:E; auto.
    + assert (bb_values t l = Some true) by (apply G3; auto). congruence.
    + assert (X : bb_values t (neg l) = Some true) by (apply G3; left; rewrite Sv, E; reflexivity). rewrite G1, N in X. discriminate.
  - rewrite (ps_trail _ _ _ _ _ P). apply P.
  - intros l I. destruct (G6 l I). split; auto. rewrite (ps_trail _ _ _ _ _ P). apply in_or_app. auto.
Qed.
Lemma free_all : forall vals, free n vals <= n.
Proof. intros vals. unfold free. etransitivity; [apply filter_length|]. now rewrite seq_length. Qed.
Lemma run_spec : forall h r t t0 units, ginv t units -> bb_trail t0 = bb_trail t -> (forall l, bb_values t0 l = bb_values t l) -> bb_values t h = None -> h < 2 * n ->
  wp (do t1 <- backbone_assign h r t0 ; backbone_propagate n W (length (bb_trail t)) t1)%outcome (fun '(c, t') => exists seg,
    pst (bb_values t) (bb_trail t) h t' (h :: seg) /\ match c with None => closed (bb_values t') | Some c => met t' (h :: seg) c end).
Proof.
  intros h r t t0 units G Et Ev N L. apply wp_bind. eapply wp_mono.
  - apply (pst_start (bb_values t) (bb_trail t) h (gi_sym _ _ G)) with (t := t0); auto.
    + intros l I. apply (gi_true _ _ G). auto.
    + apply G.
  - intros t1 (P & F). replace (length (bb_trail t)) with (length (bb_trail t) + 0) by lia.
    eapply wp_mono; [apply (propagate_spec (bb_values t) (bb_trail t) h (gi_sym _ _ G) (gi_closed _ _ G)) with (seg := [h]); auto|].
    + intros l I. apply (gi_true _ _ G). auto.
    + cbn. lia.
    + intros l b [].
    + pose proof (free_all (bb_values t)). cbn [length]. lia.
    + intros [c t'] (ext & P' & C). exists ext. auto.
Qed.

Definition probes_ok (res : backbone * list lit * option lit) : Prop :=
  let '(t, units, failed) := res in
  (forall l, In l units -> v0 l = None /\ l < 2 * n /\ refutes (neg l)) /\ NoDup (map idx units) /\
  match failed with None => True | Some l => v0 l = None /\ l < 2 * n /\ refutes (neg l) /\ refutes l end.

Lemma probes_spec : forall A probes units t, ginv t units ->
  backbone_probes n A W probes units t <> Undef /\ backbone_probes n A W probes units t <> Abort /\
  ((forall l, In l probes -> l < 2 * n /\ A (idx l) = true) -> backbone_probes n A W probes units t <> Fuel) /\
  forall res, backbone_probes n A W probes units t = Ret res -> probes_ok res.
Proof.
  intros A. induction probes as [|h probes IH]; intros units t G; cbn [backbone_probes].
  { splits; try discriminate. intros res E. injection E as <-. cbn. splits; auto; [|apply G]. intros l I.
    destruct (gi_units _ _ G l I) as [I' R]. destruct (gi_new _ _ G l I'). auto. }
  assert (Next : forall t' units', ginv t' units' ->
    backbone_probes n A W probes units' t' <> Undef /\ backbone_probes n A W probes units' t' <> Abort /\
    ((forall l, In l (h :: probes) -> l < 2 * n /\ A (idx l) = true) -> backbone_probes n A W probes units' t' <> Fuel) /\
    forall res, backbone_probes n A W probes units' t' = Ret res -> probes_ok res).
  { intros t' units' G'. destruct (IH units' t' G') as (X1 & X2 & X3 & X4). splits; auto. intros H. apply X3. intros l I. apply H. now right. }
  destruct ((h <? 2 * n) && A (idx h)) eqn:B; cbn [possible obind].
  2:{ splits; try discriminate. intros H _. destruct (H h (or_introl eq_refl)) as [X Y]. rewrite Y in B. lia. }
  apply andb_true_iff in B as [B _]. apply Nat.ltb_lt in B.
  destruct (bb_values t h) as [v|] eqn:N; [now apply Next|].
  pose proof (run_spec h ByDecision t t units G eq_refl (fun _ => eq_refl) N B) as R1.
  destruct (backbone_assign h ByDecision t) as [t1| | |]; cbn [obind] in R1 |- *; try (exfalso; exact R1).
  destruct (backbone_propagate n W (length (bb_trail t)) t1) as [[c t2]| | |]; cbn [obind wp] in R1 |- *; try (exfalso; exact R1).
  destruct R1 as (seg & P & C). destruct c as [c|]; [|apply Next; eapply ginv_after; eauto].
  assert (Ol : forall l, In l (bb_trail t) -> bb_values t l = Some true) by (intros l I; apply (gi_true _ _ G); auto).
  pose proof (analyze_spec (bb_values t) (bb_trail t) h (gi_closed _ _ G) Ol t2 _ c P C) as An.
  destruct (backbone_analyze c t2) as [u| | |]; cbn [obind wp] in An |- *; try (exfalso; exact An). destruct An as [Iu Ru].
  destruct (backtrack_restores (bb_values t) (bb_trail t) h (gi_sym _ _ G) t2 _ P) as [Bt Bv].
  assert (Nu : bb_values t (neg u) = None) by (rewrite (gi_sym _ _ G), (ps_new _ _ _ _ _ P u Iu); reflexivity).
  assert (Lu : neg u < 2 * n) by (apply neg_lt, (ps_range _ _ _ _ _ P u Iu)).
  pose proof (run_spec (neg u) ByUnit t (backbone_backtrack (length (bb_trail t)) t2) units G Bt Bv Nu Lu) as R2.
  destruct (backbone_assign (neg u) ByUnit (backbone_backtrack (length (bb_trail t)) t2)) as [t3| | |]; cbn [obind] in R2 |- *; try (exfalso; exact R2).
  destruct (backbone_propagate n W (length (bb_trail t)) t3) as [[c' t4]| | |]; cbn [obind wp] in R2 |- *; try (exfalso; exact R2).
  destruct R2 as (seg' & P' & C').
  assert (Nv : v0 (neg u) = None).
  { destruct (v0 (neg u)) as [[]|] eqn:E; auto.
    - assert (bb_values t (neg u) = Some true) by (apply (gi_true _ _ G); auto). congruence.
    - assert (X : bb_values t u = Some true) by (apply (gi_true _ _ G); left; rewrite <- (neg_neg u), Sv, E; reflexivity). rewrite (ps_new _ _ _ _ _ P u Iu) in X. discriminate. }
  assert (Du : NoDup (map idx (units ++ [neg u]))).
  { rewrite map_app. cbn. apply nodup_snoc; [apply G|]. intros I. apply in_map_iff in I as (k & E & I). apply (gi_units _ _ G) in I as [I _].
    apply Ol in I. rewrite (same_idx (bb_values t) k (neg u) (gi_sym _ _ G) E Nu) in I. discriminate. }
  destruct c' as [c'|].
  - splits; try discriminate. intros res E. injection E as <-. cbn. splits; auto.
    + intros l I. apply in_app_or in I as [I|[<-|[]]].
      * destruct (gi_units _ _ G l I) as [I' R]. destruct (gi_new _ _ G l I'). auto.
      * rewrite neg_neg. auto.
    + now rewrite neg_neg.
    + apply (met_refutes (bb_values t) (bb_trail t) (neg u) (gi_closed _ _ G) Ol t4 _ c' P' C').
  - apply Next. pose proof (ginv_after _ _ _ _ _ G P' C') as [G1 G2 G3 G4 G5 G6 G7]. constructor; auto.
    intros l I. apply in_app_or in I as [I|[<-|[]]]; auto. split; [|now rewrite neg_neg]. rewrite (ps_trail _ _ _ _ _ P'). apply in_mid.
Qed.

(** A candidate which leads to a conflict is found, if it is the first one. *)
Lemma probes_units : forall A probes units t t' units' failed, backbone_probes n A W probes units t = Ret (t', units', failed) -> incl units units'.
Proof.
  intros A. induction probes as [|h probes IH]; intros units t t' units' failed E; cbn [backbone_probes] in E.
  { injection E as <- <- <-. apply incl_refl. }
  destruct (possible _); cbn [obind] in E; try discriminate. destruct (bb_values t h); [eauto|].
  destruct (backbone_assign h _ t) as [t1| | |]; cbn [obind] in E; try discriminate.
  destruct (backbone_propagate _ _ _ t1) as [[[c|] t2]| | |]; cbn [obind] in E; try discriminate; [|eauto].
  destruct (backbone_analyze c t2) as [u| | |]; cbn [obind] in E; try discriminate.
  destruct (backbone_assign (neg u) _ _) as [t3| | |]; cbn [obind] in E; try discriminate.
  destruct (backbone_propagate _ _ _ t3) as [[[c'|] t4]| | |]; cbn [obind] in E; try discriminate.
  - injection E as <- <- <-. apply incl_appl, incl_refl.
  - apply IH in E. intros l I. apply E, in_or_app. auto.
Qed.
Lemma closed_implies : forall vals x y, closed vals -> implies x y -> vals x = Some true -> vals y = Some true.
Proof. intros vals x y C H. induction H as [|x y z H _ IH]; auto. intros T. apply IH. eauto. Qed.
Lemma closed_refutes : forall vals x, symmetric vals -> closed vals -> refutes x -> vals x <> Some true.
Proof.
  intros vals x Sy C (a & b & I & A & B) T. pose proof (closed_implies _ _ _ C A T) as Ta. pose proof (closed_implies _ _ _ C B T) as Tb.
  assert (X : vals b = Some true) by (apply (C (neg a) b Ta); now rewrite neg_neg). rewrite Sy, X in Tb. discriminate.
Qed.
Lemma probes_first : forall A h probes units t t' units' failed, ginv t units -> bb_values t h = None -> refutes h ->
  backbone_probes n A W (h :: probes) units t = Ret (t', units', failed) -> exists u, implies h u /\ In (neg u) units'.
Proof.
  intros A h probes units t t' units' failed G N R E. cbn [backbone_probes] in E.
  destruct ((h <? 2 * n) && A (idx h)) eqn:B; cbn [possible obind] in E; [|discriminate].
  apply andb_true_iff in B as [B _]. apply Nat.ltb_lt in B. rewrite N in E.
  pose proof (run_spec h ByDecision t t units G eq_refl (fun _ => eq_refl) N B) as R1.
  destruct (backbone_assign h ByDecision t) as [t1| | |]; cbn [obind] in R1, E; try (exfalso; exact R1).
  destruct (backbone_propagate n W (length (bb_trail t)) t1) as [[c t2]| | |]; cbn [obind wp] in R1, E; try (exfalso; exact R1).
  destruct R1 as (seg & P & C). destruct c as [c|].
  2:{ exfalso. apply (closed_refutes (bb_values t2) h); auto; [apply P|]. apply (ps_true _ _ _ _ _ P). right. now left. }
  assert (Ol : forall l, In l (bb_trail t) -> bb_values t l = Some true) by (intros l I; apply (gi_true _ _ G); auto).
  pose proof (analyze_spec (bb_values t) (bb_trail t) h (gi_closed _ _ G) Ol t2 _ c P C) as An.
  destruct (backbone_analyze c t2) as [u| | |]; cbn [obind wp] in An, E; try discriminate. destruct An as [Iu Ru].
  exists u. split; [eapply seg_chain; eauto|].
  destruct (backbone_assign (neg u) _ _) as [t3| | |]; cbn [obind] in E; try discriminate.
  destruct (backbone_propagate _ _ _ t3) as [[[c'|] t4]| | |]; cbn [obind] in E; try discriminate.
  - injection E as <- <- <-. apply in_or_app. cbn. auto.
  - apply probes_units in E. apply E, in_or_app. cbn. auto.
Qed.
End Graph.

(** The values at the end of a round are those at its beginning (backbone.c 507-508). *)
Theorem backbone_restored : forall n W v0 t units l, symmetric v0 -> ginv n W v0 t units -> bb_values (backbone_backtrack 0 t) l = v0 l.
Proof.
  intros n W v0 t units l Sv G. unfold backbone_backtrack. cbn [bb_values skipn]. rewrite unassign_all, map_rev.
  destruct (existsb (Nat.eqb (idx l)) (rev (map idx (bb_trail t)))) eqn:B.
  - apply existsb_eqb in B. apply in_rev, in_map_iff in B as (k & E & I). symmetry. apply (same_idx v0 l k Sv); auto. now apply (gi_new _ _ _ _ _ G).
  - assert (Ns : forall k, In k (bb_trail t) -> idx k <> idx l).
    { intros k I E. assert (X : existsb (Nat.eqb (idx l)) (rev (map idx (bb_trail t))) = true); [|congruence]. apply existsb_eqb. rewrite <- in_rev, <- E. now apply in_map. }
    pose proof (gi_true _ _ _ _ _ G l) as T1. pose proof (gi_true _ _ _ _ _ G (neg l)) as T2. rewrite (gi_sym _ _ _ _ _ G), Sv in T2.
    assert (N1 : ~ In l (bb_trail t)) by (intros I; now apply (Ns l)). assert (N2 : ~ In (neg l) (bb_trail t)) by (intros I; apply (Ns _ I); apply idx_neg).
    destruct (bb_values t l) as [[]|], (v0 l) as [[]|]; cbn in *; auto; intuition congruence.
Qed.

(** ** Learning the units *)
(** Clauses and fixed literals are kept. *)
Record untouched (s s' : solver) : Prop := {
  un_binary : forall a b, binary s' a b <-> binary s a b;
  un_arena : forall r, clause_sim (arena s r) (arena s' r);
  un_root : forall l b, values s l = Some b -> lev s l = 0 -> values s' l = Some b /\ lev s' l = 0 }.
Lemma untouched_refl : forall s, untouched s s.
Proof. intros s. constructor; auto; [tauto|]. intros r. apply clause_sim_refl. Qed.
Lemma untouched_trans : forall a b c, untouched a b -> untouched b c -> untouched a c.
Proof.
  intros a b c [A1 A2 A3] [B1 B2 B3]. constructor.
  - intros x y. rewrite B1. apply A1.
  - intros r. eapply clause_sim_trans; eauto.
  - intros l v H L. destruct (A3 l v H L). auto.
Qed.
Lemma untouched_thinned : forall s s', untouched s s' -> thinned s s'.
Proof. intros s s' [A B C]. now apply thinned_same. Qed.
Lemma untouched_propagate : forall o s s' c, vinv s -> search_propagate o s = Ret (s', c) -> quiet s s' -> untouched s s'.
Proof.
  intros o s s' c V E Qu. pose proof (search_propagate_evolves o s s' c (ti_neg _ V) E) as Ev. constructor.
  - exact (ev_binary _ _ Ev).
  - exact (ev_large _ _ Ev).
  - intros l b H L. destruct (qu_values _ _ Qu l b H). split; congruence.
Qed.

Lemma chain_derives : forall orig p s A x y, core orig p s -> bchain s x y -> derives neg (db s) A x -> derives neg (db s) A y.
Proof.
  intros orig p s A x y Co H. induction H as [|x y z I _ IH]; auto. intros D. apply IH.
  destruct (db_binary _ _ _ (co_w _ _ _ Co) I) as (d & Dd & E). destruct (wi_bin _ _ _ _ _ (co_w _ _ _ Co) _ _ I) as (N & _).
  apply derives_unit with d; auto.
  - apply E. cbn. auto.
  - intros k Ik Nk. apply E in Ik as [<-|[<-|[]]]; [now rewrite neg_neg|congruence].
Qed.
Lemma refutes_rup : forall orig p s l, core orig p s -> refutes (watches s) (neg l) -> rup neg (db s) [l].
Proof.
  intros orig p s l Co (a & b & I & A & B). destruct (db_binary _ _ _ (co_w _ _ _ Co) I) as (d & D & E).
  exists d. split; auto. intros k Ik. apply E in Ik as [<-|[<-|[]]]; (eapply chain_derives; [exact Co|eassumption|]); apply derives_assumed; exists l; cbn; auto.
Qed.

Lemma root_closed : forall orig s, propagated orig s -> trail s = [] -> closed (watches s) (values s).
Proof.
  intros orig s (Co & Pr & Pi) Tr l b Hl I. pose proof (co_v _ _ _ Co) as V.
  destruct (proj2 (pi_bin _ _ Pi (neg l) b I)) as (t & It & Ht & _).
  - rewrite (ti_neg _ V), Hl. reflexivity.
  - intros J. rewrite Tr in J. destruct J.
  - intros J. rewrite Tr in J. destruct J.
  - destruct It as [<-|[<-|[]]]; auto. rewrite (ti_neg _ V), Hl in Ht. discriminate.
Qed.

(** The state while units are learned. *)
Definition learning (orig : list (list lit)) (s : solver) : Prop :=
  core orig (length (trail s)) s /\ pinv (propagate s) s /\ propagate s <= length (trail s) /\ clean (an s) /\ inconsistent s = false /\ level s = 0.
Lemma learn_one : forall orig s l, learning orig s -> values s l = None -> dom s l -> refutes (watches s) (neg l) ->
  wp (learned_unit l s) (fun s' => learning orig s' /\ shape s' = shape s /\ watches s' = watches s /\ untouched s s' /\
    (forall k, idx k <> idx l -> values s' k = values s k) /\ values s' l = Some true /\ lev s' l = 0).
Proof.
  intros orig s l (Co & Pi & Pl & Cl & Ic & Lv) N D R. pose proof (co_v _ _ _ Co) as V.
  rewrite learned_unit_eq by auto. cbn [wp].
  assert (Sk : forall k, idx k <> idx l -> values (do_assign 0 RDecision l s) k = values s k).
  { intros k E. rewrite da_value. destruct (Nat.eqb_spec k (neg l)) as [->|]; [now rewrite idx_neg in E|]. destruct (Nat.eqb_spec k l) as [->|]; congruence. }
  pose proof (grows_assign 0 RDecision l s V N) as G.
  splits; auto.
  - unfold learning. splits; auto.
    + apply core_learned_unit; auto. eapply refutes_rup; eauto.
    + apply (pinv_assign s 0 RDecision l V N (co_f _ _ _ Co)); auto.
    + cbn. rewrite app_length. cbn. lia.
    + apply (gr_clean _ _ G Cl).
  - constructor; [reflexivity|intros r; apply clause_sim_refl|]. intros k b Hk L0. destruct (gr_values _ _ G k b Hk) as (X & Y & _). split; congruence.
  - apply da_true_l.
  - apply da_lev_l.
Qed.
Lemma learn_units_spec : forall orig units s, learning orig s -> NoDup (map idx units) ->
  (forall l, In l units -> values s l = None /\ dom s l /\ refutes (watches s) (neg l)) ->
  wp (learn_units units s) (fun s' => learning orig s' /\ shape s' = shape s /\ untouched s s' /\
    forall l, In l units -> values s' l = Some true /\ lev s' l = 0).
Proof.
  intros orig. induction units as [|l units IH]; intros s Le Nd H; cbn [learn_units]; [apply wp_ret; splits; auto using untouched_refl; easy|].
  destruct (H l (or_introl eq_refl)) as (H1 & H2 & H3). apply wp_bind. eapply wp_mono; [apply (learn_one orig s l); auto|].
  intros s1 (L1 & Sh1 & W1 & U1 & V1 & T1 & T0). cbn [map] in Nd. apply NoDup_cons_iff in Nd as [Nl Nd].
  eapply wp_mono; [apply (IH s1); auto|].
  - intros k Ik. destruct (H k (or_intror Ik)) as (K1 & K2 & K3). rewrite W1. splits; auto.
    + rewrite V1; auto. intros E. apply Nl. rewrite <- E. now apply in_map.
    + unfold dom in *. unfold shape in Sh1. injection Sh1 as -> ->. exact K2.
  - intros s2 (L2 & Sh2 & U2 & T2). splits; auto; [congruence|eapply untouched_trans; eauto|].
    intros k [<-|I]; auto. exact (un_root _ _ U2 _ _ T1 T0).
Qed.

(** ** The rounds *)
Definition backbone_ok (orig : list (list lit)) (s s' : solver) : Prop :=
  shape s' = shape s /\ untouched s s' /\ if inconsistent s' then linv orig s' else at_root orig s'.

Lemma learned_propagate : forall orig o s s', learning orig s' -> shape s' = shape s -> untouched s s' ->
  wp (search_propagate o s') (fun '(s2, c) => backbone_ok orig s s2 /\ untouched s' s2 /\
    match c with Some _ => inconsistent s2 = true | None => inconsistent s2 = false end).
Proof.
  intros orig o s s' (Co & Pi & Pl & Cl & Ic & Lv) Sh U. pose proof (search_propagate_spec orig o s' Co Pi) as Sp.
  destruct (search_propagate o s') as [[s3 confl]| | |] eqn:E; try (exfalso; exact Sp). cbn [wp] in *. destruct Sp as (Qu & Post).
  assert (Un : untouched s' s3) by (apply (untouched_propagate o s' s3 confl); auto; apply Co).
  assert (Sh3 : shape s3 = shape s) by (rewrite (qu_shape _ _ Qu); exact Sh).
  assert (Us : untouched s s3) by (eapply untouched_trans; eauto).
  destruct confl as [c|].
  - destruct Post as (C3 & _ & I3). rewrite Lv in I3. cbn in I3. unfold backbone_ok. rewrite I3. splits; auto. apply C3.
  - destruct Post as (P3 & I3 & T3). rewrite Ic in I3. assert (L3 : level s3 = 0) by (rewrite (qu_level _ _ Qu); exact Lv).
    unfold backbone_ok. rewrite I3. splits; auto. unfold at_root. splits; auto. now apply (qu_clean _ _ Qu).
Qed.

Lemma at_root_learning : forall orig s, at_root orig s -> learning orig s.
Proof. intros orig s ((Co & Pr & Pi) & Cl & Ic & Tr & Lv). unfold learning. splits; auto; [now rewrite Pr|lia]. Qed.

Lemma rounds_spec : forall orig o rounds s, at_root orig s ->
  backbone_rounds o rounds s <> Undef /\ backbone_rounds o rounds s <> Abort /\
  ((forall p l, In p rounds -> In l p -> l < 2 * vars s /\ active s (idx l) = true) -> backbone_rounds o rounds s <> Fuel) /\
  forall s', backbone_rounds o rounds s = Ret s' -> backbone_ok orig s s'.
Proof.
  intros orig o. induction rounds as [|probes rounds IH]; intros s Ro; cbn [backbone_rounds].
  { splits; try discriminate. intros s' E. injection E as <-. unfold backbone_ok. splits; auto using untouched_refl. pose proof Ro as (_ & _ & -> & _). exact Ro. }
  pose proof Ro as ((Co & Pr & Pi) & Cl & Ic & Tr & Lv). rewrite Ic, Lv. cbn [negb andb Nat.eqb oassert obind].
  pose proof (co_v _ _ _ Co) as V. pose proof (co_w _ _ _ Co) as Wi.
  set (t0 := mk_backbone (values s) (fun _ => ByUnit) []).
  assert (G : ginv (vars s) (watches s) (values s) t0 []).
  { constructor; cbn; auto; try tauto; try constructor.
    - exact (ti_neg _ V).
    - apply (root_closed orig); auto. exact (conj Co (conj Pr Pi)). }
  destruct (probes_spec (vars s) (watches s)) with (v0 := values s) (A := active s) (probes := probes) (units := @nil lit) (t := t0) as (Q1 & Q2 & Q3 & Q4); auto.
  { intros a b I. destruct (wi_bin _ _ _ _ _ Wi _ _ I) as (_ & _ & [B _]). exact B. }
  { intros a b. apply (wi_sym _ _ _ _ _ Wi). }
  { intros a b I. destruct (wi_bin _ _ _ _ _ Wi _ _ I) as (N & _). exact N. }
  { exact (ti_neg _ V). }
  destruct (backbone_probes (vars s) (active s) (watches s) probes [] t0) as [[[t units] failed]| | |] eqn:E; cbn [obind]; try congruence.
  2:{ splits; try discriminate. intros H _. apply Q3; auto. intros l I. apply (H probes); auto. now left. }
  specialize (Q4 _ eq_refl). cbn in Q4. destruct Q4 as (U1 & U2 & U3).
  assert (Ac : forall l, refutes (watches s) (neg l) -> dom s l).
  { intros l (a & b & I & A & _). remember (neg l) as nl eqn:El. remember (neg a) as na eqn:Ea. destruct A as [x|x y z X]; subst.
    - apply neg_inj in Ea as ->. destruct (wi_bin _ _ _ _ _ Wi _ _ I) as (_ & D & _). exact D.
    - rewrite neg_neg in X. destruct (wi_bin _ _ _ _ _ Wi _ _ X) as (_ & D & _). exact D. }
  pose proof (at_root_learning _ _ Ro) as Le.
  destruct failed as [l|].
  - destruct U3 as (F1 & F2 & F3 & F4).
    pose proof (learn_one orig s l Le F1 (Ac l F3) F3) as L1. destruct (learned_unit l s) as [s1| | |]; cbn [obind wp] in L1 |- *; try (exfalso; exact L1).
    destruct L1 as (L1 & Sh1 & W1 & Un1 & V1 & T1 & T0).
    pose proof (learned_propagate orig o s s1 L1 Sh1 Un1) as L2. destruct (search_propagate o s1) as [[s2 c]| | |]; cbn [obind wp] in L2 |- *; try (exfalso; exact L2).
    destruct L2 as (Ok & Un2 & C).
    assert (I2 : inconsistent s2 = true).
    { destruct c as [c|]; auto. exfalso. unfold backbone_ok in Ok. rewrite C in Ok. destruct Ok as (_ & Un & Ro2).
      assert (Cl2 : closed (watches s2) (values s2)) by (apply (root_closed orig); apply Ro2).
      assert (Tl : values s2 l = Some true) by (apply (un_root _ _ Un2 l true T1 T0)).
      assert (Ch : forall x y, implies (watches s) x y -> values s2 x = Some true -> values s2 y = Some true).
      { intros x y H. induction H as [|x y z H _ IHc]; auto. intros Tx. apply IHc. apply (Cl2 x y Tx). now apply (un_binary _ _ Un). }
      destruct F4 as (a & b & Ia & A & B). pose proof (Ch _ _ A Tl) as Ta. pose proof (Ch _ _ B Tl) as Tb.
      assert (X : values s2 b = Some true) by (apply (Cl2 (neg a) b Ta); rewrite neg_neg; now apply (un_binary _ _ Un)).
      rewrite (ti_neg _ (co_v _ _ _ (proj1 (proj1 Ro2)))), X in Tb. discriminate. }
    rewrite I2. cbn [oassert obind]. splits; try discriminate. intros s' E'. injection E' as <-. exact Ok.
  - destruct units as [|u units]; [|set (us := u :: units) in *; clearbody us].
    + destruct (IH s Ro) as (X1 & X2 & X3 & X4). splits; auto. intros H. apply X3. intros p l Ip. apply H. now right.
    + pose proof (learn_units_spec orig us s Le U2) as L1.
      assert (H : forall l, In l us -> values s l = None /\ dom s l /\ refutes (watches s) (neg l)) by (intros l I; destruct (U1 l I) as (A & _ & B); auto).
      specialize (L1 H). destruct (learn_units us s) as [s1| | |]; cbn [obind wp] in L1 |- *; try (exfalso; exact L1). destruct L1 as (L1 & Sh1 & Un1 & _).
      pose proof (learned_propagate orig o s s1 L1 Sh1 Un1) as L2. destruct (search_propagate o s1) as [[s2 c]| | |]; cbn [obind wp] in L2 |- *; try (exfalso; exact L2).
      destruct L2 as (Ok & Un2 & C). destruct c as [c|].
      * splits; try discriminate. intros s' E'. injection E' as <-. exact Ok.
      * unfold backbone_ok in Ok. rewrite C in Ok. destruct Ok as (Sh2 & Un & Ro2). destruct (IH s2 Ro2) as (X1 & X2 & X3 & X4). splits; auto.
        -- intros H'. apply X3. intros p l Ip Il. unfold shape in Sh2. injection Sh2 as -> ->. apply (H' p); auto. now right.
        -- intros s' E'. destruct (X4 s' E') as (Y1 & Y2 & Y3). unfold backbone_ok. splits; auto; [congruence|]. eapply untouched_trans; eauto.
Qed.

Lemma backbone_spec : forall orig o rounds s, at_root orig s ->
  binary_clauses_backbone o rounds s <> Undef /\ binary_clauses_backbone o rounds s <> Abort /\
  ((forall p l, In p rounds -> In l p -> l < 2 * vars s /\ active s (idx l) = true) -> binary_clauses_backbone o rounds s <> Fuel) /\
  forall s', binary_clauses_backbone o rounds s = Ret s' -> backbone_ok orig s s'.
Proof.
  intros orig o rounds s Ro. unfold binary_clauses_backbone. pose proof Ro as ((Co & Pr & Pi) & Cl & -> & Tr & ->). rewrite Pr, Tr.
  cbn [length Nat.eqb andb oassert obind]. now apply rounds_spec.
Qed.

(** ** Failed candidates are found *)
Lemma opposite : forall (W : lit -> list watch) x y, (forall a b, In (WBinary b) (W a) -> In (WBinary a) (W b)) -> implies W x y -> implies W (neg y) (neg x).
Proof. intros W x y Ws H. apply chain_opposite; auto. Qed.
Lemma implies_same : forall s s' x y, untouched s s' -> implies (watches s) x y -> implies (watches s') x y.
Proof. intros s s' x y U H. eapply chain_mono; [|exact H]. intros a b I. eapply chain_next; [|constructor]. rewrite neg_neg. now apply (un_binary _ _ U). Qed.
Lemma refutes_same : forall s s' x, untouched s s' -> refutes (watches s) x -> refutes (watches s') x.
Proof. intros s s' x U (a & b & I & A & B). exists a, b. splits; eauto using implies_same. now apply (un_binary _ _ U). Qed.

Lemma rounds_found : forall orig o h probes rounds s s', at_root orig s -> In (h :: probes) rounds -> refutes (watches s) h ->
  backbone_rounds o rounds s = Ret s' -> inconsistent s' = true \/ values s' (neg h) = Some true.
Proof.
  intros orig o h probes rounds. induction rounds as [|ps rounds IH]; intros s s' Ro I Rf E; [destruct I|].
  pose proof (rounds_spec orig o (ps :: rounds) s Ro) as (_ & _ & _ & Sp). specialize (Sp _ E).
  cbn [backbone_rounds] in E. pose proof Ro as ((Co & Pr & Pi) & Cl & Ic & Tr & Lv). rewrite Ic, Lv in E. cbn [negb andb Nat.eqb oassert obind] in E.
  pose proof (co_v _ _ _ Co) as V. pose proof (co_w _ _ _ Co) as Wi.
  assert (Wn : forall a b, In (WBinary b) (watches s a) -> b < 2 * vars s) by (intros a b Ib; destruct (wi_bin _ _ _ _ _ Wi _ _ Ib) as (_ & _ & [B _]); exact B).
  assert (Ws : forall a b, In (WBinary b) (watches s a) -> In (WBinary a) (watches s b)) by (intros a b; apply (wi_sym _ _ _ _ _ Wi)).
  assert (Wd : forall a b, In (WBinary b) (watches s a) -> a <> b) by (intros a b Ib; destruct (wi_bin _ _ _ _ _ Wi _ _ Ib) as (N & _); exact N).
  assert (Rc : closed (watches s) (values s)) by (apply (root_closed orig); auto; exact (conj Co (conj Pr Pi))).
  set (t0 := mk_backbone (values s) (fun _ => ByUnit) []) in *.
  assert (G : ginv (vars s) (watches s) (values s) t0 []).
  { constructor; cbn; auto; try tauto; try constructor. exact (ti_neg _ V). }
  assert (Known : values s (neg h) = Some true -> values s' (neg h) = Some true).
  { intros T. destruct Sp as (_ & Un & _). apply (un_root _ _ Un); auto. apply (ti_root _ V); auto. now rewrite Tr. }
  destruct (backbone_probes (vars s) (active s) (watches s) ps [] t0) as [[[t units] failed]| | |] eqn:Ep; cbn [obind] in E; try discriminate.
  destruct (probes_spec (vars s) (watches s)) with (v0 := values s) (A := active s) (probes := ps) (units := @nil lit) (t := t0) as (_ & _ & _ & Q4); auto.
  { exact (ti_neg _ V). }
  specialize (Q4 _ Ep). cbn in Q4. destruct Q4 as (U1 & U2 & U3).
  destruct failed as [l|].
  { destruct (learned_unit l s) as [s1| | |]; cbn [obind] in E; try discriminate. destruct (search_propagate o s1) as [[s2 c]| | |]; cbn [obind] in E; try discriminate.
    destruct (inconsistent s2) eqn:I2; cbn [oassert obind] in E; [|discriminate]. injection E as <-. auto. }
  assert (Ac : forall l, refutes (watches s) (neg l) -> dom s l).
  { intros l (a & b & Ib & A & _). remember (neg l) as nl eqn:El. remember (neg a) as na eqn:Ea. destruct A as [x|x y z X]; subst.
    - apply neg_inj in Ea as ->. destruct (wi_bin _ _ _ _ _ Wi _ _ Ib) as (_ & D & _). exact D.
    - rewrite neg_neg in X. destruct (wi_bin _ _ _ _ _ Wi _ _ X) as (_ & D & _). exact D. }
  assert (H : forall l, In l units -> values s l = None /\ dom s l /\ refutes (watches s) (neg l)) by (intros l Il; destruct (U1 l Il) as (A & _ & B); auto).
  pose proof (learn_units_spec orig units s (at_root_learning _ _ Ro) U2 H) as L1.
  assert (Fi : In (h :: probes) rounds \/ values s (neg h) = Some true \/ exists u, implies (watches s) h u /\ In (neg u) units).
  { destruct I as [->|I]; auto. right. destruct (values s h) as [[]|] eqn:N.
    - exfalso. apply (closed_refutes (watches s) (values s) h); auto. exact (ti_neg _ V).
    - left. rewrite (ti_neg _ V), N. reflexivity.
    - right. apply (probes_first (vars s) (watches s)) with (v0 := values s) (A := active s) (probes := probes) (units := @nil lit) (t := t0) (t' := t) (failed := @None lit); auto. }
  destruct Fi as [Fi|[Fi|(u & Iu & Un)]]; [|auto|].
  - destruct units as [|u0 us]; [now apply (IH s)|].
    destruct (learn_units (u0 :: us) s) as [s1| | |]; cbn [obind wp] in L1, E; try discriminate. destruct L1 as (L1 & Sh1 & Un1 & _).
    pose proof (learned_propagate orig o s s1 L1 Sh1 Un1) as L2. destruct (search_propagate o s1) as [[s2 c]| | |]; cbn [obind wp] in L2, E; try discriminate.
    destruct L2 as (Ok & Un2 & C). destruct c as [c|]; [injection E as <-; auto|]. unfold backbone_ok in Ok. rewrite C in Ok. destruct Ok as (_ & Un & Ro2).
    apply (IH s2); auto. now apply (refutes_same s s2).
  - destruct units as [|u0 us]; [destruct Un|].
    destruct (learn_units (u0 :: us) s) as [s1| | |]; cbn [obind wp] in L1, E; try discriminate. destruct L1 as (L1 & Sh1 & Un1 & T1).
    pose proof (learned_propagate orig o s s1 L1 Sh1 Un1) as L2. destruct (search_propagate o s1) as [[s2 c]| | |]; cbn [obind wp] in L2, E; try discriminate.
    destruct L2 as (Ok & Un2 & C). destruct c as [c|]; [injection E as <-; auto|]. unfold backbone_ok in Ok. rewrite C in Ok. destruct Ok as (_ & Uns & Ro2).
    right. assert (Cl2 : closed (watches s2) (values s2)) by (apply (root_closed orig); apply Ro2).
    destruct (T1 _ Un) as [Ta Tb]. destruct (un_root _ _ Un2 _ _ Ta Tb) as [Tc _].
    assert (Th : values s2 (neg h) = Some true).
    { apply (closed_implies (watches s2) (values s2) (neg u)); auto. apply (implies_same s s2); auto. now apply opposite. }
    destruct (rounds_spec orig o rounds s2 Ro2) as (_ & _ & _ & Sp2). destruct (Sp2 _ E) as (_ & Un3 & _). apply (un_root _ _ Un3); auto.
    destruct Ro2 as ((Co2 & _) & _ & _ & Tr2 & _). apply (ti_root _ (co_v _ _ _ Co2)); auto. now rewrite Tr2.
Qed.
