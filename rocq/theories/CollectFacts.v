(** Facts about garbage collection. *)
From Coq Require Import ZArith List Bool Lia Arith Permutation.
From Coq Require Import ZifyBool ZifyNat.
From Verif Require Import Base SpecSat Lit Sem Solver Analyze Search Hoare Inv DbFacts AssignFacts AssignSpec BacktrackFacts
  PropFacts PropLoop CutFacts OneLit ClauseFacts Otfs.
Import ListNotations.
Open Scope nat_scope.
Open Scope outcome_scope.

(** ** States without root-level literals on the trail *)
Definition settled (s : solver) : Prop := forall l, In l (trail s) -> 0 < lev s l.

Lemma unflushed_settled : forall s, vinv s -> unflushed s = 0 -> settled s.
Proof.
  intros s V U l I. destruct (lev s l) eqn:E; [|lia]. exfalso.
  assert (X : In l (filter (fun l => lev s l =? 0) (trail s))) by (apply filter_In; rewrite E; auto).
  pose proof (ti_unfl _ V) as Y. destruct (filter (fun l => lev s l =? 0) (trail s)); [auto|]. cbn in Y. lia.
Qed.

Lemma root_true_spec : forall s l, root_true s l = true <-> rooted s l.
Proof. intros s l. unfold root_true, rooted. rewrite andb_true_iff, is_true_spec, Nat.eqb_eq. tauto. Qed.
Lemma root_false_spec : forall s l, root_false s l = true <-> values s l = Some false /\ lev s l = 0.
Proof. intros s l. unfold root_false. rewrite andb_true_iff, is_false_spec, Nat.eqb_eq. tauto. Qed.
Lemma root_before : forall s l n, vinv s -> settled s -> lev s l = 0 -> before s l n.
Proof. intros s l n V Se L I. apply Se in I. rewrite lev_neg in I. lia. Qed.

Section Settled.
Variables (s : solver).
Hypothesis V : vinv s.
Hypothesis Se : settled s.
Hypothesis P : pinv (length (trail s)) s.

Lemma settled_binary : forall a b, In (WBinary b) (watches s a) -> values s a = Some false -> lev s a = 0 -> rooted s b.
Proof.
  intros a b I Fa La. destruct (pi_bin _ _ P a b I) as [_ U].
  destruct (U Fa) as (t & It & Tt & Lt); try (apply root_before; auto).
  destruct It as [->|[->|[]]]; [congruence|]. split; auto. lia.
Qed.
Lemma settled_large : forall r c w, arena s r = Some c -> c_garbage c = false -> 2 < length (c_lits c) -> NoDup (c_lits c) ->
  watching w c -> values s w = Some false -> lev s w = 0 -> exists t, In t (c_lits c) /\ rooted s t.
Proof.
  intros r c w A G L Nd W Fw Lw.
  assert (X : exists x, watching x c /\ w <> x).
  { apply watching_nth in W; [|lia]. destruct W as [->| ->]; [exists (nth 1 (c_lits c) 0)|exists (nth 0 (c_lits c) 0)];
      (split; [apply watching_nth; auto; lia|apply NoDup_nth_neq; auto; lia]). }
  destruct X as (x & Wx & N). destruct (pi_large _ _ P r c w x A G W Wx N) as [_ U].
  destruct (U Fw) as (t & It & Tt & Lt); try (apply root_before; auto). exists t. split; auto. split; auto. lia.
Qed.
(** Every clause has a literal which is not false. *)
Lemma settled_open : forall r c, arena s r = Some c -> c_garbage c = false -> 2 < length (c_lits c) -> NoDup (c_lits c) ->
  exists t, In t (c_lits c) /\ values s t <> Some false.
Proof.
  intros r c A G L Nd. set (w := nth 0 (c_lits c) 0). set (x := nth 1 (c_lits c) 0).
  assert (Ww : watching w c) by (apply watching_nth; auto; lia). assert (Wx : watching x c) by (apply watching_nth; auto; lia).
  assert (N : w <> x) by (apply NoDup_nth_neq; auto; lia).
  destruct (values s w) as [[]|] eqn:Ew; [exists w; split; [now apply watching_in|congruence]| |exists w; split; [now apply watching_in|congruence]].
  destruct (values s x) as [[]|] eqn:Ex; [exists x; split; [now apply watching_in|congruence]| |exists x; split; [now apply watching_in|congruence]].
  destruct (pi_large _ _ P r c w x A G Ww Wx N) as [B _].
  assert (Bf : forall y, values s y = Some false -> before s y (length (trail s))) by (intros y _ I; rewrite <- tpos_neg; now apply tpos_lt).
  destruct (B Ew (Bf _ Ew) Ex (Bf _ Ex) (level s) (or_introl eq_refl)) as (t & It & Tt & _). exists t. split; auto. congruence.
Qed.
End Settled.

(** ** Deleting several clauses *)
Lemma proof_dels : forall orig ds D st, proof_ok orig st -> msub (ds ++ D) (pdb orig st) -> (forall d, In d ds -> d <> []) ->
  proof_ok orig (rev (map Deleted ds) ++ st) /\ msub D (pdb orig (rev (map Deleted ds) ++ st)) /\
  (0 < cnt [] (pdb orig st) -> 0 < cnt [] (pdb orig (rev (map Deleted ds) ++ st))).
Proof.
  intros orig. induction ds as [|d ds IH]; intros D st Ok M N; cbn [map rev app]; auto.
  assert (Q : 0 < cnt d (pdb orig st)).
  { specialize (M d). cbn [app] in M. rewrite cnt_cons, set_eqb_refl in M. cbn [b2n] in M. lia. }
  rewrite <- app_assoc. cbn [app]. destruct (IH D (Deleted d :: st)) as (A & B & C).
  - cbn [proof_ok]. auto.
  - intros x. specialize (M x). cbn [app] in M. rewrite cnt_cons in M. cbn [pdb]. pose proof (cnt_remove_same d _ x Q). lia.
  - intros; apply N. now right.
  - splits; auto. intros Z. apply C. cbn [pdb]. pose proof (cnt_remove_same d _ [] Q) as K.
    assert (F : set_eqb [] d = false) by (destruct d; [exfalso; apply (N []); auto; now left|reflexivity]).
    rewrite F in K. cbn [b2n] in K. lia.
Qed.

(** ** Flushing the watches *)
Definition deleted_pairs (s : solver) (l : lit) (ws : list watch) : list (list lit) :=
  flat_map (fun w => match w with
    | WBinary other => if (root_true s l || root_true s other) && (l <? other) then [[l; other]] else []
    | WLarge _ _ => [] end) ws.
Lemma deleted_binaries_eq : forall s l ws, deleted_binaries s l ws = map Deleted (deleted_pairs s l ws).
Proof.
  intros s l ws. unfold deleted_binaries, deleted_pairs in *. induction ws as [|[o|b r] ws IH]; cbn [flat_map app]; auto. rewrite map_app, <- IH. f_equal.
  destruct ((root_true s l || root_true s o) && (l <? o)); reflexivity.
Qed.
Lemma keep_count : forall s visit l ws c, cnt c (flat_map (binary_of l) ws) =
  cnt c (deleted_pairs s l ws ++ flat_map (binary_of l) (filter (keep_watch s visit l) ws)).
Proof.
  intros s visit l ws c. unfold deleted_pairs. induction ws as [|w ws IH]; cbn [flat_map filter app]; auto.
  rewrite cnt_app in IH. rewrite !cnt_app, IH. destruct w as [o|b r]; cbn [keep_watch binary_of].
  - destruct (root_true s l || root_true s o); cbn [negb andb]; destruct (l <? o) eqn:E; cbn [flat_map binary_of]; rewrite ?E, ?cnt_app, ?cnt_cons, ?cnt_nil; lia.
  - destruct (negb (root_true s l || root_false s l) && negb (existsb (Nat.eqb r) visit)); cbn [flat_map binary_of app]; rewrite ?cnt_nil; lia.
Qed.
Lemma in_deleted_pairs : forall s l ws d, In d (deleted_pairs s l ws) ->
  exists o, d = [l; o] /\ In (WBinary o) ws /\ l < o /\ (rooted s l \/ rooted s o).
Proof.
  intros s l ws d I. apply in_flat_map in I as (w & Iw & H). destruct w as [o|]; [|destruct H].
  destruct ((root_true s l || root_true s o) && (l <? o)) eqn:E; [|destruct H]. destruct H as [<-|[]].
  apply andb_true_iff in E as [E1 E2]. apply orb_true_iff in E1. rewrite !root_true_spec in E1. exists o. splits; auto. lia.
Qed.

Definition flushed (visit : list nat) (s t : solver) : Prop :=
  t = set_steps (steps t) (set_watches (watches t) s).

Lemma flush_literal_linv : forall orig visit l s, linv orig s -> l < 2 * vars s ->
  (forall k, rooted s k -> k < 2 * vars s) ->
  linv orig (set_watches (upd (watches s) l (filter (keep_watch s visit l) (watches s l)))
    (set_steps (rev (deleted_binaries s l (watches s l)) ++ steps s) s)).
Proof.
  intros orig visit l s L Rl Rr. set (ds := deleted_pairs s l (watches s l)).
  rewrite deleted_binaries_eq. fold ds. set (s' := set_watches _ _).
  assert (Bn : forall c, cnt c (binaries (vars s) (watches s)) = cnt c ds + cnt c (binaries (vars s) (watches s'))).
  { intros c. unfold binaries. cbn [s' set_watches watches].
    pose proof (cnt_flat_upd (fun a => flat_map (binary_of a) (watches s a))
      (fun i => flat_map (binary_of i) (upd (watches s) l (filter (keep_watch s visit l) (watches s l)) i)) (2 * vars s) l c) as H.
    cbv beta in H. rewrite upd_same in H. specialize (H ltac:(intros i N; now rewrite upd_other) Rl).
    rewrite (keep_count s visit l (watches s l) c), cnt_app in H. fold ds in H. lia. }
  assert (M : msub (ds ++ db s') (db s)).
  { intros c. rewrite cnt_app, !cnt_db. change (root_units s') with (root_units s). change (vars s') with (vars s).
    change (next_ref s') with (next_ref s). change (arena s') with (arena s). rewrite Bn. lia. }
  assert (Ne : forall d, In d ds -> d <> []) by (intros d I; apply in_deleted_pairs in I as (o & -> & _); discriminate).
  destruct L as [A B C D Ra]. destruct (proof_dels orig ds (db s') (steps s) A) as (X & Y & Z); auto.
  { eapply msub_trans; eauto. }
  constructor; auto.
  2:{ intros c k I. cbn [s' steps set_watches set_steps] in I. apply in_app_or in I as [I|I]; [|now apply (Ra c)].
      apply in_rev, in_map_iff in I as (x & Ex & _). discriminate. }
  intros v Sv. apply D. intros c Ic. apply in_irr in Ic as [Ic|[Ic|Ic]].
  - apply Sv, in_irr. now left.
  - assert (K : 0 < cnt c (binaries (vars s) (watches s))) by (apply cnt_pos; exists c; split; [auto|apply same_literals_refl]).
    rewrite Bn in K. destruct (cnt c ds) eqn:E.
    + assert (Q : 0 < cnt c (binaries (vars s) (watches s'))) by lia. apply cnt_pos in Q as (d & Id & Sd).
      assert (G : sat_clause v d) by (apply Sv, in_irr; right; left; exact Id).
      eapply sat_clause_incl; [|exact G]. intros x. apply Sd.
    + assert (Q : 0 < cnt c ds) by lia. apply cnt_pos in Q as (d & Id & Sd). apply in_deleted_pairs in Id as (o & -> & _ & _ & Ro).
      assert (U : forall k, rooted s k -> tr v k = true).
      { intros k [Tk Lk]. assert (G : sat_clause v [k]).
        { apply Sv, in_irr. left. apply in_root_units. exists k. splits; auto. apply Rr. now split. }
        destruct G as (y & [->|[]] & Ty). exact Ty. }
      destruct Ro as [Ro|Ro]; [exists l|exists o]; split; auto; apply Sd; [now left|right; now left].
  - apply Sv, in_irr. right. right. exact Ic.
Qed.

Lemma flush_all_spec : forall orig visit s, linv orig s -> vinv s -> settled s -> pinv (length (trail s)) s ->
  (forall a b, In (WBinary b) (watches s a) -> In (WBinary a) (watches s b)) ->
  exists t, flush_all_watched_clauses visit s = Ret t /\ flushed visit s t /\ linv orig t /\
    (forall l, l < 2 * vars s -> watches t l = filter (keep_watch s visit l) (watches s l)) /\
    (forall l, 2 * vars s <= l -> watches t l = watches s l).
Proof.
  intros orig visit s L V Se P Sy. unfold flush_all_watched_clauses.
  assert (Rr : forall k, rooted s k -> k < 2 * vars s) by (intros k [K _]; apply dom_lt, (ti_range _ V); congruence).
  enough (G : forall ls t, flushed visit s t -> linv orig t -> NoDup ls -> (forall l, In l ls -> l < 2 * vars s /\ watches t l = watches s l) ->
    exists t', ofold (flush_watched_clauses_by_literal visit) ls t = Ret t' /\ flushed visit s t' /\ linv orig t' /\
    (forall l, In l ls -> watches t' l = filter (keep_watch s visit l) (watches s l)) /\
    (forall l, ~ In l ls -> watches t' l = watches t l)).
  { destruct (G (seq 0 (2 * vars s)) s) as (t & A & B & C & D & E).
    - unfold flushed. destruct s; reflexivity.
    - auto.
    - apply seq_NoDup.
    - intros l I. apply in_seq in I. split; auto. lia.
    - exists t. splits; auto; intros l Hl; [apply D, in_seq; lia|apply E; rewrite in_seq; lia]. }
  induction ls as [|l ls IH]; intros t F Lt Nd Ws; cbn [ofold].
  { exists t. splits; auto. intros l []. }
  inversion Nd as [|? ? N1 N2]; subst. destruct (Ws l (or_introl eq_refl)) as [Rl Wl].
  assert (Ev : vars t = vars s /\ values t = values s /\ assigned t = assigned s) by (rewrite F; auto). destruct Ev as (E1 & E2 & E3).
  assert (El : forall k, lev t k = lev s k) by (intros k; unfold lev; now rewrite E3).
  assert (Et : forall k, root_true t k = root_true s k) by (intros k; unfold root_true, is_true; now rewrite E2, El).
  assert (Ef : forall k, root_false t k = root_false s k) by (intros k; unfold root_false, is_false; now rewrite E2, El).
  assert (Er : forall k, rooted t k <-> rooted s k) by (intros k; unfold rooted; rewrite E2, El; tauto).
  assert (Ek : forall k w, keep_watch t visit k w = keep_watch s visit k w) by (intros k [o|b r]; cbn; now rewrite ?Et, ?Ef).
  unfold flush_watched_clauses_by_literal at 1.
  assert (As : forallb (binary_watch_ok t l) (watches t l) = true).
  { apply forallb_forall. intros [o|b r] I; auto. cbn. rewrite !Et, !Ef.
    destruct (root_true s l || root_true s o) eqn:E; auto. cbn. rewrite negb_true_iff. apply orb_false_iff in E as [E4 E5].
    rewrite Wl in I. apply orb_false_iff. split; apply not_true_is_false; intros Hf; apply root_false_spec in Hf as [Hf Hl].
    - pose proof (settled_binary s V Se P l o I Hf Hl) as K. apply root_true_spec in K. congruence.
    - pose proof (settled_binary s V Se P o l (Sy _ _ I) Hf Hl) as K. apply root_true_spec in K. congruence. }
  rewrite As. cbn [oassert obind].
  set (t1 := set_watches _ _).
  assert (L1 : linv orig t1).
  { apply (flush_literal_linv orig visit l t); auto; [now rewrite E1|]. intros k K. rewrite E1. now apply Rr, Er. }
  destruct (IH t1) as (t' & A & B & C & D & E); auto.
  - unfold flushed, t1. rewrite F. reflexivity.
  - intros k I. destruct (Ws k (or_intror I)) as [Rk Wk]. split; auto. unfold t1. cbn. rewrite upd_other; auto. intros ->. auto.
  - exists t'. splits; auto.
    + intros k [<-|I]; auto. rewrite E by auto. unfold t1. cbn. rewrite upd_same, Wl. apply filter_ext. intros w. apply Ek.
    + intros k N. rewrite E by (intros I; apply N; now right). unfold t1. cbn. rewrite upd_other; auto. intros ->. apply N. now left.
Qed.

(** ** The state while collecting *)
(** A reason whose clause is not watched. *)
Definition loose_reason (s : solver) (l : lit) (c : clause) : Prop :=
  c_garbage c = false /\ In l (c_lits c) /\
  (forall k, In k (c_lits c) -> k <> l -> values s k = Some false /\ lev s k <= lev s l /\ (lev s k = 0 \/ tpos s k < tpos s l)) /\
  (exists k, In k (c_lits c) /\ k <> l /\ lev s k = lev s l).

(** The clauses in [P] are not watched, those in [U] were not visited yet. *)
Record mid (orig : list (list lit)) (P U : list nat) (s : solver) : Prop := {
  md_v : vinv s; md_f : finv s; md_c : cinv (set_last_learned [] s); md_l : linv orig s;
  md_set : settled s; md_prop : propagate s = length (trail s); md_clean : clean (an s);
  md_large : forall l b r, l < 2 * vars s -> In (WLarge b r) (watches s l) -> ~ In r P /\ exists c, arena s r = Some c /\
    (c_garbage c = false -> watching l c /\ In b (c_lits c) /\ b <> l);
  md_count : forall r c l, ~ In r P -> arena s r = Some c -> c_garbage c = false -> watching l c ->
    length (filter (watches_ref r) (watches s l)) = 1 \/
    length (filter (watches_ref r) (watches s l)) = 0 /\ exists t, In t (c_lits c) /\ rooted s t;
  md_bal : forall a b, bcount b (watches s a) = bcount a (watches s b);
  md_bin : forall a b, In (WBinary b) (watches s a) -> a <> b /\ dom s a /\ dom s b;
  md_reason : forall l, In l (trail s) ->
    (exists r c, reas s l = RClause r /\ In r P /\ arena s r = Some c /\ loose_reason s l c) \/
    (forall r, reas s l = RClause r -> ~ In r P) /\ reason_ok s l;
  md_pbin : forall a b, In (WBinary b) (watches s a) -> watched_ok s (length (trail s)) [a; b] a b;
  md_plarge : forall r c w x, ~ In r P -> arena s r = Some c -> c_garbage c = false ->
    watching w c -> watching x c -> w <> x -> watched_ok s (length (trail s)) (c_lits c) w x;
  md_open : forall r c, In r P -> arena s r = Some c -> c_garbage c = false -> exists t, In t (c_lits c) /\ values s t <> Some false;
  md_swept : forall r c, In r P -> ~ In r U -> arena s r = Some c ->
    c_garbage c = false /\ forall t, In t (c_lits c) -> values s t <> None -> 0 < lev s t;
  md_fresh : forall r c w, In r U -> arena s r = Some c -> c_garbage c = false -> watching w c -> values s w = Some false -> lev s w = 0 ->
    exists t, In t (c_lits c) /\ rooted s t;
  md_U : incl U P }.

Lemma in_existsb : forall r (l : list nat), existsb (Nat.eqb r) l = true <-> In r l.
Proof.
  intros r l. rewrite existsb_exists. split.
  - intros (x & I & E). apply Nat.eqb_eq in E. now subst.
  - intros I. exists r. split; auto. apply Nat.eqb_refl.
Qed.

Lemma mid_flushed : forall orig visit s t, core orig (length (trail s)) s -> propagate s = length (trail s) -> pinv (length (trail s)) s ->
  settled s -> clean (an s) -> flushed visit s t -> linv orig t ->
  (forall l, l < 2 * vars s -> watches t l = filter (keep_watch s visit l) (watches s l)) ->
  (forall l, 2 * vars s <= l -> watches t l = watches s l) -> mid orig visit visit t.
Proof.
  intros orig visit s t [V F C W L R] Pr P Se Cl Fl Lt Ws Wo.
  assert (Rs : reshaped s t) by (rewrite Fl; constructor; reflexivity).
  assert (At : arena t = arena s) by (rewrite Fl; reflexivity).
  assert (Nt : next_ref t = next_ref s) by (rewrite Fl; reflexivity).
  assert (Vt : vars t = vars s) by apply Rs.
  assert (Sub : forall l w, In w (watches t l) -> In w (watches s l)).
  { intros l w I. destruct (lt_dec l (2 * vars s)) as [H|H]; [rewrite Ws in I by auto; apply filter_In in I; tauto|].
    rewrite Wo in I by lia. auto. }
  assert (Kb : forall a b, In (WBinary b) (watches t a) <-> In (WBinary b) (watches s a) /\ ~ rooted s a /\ ~ rooted s b).
  { intros a b. split.
    - intros I. pose proof (Sub _ _ I) as J. destruct (wi_bin _ _ _ _ _ W _ _ J) as (_ & Ra & _).
      rewrite Ws in I by auto. apply filter_In in I as [_ K]. cbn in K. apply negb_true_iff, orb_false_iff in K as [K1 K2].
      splits; auto; rewrite <- root_true_spec; congruence.
    - intros (I & Na & Nb). destruct (wi_bin _ _ _ _ _ W _ _ I) as (_ & Ra & _). rewrite Ws by auto. apply filter_In. split; auto.
      cbn. apply negb_true_iff, orb_false_iff. rewrite <- root_true_spec in Na, Nb. split; now apply not_true_is_false. }
  assert (Nr : forall l, 0 < lev s l -> ~ rooted s l) by (intros l Hl [_ X]; lia).
  assert (Bp : forall l o, 0 < lev s l -> bpath s l o -> lev s o = lev s l -> bpath t l o).
  { intros l o Hl B. induction B as [l o I|l m o I Fm E B IH]; intros Eo.
    - apply bpath_one. apply Kb. splits; auto. apply Nr. lia.
    - apply bpath_step with m.
      + apply Kb. splits; auto. apply Nr. lia.
      + now rewrite (rs_values _ _ Rs).
      + rewrite !(rs_lev _ _ Rs). auto.
      + apply IH; rewrite lev_neg; lia. }
  constructor; auto.
  - eapply rs_vinv; eauto.
  - eapply rs_finv; eauto.
  - destruct C as [C1 C2 C3 C4 C5]. constructor; cbn [set_last_learned arena next_ref vars last_learned]; rewrite ?At, ?Nt, ?Vt; auto.
    intros r c l. change (dom (set_last_learned [] t) l) with (dom t l). rewrite (rs_dom _ _ Rs). apply C4.
  - intros l I. rewrite (rs_trail _ _ Rs) in I. rewrite (rs_lev _ _ Rs). auto.
  - now rewrite (rs_prop _ _ Rs), (rs_trail _ _ Rs).
  - rewrite Fl. exact Cl.
  - intros l b r Rl I. rewrite Vt in Rl. rewrite At. split.
    + intros Ir. rewrite Ws in I by auto. apply filter_In in I as [_ K]. cbn in K. apply andb_true_iff in K as [_ K].
      apply negb_true_iff in K. apply in_existsb in Ir. congruence.
    + apply (wi_large _ _ _ _ _ W l b r); auto.
  - intros r c l Nv Ar G Wl. rewrite At in Ar. destruct (wi_count _ _ _ _ _ W r c l Ar G Wl) as [E|(E & x & Ix & Rx)].
    + assert (Rl : l < 2 * vars s) by (eapply watch_range; eauto).
      destruct (root_true s l || root_false s l) eqn:K.
      * right. rewrite Ws by auto. split.
        -- rewrite (filter_ext_in (watches_ref r) (fun _ => false)); [clear; induction (filter (keep_watch s visit l) (watches s l)); auto|].
           intros [o|b q] I; auto. apply filter_In in I as [_ I]. cbn in I. rewrite K in I. discriminate.
        -- apply orb_true_iff in K as [K|K].
           ++ apply root_true_spec in K. exists l. split; [now apply watching_in|]. unfold rooted. rewrite (rs_values _ _ Rs), (rs_lev _ _ Rs). exact K.
           ++ apply root_false_spec in K as [K1 K2].
              destruct (settled_large s V Se P r c l) as (x & Ix & Tx & Lx); auto; try (eapply (ci_len _ C); eauto); try (eapply (ci_nodup _ C); eauto).
              exists x. split; auto. unfold rooted. rewrite (rs_values _ _ Rs), (rs_lev _ _ Rs). auto.
      * left. rewrite <- E. rewrite Ws by auto. f_equal. clear -K Nv. induction (watches s l) as [|w ws IH]; auto. cbn [filter].
        destruct (keep_watch s visit l w) eqn:Ew; cbn [filter]; rewrite IH; auto.
        destruct w as [o|b q]; auto. cbn [watches_ref]. cbn in Ew. rewrite K in Ew. cbn in Ew. apply negb_false_iff, in_existsb in Ew.
        destruct (Nat.eqb_spec q r) as [->|]; auto. contradiction.
    + right. assert (Rl : l < 2 * vars s) by (eapply watch_range; eauto). split.
      * rewrite Ws by auto. assert (Z : forall ws, length (filter (watches_ref r) ws) = 0 -> length (filter (watches_ref r) (filter (keep_watch s visit l) ws)) = 0).
        { induction ws as [|w ws IH]; auto. cbn [filter]. destruct (watches_ref r w) eqn:Ew; [discriminate|]. intros H.
          destruct (keep_watch s visit l w); cbn [filter]; rewrite ?Ew; auto. }
        now apply Z.
      * exists x. split; auto. unfold rooted. rewrite (rs_values _ _ Rs), (rs_lev _ _ Rs). exact Rx.
  - assert (Q : forall a b, root_true s a || root_true s b = true -> bcount b (watches t a) = 0).
    { intros a b E. destruct (bcount b (watches t a)) eqn:Eb; auto. assert (Hb : 0 < bcount b (watches t a)) by lia.
      apply bcount_in, Kb in Hb as (_ & Na & Nb). rewrite <- root_true_spec in Na, Nb. apply orb_true_iff in E as [E|E]; contradiction. }
    assert (Q' : forall a b, root_true s a || root_true s b = false -> bcount b (watches t a) = bcount b (watches s a)).
    { intros a b E. destruct (lt_dec a (2 * vars s)) as [H|H]; [|now rewrite Wo by lia]. rewrite Ws by auto. apply bcount_filter. cbn. now rewrite E. }
    intros a b. destruct (root_true s a || root_true s b) eqn:E.
    + rewrite (Q a b E). rewrite (Q b a); auto. now rewrite orb_comm.
    + rewrite (Q' a b E). rewrite (Q' b a) by now rewrite orb_comm. apply (wi_bal _ _ _ _ _ W).
  - intros a b I. rewrite !(rs_dom _ _ Rs). apply (wi_bin _ _ _ _ _ W); auto.
  - intros l I. rewrite (rs_trail _ _ Rs) in I.
    assert (Ok : reason_ok s l) by (apply R; auto; right; now apply tpos_lt).
    assert (Hl : 0 < lev s l) by auto.
    unfold reason_ok. rewrite (rs_reas _ _ Rs). unfold reason_ok in Ok. destruct (reas s l) as [| |o|r] eqn:Er.
    + right. split; [congruence|]. rewrite (rs_tpos _ _ Rs), (rs_lev _ _ Rs), (rs_T _ _ Rs). auto.
    + contradiction.
    + right. split; [congruence|]. destruct Ok as (A & B & D & E). rewrite (rs_values _ _ Rs), !(rs_lev _ _ Rs), !(rs_tpos _ _ Rs).
      splits; auto.
    + destruct Ok as (c & Ac & Ok). pose proof (rs_clause_ok _ _ Rs _ _ Ok) as Ok'.
      destruct (in_dec Nat.eq_dec r visit) as [Iv|Nv].
      * left. exists r, c. rewrite At. splits; auto. destruct Ok' as (A & B & D & E & _). unfold loose_reason. splits; auto. now apply watching_in.
      * right. split; [intros q Eq; congruence|]. exists c. rewrite At. auto.
  - intros a b I. apply (rs_watched_ok _ _ Rs). rewrite (rs_trail _ _ Rs). apply (pi_bin _ _ P). auto.
  - intros r c w x Nv Ar G Ww Wx N. rewrite At in Ar. apply (rs_watched_ok _ _ Rs). rewrite (rs_trail _ _ Rs). apply (pi_large _ _ P r c w x); auto.
  - intros r c Iv Ar G. rewrite At in Ar. destruct (settled_open s V P r c) as (x & Ix & Nx); auto;
      try (eapply (ci_len _ C); eauto); try (eapply (ci_nodup _ C); eauto). exists x. rewrite (rs_values _ _ Rs). auto.
  - intros r c Iv Nv. contradiction.
  - intros r c w Iv Ar G Ww Fw Lw. rewrite At in Ar. rewrite (rs_values _ _ Rs) in Fw. rewrite (rs_lev _ _ Rs) in Lw.
    destruct (settled_large s V Se P r c w) as (x & Ix & Tx & Lx); auto; try (eapply (ci_len _ C); eauto); try (eapply (ci_nodup _ C); eauto).
    exists x. split; auto. unfold rooted. rewrite (rs_values _ _ Rs), (rs_lev _ _ Rs). auto.
  - intros x; auto.
Qed.

(** ** Sweeping *)
Lemma nonroot_ok : forall s lim c w x, vinv s -> finv s -> settled s ->
  (values s w <> Some false \/ values s x <> Some false) -> (values s w <> None -> 0 < lev s w) -> watched_ok s lim c w x.
Proof.
  intros s lim c w x V F Se O Lw. split.
  - intros Fw _ Fx _. destruct O; contradiction.
  - intros Fw _ B1. exfalso. assert (H : 0 < lev s w) by (apply Lw; congruence).
    pose proof (false_on_trail s w V Fw H) as I. pose proof (B1 I) as B.
    rewrite <- tpos_neg in B. pose proof (trail_nth s _ V I) as N. pose proof (ti_lev _ F 0 _ _ N B) as X. rewrite lev_neg in X. lia.
Qed.

Lemma mid_binary : forall orig P U s a b, mid orig P U s -> a <> b -> dom s a -> dom s b -> rup neg (db s) [a; b] ->
  (values s a <> Some false \/ values s b <> Some false) ->
  (values s a <> None -> 0 < lev s a) -> (values s b <> None -> 0 < lev s b) -> mid orig P U (new_binary_clause false a b s).
Proof.
  intros orig P U s a b M N Ra Rb Ru O La Lb. set (s' := new_binary_clause false a b s).
  assert (R : reshaped s s') by apply new_binary_reshaped.
  assert (Wb : forall k w, In w (watches s' k) <-> In w (watches s k) \/ (k = a /\ w = WBinary b) \/ (k = b /\ w = WBinary a)).
  { intros k w. apply new_binary_watches. }
  assert (Fl : forall r l, filter (watches_ref r) (watches s' l) = filter (watches_ref r) (watches s l)).
  { intros r l. unfold s'. cbn. unfold upd. destruct (Nat.eqb_spec l b) as [->|]; destruct (Nat.eqb_spec b a); try congruence.
    - rewrite filter_app. cbn. apply app_nil_r.
    - destruct (Nat.eqb_spec l a) as [->|]; auto. rewrite filter_app. cbn. apply app_nil_r. }
  destruct M as [V F C L Se Pr Cl Wl Wc Ws Wi Re Pb Pl Op Sw Fr UP].
  constructor; auto.
  - eapply rs_vinv; eauto.
  - eapply rs_finv; eauto.
  - destruct C as [C1 C2 C3 C4 C5]. constructor; auto.
  - apply linv_add with (s := s) (c := [a; b]); auto.
    + intros k [<-|[<-|[]]]; now apply dom_lt.
    + intros c. rewrite cnt_cons, !cnt_db, (rs_root_units _ _ R). change (vars s') with (vars s).
      change (arena s') with (arena s). change (next_ref s') with (next_ref s).
      unfold s'. rewrite cnt_new_binary by auto. rewrite cnt_cons. lia.
    + intros v Sa d D. apply Sa. apply in_irr. apply in_irr in D as [D|[D|D]]; [| |now right; right].
      * left. now rewrite (rs_root_units _ _ R).
      * right. left. apply in_binaries. apply in_binaries in D as (x & e & A1 & A2 & A3 & A4). exists x, e. splits; auto. apply Wb. auto.
  - intros l k r Rl I. apply (Wl l k r Rl). apply Wb in I as [I|[[_ I]|[_ I]]]; auto; discriminate.
  - intros r c l Np A G Ww. rewrite Fl. eauto.
  - now apply bal_new_binary.
  - intros x y I. rewrite !(rs_dom _ _ R). apply Wb in I as [I|[[-> I]|[-> I]]]; auto; inversion I; auto.
  - intros l I. destruct (Re l I) as [H|[H1 H2]]; [left; exact H|]. right. split; auto.
    apply (rs_reason _ _ R); auto. intros x y J. apply Wb. auto.
  - intros x y I. apply (rs_watched_ok _ _ R). apply Wb in I as [I|[[-> I]|[-> I]]]; auto; inversion I; subst; apply nonroot_ok; auto. tauto.
Qed.

Lemma set_reason_reas : forall a q s l, reas (set_reason a q s) l = if idx l =? idx a then q else reas s l.
Proof. intros a q s l. unfold reas, set_reason. cbn. unfold upd. destruct (idx l =? idx a); reflexivity. Qed.
Lemma set_reason_lev : forall a q s l, lev (set_reason a q s) l = lev s l.
Proof. intros a q s l. unfold lev, set_reason. cbn. unfold upd. destruct (Nat.eqb_spec (idx l) (idx a)) as [->|]; reflexivity. Qed.
Lemma set_reason_tpos : forall a q s l, tpos (set_reason a q s) l = tpos s l.
Proof. intros a q s l. unfold tpos, set_reason. cbn. unfold upd. destruct (Nat.eqb_spec (idx l) (idx a)) as [->|]; reflexivity. Qed.
Lemma set_reason_units : forall a q s, root_units (set_reason a q s) = root_units s.
Proof.
  intros a q s. unfold root_units. cbn [set_reason set_assigned vars]. f_equal. apply filter_ext. intros l.
  unfold is_true. cbn [set_reason set_assigned values]. now rewrite set_reason_lev.
Qed.

Lemma mid_reasoned : forall orig P U s a b r, mid orig P U s -> In a (trail s) -> reas s a = RClause r -> In (WBinary b) (watches s a) ->
  values s b = Some false -> lev s b = lev s a -> tpos s b < tpos s a -> mid orig P U (set_reason a (RBinary b) s).
Proof.
  intros orig P U s a b r M Ia Ea Ib Fb Lb Tb. set (s' := set_reason a (RBinary b) s).
  assert (Rl : forall l, lev s' l = lev s l) by apply set_reason_lev.
  assert (Rt : forall l, tpos s' l = tpos s l) by apply set_reason_tpos.
  assert (Rr : forall l, reas s' l = if idx l =? idx a then RBinary b else reas s l) by apply set_reason_reas.
  assert (Bf : forall w n, before s' w n <-> before s w n) by (intros w n; unfold before; rewrite Rt; tauto).
  assert (Bp : forall l o, bpath s l o -> bpath s' l o).
  { intros l o H. induction H; [now apply bpath_one|]. apply bpath_step with m; auto. now rewrite !Rl. }
  assert (Wo : forall lim c w x, watched_ok s lim c w x -> watched_ok s' lim c w x).
  { intros lim c w x [A B]. split.
    - intros Fw Bw Fx Bx k K. rewrite Bf in Bw, Bx. rewrite !Bf in K. destruct (A Fw Bw Fx Bx k K) as (t & It & Tt & Lt). exists t. rewrite Rl. auto.
    - intros Fw Bw B1. rewrite Bf in Bw, B1. destruct (B Fw Bw B1) as (t & It & Tt & Lt). exists t. rewrite Rl. auto. }
  assert (Ro : forall t, rooted s' t <-> rooted s t) by (intros t; unfold rooted; rewrite Rl; tauto).
  destruct M as [V F C L Se Pr Cl Wl Wc Ws Wi Re Pb Pl Op Sw Fr UP].
  assert (La : 0 < lev s a) by auto.
  assert (Ida : forall l, In l (trail s) -> idx l = idx a -> l = a).
  { intros l I E. apply idx_eq in E as [E|E]; auto. subst l. pose proof (ti_true _ V _ I) as X. pose proof (ti_true _ V _ Ia) as Y.
    apply (true_false _ _ V) in Y. congruence. }
  constructor; auto.
  - destruct V as [V1 V2 V3 V4 V5 V6 V7 V8 V9 V10]. constructor; auto.
    + intros i l I. rewrite Rt. auto.
    + intros l T0 N. rewrite Rl. auto.
    + intros l T0 L0. rewrite Rl in L0. rewrite Rr. destruct (Nat.eqb_spec (idx l) (idx a)) as [E|]; auto.
      exfalso. unfold lev in *. rewrite E in L0. lia.
    + change (unflushed s') with (unflushed s). rewrite V10. change (trail s') with (trail s). f_equal. apply filter_ext. intros l. now rewrite Rl.
  - destruct F as [F1 F2 F3 F4 F5 F6]. constructor; auto.
    + intros k K. destruct (F3 k K) as (f & A1 & A2 & A3 & A4). exists f. rewrite Rl, Rr. splits; auto.
      destruct (Nat.eqb_spec (idx (f_decision f)) (idx a)) as [E|]; auto. exfalso. apply Ida in E; [|eapply nth_error_In; eauto]. congruence.
    + intros k i l. rewrite Rl. apply F4.
  - destruct C as [C1 C2 C3 C4 C5]. constructor; auto.
  - destruct L as [A B D E]. constructor; auto.
    + intros c. specialize (B c). rewrite cnt_db in *. unfold s'. rewrite set_reason_units. exact B.
    + intros v Sv. apply E. intros c Ic. apply Sv. apply in_irr. apply in_irr in Ic. unfold s'. rewrite set_reason_units. exact Ic.
  - intros l I. rewrite Rl. auto.
  - intros q c l Np A G Ww. destruct (Wc q c l Np A G Ww) as [E|(E & x & Ix & Rx)]; auto. right. split; auto. exists x. split; auto. now apply Ro.
  - intros l I. rewrite Rr. destruct (Nat.eqb_spec (idx l) (idx a)) as [E|N].
    + apply Ida in E; auto. subst l. right. split; [congruence|]. unfold reason_ok. rewrite Rr, Nat.eqb_refl, !Rl, !Rt. splits; auto. now apply bpath_one.
    + destruct (Re l I) as [(q & c & H1 & H2 & H3 & H4)|[H1 H2]].
      * left. exists q, c. splits; auto. destruct H4 as (A & B & D & k & K1 & K2 & K3). unfold loose_reason. splits; auto.
        -- intros m Im Nm. rewrite !Rl, !Rt. change (values s' m) with (values s m). auto.
        -- exists k. rewrite !Rl. auto.
      * right. split; auto. unfold reason_ok in *. rewrite Rr. destruct (Nat.eqb_spec (idx l) (idx a)); [contradiction|].
        destruct (reas s l) as [| |o|q]; auto.
        -- rewrite Rt, Rl. exact H2.
        -- destruct H2 as (A & B & D & E). rewrite !Rl, !Rt. splits; auto.
        -- destruct H2 as (c & Ac & A & B & D & (k & K1 & K2 & K3) & X). exists c. split; auto. unfold reason_clause_ok. splits; auto.
           ++ intros m Im Nm. rewrite !Rl, !Rt. change (values s' m) with (values s m). auto.
           ++ exists k. rewrite !Rl. auto.
           ++ intros w k' Ww Nw Lw Bw. rewrite Bf in Bw. rewrite Rl. eauto.
  - intros q c w x Np A G Ww Wx N. apply Wo. eauto.
  - intros q c Ip Nu A. destruct (Sw q c Ip Nu A) as [G H]. split; auto. intros t It Tt. rewrite Rl. auto.
  - intros q c w Iu A G Ww Fw Lw. rewrite Rl in Lw. destruct (Fr q c w Iu A G Ww Fw Lw) as (t & It & Tt). exists t. split; auto. now apply Ro.
Qed.

Lemma mid_update : forall orig P U s s' ref o, mid orig P (ref :: U) s -> reshaped s s' -> watches s' = watches s -> an s' = an s ->
  next_ref s' = next_ref s -> (forall r, arena s' r = if r =? ref then o else arena s r) -> linv orig s' -> ~ In ref U ->
  match o with
  | None => forall l, In l (trail s) -> reas s l <> RClause ref
  | Some c' => c_garbage c' = false /\ 2 < length (c_lits c') /\ NoDup (c_lits c') /\ arena s ref <> None /\
      (forall t, In t (c_lits c') -> dom s t /\ (values s t <> None -> 0 < lev s t)) /\
      (exists t, In t (c_lits c') /\ values s t <> Some false) /\
      (forall l, In l (trail s) -> reas s l = RClause ref -> loose_reason s l c')
  end -> mid orig P U s'.
Proof.
  intros orig P U s s' ref o M R Ew Ea En Ar L' Nu H.
  destruct M as [V F C L Se Pr Cl Wl Wc Ws Wi Re Pb Pl Op Sw Fr UP].
  assert (IP : In ref P) by (apply UP; now left).
  assert (Ae : forall r, r <> ref -> arena s' r = arena s r) by (intros r N; rewrite Ar; destruct (Nat.eqb_spec r ref); congruence).
  assert (Aref : arena s' ref = o) by (rewrite Ar, Nat.eqb_refl; auto).
  assert (Nref : forall r, ~ In r P -> r <> ref) by (intros r N ->; auto).
  assert (Ro : forall t, rooted s' t <-> rooted s t) by (intros t; unfold rooted; rewrite (rs_values _ _ R), (rs_lev _ _ R); tauto).
  constructor; auto.
  - eapply rs_vinv; eauto.
  - eapply rs_finv; eauto.
  - destruct C as [C1 C2 C3 C4 C5]. cbn [set_last_learned arena next_ref vars last_learned] in *.
    constructor; cbn [set_last_learned arena next_ref vars last_learned]; rewrite ?En, ?(rs_vars _ _ R).
    + intros r. rewrite Ar. destruct (Nat.eqb_spec r ref) as [->|]; [|apply C1]. intros X. apply C1. destruct o; [apply H|congruence].
    + intros r c. rewrite Ar. destruct (Nat.eqb_spec r ref) as [->|]; [|apply C2]. intros -> _. apply H.
    + intros r c. rewrite Ar. destruct (Nat.eqb_spec r ref) as [->|]; [|apply C3]. intros -> _. apply H.
    + intros r c l. change (dom (set_last_learned [] s') l) with (dom s' l). rewrite (rs_dom _ _ R), Ar. destruct (Nat.eqb_spec r ref) as [->|]; [|apply C4]. intros -> _ I. now apply H.
    + intros r [].
  - intros l I. rewrite (rs_trail _ _ R) in I. rewrite (rs_lev _ _ R). auto.
  - now rewrite (rs_prop _ _ R), (rs_trail _ _ R).
  - now rewrite Ea.
  - intros l b r Rl I. rewrite (rs_vars _ _ R) in Rl. rewrite Ew in I. destruct (Wl l b r Rl I) as (A & c & B). split; auto. exists c. now rewrite Ae by auto.
  - intros r c l Np A G Ww. rewrite Ew. rewrite Ae in A by auto. destruct (Wc r c l Np A G Ww) as [E|(E & x & Ix & Rx)]; auto.
    right. split; auto. exists x. split; auto. now apply Ro.
  - intros a b. rewrite Ew. apply Ws.
  - intros a b. rewrite Ew, !(rs_dom _ _ R). apply Wi.
  - intros l I. rewrite (rs_trail _ _ R) in I. rewrite (rs_reas _ _ R).
    destruct (Re l I) as [(q & c & H1 & H2 & H3 & H4)|[H1 H2]].
    + left. destruct (Nat.eq_dec q ref) as [->|N].
      * destruct o as [c'|]; [|exfalso; eapply H; eauto]. exists ref, c'. rewrite Aref. splits; auto.
        destruct H as (_ & _ & _ & _ & _ & _ & Lo). destruct (Lo l I H1) as (A & B & D & k & K1 & K2 & K3). unfold loose_reason. splits; auto.
        -- intros m Im Nm. rewrite (rs_values _ _ R), !(rs_lev _ _ R), !(rs_tpos _ _ R). auto.
        -- exists k. rewrite !(rs_lev _ _ R). auto.
      * exists q, c. rewrite Ae by auto. splits; auto. destruct H4 as (A & B & D & k & K1 & K2 & K3). unfold loose_reason. splits; auto.
        -- intros m Im Nm. rewrite (rs_values _ _ R), !(rs_lev _ _ R), !(rs_tpos _ _ R). auto.
        -- exists k. rewrite !(rs_lev _ _ R). auto.
    + right. split; auto. apply (rs_reason _ _ R); auto.
      * intros a b. now rewrite Ew.
      * intros r c E A _. rewrite Ae; auto.
  - intros a b I. rewrite Ew in I. apply (rs_watched_ok _ _ R). rewrite (rs_trail _ _ R). auto.
  - intros r c w x Np A G Ww Wx N. rewrite Ae in A by auto. apply (rs_watched_ok _ _ R). rewrite (rs_trail _ _ R). eauto.
  - intros r c Ip A G. rewrite Ar in A. rewrite (rs_values _ _ R). destruct (Nat.eqb_spec r ref) as [->|]; [|eauto]. rewrite A in H. apply H.
  - intros r c Ip Nr A. rewrite Ar in A. destruct (Nat.eqb_spec r ref) as [->|N].
    + rewrite A in H. split; [apply H|]. intros t It. rewrite (rs_values _ _ R), (rs_lev _ _ R). now apply H.
    + destruct (Sw r c Ip) as [G X]; auto. { intros [E|E]; auto. } split; auto. intros t It. rewrite (rs_values _ _ R), (rs_lev _ _ R). auto.
  - intros r c w Iu A G Ww Fw Lw. rewrite Ae in A by (intros ->; auto). rewrite (rs_values _ _ R) in Fw. rewrite (rs_lev _ _ R) in Lw.
    destruct (Fr r c w (or_intror Iu) A G Ww Fw Lw) as (t & It & Tt). exists t. split; auto. now apply Ro.
  - intros r I. apply UP. now right.
Qed.

Definition marks (marked : nat -> bool) (U : list nat) (s : solver) : Prop := forall r, In r U -> marked r = is_reason s r.

Lemma is_reason_spec : forall s r, is_reason s r = true <-> exists l, In l (trail s) /\ reas s l = RClause r.
Proof.
  intros s r. unfold is_reason. rewrite existsb_exists. split; intros (l & I & H); exists l; split; auto.
  - destruct (reas s l) as [| | |q]; try discriminate. apply Nat.eqb_eq in H. congruence.
  - rewrite H. apply Nat.eqb_refl.
Qed.
Lemma is_reason_false : forall s r, is_reason s r = false <-> forall l, In l (trail s) -> reas s l <> RClause r.
Proof.
  intros s r. rewrite <- not_true_iff_false, is_reason_spec. split.
  - intros H l I E. apply H. eauto.
  - intros H (l & I & E). eapply H; eauto.
Qed.

Lemma kept_rup : forall s c lits, vinv s -> In lits (db s) -> (forall l, In l lits -> In l c \/ (values s l = Some false /\ lev s l = 0)) ->
  rup neg (db s) c.
Proof.
  intros s c lits V I H. exists lits. split; auto. intros k Ik. destruct (H k Ik) as [K|[K1 K2]].
  - apply derives_assumed. eauto.
  - apply derives_unit with [neg k].
    + apply db_unit; [apply neg_lt, (ti_range _ V); congruence|now apply false_true|now rewrite lev_neg].
    + now left.
    + intros j [<-|[]] X. congruence.
Qed.

(** Removing a clause. *)
Lemma msub_larges_del : forall n ar r c, ar r = Some c -> c_garbage c = false -> r < n -> msub (c_lits c :: larges n (upd ar r None)) (larges n ar).
Proof.
  intros n ar r c A G R d. rewrite cnt_cons. pose proof (cnt_larges_upd n ar d r None R) as H. rewrite A in H. cbn [lits_of] in H.
  rewrite G, cnt_cons, cnt_nil in H. lia.
Qed.
Lemma loose_true : forall s l c k, vinv s -> In l (trail s) -> loose_reason s l c -> In k (c_lits c) -> values s k = Some true -> k = l.
Proof.
  intros s l c k V I (_ & _ & H & _) Ik Tk. destruct (Nat.eq_dec k l); auto. destruct (H k Ik n). congruence.
Qed.

Lemma marks_same : forall marked U s s', marks marked U s -> trail s' = trail s -> (forall l, reas s' l = reas s l) -> marks marked U s'.
Proof.
  intros marked U s s' M Et Er r I. rewrite (M r I). unfold is_reason. rewrite Et. clear Et.
  induction (trail s) as [|l ls IH]; auto. cbn [existsb]. rewrite IH, Er. reflexivity.
Qed.
Lemma marks_tail : forall marked r U s, marks marked (r :: U) s -> marks marked U s.
Proof. intros marked r U s M q I. apply M. now right. Qed.

Lemma filter_length_le' : forall A (f : A -> bool) l, length (filter f l) <= length l.
Proof. intros A f l. induction l as [|x l IH]; cbn; auto. destruct (f x); cbn; lia. Qed.
Lemma filter_same_length : forall A (f : A -> bool) l, length (filter f l) = length l -> filter f l = l.
Proof.
  intros A f l. induction l as [|x l IH]; cbn; auto. destruct (f x); cbn; intros H.
  - f_equal. apply IH. lia.
  - pose proof (filter_length_le' A f l). lia.
Qed.
Lemma filter_one : forall (f : nat -> bool) l x, NoDup l -> In x l -> f x = true -> (forall y, In y l -> f y = true -> y = x) -> length (filter f l) = 1.
Proof.
  intros f l x. induction l as [|y l IH]; intros Nd I Fx H; [destruct I|]. inversion Nd as [|? ? N1 N2]; subst. cbn [filter].
  destruct (Nat.eq_dec y x) as [->|N].
  - rewrite Fx. cbn [length]. f_equal. assert (E : filter f l = []); [|now rewrite E].
    destruct (filter f l) as [|z zs] eqn:E; auto. assert (K : In z (filter f l)) by (rewrite E; now left). apply filter_In in K as [K1 K2].
    assert (z = x) by (apply H; auto; now right). congruence.
  - destruct (f y) eqn:Fy; [exfalso; apply N, H; auto; now left|]. apply IH; auto.
    + destruct I; [congruence|auto].
    + intros z Iz. apply H. now right.
Qed.

(** What is known of a clause which is about to be swept. *)
Section SweepOne.
Variables (orig : list (list lit)) (P U : list nat) (marked : nat -> bool) (ref : nat) (s : solver) (c : clause).
Hypothesis M : mid orig P (ref :: U) s.
Hypothesis Nu : ~ In ref U.
Hypothesis Mk : marks marked (ref :: U) s.
Hypothesis Ar : arena s ref = Some c.

Let V := md_v _ _ _ _ M.
Let IP : In ref P := md_U _ _ _ _ M ref (or_introl eq_refl).

Lemma sw_reason : forall l, In l (trail s) -> reas s l = RClause ref -> loose_reason s l c.
Proof.
  intros l I E. destruct (md_reason _ _ _ _ M l I) as [(q & d & H1 & H2 & H3 & H4)|[H1 _]].
  - replace d with c in * by congruence. auto.
  - exfalso. apply (H1 ref E), IP.
Qed.
Lemma sw_lt : ref < next_ref s.
Proof. apply (ci_ref _ (md_c _ _ _ _ M)). cbn. congruence. Qed.
Lemma sw_remove : forall s', reshaped s s' -> watches s' = watches s -> an s' = an s -> next_ref s' = next_ref s ->
  arena s' = upd (arena s) ref None -> linv orig s' -> (forall l, In l (trail s) -> reas s l <> RClause ref) ->
  mid orig P U s' /\ marks marked U s'.
Proof.
  intros s' R Ew Ea En A' L H. split.
  - apply (mid_update orig P U s s' ref None); auto. intros r. rewrite A'. reflexivity.
  - apply marks_same with (s := s); [eapply marks_tail; eauto|apply R|]. intros l. apply (rs_reas _ _ R).
Qed.

Lemma sweep_garbage : c_garbage c = true -> mid orig P U (set_clause ref None s) /\ marks marked U (set_clause ref None s).
Proof.
  intros G. apply sw_remove; try reflexivity; [constructor; reflexivity| |].
  - apply linv_same with (s := s); try reflexivity; [apply M| |].
    + intros d. rewrite !cnt_db. cbn [set_clause set_arena vars watches next_ref arena]. change (root_units (set_clause ref None s)) with (root_units s).
      pose proof (cnt_larges_upd (next_ref s) (arena s) d ref None sw_lt) as X. rewrite Ar in X. cbn [lits_of] in X. rewrite G, cnt_nil in X. lia.
    + intros v Sv d D. apply Sv. apply in_irr. apply in_irr in D as [D|[D|(r & e & Q1 & Q2 & Q3 & Q4 & Q5)]]; [now left|now right; left|].
      right. right. exists r, e. splits; auto. cbn. rewrite upd_other; auto. intros ->. congruence.
  - intros l I E. destruct (sw_reason l I E) as (X & _). congruence.
Qed.

Hypothesis G : c_garbage c = false.
Let Ln : 2 < length (c_lits c) := ci_len _ (md_c _ _ _ _ M) ref c Ar G.
Let Nd : NoDup (c_lits c) := ci_nodup _ (md_c _ _ _ _ M) ref c Ar G.
Let Rg : forall l, In l (c_lits c) -> dom s l := fun l => ci_range _ (md_c _ _ _ _ M) ref c l Ar G.

Lemma sweep_satisfied : existsb (root_true s) (c_lits c) = true ->
  marked ref = false /\ mid orig P U (del_step (c_lits c) (set_clause ref None s)) /\ marks marked U (del_step (c_lits c) (set_clause ref None s)).
Proof.
  intros E. apply existsb_exists in E as (t & It & Rt). apply root_true_spec in Rt as [Tt Lt].
  assert (Nr : forall l, In l (trail s) -> reas s l <> RClause ref).
  { intros l I E. pose proof (sw_reason l I E) as Lo. assert (t = l) by (eapply loose_true; eauto). subst t.
    pose proof (md_set _ _ _ _ M l I). lia. }
  split; [rewrite (Mk ref (or_introl eq_refl)); now apply is_reason_false|].
  apply sw_remove; try reflexivity; auto; [constructor; reflexivity|].
  apply linv_del with (s := s) (c := c_lits c); try reflexivity; [apply M| | |].
  - intros X. rewrite X in It. destruct It.
  - intros d. pose proof (msub_larges_del (next_ref s) (arena s) ref c Ar G sw_lt d) as X. rewrite cnt_cons in *. rewrite !cnt_db. 
    change (root_units (del_step (c_lits c) (set_clause ref None s))) with (root_units s). cbn [del_step set_steps set_clause set_arena vars watches next_ref arena]. lia.
  - intros v Sv d D. apply in_irr in D as [D|[D|(r & e & Q1 & Q2 & Q3 & Q4 & Q5)]].
    + apply Sv, in_irr. now left.
    + apply Sv, in_irr. now right; left.
    + destruct (Nat.eq_dec r ref) as [->|N].
      * replace e with c in * by congruence. assert (X : sat_clause v [t]).
        { apply Sv, in_irr. left. apply in_root_units. exists t. splits; auto. apply (dom_lt s). auto. }
        subst d. eapply sat_clause_incl; [|exact X]. intros y [->|[]]. auto.
      * apply Sv, in_irr. right. right. exists r, e. splits; auto. cbn. now rewrite upd_other.
Qed.

Hypothesis Nt : existsb (root_true s) (c_lits c) = false.
Let kept := filter (fun l => negb (root_false s l)) (c_lits c).

Lemma kept_in : forall l, In l kept <-> In l (c_lits c) /\ ~ (values s l = Some false /\ lev s l = 0).
Proof.
  intros l. unfold kept. rewrite filter_In, negb_true_iff, <- root_false_spec, not_true_iff_false. tauto.
Qed.
Lemma kept_high : forall l, In l kept -> values s l <> None -> 0 < lev s l.
Proof.
  intros l I N. apply kept_in in I as [I K]. destruct (lev s l) eqn:E; [|lia]. exfalso.
  destruct (values s l) as [[]|] eqn:Ev; [|tauto|congruence].
  assert (X : existsb (root_true s) (c_lits c) = true) by (apply existsb_exists; exists l; split; auto; apply root_true_spec; now split). congruence.
Qed.
Lemma kept_nodup : NoDup kept. Proof. apply NoDup_filter, Nd. Qed.
Lemma kept_two : 2 <= length kept.
Proof.
  assert (W : forall w, watching w c -> In w kept).
  { intros w Ww. apply kept_in. split; [now apply watching_in|]. intros [Fw Lw].
    destruct (md_fresh _ _ _ _ M ref c w (or_introl eq_refl) Ar G Ww Fw Lw) as (t & It & Rt).
    assert (X : existsb (root_true s) (c_lits c) = true) by (apply existsb_exists; exists t; split; auto; now apply root_true_spec). congruence. }
  assert (X : NoDup [nth 0 (c_lits c) 0; nth 1 (c_lits c) 0]).
  { constructor; [|constructor; auto; constructor]. intros [E|[]]. revert E. apply NoDup_nth_neq; auto; lia. }
  change 2 with (length [nth 0 (c_lits c) 0; nth 1 (c_lits c) 0]). apply NoDup_incl_length; auto.
  intros y [<-|[<-|[]]]; apply W, watching_nth; auto; lia.
Qed.
Lemma kept_open : exists t, In t kept /\ values s t <> Some false.
Proof.
  destruct (md_open _ _ _ _ M ref c IP Ar G) as (t & It & Nf). exists t. split; auto. apply kept_in. split; auto. tauto.
Qed.
Lemma kept_loose : forall l, In l (trail s) -> reas s l = RClause ref ->
  In l kept /\ (forall k, In k kept -> k <> l -> values s k = Some false /\ lev s k <= lev s l /\ (lev s k = 0 \/ tpos s k < tpos s l)) /\
  (exists k, In k kept /\ k <> l /\ lev s k = lev s l).
Proof.
  intros l I E. destruct (sw_reason l I E) as (_ & Il & H & k & Ik & Nk & Lk). pose proof (md_set _ _ _ _ M l I) as Hl.
  splits.
  - apply kept_in. split; auto. lia.
  - intros m Im. apply kept_in in Im. apply H, Im.
  - exists k. splits; auto. apply kept_in. split; auto. lia.
Qed.
Lemma kept_derived : rup neg (db s) kept.
Proof.
  apply kept_rup with (c_lits c); [apply V| |].
  - unfold db. apply in_or_app. right. apply in_or_app. right. apply in_larges. exists ref, c. splits; auto. apply sw_lt.
  - intros l I. destruct (root_false s l) eqn:E; [right; now apply root_false_spec|]. left. unfold kept. apply filter_In. rewrite E. auto.
Qed.

(** More than two literals remain. *)
Lemma sweep_large : forall s', 2 < length kept ->
  s' = (let s1 := set_clause ref (Some (mk_clause kept (c_redundant c) false 2)) s in
        if length kept =? length (c_lits c) then s1 else del_step (c_lits c) (add_step kept s1)) ->
  mid orig P U s' /\ marks marked U s'.
Proof.
  intros s' L3 Es. set (c' := mk_clause kept (c_redundant c) false 2) in *.
  assert (R : reshaped s s') by (subst s'; cbn zeta; destruct (length kept =? length (c_lits c)); constructor; reflexivity).
  assert (Aq : arena s' = upd (arena s) ref (Some c')) by (subst s'; cbn zeta; destruct (length kept =? length (c_lits c)); reflexivity).
  assert (Wq : watches s' = watches s /\ an s' = an s /\ next_ref s' = next_ref s /\ inconsistent s' = inconsistent s)
    by (subst s'; cbn zeta; destruct (length kept =? length (c_lits c)); auto). destruct Wq as (Wq & An & Nx & Inc).
  split; [|apply marks_same with (s := s); [eapply marks_tail; eauto|apply R|intros l; apply (rs_reas _ _ R)]].
  assert (Mo : forall v, sat v (irr s') -> sat v (irr s)).
  { intros v Sv d D. apply in_irr in D as [D|[D|(r & e & Q1 & Q2 & Q3 & Q4 & Q5)]].
    - apply Sv, in_irr. left. now rewrite (rs_root_units _ _ R).
    - apply Sv, in_irr. right; left. now rewrite (rs_vars _ _ R), Wq.
    - destruct (Nat.eq_dec r ref) as [->|N].
      + replace e with c in * by congruence. assert (X : sat_clause v kept).
        { apply Sv, in_irr. right. right. exists ref, c'. rewrite Nx, Aq, upd_same. splits; auto. }
        subst d. eapply sat_clause_incl; [|exact X]. intros y Iy. now apply kept_in in Iy.
      + apply Sv, in_irr. right. right. exists r, e. rewrite Nx, Aq, upd_other by auto. auto. }
  assert (Cn : forall d, cnt d (db s') + b2n (set_eqb d (c_lits c)) = cnt d (db s) + b2n (set_eqb d kept)).
  { intros d. rewrite !cnt_db, (rs_root_units _ _ R), (rs_vars _ _ R), Wq, Nx, Aq.
    pose proof (cnt_larges_upd (next_ref s) (arena s) d ref (Some c') sw_lt) as X. rewrite Ar in X. cbn [lits_of c' c_garbage c_lits] in X.
    rewrite G, !cnt_cons, !cnt_nil in X. fold c' in X. lia. }
  apply (mid_update orig P U s s' ref (Some c')); auto.
  - intros r. rewrite Aq. reflexivity.
  - destruct (Nat.eqb_spec (length kept) (length (c_lits c))) as [E|E].
    + assert (K : kept = c_lits c) by (apply filter_same_length; exact E). apply linv_same with (s := s); auto; [apply M|subst s'; reflexivity|apply (rs_vars _ _ R)|].
      intros d. specialize (Cn d). rewrite K in Cn. lia.
    + apply linv_replace with (s := s) (old := c_lits c) (new := kept); auto; [apply M|apply kept_derived|intros k Ik; apply dom_lt, Rg; now apply kept_in in Ik|subst s'; reflexivity|apply (rs_vars _ _ R)| |].
      * intros X. rewrite X in Ln. cbn in Ln. lia.
      * intros d. rewrite !cnt_cons. specialize (Cn d). lia.
  - splits; auto.
    + apply kept_nodup.
    + congruence.
    + intros t It. split; [apply Rg; now apply kept_in in It|now apply kept_high].
    + apply kept_open.
    + intros l I E. destruct (kept_loose l I E) as (A & B & D). unfold loose_reason. cbn. splits; auto.
Qed.

(** Two literals remain. *)
Lemma sweep_binary : forall a b, kept = [a; b] ->
  exists s2, (let s1 := set_clause ref None (watch_binary a b s) in
    if marked ref then
      match values s a, values s b with
      | Some true, Some false => Ret (set_reason a (RBinary b) s1)
      | Some false, Some true => Ret (set_reason b (RBinary a) s1)
      | _, _ => Undef
      end
    else Ret s1) = Ret s2 /\
  mid orig P U (del_step (c_lits c) (add_step kept s2)) /\ marks marked U (del_step (c_lits c) (add_step kept s2)).
Proof.
  intros a b K.
  assert (Ia : In a kept) by (rewrite K; now left). assert (Ib : In b kept) by (rewrite K; right; now left).
  assert (N : a <> b) by (pose proof kept_nodup as X; rewrite K in X; inversion X as [|? ? X1]; subst; intros ->; apply X1; now left).
  assert (Sub : forall y, In y kept -> In y (c_lits c)) by (intros y Iy; now apply kept_in in Iy).
  set (s1 := new_binary_clause false a b s).
  assert (M1 : mid orig P (ref :: U) s1).
  { apply mid_binary; auto; [rewrite <- K; apply kept_derived| |now apply kept_high|now apply kept_high].
    destruct kept_open as (t & It & Ft). rewrite K in It. destruct It as [->|[->|[]]]; auto. }
  assert (R1 : reshaped s s1) by apply new_binary_reshaped.
  assert (Ar1 : arena s1 ref = Some c) by exact Ar.
  assert (Lt1 : ref < next_ref s1) by exact sw_lt.
  (* removing the large clause *)
  assert (Fin : forall s2, mid orig P (ref :: U) s2 -> arena s2 = arena s1 -> watches s2 = watches s1 -> next_ref s2 = next_ref s1 -> vars s2 = vars s1 -> active s2 = active s1 ->
    (forall l, In l (trail s2) -> reas s2 l <> RClause ref) -> mid orig P U (del_step (c_lits c) (set_clause ref None s2))).
  { intros s2 M2 E1 E2 E3 E4 E5 H. assert (R2 : reshaped s2 (del_step (c_lits c) (set_clause ref None s2))) by (constructor; reflexivity).
    apply (mid_update orig P U s2 _ ref None); auto.
    apply linv_del with (s := s2) (c := c_lits c); try reflexivity; [apply M2| | |].
    - intros X. rewrite X in Ln. cbn in Ln. lia.
    - intros d. assert (Ar2 : arena s2 ref = Some c) by (rewrite E1; auto).
      pose proof (msub_larges_del (next_ref s2) (arena s2) ref c Ar2 G) as X. specialize (X ltac:(rewrite E3; auto) d). rewrite cnt_cons in *. rewrite !cnt_db.
      rewrite (rs_root_units _ _ R2). cbn [del_step set_steps set_clause set_arena vars watches next_ref arena]. lia.
    - intros v Sv d D. apply in_irr in D as [D|[D|(r & e & Q1 & Q2 & Q3 & Q4 & Q5)]].
      + apply Sv, in_irr. left. now rewrite (rs_root_units _ _ R2).
      + apply Sv, in_irr. now right; left.
      + destruct (Nat.eq_dec r ref) as [->|Nr].
        * rewrite E1, Ar1 in Q2. inversion Q2; subst e.
          assert (X : exists z, In z (irr (del_step (c_lits c) (set_clause ref None s2))) /\ same_literals [a; b] z).
          { assert (J : In (WBinary b) (watches s2 a)) by (rewrite E2; apply new_binary_watches; auto).
            assert (J' : In (WBinary a) (watches s2 b)) by (rewrite E2; apply new_binary_watches; auto).
            assert (Va : dom s2 a) by (unfold dom; rewrite E4, E5; apply Rg; auto). assert (Vb : dom s2 b) by (unfold dom; rewrite E4, E5; apply Rg; auto).
            destruct (lt_dec a b).
            - exists [a; b]. split; [|apply same_literals_refl]. apply in_irr. right. left. apply in_binaries. exists a, b. splits; auto.
            - exists [b; a]. split; [|apply same_literals_perm, perm_swap]. apply in_irr. right. left. apply in_binaries. exists b, a. splits; auto. lia. }
          destruct X as (z & Iz & Sz). subst d. eapply sat_clause_incl; [|apply Sv, Iz]. intros y Iy. apply Sub. rewrite K. now apply Sz.
        * apply Sv, in_irr. right. right. exists r, e. splits; auto. cbn. now rewrite upd_other. }
  cbn zeta. rewrite (Mk ref (or_introl eq_refl)). destruct (is_reason s ref) eqn:Er.
  - apply is_reason_spec in Er as (l & Il & El). destruct (kept_loose l Il El) as (Ik & H & k & Kk & Nk & Lk).
    pose proof (ti_true _ V _ Il) as Tl.
    (* the general case *)
    assert (Gen : forall x y, (x = a /\ y = b) \/ (x = b /\ y = a) -> l = x ->
      mid orig P U (del_step (c_lits c) (add_step kept (set_reason x (RBinary y) (set_clause ref None (watch_binary a b s))))) /\
      marks marked U (del_step (c_lits c) (add_step kept (set_reason x (RBinary y) (set_clause ref None (watch_binary a b s)))))).
    { intros x y Exy ->. assert (Iy : In y kept) by (destruct Exy as [[-> ->]|[-> ->]]; auto). assert (Nxy : y <> x) by (destruct Exy as [[-> ->]|[-> ->]]; auto).
      assert (k = y). { rewrite K in Kk. destruct Exy as [[-> ->]|[-> ->]]; destruct Kk as [->|[->|[]]]; congruence. } subst k.
      destruct (H y Iy Nxy) as (Fy & Ly & Ty).
      pose proof (md_set _ _ _ _ M x Il) as Hx.
      set (s2 := set_reason x (RBinary y) s1).
      assert (M2 : mid orig P (ref :: U) s2).
      { apply mid_reasoned with ref; auto; try (rewrite ?(rs_lev _ _ R1), ?(rs_tpos _ _ R1); auto; fail).
        - apply new_binary_watches. destruct Exy as [[-> ->]|[-> ->]]; auto.
        - rewrite !(rs_tpos _ _ R1). lia. }
      replace (del_step (c_lits c) (add_step kept (set_reason x (RBinary y) (set_clause ref None (watch_binary a b s)))))
        with (del_step (c_lits c) (set_clause ref None s2)) by (rewrite K; reflexivity).
      assert (Rs2 : forall m, reas s2 m = if idx m =? idx x then RBinary y else reas s m).
      { intros m. unfold s2. rewrite set_reason_reas. now rewrite (rs_reas _ _ R1). }
      split.
      - apply Fin; auto. intros m Im. rewrite Rs2. destruct (Nat.eqb_spec (idx m) (idx x)) as [E|E]; [discriminate|].
        intros Em. apply E. f_equal. change (In m (trail s)) in Im. destruct (kept_loose m Im Em) as (A1 & A2 & _).
        destruct (Nat.eq_dec m x); auto. destruct (A2 x Ik) as (A3 & _); auto. congruence.
      - intros r Ir. rewrite (Mk r (or_intror Ir)).
        assert (Z : is_reason s r = is_reason s2 r).
        { unfold is_reason. change (trail s2) with (trail s).
          assert (Tx : forall m, In m (trail s) -> (match reas s m with RClause q => q =? r | _ => false end) = (match reas s2 m with RClause q => q =? r | _ => false end)).
          { intros m Im. rewrite Rs2. destruct (Nat.eqb_spec (idx m) (idx x)) as [E|E]; auto.
            assert (Q : reas s m = RClause ref) by (unfold reas in *; rewrite E; auto). rewrite Q. apply Nat.eqb_neq. intros ->. auto. }
          clear -Tx. induction (trail s) as [|m ms IH]; auto. cbn [existsb]. rewrite Tx by now left. f_equal. apply IH. intros; apply Tx. now right. }
        exact Z. }
    rewrite K in Ik, H. destruct Ik as [E|[E|[]]].
    + destruct (Gen a b) as [A B]; auto. destruct (H b) as (Fb & _); [right; now left|congruence|]. replace (values s a) with (Some true) by congruence. rewrite Fb. eauto.
    + destruct (Gen b a) as [A B]; auto. destruct (H a) as (Fa & _); [now left|congruence|]. replace (values s b) with (Some true) by congruence. rewrite Fa. eauto.
  - exists (set_clause ref None (watch_binary a b s)). split; auto.
    replace (del_step (c_lits c) (add_step kept (set_clause ref None (watch_binary a b s)))) with (del_step (c_lits c) (set_clause ref None s1)) by (rewrite K; reflexivity).
    split.
    + apply Fin; auto. intros l Il. rewrite (rs_reas _ _ R1). eapply is_reason_false; eauto.
    + apply marks_same with (s := s); [eapply marks_tail; eauto|reflexivity|reflexivity].
Qed.
End SweepOne.

Lemma sweep_clause_spec : forall orig P U marked ref s, mid orig P (ref :: U) s -> ~ In ref U -> marks marked (ref :: U) s ->
  exists s', sweep_clause marked ref s = Ret s' /\ mid orig P U s' /\ marks marked U s'.
Proof.
  intros orig P U marked ref s M Nu Mk. unfold sweep_clause. destruct (arena s ref) as [c|] eqn:Ar.
  2:{ exists s. split; auto. split; [|eapply marks_tail; eauto].
      apply (mid_update orig P U s s ref None); auto; [apply reshaped_refl| |apply M|].
      - intros r. destruct (Nat.eqb_spec r ref) as [->|]; auto.
      - intros l I E. destruct (md_reason _ _ _ _ M l I) as [(q & d & H1 & H2 & H3 & H4)|[H1 _]]; [congruence|].
        apply (H1 ref E). apply (md_U _ _ _ _ M). now left. }
  destruct (c_garbage c) eqn:G.
  { eexists. split; [reflexivity|]. eapply sweep_garbage; eauto. }
  destruct (existsb (root_true s) (c_lits c)) eqn:Nt.
  { destruct (sweep_satisfied orig P U marked ref s c M Nu Mk Ar G Nt) as (A & B). rewrite A. cbn [negb oassert obind]. eexists. split; [reflexivity|]. exact B. }
  pose proof (kept_two orig P U ref s c M Ar G Nt) as K2.
  pose proof (sweep_large orig P U marked ref s c M Nu Mk Ar G Nt) as Lg.
  pose proof (sweep_binary orig P U marked ref s c M Nu Mk Ar G Nt) as Bi.
  pose proof (kept_loose orig P U ref s c M Ar) as Lo.
  pose proof (kept_nodup orig P U ref s c M Ar G) as Nd.
  cbv zeta in *. set (kept := filter (fun l => negb (root_false s l)) (c_lits c)) in *. clearbody kept.
  destruct kept as [|a [|b [|d rest]]]; try (cbn in K2; lia).
  - destruct (Bi a b eq_refl) as (s2 & E & A). rewrite E. cbn [obind].
    pose proof (ci_len _ (md_c _ _ _ _ M) ref c Ar G) as Ln. destruct (Nat.eqb_spec (length [a; b]) (length (c_lits c))) as [X|X]; [cbn in X; lia|].
    eexists. split; [reflexivity|]. exact A.
  - set (kept := a :: b :: d :: rest) in *.
    assert (As : (if marked ref then oassert (length (filter (is_true s) kept) =? 1) else Ret tt) = Ret tt).
    { rewrite (Mk ref (or_introl eq_refl)). destruct (is_reason s ref) eqn:Er; auto. apply is_reason_spec in Er as (l & Il & El).
      destruct (Lo G Nt l Il El) as (Ik & H & _). pose proof (ti_true _ (md_v _ _ _ _ M) _ Il) as Tl.
      rewrite (filter_one _ _ l); auto.
      - now apply is_true_spec.
      - intros y Iy Ty. apply is_true_spec in Ty. destruct (Nat.eq_dec y l); auto. destruct (H y Iy n). congruence. }
    rewrite As. cbn [obind]. 
    destruct (length kept =? length (c_lits c)) eqn:E; (eexists; split; [reflexivity|]; apply Lg; [cbn; lia|reflexivity]).
Qed.

Lemma sweep_all_spec : forall orig P marked U s, mid orig P U s -> NoDup U -> marks marked U s ->
  exists s', ofold (sweep_clause marked) U s = Ret s' /\ mid orig P [] s'.
Proof.
  intros orig P marked. induction U as [|r U IH]; intros s M Nd Mk; cbn [ofold]; eauto.
  inversion Nd; subst. destruct (sweep_clause_spec orig P U marked r s) as (s1 & E & M1 & Mk1); auto.
  rewrite E. cbn [obind]. auto.
Qed.

(** ** Sorting the watches to the front *)
Lemma smallest_spec : forall s enough rest j pos u k p v, pos < j -> smallest s enough j rest pos u k = (p, v) ->
  ((p = pos /\ v = Some u) \/ (j <= p < j + length rest /\ v = values s (nth (p - j) rest 0))) /\
  ((u = true \/ exists t, In t rest /\ values s t <> Some false) -> v <> Some false) /\
  (v = Some false -> k <= (if p =? pos then k else lev s (nth (p - j) rest 0)) /\
    forall t, In t rest -> lev s t <= (if p =? pos then k else lev s (nth (p - j) rest 0))).
Proof.
  intros s enough. induction rest as [|b rest IH]; intros j pos u k p v Lt E; cbn [smallest] in E.
  { inversion E; subst. rewrite Nat.eqb_refl. splits; auto.
    - intros [->|(t & [] & _)]. discriminate.
    - intros _. split; auto. intros t []. }
  destruct (values s b) as [x|] eqn:Eb.
  2:{ inversion E; subst. splits; try congruence. right. cbn [length]. rewrite Nat.sub_diag. split; [lia|]. auto. }
  destruct (x && enough) eqn:Xe.
  { inversion E; subst. apply andb_true_iff in Xe as [-> _]. splits; try congruence.
    right. cbn [length]. rewrite Nat.sub_diag. split; [lia|]. auto. }
  set (better := match u, x with false, true => true | true, false => false | false, false => k <? lev s b | true, true => lev s b <? k end) in E.
  assert (Sub : forall q, S j <= q -> nth (q - j) (b :: rest) 0 = nth (q - S j) rest 0) by (intros q Q; replace (q - j) with (S (q - S j)) by lia; reflexivity).
  destruct better eqn:Be.
  - destruct (IH (S j) j x (lev s b) p v) as (A & B & C); auto.
    assert (Np : p =? pos = false) by (apply Nat.eqb_neq; destruct A as [[-> _]|[A _]]; lia). rewrite Np.
    assert (Val : (if p =? j then lev s b else lev s (nth (p - S j) rest 0)) = lev s (nth (p - j) (b :: rest) 0)).
    { destruct (Nat.eqb_spec p j) as [->|]; [now rewrite Nat.sub_diag|]. rewrite Sub; auto. destruct A as [[-> _]|[A _]]; lia. }
    rewrite Val in C. splits.
    + right. destruct A as [[-> ->]|[A ->]]; cbn [length].
      * rewrite Nat.sub_diag. split; [lia|]. auto.
      * rewrite Sub by lia. split; [lia|]. auto.
    + intros H. apply B. destruct H as [->|(t & [<-|It] & Nt)].
      * destruct x; auto.
      * left. destruct x; congruence.
      * right. eauto.
    + intros Hv. destruct (C Hv) as [C1 C2]. split; [|intros t [<-|It]; auto].
      destruct u, x; cbn in Be; try discriminate.
      * exfalso. apply B; auto.
      * exfalso. apply B; auto.
      * apply Nat.ltb_lt in Be. lia.
  - destruct (IH (S j) pos u k p v) as (A & B & C); auto.
    assert (Val : (if p =? pos then k else lev s (nth (p - S j) rest 0)) = if p =? pos then k else lev s (nth (p - j) (b :: rest) 0)).
    { destruct (Nat.eqb_spec p pos) as [->|]; auto. rewrite Sub; auto. destruct A as [[-> _]|[A _]]; [contradiction|lia]. }
    rewrite Val in C. splits.
    + destruct A as [[-> ->]|[A ->]]; auto. right. cbn [length]. rewrite Sub by lia. split; [lia|]. auto.
    + intros H. apply B. destruct H as [->|(t & [<-|It] & Nt)]; auto; [|right; eauto].
      left. destruct u, x; cbn in Be; congruence || auto.
    + intros Hv. destruct (C Hv) as [C1 C2]. split; auto. intros t [<-|It]; auto.
      destruct u, x; cbn in Be; try discriminate.
      * exfalso. apply B; auto.
      * exfalso. apply B; auto.
      * apply Nat.ltb_ge in Be. lia.
Qed.

Lemma in_skipn_nth : forall (l : list lit) n t, In t (skipn n l) <-> exists i, n <= i < length l /\ nth i l 0 = t.
Proof.
  intros l n t. split.
  - intros I. apply In_nth with (d := 0) in I as (i & Li & E). rewrite skipn_length in Li. rewrite nth_skipn_add in E. exists (n + i). split; auto. lia.
  - intros (i & Li & <-). replace i with (n + (i - n)) by lia. rewrite <- nth_skipn_add. apply nth_In. rewrite skipn_length. lia.
Qed.

Lemma move_smallest_spec : forall s enough start lits lits' v, start < length lits -> NoDup lits ->
  move_smallest_literal_to_front s enough start lits = (lits', v) ->
  Permutation lits lits' /\ v = values s (nth start lits' 0) /\ (forall i, i < start -> nth i lits' 0 = nth i lits 0) /\
  ((exists i, start <= i < length lits /\ values s (nth i lits 0) <> Some false) -> v <> Some false) /\
  (v = Some false -> forall i, start <= i < length lits' -> lev s (nth i lits' 0) <= lev s (nth start lits' 0)).
Proof.
  intros s enough start lits lits' v Ls Nd E. unfold move_smallest_literal_to_front in E.
  destruct (values s (nth start lits 0)) as [u|] eqn:Ev.
  2:{ inversion E; subst. splits; auto; congruence. }
  destruct (u && enough) eqn:Ue.
  { inversion E; subst. apply andb_true_iff in Ue as [-> _]. splits; auto; congruence. }
  destruct (smallest s enough (S start) (skipn (S start) lits) start u (lev s (nth start lits 0))) as [p w] eqn:Es.
  inversion E; subst w. clear E.
  apply smallest_spec in Es as (A & B & C); [|lia]. rewrite skipn_length in A. rewrite nth_skipn_add in A, C.
  assert (Lp : start <= p < length lits) by (destruct A as [[-> _]|[A _]]; lia).
  assert (Bx : (exists i, start <= i < length lits /\ values s (nth i lits 0) <> Some false) -> v <> Some false).
  { intros (i & Li & Ni). apply B. destruct (Nat.eq_dec i start) as [->|N].
    - left. rewrite Ev in Ni. destruct u; congruence.
    - right. exists (nth i lits 0). split; auto. apply in_skipn_nth. exists i. split; auto. lia. }
  destruct (Nat.eqb_spec p start) as [->|N].
  - destruct A as [[_ ->]|[A _]]; [|lia]. subst lits'. rewrite Ev. splits; auto.
    intros Hv i Li. destruct (C Hv) as [C1 C2]. destruct (Nat.eq_dec i start) as [->|N]; auto. apply C2. apply in_skipn_nth. exists i. split; auto. lia.
  - destruct A as [[-> _]|[A Av]]; [contradiction|]. replace (S start + (p - S start)) with p in * by lia.
    subst lits'. splits; auto.
    + apply lswap_perm; lia.
    + rewrite lswap_nth_l by lia. auto.
    + intros i Li. rewrite lswap_nth_o; auto; lia.
    + intros Hv i Li. destruct (C Hv) as [C1 C2]. rewrite lswap_length in Li. rewrite lswap_nth_l by lia.
      destruct (Nat.eq_dec i start) as [->|N1]; [rewrite lswap_nth_l by lia; auto|].
      destruct (Nat.eq_dec i p) as [->|N2]; [rewrite lswap_nth_r by lia; auto|].
      rewrite lswap_nth_o by auto. apply C2. apply in_skipn_nth. exists i. split; auto. lia.
Qed.

Lemma sort_literals_spec : forall s lits, 2 < length lits -> NoDup lits ->
  (exists t, In t lits /\ values s t <> Some false) ->
  Permutation lits (sort_literals s lits) /\
  values s (nth 0 (sort_literals s lits) 0) <> Some false /\
  (forall l, In l lits -> values s l = Some true -> (forall k, In k lits -> k <> l -> values s k = Some false) ->
    nth 0 (sort_literals s lits) 0 = l /\ forall k, In k lits -> k <> l -> lev s k <= lev s (nth 1 (sort_literals s lits) 0)).
Proof.
  intros s lits Ln Nd (t & It & Nt). unfold sort_literals.
  destruct (move_smallest_literal_to_front s false 0 lits) as [lits1 u] eqn:E1.
  apply move_smallest_spec in E1 as (P1 & V1 & _ & O1 & _); auto; [|lia].
  pose proof (Permutation_length P1) as L1. pose proof (Permutation_NoDup P1 Nd) as Nd1.
  replace (2 <? length lits1) with true by (symmetry; apply Nat.ltb_lt; lia).
  destruct (move_smallest_literal_to_front s match u with Some false => false | _ => true end 1 lits1) as [lits2 u2] eqn:E2.
  apply move_smallest_spec in E2 as (P2 & V2 & K2 & _ & C2); auto; [|lia]. cbn [fst].
  pose proof (Permutation_length P2) as L2. pose proof (Permutation_NoDup P2 Nd1) as Nd2.
  assert (P : Permutation lits lits2) by (eapply perm_trans; eauto).
  assert (Nu : u <> Some false).
  { apply O1. apply In_nth with (d := 0) in It as (i & Li & <-). exists i. split; auto. lia. }
  assert (Z0 : nth 0 lits2 0 = nth 0 lits1 0) by (apply K2; lia).
  splits; auto.
  - rewrite Z0, <- V1. auto.
  - intros l Il Tl Fl. assert (I0 : In (nth 0 lits2 0) lits) by (eapply Permutation_in; [apply Permutation_sym, P|apply nth_In; lia]).
    assert (E0 : nth 0 lits2 0 = l).
    { destruct (Nat.eq_dec (nth 0 lits2 0) l) as [E|N]; auto. exfalso. apply Nu. rewrite V1, <- Z0. auto. }
    split; auto. intros k Ik Nk.
    assert (I1 : In (nth 1 lits2 0) lits) by (eapply Permutation_in; [apply Permutation_sym, P|apply nth_In; lia]).
    assert (N1 : nth 1 lits2 0 <> l) by (rewrite <- E0; apply NoDup_nth_neq; auto; lia).
    assert (Ik2 : In k lits2) by (eapply Permutation_in; eauto). apply In_nth with (d := 0) in Ik2 as (i & Li & Ei). rewrite <- Ei.
    apply C2; [rewrite V2; auto|]. split; auto. destruct i; [congruence|lia].
Qed.

(** ** Watching the clauses again *)
Lemma rewatch_clause_spec : forall orig P r s, mid orig (r :: P) [] s -> ~ In r P ->
  exists s', rewatch_clause r s = Ret s' /\ mid orig P [] s' /\ last_learned s' = last_learned s.
Proof.
  intros orig P r s M Nr. unfold rewatch_clause.
  assert (V := md_v _ _ _ _ M). assert (F := md_f _ _ _ _ M). assert (Se := md_set _ _ _ _ M).
  destruct (arena s r) as [c|] eqn:Ar.
  2:{ exists s. split; auto. split; auto. destruct M as [_ _ C L _ Pr Cl Wl Wc Ws Wi Re Pb Pl Op Sw Fr UP]. constructor; auto.
      - intros l b q Rl I. destruct (Wl l b q Rl I) as [A B]. split; auto. intros X. apply A. now right.
      - intros q d l Np A G W. apply (Wc q d l); auto. intros [->|X]; [congruence|auto].
      - intros l I. destruct (Re l I) as [(q & d & H1 & H2 & H3 & H4)|[H1 H2]].
        + left. exists q, d. splits; auto. destruct H2 as [->|H2]; [congruence|auto].
        + right. split; auto. intros q E X. apply (H1 q E). now right.
      - intros q d w x Np A G Ww Wx N. apply (Pl q d w x); auto. intros [->|X]; [congruence|auto].
      - intros q d Ip A G. apply (Op q d); auto. now right.
      - intros q d Ip _ A. apply (Sw q d); auto. now right.
      - intros q []. }
  destruct (md_swept _ _ _ _ M r c (or_introl eq_refl) (fun x => x) Ar) as [G Hi].
  pose proof (ci_len _ (md_c _ _ _ _ M) r c Ar G) as Ln. pose proof (ci_nodup _ (md_c _ _ _ _ M) r c Ar G) as Nd.
  pose proof (md_open _ _ _ _ M r c (or_introl eq_refl) Ar G) as Op.
  destruct (sort_literals_spec s (c_lits c) Ln Nd Op) as (Pm & N0 & Srt).
  set (lits := sort_literals s (c_lits c)) in *.
  pose proof (Permutation_length Pm) as Ll. pose proof (Permutation_NoDup Pm Nd) as Nd'.
  assert (Ipm : forall y, In y lits <-> In y (c_lits c)) by (intros y; split; [apply Permutation_in, Permutation_sym, Pm|apply Permutation_in, Pm]).
  clearbody lits. destruct lits as [|l0 [|l1 rest]] eqn:El; try (cbn in Ll; lia). rewrite <- El in *. 
  assert (Z0 : nth 0 lits 0 = l0) by (rewrite El; reflexivity). assert (Z1 : nth 1 lits 0 = l1) by (rewrite El; reflexivity).
  assert (I0 : In l0 lits) by (rewrite El; now left). assert (I1 : In l1 lits) by (rewrite El; right; now left).
  assert (N01 : l0 <> l1) by (rewrite <- Z0, <- Z1; apply NoDup_nth_neq; auto; lia).
  rewrite Z0 in *. rewrite Z1 in *.
  set (c' := mk_clause lits (c_redundant c) (c_garbage c) 2).
  eexists. split; [reflexivity|]. set (s' := watch_blocking _ _ _ _). split; [|reflexivity].
  assert (R : reshaped s s') by (constructor; reflexivity).
  assert (A' : arena s' = upd (arena s) r (Some c')) by reflexivity.
  assert (W' : forall k, watches s' k = if k =? l1 then watches s l1 ++ [WLarge l0 r] else if k =? l0 then watches s l0 ++ [WLarge l1 r] else watches s k).
  { intros k. unfold s'. cbn. unfold upd. destruct (Nat.eqb_spec k l1) as [->|]; auto. destruct (Nat.eqb_spec l1 l0); [congruence|reflexivity]. }
  assert (Wt : forall k, watching k c' <-> k = l0 \/ k = l1) by (intros k; rewrite watching_nth; cbn [c' c_lits]; [now rewrite Z0, Z1|lia]).
  assert (R0 : dom s l0) by (apply (ci_range _ (md_c _ _ _ _ M) r c l0 Ar G); now apply Ipm).
  assert (R1 : dom s l1) by (apply (ci_range _ (md_c _ _ _ _ M) r c l1 Ar G); now apply Ipm).
  assert (Bi : forall k o, In (WBinary o) (watches s' k) <-> In (WBinary o) (watches s k)).
  { intros k o. rewrite W'. destruct (Nat.eqb_spec k l1) as [->|]; [|destruct (Nat.eqb_spec k l0) as [->|]; [|tauto]];
      rewrite in_app_iff; cbn; intuition discriminate. }
  assert (Lg : forall k b q, In (WLarge b q) (watches s' k) -> In (WLarge b q) (watches s k) \/ (q = r /\ ((k = l1 /\ b = l0) \/ (k = l0 /\ b = l1)))).
  { intros k b q I. rewrite W' in I. destruct (Nat.eqb_spec k l1) as [->|]; [|destruct (Nat.eqb_spec k l0) as [->|]]; auto;
      apply in_app_or in I as [I|[I|[]]]; auto; inversion I; subst; right; auto. }
  assert (Fl : forall k, k < 2 * vars s -> filter (watches_ref r) (watches s k) = []).
  { intros k Rk. destruct (filter (watches_ref r) (watches s k)) as [|w ws] eqn:E; auto. exfalso.
    assert (I : In w (filter (watches_ref r) (watches s k))) by (rewrite E; now left).
    apply filter_In in I as [I H]. destruct w as [o|bl q]; [discriminate|]. cbn in H. apply Nat.eqb_eq in H. subst q.
    destruct (md_large _ _ _ _ M k bl r Rk I) as [X _]. apply X. now left. }
  assert (Fo : forall q k, q <> r -> filter (watches_ref q) (watches s' k) = filter (watches_ref q) (watches s k)).
  { intros q k Nq. rewrite W'. destruct (Nat.eqb_spec k l1) as [->|]; [|destruct (Nat.eqb_spec k l0) as [->|]]; auto;
      rewrite filter_app; cbn [filter watches_ref]; (destruct (Nat.eqb_spec r q); [congruence|]); apply app_nil_r. }
  assert (Rn : r < next_ref s) by (apply (ci_ref _ (md_c _ _ _ _ M)); cbn; congruence).
  assert (Ne : forall q, ~ In q P -> q = r \/ ~ In q (r :: P)).
  { intros q N. destruct (Nat.eq_dec q r); auto. right. intros [E|E]; auto. }
  destruct M as [_ _ C L _ Pr Cl Wl Wc Ws Wi Re Pb Pl Opn Sw Fr UP].
  constructor; auto.
  - eapply rs_vinv; eauto.
  - eapply rs_finv; eauto.
  - destruct C as [C1 C2 C3 C4 C5]. cbn [set_last_learned arena next_ref vars last_learned] in *.
    constructor; cbn [set_last_learned arena next_ref vars last_learned]; rewrite ?A'; change (next_ref s') with (next_ref s); change (vars s') with (vars s).
    + intros q. unfold upd. destruct (Nat.eqb_spec q r) as [->|]; auto.
    + intros q d. unfold upd. destruct (Nat.eqb_spec q r) as [->|]; [|apply C2]. intros E _. inversion E; subst d. cbn. lia.
    + intros q d. unfold upd. destruct (Nat.eqb_spec q r) as [->|]; [|apply C3]. intros E _. inversion E; subst d. exact Nd'.
    + intros q d l. unfold upd. destruct (Nat.eqb_spec q r) as [->|]; [|apply C4]. intros E _ I. inversion E; subst d. apply (C4 r c l Ar G). now apply Ipm.
    + intros q [].
  - apply linv_same with (s := s); auto.
    + intros d. rewrite !cnt_db, (rs_root_units _ _ R). change (vars s') with (vars s). change (next_ref s') with (next_ref s). rewrite A'.
      rewrite (cnt_binaries_same (vars s) (watches s) (watches s')).
      2:{ intros a _. rewrite W'. destruct (Nat.eqb_spec a l1) as [->|]; [|destruct (Nat.eqb_spec a l0) as [->|]]; auto; rewrite flat_map_app; cbn; apply app_nil_r. }
      pose proof (cnt_larges_upd (next_ref s) (arena s) d r (Some c') Rn) as X. rewrite Ar in X. cbn [lits_of c' c_garbage c_lits] in X. rewrite G, !cnt_cons, !cnt_nil in X.
      rewrite (set_eqb_same_r d lits (c_lits c)) in X by (intros y; apply Ipm). lia.
    + intros v Sv d D. apply in_irr in D as [D|[D|(q & e & Q1 & Q2 & Q3 & Q4 & Q5)]].
      * apply Sv, in_irr. left. now rewrite (rs_root_units _ _ R).
      * apply Sv, in_irr. right. left. apply in_binaries in D as (a & b & D1 & D2 & D3 & D4). apply in_binaries. exists a, b. splits; auto. now apply Bi.
      * destruct (Nat.eq_dec q r) as [->|N].
        -- replace e with c in * by congruence. assert (X : sat_clause v lits).
           { apply Sv, in_irr. right. right. exists r, c'. rewrite A', upd_same. splits; auto. }
           subst d. eapply sat_clause_incl; [|exact X]. intros y Iy. now apply Ipm.
        -- apply Sv, in_irr. right. right. exists q, e. rewrite A', upd_other by auto. auto.
  - intros l b q Rl I. change (vars s') with (vars s) in Rl. apply Lg in I as [I|[-> I]].
    + destruct (Wl l b q Rl I) as [X (d & D1 & D2)]. split; [intros Y; apply X; now right|]. exists d. rewrite A', upd_other; auto. intros ->. apply X. now left.
    + split; auto. exists c'. rewrite A', upd_same. split; auto. intros _. rewrite Wt. destruct I as [[-> ->]|[-> ->]]; splits; auto.
  - intros q d l Np Aq Gd Ww. rewrite A' in Aq. destruct (Nat.eq_dec q r) as [->|N].
    + rewrite upd_same in Aq. inversion Aq; subst d. left. rewrite W'. apply Wt in Ww as [->| ->].
      * destruct (Nat.eqb_spec l0 l1); [congruence|]. rewrite Nat.eqb_refl, filter_app, Fl by auto. cbn. now rewrite Nat.eqb_refl.
      * rewrite Nat.eqb_refl, filter_app, Fl by auto. cbn. now rewrite Nat.eqb_refl.
    + rewrite upd_other in Aq by auto. rewrite Fo by auto. apply (Wc q d l); auto. intros [E|E]; auto.
  - assert (Bc : forall k o, bcount o (watches s' k) = bcount o (watches s k)).
    { intros k o. rewrite W'. destruct (Nat.eqb_spec k l1) as [->|]; [|destruct (Nat.eqb_spec k l0) as [->|]; auto]; rewrite bcount_app, bcount_large; cbn; lia. }
    intros a b. now rewrite !Bc.
  - intros a b I. apply Bi in I. apply Wi; auto.
  - intros l I. change (In l (trail s)) in I. change (reas s' l) with (reas s l).
    destruct (Re l I) as [(q & d & H1 & H2 & H3 & H4)|[H1 H2]].
    + destruct (Nat.eq_dec q r) as [->|N].
      * right. split; [intros z E Z; congruence|]. unfold reason_ok. change (reas s' l) with (reas s l). rewrite H1.
        exists c'. rewrite A', upd_same. split; auto. replace d with c in * by congruence.
        destruct H4 as (_ & Il & Hk & k & Ik & Nk & Lk).
        destruct (Srt l Il (ti_true _ V _ I)) as [E0 Mx]; [intros y Iy Ny; now apply Hk|].
        apply (rs_clause_ok _ _ R). unfold reason_clause_ok. splits; auto.
        -- apply Wt. auto.
        -- intros y Iy. apply Hk. now apply Ipm.
        -- exists k. splits; auto. now apply Ipm.
        -- intros w j Ww Nw Lj Bj. apply Wt in Ww as [->| ->]; [congruence|].
           assert (Q : lev s k <= lev s l1) by auto. destruct (Hk l1) as (F1 & L1 & _); [now apply Ipm|congruence|].
           pose proof (Se l I) as Hl. assert (X : In (neg l1) (trail s)) by (apply false_on_trail; auto; lia).
           specialize (Bj X). rewrite <- tpos_neg in Bj. pose proof (ti_lev _ F j _ _ (trail_nth s _ V X) Bj) as Y. rewrite lev_neg in Y. lia.
      * left. exists q, d. rewrite A', upd_other by auto. splits; auto. destruct H2 as [->|]; [congruence|auto].
    + right. split; [intros q E X; apply (H1 q E); now right|]. apply (rs_reason _ _ R); auto.
      * intros a b. apply Bi.
      * intros q d E Aq _. rewrite A', upd_other; auto. intros ->. apply (H1 r E). now left.
  - intros a b I. apply (rs_watched_ok _ _ R). apply Pb. now apply Bi.
  - intros q d w x Np Aq Gd Ww Wx N. rewrite A' in Aq. apply (rs_watched_ok _ _ R). change (trail s') with (trail s). destruct (Nat.eq_dec q r) as [->|Nq].
    + rewrite upd_same in Aq. inversion Aq; subst d. apply nonroot_ok; auto.
      * apply Wt in Ww as [->| ->]; auto. apply Wt in Wx as [->| ->]; auto; congruence.
      * apply Hi. apply Ipm. apply watching_in in Ww. exact Ww.
    + rewrite upd_other in Aq by auto. apply (Pl q d w x); auto. intros [E|E]; auto.
  - intros q d Ip Aq Gd. rewrite A', upd_other in Aq by (intros ->; auto). apply (Opn q d); auto. now right.
  - intros q d Ip _ Aq. rewrite A', upd_other in Aq by (intros ->; auto). apply (Sw q d); auto. now right.
  - intros q d w [].
  - intros q [].
Qed.

Lemma mid_perm : forall orig P P' s, mid orig P [] s -> (forall r, In r P <-> In r P') -> mid orig P' [] s.
Proof.
  intros orig P P' s M E. destruct M as [V F C L Se Pr Cl Wl Wc Ws Wi Re Pb Pl Op Sw Fr UP].
  assert (E' : forall r, ~ In r P' -> ~ In r P) by (intros r N X; apply N, E, X).
  assert (E2 : forall r, In r P' -> In r P) by (intros r; apply E).
  constructor; auto; try solve [eauto].
  - intros l b r Rl I. destruct (Wl l b r Rl I) as [A B]. split; auto.
  - intros l I. destruct (Re l I) as [(q & d & H1 & H2 & H3 & H4)|[H1 H2]].
    + left. exists q, d. splits; auto. now apply E.
    + right. split; auto. intros q Q X. apply (H1 q Q), E, X.
  - intros r [].
Qed.

Lemma rewatch_all_spec : forall orig P s, mid orig P [] s -> NoDup P ->
  exists s', ofold rewatch_clause P s = Ret s' /\ mid orig [] [] s' /\ last_learned s' = last_learned s.
Proof.
  intros orig. induction P as [|r P IH]; intros s M Nd; cbn [ofold]; eauto.
  inversion Nd; subst. destruct (rewatch_clause_spec orig P r s M) as (s1 & E & M1 & L1); auto. rewrite E. cbn [obind].
  destruct (IH s1 M1) as (s2 & E2 & M2 & L2); auto. exists s2. splits; auto. congruence.
Qed.

Lemma mid_done : forall orig s, mid orig [] [] s -> last_learned s = [] -> propagated orig s /\ settled s /\ clean (an s).
Proof.
  intros orig s [V F C L Se Pr Cl Wl Wc Ws Wi Re Pb Pl Op Sw Fr UP] E. splits; auto. unfold propagated. splits; auto.
  - constructor; auto.
    + destruct C as [C1 C2 C3 C4 C5]. constructor; auto. rewrite E. intros r [].
    + constructor; auto.
      intros l b r Rl I. now apply Wl.
    + intros l I _ _. destruct (Re l I) as [(q & d & _ & [] & _)|[_ H]]. exact H.
  - constructor; auto. intros r c w x. apply Pl. intros [].
Qed.

(** ** Garbage collection *)
Theorem sparse_collect_spec : forall orig visit moved s, propagated orig s -> settled s -> clean (an s) ->
  NoDup visit -> NoDup moved -> (forall r, In r visit <-> In r moved) ->
  wp (sparse_collect visit moved s) (fun s' => propagated orig s' /\ settled s' /\ clean (an s')).
Proof.
  intros orig visit moved s (Co & Pr & Pi) Se Cl Nv Nm Ev. unfold sparse_collect.
  destruct (flush_all_spec orig visit s) as (t & E & Fl & Lt & Ws & Wo); auto; try apply Co; [apply (wi_sym _ _ _ _ _ (co_w _ _ _ Co))|].
  rewrite E. cbn [obind].
  assert (M : mid orig visit visit t) by (eapply mid_flushed; eauto).
  unfold sparse_sweep_garbage_clauses. destruct (sweep_all_spec orig visit (is_reason t) visit t) as (t1 & E1 & M1); auto.
  { intros r _. reflexivity. }
  rewrite E1. cbn [obind]. set (t2 := set_last_learned [] t1).
  assert (M2 : mid orig moved [] t2).
  { apply mid_perm with visit; auto. destruct M1 as [V F C L Se1 Pr1 Cl1 Wl Wc Wy Wi Re Pb Pl Op Sw Fr UP]. constructor; auto.
    - destruct V. constructor; auto.
    - destruct F. constructor; auto.
    - destruct L. constructor; auto.
    - intros l I. destruct (Re l I) as [H|[H1 H2]]; [left; exact H|right]. split; auto.
      apply (rs_reason t1 t2); auto. constructor; reflexivity. }
  destruct (rewatch_all_spec orig moved t2 M2 Nm) as (t3 & E3 & M3 & L3). rewrite E3. cbn [wp]. apply mid_done; auto.
Qed.
