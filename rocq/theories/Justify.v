(** Propagation only assigns literals which are forced by a clause, and keeps all clauses. *)
From Coq Require Import ZArith List Bool Lia Arith Permutation.
From Verif Require Import Base Hoare SpecSat SpecSearch Lit Sem Solver Inv DbFacts AssignFacts AssignSpec BacktrackFacts PropFacts PropLoop.
Import ListNotations.
Open Scope nat_scope.

(** The clauses with at least two literals which the solver holds: binary clauses in the watch lists, and the clauses in
    the arena which are not garbage. *)
Definition present (s : solver) (c : list lit) : Prop :=
  (exists a b, c = [a; b] /\ In (WBinary b) (watches s a)) \/
  (exists r d, arena s r = Some d /\ c_garbage d = false /\ c = c_lits d).

Definition neg_ok (s : solver) : Prop := forall l, values s (neg l) = option_map negb (values s l).

Record evolves (s s' : solver) : Prop := {
  ev_neg : neg_ok s -> neg_ok s';
  ev_values : forall l b, values s l = Some b -> values s' l = Some b;
  ev_binary : forall a b, In (WBinary b) (watches s' a) <-> In (WBinary b) (watches s a);
  ev_large : forall r, clause_sim (arena s r) (arena s' r);
  ev_new : neg_ok s -> forall l, values s l = None -> values s' l = Some true -> exists c, present s' c /\ forces (values s') c l }.

Lemma clause_sim_sym : forall a b, clause_sim a b -> clause_sim b a.
Proof. intros [a|] [b|]; cbn; auto. intros (A & B & C). splits; auto. now symmetry. Qed.

Lemma present_sim : forall s s' c, (forall a b, In (WBinary b) (watches s a) -> In (WBinary b) (watches s' a)) ->
  (forall r, clause_sim (arena s r) (arena s' r)) -> present s c -> exists d, present s' d /\ Permutation c d.
Proof.
  intros s s' c B L [(a & b & -> & I)|(r & d & A & G & ->)].
  - exists [a; b]. split; [|reflexivity]. left. eauto.
  - specialize (L r). rewrite A in L. destruct (arena s' r) as [e|] eqn:E; [|easy]. destruct L as (G' & _ & P). exists (c_lits e). split; auto.
    right. exists r, e. splits; auto. congruence.
Qed.
Lemma ev_present : forall s s' c, evolves s s' -> present s c -> exists d, present s' d /\ Permutation c d.
Proof. intros s s' c [A B C D E]. apply present_sim; auto. intros a b. now rewrite C. Qed.
Lemma ev_present_back : forall s s' c, evolves s s' -> present s' c -> exists d, present s d /\ Permutation c d.
Proof. intros s s' c [A B C D E]. apply present_sim; [intros a b; now rewrite C|intros r; apply clause_sim_sym, D]. Qed.
Lemma forces_perm : forall v v' c d l, Permutation c d -> (forall k, v k = Some false -> v' k = Some false) -> forces v c l -> forces v' d l.
Proof.
  intros v v' c d l P H [I F]. split; [eapply Permutation_in; eauto|]. intros k Ik N. apply H, F; auto. eapply Permutation_in; [symmetry|]; eauto.
Qed.

Lemma evolves_refl : forall s, evolves s s.
Proof. intros s. constructor; auto; try tauto; try congruence. intros r. apply clause_sim_refl. Qed.
Lemma evolves_trans : forall a b c, evolves a b -> evolves b c -> evolves a c.
Proof.
  intros a b c X Y. pose proof X as [A1 A2 A3 A4 A5]. pose proof Y as [B1 B2 B3 B4 B5]. constructor; auto.
  - intros x y. now rewrite B3.
  - intros r. eapply clause_sim_trans; eauto.
  - intros N l Nl Tl. destruct (values b l) as [[]|] eqn:E.
    + destruct (A5 N l Nl E) as (d & P & F). destruct (ev_present _ _ _ Y P) as (e & P' & Pm). exists e. split; auto.
      apply (forces_perm (values b) (values c) d e l Pm); auto.
    + rewrite (B2 l false E) in Tl. discriminate.
    + apply B5; auto.
Qed.
(** States which agree in what matters here. *)
Lemma evolves_same : forall s s', values s' = values s -> arena s' = arena s ->
  (forall a b, In (WBinary b) (watches s' a) <-> In (WBinary b) (watches s a)) -> evolves s s'.
Proof.
  intros s s' V A W. constructor; auto; unfold neg_ok; rewrite ?V, ?A; auto; try congruence. intros r. apply clause_sim_refl.
Qed.

Lemma assign_evolves : forall lvl r l s s', assign lvl r l s = Ret s' -> (exists c, present s c /\ forces (values s) c l) -> evolves s s' /\ watches s' = watches s.
Proof.
  intros lvl r l s s' E (c & P & F). unfold assign in E. destruct (is_unassigned s l && is_unassigned s (neg l)) eqn:U; [|discriminate].
  destruct (0 <? unassigned s); [|discriminate]. cbn [oassert obind] in E. apply andb_true_iff in U as [U1 U2].
  apply is_unassigned_spec in U1. apply is_unassigned_spec in U2.
  assert (V : values s' = upd (upd (values s) l (Some true)) (neg l) (Some false)) by (inversion E; destruct (lvl =? 0), (is_unit_reason r); reflexivity).
  assert (A : arena s' = arena s) by (inversion E; destruct (lvl =? 0), (is_unit_reason r); reflexivity).
  assert (W : watches s' = watches s) by (inversion E; destruct (lvl =? 0), (is_unit_reason r); reflexivity). clear E. split; auto.
  assert (K : forall k b, values s k = Some b -> values s' k = Some b).
  { intros k b H. rewrite V. unfold upd. destruct (Nat.eqb_spec k (neg l)) as [->|]; [congruence|]. destruct (Nat.eqb_spec k l) as [->|]; [congruence|auto]. }
  constructor; auto.
  - intros N k. rewrite V. unfold upd. destruct (Nat.eqb_spec k l) as [->|D1].
    + rewrite Nat.eqb_refl. assert (X : l <> neg l) by (intros H; pose proof (neg_neq l); congruence). destruct (Nat.eqb_spec l (neg l)); [contradiction|reflexivity].
    + destruct (Nat.eqb_spec (neg k) (neg l)) as [H|D2]; [exfalso; apply D1; now apply (f_equal neg) in H; rewrite !neg_neg in H|].
      destruct (Nat.eqb_spec (neg k) l) as [H|D3]; destruct (Nat.eqb_spec k (neg l)) as [H'|D4]; auto.
      * exfalso. apply D4. now rewrite <- H, neg_neg.
      * exfalso. apply D3. now rewrite H', neg_neg.
  - intros a b. now rewrite W.
  - intros q. rewrite A. apply clause_sim_refl.
  - intros N k Nk Tk. rewrite V in Tk. unfold upd in Tk. destruct (k =? neg l); [discriminate|]. destruct (Nat.eqb_spec k l) as [->|]; [|congruence].
    exists c. split; [unfold present; now rewrite W, A|]. apply (forces_perm (values s) (values s') c c l); auto.
Qed.

Lemma propagate_watches_evolves : forall o nl lvl ws kept delayed s s' k d c,
  propagate_watches o nl lvl ws kept delayed s = Ret (s', k, d, c) ->
  values s nl = Some false -> (forall w, In w ws -> In w (watches s nl)) -> (forall e, In e delayed -> is_bin (snd e) = false) ->
  evolves s s' /\ watches s' = watches s /\ (forall e, In e d -> is_bin (snd e) = false) /\
  (forall b, In (WBinary b) k <-> In (WBinary b) (rev kept ++ ws)).
Proof.
  intros o nl lvl. induction ws as [|w ws IH]; intros kept delayed s s' k d c; cbn [propagate_watches].
  { intros H. inversion H; subst. intros _ _ D. splits; auto; [apply evolves_refl|]. intros b. now rewrite app_nil_r. }
  intros E N S D.
  assert (Bk : forall kept' b, (forall b, In (WBinary b) kept' <-> In (WBinary b) (w :: kept)) -> In (WBinary b) (rev kept' ++ ws) <-> In (WBinary b) (rev kept ++ w :: ws)).
  { intros kept' b H. rewrite !in_app_iff, <- !in_rev, H. cbn. tauto. }
  destruct (is_true s (watch_head w)).
  { apply IH in E as (A1 & A2 & A3 & A4); auto; [|intros x I; apply S; now right]. splits; auto. intros b. rewrite A4. now apply Bk. }
  destruct w as [other|b ref].
  - destruct (is_false s other); [inversion E; subst; splits; auto; [apply evolves_refl|reflexivity]|].
    destruct (fast_binary_assign o lvl other nl s) as [s1| | |] eqn:As; try discriminate. cbn [obind] in E. unfold fast_binary_assign in As.
    apply assign_evolves in As as [Ev W].
    2:{ exists [nl; other]. split; [left; exists nl, other; split; auto; apply S; now left|]. split; [right; now left|]. intros x [<-|[<-|[]]] X; congruence. }
    apply IH in E as (A1 & A2 & A3 & A4); auto; [|now apply (ev_values _ _ Ev)|intros x I; rewrite W; apply S; now right].
    splits; auto; [eapply evolves_trans; eauto|congruence|]. intros x. rewrite A4. now apply Bk.
  - assert (Bd : forall x, In (WBinary x) (rev kept ++ ws) <-> In (WBinary x) (rev kept ++ WLarge b ref :: ws)).
    { intros x. rewrite !in_app_iff. cbn. intuition discriminate. }
    destruct (arena s ref) as [cl|] eqn:Ar; [|discriminate]. destruct (c_garbage cl) eqn:G.
    { apply IH in E as (A1 & A2 & A3 & A4); auto; [|intros x I; apply S; now right]. splits; auto. intros x. now rewrite A4. }
    destruct (c_lits cl) as [|l0 [|l1 rest]] eqn:Ec; try discriminate.
    destruct (other_watch l0 l1 nl) as [other|] eqn:Ow; [|discriminate].
    assert (Pm : Permutation (l0 :: l1 :: rest) (other :: nl :: rest)).
    { destruct (PropLoop.other_watch_some _ _ _ _ Ow) as [[-> ->]|[-> ->]]; [apply perm_swap|reflexivity]. }
    destruct (is_true s other).
    { apply IH in E as (A1 & A2 & A3 & A4); auto; [|intros x I; apply S; now right]. splits; auto. intros x. rewrite A4. apply Bk.
      intros y. cbn. intuition discriminate. }
    destruct (search_replacement s rest (c_searched cl)) as [r|] eqn:Sr.
    + apply search_replacement_some in Sr as [Hi _].
      match type of E with propagate_watches _ _ _ _ _ _ (set_clause _ (Some ?c') _) = _ => set (c2 := c') in * end.
      assert (Ev : evolves s (set_clause ref (Some c2) s)).
      { constructor; auto; cbn; try tauto; try congruence. intros q. unfold upd. destruct (Nat.eqb_spec q ref) as [->|]; [|apply clause_sim_refl].
        rewrite Ar. cbn. splits; auto. rewrite Ec. eapply perm_trans; [exact Pm|]. apply perm_skip, lset_perm; auto. now apply nth_indep. }
      apply IH in E as (A1 & A2 & A3 & A4); auto.
      * splits; auto; [eapply evolves_trans; eauto|]. intros x. now rewrite A4.
      * intros x I. apply S. now right.
      * intros e I. apply in_app_iff in I as [I|[<-|[]]]; auto.
    + destruct (is_false s other); [inversion E; subst; splits; auto; [apply evolves_refl|reflexivity]|].
      destruct (assign_reference other ref s) as [s1| | |] eqn:As; try discriminate. cbn [obind] in E. unfold assign_reference in As. rewrite Ar in As.
      apply assign_evolves in As as [Ev W].
      2:{ exists (l0 :: l1 :: rest). split; [right; exists ref, cl; auto|]. apply (forces_perm (values s) (values s) (other :: nl :: rest)); auto; [now symmetry|].
          split; [now left|]. intros x [<-|[<-|I]] X; auto; [congruence|]. eapply search_replacement_none; eauto. }
      apply IH in E as (A1 & A2 & A3 & A4); auto; [|now apply (ev_values _ _ Ev)|intros x I; rewrite W; apply S; now right].
      splits; auto; [eapply evolves_trans; eauto|congruence|]. intros x. rewrite A4. now apply Bk.
Qed.

Lemma pd_bins : forall d W a b, (forall e, In e d -> is_bin (snd e) = false) -> In (WBinary b) (pd d W a) <-> In (WBinary b) (W a).
Proof.
  induction d as [|e d IH]; intros W a b H; [reflexivity|]. cbn [pd fold_left]. fold (pd d (upd W (fst e) (W (fst e) ++ [snd e]))).
  rewrite IH by (intros x X; apply H; now right). unfold upd. destruct (Nat.eqb_spec a (fst e)) as [->|]; [|reflexivity].
  rewrite in_app_iff. specialize (H e (or_introl eq_refl)). destruct (snd e); [discriminate|]. cbn. intuition discriminate.
Qed.

Lemma propagate_literal_evolves : forall o l s s' c, neg_ok s -> propagate_literal o l s = Ret (s', c) -> evolves s s'.
Proof.
  intros o l s s' c N E. unfold propagate_literal in E. destruct (is_true s l) eqn:Tl; [|discriminate]. cbn [oassert obind] in E. apply is_true_spec in Tl.
  destruct (propagate_watches o (neg l) (lev s l) (watches s (neg l)) [] [] s) as [[[[s1 ws] d] c1]| | |] eqn:P; try discriminate. cbn [obind] in E.
  inversion E; subst. clear E. apply propagate_watches_evolves in P as (A1 & A2 & A3 & A4); auto.
  - eapply evolves_trans; [exact A1|]. rewrite push_delayed_eq. apply evolves_same; try reflexivity. intros x y. cbn. rewrite pd_bins by auto.
    unfold upd. destruct (Nat.eqb_spec x (neg l)) as [->|]; [|reflexivity]. rewrite A4, A2. reflexivity.
  - rewrite N, Tl. reflexivity.
  - intros e [].
Qed.
Lemma propagate_loop_evolves : forall fuel o s s' c, neg_ok s -> propagate_loop fuel o s = Ret (s', c) -> evolves s s'.
Proof.
  induction fuel as [|fuel IH]; intros o s s' c N; cbn [propagate_loop]; destruct (nth_error (trail s) (propagate s)) as [l|]; try discriminate;
    try (intros H; inversion H; apply evolves_refl).
  destruct (propagate_literal o l (set_propagate (S (propagate s)) s)) as [[s1 cf]| | |] eqn:E; try discriminate. cbn [obind].
  apply propagate_literal_evolves in E; [|exact N].
  assert (Ev : evolves s s1) by (eapply evolves_trans; [|exact E]; apply evolves_same; reflexivity).
  destruct cf as [cf|]; intros H; [inversion H; subst; auto|]. apply IH in H; [eapply evolves_trans; eauto|]. now apply (ev_neg _ _ Ev).
Qed.
Lemma search_propagate_evolves : forall o s s' c, neg_ok s -> search_propagate o s = Ret (s', c) -> evolves s s'.
Proof.
  intros o s s' c N. unfold search_propagate. destruct (propagate_loop (S (vars s)) o s) as [[s1 cf]| | |] eqn:E; try discriminate.
  cbn [obind]. intros H. apply propagate_loop_evolves in E; auto. inversion H; subst. eapply evolves_trans; [exact E|].
  unfold update_conflicts_and_trail. destruct c.
  - destruct (level s1 =? 0); apply evolves_same; reflexivity.
  - destruct ((level s1 =? 0) && (0 <? unflushed s1)); apply evolves_same; reflexivity.
Qed.
