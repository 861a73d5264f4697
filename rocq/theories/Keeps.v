(** Garbage collection only removes root-satisfied clauses and root-falsified literals. *)
From Coq Require Import ZArith List Bool Lia Arith Permutation.
From Verif Require Import Base Hoare SpecSat SpecSearch Lit Sem Solver Analyze Search Inv DbFacts AssignFacts AssignSpec BacktrackFacts PropFacts PropLoop Justify OneLit ClauseFacts CollectFacts SearchFacts.
Import ListNotations.
Open Scope nat_scope.
Open Scope outcome_scope.

(** The solver holds the clause [c], which is redundant or not. *)
Definition entry (s : solver) (c : list lit) (red : bool) : Prop :=
  (exists a b, c = [a; b] /\ red = false /\ In (WBinary b) (watches s a)) \/
  (exists r d, arena s r = Some d /\ c_garbage d = false /\ c_redundant d = red /\ c = c_lits d).

Definition shortened (s : solver) : list lit -> list lit -> Prop := shortened_at (values s) (lev s).

Record keeps (s s' : solver) : Prop := {
  kp_root : forall l b, values s l = Some b -> lev s l = 0 -> values s' l = Some b /\ lev s' l = 0;
  kp_old : forall c red, entry s c red -> (exists t, In t c /\ rooted s' t) \/
    exists d red', entry s' d red' /\ shortened s' c d /\ (red = false -> red' = false);
  kp_new : forall d red', entry s' d red' -> exists c red, entry s c red /\ shortened s' c d }.

Lemma shortened_refl : forall s c, shortened s c c.
Proof. intros s c. split; [apply incl_refl|auto]. Qed.
Lemma shortened_perm : forall s c d, Permutation c d -> shortened s c d.
Proof. intros s c d P. split; [intros l I; eapply Permutation_in; [symmetry|]; eauto|intros l I; left; eapply Permutation_in; eauto]. Qed.
Lemma shortened_trans : forall s s' c d e, (forall l b, values s l = Some b -> lev s l = 0 -> values s' l = Some b /\ lev s' l = 0) ->
  shortened s c d -> shortened s' d e -> shortened s' c e.
Proof.
  intros s s' c d e R [A B] [C D]. split; [eapply incl_tran; eauto|]. intros l I. destruct (B l I) as [J|[J K]]; auto.
Qed.
Lemma keeps_refl : forall s, keeps s s.
Proof.
  intros s. constructor; auto.
  - intros c red E. right. exists c, red. splits; auto using shortened_refl.
  - intros c red E. exists c, red. splits; auto using shortened_refl.
Qed.
Lemma keeps_trans : forall a b c, keeps a b -> keeps b c -> keeps a c.
Proof.
  intros a b c [A1 A2 A3] [B1 B2 B3]. constructor.
  - intros l v H L. destruct (A1 l v H L). auto.
  - intros k red E. destruct (A2 k red E) as [(t & I & T1 & T2)|(d & red1 & E1 & Sh & Ir)].
    + left. exists t. split; auto. apply (B1 t true); auto.
    + destruct (B2 d red1 E1) as [(t & I & T1)|(e & red2 & E2 & Sh2 & Ir2)].
      * left. exists t. split; auto. now apply Sh.
      * right. exists e, red2. splits; auto. eapply shortened_trans; eauto.
  - intros e red2 E2. destruct (B3 e red2 E2) as (d & red1 & E1 & S1). destruct (A3 d red1 E1) as (k & red & E & Sh). exists k, red. split; auto.
    eapply shortened_trans; eauto.
Qed.

Lemma ofold_keeps : forall A (f : A -> solver -> outcome solver), (forall a s s', f a s = Ret s' -> keeps s s') ->
  forall l s s', ofold f l s = Ret s' -> keeps s s'.
Proof.
  intros A f H. induction l as [|a l IH]; intros s s' E; cbn [ofold] in E; [inversion E; apply keeps_refl|].
  destruct (f a s) as [s1| | |] eqn:E1; try discriminate. cbn [obind] in E. eapply keeps_trans; eauto.
Qed.

(** States which differ in other fields only. *)
Lemma keeps_same : forall s s', values s' = values s -> (forall l, lev s' l = lev s l) -> arena s' = arena s ->
  (forall a b, In (WBinary b) (watches s' a) <-> In (WBinary b) (watches s a)) -> keeps s s'.
Proof.
  intros s s' V L A W. assert (E : forall c red, entry s' c red <-> entry s c red).
  { intros c red. unfold entry. rewrite A. split; (intros [(a & b & X & Y & Z)|H]; [left; exists a, b; splits; auto; now apply W|auto]). }
  constructor; rewrite ?V; auto.
  - intros l b H. rewrite L. auto.
  - intros c red H. right. exists c, red. rewrite E. splits; auto using shortened_refl.
  - intros c red H. exists c, red. rewrite <- E. splits; auto using shortened_refl.
Qed.

(** One clause is replaced, and possibly a binary clause is added. *)
Lemma keeps_one : forall s s' ref c o, arena s ref = Some c -> values s' = values s -> (forall l, lev s' l = lev s l) ->
  (forall r, arena s' r = if r =? ref then o else arena s r) ->
  (forall a b, In (WBinary b) (watches s a) -> In (WBinary b) (watches s' a)) ->
  (c_garbage c = false -> (exists t, In t (c_lits c) /\ rooted s t) \/ exists d red, entry s' d red /\ shortened s (c_lits c) d /\ (c_redundant c = false -> red = false)) ->
  (forall d, o = Some d -> c_garbage d = false -> c_garbage c = false /\ shortened s (c_lits c) (c_lits d)) ->
  (forall a b, In (WBinary b) (watches s' a) -> In (WBinary b) (watches s a) \/ c_garbage c = false /\ shortened s (c_lits c) [a; b]) ->
  keeps s s'.
Proof.
  intros s s' ref c o Ac V L A W1 Old New W2.
  assert (Sh : forall x y, shortened s x y -> shortened s' x y) by (intros x y [H1 H2]; split; auto; intros l I; rewrite V, L; auto).
  constructor.
  - intros l b. rewrite V, L. auto.
  - intros k red [(a & b & -> & -> & I)|(r & d & Ar & G & <- & ->)].
    + right. exists [a; b], false. splits; auto using shortened_refl. left. exists a, b. auto.
    + destruct (Nat.eq_dec r ref) as [->|N].
      * replace d with c in * by congruence. destruct (Old G) as [(t & It & T1 & T2)|(e & red & E & S1 & S2)].
        -- left. exists t. split; auto. split; [now rewrite V|now rewrite L].
        -- right. exists e, red. auto.
      * right. exists (c_lits d), (c_redundant d). splits; auto using shortened_refl. right. exists r, d. splits; auto.
        rewrite A. destruct (Nat.eqb_spec r ref); [contradiction|auto].
  - intros k red [(a & b & -> & -> & I)|(r & d & Ar & G & <- & ->)].
    + destruct (W2 a b I) as [J|[G S1]].
      * exists [a; b], false. split; [left; exists a, b; auto|apply shortened_refl].
      * exists (c_lits c), (c_redundant c). split; auto. right. exists ref, c. auto.
    + rewrite A in Ar. destruct (Nat.eqb_spec r ref) as [->|N].
      * destruct (New d Ar G) as [G' S1]. exists (c_lits c), (c_redundant c). split; auto. right. exists ref, c. auto.
      * exists (c_lits d), (c_redundant d). split; [|apply shortened_refl]. right. exists r, d. auto.
Qed.

Lemma filter_shortened : forall s c, shortened s c (filter (fun l => negb (root_false s l)) c).
Proof.
  intros s c. split.
  - intros l I. apply filter_In in I. tauto.
  - intros l I. destruct (root_false s l) eqn:E; [right; now apply root_false_spec|left; apply filter_In; rewrite E; auto].
Qed.

Lemma sweep_keeps : forall marked ref s s', sweep_clause marked ref s = Ret s' -> keeps s s'.
Proof.
  intros marked ref s s' E. unfold sweep_clause in E. destruct (arena s ref) as [c|] eqn:Ar; [|inversion E; apply keeps_refl].
  destruct (c_garbage c) eqn:G.
  { inversion E; subst. apply (keeps_one s _ ref c None Ar); auto; try congruence. }
  destruct (existsb (root_true s) (c_lits c)) eqn:Rt.
  { destruct (marked ref); cbn [negb oassert obind] in E; [discriminate|]. inversion E; subst.
    apply (keeps_one s _ ref c None Ar); auto; try congruence.
    intros _. left. apply existsb_exists in Rt as (t & It & Ht). exists t. split; auto. now apply root_true_spec. }
  pose proof (filter_shortened s (c_lits c)) as Sh. set (kept := filter _ _) in *.
  match type of E with obind ?m _ = _ => destruct m as [s1| | |] eqn:E1; try discriminate end. cbn [obind] in E.
  assert (K : keeps s s1).
  { destruct kept as [|a [|b [|d rest]]]; try discriminate.
    - assert (K : forall s2, arena s2 = upd (arena s) ref None -> watches s2 = watches (watch_binary a b s) -> values s2 = values s -> (forall l, lev s2 l = lev s l) -> keeps s s2).
      { intros s2 Ea Ew Ev El.
        assert (Wb : forall x y, In (WBinary y) (watches s2 x) <-> In (WBinary y) (watches s x) \/ (x = a /\ y = b) \/ (x = b /\ y = a)).
        { intros x y. rewrite Ew. unfold watch_binary, push_watch. cbn. unfold upd.
          destruct (Nat.eqb_spec x b) as [->|Nb]; destruct (Nat.eqb_spec b a) as [Ea2|Na]; subst;
            repeat (rewrite ?Nat.eqb_refl; try match goal with |- context [?x =? ?y] => destruct (Nat.eqb_spec x y); subst end);
            rewrite ?in_app_iff; cbn [In]; split; intros H; repeat match goal with H : _ \/ _ |- _ => destruct H end;
            repeat match goal with H : WBinary _ = WBinary _ |- _ => injection H as H end; subst; try tauto; try (intuition congruence); auto. }
        apply (keeps_one s s2 ref c None Ar); auto.
        - intros r. rewrite Ea. unfold upd. auto.
        - intros x y I. apply Wb. auto.
        - intros _. right. exists [a; b], false. splits; auto. left. exists a, b. splits; auto. apply Wb. auto.
        - discriminate.
        - intros x y I. apply Wb in I as [I|[[-> ->]|[-> ->]]]; auto. right. split; auto. destruct Sh as [S1 S2]. split.
          + intros l [<-|[<-|[]]]; apply S1; cbn; auto.
          + intros l I. destruct (S2 l I) as [[<-|[<-|[]]]|H]; cbn; auto. }
      destruct (marked ref).
      + destruct (values s a) as [[]|]; try discriminate; destruct (values s b) as [[]|]; try discriminate; injection E1 as <-;
          (apply K; auto; intros l; now rewrite set_reason_lev).
      + injection E1 as <-. apply K; auto.
    - match type of E1 with obind ?m _ = _ => destruct m as [[]| | |]; try discriminate end. injection E1 as <-.
      apply (keeps_one s _ ref c (Some (mk_clause (a :: b :: d :: rest) (c_redundant c) false 2)) Ar); auto.
      + intros _. right. exists (a :: b :: d :: rest), (c_redundant c). splits; auto. right. eexists ref, _. cbn. rewrite upd_same. splits; try reflexivity. 
      + intros e H _. inversion H; subst. cbn. auto. }
  destruct (length kept =? length (c_lits c)); injection E as <-; auto.
  eapply keeps_trans; [exact K|]. apply keeps_same; auto; reflexivity.
Qed.

Lemma smallest_range : forall s enough rest j pos u k, pos < j -> let p := fst (smallest s enough j rest pos u k) in p = pos \/ j <= p < j + length rest.
Proof.
  intros s enough rest j pos u k L. destruct (smallest s enough j rest pos u k) as [p v] eqn:E. apply smallest_spec in E as ([[-> _]|[H _]] & _); auto.
Qed.
Lemma move_perm : forall s enough start lits, start < length lits -> Permutation lits (fst (move_smallest_literal_to_front s enough start lits)).
Proof.
  intros s enough start lits L. unfold move_smallest_literal_to_front. destruct (values s (nth start lits 0)) as [u|]; [|reflexivity].
  destruct (u && enough); [reflexivity|]. pose proof (smallest_range s enough (skipn (S start) lits) (S start) start u (lev s (nth start lits 0))) as R.
  destruct (smallest _ _ _ _ _ _ _) as [p v]. cbn [fst] in *. destruct (Nat.eqb_spec p start); [reflexivity|].
  rewrite skipn_length in R. apply lswap_perm; lia.
Qed.
Lemma sort_literals_perm : forall s lits, 0 < length lits -> Permutation lits (sort_literals s lits).
Proof.
  intros s lits L. unfold sort_literals. pose proof (move_perm s false 0 lits L) as P.
  destruct (move_smallest_literal_to_front s false 0 lits) as [l1 u]. cbn [fst] in P.
  destruct (Nat.ltb_spec 2 (length l1)); auto. eapply perm_trans; [exact P|]. apply move_perm. lia.
Qed.

Lemma rewatch_keeps : forall ref s s', rewatch_clause ref s = Ret s' -> keeps s s'.
Proof.
  intros ref s s' E. unfold rewatch_clause in E. destruct (arena s ref) as [c|] eqn:Ar; [|inversion E; apply keeps_refl].
  assert (P : Permutation (c_lits c) (sort_literals s (c_lits c))).
  { destruct (c_lits c) as [|x l] eqn:Ec; [|apply sort_literals_perm; cbn; lia]. exfalso. revert E. unfold sort_literals. 
    destruct (move_smallest_literal_to_front s false 0 []) as [l1 u] eqn:Em. unfold move_smallest_literal_to_front in Em. cbn in Em.
    destruct (values s 0) as [b|]; [|inversion Em; subst; discriminate]. destruct (b && false); [inversion Em; subst; discriminate|].
    cbn in Em. inversion Em; subst. cbn. discriminate. }
  destruct (sort_literals s (c_lits c)) as [|l0 [|l1 rest]]; try discriminate. injection E as <-.
  assert (Wb : forall x y, In (WBinary y) (watches (watch_blocking l1 l0 ref (watch_blocking l0 l1 ref (set_clause ref (Some (mk_clause (l0 :: l1 :: rest) (c_redundant c) (c_garbage c) 2)) s))) x) <-> In (WBinary y) (watches s x)).
  { intros x y. unfold watch_blocking, push_watch. cbn. unfold upd.
    repeat match goal with |- context [?x =? ?y] => destruct (Nat.eqb_spec x y); subst end; rewrite ?in_app_iff; cbn [In]; intuition congruence. }
  apply (keeps_one s _ ref c (Some (mk_clause (l0 :: l1 :: rest) (c_redundant c) (c_garbage c) 2)) Ar); auto.
  - intros a b I. now apply Wb.
  - intros G. right. exists (l0 :: l1 :: rest), (c_redundant c). splits; auto using shortened_perm. right. eexists ref, _. cbn. rewrite upd_same. splits; try reflexivity. exact G.
  - intros d H G. inversion H; subst. cbn in *. split; auto using shortened_perm.
  - intros a b I. left. now apply Wb.
Qed.

Lemma flush_keeps : forall visit l s s', flush_watched_clauses_by_literal visit l s = Ret s' -> keeps s s'.
Proof.
  intros visit l s s' E. unfold flush_watched_clauses_by_literal in E.
  destruct (forallb _ _); cbn [oassert obind] in E; [|discriminate]. injection E as <-. constructor; auto.
  - intros c red [(a & b & -> & -> & I)|H].
    + destruct (keep_watch s visit l (WBinary b)) eqn:K.
      * right. exists [a; b], false. splits; auto using shortened_refl. left. exists a, b. splits; auto. cbn.
        unfold upd. destruct (Nat.eqb_spec a l) as [->|]; auto. apply filter_In. auto.
      * destruct (Nat.eq_dec a l) as [->|N].
        -- left. cbn in K. apply negb_false_iff, orb_true_iff in K as [K|K]; apply root_true_spec in K; [exists l|exists b]; cbn; auto.
        -- right. exists [a; b], false. splits; auto using shortened_refl. left. exists a, b. splits; auto. cbn. now rewrite upd_other.
    + right. exists c, red. splits; auto using shortened_refl. right. exact H.
  - intros d red [(a & b & -> & -> & I)|H].
    + exists [a; b], false. split; [|apply shortened_refl]. left. exists a, b. splits; auto. cbn in I. revert I. unfold upd.
      destruct (Nat.eqb_spec a l) as [->|]; auto. intros I. apply filter_In in I. tauto.
    + exists d, red. split; [right; exact H|apply shortened_refl].
Qed.

Lemma sparse_collect_keeps : forall visit moved s s', sparse_collect visit moved s = Ret s' -> keeps s s'.
Proof.
  intros visit moved s s' E. unfold sparse_collect in E.
  destruct (flush_all_watched_clauses visit s) as [s1| | |] eqn:E1; try discriminate. cbn [obind] in E.
  unfold sparse_sweep_garbage_clauses in E.
  destruct (ofold (sweep_clause (is_reason s1)) visit s1) as [s2| | |] eqn:E2; try discriminate. cbn [obind] in E.
  apply (ofold_keeps _ _ (flush_keeps visit)) in E1. apply (ofold_keeps _ _ (sweep_keeps (is_reason s1))) in E2.
  apply (ofold_keeps _ _ rewatch_keeps) in E. eapply keeps_trans; [exact E1|]. eapply keeps_trans; [exact E2|].
  eapply keeps_trans; [|exact E]. apply keeps_same; auto; reflexivity.
Qed.

(** Marking clauses as garbage. *)
Lemma mark_garbage_arena : forall vs s s', ofold mark_garbage vs s = Ret s' ->
  values s' = values s /\ assigned s' = assigned s /\ watches s' = watches s /\ trail s' = trail s /\ (forall r, ~ In r vs -> arena s' r = arena s r) /\
  (forall r d, arena s' r = Some d -> c_garbage d = false -> arena s r = Some d).
Proof.
  induction vs as [|v vs IH]; intros s s' E; cbn [ofold] in E; [inversion E; subst; splits; auto|].
  destruct (mark_garbage v s) as [s1| | |] eqn:E1; try discriminate. cbn [obind] in E. apply IH in E as (A & B & C & T & D & F).
  unfold mark_garbage in E1. destruct (arena s v) as [c|] eqn:Ar; [|discriminate]. destruct (c_garbage c) eqn:G; [discriminate|]. cbn [negb oassert obind] in E1.
  injection E1 as <-. splits; auto.
  - intros r N. rewrite D by (intros I; apply N; now right). cbn. rewrite upd_other; auto. intros ->. apply N. now left.
  - intros r d H Gd. apply F in H; auto. cbn in H. unfold upd in H. destruct (Nat.eqb_spec r v) as [->|]; auto. inversion H; subst. discriminate.
Qed.

Lemma evolves_keeps : forall s s', evolves s s' -> quiet s s' -> keeps s s'.
Proof.
  intros s s' Ev Qu.
  assert (Sim : forall r d, arena s r = Some d -> exists e, arena s' r = Some e /\ c_garbage d = c_garbage e /\ c_redundant d = c_redundant e /\ Permutation (c_lits d) (c_lits e)).
  { intros r d A. pose proof (ev_large _ _ Ev r) as H. rewrite A in H. destruct (arena s' r) as [e|]; [|easy]. exists e. auto. }
  assert (Sim' : forall r d, arena s' r = Some d -> exists e, arena s r = Some e /\ c_garbage d = c_garbage e /\ c_redundant d = c_redundant e /\ Permutation (c_lits e) (c_lits d)).
  { intros r d A. pose proof (ev_large _ _ Ev r) as H. rewrite A in H. destruct (arena s r) as [e|]; [|easy]. exists e. cbn in H. intuition. }
  constructor.
  - intros l b H L. destruct (qu_values _ _ Qu l b H). split; auto. congruence.
  - intros c red [(a & b & -> & -> & I)|(r & d & A & G & <- & ->)]; right.
    + exists [a; b], false. splits; auto using shortened_refl. left. exists a, b. splits; auto. now apply (ev_binary _ _ Ev).
    + destruct (Sim r d A) as (e & A' & G' & R' & P). exists (c_lits e), (c_redundant e). splits; auto using shortened_perm; [|congruence]. right. exists r, e. splits; auto. congruence.
  - intros c red [(a & b & -> & -> & I)|(r & d & A & G & <- & ->)].
    + exists [a; b], false. splits; auto using shortened_refl. left. exists a, b. splits; auto. now apply (ev_binary _ _ Ev).
    + destruct (Sim' r d A) as (e & A' & G' & R' & P). exists (c_lits e), (c_redundant e). splits; auto using shortened_perm. right. exists r, e. splits; auto. congruence.
Qed.

Lemma flush_to_root_keeps : forall orig o s s', propagated orig s -> clean (an s) -> inconsistent s = false -> flush_to_root o s = Ret (true, s') -> keeps s s'.
Proof.
  intros orig o s s' (Co & Pr & Pi) Cl Ic E. unfold flush_to_root in E. destruct (Nat.ltb_spec 0 (level s)) as [L|L]; [|inversion E; apply keeps_refl].
  unfold backtrack_in_consistent_state in E.
  destruct (backtrack_eq 0 s (co_v _ _ _ Co) (co_f _ _ _ Co) L) as (s1 & E1 & B). rewrite E1 in E. cbn [obind] in E.
  pose proof (restart_spec orig 0 s (conj Co (conj Pr Pi)) Cl ltac:(lia)) as R. unfold backtrack_in_consistent_state in R. rewrite E1 in R. cbn [wp] in R.
  destruct R as ((Co1 & Pi1 & Cl1) & _).
  destruct (search_propagate o s1) as [[s2 confl]| | |] eqn:E2; try discriminate. cbn [obind] in E. injection E as Ec <-.
  pose proof (search_propagate_spec orig o s1 Co1 Pi1) as Po. rewrite E2 in Po. cbn [wp] in Po. destruct Po as [Qu _].
  apply keeps_trans with s1.
  - assert (V : forall l b, values s l = Some b -> lev s l = 0 -> values s1 l = Some b /\ lev s1 l = 0).
    { intros l b H H0. rewrite (bt_values _ _ _ B), (bt_lev _ _ _ B), H0. cbn. auto. }
    assert (En : forall c red, entry s1 c red <-> entry s c red) by (intros c red; unfold entry; rewrite (bt_arena _ _ _ B), (bt_watches _ _ _ B); tauto).
    constructor; auto.
    + intros c red H. right. exists c, red. rewrite En. splits; auto using shortened_refl.
    + intros c red H. exists c, red. rewrite <- En. splits; auto using shortened_refl.
  - apply evolves_keeps; auto. apply (search_propagate_evolves o s1 s2 confl); auto. exact (ti_neg _ (co_v _ _ _ Co1)).
Qed.

(** Garbage collection keeps the levels. *)
Lemma ofold_lev : forall A (f : A -> solver -> outcome solver), (forall a s s', f a s = Ret s' -> forall l, lev s' l = lev s l) ->
  forall k s s', ofold f k s = Ret s' -> forall l, lev s' l = lev s l.
Proof.
  intros A f H. induction k as [|a k IH]; intros s s' E l; cbn [ofold] in E; [inversion E; auto|].
  destruct (f a s) as [s1| | |] eqn:E1; try discriminate. cbn [obind] in E. rewrite (IH _ _ E). eapply H; eauto.
Qed.
Lemma sweep_lev : forall marked r s s', sweep_clause marked r s = Ret s' -> forall l, lev s' l = lev s l.
Proof.
  intros marked r s s' E l. unfold sweep_clause in E. destruct (arena s r) as [c|]; [|inversion E; auto].
  destruct (c_garbage c); [inversion E; auto|].
  destruct (existsb (root_true s) (c_lits c)).
  { destruct (marked r); cbn in E; [discriminate|]. inversion E; auto. }
  set (kept := filter _ _) in E.
  match type of E with obind ?m _ = _ => destruct m as [s1| | |] eqn:E1; try discriminate end. cbn [obind] in E.
  assert (K : lev s1 l = lev s l).
  { destruct kept as [|a [|b [|d rest]]]; try discriminate.
    - destruct (marked r); [|inversion E1; auto].
      destruct (values s a) as [[]|]; try discriminate; destruct (values s b) as [[]|]; try discriminate;
        injection E1 as <-; now rewrite set_reason_lev.
    - match type of E1 with obind ?m _ = _ => destruct m as [[]| | |]; try discriminate end.
      injection E1 as <-. auto. }
  destruct (length kept =? length (c_lits c)); injection E as <-; auto.
Qed.
Lemma sparse_collect_lev : forall visit moved s s', sparse_collect visit moved s = Ret s' -> forall l, lev s' l = lev s l.
Proof.
  intros visit moved s s' E l. unfold sparse_collect in E.
  destruct (flush_all_watched_clauses visit s) as [s1| | |] eqn:E1; try discriminate. cbn [obind] in E.
  unfold sparse_sweep_garbage_clauses in E.
  destruct (ofold (sweep_clause (is_reason s1)) visit s1) as [s2| | |] eqn:E2; try discriminate. cbn [obind] in E.
  rewrite (ofold_lev _ rewatch_clause) with (2 := E).
  - change (lev (set_last_learned [] s2) l) with (lev s2 l). rewrite (ofold_lev _ _ (sweep_lev (is_reason s1)) _ _ _ E2).
    apply (ofold_lev _ (flush_watched_clauses_by_literal visit)) with (2 := E1). intros b t t' Et k. unfold flush_watched_clauses_by_literal in Et.
    destruct (forallb _ _); cbn [oassert obind] in Et; [|discriminate]. injection Et as <-. auto.
  - intros r t t' Et k. unfold rewatch_clause in Et. destruct (arena t r) as [c|]; [|inversion Et; auto].
    destruct (sort_literals t (c_lits c)) as [|l0 [|l1 rest]]; try discriminate. injection Et as <-. auto.
Qed.
