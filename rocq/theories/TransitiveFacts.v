(** Transitive reduction keeps the invariants. *)
From Coq Require Import ZArith List Bool Lia Arith Permutation.
From Coq Require Import ZifyBool ZifyNat.
From Verif Require Import Base Hoare SpecSat SpecGraph Lit Sem Solver Transitive Inv DbFacts AssignFacts AssignSpec BacktrackFacts PropFacts PropLoop Justify CutFacts OneLit MarkFacts ClauseFacts.
Import ListNotations.
Open Scope nat_scope.

(** ** Reachability *)
Definition free (n : nat) (vals : assignment_values) : nat :=
  length (filter (fun i => match vals (2 * i) with None => true | Some _ => false end) (seq 0 n)).
Definition symmetric (vals : assignment_values) : Prop := forall l, vals (neg l) = option_map negb (vals l).

Lemma vals_assigned : forall vals l k, upd (upd vals l (Some true)) (neg l) (Some false) k =
  if k =? neg l then Some false else if k =? l then Some true else vals k.
Proof. intros. unfold upd. reflexivity. Qed.
Lemma symmetric_assigned : forall vals l, symmetric vals -> symmetric (upd (upd vals l (Some true)) (neg l) (Some false)).
Proof.
  intros vals l Sy k. rewrite !vals_assigned.
  destruct (Nat.eqb_spec (neg k) (neg l)) as [E|E].
  - apply neg_inj in E as ->. rewrite Nat.eqb_refl. destruct (Nat.eqb_spec l (neg l)) as [X|X]; [symmetry in X; now apply neg_neq in X|reflexivity].
  - destruct (Nat.eqb_spec (neg k) l) as [E1|E1].
    + subst l. rewrite neg_neg, Nat.eqb_refl. reflexivity.
    + destruct (Nat.eqb_spec k (neg l)) as [->|]; [rewrite neg_neg in E1; congruence|].
      destruct (Nat.eqb_spec k l) as [->|]; [congruence|]. apply Sy.
Qed.
Lemma free_assigned : forall n vals l, symmetric vals -> vals l = None -> l < 2 * n ->
  S (free n (upd (upd vals l (Some true)) (neg l) (Some false))) = free n vals.
Proof.
  intros n vals l Sy Nl L. unfold free.
  assert (Ni : vals (2 * idx l) = None).
  { destruct (lit_cases l) as [[k ->]|[k ->]]; rewrite ?idx_even, ?idx_odd; auto. specialize (Sy (2 * k)). rewrite neg_even in Sy.
    replace (2 * k + 1) with (S (2 * k)) in * by lia. rewrite Nl in Sy. destruct (vals (2 * k)); auto. discriminate. }
  assert (Il : idx l < n) by (apply idx_lt; auto).
  set (f := fun i => match vals (2 * i) with None => true | Some _ => false end). set (g := fun i => match _ (2 * i) with None => true | Some _ => false end).
  assert (G : forall i, g i = f i && negb (i =? idx l)).
  { intros i. unfold g, f. rewrite vals_assigned.
    assert (D : (2 * i =? neg l) || (2 * i =? l) = (i =? idx l)).
    { destruct (Nat.eqb_spec i (idx l)) as [->|N].
      - destruct (lit_cases l) as [[k ->]|[k ->]]; rewrite ?idx_even, ?idx_odd, ?neg_even, ?neg_odd, ?Nat.eqb_refl, ?orb_true_r; auto.
      - apply orb_false_iff. split; apply Nat.eqb_neq; intros E; apply N; [rewrite <- (idx_neg l)|]; rewrite <- E; now rewrite idx_even. }
    destruct (2 * i =? neg l); [cbn [orb] in D; rewrite <- D; now rewrite andb_false_r|]. cbn [orb] in D. rewrite D.
    destruct (i =? idx l); cbn; [now rewrite andb_false_r|now rewrite andb_true_r]. }
  rewrite (filter_ext g (fun i => f i && negb (i =? idx l))) by exact G.
  assert (Fi : f (idx l) = true) by (unfold f; now rewrite Ni).
  clear -Fi Il. enough (H : forall m k, k <= idx l < k + m -> S (length (filter (fun i => f i && negb (i =? idx l)) (seq k m))) = length (filter f (seq k m))).
  { apply H. lia. }
  assert (O : forall m k, (idx l < k \/ k + m <= idx l) -> length (filter (fun i => f i && negb (i =? idx l)) (seq k m)) = length (filter f (seq k m))).
  { intros m k H. f_equal. apply filter_ext_in. intros i I. apply in_seq in I. destruct (Nat.eqb_spec i (idx l)); [lia|]. now rewrite andb_true_r. }
  induction m as [|m IH]; intros k H; [lia|]. cbn [seq filter]. destruct (Nat.eqb_spec k (idx l)) as [->|N].
  - rewrite Fi. cbn [andb negb length]. f_equal. rewrite O; auto.
  - rewrite andb_true_r. destruct (f k); cbn [length]; rewrite IH; auto; lia.
Qed.

Section Reach.
Variable n : nat.
Variable W : lit -> list watch.
Variable dst : lit.
Variable vals0 : assignment_values.
Variable P : lit -> Prop.
Hypothesis Wn : forall a b, In (WBinary b) (W a) -> b < 2 * n.
(** What follows from a literal which is unassigned at first, over the binary clauses. *)
Hypothesis Step : forall a b, In (WBinary b) (W a) -> vals0 b = None -> P (neg a) -> P b.

Definition rstate (vals : assignment_values) (queue : list lit) : Prop :=
  symmetric vals /\ (forall l, vals l = Some true -> P l) /\ (forall l, vals l = None -> vals0 l = None) /\
  (forall l, In l queue -> vals l = Some true).
Definition found (r : option reached) : Prop :=
  match r with
  | Some Destination => exists a, In (WBinary dst) (W a) /\ P (neg a)
  | Some Clash => exists a b, In (WBinary b) (W a) /\ P (neg a) /\ P (neg b)
  | None => True
  end.

Lemma scan_spec : forall a ws vals queue, incl ws (W a) -> P (neg a) -> rstate vals queue ->
  wp (scan_binaries dst ws vals queue) (fun '(r, vals', queue') => found r /\ rstate vals' queue' /\
    free n vals' + length queue' = free n vals + length queue).
Proof.
  intros a. induction ws as [|w ws IH]; intros vals queue I Pa R; cbn [scan_binaries]; [apply wp_ret; cbn; auto|].
  assert (Iw : In w (W a)) by (apply I; now left). assert (Is : incl ws (W a)) by (intros x X; apply I; now right).
  destruct w as [other|]; [|apply wp_ret; cbn; auto].
  destruct (Nat.eqb_spec other dst) as [->|N]; [apply wp_ret; cbn; splits; eauto|].
  destruct (vals other) as [[]|] eqn:E.
  - apply IH; auto.
  - apply wp_ret. cbn. splits; auto. exists a, other. splits; auto. apply R. destruct R as (Sy & _). rewrite Sy, E. reflexivity.
  - destruct R as (Sy & Rp & Ru & Rq). unfold transitive_assign. rewrite Sy, E. cbn [option_map oassert obind].
    eapply wp_mono; [apply IH; auto|].
    + unfold rstate. splits.
      * now apply symmetric_assigned.
      * intros l. rewrite vals_assigned. destruct (l =? neg other); [discriminate|]. destruct (Nat.eqb_spec l other) as [->|]; auto.
        intros _. eapply Step; eauto.
      * intros l. rewrite vals_assigned. destruct (l =? neg other); [discriminate|]. destruct (l =? other); [discriminate|]. auto.
      * intros l Il. rewrite vals_assigned. apply in_app_or in Il as [Il|[<-|[]]].
        -- apply Rq in Il. destruct (Nat.eqb_spec l (neg other)) as [->|]; [rewrite Sy, E in Il; discriminate|]. now destruct (l =? other).
        -- destruct (Nat.eqb_spec other (neg other)) as [X|X]; [symmetry in X; now apply neg_neq in X|]. now rewrite Nat.eqb_refl.
    + intros [[r v'] q'] (A & B & C). splits; auto. rewrite C, app_length. cbn [length]. rewrite <- (free_assigned n vals other); eauto. lia.
Qed.

Lemma reach_spec : forall fuel vals queue, rstate vals queue -> free n vals + length queue <= fuel ->
  wp (reach_loop fuel W dst vals queue) found.
Proof.
  induction fuel as [|fuel IH]; intros vals queue R F; (destruct queue as [|l rest]; [exact I|]); cbn [reach_loop]; [cbn in F; lia|].
  pose proof R as (Sy & Rp & Ru & Rq). assert (El : vals l = Some true) by (apply Rq; now left). rewrite El. cbn [oassert obind].
  apply wp_bind. eapply wp_mono; [apply (scan_spec (neg l))|].
  - apply incl_refl.
  - rewrite neg_neg. auto.
  - unfold rstate. splits; auto. intros k Ik. apply Rq. now right.
  - intros [[[x|] v'] q'] (A & B & C); [apply wp_ret; auto|]. apply IH; auto. cbn [length] in F. lia.
Qed.
End Reach.

(** ** Implications over binary clauses *)
Definition binary (s : solver) (a b : lit) : Prop := In (WBinary b) (watches s a).
Definition bchain (s : solver) : lit -> lit -> Prop := chain neg (binary s).

Lemma chain_trans : forall B x y z, chain neg B x y -> chain neg B y z -> chain neg B x z.
Proof. intros B x y z H G. induction H; auto. eapply chain_next; eauto. Qed.
Lemma chain_last : forall B x y z, chain neg B x y -> B (neg y) z -> chain neg B x z.
Proof. intros B x y z H G. eapply chain_trans; eauto. eapply chain_next; eauto. constructor. Qed.
Lemma chain_opposite : forall (B : lit -> lit -> Prop) x y, (forall a b, B a b -> B b a) -> chain neg B x y -> chain neg B (neg y) (neg x).
Proof. intros B x y Sy H. induction H; [constructor|]. eapply chain_last; eauto. rewrite neg_neg. auto. Qed.
Lemma chain_mono : forall (B C : lit -> lit -> Prop) x y, (forall a b, B a b -> chain neg C (neg a) b) -> chain neg B x y -> chain neg C x y.
Proof. intros B C x y I H. induction H; [constructor|]. eapply chain_trans; eauto. apply I in H. now rewrite neg_neg in H. Qed.

(** What probing does to the clauses: large clauses and values stay, binary clauses may go if they are chains. *)
Record thinned (s s' : solver) : Prop := {
  th_chain : forall x y, bchain s' x y <-> bchain s x y;
  th_sub : forall a b, binary s' a b -> binary s a b;
  th_arena : forall r, clause_sim (arena s r) (arena s' r);
  th_root : forall l b, values s l = Some b -> lev s l = 0 -> values s' l = Some b /\ lev s' l = 0 }.
Lemma thinned_refl : forall s, thinned s s.
Proof. intros s. constructor; auto; [tauto|]. intros r. apply clause_sim_refl. Qed.
Lemma thinned_trans : forall a b c, thinned a b -> thinned b c -> thinned a c.
Proof.
  intros a b c [A1 A2 A3 A4] [B1 B2 B3 B4]. constructor; auto.
  - intros x y. rewrite B1. apply A1.
  - intros r. eapply clause_sim_trans; eauto.
  - intros l v H L. destruct (A4 l v H L). auto.
Qed.
Lemma chain_same : forall s s', (forall a b, binary s' a b <-> binary s a b) -> forall x y, bchain s' x y <-> bchain s x y.
Proof.
  intros s s' E x y. split; apply chain_mono; intros a b I; apply E in I; (eapply chain_next; [|constructor]); rewrite neg_neg; exact I.
Qed.
Lemma thinned_same : forall s s', (forall a b, binary s' a b <-> binary s a b) -> (forall r, clause_sim (arena s r) (arena s' r)) ->
  (forall l b, values s l = Some b -> lev s l = 0 -> values s' l = Some b /\ lev s' l = 0) -> thinned s s'.
Proof. intros s s' B A R. constructor; auto; [now apply chain_same|]. intros a b. now apply B. Qed.
Lemma thinned_propagate : forall o s s' c, vinv s -> search_propagate o s = Ret (s', c) -> quiet s s' -> thinned s s'.
Proof.
  intros o s s' c V E Qu. pose proof (search_propagate_evolves o s s' c (ti_neg _ V) E) as Ev. apply thinned_same.
  - exact (ev_binary _ _ Ev).
  - exact (ev_large _ _ Ev).
  - intros l b H L. destruct (qu_values _ _ Qu l b H). split; congruence.
Qed.

(** ** Removing a binary clause *)
Lemma remove_spec : forall b ws, In (WBinary b) ws -> exists u w, ws = u ++ WBinary b :: w /\ remove_binary_watch b ws = Ret (u ++ w).
Proof.
  intros b. induction ws as [|x ws IH]; intros I; [destruct I|]. cbn [remove_binary_watch].
  assert (Z : In (WBinary b) ws -> exists u w, ws = u ++ WBinary b :: w /\ remove_binary_watch b ws = Ret (u ++ w)) by exact IH.
  destruct x as [o|o r].
  - destruct (Nat.eqb_spec b o) as [->|N]; [exists [], ws; auto|]. destruct I as [I|I]; [congruence|].
    destruct (Z I) as (u & w & E & R). rewrite R. exists (WBinary o :: u), w. cbn. now rewrite E.
  - destruct I as [I|I]; [discriminate|]. destruct (Z I) as (u & w & E & R). rewrite R. exists (WLarge o r :: u), w. cbn. now rewrite E.
Qed.

(** The state at the root level in which probing works. *)
Definition at_root (orig : list (list lit)) (s : solver) : Prop :=
  propagated orig s /\ clean (an s) /\ inconsistent s = false /\ trail s = [] /\ level s = 0.

Lemma flat_binary_drop : forall a u w x c, cnt c (flat_map (binary_of a) (u ++ x :: w)) = cnt c (binary_of a x) + cnt c (flat_map (binary_of a) (u ++ w)).
Proof. intros. rewrite !flat_map_app. cbn [flat_map]. rewrite !cnt_app. lia. Qed.

Section Delete.
Variable orig : list (list lit).
Variable s : solver.
Variables src dst : lit.
Variables kept rest u w : list watch.
Hypothesis Root : at_root orig s.
Hypothesis Es : watches s src = kept ++ WBinary dst :: rest.
Hypothesis Ed : watches s dst = u ++ WBinary src :: w.
Hypothesis Lt : src < dst.
Definition deleted : solver := del_step [src; dst] (set_watches (upd (upd (watches s) dst (u ++ w)) src (kept ++ rest)) s).

Lemma del_watches : forall a, watches deleted a = if a =? src then kept ++ rest else if a =? dst then u ++ w else watches s a.
Proof. intros a. unfold deleted. cbn. unfold upd. reflexivity. Qed.
Lemma del_sub : forall a x, In x (watches deleted a) -> In x (watches s a).
Proof.
  intros a x I. rewrite del_watches in I. destruct (Nat.eqb_spec a src) as [->|]; [rewrite Es; now apply in_drop|].
  destruct (Nat.eqb_spec a dst) as [->|]; [rewrite Ed; now apply in_drop|]. auto.
Qed.
Lemma del_keep : forall a b, In (WBinary b) (watches s a) -> In (WBinary b) (watches deleted a) \/ (a = src /\ b = dst) \/ (a = dst /\ b = src).
Proof.
  intros a b I. rewrite del_watches. destruct (Nat.eqb_spec a src) as [->|].
  - rewrite Es in I. apply in_keep in I as [I|I]; auto. inversion I; auto.
  - destruct (Nat.eqb_spec a dst) as [->|]; auto. rewrite Ed in I. apply in_keep in I as [I|I]; auto. inversion I; auto.
Qed.
Lemma del_ref : forall r a, filter (watches_ref r) (watches deleted a) = filter (watches_ref r) (watches s a).
Proof.
  intros r a. rewrite del_watches. destruct (Nat.eqb_spec a src) as [->|]; [now rewrite Es, filter_drop|].
  destruct (Nat.eqb_spec a dst) as [->|]; [now rewrite Ed, filter_drop|]. reflexivity.
Qed.
Lemma del_count : forall a b, bcount b (watches s a) = bcount b (watches deleted a) + (if (a =? src) && (b =? dst) || (a =? dst) && (b =? src) then 1 else 0).
Proof.
  intros a b. rewrite del_watches.
  assert (D : forall x y o, bcount b (x ++ WBinary o :: y) = bcount b (x ++ y) + (if b =? o then 1 else 0)).
  { intros x y o. rewrite !bcount_app. unfold bcount at 2. cbn [filter binary_to]. destruct (b =? o); cbn [length]; unfold bcount; lia. }
  destruct (Nat.eqb_spec a src) as [->|].
  - rewrite Es, D. destruct (Nat.eqb_spec src dst); [lia|]. cbn [andb]. now rewrite orb_false_r.
  - destruct (Nat.eqb_spec a dst) as [->|]; cbn [andb orb]; [now rewrite Ed, D|lia].
Qed.
Lemma del_reshaped : reshaped s deleted.
Proof. constructor; reflexivity. Qed.

(** The rest of the binary clauses implies the clause. *)
Hypothesis Implied : forall v, (forall a b, In (WBinary b) (watches deleted a) -> sat_clause v [a; b]) ->
  (forall l, values s l = Some true -> tr v l = true) -> tr v src = false -> tr v dst = true.

Lemma del_root : at_root orig deleted.
Proof.
  destruct Root as ((Co & Pr & Pi) & Cl & Ic & Tr & Lv). pose proof Co as [V F C Wi L Ri]. pose proof del_reshaped as R.
  assert (Dsrc : dom s src /\ dom s dst).
  { assert (I : In (WBinary dst) (watches s src)) by (rewrite Es; apply in_mid). now destruct (wi_bin _ _ _ _ _ Wi _ _ I) as (_ & A & B). }
  assert (W' : winv (rooted s) (vars s) (active s) (arena s) (watches deleted)).
  { destruct Wi as [W1 W2 W3 W4]. constructor.
    - intros l b r Rl I. apply (W1 l b r Rl). now apply del_sub.
    - intros r c l A G Wl. rewrite del_ref. eauto.
    - intros a b. specialize (W3 a b). rewrite (del_count a b), (del_count b a) in W3. 
      destruct (Nat.eqb_spec a src), (Nat.eqb_spec b dst), (Nat.eqb_spec a dst), (Nat.eqb_spec b src); cbn [andb orb] in W3; lia.
    - intros a b I. apply W4. now apply del_sub. }
  assert (L' : linv orig deleted).
  { apply linv_del with (s := s) (c := [src; dst]); auto; [discriminate| |].
    - intros c. rewrite cnt_cons, !cnt_db, (rs_root_units _ _ R). change (vars deleted) with (vars s). change (next_ref deleted) with (next_ref s).
      change (arena deleted) with (arena s). unfold binaries.
      pose proof (cnt_flat_upd (fun a => flat_map (binary_of a) (watches s a))
        (fun i => flat_map (binary_of i) (upd (watches s) dst (u ++ w) i)) (2 * vars s) dst c) as H1. cbv beta in H1.
      rewrite upd_same, Ed, flat_binary_drop in H1. specialize (H1 ltac:(intros i N; now rewrite upd_other) ltac:(apply Dsrc)).
      pose proof (cnt_flat_upd (fun i => flat_map (binary_of i) (upd (watches s) dst (u ++ w) i))
        (fun i => flat_map (binary_of i) (watches deleted i)) (2 * vars s) src c) as H2. cbv beta in H2.
      rewrite upd_other in H2 by lia. rewrite del_watches, Nat.eqb_refl, Es, flat_binary_drop in H2.
      specialize (H2 ltac:(intros i N; rewrite del_watches; unfold upd; destruct (Nat.eqb_spec i src); [congruence|reflexivity]) ltac:(apply Dsrc)).
      cbn [binary_of] in H1, H2. replace (src <? dst) with true in H2 by (symmetry; apply Nat.ltb_lt; auto).
      replace (dst <? src) with false in H1 by (symmetry; apply Nat.ltb_ge; lia). rewrite cnt_nil in H1. rewrite cnt_cons, cnt_nil in H2. lia.
    - intros v Sv d Id. apply in_irr in Id as [D|[D|D]].
      + apply Sv, in_irr. left. now rewrite (rs_root_units _ _ R).
      + apply in_binaries in D as (a & b & D1 & D2 & D3 & D4).
        assert (Bi : forall x y, In (WBinary y) (watches deleted x) -> sat_clause v [x; y]).
        { intros x y I. destruct (wi_bin _ _ _ _ _ W' _ _ I) as (N & [X _] & [Y _]).
          destruct (lt_dec x y) as [Q|Q].
          - apply Sv, in_irr. right. left. apply in_binaries. exists x, y. splits; auto.
          - pose proof (wi_sym _ _ _ _ _ W' _ _ I) as I'. apply sat_clause_incl with [y; x]; [intros z Z; cbn in *; tauto|].
            apply Sv, in_irr. right. left. apply in_binaries. exists y, x. splits; auto. lia. }
        destruct (del_keep a b D4) as [K|[[-> ->]|[-> ->]]]; [subst d; now apply Bi| |lia]. subst d.
        destruct (tr v src) eqn:T; [exists src; cbn; auto|]. exists dst. split; [cbn; auto|]. apply Implied; auto.
        intros l Hl. assert (Dl : dom s l) by (apply (ti_range _ V); congruence).
        assert (L0 : lev s l = 0) by (apply (ti_root _ V); auto; rewrite Tr; auto).
        destruct (Sv [l]) as (z & [<-|[]] & Z); auto. apply in_irr. left. rewrite (rs_root_units _ _ R). apply in_root_units. exists l. splits; auto.
      + apply Sv, in_irr. right. right. exact D. }
  unfold at_root, propagated. splits; auto.
  - constructor.
    + now apply (rs_vinv _ _ R).
    + now apply (rs_finv _ _ R).
    + destruct C as [C1 C2 C3 C4 C5]. constructor; auto.
    + exact W'.
    + exact L'.
    + intros l I. cbn in I. rewrite Tr in I. destruct I.
  - apply (pinv_reshaped _ _ R); auto. intros a b I. left. now apply del_sub.
Qed.
End Delete.

(** ** The candidates of a literal *)
Lemma filter_length : forall A (f : A -> bool) l, length (filter f l) <= length l.
Proof. intros A f. induction l as [|x l IH]; cbn; auto. destruct (f x); cbn; lia. Qed.
Lemma start_free : forall s src, vinv s -> values s src = None -> dom s src ->
  free (vars s) (upd (upd (values s) (neg src) (Some true)) (neg (neg src)) (Some false)) + 1 <= vars s.
Proof.
  intros s src V N D. assert (Nn : values s (neg src) = None) by (rewrite (ti_neg _ V), N; reflexivity).
  assert (Sy : symmetric (values s)) by exact (ti_neg _ V).
  pose proof (free_assigned (vars s) (values s) (neg src) Sy Nn ltac:(apply neg_lt; auto)) as E.
  assert (free (vars s) (values s) <= vars s).
  { unfold free. etransitivity; [apply filter_length|]. now rewrite seq_length. }
  lia.
Qed.

Lemma root_values : forall orig s l, at_root orig s -> values s l = Some true -> lev s l = 0.
Proof. intros orig s l ((Co & _) & _ & _ & Tr & _) E. apply (ti_root _ (co_v _ _ _ Co)); auto. rewrite Tr. auto. Qed.

Lemma clash_rup : forall orig s src a b, at_root orig s -> In (WBinary b) (watches s a) ->
  derives neg (db s) (fun l => exists m, In m [src] /\ l = neg m) (neg a) ->
  derives neg (db s) (fun l => exists m, In m [src] /\ l = neg m) (neg b) -> rup neg (db s) [src].
Proof.
  intros orig s src a b ((Co & _) & _) I Pa Pb. destruct (db_binary _ _ _ (co_w _ _ _ Co) I) as (d & D & E).
  exists d. split; auto. intros k Ik. apply E in Ik as [<-|[<-|[]]]; auto.
Qed.

Definition reduced_ok (orig : list (list lit)) (s : solver) (src : lit) (res : bool * solver) : Prop :=
  let '(failed, s') := res in
  at_root orig s' /\ shape s' = shape s /\ values s' = values s /\
  (failed = true -> rup neg (db s') [src]) /\ thinned s s'.

Lemma candidates_spec : forall orig src todo k kept s, at_root orig s -> values s src = None -> dom s src ->
  watches s src = kept ++ todo -> wp (reduce_candidates src k kept todo s) (reduced_ok orig s src).
Proof.
  intros orig src. induction todo as [|x todo IH]; intros k kept s Ro N D Ws; cbn [reduce_candidates].
  { apply wp_ret. cbn. splits; auto using thinned_refl. discriminate. }
  assert (Stop : reduced_ok orig s src (false, s)) by (cbn; splits; auto using thinned_refl; discriminate).
  destruct x as [dst|]; [|apply wp_ret; exact Stop].
  assert (Next : forall k, wp (reduce_candidates src k (kept ++ [WBinary dst]) todo s) (reduced_ok orig s src)).
  { intros j. apply IH; auto. now rewrite <- app_assoc. }
  destruct ((dst <? src) || negb (is_unassigned s dst)) eqn:C; [apply Next|].
  apply orb_false_iff in C as [C1 C2]. apply Nat.ltb_ge in C1. apply negb_false_iff, is_unassigned_spec in C2.
  pose proof Ro as ((Co & Pr & Pi) & Cl & Ic & Tr & Lv). pose proof (co_v _ _ _ Co) as V. pose proof (co_w _ _ _ Co) as Wi.
  rewrite Pr, Lv, Nat.eqb_refl. cbn [Nat.eqb andb oassert obind].
  assert (Id : In (WBinary dst) (watches s src)) by (rewrite Ws; apply in_mid).
  destruct (wi_bin _ _ _ _ _ Wi _ _ Id) as (Nsd & _ & Dd).
  unfold transitive_assign. rewrite (ti_neg _ V (neg src)), (ti_neg _ V src), N. cbn [option_map oassert obind].
  set (vals := upd (upd (values s) (neg src) (Some true)) (neg (neg src)) (Some false)).
  set (Wx := upd (watches s) src (kept ++ todo)).
  assert (Sub : forall a w, In w (Wx a) -> In w (watches s a)).
  { intros a w. unfold Wx, upd. destruct (Nat.eqb_spec a src) as [->|]; auto. rewrite Ws. apply in_drop. }
  assert (Vs : forall l, vals l = if l =? src then Some false else if l =? neg src then Some true else values s l).
  { intros l. unfold vals. rewrite vals_assigned, neg_neg. reflexivity. }
  assert (St : forall P : lit -> Prop, (forall l, values s l = Some true -> P l) -> P (neg src) -> rstate vals P vals [neg src]).
  { intros P H1 H2. unfold rstate. splits; auto.
    - apply symmetric_assigned. exact (ti_neg _ V).
    - intros l. rewrite Vs. destruct (l =? src); [discriminate|]. destruct (Nat.eqb_spec l (neg src)) as [->|]; auto.
    - intros l [<-|[]]. rewrite Vs. destruct (Nat.eqb_spec (neg src) src) as [X|X]; [now apply neg_neq in X|]. now rewrite Nat.eqb_refl. }
  assert (Wn : forall a b, In (WBinary b) (Wx a) -> b < 2 * vars s).
  { intros a b I. apply Sub in I. destruct (wi_bin _ _ _ _ _ Wi _ _ I) as (_ & _ & B). apply B. }
  assert (Fr : free (vars s) vals + length [neg src] <= vars s) by (apply start_free; auto).
  (* one result, two meanings *)
  set (A := fun l => exists m, In m [src] /\ l = neg m).
  assert (RU : wp (reach_loop (vars s) Wx dst vals [neg src]) (found Wx dst (fun l => derives neg (db s) A l))).
  { apply (reach_spec (vars s) Wx dst vals); auto.
    - intros a b I _ Pa. apply Sub in I. destruct (db_binary _ _ _ Wi I) as (d & Dd' & E). apply derives_unit with d; auto.
      + apply E. cbn. auto.
      + intros z Iz Nz. apply E in Iz as [<-|[<-|[]]]; [auto|congruence].
    - apply St.
      + intros l Hl. apply derives_unit with [l].
        * apply db_unit; auto; [apply dom_lt, (ti_range _ V); congruence|]. eapply root_values; eauto.
        * now left.
        * intros z [<-|[]] X. congruence.
      + apply derives_assumed. exists src. cbn; auto. }
  assert (RV : forall v, wp (reach_loop (vars s) Wx dst vals [neg src]) (fun r => 
     (forall a b, In (WBinary b) (Wx a) -> ~ (a = dst /\ b = src) -> sat_clause v [a; b]) ->
     (forall l, values s l = Some true -> tr v l = true) -> tr v src = false -> r = Some Destination -> tr v dst = true)).
  { intros v. destruct (reach_loop (vars s) Wx dst vals [neg src]) as [r| | |] eqn:Er; try (exfalso; exact RU). cbn [wp].
    intros H1 H2 H3 ->.
    assert (X : wp (reach_loop (vars s) Wx dst vals [neg src]) (found Wx dst (fun l => tr v l = true))).
    { apply (reach_spec (vars s) Wx dst vals); auto.
      - intros a b I Nb Pa. destruct (H1 a b I) as (z & [<-|[<-|[]]] & Z); auto.
        + intros [-> ->]. rewrite Vs, Nat.eqb_refl in Nb. discriminate.
        + rewrite tr_neg, Z in Pa. discriminate.
      - apply St; auto. now rewrite tr_neg, H3. }
    rewrite Er in X. destruct X as (a & I & Pa).
    destruct (H1 a dst I) as (z & [<-|[<-|[]]] & Z); auto; [intros [_ E]; congruence|]. rewrite tr_neg, Z in Pa. discriminate. }
  assert (Rf : forall a b, In (WBinary b) (watches s a) -> values s (neg a) = Some true -> values s b <> None).
  { intros a b I Ha Hb. destruct (proj2 (pi_bin _ _ Pi a b I)) as (t & It & Ht & _).
    - rewrite <- (neg_neg a), (ti_neg _ V), Ha. reflexivity.
    - intros J. rewrite Tr in J. destruct J.
    - intros J. rewrite Tr in J. destruct J.
    - destruct It as [<-|[<-|[]]]; [|congruence]. rewrite (ti_neg _ V), Ht in Ha. discriminate. }
  set (B := fun a b => In (WBinary b) (Wx a) /\ ~ (a = dst /\ b = src)).
  assert (RP : wp (reach_loop (vars s) Wx dst vals [neg src]) (found Wx dst (fun l => values s l = Some true \/ chain neg B (neg src) l))).
  { apply (reach_spec (vars s) Wx dst vals); auto.
    - intros a b I Nb [Pa|Pa].
      + exfalso. apply (Rf a b (Sub _ _ I) Pa). rewrite Vs in Nb. destruct (b =? src); [discriminate|]. destruct (b =? neg src); [discriminate|auto].
      + right. eapply chain_last; eauto. rewrite neg_neg. split; auto. intros [-> ->]. rewrite Vs, Nat.eqb_refl in Nb. discriminate.
    - apply St; auto. right. constructor. }
  destruct (reach_loop (vars s) Wx dst vals [neg src]) as [r| | |] eqn:Er; try (exfalso; exact RU). cbn [obind].
  destruct r as [[]|].
  - (* transitive *)
    destruct (remove_spec src (watches s dst)) as (u & w & Eu & Rm); [now apply (wi_sym _ _ _ _ _ Wi)|].
    unfold delete_transitive. rewrite Rm. cbn [obind]. change (del_step _ _) with (deleted s src dst kept todo u w).
    set (s1 := deleted s src dst kept todo u w).
    assert (Ro1 : at_root orig s1).
    { apply del_root; auto; [lia|]. intros v H1 H2 H3. specialize (RV v). cbn [wp] in RV. apply RV; auto.
      intros a b I Nab. apply H1. rewrite del_watches. unfold Wx, upd in I. destruct (a =? src); auto.
      destruct (Nat.eqb_spec a dst) as [->|]; auto. rewrite Eu in I. apply in_keep in I as [I|I]; auto. inversion I; subst. tauto. }
    assert (Th : thinned s s1).
    { constructor; auto; [|intros a b I; exact (del_sub s src dst kept todo u w Ws Eu a _ I)|intros r; apply clause_sim_refl].
      assert (Wi1 : forall a b, binary s1 a b -> binary s1 b a) by (intros a b; apply (wi_sym _ _ _ _ _ (co_w _ _ _ (proj1 (proj1 Ro1))))).
      assert (Bs : forall a b, B a b -> binary s1 a b).
      { intros a b [I Nab]. unfold binary, s1. rewrite del_watches. unfold Wx, upd in I. destruct (a =? src); auto.
        destruct (Nat.eqb_spec a dst) as [->|]; auto. rewrite Eu in I. apply in_keep in I as [I|I]; auto. inversion I; subst. tauto. }
      assert (Cs : bchain s1 (neg src) dst).
      { destruct RP as (a & I & [Pa|Pa]); [exfalso; now apply (Rf a dst (Sub _ _ I) Pa)|].
        apply chain_mono with (B := B); [intros x y H; eapply chain_next; [|constructor]; rewrite neg_neg; auto|].
        eapply chain_last; eauto. rewrite neg_neg. split; auto. intros [_ X]. congruence. }
      intros x y. split; apply chain_mono; intros a b I.
      - eapply chain_next; [|constructor]. rewrite neg_neg. exact (del_sub s src dst kept todo u w Ws Eu a _ I).
      - destruct (del_keep s src dst kept todo u w Ws Eu a b I) as [K|[[-> ->]|[-> ->]]]; [|exact Cs|].
        + eapply chain_next; [|constructor]. rewrite neg_neg. exact K.
        + apply chain_opposite in Cs; auto. now rewrite neg_neg in Cs. }
    destruct k as [|k]; [apply wp_ret; cbn; splits; auto; discriminate|].
    eapply wp_mono; [apply (IH k kept s1); auto|].
    + unfold s1. rewrite del_watches, Nat.eqb_refl. reflexivity.
    + intros [f s'] (B1 & B2 & B3 & B4 & B5). cbn. splits; auto. eapply thinned_trans; eauto.
  - apply wp_ret. cbn. splits; auto using thinned_refl. intros _. destruct RU as (a & b & I & Pa & Pb). apply (clash_rup orig s src a b); auto.
  - destruct k as [|k]; [apply wp_ret; exact Stop|]. apply Next.
Qed.

(** ** One literal *)
Lemma prioritized_root : forall orig s, at_root orig s -> at_root orig (prioritize_binaries s).
Proof.
  intros orig s ((Co & Pr & Pi) & Cl & Ic & Tr & Lv).
  set (W' := fun l => if l <? 2 * vars s then binary_first (watches s l) else watches s l).
  assert (E : prioritize_binaries s = rearranged W' (arena s) s) by (destruct s; reflexivity).
  assert (Pm : forall l, Permutation (watches s l) (W' l)).
  { intros l. unfold W'. destruct (l <? 2 * vars s); [|reflexivity]. unfold binary_first.
    induction (watches s l) as [|x ws IH]; [constructor|]. destruct x as [o|o r]; cbn [filter app]; [now constructor|]. now apply Permutation_cons_app. }
  assert (Bn : forall l, filter is_bin (W' l) = filter is_bin (watches s l)).
  { intros l. unfold W'. destruct (l <? 2 * vars s); [|reflexivity]. unfold binary_first.
    induction (watches s l) as [|x ws IH]; [reflexivity|]. rewrite filter_app in *. destruct x as [o|o r]; cbn [filter is_bin app]; [now rewrite IH|exact IH]. }
  assert (Ct : forall (f : watch -> bool) l, length (filter f (W' l)) = length (filter f (watches s l))).
  { intros f l. apply Permutation_length. pose proof (Pm l) as P. induction P; cbn [filter]; auto.
    - destruct (f x); auto.
    - destruct (f x), (f y); auto. constructor.
    - etransitivity; eauto. }
  assert (Wi : winv (rooted s) (vars s) (active s) (arena s) W').
  { destruct (co_w _ _ _ Co) as [W1 W2 W3 W4]. constructor.
    - intros l b r Rl I. apply (W1 l b r Rl). eapply Permutation_in; [apply Permutation_sym, Pm|exact I].
    - intros r c l A G Wl. rewrite Ct. eauto.
    - intros a b. unfold bcount. rewrite !Ct. apply W3.
    - intros a b I. apply W4. eapply Permutation_in; [apply Permutation_sym, Pm|exact I]. }
  rewrite E. unfold at_root, propagated. splits; auto.
  - apply core_rearranged; auto. intros r. apply clause_sim_refl.
  - change (rearranged W' (arena s) s) with (set_watches W' (set_arena (arena s) s)).
    assert (R : reshaped s (rearranged W' (arena s) s)) by (constructor; reflexivity).
    apply (pinv_reshaped _ _ R); auto. intros a b I. left. eapply Permutation_in; [apply Permutation_sym, Pm|exact I].
Qed.

Lemma prioritized_thinned : forall s, thinned s (prioritize_binaries s).
Proof.
  intros s. apply thinned_same; auto; [|intros r; apply clause_sim_refl]. intros a b. unfold binary, prioritize_binaries, set_watches. cbn [watches]. destruct (a <? 2 * vars s); [|tauto].
  unfold binary_first. rewrite in_app_iff, !filter_In. intuition discriminate.
Qed.
Lemma transitive_reduce_spec : forall orig o src k s, at_root orig s -> values s src = None -> dom s src ->
  wp (transitive_reduce o src k s) (fun s' => shape s' = shape s /\ thinned s s' /\
    if inconsistent s' then linv orig s' else at_root orig s').
Proof.
  intros orig o src k s Ro N D. unfold transitive_reduce. rewrite (proj2 (is_unassigned_spec s src) N). cbn [oassert obind].
  apply wp_bind. eapply wp_mono; [apply (candidates_spec orig src (watches s src) k [] s); auto|].
  intros [[] s1] (Ro1 & Sh1 & Vl1 & Ru & Th1).
  2:{ apply wp_ret. splits; auto. pose proof Ro1 as (_ & _ & -> & _). exact Ro1. }
  specialize (Ru eq_refl). pose proof Ro1 as ((Co & Pr & Pi) & Cl & Ic & Tr & Lv).
  assert (N1 : values s1 src = None) by congruence. assert (D1 : dom s1 src) by (unfold dom in *; unfold shape in Sh1; inversion Sh1 as [[E1 E2]]; now rewrite E1, E2).
  rewrite learned_unit_eq by (auto; apply Co). cbn [obind].
  set (s2 := do_assign 0 RDecision src s1).
  assert (Co2 : core orig (length (trail s2)) s2) by (apply core_learned_unit; auto).
  change (level s2) with (level s1). rewrite Lv. cbn [Nat.eqb oassert obind].
  assert (P2 : pinv (propagate s2) s2).
  { change (propagate s2) with (propagate s1). rewrite Pr. apply (pinv_assign s1 0 RDecision src (co_v _ _ _ Co) N1 (co_f _ _ _ Co)); auto. }
  pose proof (search_propagate_spec orig o s2 Co2 P2) as Sp.
  destruct (search_propagate o s2) as [[s3 confl]| | |] eqn:Es3; try (exfalso; exact Sp). cbn [wp obind] in *. destruct Sp as (Qu & Post).
  assert (Th2 : thinned s s3).
  { eapply thinned_trans; [exact Th1|]. apply thinned_trans with s2; [|apply (thinned_propagate o s2 s3 confl); auto; apply Co2].
    apply thinned_same; [reflexivity|intros r; apply clause_sim_refl|]. intros l b Hl L0.
    pose proof (grows_assign 0 RDecision src s1 (co_v _ _ _ Co) N1) as G. destruct (gr_values _ _ G l b Hl) as (X & Y & _). split; [exact X|]. unfold s2. congruence. }
  assert (Sh3 : shape s3 = shape s) by (rewrite (qu_shape _ _ Qu); exact Sh1). splits; auto.
  destruct confl as [c|].
  - destruct Post as (C3 & _ & I3). change (level s2) with (level s1) in I3. rewrite Lv in I3. cbn in I3. rewrite I3. apply C3.
  - destruct Post as (P3 & I3 & T3). change (inconsistent s2) with (inconsistent s1) in I3. rewrite Ic in I3. rewrite I3.
    assert (L3 : level s3 = 0) by (rewrite (qu_level _ _ Qu); exact Lv). unfold at_root. splits; auto. apply (qu_clean _ _ Qu). cbn. now apply clean_clear_marks.
Qed.
