(** On-the-fly strengthening and subsumption. *)
From Coq Require Import ZArith List Bool Lia Arith Permutation.
From Coq Require Import ZifyBool ZifyNat.
From Verif Require Import Base Hoare SpecSat Lit Sem Solver Analyze Inv DbFacts AssignFacts AssignSpec BacktrackFacts PropFacts PropLoop CutFacts OneLit MarkFacts ClauseFacts DeduceFacts.
Import ListNotations.
Open Scope nat_scope.

Lemma rup_weaken : forall db c d, incl c d -> rup neg db c -> rup neg db d.
Proof.
  intros db c d I (e & E & K). exists e. split; auto. intros k Hk.
  apply derive_mono with (db := db) (A := fun l => exists m, In m c /\ l = neg m); auto.
  - intros x X. exists x. split; auto. apply same_literals_refl.
  - intros l (m & M & ->). apply derives_assumed. exists m. auto.
Qed.
(** A clause is replaced by a derived one. *)
Lemma linv_replace : forall orig s s' old new, linv orig s -> rup neg (db s) new -> (forall l, In l new -> l < 2 * vars s) ->
  steps s' = Deleted old :: Added new :: steps s -> inconsistent s' = inconsistent s -> vars s' = vars s -> old <> [] ->
  msub (old :: db s') (new :: db s) -> (forall v, sat v (irr s') -> sat v (irr s)) -> linv orig s'.
Proof.
  intros orig s s' old new L Ru Rn E I Vs N M Sv. pose proof (linv_covers _ _ L) as C. destruct L as [P D Em Mo Ra].
  assert (D' : msub (new :: db s) (new :: pdb orig (steps s))) by now apply msub_cons.
  assert (Q : 0 < cnt old (new :: pdb orig (steps s))).
  { specialize (D' old). specialize (M old). rewrite cnt_cons, set_eqb_refl in M. cbn [b2n] in M. lia. }
  constructor; [| | | |rewrite E, Vs; intros x l [X|[X|X]]; [discriminate|replace x with new in * by congruence; auto|now apply Ra]].
  - rewrite E. cbn [proof_ok]. splits; auto. eapply rup_msub; eauto.
  - rewrite E. cbn [pdb]. intros x. pose proof (cnt_remove_same old _ x Q). specialize (D' x). specialize (M x).
    rewrite cnt_cons in M. lia.
  - intros H. rewrite E. cbn [pdb]. rewrite I in H. specialize (Em H).
    pose proof (cnt_remove_same old _ [] Q) as K. assert (F : set_eqb [] old = false).
    { destruct old; [congruence|]. reflexivity. }
    rewrite F, cnt_cons in K. cbn [b2n] in K. lia.
  - intros v Sa. apply Mo, Sv, Sa.
Qed.

Lemma highest_level_pos_eq : forall s cl lits j pos lvl, (forall l, In l lits -> lev s l < cl) ->
  highest_level_pos s j lits pos lvl = highest s cl j lits pos lvl.
Proof.
  intros s cl. induction lits as [|l rest IH]; intros j pos lvl H; auto. cbn [highest_level_pos highest].
  assert (H' : forall l, In l rest -> lev s l < cl) by (intros x X; apply H; now right).
  rewrite !IH by auto. destruct (lev s l <=? lvl); auto.
  destruct (Nat.eqb_spec (lev s l) cl) as [E|]; auto. exfalso. specialize (H l (or_introl eq_refl)). lia.
Qed.
Lemma update_blocking_spec : forall r b ws w, filter (watches_ref r) ws = [w] ->
  exists ws', update_blocking r b ws = Some ws' /\ filter (watches_ref r) ws' = [WLarge b r] /\ filter (unref r) ws' = filter (unref r) ws.
Proof.
  intros r b. induction ws as [|w ws IH]; intros w0 E; [discriminate|]. cbn [update_blocking filter] in *.
  destruct (watches_ref r w) eqn:Ew.
  - inversion E; subst w0. exists (WLarge b r :: ws). splits; auto.
    + cbn [filter watches_ref]. rewrite Nat.eqb_refl. now f_equal.
    + cbn [filter]. replace (unref r (WLarge b r)) with false by (unfold unref; cbn; now rewrite Nat.eqb_refl).
      replace (unref r w) with false by (unfold unref; now rewrite Ew). reflexivity.
  - destruct (IH w0 E) as (ws' & E1 & E2 & E3). rewrite E1. cbn [option_map]. exists (w :: ws'). splits; auto.
    + cbn [filter]. now rewrite Ew.
    + cbn [filter]. replace (unref r w) with true by (unfold unref; now rewrite Ew). now f_equal.
Qed.

(** A state ready for on-the-fly strengthening of the reason [cl] of [x]. *)
Record oprec (orig : list (list lit)) (p : nat) (s : solver) (x : lit) (r : nat) (cl : clause) : Prop := {
  op_core : core orig p s;
  op_pinv : pinv (T s (level s)) s;
  op_level : 0 < level s;
  op_trail : In x (trail s);
  op_lev : lev s x = level s;
  op_pos : tpos s x < p;
  op_reas : reas s x = RClause r;
  op_arena : arena s r = Some cl;
  op_rup : rup neg (db s) (filter (fun k => negb (k =? x) && negb (lev s k =? 0)) (c_lits cl)) }.

(** The new conflict. *)
Record opost (orig : list (list lit)) (s : solver) (x : lit) (r : nat) (cl : clause) (s' : solver) (c' : conflict) : Prop := {
  oq_core : core orig (tpos s x) s';
  oq_pinv : pinv (T s (level s)) s';
  oq_ok : conflict_ok s' c';
  oq_shape : reshaped s s';
  oq_an : an s' = an s;
  oq_inc : inconsistent s' = inconsistent s;
  oq_next : next_ref s' = next_ref s;
  oq_other : forall q, q <> r -> arena s' q = arena s q;
  oq_lits : exists lits', conflict_lits s' c' = Some lits' /\
    (forall l, In l lits' -> In l (c_lits cl) /\ l <> x /\ values s l = Some false /\ (lev s l = 0 \/ tpos s l < tpos s x)) /\
    exists k, In k lits' /\ lev s k = level s;
  oq_conf : match c' with CLarge r' => r' = r | CBinary a b => True end }.

Section Otfs.
Variables (orig : list (list lit)) (p : nat) (s : solver) (x : lit) (r : nat) (cl : clause).
Hypothesis Op : oprec orig p s x r cl.
Let Co := op_core _ _ _ _ _ _ Op.
Let V := co_v _ _ _ Co.
Let F := co_f _ _ _ Co.
Let C := co_c _ _ _ Co.
Let W := co_w _ _ _ Co.
Let Ar := op_arena _ _ _ _ _ _ Op.

Lemma op_known : known s p x.
Proof. destruct Op. unfold known. splits; auto; lia. Qed.
Lemma op_ok : reason_clause_ok s x cl.
Proof.
  pose proof (known_reason orig p s Co x op_known) as R. unfold reason_ok in R. rewrite (op_reas _ _ _ _ _ _ Op) in R.
  destruct R as (c & A & R). rewrite Ar in A. inversion A; now subst c.
Qed.
Lemma op_garbage : c_garbage cl = false. Proof. apply op_ok. Qed.
Lemma op_range : r < next_ref s. Proof. apply (ci_ref _ C). rewrite Ar. discriminate. Qed.
Lemma op_false : forall k, In k (c_lits cl) -> k <> x -> values s k = Some false /\ lev s k <= level s /\ (lev s k = 0 \/ tpos s k < tpos s x).
Proof. intros k I N. destruct op_ok as (_ & _ & H & _). rewrite <- (op_lev _ _ _ _ _ _ Op). auto. Qed.
Lemma op_x : In x (c_lits cl).
Proof. destruct op_ok as (_ & [H|H] & _); eapply nth_error_In; eauto. Qed.
Lemma op_top : exists k, In k (c_lits cl) /\ k <> x /\ lev s k = level s.
Proof. destruct op_ok as (_ & _ & _ & (k & A & B & D) & _). exists k. rewrite <- (op_lev _ _ _ _ _ _ Op). auto. Qed.
Lemma op_reason : forall l, In l (trail s) -> lev s l < level s \/ tpos s l < tpos s x -> reas s l = RClause r ->
  reason_clause_ok s l cl -> False.
Proof.
  intros l I H E (_ & Wl & _). assert (Il : In l (c_lits cl)) by (destruct Wl as [Wl|Wl]; eapply nth_error_In; eauto).
  pose proof (ti_true _ V l I) as Tl. destruct (Nat.eq_dec l x) as [->|N].
  - rewrite (op_lev _ _ _ _ _ _ Op) in H. lia.
  - destruct (op_false l Il N) as (Fl & _). congruence.
Qed.

Lemma op_unrooted : forall t, In t (c_lits cl) -> ~ rooted s t.
Proof.
  intros t It [Tt Lt]. destruct (Nat.eq_dec t x) as [->|N].
  - pose proof (op_level _ _ _ _ _ _ Op). rewrite (op_lev _ _ _ _ _ _ Op) in Lt. lia.
  - destruct (op_false t It N). congruence.
Qed.
Lemma op_unsettled : forall w, watching w cl -> w <> x -> ~ before s w (T s 1).
Proof.
  intros w Ww N. assert (Iw : In w (c_lits cl)) by (destruct Ww as [Ww|Ww]; eapply nth_error_In; eauto).
  apply (unsettled_watch orig p s r cl w); auto; try apply Op; try apply op_garbage.
  - intros l I. destruct (Nat.eq_dec l x) as [->|Nl]; [right; rewrite (op_lev _ _ _ _ _ _ Op); apply Op|left; now apply op_false].
  - now apply op_false.
Qed.

Lemma large_strengthen_spec : 3 <= length (filter (fun k => negb (k =? x) && negb (lev s k =? 0)) (c_lits cl)) ->
  exists s', large_on_the_fly_strengthen r x s = Ret s' /\ opost orig s x r cl s' (CLarge r) /\
    exists c', arena s' r = Some c' /\ c_garbage c' = false /\ c_redundant c' = c_redundant cl.
Proof.
  intros L3. unfold large_on_the_fly_strengthen. rewrite Ar.
  pose proof op_garbage as G. pose proof (ci_len _ C _ _ Ar G) as Ln. pose proof (ci_nodup _ C _ _ Ar G) as Nd.
  destruct (c_lits cl) as [|x0 [|y0 rest]] eqn:El; try (cbn in Ln; lia).
  assert (Hxy : x0 = x \/ y0 = x).
  { destruct op_ok as (_ & Wx & _). apply watching_nth in Wx; [|rewrite El; cbn; lia]. rewrite El in Wx. cbn in Wx. destruct Wx; auto. }
  replace ((x0 =? x) || (y0 =? x)) with true.
  2:{ symmetry. destruct Hxy as [->| ->]; rewrite Nat.eqb_refl, ?orb_true_r; auto. }
  cbn [oassert obind].
  set (other := if x0 =? x then y0 else x0).
  assert (Nxy : x0 <> y0) by (intros E; inversion Nd as [|? ? N1 _]; apply N1; subst; now left).
  assert (Ho : other <> x /\ (forall k, In k (x0 :: y0 :: rest) <-> In k (other :: x :: rest)) /\ NoDup (other :: x :: rest) /\
    (forall k, watching k cl <-> k = other \/ k = x)).
  { assert (Wn : forall k, watching k cl <-> k = x0 \/ k = y0) by (intros k; rewrite watching_nth; rewrite El; cbn; [tauto|lia]).
    unfold other. destruct (Nat.eqb_spec x0 x) as [E|N].
    - subst x0. splits; auto.
      + intros k. cbn. tauto.
      + eapply Permutation_NoDup; [apply perm_swap|]. auto.
      + intros k. rewrite Wn. tauto.
    - destruct Hxy as [E|E]; [contradiction|]. subst y0. splits; auto. tauto. }
  destruct Ho as (No & Same & Nd' & Wn). clearbody other.
  assert (Wx : watching x cl) by (apply Wn; auto).
  rewrite (unwatch_eq _ _ cl); eauto using op_unrooted, watch_range. cbn [obind].
  set (nr := filter (fun k => negb (lev s k =? 0)) rest).
  assert (Frest : forall k, In k rest -> values s k = Some false /\ k <> x /\ k <> other).
  { intros k I. inversion Nd' as [|? ? N1 N2]; subst. inversion N2 as [|? ? N3 N4]; subst.
    assert (k <> x) by (intros ->; contradiction). splits; auto.
    - apply op_false; auto. rewrite El. apply Same. now right; right.
    - intros ->. apply N1. now right. }
  (* the clause in the proof *)
  assert (Kept : filter (fun l => negb (l =? x) && negb (negb (l =? other) && (is_false s l && (lev s l =? 0)))) (other :: x :: rest) = other :: nr).
  { cbn [filter]. rewrite (proj2 (Nat.eqb_neq other x) No), !Nat.eqb_refl. cbn [negb andb]. f_equal. apply filter_ext_in.
    intros k I. destruct (Frest k I) as (A & B & D). rewrite (proj2 (Nat.eqb_neq k x) B), (proj2 (Nat.eqb_neq k other) D).
    rewrite (proj2 (is_false_spec s k) A). cbn [negb andb]. reflexivity. }
  set (L1 := other :: nr).
  assert (Nd1 : NoDup L1).
  { unfold L1. inversion Nd' as [|? ? N1 N2]; subst. inversion N2 as [|? ? N3 N4]; subst. constructor.
    - intros I. apply filter_In in I as [I _]. apply N1. now right.
    - now apply NoDup_filter. }
  assert (In1 : forall k, In k L1 -> In k (c_lits cl) /\ k <> x).
  { rewrite El. intros k [<-|I].
    - split; auto. apply Same. now left.
    - apply filter_In in I as [I _]. split; [apply Same; now right; right|]. now apply Frest. }
  assert (InR : incl (filter (fun k => negb (k =? x) && negb (lev s k =? 0)) (x0 :: y0 :: rest)) L1).
  { intros k I. apply filter_In in I as [I H]. apply andb_true_iff in H as [H1 H2]. apply negb_true_iff, Nat.eqb_neq in H1.
    apply Same in I. destruct I as [<-|[E|I]]; [now left|congruence|]. right. apply filter_In. auto. }
  assert (Ln1 : 3 <= length L1).
  { eapply Nat.le_trans; [exact L3|]. apply NoDup_incl_length; auto. now apply NoDup_filter. }
  replace (2 <? length L1) with true by (symmetry; apply Nat.ltb_lt; lia).
  change (other :: filter (fun k => negb (lev s k =? 0)) rest) with L1.
  replace (2 <? length L1) with true by (symmetry; apply Nat.ltb_lt; lia). cbn [oassert obind].
  (* the second watch *)
  assert (F1 : forall k, In k L1 -> values s k = Some false /\ lev s k <= level s /\ (lev s k = 0 \/ tpos s k < tpos s x)).
  { intros k I. destruct (In1 k I). apply op_false; auto. }
  destruct (highest_spec s (S (level s)) L1 1) with (lits := skipn 2 L1) (j := 2) (pos := 1) (lvl := lev s (nth 1 L1 0)) as [Hp Hm]; auto; try lia.
  { intros q Q. assert (In (nth q L1 0) L1) by now apply nth_In. destruct (F1 _ H) as (_ & X & _). lia. }
  { intros q Q _. replace q with 1 by lia. lia. }
  rewrite (highest_level_pos_eq s (S (level s))).
  2:{ intros l I. assert (In l L1) by (rewrite <- (firstn_skipn 2 L1); apply in_app_iff; auto). destruct (F1 l H) as (_ & X & _). lia. }
  set (h := highest s (S (level s)) 2 (skipn 2 L1) 1 (lev s (nth 1 L1 0))) in *. clearbody h.
  set (L2 := lswap L1 1 h).
  assert (Pm : Permutation L1 L2) by (apply lswap_perm; lia).
  assert (Nd2 : NoDup L2) by (eapply Permutation_NoDup; eauto).
  assert (Ln2 : length L2 = length L1) by apply lswap_length.
  assert (E0 : nth 0 L2 0 = other) by (unfold L2; rewrite lswap_nth_o by lia; reflexivity).
  set (z := nth 1 L2 0).
  assert (Ez : z = nth h L1 0) by (unfold z, L2; apply lswap_nth_l; lia).
  assert (Noz : other <> z) by (rewrite <- E0; unfold z; apply NoDup_nth_neq; auto; lia).
  assert (Iz : In z L2) by (apply nth_In; lia).
  assert (In2 : forall k, In k L2 <-> In k L1).
  { intros k. split; apply Permutation_in; auto. now apply Permutation_sym. }
  assert (Nzx : z <> x) by (apply In1, In2; auto).
  assert (Zd : nth 1 L2 0 = z) by reflexivity.
  clearbody z L2.
  set (c' := mk_clause L2 (c_redundant cl) (c_garbage cl) 2).
  assert (Wc' : forall k, watching k c' <-> k = other \/ k = z).
  { intros k. rewrite watching_nth by (unfold c'; cbn [c_lits]; lia). unfold c'; cbn [c_lits]. now rewrite E0, Zd. }
  (* watches *)
  cbn [shrink_clause_in_proof]. unfold shrink_clause_in_proof.
  match goal with |- context [watch_blocking z other r ?S4] => set (s4 := watch_blocking z other r S4) end.
  assert (W4 : forall k, watches s4 k = if k =? z then watches s z ++ [WLarge other r]
     else if k =? x then filter (unref r) (watches s x) else watches s k).
  { intros k. unfold s4. cbn. unfold upd. destruct (Nat.eqb_spec k z) as [->|]; auto.
    destruct (Nat.eqb_spec z x); [congruence|]. reflexivity. }
  assert (Wo : watches s4 other = watches s other).
  { rewrite W4. destruct (Nat.eqb_spec other z); [congruence|]. destruct (Nat.eqb_spec other x); [congruence|]. reflexivity. }
  destruct (winv_one _ _ _ _ _ r cl other W Ar G) as (b & B1 & B2 & B3); [apply (watch_range s r cl); auto; apply Wn; auto|apply Wn; auto|apply op_unrooted|].
  destruct (update_blocking_spec r z (watches s other) _ B1) as (ws & U1 & U2 & U3).
  rewrite Wo, U1.
  match goal with |- exists s', Ret ?S5 = _ /\ _ => set (s5 := S5) end.
  exists s5. split; auto.
  assert (W5 : forall k, watches s5 k = if k =? other then ws else watches s4 k) by (intros k; reflexivity).
  assert (A5 : arena s5 = upd (arena s) r (Some c')) by reflexivity.
  assert (Rs : reshaped s s5) by (constructor; reflexivity).
  assert (Un : forall k, filter (unref r) (watches s5 k) = filter (unref r) (watches s k)).
  { intros k. rewrite W5. destruct (Nat.eqb_spec k other) as [->|]; auto. rewrite W4. destruct (Nat.eqb_spec k z) as [->|].
    - rewrite filter_app. cbn [filter]. unfold unref at 2. cbn [watches_ref]. rewrite Nat.eqb_refl. cbn [negb]. now rewrite app_nil_r.
    - destruct (Nat.eqb_spec k x) as [->|]; auto. apply filter_idem. }
  assert (Bi : forall a e, In (WBinary e) (watches s5 a) <-> In (WBinary e) (watches s a)).
  { intros a e. rewrite (in_bins e (watches s5 a)), (in_bins e (watches s a)). now rewrite (same_unref_bins r _ _ (Un a)). }
  assert (Hz : lev s other = level s \/ lev s z = level s).
  { destruct op_top as (k & K1 & K2 & K3). assert (Ik : In k L1).
    { apply InR, filter_In. rewrite <- El. split; auto. apply andb_true_iff. split; [now apply negb_true_iff, Nat.eqb_neq|].
      apply negb_true_iff, Nat.eqb_neq. pose proof (op_level _ _ _ _ _ _ Op). lia. }
    destruct (In_nth _ _ 0 Ik) as (q & Q & Eq). destruct q; [left; rewrite <- K3, <- Eq; reflexivity|]. right.
    assert (Iz' : In z L1) by now apply In2. destruct (F1 z Iz') as (_ & X & _).
    assert (lev s k <= lev s z) by (rewrite Ez, <- Eq; apply Hm; lia). lia. }
  assert (Sm : same_literals (other :: x :: rest) (c_lits cl)) by (intros k; rewrite El; symmetry; apply Same).
  split; [|exists c'; splits; auto; rewrite A5; apply upd_same].
  constructor; auto.
  - apply (core_reshaped s s5 Rs orig p (tpos s x)); auto.
    + pose proof (op_pos _ _ _ _ _ _ Op). lia.
    + destruct C as [C1 C2 C3 C4 C5]. constructor; rewrite ?A5.
      * intros q E. change (next_ref s5) with (next_ref s). destruct (Nat.eq_dec q r) as [Eq|Eq]; [rewrite Eq; apply op_range|].
        apply C1. now rewrite upd_other in E.
      * intros q d E Gd. unfold upd in E. destruct (q =? r); eauto. inversion E; subst d. cbn. lia.
      * intros q d E Gd. unfold upd in E. destruct (q =? r); eauto. inversion E; subst d. exact Nd2.
      * intros q d l E Gd I. change (vars s5) with (vars s). unfold upd in E. destruct (q =? r); eauto. inversion E; subst d.
        eapply C4; eauto. apply In1, In2. exact I.
      * intros q I. unfold upd. destruct (q =? r); [discriminate|]. apply C5, I.
    + rewrite A5. apply winv_ref with (W := watches s); auto.
      * intros _ k Wk. rewrite W5. apply Wc' in Wk as [->| ->].
        { rewrite Nat.eqb_refl. exists z. splits; auto. }
        destruct (Nat.eqb_spec z other); [congruence|]. rewrite W4, Nat.eqb_refl. exists other. splits; auto.
        { rewrite filter_app. cbn [filter watches_ref]. rewrite Nat.eqb_refl.
          rewrite (winv_none _ _ _ _ _ r cl z W Ar G); auto; [|rewrite Wn; intros [E|E]; congruence].
          eapply (ci_range _ C); eauto. apply In1, In2, Iz. }
        apply In2. now left.
      * intros _ k Rk Wk. rewrite Wc' in Wk. rewrite W5. destruct (Nat.eqb_spec k other); [tauto|].
        rewrite W4. destruct (Nat.eqb_spec k z); [tauto|]. destruct (Nat.eqb_spec k x) as [->|]; [apply filter_filter_neg|].
        apply (winv_none _ _ _ _ _ r cl k W Ar G); auto. rewrite Wn. tauto.
    + apply linv_replace with (s := s) (old := other :: x :: rest) (new := L1); auto.
      * apply Co.
      * eapply rup_weaken; [exact InR|]. rewrite <- El. apply (op_rup _ _ _ _ _ _ Op).
      * intros k Ik. apply dom_lt. eapply (ci_range _ C); eauto. apply In1, Ik.
      * change (steps s5) with (Deleted (other :: x :: rest) :: Added (filter (fun l => negb (l =? x) && negb (negb (l =? other) && (is_false s l && (lev s l =? 0)))) (other :: x :: rest)) :: steps s).
        rewrite Kept. reflexivity.
      * discriminate.
      * intros u. rewrite !cnt_cons, !cnt_db, (rs_root_units _ _ Rs), A5. change (vars s5) with (vars s). change (next_ref s5) with (next_ref s).
        assert (Eb : cnt u (binaries (vars s) (watches s5)) = cnt u (binaries (vars s) (watches s))).
        { apply cnt_binaries_same. intros a _. rewrite binary_of_bins, (same_unref_bins r _ _ (Un a)), <- binary_of_bins. reflexivity. }
        pose proof (cnt_larges_upd (next_ref s) (arena s) u r (Some c') op_range) as X. rewrite Ar in X. cbn [lits_of c' c_garbage c_lits] in X.
        rewrite G, !cnt_cons, !cnt_nil in X. rewrite Eb.
        rewrite (set_eqb_same_r u (other :: x :: rest) (c_lits cl) Sm).
        rewrite (set_eqb_same_r u L1 L2 (same_literals_perm _ _ Pm)). lia.
      * intros v Sa d D. apply in_irr in D as [D|[D|(q & e & Q1 & Q2 & Q3 & Q4 & ->)]].
        { apply Sa, in_irr. left. now rewrite (rs_root_units _ _ Rs). }
        { apply Sa, in_irr. right. left. apply in_binaries in D as (a & e & A1 & A2 & A3 & A4). apply in_binaries.
          exists a, e. splits; auto. now apply Bi. }
        destruct (Nat.eq_dec q r) as [->|N].
        { rewrite Ar in Q2. inversion Q2; subst e. apply sat_clause_incl with L2.
          - intros k I. now apply In1, In2.
          - apply Sa, in_irr. right. right. exists r, c'. splits; auto. rewrite A5. apply upd_same. }
        apply Sa, in_irr. right. right. exists q, e. splits; auto. rewrite A5. now rewrite upd_other.
    + intros a e I. now apply Bi.
    + intros l q d I Lv Hp' E Aq Ok. rewrite A5. destruct (Nat.eqb_spec q r) as [->|N]; [|now rewrite upd_other].
      exfalso. rewrite Ar in Aq. inversion Aq; subst d. now apply (op_reason l).
  - apply (pinv_reshaped s s5 Rs); auto.
    + apply (op_pinv _ _ _ _ _ _ Op).
    + intros a e I. left. now apply Bi.
    + intros q d A Gd. rewrite A5 in A. destruct (Nat.eqb_spec q r) as [->|N]; [|rewrite upd_other in A by auto; auto].
      rewrite upd_same in A. inversion A; subst d. right. intros w y Ww Wy N.
      apply Wc' in Ww. apply Wc' in Wy. 
      assert (Iw : In w L1) by (destruct Ww as [->| ->]; [now left|now apply In2]).
      apply (watched_top orig p s); auto; [apply (op_level _ _ _ _ _ _ Op)|now apply F1| |].
      2:{ destruct Ww as [->| ->]; [right; apply op_unsettled; auto; apply Wn; auto|left].
          assert (Iz' : In z L1) by now apply In2. destruct Iz' as [E|Iz']; [congruence|]. apply filter_In in Iz' as [_ Iz'].
          apply negb_true_iff, Nat.eqb_neq in Iz'. lia. }
      destruct Hz as [Hz|Hz]; destruct Ww as [->| ->]; destruct Wy as [->| ->]; auto; congruence.
  - exists c'. rewrite A5. splits; auto; [apply upd_same|]. intros l I. rewrite (rs_values _ _ Rs). apply F1, In2, I.
  - intros q N. rewrite A5. now apply upd_other.
  - exists L2. splits.
    + cbn [conflict_lits]. rewrite A5, upd_same. reflexivity.
    + intros l I. apply In2 in I. destruct (In1 l I). destruct (F1 l I) as (A & _ & B). splits; auto.
    + destruct Hz as [Hz|Hz]; [exists other|exists z]; split; auto. apply In2. now left.
Qed.

Lemma irr_binary : forall (t : solver) v a b, winv (rooted t) (vars t) (active t) (arena t) (watches t) -> In (WBinary b) (watches t a) -> sat v (irr t) -> sat_clause v [a; b].
Proof.
  intros t v a b Wi I Sa. destruct (wi_bin _ _ _ _ _ Wi _ _ I) as (N & A & B). destruct (Nat.lt_ge_cases a b) as [H|H].
  - apply Sa, in_irr. right. left. apply in_binaries. exists a, b. auto.
  - apply sat_clause_incl with [b; a]; [intros k [<-|[<-|[]]]; cbn; auto|].
    apply Sa, in_irr. right. left. apply in_binaries. exists b, a. splits; auto; [lia|]. now apply (wi_sym _ _ _ _ _ Wi).
Qed.

Lemma binary_strengthen_spec : length (filter (fun k => negb (k =? x) && negb (lev s k =? 0)) (c_lits cl)) = 2 ->
  exists s' c', binary_on_the_fly_strengthen r x s = Ret (s', c') /\ opost orig s x r cl s' c' /\ exists a b, c' = CBinary a b.
Proof.
  intros L2. unfold binary_on_the_fly_strengthen. rewrite Ar.
  pose proof op_garbage as G. pose proof (ci_len _ C _ _ Ar G) as Ln. pose proof (ci_nodup _ C _ _ Ar G) as Nd.
  pose proof (op_rup _ _ _ _ _ _ Op) as Ru.
  set (R := filter (fun k => negb (k =? x) && negb (lev s k =? 0)) (c_lits cl)) in *.
  assert (InR : forall k, In k R <-> In k (c_lits cl) /\ k <> x /\ lev s k <> 0).
  { intros k. unfold R. rewrite filter_In, andb_true_iff, !negb_true_iff, !Nat.eqb_neq. tauto. }
  assert (NdR : NoDup R) by (unfold R; now apply NoDup_filter).
  clearbody R. destruct R as [|f [|e [|? ?]]]; try discriminate.
  destruct (c_lits cl) as [|x0 [|y0 rest]] eqn:El; try (cbn in Ln; lia).
  assert (Nfe : f <> e) by (intros E; inversion NdR as [|? ? N1 _]; apply N1; subst; now left).
  assert (If : In f (c_lits cl) /\ f <> x /\ lev s f <> 0) by (rewrite El; apply InR; now left).
  assert (Ie : In e (c_lits cl) /\ e <> x /\ lev s e <> 0) by (rewrite El; apply InR; now right; left).
  destruct If as (If & Nf & Lf). destruct Ie as (Ie & Ne & Le).
  pose proof (op_false f If Nf) as Ff. pose proof (op_false e Ie Ne) as Fe.
  set (s1 := new_binary_clause false f e s).
  assert (R1 : reshaped s s1) by apply new_binary_reshaped.
  assert (Rf : dom s f) by (eapply (ci_range _ C); eauto).
  assert (Re : dom s e) by (eapply (ci_range _ C); eauto).
  assert (C1 : core orig (tpos s x) s1).
  { apply core_new_binary; auto. apply (core_reshaped s s (reshaped_refl s) orig p (tpos s x)); auto; try apply Co.
    pose proof (op_pos _ _ _ _ _ _ Op). lia. }
  assert (Nxy : x0 <> y0) by (intros E; inversion Nd as [|? ? N1 _]; apply N1; subst; now left).
  assert (Wn : forall k, watching k cl <-> k = x0 \/ k = y0) by (intros k; rewrite watching_nth; rewrite El; cbn; [tauto|lia]).
  pose proof (co_w _ _ _ C1) as W1.
  assert (Ar1 : arena s1 r = Some cl) by exact Ar.
  change (vars s1) with (vars s) in W1.
  rewrite (unwatch_eq x0 r cl s1 W1 Ar1 G); [|eapply (watch_range s); eauto; apply Wn; auto|apply Wn; auto|exact op_unrooted]. cbn [obind].
  set (s2 := set_watches _ s1).
  assert (U2 : unwatch_blocking y0 r s2 = Ret (set_watches (upd (watches s2) y0 (filter (unref r) (watches s1 y0))) s2)).
  { unfold unwatch_blocking. assert (E : watches s2 y0 = watches s1 y0) by (unfold s2; cbn; apply upd_other; auto).
    rewrite E. destruct (winv_one _ _ _ _ _ r cl y0 W1 Ar1 G) as (b & B1 & _); [eapply (watch_range s); eauto; apply Wn; auto|apply Wn; auto|exact op_unrooted|]. rewrite B1. reflexivity. }
  rewrite U2. cbn [obind]. set (s3 := set_watches _ s2).
  rewrite (mark_garbage_eq r cl s3 Ar G). cbn [obind].
  set (s4 := trashed r cl s3). exists s4, (CBinary f e). split; auto. split; [|eauto].
  assert (W4 : forall k, watches s4 k = if k =? y0 then filter (unref r) (watches s1 y0) else if k =? x0 then filter (unref r) (watches s1 x0) else watches s1 k).
  { intros k. reflexivity. }
  assert (Un : forall k, filter (unref r) (watches s4 k) = filter (unref r) (watches s1 k)).
  { intros k. rewrite W4. destruct (Nat.eqb_spec k y0) as [->|]; [apply filter_idem|]. destruct (Nat.eqb_spec k x0) as [->|]; [apply filter_idem|auto]. }
  assert (Bi : forall a b, In (WBinary b) (watches s4 a) <-> In (WBinary b) (watches s1 a)).
  { intros a b. rewrite (in_bins b (watches s4 a)), (in_bins b (watches s1 a)). now rewrite (same_unref_bins r _ _ (Un a)). }
  assert (Rs : reshaped s s4) by (constructor; reflexivity).
  assert (Tx : core orig (tpos s x) (trashed r cl s1)).
  { apply core_trashed; auto.
    - intros l I Lv H Ok E. apply (op_reason l); auto.
    - intros _ v Sa. apply sat_clause_incl with [f; e]; [intros k [<-|[<-|[]]]; auto|].
      apply (irr_binary (trashed r cl s1)); auto.
      + replace (arena (trashed r cl s1)) with (upd (arena s1) r (Some (garbage_clause cl))) by reflexivity.
        apply (winv_ref _ _ _ _ _ _ _ _ W1); auto; discriminate.
      + apply new_binary_watches. auto. }
  assert (Rw : reshaped (trashed r cl s1) s4) by (constructor; reflexivity).
  assert (Hz : lev s f = level s \/ lev s e = level s).
  { destruct op_top as (k & K1 & K2 & K3). assert (Ik : In k [f; e]).
    { apply InR. rewrite <- El. splits; auto. pose proof (op_level _ _ _ _ _ _ Op). lia. }
    destruct Ik as [<-|[<-|[]]]; auto. }
  constructor; auto.
  - apply (core_reshaped (trashed r cl s1) s4) with (p := tpos s x); auto.
    + destruct (co_c _ _ _ Tx). constructor; auto.
    + apply (winv_ref _ _ _ _ _ _ _ _ W1); auto; discriminate.
    + apply (linv_same orig (trashed r cl s1)); [apply Tx|..].
      * reflexivity.
      * reflexivity.
      * reflexivity.
      * intros u. rewrite !cnt_db, (rs_root_units _ _ (Rw : reshaped (trashed r cl s1) s4)).
        change (vars s4) with (vars s). change (vars (trashed r cl s1)) with (vars s).
        change (next_ref s4) with (next_ref s). change (next_ref (trashed r cl s1)) with (next_ref s).
        change (arena s4) with (arena (trashed r cl s1)). change (watches (trashed r cl s1)) with (watches s1).
        rewrite (cnt_binaries_same (vars s) (watches s1) (watches s4) u); auto.
        intros a _. rewrite binary_of_bins, (same_unref_bins r _ _ (Un a)), <- binary_of_bins. reflexivity.
      * intros v Sa d D. apply Sa. apply in_irr. apply in_irr in D as [D|[D|D]]; [| |now right; right].
        { left. now rewrite (rs_root_units _ _ (Rw : reshaped (trashed r cl s1) s4)). }
        right. left. apply in_binaries in D as (a & b & A1 & A2 & A3 & A4). apply in_binaries. exists a, b. splits; auto. now apply Bi.
    + intros a b I. apply Bi. exact I.
  - apply (pinv_reshaped s s4 Rs).
    + apply (op_pinv _ _ _ _ _ _ Op).
    + intros a b I. apply Bi in I. apply new_binary_watches in I as [I|[[-> I]|[-> I]]]; auto; inversion I; subst b; right;
        apply (watched_top orig p s); auto; try apply (op_level _ _ _ _ _ _ Op); try apply Ff; try apply Fe; try (left; lia).
      * destruct Hz; auto.
      * destruct Hz; auto.
    + intros q d A Gd. left. change (arena s4) with (upd (arena s) r (Some (garbage_clause cl))) in A. unfold upd in A.
      destruct (q =? r); auto. inversion A; subst d. discriminate.
  - cbn [conflict_ok]. rewrite (rs_values _ _ Rs). splits; [|apply Ff|apply Fe]. apply Bi, new_binary_watches. auto.
  - intros q N. change (arena s4) with (upd (arena s) r (Some (garbage_clause cl))). now apply upd_other.
  - exists [f; e]. splits; auto.
    + intros l I. assert (Il : In l [f; e]) by exact I. apply InR in Il as (A & B & D). rewrite <- El in A. 
      destruct (op_false l A B) as (X & _ & Y). splits; auto.
    + destruct Hz as [Hz|Hz]; [exists f|exists e]; cbn; auto.
Qed.
End Otfs.

(** ** Subsumption of the conflict *)
Lemma core_pointwise : forall orig p A B, reshaped A B -> watches A = watches B -> (forall q, arena A q = arena B q) ->
  next_ref A = next_ref B -> last_learned A = last_learned B -> steps A = steps B -> inconsistent A = inconsistent B -> core orig p A -> core orig p B.
Proof.
  intros orig p A B R Ew Ea En El Es Ei Co.
  assert (Ed : db B = db A).
  { unfold db. rewrite (rs_root_units _ _ R), (rs_vars _ _ R), Ew, En. do 2 f_equal. unfold larges. apply flat_map_ext. intros q. now rewrite Ea. }
  assert (Er : forall v, sat v (irr B) -> sat v (irr A)).
  { intros v Sa d D. apply Sa, in_irr. apply in_irr in D as [D|[D|(q & e & H)]].
    - left. now rewrite (rs_root_units _ _ R).
    - right. left. now rewrite (rs_vars _ _ R), <- Ew.
    - right. right. exists q, e. now rewrite <- En, <- Ea. }
  apply (core_reshaped A B R orig p p); auto.
  - destruct (co_c _ _ _ Co) as [C1 C2 C3 C4 C5]. constructor.
    + intros q H. rewrite <- En. apply C1. now rewrite Ea.
    + intros q c H. rewrite <- Ea in H. eauto.
    + intros q c H. rewrite <- Ea in H. eauto.
    + intros q c l H. rewrite <- Ea in H. rewrite (rs_dom _ _ R). eauto.
    + intros q H. rewrite <- Ea. apply C5. now rewrite El.
  - rewrite <- Ew. destruct (co_w _ _ _ Co) as [W1 W2 W3 W4]. constructor; auto.
    + intros l b q Rl I. destruct (W1 l b q Rl I) as (c & X & Y). exists c. now rewrite <- Ea.
    + intros q c l H. rewrite <- Ea in H. eauto.
  - apply (linv_same orig A); auto; [apply Co|apply (rs_vars _ _ R)|]. rewrite Ed. intros u. lia.
  - intros a b. now rewrite Ew.
  - intros l q c _ _ _ _ H _. now rewrite <- Ea.
Qed.

Lemma core_irredundant : forall orig p t r c, core orig p t -> arena t r = Some c -> c_garbage c = false ->
  (forall l, In l (trail t) -> 0 < lev t l -> lev t l < level t \/ tpos t l < p -> reason_clause_ok t l c -> reas t l <> RClause r) ->
  core orig p (set_clause r (Some (mk_clause (c_lits c) false (c_garbage c) (c_searched c))) t).
Proof.
  intros orig p t r c Co A G H. set (c' := mk_clause _ _ _ _). set (t' := set_clause _ _ _).
  assert (R : reshaped t t') by (constructor; reflexivity).
  assert (Rr : r < next_ref t) by (apply (ci_ref _ (co_c _ _ _ Co)); rewrite A; discriminate).
  assert (Ea : arena t' = upd (arena t) r (Some c')) by reflexivity.
  apply (core_reshaped t t' R orig p p); auto.
  - destruct (co_c _ _ _ Co) as [C1 C2 C3 C4 C5]. constructor; rewrite ?Ea.
    + intros q E. destruct (Nat.eq_dec q r) as [->|N]; auto. apply C1. now rewrite upd_other in E.
    + intros q d E. unfold upd in E. destruct (q =? r); eauto. inversion E; subst d. cbn. eauto.
    + intros q d E. unfold upd in E. destruct (q =? r); eauto. inversion E; subst d. cbn. eauto.
    + intros q d l E. unfold upd in E. destruct (q =? r); eauto. inversion E; subst d. cbn. intros. change (vars t') with (vars t). eauto.
    + intros q I. unfold upd. destruct (q =? r); [discriminate|]. now apply C5.
  - rewrite Ea. destruct (co_w _ _ _ Co) as [W1 W2 W3 W4]. constructor; auto.
    + intros l b q Rl I. destruct (W1 l b q Rl I) as (d & D & Hd). unfold upd. destruct (Nat.eqb_spec q r) as [->|]; [|eauto].
      rewrite A in D. inversion D; subst d. exists c'. split; auto.
    + intros q d l D. unfold upd in D. destruct (Nat.eqb_spec q r) as [->|]; [|eauto]. inversion D; subst d. intros _ Wl.
      now apply (W2 r c l A G).
  - apply (linv_same orig t); auto; [apply Co| |].
    + intros u. rewrite !cnt_db, (rs_root_units _ _ R), Ea. change (vars t') with (vars t). change (next_ref t') with (next_ref t).
      change (watches t') with (watches t). pose proof (cnt_larges_upd (next_ref t) (arena t) u r (Some c') Rr) as X.
      rewrite A in X. cbn [lits_of c' c_garbage c_lits] in X. lia.
    + intros v Sa d D. apply Sa. apply in_irr. apply in_irr in D as [D|[D|(q & e & Q1 & Q2 & Q3 & Q4 & Q5)]]; auto.
      right. right. destruct (Nat.eq_dec q r) as [->|N].
      * exists r, c'. rewrite Ea, upd_same. rewrite A in Q2. inversion Q2; subst e. auto.
      * exists q, e. rewrite Ea, upd_other by auto. auto.
  - intros l q d I Lv Hp E Aq Ok. rewrite Ea. destruct (Nat.eq_dec q r) as [->|N]; [|now rewrite upd_other].
    exfalso. rewrite A in Aq. inversion Aq; subst d. eapply H; eauto.
Qed.

Lemma subsume_spec : forall orig q lim t c lits d dc, core orig q t -> pinv lim t -> conflict_ok t c -> conflict_lits t c = Some lits ->
  arena t d = Some dc -> c_garbage dc = false -> (forall l, In l (c_lits dc) -> values t l = Some false) -> c <> CLarge d ->
  (forall l, In l lits -> lev t l = 0 \/ In l (c_lits dc)) ->
  exists t', on_the_fly_subsume c (CLarge d) t = Ret t' /\ reshaped t t' /\ core orig q t' /\ pinv lim t' /\ conflict_ok t' c /\
    conflict_lits t' c = Some lits /\ an t' = an t /\ inconsistent t' = inconsistent t.
Proof.
  intros orig q lim t c lits d dc Co P Ok Cl Ad Gd Fd Nd Sub. unfold on_the_fly_subsume. rewrite Ad.
  rewrite (mark_garbage_eq d dc t Ad Gd). cbn [obind].
  pose proof (co_v _ _ _ Co) as V.
  assert (Nr : forall e l, (forall k, In k (c_lits e) -> values t k = Some false) -> In l (trail t) -> reason_clause_ok t l e -> False).
  { intros e l Fe I (_ & Wl & _). assert (Il : In l (c_lits e)) by (destruct Wl as [Wl|Wl]; eapply nth_error_In; eauto).
    pose proof (ti_true _ V l I). pose proof (Fe l Il). congruence. }
  assert (Sat : forall u v, reshaped t u -> sat v (irr u) -> sat_clause v lits -> sat_clause v (c_lits dc)).
  { intros u v R Sa (l & I & Tl). destruct (Sub l I) as [L0|L0]; [|exists l; auto]. exfalso.
    assert (Fl : values t l = Some false).
    { destruct (conflict_cfl _ _ _ _ Co Ok) as (ls & Cf). apply (cf_false _ _ _ Cf). pose proof (cf_lits _ _ _ Cf) as X. rewrite Cl in X. inversion X. now subst ls. }
    assert (In [neg l] (irr u)).
    { apply in_irr. left. rewrite (rs_root_units _ _ R). apply in_root_units. exists (neg l).
      apply (false_true _ _ V) in Fl. splits; auto; [|now rewrite lev_neg].
      eapply (ti_range _ V). rewrite Fl. discriminate. }
    destruct (Sa _ H) as (m & [<-|[]] & M). rewrite tr_neg, Tl in M. discriminate. }
  destruct (c_redundant dc) eqn:Ed.
  - exists (trashed d dc t). splits; auto.
    + apply trashed_reshaped.
    + apply core_trashed; auto; [|congruence]. intros l I _ _ Rc _. eapply Nr; eauto.
    + now apply pinv_trashed.
    + destruct c as [a b|r]; auto. destruct Ok as (e & A1 & A2 & A3). exists e. splits; auto. cbn. rewrite upd_other; auto.
    + destruct c as [a b|r]; auto. cbn in Cl |- *. rewrite upd_other; auto.
  - destruct c as [a b|r].
    + exists (trashed d dc t). splits; auto.
      * apply trashed_reshaped.
      * apply core_trashed; auto; [intros l I _ _ Rc _; eapply Nr; eauto|]. intros _ v Sa.
        cbn in Cl. inversion Cl; subst lits. apply (Sat (trashed d dc t)); auto; [apply trashed_reshaped|].
        destruct Ok as (Iw & _). apply (irr_binary (trashed d dc t)); auto.
        replace (arena (trashed d dc t)) with (upd (arena t) d (Some (garbage_clause dc))) by reflexivity.
        apply (winv_ref _ _ _ _ (watches t)); auto; try discriminate. apply Co.
      * now apply pinv_trashed.
    + destruct Ok as (cc & A1 & A2 & A3). assert (Nrd : r <> d) by congruence.
      assert (A1' : arena (trashed d dc t) r = Some cc) by (cbn; now rewrite upd_other).
      rewrite A1'. set (c' := mk_clause _ _ _ _). set (t' := set_clause r (Some c') (trashed d dc t)).
      cbn in Cl. rewrite A1 in Cl. inversion Cl; subst lits.
      set (t1 := set_clause r (Some c') t).
      assert (C1 : core orig q t1) by (apply (core_irredundant orig q t r cc); auto; intros l I _ _ Rc _; now apply (Nr cc l)).
      assert (Ad1 : arena t1 d = Some dc) by (cbn; rewrite upd_other; auto).
      assert (R' : reshaped t t') by (constructor; reflexivity).
      assert (C2 : core orig q (trashed d dc t1)).
      { apply core_trashed; auto.
        - intros l I _ _ Rc _. apply (Nr dc l Fd I). apply (rs_clause_ok t1 t); auto. constructor; reflexivity.
        - intros _ v Sa. apply (Sat (trashed d dc t1)); auto; [constructor; reflexivity|].
          apply Sa, in_irr. right. right. exists r, c'. splits; auto.
          + apply (ci_ref _ (co_c _ _ _ Co)). rewrite A1. discriminate.
          + cbn. rewrite upd_other by auto. apply upd_same. }
      assert (Ea : arena t' = upd (upd (arena t) d (Some (garbage_clause dc))) r (Some c')) by reflexivity.
      exists t'. splits; auto.
      * apply (core_pointwise orig q (trashed d dc t1)); auto; [constructor; reflexivity|].
        intros e. rewrite Ea. cbn. unfold upd. destruct (Nat.eqb_spec e d) as [->|]; auto. destruct (Nat.eqb_spec d r); congruence.
      * apply (pinv_reshaped t t' R'); auto. intros e f Ae Ge. rewrite Ea in Ae. unfold upd in Ae.
        destruct (Nat.eqb_spec e r) as [->|Ner].
        { right. inversion Ae; subst f. intros w x Ww Wx N. apply (pi_large _ _ P r cc); auto. }
        left. destruct (Nat.eqb_spec e d) as [->|]; auto. inversion Ae; subst f. discriminate.
      * exists c'. rewrite Ea, upd_same. splits; auto.
      * cbn [conflict_lits]. rewrite Ea, upd_same. reflexivity.
Qed.
