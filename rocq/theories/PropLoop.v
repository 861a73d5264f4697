(** The propagation loops keep the invariants. *)
From Coq Require Import ZArith List Bool Lia Arith Permutation.
From Coq Require Import ZifyBool ZifyNat.
From Verif Require Import Base Hoare SpecSat Lit Sem Solver Inv DbFacts AssignFacts AssignSpec BacktrackFacts PropFacts.
Import ListNotations.
Open Scope nat_scope.

(** ** Changes of one watch list *)
Lemma filter_drop : forall A (f : A -> bool) a b x, f x = false -> filter f (a ++ x :: b) = filter f (a ++ b).
Proof. intros A f a b x H. rewrite !filter_app. cbn [filter]. now rewrite H. Qed.
Lemma filter_keep : forall A (f : A -> bool) a b x, f x = true ->
  length (filter f (a ++ x :: b)) = S (length (filter f (a ++ b))).
Proof. intros A f a b x H. rewrite !filter_app. cbn [filter]. rewrite H, !app_length. cbn [length]. lia. Qed.
Lemma in_drop : forall A (a b : list A) x y, In y (a ++ b) -> In y (a ++ x :: b).
Proof. intros A a b x y H. apply in_app_or in H as [H|H]; apply in_or_app; [now left|right; now right]. Qed.
Lemma in_keep : forall A (a b : list A) x y, In y (a ++ x :: b) <-> y = x \/ In y (a ++ b).
Proof.
  intros A a b x y. rewrite !in_app_iff. cbn. split; intros H; decompose [or] H; auto.
Qed.
Lemma in_mid : forall A (a b : list A) x, In x (a ++ x :: b).
Proof. intros. apply in_elt. Qed.

Lemma winv_drop : forall R n Av ar W l A b r B c, winv R n Av ar (upd W l (A ++ WLarge b r :: B)) ->
  ar r = Some c -> c_garbage c = true -> winv R n Av ar (upd W l (A ++ B)).
Proof.
  intros R n Av ar W l A b r B c [W1 W2 W3 W4] E G.
  assert (Sub : forall k w, In w (upd W l (A ++ B) k) -> In w (upd W l (A ++ WLarge b r :: B) k)).
  { intros k w. unfold upd. destruct (k =? l); auto. apply in_drop. }
  constructor.
  - intros k x q Rk I. eapply W1; eauto.
  - intros q d k D Gd Wk. pose proof (W2 q d k D Gd Wk) as Cn. unfold upd in *. destruct (k =? l); auto.
    rewrite filter_drop in Cn; auto. cbn. apply Nat.eqb_neq. intros ->. congruence.
  - assert (X : forall k o, bcount o (upd W l (A ++ B) k) = bcount o (upd W l (A ++ WLarge b r :: B) k)).
    { intros k o. unfold upd. destruct (k =? l); auto. now rewrite !bcount_app, bcount_large. }
    intros x y. now rewrite !X.
  - intros x y I. apply W4; auto.
Qed.
Lemma winv_block : forall R n Av ar W l A b r B c b', winv R n Av ar (upd W l (A ++ WLarge b r :: B)) ->
  ar r = Some c -> c_garbage c = false -> In b' (c_lits c) -> b' <> l -> winv R n Av ar (upd W l (A ++ WLarge b' r :: B)).
Proof.
  intros R n Av ar W l A b r B c b' [W1 W2 W3 W4] E G Ib Nb.
  assert (Bin : forall k o, In (WBinary o) (upd W l (A ++ WLarge b' r :: B) k) <-> In (WBinary o) (upd W l (A ++ WLarge b r :: B) k)).
  { intros k w. unfold upd. destruct (k =? l); [|reflexivity]. rewrite !in_keep. split; (intros [I|I]; [discriminate|now right]). }
  constructor.
  - intros k x q Rk I. unfold upd in I. destruct (Nat.eqb_spec k l) as [->|K].
    + apply in_keep in I as [I|I].
      * inversion I; subst x q. exists c. split; auto. intros _.
        destruct (W1 l b r Rk) as (d & D & H). { rewrite upd_same. apply in_mid. }
        rewrite E in D. inversion D; subst d. splits; auto. now apply H.
      * apply (W1 l x q Rk). rewrite upd_same. now apply in_drop.
    + apply (W1 k x q Rk). now rewrite upd_other.
  - intros q d k D Gd Wk. pose proof (W2 q d k D Gd Wk) as Cn. unfold upd in *. destruct (k =? l); auto.
    rewrite filter_app in *. cbn [filter watches_ref] in *. destruct (r =? q); rewrite app_length in *; exact Cn.
  - assert (X : forall k o, bcount o (upd W l (A ++ WLarge b' r :: B) k) = bcount o (upd W l (A ++ WLarge b r :: B) k)).
    { intros k o. unfold upd. destruct (k =? l); auto. now rewrite !bcount_app, !bcount_large. }
    intros x y. now rewrite !X.
  - intros x y I. apply W4. now apply Bin.
Qed.
Lemma winv_replace : forall R n Av ar W l A b r B c c' x o,
  winv R n Av ar (upd W l (A ++ WLarge b r :: B)) ->
  ar r = Some c -> c_garbage c = false -> c_garbage c' = false -> Permutation (c_lits c) (c_lits c') ->
  watching l c -> watching o c -> o <> l ->
  (forall k, watching k c -> k = l \/ k = o) -> (forall k, watching k c' <-> k = o \/ k = x) ->
  x <> o -> x <> l -> In x (c_lits c') -> x < 2 * n ->
  winv R n Av (upd ar r (Some c')) (upd (upd W x (W x ++ [WLarge o r])) l (A ++ B)).
Proof.
  intros R n Av ar W l A b r B c c' x o [W1 W2 W3 W4] E G G' P Wl Wo Nol Wc Wc' Nxo Nxl Ix Rx.
  set (W' := upd (upd W x (W x ++ [WLarge o r])) l (A ++ B)).
  assert (In' : forall k w, In w (W' k) -> (k = x /\ w = WLarge o r) \/ In w (upd W l (A ++ WLarge b r :: B) k)).
  { intros k w I. unfold W', upd in *. destruct (k =? l); [right; now apply in_drop|].
    destruct (Nat.eqb_spec k x) as [->|]; auto. apply in_app_or in I as [I|[I|[]]]; auto. }
  assert (Bin : forall k w, In (WBinary w) (W' k) <-> In (WBinary w) (upd W l (A ++ WLarge b r :: B) k)).
  { intros k w. split; intros I.
    - apply In' in I as [[_ I]|I]; auto. discriminate.
    - unfold W', upd in *. destruct (k =? l); [apply in_keep in I as [I|I]; [discriminate|auto]|].
      destruct (k =? x) eqn:K; auto. apply Nat.eqb_eq in K. subst k. apply in_or_app. now left. }
  assert (None : filter (watches_ref r) (A ++ B) = []).
  { specialize (W2 r c l E G Wl). rewrite upd_same in W2.
    rewrite filter_keep in W2 by (cbn; apply Nat.eqb_refl). destruct (filter (watches_ref r) (A ++ B)); auto. cbn in W2. lia. }
  constructor.
  - intros k y q Rk I. unfold W' in I. apply In' in I as H. destruct (Nat.eqb_spec q r) as [->|Q].
    + exists c'. rewrite upd_same. split; auto. intros _.
      destruct H as [[-> H]|H].
      * inversion H; subst y. splits; auto; [apply Wc'; auto|].
        assert (watching o c') by (apply Wc'; auto). destruct H0; eapply nth_error_In; eauto.
      * destruct (W1 k y r Rk H) as (d & D & Hd). rewrite E in D. inversion D; subst d.
        destruct (Hd G) as (K1 & K2 & K3). destruct (Wc k K1) as [->| ->].
        -- exfalso. rewrite upd_same in I.
           assert (X : In (WLarge y r) (filter (watches_ref r) (A ++ B))) by (apply filter_In; split; auto; cbn; apply Nat.eqb_refl).
           rewrite None in X. destruct X.
        -- splits; auto; [apply Wc'; auto|]. eapply Permutation_in; eauto.
    + rewrite upd_other by auto. destruct H as [[-> H]|H]; [inversion H; subst; congruence|]. eapply W1; eauto.
  - intros q d k D Gd Wk. destruct (Nat.eqb_spec q r) as [->|Q].
    + rewrite upd_same in D. inversion D; subst d. apply Wc' in Wk as [->| ->].
      * unfold W'. rewrite !upd_other by auto. specialize (W2 r c o E G Wo). rewrite upd_other in W2 by auto.
        destruct W2 as [W2|(Z & t & It & Rt)]; [now left|]. right. split; auto. exists t. split; auto. eapply Permutation_in; eauto.
      * unfold W'. left. rewrite (upd_other _ _ l) by auto. rewrite upd_same, filter_app. cbn [filter watches_ref].
        rewrite Nat.eqb_refl, app_length. cbn [length].
        enough (Z : filter (watches_ref r) (W x) = []) by (rewrite Z; reflexivity).
        destruct (filter (watches_ref r) (W x)) as [|w ws] eqn:Fx; auto. exfalso.
        assert (I : In w (filter (watches_ref r) (W x))) by (rewrite Fx; now left).
        apply filter_In in I as [I J]. destruct w as [|y q]; cbn in J; [discriminate|]. apply Nat.eqb_eq in J as ->.
        destruct (W1 x y r Rx) as (d & D' & Hd). { now rewrite upd_other. }
        rewrite E in D'. inversion D'; subst d. destruct (Hd G) as (K1 & _). destruct (Wc x K1); congruence.
    + rewrite upd_other in D by auto. pose proof (W2 q d k D Gd Wk) as Cn. unfold W', upd in *.
      destruct (k =? l); [rewrite filter_drop in Cn; auto; cbn; apply Nat.eqb_neq; auto|].
      destruct (Nat.eqb_spec k x) as [->|]; auto. rewrite filter_app. cbn [filter watches_ref].
      destruct (Nat.eqb_spec r q); [congruence|]. now rewrite app_nil_r.
  - assert (X : forall k w, bcount w (W' k) = bcount w (upd W l (A ++ WLarge b r :: B) k)).
    { intros k w. unfold W', upd. destruct (k =? l); [now rewrite !bcount_app, bcount_large|].
      destruct (Nat.eqb_spec k x) as [->|]; auto. rewrite bcount_app, bcount_large. cbn. lia. }
    intros y z. now rewrite !X.
  - intros y z I. apply W4. now apply Bin.
Qed.

(** ** The state of the loop over the watches *)
Definition done_ok (s : solver) (w : watch) : Prop :=
  match w with
  | WBinary b => values s b = Some true
  | WLarge _ r => forall c, arena s r = Some c -> c_garbage c = false ->
      exists t, In t (c_lits c) /\ values s t = Some true
  end.

Record pwi (orig : list (list lit)) (n : lit) (m : nat) (kept ws : list watch) (delayed : list (lit * watch))
    (s : solver) : Prop := {
  pw_core : core orig (length (trail s)) (vst n (rev kept ++ ws) delayed s);
  pw_pinv : pinv m (vst n (rev kept ++ ws) delayed s);
  pw_false : values s n = Some false;
  pw_in : In (neg n) (trail s);
  pw_pos : tpos s n = m;
  pw_T : T s (level s) <= m;
  pw_kept : forall w, In w kept -> done_ok s w;
  pw_del : forall e, In e delayed -> fst e <> n }.

Lemma vst_assign : forall n L d lvl r l s, vst n L d (do_assign lvl r l s) = do_assign lvl r l (vst n L d s).
Proof. reflexivity. Qed.
Lemma vinv_vst : forall n L d s, vinv (vst n L d s) -> vinv s.
Proof. intros n L d s [A B C D E F G H I J]. constructor; auto. Qed.
Lemma finv_vst : forall n L d s, finv (vst n L d s) -> finv s.
Proof. intros n L d s [A B C D E F]. constructor; auto. Qed.

Lemma done_grows : forall s s' w, grows s s' -> done_ok s w -> done_ok s' w.
Proof.
  intros s s' w G H. destruct w as [b|b r]; cbn in *.
  - now apply (gr_values _ _ G) in H.
  - intros c A Gc. pose proof (gr_arena _ _ G r) as Si. rewrite A in Si.
    destruct (arena s r) as [d|] eqn:D; cbn in Si; [|tauto]. destruct Si as (G1 & _ & P).
    destruct (H d eq_refl ltac:(congruence)) as (t & I & Tt). exists t. split.
    + eapply Permutation_in; eauto.
    + now apply (gr_values _ _ G) in Tt.
Qed.

Section Loop.
Variables (orig : list (list lit)) (n : lit) (m : nat).

Lemma pwi_keep : forall kept w ws d s, pwi orig n m kept (w :: ws) d s -> done_ok s w ->
  pwi orig n m (w :: kept) ws d s.
Proof.
  intros kept w ws d s [A B C D E F G H] K. constructor; auto.
  - cbn [rev]. rewrite <- app_assoc. exact A.
  - cbn [rev]. rewrite <- app_assoc. exact B.
  - intros x [<-|X]; auto.
Qed.

(** Literals assigned while propagating. *)
Lemma pwi_assign : forall kept ws d s lvl r l, pwi orig n m kept ws d s ->
  core orig (length (trail (do_assign lvl r l s))) (do_assign lvl r l (vst n (rev kept ++ ws) d s)) ->
  values s l = None -> dom s l -> pwi orig n m kept ws d (do_assign lvl r l s).
Proof.
  intros kept ws d s lvl r l Pw Co N R. pose proof Pw as [A B C D E F G H].
  pose proof (vinv_vst _ _ _ _ (co_v _ _ _ A)) as V. pose proof (finv_vst _ _ _ _ (co_f _ _ _ A)) as Fi.
  pose proof (grows_assign lvl r l s V N) as Gr.
  assert (M : m < length (trail s)) by (rewrite <- E, <- tpos_neg; now apply tpos_lt).
  constructor; auto.
  - rewrite vst_assign. apply pinv_assign; auto; try apply A. change (m <= length (trail s)). lia.
  - now apply (gr_values _ _ Gr).
  - apply da_in. now left.
  - destruct (gr_values _ _ Gr n false C) as (_ & _ & P). congruence.
  - change (level (do_assign lvl r l s)) with (level s). rewrite da_T; auto.
  - intros w W. eapply done_grows; eauto.
Qed.

Lemma rearranged_vst : forall W L d s, rearranged W (arena s) (vst n L d s) = set_watches W s.
Proof. intros W L d s. destruct s; reflexivity. Qed.

Lemma core_vst : forall p L L' d s, core orig p (vst n L d s) ->
  winv (rooted s) (vars s) (active s) (arena s) (upd (pd d (watches s)) n L') -> filter is_bin L' = filter is_bin L ->
  core orig p (vst n L' d s).
Proof.
  intros p L L' d s Co W Fb. unfold vst at 1. rewrite <- (rearranged_vst _ L d). apply core_rearranged; auto.
  - intros r. apply clause_sim_refl.
  - intros l. cbn. unfold upd. destruct (l =? n); auto.
Qed.

Lemma pinv_bins : forall W W' s lim, (forall l, filter is_bin (W' l) = filter is_bin (W l)) ->
  pinv lim (set_watches W s) -> pinv lim (set_watches W' s).
Proof.
  intros W W' s lim Fb [A B]. constructor; auto.
  intros a b I. apply A. cbn in *. rewrite in_bins, Fb, <- in_bins in I. auto.
Qed.

Lemma pwi_drop : forall kept b r ws d s c, pwi orig n m kept (WLarge b r :: ws) d s ->
  arena s r = Some c -> c_garbage c = true -> pwi orig n m kept ws d s.
Proof.
  intros kept b r ws d s c [A B C D E F G H] Ar Gc. constructor; auto.
  - apply core_vst with (L := rev kept ++ WLarge b r :: ws); auto.
    + eapply winv_drop; eauto. apply A.
    + symmetry. now apply filter_drop.
  - eapply pinv_bins; [|exact B]. intros l. unfold upd. destruct (l =? n); auto. symmetry. now apply filter_drop.
Qed.
Lemma pwi_block : forall kept b r ws d s c b', pwi orig n m kept (WLarge b r :: ws) d s ->
  arena s r = Some c -> c_garbage c = false -> In b' (c_lits c) -> b' <> n ->
  pwi orig n m kept (WLarge b' r :: ws) d s.
Proof.
  intros kept b r ws d s c b' [A B C D E F G H] Ar Gc Ib Nb. constructor; auto.
  - apply core_vst with (L := rev kept ++ WLarge b r :: ws); auto.
    + eapply winv_block; eauto. apply A.
    + rewrite !filter_drop; auto.
  - eapply pinv_bins; [|exact B]. intros l. unfold upd. destruct (l =? n); auto. rewrite !filter_drop; auto.
Qed.

Lemma other_watch_some : forall l0 l1 x, other_watch l0 l1 n = Some x ->
  (l0 = n /\ l1 = x) \/ (l1 = n /\ l0 = x).
Proof.
  intros l0 l1 x H. unfold other_watch in H. destruct (Nat.eqb_spec l0 n) as [->|].
  - inversion H; auto.
  - destruct (Nat.eqb_spec l1 n) as [->|]; inversion H; auto.
Qed.
Lemma watching_iff : forall c l0 l1 rest, c_lits c = l0 :: l1 :: rest -> forall k, watching k c <-> k = l0 \/ k = l1.
Proof.
  intros c l0 l1 rest E k. unfold watching. rewrite E. cbn. split.
  - intros [H|H]; inversion H; auto.
  - intros [->| ->]; auto.
Qed.

Lemma pwi_replace : forall kept b r ws d s c l0 l1 rest other i c', pwi orig n m kept (WLarge b r :: ws) d s ->
  arena s r = Some c -> c_garbage c = false -> c_lits c = l0 :: l1 :: rest ->
  other_watch l0 l1 n = Some other -> values s other <> Some true ->
  i < length rest -> values s (nth i rest 0) <> Some false ->
  c_garbage c' = false -> c_redundant c' = c_redundant c ->
  c_lits c' = other :: nth i rest 0 :: lset rest i n ->
  pwi orig n m kept ws (d ++ [(nth i rest 0, WLarge other r)]) (set_clause r (Some c') s).
Proof.
  intros kept b r ws d s c l0 l1 rest other i c' [A B C D E F G H] Ar Gc Ec Ow Nt Hi Nf Gc' Rc' Ec'.
  set (x := nth i rest 0) in *.
  pose proof (co_c _ _ _ A) as Ci.
  assert (Nd : NoDup (l0 :: l1 :: rest)) by (rewrite <- Ec; apply (ci_nodup _ Ci r c Ar Gc)).
  assert (P0 : Permutation (l0 :: l1 :: rest) (other :: n :: rest)).
  { destruct (other_watch_some _ _ _ Ow) as [[-> ->]|[-> ->]]; [apply perm_swap|reflexivity]. }
  assert (P : Permutation (c_lits c) (c_lits c')).
  { rewrite Ec, Ec'. eapply perm_trans; [exact P0|]. apply perm_skip. apply lset_perm; auto. now apply nth_indep. }
  pose proof (Permutation_NoDup P0 Nd) as Nd'. inversion Nd' as [|? ? N1 N2]; subst. inversion N2 as [|? ? N3 N4]; subst.
  assert (Ix : In x rest) by (apply nth_In; auto).
  assert (Nxo : x <> other) by (intros ->; apply N1; now right).
  assert (Nxn : x <> n) by (intros ->; auto).
  assert (Non : other <> n) by (intros ->; apply N1; now left).
  assert (Wc : forall k, watching k c <-> k = n \/ k = other).
  { intros k. rewrite (watching_iff c l0 l1 rest Ec k). destruct (other_watch_some _ _ _ Ow) as [[-> ->]|[-> ->]]; tauto. }
  assert (Wc' : forall k, watching k c' <-> k = other \/ k = x).
  { intros k. apply (watching_iff c' other x (lset rest i n) Ec'). }
  assert (St : vst n (rev kept ++ ws) (d ++ [(x, WLarge other r)]) (set_clause r (Some c') s) =
    rearranged (upd (upd (pd d (watches s)) x (pd d (watches s) x ++ [WLarge other r])) n (rev kept ++ ws))
      (upd (arena s) r (Some c')) (vst n (rev kept ++ WLarge b r :: ws) d s)).
  { unfold vst at 1. cbn [set_clause set_arena watches]. rewrite pd_snoc. cbn [fst snd]. destruct s; reflexivity. }
  assert (Bins : forall l, filter is_bin (upd (upd (pd d (watches s)) x (pd d (watches s) x ++ [WLarge other r])) n (rev kept ++ ws) l) =
    filter is_bin (upd (pd d (watches s)) n (rev kept ++ WLarge b r :: ws) l)).
  { intros l. unfold upd. destruct (l =? n); [now rewrite filter_drop|]. destruct (Nat.eqb_spec l x) as [->|]; auto.
    rewrite filter_app. cbn. apply app_nil_r. }
  constructor; auto.
  - rewrite St. apply core_rearranged; auto.
    + intros q. cbn. unfold upd. destruct (Nat.eqb_spec q r) as [->|]; [|apply clause_sim_refl].
      rewrite Ar. cbn. splits; auto. congruence.
    + cbn [vst set_watches vars]. eapply winv_replace; eauto.
      * apply A.
      * apply Wc. now left.
      * apply Wc. now right.
      * intros k K. now apply Wc.
      * rewrite Ec'. right. now left.
      * apply (ci_range _ Ci r c x Ar Gc). rewrite Ec. eapply Permutation_in; [apply Permutation_sym, P0|]. right. now right.
    + intros l q c0 I Rl Aq Ok. cbn in I, Aq. unfold upd. destruct (Nat.eqb_spec q r) as [->|]; auto. exfalso.
      rewrite Ar in Aq. inversion Aq; subst c0. destruct Ok as (_ & Wl & _). apply Wc in Wl.
      pose proof (ti_true _ (co_v _ _ _ A) l I) as Tl. cbn in Tl. destruct Wl as [->| ->]; congruence.
  - rewrite St. destruct B as [B1 B2]. constructor.
    + intros y z I. cbn in I. rewrite in_bins, Bins, <- in_bins in I. now apply B1.
    + intros q c0 w y Aq Gq Ww Wy Nwy. cbn in Aq. unfold upd in Aq. destruct (Nat.eqb_spec q r) as [->|].
      * inversion Aq; subst c0. apply Wc' in Ww. apply Wc' in Wy. split.
        2:{ intros Fw Bw B0. destruct Ww as [->| ->]; [|cbn in Fw; congruence].
            destruct (B2 r c other n Ar Gc) as [_ U]; auto; try (apply Wc; auto).
            destruct (U Fw Bw B0) as (t & It & Tt). exists t. split; auto. eapply Permutation_in; eauto. }
        intros Fw Bw Fy By. exfalso. cbn in Fw, Fy. destruct Ww as [->| ->]; [|congruence]. destruct Wy as [->| ->]; congruence.
      * now apply (B2 q c0 w y).
  - intros w Ww. eapply done_grows; [|apply G, Ww]. eapply grows_clause; eauto. cbn. splits; auto. congruence.
  - intros e I. apply in_app_or in I as [I|[<-|[]]]; auto.
Qed.

(** ** The loop over the watches *)
Definition pw_post (s : solver) (res : solver * list watch * list (lit * watch) * option conflict) : Prop :=
  let '(s', L, d, confl) := res in
  core orig (length (trail s')) (vst n L d s') /\ pinv m (vst n L d s') /\ grows s s' /\
  (forall e, In e d -> fst e <> n) /\
  match confl with
  | None => forall w, In w L -> done_ok s' w
  | Some c => conflict_ok (vst n L d s') c
  end.

Lemma pw_post_trans : forall s s' res, grows s s' -> pw_post s' res -> pw_post s res.
Proof.
  intros s s' [[[s2 L] d] c] G (A & B & C & D). unfold pw_post. splits; try tauto. eapply grows_trans; eauto.
Qed.

(** Assigning does not depend on the watches. *)
Lemma fast_binary_assign_watches : forall o lvl l k W s,
  fast_binary_assign o lvl l k (set_watches W s) = obind (fast_binary_assign o lvl l k s) (fun s => Ret (set_watches W s)).
Proof.
  intros o lvl l k W s. unfold fast_binary_assign, assign.
  change (is_unassigned (set_watches W s)) with (is_unassigned s).
  change (unassigned (set_watches W s)) with (unassigned s).
  change (bigbig (set_watches W s)) with (bigbig s). change (reas (set_watches W s)) with (reas s).
  destruct (is_unassigned s l && is_unassigned s (neg l)); [|reflexivity]. cbn [oassert obind].
  destruct (0 <? unassigned s); [|reflexivity]. cbn [oassert obind].
  destruct (lvl =? 0); reflexivity.
Qed.

Lemma fast_binary_assign_vst : forall o lvl l k L d s,
  fast_binary_assign o lvl l k (vst n L d s) = obind (fast_binary_assign o lvl l k s) (fun s1 => Ret (set_watches (upd (pd d (watches s)) n L) s1)).
Proof. intros. apply fast_binary_assign_watches. Qed.

Lemma propagate_watches_spec : forall o ws kept d s, pwi orig n m kept ws d s ->
  wp (propagate_watches o n (lev s n) ws kept d s) (pw_post s).
Proof.
  intros o. induction ws as [|w ws IH]; intros kept d s Pw; cbn [propagate_watches].
  { apply wp_ret. destruct Pw as [A B C D E F G H]. unfold pw_post. rewrite app_nil_r in *. splits; auto.
    - apply grows_refl.
    - intros w I. apply in_rev in I. auto. }
  pose proof Pw as [A B C D E F G H].
  pose proof (vinv_vst _ _ _ _ (co_v _ _ _ A)) as V. pose proof (finv_vst _ _ _ _ (co_f _ _ _ A)) as Fi.
  pose proof (co_w _ _ _ A) as Wi. pose proof (co_c _ _ _ A) as Ci. cbn [vst set_watches vars arena watches] in Wi.
  assert (Iw : In w (upd (pd d (watches s)) n (rev kept ++ w :: ws) n)) by (rewrite upd_same; apply in_mid).
  assert (Rn : n < 2 * vars s) by (apply (ti_range _ V); congruence).
  destruct (is_true s (watch_head w)) eqn:Tw.
  { (* the blocking literal is true *)
    apply is_true_spec in Tw. apply IH. apply pwi_keep; auto.
    destruct w as [other|b r]; cbn in *; auto. intros c Ar Gc.
    destruct (wi_large _ _ _ _ _ Wi n b r Rn Iw) as (c' & Ar' & Hc). rewrite Ar in Ar'. inversion Ar'; subst c'.
    exists b. split; auto. now apply Hc. }
  assert (Ntw : values s (watch_head w) <> Some true) by (intros X; apply is_true_spec in X; congruence).
  destruct w as [other|b r].
  - cbn [watch_head] in *.
    destruct (wi_bin _ _ _ _ _ Wi _ _ Iw) as (Nn & _ & Ro).
    destruct (is_false s other) eqn:Fo.
    + (* binary conflict *)
      apply is_false_spec in Fo. apply wp_ret. unfold pw_post. splits; auto; [apply grows_refl|].
      unfold conflict_ok. splits; auto.
    + (* binary implication *)
      assert (N : values s other = None).
      { destruct (values s other) as [[]|] eqn:X; auto; [congruence|]. apply is_false_spec in X. congruence. }
      pose proof (fast_binary_assign_spec orig o (vst n (rev kept ++ WBinary other :: ws) d s) other n A) as Sp.
      specialize (Sp ltac:(apply (wi_sym _ _ _ _ _ Wi); auto) C N Ro).
      rewrite fast_binary_assign_vst in Sp.
      change (lev (vst n (rev kept ++ WBinary other :: ws) d s) n) with (lev s n) in Sp.
      apply wp_bind. destruct (fast_binary_assign o (lev s n) other n s) as [s'| | |] eqn:Ef; [|destruct Sp|destruct Sp|destruct Sp].
      cbn [obind wp] in Sp. destruct Sp as (x & Es & Ur & Co).
      assert (Es' : s' = do_assign (lev s n) x other s).
      { unfold fast_binary_assign in Ef. rewrite assign_eq in Ef by auto. inversion Ef as [Q]. clear Ef.
        rewrite <- Q in Es. rewrite <- vst_assign in Es.
        assert (forall W W' a b, set_watches W a = set_watches W' b -> watches a = watches b -> a = b).
        { intros W W' [] [] X Y. cbn in *. inversion X; subst. reflexivity. }
        eapply H0; [exact Es|reflexivity]. }
      subst s'. cbn [wp].
      assert (Pw' : pwi orig n m kept (WBinary other :: ws) d (do_assign (lev s n) x other s)).
      { apply pwi_assign; auto. }
      apply pwi_keep in Pw'.
      * specialize (IH _ _ _ Pw'). rewrite da_lev in IH by (apply (da_old s other); auto; congruence).
        eapply wp_mono; [exact IH|]. intros res Hr. eapply pw_post_trans; [|exact Hr]. now apply grows_assign.
      * apply da_true_l.
  - (* large clause *)
    destruct (wi_large _ _ _ _ _ Wi n b r Rn Iw) as (c & Ar & Hc). rewrite Ar.
    destruct (c_garbage c) eqn:Gc.
    { apply IH. eapply pwi_drop; eauto. }
    destruct (Hc eq_refl) as (Wn & Ib & Nb).
    pose proof (ci_len _ Ci r c Ar Gc) as Len. pose proof (ci_nodup _ Ci r c Ar Gc) as Nd.
    destruct (c_lits c) as [|l0 [|l1 rest]] eqn:Ec; cbn in Len; try lia.
    pose proof (watching_iff c l0 l1 rest Ec) as Wif.
    destruct (other_watch l0 l1 n) as [other|] eqn:Ow.
    2:{ exfalso. unfold other_watch in Ow. apply Wif in Wn as [->| ->]; rewrite Nat.eqb_refl in Ow; [discriminate|].
        destruct (l0 =? l1); discriminate. }
    destruct (other_watch_some _ _ _ Ow) as [Hw|Hw].
    all: assert (Non : other <> n) by (destruct Hw as [Hw1 Hw2]; subst; inversion Nd as [|? ? X Y]; subst; intros ->; apply X; now left).
    all: assert (Wo : watching other c) by (apply Wif; destruct Hw as [Hw1 Hw2]; subst; auto).
    all: assert (Io : In other (c_lits c)) by (destruct Wo as [Wo|Wo]; eapply nth_error_In; eauto).
    all: destruct (is_true s other) eqn:To.
    all: try (apply is_true_spec in To; apply IH; apply pwi_keep; [eapply pwi_block; eauto|];
      cbn; intros c' Ar' Gc'; rewrite Ar in Ar'; inversion Ar'; subst c'; exists other; auto).
    all: assert (Nt : values s other <> Some true) by (intros X; apply is_true_spec in X; congruence).
    all: destruct (search_replacement s rest (c_searched c)) as [i|] eqn:Sr.
    all: try (apply search_replacement_some in Sr as [Hi Nf];
      match goal with |- wp (propagate_watches _ _ _ _ _ _ (set_clause _ (Some ?c') _)) _ => set (c2 := c') end;
      change (lev s n) with (lev (set_clause r (Some c2) s) n);
      eapply wp_mono; [apply IH; eapply pwi_replace with (c := c) (c' := c2); eauto|];
      intros res Hr; eapply pw_post_trans; [|exact Hr]; eapply grows_clause; eauto; cbn; splits; auto; rewrite Ec;
      eapply perm_trans with (l' := other :: n :: rest);
      [destruct Hw as [Hw1 Hw2]; subst; try apply perm_swap; reflexivity|];
      apply perm_skip, lset_perm; auto; now apply nth_indep).
    all: pose proof (search_replacement_none _ _ _ Sr) as Fr.
    all: destruct (is_false s other) eqn:Fo.
    all: try (apply is_false_spec in Fo; apply wp_ret; unfold pw_post; splits; auto; [apply grows_refl|];
      unfold conflict_ok; exists c; splits; auto; rewrite Ec; destruct Hw as [Hw1 Hw2]; subst;
      intros l I; change (values s l = Some false); destruct I as [<-|[<-|I]]; auto).
    all: assert (N : values s other = None)
      by (destruct (values s other) as [[]|] eqn:X; [congruence|apply is_false_spec in X; congruence|reflexivity]).
    all: assert (Ff : forall k, In k (c_lits c) -> k <> other -> values s k = Some false)
      by (rewrite Ec; destruct Hw as [Hw1 Hw2]; subst; intros k [<-|[<-|I]] K; auto; congruence).
    all: set (vs := vst n (rev kept ++ WLarge b r :: ws) d s) in *.
    all: assert (Fo' : forcing vs r c other).
    all: try (constructor; auto; intros w k Ww Nw Kl Bf; exfalso;
      assert (w = n) by (apply Wif in Ww; destruct Hw as [Hw1 Hw2]; subst; destruct Ww; congruence); subst w;
      specialize (Bf D); change (tpos s n < T s (S k)) in Bf;
      pose proof (ti_Tmono _ Fi (S k) (level s) Kl); lia).
    all: destruct (assign_reference_spec orig vs r c other A Fo' N) as (Ea & Co & Lv).
    all: assert (Ea' : assign_reference other r s = Ret (do_assign (assignment_level s other (c_lits c)) (RClause r) other s))
      by (unfold assign_reference; rewrite Ar; apply assign_eq; auto; eapply (ci_range _ Ci r c); eauto).
    all: rewrite Ea'; cbn [obind].
    all: assert (Pw' : pwi orig n m kept (WLarge b r :: ws) d (do_assign (assignment_level s other (c_lits c)) (RClause r) other s))
      by (apply pwi_assign; auto; eapply (ci_range _ Ci r c); eauto).
    all: apply pwi_keep in Pw';
      [|intros c' Ar' Gc'; cbn in Ar'; rewrite Ar in Ar'; inversion Ar'; subst c'; exists other; split; auto; apply da_true_l].
    all: specialize (IH _ _ _ Pw'); rewrite da_lev in IH by (apply (da_old s other); auto; congruence).
    all: eapply wp_mono; [exact IH|]; intros res Hr; eapply pw_post_trans; [|exact Hr]; now apply grows_assign.
Qed.
End Loop.

(** ** Propagating a literal *)
Lemma winv_ext : forall R n Av ar W W', (forall l, W l = W' l) -> winv R n Av ar W -> winv R n Av ar W'.
Proof.
  intros R n Av ar W W' E [A B C D]. constructor.
  - intros l b r Rl I. rewrite <- E in I. eauto.
  - intros r c l Ar G Wl. rewrite <- E. eauto.
  - intros a b. now rewrite <- !E.
  - intros a b I. rewrite <- E in I. auto.
Qed.
Lemma core_ext : forall orig p s W W', (forall l, W l = W' l) -> core orig p (set_watches W s) -> core orig p (set_watches W' s).
Proof.
  intros orig p s W W' E Co. assert (R : set_watches W' s = rearranged W' (arena s) (set_watches W s)) by (destruct s; reflexivity).
  rewrite R. apply core_rearranged; auto.
  - intros r. apply clause_sim_refl.
  - eapply winv_ext; [exact E|]. apply Co.
  - intros l. cbn. now rewrite E.
Qed.
Lemma pinv_ext : forall lim s W W', (forall l, W l = W' l) -> pinv lim (set_watches W s) -> pinv lim (set_watches W' s).
Proof. intros lim s W W' E. apply pinv_bins. intros l. now rewrite E. Qed.
Lemma done_pinv : forall orig p s n m, core orig p s -> pinv m s -> nth_error (trail s) m = Some (neg n) ->
  T s (level s) <= m -> (forall w, In w (watches s n) -> done_ok s w) -> pinv (S m) s.
Proof.
  intros orig p s n m Co [Pb Pl] Em Tm Done.
  pose proof (co_v _ _ _ Co) as V. pose proof (co_f _ _ _ Co) as F. pose proof (co_w _ _ _ Co) as Wi.
  assert (Bf : forall w, w <> n -> before s w (S m) -> before s w m).
  { intros w N B I. specialize (B I). destruct (Nat.eq_dec (tpos s w) m) as [E|]; [|lia]. exfalso.
    pose proof (trail_nth s (neg w) V I) as X. rewrite tpos_neg, E, Em in X. inversion X as [Y]. apply neg_inj in Y. congruence. }
  assert (In_n : In (neg n) (trail s)) by (eapply nth_error_In; eauto).
  assert (Tn : tpos s n = m) by (rewrite <- tpos_neg; now apply (ti_pos _ V)).
  assert (Rel : forall k, (k = level s \/ before s n (T s (S k))) -> level s <= k).
  { intros k [->|B]; auto. specialize (B In_n). destruct (le_lt_dec (level s) k); auto. exfalso.
    pose proof (ti_Tmono _ F (S k) (level s) ltac:(lia)). lia. }
  constructor.
  - intros a b I. split.
    2:{ intros Fa Ba B1. destruct (Nat.eq_dec a n) as [->|Na]; [|destruct (Pb a b I) as [_ U]; apply U; auto].
        specialize (Done _ I). cbn in Done. exists b. splits; auto; [right; now left|]. pose proof (true_level s b V F Done).
        pose proof (Rel 0 ltac:(auto)). lia. }
    intros Fa Ba Fb Bb k K.
    destruct (Nat.eq_dec a n) as [->|Na].
    { specialize (Done _ I). cbn in Done. congruence. }
    destruct (Nat.eq_dec b n) as [->|Nb].
    { apply (wi_sym _ _ _ _ _ Wi) in I. specialize (Done _ I). cbn in Done. congruence. }
    apply (Pb a b I); auto.
  - intros r c w x A G Ww Wx N.
    assert (D : watching n c -> exists t, In t (c_lits c) /\ values s t = Some true).
    { intros Wn. destruct (wi_count _ _ _ _ _ Wi r c n A G Wn) as [C1|(_ & t & It & Tt & _)]; [|now exists t].
      destruct (filter (watches_ref r) (watches s n)) as [|y ys] eqn:E; [discriminate|].
      assert (Iy : In y (filter (watches_ref r) (watches s n))) by (rewrite E; now left).
      apply filter_In in Iy as [Iy Ry]. destruct y as [|b q]; cbn in Ry; [discriminate|]. apply Nat.eqb_eq in Ry as ->.
      specialize (Done _ Iy). cbn in Done. eauto. }
    split.
    2:{ intros Fw Bw B1. destruct (Nat.eq_dec w n) as [->|Na]; [|destruct (Pl r c w x A G Ww Wx N) as [_ U]; apply U; auto].
        destruct (D Ww) as (t & It & Tt). exists t. splits; auto. pose proof (true_level s t V F Tt).
        pose proof (Rel 0 ltac:(auto)). lia. }
    intros Fw Bw Fx Bx k K.
    destruct (Nat.eq_dec w n) as [->|Nw].
    { destruct (D Ww) as (t & It & Tt). exists t. splits; auto. pose proof (true_level s t V F Tt).
      pose proof (Rel k ltac:(tauto)). lia. }
    destruct (Nat.eq_dec x n) as [->|Nx].
    { destruct (D Wx) as (t & It & Tt). exists t. splits; auto. pose proof (true_level s t V F Tt).
      pose proof (Rel k ltac:(tauto)). lia. }
    apply (Pl r c w x A G Ww Wx N); auto.
Qed.

Lemma propagate_literal_spec : forall orig o l s m, core orig (length (trail s)) s -> pinv m s ->
  nth_error (trail s) m = Some l -> T s (level s) <= m ->
  wp (propagate_literal o l s) (fun '(s', confl) => core orig (length (trail s')) s' /\ grows s s' /\
    match confl with None => pinv (S m) s' | Some c => pinv m s' /\ conflict_ok s' c end).
Proof.
  intros orig o l s m Co P Em Tm. unfold propagate_literal.
  pose proof (co_v _ _ _ Co) as V.
  assert (Il : In l (trail s)) by (eapply nth_error_In; eauto).
  apply wp_bind, wp_assert. { apply is_true_spec. now apply (ti_true _ V). }
  apply wp_bind. set (n := neg l).
  assert (Pw : pwi orig n m [] (watches s n) [] s).
  { assert (E : forall k, watches s k = upd (watches s) n (watches s n) k).
    { intros k. unfold upd. destruct (Nat.eqb_spec k n) as [->|]; reflexivity. }
    assert (Es : s = set_watches (watches s) s) by (destruct s; reflexivity).
    constructor; cbn [rev app].
    - unfold vst. cbn [pd fold_left]. apply core_ext with (W := watches s); auto. now rewrite <- Es.
    - unfold vst. cbn [pd fold_left]. apply pinv_ext with (W := watches s); auto. now rewrite <- Es.
    - apply false_true; auto. unfold n. rewrite neg_neg. now apply (ti_true _ V).
    - unfold n. now rewrite neg_neg.
    - unfold n. rewrite tpos_neg. now apply (ti_pos _ V).
    - exact Tm.
    - intros w [].
    - intros e []. }
  pose proof (propagate_watches_spec orig n m o _ _ _ _ Pw) as Sp.
  unfold n in Sp at 2. rewrite lev_neg in Sp.
  eapply wp_mono; [exact Sp|]. clear Sp. intros [[[s1 L] d] confl] (Co1 & P1 & Gr & Del & Cf).
  apply wp_ret. rewrite push_delayed_eq. cbn [set_watches watches].
  change (set_watches (pd d (upd (watches s1) n L)) (set_watches (upd (watches s1) n L) s1))
    with (set_watches (pd d (upd (watches s1) n L)) s1).
  assert (E : forall k, upd (pd d (watches s1)) n L k = pd d (upd (watches s1) n L) k).
  { intros k. symmetry. now apply pd_upd. }
  assert (Co2 : core orig (length (trail s1)) (set_watches (pd d (upd (watches s1) n L)) s1)) by (eapply core_ext; eauto).
  assert (P2 : pinv m (set_watches (pd d (upd (watches s1) n L)) s1)) by (eapply pinv_ext; eauto).
  splits; auto.
  - eapply grows_trans; [exact Gr|]. apply grows_watches.
  - destruct confl as [c|].
    + split; auto. destruct c as [a b|r]; auto. destruct Cf as (I & Fa & Fb). cbn in *. splits; auto. now rewrite <- E.
    + apply (done_pinv orig (length (trail s1)) _ n m Co2 P2); auto.
      * destruct (gr_trail _ _ Gr) as [t Et]. cbn. rewrite Et. unfold n. rewrite neg_neg. rewrite nth_error_app1; auto.
        apply nth_error_Some. congruence.
      * change (T s1 (level s1) <= m). rewrite (gr_level _ _ Gr). unfold T. rewrite (gr_frames _ _ Gr).
        destruct (gr_trail _ _ Gr) as [t Et]. rewrite Et.
        rewrite (nth_indep _ _ (length (trail s))); [exact Tm|].
        rewrite map_length, (ti_frames _ (co_f _ _ _ Co)). lia.
      * cbn. intros w I. rewrite <- E, upd_same in I. now apply Cf.
Qed.

(** ** States that agree on the assignment and the clauses *)
Record agree (s s' : solver) : Prop := {
  ag_vars : vars s' = vars s; ag_active : active s' = active s; ag_values : values s' = values s; ag_assigned : assigned s' = assigned s;
  ag_trail : trail s' = trail s; ag_level : level s' = level s; ag_frames : frames s' = frames s;
  ag_arena : arena s' = arena s; ag_next : next_ref s' = next_ref s; ag_watches : watches s' = watches s }.
Lemma agree_T : forall s s' k, agree s s' -> T s' k = T s k.
Proof. intros s s' k A. unfold T. now rewrite (ag_frames _ _ A), (ag_trail _ _ A). Qed.
Lemma agree_lev : forall s s' l, agree s s' -> lev s' l = lev s l.
Proof. intros s s' l A. unfold lev. now rewrite (ag_assigned _ _ A). Qed.
Lemma agree_tpos : forall s s' l, agree s s' -> tpos s' l = tpos s l.
Proof. intros s s' l A. unfold tpos. now rewrite (ag_assigned _ _ A). Qed.
Lemma agree_before : forall s s' l n, agree s s' -> before s' l n <-> before s l n.
Proof. intros s s' l n A. unfold before. rewrite (agree_tpos _ _ _ A), (ag_trail _ _ A). tauto. Qed.
Lemma agree_bpath : forall s s' l o, agree s s' -> bpath s l o -> bpath s' l o.
Proof.
  intros s s' l o A P. induction P as [l o I|l m o I Fm E P IH].
  - apply bpath_one. now rewrite (ag_watches _ _ A).
  - apply bpath_step with m; auto.
    + now rewrite (ag_watches _ _ A).
    + now rewrite (ag_values _ _ A).
    + now rewrite !(agree_lev _ _ _ A).
Qed.
Lemma agree_reason : forall s s' l, agree s s' -> reason_ok s l -> reason_ok s' l.
Proof.
  intros s s' l A H. unfold reason_ok in *.
  replace (reas s' l) with (reas s l) by (unfold reas; now rewrite (ag_assigned _ _ A)).
  destruct (reas s l) as [| |o|r]; auto.
  - now rewrite (agree_tpos _ _ _ A), (agree_lev _ _ _ A), (agree_T _ _ _ A).
  - destruct H as (B & C & D & P). rewrite (ag_values _ _ A), !(agree_lev _ _ _ A), !(agree_tpos _ _ _ A).
    splits; auto. eapply agree_bpath; eauto.
  - destruct H as (c & Ar & G & W & F & K & S). exists c. rewrite (ag_arena _ _ A). split; auto. unfold reason_clause_ok. splits; auto.
    + intros k I N. rewrite (ag_values _ _ A), !(agree_lev _ _ _ A), !(agree_tpos _ _ _ A). auto.
    + destruct K as (k & I & N & E). exists k. rewrite !(agree_lev _ _ _ A). auto.
    + intros w k Ww N L B. rewrite (agree_lev _ _ _ A). rewrite (ag_level _ _ A) in L.
      rewrite (agree_before _ _ _ _ A), (agree_T _ _ _ A) in B. eauto.
Qed.
Lemma agree_rinv : forall p s s', agree s s' -> rinv p s -> rinv p s'.
Proof.
  intros p s s' A R l I L H. rewrite (ag_trail _ _ A) in I.
  rewrite (agree_lev _ _ _ A) in L. rewrite (agree_lev _ _ _ A), (agree_tpos _ _ _ A), (ag_level _ _ A) in H.
  eapply agree_reason; eauto.
Qed.
Lemma agree_pinv : forall lim s s', agree s s' -> pinv lim s -> pinv lim s'.
Proof.
  intros lim s s' A [B C].
  assert (X : forall c w x, watched_ok s lim c w x -> watched_ok s' lim c w x).
  { intros c w x [H U]. split.
    2:{ intros Fw Bw B1. rewrite (ag_values _ _ A) in Fw. apply (agree_before _ _ _ _ A) in Bw. apply (agree_before _ _ _ _ A) in B1.
        rewrite (agree_T _ _ _ A) in B1. destruct (U Fw Bw B1) as (t & I & Tt & L). exists t. rewrite (ag_values _ _ A), (agree_lev _ _ _ A). auto. }
    intros Fw Bw Fx Bx k K. rewrite (ag_values _ _ A) in Fw, Fx. apply (agree_before _ _ _ _ A) in Bw. apply (agree_before _ _ _ _ A) in Bx.
    rewrite (ag_level _ _ A), (agree_before _ _ w _ A), (agree_before _ _ x _ A), (agree_T _ _ _ A) in K.
    destruct (H Fw Bw Fx Bx k K) as (t & I & Tt & L). exists t. rewrite (ag_values _ _ A), (agree_lev _ _ _ A). auto. }
  constructor.
  - intros a b I. rewrite (ag_watches _ _ A) in I. auto.
  - intros r c w x Ar. rewrite (ag_arena _ _ A) in Ar. eauto.
Qed.
Lemma agree_finv : forall s s', agree s s' -> T s (level s) <= propagate s' -> finv s -> finv s'.
Proof.
  intros s s' A P [F1 F2 F3 F4 F5 F6]. constructor.
  - now rewrite (ag_frames _ _ A), (ag_level _ _ A).
  - now rewrite (agree_T _ _ _ A).
  - intros k K. rewrite (ag_level _ _ A) in K. destruct (F3 k K) as (f & A1 & A2 & A3 & A4). exists f.
    rewrite (ag_frames _ _ A), (ag_trail _ _ A), (agree_lev _ _ _ A). splits; auto.
    unfold reas. rewrite (ag_assigned _ _ A). exact A4.
  - intros k i l. rewrite (ag_trail _ _ A), (agree_T _ _ _ A), (agree_lev _ _ _ A). eauto.
  - intros j k. rewrite !(agree_T _ _ _ A). auto.
  - rewrite (agree_T _ _ _ A), (ag_level _ _ A). auto.
Qed.
Lemma agree_refl : forall s, agree s s.
Proof. intros s. constructor; reflexivity. Qed.
Lemma agree_trans : forall a b c, agree a b -> agree b c -> agree a c.
Proof. intros a b c [] []. constructor; congruence. Qed.

(** The analysis data, the flag [iterating] and the classification of the formula do not matter. *)
Lemma core_set_an : forall orig p s a, core orig p s -> core orig p (set_an a s).
Proof.
  intros orig p s a [V F C W L R]. assert (A : agree s (set_an a s)) by (constructor; reflexivity). constructor; auto.
  - destruct V. constructor; auto.
  - destruct F. constructor; auto.
  - destruct C. constructor; auto.
  - destruct L. constructor; auto.
  - eapply agree_rinv; eauto.
Qed.
Lemma pinv_set_an : forall lim s a, pinv lim s -> pinv lim (set_an a s).
Proof. intros lim s a. apply agree_pinv. constructor; reflexivity. Qed.
Lemma core_set_iterating : forall orig p s b, core orig p s -> core orig p (set_iterating b s).
Proof.
  intros orig p s b [V F C W L R]. assert (A : agree s (set_iterating b s)) by (constructor; reflexivity). constructor; auto.
  - destruct V. constructor; auto.
  - destruct F. constructor; auto.
  - destruct C. constructor; auto.
  - destruct L. constructor; auto.
  - eapply agree_rinv; eauto.
Qed.

(** ** The propagation loop *)
Lemma set_prop_core : forall orig p s q, core orig p s -> q <= length (trail s) -> T s (level s) <= q ->
  core orig p (set_propagate q s).
Proof.
  intros orig p s q [V F C W L R] H1 H2. constructor; auto.
  - destruct V. constructor; auto.
  - destruct F. constructor; auto.
  - destruct C. constructor; auto.
  - destruct L. constructor; auto.
  - eapply agree_rinv; [|exact R]. constructor; reflexivity.
Qed.
Lemma set_prop_pinv : forall lim s q, pinv lim s -> pinv lim (set_propagate q s).
Proof. intros lim s q [A B]. constructor; auto. Qed.

Record grown (s s' : solver) : Prop := {
  gw_vars : vars s' = vars s; gw_active : active s' = active s; gw_level : level s' = level s; gw_frames : frames s' = frames s;
  gw_last : last_learned s' = last_learned s; gw_inc : inconsistent s' = inconsistent s;
  gw_iter : iterating s' = iterating s; gw_big : bigbig s' = bigbig s; gw_next : next_ref s' = next_ref s;
  gw_values : forall l b, values s l = Some b -> values s' l = Some b /\ lev s' l = lev s l /\ tpos s' l = tpos s l;
  gw_trail : exists t, trail s' = trail s ++ t;
  gw_clean : clean (an s) -> clean (an s');
  gw_arena : forall r, clause_sim (arena s r) (arena s' r) }.
Lemma grown_refl : forall s, grown s s.
Proof.
  intros s. constructor; auto.
  - exists []. now rewrite app_nil_r.
  - intros r. apply clause_sim_refl.
Qed.
Lemma grown_trans : forall a b c, grown a b -> grown b c -> grown a c.
Proof.
  intros a b c A B. destruct A, B. constructor; try congruence; auto.
  - intros l x H. destruct (gw_values0 l x H) as (A1 & A2 & A3). destruct (gw_values1 l x A1) as (B1 & B2 & B3).
    splits; congruence.
  - destruct gw_trail0 as [t E], gw_trail1 as [u E']. exists (t ++ u). rewrite E', E, app_assoc. reflexivity.
  - intros r. eapply clause_sim_trans; eauto.
Qed.
Lemma grows_grown : forall q a b, grows (set_propagate q a) b -> grown a b.
Proof. intros q a b []. constructor; auto. Qed.

Lemma grown_T : forall s s' k, finv s -> grown s s' -> k <= level s -> T s' k = T s k.
Proof.
  intros s s' k F G K. unfold T. rewrite (gw_frames _ _ G). destruct (gw_trail _ _ G) as [t ->].
  apply nth_indep. rewrite map_length, (ti_frames _ F). lia.
Qed.

Definition loop_post (orig : list (list lit)) (s : solver) (res : solver * option conflict) : Prop :=
  let '(s', confl) := res in
  core orig (length (trail s')) s' /\ grown s s' /\
  match confl with
  | None => propagate s' = length (trail s') /\ pinv (length (trail s')) s'
  | Some c => pinv (T s' (level s')) s' /\ conflict_ok s' c
  end.

Lemma propagate_loop_spec : forall orig o fuel s, core orig (length (trail s)) s -> pinv (propagate s) s ->
  vars s - propagate s < fuel -> wp (propagate_loop fuel o s) (loop_post orig s).
Proof.
  intros orig o. induction fuel as [|fuel IH]; intros s Co P Hf; [lia|]. cbn [propagate_loop].
  pose proof (co_v _ _ _ Co) as V. pose proof (co_f _ _ _ Co) as F. pose proof (ti_prop _ V) as Hp.
  destruct (nth_error (trail s) (propagate s)) as [l|] eqn:En.
  - assert (Lt : propagate s < length (trail s)) by (apply nth_error_Some; congruence).
    pose proof (trail_length s V) as Tl. pose proof (ti_Tprop _ F) as Tp.
    set (s0 := set_propagate (S (propagate s)) s).
    assert (Co0 : core orig (length (trail s0)) s0) by (apply set_prop_core; auto; lia).
    pose proof (propagate_literal_spec orig o l s0 (propagate s) Co0 (set_prop_pinv _ _ _ P) En Tp) as Sp.
    apply wp_bind. eapply wp_mono; [exact Sp|]. clear Sp. intros [s1 confl] (Co1 & Gr & Cf).
    pose proof (grows_grown _ _ _ Gr) as Gw. pose proof (gr_prop _ _ Gr) as Pr. cbn in Pr.
    destruct confl as [c|].
    + apply wp_ret. unfold loop_post. splits; auto; try apply Cf. eapply pinv_weaken; [|apply Cf].
      rewrite (gw_level _ _ Gw), (grown_T s s1); auto.
    + eapply wp_mono; [apply IH; auto|].
      * now rewrite Pr.
      * rewrite Pr, (gw_vars _ _ Gw). lia.
      * intros [s2 confl] (A & B & C). unfold loop_post. splits; auto. eapply grown_trans; eauto.
  - apply wp_ret. apply nth_error_None in En. assert (E : propagate s = length (trail s)) by lia.
    unfold loop_post. splits; auto; [apply grown_refl|]. now rewrite <- E.
Qed.

(** ** Propagation at the root level ends with an empty trail *)
Lemma core_flush : forall orig s, core orig (length (trail s)) s -> level s = 0 -> core orig 0 (flush_trail s).
Proof.
  intros orig s [V F C W L R] L0.
  assert (Lv : forall l, In l (trail s) -> lev s l = 0).
  { intros l I. pose proof (lev_level s l V F I). lia. }
  constructor; auto.
  - destruct V as [V1 V2 V3 V4 V5 V6 V7 V8 V9 V10]. constructor; auto; cbn.
    + constructor.
    + intros l [].
    + intros i l H. destruct i; discriminate.
    + intros l T0 _. change (lev s l = 0). destruct (in_dec Nat.eq_dec l (trail s)); auto.
  - destruct F as [F1 F2 F3 F4 F5 F6]. destruct (frames s) as [|f [|g fr]] eqn:Ef; rewrite L0 in F1; cbn in F1; try lia.
    assert (X : forall k, T (flush_trail s) k = 0).
    { intros [|k]; unfold T; cbn [flush_trail set_unflushed set_propagate set_trail frames trail]; rewrite Ef; cbn.
      - unfold T in F2. rewrite Ef in F2. exact F2.
      - destruct k; reflexivity. }
    constructor; auto.
    + cbn. now rewrite Ef, L0.
    + intros k K. cbn in K. lia.
    + intros k i l H. cbn in H. destruct i; discriminate.
    + intros j k _. now rewrite !X.
    + now rewrite X.
  - destruct C. constructor; auto.
  - destruct L. constructor; auto.
  - intros l I. destruct I.
Qed.
Lemma pinv_flush : forall orig s, core orig (length (trail s)) s -> level s = 0 -> pinv (length (trail s)) s ->
  pinv 0 (flush_trail s).
Proof.
  intros orig s Co L0 [A B]. pose proof (co_v _ _ _ Co) as V.
  assert (X : forall w, values s w = Some false -> before s w (length (trail s))).
  { intros w _ I. rewrite <- tpos_neg. now apply tpos_lt. }
  assert (Y : forall c w x, watched_ok s (length (trail s)) c w x -> watched_ok (flush_trail s) 0 c w x).
  { intros c w x [H U]. split.
    2:{ intros Fw _ _. destruct (U Fw (X w Fw)) as (t & I & Tt & Lt); [|now exists t].
        unfold T. rewrite nth_overflow; [now apply X|]. rewrite map_length, (ti_frames _ (co_f _ _ _ Co)). lia. }
    intros Fw _ Fx _ k _. destruct (H Fw (X w Fw) Fx (X x Fx) (level s)) as (t & I & Tt & Lt); auto.
    exists t. splits; auto. change (lev s t <= k). lia. }
  constructor.
  - intros a b I. apply Y. auto.
  - intros r c w x Ar G Ww Wx N. apply Y. eapply B; eauto.
Qed.

Lemma conflict_rup_empty : forall orig s c, core orig (length (trail s)) s -> conflict_ok s c -> level s = 0 ->
  rup neg (db s) [].
Proof.
  intros orig s c [V F C W L R] Ok L0.
  assert (U : forall l, values s l = Some false -> derives neg (db s) (fun l => exists m, In m [] /\ l = neg m) (neg l)).
  { intros l Fl. apply derives_unit with [neg l].
    - apply db_unit.
      + apply neg_lt, (ti_range _ V). congruence.
      + now apply false_true.
      + rewrite lev_neg. pose proof (false_level s l V F Fl). lia.
    - now left.
    - intros k [<-|[]] X. congruence. }
  destruct c as [a b|r].
  - destruct Ok as (I & Fa & Fb). destruct (db_binary s a b W I) as (d & D & E). exists d. split; auto.
    intros k K. apply E in K. destruct K as [<-|[<-|[]]]; auto.
  - destruct Ok as (d & Ar & G & Fd). exists (c_lits d). split; [eapply db_large; eauto|]. auto.
Qed.

(** ** Specification of [search_propagate] *)
Record quiet (s s' : solver) : Prop := {
  qu_vars : vars s' = vars s; qu_active : active s' = active s; qu_level : level s' = level s; qu_frames : frames s' = frames s;
  qu_last : last_learned s' = last_learned s; qu_iter : iterating s' = iterating s; qu_big : bigbig s' = bigbig s;
  qu_next : next_ref s' = next_ref s;
  qu_values : forall l b, values s l = Some b -> values s' l = Some b /\ lev s' l = lev s l;
  qu_clean : clean (an s) -> clean (an s');
  qu_arena : forall r, clause_sim (arena s r) (arena s' r) }.
Lemma qu_shape : forall s s', quiet s s' -> shape s' = shape s.
Proof. intros s s' []. unfold shape. congruence. Qed.
Lemma grown_quiet : forall s s', grown s s' -> quiet s s'.
Proof. intros s s' []. constructor; auto. intros l b H. destruct (gw_values0 l b H) as (A & B & _). auto. Qed.

Definition propagated (orig : list (list lit)) (s : solver) : Prop :=
  core orig (length (trail s)) s /\ propagate s = length (trail s) /\ pinv (length (trail s)) s.

Definition propagate_post (orig : list (list lit)) (s : solver) (res : solver * option conflict) : Prop :=
  let '(s', confl) := res in
  quiet s s' /\
  match confl with
  | None => propagated orig s' /\ inconsistent s' = inconsistent s /\ (level s' = 0 -> trail s' = [])
  | Some c =>
      core orig (length (trail s')) s' /\ conflict_ok s' c /\
      (if level s =? 0 then inconsistent s' = true
       else inconsistent s' = inconsistent s /\ pinv (T s' (level s')) s')
  end.

Lemma search_propagate_spec : forall orig o s, core orig (length (trail s)) s -> pinv (propagate s) s ->
  wp (search_propagate o s) (propagate_post orig s).
Proof.
  intros orig o s Co P. unfold search_propagate. apply wp_bind.
  eapply wp_mono; [apply propagate_loop_spec; eauto|].
  { lia. }
  intros [s1 confl] (Co1 & Gr & Cf). apply wp_ret. unfold propagate_post.
  pose proof (grown_quiet _ _ Gr) as Qu. pose proof (gw_level _ _ Gr) as Lv. pose proof (gw_inc _ _ Gr) as Ic.
  destruct confl as [c|]; cbn [update_conflicts_and_trail].
  - destruct Cf as [Pc Ok]. rewrite Lv. destruct (Nat.eqb_spec (level s) 0) as [L0|L0].
    + splits; auto.
      * destruct Qu. constructor; auto.
      * pose proof (conflict_rup_empty _ _ _ Co1 Ok ltac:(lia)) as Ru.
        destruct Co1 as [V F C W L R]. constructor; auto.
        -- destruct V. constructor; auto.
        -- destruct F. constructor; auto.
        -- destruct C. constructor; auto.
        -- apply linv_add with (s := s1) (c := []); auto; [intros x []|].
           intros x. rewrite cnt_cons. change (cnt x (db s1) <= b2n (set_eqb x []) + cnt x (db s1)). lia.
        -- eapply agree_rinv; [|exact R]. constructor; reflexivity.
    + splits; auto.
  - destruct Cf as [Pp Pc]. destruct ((level s1 =? 0) && (0 <? unflushed s1)) eqn:Fl.
    + apply andb_true_iff in Fl as [Fl _]. apply Nat.eqb_eq in Fl. splits; auto.
      * destruct Qu. constructor; auto.
      * unfold propagated. cbn [flush_trail set_unflushed set_propagate set_trail trail length propagate]. splits; auto.
        -- now apply core_flush.
        -- eapply pinv_flush; eauto.
    + splits; auto.
      * unfold propagated. auto.
      * intros L0. rewrite L0 in Fl. cbn [Nat.eqb andb] in Fl. apply Nat.ltb_ge in Fl.
        rewrite (ti_unfl _ (co_v _ _ _ Co1)) in Fl. destruct (trail s1) as [|a t] eqn:Et; auto. exfalso.
        cbn [filter] in Fl. pose proof (lev_level s1 a (co_v _ _ _ Co1) (co_f _ _ _ Co1)) as La.
        rewrite Et in La. specialize (La (or_introl eq_refl)). rewrite L0 in La.
        replace (lev s1 a =? 0) with true in Fl by (symmetry; apply Nat.eqb_eq; lia). cbn [length] in Fl. lia.
Qed.
