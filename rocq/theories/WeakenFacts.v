(** Adding resolvents and removing the clauses of the eliminated variable. *)
From Coq Require Import ZArith List Bool Lia Arith.
From Coq Require Import ZifyBool ZifyNat.
From Verif Require Import Base SpecSat SpecExtend Lit Solver Api Extend ExtendFacts Eliminate DenseFacts DenseOps GateFacts ResolveFacts.
Import ListNotations.
Open Scope nat_scope.
Open Scope outcome_scope.

(** ** The formula without the clauses of a variable *)
Definition base (d : dense) (i : nat) (v : assignment) : Prop :=
  units d v /\
  (forall a b, In (DBinary b) (d_occs d a) -> idx a <> i -> idx b <> i -> tr v a = true \/ tr v b = true) /\
  (forall r c, arena (d_sol d) r = Some c -> live c -> (forall k, In k (c_lits c) -> idx k <> i) -> sat_clause v (c_lits c)).
Definition more (d d' : dense) : Prop := forall k w, In w (d_occs d k) -> In w (d_occs d' k).
Lemma more_trans : forall a b c, more a b -> more b c -> more a c.
Proof. unfold more. auto. Qed.
Lemma base_mono : forall d d' i v, evo d d' -> more d d' -> base d' i v -> base d i v.
Proof.
  intros d d' i v E M (A & B & C). split; [eapply evo_units; eauto|]. split; [intros a b I; apply B; auto|].
  intros r c Ar L N. destruct (ev_arena _ _ E r c Ar) as (c' & Ar' & Li & R & _ & G). rewrite <- Li. destruct (c_garbage c') eqn:Gc.
  - destruct (G eq_refl) as [X|(k & I & K)]; [destruct L; congruence|]. rewrite Li. exists k. split; auto.
  - apply (C r c'); auto; [destruct L; split; congruence|now rewrite Li].
Qed.

Lemma remaining_literals_spec : forall d lits acc, match remaining_literals lits acc d with
  | None => exists k, In k lits /\ dval d k = Some true
  | Some f => f = acc ++ filter (fun k => match dval d k with None => true | _ => false end) lits /\ forall k, In k lits -> dval d k <> Some true
  end.
Proof.
  intros d. induction lits as [|x lits IH]; intros acc; cbn [remaining_literals].
  - rewrite app_nil_r. split; auto.
  - destruct (dtrue d x) eqn:T. { exists x. split; [now left|now apply dtrue_spec]. }
    destruct (dfalse d x) eqn:F.
    + apply dfalse_spec in F. specialize (IH acc). destruct (remaining_literals lits acc d) as [f|].
      * cbn [filter]. rewrite F. destruct IH as [A B]. split; auto. intros k [<-|I]; auto. congruence.
      * destruct IH as (k & I & K). exists k. split; auto. now right.
    + assert (Nv : dval d x = None) by (destruct (dval_cases d x) as [X|[[_ X]|(_ & _ & X)]]; congruence).
      specialize (IH (acc ++ [x])). destruct (remaining_literals lits (acc ++ [x]) d) as [f|].
      * cbn [filter]. rewrite Nv. destruct IH as [A B]. rewrite <- app_assoc in A. split; auto. intros k [<-|I]; auto. congruence.
      * destruct IH as (k & I & K). exists k. split; auto. now right.
Qed.

Lemma connect_resolvents_spec : forall l rs d, dinv d -> dval d l = None -> resolvents_ok d l rs ->
  ok (connect_resolvents rs d) (fun d' => evo d d' /\ calm d d' /\ more d d' /\ dval d' l = None /\
    (forall k, idx k = idx l -> d_occs d' k = d_occs d k) /\
    (inconsistent (d_sol d') = false -> forall v c, base d' (idx l) v -> In c rs -> sat_clause v c)).
Proof.
  intros l. induction rs as [|c rs IH]; intros d V N Ro; cbn [connect_resolvents].
  { cbn [ok]. split; [now apply evo_refl|]. split; [repeat split|]. split; [intros k w I; exact I|]. splits; auto. intros _ v c _ []. }
  assert (Nx : forall d1, evo d d1 -> calm d d1 -> more d d1 -> dval d1 l = None -> (forall k, idx k = idx l -> d_occs d1 k = d_occs d k) ->
    (forall v, base d1 (idx l) v -> sat_clause v c) ->
    ok (connect_resolvents rs d1) (fun d' => evo d d' /\ calm d d' /\ more d d' /\ dval d' l = None /\
    (forall k, idx k = idx l -> d_occs d' k = d_occs d k) /\
    (inconsistent (d_sol d') = false -> forall v c', base d' (idx l) v -> In c' (c :: rs) -> sat_clause v c'))).
  { intros d1 E (Ma & Rg) M N1 O H. eapply ok_mono; [apply (IH d1); [apply (ev_inv _ _ E)|auto|]|].
    - intros x Ix. apply (resolvents_ok_evo d d1 l (c :: rs) E Ro). now right.
    - cbv beta. intros d' (E' & (Ma' & Rg') & M' & N' & O' & H'). split; [exact (evo_trans _ _ _ E E')|]. split; [split; congruence|].
      split; [exact (more_trans _ _ _ M M')|]. split; [auto|]. split; [intros k K; rewrite O'; auto|].
      intros I v x B [<-|Ix]; [|now apply H']. apply H. eapply base_mono; eauto. }
  destruct (Ro c (or_introl eq_refl)) as (Wc & Fc & Mc).
  pose proof (remaining_literals_spec d c []) as R. destruct (remaining_literals c [] d) as [f|].
  2:{ destruct R as (k & I & K). apply Nx; auto; [now apply evo_refl|repeat split|intros x w Ix; exact Ix|]. intros v (U & _). exists k. auto. }
  destruct R as [Ef Nt]. cbn [app] in Ef.
  assert (If : forall k, In k f <-> In k c /\ dval d k = None). { intros k. rewrite Ef, filter_In. destruct (dval d k); intuition congruence. }
  assert (Wf : wf_lits f). { split; [rewrite Ef; apply NoDup_filter, Wc|]. intros k A B. apply If in A as [A _]. apply If in B as [B _]. now apply (proj2 Wc k). }
  assert (Mf : forall v, models d v -> sat_clause v f).
  { intros v M. destruct (Mc v M) as (k & I & T). exists k. split; auto. apply If. split; auto. destruct (dval d k) as [[|]|] eqn:D; auto; [now apply Nt in D|].
    rewrite (units_false d v k) in T; auto; [discriminate|apply M]. }
  assert (Sf : forall v, sat_clause v f -> sat_clause v c). { intros v (k & I & T). exists k. split; auto. now apply If. }
  assert (Ff : forall k, In k f -> idx k <> idx l /\ d_gone d (idx k) = false) by (intros k I; apply Fc; now apply If).
  clear Ef If Mc Fc Wc Nt. destruct f as [|a [|b f]].
  - eapply ok_mono; [apply dense_inconsistent_spec; auto|].
    + intros v M. destruct (Mf v M) as (k & [] & _).
    + cbv beta. intros d' (E & (O & M & R) & I & Va). split; [auto|]. split; [now split|]. split; [intros k w; rewrite O; auto|]. split; [now rewrite Va|].
      split; [now intros; rewrite O|congruence].
  - apply ok_bind. eapply ok_mono; [apply dense_learned_unit_spec; auto|].
    + intros v M. destruct (Mf v M) as (k & [<-|[]] & T). exact T.
    + cbv beta. intros d' (E & (O & M & R) & T & _ & Va). apply Nx; auto.
      * now split.
      * intros k w. now rewrite O.
      * rewrite Va; auto. intros e. destruct (Ff a (or_introl eq_refl)). auto.
      * now intros; rewrite O.
      * intros v (U & _). apply Sf. exists a. split; [now left|auto].
  - assert (Big : f <> [] -> ok (dense_new_large (a :: b :: f) d) (fun d' => evo d d' /\ calm d d' /\ more d d' /\ dval d' l = None /\
      (forall k, idx k = idx l -> d_occs d' k = d_occs d k) /\ (forall v, base d' (idx l) v -> sat_clause v c))).
    { intros _. eapply ok_mono; [apply dense_new_large_spec; auto|].
      - intros k I. now apply Ff.
      - cbv beta. intros d' (E & C & Va & _ & Ar & _ & O & M). split; [auto|]. split; [auto|]. split; [exact M|]. split; [now rewrite Va|]. split.
        + intros k K. apply O. intros I. now apply Ff in I.
        + intros v (_ & _ & B). apply Sf. apply (B _ _ Ar); [split; auto|]. intros k I. now apply Ff. }
    apply ok_bind. destruct f as [|x f].
    + cbn [dense_new_irredundant]. eapply ok_mono; [apply dense_new_binary_spec; auto|].
      * apply Ff. now left.
      * apply Ff. right. now left.
      * intros v M. destruct (Mf v M) as (k & [<-|[<-|[]]] & T); auto.
      * cbv beta. intros d' (E & C & Va & _ & I & _ & O & M). apply Nx; auto.
        -- now rewrite Va.
        -- intros k K. apply O; intros ->; [destruct (Ff a)|destruct (Ff b)]; auto; [now left|right; now left].
        -- intros v (_ & B & _). apply Sf. destruct (B a b I) as [T|T]; [apply Ff; now left|apply Ff; right; now left|exists a|exists b]; (split; [|auto]); [now left|right; now left].
    + cbn [dense_new_irredundant]. eapply ok_mono; [apply Big; congruence|]. cbv beta. intros d' (E & C & M & N' & O & H). now apply Nx.
Qed.

(** ** Assignments of external variables *)
Definition sigma (d : dense) (v : Z -> bool) : assignment := fun i => literal_true v (nth i (d_exports d) 0%Z).
Definition exports_ok (d : dense) : Prop := forall i j, i <> j -> nth i (d_exports d) 0%Z <> 0%Z -> Z.abs (nth i (d_exports d) 0%Z) <> Z.abs (nth j (d_exports d) 0%Z).
Lemma sigma_tr : forall d v k, dexport d k <> 0%Z -> tr (sigma d v) k = literal_true v (dexport d k).
Proof.
  intros d v k N. unfold tr, sigma, dexport in *. destruct (negated k); [|now destruct (literal_true _ _)].
  rewrite literal_true_opp by lia. now destruct (literal_true _ _).
Qed.
Definition flipped (l : lit) (v v' : assignment) : Prop := (forall i, i <> idx l -> v' i = v i) /\ tr v' l = true.
Lemma sigma_flipped : forall d v l, exports_ok d -> dexport d l <> 0%Z -> flipped l (sigma d v) (sigma d (make_true v (dexport d l))).
Proof.
  intros d v l X N. split.
  - intros i Ni. unfold sigma. assert (N' : nth (idx l) (d_exports d) 0%Z <> 0%Z) by (unfold dexport in N; destruct (negated l); lia).
    assert (A : Z.abs (dexport d l) = Z.abs (nth (idx l) (d_exports d) 0%Z)) by (unfold dexport; destruct (negated l); lia).
    pose proof (X (idx l) i ltac:(auto) N') as D. rewrite <- A in D. unfold literal_true, make_true.
    destruct (Z.ltb_spec 0 (nth i (d_exports d) 0%Z)).
    + destruct (Z.eqb_spec (nth i (d_exports d) 0%Z) (Z.abs (dexport d l))); [lia|auto].
    + destruct (Z.eqb_spec (- nth i (d_exports d) 0%Z) (Z.abs (dexport d l))); [lia|auto].
  - rewrite sigma_tr by auto. rewrite literal_make_true by auto. rewrite Z.eqb_refl. apply Z.eqb_refl.
Qed.
Lemma sigma_ext : forall d v v', (forall x, v x = v' x) -> vext (sigma d v) (sigma d v').
Proof. intros d v v' E i. unfold sigma, literal_true. now rewrite !E. Qed.
Lemma tr_flipped : forall l v v' k, flipped l v v' -> idx k <> idx l -> tr v' k = tr v k.
Proof. intros l v v' k [A _] N. unfold tr. now rewrite A. Qed.

Lemma reconstructs_trans : forall F st G, reconstructs F st G -> forall st' H, reconstructs G st' H -> reconstructs F (st ++ st') H.
Proof.
  intros F st G R. induction R; intros st' G' R'; cbn [app]; auto.
  - eapply reconstructs_plain; eauto.
  - eapply reconstructs_removed; eauto.
Qed.
Lemma reconstructs_weak : forall F st G (H : constraint), reconstructs F st G -> (forall v, H v -> G v) -> reconstructs F st H.
Proof.
  intros F st G H R I. rewrite <- (app_nil_r st). eapply reconstructs_trans; [exact R|]. eapply reconstructs_plain; [exact I|constructor].
Qed.

(** ** What is pushed *)
Definition in_range (e : Z) : Prop := (0 < Z.abs e < 1073741824)%Z.
Definition unassigned_but (d : dense) (l : lit) (k : lit) : bool := negb (k =? l) && match dval d k with None => true | _ => false end.
Lemma stack_of_app : forall a b, stack_of (a ++ b) = stack_of b ++ stack_of a.
Proof. intros. unfold stack_of. now rewrite flat_map_app, rev_app_distr. Qed.
Lemma stack_of_one : forall w C, stack_of [(w, C)] = rev (map (mk_extension false) C) ++ [mk_extension true w].
Proof. intros. unfold stack_of, clause_of. cbn. now rewrite app_nil_r. Qed.

Lemma push_witness_spec : forall d l st, ok (push_witness_literal (dval d) (dexport d) l st) (fun st' =>
  st' = mk_extension true (dexport d l) :: st /\ in_range (dexport d l) /\ dval d l = None).
Proof.
  intros d l st. unfold push_witness_literal, kissat_extension. apply ok_bind, ok_assert. intros N. apply ok_bind, ok_assert. intros X.
  apply ok_bind, ok_bind, ok_assert. intros R. cbn. splits; auto; [unfold in_range; lia|]. now destruct (dval d l).
Qed.
Lemma push_literal_spec : forall d l st, ok (push_clause_literal (dval d) (dexport d) l st) (fun st' =>
  dval d l <> Some true /\ (dval d l = None -> in_range (dexport d l)) /\
  st' = rev (map (mk_extension false) (map (dexport d) (if match dval d l with None => true | _ => false end then [l] else []))) ++ st).
Proof.
  intros d l st. unfold push_clause_literal, kissat_extension. destruct (dval d l) as [[|]|]; cbn [ok]; [exact I| |].
  - splits; auto; congruence.
  - apply ok_bind, ok_assert. intros N. apply ok_bind, ok_bind, ok_assert. intros R. cbn. splits; auto; [congruence|]. intros _. unfold in_range. lia.
Qed.
Lemma push_literals_spec : forall d l c st, ok (push_clause_literals (dval d) (dexport d) l c st) (fun st' =>
  let f := filter (unassigned_but d l) c in
  (forall k, In k f -> in_range (dexport d k)) /\ (forall k, In k c -> k <> l -> dval d k <> Some true) /\
  st' = rev (map (mk_extension false) (map (dexport d) f)) ++ st).
Proof.
  intros d l. induction c as [|x c IH]; intros st; cbn [push_clause_literals].
  - cbn. splits; auto; intros k [].
  - cbn [filter]. destruct (Nat.eqb_spec l x) as [e|N].
    + cbn [obind]. eapply ok_mono; [apply IH|]. cbv zeta beta. intros st' (A & B & C).
      assert (U : unassigned_but d l x = false) by (unfold unassigned_but; lia). rewrite U.
      split; [auto|]. split; [|exact C]. intros k [<-|I]; auto; congruence.
    + apply ok_bind. eapply ok_mono; [apply push_literal_spec|]. cbv beta. intros st1 (T & R & E1). eapply ok_mono; [apply IH|].
      cbv zeta beta. intros st' (A & B & C). assert (U : unassigned_but d l x = match dval d x with None => true | _ => false end) by (unfold unassigned_but; lia).
      rewrite U. subst st1. destruct (dval d x) as [b|] eqn:D.
      * split; [auto|]. split; [|exact C]. intros k [<-|I]; auto; congruence.
      * split; [intros k [<-|I]; auto|]. split; [intros k [<-|I]; auto; congruence|].
        rewrite C. cbn. rewrite <- app_assoc. reflexivity.
Qed.

(** ** The loop *)
Definition garb (c : clause) : clause := mk_clause (c_lits c) (c_redundant c) true (c_searched c).
Definition relevant (d : dense) (w : dwatch) : Prop :=
  match w with DBinary _ => True | DLarge r => exists c, arena (d_sol d) r = Some c /\ live c end.
Definition wsat (d : dense) (l : lit) (w : dwatch) (v : assignment) : Prop := tr v l = true \/ rest d l w v.
Definition with_watches (K : assignment -> Prop) (d : dense) (l : lit) (ws : list dwatch) (v : assignment) : Prop :=
  K v /\ forall w, In w ws -> relevant d w -> wsat d l w v.
Record frame (d d' : dense) : Prop := mk_frame {
  fr_values : values (d_sol d') = values (d_sol d); fr_trail : trail (d_sol d') = trail (d_sol d);
  fr_next : next_ref (d_sol d') = next_ref (d_sol d); fr_inconsistent : inconsistent (d_sol d') = inconsistent (d_sol d);
  fr_active : active (d_sol d') = active (d_sol d); fr_imports : d_imports d' = d_imports d;
  fr_exports : d_exports d' = d_exports d; fr_eliminated : d_eliminated d' = d_eliminated d; fr_gone : d_gone d' = d_gone d;
  fr_marks : d_marks d' = d_marks d; fr_gate : d_resolve_gate d' = d_resolve_gate d }.
Lemma frame_refl : forall d, frame d d.
Proof. intros. constructor; reflexivity. Qed.
Lemma frame_trans : forall a b c, frame a b -> frame b c -> frame a c.
Proof. intros a b c [A1 A2 A3 A4 A5 A6 A7 A8 A9 A10 A11] [B1 B2 B3 B4 B5 B6 B7 B8 B9 B10 B11]. constructor; congruence. Qed.
Lemma frame_dval : forall d d' k, frame d d' -> dval d' k = dval d k.
Proof. intros d d' k F. unfold dval. now rewrite (fr_values _ _ F). Qed.
Lemma frame_sigma : forall d d' v, frame d d' -> sigma d' v = sigma d v.
Proof. intros d d' v F. unfold sigma. now rewrite (fr_exports _ _ F). Qed.
Lemma frame_dexport : forall d d' k, frame d d' -> dexport d' k = dexport d k.
Proof. intros d d' v F. unfold dexport. now rewrite (fr_exports _ _ F). Qed.

Definition entry_from (d : dense) (l : lit) (x : Z * list Z) : Prop :=
  fst x = dexport d l /\ in_range (fst x) /\ forall e, In e (snd x) -> in_range e /\ exists k, e = dexport d k /\ dval d k = None /\ k <> l.
Definition is_in (r : nat) (ws : list dwatch) : bool := existsb (dwatch_eqb (DLarge r)) ws.

Definition extensional_in (K : assignment -> Prop) : Prop := forall v v', vext v v' -> K v -> K v'.
Lemma rest_ext : forall d l w v v', vext v v' -> rest d l w v -> rest d l w v'.
Proof. intros d l w v v' E (k & A & B & C). exists k. splits; auto. now rewrite <- (tr_ext v v' k E). Qed.
Lemma with_watches_ext : forall K d l ws, extensional_in K -> extensional_in (with_watches K d l ws).
Proof.
  intros K d l ws X v v' E [A B]. split; [eapply X; eauto|]. intros w I R. destruct (B w I R) as [T|T]; [left; now rewrite <- (tr_ext v v' l E)|right; eapply rest_ext; eauto].
Qed.

(** One clause is pushed. *)
Lemma pushed_step : forall (K : assignment -> Prop) d d1 l w ws C, exports_ok d -> d_exports d1 = d_exports d -> extensional_in K -> in_range (dexport d l) ->
  (forall v, K v -> units d v) -> (forall k, dval d (neg k) = option_map negb (dval d k)) ->
  (forall k, In k (wlits d l w) -> k <> l -> dval d k = Some false \/ In (dexport d k) C) ->
  (forall e, In e C -> in_range e /\ exists k, e = dexport d k /\ In k (wlits d l w) /\ k <> l) ->
  (forall v v', K v -> ~ rest d l w v -> flipped l v v' -> K v') ->
  (forall x, In x ws -> relevant d x -> x = w \/ (relevant d1 x /\ wlits d1 l x = wlits d l x)) ->
  forall st G, reconstructs (fun v => with_watches K d1 l ws (sigma d1 v)) st G ->
  reconstructs (fun v => with_watches K d l (w :: ws) (sigma d v)) ((dexport d l, C) :: st) G.
Proof.
  intros K d d1 l w ws C Xo Ex Ext Rl Ku V Cin Cout Fl Rel st G R.
  assert (Sg : forall v, sigma d1 v = sigma d v) by (intros; unfold sigma; now rewrite Ex).
  assert (Nl : dexport d l <> 0%Z) by (unfold in_range in Rl; lia).
  assert (Fal : forall v, units d (sigma d v) -> falsifies v (dexport d l :: C) <-> ~ wsat d l w (sigma d v)).
  { intros v U. unfold falsifies, wsat. rewrite sigma_tr by auto. split.
    - intros H [T|(k & I & Nk & T)]; [rewrite H in T by (now left); discriminate|]. destruct (Cin k I Nk) as [F|J].
      + assert (Tn : dval d (neg k) = Some true) by (rewrite V, F; reflexivity). apply U in Tn. rewrite tr_neg, T in Tn. discriminate.
      + rewrite sigma_tr in T. { rewrite H in T by (now right). discriminate. } apply Cout in J as [J _]. unfold in_range in J. lia.
    - intros H e [<-|J].
      + destruct (literal_true v (dexport d l)); auto. exfalso. apply H. auto.
      + destruct (literal_true v e) eqn:T; auto. exfalso. apply H. right. destruct (Cout e J) as (Re & k & -> & I & Nk). exists k. splits; auto.
        rewrite sigma_tr; auto. unfold in_range in Re. lia. }
  eapply (reconstructs_removed _ (fun v => with_watches K d1 l ws (sigma d1 v))); [| | |exact R].
  - intros v v' E. apply (with_watches_ext K d1 l ws Ext). now apply sigma_ext.
  - intros v [A B] Nf. rewrite Sg in *. split; auto.
    assert (Ww : wsat d l w (sigma d v)). { destruct (rest_dec d l w (sigma d v)) as [X|X]; [now right|]. destruct (tr (sigma d v) l) eqn:T; [now left|].
      exfalso. apply Nf, Fal; auto. intros [Y|Y]; [congruence|auto]. }
    intros x [<-|Ix] Rx; auto. destruct (Rel x Ix Rx) as [->|[Rx1 Wl]]; auto. destruct (B x Ix Rx1) as [T|(k & I & Nk & T)]; [now left|]. right. exists k. rewrite <- Wl. auto.
  - intros v [A B] F. rewrite Sg in *. apply Fal in F; auto. pose proof (sigma_flipped d v l Xo Nl) as Fp.
    split; [apply (Fl (sigma d v)); auto; intros X; apply F; now right|]. intros x Ix Rx. left. apply Fp.
Qed.
Lemma dropped_step : forall (K : assignment -> Prop) d d1 l w ws, d_exports d1 = d_exports d ->
  (forall v, K v -> relevant d w -> wsat d l w v) ->
  (forall x, In x ws -> relevant d x -> x = w \/ (relevant d1 x /\ wlits d1 l x = wlits d l x)) ->
  forall st G, reconstructs (fun v => with_watches K d1 l ws (sigma d1 v)) st G ->
  reconstructs (fun v => with_watches K d l (w :: ws) (sigma d v)) st G.
Proof.
  intros K d d1 l w ws Ex Kw Rel st G R. eapply reconstructs_plain; [|exact R]. intros v [A B].
  assert (Sg : sigma d1 v = sigma d v) by (intros; unfold sigma; now rewrite Ex). rewrite Sg in *.
  split; auto. intros x [<-|Ix] Rx; auto. destruct (Rel x Ix Rx) as [->|[Rx1 Wl]]; auto.
  destruct (B x Ix Rx1) as [T|(k & I & Nk & T)]; [now left|]. right. exists k. rewrite <- Wl. auto.
Qed.

(** The state [d'] after the clauses of the watches [ws] of [l] were removed from [d]. *)
Record removed (l : lit) (ws : list dwatch) (d d' : dense) : Prop := mk_removed {
  rm_frame : frame d d';
  rm_cnt : forall k w, cnt w (d_occs d k) = cnt w (d_occs d' k) + (if dwatch_eqb w (DBinary l) then cnt (DBinary k) ws else 0);
  rm_same : forall k, ~ In (DBinary k) ws -> d_occs d' k = d_occs d k;
  rm_arena : forall r, arena (d_sol d') r = if is_in r ws then option_map garb (arena (d_sol d) r) else arena (d_sol d) r }.

Lemma garb_garbage : forall c, c_garbage c = true -> garb c = c.
Proof. intros [a b g s] H. cbn in *. subst. reflexivity. Qed.
Lemma removed_nil : forall l d, removed l [] d d.
Proof. intros. constructor; auto using frame_refl. intros k w. rewrite cnt_nil. destruct (dwatch_eqb _ _); lia. Qed.
Lemma removed_binary : forall l b ws d d1 d', frame d d1 -> arena (d_sol d1) = arena (d_sol d) ->
  (forall k w, cnt w (d_occs d k) = cnt w (d_occs d1 k) + (if (k =? b) then one w (DBinary l) else 0)) ->
  (forall k, k <> b -> d_occs d1 k = d_occs d k) -> removed l ws d1 d' -> removed l (DBinary b :: ws) d d'.
Proof.
  intros l b ws d d1 d' F Ar C O [Fr Cn Sm Am]. constructor.
  - exact (frame_trans _ _ _ F Fr).
  - intros k w. rewrite C, Cn, cnt_cons. unfold one. cbn [dwatch_eqb]. destruct (dwatch_eqb w (DBinary l)), (k =? b); lia.
  - intros k N. rewrite Sm, O; auto; [intros ->; apply N; now left|intros I; apply N; now right].
  - intros r. rewrite Am, Ar. reflexivity.
Qed.
Lemma removed_garbage : forall l q ws d d' c, arena (d_sol d) q = Some c -> c_garbage c = true -> removed l ws d d' -> removed l (DLarge q :: ws) d d'.
Proof.
  intros l q ws d d' c Aq G [Fr Cn Sm Am]. constructor; [exact Fr| | |].
  - intros k w. rewrite Cn, cnt_cons. unfold one. cbn [dwatch_eqb]. destruct (dwatch_eqb w (DBinary l)); lia.
  - intros k N. apply Sm. intros I. apply N. now right.
  - intros r. rewrite Am. unfold is_in. cbn. destruct (Nat.eqb_spec r q) as [->|Nr]; cbn [orb]; auto.
    rewrite Aq. cbn. rewrite garb_garbage by auto. destruct (existsb _ _); auto.
Qed.
Lemma removed_large : forall l q ws d d1 d' c, frame d d1 -> arena (d_sol d) q = Some c -> arena (d_sol d1) = upd (arena (d_sol d)) q (Some (garb c)) ->
  d_occs d1 = d_occs d -> removed l ws d1 d' -> removed l (DLarge q :: ws) d d'.
Proof.
  intros l q ws d d1 d' c F Aq A1 O [Fr Cn Sm Am]. constructor.
  - exact (frame_trans _ _ _ F Fr).
  - intros k w. rewrite <- O, Cn, cnt_cons. unfold one. cbn [dwatch_eqb]. destruct (dwatch_eqb w (DBinary l)); lia.
  - intros k N. rewrite Sm, O; auto. intros I. apply N. now right.
  - intros r. rewrite Am, A1. unfold is_in. cbn. destruct (Nat.eqb_spec r q) as [->|Nr]; cbn [orb].
    + rewrite upd_same, Aq. cbn. destruct (existsb _ _); reflexivity.
    + now rewrite upd_other.
Qed.

Definition loop_post (push : bool) (l : lit) (ws : list dwatch) (d d' : dense) : Prop :=
  removed l ws d d' /\ exists st, d_extend d' = stack_of st ++ d_extend d /\ (push = false -> st = []) /\ (forall x, In x st -> entry_from d l x) /\
    (push = true -> forall K : assignment -> Prop, extensional_in K -> (forall v, K v -> units d v) ->
      (forall w v v', In w ws -> relevant d w -> K v -> ~ rest d l w v -> flipped l v v' -> K v') ->
      reconstructs (fun v => with_watches K d l ws (sigma d v)) st (fun v => K (sigma d v))).

Lemma weaken_loop_spec : forall push l ws d, exports_ok d -> (forall k, dval d (neg k) = option_map negb (dval d k)) ->
  (forall r c, In (DLarge r) ws -> arena (d_sol d) r = Some c -> c_redundant c = false) ->
  (forall b, In (DBinary b) ws -> idx b <> idx l) ->
  ok (weaken_loop push l ws d) (loop_post push l ws d).
Proof.
  intros push l. induction ws as [|w ws IH]; intros d Xo Ng Rd Bi; cbn [weaken_loop].
  { cbn [ok]. split; [apply removed_nil|]. exists []. splits; auto; [intros x []|]. intros _ K Ext Ku Fl. eapply reconstructs_plain; [|constructor].
    intros v Kv. split; auto. intros w []. }
  destruct w as [other|ref].
  - (* binary *)
    set (psh := push && negb (dtrue d other)).
    assert (P : ok (if psh then kissat_weaken_binary (dval d) (dexport d) l other (d_extend d) else Ret (d_extend d)) (fun e =>
      exists st, e = stack_of st ++ d_extend d /\ (psh = false -> st = []) /\
        (psh = true -> in_range (dexport d l) /\ dval d other <> Some true /\ (dval d other = None -> in_range (dexport d other)) /\
           st = [(dexport d l, map (dexport d) (if match dval d other with None => true | _ => false end then [other] else []))]))).
    { destruct psh; [|cbn [ok]; exists []; splits; auto; discriminate]. unfold kissat_weaken_binary. apply ok_bind. eapply ok_mono; [apply push_witness_spec|].
      cbv beta. intros st1 (-> & Rl & Nl). eapply ok_mono; [apply push_literal_spec|]. cbv beta. intros st2 (T & R & ->).
      eexists. split; [|split; [discriminate|intros _; splits; auto; reflexivity]]. rewrite stack_of_one, <- app_assoc. reflexivity. }
    apply ok_bind. eapply ok_mono; [exact P|]. clear P. cbv beta. intros e (st1 & -> & P0 & P1).
    apply ok_bind. unfold eliminate_binary, disconnect_binary. apply ok_bind, ok_bind. eapply ok_mono; [apply remove_watch_spec|].
    cbv beta. intros ws' Hw. cbn [ok]. set (d1 := set_d_sol _ _). cbn [d_occs set_d_extend] in Hw.
    assert (F1 : frame d d1) by (constructor; reflexivity).
    assert (Ar1 : arena (d_sol d1) = arena (d_sol d)) by reflexivity.
    eapply ok_mono; [apply IH|].
    + exact Xo.
    + exact Ng.
    + intros r c I. apply Rd. now right.
    + intros b I. apply Bi. now right.
    + intros d' (Rm & st2 & Ed & S0 & Sf & Rc). split.
      * apply (removed_binary l other ws d d1 d'); auto.
        -- intros k w. unfold d1. cbn. unfold upd. destruct (Nat.eqb_spec k other) as [->|Nk]; [specialize (Hw w); lia|lia].
        -- intros k Nk. unfold d1. cbn. now rewrite upd_other.
      * exists (st1 ++ st2). split; [|split; [|split]].
        -- rewrite stack_of_app, <- app_assoc. exact Ed.
        -- intros ->. rewrite S0 by auto. rewrite P0 by reflexivity. reflexivity.
        -- intros x I. apply in_app_iff in I as [I|I].
           ++ destruct psh; [|rewrite P0 in I by auto; destruct I]. destruct (P1 eq_refl) as (Rl & T & Ro & E1). rewrite E1 in I. destruct I as [<-|[]].
              unfold entry_from. cbn [fst snd]. splits; auto. intros e Ie. destruct (dval d other) eqn:D; [destruct Ie|]. destruct Ie as [<-|[]].
              split; auto. exists other. splits; auto. intros e. apply (Bi other); [now left|now rewrite e].
           ++ apply Sf in I. exact I.
        -- intros Ep K Ext Ku Fl. specialize (Rc Ep K Ext Ku). assert (Rc' : reconstructs (fun v => with_watches K d1 l ws (sigma d1 v)) st2 (fun v => K (sigma d1 v))).
           { apply Rc. intros w v v' I. apply Fl. now right. } clear Rc.
           assert (Rel : forall x, In x ws -> relevant d x -> x = DBinary other \/ relevant d1 x /\ wlits d1 l x = wlits d l x) by (intros x _ Rx; right; split; auto).
           assert (No : other <> l). { intros e. apply (Bi other); [now left|now rewrite e]. }
           destruct psh eqn:Ps.
           ++ destruct (P1 eq_refl) as (Rl & T & Ro & ->). cbn [app]. apply (pushed_step K d d1 l (DBinary other) ws); auto.
              ** intros k [<-|[<-|[]]] Nk; [congruence|]. destruct (dval d other) as [[|]|]; [congruence|now left|right; now left].
              ** intros e Ie. destruct (dval d other) eqn:D; [destruct Ie|]. destruct Ie as [<-|[]]. split; auto. exists other. splits; auto. right. now left.
              ** intros v v'. apply Fl; [now left|exact Logic.I].
           ++ rewrite P0 by reflexivity. cbn [app]. apply (dropped_step K d d1 l (DBinary other) ws); auto. intros v Kv _. right. exists other. splits; auto; [right; now left|].
              apply Ku; auto. apply dtrue_spec. unfold psh in Ps. rewrite Ep in Ps. now destruct (dtrue d other).
  - (* large *)
    apply ok_bind. eapply ok_mono; [apply get_clause_spec|]. cbv beta. intros c Ar. destruct (c_garbage c) eqn:G.
    + eapply ok_mono; [apply IH; auto|].
      * intros r c' I. apply Rd. now right.
      * intros b I. apply Bi. now right.
      * intros d' (Rm & st2 & Ed & S0 & Sf & Rc). split; [eapply removed_garbage; eauto|]. exists st2. splits; auto.
        intros Ep K Ext Ku Fl. apply (dropped_step K d d l (DLarge ref) ws); auto.
        -- intros v _ (c' & Ar' & _ & L). congruence.
        -- apply Rc; auto. intros w v v' I. apply Fl. now right.
    + set (psh := push && negb (existsb (dtrue d) (c_lits c))).
      assert (P : ok (if psh then kissat_weaken_clause (dval d) (dexport d) l (c_lits c) (d_extend d) else Ret (d_extend d)) (fun e =>
        exists st, e = stack_of st ++ d_extend d /\ (psh = false -> st = []) /\
          (psh = true -> let f := filter (unassigned_but d l) (c_lits c) in
             in_range (dexport d l) /\ (forall k, In k f -> in_range (dexport d k)) /\ (forall k, In k (c_lits c) -> k <> l -> dval d k <> Some true) /\
             st = [(dexport d l, map (dexport d) f)]))).
      { destruct psh; [|cbn [ok]; exists []; splits; auto; discriminate]. unfold kissat_weaken_clause. apply ok_bind. eapply ok_mono; [apply push_witness_spec|].
        cbv beta. intros st1 (-> & Rl & Nl). eapply ok_mono; [apply push_literals_spec|]. cbv zeta beta. intros st2 (T & R & ->).
        eexists. split; [|split; [discriminate|intros _; splits; auto; reflexivity]]. rewrite stack_of_one, <- app_assoc. reflexivity. }
      apply ok_bind. eapply ok_mono; [exact P|]. clear P. cbv beta. intros e (st1 & -> & P0 & P1).
      apply ok_bind. eapply ok_mono; [apply eliminate_clause_eq|]. intros d1 (c0 & Ar0 & _ & Ga & Q & _ & _). cbn [set_d_extend d_sol] in Ar0. rewrite Ar in Ar0. injection Ar0 as <-.
      destruct Ga as (A & B & C & D & E & F & O & H1 & H2 & H3 & H4 & H5). destruct Q as (_ & Qm & Qg). cbn [set_d_extend d_sol d_occs d_extend d_imports d_exports d_eliminated d_gone d_marks d_resolve_gate] in *.
      assert (F1 : frame d d1) by (constructor; assumption).
      assert (Va : forall k, dval d1 k = dval d k) by (intros; now apply frame_dval).
      eapply ok_mono; [apply IH|].
      * intros i j. rewrite H3. apply Xo.
      * intros k. rewrite !Va. apply Ng.
      * intros r c' I. rewrite C. destruct (Nat.eq_dec r ref) as [->|Nr]; [|rewrite upd_other by auto; apply Rd; now right].
        rewrite upd_same. intros X. injection X as <-. cbn. apply (Rd ref c); auto. now left.
      * intros b I. apply Bi. now right.
      * intros d' (Rm & st2 & Ed & S0 & Sf & Rc).
        assert (Ff : forall k, In k (filter (unassigned_but d l) (c_lits c)) <-> In k (c_lits c) /\ k <> l /\ dval d k = None).
        { intros k. rewrite filter_In. unfold unassigned_but. destruct (dval d k); [rewrite andb_false_r; intuition congruence|]. rewrite andb_true_r. intuition lia. }
        split; [eapply removed_large; eauto|]. exists (st1 ++ st2). split; [|split; [|split]].
        -- rewrite stack_of_app, <- app_assoc, <- H1. exact Ed.
        -- intros ->. rewrite S0 by auto. rewrite P0 by reflexivity. reflexivity.
        -- intros x I. apply in_app_iff in I as [I|I].
           ++ destruct psh; [|rewrite P0 in I by auto; destruct I]. destruct (P1 eq_refl) as (Rl & Rf & T & E1). rewrite E1 in I. destruct I as [<-|[]].
              unfold entry_from. cbn [fst snd]. splits; auto. intros e Ie. apply in_map_iff in Ie as (k & <- & Ik). split; auto. exists k. apply Ff in Ik. splits; tauto.
           ++ apply Sf in I. destruct I as (X & Y & Z). unfold entry_from. rewrite (frame_dexport d d1) in X by auto. splits; auto.
              intros e Ie. destruct (Z e Ie) as (Re & k & Ek & Nk & Dk). split; auto. exists k. rewrite (frame_dexport d d1) in Ek by auto. rewrite Va in Nk. auto.
        -- intros Ep K Ext Ku Fl.
           assert (Wl : forall x, match x with DLarge r => arena (d_sol d) r <> None | _ => True end -> wlits d1 l x = wlits d l x).
           { intros [b|r] Nx; cbn; auto. rewrite C. destruct (Nat.eq_dec r ref) as [->|Nr]; [rewrite upd_same, Ar; reflexivity|now rewrite upd_other]. }
           assert (Rel : forall x, In x ws -> relevant d x -> x = DLarge ref \/ relevant d1 x /\ wlits d1 l x = wlits d l x).
           { intros [b|r] Ix Rx; [right; split; auto|]. destruct (Nat.eq_dec r ref) as [->|Nr]; auto. right. split; [|apply Wl; destruct Rx as (c' & Ar' & _); congruence].
             destruct Rx as (c' & Ar' & L). exists c'. rewrite C, upd_other; auto. }
           assert (Lc : live c). { split; auto. apply (Rd ref c); auto. now left. }
           assert (Rc' : reconstructs (fun v => with_watches K d1 l ws (sigma d1 v)) st2 (fun v => K (sigma d1 v))).
           { apply Rc; auto; [intros v Kv k; rewrite Va; now apply Ku|]. intros w v v' I Rw Kv Nr. apply (Fl w); auto; [now right| |].
             - destruct w as [b|r]; [exact Logic.I|]. destruct Rw as (c' & Ar' & L). exists c'. split; auto. rewrite C in Ar'. destruct (Nat.eq_dec r ref) as [->|Nrr]; [|now rewrite upd_other in Ar'].
               rewrite upd_same in Ar'. injection Ar' as <-. destruct L as [_ L]. discriminate.
             - intros (k & Ik & X). apply Nr. exists k. rewrite Wl; auto. destruct w as [b|r]; auto. cbn in Ik. destruct (arena (d_sol d) r); [discriminate|destruct Ik]. }
           clear Rc.
           assert (Sg : reconstructs (fun v => with_watches K d1 l ws (sigma d1 v)) st2 (fun v => K (sigma d v))).
           { eapply reconstructs_weak; [exact Rc'|]. cbv beta. intros v. now rewrite (frame_sigma d d1 v F1). }
           destruct psh eqn:Ps.
           ++ destruct (P1 eq_refl) as (Rl & Rf & T & ->). cbn [app]. apply (pushed_step K d d1 l (DLarge ref) ws); auto.
              ** cbn [wlits]. rewrite Ar. intros k Ik Nk. destruct (dval d k) as [[|]|] eqn:Dk; auto; [now apply T in Dk|]. right. apply in_map. apply Ff. auto.
              ** cbn [wlits]. rewrite Ar. intros e Ie. apply in_map_iff in Ie as (k & <- & Ik). split; auto. exists k. apply Ff in Ik. tauto.
              ** intros v v'. apply Fl; [now left|exists c; auto].
           ++ rewrite P0 by reflexivity. cbn [app]. apply (dropped_step K d d1 l (DLarge ref) ws); auto. intros v Kv _.
              unfold psh in Ps. rewrite Ep in Ps. cbn [andb] in Ps. apply negb_false_iff, existsb_exists in Ps as (k & Ik & Tk). apply dtrue_spec in Tk.
              apply (Ku v Kv) in Tk. unfold wsat, rest. cbn [wlits]. rewrite Ar. destruct (Nat.eq_dec k l) as [->|Nk]; [now left|right; exists k; auto].
Qed.
