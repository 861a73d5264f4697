(** Facts about substitution of equivalent literals (Substitute.v): soundness of one round. *)
From Coq Require Import List Bool Lia Arith Permutation.
From Coq Require Import ZifyBool ZifyNat.
From Verif Require Import Base SpecSat Lit Hoare Solver Search PropFacts Keeps DenseFacts Eliminate Substitute TarjanFacts RootProp.
Import ListNotations.
Open Scope nat_scope.
Open Scope outcome_scope.

Definition always (v : assignment) : Prop := True.
Lemma grows_given : forall (P Q : assignment -> Prop) s s', (forall v, Q v -> P v) -> grows P s s' -> grows Q s s'.
Proof. intros P Q s s' H [A1 A2 A3 A4 A5 A6 A7 A8 A9 A10]. constructor; auto. Qed.
Lemma wp_ok : forall A (m : outcome A) P, wp m P -> ok m P.
Proof. intros A m P. now destruct m. Qed.

(** ** Representatives *)
Definition eqs (repr : lit -> lit) (v : assignment) : Prop := forall l, tr v (repr l) = tr v l.
Record good_repr (s : solver) (repr : lit -> lit) : Prop := mk_good_repr {
  rp_le : forall l, repr l <= l;
  rp_idem : forall l, repr (repr l) = repr l;
  rp_neg : forall l, repr (neg l) = neg (repr l);
  rp_act : forall l, repr l <> l -> act s l /\ act s (repr l) }.

Lemma implies_holds : forall q s v a b, holds q s v -> implies s a b -> tr v a = true -> tr v b = true.
Proof.
  intros q s v a b (_ & _ & H & _) I. induction I as [|a b c J I IH]; auto. intros T. apply IH. apply in_successors in J as [J _].
  destruct (H _ _ J) as [K|]; auto. rewrite tr_neg, T in K. discriminate.
Qed.
Lemma implies_values : forall s s' a b, (forall x y, In (WBinary y) (watches s' x) <-> In (WBinary y) (watches s x)) -> complete s' ->
  implies s a b -> values s' a = Some true -> values s' b = Some true.
Proof.
  intros s s' a b Bi C I. induction I as [|a b c J I IH]; auto. intros T. apply IH. apply in_successors in J as [J _]. apply (C a T). now apply Bi.
Qed.

Lemma determine_spec : forall o s, sinv s -> complete s ->
  ok (determine_representatives o s) (fun '(repr, s1) => grows always s s1 /\
    (inconsistent s1 = false -> complete s1 /\ good_repr s repr /\ (forall v, holds true s v -> eqs repr v) /\
      (forall l, values s1 (repr l) = values s1 l) /\
      (forall l k, act s l -> equivalent s l k -> repr k = repr l /\ repr l <= k /\ equivalent s l (repr l)) /\
      (forall l, act s l -> ~ equivalent s l (neg l)))).
Proof.
  intros o s V Cs. unfold determine_representatives. apply ok_bind. pose proof (si_sym _ V) as Sy. pose proof (si_range _ V) as Ra.
  eapply ok_mono; [apply wp_ok, components_spec; auto|]. cbn beta. intros t (Un & Cl). apply ok_bind.
  eapply ok_mono; [apply (units_grow always o (t_units t) s V)|].
  { intros u I. destruct (Un u I) as (A & y & J1 & J2). split; [apply A|]. intros v _ M. destruct (tr v u) eqn:T; auto.
    assert (Tn : tr v (neg u) = true) by (rewrite tr_neg, T; reflexivity).
    pose proof (implies_holds _ _ _ _ _ M J1 Tn) as K1. pose proof (implies_holds _ _ _ _ _ M J2 Tn) as K2. rewrite tr_neg, K1 in K2. discriminate. }
  cbn beta. intros s1 (G & H). apply ok_bind, ok_assert. intros _. cbn [ok]. split; auto. intros N. destruct (H N) as [H1 H2]. specialize (H2 Cs).
  destruct Cl as [(_ & h & us & E & A & I1 & I2)|(Nc & Ac & Cls & Neg)].
  { exfalso. pose proof (H1 h ltac:(rewrite E; now left)) as T. pose proof (implies_values s s1 h (neg h) (gr_bins _ _ _ G) H2 I1 T) as T'.
    rewrite (si_neg _ (gr_inv _ _ _ G)), T in T'. discriminate. }
  set (repr := fun l => match t_repr t l with Some r => r | None => l end).
  assert (Some_eq : forall l r, t_repr t l = Some r -> repr l = r) by (intros l r K; unfold repr; now rewrite K).
  assert (Cases : forall l, (exists r, t_repr t l = Some r /\ repr l = r /\ act s l) \/ (t_repr t l = None /\ repr l = l /\ ~ act s l)).
  { intros l. unfold repr. destruct (t_repr t l) as [r|] eqn:K.
    - left. exists r. split; [auto|]. split; auto. apply Ac. congruence.
    - right. split; auto. split; auto. intros X. apply Ac in X. auto. }
  assert (Eqv : forall l, equivalent s l (repr l)).
  { intros l. destruct (Cases l) as [(r & K & -> & _)|(_ & -> & _)]; [now apply Cls|]. split; constructor. }
  assert (Vt : forall a b, equivalent s a b -> values s1 a = Some true <-> values s1 b = Some true).
  { intros a b [E1 E2]. split; eapply implies_values; eauto; apply (gr_bins _ _ _ G). }
  assert (Rneg : forall l, repr (neg l) = neg (repr l)).
  { intros l. destruct (Cases l) as [(r & K & -> & _)|(_ & -> & Na)]; [apply Some_eq; now apply Neg|].
    destruct (Cases (neg l)) as [(r & _ & _ & A)|(_ & -> & _)]; auto. exfalso. apply Na. apply act_neg in A. now rewrite neg_neg in A. }
  split; [exact H2|]. split; [|split; [|split; [|split]]].
  - constructor.
    + intros l. destruct (Cases l) as [(r & K & -> & _)|(_ & -> & _)]; auto. apply (Cls l r K). split; constructor.
    + intros l. destruct (Cases l) as [(r & K & -> & _)|(_ & E & _)]; [|congruence]. apply Some_eq. apply (Cls l r K). now apply Cls.
    + exact Rneg.
    + intros l Ne. destruct (Cases l) as [(r & K & E & A)|(_ & E & _)]; [|contradiction]. split; auto. rewrite E. apply Ac.
      destruct (Cls l r K) as [Q1 Q2]. destruct (Q2 r Q1) as [-> _]. discriminate.
  - intros v M l. destruct (Eqv l) as [E1 E2]. destruct (tr v l) eqn:T; [now rewrite (implies_holds _ _ _ _ _ M E1 T)|].
    destruct (tr v (repr l)) eqn:T'; auto. rewrite (implies_holds _ _ _ _ _ M E2 T') in T. discriminate.
  - intros l. change (values s1 (repr l) = values s1 l). pose proof (Vt _ _ (Eqv l)) as Q1. pose proof (Vt _ _ (Eqv (neg l))) as Q2. rewrite Rneg, !(si_neg _ (gr_inv _ _ _ G)) in Q2.
    destruct (values s1 l) as [[|]|] eqn:E1, (values s1 (repr l)) as [[|]|] eqn:E2; cbn in Q2; auto;
      try (exfalso; assert (Some true = Some true) by auto; intuition congruence).
  - intros l k A E. change (repr k = repr l /\ repr l <= k /\ equivalent s l (repr l)). destruct (Cases l) as [(r & K & -> & _)|(_ & _ & X)]; [|contradiction]. destruct (Cls l r K) as [Q1 Q2]. destruct (Q2 k E) as [Q3 Q4].
    rewrite (Some_eq k r Q3). auto.
  - intros l A E. destruct (Cases l) as [(r & K & _ & _)|(_ & _ & X)]; [|contradiction]. destruct (Cls l r K) as [Q1 Q2]. destruct (Q2 _ E) as [Q3 _].
    rewrite (Neg l r K) in Q3. injection Q3 as Q3. now apply neg_neq in Q3.
Qed.

(** ** Variables to be removed *)
Definition to_remove (repr : lit -> lit) (s : solver) (is : list nat) : list nat := filter (fun i => is_active s i && negb (repr (2 * i) =? 2 * i)) is.
Lemma add_equivalences_spec : forall repr is s, ok (add_equivalences repr is s) (fun '(es, s') =>
  es = to_remove repr s is /\ (forall i, In i es -> repr (2 * i) < 2 * i) /\ exists x, s' = set_steps x s).
Proof.
  intros repr. induction is as [|i is IH]; intros s; cbn [add_equivalences to_remove filter].
  - cbn [ok]. split; auto. split; [intros i []|]. exists (steps s). now destruct s.
  - destruct (is_active s i) eqn:A; cbn [negb andb].
    2:{ eapply ok_mono; [apply IH|]. auto. }
    rewrite Nat.eqb_sym. destruct (Nat.eqb_spec (repr (2 * i)) (2 * i)) as [E|E]; cbn [negb].
    + eapply ok_mono; [apply IH|]. auto.
    + apply ok_bind, ok_assert. intros L. apply Nat.ltb_lt in L. apply ok_bind. eapply ok_mono; [apply IH|]. intros [es s'] (-> & Q & x & ->). cbn [ok].
      split; [reflexivity|]. split; [intros j [<-|I]; auto|]. exists x. now destruct s.
Qed.
Lemma steps_grows : forall P x s, sinv s -> grows P s (set_steps x s).
Proof. intros P x s V. apply quiet_grows; auto; [repeat split|apply (si_tp _ V)]. Qed.
Lemma steps_complete : forall x s, complete s -> complete (set_steps x s).
Proof. intros x s C. exact C. Qed.

(** ** What substitution preserves *)
Definition occurs (s : solver) (i : nat) : Prop :=
  (exists a b, idx a = i /\ In (WBinary b) (watches s a)) \/
  exists r c l, arena s r = Some c /\ c_garbage c = false /\ In l (c_lits c) /\ idx l = i.
Lemma grows_occurs : forall P s s' i, grows P s s' -> occurs s' i -> occurs s i.
Proof.
  intros P s s' i G [(a & b & E & I)|(r & c & l & A & Gc & I & E)].
  - left. exists a, b. split; auto. now apply (gr_bins _ _ _ G).
  - right. pose proof (gr_arena _ _ _ G r) as Q. rewrite A in Q. destruct (arena s r) as [c0|] eqn:A0; [|destruct Q]. destruct Q as (Q1 & Q2 & Q3).
    exists r, c0, l. split; [auto|]. split; [congruence|]. split; auto. eapply Permutation_in; [apply Permutation_sym; eauto|auto].
Qed.
Lemma holds_agree : forall q s v v', sinv s -> (forall i, occurs s i -> v' i = v i) -> (forall l, values s l = Some true -> v' (idx l) = v (idx l)) ->
  holds q s v -> holds q s v'.
Proof.
  intros q s v v' V Ho Hv (A & B & C & D). assert (T : forall k, v' (idx k) = v (idx k) -> tr v' k = tr v k) by (intros k H; unfold tr; now rewrite H).
  split; auto. split; [|split].
  - intros l K. rewrite T; auto.
  - intros a b I. rewrite !T; auto; apply Ho; left; [exists b, a|exists a, b]; split; auto. now apply (si_sym _ V).
  - intros r c Ar G Q. destruct (D r c Ar G Q) as (l & I & K). exists l. split; auto. rewrite T; auto. apply Ho. right. exists r, c, l. auto.
Qed.

Section Repr.
Variable repr : lit -> lit.
Record substd (s s' : solver) : Prop := mk_substd {
  sb_inv : sinv s';
  sb_values : forall l b, values s l = Some b -> values s' l = Some b;
  sb_sound : forall v, eqs repr v -> holds true s v -> holds true s' v;
  sb_back : forall q v, eqs repr v -> holds q s' v -> holds q s v;
  sb_vars : vars s' = vars s;
  sb_level : level s' = level s;
  sb_active : active s' = active s;
  sb_incons : inconsistent s' = false -> inconsistent s = false;
  sb_occurs : forall i, occurs s' i -> occurs s i \/ exists l, repr l <> l /\ idx (repr l) = i }.
Lemma substd_refl : forall s, sinv s -> substd s s.
Proof. intros s V. constructor; auto. Qed.
Lemma substd_trans : forall a b c, substd a b -> substd b c -> substd a c.
Proof.
  intros a b c [A1 A2 A3 A4 A5 A9 A6 A7 A8] [B1 B2 B3 B4 B5 B9 B6 B7 B8]. constructor; auto; try congruence. intros i O. apply B8 in O as [O|O]; auto.
Qed.
Lemma grows_substd : forall s s', grows always s s' -> substd s s'.
Proof.
  intros s s' G. constructor; try apply G.
  - intros v _ M. now apply (gr_sound _ _ _ G).
  - intros q v _. apply (grows_back _ _ _ q v G).
  - intros i O. left. eapply grows_occurs; eauto.
Qed.

(** ** Binary clauses *)
Hypothesis le : forall l, repr l <= l.
Hypothesis idem : forall l, repr (repr l) = repr l.
Hypothesis repr_neg : forall l, repr (neg l) = neg (repr l).

Lemma eqs_sub : forall v l b, eqs repr v -> tr v (repr l) = b -> tr v l = b.
Proof. intros v l b E <-. symmetry. apply E. Qed.

Lemma substitute_watches_spec : forall l ws kept delayed b, let '(kept', delayed', b') := substitute_watches repr l ws kept delayed b in
  (forall y, In (WBinary y) kept' <-> In (WBinary y) kept \/ repr l = l /\ exists x, In (WBinary x) ws /\ repr x = y /\ y <> neg (repr l) /\ y <> repr l) /\
  (forall y, In (WBinary y) delayed' <-> In (WBinary y) delayed \/ repr l <> l /\ exists x, In (WBinary x) ws /\ repr x = y /\ y <> neg (repr l) /\ y <> repr l) /\
  (forall u, In u (b_units b') <-> In u (b_units b) \/ u = repr l /\ exists x, In (WBinary x) ws /\ repr x = repr l /\ l < x) /\
  exists z, b_sol b' = set_steps z (b_sol b).
Proof.
  intros l. induction ws as [|w ws IH]; intros kept delayed b; cbn [substitute_watches].
  - split; [|split; [|split]].
    + intros y. split; [auto|intros [?|(_ & x & [] & _)]; auto].
    + intros y. split; [auto|intros [?|(_ & x & [] & _)]; auto].
    + intros u. split; [auto|intros [?|(_ & x & [] & _)]; auto].
    + exists (steps (b_sol b)). now destruct (b_sol b).
  - assert (Ex : forall (P : lit -> Prop), (exists x, In (WBinary x) (w :: ws) /\ P x) <-> (exists x, w = WBinary x /\ P x) \/ exists x, In (WBinary x) ws /\ P x).
    { intros P. split; [intros (x & [->|I] & Q); [left|right]; eauto|intros [(x & -> & Q)|(x & I & Q)]; exists x; split; auto; [now left|now right]]. }
    destruct w as [other|blocking ref].
    2:{ specialize (IH kept delayed b). destruct (substitute_watches repr l ws kept delayed b) as [[k' d'] b']. destruct IH as (I1 & I2 & I3 & I4).
      split; [|split; [|split; auto]]; intros y; rewrite ?I1, ?I2, ?I3, Ex; (split; [intros [?|(? & ?)]; auto|intros [?|(? & [(x & X & _)|?])]; auto; discriminate]). }
    destruct (Nat.eqb_spec (repr other) (neg (repr l))) as [En|Nn].
    { set (b1 := if l <? other then _ else b). assert (U : b_units b1 = b_units b /\ b_sol b1 = b_sol b) by (unfold b1; destruct (l <? other); auto). destruct U as [U1 U2].
      specialize (IH kept delayed b1). destruct (substitute_watches repr l ws kept delayed b1) as [[k' d'] b']. destruct IH as (I1 & I2 & I3 & I4). rewrite U1 in I3. rewrite U2 in I4.
      split; [|split; [|split; auto]]; intros y; rewrite ?I1, ?I2, ?I3, Ex; (split; [intros [?|(? & ?)]; auto|intros [?|(? & [(x & X & Q)|?])]; auto; injection X as <-]).
      - destruct Q as (<- & Q & _). contradiction.
      - destruct Q as (<- & Q & _). contradiction.
      - destruct Q as (Q & _). rewrite Q in En. symmetry in En. now apply neg_neq in En. }
    destruct (Nat.eqb_spec (repr other) (repr l)) as [Ee|Ne].
    { set (b1 := if l <? other then _ else b). assert (U : (forall u, In u (b_units b1) <-> In u (b_units b) \/ (u = repr l /\ l < other)) /\ b_sol b1 = b_sol b).
      { unfold b1. destruct (Nat.ltb_spec l other); cbn [b_units b_sol]; split; auto; intros u; cbn [In]; intuition lia. } destruct U as [U1 U2].
      specialize (IH kept delayed b1). destruct (substitute_watches repr l ws kept delayed b1) as [[k' d'] b']. destruct IH as (I1 & I2 & I3 & I4). rewrite U2 in I4.
      split; [|split; [|split; auto]]; intros y; rewrite ?I1, ?I2, ?I3, Ex.
      - split; [intros [?|(? & ?)]; auto|intros [?|(? & [(x & X & Q)|?])]; auto; injection X as <-]. destruct Q as (<- & _ & Q). contradiction.
      - split; [intros [?|(? & ?)]; auto|intros [?|(? & [(x & X & Q)|?])]; auto; injection X as <-]. destruct Q as (<- & _ & Q). contradiction.
      - rewrite U1. split.
        + intros [[?|[-> L]]|(? & ?)]; auto. right. split; auto. left. exists other. auto.
        + intros [?|(-> & [(x & X & Q & L)|?])]; auto. injection X as <-. auto. }
    assert (One : forall P, (exists x, WBinary other = WBinary x /\ repr x = P /\ P <> neg (repr l) /\ P <> repr l) <-> P = repr other).
    { intros P. split; [intros (x & X & <- & _); now injection X as <-|intros ->; exists other; auto]. }
    assert (Un : forall u, (exists x, WBinary other = WBinary x /\ repr x = repr l /\ l < x) -> In u (b_units b)) by (intros u (x & X & Q & _); injection X as <-; contradiction).
    assert (Ap : forall y k, In (WBinary y) (k ++ [WBinary (repr other)]) <-> In (WBinary y) k \/ y = repr other).
    { intros y k. rewrite in_app_iff. cbn [In]. split; [intros [?|[X|[]]]; auto; injection X as <-; auto|intros [?| ->]; auto]. }
    destruct ((l =? repr l) && (other =? repr other)) eqn:Both.
    { apply andb_true_iff in Both as [B1 _]. apply Nat.eqb_eq in B1.
      specialize (IH (kept ++ [WBinary (repr other)]) delayed b). destruct (substitute_watches repr l ws _ delayed b) as [[k' d'] b']. destruct IH as (I1 & I2 & I3 & I4).
      split; [|split; [|split; auto]]; intros y; rewrite ?I1, ?I2, ?I3, Ex, ?One.
      - rewrite Ap. clear -B1. intuition congruence.
      - clear -B1. intuition congruence.
      - split; [intros [?|(? & ?)]; auto|intros [?|(? & [Q|?])]; auto]. }
    set (b1 := if l <? other then mk_binaries_state (add_step [repr l; repr other] (b_sol b)) (b_units b) (b_deleted b) (b_removed b ++ [(l, other)]) else b).
    assert (U : b_units b1 = b_units b /\ exists z, b_sol b1 = set_steps z (b_sol b)).
    { unfold b1. destruct (l <? other); cbn [b_units b_sol]; split; auto; [eexists; reflexivity|exists (steps (b_sol b)); now destruct (b_sol b)]. } destruct U as [U1 (z1 & U2)].
    assert (Z : forall z, set_steps z (b_sol b1) = set_steps z (b_sol b)) by (intros z; rewrite U2; now destruct (b_sol b)).
    destruct (Nat.eqb_spec l (repr l)) as [B1|B1].
    + specialize (IH (kept ++ [WBinary (repr other)]) delayed b1). destruct (substitute_watches repr l ws _ delayed b1) as [[k' d'] b']. destruct IH as (I1 & I2 & I3 & z & I4).
      split; [|split; [|split]]; [| | |exists z; now rewrite <- Z]; intros y; rewrite ?I1, ?I2, ?I3, ?U1, Ex, ?One.
      * rewrite Ap. clear -B1. intuition congruence.
      * clear -B1. intuition congruence.
      * split; [intros [?|(? & ?)]; auto|intros [?|(? & [Q|?])]; auto].
    + specialize (IH kept (delayed ++ [WBinary (repr other)]) b1). destruct (substitute_watches repr l ws kept _ b1) as [[k' d'] b']. destruct IH as (I1 & I2 & I3 & z & I4).
      split; [|split; [|split]]; [| | |exists z; now rewrite <- Z]; intros y; rewrite ?I1, ?I2, ?I3, ?U1, Ex, ?One.
      * clear -B1. intuition congruence.
      * rewrite Ap. clear -B1. intuition congruence.
      * split; [intros [?|(? & ?)]; auto|intros [?|(? & [Q|?])]; auto].
Qed.

(** After the watches of the literals below [k] have been visited. *)
Definition visited (s : solver) (k : nat) (b : binaries_state) : Prop :=
  (exists z W, b_sol b = set_steps z (set_watches W s)) /\
  (forall x y, In (WBinary y) (watches (b_sol b) x) <-> (k <= x /\ In (WBinary y) (watches s x)) \/
    exists p q, p < k /\ In (WBinary q) (watches s p) /\ repr p = x /\ repr q = y /\ y <> neg x /\ y <> x) /\
  (forall u, In u (b_units b) <-> exists p q, p < k /\ In (WBinary q) (watches s p) /\ repr p = u /\ repr q = u /\ p < q).
Lemma visited_step : forall s k b, visited s k b -> visited s (S k) (substitute_all_watches repr [k] b).
Proof.
  intros s k b ((z & W & Es) & Hw & Hu). cbn [substitute_all_watches]. pose proof (substitute_watches_spec k (watches (b_sol b) k) [] [] b) as Sp.
  destruct (substitute_watches repr k (watches (b_sol b) k) [] [] b) as [[kept delayed] b1]. destruct Sp as (S1 & S2 & S3 & z1 & S4).
  assert (Cur : forall y, In (WBinary y) (watches (b_sol b) k) <-> In (WBinary y) (watches s k)).
  { intros y. rewrite Hw. split; [|auto]. intros [[_ ?]|(p & q & L & _ & E & _)]; auto. pose proof (le p). lia. }
  set (W1 := upd (watches (b_sol b1)) k kept). set (W2 := if k =? repr k then W1 else upd W1 (repr k) (W1 (repr k) ++ delayed)).
  assert (Wb : watches (b_sol b1) = watches (b_sol b)) by (rewrite S4; reflexivity).
  split; [|split].
  - cbn [set_b_sol b_sol]. rewrite S4, Es. exists z1, W2. now destruct s.
  - intros x y. change (watches (b_sol (set_b_sol (set_watches W2 (b_sol b1)) b1)) x) with (W2 x).
    assert (New : (exists p q, p < S k /\ In (WBinary q) (watches s p) /\ repr p = x /\ repr q = y /\ y <> neg x /\ y <> x) <->
      (exists p q, p < k /\ In (WBinary q) (watches s p) /\ repr p = x /\ repr q = y /\ y <> neg x /\ y <> x) \/
      (repr k = x /\ exists q, In (WBinary q) (watches (b_sol b) k) /\ repr q = y /\ y <> neg x /\ y <> x)).
    { split.
      - intros (p & q & L & I & Q1 & Q2). destruct (Nat.eq_dec p k) as [->|Np]; [right; split; auto; exists q; split; auto; now apply Cur|]. left. exists p, q. split; [lia|auto].
      - intros [(p & q & L & Q)|(E & q & I & Q)]; [exists p, q; split; [lia|auto]|]. exists k, q. split; [lia|]. split; [now apply Cur|auto]. }
    rewrite New. clear New. unfold W2. destruct (Nat.eqb_spec k (repr k)) as [E|E].
    + unfold W1, upd. destruct (Nat.eqb_spec x k) as [->|Nx].
      * rewrite S1. rewrite <- E. split.
        -- intros [[]|(_ & Q)]. right. right. auto.
        -- intros [[L _]|[(p & q & L & _ & Q & _)|(_ & Q)]]; [lia|pose proof (le p); lia|auto].
      * rewrite Wb, Hw. split; [intros [[L I]|Q]; [left; split; [lia|auto]|auto]|]. intros [[L I]|[Q|(Q & _)]]; [left; split; [lia|auto]|auto|congruence].
    + unfold W1, upd. destruct (Nat.eqb_spec x (repr k)) as [->|Nx].
      * destruct (Nat.eqb_spec (repr k) k) as [e|_]; [congruence|]. rewrite in_app_iff, S2, Wb, Hw. pose proof (le k) as Lk. split.
        -- intros [[[L I]|Q]|[[]|(_ & Q)]]; [lia|auto|]. right. right. auto.
        -- intros [[L I]|[Q|(_ & Q)]]; [lia|auto|]. right. right. auto.
      * destruct (Nat.eqb_spec x k) as [->|Nk].
        -- rewrite S1. split; [intros [[]|(Q & _)]; congruence|]. intros [[L _]|[(p & q & L & _ & Q & _)|(Q & _)]]; [lia|pose proof (le p); lia|congruence].
        -- rewrite Wb, Hw. split; [intros [[L I]|Q]; [left; split; [lia|auto]|auto]|]. intros [[L I]|[Q|(Q & _)]]; [left; split; [lia|auto]|auto|congruence].
  - intros u. cbn [set_b_sol b_units]. rewrite S3, Hu. split.
    + intros [(p & q & L & Q)|(-> & x & I & Q & L)]; [exists p, q; split; [lia|auto]|]. exists k, x. split; [lia|]. split; [now apply Cur|auto].
    + intros (p & q & L & I & Q1 & Q2 & Q3). destruct (Nat.eq_dec p k) as [->|Np]; [|left; exists p, q; split; [lia|auto]]. right. split; auto. exists q. split; [now apply Cur|]. split; [congruence|auto].
Qed.
Lemma substitute_all_watches_app : forall xs ys b, substitute_all_watches repr (xs ++ ys) b = substitute_all_watches repr ys (substitute_all_watches repr xs b).
Proof.
  induction xs as [|x xs IH]; intros ys b; auto. cbn [app substitute_all_watches]. destruct (substitute_watches repr x (watches (b_sol b) x) [] [] b) as [[k d] b1]. apply IH.
Qed.
Lemma visited_all : forall s n, visited s n (substitute_all_watches repr (seq 0 n) (mk_binaries_state s [] [] [])).
Proof.
  intros s. induction n as [|n IH].
  - cbn [seq substitute_all_watches]. split; [|split].
    + exists (steps s), (watches s). now destruct s.
    + intros x y. cbn [b_sol]. split; [intros I; left; split; [lia|auto]|]. intros [[_ I]|(p & q & L & _)]; [auto|lia].
    + intros u. cbn [b_units]. split; [intros []|intros (p & q & L & _); lia].
  - rewrite seq_S, substitute_all_watches_app. apply visited_step. exact IH.
Qed.

Definition clean_binaries (s : solver) : Prop := forall a b, In (WBinary b) (watches s a) -> repr a = a.
Lemma delete_pairs_steps : forall ps s, exists z, delete_pairs ps s = set_steps z s.
Proof.
  unfold delete_pairs. induction ps as [|p ps IH]; intros s; cbn [fold_left]; [exists (steps s); now destruct s|].
  destruct (IH (del_step [fst p; snd p] s)) as (z & ->). exists z. now destruct s.
Qed.

Lemma substitute_binaries_spec : forall o s, sinv s -> complete s -> (forall l, values s (repr l) = values s l) ->
  ok (substitute_binaries o repr s) (fun s' => substd s s' /\ next_ref s' = next_ref s /\ (inconsistent s' = false -> complete s' /\ clean_binaries s')).
Proof.
  intros o s V Cs Ev. unfold substitute_binaries. destruct (inconsistent s) eqn:Ic; [cbn [ok]; split; [now apply substd_refl|split; [auto|congruence]]|].
  pose proof (visited_all s (2 * vars s)) as Vi. set (b := substitute_all_watches repr (seq 0 (2 * vars s)) _) in *. clearbody b.
  destruct Vi as ((z & W & Es) & Hw & Hu). rewrite Es in Hw. change (watches (set_steps z (set_watches W s))) with W in Hw.
  assert (Hw' : forall x y, In (WBinary y) (W x) <-> exists p q, In (WBinary q) (watches s p) /\ repr p = x /\ repr q = y /\ y <> neg x /\ y <> x).
  { intros x y. rewrite Hw. split.
    - intros [[L I]|(p & q & _ & Q)]; [apply (si_range _ V) in I; lia|eauto].
    - intros (p & q & I & Q). right. exists p, q. split; [eapply (si_range _ V); eauto|auto]. }
  clear Hw. set (s1 := set_steps z (set_watches W s)) in *.
  assert (V1 : sinv s1).
  { destruct V as [V1 V2 V3 V4 V5 V6 V7 V8]. constructor; auto; change (watches s1) with W.
    - intros x y I. apply Hw' in I as (p & q & I & E1 & E2 & N1 & N2). apply Hw'. exists q, p. split; auto. split; auto. split; auto. split; [|auto]. intros e. apply N1. rewrite e. now rewrite neg_neg.
    - intros x y I. apply Hw' in I as (p & q & I & E1 & E2 & N1 & N2). apply V3 in I. change (vars s1) with (vars s). pose proof (le p). lia.
    - intros x y I. apply Hw' in I as (p & q & I & E1 & E2 & N1 & N2). auto. }
  assert (Snd : forall v, eqs repr v -> holds true s v -> holds true s1 v).
  { intros v E (M1 & M2 & M3 & M4). split; auto. split; auto. split; auto. intros x y I. apply Hw' in I as (p & q & I & <- & <- & _). rewrite !E. auto. }
  assert (Bk : forall q v, eqs repr v -> (forall u, In u (b_units b) -> tr v u = true) -> holds q s1 v -> holds q s v).
  { intros q v E U (M1 & M2 & M3 & M4). split; auto. split; auto. split; auto. intros x y I.
    destruct (Nat.eq_dec (repr y) (neg (repr x))) as [En|Nn].
    - rewrite <- (E x), <- (E y), En, tr_neg. destruct (tr v (repr x)); auto.
    - destruct (Nat.eq_dec (repr y) (repr x)) as [Ee|Ne].
      + left. rewrite <- (E x). apply U, Hu. pose proof (si_diff _ V _ _ I). pose proof (si_range _ V _ _ I). pose proof (si_range _ V _ _ (si_sym _ V _ _ I)).
        destruct (Nat.lt_trichotomy x y) as [L|[L|L]]; [exists x, y|contradiction|exists y, x]; (split; [auto|]; split; [auto; now apply (si_sym _ V)|auto]).
      + rewrite <- (E x), <- (E y). apply (M3 (repr x) (repr y)). apply Hw'. exists x, y. auto. }
  assert (C1 : complete s1).
  { intros l T y I. change (watches s1) with W in I. change (values s1) with (values s) in *. apply Hw' in I as (p & q & I & E1 & E2 & N1 & N2).
    rewrite <- E2, Ev. assert (Tp : values s (neg p) = Some true). { rewrite (si_neg _ V), <- Ev, E1, (si_neg _ V), T. reflexivity. }
    apply (Cs _ Tp). now rewrite neg_neg. }
  assert (Cl : clean_binaries s1). { intros x y I. change (watches s1) with W in I. apply Hw' in I as (p & q & I & <- & _). apply idem. }
  assert (Oc : forall i, occurs s1 i -> occurs s i \/ exists l, repr l <> l /\ idx (repr l) = i).
  { intros i [(x & y & Ei & I)|Q]; [|left; right; exact Q]. change (watches s1) with W in I. apply Hw' in I as (p & q & I & E1 & _).
    destruct (Nat.eq_dec (repr p) p) as [e|Ne]; [left; left; exists p, q; split; [congruence|auto]|right; exists p; split; [auto|congruence]]. }
  apply ok_bind. rewrite Es.
  eapply ok_mono; [apply (units_grow (fun v => eqs repr v /\ forall u, In u (b_units b) -> tr v u = true) o (b_units b) s1 V1)|].
  { intros u I. split; [|intros v (_ & U) _; auto]. apply Hu in I as (p & q & _ & I & <- & _). apply (si_range _ V) in I. change (vars s1) with (vars s). pose proof (le p). lia. }
  cbn beta. intros s2 (G & H). cbn [ok].
  destruct (delete_pairs_steps (b_deleted b) s2) as (z2 & ->). destruct (delete_pairs_steps (b_removed b) (set_steps z2 s2)) as (z3 & ->).
  assert (G3 : grows always s2 (set_steps z3 (set_steps z2 s2))) by (apply quiet_grows; [apply G|repeat split|apply (si_tp _ (gr_inv _ _ _ G))]).
  split; [|split].
  - eapply substd_trans; [|apply grows_substd; exact G3]. constructor.
    + apply G.
    + intros l x Vl. now apply (gr_values _ _ _ G).
    + intros v E M. apply (gr_sound _ _ _ G); [|now apply Snd]. split; auto. intros u I. apply Hu in I as (p & q & _ & I & Ep & Eq & _).
      destruct M as (_ & _ & M3 & _). destruct (M3 _ _ I) as [T|T]; [rewrite <- Ep|rewrite <- Eq]; now rewrite E.
    + intros q v E M. pose proof M as (N & M2 & _). destruct (H N) as [H1 _]. apply Bk; auto. eapply grows_back; eauto.
    + apply G.
    + apply (gr_level _ _ _ G).
    + apply G.
    + apply (gr_incons _ _ _ G).
    + intros i O. apply Oc. eapply grows_occurs; eauto.
  - apply (gr_next _ _ _ G).
  - intros N. destruct (H N) as [_ H2]. split; [exact (H2 C1)|]. intros x y I. apply (Cl x y). now apply (gr_bins _ _ _ G).
Qed.

(** ** Large clauses *)
Record literals_ok (s : solver) (L : list lit) (k : literals_state) : Prop := mk_literals_ok {
  lo_satisfied : l_satisfied k = true -> exists l, In l L /\ (values s l = Some true \/ values s (repr l) = Some true);
  lo_taut : l_tautological k = true -> exists a b, In a L /\ In b L /\ repr b = neg (repr a);
  lo_lits : forall r, In r (l_clause k) -> values s r = None /\ exists l, In l L /\ repr l = r;
  lo_nodup : NoDup (l_clause k);
  lo_compl : forall r, In r (l_clause k) -> ~ In (neg r) (l_clause k) }.
Lemma existsb_in : forall r c, existsb (Nat.eqb r) c = true <-> In r c.
Proof.
  intros r c. rewrite existsb_exists. split; [intros (x & I & E); apply Nat.eqb_eq in E; now subst|intros I; exists r; split; auto using Nat.eqb_refl].
Qed.
Lemma substitute_literals_ok : forall s L ls k, incl ls L -> literals_ok s L k -> literals_ok s L (substitute_literals s repr ls k).
Proof.
  intros s L. induction ls as [|l ls IH]; intros k I K; cbn [substitute_literals]; auto.
  assert (Il : In l L) by (apply I; now left). assert (I' : incl ls L) by (intros x J; apply I; now right).
  destruct K as [K1 K2 K3 K4 K5]. destruct (values s l) as [[|]|] eqn:Vl.
  - constructor; auto. intros _. exists l. auto.
  - apply IH; auto. now constructor.
  - destruct (values s (repr l)) as [[|]|] eqn:Vr.
    + constructor; auto. intros _. exists l. auto.
    + apply IH; auto. now constructor.
    + destruct (existsb (Nat.eqb (repr l)) (l_clause k)) eqn:X1; [apply IH; auto; now constructor|].
      destruct (existsb (Nat.eqb (neg (repr l))) (l_clause k)) eqn:X2.
      * constructor; auto. cbn [l_tautological]. intros _. apply existsb_in in X2. destruct (K3 _ X2) as (_ & a & Ia & Ea). exists l, a. auto.
      * apply IH; auto. assert (N1 : ~ In (repr l) (l_clause k)) by (rewrite <- existsb_in; congruence). assert (N2 : ~ In (neg (repr l)) (l_clause k)) by (rewrite <- existsb_in; congruence).
        constructor; cbn [l_clause l_satisfied l_tautological]; auto.
        -- intros r J. apply in_app_iff in J as [J|[<-|[]]]; eauto.
        -- apply Permutation_NoDup with (l := repr l :: l_clause k); [apply Permutation_cons_append|constructor; auto].
        -- intros r J J'. apply in_app_iff in J as [J|[<-|[]]]; apply in_app_iff in J' as [J'|[J'|[]]].
           ++ now apply (K5 r).
           ++ rewrite J', neg_neg in N2. contradiction.
           ++ contradiction.
           ++ symmetry in J'. now apply neg_neq in J'.
Qed.
(** If the loop runs to its end, nothing but false and duplicated literals is dropped. *)
Lemma substitute_literals_all : forall s ls k, let k' := substitute_literals s repr ls k in
  l_satisfied k' = false -> l_tautological k' = false ->
  incl (l_clause k) (l_clause k') /\
  (forall l, In l ls -> values s l = Some false \/ values s (repr l) = Some false \/ In (repr l) (l_clause k')) /\
  (l_substitute k' = false -> l_shrink k' = false -> l_substitute k = false /\ l_shrink k = false /\ forall l, In l ls -> repr l = l /\ values s l = None).
Proof.
  intros s. induction ls as [|l ls IH]; intros k; cbn [substitute_literals]; cbv zeta.
  - intros _ _. split; [intros x I; exact I|]. split; [intros l []|]. intros A B. split; [auto|]. split; [auto|intros l []].
  - destruct (values s l) as [[|]|] eqn:Vl; [discriminate| |].
    { intros A B. destruct (IH _ A B) as (I1 & I2 & I3). split; [exact I1|]. split; [intros x [<-|J]; auto|]. intros C D. destruct (I3 C D) as (_ & X & _). discriminate. }
    destruct (values s (repr l)) as [[|]|] eqn:Vr; [discriminate| |].
    { intros A B. destruct (IH _ A B) as (I1 & I2 & I3). split; [exact I1|]. split; [intros x [<-|J]; auto|]. intros C D. destruct (I3 C D) as (_ & X & _). discriminate. }
    destruct (existsb (Nat.eqb (repr l)) (l_clause k)) eqn:X1.
    { intros A B. destruct (IH _ A B) as (I1 & I2 & I3). split; [exact I1|]. split; [|intros C D; destruct (I3 C D) as (_ & X & _); discriminate].
      intros x [<-|J]; auto. right. right. apply I1. now apply existsb_in. }
    destruct (existsb (Nat.eqb (neg (repr l))) (l_clause k)) eqn:X2; [discriminate|].
    intros A B. destruct (IH _ A B) as (I1 & I2 & I3). cbn [l_clause l_substitute l_shrink] in *. split; [intros x J; apply I1, in_or_app; auto|]. split.
    + intros x [<-|J]; auto. right. right. apply I1, in_or_app. right. now left.
    + intros C D. destruct (I3 C D) as (Y1 & Y2 & Y3). apply orb_false_iff in Y1 as [Y1 Y4]. split; auto. split; auto. intros x [<-|J]; auto. split; [lia|auto].
Qed.

(** The clauses below [k] have been visited; [s0] is the state before. *)
Record cl_inv (s0 : solver) (k : nat) (x : solver * list lit * list nat) : Prop := mk_cl_inv {
  ci_inv : sinv (fst (fst x));
  ci_values : values (fst (fst x)) = values s0;
  ci_vars : vars (fst (fst x)) = vars s0;
  ci_active : active (fst (fst x)) = active s0;
  ci_next : next_ref (fst (fst x)) = next_ref s0;
  ci_incons : inconsistent (fst (fst x)) = false -> inconsistent s0 = false;
  ci_sound : forall v, eqs repr v -> holds true s0 v -> holds true (fst (fst x)) v /\ forall u, In u (snd (fst x)) -> tr v u = true;
  ci_back : forall q v, eqs repr v -> holds q (fst (fst x)) v -> holds q s0 v;
  ci_units : forall u, In u (snd (fst x)) -> u < 2 * vars s0;
  ci_garbage : forall r, In r (snd x) -> exists c, arena (fst (fst x)) r = Some c /\ exists l, In l (c_lits c) /\ In (repr l) (snd (fst x));
  ci_done : inconsistent (fst (fst x)) = false -> forall r c, r < k -> arena (fst (fst x)) r = Some c -> c_garbage c = false -> In r (snd x) \/ forall l, In l (c_lits c) -> repr l = l;
  ci_old : inconsistent (fst (fst x)) = false -> forall r, k <= r -> ~ In r (snd x);
  ci_clean : clean_binaries (fst (fst x));
  ci_complete : complete (fst (fst x));
  ci_occurs : forall i, occurs (fst (fst x)) i -> occurs s0 i \/ exists l, repr l <> l /\ idx (repr l) = i;
  ci_level : level (fst (fst x)) = level s0 }.

Lemma sinv_clause : forall s r c, sinv s -> r < next_ref s -> (forall l, In l (c_lits c) -> l < 2 * vars s) -> sinv (set_clause r (Some c) s).
Proof.
  intros s r c [V1 V2 V3 V4 V5 V6 V7 V8] L H. assert (Eq : forall x, arena (set_clause r (Some c) s) x = if x =? r then Some c else arena s x) by reflexivity.
  constructor; auto.
  - intros x d l. rewrite Eq. destruct (x =? r); [intros [= <-]; apply H|apply V5].
  - intros x d. rewrite Eq. destruct (Nat.eqb_spec x r) as [->|]; [intros _; exact L|apply V6].
Qed.
Lemma sinv_steps : forall z s, sinv s -> sinv (set_steps z s).
Proof. intros z s [V1 V2 V3 V4 V5 V6 V7 V8]. constructor; auto. Qed.
Lemma binary_bins : forall a b s x y, In (WBinary y) (watches (new_binary_clause false a b s) x) <-> In (WBinary y) (watches s x) \/ (x = a /\ y = b) \/ (x = b /\ y = a).
Proof.
  intros a b s x y. unfold new_binary_clause, watch_binary, push_watch. cbn [add_step watches set_steps set_watches]. unfold upd.
  destruct (Nat.eqb_spec x b) as [->|Nb]; destruct (Nat.eqb_spec b a) as [->|Nba]; rewrite ?in_app_iff; cbn [In].
  - split.
    + intros [[?|[X|[]]]|[X|[]]]; auto; injection X as <-; auto.
    + intros [?|[[_ ->]|[_ ->]]]; auto.
  - split; [intros [?|[X|[]]]; auto; injection X as <-; auto|]. intros [?|[[-> ->]|[_ ->]]]; auto; contradiction.
  - destruct (Nat.eqb_spec x a) as [->|Na]; [contradiction|]. split; [auto|]. intros [?|[[-> _]|[-> _]]]; auto; contradiction.
  - destruct (Nat.eqb_spec x a) as [->|Na]; rewrite ?in_app_iff; cbn [In].
    + split; [intros [?|[X|[]]]; auto; injection X as <-; auto|]. intros [?|[[_ ->]|[-> _]]]; auto; contradiction.
    + split; [auto|]. intros [?|[[-> _]|[-> _]]]; auto; contradiction.
Qed.

(** Replacing or removing clause [r]: [s1] is the state after, in which binary clauses may have been added. *)
Lemma cl_step : forall s0 r s units garbage c s1 c1, cl_inv s0 r (s, units, garbage) -> inconsistent s = false -> arena s r = Some c -> c_garbage c = false ->
  values s1 = values s -> vars s1 = vars s -> active s1 = active s -> next_ref s1 = next_ref s -> inconsistent s1 = inconsistent s -> level s1 = level s -> sinv s1 ->
  (forall x, arena s1 x = if x =? r then Some c1 else arena s x) -> c_redundant c1 = c_redundant c ->
  (forall a b, In (WBinary b) (watches s a) -> In (WBinary b) (watches s1 a)) ->
  (forall a b, In (WBinary b) (watches s1 a) -> In (WBinary b) (watches s a) \/ (values s a = None /\ values s b = None /\ (exists l, In l (c_lits c) /\ repr l = a) /\
     forall v, eqs repr v -> holds true s v -> tr v a = true \/ tr v b = true)) ->
  (c_garbage c1 = false -> (forall l, In l (c_lits c1) -> exists k, In k (c_lits c) /\ repr k = l) /\ forall v, eqs repr v -> holds true s v -> sat_clause v (c_lits c1)) ->
  (forall q v, eqs repr v -> holds q s1 v -> q = true \/ c_redundant c = false -> sat_clause v (c_lits c)) ->
  cl_inv s0 (S r) (s1, units, garbage).
Proof.
  intros s0 r s units garbage c s1 c1 [C1 C2 C3 C4 C5 C6 C7 C8 C9 C10 C11 C12 C13 C14 C15 C16] Ic Ar Gc E1 E2 E3 E4 E5 E6 V1 Ea Er W1 W2 New Bk.
  cbn [fst snd] in *. constructor; cbn [fst snd]; auto; try congruence.
  - intros v E M. destruct (C7 v E M) as [M' U]. split; auto. pose proof M' as (M1 & M2 & M3 & M4). split; [congruence|]. split; [now rewrite E1|]. split.
    + intros a b I. destruct (W2 a b I) as [J|(_ & _ & _ & J)]; auto.
    + intros x d. rewrite Ea. destruct (x =? r); [|apply M4]. intros [= <-] G _. now apply New.
  - intros q v E M. apply C8; auto. pose proof M as (M1 & M2 & M3 & M4). split; [congruence|]. split; [now rewrite <- E1|]. split; [intros a b I; auto|].
    intros x d Ax G Q. destruct (Nat.eq_dec x r) as [->|Nx]; [replace d with c in * by congruence; eauto|]. apply (M4 x d); auto. rewrite Ea. destruct (Nat.eqb_spec x r); [contradiction|auto].
  - intros x I. destruct (C10 x I) as (d & Ax & l & J1 & J2). assert (Nx : x <> r) by (intros ->; now apply (C12 Ic r)).
    exists d. rewrite Ea. destruct (Nat.eqb_spec x r); [contradiction|]. eauto.
  - intros _ x d L. rewrite Ea. destruct (Nat.eqb_spec x r) as [->|Nx].
    + intros [= <-] G. right. intros l I. destruct (New G) as [N1 _]. destruct (N1 l I) as (k & _ & <-). apply idem.
    + intros Ax G. apply (C11 Ic x d); auto. lia.
  - intros _ x L. apply C12; auto. lia.
  - intros a b I. destruct (W2 a b I) as [J|(_ & _ & (l & _ & <-) & _)]; [eapply C13; eauto|apply idem].
  - intros l T b I. rewrite E1 in *. destruct (W2 _ _ I) as [J|(J & _ & _)]; [now apply (C14 l T)|]. rewrite (si_neg _ C1), T in J. discriminate.
  - assert (Oc : forall l, In l (c_lits c) -> forall i, idx (repr l) = i -> occurs s0 i \/ exists k, repr k <> k /\ idx (repr k) = i).
    { intros l Il i Ei. destruct (Nat.eq_dec (repr l) l) as [e|Ne]; [|right; eauto]. apply C15. right. exists r, c, l. split; auto. split; auto. split; auto. congruence. }
    intros i [(a & b & Ei & I)|(x & d & l & Ax & G & I & Ei)].
    + destruct (W2 a b I) as [J|(_ & _ & (l & Il & <-) & _)]; [apply C15; left; eauto|eapply Oc; eauto].
    + rewrite Ea in Ax. destruct (x =? r) eqn:Xr; [injection Ax as <-; destruct (New G) as [N1 _]; destruct (N1 l I) as (k & Ik & <-); eapply Oc; eauto|].
      apply C15. right. exists x, d, l. auto.
Qed.

Lemma cl_next : forall s0 r s units garbage, cl_inv s0 r (s, units, garbage) ->
  (inconsistent s = false -> forall c, arena s r = Some c -> c_garbage c = false -> forall l, In l (c_lits c) -> repr l = l) ->
  cl_inv s0 (S r) (s, units, garbage).
Proof.
  intros s0 r s units garbage [C1 C2 C3 C4 C5 C6 C7 C8 C9 C10 C11 C12 C13 C14 C15 C16] H. constructor; auto; cbn [fst snd] in *.
  - intros Ic x c L A G. destruct (Nat.eq_dec x r) as [->|Nx]; [right; eauto|]. apply C11; auto. lia.
  - intros Ic x L. apply C12; auto. lia.
Qed.

Lemma substitute_clause_spec : forall s0 r x, cl_inv s0 r x -> inconsistent (fst (fst x)) = false ->
  ok (substitute_clause repr r x) (fun x' => cl_inv s0 (S r) x').
Proof.
  intros s0 r [[s units] garbage] C Ic. pose proof C as [C1 C2 C3 C4 C5 C6 C7 C8 C9 C10 C11 C12 C13 C14 C15 C16]. cbn [fst snd] in *. unfold substitute_clause.
  destruct (arena s r) as [c|] eqn:Ar; [|cbn [ok]; apply cl_next; auto; congruence].
  destruct (c_garbage c) eqn:Gc; [cbn [ok]; apply cl_next; auto; congruence|].
  pose proof (substitute_literals_ok s (c_lits c) (c_lits c) (mk_literals_state false false false false []) (fun l I => I)) as K.
  pose proof (substitute_literals_all s (c_lits c) (mk_literals_state false false false false [])) as A. cbv zeta in A.
  set (k := substitute_literals s repr (c_lits c) _) in *. clearbody k.
  assert (K0 : literals_ok s (c_lits c) k). { apply K. constructor; cbn; try discriminate; try tauto. constructor. } clear K. destruct K0 as [K1 K2 K3 K4 K5].
  assert (Lt : r < next_ref s) by (eapply (si_next _ C1); eauto).
  assert (Ra : forall l, In l (c_lits c) -> l < 2 * vars s) by (intros l; eapply (si_lits _ C1); eauto).
  assert (Rr : forall l, In l (c_lits c) -> repr l < 2 * vars s) by (intros l I; apply Ra in I; pose proof (le l); lia).
  assert (MG : forall s1, mark_garbage r s1 = match arena s1 r with None => Undef | Some c => do _ <- oassert (negb (c_garbage c)) ;
      Ret (del_step (c_lits c) (set_clause r (Some (mk_clause (c_lits c) (c_redundant c) true (c_searched c))) s1)) end) by reflexivity.
  destruct (l_satisfied k || l_tautological k) eqn:ST.
  { apply ok_bind. rewrite MG, Ar. apply ok_bind, ok_assert. intros _. cbn [ok].
    eapply (cl_step s0 r s units garbage c _ (mk_clause (c_lits c) (c_redundant c) true (c_searched c))); eauto; try reflexivity.
    - apply (sinv_steps _ (set_clause r _ s)). apply sinv_clause; auto.
    - discriminate.
    - intros q v E M _. apply orb_true_iff in ST as [St|Ta].
      + destruct (K1 St) as (l & I & [T|T]); (exists l; split; auto); destruct M as (_ & M2 & _); apply M2 in T; [auto|now rewrite <- E].
      + destruct (K2 Ta) as (a & b & Ia & Ib & Eab). destruct (tr v a) eqn:T; [exists a; auto|]. exists b. split; auto. rewrite <- (E b), Eab, tr_neg, (E a), T. reflexivity. }
  apply orb_false_iff in ST as [Sat Taut]. destruct (A Sat Taut) as (_ & A2 & A3). clear A.
  assert (Fwd : forall v, eqs repr v -> holds true s v -> sat_clause v (l_clause k)).
  { intros v E M. pose proof M as (_ & _ & _ & M4). destruct (M4 r c Ar Gc (or_introl eq_refl)) as (l & I & T). destruct (A2 l I) as [F|[F|F]].
    - rewrite (value_false _ _ _ _ C1 M F) in T. discriminate.
    - rewrite <- E, (value_false _ _ _ _ C1 M F) in T. discriminate.
    - exists (repr l). split; auto. now rewrite E. }
  assert (Bwd : forall v, eqs repr v -> sat_clause v (l_clause k) -> sat_clause v (c_lits c)).
  { intros v E (x & I & T). destruct (K3 x I) as (_ & l & J & <-). exists l. split; auto. now rewrite <- E. }
  destruct (l_substitute k || l_shrink k) eqn:SS.
  2:{ apply orb_false_iff in SS as [S1 S2]. destruct (A3 S1 S2) as (_ & _ & H). cbn [ok]. apply cl_next; auto. intros _ c' Ac G l I. replace c' with c in * by congruence. now apply H. }
  clear SS A3. destruct (l_clause k) as [|a [|b [|e f]]] eqn:Lk.
  - cbn [ok]. assert (Un : forall v, eqs repr v -> ~ holds true s0 v). { intros v E M. apply C7 in M as [M _]; auto. destruct (Fwd v E M) as (x & [] & _). }
    constructor; cbn [fst snd]; auto; try discriminate.
    + destruct C1 as [V1 V2 V3 V4 V5 V6 V7 V8]. constructor; auto.
    + intros v E M. exfalso. eapply Un; eauto.
    + intros q v E (M & _). discriminate.
  - apply ok_bind, ok_assert. intros _. cbn [ok]. destruct (K3 a (or_introl eq_refl)) as (_ & la & Ia & Ea). constructor; cbn [fst snd]; auto.
    + intros v E M. destruct (C7 v E M) as [M' U]. split; auto. intros u [<-|I]; auto. destruct (Fwd v E M') as (x & [<-|[]] & T). exact T.
    + intros u [<-|I]; auto. rewrite <- C3, <- Ea. auto.
    + intros x I. apply in_app_iff in I as [I|[<-|[]]].
      * destruct (C10 x I) as (d & Ax & l & J1 & J2). exists d. split; auto. exists l. split; auto. now right.
      * exists c. split; auto. exists la. split; auto. left. auto.
    + intros _ x d L Ax G. destruct (Nat.eq_dec x r) as [->|Nx]; [left; apply in_app_iff; right; now left|]. destruct (C11 Ic x d) as [J|J]; auto; [lia|left; apply in_app_iff; auto].
    + intros _ x L I. apply in_app_iff in I as [I|[<-|[]]]; [|lia]. apply (C12 Ic x); auto. lia.
  - apply ok_bind, ok_assert. intros _. apply ok_bind. rewrite MG. change (arena (new_binary_clause false a b s) r) with (arena s r). rewrite Ar. apply ok_bind, ok_assert. intros _. cbn [ok].
    destruct (K3 a (or_introl eq_refl)) as (Na & la & Ia & Ea). destruct (K3 b (or_intror (or_introl eq_refl))) as (Nb & lb & Ib & Eb).
    assert (Dab : a <> b). { intros ->. inversion K4; subst. apply H1. now left. }
    assert (Fab : forall v, eqs repr v -> holds true s v -> tr v a = true \/ tr v b = true).
    { intros v E M. destruct (Fwd v E M) as (x & [<-|[<-|[]]] & T); auto. }
    set (s1 := del_step _ _). assert (Wn : forall x y, In (WBinary y) (watches s1 x) <-> In (WBinary y) (watches s x) \/ (x = a /\ y = b) \/ (x = b /\ y = a)) by (intros x y; apply (binary_bins a b s)).
    eapply (cl_step s0 r s units garbage c s1 (mk_clause (c_lits c) (c_redundant c) true (c_searched c))); eauto; try reflexivity.
    + apply (sinv_steps _ (set_clause r _ (new_binary_clause false a b s))). apply sinv_clause; auto. destruct C1 as [V1 V2 V3 V4 V5 V6 V7 V8].
      change (sinv (set_steps (Added [a; b] :: steps s) (watch_binary a b s))). apply sinv_steps. constructor; auto; intros x y I; apply (binary_bins a b s) in I.
      * apply (binary_bins a b s). destruct I as [I|[[-> ->]|[-> ->]]]; auto.
      * change (vars (watch_binary a b s)) with (vars s). destruct I as [I|[[-> ->]|[-> ->]]]; [eauto| |]; [rewrite <- Ea|rewrite <- Eb]; auto.
      * destruct I as [I|[[-> ->]|[-> ->]]]; auto.
    + intros x y I. apply Wn. auto.
    + intros x y I. apply Wn in I as [I|[[-> ->]|[-> ->]]]; [auto|right|right]; (split; [auto|]; split; [auto|]; split; [eauto|]; intros v E M; destruct (Fab v E M); auto).
    + discriminate.
    + intros q v E M _. apply Bwd; auto. destruct M as (_ & _ & M3 & _). destruct (M3 a b) as [T|T]; [apply Wn; auto|exists a|exists b]; cbn; auto.
  - apply ok_bind, ok_assert. intros _. apply ok_bind, ok_assert. intros _. cbn [ok].
    eapply (cl_step s0 r s units garbage c _ (mk_clause (a :: b :: e :: f) (c_redundant c) false (if length (a :: b :: e :: f) <? length (c_lits c) then 2 else c_searched c))); eauto; try reflexivity.
    + set (ls := a :: b :: e :: f) in *. change (sinv (set_clause r (Some (mk_clause ls (c_redundant c) false (if length ls <? length (c_lits c) then 2 else c_searched c))) (set_steps (Deleted (c_lits c) :: Added ls :: steps s) s))).
      apply sinv_clause; auto; [now apply sinv_steps|]. cbn [c_lits]. intros l I. destruct (K3 l I) as (_ & x & J & <-). apply Rr; auto.
    + intros _. cbn [c_lits]. split; [intros l I; destruct (K3 l I) as (_ & x & J & Q); eauto|exact Fwd].
    + intros q v E M Q. apply Bwd; auto. destruct M as (_ & _ & _ & M4). apply (M4 r (mk_clause (a :: b :: e :: f) (c_redundant c) false (if length (a :: b :: e :: f) <? length (c_lits c) then 2 else c_searched c))); [unfold set_clause; cbn [arena set_arena]; unfold upd; now rewrite Nat.eqb_refl|reflexivity|exact Q].
Qed.

Lemma substitute_all_clauses_spec : forall s0 n r x, cl_inv s0 r x -> inconsistent (fst (fst x)) = false ->
  ok (substitute_all_clauses repr (seq r n) x) (fun x' => (inconsistent (fst (fst x')) = false -> cl_inv s0 (r + n) x') /\ exists m, cl_inv s0 m x').
Proof.
  intros s0. induction n as [|n IH]; intros r x C Ic; cbn [seq substitute_all_clauses].
  - cbn [ok]. rewrite Nat.add_0_r. eauto.
  - apply ok_bind. eapply ok_mono; [apply substitute_clause_spec; eauto|]. cbn beta. intros x' C'. destruct (inconsistent (fst (fst x'))) eqn:Ic'.
    + cbn [ok]. split; [congruence|eauto].
    + replace (r + S n) with (S r + n) by lia. apply IH; auto.
Qed.

(** Marking satisfied clauses. *)
Lemma mark_all_spec : forall garbage s, sinv s -> complete s ->
  (forall r, In r garbage -> exists c, arena s r = Some c /\ exists l, In l (c_lits c) /\ values s (repr l) = Some true) ->
  ok (ofold mark_garbage garbage s) (fun s' => substd s s' /\ complete s' /\ watches s' = watches s /\
    forall r c, arena s' r = Some c -> c_garbage c = false -> arena s r = Some c /\ ~ In r garbage).
Proof.
  induction garbage as [|r garbage IH]; intros s V Cs H; cbn [ofold].
  - cbn [ok]. split; [now apply substd_refl|]. split; auto.
  - destruct (H r (or_introl eq_refl)) as (c & Ar & l & Il & Tl). apply ok_bind. unfold mark_garbage at 1. rewrite Ar. apply ok_bind, ok_assert. intros Gc. cbn [ok].
    set (c1 := mk_clause (c_lits c) (c_redundant c) true (c_searched c)). set (s1 := del_step _ _).
    assert (Ea : forall x, arena s1 x = if x =? r then Some c1 else arena s x) by reflexivity.
    assert (V1 : sinv s1). { apply (sinv_steps _ (set_clause r (Some c1) s)). apply sinv_clause; auto; [eapply (si_next _ V); eauto|intros x I; apply (si_lits _ V r c); auto]. }
    assert (Sb : substd s s1).
    { constructor; auto.
      - intros v E (M1 & M2 & M3 & M4). split; auto. split; auto. split; auto. intros x d. rewrite Ea. destruct (x =? r); [intros [= <-]; discriminate|apply M4].
      - intros q v E (M1 & M2 & M3 & M4). split; auto. split; auto. split; auto. intros x d Ax G Q. destruct (Nat.eq_dec x r) as [->|Nx].
        + replace d with c in * by congruence. exists l. split; auto. rewrite <- E. apply M2. exact Tl.
        + apply (M4 x d); auto. rewrite Ea. now destruct (Nat.eqb_spec x r).
      - intros i [O|(x & d & k & Ax & G & I & Ei)]; [left; left; exact O|]. rewrite Ea in Ax. destruct (x =? r); [injection Ax as <-; discriminate|]. left. right. exists x, d, k. auto. }
    eapply ok_mono; [apply (IH s1 V1)|].
    + exact Cs.
    + intros x I. destruct (H x (or_intror I)) as (d & Ax & k & Ik & Tk). rewrite Ea. destruct (Nat.eqb_spec x r) as [->|]; [|eauto]. replace d with c in * by congruence. exists c1. split; auto. exists k. auto.
    + cbn beta. intros s' (S' & C' & W' & A'). split; [eapply substd_trans; eauto|]. split; auto. split; [exact W'|].
      intros x d Ax G. destruct (A' x d Ax G) as [A1 A2]. rewrite Ea in A1. destruct (Nat.eqb_spec x r) as [->|Nx]; [injection A1 as <-; discriminate|]. split; auto. intros [->|]; auto.
Qed.

Definition clean (s : solver) : Prop := forall i, occurs s i -> repr (2 * i) = 2 * i.
Lemma repr_idx : forall l, repr l = l -> repr (2 * idx l) = 2 * idx l.
Proof.
  intros l E. destruct (idx_eq l (2 * idx l)) as [<-|Q]; [unfold idx; now rewrite Nat.div2_double|exact E|]. assert (Q' : 2 * idx l = neg l) by (rewrite Q at 2; now rewrite neg_neg). rewrite Q', repr_neg. now rewrite E.
Qed.

Lemma substitute_clauses_spec : forall o s, sinv s -> complete s -> clean_binaries s -> inconsistent s = false ->
  ok (substitute_clauses o repr s) (fun s' => substd s s' /\ (inconsistent s' = false -> complete s' /\ clean s')).
Proof.
  intros o s V Cs Cb Ic. unfold substitute_clauses. rewrite Ic. apply ok_bind.
  eapply ok_mono; [apply (substitute_all_clauses_spec s (next_ref s) 0 (s, [], []))|]; cbn [fst snd]; auto.
  { constructor; cbn [fst snd]; auto; try tauto; try (intros; lia); intros u []. }
  intros [[s1 units] garbage] [Cn (m & Cm)]. cbn [fst snd plus] in *. apply ok_bind.
  pose proof (ci_inv _ _ _ Cm) as V1. pose proof (ci_complete _ _ _ Cm) as Co1. pose proof (ci_vars _ _ _ Cm) as Evr. pose proof (ci_values _ _ _ Cm) as Eva. pose proof (ci_next _ _ _ Cm) as Enx. cbn [fst snd] in *.
  eapply ok_mono; [apply (units_grow (fun v => eqs repr v /\ forall u, In u units -> tr v u = true) o units s1 V1)|].
  { intros u I. split; [|intros v (_ & U) _; auto]. rewrite Evr. apply (ci_units _ _ _ Cm u I). }
  cbn beta. intros s2 (G & H).
  assert (S2 : substd s s2).
  { constructor; try apply G.
    - intros l b Vl. apply (gr_values _ _ _ G). now rewrite Eva.
    - intros v E M. destruct (ci_sound _ _ _ Cm v E M) as [M1 U]. apply (gr_sound _ _ _ G); auto.
    - intros q v E M. apply (ci_back _ _ _ Cm q v E). eapply grows_back; eauto.
    - rewrite (gr_vars _ _ _ G). apply (ci_vars _ _ _ Cm).
    - rewrite (gr_level _ _ _ G). apply (ci_level _ _ _ Cm).
    - rewrite (gr_active _ _ _ G). apply (ci_active _ _ _ Cm).
    - intros N. apply (ci_incons _ _ _ Cm). now apply (gr_incons _ _ _ G).
    - intros i O. apply (ci_occurs _ _ _ Cm). eapply grows_occurs; eauto. }
  destruct (inconsistent s2) eqn:I2.
  - (* nothing is claimed of inconsistent states but that they are reached for a reason *)
    assert (Fold : forall gs x, inconsistent x = true -> sinv x -> (forall v, eqs repr v -> ~ holds true s v) ->
      (forall l b, values s l = Some b -> values x l = Some b) -> vars x = vars s -> level x = level s -> active x = active s ->
      (forall i, occurs x i -> occurs s i \/ exists l, repr l <> l /\ idx (repr l) = i) ->
      ok (ofold mark_garbage gs x) (fun s' => substd s s' /\ (inconsistent s' = false -> complete s' /\ clean s'))).
    { induction gs as [|r gs IH]; intros x Ix Vx Un Va Vr Lv Ac Oc; cbn [ofold].
      - cbn [ok]. split; [|congruence]. constructor; auto; [intros v E M; exfalso; eapply Un; eauto|intros q v E (M & _); congruence].
      - apply ok_bind. unfold mark_garbage at 1. destruct (arena x r) as [c|] eqn:Ar; cbn [ok]; auto. apply ok_bind, ok_assert. intros _. cbn [ok]. apply IH; auto.
        + apply (sinv_steps _ (set_clause r _ x)). apply sinv_clause; auto; [eapply (si_next _ Vx); eauto|intros l I; apply (si_lits _ Vx r c); auto].
        + intros i [O|(y & d & k & Ay & Gd & I & Ei)]; [apply Oc; left; exact O|]. cbn in Ay. unfold upd in Ay. destruct (y =? r); [injection Ay as <-; discriminate|]. apply Oc. right. exists y, d, k. auto. }
    apply Fold; auto; try apply S2. intros v E M. apply (sb_sound _ _ S2 v E) in M. destruct M as (M & _). congruence.
  - destruct (H eq_refl) as [H1 H2]. pose proof (gr_incons _ _ _ G I2) as I1. specialize (Cn I1).
    eapply ok_mono; [apply (mark_all_spec garbage s2 (gr_inv _ _ _ G) (H2 Co1))|].
    + intros r I. destruct (ci_garbage _ _ _ Cn r I) as (c & Ar & l & Il & Iu). cbn [fst snd] in *. pose proof (gr_arena _ _ _ G r) as Q. rewrite Ar in Q.
      destruct (arena s2 r) as [c2|]; [|destruct Q]. destruct Q as (Q & _). exists c2. split; auto. exists l. split; [eapply Permutation_in; eauto|auto].
    + cbn beta. intros s3 (S3 & C3 & W3 & A3). split; [eapply substd_trans; eauto|]. intros _. split; auto.
      intros i [(a & b & Ei & I)|(r & c & l & Ar & Gc & Il & Ei)]; rewrite <- Ei; apply repr_idx.
      * rewrite W3 in I. apply (gr_bins _ _ _ G) in I. apply (ci_clean _ _ _ Cn) in I. exact I.
      * destruct (A3 r c Ar Gc) as [A1 A2]. pose proof (gr_arena _ _ _ G r) as Q. rewrite A1 in Q. destruct (arena s1 r) as [c1|] eqn:A0; [|destruct Q]. destruct Q as (Q1 & Q2 & Q3).
        assert (Lr : r < next_ref s) by (rewrite <- Enx; eapply (si_next _ V1); eauto).
        destruct (ci_done _ _ _ Cn I1 r c1 Lr A0) as [X|X]; [congruence|contradiction|]. apply X. eapply Permutation_in; [apply Permutation_sym; eauto|auto].
Qed.
End Repr.
