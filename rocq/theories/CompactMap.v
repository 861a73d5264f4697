(** Compaction: the invariant of the solver and the new mapping of external to internal literals. *)
From Coq Require Import ZArith List Bool Lia Arith Permutation.
From Coq Require Import ZifyBool ZifyNat.
From Verif Require Import Base Lit Hoare Api Queue QueueFacts Compact CompactFacts.
Import ListNotations.
Open Scope nat_scope.
Open Scope outcome_scope.

(** The states in which a compacting garbage collection starts. *)
Record cwf (st : cstate) : Prop := {
  w_size : (Z.of_nat (k_vars st) < 2 ^ 31)%Z;
  w_neg : forall l, k_values st (neg l) = option_map negb (k_values st l);
  w_fixed : forall i, i < k_vars st -> (f_fixed (k_flags st i) = true <-> k_values st (2 * i) <> None /\ k_level st i = 0);
  w_excl : forall i, i < k_vars st ->
    (f_fixed (k_flags st i) = true -> f_active (k_flags st i) = false /\ f_eliminated (k_flags st i) = false) /\
    (f_active (k_flags st i) = true -> f_eliminated (k_flags st i) = false);
  w_none : forall i, i < k_vars st -> f_active (k_flags st i) = false -> f_fixed (k_flags st i) = false ->
    f_eliminated (k_flags st i) = false -> k_values st (2 * i) = None;
  (** variables above are not in use *)
  w_beyond : forall i, k_vars st <= i -> k_flags st i = no_flags /\ k_values st (2 * i) = None /\ k_level st i = 0 /\
    k_watches st (2 * i) = [] /\ k_watches st (S (2 * i)) = [];
  (** active and fixed variables are exported, and imported by the external variable *)
  w_exported : forall i, i < k_vars st -> f_active (k_flags st i) = true \/ f_fixed (k_flags st i) = true -> k_exports st i <> 0%Z;
  w_imports : forall i, i < k_vars st -> k_exports st i <> 0%Z ->
    i_imported (k_imports st (Z.abs_nat (k_exports st i))) = true /\
    i_eliminated (k_imports st (Z.abs_nat (k_exports st i))) = f_eliminated (k_flags st i) /\
    (f_eliminated (k_flags st i) = false -> i_lit (k_imports st (Z.abs_nat (k_exports st i))) = signed (k_exports st i) (2 * i));
  w_inj : forall i j, i < k_vars st -> j < k_vars st -> k_exports st i <> 0%Z ->
    Z.abs_nat (k_exports st i) = Z.abs_nat (k_exports st j) -> i = j;
  (** an imported variable is exported, unless its literal is fixed and it is a unit *)
  w_import : forall x, i_imported (k_imports st x) = true -> i_eliminated (k_imports st x) = false ->
    let i := idx (i_lit (k_imports st x)) in
    i < k_vars st /\ ((k_exports st i <> 0%Z /\ Z.abs_nat (k_exports st i) = x) \/
                      (f_fixed (k_flags st i) = true /\ exists e, In e (k_units st) /\ Z.abs_nat e = x));
  w_units : forall e, In e (k_units st) -> e <> 0%Z /\
    i_imported (k_imports st (Z.abs_nat e)) = true /\ i_eliminated (k_imports st (Z.abs_nat e)) = false /\
    f_fixed (k_flags st (idx (i_lit (k_imports st (Z.abs_nat e))))) = true /\
    k_values st (i_lit (k_imports st (Z.abs_nat e))) = Some (0 <? e)%Z;
  w_unit : forall i, i < k_vars st -> f_fixed (k_flags st i) = true ->
    exists e, In e (k_units st) /\ Z.abs_nat e = Z.abs_nat (k_exports st i);
  (** binary clauses are watched by both literals and they are propagated on the root level *)
  w_watch : forall l o, l < 2 * k_vars st -> In (KBin o) (k_watches st l) ->
    (f_active (k_flags st (idx l)) = true \/ f_fixed (k_flags st (idx l)) = true) /\ o < 2 * k_vars st /\
    (f_active (k_flags st (idx o)) = true \/ f_fixed (k_flags st (idx o)) = true) /\ In (KBin l) (k_watches st o);
  w_prop : forall l o, l < 2 * k_vars st -> In (KBin o) (k_watches st l) -> root_value st l = Some false ->
    root_value st o = Some true;
  w_large : forall c, In c (k_clauses st) -> kc_garbage c = false ->
    (forall l, In l (kc_lits c) -> l < 2 * k_vars st /\
       (f_active (k_flags st (idx l)) = true \/ f_fixed (k_flags st (idx l)) = true)) /\
    ((forall l, In l (kc_lits c) -> root_value st l <> Some true) ->
       2 <= length (filter (fun l => negb (is_lit (root_value st l) false)) (kc_lits c)));
  (** the root level units are not on the trail anymore *)
  w_trail : forall l, In l (k_trail st) -> l < 2 * k_vars st /\ f_active (k_flags st (idx l)) = true /\
    (forall o, k_reason st (idx l) = Some o -> o < 2 * k_vars st /\ f_active (k_flags st (idx o)) = true);
  w_once : NoDup (map idx (k_trail st));
  w_frames : forall l, In l (k_frames st) -> l < 2 * k_vars st /\ f_active (k_flags st (idx l)) = true;
  w_queue : exists L, qinv (k_vars st) L (k_queue st) /\ (forall i, In i L -> f_active (k_flags st i) = true) /\
    (forall i, i < k_vars st -> f_active (k_flags st i) = true ->
       In i L /\ (qvalue (k_queue st) i = true <-> k_values st (2 * i) <> None)) }.

Section Map.
Variable st : cstate.
Hypothesis W : cwf st.
Notation n := (k_vars st).
Notation act i := (f_active (k_flags st i)).
Notation fix_ i := (f_fixed (k_flags st i)).
Notation eli i := (f_eliminated (k_flags st i)).
Notation ex i := (k_exports st i).
Notation used i := (f_active (k_flags st i) = true \/ f_fixed (k_flags st i) = true).

Lemma used_not_eli : forall i, i < n -> used i -> eli i = false.
Proof. intros i L [H|H]; apply (w_excl st W i L) in H; intuition auto. Qed.
Lemma w_export : forall i, i < n -> used i -> ex i <> 0%Z /\ i_lit (k_imports st (Z.abs_nat (ex i))) = signed (ex i) (2 * i).
Proof.
  intros i L U. pose proof (w_exported st W i L U) as X. split; auto. destruct (w_imports st W i L X) as (_ & _ & H).
  apply H. now apply used_not_eli.
Qed.
Lemma w_imported : forall i, i < n -> ex i <> 0%Z -> i_imported (k_imports st (Z.abs_nat (ex i))) = true /\
  i_eliminated (k_imports st (Z.abs_nat (ex i))) = eli i.
Proof. intros i L X. destruct (w_imports st W i L X) as (A & B & _). auto. Qed.
Lemma kept_used : forall i, kept st i = true -> used i.
Proof. intros i K. destruct (kept_cases st i K) as [H|[H _]]; auto. Qed.
Lemma fixed_root : forall i, i < n -> fix_ i = true -> k_values st (2 * i) = Some (tv st i) /\ k_level st i = 0.
Proof.
  intros i L F. apply (w_fixed st W i L) in F as [A B]. split; auto. unfold tv. destruct (k_values st (2 * i)); congruence.
Qed.
Lemma root_value_fixed : forall l, idx l < n -> fix_ (idx l) = true -> root_value st l = Some (xorb (negated l) (tv st (idx l))).
Proof.
  intros l L F. destruct (fixed_root _ L F) as [A B]. unfold root_value. rewrite B. cbn [Nat.eqb].
  assert (V : k_values st l = Some (xorb (negated l) (tv st (idx l)))).
  { destruct (lit_cases l) as [[k ->]|[k ->]]; rewrite ?idx_even, ?idx_odd in *.
    - rewrite A, negated_even. now rewrite xorb_false_l.
    - rewrite <- neg_even, (w_neg st W), A, negated_neg, negated_even. cbn. reflexivity. }
  now rewrite V.
Qed.
Lemma root_value_other : forall l, idx l < n -> fix_ (idx l) = false -> root_value st l = None.
Proof.
  intros l L F. unfold root_value. destruct (k_values st l) as [b|] eqn:V; auto.
  destruct (Nat.eqb_spec (k_level st (idx l)) 0) as [Z|Z]; auto. exfalso.
  assert (T : fix_ (idx l) = true); [|congruence]. apply (w_fixed st W _ L). split; auto. intros N.
  destruct (lit_cases l) as [[k ->]|[k ->]]; rewrite ?idx_even, ?idx_odd in N; [congruence|].
  rewrite <- neg_even, (w_neg st W), N in V. discriminate.
Qed.
Lemma root_value_neg : forall l, root_value st (neg l) = option_map negb (root_value st l).
Proof.
  intros l. unfold root_value. rewrite idx_neg, (w_neg st W). destruct (k_values st l); cbn; auto. destruct (k_level st (idx l) =? 0); auto.
Qed.

Definition set_lit (i : import) (m : lit) : import := mk_import m (i_extension i) (i_imported i) (i_eliminated i).

Record mapped_upto (k : nat) (c : cloop) : Prop := {
  mu_vars : cl_vars c = rank st k;
  mu_fixed : cl_mfixed c = option_map (fixed_lit st) (first_fixed st k);
  mu_exports : forall i, cl_exports c i =
    if (i <? k) && negb (act i) && negb (fix_ i) && negb (eli i) then 0%Z else ex i;
  mu_used : forall i, i < k -> used i ->
    cl_imports c (Z.abs_nat (ex i)) = set_lit (k_imports st (Z.abs_nat (ex i))) (signed (ex i) (target st i));
  mu_none : forall i, i < k -> act i = false -> fix_ i = false -> eli i = false -> ex i <> 0%Z ->
    i_imported (cl_imports c (Z.abs_nat (ex i))) = false;
  mu_other : forall x, (forall i, i < k -> eli i = false -> ex i <> 0%Z -> Z.abs_nat (ex i) <> x) ->
    cl_imports c x = k_imports st x }.

Lemma import_eta : forall i, set_lit i (i_lit i) = i.
Proof. intros []. reflexivity. Qed.

Lemma target_le : forall i, used i -> idx (target st i) <= i /\ target st i <= 2 * i /\ target st i <> S (2 * i).
Proof.
  intros i U. destruct (kept st i) eqn:K.
  - rewrite target_kept by auto. rewrite idx_even. pose proof (rank_le st i). split; [|split]; lia.
  - assert (A : act i = false) by (destruct (act i) eqn:A; auto; rewrite kept_act in K by auto; discriminate).
    destruct U as [U|U]; [congruence|]. destruct (first_fixed_exists st i U) as (f & E & L).
    assert (f < i).
    { destruct (Nat.eq_dec f i) as [->|]; [|lia]. rewrite (kept_first st i (S i) E) in K. discriminate. }
    pose proof (rank_le st f). pose proof (idx_target_fixed st i f A E) as I.
    destruct (lit_cases (target st i)) as [[k T]|[k T]]; rewrite T, ?idx_even, ?idx_odd in *; split; [|split| |split]; lia.
Qed.

Lemma compact_variable_spec : forall k c, k < n -> mapped_upto k c -> wp (compact_variable st c k) (mapped_upto (S k)).
Proof.
  intros k c L M. unfold compact_variable.
  destruct (eli k) eqn:El.
  { assert (A : act k = false).
    { destruct (act k) eqn:A; auto. apply (w_excl st W k L) in A. congruence. }
    assert (F : fix_ k = false).
    { destruct (fix_ k) eqn:F; auto. apply (w_excl st W k L) in F. destruct F. congruence. }
    apply wp_ret. destruct M as [M1 M2 M3 M4 M5 M6]. constructor.
    - rewrite M1. cbn. unfold kept. now rewrite A, F.
    - rewrite M2. cbn. destruct (first_fixed st k); auto. now rewrite F.
    - intros i. rewrite M3. destruct (Nat.eq_dec i k) as [->|N].
      + rewrite El. cbn. now rewrite !andb_false_r.
      + replace (i <? S k) with (i <? k) by lia. reflexivity.
    - intros i Li U. apply M4; auto. destruct (Nat.eq_dec i k) as [->|]; [|lia]. destruct U; congruence.
    - intros i Li A1 F1 E1 X. apply M5; auto. destruct (Nat.eq_dec i k) as [->|]; [congruence|lia].
    - intros x H. apply M6. intros i Li. apply H. lia. }
  (* the common end *)
  assert (Fin : forall c1, cl_imports c1 = cl_imports c -> cl_exports c1 = cl_exports c ->
    cl_vars c1 = rank st (S k) -> cl_mfixed c1 = option_map (fixed_lit st) (first_fixed st (S k)) -> used k ->
    wp (do _ <- oassert (target st k <=? 2 * k) ;
        do _ <- oassert (negb (target st k =? neg (2 * k))) ;
        if target st k =? 2 * k then Ret c1
        else
          do imports <- reimport_literal (cl_imports c1) (Z.abs_nat (cl_exports c1 k)) (signed (cl_exports c1 k) (target st k)) ;
          Ret (mk_cloop imports (cl_exports c1) (cl_mfixed c1) (cl_vars c1))) (mapped_upto (S k))).
  { intros c1 I1 X1 V1 F1 U. destruct (target_le k U) as (T1 & T2 & T3).
    destruct (w_export k L U) as [Xk Lk]. destruct (w_imported k L Xk) as [Ik Ek].
    apply wp_bind, wp_assert; [apply Nat.leb_le; lia|]. apply wp_bind, wp_assert.
    { rewrite neg_even. apply negb_true_iff, Nat.eqb_neq. exact T3. }
    destruct M as [M1 M2 M3 M4 M5 M6].
    assert (Ic : cl_imports c (Z.abs_nat (ex k)) = k_imports st (Z.abs_nat (ex k))).
    { apply M6. intros i Li _ Xi E. apply (w_inj st W i k) in E; auto; lia. }
    assert (Xc : cl_exports c k = ex k).
    { rewrite M3. replace (k <? k) with false by lia. reflexivity. }
    assert (Ex : forall i, cl_exports c i = if (i <? S k) && negb (act i) && negb (fix_ i) && negb (eli i) then 0%Z else ex i).
    { intros i. rewrite M3. destruct (Nat.eq_dec i k) as [->|N].
      - replace (k <? k) with false by lia. replace (k <? S k) with true by lia. cbn [andb]. destruct U as [->| ->]; cbn;
          rewrite ?andb_false_r; reflexivity.
      - replace (i <? S k) with (i <? k) by lia. reflexivity. }
    destruct (Nat.eqb_spec (target st k) (2 * k)) as [T|T].
    - apply wp_ret. constructor.
      + rewrite V1. reflexivity.
      + exact F1.
      + intros i. rewrite X1. apply Ex.
      + intros i Li Ui. rewrite I1. destruct (Nat.eq_dec i k) as [->|N]; [|apply M4; auto; lia].
        rewrite Ic, T, <- Lk. symmetry. apply import_eta.
      + intros i Li A0 F0 E0 X0. rewrite I1. apply M5; auto. destruct (Nat.eq_dec i k) as [->|]; [|lia]. destruct U; congruence.
      + intros x H. rewrite I1. apply M6. intros i Li. apply H. lia.
    - apply wp_bind. unfold reimport_literal. rewrite I1, X1, Xc, Ic, Ik, Ek, El. cbn [oassert obind negb].
      apply wp_ret, wp_ret. constructor; cbn [cl_imports cl_exports cl_mfixed cl_vars].
      + rewrite V1. reflexivity.
      + exact F1.
      + intros i. apply Ex.
      + intros i Li Ui. destruct (Nat.eq_dec i k) as [->|N].
        * rewrite upd_same. unfold set_lit. now rewrite Ik, Ek, El.
        * rewrite upd_other; [apply M4; auto; lia|]. intros E. destruct (w_export i ltac:(lia) Ui) as [Xi _].
          apply (w_inj st W i k) in E; auto. lia.
      + intros i Li A0 F0 E0 X0. rewrite upd_other; [apply M5; auto|].
        * destruct (Nat.eq_dec i k) as [->|]; [|lia]. destruct U; congruence.
        * intros E. apply (w_inj st W i k) in E; auto; [|lia]. subst i. destruct U; congruence.
      + intros x H. rewrite upd_other; [apply M6; intros i Li; apply H; lia|].
        intros ->. apply (H k); auto; lia. }
  destruct (fix_ k) eqn:Fk.
  - assert (Ak : act k = false) by (apply (w_excl st W k L) in Fk; tauto).
    rewrite (root_value_fixed (2 * k)) by (rewrite idx_even; auto). rewrite negated_even, idx_even, xorb_false_l.
    rewrite (mu_fixed _ _ M) at 1. destruct (first_fixed st k) as [f|] eqn:Ff; cbn [option_map].
    + assert (FS : first_fixed st (S k) = Some f) by (cbn; now rewrite Ff).
      rewrite <- (target_fixed st k f Ak FS). apply Fin; auto.
      * rewrite (mu_vars _ _ M). cbn. unfold kept. now rewrite Ak, Fk, Ff.
      * now rewrite (mu_fixed _ _ M), FS, Ff.
    + assert (FS : first_fixed st (S k) = Some k) by (cbn; now rewrite Ff, Fk).
      assert (K : kept st k = true) by (eapply kept_first; eauto).
      replace (2 * cl_vars c) with (target st k) by (rewrite (mu_vars _ _ M); now apply target_kept). apply Fin; cbn; auto.
      * rewrite (mu_vars _ _ M), K. reflexivity.
      * rewrite Ff, Fk. cbn. unfold fixed_lit. rewrite target_kept by auto. now rewrite neg_even.
  - destruct (act k) eqn:Ak.
    + assert (K : kept st k = true) by (now apply kept_act).
      replace (2 * cl_vars c) with (target st k) by (rewrite (mu_vars _ _ M); now apply target_kept). apply Fin; cbn; auto.
      * rewrite (mu_vars _ _ M), K. reflexivity.
      * rewrite (mu_fixed _ _ M), Fk. now destruct (first_fixed st k).
    + assert (Xc : cl_exports c k = ex k).
      { rewrite (mu_exports _ _ M). replace (k <? k) with false by lia. reflexivity. }
      rewrite Xc. destruct M as [M1 M2 M3 M4 M5 M6].
      assert (R : rank st (S k) = rank st k) by (cbn; unfold kept; now rewrite Ak, Fk).
      assert (Ff : first_fixed st (S k) = first_fixed st k) by (cbn; rewrite Fk; now destruct (first_fixed st k)).
      destruct (Z.eqb_spec (ex k) 0) as [Z|Z].
      * apply wp_ret. constructor.
        -- now rewrite R.
        -- now rewrite Ff.
        -- intros i. rewrite M3. destruct (Nat.eq_dec i k) as [->|N].
           ++ rewrite Z. match goal with |- (if ?a then _ else _) = (if ?b then _ else _) => now destruct a, b end.
           ++ replace (i <? S k) with (i <? k) by lia. reflexivity.
        -- intros i Li U. apply M4; auto. destruct (Nat.eq_dec i k) as [->|]; [|lia]. destruct U; congruence.
        -- intros i Li A0 F0 E0 X0. apply M5; auto. destruct (Nat.eq_dec i k) as [->|]; [congruence|lia].
        -- intros x H. apply M6. intros i Li. apply H. lia.
      * destruct (w_imported k L Z) as [Ik Ek].
        assert (Ic : cl_imports c (Z.abs_nat (ex k)) = k_imports st (Z.abs_nat (ex k))).
        { apply M6. intros i Li _ Xi E. apply (w_inj st W i k) in E; auto; lia. }
        rewrite Ic, Ik, Ek, El. cbn [oassert obind negb]. apply wp_ret.
        constructor; cbn [cl_imports cl_exports cl_mfixed cl_vars].
        -- now rewrite R.
        -- now rewrite Ff.
        -- intros i. unfold upd. destruct (Nat.eqb_spec i k) as [->|N].
           ++ rewrite Ak, Fk, El. replace (k <? S k) with true by lia. reflexivity.
           ++ rewrite M3. replace (i <? S k) with (i <? k) by lia. reflexivity.
        -- intros i Li U. assert (N : i <> k) by (intros ->; destruct U; congruence).
           rewrite upd_other; [apply M4; auto; lia|]. intros E.
           destruct (w_export i ltac:(lia) U) as [Xi _]. apply (w_inj st W i k) in E; auto. lia.
        -- intros i Li A0 F0 E0 X0. destruct (Nat.eq_dec i k) as [->|N]; [now rewrite upd_same|].
           rewrite upd_other; [apply M5; auto; lia|]. intros E. apply (w_inj st W i k) in E; auto. lia.
        -- intros x H. rewrite upd_other; [apply M6; intros i Li; apply H; lia|]. intros ->. apply (H k); auto.
Qed.

(** The number of kept variables. *)
Lemma rank_count : forall k, k <= n -> rank st k = length (filter (fun i => act i) (seq 0 k)) +
  match first_fixed st k with Some _ => 1 | None => 0 end.
Proof.
  induction k as [|k IH]; intros L; [reflexivity|]. rewrite seq_S, filter_app, app_length. cbn [Nat.add filter rank].
  specialize (IH ltac:(lia)). unfold kept. cbn [first_fixed]. destruct (act k) eqn:A; cbn [orb length].
  - destruct (fix_ k) eqn:F; [apply (w_excl st W k) in F; [destruct F; congruence|lia]|].
    destruct (first_fixed st k); cbn; lia.
  - destruct (fix_ k) eqn:F; cbn [andb]; destruct (first_fixed st k); cbn; lia.
Qed.

Lemma compact_literals_spec : wp (compact_literals st) (mapped_upto n).
Proof.
  unfold compact_literals. apply wp_bind. eapply wp_mono.
  { apply (wp_oseq _ (compact_variable st) mapped_upto n).
    - constructor; cbn; auto; intros; try lia.
    - intros i a L M. apply compact_variable_spec; auto. }
  intros c M. cbn beta. apply wp_bind, wp_assert; [|apply wp_ret; exact M].
  rewrite (mu_vars _ _ M), rank_count by lia. unfold count_active. destruct (first_fixed st n); [rewrite orb_true_iff; right|rewrite orb_true_iff; left];
    apply Nat.eqb_eq; lia.
Qed.

Lemma abs_nat_opp : forall e, Z.abs_nat (- e) = Z.abs_nat e.
Proof. intros. lia. Qed.

(** The literal map of the first phase. *)
Lemma map_literal_some : forall imports exports l e i, exports (idx l) = e -> e <> 0%Z -> imports (Z.abs_nat e) = i ->
  i_eliminated i = false -> map_literal imports exports l = Some (with_sign l (signed e (i_lit i))).
Proof.
  intros imports exports l e i E N I El. unfold map_literal, export_literal, with_sign. rewrite E.
  destruct (negated l).
  - destruct (Z.eqb_spec (- e) 0); [lia|]. rewrite abs_nat_opp, I, El. now rewrite signed_neg.
  - destruct (Z.eqb_spec e 0); [lia|]. now rewrite I, El.
Qed.

Lemma map_used : forall c l, mapped_upto n c -> idx l < n -> used (idx l) ->
  map_literal (cl_imports c) (cl_exports c) l = Some (mlit st l).
Proof.
  intros c l M L U. destruct (w_export _ L U) as [X _]. destruct (w_imported _ L X) as [I E].
  rewrite (map_literal_some _ _ l (ex (idx l)) _ ) with (3 := eq_refl); auto.
  - rewrite (mu_used _ _ M) by auto. cbn. now rewrite signed_signed.
  - rewrite (mu_exports _ _ M). destruct U as [-> | ->]; cbn; now rewrite ?andb_false_r.
  - rewrite (mu_used _ _ M) by auto. cbn. rewrite E. now apply used_not_eli.
Qed.

Lemma map_unused : forall c l, mapped_upto n c -> idx l < n -> act (idx l) = false -> fix_ (idx l) = false ->
  map_literal (cl_imports c) (cl_exports c) l = None.
Proof.
  intros c l M L A F. unfold map_literal, export_literal. rewrite (mu_exports _ _ M), A, F.
  replace (idx l <? n) with true by lia. cbn [negb andb]. destruct (eli (idx l)) eqn:E; cbn [negb].
  - destruct (Z.eqb_spec (ex (idx l)) 0) as [Z|Z].
    + rewrite Z. cbn. destruct (negated l); reflexivity.
    + destruct (w_imported _ L Z) as [I1 I2].
      assert (G : i_eliminated (cl_imports c (Z.abs_nat (ex (idx l)))) = true).
      { rewrite (mu_other _ _ M); [congruence|]. intros i Li Ei Xi Q. apply (w_inj st W i (idx l)) in Q; auto. congruence. }
      destruct (negated l).
      * destruct (Z.eqb_spec (- ex (idx l)) 0); [lia|]. now rewrite abs_nat_opp, G.
      * destruct (Z.eqb_spec (ex (idx l)) 0); [lia|]. now rewrite G.
  - destruct (negated l); reflexivity.
Qed.
End Map.
