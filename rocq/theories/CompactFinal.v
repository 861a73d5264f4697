(** Compaction: the end of compaction and what is known about its result. *)
From Coq Require Import ZArith List Bool Lia Arith Permutation.
From Coq Require Import ZifyBool ZifyNat.
From Verif Require Import Base Lit Hoare Api Queue QueueFacts Compact CompactFacts CompactMap CompactCollect CompactQueue.
Import ListNotations.
Open Scope nat_scope.
Open Scope outcome_scope.

(** The result of compaction, described entry by entry. *)
Record compacted (st : cstate) (w : lit -> list cwatch) (cs : list cclause) (st' : cstate) : Prop := {
  r_vars : k_vars st' = rank st (k_vars st);
  r_flags : forall i, i < k_vars st -> kept st i = true -> k_flags st' (rank st i) = k_flags st i;
  r_values : forall l, idx l < k_vars st -> kept st (idx l) = true -> k_values st' (mlit st l) = k_values st l;
  r_level : forall i, i < k_vars st -> kept st i = true -> k_level st' (rank st i) = k_level st i;
  r_reason : forall l, In l (k_trail st) -> k_reason st' (rank st (idx l)) = option_map (mlit st) (k_reason st (idx l));
  r_beyond : forall i, rank st (k_vars st) <= i -> k_flags st' i = no_flags /\ k_values st' (2 * i) = None /\
    k_values st' (S (2 * i)) = None /\ k_level st' i = 0 /\ k_watches st' (2 * i) = [] /\ k_watches st' (S (2 * i)) = [];
  r_exports : forall i, i < k_vars st -> kept st i = true -> k_exports st' (rank st i) = k_exports st i;
  r_used : forall i, i < k_vars st -> f_active (k_flags st i) = true \/ f_fixed (k_flags st i) = true ->
    k_imports st' (Z.abs_nat (k_exports st i)) =
    set_lit (k_imports st (Z.abs_nat (k_exports st i))) (signed (k_exports st i) (target st i));
  r_none : forall i, i < k_vars st -> f_active (k_flags st i) = false -> f_fixed (k_flags st i) = false ->
    f_eliminated (k_flags st i) = false -> k_exports st i <> 0%Z -> i_imported (k_imports st' (Z.abs_nat (k_exports st i))) = false;
  r_unit : forall e, In e (k_units st) -> exists f, first_fixed st (k_vars st) = Some f /\
    k_imports st' (Z.abs_nat e) = set_lit (k_imports st (Z.abs_nat e)) (signed e (fixed_lit st f));
  r_other : forall x, (forall i, i < k_vars st -> f_eliminated (k_flags st i) = false -> k_exports st i <> 0%Z ->
      Z.abs_nat (k_exports st i) <> x) -> (forall e, In e (k_units st) -> Z.abs_nat e <> x) ->
    k_imports st' x = k_imports st x;
  r_units : k_units st' = k_units st;
  r_gone : k_gone st' = k_gone st;
  r_watches : forall m, m < 2 * rank st (k_vars st) -> k_watches st' m = w m;
  r_clauses : k_clauses st' = cs;
  r_trail : k_trail st' = map (mlit st) (k_trail st);
  r_frames : k_frames st' = map (mlit st) (k_frames st);
  r_queue : forall L, qinv (k_vars st) L (k_queue st) -> (forall i, In i L -> f_active (k_flags st i) = true) ->
    qinv (rank st (k_vars st)) (map (rank st) L) (k_queue st') /\
    (forall i, In i L -> qvalue (k_queue st') (rank st i) = qvalue (k_queue st) i) /\
    qstable (k_queue st') = qstable (k_queue st) }.

Section Final.
Variable st : cstate.
Hypothesis W : cwf st.
Notation n := (k_vars st).
Notation act i := (f_active (k_flags st i)).
Notation fix_ i := (f_fixed (k_flags st i)).
Notation eli i := (f_eliminated (k_flags st i)).
Notation ex i := (k_exports st i).
Notation used i := (f_active (k_flags st i) = true \/ f_fixed (k_flags st i) = true).
Variable c : cloop.
Hypothesis M : mapped_upto st n c.
Variables (w : lit -> list cwatch) (cs : list cclause).
Hypothesis Beyond : forall m, 2 * n <= m -> w m = [].

(** Units and the external variables which are exported. *)
Lemma unit_exported : forall e i, In e (k_units st) -> i < n -> eli i = false -> ex i <> 0%Z -> Z.abs_nat (ex i) = Z.abs_nat e ->
  fix_ i = true /\ signed (ex i) (target st i) =
    signed e (match first_fixed st n with Some f => fixed_lit st f | None => 0 end).
Proof.
  intros e i I L E X Q. destruct (w_units st W e I) as (E0 & I1 & I2 & F & V).
  destruct (w_imports st W i L X) as (_ & _ & Li). specialize (Li E). rewrite <- Q in F, V. rewrite Li in F, V.
  rewrite idx_signed, idx_even in F. split; auto.
  assert (Al : act i = false) by (apply (w_excl st W i L) in F; tauto).
  destruct (first_fixed_exists st i F) as (f & Ff & _). rewrite (target_fixed st i f Al Ff).
  rewrite (first_fixed_mono st (S i) n f Ff) by lia.
  destruct (fixed_root st W i L F) as [T _]. unfold signed in *. destruct (Z.ltb_spec (ex i) 0) as [Neg|Pos].
  - rewrite (w_neg st W), T in V. cbn in V. injection V as V. destruct (tv st i); destruct (Z.ltb_spec e 0); cbn in V; try lia; auto.
    now rewrite neg_neg.
  - rewrite T in V. injection V as V. destruct (tv st i); destruct (Z.ltb_spec e 0); try lia; auto.
Qed.

Lemma unit_first : forall e, In e (k_units st) -> exists f, first_fixed st n = Some f.
Proof.
  intros e I. destruct (w_units st W e I) as (E0 & I1 & I2 & F & V). destruct (w_import st W _ I1 I2) as [L _].
  destruct (first_fixed_exists st _ F) as (f & Ff & _). exists f. apply (first_fixed_mono st _ n f Ff). lia.
Qed.

(** The imported literal of a unit before the units are compacted. *)
Lemma unit_before : forall e, In e (k_units st) ->
  cl_imports c (Z.abs_nat e) = set_lit (k_imports st (Z.abs_nat e)) (i_lit (cl_imports c (Z.abs_nat e))).
Proof.
  intros e I. destruct (w_units st W e I) as (E0 & I1 & I2 & F & V). destruct (w_import st W _ I1 I2) as [L Ex].
  set (i := idx (i_lit (k_imports st (Z.abs_nat e)))) in *.
  destruct (Z.eq_dec (ex i) 0) as [Z|Z]; [|destruct (Nat.eq_dec (Z.abs_nat (ex i)) (Z.abs_nat e)) as [Q|Q]].
  1,3: rewrite (mu_other st _ _ M); [symmetry; apply import_eta|];
    intros j Lj Ej Xj Qj; destruct (w_imports st W j Lj Xj) as (_ & _ & Ij); specialize (Ij Ej); rewrite Qj in Ij;
    assert (j = i) by (unfold i; rewrite Ij, idx_signed, idx_even; reflexivity); subst j; contradiction.
  rewrite <- Q. rewrite (mu_used st _ _ M i L (or_intror F)). reflexivity.
Qed.

Lemma kept_cut : forall i, i < n -> (if (i <? n) && negb (act i) && negb (fix_ i) && negb (eli i) then 0%Z else ex i) =
  cl_exports c i.
Proof. intros i L. rewrite (mu_exports st _ _ M). reflexivity. Qed.
Lemma kept_export : forall i, i < n -> kept st i = true -> cl_exports c i = ex i /\ ex i <> 0%Z.
Proof.
  intros i L K. apply kept_used in K. split.
  - rewrite (mu_exports st _ _ M). destruct K as [-> | ->]; cbn; now rewrite ?andb_false_r.
  - now apply (w_exported st W).
Qed.

Definition st1 : cstate :=
  mk_cstate n (k_flags st) (k_values st) (k_level st) (k_reason st) (cl_imports c) (cl_exports c) (k_units st)
    (k_gone st) w cs (k_trail st) (k_frames st) (k_queue st).

Lemma unexport_spec : wp (ofold (unexport st1) (seq 0 n) (cl_exports c, true))
  (fun r => forall i, i < n -> fst r i = if kept st i then ex i else 0%Z).
Proof.
  eapply wp_mono; [apply (wp_oseq _ (unexport st1) (fun k r =>
    (forall i, i < n -> fst r i = if i <? k then (if kept st i then ex i else 0%Z) else cl_exports c i) /\
    snd r = match first_fixed st k with None => true | Some _ => false end))|].
  - split; auto.
  - intros k [exports first] Lk [H1 H2]. cbn [fst snd] in *. unfold unexport. cbn [k_flags st1].
    assert (Out : forall i, i <> k -> (i <? S k) = (i <? k)) by (intros; lia).
    assert (In_ : (k <? S k) = true /\ (k <? k) = false) by lia. destruct In_ as [In1 In2].
    destruct (fix_ k && first) eqn:E1.
    + apply andb_true_iff in E1 as [F1 ->]. destruct (first_fixed st k) eqn:Ff; [discriminate H2|].
      apply wp_ret. cbn [fst snd]. split; [|cbn; now rewrite Ff, F1].
      intros i Li. destruct (Nat.eq_dec i k) as [->|N]; [|rewrite Out; auto].
      assert (K : kept st k = true) by (unfold kept; rewrite F1, Ff; apply orb_true_r).
      rewrite In1, K, H1, In2 by auto. apply kept_export; auto.
    + assert (Ff : first_fixed st (S k) = None <-> first_fixed st k = None).
      { cbn. destruct (first_fixed st k) eqn:Q; [split; auto|]. rewrite H2, andb_true_r in E1. rewrite E1. tauto. }
      assert (Sn : first = match first_fixed st (S k) with None => true | Some _ => false end).
      { rewrite H2. destruct (first_fixed st k) eqn:Q1, (first_fixed st (S k)) eqn:Q2; auto; destruct Ff as [F1 F2];
          [discriminate (F1 eq_refl)|discriminate (F2 eq_refl)]. }
      destruct (act k) eqn:A; cbn [negb]; apply wp_ret; cbn [fst snd]; (split; [|exact Sn]); intros i Li.
      * destruct (Nat.eq_dec i k) as [->|N]; [|rewrite Out; auto].
        rewrite In1, (kept_act st k A), H1, In2 by auto. apply kept_export; auto. now apply kept_act.
      * unfold upd. destruct (Nat.eqb_spec i k) as [->|N]; [|rewrite Out; auto].
        rewrite In1. unfold kept. rewrite A. cbn [orb].
        destruct (first_fixed st k); [now rewrite andb_false_r|]. rewrite H2, andb_true_r in E1. now rewrite E1.
  - intros r [H _] i L. rewrite H by auto. now replace (i <? n) with true by lia.
Qed.

Section After.
(** The exported literals of the second phase. *)
Variable exports : nat -> Z.
Hypothesis Exp : forall i, i < n -> exports i = if kept st i then ex i else 0%Z.
Variable imports : nat -> import.
Hypothesis Imp : forall i, i < n -> used i -> imports (Z.abs_nat (ex i)) = set_lit (k_imports st (Z.abs_nat (ex i))) (signed (ex i) (target st i)).

Lemma map2_kept : forall l, idx l < n -> kept st (idx l) = true -> map_literal imports exports l = Some (mlit st l).
Proof.
  intros l L K. pose proof (kept_used st _ K) as U. destruct (w_export st W _ L U) as [X _]. destruct (w_imported st W _ L X) as [I E].
  rewrite (map_literal_some imports exports l (ex (idx l)) _ ) with (3 := eq_refl); auto.
  - rewrite Imp by auto. cbn [set_lit i_lit]. now rewrite signed_signed.
  - rewrite Exp, K by auto. reflexivity.
  - rewrite Imp by auto. cbn [set_lit i_eliminated]. rewrite E. now apply (used_not_eli st W).
Qed.
Lemma map2_none : forall l, idx l < n -> kept st (idx l) = false -> map_literal imports exports l = None.
Proof. intros l L K. unfold map_literal, export_literal. rewrite Exp, K by auto. now destruct (negated l). Qed.

Definition midx (i : nat) : option nat := if kept st i then Some (rank st i) else None.
Lemma map_idx_gen : forall exports' i, i < n -> exports' i = (if kept st i then ex i else 0%Z) ->
  map_idx imports exports' i = Ret (midx i).
Proof.
  intros exports' i L E. unfold map_idx, midx. rewrite E. destruct (kept st i) eqn:K; [|reflexivity].
  pose proof (kept_used st _ K) as U. destruct (w_export st W _ L U) as [X _]. destruct (w_imported st W _ L X) as [I El].
  destruct (Z.eqb_spec (ex i) 0); [lia|]. rewrite Imp by auto. cbn [set_lit i_imported i_eliminated i_lit].
  rewrite I, El, (used_not_eli st W i L U). cbn [oassert obind]. rewrite idx_signed, (target_kept st i K), idx_even.
  pose proof (rank_le st i). replace (rank st i <=? i) with true by lia. reflexivity.
Qed.
Lemma midx_le : forall i j, midx i = Some j -> j <= i.
Proof. unfold midx. intros i j. destruct (kept st i); [|discriminate]. intros E. injection E as <-. apply rank_le. Qed.
Lemma midx_inc : forall i k j j', i < k -> midx i = Some j -> midx k = Some j' -> j < j'.
Proof.
  unfold midx. intros i k j j' L A B. destruct (kept st i) eqn:K; [|discriminate]. destruct (kept st k); [|discriminate].
  injection A as <-. injection B as <-. now apply rank_lt.
Qed.

Lemma trail_spec : wp (ofold (compact_trail_literal imports exports) (k_trail st) ([], k_reason st)) (fun r =>
  fst r = map (mlit st) (k_trail st) /\
  (forall l, In l (k_trail st) -> snd r (idx l) = option_map (mlit st) (k_reason st (idx l))) ).
Proof.
  eapply wp_mono; [apply (wp_ofold _ _ (compact_trail_literal imports exports) (fun p r =>
    fst r = map (mlit st) p /\
    (forall l, In l p -> snd r (idx l) = option_map (mlit st) (k_reason st (idx l))) /\
    (forall i, ~ In i (map idx p) -> snd r i = k_reason st i)))|].
  - cbn. split; auto. split; auto. intros l [].
  - intros p l s [tr rs] E (H1 & H2 & H3). cbn [fst snd] in *. unfold compact_trail_literal.
    destruct (w_trail st W l) as (L & A & R); [rewrite E; apply in_or_app; right; now left|]. apply idx_lt in L.
    rewrite (map2_kept l L (kept_act st _ A)).
    assert (Ni : ~ In (idx l) (map idx p)).
    { pose proof (w_once st W) as Nd. rewrite E, map_app in Nd. cbn [map] in Nd. apply NoDup_remove_2 in Nd. intros H. apply Nd.
      apply in_or_app. now left. }
    rewrite (H3 _ Ni). destruct (k_reason st (idx l)) as [o|] eqn:Ro.
    + destruct (R o eq_refl) as [Lo Ao]. apply idx_lt in Lo. rewrite (map2_kept o Lo (kept_act st _ Ao)).
      apply wp_ret. cbn [fst snd]. split; [rewrite H1, map_app; reflexivity|]. split.
      * intros k K. apply in_app_or in K as [K|[<-|[]]].
        -- rewrite upd_other; auto. intros Q. apply Ni. rewrite <- Q. now apply in_map.
        -- rewrite upd_same, Ro. reflexivity.
      * intros i Hi. rewrite map_app in Hi. rewrite upd_other; [apply H3; intros Q; apply Hi, in_or_app; now left|].
        intros ->. apply Hi, in_or_app. right. now left.
    + apply wp_ret. cbn [fst snd]. split; [rewrite H1, map_app; reflexivity|]. split.
      * intros k K. apply in_app_or in K as [K|[<-|[]]]; auto. rewrite (H3 _ Ni), Ro. reflexivity.
      * intros i Hi. rewrite map_app in Hi. apply H3. intros Q. apply Hi, in_or_app. now left.
  - intros r (A & B & _). auto.
Qed.

Lemma frames_spec : wp (ofold (compact_frame imports exports) (k_frames st) []) (fun r => r = map (mlit st) (k_frames st)).
Proof.
  eapply wp_mono; [apply (wp_ofold _ _ (compact_frame imports exports) (fun p r => r = map (mlit st) p))|auto].
  - reflexivity.
  - intros p l s r E ->. unfold compact_frame.
    destruct (w_frames st W l) as (L & A); [rewrite E; apply in_or_app; right; now left|]. apply idx_lt in L.
    rewrite (map2_kept l L (kept_act st _ A)). apply wp_ret. rewrite map_app. reflexivity.
Qed.

Lemma arrays_spec : forall reason, wp (ofold (compact_arrays imports exports) (seq 0 n) (mk_carrays (k_level st) reason (k_flags st) (k_values st)))
  (fun a => (forall i, i < n -> kept st i = true -> ca_level a (rank st i) = k_level st i /\ ca_reason a (rank st i) = reason i /\
               ca_flags a (rank st i) = k_flags st i) /\
            (forall l, idx l < n -> kept st (idx l) = true -> ca_values a (mlit st l) = k_values st l)).
Proof.
  intros reason. eapply wp_mono; [apply (wp_oseq _ (compact_arrays imports exports) (fun k a =>
    ((forall i, i < k -> kept st i = true -> ca_level a (rank st i) = k_level st i /\ ca_reason a (rank st i) = reason i /\
               ca_flags a (rank st i) = k_flags st i) /\
     (forall l, idx l < k -> kept st (idx l) = true -> ca_values a (mlit st l) = k_values st l)) /\
    (forall i, k <= i -> ca_level a i = k_level st i /\ ca_reason a i = reason i /\ ca_flags a i = k_flags st i) /\
    (forall l, k <= idx l -> ca_values a l = k_values st l)))|].
  - cbn. split; [split; intros; lia|auto].
  - intros k a Lk [[H1 H2] [H3 H4]]. unfold compact_arrays.
    destruct (kept st k) eqn:K.
    + rewrite (map2_kept (2 * k)) by (rewrite idx_even; auto). rewrite (mlit_even st k K).
      pose proof (rank_le st k) as Rk. destruct (Nat.eqb_spec (2 * k) (2 * rank st k)) as [Q|Q]; cbn [negb].
      * assert (Qr : rank st k = k) by lia. apply wp_ret. split; [split|split].
        -- intros i Li Ki. destruct (Nat.eq_dec i k) as [->|N]; [rewrite Qr; apply H3; lia|apply H1; auto; lia].
        -- intros l Ll Kl. destruct (Nat.eq_dec (idx l) k) as [E|N]; [|apply H2; auto; lia].
           rewrite mlit_kept, E, Qr by auto. rewrite <- E, with_sign_self. apply H4. lia.
        -- intros i Li. apply H3. lia.
        -- intros l Ll. apply H4. lia.
      * unfold compact_literal. rewrite !neg_even, !idx_even.
        apply wp_bind, wp_assert; [apply Nat.ltb_lt; lia|]. apply wp_bind, wp_assert; [apply negb_true_iff, Nat.eqb_neq; lia|].
        apply wp_ret. cbn [ca_level ca_reason ca_flags ca_values]. destruct (H3 k (Nat.le_refl k)) as (B1 & B2 & B3).
        split; [split|split].
        -- intros i Li Ki. destruct (Nat.eq_dec i k) as [->|N]; [rewrite !upd_same; auto|].
           assert (rank st i < rank st k) by (apply rank_lt; auto; lia). rewrite !upd_other by lia. apply H1; auto. lia.
        -- intros l Ll Kl. destruct (Nat.eq_dec (idx l) k) as [E|N].
           ++ assert (B4 : ca_values a (2 * k) = k_values st (2 * k)) by (apply H4; rewrite idx_even; lia).
              assert (B5 : ca_values a (S (2 * k)) = k_values st (S (2 * k))) by (apply H4; rewrite idx_odd; lia).
              destruct (lit_cases l) as [[j ->]|[j ->]]; rewrite ?idx_even, ?idx_odd in E; subst j.
              ** rewrite (mlit_even st k K). rewrite upd_other by lia. rewrite upd_same. exact B4.
              ** replace (mlit st (S (2 * k))) with (S (2 * rank st k)) by (rewrite <- (neg_even k), (mlit_neg st), (mlit_even st k K), neg_even; reflexivity).
                 rewrite upd_same. rewrite upd_other by lia. exact B5.
           ++ assert (R : rank st (idx l) < rank st k) by (apply rank_lt; auto; lia).
              assert (I : idx (mlit st l) < rank st k) by (rewrite idx_mlit; auto). apply idx_lt in I.
              rewrite !upd_other by lia. apply H2; auto. lia.
        -- intros i Li. rewrite !upd_other by lia. apply H3. lia.
        -- intros l Ll. assert (2 * S k <= l) by (destruct (Nat.lt_ge_cases l (2 * S k)) as [X|X]; auto; apply idx_lt in X; lia).
           rewrite !upd_other by lia. apply H4. lia.
    + rewrite (map2_none (2 * k)) by (rewrite idx_even; auto). apply wp_ret. split; [split|split].
      * intros i Li Ki. apply H1; auto. destruct (Nat.eq_dec i k) as [->|]; [congruence|lia].
      * intros l Ll Kl. apply H2; auto. destruct (Nat.eq_dec (idx l) k) as [E|]; [congruence|lia].
      * intros i Li. apply H3. lia.
      * intros l Ll. apply H4. lia.
  - intros a [H _]. exact H.
Qed.

Lemma export_spec : wp (ofold (compact_export imports) (seq 0 n) exports) (fun e =>
  forall i, i < n -> kept st i = true -> e (rank st i) = ex i).
Proof.
  eapply wp_mono; [apply (move_in_place _ midx (compact_export imports) n exports)|].
  - intros i j _. apply midx_le.
  - intros i k j j' L _. now apply midx_inc.
  - intros b i L B. unfold compact_export.
    assert (Eb : b i = if kept st i then ex i else 0%Z) by (rewrite B by lia; auto). rewrite (map_idx_gen b i L Eb).
    unfold midx. rewrite Eb. destruct (kept st i) eqn:K; [|intros k; reflexivity].
    destruct (kept_export i L K) as [_ X]. destruct (Z.eqb_spec (ex i) 0); [contradiction|]. cbn [obind].
    intros k. unfold upd. reflexivity.
  - intros e [H _] i L K. rewrite (H i (rank st i)); auto; [rewrite Exp, K by auto; reflexivity|]. unfold midx. now rewrite K.
Qed.
End After.

Lemma units_spec : forall f, first_fixed st n = Some f -> wp (ofold (compact_unit (fixed_lit st f)) (k_units st) (cl_imports c)) (fun imports =>
  (forall e, In e (k_units st) -> imports (Z.abs_nat e) = set_lit (k_imports st (Z.abs_nat e)) (signed e (fixed_lit st f))) /\
  (forall x, (forall e, In e (k_units st) -> Z.abs_nat e <> x) -> imports x = cl_imports c x)).
Proof.
  intros f Ff. apply (wp_ofold _ _ (compact_unit (fixed_lit st f)) (fun p imports =>
    (forall e, In e p -> imports (Z.abs_nat e) = set_lit (k_imports st (Z.abs_nat e)) (signed e (fixed_lit st f))) /\
    (forall x, (forall e, In e p -> Z.abs_nat e <> x) -> imports x = cl_imports c x))).
  - split; [intros e []|auto].
  - intros p e s imports E [H1 H2]. assert (I : In e (k_units st)) by (rewrite E; apply in_or_app; right; now left).
    destruct (w_units st W e I) as (E0 & I1 & I2 & F & V).
    assert (Cur : imports (Z.abs_nat e) = set_lit (k_imports st (Z.abs_nat e)) (i_lit (imports (Z.abs_nat e)))).
    { destruct (in_dec Nat.eq_dec (Z.abs_nat e) (map Z.abs_nat p)) as [Q|Q].
      - apply in_map_iff in Q as (e' & Q1 & Q2). rewrite <- Q1. rewrite (H1 e' Q2). reflexivity.
      - rewrite H2; [now apply unit_before|]. intros e' Q1 Q2. apply Q. rewrite <- Q2. now apply in_map. }
    assert (Same : forall e', In e' p -> Z.abs_nat e' = Z.abs_nat e -> e' = e).
    { intros e' Q1 Q2. assert (I' : In e' (k_units st)) by (rewrite E; apply in_or_app; now left).
      destruct (w_units st W e' I') as (E0' & _ & _ & _ & V'). rewrite Q2, V in V'. injection V' as V'. lia. }
    assert (Sg : (if (e <? 0)%Z then neg (fixed_lit st f) else fixed_lit st f) = signed e (fixed_lit st f)) by reflexivity.
    unfold compact_unit. rewrite Sg, Cur. cbn [set_lit i_imported i_eliminated i_lit]. rewrite I1, I2. cbn [oassert obind negb].
    destruct (Nat.eqb_spec (signed e (fixed_lit st f)) (i_lit (imports (Z.abs_nat e)))) as [Q|Q]; cbn [negb].
    + apply wp_ret. split.
      * intros e' I'. apply in_app_or in I' as [I'|[<-|[]]]; auto. rewrite Cur, <- Q. reflexivity.
      * intros x H. apply H2. intros e' I'. apply H. apply in_or_app. now left.
    + unfold reimport_literal. rewrite Cur. cbn [set_lit i_imported i_eliminated i_lit i_extension]. rewrite I1, I2.
      cbn [oassert obind negb]. apply wp_ret. split.
      * intros e' I'. unfold upd. destruct (Nat.eqb_spec (Z.abs_nat e') (Z.abs_nat e)) as [Q'|Q'].
        -- assert (e' = e) by (apply in_app_or in I' as [I'|[<-|[]]]; auto). subst e'. unfold set_lit. now rewrite I1, I2.
        -- apply in_app_or in I' as [I'|[<-|[]]]; [auto|congruence].
      * intros x H. rewrite upd_other; [apply H2; intros e' I'; apply H, in_or_app; now left|].
        intros ->. apply (H e); auto. apply in_or_app. right. now left.
Qed.

(** Nothing changes if all variables are kept. *)
Lemma early : rank st n = n -> compacted st w cs st1.
Proof.
  intros R. pose proof (rank_full st n R) as Full. assert (Ml : forall l, idx l < n -> mlit st l = l) by (intros; now apply (mlit_full st n)).
  assert (NoNone : forall i, i < n -> used i) by (intros i L; apply (kept_used st), Full; auto).
  assert (MlT : forall l, In l (k_trail st) -> mlit st l = l) by (intros l I; destruct (w_trail st W l I) as (X & _); apply Ml, idx_lt, X).
  assert (MlF : forall l, In l (k_frames st) -> mlit st l = l) by (intros l I; destruct (w_frames st W l I) as (X & _); apply Ml, idx_lt, X).
  assert (Same : forall l, (forall x, In x l -> mlit st x = x) -> l = map (mlit st) l).
  { induction l as [|x l IH]; intros H; auto. cbn. rewrite H by (now left). f_equal. apply IH. intros y Y. apply H. now right. }
  constructor; unfold st1; cbn [k_vars k_flags k_values k_level k_reason k_imports k_exports k_units k_gone k_watches k_clauses k_trail k_frames k_queue]; auto.
  - intros i L K. now rewrite (proj2 (Full i L)).
  - intros i L K. now rewrite (proj2 (Full i L)).
  - intros l I. destruct (w_trail st W l I) as (L & A & Rs). apply idx_lt in L. rewrite (proj2 (Full _ L)).
    destruct (k_reason st (idx l)) as [o|] eqn:Ro; auto. cbn. rewrite Ml; auto. apply idx_lt, (Rs o eq_refl).
  - intros i L. rewrite R in L. destruct (w_beyond st W i L) as (A & B & C & D & E). split; auto. split; auto. split; [|split; auto].
    + rewrite <- neg_even, (w_neg st W), B. reflexivity.
    + split; apply Beyond; lia.
  - intros i L K. rewrite (proj2 (Full i L)). apply kept_export; auto.
  - intros i L U. apply (mu_used st _ _ M i L U).
  - intros i L A F. destruct (NoNone i L); congruence.
  - intros e I. destruct (unit_first e I) as (f & Ff). exists f. split; auto.
    rewrite (unit_before e I) at 1. f_equal.
    destruct (w_units st W e I) as (E0 & I1 & I2 & F & V). destruct (w_import st W _ I1 I2) as [L Ex].
    remember (idx (i_lit (k_imports st (Z.abs_nat e)))) as i eqn:Ei.
    assert (Fi : f = i).
    { destruct (Full i L) as [K _]. destruct (kept_cases st i K) as [A|[_ G]].
      - apply (w_excl st W i L) in F. destruct F. congruence.
      - apply (first_fixed_mono st (S i) n) in G; [congruence|lia]. }
    subst f.
    destruct (Z.eq_dec (ex i) 0) as [Z|Z]; [apply (w_exported st W i L) in Z; [contradiction|now right]|].
    destruct (Nat.eq_dec (Z.abs_nat (ex i)) (Z.abs_nat e)) as [Q|Q].
    + destruct (unit_exported e i I L) as [_ G]; auto; [now apply (used_not_eli st W i L); right|]. rewrite Ff in G. rewrite <- G.
      rewrite <- Q, (mu_used st _ _ M i L (or_intror F)). reflexivity.
    + rewrite (mu_other st _ _ M).
      * destruct (fixed_root st W i L F) as [T _].
        unfold fixed_lit. rewrite (proj2 (Full i L)).
        destruct (lit_cases (i_lit (k_imports st (Z.abs_nat e)))) as [[j J]|[j J]]; rewrite J, ?idx_even, ?idx_odd in Ei; subst j; rewrite J in V |- *.
        -- rewrite T in V. injection V as V. unfold signed. rewrite V. destruct (Z.ltb_spec e 0), (Z.ltb_spec 0 e); try lia; auto.
           now rewrite neg_odd.
        -- rewrite <- neg_even, (w_neg st W), T in V. cbn in V. injection V as V. unfold signed.
           destruct (tv st i); destruct (Z.ltb_spec e 0), (Z.ltb_spec 0 e); cbn in V; try lia; try discriminate V; auto.
           now rewrite neg_even.
      * intros j Lj Ej Xj Qj. destruct (w_imports st W j Lj Xj) as (_ & _ & Ij). specialize (Ij Ej). rewrite Qj in Ij.
        assert (j = i) by (rewrite Ei, Ij, idx_signed, idx_even; reflexivity). subst j. contradiction.
  - intros x H _. apply (mu_other st _ _ M). exact H.
  - intros L Q A. destruct Q as [C Stp B Qs Qk]. rewrite R.
    assert (E : map (rank st) L = L).
    { clear -B Full. induction L as [|x L IH]; auto. cbn. rewrite (proj2 (Full x (B x (or_introl eq_refl)))). f_equal. apply IH.
      intros y Y. apply B. now right. }
    rewrite E. split; [constructor; auto|]. split; auto. intros i I. now rewrite (proj2 (Full i (B i I))).
Qed.

Lemma truncate_lt : forall A k (d : A) f i, i < k -> truncate k d f i = f i.
Proof. intros. unfold truncate. now replace (i <? k) with true by lia. Qed.
Lemma truncate_ge : forall A k (d : A) f i, k <= i -> truncate k d f i = d.
Proof. intros. unfold truncate. now replace (i <? k) with false by lia. Qed.

Lemma finalize_spec : wp (finalize_compacting st1 (cl_vars c) (cl_mfixed c)) (compacted st w cs).
Proof.
  unfold finalize_compacting. rewrite (mu_vars st _ _ M). change (k_vars st1) with n.
  pose proof (rank_le st n) as Rn. apply wp_bind, wp_assert; [apply Nat.leb_le; exact Rn|].
  destruct (Nat.eqb_spec (rank st n) n) as [R|R]; [apply wp_ret, early; auto|].
  change (k_exports st1) with (cl_exports c). change (k_imports st1) with (cl_imports c). change (k_trail st1) with (k_trail st).
  change (k_reason st1) with (k_reason st). change (k_level st1) with (k_level st). change (k_flags st1) with (k_flags st).
  change (k_values st1) with (k_values st). change (k_units st1) with (k_units st). change (k_queue st1) with (k_queue st).
  change (k_frames st1) with (k_frames st). change (k_gone st1) with (k_gone st). change (k_watches st1) with w. change (k_clauses st1) with cs.
  apply wp_bind. eapply wp_mono; [apply unexport_spec|]. intros [exports fst_] Exp. cbn [fst] in Exp.
  assert (Imp1 : forall i, i < n -> used i -> cl_imports c (Z.abs_nat (ex i)) =
    set_lit (k_imports st (Z.abs_nat (ex i))) (signed (ex i) (target st i))) by (intros i L U; apply (mu_used st _ _ M i L U)).
  apply wp_bind. eapply wp_mono; [apply (trail_spec exports Exp (cl_imports c) Imp1)|]. intros [trail reason] [T1 T2]. cbn [fst snd] in T1, T2.
  apply wp_bind. eapply wp_mono; [apply (arrays_spec exports Exp (cl_imports c) Imp1 reason)|]. intros a [A1 A2].
  apply wp_bind.
  apply (wp_mono _ _ (fun imports =>
    (forall e, In e (k_units st) -> exists f, first_fixed st n = Some f /\
       imports (Z.abs_nat e) = set_lit (k_imports st (Z.abs_nat e)) (signed e (fixed_lit st f))) /\
    (forall x, (forall e, In e (k_units st) -> Z.abs_nat e <> x) -> imports x = cl_imports c x))).
  { rewrite (mu_fixed st _ _ M). destruct (first_fixed st n) as [f|] eqn:Ff; cbn [option_map].
    - destruct (first_fixed_some st n f Ff) as (Lf & Fx & _). pose proof (kept_first st f n Ff) as Kf.
      apply wp_bind, wp_assert.
      + destruct (fixed_root st W f Lf Fx) as [V Lv].
        assert (E : fixed_lit st f = mlit st (if tv st f then 2 * f else S (2 * f))).
        { unfold fixed_lit. destruct (tv st f); [now rewrite mlit_even|]. rewrite <- !neg_even, (mlit_neg st), mlit_even; auto. }
        assert (If : idx (if tv st f then 2 * f else S (2 * f)) = f) by (destruct (tv st f); [apply idx_even|apply idx_odd]).
        rewrite E, A2 by (rewrite If; auto). rewrite idx_mlit by (rewrite If; auto). rewrite If, (proj1 (A1 f Lf Kf)), Lv.
        cbn [Nat.eqb]. rewrite andb_true_r. destruct (tv st f); [now rewrite V|]. rewrite <- neg_even, (w_neg st W), V. reflexivity.
      + eapply wp_mono; [apply (units_spec f Ff)|]. intros im [U1 U2]. split; auto. intros e I. exists f. split; [reflexivity|now apply U1].
    - apply wp_ret. split; auto. intros e I. destruct (unit_first e I) as (f & Q). congruence. }
  intros imports [U1 U2].
  assert (Imp : forall i, i < n -> used i -> imports (Z.abs_nat (ex i)) =
    set_lit (k_imports st (Z.abs_nat (ex i))) (signed (ex i) (target st i))).
  { intros i L U. destruct (in_dec Nat.eq_dec (Z.abs_nat (ex i)) (map Z.abs_nat (k_units st))) as [Q|Q].
    - apply in_map_iff in Q as (e & Q1 & Q2). destruct (U1 e Q2) as (f & Ff & Uf). rewrite <- Q1, Uf. f_equal.
      destruct (unit_exported e i Q2 L) as [_ G]; auto; [now apply (used_not_eli st W i L)|now apply (w_exported st W)|].
      rewrite Ff in G. auto.
    - rewrite U2; [auto|]. intros e E1 E2. apply Q. rewrite <- E2. now apply in_map. }
  destruct (w_queue st W) as (L0 & Q0 & QA & _).
  apply wp_bind. eapply wp_mono.
  { apply (compact_queue_spec imports exports n midx (rank st)) with (L := L0) (n' := rank st n); auto.
    - intros i L. apply (map_idx_gen exports Exp imports Imp exports i L). auto.
    - intros i j _. apply midx_le.
    - intros i k j j' L _. now apply midx_inc.
    - apply Q0.
    - intros i I. split; [now apply (qi_vars n L0 _ Q0)|]. unfold midx. now rewrite (kept_act st i (QA i I)).
    - pose proof (w_size st W). unfold UINT_MAX. lia.
    - intros i I. apply rank_lt; [now apply kept_act, QA|]. now apply (qi_vars n L0 _ Q0).
    - intros i j I J E. apply rank_inj in E; auto; now apply kept_act, QA. }
  intros q (Q1 & Q2 & Q3).
  apply wp_bind. eapply wp_mono; [apply (frames_spec exports Exp imports Imp)|]. intros frames ->.
  apply wp_bind. eapply wp_mono; [apply (export_spec exports Exp imports Imp)|]. intros exports2 E2.
  apply wp_ret.
  constructor; cbn [k_vars k_flags k_values k_level k_reason k_imports k_exports k_units k_gone k_watches k_clauses k_trail k_frames k_queue]; auto.
  - intros i L K. rewrite truncate_lt by (now apply rank_lt). apply A1; auto.
  - intros l L K. rewrite truncate_lt; [apply A2; auto|]. apply idx_lt. rewrite idx_mlit by auto. now apply rank_lt.
  - intros i L K. rewrite truncate_lt by (now apply rank_lt). apply A1; auto.
  - intros l I. destruct (w_trail st W l I) as (L & A & _). apply idx_lt in L. pose proof (kept_act st _ A) as K.
    rewrite truncate_lt by (now apply rank_lt). rewrite (proj1 (proj2 (A1 _ L K))). auto.
  - intros i L. rewrite !truncate_ge by lia. tauto.
  - intros i L A F E X. rewrite U2; [now apply (mu_none st _ _ M)|]. intros e I Q.
    destruct (unit_exported e i I L E X) as [G _]; [auto|congruence].
  - intros x H1 H2. rewrite U2 by auto. apply (mu_other st _ _ M). exact H1.
  - intros m L. now rewrite truncate_lt.
  - intros L QL AL.
    assert (L = L0).
    { destruct QL as [C _ _ _ _]. destruct Q0 as [C0 _ _ _ _]. clear -C C0. destruct C as [N1 F1 _ K1], C0 as [N2 F2 _ K2].
      rewrite F1 in F2. clear F1.
      assert (G : forall b a a0 b0, L = a ++ b -> L0 = a0 ++ b0 -> hd_error b = hd_error b0 -> b = b0).
      { induction b as [|x b IH]; intros a a0 b0 E E0 H.
        - destruct b0; [auto|discriminate H].
        - destruct b0 as [|y b0]; [discriminate H|]. cbn in H. injection H as <-. f_equal.
          apply (IH (a ++ [x]) (a0 ++ [x])).
          + rewrite E, <- app_assoc. reflexivity.
          + rewrite E0, <- app_assoc. reflexivity.
          + destruct (K1 a x b E) as [_ <-]. destruct (K2 a0 x b0 E0) as [_ <-]. reflexivity. }
      apply (G L [] [] L0); auto. }
    subst L. auto.
Qed.
End Final.

Theorem compacting_collect_spec : forall st, cwf st -> wp (compacting_collect st) (fun st' =>
  exists w cs w0, flushed st (2 * k_vars st) w0 /\ sweeped st w0 (k_clauses st) (w, cs) /\ compacted st w cs st').
Proof.
  intros st W. unfold compacting_collect. apply wp_bind. eapply wp_mono; [apply (compact_literals_spec st W)|]. intros c M. cbn beta.
  assert (Used := map_used st W c). assert (Unused := map_unused st W c).
  apply wp_bind. eapply wp_mono; [apply (flush_all_spec st W)|]. { intros l L U. now apply Used. } { intros l L A F. now apply Unused. }
  intros w0 F. cbn beta. apply wp_bind. eapply wp_mono; [apply (sparse_sweep_spec st W)|]. { intros l L U. now apply Used. } { intros l L A Fx. now apply Unused. }
  intros [w cs] Sp. cbn beta. change (snd (w, cs)) with cs.
  eapply wp_mono; [apply (finalize_spec st W c M w cs)|].
  - intros m L. destruct (w m) as [|x ws] eqn:E; auto. exfalso. assert (I : In x (w m)) by (rewrite E; now left).
    apply (sp_watches st _ _ _ Sp m x) in I as [I|(cl & a & b & I1 & (G & Sa & Sm) & I3)].
    + rewrite (fd_rest st _ _ F m L) in I. destruct (w_beyond st W (idx m)) as (_ & _ & _ & B1 & B2).
      { destruct (Nat.le_gt_cases (k_vars st) (idx m)) as [H|H]; auto. apply idx_lt in H. lia. }
      destruct (lit_cases m) as [[k ->]|[k ->]]; rewrite ?idx_even, ?idx_odd in *; rewrite ?B1, ?B2 in I; destruct I.
    + assert (J : In m (map (mlit st) (remaining st (kc_lits cl)))) by (rewrite Sm; cbn; destruct I3 as [[-> _]|[-> _]]; auto).
      apply in_map_iff in J as (l & <- & J). apply filter_In in J as [J _].
      destruct (w_large st W cl I1 G) as [H _]. destruct (H l J) as [Ll U].
      pose proof (mlit_le_used st l U). lia.
  - intros st' C. exists w, cs, w0. auto.
Qed.
