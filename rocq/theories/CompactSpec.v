(** Compaction: the invariant holds again, and values and clauses are the same for the user. *)
From Coq Require Import ZArith List Bool Lia Arith Permutation.
From Coq Require Import ZifyBool ZifyNat.
From Verif Require Import Base Lit Hoare Api Queue QueueFacts Compact CompactFacts CompactMap CompactCollect CompactQueue CompactFinal.
Import ListNotations.
Open Scope nat_scope.
Open Scope outcome_scope.

Section After.
Variables (st st' : cstate) (w0 w : lit -> list cwatch) (cs : list cclause).
Hypothesis W : cwf st.
Hypothesis F0 : flushed st (2 * k_vars st) w0.
Hypothesis Sp : sweeped st w0 (k_clauses st) (w, cs).
Hypothesis C : compacted st w cs st'.
Notation n := (k_vars st).
Notation act i := (f_active (k_flags st i)).
Notation fix_ i := (f_fixed (k_flags st i)).
Notation eli i := (f_eliminated (k_flags st i)).
Notation ex i := (k_exports st i).
Notation used i := (f_active (k_flags st i) = true \/ f_fixed (k_flags st i) = true).
Notation rk := (rank st).
Notation ml := (mlit st).

Lemma lit_surj : forall m, m < 2 * rk n -> exists l, idx l < n /\ kept st (idx l) = true /\ ml l = m.
Proof.
  intros m L. apply idx_lt in L. destruct (rank_surj st n (idx m) L) as (i & Li & K & R).
  destruct (lit_cases m) as [[k ->]|[k ->]]; rewrite ?idx_even, ?idx_odd in R; subst k.
  - exists (2 * i). rewrite idx_even. split; auto. split; auto. now apply mlit_even.
  - exists (S (2 * i)). rewrite idx_odd. split; auto. split; auto. rewrite <- neg_even, mlit_neg, mlit_even, neg_even by auto. reflexivity.
Qed.
Lemma ml_lt : forall l, idx l < n -> kept st (idx l) = true -> ml l < 2 * rk n.
Proof. intros l L K. apply idx_lt. rewrite idx_mlit by auto. now apply rank_lt. Qed.
Lemma values_even : forall i, i < n -> kept st i = true -> k_values st' (2 * rk i) = k_values st (2 * i).
Proof. intros i L K. rewrite <- (mlit_even st i K). apply (r_values _ _ _ _ C); rewrite idx_even; auto. Qed.
Lemma root_ml : forall l, idx l < n -> kept st (idx l) = true -> root_value st' (ml l) = root_value st l.
Proof.
  intros l L K. unfold root_value. rewrite (r_values _ _ _ _ C l L K), idx_mlit, (r_level _ _ _ _ C) by auto. reflexivity.
Qed.
Lemma flags_ml : forall l, idx l < n -> kept st (idx l) = true -> k_flags st' (idx (ml l)) = k_flags st (idx l).
Proof. intros l L K. rewrite idx_mlit by auto. now apply (r_flags _ _ _ _ C). Qed.
Lemma external_ml : forall l, idx l < n -> kept st (idx l) = true ->
  export_literal (k_exports st') (ml l) = export_literal (k_exports st) l.
Proof.
  intros l L K. unfold export_literal. rewrite idx_mlit, (r_exports _ _ _ _ C) by auto.
  assert (E : negated (ml l) = negated l); [|now rewrite E].
  rewrite mlit_kept by auto. unfold with_sign. destruct (negated l); rewrite ?neg_even, ?negated_odd, ?negated_even; reflexivity.
Qed.

(** The literal all fixed literals are mapped to. *)
Lemma fixed_lit_true : forall f, first_fixed st n = Some f ->
  f < n /\ fix_ f = true /\ kept st f = true /\ k_values st' (fixed_lit st f) = Some true /\ k_level st' (rk f) = 0.
Proof.
  intros f Ff. destruct (first_fixed_some st n f Ff) as (Lf & Fx & _). pose proof (kept_first st f n Ff) as Kf.
  split; auto. split; auto. split; auto. destruct (fixed_root st W f Lf Fx) as [V Lv]. split.
  - unfold fixed_lit. destruct (tv st f) eqn:T.
    + rewrite values_even by auto. exact V.
    + rewrite <- neg_even. rewrite <- (mlit_even st f Kf), <- mlit_neg. rewrite (r_values _ _ _ _ C) by (rewrite idx_neg, idx_even; auto).
      rewrite (w_neg st W), V. reflexivity.
  - now rewrite (r_level _ _ _ _ C).
Qed.

Lemma after_neg : forall m, k_values st' (neg m) = option_map negb (k_values st' m).
Proof.
  intros m. destruct (Nat.lt_ge_cases m (2 * rk n)) as [L|L].
  - destruct (lit_surj m L) as (l & Ll & K & <-). rewrite <- mlit_neg. rewrite !(r_values _ _ _ _ C) by (rewrite ?idx_neg; auto).
    apply (w_neg st W).
  - assert (I : rk n <= idx m) by (destruct (Nat.le_gt_cases (rk n) (idx m)) as [H|H]; auto; apply idx_lt in H; lia).
    destruct (r_beyond _ _ _ _ C (idx m) I) as (_ & B1 & B2 & _).
    destruct (lit_cases m) as [[k ->]|[k ->]]; rewrite ?idx_even, ?idx_odd in *; rewrite ?neg_even, ?neg_odd, B1, B2; reflexivity.
Qed.

(** External variables before and after. *)
Lemma external_cases : forall x,
  (k_imports st' x = k_imports st x /\ (i_imported (k_imports st x) = false \/ i_eliminated (k_imports st x) = true)) \/
  (i_imported (k_imports st x) = true /\ i_eliminated (k_imports st x) = false /\
   i_imported (k_imports st' x) = true /\ i_eliminated (k_imports st' x) = false /\
   idx (i_lit (k_imports st' x)) < rk n /\
   k_values st' (i_lit (k_imports st' x)) = k_values st (i_lit (k_imports st x)) /\
   root_value st' (i_lit (k_imports st' x)) = root_value st (i_lit (k_imports st x)) /\
   ((exists i, i < n /\ act i = true /\ x = Z.abs_nat (ex i) /\ idx (i_lit (k_imports st' x)) = rk i) \/
    (exists f e, In e (k_units st) /\ Z.abs_nat e = x /\ f < n /\ kept st f = true /\ fix_ f = true /\
       idx (i_lit (k_imports st' x)) = rk f))) \/
  (i_imported (k_imports st x) = true /\ i_eliminated (k_imports st x) = false /\ k_values st (i_lit (k_imports st x)) = None /\
   i_imported (k_imports st' x) = false).
Proof.
  intros x. destruct (in_dec Nat.eq_dec x (map Z.abs_nat (k_units st))) as [U|U].
  - apply in_map_iff in U as (e & <- & I). right; left. destruct (w_units st W e I) as (E0 & I1 & I2 & Fx & V).
    destruct (r_unit _ _ _ _ C e I) as (f & Ff & R). destruct (fixed_lit_true f Ff) as (Lf & Ft & Kf & Vf & Lv).
    destruct (w_import st W _ I1 I2) as [Li _].
    rewrite R. cbn [set_lit i_imported i_eliminated i_lit]. rewrite I1, I2. rewrite !idx_signed, idx_fixed_lit.
    assert (V' : k_values st' (signed e (fixed_lit st f)) = Some (0 <? e)%Z).
    { unfold signed. destruct (Z.ltb_spec e 0).
      - rewrite after_neg, Vf. cbn. f_equal. lia.
      - rewrite Vf. f_equal. lia. }
    split; auto. split; auto. split; auto. split; auto. split; [now apply rank_lt|]. rewrite V, V'. split; auto. split.
    + unfold root_value. rewrite V, V', idx_signed, idx_fixed_lit, Lv. cbn [Nat.eqb].
      destruct (fixed_root st W _ Li Fx) as [_ ->]. reflexivity.
    + right. exists f, e. auto 10.
  - destruct (existsb (fun i => negb (eli i) && negb (ex i =? 0)%Z && (Z.abs_nat (ex i) =? x)) (seq 0 n)) eqn:Exs.
    + apply existsb_exists in Exs as (i & I & E). apply in_seq in I. apply andb_true_iff in E as [E E3]. apply andb_true_iff in E as [E1 E2].
      apply negb_true_iff in E1. apply negb_true_iff, Z.eqb_neq in E2. apply Nat.eqb_eq in E3.
      assert (L : i < n) by lia. destruct (w_imports st W i L E2) as (I1 & I2 & I3). specialize (I3 E1). rewrite E3 in I1, I2, I3.
      rewrite E1 in I2. destruct (act i) eqn:A; [|destruct (fix_ i) eqn:Fx].
      * right; left. pose proof (r_used _ _ _ _ C i L (or_introl A)) as R. rewrite E3 in R. rewrite R.
        cbn [set_lit i_imported i_eliminated i_lit]. rewrite I1, I2, I3.
        pose proof (kept_act st i A) as K. rewrite (target_kept st i K), idx_signed, idx_even.
        assert (Q : signed (ex i) (2 * rk i) = ml (signed (ex i) (2 * i))).
        { unfold signed. destruct (ex i <? 0)%Z; rewrite ?mlit_neg, (mlit_even st i K); reflexivity. }
        assert (Is : idx (signed (ex i) (2 * i)) = i) by (now rewrite idx_signed, idx_even).
        split; auto. split; auto. split; auto. split; auto. split; [now apply rank_lt|].
        rewrite Q. split; [apply (r_values _ _ _ _ C); rewrite Is; auto|].
        split; [apply root_ml; rewrite Is; auto|]. left. exists i. auto.
      * exfalso. destruct (w_unit st W i L Fx) as (e & J & E). apply U. rewrite <- E3, <- E. now apply in_map.
      * right; right. split; auto. split; auto. rewrite I3. split.
        -- pose proof (w_none st W i L A Fx E1) as V. unfold signed. destruct (ex i <? 0)%Z; auto. rewrite (w_neg st W), V. reflexivity.
        -- rewrite <- E3. now apply (r_none _ _ _ _ C).
    + left. assert (No : forall i, i < n -> eli i = false -> ex i <> 0%Z -> Z.abs_nat (ex i) <> x).
      { intros i L E1 E2 E3. assert (T : existsb (fun i => negb (eli i) && negb (ex i =? 0)%Z && (Z.abs_nat (ex i) =? x)) (seq 0 n) = true).
        - apply existsb_exists. exists i. split; [apply in_seq; lia|]. rewrite E1, E3, Nat.eqb_refl.
          destruct (Z.eqb_spec (ex i) 0); [contradiction|reflexivity].
        - congruence. }
      split.
      * apply (r_other _ _ _ _ C); auto. intros e I E. apply U. rewrite <- E. now apply in_map.
      * destruct (i_imported (k_imports st x)) eqn:I1; auto. destruct (i_eliminated (k_imports st x)) eqn:I2; auto. exfalso.
        destruct (w_import st W x I1 I2) as [L [[X Q]|[_ (e & I & Q)]]].
        -- apply (No _ L) with (2 := X); auto. destruct (w_imports st W _ L X) as (_ & G & _). rewrite Q in G. congruence.
        -- apply U. rewrite <- Q. now apply in_map.
Qed.

(** Literals without a value on the root level in clauses are active. *)
Lemma root_none_active : forall l, idx l < n -> used (idx l) -> root_value st l = None -> act (idx l) = true.
Proof. intros l L [A|Fx] R; auto. rewrite (root_value_fixed st W l L Fx) in R. discriminate. Qed.

(** The binary clauses after compaction. *)
Lemma after_watches : forall m v, m < 2 * rk n -> In v (k_watches st' m) -> exists l o, v = KBin (ml o) /\ m = ml l /\
  idx l < n /\ idx o < n /\ act (idx l) = true /\ act (idx o) = true /\
  In (KBin (ml l)) (k_watches st' (ml o)) /\ In (KBin (ml o)) (k_watches st' (ml l)) /\
  ((In (KBin o) (k_watches st l) /\ root_value st l = None /\ root_value st o = None) \/
   (exists c, In c (k_clauses st) /\ kc_garbage c = false /\ satisfied st (kc_lits c) = false /\
     (remaining st (kc_lits c) = [l; o] \/ remaining st (kc_lits c) = [o; l]))).
Proof.
  intros m v Lm I. rewrite (r_watches _ _ _ _ C m Lm) in I.
  assert (Fl : forall l o, idx l < n -> act (idx l) = true -> In (KBin o) (k_watches st l) -> root_value st o <> Some true ->
    In (KBin (ml o)) (w0 (ml l))).
  { intros l o L A Io R. rewrite (fd_moved st _ _ F0 l); auto; [|now apply idx_lt]. unfold fl, kflush. apply in_flat_map.
    exists (KBin o). split; auto. rewrite (root_value_other st W l L); [|destruct (fix_ (idx l)) eqn:Fx; auto; apply (w_excl st W _ L) in Fx; destruct Fx; congruence].
    cbn [is_lit orb]. destruct (root_value st o) as [[|]|]; cbn; auto; congruence. }
  apply (sp_watches st _ _ _ Sp m v) in I. cbn [fst] in I. destruct I as [I|(c & a & b & I1 & (G & Sa & Sm) & I3)].
  - destruct (lit_surj m Lm) as (l & Ll & K & <-).
    destruct (act (idx l)) eqn:A.
    + rewrite (fd_moved st _ _ F0 l) in I; auto; [|now apply idx_lt]. unfold fl, kflush in I. apply in_flat_map in I as ([o|r] & I1 & I2); [|destruct I2].
      destruct (is_lit (root_value st l) true || is_lit (root_value st o) true) eqn:E; [destruct I2|]. destruct I2 as [<-|[]].
      apply orb_false_iff in E as [E1 E2].
      assert (L2 : l < 2 * n) by (now apply idx_lt).
      destruct (bin_ok st W l o L2 I1) as (Lo & Uo & N).
      destruct N as [N1 N2]; [intros Q; rewrite Q in E1; discriminate E1|intros Q; rewrite Q in E2; discriminate E2|].
      apply idx_lt in Lo. pose proof (root_none_active o Lo Uo N2) as Ao. exists l, o.
      destruct (w_watch st W l o L2 I1) as (_ & _ & _ & Sy).
      split; auto. split; auto. split; auto. split; auto. split; auto. split; auto.
      assert (T1 : In (KBin (ml l)) (w0 (ml o))) by (apply Fl; auto; rewrite N1; discriminate).
      assert (T2 : In (KBin (ml o)) (w0 (ml l))) by (apply Fl; auto; rewrite N2; discriminate).
      split; [|split; auto].
      * rewrite (r_watches _ _ _ _ C) by (apply ml_lt; auto; now apply kept_act). apply (sp_watches st _ _ _ Sp). now left.
      * rewrite (r_watches _ _ _ _ C) by (apply ml_lt; auto). apply (sp_watches st _ _ _ Sp). now left.
    + exfalso. rewrite (fd_empty st _ _ F0) in I; [destruct I| |].
      * pose proof (rank_le st n). pose proof (ml_lt l Ll K). lia.
      * intros k Lk Ak. destruct (kept_cases st _ K) as [A'|[Fx _]]; [congruence|].
        apply (fixed_not_active st W l k); auto. now apply idx_lt.
  - assert (Two : exists x y, remaining st (kc_lits c) = [x; y] /\ a = ml x /\ b = ml y).
    { destruct (remaining st (kc_lits c)) as [|x [|y [|z r]]]; try discriminate Sm. injection Sm as <- <-. eauto. }
    destruct Two as (x & y & Rm & -> & ->).
    assert (Ok : forall z, In z [x; y] -> idx z < n /\ act (idx z) = true).
    { intros z Z. rewrite <- Rm in Z. apply filter_In in Z as [Z1 Z2]. destruct (w_large st W c I1 G) as [H _].
      destruct (H z Z1) as [Lz Uz]. apply idx_lt in Lz. split; auto. apply root_none_active; auto.
      destruct (root_value st z) as [[|]|] eqn:R; auto; [|discriminate Z2].
      exfalso. assert (T : satisfied st (kc_lits c) = true); [|congruence]. apply existsb_exists. exists z. rewrite R. auto. }
    destruct (Ok x (or_introl eq_refl)) as [Lx Ax]. destruct (Ok y (or_intror (or_introl eq_refl))) as [Ly Ay].
    assert (Sm' : small st c (ml x) (ml y)) by (unfold small; rewrite Rm; auto).
    assert (T1 : In (KBin (ml x)) (k_watches st' (ml y))).
    { rewrite (r_watches _ _ _ _ C) by (apply ml_lt; auto; now apply kept_act). apply (sp_watches st _ _ _ Sp). right. exists c, (ml x), (ml y). auto. }
    assert (T2 : In (KBin (ml y)) (k_watches st' (ml x))).
    { rewrite (r_watches _ _ _ _ C) by (apply ml_lt; auto; now apply kept_act). apply (sp_watches st _ _ _ Sp). right. exists c, (ml x), (ml y). auto. }
    destruct I3 as [[-> ->]|[-> ->]].
    + exists x, y. split; auto. split; auto. split; auto. split; auto. split; auto. split; auto. split; auto. split; auto.
      right. exists c. auto.
    + exists y, x. split; auto. split; auto. split; auto. split; auto. split; auto. split; auto. split; auto. split; auto.
      right. exists c. auto.
Qed.

Lemma after_binary : forall l o, l < 2 * n -> In (KBin o) (k_watches st l) -> root_value st l <> Some true -> root_value st o <> Some true ->
  act (idx l) = true /\ act (idx o) = true /\ root_value st l = None /\ root_value st o = None /\ In (KBin (ml o)) (k_watches st' (ml l)).
Proof.
  intros l o L I R1 R2. destruct (bin_ok st W l o L I) as (Lo & Uo & N). destruct (N R1 R2) as [N1 N2].
  destruct (w_watch st W l o L I) as (Ul & _). apply idx_lt in L. apply idx_lt in Lo.
  pose proof (root_none_active l L Ul N1) as Al. pose proof (root_none_active o Lo Uo N2) as Ao.
  split; auto. split; auto. split; auto. split; auto.
  rewrite (r_watches _ _ _ _ C) by (apply ml_lt; auto; now apply kept_act). apply (sp_watches st _ _ _ Sp). left. cbn [fst].
  rewrite (fd_moved st _ _ F0 l); auto; [|now apply idx_lt]. unfold fl, kflush. apply in_flat_map. exists (KBin o). split; auto.
  rewrite N1, N2. now left.
Qed.

(** Clauses which are not satisfied. *)
Lemma remaining_ok : forall c, In c (k_clauses st) -> kc_garbage c = false -> satisfied st (kc_lits c) = false ->
  2 <= length (remaining st (kc_lits c)) /\
  forall l, In l (remaining st (kc_lits c)) -> idx l < n /\ act (idx l) = true /\ root_value st l = None.
Proof.
  intros c I G Sa. destruct (w_large st W c I G) as [H1 H2].
  assert (Nt : forall l, In l (kc_lits c) -> root_value st l <> Some true).
  { intros l Il R. assert (T : satisfied st (kc_lits c) = true); [|congruence]. apply existsb_exists. exists l. rewrite R. auto. }
  split; [apply H2; auto|]. intros l Il. apply filter_In in Il as [I1 I2]. destruct (H1 l I1) as [L U]. apply idx_lt in L.
  assert (R : root_value st l = None).
  { destruct (root_value st l) as [[|]|] eqn:R; auto; [destruct (Nt l I1 R)|discriminate I2]. }
  split; auto. split; auto. now apply root_none_active.
Qed.

Lemma after_clauses : forall d, In d (k_clauses st') -> kc_garbage d = false /\
  exists c, In c (k_clauses st) /\ kc_garbage c = false /\ satisfied st (kc_lits c) = false /\
    kc_lits d = map ml (remaining st (kc_lits c)) /\ length (remaining st (kc_lits c)) <> 2.
Proof.
  intros d I. rewrite (r_clauses _ _ _ _ C) in I. pose proof (sp_clauses st _ _ _ Sp) as E. cbn [snd] in E. rewrite E in I.
  apply in_flat_map in I as (c & I1 & I2). unfold large_rest in I2.
  destruct (kc_garbage c) eqn:G; [destruct I2|]. destruct (satisfied st (kc_lits c)) eqn:Sa; [destruct I2|]. cbn [orb] in I2.
  rewrite map_length in I2. destruct (Nat.eqb_spec (length (remaining st (kc_lits c))) 2) as [L|L]; [destruct I2|].
  destruct I2 as [<-|[]]. split; auto. exists c. auto.
Qed.

Theorem after_cwf : cwf st'.
Proof.
  assert (Vs : k_vars st' = rk n) by apply (r_vars _ _ _ _ C). pose proof (rank_le st n) as Rn.
  assert (Actm : forall l, idx l < n -> act (idx l) = true -> ml l < 2 * k_vars st' /\ f_active (k_flags st' (idx (ml l))) = true).
  { intros l L A. pose proof (kept_act st _ A) as K. rewrite Vs, (flags_ml l L K). split; auto. now apply ml_lt. }
  constructor.
  - rewrite Vs. pose proof (w_size st W). lia.
  - apply after_neg.
  - intros j Lj. rewrite Vs in Lj. destruct (rank_surj st n j Lj) as (i & Li & K & <-).
    rewrite (r_flags _ _ _ _ C), values_even, (r_level _ _ _ _ C) by auto. now apply (w_fixed st W).
  - intros j Lj. rewrite Vs in Lj. destruct (rank_surj st n j Lj) as (i & Li & K & <-).
    rewrite (r_flags _ _ _ _ C) by auto. now apply (w_excl st W).
  - intros j Lj A Fx El. rewrite Vs in Lj. destruct (rank_surj st n j Lj) as (i & Li & K & <-).
    rewrite (r_flags _ _ _ _ C) in A, Fx by auto. destruct (kept_used st i K); congruence.
  - intros j Lj. rewrite Vs in Lj. destruct (r_beyond _ _ _ _ C j Lj) as (A & B & _ & D & E & F). auto.
  - intros j Lj U. rewrite Vs in Lj. destruct (rank_surj st n j Lj) as (i & Li & K & <-).
    rewrite (r_exports _ _ _ _ C) by auto. apply (w_exported st W i Li). now apply kept_used.
  - intros j Lj X. rewrite Vs in Lj. destruct (rank_surj st n j Lj) as (i & Li & K & <-).
    rewrite (r_exports _ _ _ _ C) in * by auto. pose proof (kept_used st i K) as U.
    rewrite (r_used _ _ _ _ C i Li U), (r_flags _ _ _ _ C) by auto. cbn [set_lit i_imported i_eliminated i_lit].
    destruct (w_imports st W i Li X) as (I1 & I2 & _). split; auto. split; auto. intros _. now rewrite (target_kept st i K).
  - intros j k Lj Lk X E. rewrite Vs in Lj, Lk. destruct (rank_surj st n j Lj) as (i & Li & K & <-).
    destruct (rank_surj st n k Lk) as (i' & Li' & K' & <-). rewrite !(r_exports _ _ _ _ C) in * by auto.
    f_equal. now apply (w_inj st W).
  - intros x I1 I2. destruct (external_cases x) as [[E H]|[(A1 & A2 & A3 & A4 & A5 & _ & _ & H)|(_ & _ & _ & E)]].
    + rewrite E in I1, I2. destruct H; congruence.
    + rewrite Vs. split; auto. destruct H as [(i & Li & A & -> & ->)|(f & e & J & E & Lf & Kf & Fx & ->)].
      * left. rewrite (r_exports _ _ _ _ C) by (auto; now apply kept_act). split; auto. apply (w_exported st W i Li). auto.
      * right. rewrite (r_flags _ _ _ _ C), (r_units _ _ _ _ C) by auto. split; auto. exists e. auto.
    + congruence.
  - intros e I. rewrite (r_units _ _ _ _ C) in I. destruct (w_units st W e I) as (E0 & I1 & I2 & Fx & V).
    destruct (r_unit _ _ _ _ C e I) as (f & Ff & R). destruct (fixed_lit_true f Ff) as (Lf & Ft & Kf & Vf & Lv).
    rewrite R. cbn [set_lit i_imported i_eliminated i_lit]. split; auto. split; auto. split; auto.
    rewrite idx_signed, idx_fixed_lit, (r_flags _ _ _ _ C) by auto. split; auto.
    unfold signed. destruct (Z.ltb_spec e 0); [rewrite after_neg, Vf; cbn; f_equal; lia|rewrite Vf; f_equal; lia].
  - intros j Lj Fx. rewrite Vs in Lj. destruct (rank_surj st n j Lj) as (i & Li & K & <-).
    rewrite (r_flags _ _ _ _ C) in Fx by auto. rewrite (r_units _ _ _ _ C), (r_exports _ _ _ _ C) by auto. now apply (w_unit st W).
  - intros m o' Lm I. rewrite Vs in Lm. destruct (after_watches m (KBin o') Lm I) as (l & o & E & -> & L1 & L2 & A1 & A2 & S1 & _).
    injection E as ->. destruct (Actm l L1 A1) as [X1 X2]. destruct (Actm o L2 A2) as [Y1 Y2]. auto.
  - intros m o' Lm I R. rewrite Vs in Lm. destruct (after_watches m (KBin o') Lm I) as (l & o & E & -> & L1 & L2 & A1 & A2 & _).
    rewrite root_ml in R by (auto; now apply kept_act). rewrite (root_value_other st W l L1) in R; [discriminate R|].
    destruct (fix_ (idx l)) eqn:Fx; auto. apply (w_excl st W _ L1) in Fx. destruct Fx. congruence.
  - intros d I G. destruct (after_clauses d I) as (_ & c & I1 & G1 & Sa & -> & Len). destruct (remaining_ok c I1 G1 Sa) as [L2 H]. split.
    + intros m Im. apply in_map_iff in Im as (l & <- & Il). destruct (H l Il) as (L & A & _). destruct (Actm l L A). auto.
    + intros _. assert (Fi : forall l, (forall k, In k l -> idx k < n /\ act (idx k) = true /\ root_value st k = None) ->
        length (filter (fun l => negb (is_lit (root_value st' l) false)) (map ml l)) = length l).
      { induction l as [|x l IH]; intros Hl; auto. cbn [map filter]. destruct (Hl x (or_introl eq_refl)) as (L & A & R).
        rewrite root_ml, R by (auto; now apply kept_act). cbn [is_lit negb length]. rewrite IH; auto. intros k K. apply Hl. now right. }
      rewrite Fi; auto.
  - intros m I. rewrite (r_trail _ _ _ _ C) in I. apply in_map_iff in I as (l & <- & I). destruct (w_trail st W l I) as (L & A & R).
    apply idx_lt in L. destruct (Actm l L A) as [X1 X2]. split; auto. split; auto. intros o' E.
    rewrite idx_mlit, (r_reason _ _ _ _ C l I) in E by (now apply kept_act). destruct (k_reason st (idx l)) as [o|] eqn:Ro; [|discriminate E].
    injection E as <-. destruct (R o eq_refl) as [Lo Ao]. apply idx_lt in Lo. now apply Actm.
  - rewrite (r_trail _ _ _ _ C). pose proof (w_once st W) as Nd.
    assert (G : forall l, (forall x, In x l -> idx x < n /\ act (idx x) = true) -> NoDup (map idx l) -> NoDup (map idx (map ml l))).
    { induction l as [|x l IH]; intros H N; [constructor|]. cbn [map] in *. inversion N as [|? ? N1 N2]; subst. constructor.
      - intros I. apply in_map_iff in I as (y' & E & I). apply in_map_iff in I as (y & <- & I).
        destruct (H x (or_introl eq_refl)) as [_ Ax]. destruct (H y (or_intror I)) as [_ Ay].
        rewrite !idx_mlit in E by (now apply kept_act). apply rank_inj in E; try (now apply kept_act). apply N1. rewrite <- E. now apply in_map.
      - apply IH; auto. intros y Y. apply H. now right. }
    apply G; auto. intros x I. destruct (w_trail st W x I) as (L & A & _). apply idx_lt in L. auto.
  - intros m I. rewrite (r_frames _ _ _ _ C) in I. apply in_map_iff in I as (l & <- & I). destruct (w_frames st W l I) as (L & A).
    apply idx_lt in L. now apply Actm.
  - destruct (w_queue st W) as (L & Q & A & V). destruct (r_queue _ _ _ _ C L Q A) as (Q' & V' & _). exists (map rk L). rewrite Vs.
    split; auto. split.
    + intros j I. apply in_map_iff in I as (i & <- & I). rewrite (r_flags _ _ _ _ C); auto; [now apply (qi_vars _ _ _ Q)|now apply kept_act, A].
    + intros j Lj Aj. destruct (rank_surj st n j Lj) as (i & Li & K & <-). rewrite (r_flags _ _ _ _ C) in Aj by auto.
      destruct (V i Li Aj) as [I1 I2]. split; [now apply in_map|]. rewrite (V' i I1), values_even by auto. exact I2.
Qed.
End After.
