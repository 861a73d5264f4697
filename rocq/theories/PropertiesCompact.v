(** C41: renumbering the internal variables keeps for each external variable its value and the clauses it occurs in. *)
From Coq Require Import ZArith List Bool Lia Arith Permutation.
From Coq Require Import ZifyBool ZifyNat.
From Verif Require Import Base Lit Hoare Api SpecData Queue QueueFacts Compact CompactFacts CompactMap CompactCollect CompactQueue CompactFinal CompactSpec.
From Verif Require PropertiesQueue.
Import ListNotations.
Open Scope nat_scope.
Open Scope outcome_scope.

(** ** What the user can observe *)

(** The external literal of an internal one. *)
Definition external (st : cstate) (l : lit) : Z :=
  let e := k_exports st (idx l) in if negated l then (- e)%Z else e.

(** The value of an external literal which never changes anymore. *)
Definition fixed_value (st : cstate) (e : Z) : option bool :=
  let i := k_imports st (Z.abs_nat e) in
  if i_imported i && negb (i_eliminated i) then
    match k_values st (i_lit i) with
    | Some b => if k_level st (idx (i_lit i)) =? 0 then Some (if (e <? 0)%Z then negb b else b) else None
    | None => None
    end
  else None.

(** The clauses of the solver in terms of external literals: the large ones, and the binary ones which are in the watches. *)
Definition has_clause (st : cstate) (c : list Z) : Prop :=
  (exists d, In d (k_clauses st) /\ kc_garbage d = false /\ c = map (external st) (kc_lits d)) \/
  (exists l o, l < 2 * k_vars st /\ In (KBin o) (k_watches st l) /\ c = [external st l; external st o]).

Definition not_false (st : cstate) (e : Z) : bool := match fixed_value st e with Some false => false | _ => true end.

(** A valuation of the external variables satisfies the fixed literals and all clauses. *)
Definition truth (u : nat -> bool) (e : Z) : bool := if (e <? 0)%Z then negb (u (Z.abs_nat e)) else u (Z.abs_nat e).
Definition external_model (st : cstate) (u : nat -> bool) : Prop :=
  (forall e, fixed_value st e = Some true -> truth u e = true) /\
  (forall c, has_clause st c -> exists e, In e c /\ truth u e = true).

Definition active_or_fixed (st : cstate) (i : nat) : Prop := f_active (k_flags st i) = true \/ f_fixed (k_flags st i) = true.

(** ** Theorems *)

Lemma run_compact : forall st, cwf st -> exists st', compacting_collect st = Ret st' /\
  exists w cs w0, flushed st (2 * k_vars st) w0 /\ sweeped st w0 (k_clauses st) (w, cs) /\ compacted st w cs st'.
Proof. intros st W. destruct (wp_inv _ _ _ (compacting_collect_spec st W)) as (st' & E & H). eauto. Qed.

(** The collection runs without a failed assertion, and its result meets the same invariant again. *)
Theorem C41_invariant : forall st, cwf st -> exists st', compacting_collect st = Ret st' /\ cwf st'.
Proof.
  intros st W. destruct (run_compact st W) as (st' & E & w & cs & w0 & F & Sp & C). exists st'. split; auto.
  exact (after_cwf st st' w0 w cs W F Sp C).
Qed.

(** The value of every external literal is the same, whether its variable is active, fixed, eliminated or not in use. *)
Theorem C41_values : forall st st' e, cwf st -> compacting_collect st = Ret st' ->
  external_value st' e = external_value st e /\ fixed_value st' e = fixed_value st e.
Proof.
  intros st st' e W E. destruct (run_compact st W) as (st2 & E2 & w & cs & w0 & F & Sp & C).
  assert (st2 = st') by congruence. subst st2. unfold external_value, fixed_value.
  destruct (external_cases st st' w cs W C (Z.abs_nat e)) as [[Q H]|[(A1 & A2 & A3 & A4 & A5 & A6 & A7 & _)|(A1 & A2 & A3 & A4)]].
  - rewrite Q. destruct H as [H|H]; rewrite H; cbn [negb andb]; auto.
    rewrite (r_gone _ _ _ _ C), andb_false_r. auto.
  - rewrite A1, A2, A3, A4. cbn [negb andb]. rewrite A6. split; auto. unfold root_value in A7. rewrite A6 in A7.
    destruct (k_values st (i_lit (k_imports st (Z.abs_nat e)))); auto.
    destruct (k_level st' _ =? 0), (k_level st _ =? 0); auto; discriminate A7.
  - rewrite A1, A2, A4. cbn [negb andb]. rewrite A3. auto.
Qed.

Lemma fixed_value_root : forall st l, cwf st -> idx l < k_vars st -> active_or_fixed st (idx l) ->
  fixed_value st (external st l) = root_value st l.
Proof.
  intros st l W L U. unfold fixed_value, external. destruct (w_export st W _ L U) as [X Li]. destruct (w_imported st W _ L X) as [I1 I2].
  rewrite (used_not_eli st W _ L U) in I2. unfold root_value.
  assert (Ab : Z.abs_nat (if negated l then - k_exports st (idx l) else k_exports st (idx l)) = Z.abs_nat (k_exports st (idx l)))
    by (destruct (negated l); lia).
  rewrite Ab, I1, I2, Li. cbn [negb andb]. rewrite idx_signed, idx_even.
  assert (V : k_values st l = if negated l then option_map negb (k_values st (2 * idx l)) else k_values st (2 * idx l)).
  { destruct (lit_cases l) as [[k ->]|[k ->]]; rewrite ?idx_even, ?idx_odd, ?negated_even, ?negated_odd; auto.
    rewrite <- neg_even at 1. apply (w_neg st W). }
  rewrite V. unfold signed. destruct (Z.ltb_spec (k_exports st (idx l)) 0) as [Ng|Ps]; rewrite ?(w_neg st W);
    destruct (k_values st (2 * idx l)) as [b|]; cbn [option_map]; destruct (negated l); auto; destruct (k_level st (idx l) =? 0); auto;
    f_equal;
    match goal with |- context [(?e <? 0)%Z] => destruct (Z.ltb_spec e 0) end; try lia; now rewrite ?negb_involutive.
Qed.

Lemma clause_used : forall st c, cwf st -> has_clause st c -> forall e, In e c ->
  exists l, idx l < k_vars st /\ active_or_fixed st (idx l) /\ e = external st l.
Proof.
  intros st c W [(d & I & G & ->)|(l & o & L & I & ->)] e Ie.
  - apply in_map_iff in Ie as (l & <- & Il). destruct (w_large st W d I G) as [H _]. destruct (H l Il) as [L U]. apply idx_lt in L. eauto.
  - destruct (w_watch st W l o L I) as (U1 & L2 & U2 & _). apply idx_lt in L. apply idx_lt in L2. destruct Ie as [<-|[<-|[]]]; eauto.
Qed.

Lemma filter_external : forall st c, cwf st -> (forall l, In l c -> idx l < k_vars st /\ active_or_fixed st (idx l)) ->
  filter (not_false st) (map (external st) c) = map (external st) (remaining st c).
Proof.
  intros st c W. induction c as [|l c IH]; intros H; auto. cbn [map filter remaining].
  destruct (H l (or_introl eq_refl)) as [L U]. unfold not_false at 1. rewrite (fixed_value_root st l W L U).
  destruct (root_value st l) as [[|]|]; cbn [is_lit Bool.eqb negb map]; rewrite IH; auto; intros k K; apply H; now right.
Qed.

Lemma map_external : forall st st' w cs c, cwf st -> compacted st w cs st' ->
  (forall l, In l c -> idx l < k_vars st /\ f_active (k_flags st (idx l)) = true) ->
  map (external st') (map (mlit st) c) = map (external st) c.
Proof.
  intros st st' w cs c W C H. rewrite map_map. apply map_ext_in. intros l Il. destruct (H l Il) as [L A].
  apply (external_ml st st' w cs C l L). now apply kept_act.
Qed.

(** Satisfied clauses are removed, fixed false literals are removed from the others, and nothing else changes. *)
Theorem C41_clauses : forall st st', cwf st -> compacting_collect st = Ret st' ->
  (forall c, has_clause st c -> (forall e, In e c -> fixed_value st e <> Some true) -> has_clause st' (filter (not_false st) c)) /\
  (forall c', has_clause st' c' -> exists c, has_clause st c /\ (forall e, In e c -> fixed_value st e <> Some true) /\
     Permutation c' (filter (not_false st) c)).
Proof.
  intros st st' W E. destruct (run_compact st W) as (st2 & E2 & w & cs & w0 & F & Sp & C).
  assert (st2 = st') by congruence. subst st2. split.
  - intros c [(d & I & G & ->)|(l & o & L & I & ->)] Nt.
    + destruct (w_large st W d I G) as [H _].
      assert (H' : forall l, In l (kc_lits d) -> idx l < k_vars st /\ active_or_fixed st (idx l)).
      { intros l Il. destruct (H l Il) as [L U]. apply idx_lt in L. auto. }
      assert (Sa : satisfied st (kc_lits d) = false).
      { destruct (satisfied st (kc_lits d)) eqn:Sa; auto. exfalso. apply existsb_exists in Sa as (l & Il & R). destruct (H' l Il) as [L U].
        apply (Nt (external st l)); [now apply in_map|]. rewrite (fixed_value_root st l W L U). destruct (root_value st l) as [[|]|]; auto; discriminate R. }
      rewrite (filter_external st _ W H'). destruct (remaining_ok st W d I G Sa) as [Len Ok].
      assert (Ok' : forall l, In l (remaining st (kc_lits d)) -> idx l < k_vars st /\ f_active (k_flags st (idx l)) = true)
        by (intros l Il; destruct (Ok l Il) as (A & B & _); auto).
      rewrite <- (map_external st st' w cs _ W C Ok').
      destruct (Nat.eq_dec (length (remaining st (kc_lits d))) 2) as [Two|Ntwo].
      * right. destruct (remaining st (kc_lits d)) as [|x [|y [|z r]]] eqn:R; try discriminate Two.
        destruct (Ok' x (or_introl eq_refl)) as [Lx Ax]. destruct (Ok' y (or_intror (or_introl eq_refl))) as [Ly Ay].
        exists (mlit st x), (mlit st y). rewrite (r_vars _ _ _ _ C). split; [apply ml_lt; auto; now apply kept_act|]. split; [|reflexivity].
        rewrite (r_watches _ _ _ _ C) by (apply ml_lt; auto; now apply kept_act). apply (sp_watches st _ _ _ Sp). right.
        exists d, (mlit st x), (mlit st y). split; auto. split; [|left; auto]. unfold small. rewrite R. auto.
      * left. exists (mk_cclause false (map (mlit st) (remaining st (kc_lits d)))). split; [|auto].
        rewrite (r_clauses _ _ _ _ C). pose proof (sp_clauses st _ _ _ Sp) as Q. cbn [snd] in Q. rewrite Q. apply in_flat_map.
        exists d. split; auto. unfold large_rest. rewrite G, Sa, map_length. cbn [orb].
        destruct (Nat.eqb_spec (length (remaining st (kc_lits d))) 2); [contradiction|now left].
    + destruct (w_watch st W l o L I) as (U1 & L2 & U2 & _). pose proof L as Li. apply idx_lt in Li. apply idx_lt in L2.
      assert (R1 : root_value st l <> Some true) by (rewrite <- (fixed_value_root st l W Li U1); apply Nt; now left).
      assert (R2 : root_value st o <> Some true) by (rewrite <- (fixed_value_root st o W L2 U2); apply Nt; right; now left).
      destruct (after_binary st st' w0 w cs W F Sp C l o L I R1 R2) as (A1 & A2 & N1 & N2 & I').
      assert (Fi : filter (not_false st) [external st l; external st o] = [external st l; external st o]).
      { cbn [filter]. unfold not_false. rewrite (fixed_value_root st l W Li U1), (fixed_value_root st o W L2 U2), N1, N2. reflexivity. }
      rewrite Fi. right. exists (mlit st l), (mlit st o). rewrite (r_vars _ _ _ _ C).
      split; [apply ml_lt; auto; now apply kept_act|]. split; auto.
      pose proof (external_ml st st' w cs C l Li (kept_act st _ A1)) as X1. pose proof (external_ml st st' w cs C o L2 (kept_act st _ A2)) as X2.
      unfold export_literal in X1, X2. unfold external. now rewrite X1, X2.
  - intros c' [(d & I & G & ->)|(m & o' & Lm & I & ->)].
    + destruct (after_clauses st st' w0 w cs Sp C d I) as (_ & c & I1 & G1 & Sa & -> & _).
      exists (map (external st) (kc_lits c)). destruct (w_large st W c I1 G1) as [H _].
      assert (H' : forall l, In l (kc_lits c) -> idx l < k_vars st /\ active_or_fixed st (idx l)).
      { intros l Il. destruct (H l Il) as [L U]. apply idx_lt in L. auto. }
      split; [left; exists c; auto|]. destruct (remaining_ok st W c I1 G1 Sa) as [_ Ok]. split.
      * intros e Ie R. apply in_map_iff in Ie as (l & <- & Il). destruct (H' l Il) as [L U]. rewrite (fixed_value_root st l W L U) in R.
        assert (T : satisfied st (kc_lits c) = true); [|congruence]. apply existsb_exists. exists l. rewrite R. auto.
      * rewrite (filter_external st _ W H'). rewrite (map_external st st' w cs); auto. intros l Il. destruct (Ok l Il) as (A & B & _). auto.
    + rewrite (r_vars _ _ _ _ C) in Lm.
      destruct (after_watches st st' w0 w cs W F Sp C m _ Lm I) as (l & o & Q & -> & L1 & L2 & A1 & A2 & _ & _ & H). injection Q as ->.
      pose proof (external_ml st st' w cs C l L1 (kept_act st _ A1)) as X1. pose proof (external_ml st st' w cs C o L2 (kept_act st _ A2)) as X2.
      change (export_literal (k_exports st') (mlit st l)) with (external st' (mlit st l)) in X1.
      change (export_literal (k_exports st') (mlit st o)) with (external st' (mlit st o)) in X2. rewrite X1, X2.
      change (export_literal (k_exports st) l) with (external st l). change (export_literal (k_exports st) o) with (external st o).
      destruct H as [(Io & N1 & N2)|(c & I1 & G & Sa & R)].
      * exists [external st l; external st o]. split; [right; exists l, o; split; [now apply idx_lt|auto]|].
        assert (V1 : fixed_value st (external st l) = None) by (rewrite (fixed_value_root st l W L1 (or_introl A1)); auto).
        assert (V2 : fixed_value st (external st o) = None) by (rewrite (fixed_value_root st o W L2 (or_introl A2)); auto).
        split.
        -- intros e [<-|[<-|[]]]; congruence.
        -- cbn [filter]. unfold not_false. rewrite V1, V2. auto.
      * exists (map (external st) (kc_lits c)). destruct (w_large st W c I1 G) as [H _].
        assert (H' : forall l, In l (kc_lits c) -> idx l < k_vars st /\ active_or_fixed st (idx l)).
        { intros k Il. destruct (H k Il) as [L U]. apply idx_lt in L. auto. }
        split; [left; exists c; auto|]. split.
        -- intros e Ie V. apply in_map_iff in Ie as (k & <- & Ik). destruct (H' k Ik) as [L U]. rewrite (fixed_value_root st k W L U) in V.
           assert (T : satisfied st (kc_lits c) = true); [|congruence]. apply existsb_exists. exists k. rewrite V. auto.
        -- rewrite (filter_external st _ W H'). destruct R as [-> | ->]; cbn [map]; auto. apply perm_swap.
Qed.

Lemma truth_neg : forall u e, e <> 0%Z -> truth u (- e) = negb (truth u e).
Proof.
  intros u e H. unfold truth. replace (Z.abs_nat (- e)) with (Z.abs_nat e) by lia.
  destruct (Z.ltb_spec e 0), (Z.ltb_spec (- e) 0); try lia; now rewrite ?negb_involutive.
Qed.

(** The clauses and fixed literals have the same models. *)
Theorem C41_models : forall st st' u, cwf st -> compacting_collect st = Ret st' -> (external_model st' u <-> external_model st u).
Proof.
  intros st st' u W E. destruct (C41_clauses st st' W E) as [C1 C2].
  assert (Fv : forall e, fixed_value st' e = fixed_value st e) by (intros e; apply (C41_values st st' e W E)).
  assert (Same : (forall e, fixed_value st' e = Some true -> truth u e = true) <-> (forall e, fixed_value st e = Some true -> truth u e = true)).
  { split; intros H e; specialize (H e); rewrite Fv in *; auto. }
  unfold external_model. split; intros [H1 H2]; (split; [now apply Same|]).
  - pose proof (proj1 Same H1) as H1'. intros c Hc. destruct (existsb (fun e => match fixed_value st e with Some true => true | _ => false end) c) eqn:X.
    + apply existsb_exists in X as (e & Ie & V). exists e. split; auto. apply H1'. destruct (fixed_value st e) as [[|]|]; auto; discriminate V.
    + destruct (H2 (filter (not_false st) c)) as (e & Ie & T).
      { apply C1; auto. intros e Ie V. assert (Y : existsb (fun e => match fixed_value st e with Some true => true | _ => false end) c = true).
        - apply existsb_exists. exists e. rewrite V. auto.
        - congruence. }
      apply filter_In in Ie as [Ie _]. eauto.
  - intros c' Hc'. destruct (C2 c' Hc') as (c & Hc & Nt & P). destruct (H2 c Hc) as (e & Ie & T). exists e. split; auto.
    apply (Permutation_in _ (Permutation_sym P)). apply filter_In. split; auto. unfold not_false.
    destruct (fixed_value st e) as [[|]|] eqn:V; auto. exfalso.
    destruct (clause_used st c W Hc e Ie) as (l & L & U & ->).
    assert (N0 : external st l <> 0%Z) by (pose proof (w_exported st W _ L U); unfold external; destruct (negated l); lia).
    assert (V' : fixed_value st (- external st l) = Some true).
    { replace (- external st l)%Z with (external st (neg l)) by (unfold external; rewrite idx_neg, negated_neg; destruct (negated l); cbn; lia).
      rewrite (fixed_value_root st l W L U) in V. rewrite (fixed_value_root st (neg l) W) by (rewrite idx_neg; auto).
      rewrite (root_value_neg st W), V. reflexivity. }
    apply H1 in V'. rewrite truth_neg, T in V' by auto. discriminate V'.
Qed.

(** The internal variables are the active ones and at most one fixed one, and all of them belong to an external variable.
    Variables above can be reused. *)
Theorem C41_dense : forall st st', cwf st -> compacting_collect st = Ret st' ->
  k_vars st' = count_active st + (if existsb (fun i => f_fixed (k_flags st i)) (seq 0 (k_vars st)) then 1 else 0) /\
  (forall i, i < k_vars st' -> active_or_fixed st' i /\ external st' (2 * i) <> 0%Z /\
     i_lit (k_imports st' (Z.abs_nat (external st' (2 * i)))) = if (external st' (2 * i) <? 0)%Z then 2 * i + 1 else 2 * i) /\
  (forall i j, i < k_vars st' -> j < k_vars st' -> f_fixed (k_flags st' i) = true -> f_fixed (k_flags st' j) = true -> i = j) /\
  (forall i, k_vars st' <= i -> k_flags st' i = no_flags /\ k_values st' (2 * i) = None /\ k_values st' (2 * i + 1) = None /\
     k_watches st' (2 * i) = [] /\ k_watches st' (2 * i + 1) = []).
Proof.
  intros st st' W E. destruct (run_compact st W) as (st2 & E2 & w & cs & w0 & F & Sp & C).
  assert (st2 = st') by congruence. subst st2. pose proof (after_cwf st st' w0 w cs W F Sp C) as W'.
  assert (K : forall j, j < k_vars st' -> exists i, i < k_vars st /\ kept st i = true /\ rank st i = j).
  { intros j L. rewrite (r_vars _ _ _ _ C) in L. now apply rank_surj. }
  split; [|split; [|split]].
  - rewrite (r_vars _ _ _ _ C), (rank_count st W) by lia. f_equal.
    destruct (first_fixed st (k_vars st)) as [f|] eqn:Ff; destruct (existsb _ _) eqn:X; auto; exfalso.
    + destruct (first_fixed_some st _ f Ff) as (L & Fx & _).
      assert (Y : existsb (fun i => f_fixed (k_flags st i)) (seq 0 (k_vars st)) = true); [|congruence].
      apply existsb_exists. exists f. split; auto. apply in_seq. lia.
    + apply existsb_exists in X as (i & I & Fx). apply in_seq in I. rewrite (first_fixed_none st _ i Ff) in Fx; [discriminate|lia].
  - intros j L. destruct (K j L) as (i & Li & Ki & <-).
    assert (U : active_or_fixed st' (rank st i)) by (unfold active_or_fixed; rewrite (r_flags _ _ _ _ C) by auto; now apply kept_used).
    split; auto. unfold external. rewrite idx_even, negated_even.
    destruct (w_export st' W' _ L U) as [X1 X2]. split; auto. rewrite X2. unfold signed.
    destruct (k_exports st' (rank st i) <? 0)%Z; rewrite ?neg_even; lia.
  - intros j1 j2 L1 L2 F1 F2. destruct (K j1 L1) as (i1 & Li1 & Ki1 & <-). destruct (K j2 L2) as (i2 & Li2 & Ki2 & <-).
    rewrite (r_flags _ _ _ _ C) in F1, F2 by auto.
    destruct (kept_cases st _ Ki1) as [A|[_ A]]; [apply (w_excl st W _ Li1) in F1; destruct F1; congruence|].
    destruct (kept_cases st _ Ki2) as [B|[_ B]]; [apply (w_excl st W _ Li2) in F2; destruct F2; congruence|].
    now rewrite (first_fixed_unique st _ _ _ _ A B).
  - intros i L. rewrite (r_vars _ _ _ _ C) in L. destruct (r_beyond _ _ _ _ C i L) as (A1 & A2 & A3 & _ & A5 & A6).
    replace (2 * i + 1) with (S (2 * i)) by lia. auto.
Qed.

(** The trail, the reasons, the decisions and the order of the variables in the decision queue stay the same for the user.  The
    queue is again a doubly linked list with increasing stamps, and the search for a decision does not miss a variable. *)
Theorem C41_search_state : forall st st', cwf st -> compacting_collect st = Ret st' ->
  map (external st') (k_trail st') = map (external st) (k_trail st) /\
  map (fun l => option_map (external st') (k_reason st' (idx l))) (k_trail st') =
    map (fun l => option_map (external st) (k_reason st (idx l))) (k_trail st) /\
  map (external st') (k_frames st') = map (external st) (k_frames st) /\
  (forall L, linked (qnext (k_queue st)) (qfirst (k_queue st)) L -> exists L',
     linked (qnext (k_queue st')) (qfirst (k_queue st')) L' /\ linked (qprev (k_queue st')) (qlast (k_queue st')) (rev L') /\
     map (fun i => external st' (2 * i)) L' = map (fun i => external st (2 * i)) L /\
     (qstable (k_queue st) = false -> forall i, In i L' -> k_values st' (2 * i) = None ->
        exists s, qsearch (k_queue st') = Some s /\ In s L' /\ (qstamps (k_queue st') i <= qstamps (k_queue st') s)%Z)).
Proof.
  intros st st' W E. destruct (run_compact st W) as (st2 & E2 & w & cs & w0 & F & Sp & C).
  assert (st2 = st') by congruence. subst st2.
  assert (T : forall l, In l (k_trail st) -> idx l < k_vars st /\ f_active (k_flags st (idx l)) = true).
  { intros l I. destruct (w_trail st W l I) as (L & A & _). apply idx_lt in L. auto. }
  split; [|split; [|split]].
  - rewrite (r_trail _ _ _ _ C). apply (map_external st st' w cs); auto.
  - rewrite (r_trail _ _ _ _ C), map_map. apply map_ext_in. intros l I. destruct (T l I) as [L A].
    rewrite idx_mlit, (r_reason _ _ _ _ C l I) by (now apply kept_act).
    destruct (k_reason st (idx l)) as [o|] eqn:Ro; auto. cbn [option_map]. f_equal.
    destruct (w_trail st W l I) as (_ & _ & R). destruct (R o Ro) as [Lo Ao]. apply idx_lt in Lo.
    apply (external_ml st st' w cs C o Lo). now apply kept_act.
  - rewrite (r_frames _ _ _ _ C). apply (map_external st st' w cs); auto.
    intros l I. destruct (w_frames st W l I) as (L & A). apply idx_lt in L. auto.
  - intros L Lk. destruct (w_queue st W) as (L0 & Q & A & V).
    assert (L = L0).
    { destruct Q as [[_ Fi _ Ln] _ _ _ _]. rewrite Fi in Lk. clear -Lk Ln.
      assert (G : forall b a M, L0 = a ++ b -> linked (qnext (k_queue st)) (hd_error b) M -> M = b).
      { induction b as [|x b IH]; intros a M E H; destruct M as [|y M]; cbn in H; auto; try (destruct H; congruence); try discriminate.
        destruct H as [H1 H2]. injection H1 as <-. f_equal. apply (IH (a ++ [x])).
        - rewrite E, <- app_assoc. reflexivity.
        - destruct (Ln a x b E) as [_ <-]. exact H2. }
      exact (G L0 [] L eq_refl Lk). }
    subst L. destruct (r_queue _ _ _ _ C L0 Q A) as (Q' & V' & Qst). exists (map (rank st) L0).
    destruct Q' as [[N1 Fi La Ln] Stp B Qs Qk]. split; [|split; [|split]].
    + rewrite Fi. apply PropertiesQueue.linked_suffix. intros a x c El. apply (Ln a x c El).
    + rewrite La. apply PropertiesQueue.linked_suffix. intros a x c El. destruct (Ln (rev c) x (rev a)) as [P _].
      * rewrite <- (rev_involutive (map _ _)), El, rev_app_distr. cbn [rev]. rewrite <- app_assoc. reflexivity.
      * rewrite P, rev_involutive. reflexivity.
    + rewrite map_map. apply map_ext_in. intros i I. pose proof (qi_vars _ _ _ Q i I) as Li. pose proof (kept_act st i (A i I)) as K.
      unfold external. rewrite !idx_even, !negated_even. now rewrite (r_exports _ _ _ _ C).
    + intros Fo j J Vj. rewrite <- Qst in Fo.
      assert (Vq : qvalue (k_queue st') j = false).
      { apply in_map_iff in J as (i & <- & I). rewrite (V' i I). pose proof (qi_vars _ _ _ Q i I) as Li.
        rewrite (values_even st st' w cs C i Li (kept_act st i (A i I))) in Vj. destruct (V i Li (A i I)) as [_ H].
        destruct (qvalue (k_queue st) i); auto. destruct H as [H _]. destruct (H eq_refl Vj). }
      specialize (Qk Fo j J Vq). destruct (qsearch (k_queue st')) as [s|].
      * destruct Qs as [Q1 Q2]. exists s. rewrite <- Q2. auto.
      * destruct Stp as (_ & Stp & _). specialize (Stp j J). lia.
Qed.

(** ** Example: eight variables, of which one is eliminated, two are fixed, and one does not occur anymore *)
Definition ex_flags : list cflags :=
  [mk_cflags false false true; mk_cflags false true false; mk_cflags true false false; mk_cflags false true false;
   no_flags; mk_cflags true false false; mk_cflags true false false; mk_cflags true false false].
Definition ex_values : list (option bool) := [None; Some false; Some true; Some true; None; None; Some true; None].
Definition ex_imports : list import :=
  [no_import; mk_import 0 false true true; mk_import 3 false true false; mk_import 4 false true false; mk_import 6 false true false;
   mk_import 8 false true false; mk_import 10 false true false; mk_import 12 false true false; mk_import 14 false true false].
Definition ex_watches : list (list cwatch) :=
  [[]; []; []; []; [KLarge 0; KLarge 1]; [KBin 12]; [KBin 10]; []; []; []; [KLarge 0; KBin 6]; []; [KBin 5]; []; [KLarge 1]; []].
Definition ex_queue : queue :=
  mk_queue (fun i => nth i [None; None; Some 5; None; None; Some 6; Some 7; None] None)
           (fun i => nth i [None; None; None; None; None; Some 2; Some 5; Some 6] None)
           (fun i => nth i [0; 0; 9; 0; 0; 7; 4; 2]%Z 0%Z) (Some 7) (Some 2) 9 (Some 5) 7
           (fun i => nth i [false; false; true; false; false; false; true; false] false) false.
Definition ex_state : cstate :=
  mk_cstate 8 (fun i => nth i ex_flags no_flags)
    (fun l => let v := nth (idx l) ex_values None in if negated l then option_map negb v else v)
    (fun i => nth i [0; 0; 1; 0; 0; 0; 1; 0] 0) (fun i => nth i [None; None; None; None; None; None; Some 5; None] None)
    (fun x => nth x ex_imports no_import) (fun i => nth i [1; -2; 3; 4; 5; 6; 7; 8]%Z 0%Z) [2; 4]%Z
    (fun _ => Some true) (fun l => nth l ex_watches [])
    [mk_cclause false [4; 10; 12]; mk_cclause false [4; 2; 14]; mk_cclause false [6; 4; 10]; mk_cclause true [1; 4; 10];
     mk_cclause false [11; 2; 13; 15]]
    [4; 12] [4] ex_queue.

Ltac split8 L := match type of L with ?i < _ =>
  let H := fresh in assert (H : i = 0 \/ i = 1 \/ i = 2 \/ i = 3 \/ i = 4 \/ i = 5 \/ i = 6 \/ i = 7) by lia; clear L;
  destruct H as [-> | [-> | [-> | [-> | [-> | [-> | [-> | ->]]]]]]] end.

Example ex_queue_ok : qinv 8 [7; 6; 5; 2] ex_queue.
Proof.
  assert (Sp : forall a x b, [7; 6; 5; 2] = a ++ x :: b -> (a, x, b) = ([], 7, [6; 5; 2]) \/ (a, x, b) = ([7], 6, [5; 2]) \/
    (a, x, b) = ([7; 6], 5, [2]) \/ (a, x, b) = ([7; 6; 5], 2, [])).
  { intros a x b H. destruct a as [|a1 [|a2 [|a3 [|a4 [|a5 a]]]]]; cbn in H; try discriminate H; injection H; intros; subst; auto. }
  constructor.
  - constructor; try reflexivity.
    + repeat constructor; cbn; lia.
    + intros a x b H. destruct (Sp a x b H) as [Q|[Q|[Q|Q]]]; injection Q as -> -> ->; split; reflexivity.
  - split; [|split].
    + intros a x b y H I. destruct (Sp a x b H) as [Q|[Q|[Q|Q]]]; injection Q as -> -> ->; cbn in I; intuition (subst; cbn; lia).
    + intros x I. cbn in I. intuition (subst; cbn; lia).
    + unfold UINT_MAX. cbn. lia.
  - intros x I. cbn in I. lia.
  - cbn. auto.
  - intros _ x I V. cbn in I. intuition (subst; cbn in *; try discriminate; lia).
Qed.

Example ex_cwf : cwf ex_state.
Proof.
  constructor; cbn [ex_state k_vars k_flags k_values k_level k_reason k_imports k_exports k_units k_gone k_watches k_clauses k_trail k_frames k_queue].
  - lia.
  - intros l. cbn zeta. rewrite idx_neg, negated_neg. destruct (nth (idx l) ex_values None) as [[|]|], (negated l); reflexivity.
  - intros i L. split8 L; cbn; intuition (discriminate || lia).
  - intros i L. split8 L; cbn; intuition discriminate.
  - intros i L A F E. split8 L; cbn in *; try discriminate; reflexivity.
  - intros i L. cbn zeta. rewrite idx_even, negated_even. rewrite !nth_overflow; auto; cbn; lia.
  - intros i L U. split8 L; cbn in *; try discriminate.
  - intros i L X. split8 L; cbn in *; auto 6.
  - intros i j Li Lj X E. split8 Li; split8 Lj; vm_compute in E; congruence.
  - intros x I1 I2. do 9 (destruct x as [|x]; [first [discriminate I1|discriminate I2|split; [cbn; lia|left; split; [discriminate|reflexivity]]]|]).
    rewrite nth_overflow in I1 by (cbn; lia). discriminate I1.
  - intros e I. cbn in I. destruct I as [<-|[<-|[]]]; cbn; intuition discriminate.
  - intros i L F. split8 L; cbn in *; try discriminate; [exists 2%Z|exists 4%Z]; auto.
  - intros l o L I. do 16 (destruct l as [|l]; [cbn in I; intuition (try discriminate); match goal with H : KBin _ = KBin _ |- _ => injection H as <- end; cbn; auto; lia|]).
    exfalso. cbn in L. lia.
  - intros l o L I R. do 16 (destruct l as [|l]; [cbn in I; intuition (try discriminate); match goal with H : KBin _ = KBin _ |- _ => injection H as <- end; cbn in R; discriminate R|]).
    exfalso. cbn in L. lia.
  - intros c I G. destruct I as [<-|[<-|[<-|[<-|[<-|[]]]]]]; try discriminate G; (split; [intros l I; cbn in I; intuition (subst; cbn; auto; lia)|]); cbn; auto; try lia.
  - intros l I. destruct I as [<-|[<-|[]]]; cbn; (split; [lia|]); (split; [reflexivity|]); intros o E; [discriminate E|].
    injection E as <-. cbn. split; [lia|reflexivity].
  - cbn. repeat constructor; cbn; lia.
  - intros l [<-|[]]. cbn. split; [lia|reflexivity].
  - exists [7; 6; 5; 2]. split; [exact ex_queue_ok|]. split.
    + intros i I. cbn in I. intuition (subst; reflexivity).
    + intros i L A. split8 L; cbn in *; try discriminate; intuition (try discriminate; congruence).
Qed.

Definition ex_after : option cstate := match compacting_collect ex_state with Ret s => Some s | _ => None end.

(** Five internal variables are left: the first fixed one and the four active ones.  The external literals of the clauses, the
    values, the trail, the reason of the second literal on the trail and the queue. *)
Example ex_run : exists s, compacting_collect ex_state = Ret s /\ k_vars s = 5 /\
  map (fun d => map (external s) (kc_lits d)) (k_clauses s) = [[3; 6; 7]; [-6; -7; -8]]%Z /\
  map (k_watches s) (seq 0 10) = [[]; []; [KBin 8]; [KBin 6]; []; []; [KBin 3]; []; [KBin 2]; []] /\
  map (external_value s) [1; 2; -2; 3; 4; 5; 6; 7; 8]%Z =
    [Some true; Some true; Some false; Some true; Some true; None; None; Some true; None] /\
  map (external s) (k_trail s) = [3; 7]%Z /\ option_map (external s) (k_reason s 3) = Some (-3)%Z /\
  map (fun x => (i_lit (k_imports s x), i_imported (k_imports s x))) [2; 3; 4; 5; 6; 7; 8] =
    [(1, true); (2, true); (1, true); (8, false); (4, true); (6, true); (8, true)] /\
  linked (qnext (k_queue s)) (qfirst (k_queue s)) [4; 3; 2; 1].
Proof. eexists. vm_compute. split; [reflexivity|]. auto 20. Qed.

(** The search position of the queue was external variable 6 before, now it is external variable 3, which comes later in the queue:
    the new index of the former is the old index of the latter, and it is mapped a second time.  The search still does not miss a
    variable (theorem C41_search_state). *)
Example ex_search_mapped_twice : exists s i, compacting_collect ex_state = Ret s /\ qsearch (k_queue ex_state) = Some 5 /\
  external ex_state 10 = 6%Z /\ qsearch (k_queue s) = Some i /\ external s (2 * i) = 3%Z.
Proof. eexists. eexists. vm_compute. auto. Qed.

(** A second collection changes nothing for the user. *)
Example ex_twice : exists s s2, compacting_collect ex_state = Ret s /\ compacting_collect s = Ret s2 /\ k_vars s2 = 5 /\
  forall e, external_value s2 e = external_value ex_state e.
Proof.
  destruct (C41_invariant ex_state ex_cwf) as (s & E & W). destruct (C41_invariant s W) as (s2 & E2 & _).
  exists s, s2. split; auto. split; auto. split.
  - assert (H : match compacting_collect ex_state with Ret s => match compacting_collect s with Ret s2 => Some (k_vars s2) | _ => None end | _ => None end = Some 5)
      by (vm_compute; reflexivity).
    rewrite E, E2 in H. congruence.
  - intros e. rewrite (proj1 (C41_values s s2 e W E2)). apply (C41_values ex_state s e ex_cwf E).
Qed.

Print Assumptions C41_invariant.
Print Assumptions C41_values.
Print Assumptions C41_clauses.
Print Assumptions C41_models.
Print Assumptions C41_dense.
Print Assumptions C41_search_state.
