(** Bounded variable addition during the search (C54). *)
From Coq Require Import ZArith List Bool Lia Arith Permutation.
From Coq Require Import ZifyBool ZifyNat.
From Verif Require Import Base Hoare SpecSat SpecApi SpecSearch SpecDrat Lit Sem Solver Search Api Inv DbFacts AssignSpec TransitiveFacts Keeps OriginalFacts ApiFacts PropertiesApi PropertiesSearch PropertiesBackbone Eliminate Factor.
From Verif Require FactorFacts FactorFresh FactorQuotient FactorApply FactorRun FactorEnter.
Import ListNotations.
Open Scope nat_scope.
Open Scope outcome_scope.

(** The clauses of the formula in the state [d]: fixed literals, binary clauses and irredundant large clauses. *)
Definition contains (d : dense) (c : list lit) : Prop :=
  (exists l, c = [l] /\ values (d_sol d) l = Some true) \/
  (exists x y, c = [x; y] /\ In (DBinary y) (d_occs d x)) \/
  (exists r k, arena (d_sol d) r = Some k /\ c_garbage k = false /\ c_redundant k = false /\ c = c_lits k).
(** The external literal of an internal one in this state. *)
Definition external (d : dense) (l : lit) : Z :=
  let e := nth (idx l) (d_exports d) 0%Z in if negated l then (- e)%Z else e.
(** The assignment [v] of external variables satisfies these clauses. *)
Definition satisfies_dense (v : Z -> bool) (d : dense) : Prop :=
  forall c, contains d c -> exists l, In l c /\ literal_true v (external d l) = true.
(** The binary clauses, each of them once, and the large ones. *)
Definition number_before (s : solver) : nat := length (binaries (vars s) (watches s)) + length (larges (next_ref s) (arena s)).
Definition number_after (d : dense) : nat := length (FactorFacts.pairs (vars (d_sol d)) (d_occs d)) + length (larges (next_ref (d_sol d)) (arena (d_sol d))).

(** The state is as above and the stack of external variables is not longer than the solver assumes. *)
Definition at_factor (tumble : bool) (o : options) (cs : list call) (a : api) (s : solver) : Prop :=
  at_backbone tumble o cs a s /\ (Z.of_nat (length (imports a)) <= EXTERNAL_MAX_VAR)%Z.

(** ** All factorizations together *)
Definition extension (i : nat) : import := mk_import (2 * i) true true false.
Record summary (bound : nat) (d d' : dense) (k : nat) : Prop := {
  su_inv : FactorFacts.finv d';
  su_vars : vars (d_sol d') = vars (d_sol d) + k;
  su_values : forall l, values (d_sol d') l = values (d_sol d) l;
  su_imports : d_imports d' = d_imports d ++ map extension (seq (vars (d_sol d)) k);
  su_exports : d_exports d' = d_exports d ++ map Z.of_nat (seq (length (d_imports d)) k);
  su_room : k = 0 \/ (Z.of_nat (length (d_imports d) + k) <= EXTERNAL_MAX_VAR)%Z;
  su_count : length (FactorFacts.ddb d') + S bound * k <= length (FactorFacts.ddb d);
  su_back : forall v, FactorRun.satisfied d' v -> FactorRun.satisfied d v;
  su_forth : forall v, FactorRun.satisfied d v -> exists v', (forall i, i < vars (d_sol d) -> v' i = v i) /\ FactorRun.satisfied d' v';
  su_checks : forall D, msub (FactorFacts.ddb d) D -> (forall c l, In c D -> In l c -> l < 2 * vars (d_sol d)) ->
    exists ls D', steps (d_sol d') = rev ls ++ steps (d_sol d) /\ FactorApply.checks D ls D' /\ msub (FactorFacts.ddb d') D' }.

Lemma grown_summary : forall bound d d', FactorRun.grown bound d d' -> FactorFacts.finv d -> exists k, summary bound d d' k.
Proof.
  intros bound d d' G. induction G as [d|d d1 d2 fs Qs A Lt G IH]; intros F.
  - exists 0. constructor; try rewrite ?Nat.add_0_r, ?app_nil_r; cbn [seq map]; rewrite ?app_nil_r; auto; [lia| |].
    + intros v H. exists v. auto.
    + intros D M _. exists [], D. splits; auto. constructor.
  - destruct (IH (FactorRun.fa_inv _ _ _ _ A)) as (k & Su). exists (S k). pose proof (FactorRun.fa_vars _ _ _ _ A) as Vs. constructor.
    + apply (su_inv _ _ _ _ Su).
    + rewrite (su_vars _ _ _ _ Su). lia.
    + intros l. rewrite (su_values _ _ _ _ Su). apply (FactorRun.fa_values _ _ _ _ A).
    + rewrite (su_imports _ _ _ _ Su), (FactorRun.fa_imports _ _ _ _ A), <- app_assoc, Vs. reflexivity.
    + rewrite (su_exports _ _ _ _ Su), (FactorRun.fa_exports _ _ _ _ A), (FactorRun.fa_imports _ _ _ _ A), app_length, <- app_assoc, Nat.add_1_r. reflexivity.
    + right. pose proof (FactorRun.fa_room _ _ _ _ A) as R. destruct (su_room _ _ _ _ Su) as [-> | R2]; [lia|].
      rewrite (FactorRun.fa_imports _ _ _ _ A), app_length in R2. cbn [length] in R2. lia.
    + pose proof (su_count _ _ _ _ Su) as C. pose proof (FactorRun.fa_count _ _ _ _ A) as C1. lia.
    + intros v H. apply (FactorRun.factored_back d d1 fs Qs); auto. now apply (su_back _ _ _ _ Su).
    + intros v H. destruct (FactorRun.factored_forth _ _ _ _ _ F A H) as (b & H1). destruct (su_forth _ _ _ _ Su _ H1) as (v' & E & H2).
      exists v'. split; auto. intros i I. rewrite E by lia. rewrite upd_other; auto. lia.
    + intros D M R. destruct (FactorRun.fa_checks _ _ _ _ A D M R) as (ls & D1 & E & C & M1 & R1).
      destruct (su_checks _ _ _ _ Su D1 M1 R1) as (ls2 & D2 & E2 & C2 & M2). exists (ls ++ ls2), D2. splits; auto.
      * rewrite E2, E, rev_app_distr, <- app_assoc. reflexivity.
      * eapply FactorApply.checks_app; eauto.
Qed.

Section State.
Variables (tumble : bool) (o : options) (cs : list call) (a : api) (s : solver).
Hypothesis At : at_factor tumble o cs a s.

Lemma state_minv : minv a.
Proof using At. destruct At as [(s0 & s1 & [Er _] & _) _]. destruct (run_calls_spec _ _ _ _ Er) as [Ai _]. apply (ai_m _ _ Ai). Qed.
Lemma state_root : at_root (inside cs a) s /\ shape s = shape (sol a).
Proof using At. destruct At as [Ab _]. now apply (backbone_state tumble o). Qed.
Lemma state_sat : forall v, sat (inner a v) (inside cs a) <-> satisfies v (formula_of cs).
Proof using At.
  intros v. destruct At as [(s0 & s1 & [Er _] & _) _]. destruct (run_calls_spec _ _ _ _ Er) as [Ai _].
  apply (inner_sat a v _ (ai_m _ _ Ai) (lits_ok _ _ Ai)).
Qed.
Variable candidate : nat -> bool.
Let d0 := connect_clauses_to_factor candidate (enter_dense_mode s a).
Lemma state_dense : FactorFacts.finv d0 /\ d_sol d0 = set_steps (rev (map Deleted (FactorEnter.duplicates s)) ++ steps s) s /\ d_imports d0 = imports a /\ d_exports d0 = exports a /\
  Permutation (FactorEnter.all_clauses s) (FactorEnter.duplicates s ++ FactorFacts.ddb d0) /\ forall c, FactorFacts.holds d0 c <-> entry s c false.
Proof using At.
  destruct state_root as [Ro Sh]. pose proof state_minv as M. pose proof (FactorEnter.enter_inv _ s a Ro M Sh) as F.
  assert (N : forall l q, ~ In (DLarge q) (d_occs (enter_dense_mode s a) l)).
  { intros l q I. apply (FactorEnter.enter_occs _ s a Ro) in I as (b & E & _). discriminate. }
  destruct (FactorEnter.connect_spec candidate _ F N) as (F' & E1 & E2 & E3 & E4 & E5). unfold d0. splits; auto.
  - rewrite E1. apply FactorEnter.enter_sol.
  - rewrite E4. apply FactorEnter.enter_perm.
  - intros c. rewrite E5. apply (FactorEnter.enter_holds _ s a Ro).
Qed.
Lemma state_factor : forall bound schedule, factor bound candidate schedule s a = run_factorization bound schedule d0.
Proof using At. intros bound schedule. unfold factor. destruct state_root as [(_ & _ & _ & _ & Lv) _]. now rewrite Lv. Qed.
Lemma state_length : (Z.of_nat (length (d_imports d0)) <= EXTERNAL_MAX_VAR)%Z.
Proof using At. destruct state_dense as (_ & _ & -> & _). apply At. Qed.
Lemma state_summary : forall bound schedule d, factor bound candidate schedule s a = Ret d -> exists k, summary bound d0 d k.
Proof using At.
  intros bound schedule d E. rewrite state_factor in E. destruct state_dense as (F & _). pose proof (FactorRun.run_factorization_spec bound schedule d0 F state_length) as H.
  rewrite E in H. now apply grown_summary.
Qed.
End State.

(** Factoring breaks no assertion, whatever the candidates are. *)
Theorem C54_safe : forall tumble o cs a s bound candidate schedule, at_factor tumble o cs a s ->
  factor bound candidate schedule s a <> Undef /\ factor bound candidate schedule s a <> Abort.
Proof.
  intros tumble o cs a s bound candidate schedule At. rewrite (state_factor tumble o cs a s At). destruct (state_dense tumble o cs a s At candidate) as (F & _).
  pose proof (FactorRun.run_factorization_spec bound schedule _ F (state_length tumble o cs a s At candidate)) as H.
  destruct (run_factorization _ _ _); try easy; split; discriminate.
Qed.
Print Assumptions C54_safe.

Lemma factorize_total : forall d, FactorFacts.finv d -> forall nexts qs, FactorQuotient.qchain d qs -> NoDup nexts ->
  (forall l, In l nexts -> l < 2 * vars (d_sol d) /\ active (d_sol d) (idx l) = true /\ is_factor qs l = false) -> factorize nexts qs d <> Fuel.
Proof.
  intros d F. induction nexts as [|next nexts IH]; intros qs C N H; cbn [factorize]; [discriminate|].
  destruct (H next (or_introl eq_refl)) as (L & A & I). apply NoDup_cons_iff in N as [N1 N2].
  rewrite A, I. replace (next <? 2 * vars (d_sol d)) with true by lia. cbn [andb negb possible obind].
  pose proof (FactorQuotient.factorize_next_spec d next qs F C L I) as W. apply wp_inv in W as (qs' & E & C'). rewrite E. cbn [obind]. apply IH; auto.
  intros l Il. destruct (H l (or_intror Il)) as (L' & A' & I'). splits; auto.
  unfold factorize_next in E. destruct qs as [|q qs]; [discriminate|]. rewrite I in E. cbn [negb oassert obind] in E.
  destruct (factorize_clauses _ _ _ _ _ _) as [[x y]| | |]; try discriminate. cbn [obind] in E. assert (E' : mk_quotient next x y :: q :: qs = qs') by congruence. subst qs'.
  change (is_factor (mk_quotient next x y :: q :: qs) l) with ((next =? l) || is_factor (q :: qs) l). rewrite I'.
  destruct (Nat.eqb_spec next l); [subst; contradiction|reflexivity].
Qed.
Lemma run_total : forall bound schedule d, FactorFacts.finv d -> (Z.of_nat (length (d_imports d)) <= EXTERNAL_MAX_VAR)%Z ->
  (forall first nexts, In (first, nexts) schedule -> NoDup (first :: nexts) /\ forall l, In l (first :: nexts) -> l < 2 * vars (d_sol d) /\ active (d_sol d) (idx l) = true) ->
  run_factorization bound schedule d <> Fuel.
Proof.
  intros bound. induction schedule as [|[first nexts] schedule IH]; intros d F Im H; cbn [run_factorization]; [discriminate|].
  destruct (H first nexts (or_introl eq_refl)) as [N U]. destruct (U first (or_introl eq_refl)) as [L A]. rewrite A. replace (first <? 2 * vars (d_sol d)) with true by lia.
  cbn [andb possible obind]. apply NoDup_cons_iff in N as [N1 N2].
  pose proof (FactorQuotient.first_chain d first F L) as C. pose proof (FactorQuotient.factorize_spec nexts (first_factor first d) d F C) as Fs.
  pose proof (factorize_total d F nexts (first_factor first d) C N2) as T.
  destruct (factorize nexts (first_factor first d) d) as [qs| | |]; try easy.
  2:{ exfalso. apply T; auto. intros l I. destruct (U l (or_intror I)) as [X Y]. splits; auto. unfold first_factor, is_factor. cbn [existsb q_factor].
      destruct (Nat.eqb_spec first l); [subst; contradiction|reflexivity]. }
  cbn [obind]. assert (Next : run_factorization bound schedule d <> Fuel) by (apply IH; auto; intros f n I; apply H; now right).
  pose proof (FactorQuotient.best_quotient_spec (rev qs) [] None I) as B. rewrite rev_involutive, app_nil_r in B.
  destruct (best_quotient (rev qs) [] None) as [[r l]|]; auto. destruct B as (q & prevs & pre & -> & E & B1 & B2).
  destruct (Nat.ltb_spec bound r) as [Br|Br]; auto. rewrite E in Fs. apply FactorQuotient.qchain_suffix in Fs; [|discriminate].
  pose proof (FactorRun.apply_factoring_spec d q prevs F Fs Im) as Sp. apply wp_inv in Sp as ([applied d1] & -> & Sp). cbn [obind].
  destruct applied; [|discriminate]. apply IH; [apply (FactorRun.fa_inv _ _ _ _ Sp)| |].
  - pose proof (FactorRun.fa_room _ _ _ _ Sp). rewrite (FactorRun.fa_imports _ _ _ _ Sp), app_length. cbn [length]. lia.
  - intros f n Im'. destruct (H f n (or_intror Im')) as [X Y]. split; auto. intros l' I'. destruct (Y l' I') as [P Q].
    rewrite (FactorRun.fa_vars _ _ _ _ Sp), (FactorRun.fa_active _ _ _ _ Sp). split; [lia|]. now destruct (_ =? _).
Qed.
(** If the candidates are different literals of variables in use, factoring comes to an end. *)
Theorem C54_total : forall tumble o cs a s bound candidate schedule, at_factor tumble o cs a s ->
  (forall first nexts, In (first, nexts) schedule -> NoDup (first :: nexts) /\ forall l, In l (first :: nexts) -> usable s l) ->
  exists d, factor bound candidate schedule s a = Ret d.
Proof.
  intros tumble o cs a s bound candidate schedule At H. destruct (C54_safe tumble o cs a s bound candidate schedule At) as [U A].
  assert (T : factor bound candidate schedule s a <> Fuel); [|destruct (factor bound candidate schedule s a); try congruence; eauto].
  rewrite (state_factor tumble o cs a s At). destruct (state_dense tumble o cs a s At candidate) as (F & E & _).
  apply run_total; auto; [apply (state_length tumble o cs a s At)|]. intros f n I. destruct (H f n I) as [X Y]. split; auto. intros l Il. rewrite E. apply (Y l Il).
Qed.
Print Assumptions C54_total.

(** New variables get the external numbers after those in use, are marked as extension variables, and no other variable is changed.
    The limit on external variables is obeyed. *)
Theorem C54_fresh : forall tumble o cs a s bound candidate schedule d, at_factor tumble o cs a s -> factor bound candidate schedule s a = Ret d ->
  exists k, vars (d_sol d) = vars s + k /\ length (d_imports d) = length (imports a) + k /\
    (forall e, e < length (imports a) -> nth_error (d_imports d) e = nth_error (imports a) e) /\
    (forall l, l < 2 * vars s -> external d l = export_literal a l) /\
    (forall j, j < k -> external d (2 * (vars s + j)) = Z.of_nat (length (imports a) + j) /\
      nth_error (d_imports d) (length (imports a) + j) = Some (mk_import (2 * (vars s + j)) true true false)) /\
    (Z.of_nat (length (d_imports d)) <= EXTERNAL_MAX_VAR)%Z.
Proof.
  intros tumble o cs a s bound candidate schedule d At E. destruct (state_summary tumble o cs a s At candidate bound schedule d E) as (k & Su). exists k.
  destruct (state_dense tumble o cs a s At candidate) as (F & Es & Ei & Ee & _). pose proof (su_vars _ _ _ _ Su) as Vs. pose proof (su_imports _ _ _ _ Su) as Im. pose proof (su_exports _ _ _ _ Su) as Ex.
  rewrite Es, Ei, Ee in *. cbn [vars set_steps] in *. pose proof (state_minv tumble o cs a s At) as M. destruct (state_root tumble o cs a s At) as [_ Sh].
  assert (Le : length (exports a) = vars s) by (rewrite (m_len _ M); unfold shape in Sh; congruence).
  assert (Li : length (d_imports d) = length (imports a) + k) by (rewrite Im, app_length, map_length, seq_length; reflexivity). splits; auto.
  - intros e L. rewrite Im. apply nth_error_app1. exact L.
  - intros l L. unfold external, export_literal. rewrite Ex, app_nth1; auto. rewrite Le. now apply idx_lt.
  - intros j J. split.
    + unfold external. rewrite idx_even, Ex, app_nth2 by lia. unfold negated, Nat.odd. rewrite even_double. cbn [negb].
      rewrite Le. replace (vars s + j - vars s) with j by lia. change 0%Z with (Z.of_nat 0). rewrite map_nth. now rewrite seq_nth.
    + rewrite Im, nth_error_app2 by lia. replace (length (imports a) + j - length (imports a)) with j by lia.
      apply (map_nth_error extension j (seq (vars s) k)). rewrite (nth_error_nth' _ 0) by now rewrite seq_length. now rewrite seq_nth.
  - rewrite Li. destruct (su_room _ _ _ _ Su) as [-> | R]; [destruct At as [_ L]; lia|]. now rewrite Ei in R.
Qed.
Print Assumptions C54_fresh.

(** The clauses afterwards are equivalent to the formula as far as its own variables are concerned: a satisfying assignment of the
    clauses satisfies the formula, and one of the formula can be extended to the new variables. *)
Theorem C54_equivalent : forall tumble o cs a s bound candidate schedule d, at_factor tumble o cs a s -> factor bound candidate schedule s a = Ret d ->
  (forall v, satisfies_dense v d -> satisfies v (formula_of cs)) /\
  (forall v, satisfies v (formula_of cs) -> exists w, (forall e, (e < Z.of_nat (length (imports a)))%Z -> w e = v e) /\ satisfies_dense w d).
Proof.
  intros tumble o cs a s bound candidate schedule d At E. destruct (state_summary tumble o cs a s At candidate bound schedule d E) as (k & Su).
  destruct (C54_fresh _ _ _ _ _ _ _ _ _ At E) as (k' & Vs' & _ & _ & Old & New & _).
  destruct (state_dense tumble o cs a s At candidate) as (F & Es & Ei & Ee & _ & Ho). destruct (state_root tumble o cs a s At) as [Ro Sh]. pose proof (state_minv tumble o cs a s At) as M.
  pose proof (state_sat tumble o cs a s At) as Sat. pose proof Ro as ((Co & _) & _ & _ & Tr & _).
  pose proof (su_vars _ _ _ _ Su) as Vs. rewrite Es in Vs. cbn [vars set_steps] in Vs.
  assert (Va : forall l, values (d_sol d) l = values s l) by (intros l; rewrite (su_values _ _ _ _ Su), Es; reflexivity).
  assert (L0 : forall l, values s l = Some true -> lev s l = 0) by (intros l T; apply (ti_root _ (co_v _ _ _ Co)); auto; now rewrite Tr).
  assert (Rng : forall c l, contains d c -> In l c -> l < 2 * vars (d_sol d)).
  { intros c l [(x & -> & X)|C] I.
    - destruct I as [<-|[]]. apply (FactorFacts.fi_val _ (su_inv _ _ _ _ Su)). congruence.
    - apply (FactorRun.holds_range d c); auto; [apply (su_inv _ _ _ _ Su)|]. destruct C as [C|(r & q & A1 & A2 & A3 & A4)]; [now left|right]. exists r, q. splits; auto. now split. }
  assert (Tt : forall v v', (forall i, i < vars (d_sol d) -> v' i = v (nth i (d_exports d) 0%Z)) -> forall l, l < 2 * vars (d_sol d) -> literal_true v (external d l) = tr v' l).
  { intros v v' H l L. unfold external, tr. rewrite H by now apply idx_lt. assert (P : exists e, nth (idx l) (d_exports d) 0%Z = Z.of_nat e /\ valid_index e).
    { destruct (m_exp _ (FactorFacts.fi_map _ (su_inv _ _ _ _ Su)) (idx l)) as (e & A1 & A2 & _); [now apply idx_lt|]. exists e. split; auto. }
    destruct P as (e & -> & Ve). assert (0 < Z.of_nat e)%Z by (unfold valid_index in Ve; lia). unfold literal_true. destruct (negated l).
    - destruct (Z.ltb_spec 0 (- Z.of_nat e)); [lia|]. rewrite Z.opp_involutive. now destruct (v (Z.of_nat e)).
    - destruct (Z.ltb_spec 0 (Z.of_nat e)); [|lia]. now destruct (v (Z.of_nat e)). }
  assert (Dense : forall v v', (forall i, i < vars (d_sol d) -> v' i = v (nth i (d_exports d) 0%Z)) ->
    (satisfies_dense v d <-> FactorRun.satisfied d v' /\ forall l, values s l = Some true -> tr v' l = true)).
  { intros v v' H. split.
    - intros Sd. split.
      + intros c C. assert (C' : contains d c). { destruct C as [C|(r & q & A1 & [A2 A3] & A4)]; right; [now left|right]. exists r, q. auto. }
        destruct (Sd c C') as (l & I & T). exists l. split; auto. rewrite <- (Tt v v' H); auto. now apply (Rng c).
      + intros l T. assert (C' : contains d [l]) by (left; exists l; split; auto; congruence). destruct (Sd _ C') as (x & [<-|[]] & X). rewrite <- (Tt v v' H); auto. apply (Rng [l]); auto. now left.
    - intros [S1 S2] c C. destruct C as [(l & -> & T)|C].
      + exists l. split; [now left|]. rewrite (Tt v v' H); [apply S2; congruence|]. apply (Rng [l]); [left; eauto|now left].
      + destruct (S1 c) as (l & I & T). { destruct C as [C|(r & q & A1 & A2 & A3 & A4)]; [now left|right]. exists r, q. splits; auto. now split. }
        exists l. split; auto. rewrite (Tt v v' H); auto. apply (Rng c); auto. now right. }
  assert (Kk : k' = k) by lia. subst k'.
  assert (Lo : forall i, i < vars s -> nth i (d_exports d) 0%Z = nth i (exports a) 0%Z).
  { intros i I. specialize (Old (2 * i)). unfold external, export_literal in Old. rewrite idx_even in Old. unfold negated, Nat.odd in Old. rewrite even_double in Old. cbn [negb] in Old. apply Old. lia. }
  assert (Hi : forall j, j < k -> nth (vars s + j) (d_exports d) 0%Z = Z.of_nat (length (imports a) + j)).
  { intros j J. destruct (New j J) as [X _]. unfold external in X. rewrite idx_even in X. unfold negated, Nat.odd in X. now rewrite even_double in X. }
  assert (Dom : forall c l, held s c -> In l c -> l < 2 * vars s).
  { intros c l H I. assert (Ev : vars s = vars (d_sol (connect_clauses_to_factor candidate (enter_dense_mode s a)))) by now rewrite Es. rewrite Ev.
    destruct H as [(x & -> & X & _)|H].
    - destruct I as [<-|[]]. apply (FactorFacts.fi_val _ F x). rewrite Es. cbn [values set_steps]. congruence.
    - apply (FactorRun.holds_range _ c); auto. apply Ho. destruct H as [(x & y & -> & X)|(r & q & A1 & A2 & A3 & ->)]; [left; exists x, y; auto|right; exists r, q; auto]. }
  set (iv := fun (v : Z -> bool) i => v (nth i (d_exports d) 0%Z)).
  assert (Base : forall v, satisfies v (formula_of cs) <-> forall c, held s c -> sat_clause (iv v) c).
  { intros v. rewrite <- Sat. rewrite (held_equiv a v _ _ s M Co Sh).
    assert (Q : forall c l, held s c -> In l c -> literal_true v (export_literal a l) = tr (iv v) l).
    { intros c l H I. pose proof (Dom c l H I) as Ll. rewrite <- (Old l Ll). apply Tt; [reflexivity|lia]. }
    split; intros H c Hc; destruct (H c Hc) as (l & I & T); exists l; split; auto; [rewrite <- (Q c); auto|rewrite (Q c); auto]. }
  assert (Held : forall v, (forall c, held s c -> sat_clause v c) <-> FactorRun.satisfied (connect_clauses_to_factor candidate (enter_dense_mode s a)) v /\ forall l, values s l = Some true -> tr v l = true).
  { intros v. split.
    - intros H. split.
      + intros c C. apply H. apply Ho in C as [(x & y & -> & _ & X)|(r & q & A1 & A2 & A3 & ->)]; right; [left; eauto|right; exists r, q; auto].
      + intros l T. destruct (H [l]) as (x & [<-|[]] & X); auto. left. exists l. auto.
    - intros [H1 H2] c [(l & -> & T & _)|C]; [exists l; split; [now left|auto]|]. apply H1. apply Ho.
      destruct C as [(x & y & -> & X)|(r & q & A1 & A2 & A3 & ->)]; [left; exists x, y; auto|right; exists r, q; auto]. }
  split.
  - intros v Sd. apply Base, Held. apply (Dense v (iv v)) in Sd as [S1 S2]; [|reflexivity]. split; auto. now apply (su_back _ _ _ _ Su).
  - intros v Sv. destruct (proj1 (Held _) (proj1 (Base v) Sv)) as [S1 S2]. destruct (su_forth _ _ _ _ Su _ S1) as (v' & E' & S3). rewrite Es in E'. cbn [vars set_steps] in E'.
    exists (fun e => if (e <? Z.of_nat (length (imports a)))%Z then v e else v' (vars s + (Z.to_nat e - length (imports a)))).
    split; [intros e L; now replace (e <? _)%Z with true by lia|]. apply (Dense _ v').
    + intros i I. destruct (Nat.ltb_spec i (vars s)) as [L|L].
      * rewrite E', Lo by auto. unfold iv. rewrite Lo by auto.
        destruct (m_exp _ M i) as (e & A1 & _ & r & A2 & _); [unfold shape in Sh; congruence|]. rewrite A1.
        assert (e < length (imports a)) by (apply nth_error_Some; congruence). now replace (Z.of_nat e <? _)%Z with true by lia.
      * replace i with (vars s + (i - vars s)) by lia. rewrite Hi by lia. replace (_ <? _)%Z with false by lia. f_equal. lia.
    + split; auto. intros l T. rewrite <- (S2 l T). unfold tr. rewrite E'; auto. apply idx_lt. apply (Dom [l]); [left; exists l; auto|now left].
Qed.
Print Assumptions C54_equivalent.

(** Every new variable makes the number of clauses smaller by more than the bound. *)
Theorem C54_smaller : forall tumble o cs a s bound candidate schedule d, at_factor tumble o cs a s -> factor bound candidate schedule s a = Ret d ->
  number_after d + (bound + 1) * (vars (d_sol d) - vars s) <= number_before s.
Proof.
  intros tumble o cs a s bound candidate schedule d At E. destruct (state_summary tumble o cs a s At candidate bound schedule d E) as (k & Su).
  destruct (state_dense tumble o cs a s At candidate) as (F & Es & _ & _ & P & _). pose proof (su_vars _ _ _ _ Su) as Vs. rewrite Es in Vs. cbn [vars set_steps] in Vs.
  pose proof (su_count _ _ _ _ Su) as C. apply Permutation_length in P. rewrite app_length in P. unfold FactorFacts.ddb in C at 1. unfold FactorEnter.all_clauses in P. rewrite app_length in C, P.
  unfold number_after, number_before. replace (vars (d_sol d) - vars s) with k by lia. lia.
Qed.
Print Assumptions C54_smaller.

Lemma duplicates_checked : forall dups E D, msub (dups ++ E) D -> exists D', FactorApply.checks D (map Deleted dups) D' /\ msub E D' /\ incl D' D.
Proof.
  induction dups as [|c dups IH]; intros E D M; cbn [map app] in *.
  - exists D. splits; auto; [constructor|apply incl_refl].
  - assert (Pos : 0 < cnt c D). { specialize (M c). rewrite cnt_cons, set_eqb_refl in M. cbn [b2n] in M. lia. }
    destruct (remove_same_split c D Pos) as (a & e & b & Ed & Se & R).
    assert (M1 : msub (dups ++ E) (remove_same c D)).
    { intros x. specialize (M x). rewrite cnt_cons in M. pose proof (cnt_remove_same c D x Pos) as Cr. lia. }
    destruct (IH _ _ M1) as (D' & C1 & C2 & C3). exists D'. splits; auto.
    + rewrite Ed. constructor; auto. now rewrite <- R.
    + intros x X. apply C3 in X. now apply in_remove_same in X.
Qed.
(** The lines written to the proof are accepted as long as the checker still has all clauses of the solver, with their multiplicity. *)
Lemma factor_lines : forall tumble o cs a s bound candidate schedule d D, at_factor tumble o cs a s -> factor bound candidate schedule s a = Ret d ->
  msub (db s) D -> (forall c l, In c D -> In l c -> l < 2 * vars s) ->
  exists lines, steps (d_sol d) = rev lines ++ steps s /\ checked neg D lines.
Proof.
  intros tumble o cs a s bound candidate schedule d D At E M R. destruct (state_summary tumble o cs a s At candidate bound schedule d E) as (k & Su).
  destruct (state_dense tumble o cs a s At candidate) as (F & Es & _ & _ & P & _).
  assert (M1 : msub (FactorEnter.duplicates s ++ FactorFacts.ddb (connect_clauses_to_factor candidate (enter_dense_mode s a))) D).
  { intros c. rewrite <- (FactorApply.cnt_perm c _ _ P). specialize (M c). unfold db in M. unfold FactorEnter.all_clauses. rewrite cnt_app in M. lia. }
  destruct (duplicates_checked _ _ _ M1) as (D1 & C1 & M2 & I1).
  destruct (su_checks _ _ _ _ Su D1 M2) as (ls & D2 & E2 & C2 & _).
  - intros c l I L. rewrite Es. apply (R c); auto.
  - exists (map Deleted (FactorEnter.duplicates s) ++ ls). split.
    + rewrite E2, Es. cbn [steps set_steps]. rewrite rev_app_distr, <- app_assoc. reflexivity.
    + eapply FactorApply.checks_checked, FactorApply.checks_app; eauto.
Qed.

(** The lines before: the clauses which a checker has, and their literals. *)
Lemma pdb_checks : forall orig st, proof_ok orig st -> FactorApply.checks orig (rev st) (pdb orig st).
Proof.
  intros orig st. induction st as [|[c|c] st IH]; cbn [proof_ok pdb rev]; intros H; [constructor| |].
  - apply (FactorApply.checks_app _ _ _ (IH (proj2 H))). constructor; [left; apply H|constructor].
  - apply (FactorApply.checks_app _ _ _ (IH (proj2 H))). destruct (remove_same_split c _ (proj1 H)) as (a & e & b & Ed & Se & R). rewrite R, Ed.
    constructor; auto. constructor.
Qed.
Lemma pdb_range : forall n orig st, (forall c l, In c orig -> In l c -> l < 2 * n) -> ranged n st -> forall c l, In c (pdb orig st) -> In l c -> l < 2 * n.
Proof.
  intros n orig st O. induction st as [|[c|c] st IH]; cbn [pdb]; intros R d l I J; [now apply (O d)| |].
  - destruct I as [<-|I]; [apply (R c); auto; now left|]. apply (IH) with (c := d); auto. intros x k X. apply (R x). now right.
  - apply in_remove_same in I. apply (IH) with (c := d); auto. intros x k X. apply (R x). now right.
Qed.
(** The whole proof, from the clauses of the formula until factoring has finished, is accepted by a checker with resolution asymmetric
    tautologies. *)
Theorem C54_proof : forall tumble o cs a s bound candidate schedule d, at_factor tumble o cs a s -> factor bound candidate schedule s a = Ret d ->
  checked neg (map (map (internal a)) (formula_of cs)) (rev (steps (d_sol d))).
Proof.
  intros tumble o cs a s bound candidate schedule d At E. destruct (state_root tumble o cs a s At) as [Ro Sh]. pose proof (state_minv tumble o cs a s At) as M.
  assert (L : linv (inside cs a) s). { destruct Ro as ((Co & _) & _). apply (co_l _ _ _ Co). }
  assert (V : vars s = vars (sol a)) by (unfold shape in Sh; congruence).
  destruct (factor_lines tumble o cs a s bound candidate schedule d (pdb (inside cs a) (steps s)) At E (li_db _ _ L)) as (ls & Es & C).
  - apply pdb_range; [|apply L]. intros c l I J. unfold inside in I. apply in_map_iff in I as (c0 & <- & I). apply in_map_iff in J as (e & <- & J).
    destruct At as [(s0 & s1 & [Er _] & _) _]. destruct (run_calls_spec _ _ _ _ Er) as [Ai _]. rewrite V. apply internal_range; auto. apply (lits_ok _ _ Ai c0); auto.
  - rewrite Es, rev_app_distr, rev_involutive. apply (FactorApply.checks_after _ _ _ (pdb_checks _ _ (li_proof _ _ L)) _ C).
Qed.
Print Assumptions C54_proof.

Lemma imported_length : forall a e, imported a e -> (0 < e)%Z -> (e < Z.of_nat (length (imports a)))%Z.
Proof.
  intros a e (r & Er & _) P. assert (L : external_index e < length (imports a)) by (apply nth_error_Some; congruence). unfold external_index in L. lia.
Qed.
Lemma fresh_too_many : forall d, (EXTERNAL_MAX_VAR < Z.of_nat (length (d_imports d)))%Z -> fresh_literal d = Undef.
Proof. intros d L. unfold fresh_literal. apply Z.leb_gt in L. now rewrite L. Qed.
Lemma uses_all : forall tumble o cs a c e, run_calls tumble o cs kissat_init = Ret a -> In c (formula_of cs) -> In e c -> (0 < e)%Z ->
  (e < Z.of_nat (length (imports a)))%Z.
Proof.
  intros tumble o cs a c e E I J P. destruct (run_calls_spec _ _ _ _ E) as [Ai _]. apply imported_length; auto. eapply (proj2 (lits_ok _ _ Ai c e I J)).
Qed.
(** The limit is not handled if the largest external variable is used itself: then factoring breaks an assertion as soon as it
    needs a new variable, instead of giving up. *)
Theorem C54_limit_refuted : exists cs a, run_calls true all_on cs kissat_init = Ret a /\
  (forall e, In e (added cs) -> (Z.abs e <= EXTERNAL_MAX_VAR)%Z) /\
  forall d, d_imports d = imports a -> fresh_literal d = Undef.
Proof.
  set (es := [EXTERNAL_MAX_VAR; 1; 0]%Z). destruct (C46_adding_partial true all_on es) as (a & E); [unfold es, EXTERNAL_MAX_VAR; intros e [<-|[<-|[<-|[]]]]; lia|].
  exists (map Add es), a. splits; auto.
  - unfold es, EXTERNAL_MAX_VAR. cbn [map added]. intros e [<-|[<-|[<-|[]]]]; lia.
  - intros d Ed. apply fresh_too_many. rewrite Ed. apply (uses_all true all_on (map Add es) a [EXTERNAL_MAX_VAR; 1%Z]); auto; [now left|now left|].
    unfold EXTERNAL_MAX_VAR. lia.
Qed.
Print Assumptions C54_limit_refuted.

(** ** Examples *)
(** The clauses before and after factoring, the external variables, and the lines of the proof, the last one first. *)
Definition factor_of (cs : list (list Z)) (chs : list choice) (bound : nat) (schedule : list (lit * list lit)) : option (nat * nat * list Z * list (list lit) * list (line lit)) :=
  match reach false all_on (clauses cs) chs with
  | Some (a, s0) => match search_propagate all_on s0 with
    | Ret (s1, None) => match flush_to_root all_on s1 with
      | Ret (true, s) => match factor bound (fun _ => true) schedule s a with
        | Ret d => if (Z.of_nat (length (imports a)) <=? EXTERNAL_MAX_VAR)%Z then Some (number_before s, number_after d, d_exports d, FactorFacts.ddb d, steps (d_sol d)) else None
        | _ => None end
      | _ => None end
    | _ => None end
  | None => None
  end.
Lemma factor_of_state : forall cs chs bound schedule r, factor_of cs chs bound schedule = Some r ->
  exists a s d, at_factor false all_on (clauses cs) a s /\ factor bound (fun _ => true) schedule s a = Ret d.
Proof.
  intros cs chs bound schedule r H. unfold factor_of in H. destruct (reach false all_on (clauses cs) chs) as [[a s0]|] eqn:R; [|discriminate].
  destruct (search_propagate all_on s0) as [[s1 [c|]]| | |] eqn:P; try discriminate.
  destruct (flush_to_root all_on s1) as [[[] s]| | |] eqn:F; try discriminate.
  destruct (factor bound (fun _ => true) schedule s a) as [d| | |] eqn:B; try discriminate.
  destruct (_ <=? _)%Z eqn:L; [|discriminate]. apply Z.leb_le in L.
  exists a, s, d. splits; auto. split; auto. exists s0, s1. splits; auto. now apply reach_searching in R.
Qed.
(** The clauses with 1, 2, 3 and one of 4, 5, 6 are replaced: 9 clauses become 6. *)
Example C54_binary : factor_of [[1; 4]; [1; 5]; [1; 6]; [2; 4]; [2; 5]; [2; 6]; [3; 4]; [3; 5]; [3; 6]; [1; -6]]%Z [] 2 [(0, [2; 4])] =
  Some (10, 7, [1; 2; 3; 4; 5; 6; 7]%Z, [[0; 11]; [0; 12]; [2; 12]; [4; 12]; [6; 13]; [8; 13]; [10; 13]],
    [Deleted [0; 10]; Deleted [0; 8]; Deleted [0; 6]; Deleted [2; 10]; Deleted [2; 8]; Deleted [2; 6]; Deleted [4; 10]; Deleted [4; 8]; Deleted [4; 6];
     Added [13; 10]; Added [13; 8]; Added [13; 6]; Added [12; 0]; Added [12; 2]; Added [12; 4]]).
Proof. vm_compute. reflexivity. Qed.
(** The clauses only become fewer by three, which is not more than the bound. *)
Example C54_bound : factor_of [[1; 4]; [1; 5]; [1; 6]; [2; 4]; [2; 5]; [2; 6]; [3; 4]; [3; 5]; [3; 6]; [1; -6]]%Z [] 3 [(0, [2; 4])] =
  Some (10, 10, [1; 2; 3; 4; 5; 6]%Z, [[0; 6]; [0; 8]; [0; 10]; [0; 11]; [2; 6]; [2; 8]; [2; 10]; [4; 6]; [4; 8]; [4; 10]], []).
Proof. vm_compute. reflexivity. Qed.
(** Large clauses, and a binary clause which occurs twice.  The literal 3 has only two of the clauses of 1 and 2; whether it is a factor
    depends on the order. *)
Definition ternary : list (list Z) := [[1; 4; 5]; [1; 6; 7]; [1; -4; -6]; [5; 2; 4]; [2; 7; 6]; [-4; 2; -6]; [3; -4; -6]; [4; 3; 5]; [3; 1]; [1; 3]]%Z.
Example C54_ternary : factor_of ternary [] 0 [(0, [2; 4])] =
  Some (10, 8, [1; 2; 3; 4; 5; 6; 7; 8]%Z, [[0; 4]; [0; 14]; [2; 14]; [4; 7; 11]; [6; 4; 8]; [15; 8; 6]; [15; 12; 10]; [15; 7; 11]],
    [Deleted [0; 7; 11]; Deleted [0; 10; 12]; Deleted [0; 6; 8]; Deleted [7; 2; 11]; Deleted [2; 12; 10]; Deleted [8; 2; 6];
     Added [15; 7; 11]; Added [15; 12; 10]; Added [15; 8; 6]; Added [14; 0]; Added [14; 2]; Deleted [0; 4]]).
Proof. vm_compute. reflexivity. Qed.
Example C54_order : factor_of ternary [ChDecide 1] 0 [(4, [2; 0]); (0, [2; 4])] =
  Some (10, 8, [1; 2; 3; 4; 5; 6; 7; 8]%Z, [[0; 4]; [0; 14]; [2; 14]; [4; 14]; [10; 12; 0]; [2; 12; 10]; [15; 7; 11]; [15; 6; 8]],
    [Deleted [6; 4; 8]; Deleted [4; 7; 11]; Deleted [8; 2; 6]; Deleted [7; 2; 11]; Deleted [6; 8; 0]; Deleted [7; 11; 0];
     Added [15; 6; 8]; Added [15; 7; 11]; Added [14; 4]; Added [14; 2]; Added [14; 0]; Deleted [0; 4]]).
Proof. vm_compute. reflexivity. Qed.
