(** A fresh variable. *)
From Coq Require Import ZArith List Bool Lia Arith Permutation.
From Coq Require Import ZifyBool ZifyNat.
From Verif Require Import Base Hoare SpecSat Lit Sem Solver Api Eliminate Factor FactorFacts.
From Verif Require Inv DenseFacts ApiFacts.
Import ListNotations.
Open Scope nat_scope.
Open Scope outcome_scope.

(** The state after a new variable has been added. *)
Record enlarges (d d' : dense) : Prop := {
  en_inv : finv d';
  en_vars : vars (d_sol d') = S (vars (d_sol d));
  en_active : forall i, active (d_sol d') i = if i =? vars (d_sol d) then true else active (d_sol d) i;
  en_values : forall l, values (d_sol d') l = values (d_sol d) l;
  en_inconsistent : inconsistent (d_sol d') = inconsistent (d_sol d);
  en_steps : steps (d_sol d') = steps (d_sol d);
  en_arena : arena (d_sol d') = arena (d_sol d);
  en_occs : forall l, d_occs d' l = d_occs d l;
  en_ddb : ddb d' = ddb d;
  en_imports : d_imports d' = d_imports d ++ [mk_import (2 * vars (d_sol d)) true true false];
  en_exports : d_exports d' = d_exports d ++ [Z.of_nat (length (d_imports d))] }.

Lemma occs_above : forall d l, finv d -> 2 * vars (d_sol d) <= l -> d_occs d l = [].
Proof.
  intros d l F L. destruct (d_occs d l) as [|[b|r] ws] eqn:E; auto; exfalso.
  - assert (I : In (DBinary b) (d_occs d l)) by (rewrite E; now left). apply (fi_bin _ F) in I. lia.
  - assert (I : In (DLarge r) (d_occs d l)) by (rewrite E; now left). destruct (fi_large _ F _ _ I) as (c & A & [G _] & C & _).
    pose proof (fi_range _ F r c l A G C). lia.
Qed.
Lemma values_above : forall d l, finv d -> 2 * vars (d_sol d) <= l -> values (d_sol d) l = None.
Proof. intros d l F L. destruct (values (d_sol d) l) eqn:E; auto. assert (l < 2 * vars (d_sol d)); [apply (fi_val _ F); congruence|lia]. Qed.
Lemma imports_some : forall d, finv d -> 0 < vars (d_sol d) -> 0 < length (d_imports d).
Proof.
  intros d F V. destruct (ApiFacts.m_exp _ (fi_map _ F) 0) as (e & _ & _ & r & R & _); [exact V|]. cbn in R.
  assert (e < length (d_imports d)) by (apply nth_error_Some; congruence). lia.
Qed.


Definition fresh_sol (s : solver) : solver :=
  set_vars (S (vars s))
    (set_active (upd (active s) (vars s) false)
      (set_values (upd (upd (values s) (2 * vars s) None) (S (2 * vars s)) None)
        (set_assigned (upd (assigned s) (vars s) no_asg)
          (set_watches (upd (upd (watches s) (2 * vars s) []) (S (2 * vars s)) []) s)))).
Lemma lset_last : forall A (l : list A) x y, lset (l ++ [x]) (length l) y = l ++ [y].
Proof. intros A l x y. induction l as [|i l IH]; cbn [length app lset]; [reflexivity|]. f_equal. exact IH. Qed.
Lemma adjust_exports_sol : forall e x a a', adjust_exports e x a = Ret a' ->
  sol a' = fresh_sol (sol a) /\ exports a' = lset (exports a ++ repeat 0%Z (S (vars (sol a)) - length (exports a))) (vars (sol a)) (Z.of_nat e).
Proof.
  intros e x a a'. unfold adjust_exports, enlarge_variables. generalize (Z.of_nat (S (vars (sol a))) <=? INTERNAL_MAX_VAR + 1)%Z. intros b W.
  destruct b; cbn [oassert obind] in W; [|discriminate]. set (s1 := set_vars _ _) in W.
  match type of W with Ret ?y = Ret _ => assert (E : a' = y) by congruence end. rewrite E. split; reflexivity.
Qed.
Lemma adjust_last : forall d, adjust_imports (length (d_imports d)) (dapi d) = set_imports (d_imports d ++ [no_import]) (dapi d).
Proof. intros d. unfold adjust_imports. cbn [dapi imports]. replace (S (length (d_imports d)) - length (d_imports d)) with 1 by lia. reflexivity. Qed.
Lemma external_nat : forall n, external_index (Z.of_nat n) = n.
Proof. intros n. unfold external_index. lia. Qed.

Lemma import_fresh : forall d, finv d -> 0 < vars (d_sol d) -> (Z.of_nat (length (d_imports d)) < EXTERNAL_MAX_VAR)%Z ->
  exists a, import_literal (Z.of_nat (length (d_imports d))) true (dapi d) = Ret (2 * vars (d_sol d), a) /\
    sol a = fresh_sol (d_sol d) /\ ApiFacts.minv a /\
    imports a = d_imports d ++ [mk_import (2 * vars (d_sol d)) true true false] /\ exports a = d_exports d ++ [Z.of_nat (length (d_imports d))].
Proof.
  intros d F V Le. pose proof (fi_map _ F) as M. pose proof (imports_some d F V) as Li. unfold import_literal. rewrite external_nat.
  destruct (ApiFacts.adjust_imports_ext (length (d_imports d)) (dapi d) M) as (_ & M1 & _ & _). rewrite adjust_last in *.
  remember (set_imports (d_imports d ++ [no_import]) (dapi d)) as a1 eqn:Ea.
  assert (I1 : imports a1 = d_imports d ++ [no_import]) by (rewrite Ea; reflexivity).
  assert (S1 : sol a1 = d_sol d) by (rewrite Ea; reflexivity).
  assert (X1 : exports a1 = d_exports d) by (rewrite Ea; reflexivity). clear Ea.
  assert (En : nth_error (imports a1) (length (d_imports d)) = Some no_import).
  { rewrite I1, nth_error_app2 by lia. rewrite Nat.sub_diag. reflexivity. }
  rewrite En. cbn [no_import i_eliminated i_imported].
  assert (Vi : ApiFacts.valid_index (length (d_imports d))) by (unfold ApiFacts.valid_index; lia).
  pose proof (ApiFacts.adjust_exports_spec (length (d_imports d)) true a1 no_import M1 En eq_refl Vi) as W. apply wp_inv in W as (a2 & W & _ & M2 & E2). rewrite W. cbn [obind].
  apply adjust_exports_sol in W as (S2 & P2). rewrite S1 in *. pose proof (ApiFacts.m_len _ M) as L. cbn [dapi exports sol] in L. rewrite X1, L in P2. rewrite I1, lset_last in E2.
  assert (En2 : nth_error (imports a2) (length (d_imports d)) = Some (mk_import (2 * vars (d_sol d)) true true false)).
  { rewrite E2, nth_error_app2 by lia. rewrite Nat.sub_diag. reflexivity. }
  rewrite En2. cbn [i_imported oassert obind i_lit]. replace (Z.of_nat (length (d_imports d)) <? 0)%Z with false by lia. exists a2. splits; auto.
  rewrite P2. replace (S (vars (d_sol d)) - vars (d_sol d)) with 1 by lia. cbn [repeat].
  rewrite <- L. apply lset_last.
Qed.

Lemma fresh_values : forall d l, finv d -> values (fresh_sol (d_sol d)) l = values (d_sol d) l.
Proof.
  intros d l F. unfold fresh_sol. cbn [values set_vars set_active set_values]. unfold upd. destruct (Nat.eqb_spec l (S (2 * vars (d_sol d)))); [rewrite values_above; auto; lia|].
  destruct (Nat.eqb_spec l (2 * vars (d_sol d))); [rewrite values_above; auto; lia|]. reflexivity.
Qed.

Lemma enlarges_spec : forall d a, finv d -> sol a = fresh_sol (d_sol d) -> ApiFacts.minv a ->
    imports a = d_imports d ++ [mk_import (2 * vars (d_sol d)) true true false] -> exports a = d_exports d ++ [Z.of_nat (length (d_imports d))] ->
  enlarges d (mk_dense (set_unassigned (S (unassigned (sol a))) (set_active (upd (active (sol a)) (vars (d_sol d)) true) (sol a)))
    (upd (upd (d_occs d) (2 * vars (d_sol d)) []) (S (2 * vars (d_sol d))) []) (d_marks d) (d_resolve_gate d) (d_extend d) (imports a) (exports a) (d_eliminated d) (d_gone d)).
Proof.
  intros d a F S2 M2 I2 P2. pose proof (fun l => fresh_values d l F) as Va. rewrite <- S2 in Va.
  match goal with |- enlarges _ ?x => set (d' := x) end. set (v := vars (d_sol d)) in *.
  assert (Oc : forall l, d_occs d' l = d_occs d l).
  { intros l. change (d_occs d' l) with (upd (upd (d_occs d) (2 * v) []) (S (2 * v)) [] l). unfold upd.
    destruct (Nat.eqb_spec l (S (2 * v))); [rewrite occs_above; auto; unfold v in *; lia|]. destruct (Nat.eqb_spec l (2 * v)); [rewrite occs_above; auto; unfold v in *; lia|]. reflexivity. }
  assert (Ar : arena (d_sol d') = arena (d_sol d)) by (change (arena (d_sol d')) with (arena (sol a)); rewrite S2; reflexivity).
  assert (Nr : next_ref (d_sol d') = next_ref (d_sol d)) by (change (next_ref (d_sol d')) with (next_ref (sol a)); rewrite S2; reflexivity).
  assert (Vs : vars (d_sol d') = S v) by (change (vars (d_sol d')) with (vars (sol a)); rewrite S2; reflexivity).
  constructor; auto.
  - constructor; rewrite ?Ar, ?Nr, ?Vs.
    + intros x y. rewrite !Oc. intros I. destruct (fi_bin _ F _ _ I) as (A & B & C & D). fold v in B, C. splits; auto; lia.
    + intros x. rewrite Oc. apply (fi_nodup _ F).
    + intros x r. rewrite Oc. intros I. destruct (fi_large _ F _ _ I) as (c & A & B & C & D). exists c. splits; auto. intros b. rewrite Oc. auto.
    + exact (fi_ref _ F).
    + exact (fi_len _ F).
    + exact (fi_lits _ F).
    + intros r c l A G I. pose proof (fi_range _ F r c l A G I) as H. fold v in H. lia.
    + intros l H. change (values (d_sol d') l) with (values (sol a) l) in H. rewrite Va in H. pose proof (fi_val _ F l H) as H'. fold v in H'. lia.
    + destruct M2 as [A B C D]. constructor; cbn [dapi exports imports sol d' d_exports d_imports d_sol vars set_unassigned set_active]; auto.
  - intros i. change (active (d_sol d')) with (upd (active (sol a)) v true). rewrite S2. unfold upd, fresh_sol. cbn [active set_vars set_active]. fold v. unfold upd. now destruct (i =? v).
  - change (inconsistent (d_sol d')) with (inconsistent (sol a)). now rewrite S2.
  - change (steps (d_sol d')) with (steps (sol a)). now rewrite S2.
  - unfold ddb. rewrite Ar, Nr, Vs. f_equal. unfold pairs. replace (2 * S v) with (2 * v + 2) by lia. rewrite seq_app, flat_map_app.
    cbn [seq flat_map Nat.add]. rewrite !Oc. change (v + (v + 0)) with (2 * v). rewrite !occs_above by (auto; fold v; lia). cbn [flat_map app]. rewrite app_nil_r.
    apply flat_map_same. intros i _. now rewrite Oc.
Qed.

Lemma fresh_literal_spec : forall d, finv d -> 0 < vars (d_sol d) -> (Z.of_nat (length (d_imports d)) <= EXTERNAL_MAX_VAR)%Z ->
  wp (fresh_literal d) (fun '(f, d') =>
    match f with None => d' = d /\ Z.of_nat (length (d_imports d)) = EXTERNAL_MAX_VAR
    | Some f => f = 2 * vars (d_sol d) /\ enlarges d d' /\ (Z.of_nat (length (d_imports d)) < EXTERNAL_MAX_VAR)%Z end).
Proof.
  intros d F V Le. unfold fresh_literal. apply wp_bind, wp_assert; [lia|].
  destruct (Z.eqb_spec (Z.of_nat (length (d_imports d))) EXTERNAL_MAX_VAR) as [E|E]; [apply wp_ret; auto|].
  change (mk_api (d_sol d) (d_imports d) (d_exports d) [] (fun _ => 0%Z) [] false false false false) with (dapi d).
  assert (Lt : (Z.of_nat (length (d_imports d)) < EXTERNAL_MAX_VAR)%Z) by lia.
  destruct (import_fresh d F V Lt) as (a & -> & S2 & M2 & I2 & P2). cbn [obind].
  rewrite I2 at 1. rewrite nth_error_app2, Nat.sub_diag by lia. cbn [nth_error i_imported i_extension andb oassert obind].
  unfold activate_literal. rewrite idx_even. apply wp_bind. apply wp_bind, wp_assert.
  { unfold is_unassigned. rewrite S2, fresh_values, values_above; auto. }
  assert (Ac : active (sol a) (vars (d_sol d)) = false) by (rewrite S2; unfold fresh_sol; cbn [active set_vars set_active]; apply upd_same). rewrite Ac. apply wp_ret. apply wp_ret. 
  split; [reflexivity|]. split; [|exact Lt]. rewrite neg_even. now apply enlarges_spec.
Qed.
