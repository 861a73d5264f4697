(** The state in which factoring starts. *)
From Coq Require Import ZArith List Bool Lia Arith Permutation.
From Coq Require Import ZifyBool ZifyNat.
From Verif Require Import Base Hoare SpecSat SpecDrat Lit Sem Solver Api Keeps AssignSpec PropLoop TransitiveFacts Eliminate Factor FactorFacts FactorFresh FactorApply FactorRun.
From Verif Require Inv DenseFacts ApiFacts DbFacts.
Import ListNotations.
Open Scope nat_scope.
Open Scope outcome_scope.

Lemma flush_in : forall l ws seen w, In w (fst (flush_literal l ws seen)) <-> exists b, w = DBinary b /\ In (WBinary b) ws /\ ~ In b seen.
Proof.
  intros l. induction ws as [|[o|o r] ws IH]; intros seen w; cbn [flush_literal].
  - split; [intros []|intros (b & _ & [] & _)].
  - destruct (existsb (Nat.eqb o) seen) eqn:E.
    + specialize (IH seen w). destruct (flush_literal l ws seen) as [k g]. cbn [fst] in *. rewrite IH. apply mem_In in E. split.
      * intros (b & A & B & C). exists b. splits; auto. now right.
      * intros (b & A & [B|B] & C); [injection B as <-; contradiction|]. eauto.
    + specialize (IH (o :: seen) w). destruct (flush_literal l ws (o :: seen)) as [k g]. cbn [fst] in *. apply mem_false in E. cbn [In]. rewrite IH. split.
      * intros [<-|(b & A & B & C)]; [exists o; splits; auto|]. exists b. splits; auto. intros X. apply C. now right.
      * intros (b & A & B & C). destruct (Nat.eq_dec o b) as [<-|N]; [left; auto|]. right. exists b. splits; auto.
        -- destruct B as [B|B]; auto. congruence.
        -- intros [X|X]; auto.
  - rewrite IH. split; intros (b & A & B & C); exists b; splits; auto; [now right|]. destruct B as [B|B]; auto. discriminate.
Qed.
Lemma flush_nodup : forall l ws seen, NoDup (fst (flush_literal l ws seen)).
Proof.
  intros l. induction ws as [|[o|o r] ws IH]; intros seen; cbn [flush_literal]; [constructor| |auto].
  destruct (existsb (Nat.eqb o) seen) eqn:E.
  - specialize (IH seen). now destruct (flush_literal l ws seen).
  - pose proof (IH (o :: seen)) as N. pose proof (flush_in l ws (o :: seen) (DBinary o)) as I. destruct (flush_literal l ws (o :: seen)) as [k g]. cbn [fst] in *.
    constructor; auto. rewrite I. intros (b & B & _ & C). injection B as <-. apply C. now left.
Qed.
Lemma flush_perm : forall l ws seen, Permutation (flat_map (Inv.binary_of l) ws) (flat_map (pair_of l) (fst (flush_literal l ws seen)) ++ snd (flush_literal l ws seen)).
Proof.
  intros l. induction ws as [|[o|o r] ws IH]; intros seen; cbn [flush_literal flat_map Inv.binary_of app]; auto.
  destruct (existsb (Nat.eqb o) seen) eqn:E.
  - specialize (IH seen). destruct (flush_literal l ws seen) as [k g]. cbn [fst snd] in *. destruct (l <? o); auto. cbn [app]. rewrite IH. apply Permutation_middle.
  - specialize (IH (o :: seen)). destruct (flush_literal l ws (o :: seen)) as [k g]. cbn [fst snd flat_map pair_of] in *. rewrite <- app_assoc. now apply Permutation_app_head.
Qed.
Lemma fold_del : forall cs s, fold_left (fun s c => del_step c s) cs s = set_steps (rev (map Deleted cs) ++ steps s) s.
Proof.
  induction cs as [|c cs IH]; intros s; cbn [fold_left map rev app]; [now destruct s|]. rewrite IH. unfold del_step. cbn [steps set_steps]. rewrite <- app_assoc. reflexivity.
Qed.

(** All binary and large clauses of the solver. *)
Definition all_clauses (s : solver) : list (list lit) := Inv.binaries (vars s) (watches s) ++ Inv.larges (next_ref s) (arena s).
Definition duplicates (s : solver) : list (list lit) := flat_map (fun l => snd (flush_literal l (watches s l) [])) (seq 0 (2 * vars s)).

Lemma enter_sol : forall s a, d_sol (enter_dense_mode s a) = set_steps (rev (map Deleted (duplicates s)) ++ steps s) s.
Proof. intros s a. unfold enter_dense_mode. cbn [d_sol]. apply fold_del. Qed.
Lemma enter_perm : forall s a, Permutation (all_clauses s) (duplicates s ++ ddb (enter_dense_mode s a)).
Proof.
  intros s a. unfold all_clauses, ddb. rewrite enter_sol. cbn [vars next_ref arena set_steps enter_dense_mode d_occs]. rewrite app_assoc. apply Permutation_app_tail.
  unfold Inv.binaries, pairs, duplicates.
  assert (G : forall ls, (forall l, In l ls -> l < 2 * vars s) -> Permutation (flat_map (fun l => flat_map (Inv.binary_of l) (watches s l)) ls)
    (flat_map (fun l => snd (flush_literal l (watches s l) [])) ls ++ flat_map (fun l => flat_map (pair_of l) (if l <? 2 * vars s then fst (flush_literal l (watches s l) []) else [])) ls)).
  { induction ls as [|l ls IH]; intros H; cbn [flat_map]; auto. rewrite (proj2 (Nat.ltb_lt l (2 * vars s))) by (apply H; now left).
    rewrite IH by (intros k K; apply H; now right). rewrite (flush_perm l (watches s l) []). 
    set (x := flat_map (pair_of l) _). set (y := snd _). set (z := flat_map _ ls). set (u := flat_map _ ls).
    rewrite (Permutation_app_comm x y). rewrite <- !app_assoc. apply Permutation_app_head. rewrite !app_assoc. apply Permutation_app_tail, Permutation_app_comm. }
  apply G. intros l L. apply in_seq in L. lia.
Qed.

Section Enter.
Variable orig : list (list lit).
Variable s : solver.
Variable a : api.
Hypothesis Root : at_root orig s.
Hypothesis M : ApiFacts.minv a.
Hypothesis Sh : Inv.shape s = Inv.shape (sol a).

Lemma enter_occs : forall l w, In w (d_occs (enter_dense_mode s a) l) <-> exists b, w = DBinary b /\ In (WBinary b) (watches s l).
Proof using Root.
  intros l w. cbn [enter_dense_mode d_occs]. destruct (Nat.ltb_spec l (2 * vars s)) as [L|L].
  - rewrite flush_in. split; intros (b & A & B); exists b; tauto.
  - split; [intros []|]. intros (b & _ & B). destruct Root as ((Co & _) & _). destruct (Inv.wi_bin _ _ _ _ _ (co_w _ _ _ Co) _ _ B) as (_ & [X _] & _). lia.
Qed.
Lemma enter_inv : finv (enter_dense_mode s a).
Proof using Root M Sh.
  pose proof Root as ((Co & _) & _). pose proof (co_w _ _ _ Co) as W. pose proof (co_c _ _ _ Co) as C. pose proof (co_v _ _ _ Co) as V.
  assert (Ev : vars s = vars (sol a)) by (unfold Inv.shape in Sh; congruence).
  constructor; rewrite ?enter_sol; cbn [vars arena next_ref values set_steps].
  - intros x y I. apply enter_occs in I as (b & E & I). injection E as <-. destruct (Inv.wi_bin _ _ _ _ _ W _ _ I) as (A & [B _] & [D _]). splits; auto.
    apply enter_occs. exists x. split; auto. now apply (Inv.wi_sym _ _ _ _ _ W).
  - intros x. cbn [enter_dense_mode d_occs]. destruct (x <? 2 * vars s); [apply flush_nodup|constructor].
  - intros x r I. apply enter_occs in I as (b & E & _). discriminate.
  - exact (Inv.ci_ref _ C).
  - exact (Inv.ci_len _ C).
  - exact (Inv.ci_nodup _ C).
  - intros r c l A G I. apply Inv.dom_lt. now apply (Inv.ci_range _ C r c).
  - intros l H. apply Inv.dom_lt. now apply (Inv.ti_range _ V).
  - unfold dapi. rewrite enter_sol. destruct M as [M1 M2 M3 M4]. constructor; cbn [sol vars exports imports set_steps enter_dense_mode d_imports d_exports]; rewrite ?Ev; auto.
Qed.
Lemma enter_holds : forall c, holds (enter_dense_mode s a) c <-> entry s c false.
Proof using Root.
  intros c. unfold holds, entry. rewrite enter_sol. cbn [arena set_steps]. split.
  - intros [(x & y & -> & I)|(r & k & A & [B D] & ->)].
    + left. apply enter_occs in I as (b & E & I). injection E as <-. exists x, y. auto.
    + right. exists r, k. auto.
  - intros [(x & y & -> & _ & I)|(r & k & A & B & D & ->)].
    + left. exists x, y. split; auto. apply enter_occs. eauto.
    + right. exists r, k. splits; auto. split; auto.
Qed.
End Enter.

Definition connect_one (candidate : nat -> bool) (d : dense) (r : nat) : dense :=
  match arena (d_sol d) r with
  | Some c => if negb (c_garbage c) && negb (c_redundant c) && candidate r then connect_clause r (c_lits c) d else d
  | None => d end.
Definition same_but_large (d d' : dense) : Prop :=
  d_sol d' = d_sol d /\ d_imports d' = d_imports d /\ d_exports d' = d_exports d /\
  forall l, flat_map (pair_of l) (d_occs d' l) = flat_map (pair_of l) (d_occs d l).
Lemma connect_one_spec : forall candidate d r, finv d -> (forall l q, In (DLarge q) (d_occs d l) -> q < r) ->
  let d' := connect_one candidate d r in finv d' /\ (forall l q, In (DLarge q) (d_occs d' l) -> q < S r) /\ same_but_large d d' /\
    forall l b, In (DBinary b) (d_occs d' l) <-> In (DBinary b) (d_occs d l).
Proof.
  intros candidate d r F H. unfold connect_one.
  assert (Same : finv d /\ (forall l q, In (DLarge q) (d_occs d l) -> q < S r) /\ same_but_large d d /\ forall l b, In (DBinary b) (d_occs d l) <-> In (DBinary b) (d_occs d l)).
  { splits; auto; [|unfold same_but_large; splits; auto|tauto]. intros l q I. specialize (H l q I). lia. }
  destruct (arena (d_sol d) r) as [c|] eqn:E; [|exact Same]. destruct (negb (c_garbage c) && negb (c_redundant c) && candidate r) eqn:P; [|exact Same].
  assert (Lv : live c) by (unfold live; destruct (c_garbage c), (c_redundant c); try discriminate; auto). destruct Lv as [G Rd]. clear P Same.
  pose proof (fi_lits _ F r c E G) as Nd. destruct (connect_occs r (c_lits c) d Nd) as (o & -> & O). cbv zeta.
  assert (Oc : forall l w, In w (o l) <-> In w (d_occs d l) \/ (In l (c_lits c) /\ w = DLarge r)).
  { intros l w. rewrite O, in_app_iff. destruct (existsb (Nat.eqb l) (c_lits c)) eqn:X.
    - apply mem_In in X. cbn [In]. intuition congruence.
    - apply mem_false in X. cbn [In]. tauto. }
  splits.
  - constructor; cbn [d_sol d_occs set_d_occs].
    + intros x y I. apply Oc in I as [I|[_ I]]; [|discriminate]. destruct (fi_bin _ F _ _ I) as (A & B & C & D). splits; auto. apply Oc. auto.
    + intros x. rewrite O. pose proof (fi_nodup _ F x) as Nx. destruct (existsb (Nat.eqb x) (c_lits c)); [|now rewrite app_nil_r].
      apply (Permutation_NoDup (l := DLarge r :: d_occs d x)); [apply Permutation_cons_append|]. constructor; auto. intros I. specialize (H x r I). lia.
    + intros x q I. apply Oc in I as [I|[I X]].
      * destruct (fi_large _ F _ _ I) as (k & A & B & C & D). exists k. splits; auto. intros b Ib. apply Oc. auto.
      * injection X as ->. exists c. splits; auto; [split; auto|]. intros b Ib. apply Oc. auto.
    + exact (fi_ref _ F).
    + exact (fi_len _ F).
    + exact (fi_lits _ F).
    + exact (fi_range _ F).
    + exact (fi_val _ F).
    + exact (fi_map _ F).
  - intros l q I. cbn [d_occs set_d_occs] in I. apply Oc in I as [I|[_ I]]; [specialize (H l q I); lia|]. injection I as ->. lia.
  - unfold same_but_large. cbn [d_sol d_occs set_d_occs d_imports d_exports]. splits; auto. intros l. rewrite O. apply flat_large.
  - intros l b. cbn [d_occs set_d_occs]. rewrite Oc. split; [intros [I|[_ I]]; auto; discriminate|auto].
Qed.
Lemma connect_spec : forall candidate d, finv d -> (forall l q, ~ In (DLarge q) (d_occs d l)) ->
  let d' := connect_clauses_to_factor candidate d in finv d' /\ d_sol d' = d_sol d /\ d_imports d' = d_imports d /\ d_exports d' = d_exports d /\ ddb d' = ddb d /\
    forall c, holds d' c <-> holds d c.
Proof.
  intros candidate d F N. unfold connect_clauses_to_factor. change (fun d0 r => match arena (d_sol d0) r with Some c => _ | None => d0 end) with (connect_one candidate).
  assert (G : forall m k d, finv d -> (forall l q, In (DLarge q) (d_occs d l) -> q < k) -> let d' := fold_left (connect_one candidate) (seq k m) d in
    finv d' /\ same_but_large d d' /\ forall l b, In (DBinary b) (d_occs d' l) <-> In (DBinary b) (d_occs d l)).
  { clear. induction m as [|m IH]; intros k d F H; cbn [seq fold_left].
    - splits; auto; [unfold same_but_large; splits; auto|tauto].
    - destruct (connect_one_spec candidate d k F H) as (F1 & H1 & (A1 & A2 & A3 & A4) & B). destruct (IH (S k) _ F1 H1) as (F2 & (C1 & C2 & C3 & C4) & D). splits; auto.
      + unfold same_but_large. splits; try congruence.
      + intros l b. now rewrite D. }
  destruct (G (next_ref (d_sol d)) 0 d F) as (F' & (A1 & A2 & A3 & A4) & B). { intros l q I. now apply N in I. }
  cbv zeta. splits; auto.
  - unfold ddb. rewrite A1. f_equal. apply pairs_large. exact A4.
  - intros c. unfold holds. rewrite A1. split; (intros [(x & y & E & I)|I]; [left|now right]); exists x, y; split; auto; now apply B.
Qed.
